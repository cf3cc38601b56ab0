(** Property C81, continued: the Ohm step takes the classical fourth-order Runge-Kutta step of the projected system. *)
From Coq Require Import Reals Lra Lia ZArith List Bool Psatz FunctionalExtensionality.
From Verif Require Import PyStr Harm2d Harm2dLayout Harm2dSum Harm2dProps Harm2dMoments Vfp2d Vfp2dOps Vfp2dField VfpOhm VfpOhmProps VfpOhmStep OhmBalance Rk RSum Pic PicProofs PicFourier Dft.
Import ListNotations.
Local Open Scope R_scope.

(** ** Specification: the state (f, B) as one vector of real numbers, and the rate of the projected system *)
Inductive oidx := IF (x y i j : nat) (im : bool) | IB (x y c : nat).
Definition enc (s : dst * vfld) (p : oidx) : R := match p with
  | IF x y i j im => if im then snd (fst s x y i j) else fst (fst s x y i j)
  | IB x y c => vcomp (snd s x y) c end.
Definition dec (Y : oidx -> R) : dst * vfld := ((fun x y i j => (Y (IF x y i j false), Y (IF x y i j true))), (fun x y => (Y (IB x y 0), Y (IB x y 1), Y (IB x y 2)))).
(** The distribution of a stage: its current set to Ampere's, its isotropic part made nonnegative. *)
Definition fixed (O : ostep) (s : dst * vfld) : dst := os_pos O (os_project O (fst s) (snd s)).
Definition ohm_rate (O : ostep) (t : R) (Y : oidx -> R) : oidx -> R := let s := dec Y in enc (os_r O t (fixed O s) (snd s), os_rb O t (fixed O s) (snd s)).

Lemma dec_enc s : dec (enc s) = s.
Proof.
  destruct s as [f b]. unfold dec, enc. cbn [fst snd]. apply (f_equal2 (@pair dst vfld)).
  - extensionality x. extensionality y. extensionality i. extensionality j. now destruct (f x y i j).
  - extensionality x. extensionality y. now destruct (b x y) as [[? ?] ?].
Qed.
Lemma enc_out (s : dst * vfld) x y c : (3 <= c)%nat -> enc s (IB x y c) = v_z (snd s x y).
Proof. destruct c as [|[|[|c]]]; try lia; reflexivity. Qed.
Lemma dec_ext Y Z : (forall x y i j im, Y (IF x y i j im) = Z (IF x y i j im)) -> (forall x y c, (c < 3)%nat -> Y (IB x y c) = Z (IB x y c)) -> dec Y = dec Z.
Proof.
  intros A B. unfold dec. apply (f_equal2 (@pair dst vfld)).
  - extensionality x. extensionality y. extensionality i. extensionality j. now rewrite !A.
  - extensionality x. extensionality y. rewrite !B by lia. reflexivity.
Qed.
(** A state that is already projected and nonnegative is left alone. *)
Lemma project_fix O f b : (1 <= h_L (os_V O))%nat -> (1 <= h_M (os_V O))%nat -> 0 < os_tiny O -> (forall x y, os_tiny O <= o_resp (os_V O) f x y) -> os_project O (os_project O f b) b = os_project O f b.
Proof.
  intros HL HM Ht HR. set (V := os_V O) in *. set (g := os_project O f b). extensionality x. extensionality y. extensionality i. extensionality j. unfold os_project at 1. fold V.
  destruct (project_some (os_tiny O) (h_L V) (h_M V) (h_nv V) (h_v V) (h_dv V) (f x y) (os_target O b x y) HL) as [q Hq].
  destruct (C81_projection (os_tiny O) (h_L V) (h_M V) (h_nv V) (h_v V) (h_dv V) (f x y) (os_target O b x y) Ht HL (HR x y)) as (q' & Hq' & _ & C & _). rewrite Hq in Hq'. injection Hq' as <-. specialize (C HM).
  assert (G : g x y = q) by (unfold g, os_project; fold V; now rewrite Hq). rewrite G.
  unfold project. destruct (index (h_L V) (h_M V) 1 0 <? 0)%Z; [reflexivity|]. cbv zeta. rewrite C.
  set (T := os_target O b x y). assert (Z : vadd T (vscal (-1) T) = (0, 0, 0)) by (apply vec3_eq; destruct T as [[? ?] ?]; unfold vadd, vscal, v_x, v_y, v_z; cbn; ring). rewrite Z. unfold v_x, v_y, v_z. cbn [fst snd].
  destruct (Z.of_nat i =? _)%Z; [apply cplx_eq; unfold cadd, Rdiv; cbn [fst snd]; ring|]. destruct (Z.of_nat i =? _)%Z; [|reflexivity]. apply cplx_eq; unfold cadd, cscal; cbn [fst snd]; ring.
Qed.
Lemma project_f00 O f b x y j : (1 <= h_L (os_V O))%nat -> re_mode (h_L (os_V O)) (h_M (os_V O)) (os_project O f b x y) 0 0 j = re_mode (h_L (os_V O)) (h_M (os_V O)) (f x y) 0 0 j.
Proof.
  intros HL. set (V := os_V O) in *. destruct (project_some (os_tiny O) (h_L V) (h_M V) (h_nv V) (h_v V) (h_dv V) (f x y) (os_target O b x y) HL) as [q Hq].
  unfold os_project. fold V. rewrite Hq. unfold re_mode. f_equal. exact (project_gf _ _ _ _ _ _ _ _ _ j 0 0 Hq).
Qed.
Lemma pos_fix O f : (forall x y i j, (Z.of_nat i =? index (h_L (os_V O)) (h_M (os_V O)) 0 0)%Z = true -> f x y i j = (re_mode (h_L (os_V O)) (h_M (os_V O)) (f x y) 0 0 j, 0)) ->
  (forall x y j, 0 <= re_mode (h_L (os_V O)) (h_M (os_V O)) (f x y) 0 0 j) -> 0 < os_tiny O -> (forall x y, os_tiny O < dens (os_V O) f x y) -> os_pos O f = f.
Proof.
  intros H1 H2 Ht Hn. unfold os_pos. destruct (os_positive O); [|reflexivity]. set (V := os_V O) in *. extensionality x. extensionality y. extensionality i. extensionality j. unfold positivity.
  destruct (Z.of_nat i =? index (h_L V) (h_M V) 0 0)%Z eqn:E; [|reflexivity]. rewrite (H1 x y i j E). f_equal. unfold pos_f00. cbv zeta.
  set (a := re_mode (h_L V) (h_M V) (f x y) 0 0).
  assert (EP : forall k, Rmax (a k) 0 = a k) by (intros k; apply Rmax_left; apply H2).
  rewrite EP. rewrite (rsum_ext (h_nv V) (fun k => Rmax (a k) 0 * (4 * PI * h_v V k ^ 2 * h_dv V)) (fun k => a k * (4 * PI * h_v V k ^ 2 * h_dv V))) by (intros; rewrite EP; reflexivity).
  assert (D : rsum (h_nv V) (fun k => a k * (4 * PI * h_v V k ^ 2 * h_dv V)) = dens V f x y).
  { unfold dens, density2. fold a. rewrite (rsum_ext (h_nv V) _ (fun k => (4 * PI * h_dv V) * (a k * h_v V k ^ 2))) by (intros; ring). rewrite rsum_scal. ring. }
  rewrite D. specialize (Hn x y). destruct (Rlt_dec 0 (dens V f x y)); [|lra]. destruct (Rlt_dec (os_tiny O) (dens V f x y)); [|lra]. rewrite Rmax_left by lra. field. lra.
Qed.
(** From the first projected state y0 of the step: the stages are the four of the classical method on the projected system, and the
    state after them is the classical step, projected once more, made nonnegative and collided for half a step. *)
Theorem C81_runge_kutta : forall O t s, (1 <= h_L (os_V O))%nat -> (1 <= h_M (os_V O))%nat -> 0 < os_tiny O -> 0 < h_dv (os_V O) ->
  let V := os_V O in let dt := os_dt O in let f0 := os_pos O (os_coll O t (1 / 2 * dt) (s_f s)) in let y0 := os_project O f0 (s_b s) in
  (forall x y, os_tiny O <= o_resp V f0 x y) -> (forall x y, os_tiny O < dens V f0 x y) ->
  let y1 := dec (rk_step rk_four (ohm_rate O) t dt (enc (y0, s_b s))) in
  os_stages O t s = (os_pos O (os_coll O (t + dt) (1 / 2 * dt) (fixed O y1)), snd y1).
Proof.
  intros O t s HL HM Ht Hd V dt f0 y0 HR Hn y1. set (b := s_b s) in *.
  assert (FX : fixed O (y0, b) = y0).
  { unfold fixed. cbn [fst snd]. unfold y0 at 1. rewrite project_fix by assumption. fold y0. destruct (os_positive O) eqn:EP; [|unfold os_pos; rewrite EP; reflexivity].
    assert (E0 : forall x y i j, (Z.of_nat i =? index (h_L V) (h_M V) 0 0)%Z = true -> y0 x y i j = f0 x y i j).
    { intros x y i j E. unfold y0, os_project. fold V. destruct (project_some (os_tiny O) (h_L V) (h_M V) (h_nv V) (h_v V) (h_dv V) (f0 x y) (os_target O b x y) HL) as [q Hq]. rewrite Hq. unfold project in Hq. destruct (index (h_L V) (h_M V) 1 0 <? 0)%Z; [discriminate|]. cbv zeta in Hq. injection Hq as <-.
      apply Z.eqb_eq in E. change (index (h_L V) (h_M V) 0 0) with (index (h_L V) (h_M V) (Z.of_nat 0) (Z.of_nat 0)) in E.
      destruct (index_cases (h_L V) (h_M V) 0 0) as [(_ & _ & N0)|(N0 & _)]; [|assert (retained (h_L V) (h_M V) 0 0 = true) by (apply retained_iff; lia); congruence].
      assert (X1 : (Z.of_nat i =? index (h_L V) (h_M V) 1 0)%Z = false).
      { apply Z.eqb_neq. intros K. change (index (h_L V) (h_M V) 1 0) with (index (h_L V) (h_M V) (Z.of_nat 1) (Z.of_nat 0)) in K. destruct (index_cases (h_L V) (h_M V) 1 0) as [(_ & _ & N1)|(_ & N1)]; [|lia]. rewrite <- K, E, N0 in N1. discriminate. }
      assert (X2 : (Z.of_nat i =? index (h_L V) (h_M V) 1 1)%Z = false).
      { apply Z.eqb_neq. intros K. change (index (h_L V) (h_M V) 1 1) with (index (h_L V) (h_M V) (Z.of_nat 1) (Z.of_nat 1)) in K. destruct (index_cases (h_L V) (h_M V) 1 1) as [(_ & _ & N1)|(_ & N1)]; [|lia]. rewrite <- K, E, N0 in N1. discriminate. }
      now rewrite X1, X2. }
    assert (EM : forall x y j, re_mode (h_L V) (h_M V) (y0 x y) 0 0 j = re_mode (h_L V) (h_M V) (f0 x y) 0 0 j) by (intros; apply project_f00; exact HL).
    set (c0' := os_coll O t (1 / 2 * dt) (s_f s)) in *. assert (EF : forall x y, f0 x y = positivity (os_tiny O) (h_L V) (h_M V) (h_nv V) (h_v V) (h_dv V) (c0' x y)) by (intros; unfold f0, os_pos; rewrite EP; reflexivity).
    assert (MM : forall x y j, re_mode (h_L V) (h_M V) (f0 x y) 0 0 j = pos_f00 (os_tiny O) (h_nv V) (h_v V) (h_dv V) (re_mode (h_L V) (h_M V) (c0' x y) 0 0) j).
    { intros x y j. rewrite EF. change (re_mode (h_L V) (h_M V) ?q 0 0 j) with (fst (gf (h_L V) (h_M V) (fun i => q i j) 0 0)). rewrite pos_gf. reflexivity. }
    apply pos_fix; auto.
    - intros x y i j E. change (h_L (os_V O)) with (h_L V) in *. change (h_M (os_V O)) with (h_M V) in *. rewrite E0 by exact E. rewrite EM, MM, EF. unfold positivity. now rewrite E.
    - intros x y j. change (h_L (os_V O)) with (h_L V). change (h_M (os_V O)) with (h_M V). rewrite EM, EF. apply (proj1 (C81_positivity (os_tiny O) (h_L V) (h_M V) (h_nv V) (h_v V) (h_dv V) (c0' x y) Ht Hd)).
    - intros x y. fold V. replace (dens V y0 x y) with (dens V f0 x y); [apply Hn|]. unfold dens, density2. f_equal. f_equal. apply rsum_ext. intros j _. now rewrite EM. }
  set (df1 := os_r O t y0 b). set (db1 := os_rb O t y0 b).
  set (K1 := enc (df1, db1)).
  assert (R1 : ohm_rate O (t + 0 * dt) (comb dt [] [] (enc (y0, b))) = K1).
  { unfold ohm_rate. replace (dec (comb dt [] [] (enc (y0, b)))) with (y0, b); [cbv zeta; rewrite FX; replace (t + 0 * dt) with t by ring; reflexivity|].
    symmetry. rewrite <- (dec_enc (y0, b)). apply dec_ext; intros; unfold comb; cbn [combine map lsum]; rewrite dec_enc; ring. }
  set (b2 := fadd b (fscal (1 / 2 * dt) db1)). set (s2 := (dadd y0 (1 / 2 * dt) df1, b2)).
  set (df2 := os_r O (t + 1 / 2 * dt) (fixed O s2) b2). set (db2 := os_rb O (t + 1 / 2 * dt) (fixed O s2) b2). set (K2 := enc (df2, db2)).
  assert (R2 : ohm_rate O (t + 1 / 2 * dt) (comb dt [1 / 2] [K1] (enc (y0, b))) = K2).
  { unfold ohm_rate. replace (dec (comb dt [1 / 2] [K1] (enc (y0, b)))) with s2; [reflexivity|]. symmetry. rewrite <- (dec_enc s2). apply dec_ext.
    - intros x y i j im. unfold comb, K1, s2, dadd. cbn [combine map lsum fst snd enc]. destruct im; unfold cadd, cscal; cbn [fst snd]; ring.
    - intros x y c Hc. unfold comb, K1, s2, b2. cbn [combine map lsum fst snd enc]. destruct c as [|[|[|c]]]; try lia; cbn [vcomp]; unfold fadd, fscal, vadd, vscal, v_x, v_y, v_z; cbn [fst snd]; ring. }
  set (b3 := fadd b (fscal (1 / 2 * dt) db2)). set (s3 := (dadd y0 (1 / 2 * dt) df2, b3)).
  set (df3 := os_r O (t + 1 / 2 * dt) (fixed O s3) b3). set (db3 := os_rb O (t + 1 / 2 * dt) (fixed O s3) b3). set (K3 := enc (df3, db3)).
  assert (R3 : ohm_rate O (t + 1 / 2 * dt) (comb dt [0; 1 / 2] [K1; K2] (enc (y0, b))) = K3).
  { unfold ohm_rate. replace (dec (comb dt [0; 1 / 2] [K1; K2] (enc (y0, b)))) with s3; [reflexivity|]. symmetry. rewrite <- (dec_enc s3). apply dec_ext.
    - intros x y i j im. unfold comb, K1, K2, s3, dadd. cbn [combine map lsum fst snd enc]. destruct im; unfold cadd, cscal; cbn [fst snd]; ring.
    - intros x y c Hc. unfold comb, K1, K2, s3, b3. cbn [combine map lsum fst snd enc]. destruct c as [|[|[|c]]]; try lia; cbn [vcomp]; unfold fadd, fscal, vadd, vscal, v_x, v_y, v_z; cbn [fst snd]; ring. }
  set (b4 := fadd b (fscal dt db3)). set (s4 := (dadd y0 dt df3, b4)).
  set (df4 := os_r O (t + dt) (fixed O s4) b4). set (db4 := os_rb O (t + dt) (fixed O s4) b4). set (K4 := enc (df4, db4)).
  assert (R4 : ohm_rate O (t + 1 * dt) (comb dt [0; 0; 1] [K1; K2; K3] (enc (y0, b))) = K4).
  { replace (t + 1 * dt) with (t + dt) by ring. unfold ohm_rate. replace (dec (comb dt [0; 0; 1] [K1; K2; K3] (enc (y0, b)))) with s4; [reflexivity|]. symmetry. rewrite <- (dec_enc s4). apply dec_ext.
    - intros x y i j im. unfold comb, K1, K2, K3, s4, dadd. cbn [combine map lsum fst snd enc]. destruct im; unfold cadd, cscal; cbn [fst snd]; ring.
    - intros x y c Hc. unfold comb, K1, K2, K3, s4, b4. cbn [combine map lsum fst snd enc]. destruct c as [|[|[|c]]]; try lia; cbn [vcomp]; unfold fadd, fscal, vadd, vscal, v_x, v_y, v_z; cbn [fst snd]; ring. }
  set (rb := fadd b (fscal (dt / 6) (fadd (fadd (fadd db1 (fscal 2 db2)) (fscal 2 db3)) db4))).
  set (rf := fun x y i j => cadd (y0 x y i j) (cscal (dt / 6) (cadd (cadd (cadd (df1 x y i j) (cscal 2 (df2 x y i j))) (cscal 2 (df3 x y i j))) (df4 x y i j)))).
  assert (Y1 : y1 = (rf, rb)).
  { unfold y1, rk_step. cbn [rk_four rk_rows rk_b rk_stages app]. rewrite R1, R2, R3, R4. rewrite <- (dec_enc (rf, rb)). apply dec_ext.
    - intros x y i j im. unfold comb, K1, K2, K3, K4, rf. cbn [combine map lsum fst snd enc]. destruct im; unfold cadd, cscal; cbn [fst snd]; field.
    - intros x y c Hc. unfold comb, K1, K2, K3, K4, rb. cbn [combine map lsum fst snd enc]. destruct c as [|[|[|c]]]; try lia; cbn [vcomp]; unfold fadd, fscal, vadd, vscal, v_x, v_y, v_z; cbn [fst snd]; field. }
  rewrite Y1. reflexivity.
Qed.
Print Assumptions C81_runge_kutta.
Example C81_runge_kutta_nonvacuous : let V := {| h_L := 1; h_M := 1; h_nv := 1; h_dv := 1; h_v := fun _ => 1; h_speed := fun _ => 1 |} in
  let f := (fun _ _ i _ => if (i <? 2)%nat then (1, 0) else c0) : dst in (forall x y, 1 / 2 <= o_resp V f x y) /\ (forall x y, 1 / 2 < dens V f x y).
Proof.
  intros V f. pose proof PI_RGT_0 as P. pose proof PI2_3_2 as P2. unfold PI2 in P2. split; intros x y.
  - unfold o_resp, response. cbn [V h_L h_M h_nv h_v h_dv rsum]. replace (gf 1 1 (fun i => f x y i 0%nat) 0 0) with (1, 0) by reflexivity. cbn [fst]. lra.
  - unfold dens. rewrite density2_gf. cbn [V h_L h_M h_nv h_v h_dv rsum]. replace (gf 1 1 (fun i => f x y i 0%nat) 0 0) with (1, 0) by reflexivity. cbn [fst]. lra.
Qed.
