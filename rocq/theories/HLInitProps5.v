(** Driver and post-processing of the Hermite-Legendre solver. *)
From Coq Require Import Reals Lra Lia ZArith List Bool Psatz.
From Verif Require Import HermitePoisson HPProps HPForceProps HPStepProps Legendre HermLeg HLBasis HermLegProps HLColl HLStep HLStepProps HLStepProps2 HLInit HLInitProps HLInitProps2 HLInitProps3 HLInitProps4 Drivers VGrid PyStr PicProofs RSum Pic PicFourier Dft.
Import ListNotations.
Local Open Scope R_scope.

(* ------------------------------------------------------------------------------------------------ *)
(** * The external driver *)
(** The same pulse written for the Vlasov-1D ex driver. *)
Definition plain_env (c w r : R) : envelope := {| e_center := c; e_width := w; e_rise := r; e_baseline := 0; e_height := 1; e_trough := false |}.
Definition as_vlasov (x_last : R) (p : xpulse) : Drivers.driver :=
  {| d_a0 := x_a0 p; d_k0 := x_k0 p; d_w0 := x_w0 p; d_dw0 := dflt (x_dw0 p) 0;
     d_time := plain_env (dflt (x_tc p) 0) (dflt (x_tw p) (10 ^ 10)) (dflt (x_tr p) 0);
     d_space := plain_env (dflt (x_xc p) (1 / 2 * x_last)) (dflt (x_xw p) (10 ^ 10)) (dflt (x_xr p) 0); d_point := false |}.
Definition smooth (p : xpulse) : Prop := dflt (x_tr p) 0 <> 0 /\ dflt (x_xr p) 0 <> 0.
Lemma sstep_range w d : -1 <= sstep w d <= 1.
Proof. unfold sstep, sgn. destruct (Req_EM_T w 0); [destruct (Rlt_dec 0 d); [lra|]; destruct (Rlt_dec d 0); lra|]. pose proof (tanh_gt (d / w)). lra. Qed.
Lemma env_range r lo hi a : Rabs (hl_env r lo hi a) <= 1.
Proof. unfold hl_env. pose proof (sstep_range r (a - lo)). pose proof (sstep_range r (a - hi)). apply Rabs_le. lra. Qed.
Definition total_amp (ps : list xpulse) : R := fold_right (fun p s => Rabs ((x_w0 p + dflt (x_dw0 p) 0) * x_a0 p) + s) 0 ps.
Lemma fold_plus {A} (f : A -> R) l a : fold_left (fun s p => s + f p) l a = a + fold_right (fun p s => f p + s) 0 l.
Proof. revert a. induction l as [|p l IH]; intros a; cbn [fold_left fold_right]; [ring|]. rewrite IH. ring. Qed.
(** With non-zero rise lengths the field is the Vlasov-1D ex driver's for the same pulses at the same point; it is at most the sum of
    the pulse amplitudes; a pulse without envelope keys is the plain travelling wave w a0 sin(k0 x - w t) up to t = 5e9 on a box shorter
    than 5e9; an empty list of pulses gives no field — but any driver object switches the conservation correction off. *)
Theorem C96_driver : forall Lx nx ps t g, 
  let E := hl_driver_field Lx nx ps t g in let x := hl_x Lx nx g in
  ((forall p, In p ps -> smooth p) -> E = ex_drive (map (as_vlasov (hl_x Lx nx (nx - 1))) ps) x t) /\
  Rabs E <= total_amp ps /\
  (forall k0 w a0, ps = [{| x_k0 := k0; x_w0 := w; x_dw0 := None; x_a0 := a0; x_tc := None; x_tw := None; x_tr := None; x_xc := None; x_xw := None; x_xr := None |}] ->
     0 <= Lx < 10 ^ 10 / 2 -> (g < nx)%nat -> Rabs t < 10 ^ 10 / 2 -> E = w * a0 * sin (k0 * x - w * t)) /\
  (ps = [] -> E = 0) /\
  (forall c d y, hl_driver c = Some d -> o_correction (hl_step c t y) = 0).
Proof.
  intros Lx nx ps t g E x. assert (EE : E = fold_right (fun p s => hl_pulse (hl_x Lx nx (nx - 1)) p x t + s) 0 ps) by (unfold E, hl_driver_field; fold x; rewrite (fold_plus (fun p => hl_pulse (hl_x Lx nx (nx - 1)) p x t)); ring).
  split; [|split; [|split; [|split]]].
  - intros S. rewrite EE. unfold ex_drive. rewrite (fold_plus (fun d => ex_single d x t)). rewrite Rplus_0_l. clear E EE. induction ps as [|p ps IH]; [reflexivity|]. cbn [map fold_right]. rewrite IH by (intros q Hq; apply S; right; exact Hq).
    f_equal. destruct (S p (or_introl eq_refl)) as [S1 S2]. unfold hl_pulse, ex_single, st_call, env_call, as_vlasov, plain_env, tanh_step. cbn [d_time d_space d_w0 d_dw0 d_a0 d_k0 e_center e_width e_rise e_baseline e_height e_trough].
    unfold hl_env, sstep. destruct (Req_EM_T (dflt (x_tr p) 0) 0); [contradiction|]. destruct (Req_EM_T (dflt (x_xr p) 0) 0); [contradiction|].
    rewrite !(Rmult_comm (1 / 2) (dflt (x_tw p) _)), !(Rmult_comm (1 / 2) (dflt (x_xw p) _)). ring.
  - rewrite EE. clear E EE. induction ps as [|p ps IH]; cbn [fold_right total_amp]; [rewrite Rabs_R0; lra|]. fold (total_amp ps). eapply Rle_trans; [apply Rabs_triang|]. apply Rplus_le_compat; [|exact IH].
    unfold hl_pulse. set (e1 := hl_env _ _ _ t). set (e2 := hl_env _ _ _ x). set (w := x_w0 p + dflt (x_dw0 p) 0). pose proof (env_range (dflt (x_tr p) 0) (dflt (x_tc p) 0 - 1 / 2 * dflt (x_tw p) (10 ^ 10)) (dflt (x_tc p) 0 + 1 / 2 * dflt (x_tw p) (10 ^ 10)) t) as R1. fold e1 in R1.
    pose proof (env_range (dflt (x_xr p) 0) (dflt (x_xc p) (1 / 2 * hl_x Lx nx (nx - 1)) - 1 / 2 * dflt (x_xw p) (10 ^ 10)) (dflt (x_xc p) (1 / 2 * hl_x Lx nx (nx - 1)) + 1 / 2 * dflt (x_xw p) (10 ^ 10)) x) as R2. fold e2 in R2.
    assert (R3 : Rabs (sin (x_k0 p * x - w * t)) <= 1) by (apply Rabs_le; pose proof (SIN_bound (x_k0 p * x - w * t)); lra). set (sn := sin _) in *.
    replace (e1 * e2 * w * x_a0 p * sn) with (w * x_a0 p * (e1 * (e2 * sn))) by ring. rewrite (Rabs_mult (w * x_a0 p)). rewrite <- (Rmult_1_r (Rabs (w * x_a0 p))) at 2. apply Rmult_le_compat_l; [apply Rabs_pos|].
    rewrite !Rabs_mult. pose proof (Rabs_pos e1). pose proof (Rabs_pos e2). pose proof (Rabs_pos sn). assert (Rabs e2 * Rabs sn <= 1 * 1) by (apply Rmult_le_compat; lra). assert (0 <= Rabs e2 * Rabs sn) by (apply Rmult_le_pos; lra).
    assert (Rabs e1 * (Rabs e2 * Rabs sn) <= 1 * 1) by (apply Rmult_le_compat; lra). lra.
  - intros k0 w a0 -> HL Hg Ht. rewrite EE. cbn [fold_right]. unfold hl_pulse. cbn [x_k0 x_w0 x_dw0 x_a0 x_tc x_tw x_tr x_xc x_xw x_xr dflt]. generalize dependent (10 ^ 10). intros big HL Ht.
    assert (HX : forall j, (j < nx)%nat -> 0 <= hl_x Lx nx j <= Lx).
    { intros j Hj. unfold hl_x. assert (0 < INR nx) by (apply lt_0_INR; lia). assert (0 <= INR j <= INR nx) by (split; [apply pos_INR|apply le_INR; lia]). split.
      - apply Rmult_le_pos; [apply Rmult_le_pos; lra|left; apply Rinv_0_lt_compat; lra].
      - apply (Rmult_le_reg_r (INR nx)); [lra|]. replace (Lx * INR j / INR nx * INR nx) with (Lx * INR j) by (field; lra). apply Rmult_le_compat_l; lra. }
    pose proof (HX g Hg) as X1. pose proof (HX (nx - 1)%nat ltac:(lia)) as X2. fold x in X1. set (xl := hl_x Lx nx (nx - 1)) in *.
    assert (T : - (big / 2) < t < big / 2) by (apply Rabs_def2 in Ht; lra).
    unfold hl_env, sstep. destruct (Req_EM_T 0 0) as [_|N]; [|contradiction N; reflexivity]. unfold sgn.
    repeat match goal with |- context [Rlt_dec ?a ?b] => destruct (Rlt_dec a b); try lra end. rewrite !Rplus_0_r. lra.
  - intros ->. reflexivity.
  - intros c d y Hd. unfold hl_step. cbn [o_correction]. unfold hl_advance. destruct (hl_integ c); [reflexivity|reflexivity|]. unfold hl_split. rewrite Hd. rewrite andb_false_r. reflexivity.
Qed.
Print Assumptions C96_driver.

(* ------------------------------------------------------------------------------------------------ *)
(** * Post-processing *)
(** The reported relative drift of an invariant bounds every deviation from the first value, is attained, and is zero exactly when
    the series is constant; it is missing exactly when the first value is zero. *)
Theorem C96_drift : forall n a, (0 < n)%nat ->
  (reldrift n a = None <-> a 0%nat = 0) /\
  forall d, reldrift n a = Some d ->
    0 <= d /\ (forall i, (i < n)%nat -> Rabs (a i - a 0%nat) <= d * Rabs (a 0%nat)) /\ (exists i, (i < n)%nat /\ Rabs (a i - a 0%nat) = d * Rabs (a 0%nat)) /\
    (d = 0 <-> forall i, (i < n)%nat -> a i = a 0%nat).
Proof.
  intros n a Hn. unfold reldrift. destruct (Req_EM_T (a 0%nat) 0) as [Z|Z].
  - split; [tauto|]. discriminate.
  - split; [split; [discriminate|contradiction]|]. intros d H. injection H as <-. assert (P : 0 < Rabs (a 0%nat)) by (apply Rabs_pos_lt; exact Z).
    destruct (maxn_spec n (fun i => Rabs (a i - a 0%nat)) ltac:(intros; apply Rabs_pos)) as [U A]. destruct (A Hn) as (i0 & Hi0 & E0). set (M := maxn n (fun i => Rabs (a i - a 0%nat))) in *.
    assert (DM : M / Rabs (a 0%nat) * Rabs (a 0%nat) = M) by (field; lra). assert (M0 : 0 <= M) by (rewrite E0; apply Rabs_pos).
    split; [apply Rmult_le_pos; [exact M0|left; apply Rinv_0_lt_compat; exact P]|]. rewrite DM. split; [exact U|]. split; [exists i0; auto|]. split.
    + intros D0 i Hi. assert (M = 0) by (rewrite <- DM, D0; ring). pose proof (U i Hi) as UI. cbv beta in UI. pose proof (Rabs_pos (a i - a 0%nat)). destruct (Req_dec (a i - a 0%nat) 0); [lra|]. pose proof (Rabs_pos_lt _ H1). lra.
    + intros C. rewrite E0, (C i0 Hi0). rewrite Rminus_diag_eq, Rabs_R0 by reflexivity. unfold Rdiv. ring.
Qed.
Print Assumptions C96_drift.
(** The distribution snapshots: min(6, nt) of the saved times, in increasing order without repetition, the first and the last among
    them. *)
Theorem C96_snapshots : forall nt, (0 < nt)%nat ->
  snap nt 0 = 0%nat /\ snap nt (snap_m nt - 1) = (nt - 1)%nat /\ (0 < snap_m nt <= 6)%nat /\
  (forall i, (i < snap_m nt)%nat -> (snap nt i < nt)%nat) /\ (forall i j, (i < j < snap_m nt)%nat -> (snap nt i < snap nt j)%nat).
Proof.
  intros nt H. assert (M : (0 < snap_m nt <= 6)%nat) by (unfold snap_m; lia). assert (MN : (snap_m nt <= nt)%nat) by (unfold snap_m; lia).
  unfold snap. destruct (Nat.leb_spec (snap_m nt) 1) as [L|L].
  - assert (nt = 1)%nat by (unfold snap_m in L; lia). subst nt. cbn in *. repeat split; try lia; intros; lia.
  - set (m := (snap_m nt - 1)%nat) in *. assert (Hm : m <> 0%nat) by lia. split; [rewrite Nat.mul_0_l; apply Nat.div_0_l; exact Hm|]. split; [rewrite Nat.mul_comm; apply Nat.div_mul; exact Hm|]. split; [lia|].
    assert (ST : forall i j, (i < j)%nat -> (i * (nt - 1) / m < j * (nt - 1) / m)%nat).
    { intros i j Hij. apply Nat.lt_le_trans with ((i * (nt - 1) + 1 * m) / m)%nat; [rewrite Nat.div_add by exact Hm; lia|]. apply Nat.div_le_mono; [exact Hm|]. assert (m <= nt - 1)%nat by lia. nia. }
    split; [|intros i j Hij; apply ST; lia]. intros i Hi. apply Nat.le_lt_trans with (m * (nt - 1) / m)%nat; [apply Nat.div_le_mono; [exact Hm|]; apply Nat.mul_le_mono_r; lia|]. rewrite Nat.mul_comm, Nat.div_mul by exact Hm. lia.
Qed.
Print Assumptions C96_snapshots.
(** The reconstructed distribution: f0 + df inside the window and f0 outside; the velocity axis rises and reaches past the
    window and five thermal widths on both sides. *)
Theorem C96_reconstruction : forall alpha u va vb nx Nh Nl y g v, 0 < alpha -> va < vb ->
  let C := fun n => fst (finv nx (fst y n) g) in let B := fun m => fst (finv nx (snd y m) g) in
  (va <= v <= vb -> dist_f alpha u va vb nx Nh Nl y g v = f0 alpha u Nh C v + df va vb Nl B v) /\
  (v < va \/ vb < v -> dist_f alpha u va vb nx Nh Nl y g v = f0 alpha u Nh C v) /\
  dist_v alpha u va vb 0 <= u - 5 * alpha /\ dist_v alpha u va vb 0 < va /\ u + 5 * alpha <= dist_v alpha u va vb 383 /\ vb < dist_v alpha u va vb 383 /\
  (forall i j, (i < j <= 383)%nat -> dist_v alpha u va vb i < dist_v alpha u va vb j).
Proof.
  intros alpha u va vb nx Nh Nl y g v Ha Hv C B. unfold dist_f, f0, df, dist_v, linspace. change (Nat.leb 384 1) with false. change (384 - 1)%nat with 383%nat. cbv iota.
  assert (I0 : INR 0 = 0) by reflexivity. assert (I3 : INR 383 <> 0) by (apply not_0_INR; lia). set (lo := Rmin _ _). set (hi := Rmax _ _).
  pose proof (Rmin_l (u - 5 * alpha) (va - 1)) as M1. pose proof (Rmin_r (u - 5 * alpha) (va - 1)) as M2. pose proof (Rmax_l (u + 5 * alpha) (vb + 1)) as M3. pose proof (Rmax_r (u + 5 * alpha) (vb + 1)) as M4. fold lo in M1, M2. fold hi in M3, M4.
  split; [|split; [|split; [|split; [|split; [|split]]]]].
  - intros W. f_equal. apply rsum_ext. intros m _. unfold xi_win, B. destruct (Rlt_dec v va); [lra|]. destruct (Rlt_dec vb v); [lra|]. reflexivity.
  - intros W. rewrite (rsum_zero_ext Nl); [rewrite Rplus_0_r; reflexivity|]. intros m _. unfold xi_win. destruct (Rlt_dec v va); [ring|]. destruct (Rlt_dec vb v); [ring|]. lra.
  - rewrite I0. unfold Rdiv. lra.
  - rewrite I0. unfold Rdiv. lra.
  - replace (lo + (hi - lo) * INR 383 / INR 383) with hi by (field; exact I3). lra.
  - replace (lo + (hi - lo) * INR 383 / INR 383) with hi by (field; exact I3). lra.
  - intros i j Hij. apply Rplus_lt_compat_l. unfold Rdiv. apply Rmult_lt_compat_r; [apply Rinv_0_lt_compat; apply lt_0_INR; lia|]. apply Rmult_lt_compat_l; [lra|]. apply lt_INR. lia.
Qed.
Print Assumptions C96_reconstruction.
(** The stored coefficients: the kx axis is -Nx/2, ..., in unit steps and the entry at label k is the coefficient of e^{2 pi i k x / Lx}. *)
Lemma shift_val N j : (j < N)%nat -> shift_ix N j = if (j <? N / 2)%nat then (j + (N - N / 2))%nat else (j - N / 2)%nat.
Proof.
  intros J. unfold shift_ix. pose proof (Nat.div_mod N 2 ltac:(lia)). pose proof (Nat.mod_upper_bound N 2 ltac:(lia)). destruct (Nat.ltb_spec j (N / 2)).
  - apply Nat.mod_small. lia.
  - replace (j + (N - N / 2))%nat with (j - N / 2 + 1 * N)%nat by lia. rewrite Nat.mod_add by lia. apply Nat.mod_small. lia.
Qed.
Theorem C96_stored_coefficients : forall nx A n j, (j < nx)%nat ->
  stored_kx nx j = (Z.of_nat j - Z.of_nat (nx / 2))%Z /\
  (forall g, (g < nx)%nat -> cis (angle nx (shift_ix nx j) g) = cis (2 * PI * IZR (stored_kx nx j) * INR g / INR nx)) /\
  (forall g, (g < nx)%nat -> finv nx (A n) g = csum nx (fun i => cmul (stored_coeff nx A n i) (cis (2 * PI * IZR (stored_kx nx i) * INR g / INR nx)))).
Proof.
  intros nx A n j J. pose proof (Nat.div_mod nx 2 ltac:(lia)) as D1. pose proof (Nat.mod_upper_bound nx 2 ltac:(lia)) as D2. assert (Nn : INR nx <> 0) by (apply not_0_INR; lia).
  assert (V : forall i, (i < nx)%nat -> stored_kx nx i = (Z.of_nat i - Z.of_nat (nx / 2))%Z).
  { intros i I. unfold stored_kx. rewrite shift_val by assumption. unfold HermitePoisson.mode. destruct (Nat.ltb_spec i (nx / 2)).
    - destruct (Nat.ltb_spec (2 * (i + (nx - nx / 2))) nx); lia.
    - destruct (Nat.ltb_spec (2 * (i - nx / 2)) nx); lia. }
  assert (CI : forall i g, (i < nx)%nat -> cis (angle nx (shift_ix nx i) g) = cis (2 * PI * IZR (stored_kx nx i) * INR g / INR nx)).
  { intros i g I. rewrite V by exact I. rewrite shift_val by exact I. unfold angle. destruct (Nat.ltb_spec i (nx / 2)).
    - rewrite <- (cis_period (2 * PI * IZR (Z.of_nat i - Z.of_nat (nx / 2)) * INR g / INR nx) (Z.of_nat g)). f_equal. rewrite minus_IZR, <- !INR_IZR_INZ, plus_INR, minus_INR by lia. field. exact Nn.
    - rewrite minus_IZR, <- !INR_IZR_INZ, minus_INR by lia. reflexivity. }
  split; [apply V; exact J|]. split; [intros g _; apply CI; exact J|]. intros g Hg. unfold finv.
  rewrite (csum_ext nx (fun i => cmul (stored_coeff nx A n i) (cis (2 * PI * IZR (stored_kx nx i) * INR g / INR nx))) (fun i => (fun k => cmul (A n k) (cis (angle nx k g))) (if (i <? nx / 2)%nat then (i + (nx - nx / 2))%nat else (i - nx / 2)%nat))).
  - set (F := fun k => cmul (A n k) (cis (angle nx k g))). change (csum nx F = csum nx (fun i => F (if (i <? nx / 2)%nat then (i + (nx - nx / 2))%nat else (i - nx / 2)%nat))).
    assert (SP : forall p q (h : nat -> cplx), csum (p + q) h = cadd (csum p h) (csum q (fun i => h (p + i)%nat))).
    { intros p q h. induction q as [|q IH]; [rewrite Nat.add_0_r; cbn [csum]; rewrite cadd_c0; reflexivity|]. rewrite Nat.add_succ_r. cbn [csum]. rewrite IH. apply cplx_eq; cbn [fst snd cadd]; unfold cadd; cbn [fst snd]; ring. }
    pose proof (SP (nx - nx / 2)%nat (nx / 2)%nat F) as E1. pose proof (SP (nx / 2)%nat (nx - nx / 2)%nat (fun i => F (if (i <? nx / 2)%nat then (i + (nx - nx / 2))%nat else (i - nx / 2)%nat))) as E2.
    replace (nx - nx / 2 + nx / 2)%nat with nx in E1 by lia. replace (nx / 2 + (nx - nx / 2))%nat with nx in E2 by lia. rewrite E1, E2.
    rewrite (csum_ext (nx / 2) (fun i => F (if (i <? nx / 2)%nat then (i + (nx - nx / 2))%nat else (i - nx / 2)%nat)) (fun i => F (nx - nx / 2 + i)%nat)).
    + rewrite (csum_ext (nx - nx / 2) (fun i => F (if (nx / 2 + i <? nx / 2)%nat then (nx / 2 + i + (nx - nx / 2))%nat else (nx / 2 + i - nx / 2)%nat)) F).
      * apply cplx_eq; unfold cadd; cbn [fst snd]; ring.
      * intros i Hi. destruct (Nat.ltb_spec (nx / 2 + i) (nx / 2)); [lia|]. f_equal. lia.
    + intros i Hi. destruct (Nat.ltb_spec i (nx / 2)); [|lia]. f_equal. lia.
  - intros i Hi. cbv beta. unfold stored_coeff. rewrite <- CI by exact Hi. rewrite <- shift_val by exact Hi. reflexivity.
Qed.
Print Assumptions C96_stored_coefficients.
(** The seeded edge diagnostics are the ones the step would compute from the same state. *)
Theorem C96_seeded_diagnostics : forall c r, let o := init_out c r in let y := o_state o in
  o_edge_a o = hl_edge (hl_nx c) (hl_Nl c) lxi_a (snd y) /\ o_edge_b o = hl_edge (hl_nx c) (hl_Nl c) lxi_b (snd y) /\ o_edge o = Rmax (o_edge_a o) (o_edge_b o) /\
  o_high o = hl_high (hl_nx c) (hl_Nl c) (snd y).
Proof.
  intros c r o y.
  assert (G : forall xi, maxn (hl_nx c) (fun g => Rabs (rsum (hl_Nl c) (fun m => xi m * snd r m g))) = hl_edge (hl_nx c) (hl_Nl c) xi (snd y)).
  { intros xi. unfold hl_edge.
    assert (ME : forall n f h, (forall g, (g < n)%nat -> f g = h g) -> maxn n f = maxn n h) by (intros n f h E; induction n as [|n IH]; [reflexivity|]; cbn [maxn]; rewrite IH, (E n) by (intros; try apply E; lia); reflexivity).
    apply ME. intros g Hg. rewrite (csum_ext _ _ (fun m => (xi m * snd r m g, 0))).
    - rewrite rsum_as_csum. unfold cmod, cabs2. cbn [fst snd]. rewrite <- sqrt_Rsqr_abs. unfold Rsqr. f_equal. ring.
    - intros m _. change (snd y m) with (snd (to_k (hl_nx c) r) m). rewrite back_B by exact Hg. apply cplx_eq; unfold cscal; cbn [fst snd]; ring. }
  unfold o, init_out. cbn [o_edge_a o_edge_b o_edge o_high]. rewrite !G. repeat split.
Qed.
Print Assumptions C96_seeded_diagnostics.
