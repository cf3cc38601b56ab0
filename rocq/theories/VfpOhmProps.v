(** Property C81: the current projection, the positivity fix, the kinetic Ohm law and the Ohm step of VFP-2D. *)
From Coq Require Import Reals Lra Lia ZArith List Bool Psatz.
From Verif Require Import PyStr Harm2d Harm2dLayout Harm2dSum Harm2dProps Harm2dMoments Vfp2d Vfp2dOps Vfp2dField VfpOhm RSum Pic PicProofs PicFourier Dft.
Import ListNotations.
Local Open Scope R_scope.
Add Ring cplx_ring4 : cring.

Lemma gf_upd L M l0 m0 U W l m : gf L M (fun i => if (Z.of_nat i =? index L M (Z.of_nat l0) (Z.of_nat m0))%Z then U i else W i) l m =
  if ((l =? l0) && (m =? m0))%nat%bool then gf L M U l m else gf L M W l m.
Proof.
  unfold gf, at_. cbv zeta. destruct (Z.leb_spec 0 (index L M (Z.of_nat l) (Z.of_nat m))) as [H|H]; [|destruct (_ && _)%bool; reflexivity]. rewrite Z2Nat.id by lia.
  destruct (Nat.eqb_spec l l0) as [->|E]; [destruct (Nat.eqb_spec m m0) as [->|E]|]; cbn [andb].
  - now rewrite Z.eqb_refl.
  - destruct (Z.eqb_spec (index L M (Z.of_nat l0) (Z.of_nat m)) (index L M (Z.of_nat l0) (Z.of_nat m0))) as [K|]; auto. exfalso.
    destruct (index_cases L M l0 m) as [(_ & _ & N1)|(_ & N1)]; [|lia]. destruct (index_cases L M l0 m0) as [(_ & _ & N2)|(_ & N2)]; [|lia]. rewrite K, N2 in N1. congruence.
  - destruct (Z.eqb_spec (index L M (Z.of_nat l) (Z.of_nat m)) (index L M (Z.of_nat l0) (Z.of_nat m0))) as [K|]; auto. exfalso.
    destruct (index_cases L M l m) as [(_ & _ & N1)|(_ & N1)]; [|lia]. destruct (index_cases L M l0 m0) as [(_ & _ & N2)|(_ & N2)]; [|lia]. rewrite K, N2 in N1. congruence.
Qed.
(** * The current projection *)
(** The response of the current to the correction: the flux moment of the isotropic part. *)
Definition response (L M nv : nat) (v : nat -> R) (dv : R) (f : nat -> nat -> cplx) : R := 4 * PI / 3 * rsum nv (fun j => fst (gf L M (fun i => f i j) 0 0) * v j ^ 3) * dv.
Lemma project_some tiny L M nv v dv f T : (1 <= L)%nat -> exists g, project tiny L M nv v dv f T = Some g.
Proof.
  intros H. unfold project. destruct (index_cases L M 1 0) as [(_ & I & _)|(R0 & _)].
  - change (Z.of_nat 1) with 1%Z in I. change (Z.of_nat 0) with 0%Z in I. destruct (Z.ltb_spec (index L M 1 0) 0); [lia|]. eauto.
  - exfalso. enough (retained L M 1 0 = true) by congruence. apply retained_iff. lia.
Qed.
Lemma project_gf tiny L M nv v dv f T g j l m : project tiny L M nv v dv f T = Some g ->
  let c := vadd T (vscal (-1) (current2 L M nv v dv (-1) v f)) in
  let r := Rmax (response L M nv v dv f) tiny in
  let f00 := fst (gf L M (fun i => f i j) 0 0) in
  gf L M (fun i => g i j) l m =
    if ((l =? 1) && (m =? 0))%nat%bool then cadd (gf L M (fun i => f i j) l m) (- v_x c / r * f00, 0)
    else if ((l =? 1) && (m =? 1))%nat%bool then (if retained L M 1 1 then cadd (gf L M (fun i => f i j) l m) (cscal f00 (cscal (/ (2 * r)) (- v_y c, v_z c))) else c0)
    else gf L M (fun i => f i j) l m.
Proof.
  intros Hp. unfold project in Hp. destruct (index L M 1 0 <? 0)%Z eqn:I0; [discriminate|]. apply (f_equal (fun o => match o with Some z => z | None => g end)) in Hp. cbv beta iota zeta in Hp. rewrite <- Hp. cbv zeta.
  change (re_mode L M f 0 0) with (fun j => fst (gf L M (fun i => f i j) 0 0)). cbv beta.
  change (4 * PI / 3 * rsum nv (fun j0 => fst (gf L M (fun i => f i j0) 0 0) * v j0 ^ 3) * dv) with (response L M nv v dv f).
  set (c := vadd T _). set (r := Rmax _ _). set (f00 := fst (gf L M (fun i => f i j) 0 0)).
  change (index L M 1 0) with (index L M (Z.of_nat 1) (Z.of_nat 0)). change (index L M 1 1) with (index L M (Z.of_nat 1) (Z.of_nat 1)).
  rewrite gf_upd, gf_upd.
  destruct ((l =? 1) && (m =? 0))%nat%bool eqn:E1.
  - apply andb_prop in E1. destruct E1 as [A B]. apply Nat.eqb_eq in A, B. subst l m.
    assert (RT : retained L M 1 0 = true). { destruct (index_cases L M 1 0) as [(R0 & _)|(_ & K)]; auto. change (Z.of_nat 1) with 1%Z in K. change (Z.of_nat 0) with 0%Z in K. rewrite K in I0. discriminate. }
    destruct (retained_index L M 1 0 RT) as (i & _ & _ & _ & C). now rewrite !C.
  - destruct ((l =? 1) && (m =? 1))%nat%bool eqn:E2; auto. apply andb_prop in E2. destruct E2 as [A B]. apply Nat.eqb_eq in A, B. subst l m.
    destruct (retained L M 1 1) eqn:RT; [|now apply gf_out]. destruct (retained_index L M 1 1 RT) as (i & _ & _ & _ & C). now rewrite !C.
Qed.
Lemma cur_z L M nv v dv q speed a : v_z (current2 L M nv v dv q speed a) = q * (- (8 * PI / 3) * dv) * rsum nv (fun j => v j ^ 2 * speed j * snd (gf L M (fun i => a i j) 1 1)).
Proof. unfold current2, vec_moment, vsum, vscal, v_x, v_y, v_z. cbn [fst snd]. unfold cscal. cbn [fst snd]. rewrite csum_snd. cbn [snd]. change (fun j => v j ^ 2 * speed j * snd (at_ L M (fun i => a i j) 1 1)) with (fun j => v j ^ 2 * speed j * snd (gf L M (fun i => a i j) 1 1)). field. Qed.
Lemma density2_gf L M nv v dv f : density2 L M nv v dv f = 4 * PI * rsum nv (fun j => fst (gf L M (fun i => f i j) 0 0) * v j ^ 2) * dv.
Proof. reflexivity. Qed.
(** The projection gives the cell exactly the target current, and touches neither the density nor any harmonic of another degree. *)
Theorem C81_projection : forall tiny L M nv v dv f T, 0 < tiny -> (1 <= L)%nat -> tiny <= response L M nv v dv f ->
  exists g, project tiny L M nv v dv f T = Some g /\
  v_x (current2 L M nv v dv (-1) v g) = v_x T /\
  ((1 <= M)%nat -> current2 L M nv v dv (-1) v g = T) /\
  density2 L M nv v dv g = density2 L M nv v dv f /\
  (forall l m j, l <> 1%nat -> gf L M (fun i => g i j) l m = gf L M (fun i => f i j) l m) /\
  (current2 L M nv v dv (-1) v f = T -> forall l m j, gf L M (fun i => g i j) l m = gf L M (fun i => f i j) l m).
Proof.
  intros tiny L M nv v dv f T Ht HL Hr. destruct (project_some tiny L M nv v dv f T HL) as [g Hg]. exists g. split; auto.
  pose proof (fun j l m => project_gf tiny L M nv v dv f T g j l m Hg) as P. cbv zeta in P. rewrite Rmax_left in P by auto.
  set (c := vadd T (vscal (-1) (current2 L M nv v dv (-1) v f))) in *. set (r := response L M nv v dv f) in *. assert (Hr0 : r <> 0) by lra.
  assert (RS : rsum nv (fun j => v j ^ 2 * v j * fst (gf L M (fun i => f i j) 0 0)) * (4 * PI / 3 * dv) = r).
  { unfold r, response. rewrite (rsum_ext nv (fun j => v j ^ 2 * v j * fst (gf L M (fun i => f i j) 0 0)) (fun j => fst (gf L M (fun i => f i j) 0 0) * v j ^ 3)) by (intros; ring). ring. }
  assert (X : v_x (current2 L M nv v dv (-1) v g) = v_x T).
  { rewrite cur_x. rewrite (rsum_ext nv _ (fun j => v j ^ 2 * v j * fst (gf L M (fun i => f i j) 1 0) + (- v_x c / r) * (v j ^ 2 * v j * fst (gf L M (fun i => f i j) 0 0)))).
    2:{ intros j _. rewrite (P j 1%nat 0%nat). cbn [Nat.eqb andb]. unfold cadd. cbn [fst]. ring. }
    rewrite rsum_plus, rsum_scal. transitivity (v_x (current2 L M nv v dv (-1) v f) + v_x c / r * (rsum nv (fun j => v j ^ 2 * v j * fst (gf L M (fun i => f i j) 0 0)) * (4 * PI / 3 * dv))); [rewrite cur_x; field; auto|].
    rewrite RS. replace (v_x c) with (v_x T - v_x (current2 L M nv v dv (-1) v f)) by (unfold c, vadd, vscal, v_x; cbn [fst snd]; ring). field. auto. }
  split; auto. split; [|split; [|split]].
  - intros HM. assert (RT : retained L M 1 1 = true) by (apply retained_iff; lia). apply vec3_eq; auto.
    + rewrite cur_y. rewrite (rsum_ext nv _ (fun j => v j ^ 2 * v j * fst (gf L M (fun i => f i j) 1 1) + (- v_y c / (2 * r)) * (v j ^ 2 * v j * fst (gf L M (fun i => f i j) 0 0)))).
      2:{ intros j _. rewrite (P j 1%nat 1%nat). cbn [Nat.eqb andb]. rewrite RT. unfold cadd, cscal. cbn [fst]. field. auto. }
      rewrite rsum_plus, rsum_scal. transitivity (v_y (current2 L M nv v dv (-1) v f) + v_y c / r * (rsum nv (fun j => v j ^ 2 * v j * fst (gf L M (fun i => f i j) 0 0)) * (4 * PI / 3 * dv))); [rewrite cur_y; field; auto|].
      rewrite RS. replace (v_y c) with (v_y T - v_y (current2 L M nv v dv (-1) v f)) by (unfold c, vadd, vscal, v_y; cbn [fst snd]; ring). field. auto.
    + rewrite cur_z. rewrite (rsum_ext nv _ (fun j => v j ^ 2 * v j * snd (gf L M (fun i => f i j) 1 1) + (v_z c / (2 * r)) * (v j ^ 2 * v j * fst (gf L M (fun i => f i j) 0 0)))).
      2:{ intros j _. rewrite (P j 1%nat 1%nat). cbn [Nat.eqb andb]. rewrite RT. unfold cadd, cscal. cbn [fst snd]. field. auto. }
      rewrite rsum_plus, rsum_scal. transitivity (v_z (current2 L M nv v dv (-1) v f) + v_z c / r * (rsum nv (fun j => v j ^ 2 * v j * fst (gf L M (fun i => f i j) 0 0)) * (4 * PI / 3 * dv))); [rewrite cur_z; field; auto|].
      rewrite RS. replace (v_z c) with (v_z T - v_z (current2 L M nv v dv (-1) v f)) by (unfold c, vadd, vscal, v_z; cbn [fst snd]; ring). field. auto.
  - apply density2_ext. intros j _. now rewrite (P j 0%nat 0%nat).
  - intros l m j Hl. rewrite (P j l m). destruct (Nat.eqb_spec l 1); [lia|]. reflexivity.
  - intros E l m j. rewrite (P j l m). assert (C0 : c = (0, 0, 0)) by (unfold c; rewrite E; apply vec3_eq; unfold vadd, vscal, v_x, v_y, v_z; cbn [fst snd]; ring). rewrite C0. unfold v_x, v_y, v_z. cbn [fst snd].
    destruct (_ && _)%bool; [apply cplx_eq; unfold cadd; cbn [fst snd]; field; auto|]. destruct ((l =? 1) && (m =? 1))%nat%bool eqn:E2; auto. apply andb_prop in E2. destruct E2 as [A B]. apply Nat.eqb_eq in A, B. subst l m.
    destruct (retained L M 1 1) eqn:RT; [apply cplx_eq; unfold cadd, cscal; cbn [fst snd]; field; auto|]. symmetry. now apply gf_out.
Qed.
Print Assumptions C81_projection.
(** Without degree 1 there is nothing to project: an error; without order 1 only the x component can be imposed. *)
Theorem C81_projection_limits : forall tiny M nv v dv f T,
  project tiny 0 M nv v dv f T = None /\
  (forall L g, project tiny L 0 nv v dv f T = Some g -> v_y (current2 L 0 nv v dv (-1) v g) = 0 /\ v_z (current2 L 0 nv v dv (-1) v g) = 0).
Proof.
  intros tiny M nv v dv f T. split.
  - unfold project. destruct (index_cases 0 M 1 0) as [(R0 & _)|(_ & I)]; [apply retained_iff in R0; lia|]. change (Z.of_nat 1) with 1%Z in I. change (Z.of_nat 0) with 0%Z in I. now rewrite I.
  - intros L g _. assert (RT : retained L 0 1 1 = false). { destruct (retained L 0 1 1) eqn:E; auto. apply retained_iff in E. lia. }
    rewrite cur_y, cur_z. split; (rewrite (rsum_ext nv _ (fun _ => 0)); [rewrite rsum_zero; ring|]); intros j _; rewrite (gf_out _ _ _ _ _ RT); cbn; ring.
Qed.
Print Assumptions C81_projection_limits.
Example C81_projection_nonvacuous : let f := fun i (j : nat) => if (i =? 0)%nat then (1, 0) else c0 in
  1 / 10 <= response 1 1 1 (fun j => (INR j + 1 / 2) * 1) 1 f /\ current2 1 1 1 (fun j => (INR j + 1 / 2) * 1) 1 (-1) (fun j => (INR j + 1 / 2) * 1) f = (0, 0, 0).
Proof.
  intros f. split.
  - unfold response. cbn [rsum]. replace (gf 1 1 (fun i => f i 0%nat) 0 0) with (1, 0) by reflexivity. cbn [fst]. change (INR 0) with 0. pose proof PI2_3_2. pose proof PI_RGT_0. assert (3 / 2 < PI / 2 * 1) by (unfold PI2 in *; lra). nra.
  - apply vec3_eq; [rewrite cur_x|rewrite cur_y|rewrite cur_z]; cbn [rsum]; [replace (gf 1 1 (fun i => f i 0%nat) 1 0) with c0 by reflexivity|replace (gf 1 1 (fun i => f i 0%nat) 1 1) with c0 by reflexivity|replace (gf 1 1 (fun i => f i 0%nat) 1 1) with c0 by reflexivity];
    unfold v_x, v_y, v_z; cbn [fst snd c0]; ring.
Qed.
(** * The positivity fix *)
Lemma pos_gf tiny L M nv v dv f l m j : gf L M (fun i => positivity tiny L M nv v dv f i j) l m =
  if ((l =? 0) && (m =? 0))%nat%bool then (pos_f00 tiny nv v dv (fun j => fst (gf L M (fun i => f i j) 0 0)) j, 0) else gf L M (fun i => f i j) l m.
Proof.
  unfold positivity. change (index L M 0 0) with (index L M (Z.of_nat 0) (Z.of_nat 0)). rewrite gf_upd. destruct ((l =? 0) && (m =? 0))%nat%bool eqn:E; auto.
  apply andb_prop in E. destruct E as [A B]. apply Nat.eqb_eq in A, B. subst l m. destruct (retained_index L M 0 0 ltac:(apply retained_iff; lia)) as (i & _ & _ & _ & C). rewrite C. reflexivity.
Qed.
(** The isotropic part becomes nonnegative, the density stays what it was wherever it exceeds [tiny], a state that was nonnegative
    already is unchanged, and no other harmonic is touched. *)
Theorem C81_positivity : forall tiny L M nv v dv f, 0 < tiny -> 0 < dv ->
  let g := positivity tiny L M nv v dv f in
  (forall j, 0 <= fst (gf L M (fun i => g i j) 0 0)) /\
  (tiny < density2 L M nv v dv f -> density2 L M nv v dv g = density2 L M nv v dv f) /\
  (tiny < density2 L M nv v dv f -> (forall j, (j < nv)%nat -> 0 <= fst (gf L M (fun i => f i j) 0 0)) -> forall j, (j < nv)%nat -> fst (gf L M (fun i => g i j) 0 0) = fst (gf L M (fun i => f i j) 0 0)) /\
  (forall l m j, (l <> 0 \/ m <> 0)%nat -> gf L M (fun i => g i j) l m = gf L M (fun i => f i j) l m) /\
  (density2 L M nv v dv f <= 0 -> forall j, fst (gf L M (fun i => g i j) 0 0) = 0).
Proof.
  intros tiny L M nv v dv f Ht Hd g. set (a := fun j => fst (gf L M (fun i => f i j) 0 0)).
  assert (G0 : forall j, fst (gf L M (fun i => g i j) 0 0) = pos_f00 tiny nv v dv a j) by (intros j; unfold g; rewrite pos_gf; reflexivity).
  set (w := fun j => 4 * PI * v j ^ 2 * dv). set (tg := rsum nv (fun j => a j * w j)). set (pd := rsum nv (fun j => Rmax (a j) 0 * w j)).
  assert (TG : density2 L M nv v dv f = tg). { rewrite density2_gf. unfold tg, w. rewrite (rsum_ext nv (fun j => a j * (4 * PI * v j ^ 2 * dv)) (fun j => (4 * PI * dv) * (a j * v j ^ 2))) by (intros; ring). rewrite rsum_scal. unfold a. ring. }
  assert (W : forall j, 0 <= w j). { intros j. unfold w. pose proof PI_RGT_0. pose proof (pow2_ge_0 (v j)). apply Rmult_le_pos; [|lra]. apply Rmult_le_pos; lra. }
  assert (PD : tg <= pd). { apply rsum_le. intros j _. apply Rmult_le_compat_r; [apply W|apply Rmax_l]. }
  assert (PF : forall j, pos_f00 tiny nv v dv a j = Rmax (a j) 0 * (if Rlt_dec 0 tg then (if Rlt_dec tiny pd then tg / Rmax pd tiny else 0) else 0)) by reflexivity.
  split; [|split; [|split; [|split]]].
  - intros j. rewrite G0, PF. apply Rmult_le_pos; [apply Rmax_r|]. destruct Rlt_dec; [|lra]. destruct Rlt_dec; [|lra]. apply Rlt_le, Rdiv_lt_0_compat; auto. rewrite Rmax_left by lra. lra.
  - intros Hn. rewrite TG in *. assert (SC : (if Rlt_dec 0 tg then (if Rlt_dec tiny pd then tg / Rmax pd tiny else 0) else 0) = tg / Rmax pd tiny) by (destruct (Rlt_dec 0 tg) as [H1|]; [|lra]; destruct (Rlt_dec tiny pd) as [H2|]; [reflexivity|lra]). rewrite density2_gf.
    rewrite (rsum_ext nv _ (fun j => (tg / Rmax pd tiny) * (Rmax (a j) 0 * v j ^ 2))) by (intros; rewrite G0, PF, SC; ring). rewrite rsum_scal.
    transitivity (tg / Rmax pd tiny * pd).
    + generalize (tg / Rmax pd tiny). intros q. unfold pd, w. rewrite (rsum_ext nv (fun j => Rmax (a j) 0 * (4 * PI * v j ^ 2 * dv)) (fun j => (4 * PI * dv) * (Rmax (a j) 0 * v j ^ 2))) by (intros; ring). rewrite rsum_scal. ring.
    + rewrite Rmax_left by lra. field. lra.
  - intros Hn Ha j Hj. rewrite TG in *. rewrite G0, PF. destruct (Rlt_dec 0 tg) as [H1|]; [|lra]. destruct (Rlt_dec tiny pd) as [H2|]; [|lra].
    assert (E : pd = tg). { unfold pd, tg. apply rsum_ext. intros i Hi. rewrite Rmax_left; [reflexivity|]. now apply Ha. }
    rewrite E, !Rmax_left by (try lra; now apply Ha). unfold a. field. lra.
  - intros l m j H. unfold g. rewrite pos_gf. destruct (Nat.eqb_spec l 0), (Nat.eqb_spec m 0); cbn [andb]; auto. lia.
  - intros Hn j. rewrite TG in Hn. rewrite G0, PF. destruct (Rlt_dec 0 tg); [lra|]. ring.
Qed.
Print Assumptions C81_positivity.
(** Applying it twice is applying it once. *)
Theorem C81_positivity_idempotent : forall tiny L M nv v dv f, 0 < tiny -> 0 < dv -> tiny < density2 L M nv v dv f ->
  let g := positivity tiny L M nv v dv f in forall l m j, (j < nv)%nat -> gf L M (fun i => positivity tiny L M nv v dv g i j) l m = gf L M (fun i => g i j) l m.
Proof.
  intros tiny L M nv v dv f Ht Hd Hn g l m j Hj. destruct (C81_positivity tiny L M nv v dv f Ht Hd) as (A & B & _). fold g in A, B. specialize (B Hn).
  destruct (C81_positivity tiny L M nv v dv g Ht Hd) as (_ & _ & C & D & _). rewrite B in C.
  destruct (Nat.eq_dec l 0) as [->|]; [destruct (Nat.eq_dec m 0) as [->|]|]; [|apply D; auto..].
  apply cplx_eq; [apply C; auto|]. unfold g at 2. rewrite !pos_gf. reflexivity.
Qed.
Print Assumptions C81_positivity_idempotent.
Example C81_positivity_nonvacuous : let f := fun i (j : nat) => if (i =? 0)%nat then (if (j =? 0)%nat then (-1, 0) else (1, 0)) else c0 in
  1 / 10 < density2 1 1 2 (fun j => (INR j + 1 / 2) * 1) 1 f /\ fst (gf 1 1 (fun i => f i 0%nat) 0 0) < 0.
Proof.
  intros f. rewrite density2_gf. cbn [rsum]. replace (gf 1 1 (fun i => f i 0%nat) 0 0) with (-1, 0) by reflexivity. replace (gf 1 1 (fun i => f i 1%nat) 0 0) with (1, 0) by reflexivity. cbn [fst].
  change (INR 0) with 0. change (INR 1) with 1. pose proof PI_RGT_0. pose proof PI2_3_2. unfold PI2 in *. split; lra.
Qed.

(** * The Ohm law *)
(** E is the sum of its five reported terms, and the j x B / n part of the Nernst velocity cancels the Hall term exactly: what is left of
    both is the advection of B by the heat-carrying velocity, which does not involve the current. *)
Definition vsum5 (a b c d e : vec3) : vec3 := (v_x a + v_x b + v_x c + v_x d + v_x e, v_y a + v_y b + v_y c + v_y d + v_y e, v_z a + v_z b + v_z c + v_z d + v_z e).
Theorem C81_ohm : forall tiny G V eta0 f b j dndz x y,
  ohm tiny G V eta0 f b j dndz x y = vsum5 (o_resistive tiny V eta0 f j x y) (o_hall tiny V f b j x y) (o_nernst tiny V f b j x y) (o_scalar tiny G V f dndz x y) (o_tensor tiny G V f dndz x y) /\
  (let heat := vscal (/ (2 * Rmax (o_smom tiny V 3 f x y) tiny)) (vector_moment tiny (h_L V) (h_M V) (h_nv V) (h_v V) (h_dv V) 3 (f x y)) in
   vadd (o_hall tiny V f b j x y) (o_nernst tiny V f b j x y) = vscal (-1) (vcross heat (b x y))).
Proof.
  intros tiny G V eta0 f b j dndz x y. split.
  - unfold ohm, ohm_terms. cbn [fold_left]. apply vec3_eq; unfold fadd, vadd, vsum5, v_x, v_y, v_z; cbn [fst snd]; ring.
  - cbv zeta. unfold o_hall, o_nernst, nernst, o_safe, o_ne, dens, o_smom. set (h := vscal _ (vector_moment _ _ _ _ _ _ _ _)). set (n := / Rmax (density2 _ _ _ _ _ _) tiny).
    apply vec3_eq; unfold vadd, vscal, vcross, v_x, v_y, v_z; cbn [fst snd]; ring.
Qed.
Print Assumptions C81_ohm.
(** * Gates *)
Lemma tanh_bound x : -1 < tanh x < 1.
Proof.
  unfold tanh, sinh, cosh. pose proof (exp_pos x) as A. pose proof (exp_pos (- x)) as B. revert A B. generalize (exp x) (exp (- x)). intros a b A B.
  replace ((a - b) / 2 / ((a + b) / 2)) with ((a - b) / (a + b)) by (field; lra).
  split; apply Rmult_lt_reg_r with (a + b); try lra; replace ((a - b) / (a + b) * (a + b)) with (a - b) by (field; lra); lra.
Qed.
Theorem C81_gates : forall t width t_on t_off,
  0 <= ib_gate t width t_on t_off <= 1 /\
  (forall s, edge_on t s width + edge_off t s width = 1) /\
  (width <= 0 -> ib_gate t width t_on t_off = if (match t_on with Some a => if Rle_dec a t then true else false | None => true end && match t_off with Some b => if Rlt_dec t b then true else false | None => true end)%bool then 1 else 0) /\
  (forall src x y, Rabs (hidden (Some src) t_off width t x y) <= Rabs (src x y)).
Proof.
  intros t width t_on t_off.
  assert (B : forall s, 0 <= edge_off t s width <= 1). { intros s. unfold edge_off. pose proof (tanh_bound ((t - s) / Rmax width (1 / 10 ^ 30))). destruct Rlt_dec; [lra|]. destruct Rlt_dec; lra. }
  assert (A : forall s, edge_on t s width + edge_off t s width = 1). { intros s. unfold edge_on, edge_off. destruct Rlt_dec; [lra|]. destruct Rle_dec, Rlt_dec; lra. }
  split; [|split; [exact A|split]].
  - unfold ib_gate. assert (0 <= match t_on with Some s => edge_on t s width | None => 1 end <= 1) by (destruct t_on as [s|]; [pose proof (A s); pose proof (B s); lra|lra]).
    assert (0 <= match t_off with Some s => edge_off t s width | None => 1 end <= 1) by (destruct t_off as [s|]; [apply B|lra]). nra.
  - intros Hw. unfold ib_gate, edge_on, edge_off. destruct (Rlt_dec 0 width); [lra|]. destruct t_on as [a|], t_off as [b|]; repeat destruct Rle_dec; repeat destruct Rlt_dec; cbn; lra.
  - intros src x y. unfold hidden. destruct t_off as [b|]; [|lra]. rewrite Rabs_mult. rewrite (Rabs_right (edge_off t b width)) by (destruct (B b); lra). pose proof (Rabs_pos (src x y)). pose proof (B b). nra.
Qed.
Print Assumptions C81_gates.
