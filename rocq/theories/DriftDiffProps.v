(** Properties of the collision operators (C32-C35, C49-C53). Sums and grids are those of the user: [rsum nv h] =
    h 0 + ... + h (nv-1); a uniform grid has v (i+1) = v i + dv. *)
From Verif Require Import RSum ExpBounds DriftDiff DriftDiffProofs DriftDiffProofs2 DriftDiffProofs3.

(* ------------------------------------------------------------------------------------------------ *)
(** * C32: density *)
Theorem C32_density_conserved (s : scheme) (nv : nat) (dv : R) (C D : nat -> R) (nu dt : R) (f f_new : nat -> R) :
  implicit_step nv (get_operator s nv dv C D (fun _ => nu) dt) f f_new -> rsum nv f_new = rsum nv f.
Proof.
  intros H. destruct (operator_assemble s nv dv C D (fun _ => nu) dt) as (al & be & E). apply E in H.
  pose proof (weighted_conservation nv dv dt (fun _ => nu) al be (fun _ => 1) nu f f_new ltac:(intros; cbv beta; ring) H) as K.
  cbv beta in K. rewrite !rsum_scal in K. lra.
Qed.
Print Assumptions C32_density_conserved.
(** With a velocity-dependent frequency the conserved quantity is the sum weighted by 1/nu. *)
Theorem C32_weighted_density_conserved (s : scheme) (nv : nat) (dv : R) (C D nu : nat -> R) (dt : R) (f f_new : nat -> R) :
  (forall i, (i < nv)%nat -> nu i <> 0) ->
  implicit_step nv (get_operator s nv dv C D nu dt) f f_new -> rsum nv (fun i => f_new i / nu i) = rsum nv (fun i => f i / nu i).
Proof.
  intros Hn H. destruct (operator_assemble s nv dv C D nu dt) as (al & be & E). apply E in H.
  pose proof (weighted_conservation nv dv dt nu al be (fun i => / nu i) 1 f f_new ltac:(intros; cbv beta; apply Rinv_l; auto) H) as K.
  unfold Rdiv. rewrite (rsum_ext nv (fun i => f_new i * / nu i) (fun i => / nu i * f_new i)) by (intros; ring). rewrite K. apply rsum_ext. intros. ring.
Qed.
Print Assumptions C32_weighted_density_conserved.
(** The spherical solver (nu = nuee / v^2): the physical density, the sum of v^2 f, is conserved, with or without
    heating. *)
Theorem C32_spherical_density_conserved (s : scheme) (nv : nat) (dv : R) (v C D : nat -> R) (nuee dt D0 vosc2 Z2ni_w0 : R) (f f_new : nat -> R) :
  (forall i, (i < nv)%nat -> v i <> 0) ->
  implicit_step nv (get_operator s nv dv C (heated_D v D D0 vosc2 Z2ni_w0) (spherical_nu nuee v) dt) f f_new ->
  rsum nv (fun i => v i ^ 2 * f_new i) = rsum nv (fun i => v i ^ 2 * f i).
Proof.
  intros Hn H. destruct (operator_assemble s nv dv C (heated_D v D D0 vosc2 Z2ni_w0) (spherical_nu nuee v) dt) as (al & be & E). apply E in H.
  apply (weighted_conservation nv dv dt (spherical_nu nuee v) al be (fun i => v i ^ 2) nuee f f_new); [|exact H].
  intros i Hi. unfold spherical_nu. field. now apply Hn.
Qed.
Print Assumptions C32_spherical_density_conserved.

(** A frequency that depends on velocity breaks the conservation of the plain sum. *)
Definition two (a b : R) (i : nat) : R := match i with O => a | _ => b end.
Ltac cells := intros i Hi; destruct i as [|[|i]]; [| |lia].
Lemma cc0 D dv i : 0 < dv -> cc_alpha dv (fun _ => 0) D i = safe_D D i / dv /\ cc_beta dv (fun _ => 0) D i = - (safe_D D i / dv).
Proof. intros H. unfold cc_alpha, cc_beta. split; field; lra. Qed.
Lemma safe1 i : safe_D (fun _ => 1) i = 1.
Proof. apply (safe_D_id (fun _ => 1)). unfold Rdiv. rewrite Rmult_1_l, <- Rinv_1. apply Rinv_le_contravar; [lra|]. rewrite <- (pow1 30). apply pow_incr. lra. Qed.
Lemma two_step nu0 nu1 dt f0 f1 g0 g1 :
  g0 - dt * nu0 * (g1 - g0) = f0 -> g1 - dt * nu1 * (g0 - g1) = f1 ->
  implicit_step 2 (chang_cooper 2 1 (fun _ => 0) (fun _ => 1) (two nu0 nu1) dt) (two f0 f1) (two g0 g1).
Proof.
  intros H0 H1. rewrite step_solves, chang_cooper_eq. cells; rewrite assemble_mv by lia; unfold flux_left, flux; cbn [Nat.ltb Nat.leb two];
    destruct (cc0 (fun _ => 1) 1 0%nat ltac:(lra)) as [-> ->]; rewrite safe1; lra.
Qed.
Theorem C32_velocity_dependent_refuted : ~ forall (nv : nat) (dv : R) (C D nu : nat -> R) (dt : R) (f f_new : nat -> R),
  implicit_step nv (chang_cooper nv dv C D nu dt) f f_new -> rsum nv f_new = rsum nv f.
Proof.
  intros H. specialize (H 2%nat 1 (fun _ => 0) (fun _ => 1) (two 1 2) 1 (two 1 0) (two (3/4) (1/2))).
  cbn in H. assert (K : 0 + 3 / 4 + 1 / 2 = 0 + 1 + 0) by (apply H, two_step; lra). lra.
Qed.
Print Assumptions C32_velocity_dependent_refuted.
Example C32_nonvacuous : implicit_step 2 (get_operator ChangCooper 2 1 (fun _ => 0) (fun _ => 1) (fun _ => 1) 1) (two 1 0) (two (2/3) (1/3)).
Proof.
  pose proof (two_step 1 1 1 1 0 (2/3) (1/3) ltac:(lra) ltac:(lra)) as H. cbn [get_operator]. rewrite step_solves in *. rewrite !chang_cooper_eq in *.
  intros i Hi. rewrite <- (H i Hi). rewrite !assemble_mv by exact Hi. now destruct i as [|[|]].
Qed.

(* ------------------------------------------------------------------------------------------------ *)
(** * C33: positivity, existence, uniqueness *)
Theorem C33_positivity (nv : nat) (dv : R) (C D nu : nat -> R) (dt : R) (f : nat -> R) :
  0 < dv -> 0 <= dt -> (forall i, (i < nv)%nat -> 0 <= nu i) ->
  (exists f_new, implicit_step nv (chang_cooper nv dv C D nu dt) f f_new) /\
  (forall f_new f_new', implicit_step nv (chang_cooper nv dv C D nu dt) f f_new -> implicit_step nv (chang_cooper nv dv C D nu dt) f f_new' ->
    forall i, (i < nv)%nat -> f_new i = f_new' i) /\
  (forall f_new, implicit_step nv (chang_cooper nv dv C D nu dt) f f_new -> (forall i, (i < nv)%nat -> 0 <= f i) -> forall i, (i < nv)%nat -> 0 <= f_new i).
Proof.
  intros Hdv Hdt Hnu. rewrite chang_cooper_eq. pose proof (cc_k nv dv nu dt Hdv Hdt Hnu) as Hk.
  assert (Ha : forall j, (S j < nv)%nat -> 0 <= cc_alpha dv C D j) by (intros; now apply cc_alpha_nonneg). assert (Hb : forall j, (S j < nv)%nat -> cc_beta dv C D j <= 0) by (intros; now apply cc_beta_nonpos).
  repeat split.
  - destruct (solution_exists nv dv dt nu _ _ Hk Ha Hb f) as (x & Hx). exists x. now apply step_solves.
  - intros x y Hx Hy i Hi. rewrite step_solves in Hx, Hy. now apply (solution_unique nv dv dt nu _ _ Hk Ha Hb f x y).
  - intros x Hx Hf i Hi. rewrite step_solves in Hx. now apply (solution_nonneg nv dv dt nu _ _ Hk Ha Hb f x).
Qed.
Print Assumptions C33_positivity.
(** The log-mean and central schemes do not have this property. *)
Theorem C33_central_refuted : ~ forall (nv : nat) (dv : R) (C D nu : nat -> R) (dt : R) (f f_new : nat -> R),
  0 < dv -> 0 <= dt -> (forall i, (i < nv)%nat -> 0 <= nu i) -> (forall i, (i < nv)%nat -> 0 <= f i) ->
  implicit_step nv (central nv dv C D nu dt) f f_new -> forall i, (i < nv)%nat -> 0 <= f_new i.
Proof.
  intros H. assert (K : 0 <= two (4/3) (-1/3) 1).
  { apply (H 2%nat 1 (fun _ => 4) (fun _ => 1) (fun _ => 1) 1 (two 1 0)); try lra; try lia; [intros; lra|cells; cbn; lra|].
    rewrite central_step, step_solves. cells; rewrite assemble_mv by lia; unfold flux_left, flux; cbn [Nat.ltb Nat.leb two]; lra. }
  cbn in K. lra.
Qed.
Print Assumptions C33_central_refuted.
Example C33_nonvacuous : implicit_step 2 (chang_cooper 2 1 (fun _ => 0) (fun _ => 1) (two 1 2) 1) (two 1 0) (two (3/4) (1/2)) /\ forall i, (i < 2)%nat -> 0 <= two 1 0 i.
Proof. split; [apply two_step; lra|cells; cbn; lra]. Qed.

(* ------------------------------------------------------------------------------------------------ *)
(** * C34: equilibria *)
(** General form: n exp(-phi) is returned unchanged when the drift is D (phi_{j+1} - phi_j) / dv on every edge. *)
Theorem C34_equilibrium_preserved (nv : nat) (dv : R) (C D nu : nat -> R) (dt n : R) (phi f_new : nat -> R) :
  0 < dv -> 0 <= dt -> (forall i, (i < nv)%nat -> 0 <= nu i) ->
  (forall j, (S j < nv)%nat -> 1 / 10 ^ 30 <= D j /\ C j * dv = D j * (phi (S j) - phi j) /\ (phi (S j) = phi j \/ 1 / 10 ^ 8 <= Rabs (phi (S j) - phi j))) ->
  (implicit_step nv (chang_cooper nv dv C D nu dt) (fun i => n * exp (- phi i)) f_new <-> forall i, (i < nv)%nat -> f_new i = n * exp (- phi i)).
Proof.
  intros Hdv Hdt Hnu H. apply (cc_fixed_iff nv dv dt nu C D (fun i => n * exp (- phi i))); try assumption.
  intros j Hj. destruct (H j Hj) as (H1 & H2 & H3). replace (1 / 10 ^ 8) with (1 / 100000000) in H3 by (simpl; field). now apply flux_equilibrium.
Qed.
Print Assumptions C34_equilibrium_preserved.
(** The Maxwellian under the beta-based models (drift 2 beta D (v_edge - vbar)). *)
Theorem C34_maxwellian_preserved (nv : nat) (v : nat -> R) (dv vbar beta D : R) (nu : nat -> R) (dt n : R) (f_new : nat -> R) :
  0 < dv -> 0 <= dt -> (forall i, (i < nv)%nat -> 0 <= nu i) -> 1 / 10 ^ 30 <= D ->
  (forall j, (S j < nv)%nat -> v (S j) = v j + dv) ->
  (forall j, (S j < nv)%nat -> let w := beta * (v (S j) - vbar) ^ 2 - beta * (v j - vbar) ^ 2 in w = 0 \/ 1 / 10 ^ 8 <= Rabs w) ->
  (implicit_step nv (chang_cooper nv dv (beta_drift v vbar beta D) (fun _ => D) nu dt) (fun i => n * exp (- (beta * (v i - vbar) ^ 2))) f_new
   <-> forall i, (i < nv)%nat -> f_new i = n * exp (- (beta * (v i - vbar) ^ 2))).
Proof.
  intros Hdv Hdt Hnu HD Hg Hw. apply (C34_equilibrium_preserved nv dv _ _ nu dt n (fun i => beta * (v i - vbar) ^ 2)); try assumption.
  intros j Hj. split; [exact HD|]. split; [apply beta_peclet; now apply Hg|]. destruct (Hw j Hj) as [E|E]; [left; lra|now right].
Qed.
Print Assumptions C34_maxwellian_preserved.
(** FastVFP on the positive grid (nu = nuee / v^2). *)
Theorem C34_fast_vfp_preserved (nv : nat) (v : nat -> R) (dv beta nuee dt n : R) (f_new : nat -> R) :
  0 < dv -> 0 <= dt -> 0 <= nuee -> 0 < beta -> (forall i, (i < nv)%nat -> 0 < v i) ->
  (forall j, (S j < nv)%nat -> v (S j) = v j + dv) ->
  (forall j, (S j < nv)%nat -> 1 / 10 ^ 30 <= 1 / (beta * (v (S j) + v j)) /\ 1 / 10 ^ 8 <= beta * v (S j) ^ 2 - beta * v j ^ 2) ->
  (implicit_step nv (chang_cooper nv dv fast_vfp_C (fast_vfp_D v beta) (spherical_nu nuee v) dt) (fun i => n * exp (- (beta * v i ^ 2))) f_new
   <-> forall i, (i < nv)%nat -> f_new i = n * exp (- (beta * v i ^ 2))).
Proof.
  intros Hdv Hdt Hnu Hb Hv Hg Hw. apply (C34_equilibrium_preserved nv dv _ _ _ dt n (fun i => beta * v i ^ 2)); try assumption.
  - intros i Hi. specialize (Hv i Hi). unfold spherical_nu. apply Rmult_le_pos; [exact Hnu|]. apply Rlt_le, Rinv_0_lt_compat, pow_lt. exact Hv.
  - intros j Hj. pose proof (Hv j ltac:(lia)) as V. pose proof (Hg j Hj) as G. destruct (Hw j Hj) as [W1 W2]. split; [|split].
    + unfold fast_vfp_D, v_edge. replace (2 * beta * (1 / 2 * (v (S j) + v j))) with (beta * (v (S j) + v j)) by field. exact W1.
    + apply fast_vfp_peclet; [exact G|lra|]. unfold v_edge. rewrite G. lra.
    + right. rewrite Rabs_right; [exact W2|]. assert (0 < 1 / 10 ^ 8) by (apply Rdiv_lt_0_compat; [lra|apply pow_lt; lra]). lra.
Qed.
Print Assumptions C34_fast_vfp_preserved.
(** The sampled super-Gaussian exp(-beta |v - vbar|^m), any exponent m and any grid. *)
Theorem C34_super_gaussian_preserved (nv : nat) (v : nat -> R) (dv vbar beta m D : R) (nu : nat -> R) (dt n : R) (f_new : nat -> R) :
  0 < dv -> 0 <= dt -> (forall i, (i < nv)%nat -> 0 <= nu i) -> 1 / 10 ^ 30 <= D ->
  (forall j, (S j < nv)%nat -> let w := beta * abs_pow (v (S j) - vbar) m - beta * abs_pow (v j - vbar) m in w = 0 \/ 1 / 10 ^ 8 <= Rabs w) ->
  (implicit_step nv (chang_cooper nv dv (super_gaussian_C v vbar beta m D dv) (fun _ => D) nu dt) (fun i => n * exp (- (beta * abs_pow (v i - vbar) m))) f_new
   <-> forall i, (i < nv)%nat -> f_new i = n * exp (- (beta * abs_pow (v i - vbar) m))).
Proof.
  intros Hdv Hdt Hnu HD Hw. apply (C34_equilibrium_preserved nv dv _ _ nu dt n (fun i => beta * abs_pow (v i - vbar) m)); try assumption.
  intros j Hj. split; [exact HD|]. split; [unfold super_gaussian_C, super_gaussian_phi; field; lra|]. destruct (Hw j Hj) as [E|E]; [left; lra|now right].
Qed.
Print Assumptions C34_super_gaussian_preserved.
(** When an edge does fall in the series branch, the step has to change cell i by at most 2e-24 D dt nu_i / dv^2
    times the largest edge difference [M] of the equilibrium. *)
Theorem C34_series_residual (nv : nat) (dv : R) (C D nu : nat -> R) (dt n M Dmax : R) (phi : nat -> R) :
  0 < dv -> 0 <= dt -> (forall i, (i < nv)%nat -> 0 <= nu i) -> 0 <= M -> 0 <= Dmax ->
  (forall j, (S j < nv)%nat -> 1 / 10 ^ 30 <= D j <= Dmax /\ C j * dv = D j * (phi (S j) - phi j) /\ Rabs (n * exp (- phi (S j)) - n * exp (- phi j)) <= M) ->
  forall i, (i < nv)%nat ->
  Rabs (mv nv (chang_cooper nv dv C D nu dt) (fun i => n * exp (- phi i)) i - n * exp (- phi i)) <= 2 / 10 ^ 24 * (Dmax * M * dt * nu i / dv ^ 2).
Proof.
  intros Hdv Hdt Hnu HM HDm H i Hi. rewrite chang_cooper_eq, assemble_mv by exact Hi. set (F := flux nv (cc_alpha dv C D) (cc_beta dv C D) (fun i => n * exp (- phi i))).
  assert (P24 : 0 < 1 / 10 ^ 24) by (apply Rdiv_lt_0_compat; [lra|apply pow_lt; lra]). assert (P30 : 0 < 1 / 10 ^ 30) by (apply Rdiv_lt_0_compat; [lra|apply pow_lt; lra]).
  set (B := Dmax * M * (1 / 10 ^ 24) / dv). assert (HB : 0 <= B) by (unfold B; apply Rmult_le_pos; [apply Rmult_le_pos; [now apply Rmult_le_pos|lra]|apply Rlt_le, Rinv_0_lt_compat, Hdv]).
  assert (HF : forall j, Rabs (F j) <= B).
  { intros j. destruct (Nat.ltb (S j) nv) eqn:E; [|unfold F, flux; rewrite E, Rabs_R0; exact HB]. apply Nat.ltb_lt in E. destruct (H j E) as ((H1 & H1') & H2 & H3).
    eapply Rle_trans; [apply flux_series; assumption|]. unfold B. apply Rmult_le_compat_r; [apply Rlt_le, Rinv_0_lt_compat, Hdv|]. apply Rmult_le_compat_r; [lra|]. apply Rmult_le_compat; try assumption; [lra|apply Rabs_pos]. }
  assert (HL : Rabs (flux_left nv (cc_alpha dv C D) (cc_beta dv C D) (fun i => n * exp (- phi i)) i) <= B) by (destruct i as [|j]; cbn [flux_left]; [rewrite Rabs_R0; exact HB|apply HF]).
  set (G := flux_left nv (cc_alpha dv C D) (cc_beta dv C D) (fun i => n * exp (- phi i)) i) in *.
  replace (n * exp (- phi i) - dt * nu i / dv * (F i - G) - n * exp (- phi i)) with (- (dt * nu i / dv * (F i - G))) by ring. rewrite Rabs_Ropp, Rabs_mult.
  pose proof (cc_k nv dv nu dt Hdv Hdt Hnu i Hi) as Kp. rewrite (Rabs_right (dt * nu i / dv)) by lra.
  replace (2 / 10 ^ 24 * (Dmax * M * dt * nu i / dv ^ 2)) with (dt * nu i / dv * (2 * B)) by (unfold B; field; lra).
  apply Rmult_le_compat_l; [exact Kp|]. unfold Rminus. eapply Rle_trans; [apply Rabs_triang|]. rewrite Rabs_Ropp. specialize (HF i). lra.
Qed.
Print Assumptions C34_series_residual.

(** Four cells at -3/2, -1/2, 1/2, 3/2 with beta = 1/2, vbar = 0, D = 1: Peclet numbers -1, 0, 1. *)
Definition v4 (i : nat) : R := INR i - 3 / 2.
Example C34_nonvacuous : forall i, (S i < 4)%nat -> v4 (S i) = v4 i + 1 /\
  let w := 1 / 2 * (v4 (S i) - 0) ^ 2 - 1 / 2 * (v4 i - 0) ^ 2 in w = 0 \/ 1 / 10 ^ 8 <= Rabs w.
Proof.
  intros i Hi. split; [unfold v4; rewrite S_INR; lra|]. destruct i as [|[|[|i]]]; [| | |lia]; unfold v4; cbn zeta.
  - right. replace (1 / 2 * (INR 1 - 3 / 2 - 0) ^ 2 - 1 / 2 * (INR 0 - 3 / 2 - 0) ^ 2) with (- (1)) by (cbn; field). rewrite Rabs_Ropp, Rabs_R1. unfold Rdiv. rewrite Rmult_1_l, <- Rinv_1. apply Rinv_le_contravar; [lra|]. rewrite <- (pow1 8). apply pow_incr. lra.
  - left. cbn. lra.
  - right. replace (1 / 2 * (INR 3 - 3 / 2 - 0) ^ 2 - 1 / 2 * (INR 2 - 3 / 2 - 0) ^ 2) with 1 by (cbn; field). rewrite Rabs_R1. unfold Rdiv. rewrite Rmult_1_l, <- Rinv_1. apply Rinv_le_contravar; [lra|]. rewrite <- (pow1 8). apply pow_incr. lra.
Qed.

(* ------------------------------------------------------------------------------------------------ *)
(** * C35: the weight *)
Theorem C35_weight (w : R) :
  0 < chang_cooper_delta w < 1 /\ chang_cooper_delta w + chang_cooper_delta (- w) = 1 /\
  (w <> 0 -> Rabs (chang_cooper_delta w - (1 / w - 1 / (exp w - 1))) <= 1 / 10 ^ 16).
Proof.
  split; [split; [apply delta_pos|apply delta_lt1]|]. split; [apply delta_sum|]. intros Hw.
  assert (P : 0 <= 1 / 10 ^ 16) by (apply Rlt_le, Rdiv_lt_0_compat; [lra|apply pow_lt; lra]).
  destruct (small w) eqn:E.
  - rewrite (cc_small w E). apply small_true in E. eapply Rle_trans; [apply series_close; [exact Hw|lra]|].
    rewrite <- (pow2_abs w). replace (1 / 10 ^ 16) with ((1 / 100000000) ^ 2) by (simpl; field). apply pow_incr. split; [apply Rabs_pos|lra].
  - rewrite (cc_full w E). unfold delta_full. rewrite Rminus_diag_eq by reflexivity. now rewrite Rabs_R0.
Qed.
Print Assumptions C35_weight.
Example C35_nonvacuous : chang_cooper_delta 0 = 1 / 2 /\ chang_cooper_delta 1 = 1 - 1 / (exp 1 - 1).
Proof.
  split.
  - rewrite cc_small by (apply small_true; rewrite Rabs_R0; lra). unfold delta_small. lra.
  - rewrite cc_full by (apply small_false; rewrite Rabs_R1; lra). unfold delta_full. lra.
Qed.

(* ------------------------------------------------------------------------------------------------ *)
(** * C49: the log-mean scheme and the kernel models *)
(** The edge value of the log-mean scheme is the logarithmic mean used for the diffusion coefficient. *)
Theorem C49_log_mean_edges (f : nat -> R) (j : nat) :
  1 / 10 ^ 200 <= f j -> 1 / 10 ^ 200 <= f (S j) ->
  let delta := chang_cooper_delta (- ln (f (S j) / f j)) in
  (1 / 10 ^ 8 <= Rabs (ln (f (S j) / f j)) -> delta * f j + (1 - delta) * f (S j) = (f (S j) - f j) / ln (f (S j) / f j) /\ log_mean_interp f j = (f (S j) - f j) / ln (f (S j) / f j)) /\
  (f (S j) = f j -> delta * f j + (1 - delta) * f (S j) = f j /\ log_mean_interp f j = f j).
Proof.
  intros H1 H2. assert (F : 0 < 1 / 10 ^ 200) by (apply Rdiv_lt_0_compat; [lra|apply pow_lt; lra]).
  assert (L : forall (P : f (S j) = f j \/ 1 / 100000000 <= Rabs (ln (f (S j) / f j))), chang_cooper_delta (- ln (f (S j) / f j)) * f j + (1 - chang_cooper_delta (- ln (f (S j) / f j))) * f (S j) = log_mean_interp f j).
  { intros P. rewrite <- (lm_edge f j H1 H2 P). unfold lm_delta, log_mean_floor. now rewrite !(Rmax_left (f j)), !(Rmax_left (f (S j))) by assumption. }
  intros delta. unfold delta. split.
  - intros H. replace (1 / 10 ^ 8) with (1 / 100000000) in H by (simpl; field). assert (E := log_mean_edge (f j) (f (S j)) ltac:(lra) ltac:(lra) H).
    split; [exact E|]. rewrite <- L by (now right). exact E.
  - intros H. rewrite <- L by (now left). rewrite H. split; ring.
Qed.
Print Assumptions C49_log_mean_edges.

Definition kernel_model (K : kernel) (nv : nat) (v : nat -> R) (dv : R) : Prop := K = asymptotic_local nv v dv \/ K = coulombian nv v dv.
(** Semidiscrete energy conservation: the right-hand side of the log-mean scheme with a kernel model carries no
    energy (fourth moment of f, spherical geometry), whatever the distribution. *)
Theorem C49_kernel_energy (K : kernel) (nv : nat) (v : nat -> R) (dv dt nuee : R) (f : nat -> R) :
  kernel_model K nv v dv -> 0 < dv ->
  (forall i, (i < nv)%nat -> 0 < v i /\ 1 / 10 ^ 200 <= f i) ->
  (forall j, (S j < nv)%nat -> v (S j) = v j + dv /\ 1 / 10 ^ 30 <= kernel_D K v f j /\ (f (S j) = f j \/ 1 / 10 ^ 8 <= Rabs (ln (f (S j) / f j)))) ->
  rsum nv (fun i => v i ^ 4 * (f i - mv nv (get_operator (LogMeanFlux f) nv dv (kernel_C K v dv f) (kernel_D K v f) (spherical_nu nuee v) dt) f i)) = 0.
Proof.
  intros HK Hdv H1 H2. apply kernel_energy; try assumption.
  - destruct HK as [-> | ->]; [apply asymptotic_symmetric|apply coulombian_symmetric].
  - intros; now apply H1. - intros i Hi; now destruct (H2 i Hi). - intros i Hi; unfold log_mean_floor; now destruct (H1 i Hi).
  - intros j Hj. destruct (H2 j Hj) as (_ & _ & E). replace (1 / 10 ^ 8) with (1 / 100000000) in E by (simpl; field). exact E.
  - intros j Hj. now destruct (H2 j Hj) as (_ & E & _).
Qed.
Print Assumptions C49_kernel_energy.
(** Kernel models keep the Maxwellian: unchanged by every solution of the Chang-Cooper step, and a solution of the
    log-mean step. *)
Theorem C49_kernel_maxwellian (K : kernel) (nv : nat) (v : nat -> R) (dv dt nuee n beta : R) (f f_new : nat -> R) :
  kernel_model K nv v dv -> 0 < dv -> 0 <= dt -> 0 <= nuee -> 0 < n -> (forall i, f i = n * exp (- beta * v i ^ 2)) ->
  (forall i, (i < nv)%nat -> 0 < v i /\ 1 / 10 ^ 200 <= f i) ->
  (forall j, (S j < nv)%nat -> v (S j) = v j + dv /\ 1 / 10 ^ 30 <= kernel_D K v f j /\ 1 / 10 ^ 8 <= beta * (v (S j) ^ 2 - v j ^ 2)) ->
  (implicit_step nv (get_operator ChangCooper nv dv (kernel_C K v dv f) (kernel_D K v f) (spherical_nu nuee v) dt) f f_new <-> forall i, (i < nv)%nat -> f_new i = f i) /\
  implicit_step nv (get_operator (LogMeanFlux f) nv dv (kernel_C K v dv f) (kernel_D K v f) (spherical_nu nuee v) dt) f f.
Proof.
  intros HK Hdv Hdt Hnu Hn Hf H1 H2. assert (f = fun i => n * exp (- beta * v i ^ 2)) as Ef by (apply FunctionalExtensionality.functional_extensionality; exact Hf). clear Hf.
  assert (Hlin : linear K nv) by (destruct HK as [-> | ->]; [apply asymptotic_linear|apply coulombian_linear]).
  assert (Hloc : local K nv) by (destruct HK as [-> | ->]; [apply asymptotic_ext|apply coulombian_ext]).
  assert (Hv : forall i, (i < nv)%nat -> 0 < v i) by (intros; now apply H1). assert (Hg : forall i, (S i < nv)%nat -> v (S i) = v i + dv) by (intros i Hi; now destruct (H2 i Hi)).
  assert (Hb : forall i, (S i < nv)%nat -> 1 / 100000000 <= beta * (v (S i) ^ 2 - v i ^ 2)) by (intros i Hi; destruct (H2 i Hi) as (_ & _ & E); replace (1 / 10 ^ 8) with (1 / 100000000) in E by (simpl; field); exact E).
  assert (HD : forall i, (S i < nv)%nat -> 1 / 10 ^ 30 <= kernel_D K v f i) by (intros i Hi; now destruct (H2 i Hi) as (_ & E & _)).
  assert (HF : forall i, (i < nv)%nat -> log_mean_floor <= f i) by (intros i Hi; now destruct (H1 i Hi)). subst f.
  assert (Hnui : forall i, (i < nv)%nat -> 0 <= spherical_nu nuee v i) by (intros i Hi; unfold spherical_nu; apply Rmult_le_pos; [exact Hnu|apply Rlt_le, Rinv_0_lt_compat, pow_lt, Hv; exact Hi]).
  cbn [get_operator]. split.
  - apply cc_fixed_iff; try assumption. intros j Hj. now apply kernel_cc_flux.
  - rewrite step_solves, log_mean_flux_eq. apply zero_flux_fixed. intros j Hj. now apply kernel_lm_flux.
Qed.
Print Assumptions C49_kernel_maxwellian.
(** Three cells at v = 1, 2, 3 with f = (4, 2, 1) and the AsymptoticLocal kernel meet the hypotheses. *)
Definition v3 (i : nat) : R := INR i + 1.
Definition f3 (i : nat) : R := match i with O => 4 | 1%nat => 2 | _ => 1 end.
Lemma tiny k : 0 <= 1 / 10 ^ k <= 1.
Proof. split; [apply Rlt_le, Rdiv_lt_0_compat; [lra|apply pow_lt; lra]|]. unfold Rdiv. rewrite Rmult_1_l, <- Rinv_1. apply Rinv_le_contravar; [lra|]. rewrite <- (pow1 k). apply pow_incr. lra. Qed.
Example C49_nonvacuous : let K := asymptotic_local 3 v3 1 in
  (forall i, (i < 3)%nat -> 0 < v3 i /\ 1 / 10 ^ 200 <= f3 i) /\
  (forall j, (S j < 3)%nat -> v3 (S j) = v3 j + 1 /\ 1 / 10 ^ 30 <= kernel_D K v3 f3 j /\ (f3 (S j) = f3 j \/ 1 / 10 ^ 8 <= Rabs (ln (f3 (S j) / f3 j)))).
Proof.
  intros K. assert (L2 : 1 / 2 < ln 2 < 1).
  { split; [pose proof ln_lt_2; lra|]. rewrite <- (ln_exp 1). apply ln_increasing; [lra|]. pose proof (exp_ineq1 1 ltac:(lra)). lra. }
  assert (Lh : ln (1 / 2) = - ln 2) by (unfold Rdiv; rewrite Rmult_1_l, ln_Rinv; lra).
  assert (Hr : forall j, (S j < 3)%nat -> f3 (S j) / f3 j = 1 / 2) by (intros j Hj; destruct j as [|[|j]]; [| |lia]; cbn; field).
  assert (T8 : 1 / 100000000 <= 1 / 2) by lra.
  assert (LM : forall j, (S j < 3)%nat -> 1 <= log_mean_interp f3 j).
  { intros j Hj. pose proof (tiny 300) as TT. assert (F1 : forall i, 1 <= f3 i) by (intros i; destruct i as [|[|i]]; cbn; lra).
    unfold log_mean_interp. fold interp_floor in TT. rewrite !Rmax_left by (pose proof (F1 j); pose proof (F1 (S j)); unfold interp_floor in *; lra). rewrite (Hr j Hj), Lh.
    assert (Sm : small (- ln 2) = false) by (apply small_false; rewrite Rabs_Ropp, Rabs_right; lra). rewrite Sm.
    destruct (Rlt_dec (f3 j) interp_floor) as [X|_]; [pose proof (F1 j); unfold interp_floor in *; lra|]. destruct (Rlt_dec (f3 (S j)) interp_floor) as [X|_]; [pose proof (F1 (S j)); unfold interp_floor in *; lra|]. cbn [orb].
    replace ((f3 (S j) - f3 j) / - ln 2) with ((f3 j - f3 (S j)) / ln 2) by (field; lra). apply Rmult_le_reg_r with (ln 2); [lra|]. replace ((f3 j - f3 (S j)) / ln 2 * ln 2) with (f3 j - f3 (S j)) by (field; lra). destruct j as [|[|j]]; [| |lia]; cbn; lra. }
  split.
  - intros i Hi. pose proof (tiny 200). split; [unfold v3; pose proof (pos_INR i); lra|]. destruct i as [|[|i]]; cbn [f3]; lra.
  - intros j Hj. split; [unfold v3; rewrite S_INR; ring|]. split.
    + apply Rle_trans with 1; [apply tiny|]. unfold kernel_D, K, asymptotic_local. replace (3 - 1)%nat with 2%nat by lia. cbn [rsum].
      pose proof (LM 0%nat ltac:(lia)) as M0. pose proof (LM 1%nat ltac:(lia)) as M1. set (l0 := log_mean_interp f3 0) in *. set (l1 := log_mean_interp f3 1) in *.
      assert (s0 : sqrt_eps_edge v3 0 * sqrt_eps_edge v3 0 = 5 / 2) by (unfold sqrt_eps_edge, v3; rewrite sqrt_sqrt; cbn; lra).
      assert (s1 : sqrt_eps_edge v3 1 * sqrt_eps_edge v3 1 = 13 / 2) by (unfold sqrt_eps_edge, v3; rewrite sqrt_sqrt; cbn; lra).
      assert (p0 : 0 <= sqrt_eps_edge v3 0) by apply sqrt_pos. assert (p1 : 0 <= sqrt_eps_edge v3 1) by apply sqrt_pos.
      set (a := sqrt_eps_edge v3 0) in *. set (b := sqrt_eps_edge v3 1) in *. assert (ab : 0 <= a * b) by now apply Rmult_le_pos.
      replace (d_eps_edge v3 1 0) with 3 by (unfold d_eps_edge, v3; cbn; ring). replace (d_eps_edge v3 1 1) with 5 by (unfold d_eps_edge, v3; cbn; ring).
      pose proof PI2_3_2 as HP. assert (HPI : 3 <= PI) by (unfold PI2 in *; lra).
      destruct j as [|[|j]]; [| |lia].
      * fold a. replace (2 * v_edge v3 0) with 3 by (unfold v_edge, v3; cbn; field).
        replace (a * (4 * PI * (0 + a * l0 * 3 + b * l1 * 5)) / 3) with (4 * PI * ((a * a) * l0 + (a * b) * l1 * 5 / 3)) by field. rewrite s0.
        assert (0 <= (a * b) * l1) by (apply Rmult_le_pos; lra). assert (1 <= 5 / 2 * l0 + a * b * l1 * 5 / 3) by lra. nra.
      * fold b. replace (2 * v_edge v3 1) with 5 by (unfold v_edge, v3; cbn; field).
        replace (b * (4 * PI * (0 + a * l0 * 3 + b * l1 * 5)) / 5) with (4 * PI * ((b * b) * l1 + (a * b) * l0 * 3 / 5)) by field. rewrite s1.
        assert (0 <= (a * b) * l0) by (apply Rmult_le_pos; lra). assert (1 <= 13 / 2 * l1 + a * b * l0 * 3 / 5) by lra. nra.
    + right. rewrite (Hr j Hj), Lh, Rabs_Ropp, Rabs_right by lra. replace (1 / 10 ^ 8) with (1 / 100000000) by (simpl; field). lra.
Qed.

(* ------------------------------------------------------------------------------------------------ *)
(** * C50: momentum and energy of the central-difference Dougherty step *)
(** vL, vR: the outer edges of the grid. The drift is (v_edge - vbar) with vbar the mean velocity of the old f and
    D = 1 / (2 beta). *)
Section Moments.
Variables (m : nat) (v : nat -> R) (dv beta nu dt : R) (f f_new : nat -> R).
Let nv := S m.
Let vbar := mean_velocity nv v f.
Let D := thermal_D beta.
Let vL := v 0%nat - dv / 2.
Let vR := v m + dv / 2.
Hypothesis Hdv : 0 < dv.
Hypothesis Hbeta : beta <> 0.
Hypothesis Hg : forall i, (i < m)%nat -> v (S i) = v i + dv.
Hypothesis Hn : rsum nv f <> 0.
Hypothesis Hstep : implicit_step nv (central nv dv (beta_drift v vbar beta D) (fun _ => D) (fun _ => nu) dt) f f_new.

Let alpha := fun j => - beta_drift v vbar beta D j / 2 + D / dv.
Let beta' := fun j => - beta_drift v vbar beta D j / 2 - D / dv.
Lemma moments_flux j : (j < m)%nat -> flux nv alpha beta' f_new j = (v_edge v j - vbar) * ((f_new j + f_new (S j)) / 2) + D * (f_new (S j) - f_new j) / dv.
Proof.
  intros Hj. unfold alpha, beta'. rewrite (central_flux_eq nv dv (beta_drift v vbar beta D) (fun _ => D)) by exact Hdv. rewrite (proj2 (Nat.ltb_lt _ _)) by (unfold nv; lia).
  unfold beta_drift. replace (2 * beta * D) with 1 by (unfold D, thermal_D; field; exact Hbeta). field. lra.
Qed.
Lemma moments_density : rsum nv f_new = rsum nv f.
Proof. apply (C32_density_conserved CentralDifferencing nv dv (beta_drift v vbar beta D) (fun _ => D) nu dt). exact Hstep. Qed.
Lemma moments_vbar : rsum nv (fun i => f i * v i) = vbar * rsum nv f.
Proof. unfold vbar, mean_velocity. field. exact Hn. Qed.
Lemma momentum_aux : (1 + dt * nu) * (rsum nv (fun i => f_new i * v i) - rsum nv (fun i => f i * v i)) =
  dt * nu * ((vL - vbar) * f_new 0%nat / 2 + (vR - vbar) * f_new m / 2 - D * (f_new m - f_new 0%nat) / dv).
Proof.
  pose proof Hstep as H. rewrite central_step in H. pose proof (step_moment nv dv dt nu alpha beta' f f_new v H) as E.
  replace (nv - 1)%nat with m in E by (unfold nv; lia).
  rewrite (rsum_ext m _ (fun j => dv * (v_edge v j * ((f_new j + f_new (S j)) / 2)) - dv * vbar * ((f_new j + f_new (S j)) / 2) + D * (f_new (S j) - f_new j))) in E.
  2:{ intros j Hj. rewrite moments_flux by exact Hj. rewrite (Hg j Hj). field. lra. }
  rewrite rsum_plus, rsum_minus, !rsum_scal, rsum_telescope, (edge_product_sum m v dv f_new Hg), (edge_average_sum m f_new) in E. fold nv in E.
  rewrite (rsum_ext nv (fun i => v i * f_new i) (fun i => f_new i * v i)), (rsum_ext nv (fun i => v i * f i) (fun i => f i * v i)) in E by (intros; ring).
  rewrite moments_density in E. pose proof moments_vbar as V. rewrite V in *.
  set (P := rsum nv (fun i => f_new i * v i)) in *. set (N := rsum nv f) in *.
  replace ((1 + dt * nu) * (P - vbar * N)) with ((P - vbar * N) + dt * nu * (P - vbar * N)) by ring. rewrite E at 1. unfold vL, vR. field. lra.
Qed.
Lemma energy_aux : (1 + 2 * (dt * nu)) * (rsum nv (fun i => f_new i * v i ^ 2) - rsum nv (fun i => f i * v i ^ 2)) =
  - (2 * (dt * nu)) * (rsum nv (fun i => f i * v i ^ 2) + (dv ^ 2 / 4 - D) * rsum nv f - vbar * rsum nv (fun i => f_new i * v i))
  + dt * nu * (vL * (vL - vbar) * f_new 0%nat + vR * (vR - vbar) * f_new m - 2 * D * (vR * f_new m - vL * f_new 0%nat) / dv).
Proof.
  pose proof Hstep as H. rewrite central_step in H. pose proof (step_moment nv dv dt nu alpha beta' f f_new (fun i => v i ^ 2) H) as E.
  replace (nv - 1)%nat with m in E by (unfold nv; lia).
  rewrite (rsum_ext m _ (fun j => 2 * dv * (v_edge v j ^ 2 * ((f_new j + f_new (S j)) / 2)) - 2 * dv * vbar * (v_edge v j * ((f_new j + f_new (S j)) / 2)) + 2 * D * (v_edge v j * (f_new (S j) - f_new j)))) in E.
  2:{ intros j Hj. rewrite moments_flux by exact Hj. unfold v_edge. rewrite (Hg j Hj). field. lra. }
  rewrite rsum_plus, rsum_minus, !rsum_scal, (edge_product_sum m v dv f_new Hg), (edge_square_sum m v dv f_new Hg), (edge_diff_sum m v dv f_new Hg) in E. fold nv in E.
  rewrite (rsum_ext nv (fun i => v i ^ 2 * f_new i) (fun i => f_new i * v i ^ 2)), (rsum_ext nv (fun i => v i ^ 2 * f i) (fun i => f i * v i ^ 2)) in E by (intros; ring).
  rewrite moments_density in E.
  set (P := rsum nv (fun i => f_new i * v i)) in *. set (N := rsum nv f) in *. set (En := rsum nv (fun i => f_new i * v i ^ 2)) in *. set (Eo := rsum nv (fun i => f i * v i ^ 2)) in *.
  replace ((1 + 2 * (dt * nu)) * (En - Eo)) with ((En - Eo) + 2 * (dt * nu) * (En - Eo)) by ring. rewrite E at 1. unfold vL, vR. field. lra.
Qed.
End Moments.

(** Momentum: the only source is the two boundary cells. *)
Theorem C50_dougherty_momentum (m : nat) (v : nat -> R) (dv beta nu dt : R) (f f_new : nat -> R) :
  0 < dv -> beta <> 0 -> (forall i, (i < m)%nat -> v (S i) = v i + dv) -> rsum (S m) f <> 0 ->
  let vbar := rsum (S m) (fun i => f i * v i) / rsum (S m) f in
  let D := 1 / (2 * beta) in
  let vL := v 0%nat - dv / 2 in
  let vR := v m + dv / 2 in
  implicit_step (S m) (get_operator CentralDifferencing (S m) dv (beta_drift v (mean_velocity (S m) v f) beta (thermal_D beta)) (fun _ => thermal_D beta) (fun _ => nu) dt) f f_new ->
  (1 + dt * nu) * (rsum (S m) (fun i => f_new i * v i) - rsum (S m) (fun i => f i * v i)) =
  dt * nu * ((vL - vbar) * f_new 0%nat / 2 + (vR - vbar) * f_new m / 2 - D * (f_new m - f_new 0%nat) / dv).
Proof. intros. now apply momentum_aux. Qed.
Print Assumptions C50_dougherty_momentum.
(** Hence a bound by the contents of the two boundary cells after the step. *)
Theorem C50_dougherty_momentum_bound (m : nat) (v : nat -> R) (dv beta nu dt : R) (f f_new : nat -> R) :
  0 < dv -> 0 < beta -> (forall i, (i < m)%nat -> v (S i) = v i + dv) -> rsum (S m) f <> 0 -> 0 <= dt * nu ->
  let vbar := rsum (S m) (fun i => f i * v i) / rsum (S m) f in
  let D := 1 / (2 * beta) in
  implicit_step (S m) (get_operator CentralDifferencing (S m) dv (beta_drift v (mean_velocity (S m) v f) beta (thermal_D beta)) (fun _ => thermal_D beta) (fun _ => nu) dt) f f_new ->
  Rabs (rsum (S m) (fun i => f_new i * v i) - rsum (S m) (fun i => f i * v i)) <=
  dt * nu * ((Rabs (v 0%nat - dv / 2 - vbar) / 2 + D / dv) * Rabs (f_new 0%nat) + (Rabs (v m + dv / 2 - vbar) / 2 + D / dv) * Rabs (f_new m)).
Proof.
  intros Hdv Hb Hg Hn Hk vbar D Hs. pose proof (momentum_aux m v dv beta nu dt f f_new Hdv ltac:(lra) Hg Hn Hs) as E. fold (mean_velocity (S m) v f) in vbar. fold vbar in E. fold (thermal_D beta) in D. fold D in E.
  set (X := rsum (S m) (fun i => f_new i * v i) - rsum (S m) (fun i => f i * v i)) in *. set (k := dt * nu) in *. set (a := v 0%nat - dv / 2 - vbar) in *. set (b := v m + dv / 2 - vbar) in *.
  assert (HD : 0 < D) by (unfold D, thermal_D; apply Rdiv_lt_0_compat; lra). assert (HDd : 0 < D / dv) by (now apply Rdiv_lt_0_compat).
  set (Y := a * f_new 0%nat / 2 + b * f_new m / 2 - D * (f_new m - f_new 0%nat) / dv) in *.
  assert (HX : Rabs X <= k * Rabs Y). { assert (Rabs ((1 + k) * X) = k * Rabs Y) by (rewrite E, Rabs_mult, (Rabs_right k) by lra; reflexivity). rewrite Rabs_mult, (Rabs_right (1 + k)) in H by lra. pose proof (Rabs_pos X). nra. }
  eapply Rle_trans; [exact HX|]. apply Rmult_le_compat_l; [exact Hk|].
  replace Y with ((a / 2 + D / dv) * f_new 0%nat + (b / 2 + - (D / dv)) * f_new m) by (unfold Y; field; lra).
  eapply Rle_trans; [apply Rabs_triang|]. rewrite !Rabs_mult.
  assert (T1 : Rabs (a / 2 + D / dv) <= Rabs a / 2 + D / dv). { eapply Rle_trans; [apply Rabs_triang|]. rewrite (Rabs_right (D / dv)) by lra. unfold Rdiv. rewrite Rabs_mult, (Rabs_right (/ 2)) by lra. lra. }
  assert (T2 : Rabs (b / 2 + - (D / dv)) <= Rabs b / 2 + D / dv). { eapply Rle_trans; [apply Rabs_triang|]. rewrite Rabs_Ropp, (Rabs_right (D / dv)) by lra. unfold Rdiv. rewrite Rabs_mult, (Rabs_right (/ 2)) by lra. lra. }
  apply Rplus_le_compat; apply Rmult_le_compat_r; try apply Rabs_pos; assumption.
Qed.
Print Assumptions C50_dougherty_momentum_bound.
(** Energy: apart from boundary cells and the momentum error, a step is exact only for D = T + dv^2/4, T the
    discrete temperature of f; the temperature relaxes towards D - dv^2/4. *)
Theorem C50_dougherty_energy (m : nat) (v : nat -> R) (dv beta nu dt : R) (f f_new : nat -> R) :
  0 < dv -> beta <> 0 -> (forall i, (i < m)%nat -> v (S i) = v i + dv) -> rsum (S m) f <> 0 ->
  let n := rsum (S m) f in
  let vbar := rsum (S m) (fun i => f i * v i) / n in
  let T := rsum (S m) (fun i => f i * (v i - vbar) ^ 2) / n in
  let D := 1 / (2 * beta) in
  let vL := v 0%nat - dv / 2 in
  let vR := v m + dv / 2 in
  implicit_step (S m) (get_operator CentralDifferencing (S m) dv (beta_drift v (mean_velocity (S m) v f) beta (thermal_D beta)) (fun _ => thermal_D beta) (fun _ => nu) dt) f f_new ->
  (1 + 2 * (dt * nu)) * (rsum (S m) (fun i => f_new i * v i ^ 2) - rsum (S m) (fun i => f i * v i ^ 2)) =
  2 * (dt * nu) * n * (D - dv ^ 2 / 4 - T)
  + 2 * (dt * nu) * vbar * (rsum (S m) (fun i => f_new i * v i) - rsum (S m) (fun i => f i * v i))
  + dt * nu * (vL * (vL - vbar) * f_new 0%nat + vR * (vR - vbar) * f_new m - 2 * D * (vR * f_new m - vL * f_new 0%nat) / dv).
Proof.
  intros Hdv Hb Hg Hn n vbar T D vL vR Hs. pose proof (energy_aux m v dv beta nu dt f f_new Hdv Hb Hg Hs) as E.
  rewrite E. clear E. fold n. fold vL vR.
  assert (HT : n * T = rsum (S m) (fun i => f i * v i ^ 2) - vbar * rsum (S m) (fun i => f i * v i)).
  { unfold T. replace (n * (rsum (S m) (fun i => f i * (v i - vbar) ^ 2) / n)) with (rsum (S m) (fun i => f i * (v i - vbar) ^ 2)) by (field; exact Hn).
    rewrite (rsum_ext (S m) _ (fun i => f i * v i ^ 2 - 2 * vbar * (f i * v i) + vbar ^ 2 * f i)) by (intros; ring). rewrite rsum_plus, rsum_minus, !rsum_scal. fold n.
    replace (rsum (S m) (fun i => f i * v i)) with (vbar * n) by (unfold vbar; field; exact Hn). ring. }
  replace (2 * (dt * nu) * n * (D - dv ^ 2 / 4 - T)) with (2 * (dt * nu) * (n * (D - dv ^ 2 / 4) - n * T)) by ring. rewrite HT.
  change (thermal_D beta) with D. change (mean_velocity (S m) v f) with vbar. fold vL vR. field. lra.
Qed.
Print Assumptions C50_dougherty_energy.
(** Two cells at -1/2 and 1/2, beta = 1/2, dt nu = 1: (3, 1) goes to (5/2, 3/2), momentum -1 to -1/2. *)
Example C50_nonvacuous : let v := two (-1/2) (1/2) in let f := two 3 1 in
  implicit_step 2 (get_operator CentralDifferencing 2 1 (beta_drift v (mean_velocity 2 v f) (1/2) (thermal_D (1/2))) (fun _ => thermal_D (1/2)) (fun _ => 1) 1) f (two (5/2) (3/2)).
Proof.
  cbn [get_operator]. rewrite central_step, step_solves. unfold beta_drift, v_edge, mean_velocity, thermal_D. cells; rewrite assemble_mv by lia; unfold flux_left, flux; cbn [Nat.ltb Nat.leb two rsum]; field.
Qed.

(* ------------------------------------------------------------------------------------------------ *)
(** * C51: dougherty_nodrag *)
(** Density is conserved exactly. *)
Lemma nodrag_lap_flux nv dv g i : (2 <= nv)%nat -> 0 < dv -> (i < nv)%nat ->
  nodrag_lap nv dv g i = (flux nv (fun _ => / dv) (fun _ => - / dv) g i - flux_left nv (fun _ => / dv) (fun _ => - / dv) g i) / dv.
Proof.
  intros H2 Hdv Hi. unfold nodrag_lap. destruct i as [|i].
  - cbn [Nat.eqb flux_left]. unfold flux. rewrite (proj2 (Nat.ltb_lt 1 nv)) by lia. field. lra.
  - change (Nat.eqb (S i) 0) with false. cbn iota. cbn [flux_left]. replace (S i - 1)%nat with i by lia. destruct (Nat.eqb (S (S i)) nv) eqn:E.
    + apply Nat.eqb_eq in E. unfold flux. rewrite (proj2 (Nat.ltb_ge _ nv)), (proj2 (Nat.ltb_lt _ nv)) by lia. field. lra.
    + apply Nat.eqb_neq in E. unfold flux. rewrite !(proj2 (Nat.ltb_lt _ nv)) by lia. field. lra.
Qed.
Lemma flux_scal nv a b x c j : flux nv a b (fun i => c * x i) j = c * flux nv a b x j.
Proof. unfold flux. destruct (Nat.ltb _ nv); ring. Qed.
Lemma flux_minus nv a b x y j : flux nv a b (fun i => x i - y i) j = flux nv a b x j - flux nv a b y j.
Proof. unfold flux. destruct (Nat.ltb _ nv); ring. Qed.
(** The whole step in terms of the discrete Laplacian L with zero-flux ends. *)
Definition lap (nv : nat) (dv : R) (g : nat -> R) (i : nat) : R := nodrag_lap nv dv g i.
Lemma nodrag_mv nv dv D nu dt x i : (2 <= nv)%nat -> 0 < dv -> (i < nv)%nat ->
  mv nv (central nv dv (fun _ => 0) (fun _ => D) (fun _ => nu) dt) x i = x i - dt * nu * D * lap nv dv x i.
Proof.
  intros H2 Hdv Hi. rewrite central_mv, assemble_mv by exact Hi. unfold lap. rewrite nodrag_lap_flux by assumption.
  assert (E : forall j, flux nv (fun j => - 0 / 2 + D / dv) (fun j => - 0 / 2 - D / dv) x j = D * flux nv (fun _ => / dv) (fun _ => - / dv) x j) by (intros j; unfold flux; destruct (Nat.ltb _ nv); field; lra).
  rewrite E. destruct i as [|i]; cbn [flux_left]; rewrite ?E; field; lra.
Qed.
Lemma lap_minus nv dv x y i : lap nv dv (fun k => x k - y k) i = lap nv dv x i - lap nv dv y i.
Proof. unfold lap, nodrag_lap, Rdiv. destruct (Nat.eqb i 0); [|destruct (Nat.eqb _ nv)]; ring. Qed.
Lemma lap_scal nv dv x c i : lap nv dv (fun k => c * x k) i = c * lap nv dv x i.
Proof. unfold lap, nodrag_lap, Rdiv. destruct (Nat.eqb i 0); [|destruct (Nat.eqb _ nv)]; ring. Qed.
Lemma lap_parts nv dv x s : (2 <= nv)%nat -> 0 < dv -> rsum nv (fun i => s i * lap nv dv x i) = - rsum (nv - 1) (fun j => (s (S j) - s j) * (x (S j) - x j)) / dv ^ 2.
Proof.
  intros H2 Hdv. rewrite (rsum_ext nv _ (fun i => / dv * (s i * (flux nv (fun _ => / dv) (fun _ => - / dv) x i - flux_left nv (fun _ => / dv) (fun _ => - / dv) x i)))).
  2:{ intros i Hi. unfold lap. rewrite nodrag_lap_flux by assumption. unfold Rdiv. ring. }
  rewrite rsum_scal, flux_parts. destruct nv as [|n]; [lia|]. cbn [rsum]. replace (S n - 1)%nat with n by lia.
  assert (E0 : flux (S n) (fun _ => / dv) (fun _ => - / dv) x n = 0) by (unfold flux; now rewrite (proj2 (Nat.ltb_ge (S n) (S n))) by lia). rewrite E0.
  rewrite (rsum_ext n _ (fun j => - / dv * ((s (S j) - s j) * (x (S j) - x j)))).
  2:{ intros j Hj. unfold flux. rewrite (proj2 (Nat.ltb_lt _ _)) by lia. ring. }
  rewrite rsum_scal. field. lra.
Qed.
Lemma nodrag_form nv v dv vbar beta D nu dt f fn : (2 <= nv)%nat -> 0 < dv -> nodrag_step nv v dv vbar beta D nu dt f fn ->
  exists fs, (forall i, (i < nv)%nat -> fs i - dt * nu * D * lap nv dv fs i = f i) /\
    (forall i, (i < nv)%nat -> fn i = f i + dt * nu * D * lap nv dv (fun k => fs k - normalised_maxwellian nv v dv vbar beta f k) i).
Proof.
  intros H2 Hdv (fs & Hs & Hn). exists fs. rewrite step_solves in Hs. assert (E : forall i, (i < nv)%nat -> fs i - dt * nu * D * lap nv dv fs i = f i).
  { intros i Hi. rewrite <- (Hs i Hi). now rewrite nodrag_mv. }
  split; [exact E|]. intros i Hi. rewrite (Hn i Hi), <- (E i Hi), lap_minus.
  change (nodrag_lap nv dv (fun j => D * normalised_maxwellian nv v dv vbar beta f j) i) with (lap nv dv (fun j => D * normalised_maxwellian nv v dv vbar beta f j) i).
  rewrite lap_scal. rewrite (E i Hi). rewrite <- (E i Hi). ring.
Qed.
Lemma lap_sum nv dv x : (2 <= nv)%nat -> 0 < dv -> rsum nv (lap nv dv x) = 0.
Proof.
  intros H2 Hdv. rewrite (rsum_ext nv _ (fun i => 1 * lap nv dv x i)) by (intros; ring). rewrite (lap_parts nv dv x (fun _ => 1)) by assumption.
  rewrite (rsum_ext (nv - 1) _ (fun _ => 0)) by (intros; ring). rewrite rsum_zero. unfold Rdiv. ring.
Qed.
Theorem C51_nodrag_density (nv : nat) (v : nat -> R) (dv vbar beta D nu dt : R) (f f_new : nat -> R) :
  (2 <= nv)%nat -> 0 < dv -> nodrag_step nv v dv vbar beta D nu dt f f_new -> rsum nv f_new = rsum nv f.
Proof.
  intros H2 Hdv H. destruct (nodrag_form _ _ _ _ _ _ _ _ _ _ H2 Hdv H) as (fs & _ & Hn). rewrite (rsum_ext nv _ _ Hn), rsum_plus, rsum_scal, lap_sum by assumption. ring.
Qed.
Print Assumptions C51_nodrag_density.

(** The comment in the code says that the Maxwellian is a fixed point. Not so: when the old distribution is the
    Maxwellian of the model, the step returns it only if it is constant. *)
Theorem C51_nodrag_fixed_point (nv : nat) (v : nat -> R) (dv vbar beta D nu dt : R) (f f_new : nat -> R) :
  (2 <= nv)%nat -> 0 < dv -> 0 < D -> 0 < dt * nu ->
  (forall i, (i < nv)%nat -> f i = normalised_maxwellian nv v dv vbar beta f i) ->
  nodrag_step nv v dv vbar beta D nu dt f f_new -> (forall i, (i < nv)%nat -> f_new i = f i) ->
  forall i, (S i < nv)%nat -> f (S i) = f i.
Proof.
  intros H2 Hdv HD Hk HM H Hfix. destruct (nodrag_form _ _ _ _ _ _ _ _ _ _ H2 Hdv H) as (fs & Hs & Hn).
  set (k := dt * nu * D) in *. assert (Hkp : 0 < k) by (unfold k; apply Rmult_lt_0_compat; assumption).
  assert (LE : forall (x y : nat -> R) i, (i < nv)%nat -> (forall j, (j < nv)%nat -> x j = y j) -> lap nv dv x i = lap nv dv y i).
  { intros x y i Hi E. unfold lap, nodrag_lap. destruct (Nat.eqb i 0) eqn:E0; [now rewrite !E by lia|]. apply Nat.eqb_neq in E0. destruct (Nat.eqb (S i) nv) eqn:E1; [now rewrite !E by lia|]. apply Nat.eqb_neq in E1. now rewrite !E by lia. }
  assert (Z : forall i, (i < nv)%nat -> lap nv dv (fun j => fs j - f j) i = 0).
  { intros i Hi. specialize (Hn i Hi). rewrite (Hfix i Hi) in Hn. assert (k * lap nv dv (fun j => fs j - normalised_maxwellian nv v dv vbar beta f j) i = 0) by lra.
    apply Rmult_integral in H0. destruct H0 as [H0|H0]; [lra|]. rewrite <- H0. apply LE; [exact Hi|]. intros j Hj. now rewrite (HM j Hj). }
  (* fs - f = k lap fs, so lap (lap fs) = 0, lap fs = 0 *)
  assert (Z2 : rsum nv (fun i => fs i * lap nv dv (lap nv dv fs) i) = 0).
  { rewrite (rsum_ext nv _ (fun _ => 0)); [apply rsum_zero|]. intros i Hi. assert (lap nv dv (fun j => k * lap nv dv fs j) i = 0); [|rewrite lap_scal in H0; apply Rmult_integral in H0; destruct H0 as [H0|H0]; [lra|rewrite H0; ring]].
    rewrite <- (Z i Hi). apply LE; [exact Hi|]. intros j Hj. specialize (Hs j Hj). lra. }
  assert (Z3 : rsum nv (fun i => lap nv dv fs i * lap nv dv fs i) = 0).
  { rewrite <- Z2. rewrite (lap_parts nv dv fs (lap nv dv fs)), (lap_parts nv dv (lap nv dv fs) fs) by assumption. f_equal. f_equal. apply rsum_ext. intros. ring. }
  assert (Z4 : forall i, (i < nv)%nat -> lap nv dv fs i = 0).
  { intros i Hi. assert (S0 := rsum_nonneg_zero nv _ (fun j _ => Rle_0_sqr (lap nv dv fs j)) Z3 i Hi). apply Rmult_integral in S0. tauto. }
  assert (Z5 : forall i, (i < nv)%nat -> fs i = f i) by (intros i Hi; specialize (Hs i Hi); rewrite (Z4 i Hi) in Hs; lra).
  assert (Z6 : rsum (nv - 1) (fun j => (fs (S j) - fs j) * (fs (S j) - fs j)) = 0).
  { assert (E := lap_parts nv dv fs fs H2 Hdv). rewrite (rsum_ext nv _ (fun _ => 0)) in E by (intros i Hi; rewrite (Z4 i Hi); ring). rewrite rsum_zero in E.
    assert (0 < dv ^ 2) by (apply pow_lt; exact Hdv). set (Q := rsum (nv - 1) _) in *. apply Rmult_eq_reg_r with (/ dv ^ 2); [|apply Rinv_neq_0_compat; lra]. unfold Rdiv in E. lra. }
  intros i Hi. assert (S0 := rsum_nonneg_zero (nv - 1) _ (fun j _ => Rle_0_sqr (fs (S j) - fs j)) Z6 i ltac:(lia)). apply Rmult_integral in S0. rewrite <- (Z5 i), <- (Z5 (S i)) by lia. destruct S0; lra.
Qed.
Print Assumptions C51_nodrag_fixed_point.
Lemma nodrag_exists nv v dv vbar beta D nu dt f : 0 < dv -> 0 <= D -> 0 <= dt * nu -> exists f_new, nodrag_step nv v dv vbar beta D nu dt f f_new.
Proof.
  intros Hdv HD Hk. assert (Hid : 0 < / dv) by now apply Rinv_0_lt_compat. destruct (solution_exists nv dv dt (fun _ => nu) (fun _ => - 0 / 2 + D / dv) (fun _ => - 0 / 2 - D / dv)) with (b := f) as (x & Hx).
  - intros. apply Rmult_le_pos; lra. - intros. assert (0 <= D / dv) by (apply Rmult_le_pos; lra). lra. - intros. assert (0 <= D / dv) by (apply Rmult_le_pos; lra). lra.
  - exists (fun i => x i - dt * nu * nodrag_lap nv dv (fun j => D * normalised_maxwellian nv v dv vbar beta f j) i). exists x. split; [|reflexivity].
    rewrite central_step, step_solves. exact Hx.
Qed.
Theorem C51_nodrag_maxwellian_refuted : ~ forall (nv : nat) (v : nat -> R) (dv vbar beta D nu dt : R) (f f_new : nat -> R),
  (2 <= nv)%nat -> 0 < dv -> 0 < D -> 0 < dt * nu -> (forall i, (S i < nv)%nat -> v (S i) = v i + dv) ->
  (forall i, (i < nv)%nat -> f i = normalised_maxwellian nv v dv vbar beta f i) ->
  nodrag_step nv v dv vbar beta D nu dt f f_new -> forall i, (i < nv)%nat -> f_new i = f i.
Proof.
  intros H. set (v := fun i => INR i - 1). set (f := fun i => exp (- (1) * (v i - 0) ^ 2)).
  destruct (nodrag_exists 3 v 1 0 1 1 1 1 f) as (fn & Hfn); try lra.
  assert (M : forall i, (i < 3)%nat -> f i = normalised_maxwellian 3 v 1 0 1 f i).
  { intros i _. unfold normalised_maxwellian. fold f. assert (0 < rsum 3 f) by (apply rsum_pos; [lia|intros; apply exp_pos]). unfold f at 1. field. lra. }
  assert (Hfix := H 3%nat v 1 0 1 1 1 1 f fn ltac:(lia) ltac:(lra) ltac:(lra) ltac:(lra) ltac:(intros; unfold v; rewrite S_INR; lra) M Hfn).
  pose proof (C51_nodrag_fixed_point 3 v 1 0 1 1 1 1 f fn ltac:(lia) ltac:(lra) ltac:(lra) ltac:(lra) M Hfn Hfix 0%nat ltac:(lia)) as E.
  unfold f, v in E. apply exp_inv in E. cbn in E. lra.
Qed.
Print Assumptions C51_nodrag_maxwellian_refuted.

(** Momentum and energy: only the boundary cells of the deviation g = f* - f_M contribute. *)
Theorem C51_nodrag_moments (m : nat) (v : nat -> R) (dv vbar beta D nu dt : R) (f f_new : nat -> R) :
  (1 <= m)%nat -> 0 < dv -> (forall i, (i < m)%nat -> v (S i) = v i + dv) ->
  nodrag_step (S m) v dv vbar beta D nu dt f f_new ->
  exists g, rsum (S m) g = 0 /\
    rsum (S m) (fun i => f_new i * v i) - rsum (S m) (fun i => f i * v i) = - (dt * nu * D / dv) * (g m - g 0%nat) /\
    rsum (S m) (fun i => f_new i * v i ^ 2) - rsum (S m) (fun i => f i * v i ^ 2) = - (2 * dt * nu * D / dv) * ((v m + dv / 2) * g m - (v 0%nat - dv / 2) * g 0%nat).
Proof.
  intros Hm Hdv Hg H. assert (H2 : (2 <= S m)%nat) by lia. destruct (nodrag_form _ _ _ _ _ _ _ _ _ _ H2 Hdv H) as (fs & Hs & Hn). set (M := normalised_maxwellian (S m) v dv vbar beta f) in *.
  assert (SM : rsum (S m) M = rsum (S m) f).
  { unfold M, normalised_maxwellian. set (sh := fun j => exp (- beta * (v j - vbar) ^ 2)). rewrite (rsum_ext _ _ (fun i => sh i * (rsum (S m) f * dv / (rsum (S m) sh * dv)))) by reflexivity. rewrite rsum_scal_r.
    assert (0 < rsum (S m) sh) by (apply rsum_pos; [lia|intros; apply exp_pos]). field. split; lra. }
  assert (SF : rsum (S m) fs = rsum (S m) f).
  { rewrite <- (rsum_ext (S m) _ _ Hs), rsum_minus, rsum_scal, lap_sum by (try lia; assumption). ring. }
  exists (fun i => fs i - M i). set (g := fun i => fs i - M i) in *. assert (SG : rsum (S m) g = 0) by (unfold g; rewrite rsum_minus, SM, SF; ring).
  split; [exact SG|]. split.
  - rewrite (rsum_ext (S m) (fun i => f_new i * v i) (fun i => f i * v i + dt * nu * D * (v i * lap (S m) dv g i))) by (intros i Hi; rewrite (Hn i Hi); ring).
    rewrite rsum_plus, rsum_scal, lap_parts by (try lia; assumption). replace (S m - 1)%nat with m by lia.
    rewrite (rsum_ext m _ (fun j => dv * (g (S j) - g j))) by (intros j Hj; rewrite (Hg j Hj); ring). rewrite rsum_scal, rsum_telescope. unfold g. field. lra.
  - rewrite (rsum_ext (S m) (fun i => f_new i * v i ^ 2) (fun i => f i * v i ^ 2 + dt * nu * D * (v i ^ 2 * lap (S m) dv g i))) by (intros i Hi; rewrite (Hn i Hi); ring).
    rewrite rsum_plus, rsum_scal, (lap_parts (S m) dv g (fun i => v i ^ 2)) by (try lia; assumption). replace (S m - 1)%nat with m by lia.
    rewrite (rsum_ext m _ (fun j => 2 * dv * (v_edge v j * (g (S j) - g j)))) by (intros j Hj; unfold v_edge; rewrite (Hg j Hj); field). rewrite rsum_scal, (edge_diff_sum m v dv g Hg), SG. unfold g. field. lra.
Qed.
Print Assumptions C51_nodrag_moments.
Example C51_nonvacuous : exists f_new, nodrag_step 4 v4 1 0 (1/2) 1 1 1 (fun i => exp (- INR i)) f_new.
Proof. apply nodrag_exists; lra. Qed.

(* ------------------------------------------------------------------------------------------------ *)
(** * C52: Krook relaxation *)
Theorem C52_krook (nv : nat) (v : nat -> R) (dv T0 mass nu_K dt : R) (f : nat -> R) :
  (0 < nv)%nat -> 0 < dv -> let M := krook_shape nv v dv T0 mass in
  (* the target profile is normalised and positive *)
  rsum nv M * dv = 1 /\ (forall i, 0 < M i) /\
  (* density is conserved *)
  rsum nv (krook nv v dv T0 mass nu_K dt f) = rsum nv f /\
  (* the distance to the Maxwellian of the same density decays by exp(-nu dt) in every cell *)
  (forall i, krook nv v dv T0 mass nu_K dt f i - rsum nv f * dv * M i = exp (- (dt * nu_K)) * (f i - rsum nv f * dv * M i)) /\
  (* positivity *)
  (0 <= dt * nu_K -> (forall i, (i < nv)%nat -> 0 <= f i) -> forall i, (i < nv)%nat -> 0 <= krook nv v dv T0 mass nu_K dt f i).
Proof.
  intros Hn Hdv M. set (sh := fun j => exp (- (v j ^ 2) / (2 * T0 / mass))). assert (HS : 0 < rsum nv sh) by (apply rsum_pos; [exact Hn|intros; apply exp_pos]).
  assert (EM : forall i, M i = sh i * / (rsum nv sh * dv)) by (intros i; change (M i) with (sh i / rsum nv sh / dv); field; lra).
  assert (SM : rsum nv M * dv = 1). { rewrite (rsum_ext nv M (fun i => sh i * / (rsum nv sh * dv))) by (intros; apply EM). rewrite rsum_scal_r. field. lra. }
  assert (PM : forall i, 0 < M i). { intros i. rewrite EM. apply Rmult_lt_0_compat; [apply exp_pos|]. apply Rinv_0_lt_compat, Rmult_lt_0_compat; assumption. }
  split; [exact SM|]. split; [exact PM|]. split; [|split].
  - unfold krook. fold M. rewrite (rsum_ext nv _ (fun i => exp (- (dt * nu_K)) * f i + rsum nv f * dv * (1 - exp (- (dt * nu_K))) * M i)) by (intros; ring). rewrite rsum_plus, !rsum_scal.
    replace (rsum nv f * dv * (1 - exp (- (dt * nu_K))) * rsum nv M) with (rsum nv f * (1 - exp (- (dt * nu_K))) * (rsum nv M * dv)) by ring. rewrite SM. ring.
  - intros i. unfold krook. fold M. ring.
  - intros Hk Hf i Hi. unfold krook. fold M. assert (E1 : 0 < exp (- (dt * nu_K)) <= 1). { split; [apply exp_pos|]. rewrite <- exp_0. destruct (Req_dec (dt * nu_K) 0) as [->|Hne]; [rewrite Ropp_0; lra|apply Rlt_le, exp_increasing; lra]. }
    assert (0 <= rsum nv f) by now apply rsum_nonneg. apply Rplus_le_le_0_compat; [apply Rmult_le_pos; [now apply Hf|lra]|].
    apply Rmult_le_pos; [|lra]. apply Rmult_le_pos; [apply Rmult_le_pos; lra|apply Rlt_le, PM].
Qed.
Print Assumptions C52_krook.
(** Two Krook steps equal one step of the summed time. *)
Theorem C52_krook_composes (nv : nat) (v : nat -> R) (dv T0 mass nu_K dt1 dt2 : R) (f : nat -> R) (i : nat) :
  (0 < nv)%nat -> 0 < dv -> (i < nv)%nat ->
  krook nv v dv T0 mass nu_K dt2 (krook nv v dv T0 mass nu_K dt1 f) i = krook nv v dv T0 mass nu_K (dt1 + dt2) f i.
Proof.
  intros Hn Hdv Hi. destruct (C52_krook nv v dv T0 mass nu_K dt1 f Hn Hdv) as (_ & _ & Hd & H1 & _). destruct (C52_krook nv v dv T0 mass nu_K dt2 (krook nv v dv T0 mass nu_K dt1 f) Hn Hdv) as (_ & _ & _ & H2 & _).
  destruct (C52_krook nv v dv T0 mass nu_K (dt1 + dt2) f Hn Hdv) as (_ & _ & _ & H3 & _). specialize (H1 i). specialize (H2 i). specialize (H3 i). rewrite Hd in H2. rewrite H1 in H2.
  replace (- ((dt1 + dt2) * nu_K)) with (- (dt2 * nu_K) + - (dt1 * nu_K)) in H3 by ring. rewrite exp_plus in H3. lra.
Qed.
Print Assumptions C52_krook_composes.
Example C52_nonvacuous : 0 < krook_shape 4 v4 1 1 1 0 /\ krook 4 v4 1 1 1 0 1 (two 3 1) 0 = 3.
Proof.
  split; [destruct (C52_krook 4 v4 1 1 1 0 1 (two 3 1) ltac:(lia) ltac:(lra)) as (_ & H & _); apply H|]. unfold krook. rewrite Rmult_0_r, Ropp_0, exp_0. cbn [two]. ring.
Qed.
