(** Properties of the Vlasov-1D grid, the cubic velocity pusher and the profile functions (C42-C44, C54).
    [rsum n h] = h 0 + ... + h (n-1). *)
From Verif Require Import RSum Pic PicProofs VGrid VGridProofs.
From Coq Require Import Bool.

(* ------------------------------------------------------------------------------------------------ *)
(** * C42: time step, number of steps, axes.  [sane]: xmin < xmax, nx > 0, dt > 0, beta > 0, tmax >= 0. *)
Definition positive_inputs (c : grid_in) : Prop :=
  in_xmin c < in_xmax c /\ (0 < in_nx c)%nat /\ 0 < in_dt c /\ 0 < in_beta c /\ 0 <= in_tmax c.
(** The speed of light in code units is 1/beta. *)
Theorem C42_cfl (c : grid_in) : positive_inputs c ->
  0 < g_dt c <= in_dt c /\ (in_override c = true -> / in_beta c * g_dt c <= 95 / 100 * g_dx c) /\ (in_override c = false -> g_dt c = in_dt c) /\
  (/ in_beta c * in_dt c <= 95 / 100 * g_dx c -> g_dt c = in_dt c) /\ INR (in_nx c) * g_dx c = in_xmax c - in_xmin c.
Proof.
  intros H. pose proof (dt_pos c H). pose proof (dx_pos c H). destruct H as (Hx & Hn & Hd & Hb & _).
  assert (B : 0 < / in_beta c) by now apply Rinv_0_lt_compat. assert (I : / in_beta c * in_beta c = 1) by (field; lra).
  assert (E : 95 / 100 * g_dx c / (1 / in_beta c) = in_beta c * (95 / 100 * g_dx c)) by (field; lra).
  assert (N : INR (in_nx c) <> 0) by (apply not_0_INR; lia).
  split; [split; [assumption|]|split; [|split; [|split]]].
  - unfold g_dt. destruct (in_override c); [apply Rmin_l|lra].
  - intros O. unfold g_dt. rewrite O, E. apply Rle_trans with (/ in_beta c * (in_beta c * (95 / 100 * g_dx c))); [|right; field; lra].
    apply Rmult_le_compat_l; [lra|apply Rmin_r].
  - intros O. unfold g_dt. now rewrite O.
  - intros C. unfold g_dt. destruct (in_override c); [|reflexivity]. apply Rmin_left. rewrite E. apply Rle_trans with (in_beta c * (/ in_beta c * in_dt c)); [right; field; lra|].
    apply Rmult_le_compat_l; lra.
  - unfold g_dx. field. assumption.
Qed.
Print Assumptions C42_cfl.
(** The number of steps times the step exceeds the requested end time by at most one step; a whole number of
    requested steps gives exactly one step more. *)
Theorem C42_covers_requested_time (c : grid_in) : positive_inputs c ->
  g_tmax c = g_dt c * IZR (g_nt c) /\ in_tmax c < g_tmax c <= in_tmax c + g_dt c /\ (1 <= g_nt c)%Z /\
  (forall k : nat, in_tmax c = INR k * g_dt c -> g_nt c = (Z.of_nat k + 1)%Z /\ g_tmax c = in_tmax c + g_dt c).
Proof.
  intros H. pose proof (nt_spec c H) as [A B]. pose proof (dt_pos c H) as D. split; [reflexivity|]. split; [exact A|]. split; [exact B|].
  intros k E. assert (N : g_nt c = (Z.of_nat k + 1)%Z).
  { unfold g_nt. rewrite E. replace (INR k * g_dt c / g_dt c + 1) with (IZR (Z.of_nat k + 1)) by (rewrite plus_IZR, <- INR_IZR_INZ; field; lra).
    rewrite trunc_pos by (apply IZR_le; lia). apply floor_unique. lra. }
  split; [exact N|]. unfold g_tmax. rewrite N, plus_IZR, <- INR_IZR_INZ, E. ring.
Qed.
Print Assumptions C42_covers_requested_time.
(** The solver may take at most max_steps steps; that is enough exactly when nt <= 10^8. *)
Theorem C42_step_budget (c : grid_in) : positive_inputs c -> (g_nt c <= g_max_steps c <-> g_nt c <= 100000000)%Z.
Proof. intros _. unfold g_max_steps. lia. Qed.
Print Assumptions C42_step_budget.
Definition long_run : grid_in := {| in_xmin := 0; in_xmax := 1; in_nx := 1; in_tmin := 0; in_tmax := 200000000; in_dt := 1; in_override := false; in_beta := 1 |}.
Lemma long_run_ok : positive_inputs long_run.
Proof. repeat split; cbn; try lra; lia. Qed.
Theorem C42_step_budget_refuted : ~ (forall c, positive_inputs c -> (g_nt c <= g_max_steps c)%Z).
Proof.
  intros H. specialize (H long_run long_run_ok). apply (C42_step_budget long_run long_run_ok) in H.
  destruct (C42_covers_requested_time long_run long_run_ok) as (E & (A & _) & _). rewrite E in A. unfold g_dt in A. cbn [long_run in_override in_dt in_tmax] in A.
  apply IZR_le in H. lra.
Qed.
Print Assumptions C42_step_budget_refuted.
(** Cell centres, and the axis with one ghost cell on either side. *)
Theorem C42_cell_centres (c : grid_in) : positive_inputs c ->
  (forall i, (i < in_nx c)%nat -> g_x c i = in_xmin c + (INR i + 1 / 2) * g_dx c /\ in_xmin c < g_x c i < in_xmax c) /\
  (forall i, (i < in_nx c + 2)%nat -> g_x_a c i = in_xmin c + (INR i - 1 / 2) * g_dx c).
Proof.
  intros H. pose proof (dx_pos c H) as D. assert (F : forall i, (i < in_nx c)%nat -> g_x c i = in_xmin c + (INR i + 1 / 2) * g_dx c) by (intros; now apply g_x_formula).
  assert (N : INR (in_nx c) * g_dx c = in_xmax c - in_xmin c) by (unfold g_dx; field; apply not_0_INR; destruct H as (_ & ? & _); lia).
  destruct H as (Hx & Hn & _). split.
  - intros i Hi. split; [now apply F|]. rewrite F by assumption. pose proof (pos_INR i). assert (INR i + 1 <= INR (in_nx c)) by (rewrite <- S_INR; apply le_INR; lia). nra.
  - intros i Hi. unfold g_x_a. destruct (Nat.eqb_spec i 0) as [->|Hi0]; [rewrite F by lia; cbn [INR]; lra|]. destruct (Nat.leb_spec i (in_nx c)).
    + rewrite F by lia. rewrite minus_INR by lia. cbn [INR]. lra.
    + rewrite F by lia. replace i with (S (in_nx c)) by lia. rewrite minus_INR by lia. rewrite (S_INR (in_nx c)). change (INR 1) with 1. lra.
Qed.
Print Assumptions C42_cell_centres.
(** The time axis of the saved scalars: from 0 to tmax with nt points, so its spacing is dt nt/(nt-1), never dt. *)
Theorem C42_time_axis (c : grid_in) : positive_inputs c -> (2 <= g_nt c)%Z ->
  let n := Z.to_nat (g_nt c) in
  g_t c 0 = 0 /\ g_t c (n - 1) = g_tmax c /\ (forall i, g_t c (S i) - g_t c i = g_dt c * INR n / INR (n - 1)) /\
  (forall i, (0 < i < n)%nat -> g_t c i <> g_dt c * INR i).
Proof.
  intros H Hn n. pose proof (dt_pos c H) as D. assert (N : (1 < n)%nat) by lia. assert (P : 0 < INR (n - 1)) by (apply lt_0_INR; lia).
  assert (Q : INR n = INR (n - 1) + 1) by (rewrite <- S_INR; f_equal; lia).
  assert (T : g_tmax c = g_dt c * INR n) by (unfold g_tmax, n; rewrite INR_IZR_INZ, Z2Nat.id by lia; reflexivity).
  unfold g_t. fold n. unfold linspace. destruct (Nat.leb_spec n 1); [lia|]. rewrite T. split; [cbn [INR]; field; lra|]. split; [field; lra|]. split.
  - intros i. rewrite S_INR. field. lra.
  - intros i Hi E. assert (0 < INR i) by (apply lt_0_INR; lia). assert (E' : g_dt c * INR i * INR n = g_dt c * INR i * INR (n - 1)).
    { transitivity ((0 + (g_dt c * INR n - 0) * INR i / INR (n - 1)) * INR (n - 1)); [field; lra|]. rewrite E. ring. }
    rewrite Q in E'. nra.
Qed.
Print Assumptions C42_time_axis.
Example C42_hyp : positive_inputs {| in_xmin := 0; in_xmax := 4; in_nx := 4; in_tmin := 0; in_tmax := 10; in_dt := 1; in_override := true; in_beta := 1 / 10 |}.
Proof. repeat split; cbn; try lra; lia. Qed.
(** Here the override binds. *)
Example C42_override_binds : g_dt {| in_xmin := 0; in_xmax := 4; in_nx := 4; in_tmin := 0; in_tmax := 10; in_dt := 1; in_override := true; in_beta := 1 / 10 |} = 95 / 1000.
Proof. unfold g_dt, g_dx. cbn [in_override in_dt in_xmax in_xmin in_nx in_beta INR]. rewrite Rmin_right; lra. Qed.

(* ------------------------------------------------------------------------------------------------ *)
(** * C43: cubic velocity advection. [cubic_row nv f ss j] is entry [j] of the row after a shift by [ss] cells;
    the value wanted is that of [f] at the foot [j - ss]. *)
Theorem C43_zero_shift (nv : nat) (f : nat -> R) (j : nat) : (2 <= nv)%nat -> (j < nv)%nat -> cubic_row nv f 0 j = f j.
Proof. intros Hn Hj. apply cubic_node; try assumption. unfold ci_query. ring. Qed.
Print Assumptions C43_zero_shift.
Theorem C43_whole_cells (nv : nat) (f : nat -> R) (m : Z) (j : nat) : (2 <= nv)%nat -> (j < nv)%nat ->
  cubic_row nv f (IZR m) j = if ((0 <=? Z.of_nat j - m) && (Z.of_nat j - m <? Z.of_nat nv))%Z%bool then f (Z.to_nat (Z.of_nat j - m)) else / 10 ^ 30.
Proof.
  intros Hn Hj. assert (Q : ci_query (IZR m) j = IZR (Z.of_nat j - m)) by (unfold ci_query; rewrite minus_IZR, <- INR_IZR_INZ; reflexivity).
  destruct (Z.leb_spec 0 (Z.of_nat j - m)); [destruct (Z.ltb_spec (Z.of_nat j - m) (Z.of_nat nv))|]; cbn [andb].
  - apply cubic_node; [assumption|lia|]. rewrite Q, INR_IZR_INZ, Z2Nat.id by lia. reflexivity.
  - unfold cubic_row. rewrite !Q. destruct (Rlt_dec (IZR (Z.of_nat j - m)) 0); [reflexivity|]. destruct (Rlt_dec (INR nv - 1) (IZR (Z.of_nat j - m))) as [?|C]; [reflexivity|].
    exfalso. apply C. apply IZR_le in H0. rewrite <- INR_IZR_INZ in H0. lra.
  - unfold cubic_row. rewrite !Q. destruct (Rlt_dec (IZR (Z.of_nat j - m)) 0) as [?|C]; [reflexivity|]. exfalso. apply C. apply IZR_lt. lia.
Qed.
Print Assumptions C43_whole_cells.
Theorem C43_outside (nv : nat) (f : nat -> R) (ss : R) (j : nat) : INR j - ss < 0 \/ INR nv - 1 < INR j - ss -> cubic_row nv f ss j = / 10 ^ 30.
Proof.
  intros H. unfold cubic_row. change (ci_query ss j) with (INR j - ss). destruct (Rlt_dec (INR j - ss) 0); [reflexivity|]. destruct (Rlt_dec (INR nv - 1) (INR j - ss)); [reflexivity|]. lra.
Qed.
Print Assumptions C43_outside.
(** Linear data are reproduced exactly at every point whose foot is on the grid. *)
Theorem C43_linear_exact (nv : nat) (a b ss : R) (j : nat) : (2 <= nv)%nat -> 0 <= INR j - ss <= INR nv - 1 ->
  cubic_row nv (fun i => a + b * INR i) ss j = a + b * (INR j - ss).
Proof.
  intros Hn Q. destruct (cubic_inside nv (fun i => a + b * INR i) ss j Hn Q) as (l & Hl & Hr & ->). cbn beta. unfold ci_query in *.
  assert (M0 : (if Nat.eqb l 0 then a + b * INR (S l) - (a + b * INR l) else 1 / 2 * (a + b * INR (S l) - (a + b * INR (l - 1)))) = b).
  { destruct (Nat.eqb_spec l 0); rewrite S_INR; [ring|]. rewrite minus_INR by lia. cbn [INR]. field. }
  assert (M1 : (if Nat.eqb l (nv - 2) then a + b * INR (S l) - (a + b * INR l) else 1 / 2 * (a + b * INR (S (S l)) - (a + b * INR l))) = b).
  { destruct (Nat.eqb_spec l (nv - 2)); rewrite ?S_INR; [ring|field]. }
  rewrite M0, M1, S_INR. unfold hermite. ring.
Qed.
Print Assumptions C43_linear_exact.
(** Quadratic data are reproduced exactly unless the foot is in the first or the last segment. *)
Theorem C43_quadratic_exact (nv : nat) (a b c ss : R) (j : nat) : (2 <= nv)%nat -> 1 < INR j - ss < INR nv - 2 ->
  cubic_row nv (fun i => a + b * INR i + c * INR i ^ 2) ss j = a + b * (INR j - ss) + c * (INR j - ss) ^ 2.
Proof.
  intros Hn Q. destruct (cubic_inside nv (fun i => a + b * INR i + c * INR i ^ 2) ss j Hn) as (l & Hl & Hr & ->); [unfold ci_query; lra|]. cbn beta. unfold ci_query in *.
  destruct (Nat.eqb_spec l 0) as [->|L0]; [exfalso; cbn [INR] in Hr; lra|].
  destruct (Nat.eqb_spec l (nv - 2)) as [->|L1]; [exfalso; rewrite minus_INR in Hr by lia; cbn [INR] in Hr; lra|].
  rewrite (minus_INR l 1) by lia. rewrite !S_INR. cbn [INR]. unfold hermite. field.
Qed.
Print Assumptions C43_quadratic_exact.
(** Specification: data that vanish within |shift|/dv + 2 cells of either end. *)
Definition vanishes_near_ends (nv : nat) (ss : R) (f : nat -> R) : Prop :=
  forall i, (i < nv)%nat -> f i <> 0 -> Rabs ss + 2 <= INR i /\ INR i <= INR nv - 1 - (Rabs ss + 2).
(** Every moment up to the second is that of the exactly translated data, apart from the 1e-30 written wherever the
    foot is off the grid. *)
Theorem C43_moments_exact (nv : nat) (f : nat -> R) (ss c0 c1 c2 : R) : (2 <= nv)%nat -> vanishes_near_ends nv ss f ->
  let p := fun u : R => c0 + c1 * u + c2 * u ^ 2 in
  rsum nv (fun j => p (INR j) * cubic_row nv f ss j) =
  rsum nv (fun i => p (INR i + ss) * f i) +
  / 10 ^ 30 * rsum nv (fun j => if Rle_dec 0 (INR j - ss) then if Rle_dec (INR j - ss) (INR nv - 1) then 0 else p (INR j) else p (INR j)).
Proof.
  intros Hn Ha p. unfold p. rewrite (cubic_moment nv f ss c0 c1 c2 Hn Ha). fold p. f_equal. unfold tiny. f_equal. apply rsum_ext. intros j _. unfold outside, ci_query.
  destruct (Rlt_dec (INR j - ss) 0), (Rle_dec 0 (INR j - ss)); try lra. destruct (Rlt_dec (INR nv - 1) (INR j - ss)), (Rle_dec (INR j - ss) (INR nv - 1)); try lra.
Qed.
Print Assumptions C43_moments_exact.
(** For the pusher: with v_j = v0 + j dv, density unchanged, mean momentum and kinetic energy those of particles
    accelerated by (q/m)(E + (q/m) pond) for a time dt, apart from the 1e-30 written where the foot is off the grid. *)
Theorem C43_push_moments (nv : nat) (dv q m dt v0 : R) (e pond : nat -> R) (f : nat -> nat -> R) (i : nat) (c0 c1 c2 : R) :
  (2 <= nv)%nat -> dv <> 0 -> m <> 0 -> vanishes_near_ends nv (q / m * (e i + q / m * pond i) * dt / dv) (f i) ->
  let a := q / m * (e i + q / m * pond i) in
  let v := fun j => v0 + INR j * dv in
  let g := fun u : R => c0 + c1 * u + c2 * u ^ 2 in
  let off := fun j => orb (if Rlt_dec (INR j) (a * dt / dv) then true else false) (if Rlt_dec (a * dt / dv + INR nv - 1) (INR j) then true else false) in
  rsum nv (fun j => g (v j) * velocity_push nv dv q m dt e pond f i j) =
  rsum nv (fun j => g (v j + a * dt) * f i j) + / 10 ^ 30 * rsum nv (fun j => if off j then g (v j) else 0).
Proof.
  intros Hn Hd Hm Ha a v g off. assert (A : accel q m (e i) (pond i) = a) by (unfold accel, a; field; assumption). fold a in Ha.
  unfold velocity_push. rewrite A. set (ss := a * dt / dv) in *.
  pose proof (cubic_moment nv (f i) ss (c0 + c1 * v0 + c2 * v0 ^ 2) (c1 * dv + 2 * c2 * v0 * dv) (c2 * dv ^ 2) Hn Ha) as M. cbv zeta in M.
  rewrite (rsum_ext nv _ (fun j => (c0 + c1 * v0 + c2 * v0 ^ 2 + (c1 * dv + 2 * c2 * v0 * dv) * INR j + c2 * dv ^ 2 * INR j ^ 2) * cubic_row nv (f i) ss j)) by (intros; unfold g, v; ring).
  rewrite M. f_equal.
  - apply rsum_ext. intros j _. unfold g, v. assert (E : a * dt = ss * dv) by (unfold ss; field; assumption). rewrite E. ring.
  - unfold tiny. f_equal. apply rsum_ext. intros j _. unfold off, outside, ci_query. destruct (Rlt_dec (INR j - ss) 0), (Rlt_dec (INR j) ss); try (exfalso; lra); cbn [orb]; [unfold g, v; ring|].
    destruct (Rlt_dec (INR nv - 1) (INR j - ss)), (Rlt_dec (ss + INR nv - 1) (INR j)); try (exfalso; lra); [unfold g, v; ring|reflexivity].
Qed.
Print Assumptions C43_push_moments.
(** Positivity is not preserved: a single positive cell shifted by half a cell makes its neighbour negative. *)
Theorem C43_positivity_refuted : ~ (forall nv f ss j, (2 <= nv)%nat -> (j < nv)%nat -> (forall i, (i < nv)%nat -> 0 <= f i) -> 0 <= cubic_row nv f ss j).
Proof.
  intros H. specialize (H 6%nat (fun i => if Nat.eqb i 2 then 1 else 0) (1 / 2) 1%nat ltac:(lia) ltac:(lia) ltac:(intros i _; cbv beta; destruct (Nat.eqb i 2); lra)).
  destruct (cubic_inside 6 (fun i => if Nat.eqb i 2 then 1 else 0) (1 / 2) 1 ltac:(lia)) as (l & Hl & Hr & E); [unfold ci_query; cbn [INR]; lra|].
  rewrite E in H. unfold ci_query in *. assert (l = 0)%nat. { destruct l as [|l]; [reflexivity|]. exfalso. rewrite (S_INR l) in Hr. pose proof (pos_INR l). change (INR 1) with 1 in Hr. lra. }
  subst l. cbn [INR Nat.eqb Nat.sub] in H. unfold hermite in H. lra.
Qed.
Print Assumptions C43_positivity_refuted.
Definition bump_row (i : nat) : R := if Nat.eqb i 4 then 1 else 0.
Example C43_hyp : vanishes_near_ends 9 (3 / 2) bump_row /\ bump_row 4 <> 0.
Proof.
  split; [|unfold bump_row; cbn; lra]. intros i Hi Hne. unfold bump_row in Hne. destruct (Nat.eqb_spec i 4) as [->|]; [|lra]. rewrite Rabs_right by lra. cbn [INR]. lra.
Qed.

(* ------------------------------------------------------------------------------------------------ *)
(** * C44: envelopes *)
Definition bump (e : envelope) : envelope := {| e_center := e_center e; e_width := e_width e; e_rise := e_rise e; e_baseline := e_baseline e; e_height := e_height e; e_trough := false |}.
Definition trough (e : envelope) : envelope := {| e_center := e_center e; e_width := e_width e; e_rise := e_rise e; e_baseline := e_baseline e; e_height := e_height e; e_trough := true |}.
Lemma step_range e x : 0 < e_rise e -> 0 <= e_width e ->
  0 <= tanh_step (e_center e - e_width e * (1 / 2)) (e_center e + e_width e * (1 / 2)) (e_rise e) (e_rise e) x < 1.
Proof.
  intros Hr Hw. unfold tanh_step. set (A := (x - (e_center e - e_width e * (1 / 2))) / e_rise e). set (B := (x - (e_center e + e_width e * (1 / 2))) / e_rise e).
  assert (L : B <= A) by (unfold A, B; apply div_le; lra). pose proof (tanh_le B A L). pose proof (tanh_bounds A). pose proof (tanh_bounds B). lra.
Qed.
Theorem C44_bounds (e : envelope) (x : R) : 0 < e_rise e -> 0 <= e_width e -> 0 <= e_height e ->
  e_baseline e <= env_call e x <= e_baseline e + e_height e.
Proof. intros Hr Hw Hh. pose proof (step_range e x Hr Hw) as B. unfold env_call. set (S := tanh_step _ _ _ _ _) in *. destruct (e_trough e); nra. Qed.
Print Assumptions C44_bounds.
(** A non-zero height never reaches the far bound: the value stays strictly off it. *)
Theorem C44_never_saturates (e : envelope) (x : R) : 0 < e_rise e -> 0 <= e_width e -> 0 < e_height e ->
  (e_trough e = false -> env_call e x < e_baseline e + e_height e) /\ (e_trough e = true -> e_baseline e < env_call e x).
Proof. intros Hr Hw Hh. pose proof (step_range e x Hr Hw) as B. unfold env_call. set (S := tanh_step _ _ _ _ _) in *. split; intros ->; nra. Qed.
Print Assumptions C44_never_saturates.
Theorem C44_complement (e : envelope) (x : R) : env_call (bump e) x + env_call (trough e) x = 2 * e_baseline e + e_height e.
Proof. unfold env_call, bump, trough. cbn [e_center e_width e_rise e_baseline e_height e_trough]. ring. Qed.
Print Assumptions C44_complement.
Theorem C44_symmetric (e : envelope) (d : R) : e_rise e <> 0 -> env_call e (e_center e + d) = env_call e (e_center e - d).
Proof.
  intros Hr. unfold env_call. replace (tanh_step (e_center e - e_width e * (1 / 2)) (e_center e + e_width e * (1 / 2)) (e_rise e) (e_rise e) (e_center e + d))
    with (tanh_step (e_center e - e_width e * (1 / 2)) (e_center e + e_width e * (1 / 2)) (e_rise e) (e_rise e) (e_center e - d)); [reflexivity|].
  unfold tanh_step. replace ((e_center e - d - (e_center e - e_width e * (1 / 2))) / e_rise e) with (- ((e_center e + d - (e_center e + e_width e * (1 / 2))) / e_rise e)) by (field; assumption).
  replace ((e_center e - d - (e_center e + e_width e * (1 / 2))) / e_rise e) with (- ((e_center e + d - (e_center e - e_width e * (1 / 2))) / e_rise e)) by (field; assumption).
  rewrite !tanh_opp. ring.
Qed.
Print Assumptions C44_symmetric.
(** The bump is highest at its centre, where it is baseline + height tanh(width / (2 rise)), and falls off
    monotonically with the distance from the centre. *)
Theorem C44_peak (e : envelope) : e_rise e <> 0 -> env_call (bump e) (e_center e) = e_baseline e + e_height e * tanh (e_width e / (2 * e_rise e)).
Proof.
  intros Hr. unfold env_call, bump. cbn [e_center e_width e_rise e_baseline e_height e_trough]. unfold tanh_step.
  replace ((e_center e - (e_center e - e_width e * (1 / 2))) / e_rise e) with (e_width e / (2 * e_rise e)) by (field; assumption).
  replace ((e_center e - (e_center e + e_width e * (1 / 2))) / e_rise e) with (- (e_width e / (2 * e_rise e))) by (field; assumption). rewrite tanh_opp. field.
Qed.
Print Assumptions C44_peak.
Theorem C44_monotone (e : envelope) (x y : R) : 0 < e_rise e -> 0 <= e_width e -> 0 <= e_height e ->
  Rabs (x - e_center e) <= Rabs (y - e_center e) -> env_call (bump e) y <= env_call (bump e) x /\ env_call (trough e) x <= env_call (trough e) y.
Proof.
  intros Hr Hw Hh H. set (S := fun x => tanh_step (e_center e - e_width e * (1 / 2)) (e_center e + e_width e * (1 / 2)) (e_rise e) (e_rise e) x).
  assert (M : S y <= S x).
  { assert (G : forall z, S z = 1 / 2 * (tanh ((z - e_center e) / e_rise e + e_width e / (2 * e_rise e)) - tanh ((z - e_center e) / e_rise e - e_width e / (2 * e_rise e)))).
    { intros z. unfold S, tanh_step. do 3 f_equal; field; lra. }
    rewrite !G. apply Rmult_le_compat_l; [lra|]. apply tanh_gap_mono.
    - apply Rmult_le_pos; [assumption|]. apply Rlt_le, Rinv_0_lt_compat. lra.
    - unfold Rdiv. rewrite !Rabs_mult. apply Rmult_le_compat_r; [apply Rabs_pos|exact H]. }
  unfold env_call, bump, trough. cbn [e_center e_width e_rise e_baseline e_height e_trough]. fold (S x) (S y). nra.
Qed.
Print Assumptions C44_monotone.
(** Space-time envelopes of two envelopes with baseline 0 and height 1 lie in [0, 1]. *)
Theorem C44_space_time (time space : envelope) (x t : R) :
  0 < e_rise time -> 0 <= e_width time -> 0 <= e_baseline time -> 0 <= e_height time ->
  0 < e_rise space -> 0 <= e_width space -> 0 <= e_baseline space -> 0 <= e_height space ->
  e_baseline time * e_baseline space <= st_call time space x t <= (e_baseline time + e_height time) * (e_baseline space + e_height space).
Proof.
  intros A1 A2 A3 A4 B1 B2 B3 B4. unfold st_call. pose proof (C44_bounds time t A1 A2 A4). pose proof (C44_bounds space x B1 B2 B4).
  split; apply Rmult_le_compat; lra.
Qed.
Print Assumptions C44_space_time.
(** The deprecated get_envelope agrees with the bump of width p_R - p_L when both rises are equal. *)
Theorem C44_get_envelope (w l r x : R) :
  get_envelope w w l r x = env_call {| e_center := (l + r) / 2; e_width := r - l; e_rise := w; e_baseline := 0; e_height := 1; e_trough := false |} x.
Proof.
  unfold get_envelope, env_call. cbn [e_center e_width e_rise e_baseline e_height e_trough]. replace ((l + r) / 2 - (r - l) * (1 / 2)) with l by field. replace ((l + r) / 2 + (r - l) * (1 / 2)) with r by field. ring.
Qed.
Print Assumptions C44_get_envelope.
Example C44_hyp : let e := {| e_center := 5; e_width := 4; e_rise := 1 / 2; e_baseline := 1; e_height := 3; e_trough := false |} in 0 < e_rise e /\ 0 <= e_width e /\ 0 <= e_height e /\ env_call e 5 <> env_call e 9.
Proof.
  cbv zeta. cbn [e_rise e_width e_height]. repeat split; try lra. unfold env_call. cbn [e_center e_width e_rise e_baseline e_height e_trough]. unfold tanh_step.
  intros H. replace ((5 - (5 - 4 * (1 / 2))) / (1 / 2)) with 4 in H by field. replace ((5 - (5 + 4 * (1 / 2))) / (1 / 2)) with (- (4)) in H by field.
  replace ((9 - (5 - 4 * (1 / 2))) / (1 / 2)) with 12 in H by field. replace ((9 - (5 + 4 * (1 / 2))) / (1 / 2)) with 4 in H by field. rewrite tanh_opp in H.
  pose proof (tanh_bounds 12). pose proof (tanh_incr 0 4 ltac:(lra)). pose proof (tanh_bounds 4). assert (tanh 0 = 0) by (pose proof (tanh_opp 0) as Z; rewrite Ropp_0 in Z; lra).
  pose proof (tanh_exp 4) as T4. pose proof (exp_ineq1_le (2 * 4)). assert (/ (exp (2 * 4) + 1) <= / 10) by (apply Rinv_le_contravar; lra). unfold Rdiv in T4. lra.
Qed.

(* ------------------------------------------------------------------------------------------------ *)
(** * C54: density profiles and their gradient scale length n / n' *)
Definition has_scale_length (n : R -> R) (x L : R) : Prop := exists n', derivable_pt_lim n x n' /\ n x = L * n'.
Lemma linear_deriv c L v x : L <> 0 -> derivable_pt_lim (linear_call c L v) x (/ L).
Proof.
  intros HL eps He. exists (mkposreal 1 Rlt_0_1). intros h Hh _. unfold linear_call. replace ((v + (x + h - c) / L - (v + (x - c) / L)) / h - / L) with 0 by (field; now split). now rewrite Rabs_R0.
Qed.
(** The exponential profile has scale length L everywhere and the requested value at its centre. *)
Theorem C54_exponential (center L val x : R) : L <> 0 -> has_scale_length (exponential_call center L val) x L /\ exponential_call center L val center = val.
Proof.
  intros HL. split.
  - exists (exponential_call center L val x / L). split; [|field; assumption].
    assert (D : derivable_pt_lim (fun y => exp (linear_call center L 0 y)) x (exp (linear_call center L 0 x) * / L)).
    { apply (derivable_pt_lim_comp (linear_call center L 0) exp). - now apply linear_deriv. - apply derivable_pt_lim_exp. }
    apply (derivable_pt_lim_scal _ val) in D. unfold mult_real_fct in D. unfold exponential_call. unfold linear_call in D. unfold Rdiv at 2. rewrite Rmult_assoc.
    replace ((x - center) / L) with (0 + (x - center) / L) by ring.
    intros eps He. destruct (D eps He) as [d Hd]. exists d. intros h H1 H2. specialize (Hd h H1 H2). rewrite !Rplus_0_l in *. exact Hd.
  - unfold exponential_call. replace ((center - center) / L) with 0 by (field; assumption). rewrite exp_0. ring.
Qed.
Print Assumptions C54_exponential.
(** The linear profile's value at the centre is the requested one, but its scale length there is val * L. *)
Theorem C54_linear (center L val : R) : L <> 0 -> linear_call center L val center = val /\ has_scale_length (linear_call center L val) center (val * L).
Proof.
  intros HL. assert (E : linear_call center L val center = val) by (unfold linear_call; replace ((center - center) / L) with 0 by (field; assumption); ring).
  split; [exact E|]. exists (/ L). split; [now apply linear_deriv|]. rewrite E. field. assumption.
Qed.
Print Assumptions C54_linear.
(** Hence "gradient scale length: L" is realised at the centre exactly when val = 1. *)
Theorem C54_linear_scale_length (center L val : R) : L <> 0 -> has_scale_length (linear_call center L val) center L <-> val = 1.
Proof.
  intros HL. destruct (C54_linear center L val HL) as [E S]. split.
  - intros (d & Hd & Eq). pose proof (uniqueness_limite _ _ _ _ Hd (linear_deriv center L val center HL)) as ->. rewrite E in Eq. rewrite Eq. field. assumption.
  - intros ->. now rewrite Rmult_1_l in S.
Qed.
Print Assumptions C54_linear_scale_length.
Theorem C54_linear_scale_length_refuted : ~ (forall center L val, 0 < L -> 0 < val -> has_scale_length (linear_call center L val) center L).
Proof. intros H. specialize (H 0 1 2 ltac:(lra) ltac:(lra)). apply C54_linear_scale_length in H; lra. Qed.
Print Assumptions C54_linear_scale_length_refuted.
(** The sinusoidal profile stays between baseline (1 - amplitude) and baseline (1 + amplitude), positive for
    amplitude < 1, and repeats after 2 pi / k. *)
Theorem C54_sine (baseline amplitude k x : R) : 0 <= baseline -> 0 <= amplitude ->
  baseline * (1 - amplitude) <= sine_call baseline amplitude k x <= baseline * (1 + amplitude) /\
  (k <> 0 -> sine_call baseline amplitude k (x + 2 * PI / k) = sine_call baseline amplitude k x).
Proof.
  intros Hb Ha. pose proof (SIN_bound (k * x)) as S. unfold sine_call. split.
  - split; apply Rmult_le_compat_l; try assumption; nra.
  - intros Hk. replace (k * (x + 2 * PI / k)) with (k * x + 2 * INR 1 * PI) by (cbn [INR]; field; assumption). now rewrite sin_period.
Qed.
Print Assumptions C54_sine.
(** The linear profile becomes negative far enough below the centre, whatever its parameters. *)
Theorem C54_linear_positive_iff (center L val x : R) : 0 < L -> 0 <= linear_call center L val x <-> center - val * L <= x.
Proof.
  intros HL. unfold linear_call. assert (E : (x - center) / L * L = x - center) by (field; lra). split; intros H; [assert (0 <= (val + (x - center) / L) * L) by (apply Rmult_le_pos; lra); lra|].
  apply Rmult_le_reg_r with L; [assumption|]. lra.
Qed.
Print Assumptions C54_linear_positive_iff.
