(** C71: VFP-1D heating, anisotropic collisions, initial state. *)
From Verif Require Import PyStr RSum Rk VGrid DriftDiff DriftDiffProofs DriftDiffProofs2 DriftDiffProofs3 DriftDiffProps Vfp VfpProps VfpInit.
From Coq Require Import FunctionalExtensionality.
Local Open Scope R_scope.

(** ** Heating *)
Lemma v_edge_formula g j : usable g -> v_edge (v_at g) j = INR (S j) * d_v g.
Proof. intros U. unfold v_edge. rewrite !v_formula, S_INR by exact U. field. Qed.
Lemma v_edge_pos g j : usable g -> 0 < v_edge (v_at g) j.
Proof. intros U. rewrite v_edge_formula by exact U. apply Rmult_lt_0_compat; [apply lt_0_INR; lia|now apply dv_pos]. Qed.
(** Moment of a conservative step with the spherical collision frequency. *)
Lemma spherical_moment g nuee dt alpha beta f fn : usable g -> implicit_step (n_v g) (assemble (n_v g) (d_v g) dt (spherical_nu nuee (v_at g)) alpha beta) f fn ->
  rsum (n_v g) (fun i => v_at g i ^ 4 * fn i) - rsum (n_v g) (fun i => v_at g i ^ 4 * f i) =
  - (2 * dt * nuee) * rsum (n_v g - 1) (fun e => v_edge (v_at g) e * flux (n_v g) alpha beta fn e).
Proof.
  intros U H. pose proof (dv_pos g U) as D. rewrite step_solves in H. rewrite <- rsum_minus.
  rewrite (rsum_ext _ _ (fun i => dt * nuee / d_v g * (v_at g i ^ 2 * (flux (n_v g) alpha beta fn i - flux_left (n_v g) alpha beta fn i)))).
  2:{ intros i Hi. rewrite <- (H i Hi), assemble_mv by exact Hi. unfold spherical_nu. pose proof (v_pos g i U). field. lra. }
  rewrite rsum_scal, (flux_parts (n_v g) alpha beta fn (fun i => v_at g i ^ 2)). assert (N := U). destruct N as (_ & N & _).
  destruct (n_v g) as [|m] eqn:NV; [lia|]. replace (S m - 1)%nat with m by lia. cbn [rsum].
  assert (E0 : flux (S m) alpha beta fn m = 0) by (unfold flux; now rewrite (proj2 (Nat.ltb_ge (S m) (S m))) by lia). rewrite E0.
  rewrite (rsum_ext m _ (fun e => (-2 * d_v g) * (v_edge (v_at g) e * flux (S m) alpha beta fn e))).
  2:{ intros e _. unfold v_edge. rewrite (v_succ g e U). field. }
  rewrite rsum_scal. field. lra.
Qed.
(** Summation by parts on the edges: sum of w_e (f_e - f_{e+1}). *)
Lemma edge_parts m (w f : nat -> R) : rsum m (fun e => w (S e) * (f e - f (S e))) = rsum (S m) (fun i => (w (S i) - w i) * f i) + w 0%nat * f 0%nat - w (S m) * f m.
Proof. induction m as [|m IH]; cbn [rsum]; [ring|]. rewrite IH. cbn [rsum]. ring. Qed.
(** Energy (2 pi dv sum v^4 f0) given to the electrons of one cell by one isotropic collision solve with the central
    scheme: the drift and diffusion of the collision model, the Maxwellian heating D0 (exactly proportional to the
    density-like sum of (3 v^2 + dv^2/4) f, minus the zero-flux term at the largest speed), inverse bremsstrahlung. *)
Theorem C71_heating_energy : forall c Z ni f f', usable (c_grid c) -> c_scheme c = SCentral -> f0_collide c Z ni f f' ->
  let g := c_grid c in let n := n_v g in let h := d_v g in let ve e := INR (S e) * h in
  let C := model_C (c_model c) g f in let D := model_D (c_model c) g (c_beta c f) f in
  let vosc2 := if Rlt_dec 0 (c_vosc2 c) then c_vosc2 c else 0 in
  let ratio := c_nuee c * flm_loglam (c_flm c) * Z ^ 2 * ni / c_w0 c in
  rsum n (fun i => v_at g i ^ 4 * f' i) - rsum n (fun i => v_at g i ^ 4 * f i) =
  d_t g * c_nuee c * (
    - 2 * rsum (n - 1) (fun e => ve e * (C e * (f' e + f' (S e)) / 2 + D e * (f' (S e) - f' e) / h))
    + 2 * c_D0 c * (rsum n (fun i => (3 * v_at g i ^ 2 + h ^ 2 / 4) * f' i) - v_max g ^ 3 / h * f' (n - 1)%nat)
    + vosc2 / 3 * rsum (n - 1) (fun e => (f' e - f' (S e)) / h / (1 + (ratio / ve e ^ 3) ^ 2))).
Proof.
  intros c Z ni f f' U S H g n h ve C D vosc2 ratio. unfold f0_collide in H. rewrite S in H. cbn [scheme_of get_operator] in H. fold g C D in H.
  assert (H' : implicit_step n (assemble n h (d_t g) (spherical_nu (c_nuee c) (v_at g)) (fun j => - C j / 2 + heated_D (v_at g) D (c_D0 c) (ib_on c) (ib_ratio c Z ni) j / h) (fun j => - C j / 2 - heated_D (v_at g) D (c_D0 c) (ib_on c) (ib_ratio c Z ni) j / h)) f f').
  { apply central_step. exact H. }
  unfold n. rewrite (spherical_moment g (c_nuee c) (d_t g) _ _ f f' U H'). fold n. pose proof (dv_pos g U) as HP. fold h in HP.
  rewrite (rsum_ext (n - 1) _ (fun e => ve e * (C e * (f' e + f' (Datatypes.S e)) / 2 + D e * (f' (Datatypes.S e) - f' e) / h) + (- (c_D0 c / h) * (ve e ^ 3 * (f' e - f' (Datatypes.S e))) + - (vosc2 / 6) * ((f' e - f' (Datatypes.S e)) / h / (1 + (ratio / ve e ^ 3) ^ 2))))).
  2:{ intros e He. rewrite central_flux_eq by exact HP. rewrite (proj2 (Nat.ltb_lt _ _)) by lia. unfold heated_D. rewrite (v_edge_formula g e U). fold h. fold (ve e).
      assert (VE : 0 < ve e) by (unfold ve; apply Rmult_lt_0_compat; [apply lt_0_INR; lia|exact HP]).
      assert (RR : 0 < 1 + (ratio / ve e ^ 3) ^ 2) by (pose proof (pow2_ge_0 (ratio / ve e ^ 3)); lra).
      unfold ib_on. fold vosc2. unfold ib_ratio. fold ratio. set (G := 1 + (ratio / ve e ^ 3) ^ 2) in *. clearbody G. field. lra. }
  rewrite rsum_plus, rsum_plus, !rsum_scal.
  assert (N := U). destruct N as (_ & N & _). fold g in N. fold n in N.
  assert (P : rsum (n - 1) (fun e => ve e ^ 3 * (f' e - f' (Datatypes.S e))) = h * rsum n (fun i => (3 * v_at g i ^ 2 + h ^ 2 / 4) * f' i) - v_max g ^ 3 * f' (n - 1)%nat).
  { pose proof (edge_parts (n - 1) (fun k => (INR k * h) ^ 3) f') as K. cbv beta in K. unfold ve. rewrite K. clear K.
    assert (VM : v_max g = INR n * h). { unfold h, d_v. fold n. assert (INR n <> 0) by (apply not_0_INR; lia). field. assumption. }
    replace (Datatypes.S (n - 1)) with n by lia. rewrite VM. change (INR 0) with 0. rewrite <- rsum_scal.
    rewrite (rsum_ext n _ (fun i => h * ((3 * v_at g i ^ 2 + h ^ 2 / 4) * f' i))); [ring|].
    intros i _. rewrite (v_formula g i U). fold h. rewrite S_INR. field. }
  rewrite P. field. lra.
Qed.
Print Assumptions C71_heating_energy.
(** Inverse bremsstrahlung alone, far above the collision frequency: the energy gained is
    nu vosc^2 / 3 (f(0) - f(vmax)) per unit time. *)
Theorem C71_ib_energy : forall c Z f f', usable (c_grid c) -> c_scheme c = SCentral -> c_model c = NullModel -> c_D0 c = 0 -> 0 < c_vosc2 c -> f0_collide c Z 0 f f' ->
  let g := c_grid c in
  rsum (n_v g) (fun i => v_at g i ^ 4 * f' i) - rsum (n_v g) (fun i => v_at g i ^ 4 * f i) =
  d_t g * c_nuee c * c_vosc2 c / 3 * (f' 0%nat - f' (n_v g - 1)%nat) / d_v g.
Proof.
  intros c Z f f' U S M D0 V H g. pose proof (C71_heating_energy c Z 0 f f' U S H) as E. cbv zeta in E. fold g in E. rewrite E, M, D0. cbn [model_C model_D].
  destruct (Rlt_dec 0 (c_vosc2 c)); [|lra]. pose proof (dv_pos g U) as HP.
  rewrite (rsum_ext (n_v g - 1) (fun e => INR (Datatypes.S e) * d_v g * _) (fun _ => 0)) by (intros; unfold Rdiv; ring). rewrite rsum_zero.
  rewrite (rsum_ext (n_v g - 1) _ (fun e => (-1 / d_v g) * (f' (Datatypes.S e) - f' e))).
  2:{ intros e _. set (q := (INR (Datatypes.S e) * d_v g) ^ 3). replace (c_nuee c * flm_loglam (c_flm c) * Z ^ 2 * 0 / c_w0 c / q) with 0 by (unfold Rdiv; ring). field. lra. }
  rewrite rsum_scal, rsum_telescope. field. lra.
Qed.
Print Assumptions C71_ib_energy.
(** The hypotheses are met: without a collision model and with non-negative heating a solution always exists. *)
Theorem C71_heating_exists : forall c Z ni f, usable (c_grid c) -> c_scheme c = SCentral -> c_model c = NullModel -> 0 <= c_D0 c -> 0 <= c_nuee c -> 0 <= d_t (c_grid c) -> exists f', f0_collide c Z ni f f'.
Proof.
  intros c Z ni f U S M D N T. unfold f0_collide. rewrite S, M. cbn [scheme_of get_operator model_C model_D]. set (g := c_grid c) in *. pose proof (dv_pos g U) as HP.
  set (H := heated_D (v_at g) (fun _ => 0) (c_D0 c) (ib_on c) (ib_ratio c Z ni)).
  assert (HH : forall j, 0 <= H j).
  { intros j. unfold H, heated_D. pose proof (v_edge_pos g j U) as V. set (w := v_edge (v_at g) j) in *. assert (B : 0 <= ib_on c) by (unfold ib_on; destruct (Rlt_dec 0 (c_vosc2 c)); lra).
    assert (0 <= c_D0 c * w ^ 2) by (apply Rmult_le_pos; [exact D|apply pow2_ge_0]).
    assert (0 <= ib_on c / (6 * w) / (1 + (ib_ratio c Z ni / w ^ 3) ^ 2)).
    { apply Rmult_le_pos; [apply Rmult_le_pos; [exact B|]|]; left; apply Rinv_0_lt_compat; [lra|]. pose proof (pow2_ge_0 (ib_ratio c Z ni / w ^ 3)). lra. }
    lra. }
  assert (HD : forall j, 0 <= H j / d_v g) by (intros j; apply Rmult_le_pos; [apply HH|left; now apply Rinv_0_lt_compat]).
  destruct (solution_exists (n_v g) (d_v g) (d_t g) (spherical_nu (c_nuee c) (v_at g)) (fun j => - 0 / 2 + H j / d_v g) (fun j => - 0 / 2 - H j / d_v g)) with (b := f) as (x & X).
  - intros i _. unfold spherical_nu. pose proof (pow_lt _ 2 (v_pos g i U)). repeat apply Rmult_le_pos; try assumption; left; now apply Rinv_0_lt_compat.
  - intros j _. pose proof (HD j). lra.
  - intros j _. pose proof (HD j). lra.
  - exists x. apply central_step. apply step_solves. exact X.
Qed.
Print Assumptions C71_heating_exists.
(** "A negative D0 cools" is false for the Chang-Cooper scheme: without a collision model the step does not depend on
    D0 at all as long as it is not positive. *)
Theorem C71_cooling_ignored : forall c c' Z ni f f', usable (c_grid c) -> c_scheme c = SChangCooper -> c_model c = NullModel -> c_vosc2 c = 0 -> c_D0 c <= 0 ->
  c' = {| c_grid := c_grid c; c_model := c_model c; c_scheme := c_scheme c; c_beta := c_beta c; c_nuee := c_nuee c; c_flm := c_flm c; c_D0 := 0; c_vosc2 := c_vosc2 c; c_w0 := c_w0 c; c_solver := c_solver c |} ->
  (f0_collide c Z ni f f' <-> f0_collide c' Z ni f f').
Proof.
  intros c c' Z ni f f' U S M V D ->. unfold f0_collide. cbn [c_grid c_model c_scheme c_beta c_nuee c_flm c_D0 c_vosc2]. rewrite S, M. cbn [scheme_of get_operator model_C model_D].
  assert (E : forall D0 io r, D0 <= 0 -> io = 0 -> chang_cooper (n_v (c_grid c)) (d_v (c_grid c)) (fun _ => 0) (heated_D (v_at (c_grid c)) (fun _ => 0) D0 io r) (spherical_nu (c_nuee c) (v_at (c_grid c))) (d_t (c_grid c)) =
     chang_cooper (n_v (c_grid c)) (d_v (c_grid c)) (fun _ => 0) (fun _ => 0) (spherical_nu (c_nuee c) (v_at (c_grid c))) (d_t (c_grid c))).
  { intros D0 io r HD Hio. unfold chang_cooper. replace (fun i => - 0 * chang_cooper_delta (0 * d_v (c_grid c) / safe_D (heated_D (v_at (c_grid c)) (fun _ => 0) D0 io r) i) + safe_D (heated_D (v_at (c_grid c)) (fun _ => 0) D0 io r) i / d_v (c_grid c)) with (fun i : nat => - 0 * chang_cooper_delta (0 * d_v (c_grid c) / safe_D (fun _ => 0) i) + safe_D (fun _ => 0) i / d_v (c_grid c));
      [replace (fun i => - 0 * (1 - chang_cooper_delta (0 * d_v (c_grid c) / safe_D (heated_D (v_at (c_grid c)) (fun _ => 0) D0 io r) i)) - safe_D (heated_D (v_at (c_grid c)) (fun _ => 0) D0 io r) i / d_v (c_grid c)) with (fun i : nat => - 0 * (1 - chang_cooper_delta (0 * d_v (c_grid c) / safe_D (fun _ => 0) i)) - safe_D (fun _ => 0) i / d_v (c_grid c)); [reflexivity|]|].
    all: apply functional_extensionality; intros i; assert (SD : safe_D (heated_D (v_at (c_grid c)) (fun _ => 0) D0 io r) i = safe_D (fun _ => 0) i); [|now rewrite SD].
    all: unfold safe_D, heated_D; subst io; set (w := v_edge (v_at (c_grid c)) i); pose proof (pow2_ge_0 w); pose proof (DriftDiffProps.tiny 30).
    all: rewrite (Rmax_right 0) by lra; apply Rmax_right; unfold Rdiv; nra. }
  assert (I0 : ib_on c = 0) by (unfold ib_on; rewrite V; destruct (Rlt_dec 0 0); [lra|reflexivity]).
  rewrite !E; try lra; try reflexivity. unfold ib_on. cbn [c_vosc2]. rewrite V. destruct (Rlt_dec 0 0); [lra|reflexivity].
Qed.
Print Assumptions C71_cooling_ignored.

(** ** Anisotropic collisions *)
(** With the Z* approximation every harmonic is damped, keeps its sign, and the rate is l (l+1) / 2 times the
    electron-ion rate times (Z + 4.2) / (Z + 0.24). *)
Theorem C71_zstar_damping : forall tri g c l Z ni f0 f dt b i, usable g -> flm_full c = false -> 0 <= dt -> 0 <= flm_Z c -> 0 <= flm_nuee c -> 0 <= flm_loglam c -> 0 <= ni ->
  let nu := flm_nuee c * flm_loglam c * (flm_Z c * Z) ^ 2 * ni / v_at g i ^ 3 in
  let r := (flm_Z c + 42 / 10) / (flm_Z c + 24 / 100) * (INR l * (INR l + 1) / 2) * nu in
  let f' := flm_solve tri g c l Z ni f0 f dt b i in
  f' * (1 + dt * r) = f i /\ 0 <= r /\ 0 <= f' * f i /\ Rabs f' <= Rabs (f i).
Proof.
  intros tri g c l Z ni f0 f dt b i U F D HZ Hn HL Hi nu r f'. pose proof (v_pos g i U) as V. assert (V3 : 0 < v_at g i ^ 3) by now apply pow_lt.
  assert (NU : 0 <= nu). { unfold nu. apply Rmult_le_pos; [|left; now apply Rinv_0_lt_compat]. apply Rmult_le_pos; [|exact Hi]. apply Rmult_le_pos; [|apply pow2_ge_0]. now apply Rmult_le_pos. }
  pose proof (pos_INR l) as HL0. assert (RR : 0 <= r).
  { unfold r. apply Rmult_le_pos; [|exact NU]. apply Rmult_le_pos; [|nra]. apply Rmult_le_pos; [lra|]. left. apply Rinv_0_lt_compat. lra. }
  assert (P : 0 < 1 + dt * r) by nra.
  assert (E : f' = f i / (1 + dt * r)). { unfold f', flm_solve. rewrite F. f_equal. unfold nuei_coeff, z_scaling, ei_diag, r, nu. field. lra. }
  split; [rewrite E; field; lra|]. split; [exact RR|]. rewrite E. split.
  - replace (f i / (1 + dt * r) * f i) with (f i ^ 2 / (1 + dt * r)) by (field; lra). apply Rmult_le_pos; [apply pow2_ge_0|left; now apply Rinv_0_lt_compat].
  - unfold Rdiv. rewrite Rabs_mult, (Rabs_right (/ _)) by (left; now apply Rinv_0_lt_compat). pose proof (Rabs_pos (f i)).
    assert (/ (1 + dt * r) <= 1) by (rewrite <- Rinv_1; apply Rinv_le_contravar; nra). nra.
Qed.
Print Assumptions C71_zstar_damping.
(** The harmonic must exist; the term left out for l = 1 has zero coefficients. *)
Theorem C71_harmonics : forall tri g c l Z ni f0 f dt b,
  (solve_harmonic tri g c l Z ni f0 f dt b = None <-> ~ (1 <= l <= flm_nl c)%nat) /\
  (forall d2 d1 i, (1 <= l)%nat -> offdiag g l d2 d1 f i =
     (a1 l * d2 i + b1 l * d1 i) * ros_i g f (2 + Z.of_nat l) i + (a1 l * d2 i + b2 l * d1 i) * ros_j g f (- Z.of_nat l - 1) i
     + (a2 l * d2 i + b3 l * d1 i) * ros_i g f (Z.of_nat l) i + (a2 l * d2 i + b4 l * d1 i) * ros_j g f (1 - Z.of_nat l) i).
Proof.
  intros tri g c l Z ni f0 f dt b. split.
  - unfold solve_harmonic. destruct (Nat.leb_spec 1 l), (Nat.leb_spec l (flm_nl c)); cbn [andb]; split; intros K; try discriminate; try reflexivity; try lia.
  - intros d2 d1 i Hl. unfold offdiag. destruct (Nat.ltb_spec 1 l); [reflexivity|]. replace l with 1%nat by lia. assert (A : a2 1 = 0) by (unfold a2, pad0, dminus; change (INR 1) with 1; field). assert (B : b4 1 = 0) by (unfold b4, pad0, ll, dminus; change (INR 1) with 1; field). rewrite A, B. ring.
Qed.
Print Assumptions C71_harmonics.

(** ** Initial state *)
Definition species_ok (vth : R) (s : vspecies) : Prop := 0 < sp_m s /\ forall x, 0 <= sp_n s x /\ 0 < sp_T s x.
Lemma sg_cst_pos gam m : (forall z, 0 < z -> 0 < gam z) -> 0 < m -> 0 < sg_alpha gam m /\ 0 < sg_cst gam m.
Proof.
  intros G M. assert (G3 : 0 < gam (3 / m)) by (apply G, Rdiv_lt_0_compat; lra). assert (G5 : 0 < gam (5 / m)) by (apply G, Rdiv_lt_0_compat; lra).
  assert (A : 0 < sg_alpha gam m). { unfold sg_alpha. apply sqrt_lt_R0. apply Rdiv_lt_0_compat; [|exact G5]. lra. }
  split; [exact A|]. unfold sg_cst. apply Rdiv_lt_0_compat; [exact M|]. pose proof PI_RGT_0. apply Rmult_lt_0_compat; [|exact G3]. apply Rmult_lt_0_compat; [lra|]. now apply pow_lt.
Qed.
Lemma sg_dist_factor gam g vth s x i : (forall z, 0 < z -> 0 < gam z) -> 0 < vth -> species_ok vth s ->
  exists k, 0 < k /\ sg_dist gam g vth (sp_m s) (sp_n s) (sp_T s) x i = sp_n s x * (k * exp (- Rpower (v_at g i / sg_alpha gam (sp_m s) / (sqrt (sp_T s x) * vth)) (sp_m s))).
Proof.
  intros G V [M S]. destruct (S x) as [N T]. destruct (sg_cst_pos gam (sp_m s) G M) as [_ C]. exists (sg_cst gam (sp_m s) / (sqrt (sp_T s x) * vth) ^ 3). split; [|reflexivity].
  apply Rdiv_lt_0_compat; [exact C|]. apply pow_lt, Rmult_lt_0_compat; [now apply sqrt_lt_R0|exact V].
Qed.
Lemma sg_dist_nonneg gam g vth s x i : (forall z, 0 < z -> 0 < gam z) -> 0 < vth -> species_ok vth s -> 0 <= sg_dist gam g vth (sp_m s) (sp_n s) (sp_T s) x i.
Proof.
  intros G V S. destruct (sg_dist_factor gam g vth s x i G V S) as (k & K & ->). destruct S as [_ S]. destruct (S x) as [N _]. apply Rmult_le_pos; [exact N|]. apply Rmult_le_pos; [lra|]. left. apply exp_pos.
Qed.
Lemma loop_inv (P : vacc -> Prop) tri gam g c vth l : P acc_zero -> (forall a p, In p l -> is_prefix (lit "species-") (fst p) = true -> P a -> P (init_species tri gam g c vth a (snd p))) -> P (init_loop tri gam g c vth l).
Proof.
  intros P0 H. unfold init_loop. revert P0. generalize acc_zero. induction l as [|p l IH]; intros a Pa; cbn [fold_left]; [exact Pa|].
  apply IH; [intros; apply H; auto; now right|]. destruct (is_prefix _ _) eqn:E; [|exact Pa]. apply H; auto. now left.
Qed.
Lemma init_f0_nonneg tri gam g c vth l x i : (forall z, 0 < z -> 0 < gam z) -> 0 < vth -> (forall p, In p l -> species_ok vth (snd p)) -> 0 <= acc_f0 (init_loop tri gam g c vth l) x i.
Proof.
  intros G V S. apply (loop_inv (fun a => 0 <= acc_f0 a x i)); [cbn; lra|]. intros a p Hp _ Ha. cbn [init_species acc_f0]. pose proof (sg_dist_nonneg gam g vth (snd p) x i G V (S p Hp)). lra.
Qed.
Lemma clamp_nonneg g f x : (forall k, 0 <= f k) -> 0 <= clamp_edge g f x.
Proof. intros H. unfold clamp_edge. destruct (Nat.eqb x 0); [apply H|]. destruct (Nat.eqb x (n_x g)); [apply H|]. pose proof (H x). pose proof (H (x - 1)%nat). lra. Qed.
Lemma clip_abs b a : 0 <= b -> Rabs (clip (- b) b a) <= b.
Proof. intros H. unfold clip. apply Rabs_le. unfold Rmin, Rmax. destruct (Rle_dec a (- b)); destruct (Rle_dec _ b); lra. Qed.
Lemma clip_inside b a : Rabs (clip (- b) b a) < b -> clip (- b) b a = a.
Proof.
  unfold clip, Rmin, Rmax. destruct (Rle_dec a (- b)); destruct (Rle_dec _ b); intros H; try reflexivity; apply Rabs_def2 in H; lra.
Qed.
Lemma total_cases tri gam g c vth l f0 f10 n : init_total tri gam g c vth l = Some (f0, f10, n) ->
  f0 = acc_f0 (init_loop tri gam g c vth l) /\ n = acc_n (init_loop tri gam g c vth l) /\
  forall x i, f10 x i = clip (- clamp_edge g (fun k => f0 k i) x) (clamp_edge g (fun k => f0 k i) x) (acc_f10 (init_loop tri gam g c vth l) x i).
Proof. unfold init_total. destruct (existsb _ l); [|discriminate]. cbv zeta. intros E. injection E as <- <- <-. repeat split. Qed.
(** Nonnegative densities give a nonnegative f0 and |f10| <= f0 at every edge, before the density scaling. *)
Theorem C71_init_bound : forall tri gam g c vth l f0 f10 n, (forall z, 0 < z -> 0 < gam z) -> 0 < vth -> (forall p, In p l -> species_ok vth (snd p)) ->
  init_total tri gam g c vth l = Some (f0, f10, n) ->
  (forall x i, 0 <= f0 x i) /\
  (forall i, Rabs (f10 0%nat i) <= f0 0%nat i) /\ (forall i, (1 <= n_x g)%nat -> Rabs (f10 (n_x g) i) <= f0 (n_x g - 1)%nat i) /\
  (forall x i, (0 < x < n_x g)%nat -> Rabs (f10 x i) <= (f0 (x - 1)%nat i + f0 x i) / 2).
Proof.
  intros tri gam g c vth l f0 f10 n G V S E. destruct (total_cases tri gam g c vth l f0 f10 n E) as (F & _ & T).
  assert (P : forall x i, 0 <= f0 x i) by (intros x i; rewrite F; now apply init_f0_nonneg).
  assert (B : forall x i, Rabs (f10 x i) <= clamp_edge g (fun k => f0 k i) x) by (intros x i; rewrite T; apply clip_abs, clamp_nonneg; intros; apply P).
  split; [exact P|]. split; [|split].
  - intros i. apply (B 0%nat i).
  - intros i Hx. eapply Rle_trans; [apply B|]. unfold clamp_edge. destruct (Nat.eqb_spec (n_x g) 0); [lia|]. rewrite Nat.eqb_refl. apply Rle_refl.
  - intros x i Hx. eapply Rle_trans; [apply B|]. unfold clamp_edge. destruct (Nat.eqb_spec x 0); [lia|]. destruct (Nat.eqb_spec x (n_x g)); [lia|]. lra.
Qed.
Print Assumptions C71_init_bound.
(** Some species must be present. *)
Theorem C71_init_species : forall tri gam g c vth l, init_total tri gam g c vth l = None <-> forall p, In p l -> is_prefix (lit "species-") (fst p) = false.
Proof.
  intros. unfold init_total. destruct (existsb _ l) eqn:E; split; intros H; try discriminate; try reflexivity.
  - apply existsb_exists in E. destruct E as (p & Hp & K). rewrite (H p Hp) in K. discriminate.
  - intros p Hp. destruct (is_prefix _ (fst p)) eqn:K; [|reflexivity]. assert (existsb (fun p => is_prefix (lit "species-") (fst p)) l = true) by (apply existsb_exists; eauto). congruence.
Qed.
Print Assumptions C71_init_species.

Lemma flm_linear_z tri g c l Z ni f0 dt b : (flm_full c = true -> tri_linear tri) -> forall a x z i,
  flm_solve tri g c l Z ni f0 (fun j => x j + a * z j) dt b i = flm_solve tri g c l Z ni f0 x dt b i + a * flm_solve tri g c l Z ni f0 z dt b i.
Proof.
  intros T a x z i. unfold flm_solve. destruct (flm_full c); [|unfold Rdiv; ring]. rewrite (T eq_refl). destruct b; [|ring]. unfold offdiag.
  rewrite !(proj1 (ros_linear g _ a x z i)), !(proj2 (ros_linear g _ a x z i)). destruct (Nat.ltb 1 l); ring.
Qed.
(** The local f10 carries no current wherever the acceleration can drive one. *)
Lemma local_current tri g c ni f0 x : calc_j g (local_acc tri g c ni f0 x) <> 0 -> calc_j g (local_f10 tri g c ni f0 x) = 0.
Proof.
  intros H. unfold local_f10. rewrite (j_linear g _ (local_adv tri g c ni f0 x) (local_acc tri g c ni f0 x)). field. exact H.
Qed.
Lemma ddv_negative g f i : usable g -> (forall j k, (j < k < n_v g)%nat -> f k < f j) -> (i < n_v g)%nat -> ddv g f i < 0.
Proof.
  intros U H Hi. pose proof (dv_pos g U) as D. unfold ddv, gradient. assert (N := U). destruct N as (_ & N & _).
  assert (I : forall h, 0 < h -> forall a b, a < b -> (a - b) / h < 0) by (intros h Hh a b Hab; unfold Rdiv; assert (0 < / h) by (now apply Rinv_0_lt_compat); nra).
  destruct (Nat.eqb_spec (S (S i)) (n_v g + 1)) as [E|E].
  - cbn [prepend]. destruct i as [|k]; cbn [prepend]; [lia|]. apply I; [exact D|]. apply H. lia.
  - cbn [prepend]. apply I; [lra|]. destruct i as [|k]; cbn [prepend]; apply H; lia.
Qed.
Lemma interp_decreasing g F x : (forall k i j, (i < j < n_v g)%nat -> F k j < F k i) -> forall i j, (i < j < n_v g)%nat -> interp_c2e g (fun k => F k j) x < interp_c2e g (fun k => F k i) x.
Proof.
  intros H i j Hij. unfold interp_c2e. assert (G : forall q, exists k, ghosts g (fun k => F k j) q = F k j /\ ghosts g (fun k => F k i) q = F k i).
  { intros [|q]; cbn [ghosts]; destruct (periodic g); try destruct (Nat.ltb q (n_x g)); eexists; split; reflexivity. }
  destruct (G x) as (k1 & -> & ->), (G (S x)) as (k2 & -> & ->). pose proof (H k1 i j Hij). pose proof (H k2 i j Hij). lra.
Qed.
Lemma interp_nonneg g f x : (forall k, 0 <= f k) -> 0 <= interp_c2e g f x.
Proof.
  intros H. unfold interp_c2e. assert (G : forall q, 0 <= ghosts g f q) by (intros [|q]; cbn [ghosts]; destruct (periodic g); try destruct (Nat.ltb q (n_x g)); apply H).
  pose proof (G x). pose proof (G (S x)). lra.
Qed.
Lemma sg_dist_decreasing gam g vth s x i j : (forall z, 0 < z -> 0 < gam z) -> usable g -> 0 < vth -> species_ok vth s -> 0 < sp_n s x -> (i < j)%nat ->
  sg_dist gam g vth (sp_m s) (sp_n s) (sp_T s) x j < sg_dist gam g vth (sp_m s) (sp_n s) (sp_T s) x i.
Proof.
  intros G U V S N Hij. assert (S' := S). destruct S' as [M S']. destruct (S' x) as [_ T]. destruct (sg_cst_pos gam (sp_m s) G M) as [A C]. unfold sg_dist. cbv zeta.
  set (vx := sqrt (sp_T s x) * vth). assert (VX : 0 < vx) by (apply Rmult_lt_0_compat; [now apply sqrt_lt_R0|exact V]).
  apply Rmult_lt_compat_l; [exact N|]. apply Rmult_lt_compat_l; [apply Rdiv_lt_0_compat; [exact C|now apply pow_lt]|]. apply exp_increasing, Ropp_lt_contravar.
  assert (VV : v_at g i < v_at g j). { rewrite !v_formula by exact U. pose proof (dv_pos g U). assert (INR i < INR j) by now apply lt_INR. nra. }
  pose proof (v_pos g i U). unfold Rpower. apply exp_increasing. apply Rmult_lt_compat_l; [exact M|]. apply ln_increasing.
  - apply Rdiv_lt_0_compat; [|exact VX]. apply Rdiv_lt_0_compat; [lra|exact A].
  - unfold Rdiv. apply Rmult_lt_compat_r; [now apply Rinv_0_lt_compat|]. apply Rmult_lt_compat_r; [now apply Rinv_0_lt_compat|exact VV].
Qed.
(** One species of positive density, Z* collisions: wherever the clip is inactive, the initial state carries no current. *)
Theorem C71_init_current : forall tri gam g c vth nm s f0 f10 n x, (forall z, 0 < z -> 0 < gam z) -> usable g -> 0 < vth -> species_ok vth s -> (forall k, 0 < sp_n s k) ->
  flm_full c = false -> 0 < flm_Z c -> 0 <= flm_nuee c -> 0 <= flm_loglam c ->
  init_total tri gam g c vth [(nm, s)] = Some (f0, f10, n) ->
  (forall i, (i < n_v g)%nat -> Rabs (f10 x i) < clamp_edge g (fun k => f0 k i) x) -> calc_j g (f10 x) = 0.
Proof.
  intros tri gam g c vth nm s f0 f10 n x G U V S N F HZ Hn HL E B. assert (PF : is_prefix (lit "species-") nm = true).
  { destruct (is_prefix (lit "species-") nm) eqn:K; [reflexivity|]. unfold init_total in E. cbn [existsb fst] in E. rewrite K in E. discriminate. }
  destruct (total_cases tri gam g c vth _ f0 f10 n E) as (E0 & _ & T).
  assert (L : init_loop tri gam g c vth [(nm, s)] = init_species tri gam g c vth acc_zero s) by (unfold init_loop; cbn [fold_left fst snd]; now rewrite PF). rewrite L in *.
  set (ni := fun k => (0 + sp_n s k) / flm_Z c). set (h := fun k i => 0 + sg_dist gam g vth (sp_m s) (sp_n s) (sp_T s) k i).
  assert (J : calc_j g (f10 x) = calc_j g (local_f10 tri g c ni h x)).
  { unfold calc_j. f_equal. f_equal. apply rsum_ext. intros i Hi. f_equal. rewrite T, clip_inside; [change (0 + local_f10 tri g c ni h x i = local_f10 tri g c ni h x i); ring|]. rewrite <- T. now apply B. }
  rewrite J. apply local_current. unfold calc_j. pose proof PI_RGT_0. pose proof (dv_pos g U) as D.
  assert (Q : rsum (n_v g) (fun i => - (local_acc tri g c ni h x i * v_at g i ^ 3)) <> 0).
  { apply Rgt_not_eq. assert (NV := U). destruct NV as (_ & NV & _). apply rsum_pos; [lia|]. intros i Hi.
    assert (ND : ddv g (fun j => interp_c2e g (fun k => h k j) x) i < 0).
    { apply ddv_negative; [exact U| |exact Hi]. intros a b Hab. apply (interp_decreasing g h x); [|exact Hab]. intros k p q Hpq. unfold h. pose proof (sg_dist_decreasing gam g vth s k p q G U V S (N k) ltac:(lia)). lra. }
    assert (NI : 0 <= interp_c2e g ni x) by (apply interp_nonneg; intros k; unfold ni; pose proof (N k); apply Rmult_le_pos; [lra|left; now apply Rinv_0_lt_compat]).
    assert (big : 0 <= big_dt) by (unfold big_dt; lra).
    destruct (C71_zstar_damping tri g c 1 (interp_c2e g (fun _ => 1) x) (interp_c2e g ni x) (fun i => interp_c2e g (fun k => h k i) x) (fun i => ddv g (fun j => interp_c2e g (fun k => h k j) x) i) big_dt false i U F big (Rlt_le _ _ HZ) Hn HL NI) as (Q1 & Q2 & _).
    fold (local_acc tri g c ni h x i) in Q1. set (r := (flm_Z c + 42 / 10) / _ * _ * _) in *. set (w := local_acc tri g c ni h x i) in *. clearbody w. assert (P : 0 < 1 + big_dt * r) by nra.
    assert (W : w < 0) by (destruct (Rlt_le_dec w 0); [assumption|nra]). pose proof (pow_lt (v_at g i) 3 (v_pos g i U)). nra. }
  intros C. apply Q. rewrite (rsum_ext _ _ (fun i => -1 * (local_acc tri g c ni h x i * v_at g i ^ 3))) by (intros; ring). rewrite rsum_scal.
  assert (Y : - 4 * PI / 3 * d_v g * rsum (n_v g) (fun i => local_acc tri g c ni h x i * v_at g i ^ 3) = 0) by lra. destruct (Rmult_integral _ _ Y) as [K|K]; [|rewrite K; ring].
  exfalso. assert (0 < PI * d_v g) by now apply Rmult_lt_0_compat. lra.
Qed.
Print Assumptions C71_init_current.
(** Uniform profiles give f10 = 0. *)
Theorem C71_init_uniform : forall tri gam g c vth l f0 f10 n, (forall z, 0 < z -> 0 < gam z) -> 0 < vth -> (flm_full c = true -> forall m op, tri m op (fun _ => 0) = fun _ => 0) ->
  (forall p, In p l -> species_ok vth (snd p) /\ forall x, sp_n (snd p) x = sp_n (snd p) 0%nat /\ sp_T (snd p) x = sp_T (snd p) 0%nat) ->
  init_total tri gam g c vth l = Some (f0, f10, n) -> (forall x i, f10 x i = 0) /\ (forall x i, f0 x i = f0 0%nat i) /\ (forall x, n x = n 0%nat).
Proof.
  intros tri gam g c vth l f0 f10 n G V T S E. destruct (total_cases tri gam g c vth l f0 f10 n E) as (E0 & En & TT).
  assert (INV : forall x, (forall i, acc_f0 (init_loop tri gam g c vth l) x i = acc_f0 (init_loop tri gam g c vth l) 0%nat i) /\ acc_n (init_loop tri gam g c vth l) x = acc_n (init_loop tri gam g c vth l) 0%nat /\ forall i, acc_f10 (init_loop tri gam g c vth l) x i = 0).
  { apply (loop_inv (fun a => forall x, (forall i, acc_f0 a x i = acc_f0 a 0%nat i) /\ acc_n a x = acc_n a 0%nat /\ forall i, acc_f10 a x i = 0)); [cbn; auto|].
    intros a p Hp _ Ha. destruct (S p Hp) as [_ SP]. set (b := init_species tri gam g c vth a (snd p)).
    assert (B0 : forall x i, acc_f0 b x i = acc_f0 b 0%nat i).
    { intros x i. unfold b. cbn [init_species acc_f0]. rewrite (proj1 (Ha x)). f_equal. unfold sg_dist. rewrite (proj1 (SP x)), (proj2 (SP x)). reflexivity. }
    assert (ADV : forall ni x, local_adv tri g c ni (acc_f0 b) x = fun _ => 0).
    { intros ni x. unfold local_adv. replace (fun i => - big_dt * v_at g i * ddx_c2e g (fun k => acc_f0 b k i) x) with (fun _ : nat => 0).
      - apply flm_zero. exact T.
      - apply functional_extensionality. intros i. unfold ddx_c2e. assert (Q : forall q, ghosts g (fun k => acc_f0 b k i) q = acc_f0 b 0%nat i) by (intros [|q]; cbn [ghosts]; destruct (periodic g); try destruct (Nat.ltb q (n_x g)); apply B0). rewrite !Q. unfold Rdiv. ring. }
    intros x. split; [apply B0|]. split; [unfold b; cbn [init_species acc_n]; now rewrite (proj1 (proj2 (Ha x))), (proj1 (SP x))|].
    intros i. unfold b at 1. cbn [init_species acc_f10]. rewrite (proj2 (proj2 (Ha x)) i). unfold local_f10.
    change (fun x0 i0 => acc_f0 a x0 i0 + sg_dist gam g vth (sp_m (snd p)) (sp_n (snd p)) (sp_T (snd p)) x0 i0) with (acc_f0 b). rewrite ADV, j_zero. unfold Rdiv. ring. }
  split; [|split].
  - intros x i. rewrite TT, (proj2 (proj2 (INV x))). assert (0 <= clamp_edge g (fun k => f0 k i) x) by (apply clamp_nonneg; intros k; rewrite E0; apply init_f0_nonneg; auto; intros p Hp; now apply S).
    unfold clip, Rmin, Rmax. destruct (Rle_dec 0 _); destruct (Rle_dec _ _); lra.
  - intros x i. rewrite E0. apply INV.
  - intros x. rewrite En. apply INV.
Qed.
Print Assumptions C71_init_uniform.
(** "A species of zero density changes nothing" is false: after a first species s, an empty second species makes the
    local f10 be computed and added a second time. *)
Theorem C71_zero_species_doubles : forall tri gam g c vth s z x i, (forall k, sp_n z k = 0) ->
  acc_f0 (init_loop tri gam g c vth [(lit "species-a", s); (lit "species-b", z)]) x i = acc_f0 (init_loop tri gam g c vth [(lit "species-a", s)]) x i /\
  acc_f10 (init_loop tri gam g c vth [(lit "species-a", s); (lit "species-b", z)]) x i = 2 * acc_f10 (init_loop tri gam g c vth [(lit "species-a", s)]) x i.
Proof.
  intros tri gam g c vth s z x i Hz. unfold init_loop. cbn [fold_left fst snd]. change (is_prefix (lit "species-") (lit "species-a")) with true. change (is_prefix (lit "species-") (lit "species-b")) with true. cbv iota.
  set (a := init_species tri gam g c vth acc_zero s).
  assert (Q0 : (fun x i => acc_f0 a x i + sg_dist gam g vth (sp_m z) (sp_n z) (sp_T z) x i) = acc_f0 a) by (apply functional_extensionality; intros k; apply functional_extensionality; intros j; unfold sg_dist; rewrite Hz; ring).
  assert (Q1 : (fun k => acc_n a k + sp_n z k) = acc_n a) by (apply functional_extensionality; intros k; rewrite Hz; ring).
  cbn [init_species acc_f0 acc_f10]. split; [now rewrite (equal_f (equal_f Q0 x) i)|]. rewrite Q0.
  replace (fun k => (acc_n a k + sp_n z k) / flm_Z c) with (fun k => acc_n a k / flm_Z c) by (apply functional_extensionality; intros k; rewrite Hz; f_equal; ring).
  unfold a at 1. cbn [init_species acc_f10 acc_zero]. change (fun k => (0 + sp_n s k) / flm_Z c) with (fun k => acc_n a k / flm_Z c). change (fun x0 i0 => 0 + sg_dist gam g vth (sp_m s) (sp_n s) (sp_T s) x0 i0) with (acc_f0 a).
  unfold a. cbn [init_species acc_f10 acc_zero acc_n acc_f0]. ring.
Qed.
Print Assumptions C71_zero_species_doubles.

(** ** A collisionless example with a density step, where the clip is active *)
Definition step_grid : vgrid := {| n_x := 2; n_v := 2; x_min := 0; x_max := 2; v_max := 2; d_t := 1; bnd := lit "periodic"; geom := lit "cartesian" |}.
Definition step_flm : flm := {| flm_Z := 1; flm_nuee := 0; flm_loglam := 1; flm_full := false; flm_nl := 1 |}.
(** Euler's gamma at 3/2 and 5/2. *)
Definition gam_half (z : R) : R := if Req_EM_T z (3 / 2) then sqrt PI / 2 else 3 * sqrt PI / 4.
Definition step_species : vspecies := {| sp_m := 2; sp_n := fun x => match x with O => 1 | _ => 2 end; sp_T := fun _ => 1 |}.
Lemma step_usable : usable step_grid.
Proof. unfold usable, step_grid; cbn [n_x n_v x_min x_max v_max]. repeat split; try lia; try lra. Qed.
Lemma gam_pos z : 0 < z -> 0 < gam_half z.
Proof. intros _. unfold gam_half. assert (0 < sqrt PI) by (apply sqrt_lt_R0, PI_RGT_0). destruct (Req_EM_T z (3 / 2)); lra. Qed.
Lemma step_ok : species_ok 1 step_species.
Proof. split; [cbn; lra|]. intros [|x]; cbn; lra. Qed.
(** For m = 2 the distribution is the Maxwellian n / (pi^(3/2) vth^3) exp (- v^2 / vth^2) with vth^2 = T vth0^2. *)
Theorem C71_maxwellian : forall gam g vth n T x i, gam (3 / 2) = sqrt PI / 2 -> gam (5 / 2) = 3 * sqrt PI / 4 -> usable g -> 0 < vth -> 0 < T x ->
  sg_dist gam g vth 2 n T x i = n x / (PI * sqrt PI * (sqrt (T x) * vth) ^ 3) * exp (- (v_at g i ^ 2 / (T x * vth ^ 2))).
Proof.
  intros gam g vth n T x i G3 G5 U V HT. assert (SP : 0 < sqrt PI) by (apply sqrt_lt_R0, PI_RGT_0). pose proof PI_RGT_0 as PP.
  assert (A : sg_alpha gam 2 = 1). { unfold sg_alpha. rewrite G3, G5. replace (3 * (sqrt PI / 2) / 2 / (3 * sqrt PI / 4)) with 1 by (field; lra). apply sqrt_1. }
  unfold sg_dist, sg_cst. rewrite A, G3. cbv zeta. set (vx := sqrt (T x) * vth). assert (ST : 0 < sqrt (T x)) by now apply sqrt_lt_R0. assert (VX : 0 < vx) by (unfold vx; now apply Rmult_lt_0_compat).
  assert (P : Rpower (v_at g i / 1 / vx) 2 = v_at g i ^ 2 / (T x * vth ^ 2)).
  { replace 2 with (INR 2) at 1 by (cbn; ring). rewrite Rpower_pow by (apply Rdiv_lt_0_compat; [|exact VX]; unfold Rdiv; rewrite Rinv_1, Rmult_1_r; now apply v_pos).
    replace (T x * vth ^ 2) with (vx ^ 2) by (unfold vx; rewrite Rpow_mult_distr, pow2_sqrt by lra; reflexivity). field. lra. }
  rewrite P. field. repeat split; lra.
Qed.
Print Assumptions C71_maxwellian.
Lemma step_f0 x i : sg_dist gam_half step_grid 1 2 (sp_n step_species) (sp_T step_species) x i = sp_n step_species x / (PI * sqrt PI) * exp (- v_at step_grid i ^ 2).
Proof.
  rewrite C71_maxwellian; [| | |exact step_usable|lra|cbn; lra].
  - cbn [step_species sp_T]. rewrite sqrt_1. replace (1 * 1 ^ 2) with 1 by ring. unfold Rdiv. rewrite Rinv_1. replace (PI * sqrt PI * (1 * 1) ^ 3) with (PI * sqrt PI) by ring. do 2 f_equal. ring.
  - unfold gam_half. destruct (Req_EM_T (3 / 2) (3 / 2)); [reflexivity|congruence].
  - unfold gam_half. destruct (Req_EM_T (5 / 2) (3 / 2)); [lra|reflexivity].
Qed.
Lemma step_v : v_at step_grid 0 = 1 / 2 /\ v_at step_grid 1 = 3 / 2 /\ d_v step_grid = 1 /\ d_x step_grid = 1.
Proof. rewrite !v_formula by exact step_usable. unfold d_v, d_x. cbn [step_grid v_max n_v n_x x_min x_max INR]. repeat split; field. Qed.
Lemma step_solve tri Z ni f0 f dt b i : flm_solve tri step_grid step_flm 1 Z ni f0 f dt b i = f i.
Proof. unfold flm_solve, step_flm. cbn [flm_full]. unfold nuei_coeff. cbn [flm_nuee]. replace (1 - _) with 1 by ring. field. Qed.
(** The f10 of the two ends before the clip. *)
Lemma step_local tri x M0 M1 : (x = 0%nat \/ x = 2%nat) -> M0 = / (PI * sqrt PI) * exp (- (1 / 2) ^ 2) -> M1 = / (PI * sqrt PI) * exp (- (3 / 2) ^ 2) -> M1 < M0 ->
  acc_f10 (init_loop tri gam_half step_grid step_flm 1 [(lit "species-e", step_species)]) x 0 = big_dt * 54 / 110 * (M0 - 3 / 2 * M1).
Proof.
  intros HX E0 E1 LT. unfold init_loop. cbn [fold_left fst snd]. change (is_prefix (lit "species-") (lit "species-e")) with true. cbv iota.
  cbn [init_species acc_f10 acc_zero acc_f0 acc_n]. set (h := fun k i => 0 + sg_dist gam_half step_grid 1 (sp_m step_species) (sp_n step_species) (sp_T step_species) k i).
  destruct step_v as (V0 & V1 & DV & DX).
  assert (H0 : forall k, h k 0%nat = sp_n step_species k * M0) by (intros k; unfold h; cbn [step_species sp_m]; fold step_species; rewrite step_f0, V0, E0; unfold Rdiv; ring).
  assert (H1 : forall k, h k 1%nat = sp_n step_species k * M1) by (intros k; unfold h; cbn [step_species sp_m]; fold step_species; rewrite step_f0, V1, E1; unfold Rdiv; ring).
  set (ni := fun k => (0 + sp_n step_species k) / flm_Z step_flm).
  assert (DD : ddx_c2e step_grid (fun k => h k 0%nat) x = - M0 /\ ddx_c2e step_grid (fun k => h k 1%nat) x = - M1).
  { unfold ddx_c2e. rewrite DX. destruct HX as [-> | ->]; cbn [ghosts step_grid n_x]; change (periodic step_grid) with true; change (Nat.ltb 0 2) with true; change (Nat.ltb 2 2) with false; change (Nat.ltb 1 2) with true; cbv iota; rewrite !H0, !H1; cbn [step_species sp_n Nat.sub]; split; field. }
  assert (IE : interp_c2e step_grid (fun k => h k 0%nat) x = 3 / 2 * M0 /\ interp_c2e step_grid (fun k => h k 1%nat) x = 3 / 2 * M1).
  { unfold interp_c2e. destruct HX as [-> | ->]; cbn [ghosts step_grid n_x]; change (periodic step_grid) with true; change (Nat.ltb 0 2) with true; change (Nat.ltb 2 2) with false; change (Nat.ltb 1 2) with true; cbv iota; rewrite !H0, !H1; cbn [step_species sp_n Nat.sub]; split; field. }
  assert (A0 : local_adv tri step_grid step_flm ni h x 0 = big_dt * (1 / 2) * M0) by (unfold local_adv; rewrite step_solve, (proj1 DD), V0; ring).
  assert (A1 : local_adv tri step_grid step_flm ni h x 1 = big_dt * (3 / 2) * M1) by (unfold local_adv; rewrite step_solve, (proj2 DD), V1; ring).
  assert (C0 : local_acc tri step_grid step_flm ni h x 0 = 3 / 4 * (M1 - M0)).
  { unfold local_acc. rewrite step_solve. unfold ddv, gradient. cbn [step_grid n_v Nat.add Nat.eqb prepend]. rewrite (proj1 IE), (proj2 IE). fold step_grid. rewrite DV. field. }
  assert (C1 : local_acc tri step_grid step_flm ni h x 1 = 3 / 2 * (M1 - M0)).
  { unfold local_acc. rewrite step_solve. unfold ddv, gradient. cbn [step_grid n_v Nat.add Nat.eqb prepend]. rewrite (proj1 IE), (proj2 IE). fold step_grid. rewrite DV. field. }
  unfold local_f10. rewrite A0, C0. unfold calc_j. change (n_v step_grid) with 2%nat. cbn [rsum]. rewrite A0, A1, C0, C1, V0, V1, DV. pose proof PI_RGT_0. field. split; lra.
Qed.
Lemma step_sizes : exists M0 M1, M0 = / (PI * sqrt PI) * exp (- (1 / 2) ^ 2) /\ M1 = / (PI * sqrt PI) * exp (- (3 / 2) ^ 2) /\ 0 < M0 /\ 0 < M1 /\ 3 * M1 <= M0.
Proof.
  do 2 eexists. split; [reflexivity|]. split; [reflexivity|]. assert (K : 0 < / (PI * sqrt PI)) by (apply Rinv_0_lt_compat, Rmult_lt_0_compat; [apply PI_RGT_0|apply sqrt_lt_R0, PI_RGT_0]).
  pose proof (exp_pos (- (1 / 2) ^ 2)). pose proof (exp_pos (- (3 / 2) ^ 2)). repeat split; try (now apply Rmult_lt_0_compat).
  replace (- (1 / 2) ^ 2) with (2 + - (3 / 2) ^ 2) by field. rewrite exp_plus. pose proof (exp_ineq1 2 ltac:(lra)). set (e := exp (- (3 / 2) ^ 2)) in *. set (k := / (PI * sqrt PI)) in *. assert (0 < k * e) by now apply Rmult_lt_0_compat. replace (k * (exp 2 * e)) with (exp 2 * (k * e)) by ring. apply Rmult_le_compat_r; lra.
Qed.
Lemma step_total tri : exists f0 f10 n M0, 0 < M0 /\ init_total tri gam_half step_grid step_flm 1 [(lit "species-e", step_species)] = Some (f0, f10, n) /\
  f0 0%nat 0%nat = M0 /\ f10 0%nat 0%nat = M0 /\ f10 2%nat 0%nat = 2 * M0 /\ n 0%nat = 1.
Proof.
  destruct step_sizes as (M0 & M1 & E0 & E1 & P0 & P1 & L).
  assert (TT : exists f0 f10 n, init_total tri gam_half step_grid step_flm 1 [(lit "species-e", step_species)] = Some (f0, f10, n)) by (unfold init_total; cbn [existsb fst]; change (is_prefix (lit "species-") (lit "species-e")) with true; cbn [orb]; do 3 eexists; reflexivity).
  destruct TT as (f0 & f10 & n & T). exists f0, f10, n, M0. destruct (total_cases _ _ _ _ _ _ f0 f10 n T) as (F & N & C).
  destruct step_v as (V0 & V1 & DV & DX).
  assert (H0 : forall k, f0 k 0%nat = sp_n step_species k * M0).
  { intros k. rewrite F. unfold init_loop. cbn [fold_left fst snd]. change (is_prefix (lit "species-") (lit "species-e")) with true. cbv iota. cbn [init_species acc_f0 acc_zero]. cbn [step_species sp_m]. fold step_species. rewrite step_f0, V0, E0. unfold Rdiv. ring. }
  split; [exact P0|]. split; [exact T|]. split; [rewrite H0; cbn; ring|].
  assert (BIG : 2 * M0 <= big_dt * 54 / 110 * (M0 - 3 / 2 * M1)) by (assert (BD : 10 <= big_dt) by (unfold big_dt; lra); assert (HD : M0 / 2 <= M0 - 3 / 2 * M1) by lra; generalize dependent big_dt; intros b BD; nra).
  assert (CL : forall b a, 0 <= b -> b <= a -> clip (- b) b a = b) by (intros b a Hb Ha; unfold clip; rewrite (Rmax_left a) by lra; now apply Rmin_right).
  split; [|split].
  - rewrite C, (step_local tri 0 M0 M1 (or_introl eq_refl) E0 E1) by lra. change (clamp_edge step_grid (fun k => f0 k 0%nat) 0) with (f0 0%nat 0%nat). rewrite H0. cbn [step_species sp_n]. replace (1 * M0) with M0 by ring. apply CL; lra.
  - rewrite C, (step_local tri 2 M0 M1 (or_intror eq_refl) E0 E1) by lra. change (clamp_edge step_grid (fun k => f0 k 0%nat) 2) with (f0 1%nat 0%nat). rewrite H0. cbn [step_species sp_n]. apply CL; lra.
  - rewrite N. unfold init_loop. cbn [fold_left fst snd]. change (is_prefix (lit "species-") (lit "species-e")) with true. cbv iota. cbn. ring.
Qed.
(** "The initial state satisfies the periodic boundary condition" is false: the clip uses the bounds of a reflecting box. *)
Theorem C71_clip_periodic_refuted : exists tri gam g c vth l y, usable g /\ periodic g = true /\ (forall p, In p l -> species_ok vth (snd p)) /\
  init_state tri gam g c vth l 1 NoIonCfg = Some y /\ ~ bc g (s_f y).
Proof.
  destruct (step_total ex_tri) as (f0 & f10 & n & M0 & P & T & _ & A & B & _).
  exists ex_tri, gam_half, step_grid, step_flm, 1, [(lit "species-e", step_species)]. eexists. split; [exact step_usable|]. split; [reflexivity|].
  split; [intros p [<-|[]]; exact step_ok|]. split; [unfold init_state; rewrite T; reflexivity|]. unfold bc. change (periodic step_grid) with true. cbn [s_f]. intros K. specialize (K 0%nat). change (n_x step_grid) with 2%nat in K. rewrite A, B in K. lra.
Qed.
Print Assumptions C71_clip_periodic_refuted.
(** "The initial state satisfies |f10| <= f0" is false below the critical density: the bound is applied before f0 is
    multiplied by ne/n0, f10 is not multiplied. *)
Theorem C71_scaled_bound_refuted : exists tri gam g c vth l ratio y, usable g /\ 0 < ratio /\ (forall p, In p l -> species_ok vth (snd p)) /\
  init_state tri gam g c vth l ratio NoIonCfg = Some y /\ s_f y (F0 0 0) < Rabs (s_f y (F10 0 0)).
Proof.
  destruct (step_total ex_tri) as (f0 & f10 & n & M0 & P & T & A0 & A & B & _).
  exists ex_tri, gam_half, step_grid, step_flm, 1, [(lit "species-e", step_species)], (1 / 10). eexists. split; [exact step_usable|]. split; [lra|].
  split; [intros p [<-|[]]; exact step_ok|]. split; [unfold init_state; rewrite T; reflexivity|]. cbn [s_f]. rewrite A, A0, Rabs_right by lra. lra.
Qed.
Print Assumptions C71_scaled_bound_refuted.

(** ** Ions and coefficients *)
(** The effective ion keeps quasineutrality (Z ni = ne) and, for a mixture, the electron-ion rate: Z^2 ni is the sum of
    Z_i^2 n_i for the atom density na with the same electron density. *)
Theorem C71_ions : forall Zu ne io Z ni x, Zu <> 0 -> init_ions Zu ne io = Some (Z, ni) ->
  match io with
  | NoIonCfg => Z x = 1 /\ Zu * Z x * ni x = ne x
  | SingleIon d => ni x = d x /\ (d x <> 0 -> Zu * Z x * ni x = ne x)
  | Mixture l => Rabs (lsum (map fst l) - 1) <= 1 / 10 ^ 8 + 1 / 10 ^ 5 /\
      (zeff l <> 0 -> Zu * Z x * ni x = ne x /\ forall na, zbar l <> 0 -> zbar l * na = ne x -> (Zu * Z x) ^ 2 * ni x = lsum (map (fun p => fst p * na * snd p ^ 2) l))
  end.
Proof.
  intros Zu ne io Z ni x HZ E. destruct io as [|d|l]; cbn [init_ions] in E.
  - injection E as <- <-. split; [reflexivity|]. field. exact HZ.
  - injection E as <- <-. split; [reflexivity|]. intros D. field. split; assumption.
  - unfold isclose in E. destruct (Rle_dec (Rabs (lsum (map fst l) - 1)) (1 / 10 ^ 8 + 1 / 10 ^ 5 * Rabs 1)) as [Q|Q]; [|discriminate]. injection E as <- <-. rewrite Rabs_R1 in Q. split; [lra|]. intros HE. split; [field; split; assumption|].
    intros na HB HN. replace (lsum (map (fun p => fst p * na * snd p ^ 2) l)) with (na * lsum (map (fun p => fst p * snd p ^ 2) l)).
    2:{ clear. induction l as [|p l IH]; cbn [map]; [cbn; ring|]. change (lsum (?a :: ?b)) with (a + lsum b). rewrite <- IH. ring. }
    rewrite <- HN. replace ((Zu * (zeff l / Zu * 1)) ^ 2 * (zbar l * na / zeff l)) with (zeff l * zbar l * na) by (field; split; assumption). unfold zeff. field. exact HB.
Qed.
Print Assumptions C71_ions.
Definition raw_ok (r : vraw) : Prop := 0 < r_nuee r /\ 0 < r_loglam r /\ 0 < r_Z r /\ 0 < r_w0 r.
(** The anisotropic solver never sees the nuee_coeff override of the configuration, which the isotropic solver and the
    inverse-bremsstrahlung term use. *)
Theorem C71_override : forall r k g m s b sv, let r' := {| r_nuee := r_nuee r; o_nuee := Some k; r_loglam := r_loglam r; r_Z := r_Z r; r_full := r_full r; r_nl := r_nl r; o_D0 := o_D0 r; o_int := o_int r; r_vosc2 := r_vosc2 r; r_w0 := r_w0 r |} in
  c_nuee (oshun_cfg r' g m s b sv) = k /\ (forall Z ni, ib_ratio (oshun_cfg r' g m s b sv) Z ni = k * r_loglam r * Z ^ 2 * ni / r_w0 r) /\
  forall tri Z ni f0 f10 x, collide_edges tri (oshun_cfg r' g m s b sv) Z ni f0 f10 x = collide_edges tri (oshun_cfg r g m s b sv) Z ni f0 f10 x.
Proof. intros. split; [reflexivity|]. split; reflexivity. Qed.
Print Assumptions C71_override.
(** The inverse-bremsstrahlung ratio is the electron-ion rate of the anisotropic solver divided by the laser frequency
    and by units.Z squared ... *)
Theorem C71_ib_ratio : forall r g m s b sv Z ni i, raw_ok r -> o_nuee r = None -> usable g ->
  let c := oshun_cfg r g m s b sv in
  (- nuei_coeff (c_flm c) * ei_diag g 1 Z ni i) / c_w0 c = r_Z r ^ 2 * (ib_ratio c Z ni / v_at g i ^ 3).
Proof.
  intros r g m s b sv Z ni i (A & B & C & D) O U c. unfold nuei_coeff, ei_diag, ib_ratio, c, oshun_cfg. cbn [c_flm flm_nuee flm_Z flm_loglam c_nuee c_w0]. rewrite O. cbn [get_or]. change (INR 1) with 1. pose proof (v_pos g i U). field. lra.
Qed.
Print Assumptions C71_ib_ratio.
(** ... so the documented "nu_ei(v) / omega_0 = ratio / v^3" is false for every ion charge other than one. *)
Theorem C71_ib_ratio_refuted : exists r g m s b sv Z ni i, raw_ok r /\ o_nuee r = None /\ usable g /\
  let c := oshun_cfg r g m s b sv in (- nuei_coeff (c_flm c) * ei_diag g 1 Z ni i) / c_w0 c <> ib_ratio c Z ni / v_at g i ^ 3.
Proof.
  exists {| r_nuee := 1; o_nuee := None; r_loglam := 1; r_Z := 2; r_full := false; r_nl := 1; o_D0 := None; o_int := None; r_vosc2 := 0; r_w0 := 1 |}, step_grid, NullModel, SCentral, (fun _ => 1), (lit "oshun"), 1, 1, 0%nat.
  split; [unfold raw_ok; cbn; lra|]. split; [reflexivity|]. split; [exact step_usable|]. cbv zeta. rewrite C71_ib_ratio; [|unfold raw_ok; cbn; lra|reflexivity|exact step_usable].
  unfold ib_ratio, oshun_cfg. cbn [c_flm flm_nuee flm_Z flm_loglam c_nuee c_w0 r_Z r_nuee o_nuee get_or r_loglam r_w0]. rewrite (proj1 step_v). lra.
Qed.
Print Assumptions C71_ib_ratio_refuted.
(** Heating terms are absent unless configured; a non-positive intensity switches inverse bremsstrahlung off. *)
Theorem C71_heating_off : forall r g m s b sv, (o_D0 r = None -> c_D0 (oshun_cfg r g m s b sv) = 0) /\ (o_int r = None \/ (exists k, o_int r = Some k /\ k <= 0 /\ 0 <= r_vosc2 r) -> ib_on (oshun_cfg r g m s b sv) = 0).
Proof.
  intros r g m s b sv. split; [intros H; cbn; now rewrite H|]. unfold ib_on. cbn [oshun_cfg c_vosc2]. intros [H|(k & H & K & V)]; rewrite H; cbn [get_or]; destruct (Rlt_dec _ _); try reflexivity; nra.
Qed.
Print Assumptions C71_heating_off.
