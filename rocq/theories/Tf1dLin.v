(** C85 (continued): equilibria, drivers, the linear waves, trapping and saving of the two-fluid solver. *)
From Coq Require Import Reals ZArith List Bool Lia Lra Psatz.
From Verif Require Import PyStr RSum Pic PicProofs PicFourier VGrid VGridProofs VGridProps Drivers PicLoadProofs PicLoadProps HeatFluxProps Vlasov VlasovProofs VlasovProofs2 VlasovProps3 Vfp2d Vfp2dField VfpSetup2Props Dft Vlasov2Field Tf1d Tf1dProps.
Import ListNotations.
Local Open Scope R_scope.

Lemma tab_0 : tab_k 0%nat = 2 / 100.
Proof. unfold tab_k. apply linspace_ends. unfold tab_n. lia. Qed.
Lemma kr_0 n dx : kr n dx 0%nat = 0.
Proof. unfold kr. change (INR 0) with 0. unfold Rdiv. ring. Qed.
Lemma wi_0 root s n dx : wi_at root s n dx 0%nat = 0.
Proof. unfold wi_at. destruct (p_landau s); [|reflexivity]. rewrite kr_0. unfold interp_lr. rewrite tab_0. destruct (Rlt_dec 0 (2 / 100)); [reflexivity|lra]. Qed.
Lemma twi_0 root n dx : trap_wi root n dx 0%nat = 0.
Proof. unfold trap_wi. rewrite kr_0. unfold interp_lr. rewrite tab_0. destruct (Rlt_dec 0 (2 / 100)); [reflexivity|lra]. Qed.
Lemma smul_zero n w a g : (g < n)%nat -> (forall h, (h < n)%nat -> a h = 0) -> smul n (fun k => (w k, 0)) a g = 0.
Proof. intros Hg H. rewrite (smul_ext n _ (fun k => (w k, 0)) a (fun _ => 0) (fun _ _ => eq_refl) H g), smul_const by exact Hg. ring. Qed.
Lemma grad_zero n dx a c g : (g < n)%nat -> (forall h, (h < n)%nat -> a h = c) -> grad n dx a g = 0.
Proof. intros Hg H. rewrite (grad_ext n dx a (fun _ => c) g Hg H). now apply grad_const. Qed.
Lemma push_zero root s n dx a u pm qe d c1 c2 c3 g : (g < n)%nat -> (forall h, (h < n)%nat -> a h = c1 /\ u h = c2 /\ pm h = c3) ->
  push_n n dx a u g = 0 /\ push_u root s n dx a u pm qe d g = - qe g /\ push_p s n dx a u pm qe g = - 2 * c1 * c2 * qe g.
Proof.
  intros Hg H. assert (Ga : forall h, (h < n)%nat -> grad n dx a h = 0) by (intros; apply (grad_zero n dx a c1); try assumption; apply H). assert (Gu : forall h, (h < n)%nat -> grad n dx u h = 0) by (intros; apply (grad_zero n dx u c2); try assumption; apply H).
  assert (Gp : forall h, (h < n)%nat -> grad n dx pm h = 0) by (intros; apply (grad_zero n dx pm c3); try assumption; apply H). unfold push_n, push_u, push_p, restoring, damping. rewrite Ga, Gu, Gp by exact Hg. split; [ring|]. split.
  - rewrite (smul_zero n (wr_corr root s n dx)) by (try assumption; intros h Hh; rewrite Gp by exact Hh; unfold Rdiv; ring).
    rewrite (smul_ext n _ (fun k => (wi_at root s n dx k, 0)) u (fun _ => c2) (fun _ _ => eq_refl) (fun h Hh => proj1 (proj2 (H h Hh))) g), smul_const, wi_0 by exact Hg. ring.
  - destruct (H g Hg) as (-> & -> & _). ring.
Qed.

(** * Equilibria and drivers *)
(** A uniform plasma: density n0, drift u0, pressure p0, trapped fraction d0 in every cell (each species with its own values). *)
Definition uniform_state (n : nat) (y : fluid) (n0 u0 p0 d0 : R) : Prop := forall g, (g < n)%nat -> f_n y g = n0 /\ f_u y g = u0 /\ f_p y g = p0 /\ f_d y g = d0.
(** Without a driver every uniform plasma is a steady state, even if it is not neutral and even if its two species drift. *)
Theorem C85_uniform : forall root nu_g n dx x si se t yi ye ni ui pi di ne ue pe de zi ze, dx <> 0 -> rhs root nu_g n dx x si se [] t yi ye = Some (zi, ze) ->
  uniform_state n yi ni ui pi di -> uniform_state n ye ne ue pe de -> uniform_state n zi 0 0 0 0 /\ uniform_state n ze 0 0 0 0.
Proof.
  intros root nu_g n dx x si se t yi ye ni ui pi di ne ue pe de zi ze Hd H Ui Ue. unfold rhs in H. destruct (_ && _); [discriminate|]. destruct (negb _); [discriminate|]. injection H as <- <-.
  assert (E : forall g, (g < n)%nat -> fields n dx si se yi ye g = 0).
  { intros g Hg. unfold fields. rewrite (poisson_ext n dx _ (fun _ => p_charge si * ni + p_charge se * ne) g) by (intros q Hq; now rewrite (proj1 (Ui q Hq)), (proj1 (Ue q Hq))). now apply poisson_const. }
  assert (K : forall s y n0 u0 p0 d0, uniform_state n y n0 u0 p0 d0 -> uniform_state n (rhs_species root nu_g s n dx (fields n dx si se yi ye) (fun g => fields n dx si se yi ye g + drivers [] x t g) y) 0 0 0 0).
  { intros s y n0 u0 p0 d0 U g Hg. unfold rhs_species. cbn [f_n f_u f_p f_d]. set (e := fields n dx si se yi ye) in *.
    destruct (push_zero root s n dx (f_n y) (f_u y) (fun g => f_p y g / p_mass s) (fun g => p_charge s / p_mass s * (e g + drivers [] x t g)) (f_d y) n0 u0 (p0 / p_mass s) g Hg) as (A & B & _); [intros h Hh; destruct (U h Hh) as (-> & -> & -> & _); now repeat split|].
    destruct (push_zero root s n dx (f_n y) (f_u y) (fun g => f_p y g / p_mass s) (fun g => p_charge s / p_mass s * e g) (f_d y) n0 u0 (p0 / p_mass s) g Hg) as (_ & _ & C); [intros h Hh; destruct (U h Hh) as (-> & -> & -> & _); now repeat split|].
    rewrite E in B, C by exact Hg. split; [|split; [|split]].
    - destruct (p_on s); [exact A|reflexivity].
    - destruct (p_on s); [|reflexivity]. rewrite B. change (drivers [] x t g) with 0. ring.
    - destruct (p_on s); [|reflexivity]. rewrite C. ring.
    - destruct (p_trap s) as [tr|]; [|reflexivity]. unfold push_d. rewrite (grad_zero n dx (f_d y) d0) by (try assumption; intros h Hh; apply (U h Hh)). rewrite (smul_zero n (trap_wi root n dx)) by assumption. rewrite Rabs_R0. unfold Rdiv. ring. }
  split; [eapply K, Ui|eapply K, Ue].
Qed.
Print Assumptions C85_uniform.
(** The driver acts on the plasma at rest as the acceleration -(q/m) times the pulse: against the direction of the force q E on every
    charge. Density, pressure and trapped fraction do not move. *)
Theorem C85_driver_sign : forall root nu_g n dx x si se l t zi ze, dx <> 0 -> rhs root nu_g n dx x si se l t (rest si) (rest se) = Some (zi, ze) ->
  forall s z, (s = si /\ z = zi) \/ (s = se /\ z = ze) -> p_on s = true -> forall g, (g < n)%nat ->
  f_u z g = - (p_charge s / p_mass s) * drivers l x t g /\ f_n z g = 0 /\ f_p z g = 0 /\ f_d z g = 0.
Proof.
  intros root nu_g n dx x si se l t zi ze Hd H s z K On g Hg. unfold rhs in H. destruct (_ && _); [discriminate|]. destruct (negb _); [discriminate|]. injection H as <- <-.
  assert (E : forall g, (g < n)%nat -> fields n dx si se (rest si) (rest se) g = 0).
  { intros h Hh. unfold fields. cbn [rest f_n]. now apply poisson_const. }
  set (e := fields n dx si se (rest si) (rest se)) in *. assert (Z : z = rhs_species root nu_g s n dx e (fun g => e g + drivers l x t g) (rest s)) by (destruct K as [[-> ->]|[-> ->]]; reflexivity). rewrite Z. unfold rhs_species. cbn [f_n f_u f_p f_d]. rewrite On.
  destruct (push_zero root s n dx (f_n (rest s)) (f_u (rest s)) (fun g => f_p (rest s) g / p_mass s) (fun g => p_charge s / p_mass s * (e g + drivers l x t g)) (f_d (rest s)) 1 0 (p_T0 s / p_mass s) g Hg) as (A & B & _); [intros; now repeat split|].
  destruct (push_zero root s n dx (f_n (rest s)) (f_u (rest s)) (fun g => f_p (rest s) g / p_mass s) (fun g => p_charge s / p_mass s * e g) (f_d (rest s)) 1 0 (p_T0 s / p_mass s) g Hg) as (_ & _ & C); [intros; now repeat split|].
  rewrite A, B, C, E by exact Hg. split; [ring|]. split; [reflexivity|]. split; [ring|]. destruct (p_trap s) as [tr|]; [|reflexivity]. unfold push_d. rewrite (grad_zero n dx (f_d (rest s)) 0) by (try assumption; reflexivity). rewrite (smul_zero n (trap_wi root n dx)) by assumption. rewrite Rabs_R0. unfold Rdiv. ring.
Qed.
Print Assumptions C85_driver_sign.
Lemma envelope_bounds a b c d x : -1 < get_envelope a b c d x < 1.
Proof. unfold get_envelope, tanh_step. pose proof (tanh_bounds ((x - c) / a)). pose proof (tanh_bounds ((x - d) / b)). lra. Qed.
Lemma drivers_from l x t g a : fold_left (fun a d => a + fdriver d x t g) l a = a + fold_left (fun a d => a + fdriver d x t g) l 0.
Proof. revert a. induction l as [|d l IH]; intros a; cbn [fold_left]; [ring|]. rewrite IH, (IH (0 + _)). ring. Qed.
(** Pulses superpose, and each stays below |k0 a0|. *)
Theorem C85_drivers : forall l l' x t g, drivers (l ++ l') x t g = drivers l x t g + drivers l' x t g /\
  Rabs (drivers l x t g) <= fold_right (fun d a => Rabs (d_k0 d) * Rabs (d_a0 d) + a) 0 l /\ (forall d, fdriver d x t g = 0 \/ Rabs (fdriver d x t g) < Rabs (d_k0 d) * Rabs (d_a0 d)).
Proof.
  assert (P : forall d x t g, fdriver d x t g = 0 \/ Rabs (fdriver d x t g) < Rabs (d_k0 d) * Rabs (d_a0 d)).
  { intros d x t g. unfold fdriver. set (A := get_envelope _ _ _ _ _). pose proof (envelope_bounds (d_tr d) (d_tr d) (d_tc d - d_tw d * (1 / 2)) (d_tc d + d_tw d * (1 / 2)) t) as HA. fold A in HA. set (B := get_envelope _ _ _ _ _).
    pose proof (envelope_bounds (d_xr d) (d_xr d) (d_xc d - d_xw d * (1 / 2)) (d_xc d + d_xw d * (1 / 2)) (x g)) as HB. fold B in HB. pose proof (SIN_bound (d_k0 d * x g - (d_w0 d + d_dw0 d) * t)) as HS. set (S := sin _) in *.
    destruct (Req_dec (Rabs (d_k0 d) * Rabs (d_a0 d)) 0) as [Z|Z]; [left; apply Rmult_integral in Z; destruct Z as [Z|Z]; [rewrite Z; ring|assert (Z0 : d_a0 d = 0) by (destruct (Req_dec (d_a0 d) 0) as [W|W]; [exact W|exfalso; now apply (Rabs_no_R0 (d_a0 d))]); rewrite Z0; ring]|]. right.
    assert (PP : 0 < Rabs (d_k0 d) * Rabs (d_a0 d)) by (pose proof (Rmult_le_pos _ _ (Rabs_pos (d_k0 d)) (Rabs_pos (d_a0 d))); lra).
    replace (A * B * Rabs (d_k0 d) * d_a0 d * S) with ((A * B * S) * (Rabs (d_k0 d) * d_a0 d)) by ring. rewrite Rabs_mult. rewrite (Rabs_mult (Rabs _)), Rabs_Rabsolu. rewrite <- (Rmult_1_l (Rabs (d_k0 d) * Rabs (d_a0 d))) at 2. apply Rmult_lt_compat_r; [exact PP|]. rewrite !Rabs_mult.
    assert (a1 : Rabs A < 1) by (apply Rabs_def1; lra). assert (b1 : Rabs B < 1) by (apply Rabs_def1; lra). assert (s1 : Rabs S <= 1) by (apply Rabs_le; lra). pose proof (Rabs_pos A). pose proof (Rabs_pos B). pose proof (Rabs_pos S). apply Rle_lt_trans with (Rabs A * Rabs B); [|nra]. rewrite <- (Rmult_1_r (Rabs A * Rabs B)) at 2. apply Rmult_le_compat_l; [nra|exact s1]. }
  intros l l' x t g. split; [|split; [|intros; apply P]].
  - unfold drivers. rewrite fold_left_app, drivers_from. reflexivity.
  - unfold drivers. induction l as [|d l IH]; cbn [fold_left fold_right]; [rewrite Rabs_R0; lra|]. rewrite drivers_from. eapply Rle_trans; [apply Rabs_triang|]. apply Rplus_le_compat; [|exact IH]. rewrite Rplus_0_l. destruct (P d x t g) as [Z|Z]; [rewrite Z, Rabs_R0; apply Rmult_le_pos; apply Rabs_pos|lra].
Qed.
Print Assumptions C85_drivers.

(** * Linear waves *)
(** A small perturbation of the plasma at rest, with trapped fraction d. *)
Definition pert (s : fsp) (eps : R) (n1 u1 p1 d : nat -> R) : fluid :=
  {| f_n := fun g => 1 + eps * n1 g; f_u := fun g => eps * u1 g; f_p := fun g => p_T0 s + eps * p1 g; f_d := d |}.
(** The linear equations: n1' = - u1_x, u1' = - R p1_x / m - (q/m) e1 + D u1, p1' = - gamma (T0/m) u1_x, where R and D are the dispersion
    correction and the damping. *)
Definition lin_n (n : nat) (dx : R) (u1 : nat -> R) (g : nat) : R := - grad n dx u1 g.
Definition lin_u (root : nat -> cplx) (s : fsp) (n : nat) (dx : R) (u1 p1 e1 d : nat -> R) (g : nat) : R :=
  - restoring root s n dx (fun h => grad n dx p1 h / p_mass s) g - p_charge s / p_mass s * e1 g + damping root s n dx u1 d g.
Definition lin_p (s : fsp) (n : nat) (dx : R) (u1 : nat -> R) (g : nat) : R := - gam_of s * (p_T0 s / p_mass s) * grad n dx u1 g.

Lemma grad_aff n dx c e a g : (g < n)%nat -> grad n dx (fun q => c + e * a q) g = e * grad n dx a g.
Proof.
  intros Hg. rewrite (grad_ext n dx _ (fun q => 1 * (fun _ : nat => c) q + e * a q) g Hg) by (intros; ring). rewrite grad_lin, grad_const by exact Hg. ring.
Qed.
Lemma grad_scal n dx e a g : (g < n)%nat -> grad n dx (fun q => e * a q) g = e * grad n dx a g.
Proof. intros Hg. rewrite (grad_ext n dx _ (fun q => 0 + e * a q) g Hg) by (intros; ring). now apply grad_aff. Qed.
Lemma smul_scal n M e a g : (g < n)%nat -> smul n M (fun q => e * a q) g = e * smul n M a g.
Proof. intros Hg. rewrite (smul_ext n M M _ (fun q => e * a q + 0 * a q) (fun _ _ => eq_refl)) by (intros; ring). rewrite smul_linear by exact Hg. ring. Qed.
Lemma sq_bound a e : Rabs e <= 1 / 2 -> Rabs (a * e ^ 2) <= Rabs a * e ^ 2.
Proof. intros _. rewrite Rabs_mult, (Rabs_right (e ^ 2)); [lra|apply Rle_ge, pow2_ge_0]. Qed.
Lemma cube_bound a e : Rabs e <= 1 / 2 -> Rabs (a * e ^ 3) <= Rabs a * e ^ 2.
Proof.
  intros H. replace (a * e ^ 3) with (a * e * e ^ 2) by ring. rewrite Rabs_mult, (Rabs_right (e ^ 2)) by (apply Rle_ge, pow2_ge_0). rewrite Rabs_mult. apply Rmult_le_compat_r; [apply pow2_ge_0|]. rewrite <- (Rmult_1_r (Rabs a)) at 2. apply Rmult_le_compat_l; [apply Rabs_pos|lra].
Qed.
Lemma dens_bound eps x : Rabs eps <= 1 / 2 -> Rabs x <= 1 -> 1 / 2 <= 1 + eps * x.
Proof. intros H1 H2. assert (A : Rabs (eps * x) <= 1 / 2). { rewrite Rabs_mult. pose proof (Rabs_pos eps). pose proof (Rabs_pos x). nra. } pose proof (Rle_abs (- (eps * x))) as B. rewrite Rabs_Ropp in B. lra. Qed.
Lemma inv_bound eps x : Rabs eps <= 1 / 2 -> Rabs x <= 1 -> Rabs (/ (1 + eps * x)) <= 2.
Proof.
  intros H1 H2. pose proof (dens_bound eps x H1 H2) as P. rewrite Rabs_right by (apply Rle_ge, Rlt_le, Rinv_0_lt_compat; lra). replace 2 with (/ (1 / 2)) by field. apply Rinv_le_contravar; lra.
Qed.
Lemma rsum_term_le n F g : (forall i, (i < n)%nat -> 0 <= F i) -> (g < n)%nat -> F g <= rsum n F.
Proof.
  induction n as [|n IH]; intros H Hg; [lia|]. cbn [rsum]. destruct (Nat.eq_dec g n) as [->|N].
  - assert (0 <= rsum n F) by (apply rsum_nonneg; intros; apply H; lia). lra.
  - assert (F g <= rsum n F) by (apply IH; [intros; apply H|]; lia). pose proof (H n ltac:(lia)). lra.
Qed.
Lemma bound_n n dx n1 u1 : exists K, forall eps g, Rabs eps <= 1 / 2 -> (g < n)%nat -> Rabs (push_n n dx (fun g => 1 + eps * n1 g) (fun g => eps * u1 g) g - eps * lin_n n dx u1 g) <= K * eps ^ 2.
Proof.
  set (F := fun g => Rabs (- (u1 g * grad n dx n1 g + n1 g * grad n dx u1 g))). exists (rsum n F). intros eps g He Hg. unfold push_n, lin_n. rewrite grad_aff, grad_scal by exact Hg.
  replace (- (eps * u1 g) * (eps * grad n dx n1 g) - (1 + eps * n1 g) * (eps * grad n dx u1 g) - eps * - grad n dx u1 g) with (- (u1 g * grad n dx n1 g + n1 g * grad n dx u1 g) * eps ^ 2) by ring.
  eapply Rle_trans; [now apply sq_bound|]. apply Rmult_le_compat_r; [apply pow2_ge_0|]. change (F g <= rsum n F). apply rsum_term_le; [intros; apply Rabs_pos|exact Hg].
Qed.
Lemma bound_u root s n dx n1 u1 p1 e1 d : p_mass s <> 0 -> (forall g, (g < n)%nat -> Rabs (n1 g) <= 1) ->
  exists K, forall eps g, Rabs eps <= 1 / 2 -> (g < n)%nat ->
  Rabs (push_u root s n dx (fun g => 1 + eps * n1 g) (fun g => eps * u1 g) (fun g => (p_T0 s + eps * p1 g) / p_mass s) (fun g => p_charge s / p_mass s * (eps * e1 g)) d g - eps * lin_u root s n dx u1 p1 e1 d g) <= K * eps ^ 2.
Proof.
  intros Hm Hn1. set (M := fun k => (wr_corr root s n dx k, 0)). set (B := fun g q => Rabs (grad n dx p1 q / p_mass s * n1 q * smul n M (spike q) g)).
  set (F := fun g => Rabs (u1 g * grad n dx u1 g) + 2 * rsum n (B g)). exists (rsum n F). intros eps g He Hg. unfold push_u, lin_u, restoring, damping. fold M. rewrite grad_scal by exact Hg. rewrite (smul_scal n (fun k => (wi_at root s n dx k, 0))) by exact Hg.
  rewrite (smul_mat n M (fun h => grad n dx (fun g0 => (p_T0 s + eps * p1 g0) / p_mass s) h / (1 + eps * n1 h)) g Hg), (smul_mat n M (fun h => grad n dx p1 h / p_mass s) g Hg).
  assert (R : rsum n (fun q => grad n dx (fun g0 => (p_T0 s + eps * p1 g0) / p_mass s) q / (1 + eps * n1 q) * smul n M (spike q) g) =
    eps * rsum n (fun q => grad n dx p1 q / p_mass s * smul n M (spike q) g) + - eps ^ 2 * rsum n (fun q => grad n dx p1 q / p_mass s * n1 q * smul n M (spike q) g * / (1 + eps * n1 q))).
  { rewrite <- !rsum_scal, <- rsum_plus. apply rsum_ext. intros q Hq. assert (P : 1 + eps * n1 q <> 0) by (pose proof (dens_bound eps (n1 q) He (Hn1 q Hq)); lra).
    rewrite (grad_ext n dx _ (fun g0 => p_T0 s / p_mass s + eps / p_mass s * p1 g0) q Hq) by (intros; unfold Rdiv; ring). rewrite grad_aff by exact Hq. field. now split. }
  rewrite R. set (r1 := rsum n (fun q => grad n dx p1 q / p_mass s * smul n M (spike q) g)). set (r2 := rsum n (fun q => grad n dx p1 q / p_mass s * n1 q * smul n M (spike q) g * / (1 + eps * n1 q))). set (w := smul n _ u1 g). set (cc := the_coeff s (d g)).
  replace (- (eps * u1 g) * (eps * grad n dx u1 g) - (eps * r1 + - eps ^ 2 * r2) - p_charge s / p_mass s * (eps * e1 g) + 2 * (eps * w) * cc - eps * (- r1 - p_charge s / p_mass s * e1 g + 2 * w * cc))
    with ((- (u1 g * grad n dx u1 g) + r2) * eps ^ 2) by ring.
  eapply Rle_trans; [now apply sq_bound|]. apply Rmult_le_compat_r; [apply pow2_ge_0|]. eapply Rle_trans; [apply Rabs_triang|]. rewrite Rabs_Ropp. apply Rle_trans with (F g).
  - unfold F. apply Rplus_le_compat_l. unfold r2. eapply Rle_trans; [apply rsum_abs|]. rewrite <- rsum_scal. apply rsum_le. intros q Hq. rewrite Rabs_mult. fold (B g q). pose proof (inv_bound eps (n1 q) He (Hn1 q Hq)) as I. pose proof (Rabs_pos (grad n dx p1 q / p_mass s * n1 q * smul n M (spike q) g)) as P. fold (B g q) in P. nra.
  - apply rsum_term_le; [|exact Hg]. intros h _. unfold F. pose proof (Rabs_pos (u1 h * grad n dx u1 h)). assert (0 <= rsum n (B h)) by (apply rsum_nonneg; intros; apply Rabs_pos). lra.
Qed.
Lemma bound_p s n dx n1 u1 p1 e1 : p_mass s <> 0 -> exists K, forall eps g, Rabs eps <= 1 / 2 -> (g < n)%nat ->
  Rabs (push_p s n dx (fun g => 1 + eps * n1 g) (fun g => eps * u1 g) (fun g => (p_T0 s + eps * p1 g) / p_mass s) (fun g => p_charge s / p_mass s * (eps * e1 g)) g - eps * lin_p s n dx u1 g) <= K * eps ^ 2.
Proof.
  intros Hm. set (A := fun g => - (u1 g * (grad n dx p1 g / p_mass s) + gam_of s * (p1 g / p_mass s) * grad n dx u1 g + 2 * u1 g * (p_charge s / p_mass s * e1 g))). set (C := fun g => - (2 * n1 g * u1 g * (p_charge s / p_mass s * e1 g))).
  set (F := fun g => Rabs (A g) + Rabs (C g)). exists (rsum n F). intros eps g He Hg. unfold push_p, lin_p. rewrite grad_scal by exact Hg. rewrite (grad_ext n dx _ (fun g0 => p_T0 s / p_mass s + eps / p_mass s * p1 g0) g Hg) by (intros; unfold Rdiv; ring). rewrite grad_aff by exact Hg.
  match goal with |- Rabs ?X <= _ => replace X with (A g * eps ^ 2 + C g * eps ^ 3) by (unfold A, C; field; exact Hm) end.
  eapply Rle_trans; [apply Rabs_triang|]. apply Rle_trans with (F g * eps ^ 2).
  - unfold F. rewrite Rmult_plus_distr_r. apply Rplus_le_compat; [now apply sq_bound|now apply cube_bound].
  - apply Rmult_le_compat_r; [apply pow2_ge_0|]. apply rsum_term_le; [|exact Hg]. intros h _. unfold F. pose proof (Rabs_pos (A h)). pose proof (Rabs_pos (C h)). lra.
Qed.
(** To first order in the amplitude eps, the two fluids obey the linear equations with the common field e1 of the charge perturbation: the
    error is below K eps^2 for one K, for every cell and every eps up to one half. *)
Theorem C85_linear : forall root nu_g n dx x si se t ni ui pi di ne ue pe de, dx <> 0 -> p_mass si <> 0 -> p_mass se <> 0 ->
  (forall g, (g < n)%nat -> Rabs (ni g) <= 1 /\ Rabs (ne g) <= 1) -> let e1 := fpoisson n dx (fun g => p_charge si * ni g + p_charge se * ne g) in
  exists K, forall eps zi ze, Rabs eps <= 1 / 2 -> rhs root nu_g n dx x si se [] t (pert si eps ni ui pi di) (pert se eps ne ue pe de) = Some (zi, ze) -> forall g, (g < n)%nat ->
  (p_on si = true -> Rabs (f_n zi g - eps * lin_n n dx ui g) <= K * eps ^ 2 /\ Rabs (f_u zi g - eps * lin_u root si n dx ui pi e1 di g) <= K * eps ^ 2 /\ Rabs (f_p zi g - eps * lin_p si n dx ui g) <= K * eps ^ 2) /\
  (p_on se = true -> Rabs (f_n ze g - eps * lin_n n dx ue g) <= K * eps ^ 2 /\ Rabs (f_u ze g - eps * lin_u root se n dx ue pe e1 de g) <= K * eps ^ 2 /\ Rabs (f_p ze g - eps * lin_p se n dx ue g) <= K * eps ^ 2).
Proof.
  intros root nu_g n dx x si se t ni ui pi di ne ue pe de Hd Hmi Hme H1 e1.
  assert (E : forall eps g, (g < n)%nat -> fields n dx si se (pert si eps ni ui pi di) (pert se eps ne ue pe de) g = eps * e1 g).
  { intros eps g Hg. unfold fields, e1. cbn [pert f_n]. rewrite (poisson_ext n dx _ (fun q => 1 * (fun _ : nat => p_charge si + p_charge se) q + eps * (fun q => p_charge si * ni q + p_charge se * ne q) q) g) by (intros; ring). rewrite poisson_lin, poisson_const by assumption. ring. }
  assert (S : forall s n1 u1 p1 d, p_mass s <> 0 -> (forall g, (g < n)%nat -> Rabs (n1 g) <= 1) -> exists K, 0 <= K /\ forall eps e, Rabs eps <= 1 / 2 -> (forall g, (g < n)%nat -> e g = eps * e1 g) -> forall g, (g < n)%nat -> p_on s = true ->
    let z := rhs_species root nu_g s n dx e (fun g => e g + drivers [] x t g) (pert s eps n1 u1 p1 d) in
    Rabs (f_n z g - eps * lin_n n dx u1 g) <= K * eps ^ 2 /\ Rabs (f_u z g - eps * lin_u root s n dx u1 p1 e1 d g) <= K * eps ^ 2 /\ Rabs (f_p z g - eps * lin_p s n dx u1 g) <= K * eps ^ 2).
  { intros s n1 u1 p1 d Hm Hn1. destruct (bound_n n dx n1 u1) as [K1 B1]. destruct (bound_u root s n dx n1 u1 p1 e1 d Hm Hn1) as [K2 B2]. destruct (bound_p s n dx n1 u1 p1 e1 Hm) as [K3 B3].
    exists (Rabs K1 + Rabs K2 + Rabs K3). pose proof (Rabs_pos K1). pose proof (Rabs_pos K2). pose proof (Rabs_pos K3). split; [lra|]. intros eps e He Ee g Hg On z. pose proof (Rle_abs K1). pose proof (Rle_abs K2). pose proof (Rle_abs K3). pose proof (pow2_ge_0 eps) as P.
    unfold z, rhs_species. cbn [f_n f_u f_p pert]. rewrite On. split; [|split].
    - eapply Rle_trans; [now apply B1|]. apply Rmult_le_compat_r; lra.
    - replace (push_u root s n dx (fun g0 => 1 + eps * n1 g0) (fun g0 => eps * u1 g0) (fun g0 => (p_T0 s + eps * p1 g0) / p_mass s) (fun g0 => p_charge s / p_mass s * (e g0 + drivers [] x t g0)) (f_d (pert s eps n1 u1 p1 d)) g)
        with (push_u root s n dx (fun g0 => 1 + eps * n1 g0) (fun g0 => eps * u1 g0) (fun g0 => (p_T0 s + eps * p1 g0) / p_mass s) (fun g0 => p_charge s / p_mass s * (eps * e1 g0)) d g) by (unfold push_u; change (drivers [] x t g) with 0; rewrite Ee by exact Hg; cbn [pert f_d]; ring).
      eapply Rle_trans; [now apply B2|]. apply Rmult_le_compat_r; lra.
    - replace (push_p s n dx (fun g0 => 1 + eps * n1 g0) (fun g0 => eps * u1 g0) (fun g0 => (p_T0 s + eps * p1 g0) / p_mass s) (fun g0 => p_charge s / p_mass s * e g0) g)
        with (push_p s n dx (fun g0 => 1 + eps * n1 g0) (fun g0 => eps * u1 g0) (fun g0 => (p_T0 s + eps * p1 g0) / p_mass s) (fun g0 => p_charge s / p_mass s * (eps * e1 g0)) g) by (unfold push_p; rewrite Ee by exact Hg; ring).
      eapply Rle_trans; [now apply B3|]. apply Rmult_le_compat_r; lra. }
  destruct (S si ni ui pi di Hmi (fun g Hg => proj1 (H1 g Hg))) as (Ki & Pi & Si). destruct (S se ne ue pe de Hme (fun g Hg => proj2 (H1 g Hg))) as (Ke & Pe & Se). exists (Ki + Ke). intros eps zi ze He H g Hg.
  unfold rhs in H. destruct (_ && _); [discriminate|]. destruct (negb _); [discriminate|]. injection H as <- <-. pose proof (pow2_ge_0 eps) as P. split; intros On.
  - destruct (Si eps _ He (E eps) g Hg On) as (A & B & C). assert (L : Ki * eps ^ 2 <= (Ki + Ke) * eps ^ 2) by (apply Rmult_le_compat_r; lra). repeat split; eapply Rle_trans; [exact A|exact L|exact B|exact L|exact C|exact L].
  - destruct (Se eps _ He (E eps) g Hg On) as (A & B & C). assert (L : Ke * eps ^ 2 <= (Ki + Ke) * eps ^ 2) by (apply Rmult_le_compat_r; lra). repeat split; eapply Rle_trans; [exact A|exact L|exact B|exact L|exact C|exact L].
Qed.
Print Assumptions C85_linear.
