(** C85 (continued): frequency and damping of the linear waves, trapping, saved diagnostics. *)
From Coq Require Import Reals ZArith List Bool Lia Lra Psatz.
From Verif Require Import PyStr RSum Pic PicProofs PicFourier VGrid VGridProofs VGridProps Drivers PicLoadProofs PicLoadProps HeatFluxProps Vlasov VlasovProofs VlasovProofs2 VlasovProps3 Vfp2d Vfp2dField VfpSetup2Props Dft Vlasov2Field Tf1d Tf1dProps Tf1dLin.
Import ListNotations.
Local Open Scope R_scope.

(** * Frequency and damping *)
(** A mode: velocity U cos(k x + phi), density and pressure a quarter of a wave away with amplitudes N and P, immobile other species, the
    same damping factor c in every cell. The linear equations stay in the mode, with these rates for N, P and U. *)
Theorem C85_wave : forall root s n dx m phi N U P d c, (0 < m)%nat -> (2 * m < n)%nat -> 0 < dx -> p_mass s <> 0 -> (forall g, (g < n)%nat -> the_coeff s (d g) = c) ->
  let k := kr n dx m in let C := fun g => cos (angle n m g + phi) in let S := fun g => cos (angle n m g + (phi + PI / 2)) in
  let e1 := fpoisson n dx (fun g => p_charge s * (N * S g)) in forall g, (g < n)%nat ->
  lin_n n dx (fun h => U * C h) g = - (k * U) * S g /\
  lin_p s n dx (fun h => U * C h) g = - (gam_of s * (p_T0 s / p_mass s) * (k * U)) * S g /\
  lin_u root s n dx (fun h => U * C h) (fun h => P * S h) e1 d g = (wr_corr root s n dx m * k * P / p_mass s + p_charge s ^ 2 * N / (p_mass s * k) + 2 * wi_at root s n dx m * c * U) * C g.
Proof.
  intros root s n dx m phi N U P d c Hm H2 Hd Hmass Hc k C S e1 g Hg. assert (Hk : 0 < k) by (apply kr_pos; lia || exact Hd). assert (G : forall h, (h < n)%nat -> grad n dx (fun q => U * C q) h = k * U * S h) by (intros; apply grad_wave; lra || assumption).
  assert (F : forall h, cos (angle n m h + (phi + PI / 2 + PI / 2)) = - C h). { intros h. unfold C. replace (angle n m h + (phi + PI / 2 + PI / 2)) with (angle n m h + phi + PI) by field. apply neg_cos. }
  unfold lin_n, lin_p, lin_u. rewrite G by exact Hg. split; [ring|]. split; [ring|].
  assert (R : restoring root s n dx (fun h => grad n dx (fun q => P * S q) h / p_mass s) g = wr_corr root s n dx m * (- (k * P / p_mass s)) * C g).
  { unfold restoring. rewrite (smul_ext n _ (fun k => (wr_corr root s n dx k, 0)) _ (fun q => - (k * P / p_mass s) * cos (angle n m q + phi)) (fun _ _ => eq_refl)); [now rewrite smul_re_wave|].
    intros h Hh. unfold S. rewrite grad_wave by (lra || assumption). rewrite F. fold (C h). fold k. unfold Rdiv. ring. }
  rewrite R. assert (E : e1 g = - (p_charge s * N / k) * C g).
  { unfold e1. rewrite (poisson_ext n dx _ (fun q => (p_charge s * N) * cos (angle n m q + (phi + PI / 2))) g) by (intros; unfold S; ring). rewrite poisson_wave by (lra || assumption). fold k. rewrite F. ring. }
  rewrite E. unfold damping. rewrite Hc by exact Hg. unfold C at 3. rewrite smul_re_wave by assumption. fold (C g). field. split; [lra|exact Hmass].
Qed.
Print Assumptions C85_wave.
(** The frequency squared of the oscillator the mode is. *)
Definition omega2 (root : nat -> cplx) (s : fsp) (n : nat) (dx : R) (m : nat) : R := p_charge s ^ 2 / p_mass s + wr_corr root s n dx m * gam_of s * (p_T0 s / p_mass s ^ 2) * kr n dx m ^ 2.
(** Whatever amplitudes follow these rates, U'' = - omega2 U + 2 wi c U'. *)
Theorem C85_oscillator : forall root s n dx m c (N U P : R -> R), (0 < m)%nat -> (0 < n)%nat -> 0 < dx -> p_mass s <> 0 ->
  let k := kr n dx m in let U1 := fun t => wr_corr root s n dx m * k * P t / p_mass s + p_charge s ^ 2 * N t / (p_mass s * k) + 2 * wi_at root s n dx m * c * U t in
  (forall t, derivable_pt_lim N t (- (k * U t))) -> (forall t, derivable_pt_lim P t (- (gam_of s * (p_T0 s / p_mass s) * (k * U t)))) -> (forall t, derivable_pt_lim U t (U1 t)) ->
  forall t, derivable_pt_lim U1 t (- omega2 root s n dx m * U t + 2 * wi_at root s n dx m * c * U1 t).
Proof.
  intros root s n dx m c N U P Hm Hn Hd Hmass k U1 HN HP HU t. assert (Hk : 0 < k) by (apply kr_pos; assumption).
  assert (L : derivable_pt_lim (fun t => (wr_corr root s n dx m * k / p_mass s * P t + p_charge s ^ 2 / (p_mass s * k) * N t) + 2 * wi_at root s n dx m * c * U t) t
    ((wr_corr root s n dx m * k / p_mass s * (- (gam_of s * (p_T0 s / p_mass s) * (k * U t))) + p_charge s ^ 2 / (p_mass s * k) * (- (k * U t))) + 2 * wi_at root s n dx m * c * U1 t)).
  { apply (derivable_pt_lim_plus (fun t => wr_corr root s n dx m * k / p_mass s * P t + p_charge s ^ 2 / (p_mass s * k) * N t) (fun t => 2 * wi_at root s n dx m * c * U t)).
    - apply (derivable_pt_lim_plus (fun t => wr_corr root s n dx m * k / p_mass s * P t) (fun t => p_charge s ^ 2 / (p_mass s * k) * N t)).
      + apply (derivable_pt_lim_scal P). apply HP.
      + apply (derivable_pt_lim_scal N). apply HN.
    - apply (derivable_pt_lim_scal U). apply HU. }
  apply (derivable_pt_lim_ext (fun t => (wr_corr root s n dx m * k / p_mass s * P t + p_charge s ^ 2 / (p_mass s * k) * N t) + 2 * wi_at root s n dx m * c * U t)); [intros r; unfold U1; unfold Rdiv; ring|].
  replace (- omega2 root s n dx m * U t + 2 * wi_at root s n dx m * c * U1 t) with ((wr_corr root s n dx m * k / p_mass s * (- (gam_of s * (p_T0 s / p_mass s) * (k * U t))) + p_charge s ^ 2 / (p_mass s * k) * (- (k * U t))) + 2 * wi_at root s n dx m * c * U1 t); [exact L|].
  unfold omega2. fold k. field. split; [exact Hmass|lra].
Qed.
Print Assumptions C85_oscillator.
(** For electrons (q^2 = m = T0 = 1): with gamma "kinetic" the frequency is the tabulated root at the mode's wavenumber; with gamma = 3 it
    is the Bohm-Gross frequency; without a correction the plasma frequency is gamma-dependent only through k. *)
Theorem C85_kinetic : forall root s n dx m, (0 < m)%nat -> (0 < n)%nat -> 0 < dx -> p_charge s ^ 2 = 1 -> p_mass s = 1 -> p_T0 s = 1 ->
  (p_gamma s = Kinetic -> omega2 root s n dx m = wr_at root s (kr n dx m) ^ 2) /\ (forall g, p_gamma s = Gamma g -> omega2 root s n dx m = 1 + g * kr n dx m ^ 2) /\
  (forall i, p_gamma s = Kinetic -> (S i < tab_n)%nat -> kr n dx m = tab_k i -> wr_at root s (kr n dx m) = fst (root i)).
Proof.
  intros root s n dx m Hm Hn Hd Hq Hmass HT. pose proof (kr_pos n dx m Hm Hn Hd) as Hk. unfold omega2, wr_corr, is_kinetic, gam_of. rewrite Hq, Hmass, HT. split; [|split].
  - intros ->. unfold inv_kr. destruct m as [|m]; [lia|]. field. lra.
  - intros g ->. field.
  - intros i G Hi Ek. rewrite Ek. unfold wr_at, is_kinetic. rewrite G. unfold interp_lr, tab_wr. assert (I : PicLoadProofs.increasing tab_n tab_k) by (apply linspace_inc; lra).
    assert (Mono : forall a b, (a <= b)%nat -> (b < tab_n)%nat -> tab_k a <= tab_k b). { intros a b Hab. induction Hab as [|b Hab IH]; intros Hb; [lra|]. pose proof (I b Hb). assert (tab_k a <= tab_k b) by (apply IH; lia). lra. }
    destruct (Rlt_dec (tab_k i) (tab_k 0%nat)) as [B|B]; [pose proof (Mono 0%nat i ltac:(lia) ltac:(lia)); lra|]. destruct (Rlt_dec (tab_k (tab_n - 1)%nat) (tab_k i)) as [B1|B1]; [pose proof (Mono i (tab_n - 1)%nat ltac:(lia) ltac:(lia)); lra|].
    rewrite (interp_at tab_n tab_k _ (tab_k i) i I Hi) by (pose proof (I i Hi); lra). unfold Rdiv. rewrite Rminus_diag_eq by reflexivity. ring.
Qed.
Print Assumptions C85_kinetic.
Lemma damped_rates wi W (U1 U2 : R -> R) : (forall t, derivable_pt_lim (fun t => exp (wi * t) * cos (W * t)) t (U1 t)) -> (forall t, derivable_pt_lim U1 t (U2 t)) ->
  (forall t, U1 t = exp (wi * t) * (wi * cos (W * t) + (- W) * sin (W * t))) /\
  (forall t, U2 t = exp (wi * t) * wi * (wi * cos (W * t) + (- W) * sin (W * t)) + exp (wi * t) * (wi * (- sin (W * t) * W) + (- W) * (cos (W * t) * W))).
Proof.
  intros H1 H2.
  assert (Dl : forall a t, derivable_pt_lim (fun t => a * t) t a). { intros a t. pose proof (derivable_pt_lim_scal id a t 1 (derivable_pt_lim_id t)) as Q. rewrite Rmult_1_r in Q. exact Q. }
  assert (De : forall t, derivable_pt_lim (fun t => exp (wi * t)) t (exp (wi * t) * wi)) by (intros t; apply (derivable_pt_lim_comp (fun t => wi * t) exp); [apply Dl|apply derivable_pt_lim_exp]).
  assert (Dc : forall t, derivable_pt_lim (fun t => cos (W * t)) t (- sin (W * t) * W)) by (intros t; apply (derivable_pt_lim_comp (fun t => W * t) cos); [apply Dl|apply derivable_pt_lim_cos]).
  assert (Ds : forall t, derivable_pt_lim (fun t => sin (W * t)) t (cos (W * t) * W)) by (intros t; apply (derivable_pt_lim_comp (fun t => W * t) sin); [apply Dl|apply derivable_pt_lim_sin]).
  assert (E1 : forall t, U1 t = exp (wi * t) * (wi * cos (W * t) + (- W) * sin (W * t))).
  { intros t. apply (uniqueness_limite (fun t => exp (wi * t) * cos (W * t)) t); [apply H1|]. replace (exp (wi * t) * (wi * cos (W * t) + (- W) * sin (W * t))) with (exp (wi * t) * wi * cos (W * t) + exp (wi * t) * (- sin (W * t) * W)) by ring.
    apply (derivable_pt_lim_mult (fun t => exp (wi * t)) (fun t => cos (W * t))); [apply De|apply Dc]. }
  assert (E2 : forall t, U2 t = exp (wi * t) * wi * (wi * cos (W * t) + (- W) * sin (W * t)) + exp (wi * t) * (wi * (- sin (W * t) * W) + (- W) * (cos (W * t) * W))).
  { intros t. apply (uniqueness_limite U1 t); [apply H2|]. apply (derivable_pt_lim_ext (fun t => exp (wi * t) * (wi * cos (W * t) + (- W) * sin (W * t)))); [intros; symmetry; apply E1|].
    apply (derivable_pt_lim_mult (fun t => exp (wi * t)) (fun t => wi * cos (W * t) + (- W) * sin (W * t))); [apply De|]. apply (derivable_pt_lim_plus (fun t => wi * cos (W * t)) (fun t => (- W) * sin (W * t))); [apply (derivable_pt_lim_scal (fun t => cos (W * t)) wi), Dc|apply (derivable_pt_lim_scal (fun t => sin (W * t)) (- W)), Ds]. }
  now split.
Qed.
(** A damped wave exp(wi t) cos(W t) solves U'' = - wr^2 U + 2 wi U' exactly when W^2 = wr^2 - wi^2. *)
Theorem C85_damped_frequency : forall wr wi W (U1 U2 : R -> R), let U := fun t => exp (wi * t) * cos (W * t) in
  (forall t, derivable_pt_lim U t (U1 t)) -> (forall t, derivable_pt_lim U1 t (U2 t)) -> ((forall t, U2 t = - wr ^ 2 * U t + 2 * wi * U1 t) <-> W ^ 2 = wr ^ 2 - wi ^ 2).
Proof.
  intros wr wi W U1 U2 U H1 H2.
  destruct (damped_rates wi W U1 U2 H1 H2) as [E1 E2].
  split.
  - intros H. specialize (H 0). rewrite E2, E1 in H. unfold U in H. rewrite !Rmult_0_r, exp_0, cos_0, sin_0 in H. lra.
  - intros H t. rewrite E2, E1. unfold U. replace (wr ^ 2) with (W ^ 2 + wi ^ 2) by lra. ring.
Qed.
Print Assumptions C85_damped_frequency.
(** So with damping the oscillation frequency is not the tabulated one. *)
Theorem C85_kinetic_frequency_refuted : forall wr wi, wi <> 0 -> forall U1 U2, let U := fun t => exp (wi * t) * cos (wr * t) in
  (forall t, derivable_pt_lim U t (U1 t)) -> (forall t, derivable_pt_lim U1 t (U2 t)) -> exists t, U2 t <> - wr ^ 2 * U t + 2 * wi * U1 t.
Proof.
  intros wr wi Hw U1 U2 U H1 H2. exists 0. intros H. destruct (damped_rates wi wr U1 U2 H1 H2) as [E1 E2]. rewrite E2, E1 in H. unfold U in H. rewrite !Rmult_0_r, exp_0, cos_0, sin_0 in H. assert (Z : wi ^ 2 = 0) by lra. apply Hw. replace (wi ^ 2) with (wi * wi) in Z by ring. apply Rmult_integral in Z. tauto.
Qed.
Print Assumptions C85_kinetic_frequency_refuted.

(** The damping rates are those of the electron table for every species: they depend on neither mass nor charge nor temperature. *)
Theorem C85_damping_species_refuted : forall root s s' n dx k, p_landau s = p_landau s' -> wi_at root s n dx k = wi_at root s' n dx k.
Proof. intros root s s' n dx k H. unfold wi_at. now rewrite H. Qed.
Print Assumptions C85_damping_species_refuted.
(** The pressure follows p = T0 n^gamma (to first order) exactly when the mass is 1: at every cell m p1' = gamma T0 n1'. *)
Theorem C85_pressure : forall s n dx u1 g, p_mass s <> 0 -> p_mass s * lin_p s n dx u1 g = gam_of s * p_T0 s * lin_n n dx u1 g.
Proof. intros s n dx u1 g H. unfold lin_p, lin_n. field. exact H. Qed.
Print Assumptions C85_pressure.
Theorem C85_adiabatic_refuted : forall s n dx u1 g, p_mass s <> 0 -> p_mass s <> 1 -> gam_of s * p_T0 s <> 0 -> lin_n n dx u1 g <> 0 -> lin_p s n dx u1 g <> gam_of s * p_T0 s * lin_n n dx u1 g.
Proof.
  intros s n dx u1 g H H1 H2 H3 E. pose proof (C85_pressure s n dx u1 g H) as P. rewrite <- E in P. assert (Z : (p_mass s - 1) * lin_p s n dx u1 g = 0) by lra. apply Rmult_integral in Z. destruct Z as [Z|Z]; [lra|]. rewrite Z in E. symmetry in E. apply Rmult_integral in E. tauto.
Qed.
Print Assumptions C85_adiabatic_refuted.

(** * Trapping *)
(** Trapping only ever reduces the damping, never reverses it, and the total trapped fraction never decreases, whatever the state and the
    learned growth rate. *)
Theorem C85_trap : forall root nu_g s n dx e te y, (0 < n)%nat -> (forall d, 0 < the_coeff s d <= 1) /\ 0 <= rsum n (f_d (rhs_species root nu_g s n dx e te y)) /\
  (forall d d', d ^ 2 <= d' ^ 2 -> the_coeff s d' <= the_coeff s d).
Proof.
  intros root nu_g s n dx e te y Hn. split; [|split].
  - intros d. unfold the_coeff, trap_coeff. destruct (p_trap s) as [tr|]; [|lra]. destruct (str_eqb _ _); [lra|]. destruct (str_eqb _ _); [|destruct (str_eqb _ _); lra]. pose proof (pow2_ge_0 d). split; [apply Rdiv_lt_0_compat; lra|]. apply Rmult_le_reg_r with (1 + d ^ 2); [lra|]. unfold Rdiv. rewrite Rmult_assoc, Rinv_l by lra. lra.
  - unfold rhs_species. cbn [f_d]. destruct (p_trap s) as [tr|]; [|unfold zero_arr; rewrite rsum_zero; lra]. unfold push_d.
    rewrite (rsum_ext n _ (fun g => - trap_vph root s tr * (1 * grad n dx (f_d y) g) + trap_rate nu_g tr n dx e * Rabs (smul n (fun k => (trap_wi root n dx k, 0)) e g) / (1 + f_d y g ^ 2))) by (intros; ring). rewrite rsum_plus, rsum_scal.
    assert (G : rsum n (fun g => 1 * grad n dx (f_d y) g) = 0). { unfold grad. rewrite (rder_parts Spectral n dx (f_d y) (fun _ => 1) (ok_spec n Hn)). rewrite (rsum_ext n _ (fun _ => 0)); [rewrite rsum_zero; ring|]. intros g Hg. change (f_d y g * grad n dx (fun _ => 1) g = 0). rewrite grad_const by exact Hg. ring. }
    rewrite G, Rmult_0_r, Rplus_0_l. apply rsum_nonneg. intros g _. pose proof (pow2_ge_0 (f_d y g)). apply Rmult_le_pos; [|apply Rlt_le, Rinv_0_lt_compat; lra]. apply Rmult_le_pos; [|apply Rabs_pos]. unfold trap_rate, Rpower. apply Rlt_le, exp_pos.
  - intros d d' H. unfold the_coeff, trap_coeff. destruct (p_trap s) as [tr|]; [|lra]. destruct (str_eqb _ _); [lra|]. destruct (str_eqb _ _); [|destruct (str_eqb _ _); lra]. pose proof (pow2_ge_0 d). unfold Rdiv. rewrite !Rmult_1_l. apply Rinv_le_contravar; lra.
Qed.
Print Assumptions C85_trap.

(** * Saved diagnostics *)
Lemma interp_exact n x f i : PicLoadProofs.increasing n x -> (i < n)%nat -> interp n x f (x i) = f i.
Proof.
  intros I Hi. destruct (Nat.eq_dec n 1) as [->|N1]; [replace i with 0%nat by lia; apply interp_one|]. destruct (Nat.eq_dec (S i) n) as [E|E].
  - destruct i as [|i]; [lia|]. pose proof (I i ltac:(lia)) as P. rewrite (interp_at n x f (x (S i)) i I) by (lia || lra). field. lra.
  - pose proof (I i ltac:(lia)) as P. rewrite (interp_at n x f (x i) i I) by (lia || lra). unfold Rdiv. rewrite Rminus_diag_eq by reflexivity. ring.
Qed.
(** A saved profile stays between the smallest and the largest value of the field, and agrees with it at saved points that are cells. *)
Theorem C85_save_x : forall g lo hi m f, (2 <= t_nx g)%nat -> t_xmin g + t_dx g < t_xmax g -> forall i,
  (forall a b, (forall j, (j < t_nx g)%nat -> a <= f j <= b) -> a <= save_x g lo hi m f i <= b) /\ (forall j, (j < t_nx g)%nat -> save_ax lo hi m i = t_x g j -> save_x g lo hi m f i = f j).
Proof.
  intros g lo hi m f Hn Hx i. assert (I : PicLoadProofs.increasing (t_nx g) (t_x g)) by (apply linspace_inc; lra). unfold save_x. split.
  - intros a b H. apply interp_bounds; [lia|exact I|exact H].
  - intros j Hj ->. now apply interp_exact.
Qed.
Print Assumptions C85_save_x.
Lemma kr_inc n dx p : (0 < n)%nat -> 0 < dx -> PicLoadProofs.increasing p (kr n dx).
Proof.
  intros Hn Hd i _. unfold kr. pose proof PI_RGT_0. assert (0 < INR n * dx) by (apply Rmult_lt_0_compat; [now apply lt_0_INR|exact Hd]). assert (P : 0 < / (INR n * dx)) by now apply Rinv_0_lt_compat. rewrite S_INR. unfold Rdiv. nra.
Qed.
(** A wave A cos(k x + phi) is saved at its own wavenumber with magnitude |A| and phase phi; a uniform value c appears at k = 0 as 2 c. *)
Theorem C85_save_kx : forall n dx m A phi, (0 < m)%nat -> (2 * m < n)%nat -> 0 < dx -> save_kx n dx (fun g => A * cos (angle n m g + phi)) (kr n dx m) = (A * cos phi, A * sin phi).
Proof.
  intros n dx m A phi Hm H2 Hd. assert (Q : (m < n / 2 + 1)%nat) by (assert (m <= n / 2)%nat by (apply Nat.div_le_lower_bound; lia); lia). assert (HnR : INR n <> 0) by (apply not_0_INR; lia).
  unfold save_kx. rewrite !interp_exact by (try assumption; apply kr_inc; lia || exact Hd). unfold rfft. rewrite fft_wave, Nat.eqb_refl by lia. unfold cscal, cis. cbn [fst snd]. apply cplx_eq; cbn [fst snd]; field; exact HnR.
Qed.
Print Assumptions C85_save_kx.
Theorem C85_save_mean_refuted : forall n dx c, (0 < n)%nat -> 0 < dx -> c <> 0 -> save_kx n dx (fun _ => c) 0 = (2 * c, 0) /\ fst (save_kx n dx (fun _ => c) 0) <> c.
Proof.
  intros n dx c Hn Hd Hc. assert (HnR : INR n <> 0) by (apply not_0_INR; lia). assert (E : save_kx n dx (fun _ => c) 0 = (2 * c, 0)).
  { unfold save_kx. rewrite <- (kr_0 n dx) at 1 2. rewrite !interp_exact by (try apply kr_inc; lia || exact Hd). unfold rfft. rewrite fft_0, rsum_const. unfold cscal. cbn [fst snd]. apply cplx_eq; cbn [fst snd]; [field; exact HnR|ring]. }
  split; [exact E|]. rewrite E. cbn [fst]. lra.
Qed.
Print Assumptions C85_save_mean_refuted.

(** * Non-vacuity *)
Definition ex_tr : trap := {| tr_kld := 3 / 10; tr_nuee := 1 / 10 ^ 6; tr_model := lit "delta" |}.
Definition ex_el : fsp := {| p_on := true; p_mass := 1; p_charge := -1; p_T0 := 1; p_gamma := Kinetic; p_landau := true; p_trap := Some ex_tr |}.
Definition ex_ion : fsp := {| p_on := true; p_mass := 1836; p_charge := 1; p_T0 := 2 / 10; p_gamma := Gamma 3; p_landau := false; p_trap := None |}.
Example C85_nonvacuous : forall root nu_g,
  rhs root nu_g 16 (1 / 2) (fun g => INR g / 2) ex_ion ex_el [] 3 (pert ex_ion (1 / 4) (spike 2) (spike 3) (spike 4) zero_arr) (pert ex_el (1 / 4) (spike 2) (spike 3) (spike 4) zero_arr) <> None /\
  (forall g, (g < 16)%nat -> the_coeff ex_el (zero_arr g) = 1) /\ (forall g, Rabs (spike 2 g) <= 1) /\ (exists g, (g < 16)%nat /\ lin_n 16 (1 / 2) (fun h => 1 * cos (angle 16 1 h + 0)) g <> 0) /\
  rhs root nu_g 16 (1 / 2) (fun g => INR g / 2) ex_ion ex_el [] 3 (rest ex_ion) (rest ex_el) <> None /\ uniform_state 16 (rest ex_el) 1 0 1 0.
Proof.
  intros root nu_g. split; [|split; [|split; [|split; [|split]]]].
  - apply C85_accepted. split; [left; reflexivity|]. intros s tr [-> | ->] _ [= <-]. right. left. reflexivity.
  - intros g _. unfold the_coeff, trap_coeff, ex_el. cbn [p_trap]. unfold ex_tr. cbn [tr_model]. change (str_eqb (lit "delta") (lit "zk")) with false. change (str_eqb (lit "delta") (lit "delta")) with true. cbn iota. unfold zero_arr. field.
  - intros g. unfold spike. destruct (g =? 2)%nat; [rewrite Rabs_R1|rewrite Rabs_R0]; lra.
  - exists 4%nat. split; [lia|]. unfold lin_n. rewrite grad_wave by (lra || lia). pose proof (kr_pos 16 (1 / 2) 1 ltac:(lia) ltac:(lia) ltac:(lra)) as K.
    replace (angle 16 1 4 + (0 + PI / 2)) with PI by (unfold angle; rewrite ?mult_INR, !INR_IZR_INZ; cbn; field). rewrite cos_PI. lra.
  - apply C85_accepted. split; [left; reflexivity|]. intros s tr [-> | ->] _ [= <-]. right. left. reflexivity.
  - intros g _. cbn. unfold zero_arr. now repeat split.
Qed.
