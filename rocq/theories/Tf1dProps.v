(** C85: the two-fluid solver. *)
From Coq Require Import Reals ZArith List Bool Lia Lra Psatz.
From Verif Require Import PyStr RSum Pic PicProofs PicFourier VGrid VGridProofs VGridProps Drivers PicLoadProofs HeatFluxProps Vlasov VlasovProofs VlasovProofs2 VlasovProps3 Vfp2d Vfp2dField VfpSetup2Props Dft Vlasov2Field Tf1d.
Import ListNotations.
Local Open Scope R_scope.

(** * Grid and time *)
Theorem C85_grid : forall g i, (2 <= t_nx g)%nat -> (S i < t_nx g)%nat ->
  t_x g (S i) - t_x g i = t_dx g - t_xmin g / INR (t_nx g - 1) /\ INR (t_nx g) * t_dx g = t_xmax g /\ (t_xmin g = 0 -> t_x g i = (INR i + 1 / 2) * t_dx g).
Proof.
  intros g i Hn Hi. assert (P : INR (t_nx g) <> 0) by (apply not_0_INR; lia). assert (P1 : INR (t_nx g - 1) = INR (t_nx g) - 1) by (rewrite minus_INR by lia; reflexivity). assert (P2 : INR (t_nx g) - 1 <> 0) by (rewrite <- P1; apply not_0_INR; lia).
  unfold t_x, linspace, t_dx. destruct (Nat.leb_spec (t_nx g) 1) as [L|L]; [lia|]. rewrite P1, S_INR. split; [field; now split|]. split; [field; exact P|]. intros ->. field. now split.
Qed.
Print Assumptions C85_grid.
(** The grid spacing handed to the spectral operators is not the distance of the cells unless xmin = 0. *)
Theorem C85_xmin_refuted : forall g, (2 <= t_nx g)%nat -> t_xmin g <> 0 -> t_x g 1%nat - t_x g 0%nat <> t_dx g.
Proof.
  intros g Hn Hx E. rewrite (proj1 (C85_grid g 0%nat Hn ltac:(lia))) in E. assert (Q : t_xmin g / INR (t_nx g - 1) = 0) by lra. apply Hx. apply (f_equal (Rmult (INR (t_nx g - 1)))) in Q. rewrite Rmult_0_r in Q. rewrite <- Q. field. apply not_0_INR. lia.
Qed.
Print Assumptions C85_xmin_refuted.
Theorem C85_time : forall g, 0 < t_dx g -> 0 <= t_tmax g ->
  t_tmax g < t_end g <= t_tmax g + t_dt g /\ 20 * t_dt g = t_dx g /\ ((t_nt g <= t_max_steps g)%Z <-> (t_nt g <= 1000000)%Z).
Proof.
  intros g Hd Ht. assert (D : 0 < t_dt g) by (unfold t_dt; lra). assert (Q : 0 <= t_tmax g / t_dt g) by (apply Rmult_le_pos; [lra|apply Rlt_le, Rinv_0_lt_compat; lra]).
  assert (T : t_nt g = floor (t_tmax g / t_dt g + 1)) by (unfold t_nt; apply trunc_pos; lra). pose proof (floor_spec (t_tmax g / t_dt g + 1)) as [A B]. rewrite <- T in A, B. split; [|split].
  - unfold t_end. assert (E : t_dt g * (t_tmax g / t_dt g) = t_tmax g) by (field; lra). split; nra.
  - unfold t_dt. lra.
  - unfold t_max_steps. destruct (Z.ltb_spec 1000000 (t_nt g)); lia.
Qed.
Print Assumptions C85_time.
(** tmin is never used: the run starts at 0. *)
Theorem C85_tmin_refuted : exists g, t_tmin g = 5 /\ t_tmax g = 10 /\ t_start g <> t_tmin g.
Proof. exists {| t_nx := 2; t_xmin := 0; t_xmax := 1; t_tmin := 5; t_tmax := 10 |}. cbn. unfold t_start. repeat split; lra. Qed.
Print Assumptions C85_tmin_refuted.

(** * Spectral tools *)
Lemma ok_spec n : (0 < n)%nat -> ok_kind Spectral n. Proof. intros H. split; [exact H|exact I]. Qed.
Lemma fpoisson_neg n dx r g : fpoisson n dx r g = - spectral_poisson n dx None r g.
Proof.
  unfold fpoisson, spectral_poisson, ifft, cscal. cbn [fst]. rewrite !csum_fst. replace (- (/ INR n * rsum n (fun k => fst (cmul (cmul (cmul (0, - (1)) (one_over_kx n dx k, 0)) (fft n r k)) (cis (angle n k g))))))
    with (/ INR n * (-1 * rsum n (fun k => fst (cmul (cmul (cmul (0, - (1)) (one_over_kx n dx k, 0)) (fft n r k)) (cis (angle n k g)))))) by ring. f_equal. rewrite <- rsum_scal. apply rsum_ext. intros k _. unfold cmul. cbn [fst snd]. ring.
Qed.
Lemma grad_const n dx c g : (g < n)%nat -> grad n dx (fun _ => c) g = 0.
Proof.
  intros Hg. assert (K : ok_kind Spectral n) by (apply ok_spec; lia). unfold grad. rewrite rder_mat by assumption. rewrite rsum_scal_r. rewrite (rsum_ext n _ (fun q => -1 * rmat Spectral n dx q g)) by (intros; rewrite rmat_anti by assumption; ring).
  rewrite rsum_scal. pose proof (dmat_col Spectral n dx g K Hg) as E. apply (f_equal fst) in E. rewrite csum_fst in E. unfold rmat. change (fst c0) with 0 in E. rewrite E. ring.
Qed.
Lemma grad_ext n dx a b g : (g < n)%nat -> (forall q, (q < n)%nat -> a q = b q) -> grad n dx a g = grad n dx b g.
Proof. intros Hg H. unfold grad. apply rder_ext; try assumption. apply ok_spec. lia. Qed.
Lemma grad_lin n dx u w a b g : (g < n)%nat -> grad n dx (fun q => u * a q + w * b q) g = u * grad n dx a g + w * grad n dx b g.
Proof. intros Hg. unfold grad. apply rder_lin; try assumption. apply ok_spec. lia. Qed.
Lemma wn_kr n h m : (0 < n)%nat -> h <> 0 -> wavenumber n h m = kr n h m.
Proof. intros Hn Hh. unfold wavenumber, kr. field. split; [exact Hh|apply not_0_INR; lia]. Qed.
Lemma grad_wave n dx m A phi g : (0 < m)%nat -> (2 * m < n)%nat -> dx <> 0 -> (g < n)%nat -> grad n dx (fun q => A * cos (angle n m q + phi)) g = (kr n dx m * A) * cos (angle n m g + (phi + PI / 2)).
Proof. intros Hm H2 Hd Hg. unfold grad. rewrite rder_wave by assumption. rewrite wn_kr by (try assumption; lia). replace (angle n m g + (phi + PI / 2)) with (angle n m g + phi + PI / 2) by ring. rewrite cos_plus, cos_PI2, sin_PI2. ring. Qed.
Lemma poisson_wave n dx m A phi g : (0 < m)%nat -> (2 * m < n)%nat -> dx <> 0 -> (g < n)%nat -> fpoisson n dx (fun q => A * cos (angle n m q + phi)) g = (A / kr n dx m) * cos (angle n m g + (phi + PI / 2)).
Proof. intros Hm H2 Hd Hg. rewrite fpoisson_neg, poisson_mode by assumption. rewrite (kx_kr n dx m H2). replace (angle n m g + (phi + PI / 2)) with (angle n m g + phi + PI / 2) by ring. rewrite cos_plus, cos_PI2, sin_PI2. unfold Rdiv. ring. Qed.
Lemma kr_pos n dx m : (0 < m)%nat -> (0 < n)%nat -> 0 < dx -> 0 < kr n dx m.
Proof. intros Hm Hn Hd. unfold kr. pose proof PI_RGT_0. assert (0 < INR m) by now apply lt_0_INR. assert (0 < INR n) by now apply lt_0_INR. apply Rmult_lt_0_compat; [|lra]. apply Rmult_lt_0_compat; [|lra]. apply Rdiv_lt_0_compat; [lra|nra]. Qed.
Lemma smul_re_wave n w m A phi g : (0 < m)%nat -> (2 * m < n)%nat -> (g < n)%nat -> smul n (fun k => (w k, 0)) (fun q => A * cos (angle n m q + phi)) g = (w m * A) * cos (angle n m g + phi).
Proof.
  intros Hm H2 Hg. apply (fft_inj n (smul n (fun k => (w k, 0)) (fun q => A * cos (angle n m q + phi))) (fun q => (w m * A) * cos (angle n m q + phi))); [|exact Hg]. intros k Hk. rewrite fft_smul by lia. rewrite !fft_wave by lia.
  assert (E : eff n (fun k => (w k, 0)) k = (w k, 0)) by (unfold eff; cbn [fst]; now destruct (_ || _)%bool). rewrite E. destruct (Nat.eqb_spec k m) as [->|]; apply cplx_eq; unfold cmul, cscal, cis, c0; cbn [fst snd]; field.
Qed.
Lemma smul_const n w c g : (g < n)%nat -> smul n (fun k => (w k, 0)) (fun _ => c) g = w 0%nat * c.
Proof.
  intros Hg. apply (fft_inj n (smul n (fun k => (w k, 0)) (fun _ => c)) (fun _ => w 0%nat * c)); [|exact Hg]. intros k Hk. rewrite fft_smul by lia.
  assert (E : eff n (fun k => (w k, 0)) k = (w k, 0)) by (unfold eff; cbn [fst]; now destruct (_ || _)%bool). rewrite E. destruct (Nat.eq_dec k 0) as [->|K].
  - rewrite !fft_0, !rsum_const. apply cplx_eq; unfold cmul; cbn [fst snd]; ring.
  - rewrite !fft_const by lia. apply cplx_eq; unfold cmul, c0; cbn [fst snd]; ring.
Qed.
Definition spike (q g : nat) : R := if (g =? q)%nat then 1 else 0.
Lemma smul_mat n M f g : (g < n)%nat -> smul n M f g = rsum n (fun q => f q * smul n M (spike q) g).
Proof.
  intros Hg. assert (P : forall m, (m <= n)%nat -> smul n M (fun h => rsum m (fun q => f q * spike q h)) g = rsum m (fun q => f q * smul n M (spike q) g)).
  { induction m as [|m IH]; intros Hm; cbn [rsum].
    - assert (Z : forall h, 0 = 0 * 0 + 0 * (fun _ : nat => 0) h) by (intros; ring). rewrite (smul_ext n M M _ (fun i => 0 * (fun _ : nat => 0) i + 0 * (fun _ : nat => 0) i) (fun _ _ => eq_refl) (fun h _ => Z h) g). rewrite (smul_linear n M 0 0 (fun _ => 0) (fun _ => 0) g Hg). ring.
    - rewrite <- IH by lia. assert (Z : forall h, rsum m (fun q => f q * spike q h) + f m * spike m h = 1 * rsum m (fun q => f q * spike q h) + f m * spike m h) by (intros; ring).
      rewrite (smul_ext n M M _ (fun h => 1 * (fun h => rsum m (fun q => f q * spike q h)) h + f m * spike m h) (fun _ _ => eq_refl) (fun h _ => Z h) g). rewrite smul_linear by exact Hg. ring. }
  rewrite <- (P n (le_n n)). apply smul_ext; [reflexivity|]. intros h Hh. rewrite (rsum_ext n _ (fun q => if (h =? q)%nat then f h else 0)).
  - now rewrite rsum_delta.
  - intros q _. unfold spike. destruct (Nat.eqb_spec h q) as [->|]; ring.
Qed.
Lemma poisson_const n dx c g : dx <> 0 -> (g < n)%nat -> fpoisson n dx (fun _ => c) g = 0.
Proof.
  intros Hd Hg. rewrite fpoisson_neg. apply Ropp_eq_0_compat. apply (fft_inj n (spectral_poisson n dx None (fun _ => c)) (fun _ => 0)); [|exact Hg]. intros k Hk. destruct (Nat.eq_dec k 0) as [->|K].
  - rewrite !fft_0, poisson_mean, rsum_zero by lia. reflexivity.
  - rewrite fft_const by lia. destruct (Nat.eq_dec (2 * k) n) as [N|N]; [apply poisson_nyquist; lia|]. pose proof (gauss_law n dx None (fun _ => c) k Hd ltac:(lia) N) as G. cbn [total_charge] in G. rewrite fft_const in G by lia.
    pose proof (kx_nonzero n dx k Hd ltac:(lia)) as Z. injection G as G1 G2. apply cplx_eq; cbn [fst snd c0]; apply Rmult_eq_reg_l with (kx n dx k); try assumption; rewrite Rmult_0_r; [rewrite G1|rewrite G2]; ring.
Qed.
Lemma poisson_lin n dx u w a b g : fpoisson n dx (fun q => u * a q + w * b q) g = u * fpoisson n dx a g + w * fpoisson n dx b g.
Proof.
  rewrite !fpoisson_neg, !poisson_formula. cbn [total_charge]. rewrite (rsum_ext n _ (fun k => u * (one_over_kx n dx k * rsum n (fun h => a h * sin (angle n k g - angle n k h))) + w * (one_over_kx n dx k * rsum n (fun h => b h * sin (angle n k g - angle n k h))))).
  - rewrite rsum_plus, !rsum_scal. ring.
  - intros k _. rewrite (rsum_ext n (fun h => (u * a h + w * b h) * sin (angle n k g - angle n k h)) (fun h => u * (a h * sin (angle n k g - angle n k h)) + w * (b h * sin (angle n k g - angle n k h)))) by (intros; ring). rewrite rsum_plus, !rsum_scal. ring.
Qed.
Lemma poisson_ext n dx a b g : (forall q, (q < n)%nat -> a q = b q) -> fpoisson n dx a g = fpoisson n dx b g.
Proof. intros H. unfold fpoisson. f_equal. apply ifft_ext. intros k _. f_equal. now apply fft_ext. Qed.

(** * Exact invariants of the right-hand side *)
(** An off species never changes; without trapping the trapped fraction never changes; odd grids and unknown trapping models are refused. *)
Theorem C85_accepted : forall root nu_g n dx x si se l t yi ye, rhs root nu_g n dx x si se l t yi ye <> None <->
  (Nat.even n = true \/ (p_on si = false /\ p_trap si = None /\ p_on se = false /\ p_trap se = None)) /\
  (forall s tr, (s = si \/ s = se) -> p_on s = true -> p_trap s = Some tr -> In (tr_model tr) [lit "zk"; lit "delta"; lit "none"]).
Proof.
  intros. unfold rhs. assert (M : forall s, model_ok s = true <-> (p_on s = true -> forall tr, p_trap s = Some tr -> In (tr_model tr) [lit "zk"; lit "delta"; lit "none"])).
  { intros s. unfold model_ok, trap_coeff. destruct (p_on s); cbn [negb orb]; [|split; [discriminate|reflexivity]]. destruct (p_trap s) as [tr|]; [|split; [discriminate|reflexivity]].
    destruct (str_eqb_spec (tr_model tr) (lit "zk")) as [E|E]; [split; [intros _ _ q [= <-]; left; now rewrite E|reflexivity]|]. destruct (str_eqb_spec (tr_model tr) (lit "delta")) as [E1|E1]; [split; [intros _ _ q [= <-]; right; left; now rewrite E1|reflexivity]|].
    destruct (str_eqb_spec (tr_model tr) (lit "none")) as [E2|E2]; [split; [intros _ _ q [= <-]; right; right; left; now rewrite E2|reflexivity]|]. split; [discriminate|]. intros H. destruct (H eq_refl tr eq_refl) as [H1|[H1|[H1|[]]]]; symmetry in H1; contradiction. }
  assert (A : forall s, active s = false <-> p_on s = false /\ p_trap s = None).
  { intros s. unfold active. destruct (p_on s), (p_trap s); cbn; split; try discriminate; try (intros [? ?]; discriminate); intros; now repeat split. }
  rewrite <- Nat.negb_odd. destruct (Nat.odd n) eqn:O; cbn [andb negb].
  - destruct (active si || active se) eqn:AC.
    + split; [congruence|]. intros [[D|(A1 & A2 & A3 & A4)] _]; [discriminate|]. rewrite (proj2 (A si) (Logic.conj A1 A2)), (proj2 (A se) (Logic.conj A3 A4)) in AC. discriminate.
    + apply orb_false_iff in AC. destruct AC as [AI AE]. apply A in AI, AE. destruct AI as [I1 I2], AE as [E1 E2]. assert (K1 : model_ok si = true) by (apply M; congruence). assert (K2 : model_ok se = true) by (apply M; congruence). rewrite K1, K2. cbn [andb negb]. split; [|discriminate]. intros _. split; [right; tauto|]. intros s tr [-> | ->]; congruence.
  - destruct (model_ok si) eqn:K1, (model_ok se) eqn:K2; cbn [andb negb]; split; try discriminate; try congruence; intros H.
    + split; [now left|]. intros s tr [-> | ->]; intros; [apply (proj1 (M si) K1)|apply (proj1 (M se) K2)]; assumption.
    + destruct H as [_ H]. assert (model_ok se = true) by (apply M; intros P tr Q; exact (H se tr (or_intror eq_refl) P Q)). congruence.
    + destruct H as [_ H]. assert (model_ok si = true) by (apply M; intros P tr Q; exact (H si tr (or_introl eq_refl) P Q)). congruence.
    + destruct H as [_ H]. assert (model_ok si = true) by (apply M; intros P tr Q; exact (H si tr (or_introl eq_refl) P Q)). congruence.
Qed.
Print Assumptions C85_accepted.
Theorem C85_off : forall root nu_g n dx x si se l t yi ye zi ze, rhs root nu_g n dx x si se l t yi ye = Some (zi, ze) ->
  forall s z, (s = si /\ z = zi) \/ (s = se /\ z = ze) -> forall g,
  (p_on s = false -> f_n z g = 0 /\ f_u z g = 0 /\ f_p z g = 0) /\ (p_trap s = None -> f_d z g = 0).
Proof.
  intros root nu_g n dx x si se l t yi ye zi ze H s z K g. unfold rhs in H. destruct (_ && _); [discriminate|]. destruct (negb _); [discriminate|]. injection H as <- <-.
  destruct K as [[-> ->]|[-> ->]]; unfold rhs_species; cbn [f_n f_u f_p f_d]; (split; [intros ->; unfold zero_arr; now repeat split|intros ->; reflexivity]).
Qed.
Print Assumptions C85_off.
(** The number of particles of each species is conserved, whatever the state; the self-consistent field exerts no total force and obeys
    Gauss's law with the opposite sign of charge: i k E_k = - rho_k. *)
Theorem C85_number : forall root nu_g n dx x si se l t yi ye zi ze, (0 < n)%nat -> rhs root nu_g n dx x si se l t yi ye = Some (zi, ze) -> rsum n (f_n zi) = 0 /\ rsum n (f_n ze) = 0.
Proof.
  intros root nu_g n dx x si se l t yi ye zi ze Hn H. unfold rhs in H. destruct (_ && _); [discriminate|]. destruct (negb _); [discriminate|]. injection H as <- <-.
  assert (P : forall a u, rsum n (push_n n dx a u) = 0).
  { intros a u. unfold push_n. rewrite (rsum_ext n _ (fun g => -1 * (u g * grad n dx a g) + -1 * (a g * grad n dx u g))) by (intros; ring). rewrite rsum_plus, !rsum_scal. unfold grad at 1. rewrite (rder_parts Spectral n dx a u (ok_spec n Hn)). unfold grad. ring. }
  unfold rhs_species. cbn [f_n]. split; [destruct (p_on si)|destruct (p_on se)]; try apply P; unfold zero_arr; apply rsum_zero.
Qed.
Print Assumptions C85_number.
Theorem C85_field : forall n dx si se yi ye, (0 < n)%nat -> dx <> 0 -> let rho := fun g => p_charge si * f_n yi g + p_charge se * f_n ye g in let e := fields n dx si se yi ye in
  rsum n (fun g => rho g * e g) = 0 /\ rsum n e = 0 /\
  (forall k, (0 < k < n)%nat -> (2 * k <> n)%nat -> cmul (0, kx n dx k) (fft n e k) = cscal (-1) (fft n rho k)).
Proof.
  intros n dx si se yi ye Hn Hd rho e. assert (E : forall g, e g = - spectral_poisson n dx None rho g) by (intros; apply fpoisson_neg). split; [|split].
  - rewrite (rsum_ext n _ (fun g => -1 * (total_charge None rho g * spectral_poisson n dx None rho g))) by (intros; rewrite E; unfold total_charge; ring). rewrite rsum_scal, poisson_self_force. ring.
  - rewrite (rsum_ext n _ (fun g => -1 * spectral_poisson n dx None rho g)) by (intros; rewrite E; ring). rewrite rsum_scal, poisson_mean by exact Hn. ring.
  - intros k Hk H2. pose proof (gauss_law n dx None rho k Hd Hk H2) as G. cbn [total_charge] in G. assert (F : fft n e k = cscal (-1) (fft n (spectral_poisson n dx None rho) k)).
    { unfold fft. rewrite <- csum_scal. apply csum_ext. intros g _. rewrite E. apply cplx_eq; unfold cscal; cbn [fst snd]; ring. }
    rewrite F. injection G as G1 G2. apply cplx_eq; unfold cmul, cscal; cbn [fst snd]; lra.
Qed.
Print Assumptions C85_field.
