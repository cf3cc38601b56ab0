(** Discrete Fourier sums and the spectral Poisson solver. *)
From Verif Require Import RSum Pic PicProofs.

Lemma csum_fst n h : fst (csum n h) = rsum n (fun i => fst (h i)).
Proof. induction n as [|n IH]; cbn; [reflexivity|]. now rewrite IH. Qed.
Lemma csum_snd n h : snd (csum n h) = rsum n (fun i => snd (h i)).
Proof. induction n as [|n IH]; cbn; [reflexivity|]. now rewrite IH. Qed.
Lemma fft_fst n rho k : fst (fft n rho k) = rsum n (fun g => rho g * cos (angle n k g)).
Proof. unfold fft. rewrite csum_fst. apply rsum_ext. intros g _. unfold cscal, cis. cbn [fst snd]. now rewrite cos_neg. Qed.
Lemma fft_snd n rho k : snd (fft n rho k) = - rsum n (fun g => rho g * sin (angle n k g)).
Proof.
  unfold fft. rewrite csum_snd. rewrite (rsum_ext n _ (fun g => -1 * (rho g * sin (angle n k g)))) by (intros g _; unfold cscal, cis; cbn [fst snd]; rewrite sin_neg; ring).
  rewrite rsum_scal. ring.
Qed.

Definition total_charge (static : option (nat -> R)) (rho : nat -> R) : nat -> R := match static with Some s => fun h => rho h + s h | None => rho end.
Lemma poisson_formula n dx static rho g :
  spectral_poisson n dx static rho g = / INR n * rsum n (fun k => one_over_kx n dx k * rsum n (fun h => total_charge static rho h * sin (angle n k g - angle n k h))).
Proof.
  unfold spectral_poisson. fold (total_charge static rho). set (r := total_charge static rho). unfold ifft. cbn [fst cscal]. rewrite csum_fst. f_equal. apply rsum_ext. intros k _.
  unfold cmul, cis. cbn [fst snd]. rewrite fft_fst, fft_snd. set (o := one_over_kx n dx k).
  rewrite (rsum_ext n (fun h => r h * sin (angle n k g - angle n k h)) (fun h => sin (angle n k g) * (r h * cos (angle n k h)) - cos (angle n k g) * (r h * sin (angle n k h)))) by (intros h _; rewrite sin_minus; ring).
  rewrite rsum_minus, !rsum_scal. ring.
Qed.

(** ** Trigonometric sums *)
Lemma cos_2Zpi x z : cos (x + 2 * IZR z * PI) = cos x.
Proof.
  destruct (Z_le_gt_dec 0 z) as [H|H].
  - rewrite <- (Z2Nat.id z H), <- INR_IZR_INZ. apply cos_period.
  - rewrite <- (cos_period (x + 2 * IZR z * PI) (Z.to_nat (- z))). f_equal. rewrite INR_IZR_INZ, Z2Nat.id by lia. rewrite opp_IZR. ring.
Qed.
Lemma sin_2Zpi x z : sin (x + 2 * IZR z * PI) = sin x.
Proof.
  destruct (Z_le_gt_dec 0 z) as [H|H].
  - rewrite <- (Z2Nat.id z H), <- INR_IZR_INZ. apply sin_period.
  - rewrite <- (sin_period (x + 2 * IZR z * PI) (Z.to_nat (- z))). f_equal. rewrite INR_IZR_INZ, Z2Nat.id by lia. rewrite opp_IZR. ring.
Qed.
Definition angleZ (n : nat) (j : Z) (g : nat) : R := 2 * PI * IZR j * INR g / INR n.
Lemma angle_Z n k g : angle n k g = angleZ n (Z.of_nat k) g.
Proof. unfold angle, angleZ. now rewrite <- INR_IZR_INZ. Qed.

(** Sum of a full set of phases that are not all equal. *)
Lemma cos_sum_aux n a phi : sin (a / 2) * rsum n (fun g => cos (a * INR g + phi)) = (sin (a * INR n - a / 2 + phi) - sin (- (a / 2) + phi)) / 2.
Proof.
  induction n as [|n IH].
  - cbn [rsum]. replace (a * INR 0 - a / 2 + phi) with (- (a / 2) + phi) by (cbn; ring). unfold Rdiv. ring.
  - cbn [rsum]. rewrite Rmult_plus_distr_l, IH. rewrite S_INR.
    replace (a * (INR n + 1) - a / 2 + phi) with ((a * INR n + phi) + a / 2) by field. replace (a * INR n - a / 2 + phi) with ((a * INR n + phi) - a / 2) by field.
    rewrite (sin_plus (a * INR n + phi)), (sin_minus (a * INR n + phi)). field.
Qed.
Lemma cos_sum_zero n (j : Z) phi : (0 < n)%nat -> (0 < j < Z.of_nat n)%Z -> rsum n (fun g => cos (angleZ n j g + phi)) = 0.
Proof.
  intros Hn Hj. assert (HnR : 0 < INR n) by now apply lt_0_INR. set (a := 2 * PI * IZR j / INR n).
  rewrite (rsum_ext n _ (fun g => cos (a * INR g + phi))) by (intros g _; f_equal; unfold angleZ, a; field; lra).
  pose proof (cos_sum_aux n a phi) as H.
  assert (E : a * INR n - a / 2 + phi = - (a / 2) + phi + 2 * IZR j * PI) by (unfold a; field; lra). rewrite E, sin_2Zpi in H. replace ((sin (- (a / 2) + phi) - sin (- (a / 2) + phi)) / 2) with 0 in H by field.
  assert (HS : 0 < sin (a / 2)).
  { assert (0 < IZR j) by (apply IZR_lt; lia). assert (IZR j < INR n) by (rewrite INR_IZR_INZ; apply IZR_lt; lia). pose proof PI_RGT_0. replace (a / 2) with (PI * (IZR j / INR n)) by (unfold a; field; lra).
    assert (0 < IZR j / INR n < 1). { split; [now apply Rdiv_lt_0_compat|]. apply Rmult_lt_reg_r with (INR n); [exact HnR|]. replace (IZR j / INR n * INR n) with (IZR j) by (field; lra). lra. }
    apply sin_gt_0; nra. }
  apply Rmult_integral in H. destruct H; lra.
Qed.
Lemma angleZ_mod n j g : (0 < n)%nat -> exists z, angleZ n j g = angleZ n (j mod Z.of_nat n) g + 2 * IZR z * PI.
Proof.
  intros Hn. exists (j / Z.of_nat n * Z.of_nat g)%Z. assert (HnR : INR n <> 0) by (apply not_0_INR; lia). rewrite (Z.div_mod j (Z.of_nat n)) at 1 by lia. unfold angleZ. rewrite plus_IZR, !mult_IZR, <- !INR_IZR_INZ. field. exact HnR.
Qed.
Lemma cos_sum n j phi : (0 < n)%nat -> rsum n (fun g => cos (angleZ n j g + phi)) = if Z.eqb (j mod Z.of_nat n) 0 then INR n * cos phi else 0.
Proof.
  intros Hn. rewrite (rsum_ext n _ (fun g => cos (angleZ n (j mod Z.of_nat n) g + phi))).
  2:{ intros g _. destruct (angleZ_mod n j g Hn) as (z & ->). rewrite <- (cos_2Zpi (angleZ n (j mod Z.of_nat n) g + phi) z). f_equal. ring. }
  destruct (Z.eqb (j mod Z.of_nat n) 0) eqn:E.
  - apply Z.eqb_eq in E. rewrite E. rewrite (rsum_ext n _ (fun _ => cos phi)). { apply rsum_const. } intros g _. f_equal. unfold angleZ. unfold Rdiv. ring.
  - apply Z.eqb_neq in E. apply cos_sum_zero; [exact Hn|]. pose proof (Z.mod_pos_bound j (Z.of_nat n) ltac:(lia)). lia.
Qed.
Lemma sin_sum n j phi : (0 < n)%nat -> rsum n (fun g => sin (angleZ n j g + phi)) = if Z.eqb (j mod Z.of_nat n) 0 then INR n * sin phi else 0.
Proof.
  intros Hn. rewrite (rsum_ext n _ (fun g => cos (angleZ n j g + (phi - PI / 2)))).
  - rewrite cos_sum by exact Hn. destruct (Z.eqb _ 0); [|reflexivity]. f_equal. rewrite <- (cos_shift (phi)), <- cos_neg. f_equal. ring.
  - intros g _. rewrite <- cos_shift, <- cos_neg. f_equal. ring.
Qed.

(** ** The field has no mean and exerts no net force on its own charge *)
Lemma poisson_mean n dx static rho : (0 < n)%nat -> rsum n (spectral_poisson n dx static rho) = 0.
Proof.
  intros Hn. rewrite (rsum_ext n _ (fun g => / INR n * rsum n (fun k => one_over_kx n dx k * rsum n (fun h => total_charge static rho h * sin (angle n k g - angle n k h))))) by (intros; apply poisson_formula).
  rewrite rsum_scal, rsum_swap. rewrite (rsum_ext n _ (fun _ => 0)); [rewrite rsum_zero; ring|]. intros k Hk.
  rewrite rsum_scal, rsum_swap. destruct k as [|k]; [cbn [one_over_kx]; ring|].
  rewrite (rsum_ext n _ (fun _ => 0)); [rewrite rsum_zero; ring|]. intros h _. rewrite rsum_scal.
  rewrite (rsum_ext n _ (fun g => sin (angleZ n (Z.of_nat (S k)) g + - angle n (S k) h))) by (intros g _; rewrite angle_Z at 1; reflexivity).
  rewrite sin_sum by exact Hn. rewrite Z.mod_small by lia. rewrite (proj2 (Z.eqb_neq _ 0)) by lia. ring.
Qed.
Lemma antisym_zero n (A : nat -> nat -> R) : (forall g h, A g h = - A h g) -> rsum n (fun g => rsum n (fun h => A g h)) = 0.
Proof.
  intros H. assert (E : rsum n (fun g => rsum n (fun h => A g h)) = - rsum n (fun g => rsum n (fun h => A g h))); [|lra].
  rewrite rsum_swap at 1. rewrite (rsum_ext n (fun j => rsum n (fun i => A i j)) (fun j => -1 * rsum n (fun i => A j i))); [rewrite rsum_scal; ring|].
  intros j _. rewrite <- rsum_scal. apply rsum_ext. intros i _. rewrite H. ring.
Qed.
Lemma poisson_self_force n dx static rho : rsum n (fun g => total_charge static rho g * spectral_poisson n dx static rho g) = 0.
Proof.
  set (r := total_charge static rho).
  rewrite (rsum_ext n _ (fun g => / INR n * rsum n (fun k => one_over_kx n dx k * rsum n (fun h => r g * r h * sin (angle n k g - angle n k h))))).
  2:{ intros g _. rewrite poisson_formula. fold r. rewrite <- Rmult_assoc, (Rmult_comm (r g)), Rmult_assoc. f_equal. rewrite <- rsum_scal. apply rsum_ext. intros k _. rewrite <- Rmult_assoc, (Rmult_comm (r g)), Rmult_assoc. f_equal. rewrite <- rsum_scal. apply rsum_ext. intros; ring. }
  rewrite rsum_scal, rsum_swap. rewrite (rsum_ext n _ (fun _ => 0)); [rewrite rsum_zero; ring|]. intros k _. rewrite rsum_scal, antisym_zero; [ring|].
  intros g h. replace (angle n k h - angle n k g) with (- (angle n k g - angle n k h)) by ring. rewrite sin_neg. ring.
Qed.

(** ** Gauss's law mode by mode *)
Lemma rsum_pair n p q f : (p < n)%nat -> (q < n)%nat -> p <> q -> (forall i, (i < n)%nat -> i <> p -> i <> q -> f i = 0) -> rsum n f = f p + f q.
Proof.
  intros Hp Hq Hpq H. rewrite (rsum_ext n f (fun i => (if Nat.eqb p i then f p else 0) + (if Nat.eqb q i then f q else 0))).
  - now rewrite rsum_plus, !rsum_delta.
  - intros i Hi. destruct (Nat.eqb p i) eqn:E1, (Nat.eqb q i) eqn:E2; try (apply Nat.eqb_eq in E1; subst i); try (apply Nat.eqb_eq in E2; subst); try apply Nat.eqb_neq in E1; try apply Nat.eqb_neq in E2; try congruence; try lra. rewrite H by auto. lra.
Qed.
Lemma mod_plus_zero n k m : (0 < m < n)%nat -> (k < n)%nat -> ((Z.of_nat k + Z.of_nat m) mod Z.of_nat n = 0)%Z <-> k = (n - m)%nat.
Proof.
  intros Hm Hk. split.
  - intros H. apply Z.mod_divide in H; [|lia]. destruct H as [z Hz]. assert (z = 1)%Z by nia. lia.
  - intros ->. replace (Z.of_nat (n - m) + Z.of_nat m)%Z with (Z.of_nat n) by lia. apply Z_mod_same_full.
Qed.
Lemma mod_minus_zero n k m : (0 < m < n)%nat -> (k < n)%nat -> ((Z.of_nat k - Z.of_nat m) mod Z.of_nat n = 0)%Z <-> k = m.
Proof.
  intros Hm Hk. split.
  - intros H. apply Z.mod_divide in H; [|lia]. destruct H as [z Hz]. assert (z = 0)%Z by nia. lia.
  - intros ->. now rewrite Z.sub_diag, Zmod_0_l.
Qed.
Lemma angle_mirror n m h : (0 < n)%nat -> (m <= n)%nat -> angle n (n - m) h = - angle n m h + 2 * IZR (Z.of_nat h) * PI.
Proof. intros Hn Hm. unfold angle. rewrite minus_INR by exact Hm. rewrite <- INR_IZR_INZ. field. apply not_0_INR. lia. Qed.

Lemma kx_mirror n dx m : dx <> 0 -> (0 < m < n)%nat -> (2 * m <> n)%nat -> kx n dx (n - m) = - kx n dx m.
Proof.
  intros Hd Hm H2. unfold kx. assert (INR n <> 0) by (apply not_0_INR; lia). destruct (Nat.ltb (2 * m) n) eqn:E1, (Nat.ltb (2 * (n - m)) n) eqn:E2.
  - apply Nat.ltb_lt in E1, E2. lia.
  - rewrite minus_INR by lia. field. now split.
  - rewrite minus_INR by lia. field. now split.
  - apply Nat.ltb_ge in E1, E2. lia.
Qed.
Lemma kx_nonzero n dx m : dx <> 0 -> (0 < m < n)%nat -> kx n dx m <> 0.
Proof.
  intros Hd Hm. unfold kx. assert (0 < INR n) by (apply lt_0_INR; lia). assert (0 < INR m) by (apply lt_0_INR; lia). assert (INR m < INR n) by (apply lt_INR; lia). pose proof PI_RGT_0.
  assert (INR n * dx <> 0) by (apply Rmult_integral_contrapositive_currified; lra).
  unfold Rdiv. apply Rmult_integral_contrapositive_currified; [lra|]. apply Rmult_integral_contrapositive_currified; [|now apply Rinv_neq_0_compat]. destruct (Nat.ltb (2 * m) n); lra.
Qed.
Lemma ok_eq n dx m : (0 < m)%nat -> one_over_kx n dx m = / kx n dx m.
Proof. intros H. unfold one_over_kx. destruct m; [lia|]. unfold Rdiv. ring. Qed.

(** Sum over the grid of one Fourier component of the field against a test phase. *)
Lemma mode_sum n k m h psi : (0 < m < n)%nat -> (k < n)%nat ->
  rsum n (fun g => sin (angle n k g - angle n k h) * cos (angle n m g + psi)) =
  (if Nat.eqb k (n - m) then INR n / 2 * sin (- angle n k h + psi) else 0) + (if Nat.eqb k m then INR n / 2 * sin (- angle n k h - psi) else 0).
Proof.
  intros Hm Hk. rewrite (rsum_ext n _ (fun g => 1 / 2 * sin (angleZ n (Z.of_nat k + Z.of_nat m) g + (- angle n k h + psi)) + 1 / 2 * sin (angleZ n (Z.of_nat k - Z.of_nat m) g + (- angle n k h - psi)))).
  - rewrite rsum_plus, !rsum_scal, !sin_sum by lia. f_equal.
    + destruct (Nat.eqb k (n - m)) eqn:E; [apply Nat.eqb_eq in E; apply (mod_plus_zero n k m Hm Hk) in E; rewrite E; cbn [Z.eqb]; field|].
      apply Nat.eqb_neq in E. rewrite (proj2 (Z.eqb_neq _ 0)); [ring|]. intros F. apply E. now apply (mod_plus_zero n k m Hm Hk).
    + destruct (Nat.eqb k m) eqn:E; [apply Nat.eqb_eq in E; apply (mod_minus_zero n k m Hm Hk) in E; rewrite E; cbn [Z.eqb]; field|].
      apply Nat.eqb_neq in E. rewrite (proj2 (Z.eqb_neq _ 0)); [ring|]. intros F. apply E. now apply (mod_minus_zero n k m Hm Hk).
  - intros g _. assert (A1 : angleZ n (Z.of_nat k + Z.of_nat m) g = angle n k g + angle n m g) by (unfold angleZ, angle; rewrite plus_IZR, <- !INR_IZR_INZ; unfold Rdiv; ring).
    assert (A2 : angleZ n (Z.of_nat k - Z.of_nat m) g = angle n k g - angle n m g) by (unfold angleZ, angle; rewrite minus_IZR, <- !INR_IZR_INZ; unfold Rdiv; ring).
    rewrite A1, A2. set (A := angle n k g). set (B := angle n m g). set (H := angle n k h).
    replace (A + B + (- H + psi)) with ((A - H) + (B + psi)) by ring. replace (A - B + (- H - psi)) with ((A - H) - (B + psi)) by ring. rewrite sin_plus, (sin_minus (A - H)). field.
Qed.
Lemma gauss_phase n dx static rho m psi : dx <> 0 -> (0 < m < n)%nat -> (2 * m <> n)%nat ->
  kx n dx m * rsum n (fun g => spectral_poisson n dx static rho g * cos (angle n m g + psi)) = - rsum n (fun h => total_charge static rho h * sin (angle n m h + psi)).
Proof.
  intros Hd Hm H2. set (r := total_charge static rho). assert (HnR : INR n <> 0) by (apply not_0_INR; lia).
  rewrite (rsum_ext n _ (fun g => / INR n * rsum n (fun k => one_over_kx n dx k * rsum n (fun h => r h * (sin (angle n k g - angle n k h) * cos (angle n m g + psi)))))).
  2:{ intros g _. rewrite poisson_formula. fold r. rewrite Rmult_assoc. f_equal. rewrite <- rsum_scal_r. apply rsum_ext. intros k _. rewrite Rmult_assoc. f_equal. rewrite <- rsum_scal_r. apply rsum_ext. intros; ring. }
  rewrite rsum_scal, rsum_swap.
  rewrite (rsum_ext n _ (fun k => one_over_kx n dx k * rsum n (fun h => r h * ((if Nat.eqb k (n - m) then INR n / 2 * sin (- angle n k h + psi) else 0) + (if Nat.eqb k m then INR n / 2 * sin (- angle n k h - psi) else 0))))).
  2:{ intros k Hk. rewrite rsum_scal. f_equal. rewrite rsum_swap. apply rsum_ext. intros h _. rewrite rsum_scal. f_equal. now apply mode_sum. }
  rewrite (rsum_pair n m (n - m)); [|lia|lia|lia|].
  2:{ intros k Hk K1 K2. rewrite (proj2 (Nat.eqb_neq k m) K1), (proj2 (Nat.eqb_neq k (n - m)) K2). rewrite (rsum_ext n _ (fun _ => 0)) by (intros; ring). rewrite rsum_zero. ring. }
  rewrite !Nat.eqb_refl, (proj2 (Nat.eqb_neq m (n - m))), (proj2 (Nat.eqb_neq (n - m) m)) by lia.
  rewrite !ok_eq by lia. rewrite (kx_mirror n dx m Hd Hm H2). pose proof (kx_nonzero n dx m Hd Hm) as Hk.
  set (S := rsum n (fun h => r h * sin (angle n m h + psi))).
  rewrite (rsum_ext n (fun h => r h * (0 + INR n / 2 * sin (- angle n m h - psi))) (fun h => - (INR n / 2) * (r h * sin (angle n m h + psi)))).
  2:{ intros h _. replace (- angle n m h - psi) with (- (angle n m h + psi)) by ring. rewrite sin_neg. ring. }
  rewrite (rsum_ext n (fun h => r h * (INR n / 2 * sin (- angle n (n - m) h + psi) + 0)) (fun h => INR n / 2 * (r h * sin (angle n m h + psi)))).
  2:{ intros h _. rewrite angle_mirror by lia. replace (- (- angle n m h + 2 * IZR (Z.of_nat h) * PI) + psi) with (angle n m h + psi + 2 * IZR (- Z.of_nat h) * PI) by (rewrite opp_IZR; ring). rewrite sin_2Zpi. ring. }
  rewrite !rsum_scal. fold S. field. now split.
Qed.
Lemma gauss_law n dx static rho m : dx <> 0 -> (0 < m < n)%nat -> (2 * m <> n)%nat ->
  cscal (kx n dx m) (fft n (spectral_poisson n dx static rho) m) = cmul (0, - (1)) (fft n (total_charge static rho) m).
Proof.
  intros Hd Hm H2. pose proof (gauss_phase n dx static rho m 0 Hd Hm H2) as G1. pose proof (gauss_phase n dx static rho m (- (PI / 2)) Hd Hm H2) as G2.
  rewrite (rsum_ext n (fun g => spectral_poisson n dx static rho g * cos (angle n m g + 0)) (fun g => spectral_poisson n dx static rho g * cos (angle n m g))) in G1 by (intros; now rewrite Rplus_0_r).
  rewrite (rsum_ext n (fun g => total_charge static rho g * sin (angle n m g + 0)) (fun g => total_charge static rho g * sin (angle n m g))) in G1 by (intros; now rewrite Rplus_0_r).
  rewrite (rsum_ext n (fun g => spectral_poisson n dx static rho g * cos (angle n m g + - (PI / 2))) (fun g => spectral_poisson n dx static rho g * sin (angle n m g))) in G2
    by (intros g _; f_equal; rewrite <- (cos_shift (angle n m g)), <- (cos_neg (PI / 2 - _)); f_equal; ring).
  rewrite (rsum_ext n (fun g => total_charge static rho g * sin (angle n m g + - (PI / 2))) (fun g => -1 * (total_charge static rho g * cos (angle n m g)))) in G2.
  2:{ intros g _. replace (angle n m g + - (PI / 2)) with (- (PI / 2 - angle n m g)) by ring. rewrite sin_neg, sin_shift. ring. }
  rewrite rsum_scal in G2. unfold cscal, cmul. cbn [fst snd]. rewrite !fft_fst, !fft_snd. f_equal; lra.
Qed.

(** The mean of the charge never produces a field; for an even grid neither does the shortest wave. *)
Lemma poisson_nyquist n dx static rho m : (0 < m)%nat -> (2 * m = n)%nat -> fft n (spectral_poisson n dx static rho) m = c0.
Proof.
  intros Hm H2. set (r := total_charge static rho).
  assert (K : forall psi, rsum n (fun g => spectral_poisson n dx static rho g * cos (angle n m g + psi)) = 0).
  { intros psi. rewrite (rsum_ext n _ (fun g => / INR n * rsum n (fun k => one_over_kx n dx k * rsum n (fun h => r h * (sin (angle n k g - angle n k h) * cos (angle n m g + psi)))))).
    2:{ intros g _. rewrite poisson_formula. fold r. rewrite Rmult_assoc. f_equal. rewrite <- rsum_scal_r. apply rsum_ext. intros k _. rewrite Rmult_assoc. f_equal. rewrite <- rsum_scal_r. apply rsum_ext. intros; ring. }
    rewrite rsum_scal, rsum_swap. rewrite (rsum_ext n _ (fun _ => 0)); [rewrite rsum_zero; ring|]. intros k Hk.
    rewrite rsum_scal, rsum_swap. rewrite (rsum_ext n _ (fun _ => 0)); [rewrite rsum_zero; ring|]. intros h _.
    rewrite rsum_scal, mode_sum by lia. replace (n - m)%nat with m by lia. destruct (Nat.eqb k m) eqn:E; [|ring]. apply Nat.eqb_eq in E. subst k.
    assert (A : angle n m h = IZR (Z.of_nat h) * PI). { unfold angle. rewrite <- INR_IZR_INZ. rewrite <- H2, mult_INR. cbn [INR]. field. apply not_0_INR. lia. }
    rewrite A. assert (S : sin (IZR (Z.of_nat h) * PI) = 0) by (apply sin_eq_0_1; now exists (Z.of_nat h)).
    rewrite sin_plus, sin_minus, sin_neg, S. ring. }
  unfold c0. rewrite (surjective_pairing (fft n _ m)). rewrite fft_fst, fft_snd. f_equal.
  - rewrite <- (K 0). apply rsum_ext. intros g _. now rewrite Rplus_0_r.
  - rewrite <- Ropp_0. f_equal. rewrite <- (K (- (PI / 2))). apply rsum_ext. intros g _. f_equal. rewrite <- (cos_shift (angle n m g)), <- (cos_neg (PI / 2 - _)). f_equal. ring.
Qed.

(** The field of a single resolved wave. *)
Lemma poisson_mode n dx m A phi g : dx <> 0 -> (0 < m)%nat -> (2 * m < n)%nat ->
  spectral_poisson n dx None (fun h => A * cos (angle n m h + phi)) g = A / kx n dx m * sin (angle n m g + phi).
Proof.
  intros Hd Hm H2. assert (HnR : INR n <> 0) by (apply not_0_INR; lia). rewrite poisson_formula. cbn [total_charge].
  rewrite (rsum_ext n _ (fun k => one_over_kx n dx k * (- A * ((if Nat.eqb k (n - m) then INR n / 2 * sin (- angle n k g + phi) else 0) + (if Nat.eqb k m then INR n / 2 * sin (- angle n k g - phi) else 0))))).
  2:{ intros k Hk. f_equal. rewrite <- (mode_sum n k m g phi) by lia. rewrite <- rsum_scal. apply rsum_ext. intros h _. replace (angle n k g - angle n k h) with (- (angle n k h - angle n k g)) by ring. rewrite sin_neg. ring. }
  rewrite (rsum_pair n m (n - m)); [|lia|lia|lia|].
  2:{ intros k Hk K1 K2. rewrite (proj2 (Nat.eqb_neq k m) K1), (proj2 (Nat.eqb_neq k (n - m)) K2). ring. }
  rewrite !Nat.eqb_refl, (proj2 (Nat.eqb_neq m (n - m))), (proj2 (Nat.eqb_neq (n - m) m)) by lia.
  rewrite !ok_eq by lia. rewrite (kx_mirror n dx m Hd ltac:(lia) ltac:(lia)). pose proof (kx_nonzero n dx m Hd ltac:(lia)) as Hk.
  rewrite angle_mirror by lia. replace (- (- angle n m g + 2 * IZR (Z.of_nat g) * PI) + phi) with (angle n m g + phi + 2 * IZR (- Z.of_nat g) * PI) by (rewrite opp_IZR; ring). rewrite sin_2Zpi.
  replace (- angle n m g - phi) with (- (angle n m g + phi)) by ring. rewrite sin_neg. field. now split.
Qed.
Lemma poisson_linear n dx a b r1 r2 g :
  spectral_poisson n dx None (fun h => a * r1 h + b * r2 h) g = a * spectral_poisson n dx None r1 g + b * spectral_poisson n dx None r2 g.
Proof.
  rewrite !poisson_formula. cbn [total_charge]. rewrite <- !Rmult_assoc, (Rmult_comm a), (Rmult_comm b), !Rmult_assoc. rewrite <- Rmult_plus_distr_l. f_equal.
  rewrite <- !rsum_scal, <- rsum_plus. apply rsum_ext. intros k _.
  rewrite (rsum_ext n _ (fun h => a * (r1 h * sin (angle n k g - angle n k h)) + b * (r2 h * sin (angle n k g - angle n k h)))) by (intros; ring). rewrite rsum_plus, !rsum_scal. ring.
Qed.
Lemma poisson_const n dx c g : (0 < n)%nat -> spectral_poisson n dx None (fun _ => c) g = 0.
Proof.
  intros Hn. rewrite poisson_formula. cbn [total_charge]. rewrite (rsum_ext n _ (fun _ => 0)); [rewrite rsum_zero; ring|]. intros k Hk. destruct k as [|k]; [cbn [one_over_kx]; ring|].
  rewrite rsum_scal. rewrite (rsum_ext n _ (fun h => -1 * sin (angleZ n (Z.of_nat (S k)) h + - angle n (S k) g))).
  2:{ intros h _. rewrite <- angle_Z. replace (angle n (S k) g - angle n (S k) h) with (- (angle n (S k) h + - angle n (S k) g)) by ring. rewrite sin_neg. ring. }
  rewrite rsum_scal, sin_sum by exact Hn. rewrite Z.mod_small by lia. rewrite (proj2 (Z.eqb_neq _ 0)) by lia. ring.
Qed.
