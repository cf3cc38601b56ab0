(** Property C66: temperatures and self-consistent shape parameters of the collision operators. *)
From Coq Require Import Psatz.
From Verif Require Import RSum ExpBounds DriftDiff DriftDiffProofs DriftDiffProofs2 DriftDiffProofs3 DriftDiffProps Beta.
Local Open Scope R_scope.

(** ** Weighted means of exponentials decrease with beta *)
Definition wmean (n : nat) (w x y : nat -> R) (b : R) : R :=
  rsum n (fun i => w i * x i * exp (- b * y i)) / rsum n (fun i => w i * exp (- b * y i)).
Lemma rsum_mult_both n (a b : nat -> R) : rsum n a * rsum n b = rsum n (fun i => rsum n (fun j => a i * b j)).
Proof. rewrite <- rsum_scal_r. apply rsum_ext. intros i _. now rewrite rsum_scal. Qed.
(** Chebyshev: N1 M2 - N2 M1 as a double sum of products of one sign. *)
Lemma cheb n w x y b1 b2 :
  2 * (rsum n (fun i => w i * x i * exp (- b1 * y i)) * rsum n (fun i => w i * exp (- b2 * y i))
       - rsum n (fun i => w i * x i * exp (- b2 * y i)) * rsum n (fun i => w i * exp (- b1 * y i)))
  = rsum n (fun i => rsum n (fun j => w i * w j * (x i - x j) * (exp (- b1 * y i) * exp (- b2 * y j) - exp (- b2 * y i) * exp (- b1 * y j)))).
Proof.
  set (A := rsum n (fun i => rsum n (fun j => w i * w j * x i * (exp (- b1 * y i) * exp (- b2 * y j))))).
  set (B := rsum n (fun i => rsum n (fun j => w i * w j * x i * (exp (- b2 * y i) * exp (- b1 * y j))))).
  assert (EA : rsum n (fun i => w i * x i * exp (- b1 * y i)) * rsum n (fun i => w i * exp (- b2 * y i)) = A).
  { rewrite rsum_mult_both. apply rsum_ext. intros i _. apply rsum_ext. intros j _. ring. }
  assert (EB : rsum n (fun i => w i * x i * exp (- b2 * y i)) * rsum n (fun i => w i * exp (- b1 * y i)) = B).
  { rewrite rsum_mult_both. apply rsum_ext. intros i _. apply rsum_ext. intros j _. ring. }
  rewrite EA, EB.
  rewrite (rsum_ext n _ (fun i => (rsum n (fun j => w i * w j * x i * (exp (- b1 * y i) * exp (- b2 * y j))) - rsum n (fun j => w i * w j * x i * (exp (- b2 * y i) * exp (- b1 * y j))))
     + (rsum n (fun j => w j * w i * x j * (exp (- b1 * y j) * exp (- b2 * y i))) - rsum n (fun j => w j * w i * x j * (exp (- b2 * y j) * exp (- b1 * y i)))))).
  2:{ intros i _. rewrite <- !rsum_minus, <- rsum_plus. apply rsum_ext. intros j _. ring. }
  rewrite rsum_plus, !rsum_minus. fold A B.
  rewrite (rsum_swap n n (fun i j => w j * w i * x j * (exp (- b1 * y j) * exp (- b2 * y i)))), (rsum_swap n n (fun i j => w j * w i * x j * (exp (- b2 * y j) * exp (- b1 * y i)))).
  fold A B. ring.
Qed.
Lemma exp_cross b1 b2 p q : b1 < b2 ->
  (p <= q -> exp (- b1 * p) * exp (- b2 * q) - exp (- b2 * p) * exp (- b1 * q) <= 0) /\
  (q <= p -> 0 <= exp (- b1 * p) * exp (- b2 * q) - exp (- b2 * p) * exp (- b1 * q)) /\
  (q < p -> 0 < exp (- b1 * p) * exp (- b2 * q) - exp (- b2 * p) * exp (- b1 * q)).
Proof.
  intros H. rewrite <- !exp_plus.
  assert (M : forall a b, a <= b -> exp a <= exp b) by (intros a b [L| ->]; [apply Rlt_le; now apply exp_increasing|lra]).
  repeat split; intros K.
  - assert (exp (- b1 * p + - b2 * q) <= exp (- b2 * p + - b1 * q)) by (apply M; nra). lra.
  - assert (exp (- b2 * p + - b1 * q) <= exp (- b1 * p + - b2 * q)) by (apply M; nra). lra.
  - assert (exp (- b2 * p + - b1 * q) < exp (- b1 * p + - b2 * q)) by (apply exp_increasing; nra). lra.
Qed.
Lemma wmean_decreasing n w x y b1 b2 : (forall i, (i < n)%nat -> 0 < w i) ->
  (forall i j, (i < n)%nat -> (j < n)%nat -> y i <= y j -> x i <= x j) ->
  (exists i j, (i < n)%nat /\ (j < n)%nat /\ y i < y j /\ x i < x j) ->
  b1 < b2 -> wmean n w x y b2 < wmean n w x y b1.
Proof.
  intros Hw Hm (i0 & j0 & Hi0 & Hj0 & Hy & Hx) Hb.
  assert (P : forall b, 0 < rsum n (fun i => w i * exp (- b * y i))) by (intros b; apply rsum_pos; [lia|intros i Hi; apply Rmult_lt_0_compat; [now apply Hw|apply exp_pos]]).
  pose proof (cheb n w x y b1 b2) as C.
  set (S2 := rsum n (fun i => rsum n (fun j => w i * w j * (x i - x j) * (exp (- b1 * y i) * exp (- b2 * y j) - exp (- b2 * y i) * exp (- b1 * y j))))) in C.
  assert (T : forall i j, (i < n)%nat -> (j < n)%nat -> 0 <= w i * w j * (x i - x j) * (exp (- b1 * y i) * exp (- b2 * y j) - exp (- b2 * y i) * exp (- b1 * y j))).
  { intros i j Hi Hj. pose proof (Rmult_lt_0_compat _ _ (Hw i Hi) (Hw j Hj)) as W. destruct (exp_cross b1 b2 (y i) (y j) Hb) as (E1 & E2 & _).
    rewrite Rmult_assoc. apply Rmult_le_pos; [lra|]. destruct (Rle_dec (y i) (y j)) as [L|L].
    - specialize (E1 L). specialize (Hm i j Hi Hj L). nra.
    - specialize (E2 ltac:(lra)). specialize (Hm j i Hj Hi ltac:(lra)). nra. }
  assert (Q : 0 < S2).
  { assert (N : 0 <= S2) by (apply rsum_nonneg; intros i Hi; apply rsum_nonneg; intros j Hj; now apply T).
    destruct (Rle_lt_or_eq_dec 0 S2 N) as [L|L]; [exact L|exfalso]. symmetry in L. unfold S2 in L.
    assert (Z := rsum_nonneg_zero n _ (fun i Hi => rsum_nonneg n _ (fun j Hj => T i j Hi Hj)) L j0 Hj0). cbv beta in Z.
    assert (Z2 := rsum_nonneg_zero n _ (fun j Hj => T j0 j Hj0 Hj) Z i0 Hi0). cbv beta in Z2.
    destruct (exp_cross b1 b2 (y j0) (y i0) Hb) as (_ & _ & E3). specialize (E3 Hy).
    assert (0 < w j0 * w i0 * (x j0 - x i0)) by (apply Rmult_lt_0_compat; [apply Rmult_lt_0_compat; now apply Hw|lra]). nra. }
  unfold wmean. pose proof (P b1) as P1. pose proof (P b2) as P2.
  set (N1 := rsum n (fun i => w i * x i * exp (- b1 * y i))) in *. set (N2 := rsum n (fun i => w i * x i * exp (- b2 * y i))) in *.
  set (M1 := rsum n (fun i => w i * exp (- b1 * y i))) in *. set (M2 := rsum n (fun i => w i * exp (- b2 * y i))) in *.
  assert (K : N2 * M1 < N1 * M2) by lra.
  apply (Rmult_lt_reg_r (M1 * M2)); [nra|]. replace (N2 / M2 * (M1 * M2)) with (N2 * M1) by (field; lra). replace (N1 / M1 * (M1 * M2)) with (N1 * M2) by (field; lra). exact K.
Qed.

(* ------------------------------------------------------------------------------------------------ *)
(** C66: the discrete temperature. It does not depend on the density, is not changed by a shift of the frame, and
    is that of the stated moments. *)
Theorem C66_temperature : forall nv v dv vbar f, 0 < dv -> rsum nv f <> 0 ->
  let T := discrete_temperature nv v (fun _ => dv) false vbar f in
  T = rsum nv (fun i => f i * (v i - vbar) ^ 2) / rsum nv f /\
  (forall c, c <> 0 -> discrete_temperature nv v (fun _ => dv) false vbar (fun i => c * f i) = T) /\
  (forall u, discrete_temperature nv (fun i => v i + u) (fun _ => dv) false (vbar + u) f = T) /\
  ((forall i, (i < nv)%nat -> 0 <= f i) -> 0 <= T) /\
  (vbar = rsum nv (fun i => f i * v i) / rsum nv f -> T = rsum nv (fun i => f i * v i ^ 2) / rsum nv f - vbar ^ 2).
Proof.
  intros nv v dv vbar f Hd Hf T.
  assert (E : T = rsum nv (fun i => f i * (v i - vbar) ^ 2) / rsum nv f).
  { unfold T, discrete_temperature. rewrite !rsum_scal_r. field. lra. }
  split; [exact E|]. split.
  { intros c Hc. rewrite E. unfold discrete_temperature. rewrite !rsum_scal_r, rsum_scal.
    rewrite (rsum_ext nv _ (fun i => c * (f i * (v i - vbar) ^ 2))) by (intros; ring). rewrite rsum_scal. field. repeat split; lra. }
  split.
  { intros u. unfold T, discrete_temperature. f_equal. apply rsum_ext. intros i _. do 2 f_equal. ring. }
  split.
  { intros Hp. rewrite E. assert (0 < rsum nv f) by (pose proof (rsum_nonneg nv f Hp); lra). apply Rmult_le_pos; [apply rsum_nonneg; intros i Hi; specialize (Hp i Hi); pose proof (pow2_ge_0 (v i - vbar)); nra|].
    apply Rlt_le. now apply Rinv_0_lt_compat. }
  intros Hv. rewrite E.
  rewrite (rsum_ext nv _ (fun i => f i * v i ^ 2 - 2 * vbar * (f i * v i) + vbar ^ 2 * f i)) by (intros; ring).
  rewrite rsum_plus, rsum_minus, !rsum_scal.
  assert (rsum nv (fun i => f i * v i) = vbar * rsum nv f) by (rewrite Hv; field; exact Hf). rewrite H. field. exact Hf.
Qed.
Print Assumptions C66_temperature.

(** The temperature of the sampled target shape exp(-beta |v - vbar|^m) strictly decreases with beta, on every grid
    (uniform or not, Cartesian or spherical) with two cells at different distances from vbar: the equation that the
    Newton iteration solves has at most one root. *)
Definition abs_power (x m : R) : R := if Req_EM_T m 2 then x ^ 2 else abs_pow x m.
Lemma abs_pow_mono m a b : 0 < m -> Rabs a <= Rabs b -> abs_pow a m <= abs_pow b m.
Proof.
  intros Hm H. unfold abs_pow. destruct (Req_EM_T a 0) as [->|Ha].
  - destruct (Req_EM_T b 0); [lra|]. apply Rlt_le. unfold Rpower. apply exp_pos.
  - assert (0 < Rabs a) by now apply Rabs_pos_lt. destruct (Req_EM_T b 0) as [->|Hb]; [rewrite Rabs_R0 in H; lra|].
    destruct H as [H|H]; [|rewrite H; lra]. apply Rle_Rpower_l; lra.
Qed.
Lemma abs_pow_strict m a b : 0 < m -> Rabs a < Rabs b -> abs_pow a m < abs_pow b m.
Proof.
  intros Hm H. unfold abs_pow. destruct (Req_EM_T b 0) as [->|Hb]; [rewrite Rabs_R0 in H; pose proof (Rabs_pos a); lra|].
  destruct (Req_EM_T a 0) as [->|Ha]; [unfold Rpower; apply exp_pos|]. apply Rlt_Rpower_l; [exact Hm|]. split; [now apply Rabs_pos_lt|exact H].
Qed.
Lemma abs_sq a b : Rabs a <= Rabs b <-> a ^ 2 <= b ^ 2.
Proof. rewrite <- !Rsqr_pow2. split; intros H; [now apply Rsqr_le_abs_1|now apply Rsqr_le_abs_0]. Qed.
Lemma abs_sq_lt a b : Rabs a < Rabs b <-> a ^ 2 < b ^ 2.
Proof. rewrite <- !Rsqr_pow2. split; intros H; [now apply Rsqr_lt_abs_1|now apply Rsqr_lt_abs_0]. Qed.
Lemma abs_power_le m a b : 0 < m -> (abs_power a m <= abs_power b m <-> a ^ 2 <= b ^ 2).
Proof.
  intros Hm. unfold abs_power. destruct (Req_EM_T m 2); [tauto|]. rewrite <- abs_sq. split; intros H.
  - destruct (Rle_dec (Rabs a) (Rabs b)) as [L|L]; [exact L|]. pose proof (abs_pow_strict m b a Hm ltac:(lra)). lra.
  - now apply abs_pow_mono.
Qed.
Lemma target_eq v vbar m b i : target_shape v vbar m b i = exp (- b * abs_power (v i - vbar) m).
Proof. unfold target_shape, abs_power. destruct (Req_EM_T m 2); reflexivity. Qed.
Lemma temperature_wmean nv v dv sph vbar m b : (sph = true -> forall i, (i < nv)%nat -> v i <> vbar) ->
  discrete_temperature nv v dv sph vbar (target_shape v vbar m b)
  = (if sph then / 3 else 1) * wmean nv (fun i => if sph then (v i - vbar) ^ 2 * dv i else dv i) (fun i => (v i - vbar) ^ 2) (fun i => abs_power (v i - vbar) m) b.
Proof.
  intros H. unfold discrete_temperature, wmean. destruct sph.
  - rewrite (rsum_ext nv (fun i => target_shape v vbar m b i * ((v i - vbar) ^ 2) ^ 2 * dv i) (fun i => (v i - vbar) ^ 2 * dv i * (v i - vbar) ^ 2 * exp (- b * abs_power (v i - vbar) m))) by (intros; rewrite target_eq; ring).
    rewrite (rsum_ext nv (fun i => target_shape v vbar m b i * (v i - vbar) ^ 2 * dv i) (fun i => (v i - vbar) ^ 2 * dv i * exp (- b * abs_power (v i - vbar) m))) by (intros; rewrite target_eq; ring).
    unfold Rdiv. rewrite Rinv_mult. ring.
  - rewrite (rsum_ext nv (fun i => target_shape v vbar m b i * (v i - vbar) ^ 2 * dv i) (fun i => dv i * (v i - vbar) ^ 2 * exp (- b * abs_power (v i - vbar) m))) by (intros; rewrite target_eq; ring).
    rewrite (rsum_ext nv (fun i => target_shape v vbar m b i * dv i) (fun i => dv i * exp (- b * abs_power (v i - vbar) m))) by (intros; rewrite target_eq; ring).
    rewrite Rmult_1_l. reflexivity.
Qed.
Theorem C66_root_unique : forall nv v dv spherical vbar m f, 0 < m -> (forall i, (i < nv)%nat -> 0 < dv i) ->
  (spherical = true -> forall i, (i < nv)%nat -> v i <> vbar) ->
  (exists i j, (i < nv)%nat /\ (j < nv)%nat /\ (v i - vbar) ^ 2 <> (v j - vbar) ^ 2) ->
  (forall b1 b2, b1 < b2 -> beta_residual nv v dv spherical vbar m f b2 < beta_residual nv v dv spherical vbar m f b1) /\
  (forall b1 b2, beta_residual nv v dv spherical vbar m f b1 = 0 -> beta_residual nv v dv spherical vbar m f b2 = 0 -> b1 = b2) /\
  (forall n b0 b, n <> 0 -> (forall i, (i < nv)%nat -> f i = n * target_shape v vbar m b0 i) -> (beta_residual nv v dv spherical vbar m f b = 0 <-> b = b0)).
Proof.
  intros nv v dv sph vbar m f Hm Hd Hs (i0 & j0 & Hi0 & Hj0 & Hne).
  assert (M : forall b1 b2, b1 < b2 -> beta_residual nv v dv sph vbar m f b2 < beta_residual nv v dv sph vbar m f b1).
  { intros b1 b2 Hb. unfold beta_residual. rewrite !temperature_wmean by exact Hs.
    set (w := fun i => if sph then (v i - vbar) ^ 2 * dv i else dv i).
    assert (W : forall i, (i < nv)%nat -> 0 < w i).
    { intros i Hi. unfold w. specialize (Hd i Hi). destruct sph; [|exact Hd]. specialize (Hs eq_refl i Hi). assert (0 < (v i - vbar) ^ 2) by (rewrite <- Rsqr_pow2; apply Rlt_0_sqr; lra). nra. }
    assert (wmean nv w (fun i => (v i - vbar) ^ 2) (fun i => abs_power (v i - vbar) m) b2 < wmean nv w (fun i => (v i - vbar) ^ 2) (fun i => abs_power (v i - vbar) m) b1).
    { apply wmean_decreasing; [exact W| | |exact Hb].
      - intros i j _ _ H. now apply (abs_power_le m _ _ Hm).
      - assert (G : forall a b, a ^ 2 < b ^ 2 -> abs_power a m < abs_power b m).
        { intros a b H. destruct (Rlt_dec (abs_power a m) (abs_power b m)) as [L|L]; [exact L|]. assert (b ^ 2 <= a ^ 2) by (apply (abs_power_le m _ _ Hm); lra). lra. }
        destruct (Rtotal_order ((v i0 - vbar) ^ 2) ((v j0 - vbar) ^ 2)) as [L|[L|L]]; [exists i0, j0|lra|exists j0, i0]; auto 6. }
    destruct sph; lra. }
  split; [exact M|].
  assert (U : forall b1 b2, beta_residual nv v dv sph vbar m f b1 = 0 -> beta_residual nv v dv sph vbar m f b2 = 0 -> b1 = b2).
  { intros b1 b2 H1 H2. destruct (Rtotal_order b1 b2) as [L|[L|L]]; [|exact L|]; apply M in L; lra. }
  split; [exact U|]. intros n b0 b Hn Hf.
  assert (Z : beta_residual nv v dv sph vbar m f b0 = 0).
  { unfold beta_residual, discrete_temperature. destruct sph.
    - rewrite (rsum_ext nv (fun i => f i * ((v i - vbar) ^ 2) ^ 2 * dv i) (fun i => n * (target_shape v vbar m b0 i * ((v i - vbar) ^ 2) ^ 2 * dv i))) by (intros i Hi; rewrite Hf by exact Hi; ring).
      rewrite (rsum_ext nv (fun i => f i * (v i - vbar) ^ 2 * dv i) (fun i => n * (target_shape v vbar m b0 i * (v i - vbar) ^ 2 * dv i))) by (intros i Hi; rewrite Hf by exact Hi; ring).
      rewrite !rsum_scal. unfold Rdiv. rewrite !Rinv_mult. set (X := / rsum nv _). clearbody X. field. exact Hn.
    - rewrite (rsum_ext nv (fun i => f i * (v i - vbar) ^ 2 * dv i) (fun i => n * (target_shape v vbar m b0 i * (v i - vbar) ^ 2 * dv i))) by (intros i Hi; rewrite Hf by exact Hi; ring).
      rewrite (rsum_ext nv (fun i => f i * dv i) (fun i => n * (target_shape v vbar m b0 i * dv i))) by (intros i Hi; rewrite Hf by exact Hi; ring).
      rewrite !rsum_scal. unfold Rdiv. rewrite !Rinv_mult. set (X := / rsum nv _). clearbody X. field. exact Hn. }
  split; [intros H; now apply U|intros ->; exact Z].
Qed.
Print Assumptions C66_root_unique.
(** Three cells v = -1, 0, 1: a sampled Maxwellian has one root, its own beta. *)
Definition v3 (i : nat) : R := INR i - 1.
Example C66_root_nonvacuous : forall b, beta_residual 3 v3 (fun _ => 1) false 0 2 (fun i => 5 * exp (- 1 * v3 i ^ 2)) b = 0 <-> b = 1.
Proof.
  intros b. apply (C66_root_unique 3 v3 (fun _ => 1) false 0 2 (fun i => 5 * exp (- 1 * v3 i ^ 2))) with (n := 5); try lra; try (intros; lra); try discriminate.
  - exists 0%nat, 1%nat. repeat split; try lia. unfold v3. cbn. lra.
  - intros i _. unfold target_shape. destruct (Req_EM_T 2 2); [|lra]. now rewrite Rminus_0_r.
Qed.

(** A sampled Maxwellian (centred on its own mean velocity, or on 0 for Lenard-Bernstein) is exactly stationary
    under the Chang-Cooper step once beta is a root of the residual. *)
Theorem C66_refined_maxwellian : forall nv v dv vbar beta0 beta nu dt n f_new,
  let f i := n * exp (- (beta0 * (v i - vbar) ^ 2)) in
  0 < dv -> 0 <= dt -> (forall i, (i < nv)%nat -> 0 <= nu i) -> n <> 0 -> 0 < beta0 ->
  1 / 10 ^ 30 <= 1 / (2 * beta0) ->
  (forall j, (S j < nv)%nat -> v (S j) = v j + dv) ->
  (forall j, (S j < nv)%nat -> let w := beta0 * (v (S j) - vbar) ^ 2 - beta0 * (v j - vbar) ^ 2 in w = 0 \/ 1 / 10 ^ 8 <= Rabs w) ->
  (exists i j, (i < nv)%nat /\ (j < nv)%nat /\ (v i - vbar) ^ 2 <> (v j - vbar) ^ 2) ->
  beta_residual nv v (fun _ => dv) false vbar 2 f beta = 0 ->
  (implicit_step nv (get_operator ChangCooper nv dv (beta_drift v vbar beta (thermal_D beta)) (fun _ => thermal_D beta) nu dt) f f_new
   <-> forall i, (i < nv)%nat -> f_new i = f i).
Proof.
  intros nv v dv vbar beta0 beta nu dt n f_new f Hdv Hdt Hnu Hn Hb HD Hg Hw Hne Hr.
  assert (beta = beta0) as ->.
  { apply (proj2 (proj2 (C66_root_unique nv v (fun _ => dv) false vbar 2 f ltac:(lra) ltac:(intros; lra) ltac:(discriminate) Hne)) n beta0 beta Hn); [|exact Hr].
    intros i _. unfold f, target_shape. destruct (Req_EM_T 2 2); [|lra]. do 2 f_equal. ring. }
  unfold f. cbn [get_operator]. unfold thermal_D. now apply C34_maxwellian_preserved.
Qed.
Print Assumptions C66_refined_maxwellian.

(** Without the refinement (self_consistent_beta disabled, the default) the sampled Maxwellian drifts: on the grid
    -1, 0, 1 the step with beta = 1/(2 T) moves exp(-v^2). *)
Theorem C66_unrefined_refuted : ~ forall nv v dv beta0 nu dt n f_new,
  let f i := n * exp (- (beta0 * (v i - 0) ^ 2)) in
  let beta := beta_analytic nv v (fun _ => dv) false 0 f in
  0 < dv -> 0 <= dt -> (forall i, (i < nv)%nat -> 0 <= nu i) -> n <> 0 -> 0 < beta0 ->
  (forall j, (S j < nv)%nat -> v (S j) = v j + dv) ->
  (implicit_step nv (get_operator ChangCooper nv dv (beta_drift v 0 beta (thermal_D beta)) (fun _ => thermal_D beta) nu dt) f f_new
   <-> forall i, (i < nv)%nat -> f_new i = f i).
Proof.
  intros H. set (f := fun i => 1 * exp (- (1 * (v3 i - 0) ^ 2))). set (beta := beta_analytic 3 v3 (fun _ => 1) false 0 f).
  assert (E : 5 / 2 <= exp 1 <= 3) by (split; [pose proof (exp_lower3 1 ltac:(lra)); lra|apply exp_le_3_unit; lra]).
  assert (EI : exp (-1) * exp 1 = 1) by (rewrite <- exp_plus; replace (-1 + 1) with 0 by ring; apply exp_0).
  assert (F0 : f 0%nat = exp (-1)) by (unfold f, v3; rewrite Rmult_1_l; f_equal; cbn; ring).
  assert (F1 : f 1%nat = 1) by (unfold f, v3; rewrite Rmult_1_l; replace (- (1 * (INR 1 - 1 - 0) ^ 2)) with 0 by (cbn; ring); apply exp_0).
  assert (F2 : f 2%nat = exp (-1)) by (unfold f, v3; rewrite Rmult_1_l; f_equal; cbn; ring).
  assert (B : beta = (exp 1 + 2) / 4).
  { unfold beta, beta_analytic, discrete_temperature. cbn [rsum]. rewrite F0, F1, F2. unfold v3. cbn [INR]. assert (P := exp_pos (-1)).
    replace (exp (-1)) with (/ exp 1) by (field_simplify_eq; lra). field. lra. }
  specialize (H 3%nat v3 1 1 (fun _ => 1) 1 1 f). cbv zeta in H. fold f in H. fold beta in H.
  assert (K := proj2 (H ltac:(lra) ltac:(lra) ltac:(intros; lra) ltac:(lra) ltac:(lra) ltac:(intros; unfold v3; rewrite S_INR; lra)) ltac:(reflexivity)). clear H.
  rewrite step_solves in K. specialize (K 2%nat ltac:(lia)). cbn [get_operator] in K. rewrite chang_cooper_eq, assemble_mv in K by lia.
  unfold flux_left, flux in K. cbn [Nat.ltb Nat.leb] in K. rewrite cc_alpha_eq, cc_beta_eq in K by lra.
  assert (D : thermal_D beta = 2 / (exp 1 + 2)) by (unfold thermal_D; rewrite B; field; lra).
  assert (DL : 2 / 5 <= thermal_D beta) by (rewrite D; apply (Rmult_le_reg_r (exp 1 + 2)); [lra|]; replace (2 / (exp 1 + 2) * (exp 1 + 2)) with 2 by (field; lra); lra).
  assert (S1 : safe_D (fun _ => thermal_D beta) 1 = thermal_D beta).
  { apply (safe_D_id (fun _ => thermal_D beta)). eapply Rle_trans; [|exact DL]. assert (1 <= 10 ^ 29) by (apply pow_R1_Rle; lra).
    replace (10 ^ 30) with (10 * 10 ^ 29) by (cbn; ring). apply (Rmult_le_reg_r (10 * 10 ^ 29)); [lra|]. replace (1 / (10 * 10 ^ 29) * (10 * 10 ^ 29)) with 1 by (field; lra). lra. }
  assert (W : cc_w 1 (beta_drift v3 0 beta (thermal_D beta)) (fun _ => thermal_D beta) 1 = beta).
  { unfold cc_w. rewrite S1. unfold beta_drift, v_edge, v3. cbn [INR]. field. lra. }
  rewrite S1, W in K.
  assert (SM : small beta = false) by (apply small_false; rewrite B, Rabs_pos_eq; lra).
  assert (BN : beta <> 0) by (rewrite B; lra).
  rewrite cc_full in K by exact SM. rewrite full_left, full_right in K by exact BN. rewrite F1, F2 in K.
  assert (X : exp beta * exp (-1) = 1).
  { assert (Q : 0 < beta / (exp beta - 1)) by now apply quotient_pos. unfold Rdiv in *. 
    assert (K2 : thermal_D beta * (beta * / (exp beta - 1) * (exp beta * exp (-1) - 1)) = 0) by (rewrite Rinv_1 in K; lra).
    apply Rmult_integral in K2. destruct K2 as [K2|K2]; [lra|]. apply Rmult_integral in K2. destruct K2; lra. }
  rewrite <- exp_plus in X. assert (beta + -1 = 0) by (apply exp_inv; rewrite exp_0; exact X). lra.
Qed.
Print Assumptions C66_unrefined_refuted.

(* ------------------------------------------------------------------------------------------------ *)
(** The super-Gaussian operator. The residual of compute_beta is the energy flux of the operator: the energy changed
    by an implicit step is -2 nu dt D / dv times the residual of the new distribution (with the drift of the old
    one), and the energy put in by the operator applied to f is that factor times the residual of f. *)
Definition edge_residual (nv : nat) (v : nat -> R) (vbar m beta : R) (f : nat -> R) : R :=
  rsum (nv - 1) (fun i =>
    let w := beta * (abs_pow (v (S i) - vbar) m - abs_pow (v i - vbar) m) in
    (v (S i) + v i) / 2 * (w * (chang_cooper_delta w * f i + (1 - chang_cooper_delta w) * f (S i)) + (f (S i) - f i))).
Lemma sg_residual_edge nv v m f beta : sg_residual nv v m f beta = edge_residual nv v (mean_velocity nv v f) m beta f.
Proof. unfold sg_residual, edge_residual. apply rsum_ext. intros i _. cbv zeta. unfold v_edge. f_equal. field. Qed.
Lemma sg_flux nv v dv vbar beta m D g j : 0 < dv -> 1 / 10 ^ 30 <= D -> (S j < nv)%nat ->
  let w := beta * (abs_pow (v (S j) - vbar) m - abs_pow (v j - vbar) m) in
  let C := super_gaussian_C v vbar beta m D dv in
  flux nv (cc_alpha dv C (fun _ => D)) (cc_beta dv C (fun _ => D)) g j
  = D / dv * (w * (chang_cooper_delta w * g j + (1 - chang_cooper_delta w) * g (S j)) + (g (S j) - g j)).
Proof.
  intros Hdv HD Hj w C. unfold flux. rewrite (proj2 (Nat.ltb_lt _ _) Hj). rewrite cc_alpha_eq, cc_beta_eq by exact Hdv.
  assert (S1 : safe_D (fun _ => D) j = D) by now apply (safe_D_id (fun _ => D)).
  assert (DP : 0 < D) by (rewrite <- S1; apply safe_D_pos).
  assert (W : cc_w dv C (fun _ => D) j = w) by (unfold cc_w; rewrite S1; unfold C, super_gaussian_C, super_gaussian_phi, w; field; lra).
  rewrite S1, W. ring.
Qed.
Theorem C66_super_gaussian_energy : forall nv v dv vbar beta m D nu dt f f_new, 0 < dv -> 1 / 10 ^ 30 <= D -> (0 < nv)%nat ->
  (forall i, (S i < nv)%nat -> v (S i) = v i + dv) ->
  let op := get_operator ChangCooper nv dv (super_gaussian_C v vbar beta m D dv) (fun _ => D) (fun _ => nu) dt in
  (implicit_step nv op f f_new ->
   rsum nv (fun i => v i ^ 2 * f_new i) - rsum nv (fun i => v i ^ 2 * f i) = - (2 * nu * dt * D / dv) * edge_residual nv v vbar m beta f_new) /\
  rsum nv (fun i => v i ^ 2 * (f i - mv nv op f i)) = - (2 * nu * dt * D / dv) * edge_residual nv v vbar m beta f.
Proof.
  intros nv v dv vbar beta m D nu dt f f_new Hdv HD Hn Hg op.
  assert (G : forall g, rsum (nv - 1) (fun i => flux nv (cc_alpha dv (super_gaussian_C v vbar beta m D dv) (fun _ => D)) (cc_beta dv (super_gaussian_C v vbar beta m D dv) (fun _ => D)) g i * (v (S i) ^ 2 - v i ^ 2))
              = 2 * D * edge_residual nv v vbar m beta g).
  { intros g. unfold edge_residual. rewrite <- rsum_scal. apply rsum_ext. intros i Hi. rewrite sg_flux by (try assumption; lia). cbv zeta.
    assert (E : v (S i) = v i + dv) by (apply Hg; lia).
    replace (v (S i) ^ 2 - v i ^ 2) with (dv * (v (S i) + v i)) by (rewrite E; ring). field. lra. }
  split.
  - intros H. unfold op in H. cbn [get_operator] in H. rewrite chang_cooper_eq in H. rewrite (step_moment nv dv dt nu _ _ f f_new (fun i => v i ^ 2) H), G. unfold Rdiv. ring.
  - rewrite (rsum_ext nv _ (fun i => dt * nu / dv * (v i ^ 2 * (flux nv (cc_alpha dv (super_gaussian_C v vbar beta m D dv) (fun _ => D)) (cc_beta dv (super_gaussian_C v vbar beta m D dv) (fun _ => D)) f i
       - flux_left nv (cc_alpha dv (super_gaussian_C v vbar beta m D dv) (fun _ => D)) (cc_beta dv (super_gaussian_C v vbar beta m D dv) (fun _ => D)) f i)))).
    + rewrite rsum_scal, flux_parts. destruct nv as [|n]; [lia|]. cbn [rsum]. replace (S n - 1)%nat with n in * by lia.
      assert (E0 : flux (S n) (cc_alpha dv (super_gaussian_C v vbar beta m D dv) (fun _ => D)) (cc_beta dv (super_gaussian_C v vbar beta m D dv) (fun _ => D)) f n = 0)
        by (unfold flux; now rewrite (proj2 (Nat.ltb_ge (S n) (S n))) by lia).
      rewrite E0. rewrite (rsum_ext n _ (fun i => -1 * (flux (S n) (cc_alpha dv (super_gaussian_C v vbar beta m D dv) (fun _ => D)) (cc_beta dv (super_gaussian_C v vbar beta m D dv) (fun _ => D)) f i * (v (S i) ^ 2 - v i ^ 2)))) by (intros; ring).
      rewrite rsum_scal, G. unfold Rdiv. ring.
    + intros i Hi. unfold op. cbn [get_operator]. rewrite chang_cooper_eq, assemble_mv by exact Hi. unfold Rdiv. ring.
Qed.
Print Assumptions C66_super_gaussian_energy.

(** So a root of the residual switches the energy flux of the current f off, and the sampled super-Gaussian
    (centred on its mean velocity) has its own shape parameter as a root. *)
Theorem C66_super_gaussian_root : forall nv v dv m D nu dt f beta, 0 < dv -> 1 / 10 ^ 30 <= D -> (0 < nv)%nat ->
  (forall i, (S i < nv)%nat -> v (S i) = v i + dv) ->
  let vbar := mean_velocity nv v f in
  (sg_residual nv v m f beta = 0 ->
   rsum nv (fun i => v i ^ 2 * (f i - mv nv (get_operator ChangCooper nv dv (super_gaussian_C v vbar beta m D dv) (fun _ => D) (fun _ => nu) dt) f i)) = 0) /\
  (forall n, (forall i, (i < nv)%nat -> f i = n * exp (- (beta * abs_pow (v i - vbar) m))) ->
   (forall j, (S j < nv)%nat -> let w := beta * abs_pow (v (S j) - vbar) m - beta * abs_pow (v j - vbar) m in w = 0 \/ 1 / 10 ^ 8 <= Rabs w) ->
   sg_residual nv v m f beta = 0).
Proof.
  intros nv v dv m D nu dt f beta Hdv HD Hn Hg vbar. split.
  - intros H. rewrite (proj2 (C66_super_gaussian_energy nv v dv vbar beta m D nu dt f f Hdv HD Hn Hg)). rewrite sg_residual_edge in H. fold vbar in H. rewrite H. ring.
  - intros n Hf Hw. rewrite sg_residual_edge. fold vbar. unfold edge_residual. rewrite <- (rsum_zero (nv - 1)). apply rsum_ext. intros i Hi. cbv zeta.
    rewrite !Hf by lia. specialize (Hw i ltac:(lia)). cbv zeta in Hw. replace (1 / 10 ^ 8) with (1 / 100000000) in Hw by (simpl; field).
    set (w := beta * (abs_pow (v (S i) - vbar) m - abs_pow (v i - vbar) m)).
    replace (beta * abs_pow (v (S i) - vbar) m - beta * abs_pow (v i - vbar) m) with w in Hw by (unfold w; ring).
    pose proof (cc_equilibrium_flux w n (beta * abs_pow (v i - vbar) m) Hw) as E.
    replace (beta * abs_pow (v i - vbar) m + w) with (beta * abs_pow (v (S i) - vbar) m) in E by (unfold w; ring).
    match goal with |- ?a * ?b = 0 => assert (b = 0) as -> end; [|ring]. rewrite <- E. ring.
Qed.
Print Assumptions C66_super_gaussian_root.

(** The continuum closure: it does not depend on the density, and for m = 2 it is 1 / (2 T). *)
Theorem C66_closure : forall nv v dv m f, 0 < dv -> rsum nv f <> 0 ->
  (forall c, c <> 0 -> sg_beta_init nv v m (fun i => c * f i) = sg_beta_init nv v m f) /\
  sg_beta_init nv v 2 f = beta_analytic nv v (fun _ => dv) false (mean_velocity nv v f) f.
Proof.
  intros nv v dv m f Hd Hf.
  assert (MV : forall c, c <> 0 -> mean_velocity nv v (fun i => c * f i) = mean_velocity nv v f).
  { intros c Hc. unfold mean_velocity. rewrite (rsum_ext nv (fun i => c * f i * v i) (fun i => c * (f i * v i))) by (intros; ring). rewrite !rsum_scal. field. split; assumption. }
  split.
  - intros c Hc. unfold sg_beta_init. rewrite MV by exact Hc. cbv zeta. rewrite (rsum_ext nv (fun i => c * f i * _) (fun i => c * (f i * abs_pow (v i - mean_velocity nv v f) m))) by (intros; ring).
    rewrite !rsum_scal. unfold Rdiv. rewrite !Rinv_mult. set (X := / rsum nv _). set (Y := / m). clearbody X Y. field. exact Hc.
  - unfold sg_beta_init, beta_analytic, discrete_temperature. cbv zeta. rewrite !rsum_scal_r.
    rewrite (rsum_ext nv (fun i => f i * abs_pow (v i - mean_velocity nv v f) 2) (fun i => f i * (v i - mean_velocity nv v f) ^ 2)).
    + set (X := rsum nv (fun i => f i * (v i - mean_velocity nv v f) ^ 2)). unfold Rdiv. rewrite !Rinv_mult, Rinv_inv. set (Y := / X). clearbody Y. field. lra.
    + intros i _. f_equal. unfold abs_pow. destruct (Req_EM_T (v i - mean_velocity nv v f) 0) as [->|Hz]; [ring|].
      replace 2 with (INR 2) by (cbn; ring). rewrite Rpower_pow by now apply Rabs_pos_lt. apply pow2_abs.
Qed.
Print Assumptions C66_closure.

(** The hypotheses are met by the grid -1, 0, 1 with exp(-v^2) and with exp(-|v|^3). *)
Lemma inv_pow_small k : 1 / 10 ^ S k <= 1 / 2.
Proof.
  assert (1 <= 10 ^ k) by (apply pow_R1_Rle; lra). cbn [pow]. apply (Rmult_le_reg_r (10 * 10 ^ k)); [lra|]. replace (1 / (10 * 10 ^ k) * (10 * 10 ^ k)) with 1 by (field; lra). lra.
Qed.
Lemma v3_sq i : (i < 3)%nat -> v3 i = -1 \/ v3 i = 0 \/ v3 i = 1.
Proof. intros H. destruct i as [|[|[|i]]]; [left|right; left|right; right|lia]; unfold v3; cbn; lra. Qed.
Example C66_refined_nonvacuous : forall f_new,
  implicit_step 3 (get_operator ChangCooper 3 1 (beta_drift v3 0 1 (thermal_D 1)) (fun _ => thermal_D 1) (fun _ => 1) 1) (fun i => 1 * exp (- (1 * (v3 i - 0) ^ 2))) f_new
   <-> forall i, (i < 3)%nat -> f_new i = 1 * exp (- (1 * (v3 i - 0) ^ 2)).
Proof.
  intros f_new. apply (C66_refined_maxwellian 3 v3 1 0 1 1 (fun _ => 1) 1 1 f_new); try lra; try (intros; lra).
  - intros j _. unfold v3. rewrite S_INR. lra.
  - intros j Hj. right. eapply Rle_trans; [apply (inv_pow_small 7)|]. assert (j = 0 \/ j = 1)%nat as [-> | ->] by lia; unfold v3; cbn [INR].
    + replace (1 * (1 - 1 - 0) ^ 2 - 1 * (0 - 1 - 0) ^ 2) with (-1) by ring. rewrite Rabs_left; lra.
    + replace (1 * (1 + 1 - 1 - 0) ^ 2 - 1 * (1 - 1 - 0) ^ 2) with 1 by ring. rewrite Rabs_right; lra.
  - exists 0%nat, 1%nat. repeat split; try lia. unfold v3. cbn. lra.
  - apply (proj2 (proj2 (C66_root_unique 3 v3 (fun _ => 1) false 0 2 (fun i => 1 * exp (- (1 * (v3 i - 0) ^ 2))) ltac:(lra) ltac:(intros; lra) ltac:(discriminate)
       ltac:(exists 0%nat, 1%nat; repeat split; try lia; unfold v3; cbn; lra))) 1 1 1 ltac:(lra)); [|reflexivity].
    intros i _. unfold target_shape. destruct (Req_EM_T 2 2); [|lra]. do 2 f_equal. ring.
Qed.
Example C66_root_sg_nonvacuous : sg_residual 3 v3 3 (fun i => 2 * exp (- (1 * abs_pow (v3 i) 3))) 1 = 0.
Proof.
  assert (A1 : forall x, Rabs x = 1 -> abs_pow x 3 = 1).
  { intros x Hx. unfold abs_pow. destruct (Req_EM_T x 0) as [->|]; [rewrite Rabs_R0 in Hx; lra|]. rewrite Hx. unfold Rpower. rewrite ln_1, Rmult_0_r. apply exp_0. }
  assert (A0 : abs_pow 0 3 = 0) by (unfold abs_pow; destruct (Req_EM_T 0 0); [reflexivity|lra]).
  assert (Am : abs_pow (-1) 3 = 1) by (apply A1; rewrite Rabs_left; lra). assert (Ap : abs_pow 1 3 = 1) by (apply A1; rewrite Rabs_right; lra).
  assert (M : mean_velocity 3 v3 (fun i => 2 * exp (- (1 * abs_pow (v3 i) 3))) = 0).
  { unfold mean_velocity. cbn [rsum]. unfold v3. cbn [INR]. replace (0 - 1) with (-1) by ring. replace (1 - 1) with 0 by ring. replace (1 + 1 - 1) with 1 by ring. rewrite Am, Ap. unfold Rdiv. ring. }
  apply (proj2 (C66_super_gaussian_root 3 v3 1 3 1 1 1 (fun i => 2 * exp (- (1 * abs_pow (v3 i) 3))) 1 ltac:(lra) (Rle_trans (1 / 10 ^ 30) (1 / 2) 1 (inv_pow_small 29) ltac:(lra)) ltac:(lia)
    ltac:(intros; unfold v3; rewrite S_INR; lra)) 2).
  - intros i _. rewrite M, Rminus_0_r. reflexivity.
  - intros j Hj. cbv zeta. rewrite M, !Rminus_0_r. right. eapply Rle_trans; [apply (inv_pow_small 7)|].
    assert (j = 0 \/ j = 1)%nat as [-> | ->] by lia; unfold v3; cbn [INR]; replace (0 - 1) with (-1) by ring; replace (1 - 1) with 0 by ring; replace (1 + 1 - 1) with 1 by ring; rewrite ?Am, ?Ap, ?A0.
    + rewrite Rabs_left; lra.
    + rewrite Rabs_right; lra.
Qed.
