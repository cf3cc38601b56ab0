(** C93: the electric force of the Hermite-Legendre solver. *)
From Coq Require Import Reals Lra Lia ZArith List Bool Psatz.
From Verif Require Import HermitePoisson HPProps HPForceProps Legendre GaussInt HermLeg HLBasis HermLegProps RSum Pic PicProofs PicFourier Dft.
Local Open Scope R_scope.

(* ------------------------------------------------------------------------------------------------ *)
(** * Specification *)
(** X is the implicit-midpoint (Cayley) update of B for dx/dt = (2 s / dt) G x: X - B = s G (X + B). *)
Definition midpoint (N : nat) (G : nat -> nat -> R) (s : R) (B X : nat -> R) : Prop :=
  forall n, (n < N)%nat -> X n - B n = s * rsum N (fun m => G n m * (X m + B m)).
Definition skew (N : nat) (G : nat -> nat -> R) : Prop := forall n m, (n < N)%nat -> (m < N)%nat -> G n m = - G m n.
Definition norm2 (N : nat) (x : nat -> R) : R := rsum N (fun n => x n * x n).
Definition cnorm2 (N : nat) (x : nat -> cplx) : R := rsum N (fun n => cabs2 (x n)).
(** The values of df at the ends of the window. *)
Definition end_b (N : nat) (B : nat -> R) : R := rsum N (fun i => lxi_b i * B i).
Definition end_a (N : nat) (B : nat -> R) : R := rsum N (fun i => lxi_a i * B i).

Lemma end_values va vb N B : va < vb -> end_b N B = df va vb N B vb /\ end_a N B = df va vb N B va.
Proof.
  intros H. unfold end_b, end_a, df. split; apply rsum_ext; intros i Hi; destruct (C92_legendre_functions va vb i i (S (S i)) 0 H ltac:(lia)) as (_ & _ & _ & A & B' & _); rewrite ?A, ?B'; ring.
Qed.

(* ------------------------------------------------------------------------------------------------ *)
(** * Linear algebra *)
Lemma mvr_lin N G x y a b n : mvr N G (fun i => a * x i + b * y i) n = a * mvr N G x n + b * mvr N G y n.
Proof. unfold mvr. rewrite <- !rsum_scal, <- rsum_plus. apply rsum_ext. intros; ring. Qed.
Lemma mvr_ext N G x y n : (forall i, (i < N)%nat -> x i = y i) -> mvr N G x n = mvr N G y n.
Proof. intros H. apply rsum_ext. intros i Hi. now rewrite H. Qed.
Lemma midpoint_iff N G s B X : midpoint N G s B X <-> forall n, (n < N)%nat -> X n - s * mvr N G X n = B n + s * mvr N G B n.
Proof.
  unfold midpoint. split; intros H n Hn; specialize (H n Hn).
  - assert (E : rsum N (fun m => G n m * (X m + B m)) = mvr N G X n + mvr N G B n) by (unfold mvr; rewrite <- rsum_plus; apply rsum_ext; intros; ring). rewrite E in H. lra.
  - assert (E : rsum N (fun m => G n m * (X m + B m)) = mvr N G X n + mvr N G B n) by (unfold mvr; rewrite <- rsum_plus; apply rsum_ext; intros; ring). rewrite E. lra.
Qed.
Lemma skew_form N G x : skew N G -> rsum N (fun n => x n * mvr N G x n) = 0.
Proof.
  intros H. assert (E : rsum N (fun n => x n * mvr N G x n) = - rsum N (fun n => x n * mvr N G x n)); [|lra].
  unfold mvr. rewrite (rsum_ext N (fun n => x n * rsum N (fun m => G n m * x m)) (fun n => rsum N (fun m => x n * (G n m * x m)))) by (intros; now rewrite rsum_scal).
  rewrite rsum_swap at 1. replace (- rsum N (fun n => rsum N (fun m => x n * (G n m * x m)))) with (-1 * rsum N (fun n => rsum N (fun m => x n * (G n m * x m)))) by ring.
  rewrite <- rsum_scal. apply rsum_ext. intros n Hn. rewrite <- rsum_scal. apply rsum_ext. intros m Hm. rewrite (H m n Hm Hn). ring.
Qed.
Lemma midpoint_norm N G s B X : skew N G -> midpoint N G s B X -> norm2 N X = norm2 N B.
Proof.
  intros Sk H. pose proof (skew_form N G (fun i => X i + B i) Sk) as Z. cbv beta in Z.
  assert (E : rsum N (fun n => (X n + B n) * (X n - B n)) = s * rsum N (fun n => (X n + B n) * mvr N G (fun i => X i + B i) n)).
  { rewrite <- rsum_scal. apply rsum_ext. intros n Hn. rewrite (H n Hn). unfold mvr. ring. }
  rewrite Z, Rmult_0_r in E. unfold norm2.
  rewrite (rsum_ext N _ (fun n => X n * X n - B n * B n)) in E by (intros; ring). rewrite rsum_minus in E. lra.
Qed.
Lemma skew_injective N G s x : skew N G -> (forall n, (n < N)%nat -> x n - s * mvr N G x n = 0) -> forall n, (n < N)%nat -> x n = 0.
Proof.
  intros Sk H n Hn. pose proof (skew_form N G x Sk) as Z.
  assert (E : rsum N (fun n => x n * x n) = s * rsum N (fun n => x n * mvr N G x n)).
  { rewrite <- rsum_scal. apply rsum_ext. intros k Hk. pose proof (H k Hk). replace (x k) with (s * mvr N G x k) at 2 by lra. ring. }
  rewrite Z, Rmult_0_r in E. assert (Q : x n * x n = 0) by (apply (rsum_nonneg_zero N (fun n => x n * x n)); [intros; nra|exact E|exact Hn]). nra.
Qed.

(** Forward substitution. *)
Lemma fsubs_stable A rhs N k i : (i < k <= N)%nat -> fsubs A rhs N i = fsubs A rhs k i.
Proof.
  intros [H1 H2]. induction H2 as [|N H2 IH]; [reflexivity|]. rewrite <- IH. cbn [fsubs]. destruct (Nat.eqb_spec i N); [lia|reflexivity].
Qed.
Lemma fsubs_eq A rhs N i : (i < N)%nat -> fsubs A rhs N i = rhs i - rsum i (fun j => A i j * fsubs A rhs N j).
Proof.
  intros H. rewrite (fsubs_stable A rhs N (S i) i) by lia. cbn [fsubs]. rewrite Nat.eqb_refl. f_equal. apply rsum_ext. intros j Hj.
  rewrite (fsubs_stable A rhs N i j) by lia. reflexivity.
Qed.
Lemma rsum_lower N i (f : nat -> R) : (i <= N)%nat -> (forall j, (i <= j < N)%nat -> f j = 0) -> rsum N f = rsum i f.
Proof. intros H Z. induction H as [|N H IH]; [reflexivity|]. cbn [rsum]. rewrite IH by (intros j Hj; apply Z; lia). rewrite (Z N) by lia. ring. Qed.
Lemma fsubs_solves A rhs N : (forall i j, (i <= j)%nat -> A i j = 0) -> forall i, (i < N)%nat -> fsubs A rhs N i + rsum N (fun j => A i j * fsubs A rhs N j) = rhs i.
Proof. intros L i Hi. rewrite (rsum_lower N i) by (first [lia | intros j Hj; rewrite L by lia; ring]). rewrite (fsubs_eq A rhs N i Hi) at 1. ring. Qed.
Lemma fsubs_unique A rhs N X : (forall i j, (i <= j)%nat -> A i j = 0) -> (forall i, (i < N)%nat -> X i + rsum N (fun j => A i j * X j) = rhs i) ->
  forall i, (i < N)%nat -> X i = fsubs A rhs N i.
Proof.
  intros L H i. induction i as [i IH] using (well_founded_induction lt_wf). intros Hi. rewrite (fsubs_eq A rhs N i Hi). specialize (H i Hi).
  rewrite (rsum_lower N i) in H by (first [lia | intros j Hj; rewrite L by lia; ring]).
  rewrite (rsum_ext i _ (fun j => A i j * fsubs A rhs N j)) in H; [lra|]. intros j Hj. rewrite IH by lia. reflexivity.
Qed.
Lemma lderiv_lower va vb i j : (i <= j)%nat -> lderiv va vb i j = 0.
Proof. intros H. unfold lderiv. rewrite (proj2 (Nat.ltb_ge j i) H). reflexivity. Qed.

(* ------------------------------------------------------------------------------------------------ *)
(** * Theorems *)

(** The explicit force terms are E(x) G_C C(x) and E(x) G_B B(x), the operators of the implicit integrators, applied to the
    dealiased fields. *)
Lemma G_C_row Nh alpha (x : nat -> cplx) n : (n < Nh)%nat -> csum Nh (fun j => cscal (G_C alpha n j) (x j)) = match n with O => c0 | S k => cscal (- sq2n alpha n) (x k) end.
Proof.
  intros H. destruct n as [|k].
  - rewrite (csum_ext Nh _ (fun _ => c0)); [apply csum_zero|]. intros i _. unfold G_C. cbn [Nat.eqb]. apply cscal_0.
  - rewrite (csum_single Nh k); [|lia|].
    + unfold G_C. rewrite Nat.eqb_refl. f_equal. unfold sq2n, Rdiv. ring.
    + intros i _ Ni. unfold G_C. destruct (Nat.eqb_spec (S k) (S i)); [lia|apply cscal_0].
Qed.
Theorem C93_forces : forall Nh Nl nx m alpha va vb gam C B E n k, (n < Nh)%nat ->
  let E' := masked_force nx m E in let real := fun X => finv nx (masked m X) in
  hermite_force nx m alpha C E n k = masked m (ffwd nx (fun g => cscal (E' g) (csum Nh (fun j => cscal (G_C alpha n j) (real (C j) g))))) k /\
  legendre_force Nl nx m va vb gam B E n k = masked m (ffwd nx (fun g => cscal (E' g) (csum Nl (fun j => cscal (G_B va vb gam n j) (real (B j) g))))) k.
Proof.
  intros Nh Nl nx m alpha va vb gam C B E n k Hn E' real. split.
  - unfold hermite_force. apply masked_ext. apply ffwd_ext. intros g Hg. rewrite (G_C_row Nh alpha (fun j => real (C j) g) n Hn). fold E'.
    destruct n as [|j]; cbn [shift_up]; [rewrite !cscal_c0; reflexivity|]. rewrite cscal_cscal. f_equal. ring.
  - unfold legendre_force. cbv zeta. apply masked_ext. apply ffwd_ext. intros g Hg. fold E'.
    rewrite (csum_ext Nl (fun j => cscal (G_B va vb gam n j) (real (B j) g)) (fun j => cadd (cscal (gam n / (vb - va)) (cadd (cscal (lxi_b n) (cscal (lxi_b j) (real (B j) g))) (cscal (- lxi_a n) (cscal (lxi_a j) (real (B j) g))))) (cscal (-1) (cscal (lderiv va vb n j) (real (B j) g))))).
    2:{ intros j _. unfold G_B. creal. }
    rewrite csum_add, !csum_scal, csum_add, !csum_scal.
    unfold real. generalize (csum Nl (fun k => cscal (lxi_b k) (finv nx (masked m (B k)) g))). generalize (csum Nl (fun k => cscal (lxi_a k) (finv nx (masked m (B k)) g))). generalize (csum Nl (fun k => cscal (lderiv va vb n k) (finv nx (masked m (B k)) g))).
    intros [a1 a2] [b1 b2] [d1 d2]. unfold csub, cscal, cneg, cadd. cbn [fst snd]. f_equal; ring.
Qed.
Print Assumptions C93_forces.

(** The force does the work of -E on the particles at every position: with the gated penalty (gamma_0..2 = 0) it adds no
    density, -E n momentum and -E n u energy per unit time. *)
Lemma lderiv_10 va vb : lderiv va vb 1 0 = 2 * sqrt 3 / (vb - va).
Proof. unfold lderiv. change (INR 1) with 1. change (INR 0) with 0. replace ((2 * 1 + 1) * (2 * 0 + 1)) with 3 by ring. reflexivity. Qed.
Lemma lderiv_21 va vb : lderiv va vb 2 1 = 2 * sqrt 15 / (vb - va).
Proof. unfold lderiv. change (INR 2) with (1 + 1). change (INR 1) with 1. replace ((2 * (1 + 1) + 1) * (2 * 1 + 1)) with 15 by ring. reflexivity. Qed.
Lemma lderiv_20 va vb : lderiv va vb 2 0 = 0. Proof. reflexivity. Qed.
Lemma lsigma_1 va vb : lsigma va vb 1 = (vb - va) / 2 / sqrt 3.
Proof. unfold lsigma. cbn [Nat.eqb]. change (INR 1) with 1. replace ((2 * 1 + 1) * (2 * 1 - 1)) with 3 by ring. unfold Rdiv. ring. Qed.
Lemma lsigma_2 va vb : lsigma va vb 2 = (vb - va) / sqrt 15.
Proof. unfold lsigma. cbn [Nat.eqb]. change (INR 2) with (1 + 1). replace ((2 * (1 + 1) + 1) * (2 * (1 + 1) - 1)) with 15 by ring. unfold Rdiv. field. apply Rgt_not_eq, sqrt_lt_R0. lra. Qed.
Lemma mvr_GB va vb gam N x n : mvr N (G_B va vb gam) x n = gam n / (vb - va) * (lxi_b n * end_b N x - lxi_a n * end_a N x) - rsum N (fun i => lderiv va vb n i * x i).
Proof.
  unfold mvr, G_B, end_b, end_a. rewrite <- !rsum_scal, <- rsum_minus, <- rsum_scal, <- rsum_minus. apply rsum_ext. intros; ring.
Qed.
Lemma mvr_GC alpha N x n : (n < N)%nat -> mvr N (G_C alpha) x n = match n with O => 0 | S k => - sq2n alpha n * x k end.
Proof.
  intros H. unfold mvr. destruct n as [|k].
  - apply rsum_zero_ext. intros i _. unfold G_C. cbn [Nat.eqb]. ring.
  - rewrite (rsum_single N k); [|lia|].
    + unfold G_C. rewrite Nat.eqb_refl. unfold sq2n, Rdiv. ring.
    + intros i _ Ni. unfold G_C. destruct (Nat.eqb_spec (S k) (S i)); [lia|ring].
Qed.
Lemma lderiv_rows va vb N x : (3 <= N)%nat -> rsum N (fun i => lderiv va vb 0 i * x i) = 0 /\
  rsum N (fun i => lderiv va vb 1 i * x i) = 2 * sqrt 3 / (vb - va) * x 0%nat /\ rsum N (fun i => lderiv va vb 2 i * x i) = 2 * sqrt 15 / (vb - va) * x 1%nat.
Proof.
  intros H. split; [|split].
  - apply rsum_zero_ext. intros i _. rewrite lderiv_lower by lia. ring.
  - rewrite (rsum_lower N 1) by (first [lia | intros j Hj; rewrite lderiv_lower by lia; ring]). cbn [rsum]. rewrite lderiv_10. ring.
  - rewrite (rsum_lower N 2) by (first [lia | intros j Hj; rewrite lderiv_lower by lia; ring]). cbn [rsum]. rewrite lderiv_21, lderiv_20. ring.
Qed.
Definition force_rates (alpha va vb : R) (gam : nat -> R) (Nh Nl : nat) (E u : R) (C B : nat -> R) : nat -> R :=
  moments (moment_matrix alpha u (lT va vb) (vb - va)) (fun n => E * mvr Nh (G_C alpha) C n) (fun m => E * mvr Nl (G_B va vb gam) B m).
Theorem C93_work : forall alpha u va vb gam Nh Nl C B E, 0 < alpha -> va < vb -> (3 <= Nh)%nat -> (3 <= Nl)%nat ->
  (forall m, (m < 3)%nat -> gam m = 0) ->
  let M := moment_matrix alpha u (lT va vb) (vb - va) in
  force_rates alpha va vb gam Nh Nl E u C B 0 = 0 /\
  force_rates alpha va vb gam Nh Nl E u C B 1 = - E * moments M C B 0 /\
  force_rates alpha va vb gam Nh Nl E u C B 2 = - E * moments M C B 1.
Proof.
  intros alpha u va vb gam Nh Nl C B E Ha Hv HNh HNl Hg M. destruct (lderiv_rows va vb Nl B HNl) as (D0 & D1 & D2). destruct (lT_entries va vb) as (E00 & E01 & E10 & E12 & _).
  assert (R0 : mvr Nl (G_B va vb gam) B 0 = 0) by (rewrite mvr_GB, D0, (Hg 0%nat) by lia; unfold Rdiv; ring).
  assert (R1 : mvr Nl (G_B va vb gam) B 1 = - (2 * sqrt 3 / (vb - va) * B 0%nat)) by (rewrite mvr_GB, D1, (Hg 1%nat) by lia; unfold Rdiv; ring).
  assert (R2 : mvr Nl (G_B va vb gam) B 2 = - (2 * sqrt 15 / (vb - va) * B 1%nat)) by (rewrite mvr_GB, D2, (Hg 2%nat) by lia; unfold Rdiv; ring).
  assert (Q1 : sq2n alpha 1 = sqrt 2 / alpha) by (unfold sq2n; change (INR 1) with 1; now rewrite Rmult_1_r).
  assert (Q2 : sq2n alpha 2 = 2 / alpha). { unfold sq2n. change (INR 2) with (1 + 1). replace (2 * (1 + 1)) with (2 * 2) by ring. rewrite sqrt_square by lra. reflexivity. }
  assert (P2 : 0 < sqrt 2) by (apply sqrt_lt_R0; lra). assert (P3 : 0 < sqrt 3) by (apply sqrt_lt_R0; lra). assert (P15 : 0 < sqrt 15) by (apply sqrt_lt_R0; lra).
  unfold force_rates, moments, low6, M, moment_matrix. cbn [rsum nth Nat.ltb Nat.leb Nat.sub]. rewrite E00, E01, E12, R0, R1, R2, !mvr_GC, Q1, Q2, lsigma_1, lsigma_2 by lia.
  split; [ring|]. split; field; lra.
Qed.
Print Assumptions C93_work.
(** With the penalty on every mode the window leaks: density changes by gamma E (df(vb) - df(va)) per unit time. *)
Theorem C93_penalty_leak : forall alpha u va vb gamma Nh Nl C B E, va < vb -> (3 <= Nh)%nat -> (3 <= Nl)%nat ->
  force_rates alpha va vb (fun _ => gamma) Nh Nl E u C B 0 = gamma * E * (df va vb Nl B vb - df va vb Nl B va).
Proof.
  intros alpha u va vb gamma Nh Nl C B E Hv HNh HNl. destruct (lderiv_rows va vb Nl B HNl) as (D0 & _). destruct (end_values va vb Nl B Hv) as [Eb Ea].
  unfold force_rates, moments, low6, moment_matrix. cbn [rsum nth Nat.ltb Nat.leb Nat.sub]. rewrite mvr_GC by lia. rewrite (mvr_GB va vb _ Nl B 0), D0, Eb, Ea.
  unfold lxi_b, lxi_a. change (INR 0) with 0. replace (2 * 0 + 1) with 1 by ring. rewrite sqrt_1. cbn [pow]. field. lra.
Qed.
Print Assumptions C93_penalty_leak.

(** gamma = 1/2 on every mode makes the Legendre force operator skew-symmetric. For any other constant gamma the force changes
    sum B_m^2 at the rate E (2 gamma - 1) (df(vb)^2 - df(va)^2) / width. *)
Lemma pow_m1_sum m j : (- 1) ^ m * (- 1) ^ j = (- 1) ^ (m + j). Proof. now rewrite pow_add. Qed.
Lemma pow_m1_parity k : (- 1) ^ k = if (k mod 2 =? 1)%nat then - 1 else 1.
Proof.
  pose proof (Nat.div_mod k 2 ltac:(lia)) as E. pose proof (Nat.mod_upper_bound k 2 ltac:(lia)) as L. rewrite E at 1. rewrite pow_add, pow_mult. replace ((- 1) ^ 2) with 1 by ring. rewrite pow1.
  destruct (k mod 2)%nat as [|[|r]]; [cbn; ring|cbn; ring|lia].
Qed.
Lemma lderiv_sym va vb m j : lderiv va vb m j + lderiv va vb j m = / (vb - va) * (lxi_b m * lxi_b j - lxi_a m * lxi_a j).
Proof.
  assert (X : lxi_b m * lxi_b j - lxi_a m * lxi_a j = sqrt ((2 * INR m + 1) * (2 * INR j + 1)) * (1 - (- 1) ^ (m + j))).
  { unfold lxi_b, lxi_a. rewrite <- pow_m1_sum, sqrt_mult by (pose proof (pos_INR m); pose proof (pos_INR j); lra). ring. }
  rewrite X, pow_m1_parity. unfold lderiv. destruct (Nat.lt_trichotomy m j) as [L|[->|L]].
  - rewrite (proj2 (Nat.ltb_ge j m)) by lia. rewrite (proj2 (Nat.ltb_lt m j)) by lia. cbn [andb]. replace (m + j)%nat with ((j - m) + m * 2)%nat by lia. rewrite Nat.mod_add by lia.
    rewrite (Rmult_comm (2 * INR j + 1)). destruct ((j - m) mod 2 =? 1)%nat; unfold Rdiv; ring.
  - rewrite Nat.ltb_irrefl. cbn [andb]. replace (j + j)%nat with (0 + j * 2)%nat by lia. rewrite Nat.mod_add by lia. cbn [Nat.modulo Nat.divmod fst snd Nat.sub Nat.eqb]. ring.
  - rewrite (proj2 (Nat.ltb_lt j m)) by lia. rewrite (proj2 (Nat.ltb_ge m j)) by lia. cbn [andb]. replace (m + j)%nat with ((m - j) + j * 2)%nat by lia. rewrite Nat.mod_add by lia.
    destruct ((m - j) mod 2 =? 1)%nat; unfold Rdiv; ring.
Qed.
Theorem C93_skew : forall va vb gamma Nl,
  skew Nl (G_B va vb (fun _ => 1 / 2)) /\
  (forall B, 2 * rsum Nl (fun m => B m * mvr Nl (G_B va vb (fun _ => gamma)) B m) = (2 * gamma - 1) / (vb - va) * (end_b Nl B ^ 2 - end_a Nl B ^ 2)).
Proof.
  intros va vb gamma Nl.
  assert (S1 : skew Nl (G_B va vb (fun _ => 1 / 2))). { intros n m _ _. unfold G_B. pose proof (lderiv_sym va vb n m). unfold Rdiv in *. lra. }
  split; [exact S1|]. intros B. pose proof (skew_form Nl _ B S1) as Z.
  assert (P : rsum Nl (fun m => B m * mvr Nl (G_B va vb (fun _ => gamma)) B m) = rsum Nl (fun m => B m * mvr Nl (G_B va vb (fun _ => 1 / 2)) B m) + (gamma - 1 / 2) / (vb - va) * (end_b Nl B * end_b Nl B - end_a Nl B * end_a Nl B)).
  { rewrite (rsum_ext Nl _ (fun m => B m * mvr Nl (G_B va vb (fun _ => 1 / 2)) B m + ((gamma - 1 / 2) / (vb - va) * end_b Nl B * (lxi_b m * B m) - (gamma - 1 / 2) / (vb - va) * end_a Nl B * (lxi_a m * B m)))).
    - rewrite rsum_plus, rsum_minus, !rsum_scal. fold (end_b Nl B). fold (end_a Nl B). ring.
    - intros m _. rewrite !mvr_GB. unfold Rdiv. ring. }
  rewrite P, Z. unfold Rdiv. generalize (/ (vb - va)). intros w. field.
Qed.
Print Assumptions C93_skew.

(** hermite_cayley_update is the implicit midpoint rule for G_C: its output is the only solution; C_0 is unchanged and the
    update with the opposite field undoes it. *)
Theorem C93_hermite_midpoint : forall alpha Nh s C X, midpoint Nh (G_C alpha) s C X <-> (forall n, (n < Nh)%nat -> X n = hcayley alpha s C n).
Proof.
  intros alpha Nh s C X. split.
  - intros H n. induction n as [|n IH]; intros Hn; pose proof (proj1 (midpoint_iff _ _ _ _ _) H _ Hn) as E; rewrite !mvr_GC in E by exact Hn; cbn [hcayley].
    + lra.
    + rewrite IH in E by lia. lra.
  - intros H. apply midpoint_iff. intros n Hn. rewrite !mvr_GC by exact Hn. destruct n as [|n]; rewrite (H _ Hn); cbn [hcayley]; [ring|]. rewrite (H n) by lia. ring.
Qed.
Print Assumptions C93_hermite_midpoint.
Theorem C93_hermite_reversible : forall alpha s C n, hcayley alpha (- s) (hcayley alpha s C) n = C n.
Proof.
  intros alpha s C n. symmetry. apply (proj1 (C93_hermite_midpoint alpha (S n) (- s) (hcayley alpha s C) C)); [|lia].
  pose proof (proj2 (C93_hermite_midpoint alpha (S n) s C (hcayley alpha s C)) (fun _ _ => eq_refl)) as H. intros k Hk. specialize (H k Hk).
  rewrite (rsum_ext (S n) _ (fun m => G_C alpha k m * (hcayley alpha s C m + C m))) by (intros; ring). lra.
Qed.
Print Assumptions C93_hermite_reversible.

(** The Woodbury path. *)
Section Wood.
Variables (N : nat) (va vb : R) (gam : nat -> R) (s : R).
Let A := fun m j => s * lderiv va vb m j.
Let fs := wood_solve N va vb s.
Let L (r : nat) (X : nat -> R) : R := rsum N (fun i => wood_V r i * X i).
Let M := wood_small N va vb gam s.
Let U := wood_U va vb gam s.
Let W (j : nat) : nat -> R := fs (U j).
Lemma A_lower i j : (i <= j)%nat -> A i j = 0. Proof. intros H. unfold A. rewrite lderiv_lower by exact H. ring. Qed.
Lemma fs_solves rhs i : (i < N)%nat -> fs rhs i + rsum N (fun j => A i j * fs rhs j) = rhs i.
Proof. apply (fsubs_solves A rhs N A_lower). Qed.
Lemma L_lin X Y a b r : L r (fun i => a * X i + b * Y i) = a * L r X + b * L r Y.
Proof. unfold L. rewrite <- !rsum_scal, <- rsum_plus. apply rsum_ext. intros; ring. Qed.
Lemma L_ext X Y r : (forall i, (i < N)%nat -> X i = Y i) -> L r X = L r Y.
Proof. intros H. apply rsum_ext. intros i Hi. now rewrite H. Qed.
Lemma L_W r j : (r < 2)%nat -> L r (W j) = M r j - (if (r =? j)%nat then 1 else 0).
Proof. intros _. unfold M, wood_small, L, W, fs, U. ring. Qed.
Lemma L_end X : L 0 X = end_b N X /\ L 1 X = end_a N X. Proof. split; reflexivity. Qed.
Lemma factor X n : (n < N)%nat -> X n - s * mvr N (G_B va vb gam) X n = X n + rsum N (fun j => A n j * X j) + U 0 n * L 0 X + U 1 n * L 1 X.
Proof.
  intros Hn. rewrite mvr_GB. destruct (L_end X) as [-> ->]. unfold U, wood_U, A. cbn [Nat.eqb].
  rewrite (rsum_ext N (fun j => s * lderiv va vb n j * X j) (fun j => s * (lderiv va vb n j * X j))) by (intros; ring). rewrite rsum_scal. ring.
Qed.
(** (A + U V^T) X = rhs iff X = A^-1 rhs - W (V^T X). *)
Lemma wood_split rhs X : (forall n, (n < N)%nat -> X n - s * mvr N (G_B va vb gam) X n = rhs n) <->
  (forall n, (n < N)%nat -> X n = fs rhs n - (W 0 n * L 0 X + W 1 n * L 1 X)).
Proof.
  assert (AW : forall y0 y1 n, (n < N)%nat -> (fun i => fs rhs i - (W 0 i * y0 + W 1 i * y1)) n + rsum N (fun j => A n j * (fs rhs j - (W 0 j * y0 + W 1 j * y1))) = rhs n - (U 0 n * y0 + U 1 n * y1)).
  { intros y0 y1 n Hn. cbv beta. rewrite (rsum_ext N _ (fun j => A n j * fs rhs j - (y0 * (A n j * W 0 j) + y1 * (A n j * W 1 j)))) by (intros; ring).
    rewrite rsum_minus, rsum_plus, !rsum_scal. pose proof (fs_solves rhs n Hn). pose proof (fs_solves (U 0) n Hn) as E0. pose proof (fs_solves (U 1) n Hn) as E1. fold (W 0) in E0. fold (W 1) in E1.
    rewrite <- E0, <- E1. lra. }
  split; intros H.
  - pose (Y := fun i => fs rhs i - (W 0 i * L 0 X + W 1 i * L 1 X)). intros n Hn. change (X n = Y n).
    transitivity (fsubs A (fun i => rhs i - (U 0 i * L 0 X + U 1 i * L 1 X)) N n).
    + apply fsubs_unique; [apply A_lower| |exact Hn]. intros i Hi. specialize (H i Hi). rewrite factor in H by exact Hi. lra.
    + symmetry. apply fsubs_unique; [apply A_lower| |exact Hn]. intros i Hi. apply (AW (L 0 X) (L 1 X) i Hi).
  - intros n Hn. rewrite factor by exact Hn. pose proof (AW (L 0 X) (L 1 X) n Hn) as E. cbv beta in E. rewrite <- (H n Hn) in E.
    rewrite (rsum_ext N _ (fun j => A n j * X j)) in E by (intros j Hj; rewrite <- (H j Hj); reflexivity). lra.
Qed.
Lemma cramer m00 m01 m10 m11 p0 p1 y0 y1 : m00 * m11 - m01 * m10 <> 0 ->
  (m00 * y0 + m01 * y1 = p0 /\ m10 * y0 + m11 * y1 = p1) <-> (y0 = (p0 * m11 - m01 * p1) / (m00 * m11 - m01 * m10) /\ y1 = (m00 * p1 - p0 * m10) / (m00 * m11 - m01 * m10)).
Proof.
  intros D. split; [intros [<- <-]|intros [-> ->]]; split; field; exact D.
Qed.
Lemma L_combo rhs y0 y1 r : (r < 2)%nat -> L r (fun i => fs rhs i - (W 0 i * y0 + W 1 i * y1)) = L r (fs rhs) - ((M r 0 - if (r =? 0)%nat then 1 else 0) * y0 + (M r 1 - if (r =? 1)%nat then 1 else 0) * y1).
Proof.
  intros Hr. rewrite <- !L_W by exact Hr. unfold L. rewrite (rsum_ext N _ (fun i => wood_V r i * fs rhs i - (y0 * (wood_V r i * W 0 i) + y1 * (wood_V r i * W 1 i)))) by (intros; ring).
  rewrite rsum_minus, rsum_plus, !rsum_scal. ring.
Qed.
Lemma wood_correct B X : wood_det N va vb gam s <> 0 -> (midpoint N (G_B va vb gam) s B X <-> forall n, (n < N)%nat -> X n = wood_update N va vb gam s B n).
Proof.
  intros D. rewrite midpoint_iff. pose (rhs := wood_rhs N va vb gam s B).
  assert (R : forall n, B n + s * mvr N (G_B va vb gam) B n = rhs n) by (intros n; unfold rhs, wood_rhs; cbv zeta; rewrite mvr_GB; unfold end_b, end_a; ring).
  assert (E1 : (forall n, (n < N)%nat -> X n - s * mvr N (G_B va vb gam) X n = B n + s * mvr N (G_B va vb gam) B n) <-> (forall n, (n < N)%nat -> X n - s * mvr N (G_B va vb gam) X n = rhs n)).
  { split; intros H n Hn; specialize (H n Hn); rewrite R in * || rewrite <- R in *; lra. }
  rewrite E1, wood_split.
  pose (p := fun r => L r (fs rhs)). unfold wood_det in D. fold M in D. cbv zeta in D.
  pose (w0 := (p 0%nat * M 1%nat 1%nat - M 0%nat 1%nat * p 1%nat) / wood_det N va vb gam s). pose (w1 := (M 0%nat 0%nat * p 1%nat - p 0%nat * M 1%nat 0%nat) / wood_det N va vb gam s).
  assert (Eu : forall n, wood_update N va vb gam s B n = fs rhs n - (W 0 n * w0 + W 1 n * w1)) by (intros n; reflexivity).
  split; intros H.
  - assert (L0 : L 0 X = L 0 (fun i => fs rhs i - (W 0 i * L 0 X + W 1 i * L 1 X))) by (apply L_ext; exact H).
    assert (L1 : L 1 X = L 1 (fun i => fs rhs i - (W 0 i * L 0 X + W 1 i * L 1 X))) by (apply L_ext; exact H).
    rewrite L_combo in L0, L1 by lia. cbn [Nat.eqb] in L0, L1. fold (p 0%nat) in L0. fold (p 1%nat) in L1.
    destruct (proj1 (cramer (M 0 0)%nat (M 0 1)%nat (M 1 0)%nat (M 1 1)%nat (p 0%nat) (p 1%nat) (L 0 X) (L 1 X) D)) as [Y0 Y1]; [split; lra|].
    intros n Hn. rewrite Eu, (H n Hn), Y0, Y1. reflexivity.
  - assert (Y : M 0%nat 0%nat * w0 + M 0%nat 1%nat * w1 = p 0%nat /\ M 1%nat 0%nat * w0 + M 1%nat 1%nat * w1 = p 1%nat).
    { apply (proj2 (cramer (M 0 0)%nat (M 0 1)%nat (M 1 0)%nat (M 1 1)%nat (p 0%nat) (p 1%nat) w0 w1 D)). split; reflexivity. }
    assert (L0 : L 0 X = w0). { rewrite (L_ext X (fun i => fs rhs i - (W 0 i * w0 + W 1 i * w1))) by (intros i Hi; rewrite (H i Hi); apply Eu). rewrite L_combo by lia. cbn [Nat.eqb]. fold (p 0%nat). lra. }
    assert (L1 : L 1 X = w1). { rewrite (L_ext X (fun i => fs rhs i - (W 0 i * w0 + W 1 i * w1))) by (intros i Hi; rewrite (H i Hi); apply Eu). rewrite L_combo by lia. cbn [Nat.eqb]. fold (p 1%nat). lra. }
    intros n Hn. rewrite L0, L1, (H n Hn). apply Eu.
Qed.
Lemma wood_regular : skew N (G_B va vb gam) -> wood_det N va vb gam s <> 0.
Proof.
  intros Sk D. unfold wood_det in D. fold M in D. cbv zeta in D.
  assert (K : forall y0 y1, M 0%nat 0%nat * y0 + M 0%nat 1%nat * y1 = 0 -> M 1%nat 0%nat * y0 + M 1%nat 1%nat * y1 = 0 -> y0 = 0 /\ y1 = 0).
  { intros y0 y1 H0 H1. pose (X := fun i => fs (fun _ => 0) i - (W 0 i * y0 + W 1 i * y1)).
    assert (Z : forall i, (i < N)%nat -> fs (fun _ => 0) i = 0). { intros i Hi. symmetry. apply (fsubs_unique A (fun _ => 0) N (fun _ => 0) A_lower); [|exact Hi]. intros k _. rewrite (rsum_ext N _ (fun _ => 0)) by (intros; ring). rewrite rsum_zero. ring. }
    assert (LZ : forall r, L r (fs (fun _ => 0)) = 0). { intros r. apply rsum_zero_ext. intros i Hi. rewrite Z by exact Hi. ring. }
    assert (L0 : L 0 X = y0). { unfold X. rewrite L_combo by lia. cbn [Nat.eqb]. rewrite LZ. lra. }
    assert (L1 : L 1 X = y1). { unfold X. rewrite L_combo by lia. cbn [Nat.eqb]. rewrite LZ. lra. }
    assert (XZ : forall n, (n < N)%nat -> X n = 0). { apply (skew_injective N (G_B va vb gam) s X Sk). apply (proj2 (wood_split (fun _ => 0) X)). intros n Hn. rewrite L0, L1. reflexivity. }
    rewrite <- L0, <- L1. split; apply rsum_zero_ext; intros i Hi; rewrite XZ by exact Hi; ring. }
  destruct (K (M 1%nat 1%nat) (- M 1%nat 0%nat)) as [A1 A2]; [lra|ring|].
  destruct (K (M 0%nat 1%nat) (- M 0%nat 0%nat)) as [A3 A4]; [ring|lra|].
  destruct (K 1 0) as [Q _]; [lra|lra|lra].
Qed.
End Wood.

(** legendre_cayley_update (Woodbury path) is the implicit midpoint rule for G_B whenever its 2x2 system is regular: its output
    is the only solution. With gamma = 1/2 on every mode the system is regular for every field and step. *)
Theorem C93_legendre_midpoint : forall Nl va vb gam s B X, wood_det Nl va vb gam s <> 0 ->
  (midpoint Nl (G_B va vb gam) s B X <-> forall n, (n < Nl)%nat -> X n = wood_update Nl va vb gam s B n).
Proof. intros. apply wood_correct. assumption. Qed.
Print Assumptions C93_legendre_midpoint.
Theorem C93_legendre_regular : forall Nl va vb s B, let gam := fun _ : nat => 1 / 2 in
  wood_det Nl va vb gam s <> 0 /\ midpoint Nl (G_B va vb gam) s B (wood_update Nl va vb gam s B) /\
  norm2 Nl (wood_update Nl va vb gam s B) = norm2 Nl B.
Proof.
  intros Nl va vb s B gam. pose proof (proj1 (C93_skew va vb 0 Nl)) as Sk. pose proof (wood_regular Nl va vb gam s Sk) as D.
  assert (H : midpoint Nl (G_B va vb gam) s B (wood_update Nl va vb gam s B)) by (apply (proj2 (C93_legendre_midpoint Nl va vb gam s B _ D)); reflexivity).
  split; [exact D|]. split; [exact H|]. apply (midpoint_norm Nl _ s B _ Sk H).
Qed.
Print Assumptions C93_legendre_regular.

(* ------------------------------------------------------------------------------------------------ *)
(** * The complex arrays *)
(** The implicit midpoint update of a complex vector by a real matrix. *)
Definition cmidpoint (N : nat) (G : nat -> nat -> R) (s : R) (B X : nat -> cplx) : Prop :=
  forall n, (n < N)%nat -> csub (X n) (B n) = cscal s (csum N (fun m => cscal (G n m) (cadd (X m) (B m)))).
Definition re (x : nat -> cplx) : nat -> R := fun n => fst (x n).
Definition im (x : nat -> cplx) : nat -> R := fun n => snd (x n).
Lemma cmidpoint_parts N G s B X : cmidpoint N G s B X <-> (midpoint N G s (re B) (re X) /\ midpoint N G s (im B) (im X)).
Proof.
  unfold cmidpoint, midpoint, re, im. split.
  - intros H. split; intros n Hn; specialize (H n Hn).
    + apply (f_equal fst) in H. cbn [fst csub cadd cneg cscal] in H. rewrite csum_fst in H. cbn [fst cscal cadd] in H. unfold csub, cadd, cneg in H. cbn [fst] in H. lra.
    + apply (f_equal snd) in H. cbn [snd csub cadd cneg cscal] in H. rewrite csum_snd in H. cbn [snd cscal cadd] in H. unfold csub, cadd, cneg in H. cbn [snd] in H. lra.
  - intros [H1 H2] n Hn. specialize (H1 n Hn). specialize (H2 n Hn). apply cplx_eq; unfold csub, cneg; cbn [fst snd cadd cscal]; rewrite ?csum_fst, ?csum_snd; cbn [fst snd cadd cscal]; unfold cadd; cbn [fst snd]; lra.
Qed.
Lemma cnorm2_parts N x : cnorm2 N x = norm2 N (re x) + norm2 N (im x).
Proof. unfold cnorm2, norm2, re, im. rewrite <- rsum_plus. apply rsum_ext. intros. unfold cabs2. ring. Qed.

(** The eigenvector path solves the same equations as the Woodbury path, so with gamma = 1/2 both give the same state. *)
Lemma cdiv_mul a b : cabs2 b <> 0 -> cmul b (cdiv a b) = a.
Proof. intros H. unfold cdiv, cabs2 in *. destruct a as [a1 a2], b as [b1 b2]. cbn [fst snd] in H. apply cplx_eq; unfold cmul, cscal, conj; cbn [fst snd]; field; exact H. Qed.
Lemma cmul_cancel b x y : cabs2 b <> 0 -> cmul b x = cmul b y -> x = y.
Proof.
  intros H E. assert (A : cmul (cmul (conj b) b) x = cmul (cmul (conj b) b) y) by (transitivity (cmul (conj b) (cmul b x)); [creal|rewrite E; creal]).
  destruct b as [b1 b2], x as [x1 x2], y as [y1 y2]. unfold cabs2 in H. cbn [fst snd] in H. unfold cmul, conj in A. cbn [fst snd] in A. injection A as A1 A2.
  apply cplx_eq; cbn [fst snd]; apply (Rmult_eq_reg_l (b1 * b1 + b2 * b2)); try exact H; lra.
Qed.
Definition lam (e s : R) : cplx := cdiv (1, - (e * s)) (1, e * s).
Lemma lam_eq e s : csub (lam e s) c1 = cmul (0, - (e * s)) (cadd (lam e s) c1).
Proof.
  assert (D : cabs2 (1, e * s) <> 0) by (unfold cabs2; cbn [fst snd]; nra).
  pose proof (cdiv_mul (1, - (e * s)) (1, e * s) D) as E. fold (lam e s) in E.
  destruct (lam e s) as [p q]. unfold cmul in E. cbn [fst snd] in E. injection E as E1 E2.
  apply cplx_eq; unfold csub, cadd, cneg, cmul, c1; cbn [fst snd]; lra.
Qed.
Section Skew.
Variables (N : nat) (G : nat -> nat -> R) (ev : nat -> R) (V : nat -> nat -> cplx).
Hypothesis H : is_heigh N G ev V.
Let P (x : nat -> cplx) (i : nat) : cplx := csum N (fun m => cmul (conj (V m i)) (x m)).
Lemma heigh_expand x n : (n < N)%nat -> x n = csum N (fun i => cmul (V n i) (P x i)).
Proof.
  intros Hn. unfold P. rewrite (csum_ext N _ (fun i => csum N (fun m => cmul (cmul (V n i) (conj (V m i))) (x m)))).
  2:{ intros i _. rewrite <- csum_mul. apply csum_ext. intros. creal. }
  rewrite csum_swap. rewrite (csum_single N n); [|exact Hn|].
  - rewrite csum_mul_r, (heigh_rows _ _ _ _ H n n Hn Hn), Nat.eqb_refl. creal.
  - intros m Hm Nm. rewrite csum_mul_r, (heigh_rows _ _ _ _ H n m Hn Hm). destruct (Nat.eqb_spec n m); [lia|]. creal.
Qed.
Lemma heigh_apply (y : nat -> cplx) n : (n < N)%nat -> csum N (fun m => cscal (G n m) (csum N (fun i => cmul (V m i) (y i)))) = csum N (fun i => cmul (cmul (0, - ev i) (V n i)) (y i)).
Proof.
  intros Hn. rewrite (csum_ext N _ (fun m => csum N (fun i => cmul (cscal (G n m) (V m i)) (y i)))).
  2:{ intros m _. rewrite <- csum_scal. apply csum_ext. intros. creal. }
  rewrite csum_swap. apply csum_ext. intros i Hi. rewrite csum_mul_r. f_equal.
  pose proof (heigh_vec _ _ _ _ H n i Hn Hi) as E.
  transitivity (cmul (0, - (1)) (csum N (fun m => cmul (0, G n m) (V m i)))); [rewrite <- csum_mul; apply csum_ext; intros; creal|]. rewrite E. creal.
Qed.
Lemma skew_solves s B : cmidpoint N G s B (skew_update N ev V s B).
Proof.
  intros n Hn.
  assert (EX : forall m, skew_update N ev V s B m = csum N (fun i => cmul (V m i) (cmul (lam (ev i) s) (P B i)))) by (intros; reflexivity).
  rewrite (csum_ext N _ (fun m => cscal (G n m) (csum N (fun i => cmul (V m i) (cmul (cadd (lam (ev i) s) c1) (P B i)))))).
  2:{ intros m Hm. f_equal. rewrite EX, (heigh_expand B m Hm). rewrite <- csum_add. apply csum_ext. intros. creal. }
  rewrite heigh_apply by exact Hn. rewrite EX, (heigh_expand B n Hn).
  transitivity (csum N (fun i => cmul (V n i) (cmul (csub (lam (ev i) s) c1) (P B i)))).
  - unfold csub. replace (cneg (csum N (fun i => cmul (V n i) (P B i)))) with (csum N (fun i => cmul (0 - 1, 0) (cmul (V n i) (P B i)))) by (rewrite csum_mul; creal).
    rewrite <- csum_add. apply csum_ext. intros. creal.
  - rewrite <- csum_scal. apply csum_ext. intros i _. rewrite lam_eq. creal.
Qed.
End Skew.
Theorem C93_skew_path : forall Nl va vb s B ev V n, let gam := fun _ : nat => 1 / 2 in
  is_heigh Nl (G_B va vb gam) ev V -> (n < Nl)%nat ->
  skew_update Nl ev V s B n = clift (wood_update Nl va vb gam s) B n /\
  cnorm2 Nl (skew_update Nl ev V s B) = cnorm2 Nl B /\ cmidpoint Nl (G_B va vb gam) s B (skew_update Nl ev V s B).
Proof.
  intros Nl va vb s B ev V n gam H Hn. pose proof (skew_solves Nl _ ev V H s B) as M. pose proof (proj1 (C93_skew va vb 0 Nl)) as Sk. fold gam in Sk.
  pose proof (wood_regular Nl va vb gam s Sk) as D. destruct (proj1 (cmidpoint_parts _ _ _ _ _) M) as [Mr Mi]. split; [|split].
  - apply cplx_eq; unfold clift; cbn [fst snd].
    + apply (proj1 (C93_legendre_midpoint Nl va vb gam s (re B) (re (skew_update Nl ev V s B)) D) Mr n Hn).
    + apply (proj1 (C93_legendre_midpoint Nl va vb gam s (im B) (im (skew_update Nl ev V s B)) D) Mi n Hn).
  - rewrite !cnorm2_parts. rewrite (midpoint_norm Nl _ s _ _ Sk Mr), (midpoint_norm Nl _ s _ _ Sk Mi). reflexivity.
  - exact M.
Qed.
Print Assumptions C93_skew_path.

(* ------------------------------------------------------------------------------------------------ *)
(** * Backward Euler (imex) *)
(** vector_field.py:1050-1056 calls the solve unconditionally stable. For a skew operator (gamma = 1/2 on every mode, or E = 0)
    the system has at most one solution and sum B^2 does not increase; for the Hermite block the solution is the forward recursion. *)
Lemma be_norm N G s x X : skew N G -> be_solves N G s x X -> norm2 N X <= norm2 N x.
Proof.
  intros Sk H. pose proof (skew_form N G X Sk) as Z.
  assert (E : norm2 N x = norm2 N X - 2 * s * rsum N (fun n => X n * mvr N G X n) + s * s * rsum N (fun n => mvr N G X n * mvr N G X n)).
  { unfold norm2. rewrite <- !rsum_scal, <- rsum_minus, <- rsum_plus. apply rsum_ext. intros n Hn. rewrite <- (H n Hn). ring. }
  rewrite Z in E. assert (0 <= rsum N (fun n => mvr N G X n * mvr N G X n)) by (apply rsum_nonneg; intros; nra). nra.
Qed.
Fixpoint be_hermite (alpha s : R) (C : nat -> R) (n : nat) : R := match n with O => C 0%nat | S k => C n - s * sq2n alpha n * be_hermite alpha s C k end.
Theorem C93_backward_euler : forall N s x,
  (forall G X Y, skew N G -> be_solves N G s x X -> be_solves N G s x Y -> norm2 N X <= norm2 N x /\ forall n, (n < N)%nat -> X n = Y n) /\
  (forall alpha X, be_solves N (G_C alpha) s x X <-> forall n, (n < N)%nat -> X n = be_hermite alpha s x n).
Proof.
  intros N s x. split.
  - intros G X Y Sk HX HY. split; [apply (be_norm N G s x X Sk HX)|]. intros n Hn.
    assert (Q : X n - Y n = 0); [|lra]. apply (skew_injective N G s (fun i => X i - Y i) Sk); [|exact Hn]. intros k Hk. pose proof (HX k Hk). pose proof (HY k Hk).
    rewrite (mvr_ext N G _ (fun i => 1 * X i + (-1) * Y i)) by (intros; ring). rewrite mvr_lin. lra.
  - intros alpha X. split.
    + intros H n. induction n as [|n IH]; intros Hn; pose proof (H _ Hn) as E; rewrite mvr_GC in E by exact Hn; cbn [be_hermite]; [lra|]. rewrite IH in E by lia. lra.
    + intros H n Hn. rewrite mvr_GC by exact Hn. destruct n as [|n]; rewrite (H _ Hn); cbn [be_hermite]; [ring|]. rewrite (H n) by lia. ring.
Qed.
Print Assumptions C93_backward_euler.
(** In general it is not: the Hermite block amplifies a density into any multiple of it, and with gamma > 1 the Legendre system
    can be singular. *)
Theorem C93_backward_euler_refuted :
  ~ (forall N alpha s x X, 0 < alpha -> be_solves N (G_C alpha) s x X -> norm2 N X <= norm2 N x) /\
  ~ (forall N va vb gamma s X, va < vb -> 0 < gamma -> be_solves N (G_B va vb (fun _ => gamma)) s (fun _ => 0) X -> forall n, (n < N)%nat -> X n = 0).
Proof.
  split.
  - intros H. pose (x := fun n : nat => if (n =? 0)%nat then 1 else 0).
    specialize (H 2%nat 1 1 x (be_hermite 1 1 x) ltac:(lra) (proj2 (proj2 (C93_backward_euler 2 1 x) 1 _) (fun _ _ => eq_refl))).
    unfold norm2 in H. cbn [rsum be_hermite] in H. unfold x in H. cbn [Nat.eqb] in H. unfold sq2n in H. change (INR 1) with 1 in H.
    assert (sqrt (2 * 1) * sqrt (2 * 1) = 2 * 1) by (apply sqrt_sqrt; lra). replace (sqrt (2 * 1) / 1) with (sqrt (2 * 1)) in H by field. nra.
  - intros H. pose (X := fun n : nat => if (n =? 0)%nat then 2 else sqrt 2).
    assert (Q2 : sqrt 2 * sqrt 2 = 2) by (apply sqrt_sqrt; lra). assert (Q3 : sqrt 3 * sqrt 3 = 3) by (apply sqrt_sqrt; lra).
    assert (X0 : lxi_b 0 = 1 /\ lxi_a 0 = 1 /\ lxi_b 1 = sqrt 3 /\ lxi_a 1 = - sqrt 3).
    { unfold lxi_b, lxi_a. change (INR 0) with 0. change (INR 1) with 1. replace (2 * 0 + 1) with 1 by ring. replace (2 * 1 + 1) with 3 by ring. rewrite sqrt_1. cbn [pow]. repeat split; ring. }
    destruct X0 as (B0 & A0 & B1 & A1).
    specialize (H 2%nat 0 1 2 (/ (2 * sqrt 3 * sqrt 2)) X ltac:(lra) ltac:(lra)).
    assert (P2 : 0 < sqrt 2) by (apply sqrt_lt_R0; lra). assert (P3 : 0 < sqrt 3) by (apply sqrt_lt_R0; lra).
    assert (Z : be_solves 2 (G_B 0 1 (fun _ => 2)) (/ (2 * sqrt 3 * sqrt 2)) (fun _ => 0) X).
    { intros n Hn. rewrite mvr_GB. unfold end_b, end_a. cbn [rsum]. rewrite B0, A0, B1, A1. destruct n as [|[|n]]; [| |lia].
      - rewrite B0, A0, !lderiv_lower by lia. unfold X. cbn [Nat.eqb]. field_simplify; [|lra]. unfold Rdiv. replace (2 * sqrt 2 * sqrt 3) with (2 * sqrt 2 * sqrt 3) by ring. nra.
      - rewrite B1, A1, lderiv_10, (lderiv_lower 0 1 1 1) by lia. unfold X. cbn [Nat.eqb].
        transitivity (/ sqrt 2 * (sqrt 2 * sqrt 2 - 2)); [field; lra|]. rewrite Q2. ring. }
    specialize (H Z 0%nat ltac:(lia)). unfold X in H. cbn in H. lra.
Qed.
Print Assumptions C93_backward_euler_refuted.

(* ------------------------------------------------------------------------------------------------ *)
(** * The substep on the grid *)
(** Without dealiasing, _force_cayley with a zero field returns its input; with the 2/3 mask it first drops the masked modes,
    so this holds only for states inside the mask. *)
Definition in_mask (m : option (nat -> bool)) (nx : nat) (C : coeffs) : Prop := forall n k, (k < nx)%nat -> masked m (C n) k = C n k.
Lemma hcayley_0 alpha C n : hcayley alpha 0 C n = C n. Proof. destruct n; cbn [hcayley]; ring. Qed.
Theorem C93_zero_field : forall nx m alpha C E dt n k, (forall g, (g < nx)%nat -> E g = 0) -> (k < nx)%nat ->
  force_cayley nx m (fun s => clift (hcayley alpha s)) C E dt n k = masked m (C n) k.
Proof.
  intros nx m alpha C E dt n k HE Hk. unfold force_cayley.
  rewrite (masked_ext m _ (masked m (C n)) k).
  - unfold masked. destruct m as [b|]; auto. destruct (b k); reflexivity.
  - rewrite <- (ffwd_finv nx (masked m (C n)) k Hk). apply ffwd_ext. intros g Hg. rewrite HE by exact Hg. rewrite Rmult_0_r. unfold clift. rewrite !hcayley_0. apply cplx_eq; reflexivity.
Qed.
Print Assumptions C93_zero_field.
Theorem C93_zero_field_refuted : ~ (forall nx alpha C E dt n k, (forall g, (g < nx)%nat -> E g = 0) -> (k < nx)%nat ->
  force_cayley nx (Some (mask23 nx)) (fun s => clift (hcayley alpha s)) C E dt n k = C n k).
Proof.
  intros H. specialize (H 4%nat 1 (fun _ _ => c1) (fun _ => 0) 1 0%nat 2%nat ltac:(reflexivity) ltac:(lia)). rewrite C93_zero_field in H by (first [lia | reflexivity]).
  apply (f_equal fst) in H. unfold masked in H. change (mask23 4 2) with false in H. cbn in H. lra.
Qed.
Print Assumptions C93_zero_field_refuted.
(** The Hermite density row is kept by the substep (inside the mask), whatever the field. *)
Theorem C93_density_row : forall nx m alpha C E dt k, (k < nx)%nat ->
  force_cayley nx m (fun s => clift (hcayley alpha s)) C E dt 0%nat k = masked m (C 0%nat) k.
Proof.
  intros nx m alpha C E dt k Hk. unfold force_cayley. rewrite (masked_ext m _ (masked m (C 0%nat)) k).
  - unfold masked. destruct m as [b|]; auto. destruct (b k); reflexivity.
  - rewrite <- (ffwd_finv nx (masked m (C 0%nat)) k Hk). apply ffwd_ext. intros g Hg. unfold clift. cbn [hcayley]. apply cplx_eq; reflexivity.
Qed.
Print Assumptions C93_density_row.

(** With gamma = 1/2 on every mode and no dealiasing, the substep keeps the L2 norm of df over the whole grid, for every field. *)
Theorem C93_grid_norm : forall nx Nl va vb B E dt, (0 < nx)%nat -> let gam := fun _ : nat => 1 / 2 in
  let B' := force_cayley nx None (fun s => clift (wood_update Nl va vb gam s)) B E dt in
  rsum nx (fun g => cnorm2 Nl (fun n => finv nx (B' n) g)) = rsum nx (fun g => cnorm2 Nl (fun n => finv nx (B n) g)).
Proof.
  intros nx Nl va vb B E dt Hx gam B'. apply rsum_ext. intros g Hg.
  pose proof (C93_legendre_regular Nl va vb (1 / 2 * dt * E g)) as Rg.
  transitivity (cnorm2 Nl (clift (wood_update Nl va vb gam (1 / 2 * dt * E g)) (fun n => finv nx (B n) g))).
  - unfold cnorm2. apply rsum_ext. intros n Hn. unfold B', force_cayley. rewrite masked_None, finv_ffwd by exact Hg. rewrite ?masked_None. reflexivity.
  - rewrite !cnorm2_parts. unfold clift, re, im. cbn [fst snd].
    destruct (Rg (fun n => fst (finv nx (B n) g))) as (_ & _ & N1). destruct (Rg (fun n => snd (finv nx (B n) g))) as (_ & _ & N2). fold gam in N1, N2.
    change (fun n => wood_update Nl va vb gam (1 / 2 * dt * E g) (fun i => fst (finv nx (B i) g)) n) with (wood_update Nl va vb gam (1 / 2 * dt * E g) (fun i => fst (finv nx (B i) g))).
    rewrite <- N1, <- N2. reflexivity.
Qed.
Print Assumptions C93_grid_norm.

(** gamma_vec: by default the low modes keep their penalty in the split integrator and when the low modes are not enforced. *)
Theorem C93_gamma_default : forall user split enforce gamma m,
  (gamma_vec (penalty_all user split enforce) gamma m = 0 <-> gamma = 0 \/ ((m < 3)%nat /\ (user = Some false \/ (user = None /\ split = false /\ enforce = true)))) /\
  (gamma_vec (penalty_all user split enforce) gamma m = gamma \/ gamma_vec (penalty_all user split enforce) gamma m = 0).
Proof.
  intros user split enforce gamma m. unfold gamma_vec, penalty_all.
  destruct user as [[|]|], split, enforce, (Nat.leb_spec 3 m); cbn [orb negb]; (split; [|auto]); (split; [intros Q|intros [Q|[L [Q|(Q & Q2 & Q3)]]]]; try discriminate; try (left; exact Q); try exact Q; try reflexivity; try lia; try (right; split; [lia|]; auto)).
Qed.
Print Assumptions C93_gamma_default.

(** The hypotheses are met: eigh of 1j G for two Legendre modes on [0, 1], and a numeric force. *)
Definition ex_heigh_ev (i : nat) : R := if (i =? 0)%nat then sqrt 3 else - sqrt 3.
Definition ex_heigh_V (n i : nat) : cplx := cscal (sqrt (1 / 2)) (if (n =? 0)%nat then c1 else if (i =? 0)%nat then (0, - (1)) else (0, 1)).
Lemma ex_GB n m : (n < 2)%nat -> (m < 2)%nat -> G_B 0 1 (fun _ => 1 / 2) n m = if (n =? m)%nat then 0 else if (n =? 0)%nat then sqrt 3 else - sqrt 3.
Proof.
  assert (X0 : lxi_b 0 = 1 /\ lxi_a 0 = 1 /\ lxi_b 1 = sqrt 3 /\ lxi_a 1 = - sqrt 3).
  { unfold lxi_b, lxi_a. change (INR 0) with 0. change (INR 1) with 1. replace (2 * 0 + 1) with 1 by ring. replace (2 * 1 + 1) with 3 by ring. rewrite sqrt_1. cbn [pow]. repeat split; ring. }
  destruct X0 as (B0 & A0 & B1 & A1). intros Hn Hm. unfold G_B. destruct n as [|[|n]], m as [|[|m]]; try lia; cbn [Nat.eqb]; rewrite ?B0, ?A0, ?B1, ?A1, ?lderiv_10; rewrite ?lderiv_lower by lia; field.
Qed.
Example C93_heigh_example : is_heigh 2 (G_B 0 1 (fun _ => 1 / 2)) ex_heigh_ev ex_heigh_V.
Proof.
  assert (Q : sqrt (1 / 2) * sqrt (1 / 2) = 1 / 2) by (apply sqrt_sqrt; lra).
  constructor.
  - intros i j Hi Hj. unfold ex_heigh_V. destruct i as [|[|i]], j as [|[|j]]; try lia; apply cplx_eq; cbn [csum Nat.eqb fst snd cmul conj cscal cadd c0 c1]; unfold cadd, cmul, conj, cscal, c0, c1; cbn [fst snd]; nra.
  - intros i j Hi Hj. unfold ex_heigh_V. destruct i as [|[|i]], j as [|[|j]]; try lia; apply cplx_eq; cbn [csum Nat.eqb fst snd cmul conj cscal cadd c0 c1]; unfold cadd, cmul, conj, cscal, c0, c1; cbn [fst snd]; nra.
  - intros n i Hn Hi. cbn [csum]. rewrite !ex_GB by lia. unfold ex_heigh_V, ex_heigh_ev. destruct n as [|[|n]], i as [|[|i]]; try lia; cbn [Nat.eqb]; creal.
Qed.
Example C93_work_example : force_rates 1 (-1) 1 (gamma_vec false (1 / 2)) 3 3 2 0 (fun n => if (n =? 0)%nat then 1 else 0) (fun _ => 0) 1 = - 2.
Proof.
  destruct (C93_work 1 0 (-1) 1 (gamma_vec false (1 / 2)) 3 3 (fun n => if (n =? 0)%nat then 1 else 0) (fun _ => 0) 2 ltac:(lra) ltac:(lra) ltac:(lia) ltac:(lia)) as (_ & W & _).
  { intros m Hm. unfold gamma_vec. destruct (Nat.leb_spec 3 m); [lia|reflexivity]. }
  rewrite W. unfold moments, low6, moment_matrix. cbn [rsum nth Nat.ltb Nat.leb Nat.sub Nat.eqb]. ring.
Qed.
