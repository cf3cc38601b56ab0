(** C92: the bases, moments and saved invariants of the Hermite-Legendre solver. *)
From Coq Require Import Reals Lra Lia ZArith List Bool Psatz.
From Verif Require Import HermitePoisson HPProps HPForceProps Legendre GaussInt HermLeg HLBasis RSum Pic PicProofs PicFourier Dft.
Local Open Scope R_scope.

(** The two parts of the distribution function with coefficients C and B: f = f0 + df, df supported on [va, vb]. *)
Definition f0 (alpha u : R) (Nh : nat) (C : nat -> R) (v : R) : R := rsum Nh (fun n => C n * psi alpha u n v).
Definition df (va vb : R) (Nl : nat) (B : nat -> R) (v : R) : R := rsum Nl (fun m => B m * lbasis va vb m v).
(** [I] is the integral of w f over all velocities. *)
Definition velocity_moment (alpha u va vb : R) (Nh Nl : nat) (C B : nat -> R) (w : R -> R) (I : R) : Prop :=
  exists I0 I1, line_integral (fun v => w v * f0 alpha u Nh C v) I0 /\ integral (fun v => w v * df va vb Nl B v) va vb I1 /\ I = I0 + I1.

Lemma moment_unique alpha u va vb Nh Nl C B w I J :
  velocity_moment alpha u va vb Nh Nl C B w I -> velocity_moment alpha u va vb Nh Nl C B w J -> I = J.
Proof. intros (a & b & A & B' & ->) (a' & b' & A' & B'' & ->). now rewrite (line_unique _ _ _ A A'), (integral_unique _ _ _ _ _ B' B''). Qed.

(* ------------------------------------------------------------------------------------------------ *)
(** The tabulated Hermite functions are the asymmetrically weighted Hermite functions H_n(z) exp(-z^2) / sqrt(pi 2^n n!),
    alpha T_H is multiplication by v, differentiation raises the index, and only psi_0 carries density. *)
Lemma T_row u alpha N n (x : nat -> R) : (S n < N)%nat -> rsum N (fun m => stream_T u alpha n m * x m) =
  sqrt ((INR n + 1) / 2) * x (S n) + match n with O => 0 | S m => sqrt ((INR m + 1) / 2) * x m end + u / alpha * x n.
Proof.
  intros H. destruct n as [|j].
  - rewrite (rsum_two N 0 1) by (first [lia | intros i Hi A B; unfold stream_T; destruct i as [|[|i]]; [lia|lia|]; cbn [Nat.eqb]; ring]).
    unfold stream_T. cbn [Nat.eqb]. ring.
  - rewrite (rsum_tri3 N j (S j) (S (S j))) by (first [lia | intros i Hi A B C; unfold stream_T;
      destruct (Nat.eqb_spec i (S (S j))); [lia|]; destruct (Nat.eqb_spec (S j) (S i)); [lia|]; destruct (Nat.eqb_spec (S j) i); [lia|]; ring]).
    unfold stream_T. rewrite !Nat.eqb_refl. destruct (Nat.eqb_spec (S j) j); [lia|]. destruct (Nat.eqb_spec j (S (S j))); [lia|].
    destruct (Nat.eqb_spec (S j) (S (S j))); [lia|]. destruct (Nat.eqb_spec (S j) (S (S (S j)))); [lia|]. ring.
Qed.
Theorem C92_hermite_functions : forall alpha u n N v, 0 < alpha -> (S n < N)%nat ->
  psi alpha u n v = hermite n ((v - u) / alpha) * exp (- ((v - u) / alpha) ^ 2) / (sqrt PI * sqrt (2 ^ n * INR (fact n))) /\
  v * psi alpha u n v = alpha * rsum N (fun m => stream_T u alpha n m * psi alpha u m v) /\
  derivable_pt_lim (psi alpha u n) v (- (sqrt (2 * (INR n + 1)) / alpha) * psi alpha u (S n) v) /\
  line_integral (psi alpha u n) (if (n =? 0)%nat then alpha else 0).
Proof.
  intros alpha u n N v Ha HN. split; [|split; [|split]].
  - rewrite psi_eq. unfold hnorm. field. split; [apply Rgt_not_eq, sqrt_hw_pos|apply Rgt_not_eq, sqrt_lt_R0, PI_RGT_0].
  - rewrite (T_row u alpha N n (fun m => psi alpha u m v) HN). apply psi_velocity. exact Ha.
  - pose proof (psi_deriv alpha u n v Ha) as D. rewrite S_INR in D. exact D.
  - apply psi_integral. exact Ha.
Qed.
Print Assumptions C92_hermite_functions.

(** The tabulated Legendre functions are sqrt(2m+1) P_m on the window: T_L is multiplication by v, deriv is d/dv, xi_a and
    xi_b are the values at the ends, and they are orthogonal with norm the width of the window. *)
Theorem C92_legendre_functions : forall va vb m n N v, va < vb -> (S m < N)%nat ->
  lbasis va vb m v = sqrt (2 * INR m + 1) * legd ((2 * v - (va + vb)) / (vb - va)) m 0 /\
  v * lbasis va vb m v = rsum N (fun k => lT va vb m k * lbasis va vb k v) /\
  derivable_pt_lim (lbasis va vb m) v (rsum N (fun i => lderiv va vb m i * lbasis va vb i v)) /\
  lbasis va vb m va = lxi_a m /\ lbasis va vb m vb = lxi_b m /\
  integral (fun x => lbasis va vb m x * lbasis va vb n x) va vb (if (m =? n)%nat then vb - va else 0) /\
  lT va vb m n = lT va vb n m.
Proof.
  intros va vb m n N v H HN. repeat split.
  - apply lbasis_legd.
  - apply lbasis_velocity; assumption.
  - apply lbasis_deriv; [assumption|lia].
  - rewrite lbasis_legd, s_at_a by exact H. rewrite (proj1 (legd_at_m1 m)). unfold lxi_a. replace (- (1)) with (-1) by lra. reflexivity.
  - rewrite lbasis_legd, s_at_b by exact H. rewrite (proj1 (legd_at_1 m)). unfold lxi_b. ring.
  - apply lbasis_orth. exact H.
  - unfold lT. rewrite (Nat.eqb_sym m n). ring.
Qed.
Print Assumptions C92_legendre_functions.

(* ------------------------------------------------------------------------------------------------ *)
(** * The moment matrix *)
Lemma psi_v alpha u n : 0 < alpha -> line_integral (fun v => v * psi alpha u n v)
  (match n with O => u * alpha | 1%nat => alpha ^ 2 / sqrt 2 | _ => 0 end).
Proof.
  intros Ha. assert (S2 : sqrt (1 / 2) = / sqrt 2). { replace (1 / 2) with (/ 2) by lra. apply sqrt_inv. }
  assert (P2 : 0 < sqrt 2) by (apply sqrt_lt_R0; lra). destruct n as [|m].
  - pose proof (line_lin _ _ _ _ (alpha * sqrt ((INR 0 + 1) / 2)) u (psi_integral alpha u 1 Ha) (psi_integral alpha u 0 Ha)) as L.
    eapply line_ext; [| |exact L]; [intros v; cbv beta; rewrite psi_velocity by exact Ha; field; lra|cbn [Nat.eqb]; ring].
  - pose proof (line_lin _ _ _ _ (alpha * sqrt ((INR (S m) + 1) / 2)) u (psi_integral alpha u (S (S m)) Ha) (psi_integral alpha u (S m) Ha)) as L.
    pose proof (line_lin _ _ _ _ 1 (alpha * sqrt ((INR m + 1) / 2)) L (psi_integral alpha u m Ha)) as L'.
    eapply line_ext; [| |exact L']; [intros v; cbv beta; rewrite (psi_velocity alpha u (S m)) by exact Ha; field; lra|].
    destruct m as [|m]; cbn [Nat.eqb]; [|ring]. change (INR 0) with 0. replace ((0 + 1) / 2) with (1 / 2) by lra. rewrite S2. field. lra.
Qed.
Lemma psi_vv alpha u n : 0 < alpha -> line_integral (fun v => v ^ 2 * psi alpha u n v)
  (match n with O => alpha * (alpha ^ 2 / 2 + u ^ 2) | 1%nat => 2 * (alpha ^ 2 * u / sqrt 2) | 2%nat => alpha ^ 3 / sqrt 2 | _ => 0 end).
Proof.
  intros Ha. assert (S2 : sqrt (1 / 2) = / sqrt 2). { replace (1 / 2) with (/ 2) by lra. apply sqrt_inv. }
  assert (P2 : 0 < sqrt 2) by (apply sqrt_lt_R0; lra). pose proof (sqrt_sqrt 2 ltac:(lra)) as Q2. destruct n as [|m].
  - pose proof (line_lin _ _ _ _ (alpha * sqrt ((INR 0 + 1) / 2)) u (psi_v alpha u 1 Ha) (psi_v alpha u 0 Ha)) as L.
    eapply line_ext; [| |exact L]; [intros v; cbv beta; replace (v ^ 2 * psi alpha u 0 v) with (v * (v * psi alpha u 0 v)) by ring; pose proof (psi_velocity alpha u 0 v Ha) as EE; cbn iota beta in EE; match type of EE with _ = ?r => transitivity (v * r); [field; lra|rewrite <- EE; reflexivity] end|].
    change (INR 0) with 0. replace ((0 + 1) / 2) with (1 / 2) by lra. rewrite S2. set (q := sqrt 2) in *. replace (alpha ^ 2 / 2) with (alpha ^ 2 / (q * q)) by (rewrite Q2; reflexivity). field. lra.
  - pose proof (line_lin _ _ _ _ (alpha * sqrt ((INR (S m) + 1) / 2)) u (psi_v alpha u (S (S m)) Ha) (psi_v alpha u (S m) Ha)) as L.
    pose proof (line_lin _ _ _ _ 1 (alpha * sqrt ((INR m + 1) / 2)) L (psi_v alpha u m Ha)) as L'.
    eapply line_ext; [| |exact L']; [intros v; cbv beta; replace (v ^ 2 * psi alpha u (S m) v) with (v * (v * psi alpha u (S m) v)) by ring; pose proof (psi_velocity alpha u (S m) v Ha) as EE; cbn iota beta in EE; match type of EE with _ = ?r => transitivity (v * r); [field; lra|rewrite <- EE; reflexivity] end|].
    destruct m as [|[|m]].
    + change (INR 0) with 0. replace ((0 + 1) / 2) with (1 / 2) by lra. rewrite S2. field. lra.
    + change (INR 1) with 1. replace ((1 + 1) / 2) with 1 by lra. rewrite sqrt_1. field. lra.
    + ring.
Qed.
Lemma xi_0 va vb m : va < vb -> integral (lbasis va vb m) va vb (if (m =? 0)%nat then vb - va else 0).
Proof.
  intros H. eapply integral_ext; [|reflexivity|apply (lbasis_orth va vb m 0 H)]. intros x. cbv beta. rewrite (lbasis_legd va vb 0). change (INR 0) with 0.
  replace (2 * 0 + 1) with 1 by ring. rewrite sqrt_1, legd_0. cbn [Nat.eqb]. ring.
Qed.
Lemma xi_v va vb m : va < vb -> integral (fun v => v * lbasis va vb m v) va vb ((vb - va) * lT va vb m 0).
Proof.
  intros H. pose proof (integral_rsum (S (S m)) (lbasis va vb) va vb (fun i => if (i =? 0)%nat then vb - va else 0) (lT va vb m) (fun i _ => xi_0 va vb i H)) as L.
  eapply integral_ext; [| |exact L]; [intros v; cbv beta; rewrite <- (lbasis_velocity va vb (S (S m)) m v H) by lia; reflexivity|].
  rewrite (rsum_single (S (S m)) 0); [cbn [Nat.eqb]; ring|lia|]. intros i _ N. destruct (Nat.eqb_spec i 0); [lia|ring].
Qed.
Lemma xi_vv va vb m : va < vb -> integral (fun v => v ^ 2 * lbasis va vb m v) va vb ((vb - va) * rsum (S (S m)) (fun k => lT va vb m k * lT va vb k 0)).
Proof.
  intros H. pose proof (integral_rsum (S (S m)) (fun i v => v * lbasis va vb i v) va vb (fun i => (vb - va) * lT va vb i 0) (lT va vb m) (fun i _ => xi_v va vb i H)) as L.
  eapply integral_ext; [| |exact L].
  - intros v. cbv beta. rewrite (rsum_ext _ _ (fun i => v * (lT va vb m i * lbasis va vb i v))) by (intros; ring). rewrite rsum_scal.
    rewrite <- (lbasis_velocity va vb (S (S m)) m v H) by lia. ring.
  - rewrite <- rsum_scal. apply rsum_ext. intros i _. ring.
Qed.
Lemma rsum_3 n f : (3 <= n)%nat -> (forall i, (3 <= i < n)%nat -> f i = 0) -> rsum n f = f 0%nat + f 1%nat + f 2%nat.
Proof.
  intros H Z. induction H as [|k H IH]; [cbn [rsum]; ring|]. cbn [rsum]. rewrite IH by (intros i Hi; apply Z; lia). rewrite (Z k) by lia. ring.
Qed.
Lemma lT_entries va vb : lT va vb 0 0 = lsigma_bar va vb /\ lT va vb 0 1 = lsigma va vb 1 /\ lT va vb 1 0 = lsigma va vb 1 /\ lT va vb 1 2 = lsigma va vb 2 /\
  lT va vb 2 1 = lsigma va vb 2 /\ lT va vb 1 1 = lsigma_bar va vb /\ lT va vb 2 0 = 0 /\ (forall m, (2 <= m)%nat -> lT va vb m 0 = 0) /\
  (forall m, (3 <= m)%nat -> lT va vb m 1 = 0).
Proof.
  unfold lT. cbn [Nat.eqb]. repeat split; try ring.
  - intros [|[|m]] H; [lia|lia|]. cbn [Nat.eqb]. ring.
  - intros [|[|[|m]]] H; [lia|lia|lia|]. cbn [Nat.eqb]. ring.
Qed.

(** For every coefficient vector (at least three modes in each basis) the three rows of the moment matrix are the density,
    the momentum and the kinetic energy of f = f0 + df. *)
Theorem C92_moments : forall alpha u va vb Nh Nl C B, 0 < alpha -> va < vb -> (3 <= Nh)%nat -> (3 <= Nl)%nat ->
  let M := moment_matrix alpha u (lT va vb) (vb - va) in
  velocity_moment alpha u va vb Nh Nl C B (fun _ => 1) (moments M C B 0) /\
  velocity_moment alpha u va vb Nh Nl C B (fun v => v) (moments M C B 1) /\
  velocity_moment alpha u va vb Nh Nl C B (fun v => 1 / 2 * v ^ 2) (moments M C B 2).
Proof.
  intros alpha u va vb Nh Nl C B Ha Hv HNh HNl M. destruct (lT_entries va vb) as (E00 & E01 & E10 & E12 & E21 & E11 & E20 & Z0 & Z1).
  split; [|split].
  - exists (rsum Nh (fun n => C n * (if (n =? 0)%nat then alpha else 0))), (rsum Nl (fun m => B m * (if (m =? 0)%nat then vb - va else 0))). split; [|split].
    + eapply line_ext; [| |apply (line_rsum Nh (psi alpha u) _ C (fun i _ => psi_integral alpha u i Ha))]; [intros v; unfold f0; ring|reflexivity].
    + eapply integral_ext; [| |apply (integral_rsum Nl (lbasis va vb) va vb _ B (fun i _ => xi_0 va vb i Hv))]; [intros v; unfold df; ring|reflexivity].
    + rewrite !rsum_3 by (first [lia | intros i Hi; destruct i; [lia|cbn [Nat.eqb]; ring]]).
      unfold moments, low6, M, moment_matrix. cbn [rsum nth Nat.ltb Nat.leb Nat.sub Nat.eqb]. ring.
  - exists (rsum Nh (fun n => C n * (match n with O => u * alpha | 1%nat => alpha ^ 2 / sqrt 2 | _ => 0 end))), (rsum Nl (fun m => B m * ((vb - va) * lT va vb m 0))). split; [|split].
    + eapply line_ext; [| |apply (line_rsum Nh (fun n v => v * psi alpha u n v) _ C (fun i _ => psi_v alpha u i Ha))];
        [intros v; unfold f0; cbv beta; rewrite <- rsum_scal; apply rsum_ext; intros; ring|reflexivity].
    + eapply integral_ext; [| |apply (integral_rsum Nl (fun n v => v * lbasis va vb n v) va vb _ B (fun i _ => xi_v va vb i Hv))];
        [intros v; unfold df; cbv beta; rewrite <- rsum_scal; apply rsum_ext; intros; ring|reflexivity].
    + rewrite (rsum_3 Nh) by (first [lia | intros [|[|i]] Hi; [lia|lia|ring]]). rewrite (rsum_3 Nl) by (first [lia | intros i Hi; rewrite Z0 by lia; ring]).
      unfold moments, low6, M, moment_matrix. cbn [rsum nth Nat.ltb Nat.leb Nat.sub]. rewrite E00, E01, E10, E20. ring.
  - exists (rsum Nh (fun n => C n * (1 / 2 * match n with O => alpha * (alpha ^ 2 / 2 + u ^ 2) | 1%nat => 2 * (alpha ^ 2 * u / sqrt 2) | 2%nat => alpha ^ 3 / sqrt 2 | _ => 0 end))),
      (rsum Nl (fun m => B m * (1 / 2 * ((vb - va) * rsum (S (S m)) (fun k => lT va vb m k * lT va vb k 0))))). split; [|split].
    + eapply line_ext; [| |apply (line_rsum Nh (fun n v => 1 / 2 * (v ^ 2 * psi alpha u n v) + 0 * 0) _ C (fun i _ => line_lin _ _ _ _ (1 / 2) 0 (psi_vv alpha u i Ha) line_zero))];
        [intros v; unfold f0; cbv beta; rewrite <- rsum_scal; apply rsum_ext; intros; ring|apply rsum_ext; intros; ring].
    + eapply integral_ext; [| |apply (integral_rsum Nl (fun n v => 1 / 2 * (v ^ 2 * lbasis va vb n v) + 0 * 0) va vb _ B (fun i _ => integral_lin _ _ _ _ _ _ (1 / 2) 0 (xi_vv va vb i Hv) (integral_zero va vb)))];
        [intros v; unfold df; cbv beta; rewrite <- rsum_scal; apply rsum_ext; intros; ring|apply rsum_ext; intros; ring].
    + assert (W0 : rsum 2 (fun k => lT va vb 0 k * lT va vb k 0) = lsigma_bar va vb ^ 2 + lsigma va vb 1 ^ 2) by (cbn [rsum]; rewrite E00, E01, E10; ring).
      assert (W1 : rsum 3 (fun k => lT va vb 1 k * lT va vb k 0) = 2 * lsigma va vb 1 * lsigma_bar va vb) by (cbn [rsum]; rewrite E00, E10, E11, E12, E20; ring).
      assert (W2 : rsum 4 (fun k => lT va vb 2 k * lT va vb k 0) = lsigma va vb 2 * lsigma va vb 1) by (cbn [rsum]; rewrite E00, E10, E20, E21, (Z0 3%nat) by lia; ring).
      rewrite (rsum_3 Nh) by (first [lia | intros [|[|[|i]]] Hi; [lia|lia|lia|ring]]).
      rewrite (rsum_3 Nl); [|lia|].
      2:{ intros i Hi. rewrite (rsum_ext (S (S i)) _ (fun _ => 0)); [rewrite rsum_zero; ring|]. intros k Hk. destruct (Nat.le_gt_cases 2 k) as [G|G]; [rewrite (Z0 k) by lia; ring|].
          destruct k as [|[|k]]; [rewrite (Z0 i) by lia; ring|rewrite (Z1 i) by lia; ring|lia]. }
      rewrite W0, W1, W2. unfold moments, low6, M, moment_matrix. cbn [rsum nth Nat.ltb Nat.leb Nat.sub]. rewrite E00, E01, E12.
      assert (0 < sqrt 2) by (apply sqrt_lt_R0; lra). field. lra.
Qed.
Print Assumptions C92_moments.

(** The saved mass, momentum and energy are the domain length times the moments of the mean coefficients (modes that do not
    exist count 0), plus the field energy 1/2 sum e^2 dx. *)
Definition cut (N : nat) (a : nat -> R) (n : nat) : R := if (n <? N)%nat then a n else 0.
Lemma sv_sigma_eq va vb : va < vb -> sv_sigma1 va vb = lsigma va vb 1 /\ sv_sigma2 va vb = lsigma va vb 2.
Proof.
  intros _. unfold sv_sigma1, sv_sigma2, lsigma. cbn [Nat.eqb]. change (INR 1) with 1. change (INR 2) with (1 + 1). split.
  - replace ((2 * 1 + 1) * (2 * 1 - 1)) with (3 * 1) by ring. reflexivity.
  - replace ((2 * (1 + 1) + 1) * (2 * (1 + 1) - 1)) with (5 * 3) by ring. replace (1 + 1) with 2 by ring. reflexivity.
Qed.
Theorem C92_saved_invariants : forall alpha u va vb Lx Nh Nl nx c b e, va < vb ->
  let M := moment_matrix alpha u (lT va vb) (vb - va) in
  sv_mass alpha va vb Lx Nh Nl c b = Lx * moments M (cut Nh c) (cut Nl b) 0 /\
  sv_momentum alpha u va vb Lx Nh Nl c b = Lx * moments M (cut Nh c) (cut Nl b) 1 /\
  sv_energy alpha u va vb Lx Nh Nl nx c b e = Lx * moments M (cut Nh c) (cut Nl b) 2 + 1 / 2 * rsum nx (fun g => e g ^ 2) * (Lx / INR nx).
Proof.
  intros alpha u va vb Lx Nh Nl nx c b e Hv M. destruct (lT_entries va vb) as (E00 & E01 & E10 & E12 & _). destruct (sv_sigma_eq va vb Hv) as [S1 S2].
  assert (I : forall N a n, intg Lx N a n = Lx * cut N a n) by (intros N a n; unfold intg, cut; destruct (n <? N)%nat; ring).
  assert (0 < sqrt 2) by (apply sqrt_lt_R0; lra). pose proof (sqrt_sqrt 2 ltac:(lra)) as Q2.
  unfold sv_mass, sv_momentum, sv_energy, sv_kinetic, sv_field. rewrite !I, S1, S2. unfold moments, low6, M, moment_matrix. cbn [rsum nth Nat.ltb Nat.leb Nat.sub]. rewrite E00, E01, E12.
  split; [|split]; [ring|field; lra|].
  assert (F : sqrt 2 * u * alpha = 2 * (u * alpha / sqrt 2)). { transitivity (sqrt 2 * sqrt 2 * (u * alpha / sqrt 2)); [field; lra|rewrite Q2; reflexivity]. } rewrite F. generalize (1 / 2 * rsum nx (fun g => e g ^ 2) * (Lx / INR nx)). intros w. field. lra.
Qed.
Print Assumptions C92_saved_invariants.

(* ------------------------------------------------------------------------------------------------ *)
(** * Truncation *)
Definition force_C (alpha : R) (C : nat -> R) (n : nat) : R := match n with O => 0 | S m => - (sqrt (2 * INR n) / alpha) * C m end.
Lemma rsum_S_match N (f : nat -> nat -> R) : (0 < N)%nat ->
  rsum N (fun n => match n with O => 0 | S m => f m n end) = rsum (N - 1) (fun m => f m (S m)).
Proof. intros H. destruct N as [|N]; [lia|]. rewrite rsum_shift. replace (S N - 1)%nat with N by lia. ring. Qed.

(** Streaming and forcing the Hermite part: v d_x f0 - E d_v f0 equals its Hermite expansion with the matrices alpha T_H and
    G_C, plus exactly one dropped term: alpha sqrt(Nh/2) (d_x C_{Nh-1} + (2/alpha^2) E C_{Nh-1}) psi_Nh, the source that
    _cross_coupling projects on the Legendre basis. *)
Theorem C92_closure : forall alpha u Nh C dC E v, 0 < alpha -> (0 < Nh)%nat ->
  derivable_pt_lim (f0 alpha u Nh C) v (rsum Nh (fun n => C n * (- (sqrt (2 * INR (S n)) / alpha) * psi alpha u (S n) v))) /\
  v * f0 alpha u Nh dC v - E * rsum Nh (fun n => C n * (- (sqrt (2 * INR (S n)) / alpha) * psi alpha u (S n) v))
  = rsum Nh (fun n => (alpha * rsum Nh (fun m => stream_T u alpha n m * dC m) - E * force_C alpha C n) * psi alpha u n v)
    + alpha * sqrt (INR Nh / 2) * (dC (Nh - 1)%nat + 2 / alpha ^ 2 * (E * C (Nh - 1)%nat)) * psi alpha u Nh v.
Proof.
  intros alpha u Nh C dC E v Ha HN. split.
  - unfold f0. apply (derive_rsum Nh (fun y n => C n * psi alpha u n y) (fun n => C n * (- (sqrt (2 * INR (S n)) / alpha) * psi alpha u (S n) v)) v).
    intros n Hn. apply (derivable_pt_lim_scal (psi alpha u n) (C n) v). apply psi_deriv. exact Ha.
  - destruct Nh as [|N]; [lia|]. replace (S N - 1)%nat with N by lia.
    assert (P1 : v * f0 alpha u (S N) dC v = rsum (S N) (fun n => alpha * rsum (S N) (fun m => stream_T u alpha n m * dC m) * psi alpha u n v) + alpha * sqrt (INR (S N) / 2) * dC N * psi alpha u (S N) v).
    { unfold f0. rewrite <- rsum_scal.
      rewrite (rsum_ext (S N) (fun i => v * (dC i * psi alpha u i v)) (fun i => alpha * rsum (S (S N)) (fun m => stream_T u alpha i m * (dC i * psi alpha u m v)))).
      2:{ intros i Hi. replace (v * (dC i * psi alpha u i v)) with (dC i * (v * psi alpha u i v)) by ring.
          rewrite (proj1 (proj2 (C92_hermite_functions alpha u i (S (S N)) v Ha ltac:(lia)))). rewrite (rsum_ext (S (S N)) (fun m => stream_T u alpha i m * (dC i * psi alpha u m v)) (fun m => dC i * (stream_T u alpha i m * psi alpha u m v))) by (intros; ring). rewrite rsum_scal. ring. }
      rewrite (rsum_ext (S N) _ (fun i => rsum (S N) (fun m => alpha * (stream_T u alpha i m * (dC i * psi alpha u m v))) + alpha * (stream_T u alpha i (S N) * (dC i * psi alpha u (S N) v)))).
      2:{ intros i Hi. rewrite <- rsum_scal. cbn [rsum]. ring. }
      rewrite rsum_plus. f_equal.
      - rewrite rsum_swap. apply rsum_ext. intros m Hm. rewrite (rsum_ext (S N) _ (fun i => alpha * psi alpha u m v * (stream_T u alpha m i * dC i))).
        + rewrite rsum_scal. ring.
        + intros i Hi. assert (Sy : stream_T u alpha i m = stream_T u alpha m i) by (unfold stream_T; rewrite (Nat.eqb_sym i m); destruct (Nat.eqb_spec m i) as [->|]; ring). rewrite Sy. ring.
      - rewrite (rsum_single (S N) N); [|lia|].
        + unfold stream_T. rewrite Nat.eqb_refl. destruct (Nat.eqb_spec N (S (S N))); [lia|]. destruct (Nat.eqb_spec N (S N)); [lia|]. rewrite S_INR. ring.
        + intros i Hi Ne. unfold stream_T. destruct (Nat.eqb_spec (S N) (S i)); [lia|]. destruct (Nat.eqb_spec i (S (S N))); [lia|]. destruct (Nat.eqb_spec i (S N)); [lia|]. ring. }
    assert (P2 : rsum (S N) (fun n => C n * (- (sqrt (2 * INR (S n)) / alpha) * psi alpha u (S n) v)) = rsum (S N) (fun n => force_C alpha C n * psi alpha u n v) + - (sqrt (2 * INR (S N)) / alpha) * C N * psi alpha u (S N) v).
    { rewrite (rsum_shift N (fun n => force_C alpha C n * psi alpha u n v)). cbn [force_C]. cbn [rsum].
      rewrite (rsum_ext N (fun i => C i * (- (sqrt (2 * INR (S i)) / alpha) * psi alpha u (S i) v)) (fun i => - (sqrt (2 * INR (S i)) / alpha) * C i * psi alpha u (S i) v)) by (intros; ring). ring. }
    rewrite P1, P2. rewrite (rsum_ext (S N) (fun n => (alpha * rsum (S N) (fun m => stream_T u alpha n m * dC m) - E * force_C alpha C n) * psi alpha u n v)
      (fun n => alpha * rsum (S N) (fun m => stream_T u alpha n m * dC m) * psi alpha u n v - E * (force_C alpha C n * psi alpha u n v))) by (intros; ring).
    rewrite rsum_minus, rsum_scal.
    assert (Q : sqrt (2 * INR (S N)) = 2 * sqrt (INR (S N) / 2)). { pose proof (half_sqrt N) as Q. rewrite <- (S_INR N) in Q. lra. }
    rewrite Q. field. lra.
Qed.
Print Assumptions C92_closure.

(** The Legendre matrices are the Galerkin projections on the window: for every df in the basis and every mode m < Nl,
    (1/w) int v df xi_m dv = (T_L B)_m and (1/w) int df' xi_m dv = [df xi_m] / w - (deriv B)_m. *)
Theorem C92_legendre_projection : forall va vb Nl B m, va < vb -> (m < Nl)%nat ->
  integral (fun v => v * df va vb Nl B v * lbasis va vb m v) va vb ((vb - va) * rsum Nl (fun n => lT va vb m n * B n)) /\
  exists df', (forall v, derivable_pt_lim (df va vb Nl B) v (df' v)) /\
    integral (fun v => df' v * lbasis va vb m v) va vb
      (df va vb Nl B vb * lbasis va vb m vb - df va vb Nl B va * lbasis va vb m va - (vb - va) * rsum Nl (fun i => lderiv va vb m i * B i)).
Proof.
  intros va vb Nl B m Hv Hm.
  assert (G : forall N c, (Nl <= N)%nat -> integral (fun v => df va vb Nl B v * rsum N (fun k => c k * lbasis va vb k v)) va vb ((vb - va) * rsum Nl (fun n => c n * B n))).
  { intros N c HN.
    pose proof (integral_rsum Nl (fun n v => rsum N (fun k => c k * (lbasis va vb n v * lbasis va vb k v))) va vb (fun n => rsum N (fun k => c k * (if (n =? k)%nat then vb - va else 0))) B
      (fun n _ => integral_rsum N (fun k v => lbasis va vb n v * lbasis va vb k v) va vb _ c (fun k _ => lbasis_orth va vb n k Hv))) as L.
    eapply integral_ext; [| |exact L].
    - intros v. cbv beta. unfold df. rewrite <- rsum_scal_r. apply rsum_ext. intros n Hn. rewrite (rsum_ext N _ (fun k => lbasis va vb n v * (c k * lbasis va vb k v))) by (intros; ring). rewrite rsum_scal. ring.
    - rewrite <- rsum_scal. apply rsum_ext. intros n Hn. rewrite (rsum_single N n); [rewrite Nat.eqb_refl; ring|lia|]. intros k _ Nk. destruct (Nat.eqb_spec n k); [lia|ring]. }
  split.
  - eapply integral_ext; [|reflexivity|apply (G (S (S Nl)) (lT va vb m) ltac:(lia))].
    intros v. cbv beta. rewrite <- (lbasis_velocity va vb (S (S Nl)) m v Hv) by lia. ring.
  - exists (fun v => rsum Nl (fun n => B n * rsum Nl (fun i => lderiv va vb n i * lbasis va vb i v))).
    assert (D : forall v, derivable_pt_lim (df va vb Nl B) v (rsum Nl (fun n => B n * rsum Nl (fun i => lderiv va vb n i * lbasis va vb i v)))).
    { intros v. unfold df. apply (derive_rsum Nl (fun y n => B n * lbasis va vb n y) (fun n => B n * rsum Nl (fun i => lderiv va vb n i * lbasis va vb i v)) v).
      intros n Hn. apply (derivable_pt_lim_scal (lbasis va vb n) (B n) v). apply lbasis_deriv; [exact Hv|lia]. }
    split; [exact D|]. destruct (G Nl (lderiv va vb m) (le_n _)) as (F & HF & EF).
    exists (fun v => df va vb Nl B v * lbasis va vb m v - F v). split.
    + intros v. match goal with |- derivable_pt_lim _ _ ?d => replace d with (d + df va vb Nl B v * rsum Nl (fun k => lderiv va vb m k * lbasis va vb k v) - df va vb Nl B v * rsum Nl (fun k => lderiv va vb m k * lbasis va vb k v)) by ring end.
      apply (derivable_pt_lim_minus (fun v => df va vb Nl B v * lbasis va vb m v) F v); [|apply HF].
      apply (derivable_pt_lim_mult (df va vb Nl B) (lbasis va vb m) v); [apply D|apply lbasis_deriv; [exact Hv|lia]].
    + rewrite <- EF. ring.
Qed.
Print Assumptions C92_legendre_projection.

(** The conservation gate: with enforce_conservation the coupling into the first three Legendre modes is exactly 0. *)
Theorem C92_coupling_gate : forall Nh alpha u va vb deg nodes weights m, (m < 3)%nat ->
  coupling_vec Nh alpha va vb (coupling_J Nh alpha u va vb deg nodes weights true) m = 0.
Proof. intros Nh alpha u va vb deg nodes weights m H. unfold coupling_vec, coupling_J. rewrite (proj2 (Nat.ltb_lt m 3) H). cbn [andb]. ring. Qed.
Print Assumptions C92_coupling_gate.

(** Without it the coupling is the quadrature of psi_Nh against xi_m. *)
Theorem C92_coupling_value : forall Nh alpha u va vb deg nodes weights (enforce : bool) m, (enforce = false \/ (3 <= m)%nat) ->
  coupling_vec Nh alpha va vb (coupling_J Nh alpha u va vb deg nodes weights enforce) m
  = - (alpha / (vb - va)) * sqrt (INR Nh / 2) * rsum deg (fun q => (vb - va) / 2 * weights q *
      (fun v => psi alpha u Nh v * lbasis va vb m v) ((vb - va) / 2 * nodes q + (vb + va) / 2)).
Proof.
  intros Nh alpha u va vb deg nodes weights enforce m H. unfold coupling_vec, coupling_J.
  assert (Eb : (enforce && (m <? 3)%nat)%bool = false). { destruct H as [->|H]; [reflexivity|]. rewrite (proj2 (Nat.ltb_ge m 3)) by lia. apply andb_false_r. }
  rewrite Eb. f_equal. apply rsum_ext. intros q _. cbv zeta. replace (1 / 2 * (vb - va) * nodes q + 1 / 2 * (vb + va)) with ((vb - va) / 2 * nodes q + (vb + va) / 2) by field.
  cbv beta. field.
Qed.
Print Assumptions C92_coupling_value.

(* ------------------------------------------------------------------------------------------------ *)
(** * Non-vacuity *)
(** A unit-density Maxwellian of thermal width alpha = sqrt 2 (C_0 = 1 / sqrt 2) plus a beam of density 1/10 uniform on [4, 6]. *)
Example C92_example : let M := moment_matrix (sqrt 2) 0 (lT 4 6) 2 in
  let C := fun n => if (n =? 0)%nat then / sqrt 2 else 0 in let B := fun m => if (m =? 0)%nat then 1 / 20 else 0 in
  moments M C B 0 = 1 + 1 / 10 /\ moments M C B 1 = 1 / 2 /\ moments M C B 2 = 1 / 2 + 1 / 20 * (76 / 3).
Proof.
  destruct (lT_entries 4 6) as (E00 & E01 & E10 & E12 & _). cbv zeta. unfold moments, low6, moment_matrix. cbn [rsum nth Nat.ltb Nat.leb Nat.sub Nat.eqb]. rewrite E00, E01, E12.
  assert (P : 0 < sqrt 2) by (apply sqrt_lt_R0; lra). pose proof (sqrt_sqrt 2 ltac:(lra)) as Q.
  assert (S1 : lsigma 4 6 1 ^ 2 = 1 / 3). { unfold lsigma. cbn [Nat.eqb]. change (INR 1) with 1. replace ((2 * 1 + 1) * (2 * 1 - 1)) with 3 by ring. pose proof (sqrt_sqrt 3 ltac:(lra)) as Q3. assert (0 < sqrt 3) by (apply sqrt_lt_R0; lra).
    replace (((6 - 4) / 2 * 1 / sqrt 3) ^ 2) with (1 / (sqrt 3 * sqrt 3)) by (field; lra). rewrite Q3. reflexivity. }
  unfold lsigma_bar. split; [|split].
  - field. lra.
  - field. lra.
  - rewrite S1. set (q := sqrt 2) in *. replace (q ^ 2) with 2 by (rewrite <- Q; ring). field. lra.
Qed.
