(** Property C102: the linearised Landau collision operator of Vlasov-1D2V. *)
From Coq Require Import Reals Lra Lia Psatz ZArith.
From Verif Require Import RSum VGrid VGridProofs DriftDiff DriftDiffProofs Cyl CylErf CylProofs.
Local Open Scope R_scope.

(** A velocity moment on the cylindrical grid: sum of X f over the cells, each with volume 2 pi v_perp dv_perp dv. *)
Definition moment (c : cyl) (X : nat -> nat -> R) (f : dist2) : R :=
  rsum (c_nv c) (fun i => rsum (c_nvp c) (fun j => X i j * f i j * (2 * PI * c_vp c j * c_dvp c * c_dv c))).
Definition one (i j : nat) : R := 1.
Definition velocity (c : cyl) (i j : nat) : R := c_v c i.
Definition speed2 (c : cyl) (i j : nat) : R := c_v c i ^ 2 + c_vp c j ^ 2.

(* ------------------------------------------------------------------------------------------------ *)
(** The perpendicular grid: midpoints of nvperp equal cells of (0, vperp_max); the weights are the exact areas of the
    rings, so they add up to the area of the disk. *)
Theorem C102_grid : forall nvp vmax, (0 < nvp)%nat -> 0 < vmax ->
  (forall j, (j < nvp)%nat -> perp_v nvp vmax j = (INR j + 1 / 2) * (vmax / INR nvp)) /\
  (forall j, (j < nvp)%nat -> perp_w nvp vmax j = PI * (INR (S j) * (vmax / INR nvp)) ^ 2 - PI * (INR j * (vmax / INR nvp)) ^ 2) /\
  rsum nvp (perp_w nvp vmax) = PI * vmax ^ 2.
Proof.
  intros nvp vmax Hn Hv. assert (Hi : 0 < INR nvp) by (apply lt_0_INR; lia).
  assert (A : forall j, (j < nvp)%nat -> perp_v nvp vmax j = (INR j + 1 / 2) * (vmax / INR nvp)).
  { intros j Hj. unfold perp_v, perp_dv, linspace. destruct (Nat.leb_spec nvp 1).
    - assert (nvp = 1)%nat as -> by lia. assert (j = 0)%nat as -> by lia. cbn [INR]. field.
    - assert (E : INR nvp = INR (nvp - 1) + 1) by (rewrite <- S_INR; f_equal; lia). assert (0 < INR (nvp - 1)) by (apply lt_0_INR; lia). rewrite E. field. lra. }
  assert (B : forall j, (j < nvp)%nat -> perp_w nvp vmax j = PI * (INR (S j) * (vmax / INR nvp)) ^ 2 - PI * (INR j * (vmax / INR nvp)) ^ 2).
  { intros j Hj. unfold perp_w. rewrite (A j Hj). unfold perp_dv. rewrite S_INR. field. lra. }
  repeat split; auto. rewrite (rsum_ext _ _ (fun j => (fun l => PI * (INR l * (vmax / INR nvp)) ^ 2) (S j) - (fun l => PI * (INR l * (vmax / INR nvp)) ^ 2) j)) by (intros; now apply B).
  rewrite (rsum_telescope nvp (fun l => PI * (INR l * (vmax / INR nvp)) ^ 2)). change (INR 0) with 0. field. lra.
Qed.
Print Assumptions C102_grid.
Example C102_grid_nonvacuous : rsum 3 (perp_w 3 6) = PI * 6 ^ 2 /\ perp_v 3 6 2 = 5.
Proof. destruct (C102_grid 3 6 ltac:(lia) ltac:(lra)) as (A & _ & B). split; [exact B|]. rewrite A by lia. cbn [INR]. lra. Qed.

(* ------------------------------------------------------------------------------------------------ *)
(** The diffusion tensor: for every relative velocity (a, b) other than zero and every direction (x, y), the quadratic
    form is the speed channel along (a, b) plus the Lorentz channel across it, with positive coefficients; in
    particular it is nonnegative and |D_pq|^2 <= D_pp D_qq. *)
Theorem C102_tensor : forall c a b T, (a <> 0 \/ b <> 0) ->
  exists dpar dperp, 0 < dpar /\ 0 < dperp /\
    dpar = dhat_par (sqrt (a ^ 2 + b ^ 2 + 1 / 10 ^ 30) / sqrt T) /\ dperp = dhat_perp (sqrt (a ^ 2 + b ^ 2 + 1 / 10 ^ 30) / sqrt T) /\
    (forall x y, x ^ 2 * d_pp c a b T + 2 * x * y * d_pq c a b T + y ^ 2 * d_qq c a b T =
      (c_speed c * dpar * (x * a + y * b) ^ 2 + c_lorentz c * dperp * (x * b - y * a) ^ 2) / (a ^ 2 + b ^ 2)) /\
    (0 <= c_speed c -> 0 <= c_lorentz c -> d_pq c a b T ^ 2 <= d_pp c a b T * d_qq c a b T).
Proof.
  intros c a b T H. set (s := sqrt (a ^ 2 + b ^ 2 + 1 / 10 ^ 30) / sqrt T). exists (dhat_par s), (dhat_perp s).
  assert (S : 0 < a ^ 2 + b ^ 2) by (destruct H; nra). split; [apply dhat_par_pos|]. split; [apply dhat_perp_pos|]. do 2 (split; [reflexivity|]).
  pose proof (dhat_par_pos s) as P. pose proof (dhat_perp_pos s) as Q. unfold d_pp, d_pq, d_qq, tensor. cbn [fst snd]. fold s. split; [intros; field; lra|].
  intros A B. set (p := c_speed c * dhat_par s). set (q := c_lorentz c * dhat_perp s). assert (0 <= p) by (apply Rmult_le_pos; lra). assert (0 <= q) by (apply Rmult_le_pos; lra).
  apply Rminus_le. replace (((p - q) * a * b / (a ^ 2 + b ^ 2)) ^ 2 - (p * a ^ 2 + q * b ^ 2) / (a ^ 2 + b ^ 2) * ((p * b ^ 2 + q * a ^ 2) / (a ^ 2 + b ^ 2))) with (- (p * q)) by (field; lra).
  assert (0 <= p * q) by (apply Rmult_le_pos; assumption). lra.
Qed.
Print Assumptions C102_tensor.

(* ------------------------------------------------------------------------------------------------ *)
(** A nonnegative distribution with some particles has a positive temperature. *)
Theorem C102_temperature : forall c f, proper c -> (forall i j, (i < c_nv c)%nat -> (j < c_nvp c)%nat -> 0 <= f i j) -> 0 < m_n c f -> 0 < m_T c f.
Proof.
  intros c f P F N. unfold m_T. apply Rdiv_lt_0_compat; [|lra].
  assert (NN : forall i j, (i < c_nv c)%nat -> (j < c_nvp c)%nat -> 0 <= f i j * (((c_v c i - m_u c f) ^ 2 + c_vp c j ^ 2) * c_w c i j)).
  { intros i j Hi Hj. apply Rmult_le_pos; [now apply F|]. pose proof (w_pos c i j P Hj). apply Rmult_le_pos; [|lra]. pose proof (pow2_ge_0 (c_v c i - m_u c f)). pose proof (pow2_ge_0 (c_vp c j)). lra. }
  pose proof (sum2_nonneg c _ NN) as A.
  destruct (Rle_lt_or_eq_dec _ _ A) as [L|E]; [exact L|exfalso]. symmetry in E.
  assert (Z : forall i j, (i < c_nv c)%nat -> (j < c_nvp c)%nat -> f i j = 0).
  { intros i j Hi Hj. pose proof (sum2_zero c _ NN E i j Hi Hj) as Q. cbv beta in Q.
    pose proof (w_pos c i j P Hj). pose proof (vp_pos c j P Hj). pose proof (pow2_ge_0 (c_v c i - m_u c f)). assert (0 < c_vp c j ^ 2) by (apply pow_lt; assumption).
    apply Rmult_integral in Q. destruct Q as [Q|Q]; [exact Q|exfalso]. apply Rmult_integral in Q. lra. }
  assert (m_n c f = 0); [|lra]. unfold m_n, sum2. rewrite <- (rsum_zero (c_nv c)). apply rsum_ext. intros i Hi. rewrite <- (rsum_zero (c_nvp c)). apply rsum_ext. intros j Hj. rewrite (Z i j Hi Hj). ring.
Qed.
Print Assumptions C102_temperature.

(** Existence and uniqueness of the step. *)
Theorem C102_well_posed : forall c nu dt f, proper c -> 0 <= m_n c f -> 0 <= dt * nu ->
  (exists f', cyl_apply c nu dt f f') /\
  (forall f1 f2, cyl_apply c nu dt f f1 -> cyl_apply c nu dt f f2 -> forall i j, (i < c_nv c)%nat -> (j < c_nvp c)%nat -> f1 i j = f2 i j).
Proof.
  intros c nu dt f P N H. split.
  - destruct (par_exists c (m_n c f) (m_u c f) (m_T c f) (dt * nu) f P N H) as (g1 & G1). destruct (perp_exists c (m_n c f) (m_u c f) (m_T c f) (dt * nu) g1 P N H) as (g2 & G2).
    set (h := Nat.iter (n_sub c) (explicit_step c (m_n c f) (m_u c f) (m_T c f) (dt * nu)) g2).
    exists (fun i j => if c_restore c then restored c f h i j else h i j), h. split; [|reflexivity]. exists g1, g2. split; [exact G1|]. split; [exact G2|]. reflexivity.
  - intros f1 f2 (h & (a1 & a2 & A1 & A2 & A3) & A4) (h' & (b1 & b2 & B1 & B2 & B3) & B4) i j Hi Hj.
    pose proof (par_unique c _ _ _ _ _ _ _ _ P N H (fun _ _ _ _ => eq_refl) A1 B1) as E1. pose proof (perp_unique c _ _ _ _ _ _ _ _ P N H E1 A2 B2) as E2.
    assert (E3 : cells c h h') by (intros k l Hk Hl; rewrite (A3 k l Hk Hl), (B3 k l Hk Hl); exact (iter_ext c _ _ _ _ _ _ _ E2 k l Hk Hl)).
    rewrite (A4 i j Hi Hj), (B4 i j Hi Hj). destruct (c_restore c); [|now apply E3]. unfold restored. rewrite (E3 i j Hi Hj).
    rewrite (sum2_ext c (fun i j => (h i j - f i j) * mom_v c i j) (fun i j => (h' i j - f i j) * mom_v c i j)) by (intros k l Hk Hl; now rewrite (E3 k l Hk Hl)).
    rewrite (sum2_ext c (fun i j => (h i j - f i j) * mom_e c i j) (fun i j => (h' i j - f i j) * mom_e c i j)) by (intros k l Hk Hl; now rewrite (E3 k l Hk Hl)). reflexivity.
Qed.
Print Assumptions C102_well_posed.

(* ------------------------------------------------------------------------------------------------ *)
(** ** The restoration *)
Section Restoration.
Variables (c : cyl) (u T : R).
Hypothesis (P : proper c).
Definition hat_sum : R := sum2 c (fun k l => maxwell c u T k l * c_w c k l).
Lemma hat_sum_pos : 0 < hat_sum.
Proof. apply sum2_pos; [exact (pr_nv c P)|exact (pr_nvp c P)|]. intros i j Hi Hj. apply Rmult_lt_0_compat; [apply maxwell_pos|now apply w_pos]. Qed.
Definition mu (i j : nat) : R := m_hat c u T i j * c_w c i j.
Lemma mu_pos i j : (j < c_nvp c)%nat -> 0 < mu i j.
Proof. intros Hj. unfold mu, m_hat. apply Rmult_lt_0_compat; [apply Rdiv_lt_0_compat; [apply maxwell_pos|exact hat_sum_pos]|now apply w_pos]. Qed.
Definition E (h : dist2) : R := sum2 c (fun i j => h i j * mu i j).
Lemma E_one : E (fun _ _ => 1) = 1.
Proof.
  unfold E, mu, m_hat. fold hat_sum. rewrite (sum2_ext c _ (fun i j => / hat_sum * (maxwell c u T i j * c_w c i j))) by (intros; unfold Rdiv; ring). rewrite sum2_scal. fold hat_sum. apply Rinv_l. pose proof hat_sum_pos. lra.
Qed.
Lemma E_plus f g : E (fun i j => f i j + g i j) = E f + E g.
Proof. unfold E. rewrite <- sum2_plus. apply sum2_ext. intros. ring. Qed.
Lemma E_scal k f : E (fun i j => k * f i j) = k * E f.
Proof. unfold E. rewrite <- sum2_scal. apply sum2_ext. intros. ring. Qed.
Lemma E_ext f g : (forall i j, (i < c_nv c)%nat -> (j < c_nvp c)%nat -> f i j = g i j) -> E f = E g.
Proof. intros H. apply sum2_ext. intros i j Hi Hj. now rewrite (H i j Hi Hj). Qed.
Definition X (i j : nat) : R := c_v c i - u - E (fun k _ => c_v c k - u).
Definition Y (i j : nat) : R := s2_of c u i j - E (s2_of c u).
Lemma centred_mean f : E (fun i j => f i j - E f) = 0.
Proof. rewrite (E_ext _ (fun i j => f i j + (- E f) * 1)) by (intros; ring). rewrite E_plus, (E_scal (- E f) (fun _ _ => 1)), E_one. ring. Qed.
Lemma EX : E X = 0. Proof. exact (centred_mean (fun k _ => c_v c k - u)). Qed.
Lemma EY : E Y = 0. Proof. exact (centred_mean (s2_of c u)). Qed.
Lemma phi1_X i j : phi1 c u T i j = X i j * m_hat c u T i j.
Proof. unfold phi1, X, E. rewrite (sum2_ext c (fun k l => (c_v c k - u) * m_hat c u T k l * c_w c k l) (fun i j => (c_v c i - u) * mu i j)) by (intros; unfold mu; ring). ring. Qed.
Lemma phi2_Y i j : phi2 c u T i j = Y i j * m_hat c u T i j.
Proof. unfold phi2, Y, E. rewrite (sum2_ext c (fun k l => s2_of c u k l * m_hat c u T k l * c_w c k l) (fun i j => s2_of c u i j * mu i j)) by (intros; unfold mu; ring). ring. Qed.
Definition V := E (fun i j => X i j * X i j).
Definition K := E (fun i j => Y i j * Y i j).
Definition C := E (fun i j => X i j * Y i j).
Lemma against f g k1 k2 k3 : (forall i j, g i j = k1 * X i j + k2 * Y i j + k3) -> E f = 0 ->
  E (fun i j => f i j * g i j) = k1 * E (fun i j => f i j * X i j) + k2 * E (fun i j => f i j * Y i j).
Proof.
  intros G F. rewrite (E_ext _ (fun i j => (k1 * (f i j * X i j) + k2 * (f i j * Y i j)) + k3 * f i j)) by (intros; rewrite G; ring).
  rewrite (E_plus (fun i j => k1 * (f i j * X i j) + k2 * (f i j * Y i j)) (fun i j => k3 * f i j)), E_plus, !E_scal, F. ring.
Qed.
Lemma a11_V : sum2 c (fun i j => phi1 c u T i j * mom_v c i j) = V.
Proof.
  transitivity (E (fun i j => X i j * c_v c i)); [unfold E; apply sum2_ext; intros; rewrite phi1_X; unfold mom_v, mu; ring|].
  rewrite (against X (fun i _ => c_v c i) 1 0 (u + E (fun k _ => c_v c k - u))); [unfold V; ring|intros; unfold X; ring|exact EX].
Qed.
Lemma a12_C : sum2 c (fun i j => phi2 c u T i j * mom_v c i j) = C.
Proof.
  transitivity (E (fun i j => Y i j * c_v c i)); [unfold E; apply sum2_ext; intros; rewrite phi2_Y; unfold mom_v, mu; ring|].
  rewrite (against Y (fun i _ => c_v c i) 1 0 (u + E (fun k _ => c_v c k - u))); [|intros; unfold X; ring|exact EY].
  unfold C. rewrite (E_ext (fun i j => Y i j * X i j) (fun i j => X i j * Y i j)) by (intros; ring). ring.
Qed.
Lemma energy_split i j : c_v c i ^ 2 + c_vp c j ^ 2 = 2 * u * X i j + 1 * Y i j + (E (s2_of c u) + 2 * u * E (fun k _ => c_v c k - u) + u ^ 2).
Proof. unfold X, Y, s2_of at 1. ring. Qed.
Lemma a21_C : sum2 c (fun i j => phi1 c u T i j * mom_e c i j) = C + 2 * u * V.
Proof.
  transitivity (E (fun i j => X i j * (c_v c i ^ 2 + c_vp c j ^ 2))); [unfold E; apply sum2_ext; intros; rewrite phi1_X; unfold mom_e, mu; ring|].
  rewrite (against X (fun i j => c_v c i ^ 2 + c_vp c j ^ 2) _ _ _ energy_split EX). unfold C, V. ring.
Qed.
Lemma a22_K : sum2 c (fun i j => phi2 c u T i j * mom_e c i j) = K + 2 * u * C.
Proof.
  transitivity (E (fun i j => Y i j * (c_v c i ^ 2 + c_vp c j ^ 2))); [unfold E; apply sum2_ext; intros; rewrite phi2_Y; unfold mom_e, mu; ring|].
  rewrite (against Y (fun i j => c_v c i ^ 2 + c_vp c j ^ 2) _ _ _ energy_split EY). unfold C, K. rewrite (E_ext (fun i j => Y i j * X i j) (fun i j => X i j * Y i j)) by (intros; ring). ring.
Qed.
Lemma square_pos (h : dist2) i j i' j' : (i < c_nv c)%nat -> (j < c_nvp c)%nat -> (i' < c_nv c)%nat -> (j' < c_nvp c)%nat -> h i j <> h i' j' -> 0 < E (fun k l => h k l * h k l).
Proof.
  intros Hi Hj Hi' Hj' N. assert (Q : forall k l, (k < c_nv c)%nat -> (l < c_nvp c)%nat -> 0 <= h k l * h k l * mu k l) by (intros k l Hk Hl; apply Rmult_le_pos; [nra|apply Rlt_le, mu_pos, Hl]).
  pose proof (sum2_nonneg c _ Q) as S. destruct (Rle_lt_or_eq_dec _ _ S) as [L|Z]; [exact L|exfalso]. symmetry in Z.
  assert (W : forall k l, (k < c_nv c)%nat -> (l < c_nvp c)%nat -> h k l = 0).
  { intros k l Hk Hl. pose proof (sum2_zero c _ Q Z k l Hk Hl) as R0. cbv beta in R0. apply Rmult_integral in R0. destruct R0 as [R0|R0]; [nra|]. pose proof (mu_pos k l Hl). lra. }
  apply N. rewrite (W i j Hi Hj), (W i' j' Hi' Hj'). reflexivity.
Qed.
Lemma gram_pos : (2 <= c_nv c)%nat -> (2 <= c_nvp c)%nat -> 0 < V * K - C * C.
Proof.
  intros Hv Hp. assert (HV : 0 < V).
  { apply (square_pos X 0 0 1 0); try lia. unfold X. rewrite (pr_v c P 0) by lia. pose proof (pr_dv c P). lra. }
  set (r := C / V). assert (HK : 0 < E (fun i j => (Y i j - r * X i j) * (Y i j - r * X i j))).
  { apply (square_pos (fun i j => Y i j - r * X i j) 0 0 0 1); try lia. unfold Y, X, s2_of. rewrite (pr_vp c P 0), (pr_vp c P 1) by lia. cbn [INR]. pose proof (pr_dvp c P). nra. }
  assert (EK : E (fun i j => (Y i j - r * X i j) * (Y i j - r * X i j)) = K - C * C / V).
  { rewrite (E_ext _ (fun i j => (Y i j * Y i j + (- 2 * r) * (X i j * Y i j)) + r * r * (X i j * X i j))) by (intros; ring).
    rewrite (E_plus (fun i j => Y i j * Y i j + (- 2 * r) * (X i j * Y i j)) (fun i j => r * r * (X i j * X i j))), E_plus, !E_scal. fold K C V. unfold r. field. lra. }
  rewrite EK in HK. replace (V * K - C * C) with (V * (K - C * C / V)) by (field; lra). now apply Rmult_lt_0_compat.
Qed.
End Restoration.

Lemma moment_sum2 c Z f : proper c -> moment c Z f = sum2 c (fun i j => f i j * (Z i j * c_w c i j)).
Proof. intros P. unfold moment, sum2. apply rsum_ext. intros i Hi. apply rsum_ext. intros j Hj. unfold c_w. rewrite (pr_wp c P j Hj). ring. Qed.
Lemma moment_n c f : proper c -> moment c one f = m_n c f.
Proof. intros P. rewrite moment_sum2 by exact P. apply sum2_ext. intros. unfold one. ring. Qed.

(** The restoration: the determinant of its 2x2 system is positive, so momentum and energy are put back exactly
    whatever the step did, and the density is left as the step made it. *)
Theorem C102_restoration : forall c f h, proper c -> (2 <= c_nv c)%nat -> (2 <= c_nvp c)%nat ->
  moment c one (restored c f h) = moment c one h /\
  moment c (velocity c) (restored c f h) = moment c (velocity c) f /\
  moment c (speed2 c) (restored c f h) = moment c (speed2 c) f.
Proof.
  intros c f h P Hv Hp. rewrite !moment_sum2 by exact P. unfold restored. set (u := m_u c f). set (T := m_T c f).
  rewrite (a11_V c u T P), (a12_C c u T P), (a21_C c u T P), (a22_K c u T P).
  set (dj := sum2 c (fun i j => (h i j - f i j) * mom_v c i j)). set (de := sum2 c (fun i j => (h i j - f i j) * mom_e c i j)).
  pose proof (gram_pos c u T P Hv Hp) as G. set (v := V c u T) in *. set (k := K c u T) in *. set (q := C c u T) in *.
  assert (D : v * (k + 2 * u * q) - q * (q + 2 * u * v) <> 0) by (replace (v * (k + 2 * u * q) - q * (q + 2 * u * v)) with (v * k - q * q) by ring; lra).
  set (b := (- dj * (k + 2 * u * q) + de * q) / (v * (k + 2 * u * q) - q * (q + 2 * u * v))). set (m := (- de * v + dj * (q + 2 * u * v)) / (v * (k + 2 * u * q) - q * (q + 2 * u * v))).
  assert (S : forall Z, sum2 c (fun i j => (h i j + b * phi1 c u T i j + m * phi2 c u T i j) * (Z i j * c_w c i j)) =
    sum2 c (fun i j => h i j * (Z i j * c_w c i j)) + b * sum2 c (fun i j => phi1 c u T i j * (Z i j * c_w c i j)) + m * sum2 c (fun i j => phi2 c u T i j * (Z i j * c_w c i j))).
  { intros Z. rewrite <- !sum2_scal, <- !sum2_plus. apply sum2_ext. intros. ring. }
  rewrite !S. repeat split.
  - assert (A : sum2 c (fun i j => phi1 c u T i j * (one i j * c_w c i j)) = 0) by (rewrite <- (EX c u T P); unfold E; apply sum2_ext; intros; rewrite phi1_X by exact P; unfold mu, one; ring).
    assert (B : sum2 c (fun i j => phi2 c u T i j * (one i j * c_w c i j)) = 0) by (rewrite <- (EY c u T P); unfold E; apply sum2_ext; intros; rewrite phi2_Y by exact P; unfold mu, one; ring). rewrite A, B. ring.
  - change (fun i j => phi1 c u T i j * (velocity c i j * c_w c i j)) with (fun i j => phi1 c u T i j * mom_v c i j). change (fun i j => phi2 c u T i j * (velocity c i j * c_w c i j)) with (fun i j => phi2 c u T i j * mom_v c i j).
    rewrite (a11_V c u T P), (a12_C c u T P). fold v q. assert (J : sum2 c (fun i j => h i j * (velocity c i j * c_w c i j)) = sum2 c (fun i j => f i j * (velocity c i j * c_w c i j)) + dj).
    { unfold dj. rewrite <- sum2_plus. apply sum2_ext. intros. unfold mom_v, velocity. ring. } rewrite J.
    assert (b * v + m * q = - dj); [unfold b, m; field; exact D|lra].
  - change (fun i j => phi1 c u T i j * (speed2 c i j * c_w c i j)) with (fun i j => phi1 c u T i j * mom_e c i j). change (fun i j => phi2 c u T i j * (speed2 c i j * c_w c i j)) with (fun i j => phi2 c u T i j * mom_e c i j).
    rewrite (a21_C c u T P), (a22_K c u T P). fold v q k. assert (J : sum2 c (fun i j => h i j * (speed2 c i j * c_w c i j)) = sum2 c (fun i j => f i j * (speed2 c i j * c_w c i j)) + de).
    { unfold de. rewrite <- sum2_plus. apply sum2_ext. intros. unfold mom_e, speed2. ring. } rewrite J.
    assert (b * (q + 2 * u * v) + m * (k + 2 * u * q) = - de); [unfold b, m; field; exact D|lra].
Qed.
Print Assumptions C102_restoration.

(** One collision step: the density always, momentum and energy when the restoration is on; then the bulk velocity and
    the temperature that the next step measures are unchanged. *)
Theorem C102_conservation : forall c nu dt f f', proper c -> cyl_apply c nu dt f f' ->
  (c_restore c = true -> (2 <= c_nv c)%nat /\ (2 <= c_nvp c)%nat) ->
  moment c one f' = moment c one f /\
  (c_restore c = true -> moment c (velocity c) f' = moment c (velocity c) f /\ moment c (speed2 c) f' = moment c (speed2 c) f /\
     m_n c f' = m_n c f /\ m_u c f' = m_u c f /\ m_T c f' = m_T c f).
Proof.
  intros c nu dt f f' P (h & A & B) G.
  assert (EX : forall Z g, cells c f' g -> moment c Z f' = moment c Z g) by (intros Z g H; unfold moment; apply rsum_ext; intros i Hi; apply rsum_ext; intros j Hj; now rewrite (H i j Hi Hj)).
  pose proof (call_density c nu dt f h P A) as D. destruct (c_restore c) eqn:R.
  - destruct (G eq_refl) as (Hv & Hp). destruct (C102_restoration c f h P Hv Hp) as (R0 & R1 & R2).
    assert (N : moment c one f' = moment c one f) by (rewrite (EX one _ B), R0, !moment_n by exact P; exact D). split; [exact N|]. intros _.
    assert (J : moment c (velocity c) f' = moment c (velocity c) f) by (rewrite (EX (velocity c) _ B); exact R1). assert (W : moment c (speed2 c) f' = moment c (speed2 c) f) by (rewrite (EX (speed2 c) _ B); exact R2).
    assert (N' : m_n c f' = m_n c f) by (rewrite <- !moment_n by exact P; exact N).
    assert (U : m_u c f' = m_u c f).
    { unfold m_u. rewrite N'. f_equal. rewrite !moment_sum2 in J by exact P. exact J. }
    repeat split; auto. unfold m_T. rewrite U, N'. f_equal. set (u := m_u c f).
    assert (S : forall g, sum2 c (fun i j => g i j * (((c_v c i - u) ^ 2 + c_vp c j ^ 2) * c_w c i j)) = moment c (speed2 c) g - 2 * u * moment c (velocity c) g + u ^ 2 * moment c one g).
    { intros g. rewrite !moment_sum2 by exact P. rewrite <- !sum2_scal, <- sum2_minus, <- sum2_plus. apply sum2_ext. intros. unfold speed2, velocity, one. ring. }
    rewrite !S, N, J, W. reflexivity.
  - split; [|discriminate]. rewrite (EX one _ B), !moment_n by exact P. exact D.
Qed.
Print Assumptions C102_conservation.

(** A sampled Maxwellian whose parameters are the measured bulk velocity and temperature is a fixed point: for every
    channel mix, number of substeps, collision frequency and time step, with or without the restoration. *)
Theorem C102_maxwellian : forall c nu dt f f' A, proper c -> 0 <= m_n c f -> 0 <= dt * nu ->
  (forall i j, (i < c_nv c)%nat -> (j < c_nvp c)%nat -> f i j = A * exp (- ((c_v c i - m_u c f) ^ 2 + c_vp c j ^ 2) / (2 * m_T c f))) ->
  cyl_apply c nu dt f f' -> forall i j, (i < c_nv c)%nat -> (j < c_nvp c)%nat -> f' i j = f i j.
Proof.
  intros c nu dt f f' A P N H M Hs. change (cells c f (fun i j => A * maxwell c (m_u c f) (m_T c f) i j)) in M.
  set (n := m_n c f) in *. set (u := m_u c f) in *. set (T := m_T c f) in *.
  assert (K : cells c (Nat.iter (n_sub c) (explicit_step c n u T (dt * nu)) f) f).
  { generalize (n_sub c) as k. induction k as [|k IH]; [intros i j _ _; reflexivity|]. intros i j Hi Hj. change (explicit_step c n u T (dt * nu) (Nat.iter k (explicit_step c n u T (dt * nu)) f) i j = f i j).
    rewrite (explicit_ext c n u T (dt * nu) _ f IH i j Hi Hj). exact (explicit_maxwell c n u T (dt * nu) f A M i j Hi Hj). }
  destruct Hs as (h & (f1 & f2 & H1 & H2 & H3) & H4). fold n u T in H1, H2, H3.
  pose proof (par_unique c n u T (dt * nu) f f _ _ P N H (fun _ _ _ _ => eq_refl) H1 (par_maxwell c n u T (dt * nu) f A M)) as E1.
  pose proof (perp_unique c n u T (dt * nu) f1 f _ _ P N H E1 H2 (perp_maxwell c n u T (dt * nu) f A M)) as E2.
  assert (E3 : cells c h f) by (intros i j Hi Hj; rewrite (H3 i j Hi Hj), (iter_ext c n u T (dt * nu) (n_sub c) f2 f E2 i j Hi Hj); now apply K).
  intros i j Hi Hj. rewrite (H4 i j Hi Hj). destruct (c_restore c); [|now apply E3]. unfold restored. rewrite (E3 i j Hi Hj).
  assert (Z : forall m, sum2 c (fun i j => (h i j - f i j) * m i j) = 0).
  { intros m. unfold sum2. rewrite <- (rsum_zero (c_nv c)). apply rsum_ext. intros k Hk. rewrite <- (rsum_zero (c_nvp c)). apply rsum_ext. intros l Hl. rewrite (E3 k l Hk Hl). ring. }
  rewrite (Z (mom_v c)), (Z (mom_e c)). unfold Rdiv. ring.
Qed.
Print Assumptions C102_maxwellian.

(** Each implicit sweep keeps a nonnegative distribution nonnegative, conserves the density of every line it acts on,
    and does not increase the weighted distance from any multiple of the bulk Maxwellian. *)
Definition distance (c : cyl) (u T A : R) (f : dist2) : R :=
  rsum (c_nv c) (fun i => rsum (c_nvp c) (fun j => c_vp c j * ((f i j - A * maxwell c u T i j) ^ 2 / maxwell c u T i j))).
Theorem C102_sweeps : forall c n u T nudt f g, proper c -> 0 <= n -> 0 <= nudt ->
  (par_sweep c n u T nudt f g \/ perp_sweep c n u T nudt f g) ->
  ((forall i j, (i < c_nv c)%nat -> (j < c_nvp c)%nat -> 0 <= f i j) -> forall i j, (i < c_nv c)%nat -> (j < c_nvp c)%nat -> 0 <= g i j) /\
  (par_sweep c n u T nudt f g -> forall j, (j < c_nvp c)%nat -> rsum (c_nv c) (fun i => g i j) = rsum (c_nv c) (fun i => f i j)) /\
  (perp_sweep c n u T nudt f g -> forall i, (i < c_nv c)%nat -> rsum (c_nvp c) (fun j => c_vp c j * g i j) = rsum (c_nvp c) (fun j => c_vp c j * f i j)) /\
  (forall A, distance c u T A g <= distance c u T A f).
Proof.
  intros c n u T nudt f g P N H S. split; [|split; [|split]].
  - destruct S as [S|S]; [exact (par_nonneg c n u T nudt f g P N H S)|exact (perp_nonneg c n u T nudt f g P N H S)].
  - intros Q j Hj. exact (par_slice c n u T nudt f g j Q Hj).
  - intros Q i Hi. exact (perp_slice c n u T nudt f g i P Q Hi).
  - intros A. set (AM := fun i j => A * maxwell c u T i j). assert (EM : cells c AM (fun i j => A * maxwell c u T i j)) by (intros i j _ _; reflexivity). unfold distance. destruct S as [S|S].
    + rewrite (rsum_swap (c_nv c)), (rsum_swap (c_nv c)). apply rsum_le. intros j Hj. rewrite !rsum_scal. apply Rmult_le_compat_l; [apply Rlt_le; now apply vp_pos|].
      pose proof (step_dissipates (c_nv c) nudt (fun _ => 1) (fun i => par_c c n u T i j) (fun i => maxwell c u T i j) (fun _ => 1) (fun i => f i j - AM i j) (fun i => g i j - AM i j)) as D.
      rewrite (rsum_ext _ (fun i => (g i j - A * maxwell c u T i j) ^ 2 / maxwell c u T i j) (fun i => 1 * ((g i j - AM i j) ^ 2 / maxwell c u T i j))) by (intros; unfold AM; ring).
      rewrite (rsum_ext _ (fun i => (f i j - A * maxwell c u T i j) ^ 2 / maxwell c u T i j) (fun i => 1 * ((f i j - AM i j) ^ 2 / maxwell c u T i j))) by (intros; unfold AM; ring).
      apply D; [intros; apply maxwell_pos|intros; apply par_c_nonneg; [apply P|apply P|apply P|exact N]|exact H|intros; lra|].
      intros i Hi. rewrite mv_minus. pose proof (S j Hj i Hi) as S1. pose proof (par_maxwell c n u T nudt AM A EM j Hj i Hi) as S2. rewrite par_mv in S1, S2. rewrite <- S1, <- S2. reflexivity.
    + apply rsum_le. intros i Hi.
      apply (step_dissipates (c_nvp c) nudt (fun l => / c_vp c l) (fun j => perp_c c n u T i j) (fun j => maxwell c u T i j) (c_vp c) (fun j => f i j - AM i j) (fun j => g i j - AM i j));
        [intros; apply maxwell_pos|intros; now apply perp_c_nonneg|exact H|intros j Hj; pose proof (vp_pos c j P Hj); split; [lra|apply Rinv_r; lra]|].
      intros j Hj. rewrite mv_minus. pose proof (S i Hi j Hj) as S1. pose proof (perp_maxwell c n u T nudt AM A EM i Hi j Hj) as S2. rewrite perp_mv in S1, S2. rewrite <- S1, <- S2. reflexivity.
Qed.
Print Assumptions C102_sweeps.

(* ------------------------------------------------------------------------------------------------ *)
(** A 2 x 2 grid on which a Maxwellian of temperature 1 measures temperature 1. *)
Definition ex_p : R := 3 / (exp 1 + 3).
Definition ex_a : R := 11 / 4 - 2 * ex_p.
Lemma ex_a_pos : 0 < ex_a.
Proof. unfold ex_a, ex_p. pose proof (exp_pos 1). assert (3 / (exp 1 + 3) < 1) by (apply Rmult_lt_reg_r with (exp 1 + 3); [lra|]; replace (3 / (exp 1 + 3) * (exp 1 + 3)) with 3 by (field; lra); lra). lra. Qed.
Definition ex_cyl (restore : bool) : cyl :=
  {| c_nv := 2; c_v := fun i => (INR i - 1 / 2) * (2 * sqrt ex_a); c_dv := 2 * sqrt ex_a; c_nvp := 2; c_vp := perp_v 2 2; c_dvp := perp_dv 2 2; c_wp := perp_w 2 2;
     c_speed := 1; c_lorentz := 1 / 2; c_restore := restore; c_substeps := 3 |}.
Lemma ex_proper r : proper (ex_cyl r).
Proof.
  pose proof ex_a_pos as A. pose proof (sqrt_lt_R0 _ A) as S. destruct (C102_grid 2 2 ltac:(lia) ltac:(lra)) as (G & _ & _).
  split; cbn [ex_cyl c_nv c_v c_dv c_nvp c_vp c_dvp c_wp c_speed c_lorentz]; try lia; try lra.
  - unfold perp_dv. cbn [INR]. lra.
  - intros i Hi. rewrite S_INR. ring.
  - intros j Hj. rewrite (G j Hj). reflexivity.
  - reflexivity.
Qed.
Example C102_nonvacuous : proper (ex_cyl true) /\ (2 <= c_nv (ex_cyl true))%nat /\ (2 <= c_nvp (ex_cyl true))%nat /\
  exists f', cyl_apply (ex_cyl true) 3 (1 / 2) (fun i j => 1 + INR i + 2 * INR j) f'.
Proof.
  split; [apply ex_proper|]. do 2 (split; [cbn; lia|]). apply C102_well_posed; [apply ex_proper| |lra].
  apply sum2_nonneg. intros i j Hi Hj. pose proof (w_pos (ex_cyl true) i j (ex_proper true) Hj). pose proof (pos_INR i). pose proof (pos_INR j). apply Rmult_le_pos; lra.
Qed.
Example C102_maxwellian_nonvacuous : let c := ex_cyl true in let f := fun i j => exp (- (c_v c i ^ 2 + c_vp c j ^ 2) / 2) in
  0 <= m_n c f /\ m_u c f = 0 /\ m_T c f = 1.
Proof.
  intros c f. pose proof ex_a_pos as A. pose proof (sqrt_lt_R0 _ A) as S. pose proof (sqrt_sqrt ex_a ltac:(lra)) as SS. pose proof PI_RGT_0 as HP.
  assert (V0 : c_v c 0 = - sqrt ex_a) by (cbn; lra). assert (V1 : c_v c 1 = sqrt ex_a) by (cbn; lra).
  destruct (C102_grid 2 2 ltac:(lia) ltac:(lra)) as (G & _ & _).
  assert (P0 : c_vp c 0 = 1 / 2) by (cbn [c ex_cyl c_vp]; rewrite G by lia; cbn [INR]; lra). assert (P1 : c_vp c 1 = 3 / 2) by (cbn [c ex_cyl c_vp]; rewrite G by lia; cbn [INR]; lra).
  set (w := c_dv c * 2 * PI * c_dvp c). assert (W : forall i j, c_w c i j = w * c_vp c j) by (intros i j; unfold c_w, w; cbn [c ex_cyl c_wp c_vp c_dvp]; unfold perp_w; ring).
  assert (Hw : 0 < w) by (unfold w; cbn [c ex_cyl c_dv c_dvp]; unfold perp_dv; cbn [INR]; apply Rmult_lt_0_compat; [|lra]; apply Rmult_lt_0_compat; lra).
  set (e := exp (- (ex_a + 1 / 4) / 2)). assert (He : 0 < e) by apply exp_pos.
  assert (F0 : forall i, (i < 2)%nat -> f i 0%nat = e).
  { intros i Hi. unfold f, e. f_equal. rewrite P0. destruct i as [|[|i]]; [rewrite V0|rewrite V1|lia]; nra. }
  assert (F1 : forall i, (i < 2)%nat -> f i 1%nat = e * exp (- (1))).
  { intros i Hi. unfold f, e. rewrite <- exp_plus. f_equal. rewrite P1. destruct i as [|[|i]]; [rewrite V0|rewrite V1|lia]; nra. }
  assert (S2 : forall h, sum2 c h = h 0%nat 0%nat + h 0%nat 1%nat + (h 1%nat 0%nat + h 1%nat 1%nat)) by (intros h; unfold sum2; cbn [c ex_cyl c_nv c_nvp rsum]; ring).
  assert (N : m_n c f = e * w * (1 + 3 * exp (- (1)))).
  { unfold m_n. rewrite S2, !W, !F0, !F1, P0, P1 by lia. field. }
  pose proof (exp_pos (- (1))) as HE. assert (U : m_u c f = 0).
  { unfold m_u. replace (sum2 c (fun i j => f i j * (c_v c i * c_w c i j))) with 0; [unfold Rdiv; ring|]. rewrite S2, !W, !F0, !F1, V0, V1 by lia. ring. }
  split; [rewrite N; apply Rmult_le_pos; [apply Rmult_le_pos; lra|lra]|]. split; [exact U|].
  unfold m_T. rewrite U, N. assert (NZ : 0 < e * w * (1 + 3 * exp (- (1)))) by (apply Rmult_lt_0_compat; [now apply Rmult_lt_0_compat|lra]).
  assert (Q : sum2 c (fun i j => f i j * (((c_v c i - 0) ^ 2 + c_vp c j ^ 2) * c_w c i j)) = e * w * ((ex_a + 1 / 4) + 3 * exp (- (1)) * (ex_a + 9 / 4))).
  { rewrite S2, !W, !F0, !F1, P0, P1, V0, V1 by lia. replace ((- sqrt ex_a - 0) ^ 2) with (sqrt ex_a * sqrt ex_a) by ring. replace ((sqrt ex_a - 0) ^ 2) with (sqrt ex_a * sqrt ex_a) by ring. rewrite SS. field. }
  rewrite Q. assert (EP : ex_p * (exp 1 + 3) = 3) by (unfold ex_p; pose proof (exp_pos 1); field; lra). assert (EI : exp (- (1)) * exp 1 = 1) by (rewrite <- exp_plus; replace (- (1) + 1) with 0 by ring; apply exp_0).
  assert (PX : ex_p * (1 + 3 * exp (- (1))) = 3 * exp (- (1))) by (transitivity (ex_p * (exp 1 + 3) * exp (- (1))); [replace (ex_p * (exp 1 + 3) * exp (- (1))) with (ex_p * (exp (- (1)) * exp 1 + 3 * exp (- (1)))) by ring; rewrite EI; reflexivity|rewrite EP; reflexivity]).
  assert (Z : (ex_a + 1 / 4) + 3 * exp (- (1)) * (ex_a + 9 / 4) = 3 * (1 + 3 * exp (- (1)))) by (unfold ex_a; lra). rewrite Z. field. lra.
Qed.

(** The claim of the documentation read literally, "the SAMPLED Maxwellian [is] an exact discrete fixed point of every
    channel mix at any dt", fails: the operator relaxes towards the temperature it measures on the grid, which is not
    the parameter of the samples. *)
Definition ex_three : cyl :=
  {| c_nv := 3; c_v := fun i => INR i - 1; c_dv := 1; c_nvp := 1; c_vp := perp_v 1 1; c_dvp := perp_dv 1 1; c_wp := perp_w 1 1;
     c_speed := 1; c_lorentz := 1; c_restore := false; c_substeps := 1 |}.
Lemma ex_three_proper : proper ex_three.
Proof.
  destruct (C102_grid 1 1 ltac:(lia) ltac:(lra)) as (G & _ & _). split; cbn [ex_three c_nv c_v c_dv c_nvp c_vp c_dvp c_wp c_speed c_lorentz]; try lia; try lra.
  - unfold perp_dv. cbn [INR]. lra.
  - intros i Hi. rewrite S_INR. ring.
  - intros j Hj. rewrite (G j Hj). reflexivity.
  - reflexivity.
Qed.
Theorem C102_sampled_maxwellian_refuted : ~ forall c nu dt T f f', proper c -> 0 < T -> 0 <= dt * nu ->
  (forall i j, f i j = exp (- (c_v c i ^ 2 + c_vp c j ^ 2) / (2 * T))) -> cyl_apply c nu dt f f' ->
  forall i j, (i < c_nv c)%nat -> (j < c_nvp c)%nat -> f' i j = f i j.
Proof.
  intros H. set (c := ex_three). set (f := fun i j => exp (- (c_v c i ^ 2 + c_vp c j ^ 2) / (2 * 1))). pose proof ex_three_proper as P. fold c in P. pose proof PI_RGT_0 as HP.
  assert (VP : c_vp c 0 = 1 / 2) by (rewrite (pr_vp c P 0) by (cbn; lia); cbn [c ex_three c_dvp]; unfold perp_dv; cbn [INR]; lra).
  assert (S1 : forall h, sum2 c h = h 0%nat 0%nat + h 1%nat 0%nat + h 2%nat 0%nat) by (intros h; unfold sum2; cbn [c ex_three c_nv c_nvp rsum]; ring).
  set (w := c_w c 0 0). assert (W : forall i, c_w c i 0 = w) by reflexivity. assert (Hw : 0 < w) by (apply w_pos; [exact P|cbn; lia]).
  set (k := exp (- (1 / 8))). set (q := exp (- (1 / 2))). assert (Hk : 0 < k) by apply exp_pos. assert (Hq : 0 < q) by apply exp_pos.
  assert (Q1 : q < 1) by (unfold q; rewrite <- exp_0 at 2; apply exp_increasing; lra).
  assert (F0 : f 0%nat 0%nat = k * q) by (unfold f, k, q; rewrite <- exp_plus; f_equal; rewrite VP; cbn [c ex_three c_v INR]; lra).
  assert (F1 : f 1%nat 0%nat = k) by (unfold f, k; f_equal; rewrite VP; cbn [c ex_three c_v INR]; lra).
  assert (F2 : f 2%nat 0%nat = k * q) by (unfold f, k, q; rewrite <- exp_plus; f_equal; rewrite VP; cbn [c ex_three c_v INR]; lra).
  assert (N : m_n c f = k * w * (1 + 2 * q)) by (unfold m_n; rewrite S1, !W, F0, F1, F2; ring).
  assert (NP : 0 < m_n c f) by (rewrite N; apply Rmult_lt_0_compat; [now apply Rmult_lt_0_compat|lra]).
  assert (U : m_u c f = 0).
  { unfold m_u. replace (sum2 c (fun i j => f i j * (c_v c i * c_w c i j))) with 0; [unfold Rdiv; ring|]. rewrite S1, !W, F0, F1, F2. cbn [c ex_three c_v INR]. ring. }
  assert (TT : 3 * (1 + 2 * q) * m_T c f = 2 * q + (1 + 2 * q) / 4).
  { unfold m_T. rewrite U. replace (sum2 c (fun i j => f i j * (((c_v c i - 0) ^ 2 + c_vp c j ^ 2) * c_w c i j))) with (k * w * (2 * q + (1 + 2 * q) / 4)).
    - rewrite N. field. repeat split; lra.
    - rewrite S1, !W, F0, F1, F2, VP. cbn [c ex_three c_v INR]. field. }
  assert (T1 : 0 < m_T c f) by (apply C102_temperature; [exact P|intros; apply Rlt_le, exp_pos|exact NP]).
  assert (T2 : m_T c f < 1) by nra.
  destruct (proj1 (C102_well_posed c 1 1 f P ltac:(lra) ltac:(lra))) as (f' & A).
  pose proof (H c 1 1 1 f f' P ltac:(lra) ltac:(lra) (fun _ _ => eq_refl) A) as Z.
  destruct A as (h & (f1 & f2 & A1 & A2 & A3) & A4). set (n := m_n c f) in *. set (u := m_u c f) in *. set (T := m_T c f) in *.
  assert (I1 : forall i, (i < 3)%nat -> f1 i 0%nat = f i 0%nat).
  { intros i Hi. transitivity (f2 i 0%nat).
    - pose proof (A2 i Hi 0%nat ltac:(cbn; lia)) as X. unfold mv, perp_op in X. cbn [diagonal c ex_three c_nvp Nat.ltb Nat.leb] in X. rewrite <- X. unfold Rdiv. ring.
    - assert (X : explicit_step c n u T (1 * 1) f2 i 0%nat = f2 i 0%nat).
      { unfold explicit_step. assert (G : forall g m, gam_par c n u T g m 0%nat = 0) by (intros g m; unfold gam_par, centred; cbn [c ex_three c_nvp Nat.ltb Nat.leb Nat.sub]; unfold Rdiv; ring).
        unfold div_par, div_perp. destruct i as [|[|[|i]]]; [| | |lia]; rewrite !G; cbn [c ex_three c_nvp c_nv Nat.ltb Nat.leb]; unfold Rdiv; ring. }
      rewrite <- X. rewrite <- (Z i 0%nat Hi ltac:(cbn; lia)), (A4 i 0%nat Hi ltac:(cbn; lia)). cbn [c ex_three c_restore]. rewrite (A3 i 0%nat Hi ltac:(cbn; lia)). reflexivity. }
  pose proof (A1 0%nat ltac:(cbn; lia) 0%nat ltac:(cbn; lia)) as X. rewrite par_mv, assemble_mv in X by (cbn; lia). unfold flux_left, flux in X. cbn [c ex_three c_nv Nat.ltb Nat.leb] in X. fold ex_three in X. fold c in X.
  rewrite (I1 0%nat), (I1 1%nat) in X by lia. rewrite F0, F1 in X. unfold par_alpha, par_beta in X.
  assert (PC : 0 < par_c c n u T 0 0).
  { unfold par_c. apply Rdiv_lt_0_compat; [|cbn; lra]. apply Rmult_lt_0_compat; [apply Rmult_lt_0_compat; [apply Rmult_lt_0_compat; [exact NP|now apply sqrt_lt_R0]|]|].
    - apply tensor_strict; [cbn; lra|cbn; lra|rewrite VP; lra].
    - unfold par_M. apply sqrt_lt_R0. apply Rmult_lt_0_compat; apply maxwell_pos. }
  pose proof (maxwell_pos c u T 0 0) as M0. pose proof (maxwell_pos c u T 1 0) as M1. assert (R0 : maxwell c u T 0 0 = maxwell c u T 1 0 * exp (- (1 / (2 * T)))).
  { unfold maxwell. rewrite <- exp_plus. f_equal. rewrite U. cbn [c ex_three c_v INR]. field. lra. }
  assert (E : par_c c n u T 0 0 * (k * (q * maxwell c u T 1 0 - maxwell c u T 0 0)) / (maxwell c u T 0 0 * maxwell c u T 1 0) = 0).
  { transitivity (1 * 1 * 1 / 1 * (par_c c n u T 0 0 / maxwell c u T 0 0 * (k * q) - par_c c n u T 0 0 / maxwell c u T 1 0 * k)); [field; lra|].
    replace (par_c c n u T 0 0 / maxwell c u T 0 0 * (k * q)) with (- (- (par_c c n u T 0 0 / maxwell c u T 0 0) * (k * q))) by ring. lra. }
  assert (E2 : q * maxwell c u T 1 0 - maxwell c u T 0 0 = 0).
  { apply Rmult_integral in E. destruct E as [E|E]; [|exfalso; assert (0 < / (maxwell c u T 0 0 * maxwell c u T 1 0)) by (apply Rinv_0_lt_compat, Rmult_lt_0_compat; assumption); lra].
    apply Rmult_integral in E. destruct E as [E|E]; [lra|]. apply Rmult_integral in E. destruct E; lra. }
  rewrite R0 in E2. assert (E3 : q = exp (- (1 / (2 * T)))) by nra. unfold q in E3. apply exp_inv in E3.
  assert (1 / (2 * T) * (2 * T) = 1) by (field; lra). assert (1 / 2 = 1 / (2 * T)) by lra. rewrite <- H1 in H0. lra.
Qed.
Print Assumptions C102_sampled_maxwellian_refuted.
