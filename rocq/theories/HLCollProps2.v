(** C94, second part: the Dougherty operator of the Hermite-Legendre solver. *)
From Coq Require Import Reals Lra Lia ZArith List Bool Psatz.
From Verif Require Import HermitePoisson HPProps HPForceProps Legendre GaussInt HermLeg HLBasis HermLegProps HLForceProps HLColl HLCollProps RSum Pic PicProofs PicFourier Dft.
Local Open Scope R_scope.

(* ------------------------------------------------------------------------------------------------ *)
(** * Specification *)
(** The Hermite coefficients of d/dv [(v - U) f + T df/dv], by C94_ou_operator below. *)
Definition ou_rate (alpha u U T : R) (C : nat -> R) (n : nat) : R :=
  - (INR n * C n + match n with O => 0 | S m => sqrt 2 * (u - U) / alpha * sqrt (INR n) * C m end
     + match n with S (S k) => (1 - 2 * T / alpha ^ 2) * sqrt (INR n * (INR n - 1)) * C k | _ => 0 end).
Definition f0' (alpha u : R) (Nh : nat) (C : nat -> R) (v : R) : R := rsum Nh (fun n => C n * (- (sqrt (2 * INR (S n)) / alpha) * psi alpha u (S n) v)).

(* ------------------------------------------------------------------------------------------------ *)
(** * The Hermite part *)
Lemma psi_fp alpha u U T n v : 0 < alpha -> derivable_pt_lim (fun x => (x - U) * psi alpha u n x + T * (- (sqrt (2 * INR (S n)) / alpha) * psi alpha u (S n) x)) v
  (- INR n * psi alpha u n v - sqrt 2 * (u - U) / alpha * sqrt (INR (S n)) * psi alpha u (S n) v - (1 - 2 * T / alpha ^ 2) * sqrt (INR (S (S n)) * INR (S n)) * psi alpha u (S (S n)) v).
Proof.
  intros Ha. pose proof (psi_deriv alpha u n v Ha) as D0. pose proof (psi_deriv alpha u (S n) v Ha) as D1.
  set (k0 := sqrt (2 * INR (S n)) / alpha) in *. set (k1 := sqrt (2 * INR (S (S n))) / alpha) in *.
  assert (Dx : derivable_pt_lim (fun x => x - U) v 1). { replace 1 with (1 - 0) by ring. apply (derivable_pt_lim_minus (fun y => y) (fun _ => U) v 1 0); [apply derivable_pt_lim_id|apply derivable_pt_lim_const]. }
  pose proof (derivable_pt_lim_mult (fun x => x - U) (psi alpha u n) v _ _ Dx D0) as Dm.
  pose proof (derive_lin2 (fun x => (x - U) * psi alpha u n x) (psi alpha u (S n)) 1 (T * - k0) v _ _ Dm D1) as D.
  match type of D with derivable_pt_lim _ _ ?d => match goal with |- derivable_pt_lim _ _ ?e => replace e with d end end.
  - apply (derive_ext_fun _ _ v _ (fun t => ltac:(cbv beta; ring) : 1 * ((t - U) * psi alpha u n t) + T * - k0 * psi alpha u (S n) t = (t - U) * psi alpha u n t + T * (- k0 * psi alpha u (S n) t)) D).
  - pose proof (psi_velocity alpha u (S n) v Ha) as PV. cbv iota in PV.
    pose proof (SINR n) as P1. pose proof (SINR (S n)) as P2. set (s1 := INR (S n)) in *. set (s2 := INR (S (S n))) in *.
    assert (Es2 : s1 + 1 = s2) by (unfold s1, s2; rewrite (S_INR (S n)); reflexivity). assert (Es1 : INR n + 1 = s1) by (unfold s1; rewrite S_INR; reflexivity).
    rewrite Es1, Es2 in PV.
    assert (H1 : sqrt (s1 / 2) = sqrt s1 * / sqrt 2) by (rewrite sqrt_div by lra; reflexivity). assert (H2 : sqrt (s2 / 2) = sqrt s2 * / sqrt 2) by (rewrite sqrt_div by lra; reflexivity).
    assert (K0 : k0 = sqrt 2 * sqrt s1 / alpha) by (unfold k0; rewrite sqrt_mult by lra; reflexivity). assert (K1 : k1 = sqrt 2 * sqrt s2 / alpha) by (unfold k1; rewrite sqrt_mult by lra; reflexivity).
    rewrite H1, H2 in PV. rewrite K0, K1, (sqrt_mult s2 s1) by lra. pose proof (sqrt_sqrt 2 ltac:(lra)) as Q2. pose proof (sqrt_sqrt s1 ltac:(lra)) as Q1. assert (W : 0 < sqrt 2) by (apply sqrt_lt_R0; lra).
    replace (INR n) with (s1 - 1) by lra. set (w := sqrt 2) in *. set (a1 := sqrt s1) in *. set (a2 := sqrt s2) in *.
    set (y0 := psi alpha u n v) in *. set (y1 := psi alpha u (S n) v) in *. set (y2 := psi alpha u (S (S n)) v) in *.
    transitivity (y0 - w * a1 / alpha * (v * y1) + U * (w * a1 / alpha) * y1 + T * (w * w) * a1 * a2 / alpha ^ 2 * y2); [field; lra|]. rewrite PV, Q2.
    transitivity (y0 - (a1 * a1) * y0 - a1 * a2 * y2 - w * u / alpha * a1 * y1 + U * (w * a1 / alpha) * y1 + T * 2 * a1 * a2 / alpha ^ 2 * y2); [field; lra|]. rewrite Q1. field. lra.
Qed.
(** The collision operator d/dv [(v - U) f + T df/dv] maps the Hermite expansion with coefficients C to the one with
    coefficients ou_rate C (the last two are beyond Nh: truncation drops them and nothing else). *)
Theorem C94_ou_operator : forall alpha u U T Nh C v, 0 < alpha ->
  derivable_pt_lim (f0 alpha u Nh C) v (f0' alpha u Nh C v) /\
  derivable_pt_lim (fun x => (x - U) * f0 alpha u Nh C x + T * f0' alpha u Nh C x) v (f0 alpha u (S (S Nh)) (ou_rate alpha u U T (cut Nh C)) v).
Proof.
  intros alpha u U T Nh C v Ha. split.
  { unfold f0, f0'. apply (derive_rsum Nh (fun y n => C n * psi alpha u n y) (fun n => C n * (- (sqrt (2 * INR (S n)) / alpha) * psi alpha u (S n) v)) v).
    intros n Hn. apply (derivable_pt_lim_scal (psi alpha u n) (C n) v). apply psi_deriv. exact Ha. }
  pose proof (derive_rsum Nh (fun x n => C n * ((x - U) * psi alpha u n x + T * (- (sqrt (2 * INR (S n)) / alpha) * psi alpha u (S n) x))) _ v
    (fun n _ => derivable_pt_lim_scal _ (C n) v _ (psi_fp alpha u U T n v Ha))) as D.
  match type of D with derivable_pt_lim _ _ ?d => match goal with |- derivable_pt_lim _ _ ?e => replace e with d end end.
  - refine (derive_ext_fun _ _ v _ _ D). intros x. unfold f0, f0'. rewrite <- !rsum_scal, <- rsum_plus. apply rsum_ext. intros n _. ring.
  - symmetry. unfold f0, ou_rate. set (b := cut Nh C). set (A := sqrt 2 * (u - U) / alpha). set (Bq := 1 - 2 * T / alpha ^ 2).
    assert (cutsum : forall (c : nat -> R) k, rsum (Nh + k) (fun n => b n * c n) = rsum Nh (fun n => C n * c n)).
    { intros c k. rewrite (rsum_lower (Nh + k) Nh) by (first [lia | intros j Hj; unfold b, cut; rewrite (proj2 (Nat.ltb_ge j Nh)) by lia; ring]). apply rsum_ext. intros i Hi. unfold b, cut. rewrite (proj2 (Nat.ltb_lt i Nh)) by lia. reflexivity. }
    transitivity (rsum (S (S Nh)) (fun n => b n * (- INR n * psi alpha u n v)) + rsum (S (S Nh)) (fun n => match n with O => 0 | S m => b m * (- A * sqrt (INR n) * psi alpha u n v) end)
      + rsum (S (S Nh)) (fun n => match n with S (S k) => b k * (- Bq * sqrt (INR n * (INR n - 1)) * psi alpha u n v) | _ => 0 end)).
    + rewrite <- !rsum_plus. apply rsum_ext. intros [|[|n]] _; ring.
    + rewrite (rsum_shift (S Nh) (fun n => match n with O => 0 | S m => b m * (- A * sqrt (INR n) * psi alpha u n v) end)).
      rewrite (rsum_shift (S Nh) (fun n => match n with S (S k) => b k * (- Bq * sqrt (INR n * (INR n - 1)) * psi alpha u n v) | _ => 0 end)), (rsum_shift Nh (fun i => match S i with S (S k) => b k * (- Bq * sqrt (INR (S i) * (INR (S i) - 1)) * psi alpha u (S i) v) | _ => 0 end)).
      replace (S (S Nh)) with (Nh + 2)%nat by lia. rewrite (cutsum (fun n => - INR n * psi alpha u n v) 2%nat).
      replace (S Nh) with (Nh + 1)%nat by lia. rewrite (cutsum (fun n => - A * sqrt (INR (S n)) * psi alpha u (S n) v) 1%nat).
      pose proof (cutsum (fun n => - Bq * sqrt (INR (S (S n)) * (INR (S (S n)) - 1)) * psi alpha u (S (S n)) v) 0%nat) as E3. rewrite Nat.add_0_r in E3. rewrite E3.
      rewrite !Rplus_0_l, <- !rsum_plus. apply rsum_ext. intros n _. replace (INR (S (S n)) - 1) with (INR (S n)) by (rewrite (S_INR (S n)); ring). ring.
Qed.
Print Assumptions C94_ou_operator.

(** exp_coeff: k e_k = p e_{k-1} + 2 q e_{k-2}. *)
Definition e1 (p q : R) (k : nat) : R := match k with O => 0 | S j => ecoef p q j end.
Definition e2 (p q : R) (k : nat) : R := match k with S (S j) => ecoef p q j | _ => 0 end.
Lemma ecoef_S p q k : ecoef p q (S k) = snd (ec_pair p q k). Proof. destruct k; reflexivity. Qed.
Lemma ecoef_rec p q k : INR k * ecoef p q k = p * e1 p q k + 2 * q * e2 p q k.
Proof.
  destruct k as [|[|k]].
  - change (INR 0) with 0. unfold e1, e2. ring.
  - change (INR 1) with 1. unfold e1, e2, ecoef. cbn [ec_pair fst snd]. ring.
  - unfold e1, e2. rewrite ecoef_S. cbn [ec_pair snd]. rewrite (ecoef_S p q k). unfold ecoef. rewrite (S_INR (S k)). field. pose proof (SINR k). lra.
Qed.
Section Exact.
Variables (A Bq : R).
Let r (t : R) := exp (- t).
Let p (t : R) := - A * (1 - r t).
Let q (t : R) := - (1 / 2) * Bq * (1 - r t ^ 2).
Lemma r_deriv t : derivable_pt_lim r t (- r t).
Proof.
  unfold r. replace (- exp (- t)) with (exp (- t) * - (1)) by ring. apply (derivable_pt_lim_comp (fun x => - x) exp t (- (1)) (exp (- t))); [|apply derivable_pt_lim_exp].
  apply (derivable_pt_lim_opp (fun x => x) t 1). apply derivable_pt_lim_id.
Qed.
Lemma rpow_deriv j t : derivable_pt_lim (fun x => r x ^ j) t (- INR j * r t ^ j).
Proof.
  pose proof (derivable_pt_lim_comp r (fun x => x ^ j) t _ _ (r_deriv t) (derivable_pt_lim_pow (r t) j)) as D.
  match type of D with derivable_pt_lim _ _ ?d => match goal with |- derivable_pt_lim _ _ ?e => replace e with d end end; [exact D|].
  destruct j as [|j]; [change (INR 0) with 0; ring|]. cbn [pred pow]. ring.
Qed.
Lemma p_deriv t : derivable_pt_lim p t (- A * r t).
Proof.
  apply (derive_ext_fun (fun x => - A * 1 + A * r x)); [intros x; unfold p; ring|].
  pose proof (derive_lin2 (fun _ => 1) r (- A) A t 0 _ (derivable_pt_lim_const 1 t) (r_deriv t)) as D. replace (- A * r t) with (- A * 0 + A * - r t) by ring. exact D.
Qed.
Lemma q_deriv t : derivable_pt_lim q t (- Bq * r t ^ 2).
Proof.
  apply (derive_ext_fun (fun x => - (1 / 2) * Bq * 1 + (1 / 2) * Bq * r x ^ 2)); [intros x; unfold q; ring|].
  pose proof (derive_lin2 (fun _ => 1) (fun x => r x ^ 2) (- (1 / 2) * Bq) (1 / 2 * Bq) t 0 _ (derivable_pt_lim_const 1 t) (rpow_deriv 2 t)) as D.
  match type of D with derivable_pt_lim _ _ ?d => match goal with |- derivable_pt_lim _ _ ?e => replace e with d end end; [exact D|]. change (INR 2) with (1 + 1). field.
Qed.
Lemma ecoef_deriv k t : derivable_pt_lim (fun x => ecoef (p x) (q x) k) t (- A * r t * e1 (p t) (q t) k - Bq * r t ^ 2 * e2 (p t) (q t) k) /\
  derivable_pt_lim (fun x => ecoef (p x) (q x) (S k)) t (- A * r t * e1 (p t) (q t) (S k) - Bq * r t ^ 2 * e2 (p t) (q t) (S k)).
Proof.
  induction k as [|k [D0 D1]].
  - split.
    + unfold e1, e2, ecoef. cbn [ec_pair fst]. replace (- A * r t * 0 - Bq * r t ^ 2 * 0) with 0 by ring. apply derivable_pt_lim_const.
    + unfold e1, e2, ecoef. cbn [ec_pair fst snd]. replace (- A * r t * 1 - Bq * r t ^ 2 * 0) with (- A * r t) by ring. apply p_deriv.
  - split; [exact D1|].
    pose proof (derivable_pt_lim_mult p (fun x => ecoef (p x) (q x) (S k)) t _ _ (p_deriv t) D1) as M1.
    pose proof (derivable_pt_lim_mult q (fun x => ecoef (p x) (q x) k) t _ _ (q_deriv t) D0) as M2.
    pose proof (derive_lin2 (fun x => p x * ecoef (p x) (q x) (S k)) (fun x => q x * ecoef (p x) (q x) k) (/ (INR (S k) + 1)) (2 / (INR (S k) + 1)) t _ _ M1 M2) as D.
    pose proof (SINR k) as Pk. pose proof (ecoef_rec (p t) (q t) (S k)) as R1. pose proof (ecoef_rec (p t) (q t) k) as R0.
    match type of D with derivable_pt_lim _ _ ?d => match goal with |- derivable_pt_lim _ _ ?e => replace e with d end end.
    + refine (derive_ext_fun _ _ t _ _ D). intros x. rewrite (ecoef_S (p x) (q x) (S k)). cbn [ec_pair snd]. rewrite <- (ecoef_S (p x) (q x) k). unfold ecoef at 2. field. lra.
    + change (e1 (p t) (q t) (S k)) with (ecoef (p t) (q t) k) in *. change (e2 (p t) (q t) (S k)) with (e1 (p t) (q t) k) in *.
      change (e1 (p t) (q t) (S (S k))) with (ecoef (p t) (q t) (S k)) in *. change (e2 (p t) (q t) (S (S k))) with (ecoef (p t) (q t) k) in *.
      set (x2 := e2 (p t) (q t) k) in *. set (x1 := e1 (p t) (q t) k) in *. set (y0 := ecoef (p t) (q t) k) in *. set (y1 := ecoef (p t) (q t) (S k)) in *. rewrite S_INR in *. set (kk := INR k) in *.
      apply Rmult_eq_reg_l with (kk + 1 + 1); [|lra]. transitivity (- A * r t * y1 + p t * (- A * r t * y0 - Bq * r t ^ 2 * x1) + 2 * (- Bq * r t ^ 2 * y0 + q t * (- A * r t * x1 - Bq * r t ^ 2 * x2))); [field; lra|].
      transitivity (- A * r t * (y1 + (p t * y0 + 2 * q t * x1)) - Bq * r t ^ 2 * (2 * y0 + (p t * x1 + 2 * q t * x2))); [ring|]. rewrite <- R0, <- R1. ring.
Qed.
End Exact.
Lemma sqrt_fact_S n : sqrt (INR (fact (S n))) = sqrt (INR (S n)) * sqrt (INR (fact n)).
Proof. rewrite fact_simpl, mult_INR. apply sqrt_mult; apply pos_INR. Qed.
Lemma sqrt_fact_pos n : 0 < sqrt (INR (fact n)). Proof. apply sqrt_lt_R0, INR_fact_lt_0. Qed.
(** _hermite_exact is the exact flow of the Hermite-truncated Dougherty operator with frozen U and T: it starts at C and its
    derivative is ou_rate of itself. *)
Theorem C94_hermite_exact : forall alpha u U T C n t, 0 < alpha ->
  hexact alpha u U T 0 C n = C n /\
  derivable_pt_lim (fun x => hexact alpha u U T x C n) t (ou_rate alpha u U T (hexact alpha u U T t C) n).
Proof.
  intros alpha u U T C n t Ha. split.
  - unfold hexact. cbv zeta. rewrite Ropp_0, exp_0. assert (P0 : forall a b k, ecoef (a * (1 - 1)) (b * (1 - 1 ^ 2)) k = if (k =? 0)%nat then 1 else 0).
    { intros a b k. replace (a * (1 - 1)) with 0 by ring. replace (b * (1 - 1 ^ 2)) with 0 by ring. destruct k as [|k]; [reflexivity|]. pose proof (ecoef_rec 0 0 (S k)) as E. pose proof (SINR k). cbn [Nat.eqb]. apply Rmult_eq_reg_l with (INR (S k)); [|lra]. rewrite E. ring. }
    rewrite (rsum_single (S n) n); [|lia|].
    + rewrite Nat.sub_diag, P0. cbn [Nat.eqb]. rewrite pow1. pose proof (sqrt_fact_pos n). field. lra.
    + intros i Hi Ni. rewrite P0. destruct (Nat.eqb_spec (n - i) 0); [lia|]. ring.
  - set (A := ou_A alpha u U). set (Bq := ou_B alpha T). pose (pt := - A * (1 - exp (- t))). pose (qt := - (1 / 2) * Bq * (1 - exp (- t) ^ 2)).
    pose (c := fun j => C j / sqrt (INR (fact j))). set (r := exp (- t)) in *.
    assert (D : derivable_pt_lim (fun x => rsum (S n) (fun j => c j * (exp (- x) ^ j * ecoef (- A * (1 - exp (- x))) (- (1 / 2) * Bq * (1 - exp (- x) ^ 2)) (n - j)))) t
      (rsum (S n) (fun j => c j * (- INR j * r ^ j * ecoef pt qt (n - j) + r ^ j * (- A * r * e1 pt qt (n - j) - Bq * r ^ 2 * e2 pt qt (n - j)))))).
    { apply (derive_rsum (S n) (fun x j => c j * (exp (- x) ^ j * ecoef (- A * (1 - exp (- x))) (- (1 / 2) * Bq * (1 - exp (- x) ^ 2)) (n - j))) (fun j => c j * (- INR j * r ^ j * ecoef pt qt (n - j) + r ^ j * (- A * r * e1 pt qt (n - j) - Bq * r ^ 2 * e2 pt qt (n - j)))) t).
      intros j _. apply (derivable_pt_lim_scal (fun x => exp (- x) ^ j * ecoef (- A * (1 - exp (- x))) (- (1 / 2) * Bq * (1 - exp (- x) ^ 2)) (n - j)) (c j) t).
      apply (derivable_pt_lim_mult (fun x => exp (- x) ^ j) (fun x => ecoef (- A * (1 - exp (- x))) (- (1 / 2) * Bq * (1 - exp (- x) ^ 2)) (n - j)) t _ _ (rpow_deriv j t) (proj1 (ecoef_deriv A Bq (n - j) t))). }
    pose proof (derivable_pt_lim_scal _ (sqrt (INR (fact n))) t _ D) as D2.
    match type of D2 with derivable_pt_lim _ _ ?d => match goal with |- derivable_pt_lim _ _ ?e => replace e with d end end.
    + refine (derive_ext_fun _ _ t _ _ D2). intros x. unfold mult_real_fct, hexact. cbv zeta. fold A Bq. f_equal. apply rsum_ext. intros j _. unfold c. ring.
    + assert (X0 : hexact alpha u U T t C n = sqrt (INR (fact n)) * rsum (S n) (fun j => c j * r ^ j * ecoef pt qt (n - j))) by reflexivity.
      assert (X1 : match n with O => 0 | S m => sqrt 2 * (u - U) / alpha * sqrt (INR n) * hexact alpha u U T t C m end = A * sqrt (INR (fact n)) * rsum (S n) (fun j => c j * r ^ j * e1 pt qt (n - j))).
      { destruct n as [|m]; [cbn [rsum]; unfold e1; cbn [Nat.sub]; ring|]. change (hexact alpha u U T t C m) with (sqrt (INR (fact m)) * rsum (S m) (fun j => c j * r ^ j * ecoef pt qt (m - j))).
        rewrite sqrt_fact_S. rewrite (rsum_lower (S (S m)) (S m)); [|lia|intros j Hj; replace (S m - j)%nat with 0%nat by lia; unfold e1; ring].
        rewrite (rsum_ext (S m) (fun j => c j * r ^ j * e1 pt qt (S m - j)) (fun j => c j * r ^ j * ecoef pt qt (m - j))); [unfold A, ou_A; ring|]. intros j Hj. replace (S m - j)%nat with (S (m - j)) by lia. reflexivity. }
      assert (X2 : match n with S (S k) => (1 - 2 * T / alpha ^ 2) * sqrt (INR n * (INR n - 1)) * hexact alpha u U T t C k | _ => 0 end = Bq * sqrt (INR (fact n)) * rsum (S n) (fun j => c j * r ^ j * e2 pt qt (n - j))).
      { destruct n as [|[|k]]; [cbn [rsum]; unfold e2; cbn [Nat.sub]; ring|cbn [rsum]; unfold e2; cbn [Nat.sub]; ring|].
        change (hexact alpha u U T t C k) with (sqrt (INR (fact k)) * rsum (S k) (fun j => c j * r ^ j * ecoef pt qt (k - j))).
        replace (INR (S (S k)) - 1) with (INR (S k)) by (rewrite (S_INR (S k)); ring). rewrite sqrt_mult by apply pos_INR. rewrite !sqrt_fact_S.
        rewrite (rsum_lower (S (S (S k))) (S k)); [|lia|intros j Hj; destruct (Nat.eq_dec j (S k)) as [->|]; [replace (S (S k) - S k)%nat with 1%nat by lia|replace (S (S k) - j)%nat with 0%nat by lia]; unfold e2; ring].
        rewrite (rsum_ext (S k) (fun j => c j * r ^ j * e2 pt qt (S (S k) - j)) (fun j => c j * r ^ j * ecoef pt qt (k - j))); [unfold Bq, ou_B; ring|]. intros j Hj. replace (S (S k) - j)%nat with (S (S (k - j))) by lia. reflexivity. }
      unfold ou_rate. rewrite X1, X2, X0.
      transitivity (sqrt (INR (fact n)) * rsum (S n) (fun j => - (INR n * (c j * r ^ j * ecoef pt qt (n - j)) + (A * (c j * r ^ j * e1 pt qt (n - j)) + Bq * (c j * r ^ j * e2 pt qt (n - j)))))).
      * f_equal. apply rsum_ext. intros j Hj. pose proof (ecoef_rec pt qt (n - j)) as E. rewrite minus_INR in E by lia.
        assert (En : INR n * ecoef pt qt (n - j) = INR j * ecoef pt qt (n - j) + (pt * e1 pt qt (n - j) + 2 * qt * e2 pt qt (n - j))) by lra.
        transitivity (- (c j * r ^ j) * (INR n * ecoef pt qt (n - j) + A * e1 pt qt (n - j) + Bq * e2 pt qt (n - j))); [rewrite En; unfold pt, qt; fold r; field|ring].
      * rewrite (rsum_ext (S n) _ (fun j => (-1) * (INR n * (c j * r ^ j * ecoef pt qt (n - j)) + (A * (c j * r ^ j * e1 pt qt (n - j)) + Bq * (c j * r ^ j * e2 pt qt (n - j)))))) by (intros; ring).
        rewrite rsum_scal, !rsum_plus, !rsum_scal. ring.
Qed.
Print Assumptions C94_hermite_exact.

(** The Maxwellian with the frozen mean and temperature is a fixed point of the exact Hermite flow. *)
Lemma mx_rate alpha u n U T k : 0 < alpha -> ou_rate alpha u U T (mx_coeff alpha u n U T) k = 0.
Proof.
  intros Ha. unfold ou_rate, mx_coeff. set (p := sqrt 2 * (U - u) / alpha). set (q := T / alpha ^ 2 - 1 / 2).
  assert (Ep : sqrt 2 * (u - U) / alpha = - p) by (unfold p; field; lra). assert (Eq : 1 - 2 * T / alpha ^ 2 = - (2 * q)) by (unfold q; field; lra). rewrite Ep, Eq.
  assert (mxS : forall j, fst (mx_pair p q (S j)) = snd (mx_pair p q j)) by (intros j; reflexivity).
  destruct k as [|[|k]].
  - change (INR 0) with 0. ring.
  - cbn [mx_pair fst snd]. change (INR 1) with 1. rewrite sqrt_1. ring.
  - rewrite !mxS. cbn [mx_pair snd]. pose proof (SINR k) as Pk. rewrite (S_INR (S k)). set (m := INR (S k)) in *. replace (m + 1 - 1) with m by ring.
    assert (P1 : 0 < sqrt (m + 1)) by (apply sqrt_lt_R0; lra). pose proof (sqrt_sqrt (m + 1) ltac:(lra)) as Q1.
    rewrite (sqrt_mult (m + 1) m), (sqrt_div m (m + 1)) by lra. set (w := sqrt (m + 1)) in *. rewrite <- Q1. field. lra.
Qed.
Lemma ou_rate_ext alpha u U T C D n : (forall m, (m <= n)%nat -> C m = D m) -> ou_rate alpha u U T C n = ou_rate alpha u U T D n.
Proof. intros H. unfold ou_rate. destruct n as [|[|n]]; rewrite !H by lia; reflexivity. Qed.
Theorem C94_hermite_equilibrium : forall alpha u n U T t k, 0 < alpha -> hexact alpha u U T t (mx_coeff alpha u n U T) k = mx_coeff alpha u n U T k.
Proof.
  intros alpha u n U T t k Ha. revert t. set (CM := mx_coeff alpha u n U T). induction k as [k IH] using (well_founded_induction lt_wf). intros t.
  pose (Y := fun x => hexact alpha u U T x CM k - CM k).
  assert (DY : forall x, derivable_pt_lim Y x (- INR k * Y x)).
  { intros x. unfold Y at 1. pose proof (derivable_pt_lim_minus (fun x => hexact alpha u U T x CM k) (fun _ => CM k) x _ _ (proj2 (C94_hermite_exact alpha u U T CM k x Ha)) (derivable_pt_lim_const (CM k) x)) as D.
    match type of D with derivable_pt_lim _ _ ?d => match goal with |- derivable_pt_lim _ _ ?e => replace e with d end end; [exact D|].
    pose proof (mx_rate alpha u n U T k Ha) as Z. fold CM in Z. unfold Y.
    assert (L : ou_rate alpha u U T (hexact alpha u U T x CM) k = ou_rate alpha u U T CM k - INR k * (hexact alpha u U T x CM k - CM k)).
    { unfold ou_rate. destruct k as [|[|k]]; [ring| |]; [rewrite (IH 0%nat ltac:(lia) x)|rewrite (IH (S k) ltac:(lia) x), (IH k ltac:(lia) x)]; ring. }
    rewrite L, Z. ring. }
  pose (W := fun x => Y x * exp (INR k * x)).
  assert (DW : forall x, derivable_pt_lim W x 0).
  { intros x. assert (De : derivable_pt_lim (fun y => exp (INR k * y)) x (exp (INR k * x) * (INR k * 1))).
    { apply (derivable_pt_lim_comp (fun y => INR k * y) exp x (INR k * 1) (exp (INR k * x))); [apply (derivable_pt_lim_scal (fun y => y) (INR k) x 1), derivable_pt_lim_id|apply derivable_pt_lim_exp]. }
    pose proof (derivable_pt_lim_mult Y (fun y => exp (INR k * y)) x _ _ (DY x) De) as D.
    match type of D with derivable_pt_lim _ _ ?d => replace 0 with d by ring end. exact D. }
  pose proof (const_of_deriv0 W DW t) as E. unfold W in E. rewrite Rmult_0_r, exp_0 in E.
  assert (Y0 : Y 0 = 0) by (unfold Y; rewrite (proj1 (C94_hermite_exact alpha u U T CM k 0 Ha)); ring). rewrite Y0, Rmult_0_l in E.
  pose proof (exp_pos (INR k * t)). apply Rmult_integral in E. destruct E as [E|E]; [|lra]. unfold Y in E. lra.
Qed.
Print Assumptions C94_hermite_equilibrium.

(* ------------------------------------------------------------------------------------------------ *)
(** * The Legendre part *)
Lemma df_inner va vb N y i : va < vb -> (i < N)%nat -> integral (fun v => df va vb N y v * lbasis va vb i v) va vb ((vb - va) * y i).
Proof.
  intros Hv Hi. pose proof (integral_rsum N (fun n v => lbasis va vb n v * lbasis va vb i v) va vb _ y (fun n _ => lbasis_orth va vb n i Hv)) as L.
  eapply integral_ext; [| |exact L].
  - intros v. cbv beta. unfold df. rewrite <- rsum_scal_r. apply rsum_ext. intros; ring.
  - rewrite (rsum_single N i); [rewrite Nat.eqb_refl; ring|exact Hi|]. intros k _ Nk. destruct (Nat.eqb_spec k i); [lia|ring].
Qed.
(** The Legendre blocks are the weak form of the operator with zero flux at the window ends: for every test mode xi_m, the
    integral of - xi_m' ((v - U) g + T g') is the window width times row m of (drift + T diffusion) B. *)
Theorem C94_legendre_weak : forall va vb U T Nl B m, va < vb -> (m < Nl)%nat ->
  exists dxi dg, (forall v, derivable_pt_lim (lbasis va vb m) v (dxi v)) /\ (forall v, derivable_pt_lim (df va vb Nl B) v (dg v)) /\
    integral (fun v => - dxi v * ((v - U) * df va vb Nl B v + T * dg v)) va vb
      ((vb - va) * rsum Nl (fun n => (dg_drift Nl va vb U m n + T * dg_diffusion Nl va vb m n) * B n)).
Proof.
  intros va vb U T Nl B m Hv Hm. pose (y := fun i => rsum Nl (fun k => lderiv va vb k i * B k)).
  exists (fun v => rsum Nl (fun i => lderiv va vb m i * lbasis va vb i v)), (df va vb Nl y). split; [|split].
  - intros v. apply lbasis_deriv; [exact Hv|lia].
  - intros v. unfold df. replace (rsum Nl (fun m0 => y m0 * lbasis va vb m0 v)) with (rsum Nl (fun k => B k * rsum Nl (fun i => lderiv va vb k i * lbasis va vb i v))).
    + apply (derive_rsum Nl (fun x k => B k * lbasis va vb k x) (fun k => B k * rsum Nl (fun i => lderiv va vb k i * lbasis va vb i v)) v). intros k Hk. apply (derivable_pt_lim_scal (lbasis va vb k) (B k) v). apply lbasis_deriv; [exact Hv|lia].
    + rewrite (rsum_ext Nl _ (fun k => rsum Nl (fun i => B k * (lderiv va vb k i * lbasis va vb i v)))) by (intros; now rewrite rsum_scal). rewrite rsum_swap. apply rsum_ext. intros i _.
      unfold y. rewrite <- rsum_scal_r. apply rsum_ext. intros; ring.
  - assert (L : forall i, (i < Nl)%nat -> integral (fun v => ((v - U) * df va vb Nl B v + T * df va vb Nl y v) * lbasis va vb i v) va vb ((vb - va) * (rsum Nl (fun n => lT va vb i n * B n) - U * B i + T * y i))).
    { intros i Hi. pose proof (proj1 (C92_legendre_projection va vb Nl B i Hv Hi)) as P1. pose proof (df_inner va vb Nl B i Hv Hi) as P2. pose proof (df_inner va vb Nl y i Hv Hi) as P3.
      pose proof (integral_lin _ _ va vb _ _ 1 T (integral_lin _ _ va vb _ _ 1 (- U) P1 P2) P3) as P. eapply integral_ext; [| |exact P]; [intros v; cbv beta; ring|ring]. }
    pose proof (integral_rsum Nl _ va vb _ (fun i => - lderiv va vb m i) L) as P. eapply integral_ext; [| |exact P].
    + intros v. cbv beta. set (z := (v - U) * df va vb Nl B v + T * df va vb Nl y v). rewrite (rsum_ext Nl _ (fun i => - z * (lderiv va vb m i * lbasis va vb i v))) by (intros; ring). rewrite rsum_scal. ring.
    + rewrite (rsum_ext Nl _ (fun i => (vb - va) * (- lderiv va vb m i * (rsum Nl (fun n => lT va vb i n * B n) - U * B i + T * y i)))) by (intros; ring). rewrite rsum_scal. f_equal.
      assert (Dr : forall n, (n < Nl)%nat -> dg_drift Nl va vb U m n = - rsum Nl (fun i => lderiv va vb m i * lT va vb i n) + U * lderiv va vb m n).
      { intros n Hn. unfold dg_drift, dg_drift0. destruct (Nat.leb_spec n m) as [|Hlt]; [reflexivity|]. rewrite (rsum_zero_ext Nl (fun i => lderiv va vb m i * lT va vb i n)); [ring|].
        intros i Hi. destruct (Nat.le_gt_cases m i) as [Q|Q]; [rewrite lderiv_lower by exact Q; ring|]. unfold lT. destruct (Nat.eqb_spec i n); [lia|]. destruct (Nat.eqb_spec n (S i)); [lia|]. destruct (Nat.eqb_spec i (S n)); [lia|]. ring. }
      rewrite (rsum_ext Nl (fun n => (dg_drift Nl va vb U m n + T * dg_diffusion Nl va vb m n) * B n)
        (fun n => rsum Nl (fun i => - (lderiv va vb m i) * (lT va vb i n * B n)) + (U * (lderiv va vb m n * B n) + T * rsum Nl (fun i => - lderiv va vb m i * (lderiv va vb n i * B n))))).
      2:{ intros n Hn. rewrite Dr by exact Hn. unfold dg_diffusion.
          rewrite (rsum_ext Nl (fun i => - lderiv va vb m i * (lT va vb i n * B n)) (fun i => - B n * (lderiv va vb m i * lT va vb i n))) by (intros; ring).
          rewrite (rsum_ext Nl (fun i => - lderiv va vb m i * (lderiv va vb n i * B n)) (fun i => - B n * (lderiv va vb m i * lderiv va vb n i))) by (intros; ring). rewrite !rsum_scal. ring. }
      rewrite !rsum_plus, !rsum_scal, (rsum_swap Nl Nl (fun n i => - lderiv va vb m i * (lT va vb i n * B n))), (rsum_swap Nl Nl (fun n i => - lderiv va vb m i * (lderiv va vb n i * B n))).
      rewrite <- !rsum_scal, <- !rsum_plus. apply rsum_ext. intros i _. unfold y. rewrite !rsum_scal. ring.
Qed.
Print Assumptions C94_legendre_weak.

(** The prediagonalized diffusion is the exact flow of T (- D D^T): eigh's eigenvalues are <= 0 (the clip min(ev, 0) changes
    nothing), the sum of squares does not increase, and B_0 is untouched. *)
Section Diff.
Variables (Nl : nat) (va vb : R) (ev : nat -> R) (V : nat -> nat -> R).
Hypothesis H : is_eigh Nl (dg_diffusion Nl va vb) ev V.
Let P (B : nat -> R) (i : nat) : R := rsum Nl (fun m => V m i * B m).
Lemma expand B n : (n < Nl)%nat -> rsum Nl (fun i => V n i * P B i) = B n.
Proof.
  intros Hn. unfold P. rewrite (rsum_ext Nl _ (fun i => rsum Nl (fun m => V n i * (V m i * B m)))) by (intros; now rewrite rsum_scal). rewrite rsum_swap.
  rewrite (rsum_single Nl n); [|exact Hn|].
  - rewrite (rsum_ext Nl _ (fun i => B n * (V n i * V n i))) by (intros; ring). rewrite rsum_scal, (eigh_rows _ _ _ _ H n n Hn Hn), Nat.eqb_refl. ring.
  - intros m Hm Nm. rewrite (rsum_ext Nl _ (fun i => B m * (V n i * V m i))) by (intros; ring). rewrite rsum_scal, (eigh_rows _ _ _ _ H n m Hn Hm). destruct (Nat.eqb_spec n m); [lia|ring].
Qed.
Lemma norm_modal y : norm2 Nl (fun n => rsum Nl (fun i => V n i * y i)) = norm2 Nl y.
Proof.
  unfold norm2. rewrite (rsum_ext Nl _ (fun n => rsum Nl (fun i => rsum Nl (fun j => y i * y j * (V n i * V n j))))).
  2:{ intros n _. rewrite <- rsum_scal_r. apply rsum_ext. intros i _. rewrite <- rsum_scal. apply rsum_ext. intros; ring. }
  rewrite rsum_swap. apply rsum_ext. intros i Hi. rewrite rsum_swap. rewrite (rsum_single Nl i); [|exact Hi|].
  - rewrite rsum_scal, (eigh_cols _ _ _ _ H i i Hi Hi), Nat.eqb_refl. ring.
  - intros j Hj Nj. rewrite rsum_scal, (eigh_cols _ _ _ _ H i j Hi Hj). destruct (Nat.eqb_spec i j); [lia|ring].
Qed.
Lemma ev_nonpos i : (i < Nl)%nat -> ev i <= 0.
Proof.
  intros Hi. assert (E : rsum Nl (fun n => V n i * rsum Nl (fun m => dg_diffusion Nl va vb n m * V m i)) = ev i).
  { rewrite (rsum_ext Nl _ (fun n => ev i * (V n i * V n i))) by (intros n Hn; rewrite (eigh_vec _ _ _ _ H n i Hn Hi); ring). rewrite rsum_scal, (eigh_cols _ _ _ _ H i i Hi Hi), Nat.eqb_refl. ring. }
  assert (E2 : rsum Nl (fun n => V n i * rsum Nl (fun m => dg_diffusion Nl va vb n m * V m i)) = - rsum Nl (fun k => rsum Nl (fun m => lderiv va vb m k * V m i) * rsum Nl (fun m => lderiv va vb m k * V m i))).
  { rewrite (rsum_ext Nl _ (fun n => rsum Nl (fun m => rsum Nl (fun k => - (lderiv va vb n k * V n i * (lderiv va vb m k * V m i)))))).
    2:{ intros n _. rewrite <- rsum_scal. apply rsum_ext. intros m _. unfold dg_diffusion. rewrite (rsum_ext Nl (fun k => - (lderiv va vb n k * V n i * (lderiv va vb m k * V m i))) (fun k => - (V n i * V m i) * (lderiv va vb n k * lderiv va vb m k))) by (intros; ring). rewrite rsum_scal. ring. }
    rewrite (rsum_ext Nl _ (fun n => rsum Nl (fun k => rsum Nl (fun m => - (lderiv va vb n k * V n i * (lderiv va vb m k * V m i)))))) by (intros; apply rsum_swap). rewrite rsum_swap.
    replace (- rsum Nl (fun k => rsum Nl (fun m => lderiv va vb m k * V m i) * rsum Nl (fun m => lderiv va vb m k * V m i))) with ((-1) * rsum Nl (fun k => rsum Nl (fun m => lderiv va vb m k * V m i) * rsum Nl (fun m => lderiv va vb m k * V m i))) by ring.
    rewrite <- rsum_scal. apply rsum_ext. intros k _. rewrite <- rsum_scal_r, <- rsum_scal. apply rsum_ext. intros n _. rewrite (rsum_ext Nl _ (fun m => - (lderiv va vb n k * V n i) * (lderiv va vb m k * V m i))) by (intros; ring). rewrite rsum_scal. ring. }
  rewrite E2 in E. assert (0 <= rsum Nl (fun k => rsum Nl (fun m => lderiv va vb m k * V m i) * rsum Nl (fun m => lderiv va vb m k * V m i))) by (apply rsum_nonneg; intros; nra). lra.
Qed.
Lemma diffuse_form T t B n : dg_diffuse Nl ev V T t B n = rsum Nl (fun i => V n i * (exp (ev i * T * t) * P B i)).
Proof. unfold dg_diffuse. apply rsum_ext. intros i Hi. rewrite Rmin_left by (apply ev_nonpos; exact Hi). unfold P. f_equal. f_equal. f_equal. ring. Qed.
End Diff.
Theorem C94_diffusion : forall Nl va vb ev V T B, is_eigh Nl (dg_diffusion Nl va vb) ev V ->
  (forall i, (i < Nl)%nat -> ev i <= 0) /\
  (forall n, (n < Nl)%nat -> dg_diffuse Nl ev V T 0 B n = B n) /\
  (forall n t, (n < Nl)%nat -> derivable_pt_lim (fun x => dg_diffuse Nl ev V T x B n) t (T * rsum Nl (fun m => dg_diffusion Nl va vb n m * dg_diffuse Nl ev V T t B m))) /\
  (forall t, 0 <= T -> 0 <= t -> norm2 Nl (dg_diffuse Nl ev V T t B) <= norm2 Nl B) /\
  (forall t, (0 < Nl)%nat -> dg_diffuse Nl ev V T t B 0%nat = B 0%nat).
Proof.
  intros Nl va vb ev V T B H. split; [apply (ev_nonpos Nl va vb ev V H)|]. split; [|split; [|split]].
  - intros n Hn. rewrite (diffuse_form Nl va vb ev V H). rewrite (rsum_ext Nl _ (fun i => V n i * rsum Nl (fun m => V m i * B m))) by (intros; rewrite Rmult_0_r, exp_0; ring). apply (expand Nl va vb ev V H B n Hn).
  - intros n t Hn.
    assert (D : derivable_pt_lim (fun x => rsum Nl (fun i => V n i * (exp (ev i * T * x) * rsum Nl (fun m => V m i * B m)))) t (rsum Nl (fun i => V n i * (ev i * T * exp (ev i * T * t) * rsum Nl (fun m => V m i * B m))))).
    { apply (derive_rsum Nl (fun x i => V n i * (exp (ev i * T * x) * rsum Nl (fun m => V m i * B m))) (fun i => V n i * (ev i * T * exp (ev i * T * t) * rsum Nl (fun m => V m i * B m))) t). intros i _.
      apply (derive_ext_fun (fun x => V n i * rsum Nl (fun m => V m i * B m) * exp (ev i * T * x))); [intros; ring|].
      replace (V n i * (ev i * T * exp (ev i * T * t) * rsum Nl (fun m => V m i * B m))) with (V n i * rsum Nl (fun m => V m i * B m) * (exp (ev i * T * t) * (ev i * T * 1))) by ring.
      apply (derivable_pt_lim_scal (fun x => exp (ev i * T * x))). apply (derivable_pt_lim_comp (fun y => ev i * T * y) exp t (ev i * T * 1) (exp (ev i * T * t))); [apply (derivable_pt_lim_scal (fun y => y) (ev i * T) t 1), derivable_pt_lim_id|apply derivable_pt_lim_exp]. }
    match type of D with derivable_pt_lim _ _ ?d => match goal with |- derivable_pt_lim _ _ ?e => replace e with d end end.
    + refine (derive_ext_fun _ _ t _ _ D). intros x. symmetry. apply (diffuse_form Nl va vb ev V H).
    + rewrite <- rsum_scal. rewrite (rsum_ext Nl (fun m => T * (dg_diffusion Nl va vb n m * dg_diffuse Nl ev V T t B m)) (fun m => rsum Nl (fun i => T * (exp (ev i * T * t) * rsum Nl (fun m => V m i * B m)) * (dg_diffusion Nl va vb n m * V m i)))).
      2:{ intros m _. rewrite (diffuse_form Nl va vb ev V H). rewrite <- !rsum_scal. apply rsum_ext. intros; ring. }
      rewrite rsum_swap. apply rsum_ext. intros i Hi. rewrite rsum_scal, (eigh_vec _ _ _ _ H n i Hn Hi). ring.
  - intros t HT Ht.
    assert (E : norm2 Nl (fun n => rsum Nl (fun i => V n i * rsum Nl (fun m => V m i * B m))) = norm2 Nl B) by (unfold norm2; apply rsum_ext; intros n Hn; rewrite (expand Nl va vb ev V H B n Hn); reflexivity).
    rewrite <- E, (norm_modal Nl va vb ev V H).
    assert (E2 : norm2 Nl (dg_diffuse Nl ev V T t B) = norm2 Nl (fun i => exp (ev i * T * t) * rsum Nl (fun m => V m i * B m))).
    { rewrite <- (norm_modal Nl va vb ev V H (fun i => exp (ev i * T * t) * rsum Nl (fun m => V m i * B m))). unfold norm2. apply rsum_ext. intros n _. rewrite (diffuse_form Nl va vb ev V H). reflexivity. }
    rewrite E2. unfold norm2. apply rsum_le. intros i Hi. pose proof (ev_nonpos Nl va vb ev V H i Hi) as Ne. set (w := rsum Nl (fun m => V m i * B m)).
    assert (L : exp (ev i * T * t) <= 1). { rewrite <- exp_0. assert (L : ev i * T * t <= 0) by (assert (0 <= T * t) by nra; nra). destruct L as [L|L]; [left; apply exp_increasing; exact L|rewrite L; lra]. }
    pose proof (exp_pos (ev i * T * t)). set (x := exp (ev i * T * t)) in *. assert (x * x <= 1) by nra. assert (0 <= w * w) by nra. nra.
  - intros t HN. rewrite (diffuse_form Nl va vb ev V H). transitivity (rsum Nl (fun i => V 0%nat i * rsum Nl (fun m => V m i * B m))); [|apply (expand Nl va vb ev V H B 0%nat HN)]. apply rsum_ext. intros i Hi.
    assert (Z : ev i * V 0%nat i = 0). { rewrite <- (eigh_vec _ _ _ _ H 0%nat i HN Hi). apply rsum_zero_ext. intros m _. unfold dg_diffusion. rewrite (rsum_zero_ext Nl (fun k => lderiv va vb 0 k * lderiv va vb m k)); [ring|]. intros k _. rewrite lderiv_lower by lia. ring. }
    apply Rmult_integral in Z. destruct Z as [Z|Z]; rewrite Z; [rewrite !Rmult_0_l, exp_0|]; ring.
Qed.
Print Assumptions C94_diffusion.

(** The drift substep is the only solution of the midpoint equation for the lower-triangular drift matrix (whose diagonal is
    - m, so that the solve never fails for nu s >= 0), and leaves B_0 alone. *)
Lemma tsubs_stable A rhs N M i : (i < M <= N)%nat -> tsubs A rhs N i = tsubs A rhs M i.
Proof. intros [H1 H2]. induction H2 as [|N H2 IH]; [reflexivity|]. rewrite <- IH. cbn [tsubs]. destruct (Nat.eqb_spec i N); [lia|reflexivity]. Qed.
Lemma tsubs_eq A rhs N i : (i < N)%nat -> tsubs A rhs N i = (rhs i - rsum i (fun j => A i j * tsubs A rhs N j)) / A i i.
Proof.
  intros H. rewrite (tsubs_stable A rhs N (S i) i) by lia. cbn [tsubs]. rewrite Nat.eqb_refl. f_equal. f_equal. apply rsum_ext. intros j Hj. rewrite (tsubs_stable A rhs N i j) by lia. reflexivity.
Qed.
Lemma tsubs_iff A rhs N X : (forall i j, (i < j)%nat -> A i j = 0) -> (forall i, (i < N)%nat -> A i i <> 0) ->
  (forall i, (i < N)%nat -> rsum N (fun j => A i j * X j) = rhs i) <-> (forall i, (i < N)%nat -> X i = tsubs A rhs N i).
Proof.
  intros L D.
  assert (S : forall Y i, (i < N)%nat -> rsum N (fun j => A i j * Y j) = rsum i (fun j => A i j * Y j) + A i i * Y i).
  { intros Y i Hi. rewrite (rsum_lower N (S i)) by (first [lia | intros j Hj; rewrite L by lia; ring]). reflexivity. }
  split; intros H.
  - intros i. induction i as [i IH] using (well_founded_induction lt_wf). intros Hi. rewrite tsubs_eq by exact Hi. specialize (H i Hi). rewrite S in H by exact Hi.
    rewrite (rsum_ext i _ (fun j => A i j * tsubs A rhs N j)) in H by (intros j Hj; rewrite IH by lia; reflexivity). apply Rmult_eq_reg_l with (A i i); [|apply D; exact Hi].
    transitivity (rhs i - rsum i (fun j => A i j * tsubs A rhs N j)); [lra|]. field. apply D. exact Hi.
  - intros i Hi. rewrite S, (H i Hi) by exact Hi. rewrite (rsum_ext i _ (fun j => A i j * tsubs A rhs N j)) by (intros j Hj; rewrite H by lia; reflexivity). rewrite (tsubs_eq A rhs N i Hi). field. apply D. exact Hi.
Qed.
Lemma drift_lower Nl va vb U m n : (m < n)%nat -> dg_drift Nl va vb U m n = 0.
Proof. intros H. unfold dg_drift, dg_drift0. rewrite (proj2 (Nat.leb_gt n m)) by lia. rewrite lderiv_lower by lia. ring. Qed.
Lemma drift_diag Nl va vb U m : va < vb -> (m < Nl)%nat -> dg_drift Nl va vb U m m = - INR m.
Proof.
  intros Hv Hm. unfold dg_drift, dg_drift0. rewrite Nat.leb_refl, (lderiv_lower va vb m m) by lia. destruct m as [|m].
  - rewrite (rsum_zero_ext Nl) by (intros i _; rewrite lderiv_lower by lia; ring). change (INR 0) with 0. ring.
  - rewrite (rsum_single Nl m); [|lia|].
    + unfold lderiv. rewrite (proj2 (Nat.ltb_lt m (S m))) by lia. replace (S m - m)%nat with 1%nat by lia. cbn [andb Nat.modulo Nat.divmod fst snd Nat.sub Nat.eqb].
      unfold lT. destruct (Nat.eqb_spec m (S m)); [lia|]. rewrite Nat.eqb_refl. destruct (Nat.eqb_spec m (S (S m))); [lia|].
      unfold lsigma. cbn [Nat.eqb]. pose proof (pos_INR m) as Pm. rewrite S_INR. set (k := INR m) in *. replace (2 * (k + 1) - 1) with (2 * k + 1) by ring.
      assert (P : 0 < sqrt ((2 * (k + 1) + 1) * (2 * k + 1))) by (apply sqrt_lt_R0; nra). field. lra.
    + intros i Hi Ni. destruct (Nat.le_gt_cases (S m) i) as [Q|Q]; [rewrite lderiv_lower by exact Q; ring|]. unfold lT. destruct (Nat.eqb_spec i (S m)); [lia|]. destruct (Nat.eqb_spec (S m) (S i)); [lia|]. destruct (Nat.eqb_spec i (S (S m))); [lia|]. ring.
Qed.
Theorem C94_drift : forall Nl va vb U t B X, va < vb -> 0 <= t ->
  (midpoint Nl (dg_drift Nl va vb U) (1 / 2 * t) B X <-> forall n, (n < Nl)%nat -> X n = dg_drifted Nl va vb U t B n) /\
  ((0 < Nl)%nat -> dg_drifted Nl va vb U t B 0%nat = B 0%nat).
Proof.
  intros Nl va vb U t B X Hv Ht.
  assert (It : forall X, midpoint Nl (dg_drift Nl va vb U) (1 / 2 * t) B X <-> forall n, (n < Nl)%nat -> X n = dg_drifted Nl va vb U t B n).
  { clear X. intros X. unfold dg_drifted. rewrite <- tsubs_iff.
    - rewrite midpoint_iff. split; intros H n Hn; specialize (H n Hn).
      + rewrite (rsum_ext Nl _ (fun j => (if (n =? j)%nat then X j else 0) - 1 / 2 * t * (dg_drift Nl va vb U n j * X j))) by (intros j _; destruct (n =? j)%nat; ring).
        rewrite rsum_minus, rsum_scal. rewrite (rsum_single Nl n (fun j => if (n =? j)%nat then X j else 0)); [|exact Hn|intros j _ Nj; destruct (Nat.eqb_spec n j); [lia|reflexivity]]. rewrite Nat.eqb_refl.
        unfold mvr in H. rewrite H. f_equal. f_equal. rewrite <- rsum_scal_r, <- rsum_plus. apply rsum_ext. intros j _. unfold dg_drift. ring.
      + rewrite (rsum_ext Nl _ (fun j => (if (n =? j)%nat then X j else 0) - 1 / 2 * t * (dg_drift Nl va vb U n j * X j))) in H by (intros j _; destruct (n =? j)%nat; ring).
        rewrite rsum_minus, rsum_scal in H. rewrite (rsum_single Nl n (fun j => if (n =? j)%nat then X j else 0)) in H; [|exact Hn|intros j _ Nj; destruct (Nat.eqb_spec n j); [lia|reflexivity]]. rewrite Nat.eqb_refl in H.
        unfold mvr. rewrite H. f_equal. f_equal. rewrite <- rsum_scal_r, <- rsum_plus. apply rsum_ext. intros j _. unfold dg_drift. ring.
    - intros i j Hij. destruct (Nat.eqb_spec i j); [lia|]. rewrite drift_lower by exact Hij. ring.
    - intros i Hi. rewrite Nat.eqb_refl, drift_diag by assumption. pose proof (pos_INR i). assert (0 <= t * INR i) by nra. lra. }
  split; [apply It|]. intros HN. pose proof (proj2 (It (dg_drifted Nl va vb U t B)) (fun _ _ => eq_refl) 0%nat HN) as E.
  rewrite (rsum_zero_ext Nl) in E; [lra|]. intros i Hi. destruct i as [|i]; [rewrite drift_diag by assumption; change (INR 0) with 0; ring|rewrite drift_lower by lia; ring].
Qed.
Print Assumptions C94_drift.

(** The whole Dougherty substep leaves a Maxwellian Hermite state (no Legendre part) unchanged. *)
Lemma dg_B_zero Nl va vb ev V U T t n : va < vb -> 0 <= t -> is_eigh Nl (dg_diffusion Nl va vb) ev V -> (n < Nl)%nat -> dg_B Nl va vb ev V U T t (fun _ => 0) n = 0.
Proof.
  intros Hv Ht H Hn. unfold dg_B.
  assert (Z : forall c B m, (forall i, (i < Nl)%nat -> B i = 0) -> dg_diffuse Nl ev V T c B m = 0). { intros c B m HB. unfold dg_diffuse. apply rsum_zero_ext. intros i _. rewrite (rsum_zero_ext Nl (fun m => V m i * B m)); [ring|]. intros k Hk. rewrite HB by exact Hk. ring. }
  apply Z. intros i Hi. symmetry. apply (proj1 (proj1 (C94_drift Nl va vb U t (dg_diffuse Nl ev V T (1 / 2 * t) (fun _ => 0)) (fun _ => 0) Hv Ht))); [|exact Hi].
  intros k _. rewrite (Z _ (fun _ => 0) k) by reflexivity. rewrite (rsum_zero_ext Nl); [ring|]. intros j _. rewrite Z by reflexivity. ring.
Qed.
Theorem C94_dougherty_equilibrium : forall Nl va vb ev V alpha u Tmin t n U T k, 0 < alpha -> va < vb -> 0 <= t -> (3 <= Nl)%nat -> is_eigh Nl (dg_diffusion Nl va vb) ev V ->
  / 10 ^ 14 <= n -> Tmin <= T -> let M := moment_matrix alpha u (lT va vb) (vb - va) in
  let o := dg_apply Nl va vb ev V M alpha u Tmin t (mx_coeff alpha u n U T) (fun _ => 0) in
  fst o k = mx_coeff alpha u n U T k /\ ((k < Nl)%nat -> snd o k = 0).
Proof.
  intros Nl va vb ev V alpha u Tmin t n U T k Ha Hv Ht HN H Hn HT M o. pose proof tiny_pos as TP. destruct (mx_moments alpha u va vb n U T Ha) as (X0 & X1 & X2). fold M in X0, X1, X2.
  set (tg := moments M (mx_coeff alpha u n U T) (fun _ => 0)) in *.
  assert (T1 : true_mean tg = U) by (unfold true_mean; rewrite X0, X1; field; lra). assert (T2 : true_temp tg = T) by (unfold true_temp; rewrite T1, X0, X2; field; lra).
  destruct (unclamped_values Tmin tg) as (D & Me & Te); [split; [rewrite X0; exact Hn|rewrite T2; exact HT]|].
  unfold o, dg_apply. fold tg. cbv zeta. cbn [fst snd]. rewrite Me, Te, T1, T2. split.
  - transitivity (hexact alpha u U T t (mx_coeff alpha u n U T) k); [|apply C94_hermite_equilibrium; exact Ha]. apply (proj1 (proj2 (C94_restore alpha u va vb tg (hexact alpha u U T t (mx_coeff alpha u n U T)) (dg_B Nl va vb ev V U T t (fun _ => 0)) 0 Ha ltac:(lia)))).
    intros j Hj. fold M. unfold tg. apply moments_ext; [intros i _; apply C94_hermite_equilibrium; exact Ha|intros i Hi; apply dg_B_zero; auto; lia].
  - intros Hk. apply dg_B_zero; auto.
Qed.
Print Assumptions C94_dougherty_equilibrium.

(** On the grid: a collision substep leaves the charge density, hence the self-consistent field and the potential, unchanged. *)
Theorem C94_field_unchanged : forall nx alpha u va vb Tmin nu s Nl ev V tau iok ksq C B g, 0 < alpha -> (g < nx)%nat ->
  let M := moment_matrix alpha u (lT va vb) (vb - va) in
  let bgk := coll_grid nx (fun c b => (bgk_C M alpha u Tmin nu s c b, bgk_B nu s b)) C B in
  let dgy := coll_grid nx (dg_apply Nl va vb ev V M alpha u Tmin tau) C B in
  hl_field nx alpha (vb - va) iok (fst bgk) (snd bgk) g = hl_field nx alpha (vb - va) iok C B g /\
  hl_potential nx alpha (vb - va) ksq (fst bgk) (snd bgk) g = hl_potential nx alpha (vb - va) ksq C B g /\
  hl_field nx alpha (vb - va) iok (fst dgy) (snd dgy) g = hl_field nx alpha (vb - va) iok C B g /\
  hl_potential nx alpha (vb - va) ksq (fst dgy) (snd dgy) g = hl_potential nx alpha (vb - va) ksq C B g.
Proof.
  intros nx alpha u va vb Tmin nu s Nl ev V tau iok ksq C B g Ha Hg M.
  assert (Rho : forall f, (forall c b, moments M (fst (f c b)) (snd (f c b)) 0 = moments M c b 0) -> forall g, (g < nx)%nat ->
    hl_rho nx alpha (vb - va) (fst (coll_grid nx f C B)) (snd (coll_grid nx f C B)) g = hl_rho nx alpha (vb - va) C B g).
  { intros f Hf g' Hg'. unfold hl_rho, coll_grid. cbn [fst snd]. rewrite !finv_ffwd by exact Hg'. cbn [fst].
    specialize (Hf (fun n => fst (finv nx (C n) g')) (fun m => fst (finv nx (B m) g'))).
    assert (M0 : forall c b, moments M c b 0 = alpha * c 0%nat + (vb - va) * b 0%nat) by (intros c b; unfold moments, low6, M, moment_matrix; cbn [rsum nth Nat.ltb Nat.leb Nat.sub]; ring).
    rewrite !M0 in Hf. lra. }
  assert (Fld : forall f, (forall c b, moments M (fst (f c b)) (snd (f c b)) 0 = moments M c b 0) ->
    hl_field nx alpha (vb - va) iok (fst (coll_grid nx f C B)) (snd (coll_grid nx f C B)) g = hl_field nx alpha (vb - va) iok C B g /\
    hl_potential nx alpha (vb - va) ksq (fst (coll_grid nx f C B)) (snd (coll_grid nx f C B)) g = hl_potential nx alpha (vb - va) ksq C B g).
  { intros f Hf. pose proof (Rho f Hf) as RR.
    assert (Fw : forall k, ffwd nx (fun g' => (hl_rho nx alpha (vb - va) (fst (coll_grid nx f C B)) (snd (coll_grid nx f C B)) g', 0)) k = ffwd nx (fun g' => (hl_rho nx alpha (vb - va) C B g', 0)) k) by (intros k; apply ffwd_ext; intros g' Hg'; rewrite RR by exact Hg'; reflexivity).
    unfold hl_field, hl_potential. split; f_equal; unfold finv; apply csum_ext; intros k _; rewrite Fw; reflexivity. }
  pose proof (Fld (fun c b => (bgk_C M alpha u Tmin nu s c b, bgk_B nu s b)) (fun c b => proj1 (C94_conservation alpha u va vb Tmin c b 0 Ha ltac:(lia)) nu s)) as [F1 F2].
  pose proof (Fld (dg_apply Nl va vb ev V M alpha u Tmin tau) (fun c b => proj2 (C94_conservation alpha u va vb Tmin c b 0 Ha ltac:(lia)) Nl ev V tau)) as [F3 F4].
  cbv zeta in F1, F2, F3, F4. repeat split; assumption.
Qed.
Print Assumptions C94_field_unchanged.

(** The hypotheses are met: a unit Maxwellian and a cold clamp. *)
Example C94_unclamped_example : unclamped (1 / 100) (moments (moment_matrix 1 0 (lT (-1) 1) (1 - -1)) (mx_coeff 1 0 1 (1 / 2) 2) (fun _ => 0)).
Proof.
  destruct (mx_moments 1 0 (-1) 1 1 (1 / 2) 2 ltac:(lra)) as (X0 & X1 & X2). unfold unclamped, true_temp, true_mean. rewrite X0, X1, X2. split.
  - replace 1 with (/ 1) by field. apply Rinv_le_contravar; [lra|]. apply pow_R1_Rle. lra.
  - replace (2 * (1 * (2 + (1 / 2) ^ 2) / 2) / 1 - (1 * (1 / 2) / 1) ^ 2) with 2 by field. lra.
Qed.
Example C94_eigh_example : is_eigh 2 (dg_diffusion 2 0 1) (fun i => if (i =? 0)%nat then - (12) else 0) (fun n i => if (n =? i)%nat then 0 else 1).
Proof.
  assert (Q3 : sqrt 3 * sqrt 3 = 3) by (apply sqrt_sqrt; lra).
  assert (D : forall m i, (m < 2)%nat -> (i < 2)%nat -> lderiv 0 1 m i = if ((m =? 1) && (i =? 0))%nat%bool then 2 * sqrt 3 else 0).
  { intros m i Hm Hi. destruct m as [|[|m]], i as [|[|i]]; try lia; cbn [Nat.eqb andb]; try (apply lderiv_lower; lia). rewrite lderiv_10. field. }
  constructor.
  - intros i j Hi Hj. destruct i as [|[|i]], j as [|[|j]]; try lia; cbn [rsum Nat.eqb]; ring.
  - intros i j Hi Hj. destruct i as [|[|i]], j as [|[|j]]; try lia; cbn [rsum Nat.eqb]; ring.
  - intros n i Hn Hi. unfold dg_diffusion. cbn [rsum]. destruct n as [|[|n]], i as [|[|i]]; try lia; rewrite !D by lia; cbn [Nat.eqb andb]; nra.
Qed.
