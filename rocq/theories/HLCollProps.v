(** C94: the collision operators of the Hermite-Legendre solver. *)
From Coq Require Import Reals Lra Lia ZArith List Bool Psatz.
From Verif Require Import HermitePoisson HPProps HPForceProps Legendre GaussInt HermLeg HLBasis HermLegProps HLForceProps HLColl RSum Pic PicProofs PicFourier Dft.
Local Open Scope R_scope.

(* ------------------------------------------------------------------------------------------------ *)
(** * Specification *)
(** The Maxwellian with the given density, mean velocity and temperature. *)
Definition maxwellian (n U T v : R) : R := n / sqrt (2 * PI * T) * exp (- ((v - U) ^ 2 / (2 * T))).
(** The true moments: density n, mean velocity, temperature of a moment vector (n, n U, n (T + U^2) / 2). *)
Definition true_mean (tg : nat -> R) : R := tg 1%nat / tg 0%nat.
Definition true_temp (tg : nat -> R) : R := 2 * tg 2%nat / tg 0%nat - true_mean tg ^ 2.
(** No clamp is active. *)
Definition unclamped (Tmin : R) (tg : nat -> R) : Prop := / 10 ^ 14 <= tg 0%nat /\ Tmin <= true_temp tg.
Lemma unclamped_values Tmin tg : unclamped Tmin tg -> col_density tg = tg 0%nat /\ col_mean tg = true_mean tg /\ col_temp Tmin tg = true_temp tg.
Proof.
  intros [H1 H2]. assert (D : col_density tg = tg 0%nat) by (apply Rmax_left; exact H1). unfold col_mean, col_temp. unfold true_temp in *. unfold col_mean. rewrite D. split; [reflexivity|]. split; [reflexivity|]. apply Rmax_left. exact H2.
Qed.
Lemma tiny_pos : 0 < / 10 ^ 14. Proof. apply Rinv_0_lt_compat, pow_lt. lra. Qed.

(* ------------------------------------------------------------------------------------------------ *)
(** * Gaussian integrals against the Hermite polynomials *)
Lemma gauss_decay (h : R -> R) K m a U s : 0 <= K -> 0 <= m -> 0 < a -> (s = 1 \/ s = -1) -> (forall v, Rabs (h v) <= K * exp (m * Rabs v)) ->
  limit_at s (fun v => h v * exp (- ((v - U) / a) ^ 2)) 0.
Proof.
  intros K0 M0 Ha Hs G eps He. pose (K' := K * exp (m * Rabs U)). assert (K'0 : 0 <= K') by (apply Rmult_le_pos; [exact K0|left; apply exp_pos]).
  destruct (exp_small (eps / (K' + 1))) as (X & X0 & HX); [apply Rdiv_lt_0_compat; lra|].
  exists (Rabs U + a * (m * a + 1 + X)). intros x Hx. rewrite Rminus_0_r. set (v := s * x). set (w := (v - U) / a).
  assert (Ew : Rabs (v - U) = a * Rabs w). { unfold w. rewrite <- (Rabs_right a) at 1 by lra. rewrite <- Rabs_mult. f_equal. field. lra. }
  assert (Hw : m * a + 1 + X <= Rabs w).
  { assert (L : x - Rabs U <= Rabs (v - U)). { unfold v. pose proof (Rle_abs U). pose proof (Rle_abs (- U)) as Q. rewrite Rabs_Ropp in Q. destruct Hs as [->| ->]; unfold Rabs at 2; destruct (Rcase_abs _); lra. }
    apply Rmult_le_reg_l with a; [exact Ha|]. lra. }
  assert (Gv : Rabs (h v) <= K' * exp (m * a * Rabs w)).
  { eapply Rle_trans; [apply G|]. unfold K'. rewrite Rmult_assoc, <- exp_plus. apply Rmult_le_compat_l; [exact K0|].
    assert (L : m * Rabs v <= m * Rabs U + m * a * Rabs w). { rewrite Rmult_assoc, <- Ew, <- Rmult_plus_distr_l. apply Rmult_le_compat_l; [exact M0|]. replace v with (U + (v - U)) at 1 by ring. apply Rabs_triang. }
    destruct L as [L|L]; [left; apply exp_increasing; exact L|rewrite L; lra]. }
  rewrite Rabs_mult, (Rabs_right (exp (- w ^ 2))) by (left; apply exp_pos).
  assert (Q : exp (m * a * Rabs w) * exp (- w ^ 2) <= exp (- Rabs w)).
  { rewrite <- exp_plus. assert (E : w ^ 2 = Rabs w * Rabs w) by (rewrite <- Rabs_mult, Rabs_right; [ring|nra]). rewrite E.
    assert (0 <= m * a) by nra. assert (0 <= (Rabs w - (m * a + 1)) * Rabs w) by (apply Rmult_le_pos; lra).
    assert (L : m * a * Rabs w + - (Rabs w * Rabs w) <= - Rabs w) by lra. destruct L as [L|L]; [left; apply exp_increasing; exact L|rewrite L; lra]. }
  assert (HX' : exp (- Rabs w) < eps / (K' + 1)). { apply HX. assert (0 <= m * a) by nra. lra. }
  apply Rle_lt_trans with (K' * exp (m * a * Rabs w) * exp (- w ^ 2)); [apply Rmult_le_compat_r; [left; apply exp_pos|exact Gv]|].
  rewrite Rmult_assoc. apply Rle_lt_trans with (K' * (eps / (K' + 1))); [apply Rmult_le_compat_l; lra|].
  replace (K' * (eps / (K' + 1))) with (eps * (K' / (K' + 1))) by (field; lra).
  assert (K' / (K' + 1) < 1) by (apply Rmult_lt_reg_r with (K' + 1); [lra|]; unfold Rdiv; rewrite Rmult_assoc, Rinv_l by lra; lra). nra.
Qed.
Lemma maxwellian_psi n U T v : 0 < T -> maxwellian n U T v = n / sqrt (2 * T) * psi (sqrt (2 * T)) U 0 v.
Proof.
  intros HT. assert (P : 0 < sqrt (2 * T)) by (apply sqrt_lt_R0; lra). pose proof (sqrt_lt_R0 PI PI_RGT_0) as SP. pose proof (sqrt_sqrt (2 * T) ltac:(lra)) as Q.
  rewrite psi_eq, hnorm_0. unfold maxwellian. replace (2 * PI * T) with (2 * T * PI) by ring. rewrite sqrt_mult by (pose proof PI_RGT_0; lra).
  assert (E : ((v - U) / sqrt (2 * T)) ^ 2 = (v - U) ^ 2 / (2 * T)). { rewrite <- Q at 2. field. lra. }
  rewrite E. field. lra.
Qed.

(** d/dv of the Maxwellian. *)
Lemma maxwellian_deriv n U T v : 0 < T -> derivable_pt_lim (maxwellian n U T) v (- (v - U) / T * maxwellian n U T v).
Proof.
  intros HT. unfold maxwellian.
  assert (D : derivable_pt_lim (fun y => exp (- ((y - U) ^ 2 / (2 * T)))) v (exp (- ((v - U) ^ 2 / (2 * T))) * (- (v - U) / T))).
  { apply (derivable_pt_lim_comp (fun y => - ((y - U) ^ 2 / (2 * T))) exp v (- (v - U) / T) (exp (- ((v - U) ^ 2 / (2 * T))))); [|apply derivable_pt_lim_exp].
    apply (derive_ext_fun (fun y => - / (2 * T) * (y - U) ^ 2)); [intros t; field; lra|].
    replace (- (v - U) / T) with (- / (2 * T) * (INR 2 * (v - U) ^ pred 2 * 1)) by (cbn; field; lra).
    apply (derivable_pt_lim_scal (fun y => (y - U) ^ 2) (- / (2 * T)) v). apply (derivable_pt_lim_comp (fun y => y - U) (fun x => x ^ 2) v 1 (INR 2 * (v - U) ^ pred 2)); [|apply derivable_pt_lim_pow].
    replace 1 with (1 - 0) by ring. apply (derivable_pt_lim_minus (fun y => y) (fun _ => U) v 1 0); [apply derivable_pt_lim_id|apply derivable_pt_lim_const]. }
  replace (- (v - U) / T * (n / sqrt (2 * PI * T) * exp (- ((v - U) ^ 2 / (2 * T))))) with (n / sqrt (2 * PI * T) * (exp (- ((v - U) ^ 2 / (2 * T))) * (- (v - U) / T))) by ring.
  apply (derivable_pt_lim_scal (fun y => exp (- ((y - U) ^ 2 / (2 * T)))) (n / sqrt (2 * PI * T)) v). exact D.
Qed.
Lemma maxwellian_decay n U T alpha u k s : 0 < T -> 0 < alpha -> (s = 1 \/ s = -1) -> limit_at s (fun v => maxwellian n U T v * hnorm k ((v - u) / alpha)) 0.
Proof.
  intros HT Ha Hs. destruct (hnorm_growth k) as (K & K0 & G & _). pose proof (pos_INR k) as Pk. assert (P : 0 < sqrt (2 * T)) by (apply sqrt_lt_R0; lra). pose proof (sqrt_sqrt (2 * T) ltac:(lra)) as Q.
  pose proof (gauss_decay (fun v => n / sqrt (2 * PI * T) * hnorm k ((v - u) / alpha)) (Rabs (n / sqrt (2 * PI * T)) * (K * exp (INR k / alpha * Rabs u))) (INR k / alpha) (sqrt (2 * T)) U s) as L.
  assert (Pa : 0 <= INR k / alpha) by (apply Rmult_le_pos; [exact Pk|left; apply Rinv_0_lt_compat; exact Ha]).
  assert (L' : limit_at s (fun v => n / sqrt (2 * PI * T) * hnorm k ((v - u) / alpha) * exp (- ((v - U) / sqrt (2 * T)) ^ 2)) 0).
  { apply L; auto.
    - apply Rmult_le_pos; [apply Rabs_pos|]. apply Rmult_le_pos; [exact K0|left; apply exp_pos].
    - intros v. rewrite Rabs_mult, !Rmult_assoc. apply Rmult_le_compat_l; [apply Rabs_pos|]. eapply Rle_trans; [apply G|]. apply Rmult_le_compat_l; [exact K0|]. rewrite <- exp_plus.
      assert (E : INR k * Rabs ((v - u) / alpha) <= INR k / alpha * Rabs u + INR k / alpha * Rabs v).
      { unfold Rdiv at 1. rewrite Rabs_mult, (Rabs_right (/ alpha)) by (left; apply Rinv_0_lt_compat; exact Ha). rewrite <- Rmult_plus_distr_l. unfold Rdiv.
        replace (INR k * (Rabs (v - u) * / alpha)) with (INR k * / alpha * Rabs (v - u)) by ring. apply Rmult_le_compat_l; [exact Pa|]. unfold Rminus. eapply Rle_trans; [apply Rabs_triang|]. rewrite Rabs_Ropp. lra. }
      destruct E as [E|E]; [left; apply exp_increasing; exact E|rewrite E; lra]. }
  intros eps He. destruct (L' eps He) as (X & HX). exists X. intros x Hx. specialize (HX x Hx). cbv beta in HX. unfold maxwellian.
  assert (E : ((s * x - U) / sqrt (2 * T)) ^ 2 = (s * x - U) ^ 2 / (2 * T)). { rewrite <- Q at 2. field. lra. }
  rewrite E in HX. replace (n / sqrt (2 * PI * T) * exp (- ((s * x - U) ^ 2 / (2 * T))) * hnorm k ((s * x - u) / alpha)) with (n / sqrt (2 * PI * T) * hnorm k ((s * x - u) / alpha) * exp (- ((s * x - U) ^ 2 / (2 * T)))) by ring. exact HX.
Qed.
Lemma hnorm_z_deriv alpha u k v : 0 < alpha -> derivable_pt_lim (fun y => hnorm k ((y - u) / alpha)) v (match k with O => 0 | S j => sqrt (2 * INR k) / alpha * hnorm j ((v - u) / alpha) end).
Proof.
  intros Ha.
  assert (Dz : derivable_pt_lim (fun y => (y - u) / alpha) v (/ alpha)).
  { apply (derive_ext_fun (fun y => / alpha * y + - u / alpha * 1)); [intros t; field; lra|].
    pose proof (derive_lin2 (fun y => y) (fun _ => 1) (/ alpha) (- u / alpha) v 1 0 (derivable_pt_lim_id v) (derivable_pt_lim_const 1 v)) as Z.
    replace (/ alpha * 1 + - u / alpha * 0) with (/ alpha) in Z by ring. exact Z. }
  pose proof (derivable_pt_lim_comp (fun y => (y - u) / alpha) (hnorm k) v _ _ Dz (hnorm_deriv k ((v - u) / alpha))) as D.
  match type of D with derivable_pt_lim _ _ ?d => match goal with |- derivable_pt_lim _ _ ?e => replace e with d end end; [exact D|].
  destruct k as [|j]; [ring|]. rewrite (sqrt_mult 2 (INR (S j))) by (try lra; pose proof (pos_INR (S j)); lra). field. lra.
Qed.
Lemma line_lin3 f1 f2 f3 I1 I2 I3 a b c : line_integral f1 I1 -> line_integral f2 I2 -> line_integral f3 I3 ->
  line_integral (fun v => a * f1 v + b * f2 v + c * f3 v) (a * I1 + b * I2 + c * I3).
Proof.
  intros H1 H2 H3. pose proof (line_lin _ _ _ _ 1 c (line_lin _ _ _ _ a b H1 H2) H3) as L. eapply line_ext; [| |exact L]; [intros x; cbv beta; ring|ring].
Qed.
Section Mx.
Variables (n U T alpha u : R).
Hypothesis HT : 0 < T.
Hypothesis Ha : 0 < alpha.
Let g := maxwellian n U T.
Let h (k : nat) (v : R) := hnorm k ((v - u) / alpha).
Lemma mx_total k : line_integral (fun v => T * (g v * match k with O => 0 | S j => sqrt (2 * INR k) / alpha * h j v end) - (v - U) * (g v * h k v)) 0.
Proof.
  exists (fun v => T * (g v * h k v)), 0, 0. split; [|split; [|split]].
  - intros v. pose proof (derivable_pt_lim_mult g (h k) v _ _ (maxwellian_deriv n U T v HT) (hnorm_z_deriv alpha u k v Ha)) as D.
    pose proof (derivable_pt_lim_scal (fun y => g y * h k y) T v _ D) as D2.
    match type of D2 with derivable_pt_lim _ _ ?d => match goal with |- derivable_pt_lim _ _ ?e => replace e with d end end; [exact D2|].
    unfold h, g. field. lra.
  - intros eps He. pose proof (limit_lin 1 _ _ _ _ T 0 (maxwellian_decay n U T alpha u k 1 HT Ha (or_introl eq_refl)) (maxwellian_decay n U T alpha u k 1 HT Ha (or_introl eq_refl))) as Q.
    destruct (Q eps He) as (X & HX). exists X. intros x Hx. specialize (HX x Hx). cbv beta in HX. fold g in HX. unfold h.
    match type of HX with Rabs ?a < _ => match goal with |- Rabs ?b < _ => replace b with a by ring end end. exact HX.
  - intros eps He. pose proof (limit_lin (-1) _ _ _ _ T 0 (maxwellian_decay n U T alpha u k (-1) HT Ha (or_intror eq_refl)) (maxwellian_decay n U T alpha u k (-1) HT Ha (or_intror eq_refl))) as Q.
    destruct (Q eps He) as (X & HX). exists X. intros x Hx. specialize (HX x Hx). cbv beta in HX. fold g in HX. unfold h.
    match type of HX with Rabs ?a < _ => match goal with |- Rabs ?b < _ => replace b with a by ring end end. exact HX.
  - ring.
Qed.
Lemma mx_step k I J : line_integral (fun v => g v * h (S k) v) I -> line_integral (fun v => g v * h k v) J ->
  line_integral (fun v => g v * h (S (S k)) v) (sqrt 2 * (U - u) / alpha / sqrt (INR (S k) + 1) * I + 2 * (T / alpha ^ 2 - 1 / 2) * sqrt (INR (S k) / (INR (S k) + 1)) * J).
Proof.
  intros HI HJ. pose proof (SINR k) as Pk. pose proof (pos_INR k) as P0. set (m := INR (S k)) in *.
  assert (A : 0 < (m + 1) / 2) by lra. pose proof (sqrt_lt_R0 _ A) as SA. pose proof (sqrt_sqrt _ (Rlt_le _ _ A)) as QA.
  assert (Em : sqrt (2 * m) = 2 * sqrt (m / 2)). { replace (2 * m) with (2 * 2 * (m / 2)) by field. rewrite sqrt_mult by lra. rewrite sqrt_square by lra. reflexivity. }
  assert (E1 : / sqrt ((m + 1) / 2) = sqrt 2 / sqrt (m + 1)). { rewrite sqrt_div by lra. field. split; apply Rgt_not_eq, sqrt_lt_R0; lra. }
  assert (E2 : sqrt (m / 2) / sqrt ((m + 1) / 2) = sqrt (m / (m + 1))). { rewrite <- sqrt_div by lra. f_equal. field. lra. }
  pose proof (line_lin3 _ _ _ _ _ _ ((U - u) / alpha / sqrt ((m + 1) / 2)) ((2 * T / alpha ^ 2 - 1) * (sqrt (m / 2) / sqrt ((m + 1) / 2))) (- / (alpha * sqrt ((m + 1) / 2))) HI HJ (mx_total (S k))) as L.
  eapply line_ext; [| |exact L].
  - intros v. cbv beta. fold m. rewrite Em. assert (Ev : v - U = alpha * ((v - u) / alpha) + (u - U)) by (field; lra). rewrite Ev.
    unfold h. set (z := (v - u) / alpha). pose proof (hnorm_mult k z) as E. replace (INR k + 1) with m in E by (unfold m; rewrite S_INR; reflexivity). fold m in E.
    replace ((alpha * z + (u - U)) * (g v * hnorm (S k) z)) with (alpha * g v * (z * hnorm (S k) z) + (u - U) * (g v * hnorm (S k) z)) by ring. rewrite E. field. lra.
  - rewrite Rmult_0_r, Rplus_0_r. rewrite E2. f_equal; [|field; lra]. assert (Pm : 0 < sqrt (m + 1)) by (apply sqrt_lt_R0; lra). f_equal. unfold Rdiv at 1. rewrite E1. field. lra.
Qed.
Lemma mx_first I : line_integral (fun v => g v * h 0 v) I -> line_integral (fun v => g v * h 1 v) (sqrt 2 * (U - u) / alpha * I).
Proof.
  intros HI. pose proof (line_lin _ _ _ _ (sqrt 2 * (U - u) / alpha) (- (sqrt 2 / alpha)) HI (mx_total 0)) as L. eapply line_ext; [| |exact L].
  - intros v. cbv beta. unfold h. rewrite hnorm_0, hnorm_1. field. lra.
  - ring.
Qed.
Lemma mx_zero : line_integral (fun v => g v * h 0 v) n.
Proof.
  assert (P : 0 < sqrt (2 * T)) by (apply sqrt_lt_R0; lra). pose proof (psi_integral_0 (sqrt (2 * T)) U P) as L.
  pose proof (line_lin _ _ _ _ (n / sqrt (2 * T)) 0 L L) as L2. eapply line_ext; [| |exact L2].
  - intros v. cbv beta. unfold g, h. rewrite maxwellian_psi, hnorm_0 by exact HT. ring.
  - field. lra.
Qed.
Lemma mx_all k : let c := mx_pair (sqrt 2 * (U - u) / alpha) (T / alpha ^ 2 - 1 / 2) k in
  line_integral (fun v => g v * h k v) (n * fst c) /\ line_integral (fun v => g v * h (S k) v) (n * snd c).
Proof.
  induction k as [|k [I1 I2]].
  - cbn [mx_pair fst snd]. pose proof mx_zero as Z. split; [eapply line_ext; [| |exact Z]; [reflexivity|ring]|]. eapply line_ext; [| |exact (mx_first n Z)]; [reflexivity|ring].
  - split; [exact I2|]. eapply line_ext; [| |exact (mx_step k _ _ I2 I1)]; [reflexivity|]. cbn [mx_pair snd]. ring.
Qed.
End Mx.

(* ------------------------------------------------------------------------------------------------ *)
(** * Theorems *)
(** _maxwellian_coefficients returns the Hermite coefficients of the Maxwellian: alpha C_n is the integral of the Maxwellian
    against the normalized Hermite polynomial (the psi_n are dual to these). *)
Theorem C94_maxwellian : forall alpha u n U T k, 0 < alpha -> 0 < T ->
  line_integral (fun v => maxwellian n U T v * hnorm k ((v - u) / alpha)) (alpha * mx_coeff alpha u n U T k).
Proof.
  intros alpha u n U T k Ha HT. destruct (mx_all n U T alpha u HT Ha k) as [L _]. eapply line_ext; [| |exact L]; [reflexivity|]. unfold mx_coeff. field. lra.
Qed.
Print Assumptions C94_maxwellian.

(** The local restoration gives back the target density, momentum and energy, for every input. *)
Lemma moments_lin M C1 C2 B1 B2 a b r : moments M (fun n => a * C1 n + b * C2 n) (fun m => a * B1 m + b * B2 m) r = a * moments M C1 B1 r + b * moments M C2 B2 r.
Proof. unfold moments. rewrite <- !rsum_scal, <- rsum_plus. apply rsum_ext. intros c _. unfold low6. destruct (c <? 3)%nat; ring. Qed.
Lemma moments_ext M C1 C2 B1 B2 r : (forall n, (n < 3)%nat -> C1 n = C2 n) -> (forall n, (n < 3)%nat -> B1 n = B2 n) -> moments M C1 B1 r = moments M C2 B2 r.
Proof. intros HC HB. apply rsum_ext. intros c Hc. unfold low6. destruct (Nat.ltb_spec c 3); [rewrite HC by lia|rewrite HB by lia]; reflexivity. Qed.
Theorem C94_restore : forall alpha u va vb tg C B r, 0 < alpha -> (r < 3)%nat -> let M := moment_matrix alpha u (lT va vb) (vb - va) in
  moments M (restore M tg C B) B r = tg r /\
  ((forall k, (k < 3)%nat -> moments M C B k = tg k) -> forall n, restore M tg C B n = C n) /\
  (forall n, (3 <= n)%nat -> restore M tg C B n = C n).
Proof.
  intros alpha u va vb tg C B r Ha Hr M. assert (P2 : 0 < sqrt 2) by (apply sqrt_lt_R0; lra). split; [|split].
  - set (d := fun r => tg r - moments M C B r). 
    assert (E : moments M (restore M tg C B) B r = moments M C B r + (M r 0%nat * low_correction M d 0 + M r 1%nat * low_correction M d 1 + M r 2%nat * low_correction M d 2)).
    { unfold moments, restore, low6. cbn [rsum Nat.ltb Nat.leb Nat.sub]. fold d. ring. }
    rewrite E. replace (tg r) with (moments M C B r + d r) by (unfold d; ring). f_equal. generalize d. intros w. unfold low_correction. cbn [nth].
    unfold M, moment_matrix. destruct r as [|[|[|r]]]; [| | |lia]; cbn [nth]; field; lra.
  - intros H n. unfold restore, low_correction. rewrite !H by lia. destruct n as [|[|[|n]]]; cbn [nth]; unfold M, moment_matrix; cbn [nth]; try (field; lra). destruct n; ring.
  - intros n Hn. unfold restore, low_correction. destruct n as [|[|[|n]]]; try lia. cbn [nth]. destruct n; ring.
Qed.
Print Assumptions C94_restore.

(** BGK and Dougherty conserve density, momentum and kinetic energy at every position, for every state (clamps included). *)
Theorem C94_conservation : forall alpha u va vb Tmin C B r, 0 < alpha -> (r < 3)%nat -> let M := moment_matrix alpha u (lT va vb) (vb - va) in
  (forall nu s, moments M (bgk_C M alpha u Tmin nu s C B) (bgk_B nu s B) r = moments M C B r) /\
  (forall Nl ev V tau, let o := dg_apply Nl va vb ev V M alpha u Tmin tau C B in moments M (fst o) (snd o) r = moments M C B r).
Proof.
  intros alpha u va vb Tmin C B r Ha Hr M. split; intros; unfold bgk_C; [|unfold o, dg_apply]; cbv zeta; cbn [fst snd]; apply C94_restore; assumption.
Qed.
Print Assumptions C94_conservation.

(** With positive density and temperature above the clamps, BGK is exactly f -> r f + (1 - r) Maxwellian with the state's own
    density, mean velocity and temperature: the low correction vanishes, the Maxwellian is a fixed point, two steps are one. *)
Lemma mx_low alpha u n U T : mx_coeff alpha u n U T 0 = n / alpha /\ mx_coeff alpha u n U T 1 = n / alpha * (sqrt 2 * (U - u) / alpha) /\
  mx_coeff alpha u n U T 2 = n / alpha * ((sqrt 2 * (U - u) / alpha) ^ 2 / sqrt 2 + 2 * (T / alpha ^ 2 - 1 / 2) / sqrt 2).
Proof.
  unfold mx_coeff. cbn [mx_pair fst snd]. split; [ring|]. split; [reflexivity|]. f_equal. change (INR 1) with 1. replace (sqrt (1 / (1 + 1))) with (/ sqrt 2) by (rewrite <- sqrt_inv; f_equal; field). replace (1 + 1) with 2 by ring. unfold Rdiv. ring.
Qed.
Lemma mx_moments alpha u va vb n U T : 0 < alpha -> let M := moment_matrix alpha u (lT va vb) (vb - va) in
  moments M (mx_coeff alpha u n U T) (fun _ => 0) 0 = n /\ moments M (mx_coeff alpha u n U T) (fun _ => 0) 1 = n * U /\
  moments M (mx_coeff alpha u n U T) (fun _ => 0) 2 = n * (T + U ^ 2) / 2.
Proof.
  intros Ha M. destruct (mx_low alpha u n U T) as (E0 & E1 & E2). assert (P2 : 0 < sqrt 2) by (apply sqrt_lt_R0; lra). pose proof (sqrt_sqrt 2 ltac:(lra)) as Q.
  unfold moments, low6, M, moment_matrix. cbn [rsum nth Nat.ltb Nat.leb Nat.sub]. rewrite E0, E1, E2. split; [field; lra|]. split; [field; lra|].
  set (w := sqrt 2) in *. transitivity (n * ((T - alpha ^ 2 / 2) * (2 / (w * w)) + alpha ^ 2 / 2 + (U - u) ^ 2 + 2 * u * (U - u) + u ^ 2) / 2); [field; lra|]. rewrite Q. field.
Qed.
Lemma true_values (tg : nat -> R) : tg 0%nat <> 0 -> tg 1%nat = tg 0%nat * true_mean tg /\ tg 2%nat = tg 0%nat * (true_temp tg + true_mean tg ^ 2) / 2.
Proof. intros H. unfold true_temp, true_mean. split; field; exact H. Qed.
Theorem C94_bgk : forall alpha u va vb Tmin nu s C B, 0 < alpha -> let M := moment_matrix alpha u (lT va vb) (vb - va) in let tg := moments M C B in
  unclamped Tmin tg ->
  let CM := mx_coeff alpha u (tg 0%nat) (true_mean tg) (true_temp tg) in let r := exp (- nu * s) in
  (forall n, bgk_C M alpha u Tmin nu s C B n = r * C n + (1 - r) * CM n) /\ (forall m, bgk_B nu s B m = r * B m) /\
  (forall s', forall n, bgk_C M alpha u Tmin nu s' (bgk_C M alpha u Tmin nu s C B) (bgk_B nu s B) n = bgk_C M alpha u Tmin nu (s + s') C B n /\
     bgk_B nu s' (bgk_B nu s B) n = bgk_B nu (s + s') B n) /\
  (forall n, (forall k, C k = CM k) -> bgk_C M alpha u Tmin nu s C B n = C n) /\
  (forall N, norm2 N (fun n => bgk_C M alpha u Tmin nu s C B n - CM n) = r ^ 2 * norm2 N (fun n => C n - CM n)).
Proof.
  intros alpha u va vb Tmin nu s C B Ha M tg Hu CM r. destruct (unclamped_values _ _ Hu) as (D & Me & Te). pose proof tiny_pos as TP.
  assert (N0 : tg 0%nat <> 0) by (destruct Hu; lra). destruct (true_values tg N0) as [V1 V2].
  destruct (mx_moments alpha u va vb (tg 0%nat) (true_mean tg) (true_temp tg) Ha) as (X0 & X1 & X2). fold M in X0, X1, X2. fold CM in X0, X1, X2.
  assert (F : forall sg C0 B0, moments M C0 B0 0 = tg 0%nat -> moments M C0 B0 1 = tg 1%nat -> moments M C0 B0 2 = tg 2%nat ->
    forall n, bgk_C M alpha u Tmin nu sg C0 B0 n = exp (- nu * sg) * C0 n + (1 - exp (- nu * sg)) * CM n).
  { intros sg C0 B0 T0 T1 T2 n. set (t := moments M C0 B0).
    assert (Q : col_density t = tg 0%nat /\ col_mean t = true_mean tg /\ col_temp Tmin t = true_temp tg).
    { unfold col_temp, col_mean, col_density, t in *. rewrite T0, T1, T2. split; [exact D|]. split; [exact Me|exact Te]. }
    destruct Q as (Q0 & Q1 & Q2). set (e := exp (- nu * sg)).
    assert (Rw : forall k, bgk_raw alpha u Tmin nu sg t C0 k = e * C0 k + (1 - e) * CM k) by (intros k; unfold bgk_raw; rewrite Q0, Q1, Q2; reflexivity).
    unfold bgk_C. fold t. cbv zeta. rewrite <- Rw. apply (proj1 (proj2 (C94_restore alpha u va vb t (bgk_raw alpha u Tmin nu sg t C0) (bgk_B nu sg B0) 0 Ha ltac:(lia)))).
    intros k Hk. fold M. rewrite (moments_ext M _ (fun n => e * C0 n + (1 - e) * CM n) _ (fun m => e * B0 m + (1 - e) * 0) k) by (first [intros j _; apply Rw | intros j _; unfold bgk_B; fold e; ring]).
    rewrite (moments_lin M C0 CM B0 (fun _ => 0) e (1 - e) k). fold t.
    assert (Et : moments M CM (fun _ => 0) k = t k). { unfold t. destruct k as [|[|[|k]]]; [| | |lia]; [rewrite X0, T0|rewrite X1, T1|rewrite X2, T2]; [reflexivity|symmetry; exact V1|symmetry; exact V2]. }
    rewrite Et. ring. }
  assert (F1 : forall n, bgk_C M alpha u Tmin nu s C B n = r * C n + (1 - r) * CM n) by (apply F; reflexivity).
  split; [exact F1|]. split; [reflexivity|]. split; [|split].
  - intros s' n. assert (Ex : exp (- nu * (s + s')) = exp (- nu * s') * exp (- nu * s)) by (rewrite <- exp_plus; f_equal; ring). split.
    + rewrite F, F1, F by (first [reflexivity | apply (C94_conservation alpha u va vb Tmin C B); [exact Ha|lia]]). rewrite Ex. fold r. ring.
    + unfold bgk_B. rewrite Ex. ring.
  - intros n H. rewrite F1, H. ring.
  - intros N. unfold norm2. rewrite <- rsum_scal. apply rsum_ext. intros n _. rewrite F1. ring.
Qed.
Print Assumptions C94_bgk.
(** The low correction does more than remove round-off as soon as the temperature clamp acts (vector_field.py:332-333). *)
Theorem C94_roundoff_refuted : ~ (forall alpha u va vb Tmin nu s C B n, 0 < alpha -> va < vb -> 0 < nu -> 0 < s -> 0 < Tmin -> let M := moment_matrix alpha u (lT va vb) (vb - va) in
  / 10 ^ 14 <= moments M C B 0 -> bgk_C M alpha u Tmin nu s C B n = bgk_raw alpha u Tmin nu s (moments M C B) C n).
Proof.
  intros H. pose (C := fun n : nat => if (n =? 0)%nat then 1 else 0). specialize (H 1 0 (-1) 1 1 1 1 C (fun _ => 0) 2%nat ltac:(lra) ltac:(lra) ltac:(lra) ltac:(lra) ltac:(lra)). cbv zeta in H.
  set (M := moment_matrix 1 0 (lT (-1) 1) (1 - -1)) in *. set (t := moments M C (fun _ => 0)) in *.
  assert (T0 : t 0%nat = 1 /\ t 1%nat = 0 /\ t 2%nat = 1 / 4). { unfold t, moments, low6, M, moment_matrix, C. cbn [rsum nth Nat.ltb Nat.leb Nat.sub Nat.eqb]. repeat split; field; apply Rgt_not_eq, sqrt_lt_R0; lra. }
  destruct T0 as (T0 & T1 & T2). assert (Sm : / 10 ^ 14 <= 1). { replace 1 with (/ 1) by field. apply Rinv_le_contravar; [lra|]. apply pow_R1_Rle. lra. }
  specialize (H ltac:(rewrite T0; exact Sm)).
  assert (D : col_density t = 1) by (unfold col_density; rewrite T0; apply Rmax_left; exact Sm). assert (Me : col_mean t = 0) by (unfold col_mean; rewrite D, T1; field).
  assert (Te : col_temp 1 t = 1). { unfold col_temp. rewrite D, Me, T2. apply Rmax_right. replace (2 * (1 / 4) / 1 - 0 ^ 2) with (1 / 2) by field. lra. }
  pose proof (proj1 (C94_restore 1 0 (-1) 1 t (bgk_raw 1 0 1 1 1 t C) (bgk_B 1 1 (fun _ => 0)) 2 ltac:(lra) ltac:(lia))) as E. cbv zeta in E. fold M in E.
  unfold bgk_C in H. cbv zeta in H. fold t in H.
  pose proof (C94_restore 1 0 (-1) 1 t (bgk_raw 1 0 1 1 1 t C) (bgk_B 1 1 (fun _ => 0)) 0 ltac:(lra) ltac:(lia)) as E0.
  assert (Z : low_correction M (fun r => t r - moments M (bgk_raw 1 0 1 1 1 t C) (bgk_B 1 1 (fun _ => 0)) r) 2 = 0) by (unfold restore in H; lra). clear H E E0.
  destruct (mx_low 1 0 1 0 1) as (L0 & L1 & L2). unfold bgk_raw in Z. rewrite D, Me, Te in Z. set (e := exp (- (1) * 1)) in *.
  assert (He : e < 1). { apply Rlt_le_trans with (exp 0); [apply exp_increasing; lra|rewrite exp_0; lra]. }
  assert (P2 : 0 < sqrt 2) by (apply sqrt_lt_R0; lra). pose proof (sqrt_sqrt 2 ltac:(lra)) as Q2.
  unfold low_correction in Z. cbn [nth] in Z. rewrite T0, T1, T2 in Z. unfold moments, low6, bgk_B, M, moment_matrix in Z. cbn [rsum nth Nat.ltb Nat.leb Nat.sub] in Z. rewrite L0, L1, L2 in Z. unfold C in Z. cbn [Nat.eqb] in Z.
  set (w := sqrt 2) in *. apply (f_equal (fun x => x * w)) in Z. field_simplify in Z; [|lra]. nra.
Qed.
Print Assumptions C94_roundoff_refuted.
