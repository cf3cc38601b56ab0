(** Property C97: the plasma-wave step of the laser-plasma envelope solver. *)
From Coq Require Import Reals Lra Lia ZArith List Bool Psatz.
From Verif Require Import RSum Pic PicProofs PicFourier Lpse LpseFft Dft.
Local Open Scope R_scope.

(** A usable configuration: positive sizes and spacings, a nonnegative time step and collision rate, a positive thermal speed and plasma
    frequency, filter and absorbing factor between 0 and 1. *)
Definition ok (c : ecfg) : Prop := (0 < e_nx c)%nat /\ (0 < e_ny c)%nat /\ 0 < e_dx c /\ 0 < e_dy c /\ 0 <= e_dt c /\ 0 < e_wp0 c /\ 0 < e_vte2 c /\ 0 <= e_nu c /\
  (forall i j, 0 <= e_filter c i j <= 1) /\ (forall a b, 0 <= e_bound c a b <= 1).
Definition inside (c : ecfg) (i j : nat) : Prop := (i < e_nx c)%nat /\ (j < e_ny c)%nat.

Lemma kx_0 n dx : kx n dx 0 = 0.
Proof. unfold kx. replace (if Nat.ltb (2 * 0) n then INR 0 else INR 0 - INR n) with 0; [unfold Rdiv; ring|]. destruct n; [change (INR 0) with 0; cbn [Nat.mul Nat.ltb Nat.leb]; ring|reflexivity]. Qed.
Lemma ksq_00 c : ksq c 0 0 = 0.
Proof. unfold ksq, ekx, eky. rewrite !kx_0. ring. Qed.
Lemma ksq_nonneg c i j : 0 <= ksq c i j.
Proof. unfold ksq. pose proof (pow2_ge_0 (ekx c i)). pose proof (pow2_ge_0 (eky c j)). lra. Qed.
Lemma ksq_pos c i j : ok c -> inside c i j -> (i, j) <> (0%nat, 0%nat) -> 0 < ksq c i j.
Proof.
  intros (Hx & Hy & Dx & Dy & _) [Hi Hj] N. unfold ksq.
  pose proof (pow2_ge_0 (ekx c i)). pose proof (pow2_ge_0 (eky c j)).
  destruct (Nat.eq_dec i 0) as [->|Ni].
  - destruct (Nat.eq_dec j 0) as [->|Nj]; [congruence|].
    assert (eky c j <> 0) by (apply kx_nonzero; [lra|lia]). assert (0 < eky c j ^ 2) by (rewrite <- Rsqr_pow2; apply Rsqr_pos_lt; auto). lra.
  - assert (ekx c i <> 0) by (apply kx_nonzero; [lra|lia]). assert (0 < ekx c i ^ 2) by (rewrite <- Rsqr_pow2; apply Rsqr_pos_lt; auto). lra.
Qed.
Lemma zmask_00 c : zmask c 0 0 = 0.
Proof. unfold zmask. rewrite ksq_00. destruct (Rlt_dec 0 0); [lra|reflexivity]. Qed.
Lemma zmask_1 c i j : 0 < ksq c i j -> zmask c i j = 1.
Proof. intros H. unfold zmask. destruct (Rlt_dec 0 (ksq c i j)); [reflexivity|lra]. Qed.
Lemma zmask_ksq c i j : zmask c i j * inv_ksq c i j * ksq c i j = zmask c i j.
Proof. unfold zmask, inv_ksq. destruct (Rlt_dec 0 (ksq c i j)); [field; lra|ring]. Qed.

(** Round trip: potential to field and back returns the potential, restricted to the retained band, without its mean. *)
Theorem C97_round_trip : forall c phi i j, inside c i j ->
  phi_of c (ex_of c phi) (ey_of c phi) i j = cscal (e_filter c i j * zmask c i j) (phi i j).
Proof.
  intros c phi i j H. unfold phi_of, ex_of, ey_of. rewrite !fft2_ifft2 by exact H. pose proof (zmask_ksq c i j) as Z.
  unfold ksq in Z. set (z := zmask c i j) in *. set (o := inv_ksq c i j) in *. set (a := ekx c i) in *. set (b := eky c j) in *.
  destruct (phi i j) as [p q]. unfold cscal, cmul, cadd. cbn [fst snd].
  f_equal.
  - transitivity (e_filter c i j * p * (z * o * (a ^ 2 + b ^ 2))); [ring|rewrite Z; ring].
  - transitivity (e_filter c i j * q * (z * o * (a ^ 2 + b ^ 2))); [ring|rewrite Z; ring].
Qed.
Print Assumptions C97_round_trip.

(** Whatever the state, the pump, the noise and the time, a step leaves no mean and nothing outside the retained band. *)
Lemma scal_0 a : cscal 0 a = c0.
Proof. unfold cscal, c0. f_equal; ring. Qed.
Lemma scal_c0 r : cscal r c0 = c0.
Proof. unfold cscal, c0. cbn [fst snd]. f_equal; ring. Qed.
Theorem C97_band : forall c t E0y phi i j, e_filter c i j = 0 \/ (i, j) = (0%nat, 0%nat) -> epw_step c t E0y phi i j = c0.
Proof.
  intros c t E0y phi i j H.
  assert (forall z, cscal (zmask c i j) (cscal (e_filter c i j) z) = c0) as Z.
  { intros z. destruct H as [H|H]; [rewrite H, scal_0, scal_c0; reflexivity|]. injection H as -> ->. rewrite zmask_00, scal_0. reflexivity. }
  assert (forall ex ey, phi_of c ex ey i j = c0) as P.
  { intros ex ey. unfold phi_of. destruct H as [H|H]; [rewrite H, scal_0, !scal_c0; reflexivity|]. injection H as -> ->. rewrite zmask_00, scal_0. reflexivity. }
  unfold epw_step. destruct (e_tpd c).
  - rewrite P. unfold tpd_source. rewrite Z, scal_c0. unfold cadd, c0; cbn [fst snd]. f_equal; ring.
  - apply P.
Qed.
Print Assumptions C97_band.
Theorem C97_band_run : forall c d n t y y' i j, (0 < n)%nat -> split_run c d n t y = Some y' ->
  e_filter c i j = 0 \/ (i, j) = (0%nat, 0%nat) -> l_epw y' i j = c0.
Proof.
  intros c d n. induction n as [|n IH]; [lia|]. intros t y y' i j _ R H. cbn [split_run] in R.
  destruct (split_step c d t y) as [y1|] eqn:E; [|discriminate].
  destruct n as [|n]; [|eapply IH; eauto; lia].
  cbn [split_run] in R. injection R as <-. unfold split_step in E. destruct (s_E2 d); [discriminate|]. injection E as <-. cbn [l_epw]. apply C97_band; auto.
Qed.
Print Assumptions C97_band_run.

(** The Landau rate is never negative, zero only for the mean. *)
Theorem C97_landau : forall c i j, ok c -> inside c i j ->
  0 <= landau c i j /\ ((i, j) <> (0%nat, 0%nat) -> 0 < landau c i j) /\ landau c 0 0 = 0 /\
  ((i, j) <> (0%nat, 0%nat) -> let x := ksq c i j * e_vte2 c / e_wp0 c ^ 2 in
     landau c i j = e_wp0 c * sqrt (PI / 8) * (1 + 3 / 2 * x) / Rpower x (3 / 2) * exp (- (3 / 2) - 1 / (2 * x))).
Proof.
  intros c i j O I. pose proof O as O'. destruct O as (Hx & Hy & Dx & Dy & Dt & W & V & Nu & _).
  assert (Q : 0 < sqrt (PI / 8)) by (apply sqrt_lt_R0; pose proof PI_RGT_0; lra).
  assert (Pos : (i, j) <> (0%nat, 0%nat) -> 0 < landau c i j).
  { intros N. pose proof (ksq_pos c i j O' I N) as K. unfold landau, ksq_safe. rewrite (zmask_1 c i j K).
    destruct (Rlt_dec 0 (ksq c i j)); [|lra]. pose proof (exp_pos (- (3 / 2 + 1 / 2 * e_wp0 c ^ 2 / (ksq c i j * e_vte2 c)))).
    assert (0 < Rpower (ksq c i j) (3 / 2)) by apply exp_pos. assert (0 < Rpower (e_vte2 c) (3 / 2)) by apply exp_pos.
    assert (0 < e_wp0 c ^ 4) by (apply pow_lt; auto). assert (0 < e_wp0 c ^ 2) by (apply pow_lt; auto).
    assert (0 < 3 / 2 * ksq c i j * e_vte2 c / e_wp0 c ^ 2) by (apply Rdiv_lt_0_compat; [apply Rmult_lt_0_compat; nra|auto]).
    rewrite Rmult_1_r. apply Rmult_lt_0_compat; auto. apply Rdiv_lt_0_compat; [|apply Rmult_lt_0_compat; auto].
    apply Rmult_lt_0_compat; auto. apply Rmult_lt_0_compat; auto. lra. }
  assert (Z0 : landau c 0 0 = 0) by (unfold landau; rewrite zmask_00; ring).
  split; [|split; [exact Pos|split; [exact Z0|]]].
  - destruct (Nat.eq_dec i 0) as [->|]; [destruct (Nat.eq_dec j 0) as [->|]|]; [lra| |]; apply Rlt_le, Pos; congruence.
  - intros N x. pose proof (ksq_pos c i j O' I N) as K. unfold landau, ksq_safe. rewrite (zmask_1 c i j K).
    destruct (Rlt_dec 0 (ksq c i j)); [|lra].
    assert (0 < e_wp0 c ^ 2) by (apply pow_lt; auto).
    assert (X : 0 < x) by (unfold x; apply Rdiv_lt_0_compat; [nra|auto]).
    assert (E : Rpower (ksq c i j) (3 / 2) * Rpower (e_vte2 c) (3 / 2) = Rpower x (3 / 2) * e_wp0 c ^ 3).
    { assert (P3 : Rpower (e_wp0 c ^ 2) (3 / 2) = e_wp0 c ^ 3).
      { rewrite <- (Rpower_pow 2), <- (Rpower_pow 3), Rpower_mult by auto. f_equal. change (INR 2) with (1 + 1). replace (INR 3) with 3 by (cbn; ring). lra. }
      rewrite <- P3, !Rpower_mult_distr by auto.
      replace (ksq c i j * e_vte2 c) with (x * e_wp0 c ^ 2) by (unfold x; field; lra). reflexivity. }
    replace (3 / 2 * ksq c i j * e_vte2 c / e_wp0 c ^ 2) with (3 / 2 * x) by (unfold x; field; lra).
    rewrite E. replace (- (3 / 2 + 1 / 2 * e_wp0 c ^ 2 / (ksq c i j * e_vte2 c))) with (- (3 / 2) - 1 / (2 * x)) by (unfold x; field; split; nra).
    assert (Rpower x (3 / 2) <> 0) by (apply Rgt_not_eq, exp_pos). field. repeat split; auto; lra.
Qed.
Print Assumptions C97_landau.

(* ------------------------------------------------------------------------------------------------ *)
(** * Energy *)
Lemma cabs2_scal r a : cabs2 (cscal r a) = r ^ 2 * cabs2 a.
Proof. unfold cabs2, cscal. cbn [fst snd]. ring. Qed.
Lemma norm2_le nx ny f g : (forall i j, (i < nx)%nat -> (j < ny)%nat -> cabs2 (f i j) <= cabs2 (g i j)) -> norm2 nx ny f <= norm2 nx ny g.
Proof. intros H. unfold norm2. apply rsum_le. intros i Hi. apply rsum_le. intros j Hj. auto. Qed.
Lemma e_sq_norm c phi : e_sq c phi = e_dx c * e_dy c * (norm2 (e_nx c) (e_ny c) (ex_of c phi) + norm2 (e_nx c) (e_ny c) (ey_of c phi)).
Proof.
  unfold e_sq, norm2. rewrite <- rsum_plus, <- rsum_scal. apply rsum_ext. intros i _. rewrite <- rsum_plus, <- rsum_scal. apply rsum_ext. intros j _. ring.
Qed.
(** The saved series e_sq is the field energy of the spectrum. *)
Definition spectral (c : ecfg) (phi : cfield) : R := rsum (e_nx c) (fun i => rsum (e_ny c) (fun j => ksq c i j * cabs2 (phi i j))).
Lemma e_sq_spectral c phi : ok c -> e_sq c phi = e_dx c * e_dy c / (INR (e_nx c) * INR (e_ny c)) * spectral c phi.
Proof.
  intros (Hx & Hy & _). rewrite e_sq_norm. unfold ex_of, ey_of. rewrite !parseval2_inv by auto.
  assert (0 < INR (e_nx c)) by (apply lt_0_INR; auto). assert (0 < INR (e_ny c)) by (apply lt_0_INR; auto).
  transitivity (e_dx c * e_dy c / (INR (e_nx c) * INR (e_ny c)) * (norm2 (e_nx c) (e_ny c) (fun i j => cmul (0, - ekx c i) (phi i j)) + norm2 (e_nx c) (e_ny c) (fun i j => cmul (0, - eky c j) (phi i j)))).
  - field. split; lra.
  - f_equal. unfold norm2, spectral. rewrite <- rsum_plus. apply rsum_ext. intros i _. rewrite <- rsum_plus. apply rsum_ext. intros j _.
    rewrite !cmul_conj_abs. unfold cabs2, ksq. cbn [fst snd]. ring.
Qed.
Theorem C97_energy_series : forall c phi, ok c ->
  e_sq c phi = e_dx c * e_dy c / (INR (e_nx c) * INR (e_ny c)) * rsum (e_nx c) (fun i => rsum (e_ny c) (fun j => (ekx c i ^ 2 + eky c j ^ 2) * cabs2 (phi i j))).
Proof. exact e_sq_spectral. Qed.
Print Assumptions C97_energy_series.
Lemma cs_bound a b (X Y : cplx) : cabs2 (cadd (cscal a X) (cscal b Y)) <= (a ^ 2 + b ^ 2) * (cabs2 X + cabs2 Y).
Proof.
  destruct X as [x1 x2], Y as [y1 y2]. unfold cabs2, cadd, cscal. cbn [fst snd].
  assert (0 <= (a * y1 - b * x1) ^ 2) by apply pow2_ge_0. assert (0 <= (a * y2 - b * x2) ^ 2) by apply pow2_ge_0. nra.
Qed.
Lemma sq_le_1 r : 0 <= r <= 1 -> 0 <= r ^ 2 <= 1.
Proof. intros H. split; [apply pow2_ge_0|]. nra. Qed.
Lemma phi_energy c ex ey : ok c -> spectral c (phi_of c ex ey) <= INR (e_nx c) * INR (e_ny c) * (norm2 (e_nx c) (e_ny c) ex + norm2 (e_nx c) (e_ny c) ey).
Proof.
  intros O. pose proof O as (Hx & Hy & Dx & Dy & Dt & W & V & Nu & F & B).
  rewrite Rmult_plus_distr_l, <- !parseval2 by auto. unfold spectral, norm2. rewrite <- rsum_plus. apply rsum_le. intros i Hi. rewrite <- rsum_plus. apply rsum_le. intros j Hj.
  unfold phi_of. set (X := fft2 _ _ ex i j). set (Y := fft2 _ _ ey i j). rewrite !cabs2_scal, cmul_conj_abs.
  replace (cabs2 (0, 1)) with 1 by (unfold cabs2; cbn [fst snd]; ring).
  pose proof (cs_bound (ekx c i) (eky c j) X Y) as CS. change (ekx c i ^ 2 + eky c j ^ 2) with (ksq c i j) in CS.
  set (D := cabs2 (cadd (cscal (ekx c i) X) (cscal (eky c j) Y))) in *.
  pose proof (cabs2_nonneg X). pose proof (cabs2_nonneg Y). assert (0 <= D) by apply cabs2_nonneg.
  pose proof (sq_le_1 _ (F i j)) as F2. unfold zmask, inv_ksq. destruct (Rlt_dec 0 (ksq c i j)) as [K|K].
  - replace (ksq c i j * (1 ^ 2 * ((1 / ksq c i j) ^ 2 * (e_filter c i j ^ 2 * (1 * D))))) with (e_filter c i j ^ 2 * (D / ksq c i j)) by (field; lra).
    assert (0 <= D / ksq c i j <= cabs2 X + cabs2 Y).
    { split; [apply Rmult_le_pos; [auto|apply Rlt_le, Rinv_0_lt_compat; auto]|]. apply (Rmult_le_reg_l (ksq c i j)); auto. replace (ksq c i j * (D / ksq c i j)) with D by (field; lra). exact CS. }
    nra.
  - nra.
Qed.
Lemma medium_norm c f : ok c -> norm2 (e_nx c) (e_ny c) (epw_medium c f) <= norm2 (e_nx c) (e_ny c) f.
Proof.
  intros (Hx & Hy & Dx & Dy & Dt & W & V & Nu & F & B). apply norm2_le. intros a b _ _. unfold epw_medium. rewrite cabs2_scal.
  pose proof (sq_le_1 _ (B a b)). pose proof (cabs2_nonneg (f a b)).
  destruct (e_grad c); [rewrite cmul_conj_abs, cabs2_cis|]; nra.
Qed.
Lemma linear_abs c phi i j : ok c -> inside c i j -> cabs2 (epw_linear c phi i j) <= exp (- (2 * e_nu c * e_dt c)) * cabs2 (phi i j).
Proof.
  intros O I. destruct (C97_landau c i j O I) as (L & _). pose proof O as (Hx & Hy & Dx & Dy & Dt & W & V & Nu & F & B).
  unfold epw_linear. rewrite !cabs2_scal, cmul_conj_abs, cabs2_cis. pose proof (sq_le_1 _ (F i j)) as F2. pose proof (cabs2_nonneg (phi i j)).
  set (E := exp (- (landau c i j + e_nu c) * e_dt c)).
  assert (E2 : 0 <= E ^ 2 <= exp (- (2 * e_nu c * e_dt c))).
  { split; [apply pow2_ge_0|]. replace (E ^ 2) with (exp (- (landau c i j + e_nu c) * e_dt c + - (landau c i j + e_nu c) * e_dt c)) by (rewrite exp_plus; fold E; ring).
    destruct (Rle_lt_or_eq_dec (- (landau c i j + e_nu c) * e_dt c + - (landau c i j + e_nu c) * e_dt c) (- (2 * e_nu c * e_dt c))) as [h|h]; [nra|left; apply exp_increasing; auto|right; f_equal; auto]. }
  assert (0 <= E ^ 2 * cabs2 (phi i j)) by nra. nra.
Qed.
(** Without sources the field energy decays at least as fast as the collisional rate, whatever the density, the absorbing boundary, the
    filter and the time step; in particular it never grows. *)
Lemma step_energy c t E0y phi : ok c -> e_tpd c = false -> e_noise_on c = false -> spectral c (epw_step c t E0y phi) <= exp (- (2 * e_nu c * e_dt c)) * spectral c phi.
Proof.
  intros O T N. pose proof O as (Hx & Hy & _). unfold epw_step. rewrite T.
  eapply Rle_trans; [apply phi_energy; auto|].
  assert (P : 0 < INR (e_nx c) * INR (e_ny c)) by (apply Rmult_lt_0_compat; apply lt_0_INR; auto).
  eapply Rle_trans; [apply Rmult_le_compat_l; [lra|apply Rplus_le_compat; apply medium_norm; auto]|].
  pose proof (e_sq_norm c (epw_noisy c t phi)) as S1. rewrite (e_sq_spectral c _ O) in S1. pose proof O as (_ & _ & Dx & Dy & _).
  replace (norm2 (e_nx c) (e_ny c) (ex_of c (epw_noisy c t phi)) + norm2 (e_nx c) (e_ny c) (ey_of c (epw_noisy c t phi))) with (spectral c (epw_noisy c t phi) / (INR (e_nx c) * INR (e_ny c))).
  - replace (INR (e_nx c) * INR (e_ny c) * (spectral c (epw_noisy c t phi) / (INR (e_nx c) * INR (e_ny c)))) with (spectral c (epw_noisy c t phi)) by (field; split; apply not_0_INR; lia).
    unfold spectral, epw_noisy. rewrite N, <- rsum_scal. apply rsum_le. intros i Hi. rewrite <- rsum_scal. apply rsum_le. intros j Hj.
    pose proof (linear_abs c phi i j O (Logic.conj Hi Hj)). pose proof (ksq_nonneg c i j). nra.
  - apply (Rmult_eq_reg_l (e_dx c * e_dy c)); [rewrite <- S1; field; split; apply not_0_INR; lia|nra].
Qed.
Theorem C97_energy : forall c d n t y y', ok c -> e_tpd c = false -> e_noise_on c = false -> split_run c d n t y = Some y' ->
  e_sq c (l_epw y') <= exp (- (2 * e_nu c * (INR n * e_dt c))) * e_sq c (l_epw y).
Proof.
  intros c d n t y y' O T N R. rewrite !(e_sq_spectral c) by auto. pose proof O as (Hx & Hy & Dx & Dy & _).
  assert (P : 0 < e_dx c * e_dy c / (INR (e_nx c) * INR (e_ny c))) by (apply Rdiv_lt_0_compat; apply Rmult_lt_0_compat; auto; apply lt_0_INR; auto).
  rewrite <- Rmult_assoc, (Rmult_comm (exp _)), Rmult_assoc. apply Rmult_le_compat_l; [lra|]. clear P.
  revert t y R. induction n as [|n IH]; intros t y R.
  - cbn [split_run] in R. injection R as <-. change (INR 0) with 0. replace (- (2 * e_nu c * (0 * e_dt c))) with 0 by ring. rewrite exp_0. lra.
  - cbn [split_run] in R. destruct (split_step c d t y) as [y1|] eqn:E; [|discriminate]. specialize (IH _ _ R).
    unfold split_step in E. destruct (s_E2 d); [discriminate|]. injection E as <-. cbn [l_epw] in IH.
    match type of IH with context [epw_step c t ?e _] => pose proof (step_energy c t e (l_epw y) O T N) as S1 end.
    eapply Rle_trans; [apply IH|]. rewrite S_INR. replace (- (2 * e_nu c * ((INR n + 1) * e_dt c))) with (- (2 * e_nu c * (INR n * e_dt c)) + - (2 * e_nu c * e_dt c)) by ring.
    rewrite exp_plus, (Rmult_assoc (exp _) (exp _)). apply Rmult_le_compat_l; [apply Rlt_le, exp_pos|exact S1].
Qed.
Print Assumptions C97_energy.
