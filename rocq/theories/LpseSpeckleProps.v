(** Property C101: the speckled pump. *)
From Coq Require Import Reals Lra Lia ZArith List Bool Psatz.
From Verif Require Import RSum Pic PicProofs PicFourier VGrid VGridProofs Lpse LpseFft LpseProps LpseLaser LpseSetup LpseSetupProps LpseSave LpseSaveProps LpseSpeckle Dft.
Local Open Scope R_scope.

(** A usable profile: lengths, bandwidth and numbers of beamlets are positive, the SSD parameters of the types that read them are usable. *)
Definition good (p : spk) : Prop := 0 < p_lam p /\ 0 < p_f p /\ 0 < p_D0 p /\ 0 < p_D1 p /\ (0 < p_n0 p)%nat /\ (0 < p_n1 p)%nat /\ 0 < p_bw p /\ 0 <= p_tmax p.
Definition ssd_good (p : spk) : Prop := 0 < p_pma0 p /\ 0 < p_pma1 p /\ 0 <= p_cyc0 p /\ 0 <= p_cyc1 p /\ 0 <= p_dist0 p /\ 0 <= p_dist1 p /\ 0 < p_dist0 p + p_dist1 p.

Lemma lens_val n i : (i < n)%nat -> lens n i = INR i - (INR n - 1) / 2.
Proof.
  intros H. unfold lens, linspace. destruct (Nat.leb_spec n 1) as [q|q].
  - replace n with 1%nat by lia. replace i with 0%nat by lia. change (INR 0) with 0. change (INR 1) with 1. lra.
  - rewrite minus_INR by lia. change (INR 1) with 1. assert (INR n <> 1) by (intros E; apply (INR_eq _ 1) in E; lia). field. lra.
Qed.
Lemma csum_pad n m f : (n <= m)%nat -> csum m (fun i => if (i <? n)%nat then f i else c0) = csum n f.
Proof.
  intros H. induction m as [|m IH]; [replace n with 0%nat by lia; reflexivity|]. destruct (Nat.eq_dec n (S m)) as [->|].
  - apply csum_ext. intros i Hi. replace (i <? S m)%nat with true by (symmetry; apply Nat.ltb_lt; lia). reflexivity.
  - cbn [csum]. rewrite IH by lia. replace (m <? n)%nat with false by (symmetry; apply Nat.ltb_ge; lia). creal.
Qed.
Lemma rsum_pad n m f : (n <= m)%nat -> rsum m (fun i => if (i <? n)%nat then f i else 0) = rsum n f.
Proof.
  intros H. induction m as [|m IH]; [replace n with 0%nat by lia; reflexivity|]. destruct (Nat.eq_dec n (S m)) as [->|].
  - apply rsum_ext. intros i Hi. replace (i <? S m)%nat with true by (symmetry; apply Nat.ltb_lt; lia). reflexivity.
  - cbn [rsum]. rewrite IH by lia. replace (m <? n)%nat with false by (symmetry; apply Nat.ltb_ge; lia). ring.
Qed.
Lemma plate_unit p i j : cabs2 (plate p i j) = 1.
Proof. unfold plate. destruct (p_type p); apply cabs2_cis. Qed.

(* ------------------------------------------------------------------------------------------------ *)
(** * Beamlets *)
(** Every smoothing type but GP ISI only turns the phase of a beamlet, at all times and for all draws; RPP and CPP do not change in time; RPP flips signs only. *)
Theorem C101_beamlets : forall p t i j, p_type p <> GPISI -> cabs2 (beamlet p t i j) = 1 /\ cabs2 (plate p i j) = 1 /\
  (p_type p = RPP \/ p_type p = CPP -> forall t' x y, pattern p t x y = pattern p t' x y) /\ (p_type p = RPP -> plate p i j = c1 \/ plate p i j = (-1, 0)).
Proof.
  intros p t i j N. split; [unfold beamlet; destruct (p_type p); try apply cabs2_cis; try congruence; unfold cabs2, c1; cbn [fst snd]; ring|]. split; [apply plate_unit|]. split.
  - intros T t' x y. unfold pattern, beamlet. destruct T as [-> | ->]; reflexivity.
  - intros E. unfold plate. rewrite E. destruct (d_sign p i j); [right|left; apply cis_0]. unfold cis. rewrite cos_PI, sin_PI. reflexivity.
Qed.
Print Assumptions C101_beamlets.

(* ------------------------------------------------------------------------------------------------ *)
(** * Energy *)
Lemma beam_sample n m X0 i k : (0 < n)%nat -> (0 < m)%nat -> (i < n)%nat ->
  cis (- (2 * PI / INR n * lens n i * (X0 + INR n * INR k / INR m))) = cmul (cis (PI * (INR n - 1) * INR k / INR m)) (cmul (cis (- (2 * PI / INR n * lens n i * X0))) (cis (- angle m k i))).
Proof.
  intros Hn Hm Hi. rewrite <- !cis_add. f_equal. rewrite (lens_val n i Hi). unfold angle. pose proof (lt_0_INR n Hn). pose proof (lt_0_INR m Hm). field. lra.
Qed.
(** The lens redistributes the light without creating any: averaged over one period of the pattern, from any origin, on any grid with at least one point per beamlet, the intensity
    in focus is the total intensity of the beamlets, at every time and for every draw; the number of beamlets for every type but GP ISI. *)
Theorem C101_energy : forall p t x0 y0 m0 m1, good p -> (p_n0 p <= m0)%nat -> (p_n1 p <= m1)%nat ->
  rsum m0 (fun k => rsum m1 (fun l => cabs2 (pattern p t (x0 + period0 p * INR k / INR m0) (y0 + period1 p * INR l / INR m1)))) / (INR m0 * INR m1)
    = rsum (p_n0 p) (fun i => rsum (p_n1 p) (fun j => cabs2 (beamlet p t i j))) /\
  (p_type p <> GPISI -> rsum (p_n0 p) (fun i => rsum (p_n1 p) (fun j => cabs2 (beamlet p t i j))) = INR (p_n0 p) * INR (p_n1 p)).
Proof.
  intros p t x0 y0 m0 m1 (Pl & Pf & P0 & P1 & N0 & N1 & _ & _) H0 H1. pose proof (lt_0_INR _ N0) as R0. pose proof (lt_0_INR _ N1) as R1. pose proof (lt_0_INR m0 ltac:(lia)) as M0. pose proof (lt_0_INR m1 ltac:(lia)) as M1.
  split.
  2: { intros T. rewrite (rsum_ext _ _ (fun _ => INR (p_n1 p))) by (intros i _; rewrite (rsum_ext _ _ (fun _ => 1)) by (intros j _; apply (C101_beamlets p t i j T)); rewrite rsum_const; ring). rewrite rsum_const. reflexivity. }
  set (X0 := x0 / (p_lam p * p_f p / p_D0 p)). set (Y0 := y0 / (p_lam p * p_f p / p_D1 p)).
  set (h := (fun i j => if (i <? p_n0 p)%nat then if (j <? p_n1 p)%nat then cmul (cmul (cmul (beamlet p t i j) (plate p i j)) (cis (- (2 * PI / INR (p_n0 p) * lens (p_n0 p) i * X0)))) (cis (- (2 * PI / INR (p_n1 p) * lens (p_n1 p) j * Y0))) else c0 else c0) : cfield).
  assert (V : forall k l, pattern p t (x0 + period0 p * INR k / INR m0) (y0 + period1 p * INR l / INR m1) =
    cmul (cmul (cis (PI * (INR (p_n0 p) - 1) * INR k / INR m0)) (cis (PI * (INR (p_n1 p) - 1) * INR l / INR m1))) (fft2 m0 m1 h k l)).
  { intros k l. unfold pattern.
    replace ((x0 + period0 p * INR k / INR m0) / (p_lam p * p_f p / p_D0 p)) with (X0 + INR (p_n0 p) * INR k / INR m0) by (unfold X0, period0; field; lra).
    replace ((y0 + period1 p * INR l / INR m1) / (p_lam p * p_f p / p_D1 p)) with (Y0 + INR (p_n1 p) * INR l / INR m1) by (unfold Y0, period1; field; lra).
    unfold fft2, cfft.
    rewrite (csum_ext m0 (fun g => cmul (csum m1 (fun g0 => cmul (h g g0) (cis (- angle m1 l g0)))) (cis (- angle m0 k g)))
      (fun i => if (i <? p_n0 p)%nat then csum (p_n1 p) (fun j => cmul (cmul (cmul (cmul (cmul (beamlet p t i j) (plate p i j)) (cis (- (2 * PI / INR (p_n0 p) * lens (p_n0 p) i * X0)))) (cis (- (2 * PI / INR (p_n1 p) * lens (p_n1 p) j * Y0)))) (cis (- angle m1 l j))) (cis (- angle m0 k i))) else c0)).
    2: { intros i Hi. unfold h. destruct (i <? p_n0 p)%nat.
         - rewrite csum_mul_r. f_equal. rewrite <- (csum_pad (p_n1 p) m1 _ H1). apply csum_ext. intros j _. destruct (j <? p_n1 p)%nat; [reflexivity|creal].
         - rewrite (csum_ext m1 _ (fun _ => c0)) by (intros; creal). rewrite csum_zero. creal. }
    rewrite (csum_pad (p_n0 p) m0 _ H0). rewrite <- csum_mul. 
    rewrite (csum_ext (p_n1 p) _ (fun j => csum (p_n0 p) (fun i => cmul (cmul (cmul (beamlet p t i j) (plate p i j)) (cis (- (2 * PI / INR (p_n0 p) * lens (p_n0 p) i * (X0 + INR (p_n0 p) * INR k / INR m0))))) (cis (- (2 * PI / INR (p_n1 p) * lens (p_n1 p) j * (Y0 + INR (p_n1 p) * INR l / INR m1))))))) by (intros j _; rewrite csum_mul_r; reflexivity).
    rewrite csum_swap. apply csum_ext. intros i Hi. rewrite <- csum_mul. apply csum_ext. intros j Hj.
    rewrite (beam_sample (p_n0 p) m0 X0 i k), (beam_sample (p_n1 p) m1 Y0 j l) by (auto; lia). ring. }
  rewrite (rsum_ext m0 _ (fun k => rsum m1 (fun l => cabs2 (fft2 m0 m1 h k l)))).
  2: { intros k _. apply rsum_ext. intros l _. rewrite V. rewrite !cmul_conj_abs, !cabs2_cis. ring. }
  change (norm2 m0 m1 (fft2 m0 m1 h) / (INR m0 * INR m1) = rsum (p_n0 p) (fun i => rsum (p_n1 p) (fun j => cabs2 (beamlet p t i j)))).
  rewrite parseval2 by lia. replace (INR m0 * INR m1 * norm2 m0 m1 h / (INR m0 * INR m1)) with (norm2 m0 m1 h) by (field; lra).
  unfold norm2. rewrite <- (rsum_pad (p_n0 p) m0 _ H0). apply rsum_ext. intros i _. unfold h. destruct (i <? p_n0 p)%nat.
  - rewrite <- (rsum_pad (p_n1 p) m1 _ H1). apply rsum_ext. intros j _. destruct (j <? p_n1 p)%nat; [rewrite !cmul_conj_abs, !cabs2_cis, plate_unit; ring|unfold cabs2, c0; cbn [fst snd]; ring].
  - rewrite (rsum_ext m1 _ (fun _ => 0)) by (intros; unfold cabs2, c0; cbn [fst snd]; ring). apply rsum_zero.
Qed.
Print Assumptions C101_energy.
(** No hot spot exceeds the coherent sum of the beamlets. *)
Theorem C101_peak : forall p t x y, p_type p <> GPISI -> sqrt (cabs2 (pattern p t x y)) <= INR (p_n0 p) * INR (p_n1 p).
Proof.
  intros p t x y T. replace (INR (p_n0 p) * INR (p_n1 p)) with (INR (p_n1 p) * (INR (p_n0 p) * 1)) by ring. unfold pattern. apply csum_bound. intros j _. rewrite cmul_conj_abs, cabs2_cis, Rmult_1_r. apply csum_bound. intros i _.
  rewrite !cmul_conj_abs, cabs2_cis. destruct (C101_beamlets p t i j T) as (-> & -> & _). replace (1 * 1 * 1) with 1 by ring. rewrite sqrt_1. lra.
Qed.
Print Assumptions C101_peak.

(* ------------------------------------------------------------------------------------------------ *)
(** * Normalisation *)
(** The envelope is divided by the mean modulus of the pattern, not by the root of its mean intensity: the mean intensity of the normalised envelope over the
    normalising plane is at least one, and above one as soon as two points differ in modulus, so that a speckled pump carries more than its nominal flux. *)
Theorem C101_norm_refuted : forall p m, (0 < m)%nat -> 0 < normalization p m ->
  let mean := rsum m (fun a => rsum m (fun b => cabs2 (cscal (/ normalization p m) (norm_pt p m a b)))) / (INR m * INR m) in
  1 <= mean /\ ((exists a b a' b', (a < m)%nat /\ (b < m)%nat /\ (a' < m)%nat /\ (b' < m)%nat /\ cabs2 (norm_pt p m a b) <> cabs2 (norm_pt p m a' b')) -> 1 < mean).
Proof.
  intros p m Hm Pn. pose proof (lt_0_INR m Hm) as M. set (N := normalization p m) in *. set (s := fun a b => sqrt (cabs2 (norm_pt p m a b))).
  assert (SS : forall a b, s a b * s a b = cabs2 (norm_pt p m a b)) by (intros; apply sqrt_sqrt, cabs2_nonneg).
  assert (SUM : rsum m (fun a => rsum m (fun b => s a b)) = N * (INR m * INR m)) by (unfold N, normalization, s; field; lra).
  assert (V : rsum m (fun a => rsum m (fun b => (s a b / N - 1) ^ 2)) = rsum m (fun a => rsum m (fun b => cabs2 (cscal (/ N) (norm_pt p m a b)))) - INR m * INR m).
  { rewrite (rsum_ext m _ (fun a => rsum m (fun b => cabs2 (cscal (/ N) (norm_pt p m a b))) - (2 / N * rsum m (fun b => s a b) - INR m))).
    2: { intros a _. rewrite <- rsum_scal. replace (INR m) with (rsum m (fun _ => 1)) by (rewrite rsum_const; ring). rewrite <- !rsum_minus. apply rsum_ext. intros b _. rewrite cabs2_scal, <- SS. field. lra. }
    rewrite rsum_minus, rsum_minus, rsum_scal, SUM, rsum_const. field. lra. }
  assert (P : 0 <= rsum m (fun a => rsum m (fun b => (s a b / N - 1) ^ 2))) by (apply rsum_nonneg; intros; apply rsum_nonneg; intros; apply pow2_ge_0).
  set (T := rsum m (fun a => rsum m (fun b => cabs2 (cscal (/ N) (norm_pt p m a b))))) in *. intros mean.
  assert (MT : mean * (INR m * INR m) = T) by (unfold mean; field; lra). assert (MM : 0 < INR m * INR m) by nra. split; [nra|].
  intros (a & b & a' & b' & Ha & Hb & Ha' & Hb' & D). destruct (Rle_lt_or_eq_dec 0 _ P) as [L|E]; [nra|exfalso]. symmetry in E.
  assert (Z : forall x y, (x < m)%nat -> (y < m)%nat -> s x y = N).
  { intros x y Hx Hy. pose proof (rsum_nonneg_zero m _ ltac:(intros; apply rsum_nonneg; intros; apply pow2_ge_0) E x Hx) as E1. cbv beta in E1.
    pose proof (rsum_nonneg_zero m _ ltac:(intros; apply pow2_ge_0) E1 y Hy) as E2. cbv beta in E2. assert (s x y / N - 1 = 0) by (apply Rsqr_0_uniq; unfold Rsqr; nra).
    replace (s x y) with (s x y / N * N) by (field; lra). replace (s x y / N) with 1 by lra. ring. }
  apply D. rewrite <- !SS, !Z by auto. reflexivity.
Qed.
Print Assumptions C101_norm_refuted.

(* ------------------------------------------------------------------------------------------------ *)
(** * Transverse spectrum *)
(** The wavenumber of row [j] of beamlets, per metre. *)
Definition ky_of (p : spk) (j : nat) : R := 2 * PI / p_lam p * (p_D1 p / p_f p) * ((INR j - (INR (p_n1 p) - 1) / 2) / INR (p_n1 p)).
(** Along y the pump is a sum of one plane wave per row of beamlets, inside the numerical aperture of the vacuum wavelength. *)
Theorem C101_plane_waves : forall p t, good p ->
  (exists A, forall y, evaluate p 0 y t = csum (p_n1 p) (fun j => cmul (A j) (cis (- (ky_of p j * y))))) /\
  (forall j, (j < p_n1 p)%nat -> Rabs (ky_of p j) <= 2 * PI / p_lam p * (p_D1 p / (2 * p_f p)) * (1 - / INR (p_n1 p))) /\
  Rabs (ky_of p 0) = 2 * PI / p_lam p * (p_D1 p / (2 * p_f p)) * (1 - / INR (p_n1 p)).
Proof.
  intros p t (Pl & Pf & P0 & P1 & N0 & N1 & _ & _). pose proof (lt_0_INR _ N0) as R0. pose proof (lt_0_INR _ N1) as R1. pose proof PI_RGT_0 as PP.
  assert (Q : 0 < 2 * PI / p_lam p * (p_D1 p / p_f p)) by (apply Rmult_lt_0_compat; apply Rdiv_lt_0_compat; lra).
  assert (R1' : 1 <= INR (p_n1 p)) by (apply (le_INR 1); lia).
  assert (E : 2 * PI / p_lam p * (p_D1 p / (2 * p_f p)) * (1 - / INR (p_n1 p)) = 2 * PI / p_lam p * (p_D1 p / p_f p) * ((INR (p_n1 p) - 1) / 2 / INR (p_n1 p))) by (field; lra).
  assert (B : forall z, Rabs (2 * PI / p_lam p * (p_D1 p / p_f p) * (z / INR (p_n1 p))) = 2 * PI / p_lam p * (p_D1 p / p_f p) * (Rabs z / INR (p_n1 p))).
  { intros z. rewrite Rabs_mult, (Rabs_pos_eq (2 * PI / p_lam p * (p_D1 p / p_f p))) by lra. f_equal. unfold Rdiv. rewrite Rabs_mult, (Rabs_pos_eq (/ INR (p_n1 p))) by (apply Rlt_le, Rinv_0_lt_compat; auto). reflexivity. }
  split; [|split].
  - exists (fun j => csum (p_n0 p) (fun i => cmul (cmul (beamlet p (t * c_si / p_lam p) i j) (plate p i j)) (cis (- (2 * PI / INR (p_n0 p) * lens (p_n0 p) i * (0 / (p_lam p * p_f p / p_D0 p))))))).
    intros y. unfold evaluate, pattern. apply csum_ext. intros j Hj. f_equal. f_equal. f_equal. unfold ky_of. rewrite (lens_val _ _ Hj). field. lra.
  - intros j Hj. unfold ky_of. rewrite B, E. apply Rmult_le_compat_l; [lra|]. apply Rmult_le_compat_r; [apply Rlt_le, Rinv_0_lt_compat; auto|]. apply Rabs_le. assert (INR j + 1 <= INR (p_n1 p)) by (rewrite <- S_INR; apply le_INR; lia). pose proof (pos_INR j). lra.
  - unfold ky_of. rewrite B, E. change (INR 0) with 0. rewrite Rabs_left1 by lra. f_equal. f_equal. lra.
Qed.
Print Assumptions C101_plane_waves.
(** The band that is kept free for the pump is computed with the wavenumber in the plasma instead of the vacuum one. It holds every row of beamlets exactly when the reduction of
    the wavenumber by the plasma is compensated by the finite number of rows (square apertures): with dense plasma and many rows the outermost beamlets lie outside. *)
Theorem C101_support_refuted : forall c dmax p, good p -> p_D0 p = p_D1 p -> 0 < g_w0 c -> 0 < g_c c -> g_w0 c / g_c c = 2 * PI / (p_lam p * 10 ^ 6) ->
  ((forall j, (j < p_n1 p)%nat -> Rabs (ky_of p j) / 10 ^ 6 <= ky_support c dmax p) <-> 1 - / INR (p_n1 p) <= sqrt ((1 + dmax) ^ 2 - g_wp0 c ^ 2 / g_w0 c ^ 2)).
Proof.
  intros c dmax p G D W C U. destruct (C101_plane_waves p 0 G) as (_ & K1 & K2). pose proof G as (Pl & Pf & P0 & P1 & N0 & N1 & _ & _). pose proof PI_RGT_0 as PP.
  set (q := sqrt ((1 + dmax) ^ 2 - g_wp0 c ^ 2 / g_w0 c ^ 2)) in *. assert (M : 0 < 10 ^ 6) by (apply pow_lt; lra). set (mu := 10 ^ 6) in *.
  assert (S : ky_support c dmax p = 2 * PI / p_lam p * (p_D1 p / (2 * p_f p)) * q / mu).
  { unfold ky_support, k0_of. fold q. rewrite U, D, Rmax_left by lra. field. lra. }
  assert (Q : 0 < 2 * PI / p_lam p * (p_D1 p / (2 * p_f p)) / mu) by (apply Rdiv_lt_0_compat; [apply Rmult_lt_0_compat; apply Rdiv_lt_0_compat; lra|auto]).
  rewrite S. split.
  - intros H. specialize (H 0%nat N1). rewrite K2 in H. apply (Rmult_le_reg_l (2 * PI / p_lam p * (p_D1 p / (2 * p_f p)) / mu)); [auto|]. unfold Rdiv in *. lra.
  - intros H j Hj. specialize (K1 j Hj). eapply Rle_trans; [apply Rmult_le_compat_r; [apply Rlt_le, Rinv_0_lt_compat; auto|exact K1]|].
    apply (Rmult_le_compat_l (2 * PI / p_lam p * (p_D1 p / (2 * p_f p)) / mu)) in H; [|lra]. unfold Rdiv in *. lra.
Qed.
Print Assumptions C101_support_refuted.

(* ------------------------------------------------------------------------------------------------ *)
(** * Bandwidth and time series *)
Lemma ceil_b x : x <= IZR (ceil x) < x + 1.
Proof. unfold ceil. rewrite opp_IZR. pose proof (floor_spec (- x)). lra. Qed.
Lemma ssd_pos p : good p -> ssd_good p -> 0 < ssd_norm p /\ ssd_norm p ^ 2 = p_dist0 p ^ 2 + p_dist1 p ^ 2 /\ 0 <= ssd_f0 p /\ 0 <= ssd_f1 p /\ 0 <= delay0 p /\ 0 <= delay1 p.
Proof.
  intros (Pl & Pf & P0 & P1 & N0 & N1 & Bw & Tm) (A0 & A1 & C0 & C1 & D0 & D1 & DD).
  assert (S : 0 < p_dist0 p ^ 2 + p_dist1 p ^ 2) by (pose proof (Rmult_lt_0_compat _ _ DD DD); pose proof (pow2_ge_0 (p_dist0 p - p_dist1 p)); nra). assert (NP : 0 < ssd_norm p) by (apply sqrt_lt_R0; auto).
  assert (F0 : 0 <= ssd_f0 p). { unfold ssd_f0. apply Rmult_le_pos; [|apply Rlt_le, Rinv_0_lt_compat; auto]. apply Rmult_le_pos; [|lra]. apply Rmult_le_pos; [lra|]. apply Rmult_le_pos; [lra|apply Rlt_le, Rinv_0_lt_compat; auto]. }
  assert (F1 : 0 <= ssd_f1 p). { unfold ssd_f1. apply Rmult_le_pos; [|apply Rlt_le, Rinv_0_lt_compat; auto]. apply Rmult_le_pos; [|lra]. apply Rmult_le_pos; [lra|]. apply Rmult_le_pos; [lra|apply Rlt_le, Rinv_0_lt_compat; auto]. }
  split; [auto|]. split; [unfold ssd_norm; rewrite <- Rsqr_pow2; apply Rsqr_sqrt; lra|]. split; [auto|]. split; [auto|].
  split; [unfold delay0; destruct (Rlt_dec 0 (ssd_f0 p))|unfold delay1; destruct (Rlt_dec 0 (ssd_f1 p))]; try lra; apply Rmult_le_pos; auto; apply Rlt_le, Rinv_0_lt_compat; auto.
Qed.
(** The two modulators share the requested bandwidth: the full excursions of the frequency in x and y add up in squares to the square of the relative bandwidth, in the ratio asked for;
    FM SSD repeats after every common multiple of the two modulation periods. *)
Theorem C101_bandwidth : forall p, good p -> ssd_good p ->
  (2 * p_pma0 p * ssd_f0 p) ^ 2 + (2 * p_pma1 p * ssd_f1 p) ^ 2 = p_bw p ^ 2 /\ (2 * p_pma0 p * ssd_f0 p) * p_dist1 p = (2 * p_pma1 p * ssd_f1 p) * p_dist0 p /\
  (p_type p = FMSSD -> forall T a b t i j, ssd_f0 p * T = IZR a -> ssd_f1 p * T = IZR b -> beamlet p (t + T) i j = beamlet p t i j).
Proof.
  intros p G S. destruct (ssd_pos p G S) as (NP & N2 & _). destruct S as (A0 & A1 & _). split; [|split].
  - replace (2 * p_pma0 p * ssd_f0 p) with (p_bw p * p_dist0 p / ssd_norm p) by (unfold ssd_f0; field; lra). replace (2 * p_pma1 p * ssd_f1 p) with (p_bw p * p_dist1 p / ssd_norm p) by (unfold ssd_f1; field; lra).
    replace ((p_bw p * p_dist0 p / ssd_norm p) ^ 2 + (p_bw p * p_dist1 p / ssd_norm p) ^ 2) with (p_bw p ^ 2 * (p_dist0 p ^ 2 + p_dist1 p ^ 2) / ssd_norm p ^ 2) by (field; lra). rewrite N2. field. rewrite <- N2. nra.
  - unfold ssd_f0, ssd_f1. field. lra.
  - intros E T a b t i j Ha Hb. unfold beamlet. rewrite E. f_equal.
    assert (P : forall u f T z w, f * T = IZR z -> sin (u + 2 * PI * f * (t + T - w)) = sin (u + 2 * PI * f * (t - w))).
    { intros u f T' z w Hz. replace (u + 2 * PI * f * (t + T' - w)) with (u + 2 * PI * f * (t - w) + 2 * IZR z * PI) by (rewrite <- Hz; ring). apply sin_2Zpi. }
    rewrite (P _ _ _ a _ Ha), (P _ _ _ b _ Hb). reflexivity.
Qed.
Print Assumptions C101_bandwidth.
(** The random time series are long enough: for every time up to the end of the run and every beamlet, the interpolation of GP RPM SSD reads inside its points, as many as values,
    and GP ISI reads an existing sample. *)
Theorem C101_coverage : forall p t, good p -> 0 <= t <= p_tmax p * c_si / p_lam p ->
  (0 <= round_half_even (t / dt_update p) <= Z.of_nat (base_len p - 1))%Z /\
  (ssd_good p -> interp_len p = n_pts p /\
    (forall i, (i < p_n0 p)%nat -> 0 <= t + INR i * delay0 p / INR (p_n0 p) <= arange (dt_update p) (interp_len p - 1)) /\
    (forall j, (j < p_n1 p)%nat -> 0 <= t + INR j * delay1 p / INR (p_n1 p) <= arange (dt_update p) (interp_len p - 1))).
Proof.
  intros p t G [T0 T1]. pose proof G as (Pl & Pf & P0 & P1 & N0 & N1 & Bw & Tm).
  assert (D : 0 < dt_update p) by (unfold dt_update; repeat apply Rdiv_lt_0_compat; lra). set (d := dt_update p) in *. set (TM := p_tmax p * c_si / p_lam p) in *.
  pose proof (ceil_b ((TM + d) / d)) as [B1 B2]. set (z := ceil ((TM + d) / d)) in *. assert (E : (TM + d) / d = TM / d + 1) by (field; lra). rewrite E in B1, B2.
  assert (Q : 0 <= TM / d) by (apply Rmult_le_pos; [lra|apply Rlt_le, Rinv_0_lt_compat; auto]). assert (Z1 : (1 <= z)%Z) by (apply le_IZR; lra).
  assert (BL : base_len p = Z.to_nat z) by reflexivity. assert (QD : TM / d * d = TM) by (field; lra). assert (TD : t / d * d = t) by (field; lra).
  assert (IB : INR (base_len p - 1) = IZR z - 1) by (rewrite minus_INR by lia; rewrite BL, INR_IZR_INZ, Z2Nat.id by lia; reflexivity).
  split.
  { pose proof (round_spec (t / d)) as R. assert (R' : - (1 / 2) <= t / d - IZR (round_half_even (t / d)) <= 1 / 2) by (revert R; unfold Rabs; destruct (Rcase_abs _); lra).
    assert (t / d <= IZR z - 1) by (apply (Rmult_le_reg_r d); [auto|]; nra). assert (0 <= t / d) by (apply Rmult_le_pos; [lra|apply Rlt_le, Rinv_0_lt_compat; auto]).
    set (r := round_half_even (t / d)) in *. split; [assert (-1 < r)%Z by (apply lt_IZR; lra); lia|]. replace (Z.of_nat (base_len p - 1)) with (z - 1)%Z by lia. assert (r < z)%Z; [|lia]. apply lt_IZR. lra. }
  intros S. destruct (ssd_pos p G S) as (_ & _ & _ & _ & L0 & L1).
  assert (LS : 0 <= delay_sum p / d) by (unfold delay_sum; apply Rmult_le_pos; [lra|apply Rlt_le, Rinv_0_lt_compat; auto]). destruct (trunc_b _ LS) as [F F0]. set (w := trunc (delay_sum p / d)) in *.
  assert (LD : delay_sum p / d * d = delay_sum p) by (field; lra).
  assert (NP : n_pts p = (Z.to_nat z + Z.to_nat w + 2)%nat) by reflexivity.
  assert (IL : interp_len p = n_pts p).
  { unfold interp_len. fold d. apply Nat.min_r. unfold arange_len, arange. rewrite IB.
    pose proof (ceil_b (((IZR z - 1) * d + delay_sum p + 3 * d) / d)) as [C1 _]. set (y := ceil (((IZR z - 1) * d + delay_sum p + 3 * d) / d)) in *.
    replace (((IZR z - 1) * d + delay_sum p + 3 * d) / d) with (IZR z + 2 + delay_sum p / d) in C1 by (field; lra).
    rewrite NP. assert (z + w + 2 <= y)%Z; [apply le_IZR; rewrite !plus_IZR; lra|lia]. }
  split; [exact IL|]. rewrite IL. assert (IA : INR (n_pts p - 1) = IZR z + IZR w + 1) by (rewrite NP, minus_INR by lia; rewrite !plus_INR, !INR_IZR_INZ, !Z2Nat.id by lia; cbn; ring).
  unfold arange. rewrite IA. assert (EN : TM + delay_sum p <= (IZR z + IZR w + 1) * d) by nra.
  assert (ID : forall n i l, (i < n)%nat -> 0 <= l -> 0 <= INR i * l / INR n <= l).
  { intros n i l Hi Hl. assert (PN : 0 < INR n) by (apply lt_0_INR; lia). apply lt_INR in Hi. pose proof (pos_INR i). split; [apply Rmult_le_pos; [nra|apply Rlt_le, Rinv_0_lt_compat; auto]|]. apply (Rmult_le_reg_r (INR n)); [auto|]. unfold Rdiv. rewrite Rmult_assoc, Rinv_l by lra. nra. }
  unfold delay_sum in EN. split; [intros i Hi; pose proof (ID _ _ _ Hi L0)|intros j Hj; pose proof (ID _ _ _ Hj L1)]; lra.
Qed.
Print Assumptions C101_coverage.
Lemma rsum_split a b f : rsum (a + b) f = rsum a f + rsum b (fun i => f (a + i)%nat).
Proof. induction b; [rewrite Nat.add_0_r; cbn [rsum]; ring|]. rewrite Nat.add_succ_r. cbn [rsum]. rewrite IHb. ring. Qed.
Lemma rsum_rot n s f : (0 < n)%nat -> (s <= n)%nat -> rsum n (fun i => f ((i + s) mod n)%nat) = rsum n f.
Proof.
  intros Hn Hs. replace n with ((n - s) + s)%nat at 1 by lia. rewrite rsum_split. replace (rsum n f) with (rsum (s + (n - s)) f) by (f_equal; lia). rewrite (rsum_split s).
  rewrite (rsum_ext (n - s) _ (fun i => f (s + i)%nat)) by (intros i Hi; f_equal; rewrite Nat.mod_small by lia; lia).
  rewrite (rsum_ext s _ f); [ring|]. intros i Hi. f_equal. replace (n - s + i + s)%nat with (i + 1 * n)%nat by lia. rewrite Nat.mod_add by lia. apply Nat.mod_small. lia.
Qed.
(** The Gaussian series has exactly the requested root mean square unless every draw vanishes, and the random phase of GP RPM SSD at most the requested one. *)
Theorem C101_rms : forall re im n dt fwhm rms, (0 < n)%nat -> fwhm <> 0 -> (exists k, (k < n)%nat /\ (re k <> 0 \/ im k <> 0)) -> let f := gauss_series re im n dt fwhm rms in
  mean2 n f = rms ^ 2 /\ rsum n (fun k => ((fst (f k) + snd (f k)) / sqrt 2) ^ 2) / INR n <= rms ^ 2.
Proof.
  intros re im n dt fwhm rms Hn Hf (k0 & Hk & Nz) f. pose proof (lt_0_INR n Hn) as PN. assert (D2 : (n / 2 <= n)%nat) by (pose proof (Nat.mul_div_le n 2 ltac:(lia)); lia).
  assert (RAW : rsum n (fun k => cabs2 (raw_series re im n dt fwhm k)) = INR n * rsum n (fun m => psd n dt fwhm m ^ 2 * (re m ^ 2 + im m ^ 2))).
  { unfold raw_series, ifftshift. set (h := fun k => let m := fftshift n k in cscal (psd n dt fwhm m) (re m, im m)). rewrite (rsum_rot n (n / 2) (fun k => cabs2 (cfft n h k)) Hn D2).
    rewrite parseval by auto. f_equal. unfold h. unfold fftshift. rewrite <- (rsum_rot n (n - n / 2) (fun m => psd n dt fwhm m ^ 2 * (re m ^ 2 + im m ^ 2))) by lia. apply rsum_ext. intros i _. cbv zeta. rewrite cabs2_scal. unfold cabs2. cbn [fst snd]. ring. }
  assert (POS : 0 < mean2 n (raw_series re im n dt fwhm)).
  { unfold mean2. rewrite RAW. replace (INR n * rsum n (fun m => psd n dt fwhm m ^ 2 * (re m ^ 2 + im m ^ 2)) / INR n) with (rsum n (fun m => psd n dt fwhm m ^ 2 * (re m ^ 2 + im m ^ 2))) by (field; lra).
    assert (NN : forall m, (m < n)%nat -> 0 <= psd n dt fwhm m ^ 2 * (re m ^ 2 + im m ^ 2)) by (intros m _; apply Rmult_le_pos; [apply pow2_ge_0|pose proof (pow2_ge_0 (re m)); pose proof (pow2_ge_0 (im m)); lra]).
    destruct (Rle_lt_or_eq_dec 0 _ (rsum_nonneg n _ NN)) as [h|h]; [exact h|exfalso]. symmetry in h. pose proof (rsum_nonneg_zero n _ NN h k0 Hk) as Z. cbv beta in Z.
    assert (0 < psd n dt fwhm k0) by (unfold psd; apply exp_pos). assert (0 < psd n dt fwhm k0 ^ 2) by nra. apply Rmult_integral in Z. destruct Z as [Z|Z]; [lra|]. destruct Nz as [Nz|Nz]; apply Nz; nra. }
  set (M := mean2 n (raw_series re im n dt fwhm)) in *. assert (SM : sqrt M * sqrt M = M) by (apply sqrt_sqrt; lra). assert (PS : 0 < sqrt M) by (apply sqrt_lt_R0; auto).
  assert (F : forall k, f k = cscal (rms / sqrt M) (raw_series re im n dt fwhm k)) by (intros k; unfold f, gauss_series; destruct (Req_EM_T fwhm 0); [contradiction|reflexivity]).
  assert (MM : mean2 n f = rms ^ 2).
  { unfold mean2. rewrite (rsum_ext n _ (fun k => (rms / sqrt M) ^ 2 * cabs2 (raw_series re im n dt fwhm k))) by (intros k _; rewrite F, cabs2_scal; reflexivity). rewrite rsum_scal.
    replace ((rms / sqrt M) ^ 2 * rsum n (fun i => cabs2 (raw_series re im n dt fwhm i)) / INR n) with ((rms / sqrt M) ^ 2 * M) by (unfold M, mean2, Rdiv; ring).
    rewrite <- SM at 2. field. lra. }
  split; [exact MM|]. rewrite <- MM. unfold mean2. apply Rmult_le_compat_r; [apply Rlt_le, Rinv_0_lt_compat; auto|]. apply rsum_le. intros k _. set (z := f k). unfold cabs2.
  assert (S2 : sqrt 2 * sqrt 2 = 2) by (apply sqrt_sqrt; lra). assert (0 < sqrt 2) by (apply sqrt_lt_R0; lra).
  replace (((fst z + snd z) / sqrt 2) ^ 2) with ((fst z + snd z) ^ 2 / (sqrt 2 * sqrt 2)) by (field; lra). rewrite S2. pose proof (pow2_ge_0 (fst z - snd z)). lra.
Qed.
Print Assumptions C101_rms.
(** A 0.351 um beam through a 0.35 m aperture, 32 x 32 beamlets. At a quarter of the critical density the reserved band does not hold the outermost beamlets. *)
Definition beam : spk := {| p_type := GPRPM; p_lam := 351 / 10 ^ 9; p_f := 7 / 2; p_D0 := 35 / 100; p_D1 := 35 / 100; p_n0 := 32; p_n1 := 32; p_bw := 5 / 1000; p_pma0 := 41 / 10; p_pma1 := 45 / 10;
  p_cyc0 := 14 / 10; p_cyc1 := 1; p_dist0 := 18 / 10; p_dist1 := 1; p_tmax := 1 / 10 ^ 12; d_sign := fun _ _ => true; d_plate := fun _ _ => 0; d_deph := fun _ => 0; d_re := fun _ _ => 1; d_im := fun _ _ => 0 |}.
Example C101_ex : good beam /\ ssd_good beam /\ ~ 1 - / INR (p_n1 beam) <= sqrt ((1 + 0) ^ 2 - 1 / 4).
Proof.
  split; [unfold good, beam; cbn [p_lam p_f p_D0 p_D1 p_n0 p_n1 p_bw p_tmax]; repeat split; try lra; try lia; try (apply Rlt_le); apply Rdiv_lt_0_compat; try lra; apply pow_lt; lra|].
  split; [unfold ssd_good, beam; cbn [p_pma0 p_pma1 p_cyc0 p_cyc1 p_dist0 p_dist1]; lra|]. cbn [beam p_n1]. replace (INR 32) with 32 by (rewrite INR_IZR_INZ; reflexivity).
  replace ((1 + 0) ^ 2 - 1 / 4) with (3 / 4) by field. intros H. assert (31 / 32 <= sqrt (3 / 4)) as H2 by lra. assert (sqrt (3 / 4) * sqrt (3 / 4) = 3 / 4) by (apply sqrt_sqrt; lra). nra.
Qed.
