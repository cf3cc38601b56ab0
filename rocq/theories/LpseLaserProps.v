(** Property C98: the pump of the laser-plasma envelope solver. *)
From Coq Require Import Reals Lra Lia ZArith List Bool Psatz.
From Verif Require Import RSum Pic PicProofs PicFourier VGrid Lpse LpseFft LpseProps LpseTpd LpseLaser Dft.
Local Open Scope R_scope.

(** A usable box: cells, positive spacing, frequency and speed of light; everywhere below the critical density. *)
Definition lok (c : lcfg) : Prop := (0 < g_nx c)%nat /\ 0 < g_dx c /\ 0 < g_w0 c /\ 0 < g_c c /\ (forall a b, 0 <= g_bg c a b < 1).
(** The grid mode of a colour: the wavenumber nearest to its own. *)
Definition mode (c : lcfg) (dw : R) : Z := round_half_even (k0_of c dw / ldk c).

Lemma cis_wrap N k j : (0 < N)%nat -> cis (angle N (wrap N k) j) = cis (angleZ N k j).
Proof.
  intros H. rewrite angle_Z. unfold wrap. pose proof (Z.mod_pos_bound k (Z.of_nat N) ltac:(lia)). rewrite Z2Nat.id by lia.
  rewrite <- (cis_period (angleZ N (k mod Z.of_nat N) j) (k / Z.of_nat N * Z.of_nat j)). f_equal. unfold angleZ.
  pose proof (Z.div_mod k (Z.of_nat N) ltac:(lia)) as D. apply (f_equal IZR) in D. rewrite plus_IZR, mult_IZR, <- (INR_IZR_INZ N) in D. rewrite D, mult_IZR, <- INR_IZR_INZ.
  pose proof (lt_0_INR N H). field. lra.
Qed.
Lemma shift_index n m k : (k < n)%nat -> ((k + n / 2) mod n =? Z.to_nat ((m + Z.of_nat (n / 2)) mod Z.of_nat n))%nat = (k =? wrap n m)%nat.
Proof.
  intros H. set (h := (n / 2)%nat).
  assert (E : Z.of_nat ((k + h) mod n) = ((Z.of_nat k + Z.of_nat h) mod Z.of_nat n)%Z) by (rewrite Nat2Z.inj_mod, Nat2Z.inj_add; reflexivity).
  pose proof (Z.mod_pos_bound (m + Z.of_nat h) (Z.of_nat n) ltac:(lia)). pose proof (Z.mod_pos_bound m (Z.of_nat n) ltac:(lia)).
  apply Bool.eq_iff_eq_true. rewrite !Nat.eqb_eq. unfold wrap. split; intros Q.
  - apply (f_equal Z.of_nat) in Q. rewrite E, Z2Nat.id in Q by lia.
    assert (((Z.of_nat k + Z.of_nat h) - Z.of_nat h) mod Z.of_nat n = ((m + Z.of_nat h) - Z.of_nat h) mod Z.of_nat n)%Z as Q2 by (rewrite <- (Zminus_mod_idemp_l (Z.of_nat k + _)), Q, Zminus_mod_idemp_l; reflexivity).
    replace (Z.of_nat k + Z.of_nat h - Z.of_nat h)%Z with (Z.of_nat k) in Q2 by lia. replace (m + Z.of_nat h - Z.of_nat h)%Z with m in Q2 by lia. rewrite Z.mod_small in Q2 by lia. lia.
  - apply Nat2Z.inj. rewrite E, Z2Nat.id by lia. rewrite Q, Z2Nat.id by lia. rewrite Zplus_mod_idemp_l. reflexivity.
Qed.
Lemma sum_modes n N (A : nat -> cplx) (M : nat -> Z) a : (0 < n)%nat ->
  cscal (INR n) (ifft n (ifftshift n (fun i => csum N (fun q => if (i =? Z.to_nat ((M q + Z.of_nat (n / 2)) mod Z.of_nat n))%nat then A q else c0))) a) = csum N (fun q => cmul (A q) (cis (angleZ n (M q) a))).
Proof.
  intros Hn. unfold ifft, ifftshift.
  rewrite (csum_ext n _ (fun k => csum N (fun q => if (k =? wrap n (M q))%nat then cmul (A q) (cis (angle n k a)) else c0))).
  - rewrite csum_swap. rewrite (csum_ext N _ (fun q => cmul (A q) (cis (angleZ n (M q) a)))).
    + generalize (csum N (fun q => cmul (A q) (cis (angleZ n (M q) a)))). intros [u v]. pose proof (lt_0_INR n Hn). apply cplx_eq; unfold cscal; cbn [fst snd]; field; lra.
    + intros q _. rewrite (csum_single n (wrap n (M q))).
      * rewrite Nat.eqb_refl, cis_wrap by auto. reflexivity.
      * apply wrap_lt; auto.
      * intros i _ N0. apply Nat.eqb_neq in N0. rewrite N0. reflexivity.
  - intros k Hk. rewrite <- csum_mul_r. apply csum_ext. intros q _. rewrite shift_index by auto. destruct (k =? wrap n (M q))%nat; [reflexivity|cxr].
Qed.
Lemma swell_val c a b : lok c -> swell c a b = Some (Rpower (1 - g_bg c a b) (- (1 / 4))).
Proof.
  intros (Hn & Dx & W & C & B). unfold swell. specialize (B a b).
  replace (1 - (g_w0 c * sqrt (g_bg c a b)) ^ 2 / g_w0 c ^ 2) with (1 - g_bg c a b).
  - destruct (Rlt_dec 0 (1 - g_bg c a b)); [reflexivity|lra].
  - rewrite Rpow_mult_distr. replace (sqrt (g_bg c a b) ^ 2) with (g_bg c a b) by (cbn; rewrite Rmult_1_r; symmetry; apply sqrt_sqrt; lra). field. lra.
Qed.
Definition speckle_at (c : lcfg) (t : R) (b : nat) : cplx := match g_speckle c with None => c1 | Some e => e t b end.
Lemma mul_c1_r z : cmul z c1 = z. Proof. cxr. Qed.
Lemma mul_c0_l z : cmul c0 z = c0. Proof. cxr. Qed.
Lemma update_val c t w It Ph : lok c -> w_int w = Rows It -> w_ph w = Rows Ph ->
  exists F, laser_update c t w = Some F /\ forall a b, F a b = Some (cmul (speckle_at c t b) (cscal (Rpower (1 - g_bg c a b) (- (1 / 4)))
      (csum (w_n w) (fun q => cmul (l_amp c (w_dw w q) (It q b) (Ph q b) t) (cis (angleZ (g_nx c) (mode c (w_dw w q)) a)))))).
Proof.
  intros O HI HP. pose proof O as (Hn & _). unfold laser_update, l_spectrum. rewrite HI, HP.
  destruct (Nat.eqb_spec (w_n w) 0) as [Z|Z].
  - eexists. split; [reflexivity|]. intros a b. cbv beta. rewrite swell_val by auto. rewrite Z. cbn [csum]. unfold speckle_at. f_equal.
    assert (E : ifft (g_nx c) (ifftshift (g_nx c) (fun _ : nat => c0)) a = c0) by apply ifft_zero. rewrite E. rewrite !scal_c0.
    destruct (g_speckle c) as [e|]; [rewrite mul_c0_l, mul_c0_r; reflexivity|rewrite mul_c0_r; reflexivity].
  - eexists. split; [reflexivity|]. intros a b. cbv beta. rewrite swell_val by auto. unfold k_index, mode.
    rewrite (sum_modes (g_nx c) (w_n w) (fun q => l_amp c (w_dw w q) (It q b) (Ph q b) t) (fun q => round_half_even (k0_of c (w_dw w q) / ldk c)) a Hn).
    unfold speckle_at. f_equal. destruct (g_speckle c) as [e|]; generalize (csum (w_n w) (fun q => cmul (l_amp c (w_dw w q) (It q b) (Ph q b) t) (cis (angleZ (g_nx c) (round_half_even (k0_of c (w_dw w q) / ldk c)) a)))).
    + generalize (e t b). intros; cxr.
    + intros; cxr.
Qed.
(** The pump is, at every cell below the critical density, the sum over the colours of a plane wave along x with the colour's intensity,
    phase and frequency offset, whose wavenumber is the periodic one nearest to the colour's own, swollen by (1 - n)^(-1/4), times the
    speckle envelope of the row. *)
Definition nearest (c : lcfg) (dw : R) (m : Z) : Prop := Rabs (IZR m * ldk c - k0_of c dw) <= ldk c / 2.
Theorem C98_field : forall c t w It Ph, lok c -> w_int w = Rows It -> w_ph w = Rows Ph ->
  exists (F : nat -> nat -> option cplx) (m : nat -> Z), laser_update c t w = Some F /\ (forall q, nearest c (w_dw w q) (m q)) /\
   forall a b, F a b = Some (cmul (speckle_at c t b) (csum (w_n w) (fun q =>
     cscal (g_E0 c * sqrt (It q b) * Rpower (1 - g_bg c a b) (- (1 / 4)))
       (cis (IZR (m q) * ldk c * (INR a * g_dx c) - k0_of c (w_dw w q) * (INR (g_nx c) * g_dx c / 2) - w_dw w q * g_w0 c * t + Ph q b))))).
Proof.
  intros c t w It Ph O HI HP. pose proof O as (Hn & Dx & W & C & B). destruct (update_val c t w It Ph O HI HP) as (F & E & V).
  pose proof (lt_0_INR _ Hn) as N. pose proof PI_RGT_0. assert (D : 0 < ldk c) by (unfold ldk; apply Rdiv_lt_0_compat; nra).
  exists F, (fun q => mode c (w_dw w q)). split; [exact E|]. split.
  - intros q. unfold nearest, mode. pose proof (round_spec (k0_of c (w_dw w q) / ldk c)) as RS. set (z := IZR (round_half_even (k0_of c (w_dw w q) / ldk c))) in *.
    replace (z * ldk c - k0_of c (w_dw w q)) with (- (ldk c * (k0_of c (w_dw w q) / ldk c - z))) by (field; lra). rewrite Rabs_Ropp, Rabs_mult, (Rabs_right (ldk c)) by lra. nra.
  - intros a b. rewrite V. f_equal. f_equal. rewrite <- csum_scal. apply csum_ext. intros q _. unfold l_amp, lLx.
    replace (IZR (mode c (w_dw w q)) * ldk c * (INR a * g_dx c) - k0_of c (w_dw w q) * (INR (g_nx c) * g_dx c / 2) - w_dw w q * g_w0 c * t + Ph q b)
      with (- (w_dw w q * g_w0 c * t - (Ph q b - INR (g_nx c) * g_dx c / 2 * k0_of c (w_dw w q))) + angleZ (g_nx c) (mode c (w_dw w q)) a) by (unfold angleZ, ldk; field; lra).
    rewrite cis_add. generalize (cis (- (w_dw w q * g_w0 c * t - (Ph q b - INR (g_nx c) * g_dx c / 2 * k0_of c (w_dw w q))))) (cis (angleZ (g_nx c) (mode c (w_dw w q)) a)). intros; cxr.
Qed.
Print Assumptions C98_field.

(* ------------------------------------------------------------------------------------------------ *)
(** * Intensity *)
Lemma swell_sq r : 0 < r -> Rpower r (- (1 / 4)) ^ 2 * sqrt r = 1.
Proof.
  intros H. rewrite <- (Rpower_sqrt r H). replace (Rpower r (- (1 / 4)) ^ 2) with (Rpower r (- (1 / 4) + - (1 / 4))) by (rewrite Rpower_plus; ring).
  rewrite <- Rpower_plus. replace (- (1 / 4) + - (1 / 4) + / 2) with 0 by lra. apply Rpower_O; auto.
Qed.
Lemma cabs2_mul a b : cabs2 (cmul a b) = cabs2 a * cabs2 b.
Proof. destruct a, b. unfold cabs2, cmul. cbn [fst snd]. ring. Qed.
Lemma amp_abs c dw i p t : 0 <= i -> cabs2 (l_amp c dw i p t) = g_E0 c ^ 2 * i.
Proof. intros H. unfold l_amp. rewrite cabs2_scal, cabs2_cis, Rpow_mult_distr. replace (sqrt i ^ 2) with i by (cbn; rewrite Rmult_1_r; symmetry; apply sqrt_sqrt; auto). ring. Qed.
(** One colour: the energy flux |E|^2 sqrt(1 - n) is E0^2 times the colour's intensity at every cell and every time, whatever the density
    profile, the phase and the wavenumber. *)
Theorem C98_single : forall c t w It Ph, lok c -> w_n w = 1%nat -> w_int w = Rows It -> w_ph w = Rows Ph -> (forall b, 0 <= It 0%nat b) ->
  exists F, laser_update c t w = Some F /\ forall a b, exists z, F a b = Some z /\ cabs2 z * sqrt (1 - g_bg c a b) = g_E0 c ^ 2 * It 0%nat b * cabs2 (speckle_at c t b).
Proof.
  intros c t w It Ph O H1 HI HP Pos. destruct (update_val c t w It Ph O HI HP) as (F & E & V). exists F. split; [exact E|].
  intros a b. eexists. split; [apply V|]. pose proof O as (_ & _ & _ & _ & B). specialize (B a b). rewrite H1. cbn [csum].
  rewrite cabs2_mul, cabs2_scal. replace (cadd c0 (cmul (l_amp c (w_dw w 0%nat) (It 0%nat b) (Ph 0%nat b) t) (cis (angleZ (g_nx c) (mode c (w_dw w 0%nat)) a)))) with (cmul (l_amp c (w_dw w 0%nat) (It 0%nat b) (Ph 0%nat b) t) (cis (angleZ (g_nx c) (mode c (w_dw w 0%nat)) a)))
    by (generalize (cmul (l_amp c (w_dw w 0%nat) (It 0%nat b) (Ph 0%nat b) t) (cis (angleZ (g_nx c) (mode c (w_dw w 0%nat)) a))); intros; cxr).
  rewrite cabs2_mul, amp_abs, cabs2_cis by auto.
  pose proof (swell_sq (1 - g_bg c a b) ltac:(lra)) as S. set (s := Rpower (1 - g_bg c a b) (- (1 / 4)) ^ 2) in *. 
  transitivity (cabs2 (speckle_at c t b) * (g_E0 c ^ 2 * It 0%nat b) * (s * sqrt (1 - g_bg c a b))); [ring|rewrite S; ring].
Qed.
Print Assumptions C98_single.
Lemma norm_modes n N (A : nat -> cplx) (M : nat -> Z) : (0 < n)%nat -> (forall p q, (p < N)%nat -> (q < N)%nat -> p <> q -> ((M p - M q) mod Z.of_nat n <> 0)%Z) ->
  rsum n (fun a => cabs2 (csum N (fun q => cmul (A q) (cis (angleZ n (M q) a))))) = INR n * rsum N (fun q => cabs2 (A q)).
Proof.
  intros Hn D.
  assert (G : csum n (fun a => cmul (csum N (fun q => cmul (A q) (cis (angleZ n (M q) a)))) (conj (csum N (fun q => cmul (A q) (cis (angleZ n (M q) a)))))) = csum N (fun q => cscal (INR n) (cmul (A q) (conj (A q))))).
  { rewrite (csum_ext n _ (fun a => csum N (fun q => csum N (fun r => cmul (cmul (A q) (conj (A r))) (cis (angleZ n (M q - M r) a)))))).
    - rewrite csum_swap. apply csum_ext. intros q Hq. rewrite csum_swap. rewrite (csum_single N q); auto.
      + rewrite csum_mul, char_sum by auto. rewrite Z.sub_diag, Zmod_0_l. cbn [Z.eqb]. generalize (A q). intros; cxr.
      + intros r Hr Ne. rewrite csum_mul, char_sum by auto. destruct (Z.eqb_spec ((M q - M r) mod Z.of_nat n) 0) as [Q|Q]; [exfalso; revert Q; apply D; auto|]. generalize (A q) (A r). intros; cxr.
    - intros a _. rewrite <- csum_mul_r. apply csum_ext. intros q _. rewrite csum_conj, <- csum_mul. apply csum_ext. intros r _.
      replace (angleZ n (M q - M r) a) with (angleZ n (M q) a + - angleZ n (M r) a) by (unfold angleZ; rewrite minus_IZR; unfold Rdiv; ring).
      rewrite cis_add, cis_neg. generalize (A q) (A r) (cis (angleZ n (M q) a)) (cis (angleZ n (M r) a)). intros; cxr. }
  assert (P : forall z, fst (cmul z (conj z)) = cabs2 z) by (intros [x y]; unfold cmul, conj, cabs2; cbn [fst snd]; ring).
  apply (f_equal fst) in G. rewrite !csum_fst in G.
  transitivity (rsum n (fun a => fst (cmul (csum N (fun q => cmul (A q) (cis (angleZ n (M q) a)))) (conj (csum N (fun q => cmul (A q) (cis (angleZ n (M q) a)))))))).
  - apply rsum_ext. intros a _. rewrite P. reflexivity.
  - rewrite G, <- rsum_scal. apply rsum_ext. intros q _. unfold cscal. cbn [fst]. rewrite P. reflexivity.
Qed.
Definition flux (c : lcfg) (F : nat -> nat -> option cplx) (a b : nat) : R := match F a b with Some z => cabs2 z * sqrt (1 - g_bg c a b) | None => 0 end.
Lemma flux_sum c t w It Ph F b : lok c -> w_int w = Rows It -> w_ph w = Rows Ph -> laser_update c t w = Some F ->
  forall a, flux c F a b = cabs2 (speckle_at c t b) * cabs2 (csum (w_n w) (fun q => cmul (l_amp c (w_dw w q) (It q b) (Ph q b) t) (cis (angleZ (g_nx c) (mode c (w_dw w q)) a)))).
Proof.
  intros O HI HP E a. destruct (update_val c t w It Ph O HI HP) as (F' & E' & V). rewrite E in E'. injection E' as <-.
  unfold flux. rewrite V, cabs2_mul, cabs2_scal. pose proof O as (_ & _ & _ & _ & B). specialize (B a b).
  pose proof (swell_sq (1 - g_bg c a b) ltac:(lra)) as S. set (s := Rpower (1 - g_bg c a b) (- (1 / 4)) ^ 2) in *.
  match goal with |- ?x * (s * ?y) * ?r = _ => transitivity (x * y * (s * r)); [ring|rewrite S; ring] end.
Qed.
(** Any number of colours on different grid modes: the flux averaged over x is E0^2 times the sum of the intensities, at every time. *)
Theorem C98_mean : forall c t w It Ph F b, lok c -> w_int w = Rows It -> w_ph w = Rows Ph -> laser_update c t w = Some F ->
  (forall q, (q < w_n w)%nat -> 0 <= It q b) ->
  (forall p q, (p < w_n w)%nat -> (q < w_n w)%nat -> p <> q -> ((mode c (w_dw w p) - mode c (w_dw w q)) mod Z.of_nat (g_nx c) <> 0)%Z) ->
  rsum (g_nx c) (fun a => flux c F a b) / INR (g_nx c) = g_E0 c ^ 2 * rsum (w_n w) (fun q => It q b) * cabs2 (speckle_at c t b).
Proof.
  intros c t w It Ph F b O HI HP E Pos D. pose proof O as (Hn & _). pose proof (lt_0_INR _ Hn).
  rewrite (rsum_ext (g_nx c) _ _ (fun a _ => flux_sum c t w It Ph F b O HI HP E a)). rewrite rsum_scal.
  rewrite (norm_modes (g_nx c) (w_n w) (fun q => l_amp c (w_dw w q) (It q b) (Ph q b) t) (fun q => mode c (w_dw w q)) Hn D).
  rewrite (rsum_ext (w_n w) _ (fun q => g_E0 c ^ 2 * It q b)) by (intros q Hq; apply amp_abs; auto). rewrite rsum_scal. field. lra.
Qed.
Print Assumptions C98_mean.
(** Two colours closer than the mode spacing share a grid mode, and then the sum rule is false: the flux, uniform over the box, beats between 0
    and twice the nominal one for two equal colours. *)
Theorem C98_mean_refuted : forall c t w It Ph F a b, lok c -> w_n w = 2%nat -> w_int w = Rows It -> w_ph w = Rows Ph -> laser_update c t w = Some F ->
  mode c (w_dw w 0%nat) = mode c (w_dw w 1%nat) -> 0 <= It 0%nat b -> 0 <= It 1%nat b ->
  flux c F a b = cabs2 (speckle_at c t b) * (g_E0 c ^ 2 * (It 0%nat b + It 1%nat b + 2 * sqrt (It 0%nat b * It 1%nat b) *
     cos ((w_dw w 0%nat - w_dw w 1%nat) * g_w0 c * t - (Ph 0%nat b - Ph 1%nat b) + lLx c / 2 * (k0_of c (w_dw w 0%nat) - k0_of c (w_dw w 1%nat))))).
Proof.
  intros c t w It Ph F a b O H2 HI HP E M P0 P1. rewrite (flux_sum c t w It Ph F b O HI HP E a). f_equal. rewrite H2. cbn [csum]. rewrite <- M.
  unfold l_amp. set (X := cis (angleZ (g_nx c) (mode c (w_dw w 0%nat)) a)).
  set (p := - (w_dw w 0%nat * g_w0 c * t - (Ph 0%nat b - lLx c / 2 * k0_of c (w_dw w 0%nat)))). set (q := - (w_dw w 1%nat * g_w0 c * t - (Ph 1%nat b - lLx c / 2 * k0_of c (w_dw w 1%nat)))).
  replace ((w_dw w 0%nat - w_dw w 1%nat) * g_w0 c * t - (Ph 0%nat b - Ph 1%nat b) + lLx c / 2 * (k0_of c (w_dw w 0%nat) - k0_of c (w_dw w 1%nat))) with (q - p) by (unfold p, q; ring).
  rewrite sqrt_mult by auto. set (u := sqrt (It 0%nat b)). set (v := sqrt (It 1%nat b)).
  assert (U : It 0%nat b = u ^ 2) by (unfold u; cbn; rewrite Rmult_1_r; symmetry; apply sqrt_sqrt; auto).
  assert (V : It 1%nat b = v ^ 2) by (unfold v; cbn; rewrite Rmult_1_r; symmetry; apply sqrt_sqrt; auto).
  rewrite U, V. rewrite cos_minus.
  transitivity (cabs2 X * (g_E0 c ^ 2 * ((u * cos p + v * cos q) ^ 2 + (u * sin p + v * sin q) ^ 2))).
  - generalize X. intros [x y]. unfold cabs2, cadd, cmul, cscal, c0, cis. cbn [fst snd]. ring.
  - unfold X. rewrite cabs2_cis. pose proof (sin2_cos2 p) as S1. pose proof (sin2_cos2 q) as S2. unfold Rsqr in S1, S2.
    transitivity (g_E0 c ^ 2 * (u ^ 2 * (sin p * sin p + cos p * cos p) + v ^ 2 * (sin q * sin q + cos q * cos q) + 2 * (u * v) * (cos q * cos p + sin q * sin p))); [ring|rewrite S1, S2; ring].
Qed.
Print Assumptions C98_mean_refuted.
(** At and above the critical density there is no finite pump at any time; the configuration "uniform" sets the density to exactly that. *)
Theorem C98_critical_refuted : forall c t w F a b, 0 < g_w0 c -> 1 <= g_bg c a b -> laser_update c t w = Some F -> F a b = None.
Proof.
  intros c t w F a b W B E. unfold laser_update in E. destruct (l_spectrum c w t); [|discriminate]. injection E as <-. unfold swell.
  replace (1 - (g_w0 c * sqrt (g_bg c a b)) ^ 2 / g_w0 c ^ 2) with (1 - g_bg c a b).
  - destruct (Rlt_dec 0 (1 - g_bg c a b)); [lra|reflexivity].
  - rewrite Rpow_mult_distr. replace (sqrt (g_bg c a b) ^ 2) with (g_bg c a b) by (cbn; rewrite Rmult_1_r; symmetry; apply sqrt_sqrt; lra). field. lra.
Qed.
Print Assumptions C98_critical_refuted.
