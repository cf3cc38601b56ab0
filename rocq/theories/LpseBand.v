(** Property C98, continued: the drivers, the pump as seen by the two-plasmon source, and aliasing. *)
From Coq Require Import Reals Lra Lia ZArith List Bool Psatz.
From Verif Require Import RSum Pic PicProofs PicFourier PicLoadProofs VGrid Lpse LpseFft LpseProps LpseTpd LpseLaser LpseLaserProps Dft.
Local Open Scope R_scope.

(* ------------------------------------------------------------------------------------------------ *)
(** * Drivers *)
Lemma weight_pos s dmax n i : 0 < dmax -> 0 < d_weight s dmax n i.
Proof.
  intros H. pose proof PI_RGT_0. assert (0 < ln 2) by (rewrite <- ln_1; apply ln_increasing; lra). assert (0 < sqrt PI) by (apply sqrt_lt_R0; auto).
  destruct s; unfold d_weight; [lra| |].
  - apply Rmult_lt_0_compat; [|apply exp_pos]. apply Rdiv_lt_0_compat; auto. apply Rdiv_lt_0_compat; lra.
  - pose proof (pow2_ge_0 (d_omega dmax n i)). assert (0 < (dmax / 2) ^ 2) by (apply pow_lt; lra).
    apply Rdiv_lt_0_compat; [|lra]. apply Rmult_lt_0_compat; [|lra]. apply Rdiv_lt_0_compat; lra.
Qed.
Lemma omega_mirror dmax n i : (2 <= n)%nat -> (i < n)%nat -> d_omega dmax n (n - 1 - i) = - d_omega dmax n i.
Proof.
  intros H Hi. unfold d_omega, linspace. destruct (Nat.leb_spec n 1); [lia|]. rewrite !minus_INR by lia. change (INR 1) with 1.
  assert (2 <= INR n) by (change 2 with (INR 2); apply le_INR; auto). field. lra.
Qed.
(** Uniform, Gaussian and Lorentzian drivers: every colour has a positive share, the shares of a row add up to one, offsets and shares are
    symmetric about the laser frequency, and the full width at half maximum of the two shaped spectra is delta_omega_max. *)
Theorem C98_driver : forall s dmax n draw, (2 <= n)%nat -> 0 < dmax ->
  exists share ph, w_int (drive s dmax n draw) = Rows (fun i _ => share i) /\ w_ph (drive s dmax n draw) = Rows (fun i _ => ph i) /\
  rsum n share = 1 /\ (forall i, 0 < share i) /\
  (forall i, (i < n)%nat -> w_dw (drive s dmax n draw) (n - 1 - i)%nat = - w_dw (drive s dmax n draw) i /\ share (n - 1 - i)%nat = share i) /\
  w_dw (drive s dmax n draw) 0%nat = - dmax /\ w_dw (drive s dmax n draw) (n - 1)%nat = dmax /\
  (forall i j, w_dw (drive s dmax n draw) i = 0 -> Rabs (w_dw (drive s dmax n draw) j) = dmax / 2 -> match s with Uniform => share j = share i | _ => share j = share i / 2 end) /\
  (forall i, -1 <= draw i <= 1 -> Rabs (ph i) <= 4 / 5 * PI).
Proof.
  intros s dmax n draw Hn Hd. set (share := normalized n (d_weight s dmax n)).
  assert (T : 0 < rsum n (d_weight s dmax n)) by (apply rsum_pos; [lia|intros; apply weight_pos; auto]).
  exists share, (fun i => tanh (draw i) * PI). split; [reflexivity|]. split; [reflexivity|]. cbn [drive w_dw].
  split; [|split; [|split; [|split; [|split; [|split]]]]].
  - unfold share, normalized. unfold Rdiv. rewrite rsum_scal_r. apply Rinv_r. lra.
  - intros i. apply Rdiv_lt_0_compat; auto. apply weight_pos; auto.
  - intros i Hi. rewrite (omega_mirror dmax n i Hn Hi). split; [reflexivity|]. unfold share, normalized. f_equal. unfold d_weight. rewrite (omega_mirror dmax n i Hn Hi).
    destruct s; [reflexivity| |].
    + f_equal. f_equal. f_equal. field. lra.
    + f_equal. ring.
  - unfold d_omega, linspace. destruct (Nat.leb_spec n 1); [lia|]. change (INR 0) with 0. unfold Rdiv. ring.
  - unfold d_omega, linspace. destruct (Nat.leb_spec n 1); [lia|]. field. apply not_0_INR. lia.
  - intros i j E0 E1. unfold share, normalized, d_weight. rewrite E0.
    assert (Q : d_omega dmax n j ^ 2 = (dmax / 2) ^ 2) by (rewrite <- E1, <- !Rsqr_pow2; apply Rsqr_abs).
    assert (LN : exp (- ln 2) = / 2) by (rewrite exp_Ropp, exp_ln; lra). assert (0 < sqrt PI) by (apply sqrt_lt_R0, PI_RGT_0).
    destruct s; [reflexivity| |].
    + replace (- 4 * ln 2 * (d_omega dmax n j / dmax) ^ 2) with (- ln 2).
      2: { unfold Rdiv. rewrite Rpow_mult_distr, Q. field. lra. }
      replace (-4 * ln 2 * (0 / dmax) ^ 2) with 0 by (field; lra). rewrite LN, exp_0. field. repeat split; try lra.
      change (rsum n (d_weight Gaussian dmax n) <> 0). lra.
    + rewrite Q. pose proof PI_RGT_0. match goal with |- _ / ?r = _ => set (tot := r) end. assert (0 < tot) by exact T. clearbody tot. field. repeat split; nra.
  - intros i Hi. rewrite Rabs_mult, (Rabs_right PI) by (pose proof PI_RGT_0; lra). apply Rmult_le_compat_r; [pose proof PI_RGT_0; lra|].
    unfold tanh, sinh, cosh. set (e := exp (draw i)). rewrite exp_Ropp. fold e. assert (0 < e) by apply exp_pos.
    assert (U : e <= 3). { eapply Rle_trans; [|apply exp_le_3]. unfold e. destruct (Rle_lt_or_eq_dec _ _ (proj2 Hi)) as [h|h]; [left; apply exp_increasing; auto|rewrite h; lra]. }
    assert (L : 1 <= 3 * e). { assert (exp (- draw i) <= 3). { eapply Rle_trans; [|apply exp_le_3]. destruct (Rle_lt_or_eq_dec (- draw i) 1 ltac:(lra)) as [h|h]; [left; apply exp_increasing; auto|rewrite h; lra]. }
      rewrite exp_Ropp in H0. fold e in H0. apply (Rmult_le_compat_r e) in H0; [|lra]. rewrite Rinv_l in H0 by lra. exact H0. }
    replace ((e - / e) / 2 / ((e + / e) / 2)) with ((e ^ 2 - 1) / (e ^ 2 + 1)) by (field; split; nra).
    apply Rabs_le. split.
    + apply (Rmult_le_reg_r (e ^ 2 + 1)); [nra|]. unfold Rdiv. rewrite (Rmult_assoc (e ^ 2 - 1)), Rinv_l by nra. assert (1 <= 9 * e ^ 2) by nra. lra.
    + apply (Rmult_le_reg_r (e ^ 2 + 1)); [nra|]. unfold Rdiv. rewrite (Rmult_assoc (e ^ 2 - 1)), Rinv_l by nra. assert (e ^ 2 <= 9) by nra. lra.
Qed.
Print Assumptions C98_driver.
(** With one colour the laser is not at its nominal frequency: its offset is -delta_omega_max. *)
Theorem C98_one_color_refuted : forall s dmax draw, w_dw (drive s dmax 1 draw) 0%nat = - dmax.
Proof. intros. reflexivity. Qed.
Print Assumptions C98_one_color_refuted.
Lemma tanh_lt x : -1 < tanh x < 1.
Proof.
  unfold tanh, sinh, cosh. pose proof (exp_pos x). pose proof (exp_pos (- x)). set (p := exp x) in *. set (q := exp (- x)) in *.
  replace ((p - q) / 2 / ((p + q) / 2)) with ((p - q) / (p + q)) by (field; lra). split.
  - apply (Rmult_lt_reg_r (p + q)); [lra|]. unfold Rdiv. rewrite Rmult_assoc, Rinv_l by lra. lra.
  - apply (Rmult_lt_reg_r (p + q)); [lra|]. unfold Rdiv. rewrite Rmult_assoc, Rinv_l by lra. lra.
Qed.
Lemma Rpower_10 z : Rpower 10 z = exp (z * ln 10). Proof. reflexivity. Qed.
(** The shares of the arbitrary driver are positive, add up to one, and stay within the dynamic range of its activation. *)
Theorem C98_arbitrary : forall a n amps, (0 < n)%nat ->
  let share := normalized n (fun i => scale_int a (amps i)) in rsum n share = 1 /\ (forall i, 0 < share i) /\
  match a with ALinear => True | ALog => forall i j, share i <= 10 ^ 6 * share j | ALog3 => forall i j, share i <= 10 ^ 3 * share j end.
Proof.
  intros a n amps Hn share.
  assert (P : forall i, 0 < scale_int a (amps i)). { intros i. pose proof (tanh_lt (amps i)). destruct a; unfold scale_int; [lra|apply exp_pos|apply exp_pos]. }
  assert (T : 0 < rsum n (fun i => scale_int a (amps i))) by (apply rsum_pos; auto).
  split; [unfold share, normalized, Rdiv; rewrite rsum_scal_r; apply Rinv_r; lra|]. split; [intros i; apply Rdiv_lt_0_compat; auto|].
  assert (G : forall k, (forall i j, scale_int a (amps i) <= Rpower 10 (INR k) * scale_int a (amps j)) -> forall i j, share i <= 10 ^ k * share j).
  { intros k H i j. rewrite <- Rpower_pow by lra. unfold share, normalized. unfold Rdiv. rewrite <- Rmult_assoc. apply Rmult_le_compat_r; [apply Rlt_le, Rinv_0_lt_compat; auto|apply H]. }
  assert (M : forall u v, u <= v -> Rpower 10 u <= Rpower 10 v) by (intros; apply Rle_Rpower; lra).
  destruct a; [exact Logic.I| |]; apply G; intros i j; unfold scale_int; rewrite <- Rpower_plus; apply M; pose proof (tanh_lt (amps i)); pose proof (tanh_lt (amps j)).
  - replace (INR 6) with 6 by (cbn; ring). lra.
  - replace (INR 3) with 3 by (cbn; ring). lra.
Qed.
Print Assumptions C98_arbitrary.
(** But a run with it fails at the first evaluation of the pump: its arrays have one dimension and the pump reads two. *)
Theorem C98_arbitrary_refuted : forall c t a dmax n amps draw, (0 < n)%nat -> laser_update c t (drive_arbitrary a dmax n amps draw) = None.
Proof. intros c t a dmax n amps draw H. unfold laser_update, l_spectrum. cbn [drive_arbitrary w_n w_int]. destruct (Nat.eqb_spec n 0); [lia|reflexivity]. Qed.
Print Assumptions C98_arbitrary_refuted.
(** The three working drivers deliver the nominal flux whatever the bandwidth, as long as their colours fall on different grid modes. *)
Theorem C98_nominal : forall c t s dmax n draw F b, lok c -> (2 <= n)%nat -> 0 < dmax -> laser_update c t (drive s dmax n draw) = Some F ->
  (forall p q, (p < n)%nat -> (q < n)%nat -> p <> q -> ((mode c (d_omega dmax n p) - mode c (d_omega dmax n q)) mod Z.of_nat (g_nx c) <> 0)%Z) ->
  rsum (g_nx c) (fun a => flux c F a b) / INR (g_nx c) = g_E0 c ^ 2 * cabs2 (speckle_at c t b).
Proof.
  intros c t s dmax n draw F b O Hn Hd E D. destruct (C98_driver s dmax n draw Hn Hd) as (share & ph & HI & HP & S & P & _).
  rewrite (C98_mean c t (drive s dmax n draw) (fun i _ => share i) (fun i _ => ph i) F b O HI HP E).
  - change (w_n (drive s dmax n draw)) with n. cbv beta. replace (rsum n (fun q => share q)) with 1 by (symmetry; exact S). ring.
  - intros q _. apply Rlt_le, P.
  - exact D.
Qed.
Print Assumptions C98_nominal.

(* ------------------------------------------------------------------------------------------------ *)
(** * The pump in the two-plasmon source *)
(** One colour in a uniform density without speckle is the plane pump of the two-plasmon theorems. *)
Theorem C98_plane : forall e c t co w It Ph N, lok c -> w_n w = 1%nat -> w_int w = Rows It -> w_ph w = Rows Ph -> g_speckle c = None -> (forall a b, g_bg c a b = N) ->
  (forall b b', It 0%nat b = It 0%nat b' /\ Ph 0%nat b = Ph 0%nat b') -> e_nx e = g_nx c -> e_ny e = g_ny c ->
  exists F A, laser_update c t w = Some F /\ plane e A (mode c (w_dw w 0%nat)) (fun a b => match F a b with Some z => cscal co z | None => c0 end).
Proof.
  intros e c t co w It Ph N O H1 HI HP Sp U Ub Ex Ey. destruct (update_val c t w It Ph O HI HP) as (F & E & V).
  exists F, (cscal (co * Rpower (1 - N) (- (1 / 4))) (l_amp c (w_dw w 0%nat) (It 0%nat 0%nat) (Ph 0%nat 0%nat) t)). split; [exact E|].
  intros a b _. cbv beta. rewrite V, H1. cbn [csum]. unfold speckle_at. rewrite Sp, U, Ex. destruct (Ub b 0%nat) as [-> ->].
  generalize (l_amp c (w_dw w 0%nat) (It 0%nat 0%nat) (Ph 0%nat 0%nat) t) (cis (angleZ (g_nx c) (mode c (w_dw w 0%nat)) a)). intros; cxr.
Qed.
Print Assumptions C98_plane.

(** The band keeps factors between 0 and 1. *)
Lemma low_pass_bounds f nx ny dx dy i j : 0 <= low_pass f nx ny dx dy i j <= 1.
Proof.
  unfold low_pass. repeat match goal with |- context [Rle_dec ?a ?b] => destruct (Rle_dec a b) | |- context [Rlt_dec ?a ?b] => destruct (Rlt_dec a b) end; try lra.
  match goal with |- context [cos ?x] => pose proof (COS_bound x) end. lra.
Qed.
Theorem C98_band : forall f nx ny dx dy i j v, band f nx ny dx dy i j = Some v -> 0 <= v <= 1 /\ (0 < f_cut f * kmax nx dx -> f_cut f * kmax nx dx <= k_mag nx ny dx dy i j -> v = 0) /\
  (f_shifted f = true -> v <> 0 -> Rabs (kx nx dx i) + f_kxp f <= knyq nx dx /\ Rabs (kx ny dy j) + f_kyp f <= knyq ny dy).
Proof.
  intros f nx ny dx dy i j v H. assert (Z : 0 < f_cut f * kmax nx dx -> f_cut f * kmax nx dx <= k_mag nx ny dx dy i j -> low_pass f nx ny dx dy i j = 0).
  { intros A B. unfold low_pass. destruct (Rle_dec (f_cut f * kmax nx dx) 0); [lra|]. destruct (Rle_dec (f_taper f) 0).
    - destruct (Rlt_dec (k_mag nx ny dx dy i j) (f_cut f * kmax nx dx)); [lra|reflexivity].
    - destruct (Rle_dec (f_cut f * kmax nx dx) (k_mag nx ny dx dy i j)); [reflexivity|lra]. }
  unfold band in H. destruct (f_shifted f).
  - destruct (Rle_dec (knyq nx dx - f_kxp f) 0); [discriminate|]. destruct (Rle_dec (knyq ny dy - f_kyp f) 0); [discriminate|]. injection H as <-.
    destruct (Rle_dec (Rabs (kx nx dx i)) (knyq nx dx - f_kxp f)); [destruct (Rle_dec (Rabs (kx ny dy j)) (knyq ny dy - f_kyp f))|].
    + split; [apply low_pass_bounds|]. split; [exact Z|]. intros; split; lra.
    + split; [lra|]. split; [auto|]. intros; congruence.
    + split; [lra|]. split; [auto|]. intros; congruence.
  - injection H as <-. split; [apply low_pass_bounds|]. split; [exact Z|]. discriminate.
Qed.
Print Assumptions C98_band.
Lemma kx_wrap_sq n dx z : (0 < n)%nat -> 0 < dx -> (2 * Z.abs z <= Z.of_nat n)%Z -> kx n dx (wrap n z) ^ 2 = (IZR z * (2 * PI / (INR n * dx))) ^ 2.
Proof.
  intros Hn Dx H. pose proof (lt_0_INR n Hn). unfold kx, wrap. destruct (Z_le_gt_dec 0 z) as [P|P].
  - rewrite Z.mod_small by lia. rewrite INR_IZR_INZ, Z2Nat.id by lia. destruct (Nat.ltb_spec (2 * Z.to_nat z) n) as [L|L]; [field; lra|].
    assert (E : IZR z = INR n - IZR z). { rewrite INR_IZR_INZ, <- minus_IZR. apply f_equal. lia. }
    replace (IZR z - INR n) with (- IZR z) by lra. field. lra.
  - assert (M : (z mod Z.of_nat n = Z.of_nat n + z)%Z). { replace z with ((Z.of_nat n + z) + (-1) * Z.of_nat n)%Z at 1 by lia. rewrite Z_mod_plus_full, Z.mod_small by lia. reflexivity. }
    rewrite M. destruct (Nat.ltb_spec (2 * Z.to_nat (Z.of_nat n + z)) n) as [L|L]; [lia|].
    rewrite INR_IZR_INZ, Z2Nat.id by lia. rewrite plus_IZR, <- INR_IZR_INZ. field. lra.
Qed.
(** The signed mode number behind an index. *)
Definition signed (n i : nat) : Z := if Nat.ltb (2 * i) n then Z.of_nat i else (Z.of_nat i - Z.of_nat n)%Z.
Lemma kx_signed n dx i : kx n dx i = IZR (signed n i) * (2 * PI / (INR n * dx)).
Proof. unfold kx, signed. destruct (Nat.ltb (2 * i) n); [rewrite <- INR_IZR_INZ|rewrite minus_IZR, <- !INR_IZR_INZ]; unfold Rdiv; ring. Qed.
Lemma wrap_signed n m i : (0 < n)%nat -> wrap n (m - Z.of_nat i) = wrap n (m - signed n i).
Proof.
  intros H. unfold wrap, signed. f_equal. destruct (Nat.ltb (2 * i) n); [reflexivity|].
  replace (m - (Z.of_nat i - Z.of_nat n))%Z with ((m - Z.of_nat i) + 1 * Z.of_nat n)%Z by lia. rewrite Z_mod_plus_full. reflexivity.
Qed.
Lemma k0_mono c dw dmax : 0 < g_w0 c -> 0 < g_c c -> Rabs dw <= dmax -> dmax <= 1 -> 0 <= k0_of c dw <= k0_of c dmax.
Proof.
  intros W C H D. unfold k0_of. assert (0 < g_w0 c / g_c c) by (apply Rdiv_lt_0_compat; auto). apply Rabs_le_inv in H || (apply Rabs_def2 in H || idtac).
  split; [apply Rmult_le_pos; [lra|apply sqrt_pos]|]. apply Rmult_le_compat_l; [lra|]. apply sqrt_le_1_alt. assert (- dmax <= dw <= dmax) by (split; pose proof (Rle_abs dw); pose proof (Rle_abs (- dw)); rewrite ?Rabs_Ropp in *; lra). nra.
Qed.
(** With the shifted band no retained wave couples through the grid: for every retained wave and every colour of the driver, the daughter the
    source reads has the wavenumber k0 - k, and the two-plasmon coefficient is the one of the continuous problem. *)
Theorem C98_alias_free : forall e f c dmax dw t A phi E0y i j v, ok e -> lok c -> e_nx e = g_nx c -> e_dx e = g_dx c -> inside e i j -> (i, j) <> (0%nat, 0%nat) -> (2 * j <> e_ny e)%nat ->
  f_shifted f = true -> f_kxp f = pump_support c dmax -> Rabs dw <= dmax -> dmax <= 1 ->
  band f (e_nx e) (e_ny e) (e_dx e) (e_dy e) i j = Some v -> v <> 0 -> plane e A (mode c dw) E0y ->
  let k0 := IZR (mode c dw) * ldk c in let kk := ekx e i ^ 2 + eky e j ^ 2 in
  tpd_source e t phi (ey_of e phi) E0y i j =
  cscal (e_filter e i j * eky e j * ((k0 - ekx e i) ^ 2 + eky e j ^ 2 - kk) / kk) (cmul (0, 1) (cmul (pump_factor e t A) (conj (phi (mate_x e (mode c dw) i) (mate_y e j))))).
Proof.
  intros e f c dmax dw t A phi E0y i j v O L Nx Dx I N0 N2 Sh Kp Hd D1 B V P k0 kk. pose proof O as (Hx & Hy & Px & Py & _). destruct I as [Hi Hj]. pose proof L as (_ & _ & W & C & _).
  rewrite (C97_tpd e t A (mode c dw) phi E0y i j O (Logic.conj Hi Hj) N2 N0 P). f_equal. unfold kk. fold (ksq e i j). f_equal. f_equal. f_equal.
  unfold ksq at 1. f_equal.
  - unfold ekx at 1, mate_x. rewrite wrap_signed by auto. destruct (C98_band f _ _ _ _ i j v B) as (_ & _ & G). destruct (G Sh V) as [G1 _]. clear G.
    pose proof (k0_mono c dw dmax W C Hd D1) as KM. rewrite Kp in G1. unfold pump_support in G1. rewrite kx_signed in G1.
    pose proof (lt_0_INR _ Hx) as N. pose proof PI_RGT_0. assert (D : 0 < 2 * PI / (INR (e_nx e) * e_dx e)) by (apply Rdiv_lt_0_compat; nra).
    assert (DK : ldk c = 2 * PI / (INR (e_nx e) * e_dx e)) by (unfold ldk; rewrite Nx, Dx; reflexivity).
    assert (R : Rabs (IZR (mode c dw) * ldk c - k0_of c dw) <= ldk c / 2).
    { unfold mode. pose proof (round_spec (k0_of c dw / ldk c)) as RS. set (z := IZR (round_half_even (k0_of c dw / ldk c))) in *. rewrite DK in *.
      set (q := 2 * PI / (INR (e_nx e) * e_dx e)) in *. replace (z * q - k0_of c dw) with (- (q * (k0_of c dw / q - z))) by (field; lra). rewrite Rabs_Ropp, Rabs_mult, (Rabs_right q) by lra. nra. }
    rewrite DK in R. unfold knyq in G1. set (q := 2 * PI / (INR (e_nx e) * e_dx e)) in *. rewrite Rabs_mult, (Rabs_right q) in G1 by lra.
    set (m := mode c dw) in *. set (s := signed (e_nx e) i) in *.
    assert (Bd : (2 * Z.abs (m - s) <= Z.of_nat (e_nx e))%Z).
    { assert (Rabs (IZR m) <= k0_of c dmax / q + 1 / 2).
      { apply (Rmult_le_reg_r q); auto. replace ((k0_of c dmax / q + 1 / 2) * q) with (k0_of c dmax + q / 2) by (field; lra).
        rewrite <- (Rabs_right q) at 1 by lra. rewrite <- Rabs_mult. replace (IZR m * q) with ((IZR m * q - k0_of c dw) + k0_of c dw) by ring.
        eapply Rle_trans; [apply Rabs_triang|]. rewrite (Rabs_right (k0_of c dw)) by lra. lra. }
      assert (Rabs (IZR s) <= INR (e_nx e / 2) - k0_of c dmax / q).
      { apply (Rmult_le_reg_r q); auto. replace ((INR (e_nx e / 2) - k0_of c dmax / q) * q) with (INR (e_nx e / 2) * q - k0_of c dmax) by (field; lra). lra. }
      assert (T : IZR (Z.abs (m - s)) <= INR (e_nx e / 2) + 1 / 2).
      { rewrite abs_IZR, minus_IZR. eapply Rle_trans; [apply Rabs_triang|]. rewrite Rabs_Ropp. lra. }
      assert (T2 : (Z.abs (m - s) <= Z.of_nat (e_nx e / 2))%Z).
      { destruct (Z_le_gt_dec (Z.abs (m - s)) (Z.of_nat (e_nx e / 2))) as [h|h]; [exact h|]. assert (Z.of_nat (e_nx e / 2) + 1 <= Z.abs (m - s))%Z as h2 by lia. apply IZR_le in h2. rewrite plus_IZR, <- INR_IZR_INZ in h2. lra. }
      pose proof (Nat.div_mod (e_nx e) 2 ltac:(lia)). lia. }
    rewrite kx_wrap_sq by auto. fold q. unfold k0. rewrite DK. unfold ekx. rewrite kx_signed. fold q s. rewrite minus_IZR. ring.
  - rewrite eky_mate by (auto; lra). ring.
Qed.
Print Assumptions C98_alias_free.

(* ------------------------------------------------------------------------------------------------ *)
(** * A concrete box, and the isotropic filter *)
Lemma round_int z : round_half_even (IZR z) = z.
Proof.
  pose proof (round_spec (IZR z)) as H. rewrite <- minus_IZR in H. rewrite <- abs_IZR in H.
  destruct (Z.eq_dec (z - round_half_even (IZR z)) 0); [lia|]. assert (1 <= IZR (Z.abs (z - round_half_even (IZR z)))) by (apply IZR_le; lia). lra.
Qed.
(** 16 by 16 unit cells, a pump of exactly five wavelengths in the box at a quarter of the critical density. *)
Definition lbox : lcfg := {| g_nx := 16; g_ny := 16; g_dx := 1; g_c := sqrt 3 / 2; g_w0 := 5 * PI / 8; g_wp0 := 5 * PI / 16; g_E0 := 1; g_bg := fun _ _ => / 4; g_speckle := None |}.
Lemma lbox_k0 : k0_of lbox 0 = 5 * PI / 8.
Proof.
  unfold k0_of. cbn [g_w0 g_c g_wp0 lbox]. pose proof PI_RGT_0. assert (S : 0 < sqrt 3) by (apply sqrt_lt_R0; lra).
  replace ((1 + 0) ^ 2 - (5 * PI / 16) ^ 2 / (5 * PI / 8) ^ 2) with (3 / (2 * 2)) by (field; lra). rewrite sqrt_div by lra. rewrite sqrt_square by lra. field. lra.
Qed.
Lemma lbox_mode : mode lbox 0 = 5%Z.
Proof.
  unfold mode. rewrite lbox_k0. unfold ldk. cbn [g_nx g_dx lbox]. replace (INR 16) with 16 by (cbn; ring). replace (5 * PI / 8 / (2 * PI / (16 * 1))) with (IZR 5) by (field; apply Rgt_not_eq, PI_RGT_0). apply round_int.
Qed.
Lemma lbox_ok : lok lbox.
Proof. pose proof PI_RGT_0. assert (S : 0 < sqrt 3) by (apply sqrt_lt_R0; lra). unfold lok. cbn [g_nx g_dx g_w0 g_c g_bg lbox]. repeat split; try lra; lia. Qed.
Definition ebox (f : fcfg) : ecfg :=
  {| e_nx := 16; e_ny := 16; e_dx := 1; e_dy := 1; e_dt := / 100; e_wp0 := 5 * PI / 16; e_w0 := 5 * PI / 8; e_vte2 := / 10; e_e := 1; e_me := 1; e_nu := 0; e_env := / 4; e_bg := fun _ _ => / 4;
     e_bound := fun _ _ => 1; e_filter := fun i j => match band f 16 16 1 1 i j with Some v => v | None => 0 end; e_tpd := true; e_noise_on := false; e_noise := fun _ _ _ => 0; e_grad := false; e_srs := false; e_hyper := None |}.
Lemma ebox_ok f : ok (ebox f).
Proof.
  pose proof PI_RGT_0. unfold ok. cbn [e_nx e_ny e_dx e_dy e_dt e_wp0 e_vte2 e_nu e_filter e_bound ebox]. repeat split; try lra; try lia; destruct (band f 16 16 1 1 i j) eqn:E; try lra; apply (C98_band _ _ _ _ _ _ _ _ E).
Qed.
Definition pump16 : cfield := fun a _ => cis (angleZ 16 5 a).
Lemma pump16_plane f : plane (ebox f) c1 5 pump16.
Proof. intros a b _. unfold pump16. cbn [e_nx ebox]. generalize (cis (angleZ 16 5 a)). intros; cxr. Qed.
Lemma kx16 i : kx 16 1 i = IZR (signed 16 i) * (PI / 8).
Proof. rewrite kx_signed. replace (INR 16) with 16 by (cbn; ring). field. Qed.
Definition shifted : fcfg := {| f_cut := 0; f_taper := 0; f_kxp := pump_support lbox 0; f_kyp := 0; f_shifted := true |}.
Example alias_free_case : exists v, band shifted 16 16 1 1 2 1 = Some v /\ v <> 0 /\ inside (ebox shifted) 2 1 /\ f_kxp shifted = pump_support lbox 0 /\ plane (ebox shifted) c1 (mode lbox 0) pump16 /\ lok lbox /\ ok (ebox shifted).
Proof.
  exists 1. pose proof PI_RGT_0. split; [|split; [lra|split; [split; cbn; lia|split; [reflexivity|split; [|split; [apply lbox_ok|apply ebox_ok]]]]]].
  - unfold band. cbn [f_shifted shifted f_kxp f_kyp]. unfold pump_support. rewrite lbox_k0. unfold knyq. change (16 / 2)%nat with 8%nat. replace (INR 8) with 8 by (cbn; ring). replace (INR 16) with 16 by (cbn; ring).
    rewrite !kx16. change (signed 16 2) with 2%Z. change (signed 16 1) with 1%Z. rewrite !Rabs_right by nra.
    destruct (Rle_dec (8 * (2 * PI / (16 * 1)) - 5 * PI / 8) 0); [lra|]. destruct (Rle_dec (8 * (2 * PI / (16 * 1)) - 0) 0); [lra|].
    destruct (Rle_dec (2 * (PI / 8)) (8 * (2 * PI / (16 * 1)) - 5 * PI / 8)); [|lra]. destruct (Rle_dec (1 * (PI / 8)) (8 * (2 * PI / (16 * 1)) - 0)); [|lra].
    unfold low_pass. cbn [f_cut shifted]. destruct (Rle_dec (0 * kmax 16 1) 0); [reflexivity|lra].
  - rewrite lbox_mode. apply pump16_plane.
Qed.
(** The default, isotropic filter is not alias free, even well below the grid's largest wavenumber: at nine tenths of it, a wave that does not
    add up with its source to the pump is driven through the periodicity of the grid. *)
Definition isotropic : fcfg := {| f_cut := 9 / 10; f_taper := 0; f_kxp := pump_support lbox 0; f_kyp := 0; f_shifted := false |}.
Lemma iso_keep i j : IZR (signed 16 i) ^ 2 + IZR (signed 16 j) ^ 2 <= 37 -> band isotropic 16 16 1 1 i j = Some 1.
Proof.
  intros H. pose proof PI_RGT_0. unfold band. cbn [f_shifted isotropic]. f_equal. unfold low_pass. cbn [f_cut f_taper isotropic]. unfold kmax. change ((16 - 1) / 2)%nat with 7%nat. replace (INR 7) with 7 by (cbn; ring). replace (INR 16) with 16 by (cbn; ring).
  destruct (Rle_dec (9 / 10 * (7 * (2 * PI / (16 * 1)))) 0); [lra|]. destruct (Rle_dec 0 0); [|lra].
  destruct (Rlt_dec (k_mag 16 16 1 1 i j) (9 / 10 * (7 * (2 * PI / (16 * 1))))) as [|N]; [reflexivity|]. exfalso. apply N. clear N.
  unfold k_mag. rewrite !kx16. rewrite <- (sqrt_pow2 (9 / 10 * (7 * (2 * PI / (16 * 1))))) by lra. apply sqrt_lt_1_alt. split.
  - pose proof (pow2_ge_0 (IZR (signed 16 i) * (PI / 8))). pose proof (pow2_ge_0 (IZR (signed 16 j) * (PI / 8))). lra.
  - replace ((IZR (signed 16 i) * (PI / 8)) ^ 2 + (IZR (signed 16 j) * (PI / 8)) ^ 2) with ((IZR (signed 16 i) ^ 2 + IZR (signed 16 j) ^ 2) * (PI / 8) ^ 2) by ring.
    assert (0 < (PI / 8) ^ 2) by (apply pow_lt; lra). replace ((9 / 10 * (7 * (2 * PI / (16 * 1)))) ^ 2) with (3969 / 100 * (PI / 8) ^ 2) by field. nra.
Qed.
Theorem C98_isotropic_refuted : exists e f c E0y phi i j k l, ok e /\ lok c /\ f_shifted f = false /\ f_cut f < 1 /\ (forall p q, band f (e_nx e) (e_ny e) (e_dx e) (e_dy e) p q = Some (e_filter e p q)) /\
  inside e i j /\ inside e k l /\ e_filter e i j = 1 /\ e_filter e k l = 1 /\ plane e c1 (mode c 0) E0y /\
  (forall p q, (p, q) <> (k, l) -> phi p q = c0) /\ tpd_source e 0 phi (ey_of e phi) E0y i j <> c0 /\ ekx e i + ekx e k <> IZR (mode c 0) * ldk c.
Proof.
  set (phi := fun p q => if ((p =? 11) && (q =? 15))%nat then c1 else c0).
  exists (ebox isotropic), isotropic, lbox, pump16, phi, 10%nat, 1%nat, 11%nat, 15%nat. pose proof PI_RGT_0.
  assert (S1 : signed 16 10 = (-6)%Z) by reflexivity. assert (S2 : signed 16 1 = 1%Z) by reflexivity. assert (S3 : signed 16 11 = (-5)%Z) by reflexivity. assert (S4 : signed 16 15 = (-1)%Z) by reflexivity.
  assert (B1 : band isotropic 16 16 1 1 10 1 = Some 1) by (apply iso_keep; rewrite S1, S2; lra). assert (B2 : band isotropic 16 16 1 1 11 15 = Some 1) by (apply iso_keep; rewrite S3, S4; lra).
  assert (I1 : inside (ebox isotropic) 10 1) by (split; cbn; lia).
  split; [apply ebox_ok|]. split; [apply lbox_ok|]. split; [reflexivity|]. split; [cbn; lra|]. split; [intros p q; reflexivity|]. split; [exact I1|]. split; [split; cbn; lia|].
  split; [change (match band isotropic 16 16 1 1 10 1 with Some v => v | None => 0 end = 1); rewrite B1; reflexivity|]. split; [change (match band isotropic 16 16 1 1 11 15 with Some v => v | None => 0 end = 1); rewrite B2; reflexivity|].
  rewrite lbox_mode. split; [apply pump16_plane|].
  split. { intros p q N. unfold phi. destruct (Nat.eqb_spec p 11) as [->|]; [destruct (Nat.eqb_spec q 15) as [->|]; [congruence|]|]; reflexivity. }
  split.
  - pose proof (C97_tpd (ebox isotropic) 0 c1 5 phi pump16 10 1 (ebox_ok _) I1 ltac:(cbn; lia) ltac:(congruence) (pump16_plane _)) as E. cbv zeta in E. rewrite E. clear E.
    change (mate_x (ebox isotropic) 5 10) with 11%nat. change (mate_y (ebox isotropic) 1) with 15%nat. change (phi 11%nat 15%nat) with c1.
    replace (e_filter (ebox isotropic) 10 1) with 1 by (change (1 = match band isotropic 16 16 1 1 10 1 with Some v => v | None => 0 end); rewrite B1; reflexivity).
    assert (K1 : ksq (ebox isotropic) 10 1 = 37 * (PI / 8) ^ 2). { change (kx 16 1 10 ^ 2 + kx 16 1 1 ^ 2 = 37 * (PI / 8) ^ 2). rewrite !kx16, S1, S2. ring. }
    assert (K2 : ksq (ebox isotropic) 11 15 = 26 * (PI / 8) ^ 2). { change (kx 16 1 11 ^ 2 + kx 16 1 15 ^ 2 = 26 * (PI / 8) ^ 2). rewrite !kx16, S3, S4. ring. }
    assert (Y : eky (ebox isotropic) 1 = PI / 8). { change (kx 16 1 1 = PI / 8). rewrite kx16, S2. ring. }
    rewrite K1, K2, Y. unfold pump_factor. cbn [e_w0 e_wp0 e_e e_me ebox]. replace (- ((5 * PI / 8 - 2 * (5 * PI / 16)) * 0)) with 0 by ring. rewrite cis_0.
    intros E. apply (f_equal fst) in E. unfold cscal, cmul, conj, c1, c0 in E. cbn [fst snd] in E. revert E.
    match goal with |- ?x = 0 -> False => replace x with (11 / 740) by (field; lra) end. lra.
  - change (kx 16 1 10 + kx 16 1 11 <> 5 * ldk lbox). rewrite !kx16, S1, S3. unfold ldk. cbn [g_nx g_dx lbox]. replace (INR 16) with 16 by (cbn; ring). lra.
Qed.
Print Assumptions C98_isotropic_refuted.
(** The hypotheses of the intensity theorems are met there. *)
Example lbox_pump : exists F, laser_update lbox 0 (drive Uniform 0 1 (fun _ => 0)) = Some F /\ forall a b, flux lbox F a b = 1.
Proof.
  destruct (update_val lbox 0 (drive Uniform 0 1 (fun _ => 0)) _ _ lbox_ok eq_refl eq_refl) as (F & E & _). exists F. split; [exact E|]. intros a b.
  rewrite (flux_sum lbox 0 (drive Uniform 0 1 (fun _ => 0)) _ _ F b lbox_ok eq_refl eq_refl E a).
  change (w_n (drive Uniform 0 1 (fun _ => 0))) with 1%nat. cbn [csum]. unfold speckle_at. cbn [g_speckle lbox].
  match goal with |- context [cadd c0 ?z] => replace (cadd c0 z) with z by (generalize z; intros; cxr) end.
  rewrite cabs2_mul, cabs2_cis. unfold normalized. cbn [rsum d_weight]. rewrite amp_abs by lra. unfold cabs2, c1. cbn [fst snd g_E0 lbox]. field.
Qed.
Lemma round_near x z : Rabs (x - IZR z) < 1 / 2 -> round_half_even x = z.
Proof.
  intros H. pose proof (round_spec x) as S. destruct (Z.eq_dec (round_half_even x) z) as [|N]; [auto|]. exfalso.
  assert (1 <= Rabs (IZR (round_half_even x) - IZR z)) by (rewrite <- minus_IZR, <- abs_IZR; apply IZR_le; lia).
  replace (IZR (round_half_even x) - IZR z) with ((x - IZR z) + - (x - IZR (round_half_even x))) in H0 by ring.
  pose proof (Rabs_triang (x - IZR z) (- (x - IZR (round_half_even x)))). rewrite Rabs_Ropp in H1. lra.
Qed.
Example nominal_case : mode lbox (d_omega (1 / 2) 2 0) = 0%Z /\ mode lbox (d_omega (1 / 2) 2 1) = 8%Z /\
  exists F, laser_update lbox 3 (drive Lorentzian (1 / 2) 2 (fun _ => 1)) = Some F /\ rsum 16 (fun a => flux lbox F a 7) / 16 = 1.
Proof.
  pose proof PI_RGT_0. assert (S : 0 < sqrt 3) by (apply sqrt_lt_R0; lra).
  assert (O0 : d_omega (1 / 2) 2 0 = - (1 / 2)) by (unfold d_omega, linspace; cbn; field).
  assert (O1 : d_omega (1 / 2) 2 1 = 1 / 2) by (unfold d_omega, linspace; cbn; field).
  assert (M0 : mode lbox (d_omega (1 / 2) 2 0) = 0%Z).
  { rewrite O0. unfold mode, k0_of. cbn [g_w0 g_c g_wp0 lbox]. replace ((1 + - (1 / 2)) ^ 2 - (5 * PI / 16) ^ 2 / (5 * PI / 8) ^ 2) with 0 by (field; lra). rewrite sqrt_0, Rmult_0_r. unfold Rdiv at 1. rewrite Rmult_0_l. apply (round_int 0). }
  assert (M1 : mode lbox (d_omega (1 / 2) 2 1) = 8%Z).
  { rewrite O1. unfold mode, k0_of, ldk. cbn [g_w0 g_c g_wp0 g_nx g_dx lbox]. replace (INR 16) with 16 by (cbn; ring). replace ((1 + 1 / 2) ^ 2 - (5 * PI / 16) ^ 2 / (5 * PI / 8) ^ 2) with 2 by (field; lra).
    apply round_near. replace (5 * PI / 8 / (sqrt 3 / 2) * sqrt 2 / (2 * PI / (16 * 1))) with (10 * (sqrt 2 / sqrt 3)) by (field; lra).
    rewrite <- sqrt_div by lra. assert (Q : sqrt (2 / 3) * sqrt (2 / 3) = 2 / 3) by (apply sqrt_sqrt; lra). assert (0 < sqrt (2 / 3)) by (apply sqrt_lt_R0; lra).
    apply Rabs_def1; nra. }
  split; [exact M0|]. split; [exact M1|].
  destruct (update_val lbox 3 (drive Lorentzian (1 / 2) 2 (fun _ => 1)) _ _ lbox_ok eq_refl eq_refl) as (F & E & _). exists F. split; [exact E|].
  pose proof (C98_nominal lbox 3 Lorentzian (1 / 2) 2 (fun _ => 1) F 7 lbox_ok (le_n 2) ltac:(lra) E) as Q. change (INR (g_nx lbox)) with (INR 16) in Q. replace (INR 16) with 16 in Q by (cbn; ring).
  change (g_nx lbox) with 16%nat in Q. rewrite Q; [unfold speckle_at, cabs2, c1; cbn [g_speckle g_E0 lbox fst snd]; ring|].
  intros p q Hp Hq N. destruct p as [|[|p]], q as [|[|q]]; try lia; rewrite M0, M1; discriminate.
Qed.
