(** Property C105: the diagnostics of driven ion-acoustic turbulence. *)
From Coq Require Import Psatz FunctionalExtensionality.
From Verif Require Vfp2dOps VlasovProofs.
From Verif Require Import DriftDiffProofs2 VlasovProps3 VStepProps VStep2vProofs VStep2vProps VSaveProps IAW.
From Verif Require Import PyStr.
From Verif Require Import PicFourier Dft.
Local Open Scope R_scope.

(* ------------------------------------------------------------------------------------------------ *)
(** Vocabulary: the charge density of a set of species, as the sum over the species of charge times density. *)
Definition charge_at (F : ndict) (i : nat) : R := sum_entries (fun p => sp_q (sp_of p) * integral_v (sp_of p) (df_of p i)) F.
Definition mean_over (n : nat) (g : nat -> R) : R := rsum n g / INR n.
(** How many of the nx coefficients of the full transform the mode m stands for. *)
Definition multiplicity (nx m : nat) : R := if (m =? 0)%nat then 1 else if (2 * m =? nx)%nat then 1 else 2.

Lemma charge_at_eq F i : iaw_rho F i = charge_at F i.
Proof.
  unfold iaw_rho, charge_at. rewrite (fold_entries (fun p : entry => sp_q (fst (snd p)) * rsum (sp_nv (fst (snd p))) (snd (snd p) i) * sp_dv (fst (snd p)))). rewrite Rplus_0_l.
  induction F as [|p F IH]; [reflexivity|]. cbn [sum_entries]. rewrite IH. f_equal. unfold integral_v, sp_of, df_of, sp_dv. rewrite rsum_scal_r. ring.
Qed.
Lemma power_eq nx F m : nk_power nx F m = cabs2 (fft nx (charge_at F) m) / INR nx ^ 2.
Proof.
  replace (charge_at F) with (iaw_rho F) by (apply functional_extensionality; intros; apply charge_at_eq). unfold nk_power, nk, rfft, cscal, cabs2, Rdiv. cbn [fst snd]. rewrite <- pow_inv. ring.
Qed.
Lemma power_nonneg nx F m : (0 < nx)%nat -> 0 <= nk_power nx F m.
Proof. intros _. unfold nk_power. nra. Qed.
Lemma sum_mirror n p : (0 < n)%nat -> (forall k, (0 < k < n)%nat -> p (n - k)%nat = p k) -> rsum n p = rsum (S (n / 2)) (fun k => multiplicity n k * p k).
Proof.
  intros Hn M. pose proof (Nat.div_mod n 2 ltac:(lia)) as D. pose proof (Nat.mod_upper_bound n 2 ltac:(lia)) as U. set (h := (n / 2)%nat) in *.
  assert (SP : rsum n p = rsum (S h) p + rsum (n - S h) (fun t => p (S (h + t))%nat)).
  { destruct (Nat.eq_dec n 1) as [->|]; [unfold h; cbn; ring|]. exact (rsum_split (S h) n p ltac:(lia)). }
  rewrite SP, (rsum_rev (n - S h)).
  assert (E : rsum (n - S h) (fun j => p (S (h + (n - S h - 1 - j)))%nat) = rsum (n - S h) (fun j => p (S j))).
  { apply rsum_ext. intros j Hj. rewrite <- (M (S j)) by lia. f_equal. lia. }
  rewrite E, rsum_shift, (rsum_shift h (fun k => multiplicity n k * p k)).
  assert (E0 : multiplicity n 0 = 1) by reflexivity. rewrite E0.
  destruct (Nat.eq_dec (n mod 2) 0) as [Z|Z].
  - assert (HS : exists h', h = S h') by (exists (h - 1)%nat; lia). destruct HS as [h' HS]. rewrite HS. replace (n - S (S h'))%nat with h' by lia. cbn [rsum].
    assert (E1 : multiplicity n (S h') = 1) by (unfold multiplicity; cbn [Nat.eqb]; destruct (Nat.eqb_spec (2 * S h') n); [reflexivity|lia]). rewrite E1.
    rewrite (rsum_ext h' (fun i => multiplicity n (S i) * p (S i)) (fun i => 2 * p (S i))). 2:{ intros i Hi. unfold multiplicity. cbn [Nat.eqb]. destruct (Nat.eqb_spec (2 * S i) n); [lia|reflexivity]. }
    rewrite rsum_scal. ring.
  - replace (n - S h)%nat with h by lia. rewrite (rsum_ext h (fun i => multiplicity n (S i) * p (S i)) (fun i => 2 * p (S i))). 2:{ intros i Hi. unfold multiplicity. cbn [Nat.eqb]. destruct (Nat.eqb_spec (2 * S i) n); [lia|reflexivity]. }
    rewrite rsum_scal. ring.
Qed.

(** The saved spectrum accounts for the mean square of the charge density: all of it when every mode up to nx / 2 is
    saved, never more than it. *)
Theorem C105_parseval : forall nx F nk_modes, (0 < nx)%nat ->
  let total := rsum (S (iaw_modes nk_modes nx)) (fun m => multiplicity nx m * nk_power nx F m) in
  total <= mean_over nx (fun i => charge_at F i ^ 2) /\ ((nx / 2 <= nk_modes)%nat -> total = mean_over nx (fun i => charge_at F i ^ 2)).
Proof.
  intros nx F q Hn total. assert (P : 0 < INR nx) by (apply lt_0_INR; lia).
  assert (FULL : rsum (S (nx / 2)) (fun m => multiplicity nx m * nk_power nx F m) = mean_over nx (fun i => charge_at F i ^ 2)).
  { rewrite <- (sum_mirror nx (nk_power nx F) Hn).
    - rewrite (rsum_ext nx _ (fun k => cabs2 (fft nx (charge_at F) k) * / INR nx ^ 2)) by (intros; apply power_eq). rewrite rsum_scal_r, parseval_real by exact Hn. unfold mean_over.
      rewrite (rsum_ext nx (fun i => charge_at F i ^ 2) (fun g => charge_at F g * charge_at F g)) by (intros; ring). field. lra.
    - intros k Hk. rewrite !power_eq, fft_mirror, cabs2_conj by lia. reflexivity. }
  split.
  - rewrite <- FULL. unfold total, iaw_modes. set (M := Nat.min q (nx / 2)). rewrite (rsum_split (S M) (S (nx / 2)) (fun m => multiplicity nx m * nk_power nx F m)) by (unfold M; lia).
    assert (0 <= rsum (S (nx / 2) - S M) (fun t => multiplicity nx (S M + t) * nk_power nx F (S M + t))); [|lra]. apply rsum_nonneg. intros t _. apply Rmult_le_pos; [|now apply power_nonneg]. unfold multiplicity. destruct (_ =? _)%nat; [lra|]. destruct (_ =? _)%nat; lra.
  - intros Hq. rewrite <- FULL. unfold total, iaw_modes. rewrite Nat.min_r by exact Hq. reflexivity.
Qed.
Print Assumptions C105_parseval.

(** A density with one wave: the power of its mode is a quarter of the square of the amplitude, that of the mean is the
    square of the mean, and every other saved mode is zero. *)
Theorem C105_wave : forall nx F rho0 A phi m0, (0 < m0)%nat -> (2 * m0 < nx)%nat ->
  (forall i, (i < nx)%nat -> charge_at F i = rho0 + A * cos (2 * PI * INR m0 * INR i / INR nx + phi)) ->
  nk_power nx F 0 = rho0 ^ 2 /\ nk_power nx F m0 = A ^ 2 / 4 /\ (forall m, (2 * m <= nx)%nat -> m <> 0%nat -> m <> m0 -> nk_power nx F m = 0) /\
  nk nx F m0 = cscal (A / 2) (cis phi).
Proof.
  intros nx F rho0 A phi m0 H0 H1 E. assert (P : 0 < INR nx) by (apply lt_0_INR; lia).
  assert (K : forall m, (2 * m <= nx)%nat -> fft nx (charge_at F) m = cadd (if (m =? 0)%nat then (INR nx * rho0, 0) else c0) (if (m =? m0)%nat then cscal (INR nx * A / 2) (cis phi) else c0)).
  { intros m Hm. rewrite (fft_ext nx _ (fun i => rho0 + A * cos (angle nx m0 i + phi))) by (intros g Hg; rewrite E by exact Hg; reflexivity).
    rewrite <- (VlasovProofs.fft_wave nx m0 A phi m H0 H1 Hm). assert (CST : fft nx (fun _ => rho0) m = if (m =? 0)%nat then (INR nx * rho0, 0) else c0).
    { destruct (Nat.eqb_spec m 0) as [->|N]; [rewrite fft_0, rsum_const; reflexivity|].
      apply cplx_eq; cbn [fst snd c0]; [rewrite fft_fst|rewrite fft_snd].
      - rewrite rsum_scal. rewrite (rsum_ext nx _ (fun g => cos (angleZ nx (Z.of_nat m) g + 0))) by (intros; rewrite angle_Z, Rplus_0_r; reflexivity). rewrite cos_sum by lia. rewrite Z.mod_small by lia. destruct (Z.eqb_spec (Z.of_nat m) 0); [lia|ring].
      - rewrite rsum_scal. rewrite (rsum_ext nx _ (fun g => sin (angleZ nx (Z.of_nat m) g + 0))) by (intros; rewrite angle_Z, Rplus_0_r; reflexivity). rewrite sin_sum by lia. rewrite Z.mod_small by lia. destruct (Z.eqb_spec (Z.of_nat m) 0); [lia|ring]. }
    rewrite <- CST. unfold fft. rewrite <- csum_add. apply csum_ext. intros g _. unfold cscal, cadd. cbn [fst snd]. f_equal; ring. }
  repeat split.
  - rewrite power_eq, K by lia. destruct (Nat.eqb_spec 0 m0); [lia|]. change (0 =? 0)%nat with true. unfold cabs2, cadd, c0. cbn [fst snd]. field. lra.
  - rewrite power_eq, K by lia. destruct (Nat.eqb_spec m0 0); [lia|]. rewrite Nat.eqb_refl. unfold cabs2, cadd, cscal, cis, c0. cbn [fst snd]. pose proof (sin2_cos2 phi) as S2. unfold Rsqr in S2.
    replace (_ / INR nx ^ 2) with (A ^ 2 / 4 * (sin phi * sin phi + cos phi * cos phi)) by (field; lra). rewrite S2. ring.
  - intros m Hm N0 N1. rewrite power_eq, K by lia. destruct (Nat.eqb_spec m 0); [lia|]. destruct (Nat.eqb_spec m m0); [lia|]. unfold cabs2, cadd, c0. cbn [fst snd]. field. lra.
  - unfold nk, rfft. replace (iaw_rho F) with (charge_at F) by (apply functional_extensionality; intros; symmetry; apply charge_at_eq). rewrite K by lia. destruct (Nat.eqb_spec m0 0); [lia|]. rewrite Nat.eqb_refl. unfold cscal, cadd, cis, c0. cbn [fst snd]. f_equal; field; lra.
Qed.
Print Assumptions C105_wave.

(** A density moved by whole cells has the same spectrum. *)
Theorem C105_shift : forall nx F F' s m, (m < nx)%nat ->
  (forall i, (i < nx)%nat -> charge_at F' i = charge_at F (Z.to_nat ((Z.of_nat i + s) mod Z.of_nat nx))) -> nk_power nx F' m = nk_power nx F m.
Proof.
  intros nx F F' s m Hm E. rewrite !power_eq. f_equal. rewrite (fft_ext nx _ _ m E), !fft_emb.
  change (emb (fun g => charge_at F (Z.to_nat ((Z.of_nat g + s) mod Z.of_nat nx)))) with (fun g => Vfp2d.cshift nx (emb (charge_at F)) g s).
  rewrite Vfp2dOps.cfft_shift by exact Hm. rewrite cmul_conj_abs, cabs2_cis. ring.
Qed.
Print Assumptions C105_shift.
(** When all the modes are saved the stream determines the charge density. *)
Theorem C105_complete : forall nx F F' nk_modes, (nx / 2 <= nk_modes)%nat ->
  (forall m, (m <= iaw_modes nk_modes nx)%nat -> nk nx F m = nk nx F' m) -> forall i, (i < nx)%nat -> charge_at F i = charge_at F' i.
Proof.
  intros nx F F' q Hq E i Hi. apply (fft_inj nx (charge_at F) (charge_at F')); [|exact Hi]. intros k Hk. assert (Q : (k <= nx / 2)%nat) by (apply Nat.div_le_lower_bound; lia).
  specialize (E k ltac:(unfold iaw_modes; lia)). unfold nk, rfft in E. replace (iaw_rho F) with (charge_at F) in E by (apply functional_extensionality; intros; symmetry; apply charge_at_eq). replace (iaw_rho F') with (charge_at F') in E by (apply functional_extensionality; intros; symmetry; apply charge_at_eq).
  assert (P : 0 < INR nx) by (apply lt_0_INR; lia). unfold cscal in E. injection E as E1 E2. apply cplx_eq; apply Rmult_eq_reg_l with (/ INR nx); auto; apply Rinv_neq_0_compat; lra.
Qed.
Print Assumptions C105_complete.

(** The power of the mean never changes along a run. *)
Theorem C105_mean_mode : forall g n t y y', Nat.Even (g_nx g) -> (0 < g_nx g)%nat -> g_edfdv g = EExponential -> filter_ok g -> good (y_f y) -> vm_run g n t y y' ->
  nk_power (g_nx g) (y_f y') 0 = nk_power (g_nx g) (y_f y) 0 /\ nk_power (g_nx g) (y_f y) 0 = mean_over (g_nx g) (charge_at (y_f y)) ^ 2.
Proof.
  intros g n t y y' He Hn ED FO G R. assert (P : 0 < INR (g_nx g)) by (apply lt_0_INR; lia).
  assert (M : forall F, nk_power (g_nx g) F 0 = mean_over (g_nx g) (charge_at F) ^ 2) by (intros F; rewrite power_eq, fft_0; unfold cabs2, mean_over; cbn [fst snd]; field; lra).
  split; [|apply M]. rewrite !M. f_equal. unfold mean_over. f_equal. pose proof (proj1 C104_run_constants g n t y y' He Hn ED FO G R) as A. clear - A P.
  assert (S : forall F, rsum (g_nx g) (charge_at F) = sum_entries (fun p => sp_q (sp_of p) * (INR (g_nx g) * mean_n (g_nx g) (sp_of p) (df_of p))) F).
  { intros F. unfold charge_at. induction F as [|p F IH]; cbn [sum_entries]; [apply rsum_zero|]. rewrite rsum_plus, IH, rsum_scal. f_equal. f_equal. unfold mean_n, mean. rewrite (rsum_ext (g_nx g) (mom (sp_of p) (df_of p)) (fun i => integral_v (sp_of p) (df_of p i))) by (intros; apply mom_integral). field. lra. }
  rewrite !S. unfold alike in A. induction A as [|p p' F F' (_ & E2 & E3) A IH]; [reflexivity|]. cbn [sum_entries]. rewrite IH, E2, E3. reflexivity.
Qed.
Print Assumptions C105_mean_mode.

(* ------------------------------------------------------------------------------------------------ *)
(** ** The late window *)
Lemma in_window_spec nt t w0 w1 k : in_window nt t w0 w1 k = true <-> t 0%nat + w0 * (t (nt - 1)%nat - t 0%nat) <= t k <= t 0%nat + w1 * (t (nt - 1)%nat - t 0%nat).
Proof. unfold in_window. destruct (Rle_dec _ _) as [a|a]; [destruct (Rle_dec _ _) as [b|b]|]; split; intros H; try discriminate; try tauto; lra. Qed.
Lemma window_sum nt (g : nat -> bool) (h : nat -> R) : (forall lo hi, (forall k, (k < nt)%nat -> g k = true -> lo <= h k <= hi) ->
  let c := INR (List.length (filter g (seq 0 nt))) in lo * c <= rsum nt (fun k => if g k then h k else 0) <= hi * c).
Proof.
  induction nt as [|nt IH]; intros lo hi H; [cbn; lra|]. cbn zeta. rewrite seq_S, filter_app, app_length, plus_INR. cbn [rsum filter Nat.add]. specialize (IH lo hi (fun k Hk => H k ltac:(lia))). cbn zeta in IH.
  destruct (g nt) eqn:E; cbn [List.length INR]; [specialize (H nt ltac:(lia) E); lra|lra].
Qed.
(** The averaged power is between any bounds of the power at the times of the window, and is given exactly when one of the
    saved times is in the window. With the default window, the second half of the run, it always is. *)
Theorem C105_window : forall nt t w0 w1 P m,
  ((exists a, p_avg nt t w0 w1 P m = Some a) <-> exists k, (k < nt)%nat /\ t 0%nat + w0 * (t (nt - 1)%nat - t 0%nat) <= t k <= t 0%nat + w1 * (t (nt - 1)%nat - t 0%nat)) /\
  (forall a lo hi, p_avg nt t w0 w1 P m = Some a -> (forall k, (k < nt)%nat -> in_window nt t w0 w1 k = true -> lo <= P k m <= hi) -> lo <= a <= hi) /\
  ((0 < nt)%nat -> t 0%nat <= t (nt - 1)%nat -> w0 <= 1 <= w1 -> exists a, p_avg nt t w0 w1 P m = Some a).
Proof.
  intros nt t w0 w1 P m.
  assert (EX : (exists a, p_avg nt t w0 w1 P m = Some a) <-> exists k, (k < nt)%nat /\ t 0%nat + w0 * (t (nt - 1)%nat - t 0%nat) <= t k <= t 0%nat + w1 * (t (nt - 1)%nat - t 0%nat)).
  { unfold p_avg, window_count. destruct (filter (in_window nt t w0 w1) (seq 0 nt)) as [|k l] eqn:E; cbn [List.length Nat.eqb].
    - split; [intros [a A]; discriminate|]. intros (k & Hk & W). exfalso. apply in_window_spec in W. assert (I0 : In k (filter (in_window nt t w0 w1) (seq 0 nt))) by (apply filter_In; split; [apply in_seq; lia|exact W]). rewrite E in I0. exact I0.
    - split; [intros _|eauto]. assert (I0 : In k (filter (in_window nt t w0 w1) (seq 0 nt))) by (rewrite E; left; reflexivity). apply filter_In in I0. destruct I0 as [I0 W]. apply in_seq in I0. exists k. split; [lia|apply in_window_spec, W]. }
  split; [exact EX|]. split.
  - intros a lo hi A H. unfold p_avg in A. destruct (Nat.eqb_spec (window_count nt t w0 w1) 0) as [Z|Z]; [discriminate|]. injection A as <-. pose proof (window_sum nt (in_window nt t w0 w1) (fun k => P k m) lo hi H) as W. cbn zeta in W. fold (window_count nt t w0 w1) in W.
    assert (0 < INR (window_count nt t w0 w1)) by (apply lt_0_INR; lia). split; apply Rmult_le_reg_r with (INR (window_count nt t w0 w1)); auto; unfold Rdiv; rewrite Rmult_assoc, Rinv_l by lra; lra.
  - intros Hn T W. apply EX. exists (nt - 1)%nat. split; [lia|]. nra.
Qed.
Print Assumptions C105_window.
(** A window between two saved times gives no average at all: the configured fractions are not checked. *)
Theorem C105_window_refuted : ~ forall nt tmin tmax w0 w1 P m, (2 <= nt)%nat -> tmin < tmax -> 0 <= w0 <= w1 -> w1 <= 1 -> exists a, p_avg nt (nk_t tmin tmax nt) w0 w1 P m = Some a.
Proof.
  intros H. destruct (H 2%nat 0 1 (1 / 4) (1 / 2) (fun _ _ => 1) 0%nat) as [a A]; [lia|lra|lra|lra|].
  destruct (proj1 (proj1 (C105_window 2 (nk_t 0 1 2) (1 / 4) (1 / 2) (fun _ _ => 1) 0)) (ex_intro _ a A)) as (k & Hk & W). unfold nk_t, linspace in W. cbn [Nat.leb Nat.sub INR] in W.
  destruct k as [|[|k]]; [| |lia]; cbn [INR] in W; lra.
Qed.
Print Assumptions C105_window_refuted.
(** The plotted curve is one at the first mode, and does not depend on the unit of the density. *)
Theorem C105_curve : forall modes nt t w0 w1 P m r, spectrum_curve modes nt t w0 w1 P m = Some r ->
  spectrum_curve modes nt t w0 w1 P 1 = Some 1 /\ forall c, c <> 0 -> spectrum_curve modes nt t w0 w1 (fun k j => c * P k j) m = Some r.
Proof.
  intros modes nt t w0 w1 P m r E. unfold spectrum_curve in *. destruct (modes =? 0)%nat; [discriminate|].
  destruct (p_avg nt t w0 w1 P m) as [a|] eqn:A; [|discriminate]. destruct (p_avg nt t w0 w1 P 1) as [b|] eqn:B; [|discriminate]. destruct (Req_EM_T b 0) as [Z|Z]; [discriminate|]. injection E as <-.
  split; [f_equal; field; exact Z|]. intros c Hc.
  assert (SC : forall j x, p_avg nt t w0 w1 P j = Some x -> p_avg nt t w0 w1 (fun k j => c * P k j) j = Some (c * x)).
  { intros j x X. unfold p_avg in *. destruct (window_count nt t w0 w1 =? 0)%nat; [discriminate|]. injection X as <-. f_equal. unfold Rdiv. rewrite <- Rmult_assoc. f_equal. rewrite <- rsum_scal. apply rsum_ext. intros k _. destruct (in_window nt t w0 w1 k); ring. }
  rewrite (SC _ _ A), (SC _ _ B). destruct (Req_EM_T (c * b) 0) as [Q|Q]; [apply Rmult_integral in Q; tauto|]. f_equal. field. split; assumption.
Qed.
Print Assumptions C105_curve.

(* ------------------------------------------------------------------------------------------------ *)
(** ** The wavenumber axis *)
(** The upper axis is k lambda_De for k = 2 pi m / L, its inverse takes it back, and the marked mode is where it is one. *)
Theorem C105_axis : forall L lam m, L <> 0 -> lam <> 0 ->
  k_axis L lam m = (2 * PI * m / L) * lam /\ k_axis_inv L lam (k_axis L lam m) = m /\ k_axis L lam (m_debye L lam) = 1.
Proof. intros L lam m HL Hl. pose proof PI_RGT_0. unfold k_axis, k_axis_inv, m_debye. repeat split; field; repeat split; lra. Qed.
Print Assumptions C105_axis.
(** The length of the plot is the one of the field solver when it is configured explicitly, or when the mean charge density
    is one; otherwise the two differ. *)
Lemma density_fold i : forall (F : ndict) a, fold_left (fun rho (p : species * dist) => rho + sp_q (fst p) * density (fst p) (snd p) i) (f_of F) a =
  fold_left (fun rho (p : entry) => rho + sp_q (fst (snd p)) * rsum (sp_nv (fst (snd p))) (snd (snd p) i) * sp_dv (fst (snd p))) F a.
Proof. induction F as [|p F IH]; intros a; [reflexivity|]. cbn [fold_left f_of map]. change (map snd F) with (f_of F). rewrite IH. f_equal. unfold density. ring. Qed.
Definition solver_length_sq (nx : nat) (Te : R) (lam : option R) (F : ndict) : R := match lam with Some l => l ^ 2 | None => Te / mean_over nx (charge_at F) end.
Theorem C105_screening : forall nx dx Te lam F k, 0 < Te -> (0 < mean_over nx (charge_at F)) ->
  boltzmann_kernel nx dx Te lam (mean nx (charge_density (f_of F))) k = kx nx dx k * (Te / mean_over nx (charge_at F)) / (1 + solver_length_sq nx Te lam F * kx nx dx k ^ 2) /\
  (screening_length (SBoltzmann Te lam) ^ 2 = solver_length_sq nx Te lam F <-> (lam <> None \/ mean_over nx (charge_at F) = 1)).
Proof.
  intros nx dx Te lam F k HT HR.
  assert (CD : forall i, charge_density (f_of F) i = charge_at F i).
  { intros i. rewrite <- charge_at_eq. unfold charge_density, iaw_rho. apply density_fold. }
  split.
  - unfold boltzmann_kernel, solver_length_sq. replace (mean nx (charge_density (f_of F))) with (mean_over nx (charge_at F)); [destruct lam; reflexivity|]. unfold mean, mean_over. f_equal. apply rsum_ext. intros. symmetry. apply CD.
  - unfold screening_length, solver_length_sq. destruct lam as [l|]; [split; [intros _; left; discriminate|reflexivity]|].
    replace (sqrt Te ^ 2) with Te by (rewrite <- Rsqr_pow2, Rsqr_sqrt; lra). split; [intros H; right|intros [H|H]; [congruence|rewrite H; field]].
    apply (f_equal (fun x => x * mean_over nx (charge_at F))) in H. unfold Rdiv in H. rewrite Rmult_assoc, Rinv_l in H by lra. nra.
Qed.
Print Assumptions C105_screening.

(* ------------------------------------------------------------------------------------------------ *)
(** ** The phase-space panels *)
(** Every panel shows a function whose average over x is zero at each velocity; it vanishes exactly when the distribution
    does not depend on x. *)
Theorem C105_delta_f : forall nx f j, (0 < nx)%nat ->
  mean_over nx (fun i => delta_f nx f i j) = 0 /\
  ((forall i, (i < nx)%nat -> delta_f nx f i j = 0) <-> forall i i', (i < nx)%nat -> (i' < nx)%nat -> f i j = f i' j).
Proof.
  intros nx f j Hn. assert (P : 0 < INR nx) by (apply lt_0_INR; lia). unfold mean_over, delta_f, mean. split.
  - rewrite rsum_minus, rsum_const. field. lra.
  - split; [intros H i i' Hi Hi'; pose proof (H i Hi); pose proof (H i' Hi'); lra|]. intros H i Hi. rewrite (rsum_ext nx (fun i' => f i' j) (fun _ => f i j)) by (intros; apply H; assumption). rewrite rsum_const. field. lra.
Qed.
Print Assumptions C105_delta_f.
Lemma multiples d : (0 < d)%nat -> forall n, List.length (filter (fun k => (k mod d =? 0)%nat) (seq 0 n)) = ((n + d - 1) / d)%nat.
Proof.
  intros Hd. induction n as [|n IH]; [cbn [seq filter List.length]; symmetry; apply Nat.div_small; lia|].
  rewrite seq_S, filter_app, app_length, IH. cbn [filter]. rewrite ?Nat.add_0_l. pose proof (Nat.div_mod n d ltac:(lia)) as D. pose proof (Nat.mod_upper_bound n d ltac:(lia)) as U.
  set (q := (n / d)%nat) in *. set (r := (n mod d)%nat) in *.
  destruct (Nat.eqb_spec r 0) as [Z|Z]; cbn [List.length].
  - assert (V2 : (n + d - 1 = d * q + (d - 1))%nat) by lia. assert (V3 : (S n + d - 1 = d * S q + 0)%nat) by (rewrite Nat.mul_succ_r; lia).
    pose proof (Nat.div_unique (n + d - 1) d q (d - 1) ltac:(lia) V2) as A. pose proof (Nat.div_unique (S n + d - 1) d (S q) 0 Hd V3) as B. rewrite <- A, <- B. lia.
  - assert (U1 : (r - 1 < d)%nat) by lia. assert (U2 : (n + d - 1 = d * S q + (r - 1))%nat) by (rewrite Nat.mul_succ_r; lia). assert (U3 : (S n + d - 1 = d * S q + r)%nat) by (rewrite Nat.mul_succ_r; lia).
    pose proof (Nat.div_unique (n + d - 1) d (S q) (r - 1) U1 U2) as A. pose proof (Nat.div_unique (S n + d - 1) d (S q) r U U3) as B. rewrite <- A, <- B. lia.
Qed.
(** With at least two saved times there are between 1 and 14 panels in at most 4 rows of 4, the first is the initial time,
    they are equally spaced and the last saved time is never shown. *)
Theorem C105_panels : forall nt, (2 <= nt)%nat -> exists l, panel_times nt = Some l /\
  (1 <= List.length l <= 14)%nat /\ (panel_rows (List.length l) <= 4)%nat /\ (List.length l <= 4 * panel_rows (List.length l))%nat /\
  In 0%nat l /\ ~ In (nt - 1)%nat l /\ exists d, (0 < d)%nat /\ forall k, In k l <-> (k < nt - 1)%nat /\ Nat.divide d k.
Proof.
  intros nt H. set (d := Nat.max (nt / 8) 1). set (l := filter (fun k => (k mod d =? 0)%nat) (seq 0 (nt - 1))).
  assert (D0 : (0 < d)%nat) by (unfold d; lia). assert (LEN : List.length l = ((nt - 1 + d - 1) / d)%nat) by (apply multiples, D0).
  pose proof (Nat.div_mod nt 8 ltac:(lia)) as E8. pose proof (Nat.mod_upper_bound nt 8 ltac:(lia)) as U8.
  assert (BND : (1 <= List.length l <= 14)%nat).
  { rewrite LEN. split; [apply Nat.div_le_lower_bound; lia|]. assert ((nt - 1 + d - 1) / d < 15)%nat; [|lia]. apply Nat.div_lt_upper_bound; [lia|]. unfold d. lia. }
  exists l. unfold panel_times. fold d. fold l. destruct (Nat.eqb_spec (Nat.min 4 (List.length l)) 0) as [Z|Z]; [lia|]. split; [reflexivity|]. split; [exact BND|].
  assert (IN : forall k, In k l <-> (k < nt - 1)%nat /\ Nat.divide d k).
  { intros k. unfold l. rewrite filter_In, in_seq, Nat.eqb_eq, Nat.mod_divide by lia. split; intros [A B]; split; auto; lia. }
  assert (ROWS : (panel_rows (List.length l) <= 4)%nat /\ (List.length l <= 4 * panel_rows (List.length l))%nat).
  { destruct BND as [B1 B2]. remember (List.length l) as n. clear - B1 B2. do 15 (destruct n as [|n]; [first [lia|vm_compute; lia]|]). lia. }
  split; [apply ROWS|]. split; [apply ROWS|]. split; [apply IN; split; [lia|apply Nat.divide_0_r]|]. split; [rewrite IN; lia|]. exists d. split; [exact D0|exact IN].
Qed.
Print Assumptions C105_panels.
(** A distribution saved once has no panel, and the plot divides by zero. *)
Theorem C105_single_time_refuted : panel_times 1 = None.
Proof. reflexivity. Qed.
Print Assumptions C105_single_time_refuted.

(* ------------------------------------------------------------------------------------------------ *)
(** ** A concrete case *)
Definition iaw_sp : species := {| sp_q := 1; sp_m := 1; sp_nv := 2; sp_vmin := -1; sp_vmax := 1 |}.
Definition iaw_F : ndict := [(lit "ion", (iaw_sp, fun i _ => 1 / 2 * (1 + cos (2 * PI * 1 * INR i / 4 + 0))))].
Example iaw_wave : nk_power 4 iaw_F 0 = 1 /\ nk_power 4 iaw_F 1 = 1 / 4 /\ nk_power 4 iaw_F 2 = 0.
Proof.
  destruct (C105_wave 4 iaw_F 1 1 0 1) as (A & B & C & _); [lia|lia| |].
  - intros i _. unfold charge_at, iaw_F. cbn [sum_entries]. unfold integral_v, sp_of, df_of, iaw_sp. cbn [fst snd sp_q sp_nv sp_vmin sp_vmax rsum INR]. replace (1 + 1 + 1 + 1) with 4 by ring. field.
  - split; [rewrite A; ring|]. split; [rewrite B; field|]. apply C; lia.
Qed.
Example iaw_mean : mean_over 4 (charge_at iaw_F) = 1.
Proof.
  assert (W := C105_wave 4 iaw_F 1 1 0 1 ltac:(lia) ltac:(lia)).
  assert (E : forall i, charge_at iaw_F i = 1 + cos (angleZ 4 1 i + 0)).
  { intros i. unfold charge_at, iaw_F. cbn [sum_entries]. unfold integral_v, sp_of, df_of, iaw_sp, angleZ. cbn [fst snd sp_q sp_nv sp_vmin sp_vmax rsum INR]. replace (1 + 1 + 1 + 1) with 4 by ring. field. }
  unfold mean_over. rewrite (rsum_ext 4 _ _ (fun i _ => E i)), rsum_plus, rsum_const, cos_sum by lia. destruct (Z.eqb_spec (1 mod Z.of_nat 4) 0) as [Z0|_]; [vm_compute in Z0; discriminate|]. change (INR 4) with (1 + 1 + 1 + 1). lra.
Qed.
