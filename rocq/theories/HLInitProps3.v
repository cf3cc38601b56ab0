(** The Legendre projection of the initial beam, charge neutrality, time axes, validation, driver and post-processing of the
    Hermite-Legendre solver. *)
From Coq Require Import Reals Lra Lia ZArith List Bool Psatz.
From Verif Require Import HermitePoisson HPProps HPForceProps HPStepProps Legendre HermLeg HLBasis HermLegProps HLColl HLStep HLStepProps HLStepProps2 HLInit HLInitProps HLInitProps2 Drivers VGrid PyStr PicProofs RSum Pic PicFourier Dft.
Import ListNotations.
Local Open Scope R_scope.

(* ------------------------------------------------------------------------------------------------ *)
(** * The projection of the beam *)
(** The quadrature on the window is exact for h, whose integral is I. *)
Definition exact_for (nodes weights : nat -> R) (Nl : nat) (va vb : R) (h : R -> R) (I : R) : Prop := integral h va vb I /\ window_sum nodes weights Nl va vb h = I.
Lemma project_m nodes weights h Nl va vb m : va < vb -> (vb - va) * project_legendre nodes weights h Nl va vb m = window_sum nodes weights Nl va vb (fun v => h v * lbasis va vb m v).
Proof.
  intros Hv. unfold project_legendre, window_sum, proj_deg. transitivity (rsum (Nat.max (4 * Nl) 400) (fun q => lbasis va vb m (proj_v va vb nodes q) * (h (proj_v va vb nodes q) * proj_w va vb weights q))); [field; lra|].
  apply rsum_ext. intros q _. unfold proj_w, proj_v. replace (1 / 2 * (vb - va) * nodes q + 1 / 2 * (vb + va)) with ((vb - va) / 2 * nodes q + (va + vb) / 2) by field. field.
Qed.
Lemma window_ext nodes weights Nl va vb f h : (forall v, f v = h v) -> window_sum nodes weights Nl va vb f = window_sum nodes weights Nl va vb h.
Proof. intros E. unfold window_sum. apply rsum_ext. intros. now rewrite E. Qed.
Lemma window_rsum nodes weights Nl va vb n (c : nat -> R) (f : nat -> R -> R) :
  window_sum nodes weights Nl va vb (fun v => rsum n (fun j => c j * f j v)) = rsum n (fun j => c j * window_sum nodes weights Nl va vb (f j)).
Proof.
  unfold window_sum. set (D := Nat.max (4 * Nl) 400). rewrite (rsum_ext D _ (fun q => rsum n (fun j => c j * ((vb - va) / 2 * weights q * f j ((vb - va) / 2 * nodes q + (va + vb) / 2))))).
  - rewrite rsum_swap. apply rsum_ext. intros j _. apply rsum_scal.
  - intros q _. rewrite <- rsum_scal. apply rsum_ext. intros j _. ring.
Qed.
(** If the quadrature is exact for h xi_m, m < Nl, the projected df differs from h only by something orthogonal to every basis
    function, and is the only best approximation of h in mean square; a combination of basis functions is reproduced exactly. *)
Theorem C96_projection : forall nodes weights Nl va vb h, va < vb ->
  let B := project_legendre nodes weights h Nl va vb in
  ((forall m, (m < Nl)%nat -> exists I, exact_for nodes weights Nl va vb (fun v => h v * lbasis va vb m v) I) ->
    (forall m, (m < Nl)%nat -> integral (fun v => (h v - df va vb Nl B v) * lbasis va vb m v) va vb 0) /\
    (forall J a, integral (fun v => (h v - df va vb Nl B v) ^ 2) va vb J ->
       integral (fun v => (h v - df va vb Nl a v) ^ 2) va vb (J + (vb - va) * rsum Nl (fun m => (a m - B m) ^ 2)))) /\
  (forall a, (forall v, h v = df va vb Nl a v) ->
    (forall j m, (j < Nl)%nat -> (m < Nl)%nat -> exists I, exact_for nodes weights Nl va vb (fun v => lbasis va vb j v * lbasis va vb m v) I) ->
    forall m, (m < Nl)%nat -> B m = a m).
Proof.
  intros nodes weights Nl va vb h Hv B. split.
  - intros HE.
    assert (HB : forall m, (m < Nl)%nat -> integral (fun v => h v * lbasis va vb m v) va vb ((vb - va) * B m)).
    { intros m Hm. destruct (HE m Hm) as (I & HI & W). unfold B. rewrite project_m by exact Hv. rewrite W. exact HI. }
    assert (HD : forall a m, (m < Nl)%nat -> integral (fun v => df va vb Nl a v * lbasis va vb m v) va vb ((vb - va) * a m)).
    { intros a m Hm. pose proof (integral_rsum Nl (fun j v => lbasis va vb j v * lbasis va vb m v) va vb (fun j => if (j =? m)%nat then vb - va else 0) a (fun j _ => lbasis_orth va vb j m Hv)) as L.
      eapply integral_ext; [| |exact L].
      - intros x. cbv beta. unfold df. rewrite <- rsum_scal_r. apply rsum_ext. intros; ring.
      - rewrite (rsum_single Nl m); [rewrite Nat.eqb_refl; ring|exact Hm|]. intros j _ N. destruct (Nat.eqb_spec j m); [contradiction|ring]. }
    assert (HO : forall m, (m < Nl)%nat -> integral (fun v => (h v - df va vb Nl B v) * lbasis va vb m v) va vb 0).
    { intros m Hm. pose proof (integral_lin _ _ _ _ _ _ 1 (-1) (HB m Hm) (HD B m Hm)) as L. eapply integral_ext; [| |exact L]; [intros x; cbv beta; ring|ring]. }
    split; [exact HO|]. intros J a HJ.
    assert (S1 : integral (fun v => rsum Nl (fun m => (B m - a m) * ((h v - df va vb Nl B v) * lbasis va vb m v))) va vb 0).
    { pose proof (integral_rsum Nl (fun m v => (h v - df va vb Nl B v) * lbasis va vb m v) va vb (fun _ => 0) (fun m => B m - a m) (fun m Hm => HO m Hm)) as L.
      eapply integral_ext; [| |exact L]; [reflexivity|]. apply rsum_zero_ext. intros; ring. }
    assert (S2 : integral (fun v => rsum Nl (fun m => (B m - a m) * (df va vb Nl (fun j => B j - a j) v * lbasis va vb m v))) va vb ((vb - va) * rsum Nl (fun m => (a m - B m) ^ 2))).
    { pose proof (integral_rsum Nl (fun m v => df va vb Nl (fun j => B j - a j) v * lbasis va vb m v) va vb (fun m => (vb - va) * (B m - a m)) (fun m => B m - a m) (fun m Hm => HD (fun j => B j - a j) m Hm)) as L.
      eapply integral_ext; [| |exact L]; [reflexivity|]. rewrite <- rsum_scal. apply rsum_ext. intros; ring. }
    pose proof (integral_lin _ _ _ _ _ _ 2 1 S1 S2) as S3. pose proof (integral_lin _ _ _ _ _ _ 1 1 HJ S3) as S4.
    eapply integral_ext; [| |exact S4]; [|ring]. intros v. cbv beta.
    assert (D0 : df va vb Nl (fun j => B j - a j) v = df va vb Nl B v - df va vb Nl a v) by (unfold df; rewrite <- rsum_minus; apply rsum_ext; intros; ring).
    assert (DG : forall X, rsum Nl (fun m => (B m - a m) * (X * lbasis va vb m v)) = X * df va vb Nl (fun j => B j - a j) v) by (intros X; unfold df; rewrite <- rsum_scal; apply rsum_ext; intros; ring).
    assert (D1 : rsum Nl (fun m => (B m - a m) * ((h v - df va vb Nl B v) * lbasis va vb m v)) = (h v - df va vb Nl B v) * (df va vb Nl B v - df va vb Nl a v)) by (rewrite DG, D0; reflexivity).
    assert (D2 : rsum Nl (fun m => (B m - a m) * (df va vb Nl (fun j => B j - a j) v * lbasis va vb m v)) = (df va vb Nl B v - df va vb Nl a v) ^ 2) by (rewrite DG, D0; ring).
    rewrite D1, D2. ring.
  - intros a Ha HE m Hm. apply (Rmult_eq_reg_l (vb - va)); [|lra]. unfold B. rewrite project_m by exact Hv.
    rewrite (window_ext _ _ _ _ _ _ (fun v => rsum Nl (fun j => a j * (lbasis va vb j v * lbasis va vb m v)))).
    + rewrite window_rsum. rewrite (rsum_single Nl m); [|exact Hm|].
      * destruct (HE m m Hm Hm) as (I & HI & ->). pose proof (lbasis_orth va vb m m Hv) as O. rewrite Nat.eqb_refl in O. rewrite (integral_unique _ _ _ _ _ HI O). ring.
      * intros j Hj N. destruct (HE j m Hj Hm) as (I & HI & ->). pose proof (lbasis_orth va vb j m Hv) as O. destruct (Nat.eqb_spec j m); [contradiction|]. rewrite (integral_unique _ _ _ _ _ HI O). ring.
    + intros v. rewrite Ha. unfold df. rewrite <- rsum_scal_r. apply rsum_ext. intros; ring.
Qed.
Print Assumptions C96_projection.

(** bump-on-tail claims a neutral plasma (bulk 1 - n_beam plus beam n_beam against ions of density 1), but only the part of the
    beam inside the window is deposited: for every window, with the quadrature exact for the beam, the electrons' mass is strictly
    below the ions' and the missing charge is invisible to the field (its mean is always zero). *)
Lemma rising (F f : R -> R) a b : (forall x, derivable_pt_lim F x (f x)) -> (forall x, 0 < f x) -> a < b -> F a < F b.
Proof.
  intros HF Hp Hab. destruct (MVT_cor2 F f a b Hab (fun x _ => HF x)) as (x & E & _). pose proof (Hp x). assert (0 < f x * (b - a)) by (apply Rmult_lt_0_compat; lra). lra.
Qed.
Lemma partial_integral f a b I J : (forall x, 0 < f x) -> a < b -> integral f a b I -> line_integral f J -> 0 < I < J.
Proof.
  intros Hp Hab HI (F & Lp & Lm & HF & H1 & H2 & <-). assert (E : I = F b - F a) by (apply (integral_unique f a b I (F b - F a) HI); exists F; split; [exact HF|reflexivity]).
  pose proof (rising F f) as UP. assert (A1 : F (b + 1) <= Lp).
  { destruct (Rle_lt_dec (F (b + 1)) Lp) as [Q|Q]; [exact Q|]. exfalso. destruct (H1 (F (b + 1) - Lp)) as (X & HX); [lra|]. pose proof (HX (Rmax X (b + 1)) (Rmax_l _ _)) as W. rewrite Rmult_1_l in W.
    assert (F (b + 1) <= F (Rmax X (b + 1))). { destruct (Rle_lt_dec X (b + 1)) as [Q1|Q1]; [rewrite Rmax_right by lra; lra|]. rewrite Rmax_left by lra. left. apply UP; auto. }
    apply Rabs_def2 in W. lra. }
  assert (A2 : Lm <= F (a - 1)).
  { destruct (Rle_lt_dec Lm (F (a - 1))) as [Q|Q]; [exact Q|]. exfalso. destruct (H2 (Lm - F (a - 1))) as (X & HX); [lra|]. pose proof (HX (Rmax X (1 - a)) (Rmax_l _ _)) as W.
    assert (F (-1 * Rmax X (1 - a)) <= F (a - 1)). { destruct (Rle_lt_dec X (1 - a)) as [Q1|Q1]; [rewrite Rmax_right by lra; replace (-1 * (1 - a)) with (a - 1) by ring; lra|]. rewrite Rmax_left by lra. left. apply UP; auto. lra. }
    apply Rabs_def2 in W. lra. }
  pose proof (UP a b HF Hp Hab). pose proof (UP b (b + 1) HF Hp ltac:(lra)). pose proof (UP (a - 1) a HF Hp ltac:(lra)). lra.
Qed.
Lemma beam_maxwellian nb vd vth v : 0 < vth -> gauss_beam {| b_amp := nb / (sqrt (2 * PI) * vth); b_drift := vd; b_vth := vth |} v = nb * unit_maxwellian (sqrt 2 * vth) vd v.
Proof.
  intros H. pose proof PI_RGT_0. assert (0 < sqrt 2) by (apply sqrt_lt_R0; lra). assert (0 < sqrt PI) by (apply sqrt_lt_R0; lra). pose proof (sqrt_sqrt 2 ltac:(lra)) as Q2.
  unfold gauss_beam, unit_maxwellian. cbn [b_amp b_drift b_vth]. rewrite sqrt_mult by lra.
  replace (- (v - vd) ^ 2 / (2 * vth ^ 2)) with (- ((v - vd) / (sqrt 2 * vth)) ^ 2); [field; lra|].
  replace (((v - vd) / (sqrt 2 * vth)) ^ 2) with ((v - vd) ^ 2 / (sqrt 2 * sqrt 2 * vth ^ 2)) by (field; lra). rewrite Q2. field. lra.
Qed.
Lemma unit_maxwellian_integral alpha u : 0 < alpha -> line_integral (unit_maxwellian alpha u) 1.
Proof.
  intros Ha. pose proof (line_lin _ _ _ _ (/ alpha) 0 (psi_integral_0 alpha u Ha) (psi_integral_0 alpha u Ha)) as L. eapply line_ext; [| |exact L]; [|field; lra].
  intros x. cbv beta. rewrite psi0_eq by exact Ha. field. lra.
Qed.
Lemma unit_maxwellian_pos alpha u v : 0 < alpha -> 0 < unit_maxwellian alpha u v.
Proof. intros Ha. pose proof (sqrt_lt_R0 PI PI_RGT_0). unfold unit_maxwellian. apply Rdiv_lt_0_compat; [apply exp_pos|]. apply Rmult_lt_0_compat; lra. Qed.
Theorem C96_neutral_refuted : forall nodes weights c i r I, 0 < hl_alpha c -> hl_va c < hl_vb c -> 0 < hl_Lx c -> (0 < hl_nx c)%nat -> (0 < hl_Nh c)%nat -> (0 < hl_Nl c)%nat ->
  is_type i (lit "bump-on-tail") -> 0 < dflt (i_nbeam i) (1 / 100) -> 0 < dflt (i_vth i) 1 ->
  hl_init nodes weights (hl_nx c) (hl_Nh c) (hl_Nl c) (hl_alpha c) (hl_va c) (hl_vb c) (hl_Lx c) i = Some r ->
  (dflt (i_mode i) 1 mod Z.of_nat (hl_nx c) <> 0)%Z -> exact_for nodes weights (hl_Nl c) (hl_va c) (hl_vb c) (gauss_beam (the_beam i)) I ->
  mass c (to_k (hl_nx c) r) = hl_Lx c * (1 - (dflt (i_nbeam i) (1 / 100) - I)) /\ 0 < I < dflt (i_nbeam i) (1 / 100) /\
  mass c (to_k (hl_nx c) r) < hl_Lx c /\ rsum (hl_nx c) (field c (to_k (hl_nx c) r)) = 0.
Proof.
  intros nodes weights c i r I Ha Hv HL Hn HN HNl T Hnb Hvt H Hm [HI HW].
  assert (Al : 0 < sqrt 2 * dflt (i_vth i) 1) by (apply Rmult_lt_0_compat; [apply sqrt_lt_R0; lra|exact Hvt]).
  assert (G : forall v, gauss_beam (the_beam i) v = dflt (i_nbeam i) (1 / 100) * unit_maxwellian (sqrt 2 * dflt (i_vth i) 1) (dflt (i_vdrift i) 10) v) by (intros v; unfold the_beam; apply beam_maxwellian; exact Hvt).
  assert (P : 0 < I < dflt (i_nbeam i) (1 / 100)).
  { apply (partial_integral (gauss_beam (the_beam i)) (hl_va c) (hl_vb c)); [|exact Hv|exact HI|].
    - intros x. rewrite G. apply Rmult_lt_0_compat; [exact Hnb|apply unit_maxwellian_pos; exact Al].
    - pose proof (unit_maxwellian_integral _ (dflt (i_vdrift i) 10) Al) as U. pose proof (line_lin _ _ _ _ (dflt (i_nbeam i) (1 / 100)) 0 U U) as L. eapply line_ext; [| |exact L]; [intros x; cbv beta; rewrite G; ring|ring]. }
  assert (M : mass c (to_k (hl_nx c) r) = hl_Lx c * (1 - (dflt (i_nbeam i) (1 / 100) - I))).
  { rewrite (C96_initial_mass nodes weights c i (lit "bump-on-tail") r) by (first [assumption | lra | (cbn; auto)]). unfold base_of, beam_of. change (str_eqb (lit "bump-on-tail") (lit "bump-on-tail")) with true. cbv iota. rewrite HW. ring. }
  split; [exact M|]. split; [exact P|]. split.
  - rewrite M. assert (0 < hl_Lx c * (dflt (i_nbeam i) (1 / 100) - I)) by (apply Rmult_lt_0_compat; lra). lra.
  - unfold field, hl_self. destruct (hl_field_on c).
    + rewrite (rsum_ext _ _ (fun g => spectral_poisson (hl_nx c) (hl_dx c) None (HLStepProps.charge_density c (to_k (hl_nx c) r)) g)) by (intros; now apply field_spectral). apply poisson_mean. exact Hn.
    + apply rsum_zero.
Qed.
Print Assumptions C96_neutral_refuted.
