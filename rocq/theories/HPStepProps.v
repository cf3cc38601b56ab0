(** Property C75: the time step, initial state, time grid and drivers of the Hermite-Poisson solver. *)
From Coq Require Import Reals Lra Lia ZArith List Bool Psatz.
From Verif Require Import HermitePoisson HPProps HPForceProps RSum Pic PicProofs PicFourier Dft.
Local Open Scope R_scope.

(* ------------------------------------------------------------------------------------------------ *)
(** * Specifications *)
(** The total number of particles of a species on the grid. *)
Definition number (nx : nat) (alpha : R) (C : coeffs) : R := rsum nx (density_of nx alpha C).
(** The linear operator of a species as the module builds it: eigh contract, a known collision model, and no Hermite filter or
    the default Hou-Li one with positive order. *)
Definition module_linear (Nn nx : nat) (lin : coeffs -> R -> coeffs) : Prop :=
  exists ev V alpha Lx nu model col D strength hl,
    is_eigh Nn (stream_T 0 alpha) ev V /\ collision_profile Nn model = Some col /\
    (hl = None \/ exists order, 0 < order /\ hl = Some (houli_profile Nn order)) /\
    lin = hp_linear Nn ev V alpha nx Lx nu col D strength hl.
Record module_cfg (c : hpcfg) : Prop := {
  mc_nx : (0 < hp_nx c)%nat; mc_ne : (0 < Nn_e c)%nat; mc_ni : (0 < Nn_i c)%nat;
  mc_mask : hp_mask c = Some (mask23 (hp_nx c));
  mc_lin_e : module_linear (Nn_e c) (hp_nx c) (lin_e c); mc_lin_i : module_linear (Nn_i c) (hp_nx c) (lin_i c) }.

(* ------------------------------------------------------------------------------------------------ *)
(** * Conservation of number *)
Lemma kx_0 nx dx : kx nx dx 0 = 0.
Proof. unfold kx. destruct (Nat.ltb_spec (2 * 0) nx); cbn [INR]; unfold Rdiv; [ring|]. assert (nx = 0)%nat by lia. subst. cbn [INR]. ring. Qed.
Lemma houli_0 Nn order : 0 < order -> houli_profile Nn order 0 = 0.
Proof. intros. unfold houli_profile. change (INR 0) with 0. unfold Rdiv. rewrite Rmult_0_l. apply fpow_0; auto. Qed.
Lemma module_linear_mean Nn nx lin : (0 < Nn)%nat -> module_linear Nn nx lin -> forall C s, lin C s 0%nat 0%nat = C 0%nat 0%nat.
Proof.
  intros HN (ev & V & alpha & Lx & nu & model & col & D & strength & hl & EIG & HC & HL & ->) C s.
  unfold hp_linear, linear_exp, diagonal. rewrite (C73_mean_unchanged Nn (stream_T 0 alpha)) by auto.
  assert (col 0%nat = 0) by (destruct (proj2 (C73_collision_profiles Nn model) col HC) as (A0 & _); auto).
  unfold diag_rate. rewrite H, kx_0. destruct HL as [->|(order & Ho & ->)].
  - replace (- (nu * 0 + D * 0 ^ 2 + 0) * s) with 0 by ring. rewrite exp_0. apply cscal_1.
  - rewrite houli_0 by auto. replace (- (nu * 0 + D * 0 ^ 2 + (if Rlt_dec 0 strength then strength * 0 else 0)) * s) with 0 by (destruct (Rlt_dec 0 strength); ring).
    rewrite exp_0. apply cscal_1.
Qed.
Lemma number_eq nx alpha C : (0 < nx)%nat -> number nx alpha C = INR nx * (alpha ^ 3 * fst (C 0%nat 0%nat)).
Proof.
  intros H. unfold number, density_of. rewrite rsum_scal.
  assert (E : rsum nx (fun g => fst (finv nx (C 0%nat) g)) = INR nx * fst (C 0%nat 0%nat)).
  { rewrite <- (csum_fst nx (fun g => finv nx (C 0%nat) g)). change (fun g => finv nx (C 0%nat) g) with (finv nx (C 0%nat)). pose proof (ffwd_finv nx (C 0%nat) 0%nat H) as E. rewrite ffwd_0 in E. rewrite <- E. unfold cscal. cbn [fst].
    assert (INR nx <> 0) by (apply not_0_INR; lia). field. auto. }
  rewrite E. ring.
Qed.
Lemma sponge_mean c s : (0 < hp_nx c)%nat -> Ce (apply_sponge c s) 0%nat 0%nat = Ce s 0%nat 0%nat /\ Ci (apply_sponge c s) 0%nat 0%nat = Ci s 0%nat 0%nat.
Proof.
  intros H. unfold apply_sponge. cbn [Ce Ci]. destruct (sponge_plasma c) as [sp|]; [|split; reflexivity]. cbn [fst snd]. unfold sponge_row. cbn [Nat.eqb].
  split; (rewrite (ffwd_ext (hp_nx c) _ (finv (hp_nx c) _)) by (intros; apply cscal_1); apply ffwd_finv; auto).
Qed.
Lemma strang_force_mean c Nn alpha Ceq C accel : (0 < hp_nx c)%nat -> (0 < Nn)%nat -> hp_mask c = Some (mask23 (hp_nx c)) -> strang_force c Nn alpha Ceq C accel 0%nat 0%nat = C 0%nat 0%nat.
Proof.
  intros Hx HN HM. unfold strang_force. destruct (linear_response c).
  - rewrite coupling_row0, cscal_c0. apply cadd_c0.
  - rewrite HM. apply C74_number_kept; auto.
Qed.
Lemma strang_mean c t s : module_cfg c -> Ce (strang_step c t s) 0%nat 0%nat = Ce s 0%nat 0%nat /\ Ci (strang_step c t s) 0%nat 0%nat = Ci s 0%nat 0%nat.
Proof.
  intros [Hx He Hi HM Le Li]. pose proof (module_linear_mean _ _ _ He Le) as ME. pose proof (module_linear_mean _ _ _ Hi Li) as MI.
  unfold strang_step. destruct (sponge_mean c {| Ce := fst (strang_coeffs c t s); Ci := snd (strang_coeffs c t s);
    sa := fst (wave_step (hp_nx c) (hp_c c) (hp_dx c) (hp_dt c) (sa s) (sprev s) (eyd c t) (clip_density (wave_max c) (ne_of c (Ce s, Ci s))));
    sprev := snd (wave_step (hp_nx c) (hp_c c) (hp_dx c) (hp_dt c) (sa s) (sprev s) (eyd c t) (clip_density (wave_max c) (ne_of c (Ce s, Ci s))));
    se := field_of c (strang_coeffs c t s); sda := eyd c t; sde := exd c t |} Hx) as [A B].
  rewrite A, B. cbn [Ce Ci]. clear A B. unfold strang_coeffs, combined_exp. cbn [fst snd]. split.
  - rewrite ME, strang_force_mean by auto. apply ME.
  - destruct (static_ions c); [reflexivity|]. rewrite MI, strang_force_mean by auto. apply MI.
Qed.
Lemma rhs_mean c t C a nz : fst (nonlinear_rhs c t C a nz) 0%nat 0%nat = c0 /\ snd (nonlinear_rhs c t C a nz) 0%nat 0%nat = c0.
Proof. unfold nonlinear_rhs. cbn [fst snd]. split; [apply coupling_row0|]. destruct (static_ions c); [reflexivity|apply coupling_row0]. Qed.
Lemma combined_mean c C s : module_cfg c -> fst (combined_exp c C s) 0%nat 0%nat = fst C 0%nat 0%nat /\ snd (combined_exp c C s) 0%nat 0%nat = snd C 0%nat 0%nat.
Proof.
  intros [Hx He Hi HM Le Li]. unfold combined_exp. cbn [fst snd]. split; [apply (module_linear_mean _ _ _ He Le)|].
  destruct (static_ions c); [reflexivity|apply (module_linear_mean _ _ _ Hi Li)].
Qed.
Lemma lawson_mean c t s : module_cfg c -> Ce (lawson_step c t s) 0%nat 0%nat = Ce s 0%nat 0%nat /\ Ci (lawson_step c t s) 0%nat 0%nat = Ci s 0%nat 0%nat.
Proof.
  intros MC. pose proof (mc_nx c MC) as Hx.
  unfold lawson_step. set (C1 := lawson_rk4 c t (Ce s, Ci s) (fun g => sa s (S g))). cbv zeta.
  match goal with |- context [apply_sponge c ?st] => destruct (sponge_mean c st Hx) as [A B]; rewrite A, B; clear A B end. cbn [Ce Ci].
  unfold C1, lawson_rk4. cbv zeta. unfold tadd, tscale. cbn [fst snd].
  repeat match goal with |- context [nonlinear_rhs c ?tt ?CC ?aa ?nn] => let X := fresh "N" in let E := fresh "E" in
    remember (nonlinear_rhs c tt CC aa nn) as X eqn:E; 
    assert (fst X 0%nat 0%nat = c0 /\ snd X 0%nat 0%nat = c0) by (rewrite E; apply rhs_mean); clear E end.
  repeat match goal with |- context [combined_exp c ?X ?r] => let Y := fresh "Y" in let E := fresh "E" in let M := fresh "M" in
    pose proof (combined_mean c X r MC) as M; remember (combined_exp c X r) as Y eqn:E; clear E end.
  cbn [fst snd] in *. repeat match goal with H : _ /\ _ |- _ => destruct H end.
  split;
  repeat match goal with H : fst ?X 0%nat 0%nat = _ |- _ => rewrite ?H in *; clear H | H : snd ?X 0%nat 0%nat = _ |- _ => rewrite ?H in *; clear H end; rewrite ?cscal_c0, ?cadd_c0, ?cscal_c0, ?cadd_c0; auto; creal.
Qed.
(** No particles are created or lost: whichever integrator is chosen, for any drivers, noise, laser, sponge, clip and mode
    (linear response or full), the total number of electrons and of ions is the same after any number of steps. *)
Theorem C75_number_conserved : forall integrator c step n t s, module_cfg c -> hp_step integrator c = Some step ->
  number (hp_nx c) (hp_alpha_e c) (Ce (hp_run step (hp_dt c) n t s)) = number (hp_nx c) (hp_alpha_e c) (Ce s) /\
  number (hp_nx c) (hp_alpha_i c) (Ci (hp_run step (hp_dt c) n t s)) = number (hp_nx c) (hp_alpha_i c) (Ci s).
Proof.
  intros integrator c step n t s MC HS. pose proof (mc_nx c MC) as Hx. rewrite !number_eq by auto.
  assert (G : forall n t s, Ce (hp_run step (hp_dt c) n t s) 0%nat 0%nat = Ce s 0%nat 0%nat /\ Ci (hp_run step (hp_dt c) n t s) 0%nat 0%nat = Ci s 0%nat 0%nat).
  { clear n t s. assert (ST : forall t s, Ce (step t s) 0%nat 0%nat = Ce s 0%nat 0%nat /\ Ci (step t s) 0%nat 0%nat = Ci s 0%nat 0%nat).
    { unfold hp_step in HS. destruct (str_eqb integrator (lit "strang-exp")); [injection HS as <-; intros; apply strang_mean; auto|].
      destruct (str_eqb integrator (lit "lawson-rk4")); [injection HS as <-; intros; apply lawson_mean; auto|discriminate]. }
    induction n as [|n IH]; intros t s; [split; reflexivity|]. cbn [hp_run]. destruct (IH (t + hp_dt c) (step t s)) as [A B]. destruct (ST t s) as [A' B']. rewrite A, B. auto. }
  destruct (G n t s) as [-> ->]. split; reflexivity.
Qed.
Print Assumptions C75_number_conserved.

(** Static ions: without a plasma sponge the ion coefficients never change, with either integrator; a plasma sponge leaves the
    ion density alone. *)
Theorem C75_static_ions : forall integrator c step n t s, static_ions c = true -> sponge_plasma c = None -> hp_step integrator c = Some step ->
  forall i k, Ci (hp_run step (hp_dt c) n t s) i k = Ci s i k.
Proof.
  intros integrator c step n t s SI SP HS i k.
  assert (ST : forall t s, Ci (step t s) i k = Ci s i k).
  { intros t0 s0. unfold hp_step in HS. destruct (str_eqb integrator (lit "strang-exp")); [injection HS as <-|].
    - unfold strang_step, apply_sponge. rewrite SP. cbn [fst snd Ci]. unfold strang_coeffs, combined_exp. rewrite SI. reflexivity.
    - destruct (str_eqb integrator (lit "lawson-rk4")); [injection HS as <-|discriminate].
      assert (SN : forall t C a nz, snd (nonlinear_rhs c t C a nz) i k = c0) by (intros; unfold nonlinear_rhs; cbn [snd]; rewrite SI; reflexivity).
      assert (SE : forall C r, snd (combined_exp c C r) i k = snd C i k) by (intros; unfold combined_exp; cbn [snd]; rewrite SI; reflexivity).
      unfold lawson_step, apply_sponge. rewrite SP. cbn [fst snd Ci]. unfold lawson_rk4. cbv zeta.
      assert (TA : forall x y, snd (tadd x y) i k = cadd (snd x i k) (snd y i k)) by reflexivity.
      assert (TS : forall r x, snd (tscale r x) i k = cscal r (snd x i k)) by reflexivity.
      rewrite TA, SE, TS, !TA, !TS, !SE, !SN. creal. }
  revert t s. induction n as [|n IH]; intros t s; [reflexivity|]. cbn [hp_run]. rewrite IH. apply ST.
Qed.
Print Assumptions C75_static_ions.

(* ------------------------------------------------------------------------------------------------ *)
(** * Gauss's law of the saved field *)
Lemma poisson_spectral nx dx ne ni g : (g < nx)%nat -> poisson1d nx dx ne ni g = spectral_poisson nx dx None (fun h => ni h - ne h) g.
Proof.
  intros H. assert (N : INR nx <> 0) by (apply not_0_INR; lia). unfold poisson1d, spectral_poisson. f_equal. unfold finv, ifft, ffwd.
  rewrite <- csum_scal. apply csum_ext. intros k _. rewrite fft_emb. unfold emb. creal.
Qed.
Definition saved_charge (c : hpcfg) (s : hpstate) (g : nat) : R := ni_of c (Ce s, Ci s) g - ne_of c (Ce s, Ci s) g.
Lemma density_ext nx alpha C C' g : (forall k, (k < nx)%nat -> C 0%nat k = C' 0%nat k) -> density_of nx alpha C g = density_of nx alpha C' g.
Proof. intros H. unfold density_of. rewrite (finv_ext nx (C 0%nat) (C' 0%nat)); auto. Qed.
Lemma sponge_row0 nx sp dt C k : (k < nx)%nat -> sponge_row nx sp dt C 0%nat k = C 0%nat k.
Proof. intros H. unfold sponge_row. cbn [Nat.eqb]. rewrite (ffwd_ext nx _ (finv nx (C 0%nat))) by (intros; apply cscal_1). apply ffwd_finv; auto. Qed.
Lemma sponge_field c s : forall g, (g < hp_nx c)%nat -> field_of c (Ce (apply_sponge c s), Ci (apply_sponge c s)) g = field_of c (Ce s, Ci s) g.
Proof.
  intros g Hg. unfold field_of. rewrite !poisson_spectral by auto.
  assert (E : forall h, (h < hp_nx c)%nat -> (fun h => ni_of c (Ce (apply_sponge c s), Ci (apply_sponge c s)) h - ne_of c (Ce (apply_sponge c s), Ci (apply_sponge c s)) h) h
     = (fun h => ni_of c (Ce s, Ci s) h - ne_of c (Ce s, Ci s) h) h).
  { intros h Hh. cbv beta. unfold ni_of, ne_of, apply_sponge. cbn [fst snd Ce Ci]. destruct (sponge_plasma c) as [sp|]; [|reflexivity]. cbn [fst snd].
    rewrite (density_ext _ _ (sponge_row (hp_nx c) sp (hp_dt c) (Ce s)) (Ce s)) by (intros; apply sponge_row0; auto).
    destruct (static_density c); [reflexivity|]. rewrite (density_ext _ _ (sponge_row (hp_nx c) sp (hp_dt c) (Ci s)) (Ci s)) by (intros; apply sponge_row0; auto). reflexivity. }
  unfold spectral_poisson. f_equal. apply ifft_ext. intros k Hk. f_equal. apply fft_ext. exact E.
Qed.
(** After every step of either integrator the saved field has zero mean and satisfies Gauss's law d e/dx = n_i - n_e with the
    saved densities, mode by mode, sponge or not. *)
Theorem C75_gauss : forall integrator c step t s, (0 < hp_nx c)%nat -> hp_dx c <> 0 -> hp_step integrator c = Some step ->
  let s' := step t s in
  rsum (hp_nx c) (se s') = 0 /\
  forall m, (0 < m < hp_nx c)%nat -> (2 * m <> hp_nx c)%nat ->
    cmul (0, kx (hp_nx c) (hp_dx c) m) (fft (hp_nx c) (se s') m) = fft (hp_nx c) (saved_charge c s') m.
Proof.
  intros integrator c step t s Hx Hd HS s'.
  assert (FE : forall g, (g < hp_nx c)%nat -> se s' g = spectral_poisson (hp_nx c) (hp_dx c) None (saved_charge c s') g).
  { intros g Hg. change (spectral_poisson (hp_nx c) (hp_dx c) None (saved_charge c s') g) with (spectral_poisson (hp_nx c) (hp_dx c) None (fun h => ni_of c (Ce s', Ci s') h - ne_of c (Ce s', Ci s') h) g).
    rewrite <- poisson_spectral by auto. change (se s' g = field_of c (Ce s', Ci s') g).
    unfold s', hp_step in *. destruct (str_eqb integrator (lit "strang-exp")); [injection HS as <-|destruct (str_eqb integrator (lit "lawson-rk4")); [injection HS as <-|discriminate]].
    - unfold strang_step. rewrite sponge_field by auto. cbn [Ce Ci]. rewrite <- surjective_pairing. reflexivity.
    - unfold lawson_step. rewrite sponge_field by auto. cbn [Ce Ci]. rewrite <- surjective_pairing. reflexivity. }
  split.
  - rewrite (rsum_ext (hp_nx c) _ (spectral_poisson (hp_nx c) (hp_dx c) None (saved_charge c s'))) by auto. apply poisson_mean; auto.
  - intros m Hm Hm2. rewrite (fft_ext (hp_nx c) _ (spectral_poisson (hp_nx c) (hp_dx c) None (saved_charge c s'))) by auto.
    pose proof (gauss_law (hp_nx c) (hp_dx c) None (saved_charge c s') m Hd Hm Hm2) as G. cbn [total_charge] in G.
    match goal with |- cmul _ ?X = ?Y => transitivity (cmul (0, 1) (cscal (kx (hp_nx c) (hp_dx c) m) X)); [creal|]; rewrite G; creal end.
Qed.
Print Assumptions C75_gauss.

(* ------------------------------------------------------------------------------------------------ *)
(** * The sponge *)
(** The sponge never touches the density, never increases any other coefficient at any cell, leaves the two boundary cells of
    the vector potential alone and never increases its interior. *)
Lemma finv_sponge nx sp dt C n g : (g < nx)%nat -> finv nx (sponge_row nx sp dt C n) g = cscal (if (n =? 0)%nat then 1 else exp (- sp g * dt)) (finv nx (C n) g).
Proof. intros H. unfold sponge_row. rewrite finv_ffwd by auto. reflexivity. Qed.
Theorem C75_sponge : forall c sp sf s, sponge_plasma c = Some sp -> sponge_fields c = Some sf -> 0 <= hp_dt c ->
  (forall g, 0 <= sp g) -> (forall g, 0 <= sf g) ->
  let s' := apply_sponge c s in
  (forall g, (g < hp_nx c)%nat -> density_of (hp_nx c) (hp_alpha_e c) (Ce s') g = density_of (hp_nx c) (hp_alpha_e c) (Ce s) g /\
                                  density_of (hp_nx c) (hp_alpha_i c) (Ci s') g = density_of (hp_nx c) (hp_alpha_i c) (Ci s) g) /\
  (forall n g, (g < hp_nx c)%nat -> cabs2 (finv (hp_nx c) (Ce s' n) g) <= cabs2 (finv (hp_nx c) (Ce s n) g) /\
                                    cabs2 (finv (hp_nx c) (Ci s' n) g) <= cabs2 (finv (hp_nx c) (Ci s n) g)) /\
  sa s' 0%nat = sa s 0%nat /\ sa s' (S (hp_nx c)) = sa s (S (hp_nx c)) /\ (forall i, Rabs (sa s' i) <= Rabs (sa s i)) /\ (forall i, Rabs (sprev s' i) <= Rabs (sprev s i)).
Proof.
  intros c sp sf s SP SF Hdt Psp Psf s'.
  assert (D : forall r, 0 <= r -> exp (- r * hp_dt c) <= 1) by (intros r Hr; apply exp_le1; pose proof (Rmult_le_pos _ _ Hr Hdt); lra).
  assert (A : forall a i, Rabs (sponge_a (hp_nx c) sf (hp_dt c) a i) <= Rabs (a i)).
  { intros a i. unfold sponge_a. destruct ((1 <=? i) && (i <=? hp_nx c))%nat%bool; [|lra]. rewrite Rabs_mult, (Rabs_pos_eq (exp _)) by (left; apply exp_pos).
    pose proof (D (sf (i - 1)%nat) (Psf _)). pose proof (Rabs_pos (a i)). nra. }
  assert (Cc : forall C n g, (g < hp_nx c)%nat -> cabs2 (finv (hp_nx c) (sponge_row (hp_nx c) sp (hp_dt c) C n) g) <= cabs2 (finv (hp_nx c) (C n) g)).
  { intros C n g Hg. rewrite finv_sponge by auto. rewrite cabs2_scal. pose proof (cabs2_nonneg (finv (hp_nx c) (C n) g)). destruct (n =? 0)%nat; [lra|].
    pose proof (D (sp g) (Psp g)). pose proof (exp_pos (- sp g * hp_dt c)). assert (exp (- sp g * hp_dt c) * exp (- sp g * hp_dt c) <= 1) by nra. nra. }
  unfold s', apply_sponge. rewrite SP, SF. cbn [fst snd Ce Ci sa sprev]. repeat split; auto.
  - apply density_ext. intros; apply sponge_row0; auto.
  - apply density_ext. intros; apply sponge_row0; auto.
  - unfold sponge_a. destruct (Nat.leb_spec (S (hp_nx c)) (hp_nx c)); [lia|]. rewrite andb_false_r. reflexivity.
Qed.
Print Assumptions C75_sponge.

(* ------------------------------------------------------------------------------------------------ *)
(** * Linear-response mode *)
(** The density the wave equation sees is clipped to [0, wave_density_max]; in linear-response mode a missing bound becomes 2. *)
Theorem C75_clip : forall b n g, 0 <= b ->
  0 <= clip_density (Some b) n g <= b /\ (0 <= n g <= b -> clip_density (Some b) n g = n g) /\ clip_density None n g = n g /\
  wave_max_default true None = Some 2 /\ (forall lr, wave_max_default lr (Some b) = Some b) /\ wave_max_default false None = None.
Proof.
  intros b n g Hb. unfold clip_density, wave_max_default. repeat split; auto.
  - apply Rmin_glb; [apply Rmax_r|auto].
  - apply Rmin_r.
  - intros [H0 H1]. rewrite Rmax_left by lra. apply Rmin_left; lra.
Qed.
Print Assumptions C75_clip.
(** In linear-response mode about a Maxwellian (only row 0 populated) the force feeds row 1 only, in proportion to the
    acceleration, and does not depend on the perturbed coefficients: density and all higher rows are untouched, so no cascade. *)
Theorem C75_linear_response : forall c Nn alpha Ceq C accel n k, linear_response c = true -> (forall m j, (0 < m)%nat -> Ceq m j = c0) ->
  (n <> 1%nat -> strang_force c Nn alpha Ceq C accel n k = C n k) /\
  (forall C', csub (strang_force c Nn alpha Ceq C accel n k) (C n k) = csub (strang_force c Nn alpha Ceq C' accel n k) (C' n k)).
Proof.
  intros c Nn alpha Ceq C accel n k LR HE. unfold strang_force. rewrite LR. split.
  - intros Hn. assert (Z : e_coupling (hp_nx c) (hp_mask c) Ceq accel 1 alpha (hp_Om c) n k = c0).
    { destruct n as [|n]; [apply coupling_row0|]. unfold e_coupling. rewrite (masked_ext _ _ (fun _ => c0)); [apply masked_c0|]. cbn [shift_up].
      rewrite (ffwd_ext _ _ (fun _ => c0)); [rewrite ffwd_zero; apply cscal_c0|]. intros g _.
      rewrite (finv_ext _ _ (fun _ => c0)); [unfold finv; rewrite (csum_ext _ _ (fun _ => c0)) by (intros; creal); rewrite csum_zero; apply cscal_c0|].
      intros j _. rewrite (masked_ext _ _ (fun _ => c0)) by (apply HE; lia). apply masked_c0. }
    rewrite Z, cscal_c0. apply cadd_c0.
  - intros C'. creal.
Qed.
Print Assumptions C75_linear_response.
Definition with_linear (c : hpcfg) (lr : bool) (wm : option R) (terms : nat) (E I : coeffs) : hpcfg :=
  {| Nn_e := Nn_e c; Nn_i := Nn_i c; hp_nx := hp_nx c; hp_dx := hp_dx c; hp_alpha_e := hp_alpha_e c; hp_alpha_i := hp_alpha_i c; qm_e := qm_e c; qm_i := qm_i c;
     hp_Om := hp_Om c; hp_dt := hp_dt c; hp_c := hp_c c; static_ions := static_ions c; static_density := static_density c; sponge_plasma := sponge_plasma c;
     sponge_fields := sponge_fields c; hp_mask := hp_mask c; hp_noise := hp_noise c; force_terms := terms; wave_max := wm; linear_response := lr; Ceq_e := E; Ceq_i := I;
     lin_e := lin_e c; lin_i := lin_i c; exd := exd c; eyd := eyd c |}.
Definition gen_rk (dt : R) (E : coeffs * coeffs -> R -> coeffs * coeffs) (N : R -> coeffs * coeffs -> (nat -> R) -> (nat -> R) -> coeffs * coeffs) (noise : nat -> R)
  (t : R) (y : coeffs * coeffs) (a_frozen : nat -> R) : coeffs * coeffs :=
  let Eh_y := E y (dt / 2) in let Ef_y := E y dt in
  let N1 := N t y a_frozen noise in
  let N2 := N (t + dt / 2) (tadd Eh_y (tscale (dt / 2) (E N1 (dt / 2)))) a_frozen noise in
  let N3 := N (t + dt / 2) (tadd Eh_y (tscale (dt / 2) N2)) a_frozen noise in
  let Eh_N3 := E N3 (dt / 2) in
  let N4 := N (t + dt) (tadd Ef_y (tscale dt Eh_N3)) a_frozen noise in
  tadd Ef_y (tscale (dt / 6) (tadd (tadd (E N1 dt) (tscale 2 (E N2 (dt / 2)))) (tadd (tscale 2 Eh_N3) N4))).
Lemma lawson_gen c t y a : lawson_rk4 c t y a = gen_rk (hp_dt c) (combined_exp c) (nonlinear_rhs c) (hp_noise c t) t y a.
Proof. reflexivity. Qed.
(** The legacy integrator ignores terms.linear_response, terms.wave_density_max and terms.force_exp_terms: with
    integrator = "lawson-rk4" a run in linear-response mode is the full nonlinear run. *)
Theorem C75_lawson_ignores : forall c lr wm terms E I t s, lawson_step (with_linear c lr wm terms E I) t s = lawson_step c t s.
Proof.
  intros. assert (E1 : combined_exp (with_linear c lr wm terms E I) = combined_exp c) by reflexivity.
  assert (E2 : nonlinear_rhs (with_linear c lr wm terms E I) = nonlinear_rhs c) by reflexivity.
  assert (E3 : apply_sponge (with_linear c lr wm terms E I) = apply_sponge c) by reflexivity.
  assert (E4 : ne_of (with_linear c lr wm terms E I) = ne_of c) by reflexivity.
  assert (E5 : field_of (with_linear c lr wm terms E I) = field_of c) by reflexivity.
  unfold lawson_step. cbv zeta. rewrite !lawson_gen, E1, E2, E3, E4, E5.
  change (hp_dt (with_linear c lr wm terms E I)) with (hp_dt c) in *. change (hp_noise (with_linear c lr wm terms E I)) with (hp_noise c).
  generalize (gen_rk (hp_dt c) (combined_exp c) (nonlinear_rhs c) (hp_noise c t) t (Ce s, Ci s) (fun g => sa s (S g))) as Y. intros.
  reflexivity.
Qed.
Print Assumptions C75_lawson_ignores.

(* ------------------------------------------------------------------------------------------------ *)
(** * Initial state *)
(** The initial electron density is n0 (1 + eps cos(2 pi m x / Lx)) at every cell for every perturbed mode strictly between 0
    and the Nyquist mode (x_g = g Lx / Nx). *)
Lemma init_density nx alpha n0 m eps g : alpha <> 0 -> (0 < m)%nat -> (m < nx)%nat -> (2 * m <> nx)%nat ->
  density_of nx alpha (init_electrons nx alpha n0 (Some (m, eps))) g = n0 * (1 + eps * cos (angle nx m g)).
Proof.
  intros Ha H0 H1 H2. unfold density_of, finv. rewrite csum_fst.
  assert (A3 : alpha ^ 3 <> 0) by (apply pow_nonzero; auto).
  assert (E : rsum nx (fun k => fst (cmul (init_electrons nx alpha n0 (Some (m, eps)) 0%nat k) (cis (angle nx k g))))
     = rsum nx (fun k => if (k =? 0)%nat then n0 / alpha ^ 3 else 0) + rsum nx (fun k => if ((k =? m)%nat || (k =? nx - m)%nat)%bool then 1 / 2 * eps * n0 / alpha ^ 3 * cos (angle nx m g) else 0)).
  { rewrite <- rsum_plus. apply rsum_ext. intros k Hk. unfold init_electrons. cbn [Nat.eqb andb].
    destruct (Nat.ltb_spec 0 m); [|lia]. destruct (Nat.leb_spec m nx); [|lia]. cbn [andb].
    destruct (Nat.eqb_spec k m) as [->|N1]; cbn [orb].
    - destruct (Nat.eqb_spec m 0); [lia|]. unfold cmul, cis. cbn [fst snd]. ring.
    - destruct (Nat.eqb_spec k (nx - m)) as [->|N2]; cbn [orb].
      + destruct (Nat.eqb_spec (nx - m) 0); [lia|]. rewrite (cis_mirror nx m g) by lia. unfold cmul, cis. cbn [fst snd]. rewrite cos_neg. ring.
      + destruct (Nat.eqb_spec k 0) as [->|]; [rewrite angle_0k|]; unfold cmul, cis, c0; cbn [fst snd]; rewrite ?cos_0; ring. }
  rewrite E. rewrite (rsum_single nx 0); [| lia | intros i _ Hi; destruct (Nat.eqb_spec i 0); [lia|reflexivity]]. cbn [Nat.eqb].
  rewrite (rsum_pair nx m (nx - m)); try lia.
  - rewrite !Nat.eqb_refl, orb_true_r. cbn [orb]. field. auto.
  - intros i _ A B. destruct (Nat.eqb_spec i m); [lia|]. destruct (Nat.eqb_spec i (nx - m)); [lia|]. reflexivity.
Qed.
Theorem C75_initial_density : forall nx alpha n0 g, alpha <> 0 -> (0 < nx)%nat ->
  density_of nx alpha (init_electrons nx alpha n0 None) g = n0 /\ density_of nx alpha (init_ions alpha n0) g = n0 /\ forall m eps, (0 < m < nx)%nat -> (2 * m <> nx)%nat ->
    density_of nx alpha (init_electrons nx alpha n0 (Some (m, eps))) g = n0 * (1 + eps * cos (2 * PI * INR m * INR g / INR nx)).
Proof.
  intros nx alpha n0 g Ha Hx. assert (A3 : alpha ^ 3 <> 0) by (apply pow_nonzero; auto). split; [|split].
  - unfold density_of. rewrite finv_const; auto; [cbn; field; auto|]. intros k Hk. unfold init_electrons. destruct (Nat.eqb_spec k 0); [lia|]. reflexivity.
  - unfold density_of. rewrite finv_const; auto; [cbn; field; auto|]. intros k Hk. unfold init_ions. destruct (Nat.eqb_spec k 0); [lia|]. reflexivity.
  - intros m eps Hm H2. apply init_density; auto; lia.
Qed.
Print Assumptions C75_initial_density.
(** At mode 0 and at the Nyquist mode the documented profile n0 (1 + eps cos(...)) is not what is built: mode 0 replaces the
    background by n0 eps / 2, and the Nyquist mode gets half the amplitude. *)
Theorem C75_perturbation_refuted : ~ (forall nx alpha n0 m eps g, 0 < alpha -> (0 < nx)%nat -> (m < nx)%nat ->
  density_of nx alpha (init_electrons nx alpha n0 (Some (m, eps))) g = n0 * (1 + eps * cos (2 * PI * INR m * INR g / INR nx))).
Proof.
  intros H. specialize (H 4%nat 1 1 0%nat (1 / 10) 0%nat ltac:(lra) ltac:(lia) ltac:(lia)). revert H. unfold density_of. rewrite finv_const.
  - cbn. replace (2 * PI * 0 * 0 / (1 + 1 + 1 + 1)) with 0 by field. rewrite cos_0. lra.
  - intros k Hk. unfold init_electrons. cbn [Nat.eqb andb]. destruct (Nat.eqb_spec k 0); [lia|]. reflexivity.
  - lia.
Qed.
Print Assumptions C75_perturbation_refuted.
Theorem C75_nyquist_perturbation_refuted : ~ (forall nx alpha n0 m eps g, 0 < alpha -> (0 < m)%nat -> (m < nx)%nat ->
  density_of nx alpha (init_electrons nx alpha n0 (Some (m, eps))) g = n0 * (1 + eps * cos (2 * PI * INR m * INR g / INR nx))).
Proof.
  intros H. specialize (H 2%nat 1 1 1%nat (1 / 10) 0%nat ltac:(lra) ltac:(lia) ltac:(lia)). revert H. unfold density_of, finv.
  cbn [csum]. unfold init_electrons. cbn [Nat.eqb andb orb Nat.sub Nat.ltb Nat.leb].
  assert (A0 : forall k, angle 2 k 0 = 0) by (intros; unfold angle; cbn [INR]; unfold Rdiv; ring). rewrite !A0, cis_0.
  unfold cadd, cmul, c0, c1. cbn [fst snd INR]. replace (2 * PI * 1 * 0 / (1 + 1)) with 0 by field. rewrite cos_0. lra.
Qed.
Print Assumptions C75_nyquist_perturbation_refuted.

(* ------------------------------------------------------------------------------------------------ *)
(** * Equilibrium *)
Lemma stream_zero_in Nn ev V alpha kxs C s n k : (forall m, (m < Nn)%nat -> C m k = c0) -> stream Nn ev V alpha kxs C s n k = c0.
Proof.
  intros H. unfold stream. rewrite (csum_ext Nn _ (fun _ => c0)); [apply csum_zero|]. intros i _.
  rewrite (csum_ext Nn (fun m => cscal (V m i) (C m k)) (fun _ => c0)) by (intros m Hm; rewrite H by auto; apply cscal_c0). rewrite csum_zero. creal.
Qed.
Definition uniform_eq (v : R) (C : coeffs) (Nn nx : nat) : Prop := forall n k, (n < Nn)%nat -> (k < nx)%nat -> C n k = if ((n =? 0) && (k =? 0))%nat%bool then (v, 0) else c0.
Lemma lin_uniform Nn nx lin v C s : (0 < Nn)%nat -> module_linear Nn nx lin -> uniform_eq v C Nn nx -> uniform_eq v (lin C s) Nn nx.
Proof.
  intros HN ML HU n k Hn Hk. destruct (Nat.eqb_spec k 0) as [->|Nk].
  - destruct (Nat.eqb_spec n 0) as [->|Nn0].
    + rewrite (module_linear_mean Nn nx lin HN ML). rewrite HU by auto. reflexivity.
    + destruct ML as (ev & V & alpha & Lx & nu & model & col & D & strength & hl & EIG & HC & HL & ->). unfold hp_linear, linear_exp, diagonal.
      rewrite (C73_mean_unchanged Nn (stream_T 0 alpha)) by auto. rewrite HU by auto. destruct (Nat.eqb_spec n 0); [lia|]. cbn [andb]. apply cscal_c0.
  - rewrite andb_false_r. destruct ML as (ev & V & alpha & Lx & nu & model & col & D & strength & hl & EIG & HC & HL & ->). unfold hp_linear, linear_exp, diagonal.
    rewrite stream_zero_in; [apply cscal_c0|]. intros m Hm. rewrite HU by auto. destruct (Nat.eqb_spec k 0); [lia|]. rewrite andb_false_r. reflexivity.
Qed.
Lemma uniform_density nx alpha v C Nn g : (0 < nx)%nat -> (0 < Nn)%nat -> uniform_eq v C Nn nx -> density_of nx alpha C g = alpha ^ 3 * v.
Proof.
  intros Hx HN HU. unfold density_of. rewrite finv_const; auto.
  - rewrite HU by auto. reflexivity.
  - intros k Hk. rewrite HU by (auto; lia). destruct (Nat.eqb_spec k 0); [lia|reflexivity].
Qed.
Lemma poisson_uniform nx dx ne ni a b g : (g < nx)%nat -> (forall h, (h < nx)%nat -> ne h = a) -> (forall h, (h < nx)%nat -> ni h = b) -> poisson1d nx dx ne ni g = 0.
Proof.
  intros Hg H1 H2. rewrite poisson_spectral by auto. transitivity (spectral_poisson nx dx None (fun _ => b - a) g); [|apply poisson_const; lia].
  unfold spectral_poisson. f_equal. apply ifft_ext. intros k Hk. f_equal. apply fft_ext. intros h Hh. rewrite H1, H2; auto.
Qed.
(** A uniform plasma at rest with no laser, drivers or noise is a fixed point of the strang-exp step: coefficients, vector potential and
    field stay as they are, whatever the two densities. *)
Record quiet (c : hpcfg) : Prop := {
  q_noise : forall t g, hp_noise c t g = 0; q_exd : forall t g, exd c t g = 0; q_eyd : forall t i, eyd c t i = 0;
  q_static : forall n, static_density c = Some n -> exists v, forall g, n g = v }.
Lemma wave_zero nx cc dx dt a aold djy ne i : (2 <= nx)%nat -> (i < nx + 2)%nat -> (forall j, a j = 0) -> (forall j, aold j = 0) -> (forall j, djy j = 0) ->
  fst (wave_step nx cc dx dt a aold djy ne) i = 0 /\ snd (wave_step nx cc dx dt a aold djy ne) i = 0.
Proof.
  intros Hx Hi Ha Ho Hd. unfold wave_step. destruct (Rlt_dec 0 cc); cbn [fst snd]; [|split; auto]. split; [|apply Ha].
  assert (W : forall j, wave_interior cc dx dt a aold djy ne j = 0) by (intros j; unfold wave_interior; rewrite !Ha, Ho, Hd; unfold Rdiv; ring).
  destruct (i =? 0)%nat; [unfold wave_left, abc; rewrite !W, !Ha, !Ho; ring|]. destruct (i =? nx + 1)%nat; [unfold wave_right, abc; rewrite !W, !Ha, !Ho; ring|apply W].
Qed.
Lemma force_uniform c Nn alpha v Ceq C accel : module_cfg c -> (0 < Nn)%nat -> uniform_eq v C Nn (hp_nx c) -> (forall g, (g < hp_nx c)%nat -> accel g = 0) ->
  uniform_eq v (strang_force c Nn alpha Ceq C accel) Nn (hp_nx c).
Proof.
  intros MC HN HU HA n k Hn Hk. destruct MC as [Hx He Hi HM Le Li]. unfold strang_force.
  assert (MF : forall g, (g < hp_nx c)%nat -> masked_force (hp_nx c) (hp_mask c) accel g = 0).
  { intros g Hg. rewrite (masked_force_ext _ _ accel (fun _ => 0) g Hg) by auto. rewrite HM. apply (masked_force_const (hp_nx c) 0 true g Hg). }
  destruct (linear_response c).
  - assert (Z : e_coupling (hp_nx c) (hp_mask c) Ceq accel 1 alpha (hp_Om c) n k = c0).
    { unfold e_coupling. rewrite (masked_ext _ _ (fun _ => c0)); [apply masked_c0|]. rewrite (ffwd_ext _ _ (fun _ => c0)); [rewrite ffwd_zero; apply cscal_c0|].
      intros g Hg. rewrite MF by auto. rewrite Rmult_0_r. apply cscal_0. }
    rewrite Z, cscal_c0, cadd_c0. apply HU; auto.
  - unfold force_substep. rewrite HM in *.
    assert (MC : forall j, (j < hp_nx c)%nat -> masked (Some (mask23 (hp_nx c))) (C n) j = C n j).
    { intros j Hj. unfold masked. destruct (Nat.eqb_spec j 0) as [->|]; [rewrite mask_zero; reflexivity|]. rewrite HU by auto. destruct (Nat.eqb_spec j 0); [lia|]. rewrite andb_false_r.
      destruct (mask23 (hp_nx c) j); reflexivity. }
    rewrite (masked_ext _ _ (C n) k); [rewrite MC by auto; apply HU; auto|].
    rewrite <- (ffwd_finv (hp_nx c) (C n) k Hk). apply ffwd_ext. intros g Hg.
    assert (CS : forall K terms D, force_series (fun n' _ => K n' * 0) terms D n g = D n g).
    { intros K terms D. unfold force_series. rewrite csum_shift. rewrite (csum_ext terms _ (fun _ => c0)); [rewrite csum_zero; apply cadd_c0|].
      intros j _. cbn [force_term]. rewrite Rmult_0_r. rewrite cscal_0. apply cscal_c0. }
    rewrite (force_series_ext _ (fun n' _ => kappa (hp_Om c) alpha n' * 0) _ _ (fun n' => finv (hp_nx c) (masked (Some (mask23 (hp_nx c))) (C n')))).
    + rewrite CS. apply finv_ext. auto.
    + intros m _. rewrite MF by auto. ring.
    + reflexivity.
Qed.
Theorem C75_equilibrium : forall c t s ve vi, module_cfg c -> quiet c -> (2 <= hp_nx c)%nat -> sponge_plasma c = None -> sponge_fields c = None ->
  uniform_eq ve (Ce s) (Nn_e c) (hp_nx c) -> uniform_eq vi (Ci s) (Nn_i c) (hp_nx c) -> (forall i, sa s i = 0) -> (forall i, sprev s i = 0) ->
  let s' := strang_step c t s in
  uniform_eq ve (Ce s') (Nn_e c) (hp_nx c) /\ uniform_eq vi (Ci s') (Nn_i c) (hp_nx c) /\ (forall i, (i < hp_nx c + 2)%nat -> sa s' i = 0 /\ sprev s' i = 0) /\ (forall g, (g < hp_nx c)%nat -> se s' g = 0).
Proof.
  intros c t s ve vi MC Q H2 SP SF UE UI HA HP s'. pose proof MC as [Hx He Hi HM Le Li]. destruct Q as [QN QX QY QS].
  assert (FZ : forall C, uniform_eq ve (fst C) (Nn_e c) (hp_nx c) -> uniform_eq vi (snd C) (Nn_i c) (hp_nx c) -> forall g, (g < hp_nx c)%nat -> field_of c C g = 0).
  { intros C A B g Hg. unfold field_of. destruct (static_density c) as [sd|] eqn:SD.
    - destruct (QS sd eq_refl) as [v Hv]. apply (poisson_uniform _ _ _ _ (hp_alpha_e c ^ 3 * ve) v); auto.
      + intros h Hh. apply (uniform_density _ _ _ _ (Nn_e c)); auto.
      + intros h Hh. unfold ni_of. rewrite SD. apply Hv.
    - apply (poisson_uniform _ _ _ _ (hp_alpha_e c ^ 3 * ve) (hp_alpha_i c ^ 3 * vi)); auto.
      + intros h Hh. apply (uniform_density _ _ _ _ (Nn_e c)); auto.
      + intros h Hh. unfold ni_of. rewrite SD. apply (uniform_density _ _ _ _ (Nn_i c)); auto. }
  assert (CE : forall C r, uniform_eq ve (fst C) (Nn_e c) (hp_nx c) -> uniform_eq vi (snd C) (Nn_i c) (hp_nx c) ->
     uniform_eq ve (fst (combined_exp c C r)) (Nn_e c) (hp_nx c) /\ uniform_eq vi (snd (combined_exp c C r)) (Nn_i c) (hp_nx c)).
  { intros C r A B. unfold combined_exp. cbn [fst snd]. split; [apply lin_uniform; auto|]. destruct (static_ions c); auto. apply lin_uniform; auto. }
  assert (SC : uniform_eq ve (fst (strang_coeffs c t s)) (Nn_e c) (hp_nx c) /\ uniform_eq vi (snd (strang_coeffs c t s)) (Nn_i c) (hp_nx c)).
  { unfold strang_coeffs. cbv zeta. set (Ch := combined_exp c (Ce s, Ci s) (hp_dt c / 2)).
    destruct (CE (Ce s, Ci s) (hp_dt c / 2) UE UI) as [A B]. fold Ch in A, B.
    assert (AZ : forall qm g, (g < hp_nx c)%nat -> strang_accel c t s Ch qm g = 0).
    { intros qm g Hg. unfold strang_accel, accel_of. rewrite FZ, QX, QN by auto. unfold pond, jgradient. rewrite !HA, !HP.
      destruct (g =? 0)%nat; [unfold Rdiv; ring|]. destruct (g =? hp_nx c - 1)%nat; unfold Rdiv; ring. }
    apply CE; cbn [fst snd].
    - apply force_uniform; auto.
    - destruct (static_ions c); auto. apply force_uniform; auto. }
  destruct SC as [SE SI]. unfold s', strang_step, apply_sponge. rewrite SP, SF. cbn [fst snd Ce Ci sa sprev se].
  split; [exact SE|]. split; [exact SI|]. split; [|intros g Hg; apply FZ; auto]. intros i Hii. apply wave_zero; auto.
Qed.
Print Assumptions C75_equilibrium.

(* ------------------------------------------------------------------------------------------------ *)
(** * Time grid, integrator names, drivers *)
(** Every other integrator name is an error. *)
Theorem C75_integrators : forall integrator c, hp_step integrator c = None <-> integrator <> lit "strang-exp" /\ integrator <> lit "lawson-rk4".
Proof.
  intros i c. unfold hp_step. destruct (str_eqb_spec i (lit "strang-exp")) as [->|N]; [split; [discriminate|intros [A _]; congruence]|].
  destruct (str_eqb_spec i (lit "lawson-rk4")) as [->|N2]; [split; [discriminate|intros [_ A]; congruence]|]. split; auto.
Qed.
Print Assumptions C75_integrators.
(** The run always reaches the requested end time and overshoots it by at most one step; the default time step respects the wave
    CFL bound; the step budget exceeds the number of steps. *)
Lemma floor_b x : IZR (Pic.floor x) <= x < IZR (Pic.floor x) + 1.
Proof. unfold Pic.floor. destruct (archimed x). rewrite minus_IZR. lra. Qed.
Theorem C75_time_grid : forall Lx nx c_light tmax user_dt, 0 < Lx -> (0 < nx)%nat -> 0 < c_light -> 0 <= tmax ->
  match hp_derived Lx nx c_light tmax user_dt with
  | (dx, dt, nt, tmax', max_steps) =>
      0 < dt /\ (1 <= nt)%Z /\ tmax' = dt * IZR nt /\ tmax < tmax' <= tmax + dt /\ (nt < max_steps)%Z /\ (match user_dt with Some d => 0 < d -> dt = d | None => c_light * dt / dx = 9 / 10 end)
  end.
Proof.
  intros Lx nx cl tmax ud HL Hn Hc Ht. unfold hp_derived. set (dx := Lx / INR nx).
  assert (Hdx : 0 < dx) by (apply Rdiv_lt_0_compat; [auto|apply lt_0_INR; auto]).
  assert (Hd0 : 0 < 9 / 10 * dx / cl) by (apply Rdiv_lt_0_compat; lra).
  set (dt := match ud with Some d => if Rlt_dec 0 d then d else 9 / 10 * dx / cl | None => 9 / 10 * dx / cl end).
  assert (Hdt : 0 < dt) by (unfold dt; destruct ud as [d|]; auto; destruct (Rlt_dec 0 d); auto).
  pose proof (floor_b (tmax / dt)) as [F1 F2]. assert (Hq : 0 <= tmax / dt) by (apply Rmult_le_pos; [auto|left; apply Rinv_0_lt_compat; auto]).
  assert (E : tmax = dt * (tmax / dt)) by (field; lra).
  split; [auto|]. split; [|split; [reflexivity|split; [|split; [lia|]]]].
  - assert (-1 < Pic.floor (tmax / dt))%Z by (apply lt_IZR; lra). lia.
  - rewrite plus_IZR. split; [rewrite E at 1|rewrite E at 2]; nra.
  - unfold dt. destruct ud as [d|]; [intros; destruct (Rlt_dec 0 d); [reflexivity|lra]|]. field. split; lra.
Qed.
Print Assumptions C75_time_grid.
(** A user-supplied time step is not checked against the wave CFL bound. *)
Theorem C75_user_dt_refuted : ~ (forall Lx nx c_light tmax user_dt, 0 < Lx -> (0 < nx)%nat -> 0 < c_light -> 0 <= tmax ->
  match hp_derived Lx nx c_light tmax user_dt with (dx, dt, _, _, _) => c_light * dt <= dx end).
Proof.
  intros H. specialize (H 1 1%nat 1 10 (Some 2) ltac:(lra) ltac:(lia) ltac:(lra) ltac:(lra)). unfold hp_derived in H. cbn [INR] in H. destruct (Rlt_dec 0 2); lra.
Qed.
Print Assumptions C75_user_dt_refuted.
(** The transverse driver: the source mode is "extended" unless "point" is given, any other name is an error; an extended
    envelope with non-positive integral is an error; otherwise the strengths are calibrated so that the radiated amplitude is
    a0: S0 G / (2 w c) = a0 for the extended source, F0 / (2 w c) = a0 for the point source of integrated strength F0. *)
Theorem C75_driver_calibration : forall w a0 c dx G, 0 < w -> 0 < c -> 0 < dx ->
  parse_source None = Some Extended /\ (forall s, parse_source (Some s) = None <-> s <> lit "extended" /\ s <> lit "point") /\ (extended_amp w a0 c G = None <-> G <= 0) /\ (forall amp, extended_amp w a0 c G = Some amp -> - amp * G / (2 * w * c) = a0) /\ (forall n i0 env_t t, (i0 < n)%nat -> rsum n (fun i => point_pulse (point_scale w a0 c dx) w i0 env_t t i * dx) / (2 * w * c) = a0 * (env_t * sin (w * t))).
Proof.
  intros w a0 c dx G Hw Hc Hd. split; [reflexivity|]. split; [|split; [|split]].
  - intros s. unfold parse_source. destruct (str_eqb_spec s (lit "extended")) as [->|N]; [split; [discriminate|intros [A _]; congruence]|].
    destruct (str_eqb_spec s (lit "point")) as [->|N2]; [split; [discriminate|intros [_ A]; congruence]|]. split; auto.
  - unfold extended_amp. destruct (Rle_dec G 0); split; auto; try discriminate. intros; lra.
  - unfold extended_amp. destruct (Rle_dec G 0); [discriminate|]. intros amp [= <-]. field. repeat split; lra.
  - intros n i0 env_t t Hi. rewrite (rsum_single n i0); auto.
    + unfold point_pulse, point_scale. rewrite Nat.eqb_refl. field. repeat split; lra.
    + intros i _ Hne. unfold point_pulse. destruct (Nat.eqb_spec i i0); [lia|]. ring.
Qed.
Print Assumptions C75_driver_calibration.

(* ---- non-vacuity ---- *)
Example C75_cfg_inhabited : exists c, module_cfg c /\ quiet c /\ sponge_plasma c = None /\ sponge_fields c = None.
Proof.
  pose (lin := hp_linear 2 ex_ev ex_V 1 8 1 0 (safe_col 2) 0 0 None).
  exists {| Nn_e := 2; Nn_i := 2; hp_nx := 8; hp_dx := 1 / 8; hp_alpha_e := 1; hp_alpha_i := 1; qm_e := - (1); qm_i := 1 / 1836; hp_Om := 1; hp_dt := 1 / 10; hp_c := 1;
    static_ions := false; static_density := None; sponge_plasma := None; sponge_fields := None; hp_mask := Some (mask23 8); hp_noise := fun _ _ => 0; force_terms := 24;
    wave_max := None; linear_response := false; Ceq_e := fun _ _ => c0; Ceq_i := fun _ _ => c0; lin_e := lin; lin_i := lin; exd := fun _ _ => 0; eyd := fun _ _ => 0 |}.
  assert (M : module_linear 2 8 lin).
  { exists ex_ev, ex_V, 1, 1, 0, (lit "hypercollision"), (safe_col 2), 0, 0, None. split; [apply C73_eigh_inhabited|]. split; [reflexivity|]. split; [left; reflexivity|reflexivity]. }
  split; [split; cbn; auto; lia|]. split; [split; cbn; auto; discriminate|]. split; reflexivity.
Qed.
