(** Initial mass, initial field and the Legendre projection of the Hermite-Legendre solver. *)
From Coq Require Import Reals Lra Lia ZArith List Bool Psatz.
From Verif Require Import HermitePoisson HPProps HPForceProps HPStepProps Legendre HermLeg HLBasis HermLegProps HLColl HLStep HLStepProps HLStepProps2 HLInit HLInitProps VGrid PyStr PicProofs RSum Pic PicFourier Dft.
Import ListNotations.
Local Open Scope R_scope.

(* ------------------------------------------------------------------------------------------------ *)
(** * Lemmas *)
Lemma wave_node Lx nx g eps md : Lx <> 0 -> (0 < nx)%nat -> wave eps md Lx (hl_x Lx nx g) = 1 + eps * cos (angleZ nx md g + 0).
Proof.
  intros HL Hn. unfold wave, hl_x, angleZ. do 3 f_equal. field. split; [apply not_0_INR; lia|exact HL].
Qed.
Lemma wave_sum Lx nx eps md : Lx <> 0 -> (0 < nx)%nat ->
  rsum nx (fun g => wave eps md Lx (hl_x Lx nx g)) = INR nx * (if (md mod Z.of_nat nx =? 0)%Z then 1 + eps else 1).
Proof.
  intros HL Hn. rewrite (rsum_ext _ _ (fun g => 1 + eps * cos (angleZ nx md g + 0))) by (intros; now apply wave_node).
  rewrite rsum_plus, rsum_const, rsum_scal, cos_sum by exact Hn. destruct (md mod Z.of_nat nx =? 0)%Z; rewrite ?cos_0; ring.
Qed.
(** Row 0 of the initial state of the three named problems: base times the wave over alpha, and the beam. *)
Definition base_of (i : icfg) (s : str) : R := if str_eqb s (lit "bump-on-tail") then 1 - dflt (i_nbeam i) (1 / 100) else 1.
Definition eps_of (i : icfg) (s : str) : R :=
  if str_eqb s (lit "linear-advection") then dflt (i_eps i) 1 else if str_eqb s (lit "two-stream") then dflt (i_eps i) (1 / 100) else dflt (i_eps i) (1 / 10000).
Definition beam_of (nodes weights : nat -> R) (Nl : nat) (va vb : R) (i : icfg) (s : str) : R :=
  if str_eqb s (lit "bump-on-tail") then window_sum nodes weights Nl va vb (gauss_beam (the_beam i)) else 0.
Lemma init_rows nodes weights nx Nh Nl alpha va vb Lx i s r : va < vb -> In s [lit "linear-advection"; lit "two-stream"; lit "bump-on-tail"] -> is_type i s ->
  hl_init nodes weights nx Nh Nl alpha va vb Lx i = Some r ->
  forall g, fst r 0%nat g = base_of i s * wave (eps_of i s) (dflt (i_mode i) 1%Z) Lx (hl_x Lx nx g) / alpha /\ (vb - va) * snd r 0%nat g = beam_of nodes weights Nl va vb i s.
Proof.
  intros Hv Hs T H g. unfold hl_init in H. cbv zeta in H. rewrite (type_dflt _ _ T) in H. destruct Hs as [<-|[<-|[<-|[]]]]; cbn - [Nat.ltb sqrt project_legendre] in H; injection H as <-.
  - cbn [fst snd]. split; [reflexivity|]. unfold beam_of. cbn [str_eqb lit]. cbn. ring.
  - cbn [fst snd]. split; [|unfold beam_of; cbn; ring]. destruct (2 <? Nh)%nat; reflexivity.
  - cbn [fst snd]. split; [reflexivity|]. unfold beam_of. change (str_eqb (lit "bump-on-tail") (lit "bump-on-tail")) with true. cbv iota. rewrite <- project_0 by exact Hv. reflexivity.
Qed.
Lemma row_mean nx (r : rstate) : k0 (fst (to_k nx r)) 0 = rsum nx (fst r 0%nat) / INR nx /\ k0 (snd (to_k nx r)) 0 = rsum nx (snd r 0%nat) / INR nx.
Proof. unfold k0, to_k. cbn [fst snd]. change (fun g => (fst r 0%nat g, 0)) with (emb (fst r 0%nat)). change (fun g => (snd r 0%nat g, 0)) with (emb (snd r 0%nat)). unfold emb. rewrite !ffwd_mean. split; reflexivity. Qed.

(* ------------------------------------------------------------------------------------------------ *)
(** * Mass and field at t = 0 *)
(** The saved mass at t = 0 is the box length times the requested mean density plus the beam's part inside the window, when
    the mode is not a multiple of Nx. *)
Theorem C96_initial_mass : forall nodes weights c i s r, hl_alpha c <> 0 -> hl_va c < hl_vb c -> hl_Lx c <> 0 -> (0 < hl_nx c)%nat -> (0 < hl_Nh c)%nat -> (0 < hl_Nl c)%nat ->
  In s [lit "linear-advection"; lit "two-stream"; lit "bump-on-tail"] -> is_type i s ->
  hl_init nodes weights (hl_nx c) (hl_Nh c) (hl_Nl c) (hl_alpha c) (hl_va c) (hl_vb c) (hl_Lx c) i = Some r ->
  (dflt (i_mode i) 1 mod Z.of_nat (hl_nx c) <> 0)%Z ->
  mass c (to_k (hl_nx c) r) = hl_Lx c * (base_of i s + beam_of nodes weights (hl_Nl c) (hl_va c) (hl_vb c) i s).
Proof.
  intros nodes weights c i s r Ha Hv HL Hn HN HNl Hs T H Hm. pose proof (init_rows _ _ _ _ _ _ _ _ _ _ _ _ Hv Hs T H) as RW.
  assert (Nn : INR (hl_nx c) <> 0) by (apply not_0_INR; lia).
  unfold mass, sv_mass, intg. rewrite (proj2 (Nat.ltb_lt 0 (hl_Nh c)) HN), (proj2 (Nat.ltb_lt 0 (hl_Nl c)) HNl). destruct (row_mean (hl_nx c) r) as [-> ->].
  rewrite (rsum_ext _ (fst r 0%nat) (fun g => base_of i s / hl_alpha c * wave (eps_of i s) (dflt (i_mode i) 1%Z) (hl_Lx c) (hl_x (hl_Lx c) (hl_nx c) g))).
  - rewrite rsum_scal, wave_sum by assumption. destruct (Z.eqb_spec (dflt (i_mode i) 1 mod Z.of_nat (hl_nx c))%Z 0); [contradiction|].
    rewrite (rsum_ext _ (snd r 0%nat) (fun g => beam_of nodes weights (hl_Nl c) (hl_va c) (hl_vb c) i s / (hl_vb c - hl_va c))).
    + rewrite rsum_const. field. repeat split; auto; lra.
    + intros g _. destruct (RW g) as [_ <-]. field. lra.
  - intros g _. destruct (RW g) as [-> _]. field. auto.
Qed.
Print Assumptions C96_initial_mass.
(** A mode that is a multiple of Nx is constant on the grid: the perturbation then changes the mass. *)
Theorem C96_mode_refuted : ~ (forall nodes weights c i r, hl_alpha c <> 0 -> hl_va c < hl_vb c -> hl_Lx c <> 0 -> (0 < hl_nx c)%nat -> (0 < hl_Nh c)%nat -> (0 < hl_Nl c)%nat ->
  is_type i (lit "linear-advection") -> i_mode i <> Some 0%Z ->
  hl_init nodes weights (hl_nx c) (hl_Nh c) (hl_Nl c) (hl_alpha c) (hl_va c) (hl_vb c) (hl_Lx c) i = Some r -> mass c (to_k (hl_nx c) r) = hl_Lx c).
Proof.
  intros H. set (c := ex_cfg Split). set (i := {| i_type := None; i_eps := Some 1; i_mode := Some (Z.of_nat (hl_nx c)); i_nbeam := None; i_vdrift := None; i_vth := None; i_hermite := []; i_df := None |}).
  destruct (hl_init (fun _ => 0) (fun _ => 0) (hl_nx c) (hl_Nh c) (hl_Nl c) (hl_alpha c) (hl_va c) (hl_vb c) (hl_Lx c) i) as [r|] eqn:E; [|discriminate E].
  assert (Ha : hl_alpha c <> 0) by (cbn; lra). assert (Hv : hl_va c < hl_vb c) by (cbn; lra). assert (HL : hl_Lx c <> 0) by (cbn; lra).
  assert (Hn : (0 < hl_nx c)%nat) by (cbn; lia). assert (HN : (0 < hl_Nh c)%nat) by (cbn; lia). assert (HNl : (0 < hl_Nl c)%nat) by (cbn; lia).
  assert (T : is_type i (lit "linear-advection")) by (right; split; reflexivity).
  specialize (H (fun _ => 0) (fun _ => 0) c i r Ha Hv HL Hn HN HNl T ltac:(discriminate) E).
  pose proof (init_rows _ _ _ _ _ _ _ _ _ _ _ _ Hv (or_introl eq_refl) T E) as RW. assert (Nn : INR (hl_nx c) <> 0) by (apply not_0_INR; lia).
  unfold mass, sv_mass, intg in H. rewrite (proj2 (Nat.ltb_lt 0 (hl_Nh c)) HN), (proj2 (Nat.ltb_lt 0 (hl_Nl c)) HNl) in H. destruct (row_mean (hl_nx c) r) as [E1 E2]. rewrite E1, E2 in H.
  rewrite (rsum_ext _ (fst r 0%nat) (fun g => 1 / hl_alpha c * wave 1 (Z.of_nat (hl_nx c)) (hl_Lx c) (hl_x (hl_Lx c) (hl_nx c) g))) in H.
  - rewrite rsum_scal, wave_sum in H by assumption. rewrite Z_mod_same_full in H. cbn [Z.eqb] in H.
    rewrite (rsum_ext _ (snd r 0%nat) (fun g => 0)) in H.
    + rewrite rsum_zero in H. revert H. replace (hl_alpha c * (hl_Lx c * (1 / hl_alpha c * (INR (hl_nx c) * (1 + 1)) / INR (hl_nx c))) + (hl_vb c - hl_va c) * (hl_Lx c * (0 / INR (hl_nx c)))) with (2 * hl_Lx c) by (field; auto). intros H. lra.
    + intros g _. destruct (RW g) as [_ Q]. unfold beam_of in Q. cbn [str_eqb lit] in Q. apply Rmult_integral in Q. destruct Q as [Q|Q]; [lra|exact Q].
  - intros g _. destruct (RW g) as [-> _]. unfold base_of, eps_of. cbn [str_eqb lit]. cbn - [hl_x wave hl_nx hl_Lx hl_alpha c]. change (i_eps i) with (Some 1). cbn [dflt]. change (i_mode i) with (Some (Z.of_nat (hl_nx c))). cbn [dflt]. field. exact Ha.
Qed.
Print Assumptions C96_mode_refuted.

(** The seeded field is the solution of Poisson's equation for the initial density, in closed form: minus the perturbation
    amplitude over the wavenumber times the sine, whatever the beam; it is exactly what the step computes from the state, and zero
    when the field is off. *)
Lemma sp_ext nx dx f h g : (forall i, (i < nx)%nat -> f i = h i) -> spectral_poisson nx dx None f g = spectral_poisson nx dx None h g.
Proof. intros E. unfold spectral_poisson. f_equal. apply ifft_ext. intros k _. f_equal. apply fft_ext. intros i Hi. cbn [total_charge]. now rewrite E. Qed.
Lemma pos_field nx dx a0 A m g : dx <> 0 -> (0 < m)%nat -> (2 * m < nx)%nat ->
  spectral_poisson nx dx None (fun h => a0 + A * cos (angle nx m h)) g = A / kx nx dx m * sin (angle nx m g).
Proof.
  intros Hd Hm H2. pose proof (poisson_linear nx dx a0 1 (fun _ => 1) (fun h => A * cos (angle nx m h + 0)) g) as L.
  rewrite poisson_const in L by lia. rewrite poisson_mode in L by assumption. rewrite Rplus_0_r in L.
  transitivity (spectral_poisson nx dx None (fun i => a0 * 1 + 1 * (A * cos (angle nx m i + 0))) g).
  - apply sp_ext. intros h _. rewrite Rplus_0_r. ring.
  - rewrite L. ring.
Qed.
Lemma kx_low nx dx m : (2 * m < nx)%nat -> kx nx dx m = 2 * PI * INR m / (INR nx * dx).
Proof. intros H. unfold kx. rewrite (proj2 (Nat.ltb_lt (2 * m) nx) H). unfold Rdiv. ring. Qed.
Theorem C96_initial_field : forall nodes weights c i s r, hl_alpha c <> 0 -> hl_va c < hl_vb c -> hl_Lx c <> 0 -> (0 < hl_nx c)%nat ->
  In s [lit "linear-advection"; lit "two-stream"; lit "bump-on-tail"] -> is_type i s ->
  hl_init nodes weights (hl_nx c) (hl_Nh c) (hl_Nl c) (hl_alpha c) (hl_va c) (hl_vb c) (hl_Lx c) i = Some r ->
  let md := dflt (i_mode i) 1%Z in let o := init_out c r in let k := 2 * PI * IZR md / hl_Lx c in
  (forall g, o_e o g = field c (o_state o) g) /\ (forall g, o_de o g = 0) /\
  (hl_field_on c = false -> forall g, o_e o g = 0 /\ o_phi o g = 0) /\
  (hl_field_on c = true -> md <> 0%Z -> (2 * Z.abs md < Z.of_nat (hl_nx c))%Z -> forall g, (g < hl_nx c)%nat ->
    o_e o g = - (base_of i s * eps_of i s / k) * sin (k * hl_x (hl_Lx c) (hl_nx c) g)).
Proof.
  intros nodes weights c i s r Ha Hv HL Hn Hs T H md o k. pose proof (init_rows _ _ _ _ _ _ _ _ _ _ _ _ Hv Hs T H) as RW.
  assert (Nn : INR (hl_nx c) <> 0) by (apply not_0_INR; lia). assert (Hd : hl_dx c <> 0) by (unfold hl_dx, Rdiv; apply Rmult_integral_contrapositive_currified; [exact HL|apply Rinv_neq_0_compat; exact Nn]).
  pose proof PI_RGT_0 as PI0.
  split; [|split; [|split]].
  - intros g. unfold field, hl_self, o, init_out. cbn [o_e o_state]. destruct (hl_field_on c); reflexivity.
  - reflexivity.
  - intros Hf g. unfold o, init_out. cbn [o_e o_phi]. rewrite Hf. split; reflexivity.
  - intros Hf M0 M2 g Hg. unfold o, init_out. cbn [o_e]. rewrite Hf. rewrite field_spectral by exact Hg.
    set (m := Z.to_nat (Z.abs md)).
    assert (CH : forall h, (h < hl_nx c)%nat -> HLStepProps.charge_density c (to_k (hl_nx c) r) h = (1 - base_of i s - beam_of nodes weights (hl_Nl c) (hl_va c) (hl_vb c) i s) + (- (base_of i s * eps_of i s)) * cos (angle (hl_nx c) m h)).
    { intros h Hh. unfold HLStepProps.charge_density. rewrite back_C, back_B by exact Hh. cbn [fst]. destruct (RW h) as [-> E2]. unfold hl_width. rewrite E2. fold md. rewrite wave_node by assumption. rewrite Rplus_0_r.
      replace (cos (angleZ (hl_nx c) md h)) with (cos (angle (hl_nx c) m h)); [field; exact Ha|]. rewrite angle_Z. unfold m. rewrite Z2Nat.id by lia. destruct (Z.abs_spec md) as [[_ ->]|[_ ->]]; [reflexivity|].
      rewrite <- cos_neg. f_equal. unfold angleZ. rewrite opp_IZR. field. exact Nn. }
    rewrite (sp_ext _ _ _ _ _ CH). rewrite pos_field by (first [exact Hd | unfold m; lia]). rewrite kx_low by (unfold m; lia).
    assert (M1 : IZR md <> 0) by (apply not_0_IZR; exact M0). assert (EM : INR m = IZR (Z.abs md)) by (unfold m; rewrite INR_IZR_INZ, Z2Nat.id by lia; reflexivity).
    unfold angle, k, hl_x, hl_dx. rewrite EM. destruct (Z.abs_spec md) as [[_ ->]|[_ ->]].
    + replace (2 * PI * IZR md / hl_Lx c * (hl_Lx c * INR g / INR (hl_nx c))) with (2 * PI * IZR md * INR g / INR (hl_nx c)) by (field; auto). field. repeat split; auto; lra.
    + rewrite opp_IZR. replace (2 * PI * IZR md / hl_Lx c * (hl_Lx c * INR g / INR (hl_nx c))) with (- (2 * PI * - IZR md * INR g / INR (hl_nx c))) by (field; auto). rewrite sin_neg. field. repeat split; auto; lra.
Qed.
Print Assumptions C96_initial_field.
