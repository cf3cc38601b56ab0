(** Properties C59-C61: field solvers, Gauss's law and the time steps of Vlasov-1D. *)
From Coq Require Import Permutation Psatz.
From Verif Require Import RSum Pic PicProofs PicFourier Dft Vlasov VlasovProofs VlasovProofs2 VlasovProps VlasovProps2.
Local Open Scope R_scope.

(* ------------------------------------------------------------------------------------------------ *)
(** C59: the electrostatic field solvers. *)

(** The charge (current) density is the sum over species of charge times density (flux); order is irrelevant. *)
Theorem C59_densities : forall i,
  charge_density [] i = 0 /\ current_density [] i = 0 /\
  (forall s f F, charge_density ((s, f) :: F) i = sp_q s * (rsum (sp_nv s) (fun j => f i j) * ((sp_vmax s - sp_vmin s) / INR (sp_nv s))) + charge_density F i) /\
  (forall s f F, current_density ((s, f) :: F) i = sp_q s * (rsum (sp_nv s) (fun j => sp_v s j * f i j) * ((sp_vmax s - sp_vmin s) / INR (sp_nv s))) + current_density F i) /\
  (forall F F', Permutation F F' -> charge_density F i = charge_density F' i /\ current_density F i = current_density F' i).
Proof.
  intros i. split; [reflexivity|]. split; [reflexivity|]. split; [|split].
  - intros. rewrite !charge_sum. reflexivity.
  - intros. rewrite !current_sum. reflexivity.
  - intros F F' H. rewrite !charge_sum, !current_sum. split; now apply sum_perm.
Qed.
Print Assumptions C59_densities.

(** A plasma whose total charge (with the static background) is uniform has no field. *)
Theorem C59_neutral_no_field : forall nx dx static F c, (0 < nx)%nat ->
  (forall i, (i < nx)%nat -> charge_density F i + match static with Some b => b i | None => 0 end = c) ->
  forall g, poisson nx dx static F g = 0.
Proof.
  intros nx dx static F c Hn H g. unfold poisson. rewrite <- (poisson_const nx dx c g Hn). rewrite !poisson_formula. f_equal. apply rsum_ext. intros k _. f_equal.
  apply rsum_ext. intros h Hh. f_equal. cbn [total_charge]. rewrite <- (H h Hh). unfold total_charge. destruct static; ring.
Qed.
Print Assumptions C59_neutral_no_field.

(** Boltzmann electrons: no mean field, no field at the shortest wave, and for every wave longer than two cells
    the screened response (1 + lambda^2 k^2) E_k = -i k (Te / rho0) rho_k; lambda^2 defaults to Te / rho0. *)
Theorem C59_boltzmann : forall nx dx Te lam F, (0 < nx)%nat -> dx <> 0 ->
  let rho := charge_density F in let rho0 := rsum nx rho / INR nx in let E := boltzmann nx dx Te lam F in
  let lam2 := match lam with None => Te / rho0 | Some l => l ^ 2 end in
  rsum nx E = 0 /\
  (forall k, (2 * k = nx)%nat -> (0 < k)%nat -> fft nx E k = c0) /\
  (forall k, (0 < k)%nat -> (2 * k < nx)%nat -> let kk := 2 * PI * INR k / (INR nx * dx) in 1 + lam2 * kk ^ 2 <> 0 ->
     cscal (1 + lam2 * kk ^ 2) (fft nx E k) = cmul (0, - (kk * (Te / rho0))) (fft nx rho k)).
Proof.
  intros nx dx Te lam F Hn Hd rho rho0 E lam2. split; [now apply boltzmann_zero_mean|]. split; [intros; now apply boltzmann_nyquist|].
  intros k Hk H2 kk Hnz. unfold E. rewrite boltzmann_mode by assumption. unfold bk_x, boltzmann_kernel.
  assert (K : kx nx dx k = kk).
  { rewrite kx_kr by exact H2. unfold kr, kk. field. split; first [exact Hd | apply not_0_INR; lia]. }
  fold rho. change (mean nx rho) with rho0. fold lam2. rewrite K. set (w := fft nx rho k).
  assert (Q : forall u v, (1 + lam2 * kk ^ 2) * (u * (kk * (Te / rho0) / (1 + lam2 * kk ^ 2)) * v) = u * (kk * (Te / rho0)) * v).
  { intros u v. set (B := Te / rho0). field. exact Hnz. }
  apply cplx_eq; unfold cscal, cmul; cbn [fst snd]; set (B := Te / rho0); field; exact Hnz.
Qed.
Print Assumptions C59_boltzmann.

Lemma fft_const n c k : (0 < k < n)%nat -> fft n (fun _ => c) k = c0.
Proof.
  intros H. rewrite fft_emb. unfold cfft, emb. rewrite (csum_ext n _ (fun h => cmul (c, 0) (cis (angle n 0 h - angle n k h)))).
  2:{ intros l _. replace (angle n 0 l) with 0 by (unfold angle; cbn [INR]; unfold Rdiv; ring). do 2 f_equal. ring. }
  rewrite csum_mul, char_orth by lia. destruct (Nat.eqb_spec 0 k); [lia|]. creal.
Qed.
Lemma fft_add n f1 f2 k : fft n (fun i => f1 i + f2 i) k = cadd (fft n f1 k) (fft n f2 k).
Proof. unfold fft. rewrite <- csum_add. apply csum_ext. intros. creal. Qed.

(** In particular a density wave rho0 (1 + eps cos(k x)) of m periods gives exactly the field of the potential
    Te eps cos(k x) / (1 + lambda^2 k^2). *)
Theorem C59_boltzmann_wave : forall nx dx Te lam F rho0 eps m phi, dx <> 0 -> rho0 <> 0 -> (0 < m)%nat -> (2 * m < nx)%nat ->
  let kk := 2 * PI * INR m / (INR nx * dx) in let lam2 := match lam with None => Te / rho0 | Some l => l ^ 2 end in
  1 + lam2 * kk ^ 2 <> 0 ->
  (forall i, (i < nx)%nat -> charge_density F i = rho0 * (1 + eps * cos (2 * PI * INR m * INR i / INR nx + phi))) ->
  forall i, (i < nx)%nat -> boltzmann nx dx Te lam F i = Te * eps * kk / (1 + lam2 * kk ^ 2) * sin (2 * PI * INR m * INR i / INR nx + phi).
Proof.
  intros nx dx Te lam F rho0 eps m phi Hd Hr Hm H2 kk lam2 Hnz Hrho i Hi. set (A := Te * eps * kk / (1 + lam2 * kk ^ 2)).
  assert (HnR : INR nx <> 0) by (apply not_0_INR; lia).
  assert (Hf : forall k, (2 * k <= nx)%nat -> (0 < k)%nat -> fft nx (charge_density F) k = if Nat.eqb k m then cscal (INR nx * (rho0 * eps) / 2) (cis phi) else c0).
  { intros k Hk Hk0. rewrite (fft_ext nx _ (fun g => rho0 + rho0 * eps * cos (angle nx m g + phi))) by (intros; rewrite Hrho by assumption; unfold angle; ring).
    rewrite fft_add, fft_const, fft_wave by lia. destruct Nat.eqb; creal. }
  assert (Hmean : rsum nx (charge_density F) / INR nx = rho0).
  { rewrite (rsum_ext nx _ (fun g => rho0 + rho0 * eps * cos (angle nx m g + phi))) by (intros; rewrite Hrho by assumption; unfold angle; ring).
    rewrite rsum_plus, rsum_const. pose proof (fft_wave nx m (rho0 * eps) phi 0 Hm H2 ltac:(lia)) as E. rewrite fft_0 in E. destruct (Nat.eqb_spec 0 m); [lia|].
    apply (f_equal fst) in E. cbn [fst c0] in E. rewrite E. field. exact HnR. }
  pose proof (C59_boltzmann nx dx Te lam F ltac:(lia) Hd) as HB. cbn zeta in HB. rewrite Hmean in HB. fold lam2 in HB. destruct HB as (B0 & BN & BK).
  apply (fft_inj nx (boltzmann nx dx Te lam F) (fun g => A * sin (2 * PI * INR m * INR g / INR nx + phi))); [|exact Hi].
  intros k Hk. rewrite (fft_ext nx (fun g => A * sin (2 * PI * INR m * INR g / INR nx + phi)) (fun g => A * cos (angle nx m g + (phi - PI / 2)))).
  2:{ intros g _. unfold angle. f_equal. rewrite <- (cos_shift (_ + phi)), <- cos_neg. f_equal. ring. }
  rewrite fft_wave by assumption.
  destruct (Nat.eq_dec k 0) as [->|K].
  - rewrite fft_0, B0. destruct (Nat.eqb_spec 0 m); [lia|]. reflexivity.
  - destruct (Nat.eq_dec (2 * k) nx) as [N|N].
    + rewrite BN by lia. destruct (Nat.eqb_spec k m); [lia|]. reflexivity.
    + destruct (Nat.eqb_spec k m) as [->|KM].
      * specialize (BK m Hm H2). fold kk in BK. specialize (BK Hnz). rewrite Hf, Nat.eqb_refl in BK by lia.
        assert (S : forall z w, cscal (1 + lam2 * kk ^ 2) z = w -> z = cscal (/ (1 + lam2 * kk ^ 2)) w).
        { intros z w <-. apply cplx_eq; unfold cscal; cbn [fst snd]; field; exact Hnz. }
        apply S in BK. rewrite BK. unfold A. unfold Rminus. rewrite cis_add. unfold cis at 3. rewrite cos_neg, sin_neg, cos_PI2, sin_PI2.
        apply cplx_eq; unfold cscal, cmul; cbn [fst snd]; field; repeat split; assumption.
      * rewrite boltzmann_mode by (try exact Hd; lia). unfold bk_x. rewrite Hf by lia. rewrite (proj2 (Nat.eqb_neq k m) KM). creal.
Qed.
Print Assumptions C59_boltzmann_wave.

(** With the default screening length the field is the unscreened Poisson field divided by 1 + rho0/(Te k^2). *)
Theorem C59_boltzmann_vs_poisson : forall nx dx Te F k, dx <> 0 -> (0 < k)%nat -> (2 * k < nx)%nat -> 0 < Te ->
  let rho0 := rsum nx (charge_density F) / INR nx in let kk := 2 * PI * INR k / (INR nx * dx) in 0 < rho0 ->
  cscal (1 + rho0 / (Te * kk ^ 2)) (fft nx (boltzmann nx dx Te None F) k) = fft nx (poisson nx dx None F) k.
Proof.
  intros nx dx Te F k Hd Hk H2 HT rho0 kk Hr.
  assert (K : kx nx dx k = kk). { rewrite kx_kr by exact H2. unfold kr, kk. field. split; first [exact Hd | apply not_0_INR; lia]. }
  pose proof (kx_nonzero nx dx k Hd ltac:(lia)) as Hnz. rewrite K in Hnz.
  assert (P2 : 0 < kk ^ 2) by (assert (0 < kk * kk) by nra; cbn [pow]; lra).
  assert (Hden : 1 + Te / rho0 * kk ^ 2 <> 0). { assert (0 < Te / rho0) by now apply Rdiv_lt_0_compat. nra. }
  destruct (C59_boltzmann nx dx Te None F ltac:(lia) Hd) as (_ & _ & BK). specialize (BK k Hk H2). cbn zeta in BK. fold rho0 kk in BK. specialize (BK Hden).
  pose proof (gauss_law nx dx None (charge_density F) k Hd ltac:(lia) ltac:(lia)) as G. rewrite K in G. cbn [total_charge] in G. change (spectral_poisson nx dx None (charge_density F)) with (poisson nx dx None F) in G.
  set (e := fft nx (boltzmann nx dx Te None F) k) in *. set (p := fft nx (poisson nx dx None F) k) in *. set (w := fft nx (charge_density F) k) in *.
  assert (D2 : rho0 + Te * kk ^ 2 <> 0) by nra.
  apply (f_equal fst) in BK as B1. apply (f_equal snd) in BK as B2. apply (f_equal fst) in G as G1. apply (f_equal snd) in G as G2.
  unfold cscal, cmul in B1, B2, G1, G2. cbn [fst snd] in B1, B2, G1, G2.
  apply cplx_eq; unfold cscal; cbn [fst snd]; apply Rmult_eq_reg_l with kk; try exact Hnz; [rewrite G1|rewrite G2];
    apply Rmult_eq_reg_l with (kk * (Te / rho0)); try (apply Rmult_integral_contrapositive_currified; [exact Hnz|apply Rgt_not_eq; now apply Rdiv_lt_0_compat]).
  - transitivity ((1 + Te / rho0 * kk ^ 2) * fst e); [field; repeat split; lra|]. rewrite B1. ring.
  - transitivity ((1 + Te / rho0 * kk ^ 2) * snd e); [field; repeat split; lra|]. rewrite B2. ring.
Qed.
Print Assumptions C59_boltzmann_vs_poisson.

(** Ampere: a distribution symmetric in v on a symmetric grid carries no current and leaves the field alone. *)
Lemma sp_v_mirror s j : (1 < sp_nv s)%nat -> sp_vmin s = - sp_vmax s -> (j < sp_nv s)%nat -> sp_v s (sp_nv s - 1 - j) = - sp_v s j.
Proof.
  intros Hn Hs Hj. unfold sp_v, linspace. destruct (Nat.leb_spec (sp_nv s) 1); [lia|]. rewrite minus_INR by lia. rewrite Hs. field. apply not_0_INR. lia.
Qed.
Lemma rsum_rev n f : rsum n f = rsum n (fun i => f (n - 1 - i)%nat).
Proof.
  pose proof (csum_rev n (fun i => (f i, 0))) as E. apply (f_equal fst) in E. rewrite !csum_fst in E. exact E.
Qed.
Theorem C59_ampere_no_current : forall F prev dt i,
  Forall (fun p => (1 < sp_nv (fst p))%nat /\ sp_vmin (fst p) = - sp_vmax (fst p) /\ forall j, (j < sp_nv (fst p))%nat -> snd p i (sp_nv (fst p) - 1 - j)%nat = snd p i j) F ->
  ampere F prev dt i = prev i.
Proof.
  intros F prev dt i H. unfold ampere. assert (E : current_density F i = 0); [|rewrite E; ring]. rewrite current_sum. unfold sum_list.
  induction H as [|p F (Hn & Hs & Hf) HF IH]; cbn [fold_right]; [reflexivity|]. rewrite IH.
  assert (Z : rsum (sp_nv (fst p)) (fun j => sp_v (fst p) j * snd p i j) = 0).
  { set (S := rsum _ _). assert (S = - S); [|lra]. unfold S at 1. rewrite rsum_rev. rewrite (rsum_ext _ _ (fun j => -1 * (sp_v (fst p) j * snd p i j))).
    - rewrite rsum_scal. fold S. ring.
    - intros j Hj. rewrite sp_v_mirror by assumption. rewrite Hf by exact Hj. ring. }
  assert (Z2 : flux (fst p) (snd p) i = 0) by (unfold flux; rewrite Z; ring). transitivity (sp_q (fst p) * 0 + 0); [|ring]. f_equal. f_equal. exact Z2.
Qed.
Print Assumptions C59_ampere_no_current.

(** Ampere's law dE/dt = - sum_s q_s int v f_s dv: the change of the field per unit time is minus the charge-weighted sum of the
    fluxes; a beam of positive charge to the right (every weighted cell has q v f >= 0, one strictly) lowers the field. *)
Theorem C59_ampere : forall F prev dt i, 0 < dt ->
  (ampere F prev dt i - prev i) / dt = - sum_list (fun p => sp_q (fst p) * (rsum (sp_nv (fst p)) (fun j => sp_v (fst p) j * snd p i j) * sp_dv (fst p))) F /\
  (forall s f, F = [(s, f)] -> 0 < sp_dv s -> (forall j, (j < sp_nv s)%nat -> 0 <= sp_q s * sp_v s j * f i j) ->
     (exists j, (j < sp_nv s)%nat /\ 0 < sp_q s * sp_v s j * f i j) -> ampere F prev dt i < prev i).
Proof.
  intros F prev dt i Hdt. split.
  - unfold ampere. rewrite current_sum. replace (sum_list _ F) with (sum_list (fun p => sp_q (fst p) * flux (fst p) (snd p) i) F) by reflexivity. set (T := sum_list _ F).
    change (sum_list _ F) with T. field. lra.
  - intros s f -> Hdv H0 (j & Hj & Hp). unfold ampere. rewrite current_sum. unfold sum_list, flux. cbn [fold_right fst snd].
    assert (K : 0 < rsum (sp_nv s) (fun j => sp_q s * sp_v s j * f i j)) by (
      cbv zeta; destruct (Rle_lt_or_eq_dec 0 _ (rsum_nonneg _ _ H0)) as [Z|Z]; [exact Z|symmetry in Z; pose proof (rsum_nonneg_zero _ _ H0 Z j Hj) as Q; cbv beta in Q; rewrite Q in Hp; destruct (Rlt_irrefl _ Hp)]).
    assert (E : sp_q s * (rsum (sp_nv s) (fun j => sp_v s j * f i j) * sp_dv s) + 0 = sp_dv s * rsum (sp_nv s) (fun j => sp_q s * sp_v s j * f i j)).
    { rewrite (rsum_ext _ (fun j => sp_q s * sp_v s j * f i j) (fun j => sp_q s * (sp_v s j * f i j))) by (intros; ring). rewrite rsum_scal. ring. }
    rewrite E. assert (0 < dt * (sp_dv s * rsum (sp_nv s) (fun j => sp_q s * sp_v s j * f i j))) by (apply Rmult_lt_0_compat; [exact Hdt|]; apply Rmult_lt_0_compat; [exact Hdv|exact K]). lra.
Qed.
Print Assumptions C59_ampere.

(** The ponderomotive term: it does not depend on the sign of the vector potential, vanishes where a^2 is
    uniform, and is exactly -1/2 d(a^2)/dx when a^2 is a quadratic of the position (a[h] sits at x0 + (h - 1) dx). *)
Theorem C59_ponderomotive : forall nx dx a x0 p q r, dx <> 0 -> (0 < nx)%nat ->
  (forall i, ponderomotive nx dx (fun h => - a h) i = ponderomotive nx dx a i) /\
  ((forall h, (h < nx + 2)%nat -> let x := x0 + (INR h - 1) * dx in a h ^ 2 = p + q * x + r * x ^ 2) ->
   forall i, (i < nx)%nat -> ponderomotive nx dx a i = - (1 / 2) * (q + 2 * r * (x0 + INR i * dx))).
Proof.
  intros nx dx a x0 p q r Hd Hn. split.
  - intros i. unfold ponderomotive, gradient. f_equal. assert (S : forall h, (- a h) ^ 2 = a h ^ 2) by (intros; ring). rewrite !S. reflexivity.
  - intros H i Hi. unfold ponderomotive, gradient. destruct (Nat.eqb_spec (i + 1) 0); [lia|]. destruct (Nat.eqb_spec (i + 1) (nx + 2 - 1)); [lia|].
    rewrite !H by lia. replace (i + 1 - 1)%nat with i by lia. rewrite !plus_INR. change (INR 1) with 1. field. exact Hd.
Qed.
Print Assumptions C59_ponderomotive.

Example C59_nonvacuous : ponderomotive 2 1 (fun h => INR h) 0%nat = -1 /\ ponderomotive 2 1 (fun h => INR h) 1%nat = -2.
Proof.
  destruct (C59_ponderomotive 2 1 (fun h => INR h) 1 0 0 1 ltac:(lra) ltac:(lia)) as [_ H].
  assert (A : forall h, (h < 2 + 2)%nat -> let x := 1 + (INR h - 1) * 1 in INR h ^ 2 = 0 + 0 * x + 1 * x ^ 2) by (intros h _; cbn zeta; ring).
  split; [rewrite (H A 0%nat ltac:(lia))|rewrite (H A 1%nat ltac:(lia))]; change (INR 0) with 0; change (INR 1) with 1; lra.
Qed.
Example C59_nonvacuous_wave : exists F, forall i, charge_density F i = 3 * (1 + 1 / 2 * cos (2 * PI * INR 1 * INR i / INR 8 + 0)).
Proof.
  exists [({| sp_q := 1; sp_m := 1; sp_nv := 2; sp_vmin := -2; sp_vmax := 2 |}, fun i j => 3 / 4 * (1 + 1 / 2 * cos (2 * PI * INR 1 * INR i / INR 8 + 0)))].
  intros i. rewrite charge_sum. unfold sum_list, density, sp_dv. cbn [fold_right fst snd sp_q sp_nv sp_vmin sp_vmax rsum]. change (INR 2) with 2. field.
Qed.

(* ------------------------------------------------------------------------------------------------ *)
(** C60: Gauss's law with the Hamiltonian Ampere solver. [gauss_defect] is i k E_k - rho_k. *)
Theorem C60_one_step : forall nx dx s f prev dt a dex e F' static k, Nat.Even nx -> dx <> 0 -> Nat.Even (sp_nv s) -> (0 < sp_nv s)%nat ->
  leapfrog nx dx SHampere EExponential dt [(s, f)] a dex prev = Some (e, F') ->
  (0 < k)%nat -> (2 * k < nx)%nat ->
  gauss_defect nx dx e (fun i => charge_density F' i + static i) k = gauss_defect nx dx prev (fun i => charge_density [(s, f)] i + static i) k.
Proof.
  intros nx dx s f prev dt a dex e F' static k He Hd Hv Hnv H Hk H2. unfold leapfrog in H. cbn [field_solve] in H. injection H as <- <-.
  assert (C1 : forall g i, charge_density [(s, g)] i = sp_q s * density s g i) by (intros; rewrite charge_sum; unfold sum_list; cbn [fold_right fst snd]; ring).
  unfold gauss_defect. rewrite !fft_add.
  assert (L : forall z w st, csub z (cadd w st) = cadd (csub z w) (cneg st)) by (intros; ring). rewrite !L. f_equal.
  pose proof (hampere_gauss nx dx s f prev dt k He Hd Hk H2) as G. unfold gauss_defect in G.
  transitivity (csub (cmul (0, kx nx dx k) (fft nx (hampere nx dx s f prev dt) k)) (fft nx (fun i => sp_q s * density s (space_push nx dx s dt f) i) k)).
  - f_equal. apply fft_ext. intros i _. cbn [map_f map fst snd]. rewrite C1. f_equal. cbn [v_push]. apply vel_push_density. now split.
  - rewrite G. f_equal. apply fft_ext. intros. symmetry. apply C1.
Qed.
Print Assumptions C60_one_step.

(** A run: one leapfrog step per element of the list of vector potentials and external fields. *)
Fixpoint lf_run (nx : nat) (dx : R) (sol : solver) (ed : edfdv) (dt : R) (steps : list (profile * profile)) (st : profile * fdict) : option (profile * fdict) :=
  match steps with
  | [] => Some st
  | (a, dex) :: rest => match leapfrog nx dx sol ed dt (snd st) a dex (fst st) with None => None | Some st' => lf_run nx dx sol ed dt rest st' end
  end.
Theorem C60_run : forall nx dx s dt steps static k, Nat.Even nx -> dx <> 0 -> Nat.Even (sp_nv s) -> (0 < sp_nv s)%nat ->
  (0 < k)%nat -> (2 * k < nx)%nat -> forall e f,
  exists e' f', lf_run nx dx SHampere EExponential dt steps (e, [(s, f)]) = Some (e', [(s, f')]) /\
    gauss_defect nx dx e' (fun i => charge_density [(s, f')] i + static i) k = gauss_defect nx dx e (fun i => charge_density [(s, f)] i + static i) k /\
    ((0 < nx)%nat -> rsum nx e' = rsum nx e).
Proof.
  intros nx dx s dt steps static k He Hd Hv Hnv Hk H2. induction steps as [|[a dex] rest IH]; intros e f; cbn [lf_run fst snd].
  - exists e, f. repeat split.
  - destruct (leapfrog nx dx SHampere EExponential dt [(s, f)] a dex e) as [[e1 F1]|] eqn:E; [|discriminate].
    pose proof (C60_one_step nx dx s f e dt a dex e1 F1 static k He Hd Hv Hnv E Hk H2) as G.
    unfold leapfrog in E. cbn [field_solve map_f map] in E. injection E as <- <-.
    destruct (IH (hampere nx dx s f e dt) (v_push EExponential s (fun i => hampere nx dx s f e dt i + dex i) (ponderomotive nx dx a) dt (space_push nx dx s dt f))) as (e' & f' & R1 & R2 & R3).
    exists e', f'. split; [exact R1|]. split; [rewrite R2; exact G|]. intros Hn. rewrite R3 by exact Hn. now apply hampere_mean.
Qed.
Print Assumptions C60_run.
(** The steps do something: the charge of ex_sp4 started in one cell moves, and the field with it. *)
Example C60_nonvacuous : exists e' f', lf_run 4 1 SHampere EExponential (2 / 3) [(fun _ => 0, fun _ => 0)] (fun _ => 0, [(ex_sp4, fun i _ => INR i)]) = Some (e', [(ex_sp4, f')]).
Proof. destruct (C60_run 4 1 ex_sp4 (2 / 3) [(fun _ => 0, fun _ => 0)] (fun _ => 0) 1 ltac:(exists 2%nat; reflexivity) ltac:(lra) ltac:(exists 2%nat; reflexivity) ltac:(cbn; lia) ltac:(lia) ltac:(lia) (fun _ => 0) (fun i _ => INR i)) as (e' & f' & H & _). exists e', f'. exact H. Qed.

(* ------------------------------------------------------------------------------------------------ *)
(** C61: the time steps. *)
Definition same_numbers (nx : nat) (F F' : fdict) : Prop :=
  Forall2 (fun p p' => fst p = fst p' /\ rsum nx (fun i => rsum (sp_nv (fst p)) (snd p' i)) = rsum nx (fun i => rsum (sp_nv (fst p)) (snd p i))) F F'.
Definition even_species (F : fdict) : Prop := Forall (fun p => Nat.Even (sp_nv (fst p)) /\ (0 < sp_nv (fst p))%nat) F.
Lemma same_refl nx F : same_numbers nx F F.
Proof. unfold same_numbers. induction F; constructor; auto. Qed.
Lemma same_trans nx F G H : same_numbers nx F G -> same_numbers nx G H -> same_numbers nx F H.
Proof.
  unfold same_numbers. intros A. revert H. induction A as [|p q F G [E1 E2] A IH]; intros H B; inversion B as [|q' r G' H' [E3 E4] B']; subst; constructor; [|now apply IH].
  split; [congruence|]. rewrite E1 in *. now rewrite E4.
Qed.
Lemma same_map nx F h : (forall s f, In (s, f) F -> rsum nx (fun i => rsum (sp_nv s) (h s f i)) = rsum nx (fun i => rsum (sp_nv s) (f i))) -> same_numbers nx F (map_f h F).
Proof.
  unfold same_numbers, map_f. induction F as [|[s f] F IH]; intros H; cbn [map]; constructor.
  - cbn [fst snd]. split; [reflexivity|]. apply H. now left.
  - apply IH. intros. apply H. now right.
Qed.
Lemma same_even nx F F' : same_numbers nx F F' -> even_species F -> even_species F'.
Proof. unfold same_numbers, even_species. induction 1 as [|p q F G [E _] A IH]; intros H; [constructor|]. pose proof (Forall_inv H) as H1. pose proof (Forall_inv_tail H) as H2. cbn beta in H1. constructor; [destruct p, q; cbn [fst] in *; subst; exact H1|now apply IH]. Qed.
Lemma same_vpush nx F e pond dt : even_species F -> same_numbers nx F (map_f (fun s f => v_push EExponential s e pond dt f) F).
Proof. intros H. apply same_map. intros s f Hin. cbn [v_push]. apply (vel_push_particles nx s e pond dt f). unfold even_species in H. rewrite Forall_forall in H. exact (H (s, f) Hin). Qed.
Lemma same_xpush nx dx F c : Nat.Even nx -> (0 < nx)%nat -> same_numbers nx F (map_f (fun s f => space_push nx dx s c f) F).
Proof. intros He Hn. apply same_map. intros. now apply (space_push_particles nx dx s c f). Qed.

(** A leapfrog step and a sixth-order step, with any of the field solvers and any drivers, keep every
    species and its number of particles (exponential pusher, even grids). *)
Theorem C61_leapfrog_number : forall nx dx sol dt F a dex prev e F', Nat.Even nx -> (0 < nx)%nat -> even_species F ->
  leapfrog nx dx sol EExponential dt F a dex prev = Some (e, F') -> same_numbers nx F F'.
Proof.
  intros nx dx sol dt F a dex prev e F' He Hn HF H. unfold leapfrog in H.
  destruct (field_solve nx dx sol _ prev dt) as [e0|]; [|discriminate]. injection H as <- <-.
  apply same_trans with (map_f (fun s f => space_push nx dx s dt f) F); [now apply same_xpush|]. apply same_vpush.
  apply (same_even nx F); [now apply same_xpush|exact HF].
Qed.
Print Assumptions C61_leapfrog_number.
Lemma sixth_stage_number nx dx sol dt pond dex st F e F' : Nat.Even nx -> (0 < nx)%nat -> even_species F ->
  sixth_stage nx dx sol EExponential dt pond dex st F = Some (e, F') -> same_numbers nx F F'.
Proof.
  intros He Hn HF H. unfold sixth_stage in H.
  set (F1 := match fst st with None => F | Some c => map_f (fun s f => space_push nx dx s (c * dt) f) F end) in *.
  assert (S1 : same_numbers nx F F1) by (unfold F1; destruct (fst st); [now apply same_xpush|apply same_refl]).
  destruct sol; try discriminate; destruct (field_solve nx dx _ F1 _ 0) as [e0|]; try discriminate; injection H as <- <-;
    (apply same_trans with F1; [exact S1|]; apply same_vpush; now apply (same_even nx F)).
Qed.
Theorem C61_sixth_number : forall nx dx sol dt F a dex e F', Nat.Even nx -> (0 < nx)%nat -> even_species F ->
  sixth nx dx sol EExponential dt F a dex = Some (e, F') -> same_numbers nx F F'.
Proof.
  intros nx dx sol dt F a dex e F' He Hn HF. unfold sixth. generalize (combine (sixth_stages dt) dex) (fun _ : nat => 0) (ponderomotive nx dx a). intros l e0 pond. revert e0 F HF.
  induction l as [|[st d] l IH]; intros e0 F HF H; cbn [sixth_run] in H; [injection H as <- <-; apply same_refl|].
  destruct (sixth_stage nx dx sol EExponential dt pond d st F) as [[e1 F1]|] eqn:E; [|discriminate].
  pose proof (sixth_stage_number nx dx sol dt pond d st F e1 F1 He Hn HF E) as S. apply same_trans with F1; [exact S|]. apply (IH e1); [now apply (same_even nx F)|exact H].
Qed.
Print Assumptions C61_sixth_number.
(** ... over any number of steps. *)
Theorem C61_run_number : forall nx dx sol dt steps st st', Nat.Even nx -> (0 < nx)%nat -> even_species (snd st) ->
  lf_run nx dx sol EExponential dt steps st = Some st' -> same_numbers nx (snd st) (snd st').
Proof.
  intros nx dx sol dt steps. induction steps as [|[a dex] rest IH]; intros st st' He Hn HF H; cbn [lf_run] in H.
  - injection H as <-. apply same_refl.
  - destruct (leapfrog nx dx sol EExponential dt (snd st) a dex (fst st)) as [[e1 F1]|] eqn:E; [|discriminate].
    pose proof (C61_leapfrog_number nx dx sol dt (snd st) a dex (fst st) e1 F1 He Hn HF E) as S.
    apply same_trans with F1; [exact S|]. apply (IH (e1, F1) st' He Hn); [now apply (same_even nx (snd st))|exact H].
Qed.
Print Assumptions C61_run_number.

(** The field returned with a Poisson solver is the Poisson field of the returned distributions. *)
Theorem C61_leapfrog_field : forall nx dx static dt F a dex prev e F', even_species F ->
  leapfrog nx dx (SPoisson static) EExponential dt F a dex prev = Some (e, F') -> forall g, e g = poisson nx dx static F' g.
Proof.
  intros nx dx static dt F a dex prev e F' HF H g. unfold leapfrog in H. destruct (field_solve nx dx (SPoisson static) _ prev dt) as [e0|] eqn:E; [|discriminate]. injection H as <- <-.
  set (F1 := map_f (fun s f => space_push nx dx s dt f) F) in *. destruct F1 as [|[s f] r] eqn:EF; [discriminate|]. cbn [field_solve] in E. injection E as <-. rewrite <- EF.
  apply poisson_ext. intros h _. symmetry. apply vpush_charge. unfold even_species in HF. rewrite Forall_forall in HF. apply Forall_forall. intros p Hp. unfold F1, map_f in Hp. apply in_map_iff in Hp. destruct Hp as (q & <- & Hq). exact (HF q Hq).
Qed.
Print Assumptions C61_leapfrog_field.
Lemma sixth_stage_field nx dx static dt pond dex st F e F' : even_species F ->
  sixth_stage nx dx (SPoisson static) EExponential dt pond dex st F = Some (e, F') -> forall g, e g = poisson nx dx static F' g.
Proof.
  intros HF H g. unfold sixth_stage in H.
  set (F1 := match fst st with None => F | Some c => map_f (fun s f => space_push nx dx s (c * dt) f) F end) in *.
  assert (HF1 : Forall (fun p => even_v (fst p)) F1).
  { unfold F1. destruct (fst st); [|exact HF]. unfold even_species in HF. rewrite Forall_forall in HF. apply Forall_forall. intros p Hp. unfold map_f in Hp. apply in_map_iff in Hp. destruct Hp as (q & <- & Hq). exact (HF q Hq). }
  assert (E : field_solve nx dx (SPoisson static) F1 (fun _ => 0) 0 = None \/ field_solve nx dx (SPoisson static) F1 (fun _ => 0) 0 = Some (poisson nx dx static F1)) by (destruct F1 as [|[s f] r']; [left|right]; reflexivity).
  destruct E as [E|E]; rewrite E in H; [discriminate|]. injection H as <- <-. apply poisson_ext. intros h _. symmetry. apply vpush_charge. exact HF1.
Qed.
Theorem C61_sixth_field : forall nx dx static dt F a dex e F', even_species F -> List.length dex = 6%nat -> Nat.Even nx -> (0 < nx)%nat ->
  sixth nx dx (SPoisson static) EExponential dt F a dex = Some (e, F') -> forall g, e g = poisson nx dx static F' g.
Proof.
  intros nx dx static dt F a dex e F' HF Hl He Hn. unfold sixth.
  assert (HN : combine (sixth_stages dt) dex <> []) by (destruct dex; [discriminate|discriminate]).
  revert HN. generalize (combine (sixth_stages dt) dex) (fun _ : nat => 0) (ponderomotive nx dx a). intros l e0 pond. revert e0 F HF.
  induction l as [|[st d] l IH]; intros e0 F HF HN H; [contradiction HN; reflexivity|]. cbn [sixth_run] in H.
  destruct (sixth_stage nx dx (SPoisson static) EExponential dt pond d st F) as [[e1 F1]|] eqn:E; [|discriminate].
  destruct l as [|x l'].
  - cbn [sixth_run] in H. injection H as <- <-. exact (sixth_stage_field nx dx static dt pond d st F e1 F1 HF E).
  - apply (IH e1 F1); [|discriminate|exact H]. apply (same_even nx F); [|exact HF]. exact (sixth_stage_number nx dx _ dt pond d st F e1 F1 He Hn HF E).
Qed.
Print Assumptions C61_sixth_field.

(** When a step is refused: an empty set of species, Hampere with several species; sixth order also for the Ampere solvers. *)
Theorem C61_refused : forall nx dx sol ed dt F a dex prev,
  (leapfrog nx dx sol ed dt F a dex prev = None <-> F = [] \/ (sol = SHampere /\ (1 < List.length F)%nat)) /\
  (forall d0 ds, sixth nx dx sol ed dt F a (d0 :: ds) = None <-> F = [] \/ sol = SAmpere \/ sol = SHampere).
Proof.
  intros nx dx sol ed dt F a dex prev. split.
  - unfold leapfrog, map_f. destruct F as [|[s f] F]; [cbn; destruct sol; tauto|]. destruct sol; cbn [map field_solve].
    1-3: split; [discriminate|intros [H|[H _]]; discriminate].
    destruct F; cbn [List.length]; split; try discriminate; try (intros [H|[_ H]]; [discriminate|lia]); intros; try reflexivity. right. split; [reflexivity|lia].
  - intros d0 ds. unfold sixth, sixth_stages.
    assert (G : forall l pond e0 F0, F0 <> [] -> sol <> SAmpere -> sol <> SHampere -> sixth_run nx dx sol ed dt pond l e0 F0 <> None).
    { induction l as [|[st d] l IH]; intros pond e0 F0 H0 H1 H2; cbn [sixth_run]; [discriminate|]. unfold sixth_stage.
      set (F1 := match fst st with None => F0 | Some c => map_f (fun s f => space_push nx dx s (c * dt) f) F0 end).
      assert (HF1 : F1 <> []) by (unfold F1; destruct (fst st); [destruct F0; [contradiction|discriminate]|exact H0]).
      destruct F1 as [|[s f] r]; [contradiction|]. destruct sol; try contradiction; cbn [field_solve]; apply IH; try assumption; discriminate. }
    split.
    + intros H. destruct F as [|p F]; [now left|]. right. destruct sol as [st|te lm| |]; [| |left; reflexivity|right; reflexivity]; exfalso; (refine (G _ _ _ (p :: F) _ _ _ H); discriminate).
    + intros H. cbn [combine sixth_run]. unfold sixth_stage. cbn [fst]. destruct H as [->|[->| ->]]; [destruct sol; reflexivity|reflexivity|reflexivity].
Qed.
Print Assumptions C61_refused.

Lemma dec_add m n e : dec m e + dec n e = dec (m + n) e.
Proof. unfold dec. rewrite plus_IZR. unfold Rdiv. ring. Qed.
Lemma dec_mul k m e : IZR k * dec m e = dec (k * m) e.
Proof. unfold dec. rewrite mult_IZR. unfold Rdiv. ring. Qed.
Lemma dec_one m e : (m = 10 ^ e)%Z -> (0 <= e)%Z -> dec m e = 1.
Proof. intros -> He. unfold dec, Rdiv. apply Rinv_r. apply IZR_neq. apply Z.pow_nonzero; lia. Qed.
Lemma dec_lift m e k : (0 <= e)%Z -> (0 <= k)%Z -> dec m e = dec (m * 10 ^ k) (e + k).
Proof. intros He Hk. unfold dec. rewrite Z.pow_add_r, !mult_IZR by assumption. field. split; apply IZR_neq; apply Z.pow_nonzero; lia. Qed.
Lemma dec_opp m e : dec (- m) e = - dec m e.
Proof. unfold dec. rewrite opp_IZR. unfold Rdiv. ring. Qed.
Lemma dec_lt m n e : (0 <= e)%Z -> (m < n)%Z -> dec m e < dec n e.
Proof. intros He H. unfold dec, Rdiv. apply Rmult_lt_compat_r; [apply Rinv_0_lt_compat; apply IZR_lt; lia|now apply IZR_lt]. Qed.
Lemma sixth_drifts : sa1 + sa2 + sa3 + sa2 + sa1 = 1.
Proof. unfold sa1, sa2, sa3. rewrite !dec_add. apply dec_one; [reflexivity|lia]. Qed.
Lemma sixth_kick_sum : 2 * (sb1 + sb2 + sb3) = 1.
Proof. unfold sb1, sb2, sb3. rewrite !dec_add, dec_mul. apply dec_one; [reflexivity|lia]. Qed.

(** The sixth-order scheme: the field times start at 0, end at dt, are symmetric and advance by the drifts,
    which add up to exactly one step; kicks and drifts are palindromic. *)
Theorem C61_sixth_schedule : forall dt,
  nth 0 (sixth_times dt) 0 = 0 /\ nth 5 (sixth_times dt) 0 = dt /\ List.length (sixth_times dt) = 6%nat /\
  (forall i, (i <= 5)%nat -> nth i (sixth_times dt) 0 + nth (5 - i) (sixth_times dt) 0 = dt) /\
  (forall i, (i < 5)%nat -> exists c, fst (nth (S i) (sixth_stages dt) (None, 0)) = Some c /\ nth (S i) (sixth_times dt) 0 - nth i (sixth_times dt) 0 = c * dt) /\
  map snd (sixth_stages dt) = rev (map snd (sixth_stages dt)) /\
  map fst (tl (sixth_stages dt)) = rev (map fst (tl (sixth_stages dt))) /\ fst (hd (None, 0) (sixth_stages dt)) = None.
Proof.
  intros dt. pose proof sixth_drifts as S.
  split; [cbn; ring|]. split; [cbn; rewrite S; ring|]. split; [reflexivity|]. split.
  - intros i Hi. destruct i as [|[|[|[|[|[|i]]]]]]; [| | | | | |lia]; cbn [nth sixth_times map Nat.sub]; rewrite <- Rmult_plus_distr_l; match goal with |- dt * ?x = dt => replace x with (sa1 + sa2 + sa3 + sa2 + sa1) by ring; rewrite S; ring end.
  - split; [|repeat split].
    intros i Hi. destruct i as [|[|[|[|[|i]]]]]; [| | | | |lia]; cbn [nth sixth_stages fst sixth_times map]; (eexists; split; [reflexivity|ring]).
Qed.
Print Assumptions C61_sixth_schedule.

(** The kicks add up to one step only in the limit of a small step. False: in a uniform external field the
    velocity gained in one step is the field times dt. *)
Theorem C61_sixth_kicks : forall dt, fold_right Rplus 0 (map snd (sixth_stages dt))
  = 1 + 4 * (sc1 + sc2 + sc3) * dt ^ 2 + 8 * (sd2 + sd3) * dt ^ 4 - 16 * se3 * dt ^ 6.
Proof.
  intros dt. pose proof sixth_kick_sum as S.
  cbn [sixth_stages map fold_right snd]. unfold sD1, sD2, sD3. rewrite <- S. ring.
Qed.
Print Assumptions C61_sixth_kicks.
Theorem C61_sixth_kicks_refuted : fold_right Rplus 0 (map snd (sixth_stages 1)) < 99 / 100.
Proof.
  rewrite C61_sixth_kicks. rewrite !pow1, !Rmult_1_r. unfold sc1, sc2, sc3, sd2, sd3, se3.
  rewrite (dec_lift (-000069728715055305084099) 24 7), (dec_lift (-000625704827430047189169) 24 7), (dec_lift (-002213085124045325561636) 24 7),
    (dec_lift (-2916600457689847816445691) 30 1), (dec_lift 3048480261700038788680723 29 2), <- (dec_one (10 ^ 31) 31 eq_refl) by lia.
  change (24 + 7)%Z with 31%Z. change (30 + 1)%Z with 31%Z. change (29 + 2)%Z with 31%Z.
  unfold Rminus. rewrite !dec_add, !dec_mul, <- dec_opp, !dec_add.
  replace (99 / 100) with (dec (99 * 10 ^ 29) 31); [apply dec_lt; [lia|reflexivity]|]. change 31%Z with (2 + 29)%Z. rewrite <- dec_lift by lia. reflexivity.
Qed.
Print Assumptions C61_sixth_kicks_refuted.

Example C61_nonvacuous : even_species [(ex_sp4, fun i _ => INR i); (ex_sp, fun _ _ => 1)] /\
  leapfrog 4 1 SAmpere EExponential 1 [(ex_sp4, fun i _ => INR i); (ex_sp, fun _ _ => 1)] (fun _ => 0) (fun _ => 0) (fun _ => 0) <> None.
Proof. split; [|discriminate]. repeat constructor; cbn; try lia; [exists 2%nat|exists 1%nat]; reflexivity. Qed.
