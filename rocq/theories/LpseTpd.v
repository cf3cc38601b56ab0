(** Property C97, continued: dispersion of single waves, two-plasmon decay, what stays zero, and what the solver ignores. *)
From Coq Require Import Reals Lra Lia ZArith List Bool Psatz.
From Verif Require Import RSum Pic PicProofs PicFourier Lpse LpseFft LpseProps Dft.
Local Open Scope R_scope.

(* ------------------------------------------------------------------------------------------------ *)
(** * A single wave in a uniform, lossless box *)
Definition free (c : ecfg) : Prop := e_tpd c = false /\ e_noise_on c = false /\ (forall a b, e_bound c a b = 1).
(** The density either ignored or uniform of value [N]; [shift] is then the frequency shift of the envelope. *)
Definition uniform (c : ecfg) (N : R) : Prop := e_grad c = true /\ (forall a b, e_bg c a b = N).
Definition bohm_gross (c : ecfg) (i j : nat) : R := 3 / 2 * e_vte2 c * ksq c i j / e_wp0 c.
Lemma cis_mul_scal a b r s (z : cplx) : cmul (cscal r (cmul z (cis a))) (cis b) = cscal r (cmul z (cis (a + b))) /\ cscal s (cscal r z) = cscal (s * r) z.
Proof. rewrite cis_add. generalize (cis a) (cis b). intros u v. split; cxr. Qed.
Lemma medium_uniform c N f a b : uniform c N -> (forall a b, e_bound c a b = 1) -> epw_medium c f a b = cmul (cis (- (e_wp0 c / 2 * (N / e_env c - 1) * e_dt c))) (f a b).
Proof. intros [G U] B. unfold epw_medium. rewrite G, B, U. generalize (cis (- (e_wp0 c / 2 * (N / e_env c - 1) * e_dt c))) (f a b). intros; cxr. Qed.
Lemma phi_of_mul c z ex ey ex' ey' i j : inside c i j -> (forall a b, inside c a b -> ex' a b = cmul z (ex a b)) -> (forall a b, inside c a b -> ey' a b = cmul z (ey a b)) ->
  phi_of c ex' ey' i j = cmul z (phi_of c ex ey i j).
Proof.
  intros I Hx Hy. unfold phi_of.
  rewrite (fft2_ext (e_nx c) (e_ny c) ex' (fun a b => cmul z (ex a b))) by exact Hx.
  rewrite (fft2_ext (e_nx c) (e_ny c) ey' (fun a b => cmul z (ey a b))) by exact Hy.
  rewrite !fft2_mul. generalize (fft2 (e_nx c) (e_ny c) ex i j) (fft2 (e_nx c) (e_ny c) ey i j). intros; cxr.
Qed.
Lemma free_step c t E0y phi i j w : free c -> inside c i j ->
  (e_grad c = false /\ w = 0) \/ (exists N, uniform c N /\ w = e_wp0 c / 2 * (N / e_env c - 1)) ->
  epw_step c t E0y phi i j = cscal (e_filter c i j ^ 2 * zmask c i j * exp (- (landau c i j + e_nu c) * e_dt c)) (cmul (phi i j) (cis (- ((bohm_gross c i j + w) * e_dt c)))).
Proof.
  intros (T & Nz & B) I H. unfold epw_step. rewrite T.
  assert (E : phi_of c (epw_medium c (ex_of c (epw_noisy c t phi))) (epw_medium c (ey_of c (epw_noisy c t phi))) i j
              = cmul (cis (- (w * e_dt c))) (cscal (e_filter c i j * zmask c i j) (epw_noisy c t phi i j))).
  { rewrite (phi_of_mul c (cis (- (w * e_dt c))) (ex_of c (epw_noisy c t phi)) (ey_of c (epw_noisy c t phi))).
    - rewrite C97_round_trip by auto. reflexivity.
    - exact I.
    - intros a b _. destruct H as [[G ->]|(N & U & ->)]; [|rewrite (medium_uniform c N) by auto; reflexivity].
      unfold epw_medium. rewrite G, B. replace (- (0 * e_dt c)) with 0 by ring. rewrite cis_0. generalize (ex_of c (epw_noisy c t phi) a b). intros; cxr.
    - intros a b _. destruct H as [[G ->]|(N & U & ->)]; [|rewrite (medium_uniform c N) by auto; reflexivity].
      unfold epw_medium. rewrite G, B. replace (- (0 * e_dt c)) with 0 by ring. rewrite cis_0. generalize (ey_of c (epw_noisy c t phi) a b). intros; cxr. }
  rewrite E. unfold epw_noisy, epw_linear. rewrite Nz.
  replace (- ((bohm_gross c i j + w) * e_dt c)) with (- (3 / 2 * e_vte2 c / e_wp0 c * ksq c i j * e_dt c) + - (w * e_dt c)) by (unfold bohm_gross, Rdiv; ring).
  rewrite cis_add. generalize (phi i j) (cis (- (3 / 2 * e_vte2 c / e_wp0 c * ksq c i j * e_dt c))) (cis (- (w * e_dt c))). intros; cxr.
Qed.
(** In a uniform lossless box every retained wave keeps its own wavenumber and, after n steps, has turned by its Bohm-Gross frequency
    (relative to the envelope frequency) times the elapsed time and lost amplitude at its Landau plus collisional rate, exactly. *)
Theorem C97_dispersion : forall c d n t y y' i j w, ok c -> free c -> inside c i j -> (i, j) <> (0%nat, 0%nat) -> e_filter c i j = 1 ->
  (e_grad c = false /\ w = 0) \/ (exists N, uniform c N /\ w = e_wp0 c / 2 * (N / e_env c - 1)) ->
  split_run c d n t y = Some y' ->
  l_epw y' i j = cscal (exp (- (landau c i j + e_nu c) * (INR n * e_dt c)))
                   (cmul (l_epw y i j) (cis (- ((3 / 2 * e_vte2 c * (ekx c i ^ 2 + eky c j ^ 2) / e_wp0 c + w) * (INR n * e_dt c))))).
Proof.
  intros c d n t y y' i j w O Fr I Nz F H. change (ekx c i ^ 2 + eky c j ^ 2) with (ksq c i j). revert t y. induction n as [|n IH]; intros t y R.
  - cbn [split_run] in R. injection R as <-. change (INR 0) with 0. rewrite !Rmult_0_l, !Rmult_0_r, Ropp_0, exp_0, cis_0. generalize (l_epw y i j). intros; cxr.
  - cbn [split_run] in R. destruct (split_step c d t y) as [y1|] eqn:E; [|discriminate]. rewrite (IH _ _ R). clear IH R.
    unfold split_step in E. destruct (s_E2 d); [discriminate|]. injection E as <-. cbn [l_epw].
    rewrite (free_step c t _ _ i j w) by auto. rewrite F, (zmask_1 c i j) by (apply ksq_pos; auto).
    rewrite S_INR. fold (bohm_gross c i j).
    change (3 / 2 * e_vte2 c * ksq c i j / e_wp0 c) with (bohm_gross c i j).
    replace (- (landau c i j + e_nu c) * ((INR n + 1) * e_dt c)) with (- (landau c i j + e_nu c) * (INR n * e_dt c) + - (landau c i j + e_nu c) * e_dt c) by ring.
    replace (- ((bohm_gross c i j + w) * ((INR n + 1) * e_dt c))) with (- ((bohm_gross c i j + w) * (INR n * e_dt c)) + - ((bohm_gross c i j + w) * e_dt c)) by ring.
    rewrite exp_plus, cis_add.
    generalize (exp (- (landau c i j + e_nu c) * (INR n * e_dt c))) (exp (- (landau c i j + e_nu c) * e_dt c)) (cis (- ((bohm_gross c i j + w) * (INR n * e_dt c)))) (cis (- ((bohm_gross c i j + w) * e_dt c))) (l_epw y i j).
    intros; cxr.
Qed.
Print Assumptions C97_dispersion.

(* ------------------------------------------------------------------------------------------------ *)
(** * Two-plasmon decay *)
(** A plane pump: amplitude [A], mode number [m] along x, uniform in y. The daughter of mode (i, j) is the one with which it adds up to the
    pump, on the periodic index grid. *)
Definition plane (c : ecfg) (A : cplx) (m : Z) (E0y : cfield) : Prop := forall a b, inside c a b -> E0y a b = cmul A (cis (angleZ (e_nx c) m a)).
Definition mate_x (c : ecfg) (m : Z) (i : nat) : nat := wrap (e_nx c) (m - Z.of_nat i).
Definition mate_y (c : ecfg) (j : nat) : nat := wrap (e_ny c) (- Z.of_nat j).
Definition pump_factor (c : ecfg) (t : R) (A : cplx) : cplx :=
  cmul (cmul (0, e_e c / (8 * e_wp0 c * e_me c)) (cis (- ((e_w0 c - 2 * e_wp0 c) * t)))) A.
Lemma mate_y_val c j : (j < e_ny c)%nat -> mate_y c j = if (j =? 0)%nat then 0%nat else (e_ny c - j)%nat.
Proof.
  intros H. unfold mate_y, wrap. destruct (Nat.eqb_spec j 0) as [->|N].
  - cbn [Z.of_nat Z.opp]. rewrite Zmod_0_l. reflexivity.
  - replace (- Z.of_nat j)%Z with ((Z.of_nat (e_ny c) - Z.of_nat j) + (-1) * Z.of_nat (e_ny c))%Z by lia. rewrite Z_mod_plus_full, Z.mod_small by lia. lia.
Qed.
Lemma eky_mate c j : e_dy c <> 0 -> (j < e_ny c)%nat -> (2 * j <> e_ny c)%nat -> eky c (mate_y c j) = - eky c j.
Proof.
  intros D H N. rewrite mate_y_val by auto. unfold eky. destruct (Nat.eqb_spec j 0) as [->|Nj]; [rewrite kx_0; ring|]. apply kx_mirror; auto; lia.
Qed.
Theorem C97_tpd : forall c t A m phi E0y i j, ok c -> inside c i j -> (2 * j <> e_ny c)%nat -> (i, j) <> (0%nat, 0%nat) -> plane c A m E0y ->
  let k := mate_x c m i in let l := mate_y c j in
  tpd_source c t phi (ey_of c phi) E0y i j =
  cscal (e_filter c i j * eky c j * (ksq c k l - ksq c i j) / ksq c i j) (cmul (0, 1) (cmul (pump_factor c t A) (conj (phi k l)))).
Proof.
  intros c t A m phi E0y i j O I N2 N0 P k l. pose proof O as (Hx & Hy & Dx & Dy & _). pose proof I as [Hi Hj].
  pose proof (ksq_pos c i j O I N0) as K. unfold tpd_source. rewrite (zmask_1 c i j K).
  rewrite (fft2_ext _ _ (fun a b => cmul (E0y a b) (conj (ey_of c phi a b))) (fun a b => cmul (cmul A (cis (angleZ (e_nx c) m a))) (conj (ey_of c phi a b)))) by (intros a b H; rewrite (P a b H); reflexivity).
  rewrite (fft2_ext _ _ (fun a b => cmul (E0y a b) (conj (ifft2 (e_nx c) (e_ny c) (fun i j => cscal (ksq c i j) (phi i j)) a b))) (fun a b => cmul (cmul A (cis (angleZ (e_nx c) m a))) (conj (ifft2 (e_nx c) (e_ny c) (fun i j => cscal (ksq c i j) (phi i j)) a b)))) by (intros a b H; rewrite (P a b H); reflexivity).
  unfold ey_of. rewrite !plane_conj2 by auto. fold (mate_x c m i) (mate_y c j). fold k l.
  assert (Ey : eky c l = - eky c j) by (apply eky_mate; auto; lra). rewrite Ey.
  unfold inv_ksq. destruct (Rlt_dec 0 (ksq c i j)); [|lra]. unfold pump_factor.
  set (Kk := ksq c k l). set (Ki := ksq c i j) in *. set (ky := eky c j).
  generalize (phi k l) (cis (- ((e_w0 c - 2 * e_wp0 c) * t))). intros [p q] [u v]. destruct A as [a b]. set (g := e_e c / (8 * e_wp0 c * e_me c)). clearbody g Kk.
  apply cplx_eq; unfold cadd, cmul, cscal, conj; cbn [fst snd]; field; lra.
Qed.
Print Assumptions C97_tpd.
Lemma mate_lt c m i j : ok c -> inside c (mate_x c m i) (mate_y c j).
Proof. intros (Hx & Hy & _). split; apply wrap_lt; auto. Qed.
Lemma wrap_invol n m i : (0 < n)%nat -> (i < n)%nat -> wrap n (m - Z.of_nat (wrap n (m - Z.of_nat i))) = i.
Proof.
  intros Hn Hi. unfold wrap at 1. rewrite wrap_Z by auto. rewrite Zminus_mod_idemp_r. replace (m - (m - Z.of_nat i))%Z with (Z.of_nat i) by lia. rewrite Z.mod_small by lia. lia.
Qed.
Lemma mate_x_invol c m i : (i < e_nx c)%nat -> mate_x c m (mate_x c m i) = i.
Proof. intros H. apply wrap_invol; lia. Qed.
Lemma mate_y_invol c j : (j < e_ny c)%nat -> mate_y c (mate_y c j) = j.
Proof. intros H. exact (wrap_invol (e_ny c) 0 j ltac:(lia) H). Qed.
(** Decay into pairs: the rates at which the source feeds the field energy of a wave and of its daughter are equal (Manley-Rowe). *)
Definition feed (c : ecfg) (t : R) (phi E0y : cfield) (i j : nat) : R := ksq c i j * fst (cmul (conj (phi i j)) (tpd_source c t phi (ey_of c phi) E0y i j)).
Theorem C97_tpd_pairs : forall c t A m phi E0y i j, ok c -> inside c i j -> (2 * j <> e_ny c)%nat ->
  (i, j) <> (0%nat, 0%nat) -> (mate_x c m i, mate_y c j) <> (0%nat, 0%nat) -> plane c A m E0y ->
  e_filter c i j = e_filter c (mate_x c m i) (mate_y c j) ->
  feed c t phi E0y i j = feed c t phi E0y (mate_x c m i) (mate_y c j).
Proof.
  intros c t A m phi E0y i j O I N2 N0 N1 P F. pose proof O as (Hx & Hy & Dx & Dy & _). pose proof I as [Hi Hj].
  set (k := mate_x c m i) in *. set (l := mate_y c j) in *.
  assert (Il : inside c k l) by (apply mate_lt; auto).
  assert (N2' : (2 * l <> e_ny c)%nat) by (unfold l; rewrite mate_y_val by auto; destruct (Nat.eqb_spec j 0); lia).
  pose proof (C97_tpd c t A m phi E0y i j O I N2 N0 P) as E1. pose proof (C97_tpd c t A m phi E0y k l O Il N2' N1 P) as E2. cbv zeta in E1, E2.
  fold k l in E1. replace (mate_x c m k) with i in E2 by (symmetry; apply mate_x_invol; auto). replace (mate_y c l) with j in E2 by (symmetry; apply mate_y_invol; auto).
  unfold feed. rewrite E1, E2. clear E1 E2.
  assert (Ey : eky c l = - eky c j) by (apply eky_mate; auto; lra). rewrite Ey, F.
  pose proof (ksq_pos c i j O I N0). pose proof (ksq_pos c k l O Il N1).
  set (Kk := ksq c k l) in *. set (Ki := ksq c i j) in *.
  generalize (phi k l) (phi i j) (pump_factor c t A). intros [p q] [r s] [u v]. unfold cadd, cmul, cscal, conj; cbn [fst snd]; field; lra.
Qed.
Print Assumptions C97_tpd_pairs.

(** The source is linear in the pump: scaling the pump by any complex factor scales it. *)
Theorem C97_tpd_linear : forall c t z w phi E0 E1 i j,
  tpd_source c t phi (ey_of c phi) (fun a b => cadd (cmul z (E0 a b)) (cmul w (E1 a b))) i j =
  cadd (cmul z (tpd_source c t phi (ey_of c phi) E0 i j)) (cmul w (tpd_source c t phi (ey_of c phi) E1 i j)).
Proof.
  intros c t z w phi E0 E1 i j. unfold tpd_source.
  assert (D : forall g, fft2 (e_nx c) (e_ny c) (fun a b => cmul (cadd (cmul z (E0 a b)) (cmul w (E1 a b))) (g a b)) i j
              = cadd (cmul z (fft2 (e_nx c) (e_ny c) (fun a b => cmul (E0 a b) (g a b)) i j)) (cmul w (fft2 (e_nx c) (e_ny c) (fun a b => cmul (E1 a b) (g a b)) i j))).
  { intros g. rewrite <- !fft2_mul, <- fft2_add. apply fft2_ext. intros a b _. generalize (E0 a b) (E1 a b) (g a b). intros; cxr. }
  rewrite (D (fun a b => conj (ey_of c phi a b))), (D (fun a b => conj (ifft2 (e_nx c) (e_ny c) (fun i j => cscal (ksq c i j) (phi i j)) a b))).
  repeat match goal with |- context [fft2 ?a ?b ?f i j] => generalize (fft2 a b f i j) end.
  generalize (cis (- ((e_w0 c - 2 * e_wp0 c) * t))). intros; cxr.
Qed.
Print Assumptions C97_tpd_linear.

(* ------------------------------------------------------------------------------------------------ *)
(** * What stays zero *)
Definition still (c : ecfg) (phi : cfield) : Prop := forall i j, inside c i j -> phi i j = c0.
Lemma mul_c0_r z : cmul z c0 = c0. Proof. cxr. Qed.
Lemma ifft2_still c f a b : still c f -> ifft2 (e_nx c) (e_ny c) f a b = c0.
Proof. intros H. rewrite (ifft2_ext _ _ f (fun _ _ => c0)) by exact H. apply ifft2_zero. Qed.
Lemma fft2_still c f a b : still c f -> fft2 (e_nx c) (e_ny c) f a b = c0.
Proof. intros H. rewrite (fft2_ext _ _ f (fun _ _ => c0)) by exact H. apply fft2_zero. Qed.
Lemma step_still c t E0y phi : e_noise_on c = false -> still c phi -> still c (epw_step c t E0y phi).
Proof.
  intros N H. assert (L : still c (epw_noisy c t phi)).
  { intros i j I. unfold epw_noisy, epw_linear. rewrite N, (H i j I). cxr. }
  assert (X : still c (ex_of c (epw_noisy c t phi))). { intros a b _. unfold ex_of. apply ifft2_still. intros i j I. rewrite (L i j I). apply mul_c0_r. }
  assert (Y : still c (ey_of c (epw_noisy c t phi))). { intros a b _. unfold ey_of. apply ifft2_still. intros i j I. rewrite (L i j I). apply mul_c0_r. }
  assert (M : forall f, still c f -> still c (epw_medium c f)).
  { intros f Hf a b I. unfold epw_medium. rewrite (Hf a b I). destruct (e_grad c); [generalize (cis (- (e_wp0 c / 2 * (e_bg c a b / e_env c - 1) * e_dt c))); intros; cxr|cxr]. }
  assert (P : still c (phi_of c (epw_medium c (ex_of c (epw_noisy c t phi))) (epw_medium c (ey_of c (epw_noisy c t phi))))).
  { intros i j I. unfold phi_of. rewrite !fft2_still by (apply M; auto). cxr. }
  unfold epw_step. destruct (e_tpd c); [|exact P]. intros i j I. rewrite (P i j I). unfold tpd_source.
  rewrite !fft2_still.
  - generalize (cis (- ((e_w0 c - 2 * e_wp0 c) * t))). intros; cxr.
  - intros a b _. rewrite (ifft2_still c) by (intros i' j' I'; rewrite (L i' j' I'); apply scal_c0). generalize (E0y a b). intros; cxr.
  - intros a b Ib. rewrite (Y a b Ib). generalize (E0y a b). intros; cxr.
Qed.
(** With the noise source off, a run from the initial state keeps the plasma wave at exactly zero for ever, whatever the laser: the
    two-plasmon source cannot start by itself and the initial noise the configuration asks for is multiplied by zero. The scattered
    light is zero in every run. *)
Theorem C97_quiet : forall c d n t noise y', split_run c d n t (lpse_init noise) = Some y' ->
  (e_noise_on c = false -> forall i j, inside c i j -> l_epw y' i j = c0) /\ (forall a b, l_E1x y' a b = c0 /\ l_E1y y' a b = c0).
Proof.
  intros c d n t noise y' R. 
  assert (G : forall n t y, (e_noise_on c = false -> still c (l_epw y)) -> (forall a b, l_E1x y a b = c0 /\ l_E1y y a b = c0) -> split_run c d n t y = Some y' ->
     (e_noise_on c = false -> still c (l_epw y')) /\ (forall a b, l_E1x y' a b = c0 /\ l_E1y y' a b = c0)).
  { clear. intros n. induction n as [|n IH]; intros t y H1 H2 R.
    - cbn [split_run] in R. injection R as <-. split; auto.
    - cbn [split_run] in R. destruct (split_step c d t y) as [y1|] eqn:E; [|discriminate]. apply (IH _ _) in R; auto.
      + unfold split_step in E. destruct (s_E2 d); [discriminate|]. injection E as <-. cbn [l_epw]. intros N. apply step_still; auto.
      + unfold split_step in E. destruct (s_E2 d); [discriminate|]. injection E as <-. cbn [l_E1x l_E1y]. intros a b. destruct (H2 a b) as [-> ->]. rewrite scal_c0. auto. }
  refine (G n t _ _ _ R); cbn; auto. intros _ i j _. apply scal_0.
Qed.
Print Assumptions C97_quiet.

(* ------------------------------------------------------------------------------------------------ *)
(** * What the solver does not do *)
(** A plasma-wave driver ("E2", which adept/_lpse2d/core/vector_field.py:84 accepts) fails at the first step. *)
Theorem C97_E2_refuted : forall c d n t y, s_E2 d = true -> split_run c d (S n) t y = None.
Proof. intros c d n t y H. cbn [split_run]. unfold split_step. rewrite H. reflexivity. Qed.
Print Assumptions C97_E2_refuted.
(** Switching on the Raman source or the hyperviscosity in the configuration changes no state of any run. *)
Definition with_terms (c : ecfg) (srs : bool) (h : option (R * nat)) : ecfg :=
  {| e_nx := e_nx c; e_ny := e_ny c; e_dx := e_dx c; e_dy := e_dy c; e_dt := e_dt c; e_wp0 := e_wp0 c; e_w0 := e_w0 c; e_vte2 := e_vte2 c; e_e := e_e c; e_me := e_me c;
     e_nu := e_nu c; e_env := e_env c; e_bg := e_bg c; e_bound := e_bound c; e_filter := e_filter c; e_tpd := e_tpd c; e_noise_on := e_noise_on c; e_noise := e_noise c;
     e_grad := e_grad c; e_srs := srs; e_hyper := h |}.
Theorem C97_unused_terms_refuted : forall c d srs h n t y, split_run (with_terms c srs h) d n t y = split_run c d n t y.
Proof.
  intros c d srs h n. induction n as [|n IH]; intros t y; [reflexivity|]. cbn [split_run].
  change (split_step (with_terms c srs h) d t y) with (split_step c d t y). destruct (split_step c d t y); [|reflexivity]. apply IH.
Qed.
Print Assumptions C97_unused_terms_refuted.

(** Without an E2 driver every run succeeds, so the theorems about runs are not vacuous. *)
Lemma run_total c d n t y : s_E2 d = false -> exists y', split_run c d n t y = Some y'.
Proof. intros H. revert t y. induction n as [|n IH]; intros t y; [eexists; reflexivity|]. cbn [split_run]. unfold split_step. rewrite H. apply IH. Qed.
(** A concrete box: 8 by 4 cells, everything retained but mode (4, 0), a plane pump of mode 3. *)
Definition box (tpd grad : bool) : ecfg :=
  {| e_nx := 8; e_ny := 4; e_dx := 1; e_dy := 1; e_dt := / 100; e_wp0 := 1; e_w0 := 2; e_vte2 := / 10; e_e := 1; e_me := 1; e_nu := / 50; e_env := / 4; e_bg := fun _ _ => / 4;
     e_bound := fun _ _ => 1; e_filter := fun i _ => if (i =? 4)%nat then 0 else 1; e_tpd := tpd; e_noise_on := false; e_noise := fun _ _ _ => 0; e_grad := grad; e_srs := false; e_hyper := None |}.
Definition pump : cfield := fun a _ => cmul (2, 0) (cis (angleZ 8 3 a)).
Example box_ok : forall tpd grad, ok (box tpd grad) /\ free (box false grad) /\ uniform (box tpd true) (/ 4) /\ inside (box tpd grad) 5 1 /\ plane (box tpd grad) (2, 0) 3 pump.
Proof.
  intros tpd grad. repeat split; cbn -[INR]; try lra; try lia; try (destruct (i =? 4)%nat; lra); auto.
Qed.
Example box_mate : mate_x (box true true) 3 5 = 6%nat /\ mate_y (box true true) 1 = 3%nat /\ (2 * 1 <> e_ny (box true true))%nat /\
  e_filter (box true true) 5 1 = e_filter (box true true) 6 3 /\ e_filter (box true true) 4 0 = 0.
Proof. repeat split; try reflexivity. cbn. lia. Qed.
Example box_runs : exists y', split_run (box true true) {| s_light := Some (fun _ => 1, fun _ => pump); s_E2 := false |} 7 0 (lpse_init (fun _ _ => c1)) = Some y'.
Proof. apply run_total. reflexivity. Qed.
(** There the source does feed the pair: it is not zero on (5, 1) when the mate holds a wave. *)
Example box_tpd : tpd_source (box true true) 0 (fun i j => if ((i =? 6) && (j =? 3))%nat then c1 else c0)
    (ey_of (box true true) (fun i j => if ((i =? 6) && (j =? 3))%nat then c1 else c0)) pump 5%nat 1%nat <> c0.
Proof.
  set (phi := fun i j => if ((i =? 6) && (j =? 3))%nat then c1 else c0).
  destruct (box_ok true true) as (O & _ & _ & I & P).
  rewrite (C97_tpd (box true true) 0 (2, 0) 3 phi pump 5 1 O I) by (try exact P; try discriminate; cbn; lia). cbv zeta.
  destruct box_mate as (-> & -> & _). cbn [phi]. change (phi 6%nat 3%nat) with c1. unfold pump_factor. cbn [e_w0 e_wp0 e_e e_me box].
  replace (- ((2 - 2 * 1) * 0)) with 0 by ring. rewrite cis_0. change (e_filter (box true true) 5 1) with 1.
  intros E. apply (f_equal fst) in E. unfold cscal, cmul, conj, c1, c0 in E. cbn [fst snd] in E.
  assert (K : ksq (box true true) 5 1 <> 0) by (apply Rgt_not_eq, ksq_pos; auto; discriminate).
  assert (Ky : eky (box true true) 1 <> 0) by (apply kx_nonzero; [cbn; lra|cbn; lia]).
  assert (D : ksq (box true true) 6 3 - ksq (box true true) 5 1 <> 0).
  { unfold ksq, ekx, eky, kx. cbn -[PI IZR INR]. replace (INR 8) with 8 by (cbn; ring). replace (INR 4) with 4 by (cbn; ring).
    replace (INR 6) with 6 by (cbn; ring). replace (INR 5) with 5 by (cbn; ring). replace (INR 3) with 3 by (cbn; ring). change (INR 1) with 1. pose proof PI_RGT_0. cbn. 
    match goal with |- ?a <> 0 => replace a with (- (5 / 16) * PI ^ 2) by field end. assert (0 < PI ^ 2) by (apply pow_lt; auto). lra. }
  apply (Rmult_integral_contrapositive_currified _ _ Ky) in D. apply (Rmult_integral_contrapositive_currified _ (/ ksq (box true true) 5 1) D). 1: apply Rinv_neq_0_compat; auto.
  unfold Rdiv in E. lra.
Qed.
