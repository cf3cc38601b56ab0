(** Lemmas about the Vlasov-1D2V step. *)
From Coq Require Import Permutation Psatz FunctionalExtensionality.
From Verif Require Import DriftDiffProofs DriftDiffProps CylProofs CylProps VStepProps VlasovProofs VlasovProofs2 VStep2v.
From Verif Require Import PyStr Dft.
Local Open Scope R_scope.

(* ------------------------------------------------------------------------------------------------ *)
(** ** The transforms are linear in the data, for any number of points *)
Lemma fft_comb n u w a b k : fft n (fun i => u * a i + w * b i) k = cadd (cscal u (fft n a k)) (cscal w (fft n b k)).
Proof. unfold fft. rewrite <- !csum_scal, <- csum_add. apply csum_ext. intros i _. creal. Qed.
Lemma herm_comb n X Y Z u w k : (forall m, X m = cadd (cscal u (Y m)) (cscal w (Z m))) -> herm n X k = cadd (cscal u (herm n Y k)) (cscal w (herm n Z k)).
Proof. intros H. unfold herm. rewrite !H. destruct (k =? 0)%nat; [|destruct (2 * k <? n)%nat; [|destruct (2 * k =? n)%nat]]; creal. Qed.
Lemma irfft_comb n X Y Z u w g : (forall m, X m = cadd (cscal u (Y m)) (cscal w (Z m))) -> irfft n X g = u * irfft n Y g + w * irfft n Z g.
Proof.
  intros H. unfold irfft, ifft. rewrite (csum_ext n _ (fun k => cadd (cscal u (cmul (herm n Y k) (cis (angle n k g)))) (cscal w (cmul (herm n Z k) (cis (angle n k g)))))).
  - rewrite csum_add, !csum_scal. unfold cscal, cadd. cbn [fst snd]. ring.
  - intros k _. rewrite (herm_comb n X Y Z u w k H). creal.
Qed.
Lemma space_comb nx dx v u w a b g : space_col nx dx v (fun i => u * a i + w * b i) g = u * space_col nx dx v a g + w * space_col nx dx v b g.
Proof. unfold space_col. apply irfft_comb. intros m. unfold rfft. rewrite fft_comb. creal. Qed.
Lemma vel_comb nv dv dt ac u w a b g : vel_row nv dv dt ac (fun i => u * a i + w * b i) g = u * vel_row nv dv dt ac a g + w * vel_row nv dv dt ac b g.
Proof. rewrite !vel_row_col. apply space_comb. Qed.
(** Anything linear commutes with a weighted sum of slices. *)
Lemma linear_sum (T : (nat -> R) -> R) n (a : nat -> nat -> R) (w : nat -> R) :
  (forall u v x y, T (fun i => u * x i + v * y i) = u * T x + v * T y) ->
  T (fun i => rsum n (fun k => a i k * w k)) = rsum n (fun k => T (fun i => a i k) * w k).
Proof.
  intros H. induction n as [|n IH]; cbn [rsum].
  - replace (fun _ : nat => 0) with (fun i : nat => 0 * 0 + 0 * 0) by (extensionality i; ring). rewrite (H 0 0 (fun _ => 0) (fun _ => 0)). ring.
  - replace (fun i => rsum n (fun k => a i k * w k) + a i n * w n) with (fun i => 1 * rsum n (fun k => a i k * w k) + w n * a i n) by (extensionality i; ring).
    rewrite (H 1 (w n) (fun i => rsum n (fun k => a i k * w k)) (fun i => a i n)), IH. ring.
Qed.
Lemma marginal_space h nx dx s dt f : marginal h (space_push2 nx dx s dt f) = space_push nx dx s dt (marginal h f).
Proof.
  extensionality g. extensionality j. unfold marginal, space_push, space_push2.
  symmetry. exact (linear_sum (fun x => space_col nx dx (sp_v s j * dt) x g) (h_nvp h) (fun i k => f i j k) (wperp h) (fun u v x y => space_comb nx dx _ u v x y g)).
Qed.
Lemma marginal_vel h s e pond dt f : marginal h (vel_push2 s e pond dt f) = vel_push s e pond dt (marginal h f).
Proof.
  extensionality i. extensionality j. unfold marginal, vel_push, vel_push2.
  symmetry. exact (linear_sum (fun x => vel_row (sp_nv s) (sp_dv s) dt (sp_accel s e pond i) x j) (h_nvp h) (fun l k => f i l k) (wperp h) (fun u v x y => vel_comb _ _ _ _ u v x y j)).
Qed.
Lemma marginals_map h m m' F : (forall s f, marginal h (m s f) = m' s (marginal h f)) -> f_of (marginals h (map_f2 m F)) = map_f m' (f_of (marginals h F)).
Proof. intros H. unfold f_of, marginals, map_f2, map_f. rewrite !map_map. apply map_ext. intros [n [s f]]. cbn [fst snd]. now rewrite H. Qed.
Lemma names_map m F : map fst (map_f2 m F) = map fst F.
Proof. unfold map_f2. rewrite map_map. apply map_ext. reflexivity. Qed.
Lemma names_marginals h F : map fst (marginals h F) = map fst F.
Proof. unfold marginals. rewrite map_map. apply map_ext. reflexivity. Qed.
Lemma rename_self h F : rename (marginals h F) (f_of (marginals h F)) = marginals h F.
Proof. unfold rename, f_of. induction F as [|[n [s f]] F IH]; cbn; [reflexivity|]. f_equal. exact IH. Qed.
Lemma rename_names h F F' : map fst F' = map fst F -> rename (marginals h F) (f_of (marginals h F')) = marginals h F'.
Proof. intros H. rewrite <- (rename_self h F') at 2. unfold rename. rewrite !names_marginals. now rewrite H. Qed.

(** ** The collisionless integrator *)
Definition on_pair {A B C} (m : B -> C) (o : option (A * B)) : option (A * C) := match o with Some (a, b) => Some (a, m b) | None => None end.
Lemma leapfrog_marginal h F a d prev : let g := h_g h in
  leapfrog (g_nx g) (g_dx g) (g_solver g) EExponential (g_dt g) (f_of (marginals h F)) a d prev = on_pair (fun F' => f_of (marginals h F')) (leapfrog2 h F a d prev).
Proof.
  intros g. unfold leapfrog, leapfrog2. fold g.
  assert (E : map_f (fun s f => space_push (g_nx g) (g_dx g) s (g_dt g) f) (f_of (marginals h F)) = f_of (marginals h (map_f2 (fun s f => space_push2 (g_nx g) (g_dx g) s (g_dt g) f) F))).
  { symmetry. apply marginals_map. intros. apply marginal_space. }
  rewrite E.
  replace (match g_solver g with SHampere => f_of (marginals h F) | _ => f_of (marginals h (map_f2 (fun s f => space_push2 (g_nx g) (g_dx g) s (g_dt g) f) F)) end)
    with (f_of (marginals h match g_solver g with SHampere => F | _ => map_f2 (fun s f => space_push2 (g_nx g) (g_dx g) s (g_dt g) f) F end)) by (destruct (g_solver g); reflexivity).
  destruct (field_solve _ _ _ _ _ _) as [e|]; [|reflexivity]. cbn [on_pair]. do 2 f_equal. symmetry. apply marginals_map. intros s f. cbn [v_push]. apply marginal_vel.
Qed.
Lemma stage_marginal h pond d st F : let g := h_g h in
  sixth_stage (g_nx g) (g_dx g) (g_solver g) EExponential (g_dt g) pond d st (f_of (marginals h F)) = on_pair (fun F' => f_of (marginals h F')) (sixth_stage2 h pond d st F).
Proof.
  intros g. unfold sixth_stage, sixth_stage2. fold g. set (F1 := match fst st with None => F | Some c => map_f2 (fun s f => space_push2 (g_nx g) (g_dx g) s (c * g_dt g) f) F end).
  replace (match fst st with None => f_of (marginals h F) | Some c => map_f (fun s f => space_push (g_nx g) (g_dx g) s (c * g_dt g) f) (f_of (marginals h F)) end) with (f_of (marginals h F1)).
  2: { unfold F1. destruct (fst st); [|reflexivity]. apply marginals_map. intros. apply marginal_space. }
  destruct (g_solver g); try reflexivity; (destruct (field_solve _ _ _ _ _ _) as [e|]; [|reflexivity]; cbn [on_pair]; do 2 f_equal; symmetry; apply marginals_map; intros s f; cbn [v_push]; apply marginal_vel).
Qed.
Lemma sixth_run_marginal h pond l : forall e F, let g := h_g h in
  sixth_run (g_nx g) (g_dx g) (g_solver g) EExponential (g_dt g) pond l e (f_of (marginals h F)) = on_pair (fun F' => f_of (marginals h F')) (sixth_run2 h pond l e F).
Proof.
  induction l as [|[st d] l IH]; intros e F g; subst g; [reflexivity|]. cbn [sixth_run sixth_run2]. rewrite (stage_marginal h pond d st F : sixth_stage _ _ _ _ _ _ _ _ _ = _).
  destruct (sixth_stage2 h pond d st F) as [[e' F']|]; [|reflexivity]. cbn [on_pair]. apply IH.
Qed.

(** The entries keep their names and species; P relates old and new distributions. *)
Definition alike2 (P : species -> dist3 -> dist3 -> Prop) (F F' : ndict2) : Prop :=
  Forall2 (fun p p' => fst p' = fst p /\ fst (snd p') = fst (snd p) /\ P (fst (snd p)) (snd (snd p)) (snd (snd p'))) F F'.
Lemma alike2_names (P : species -> dist3 -> dist3 -> Prop) F F' : alike2 P F F' -> map fst F' = map fst F.
Proof. unfold alike2. induction 1 as [|p p' F F' (A & _) H IH]; [reflexivity|]. cbn [map]. congruence. Qed.
Lemma alike2_map (P : species -> dist3 -> dist3 -> Prop) m (F : ndict2) : (forall p, In p F -> P (fst (snd p)) (snd (snd p)) (m (fst (snd p)) (snd (snd p)))) -> alike2 P F (map_f2 m F).
Proof. unfold alike2, map_f2. induction F as [|p F IH]; intros H; cbn [map]; constructor; [repeat split; apply H; now left|apply IH; intros; apply H; now right]. Qed.
Lemma alike2_trans (P : species -> dist3 -> dist3 -> Prop) F G H : (forall s a b c, P s a b -> P s b c -> P s a c) -> alike2 P F G -> alike2 P G H -> alike2 P F H.
Proof.
  intros T A. unfold alike2 in *. revert H. induction A as [|p q F G (E1 & E2 & E3) A IH]; intros H B; inversion B as [|q' r G' H' (E4 & E5 & E6) B']; subst; constructor.
  - split; [congruence|]. split; [congruence|]. apply T with (snd (snd q)); [exact E3|]. now rewrite <- E2.
  - now apply IH.
Qed.
Lemma alike2_refl (P : species -> dist3 -> dist3 -> Prop) F : (forall s a, P s a a) -> alike2 P F F.
Proof. intros R. unfold alike2. induction F; constructor; auto. Qed.
Lemma alike2_imp (P Q : species -> dist3 -> dist3 -> Prop) F F' : (forall p b, In p F -> P (fst (snd p)) (snd (snd p)) b -> Q (fst (snd p)) (snd (snd p)) b) -> alike2 P F F' -> alike2 Q F F'.
Proof.
  unfold alike2. intros H A. induction A as [|p p' F F' (E1 & E2 & E3) A IH]; constructor; [repeat split; auto; apply H; auto; now left|]. apply IH. intros. apply H; auto. now right.
Qed.
(** An invariant of the two pushers is an invariant of the integrator. *)
Definition species_in (F : ndict2) (s : species) : Prop := exists p, In p F /\ fst (snd p) = s.
Lemma alike2_species (P : species -> dist3 -> dist3 -> Prop) F F' s : alike2 P F F' -> species_in F' s -> species_in F s.
Proof.
  unfold alike2, species_in. induction 1 as [|p p' F F' (E1 & E2 & _) A IH]; [intros (q & [] & _)|]. intros (q & [<-|I1] & E).
  - exists p. split; [now left|congruence].
  - destruct (IH (ex_intro _ q (Logic.conj I1 E))) as (r & Hr & Er). exists r. split; [now right|exact Er].
Qed.
Lemma vlasov2_invariant (P : species -> dist3 -> dist3 -> Prop) h F a prev dex e Fv :
  (forall s f, P s f f) -> (forall s a b c, P s a b -> P s b c -> P s a c) ->
  (forall s dt f, species_in F s -> P s f (space_push2 (g_nx (h_g h)) (g_dx (h_g h)) s dt f)) ->
  (forall s E pond dt f, species_in F s -> P s f (vel_push2 s E pond dt f)) ->
  vlasov_poisson2 h F a prev dex = Some (e, Fv) -> alike2 P F Fv.
Proof.
  intros R T Hs Hv H. unfold vlasov_poisson2 in H. destruct (g_edfdv (h_g h)); [|discriminate].
  assert (K1 : forall G dt, (forall s, species_in G s -> species_in F s) -> alike2 P G (map_f2 (fun s f => space_push2 (g_nx (h_g h)) (g_dx (h_g h)) s dt f) G)) by (intros G dt I1; apply alike2_map; intros p Hp; apply Hs; apply I1; now exists p).
  assert (K2 : forall G E pond dt, (forall s, species_in G s -> species_in F s) -> alike2 P G (map_f2 (fun s f => vel_push2 s E pond dt f) G)) by (intros G E pond dt I1; apply alike2_map; intros p Hp; apply Hv; apply I1; now exists p).
  destruct (g_time (h_g h)).
  - destruct dex as [|d dex]; [discriminate|]. unfold leapfrog2 in H. destruct (field_solve _ _ _ _ _ _); [|discriminate]. injection H as <- <-.
    eapply alike2_trans; [exact T|apply K1; auto|]. apply K2. intros s I1. eapply alike2_species; [|exact I1]. apply K1. auto.
  - revert H. generalize (combine (sixth_stages (g_dt (h_g h))) dex) (fun _ : nat => 0). intros l e0.
    assert (Q : forall G, alike2 P F G -> forall e0, sixth_run2 h (ponderomotive (g_nx (h_g h)) (g_dx (h_g h)) a) l e0 G = Some (e, Fv) -> alike2 P F Fv).
    { induction l as [|[st d] l IH]; intros G A e1 H; cbn [sixth_run2] in H; [injection H as <- <-; exact A|].
      destruct (sixth_stage2 _ _ _ _ _) as [[e' F']|] eqn:S1; [|discriminate]. apply (IH F') in H; [exact H|]. unfold sixth_stage2 in S1.
      assert (SG : forall s, species_in G s -> species_in F s) by (intros s; now apply (alike2_species P)).
      set (F1 := match fst st with None => G | Some c => map_f2 (fun s f => space_push2 (g_nx (h_g h)) (g_dx (h_g h)) s (c * g_dt (h_g h)) f) G end) in S1.
      assert (A1 : alike2 P F F1) by (unfold F1; destruct (fst st); [|exact A]; eapply alike2_trans; [exact T|exact A|now apply K1]).
      assert (SF : forall s, species_in F1 s -> species_in F s) by (intros s; now apply (alike2_species P)).
      destruct (g_solver (h_g h)); try discriminate; (destruct (field_solve _ _ _ _ _ _); [|discriminate]; injection S1 as <- <-; eapply alike2_trans; [exact T|exact A1|now apply K2]). }
    apply Q. now apply alike2_refl.
Qed.
Lemma vlasov2_names h F a prev dex e Fv : vlasov_poisson2 h F a prev dex = Some (e, Fv) -> alike2 (fun _ _ _ => True) F Fv.
Proof. apply vlasov2_invariant; auto. Qed.

(** The 1D configuration that a 1D2V run obeys: no filter, no stochastic driver, no rate diagnostics. *)
Definition proj_terms (tm : terms) : terms :=
  {| t_fp_on := t_fp_on tm; t_fp_type := t_fp_type tm; t_m := t_m tm; t_ratio := t_ratio tm; t_sc := t_sc tm;
     t_krook_on := t_krook_on tm; t_T0 := t_T0 tm; t_hou_li := None; t_diag_v := false; t_diag_fp := false |}.
Definition proj_setup (g : setup) : setup :=
  {| g_nx := g_nx g; g_dx := g_dx g; g_dt := g_dt g; g_x := g_x g; g_xa := g_xa g; g_c := g_c g;
     g_solver := g_solver g; g_edfdv := g_edfdv g; g_time := g_time g; g_terms := proj_terms (g_terms g);
     g_ex := g_ex g; g_ey := g_ey g; g_stochastic := None; g_nu_fp := g_nu_fp g; g_nu_K := g_nu_K g |}.
Definition project (h : setup2) (y : vstate2) : vstate :=
  {| y_f := marginals h (z_f y); y_a := z_a y; y_prev_a := z_prev_a y; y_e := z_e y; y_da := z_da y; y_de := z_de y; y_diag_v := None; y_diag_fp := None |}.

Lemma vlasov_marginal h F a prev dex : g_edfdv (h_g h) = EExponential ->
  vlasov_poisson (proj_setup (h_g h)) (marginals h F) a prev dex = on_pair (marginals h) (vlasov_poisson2 h F a prev dex).
Proof.
  intros X. pose proof (vlasov2_names h F a prev dex) as N. unfold vlasov_poisson, vlasov_poisson2 in *. cbn [proj_setup g_time g_nx g_dx g_solver g_edfdv g_dt]. rewrite X in *. destruct (g_time (h_g h)).
  - destruct dex as [|d dex]; [reflexivity|]. rewrite (leapfrog_marginal h F a d prev : leapfrog _ _ _ _ _ _ _ _ _ = _). destruct (leapfrog2 h F a d prev) as [[e F']|]; [|reflexivity].
    cbn [on_pair]. do 2 f_equal. apply rename_names. eapply alike2_names. exact (N e F' eq_refl).
  - unfold sixth. rewrite (sixth_run_marginal h _ _ _ F : sixth_run _ _ _ _ _ _ _ _ _ = _). destruct (sixth_run2 _ _ _ _ _) as [[e F']|]; [|reflexivity].
    cbn [on_pair]. do 2 f_equal. apply rename_names. eapply alike2_names. exact (N e F' eq_refl).
Qed.

(* ------------------------------------------------------------------------------------------------ *)
(** ** Collisions *)
Lemma mv_comb nv op u w x y i : mv nv op (fun k => u * x k + w * y k) i = u * mv nv op x i + w * mv nv op y i.
Proof. unfold mv. destruct i; destruct (_ <? _)%nat; ring. Qed.
Lemma lap_comb nv dv u w x y i : nodrag_lap nv dv (fun k => u * x k + w * y k) i = u * nodrag_lap nv dv x i + w * nodrag_lap nv dv y i.
Proof. unfold nodrag_lap. destruct (i =? 0)%nat; [unfold Rdiv; ring|]. destruct (S i =? nv)%nat; unfold Rdiv; ring. Qed.
(** The step without drag, with the intermediate result eliminated. *)
Lemma nodrag_iff nv v dv vbar beta D nu dt f fn : nodrag_step nv v dv vbar beta D nu dt f fn <->
  forall i, (i < nv)%nat -> mv nv (central nv dv (fun _ => 0) (fun _ => D) (fun _ => nu) dt)
    (fun j => fn j + dt * nu * nodrag_lap nv dv (fun l => D * normalised_maxwellian nv v dv vbar beta f l) j) i = f i.
Proof.
  unfold nodrag_step. split.
  - intros (fs & A & B) i Hi. rewrite step_solves in A. rewrite <- (A i Hi). apply mv_ext; [exact Hi|]. intros k Hk. rewrite (B k Hk). ring.
  - intros H. exists (fun j => fn j + dt * nu * nodrag_lap nv dv (fun l => D * normalised_maxwellian nv v dv vbar beta f l) j). split; [now apply step_solves|]. intros. ring.
Qed.
Lemma nm_comb nv v dv vbar beta u w x y i : normalised_maxwellian nv v dv vbar beta (fun k => u * x k + w * y k) i = u * normalised_maxwellian nv v dv vbar beta x i + w * normalised_maxwellian nv v dv vbar beta y i.
Proof. unfold normalised_maxwellian. rewrite rsum_plus, !rsum_scal. unfold Rdiv. ring. Qed.
Lemma slices_marginal h op nv v dv nu dt f fn : slices_row h op nv v dv nu dt f fn ->
  fp_row op (t_sc (g_terms (h_g h))) nv v dv nu dt (fun j => rsum (h_nvp h) (fun k => f j k * wperp h k)) (fun j => rsum (h_nvp h) (fun k => fn j k * wperp h k)).
Proof.
  intros (beta & B & H). exists beta. split; [exact B|]. set (F := fun j => rsum (h_nvp h) (fun k => f j k * wperp h k)) in *.
  destruct (fo_nodrag op).
  - set (vb := model_vbar (fo_model op) nv v F) in *. set (D := model_D (fo_model op) beta) in *. apply nodrag_iff. intros i Hi.
    set (M := central nv dv (fun _ => 0) (fun _ => D) (fun _ => nu) dt).
    set (G := fun j k => fn j k + dt * nu * nodrag_lap nv dv (fun l => D * normalised_maxwellian nv v dv vb beta (fun m => f m k) l) j).
    transitivity (mv nv M (fun j => rsum (h_nvp h) (fun k => G j k * wperp h k)) i).
    + apply mv_ext; [exact Hi|]. intros j Hj. unfold G.
      pose (T := fun x : nat -> R => dt * nu * nodrag_lap nv dv (fun l => D * normalised_maxwellian nv v dv vb beta x l) j).
      assert (L : forall u w x y, T (fun i => u * x i + w * y i) = u * T x + w * T y).
      { intros u w x y. unfold T. replace (fun l => D * normalised_maxwellian nv v dv vb beta (fun i0 => u * x i0 + w * y i0) l) with (fun l => u * (D * normalised_maxwellian nv v dv vb beta x l) + w * (D * normalised_maxwellian nv v dv vb beta y l)) by (extensionality l; rewrite nm_comb; ring). rewrite lap_comb. ring. }
      pose proof (linear_sum T (h_nvp h) (fun j k => f j k) (wperp h) L) as Q. unfold T in Q. fold F in Q. rewrite Q. rewrite <- rsum_plus. apply rsum_ext. intros k _. ring.
    + rewrite (linear_sum (fun x => mv nv M x i) (h_nvp h) G (wperp h) (fun u w x y => mv_comb nv M u w x y i)). unfold F. apply rsum_ext. intros k Hk. f_equal.
      exact (proj1 (nodrag_iff _ _ _ _ _ _ _ _ _ _) (H k Hk) i Hi).
  - apply step_solves. intros i Hi. set (M := get_operator _ _ _ _ _ _ _) in *.
    rewrite (linear_sum (fun x => mv nv M x i) (h_nvp h) (fun j k => fn j k) (wperp h) (fun u w x y => mv_comb nv M u w x y i)). unfold F. apply rsum_ext. intros k Hk. f_equal.
    exact (proj1 (step_solves _ _ _ _) (H k Hk) i Hi).
Qed.
Lemma operator_same tm names o : fp_operator2 tm names = Some (Slices o) -> fp_operator (t_fp_type tm) (t_m tm) (t_ratio tm) = Some o /\ t_krook_on tm = false /\ existsb (str_eqb electron) names = true.
Proof.
  unfold fp_operator2, fp_operator. destruct (existsb (str_eqb electron) names); [|discriminate]. cbn [negb]. destruct (t_krook_on tm); [discriminate|].
  destruct (str_eqb (lower (t_fp_type tm)) (lit "dougherty")) eqn:E1; [apply str_eqb_true in E1; rewrite E1; intros H; injection H as <-; repeat split|].
  destruct (str_eqb (lower (t_fp_type tm)) (lit "dougherty_nodrag")) eqn:E2; [apply str_eqb_true in E2; rewrite E2; intros H; injection H as <-; repeat split|].
  destruct (str_eqb (lower (t_fp_type tm)) (lit "lenard_bernstein")) eqn:E3; [apply str_eqb_true in E3; intros H; injection H as <-; repeat split|].
  intros H. exfalso. destruct (str_eqb (lower (t_fp_type tm)) (lit "cylindrical_landau")); discriminate H.
Qed.
