(** Property C103: the complete Vlasov-1D2V time step. *)
From Coq Require Import Permutation Psatz FunctionalExtensionality.
From Verif Require Import DriftDiffProofs DriftDiffProps CylProofs CylProps VStepProps VlasovProofs VlasovProofs2 VlasovProps VStep2v VStep2vProofs.
From Verif Require Import PyStr Dft.
From Verif Require VlasovProps2.
Local Open Scope R_scope.

Definition cyl_type (h : setup2) : Prop := lower (t_fp_type (g_terms (h_g h))) = lit "cylindrical_landau".

(* ------------------------------------------------------------------------------------------------ *)
(** Which configurations can run at all: only the exponential velocity pusher, no Krook, an electron species (also when
    collisions are off), and four collision types, upper or lower case. *)
Theorem C103_requirements : forall h t y y', vm_step2 h t y y' ->
  g_edfdv (h_g h) = EExponential /\ t_krook_on (g_terms (h_g h)) = false /\ In electron (map fst (z_f y)) /\
  In (lower (t_fp_type (g_terms (h_g h)))) [lit "dougherty"; lit "dougherty_nodrag"; lit "lenard_bernstein"; lit "cylindrical_landau"] /\
  map fst (z_f y') = map fst (z_f y).
Proof.
  intros h t y y' ((op & ref & Fv & H1 & H2 & H3 & H4 & _) & _). cbv zeta in *.
  assert (N : map fst (z_f y') = map fst (z_f y)).
  { rewrite <- (alike2_names _ _ _ (vlasov2_names _ _ _ _ _ _ _ H3)). clear - H4. induction H4 as [|p p' F F' (A & _) H IH]; [reflexivity|]. cbn [map]. congruence. }
  split; [unfold vlasov_poisson2 in H3; destruct (g_edfdv (h_g h)); [reflexivity|discriminate]|].
  unfold fp_operator2 in H1. destruct (existsb (str_eqb electron) (map fst (z_f y))) eqn:X; [|discriminate]. cbn [negb] in H1.
  destruct (t_krook_on (g_terms (h_g h))); [discriminate|]. split; [reflexivity|].
  split; [apply existsb_exists in X; destruct X as (m & Hm & Em); apply str_eqb_true in Em; now subst m|]. split; [|exact N].
  set (ty := lower (t_fp_type (g_terms (h_g h)))) in *.
  destruct (str_eqb ty (lit "dougherty")) eqn:E1; [apply str_eqb_true in E1; rewrite E1; now left|].
  destruct (str_eqb ty (lit "dougherty_nodrag")) eqn:E2; [apply str_eqb_true in E2; rewrite E2; right; now left|].
  destruct (str_eqb ty (lit "lenard_bernstein")) eqn:E3; [apply str_eqb_true in E3; rewrite E3; do 2 right; now left|].
  destruct (str_eqb ty (lit "cylindrical_landau")) eqn:E4; [apply str_eqb_true in E4; rewrite E4; do 3 right; now left|discriminate].
Qed.
Print Assumptions C103_requirements.

(* ------------------------------------------------------------------------------------------------ *)
(** Projection: with the slice-by-slice collision operators, integrating out v_perp turns every run of the 1D2V solver,
    whatever its state, into a run of the 1D solver of the marginals with the same options (no filter, no stochastic
    driver, no rate diagnostics). *)
Lemma dex_proj g t : map (fun d => total_dex (proj_setup g) (t + d)) (dt_array (proj_setup g)) = map (fun d => ex_dex g (t + d)) (dt_array g).
Proof. unfold dt_array. cbn [proj_setup g_time g_dt]. apply map_ext. intros d. extensionality i. unfold total_dex, ex_dex. cbn [proj_setup g_ex g_x g_stochastic]. ring. Qed.
Lemma op_slices h names op : ~ cyl_type h -> fp_operator2 (g_terms (h_g h)) names = Some op -> exists o, op = Slices o.
Proof.
  intros C H. destruct op as [o|]; [now exists o|]. exfalso. apply C. unfold fp_operator2 in H. destruct (negb _); [discriminate|]. destruct (t_krook_on _); [discriminate|].
  destruct (str_eqb _ (lit "dougherty")); [discriminate|]. destruct (str_eqb _ (lit "dougherty_nodrag")); [discriminate|]. destruct (str_eqb _ (lit "lenard_bernstein")); [discriminate|].
  destruct (str_eqb _ (lit "cylindrical_landau")) eqn:E; [now apply str_eqb_true in E|discriminate].
Qed.
Lemma collisions_marginal h o nu nuK ref Fv F' : t_krook_on (g_terms (h_g h)) = false -> ref = electron ->
  Forall2 (collide_entry2 h (Slices o) nu) Fv F' ->
  collisions (proj_terms (g_terms (h_g h))) o (g_nx (h_g h)) (g_dt (h_g h)) nu nuK ref (marginals h Fv) (marginals h F').
Proof.
  intros K -> H. unfold collisions. induction H as [|[n [s f]] [n' [s' f']] F G (A & B & C) H IH]; cbn [marginals map]; constructor; [|exact IH].
  cbn [fst snd] in *. subst n' s'. unfold collide_entry. cbn [fst snd]. split; [reflexivity|]. split; [reflexivity|]. destruct (str_eqb n electron); [|now rewrite C].
  exists (marginal h f'). cbn [proj_terms t_fp_on t_krook_on t_sc]. rewrite K. split; [|reflexivity]. unfold collide2v in C. destruct (t_fp_on (g_terms (h_g h))); [|now rewrite C].
  intros i Hi. exact (slices_marginal h o _ _ _ _ _ _ _ (C i Hi)).
Qed.
Lemma ref_electron l ref : existsb (str_eqb electron) l = true -> ref_name l = Some ref -> ref = electron.
Proof. unfold ref_name. intros ->. congruence. Qed.
Lemma step_projection h t y y' : ~ cyl_type h -> vm_step2 h t y y' -> vm_step (proj_setup (h_g h)) t (project h y) (project h y').
Proof.
  intros C S. destruct (C103_requirements h t y y' S) as (X & _). destruct S as ((op & ref & Fv & H1 & H2 & H3 & H4 & _) & (W1 & W2) & Da & De). cbv zeta in *.
  destruct (op_slices h _ _ C H1) as (o & ->). destruct (operator_same _ _ _ H1) as (O & K & E). pose proof (ref_electron _ _ E H2) as ->.
  unfold vm_step. rewrite dex_proj. cbv zeta. cbn [project y_f y_a y_prev_a y_e y_da y_de y_diag_v y_diag_fp]. split; [|split; [split; [exact W1|exact W2]|split; [exact Da|exact De]]].
  exists o, electron, (marginals h Fv), (marginals h (z_f y')). cbn [proj_setup g_terms proj_terms t_fp_type t_m t_ratio t_diag_v t_diag_fp g_nx g_dt]. split; [exact O|].
  split; [rewrite names_marginals; exact H2|]. split; [change ({| g_nx := _ |}) with (proj_setup (h_g h)); rewrite vlasov_marginal, H3 by exact X; reflexivity|].
  split; [|repeat split]. cbn [t_fp_on t_krook_on g_x]. apply collisions_marginal; [exact K|reflexivity|]. exact H4.
Qed.
Theorem C103_projection : forall h n t y y', ~ cyl_type h -> vm_run2 h n t y y' -> vm_run (proj_setup (h_g h)) n t (project h y) (project h y').
Proof.
  intros h n t y y' C R. induction R as [t y|n t y y1 y2 S R IH]; [constructor|]. apply run_S with (project h y1); [exact (step_projection h t y y1 C S)|exact IH].
Qed.
Print Assumptions C103_projection.

(* ------------------------------------------------------------------------------------------------ *)
(** The 1D limit: conversely, every 1D run is a 1D2V run: multiply the distribution of each species by any perpendicular
    profile of unit weight; the product form is kept. *)
Definition lift (M : str -> nat -> R) (F : ndict) : ndict2 := map (fun p => (fst p, (fst (snd p), fun i j k => snd (snd p) i j * M (fst p) k))) F.
Lemma marginal_lift h (m : nat -> R) (f : dist) : rsum (h_nvp h) (fun k => m k * wperp h k) = 1 -> marginal h (fun i j k => f i j * m k) = f.
Proof.
  intros U. extensionality i. extensionality j. unfold marginal. rewrite (rsum_ext _ _ (fun k => f i j * (m k * wperp h k))) by (intros; ring). rewrite rsum_scal, U. ring.
Qed.
Lemma marginals_lift h M F : (forall n, rsum (h_nvp h) (fun k => M n k * wperp h k) = 1) -> marginals h (lift M F) = F.
Proof.
  intros U. unfold marginals, lift. rewrite map_map. rewrite <- (map_id F) at 2. apply map_ext. intros [n [s f]]. cbn [fst snd]. now rewrite marginal_lift.
Qed.
Lemma lift_names M F : map fst (lift M F) = map fst F.
Proof. unfold lift. rewrite map_map. now apply map_ext. Qed.
Lemma comb_one (T : (nat -> R) -> R) x c : (forall u w a b, T (fun i => u * a i + w * b i) = u * T a + w * T b) -> T (fun i => x i * c) = T x * c.
Proof. intros H. replace (fun i => x i * c) with (fun i => c * x i + 0 * x i) by (extensionality i; ring). rewrite H. ring. Qed.
Lemma lift_space M nx dx dt F : map_f2 (fun s f => space_push2 nx dx s dt f) (lift M F) = lift M (rename F (map_f (fun s f => space_push nx dx s dt f) (f_of F))).
Proof.
  unfold map_f2, lift, rename, map_f, f_of. rewrite !map_map. induction F as [|[n [s f]] F IH]; [reflexivity|]. cbn [map combine fst snd]. f_equal; [|exact IH].
  do 2 f_equal. extensionality g. extensionality j. extensionality k. unfold space_push2, space_push.
  exact (comb_one (fun x => space_col nx dx (sp_v s j * dt) x g) (fun i => f i j) (M n k) (fun u w a b => space_comb nx dx _ u w a b g)).
Qed.
Lemma lift_vel M e pond dt F : map_f2 (fun s f => vel_push2 s e pond dt f) (lift M F) = lift M (rename F (map_f (fun s f => v_push EExponential s e pond dt f) (f_of F))).
Proof.
  unfold map_f2, lift, rename, map_f, f_of. rewrite !map_map. induction F as [|[n [s f]] F IH]; [reflexivity|]. cbn [map combine fst snd]. f_equal; [|exact IH].
  do 2 f_equal. extensionality i. extensionality j. extensionality k. unfold vel_push2. cbn [v_push]. unfold vel_push.
  exact (comb_one (fun x => vel_row (sp_nv s) (sp_dv s) dt (sp_accel s e pond i) x j) (fun l => f i l) (M n k) (fun u w a b => vel_comb _ _ _ _ u w a b j)).
Qed.
Lemma rename_map F m : f_of (rename F (map_f m (f_of F))) = map_f m (f_of F) /\ map fst (rename F (map_f m (f_of F))) = map fst F.
Proof. unfold rename, f_of, map_f. induction F as [|[n [s f]] F (A & B)]; [split; reflexivity|]. cbn [map combine fst snd]. split; congruence. Qed.
Lemma rename_twice F G X : map fst G = map fst F -> rename G X = rename F X.
Proof. intros H. unfold rename. now rewrite H. Qed.
Lemma vlasov_lift h M F a prev dex : (forall n, rsum (h_nvp h) (fun k => M n k * wperp h k) = 1) -> g_edfdv (h_g h) = EExponential ->
  vlasov_poisson2 h (lift M F) a prev dex = on_pair (lift M) (vlasov_poisson (proj_setup (h_g h)) F a prev dex).
Proof.
  intros U X. unfold vlasov_poisson2, vlasov_poisson. cbn [proj_setup g_time g_nx g_dx g_solver g_edfdv g_dt]. rewrite X. destruct (g_time (h_g h)).
  - destruct dex as [|d dex]; [reflexivity|]. unfold leapfrog2, leapfrog. set (g := h_g h). rewrite lift_space. set (sp := map_f (fun s f => space_push (g_nx g) (g_dx g) s (g_dt g) f) (f_of F)).
    replace (f_of (marginals h match g_solver g with SHampere => lift M F | _ => lift M (rename F sp) end)) with (match g_solver g with SHampere => f_of F | _ => sp end).
    2: { destruct (rename_map F (fun s f => space_push (g_nx g) (g_dx g) s (g_dt g) f)) as (R1 & _). fold sp in R1. destruct (g_solver g); rewrite marginals_lift by exact U; try exact (eq_sym R1); reflexivity. }
    destruct (field_solve _ _ _ _ _ _) as [e|]; [|reflexivity]. cbn [on_pair]. rewrite lift_vel. destruct (rename_map F (fun s f => space_push (g_nx g) (g_dx g) s (g_dt g) f)) as (R1 & R2). fold sp in R1, R2.
    rewrite R1, (rename_twice F _ _ R2). reflexivity.
  - unfold sixth. set (g := h_g h). generalize (combine (sixth_stages (g_dt g)) dex) (fun _ : nat => 0) (ponderomotive (g_nx g) (g_dx g) a). intros l e0 pond.
    assert (Q : forall G e0, map fst G = map fst F -> sixth_run2 h pond l e0 (lift M G) =
      match sixth_run (g_nx g) (g_dx g) (g_solver g) EExponential (g_dt g) pond l e0 (f_of G) with Some (e, G') => Some (e, lift M (rename F G')) | None => None end).
    { induction l as [|[st d] l IH]; intros G e1 N; cbn [sixth_run sixth_run2].
      - do 2 f_equal. rewrite <- (rename_twice F G (f_of G) N). f_equal. unfold rename, f_of. clear. induction G as [|[n sf] G IH]; cbn; congruence.
      - unfold sixth_stage2, sixth_stage. fold g. set (G1 := match fst st with None => G | Some c => rename G (map_f (fun s f => space_push (g_nx g) (g_dx g) s (c * g_dt g) f) (f_of G)) end).
        assert (E1 : match fst st with None => lift M G | Some c => map_f2 (fun s f => space_push2 (g_nx g) (g_dx g) s (c * g_dt g) f) (lift M G) end = lift M G1) by (unfold G1; destruct (fst st); [apply lift_space|reflexivity]).
        assert (E2 : match fst st with None => f_of G | Some c => map_f (fun s f => space_push (g_nx g) (g_dx g) s (c * g_dt g) f) (f_of G) end = f_of G1) by (unfold G1; destruct (fst st); [symmetry; apply rename_map|reflexivity]).
        assert (E3 : map fst G1 = map fst F) by (unfold G1; destruct (fst st); [rewrite <- N; apply rename_map|exact N]).
        rewrite E1, E2, marginals_lift by exact U. clearbody G1.
        assert (V : forall e E, map fst (rename G1 (map_f (fun s f => v_push EExponential s E pond (snd st * g_dt g) f) (f_of G1))) = map fst F -> sixth_run2 h pond l e (map_f2 (fun s f => vel_push2 s E pond (snd st * g_dt g) f) (lift M G1)) =
          match sixth_run (g_nx g) (g_dx g) (g_solver g) EExponential (g_dt g) pond l e (map_f (fun s f => v_push EExponential s E pond (snd st * g_dt g) f) (f_of G1)) with Some (e, G') => Some (e, lift M (rename F G')) | None => None end).
        { intros e E NN. rewrite lift_vel, (IH _ _ NN). now rewrite (proj1 (rename_map G1 _)). }
        destruct (g_solver g); try reflexivity; (destruct (field_solve _ _ _ _ _ _) as [e|]; [|reflexivity]; apply V; rewrite <- E3; apply rename_map). }
    rewrite (Q F e0 eq_refl). destruct (sixth_run _ _ _ _ _ _ _ _ _) as [[e G']|]; reflexivity.
Qed.
Lemma slices_lift h o nv v dv nu dt (m : nat -> R) f fn : rsum (h_nvp h) (fun k => m k * wperp h k) = 1 ->
  fp_row o (t_sc (g_terms (h_g h))) nv v dv nu dt f fn -> slices_row h o nv v dv nu dt (fun j k => f j * m k) (fun j k => fn j * m k).
Proof.
  intros U (beta & B & H). unfold slices_row. replace (fun j => rsum (h_nvp h) (fun k => f j * m k * wperp h k)) with f.
  2: { extensionality j. rewrite (rsum_ext _ _ (fun k => f j * (m k * wperp h k))) by (intros; ring). rewrite rsum_scal, U. ring. }
  exists beta. split; [exact B|]. intros k Hk. destruct (fo_nodrag o).
  - apply nodrag_iff. intros i Hi. set (M := central _ _ _ _ _ _). pose proof (proj1 (nodrag_iff _ _ _ _ _ _ _ _ _ _) H i Hi) as Q. fold M in Q. rewrite <- Q.
    rewrite <- (comb_one (fun x => mv nv M x i) _ (m k) (fun u w a b => mv_comb nv M u w a b i)). apply mv_ext; [exact Hi|]. intros j Hj.
    rewrite Rmult_plus_distr_r. f_equal. rewrite (Rmult_assoc (dt * nu) _ (m k)). f_equal. rewrite <- (comb_one (fun x => nodrag_lap nv dv x j) _ (m k) (fun u w a b => lap_comb nv dv u w a b j)).
    f_equal. extensionality l. rewrite (comb_one (fun x => normalised_maxwellian nv v dv (model_vbar (fo_model o) nv v f) beta x l) f (m k) (fun u w a b => nm_comb nv v dv _ _ u w a b l)). ring.
  - apply step_solves. intros i Hi. set (M := get_operator _ _ _ _ _ _ _) in *. pose proof (proj1 (step_solves _ _ _ _) H i Hi) as Q. fold M in Q.
    rewrite (comb_one (fun x => mv nv M x i) fn (m k) (fun u w a b => mv_comb nv M u w a b i)), Q. reflexivity.
Qed.
Definition start (M : str -> nat -> R) (h : setup2) (y : vstate) (a b : dist) : vstate2 :=
  {| z_f := lift M (y_f y); z_a := y_a y; z_prev_a := y_prev_a y; z_e := y_e y; z_da := y_da y; z_de := y_de y;
     z_cum_v := if t_diag_v (g_terms (h_g h)) then Some a else None; z_cum_fp := if t_diag_fp (g_terms (h_g h)) then Some b else None |}.
(** A 1D configuration that the 1D2V solver accepts. *)
Definition accepted (h : setup2) (names : list str) : Prop :=
  g_edfdv (h_g h) = EExponential /\ t_krook_on (g_terms (h_g h)) = false /\ In electron names /\
  In (lower (t_fp_type (g_terms (h_g h)))) [lit "dougherty"; lit "dougherty_nodrag"; lit "lenard_bernstein"].
Lemma accepted_op h names : accepted h names -> exists o, fp_operator2 (g_terms (h_g h)) names = Some (Slices o).
Proof.
  intros (_ & K & E & T). unfold fp_operator2. replace (existsb (str_eqb electron) names) with true.
  2: { symmetry. apply existsb_exists. exists electron. split; [exact E|]. now apply str_eqb_true. }
  cbn [negb]. rewrite K. destruct T as [<-|[<-|[<-|[]]]]; eexists; reflexivity.
Qed.
Lemma step_lift M h t y y' a b : (forall n, rsum (h_nvp h) (fun k => M n k * wperp h k) = 1) -> accepted h (map fst (y_f y)) ->
  vm_step (proj_setup (h_g h)) t y y' -> exists a' b', vm_step2 h t (start M h y a b) (start M h y' a' b') /\ map fst (y_f y') = map fst (y_f y).
Proof.
  intros U A S. pose proof A as (X & K & E & _). destruct (accepted_op h _ A) as (o & O). destruct (operator_same _ _ _ O) as (O' & _ & EX).
  unfold vm_step in S. rewrite dex_proj in S. cbv zeta in S. destruct S as ((op & ref & Fv & Fc & H1 & H2 & H3 & H4 & H5 & H6 & H7) & (W1 & W2) & Da & De).
  cbn [proj_setup g_terms proj_terms t_fp_type t_m t_ratio] in H1. rewrite O' in H1. injection H1 as <-. pose proof (ref_electron _ _ EX H2) as ->.
  cbn [filtered proj_setup g_terms proj_terms t_hou_li] in H5. subst Fc.
  pose proof (vlasov_lift h M (y_f y) (y_a y) (y_e y) (map (fun d => ex_dex (h_g h) (t + d)) (dt_array (h_g h))) U X) as L. rewrite H3 in L. cbn [on_pair] in L.
  assert (NV : map fst Fv = map fst (y_f y)) by (exact (alike_names _ _ _ (vlasov_alike _ _ _ _ _ _ _ H3))).
  assert (NC : map fst (y_f y') = map fst Fv) by (clear - H4; unfold collisions in H4; induction H4 as [|p p' F F' (A & _) H IH]; [reflexivity|]; cbn [map]; congruence).
  assert (LK : forall F, In electron (map fst F) -> exists x, lookup electron (marginals h (lift M F)) = Some x).
  { intros F I1. rewrite marginals_lift by exact U. now apply lookup_in. }
  destruct (LK _ E) as (x0 & L0). rewrite <- NV in E. destruct (LK _ E) as (x1 & L1). rewrite <- NC in E. destruct (LK _ E) as (x2 & L2).
  exists (fun i j => a i j + (x1 i j - x0 i j)), (fun i j => b i j + (x2 i j - x1 i j)). split; [|congruence].
  split; [|split; [split; [|]|split]].
  - cbv zeta. exists (Slices o), electron, (lift M Fv). cbn [start z_f z_a z_prev_a z_e z_da z_de z_cum_v z_cum_fp]. rewrite !lift_names. split; [exact O|]. split; [exact H2|]. split; [exact L|]. split; [|split].
    + clear - H4 U K. cbn [proj_setup g_terms proj_terms t_fp_on t_krook_on g_nx g_dt g_x] in H4. unfold collisions in H4. cbn [proj_setup g_nu_fp] in H4. unfold lift. induction H4 as [|[n [s f]] [n' [s' f']] F F' (A & B & C) H IH]; cbn [map]; constructor; [|exact IH].
      cbn [fst snd] in *. subst n' s'. unfold collide_entry2. cbn [fst snd]. split; [reflexivity|]. split; [reflexivity|]. destruct (str_eqb n electron); [|now rewrite C].
      destruct C as (f1 & C1 & C2). cbn [proj_terms t_fp_on t_krook_on t_sc] in C1, C2. rewrite K in C2. subst f'. unfold collide2v. destruct (t_fp_on (g_terms (h_g h))); [|now rewrite C1].
      intros i Hi. exact (slices_lift h o _ _ _ _ _ (M n) (f i) (f1 i) (U n) (C1 i Hi)).
    + unfold accumulate, increment. rewrite L0, L1. destruct (t_diag_v (g_terms (h_g h))); cbv beta iota; reflexivity.
    + unfold accumulate, increment. rewrite L1, L2. destruct (t_diag_fp (g_terms (h_g h))); cbv beta iota; reflexivity.
  - cbv zeta. cbn [start z_f z_a z_prev_a]. unfold electron_charge2. rewrite !marginals_lift by exact U. exact W1.
  - cbv zeta. cbn [start z_f z_a z_prev_a]. unfold electron_charge2. rewrite !marginals_lift by exact U. exact W2.
  - exact Da.
  - exact De.
Qed.
Theorem C103_limit : forall h M n t y y' a b, (forall s, rsum (h_nvp h) (fun k => M s k * wperp h k) = 1) -> accepted h (map fst (y_f y)) ->
  vm_run (proj_setup (h_g h)) n t y y' -> exists a' b', vm_run2 h n t (start M h y a b) (start M h y' a' b').
Proof.
  intros h M n t y y' a b U A R. revert A a b. induction R as [t y|n t y y1 y2 S R IH]; intros A a b; [exists a, b; constructor|].
  destruct (step_lift M h t y y1 a b U A S) as (a1 & b1 & S2 & NM). assert (A1 : accepted h (map fst (y_f y1))) by (rewrite NM; exact A). destruct (IH A1 a1 b1) as (a2 & b2 & R2). exists a2, b2. now apply run2_S with (start M h y1 a1 b1).
Qed.
Print Assumptions C103_limit.

(* ------------------------------------------------------------------------------------------------ *)
(** The perpendicular direction is a spectator. *)
Definition grids (F : ndict2) : Prop := forall s, species_in F s -> Nat.Even (sp_nv s) /\ (0 < sp_nv s)%nat /\ sp_vmin s < sp_vmax s.
(** The number of particles of a species in the cylindrical shell k, up to the factor dx dv w_k. *)
Definition shell (nx : nat) (s : species) (f : dist3) (k : nat) : R := rsum nx (fun i => rsum (sp_nv s) (fun j => f i j k)).
Lemma shell_space nx dx s dt f k : Nat.Even nx -> (0 < nx)%nat -> shell nx s (space_push2 nx dx s dt f) k = shell nx s f k.
Proof. intros He Hn. unfold shell. rewrite !(rsum_swap nx). apply rsum_ext. intros j _. exact (space_col_mass nx dx (sp_v s j * dt) (fun i => f i j k) He Hn). Qed.
Lemma shell_vel nx s e pond dt f k : Nat.Even (sp_nv s) -> (0 < sp_nv s)%nat -> shell nx s (vel_push2 s e pond dt f) k = shell nx s f k.
Proof.
  intros He Hn. unfold shell. apply rsum_ext. intros i _. unfold vel_push2. rewrite (rsum_ext _ _ (space_col (sp_nv s) (sp_dv s) (dt * sp_accel s e pond i) (fun l => f i l k))) by (intros; apply vel_row_col).
  now apply space_col_mass.
Qed.
Lemma even_two n : Nat.Even n -> (0 < n)%nat -> (2 <= n)%nat.
Proof. intros [m ->] H. lia. Qed.
Lemma slices_shell h o nv v dv nu dt f fn k : (2 <= nv)%nat -> 0 < dv -> (k < h_nvp h)%nat -> slices_row h o nv v dv nu dt f fn -> rsum nv (fun j => fn j k) = rsum nv (fun j => f j k).
Proof.
  intros H2 Hd Hk (beta & _ & H). specialize (H k Hk). destruct (fo_nodrag o); [exact (C51_nodrag_density _ _ _ _ _ _ _ _ _ _ H2 Hd H)|exact (C32_density_conserved _ _ _ _ _ _ _ _ _ H)].
Qed.
Lemma grids_alike P F F' : alike2 P F F' -> grids F -> grids F'.
Proof. intros A G s H. apply G. exact (alike2_species P F F' s A H). Qed.
Lemma dv_pos s : (0 < sp_nv s)%nat -> sp_vmin s < sp_vmax s -> 0 < sp_dv s.
Proof. intros Hn Hv. unfold sp_dv. apply Rdiv_lt_0_compat; [lra|]. now apply lt_0_INR. Qed.
Lemma collide_alike (P : species -> dist3 -> dist3 -> Prop) h op nu F F' : (forall s f, P s f f) -> (forall s f f', species_in F s -> collide2v h op nu s f f' -> P s f f') ->
  Forall2 (collide_entry2 h op nu) F F' -> alike2 P F F'.
Proof.
  intros R C H. unfold alike2. induction H as [|p p' F F' (E1 & E2 & E3) H IH]; constructor.
  - split; [exact E1|]. split; [exact E2|]. destruct (str_eqb (fst p) electron); [|rewrite E3; apply R]. apply C; [|exact E3]. exists p. split; [now left|reflexivity].
  - apply IH. intros s f f' (q & Hq & Eq). apply C. exists q. split; [now right|exact Eq].
Qed.
Lemma step_shells h t y y' : Nat.Even (g_nx (h_g h)) -> (0 < g_nx (h_g h))%nat -> grids (z_f y) -> ~ cyl_type h -> vm_step2 h t y y' ->
  alike2 (fun s f f' => forall k, (k < h_nvp h)%nat -> shell (g_nx (h_g h)) s f' k = shell (g_nx (h_g h)) s f k) (z_f y) (z_f y').
Proof.
  intros He Hn G C ((op & ref & Fv & H1 & H2 & H3 & H4 & _) & _). cbv zeta in *. destruct (op_slices h _ _ C H1) as (o & ->).
  set (P := fun s f f' => forall k, (k < h_nvp h)%nat -> shell (g_nx (h_g h)) s f' k = shell (g_nx (h_g h)) s f k).
  assert (T : forall s a b c, P s a b -> P s b c -> P s a c) by (intros s a b c A B k Hk; rewrite (B k Hk); now apply A). assert (R : forall s f, P s f f) by (intros s f k _; reflexivity).
  assert (A : alike2 P (z_f y) Fv).
  { refine (vlasov2_invariant P h _ _ _ _ _ _ R T _ _ H3); [intros s dt f _ k _; now apply shell_space|]. intros s E pond dt f Hs k _. destruct (G s Hs) as (A & B & _). now apply shell_vel. }
  apply alike2_trans with Fv; [exact T|exact A|]. refine (collide_alike P h _ _ _ _ R _ H4). intros s f f' Hs K k Hk. unfold collide2v in K.
  destruct (t_fp_on (g_terms (h_g h))); [|now subst f']. unfold shell. apply rsum_ext. intros i Hi. specialize (K i Hi). cbv beta iota in K.
  destruct (grids_alike _ _ _ A G s Hs) as (V1 & V2 & V3). exact (slices_shell h o _ _ _ _ _ _ _ k (even_two _ V1 V2) (dv_pos s V2 V3) Hk K).
Qed.
(** With the slice-by-slice operators the number of particles in every cylindrical shell, and so the mean of every
    function of v_perp (in particular the perpendicular pressure), is constant for every species along every run. *)
Theorem C103_perpendicular : forall h n t y y', Nat.Even (g_nx (h_g h)) -> (0 < g_nx (h_g h))%nat -> grids (z_f y) -> ~ cyl_type h -> vm_run2 h n t y y' ->
  alike2 (fun s f f' => (forall k, (k < h_nvp h)%nat -> shell (g_nx (h_g h)) s f' k = shell (g_nx (h_g h)) s f k) /\
    forall q : nat -> R, rsum (g_nx (h_g h)) (fun i => rsum (sp_nv s) (fun j => rsum (h_nvp h) (fun k => q k * f' i j k))) =
                         rsum (g_nx (h_g h)) (fun i => rsum (sp_nv s) (fun j => rsum (h_nvp h) (fun k => q k * f i j k)))) (z_f y) (z_f y').
Proof.
  intros h n t y y' He Hn G C R.
  assert (A : alike2 (fun s f f' => forall k, (k < h_nvp h)%nat -> shell (g_nx (h_g h)) s f' k = shell (g_nx (h_g h)) s f k) (z_f y) (z_f y')).
  { induction R as [t y|n t y y1 y2 S R IH]; [now apply alike2_refl|]. pose proof (step_shells h t y y1 He Hn G C S) as A.
    eapply alike2_trans; [|exact A|apply IH; exact (grids_alike _ _ _ A G)]. intros s a b c A1 B k Hk. rewrite (B k Hk). now apply A1. }
  revert A. apply alike2_imp. intros p b _ H. split; [exact H|]. intros q. set (nx := g_nx (h_g h)) in *. set (nv := sp_nv (fst (snd p))) in *.
  assert (E : forall f : dist3, rsum nx (fun i => rsum nv (fun j => rsum (h_nvp h) (fun k => q k * f i j k))) = rsum (h_nvp h) (fun k => q k * shell nx (fst (snd p)) f k)).
  { intros f. unfold shell. fold nv. transitivity (rsum nx (fun i => rsum (h_nvp h) (fun k => q k * rsum nv (fun j => f i j k)))).
    - apply rsum_ext. intros i _. rewrite rsum_swap. apply rsum_ext. intros k _. apply rsum_scal.
    - rewrite rsum_swap. apply rsum_ext. intros k _. apply rsum_scal. }
  rewrite !E. apply rsum_ext. intros k Hk. now rewrite (H k Hk).
Qed.
Print Assumptions C103_perpendicular.

(* ------------------------------------------------------------------------------------------------ *)
(** Particle number, and what collisions conserve at every point, for all four operators. *)
Definition cyl_ok (h : setup2) : Prop :=
  (0 < h_nvp h)%nat /\ 0 < h_vpmax h /\ 0 <= h_speed h /\ 0 <= h_lorentz h /\ (h_restore h = true -> (2 <= h_nvp h)%nat).
Lemma sp_v_S s i : (0 < sp_nv s)%nat -> (S i < sp_nv s)%nat -> sp_v s (S i) = sp_v s i + sp_dv s.
Proof.
  intros Hn Hi. unfold sp_v, linspace. destruct (Nat.leb_spec (sp_nv s) 1); [lia|]. rewrite S_INR. unfold sp_dv.
  assert (E : INR (sp_nv s) = INR (sp_nv s - 1) + 1) by (rewrite <- S_INR; f_equal; lia). assert (0 < INR (sp_nv s - 1)) by (apply lt_0_INR; lia). rewrite E. field. lra.
Qed.
Lemma cyl_proper h s : cyl_ok h -> (0 < sp_nv s)%nat -> sp_vmin s < sp_vmax s -> proper (cyl_of h s).
Proof.
  intros (A & B & C & D & _) Hn Hv. destruct (C102_grid (h_nvp h) (h_vpmax h) A B) as (G & _). constructor; cbn [cyl_of c_nv c_v c_dv c_nvp c_vp c_dvp c_wp c_speed c_lorentz]; auto.
  - now apply dv_pos.
  - unfold perp_dv. apply Rdiv_lt_0_compat; [exact B|now apply lt_0_INR].
  - intros i Hi. now apply sp_v_S.
Qed.
(** Marginal density at one point. *)
Definition local_number (h : setup2) (s : species) (f : dist3) (i : nat) : R := rsum (sp_nv s) (fun j => marginal h f i j).
Lemma collide_local h op nu s f f' : cyl_ok h -> Nat.Even (sp_nv s) -> (0 < sp_nv s)%nat -> sp_vmin s < sp_vmax s -> collide2v h op nu s f f' ->
  forall i, (i < g_nx (h_g h))%nat -> local_number h s f' i = local_number h s f i.
Proof.
  intros K He Hn Hv C i Hi. unfold collide2v in C. destruct (t_fp_on (g_terms (h_g h))); [|now subst f']. specialize (C i Hi). unfold local_number, marginal. destruct op as [o|].
  - rewrite !(rsum_swap (sp_nv s)). apply rsum_ext. intros k Hk. rewrite !rsum_scal_r. f_equal. exact (slices_shell h o _ _ _ _ _ _ _ k (even_two _ He Hn) (dv_pos s Hn Hv) Hk C).
  - pose proof (cyl_proper h s K Hn Hv) as P. pose proof K as (_ & _ & _ & _ & K2).
    destruct (C102_conservation (cyl_of h s) _ _ _ _ P C) as (D & _).
    + cbn [cyl_of c_restore c_nv c_nvp]. intros RR. split; [now apply even_two|now apply K2].
    + unfold moment in D. cbn [cyl_of c_nv c_nvp c_vp c_dvp c_dv] in D. pose proof (dv_pos s Hn Hv) as Hd.
      assert (Q : forall g : dist2, rsum (sp_nv s) (fun i0 => rsum (h_nvp h) (fun j => CylProps.one i0 j * g i0 j * (2 * PI * perp_v (h_nvp h) (h_vpmax h) j * perp_dv (h_nvp h) (h_vpmax h) * sp_dv s))) = sp_dv s * rsum (sp_nv s) (fun j => rsum (h_nvp h) (fun k => g j k * wperp h k))).
      { intros g. rewrite <- rsum_scal. apply rsum_ext. intros j _. rewrite <- rsum_scal. apply rsum_ext. intros k _. unfold CylProps.one, wperp, perp_w. ring. }
      rewrite !Q in D. apply Rmult_eq_reg_l with (sp_dv s); [exact D|lra].
Qed.
Definition number (h : setup2) (s : species) (f : dist3) : R := rsum (g_nx (h_g h)) (local_number h s f).
Lemma number_shells h s f : number h s f = rsum (h_nvp h) (fun k => shell (g_nx (h_g h)) s f k * wperp h k).
Proof.
  unfold number, local_number, marginal, shell. transitivity (rsum (g_nx (h_g h)) (fun i => rsum (h_nvp h) (fun k => rsum (sp_nv s) (fun j => f i j k) * wperp h k))).
  - apply rsum_ext. intros i _. rewrite rsum_swap. apply rsum_ext. intros k _. apply rsum_scal_r.
  - rewrite rsum_swap. apply rsum_ext. intros k _. apply rsum_scal_r.
Qed.
(** A step is a collisionless part, which conserves every shell, and a collision part, which conserves the density
    at every point. *)
Lemma step_parts h t y y' : cyl_ok h -> Nat.Even (g_nx (h_g h)) -> (0 < g_nx (h_g h))%nat -> grids (z_f y) -> vm_step2 h t y y' ->
  exists Fv ref, vlasov_poisson2 h (z_f y) (z_a y) (z_e y) (map (fun d => ex_dex (h_g h) (t + d)) (dt_array (h_g h))) = Some (z_e y', Fv) /\ ref = electron /\
    accumulate (t_diag_v (g_terms (h_g h))) (z_cum_v y) (increment h ref (z_f y) Fv) (z_cum_v y') /\
    accumulate (t_diag_fp (g_terms (h_g h))) (z_cum_fp y) (increment h ref Fv (z_f y')) (z_cum_fp y') /\
    alike2 (fun s f f' => number h s f' = number h s f) (z_f y) Fv /\
    alike2 (fun s f f' => (forall i, (i < g_nx (h_g h))%nat -> local_number h s f' i = local_number h s f i) /\ (t_fp_on (g_terms (h_g h)) = false -> f' = f)) Fv (z_f y').
Proof.
  intros K He Hn G ((op & ref & Fv & H1 & H2 & H3 & H4 & H5 & H6) & _). cbv zeta in *. exists Fv, ref. split; [exact H3|].
  split; [apply (ref_electron (map fst (z_f y))); [|exact H2]; unfold fp_operator2 in H1; destruct (existsb _ _); [reflexivity|discriminate]|]. do 2 (split; [assumption|]).
  set (P := fun s f f' => forall k, shell (g_nx (h_g h)) s f' k = shell (g_nx (h_g h)) s f k).
  assert (A : alike2 P (z_f y) Fv).
  { refine (vlasov2_invariant P h _ _ _ _ _ _ _ _ _ _ H3); [intros s f k; reflexivity|intros s a b c A B k; rewrite (B k); apply A|intros s dt f _ k; now apply shell_space|].
    intros s E pond dt f Hs k. destruct (G s Hs) as (A & B & _). now apply shell_vel. }
  split; [revert A; apply alike2_imp; intros p b _ H; rewrite !number_shells; apply rsum_ext; intros k _; now rewrite (H k)|].
  refine (collide_alike (fun s f f' => (forall i, (i < g_nx (h_g h))%nat -> local_number h s f' i = local_number h s f i) /\ (t_fp_on (g_terms (h_g h)) = false -> f' = f)) h op _ _ _ _ _ H4); [intros s f; split; reflexivity|].
  intros s f f' Hs C. destruct (grids_alike _ _ _ A G s Hs) as (V1 & V2 & V3). split; [exact (collide_local h op _ s f f' K V1 V2 V3 C)|]. intros OFF. unfold collide2v in C. now rewrite OFF in C.
Qed.
Lemma step_number h t y y' : cyl_ok h -> Nat.Even (g_nx (h_g h)) -> (0 < g_nx (h_g h))%nat -> grids (z_f y) -> vm_step2 h t y y' ->
  alike2 (fun s f f' => number h s f' = number h s f) (z_f y) (z_f y').
Proof.
  intros K He Hn G S. destruct (step_parts h t y y' K He Hn G S) as (Fv & ref & _ & _ & _ & _ & A & B). eapply alike2_trans; [|exact A|].
  - intros s a b c H1 H2. congruence.
  - revert B. apply alike2_imp. intros p b _ (H & _). unfold number. now apply rsum_ext.
Qed.
Theorem C103_number : forall h n t y y', cyl_ok h -> Nat.Even (g_nx (h_g h)) -> (0 < g_nx (h_g h))%nat -> grids (z_f y) -> vm_run2 h n t y y' ->
  alike2 (fun s f f' => rsum (g_nx (h_g h)) (fun i => rsum (sp_nv s) (fun j => rsum (h_nvp h) (fun k => f' i j k * wperp h k))) =
                        rsum (g_nx (h_g h)) (fun i => rsum (sp_nv s) (fun j => rsum (h_nvp h) (fun k => f i j k * wperp h k)))) (z_f y) (z_f y').
Proof.
  intros h n t y y' K He Hn G R. change (alike2 (fun s f f' => number h s f' = number h s f) (z_f y) (z_f y')). induction R as [t y|n t y y1 y2 S R IH]; [now apply alike2_refl|].
  pose proof (step_number h t y y1 K He Hn G S) as A. eapply alike2_trans; [|exact A|apply IH; exact (grids_alike _ _ _ A G)]. intros s a b c H1 H2. congruence.
Qed.
Print Assumptions C103_number.

(* ------------------------------------------------------------------------------------------------ *)
(** The accumulated diagnostics are exact time integrals: over any number of steps their sum grows by the change of the
    electron marginal; the collision part carries no density at any point and vanishes without collisions; the
    collisionless part carries no particles in total. *)
(** The grid of the species whose marginal is looked up. *)
Fixpoint electron_nv (F : ndict2) : nat := match F with [] => O | (n, (s, _)) :: F' => if str_eqb n electron then sp_nv s else electron_nv F' end.
Lemma electron_nv_alike P F F' : alike2 P F F' -> electron_nv F' = electron_nv F.
Proof. unfold alike2. induction 1 as [|[n [s f]] [n' [s' f']] F F' (E1 & E2 & E3) A IH]; [reflexivity|]. cbn [fst snd electron_nv] in *. subst. destruct (str_eqb n electron); [reflexivity|exact IH]. Qed.
Lemma lookup_step P h F F' : alike2 P F F' -> In electron (map fst F) ->
  exists s f f', lookup electron (marginals h F) = Some (marginal h f) /\ lookup electron (marginals h F') = Some (marginal h f') /\ P s f f' /\ sp_nv s = electron_nv F.
Proof.
  unfold alike2. induction 1 as [|[n [s f]] [n' [s' f']] F F' (E1 & E2 & E3) A IH]; cbn [map fst]; [intros []|]. cbn [marginals map lookup fst snd electron_nv] in *. subst n' s'.
  destruct (str_eqb n electron) eqn:X.
  - intros _. exists s, f, f'. repeat split. exact E3.
  - intros [->|H]; [rewrite (proj2 (str_eqb_true electron electron) eq_refl) in X; discriminate|]. exact (IH H).
Qed.
Lemma step_accumulate h t y y' a b : cyl_ok h -> Nat.Even (g_nx (h_g h)) -> (0 < g_nx (h_g h))%nat -> grids (z_f y) -> In electron (map fst (z_f y)) ->
  t_diag_v (g_terms (h_g h)) = true -> t_diag_fp (g_terms (h_g h)) = true -> z_cum_v y = Some a -> z_cum_fp y = Some b -> vm_step2 h t y y' ->
  exists a' b' x x', z_cum_v y' = Some a' /\ z_cum_fp y' = Some b' /\ lookup electron (marginals h (z_f y)) = Some x /\ lookup electron (marginals h (z_f y')) = Some x' /\
    (forall i j, (a' i j - a i j) + (b' i j - b i j) = x' i j - x i j) /\
    (forall i, (i < g_nx (h_g h))%nat -> rsum (electron_nv (z_f y)) (b' i) = rsum (electron_nv (z_f y)) (b i)) /\
    rsum (g_nx (h_g h)) (fun i => rsum (electron_nv (z_f y)) (a' i)) = rsum (g_nx (h_g h)) (fun i => rsum (electron_nv (z_f y)) (a i)) /\
    (t_fp_on (g_terms (h_g h)) = false -> forall i j, b' i j = b i j).
Proof.
  intros K He Hn G E DV DF A0 B0 S. destruct (step_parts h t y y' K He Hn G S) as (Fv & ref & _ & -> & AV & AF & A & B).
  destruct (lookup_step _ h _ _ A E) as (s & f & f1 & L0 & L1 & N1 & V1). rewrite <- (alike2_names _ _ _ A) in E. destruct (lookup_step _ h _ _ B E) as (s2 & f2 & f3 & L2 & L3 & (N2 & N3) & V2).
  rewrite (electron_nv_alike _ _ _ A) in V2. rewrite L1 in L2. injection L2 as E12.
  unfold accumulate, increment in AV, AF. rewrite DV, A0, L0, L1 in AV. rewrite DF, B0, L1, L3 in AF.
  do 4 eexists. split; [exact AV|]. split; [exact AF|]. split; [exact L0|]. split; [exact L3|]. cbv beta. split; [intros i j; ring|].
  assert (LN : forall i, (i < g_nx (h_g h))%nat -> rsum (electron_nv (z_f y)) (marginal h f3 i) = rsum (electron_nv (z_f y)) (marginal h f1 i)).
  { intros i Hi. pose proof (N2 i Hi) as Q. unfold local_number in Q. rewrite V2 in Q. rewrite E12. exact Q. }
  split; [|split].
  - intros i Hi. rewrite rsum_plus, rsum_minus, (LN i Hi). ring.
  - rewrite (rsum_ext _ (fun i => rsum (electron_nv (z_f y)) (fun j => a i j + (marginal h f1 i j - marginal h f i j))) (fun i => rsum (electron_nv (z_f y)) (a i) + (rsum (electron_nv (z_f y)) (marginal h f1 i) - rsum (electron_nv (z_f y)) (marginal h f i)))) by (intros; rewrite rsum_plus, rsum_minus; reflexivity).
    rewrite rsum_plus, rsum_minus. unfold number, local_number in N1. rewrite V1 in N1. change (rsum (g_nx (h_g h)) (fun i => rsum (electron_nv (z_f y)) (marginal h f1 i)) = rsum (g_nx (h_g h)) (fun i => rsum (electron_nv (z_f y)) (marginal h f i))) in N1. rewrite N1. ring.
  - intros OFF i j. specialize (N3 OFF). subst f3. rewrite E12. ring.
Qed.
Theorem C103_accumulators : forall h n t y y' a b, cyl_ok h -> Nat.Even (g_nx (h_g h)) -> (0 < g_nx (h_g h))%nat -> grids (z_f y) -> In electron (map fst (z_f y)) ->
  t_diag_v (g_terms (h_g h)) = true -> t_diag_fp (g_terms (h_g h)) = true -> z_cum_v y = Some a -> z_cum_fp y = Some b -> vm_run2 h n t y y' ->
  exists a' b' x x', z_cum_v y' = Some a' /\ z_cum_fp y' = Some b' /\ lookup electron (marginals h (z_f y)) = Some x /\ lookup electron (marginals h (z_f y')) = Some x' /\
    (forall i j, (a' i j - a i j) + (b' i j - b i j) = x' i j - x i j) /\
    (forall i, (i < g_nx (h_g h))%nat -> rsum (electron_nv (z_f y)) (b' i) = rsum (electron_nv (z_f y)) (b i)) /\
    rsum (g_nx (h_g h)) (fun i => rsum (electron_nv (z_f y)) (a' i)) = rsum (g_nx (h_g h)) (fun i => rsum (electron_nv (z_f y)) (a i)) /\
    (t_fp_on (g_terms (h_g h)) = false -> forall i j, b' i j = b i j).
Proof.
  intros h n t y y' a b K He Hn G E DV DF A0 B0 R. revert a b A0 B0 G E. induction R as [t y|n t y y1 y2 S R IH]; intros a b A0 B0 G E.
  - assert (L : In electron (map fst (marginals h (z_f y)))) by (rewrite names_marginals; exact E). destruct (lookup_in _ _ L) as (x & Lx). exists a, b, x, x. repeat split; auto. intros. ring.
  - destruct (step_accumulate h t y y1 a b K He Hn G E DV DF A0 B0 S) as (a1 & b1 & x & x1 & Z1 & Z2 & L0 & L1 & T1 & T2 & T3 & T4).
    pose proof (step_number h t y y1 K He Hn G S) as NN. pose proof (grids_alike _ _ _ NN G) as G1. assert (E1 : In electron (map fst (z_f y1))) by (rewrite (alike2_names _ _ _ NN); exact E).
    destruct (IH a1 b1 Z1 Z2 G1 E1) as (a2 & b2 & x1' & x2 & Z3 & Z4 & L1' & L2 & U1 & U2 & U3 & U4). rewrite L1 in L1'. injection L1' as <-. rewrite (electron_nv_alike _ _ _ NN) in U2, U3.
    exists a2, b2, x, x2. do 4 (split; [assumption|]). split; [intros i j; specialize (T1 i j); specialize (U1 i j); lra|]. split; [intros i Hi; now rewrite U2, T2|]. split; [congruence|].
    intros OFF i j. now rewrite U4, T4.
Qed.
Print Assumptions C103_accumulators.

(* ------------------------------------------------------------------------------------------------ *)
(** A step exists: collisions off or of the drag-free type, leapfrog with the Poisson solver, from any state. *)
Lemma nodrag_exists h op nv v dv nu dt f : 0 < dv -> 0 <= dt * nu -> fo_model op = Dougherty -> fo_nodrag op = true -> t_sc (g_terms (h_g h)) = true ->
  exists fn, slices_row h op nv v dv nu dt f fn.
Proof.
  intros Hd Hn HM HN HS. set (F := fun j => rsum (h_nvp h) (fun k => f j k * wperp h k)).
  assert (Q : forall k, exists x, nodrag_step nv v dv (model_vbar (fo_model op) nv v F) 1 (model_D (fo_model op) 1) nu dt (fun j => f j k) x).
  { intros k. destruct (solution_exists nv dv dt (fun _ => nu) (fun _ => - 0 / 2 + model_D (fo_model op) 1 / dv) (fun _ => - 0 / 2 - model_D (fo_model op) 1 / dv)) with (b := fun j => f j k) as (x & X).
    - intros _ _. unfold Rdiv. apply Rmult_le_pos; [exact Hn|]. apply Rlt_le. now apply Rinv_0_lt_compat.
    - intros _ _. rewrite HM. cbn [model_D]. unfold thermal_D. assert (0 < 1 / (2 * 1) / dv) by (apply Rdiv_lt_0_compat; lra). lra.
    - intros _ _. rewrite HM. cbn [model_D]. unfold thermal_D. assert (0 < 1 / (2 * 1) / dv) by (apply Rdiv_lt_0_compat; lra). lra.
    - eexists (fun i => x i - dt * nu * nodrag_lap nv dv (fun j => _) i). exists x. split; [|reflexivity]. apply step_solves. intros i Hi. rewrite central_mv. exact (X i Hi). }
  assert (CH : forall m, exists fn : nat -> nat -> R, forall k, (k < m)%nat -> nodrag_step nv v dv (model_vbar (fo_model op) nv v F) 1 (model_D (fo_model op) 1) nu dt (fun j => f j k) (fun j => fn j k)).
  { induction m as [|m (fn & IH)]; [exists (fun _ _ => 0); lia|]. destruct (Q m) as (x & X). exists (fun j k => if (k =? m)%nat then x j else fn j k). intros k Hk. destruct (Nat.eqb_spec k m) as [->|N].
    - destruct X as (s & X1 & X2). exists s. now split.
    - destruct (IH k ltac:(lia)) as (s & X1 & X2). exists s. split; [exact X1|exact X2]. }
  destruct (CH (h_nvp h)) as (fn & X). exists fn. exists 1. split; [left; exact HS|]. intros k Hk. rewrite HN. now apply X.
Qed.
Lemma choose_rows (n : nat) (P : nat -> (nat -> nat -> R) -> Prop) : (forall i, (i < n)%nat -> exists x, P i x) -> exists f : dist3, forall i, (i < n)%nat -> P i (f i).
Proof.
  intros H. induction n as [|n IH]; [exists (fun _ _ _ => 0); lia|]. destruct IH as (f & F); [intros; apply H; lia|]. destruct (H n ltac:(lia)) as (x & X).
  exists (fun i => if (i =? n)%nat then x else f i). intros i Hi. destruct (Nat.eqb_spec i n) as [->|N]; [exact X|]. apply F. lia.
Qed.
Theorem C103_exists : forall h t y static, g_time (h_g h) = Leapfrog -> g_solver (h_g h) = SPoisson static -> accepted h (map fst (z_f y)) -> grids (z_f y) ->
  (t_fp_on (g_terms (h_g h)) = false \/
   lower (t_fp_type (g_terms (h_g h))) = lit "dougherty_nodrag" /\ t_sc (g_terms (h_g h)) = true /\ 0 <= g_dt (h_g h) /\ forall x t, 0 <= g_nu_fp (h_g h) x t) ->
  (t_diag_v (g_terms (h_g h)) = true -> z_cum_v y <> None) -> (t_diag_fp (g_terms (h_g h)) = true -> z_cum_fp y <> None) -> exists y', vm_step2 h t y y'.
Proof.
  intros h t y static HT HS A G CO D1 D2. destruct (accepted_op h _ A) as (o & O). destruct (operator_same _ _ _ O) as (_ & _ & EX). pose proof A as (X & K & E & _).
  assert (V : exists e Fv, vlasov_poisson2 h (z_f y) (z_a y) (z_e y) (map (fun d => ex_dex (h_g h) (t + d)) (dt_array (h_g h))) = Some (e, Fv)).
  { unfold vlasov_poisson2, dt_array. rewrite X, HT. cbn [map]. unfold leapfrog2. rewrite HS. destruct (z_f y) as [|[n [s f]] F]; [destruct E|]. cbn [map_f2 map marginals f_of fst snd field_solve]. do 2 eexists. reflexivity. }
  destruct V as (e & Fv & V). pose proof (vlasov2_names _ _ _ _ _ _ _ V) as NV. pose proof (grids_alike _ _ _ NV G) as GV.
  set (nuf := fun i => if t_fp_on (g_terms (h_g h)) then g_nu_fp (h_g h) (g_x (h_g h) i) t else 0).
  assert (EC : exists F', Forall2 (collide_entry2 h (Slices o) nuf) Fv F').
  { assert (ONE : forall s f, species_in Fv s -> exists f', collide2v h (Slices o) nuf s f f').
    { intros s f Hs. unfold collide2v. destruct CO as [OFF|(TY & SC & DT & NU)]; [rewrite OFF; now exists f|]. destruct (t_fp_on (g_terms (h_g h))) eqn:ON; [|now exists f].
      assert (HO : fo_model o = Dougherty /\ fo_nodrag o = true).
      { unfold fp_operator2 in O. rewrite EX, K, TY in O. cbn in O. injection O as <-. split; reflexivity. }
      destruct (GV s Hs) as (_ & V2 & V3). apply (choose_rows (g_nx (h_g h)) (fun i x => slices_row h o (sp_nv s) (sp_v s) (sp_dv s) (nuf i) (g_dt (h_g h)) (f i) x)). intros i Hi. apply nodrag_exists; [now apply dv_pos| |apply HO|apply HO|exact SC]. unfold nuf. apply Rmult_le_pos; [exact DT|apply NU]. }
    clear - ONE. induction Fv as [|[n [s f]] F IH]; [exists []; constructor|]. destruct IH as (F' & IH); [intros s0 f0 (q & Hq & Eq); apply ONE; exists q; split; [now right|exact Eq]|].
    destruct (str_eqb n electron) eqn:B.
    - destruct (ONE s f) as (f' & Hf); [exists (n, (s, f)); split; [now left|reflexivity]|]. exists ((n, (s, f')) :: F'). constructor; [|exact IH]. unfold collide_entry2. cbn [fst snd]. rewrite B. auto.
    - exists ((n, (s, f)) :: F'). constructor; [|exact IH]. unfold collide_entry2. cbn [fst snd]. rewrite B. auto. }
  destruct EC as (F' & EC). assert (NC : map fst F' = map fst Fv) by (clear - EC; induction EC as [|p p' F F' (A & _) H IH]; [reflexivity|]; cbn [map]; congruence).
  pose proof (alike2_names _ _ _ NV) as NN.
  assert (LK : forall F, map fst F = map fst (z_f y) -> exists x, lookup electron (marginals h F) = Some x) by (intros F HF; apply lookup_in; rewrite names_marginals, HF; exact E).
  destruct (LK _ eq_refl) as (x0 & L0). destruct (LK _ NN) as (x1 & L1). destruct (LK F' ltac:(congruence)) as (x2 & L2).
  set (djy := ey_drive (g_nx (h_g h) + 2) (g_xa (h_g h)) (g_c (h_g h)) (g_ey (h_g h)) (t + nth 1 (dt_array (h_g h)) 0)).
  set (w := wave_step (g_nx (h_g h)) (g_c (h_g h)) (g_dx (h_g h)) (g_dt (h_g h)) (z_a y) (z_prev_a y) djy (fun i => - (1 / 2) * (electron_charge2 h (z_f y) i + electron_charge2 h F' i))).
  assert (AC : forall on old A B xa xb, (on = true -> old <> None) -> lookup electron (marginals h A) = Some xa -> lookup electron (marginals h B) = Some xb -> exists new, accumulate on old (increment h electron A B) new).
  { intros on old PA PB xa xb Hon LA LB. unfold accumulate, increment. rewrite LA, LB. destruct on; [|now exists None]. destruct old as [a|]; [|now destruct (Hon eq_refl)]. eexists. reflexivity. }
  destruct (AC _ _ _ _ _ _ D1 L0 L1) as (cv & CV). destruct (AC _ _ _ _ _ _ D2 L1 L2) as (cf & CF).
  exists {| z_f := F'; z_a := fst w; z_prev_a := snd w; z_e := e; z_da := djy; z_de := nth 0 (map (fun d => ex_dex (h_g h) (t + d)) (dt_array (h_g h))) (fun _ => 0); z_cum_v := cv; z_cum_fp := cf |}.
  unfold vm_step2. cbn [z_f z_a z_prev_a z_e z_da z_de z_cum_v z_cum_fp]. cbv zeta. split; [|split; [split; reflexivity|split; [reflexivity|now rewrite HT]]].
  exists (Slices o), electron, Fv. split; [exact O|]. split; [unfold ref_name; now rewrite EX|]. auto.
Qed.
Print Assumptions C103_exists.

Definition ex_terms2 (fp : bool) : terms :=
  {| t_fp_on := fp; t_fp_type := lit "Dougherty_nodrag"; t_m := 2; t_ratio := 1 / 2; t_sc := true; t_krook_on := false; t_T0 := 1; t_hou_li := Some (1, 1%nat); t_diag_v := true; t_diag_fp := true |}.
Definition ex_h (fp : bool) (dt : R) : setup2 := {| h_g := ex_setup (ex_terms2 fp) dt; h_nvp := 1; h_vpmax := 1; h_speed := 1; h_lorentz := 1; h_restore := false; h_substeps := 1 |}.
Definition ex_z (F : ndict2) : vstate2 := {| z_f := F; z_a := fun _ => 0; z_prev_a := fun _ => 0; z_e := fun _ => 0; z_da := fun _ => 0; z_de := fun _ => 0; z_cum_v := Some (fun _ _ => 0); z_cum_fp := Some (fun _ _ => 0) |}.
Lemma ex_grids (f g : dist3) : grids [(lit "electron", (ex_e, f)); (lit "ion", (ex_n, g))].
Proof. intros s (p & [<-|[<-|[]]] & <-); cbn [fst snd ex_e ex_n sp_nv sp_vmin sp_vmax]; (split; [exists 1%nat; reflexivity|split; [lia|lra]]). Qed.
Lemma ex_accepted fp dt (f g : dist3) : accepted (ex_h fp dt) (map fst [(lit "electron", (ex_e, f)); (lit "ion", (ex_n, g))]).
Proof. split; [reflexivity|]. split; [reflexivity|]. split; [left; reflexivity|]. right; left; reflexivity. Qed.
Example C103_nonvacuous : exists y', let h := ex_h true (1 / 2) in
  let y := ex_z [(lit "electron", (ex_e, (fun i j _ => 1 + INR (i * j)) : dist3)); (lit "ion", (ex_n, (fun i _ _ => INR i) : dist3))] in
  vm_run2 h 1 0 y y' /\ cyl_ok h /\ ~ cyl_type h /\ accepted h (map fst (z_f y)) /\ grids (z_f y) /\ Nat.Even (g_nx (h_g h)) /\ (0 < g_nx (h_g h))%nat /\ In electron (map fst (z_f y)) /\
  rsum (h_nvp h) (fun k => / PI * wperp h k) = 1.
Proof.
  destruct (C103_exists (ex_h true (1 / 2)) 0 (ex_z [(lit "electron", (ex_e, (fun i j _ => 1 + INR (i * j)) : dist3)); (lit "ion", (ex_n, (fun i _ _ => INR i) : dist3))]) None eq_refl eq_refl (ex_accepted _ _ _ _) (ex_grids _ _)) as (y' & H).
  - right. split; [reflexivity|]. split; [reflexivity|]. cbn. split; [lra|]. intros. lra.
  - discriminate.
  - discriminate.
  - exists y'. cbv zeta. split; [apply (run2_S _ 0 0 _ _ _ H); apply run2_0|]. split; [unfold cyl_ok; cbn [ex_h h_nvp h_vpmax h_speed h_lorentz h_restore]; split; [lia|split; [lra|split; [lra|split; [lra|discriminate]]]]|]. split; [discriminate|]. split; [apply ex_accepted|]. split; [apply ex_grids|].
    split; [exists 2%nat; reflexivity|]. split; [cbn; lia|]. split; [left; reflexivity|]. cbn [ex_h h_nvp rsum]. unfold wperp, perp_w, perp_v, perp_dv, linspace. cbn [ex_h h_nvp h_vpmax Nat.leb INR]. pose proof PI_RGT_0. field. lra.
Qed.

(* ------------------------------------------------------------------------------------------------ *)
(** The Hou-Li filter and the stochastic driver of the configuration have no effect here. *)
Definition with_options (h : setup2) (hl : option (R * nat)) (st : option (R -> R -> R)) : setup2 :=
  let g := h_g h in let tm := g_terms g in
  {| h_g := {| g_nx := g_nx g; g_dx := g_dx g; g_dt := g_dt g; g_x := g_x g; g_xa := g_xa g; g_c := g_c g; g_solver := g_solver g; g_edfdv := g_edfdv g; g_time := g_time g;
               g_terms := {| t_fp_on := t_fp_on tm; t_fp_type := t_fp_type tm; t_m := t_m tm; t_ratio := t_ratio tm; t_sc := t_sc tm; t_krook_on := t_krook_on tm; t_T0 := t_T0 tm; t_hou_li := hl; t_diag_v := t_diag_v tm; t_diag_fp := t_diag_fp tm |};
               g_ex := g_ex g; g_ey := g_ey g; g_stochastic := st; g_nu_fp := g_nu_fp g; g_nu_K := g_nu_K g |};
     h_nvp := h_nvp h; h_vpmax := h_vpmax h; h_speed := h_speed h; h_lorentz := h_lorentz h; h_restore := h_restore h; h_substeps := h_substeps h |}.
Lemma options_sixth h hl st pond l : forall e F, sixth_run2 (with_options h hl st) pond l e F = sixth_run2 h pond l e F.
Proof. induction l as [|[s d] l IH]; intros; cbn [sixth_run2]; [reflexivity|]. change (sixth_stage2 (with_options h hl st) pond d s F) with (sixth_stage2 h pond d s F). destruct (sixth_stage2 h pond d s F) as [[e' F']|]; [apply IH|reflexivity]. Qed.
Lemma options_poisson h hl st F a prev dex : vlasov_poisson2 (with_options h hl st) F a prev dex = vlasov_poisson2 h F a prev dex.
Proof.
  unfold vlasov_poisson2. change (g_edfdv (h_g (with_options h hl st))) with (g_edfdv (h_g h)). change (g_time (h_g (with_options h hl st))) with (g_time (h_g h)).
  destruct (g_edfdv (h_g h)); [|reflexivity]. destruct (g_time (h_g h)); [reflexivity|]. apply options_sixth.
Qed.
(** So the claim that the marginals obey the 1D solver with the SAME configuration fails when a filter is configured. *)
Theorem C103_same_options_refuted :
  (forall h hl st t y y', vm_step2 (with_options h hl st) t y y' <-> vm_step2 h t y y') /\
  ~ forall h t y y' z, ~ cyl_type h -> vm_step2 h t y y' -> vm_step (h_g h) t (project h y) z -> same_cells (g_nx (h_g h)) (marginals h (z_f y')) (y_f z).
Proof.
  split; [intros h hl st t y y'; unfold vm_step2; cbv zeta; setoid_rewrite options_poisson; reflexivity|]. intros H. set (h := ex_h false 0).
  set (f := (fun i _ _ => 1 * cos (2 * PI * INR 1 * INR i / INR 4 + 0)) : dist3). set (y := ex_z [(lit "electron", (ex_e, f)); (lit "ion", (ex_n, fun _ _ _ => 0))]).
  destruct (C103_exists h 0 y None eq_refl eq_refl (ex_accepted _ _ _ _) (ex_grids _ _) (or_introl eq_refl) ltac:(discriminate) ltac:(discriminate)) as (y' & S).
  pose proof S as S0. destruct S0 as ((op & ref & Fv & S1 & S2 & S3 & S4 & _) & _). cbv zeta in S3, S4.
  assert (EV : exists e1 e2 p1 p2, Fv = [(lit "electron", (ex_e, vel_push2 ex_e e1 p1 0 (space_push2 4 1 ex_e 0 f))); (lit "ion", (ex_n, vel_push2 ex_n e2 p2 0 (space_push2 4 1 ex_n 0 (fun _ _ _ => 0))))]).
  { unfold vlasov_poisson2 in S3. cbn [h ex_h h_g ex_setup g_edfdv g_time dt_array map y ex_z z_f] in S3. unfold leapfrog2 in S3. cbn [ex_h h_g ex_setup g_nx g_dx g_solver g_dt map_f2 map fst snd marginals f_of field_solve] in S3. injection S3 as _ S3. rewrite <- S3. do 4 eexists. reflexivity. }
  destruct EV as (e1 & e2 & p1 & p2 & ->).
  set (fe := vel_push2 ex_e e1 p1 0 (space_push2 4 1 ex_e 0 f)).
  assert (EF : exists fi, z_f y' = [(lit "electron", (ex_e, fe)); (lit "ion", fi)]).
  { inversion S4 as [|? [n1 [s1 g1]] ? F1 (A1 & A2 & A3) S5 X1 X2]; subst. inversion S5 as [|? [n2 sf2] ? F2 (B1 & _ & _) S6 Y1 Y2]; subst. inversion S6; subst. cbn [fst snd] in *. subst n1 s1 n2.
    change (str_eqb (lit "electron") electron) with true in A3. assert (A4 : g1 = fe) by exact A3. rewrite A4. exists sf2. reflexivity. }
  destruct EF as (fi & EF).
  assert (FE : forall i j, (i < 4)%nat -> (j < 2)%nat -> marginal h fe i j = PI * cos (2 * PI * INR 1 * INR i / INR 4 + 0)).
  { intros i j Hi Hj. unfold marginal. cbn [h ex_h h_nvp rsum]. replace (fe i j 0%nat) with (1 * cos (2 * PI * INR 1 * INR i / INR 4 + 0)).
    - unfold wperp, perp_w, perp_v, perp_dv, linspace. cbn [h ex_h h_nvp h_vpmax Nat.leb INR]. field.
    - unfold fe, vel_push2. rewrite vel_row_col, Rmult_0_l. rewrite space_col_zero; [|exists 1%nat; reflexivity|cbn; lia]. unfold space_push2. rewrite Rmult_0_r. rewrite space_col_zero; [reflexivity|exists 2%nat; reflexivity|exact Hi]. }
  (* the 1D step with the filter *)
  assert (PS : vm_step (proj_setup (h_g h)) 0 (project h y) (project h y')) by (apply step_projection; [discriminate|exact S]).
  assert (Z : exists z, vm_step (h_g h) 0 (project h y) z /\ y_f z = filtered (h_g h) (marginals h (z_f y'))).
  { destruct PS as ((op1 & ref1 & Gv & Gc & T1 & T2 & T3 & T4 & T5 & _) & _). cbv zeta in *. pose proof T4 as T4'. apply collisions_off in T4'; [|reflexivity|reflexivity]. subst Gc. cbn [filtered proj_setup g_terms proj_terms t_hou_li] in T5. cbn [project y_f] in T5. subst Gv.
    rewrite dex_proj in T3. change (map (fun d => ex_dex (h_g h) (0 + d)) (dt_array (h_g h))) with (map (fun d => ex_dex (h_g h) (0 + d)) (dt_array (h_g h))) in T3.
    set (F' := filtered (h_g h) (marginals h (z_f y'))).
    set (djy := ey_drive (g_nx (h_g h) + 2) (g_xa (h_g h)) (g_c (h_g h)) (g_ey (h_g h)) (0 + nth 1 (dt_array (h_g h)) 0)).
    set (w := wave_step (g_nx (h_g h)) (g_c (h_g h)) (g_dx (h_g h)) (g_dt (h_g h)) (z_a y) (z_prev_a y) djy (fun i => - (1 / 2) * (electron_charge (marginals h (z_f y)) i + electron_charge F' i))).
    eexists {| y_f := F'; y_a := fst w; y_prev_a := snd w; y_e := _; y_da := djy; y_de := nth 0 (map (fun d => total_dex (h_g h) (0 + d)) (dt_array (h_g h))) (fun _ => 0); y_diag_v := _; y_diag_fp := _ |}.
    split; [|reflexivity]. unfold vm_step. cbn [y_f y_a y_prev_a y_e y_da y_de y_diag_v y_diag_fp project]. cbv zeta. split; [|split; [split; reflexivity|split; reflexivity]].
    exists op1, ref1, (marginals h (z_f y')), (marginals h (z_f y')). split; [exact T1|]. split; [exact T2|]. split.
    - assert (ED : map (fun d => total_dex (h_g h) (0 + d)) (dt_array (h_g h)) = map (fun d => ex_dex (h_g h) (0 + d)) (dt_array (h_g h))) by (apply map_ext; intros d; extensionality i; unfold total_dex, ex_dex; cbn [h ex_h h_g ex_setup g_ex g_x g_stochastic]; ring).
      rewrite ED. exact T3.
    - split; [|split; [reflexivity|split; reflexivity]]. unfold collisions in *. clear - T4. revert T4. generalize (marginals h (z_f y')) at 1 3. intros G H. induction H as [|p p' A B (C1 & C2 & C3) H IH]; constructor; [|exact IH].
      split; [exact C1|]. split; [exact C2|]. destruct (str_eqb (fst p) ref1); [|exact C3]. destruct C3 as (f1 & D1 & D2). exists f1. split; [exact D1|exact D2]. }
  destruct Z as (z & Z1 & Z2). pose proof (H h 0 y y' z ltac:(discriminate) S Z1) as Q. rewrite Z2, EF in Q. unfold same_cells, alike in Q. cbn [filtered h ex_h h_g ex_setup g_terms ex_terms2 t_hou_li marginals map fst snd g_nx] in Q.
  inversion Q as [|? ? ? ? (_ & _ & C) _ X1 X2]; subst. unfold df_of, sp_of in C. cbn [fst snd] in C. specialize (C 0%nat 0%nat ltac:(lia) ltac:(cbn; lia)).
  fold h in C. pose proof (VlasovProps2.C58_wave 2 1 1 (marginal h fe) 0 1 PI 0 ltac:(lia) ltac:(lia)) as W. change (2 * 2)%nat with 4%nat in W. rewrite W in C; [|intros i Hi; apply FE; [exact Hi|lia]|lia]. rewrite FE in C by lia.
  replace (2 * PI * INR 1 * INR 0 / INR 4 + 0) with 0 in C by (cbn [INR]; field). rewrite cos_0 in C. pose proof PI_RGT_0.
  assert (X : exp (- (1) * (INR 1 / INR 2) ^ (2 * 1)) = 1) by nra. rewrite <- exp_0 in X at 2. apply exp_inv in X. cbn [INR] in X. simpl in X. lra.
Qed.
Print Assumptions C103_same_options_refuted.
