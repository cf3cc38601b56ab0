(** Property C106, continued: the streamed energies, the electric/magnetic split, the units and the derived quantities. *)
From Coq Require Import Lia Lra Psatz Permutation.
From Coquelicot Require Import Coquelicot.
From Verif Require Import RSum OsIOSpec OsIOProofs RunnerSpec RunnerProofs DriversProps OsMetrics OsMetricsProps.
Local Open Scope R_scope.

(* ------------------------------------------------------------------------------------------------ *)
(** * The streamed files *)
(** A streamed component gives the same energy as its dump when its coordinates are the cells of the dump and no dimension
    has a single cell. *)
Definition cell_coords (h : h5) (coords : list (list R)) : Prop :=
  length coords = length (h_nx h) /\ forall d, (d < length (h_nx h))%nat -> (2 <= nth d (h_nx h) 1)%nat /\ length (nth d coords []) = nth d (h_nx h) 1%nat /\
    nth 1 (nth d coords []) 0 - nth 0 (nth d coords []) 0 = (nth d (h_xmax h) 0 - nth d (h_xmin h) 0) / INR (nth d (h_nx h) 1%nat).
Theorem C106_streamed : forall name vals h coords, whole_component name -> h_vals h = Some vals -> cell_coords h coords ->
  nc_energy (name, Some (vals, coords)) = dump_energy h.
Proof.
  intros name vals h coords W E (L & H). apply C106_component in W. unfold nc_energy, dump_energy. cbn [fst snd]. rewrite W, E. f_equal. f_equal. rewrite dvol_product. unfold nc_cell.
  rewrite <- L in H |- *. transitivity (1 * product (map (fun d => (nth d (h_xmax h) 0 - nth d (h_xmin h) 0) / INR (nth d (h_nx h) 1%nat)) (seq 0 (length coords)))); [|ring].
  assert (G : forall k, (forall d, (d < length coords)%nat -> (2 <= length (nth d coords []))%nat /\ nth 1 (nth d coords []) 0 - nth 0 (nth d coords []) 0 = k d) -> forall v, fold_left (fun v c => match c with a :: b :: _ => v * (b - a) | _ => v end) coords v = v * product (map k (seq 0 (length coords)))).
  { clear. induction coords as [|c coords IH]; intros k H v; [cbn; ring|]. cbn [fold_left length seq map product fold_right]. rewrite (IH (fun d => k (S d))).
    - rewrite <- seq_shift, map_map. destruct (H 0%nat ltac:(cbn; lia)) as [H1 H2]. cbn [nth] in H1, H2. destruct c as [|a [|b c]]; cbn [length] in H1; try lia. cbn [nth] in H2. rewrite <- H2. fold (product (map (fun x => k (S x)) (seq 0 (length coords)))). ring.
    - intros d Hd. apply (H (S d)). cbn [length]. lia. }
  apply G. intros d Hd. destruct (H d Hd) as (H1 & H2 & H3). split; [lia|exact H3].
Qed.
Print Assumptions C106_streamed.
(** A dimension with a single cell is dropped from the volume: the streamed energy is then not that of the dump. *)
Theorem C106_streamed_single_refuted : exists vals h coords, h_vals h = Some vals /\ length coords = length (h_nx h) /\ Forall2 (fun c n => length c = n) coords (h_nx h) /\
  dump_energy h = Some 2 /\ nc_energy (lit "e1", Some (vals, coords)) = Some (1 / 2).
Proof.
  exists [1], {| h_vals := Some [1]; h_xmin := [0]; h_xmax := [4]; h_nx := [1%nat] |}, [[2]]. split; [reflexivity|]. split; [reflexivity|]. split; [repeat constructor|]. split; [|unfold nc_energy; cbn [fst snd]; change (is_component (lit "e1")) with true; cbn [sumsq fold_right nc_cell fold_left]; f_equal; field].
  unfold dump_energy, dvol. cbn [h_vals h_nx h_xmin h_xmax length seq fold_left nth sumsq fold_right INR]. f_equal. field.
Qed.
Print Assumptions C106_streamed_single_refuted.

(* ------------------------------------------------------------------------------------------------ *)
(** * The electric and magnetic parts *)
(** With the whole grid dumped for a component, that diagnostic is the one used, whatever averages stand beside it. *)
Theorem C106_resolve : forall leaves c, In c components ->
  (In c leaves -> resolve leaves c = Some c) /\
  (forall leaf, resolve leaves c = Some leaf -> In leaf leaves /\ whole_component leaf /\ before_dash leaf = c) /\
  (resolve leaves c = None <-> forall leaf, In leaf leaves -> whole_component leaf -> before_dash leaf <> c).
Proof.
  intros leaves c Hc. assert (WC : forall leaf, (str_eqb (before_dash leaf) c && negb (contains (lit "line") leaf) && negb (contains (lit "slice") leaf))%bool = true <-> whole_component leaf /\ before_dash leaf = c).
  { intros leaf. rewrite <- C106_component. unfold is_component. rewrite !andb_true_iff, str_eqb_eq, existsb_exists. split.
    - intros ((A & B) & C). repeat split; auto. exists c. rewrite A. split; [exact Hc|apply str_eqb_refl].
    - intros (((_ & B) & C) & A). auto. }
  assert (FC : forallb (fun x => negb (aeqb x "-")) c = true /\ whole_component c).
  { split; [|apply C106_component]; unfold components in Hc; cbn [map In] in Hc; decompose [or] Hc; subst; try reflexivity; contradiction. }
  assert (BC : before_dash c = c) by (apply before_dash_all, FC).
  unfold resolve. destruct (existsb (str_eqb c) leaves) eqn:E.
  - apply existsb_exists in E. destruct E as (c' & Hi & E). apply str_eqb_eq in E. subst c'. split; [auto|]. split.
    + intros leaf L. injection L as <-. repeat split; auto. apply FC.
    + split; [discriminate|]. intros H. exfalso. exact (H c Hi (proj2 FC) BC).
  - assert (N : ~ In c leaves). { intros H. assert (existsb (str_eqb c) leaves = true) by (apply existsb_exists; exists c; split; [exact H|apply str_eqb_refl]). congruence. }
    split; [intros H; contradiction|]. split.
    + intros leaf F. apply find_some in F. destruct F as [F1 F2]. apply WC in F2. tauto.
    + split.
      * intros F leaf H W B. pose proof (find_none _ _ F leaf H) as G. cbv beta in G. rewrite (proj2 (WC leaf) (Logic.conj W B)) in G. discriminate.
      * intros H. destruct (find _ leaves) as [leaf|] eqn:F; [|reflexivity]. apply find_some in F. destruct F as [F1 F2]. apply WC in F2. exfalso. exact (H leaf F1 (proj1 F2) (proj2 F2)).
Qed.
Print Assumptions C106_resolve.

(** The last iteration is the greatest over the components; there are no energies exactly when nothing was dumped. *)
Lemma fold_max : forall l a, (a <= fold_left Z.max l a)%Z /\ (forall x, In x l -> x <= fold_left Z.max l a)%Z /\ (fold_left Z.max l a = a \/ In (fold_left Z.max l a) l).
Proof.
  induction l as [|b l IH]; intros a; cbn [fold_left]; [repeat split; auto; [lia|intros x []]|]. destruct (IH (Z.max a b)) as (A & B & C). repeat split.
  - lia.
  - intros x [<-|H]; [lia|now apply B].
  - destruct C as [C|C]; [|right; now right]. destruct (Z.max_spec a b) as [[H M]|[H M]]; rewrite M in *; [right; left; congruence|left; congruence].
Qed.
Theorem C106_last_iter : forall diags,
  (eb_final diags = None <-> forall c, In c components -> loaded diags c = None \/ loaded diags c = Some []) /\
  forall e b, eb_final diags = Some (e, b) -> exists i, (exists c l x, In c components /\ loaded diags c = Some l /\ In (i, x) l) /\
    (forall c l j x, In c components -> loaded diags c = Some l -> In (j, x) l -> (j <= i)%Z) /\ e = e_energy diags i /\ b = b_energy diags i.
Proof.
  intros diags. assert (IN : forall i, In i (all_iters diags) <-> exists c l x, In c components /\ loaded diags c = Some l /\ In (i, x) l).
  { intros i. unfold all_iters. rewrite in_flat_map. split.
    - intros (c & Hc & H). destruct (loaded diags c) as [l|] eqn:E; [|destruct H]. apply in_map_iff in H. destruct H as ((j & x) & E' & H). cbn [fst] in E'. subst j. now exists c, l, x.
    - intros (c & l & x & Hc & E & H). exists c. split; [exact Hc|]. rewrite E. apply in_map_iff. now exists (i, x). }
  unfold eb_final, last_iter. destruct (all_iters diags) as [|i l] eqn:A.
  - split; [|discriminate]. split; [|reflexivity]. intros _ c Hc. destruct (loaded diags c) as [[|[j x] l]|] eqn:E; auto. exfalso. apply (proj2 (IN j)). exists c, ((j, x) :: l), x. repeat split; auto. now left.
  - destruct (fold_max l i) as (M1 & M2 & M3). split.
    + split; [discriminate|]. intros H. exfalso. destruct (proj1 (IN i) (or_introl eq_refl)) as (c & l' & x & Hc & E & I'). destruct (H c Hc) as [H1|H1]; rewrite H1 in E; [discriminate|]. injection E as <-. destruct I'.
    + intros e b E. injection E as <- <-. exists (fold_left Z.max l i). split; [|split; [|auto]].
      * apply IN. destruct M3 as [M3|M3]; [left; congruence|now right].
      * intros c l' j x Hc E H. assert (J : In j (i :: l)) by (apply IN; now exists c, l', x). destruct J as [<-|J]; [exact M1|now apply M2].
Qed.
Print Assumptions C106_last_iter.

(** When every component has one whole-component directory and its last dump is at the same iteration, the energy metric is
    the sum of the electric and the magnetic one. *)
Lemma comp_sum (g : str -> R) : forall names, NoDup (map before_dash names) -> (forall n, In n names -> In (before_dash n) components) ->
  rlist_sum (map g names) = rlist_sum (map (fun c => match find (fun n => str_eqb (before_dash n) c) names with Some n => g n | None => 0 end) components).
Proof.
  induction names as [|n names IH]; intros ND H.
  - cbn [map]. unfold components. cbn [map find]. unfold rlist_sum. cbn [fold_right]. ring.
  - cbn [map] in ND. apply NoDup_cons_iff in ND. destruct ND as [N1 N2]. specialize (IH N2 (fun m Hm => H m (or_intror Hm))).
    assert (NF : find (fun m => str_eqb (before_dash m) (before_dash n)) names = None).
    { destruct (find _ names) as [m|] eqn:F; [|reflexivity]. exfalso. apply find_some in F. destruct F as [F1 F2]. apply str_eqb_eq in F2. apply N1. rewrite <- F2. now apply in_map. }
    unfold rlist_sum. cbn [map fold_right]. fold (rlist_sum (map g names)). rewrite IH. pose proof (H n (or_introl eq_refl)) as Hn. cbn [find].
    set (u := fun c => match find (fun m => str_eqb (before_dash m) c) names with Some m => g m | None => 0 end) in *.
    assert (U0 : u (before_dash n) = 0) by (unfold u; rewrite NF; reflexivity).
    transitivity (rlist_sum (map (fun c => (if str_eqb (before_dash n) c then g n else 0) + u c) components)).
    + clear - Hn. unfold components in *. cbn [map In] in *. unfold rlist_sum. cbn [fold_right]. decompose [or] Hn; try contradiction; match goal with H : _ = before_dash n |- _ => rewrite <- H end; cbn; ring.
    + unfold rlist_sum. f_equal. apply map_ext_in. intros c Hc. destruct (str_eqb_spec (before_dash n) c) as [<-|Nc]; [rewrite U0; ring|fold (u c); unfold u; ring].
Qed.
Theorem C106_split : forall ds diags i,
  NoDup (map before_dash (map fst (filter (fun d => fst (snd d) && is_component (fst d))%bool ds))) ->
  (exists files name, In (name, (true, files)) ds /\ whole_component name) ->
  (forall name files, In (name, (true, files)) ds -> whole_component name -> dir_energy (name, (true, files)) = Some (comp_at (loaded diags (before_dash name)) i)) ->
  (forall c, In c components -> (forall name files, In (name, (true, files)) ds -> whole_component name -> before_dash name <> c) -> comp_at (loaded diags c) i = 0) ->
  total_field_energy (Some ds) = Some (e_energy diags i + b_energy diags i).
Proof.
  intros ds diags i ND (f0 & n0 & I0 & W0) D Z. unfold total_field_energy. rewrite fold_found.
  assert (X : existsb (fun d => match dir_energy d with Some _ => true | None => false end) ds = true) by (apply existsb_exists; exists (n0, (true, f0)); split; [exact I0|]; now rewrite (D n0 f0 I0 W0)).
  rewrite X. f_equal. rewrite Rplus_0_l. clear X. set (L := filter (fun d => fst (snd d) && is_component (fst d))%bool ds) in *. set (g := fun n => comp_at (loaded diags (before_dash n)) i).
  assert (IL : forall n, In n (map fst L) <-> exists files, In (n, (true, files)) ds /\ whole_component n).
  { intros n. unfold L. rewrite in_map_iff. split.
    - intros ((n' & (b & files)) & E & H). cbn [fst] in E. subst n'. apply filter_In in H. cbn [fst snd] in H. destruct H as [H1 H2]. apply andb_true_iff in H2. destruct H2 as [-> H2]. exists files. split; [exact H1|now apply C106_component].
    - intros (files & H & W). exists (n, (true, files)). split; [reflexivity|]. apply filter_In. split; [exact H|]. cbn [fst snd andb]. now apply C106_component. }
  transitivity (rlist_sum (map g (map fst L))).
  - unfold L. clear ND IL L I0 Z. induction ds as [|d ds IH]; [reflexivity|]. cbn [map filter]. specialize (IH (fun n f H => D n f (or_intror H))). unfold rlist_sum in *. cbn [fold_right]. rewrite IH. destruct d as (n & (b & files)). cbn [fst snd].
    destruct (b && is_component n)%bool eqn:F.
    + apply andb_true_iff in F. destruct F as [-> F]. rewrite (D n files (or_introl eq_refl) (proj1 (C106_component n) F)). reflexivity.
    + unfold dir_energy at 1. cbn [fst snd]. rewrite F. ring.
  - rewrite (comp_sum g _ ND).
    + assert (U : forall c, In c components -> match find (fun n => str_eqb (before_dash n) c) (map fst L) with Some n => g n | None => 0 end = comp_at (loaded diags c) i).
      { intros c Hc. destruct (find _ (map fst L)) as [n|] eqn:F.
        - apply find_some in F. destruct F as [_ F]. apply str_eqb_eq in F. unfold g. now rewrite F.
        - symmetry. apply Z; [exact Hc|]. intros name files H W B. pose proof (find_none _ _ F name (proj2 (IL name) (ex_intro _ files (Logic.conj H W)))) as G. cbv beta in G. rewrite B, str_eqb_refl in G. discriminate. }
      rewrite (map_ext_in _ _ _ U). unfold components, e_energy, b_energy, rlist_sum. cbn [map fold_right]. ring.
    + intros n Hn. apply IL in Hn. destruct Hn as (files & _ & W). apply C106_component in W. unfold is_component in W. rewrite !andb_true_iff, existsb_exists in W. destruct W as (((c & Hc & E) & _) & _). apply str_eqb_eq in E. now rewrite E.
Qed.
Print Assumptions C106_split.
(** Components saved at different cadences: at the last iteration of the run a component that was not saved then counts as
    zero, however large its last value. *)
Theorem C106_cadence_refuted : forall x y z, eb_final [(lit "e1", [(0%Z, x); (10%Z, y)]); (lit "e2", [(0%Z, z)])] = Some (y, 0).
Proof.
  intros x y z. unfold eb_final. set (D := [(lit "e1", [(0%Z, x); (10%Z, y)]); (lit "e2", [(0%Z, z)])]).
  assert (A : last_iter D = Some 10%Z) by reflexivity. rewrite A. f_equal. unfold e_energy, b_energy.
  assert (L1 : loaded D (lit "e1") = Some [(0%Z, x); (10%Z, y)]) by reflexivity. assert (L2 : loaded D (lit "e2") = Some [(0%Z, z)]) by reflexivity. assert (L3 : loaded D (lit "e3") = None) by reflexivity.
  assert (L4 : loaded D (lit "b1") = None) by reflexivity. assert (L5 : loaded D (lit "b2") = None) by reflexivity. assert (L6 : loaded D (lit "b3") = None) by reflexivity.
  rewrite L1, L2, L3, L4, L5, L6. cbn [comp_at fold_right fst snd]. change (0 =? 10)%Z with false. change (10 =? 10)%Z with true. cbv iota. f_equal; ring.
Qed.
Print Assumptions C106_cadence_refuted.

(* ------------------------------------------------------------------------------------------------ *)
(** * Units *)
(** The density is used when both references are given; without either there are no units. The two references describe the
    same plasma. *)
Theorem C106_reference : forall k n w, physical k -> 0 < n -> 0 < w ->
  (forall w', osiris_reference k (Some n) w' = osiris_reference k (Some n) None) /\ osiris_reference k None None = None /\
  (forall u, osiris_reference k (Some n) None = Some u -> osiris_reference k None (Some (1 / n_tau u)) = Some u /\ n_n0 u = n) /\
  (forall u, osiris_reference k None (Some w) = Some u -> osiris_reference k (Some (n_n0 u)) None = Some u /\ 1 / n_tau u = w).
Proof.
  intros k n w K Hn Hw. destruct (C67_skin_depth k n w K Hn Hw) as (A & B & _). split; [reflexivity|]. split; [reflexivity|]. split.
  - intros u H. injection H as <-. split; [unfold osiris_reference; now rewrite A|reflexivity].
  - intros u H. injection H as <-. split; [unfold osiris_reference; now rewrite B|]. unfold skin_depth_from_frequency, osiris_norm. cbn [n_tau]. field. lra.
Qed.
Print Assumptions C106_reference.
(** Lengths and times of the run: light crosses the box in its length in code units, counted in plasma times. *)
Theorem C106_box : forall k n xmin xmax tmin tmax u, physical k -> 0 < n -> osiris_reference k (Some n) None = Some u ->
  box_length u xmin xmax = k_c k * ((hd 0 xmax - hd 0 xmin) * n_tau u) /\
  (hd 0 xmax - hd 0 xmin = tmax - match tmin with Some t => t | None => 0 end -> box_length u xmin xmax = k_c k * sim_duration u tmin tmax) /\
  1 / n_tau u = sqrt (n * k_e k ^ 2 / (k_me k * k_eps0 k)).
Proof.
  intros k n xmin xmax tmin tmax u (A & B & C & D & E) Hn H. cbn [osiris_reference] in H. assert (U : u = skin_depth k n) by congruence. subst u. unfold box_length, sim_duration, skin_depth, osiris_norm. cbn [n_L0 n_tau].
  assert (P : 0 < sqrt (n * k_e k ^ 2 / (k_me k * k_eps0 k))) by (apply sqrt_lt_R0; apply Rdiv_lt_0_compat; [apply Rmult_lt_0_compat; [exact Hn|nra]|nra]).
  repeat split; [field; lra| |field; lra]. intros ->. field. lra.
Qed.
Print Assumptions C106_box.
(** The intensity is the mean over a laser period of eps0 c E^2 of a linearly polarized wave with E the peak field, whose
    oscillating velocity eE / (m omega) is a0 c; times the square of the wavelength it depends on a0 only, not on the
    reference density. *)
Theorem C106_laser : forall k n a0 omega0 u, physical k -> 0 < n -> 0 < omega0 -> osiris_reference k (Some n) None = Some u ->
  w_laser u omega0 = omega0 * sqrt (n * k_e k ^ 2 / (k_me k * k_eps0 k)) /\
  laser_wavelength k u omega0 * w_laser u omega0 = 2 * PI * k_c k /\
  k_e k * e_peak k u a0 omega0 / (k_me k * w_laser u omega0) = a0 * k_c k /\
  RInt (fun t => k_eps0 k * k_c k * (e_peak k u a0 omega0 * cos (w_laser u omega0 * t)) ^ 2) 0 (2 * PI / w_laser u omega0) / (2 * PI / w_laser u omega0) = laser_intensity k u a0 omega0 /\
  laser_intensity k u a0 omega0 * laser_wavelength k u omega0 ^ 2 = 2 * PI ^ 2 * k_eps0 k * k_me k ^ 2 * k_c k ^ 5 * a0 ^ 2 / k_e k ^ 2.
Proof.
  intros k n a0 omega0 u K Hn Ho H. destruct (C106_box k n [] [] None 0 u K Hn H) as (_ & _ & T). destruct K as (A & B & C & D & E).
  assert (P : 0 < sqrt (n * k_e k ^ 2 / (k_me k * k_eps0 k))) by (apply sqrt_lt_R0; apply Rdiv_lt_0_compat; [apply Rmult_lt_0_compat; [exact Hn|nra]|nra]).
  assert (W : w_laser u omega0 = omega0 * sqrt (n * k_e k ^ 2 / (k_me k * k_eps0 k))) by (unfold w_laser; rewrite <- T; unfold Rdiv; ring).
  assert (W0 : 0 < w_laser u omega0) by (rewrite W; now apply Rmult_lt_0_compat). pose proof PI_RGT_0 as PP.
  split; [exact W|]. split; [unfold laser_wavelength; field; lra|]. split; [unfold e_peak; field; repeat split; lra|]. split.
  - set (w := w_laser u omega0) in *. set (Ep := e_peak k u a0 omega0). unfold laser_intensity. fold Ep.
    assert (I : is_RInt (fun t => k_eps0 k * k_c k * (Ep * cos (w * t)) ^ 2) 0 (2 * PI / w) (k_eps0 k * k_c k * Ep ^ 2 / 2 * (2 * PI / w))).
    { set (F := fun t => k_eps0 k * k_c k * Ep ^ 2 * (t / 2 + sin (2 * (w * t)) / (4 * w))).
      replace (k_eps0 k * k_c k * Ep ^ 2 / 2 * (2 * PI / w)) with (minus (F (2 * PI / w)) (F 0)).
      - apply (is_RInt_derive F).
        + intros x _. unfold F. auto_derive; [lra|]. rewrite (cos_2a_cos (w * x)). field. lra.
        + intros x _. apply (ex_derive_continuous (V := R_NormedModule)). auto_derive. exact Logic.I.
      - unfold minus, plus, opp, F. cbn. rewrite !Rmult_0_r, sin_0. replace (2 * (w * (2 * PI / w))) with (0 + 2 * INR 2 * PI) by (cbn; field; lra). rewrite sin_period, sin_0. field. lra. }
    rewrite (is_RInt_unique _ _ _ _ I). field. split; lra.
  - unfold laser_intensity, laser_wavelength, e_peak. field. split; lra.
Qed.
Print Assumptions C106_laser.
(** The drive is that of the antenna when it has both a0 and omega0, then of zpulse_speckle, then of zpulse; only the first
    section of a name is read. *)
Theorem C106_laser_section : forall sections,
  let first name := option_map snd (find (fun s => str_eqb (fst s) (lit name)) sections) in
  let drive name := match first name with Some (Some a, Some w) => Some (a, w) | _ => None end in
  laser_section sections = match drive "antenna"%string with Some d => Some d | None => match drive "zpulse_speckle"%string with Some d => Some d | None => drive "zpulse"%string end end.
Proof.
  intros sections first drive. unfold laser_section, drive, first. cbn [map fold_right].
  repeat match goal with |- context [find ?f sections] => destruct (find f sections) as [[? [[?|] [?|]]]|]; cbn [option_map snd]; try reflexivity end.
Qed.
Print Assumptions C106_laser_section.

(* ------------------------------------------------------------------------------------------------ *)
(** * Derived quantities *)
Lemma min_of_spec : forall l a, (min_of a l = a \/ In (min_of a l) l) /\ min_of a l <= a /\ forall x, In x l -> min_of a l <= x.
Proof.
  induction l as [|b l IH]; intros a; cbn [min_of]; [repeat split; auto; [lra|intros x []]|]. destruct (IH (Rmin a b)) as (A & B & C). pose proof (Rmin_l a b). pose proof (Rmin_r a b). repeat split.
  - destruct A as [A|A]; [|right; now right]. unfold Rmin in *. destruct (Rle_dec a b); [now left|right; left; congruence].
  - lra.
  - intros x [<-|Hx]; [lra|now apply C].
Qed.
Lemma diffs_spec : forall nx xmin xmax l, diffs xmin xmax nx = Some l -> length l = length nx /\ forall d, (d < length nx)%nat -> nth d l 0 = (nth d xmax 0 - nth d xmin 0) / nth d nx 0.
Proof.
  induction nx as [|n nx IH]; intros xmin xmax l H; cbn [diffs] in H; [injection H as <-; split; [reflexivity|intros d Hd; cbn in Hd; lia]|].
  destruct xmin as [|a xmin]; [discriminate|]. destruct xmax as [|b xmax]; [discriminate|]. destruct (diffs xmin xmax nx) as [l'|] eqn:E; [|discriminate]. injection H as <-. destruct (IH _ _ _ E) as [L H]. split; [cbn; lia|].
  intros [|d] Hd; [reflexivity|]. cbn [nth]. apply H. cbn in Hd. lia.
Qed.
(** The cells fill the box; the ratio is below one exactly when the time step is below every cell size; with tmin = 0 the
    number of steps is the number that fit. *)
Theorem C106_derived : forall grid space dt tmax d, get_derived grid space dt tmax = Some d ->
  (forall dx, dv_dx d = Some dx -> exists nx xmin xmax, first_array grid (lit "nx_p") = Some nx /\ first_array space (lit "xmin") = Some xmin /\ first_array space (lit "xmax") = Some xmax /\
     length dx = length nx /\ forall a, (a < length nx)%nat -> nth a nx 0 <> 0 -> nth a dx 0 * nth a nx 0 = nth a xmax 0 - nth a xmin 0) /\
  (forall dx r t, dv_dx d = Some dx -> dv_cfl d = Some r -> dt = Some t -> (forall x, In x dx -> 0 < x) -> (r < 1 <-> forall x, In x dx -> t < x)) /\
  (forall n t T, dv_steps d = Some n -> dt = Some t -> tmax = Some T -> 0 < t -> 0 <= T -> IZR n * t <= T < (IZR n + 1) * t).
Proof.
  intros grid space dt tmax d H. unfold get_derived in H.
  assert (ST : forall n t T, steps_of dt tmax = Some n -> dt = Some t -> tmax = Some T -> 0 < t -> 0 <= T -> IZR n * t <= T < (IZR n + 1) * t).
  { intros n t T E -> -> Ht HT. unfold steps_of in E. destruct (Req_EM_T t 0); [lra|]. injection E as <-. unfold py_int. assert (Q : 0 <= T / t) by (apply Rmult_le_pos; [lra|left; now apply Rinv_0_lt_compat]). destruct (Rle_dec 0 (T / t)); [|lra].
    destruct (base_Int_part (T / t)) as [B1 B2]. assert (T = T / t * t) by (field; lra). split; nra. }
  assert (NONE : Some {| dv_dx := None; dv_cfl := None; dv_steps := steps_of dt tmax |} = Some d -> (forall dx, dv_dx d = Some dx -> exists nx xmin xmax, first_array grid (lit "nx_p") = Some nx /\ first_array space (lit "xmin") = Some xmin /\ first_array space (lit "xmax") = Some xmax /\
     length dx = length nx /\ forall a, (a < length nx)%nat -> nth a nx 0 <> 0 -> nth a dx 0 * nth a nx 0 = nth a xmax 0 - nth a xmin 0) /\
  (forall dx r t, dv_dx d = Some dx -> dv_cfl d = Some r -> dt = Some t -> (forall x, In x dx -> 0 < x) -> (r < 1 <-> forall x, In x dx -> t < x)) /\
  (forall n t T, dv_steps d = Some n -> dt = Some t -> tmax = Some T -> 0 < t -> 0 <= T -> IZR n * t <= T < (IZR n + 1) * t)).
  { intros E. injection E as <-. cbn [dv_dx dv_cfl dv_steps]. split; [discriminate|]. split; [discriminate|exact ST]. }
  destruct (first_array grid (lit "nx_p")) as [[|n nx]|] eqn:EN; [exact (NONE H)| |exact (NONE H)].
  destruct (first_array space (lit "xmin")) as [xmin|] eqn:EA; [|exact (NONE H)]. destruct (first_array space (lit "xmax")) as [xmax|] eqn:EB; [|exact (NONE H)]. clear NONE.
  destruct (diffs xmin xmax (n :: nx)) as [[|x0 dx]|] eqn:DF; try discriminate. injection H as <-. cbn [dv_dx dv_cfl dv_steps]. destruct (diffs_spec _ _ _ _ DF) as [L HD]. split; [|split; [|exact ST]].
  - intros dx' E. injection E as <-. exists (n :: nx), xmin, xmax. repeat split; auto. intros a Ha Hn. rewrite HD by exact Ha. field. exact Hn.
  - intros dx' r t E1 E2 -> HP. injection E1 as <-. injection E2 as <-. destruct (min_of_spec dx x0) as (M1 & M2 & M3). assert (MP : 0 < min_of x0 dx) by (apply HP; destruct M1 as [->|M1]; [now left|now right]).
    split.
    + intros R x Hx. assert (t < min_of x0 dx) by (apply Rmult_lt_reg_r with (/ min_of x0 dx); [now apply Rinv_0_lt_compat|]; rewrite Rinv_r by lra; exact R). destruct Hx as [<-|Hx]; [lra|specialize (M3 x Hx); lra].
    + intros R. apply Rmult_lt_reg_r with (min_of x0 dx); [exact MP|]. unfold Rdiv. rewrite Rmult_assoc, Rinv_l by lra. rewrite Rmult_1_r, Rmult_1_l. apply R. destruct M1 as [->|M1]; [now left|now right].
Qed.
Print Assumptions C106_derived.
(** The ratio is not the Courant number of more than one dimension: a ratio below one with an unstable step exists. *)
Theorem C106_courant_refuted : exists d r, get_derived [(lit "nx_p(1:2)", [10; 10])] [(lit "xmin(1:2)", [0; 0]); (lit "xmax(1:2)", [10; 10])] (Some (9 / 10)) (Some 1) = Some d /\
  dv_cfl d = Some r /\ r < 1 /\ dv_dx d = Some [(10 - 0) / 10; (10 - 0) / 10] /\ (9 / 10) ^ 2 * (/ ((10 - 0) / 10) ^ 2 + / ((10 - 0) / 10) ^ 2) > 1.
Proof.
  do 2 eexists. split; [reflexivity|]. cbn [dv_cfl dv_dx]. split; [reflexivity|]. split; [cbn [min_of]; rewrite Rmin_left by lra; lra|]. split; [reflexivity|]. replace ((10 - 0) / 10) with 1 by field. lra.
Qed.
Print Assumptions C106_courant_refuted.
(** A start time other than zero is not taken into account: the number of steps counts from zero. *)
Theorem C106_steps : forall grid space dt tmax d, get_derived grid space dt tmax = Some d -> dv_steps d = steps_of dt tmax.
Proof.
  intros grid space dt tmax d H. unfold get_derived in H. destruct (first_array grid _) as [[|? ?]|]; try (injection H as <-; reflexivity).
  destruct (first_array space (lit "xmin")); [|injection H as <-; reflexivity]. destruct (first_array space (lit "xmax")); [|injection H as <-; reflexivity]. destruct (diffs _ _ _) as [[|? ?]|]; try discriminate. injection H as <-. reflexivity.
Qed.
Print Assumptions C106_steps.
(** An array given element by element is read as its first element only: a 2D deck is then taken for a 1D one. *)
Theorem C106_elements_refuted : forall a b, first_array [(lit "nx_p(1)", [a]); (lit "nx_p(2)", [b])] (lit "nx_p") = Some [a] /\
  infer_dim [(lit "nx_p(1)", [a]); (lit "nx_p(2)", [b])] = Some 1%nat /\ infer_dim [(lit "nx_p(1:2)", [a; b])] = Some 2%nat.
Proof. intros. repeat split. Qed.
Print Assumptions C106_elements_refuted.
(** What is found is the first entry whose name is the key, or the key followed by an index. *)
Theorem C106_lookup : forall pre k v post key, (forall k' v', In (k', v') pre -> k' <> key /\ forall r, k' <> key ++ lit "(" ++ r) ->
  (k = key \/ exists r, k = key ++ lit "(" ++ r) -> first_array (pre ++ (k, v) :: post) key = Some v.
Proof.
  intros pre k v post key H K. unfold first_array. induction pre as [|[k' v'] pre IH]; cbn [app find fst].
  - assert (E : (str_eqb k key || is_prefix (key ++ lit "(") k)%bool = true).
    { apply orb_true_iff. destruct K as [->|[r ->]]; [left; apply str_eqb_refl|right]. apply OsIOProofs.is_prefix_app. exists r. now rewrite <- app_assoc. }
    rewrite E. reflexivity.
  - destruct (H k' v' (or_introl eq_refl)) as [H1 H2]. assert (E : (str_eqb k' key || is_prefix (key ++ lit "(") k')%bool = false).
    { apply orb_false_iff. split; [now apply str_eqb_neq|]. destruct (is_prefix (key ++ lit "(") k') eqn:P; [|reflexivity]. apply OsIOProofs.is_prefix_app in P. destruct P as [r ->]. exfalso. apply (H2 r). now rewrite <- app_assoc. }
    rewrite E. apply IH. intros k2 v2 H3. apply (H k2 v2). now right.
Qed.
Print Assumptions C106_lookup.

(* ------------------------------------------------------------------------------------------------ *)
(** * A concrete case *)
Example osm_energy : total_field_energy (Some [one_dir "e1" (uniform_dump 1); one_dir "s1" (uniform_dump 1); one_dir "e2-line" (uniform_dump 1)]) = Some 4.
Proof. pose proof (proj1 C106_averaged_refuted) as A. rewrite <- A. reflexivity. Qed.
Example osm_iter : final_iter (Some [lit "e1-000010.h5"; lit "e1-000200.h5"]) None = 200%Z.
Proof. reflexivity. Qed.
Example osm_split : eb_final [(lit "e1", [(0%Z, 1); (10%Z, 2)]); (lit "b3", [(0%Z, 1); (10%Z, 5)])] = Some (2, 5).
Proof.
  unfold eb_final. set (D := [(lit "e1", [(0%Z, 1); (10%Z, 2)]); (lit "b3", [(0%Z, 1); (10%Z, 5)])]). assert (A : last_iter D = Some 10%Z) by reflexivity. rewrite A. f_equal. unfold e_energy, b_energy.
  assert (L1 : loaded D (lit "e1") = Some [(0%Z, 1); (10%Z, 2)]) by reflexivity. assert (L2 : loaded D (lit "e2") = None) by reflexivity. assert (L3 : loaded D (lit "e3") = None) by reflexivity.
  assert (L4 : loaded D (lit "b1") = None) by reflexivity. assert (L5 : loaded D (lit "b2") = None) by reflexivity. assert (L6 : loaded D (lit "b3") = Some [(0%Z, 1); (10%Z, 5)]) by reflexivity.
  rewrite L1, L2, L3, L4, L5, L6. cbn [comp_at fold_right fst snd]. change (0 =? 10)%Z with false. change (10 =? 10)%Z with true. cbv iota. f_equal; ring.
Qed.
