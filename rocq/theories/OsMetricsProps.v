(** Property C106: the scalar results of an OSIRIS run. *)
From Coq Require Import Lia Lra Psatz Permutation.
From Verif Require Import RSum OsIOSpec OsIOProofs RunnerSpec RunnerProofs DriversProps OsMetrics.
Local Open Scope R_scope.

(** Vocabulary. *)
Definition rlist_sum (l : list R) : R := fold_right Rplus 0 l.
Definition product (l : list R) : R := fold_right Rmult 1 l.
(** A directory below FLD holding one whole component. *)
Definition whole_component (name : str) : Prop :=
  exists c r, In c components /\ (name = c \/ name = c ++ "-"%char :: r) /\ ~ occurs (lit "line") name /\ ~ occurs (lit "slice") name.

Lemma before_dash_spec name : (before_dash name = name /\ forallb (fun c => negb (aeqb c "-")) name = true) \/ exists r, name = before_dash name ++ "-"%char :: r.
Proof.
  unfold before_dash. destruct (span _ name) as [a b] eqn:E. apply span_spec in E. destruct E as (E1 & E2 & E3). cbn [fst].
  destruct b as [|c b]; [left; rewrite app_nil_r in E1; subst; split; auto|]. right. exists b. rewrite E1 at 1. f_equal. f_equal. apply Bool.negb_false_iff in E3. now apply Ascii.eqb_eq in E3.
Qed.
Lemma before_dash_app c r : forallb (fun x => negb (aeqb x "-")) c = true -> before_dash (c ++ "-"%char :: r) = c.
Proof. intros H. unfold before_dash. rewrite span_app; auto. Qed.
Lemma before_dash_all c : forallb (fun x => negb (aeqb x "-")) c = true -> before_dash c = c.
Proof. intros H. unfold before_dash. induction c as [|x c IH]; [reflexivity|]. cbn [forallb] in H. apply andb_true_iff in H. destruct H as [H1 H2]. cbn [span]. rewrite H1. specialize (IH H2). destruct (span _ c) as [a b]. cbn [fst] in *. now subst. Qed.
(** Exactly the directories of a whole component are summed: no Poynting flux, lineout or slice. *)
Theorem C106_component : forall name, is_component name = true <-> whole_component name.
Proof.
  intros name. unfold is_component, whole_component. rewrite !andb_true_iff, !negb_true_iff, !contains_false, existsb_exists. split.
  - intros (((c & Hc & E) & L) & S). apply str_eqb_eq in E. destruct (before_dash_spec name) as [[B _]|[r B]].
    + exists c, []. repeat split; auto. left. congruence.
    + exists c, r. repeat split; auto. right. now rewrite <- E.
  - intros (c & r & Hc & E & L & S). repeat split; auto. exists c. split; [exact Hc|]. apply str_eqb_eq.
    assert (F : forallb (fun x => negb (aeqb x "-")) c = true) by (unfold components in Hc; cbn [map In] in Hc; decompose [or] Hc; subst; try reflexivity; contradiction).
    destruct E as [->| ->]; [now apply before_dash_all|now apply before_dash_app].
Qed.
Print Assumptions C106_component.

(** The dump used is a file of the directory whose iteration is the greatest; there is one exactly when there is a file. *)
Lemma later_max l : forall b, match fold_left later l b with
  | None => b = None /\ l = []
  | Some e => (b = Some e \/ In e l) /\ (forall x, b = Some x \/ In x l -> (iter_from_name (fst x) <= iter_from_name (fst e))%Z) end.
Proof.
  induction l as [|a l IH]; intros b; cbn [fold_left].
  - destruct b as [e|]; [|auto]. split; [now left|]. intros x [H|[]]. injection H as ->. lia.
  - specialize (IH (later b a)). destruct (fold_left later l (later b a)) as [e|].
    + destruct IH as [I1 I2]. unfold later in *. destruct b as [b|].
      * destruct (Z.ltb_spec (iter_from_name (fst b)) (iter_from_name (fst a))) as [H|H].
        -- split; [destruct I1 as [I1|I1]; [injection I1 as ->; right; now left|right; now right]|]. intros x [Hx|[Hx|Hx]]; [injection Hx as <-; specialize (I2 a (or_introl eq_refl)); lia|subst; apply I2; now left|apply I2; now right].
        -- split; [destruct I1 as [I1|I1]; [now left|right; now right]|]. intros x [Hx|[Hx|Hx]]; [apply I2; now left|subst x; specialize (I2 b (or_introl eq_refl)); lia|apply I2; now right].
      * split; [destruct I1 as [I1|I1]; [injection I1 as ->; right; now left|right; now right]|]. intros x [Hx|[Hx|Hx]]; [discriminate|subst; apply I2; now left|apply I2; now right].
    + destruct IH as [IH _]. unfold later in IH. destruct b; [destruct (_ <? _)%Z|]; discriminate.
Qed.
Theorem C106_latest : forall l,
  (latest l = None <-> forall n h, In (n, (true, h)) l -> ~ h5_suffix n = true) /\
  forall n h, latest l = Some (n, h) -> In (n, (true, h)) l /\ h5_suffix n = true /\
    forall n' h', In (n', (true, h')) l -> h5_suffix n' = true -> (iter_from_name n' <= iter_from_name n)%Z.
Proof.
  intros l. unfold latest. pose proof (later_max (h5_files l) None) as M.
  assert (IN : forall n h, In (n, h) (h5_files l) <-> In (n, (true, h)) l /\ h5_suffix n = true).
  { intros n h. unfold h5_files. rewrite in_map_iff. split.
    - intros ((n' & (b & h')) & E & H). apply filter_In in H. cbn [fst snd] in *. destruct H as [H1 H2]. apply andb_true_iff in H2. destruct H2 as [-> H2]. injection E as -> ->. auto.
    - intros [H1 H2]. exists (n, (true, h)). split; [reflexivity|]. apply filter_In. cbn [fst snd]. now rewrite H1 || auto. }
  destruct (fold_left later (h5_files l) None) as [[n h]|].
  - destruct M as [[M1|M1] M2]; [discriminate|]. split.
    + split; [discriminate|]. intros H. apply IN in M1. destruct M1 as [A B]. now destruct (H n h A).
    + intros n0 h0 E. injection E as <- <-. apply IN in M1. destruct M1 as [A B]. repeat split; auto. intros n' h' A' B'. exact (M2 (n', h') (or_intror (proj2 (IN n' h') (conj A' B')))).
  - destruct M as [_ M]. split; [|discriminate]. split; [|reflexivity]. intros _ n h A B. assert (X : In (n, h) (h5_files l)) by (apply IN; auto). rewrite M in X. destruct X.
Qed.
Print Assumptions C106_latest.

(** One dump: the cell volume times the number of cells is the volume of the box. *)
Lemma dvol_product h : dvol h = product (map (fun d => (nth d (h_xmax h) 0 - nth d (h_xmin h) 0) / INR (nth d (h_nx h) 1%nat)) (seq 0 (length (h_nx h)))).
Proof.
  unfold dvol. set (f := fun d => _ / _). transitivity (1 * product (map f (seq 0 (length (h_nx h))))); [|ring]. generalize 1. induction (seq 0 (length (h_nx h))) as [|d l IH]; intros v; cbn [fold_left map product fold_right]; [ring|]. rewrite IH. fold (product (map f l)). unfold f. ring.
Qed.
Definition box_volume (h : h5) : R := product (map (fun d => nth d (h_xmax h) 0 - nth d (h_xmin h) 0) (seq 0 (length (h_nx h)))).
Definition cells (h : h5) : R := product (map INR (h_nx h)).
Lemma cells_pos h : Forall (fun n => (0 < n)%nat) (h_nx h) -> 0 < cells h.
Proof. unfold cells. induction 1 as [|n l Hn Hl IH]; cbn [map product fold_right]; [lra|]. apply Rmult_lt_0_compat; [now apply lt_0_INR|exact IH]. Qed.
Lemma map_nth_seq {A B} (f : A -> B) d : forall l, map f l = map (fun i => f (nth i l d)) (seq 0 (length l)).
Proof. induction l as [|a l IH]; [reflexivity|]. cbn [length seq map nth]. f_equal. rewrite <- seq_shift, map_map. exact IH. Qed.
Lemma dvol_volume h : Forall (fun n => (0 < n)%nat) (h_nx h) -> dvol h * cells h = box_volume h.
Proof.
  intros P. rewrite dvol_product. unfold cells, box_volume. rewrite (map_nth_seq INR 1%nat).
  assert (Q : forall d, In d (seq 0 (length (h_nx h))) -> 0 < INR (nth d (h_nx h) 1%nat)) by (intros d Hd; apply lt_0_INR; rewrite Forall_forall in P; apply P, nth_In; apply in_seq in Hd; lia).
  revert Q. generalize (seq 0 (length (h_nx h))). induction l as [|d l IH]; intros Q; cbn [map product fold_right]; [ring|]. fold (product (map (fun d => (nth d (h_xmax h) 0 - nth d (h_xmin h) 0) / INR (nth d (h_nx h) 1%nat)) l)). fold (product (map (fun i => INR (nth i (h_nx h) 1%nat)) l)). fold (product (map (fun d => nth d (h_xmax h) 0 - nth d (h_xmin h) 0) l)).
  rewrite <- IH by (intros; apply Q; now right). specialize (Q d (or_introl eq_refl)). field. lra.
Qed.
Lemma sumsq_map (F : nat -> R) m : forall s, sumsq (map F (seq s m)) = rsum m (fun i => F (s + i)%nat ^ 2).
Proof. induction m as [|m IH]; intros s; [reflexivity|]. rewrite seq_S, map_app. cbn [rsum]. rewrite <- IH. clear. induction (map F (seq s m)) as [|a l IHl]; cbn [map app sumsq fold_right]; [ring|]. fold (sumsq l). fold (sumsq (l ++ [F (s + m)%nat])). cbn [map] in IHl. rewrite IHl. ring. Qed.

(** The energy of the run: over the components found on one grid, the sum over the cells of half the squares times the volume
    of a cell, whatever else is in the directory. *)
Lemma fold_found {A} (g : A -> option R) l : forall acc, fold_left (fun acc d => add_found acc (g d)) l acc =
  match acc, existsb (fun d => match g d with Some _ => true | None => false end) l with
  | None, false => None
  | _, _ => Some (match acc with Some a => a | None => 0 end + rlist_sum (map (fun d => match g d with Some x => x | None => 0 end) l)) end.
Proof.
  induction l as [|d l IH]; intros acc; cbn [fold_left existsb map rlist_sum fold_right].
  - destruct acc; [f_equal; unfold rlist_sum; cbn; ring|reflexivity].
  - rewrite IH. fold (rlist_sum (map (fun d => match g d with Some x => x | None => 0 end) l)). destruct (g d) as [x|]; cbn [add_found orb].
    + destruct acc; destruct (existsb _ l); f_equal; ring.
    + destruct acc; [destruct (existsb _ l); f_equal; ring|]. destruct (existsb _ l); [f_equal; ring|reflexivity].
Qed.
Theorem C106_field_energy : forall ds V m (F : str -> nat -> R),
  (forall name files, In (name, (true, files)) ds -> whole_component name -> exists n h, latest files = Some (n, h) /\ h_vals h = Some (map (F name) (seq 0 m)) /\ dvol h = V) ->
  (exists name files, In (name, (true, files)) ds /\ whole_component name) ->
  total_field_energy (Some ds) = Some (V * rsum m (fun i => 1 / 2 * rlist_sum (map (fun d => F (fst d) i ^ 2) (filter (fun d => fst (snd d) && is_component (fst d))%bool ds)))).
Proof.
  intros ds V m F H (n0 & f0 & I0 & W0). unfold total_field_energy. rewrite fold_found.
  assert (D : forall d, In d ds -> (fst (snd d) && is_component (fst d))%bool = true -> dir_energy d = Some (1 / 2 * rsum m (fun i => F (fst d) i ^ 2) * V)).
  { intros (name & (b & files)) Hd Hb. cbn [fst snd] in *. apply andb_true_iff in Hb. destruct Hb as [-> Hc]. destruct (H name files Hd (proj1 (C106_component name) Hc)) as (n & h & E1 & E2 & E3). unfold dir_energy. cbn [fst snd andb]. rewrite Hc, E1. unfold dump_energy. cbn [snd]. rewrite E2, E3, sumsq_map. cbn [Nat.add]. reflexivity. }
  assert (X : existsb (fun d => match dir_energy d with Some _ => true | None => false end) ds = true).
  { apply existsb_exists. exists (n0, (true, f0)). split; [exact I0|]. rewrite (D _ I0); [reflexivity|]. cbn [fst snd andb]. now apply C106_component. }
  rewrite X. f_equal. rewrite Rplus_0_l. clear X I0 H.
  induction ds as [|d ds IH]; cbn [map rlist_sum fold_right filter]. { rewrite (rsum_ext m _ (fun _ => 0)) by (intros; ring). rewrite rsum_zero. ring. }
  fold (rlist_sum (map (fun d => match dir_energy d with Some x => x | None => 0 end) ds)). rewrite IH by (intros; apply D; auto; now right).
  destruct (fst (snd d) && is_component (fst d))%bool eqn:E.
  - rewrite (D d (or_introl eq_refl) E). cbn [map]. set (L := filter (fun d => fst (snd d) && is_component (fst d))%bool ds).
    transitivity (V * rsum m (fun i => 1 / 2 * F (fst d) i ^ 2 + 1 / 2 * rlist_sum (map (fun d => F (fst d) i ^ 2) L))).
    + rewrite rsum_plus, (rsum_scal m (1 / 2) (fun i => F (fst d) i ^ 2)). ring.
    + f_equal. apply rsum_ext. intros i _. unfold rlist_sum. cbn [map fold_right]. ring.
  - unfold dir_energy. rewrite E. unfold rlist_sum. rewrite Rplus_0_l. reflexivity.
Qed.
Print Assumptions C106_field_energy.
(** No metric exactly when no component directory has a readable last dump; the order of the listing does not matter, and it
    is not negative when the box is not reversed. *)
Theorem C106_total : forall ds,
  (total_field_energy (Some ds) = None <-> forall d, In d ds -> dir_energy d = None) /\
  (forall ds', Permutation ds ds' -> total_field_energy (Some ds') = total_field_energy (Some ds)) /\
  (forall x, total_field_energy (Some ds) = Some x -> (forall d, In d ds -> forall y, dir_energy d = Some y -> 0 <= y) -> 0 <= x).
Proof.
  intros ds. unfold total_field_energy. split; [|split].
  - rewrite fold_found. destruct (existsb _ ds) eqn:X.
    + apply existsb_exists in X. destruct X as (d & Hd & E). split; [discriminate|]. intros H. rewrite (H d Hd) in E. discriminate.
    + split; [|reflexivity]. intros _ d Hd. destruct (dir_energy d) eqn:E; [|reflexivity]. exfalso. assert (Y : existsb (fun d => match dir_energy d with Some _ => true | None => false end) ds = true) by (apply existsb_exists; exists d; rewrite E; auto). congruence.
  - intros ds' P. rewrite !fold_found. assert (E : existsb (fun d => match dir_energy d with Some _ => true | None => false end) ds' = existsb (fun d => match dir_energy d with Some _ => true | None => false end) ds).
    { clear - P. induction P; cbn [existsb]; [reflexivity|now rewrite IHP|rewrite !orb_assoc; f_equal; apply orb_comm|congruence]. }
    rewrite E. destruct (existsb _ ds); [|reflexivity]. f_equal. f_equal. clear - P. induction P; cbn [map]; unfold rlist_sum in *; cbn [fold_right]; [reflexivity|now rewrite IHP|ring|congruence].
  - intros x E H. rewrite fold_found in E. destruct (existsb _ ds); [|discriminate]. injection E as <-. rewrite Rplus_0_l. clear - H. induction ds as [|d ds IH]; unfold rlist_sum; cbn [map fold_right]; [lra|]. fold (rlist_sum (map (fun d => match dir_energy d with Some x => x | None => 0 end) ds)).
    assert (0 <= rlist_sum (map (fun d => match dir_energy d with Some x => x | None => 0 end) ds)) by (apply IH; intros; eapply H; eauto; now right). destruct (dir_energy d) as [y|] eqn:E; [specialize (H d (or_introl eq_refl) y E)|]; lra.
Qed.
Print Assumptions C106_total.

(** A uniform field on the whole grid has the energy E0^2/2 times the volume of the box. A dump averaged over groups of k
    cells keeps only a k-th of it: the cell of the whole grid is used. *)
Theorem C106_uniform : forall h E0 m, Forall (fun n => (0 < n)%nat) (h_nx h) -> h_vals h = Some (repeat E0 m) ->
  dump_energy h = Some (1 / 2 * E0 ^ 2 * box_volume h * (INR m / cells h)).
Proof.
  intros h E0 m P E. pose proof (cells_pos h P) as C. unfold dump_energy. rewrite E. f_equal. rewrite <- (dvol_volume h P).
  assert (S : sumsq (repeat E0 m) = INR m * E0 ^ 2). { clear. induction m as [|m IH]; [cbn; ring|]. cbn [repeat sumsq fold_right]. fold (sumsq (repeat E0 m)). rewrite IH, S_INR. ring. }
  rewrite S. field. lra.
Qed.
Print Assumptions C106_uniform.
Definition uniform_dump (k : nat) : h5 := {| h_vals := Some (repeat 1 (8 / k)); h_xmin := [0]; h_xmax := [8]; h_nx := [8%nat] |}.
Definition one_dir (name : string) (h : h5) : fdir := (lit name, (true, [(lit name ++ lit "-000010.h5", (true, h))])).
Theorem C106_averaged_refuted : total_field_energy (Some [one_dir "e1" (uniform_dump 1)]) = Some 4 /\ total_field_energy (Some [one_dir "e1-savg" (uniform_dump 2)]) = Some 2.
Proof.
  unfold total_field_energy. cbn [fold_left].
  assert (A : dir_energy (one_dir "e1" (uniform_dump 1)) = dump_energy (uniform_dump 1)) by reflexivity.
  assert (B : dir_energy (one_dir "e1-savg" (uniform_dump 2)) = dump_energy (uniform_dump 2)) by reflexivity.
  rewrite A, B, (C106_uniform (uniform_dump 1) 1 (8 / 1) ltac:(repeat constructor) eq_refl), (C106_uniform (uniform_dump 2) 1 (8 / 2) ltac:(repeat constructor) eq_refl). unfold add_found, box_volume, cells, uniform_dump. cbn [h_nx h_xmin h_xmax length seq map product fold_right nth]. change (8 / 1)%nat with 8%nat. change (8 / 2)%nat with 4%nat. replace (INR 8) with 8 by (cbn; ring). replace (INR 4) with 4 by (cbn; ring). split; f_equal; field.
Qed.
Print Assumptions C106_averaged_refuted.
(** A deck that writes both the whole grid and its average counts the component twice. *)
Theorem C106_double_refuted : forall ds name extra h x, whole_component name -> ~ In "-"%char name ->
  let avg := name ++ lit "-savg" in total_field_energy (Some ds) = Some x -> dump_energy h = Some extra ->
  total_field_energy (Some (ds ++ [(avg, (true, [(avg ++ lit "-000000.h5", (true, h))]))])) = Some (x + extra).
Proof.
  intros ds name extra h x (c & r & Hc & E & _ & _) Nd avg T D. unfold total_field_energy in *. rewrite fold_left_app, T. cbn [fold_left].
  assert (N : name = c) by (destruct E as [E|E]; [exact E|]; exfalso; apply Nd; rewrite E; apply in_or_app; right; now left). subst name avg.
  assert (DE : dir_energy (c ++ lit "-savg", (true, [((c ++ lit "-savg") ++ lit "-000000.h5", (true, h))])) = Some extra).
  { rewrite <- D. unfold components in Hc; cbn [map In] in Hc; decompose [or] Hc; subst; try reflexivity; contradiction. }
  rewrite DE. reflexivity.
Qed.
Print Assumptions C106_double_refuted.

(** final_iter: the greatest iteration number in a name, first below MS/FLD and else below MS, and -1 when there is none. *)
Lemma best_iter_spec names : (best_iter names = -1 /\ (forall n i, In n names -> iteration n i -> i < 0) \/ 0 <= best_iter names /\ (exists n, In n names /\ iteration n (best_iter names)) /\ forall n i, In n names -> iteration n i -> i <= best_iter names)%Z.
Proof.
  unfold best_iter. set (f := fun b n => match split_dump n with Some (_, ds) => Z.max b (Z.of_N (digits_to_n ds)) | None => b end).
  induction names as [|n names IH] using rev_ind; [left; split; [reflexivity|intros n i []]|]. rewrite fold_left_app. cbn [fold_left]. set (b := fold_left f names (-1)%Z) in *.
  assert (IT : forall i, iteration n i <-> i = match split_dump n with Some (_, ds) => Z.of_N (digits_to_n ds) | None => (-1)%Z end) by (intros i; rewrite iteration_iff; unfold iter_from_name; split; congruence).
  unfold f. destruct (split_dump n) as [[p ds]|].
  - right. assert (IH' : forall n' i, In n' names -> iteration n' i -> (i <= Z.max b (Z.of_N (digits_to_n ds)))%Z).
    { intros n' i H1 H2. destruct IH as [[_ IH]|(_ & _ & IH)]; specialize (IH n' i H1 H2); lia. }
    split; [lia|]. split.
    + destruct (Z.max_spec b (Z.of_N (digits_to_n ds))) as [[H ->]|[H ->]]; [exists n; split; [apply in_or_app; right; now left|now apply IT]|].
      destruct IH as [[IH _]|(IH0 & (n' & H1 & H2) & _)]; [lia|]. exists n'. split; [apply in_or_app; now left|exact H2].
    + intros n' i H1 H2. apply in_app_or in H1. destruct H1 as [H1|[<-|[]]]; [eapply IH'; eauto|]. apply IT in H2. lia.
  - destruct IH as [[IH1 IH2]|(IH1 & (n' & H1 & H2) & IH2)].
    + left. split; [exact IH1|]. intros n' i H1 H2. apply in_app_or in H1. destruct H1 as [H1|[<-|[]]]; [eapply IH2; eauto|]. apply IT in H2. lia.
    + right. split; [exact IH1|]. split; [exists n'; split; [apply in_or_app; now left|exact H2]|]. intros m i H3 H4. apply in_app_or in H3. destruct H3 as [H3|[<-|[]]]; [eapply IH2; eauto|]. apply IT in H4. lia.
Qed.
Theorem C106_final_iter : forall fld ms,
  (forall n i, In n fld -> iteration n i -> (0 <= i)%Z -> (i <= final_iter (Some fld) ms)%Z) /\
  ((0 <= final_iter (Some fld) ms)%Z -> (exists n, In n fld /\ iteration n (final_iter (Some fld) ms)) \/ (exists l n, ms = Some l /\ In n l /\ iteration n (final_iter (Some fld) ms))) /\
  (final_iter None ms = (-1)%Z <-> forall l n i, ms = Some l -> In n l -> iteration n i -> (i < 0)%Z).
Proof.
  intros fld ms. unfold final_iter. change (0 <=? -1)%Z with false. cbv iota. pose proof (best_iter_spec fld) as B. split; [|split].
  - intros n i H1 H2 H3. destruct B as [[_ B]|(B1 & _ & B)]; [specialize (B n i H1 H2); lia|]. destruct (Z.leb_spec 0 (best_iter fld)); [|lia]. eapply B; eauto.
  - destruct (Z.leb_spec 0 (best_iter fld)) as [L|L]; intros H.
    + left. destruct B as [[B _]|(_ & B & _)]; [lia|exact B].
    + right. destruct ms as [l|]; [|lia]. destruct (best_iter_spec l) as [[C _]|(_ & (n & C1 & C2) & _)]; [lia|]. exists l, n. auto.
  - destruct ms as [l|]; [|split; [intros _ l n i E; discriminate E|reflexivity]]. destruct (best_iter_spec l) as [[C1 C2]|(C0 & (n & C1 & C2) & _)].
    + split; [intros _ l' n i E; injection E as <-; apply C2|intros _; exact C1].
    + split; [intros; lia|]. intros H. specialize (H l n _ eq_refl C1 C2). lia.
Qed.
Print Assumptions C106_final_iter.
