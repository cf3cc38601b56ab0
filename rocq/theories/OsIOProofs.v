From Verif Require Import OsIO OsIOSpec StreamProofs2.
From Coq Require Import Permutation Sorted.

(** ** Names *)
Lemma is_prefix_app : forall p s, is_prefix p s = true <-> exists b, s = p ++ b.
Proof.
  induction p as [|x p IH]; intros s; cbn; [split; [eauto|reflexivity]|].
  destruct s as [|y s]; [split; [discriminate|intros [b H]; discriminate]|].
  rewrite andb_true_iff, IH. split.
  - intros [H [b ->]]. apply Ascii.eqb_eq in H. subst. now exists b.
  - intros [b H]. injection H as -> ->. split; [apply Ascii.eqb_refl|eauto].
Qed.
Lemma ends_with_app p s : ends_with p s = true <-> exists a, s = a ++ p.
Proof.
  unfold ends_with. rewrite is_prefix_app. split; intros [b H].
  - exists (rev b). rewrite <- (rev_involutive s), H, rev_app_distr, rev_involutive. reflexivity.
  - exists (rev b). rewrite H, rev_app_distr. reflexivity.
Qed.
Lemma span_spec f : forall s a b, span f s = (a, b) ->
  s = a ++ b /\ forallb f a = true /\ match b with c :: _ => f c = false | [] => True end.
Proof.
  induction s as [|c s IH]; intros a b H; cbn in H; [injection H as <- <-; repeat split|].
  destruct (f c) eqn:E.
  - destruct (span f s) as [a' b'] eqn:Es. injection H as <- <-. destruct (IH _ _ eq_refl) as (-> & H2 & H3).
    split; [reflexivity|]. cbn. now rewrite E.
  - injection H as <- <-. repeat split. exact E.
Qed.
Lemma span_app f a c r : forallb f a = true -> f c = false -> span f (a ++ c :: r) = (a, c :: r).
Proof.
  induction a as [|x a IH]; cbn; intros Ha Hc; [now rewrite Hc|]. apply andb_prop in Ha. destruct Ha as [-> Ha]. now rewrite IH.
Qed.
Lemma forallb_rev {A} (f : A -> bool) l : forallb f (rev l) = forallb f l.
Proof. induction l as [|x l IH]; [reflexivity|]. cbn. rewrite forallb_app, IH. cbn. rewrite andb_true_r. apply andb_comm. Qed.

Lemma split_dump_shape n b ds : split_dump n = Some (b, ds) <->
  n = b ++ "-"%char :: ds ++ lit ".h5" /\ ds <> [] /\ forallb is_digit ds = true.
Proof.
  unfold split_dump. split.
  - destruct (ends_with (lit ".h5") n) eqn:E; [|discriminate]. apply ends_with_app in E. destruct E as [a ->].
    rewrite rev_app_distr. cbn [rev lit list_ascii_of_string app skipn].
    destruct (span is_digit (rev a)) as [d r] eqn:Es. apply span_spec in Es. destruct Es as (Ea & Hd & _).
    destruct d as [|x d]; [discriminate|]. destruct r as [|c r]; [discriminate|]. destruct (aeqb c "-") eqn:Ec; [|discriminate].
    intros [= <- <-]. apply Ascii.eqb_eq in Ec. subst c.
    split; [|split; [intros H; cbn [rev] in H; apply app_eq_nil in H; destruct H; discriminate|change (forallb is_digit (rev (x :: d)) = true); now rewrite forallb_rev]].
    rewrite <- (rev_involutive a), Ea, rev_app_distr. cbn [rev]. rewrite <- !app_assoc. reflexivity.
  - intros (-> & Hne & Hd).
    assert (E : ends_with (lit ".h5") (b ++ "-"%char :: ds ++ lit ".h5") = true).
    { apply ends_with_app. exists (b ++ "-"%char :: ds). rewrite <- app_assoc. reflexivity. }
    rewrite E. rewrite rev_app_distr. cbn [rev]. rewrite rev_app_distr. cbn [rev lit list_ascii_of_string app skipn].
    rewrite <- app_assoc. cbn [app]. rewrite span_app; [|now rewrite forallb_rev|reflexivity].
    destruct (rev ds) as [|x r] eqn:Er.
    { exfalso. apply Hne. rewrite <- (rev_involutive ds), Er. reflexivity. }
    assert (E2 : rev (x :: r) = ds) by (rewrite <- Er; apply rev_involutive).
    cbn [aeqb Ascii.eqb Bool.eqb]. rewrite rev_involutive, E2. reflexivity.
Qed.

(** ** Series *)
Lemma group_inv : forall names g, NoDup (dkeys g) -> (forall b ns, In (b, ns) g -> ns <> []) ->
  let g' := fold_left add_dump names g in
  NoDup (dkeys g') /\ (forall b ns, In (b, ns) g' -> ns <> []) /\
  forall b, (match dget b g' with Some ns => ns | None => [] end)
          = (match dget b g with Some ns => ns | None => [] end) ++ filter (fun n => str_eqb (dump_base n) b) names.
Proof.
  induction names as [|n names IH]; intros g Hn Hne g'.
  - split; [exact Hn|]. split; [exact Hne|]. intros b. cbn. now rewrite app_nil_r.
  - cbn [fold_left] in g'. assert (Hn' : NoDup (dkeys (add_dump g n))) by (apply NoDup_dkeys_dset; exact Hn).
    assert (Hne' : forall b ns, In (b, ns) (add_dump g n) -> ns <> []).
    { intros b ns Hin. apply (In_dget _ _ _ Hn') in Hin. unfold add_dump in Hin. destruct (str_eq_dec b (dump_base n)) as [->|Hb].
      - rewrite dget_dset_same in Hin. injection Hin as <-. intros H. apply app_eq_nil in H. destruct H; discriminate.
      - rewrite dget_dset_other in Hin by exact Hb. eapply Hne. apply dget_In. exact Hin. }
    destruct (IH _ Hn' Hne') as (I1 & I2 & I3). split; [exact I1|]. split; [exact I2|]. intros b. unfold g'. rewrite I3.
    unfold add_dump. cbn [filter]. destruct (str_eqb_spec (dump_base n) b) as [<-|Hb].
    + rewrite dget_dset_same, <- app_assoc. reflexivity.
    + rewrite dget_dset_other by congruence. reflexivity.
Qed.

Lemma dget_map {A B} (f : A -> B) k (d : dict A) : dget k (map (fun e => (fst e, f (snd e))) d) = option_map f (dget k d).
Proof. induction d as [|[k' v] d IH]; cbn; [reflexivity|]. destruct (str_eqb k k'); [reflexivity|exact IH]. Qed.

Definition sorted_by_iter (ns : list str) : Prop := StronglySorted (fun a b => (iter_from_name a <= iter_from_name b)%Z) ns.

Lemma series_spec l :
  let g := series_dumps l in
  NoDup (dkeys g) /\
  (forall b ns, In (b, ns) g -> ns <> [] /\ sorted_by_iter ns /\ Permutation ns (filter (fun n => str_eqb (dump_base n) b) (dump_names l))) /\
  (forall n, In n (dump_names l) -> exists ns, In (dump_base n, ns) g /\ In n ns).
Proof.
  cbv zeta. unfold series_dumps. set (names := dump_names l).
  destruct (group_inv names [] ltac:(constructor) ltac:(intros b ns [])) as (I1 & I2 & I3). cbn [dget app] in I3.
  set (g := fold_left add_dump names []) in *.
  assert (Hk : dkeys (map (fun e : str * list str => (fst e, sort_by iter_from_name (snd e))) g) = dkeys g).
  { unfold dkeys. rewrite map_map. reflexivity. }
  split; [now rewrite Hk|].
  assert (Hg : forall b ns, In (b, ns) g -> Permutation ns (filter (fun n => str_eqb (dump_base n) b) names)).
  { intros b ns Hin. specialize (I3 b). rewrite (In_dget _ _ _ I1 Hin) in I3. now rewrite <- I3. }
  split.
  - intros b ns Hin. apply in_map_iff in Hin. destruct Hin as ([b' ns'] & E & Hin). cbn [fst snd] in E. injection E as <- <-.
    assert (P : Permutation ns' (sort_by iter_from_name ns')) by apply sort_by_perm.
    split; [|split; [apply sort_by_sorted|]].
    + intros H. rewrite H in P. apply Permutation_sym, Permutation_nil in P. now apply (I2 _ _ Hin).
    + eapply perm_trans; [apply Permutation_sym; exact P|]. now apply Hg.
  - intros n Hn. specialize (I3 (dump_base n)).
    assert (Hf : In n (filter (fun m => str_eqb (dump_base m) (dump_base n)) names)) by (apply filter_In; split; [exact Hn|apply str_eqb_refl]).
    rewrite <- I3 in Hf. destruct (dget (dump_base n) g) as [ns|] eqn:E; [|destruct Hf]. apply dget_In in E.
    exists (sort_by iter_from_name ns). split.
    + apply in_map_iff. exists (dump_base n, ns). split; [reflexivity|exact E].
    + eapply Permutation_in; [apply sort_by_perm|exact Hf].
Qed.

Lemma dump_names_in l n : In n (dump_names l) <-> In (n, true) l /\ exists a, a <> [] /\ n = a ++ lit ".h5".
Proof.
  unfold dump_names. rewrite in_map_iff. split.
  - intros ([m f] & <- & Hin). apply filter_In in Hin. destruct Hin as [Hin H]. cbn [fst snd] in *. apply andb_prop in H. destruct H as [-> H].
    split; [exact Hin|]. unfold h5_suffix in H. apply andb_prop in H. destruct H as [H1 H2]. apply ends_with_app in H1. destruct H1 as [a ->].
    exists a. split; [|reflexivity]. intros ->. discriminate.
  - intros (Hin & a & Ha & ->). exists (a ++ lit ".h5", true). split; [reflexivity|]. apply filter_In. split; [exact Hin|]. cbn [fst snd andb].
    unfold h5_suffix. apply andb_true_intro. split; [apply ends_with_app; eauto|]. rewrite app_length. apply Nat.ltb_lt. destruct a; [congruence|]. cbn [List.length lit list_ascii_of_string]. lia.
Qed.

(** ** Selection *)
Lemma normalize_ok ts n : Forall (fun i => (- n <= i < n)%Z) ts -> normalize_loop ts n = IOk (map (fun i => (i mod n)%Z) ts).
Proof.
  induction 1 as [|i ts Hi Hts IH]; [reflexivity|]. cbn [normalize_loop map].
  assert (E : (if (i <? 0)%Z then (i + n)%Z else i) = (i mod n)%Z).
  { destruct (Z.ltb_spec i 0).
    - rewrite <- (Z.mod_add i 1 n) by lia. rewrite Z.mul_1_l. symmetry. apply Z.mod_small. lia.
    - symmetry. apply Z.mod_small. lia. }
  rewrite E. pose proof (Z.mod_pos_bound i n ltac:(lia)).
  destruct (Z.leb_spec 0 (i mod n)); [|lia]. destruct (Z.ltb_spec (i mod n) n); [|lia]. cbn [andb]. now rewrite IH.
Qed.
Lemma normalize_bad ts n : Exists (fun i => (i < - n \/ n <= i)%Z) ts -> normalize_loop ts n = IErr IndexError.
Proof.
  induction 1 as [i ts Hi|i ts Hts IH]; cbn [normalize_loop].
  - destruct (Z.ltb_spec i 0).
    + destruct (Z.leb_spec 0 (i + n)); destruct (Z.ltb_spec (i + n) n); cbn [andb]; try reflexivity. lia.
    + destruct (Z.leb_spec 0 i); destruct (Z.ltb_spec i n); cbn [andb]; try reflexivity. lia.
  - rewrite IH. destruct (_ && _); reflexivity.
Qed.
Lemma range_dec ts n : Forall (fun i => (- n <= i < n)%Z) ts \/ Exists (fun i => (i < - n \/ n <= i)%Z) ts.
Proof.
  induction ts as [|i ts [IH|IH]]; [left; constructor| |right; now apply Exists_cons_tl].
  assert ((- n <= i < n)%Z \/ (i < - n \/ n <= i)%Z) as [H|H] by lia; [left; now constructor|right; now apply Exists_cons_hd].
Qed.

(** ** RAW *)
Lemma subseq_refl {A} (l : list A) : subseq l l.
Proof. induction l; constructor; assumption. Qed.
Lemma subseq_filter {A} (f : A -> bool) l : subseq (filter f l) l.
Proof. induction l as [|x l IH]; cbn; [constructor|]. destruct (f x); constructor; exact IH. Qed.

(** ** The specification vocabulary *)
Lemma numbered_split n b ds : numbered n b ds <-> split_dump n = Some (b, ds).
Proof. symmetry. apply split_dump_shape. Qed.
Lemma in_base_iff n b : in_base n b <-> dump_base n = b.
Proof.
  unfold in_base, dump_base. split.
  - intros [[ds H]|[H ->]].
    + apply numbered_split in H. now rewrite H.
    + destruct (split_dump n) as [[b' ds]|] eqn:E; [|reflexivity]. exfalso. eapply H. apply numbered_split. exact E.
  - destruct (split_dump n) as [[b' ds]|] eqn:E.
    + intros <-. left. exists ds. now apply numbered_split.
    + intros <-. right. split; [|reflexivity]. intros b ds H. apply numbered_split in H. congruence.
Qed.
Lemma iteration_iff n i : iteration n i <-> iter_from_name n = i.
Proof.
  unfold iteration, iter_from_name. split.
  - intros [(b & ds & H & ->)|[H ->]].
    + apply numbered_split in H. now rewrite H.
    + destruct (split_dump n) as [[b' ds]|] eqn:E; [|reflexivity]. exfalso. eapply H. apply numbered_split. exact E.
  - destruct (split_dump n) as [[b' ds]|] eqn:E.
    + intros <-. left. exists b', ds. split; [now apply numbered_split|reflexivity].
    + intros <-. right. split; [|reflexivity]. intros b ds H. apply numbered_split in H. congruence.
Qed.
Lemma h5_file_iff l n : h5_file l n <-> In n (dump_names l).
Proof. unfold h5_file, is_h5. symmetry. apply dump_names_in. Qed.
Lemma sorted_by_iteration ns : sorted_by_iter ns -> by_iteration ns.
Proof.
  unfold sorted_by_iter, by_iteration. induction 1 as [|a l Hl IH Ha]; constructor; [exact IH|].
  eapply Forall_impl; [|exact Ha]. intros b H i j Hi Hj. apply iteration_iff in Hi, Hj. now subst.
Qed.
Lemma NoDup_dump_names l : NoDup (map fst l) -> NoDup (dump_names l).
Proof.
  unfold dump_names. induction l as [|e l IH]; cbn [map filter]; intros H; [constructor|].
  apply NoDup_cons_iff in H. destruct H as [H1 H2]. destruct (snd e && h5_suffix (fst e)); [|now apply IH].
  cbn [map]. constructor; [|now apply IH]. intros Hin. apply H1. apply in_map_iff in Hin. destruct Hin as (x & <- & Hx).
  apply filter_In in Hx. apply in_map. apply Hx.
Qed.
Lemma NoDup_filter_ {A} (f : A -> bool) l : NoDup l -> NoDup (filter f l).
Proof.
  induction 1 as [|x l Hx Hl IH]; cbn; [constructor|]. destruct (f x); [|exact IH]. constructor; [|exact IH].
  intros H. apply filter_In in H. tauto.
Qed.

Lemma series_in l b ns : NoDup (map fst l) -> In (b, ns) (series_dumps l) -> series l b ns.
Proof.
  intros Hd Hin. destruct (series_spec l) as (I1 & I2 & I3). destruct (I2 _ _ Hin) as (Hne & Hs & Hp).
  split; [exact Hne|]. split; [now apply sorted_by_iteration|]. split.
  - eapply Permutation_NoDup; [apply Permutation_sym; exact Hp|]. apply NoDup_filter_, NoDup_dump_names, Hd.
  - intros n. rewrite h5_file_iff, in_base_iff. split; intros H.
    + apply (Permutation_in _ Hp) in H. apply filter_In in H. destruct H as [H1 H2]. split; [exact H1|]. now apply str_eqb_eq.
    + apply (Permutation_in _ (Permutation_sym Hp)). apply filter_In. destruct H as [H1 <-]. split; [exact H1|apply str_eqb_refl].
Qed.

(** ** Listing *)
Definition entries (d : str * listing) : list (str * handle) :=
  match series_dumps (snd d) with
  | [] => []
  | [_] => [(fst d, HDir (fst d))]
  | g => map (fun e => (synth (fst d) (fst e), HSeries (fst d) (fst e))) g
  end.
Definition dset_all {V} (es : list (str * V)) (o : dict V) : dict V := fold_left (fun o e => dset (fst e) (snd e) o) es o.

Lemma add_dir_entries out d : add_dir out d = dset_all (entries d) out.
Proof.
  destruct d as [rel l]. unfold add_dir, entries, dset_all. cbn [fst snd]. destruct (series_dumps l) as [|e1 [|e2 g]]; [reflexivity|reflexivity|].
  generalize (e1 :: e2 :: g). intros g'. revert out. induction g' as [|e g' IH]; intros out; [reflexivity|]. cbn [fold_left map fst snd]. apply IH.
Qed.
Lemma add_dirs_entries ms : forall out, fold_left add_dir ms out = dset_all (flat_map entries ms) out.
Proof.
  induction ms as [|d ms IH]; intros out; [reflexivity|]. cbn [fold_left flat_map]. rewrite IH, add_dir_entries. unfold dset_all. now rewrite fold_left_app.
Qed.
Lemma dset_all_new {V} : forall (es : list (str * V)) o, NoDup (map fst es) -> (forall k, In k (map fst es) -> ~ In k (dkeys o)) -> dset_all es o = o ++ es.
Proof.
  induction es as [|[k v] es IH]; intros o Hn Hk; cbn [dset_all fold_left]; [now rewrite app_nil_r|].
  cbn [map fst] in Hn. apply NoDup_cons_iff in Hn. destruct Hn as [Hn1 Hn2]. cbn [fst snd].
  rewrite dset_new by (apply Hk; now left). change (dset_all es (o ++ [(k, v)]) = o ++ (k, v) :: es).
  rewrite IH; [now rewrite <- app_assoc|exact Hn2|]. intros k' Hk'. unfold dkeys. rewrite map_app. intros H. apply in_app_iff in H. destruct H as [H|[H|[]]].
  - eapply Hk; [right; exact Hk'|exact H].
  - cbn in H. subst. now apply Hn1.
Qed.
Lemma app_sep_inj {A} (x : A) : forall a a' b b', ~ In x b -> ~ In x b' -> a ++ x :: b = a' ++ x :: b' -> a = a' /\ b = b'.
Proof.
  induction a as [|y a IH]; intros [|y' a'] b b' Hb Hb' H; cbn in H.
  - injection H as ->. now split.
  - exfalso. injection H as -> ->. apply Hb. apply in_app_iff. right. now left.
  - exfalso. injection H as -> <-. apply Hb'. apply in_app_iff. right. now left.
  - injection H as -> H. destruct (IH _ _ _ Hb Hb' H) as [-> ->]. now split.
Qed.
Lemma base_chars n c : In c (dump_base n) -> In c n.
Proof.
  unfold dump_base. destruct (split_dump n) as [[b ds]|] eqn:E; [|easy]. apply split_dump_shape in E. destruct E as [-> _]. intros H. apply in_app_iff. now left.
Qed.

Lemma entries_in d k h : In (k, h) (entries d) ->
  (k = fst d /\ h = HDir (fst d) /\ exists b ns, series_dumps (snd d) = [(b, ns)]) \/
  (exists b ns, k = synth (fst d) b /\ h = HSeries (fst d) b /\ In (b, ns) (series_dumps (snd d)) /\
     exists c ns', In (c, ns') (series_dumps (snd d)) /\ c <> b).
Proof.
  unfold entries. destruct (series_spec (snd d)) as (I1 & _ & _). revert I1. destruct (series_dumps (snd d)) as [|[b1 n1] [|[b2 n2] g]]; intros I1 H.
  - destruct H.
  - destruct H as [H|[]]. injection H as <- <-. left. eauto.
  - right. apply in_map_iff in H. destruct H as ([b ns] & H & Hin). cbn [fst] in H. injection H as <- <-. exists b, ns.
    repeat (split; [reflexivity|]). split; [exact Hin|]. cbn [dkeys map fst] in I1.
    assert (b1 <> b2). { intros ->. apply NoDup_cons_iff in I1. destruct I1 as [I1 _]. apply I1. now left. }
    destruct (str_eq_dec b1 b) as [->|]; [exists b2, n2; split; [right; now left|congruence]|exists b1, n1; split; [now left|assumption]].
Qed.

Lemma NoDup_app_intro {A} (a b : list A) : NoDup a -> NoDup b -> (forall x, In x a -> ~ In x b) -> NoDup (a ++ b).
Proof.
  induction 1 as [|x a Hx Ha IH]; intros Hb Hd; [exact Hb|]. cbn. constructor.
  - intros H. apply in_app_iff in H. destruct H as [H|H]; [tauto|]. apply (Hd x); [now left|exact H].
  - apply IH; [exact Hb|]. intros y Hy. apply Hd. now right.
Qed.
Section Listing.
Variable ms : list (str * listing).
Hypothesis Hok : tree_ok ms.
Hypothesis Hclash : no_series_clash ms.

Lemma series_member rel l b ns : In (rel, l) ms -> In (b, ns) (series_dumps l) -> exists n, h5_file l n /\ in_base n b /\ ~ In "/"%char b.
Proof.
  intros Hin Hs. destruct Hok as [_ Hl]. destruct (Hl _ _ Hin) as [Hd Hsl]. destruct (series_in _ _ _ Hd Hs) as (Hne & _ & _ & Hm).
  destruct ns as [|n ns]; [congruence|]. exists n. destruct (proj1 (Hm n) (or_introl eq_refl)) as [H1 H2]. split; [exact H1|]. split; [exact H2|].
  apply in_base_iff in H2. subst b. intros H. apply base_chars in H. destruct H1 as [H1 _]. exact (Hsl _ H1 H).
Qed.
Lemma clash_of rel l b ns c ns' : In (rel, l) ms -> In (b, ns) (series_dumps l) -> In (c, ns') (series_dumps l) -> c <> b ->
  ~ In (synth rel b) (map fst ms) /\ ~ In b [[]; lit "."; lit ".."].
Proof.
  intros Hin Hb Hc Hne. destruct (series_member _ _ _ _ Hin Hb) as (n & Hn & Hnb & _). destruct (series_member _ _ _ _ Hin Hc) as (m & Hm & Hmc & _).
  eapply (Hclash rel l n m b c); eauto.
Qed.

Lemma entries_NoDup rel l : In (rel, l) ms -> NoDup (map fst (entries (rel, l))).
Proof.
  intros Hin. unfold entries. cbn [fst snd]. destruct (series_spec l) as (I1 & _ & _). revert I1.
  pose proof (series_member rel l) as Hmem. destruct (series_dumps l) as [|e1 [|e2 g]]; intros I1.
  - constructor.
  - cbn. constructor; [easy|constructor].
  - assert (Hs : forall b ns, In (b, ns) (e1 :: e2 :: g) -> ~ In "/"%char b).
    { intros b ns H. destruct (Hmem _ _ Hin H) as (_ & _ & _ & H'). exact H'. }
    clear Hmem. revert I1 Hs. generalize (e1 :: e2 :: g). intros g'. induction g' as [|[b ns] g' IH]; intros I1 Hs; [constructor|].
    cbn [map fst] in *. apply NoDup_cons_iff in I1. destruct I1 as [I1 I2]. constructor; [|apply IH; [exact I2|intros b' ns' H'; eapply Hs; right; exact H']].
    intros H. apply I1. rewrite map_map in H. cbn [fst] in H. apply in_map_iff in H. destruct H as ([b' ns'] & H & H'). cbn [fst] in H. unfold synth in H.
    apply app_sep_inj in H; [|eapply Hs; right; exact H'|eapply Hs; left; reflexivity]. destruct H as [_ ->]. exact (in_map fst _ _ H').
Qed.

Lemma all_NoDup : forall ms', incl ms' ms -> NoDup (map fst ms') -> NoDup (map fst (flat_map entries ms')).
Proof.
  induction ms' as [|[rel l] ms' IH]; intros Hi Hn; [constructor|]. cbn [flat_map map fst] in *. rewrite map_app.
  apply NoDup_cons_iff in Hn. destruct Hn as [Hn1 Hn2].
  assert (Hin : In (rel, l) ms) by (apply Hi; now left). assert (Hi' : incl ms' ms) by (intros x Hx; apply Hi; now right).
  apply NoDup_app_intro; [now apply entries_NoDup|now apply IH|].
  intros k H1 H2. apply in_map_iff in H1, H2. destruct H1 as ([k1 h1] & E1 & H1). destruct H2 as ([k2 h2] & E2 & H2). cbn [fst] in E1, E2. subst k1 k2.
  apply in_flat_map in H2. destruct H2 as ([rel' l'] & Hin' & H2). assert (Hin2 := Hi' _ Hin').
  assert (Hrel : rel <> rel'). { intros ->. apply Hn1. change rel' with (fst (rel', l')). now apply in_map. }
  apply entries_in in H1, H2. cbn [fst snd] in *.
  destruct H1 as [(K1 & _ & _)|(b & ns & K1 & _ & B1 & c & ns' & C1 & D1)], H2 as [(K2 & _ & _)|(b2 & ns2 & K2 & _ & B2 & c2 & ns2' & C2 & D2)].
  - congruence.
  - destruct (clash_of _ _ _ _ _ _ Hin2 B2 C2 D2) as [H _]. apply H. rewrite <- K2, K1. change rel with (fst (rel, l)). now apply in_map.
  - destruct (clash_of _ _ _ _ _ _ Hin B1 C1 D1) as [H _]. apply H. rewrite <- K1, K2. change rel' with (fst (rel', l')). now apply in_map.
  - rewrite K1 in K2. unfold synth in K2. destruct (series_member _ _ _ _ Hin B1) as (_ & _ & _ & S1). destruct (series_member _ _ _ _ Hin2 B2) as (_ & _ & _ & S2).
    apply app_sep_inj in K2; [|exact S1|exact S2]. tauto.
Qed.

Lemma ms_listing : fold_left add_dir ms [] = flat_map entries ms.
Proof.
  rewrite add_dirs_entries, dset_all_new; [reflexivity| |easy]. apply all_NoDup; [apply incl_refl|apply Hok].
Qed.

Lemma resolve k h : In (k, h) (flat_map entries ms) ->
  exists rel l b ns, In (rel, l) ms /\ In (b, ns) (series_dumps l) /\ handle_dumps ms h = Some (rel, ns) /\
    (k = rel \/ k = synth rel b) /\ In (k, h) (entries (rel, l)).
Proof.
  intros H. apply in_flat_map in H. destruct H as ([rel l] & Hin & H). pose proof H as H0. apply entries_in in H. cbn [fst snd] in H.
  assert (Hget : dir_listing ms rel = Some l). { apply In_dget; [apply Hok|exact Hin]. }
  destruct H as [(-> & -> & b & ns & E)|(b & ns & -> & -> & B & c & ns' & C & D)].
  - exists rel, l, b, ns. split; [exact Hin|]. split; [rewrite E; now left|]. split; [|split; [now left|exact H0]].
    unfold handle_dumps, dir_dumps. rewrite Hget. unfold sort_dumps. now rewrite E.
  - exists rel, l, b, ns. split; [exact Hin|]. split; [exact B|]. split; [|split; [now right|exact H0]].
    destruct (clash_of _ _ _ _ _ _ Hin B C D) as [K1 K2]. unfold handle_dumps.
    destruct (str_eqb_spec b []) as [->|N1]; [exfalso; apply K2; now left|]. destruct (str_eqb_spec b (lit ".")) as [->|N2]; [exfalso; apply K2; right; now left|].
    destruct (str_eqb_spec b (lit "..")) as [->|N3]; [exfalso; apply K2; right; right; now left|]. cbn [orb].
    assert (Hs : dir_listing ms (synth rel b) = None) by (apply dget_None; exact K1). rewrite Hs. unfold dir_dumps. rewrite Hget. unfold sort_dumps.
    destruct (series_spec l) as (I1 & _ & _). rewrite (In_dget _ _ _ I1 B). reflexivity.
Qed.

Lemma entries_complete rel l b ns : In (rel, l) ms -> In (b, ns) (series_dumps l) -> exists k h, In (k, h) (flat_map entries ms) /\
  handle_dumps ms h = Some (rel, ns).
Proof.
  intros Hin Hs.
  assert (E : exists k h, In (k, h) (entries (rel, l)) /\ (k = rel -> exists x, series_dumps l = [x]) /\ (k = rel \/ h = HSeries rel b)).
  { unfold entries. cbn [fst snd]. destruct (series_dumps l) as [|e1 [|e2 g]]; [destruct Hs| |].
    - exists rel, (HDir rel). split; [now left|]. split; [intros _; eauto|now left].
    - exists (synth rel b), (HSeries rel b). split; [apply in_map_iff; exists (b, ns); split; [reflexivity|exact Hs]|]. split; [|now right].
      intros H. exfalso. unfold synth in H. apply (f_equal (@List.length ascii)) in H. rewrite app_length in H. cbn in H. lia. }
  destruct E as (k & h & He & Hk & Hh).
  assert (Hf : In (k, h) (flat_map entries ms)) by (apply in_flat_map; exists (rel, l); now split).
  destruct (resolve _ _ Hf) as (rel' & l' & b' & ns' & R1 & R2 & R3 & R4 & R5).
  exists k, h. split; [exact Hf|]. rewrite R3.
  assert (Hrr : rel' = rel /\ ns' = ns); [|destruct Hrr as [-> ->]; reflexivity].
  destruct Hh as [->| ->].
  - destruct (Hk eq_refl) as [x Ex]. pose proof He as He'. unfold entries in He'. cbn [fst snd] in He'. rewrite Ex in He'. destruct He' as [He'|[]]. injection He' as <-.
    unfold handle_dumps, dir_dumps in R3. assert (Hget : dir_listing ms rel = Some l) by (apply In_dget; [apply Hok|exact Hin]). rewrite Hget in R3. unfold sort_dumps in R3. rewrite Ex in R3.
    rewrite Ex in Hs. destruct Hs as [->|[]]. injection R3 as <- <-. now split.
  - apply entries_in in R5. cbn [fst snd] in R5. destruct R5 as [(_ & H & _)|(b2 & ns2 & _ & H & B2 & c & ns3 & C & D)]; [discriminate|]. injection H as <- <-.
    assert (Hl : l' = l). { assert (E1 := In_dget _ _ _ (proj1 Hok) Hin). assert (E2 := In_dget _ _ _ (proj1 Hok) R1). congruence. } subst l'.
    split; [reflexivity|]. destruct (clash_of _ _ _ _ _ _ Hin B2 C D) as [K1 K2]. unfold handle_dumps in R3.
    destruct (str_eqb_spec b []) as [->|N1]; [exfalso; apply K2; now left|]. destruct (str_eqb_spec b (lit ".")) as [->|N2]; [exfalso; apply K2; right; now left|].
    destruct (str_eqb_spec b (lit "..")) as [->|N3]; [exfalso; apply K2; right; right; now left|]. cbn [orb] in R3.
    assert (Hs' : dir_listing ms (synth rel b) = None) by (apply dget_None; exact K1). rewrite Hs' in R3. unfold dir_dumps in R3.
    assert (Hget : dir_listing ms rel = Some l) by (apply In_dget; [apply Hok|exact Hin]). rewrite Hget in R3. unfold sort_dumps in R3.
    destruct (series_spec l) as (I1 & _ & _). rewrite (In_dget _ _ _ I1 Hs) in R3. congruence.
Qed.
End Listing.

Lemma setdefault_dget {V} (out : dict V) k k' v : dget k (setdefault out k' v) =
  match dget k out with Some h => Some h | None => if str_eqb k k' then Some v else None end.
Proof.
  unfold setdefault, dmem. destruct (dget k' out) as [w|] eqn:E.
  - destruct (dget k out) eqn:E2; [reflexivity|]. destruct (str_eqb_spec k k') as [->|]; [congruence|reflexivity].
  - rewrite <- dset_new by (now apply dget_None). destruct (str_eqb_spec k k') as [->|H].
    + rewrite dget_dset_same, E. reflexivity.
    + rewrite dget_dset_other by exact H. now destruct (dget k out).
Qed.
Lemma merge_ncs k : forall ncs out, dget k (fold_left (fun o r => setdefault o r (HNc r)) ncs out) =
  match dget k out with Some h => Some h | None => if existsb (str_eqb k) ncs then Some (HNc k) else None end.
Proof.
  induction ncs as [|r ncs IH]; intros out; cbn [fold_left existsb]; [now destruct (dget k out)|].
  rewrite IH, setdefault_dget. destruct (dget k out); [reflexivity|]. destruct (str_eqb_spec k r) as [->|]; reflexivity.
Qed.
