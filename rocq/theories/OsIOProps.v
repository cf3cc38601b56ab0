(** Properties C21-C23 and C45-C47 (reading OSIRIS output). Vocabulary: OsIOSpec.v. *)
From Verif Require Import OsIO OsIOSpec OsIOProofs.
From Coq Require Import Sorted.

(* ------------------------------------------------------------------------------------------------ *)
(** C21: the series of a directory: distinct names; each is exactly its .h5 files in iteration order; and
    every .h5 file is in the series of its base name (hence in exactly one). *)
Theorem C21_series_partition : forall l, NoDup (map fst l) ->
  NoDup (map fst (series_dumps l)) /\
  (forall b ns, In (b, ns) (series_dumps l) -> series l b ns) /\
  (forall n, h5_file l n -> exists b ns, In (b, ns) (series_dumps l) /\ in_base n b /\ In n ns /\
     forall b' ns', In (b', ns') (series_dumps l) -> In n ns' -> b' = b /\ ns' = ns).
Proof.
  intros l Hd. destruct (series_spec l) as (I1 & I2 & I3). split; [exact I1|]. split; [intros b ns; now apply series_in|].
  intros n Hn. apply h5_file_iff in Hn. destruct (I3 n Hn) as (ns & H1 & H2). exists (dump_base n), ns. split; [exact H1|].
  split; [now apply in_base_iff|]. split; [exact H2|]. intros b' ns' H' Hin.
  destruct (series_in _ _ _ Hd H') as (_ & _ & _ & Hm). apply Hm in Hin. destruct Hin as [_ Hb]. apply in_base_iff in Hb. subst b'.
  split; [reflexivity|]. assert (E1 := PyStr.In_dget _ _ _ I1 H1). assert (E2 := PyStr.In_dget _ _ _ I1 H'). congruence.
Qed.
Print Assumptions C21_series_partition.

(** Loading a bare directory: its only series; refused when there are several; by base: that series. *)
Theorem C21_sort_dumps : forall l b, NoDup (map fst l) ->
  (sort_dumps l (Some b) = Some [] /\ (forall n, h5_file l n -> ~ in_base n b) \/
   exists ns, sort_dumps l (Some b) = Some ns /\ series l b ns) /\
  (sort_dumps l None = None <-> exists n m, h5_file l n /\ h5_file l m /\ exists c d, in_base n c /\ in_base m d /\ c <> d) /\
  (forall ns, sort_dumps l None = Some ns -> forall n, In n ns <-> h5_file l n).
Proof.
  intros l b Hd. destruct (series_spec l) as (I1 & I2 & I3). unfold sort_dumps. split; [|split].
  - destruct (dget b (series_dumps l)) as [ns|] eqn:E.
    + right. exists ns. split; [reflexivity|]. apply series_in; [exact Hd|]. now apply dget_In.
    + left. split; [reflexivity|]. intros n Hn Hb. apply h5_file_iff in Hn. apply in_base_iff in Hb. destruct (I3 n Hn) as (ns & H1 & _).
      rewrite Hb in H1. apply dget_None in E. apply E. exact (in_map fst _ _ H1).
  - pose proof (series_in l) as Hser. destruct (series_dumps l) as [|[b1 n1] [|[b2 n2] g]].
    + split; [discriminate|]. intros (n & m & Hn & _). apply h5_file_iff in Hn. destruct (I3 n Hn) as (ns & [] & _).
    + split; [discriminate|]. intros (n & m & Hn & Hm & c & d & Hc & Hdd & Hne). apply h5_file_iff in Hn, Hm. apply in_base_iff in Hc, Hdd.
      destruct (I3 n Hn) as (ns & [K1|[]] & _). destruct (I3 m Hm) as (ns' & [K2|[]] & _). congruence.
    + split; [intros _|reflexivity].
      assert (Hg : forall c ns, In (c, ns) ((b1, n1) :: (b2, n2) :: g) -> exists n, h5_file l n /\ in_base n c).
      { intros c ns H. destruct (Hser c ns Hd H) as (Hne & _ & _ & Hm). destruct ns as [|n ns]; [congruence|]. exists n. apply Hm. now left. }
      destruct (Hg b1 n1 (or_introl eq_refl)) as (n & K1 & K2). destruct (Hg b2 n2 (or_intror (or_introl eq_refl))) as (m & K3 & K4).
      exists n, m. split; [exact K1|]. split; [exact K3|]. exists b1, b2. split; [exact K2|]. split; [exact K4|].
      intros ->. cbn [dkeys map fst] in I1. apply NoDup_cons_iff in I1. destruct I1 as [I1 _]. apply I1. now left.
  - pose proof (series_in l) as Hser. destruct (series_dumps l) as [|[b1 n1] [|? ?]]; intros ns H; [| |discriminate]; injection H as <-; intros n.
    + split; [intros []|]. intros Hn. apply h5_file_iff in Hn. destruct (I3 n Hn) as (ns & [] & _).
    + destruct (Hser b1 n1 Hd (or_introl eq_refl)) as (_ & _ & _ & Hm). rewrite Hm. split; [tauto|]. intros Hn. split; [exact Hn|].
      apply h5_file_iff in Hn. destruct (I3 n Hn) as (ns & [K|[]] & _). injection K as -> _. now apply in_base_iff.
Qed.
Print Assumptions C21_sort_dumps.

Definition ex_dir : listing :=
  [(lit "e1-10.h5", true); (lit "e1-9.h5", true); (lit "sub.h5", false); (lit "e1-savg-000001.h5", true); (lit "log.txt", true);
   (lit "e1-000100.h5", true); (lit "weird.h5", true)].
Example C21_nonvacuous : NoDup (map fst ex_dir) /\
  series_dumps ex_dir = [(lit "e1", [lit "e1-9.h5"; lit "e1-10.h5"; lit "e1-000100.h5"]); (lit "e1-savg", [lit "e1-savg-000001.h5"]);
                         (lit "weird.h5", [lit "weird.h5"])].
Proof.
  split; [|vm_compute; reflexivity].
  repeat (apply NoDup_cons_iff; split; [cbn; intros H; repeat (destruct H as [H|H]; [discriminate H|]); destruct H|]). constructor.
Qed.

(* ------------------------------------------------------------------------------------------------ *)
(** C22: the selection of time slices of a non-empty series of length n. *)
Theorem C22_selection_exact : forall A (dumps : list A) ts, dumps <> [] -> ts <> [] ->
  let n := Z.of_nat (List.length dumps) in
  Forall (fun i => (- n <= i < n)%Z) ts ->
  exists sel, select_dumps dumps (Some ts) = IOk sel /\
    Forall2 (fun i d => nth_error dumps (Z.to_nat (if (i <? 0)%Z then i + n else i)) = Some d) ts sel.
Proof.
  intros A dumps ts Hd Ht n Hr. destruct dumps as [|d dumps]; [congruence|]. unfold select_dumps, normalize_t_indices. fold n.
  rewrite normalize_ok by exact Hr. destruct ts as [|i ts]; [congruence|].
  cbn [map]. eexists. split; [reflexivity|].
  assert (Hg : forall l, Forall (fun i => (- n <= i < n)%Z) l ->
    Forall2 (fun i x => nth_error (d :: dumps) (Z.to_nat (if (i <? 0)%Z then i + n else i)%Z) = Some x) l
      (map (fun i => nth (Z.to_nat (i mod n)) (d :: dumps) d) l)).
  { induction 1 as [|k l Hk Hl IH]; cbn [map]; constructor; [|exact IH].
    assert (E : (if (k <? 0)%Z then (k + n)%Z else k) = (k mod n)%Z).
    { destruct (Z.ltb_spec k 0).
      - rewrite <- (Z.mod_add k 1 n) by lia. rewrite Z.mul_1_l. symmetry. apply Z.mod_small. lia.
      - symmetry. apply Z.mod_small. lia. }
    rewrite E. apply nth_error_nth'. pose proof (Z.mod_pos_bound k n ltac:(lia)). unfold n in *. lia. }
  rewrite map_map. exact (Hg (i :: ts) Hr).
Qed.
Print Assumptions C22_selection_exact.

(** It raises exactly for an empty directory (FileNotFoundError), an index out of range (IndexError) or
    an empty selection (ValueError); without a selection every slice is returned. *)
Theorem C22_errors_exact : forall A (dumps : list A) ots,
  let n := Z.of_nat (List.length dumps) in
  (select_dumps dumps ots = IErr FileNotFoundError <-> dumps = []) /\
  (select_dumps dumps ots = IErr IndexError <-> dumps <> [] /\ exists ts i, ots = Some ts /\ In i ts /\ (i < - n \/ n <= i)%Z) /\
  (select_dumps dumps ots = IErr ValueError <-> dumps <> [] /\ ots = Some []) /\
  (dumps <> [] -> select_dumps dumps None = IOk dumps).
Proof.
  intros A dumps ots n. destruct dumps as [|d dumps].
  { cbn. split; [tauto|]. split; [split; [discriminate|intros [H _]; congruence]|]. split; [split; [discriminate|intros [H _]; congruence]|congruence]. }
  unfold select_dumps. destruct ots as [ts|].
  2:{ split; [split; discriminate|]. split; [split; [discriminate|intros (_ & ts & i & H & _); discriminate]|].
      split; [split; [discriminate|intros [_ H]; discriminate]|reflexivity]. }
  fold n. unfold normalize_t_indices. destruct (range_dec ts n) as [Hr|Hr].
  - rewrite (normalize_ok _ _ Hr). split; [|split; [|split; [|reflexivity]]].
    + split; [destruct ts; discriminate|discriminate].
    + split; [destruct ts; discriminate|]. intros (_ & ts' & i & [= <-] & Hi & Hb). rewrite Forall_forall in Hr. specialize (Hr _ Hi). cbv beta in Hr. lia.
    + destruct ts as [|i ts]; cbn [map]; split; try discriminate; try tauto; try (intros _; split; [discriminate|reflexivity]). intros [_ H]. discriminate.
  - rewrite (normalize_bad _ _ Hr). apply Exists_exists in Hr. destruct Hr as (i & Hi & Hb). split; [|split; [|split; [|reflexivity]]].
    + split; discriminate.
    + split; [intros _|reflexivity]. split; [discriminate|]. exists ts, i. auto.
    + split; [discriminate|]. intros [_ [= ->]]. destruct Hi.
Qed.
Print Assumptions C22_errors_exact.

Example C22_nonvacuous : select_dumps [10; 20; 30]%Z (Some [-1; 0; -3; 2; 0]%Z) = IOk [30; 10; 10; 30; 10]%Z /\
  select_dumps [10; 20; 30]%Z (Some [0; 3]%Z) = IErr IndexError /\ select_dumps [10; 20; 30]%Z (Some [-4]%Z) = IErr IndexError.
Proof. repeat split. Qed.

(* ------------------------------------------------------------------------------------------------ *)
(** C23: the RAW dumps kept: in order, never none of some, every dropped dump is an iteration-0 dump, and
    with drop_initial all iteration-0 dumps go unless nothing else is there. *)
Theorem C23_kept : forall drop dumps,
  subseq (raw_kept drop dumps) dumps /\
  (dumps <> [] -> raw_kept drop dumps <> []) /\
  (forall n, In n dumps -> ~ iteration n 0 -> In n (raw_kept drop dumps)) /\
  (drop = false -> raw_kept drop dumps = dumps) /\
  (drop = true -> (exists n, In n dumps /\ ~ iteration n 0) -> forall n, In n (raw_kept drop dumps) -> ~ iteration n 0).
Proof.
  intros drop dumps. unfold raw_kept. set (f := fun p => negb (iter_from_name p =? 0)%Z).
  assert (Hf : forall n, f n = true <-> ~ iteration n 0).
  { intros n. unfold f. rewrite iteration_iff. destruct (Z.eqb_spec (iter_from_name n) 0); cbn; split; intros; try congruence; tauto. }
  assert (H0 : subseq (match filter f dumps with [] => dumps | _ => filter f dumps end) dumps).
  { destruct (filter f dumps) eqn:E; [apply subseq_refl|rewrite <- E; apply subseq_filter]. }
  assert (Hin : forall n, In n dumps -> ~ iteration n 0 -> In n (match filter f dumps with [] => dumps | _ => filter f dumps end)).
  { intros n Hn Hi. destruct (filter f dumps) eqn:E; [exact Hn|]. rewrite <- E. apply filter_In. split; [exact Hn|now apply Hf]. }
  destruct drop; cbn [andb].
  - destruct (Nat.ltb_spec 1 (List.length dumps)) as [Hl|Hl].
    + replace (match filter f dumps with [] => dumps | s :: l => s :: l end) with (match filter f dumps with [] => dumps | _ => filter f dumps end) by (destruct (filter f dumps); reflexivity).
      split; [exact H0|]. split; [intros Hne; destruct (filter f dumps); [exact Hne|discriminate]|]. split; [exact Hin|]. split; [discriminate|].
      intros _ (n & Hn & Hi) m Hm. destruct (filter f dumps) eqn:E.
      * exfalso. apply Hf in Hi. assert (K : In n (filter f dumps)) by (apply filter_In; now split). rewrite E in K. destruct K.
      * rewrite <- E in Hm. apply filter_In in Hm. apply Hf. apply Hm.
    + split; [apply subseq_refl|]. split; [easy|]. split; [easy|]. split; [discriminate|].
      intros _ (n & Hn & Hi) m Hm. destruct dumps as [|x [|y l]]; [destruct Hn| |cbn in Hl; lia]. destruct Hn as [->|[]], Hm as [->|[]]. exact Hi.
  - split; [apply subseq_refl|]. split; [easy|]. split; [easy|]. split; [easy|discriminate].
Qed.
Print Assumptions C23_kept.

(** The particle table is every kept dump's particles, in order, each labelled with its own dump's time
    and iteration: row r of the result is row r' of some kept dump d. *)
Theorem C23_concat : forall P T (load : str -> list P * T * Z) dumps,
  map (fun r => fst (fst r)) (raw_concat load dumps) = flat_map (fun d => fst (fst (load d))) dumps /\
  (forall pre d post, dumps = pre ++ d :: post ->
     let start := List.length (flat_map (fun d => fst (fst (load d))) pre) in
     forall k p, nth_error (fst (fst (load d))) k = Some p ->
       nth_error (raw_concat load dumps) (start + k) = Some (p, snd (fst (load d)), snd (load d))).
Proof.
  intros P T load dumps. split.
  - induction dumps as [|d dumps IH]; [reflexivity|]. unfold raw_concat in *. cbn [flat_map]. destruct (load d) as [[ps t] i]. cbn [fst snd].
    rewrite map_app, IH, map_map. cbn [fst]. now rewrite map_id.
  - intros pre d post -> start k p Hk. unfold raw_concat, start. clear start. induction pre as [|e pre IH]; cbn [app flat_map].
    + cbn [List.length Nat.add]. destruct (load d) as [[ps t] i]. cbn [fst snd] in *. rewrite nth_error_app1.
      * rewrite nth_error_map, Hk. reflexivity.
      * rewrite map_length. apply nth_error_Some. congruence.
    + rewrite app_length. destruct (load e) as [[ps t] i]. cbn [fst snd]. rewrite nth_error_app2; rewrite map_length; [|lia].
      rewrite <- IH. f_equal. lia.
Qed.
Print Assumptions C23_concat.

Example C23_nonvacuous :
  raw_kept true [lit "RAW-e-000000.h5"; lit "RAW-e-000010.h5"; lit "RAW-e-000020.h5"] = [lit "RAW-e-000010.h5"; lit "RAW-e-000020.h5"] /\
  raw_kept true [lit "RAW-e-000000.h5"] = [lit "RAW-e-000000.h5"] /\ raw_kept true [lit "a-0.h5"; lit "a-00.h5"] = [lit "a-0.h5"; lit "a-00.h5"].
Proof. repeat split. Qed.

(* ------------------------------------------------------------------------------------------------ *)
(** C45: every dump is reachable: under exactly one key, whose handle loads exactly the series the dump
    belongs to. *)
Theorem C45_every_dump_listed : forall ms ncs, tree_ok ms -> no_series_clash ms ->
  forall rel l n, In (rel, l) ms -> h5_file l n ->
  exists k h ns b, dget k (list_diagnostics ms ncs) = Some h /\ handle_dumps ms h = Some (rel, ns) /\ series l b ns /\ In n ns /\
    forall k' h' ns', dget k' (list_diagnostics ms ncs) = Some h' -> handle_dumps ms h' = Some (rel, ns') -> In n ns' -> k' = k.
Proof.
  intros ms ncs Hok Hc rel l n Hin Hn.
  destruct (proj2 Hok _ _ Hin) as [Hd _]. destruct (C21_series_partition l Hd) as (_ & Hs & Hall).
  destruct (Hall n Hn) as (b & ns & Hb & Hbase & Hnn & _).
  destruct (entries_complete ms Hok Hc rel l b ns Hin Hb) as (k & h & He & Hh).
  assert (HN : NoDup (dkeys (flat_map entries ms))) by (apply (all_NoDup ms Hok Hc); [apply incl_refl|apply Hok]).
  exists k, h, ns, b. unfold list_diagnostics. rewrite merge_ncs, (ms_listing ms Hok Hc), (In_dget _ _ _ HN He).
  split; [reflexivity|]. split; [exact Hh|]. split; [now apply Hs|]. split; [exact Hnn|].
  intros k' h' ns' Hk' Hh' Hn'. rewrite merge_ncs in Hk'.
  destruct (dget k' (flat_map entries ms)) as [h2|] eqn:E2.
  2:{ destruct (existsb (str_eqb k') ncs); [|discriminate]. injection Hk' as <-. discriminate Hh'. }
  injection Hk' as ->. apply dget_In in E2.
  destruct (resolve ms Hok Hc _ _ E2) as (rel2 & l2 & b2 & ns2 & R1 & R2 & R3 & _ & R5). rewrite R3 in Hh'. injection Hh' as -> ->.
  destruct (resolve ms Hok Hc _ _ He) as (rel3 & l3 & b3 & ns3 & S1 & S2 & S3 & _ & S5). rewrite S3 in Hh. injection Hh as -> ->.
  assert (El : forall l4, In (rel, l4) ms -> l4 = l).
  { intros l4 H4. assert (A1 := In_dget _ _ _ (proj1 Hok) Hin). assert (A2 := In_dget _ _ _ (proj1 Hok) H4). congruence. }
  apply El in R1. apply El in S1. subst l2 l3.
  assert (B2 : b2 = b). { destruct (Hs _ _ R2) as (_ & _ & _ & M). apply M in Hn'. destruct Hn' as [_ K]. apply in_base_iff in K, Hbase. congruence. }
  assert (B3 : b3 = b). { destruct (Hs _ _ S2) as (_ & _ & _ & M). apply M in Hnn. destruct Hnn as [_ K]. apply in_base_iff in K, Hbase. congruence. }
  subst b2 b3. unfold entries in R5, S5. cbn [fst snd] in R5, S5.
  destruct (series_dumps l) as [|e1 [|e2 g]] eqn:Eg; [destruct R5| |].
  - destruct R5 as [R5|[]], S5 as [S5|[]]. congruence.
  - apply in_map_iff in R5, S5. destruct R5 as ([c cs] & R5 & R6). destruct S5 as ([c' cs'] & S5 & S6). cbn [fst] in *.
    injection R5 as <- <-. injection S5 as <- <-.
    assert (Hc1 : c = b /\ c' = b); [|destruct Hc1; congruence].
    assert (Hlen : 2 <= List.length (series_dumps l)) by (rewrite Eg; cbn; lia).
    assert (Hr : forall x xs, In (x, xs) (series_dumps l) -> handle_dumps ms (HSeries rel x) = Some (rel, xs)).
    { intros x xs Hx.
      assert (E : In (synth rel x, HSeries rel x) (flat_map entries ms)).
      { apply in_flat_map. exists (rel, l). split; [exact Hin|]. unfold entries. cbn [fst snd]. rewrite Eg. rewrite Eg in Hx.
        exact (in_map (fun e => (synth rel (fst e), HSeries rel (fst e))) _ _ Hx). }
      destruct (resolve ms Hok Hc _ _ E) as (r4 & l4 & b4 & ns4 & T1 & T2 & T3 & _ & T5).
      apply entries_in in T5. cbn [fst snd] in T5. destruct T5 as [(_ & K & _)|(b5 & ns5 & _ & K & B5 & c5 & ns6 & C5 & D5)]; [discriminate|].
      injection K as <- <-. apply El in T1. subst l4. destruct (clash_of ms Hok Hc _ _ _ _ _ _ Hin B5 C5 D5) as [K1 K2].
      unfold handle_dumps. destruct (str_eqb_spec x []) as [->|N1]; [exfalso; apply K2; now left|].
      destruct (str_eqb_spec x (lit ".")) as [->|N2]; [exfalso; apply K2; right; now left|].
      destruct (str_eqb_spec x (lit "..")) as [->|N3]; [exfalso; apply K2; right; right; now left|]. cbn [orb].
      assert (Hs' : dir_listing ms (synth rel x) = None) by (apply dget_None; exact K1). rewrite Hs'. unfold dir_dumps.
      assert (Hget : dir_listing ms rel = Some l) by (apply In_dget; [apply Hok|exact Hin]). rewrite Hget. unfold sort_dumps.
      destruct (series_spec l) as (I1 & _ & _). now rewrite (In_dget _ _ _ I1 Hx). }
    rewrite <- Eg in *. rewrite (Hr _ _ R6) in R3. injection R3 as ->. rewrite (Hr _ _ S6) in S3. injection S3 as ->.
    split.
    + destruct (Hs _ _ R6) as (_ & _ & _ & M). apply M in Hn'. destruct Hn' as [_ K]. apply in_base_iff in K, Hbase. congruence.
    + destruct (Hs _ _ S6) as (_ & _ & _ & M). apply M in Hnn. destruct Hnn as [_ K]. apply in_base_iff in K, Hbase. congruence.
Qed.
Print Assumptions C45_every_dump_listed.

(** Nothing else is listed: an entry is a series on disk under its directory (or directory/base) name, or
    a streamed NetCDF for a key that has no dumps. *)
Theorem C45_every_entry_loads : forall ms ncs, tree_ok ms -> no_series_clash ms ->
  forall k h, dget k (list_diagnostics ms ncs) = Some h ->
  (exists rel l b ns, In (rel, l) ms /\ handle_dumps ms h = Some (rel, ns) /\ series l b ns /\ (k = rel \/ k = rel ++ "/"%char :: b)) \/
  (h = HNc k /\ In k ncs /\ dget k (list_diagnostics ms []) = None).
Proof.
  intros ms ncs Hok Hc k h H. unfold list_diagnostics in *. cbn [fold_left]. rewrite merge_ncs in H. rewrite (ms_listing ms Hok Hc) in *.
  destruct (dget k (flat_map entries ms)) as [h'|] eqn:E.
  - injection H as ->. left. apply dget_In in E. destruct (resolve ms Hok Hc _ _ E) as (rel & l & b & ns & R1 & R2 & R3 & R4 & _).
    exists rel, l, b, ns. split; [exact R1|]. split; [exact R3|]. split; [|exact R4]. apply series_in; [apply (proj2 Hok _ _ R1)|exact R2].
  - right. destruct (existsb (str_eqb k) ncs) eqn:Ex; [|discriminate]. injection H as <-. split; [reflexivity|]. split; [|reflexivity].
    apply existsb_exists in Ex. destruct Ex as (r & Hr & Er). apply str_eqb_eq in Er. now subst.
Qed.
Print Assumptions C45_every_entry_loads.

Theorem C45_streamed_listed : forall ms ncs k, In k ncs -> exists h, dget k (list_diagnostics ms ncs) = Some h.
Proof.
  intros ms ncs k Hk. unfold list_diagnostics. rewrite merge_ncs. destruct (dget k _) as [h|]; [eauto|].
  replace (existsb (str_eqb k) ncs) with true; [eauto|]. symmetry. apply existsb_exists. exists k. split; [exact Hk|apply str_eqb_refl].
Qed.
Print Assumptions C45_streamed_listed.

Definition ex_ms : list (str * listing) :=
  [(lit "FLD", []); (lit "FLD/e1", [(lit "e1-000000.h5", true); (lit "e1-000010.h5", true)]);
   (lit "FLD/s1", [(lit "s1-line-01-000000.h5", true); (lit "s1-line-02-000000.h5", true)])].
Example C45_nonvacuous : list_diagnostics ex_ms [lit "FLD/e1"; lit "FLD/e2"] =
  [(lit "FLD/e1", HDir (lit "FLD/e1")); (lit "FLD/s1/s1-line-01", HSeries (lit "FLD/s1") (lit "s1-line-01"));
   (lit "FLD/s1/s1-line-02", HSeries (lit "FLD/s1") (lit "s1-line-02")); (lit "FLD/e2", HNc (lit "FLD/e2"))] /\
  tree_ok ex_ms /\ no_series_clash ex_ms.
Proof.
  split; [vm_compute; reflexivity|]. split.
  - split; [repeat (apply NoDup_cons_iff; split; [cbn; intros H; repeat (destruct H as [H|H]; [discriminate H|]); destruct H|]); constructor|].
    intros rel l H. repeat (destruct H as [H|H]; [injection H as <- <-; split;
      [cbn [map fst]; repeat (apply NoDup_cons_iff; split; [cbn; intros H; repeat (destruct H as [H|H]; [discriminate H|]); destruct H|]); constructor|
       intros e He; cbn in He; repeat (destruct He as [He|He]; [subst e; cbn; intros H; repeat (destruct H as [H|H]; [discriminate H|]); destruct H|]); destruct He]|]).
    destruct H.
  - intros rel l n m b c H Hn Hm Hb Hbc Hne. apply in_base_iff in Hb, Hbc. destruct Hn as [Hn _], Hm as [Hm _].
    repeat (destruct H as [H|H]; [injection H as <- <-; cbn in Hn, Hm;
      repeat (destruct Hn as [Hn|Hn]; [injection Hn as <-; repeat (destruct Hm as [Hm|Hm];
        [injection Hm as <-; vm_compute in Hb, Hbc; subst b c; try congruence;
         split; (intros H; vm_compute in H; repeat (destruct H as [H|H]; [discriminate H|]); destruct H)|]); destruct Hm|]); destruct Hn|]).
    destruct H.
Qed.

(** Without the no-clash condition a series is unreachable: a subdirectory named like a report series
    takes the series' key, and the series' own handle leads to the subdirectory. *)
Theorem C45_clash_refuted : exists ms l n, tree_ok ms /\ In (lit "FLD/s1", l) ms /\ h5_file l n /\
  forall k h ns, dget k (list_diagnostics ms []) = Some h -> handle_dumps ms h = Some (lit "FLD/s1", ns) -> ~ In n ns.
Proof.
  set (l := [(lit "a-0.h5", true); (lit "b-0.h5", true); (lit "a", false)]).
  exists [(lit "FLD", []); (lit "FLD/s1", l); (lit "FLD/s1/a", [(lit "z-0.h5", true)])], l, (lit "a-0.h5").
  split; [|split; [right; now left|split]].
  - split; [repeat (apply NoDup_cons_iff; split; [cbn; intros H; repeat (destruct H as [H|H]; [discriminate H|]); destruct H|]); constructor|].
    intros rel l' H. repeat (destruct H as [H|H]; [injection H as <- <-; split;
      [cbn [map fst]; repeat (apply NoDup_cons_iff; split; [cbn; intros H; repeat (destruct H as [H|H]; [discriminate H|]); destruct H|]); constructor|
       intros e He; cbn in He; repeat (destruct He as [He|He]; [subst e; cbn; intros H; repeat (destruct H as [H|H]; [discriminate H|]); destruct H|]); destruct He]|]).
    destruct H.
  - split; [now left|]. exists (lit "a-0"). split; [discriminate|reflexivity].
  - intros k h ns Hk Hh Hn. apply dget_In in Hk. vm_compute in Hk.
    repeat (destruct Hk as [Hk|Hk]; [injection Hk as <- <-; vm_compute in Hh; try discriminate Hh; injection Hh as <-; vm_compute in Hn;
      repeat (destruct Hn as [Hn|Hn]; [discriminate Hn|]); destruct Hn|]). destruct Hk.
Qed.
Print Assumptions C45_clash_refuted.

(* ------------------------------------------------------------------------------------------------ *)
Lemma forallb_false_ex {A} (f : A -> bool) l : forallb f l = false -> exists x, In x l /\ f x = false.
Proof.
  induction l as [|x l IH]; cbn [forallb]; [discriminate|]. intros H. apply andb_false_iff in H. destruct H as [H|H]; [exists x; split; [now left|exact H]|].
  destruct (IH H) as (y & Hy & E). exists y. split; [now right|exact E].
Qed.
(** C46: an axis is reported as autoscaled by the HDF5 loader, by the batch NetCDF and by the streamed
    NetCDF alike: exactly when some dump's bounds are not close to the first dump's. *)
Theorem C46_autoscaled_agree : forall B (close : B -> B -> bool) b0 bs d,
  let dumps := b0 :: bs in
  (ax_auto B (axis_h5 B close dumps d) = true <->
     exists b, In b dumps /\ (close (fst b) (fst b0) = false \/ close (snd b) (snd b0) = false)) /\
  ax_auto B (axis_batch B close dumps d) = ax_auto B (axis_h5 B close dumps d) /\
  ax_auto B (axis_streamed B close dumps d) = ax_auto B (axis_h5 B close dumps d) /\
  ax_nominal B (axis_batch B close dumps d) = b0 /\ ax_nominal B (axis_streamed B close dumps d) = b0.
Proof.
  intros B close b0 bs d dumps. unfold axis_batch, axis_streamed, axis_h5, reload. cbn [ax_auto ax_bounds ax_nominal hd].
  split; [|split; [|repeat split]].
  - unfold moves, dumps. rewrite negb_true_iff, andb_false_iff. split.
    + intros [H|H]; apply forallb_false_ex in H; destruct H as (b & Hb & E); exists b; auto.
    + intros (b & Hb & [E|E]); [left|right]; (destruct (forallb _ _) eqn:F; [|reflexivity]; rewrite forallb_forall in F; rewrite (F _ Hb) in E; discriminate).
  - destruct (moves B close dumps) eqn:E; [exact E|reflexivity].
Qed.
Print Assumptions C46_autoscaled_agree.

(** The axis reconstructed for time slice [it]: exactly that dump's own axis from the streamed NetCDF and
    whenever the axis moves; otherwise the first dump's, which is then close to it. *)
Theorem C46_physical_axis : forall B (close : B -> B -> bool) b0 bs d it b,
  let dumps := b0 :: bs in nth_error dumps it = Some b ->
  physical_axis B (axis_streamed B close dumps d) it d = b /\
  forall m, m = axis_h5 B close dumps d \/ m = axis_batch B close dumps d ->
  (ax_auto B m = true -> physical_axis B m it d = b) /\
  (ax_auto B m = false -> physical_axis B m it d = b0 /\ close (fst b) (fst b0) = true /\ close (snd b) (snd b0) = true).
Proof.
  intros B close b0 bs d it b dumps Hb. assert (Hn : nth it dumps d = b) by (now apply nth_error_nth).
  split; [exact Hn|]. intros m Hm.
  assert (E : ax_bounds B m = (if moves B close dumps then Some dumps else None) /\ ax_auto B m = moves B close dumps /\ ax_nominal B m = b0).
  { destruct Hm as [->| ->]; unfold axis_batch, axis_h5, reload; cbn [ax_auto ax_bounds ax_nominal hd dumps]; [repeat split|].
    split; [reflexivity|]. split; [|reflexivity]. fold dumps. destruct (moves B close dumps) eqn:E; [exact E|reflexivity]. }
  destruct E as (E1 & E2 & E3). unfold physical_axis. rewrite E1, E2, E3. destruct (moves B close dumps) eqn:E; [split; [now intros|discriminate]|].
  split; [discriminate|]. intros _. split; [reflexivity|]. unfold moves, dumps in E. apply negb_false_iff, andb_prop in E. destruct E as [F1 F2].
  rewrite forallb_forall in F1, F2. apply nth_error_In in Hb. split; [now apply F1|now apply F2].
Qed.
Print Assumptions C46_physical_axis.

Example C46_nonvacuous : let close a b := (Z.abs (a - b) <=? 1)%Z in
  ax_auto Z (axis_h5 Z close [(-5, 5); (-5, 6); (-9, 9)]%Z (0, 0)%Z) = true /\
  ax_auto Z (axis_streamed Z close [(-5, 5); (-5, 6)]%Z (0, 0)%Z) = false /\
  physical_axis Z (axis_batch Z close [(-5, 5); (-5, 6); (-9, 9)]%Z (0, 0)%Z) 1 (0, 0)%Z = (-5, 6)%Z.
Proof. repeat split. Qed.

(* ------------------------------------------------------------------------------------------------ *)
(** C47: a HIST table whose numeric rows all have w >= 2 columns is read exactly; comments, blank lines
    and header lines contribute nothing. *)
Lemma hist_rows_flat {F} (pr : str -> option (list F)) lines rs : hist_rows pr lines rs ->
  (pr [] = None \/ pr [] = Some []) -> flat_map (hist_line F pr) lines = rs.
Proof.
  intros H H0. induction H as [|line ls rs Hs H IH|line c s ls rs Hs Hc H IH|line ls rs Hp H IH|line c s r ls rs Hs H1 H2 Hp H IH]; cbn [flat_map]; [reflexivity|..]; rewrite IH; unfold hist_line.
  - now rewrite Hs.
  - rewrite Hs. destruct Hc as [->| ->]; reflexivity.
  - rewrite Hp. destruct (strip line) as [|c s]; [reflexivity|]. now destruct (_ || _).
  - rewrite Hp, Hs. change (aeqb c) with (Ascii.eqb c). destruct (Ascii.eqb_spec c "!") as [|_]; [congruence|]. destruct (Ascii.eqb_spec c "#") as [|_]; [congruence|]. reflexivity.
Qed.
Lemma list_min_const w l : Forall (fun n => n = w) l -> l <> [] -> list_min l w = w.
Proof.
  intros H _. unfold list_min. induction H as [|x l -> H IH]; [reflexivity|]. cbn [fold_right]. rewrite IH. apply Nat.min_id.
Qed.
Theorem C47_hist_exact : forall F (parse_row : str -> option (list F)) lines rs w d,
  hist_rows parse_row lines rs -> (parse_row [] = None \/ parse_row [] = Some []) ->
  rs <> [] -> 2 <= w -> Forall (fun r => List.length r = w) rs ->
  parse_hist F parse_row lines = Some (map (fun r => nth 1 r d) rs, map (fun r => skipn 2 r) rs).
Proof.
  intros F pr lines rs w d Hr H0 Hne Hw Hl. unfold parse_hist. rewrite (hist_rows_flat pr _ _ Hr H0).
  destruct rs as [|r0 rs]; [congruence|].
  assert (E : list_min (map (@List.length F) (r0 :: rs)) (List.length r0) = w).
  { assert (E0 : List.length r0 = w) by (now apply Forall_inv in Hl). rewrite E0. apply list_min_const; [|discriminate]. now apply Forall_map. }
  rewrite E. destruct (Nat.ltb_spec w 2); [lia|]. f_equal. f_equal.
  - clear Hr Hne E. induction Hl as [|r l Hr Hl IH]; [reflexivity|]. cbn [flat_map map]. rewrite IH. destruct r as [|a [|b r]]; cbn in Hr; [lia|lia|reflexivity].
  - clear Hr Hne E. induction Hl as [|r l Hr Hl IH]; [reflexivity|]. cbn [map]. rewrite IH. now rewrite firstn_all2 by lia.
Qed.
Print Assumptions C47_hist_exact.

(** In general: nothing iff there is no numeric row or some row has fewer than two columns; otherwise one
    time and one value row per numeric row, the values cut to the shortest row. *)
Theorem C47_hist_none : forall F (parse_row : str -> option (list F)) lines rs,
  hist_rows parse_row lines rs -> (parse_row [] = None \/ parse_row [] = Some []) ->
  (parse_hist F parse_row lines = None <-> rs = [] \/ exists r, In r rs /\ List.length r < 2).
Proof.
  intros F pr lines rs Hr H0. unfold parse_hist. rewrite (hist_rows_flat pr _ _ Hr H0). destruct rs as [|r0 rs]; [split; [now left|reflexivity]|].
  assert (Hm : forall l d k, list_min l d < k <-> d < k \/ exists n, In n l /\ n < k).
  { induction l as [|x l IH]; intros d k; unfold list_min in *; cbn [fold_right]; [split; [now left|intros [H|(n & [] & _)]; exact H]|].
    split.
    - intros H. assert (x < k \/ fold_right Nat.min d l < k) as [K|K] by lia; [right; exists x; split; [now left|exact K]|].
      apply IH in K. destruct K as [K|(n & Hn & K)]; [now left|right; exists n; split; [now right|exact K]].
    - intros [H|(n & [->|Hn] & H)]; [assert (fold_right Nat.min d l < k) by (apply IH; now left); lia|lia|].
      assert (fold_right Nat.min d l < k) by (apply IH; right; eauto). lia. }
  destruct (Nat.ltb_spec (list_min (map (@List.length F) (r0 :: rs)) (List.length r0)) 2) as [H|H].
  - split; [intros _|reflexivity]. right. apply Hm in H. destruct H as [H|(n & Hn & H)]; [exists r0; split; [now left|exact H]|].
    apply in_map_iff in Hn. destruct Hn as (r & <- & Hn). eauto.
  - split; [discriminate|]. intros [H1|(r & Hn & H1)]; [discriminate|]. exfalso.
    assert (list_min (map (@List.length F) (r0 :: rs)) (List.length r0) < 2); [|lia]. apply Hm. right. exists (List.length r). split; [now apply in_map|exact H1].
Qed.
Print Assumptions C47_hist_none.

(** Hence a table whose last line was cut off by a crash is lost as a whole. *)
Definition ex_row (s : str) : option (list Z) :=
  if str_eqb s (lit "0 1 7") then Some [0; 1; 7]%Z else if str_eqb s (lit "1 2 8") then Some [1; 2; 8]%Z
  else if str_eqb s (lit "2") then Some [2]%Z else None.
Theorem C47_truncated_table_refuted :
  parse_hist Z ex_row [lit "! it t E"; lit " 0 1 7"; lit ""; lit "1 2 8"] = Some ([1; 2]%Z, [[7]; [8]]%Z) /\
  parse_hist Z ex_row [lit "! it t E"; lit " 0 1 7"; lit ""; lit "1 2 8"; lit "2"] = None.
Proof. split; reflexivity. Qed.
Print Assumptions C47_truncated_table_refuted.
Example C47_nonvacuous : hist_rows ex_row [lit "! it t E"; lit "Iter Time"; lit " 0 1 7"; lit ""; lit "1 2 8"] [[0; 1; 7]; [1; 2; 8]]%Z.
Proof.
  eapply hr_comment; [reflexivity|now left|]. eapply hr_header; [reflexivity|]. eapply hr_row; [reflexivity|discriminate|discriminate|reflexivity|].
  eapply hr_blank; [reflexivity|]. eapply hr_row; [reflexivity|discriminate|discriminate|reflexivity|]. constructor.
Qed.
