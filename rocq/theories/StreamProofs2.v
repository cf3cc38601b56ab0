(** Lemmas for the StreamConverter: directories, the drain loop, the invariant over histories (C10). *)
From Verif Require Import Stream StreamSpec StreamProofs.
From Coq Require Import ZifyBool ZifyNat Sorted Permutation.

(* ---- association lists and sorting ---- *)
Lemma lookup_in {A} i (x : A) d : lookup i d = Some x -> In (i, x) d.
Proof.
  induction d as [|[j y] d IH]; cbn [lookup]; [discriminate|].
  destruct (Z.eqb_spec i j) as [->|]; [intros [= ->]; now left|intros H; right; now apply IH].
Qed.
Lemma lookup_none {A} i (d : list (Z * A)) : lookup i d = None <-> ~ In i (map fst d).
Proof.
  induction d as [|[j y] d IH]; cbn [lookup map fst In]; [tauto|].
  destruct (Z.eqb_spec i j) as [->|H]; [split; [discriminate|tauto]|]. rewrite IH. split; [intros K [E|E]; [congruence|tauto]|tauto].
Qed.
Lemma lookup_some_key {A} i (d : list (Z * A)) : In i (map fst d) -> exists x, lookup i d = Some x.
Proof.
  intros H. destruct (lookup i d) as [x|] eqn:E; [now exists x|]. apply lookup_none in E. contradiction.
Qed.
Lemma in_lookup {A} i (x : A) (d : list (Z * A)) : NoDup (map fst d) -> In (i, x) d -> lookup i d = Some x.
Proof.
  induction d as [|[j y] d IH]; cbn [lookup map fst]; intros Hn Hin; [destruct Hin|].
  inversion Hn as [|? ? H1 H2]; subst. destruct Hin as [[= -> ->]|Hin].
  - now rewrite Z.eqb_refl.
  - destruct (Z.eqb_spec i j) as [->|]; [exfalso; apply H1; apply (in_map fst _ _ Hin)|now apply IH].
Qed.
Lemma in_remove {A} i j (y : A) d : In (j, y) (remove i d) <-> In (j, y) d /\ j <> i.
Proof. unfold remove. rewrite filter_In. cbn [fst]. rewrite negb_true_iff, Z.eqb_neq. reflexivity. Qed.
Lemma lookup_remove_ne {A} i j (d : list (Z * A)) : j <> i -> lookup j (remove i d) = lookup j d.
Proof.
  intros H. induction d as [|[k y] d IH]; [reflexivity|]. cbn [remove filter fst].
  destruct (Z.eqb_spec k i) as [->|Hk]; cbn [negb lookup].
  - destruct (Z.eqb_spec j i); [contradiction|exact IH].
  - destruct (Z.eqb_spec j k); [reflexivity|exact IH].
Qed.
Lemma lookup_app {A} i (d1 d2 : list (Z * A)) :
  lookup i (d1 ++ d2) = match lookup i d1 with Some x => Some x | None => lookup i d2 end.
Proof. induction d1 as [|[k y] d IH]; cbn [app lookup]; [reflexivity|]. destruct (i =? k)%Z; [reflexivity|exact IH]. Qed.
Lemma nodup_remove {A} i (d : list (Z * A)) : NoDup (map fst d) -> NoDup (map fst (remove i d)).
Proof.
  induction d as [|[k y] d IH]; cbn [map fst remove filter]; intros H; [constructor|].
  inversion H as [|? ? H1 H2]; subst. destruct (Z.eqb_spec k i); cbn [negb]; [now apply IH|].
  cbn [map fst]. constructor; [|now apply IH]. intros Hin. apply H1. apply in_map_iff in Hin.
  destruct Hin as ([a b] & E & Hin). cbn in E. subst a. apply in_remove in Hin. apply (in_map fst _ _ (proj1 Hin)).
Qed.
Lemma nodup_snoc {A} i (x : A) (d : list (Z * A)) : NoDup (map fst d) -> lookup i d = None -> NoDup (map fst (d ++ [(i, x)])).
Proof.
  intros H Hn. rewrite map_app. cbn [map fst]. apply lookup_none in Hn.
  apply (Permutation_NoDup (l := i :: map fst d)); [apply Permutation_cons_append|now constructor].
Qed.
Lemma increasing_nodup l : increasing l -> NoDup l.
Proof.
  induction l as [|x l IH]; cbn [increasing]; intros H; constructor.
  - destruct H as [H _]. rewrite Forall_forall in H. intros Hx. specialize (H _ Hx). lia.
  - now apply IH.
Qed.
Lemma increasing_filter {A} (d : list (Z * A)) p : increasing (map fst d) -> increasing (map fst (filter p d)).
Proof.
  induction d as [|y d IH]; cbn [map increasing filter]; intros H; [exact I|]. destruct H as [H1 H2].
  destruct (p y); [|now apply IH]. cbn [map increasing]. split; [|now apply IH].
  rewrite Forall_forall in *. intros j Hj. apply H1. apply in_map_iff in Hj. destruct Hj as (z & <- & Hz).
  apply filter_In in Hz. now apply in_map.
Qed.
Lemma key_unique {A} i (x y : A) (d : list (Z * A)) : NoDup (map fst d) -> In (i, x) d -> In (i, y) d -> x = y.
Proof. intros H H1 H2. apply (in_lookup _ _ _ H) in H1. apply (in_lookup _ _ _ H) in H2. congruence. Qed.

Lemma insert_by_perm {A} key (x : A) l : Permutation (x :: l) (insert_by key x l).
Proof.
  induction l as [|y l IH]; cbn [insert_by]; [reflexivity|]. destruct (key x <=? key y)%Z; [reflexivity|].
  rewrite perm_swap. now constructor.
Qed.
Lemma sort_by_perm {A} key (l : list A) : Permutation l (sort_by key l).
Proof. induction l as [|x l IH]; cbn [sort_by]; [constructor|]. rewrite <- insert_by_perm. now constructor. Qed.
Definition sortedk {A} (key : A -> Z) (l : list A) : Prop := StronglySorted (fun a b => (key a <= key b)%Z) l.
Lemma insert_by_sorted {A} key (x : A) l : sortedk key l -> sortedk key (insert_by key x l).
Proof.
  induction l as [|y l IH]; cbn [insert_by]; intros H; [repeat constructor|].
  inversion H as [|? ? H1 H2]; subst. destruct (Z.leb_spec (key x) (key y)).
  - constructor; [exact H|]. constructor; [assumption|]. rewrite Forall_forall in *. intros z Hz. specialize (H2 _ Hz). lia.
  - constructor; [now apply IH|]. rewrite Forall_forall in *. intros z Hz.
    apply (Permutation_in _ (Permutation_sym (insert_by_perm key x l))) in Hz. destruct Hz as [<-|Hz]; [lia|now apply H2].
Qed.
Lemma sort_by_sorted {A} key (l : list A) : sortedk key (sort_by key l).
Proof. induction l as [|x l IH]; cbn [sort_by]; [constructor|]. now apply insert_by_sorted. Qed.
Lemma sort_by_id {A} key (l : list A) : sortedk key l -> sort_by key l = l.
Proof.
  induction l as [|x l IH]; cbn [sort_by]; intros H; [reflexivity|]. inversion H as [|? ? H1 H2]; subst.
  rewrite (IH H1). destruct l as [|y l]; [reflexivity|]. cbn [insert_by]. inversion H2 as [|? ? H3 H4]; subst.
  destruct (Z.leb_spec (key x) (key y)); [reflexivity|lia].
Qed.
Lemma increasing_sortedk l : increasing l -> sortedk (fun i => i) l.
Proof.
  induction l as [|x l IH]; cbn [increasing]; intros H; constructor; [now apply IH|].
  destruct H as [H _]. rewrite Forall_forall in *. intros z Hz. specialize (H _ Hz). lia.
Qed.
Lemma sort_dumps_id {D} (d : dir (D := D)) : increasing (map fst d) -> sort_dumps d = map fst d.
Proof. intros H. apply sort_by_id. now apply increasing_sortedk. Qed.
Lemma sort_dumps_in {D} (d : dir (D := D)) i : In i (sort_dumps d) <-> In i (map fst d).
Proof. unfold sort_dumps. split; apply Permutation_in; [symmetry|]; apply sort_by_perm. Qed.
Lemma sort_dumps_nodup {D} (d : dir (D := D)) : NoDup (map fst d) -> NoDup (sort_dumps d).
Proof. intros H. apply (Permutation_NoDup (sort_by_perm _ _) H). Qed.

Section C.
Context {D : sdom} (load : loader (D := D)).
Notation writer := (Stream.writer (D := D)).
Notation ncfile := (Stream.ncfile (D := D)).
Notation row := (Stream.row (D := D)).
Notation fs := (Stream.fs (D := D)).
Notation st := (Stream.st (D := D)).
Notation dump := (Z * d_file D)%type.

(* ---- readable prefixes ---- *)
Definition upto (L : Z) (q : list dump) : list dump := filter (fun d => (fst d <=? L)%Z) q.

Lemma readable_app p q : readable load (p ++ q) = readable load p ++ readable load q.
Proof. unfold readable. now rewrite flat_map_app. Qed.
Lemma readable_in p r : In r (readable load p) <-> exists i x, In (i, x) p /\ load i x = Some r.
Proof.
  unfold readable. rewrite in_flat_map. split.
  - intros ([i x] & Hin & Hr). cbn [fst snd] in Hr. exists i, x. split; [exact Hin|].
    destruct (load i x); [destruct Hr as [->|[]]; reflexivity|destruct Hr].
  - intros (i & x & Hin & Hr). exists (i, x). split; [exact Hin|]. cbn [fst snd]. rewrite Hr. now left.
Qed.

Lemma upto_extend q L i x r : increasing (map fst q) -> In (i, x) q -> load i x = Some r -> (L < i)%Z ->
  (forall j y r', In (j, y) q -> load j y = Some r' -> (L < j)%Z -> (i <= j)%Z) ->
  readable load (upto i q) = readable load (upto L q) ++ [r].
Proof.
  intros Hs Hin Hl HL Hgap. induction q as [|[j y] q IH]; [destruct Hin|].
  cbn [map increasing fst] in Hs. destruct Hs as [Hj Hs]. rewrite Forall_forall in Hj.
  unfold upto. cbn [filter fst]. fold (upto i q). fold (upto L q).
  assert (Hrest : forall M, (M <= j)%Z -> upto M q = []).
  { intros M HM. unfold upto. clear - HM Hj. induction q as [|[k z] q IHq]; [reflexivity|]. cbn [filter fst].
    assert (j < k)%Z by (apply Hj; now left). destruct (Z.leb_spec k M); [lia|]. apply IHq. intros m Hm. apply Hj. now right. }
  destruct Hin as [[= -> ->]|Hin].
  - destruct (Z.leb_spec i i); [|lia]. destruct (Z.leb_spec i L); [lia|].
    rewrite (Hrest i), (Hrest L) by lia. cbn [readable flat_map fst snd app]. now rewrite Hl.
  - assert (Hji : (j < i)%Z) by (apply Hj; apply (in_map fst _ _ Hin)).
    destruct (Z.leb_spec j i); [|lia].
    specialize (IH Hs Hin (fun k z r' Hk => Hgap k z r' (or_intror Hk))).
    cbn [readable flat_map fst snd]. destruct (Z.leb_spec j L).
    + cbn [readable flat_map fst snd]. rewrite <- app_assoc. f_equal. exact IH.
    + destruct (load j y) eqn:E; [|exact IH]. exfalso.
      specialize (Hgap j y r0 (or_introl eq_refl) E). lia.
Qed.

Lemma upto_all q L : (forall j y r', In (j, y) q -> load j y = Some r' -> (j <= L)%Z) ->
  readable load (upto L q) = readable load q.
Proof.
  intros H. induction q as [|[j y] q IH]; [reflexivity|]. unfold upto. cbn [filter fst]. fold (upto L q).
  assert (IH' := IH (fun k z r' Hk => H k z r' (or_intror Hk))).
  destruct (Z.leb_spec j L); cbn [readable flat_map fst snd]; [f_equal; exact IH'|].
  destruct (load j y) eqn:E; [|exact IH']. specialize (H j y r (or_introl eq_refl) E). lia.
Qed.

Lemma upto_none q L : (forall j y, In (j, y) q -> (L < j)%Z) -> upto L q = [].
Proof.
  intros H. unfold upto. induction q as [|[j y] q IH]; [reflexivity|]. cbn [filter fst].
  assert (L < j)%Z by (apply (H j y); now left). destruct (Z.leb_spec j L); [lia|]. apply IH. intros k z Hk. apply (H k z). now right.
Qed.

Lemma readable_increasing shape q : consistent load shape q -> increasing (map fst q) -> increasing (map r_iter (readable load q)).
Proof.
  intros Hc Hs. induction q as [|[j y] q IH]; [exact I|]. cbn [map increasing fst] in Hs. destruct Hs as [Hj Hs].
  assert (Hc' : consistent load shape q) by (intros a b r' Hin; apply Hc; now right).
  specialize (IH Hc' Hs). cbn [readable flat_map fst snd].
  destruct (load j y) as [r|] eqn:E; [|exact IH]. cbn [app map increasing]. split; [|exact IH].
  rewrite Forall_forall in *. intros k Hk. apply in_map_iff in Hk. destruct Hk as (r' & <- & Hr').
  apply readable_in in Hr'. destruct Hr' as (a & b & Hin & Hl).
  destruct (Hc' a b r' Hin Hl) as [-> _]. destruct (Hc j y r (or_introl eq_refl) E) as [-> _].
  apply Hj. apply (in_map fst _ _ Hin).
Qed.
Lemma readable_nonneg shape q : consistent load shape q -> Forall (fun d : dump => (0 <= fst d)%Z) q ->
  Forall (fun r : row => (0 <= r_iter r)%Z) (readable load q).
Proof.
  intros Hc H. rewrite Forall_forall in *. intros r Hr. apply readable_in in Hr. destruct Hr as (i & x & Hin & Hl).
  destruct (Hc i x r Hin Hl) as [-> _]. apply (H _ Hin).
Qed.
Lemma consistent_sub shape p q : (forall d, In d p -> In d q) -> consistent load shape q -> consistent load shape p.
Proof. intros H Hc i x r Hin. apply Hc. now apply H. Qed.
Lemma upto_sub L q d : In d (upto L q) -> In d q.
Proof. unfold upto. rewrite filter_In. tauto. Qed.

(* ---- effects on the state ---- *)
Definition same_ctl (s s' : st) : Prop :=
  s_spilled s' = s_spilled s /\ s_completed s' = s_completed s /\ s_raw_completed s' = s_raw_completed s /\ s_is_raw s' = s_is_raw s.
Lemma same_ctl_refl s : same_ctl s s.  Proof. repeat split. Qed.
Lemma same_ctl_trans s1 s2 s3 : same_ctl s1 s2 -> same_ctl s2 s3 -> same_ctl s1 s3.
Proof. unfold same_ctl. intuition congruence. Qed.

Lemma put_lres_spec a (s : st) f : f_nc (s_fs s) = Some f ->
  let s' := put_lres a s in
  f_nc (s_fs s') = Some (last (l_states a) f) /\ f_scratch (s_fs s') = f_scratch (s_fs s) /\
  f_persist (s_fs s') = f_persist (s_fs s) /\ f_bad (s_fs s') = f_bad (s_fs s) /\
  s_w s' = Some (l_w a) /\ s_fl s' = l_fl a /\ s_bad s' = s_bad s /\ same_ctl s s'.
Proof.
  intros Hf s'. unfold s', put_lres. generalize (l_states a) as l. intros l. revert s f Hf s'.
  induction l as [|g l IH]; intros s f Hf s'.
  - cbn. repeat split; assumption.
  - cbn [fold_left]. destruct (IH (do_fs (set_nc (Some g)) s) g eq_refl) as (H1 & H2 & H3 & H4 & H5 & H6 & H7 & H8).
    rewrite last_cons. split; [exact H1|]. repeat (split; [assumption|]). assumption.
Qed.

(** What cleaning up one consumed dump may do. *)
Lemma reap_spec c e i m (s : st) : let s' := reap c e i m s in
  f_nc (s_fs s') = f_nc (s_fs s) /\ f_bad (s_fs s') = f_bad (s_fs s) /\ s_w s' = s_w s /\ s_fl s' = s_fl s /\ s_bad s' = s_bad s /\ same_ctl s s' /\
  (f_scratch (s_fs s') = f_scratch (s_fs s) \/
   (f_scratch (s_fs s') = remove i (f_scratch (s_fs s)) /\ (m = true -> exists x, lookup i (f_persist (s_fs s')) = Some x))) /\
  (f_persist (s_fs s') = f_persist (s_fs s) \/
   (lookup i (f_persist (s_fs s)) = None /\ exists x, lookup i (f_scratch (s_fs s)) = Some x /\ f_persist (s_fs s') = f_persist (s_fs s) ++ [(i, x)])).
Proof.
  intros s'. unfold s', reap. destruct (c_staged c); cbn [negb]; [|repeat split; now left].
  destruct (lookup i (f_scratch (s_fs s))) as [x|] eqn:E; [|repeat split; now left].
  destruct m.
  - destruct (lookup i (f_persist (s_fs s))) as [y|] eqn:E2.
    + destruct (e_reap e i); cbn; (repeat split; [|now left]);
        first [now left|right; split; [reflexivity|intros _; exists y; assumption]].
    + assert (K : forall d, exists z, lookup i (d ++ [(i, x)]) = Some z).
      { intros d. rewrite lookup_app. destruct (lookup i d); [eexists; reflexivity|]. cbn. rewrite Z.eqb_refl. eexists; reflexivity. }
      destruct (e_reap e i); cbn; (repeat split);
        first [now left|right; split; [reflexivity|intros _; apply K]|right; split; [reflexivity|exists x; split; reflexivity]].
  - destruct (e_reap e i); cbn; (repeat split; [|now left]); first [now left|right; split; [reflexivity|discriminate]].
Qed.

Lemma cleanup_spec c e l i (s : st) : let s' := cleanup_consumed c e l i s in
  f_nc (s_fs s') = f_nc (s_fs s) /\ s_w s' = s_w s /\ s_fl s' = s_fl s /\ s_bad s' = s_bad s /\ same_ctl s s' /\
  (f_scratch (s_fs s') = f_scratch (s_fs s) \/ (l = Scratch /\ f_scratch (s_fs s') = remove i (f_scratch (s_fs s)))) /\
  (f_persist (s_fs s') = f_persist (s_fs s) \/
   (l = Persist /\ f_persist (s_fs s') = remove i (f_persist (s_fs s))) \/
   (l = Scratch /\ lookup i (f_persist (s_fs s)) = None /\ exists x, lookup i (f_scratch (s_fs s)) = Some x /\ f_persist (s_fs s') = f_persist (s_fs s) ++ [(i, x)])).
Proof.
  intros s'. unfold s', cleanup_consumed. destruct (c_staged c) eqn:Es; cbn [negb]; [|repeat split; now left].
  destruct l.
  - destruct (reap_spec c e i (negb (c_discard c)) s) as (H1 & _ & H2 & H3 & H4 & H5 & H6 & H7).
    repeat (split; [assumption|]). split; [destruct H6 as [H6|[H6 _]]; tauto|]. tauto.
  - destruct (c_discard c && e_unlink e i); cbn; repeat split; try now left.
    right; left. split; reflexivity.
Qed.

(** Looking up another dump is not disturbed. *)
Lemma cleanup_lookup c e l i (s : st) l' j x : (l', j) <> (l, i) ->
  lookup j (dir_of l' (s_fs s)) = Some x -> lookup j (dir_of l' (s_fs (cleanup_consumed c e l i s))) = Some x.
Proof.
  intros Hne Hl. destruct (cleanup_spec c e l i s) as (_ & _ & _ & _ & _ & Hs & Hp).
  destruct l'; cbn [dir_of] in *.
  - destruct Hs as [->|[-> ->]]; [exact Hl|]. rewrite lookup_remove_ne; [exact Hl|congruence].
  - destruct Hp as [->|[[-> ->]|(-> & _ & y & _ & ->)]]; [exact Hl| |].
    + rewrite lookup_remove_ne; [exact Hl|congruence].
    + rewrite lookup_app, Hl. reflexivity.
Qed.

Lemma quarantine_spec e l i (s : st) : let s' := quarantine e l i s in
  f_nc (s_fs s') = f_nc (s_fs s) /\ s_w s' = s_w s /\ s_fl s' = s_fl s /\ same_ctl s s' /\
  (s_bad s' = s_bad s \/ s_bad s' = (l, i) :: s_bad s) /\
  (dir_of l (s_fs s') = dir_of l (s_fs s) \/ dir_of l (s_fs s') = remove i (dir_of l (s_fs s))) /\
  (forall l', l' <> l -> dir_of l' (s_fs s') = dir_of l' (s_fs s)).
Proof.
  intros s'. unfold s', quarantine.
  assert (B : let s' := add_bad l i s in
    f_nc (s_fs s') = f_nc (s_fs s) /\ s_w s' = s_w s /\ s_fl s' = s_fl s /\ same_ctl s s' /\
    (s_bad s' = s_bad s \/ s_bad s' = (l, i) :: s_bad s) /\
    (dir_of l (s_fs s') = dir_of l (s_fs s) \/ dir_of l (s_fs s') = remove i (dir_of l (s_fs s))) /\
    (forall l', l' <> l -> dir_of l' (s_fs s') = dir_of l' (s_fs s))).
  { cbn. repeat (split; [reflexivity|]). split; [repeat split|]. split; [right; reflexivity|]. split; [left; reflexivity|reflexivity]. }
  destruct (lookup i (dir_of l (s_fs s))); [|exact B]. destruct (e_rename e l i); [|exact B]. clear B.
  cbn [emit do_fs s_fs s_w s_fl s_bad]. split; [destruct l; reflexivity|]. repeat (split; [reflexivity|]).
  split; [repeat split|]. split; [left; reflexivity|]. split; [right; destruct l; reflexivity|].
  intros [] Hl; destruct l; try reflexivity; congruence.
Qed.
Lemma quarantine_lookup e l i (s : st) l' j x : (l', j) <> (l, i) ->
  lookup j (dir_of l' (s_fs s)) = Some x -> lookup j (dir_of l' (s_fs (quarantine e l i s))) = Some x.
Proof.
  intros Hne Hl. destruct (quarantine_spec e l i s) as (_ & _ & _ & _ & _ & Hd & Ho).
  destruct (loc_eqb l' l) eqn:E.
  - assert (l' = l) by (destruct l', l; cbn in E; congruence). subst l'.
    destruct Hd as [->| ->]; [exact Hl|]. rewrite lookup_remove_ne; [exact Hl|congruence].
  - rewrite Ho; [exact Hl|]. intros ->. destruct l; discriminate.
Qed.

(* ---- invariants ---- *)
Variable shape : list Z.

(** Directories: [q] are the dumps that may be handled, [hb] the held-back newest dump (if any). *)
Record dirs (q hb : list dump) (f : fs) : Prop := {
  di_s : forall d, In d (f_scratch f) -> In d (q ++ hb);
  di_ss : increasing (map fst (f_scratch f));
  di_p : forall d, In d (f_persist f) -> In d q;
  di_pn : NoDup (map fst (f_persist f));
  di_hb : forall d, In d hb -> In d (f_scratch f)
}.
Definition bads (q : list dump) (s : st) : Prop :=
  forall l i, In (l, i) (s_bad s) -> exists x, In (i, x) q /\ load i x = None.

(** The rows in the file and in the writer's pending batch. *)
Definition wrel (s : st) (R : list row) : Prop :=
  match s_w s with
  | Some w => exists f rd rp, f_nc (s_fs s) = Some f /\ winv w f rd rp /\ rd ++ rp = R /\ R <> [] /\
                w_last w = last_it R /\ w_shape w = shape
  | None => (R = [] /\ f_nc (s_fs s) = None) \/ (R <> [] /\ f_nc (s_fs s) = Some (nc_of R))
  end.

Record cinv (q hb : list dump) (s : st) (cands : list (loc * Z)) (R : list row) : Prop := {
  ci_num : numbered (q ++ hb);
  ci_con : consistent load shape q;
  ci_w : wrel s R;
  ci_fl : s_fl s = [];
  ci_R : R = readable load (upto (last_it R) q);
  ci_dirs : dirs q hb (s_fs s);
  ci_bad : bads q s;
  ci_sorted : sortedk snd cands;
  ci_nodup : NoDup cands;
  ci_c : forall l i, In (l, i) cands -> exists x, In (i, x) q /\ lookup i (dir_of l (s_fs s)) = Some x;
  ci_avail : forall i x r, In (i, x) q -> load i x = Some r -> (last_it R < i)%Z -> exists l, In (l, i) cands
}.

Lemma num_nodup (q hb : list dump) : numbered (q ++ hb) -> NoDup (map fst (q ++ hb)).
Proof. intros [H _]. now apply increasing_nodup. Qed.
Lemma num_q (q hb : list dump) : numbered (q ++ hb) -> numbered q.
Proof. intros [H1 H2]. rewrite map_app in H1. apply increasing_app in H1. apply Forall_app in H2. split; tauto. Qed.
Lemma num_disj (q hb : list dump) i x y : numbered (q ++ hb) -> In (i, x) q -> In (i, y) hb -> False.
Proof.
  intros [H _] Hq Hh. rewrite map_app in H. apply increasing_app in H. destruct H as (_ & _ & H).
  specialize (H i i (in_map fst _ _ Hq) (in_map fst _ _ Hh)). lia.
Qed.

(** Cleaning up / quarantining a handled dump keeps the directories in order. *)
Lemma dirs_cleanup q hb c e l i x (s : st) : numbered (q ++ hb) -> In (i, x) q -> dirs q hb (s_fs s) ->
  dirs q hb (s_fs (cleanup_consumed c e l i s)).
Proof.
  intros Hn Hq H. destruct (cleanup_spec c e l i s) as (_ & _ & _ & _ & _ & Hs & Hp).
  pose proof (num_nodup _ _ Hn) as Hnd.
  constructor.
  - intros d Hd. apply (di_s _ _ _ H). destruct Hs as [E|[_ E]]; rewrite E in Hd; [exact Hd|].
    destruct d. now apply in_remove in Hd.
  - destruct Hs as [->|[_ ->]]; [apply H|]. apply increasing_filter. apply H.
  - intros d Hd. destruct Hp as [E|[[_ E]|(_ & _ & y & Hy & E)]]; rewrite E in Hd.
    + now apply (di_p _ _ _ H).
    + destruct d. apply in_remove in Hd. now apply (di_p _ _ _ H).
    + apply in_app_or in Hd. destruct Hd as [Hd|[<-|[]]]; [now apply (di_p _ _ _ H)|].
      apply lookup_in in Hy. apply (di_s _ _ _ H) in Hy.
      assert (y = x) by (eapply key_unique; [exact Hnd|exact Hy|apply in_or_app; now left]). now subst.
  - destruct Hp as [->|[[_ ->]|(_ & Hno & y & Hy & ->)]]; [apply H| |].
    + apply nodup_remove. apply H.
    + apply nodup_snoc; [apply H|exact Hno].
  - intros [j y] Hd. pose proof (di_hb _ _ _ H _ Hd) as Hs'. destruct Hs as [->|[_ ->]]; [exact Hs'|].
    apply in_remove. split; [exact Hs'|]. intros ->. eapply num_disj; eassumption.
Qed.
Lemma dirs_quarantine q hb e l i x (s : st) : numbered (q ++ hb) -> In (i, x) q -> dirs q hb (s_fs s) ->
  dirs q hb (s_fs (quarantine e l i s)).
Proof.
  intros Hn Hq H. destruct (quarantine_spec e l i s) as (_ & _ & _ & _ & _ & Hd & Ho).
  assert (HS : f_scratch (s_fs (quarantine e l i s)) = f_scratch (s_fs s) \/
               f_scratch (s_fs (quarantine e l i s)) = remove i (f_scratch (s_fs s))).
  { destruct l; [exact Hd|]. left. exact (Ho Scratch ltac:(discriminate)). }
  assert (HP : f_persist (s_fs (quarantine e l i s)) = f_persist (s_fs s) \/
               f_persist (s_fs (quarantine e l i s)) = remove i (f_persist (s_fs s))).
  { destruct l; [|exact Hd]. left. exact (Ho Persist ltac:(discriminate)). }
  constructor.
  - intros d Hi. apply (di_s _ _ _ H). destruct HS as [E|E]; rewrite E in Hi; [exact Hi|].
    destruct d. now apply in_remove in Hi.
  - destruct HS as [->| ->]; [apply H|]. apply increasing_filter. apply H.
  - intros d Hi. apply (di_p _ _ _ H). destruct HP as [E|E]; rewrite E in Hi; [exact Hi|].
    destruct d. now apply in_remove in Hi.
  - destruct HP as [->| ->]; [apply H|]. apply nodup_remove. apply H.
  - intros [j y] Hi. pose proof (di_hb _ _ _ H _ Hi) as Hs'. destruct HS as [->| ->]; [exact Hs'|].
    apply in_remove. split; [exact Hs'|]. intros ->. eapply num_disj; eassumption.
Qed.

(** wrel only depends on the writer and the file. *)
Lemma wrel_same (s s' : st) R : s_w s' = s_w s -> f_nc (s_fs s') = f_nc (s_fs s) -> wrel s R -> wrel s' R.
Proof. unfold wrel. intros -> ->. exact (fun H => H). Qed.

(** Dropping a candidate that is already in the file. *)
Lemma cinv_cleanup q hb c e l i r (s : st) R : cinv q hb s ((l, i) :: r) R -> (i <= last_it R)%Z ->
  cinv q hb (cleanup_consumed c e l i s) r R.
Proof.
  intros H Hi. destruct (cleanup_spec c e l i s) as (E1 & E2 & E3 & E4 & E5 & _ & _).
  destruct (ci_c _ _ _ _ _ H l i (or_introl eq_refl)) as (x & Hx & _).
  pose proof (ci_nodup _ _ _ _ _ H) as Hnd. inversion Hnd as [|? ? Hn1 Hn2]; subst.
  pose proof (ci_sorted _ _ _ _ _ H) as Hso. inversion Hso as [|? ? Hs1 Hs2]; subst.
  constructor; try apply H; try assumption.
  - eapply wrel_same; [exact E2|exact E1|apply H].
  - rewrite E3. apply H.
  - eapply dirs_cleanup; [apply H|exact Hx|apply H].
  - intros l' j Hin. rewrite E4 in Hin. eapply (ci_bad _ _ _ _ _ H); exact Hin.
  - intros l' j Hin. destruct (ci_c _ _ _ _ _ H l' j (or_intror Hin)) as (y & Hy & Hly).
    exists y. split; [exact Hy|]. apply cleanup_lookup; [|exact Hly]. intros [= -> ->]. contradiction.
  - intros j y r' Hy Hr' HL. destruct (ci_avail _ _ _ _ _ H j y r' Hy Hr' HL) as (l' & [[= <- <-]|Hin]); [lia|].
    now exists l'.
Qed.

Lemma cinv_quarantine q hb e l i r (s s1 : st) x R : cinv q hb s ((l, i) :: r) R ->
  In (i, x) q -> load i x = None -> s_fs s1 = s_fs s -> s_w s1 = s_w s -> s_fl s1 = s_fl s -> s_bad s1 = s_bad s ->
  cinv q hb (quarantine e l i s1) r R.
Proof.
  intros H Hx Hl F1 F2 F3 F4. destruct (quarantine_spec e l i s1) as (E1 & E2 & E3 & E5 & E4 & _ & _).
  pose proof (ci_nodup _ _ _ _ _ H) as Hnd. inversion Hnd as [|? ? Hn1 Hn2]; subst.
  pose proof (ci_sorted _ _ _ _ _ H) as Hso. inversion Hso as [|? ? Hs1 Hs2]; subst.
  constructor; try apply H; try assumption.
  - eapply (wrel_same s); [congruence|congruence|apply H].
  - rewrite E3, F3. apply H.
  - eapply dirs_quarantine; [apply H|exact Hx|rewrite F1; apply H].
  - intros l' j Hin. rewrite F4 in E4. destruct E4 as [E4|E4]; rewrite E4 in Hin.
    + eapply (ci_bad _ _ _ _ _ H); exact Hin.
    + destruct Hin as [[= <- <-]|Hin]; [now exists x|]. eapply (ci_bad _ _ _ _ _ H); exact Hin.
  - intros l' j Hin. destruct (ci_c _ _ _ _ _ H l' j (or_intror Hin)) as (y & Hy & Hly).
    exists y. split; [exact Hy|]. apply quarantine_lookup; [|now rewrite F1]. intros [= -> ->]. contradiction.
  - intros j y r' Hy Hr' HL. destruct (ci_avail _ _ _ _ _ H j y r' Hy Hr' HL) as (l' & [[= <- <-]|Hin]).
    + assert (x = y) by (eapply key_unique; [apply (num_nodup q hb), H|apply in_or_app; left; exact Hx|apply in_or_app; left; exact Hy]).
      congruence.
    + now exists l'.
Qed.

(** Reading and appending the next readable dump. *)
Lemma cinv_append q hb l i r (s s2 : st) x da R : cinv q hb s ((l, i) :: r) R ->
  In (i, x) q -> load i x = Some da -> (last_it R < i)%Z ->
  wrel s2 (R ++ [da]) -> s_fl s2 = [] -> s_bad s2 = s_bad s ->
  f_scratch (s_fs s2) = f_scratch (s_fs s) -> f_persist (s_fs s2) = f_persist (s_fs s) ->
  cinv q hb s2 ((l, i) :: r) (R ++ [da]) /\ last_it (R ++ [da]) = i.
Proof.
  intros H Hx Hl HL Hw Hfl Hb Hs Hp.
  destruct (ci_con _ _ _ _ _ H i x da Hx Hl) as [Hi Hsh].
  assert (HLi : last_it (R ++ [da]) = i) by (rewrite last_it_snoc; lia).
  pose proof (ci_sorted _ _ _ _ _ H) as Hso. inversion Hso as [|? ? Hs1 Hs2]; subst.
  split; [|exact HLi]. constructor; try apply H; try assumption.
  - rewrite HLi. rewrite (ci_R _ _ _ _ _ H) at 1. symmetry. eapply upto_extend.
    + apply (num_q q hb (ci_num _ _ _ _ _ H)).
    + exact Hx.
    + exact Hl.
    + exact HL.
    + intros j y r' Hy Hr' HLj. destruct (ci_avail _ _ _ _ _ H j y r' Hy Hr' HLj) as (l' & [[= <- <-]|Hin]); [lia|].
      rewrite Forall_forall in Hs2. specialize (Hs2 _ Hin). exact Hs2.
  - constructor; rewrite ?Hs, ?Hp; apply (ci_dirs _ _ _ _ _ H).
  - intros l' j Hin. rewrite Hb in Hin. eapply (ci_bad _ _ _ _ _ H); exact Hin.
  - intros l' j Hin. destruct (ci_c _ _ _ _ _ H l' j Hin) as (y & Hy & Hly). exists y. split; [exact Hy|].
    destruct l'; cbn [dir_of] in *; congruence.
  - intros j y r' Hy Hr' HLj. rewrite HLi in HLj. apply (ci_avail _ _ _ _ _ H j y r' Hy Hr'). lia.
Qed.

Lemma app_ne {A} (l : list A) x : l ++ [x] <> [].
Proof. destruct l; discriminate. Qed.

Lemma consume_ok q hb c e : forall cands (s : st) R, cinv q hb s cands R -> s_w s <> None ->
  exists s' R', consume load c e cands s = (s', false) /\ cinv q hb s' [] R' /\ s_w s' <> None /\ same_ctl s s'.
Proof.
  induction cands as [|[l i] r IH]; intros s R H Hw.
  - exists s, R. cbn [consume]. repeat (split; [first [reflexivity|assumption]|]). apply same_ctl_refl.
  - cbn [consume]. pose proof (ci_w _ _ _ _ _ H) as W. unfold wrel in W.
    destruct (s_w s) as [w|] eqn:Ew; [|congruence]. destruct W as (f & rd & rp & Hf & Wi & HR & Hne & HL & Hsh).
    rewrite HL. destruct (Z.leb_spec i (last_it R)) as [Hle|Hgt].
    + pose proof (cinv_cleanup q hb c e l i r s R H Hle) as H'.
      destruct (cleanup_spec c e l i s) as (_ & E2 & _ & _ & E5 & _).
      destruct (IH _ _ H' ltac:(congruence)) as (s' & R' & A & B & C & Dd).
      exists s', R'. repeat (split; [assumption|]). eapply same_ctl_trans; eassumption.
    + destruct (ci_c _ _ _ _ _ H l i (or_introl eq_refl)) as (x & Hx & Hlk).
      unfold load_file. rewrite Hlk. destruct (load i x) as [da|] eqn:El.
      * set (s1 := emit (EvRead l i) s).
        assert (Hn : cur_nc s1 = f) by (unfold cur_nc, s1; cbn; now rewrite Hf).
        assert (Hfl : s_fl s1 = []) by (unfold s1; cbn; apply (ci_fl _ _ _ _ _ H)).
        rewrite Hn, Hfl.
        destruct (ci_con _ _ _ _ _ H i x da Hx El) as [Hi Hs].
        destruct (append_ok w f rd rp da Wi ltac:(congruence)) as (A1 & A2 & (rd' & rp' & A3 & A4 & _) & A5 & A6 & _).
        set (a := append [] w f da) in *. cbv zeta. rewrite A1.
        assert (Hf1 : f_nc (s_fs s1) = Some f) by exact Hf.
        destruct (put_lres_spec a s1 f Hf1) as (P1 & P2 & P3 & _ & P5 & P6 & P7 & P8).
        set (s2 := put_lres a s1) in *.
        assert (Wr : wrel s2 (R ++ [da])).
        { unfold wrel. rewrite P5. exists (last (l_states a) f), rd', rp'. split; [exact P1|]. split; [exact A4|].
          split; [rewrite A3, <- HR; now rewrite app_assoc|]. split; [apply app_ne|]. split; [|congruence].
          rewrite A5, HL, last_it_snoc. reflexivity. }
        destruct (cinv_append q hb l i r s s2 x da R H Hx El Hgt Wr) as [Hc HLi]; try (unfold s1 in *; cbn in *; congruence).
        pose proof (cinv_cleanup q hb c e l i r s2 _ Hc ltac:(lia)) as H'.
        destruct (cleanup_spec c e l i s2) as (_ & E2 & _ & _ & E5 & _).
        destruct (IH _ _ H' ltac:(congruence)) as (s' & R' & A & B & C & Dd).
        exists s', R'. repeat (split; [assumption|]).
        eapply same_ctl_trans; [|exact Dd]. eapply same_ctl_trans; [|exact E5]. exact P8.
      * assert (H' : cinv q hb (quarantine e l i (emit (EvRead l i) s)) r R)
          by (eapply cinv_quarantine; [exact H|exact Hx|exact El| | | |]; reflexivity).
        destruct (quarantine_spec e l i (emit (EvRead l i) s)) as (_ & E2 & _ & E5 & _).
        destruct (IH _ _ H') as (s' & R' & A & B & C & Dd); [rewrite E2; cbn; congruence|].
        exists s', R'. repeat (split; [assumption|]). eapply same_ctl_trans; [exact E5|exact Dd].
Qed.

Lemma open_writer_ok q hb c e : forall cands (s : st) R, cinv q hb s cands R -> s_w s = None ->
  exists s' cands', open_writer load c e cands s = (s', cands', false) /\ same_ctl s s' /\
    ((s_w s' = None /\ cinv q hb s' [] R /\ cands' = []) \/
     (exists R', s_w s' <> None /\ cinv q hb s' cands' R')).
Proof.
  induction cands as [|[l i] r IH]; intros s R H Hw.
  - exists s, []. cbn [open_writer]. split; [reflexivity|]. split; [apply same_ctl_refl|]. left. split; [exact Hw|split; [exact H|reflexivity]].
  - cbn [open_writer]. destruct (ci_c _ _ _ _ _ H l i (or_introl eq_refl)) as (x & Hx & Hlk).
    unfold load_file. rewrite Hlk. destruct (load i x) as [t|] eqn:El.
    + destruct (ci_con _ _ _ _ _ H i x t Hx El) as [Hi Hs].
      pose proof (ci_w _ _ _ _ _ H) as W. unfold wrel in W. rewrite Hw in W.
      destruct W as [[-> Hf]|[Hne Hf]].
      * (* fresh file *)
        cbn [s_fs emit]. rewrite Hf. cbv zeta. cbn [open_nc n_written w_ndisk w_rows length Nat.add Nat.eqb].
        set (w := {| w_shape := r_shape t; w_ct := c_ct c; w_rows := []; w_ts := []; w_its := []; w_bnds := [];
                     w_ndisk := 0; w_last := -1; w_open := true |}).
        set (s2 := set_w (Some w) (do_fs (set_nc (Some empty_nc)) (emit (EvRead l i) s))).
        assert (Hfl : s_fl s2 = []) by exact (ci_fl _ _ _ _ _ H). rewrite Hfl.
        assert (Wi : winv w empty_nc [] []) by (constructor; reflexivity).
        destruct (append_ok w empty_nc [] [] t Wi eq_refl) as (A1 & A2 & (rd' & rp' & A3 & A4 & _) & A5 & A6 & _).
        set (a := append [] w empty_nc t) in *. rewrite A1.
        destruct (put_lres_spec a s2 empty_nc eq_refl) as (P1 & P2 & P3 & _ & P5 & P6 & P7 & P8).
        set (s3 := put_lres a s2) in *.
        assert (Hi0 : (-1 < i)%Z).
        { destruct (ci_num _ _ _ _ _ H) as [_ Hp]. rewrite Forall_forall in Hp.
          specialize (Hp (i, x) ltac:(apply in_or_app; now left)). cbn in Hp. lia. }
        assert (Wr : wrel s3 ([] ++ [t])).
        { unfold wrel. rewrite P5. exists (last (l_states a) empty_nc), rd', rp'. split; [exact P1|]. split; [exact A4|].
          split; [exact A3|]. split; [discriminate|]. split; [rewrite A5; cbn [app w_last w]; cbn; lia|].
          rewrite A6. exact Hs. }
        destruct (cinv_append q hb l i r s s3 x t [] H Hx El Hi0 Wr) as [Hc HLi]; try (cbn in *; congruence).
        pose proof (cinv_cleanup q hb c e l i r s3 _ Hc ltac:(lia)) as H'.
        destruct (cleanup_spec c e l i s3) as (_ & E2 & _ & _ & E5 & _).
        eexists _, r. split; [reflexivity|]. split.
        -- eapply same_ctl_trans; [|exact E5]. exact P8.
        -- right. exists [t]. split; [congruence|exact H'].
      * (* resume *)
        cbn [s_fs emit]. rewrite Hf. cbv zeta.
        assert (Hnum := num_q q hb (ci_num _ _ _ _ _ H)).
        assert (HRi : increasing (map r_iter R) /\ Forall (fun r0 : row => (0 <= r_iter r0)%Z) R).
        { rewrite (ci_R _ _ _ _ _ H). split.
          - eapply readable_increasing; [|apply increasing_filter, Hnum].
            eapply consistent_sub; [|apply (ci_con _ _ _ _ _ H)]. intros d. apply upto_sub.
          - eapply readable_nonneg; [eapply consistent_sub; [|apply (ci_con _ _ _ _ _ H)]; intros d; apply upto_sub|].
            destruct Hnum as [_ Hp]. rewrite Forall_forall in *. intros d Hd. apply Hp. eapply upto_sub; exact Hd. }
        destruct (open_resume (c_ct c) t R (proj1 HRi) (proj2 HRi)) as (rd & rp & E & Wi & S1 & S2 & L & _).
        destruct (open_nc (c_ct c) t (Some (nc_of R))) as [w f] eqn:Eo. cbn [fst snd] in *.
        assert (Hnw : (n_written w =? 0) = false).
        { unfold n_written. rewrite (wi_n _ _ _ _ Wi), (wi_rows _ _ _ _ Wi), map_length, <- app_length, E.
          destruct R; [congruence|reflexivity]. }
        rewrite Hnw. eexists _, ((l, i) :: r). split; [reflexivity|]. split; [repeat split|].
        right. exists R. split; [discriminate|].
        constructor; try apply H.
        -- unfold wrel. cbn [s_w set_w]. exists f, rd, rp. split; [reflexivity|]. split; [exact Wi|].
           split; [exact E|]. split; [exact Hne|]. split; [exact L|]. now rewrite S1.
        -- destruct (ci_dirs _ _ _ _ _ H). constructor; assumption.
    + assert (H' : cinv q hb (quarantine e l i (emit (EvRead l i) s)) r R)
          by (eapply cinv_quarantine; [exact H|exact Hx|exact El| | | |]; reflexivity).
      destruct (quarantine_spec e l i (emit (EvRead l i) s)) as (_ & E2 & _ & E5 & _).
      destruct (IH _ _ H') as (s' & cs & A & B & C); [rewrite E2; exact Hw|].
      exists s', cs. split; [exact A|]. split; [|exact C]. eapply same_ctl_trans; [exact E5|exact B].
Qed.

(** With no candidate left, every readable dump is in. *)
Lemma cinv_done q hb s R : cinv q hb s [] R -> R = readable load q.
Proof.
  intros H. rewrite (ci_R _ _ _ _ _ H) at 1. apply upto_all. intros j y r' Hy Hr'.
  destruct (Z.le_gt_cases j (last_it R)) as [|Hgt]; [assumption|].
  destruct (ci_avail _ _ _ _ _ H j y r' Hy Hr' Hgt) as (l & []).
Qed.
End C.
