From Verif Require Import Utils UtilsSpec.
From Coq Require Import Permutation.

(** ** Induction over nested dicts *)
Section Ind.
Context {V : Type} (P : cfg V -> Prop).
Hypothesis Hl : forall v, P (Leaf v).
Hypothesis Hn : forall d, Forall (fun e => P (snd e)) d -> P (Node d).
Fixpoint cfg_ind2 (t : cfg V) : P t :=
  match t with
  | Leaf v => Hl v
  | Node d => Hn d ((fix go (d : list (str * cfg V)) : Forall (fun e => P (snd e)) d :=
                      match d with [] => Forall_nil _ | e :: r => Forall_cons e (cfg_ind2 (snd e)) (go r) end) d)
  end.
End Ind.

(** ** Dictionary facts *)
Lemma dupdate_new {A} : forall (es : list (str * A)) o, NoDup (map fst es) -> (forall k, In k (map fst es) -> ~ In k (dkeys o)) -> dupdate o es = o ++ es.
Proof.
  induction es as [|[k v] es IH]; intros o Hn Hk; cbn [dupdate fold_left]; [now rewrite app_nil_r|].
  cbn [map fst] in Hn. apply NoDup_cons_iff in Hn. destruct Hn as [Hn1 Hn2]. cbn [fst snd].
  rewrite dset_new by (apply Hk; now left). change (dupdate (o ++ [(k, v)]) es = o ++ (k, v) :: es).
  rewrite IH; [now rewrite <- app_assoc|exact Hn2|]. intros k' Hk'. unfold dkeys. rewrite map_app. intros H. apply in_app_iff in H. destruct H as [H|[H|[]]].
  - eapply Hk; [right; exact Hk'|exact H].
  - cbn in H. subst. now apply Hn1.
Qed.
Lemma dupdate_app {A} (o a b : dict A) : dupdate o (a ++ b) = dupdate (dupdate o a) b.
Proof. unfold dupdate. apply fold_left_app. Qed.

Lemma NoDup_app_intro {A} (a b : list A) : NoDup a -> NoDup b -> (forall x, In x a -> ~ In x b) -> NoDup (a ++ b).
Proof.
  induction 1 as [|x a Hx Ha IH]; intros Hb Hd; [exact Hb|]. cbn. constructor.
  - intros H. apply in_app_iff in H. destruct H as [H|H]; [tauto|]. apply (Hd x); [now left|exact H].
  - apply IH; [exact Hb|]. intros y Hy. apply Hd. now right.
Qed.
Lemma NoDup_map_inj {A B} (f : A -> B) l : (forall x y, In x l -> In y l -> f x = f y -> x = y) -> NoDup l -> NoDup (map f l).
Proof.
  intros Hi Hn. induction Hn as [|x l Hx Hl IH]; cbn; [constructor|]. constructor.
  - intros H. apply in_map_iff in H. destruct H as (y & E & Hy). apply Hi in E; [subst; tauto|now right|now left].
  - apply IH. intros a b Ha Hb. apply Hi; now right.
Qed.

(** ** Paths *)
Section Flat.
Context {V : Type}.
Implicit Types t : cfg V.

Lemma leaves_cons_in (d : list (str * cfg V)) p v : In (p, v) (leaves (Node d)) <-> exists k t q, In (k, t) d /\ p = k :: q /\ In (q, v) (leaves t).
Proof.
  cbn [leaves]. rewrite in_flat_map. split.
  - intros ([k t] & Hin & H). apply in_map_iff in H. destruct H as ([q w] & E & H). cbn [fst snd] in *. injection E as <- <-. eauto 6.
  - intros (k & t & q & Hin & -> & H). exists (k, t). split; [exact Hin|]. apply in_map_iff. exists (q, v). split; [reflexivity|exact H].
Qed.

Lemma leaves_paths_NoDup : forall t, dicts_ok t -> NoDup (map fst (leaves t)).
Proof.
  induction t as [v|d IH] using cfg_ind2; intros Hok.
  - cbn. constructor; [easy|constructor].
  - inversion Hok as [|d' Hn Hc]; subst. clear Hok. cbn [leaves]. induction IH as [|[k t] d Ht Hd IH2]; [constructor|].
    cbn [flat_map fst snd]. rewrite map_app. cbn [map fst] in Hn. apply NoDup_cons_iff in Hn. destruct Hn as [Hn1 Hn2].
    apply NoDup_app_intro.
    + rewrite map_map. cbn [fst]. rewrite <- (map_map fst (cons k)). apply NoDup_map_inj; [intros x y _ _ E; now injection E|].
      apply Ht. apply (Hc k). now left.
    + apply IH2; [exact Hn2|]. intros k' t' H. apply (Hc k'). now right.
    + intros p H1 H2. apply in_map_iff in H1, H2. destruct H1 as ([p1 v1] & E1 & H1). destruct H2 as ([p2 v2] & E2 & H2). cbn [fst] in *. subst p1 p2.
      apply in_map_iff in H1. destruct H1 as ([q w] & E & _). cbn [fst snd] in E. injection E as <- <-.
      apply in_flat_map in H2. destruct H2 as ([k2 t2] & Hin & H2). apply in_map_iff in H2. destruct H2 as ([q2 w2] & E & _). cbn [fst snd] in E.
      injection E as <- _ _. apply Hn1. exact (in_map fst _ _ Hin).
Qed.

Definition plain_key (k : str) : Prop := k <> [] /\ ~ In "."%char k.
Lemma leaves_plain : forall t, plain_keys t -> forall p v, In (p, v) (leaves t) -> Forall plain_key p.
Proof.
  induction t as [w|d IH] using cfg_ind2; intros Hok p v Hin.
  - cbn in Hin. destruct Hin as [E|[]]. injection E as <- <-. constructor.
  - inversion Hok as [|d' Hc]; subst. apply leaves_cons_in in Hin. destruct Hin as (k & t & q & Hin & -> & H).
    destruct (Hc _ _ Hin) as (H1 & H2 & H3). constructor; [now split|]. rewrite Forall_forall in IH. exact (IH _ Hin H3 _ _ H).
Qed.

Lemma dotted_cons k q : q <> [] -> dotted (k :: q) = k ++ "."%char :: dotted q.
Proof. destruct q; [congruence|reflexivity]. Qed.
Lemma app_sep_inj_l {A} (x : A) : forall a a' b b', ~ In x a -> ~ In x a' -> a ++ x :: b = a' ++ x :: b' -> a = a' /\ b = b'.
Proof.
  induction a as [|y a IH]; intros [|y' a'] b b' Hb Hb' H; cbn in H.
  - injection H as ->. now split.
  - exfalso. injection H as -> _. apply Hb'. now left.
  - exfalso. injection H as -> _. apply Hb. now left.
  - injection H as -> H. destruct (IH a' b b') as [-> ->]; [intros K; apply Hb; now right|intros K; apply Hb'; now right|exact H|now split].
Qed.
Lemma dotted_inj : forall p q, Forall plain_key p -> Forall plain_key q -> p <> [] -> q <> [] -> dotted p = dotted q -> p = q.
Proof.
  induction p as [|k p IH]; intros q Hp Hq Np Nq E; [congruence|]. destruct q as [|l q]; [congruence|].
  apply Forall_cons_iff in Hp, Hq. destruct Hp as [[K1 K2] Hp], Hq as [[L1 L2] Hq].
  destruct p as [|k2 p], q as [|l2 q].
  - cbn in E. congruence.
  - exfalso. rewrite (dotted_cons l) in E by discriminate. cbn in E. subst k. apply K2. apply in_app_iff. right. now left.
  - exfalso. rewrite (dotted_cons k) in E by discriminate. cbn in E. subst l. apply L2. apply in_app_iff. right. now left.
  - rewrite (dotted_cons k), (dotted_cons l) in E by discriminate. apply app_sep_inj_l in E; [|assumption|assumption].
    destruct E as [-> E]. f_equal. apply IH; try assumption; discriminate.
Qed.

Let dot := lit ".".
Lemma full_key_inj prefix a b : a <> [] -> b <> [] -> full_key dot prefix a = full_key dot prefix b -> a = b.
Proof.
  intros Ha Hb. unfold full_key. destruct prefix as [|c prefix]; [tauto|]. intros H. apply app_inv_head in H. apply app_inv_head in H. exact H.
Qed.
Lemma full_key_step prefix k q : k <> [] -> q <> [] ->
  full_key dot (full_key dot prefix k) (dotted q) = full_key dot prefix (dotted (k :: q)).
Proof.
  intros Hk Hq. rewrite dotted_cons by exact Hq. unfold full_key. destruct prefix as [|c prefix].
  - destruct k; [congruence|]. reflexivity.
  - cbn [app]. rewrite <- !app_assoc. reflexivity.
Qed.
Lemma leaves_ne (d : list (str * cfg V)) p v : In (p, v) (leaves (Node d)) -> p <> [].
Proof. intros H. apply leaves_cons_in in H. destruct H as (k & t & q & _ & -> & _). discriminate. Qed.
Lemma dotted_ne p : p <> [] -> Forall plain_key p -> dotted p <> [].
Proof.
  intros Hp H. destruct p as [|k p]; [congruence|]. apply Forall_cons_iff in H. destruct H as [[H _] _].
  destruct p; [exact H|]. rewrite dotted_cons by discriminate. destruct k; [congruence|discriminate].
Qed.

Definition named (prefix : str) (l : list (list str * V)) : dict V := map (fun pv => (full_key dot prefix (dotted (fst pv)), snd pv)) l.

Lemma named_NoDup prefix d : dicts_ok (Node d) -> plain_keys (Node d) -> NoDup (map fst (named prefix (leaves (Node d)))).
Proof.
  intros Hd Hp. unfold named. rewrite map_map. cbn [fst]. rewrite <- (map_map fst (fun p => full_key dot prefix (dotted p))).
  apply NoDup_map_inj; [|now apply leaves_paths_NoDup]. intros p q H1 H2 E. apply in_map_iff in H1, H2.
  destruct H1 as ([p1 v1] & <- & H1). destruct H2 as ([q1 w1] & <- & H2). cbn [fst] in *.
  pose proof (leaves_ne _ _ _ H1). pose proof (leaves_ne _ _ _ H2).
  pose proof (leaves_plain _ Hp _ _ H1). pose proof (leaves_plain _ Hp _ _ H2).
  apply full_key_inj in E; [|now apply dotted_ne|now apply dotted_ne]. apply dotted_inj in E; assumption.
Qed.

(** The loop of flatten_dict. *)
Definition flatten_go (prefix : str) := fix go (d : list (str * cfg V)) (items : dict V) : dict V :=
  match d with
  | [] => items
  | (k, c) :: r =>
      match c with
      | Node _ => go r (dupdate items (flatten V dot (full_key dot prefix k) c))
      | Leaf v => go r (dset (full_key dot prefix k) v items)
      end
  end.
Lemma flatten_node prefix d : flatten V dot prefix (Node d) = flatten_go prefix d [].
Proof. reflexivity. Qed.

Lemma flatten_spec : forall t, dicts_ok t -> plain_keys t -> forall d, t = Node d -> forall prefix, flatten V dot prefix t = named prefix (leaves t).
Proof.
  induction t as [v|d0 IH] using cfg_ind2; intros Hd Hp d E prefix; [discriminate|]. clear d E. rewrite flatten_node.
  assert (H : forall items, flatten_go prefix d0 items = dupdate items (named prefix (leaves (Node d0)))).
  { inversion Hd as [|d' Hn Hc]; subst. inversion Hp as [|d' Hpc]; subst. clear Hd Hp.
    induction IH as [|[k t] d Ht Hf IH2]; intros items; [reflexivity|].
    cbn [leaves flat_map fst snd]. unfold named. rewrite map_app, dupdate_app. fold (named prefix). cbn [flatten_go].
    assert (Hk : plain_key k /\ plain_keys t) by (destruct (Hpc k t (or_introl eq_refl)) as (a & b & c); repeat split; assumption).
    destruct Hk as [Hk Hpt].
    assert (IH3 : forall items, flatten_go prefix d items = dupdate items (named prefix (leaves (Node d)))).
    { apply IH2; [cbn in Hn; now apply NoDup_cons_iff in Hn|intros k' t' H; apply (Hc k'); now right|intros k' t' H; apply Hpc; now right]. }
    destruct t as [v|e].
    - rewrite IH3. cbn [leaves map fst snd dotted]. unfold dupdate at 3. reflexivity.
    - rewrite IH3. f_equal. f_equal. rewrite (Ht (Hc _ _ (or_introl eq_refl)) Hpt e eq_refl). unfold named. rewrite map_map. apply map_ext_in.
      intros [q v] Hq. cbn [fst snd]. f_equal. apply full_key_step; [apply Hk|]. eapply leaves_ne. exact Hq. }
  rewrite H. rewrite dupdate_new; [reflexivity|now apply named_NoDup|easy].
Qed.
End Flat.

(** ** Batches *)
Lemma skipn_plus {A} (l : list A) a b : skipn a (skipn b l) = skipn (b + a) l.
Proof. revert l. induction b as [|b IH]; intros l; [reflexivity|]. destruct l; [now rewrite !skipn_nil|]. cbn. apply IH. Qed.
Lemma firstn_split {A} (l : list A) a b : firstn (a + b) l = firstn a l ++ firstn b (skipn a l).
Proof. revert l. induction a as [|a IH]; intros l; [reflexivity|]. destruct l; [now rewrite !firstn_nil|]. cbn. now rewrite IH. Qed.
Lemma batches_concat {A} (l : list A) n : List.length l = n -> forall m,
  List.concat (map (fun i => slice l (i * 100) (Nat.min ((i + 1) * 100) n)) (seq 0 m)) = firstn (m * 100) l.
Proof.
  intros Hl. induction m as [|m IH]; [reflexivity|]. rewrite seq_S, map_app, concat_app, IH. cbn [map List.concat]. rewrite app_nil_r.
  replace (S m * 100) with (m * 100 + 100) by lia. rewrite firstn_split. f_equal. unfold slice. cbn [Nat.add].
  destruct (Nat.le_gt_cases ((m + 1) * 100) n) as [H|H].
  - rewrite Nat.min_l by exact H. f_equal. lia.
  - rewrite Nat.min_r by lia. rewrite !firstn_all2; [reflexivity|rewrite skipn_length; lia|rewrite skipn_length; lia].
Qed.

(** ** filter_scalars *)
Section Filter.
Context {V : Type} (scalar : V -> bool).
Definition filter_go := fix go (d : list (str * cfg V)) (result : list (str * cfg V)) : list (str * cfg V) :=
  match d with
  | [] => result
  | (k, c) :: r =>
      match c with
      | Node _ => match filter_scalars V scalar c with Node [] => go r result | f => go r (dset k f result) end
      | Leaf v => if scalar v then go r (dset k (Leaf v) result) else go r result
      end
  end.
Lemma filter_node d : filter_scalars V scalar (Node d) = Node (filter_go d []).
Proof. reflexivity. Qed.
Definition keep (c : cfg V) : option (cfg V) :=
  match c with
  | Leaf v => if scalar v then Some (Leaf v) else None
  | Node _ => match filter_scalars V scalar c with Node [] => None | f => Some f end
  end.
Fixpoint kept (d : list (str * cfg V)) : list (str * cfg V) :=
  match d with
  | [] => []
  | (k, c) :: r => match keep c with Some f => (k, f) :: kept r | None => kept r end
  end.
Lemma kept_keys d k : In k (map fst (kept d)) -> In k (map fst d).
Proof.
  induction d as [|[k' c] d IH]; cbn [kept]; [easy|]. destruct (keep c); cbn; tauto.
Qed.
Lemma filter_go_spec : forall d result, NoDup (map fst d) -> (forall k, In k (map fst d) -> ~ In k (map fst result)) -> filter_go d result = result ++ kept d.
Proof.
  induction d as [|[k c] d IH]; intros result Hn Hd; [cbn; now rewrite app_nil_r|].
  cbn [map fst] in Hn. apply NoDup_cons_iff in Hn. destruct Hn as [Hn1 Hn2].
  assert (E : filter_go ((k, c) :: d) result = match keep c with Some f => filter_go d (dset k f result) | None => filter_go d result end).
  { destruct c as [v|e]; unfold keep; cbn [filter_go]; [destruct (scalar v); reflexivity|]. destruct (filter_scalars V scalar (Node e)) as [v|[|x l]]; reflexivity. }
  rewrite E. cbn [kept]. destruct (keep c) as [f|].
  - rewrite dset_new by (apply Hd; now left). rewrite IH; [now rewrite <- app_assoc|exact Hn2|].
    intros k' H'. rewrite map_app. intros H. apply in_app_iff in H. destruct H as [H|[H|[]]]; [eapply Hd; [right; exact H'|exact H]|]. cbn in H. subst. tauto.
  - apply IH; [exact Hn2|]. intros k' H'. apply Hd. now right.
Qed.
Lemma leaves_empty_only : forall t : cfg V, no_empty t -> leaves t = [] -> t = Node [].
Proof.
  induction t as [v|d IH] using cfg_ind2; intros Hne He; [discriminate|]. destruct d as [|[k c] d]; [reflexivity|]. exfalso.
  cbn [leaves flat_map fst snd] in He. apply app_eq_nil in He. destruct He as [He _]. apply map_eq_nil in He.
  inversion Hne as [|d' Hc]; subst. destruct (Hc k c (or_introl eq_refl)) as [H1 H2]. apply Forall_inv in IH. apply H1. now apply IH.
Qed.
Lemma filter_spec : forall t, dicts_ok t -> forall d, t = Node d ->
  leaves (filter_scalars V scalar t) = filter (fun pv => scalar (snd pv)) (leaves t) /\ no_empty (filter_scalars V scalar t) /\ dicts_ok (filter_scalars V scalar t).
Proof.
  induction t as [v|d0 IH] using cfg_ind2; intros Hd d E; [discriminate|]. clear d E. rewrite filter_node.
  inversion Hd as [|d' Hn Hc]; subst. rewrite filter_go_spec; [|exact Hn|easy]. cbn [app]. clear Hd.
  assert (HK : leaves (Node (kept d0)) = filter (fun pv => scalar (snd pv)) (leaves (Node d0)) /\ no_empty (Node (kept d0)) /\ (forall k t, In (k, t) (kept d0) -> dicts_ok t)).
  { induction IH as [|[k t] d Ht Hf IH2]; [cbn; repeat split; [constructor; easy|easy]|].
    cbn [map fst] in Hn. apply NoDup_cons_iff in Hn. destruct Hn as [Hn1 Hn2].
    destruct (IH2 Hn2 (fun k' t' H => Hc k' t' (or_intror H))) as (I1 & I2 & I3). clear IH2. cbn [snd] in Ht.
    assert (F : forall l, filter (fun pv : list str * V => scalar (snd pv)) (map (fun pv => (k :: fst pv, snd pv)) l) = map (fun pv => (k :: fst pv, snd pv)) (filter (fun pv => scalar (snd pv)) l)).
    { induction l as [|[p w] l IHl]; [reflexivity|]. cbn [map filter fst snd]. rewrite IHl. now destruct (scalar w). }
    cbn [leaves flat_map fst snd]. rewrite filter_app, F. change (flat_map _ d) with (leaves (Node d)). rewrite <- I1.
    assert (Hdt : dicts_ok t) by (apply (Hc k); now left).
    assert (K : match keep t with Some f => leaves f = filter (fun pv => scalar (snd pv)) (leaves t) /\ f <> Node [] /\ no_empty f /\ dicts_ok f
                | None => filter (fun pv => scalar (snd pv)) (leaves t) = [] end).
    { destruct t as [v|e].
      - cbn [keep leaves filter snd]. destruct (scalar v); [repeat split; [discriminate|constructor|constructor]|reflexivity].
      - destruct (Ht Hdt e eq_refl) as (J1 & J2 & J3). unfold keep. destruct (filter_scalars V scalar (Node e)) as [v|[|x l]] eqn:E.
        + rewrite filter_node in E. discriminate.
        + rewrite <- J1. reflexivity.
        + repeat split; [exact J1|discriminate|exact J2|exact J3]. }
    cbn [kept]. destruct (keep t) as [f|].
    - destruct K as (K1 & K2 & K3 & K4). split; [cbn [leaves flat_map fst snd]; now rewrite K1|]. split.
      + constructor. intros k' t' [H|H]; [injection H as <- <-; now split|]. inversion I2 as [|d' Hx]; subst. now apply (Hx k').
      + intros k' t' [H|H]; [injection H as <- <-; exact K4|]. now apply (I3 k').
    - rewrite K. cbn [map app]. split; [reflexivity|]. split; [exact I2|exact I3]. }
  destruct HK as (H1 & H2 & H3). split; [exact H1|]. split; [exact H2|]. constructor; [|exact H3].
  clear - Hn. induction d0 as [|[k c] d IH]; [constructor|]. cbn [map fst] in Hn. apply NoDup_cons_iff in Hn. destruct Hn as [N1 N2]. cbn [kept].
  destruct (keep c); [|now apply IH]. cbn [map fst]. constructor; [|now apply IH]. intros H. apply N1. now apply kept_keys.
Qed.
End Filter.

(** ** Run ids *)
Section Utf8.
Local Open Scope N_scope.
Lemma int8_roundtrip b : b < 256 -> int8_byte (as_int8 b) = b /\ (-128 <= as_int8 b < 128)%Z.
Proof.
  intros H. unfold int8_byte, as_int8. destruct (N.ltb_spec b 128).
  - rewrite Z.mod_small by lia. lia.
  - replace (Z.of_N b - 256)%Z with (Z.of_N b + (-1) * 256)%Z by lia. rewrite Z.mod_add by lia. rewrite Z.mod_small by lia. lia.
Qed.
Lemma utf8_char_total c : scalar_value c <-> exists bs, utf8_char c = Some bs.
Proof.
  unfold scalar_value, utf8_char.
  destruct (N.ltb_spec c 128), (N.ltb_spec c 2048), (N.leb_spec 55296 c), (N.ltb_spec c 57344), (N.ltb_spec c 65536), (N.ltb_spec c 1114112); cbn [andb];
    first [split; [intros _; eexists; reflexivity|intros _; lia]|split; [intros; exfalso; lia|intros [bs K]; discriminate]|exfalso; lia].
Qed.
Lemma byte_parts c : c / 64 = (c / 4096) * 64 + (c / 64) mod 64 /\ c = (c / 64) * 64 + c mod 64 /\ c / 4096 = (c / 262144) * 64 + (c / 4096) mod 64 /\
  c mod 64 < 64 /\ (c / 64) mod 64 < 64 /\ (c / 4096) mod 64 < 64.
Proof.
  assert (H1 := N.div_mod c 64 ltac:(lia)). assert (H2 := N.div_mod (c / 64) 64 ltac:(lia)). assert (H3 := N.div_mod (c / 4096) 64 ltac:(lia)).
  rewrite N.div_div in H2 by lia. rewrite N.div_div in H3 by lia. change (64 * 64) with 4096 in H2. change (4096 * 64) with 262144 in H3.
  pose proof (N.mod_lt c 64 ltac:(lia)). pose proof (N.mod_lt (c / 64) 64 ltac:(lia)). pose proof (N.mod_lt (c / 4096) 64 ltac:(lia)). lia.
Qed.
Lemma cont_true b : b < 64 -> cont (128 + b) = true.
Proof. intros H. unfold cont. apply andb_true_intro. split; [apply N.leb_le; lia|apply N.ltb_lt; lia]. Qed.
Ltac some_inv H := match type of H with Some ?a = Some ?b => let E := fresh in assert (E : b = a) by congruence; rewrite E; clear H E end.
Lemma decode_char c bs : utf8_char c = Some bs -> (List.length bs > 0)%nat /\ Forall (fun b => b < 256) bs /\
  forall fuel r, utf8_decode (S fuel) (bs ++ r) = match utf8_decode fuel r with Some s => Some (c :: s) | None => None end.
Proof.
  intros H. assert (Hs : scalar_value c) by (apply utf8_char_total; eauto). unfold scalar_value in Hs.
  destruct (byte_parts c) as (P1 & P2 & P3 & P4 & P5 & P6). unfold utf8_char in H.
  revert H P1 P2 P3 P4 P5 P6. generalize (c mod 64), ((c / 64) mod 64), ((c / 4096) mod 64). generalize (c / 64), (c / 4096), (c / 262144).
  intros q1 q2 q3 m0 m1 m2 H P1 P2 P3 P4 P5 P6.
  destruct (N.ltb_spec c 128).
  { some_inv H. split; [cbn; lia|]. split; [repeat (apply Forall_cons; [cbv beta; lia|]); apply Forall_nil|]. intros fuel r. cbn [app utf8_decode]. destruct (N.ltb_spec c 128); [reflexivity|lia]. }
  destruct (N.ltb_spec c 2048).
  { some_inv H. split; [cbn; lia|]. split; [repeat (apply Forall_cons; [cbv beta; lia|]); apply Forall_nil|]. intros fuel r. cbn [app utf8_decode].
    destruct (N.ltb_spec (192 + q1) 128); [lia|]. destruct (N.leb_spec 194 (192 + q1)); [|lia]. destruct (N.ltb_spec (192 + q1) 224); [|lia].
    cbn [andb]. rewrite cont_true by lia. replace ((192 + q1 - 192) * 64 + (128 + m0 - 128)) with c by lia. reflexivity. }
  destruct ((55296 <=? c) && (c <? 57344)) eqn:Es; [discriminate|].
  destruct (N.ltb_spec c 65536).
  { some_inv H. split; [cbn; lia|]. split; [repeat (apply Forall_cons; [cbv beta; lia|]); apply Forall_nil|]. intros fuel r. cbn [app utf8_decode].
    destruct (N.ltb_spec (224 + q2) 128); [lia|]. destruct (N.ltb_spec (224 + q2) 224); [lia|]. rewrite andb_false_r.
    destruct (N.leb_spec 224 (224 + q2)); [|lia]. destruct (N.ltb_spec (224 + q2) 240); [|lia]. cbn [andb].
    rewrite !cont_true by lia. replace ((224 + q2 - 224) * 4096 + (128 + m1 - 128) * 64 + (128 + m0 - 128)) with c by lia.
    rewrite Es. destruct (N.leb_spec 2048 c); [|lia]. reflexivity. }
  destruct (N.ltb_spec c 1114112); [|discriminate].
  some_inv H. split; [cbn; lia|]. split; [repeat (apply Forall_cons; [cbv beta; lia|]); apply Forall_nil|]. intros fuel r. cbn [app utf8_decode].
  destruct (N.ltb_spec (240 + q3) 128); [lia|]. destruct (N.ltb_spec (240 + q3) 224); [lia|]. rewrite andb_false_r.
  destruct (N.ltb_spec (240 + q3) 240); [lia|]. rewrite andb_false_r.
  destruct (N.leb_spec 240 (240 + q3)); [|lia]. destruct (N.ltb_spec (240 + q3) 245); [|lia]. cbn [andb].
  rewrite !cont_true by lia.
  replace ((240 + q3 - 240) * 262144 + (128 + m2 - 128) * 4096 + (128 + m1 - 128) * 64 + (128 + m0 - 128)) with c by lia.
  destruct (N.leb_spec 65536 c); [|lia]. destruct (N.ltb_spec c 1114112); [|lia]. reflexivity.
Qed.
Lemma encode_decode : forall s bs, utf8_encode s = Some bs -> Forall (fun b => b < 256) bs /\ (List.length s <= List.length bs)%nat /\
  forall fuel, (List.length s <= fuel)%nat -> utf8_decode fuel bs = Some s.
Proof.
  induction s as [|c s IH]; intros bs H; cbn [utf8_encode] in H.
  - injection H as <-. split; [constructor|]. split; [cbn; lia|]. intros [|fuel] _; reflexivity.
  - destruct (utf8_char c) as [a|] eqn:Ec; [|discriminate]. destruct (utf8_encode s) as [b|] eqn:Es; [|discriminate]. injection H as <-.
    destruct (IH _ eq_refl) as (I1 & I2 & I3). destruct (decode_char _ _ Ec) as (J1 & J2 & J3). split; [now apply Forall_app|].
    split; [rewrite app_length; cbn [List.length]; lia|]. intros [|fuel] Hf; cbn [List.length] in Hf; [lia|]. rewrite J3, I3; [reflexivity|lia].
Qed.
End Utf8.
