(** Lemmas about the deck model: structure of parsed decks, fuel, comments in a whole text,
    overrides, flat names. *)
From Verif Require Import PyStr Deck DeckSpec DeckProofs.

(** ** What the parser can return, and fuel *)
Section Structure.
Variable M : floats.

(** A key as the lexer produces it. *)
Definition lex_key (k : str) : Prop :=
  is_identifier k \/ exists id body, is_identifier id /\ k = id ++ "("%char :: body ++ [")"%char] /\
    ~ In ")"%char body.

Lemma skip_ws_len s : List.length (skip_ws s) <= List.length s.
Proof. induction s as [|c s IH]; simpl; [lia|]. destruct (is_ws c); simpl; lia. Qed.

Lemma match_ident_inv s id r : match_ident s = Some (id, r) ->
  is_identifier id /\ s = id ++ r /\ 1 <= List.length id.
Proof.
  destruct s as [|c s]; simpl; [discriminate|]. destruct (ident_start c) eqn:Hc; [|discriminate].
  destruct (span ident_char s) as [a b] eqn:E. intros H; injection H as <- <-.
  split; [|split].
  - rewrite identifier_bool. split; [exact Hc|]. apply (span_fst_all _ _ _ _ E).
  - simpl. f_equal. apply (span_eq _ _ _ _ E).
  - simpl; lia.
Qed.

Lemma match_key_inv s k r : match_key s = Some (k, r) ->
  lex_key k /\ s = k ++ r /\ 1 <= List.length k.
Proof.
  unfold match_key. destruct (match_ident s) as [[id r0]|] eqn:E; [|discriminate].
  apply match_ident_inv in E as (Hid & -> & Hlen).
  destruct r0 as [|c r0]; [intros H; injection H as <- <-; repeat split; [left; exact Hid|exact Hlen]|].
  unfold aeqb. destruct (Ascii.eqb_spec c "(") as [->|Hn];
    [|intros H; injection H as <- <-; repeat split; [left; exact Hid|exact Hlen]].
  destruct (span (fun x => negb (Ascii.eqb x ")")) r0) as [a b] eqn:E.
  pose proof (span_eq _ _ _ _ E) as Er0. pose proof (span_fst_all _ _ _ _ E) as Ha.
  pose proof (span_snd _ _ _ _ E) as Hb. rewrite Er0.
  destruct b as [|d b]; intros H; injection H as <- <-.
  - repeat split; [left; exact Hid|exact Hlen].
  - apply negb_false_iff, Ascii.eqb_eq in Hb. subst d. split; [|split].
    + right. exists id, a. repeat split; [exact Hid|].
      intros Hi. rewrite forallb_forall in Ha. specialize (Ha _ Hi). discriminate.
    + rewrite <- app_assoc. cbn [app]. f_equal. f_equal. rewrite <- app_assoc. reflexivity.
    + rewrite app_length. simpl. lia.
Qed.

Lemma scan_value_len q s : List.length (snd (scan_value q s)) <= List.length s.
Proof.
  revert q; induction s as [|c s IH]; intros q; simpl; [lia|].
  destruct q as [qc|].
  - specialize (IH (if aeqb c qc then None else Some qc)). destruct (scan_value _ s); simpl in *; lia.
  - destruct (is_quote c); [specialize (IH (Some c)); destruct (scan_value _ s); simpl in *; lia|].
    destruct (aeqb c "}"); [simpl; lia|]. destruct (aeqb c "," && peek_key_eq s); [simpl; lia|].
    specialize (IH None). destruct (scan_value _ s); simpl in *; lia.
Qed.

Lemma split_commas_pieces_not_list v : parse_value M v = VList M [] -> False.
Proof. unfold parse_value. destruct (split_top_commas v) as [|p [|q r]]; discriminate. Qed.

Definition value_shape (v : value M) : Prop :=
  match v with VAtom _ _ => True | VList _ l => 2 <= List.length l end.
Lemma parse_value_shape rhs : value_shape (parse_value M rhs).
Proof.
  unfold parse_value. destruct (split_top_commas rhs) as [|p [|q r]]; simpl; try exact I.
  rewrite map_length. lia.
Qed.

Definition params_struct (ps : params M) : Prop :=
  NoDup (dkeys ps) /\ Forall (fun kv => lex_key (fst kv) /\ value_shape (snd kv)) ps.

Lemma dset_Forall {V} (P : str * V -> Prop) k v (d : dict V) :
  Forall P d -> P (k, v) -> Forall P (dset k v d).
Proof.
  intros H Hk. induction d as [|[k' v'] d IH]; simpl; [repeat constructor; exact Hk|].
  apply Forall_cons_iff in H as [H1 H2].
  destruct (str_eqb_spec k k') as [->|Hn]; constructor; auto.
Qed.

Lemma parse_params_struct : forall fuel name ps s r,
  parse_params M fuel name ps s = r ->
  List.length s < fuel -> params_struct ps ->
  match r with
  | Ok (ps', rest) => params_struct ps' /\ List.length rest < List.length s
  | Err e => e <> OutOfFuel
  end.
Proof.
  induction fuel as [|fuel IH]; intros name ps s r <- Hf Hps; [lia|]. cbn [parse_params].
  pose proof (skip_ws_len s) as Hs. destruct (skip_ws s) as [|c s1] eqn:Es; [discriminate|].
  destruct (aeqb c "}"); [split; [exact Hps|simpl in Hs; lia]|].
  destruct (match_key (c :: s1)) as [[key r0]|] eqn:Ek; [|discriminate].
  apply match_key_inv in Ek as (Hkey & Eapp & Hklen).
  pose proof (skip_ws_len r0) as Hr0. destruct (skip_ws r0) as [|e r1] eqn:Er0; [discriminate|].
  destruct (aeqb e "="); [|discriminate].
  pose proof (scan_value_len None r1) as Hsv. destruct (scan_value None r1) as [vt r2]. cbn [snd] in Hsv.
  set (r3 := match r2 with [] => [] | x :: r' => if aeqb x "," then r' else r2 end).
  assert (Hr3 : List.length r3 <= List.length r2).
  { unfold r3. destruct r2 as [|x r2]; [lia|]. destruct (aeqb x ","); simpl; lia. }
  assert (Htot : List.length (c :: s1) = List.length key + List.length r0) by (rewrite Eapp, app_length; reflexivity).
  cbn [List.length] in *.
  specialize (IH name (dset key (parse_value M (strip vt)) ps) r3 _ eq_refl ltac:(lia)).
  destruct (parse_params M fuel name _ r3) as [[ps' rest]|e'].
  - destruct IH as [I1 I2]; [|split; [exact I1|lia]].
    destruct Hps as [Hn Hfa]. split; [apply NoDup_dkeys_dset, Hn|].
    apply dset_Forall; [exact Hfa|]. split; [exact Hkey|apply parse_value_shape].
  - apply IH. destruct Hps as [Hn Hfa]. split; [apply NoDup_dkeys_dset, Hn|].
    apply dset_Forall; [exact Hfa|]. split; [exact Hkey|apply parse_value_shape].
Qed.

Definition sec_struct (s : section M) : Prop := is_identifier (fst s) /\ params_struct (snd s).

Lemma parse_sections_struct : forall fuel s,
  List.length s < fuel ->
  match parse_sections M fuel s with
  | Ok secs => Forall sec_struct secs
  | Err e => e <> OutOfFuel
  end.
Proof.
  induction fuel as [|fuel IH]; intros s Hf; [lia|]. cbn [parse_sections].
  pose proof (skip_ws_len s) as Hs. destruct (skip_ws s) as [|c s1] eqn:Es; [constructor|].
  destruct (match_ident (c :: s1)) as [[name r]|] eqn:Ei; [|discriminate].
  apply match_ident_inv in Ei as (Hid & Eapp & Hlen).
  pose proof (skip_ws_len r) as Hr. destruct (skip_ws r) as [|b r1] eqn:Er; [discriminate|].
  destruct (aeqb b "{"); [|discriminate].
  assert (Htot : List.length (c :: s1) = List.length name + List.length r) by (rewrite Eapp, app_length; reflexivity).
  cbn [List.length] in *.
  pose proof (parse_params_struct (S (List.length r1)) name [] r1 _ eq_refl ltac:(lia)
                ltac:(split; [constructor|constructor])) as HP.
  cbn [bind]. destruct (parse_params M (S (List.length r1)) name [] r1) as [[ps rest]|e]; [|exact HP].
  cbn [bind fst snd]. destruct HP as [HP1 HP2].
  specialize (IH rest ltac:(lia)). destruct (parse_sections M fuel rest) as [secs|e]; [|exact IH].
  cbn [bind]. constructor; [split; assumption|exact IH].
Qed.

Lemma parse_deck_fuel text : parse_deck M text <> Err OutOfFuel.
Proof.
  unfold parse_deck. pose proof (parse_sections_struct (S (List.length (deck_src text))) (deck_src text) ltac:(lia)) as H.
  destruct (parse_sections M _ _) as [secs|e]; [discriminate|congruence].
Qed.

Lemma parse_deck_struct text secs : parse_deck M text = Ok secs -> Forall sec_struct secs.
Proof.
  unfold parse_deck. pose proof (parse_sections_struct (S (List.length (deck_src text))) (deck_src text) ltac:(lia)) as H.
  intros E. rewrite E in H. exact H.
Qed.

Lemma reparse text secs :
  parse_deck M text = Ok secs ->
  Forall (fun s => Forall (fun kv => plain_key (fst kv) /\ plain_value M (snd kv)) (snd s)) secs ->
  parse_deck M (render_deck M secs) = Ok secs.
Proof.
  intros Hp Hv. apply parse_render. apply parse_deck_struct in Hp.
  unfold deck_ok. rewrite Forall_forall in *. intros s Hs.
  specialize (Hp s Hs). specialize (Hv s Hs). destruct Hp as (Hid & Hnd & Hst).
  split; [exact Hid|split; [exact Hnd|]]. rewrite Forall_forall in *. intros kv Hkv.
  specialize (Hst kv Hkv). specialize (Hv kv Hkv). destruct Hst as [Hk Hsh]. destruct Hv as [(Hnl & Hb & Hd & Hq) Hpv].
  split.
  - destruct Hk as [Hk|(id & body & Hi & E & Hc)]; [left; exact Hk|]. right. exists id, body.
    rewrite E in *. split; [exact Hi|split; [reflexivity|]].
    assert (Hin : forall x, In x body -> In x (id ++ "("%char :: body ++ [")"%char])).
    { intros x Hx. apply in_or_app; right; right. apply in_or_app; left; exact Hx. }
    split.
    + unfold no_line_break in *. rewrite Forall_forall in *. intros x Hx. apply Hnl, Hin, Hx.
    + apply Forall_forall. intros x Hx. repeat split; intros ->; [tauto|apply Hb|apply Hd|apply Hq]; apply Hin, Hx.
  - destruct (snd kv) as [a|l]; simpl in *; [exact Hpv|]. tauto.
Qed.
End Structure.

(** ** Comments in a whole text *)
Lemma splitlines_aux_app_nl : forall n p cur s, List.length p < n ->
  splitlines_aux cur (p ++ newline :: s) = splitlines_aux cur (p ++ [newline]) ++ splitlines_aux [] s.
Proof.
  induction n as [|n IH]; intros p cur s Hn; [lia|].
  destruct p as [|c p].
  - cbn [app splitlines_aux]. change (is_linebreak newline) with true. cbv iota.
    destruct s as [|d s]; [reflexivity|]. reflexivity.
  - cbn [app splitlines_aux]. destruct (is_linebreak c) eqn:Ec.
    + destruct p as [|d p].
      * cbn [app]. destruct (Nat.eqb (code c) 13) eqn:E13.
        { change (Nat.eqb (code newline) 10) with true. cbn [andb]. reflexivity. }
        cbn [andb]. cbn [app]. f_equal.
        pose proof (IH [] [] s ltac:(simpl in *; lia)) as H0. cbn [app] in H0. exact H0.
      * cbn [app]. destruct (Nat.eqb (code c) 13 && Nat.eqb (code d) 10).
        { cbn [app]. f_equal. apply IH. simpl in Hn; lia. }
        cbn [app]. f_equal. apply (IH (d :: p)). simpl in *; lia.
    + apply IH. simpl in Hn; lia.
Qed.
Lemma splitlines_app_nl p s : splitlines (p ++ newline :: s) = splitlines (p ++ [newline]) ++ splitlines s.
Proof. apply (splitlines_aux_app_nl (S (List.length p))). lia. Qed.

Lemma splitlines_line_between pre l post : starts_line pre -> no_line_break l ->
  exists A, splitlines (pre ++ l ++ newline :: post) = A ++ [l] ++ splitlines post /\
            A = splitlines pre.
Proof.
  intros Hpre Hl. exists (splitlines pre). split; [|reflexivity].
  assert (E1 : splitlines (l ++ newline :: post) = l :: splitlines post).
  { rewrite splitlines_app_nl. pose proof (splitlines_concat [l] ltac:(constructor; [exact Hl|constructor])) as H.
    cbn [map List.concat] in H. rewrite app_nil_r in H. rewrite H. reflexivity. }
  destruct Hpre as [->|(p & ->)].
  - exact E1.
  - rewrite <- app_assoc. cbn [app]. rewrite splitlines_app_nl, E1. reflexivity.
Qed.

Lemma no_line_break_app a b : no_line_break a -> no_line_break b -> no_line_break (a ++ b).
Proof. unfold no_line_break; intros; apply Forall_app; split; assumption. Qed.

Lemma parse_comment M pre l c post :
  starts_line pre -> no_line_break l -> no_line_break c -> open_quote None l = None ->
  parse_deck M (pre ++ (l ++ "!"%char :: c) ++ newline :: post) = parse_deck M (pre ++ l ++ newline :: post).
Proof.
  intros Hpre Hl Hc Hq. unfold parse_deck, deck_src.
  assert (Hlc : no_line_break (l ++ "!"%char :: c)).
  { apply no_line_break_app; [exact Hl|]. constructor; [reflexivity|exact Hc]. }
  destruct (splitlines_line_between pre _ post Hpre Hlc) as (A & -> & ->).
  destruct (splitlines_line_between pre _ post Hpre Hl) as (A & -> & ->).
  rewrite !map_app. cbn [map].
  replace (strip_comment (l ++ "!"%char :: c)) with (strip_comment l); [reflexivity|].
  symmetry. apply strip_comment_append, Hq.
Qed.

(** Exact characterisation of the stripper: the longest prefix before the first unquoted '!'. *)
Lemma strip_comment_exact q s : exists rest,
  s = strip_comment_aux q s ++ rest /\
  (forall p r, strip_comment_aux q s = p ++ "!"%char :: r -> open_quote q p <> None) /\
  (rest = [] \/ (exists r, rest = "!"%char :: r) /\ open_quote q (strip_comment_aux q s) = None).
Proof.
  revert q; induction s as [|ch s IH]; intros q.
  - exists []. split; [reflexivity|]. split; [|left; reflexivity].
    intros p r H; destruct p; discriminate.
  - assert (STEP : forall q', (forall r, ch :: r = "!"%char :: r -> q <> None) ->
        open_quote q [ch] = q' ->
        strip_comment_aux q (ch :: s) = ch :: strip_comment_aux q' s ->
        (forall x, open_quote q (ch :: x) = open_quote q' x) ->
        exists rest, ch :: s = strip_comment_aux q (ch :: s) ++ rest /\
          (forall p r, strip_comment_aux q (ch :: s) = p ++ "!"%char :: r -> open_quote q p <> None) /\
          (rest = [] \/ (exists r, rest = "!"%char :: r) /\ open_quote q (strip_comment_aux q (ch :: s)) = None)).
    { intros q' H1 H2 H3 H4. destruct (IH q') as (rest & E & Hp & Hr). exists rest. rewrite H3. split; [|split].
      - cbn [app]. f_equal. exact E.
      - intros p r Hpr. destruct p as [|x p]; cbn [app] in Hpr.
        + injection Hpr as -> _. simpl. apply (H1 []); reflexivity.
        + injection Hpr as <- Hpr. rewrite H4. apply (Hp p r Hpr).
      - destruct Hr as [->|[Hr1 Hr2]]; [left; reflexivity|]. right. split; [exact Hr1|]. rewrite H4; exact Hr2. }
    destruct q as [qc|].
    + apply (STEP (if aeqb ch qc then None else Some qc)); try reflexivity. discriminate.
    + destruct (is_quote ch) eqn:Eq.
      * apply (STEP (Some ch)).
        { intros r Hr. injection Hr as ->. discriminate. }
        { simpl. unfold is_quote, aeqb in Eq. rewrite Eq. reflexivity. }
        { cbn [strip_comment_aux]. rewrite Eq. reflexivity. }
        { intros x. simpl. unfold is_quote, aeqb in Eq. rewrite Eq. reflexivity. }
      * destruct (aeqb ch "!") eqn:Eb.
        { apply Ascii.eqb_eq in Eb. subst ch. exists ("!"%char :: s). cbn [strip_comment_aux].
          change (is_quote "!") with false. change (aeqb "!" "!") with true. cbv iota.
          split; [reflexivity|]. split; [intros p r H; destruct p; discriminate|].
          right. split; [eexists; reflexivity|reflexivity]. }
        { apply (STEP None).
          - intros r Hr. injection Hr as ->. discriminate.
          - simpl. unfold is_quote, aeqb in Eq. rewrite Eq. reflexivity.
          - cbn [strip_comment_aux]. rewrite Eq, Eb. reflexivity.
          - intros x. simpl. unfold is_quote, aeqb in Eq. rewrite Eq. reflexivity. }
Qed.

(** ** Overrides *)
Section MergeFacts.
Context {V : Type}.
Implicit Type ps : dict V.

Lemma base_name_spec req k : base_name k = req <-> has_base req k.
Proof.
  unfold base_name, has_base. destruct (span (fun c => negb (aeqb c "(")) k) as [a b] eqn:E.
  cbn [fst]. pose proof (span_eq _ _ _ _ E) as Ek. pose proof (span_fst_all _ _ _ _ E) as Ha.
  pose proof (span_snd _ _ _ _ E) as Hb. split.
  - intros <-. split.
    + intros Hi. rewrite forallb_forall in Ha. specialize (Ha _ Hi). discriminate.
    + destruct b as [|c b]; [left; rewrite Ek, app_nil_r; reflexivity|].
      right. exists b. apply negb_false_iff, Ascii.eqb_eq in Hb. subst c. exact Ek.
  - intros [Hn H].
    assert (Hreq : forallb (fun c => negb (aeqb c "(")) req = true).
    { apply forallb_forall. intros x Hx. unfold aeqb. destruct (Ascii.eqb_spec x "("); [subst; contradiction|reflexivity]. }
    destruct H as [->|[body ->]].
    + rewrite (span_all _ _ Hreq) in E. congruence.
    + rewrite (span_app _ _ _ Hreq) in E by reflexivity. congruence.
Qed.

Lemma find_param_key_addr ps req tgt : NoDup (dkeys ps) ->
  find_param_key ps req = Ok tgt <-> addresses (dkeys ps) req tgt.
Proof.
  intros Hnd. unfold find_param_key.
  set (F := filter (fun k => str_eqb (base_name k) req) (dkeys ps)).
  assert (HF : forall k, In k F <-> In k (dkeys ps) /\ has_base req k).
  { intros k. unfold F. rewrite filter_In, str_eqb_eq, base_name_spec. tauto. }
  assert (HndF : NoDup F) by (apply NoDup_filter, Hnd).
  destruct (dmem req ps) eqn:Em.
  - apply dmem_In in Em. split.
    + intros H; injection H as <-. constructor; exact Em.
    + intros H; inversion H; subst; [reflexivity|contradiction|reflexivity].
  - assert (Hn : ~ In req (dkeys ps)) by (rewrite <- dmem_In, Em; discriminate).
    destruct F as [|c [|d F']].
    + split.
      * intros H; injection H as <-. apply addr_new; [exact Hn|].
        intros k' Hk' Hb. destruct (proj2 (HF k') (conj Hk' Hb)).
      * intros H; inversion H; subst; try reflexivity.
        exfalso. match goal with X : has_base _ ?k |- _ => destruct (proj2 (HF k)); auto end.
    + assert (Hc : In c (dkeys ps) /\ has_base req c) by (apply HF; left; reflexivity).
      split.
      * intros H; injection H as <-. apply addr_base; try tauto.
        intros k' Hk' Hb. destruct (proj2 (HF k') (conj Hk' Hb)) as [E|[]]; congruence.
      * intros H; inversion H; subst; [contradiction| |].
        { match goal with X : forall k', _ -> _ -> k' = tgt |- _ => rewrite (X c) by tauto; reflexivity end. }
        { exfalso. match goal with X : forall k', In k' _ -> ~ _ |- _ => apply (X c); tauto end. }
    + assert (Hc : In c (dkeys ps) /\ has_base req c) by (apply HF; left; reflexivity).
      assert (Hd : In d (dkeys ps) /\ has_base req d) by (apply HF; right; left; reflexivity).
      assert (Hcd : c <> d) by (intros ->; inversion HndF as [|? ? Hni _]; apply Hni; left; reflexivity).
      split; [discriminate|]. intros H; inversion H; subst; [contradiction| |].
      * exfalso; apply Hcd. match goal with X : forall k', _ -> _ -> k' = tgt |- _ => rewrite (X c), (X d) by tauto; reflexivity end.
      * exfalso. match goal with X : forall k', In k' _ -> ~ _ |- _ => apply (X c); tauto end.
Qed.

Lemma find_param_key_err ps req e : NoDup (dkeys ps) ->
  find_param_key ps req = Err e <-> e = AmbiguousKey req /\ ambiguous (dkeys ps) req.
Proof.
  intros Hnd. unfold find_param_key, ambiguous.
  set (F := filter (fun k => str_eqb (base_name k) req) (dkeys ps)).
  assert (HF : forall k, In k F <-> In k (dkeys ps) /\ has_base req k).
  { intros k. unfold F. rewrite filter_In, str_eqb_eq, base_name_spec. tauto. }
  assert (HndF : NoDup F) by (apply NoDup_filter, Hnd).
  destruct (dmem req ps) eqn:Em.
  - apply dmem_In in Em. split; [discriminate|]. intros (_ & H & _); contradiction.
  - assert (Hn : ~ In req (dkeys ps)) by (rewrite <- dmem_In, Em; discriminate).
    destruct F as [|c [|d F']].
    + split; [discriminate|]. intros (_ & _ & k1 & k2 & _ & H1 & _ & H2 & _).
      destruct (proj2 (HF k1) (conj H1 H2)).
    + split; [discriminate|]. intros (_ & _ & k1 & k2 & Hne & H1 & H2 & H3 & H4).
      destruct (proj2 (HF k1) (conj H1 H3)) as [E1|[]]. destruct (proj2 (HF k2) (conj H2 H4)) as [E2|[]]. congruence.
    + assert (Hc : In c (dkeys ps) /\ has_base req c) by (apply HF; left; reflexivity).
      assert (Hd : In d (dkeys ps) /\ has_base req d) by (apply HF; right; left; reflexivity).
      assert (Hcd : c <> d) by (intros ->; inversion HndF as [|? ? Hni _]; apply Hni; left; reflexivity).
      split.
      * intros H; injection H as <-. split; [reflexivity|]. split; [exact Hn|]. exists c, d. tauto.
      * intros [-> _]. reflexivity.
Qed.

(** [dset] in the form used by the specification. *)
Lemma dset_spec ps tgt v : NoDup (dkeys ps) ->
  dset tgt v ps = match find (fun kv => str_eqb (fst kv) tgt) ps with
                  | Some _ => map (fun kv => if str_eqb (fst kv) tgt then (fst kv, v) else kv) ps
                  | None => ps ++ [(tgt, v)]
                  end.
Proof.
  intros Hnd.
  assert (Hf : match find (fun kv => str_eqb (fst kv) tgt) ps with Some _ => In tgt (dkeys ps) | None => ~ In tgt (dkeys ps) end).
  { destruct (find _ ps) as [[k w]|] eqn:E.
    - apply find_some in E as [Hi E]. apply str_eqb_eq in E. simpl in E. subst k. apply (in_map fst) in Hi; exact Hi.
    - intros Hi. apply in_map_iff in Hi as ([k w] & Ek & Hi). simpl in Ek; subst k.
      apply (find_none _ _ E) in Hi. simpl in Hi. rewrite str_eqb_refl in Hi; discriminate. }
  destruct (find _ ps) as [x|]; [|apply dset_new, Hf]. clear x.
  unfold dkeys in *. revert Hnd Hf. induction ps as [|[k w] ps IH]; [intros _ []|]. intros Hnd Hf. simpl in *.
  apply NoDup_cons_iff in Hnd as [Hni Hnd].
  destruct (str_eqb_spec tgt k) as [->|Hne].
  - rewrite str_eqb_refl. f_equal. rewrite <- map_id at 1. apply map_ext_in. intros [k' w'] Hi. simpl.
    destruct (str_eqb_spec k' k) as [->|]; [|reflexivity]. exfalso; apply Hni.
    apply (in_map fst) in Hi; exact Hi.
  - destruct (str_eqb_spec k tgt); [congruence|]. f_equal. apply IH; [exact Hnd|].
    destruct Hf as [E|E]; [congruence|exact E].
Qed.

Lemma merge_params_applied : forall over ps ps', NoDup (dkeys ps) ->
  merge_params ps over = Ok ps' <-> applied ps over ps'.
Proof.
  induction over as [|[k v] over IH]; intros ps ps' Hnd; simpl.
  - split; [intros H; injection H as <-; constructor|]. intros H; inversion H; reflexivity.
  - split.
    + intros H. destruct (find_param_key ps k) as [tgt|e] eqn:E; [|discriminate]. simpl in H.
      apply (find_param_key_addr ps k tgt Hnd) in E.
      apply applied_cons with tgt; [exact E|]. rewrite <- (dset_spec ps tgt v Hnd).
      apply IH; [apply NoDup_dkeys_dset, Hnd|exact H].
    + intros H. inversion H as [|ps0 k0 v0 over0 tgt ps1 Haddr Happ]; subst.
      apply (find_param_key_addr ps k tgt Hnd) in Haddr. rewrite Haddr. simpl.
      rewrite <- (dset_spec ps tgt v Hnd) in Happ. apply IH; [apply NoDup_dkeys_dset, Hnd|exact Happ].
Qed.

Lemma merge_params_err : forall over ps e, NoDup (dkeys ps) ->
  merge_params ps over = Err e <-> exists k, e = AmbiguousKey k /\ ambiguous_at ps over k.
Proof.
  induction over as [|[k v] over IH]; intros ps e Hnd; simpl.
  - split; [discriminate|]. intros (k & _ & o1 & v & o2 & ps1 & E & _). destruct o1; discriminate.
  - destruct (find_param_key ps k) as [tgt|e'] eqn:E; simpl.
    + pose proof E as Haddr. apply (find_param_key_addr ps k tgt Hnd) in Haddr.
      rewrite (IH (dset tgt v ps) e (NoDup_dkeys_dset _ _ _ Hnd)). split.
      * intros (k' & -> & o1 & v' & o2 & ps1 & -> & Happ & Hamb). exists k'. split; [reflexivity|].
        exists ((k, v) :: o1), v', o2, ps1. split; [reflexivity|]. split; [|exact Hamb].
        apply applied_cons with tgt; [exact Haddr|]. rewrite <- (dset_spec ps tgt v Hnd). exact Happ.
      * intros (k' & -> & o1 & v' & o2 & ps1 & Eo & Happ & Hamb). exists k'. split; [reflexivity|].
        destruct o1 as [|[k1 v1] o1].
        { injection Eo as -> -> ->. inversion Happ; subst.
          exfalso.
          assert (find_param_key ps1 k' = Err (AmbiguousKey k')) by (apply find_param_key_err; [exact Hnd|split; [reflexivity|exact Hamb]]).
          congruence. }
        injection Eo as <- <- ->.
        inversion Happ as [|ps0 k0 v0 over0 tgt' ps2 Ha Hb]; subst.
        apply (find_param_key_addr ps k tgt' Hnd) in Ha. assert (tgt' = tgt) by congruence. subst tgt'.
        rewrite <- (dset_spec ps tgt v Hnd) in Hb.
        exists o1, v', o2, ps1. split; [reflexivity|split; assumption].
    + apply (find_param_key_err ps k e' Hnd) in E as [-> Hamb]. split.
      * intros H; injection H as <-. exists k. split; [reflexivity|].
        exists [], v, over, ps. split; [reflexivity|split; [constructor|exact Hamb]].
      * intros (k' & -> & o1 & v' & o2 & ps1 & Eo & Happ & Hamb').
        destruct o1 as [|[k1 v1] o1].
        { injection Eo as -> -> ->. reflexivity. }
        injection Eo as <- <- ->. exfalso. inversion Happ as [|ps0 k0 v0 over0 tgt' ps2 Ha Hb]; subst.
        apply (find_param_key_addr ps k tgt' Hnd) in Ha.
        assert (find_param_key ps k = Err (AmbiguousKey k)) by (apply find_param_key_err; [exact Hnd|split; [reflexivity|exact Hamb]]).
        congruence.
Qed.

Notation secsT := (list (str * dict V)).

(** Pointwise effect: position [i] receives override [F i]. *)
Definition pt (F : nat -> option (list (str * V))) (secs secs' : secsT) : Prop :=
  List.length secs' = List.length secs /\
  forall i n ps, nth_error secs i = Some (n, ps) ->
    exists ps', nth_error secs' i = Some (n, ps') /\
      match F i with None => ps' = ps | Some o => merge_params ps o = Ok ps' end.

Lemma pt_id secs : pt (fun _ => None) secs secs.
Proof. split; [reflexivity|]. intros i n ps H; exists ps; split; [exact H|reflexivity]. Qed.

Lemma pt_ext F G secs secs' : (forall i, i < List.length secs -> F i = G i) -> pt F secs secs' -> pt G secs secs'.
Proof.
  intros E [H1 H2]. split; [exact H1|]. intros i n ps Hi. rewrite <- E; [apply H2, Hi|].
  apply nth_error_Some; congruence.
Qed.

Definition osum (F G : nat -> option (list (str * V))) i := match F i with None => G i | x => x end.
Lemma pt_compose F G s0 s1 s2 : pt F s0 s1 -> pt G s1 s2 -> (forall i, F i = None \/ G i = None) -> pt (osum F G) s0 s2.
Proof.
  intros [L1 P1] [L2 P2] Hd. split; [congruence|]. intros i n ps Hi.
  destruct (P1 i n ps Hi) as (ps1 & Hi1 & E1). destruct (P2 i n ps1 Hi1) as (ps2 & Hi2 & E2).
  exists ps2. split; [exact Hi2|]. unfold osum. destruct (F i) as [o|] eqn:EF.
  - destruct (Hd i) as [X|X]; [congruence|]. rewrite X in E2. subst ps2. exact E1.
  - subst ps1. exact E2.
Qed.

Definition single (i : nat) (o : list (str * V)) : nat -> option (list (str * V)) :=
  fun j => if Nat.eqb j i then Some o else None.

Lemma merge_at_pt : forall secs i o s1, i < List.length secs -> merge_at i o secs = Ok s1 -> pt (single i o) secs s1.
Proof.
  induction secs as [|[n ps] secs IH]; intros i o s1 Hi H; [simpl in Hi; lia|].
  destruct i as [|i]; simpl in H.
  - destruct (merge_params ps o) as [ps'|e] eqn:E; [|discriminate]. simpl in H. injection H as <-.
    split; [reflexivity|]. intros [|j] n' q Hj; simpl in *.
    + injection Hj as <- <-. exists ps'. split; [reflexivity|exact E].
    + exists q. split; [exact Hj|reflexivity].
  - destruct (merge_at i o secs) as [r|e] eqn:E; [|discriminate]. simpl in H. injection H as <-.
    destruct (IH i o r ltac:(simpl in Hi; lia) E) as [L P]. split; [simpl; congruence|].
    intros [|j] n' q Hj; simpl in *.
    + injection Hj as <- <-. exists ps. split; reflexivity.
    + destruct (P j n' q Hj) as (q' & Hq & X). exists q'. split; [exact Hq|exact X].
Qed.
Lemma merge_at_err : forall secs i o e, merge_at i o secs = Err e ->
  exists n ps, nth_error secs i = Some (n, ps) /\ merge_params ps o = Err e.
Proof.
  induction secs as [|[n ps] secs IH]; intros i o e H; [discriminate|].
  destruct i as [|i]; simpl in H.
  - destruct (merge_params ps o) as [ps'|e'] eqn:E; [discriminate|]. simpl in H; injection H as <-.
    exists n, ps. split; [reflexivity|exact E].
  - destruct (merge_at i o secs) as [r|e'] eqn:E; [discriminate|]. simpl in H; injection H as <-.
    destruct (IH _ _ _ E) as (n' & q & H1 & H2). exists n', q. split; assumption.
Qed.

(** [res]-level statement of a pointwise merge: success iff every addressed section merges. *)
Definition pt_res (F : nat -> option (list (str * V))) (secs : secsT) (r : res secsT) : Prop :=
  match r with
  | Ok s' => pt F secs s'
  | Err e => exists i n ps o, nth_error secs i = Some (n, ps) /\ F i = Some o /\ merge_params ps o = Err e
  end.

Lemma pt_res_bind F G secs r (f : secsT -> res secsT) :
  pt_res F secs r -> (forall i, F i = None \/ G i = None) ->
  (forall s1, pt F secs s1 -> r = Ok s1 -> pt_res G s1 (f s1)) -> pt_res (osum F G) secs (bind r f).
Proof.
  intros Hr Hd Hf. destruct r as [s1|e]; simpl in *.
  - specialize (Hf s1 Hr eq_refl). destruct (f s1) as [s2|e]; simpl in *.
    + eapply pt_compose; eassumption.
    + destruct Hf as (i & n & ps & o & Hi & HG & He).
      destruct Hr as [L P]. assert (Hlt : i < List.length secs) by (rewrite <- L; apply nth_error_Some; congruence).
      destruct (nth_error secs i) as [[n0 ps0]|] eqn:E0; [|apply nth_error_None in E0; lia].
      destruct (P i n0 ps0 E0) as (ps1 & E1 & X).
      destruct (Hd i) as [Y|Y]; [|congruence]. rewrite Y in X. subst ps1. rewrite E1 in Hi. injection Hi as -> ->.
      exists i, n, ps, o. unfold osum. rewrite Y. repeat split; assumption.
  - destruct Hr as (i & n & ps & o & Hi & HF & He). exists i, n, ps, o. unfold osum. rewrite HF. repeat split; assumption.
Qed.

Lemma pt_res_ext F G secs r : (forall i, i < List.length secs -> F i = G i) -> pt_res F secs r -> pt_res G secs r.
Proof.
  intros E. destruct r as [s|e]; simpl; [apply pt_ext, E|].
  intros (i & n & ps & o & Hi & HF & He). exists i, n, ps, o. rewrite <- E; [repeat split; assumption|].
  apply nth_error_Some; congruence.
Qed.

Lemma merge_at_res secs i o : i < List.length secs -> pt_res (single i o) secs (merge_at i o secs).
Proof.
  intros Hi. destruct (merge_at i o secs) as [s1|e] eqn:E; simpl.
  - apply merge_at_pt; assumption.
  - apply merge_at_err in E as (n & ps & H1 & H2). exists i, n, ps, o.
    unfold single. rewrite Nat.eqb_refl. repeat split; assumption.
Qed.

(** The override dictionary compiled to a list of elementary steps. *)
Inductive instr := Merge (i : nat) (o : list (str * V)) | Fail (e : deck_err).
Fixpoint run (l : list instr) (secs : secsT) : res secsT :=
  match l with
  | [] => Ok secs
  | Merge i o :: l' => bind (merge_at i o secs) (run l')
  | Fail e :: _ => Err e
  end.
Lemma run_app l1 l2 secs : run (l1 ++ l2) secs = bind (run l1 secs) (run l2).
Proof.
  revert secs; induction l1 as [|[i o|e] l1 IH]; intros secs; simpl; [reflexivity| |reflexivity].
  destruct (merge_at i o secs); simpl; [apply IH|reflexivity].
Qed.

Lemma merge_at_names : forall (secs : secsT) i o s1, merge_at i o secs = Ok s1 -> map fst s1 = map fst secs.
Proof.
  induction secs as [|[n ps] secs IH]; intros i o s1 H; simpl in H.
  - injection H as <-; reflexivity.
  - destruct i as [|i].
    + destruct (merge_params ps o); [|discriminate]. injection H as <-. reflexivity.
    + destruct (merge_at i o secs) as [r|] eqn:E; [|discriminate]. injection H as <-. simpl. f_equal. eapply IH, E.
Qed.
Lemma run_names : forall l secs s1, run l secs = Ok s1 -> map fst s1 = map fst secs.
Proof.
  induction l as [|[i o|e] l IH]; intros secs s1 H; simpl in H.
  - injection H as <-; reflexivity.
  - destruct (merge_at i o secs) as [s|] eqn:E; [|discriminate]. simpl in H.
    rewrite (IH _ _ H). eapply merge_at_names, E.
  - discriminate.
Qed.

Lemma occurrences_names : forall (secs secs' : secsT) i name, map fst secs = map fst secs' ->
  occurrences_from i name secs = occurrences_from i name secs'.
Proof.
  induction secs as [|[n ps] secs IH]; intros [|[n' ps'] secs'] i name H; simpl in *; try discriminate; [reflexivity|].
  injection H as -> H. rewrite (IH secs' (S i) name H). reflexivity.
Qed.

Definition instrs_of (secs : secsT) (x : str * sec_over V) : list instr :=
  let occ := occurrences (fst x) secs in
  match occ with
  | [] => [Fail (UnknownSection (fst x))]
  | _ =>
      match snd x with
      | OverAll o => map (fun i => Merge i o) occ
      | OverIdx l => map (fun zo =>
            if (fst zo <? 0)%Z || (Z.of_nat (List.length occ) <=? fst zo)%Z
            then Fail (IndexOutOfRange (fst x) (fst zo))
            else Merge (nth (Z.to_nat (fst zo)) occ 0) (snd zo)) l
      end
  end.

Lemma merge_all_run : forall occ o (secs : secsT), merge_all occ o secs = run (map (fun i => Merge i o) occ) secs.
Proof.
  induction occ as [|i occ IH]; intros o secs; simpl; [reflexivity|].
  destruct (merge_at i o secs); simpl; [apply IH|reflexivity].
Qed.
Lemma merge_idx_run name occ : forall l (secs : secsT), merge_idx name occ l secs =
  run (map (fun zo => if (fst zo <? 0)%Z || (Z.of_nat (List.length occ) <=? fst zo)%Z
            then Fail (IndexOutOfRange name (fst zo))
            else Merge (nth (Z.to_nat (fst zo)) occ 0) (snd zo)) l) secs.
Proof.
  induction l as [|[z o] l IH]; intros secs; cbn [merge_idx map run fst snd]; [reflexivity|].
  destruct ((z <? 0)%Z || (Z.of_nat (List.length occ) <=? z)%Z); cbn [run]; [reflexivity|].
  destruct (merge_at _ o secs); simpl; [apply IH|reflexivity].
Qed.
Lemma merge_overrides_run : forall ov secs secs0, map fst secs = map fst secs0 ->
  merge_overrides secs ov = run (flat_map (instrs_of secs0) ov) secs.
Proof.
  induction ov as [|[name so] ov IH]; intros secs secs0 Hn; cbn [merge_overrides flat_map]; [reflexivity|].
  rewrite run_app. unfold instrs_of at 1. cbn [fst snd]. unfold occurrences.
  rewrite (occurrences_names secs secs0 0 name Hn).
  destruct (occurrences_from 0 name secs0) as [|i0 occ] eqn:E; [reflexivity|].
  destruct so as [o|l].
  - rewrite merge_all_run.
    destruct (run (map (fun i => Merge i o) (i0 :: occ)) secs) as [s1|e] eqn:Er; cbn [bind]; [|reflexivity].
    apply IH. rewrite (run_names _ _ _ Er). exact Hn.
  - rewrite merge_idx_run.
    destruct (run _ secs) as [s1|e] eqn:Er; cbn [bind]; [|reflexivity].
    apply IH. rewrite (run_names _ _ _ Er). exact Hn.
Qed.

(** Running steps at distinct positions. *)
Fixpoint look (l : list instr) (i : nat) : option (list (str * V)) :=
  match l with
  | [] => None
  | Merge j o :: l' => if Nat.eqb i j then Some o else look l' i
  | Fail _ :: l' => look l' i
  end.
Definition ipos (x : instr) : list nat := match x with Merge i _ => [i] | Fail _ => [] end.
Definition positions (l : list instr) : list nat := flat_map ipos l.

Lemma look_None l i : ~ In i (positions l) -> look l i = None.
Proof.
  induction l as [|[j o|e] l IH]; simpl; intros H; [reflexivity| |auto].
  destruct (Nat.eqb_spec i j) as [->|Hn]; [exfalso; apply H; auto|]. apply IH; tauto.
Qed.
Lemma look_In l i o : look l i = Some o -> In (Merge i o) l.
Proof.
  induction l as [|[j o'|e] l IH]; simpl; [discriminate| |auto].
  destruct (Nat.eqb_spec i j) as [->|Hn]; intros H; [left; congruence|right; auto].
Qed.
Lemma In_positions l i o : In (Merge i o) l -> In i (positions l).
Proof. intros H. unfold positions. apply in_flat_map. exists (Merge i o). split; [exact H|left; reflexivity]. Qed.
Lemma In_look l i o : NoDup (positions l) -> In (Merge i o) l -> look l i = Some o.
Proof.
  induction l as [|[j o'|e] l IH]; simpl; intros Hnd H; [tauto| |].
  - apply NoDup_cons_iff in Hnd as [Hni Hnd]. destruct H as [E|H].
    + injection E as -> ->. rewrite Nat.eqb_refl. reflexivity.
    + destruct (Nat.eqb_spec i j) as [->|Hn]; [|auto]. exfalso; apply Hni. eapply In_positions, H.
  - destruct H as [E|H]; [discriminate|auto].
Qed.

Lemma run_spec : forall l secs, NoDup (positions l) -> Forall (fun i => i < List.length secs) (positions l) ->
  match run l secs with
  | Ok s' => (forall e, ~ In (Fail e) l) /\ pt (look l) secs s'
  | Err e => In (Fail e) l \/
             exists i n ps o, nth_error secs i = Some (n, ps) /\ look l i = Some o /\ merge_params ps o = Err e
  end.
Proof.
  induction l as [|[i o|e] l IH]; intros secs Hnd Hlt; cbn [run].
  - split; [intros e []|apply pt_id].
  - cbn [positions flat_map ipos app] in Hnd, Hlt.
    apply NoDup_cons_iff in Hnd as [Hni Hnd]. apply Forall_cons_iff in Hlt as [Hi Hlt].
    change (flat_map ipos l) with (positions l) in *.
    destruct (merge_at i o secs) as [s1|e] eqn:E; cbn [bind].
    + pose proof (merge_at_pt secs i o s1 Hi E) as P1.
      specialize (IH s1 Hnd). rewrite (proj1 P1) in IH. specialize (IH Hlt).
      assert (Hd : forall j, single i o j = None \/ look l j = None).
      { intros j. unfold single. destruct (Nat.eqb_spec j i) as [->|Hne]; [right; apply look_None, Hni|left; reflexivity]. }
      assert (Hsum : forall j, osum (single i o) (look l) j = look (Merge i o :: l) j).
      { intros j. unfold osum, single. simpl. destruct (Nat.eqb j i); reflexivity. }
      destruct (run l s1) as [s2|e].
      * destruct IH as [Hnf P2]. split.
        { intros e [X|X]; [discriminate|]. eapply Hnf, X. }
        { eapply pt_ext; [|eapply pt_compose; eassumption]. intros j _; apply Hsum. }
      * destruct IH as [Hf|(j & n & ps & o' & Hj & HL & He)]; [left; right; exact Hf|].
        right. assert (Hlj : j < List.length secs) by (rewrite <- (proj1 P1); apply nth_error_Some; congruence).
        destruct (nth_error secs j) as [[n0 ps0]|] eqn:E0; [|apply nth_error_None in E0; lia].
        destruct (proj2 P1 j n0 ps0 E0) as (ps1 & E1 & X).
        destruct (Hd j) as [Y|Y]; [|congruence]. rewrite Y in X. subst ps1. rewrite E1 in Hj. injection Hj as -> ->.
        exists j, n, ps, o'. rewrite <- Hsum. unfold osum. rewrite Y. repeat split; assumption.
    + right. apply merge_at_err in E as (n & ps & H1 & H2). exists i, n, ps, o.
      split; [exact H1|]. split; [|exact H2]. simpl. rewrite Nat.eqb_refl. reflexivity.
  - left. left. reflexivity.
Qed.

(** Converse: a step that cannot succeed makes the run fail. *)
Lemma run_ok_all l secs s' : NoDup (positions l) -> Forall (fun i => i < List.length secs) (positions l) ->
  run l secs = Ok s' ->
  (forall e, ~ In (Fail e) l) /\
  forall i n ps o, nth_error secs i = Some (n, ps) -> look l i = Some o -> exists ps', merge_params ps o = Ok ps'.
Proof.
  intros Hnd Hlt E. pose proof (run_spec l secs Hnd Hlt) as H. rewrite E in H. destruct H as [H1 [H2 H3]].
  split; [exact H1|]. intros i n ps o Hi HL. destruct (H3 i n ps Hi) as (ps' & _ & X). rewrite HL in X. eauto.
Qed.

(** ** Occurrences *)
Definition name_at (secs : secsT) (i : nat) : option str := option_map fst (nth_error secs i).

Lemma occ_from_In : forall secs k name i,
  In i (occurrences_from k name secs) <-> k <= i /\ name_at secs (i - k) = Some name.
Proof.
  unfold name_at. induction secs as [|[n ps] secs IH]; intros k name i; simpl.
  - split; [tauto|]. intros [_ H]. destruct (i - k); discriminate.
  - destruct (str_eqb_spec n name) as [->|Hne]; cbn [In].
    + rewrite IH. destruct (Nat.eq_dec k i) as [->|Hk].
      * rewrite Nat.sub_diag. simpl. split; [auto|]. intros _; left; reflexivity.
      * split.
        { intros [E|[H1 H2]]; [contradiction|]. split; [lia|].
          replace (i - k) with (S (i - S k)) by lia. exact H2. }
        { intros [H1 H2]. right. split; [lia|]. replace (i - k) with (S (i - S k)) in H2 by lia. exact H2. }
    + rewrite IH. split.
      * intros [H1 H2]. split; [lia|]. replace (i - k) with (S (i - S k)) by lia. exact H2.
      * intros [H1 H2]. destruct (Nat.eq_dec k i) as [->|Hk].
        { rewrite Nat.sub_diag in H2. simpl in H2. congruence. }
        { split; [lia|]. replace (i - k) with (S (i - S k)) in H2 by lia. exact H2. }
Qed.
Lemma occ_from_NoDup : forall (secs : secsT) k name, NoDup (occurrences_from k name secs).
Proof.
  induction secs as [|[n ps] secs IH]; intros k name; simpl; [constructor|].
  destruct (str_eqb n name); [|apply IH]. constructor; [|apply IH].
  rewrite occ_from_In. lia.
Qed.
Lemma occ_In secs name i : In i (occurrences name secs) <-> name_at secs i = Some name.
Proof. unfold occurrences. rewrite occ_from_In, Nat.sub_0_r. intuition lia. Qed.
Lemma name_at_lt secs i n : name_at secs i = Some n -> i < List.length secs.
Proof. unfold name_at. intros H. apply nth_error_Some. destruct (nth_error secs i); [discriminate|discriminate H]. Qed.

(** Rank of an occurrence. *)
Lemma occ_from_rank : forall secs k name i,
  name_at secs i = Some name ->
  nth_error (occurrences_from k name secs) (count_sec name (firstn i secs)) = Some (k + i).
Proof.
  unfold name_at, count_sec. induction secs as [|[n ps] secs IH]; intros k name i H.
  - destruct i; discriminate.
  - destruct i as [|i].
    + simpl in *. injection H as ->. rewrite str_eqb_refl. simpl. rewrite Nat.add_0_r. reflexivity.
    + simpl in *. destruct (str_eqb n name); simpl.
      * rewrite (IH (S k) name i H). f_equal. lia.
      * rewrite (IH (S k) name i H). f_equal. lia.
Qed.
Lemma occ_rank secs name i : name_at secs i = Some name ->
  nth_error (occurrences name secs) (count_sec name (firstn i secs)) = Some i.
Proof. intros H. apply (occ_from_rank secs 0 name i H). Qed.
Lemma occ_length : forall (secs : secsT) k name, List.length (occurrences_from k name secs) = count_sec name secs.
Proof.
  unfold count_sec. induction secs as [|[n ps] secs IH]; intros k name; simpl; [reflexivity|].
  destruct (str_eqb n name); simpl; rewrite IH; reflexivity.
Qed.

Lemma count_zero name (secs : secsT) : count_sec name secs = 0 <-> ~ In name (map fst secs).
Proof.
  unfold count_sec. induction secs as [|[n ps] secs IH]; simpl; [tauto|].
  destruct (str_eqb_spec n name) as [->|Hn]; simpl; [split; [lia|intros H; exfalso; apply H; auto]|].
  rewrite IH. intuition.
Qed.

(** ** Overrides as positions *)
Lemma instrs_positions_name secs x i : In i (positions (instrs_of secs x)) -> name_at secs i = Some (fst x).
Proof.
  unfold positions, instrs_of. rewrite in_flat_map. intros (ins & Hins & Hi).
  destruct (occurrences (fst x) secs) as [|i0 occ] eqn:E; [destruct Hins as [<-|[]]; destruct Hi|].
  rewrite <- E in Hins. rewrite <- occ_In.
  destruct (snd x) as [o|l].
  - apply in_map_iff in Hins as (j & <- & Hj). destruct Hi as [<-|[]]. exact Hj.
  - apply in_map_iff in Hins as ([z o] & <- & Hj). cbn [fst snd] in Hi.
    destruct ((z <? 0)%Z || (Z.of_nat (List.length (occurrences (fst x) secs)) <=? z)%Z) eqn:Eb; [destruct Hi|].
    destruct Hi as [<-|[]]. apply orb_false_iff in Eb as [E1 E2]. apply Z.ltb_ge in E1. apply Z.leb_gt in E2.
    apply nth_In. lia.
Qed.

Lemma instrs_NoDup secs x : (match snd x with OverAll _ => True | OverIdx l => NoDup (map fst l) end) ->
  NoDup (positions (instrs_of secs x)).
Proof.
  intros Hwf. unfold positions, instrs_of.
  destruct (occurrences (fst x) secs) as [|i0 occ] eqn:E; [constructor|]. rewrite <- E.
  pose proof (occ_from_NoDup secs 0 (fst x)) as Hnd. change (occurrences_from 0 (fst x) secs) with (occurrences (fst x) secs) in Hnd.
  destruct (snd x) as [o|l].
  - rewrite flat_map_concat_map, map_map. cbn [ipos].
    replace (List.concat (map (fun i => [i]) (occurrences (fst x) secs))) with (occurrences (fst x) secs); [exact Hnd|].
    clear. induction (occurrences (fst x) secs) as [|a l IH]; simpl; congruence.
  - clear E. generalize dependent (occurrences (fst x) secs). intros OCC Hnd.
    induction l as [|[z o] l IH]; [constructor|]. cbn [map flat_map fst snd] in *.
    apply NoDup_cons_iff in Hwf as [Hni Hwf].
    destruct ((z <? 0)%Z || (Z.of_nat (List.length OCC) <=? z)%Z) eqn:Eb; [apply IH, Hwf|].
    cbn [ipos app]. constructor; [|apply IH, Hwf].
    rewrite in_flat_map. intros (ins & Hins & Hi). apply in_map_iff in Hins as ([z' o'] & <- & Hj). cbn [fst snd] in Hi.
    destruct ((z' <? 0)%Z || (Z.of_nat (List.length OCC) <=? z')%Z) eqn:Eb'; [destruct Hi|].
    destruct Hi as [Hi|[]].
    apply orb_false_iff in Eb as [E1 E2]. apply Z.ltb_ge in E1. apply Z.leb_gt in E2.
    apply orb_false_iff in Eb' as [E3 E4]. apply Z.ltb_ge in E3. apply Z.leb_gt in E4.
    assert (Hz : Z.to_nat z' = Z.to_nat z).
    { eapply (proj1 (NoDup_nth OCC 0)); [exact Hnd|lia|lia|exact Hi]. }
    assert (z' = z) by lia. subst z'. apply Hni. apply (in_map fst) in Hj. exact Hj.
Qed.

Lemma all_instrs_NoDup secs ov : ov_wf ov -> NoDup (positions (flat_map (instrs_of secs) ov)).
Proof.
  intros [Hn Hw]. induction ov as [|x ov IH]; [constructor|]. cbn [flat_map map] in *.
  apply NoDup_cons_iff in Hn as [Hni Hn]. apply Forall_cons_iff in Hw as [Hx Hw].
  unfold positions. rewrite flat_map_app. change (flat_map ipos (instrs_of secs x)) with (positions (instrs_of secs x)).
  change (flat_map ipos (flat_map (instrs_of secs) ov)) with (positions (flat_map (instrs_of secs) ov)).
  assert (D : forall i, In i (positions (instrs_of secs x)) -> ~ In i (positions (flat_map (instrs_of secs) ov))).
  { intros i H1 H2. apply instrs_positions_name in H1. unfold positions in H2.
    apply in_flat_map in H2 as (ins & Hins & Hi). apply in_flat_map in Hins as (y & Hy & Hins).
    assert (H2 : name_at secs i = Some (fst y)).
    { apply instrs_positions_name. unfold positions. apply in_flat_map. exists ins. split; assumption. }
    assert (Ef : fst x = fst y) by congruence. apply Hni. rewrite Ef. apply in_map, Hy. }
  pose proof (instrs_NoDup secs x Hx) as N1. specialize (IH Hn Hw).
  clear Hni. induction (positions (instrs_of secs x)) as [|i l IHl]; [exact IH|].
  apply NoDup_cons_iff in N1 as [N1 N2]. cbn [app]. constructor.
  - intros Hi. apply in_app_or in Hi as [Hi|Hi]; [contradiction|]. apply (D i); [left; reflexivity|exact Hi].
  - apply IHl; [|exact N2]. intros j Hj. apply D. right; exact Hj.
Qed.

Lemma all_instrs_lt secs ov : Forall (fun i => i < List.length secs) (positions (flat_map (instrs_of secs) ov)).
Proof.
  apply Forall_forall. intros i Hi. unfold positions in Hi. apply in_flat_map in Hi as (ins & Hins & Hi).
  apply in_flat_map in Hins as (y & Hy & Hins). eapply name_at_lt. apply instrs_positions_name.
  unfold positions. apply in_flat_map. exists ins. split; eassumption.
Qed.

(** What [look] finds is what the specification's [override_for] says, unless an index is out of range. *)
Lemma find_name_In (ov : list (str * sec_over V)) x : NoDup (map fst ov) -> In x ov ->
  find (fun y => str_eqb (fst y) (fst x)) ov = Some x.
Proof.
  induction ov as [|y ov IH]; simpl; intros Hnd H; [tauto|]. apply NoDup_cons_iff in Hnd as [Hni Hnd].
  destruct H as [->|H]; [rewrite str_eqb_refl; reflexivity|].
  destruct (str_eqb_spec (fst y) (fst x)) as [E|]; [|auto].
  exfalso; apply Hni. rewrite E. apply in_map, H.
Qed.
Lemma find_idx_In (l : list (Z * list (str * V))) z o : NoDup (map fst l) -> In (z, o) l ->
  find (fun y => Z.eqb (fst y) z) l = Some (z, o).
Proof.
  induction l as [|y l IH]; simpl; intros Hnd H; [tauto|]. apply NoDup_cons_iff in Hnd as [Hni Hnd].
  destruct H as [->|H]; [simpl; rewrite Z.eqb_refl; reflexivity|].
  destruct (Z.eqb_spec (fst y) z) as [E|]; [|auto].
  exfalso; apply Hni. rewrite E. apply (in_map fst) in H; exact H.
Qed.

Lemma look_override secs ov i n : ov_wf ov -> name_at secs i = Some n ->
  look (flat_map (instrs_of secs) ov) i = override_for ov n (count_sec n (firstn i secs)).
Proof.
  intros Hwf Hname. pose proof (all_instrs_NoDup secs ov Hwf) as Hnd. destruct Hwf as [Hn Hw].
  pose proof (occ_rank secs n i Hname) as Hrank.
  assert (Hlt : count_sec n (firstn i secs) < List.length (occurrences n secs)) by (apply nth_error_Some; congruence).
  set (j := count_sec n (firstn i secs)) in *.
  unfold override_for. destruct (find (fun x => str_eqb (fst x) n) ov) as [[nm so]|] eqn:Ef.
  - apply find_some in Ef as [Hin Enm]. simpl in Enm. apply str_eqb_eq in Enm. subst nm.
    assert (Hocc : occurrences n secs <> []) by (intros E; rewrite E in Hlt; simpl in Hlt; lia).
    assert (Hins : forall ins, In ins (instrs_of secs (n, so)) -> In ins (flat_map (instrs_of secs) ov)).
    { intros ins H. apply in_flat_map. exists (n, so). split; assumption. }
    destruct so as [o|l].
    + apply In_look; [exact Hnd|]. apply Hins. unfold instrs_of. cbn [fst snd].
      destruct (occurrences n secs) as [|i0 occ] eqn:E; [congruence|]. rewrite <- E.
      apply in_map_iff. exists i. split; [reflexivity|]. apply occ_In, Hname.
    + assert (Hl : NoDup (map fst l)) by (rewrite Forall_forall in Hw; apply (Hw _ Hin)).
      destruct (find (fun x => Z.eqb (fst x) (Z.of_nat j)) l) as [[z o]|] eqn:Efz.
      * apply find_some in Efz as [Hzi Ez]. simpl in Ez. apply Z.eqb_eq in Ez. subst z.
        apply In_look; [exact Hnd|]. apply Hins. unfold instrs_of. cbn [fst snd].
        destruct (occurrences n secs) as [|i0 occ] eqn:E; [congruence|]. rewrite <- E in *.
        apply in_map_iff. exists (Z.of_nat j, o). split; [|exact Hzi]. cbn [fst snd].
        destruct ((Z.of_nat j <? 0)%Z || (Z.of_nat (List.length (occurrences n secs)) <=? Z.of_nat j)%Z) eqn:Eb.
        { apply orb_true_iff in Eb. rewrite Z.ltb_lt, Z.leb_le in Eb. lia. }
        rewrite Nat2Z.id. rewrite (nth_error_nth _ _ 0 Hrank). reflexivity.
      * destruct (look (flat_map (instrs_of secs) ov) i) as [o'|] eqn:EL; [|reflexivity].
        exfalso. apply look_In in EL. apply in_flat_map in EL as (y & Hy & HL).
        assert (Hyn : name_at secs i = Some (fst y)).
        { apply instrs_positions_name. eapply In_positions, HL. }
        assert (y = (n, OverIdx l)).
        { pose proof (find_name_In ov y Hn Hy) as F1. pose proof (find_name_In ov (n, OverIdx l) Hn Hin) as F2.
          assert (Efy : fst y = n) by congruence. rewrite Efy in F1. cbn [fst] in F2. congruence. }
        subst y. unfold instrs_of in HL. cbn [fst snd] in HL.
        destruct (occurrences n secs) as [|i0 occ] eqn:E; [congruence|]. rewrite <- E in *.
        apply in_map_iff in HL as ([z o2] & Hz & Hzi). cbn [fst snd] in Hz.
        destruct ((z <? 0)%Z || (Z.of_nat (List.length (occurrences n secs)) <=? z)%Z) eqn:Eb; [discriminate|].
        injection Hz as Hz1 Hz2. apply orb_false_iff in Eb as [E1 E2]. apply Z.ltb_ge in E1. apply Z.leb_gt in E2.
        assert (Hzj : Z.to_nat z = j).
        { pose proof (occ_from_NoDup secs 0 n) as Hndo. change (occurrences_from 0 n secs) with (occurrences n secs) in Hndo.
          eapply (proj1 (NoDup_nth (occurrences n secs) 0)); [exact Hndo|lia|lia|].
          rewrite Hz1, (nth_error_nth _ _ 0 Hrank). reflexivity. }
        apply (find_none _ _ Efz) in Hzi. cbn [fst] in Hzi. apply Z.eqb_neq in Hzi. lia.
  - apply look_None. intros Hi. unfold positions in Hi. apply in_flat_map in Hi as (ins & Hins & Hi).
    apply in_flat_map in Hins as (y & Hy & Hins).
    assert (Hyn : name_at secs i = Some (fst y)).
    { apply instrs_positions_name. unfold positions. apply in_flat_map. exists ins. split; assumption. }
    apply (find_none _ _ Ef) in Hy. assert (Efy : fst y = n) by congruence. rewrite Efy, str_eqb_refl in Hy. discriminate.
Qed.

(** Main characterisation. *)
Lemma merge_overrides_ok (secs : secsT) ov secs' : secs_wf secs -> ov_wf ov ->
  merge_overrides secs ov = Ok secs' ->
  List.length secs' = List.length secs /\
  forall i n ps, nth_error secs i = Some (n, ps) ->
    exists ps', nth_error secs' i = Some (n, ps') /\
      match override_for ov n (count_sec n (firstn i secs)) with
      | None => ps' = ps
      | Some o => applied ps o ps'
      end.
Proof.
  intros Hs Hov H. rewrite (merge_overrides_run ov secs secs eq_refl) in H.
  pose proof (run_spec _ secs (all_instrs_NoDup secs ov Hov) (all_instrs_lt secs ov)) as R. rewrite H in R.
  destruct R as [_ [L P]]. split; [exact L|]. intros i n ps Hi. destruct (P i n ps Hi) as (ps' & Hi' & X).
  exists ps'. split; [exact Hi'|].
  rewrite (look_override secs ov i n Hov) in X by (unfold name_at; rewrite Hi; reflexivity).
  destruct (override_for ov n _) as [o|]; [|exact X]. apply merge_params_applied; [|exact X].
  unfold secs_wf in Hs. rewrite Forall_forall in Hs. apply nth_error_In in Hi. apply (Hs _ Hi).
Qed.

Lemma fail_instr secs ov e : In (Fail e) (flat_map (instrs_of secs) ov) <->
  (exists n so, In (n, so) ov /\ ~ In n (map fst secs) /\ e = UnknownSection n) \/
  (exists n l z o, In (n, OverIdx l) ov /\ In (z, o) l /\ In n (map fst secs) /\
      ~ (0 <= z < Z.of_nat (count_sec n secs))%Z /\ e = IndexOutOfRange n z).
Proof.
  rewrite in_flat_map. split.
  - intros ([n so] & Hin & Hf). unfold instrs_of in Hf. cbn [fst snd] in Hf.
    pose proof (occ_length secs 0 n) as HL. change (occurrences_from 0 n secs) with (occurrences n secs) in HL.
    destruct (occurrences n secs) as [|i0 occ] eqn:E.
    + left. exists n, so. destruct Hf as [Hf|[]]. injection Hf as <-. repeat split; [exact Hin|].
      apply count_zero. symmetry; exact HL.
    + right. assert (Hn : In n (map fst secs)).
      { destruct (in_dec str_eq_dec n (map fst secs)) as [|Hn]; [assumption|].
        apply count_zero in Hn. rewrite Hn in HL. discriminate. }
      destruct so as [o|l].
      * apply in_map_iff in Hf as (j & Hf & _). discriminate.
      * apply in_map_iff in Hf as ([z o] & Hf & Hz). cbn [fst snd] in Hf.
        destruct ((z <? 0)%Z || (Z.of_nat (List.length (i0 :: occ)) <=? z)%Z) eqn:Eb; [|discriminate].
        injection Hf as <-. exists n, l, z, o. repeat split; try assumption.
        rewrite HL in Eb. apply orb_true_iff in Eb. rewrite Z.ltb_lt, Z.leb_le in Eb. lia.
  - intros [(n & so & Hin & Hn & ->)|(n & l & z & o & Hin & Hz & Hn & Hr & ->)].
    + exists (n, so). split; [exact Hin|]. unfold instrs_of. cbn [fst snd].
      apply count_zero in Hn. rewrite <- (occ_length secs 0 n) in Hn.
      change (occurrences_from 0 n secs) with (occurrences n secs) in Hn.
      destruct (occurrences n secs); [left; reflexivity|discriminate].
    + exists (n, OverIdx l). split; [exact Hin|]. unfold instrs_of. cbn [fst snd].
      pose proof (occ_length secs 0 n) as HL. change (occurrences_from 0 n secs) with (occurrences n secs) in HL.
      destruct (occurrences n secs) as [|i0 occ] eqn:E.
      * exfalso. simpl in HL. symmetry in HL. apply count_zero in HL. contradiction.
      * apply in_map_iff. exists (z, o). split; [|exact Hz]. cbn [fst snd].
        destruct ((z <? 0)%Z || (Z.of_nat (List.length (i0 :: occ)) <=? z)%Z) eqn:Eb; [reflexivity|].
        exfalso. rewrite HL in Eb. apply orb_false_iff in Eb. rewrite Z.ltb_ge, Z.leb_gt in Eb. lia.
Qed.

Lemma merge_overrides_err (secs : secsT) ov e : secs_wf secs -> ov_wf ov ->
  merge_overrides secs ov = Err e -> unresolvable secs ov e.
Proof.
  intros Hs Hov H. rewrite (merge_overrides_run ov secs secs eq_refl) in H.
  pose proof (run_spec _ secs (all_instrs_NoDup secs ov Hov) (all_instrs_lt secs ov)) as R. rewrite H in R.
  destruct R as [Hf|(i & n & ps & o & Hi & HL & He)].
  - apply fail_instr in Hf. unfold unresolvable. tauto.
  - right; right. assert (Hnd : NoDup (dkeys ps)).
    { unfold secs_wf in Hs. rewrite Forall_forall in Hs. apply nth_error_In in Hi. apply (Hs _ Hi). }
    apply (merge_params_err o ps e Hnd) in He as (k & -> & Hk).
    rewrite (look_override secs ov i n Hov) in HL by (unfold name_at; rewrite Hi; reflexivity).
    exists i, n, ps, o, k. repeat split; assumption.
Qed.

Lemma merge_overrides_err_conv (secs : secsT) ov e : secs_wf secs -> ov_wf ov ->
  unresolvable secs ov e -> exists e', merge_overrides secs ov = Err e'.
Proof.
  intros Hs Hov H. destruct (merge_overrides secs ov) as [s'|e'] eqn:E; [exfalso|eauto].
  rewrite (merge_overrides_run ov secs secs eq_refl) in E.
  destruct (run_ok_all _ secs s' (all_instrs_NoDup secs ov Hov) (all_instrs_lt secs ov) E) as [Hnf Hall].
  destruct H as [H|[H|H]].
  - apply (Hnf e). apply fail_instr. left; exact H.
  - apply (Hnf e). apply fail_instr. right; exact H.
  - destruct H as (i & n & ps & o & k & Hi & Ho & Hk & ->).
    rewrite <- (look_override secs ov i n Hov) in Ho by (unfold name_at; rewrite Hi; reflexivity).
    destruct (Hall i n ps o Hi Ho) as [ps' Hps'].
    assert (Hnd : NoDup (dkeys ps)).
    { unfold secs_wf in Hs. rewrite Forall_forall in Hs. apply nth_error_In in Hi. apply (Hs _ Hi). }
    assert (merge_params ps o = Err (AmbiguousKey k)) by (apply merge_params_err; [exact Hnd|eauto]).
    congruence.
Qed.

(** Consequences of [applied] in terms of lookups. *)
Lemma applied_frame : forall ps over ps', NoDup (dkeys ps) -> applied ps over ps' ->
  (exists new, dkeys ps' = dkeys ps ++ new /\ incl new (map fst over)) /\ NoDup (dkeys ps').
Proof.
  intros ps over ps' Hnd H. apply (merge_params_applied over ps ps' Hnd) in H.
  revert ps Hnd H. induction over as [|[k v] over IH]; intros ps Hnd H; simpl in H.
  - injection H as <-. split; [exists []; rewrite app_nil_r; split; [reflexivity|intros x []]|exact Hnd].
  - destruct (find_param_key ps k) as [tgt|] eqn:E; [|discriminate]. simpl in H.
    destruct (IH _ (NoDup_dkeys_dset tgt v ps Hnd) H) as [(new & En & Hincl) Hnd'].
    split; [|exact Hnd'].
    destruct (in_dec str_eq_dec tgt (dkeys ps)) as [Hi|Hi].
    + exists new. rewrite En, (dkeys_dset_mem _ _ _ Hi). split; [reflexivity|]. intros x Hx; right; apply Hincl, Hx.
    + exists (tgt :: new). rewrite En, (dkeys_dset_new _ _ _ Hi), <- app_assoc. split; [reflexivity|].
      assert (tgt = k).
      { apply (find_param_key_addr ps k tgt Hnd) in E. inversion E; subst; [reflexivity|contradiction|reflexivity]. }
      subst tgt. intros x [<-|Hx]; [left; reflexivity|right; apply Hincl, Hx].
Qed.

Lemma applied_targets : forall over ps ps', NoDup (dkeys ps) -> applied ps over ps' ->
  exists tgts, targets (dkeys ps) over tgts /\
    (forall key, ~ In key tgts -> dget key ps' = dget key ps) /\
    (forall i tgt v k, nth_error tgts i = Some tgt -> nth_error over i = Some (k, v) ->
        ~ In tgt (skipn (S i) tgts) -> dget tgt ps' = Some v).
Proof.
  induction over as [|[k v] over IH]; intros ps ps' Hnd H.
  - inversion H; subst. exists []. split; [constructor|]. split; [reflexivity|]. intros [|i]; discriminate.
  - inversion H as [|ps0 k0 v0 over0 tgt ps1 Haddr Happ]; subst.
    rewrite <- (dset_spec ps tgt v Hnd) in Happ.
    destruct (IH _ _ (NoDup_dkeys_dset tgt v ps Hnd) Happ) as (tgts & Ht & Hfr & Hset).
    exists (tgt :: tgts). split; [|split].
    + apply targets_cons; [exact Haddr|]. destruct (in_dec str_eq_dec tgt (dkeys ps)) as [Hi|Hi].
      * rewrite <- (dkeys_dset_mem tgt v ps Hi). exact Ht.
      * rewrite <- (dkeys_dset_new tgt v ps Hi). exact Ht.
    + intros key Hk. rewrite Hfr by (intros X; apply Hk; right; exact X).
      apply dget_dset_other. intros ->; apply Hk; left; reflexivity.
    + intros [|i] tgt' v' k' Hn Ho Hl.
      * simpl in Hn, Ho, Hl. injection Hn as <-. injection Ho as <- <-.
        rewrite Hfr by exact Hl. apply dget_dset_same.
      * simpl in Hn, Ho. apply (Hset i tgt' v' k' Hn Ho). exact Hl.
Qed.
End MergeFacts.

(** ** Sanitised names *)
Lemma sub_unsafe_safe b k : forallb key_safe (sub_unsafe b k) = true.
Proof.
  revert b; induction k as [|c k IH]; intros b; simpl; [reflexivity|].
  destruct (key_safe c) eqn:E; simpl; [rewrite E; apply IH|].
  destruct b; simpl; apply IH.
Qed.
Lemma sub_unsafe_id b k : forallb key_safe k = true -> sub_unsafe b k = k.
Proof.
  revert b; induction k as [|c k IH]; intros b; simpl; [reflexivity|]. intros H.
  apply andb_prop in H as [-> H]. f_equal. apply IH, H.
Qed.
Lemma replace_uu_props : forall n s, List.length s < n ->
  (forallb key_safe s = true -> forallb key_safe (replace_uu s) = true) /\
  List.length (replace_uu s) <= List.length s /\
  (contains (lit "__") s = true -> List.length (replace_uu s) < List.length s).
Proof.
  induction n as [|n IH]; intros s Hn; [lia|].
  destruct s as [|c [|d s]]; [simpl; repeat split; auto; discriminate| |].
  - cbn [replace_uu]. repeat split; auto. intros H. exfalso.
    cbn [contains is_prefix lit list_ascii_of_string] in H. rewrite andb_false_r in H. discriminate H.
  - change (replace_uu (c :: d :: s)) with
      (if aeqb c "_" && aeqb d "_" then "_"%char :: replace_uu s else c :: replace_uu (d :: s)).
    destruct (aeqb c "_" && aeqb d "_") eqn:E.
    + destruct (IH s ltac:(simpl in Hn; lia)) as (I1 & I2 & _). repeat split.
      * simpl. intros H. apply andb_prop in H as [_ H]. apply andb_prop in H as [_ H]. apply I1, H.
      * simpl; lia.
      * intros _. simpl; lia.
    + destruct (IH (d :: s) ltac:(simpl in *; lia)) as (I1 & I2 & I3). repeat split.
      * cbn [forallb]. intros H. apply andb_prop in H as [-> H]. apply I1, H.
      * cbn [List.length] in *. lia.
      * intros H. cbn [List.length] in *.
        enough (X : contains (lit "__") (d :: s) = true) by (specialize (I3 X); cbn [List.length] in I3; lia).
        cbn [contains] in H. apply orb_prop in H as [H|H]; [|exact H].
        exfalso. cbn [is_prefix lit list_ascii_of_string] in H. rewrite andb_true_r in H.
        apply andb_prop in H as [H1 H2]. apply Ascii.eqb_eq in H1, H2. subst c d. discriminate.
Qed.

Lemma collapse_props : forall n s, List.length s <= n ->
  (forallb key_safe s = true -> forallb key_safe (collapse n s) = true) /\
  contains (lit "__") (collapse n s) = false.
Proof.
  induction n as [|n IH]; intros s Hn.
  - destruct s; [|simpl in Hn; lia]. split; [auto|reflexivity].
  - cbn [collapse]. destruct (contains (lit "__") s) eqn:E; [|split; [auto|exact E]].
    destruct (replace_uu_props (S (List.length s)) s ltac:(lia)) as (R1 & R2 & R3). specialize (R3 E).
    destruct (IH (replace_uu s) ltac:(lia)) as [I1 I2]. split; [auto|exact I2].
Qed.

Lemma no_uu_suffix a b : contains (lit "__") (a ++ b) = false -> contains (lit "__") b = false.
Proof.
  induction a as [|c a IH]; [auto|]. cbn [app contains]. intros H. apply orb_false_iff in H as [_ H]. auto.
Qed.
Lemma no_uu_prefix a b : contains (lit "__") (a ++ b) = false -> contains (lit "__") a = false.
Proof.
  induction a as [|c a IH]; [reflexivity|]. cbn [app contains]. intros H. apply orb_false_iff in H as [H1 H2].
  apply orb_false_iff. split; [|apply IH, H2].
  destruct a as [|d a]; [cbn [is_prefix lit list_ascii_of_string]; apply andb_false_r|exact H1].
Qed.

Lemma lstrip_u_suffix s : exists p, s = p ++ lstrip_u s /\ forallb (fun c => aeqb c "_") p = true.
Proof.
  induction s as [|c s (p & E & Hp)]; [exists []; split; reflexivity|]. simpl. destruct (aeqb c "_") eqn:Ec.
  - exists (c :: p). split; [simpl; congruence|]. simpl. rewrite Ec; exact Hp.
  - exists []. split; reflexivity.
Qed.
Lemma lstrip_u_hd s : match lstrip_u s with [] => True | c :: _ => c <> "_"%char end.
Proof.
  induction s as [|c s IH]; simpl; [exact I|]. destruct (aeqb c "_") eqn:Ec; [exact IH|].
  apply Ascii.eqb_neq in Ec. exact Ec.
Qed.

Lemma strip_u_props s : exists a b, s = a ++ strip_u s ++ b /\
  (match strip_u s with [] => True | c :: _ => c <> "_"%char end) /\
  (match rev (strip_u s) with [] => True | c :: _ => c <> "_"%char end).
Proof.
  unfold strip_u. destruct (lstrip_u_suffix s) as (a & Ea & _).
  destruct (lstrip_u_suffix (rev (lstrip_u s))) as (b & Eb & _).
  exists a, (rev b). split; [|split].
  - rewrite Ea at 1. f_equal. rewrite <- (rev_involutive (lstrip_u s)) at 1. rewrite Eb at 1. apply rev_app_distr.
  - pose proof (lstrip_u_hd s) as Hh.
    assert (E : lstrip_u s = rev (lstrip_u (rev (lstrip_u s))) ++ rev b).
    { rewrite <- (rev_involutive (lstrip_u s)) at 1. rewrite Eb at 1. apply rev_app_distr. }
    rewrite E in Hh. destruct (rev (lstrip_u (rev (lstrip_u s)))) as [|c r]; [exact I|exact Hh].
  - rewrite rev_involutive. apply lstrip_u_hd.
Qed.

Lemma key_safe_spec c : key_safe c = true <-> letter_ c \/ digit c \/ In c (lit "./:- ").
Proof.
  unfold key_safe.
  assert (E : is_alpha c || is_digit c || aeqb c "_" = ident_char c) by reflexivity.
  rewrite E. rewrite !orb_true_iff, <- letter_digit_char. simpl. unfold aeqb. rewrite !Ascii.eqb_eq. intuition congruence.
Qed.

Lemma contains_uu a b : contains (lit "__") (a ++ "_"%char :: "_"%char :: b) = true.
Proof. induction a as [|c a IH]; [reflexivity|]. cbn [app contains]. rewrite IH. apply orb_true_r. Qed.

Lemma hd_rev_last {A} (l : list A) d : hd d (rev l) = last l d.
Proof.
  induction l as [|x l IH] using rev_ind; [reflexivity|]. rewrite rev_app_distr, last_last. reflexivity.
Qed.

Lemma sanitize_core k :
  let s := strip_u (collapse (List.length (sub_unsafe false k)) (sub_unsafe false k)) in
  forallb key_safe s = true /\ contains (lit "__") s = false /\
  (match s with [] => True | c :: _ => c <> "_"%char end) /\
  (match rev s with [] => True | c :: _ => c <> "_"%char end).
Proof.
  cbv zeta. destruct (collapse_props (List.length (sub_unsafe false k)) (sub_unsafe false k) (le_n _)) as [C1 C2].
  specialize (C1 (sub_unsafe_safe false k)).
  set (o := collapse _ _) in *. destruct (strip_u_props o) as (a & b & E & H1 & H2).
  rewrite E in C1, C2. repeat split; try assumption.
  - rewrite !forallb_app in C1. apply andb_prop in C1 as [_ C1]. apply andb_prop in C1 as [C1 _]. exact C1.
  - apply no_uu_suffix in C2. apply no_uu_prefix in C2. exact C2.
Qed.

Lemma sanitize_safe k : safe_name (sanitize_key k).
Proof.
  unfold sanitize_key. destruct (sanitize_core k) as (H1 & H2 & H3 & H4).
  set (s := strip_u _) in *. destruct s as [|c r] eqn:Es.
  - split; [discriminate|]. split; [constructor; [left; right; right; reflexivity|constructor]|].
    split; [|left; reflexivity]. intros [|x a] b E; simpl in E; [discriminate|]. injection E as _ E. destruct a; discriminate.
  - rewrite <- Es in *. split; [rewrite Es; discriminate|]. split; [|split].
    + eapply forallb_Forall; [|exact H1]. intros x; apply key_safe_spec.
    + intros a b E. rewrite E, contains_uu in H2. discriminate.
    + right. split; [rewrite Es in *; exact H3|]. rewrite <- hd_rev_last.
      destruct (rev s) as [|x y] eqn:Er; [|exact H4].
      exfalso. apply (f_equal (@rev ascii)) in Er. rewrite rev_involutive, Es in Er. discriminate.
Qed.

Lemma lstrip_u_id s : (match s with [] => True | c :: _ => c <> "_"%char end) -> lstrip_u s = s.
Proof. destruct s as [|c s]; [reflexivity|]. simpl. intros H. apply Ascii.eqb_neq in H. unfold aeqb. rewrite H. reflexivity. Qed.

Lemma sanitize_idem k : sanitize_key (sanitize_key k) = sanitize_key k.
Proof.
  unfold sanitize_key at 2 3. destruct (sanitize_core k) as (H1 & H2 & H3 & H4).
  set (s := strip_u _) in *. destruct s as [|c r] eqn:Es; [reflexivity|]. rewrite <- Es in *.
  unfold sanitize_key. rewrite (sub_unsafe_id false s H1).
  assert (Ec : collapse (List.length s) s = s).
  { destruct (List.length s) as [|n]; [reflexivity|]. cbn [collapse]. rewrite H2. reflexivity. }
  rewrite Ec. unfold strip_u. rewrite (lstrip_u_id s) by (rewrite Es; exact H3). rewrite (lstrip_u_id (rev s) H4), rev_involutive.
  rewrite Es. reflexivity.
Qed.

(** Nothing but unsafe characters and underscores is lost or reordered. *)
Definition kept (c : ascii) : bool := key_safe c && negb (aeqb c "_").
Lemma filter_sub_unsafe b k : filter kept (sub_unsafe b k) = filter kept k.
Proof.
  revert b; induction k as [|c k IH]; intros b; simpl; [reflexivity|].
  unfold kept at 2. destruct (key_safe c) eqn:E; cbn [andb].
  - simpl. unfold kept at 1. rewrite E. cbn [andb]. destruct (negb (aeqb c "_")); rewrite IH; reflexivity.
  - destruct b; [apply IH|]. simpl. apply IH.
Qed.
Lemma filter_replace_uu : forall n s, List.length s < n -> filter kept (replace_uu s) = filter kept s.
Proof.
  induction n as [|n IH]; intros s Hn; [lia|]. destruct s as [|c [|d s]]; [reflexivity|reflexivity|].
  change (replace_uu (c :: d :: s)) with
      (if aeqb c "_" && aeqb d "_" then "_"%char :: replace_uu s else c :: replace_uu (d :: s)).
  destruct (aeqb c "_" && aeqb d "_") eqn:E.
  - apply andb_prop in E as [E1 E2]. apply Ascii.eqb_eq in E1, E2. subst c d. simpl.
    apply IH. simpl in Hn; lia.
  - cbn [filter]. rewrite (IH (d :: s)) by (simpl in *; lia). reflexivity.
Qed.
Lemma filter_collapse : forall n s, filter kept (collapse n s) = filter kept s.
Proof.
  induction n as [|n IH]; intros s; [reflexivity|]. cbn [collapse].
  destruct (contains (lit "__") s); [|reflexivity]. rewrite IH. apply (filter_replace_uu (S (List.length s))). lia.
Qed.
Lemma filter_lstrip_u s : filter kept (lstrip_u s) = filter kept s.
Proof.
  induction s as [|c s IH]; [reflexivity|]. simpl. destruct (aeqb c "_") eqn:E; [|reflexivity].
  rewrite IH. unfold kept at 2. rewrite E, andb_false_r. reflexivity.
Qed.
Lemma filter_rev {A} (p : A -> bool) l : filter p (rev l) = rev (filter p l).
Proof.
  induction l as [|x l IH]; [reflexivity|]. simpl. rewrite filter_app, IH. simpl.
  destruct (p x); simpl; [reflexivity|apply app_nil_r].
Qed.
Lemma sanitize_keeps k : filter kept (sanitize_key k) = filter kept k.
Proof.
  assert (E : filter kept (strip_u (collapse (List.length (sub_unsafe false k)) (sub_unsafe false k))) = filter kept k).
  { unfold strip_u. rewrite filter_rev, filter_lstrip_u, filter_rev, rev_involutive, filter_lstrip_u,
      filter_collapse, filter_sub_unsafe. reflexivity. }
  unfold sanitize_key. destruct (strip_u _) as [|c r]; [|exact E]. rewrite <- E. reflexivity.
Qed.
Lemma sanitize_id k : safe_name k -> sanitize_key k = k.
Proof.
  intros (Hne & Hs & Hu & Hend).
  assert (H1 : forallb key_safe k = true).
  { eapply Forall_forallb; [|exact Hs]. intros x; apply key_safe_spec. }
  assert (H2 : contains (lit "__") k = false).
  { destruct (contains (lit "__") k) eqn:E; [exfalso|reflexivity].
    clear -E Hu. assert (X : exists a b, k = a ++ "_"%char :: "_"%char :: b).
    { clear Hu. induction k as [|c k IH]; [discriminate|]. cbn [contains] in E. apply orb_prop in E as [E|E].
      - destruct k as [|d k]; [cbn [is_prefix lit list_ascii_of_string] in E; rewrite andb_false_r in E; discriminate E|].
        cbn [is_prefix lit list_ascii_of_string] in E. rewrite andb_true_r in E. apply andb_prop in E as [E1 E2].
        apply Ascii.eqb_eq in E1, E2. subst c d. exists [], k. reflexivity.
      - destruct (IH E) as (a & b & ->). exists (c :: a), b. reflexivity. }
    destruct X as (a & b & X). apply (Hu a b X). }
  unfold sanitize_key. rewrite (sub_unsafe_id false k H1).
  assert (Ec : collapse (List.length k) k = k).
  { destruct (List.length k) as [|n]; [reflexivity|]. cbn [collapse]. rewrite H2. reflexivity. }
  rewrite Ec. destruct Hend as [->|[Hh Hl]]; [reflexivity|].
  unfold strip_u. rewrite (lstrip_u_id k) by (destruct k; [exact I|exact Hh]).
  rewrite (lstrip_u_id (rev k)).
  - rewrite rev_involutive. destruct k; [congruence|reflexivity].
  - rewrite <- hd_rev_last in Hl. destruct (rev k); [exact I|exact Hl].
Qed.

(** ** Flat dictionary *)
Section FlatFacts.
Variable M : floats.

Lemma fold_dset_nodup {V} : forall (l : list (str * V)) (d : dict V),
  NoDup (dkeys d ++ map fst l) ->
  fold_left (fun d kv => dset (fst kv) (snd kv) d) l d = d ++ l.
Proof.
  induction l as [|[k v] l IH]; intros d H; simpl; [rewrite app_nil_r; reflexivity|].
  assert (Hn : ~ In k (dkeys d)).
  { intros Hi. simpl in H. apply NoDup_remove_2 in H. apply H, in_or_app. left; exact Hi. }
  rewrite (dset_new _ _ _ Hn), IH.
  - rewrite <- app_assoc. reflexivity.
  - unfold dkeys. rewrite map_app, <- app_assoc. exact H.
Qed.

Lemma flat_nodup secs : NoDup (map fst (flat_writes_from M secs [] secs)) ->
  deck_to_flat_dict M secs = flat_writes_from M secs [] secs.
Proof. intros H. unfold deck_to_flat_dict. rewrite fold_dset_nodup; [reflexivity|exact H]. Qed.

Lemma combine_seq_In {A} (l : list A) : forall k j x, In (j, x) (combine (seq k (List.length l)) l) <-> k <= j /\ nth_error l (j - k) = Some x.
Proof.
  induction l as [|y l IH]; intros k j x; simpl.
  - split; [tauto|]. intros [_ H]; destruct (j - k); discriminate.
  - rewrite IH. split.
    + intros [E|[H1 H2]].
      * injection E as -> ->. rewrite Nat.sub_diag. split; [lia|reflexivity].
      * split; [lia|]. replace (j - k) with (S (j - S k)) by lia. exact H2.
    + intros [H1 H2]. destruct (Nat.eq_dec j k) as [->|Hn].
      * rewrite Nat.sub_diag in H2. injection H2 as ->. left; reflexivity.
      * right. split; [lia|]. replace (j - k) with (S (j - S k)) in H2 by lia. exact H2.
Qed.

Lemma param_entries_In pre kv nm a : In (nm, a) (param_entries M pre kv) <->
  match snd kv with
  | VAtom _ b => b = a /\ nm = pre ++ lit "." ++ sanitize_key (fst kv)
  | VList _ l => exists j, nth_error l j = Some a /\ nm = pre ++ lit "." ++ sanitize_key (fst kv) ++ lit "." ++ n_to_str (N.of_nat j)
  end.
Proof.
  unfold param_entries. destruct (snd kv) as [b|l].
  - simpl. split; [intros [E|[]]; injection E as <- <-; split; reflexivity|intros [-> ->]; left; reflexivity].
  - rewrite in_map_iff. split.
    + intros ([j x] & E & Hi). cbn [fst snd] in E. injection E as <- <-. apply combine_seq_In in Hi as [_ Hi].
      rewrite Nat.sub_0_r in Hi. exists j. split; [exact Hi|reflexivity].
    + intros (j & Hj & ->). exists (j, a). split; [reflexivity|]. apply combine_seq_In. rewrite Nat.sub_0_r. split; [lia|exact Hj].
Qed.

Lemma flat_writes_In : forall rest seen all nm a, all = seen ++ rest ->
  In (nm, a) (flat_writes_from M all seen rest) <->
  exists i name ps k v, List.length seen <= i /\ nth_error all i = Some (name, ps) /\ In (k, v) ps /\
    match v with
    | VAtom _ b => b = a /\ nm = flat_prefix M all i name ++ lit "." ++ sanitize_key k
    | VList _ l => exists j, nth_error l j = Some a /\
        nm = flat_prefix M all i name ++ lit "." ++ sanitize_key k ++ lit "." ++ n_to_str (N.of_nat j)
    end.
Proof.
  induction rest as [|[name ps] rest IH]; intros seen all nm a Hall; cbn [flat_writes_from].
  - split; [intros []|]. intros (i & name & ps & k & v & Hle & Hi & _).
    assert (nth_error all i <> None) by congruence. apply nth_error_Some in H. rewrite Hall, app_nil_r in H. lia.
  - assert (Hpre : section_prefix M all seen name = flat_prefix M all (List.length seen) name).
    { unfold section_prefix, flat_prefix. change (count_name M name all) with (count_sec name all).
      rewrite Hall at 3. rewrite firstn_app, Nat.sub_diag, firstn_all. simpl. rewrite app_nil_r. reflexivity. }
    rewrite in_app_iff, in_flat_map, (IH (seen ++ [(name, ps)]) all nm a) by (rewrite <- app_assoc; exact Hall).
    rewrite app_length. simpl List.length. split.
    + intros [([k v] & Hkv & Hin)|(i & name' & ps' & k & v & Hle & H)].
      * apply param_entries_In in Hin. cbn [fst snd] in Hin. rewrite Hpre in Hin.
        exists (List.length seen), name, ps, k, v. split; [lia|]. split; [|split; assumption].
        rewrite Hall, nth_error_app2, Nat.sub_diag by lia. reflexivity.
      * exists i, name', ps', k, v. split; [lia|exact H].
    + intros (i & name' & ps' & k & v & Hle & Hi & Hkv & Hv).
      destruct (Nat.eq_dec i (List.length seen)) as [->|Hne].
      * left. rewrite Hall, nth_error_app2, Nat.sub_diag in Hi by lia. simpl in Hi. injection Hi as <- <-.
        exists (k, v). split; [exact Hkv|]. apply param_entries_In. cbn [fst snd]. rewrite Hpre. exact Hv.
      * right. exists i, name', ps', k, v. split; [lia|]. repeat split; assumption.
Qed.

Lemma flat_entries secs nm a : In (nm, a) (flat_writes_from M secs [] secs) <-> entry_of M secs nm a.
Proof.
  rewrite (flat_writes_In secs [] secs nm a eq_refl). unfold entry_of. split.
  - intros (i & name & ps & k & v & _ & H). exists i, name, ps, k, v. exact H.
  - intros (i & name & ps & k & v & H). exists i, name, ps, k, v. split; [simpl; lia|exact H].
Qed.

Lemma flat_writes_size : forall rest all seen,
  List.length (flat_writes_from M all seen rest) = deck_size M rest.
Proof.
  induction rest as [|[name ps] rest IH]; intros all seen; cbn [flat_writes_from]; [reflexivity|].
  rewrite app_length, IH. unfold deck_size. cbn [map list_sum fold_right snd].
  change (list_sum (?x :: ?l)) with (x + list_sum l). f_equal.
  set (pre := section_prefix M all seen name). clearbody pre. clear.
  induction ps as [|[k v] ps IH]; [reflexivity|]. cbn [flat_map map]. rewrite app_length, IH.
  change (list_sum (?x :: ?l)) with (x + list_sum l). f_equal.
  unfold param_entries. cbn [fst snd]. destruct v as [a|l]; [reflexivity|].
  rewrite map_length, combine_length, seq_length. simpl. lia.
Qed.

Lemma flat_names_from : forall rest seen all, all = seen ++ rest ->
  map fst (flat_writes_from M all seen rest) =
  flat_map (fun x => flat_map (param_names M (flat_prefix M all (fst x) (fst (snd x)))) (snd (snd x)))
           (combine (seq (List.length seen) (List.length rest)) rest).
Proof.
  induction rest as [|[name ps] rest IH]; intros seen all Hall; cbn [flat_writes_from]; [reflexivity|].
  rewrite map_app, (IH (seen ++ [(name, ps)]) all) by (rewrite <- app_assoc; exact Hall).
  cbn [List.length seq combine flat_map fst snd]. rewrite app_length. cbn [List.length].
  rewrite Nat.add_1_r. f_equal.
  assert (Hpre : section_prefix M all seen name = flat_prefix M all (List.length seen) name).
  { unfold section_prefix, flat_prefix. change (count_name M name all) with (count_sec name all).
    rewrite Hall at 3. rewrite firstn_app, Nat.sub_diag, firstn_all. simpl. rewrite app_nil_r. reflexivity. }
  rewrite Hpre. generalize (flat_prefix M all (List.length seen) name). intros pre. clear.
  induction ps as [|[k v] ps IH]; [reflexivity|]. cbn [flat_map]. rewrite map_app, IH. f_equal.
  unfold param_entries, param_names. cbn [fst snd]. destruct v as [a|l]; [reflexivity|].
  rewrite map_map. cbn [fst].
  rewrite <- (map_map fst (fun j => pre ++ lit "." ++ sanitize_key k ++ lit "." ++ n_to_str (N.of_nat j))).
  f_equal. generalize 0. induction l as [|y l IHl]; intros n; [reflexivity|]. cbn [List.length seq combine map fst]. f_equal. apply IHl.
Qed.

Lemma no_clash_writes secs : no_name_clash M secs -> NoDup (map fst (flat_writes_from M secs [] secs)).
Proof. intros H. rewrite (flat_names_from secs [] secs eq_refl). exact H. Qed.

Lemma flat_complete secs :
  no_name_clash M secs ->
  List.length (deck_to_flat_dict M secs) = deck_size M secs /\
  forall nm a, dget nm (deck_to_flat_dict M secs) = Some a <-> entry_of M secs nm a.
Proof.
  intros H. apply no_clash_writes in H. rewrite (flat_nodup secs H). split; [apply flat_writes_size|].
  intros nm a. rewrite <- flat_entries. split; [apply dget_In|]. apply In_dget, H.
Qed.

(** In general nothing but an existing entry is ever stored. *)
Lemma fold_dset_sound {V} : forall (l : list (str * V)) (d : dict V) k v,
  dget k (fold_left (fun d kv => dset (fst kv) (snd kv) d) l d) = Some v ->
  In (k, v) l \/ dget k d = Some v.
Proof.
  induction l as [|[k' v'] l IH]; intros d k v H; [right; exact H|]. simpl in H.
  destruct (IH _ _ _ H) as [Hi|Hi]; [left; right; exact Hi|].
  destruct (str_eqb_spec k k') as [->|Hn].
  - rewrite dget_dset_same in Hi. injection Hi as <-. left; left; reflexivity.
  - rewrite dget_dset_other in Hi by exact Hn. right; exact Hi.
Qed.
Lemma flat_sound secs nm a : dget nm (deck_to_flat_dict M secs) = Some a -> entry_of M secs nm a.
Proof.
  intros H. apply fold_dset_sound in H as [H|H]; [apply flat_entries, H|discriminate].
Qed.
End FlatFacts.
