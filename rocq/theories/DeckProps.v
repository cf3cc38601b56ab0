(** Properties C01-C07 (OSIRIS decks). Vocabulary: DeckSpec.v. *)
From Verif Require Import PyStr Deck DeckSpec DeckProofs DeckProofs2.

(** A concrete [floats] used only for the non-vacuity examples: integer-valued floats, printed with
    ".0". *)
Definition int_floats : floats :=
  {| fl := Z; fl_of_str := fun s => int_of_str (fst (span (fun c => negb (aeqb c ".")) s));
     fl_repr := fun z => z_to_str z ++ lit ".0" |}.

Definition example_deck : list (section int_floats) :=
  [ (lit "grid", [ (lit "nx_p(1:2)", VList int_floats [AInt _ 128; AFloat int_floats (-3)%Z]);
                   (lit "coordinates", VAtom int_floats (AStr _ (lit "carte, sian = !"))) ]);
    (lit "empty", []);
    (lit "species", [ (lit "free_stream", VAtom int_floats (ABool _ false));
                      (lit "x", VList int_floats [ANone _; AStr _ (lit ""); AInt _ (-7)]);
                      (lit "note", VAtom int_floats (ANone _)) ]) ].

Ltac ident_tac := apply identifier_bool; split; reflexivity.
Ltac notin_tac := let H := fresh in intros H; repeat (destruct H as [H|H]; [discriminate H|]); exact H.
Ltac nodup_tac := repeat (constructor; [cbn [map fst In lit list_ascii_of_string]; notin_tac|]); constructor.

Example example_deck_ok : deck_ok int_floats example_deck.
Proof.
  constructor; [|constructor; [|constructor; [|constructor]]]; (split; [ident_tac|split; [nodup_tac|]]).
  - constructor; [|constructor; [|constructor]]; split.
    + right. exists (lit "nx_p"), (lit "1:2").
      split; [ident_tac|split; [reflexivity|split; repeat constructor; discriminate]].
    + cbn. split; [lia|split; [|discriminate]]. repeat constructor.
    + left; ident_tac.
    + cbn. split; [notin_tac|repeat constructor].
  - constructor.
  - constructor; [|constructor; [|constructor; [|constructor]]]; split; try (left; ident_tac); try exact I.
    cbn. split; [lia|split; [|discriminate]]. repeat constructor. notin_tac.
Qed.

(** C01: rendering then parsing is the identity on well-formed decks. *)
Theorem C01_render_parse_roundtrip : forall (M : floats) (secs : list (section M)),
  deck_ok M secs -> parse_deck M (render_deck M secs) = Ok secs.
Proof. exact parse_render. Qed.
Print Assumptions C01_render_parse_roundtrip.

Example C01_nonvacuous : parse_deck int_floats (render_deck int_floats example_deck) = Ok example_deck.
Proof. exact (C01_render_parse_roundtrip _ _ example_deck_ok). Qed.

(** The parser never runs out of fuel: the [OutOfFuel] value of the model is unreachable. *)
Theorem C01_parser_terminates : forall (M : floats) text, parse_deck M text <> Err OutOfFuel.
Proof. exact parse_deck_fuel. Qed.
Print Assumptions C01_parser_terminates.

(** C02: the docstring invariant fails: ... *)
Lemma c02_refuted_aux : forall M, exists text secs,
  parse_deck M text = Ok secs /\ parse_deck M (render_deck M secs) <> Ok secs.
Proof.
  intros M. exists (lit "s {a = 1,,, b = 2}").
  exists [(lit "s", [(lit "a", VList M [AInt M 1; ANone M]); (lit "b", VAtom M (AInt M 2))])].
  split; [reflexivity|].
  assert (E : parse_deck M (render_deck M [(lit "s", [(lit "a", VList M [AInt M 1; ANone M]); (lit "b", VAtom M (AInt M 2))])])
            = Ok [(lit "s", [(lit "a", VAtom M (AInt M 1)); (lit "b", VAtom M (AInt M 2))])]) by reflexivity.
  rewrite E. discriminate.
Qed.
Theorem C02_reparse_invariant_refuted : forall M, exists text secs,
  parse_deck M text = Ok secs /\ parse_deck M (render_deck M secs) <> Ok secs.
Proof. exact c02_refuted_aux. Qed.
Print Assumptions C02_reparse_invariant_refuted.

(** ... also with a single-quoted string that contains a double quote (the re-rendered deck does not
    even parse) ... *)
Lemma c02_refuted_quote_aux : forall M, exists text secs e,
  parse_deck M text = Ok secs /\ parse_deck M (render_deck M secs) = Err e.
Proof.
  intros M. exists (lit "s {a = 'x""y', b = 1}").
  exists [(lit "s", [(lit "a", VAtom M (AStr M (lit "x""y"))); (lit "b", VAtom M (AInt M 1))])].
  exists (Unterminated (lit "s")). split; reflexivity.
Qed.
Theorem C02_reparse_quote_refuted : forall M, exists text secs e,
  parse_deck M text = Ok secs /\ parse_deck M (render_deck M secs) = Err e.
Proof. exact c02_refuted_quote_aux. Qed.
Print Assumptions C02_reparse_quote_refuted.

(** ... and with a literal that overflows ([float("1e999")] is inf, whose [repr] is "inf"): the value
    comes back as a string. *)
Lemma c02_refuted_inf_aux : forall M, fl_repr M (fl_of_str M (lit "1e999")) = lit "inf" ->
  exists text f, parse_deck M text = Ok [(lit "s", [(lit "a", VAtom M (AFloat M f))])] /\
    parse_deck M (render_deck M [(lit "s", [(lit "a", VAtom M (AFloat M f))])])
      = Ok [(lit "s", [(lit "a", VAtom M (AStr M (lit "inf")))])].
Proof.
  intros M H. exists (lit "s {a = 1e999}"), (fl_of_str M (lit "1e999")). split; [reflexivity|].
  unfold render_deck, render_section, flat_map, render_line, render_value, render_atom. cbn [map snd fst].
  rewrite H. reflexivity.
Qed.
Theorem C02_reparse_inf_refuted : forall M, fl_repr M (fl_of_str M (lit "1e999")) = lit "inf" ->
  exists text f, parse_deck M text = Ok [(lit "s", [(lit "a", VAtom M (AFloat M f))])] /\
    parse_deck M (render_deck M [(lit "s", [(lit "a", VAtom M (AFloat M f))])])
      = Ok [(lit "s", [(lit "a", VAtom M (AStr M (lit "inf")))])].
Proof. exact c02_refuted_inf_aux. Qed.
Print Assumptions C02_reparse_inf_refuted.

(** The invariant does hold for every text whose parsed deck has no such value (and no quote, '!' or
    line break inside a parenthesised key). *)
Theorem C02_reparse_when_plain : forall (M : floats) text secs,
  parse_deck M text = Ok secs ->
  Forall (fun s => Forall (fun kv => plain_key (fst kv) /\ plain_value M (snd kv)) (snd s)) secs ->
  parse_deck M (render_deck M secs) = Ok secs.
Proof. exact reparse. Qed.
Print Assumptions C02_reparse_when_plain.

Example C02_nonvacuous : let text := lit "grid { nx(1:2) = 4, 8, s = 'ab', t = .T. } sp{}" in
  exists secs, parse_deck int_floats text = Ok secs /\ List.length secs = 2 /\
  Forall (fun s => Forall (fun kv => plain_key (fst kv) /\ plain_value int_floats (snd kv)) (snd s)) secs.
Proof.
  eexists. split; [reflexivity|split; [reflexivity|]].
  repeat constructor; simpl; try discriminate;
    intros H; repeat (destruct H as [H|H]; [discriminate H|]); exact H.
Qed.

(** C03: what a successful override does. Position by position: the section name stays; a section
    that no override concerns is unchanged; a section that one concerns gets it applied. *)
Theorem C03_overrides_exact : forall (V : Type) (secs : list (str * dict V)) ov secs',
  secs_wf secs -> ov_wf ov -> merge_overrides secs ov = Ok secs' ->
  List.length secs' = List.length secs /\
  forall i n ps, nth_error secs i = Some (n, ps) ->
    exists ps', nth_error secs' i = Some (n, ps') /\
      match override_for ov n (count_sec n (firstn i secs)) with
      | None => ps' = ps
      | Some o => applied ps o ps'
      end.
Proof. exact @merge_overrides_ok. Qed.
Print Assumptions C03_overrides_exact.

(** ... where applying keeps the existing keys in place and only appends requested keys ... *)
Theorem C03_overrides_key_order : forall (V : Type) (ps : dict V) over ps',
  NoDup (dkeys ps) -> applied ps over ps' ->
  (exists new, dkeys ps' = dkeys ps ++ new /\ incl new (map fst over)) /\ NoDup (dkeys ps').
Proof. exact @applied_frame. Qed.
Print Assumptions C03_overrides_key_order.

(** ... leaves every key that no override addresses at its value, and each addressed key holds the
    value of the last override that addresses it. *)
Theorem C03_overrides_values : forall (V : Type) (over : list (str * V)) ps ps',
  NoDup (dkeys ps) -> applied ps over ps' ->
  exists tgts, targets (dkeys ps) over tgts /\
    (forall key, ~ In key tgts -> dget key ps' = dget key ps) /\
    (forall i tgt v k, nth_error tgts i = Some tgt -> nth_error over i = Some (k, v) ->
        ~ In tgt (skipn (S i) tgts) -> dget tgt ps' = Some v).
Proof. exact @applied_targets. Qed.
Print Assumptions C03_overrides_values.

Definition ex_secs : list (str * dict nat) :=
  [ (lit "grid", [(lit "nx_p(1:1)", 1); (lit "c", 2)]); (lit "species", [(lit "a", 3)]); (lit "species", [(lit "a", 4)]) ].
Definition ex_ov : list (str * sec_over nat) :=
  [ (lit "grid", OverAll [(lit "nx_p", 10); (lit "new", 11)]); (lit "species", OverIdx [(1%Z, [(lit "a", 12)])]) ].
Example C03_nonvacuous : secs_wf ex_secs /\ ov_wf ex_ov /\
  merge_overrides ex_secs ex_ov =
  Ok [ (lit "grid", [(lit "nx_p(1:1)", 10); (lit "c", 2); (lit "new", 11)]); (lit "species", [(lit "a", 3)]); (lit "species", [(lit "a", 12)]) ].
Proof.
  split; [|split; [|reflexivity]].
  - repeat constructor; simpl; intros H; repeat (destruct H as [H|H]; [discriminate H|]); exact H.
  - split; repeat constructor; simpl; intros H; repeat (destruct H as [H|H]; [discriminate H|]); exact H.
Qed.

(** C04: the call fails exactly when some override is unresolvable, and the exception names a real
    culprit. *)
Theorem C04_override_errors_justified : forall (V : Type) (secs : list (str * dict V)) ov e,
  secs_wf secs -> ov_wf ov -> merge_overrides secs ov = Err e -> unresolvable secs ov e.
Proof. exact @merge_overrides_err. Qed.
Print Assumptions C04_override_errors_justified.

Theorem C04_unresolvable_overrides_rejected : forall (V : Type) (secs : list (str * dict V)) ov e,
  secs_wf secs -> ov_wf ov -> unresolvable secs ov e -> exists e', merge_overrides secs ov = Err e'.
Proof. exact @merge_overrides_err_conv. Qed.
Print Assumptions C04_unresolvable_overrides_rejected.

Example C04_nonvacuous :
  merge_overrides ex_secs [(lit "gird", OverAll [(lit "c", 1)])] = Err (UnknownSection (lit "gird")) /\
  merge_overrides ex_secs [(lit "species", OverIdx [(2%Z, [])])] = Err (IndexOutOfRange (lit "species") 2) /\
  merge_overrides [(lit "g", [(lit "a(1)", 1); (lit "a(2)", 2)])] [(lit "g", OverAll [(lit "a", 3)])] = Err (AmbiguousKey (lit "a")).
Proof. repeat split; reflexivity. Qed.

(** C05: names are safe, safe names are kept, sanitising twice is sanitising once, and only unsafe
    characters and underscores are touched. *)
Theorem C05_sanitized_safe : forall k, safe_name (sanitize_key k).
Proof. exact sanitize_safe. Qed.
Print Assumptions C05_sanitized_safe.
Theorem C05_sanitize_idempotent : forall k, sanitize_key (sanitize_key k) = sanitize_key k.
Proof. exact sanitize_idem. Qed.
Print Assumptions C05_sanitize_idempotent.
Theorem C05_sanitize_keeps_safe_names : forall k, safe_name k -> sanitize_key k = k.
Proof. exact sanitize_id. Qed.
Print Assumptions C05_sanitize_keeps_safe_names.
Theorem C05_sanitize_keeps_safe_characters : forall k,
  filter (fun c => key_safe c && negb (aeqb c "_")) (sanitize_key k)
  = filter (fun c => key_safe c && negb (aeqb c "_")) k.
Proof. exact sanitize_keeps. Qed.
Print Assumptions C05_sanitize_keeps_safe_characters.
Example C05_nonvacuous : sanitize_key (lit "species[0].num_par_x(1:1)") = lit "species_0_.num_par_x_1:1".
Proof. reflexivity. Qed.

(** C06: two parameters can overwrite each other ... *)
Lemma c06_refuted_aux : forall M, exists secs : list (section M),
  deck_ok M secs /\ List.length (deck_to_flat_dict M secs) < deck_size M secs.
Proof.
  intros M.
  exists [(lit "s", [(lit "a(1)", VAtom M (AInt M 1)); (lit "a_1", VAtom M (AInt M 2))])]. split.
  - constructor; [|constructor]. split; [|split].
    + ident_tac.
    + nodup_tac.
    + constructor; [|constructor; [|constructor]]; (split; [|exact I]).
      * right. exists (lit "a"), (lit "1").
        split; [ident_tac|split; [reflexivity|split; repeat constructor; discriminate]].
      * left. ident_tac.
  - apply Nat.ltb_lt. reflexivity.
Qed.
Theorem C06_flat_loses_parameters_refuted : forall M, exists secs : list (section M),
  deck_ok M secs /\ List.length (deck_to_flat_dict M secs) < deck_size M secs.
Proof. exact c06_refuted_aux. Qed.
Print Assumptions C06_flat_loses_parameters_refuted.

(** ... when no two flat names clash, the flat dictionary has exactly one entry per scalar and per
    list element, with its value ... *)
Theorem C06_flat_complete : forall (M : floats) secs, no_name_clash M secs ->
  List.length (deck_to_flat_dict M secs) = deck_size M secs /\
  forall nm a, dget nm (deck_to_flat_dict M secs) = Some a <-> entry_of M secs nm a.
Proof. exact flat_complete. Qed.
Print Assumptions C06_flat_complete.

(** ... and in any case it never invents an entry. *)
Theorem C06_flat_sound : forall (M : floats) secs nm a,
  dget nm (deck_to_flat_dict M secs) = Some a -> entry_of M secs nm a.
Proof. exact flat_sound. Qed.
Print Assumptions C06_flat_sound.

Example C06_nonvacuous : no_name_clash int_floats example_deck /\ deck_size int_floats example_deck = 8.
Proof.
  split; [|reflexivity]. unfold no_name_clash.
  assert (E : forall l, (fix nodupb (l : list str) : bool := match l with [] => true
     | x :: r => negb (existsb (str_eqb x) r) && nodupb r end) l = true -> NoDup l).
  { intros l. induction l as [|x r IH]; [constructor|]. intros H. apply andb_prop in H. destruct H as [H1 H2].
    constructor; [|apply IH; exact H2]. intros Hin. apply Bool.negb_true_iff in H1.
    assert (existsb (str_eqb x) r = true) as K; [|congruence].
    apply existsb_exists. exists x. split; [exact Hin|]. destruct (str_eqb_spec x x); congruence. }
  apply E. vm_compute. reflexivity.
Qed.

(** C07: a comment appended to a line whose quotes are closed changes nothing, whatever the comment
    contains. *)
Theorem C07_comments_inert : forall M pre l c post,
  starts_line pre -> no_line_break l -> no_line_break c -> open_quote None l = None ->
  parse_deck M (pre ++ (l ++ "!"%char :: c) ++ newline :: post) = parse_deck M (pre ++ l ++ newline :: post).
Proof. exact parse_comment. Qed.
Print Assumptions C07_comments_inert.

(** The stripper keeps exactly the text before the first '!' outside quotes. *)
Theorem C07_strip_comment_exact : forall s, exists rest,
  s = strip_comment s ++ rest /\
  (forall p r, strip_comment s = p ++ "!"%char :: r -> open_quote None p <> None) /\
  (rest = [] \/ (exists r, rest = "!"%char :: r) /\ open_quote None (strip_comment s) = None).
Proof. exact (strip_comment_exact None). Qed.
Print Assumptions C07_strip_comment_exact.

Example C07_nonvacuous : open_quote None (lit "  a = ""x!y"", ") = None /\
  strip_comment (lit "  a = ""x!y"", ! it's { a = 3 }") = lit "  a = ""x!y"", ".
Proof. split; reflexivity. Qed.
