(** Specification vocabulary for the deck properties (C01-C07), independent of the parser. *)
From Verif Require Import PyStr Deck.

(** ASCII letters, digits, underscore. *)
Definition letter_ (c : ascii) : Prop :=
  (65 <= nat_of_ascii c <= 90) \/ (97 <= nat_of_ascii c <= 122) \/ c = "_"%char.
Definition digit (c : ascii) : Prop := 48 <= nat_of_ascii c <= 57.

(** A section name: a letter or underscore followed by letters, digits, underscores. *)
Definition is_identifier (s : str) : Prop :=
  exists c r, s = c :: r /\ letter_ c /\ Forall (fun x => letter_ x \/ digit x) r.

(** Characters that end a line for [str.splitlines]. *)
Definition no_line_break (s : str) : Prop := Forall (fun c => is_linebreak c = false) s.

(** A parameter key: an identifier, optionally followed by a parenthesised index text that contains
    no ')', no quote, no '!' and no line break. *)
Definition is_param_key (k : str) : Prop :=
  is_identifier k \/
  exists id body, is_identifier id /\ k = id ++ "("%char :: body ++ [")"%char] /\
    no_line_break body /\
    Forall (fun c => c <> ")"%char /\ c <> "!"%char /\ c <> dquote /\ c <> squote) body.

Section WithFloats.
Variable M : floats.

(** A float whose [repr] is a (non-integer looking) decimal literal that reads back as the float.
    CPython guarantees this for every finite float ([repr] is the shortest literal that reads back);
    it fails for inf and nan. *)
Definition float_ok (f : fl M) : Prop :=
  is_float_lit (fl_repr M f) = true /\
  is_int_lit (fl_repr M f) = false /\
  fl_of_str M (d_to_e (fl_repr M f)) = f.

Definition atom_ok (a : atom M) : Prop :=
  match a with
  | ABool _ _ | AInt _ _ | ANone _ => True
  | AFloat _ f => float_ok f
  | AStr _ s => ~ In dquote s /\ no_line_break s
  end.

Definition value_ok (v : value M) : Prop :=
  match v with
  | VAtom _ a => atom_ok a
  | VList _ l => 2 <= List.length l /\ Forall atom_ok l /\ last l (ANone M) <> ANone M
  end.

Definition section_ok (s : section M) : Prop :=
  is_identifier (fst s) /\ NoDup (map fst (snd s)) /\
  Forall (fun kv => is_param_key (fst kv) /\ value_ok (snd kv)) (snd s).

Definition deck_ok (secs : list (section M)) : Prop := Forall section_ok secs.
End WithFloats.

(** * Overrides *)

(** The text of key [k] before its first '(' is [req]. *)
Definition has_base (req k : str) : Prop :=
  ~ In "("%char req /\ (k = req \/ exists body, k = req ++ "("%char :: body).

(** [tgt] is the key an override of [req] addresses in a parameter dictionary with keys [keys]: the
    key itself if present, else the only key whose text before the first '(' is [req], else a new
    key [req]. *)
Inductive addresses (keys : list str) (req : str) : str -> Prop :=
| addr_exact : In req keys -> addresses keys req req
| addr_base : forall k, ~ In req keys -> In k keys -> has_base req k ->
    (forall k', In k' keys -> has_base req k' -> k' = k) -> addresses keys req k
| addr_new : ~ In req keys -> (forall k', In k' keys -> ~ has_base req k') -> addresses keys req req.

(** Two different existing keys have base name [req], and [req] itself is not a key. *)
Definition ambiguous (keys : list str) (req : str) : Prop :=
  ~ In req keys /\ exists k1 k2, k1 <> k2 /\ In k1 keys /\ In k2 keys /\ has_base req k1 /\ has_base req k2.

(** Effect of a list of overrides on a parameter dictionary, one after the other: each one sets the
    key it addresses (in place when the key exists, at the end when it is new). *)
Inductive applied {V} : dict V -> list (str * V) -> dict V -> Prop :=
| applied_nil : forall ps, applied ps [] ps
| applied_cons : forall ps k v over tgt ps',
    addresses (map fst ps) k tgt ->
    applied (match find (fun kv => str_eqb (fst kv) tgt) ps with
             | Some _ => map (fun kv => if str_eqb (fst kv) tgt then (fst kv, v) else kv) ps
             | None => ps ++ [(tgt, v)]
             end) over ps' ->
    applied ps ((k, v) :: over) ps'.

(** Number of sections called [name] in a list. *)
Definition count_sec {A} (name : str) (secs : list (str * A)) : nat :=
  List.length (filter (fun s => str_eqb (fst s) name) secs).

(** The override that concerns the [j]-th occurrence of section [name]. *)
Definition override_for {V} (ov : list (str * sec_over V)) (name : str) (j : nat)
  : option (list (str * V)) :=
  match find (fun x => str_eqb (fst x) name) ov with
  | None => None
  | Some (_, OverAll o) => Some o
  | Some (_, OverIdx l) =>
      match find (fun x => Z.eqb (fst x) (Z.of_nat j)) l with Some (_, o) => Some o | None => None end
  end.

(** * Comments *)
(** The quote still open at the end of a text (quotes do not nest), starting from state [q]. *)
Fixpoint open_quote (q : option ascii) (s : str) : option ascii :=
  match s with
  | [] => q
  | c :: s' =>
      match q with
      | Some qc => open_quote (if Ascii.eqb c qc then None else Some qc) s'
      | None => open_quote (if Ascii.eqb c dquote || Ascii.eqb c squote then Some c else None) s'
      end
  end.

(** [pre] ends where a line starts. *)
Definition starts_line (pre : str) : Prop := pre = [] \/ exists p, pre = p ++ [newline].


(** * Reparsing *)
Section Reparse.
Variable M : floats.
(** The part of well-formedness that is not guaranteed by having been parsed. *)
Definition plain_key (k : str) : Prop :=
  no_line_break k /\ ~ In "!"%char k /\ ~ In dquote k /\ ~ In squote k.
Definition plain_value (v : value M) : Prop :=
  match v with
  | VAtom _ a => atom_ok M a
  | VList _ l => Forall (atom_ok M) l /\ last l (ANone M) <> ANone M
  end.

End Reparse.

(** * Override errors *)
Section OverrideErrors.
Context {V : Type}.

(** While applying [over] to [ps] the override of [k] becomes ambiguous. *)
Definition ambiguous_at (ps : dict V) (over : list (str * V)) (k : str) : Prop :=
  exists o1 v o2 ps1, over = o1 ++ (k, v) :: o2 /\ applied ps o1 ps1 /\ ambiguous (map fst ps1) k.


(** Dictionaries have distinct keys. *)
Definition ov_wf (ov : list (str * sec_over V)) : Prop :=
  NoDup (map fst ov) /\ Forall (fun x => match snd x with OverAll _ => True | OverIdx l => NoDup (map fst l) end) ov.

Definition secs_wf (secs : list (str * dict V)) : Prop := Forall (fun s => NoDup (dkeys (snd s))) secs.


(** The overrides cannot be resolved, with the exception that reports it. *)
Definition unresolvable (secs : list (str * dict V)) (ov : list (str * sec_over V)) (e : deck_err) : Prop :=
  (exists n so, In (n, so) ov /\ ~ In n (map fst secs) /\ e = UnknownSection n) \/
  (exists n l z o, In (n, OverIdx l) ov /\ In (z, o) l /\ In n (map fst secs) /\
      ~ (0 <= z < Z.of_nat (count_sec n secs))%Z /\ e = IndexOutOfRange n z) \/
  (exists i n ps o k, nth_error secs i = Some (n, ps) /\
      override_for ov n (count_sec n (firstn i secs)) = Some o /\ ambiguous_at ps o k /\ e = AmbiguousKey k).

(** The keys addressed by the successive overrides. *)
Inductive targets : list str -> list (str * V) -> list str -> Prop :=
| targets_nil : forall keys, targets keys [] []
| targets_cons : forall keys k v over tgt tgts,
    addresses keys k tgt ->
    targets (if in_dec str_eq_dec tgt keys then keys else keys ++ [tgt]) over tgts ->
    targets keys ((k, v) :: over) (tgt :: tgts).

End OverrideErrors.

(** * Flat names *)
(** MLflow-safe: non-empty; letters, digits and "_./:- " only; no double underscore; no underscore at
    either end unless the name is "_". *)
Definition safe_name (s : str) : Prop :=
  s <> [] /\
  Forall (fun c => letter_ c \/ digit c \/ In c (lit "./:- ")) s /\
  (forall a b, s <> a ++ "_"%char :: "_"%char :: b) /\
  (s = ["_"%char] \/ (hd " "%char s <> "_"%char /\ last s " "%char <> "_"%char)).


Section FlatSpec.
Variable M : floats.
(** Specification of the names. *)
Definition flat_prefix (secs : list (section M)) (i : nat) (name : str) : str :=
  if Nat.ltb 1 (count_sec name secs)
  then sanitize_key (name ++ lit "[" ++ n_to_str (N.of_nat (count_sec name (firstn i secs))) ++ lit "]")
  else sanitize_key name.

Definition entry_of (secs : list (section M)) (nm : str) (a : atom M) : Prop :=
  exists i name ps k v, nth_error secs i = Some (name, ps) /\ In (k, v) ps /\
    match v with
    | VAtom _ b => b = a /\ nm = flat_prefix secs i name ++ lit "." ++ sanitize_key k
    | VList _ l => exists j, nth_error l j = Some a /\
        nm = flat_prefix secs i name ++ lit "." ++ sanitize_key k ++ lit "." ++ n_to_str (N.of_nat j)
    end.


(** Number of scalars and list elements of a deck. *)
Definition value_size (v : value M) : nat := match v with VAtom _ _ => 1 | VList _ l => List.length l end.
Definition deck_size (secs : list (section M)) : nat :=
  list_sum (map (fun s => list_sum (map (fun kv => value_size (snd kv)) (snd s))) secs).


(** All the flat names of a deck, with repetitions. *)
Definition param_names (pre : str) (kv : str * value M) : list str :=
  match snd kv with
  | VAtom _ _ => [pre ++ lit "." ++ sanitize_key (fst kv)]
  | VList _ l => map (fun j => pre ++ lit "." ++ sanitize_key (fst kv) ++ lit "." ++ n_to_str (N.of_nat j))
                     (seq 0 (List.length l))
  end.
Definition flat_names (secs : list (section M)) : list str :=
  flat_map (fun x => flat_map (param_names (flat_prefix secs (fst x) (fst (snd x)))) (snd (snd x)))
           (combine (seq 0 (List.length secs)) secs).
Definition no_name_clash (secs : list (section M)) : Prop := NoDup (flat_names secs).
End FlatSpec.
