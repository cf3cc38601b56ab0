(** Model of /repo/adept/osiris/deck.py (OSIRIS namelist parser / renderer, override merging, flat
    MLflow view). *)
From Verif Require Import PyStr.

(** Python exceptions and fuel exhaustion are values. [OutOfFuel] is proved unreachable
    ([DeckProofs.parse_deck_fuel]). *)
Inductive deck_err :=
| ExpectedSection            (* ValueError, deck.py:139-141 *)
| ExpectedBrace (name : str) (* ValueError, deck.py:145-146 *)
| Unterminated (name : str)  (* ValueError, deck.py:151-152 *)
| ExpectedKey (name : str)   (* ValueError, deck.py:157-158 *)
| ExpectedEq (key : str)     (* ValueError, deck.py:162-163 *)
| OutOfFuel
| UnknownSection (name : str)           (* KeyError, deck.py:284-285 *)
| IndexOutOfRange (name : str) (idx : Z)(* IndexError, deck.py:289-292 *)
| AmbiguousKey (key : str).             (* ValueError, deck.py:258 *)

Inductive res (A : Type) := Ok (a : A) | Err (e : deck_err).
Arguments Ok {A}. Arguments Err {A}.

Definition bind {A B} (r : res A) (f : A -> res B) : res B :=
  match r with Ok a => f a | Err e => Err e end.
Definition is_ok {A} (r : res A) : Prop := exists a, r = Ok a.

(** deck.py:44 [_QUOTE_CHARS]. *)
Definition dquote : ascii := ascii_of_nat 34.
Definition squote : ascii := ascii_of_nat 39.
Definition is_quote (c : ascii) : bool := aeqb c dquote || aeqb c squote.

(** The whitespace set " \t\n\r" of the parser, deck.py:129-132, 184, 189. *)
Definition is_ws (c : ascii) : bool :=
  Nat.eqb (code c) 32 || Nat.eqb (code c) 9 || Nat.eqb (code c) 10 || Nat.eqb (code c) 13.

(** deck.py:46 [_IDENT_RE = [A-Za-z_][A-Za-z0-9_]*]. *)
Definition ident_start (c : ascii) : bool := is_alpha c || aeqb c "_".
Definition ident_char (c : ascii) : bool := is_alpha c || is_digit c || aeqb c "_".

(** Longest prefix of characters satisfying [p], and the rest. *)
Fixpoint span (p : ascii -> bool) (s : str) : str * str :=
  match s with
  | c :: s' => if p c then let (a, b) := span p s' in (c :: a, b) else ([], s)
  | [] => ([], [])
  end.

(** [_IDENT_RE.match] at the start of the remaining text: matched text and remainder. *)
Definition match_ident (s : str) : option (str * str) :=
  match s with
  | c :: s' => if ident_start c then let (a, b) := span ident_char s' in Some (c :: a, b) else None
  | [] => None
  end.

(** deck.py:47 [_KEY_RE = IDENT(?:\([^)]*\))?].  The optional group is taken iff the identifier is
    followed by an opening parenthesis that is closed somewhere later (regex backtracking). *)
Definition match_key (s : str) : option (str * str) :=
  match match_ident s with
  | None => None
  | Some (id, r) =>
      match r with
      | c :: r' =>
          if aeqb c "(" then
            match span (fun x => negb (aeqb x ")")) r' with
            | (a, d :: r'') => Some (id ++ c :: a ++ [d], r'')
            | (_, []) => Some (id, r)
            end
          else Some (id, r)
      | [] => Some (id, r)
      end
  end.

(** deck.py:48 [_INT_RE = ^[+-]?\d+$] (the subject is stripped, so [$] cannot match before a
    trailing newline). *)
Definition drop_sign (t : str) : str :=
  match t with
  | c :: t' => if aeqb c "+" || aeqb c "-" then t' else t
  | [] => []
  end.
Definition all_digits1 (t : str) : bool :=
  match t with [] => false | _ => forallb is_digit t end.
Definition is_int_lit (t : str) : bool := all_digits1 (drop_sign t).

(** deck.py:49 [_FLOAT_RE = ^[+-]?(?:\d+\.\d*|\.\d+|\d+)(?:[eEdD][+-]?\d+)?$]. *)
Definition is_exp_tail (t : str) : bool :=
  match t with
  | [] => true
  | c :: t' =>
      (aeqb c "e" || aeqb c "E" || aeqb c "d" || aeqb c "D") && all_digits1 (drop_sign t')
  end.
Definition is_float_lit (t : str) : bool :=
  let (a, r) := span is_digit (drop_sign t) in
  match r with
  | c :: r' =>
      if aeqb c "." then
        let (b, r2) := span is_digit r' in
        (negb (Nat.eqb (List.length a) 0) || negb (Nat.eqb (List.length b) 0)) && is_exp_tail r2
      else negb (Nat.eqb (List.length a) 0) && is_exp_tail r
  | [] => negb (Nat.eqb (List.length a) 0)
  end.

(** Python [float]: an abstract type with [float(s)] and [repr].  Nothing is assumed about it here;
    the round-trip theorems require, per float value, that its [repr] reads back ([Deck.float_ok]). *)
Record floats := mkFloats {
  fl : Type;
  fl_of_str : str -> fl;     (* float(s) on a string that matches _FLOAT_RE with e for d *)
  fl_repr : fl -> str        (* repr(f) *)
}.

(** deck.py:52-68 [_strip_comment]. [q] is the open quote. *)
Fixpoint strip_comment_aux (q : option ascii) (s : str) : str :=
  match s with
  | [] => []
  | ch :: s' =>
      match q with
      | Some qc => ch :: strip_comment_aux (if aeqb ch qc then None else Some qc) s'
      | None =>
          if is_quote ch then ch :: strip_comment_aux (Some ch) s'
          else if aeqb ch "!" then []
          else ch :: strip_comment_aux None s'
      end
  end.
Definition strip_comment (line : str) : str := strip_comment_aux None line.

(** deck.py:71-92 [_split_top_commas].  [buf] holds the current piece reversed. *)
Fixpoint split_commas_aux (q : option ascii) (buf : str) (s : str) : list str :=
  match s with
  | [] => let last := strip (rev buf) in match last with [] => [] | _ => [last] end
  | ch :: s' =>
      match q with
      | Some qc => split_commas_aux (if aeqb ch qc then None else Some qc) (ch :: buf) s'
      | None =>
          if is_quote ch then split_commas_aux (Some ch) (ch :: buf) s'
          else if aeqb ch "," then strip (rev buf) :: split_commas_aux None [] s'
          else split_commas_aux None (ch :: buf) s'
      end
  end.
Definition split_top_commas (s : str) : list str := split_commas_aux None [] s.

(** deck.py:110 [t.replace("d", "e").replace("D", "e")]. *)
Definition d_to_e (t : str) : str := map (fun c => if aeqb c "d" || aeqb c "D" then "e"%char else c) t.

(** [t[1:-1]] *)
Definition inner (t : str) : str := removelast (tl t).

Section WithFloats.
Variable M : floats.

(** Values of deck parameters.  Simplification: lists contain atoms only (the parser never nests
    lists; [_render_value] would flatten a nested one). *)
Inductive atom :=
| ABool (b : bool)
| AInt (z : Z)
| AFloat (f : fl M)
| AStr (s : str)
| ANone.
Inductive value :=
| VAtom (a : atom)
| VList (l : list atom).

Definition params := dict value.
Definition section := (str * params)%type.

(** deck.py:95-111 [_parse_atom]. *)
Definition parse_atom (tok : str) : atom :=
  let t := strip tok in
  match t with
  | [] => ANone
  | c :: _ =>
      if Nat.leb 2 (List.length t) && is_quote c && aeqb (last t c) c then AStr (inner t)
      else
        let low := lower t in
        if str_eqb low (lit ".true.") || str_eqb low (lit ".t.") then ABool true
        else if str_eqb low (lit ".false.") || str_eqb low (lit ".f.") then ABool false
        else if is_int_lit t then AInt (int_of_str t)
        else if is_float_lit t then AFloat (fl_of_str M (d_to_e t))
        else AStr t
  end.

(** deck.py:114-120 [_parse_value]. *)
Definition parse_value (rhs : str) : value :=
  match split_top_commas rhs with
  | [] => VAtom ANone
  | [p] => VAtom (parse_atom p)
  | ps => VList (map parse_atom ps)
  end.

(** deck.py:129-132 [skip_ws]; positions are represented by the remaining text. *)
Fixpoint skip_ws (s : str) : str :=
  match s with c :: s' => if is_ws c then skip_ws s' else s | [] => [] end.

(** deck.py:183-192: after a comma, is the next token a key followed by '='? *)
Definition peek_key_eq (s : str) : bool :=
  match match_key (skip_ws s) with
  | Some (_, r) => match skip_ws r with c :: _ => aeqb c "=" | [] => false end
  | None => false
  end.

(** deck.py:165-196: scan a value; returns its text and the remaining text, which is empty or
    starts with the '}' or ',' that ended the value. *)
Fixpoint scan_value (q : option ascii) (s : str) : str * str :=
  match s with
  | [] => ([], [])
  | ch :: s' =>
      match q with
      | Some qc =>
          let (a, b) := scan_value (if aeqb ch qc then None else Some qc) s' in (ch :: a, b)
      | None =>
          if is_quote ch then let (a, b) := scan_value (Some ch) s' in (ch :: a, b)
          else if aeqb ch "}" then ([], s)
          else if aeqb ch "," && peek_key_eq s' then ([], s)
          else let (a, b) := scan_value None s' in (ch :: a, b)
      end
  end.

(** deck.py:148-199: the parameters of a section, up to and including its '}'. *)
Fixpoint parse_params (fuel : nat) (name : str) (ps : params) (s : str) : res (params * str) :=
  match fuel with
  | O => Err OutOfFuel
  | S fuel' =>
      match skip_ws s with
      | [] => Err (Unterminated name)
      | c :: s1 =>
          if aeqb c "}" then Ok (ps, s1)
          else
            match match_key (c :: s1) with
            | None => Err (ExpectedKey name)
            | Some (key, r) =>
                match skip_ws r with
                | [] => Err (ExpectedEq key)
                | e :: r1 =>
                    if aeqb e "=" then
                      let (vt, r2) := scan_value None r1 in
                      let r3 := match r2 with x :: r' => if aeqb x "," then r' else r2 | [] => [] end in
                      parse_params fuel' name (dset key (parse_value (strip vt)) ps) r3
                    else Err (ExpectedEq key)
                end
            end
      end
  end.

(** deck.py:134-201: the section loop. *)
Fixpoint parse_sections (fuel : nat) (s : str) : res (list section) :=
  match fuel with
  | O => Err OutOfFuel
  | S fuel' =>
      match skip_ws s with
      | [] => Ok []
      | c :: s1 =>
          match match_ident (c :: s1) with
          | None => Err ExpectedSection
          | Some (name, r) =>
              match skip_ws r with
              | [] => Err (ExpectedBrace name)
              | b :: r1 =>
                  if aeqb b "{" then
                    bind (parse_params (S (List.length r1)) name [] r1) (fun pr =>
                    bind (parse_sections fuel' (snd pr)) (fun rest =>
                    Ok ((name, fst pr) :: rest)))
                  else Err (ExpectedBrace name)
              end
          end
      end
  end.

Definition newline : ascii := ascii_of_nat 10.

(** deck.py:123-201 [parse_deck]; the source is re-joined with newlines after comment stripping. *)
Definition deck_src (text : str) : str := join [newline] (map strip_comment (splitlines text)).
Definition parse_deck (text : str) : res (list section) :=
  let src := deck_src text in parse_sections (S (List.length src)) src.

(** deck.py:208-221 [_render_value]. *)
Definition render_atom (a : atom) : str :=
  match a with
  | ABool true => lit ".true."
  | ABool false => lit ".false."
  | AStr s => dquote :: s ++ [dquote]
  | AInt z => z_to_str z
  | AFloat f => fl_repr M f
  | ANone => []
  end.
Definition render_value (v : value) : str :=
  match v with
  | VAtom a => render_atom a
  | VList l => join (lit ", ") (map render_atom l)
  end.

(** [f"{k:<{kw}}"]. *)
Definition pad (kw : nat) (k : str) : str := k ++ repeat " "%char (kw - List.length k).

(** deck.py:237: one parameter line. *)
Definition render_line (kw : nat) (kv : str * value) : str :=
  lit "  " ++ pad kw (fst kv) ++ lit " = " ++ render_value (snd kv) ++ lit ",".

(** deck.py:228-239: the lines of a section. *)
Definition render_section (sec : section) : list str :=
  let (name, ps) := sec in
  match ps with
  | [] => [name; lit "{"; lit "}"; []]
  | _ =>
      let kw := list_max (map (fun kv => List.length (fst kv)) ps) in
      [name; lit "{"] ++ map (render_line kw) ps ++ [lit "}"; []]
  end.

(** deck.py:224-240 [render_deck]. *)
Definition render_deck (secs : list section) : str :=
  join [newline] (flat_map render_section secs).

End WithFloats.

(** * Overrides: deck.py:243-296.  The value type is irrelevant, so it is a parameter. *)
Section Merge.
Context {V : Type}.

(** [k.split("(", 1)[0]], deck.py:253. *)
Definition base_name (k : str) : str := fst (span (fun c => negb (aeqb c "(")) k).

(** deck.py:243-258 [_find_param_key]. *)
Definition find_param_key (ps : dict V) (requested : str) : res str :=
  if dmem requested ps then Ok requested
  else
    match filter (fun k => str_eqb (base_name k) requested) (dkeys ps) with
    | [c] => Ok c
    | [] => Ok requested
    | _ => Err (AmbiguousKey requested)
    end.

(** deck.py:261-264 [_merge_params]. *)
Fixpoint merge_params (ps : dict V) (over : list (str * V)) : res (dict V) :=
  match over with
  | [] => Ok ps
  | (k, v) :: over' =>
      bind (find_param_key ps k) (fun target => merge_params (dset target v ps) over')
  end.

(** A section's override: either one set of parameters for all occurrences or, when the dict is
    non-empty and all its keys are ints, one set per occurrence index (deck.py:287).
    Simplification: a non-dict override (an AttributeError in the code) and a dict mixing int and
    str keys are not modelled. *)
Inductive sec_over :=
| OverAll (over : list (str * V))
| OverIdx (l : list (Z * list (str * V))).

(** deck.py:279-281 [by_name[name]]: indices of the occurrences of a section, in order. *)
Fixpoint occurrences_from (i : nat) (name : str) (secs : list (str * dict V)) : list nat :=
  match secs with
  | [] => []
  | (n, _) :: secs' =>
      if str_eqb n name then i :: occurrences_from (S i) name secs'
      else occurrences_from (S i) name secs'
  end.
Definition occurrences := occurrences_from 0.

(** [_merge_params(sections[i][1], over)] on the section list. *)
Fixpoint merge_at (i : nat) (over : list (str * V)) (secs : list (str * dict V)) {struct secs}
  : res (list (str * dict V)) :=
  match secs with
  | [] => Ok []
  | (n, ps) :: secs' =>
      match i with
      | O => bind (merge_params ps over) (fun ps' => Ok ((n, ps') :: secs'))
      | S i' => bind (merge_at i' over secs') (fun r => Ok ((n, ps) :: r))
      end
  end.

(** deck.py:295-296. *)
Fixpoint merge_all (occ : list nat) (over : list (str * V)) (secs : list (str * dict V)) :=
  match occ with
  | [] => Ok secs
  | i :: occ' => bind (merge_at i over secs) (merge_all occ' over)
  end.

(** deck.py:288-293. *)
Fixpoint merge_idx (name : str) (occ : list nat) (l : list (Z * list (str * V)))
  (secs : list (str * dict V)) :=
  match l with
  | [] => Ok secs
  | (idx, over) :: l' =>
      if (idx <? 0)%Z || (Z.of_nat (List.length occ) <=? idx)%Z
      then Err (IndexOutOfRange name idx)
      else bind (merge_at (nth (Z.to_nat idx) occ 0) over secs) (merge_idx name occ l')
  end.

(** deck.py:267-296 [merge_overrides].  The code mutates in place; the model returns the new list,
    so after an exception the partially updated list is not observable (the callers let the
    exception abort the setup). *)
Fixpoint merge_overrides (secs : list (str * dict V)) (ov : list (str * sec_over))
  : res (list (str * dict V)) :=
  match ov with
  | [] => Ok secs
  | (name, so) :: ov' =>
      match occurrences name secs with
      | [] => Err (UnknownSection name)
      | occ =>
          bind (match so with
                | OverAll over => merge_all occ over secs
                | OverIdx l => merge_idx name occ l secs
                end) (fun secs' => merge_overrides secs' ov')
      end
  end.
End Merge.
Arguments sec_over : clear implicits.

(** * Flat view for MLflow: deck.py:299-339. *)

(** deck.py:299 [_KEY_SANITIZE_RE = [^A-Za-z0-9_./:\- ]+], complement class. *)
Definition key_safe (c : ascii) : bool :=
  is_alpha c || is_digit c || aeqb c "_" || aeqb c "." || aeqb c "/" || aeqb c ":" || aeqb c "-" || aeqb c " ".

(** deck.py:307 [.sub("_", k)]: every maximal run of unsafe characters becomes one underscore.
    [inrun] says the previous character was unsafe. *)
Fixpoint sub_unsafe (inrun : bool) (k : str) : str :=
  match k with
  | [] => []
  | c :: k' =>
      if key_safe c then c :: sub_unsafe false k'
      else if inrun then sub_unsafe true k' else "_"%char :: sub_unsafe true k'
  end.

(** deck.py:309 [out.replace("__", "_")]: non-overlapping, left to right. *)
Fixpoint replace_uu (s : str) : str :=
  match s with
  | c :: s' =>
      match s' with
      | d :: s'' => if aeqb c "_" && aeqb d "_" then "_"%char :: replace_uu s'' else c :: replace_uu s'
      | [] => [c]
      end
  | [] => []
  end.

(** deck.py:308-309 the while loop; the length decreases at every iteration. *)
Fixpoint collapse (fuel : nat) (s : str) : str :=
  match fuel with
  | O => s
  | S f => if contains (lit "__") s then collapse f (replace_uu s) else s
  end.

(** [s.strip("_")]. *)
Fixpoint lstrip_u (s : str) : str :=
  match s with c :: s' => if aeqb c "_" then lstrip_u s' else s | [] => [] end.
Definition strip_u (s : str) : str := rev (lstrip_u (rev (lstrip_u s))).

(** deck.py:302-310 [_sanitize_key]. *)
Definition sanitize_key (k : str) : str :=
  let out := sub_unsafe false k in
  let out := collapse (List.length out) out in
  match strip_u out with [] => lit "_" | r => r end.

Section Flat.
Variable M : floats.

Definition count_name (name : str) (secs : list (section M)) : nat :=
  List.length (filter (fun s => str_eqb (fst s) name) secs).

(** deck.py:332-338: the entries one parameter writes, in order. *)
Definition param_entries (prefix : str) (kv : str * value M) : list (str * atom M) :=
  let ks := sanitize_key (fst kv) in
  match snd kv with
  | VList _ l =>
      map (fun jx => (prefix ++ lit "." ++ ks ++ lit "." ++ n_to_str (N.of_nat (fst jx)), snd jx))
          (combine (seq 0 (List.length l)) l)
  | VAtom _ a => [(prefix ++ lit "." ++ ks, a)]
  end.

(** deck.py:326-331: the prefix of a section; [seen] are the sections before it. *)
Definition section_prefix (all seen : list (section M)) (name : str) : str :=
  if Nat.ltb 1 (count_name name all)
  then sanitize_key (name ++ lit "[" ++ n_to_str (N.of_nat (count_name name seen)) ++ lit "]")
  else sanitize_key name.

(** All the assignments [flat[name] = value] performed, in order. *)
Fixpoint flat_writes_from (all seen rest : list (section M)) : list (str * atom M) :=
  match rest with
  | [] => []
  | (name, ps) :: rest' =>
      flat_map (param_entries (section_prefix all seen name)) ps
        ++ flat_writes_from all (seen ++ [(name, ps)]) rest'
  end.

(** deck.py:313-339 [deck_to_flat_dict]. *)
Definition deck_to_flat_dict (secs : list (section M)) : dict (atom M) :=
  fold_left (fun d kv => dset (fst kv) (snd kv) d) (flat_writes_from secs [] secs) [].
End Flat.
