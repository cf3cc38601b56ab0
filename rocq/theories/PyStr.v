(** Python strings and dictionaries, as used by every discrete area of the model.

    A Python [str] is modelled as a list of 8-bit characters read as the code points 0..255
    (Latin-1).  Simplification: code points above 255 do not occur.  All the character classes
    below are Python's classes restricted to that range.  *)
From Coq Require Export List Arith NArith ZArith Bool Ascii String Lia.
From Coq Require Import DecimalN DecimalPos DecimalFacts.
Export ListNotations.
Open Scope list_scope.

Definition str := list ascii.

(** A literal. *)
Definition lit (s : string) : str := list_ascii_of_string s.

Definition aeqb (a b : ascii) : bool := Ascii.eqb a b.

Fixpoint str_eqb (a b : str) : bool :=
  match a, b with
  | [], [] => true
  | x :: a', y :: b' => Ascii.eqb x y && str_eqb a' b'
  | _, _ => false
  end.

Definition code (c : ascii) : nat := nat_of_ascii c.
Definition between (lo hi : nat) (c : ascii) : bool := Nat.leb lo (code c) && Nat.leb (code c) hi.

Definition is_upper (c : ascii) : bool := between 65 90 c.
Definition is_lower (c : ascii) : bool := between 97 122 c.
Definition is_digit (c : ascii) : bool := between 48 57 c.
Definition is_alpha (c : ascii) : bool := is_upper c || is_lower c.

(** [str.isspace] on code points 0..255: \t\n\v\f\r, \x1c..\x1f, space, \x85, \xa0. *)
Definition is_space (c : ascii) : bool :=
  between 9 13 c || between 28 32 c || Nat.eqb (code c) 133 || Nat.eqb (code c) 160.

(** Characters at which [str.splitlines] breaks a line, on code points 0..255:
    \n \v \f \r \x1c \x1d \x1e \x85. *)
Definition is_linebreak (c : ascii) : bool :=
  between 10 13 c || between 28 30 c || Nat.eqb (code c) 133.

(** ["...".lstrip()] and [.strip()] with the default (whitespace) argument. *)
Fixpoint lstrip (s : str) : str :=
  match s with
  | c :: s' => if is_space c then lstrip s' else s
  | [] => []
  end.
Definition rstrip (s : str) : str := rev (lstrip (rev s)).
Definition strip (s : str) : str := rstrip (lstrip s).

(** [str.lower], on the ASCII letters (the Latin-1 upper-case letters map to Latin-1 letters, never
    to ASCII; they are left alone: the results are only compared with ASCII literals). *)
Definition lower_char (c : ascii) : ascii :=
  if is_upper c then ascii_of_nat (code c + 32) else c.
Definition lower (s : str) : str := map lower_char s.

(** [sub in s]. *)
Fixpoint is_prefix (p s : str) : bool :=
  match p, s with
  | [], _ => true
  | x :: p', y :: s' => Ascii.eqb x y && is_prefix p' s'
  | _ :: _, [] => false
  end.
Fixpoint contains (p s : str) : bool :=
  is_prefix p s || match s with [] => false | _ :: s' => contains p s' end.

(** [s.endswith(p)]. *)
Definition ends_with (p s : str) : bool := is_prefix (rev p) (rev s).

(** [sep.join(l)]. *)
Fixpoint join (sep : str) (l : list str) : str :=
  match l with
  | [] => []
  | [x] => x
  | x :: l' => x ++ sep ++ join sep l'
  end.

(** [str.splitlines()] (keepends=False). *)
Fixpoint splitlines_aux (cur : str) (s : str) : list str :=
  match s with
  | [] => match cur with [] => [] | _ => [rev cur] end
  | c :: s' =>
      if is_linebreak c then
        rev cur ::
          match s' with
          | d :: s'' =>
              if Nat.eqb (code c) 13 && Nat.eqb (code d) 10
              then splitlines_aux [] s''
              else splitlines_aux [] s'
          | [] => []
          end
      else splitlines_aux (c :: cur) s'
  end.
Definition splitlines (s : str) : list str := splitlines_aux [] s.

(** Decimal printing and reading of integers ([str(int)], [int(str)]).  Simplification: CPython's
    4300-digit conversion limit is not modelled. *)
Fixpoint uint_chars (u : Decimal.uint) : str :=
  match u with
  | Decimal.Nil => []
  | Decimal.D0 u => "0"%char :: uint_chars u
  | Decimal.D1 u => "1"%char :: uint_chars u
  | Decimal.D2 u => "2"%char :: uint_chars u
  | Decimal.D3 u => "3"%char :: uint_chars u
  | Decimal.D4 u => "4"%char :: uint_chars u
  | Decimal.D5 u => "5"%char :: uint_chars u
  | Decimal.D6 u => "6"%char :: uint_chars u
  | Decimal.D7 u => "7"%char :: uint_chars u
  | Decimal.D8 u => "8"%char :: uint_chars u
  | Decimal.D9 u => "9"%char :: uint_chars u
  end.

Definition digit_con (c : ascii) (u : Decimal.uint) : Decimal.uint :=
  match code c with
  | 48 => Decimal.D0 u | 49 => Decimal.D1 u | 50 => Decimal.D2 u | 51 => Decimal.D3 u
  | 52 => Decimal.D4 u | 53 => Decimal.D5 u | 54 => Decimal.D6 u | 55 => Decimal.D7 u
  | 56 => Decimal.D8 u | 57 => Decimal.D9 u
  | _ => u
  end.
Fixpoint chars_uint (s : str) : Decimal.uint :=
  match s with [] => Decimal.Nil | c :: s' => digit_con c (chars_uint s') end.

Definition n_to_str (n : N) : str := uint_chars (N.to_uint n).
Definition digits_to_n (s : str) : N := N.of_uint (chars_uint s).

Definition z_to_str (z : Z) : str :=
  match z with
  | Z0 => lit "0"
  | Zpos p => n_to_str (Npos p)
  | Zneg p => "-"%char :: n_to_str (Npos p)
  end.

(** [int(s)] for an [s] already known to match [[+-]?\d+]. *)
Definition int_of_str (s : str) : Z :=
  match s with
  | "-"%char :: ds => Z.opp (Z.of_N (digits_to_n ds))
  | "+"%char :: ds => Z.of_N (digits_to_n ds)
  | ds => Z.of_N (digits_to_n ds)
  end.

(** Python dictionaries with string keys: association lists in insertion order; assigning an
    existing key keeps its position, a new key goes last. *)
Section Dict.
  Context {V : Type}.
  Definition dict := list (str * V).
  Fixpoint dget (k : str) (d : dict) : option V :=
    match d with
    | [] => None
    | (k', v) :: d' => if str_eqb k k' then Some v else dget k d'
    end.
  Fixpoint dset (k : str) (v : V) (d : dict) : dict :=
    match d with
    | [] => [(k, v)]
    | (k', v') :: d' => if str_eqb k k' then (k', v) :: d' else (k', v') :: dset k v d'
    end.
  Definition dmem (k : str) (d : dict) : bool := match dget k d with Some _ => true | None => false end.
  Definition dkeys (d : dict) : list str := map fst d.
End Dict.
Arguments dict : clear implicits.

(** * Basic facts *)

Lemma str_eqb_spec : forall a b, reflect (a = b) (str_eqb a b).
Proof.
  induction a as [|x a IH]; destruct b as [|y b]; simpl; try (constructor; congruence).
  destruct (Ascii.eqb_spec x y) as [->|Hn]; simpl.
  - destruct (IH b) as [->|Hn]; constructor; congruence.
  - constructor; congruence.
Qed.
Lemma str_eqb_refl a : str_eqb a a = true.
Proof. destruct (str_eqb_spec a a); congruence. Qed.
Lemma str_eqb_eq a b : str_eqb a b = true <-> a = b.
Proof. destruct (str_eqb_spec a b); split; congruence. Qed.
Lemma str_eqb_neq a b : str_eqb a b = false <-> a <> b.
Proof. destruct (str_eqb_spec a b); split; congruence. Qed.
Lemma str_eq_dec (a b : str) : {a = b} + {a <> b}.
Proof. destruct (str_eqb_spec a b); [left|right]; assumption. Qed.

Section DictFacts.
  Context {V : Type}.
  Implicit Type d : dict V.

  Lemma dget_In k v d : dget k d = Some v -> In (k, v) d.
  Proof.
    induction d as [|[k' v'] d IH]; simpl; [congruence|].
    destruct (str_eqb_spec k k') as [->|Hn]; intros H; [left; congruence|right; auto].
  Qed.
  Lemma dget_None k d : dget k d = None <-> ~ In k (dkeys d).
  Proof.
    induction d as [|[k' v'] d IH]; simpl; [tauto|].
    destruct (str_eqb_spec k k') as [->|Hn].
    - split; [congruence|intros H; exfalso; apply H; auto].
    - rewrite IH; split; intros H; [intros [E|E]; [congruence|tauto]|tauto].
  Qed.
  Lemma dmem_In k d : dmem k d = true <-> In k (dkeys d).
  Proof.
    unfold dmem; destruct (dget k d) as [v|] eqn:E.
    - split; [intros _|reflexivity]. apply dget_In in E. apply (in_map fst) in E; exact E.
    - split; [congruence|]. intros H; apply dget_None in E; contradiction.
  Qed.
  Lemma In_dget k v d : NoDup (dkeys d) -> In (k, v) d -> dget k d = Some v.
  Proof.
    induction d as [|[k' v'] d IH]; simpl; [tauto|]. intros Hnd [E|H].
    - injection E as -> ->. rewrite str_eqb_refl; reflexivity.
    - apply NoDup_cons_iff in Hnd as [Hni Hnd].
      destruct (str_eqb_spec k k') as [->|Hn]; [|auto].
      exfalso; apply Hni. apply (in_map fst) in H; exact H.
  Qed.
  Lemma dget_dset_same k v d : dget k (dset k v d) = Some v.
  Proof.
    induction d as [|[k' v'] d IH]; simpl; [rewrite str_eqb_refl; reflexivity|].
    destruct (str_eqb_spec k k') as [->|Hn]; simpl.
    - rewrite str_eqb_refl; reflexivity.
    - destruct (str_eqb_spec k k'); [congruence|exact IH].
  Qed.
  Lemma dget_dset_other k k' v d : k <> k' -> dget k (dset k' v d) = dget k d.
  Proof.
    intros Hn; induction d as [|[k2 v2] d IH]; simpl.
    - destruct (str_eqb_spec k k'); [congruence|reflexivity].
    - destruct (str_eqb_spec k' k2) as [->|Hn2]; simpl.
      + destruct (str_eqb_spec k k2); [congruence|reflexivity].
      + destruct (str_eqb_spec k k2); [reflexivity|exact IH].
  Qed.
  Lemma dkeys_dset_mem k v d : In k (dkeys d) -> dkeys (dset k v d) = dkeys d.
  Proof.
    unfold dkeys; induction d as [|[k' v'] d IH]; simpl; [tauto|].
    intros H; destruct (str_eqb_spec k k') as [->|Hn]; simpl; [reflexivity|].
    f_equal; apply IH; destruct H as [E|E]; [congruence|exact E].
  Qed.
  Lemma dset_new k v d : ~ In k (dkeys d) -> dset k v d = d ++ [(k, v)].
  Proof.
    unfold dkeys; induction d as [|[k' v'] d IH]; simpl; [reflexivity|].
    intros H; destruct (str_eqb_spec k k') as [->|Hn]; [exfalso; apply H; auto|].
    f_equal; apply IH; tauto.
  Qed.
  Lemma dkeys_dset_new k v d : ~ In k (dkeys d) -> dkeys (dset k v d) = dkeys d ++ [k].
  Proof. intros H; rewrite (dset_new _ _ _ H). unfold dkeys; rewrite map_app; reflexivity. Qed.
  Lemma In_dkeys_dset k k' v d : In k (dkeys (dset k' v d)) <-> k = k' \/ In k (dkeys d).
  Proof.
    destruct (in_dec str_eq_dec k' (dkeys d)) as [Hi|Hn].
    - rewrite (dkeys_dset_mem _ _ _ Hi). split; [tauto|intros [->|H]; assumption].
    - rewrite (dkeys_dset_new _ _ _ Hn), in_app_iff; simpl. intuition congruence.
  Qed.
  Lemma NoDup_dkeys_dset k v d : NoDup (dkeys d) -> NoDup (dkeys (dset k v d)).
  Proof.
    intros H; destruct (in_dec str_eq_dec k (dkeys d)) as [Hi|Hn].
    - rewrite (dkeys_dset_mem _ _ _ Hi); exact H.
    - rewrite (dkeys_dset_new _ _ _ Hn).
      apply NoDup_rev in H. rewrite <- (rev_involutive (dkeys d ++ [k])).
      apply NoDup_rev. rewrite rev_app_distr; simpl. constructor; [|exact H].
      rewrite <- in_rev; exact Hn.
  Qed.
End DictFacts.

(** Printing then reading an integer. *)
Lemma chars_uint_chars u : chars_uint (uint_chars u) = u.
Proof. induction u; simpl; [reflexivity| | | | | | | | | |]; rewrite IHu; reflexivity. Qed.

Lemma uint_chars_digits u : forallb is_digit (uint_chars u) = true.
Proof. induction u; simpl; [reflexivity| | | | | | | | | |]; exact IHu. Qed.

Lemma digits_to_n_to_str n : digits_to_n (n_to_str n) = n.
Proof. unfold digits_to_n, n_to_str. rewrite chars_uint_chars. apply DecimalN.Unsigned.of_to. Qed.

Lemma n_to_str_digits n : forallb is_digit (n_to_str n) = true.
Proof. apply uint_chars_digits. Qed.

Lemma n_to_str_nonempty n : n_to_str n <> [].
Proof.
  intros H. assert (E : N.to_uint n = Decimal.Nil).
  { unfold n_to_str in H. destruct (N.to_uint n); simpl in H; try discriminate. reflexivity. }
  destruct n as [|p]; [discriminate E|].
  change (N.to_uint (N.pos p)) with (Pos.to_uint p) in E.
  exact (DecimalPos.Unsigned.to_uint_nonnil p E).
Qed.

Lemma n_to_str_inj a b : n_to_str a = n_to_str b -> a = b.
Proof. intros H. rewrite <- (digits_to_n_to_str a), <- (digits_to_n_to_str b), H. reflexivity. Qed.

Lemma code_lt c : code c < 256.
Proof. unfold code. apply nat_ascii_bounded. Qed.

(** Finite sweep over all 256 characters. *)
Lemma forall_ascii_bool (P : ascii -> bool) :
  forallb P (map ascii_of_nat (seq 0 256)) = true -> forall c, P c = true.
Proof.
  intros H c. rewrite forallb_forall in H. apply H.
  rewrite <- (ascii_nat_embedding c). apply in_map. apply in_seq.
  pose proof (nat_ascii_bounded c); lia.
Qed.

Lemma is_digit_cases c : is_digit c = true ->
  c = "0"%char \/ c = "1"%char \/ c = "2"%char \/ c = "3"%char \/ c = "4"%char \/
  c = "5"%char \/ c = "6"%char \/ c = "7"%char \/ c = "8"%char \/ c = "9"%char.
Proof.
  intros H.
  assert (HH : (if is_digit c then existsb (Ascii.eqb c) (lit "0123456789") else true) = true).
  { revert c H. intros c _. revert c. apply forall_ascii_bool. vm_compute. reflexivity. }
  rewrite H in HH. apply existsb_exists in HH as [x [Hx E]]. apply Ascii.eqb_eq in E. subst x.
  simpl in Hx. intuition congruence.
Qed.

Lemma int_of_str_digits ds c : is_digit c = true ->
  int_of_str (c :: ds) = Z.of_N (digits_to_n (c :: ds)).
Proof.
  intros H. apply is_digit_cases in H.
  repeat (destruct H as [->|H]; [reflexivity|]). subst c; reflexivity.
Qed.

Lemma int_of_z_to_str z : int_of_str (z_to_str z) = z.
Proof.
  destruct z as [|p|p]; [reflexivity| |].
  - simpl z_to_str. pose proof (n_to_str_digits (N.pos p)) as Hd.
    pose proof (n_to_str_nonempty (N.pos p)) as Hn.
    pose proof (digits_to_n_to_str (N.pos p)) as Hr.
    destruct (n_to_str (N.pos p)) as [|c ds]; [congruence|].
    simpl in Hd. apply andb_prop in Hd as [Hc _].
    rewrite int_of_str_digits by exact Hc. rewrite Hr. reflexivity.
  - simpl. rewrite digits_to_n_to_str. reflexivity.
Qed.
