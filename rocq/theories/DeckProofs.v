(** Lemmas about the deck model: round trip, comments. *)
From Verif Require Import PyStr Deck DeckSpec.

(** ** Character classes *)
Lemma is_linebreak_space c : is_linebreak c = true -> is_space c = true.
Proof.
  intros H. assert (HH : implb (is_linebreak c) (is_space c) = true).
  { clear H. revert c. apply forall_ascii_bool. vm_compute. reflexivity. }
  rewrite H in HH. exact HH.
Qed.

Ltac sweep c := revert c; apply forall_ascii_bool; vm_compute; reflexivity.

(** Characters of a token that no stage of the parser treats specially. *)
Definition tokc (c : ascii) : bool :=
  negb (is_space c) && negb (is_quote c) && negb (aeqb c ",") && negb (aeqb c "}") && negb (aeqb c "!").

Lemma ident_char_tokc c : ident_char c = true -> tokc c = true.
Proof.
  intros H. assert (HH : implb (ident_char c) (tokc c) = true).
  { clear H. sweep c. }
  rewrite H in HH. exact HH.
Qed.
Lemma ident_start_char c : ident_start c = true -> ident_char c = true.
Proof.
  intros H. assert (HH : implb (ident_start c) (ident_char c) = true) by (clear H; sweep c).
  rewrite H in HH. exact HH.
Qed.
Lemma ws_space c : is_ws c = true -> is_space c = true.
Proof.
  intros H. assert (HH : implb (is_ws c) (is_space c) = true) by (clear H; sweep c).
  rewrite H in HH. exact HH.
Qed.

Lemma tokc_split c : tokc c = true ->
  is_space c = false /\ is_quote c = false /\ aeqb c "," = false /\ aeqb c "}" = false /\ aeqb c "!" = false
  /\ is_ws c = false /\ is_linebreak c = false.
Proof.
  unfold tokc; intros H. repeat (apply andb_prop in H as [H ?]).
  repeat match goal with X : negb _ = true |- _ => apply negb_true_iff in X end.
  repeat split; try assumption.
  - destruct (is_ws c) eqn:E; [|reflexivity]. apply ws_space in E; congruence.
  - destruct (is_linebreak c) eqn:E; [|reflexivity]. apply is_linebreak_space in E; congruence.
Qed.

Lemma letter_start c : letter_ c <-> ident_start c = true.
Proof.
  unfold letter_, ident_start, is_alpha, is_upper, is_lower, between, code, aeqb.
  rewrite !orb_true_iff, !andb_true_iff, !Nat.leb_le, Ascii.eqb_eq. tauto.
Qed.
Lemma letter_digit_char c : letter_ c \/ digit c <-> ident_char c = true.
Proof.
  unfold letter_, digit, ident_char, is_digit, is_alpha, is_upper, is_lower, between, code, aeqb.
  rewrite !orb_true_iff, !andb_true_iff, !Nat.leb_le, Ascii.eqb_eq. tauto.
Qed.

(** ** span, identifiers, keys *)
Lemma span_app p a b :
  forallb p a = true -> (match b with [] => true | c :: _ => negb (p c) end = true) ->
  span p (a ++ b) = (a, b).
Proof.
  induction a as [|x a IH]; simpl; intros Ha Hb.
  - destruct b as [|c b]; [reflexivity|]. simpl. destruct (p c); [discriminate|reflexivity].
  - apply andb_prop in Ha as [Hx Ha]. rewrite Hx, (IH Ha Hb). reflexivity.
Qed.
Lemma span_all p a : forallb p a = true -> span p a = (a, []).
Proof. intros H. rewrite <- (app_nil_r a) at 1. apply span_app; [exact H|reflexivity]. Qed.
Lemma span_eq p s a b : span p s = (a, b) -> s = a ++ b.
Proof.
  revert a b; induction s as [|c s IH]; simpl; intros a b H; [injection H as <- <-; reflexivity|].
  destruct (p c); [|injection H as <- <-; reflexivity].
  destruct (span p s) as [a' b'] eqn:E. injection H as <- <-. simpl. f_equal. apply IH; reflexivity.
Qed.
Lemma span_fst_all p s a b : span p s = (a, b) -> forallb p a = true.
Proof.
  revert a b; induction s as [|c s IH]; simpl; intros a b H; [injection H as <- <-; reflexivity|].
  destruct (p c) eqn:Ec; [|injection H as <- <-; reflexivity].
  destruct (span p s) as [a' b'] eqn:E. injection H as <- <-. simpl. rewrite Ec. apply (IH a' b'); reflexivity.
Qed.
Lemma span_snd p s a b : span p s = (a, b) -> match b with [] => True | c :: _ => p c = false end.
Proof.
  revert a b; induction s as [|c s IH]; simpl; intros a b H; [injection H as <- <-; exact I|].
  destruct (p c) eqn:Ec; [|injection H as <- <-; exact Ec].
  destruct (span p s) as [a' b'] eqn:E. injection H as <- <-. apply (IH a' b'); reflexivity.
Qed.

Lemma Forall_forallb {A} (P : A -> Prop) (p : A -> bool) l :
  (forall x, P x -> p x = true) -> Forall P l -> forallb p l = true.
Proof. intros HP H; apply forallb_forall; intros x Hx; apply HP; rewrite Forall_forall in H; auto. Qed.
Lemma forallb_Forall {A} (P : A -> Prop) (p : A -> bool) l :
  (forall x, p x = true -> P x) -> forallb p l = true -> Forall P l.
Proof. intros HP H; apply Forall_forall; intros x Hx; apply HP; rewrite forallb_forall in H; auto. Qed.

Lemma identifier_bool s : is_identifier s <->
  match s with c :: r => ident_start c = true /\ forallb ident_char r = true | [] => False end.
Proof.
  split.
  - intros (c & r & -> & Hc & Hr). split; [apply letter_start, Hc|].
    eapply Forall_forallb; [|exact Hr]. intros x; apply letter_digit_char.
  - destruct s as [|c r]; [tauto|]. intros [Hc Hr]. exists c, r. split; [reflexivity|].
    split; [apply letter_start, Hc|]. eapply forallb_Forall; [|exact Hr].
    intros x; apply letter_digit_char.
Qed.

Lemma match_ident_app id rest :
  is_identifier id ->
  (match rest with [] => true | c :: _ => negb (ident_char c) end = true) ->
  match_ident (id ++ rest) = Some (id, rest).
Proof.
  rewrite identifier_bool. destruct id as [|c r]; [tauto|]. intros [Hc Hr] Hrest.
  simpl. rewrite Hc, (span_app _ _ _ Hr Hrest). reflexivity.
Qed.

(** What a valid key looks like to the lexer. *)
Definition hd_is (p : ascii -> bool) (s : str) : bool := match s with [] => false | c :: _ => p c end.

Lemma hd_is_and p q s : hd_is (fun c => p c && q c) s = true -> hd_is p s = true.
Proof. destruct s as [|c s]; simpl; [discriminate|]. intros H; apply andb_prop in H; tauto. Qed.

Lemma match_key_app k rest :
  is_param_key k -> hd_is is_ws rest = true -> match_key (k ++ rest) = Some (k, rest).
Proof.
  intros Hk Hrest. destruct rest as [|w rest]; [discriminate|]. simpl in Hrest.
  assert (Hw1 : ident_char w = false).
  { destruct (ident_char w) eqn:E; [|reflexivity].
    apply ident_char_tokc, tokc_split in E. destruct E as (_&_&_&_&_&E&_). congruence. }
  assert (Hw2 : aeqb w "(" = false).
  { destruct (aeqb w "(") eqn:E; [|reflexivity]. apply Ascii.eqb_eq in E; subst w; discriminate. }
  unfold match_key. destruct Hk as [Hid|(id & body & Hid & -> & Hnl & Hb)].
  - rewrite (match_ident_app k (w :: rest) Hid) by (simpl; rewrite Hw1; reflexivity).
    rewrite Hw2; reflexivity.
  - rewrite <- app_assoc. rewrite (match_ident_app id _ Hid) by reflexivity.
    cbn [app]. change (aeqb "(" "(") with true. cbv iota.
    rewrite <- app_assoc. cbn [app].
    rewrite (span_app (fun x => negb (aeqb x ")")) body (")"%char :: w :: rest)).
    + reflexivity.
    + eapply Forall_forallb; [|exact Hb]. intros x (Hx & _).
      unfold aeqb. destruct (Ascii.eqb_spec x ")"); [congruence|reflexivity].
    + reflexivity.
Qed.

(** Characters of keys are inert for the comment stripper. *)
Definition inert (c : ascii) : bool := negb (is_quote c) && negb (aeqb c "!") && negb (is_linebreak c).
Lemma tokc_inert c : tokc c = true -> inert c = true.
Proof.
  intros H; apply tokc_split in H. destruct H as (_ & Hq & _ & _ & Hb & _ & Hl).
  unfold inert; rewrite Hq, Hb, Hl; reflexivity.
Qed.
Lemma ident_tokc id : is_identifier id -> forallb tokc id = true.
Proof.
  rewrite identifier_bool. destruct id as [|c r]; [tauto|]. intros [Hc Hr]. simpl.
  rewrite (ident_char_tokc c (ident_start_char c Hc)). simpl.
  rewrite forallb_forall in *. intros x Hx. apply ident_char_tokc, Hr, Hx.
Qed.
Lemma forallb_impl {A} (p q : A -> bool) l :
  (forall x, p x = true -> q x = true) -> forallb p l = true -> forallb q l = true.
Proof. intros H; rewrite !forallb_forall; auto. Qed.

Lemma key_inert k : is_param_key k -> forallb inert k = true.
Proof.
  intros [Hid|(id & body & Hid & -> & Hnl & Hb)].
  - eapply forallb_impl; [exact tokc_inert|]. apply ident_tokc, Hid.
  - rewrite forallb_app. apply andb_true_intro; split.
    + eapply forallb_impl; [exact tokc_inert|]. apply ident_tokc, Hid.
    + cbn [forallb]. rewrite forallb_app. change (inert "(") with true. cbn [andb forallb].
      change (inert ")") with true. rewrite andb_true_r.
      apply forallb_forall. intros x Hx.
      unfold no_line_break in Hnl. rewrite Forall_forall in Hnl, Hb.
      specialize (Hnl x Hx). destruct (Hb x Hx) as (_ & Hbang & Hd & Hs).
      unfold inert, is_quote, aeqb. rewrite Hnl.
      destruct (Ascii.eqb_spec x dquote); [congruence|].
      destruct (Ascii.eqb_spec x squote); [congruence|].
      destruct (Ascii.eqb_spec x "!"); [congruence|]. reflexivity.
Qed.

Lemma key_first k : is_param_key k -> exists c r, k = c :: r /\ ident_start c = true.
Proof.
  intros [Hid|(id & body & Hid & -> & _)]; rewrite identifier_bool in Hid.
  - destruct k as [|c r]; [tauto|]. exists c, r. split; [reflexivity|apply Hid].
  - destruct id as [|c r]; [tauto|]. eexists c, _. split; [reflexivity|apply Hid].
Qed.

(** ** skip_ws *)
Lemma skip_ws_app w s : forallb is_ws w = true -> skip_ws (w ++ s) = skip_ws s.
Proof. induction w as [|c w IH]; simpl; [reflexivity|]. intros H; apply andb_prop in H as [-> H]; auto. Qed.
Lemma skip_ws_stop c s : is_ws c = false -> skip_ws (c :: s) = c :: s.
Proof. simpl; intros ->; reflexivity. Qed.
Lemma repeat_space_ws n : forallb is_ws (repeat " "%char n) = true.
Proof. induction n; simpl; [reflexivity|exact IHn]. Qed.
Lemma ident_start_not_ws c : ident_start c = true -> is_ws c = false.
Proof. intros H; apply ident_start_char, ident_char_tokc, tokc_split in H. tauto. Qed.

(** ** strip *)
Lemma strip_spec : forall a m b,
  forallb is_space a = true -> forallb is_space b = true ->
  hd_is (fun c => negb (is_space c)) m = true ->
  hd_is (fun c => negb (is_space c)) (rev m) = true ->
  strip (a ++ m ++ b) = m.
Proof.
  intros a m b Ha Hb Hm1 Hm2.
  assert (L : forall a s, forallb is_space a = true -> hd_is (fun c => negb (is_space c)) s = true ->
                     lstrip (a ++ s) = s).
  { clear. induction a as [|c a IH]; simpl; intros s Ha Hs.
    - destruct s as [|d s]; [discriminate|]. simpl in *. destruct (is_space d); [discriminate|reflexivity].
    - apply andb_prop in Ha as [-> Ha]. auto. }
  unfold strip. rewrite L; [|exact Ha|].
  - unfold rstrip. rewrite rev_app_distr. rewrite L; [apply rev_involutive| |exact Hm2].
    rewrite forallb_forall in *. intros x Hx. apply Hb. apply in_rev; exact Hx.
  - destruct m as [|c m]; [discriminate|exact Hm1].
Qed.
Lemma strip_spaces a : forallb is_space a = true -> strip a = [].
Proof.
  intros H. unfold strip, rstrip.
  assert (L : lstrip a = []).
  { induction a as [|c a IH]; simpl in *; [reflexivity|]. apply andb_prop in H as [-> H]; auto. }
  rewrite L; reflexivity.
Qed.

(** ** Rendered atoms *)
Section WithFloats.
Variable M : floats.
Notation atom := (atom M). Notation value := (value M). Notation section := (section M).

(** The rendering of a non-None, non-string atom is a token. *)
Definition tok (t : str) : Prop :=
  forallb tokc t = true /\ hd_is (fun c => negb (ident_start c)) t = true.

Lemma digit_tokc c : is_digit c = true -> tokc c = true.
Proof.
  intros H. assert (HH : implb (is_digit c) (tokc c) = true) by (clear H; sweep c).
  rewrite H in HH; exact HH.
Qed.
Lemma digit_not_start c : is_digit c = true -> ident_start c = false.
Proof.
  intros H. assert (HH : implb (is_digit c) (negb (ident_start c)) = true) by (clear H; sweep c).
  rewrite H in HH; apply negb_true_iff; exact HH.
Qed.

Definition floatc (c : ascii) : bool :=
  is_digit c || aeqb c "+" || aeqb c "-" || aeqb c "." || aeqb c "e" || aeqb c "E" || aeqb c "d" || aeqb c "D".
Lemma floatc_tokc c : floatc c = true -> tokc c = true.
Proof.
  intros H. assert (HH : implb (floatc c) (tokc c) = true) by (clear H; sweep c).
  rewrite H in HH; exact HH.
Qed.
Lemma digit_floatc c : is_digit c = true -> floatc c = true.
Proof. unfold floatc; intros ->; reflexivity. Qed.
Lemma digits_floatc s : forallb is_digit s = true -> forallb floatc s = true.
Proof. apply forallb_impl; exact digit_floatc. Qed.
Lemma all_digits1_digits t : all_digits1 t = true -> forallb is_digit t = true /\ t <> [].
Proof. destruct t as [|c t]; simpl; [discriminate|]. intros H; split; [exact H|discriminate]. Qed.
Lemma drop_sign_floatc t : forallb floatc (drop_sign t) = true -> forallb floatc t = true.
Proof.
  destruct t as [|c t]; simpl; [reflexivity|].
  destruct (aeqb c "+" || aeqb c "-") eqn:E; simpl; [|tauto].
  intros H. rewrite H, andb_true_r. unfold floatc.
  apply orb_prop in E. destruct E as [->| ->]; rewrite ?orb_true_r; reflexivity.
Qed.
Lemma exp_tail_floatc t : is_exp_tail t = true -> forallb floatc t = true.
Proof.
  destruct t as [|c t]; [reflexivity|]. simpl. intros H. apply andb_prop in H as [Hc H].
  apply all_digits1_digits in H as [H _]. apply digits_floatc, drop_sign_floatc in H. rewrite H, andb_true_r.
  unfold floatc. repeat (apply orb_prop in Hc as [Hc|Hc]); rewrite Hc, ?orb_true_r; reflexivity.
Qed.

Lemma float_lit_chars t : is_float_lit t = true ->
  forallb floatc t = true /\
  hd_is (fun c => is_digit c || aeqb c "+" || aeqb c "-" || aeqb c ".") t = true.
Proof.
  unfold is_float_lit. intros H. split.
  - apply drop_sign_floatc. destruct (span is_digit (drop_sign t)) as [a r] eqn:E.
    rewrite (span_eq _ _ _ _ E), forallb_app, (digits_floatc _ (span_fst_all _ _ _ _ E)). cbn [andb].
    destruct r as [|c r]; [reflexivity|].
    destruct (aeqb c ".") eqn:Ec.
    + destruct (span is_digit r) as [b r2] eqn:E2.
      rewrite (span_eq _ _ _ _ E2). apply andb_prop in H as [_ H].
      simpl. rewrite forallb_app, (digits_floatc _ (span_fst_all _ _ _ _ E2)), (exp_tail_floatc _ H).
      unfold floatc; rewrite Ec, ?orb_true_r; reflexivity.
    + apply andb_prop in H as [_ H]. apply exp_tail_floatc, H.
  - destruct t as [|c t]; [discriminate|]. simpl in *.
    destruct (aeqb c "+" || aeqb c "-") eqn:Es.
    + apply orb_prop in Es as [->| ->]; rewrite ?orb_true_r; reflexivity.
    + simpl in H. destruct (is_digit c); [reflexivity|].
      destruct (aeqb c "."); [rewrite ?orb_true_r; reflexivity|]. simpl in H. discriminate.
Qed.

Lemma float_lit_tok t : is_float_lit t = true -> tok t.
Proof.
  intros H. apply float_lit_chars in H as [H1 H2]. split.
  - eapply forallb_impl; [exact floatc_tokc|exact H1].
  - destruct t as [|c t]; [discriminate|]. simpl in *.
    assert (HH : implb (is_digit c || aeqb c "+" || aeqb c "-" || aeqb c ".") (negb (ident_start c)) = true)
      by (clear; sweep c).
    rewrite H2 in HH; exact HH.
Qed.

Lemma z_to_str_int z : is_int_lit (z_to_str z) = true.
Proof.
  unfold is_int_lit.
  assert (P : forall p, all_digits1 (n_to_str (Npos p)) = true /\
                        drop_sign (n_to_str (Npos p)) = n_to_str (Npos p)).
  { intros p. pose proof (n_to_str_digits (Npos p)) as Hd. pose proof (n_to_str_nonempty (Npos p)) as Hn.
    destruct (n_to_str (N.pos p)) as [|c r]; [congruence|].
    split; [exact Hd|]. simpl in Hd. apply andb_prop in Hd as [Hc _].
    apply is_digit_cases in Hc. simpl.
    repeat (destruct Hc as [->|Hc]; [reflexivity|]). subst c; reflexivity. }
  destruct z as [|p|p]; [reflexivity| |].
  - simpl z_to_str. destruct (P p) as [H1 ->]; exact H1.
  - simpl z_to_str. cbn [drop_sign]. change (aeqb "-" "+" || aeqb "-" "-") with true. cbv iota. apply P.
Qed.
Lemma int_lit_chars t : is_int_lit t = true ->
  forallb floatc t = true /\
  hd_is (fun c => is_digit c || aeqb c "+" || aeqb c "-" || aeqb c ".") t = true.
Proof.
  unfold is_int_lit. intros H. apply all_digits1_digits in H as [H Hn]. split.
  - apply drop_sign_floatc, digits_floatc, H.
  - destruct t as [|c t]; [simpl in Hn; congruence|]. simpl in *.
    destruct (aeqb c "+" || aeqb c "-") eqn:Es.
    + apply orb_prop in Es as [->| ->]; rewrite ?orb_true_r; reflexivity.
    + simpl in H. apply andb_prop in H as [-> _]. reflexivity.
Qed.
Lemma int_lit_tok t : is_int_lit t = true -> tok t.
Proof.
  intros H. apply int_lit_chars in H as [H1 H2]. split.
  - eapply forallb_impl; [exact floatc_tokc|exact H1].
  - destruct t as [|c t]; [discriminate|]. simpl in *.
    assert (HH : implb (is_digit c || aeqb c "+" || aeqb c "-" || aeqb c ".") (negb (ident_start c)) = true)
      by (clear; sweep c).
    rewrite H2 in HH; exact HH.
Qed.

Inductive shape : str -> Prop :=
| sh_empty : shape []
| sh_tok : forall t, tok t -> shape t
| sh_str : forall s, ~ In dquote s -> no_line_break s -> shape (dquote :: s ++ [dquote]).

Lemma render_shape a : atom_ok M a -> shape (render_atom M a).
Proof.
  destruct a as [b|z|f|s|]; simpl; intros H.
  - apply sh_tok. destruct b; split; reflexivity.
  - apply sh_tok, int_lit_tok, z_to_str_int.
  - apply sh_tok, float_lit_tok, H.
  - destruct H; apply sh_str; assumption.
  - apply sh_empty.
Qed.

(** In the three scanners, a rendered atom is copied verbatim. *)
Lemma scan_tok t tail : forallb tokc t = true ->
  scan_value None (t ++ tail) = (t ++ fst (scan_value None tail), snd (scan_value None tail)).
Proof.
  induction t as [|c t IH]; simpl; intros H; [destruct (scan_value None tail); reflexivity|].
  apply andb_prop in H as [Hc H]. apply tokc_split in Hc as (_ & -> & Hcomma & -> & _).
  rewrite Hcomma. simpl. rewrite (IH H). reflexivity.
Qed.
Lemma scan_str_body s tail : ~ In dquote s ->
  scan_value (Some dquote) (s ++ dquote :: tail)
  = (s ++ dquote :: fst (scan_value None tail), snd (scan_value None tail)).
Proof.
  induction s as [|c s IH]; intros H.
  - cbn [app scan_value]. change (aeqb dquote dquote) with true. cbv iota.
    destruct (scan_value None tail); reflexivity.
  - cbn [app scan_value]. unfold aeqb at 1. destruct (Ascii.eqb_spec c dquote) as [->|Hn];
      [exfalso; apply H; left; reflexivity|].
    rewrite IH by (intros Hi; apply H; right; exact Hi). reflexivity.
Qed.
Lemma scan_shape t tail : shape t ->
  scan_value None (t ++ tail) = (t ++ fst (scan_value None tail), snd (scan_value None tail)).
Proof.
  intros [ |t' [H _]|s H _].
  - simpl; destruct (scan_value None tail); reflexivity.
  - apply scan_tok, H.
  - cbn [app]. rewrite <- app_assoc. cbn [app]. cbn [scan_value].
    change (is_quote dquote) with true. cbv iota. rewrite scan_str_body by exact H.
    rewrite <- app_assoc. reflexivity.
Qed.

Lemma split_tok t buf tail : forallb tokc t = true ->
  split_commas_aux None buf (t ++ tail) = split_commas_aux None (rev t ++ buf) tail.
Proof.
  revert buf; induction t as [|c t IH]; intros buf; simpl; intros H; [reflexivity|].
  apply andb_prop in H as [Hc H]. apply tokc_split in Hc as (_ & -> & -> & _).
  rewrite (IH _ H), <- app_assoc. reflexivity.
Qed.
Lemma split_str_body s buf tail : ~ In dquote s ->
  split_commas_aux (Some dquote) buf (s ++ dquote :: tail)
  = split_commas_aux None (dquote :: rev s ++ buf) tail.
Proof.
  revert buf; induction s as [|c s IH]; intros buf H.
  - reflexivity.
  - cbn [app split_commas_aux]. unfold aeqb at 1. destruct (Ascii.eqb_spec c dquote) as [->|Hn];
      [exfalso; apply H; left; reflexivity|].
    rewrite IH by (intros Hi; apply H; right; exact Hi). simpl. rewrite <- app_assoc. reflexivity.
Qed.
Lemma split_shape t buf tail : shape t ->
  split_commas_aux None buf (t ++ tail) = split_commas_aux None (rev t ++ buf) tail.
Proof.
  intros [ |t' [H _]|s H _].
  - reflexivity.
  - apply split_tok, H.
  - cbn [app]. rewrite <- app_assoc. cbn [app split_commas_aux].
    change (is_quote dquote) with true. cbv iota. rewrite split_str_body by exact H.
    cbn [rev]. rewrite rev_app_distr. simpl. rewrite <- app_assoc. reflexivity.
Qed.

Lemma comment_inert w tail : forallb inert w = true ->
  strip_comment_aux None (w ++ tail) = w ++ strip_comment_aux None tail.
Proof.
  induction w as [|c w IH]; simpl; [reflexivity|]. intros H; apply andb_prop in H as [Hc H].
  unfold inert in Hc. apply andb_prop in Hc as [Hc _]. apply andb_prop in Hc as [Hq Hb].
  apply negb_true_iff in Hq, Hb. rewrite Hq, Hb, (IH H). reflexivity.
Qed.
Lemma comment_str_body s tail : ~ In dquote s ->
  strip_comment_aux (Some dquote) (s ++ dquote :: tail) = s ++ dquote :: strip_comment_aux None tail.
Proof.
  induction s as [|c s IH]; intros H; [reflexivity|].
  cbn [app strip_comment_aux]. unfold aeqb at 1. destruct (Ascii.eqb_spec c dquote) as [->|Hn];
    [exfalso; apply H; left; reflexivity|].
  rewrite IH by (intros Hi; apply H; right; exact Hi). reflexivity.
Qed.
Lemma comment_shape t tail : shape t ->
  strip_comment_aux None (t ++ tail) = t ++ strip_comment_aux None tail.
Proof.
  intros [ |t' [H _]|s H _].
  - reflexivity.
  - apply comment_inert. eapply forallb_impl; [exact tokc_inert|exact H].
  - cbn [app]. rewrite <- app_assoc. cbn [app strip_comment_aux].
    change (is_quote dquote) with true. cbv iota. rewrite comment_str_body by exact H.
    rewrite <- app_assoc. reflexivity.
Qed.

Lemma shape_nlb t : shape t -> no_line_break t.
Proof.
  unfold no_line_break. intros [ |t' [H _]|s _ H].
  - constructor.
  - eapply forallb_Forall; [|exact H]. intros x Hx. apply tokc_split in Hx. tauto.
  - constructor; [reflexivity|]. apply Forall_app; split; [exact H|]. repeat constructor.
Qed.

(** A rendered non-None atom starts with a character that is neither a space nor the beginning of a
    key, and ends with a non-space. *)
Lemma shape_first t : shape t -> t <> [] ->
  hd_is (fun c => negb (is_space c)) t = true /\
  hd_is (fun c => negb (ident_start c)) t = true /\
  hd_is (fun c => negb (is_space c)) (rev t) = true.
Proof.
  intros H Hn. destruct H as [ |t [H H2]|s H Hl]; [congruence| |].
  - destruct t as [|c t]; [congruence|]. split; [|split; [exact H2|]].
    + simpl in *. apply andb_prop in H as [Hc _]. apply tokc_split in Hc as (-> & _). reflexivity.
    + destruct (exists_last Hn) as (t' & x & E). rewrite E, rev_app_distr in *. simpl.
      rewrite forallb_app in H. apply andb_prop in H as [_ H]. simpl in H. apply andb_prop in H as [Hx _].
      apply tokc_split in Hx as (-> & _). reflexivity.
  - split; [reflexivity|split; [reflexivity|]]. simpl. rewrite rev_app_distr. reflexivity.
Qed.

Lemma render_nonempty a : atom_ok M a -> a <> ANone M -> render_atom M a <> [].
Proof.
  destruct a as [b|z|f|s|]; simpl; intros Hok Hn.
  - destruct b; discriminate.
  - intros H. pose proof (z_to_str_int z) as HH. rewrite H in HH. discriminate.
  - intros H. destruct Hok as [HH _]. rewrite H in HH. discriminate.
  - discriminate.
  - congruence.
Qed.

(** ** Parsing a rendered atom *)
Lemma not_bool_word t : forallb floatc t = true ->
  str_eqb (lower t) (lit ".true.") = false /\ str_eqb (lower t) (lit ".t.") = false /\
  str_eqb (lower t) (lit ".false.") = false /\ str_eqb (lower t) (lit ".f.") = false.
Proof.
  intros H.
  assert (E : forall c, floatc c = true -> lower_char c <> "t"%char /\ lower_char c <> "f"%char).
  { intros c Hc.
    assert (HH : implb (floatc c) (negb (Ascii.eqb (lower_char c) "t") && negb (Ascii.eqb (lower_char c) "f")) = true)
      by (clear; sweep c).
    rewrite Hc in HH. simpl in HH. apply andb_prop in HH as [A B].
    apply negb_true_iff in A, B. apply Ascii.eqb_neq in A, B. auto. }
  destruct t as [|a [|b t]].
  - repeat split.
  - repeat split; simpl; destruct (Ascii.eqb _ _); reflexivity.
  - simpl in H. apply andb_prop in H as [_ H]. apply andb_prop in H as [Hb _].
    destruct (E b Hb) as [E1 E2]. apply Ascii.eqb_neq in E1, E2.
    unfold lower; simpl. rewrite E1, E2.
    repeat split; apply andb_false_r.
Qed.

Lemma floatc_strip t : t <> [] -> forallb tokc t = true -> strip t = t.
Proof.
  intros Hn H. rewrite <- (app_nil_r t) at 1. change (t ++ []) with ([] ++ t ++ []).
  apply strip_spec; try reflexivity.
  - destruct t as [|c t]; [congruence|]. simpl in *. apply andb_prop in H as [Hc _].
    apply tokc_split in Hc as (-> & _); reflexivity.
  - destruct (exists_last Hn) as (t' & x & E). rewrite E, rev_app_distr in *. simpl.
    rewrite forallb_app in H. apply andb_prop in H as [_ H]. simpl in H. apply andb_prop in H as [Hx _].
    apply tokc_split in Hx as (-> & _). reflexivity.
Qed.

Lemma parse_num t : t <> [] -> forallb floatc t = true ->
  parse_atom M t = if is_int_lit t then AInt M (int_of_str t)
                   else if is_float_lit t then AFloat M (fl_of_str M (d_to_e t)) else AStr M t.
Proof.
  intros Hn Hf. unfold parse_atom.
  rewrite (floatc_strip t Hn (forallb_impl _ _ _ floatc_tokc Hf)).
  destruct (not_bool_word t Hf) as (E1 & E2 & E3 & E4).
  destruct t as [|c t]; [congruence|].
  assert (Hq : is_quote c = false).
  { simpl in Hf. apply andb_prop in Hf as [Hc _]. apply floatc_tokc, tokc_split in Hc. tauto. }
  rewrite Hq, andb_false_r, andb_false_l, E1, E2, E3, E4. reflexivity.
Qed.

Lemma last_app_single {A} (l : list A) x d : last (l ++ [x]) d = x.
Proof. apply last_last. Qed.

Lemma parse_render_atom a : atom_ok M a -> parse_atom M (render_atom M a) = a.
Proof.
  destruct a as [b|z|f|s|]; intros Hok.
  - destruct b; reflexivity.
  - simpl. pose proof (z_to_str_int z) as Hi.
    rewrite parse_num.
    + rewrite Hi, int_of_z_to_str. reflexivity.
    + intros E; rewrite E in Hi; discriminate.
    + apply int_lit_chars, Hi.
  - simpl in *. destruct Hok as (Hf & Hi & Hr). rewrite parse_num.
    + rewrite Hi, Hf, Hr. reflexivity.
    + intros E; rewrite E in Hf; discriminate.
    + apply float_lit_chars, Hf.
  - simpl in *. unfold parse_atom.
    assert (Es : strip (dquote :: s ++ [dquote]) = dquote :: s ++ [dquote]).
    { rewrite <- (app_nil_r (dquote :: s ++ [dquote])) at 1.
      change ((dquote :: s ++ [dquote]) ++ []) with ([] ++ (dquote :: s ++ [dquote]) ++ []).
      apply strip_spec; try reflexivity. simpl. rewrite rev_app_distr. reflexivity. }
    rewrite Es. change (is_quote dquote) with true.
    assert (El : Nat.leb 2 (List.length (dquote :: s ++ [dquote])) = true).
    { apply Nat.leb_le. simpl. rewrite app_length. simpl. lia. }
    rewrite El. assert (Ela : last (dquote :: s ++ [dquote]) dquote = dquote).
    { change (dquote :: s ++ [dquote]) with ((dquote :: s) ++ [dquote]). apply last_last. }
    rewrite Ela. change (aeqb dquote dquote) with true. cbn [andb].
    unfold inner. cbn [tl]. rewrite removelast_last. reflexivity.
  - reflexivity.
Qed.

Lemma strip_shape t : shape t -> strip t = t.
Proof.
  intros H. destruct t as [|c t]; [reflexivity|].
  destruct (shape_first _ H ltac:(discriminate)) as (H1 & _ & H2).
  rewrite <- (app_nil_r (c :: t)) at 1. change ((c :: t) ++ []) with ([] ++ (c :: t) ++ []).
  apply strip_spec; try reflexivity; assumption.
Qed.
Lemma strip_sp_shape t : shape t -> strip (" "%char :: t) = t.
Proof.
  intros H. destruct t as [|c t]; [reflexivity|].
  destruct (shape_first _ H ltac:(discriminate)) as (H1 & _ & H2).
  rewrite <- (app_nil_r (c :: t)) at 1. change (" "%char :: (c :: t) ++ []) with ([" "%char] ++ (c :: t) ++ []).
  apply strip_spec; try reflexivity; assumption.
Qed.

(** ** Splitting a rendered list, with or without a trailing comma *)
Lemma join_cons2 sep (x y : str) l : join sep (x :: y :: l) = x ++ sep ++ join sep (y :: l).
Proof. reflexivity. Qed.

Lemma split_list_space l : l <> [] -> Forall (fun a => atom_ok M a) l ->
  (forall buf, buf = [] \/ buf = [" "%char] ->
   split_commas_aux None buf (join (lit ", ") (map (render_atom M) l) ++ lit ",") = map (render_atom M) l) /\
  (last l (ANone M) <> ANone M -> forall buf, buf = [] \/ buf = [" "%char] ->
   split_commas_aux None buf (join (lit ", ") (map (render_atom M) l)) = map (render_atom M) l).
Proof.
  induction l as [|a l IH]; [congruence|]. intros _ Hok.
  apply Forall_cons_iff in Hok as [Ha Hok].
  assert (Hsh : shape (render_atom M a)) by (apply render_shape, Ha).
  assert (Hst : forall buf, buf = [] \/ buf = [" "%char] ->
     strip (rev (rev (render_atom M a) ++ buf)) = render_atom M a).
  { intros buf [->| ->].
    - rewrite app_nil_r, rev_involutive. apply strip_shape, Hsh.
    - rewrite rev_app_distr, rev_involutive. simpl. apply strip_sp_shape, Hsh. }
  destruct l as [|b l].
  - split.
    + intros buf Hb. simpl map. simpl join. rewrite split_shape by exact Hsh.
      change (lit ",") with [","%char]. cbn [split_commas_aux].
      change (is_quote ",") with false. change (aeqb "," ",") with true. cbv iota.
      rewrite Hst by exact Hb. reflexivity.
    + intros Hlast buf Hb. simpl map. simpl join. rewrite <- (app_nil_r (render_atom M a)) at 1.
      rewrite split_shape by exact Hsh. cbn [split_commas_aux]. rewrite Hst by exact Hb.
      simpl in Hlast. pose proof (render_nonempty a Ha Hlast).
      destruct (render_atom M a); [congruence|reflexivity].
  - destruct (IH ltac:(discriminate) Hok) as [IH1 IH2]. split.
    + intros buf Hb. simpl map. rewrite join_cons2. rewrite <- app_assoc.
      rewrite split_shape by exact Hsh. change (lit ", ") with [","%char; " "%char]. cbn [app].
      cbn [split_commas_aux]. change (is_quote ",") with false. change (aeqb "," ",") with true.
      change (is_quote " ") with false. change (aeqb " " ",") with false. cbv iota.
      rewrite Hst by exact Hb. f_equal. apply IH1; right; reflexivity.
    + intros Hlast buf Hb. simpl map. rewrite join_cons2.
      rewrite split_shape by exact Hsh. change (lit ", ") with [","%char; " "%char]. cbn [app].
      cbn [split_commas_aux]. change (is_quote ",") with false. change (aeqb "," ",") with true.
      change (is_quote " ") with false. change (aeqb " " ",") with false. cbv iota.
      rewrite Hst by exact Hb. f_equal. apply IH2; [exact Hlast|right; reflexivity].
Qed.

Definition atoms_of (v : value) : list atom := match v with VAtom _ a => [a] | VList _ l => l end.
Lemma render_value_atoms v : render_value M v = join (lit ", ") (map (render_atom M) (atoms_of v)).
Proof. destruct v; reflexivity. Qed.
Lemma value_ok_atoms v : value_ok M v -> atoms_of v <> [] /\ Forall (atom_ok M) (atoms_of v).
Proof.
  destruct v as [a|l]; simpl.
  - intros H; split; [discriminate|constructor; [exact H|constructor]].
  - intros (H1 & H2 & _); split; [|exact H2]. intros ->; simpl in H1; lia.
Qed.

Lemma map_parse_render l : Forall (atom_ok M) l -> map (parse_atom M) (map (render_atom M) l) = l.
Proof.
  intros H. rewrite map_map. rewrite <- map_id. apply map_ext_in. intros a Ha.
  apply parse_render_atom. rewrite Forall_forall in H; auto.
Qed.

Lemma parse_value_pieces v ps : value_ok M v -> ps = map (render_atom M) (atoms_of v) ->
  (match ps with [] => VAtom M (ANone M) | [p] => VAtom M (parse_atom M p) | p :: q :: r => VList M (map (parse_atom M) (p :: q :: r)) end) = v.
Proof.
  intros Hok ->. destruct v as [a|l]; simpl in *.
  - rewrite parse_render_atom by exact Hok. reflexivity.
  - destruct Hok as (H1 & H2 & _). pose proof (map_parse_render l H2) as E.
    destruct l as [|a [|b l]]; simpl in H1; [lia|lia|]. cbn [map] in E |- *. rewrite E. reflexivity.
Qed.

(** First and last characters of a rendered value followed by a comma. *)
Lemma join_last_comma l : hd_is (fun c => negb (is_space c)) (rev (join (lit ", ") l ++ lit ",")) = true.
Proof. rewrite rev_app_distr. reflexivity. Qed.

Lemma join_first_comma l tail : Forall (atom_ok M) l -> l <> [] ->
  hd_is (fun c => negb (is_space c) && negb (ident_start c))
        (join (lit ", ") (map (render_atom M) l) ++ ","%char :: tail) = true.
Proof.
  intros H Hn. destruct l as [|a l]; [congruence|]. apply Forall_cons_iff in H as [Ha _].
  pose proof (render_shape a Ha) as Hs.
  assert (E : exists tl', join (lit ", ") (map (render_atom M) (a :: l)) ++ ","%char :: tail = render_atom M a ++ ","%char :: tl').
  { destruct l as [|b l].
    - simpl. eexists; reflexivity.
    - simpl map. rewrite join_cons2, <- app_assoc. change (lit ", ") with [","%char; " "%char]. cbn [app].
      eexists; reflexivity. }
  destruct E as [tl' ->].
  destruct (render_atom M a) as [|c r] eqn:Er; [reflexivity|].
  destruct (shape_first _ Hs ltac:(discriminate)) as (H1 & H2 & _). simpl in *. rewrite H1, H2. reflexivity.
Qed.

Lemma join_last l : Forall (atom_ok M) l -> l <> [] -> last l (ANone M) <> ANone M ->
  hd_is (fun c => negb (is_space c)) (rev (join (lit ", ") (map (render_atom M) l))) = true.
Proof.
  intros H Hn. induction l as [|a l IH]; [congruence|]. apply Forall_cons_iff in H as [Ha H].
  intros Hlast. destruct l as [|b l].
  - simpl in *. apply shape_first; [apply render_shape, Ha|apply render_nonempty; assumption].
  - simpl map. rewrite join_cons2. rewrite !rev_app_distr.
    assert (Hr : hd_is (fun c => negb (is_space c)) (rev (join (lit ", ") (map (render_atom M) (b :: l)))) = true)
      by (apply IH; [exact H|discriminate|exact Hlast]).
    cbn [map] in Hr.
    destruct (rev (join (lit ", ") (render_atom M b :: map (render_atom M) l))) as [|c r]; [discriminate|exact Hr].
Qed.

(** The text of the value as captured by the parser, when another parameter follows. *)
Lemma parse_value_mid v : value_ok M v ->
  parse_value M (strip (" "%char :: render_value M v)) = v.
Proof.
  intros Hok. pose proof (value_ok_atoms v Hok) as [Hne Hat].
  destruct v as [a|l].
  - simpl render_value. rewrite strip_sp_shape by (apply render_shape, Hok).
    unfold parse_value, split_top_commas.
    destruct (split_list_space [a] ltac:(discriminate) Hat) as [_ H2].
    simpl in H2. destruct a as [b|z|f|s|].
    1-4: rewrite (H2 ltac:(discriminate) [] (or_introl eq_refl)); rewrite parse_render_atom by exact Hok; reflexivity.
    reflexivity.
  - rewrite render_value_atoms. destruct Hok as (Hlen & Hl & Hlast).
    destruct (split_list_space l Hne Hat) as [_ H2].
    assert (Es : strip (" "%char :: join (lit ", ") (map (render_atom M) l)) = join (lit ", ") (map (render_atom M) l)).
    { rewrite <- (app_nil_r (join _ _)) at 1.
      change (" "%char :: join (lit ", ") (map (render_atom M) l) ++ [])
        with ([" "%char] ++ join (lit ", ") (map (render_atom M) l) ++ []).
      apply strip_spec; try reflexivity.
      - pose proof (join_first_comma l [] Hl Hne) as Hf.
        pose proof (join_last l Hl Hne Hlast) as Hl2.
        destruct (join (lit ", ") (map (render_atom M) l)) as [|c r]; [discriminate|].
        simpl in *. apply andb_prop in Hf as [Hf _]. exact Hf.
      - apply join_last; assumption. }
    simpl atoms_of. rewrite Es. unfold parse_value, split_top_commas.
    rewrite (H2 Hlast [] (or_introl eq_refl)).
    apply (parse_value_pieces (VList M l)); [|reflexivity]. split; [exact Hlen|split; assumption].
Qed.

(** ... and when the section ends: the trailing comma and newline are part of the text. *)
Lemma parse_value_end v : value_ok M v ->
  parse_value M (strip (" "%char :: render_value M v ++ [","%char; newline])) = v.
Proof.
  intros Hok. pose proof (value_ok_atoms v Hok) as [Hne Hat].
  rewrite render_value_atoms.
  set (J := join (lit ", ") (map (render_atom M) (atoms_of v))).
  assert (Es : strip (" "%char :: J ++ [","%char; newline]) = J ++ lit ",").
  { change (" "%char :: J ++ [","%char; newline]) with ([" "%char] ++ J ++ [","%char] ++ [newline]).
    rewrite (app_assoc J). apply strip_spec; try reflexivity.
    - pose proof (join_first_comma (atoms_of v) [] Hat Hne) as Hf. fold J in Hf.
      apply hd_is_and in Hf. exact Hf.
    - rewrite rev_app_distr. reflexivity. }
  rewrite Es. unfold parse_value, split_top_commas.
  destruct (split_list_space (atoms_of v) Hne Hat) as [H1 _].
  unfold J. rewrite (H1 [] (or_introl eq_refl)).
  apply parse_value_pieces; [exact Hok|reflexivity].
Qed.

(** ** Scanning a rendered value *)
Lemma peek_false_hd s : hd_is (fun c => negb (is_space c) && negb (ident_start c)) s = true ->
  peek_key_eq (" "%char :: s) = false /\ peek_key_eq (newline :: s) = false.
Proof.
  intros H. destruct s as [|c s]; [discriminate|]. simpl in H. apply andb_prop in H as [Hs Hi].
  apply negb_true_iff in Hs, Hi.
  assert (Hw : is_ws c = false) by (destruct (is_ws c) eqn:E; [apply ws_space in E; congruence|reflexivity]).
  unfold peek_key_eq. change (skip_ws (" "%char :: c :: s)) with (skip_ws (c :: s)).
  change (skip_ws (newline :: c :: s)) with (skip_ws (c :: s)).
  rewrite (skip_ws_stop c s Hw). unfold match_key, match_ident. rewrite Hi. split; reflexivity.
Qed.

Lemma scan_list l tail : l <> [] -> Forall (atom_ok M) l ->
  scan_value None (join (lit ", ") (map (render_atom M) l) ++ ","%char :: tail) =
  (join (lit ", ") (map (render_atom M) l) ++ fst (scan_value None (","%char :: tail)),
   snd (scan_value None (","%char :: tail))).
Proof.
  induction l as [|a l IH]; [congruence|]. intros _ Hok. apply Forall_cons_iff in Hok as [Ha Hok].
  pose proof (render_shape a Ha) as Hs.
  destruct l as [|b l].
  - simpl map. simpl join. apply scan_shape, Hs.
  - simpl map. rewrite join_cons2. rewrite <- !app_assoc. rewrite scan_shape by exact Hs.
    change (lit ", ") with [","%char; " "%char]. cbn [app].
    pose proof (join_first_comma (b :: l) tail Hok ltac:(discriminate)) as Hf. cbn [map] in Hf.
    specialize (IH ltac:(discriminate) Hok). cbn [map] in IH.
    set (J := join [","%char; " "%char] (render_atom M b :: map (render_atom M) l)) in *.
    change (join (lit ", ") (render_atom M b :: map (render_atom M) l)) with J in *.
    destruct (peek_false_hd _ Hf) as [Hp _].
    assert (E : scan_value None (","%char :: " "%char :: J ++ ","%char :: tail)
              = (","%char :: " "%char :: fst (scan_value None (J ++ ","%char :: tail)),
                 snd (scan_value None (J ++ ","%char :: tail)))).
    { cbn [scan_value]. change (is_quote ",") with false. change (aeqb "," "}") with false.
      change (aeqb "," ",") with true. rewrite Hp. cbn [andb].
      change (is_quote " ") with false. change (aeqb " " "}") with false. change (aeqb " " ",") with false.
      cbn [andb]. cbv iota. destruct (scan_value None (J ++ ","%char :: tail)); reflexivity. }
    rewrite E, IH. cbn [fst snd]. reflexivity.
Qed.

Lemma scan_value_mid v tail : value_ok M v -> peek_key_eq tail = true ->
  scan_value None (" "%char :: render_value M v ++ ","%char :: tail)
  = (" "%char :: render_value M v, ","%char :: tail).
Proof.
  intros Hok Hp. destruct (value_ok_atoms v Hok) as [Hne Hat]. rewrite render_value_atoms.
  cbn [scan_value]. change (is_quote " ") with false. change (aeqb " " "}") with false.
  change (aeqb " " ",") with false. cbn [andb]. cbv iota. rewrite (scan_list _ _ Hne Hat).
  assert (E : scan_value None (","%char :: tail) = ([], ","%char :: tail)).
  { cbn [scan_value]. change (is_quote ",") with false. change (aeqb "," "}") with false.
    change (aeqb "," ",") with true. rewrite Hp. reflexivity. }
  rewrite E. cbn [fst snd]. rewrite app_nil_r. reflexivity.
Qed.

Lemma scan_value_end v rest : value_ok M v ->
  scan_value None (" "%char :: render_value M v ++ ","%char :: newline :: "}"%char :: rest)
  = (" "%char :: render_value M v ++ [","%char; newline], "}"%char :: rest).
Proof.
  intros Hok. destruct (value_ok_atoms v Hok) as [Hne Hat]. rewrite render_value_atoms.
  cbn [scan_value]. change (is_quote " ") with false. change (aeqb " " "}") with false.
  change (aeqb " " ",") with false. cbn [andb]. cbv iota. rewrite (scan_list _ _ Hne Hat).
  assert (E : scan_value None (","%char :: newline :: "}"%char :: rest) = ([","%char; newline], "}"%char :: rest)).
  { cbn [scan_value]. change (is_quote ",") with false. change (aeqb "," "}") with false.
    change (aeqb "," ",") with true.
    destruct (peek_false_hd ("}"%char :: rest) eq_refl) as [_ Hp]. rewrite Hp. reflexivity. }
  rewrite E. reflexivity.
Qed.

(** ** Parsing the parameters of a rendered section *)
Definition kwidth (ps : params M) : nat := list_max (map (fun kv => List.length (fst kv)) ps).
Definition line_text (kw : nat) (kv : str * value) : str := render_line M kw kv ++ [newline].

Definition param_ok (kv : str * value) : Prop := is_param_key (fst kv) /\ value_ok M (snd kv).

Lemma pad_split kw k : exists n, pad kw k ++ lit " = " = k ++ repeat " "%char (S n) ++ ["="%char; " "%char].
Proof.
  exists (kw - List.length k). unfold pad. rewrite <- app_assoc. f_equal.
  change (lit " = ") with ([" "%char] ++ ["="%char; " "%char]). rewrite app_assoc. f_equal.
  change [" "%char] with (repeat " "%char 1). rewrite <- repeat_app. f_equal. lia.
Qed.

Lemma line_text_shape kw kv : exists n,
  line_text kw kv = " "%char :: " "%char :: fst kv ++ repeat " "%char (S n) ++ "="%char :: " "%char :: render_value M (snd kv) ++ [","%char; newline].
Proof.
  destruct (pad_split kw (fst kv)) as [n En]. exists n. unfold line_text, render_line.
  change (lit "  ") with [" "%char; " "%char]. cbn [app]. f_equal. f_equal.
  rewrite <- !app_assoc. rewrite (app_assoc (pad _ _)), En. rewrite <- !app_assoc. cbn [app]. reflexivity.
Qed.

Lemma peek_line kw kv tail : param_ok kv -> peek_key_eq (newline :: line_text kw kv ++ tail) = true.
Proof.
  intros [Hk _]. destruct (line_text_shape kw kv) as [n ->].
  unfold peek_key_eq. cbn [app].
  change (skip_ws (newline :: " "%char :: " "%char :: (fst kv ++ repeat " "%char (S n) ++ "="%char :: " "%char :: render_value M (snd kv) ++ [","%char; newline]) ++ tail))
    with (skip_ws ((fst kv ++ repeat " "%char (S n) ++ "="%char :: " "%char :: render_value M (snd kv) ++ [","%char; newline]) ++ tail)).
  rewrite <- app_assoc. destruct (key_first _ Hk) as (c & r & Er & Hc).
  assert (Es : forall x, skip_ws (fst kv ++ x) = fst kv ++ x).
  { intros x. rewrite Er. cbn [app]. apply skip_ws_stop, ident_start_not_ws, Hc. }
  rewrite Es. rewrite match_key_app; [|exact Hk|reflexivity].
  rewrite <- app_assoc. rewrite skip_ws_app by apply repeat_space_ws. reflexivity.
Qed.

Lemma parse_params_render kw : forall ps rest name acc fuel,
  Forall param_ok ps -> NoDup (dkeys acc ++ map fst ps) ->
  List.length ps < fuel ->
  parse_params M fuel name acc (List.concat (map (line_text kw) ps) ++ "}"%char :: rest) = Ok (acc ++ ps, rest).
Proof.
  induction ps as [|kv ps IH]; intros rest name acc fuel Hok Hnd Hf; destruct fuel as [|fuel]; [simpl in Hf; lia| |simpl in Hf; lia|].
  - simpl. rewrite app_nil_r. reflexivity.
  - apply Forall_cons_iff in Hok as [[Hk Hv] Hok].
    cbn [map List.concat]. rewrite <- app_assoc.
    set (REST := List.concat (map (line_text kw) ps) ++ "}"%char :: rest).
    destruct (line_text_shape kw kv) as [n En]. rewrite En. clear En.
    destruct kv as [k v]. cbn [fst snd] in *.
    destruct (key_first _ Hk) as (c & r & Er & Hc).
    cbn [app]. rewrite <- app_assoc. cbn [parse_params].
    set (AFTER := (repeat " "%char (S n) ++ "="%char :: " "%char :: render_value M v ++ [","%char; newline]) ++ REST).
    assert (Es : skip_ws (" "%char :: " "%char :: k ++ AFTER) = k ++ AFTER).
    { change (skip_ws (" "%char :: " "%char :: k ++ AFTER)) with (skip_ws (k ++ AFTER)).
      rewrite Er. cbn [app]. apply skip_ws_stop, ident_start_not_ws, Hc. }
    rewrite Es.
    assert (Em : match_key (k ++ AFTER) = Some (k, AFTER)) by (apply match_key_app; [exact Hk|reflexivity]).
    assert (Ec : aeqb c "}" = false).
    { apply ident_start_char, ident_char_tokc, tokc_split in Hc. tauto. }
    assert (Ews : skip_ws AFTER = "="%char :: " "%char :: render_value M v ++ ","%char :: newline :: REST).
    { unfold AFTER. rewrite <- app_assoc. rewrite skip_ws_app by apply repeat_space_ws.
      cbn [app skip_ws]. change (is_ws "=") with false. cbv iota. rewrite <- app_assoc. reflexivity. }
    rewrite Er in Em, Es |- *. cbn [app] in Em |- *. rewrite Ec, Em, Ews.
    change (aeqb "=" "=") with true. cbv iota.
    rewrite <- Er.
    assert (Hni : ~ In k (dkeys acc)).
    { intros Hi. simpl in Hnd. apply NoDup_remove_2 in Hnd. apply Hnd, in_or_app. left; exact Hi. }
    assert (Hnd' : NoDup (dkeys (acc ++ [(k, v)]) ++ map fst ps)).
    { unfold dkeys. rewrite map_app. simpl. rewrite <- app_assoc. exact Hnd. }
    destruct ps as [|kv2 ps].
    + unfold REST. cbn [map List.concat]. cbn [app].
      rewrite (scan_value_end v rest Hv). cbv iota beta. change (aeqb "}" ",") with false. cbv iota.
      rewrite (parse_value_end v Hv). rewrite (dset_new _ _ _ Hni).
      specialize (IH rest name (acc ++ [(k, v)]) fuel Hok Hnd' ltac:(simpl in *; lia)).
      simpl in IH. rewrite IH. rewrite <- app_assoc. reflexivity.
    + assert (Hp : peek_key_eq (newline :: REST) = true).
      { unfold REST. cbn [map List.concat]. rewrite <- app_assoc. apply peek_line.
        apply Forall_cons_iff in Hok; tauto. }
      rewrite (scan_value_mid v (newline :: REST) Hv Hp). cbv iota beta.
      change (aeqb "," ",") with true. cbv iota. rewrite (parse_value_mid v Hv), (dset_new _ _ _ Hni).
      specialize (IH rest name (acc ++ [(k, v)]) fuel Hok Hnd' ltac:(simpl in *; lia)).
      assert (Hskip : forall f nm a s, parse_params M f nm a (newline :: s) = parse_params M f nm a s).
      { intros f nm a s; destruct f; reflexivity. }
      rewrite Hskip. unfold REST. rewrite IH. rewrite <- app_assoc. reflexivity.
Qed.

(** ** The source seen by the parser for a rendered deck *)
Definition sec_body (s : section) : str :=
  fst s ++ [newline] ++ lit "{" ++ [newline] ++ List.concat (map (line_text (kwidth (snd s))) (snd s)) ++ lit "}".

Definition sec_lines (s : section) : list str :=
  fst s :: lit "{" :: map (render_line M (kwidth (snd s))) (snd s) ++ [lit "}"].

Lemma render_section_lines s : render_section M s = sec_lines s ++ [[]].
Proof.
  destruct s as [name ps]. unfold render_section, sec_lines. cbn [fst snd].
  destruct ps as [|kv ps]; [reflexivity|]. cbn [app]. rewrite <- app_assoc. reflexivity.
Qed.

Lemma join_nl_concat : forall ls l, join [newline] (ls ++ [l]) = List.concat (map (fun x => x ++ [newline]) ls) ++ l.
Proof.
  induction ls as [|x ls IH]; intros l; [reflexivity|].
  simpl. destruct (ls ++ [l]) as [|y r] eqn:E; [destruct ls; discriminate|].
  rewrite <- E, IH, <- !app_assoc. reflexivity.
Qed.

Lemma sec_lines_body s : join [newline] (sec_lines s) = sec_body s.
Proof.
  destruct s as [name ps]. unfold sec_lines, sec_body, line_text. cbn [fst snd].
  change (name :: lit "{" :: map (render_line M (kwidth ps)) ps ++ [lit "}"])
    with ((name :: lit "{" :: map (render_line M (kwidth ps)) ps) ++ [lit "}"]).
  rewrite join_nl_concat. cbn [map List.concat]. rewrite <- !app_assoc. rewrite map_map. reflexivity.
Qed.

Fixpoint good_lines (secs : list section) : list str :=
  match secs with
  | [] => []
  | [s] => sec_lines s
  | s :: secs' => sec_lines s ++ [] :: good_lines secs'
  end.

Lemma render_lines secs : secs <> [] -> flat_map (render_section M) secs = good_lines secs ++ [[]].
Proof.
  induction secs as [|s secs IH]; [congruence|]. intros _. simpl flat_map.
  rewrite render_section_lines. destruct secs as [|s2 secs].
  - simpl. rewrite app_nil_r. reflexivity.
  - rewrite (IH ltac:(discriminate)). cbn [good_lines]. rewrite <- !app_assoc. reflexivity.
Qed.

Lemma good_lines_nonempty s secs : good_lines (s :: secs) <> [].
Proof. destruct secs; unfold good_lines, sec_lines; discriminate. Qed.

Lemma join_app sep : forall a b, a <> [] -> b <> [] -> join sep (a ++ b) = join sep a ++ sep ++ join sep b.
Proof.
  induction a as [|x a IH]; intros b Ha Hb; [congruence|].
  destruct a as [|y a].
  - simpl. destruct b; [congruence|]. reflexivity.
  - change ((x :: y :: a) ++ b) with (x :: (y :: a) ++ b).
    assert (E : exists z r, (y :: a) ++ b = z :: r) by (eexists _, _; reflexivity).
    destruct E as (z & r & E). rewrite E. rewrite join_cons2. rewrite <- E, (IH b ltac:(discriminate) Hb).
    rewrite join_cons2. rewrite <- !app_assoc. reflexivity.
Qed.

Lemma good_lines_src secs :
  join [newline] (good_lines secs) = join [newline; newline] (map sec_body secs).
Proof.
  induction secs as [|s secs IH]; [reflexivity|].
  destruct secs as [|s2 secs].
  - simpl. apply sec_lines_body.
  - change (good_lines (s :: s2 :: secs)) with (sec_lines s ++ ([] :: good_lines (s2 :: secs))).
    rewrite join_app by (unfold sec_lines; discriminate). rewrite sec_lines_body.
    change (map sec_body (s :: s2 :: secs)) with (sec_body s :: sec_body s2 :: map sec_body secs).
    rewrite join_cons2. f_equal.
    pose proof (good_lines_nonempty s2 secs) as Hn.
    destruct (good_lines (s2 :: secs)) as [|l ls] eqn:E; [congruence|].
    rewrite join_cons2. cbn [app]. change (map sec_body (s2 :: secs)) with (sec_body s2 :: map sec_body secs) in IH.
    rewrite IH. reflexivity.
Qed.

(** splitlines undoes joining. *)
Lemma splitlines_line l cur s : no_line_break l ->
  splitlines_aux cur (l ++ s) = splitlines_aux (rev l ++ cur) s.
Proof.
  revert cur; induction l as [|c l IH]; intros cur H; [reflexivity|].
  apply Forall_cons_iff in H as [Hc H]. cbn [app splitlines_aux]. rewrite Hc, (IH _ H).
  simpl. rewrite <- app_assoc. reflexivity.
Qed.
Lemma splitlines_concat ls : Forall no_line_break ls ->
  splitlines (List.concat (map (fun l => l ++ [newline]) ls)) = ls.
Proof.
  unfold splitlines. induction ls as [|l ls IH]; intros H; [reflexivity|].
  apply Forall_cons_iff in H as [Hl H]. cbn [map List.concat]. rewrite <- app_assoc.
  rewrite (splitlines_line l [] _ Hl), app_nil_r. cbn [app].
  assert (E : forall cur s, splitlines_aux cur (newline :: s) = rev cur :: splitlines_aux [] s).
  { intros cur s. cbn [splitlines_aux]. change (is_linebreak newline) with true. cbv iota.
    destruct s; reflexivity. }
  rewrite E, rev_involutive, (IH H). reflexivity.
Qed.

Definition line_fine (l : str) : Prop := no_line_break l /\ strip_comment l = l.

Lemma inert_fine l : forallb inert l = true -> line_fine l.
Proof.
  intros H. split.
  - eapply forallb_Forall; [|exact H]. intros x Hx. unfold inert in Hx.
    apply andb_prop in Hx as [_ Hx]. apply negb_true_iff in Hx; exact Hx.
  - unfold strip_comment. rewrite <- (app_nil_r l) at 1. rewrite comment_inert by exact H. simpl.
    apply app_nil_r.
Qed.

Lemma comment_list l tail : Forall (atom_ok M) l ->
  strip_comment_aux None (join (lit ", ") (map (render_atom M) l) ++ tail)
  = join (lit ", ") (map (render_atom M) l) ++ strip_comment_aux None tail.
Proof.
  induction l as [|a l IH]; [reflexivity|]. intros H; apply Forall_cons_iff in H as [Ha H].
  pose proof (render_shape a Ha) as Hs. destruct l as [|b l].
  - simpl. apply comment_shape, Hs.
  - simpl map. rewrite join_cons2, <- !app_assoc. rewrite comment_shape by exact Hs.
    rewrite (comment_inert (lit ", ")) by reflexivity. specialize (IH H). simpl map in IH. rewrite IH.
    reflexivity.
Qed.
Lemma nlb_list l : Forall (atom_ok M) l -> no_line_break (join (lit ", ") (map (render_atom M) l)).
Proof.
  induction l as [|a l IH]; [constructor|]. intros H; apply Forall_cons_iff in H as [Ha H].
  pose proof (shape_nlb _ (render_shape a Ha)) as Hs. destruct l as [|b l].
  - exact Hs.
  - simpl map. rewrite join_cons2. unfold no_line_break. apply Forall_app; split; [exact Hs|].
    apply Forall_app; split; [repeat constructor|apply IH, H].
Qed.
Lemma repeat_space_inert n : forallb inert (repeat " "%char n) = true.
Proof. induction n; simpl; [reflexivity|exact IHn]. Qed.

Lemma render_line_fine kw kv : param_ok kv -> line_fine (render_line M kw kv).
Proof.
  intros [Hk Hv]. destruct (value_ok_atoms _ Hv) as [_ Hat].
  unfold render_line.
  assert (Hp : forallb inert (lit "  " ++ pad kw (fst kv) ++ lit " = ") = true).
  { unfold pad. rewrite !forallb_app, (key_inert _ Hk), repeat_space_inert. reflexivity. }
  rewrite !app_assoc. rewrite <- (app_assoc (lit "  ")).
  rewrite render_value_atoms. rewrite <- app_assoc. split.
  - unfold no_line_break. apply Forall_app; split; [apply inert_fine, Hp|].
    apply Forall_app; split; [apply nlb_list, Hat|repeat constructor].
  - unfold strip_comment. rewrite comment_inert by exact Hp. rewrite comment_list by exact Hat.
    reflexivity.
Qed.

Lemma sec_lines_fine s : section_ok M s -> Forall line_fine (sec_lines s).
Proof.
  intros (Hn & _ & Hp). unfold sec_lines. constructor; [|constructor].
  - apply inert_fine. eapply forallb_impl; [exact tokc_inert|]. apply ident_tokc, Hn.
  - apply inert_fine; reflexivity.
  - apply Forall_app; split.
    + apply Forall_forall. intros l Hl. apply in_map_iff in Hl as (kv & <- & Hkv).
      apply render_line_fine. rewrite Forall_forall in Hp. apply Hp, Hkv.
    + constructor; [apply inert_fine; reflexivity|constructor].
Qed.
Lemma good_lines_fine secs : deck_ok M secs -> Forall line_fine (good_lines secs).
Proof.
  induction secs as [|s secs IH]; [constructor|]. intros H; apply Forall_cons_iff in H as [Hs H].
  destruct secs as [|s2 secs]; [apply sec_lines_fine, Hs|].
  cbn [good_lines]. apply Forall_app; split; [apply sec_lines_fine, Hs|].
  constructor; [apply inert_fine; reflexivity|apply IH, H].
Qed.

Lemma deck_src_render secs : deck_ok M secs ->
  deck_src (render_deck M secs) = join [newline; newline] (map sec_body secs).
Proof.
  intros Hok. destruct secs as [|s secs]; [reflexivity|].
  unfold deck_src, render_deck. rewrite render_lines by discriminate.
  rewrite join_nl_concat, app_nil_r.
  pose proof (good_lines_fine _ Hok) as Hf.
  rewrite splitlines_concat.
  - rewrite <- good_lines_src. f_equal. rewrite <- map_id. apply map_ext_in. intros l Hl.
    rewrite Forall_forall in Hf. apply Hf, Hl.
  - eapply Forall_impl; [|exact Hf]. intros l [Hl _]; exact Hl.
Qed.

(** ** Parsing the source *)
Lemma concat_lines_len kw ps : List.length ps <= List.length (List.concat (map (line_text kw) ps)).
Proof.
  induction ps as [|kv ps IH]; [simpl; lia|]. cbn [map List.concat List.length]. rewrite app_length.
  unfold line_text at 1. rewrite app_length. cbn [List.length]. lia.
Qed.

Lemma parse_sections_step s rest fuel : section_ok M s ->
  parse_sections M (S fuel) (sec_body s ++ rest) =
  bind (parse_sections M fuel rest) (fun r => Ok (s :: r)).
Proof.
  intros (Hn & Hnd & Hp). destruct s as [name ps]. cbn [fst snd] in *.
  unfold sec_body. cbn [fst snd]. rewrite <- !app_assoc. cbn [parse_sections].
  set (L := List.concat (map (line_text (kwidth ps)) ps)).
  set (TAIL := [newline] ++ lit "{" ++ [newline] ++ L ++ lit "}" ++ rest).
  pose proof Hn as Hn'. rewrite identifier_bool in Hn'.
  destruct name as [|c r] eqn:En; [tauto|]. rewrite <- En in *.
  assert (Es : skip_ws (name ++ TAIL) = c :: r ++ TAIL).
  { rewrite En. cbn [app]. apply skip_ws_stop, ident_start_not_ws, Hn'. }
  rewrite Es. change (c :: r ++ TAIL) with ((c :: r) ++ TAIL). rewrite <- En.
  assert (Hm : match_ident (name ++ TAIL) = Some (name, TAIL)).
  { apply match_ident_app; [exact Hn|reflexivity]. }
  rewrite Hm.
  change (skip_ws TAIL) with ("{"%char :: newline :: L ++ lit "}" ++ rest). cbv iota.
  change (aeqb "{" "{") with true. cbv iota.
  assert (Epp : parse_params M (S (List.length (newline :: L ++ lit "}" ++ rest))) name []
                  (newline :: L ++ lit "}" ++ rest) = Ok (ps, rest)).
  { assert (Hskip : forall f nm a s, parse_params M f nm a (newline :: s) = parse_params M f nm a s).
    { intros f nm a s; destruct f; reflexivity. }
    rewrite Hskip. apply (parse_params_render (kwidth ps) ps rest name []).
    - exact Hp.
    - exact Hnd.
    - pose proof (concat_lines_len (kwidth ps) ps) as Hlen. fold L in Hlen.
      simpl. rewrite app_length. simpl. lia. }
  rewrite Epp. reflexivity.
Qed.

Lemma parse_sections_body secs : deck_ok M secs -> forall fuel, List.length secs < fuel ->
  parse_sections M fuel (join [newline; newline] (map sec_body secs)) = Ok secs.
Proof.
  induction secs as [|s secs IH]; intros Hok fuel Hf.
  - destruct fuel; [simpl in Hf; lia|reflexivity].
  - destruct fuel as [|fuel]; [simpl in Hf; lia|].
    apply Forall_cons_iff in Hok as [Hs Hok].
    destruct secs as [|s2 secs].
    + simpl map. simpl join. rewrite <- (app_nil_r (sec_body s)).
      rewrite parse_sections_step by exact Hs.
      destruct fuel; [simpl in Hf; lia|]. reflexivity.
    + change (map sec_body (s :: s2 :: secs)) with (sec_body s :: sec_body s2 :: map sec_body secs).
      rewrite join_cons2, parse_sections_step by exact Hs.
      assert (Hskip : forall f s, parse_sections M f ([newline; newline] ++ s) = parse_sections M f s).
      { intros f x; destruct f; reflexivity. }
      rewrite Hskip. change (sec_body s2 :: map sec_body secs) with (map sec_body (s2 :: secs)).
      rewrite IH; [reflexivity|exact Hok|simpl in *; lia].
Qed.

Lemma join_length_ge secs : List.length secs <= List.length (join [newline; newline] (map sec_body secs)).
Proof.
  assert (B : forall s, 1 <= List.length (sec_body s)).
  { intros s. unfold sec_body. rewrite !app_length. simpl. lia. }
  induction secs as [|s secs IH]; [simpl; lia|].
  pose proof (B s) as Bs. destruct secs as [|s2 secs].
  - cbn [map join List.length] in *. lia.
  - cbn [map] in *. rewrite join_cons2, !app_length.
    cbn [List.length] in *. lia.
Qed.

Lemma parse_render secs : deck_ok M secs -> parse_deck M (render_deck M secs) = Ok secs.
Proof.
  intros Hok. unfold parse_deck. rewrite (deck_src_render _ Hok).
  apply parse_sections_body; [exact Hok|].
  pose proof (join_length_ge secs). lia.
Qed.

End WithFloats.

(** ** Comments *)
Lemma strip_comment_append q s c :
  open_quote q s = None ->
  strip_comment_aux q (s ++ "!"%char :: c) = strip_comment_aux q s.
Proof.
  revert q; induction s as [|ch s IH]; intros q H.
  - simpl in H. subst q. reflexivity.
  - cbn [app strip_comment_aux]. cbn [open_quote] in H. destruct q as [qc|].
    + unfold aeqb. rewrite (IH _ H). reflexivity.
    + unfold is_quote, aeqb in *. destruct (Ascii.eqb ch dquote || Ascii.eqb ch squote).
      * rewrite (IH _ H). reflexivity.
      * destruct (Ascii.eqb ch "!"); [reflexivity|]. rewrite (IH _ H). reflexivity.
Qed.
