(** Adaptive box sizing (C24). *)
From Verif Require Import PyStr RSum Pic PicProofs VGrid VGridProofs Density DensityProofs.
Import ListNotations.

(** * Specification vocabulary *)
(** Section number [i] is the first one called [name]; [p] are its parameters. *)
Definition first_of (name : str) (secs : sections) (i : nat) (p : params) : Prop :=
  nth_error secs i = Some (name, p) /\ forall j n q, (j < i)%nat -> nth_error secs j = Some (n, q) -> n <> name.
(** A deck key denotes the parameter [base] when it is [base] or [base(...]. *)
Definition denotes (base k : str) : Prop := k = base \/ exists rest, k = base ++ "("%char :: rest.
(** [k] is the first key of [p] that denotes [base]. *)
Definition first_named (base : str) (p : params) (k : str) : Prop :=
  exists l1 l2, dkeys p = l1 ++ k :: l2 /\ denotes base k /\ forall k', In k' l1 -> ~ denotes base k'.
(** The values that are lengths: the box, the abscissae of every profile, the phase-space windows of every species. *)
Definition is_length (secs : sections) (i : nat) (n : str) (p : params) (k : str) : Prop :=
  (first_of (lit "space") secs i p /\ (first_named (lit "xmin") p k \/ first_named (lit "xmax") p k)) \/
  (n = lit "profile" /\ first_named (lit "x") p k) \/
  (n = lit "diag_species" /\ (first_named (lit "ps_xmin") p k \/ first_named (lit "ps_xmax") p k)).
Definition is_cells (secs : sections) (i : nat) (p : params) (k : str) : Prop := first_of (lit "grid") secs i p /\ first_named (lit "nx_p") p k.
Definition is_density (secs : sections) (i : nat) (p : params) (k : str) : Prop := first_of (lit "profile") secs i p /\ first_named (lit "fx") p k.
(** A value whose numbers have all been multiplied by [s] and rounded to ten decimals. *)
Definition scaled (s : R) (v v' : value) : Prop :=
  match v, v' with
  | Scal (Num r), Scal (Num r') => r' = round10 (r * s)
  | Arr l, Arr l' => Forall2 (fun a a' => exists r, a = Num r /\ a' = Num (round10 (r * s))) l l'
  | _, _ => False
  end.

(** * The vocabulary matches the model's lookups *)
Lemma before_paren_spec k base : ~ In "("%char base -> before_paren k = base <-> (k = base \/ exists rest, k = base ++ "("%char :: rest).
Proof.
  revert base. induction k as [|c t IH]; intros base Hb; cbn.
  - split; [intros <-; now left|]. intros [<-|(r & E)]; [reflexivity|]. destruct base; discriminate.
  - destruct (aeqb c "("%char) eqn:E.
    + apply Ascii.eqb_eq in E. subst c. split.
      * intros <-. right. now exists t.
      * intros [<-|(r & Er)]; [exfalso; apply Hb; now left|]. destruct base as [|b bs]; [reflexivity|]. exfalso. injection Er as <- _. apply Hb. now left.
    + split.
      * intros <-. destruct (proj1 (IH (before_paren t) ltac:(intros I; apply Hb; now right)) eq_refl) as [K|(r & K)]; [left; congruence|right]. exists r. cbn. congruence.
      * intros [K|(r & K)].
        -- destruct base as [|b bs]; [discriminate|]. injection K as <- K. f_equal. apply IH; [intros I; apply Hb; now right|]. now left.
        -- destruct base as [|b bs]; cbn in K; [injection K as -> _; discriminate|]. injection K as <- K. f_equal. apply IH; [intros I; apply Hb; now right|]. right. now exists r.
Qed.
Lemma denotes_test base k : ~ In "("%char base -> orb (str_eqb k base) (str_eqb (before_paren k) base) = true <-> denotes base k.
Proof.
  intros Hb. rewrite Bool.orb_true_iff, !str_eqb_eq, (before_paren_spec k base Hb). unfold denotes. tauto.
Qed.
Lemma akey_named base p k : ~ In "("%char base -> akey (dkeys p) base = Some k <-> first_named base p k.
Proof.
  intros Hb. unfold first_named. generalize (dkeys p). intros ks. clear p. induction ks as [|a t IH]; cbn.
  - split; [discriminate|]. intros (l1 & l2 & E & _). destruct l1; discriminate.
  - destruct (orb (str_eqb a base) (str_eqb (before_paren a) base)) eqn:T.
    + apply denotes_test in T; [|exact Hb]. split.
      * intros [= ->]. exists [], t. split; [reflexivity|]. split; [exact T|]. intros ? [].
      * intros (l1 & l2 & E & D & N). destruct l1 as [|b l1]; cbn in E; [congruence|]. exfalso. injection E as -> _. apply (N b); [now left|exact T].
    + assert (NT : ~ denotes base a) by (intros D; apply denotes_test in D; [congruence|exact Hb]). rewrite IH. split.
      * intros (l1 & l2 & -> & D & N). exists (a :: l1), l2. split; [reflexivity|]. split; [exact D|]. intros k' [<-|I]; [exact NT|now apply N].
      * intros (l1 & l2 & E & D & N). destruct l1 as [|b l1]; cbn in E; [injection E as -> _; contradiction|]. injection E as -> ->. exists l1, l2. split; [reflexivity|]. split; [exact D|]. intros k' I. apply N. now right.
Qed.
Lemma first_index_spec name ns i : first_index name ns = Some i <-> nth_error ns i = Some name /\ forall j n, (j < i)%nat -> nth_error ns j = Some n -> n <> name.
Proof.
  revert i. induction ns as [|a t IH]; intros i; cbn.
  - split; [discriminate|]. intros [E _]. destruct i; discriminate.
  - destruct (str_eqb a name) eqn:E.
    + apply str_eqb_eq in E. subst a. split.
      * intros [= <-]. split; [reflexivity|]. intros j n Hj. lia.
      * intros [A B]. destruct i as [|i]; [reflexivity|]. exfalso. apply (B O name); [lia|reflexivity|reflexivity].
    + apply str_eqb_neq in E. split.
      * destruct (first_index name t) as [j|] eqn:F; [|discriminate]. cbn. intros [= <-]. destruct (proj1 (IH j) eq_refl) as [A B]. split; [exact A|]. intros [|j'] n Hj Hn; cbn in Hn; [congruence|]. apply (B j' n); [lia|exact Hn].
      * intros [A B]. destruct i as [|i]; cbn in A; [congruence|]. assert (F : first_index name t = Some i) by (apply IH; split; [exact A|]; intros j n Hj Hn; apply (B (S j) n); [lia|exact Hn]). now rewrite F.
Qed.
Lemma first_of_index name secs i p : first_of name secs i p <-> nth_error secs i = Some (name, p) /\ first_index name (names secs) = Some i.
Proof.
  unfold first_of. rewrite first_index_spec. split.
  - intros [A B]. split; [exact A|]. split; [now apply nth_name in A|]. intros j n Hj Hn. unfold names in Hn. rewrite nth_error_map in Hn. destruct (nth_error secs j) as [[n' q]|] eqn:E; [|discriminate]. cbn in Hn. injection Hn as <-. now apply (B j n' q).
  - intros [A [_ B]]. split; [exact A|]. intros j n q Hj Hn. apply (B j n Hj). now apply nth_name in Hn.
Qed.
Lemma first_of_section name secs p : first_section name secs = Some p <-> exists i, first_of name secs i p.
Proof. rewrite first_section_index. split; intros (i & H); exists i; [apply first_of_index; tauto|apply first_of_index in H; tauto]. Qed.
Lemma first_of_unique name secs i p i' p' : first_of name secs i p -> first_of name secs i' p' -> i = i' /\ p = p'.
Proof. intros H H'. apply first_of_index in H, H'. destruct H as [A B], H' as [A' B']. rewrite B in B'. injection B' as <-. split; congruence. Qed.
Lemma named_key base p k : ~ In "("%char base -> array_key p base = Some k <-> first_named base p k.
Proof. intros H. rewrite array_key_keys. now apply akey_named. Qed.
Lemma floats_of_nums l rs : floats_of l = Ok rs <-> l = map Num rs.
Proof.
  revert rs. induction l as [|a t IH]; intros rs; cbn; [split; [intros [= <-]; reflexivity|destruct rs; [reflexivity|discriminate]]|].
  destruct a as [r|]; cbn; [|split; [discriminate|destruct rs; discriminate]]. destruct (floats_of t) as [ts|]; cbn.
  - pose proof (proj1 (IH ts) eq_refl) as F. split; [intros [= <-]; cbn; congruence|]. destruct rs as [|x xs]; cbn; [discriminate|]. intros [= -> E]. apply IH in E. congruence.
  - split; [discriminate|]. destruct rs as [|x xs]; cbn; [discriminate|]. intros [= -> E]. apply IH in E. discriminate.
Qed.
Lemma scale_value_scaled s v v' : scale_value s v = Ok v' -> scaled s v v'.
Proof.
  unfold scale_value. destruct v as [[r|]|l]; cbn; try discriminate; [intros [= <-]; reflexivity|]. destruct (floats_of l) as [rs|] eqn:F; cbn; [|discriminate]. intros [= <-].
  apply floats_of_nums in F. subst l. cbn. induction rs as [|x xs IH]; cbn; constructor; [eauto|exact IH].
Qed.
(** None of the names used contains a parenthesis. *)
Ltac noparen := let H := fresh in intros H; cbn in H; repeat (destruct H as [H|H]; [discriminate H|]); exact H.

(* ------------------------------------------------------------------------------------------------ *)
Section C24.
(** [unit u sim]: the length [u], given with units, in skin depths of the deck's simulation section. *)
Variable unit : str -> option params -> option R.
Notation apply := (apply_gradient_scale_length unit).

(** Without a block, or without a requested length, nothing happens. *)
Theorem C24_inactive (secs : sections) (cfg : option dcfg) :
  (cfg = None \/ exists c, cfg = Some c /\ (c_gsl c = Some None \/ (c_gsl c = None /\ (c_alias c = None \/ c_alias c = Some None)))) ->
  apply secs cfg = (secs, Inactive).
Proof.
  intros [->|(c & -> & H)]; [reflexivity|]. unfold apply_gradient_scale_length, requested. destruct H as [->|[-> [->| ->]]]; reflexivity.
Qed.
(** A requested length is never ignored. *)
Theorem C24_active (secs : sections) (c : dcfg) (l : lspec) : c_gsl c = Some (Some l) \/ (c_gsl c = None /\ c_alias c = Some (Some l)) ->
  snd (apply secs (Some c)) <> Inactive.
Proof.
  intros H. unfold apply_gradient_scale_length. assert (E : requested c = Some l) by (unfold requested; destruct H as [->|[-> ->]]; reflexivity). rewrite E.
  destruct (make_plan unit secs c l) as [pl|e]; [destruct (carry_out pl secs) as [secs' [e|]]|]; cbn; discriminate.
Qed.

Lemma done_inv secs c secs' i : apply secs (Some c) = (secs', Done i) ->
  exists l pl, requested c = Some l /\ make_plan unit secs c l = Ok pl /\ carry_out pl secs = (secs', None) /\ i = p_info pl.
Proof.
  unfold apply_gradient_scale_length. destruct (requested c) as [l|]; [|discriminate]. destruct (make_plan unit secs c l) as [pl|e] eqn:M; [|discriminate].
  destruct (carry_out pl secs) as [secs1 [e|]] eqn:C; [discriminate|]. intros [= <- <-]. exists l, pl. repeat split; assumption.
Qed.
Lemma scale_section_change s n p p' : scale_section s n p = (p', None) ->
  dkeys p' = dkeys p /\ forall k v, dget k p = Some v -> exists v', dget k p' = Some v' /\
    ((n = lit "profile" /\ first_named (lit "x") p k) \/ (n = lit "diag_species" /\ (first_named (lit "ps_xmin") p k \/ first_named (lit "ps_xmax") p k)) -> scaled s v v') /\
    (~ ((n = lit "profile" /\ first_named (lit "x") p k) \/ (n = lit "diag_species" /\ (first_named (lit "ps_xmin") p k \/ first_named (lit "ps_xmax") p k))) -> v' = v).
Proof.
  unfold scale_section. destruct (str_eqb n (lit "profile")) eqn:E1; [|destruct (str_eqb n (lit "diag_species")) eqn:E2].
  - apply str_eqb_eq in E1. subst n. destruct (scale_array (lit "x") s p) as [q|] eqn:S; [|discriminate]. intros [= <-]. apply scale_change in S. destruct S as [K S]. split; [exact K|].
    intros k v G. destruct (S k v G) as (v' & G' & A & B). exists v'. split; [exact G'|]. pose proof (akey_named (lit "x") p k ltac:(noparen)) as AN. split.
    + intros [[_ F]|[F _]]; [|discriminate F]. apply scale_value_scaled, A. now apply AN.
    + intros N. apply B. intros F. apply N. left. split; [reflexivity|]. now apply AN.
  - apply str_eqb_eq in E2. subst n. destruct (scale_array (lit "ps_xmin") s p) as [q|] eqn:S; [|discriminate]. destruct (scale_array (lit "ps_xmax") s q) as [q'|] eqn:S'; [|discriminate]. intros [= <-].
    apply scale_change in S, S'. destruct S as [K S], S' as [K' S']. split; [congruence|]. intros k v G. destruct (S k v G) as (v' & G' & A & B). destruct (S' k v' G') as (v'' & G'' & A' & B'). exists v''. split; [exact G''|].
    rewrite K in A', B'. pose proof (akey_named (lit "ps_xmin") p k ltac:(noparen)) as AN. pose proof (akey_named (lit "ps_xmax") p k ltac:(noparen)) as AX.
    assert (Ex : ~ (akey (dkeys p) (lit "ps_xmin") = Some k /\ akey (dkeys p) (lit "ps_xmax") = Some k)).
    { intros [P Q]. apply AN in P. apply AX in Q. destruct P as (? & ? & _ & D & _), Q as (? & ? & _ & D' & _). destruct D as [->|(r & ->)], D' as [D'|(r' & D')]; cbv in D'; discriminate D'. }
    assert (Dec : forall b, akey (dkeys p) b = Some k \/ akey (dkeys p) b <> Some k) by (intros b; destruct (akey (dkeys p) b) as [k0|]; [destruct (str_eq_dec k0 k) as [->|]; [now left|right; congruence]|right; discriminate]).
    split.
    + intros [[F _]|[_ [F|F]]]; [discriminate F| |].
      * apply AN in F. rewrite B' by tauto. apply scale_value_scaled, A, F.
      * apply AX in F. rewrite (B (fun P => Ex (conj P F))) in *. apply scale_value_scaled, A', F.
    + intros N. rewrite B', B; [reflexivity| |]; intros F; apply N; right; (split; [reflexivity|]); [left; now apply AN|right; now apply AX].
  - apply str_eqb_neq in E1, E2. intros [= <-]. split; [reflexivity|]. intros k v G. exists v. split; [exact G|]. split; [|reflexivity]. intros [[F _]|[F _]]; contradiction.
Qed.

(** Every length is multiplied by the same factor, the cell count is replaced, the densities are replaced when given,
    and nothing else changes: same sections, same keys, same order, same other values. *)
Theorem C24_only_lengths_change (secs secs' : sections) (c : dcfg) (i : info) :
  apply secs (Some c) = (secs', Done i) ->
  map fst secs' = map fst secs /\
  forall j n p, nth_error secs j = Some (n, p) -> exists p', nth_error secs' j = Some (n, p') /\ dkeys p' = dkeys p /\
    forall k v, dget k p = Some v -> exists v', dget k p' = Some v' /\
      (is_length secs j n p k -> scaled (i_s i) v v') /\
      (is_cells secs j p k -> v' = Scal (Num (IZR (i_nx i))) \/ v' = Arr [Num (IZR (i_nx i))]) /\
      (is_density secs j p k -> (c_min c = None -> v' = v) /\
         (c_min c <> None -> exists fs, v = Arr (map Num fs) /\ v' = Arr (map Num (set_nth (List.length fs - 2) (i_max i) (set_nth 1 (i_min i) fs))))) /\
      (~ is_length secs j n p k -> ~ is_cells secs j p k -> ~ is_density secs j p k -> v' = v).
Proof.
  intros D. apply done_inv in D. destruct D as (l & pl & _ & M & C & ->).
  apply plan_inv in M. destruct M as (space & grid & profile & x_key & xv & fv & x_old & fx & nx_val & na & nr & nodes & L & Fs & Fg & Fp & Kn & Gn & _ & _ & _ & _ & Kf & _ & Gf & _ & Hfx & _ & Lfx & MM & _).
  unfold carry_out in C. set (s := i_s (p_info pl)) in *. set (s1 := write_fx pl secs) in *.
  destruct (upd_first_res (lit "space") (scale_array (lit "xmin") s) s1) as [s2 [e|]] eqn:C2; [discriminate|].
  destruct (upd_first_res (lit "space") (scale_array (lit "xmax") s) s2) as [s3 [e|]] eqn:C3; [discriminate|].
  destruct (scale_sections s s3) as [s4 [e|]] eqn:C4; [discriminate|]. assert (Es : secs' = write_nx pl s4) by congruence. subst secs'. clear C.
  apply step_space in C2. apply step_space in C3. apply scale_sections_step in C4.
  assert (W : step (fun j n p p' => change (sel (at_first (lit "profile") secs j) (if p_fx pl then Some (p_fx_key pl) else None))
                 (fun v v' => v = fv /\ exists f, p_fx pl = Some f /\ v' = match fv with Scal _ => Scal (Num (nth 0 f 0)) | Arr _ => Arr (map Num f) end) p p') secs s1).
  { unfold s1, write_fx. destruct (p_fx pl) as [f|] eqn:PF.
    - match goal with |- step _ _ (upd_first _ ?h _) => pose proof (step_set (lit "profile") h secs) as [A B] end. split; [exact A|]. intros j n p H. destruct (B j n p H) as (p' & H' & ->).
      eexists. split; [exact H'|]. destruct (at_first (lit "profile") secs j) eqn:AF; cbn [sel]; [|apply change_id].
      pose proof (at_first_name _ _ _ _ _ H AF) as ->. assert (p = profile).
      { apply first_section_index in Fp. destruct Fp as (j' & Q & Q'). unfold at_first in AF. rewrite Q in AF. apply Nat.eqb_eq in AF. subst j'. congruence. } subst p. rewrite Gf.
      destruct (change_set (p_fx_key pl) (match fv with Scal _ => Scal (Num (nth 0 f 0)) | Arr _ => Arr (map Num f) end) profile fv Gf) as [U V].
      split; [exact U|]. intros k v G. destruct (V k v G) as (v' & G' & Q & Q'). exists v'. split; [exact G'|]. split; [intros E; destruct (Q E) as [-> ->]; split; [reflexivity|]; exists f; now split|exact Q'].
    - split; [reflexivity|]. intros j n p H. exists p. split; [exact H|]. destruct (at_first _ _ _); cbn; apply change_id. }
  destruct W as [N1 W], C2 as [N2 C2], C3 as [N3 C3], C4 as [N4 C4]. pose proof (step_set (lit "grid") (dset (p_nx_key pl) (let z := Num (IZR (i_nx (p_info pl))) in if p_nx_list pl then Arr [z] else Scal z)) s4) as [N5 C5].
  change (names (write_nx pl s4) = names s4) in N5.
  split; [change (names (write_nx pl s4) = names secs); rewrite N5, N4, N3, N2; exact N1|]. intros j n p H. destruct (W j n p H) as (p1 & H1 & K1 & Q1). destruct (C2 j n p1 H1) as (p2 & H2 & K2 & Q2). destruct (C3 j n p2 H2) as (p3 & H3 & K3 & Q3).
  destruct (C4 j n p3 H3) as (p4 & H4 & S4). destruct (C5 j n p4 H4) as (p5 & H5 & E5). apply scale_section_change in S4. destruct S4 as [K4 Q4].
  assert (AF : forall name t, names t = names secs -> at_first name t j = at_first name secs j) by (intros name t E; unfold at_first; now rewrite E).
  rewrite (AF _ s1) in Q2 by exact N1. rewrite (AF _ s2) in Q3 by (rewrite N2; exact N1). rewrite (AF _ s4) in E5 by (rewrite N4, N3, N2; exact N1).
  rewrite K1 in Q2. rewrite K2, K1 in Q3. assert (K3' : dkeys p3 = dkeys p) by congruence.
  assert (FN : forall b k, first_named b p3 k <-> first_named b p k) by (intros b k; unfold first_named; now rewrite K3').
  assert (AT : forall name, at_first name secs j = true <-> first_of name secs j p).
  { intros name. rewrite first_of_index. unfold at_first. split.
    - intros A. pose proof (at_first_name name secs j n p H A) as ->. split; [exact H|]. unfold at_first in A. destruct (first_index name (names secs)) as [j'|]; [|discriminate]. apply Nat.eqb_eq in A. now subst.
    - intros [_ ->]. apply Nat.eqb_refl. }
  assert (GK : at_first (lit "grid") secs j = true -> first_named (lit "nx_p") p (p_nx_key pl) /\ In (p_nx_key pl) (dkeys p)).
  { intros A. apply AT in A. assert (p = grid) by (apply (first_of_section (lit "grid")) in Fg; destruct Fg as (j' & Fg); exact (proj2 (first_of_unique _ _ _ _ _ _ A Fg))). subst p. split; [now apply named_key; [noparen|]|]. rewrite array_key_keys in Kn. now apply akey_In in Kn. }
  assert (PK : at_first (lit "profile") secs j = true -> first_named (lit "fx") p (p_fx_key pl)).
  { intros A. apply AT in A. assert (p = profile) by (apply (first_of_section (lit "profile")) in Fp; destruct Fp as (j' & Fp); exact (proj2 (first_of_unique _ _ _ _ _ _ A Fp))). subst p. now apply named_key; [noparen|]. }
  assert (UN : forall b k k', first_named b p k -> first_named b p k' -> ~ In "("%char b -> k = k') by (intros b k k' A B Nb; apply akey_named in A; [|exact Nb]; apply akey_named in B; [|exact Nb]; congruence).
  assert (DJ : forall b b' k, first_named b p k -> first_named b' p k -> ~ In "("%char b -> ~ In "("%char b' -> b = b').
  { intros b b' k (? & ? & _ & A & _) (? & ? & _ & B & _) Nb Nb'. apply denotes_test in A; [|exact Nb]. apply denotes_test in B; [|exact Nb'].
    assert (before_paren k = b) by (apply before_paren_spec; [exact Nb|]; now apply denotes_test in A; [|exact Nb]). assert (before_paren k = b') by (apply before_paren_spec; [exact Nb'|]; now apply denotes_test in B; [|exact Nb']). congruence. }
  exists p5. split; [exact H5|]. split. { rewrite E5. destruct (at_first (lit "grid") secs j) eqn:A; [|congruence]. rewrite dkeys_dset_mem; [congruence|]. rewrite K4, K3'. now apply GK. }
  intros k v G. destruct (Q1 k v G) as (v1 & G1 & A1 & B1). destruct (Q2 k v1 G1) as (v2 & G2 & A2 & B2). destruct (Q3 k v2 G2) as (v3 & G3 & A3 & B3). destruct (Q4 k v3 G3) as (v4 & G4 & A4 & B4).
  rewrite !FN in A4, B4.
  assert (G5 : exists v5, dget k p5 = Some v5 /\ (at_first (lit "grid") secs j = true /\ k = p_nx_key pl -> v5 = (let z := Num (IZR (i_nx (p_info pl))) in if p_nx_list pl then Arr [z] else Scal z)) /\ (~ (at_first (lit "grid") secs j = true /\ k = p_nx_key pl) -> v5 = v4)).
  { rewrite E5. destruct (at_first (lit "grid") secs j).
    - destruct (str_eq_dec k (p_nx_key pl)) as [->|Nk]; [eexists; split; [apply dget_dset_same|]; split; [reflexivity|tauto]|]. exists v4. split; [rewrite dget_dset_other by assumption; exact G4|]. split; [intros [_ E]; contradiction|reflexivity].
    - exists v4. split; [exact G4|]. split; [intros [E _]; discriminate|reflexivity]. }
  destruct G5 as (v5 & G5 & A5 & B5). exists v5. split; [exact G5|].
  (* one step at a time, by the kind of section *)
  assert (NE : forall a b, at_first (lit a) secs j = true -> at_first (lit b) secs j = true -> lit a = lit b) by (intros a b A B; rewrite <- (at_first_name _ _ _ _ _ H A); now apply (at_first_name _ _ _ _ _ H B)).
  assert (E1 : (at_first (lit "profile") secs j = true -> first_named (lit "fx") p k -> False) -> v1 = v).
  { intros F. apply B1. destruct (at_first (lit "profile") secs j) eqn:A; cbn [sel]; [|discriminate]. destruct (p_fx pl); [|discriminate]. intros [= <-]. apply F; [reflexivity|]. now apply PK. }
  assert (X2 : sel (at_first (lit "space") secs j) (akey (dkeys p) (lit "xmin")) = Some k <-> at_first (lit "space") secs j = true /\ first_named (lit "xmin") p k).
  { destruct (at_first (lit "space") secs j); cbn [sel]; [rewrite (akey_named (lit "xmin") p k) by noparen; tauto|]. split; [discriminate|]. intros [E _]; discriminate E. }
  assert (X3 : sel (at_first (lit "space") secs j) (akey (dkeys p) (lit "xmax")) = Some k <-> at_first (lit "space") secs j = true /\ first_named (lit "xmax") p k).
  { destruct (at_first (lit "space") secs j); cbn [sel]; [rewrite (akey_named (lit "xmax") p k) by noparen; tauto|]. split; [discriminate|]. intros [E _]; discriminate E. }
  rewrite X2 in A2, B2. rewrite X3 in A3, B3.
  split; [|split; [|split]].
  - intros [[F F']|[[-> F]|[-> F]]].
    + apply AT in F. assert (n = lit "space") by exact (at_first_name _ _ _ _ _ H F). subst n.
      rewrite B5 by (intros [E _]; pose proof (NE "space"%string "grid"%string F E) as XX; discriminate XX). rewrite B4 by (intros [[E _]|[E _]]; discriminate E). assert (v1 = v) by (apply E1; intros E; pose proof (NE "space"%string "profile"%string F E) as XX; discriminate XX). subst v1.
      destruct F' as [F'|F'].
      * rewrite B3; [apply scale_value_scaled, A2; now split|]. intros [_ F'']. discriminate (DJ (lit "xmin") (lit "xmax") k F' F'' ltac:(noparen) ltac:(noparen)).
      * assert (v2 = v) by (apply B2; intros [_ F'']; discriminate (DJ (lit "xmin") (lit "xmax") k F'' F' ltac:(noparen) ltac:(noparen))). subst v2. apply scale_value_scaled, A3. now split.
    + assert (Nf : forall a, at_first (lit a) secs j = true -> lit a = lit "profile") by (intros a E; symmetry; exact (at_first_name _ _ _ _ _ H E)).
      rewrite B5 by (intros [E _]; pose proof (Nf "grid"%string E) as XX; discriminate XX). assert (v1 = v) by (apply E1; intros _ E; discriminate (DJ (lit "x") (lit "fx") k F E ltac:(noparen) ltac:(noparen))). subst v1.
      assert (v2 = v) by (apply B2; intros [E _]; pose proof (Nf "space"%string E) as XX; discriminate XX). subst v2. assert (v3 = v) by (apply B3; intros [E _]; pose proof (Nf "space"%string E) as XX; discriminate XX). subst v3. apply A4. now left.
    + assert (Nf : forall a, at_first (lit a) secs j = true -> lit a = lit "diag_species") by (intros a E; symmetry; exact (at_first_name _ _ _ _ _ H E)).
      rewrite B5 by (intros [E _]; pose proof (Nf "grid"%string E) as XX; discriminate XX). assert (v1 = v) by (apply E1; intros E; pose proof (Nf "profile"%string E) as XX; discriminate XX). subst v1.
      assert (v2 = v) by (apply B2; intros [E _]; pose proof (Nf "space"%string E) as XX; discriminate XX). subst v2. assert (v3 = v) by (apply B3; intros [E _]; pose proof (Nf "space"%string E) as XX; discriminate XX). subst v3. apply A4. right. now split.
  - intros [F F']. apply AT in F. assert (k = p_nx_key pl) by (eapply UN; [exact F'|now apply GK|noparen]). rewrite A5 by (now split). cbv zeta. destruct (p_nx_list pl); [right; reflexivity|left; reflexivity].
  - intros [F F']. apply AT in F. assert (n = lit "profile") by exact (at_first_name _ _ _ _ _ H F). subst n. assert (Nf : forall a, at_first (lit a) secs j = true -> lit a = lit "profile") by (intros a E; symmetry; exact (at_first_name _ _ _ _ _ H E)).
    assert (k = p_fx_key pl) by (eapply UN; [exact F'|now apply PK|noparen]).
    rewrite B5 by (intros [E _]; pose proof (Nf "grid"%string E) as XX; discriminate XX). rewrite B4 by (intros [[_ E]|[E _]]; [discriminate (DJ (lit "x") (lit "fx") k E F' ltac:(noparen) ltac:(noparen))|discriminate E]).
    rewrite B3 by (intros [E _]; pose proof (Nf "space"%string E) as XX; discriminate XX). rewrite B2 by (intros [E _]; pose proof (Nf "space"%string E) as XX; discriminate XX). subst k. rewrite F in A1, B1. cbn [sel] in A1, B1.
    destruct MM as [(Mn & _ & Mf & _)|(Mn & _ & Mf)]; rewrite Mf in A1, B1; rewrite Mn.
    + split; [intros _; apply B1; discriminate|congruence].
    + split; [discriminate|]. intros _. destruct (A1 eq_refl) as (-> & f & [= <-] & ->). exists fx. destruct fv as [a|la]; cbn in Hfx.
      * destruct (to_float a); cbn in Hfx; [|discriminate]. injection Hfx as <-. cbn in Lfx. lia.
      * apply floats_of_nums in Hfx. subst la. now split.
  - intros NL NC ND. rewrite B5 by (intros [E ->]; apply NC; split; [now apply AT|now apply GK]). rewrite B4 by (intros [E|E]; apply NL; right; [now left|now right]).
    rewrite B3 by (intros [E E']; apply NL; left; split; [now apply AT|now right]). rewrite B2 by (intros [E E']; apply NL; left; split; [now apply AT|now left]).
    apply E1. intros E E'. apply ND. split; [now apply AT|exact E'].
Qed.

(** The factor is the one that gives the ramp, from its second to its last but one control point, the requested
    length at the reference density (which is 1/4 unless given). *)
Theorem C24_scale_factor (secs secs' : sections) (c : dcfg) (i : info) (j : nat) (p : params) (kx : str) (xs : list R) :
  apply secs (Some c) = (secs', Done i) -> first_of (lit "profile") secs j p -> first_named (lit "x") p kx -> dget kx p = Some (Arr (map Num xs)) ->
  let span := nth (List.length xs - 2) xs 0 - nth 1 xs 0 in
  0 < span /\ (4 <= List.length xs)%nat /\ i_min i < i_max i /\ i_ref i <> 0 /\ i_s i * span = i_L i * (i_max i - i_min i) / i_ref i /\
  i_ref i * (i_s i * span) / (i_max i - i_min i) = i_L i /\
  (c_ref c = None -> i_ref i = 1 / 4) /\ (forall r, c_ref c = Some (Num r) -> i_ref i = r) /\
  (forall r, c_gsl c = Some (Some (LNum r)) -> i_L i = r).
Proof.
  intros D F K G. apply done_inv in D. destruct D as (l & pl & Rq & M & _ & ->). apply plan_inv in M.
  destruct M as (space & grid & profile & x_key & xv & fv & x_old & fx & nx_val & na & nr & nodes & L & _ & _ & Fp & _ & _ & _ & _ & _ & Kx & _ & Gx & _ & Hx & _ & Lx & _ & _ & Hm & Hs & HL & EL & Hr & Er & _ & Esp & Es & _).
  assert (p = profile) by (apply (first_of_section (lit "profile")) in Fp; destruct Fp as (j' & Fp); exact (proj2 (first_of_unique _ _ _ _ _ _ F Fp))). subst p.
  apply named_key in Kx; [|noparen]. assert (kx = x_key) by (apply akey_named in K, Kx; [congruence|noparen|noparen]). subst x_key. rewrite G in Gx. injection Gx as <-. cbn [as_list] in Hx.
  apply floats_of_nums in Hx. assert (xs = x_old). { clear -Hx. revert x_old Hx. induction xs as [|a t IH]; intros [|b u] E; cbn in E; try discriminate; [reflexivity|]. injection E as -> E. f_equal. now apply IH. } subst x_old.
  cbv zeta. change (nth (List.length xs - 2) xs 0) with (second_last 0 xs). change (nth 1 xs 0) with (second 0 xs). set (span := second_last 0 xs - second 0 xs) in *.
  assert (E : i_s (p_info pl) * span = i_span (p_info pl)) by (rewrite Es; field; lra).
  split; [exact Hs|]. split. { destruct xs as [|a [|b [|d [|e t]]]]; cbn in Lx; try lia; [|cbn; lia]. unfold span, second_last, second in Hs. cbn in Hs. lra. }
  split; [exact Hm|]. split; [exact Hr|]. split; [rewrite E, Esp, EL; reflexivity|]. split; [rewrite E, Esp, EL; field; split; first [exact Hr | lra]|].
  split; [intros Q; rewrite Er, Q; lra|]. split; [intros r Q; now rewrite Er, Q|]. intros r Q. unfold requested in Rq. rewrite Q in Rq. injection Rq as <-. cbn in HL. congruence.
Qed.

Lemma forall2_nth_scaled s l l' : Forall2 (fun a a' => exists r, a = Num r /\ a' = Num (round10 (r * s))) l l' ->
  forall rs, l = map Num rs -> l' = map (fun r => Num (round10 (r * s))) rs.
Proof. induction 1 as [|a a' t t' (r & -> & ->) _ IH]; intros [|x xs] E; cbn in E; try discriminate; [reflexivity|]. injection E as -> E. cbn. f_equal. now apply IH. Qed.
(** In the resulting deck the ramp from the second to the last but one control point has the requested gradient scale
    length at the reference density, up to the rounding of the abscissae to ten decimals. With four control points (a
    single straight ramp) that is the local gradient scale length n / (dn/dx). *)
Theorem C24_ramp_length (secs secs' : sections) (c : dcfg) (i : info) (j : nat) (p p' : params) (kx kf : str) (xs fs xs' fs' : list R) :
  apply secs (Some c) = (secs', Done i) -> first_of (lit "profile") secs j p -> first_named (lit "x") p kx -> first_named (lit "fx") p kf ->
  dget kx p = Some (Arr (map Num xs)) -> dget kf p = Some (Arr (map Num fs)) -> (4 <= List.length fs)%nat ->
  nth_error secs' j = Some (lit "profile", p') -> dget kx p' = Some (Arr (map Num xs')) -> dget kf p' = Some (Arr (map Num fs')) ->
  let last2 (l : list R) := nth (List.length l - 2) l 0 in
  Rabs (i_ref i * (last2 xs' - nth 1 xs' 0) / (last2 fs' - nth 1 fs' 0) - i_L i) <= Rabs (i_ref i) / (i_max i - i_min i) * / 10 ^ 10.
Proof.
  intros D F Kx Kf Gx Gf Lf H' Gx' Gf' last2.
  destruct (C24_scale_factor secs secs' c i j p kx xs D F Kx Gx) as (Hs & L4 & Hm & Hr & E & _). fold (last2 xs) in *.
  pose proof (done_inv _ _ _ _ D) as (l & pl & _ & M & _ & Ei). apply plan_inv in M.
  destruct M as (space & grid & profile & x_key & xv & fv & x_old & fx & nx_val & na & nr & nodes & L & _ & _ & Fp & _ & _ & _ & _ & _ & _ & Kf0 & _ & Gf0 & _ & Hfx & _ & _ & MM & _).
  assert (p = profile) by (apply (first_of_section (lit "profile")) in Fp; destruct Fp as (j' & Fp); exact (proj2 (first_of_unique _ _ _ _ _ _ F Fp))). subst profile.
  apply named_key in Kf0; [|noparen]. assert (kf = p_fx_key pl) by (apply akey_named in Kf, Kf0; [congruence|noparen|noparen]). rewrite <- H in *. clear H.
  assert (Inj : forall (a b : list R), map Num a = map Num b -> a = b) by (induction a as [|u t IH]; intros [|w x] Q; cbn in Q; try discriminate; [reflexivity|]; injection Q as -> Q; f_equal; now apply IH).
  rewrite Gf in Gf0. injection Gf0 as <-. cbn [as_list] in Hfx. apply floats_of_nums in Hfx. apply Inj in Hfx. subst fx. rewrite <- Ei in *.
  destruct (C24_only_lengths_change secs secs' c i D) as [_ Ch]. destruct (Ch j (lit "profile") p (proj1 F)) as (q & Hq & _ & V). rewrite H' in Hq. injection Hq as <-.
  destruct (V kx _ Gx) as (vx & Gx1 & Lx & _). rewrite Gx' in Gx1. injection Gx1 as <-. specialize (Lx (or_intror (or_introl (conj eq_refl Kx)))). cbn in Lx.
  apply (fun Q => forall2_nth_scaled _ _ _ Q xs eq_refl) in Lx. rewrite <- (map_map (fun r => round10 (r * i_s i)) Num) in Lx. apply Inj in Lx. subst xs'.
  destruct (V kf _ Gf) as (vf & Gf1 & _ & _ & Df & _). rewrite Gf' in Gf1. injection Gf1 as <-. destruct (Df (conj F Kf)) as [Dn Dm].
  assert (FF : last2 fs' = i_max i /\ nth 1 fs' 0 = i_min i).
  { destruct MM as [(Mn & _ & _ & E1 & E2)|(Mn & _)].
    - specialize (Dn Mn). injection Dn as Q. apply Inj in Q. subst fs'. split; [symmetry; exact E2|symmetry; exact E1].
    - destruct Dm as (fs0 & Q & Q'); [rewrite Mn; discriminate|]. injection Q as Q. apply Inj in Q. subst fs0. injection Q' as Q'. apply Inj in Q'. subst fs'.
      destruct fs as [|a0 [|a1 [|a2 [|a3 t]]]]; cbn in Lf; try lia. unfold last2. cbn [List.length set_nth Nat.sub].
      assert (Ln : forall (u : R) m q, List.length (set_nth m u q) = List.length q) by (intros u m; induction m as [|m IHm]; intros [|x q]; cbn; auto).
      assert (Nn : forall (u : R) m q, (m < List.length q)%nat -> nth m (set_nth m u q) 0 = u) by (intros u m; induction m as [|m IHm]; intros [|x q] Hq; cbn in *; try lia; [reflexivity|]; apply IHm; lia).
      cbn [set_nth List.length Nat.sub nth]. split; [|reflexivity]. rewrite Ln. cbn [List.length Nat.sub nth]. apply (Nn _ (List.length t) (a2 :: a3 :: t)). cbn. lia. }
  destruct FF as [-> ->]. set (s := i_s i) in *.
  assert (Lm : last2 (map (fun r => round10 (r * s)) xs) = round10 (last2 xs * s)) by (unfold last2; rewrite map_length, (nth_indep _ 0 (round10 (0 * s))) by (rewrite map_length; lia); apply (map_nth (fun r => round10 (r * s)))).
  assert (N1 : nth 1 (map (fun r => round10 (r * s)) xs) 0 = round10 (nth 1 xs 0 * s)) by (rewrite (nth_indep _ 0 (round10 (0 * s))) by (rewrite map_length; lia); apply (map_nth (fun r => round10 (r * s)))).
  rewrite Lm, N1. pose proof (round10_close (last2 xs * s)) as A. pose proof (round10_close (nth 1 xs 0 * s)) as B. apply abs_le_both in A, B.
  set (u := round10 (last2 xs * s)) in *. set (w := round10 (nth 1 xs 0 * s)) in *. set (X := last2 xs) in *. set (Y := nth 1 xs 0) in *.
  assert (EL : i_L i = i_ref i * (s * (X - Y)) / (i_max i - i_min i)) by (rewrite E; field; split; first [exact Hr | lra]).
  rewrite EL. replace (i_ref i * (u - w) / (i_max i - i_min i) - i_ref i * (s * (X - Y)) / (i_max i - i_min i)) with (i_ref i / (i_max i - i_min i) * ((u - X * s) - (w - Y * s))) by (field; lra).
  rewrite Rabs_mult. unfold Rdiv at 1. rewrite Rabs_mult, (Rabs_right (/ (i_max i - i_min i))) by (apply Rle_ge, Rlt_le, Rinv_0_lt_compat; lra). apply Rmult_le_compat_l.
  - apply Rmult_le_pos; [apply Rabs_pos|apply Rlt_le, Rinv_0_lt_compat; lra].
  - apply Rabs_le. lra.
Qed.

(** Cell count: a multiple of the node count [m], at least the scaled count, and below its ceiling plus [m]; the cells
    do not become larger. *)
Theorem C24_cells (secs secs' : sections) (c : dcfg) (i : info) (j : nat) (p : params) (k : str) (nx : R) :
  apply secs (Some c) = (secs', Done i) -> first_of (lit "grid") secs j p -> first_named (lit "nx_p") p k ->
  (dget k p = Some (Scal (Num nx)) \/ dget k p = Some (Arr [Num nx])) ->
  exists m : Z, (1 <= m)%Z /\
    ((exists jn pn kn r t, first_of (lit "node_conf") secs jn pn /\ first_named (lit "node_number") pn kn /\ (dget kn pn = Some (Scal (Num r)) \/ dget kn pn = Some (Arr (Num r :: t))) /\ m = Z.max 1 (trunc r)) \/ m = 1%Z) /\
    (exists q, i_nx i = q * m)%Z /\ IZR (trunc nx) * i_s i <= IZR (i_nx i) < IZR (trunc nx) * i_s i + 1 + IZR m /\
    (forall x : Z, IZR (trunc nx) * i_s i <= IZR x -> (i_nx i < x + m)%Z) /\
    (1 <= nx -> 0 < i_L i -> 0 < i_ref i -> (0 < i_nx i)%Z /\ (0 <= i_box i -> i_box i / IZR (i_nx i) <= i_box i / i_s i / IZR (trunc nx))).
Proof.
  intros D F K G. apply done_inv in D. destruct D as (l & pl & _ & M & _ & ->). apply plan_inv in M.
  destruct M as (space & grid & profile & x_key & xv & fv & x_old & fx & nx_val & na & nr & nodes & L & _ & Fg & _ & Kn & Gn & Hn & Hna & _ & _ & _ & _ & _ & _ & _ & _ & _ & _ & Hm & Hs & _ & EL & Hr & _ & _ & Esp & Es & Nd & En & _).
  assert (p = grid) by (apply (first_of_section (lit "grid")) in Fg; destruct Fg as (j' & Fg); exact (proj2 (first_of_unique _ _ _ _ _ _ F Fg))). subst p.
  apply named_key in Kn; [|noparen]. assert (k = p_nx_key pl) by (apply akey_named in K, Kn; [congruence|noparen|noparen]). subst k.
  assert (nr = nx) by (destruct G as [G|G], Hn as [Hn|Hn]; rewrite G in Gn; subst nx_val na; congruence). subst nr.
  assert (Nspec : (1 <= nodes)%Z /\ ((exists jn pn kn r t, first_of (lit "node_conf") secs jn pn /\ first_named (lit "node_number") pn kn /\ (dget kn pn = Some (Scal (Num r)) \/ dget kn pn = Some (Arr (Num r :: t))) /\ nodes = Z.max 1 (trunc r)) \/ nodes = 1%Z)).
  { unfold node_count in Nd. destruct (first_section (lit "node_conf") secs) as [pn|] eqn:Fn; [|injection Nd as <-; split; [lia|now right]].
    destruct (array_key pn (lit "node_number")) as [kn|] eqn:Kk; [|injection Nd as <-; split; [lia|now right]]. destruct (dget kn pn) as [vn|] eqn:Gk; [|injection Nd as <-; split; [lia|now right]].
    apply (first_of_section (lit "node_conf")) in Fn. destruct Fn as (jn & Fn). apply named_key in Kk; [|noparen].
    destruct vn as [[r|]|[|[r|] t]]; cbn in Nd; try discriminate; injection Nd as <-; split; try lia; try (now right); left; [exists jn, pn, kn, r, []|exists jn, pn, kn, r, t]; tauto. }
  destruct Nspec as [N1 Nspec]. exists nodes. split; [exact N1|]. split; [exact Nspec|].
  pose proof (ceil_spec (IZR (trunc nx) * i_s (p_info pl))) as C. set (z := ceil (IZR (trunc nx) * i_s (p_info pl))) in *. pose proof (round_up_spec z nodes N1) as [U [q Uq]]. rewrite En.
  split; [exists q; exact Uq|]. destruct U as [U1 U2]. apply IZR_le in U1 as U1'. apply IZR_lt in U2 as U2'. rewrite plus_IZR in U2'. split; [split; lra|].
  split. { intros x Hx. assert (z < x + 1)%Z by (apply lt_IZR; rewrite plus_IZR; lra). lia. }
  intros Hnx HL Hrf. assert (S : 0 < i_s (p_info pl)).
  { rewrite Es, Esp, <- EL. unfold Rdiv. repeat apply Rmult_lt_0_compat; try lra; apply Rinv_0_lt_compat; lra. }
  assert (T : 1 <= IZR (trunc nx)). { rewrite trunc_pos by lra. pose proof (floor_spec nx). assert (0 < floor nx)%Z by (apply lt_IZR; lra). apply IZR_le. lia. }
  assert (P : 0 < IZR (round_up_multiple z nodes)) by nra. split; [now apply lt_IZR|]. intros Hb. set (bx := i_box (p_info pl)) in *. set (sf := i_s (p_info pl)) in *.
  replace (bx / sf / IZR (trunc nx)) with (bx * / (IZR (trunc nx) * sf)) by (field; lra). unfold Rdiv. apply Rmult_le_compat_l; [exact Hb|]. apply Rinv_le_contravar; nra.
Qed.

(** Exactly one of min / max given: the call raises and nothing changes. *)
Theorem C24_half_given (secs : sections) (c : dcfg) :
  (c_min c = None /\ c_max c <> None) \/ (c_min c <> None /\ c_max c = None) -> forall secs' i, apply secs (Some c) <> (secs', Done i).
Proof.
  intros H secs' i D. apply done_inv in D. destruct D as (l & pl & _ & M & _ & _). apply plan_inv in M.
  destruct M as (? & ? & ? & ? & ? & ? & ? & ? & ? & ? & ? & ? & ? & _ & _ & _ & _ & _ & _ & _ & _ & _ & _ & _ & _ & _ & _ & _ & _ & MM & _).
  destruct MM as [(A & B & _)|(A & B & _)]; destruct H as [[C E]|[C E]]; congruence.
Qed.
(** Failed checks leave the deck untouched: a failure changes the deck only if some value to be scaled is not a number. *)
Theorem C24_checks_are_pure (secs secs' : sections) (cfg : option dcfg) (e : derr) :
  apply secs cfg = (secs', Raised e) -> e <> NotANumber -> secs' = secs.
Proof.
  unfold apply_gradient_scale_length. destruct cfg as [c|]; [|intros [= <-]; reflexivity]. destruct (requested c) as [l|]; [|intros [= <-]; reflexivity].
  destruct (make_plan unit secs c l) as [pl|e0]; [|intros [= <- _]; reflexivity]. destruct (carry_out pl secs) as [s1 [e1|]] eqn:C; [|intros [=]]. intros [= <- <-] Ne. exfalso. apply Ne. clear Ne.
  assert (SF : forall l e, floats_of l = Err e -> e = NotANumber).
  { induction l0 as [|a t IH]; intros e0 H; cbn in H; [discriminate|]. destruct a; cbn in H; [|congruence]. destruct (floats_of t) eqn:Ft; cbn in H; [discriminate|]. injection H as <-. now apply IH. }
  assert (SV : forall s v e, scale_value s v = Err e -> e = NotANumber).
  { intros s v e0 H. destruct v as [[r|]|lv]; cbn in H; try congruence. destruct (floats_of lv) eqn:Ft; cbn in H; [discriminate|]. injection H as <-. now apply (SF lv). }
  assert (SA : forall b s p e, scale_array b s p = Err e -> e = NotANumber).
  { intros b s p e0 H. unfold scale_array in H. destruct (array_key p b); [|discriminate]. destruct (dget s0 p); [|discriminate]. destruct (scale_value s v) eqn:V; cbn in H; [discriminate|]. injection H as <-. now apply SV in V. }
  assert (SU : forall n b s t t' e, upd_first_res n (scale_array b s) t = (t', Some e) -> e = NotANumber).
  { intros n b s t t' e0 H. unfold upd_first_res in H. destruct (first_section n t); [|discriminate]. destruct (scale_array b s p) eqn:A; [discriminate|]. injection H as _ <-. now apply SA in A. }
  assert (SS : forall s t t' e, scale_sections s t = (t', Some e) -> e = NotANumber).
  { intros s t. induction t as [|[n p] t IH]; intros t' e0 H; cbn in H; [discriminate|]. unfold scale_section in H. destruct (str_eqb n (lit "profile")).
    - destruct (scale_array (lit "x") s p) eqn:A; [|injection H as _ <-; now apply SA in A]. destruct (scale_sections s t) as [t1 e1'] eqn:T. injection H as _ ->. now apply (IH t1).
    - destruct (str_eqb n (lit "diag_species")).
      + destruct (scale_array (lit "ps_xmin") s p) eqn:A; [|injection H as _ <-; now apply SA in A]. destruct (scale_array (lit "ps_xmax") s a) eqn:A'; [|injection H as _ <-; now apply SA in A'].
        destruct (scale_sections s t) as [t1 e1'] eqn:T. injection H as _ ->. now apply (IH t1).
      + destruct (scale_sections s t) as [t1 e1'] eqn:T. injection H as _ ->. now apply (IH t1). }
  unfold carry_out in C. destruct (upd_first_res (lit "space") (scale_array (lit "xmin") (i_s (p_info pl))) (write_fx pl secs)) as [s2 [e2|]] eqn:C2; [injection C as _ <-; now apply SU in C2|].
  destruct (upd_first_res (lit "space") (scale_array (lit "xmax") (i_s (p_info pl))) s2) as [s3 [e3|]] eqn:C3; [injection C as _ <-; now apply SU in C3|].
  destruct (scale_sections (i_s (p_info pl)) s3) as [s4 [e4|]] eqn:C4; [injection C as _ <-; now apply SS in C4|discriminate].
Qed.
End C24.
Print Assumptions C24_inactive.
Print Assumptions C24_active.
Print Assumptions C24_only_lengths_change.
Print Assumptions C24_scale_factor.
Print Assumptions C24_ramp_length.
Print Assumptions C24_cells.
Print Assumptions C24_half_given.
Print Assumptions C24_checks_are_pure.

(* ------------------------------------------------------------------------------------------------ *)
(** * Concrete decks *)
Definition deck (x fx : list R) (window : atom) : sections :=
  [(lit "node_conf", [(lit "node_number(1:1)", Scal (Num 4))]);
   (lit "grid", [(lit "nx_p(1:1)", Scal (Num 100))]);
   (lit "space", [(lit "xmin(1:1)", Scal (Num 0)); (lit "xmax(1:1)", Scal (Num 20))]);
   (lit "profile", [(lit "fx(1:4,1)", Arr (map Num fx)); (lit "x(1:4,1)", Arr (map Num x))]);
   (lit "diag_species", [(lit "ps_xmin(1:1)", Scal (Num 0)); (lit "ps_xmax(1:1)", Scal window)])].
Definition want (L : R) : dcfg := {| c_gsl := Some (Some (LNum L)); c_alias := None; c_ref := None; c_min := None; c_max := None |}.
Definition no_units : str -> option params -> option R := fun _ _ => None.

(** The plan for these decks. *)
Lemma deck_plan x fx w L : (3 <= List.length x)%nat -> (3 <= List.length fx)%nat -> second 0 fx < second_last 0 fx -> 0 < second_last 0 x - second 0 x ->
  let span := L * (second_last 0 fx - second 0 fx) / (25 / 100) in
  let s := span / (second_last 0 x - second 0 x) in
  make_plan no_units (deck x fx w) (want L) (LNum L) = Ok {| p_info := {| i_L := L; i_ref := 25 / 100; i_min := second 0 fx; i_max := second_last 0 fx; i_span := span; i_box := (20 - 0) * s;
       i_nx := round_up_multiple (ceil (IZR (trunc 100) * s)) 4; i_s := s |}; p_nx_key := lit "nx_p(1:1)"; p_nx_list := false; p_fx_key := lit "fx(1:4,1)"; p_fx := None |}.
Proof.
  intros Hx Hf Hi Hs span s. assert (FX : forall l, floats_of (map Num l) = Ok l) by (intros l; now apply floats_of_nums).
  assert (N4 : node_count (deck x fx w) = Ok 4%Z).
  { unfold node_count. change (first_section (lit "node_conf") (deck x fx w)) with (Some [(lit "node_number(1:1)", Scal (Num 4))]). cbv beta iota.
    change (array_key [(lit "node_number(1:1)", Scal (Num 4))] (lit "node_number")) with (Some (lit "node_number(1:1)")). cbv beta iota.
    change (dget (lit "node_number(1:1)") [(lit "node_number(1:1)", Scal (Num 4))]) with (Some (Scal (Num 4))). cbv beta iota. cbn [head_atom bind].
    do 2 f_equal. rewrite trunc_pos by lra. rewrite (floor_unique 4 4) by lra. reflexivity. }
  unfold make_plan. cbn [want c_ref bind].
  change (first_section (lit "space") (deck x fx w)) with (Some [(lit "xmin(1:1)", Scal (Num 0)); (lit "xmax(1:1)", Scal (Num 20))]).
  change (first_section (lit "grid") (deck x fx w)) with (Some [(lit "nx_p(1:1)", Scal (Num 100))]).
  change (first_section (lit "profile") (deck x fx w)) with (Some [(lit "fx(1:4,1)", Arr (map Num fx)); (lit "x(1:4,1)", Arr (map Num x))]). cbv beta iota.
  change (array_key [(lit "nx_p(1:1)", Scal (Num 100))] (lit "nx_p")) with (Some (lit "nx_p(1:1)")). cbv beta iota.
  change (dget (lit "nx_p(1:1)") [(lit "nx_p(1:1)", Scal (Num 100))]) with (Some (Scal (Num 100))). cbv beta iota. cbn [head_atom bind to_float].
  change (array_key [(lit "fx(1:4,1)", Arr (map Num fx)); (lit "x(1:4,1)", Arr (map Num x))] (lit "x")) with (Some (lit "x(1:4,1)")).
  change (array_key [(lit "fx(1:4,1)", Arr (map Num fx)); (lit "x(1:4,1)", Arr (map Num x))] (lit "fx")) with (Some (lit "fx(1:4,1)")). cbv beta iota.
  change (dget (lit "x(1:4,1)") [(lit "fx(1:4,1)", Arr (map Num fx)); (lit "x(1:4,1)", Arr (map Num x))]) with (Some (Arr (map Num x))).
  change (dget (lit "fx(1:4,1)") [(lit "fx(1:4,1)", Arr (map Num fx)); (lit "x(1:4,1)", Arr (map Num x))]) with (Some (Arr (map Num fx))). cbv beta iota. cbn [as_list]. rewrite !FX. cbn [bind].
  destruct (Nat.ltb_spec (List.length x) 3); [lia|]. destruct (Nat.ltb_spec (List.length fx) 3); [lia|]. cbn [orb want c_min c_max bind fst snd].
  destruct (Rle_dec (second_last 0 fx) (second 0 fx)); [lra|]. destruct (Rle_dec (second_last 0 x - second 0 x) 0); [lra|]. cbn [normalized_length bind]. destruct (Req_EM_T (25 / 100) 0); [lra|].
  change (scalar [(lit "xmin(1:1)", Scal (Num 0)); (lit "xmax(1:1)", Scal (Num 20))] (lit "xmax")) with (@Ok (option R) (Some 20)). cbn [bind].
  change (scalar [(lit "xmin(1:1)", Scal (Num 0)); (lit "xmax(1:1)", Scal (Num 20))] (lit "xmin")) with (@Ok (option R) (Some 0)). cbn [bind]. rewrite N4. cbn [bind]. reflexivity.
Qed.
Definition straight : list R := [0; 0; 20; 20].
Definition straight_f : list R := [0; 1 / 10; 1; 0].
Definition bent : list R := [0; 0; 10; 20; 20].
Definition bent_f : list R := [0; 1 / 10; 25 / 100; 1; 0].
Definition result (x fx : list R) (w s : R) (nx : Z) : sections :=
  [(lit "node_conf", [(lit "node_number(1:1)", Scal (Num 4))]);
   (lit "grid", [(lit "nx_p(1:1)", Scal (Num (IZR nx)))]);
   (lit "space", [(lit "xmin(1:1)", Scal (Num (round10 (0 * s)))); (lit "xmax(1:1)", Scal (Num (round10 (20 * s))))]);
   (lit "profile", [(lit "fx(1:4,1)", Arr (map Num fx)); (lit "x(1:4,1)", Arr (map (fun r => Num (round10 (r * s))) x))]);
   (lit "diag_species", [(lit "ps_xmin(1:1)", Scal (Num (round10 (0 * s)))); (lit "ps_xmax(1:1)", Scal (Num (round10 (w * s))))])].
Definition factor (x fx : list R) (L : R) : R := L * (second_last 0 fx - second 0 fx) / (25 / 100) / (second_last 0 x - second 0 x).
Lemma straight_done L w : exists i, apply_gradient_scale_length no_units (deck straight straight_f (Num w)) (Some (want L)) = (result straight straight_f w (i_s i) (i_nx i), Done i) /\
  i_s i = factor straight straight_f L /\ i_L i = L /\ i_ref i = 25 / 100.
Proof.
  unfold apply_gradient_scale_length. change (requested (want L)) with (Some (LNum L)). cbv beta iota.
  rewrite (deck_plan straight straight_f (Num w) L) by (cbn; (lia || lra)). eexists. split; [reflexivity|]. repeat split.
Qed.
Lemma bent_done L w : exists i, apply_gradient_scale_length no_units (deck bent bent_f (Num w)) (Some (want L)) = (result bent bent_f w (i_s i) (i_nx i), Done i) /\
  i_s i = factor bent bent_f L /\ i_L i = L /\ i_ref i = 25 / 100.
Proof.
  unfold apply_gradient_scale_length. change (requested (want L)) with (Some (LNum L)). cbv beta iota.
  rewrite (deck_plan bent bent_f (Num w) L) by (cbn; (lia || lra)). eexists. split; [reflexivity|]. repeat split.
Qed.
Lemma deck_profile x fx w : first_of (lit "profile") (deck x fx w) 3 [(lit "fx(1:4,1)", Arr (map Num fx)); (lit "x(1:4,1)", Arr (map Num x))].
Proof. apply first_of_index. split; reflexivity. Qed.
Lemma deck_keys x fx : first_named (lit "x") [(lit "fx(1:4,1)", Arr (map Num fx)); (lit "x(1:4,1)", Arr (map Num x))] (lit "x(1:4,1)") /\
  first_named (lit "fx") [(lit "fx(1:4,1)", Arr (map Num fx)); (lit "x(1:4,1)", Arr (map Num x))] (lit "fx(1:4,1)").
Proof. split; apply akey_named; try noparen; reflexivity. Qed.
(** The hypotheses of C24_ramp_length are met: a deck with one straight ramp. *)
Example C24_hyp : exists secs' i p', apply_gradient_scale_length no_units (deck straight straight_f (Num 20)) (Some (want 100)) = (secs', Done i) /\
  nth_error secs' 3 = Some (lit "profile", p') /\ i_L i = 100 /\ i_s i = 18 /\ exists xs' fs', dget (lit "x(1:4,1)") p' = Some (Arr (map Num xs')) /\ dget (lit "fx(1:4,1)") p' = Some (Arr (map Num fs')).
Proof.
  destruct (straight_done 100 20) as (i & E & Es & EL & _). eexists _, i, _. split; [exact E|]. split; [reflexivity|]. split; [exact EL|]. split; [rewrite Es; unfold factor, second_last, second; cbn; lra|].
  exists (map (fun r => round10 (r * i_s i)) straight), straight_f. split; reflexivity.
Qed.
(** A ramp with a bend: the local gradient scale length at the reference density is not the requested one. *)
Theorem C24_local_length_refuted :
  ~ (forall unit secs secs' c i j p' kx kf xs' fs' m, apply_gradient_scale_length unit secs (Some c) = (secs', Done i) ->
       first_of (lit "profile") secs' j p' -> first_named (lit "x") p' kx -> first_named (lit "fx") p' kf ->
       dget kx p' = Some (Arr (map Num xs')) -> dget kf p' = Some (Arr (map Num fs')) -> (1 <= m)%nat -> (m + 2 < List.length xs')%nat ->
       nth m fs' 0 <= i_ref i <= nth (S m) fs' 0 ->
       Rabs (i_ref i * (nth (S m) xs' 0 - nth m xs' 0) / (nth (S m) fs' 0 - nth m fs' 0) - i_L i) <= 1).
Proof.
  intros H. destruct (bent_done 90 20) as (i & E & Es & EL & Er).
  specialize (H no_units _ _ (want 90) i 3%nat [(lit "fx(1:4,1)", Arr (map Num bent_f)); (lit "x(1:4,1)", Arr (map (fun r => Num (round10 (r * i_s i))) bent))] (lit "x(1:4,1)") (lit "fx(1:4,1)") (map (fun r => round10 (r * i_s i)) bent) bent_f 1%nat E).
  specialize (H ltac:(apply first_of_index; split; reflexivity) ltac:(apply akey_named; [noparen|reflexivity]) ltac:(apply akey_named; [noparen|reflexivity]) eq_refl eq_refl ltac:(lia) ltac:(cbn; lia)).
  rewrite Er, EL in H. cbn [map bent bent_f nth] in H. specialize (H ltac:(lra)). assert (S : i_s i = 162 / 10) by (rewrite Es; unfold factor, second_last, second; cbn; lra). rewrite S in H.
  pose proof (round10_close (10 * (162 / 10))) as A. pose proof (round10_close (0 * (162 / 10))) as B. set (u := round10 (10 * (162 / 10))) in *. set (w := round10 (0 * (162 / 10))) in *.
  apply abs_le_both in A, B, H. assert (/ 10 ^ 10 <= 1) by (rewrite <- Rinv_1; apply Rinv_le_contravar; lra). lra.
Qed.
Print Assumptions C24_local_length_refuted.
(** A non-positive length is accepted and gives a non-positive cell count. *)
Theorem C24_positive_cells_refuted : ~ (forall unit secs secs' c i, apply_gradient_scale_length unit secs (Some c) = (secs', Done i) -> (0 < i_nx i)%Z).
Proof.
  intros H. destruct (straight_done (-1) 20) as (i & E & Es & _). pose proof (H _ _ _ _ _ E) as P.
  destruct (C24_cells no_units _ _ _ _ 1%nat [(lit "nx_p(1:1)", Scal (Num 100))] (lit "nx_p(1:1)") 100 E) as (m & M1 & M & _ & [_ B] & _).
  - apply first_of_index. split; reflexivity.
  - apply akey_named; [noparen|reflexivity].
  - left. reflexivity.
  - assert (m <= 4)%Z. { destruct M as [(jn & pn & kn & r & t & F & K & G & ->)| ->]; [|lia]. assert (F' : first_of (lit "node_conf") (deck straight straight_f (Num 20)) 0 [(lit "node_number(1:1)", Scal (Num 4))]) by (apply first_of_index; split; reflexivity).
      destruct (first_of_unique _ _ _ _ _ _ F F') as [_ ->]. assert (kn = lit "node_number(1:1)"). { apply akey_named in K; [|noparen]. injection K as <-. reflexivity. } subst kn.
      destruct G as [G|G]; cbn in G; [|discriminate]. injection G as <-. rewrite trunc_pos by lra. rewrite (floor_unique 4 4) by lra. lia. }
    apply IZR_le in H0. rewrite trunc_pos in B by lra. rewrite (floor_unique 100 100) in B by lra. assert (S : i_s i = - (18 / 100)) by (rewrite Es; unfold factor, second_last, second; cbn; lra). rewrite S in B. apply IZR_lt in P. lra.
Qed.
Print Assumptions C24_positive_cells_refuted.
(** The rescaling is not atomic: a phase-space window that is not a number makes the call raise after the box has
    already been changed. *)
Theorem C24_atomic_refuted : ~ (forall unit secs cfg secs' e, apply_gradient_scale_length unit secs cfg = (secs', Raised e) -> secs' = secs).
Proof.
  intros H.
  assert (E : exists secs', apply_gradient_scale_length no_units (deck straight straight_f Bad) (Some (want 100)) = (secs', Raised NotANumber) /\
     nth_error secs' 2 = Some (lit "space", [(lit "xmin(1:1)", Scal (Num (round10 (0 * factor straight straight_f 100)))); (lit "xmax(1:1)", Scal (Num (round10 (20 * factor straight straight_f 100))))])).
  { unfold apply_gradient_scale_length. change (requested (want 100)) with (Some (LNum 100)). cbv beta iota. rewrite (deck_plan straight straight_f Bad 100) by (cbn; (lia || lra)). eexists. split; reflexivity. }
  destruct E as (secs' & E & N). apply H in E. subst secs'. cbn in N. injection N as _ N.
  assert (S : factor straight straight_f 100 = 18) by (unfold factor, second_last, second; cbn; lra). rewrite S in N. pose proof (round10_close (20 * 18)) as A. apply abs_le_both in A.
  assert (/ 10 ^ 10 <= 1) by (rewrite <- Rinv_1; apply Rinv_le_contravar; lra). set (u := round10 (20 * 18)) in *. lra.
Qed.
Print Assumptions C24_atomic_refuted.
