(** Property C104, continued: the table of saves. *)
From Coq Require Import List Arith Bool Ascii Lia.
From Verif Require Import PyStr.
From Verif Require OsIOProofs.
From Verif Require Import VSave.
Import ListNotations.
Local Open Scope nat_scope.

(** Vocabulary: [k] starts with "fields"; two lists of names with the same members; the dimensions of a distribution save
    that are accepted. *)
Definition starts_fields (k : str) : Prop := exists rest, k = lit "fields" ++ rest.
Definition same_set (l m : list str) : Prop := forall d, In d l <-> In d m.
Definition accepted (two_v : bool) (l : list str) : Prop :=
  same_set l [lit "t"] \/ same_set l [lit "t"; lit "x"; lit "v"] \/ (two_v = false /\ same_set l [lit "t"; lit "kx"; lit "v"]).
(** The entries of the save section that are legal taken one by one. *)
Definition legal (two_v : bool) (names : list str) (e : str * snode) : Prop :=
  starts_fields (fst e) \/
  (In (fst e) names /\ forall lab dims, In (lab, dims) (sn_labels (snd e)) -> accepted two_v dims) \/
  (~ In (fst e) names /\ In (lit "electron") names /\ accepted false (sn_dims (snd e)) /\
   In (fst e) (if two_v then [lit "diag-vlasov-cumulative"; lit "diag-fp-cumulative"] else [lit "diag-vlasov-dfdt"; lit "diag-fp-dfdt"])).
(** The entries that start with "fields": none, or one of them is called exactly "fields", has the single dimension t, and
    is the last of them. *)
Definition fields_last (cfg : list (str * snode)) : Prop :=
  (forall e, In e cfg -> ~ starts_fields (fst e)) \/
  exists before node after, cfg = before ++ (lit "fields", node) :: after /\ same_set (sn_dims node) [lit "t"] /\ forall e, In e after -> ~ starts_fields (fst e).

Lemma memb_spec k l : existsb (str_eqb k) l = true <-> In k l.
Proof. rewrite existsb_exists. split; [intros (x & I & E); apply str_eqb_eq in E; subst; exact I|intros I; exists k; split; [exact I|apply str_eqb_refl]]. Qed.
Lemma set_is_spec l m : set_is l m = true <-> same_set l m.
Proof.
  unfold set_is. rewrite andb_true_iff, !forallb_forall. split.
  - intros [A B] d. split; intros I; [apply memb_spec, A, I|apply memb_spec, B, I].
  - intros H. split; intros d I; apply memb_spec, H, I.
Qed.
Lemma dims_ok_spec tv l : dims_ok tv l = true <-> accepted tv l.
Proof.
  unfold dims_ok, accepted. rewrite !orb_true_iff, andb_true_iff, !set_is_spec, negb_true_iff. tauto.
Qed.
Lemma prefix_spec k : is_prefix fields_key k = true <-> starts_fields k.
Proof. apply OsIOProofs.is_prefix_app. Qed.
Lemma starts_self : starts_fields (lit "fields"). Proof. exists []. rewrite app_nil_r. reflexivity. Qed.

Lemma add_labels_iff tv sp l acc : (exists T, add_labels tv sp l acc = Some T) <-> (forall lab dims, In (lab, dims) l -> accepted tv dims).
Proof.
  revert acc. induction l as [|[lab dims] l IH]; intros acc; cbn [add_labels].
  - split; [intros _ ? ? []|eauto].
  - destruct (dims_ok tv dims) eqn:D.
    + rewrite IH. apply dims_ok_spec in D. split; [intros H lab' dims' [E|I]; [injection E as <- <-; exact D|eauto]|intros H lab' dims' I; apply (H lab'); right; exact I].
    + split; [intros [T E]; discriminate|intros H]. exfalso. assert (dims_ok tv dims = true) by (apply dims_ok_spec, (H lab); left; reflexivity). congruence.
Qed.
(** The condition on the entries that start with "fields", along the loop. *)
Fixpoint fine (cfg todo : list (str * snode)) (fa : bool) : Prop :=
  match todo with
  | [] => True
  | (k, _) :: todo' => if is_prefix fields_key k then fields_ok cfg fa = true /\ fine cfg todo' (fa || str_eqb k fields_key) else fine cfg todo' fa
  end.
Lemma expand_iff tv names cfg : forall todo fa acc, (exists T, expand tv names cfg todo fa acc = Some T) <-> (fine cfg todo fa /\ forall e, In e todo -> legal tv names e).
Proof.
  induction todo as [|[k node] todo IH]; intros fa acc; cbn [expand fine].
  - split; [intros _; split; [exact I|intros ? []]|intros _; eauto].
  - assert (SP : forall P : Prop, (legal tv names (k, node) /\ (P /\ forall e, In e todo -> legal tv names e)) <-> (P /\ forall e, In e ((k, node) :: todo) -> legal tv names e)).
    { intros P. split; [intros (A & B & C); split; [exact B|intros e [<-|Ie]; auto]|intros (B & C); split; [apply C; left; reflexivity|split; [exact B|intros e Ie; apply C; right; exact Ie]]]. }
    destruct (is_prefix fields_key k) eqn:PF.
    + assert (L : legal tv names (k, node)) by (left; apply prefix_spec, PF).
      destruct (fields_ok cfg fa) eqn:FO.
      * rewrite IH, <- SP. tauto.
      * split; [intros [T E]; discriminate|intros [[E _] _]; discriminate].
    + assert (NF : ~ starts_fields k) by (rewrite <- prefix_spec; congruence).
      destruct (existsb (str_eqb k) names) eqn:KN.
      * apply memb_spec in KN. assert (LE : legal tv names (k, node) <-> (forall lab dims, In (lab, dims) (sn_labels node) -> accepted tv dims)).
        { unfold legal. cbn [fst snd]. split; [intros [A|[[_ A]|[A _]]]; [contradiction|exact A|contradiction]|intros A; right; left; auto]. }
        destruct (add_labels tv k (sn_labels node) acc) as [acc'|] eqn:AL.
        -- rewrite IH, <- SP, LE. assert (H := proj1 (add_labels_iff tv k (sn_labels node) acc) (ex_intro _ acc' AL)). tauto.
        -- split; [intros [T E]; discriminate|]. intros [_ H]. exfalso. assert (L := proj1 LE (H _ (or_introl eq_refl))). apply (add_labels_iff tv k _ acc) in L. destruct L as [T E]. congruence.
      * assert (NN : ~ In k names) by (rewrite <- memb_spec; congruence).
        assert (LE : legal tv names (k, node) <-> (existsb (str_eqb k) (diag_types tv) = true /\ dims_ok false (sn_dims node) && existsb (str_eqb (lit "electron")) names = true)).
        { rewrite andb_true_iff, !memb_spec, dims_ok_spec. unfold legal. cbn [fst snd]. unfold diag_types. split; [intros [A|[[A _]|A]]; [contradiction|contradiction|tauto]|intros A; right; right; tauto]. }
        destruct (existsb (str_eqb k) (diag_types tv)) eqn:KD.
        -- destruct (dims_ok false (sn_dims node) && existsb (str_eqb (lit "electron")) names) eqn:DE.
           ++ rewrite IH, <- SP. tauto.
           ++ split; [intros [T E]; discriminate|]. intros [_ H]. destruct (proj1 LE (H _ (or_introl eq_refl))); discriminate.
        -- split; [intros [T E]; discriminate|]. intros [_ H]. destruct (proj1 LE (H _ (or_introl eq_refl))); discriminate.
Qed.
Lemma fine_true cfg : forall todo, fine cfg todo true <-> forall e, In e todo -> ~ starts_fields (fst e).
Proof.
  induction todo as [|[k node] todo IH]; cbn [fine]; [split; [intros _ ? []|auto]|].
  destruct (is_prefix fields_key k) eqn:PF.
  - split; [intros [A _]; unfold fields_ok in A; destruct (dget fields_key cfg); discriminate|]. intros H. exfalso. apply (H (k, node)); [left; reflexivity|apply prefix_spec, PF].
  - rewrite IH. split; [intros H e [<-|Ie]; [cbn; rewrite <- prefix_spec; congruence|auto]|intros H e Ie; apply H; right; exact Ie].
Qed.
Lemma fine_false cfg : forall todo, fine cfg todo false <->
  ((forall e, In e todo -> ~ starts_fields (fst e)) \/
   (exists n, dget fields_key cfg = Some n /\ same_set (sn_dims n) [lit "t"]) /\
   ((forall e, In e todo -> fst e <> fields_key) \/ exists before node after, todo = before ++ (fields_key, node) :: after /\ (forall e, In e before -> fst e <> fields_key) /\ forall e, In e after -> ~ starts_fields (fst e))).
Proof.
  assert (FO : fields_ok cfg false = true <-> exists n, dget fields_key cfg = Some n /\ same_set (sn_dims n) [lit "t"]).
  { unfold fields_ok. cbn [negb andb]. destruct (dget fields_key cfg) as [n|]; [rewrite set_is_spec; split; [eauto|intros (m & E & S0); injection E as <-; exact S0]|split; [discriminate|intros (m & E & _); discriminate]]. }
  induction todo as [|[k node] todo IH]; cbn [fine]; [split; [intros _; left; intros ? []|auto]|].
  destruct (is_prefix fields_key k) eqn:PF.
  - apply prefix_spec in PF. rewrite FO. cbn [orb]. destruct (str_eqb_spec k fields_key) as [->|NE].
    + rewrite fine_true. split.
      * intros [A B]. right. split; [exact A|]. right. exists [], node, todo. split; [reflexivity|]. split; [intros ? []|exact B].
      * intros [H|[A [H|(b & n & a & E & Hb & Ha)]]]; [exfalso; apply (H (fields_key, node)); [left; reflexivity|exact PF]|exfalso; apply (H (fields_key, node)); [left; reflexivity|reflexivity]|].
        split; [exact A|]. destruct b as [|[k0 n0] b]; [cbn in E; injection E as _ ->; exact Ha|]. cbn in E. injection E as <- <- E. exfalso. apply (Hb (fields_key, node)); [left; reflexivity|reflexivity].
    + rewrite IH. split.
      * intros [A [H|[_ [H|(b & n & a & E & Hb & Ha)]]]]; right; split; try exact A.
        -- left. intros e [<-|Ie]; [exact NE|]. intros E. apply (H e Ie). rewrite E. apply starts_self.
        -- left. intros e [<-|Ie]; [exact NE|auto].
        -- right. exists ((k, node) :: b), n, a. split; [rewrite E; reflexivity|]. split; [intros e [<-|Ie]; [exact NE|auto]|exact Ha].
      * intros [H|[A [H|(b & n & a & E & Hb & Ha)]]]; [exfalso; apply (H (k, node)); [left; reflexivity|exact PF]| |].
        -- split; [exact A|]. right. split; [exact A|]. left. intros e Ie. apply H. right. exact Ie.
        -- split; [exact A|]. right. split; [exact A|]. right. destruct b as [|e0 b]; [cbn in E; injection E as E _; contradiction|]. cbn in E. injection E as <- E. exists b, n, a. split; [exact E|]. split; [intros e Ie; apply Hb; right; exact Ie|exact Ha].
  - assert (NF : ~ starts_fields k) by (rewrite <- prefix_spec; congruence). assert (NE : k <> fields_key) by (intros ->; apply NF, starts_self). rewrite IH. split.
    + intros [H|[A [H|(b & n & a & E & Hb & Ha)]]].
      * left. intros e [<-|Ie]; auto.
      * right. split; [exact A|]. left. intros e [<-|Ie]; auto.
      * right. split; [exact A|]. right. exists ((k, node) :: b), n, a. split; [rewrite E; reflexivity|]. split; [intros e [<-|Ie]; auto|exact Ha].
    + intros [H|[A [H|(b & n & a & E & Hb & Ha)]]].
      * left. intros e Ie. apply H. right. exact Ie.
      * right. split; [exact A|]. left. intros e Ie. apply H. right. exact Ie.
      * right. split; [exact A|]. right. destruct b as [|e0 b]; [cbn in E; injection E as E _; contradiction|]. cbn in E. injection E as <- E. exists b, n, a. split; [exact E|]. split; [intros e Ie; apply Hb; right; exact Ie|exact Ha].
Qed.

(** The save section is expanded without an exception exactly when every entry is legal taken by itself and, if any entry
    starts with "fields", one is called exactly "fields", has the single dimension t, and comes after all the others: the
    same entries in another order are refused. *)
Theorem C104_table_built : forall two_v names cfg, NoDup (map fst cfg) ->
  ((exists T, save_table two_v names cfg = Some T) <-> ((forall e, In e cfg -> legal two_v names e) /\ fields_last cfg)).
Proof.
  intros tv names cfg ND. unfold save_table. rewrite expand_iff, fine_false. unfold fields_last. split; intros [A B]; split; auto.
  - destruct A as [H|[(n & D & S0) [H|(b & nd & a & E & Hb & Ha)]]]; [left; exact H| |].
    + exfalso. apply dget_In in D. apply (H _ D). reflexivity.
    + right. exists b, nd, a. split; [exact E|]. split; [|exact Ha]. assert (In (fields_key, nd) cfg) by (rewrite E; apply in_or_app; right; left; reflexivity).
      rewrite (In_dget fields_key nd cfg ND H) in D. injection D as <-. exact S0.
  - destruct B as [H|(b & nd & a & E & S0 & Ha)]; [left; exact H|right]. assert (I0 : In (fields_key, nd) cfg) by (rewrite E; apply in_or_app; right; left; reflexivity).
    split; [exists nd; split; [apply In_dget; assumption|exact S0]|]. right. exists b, nd, a. split; [exact E|]. split; [|exact Ha]. intros [k0 n0] Ie E0. cbn in E0. subst k0.
    rewrite E, map_app in ND. cbn [map fst] in ND. apply NoDup_remove_2 in ND. apply ND, in_or_app. left. apply (in_map fst) in Ie. exact Ie.
Qed.
Print Assumptions C104_table_built.

(* ------------------------------------------------------------------------------------------------ *)
(** What the table holds. *)
Definition no_dot (s : str) : Prop := ~ In "."%char s.
Lemma split_dot : forall a b a' b', no_dot a -> no_dot a' -> a ++ "."%char :: b = a' ++ "."%char :: b' -> a = a' /\ b = b'.
Proof.
  induction a as [|x a IH]; intros b [|y a'] b' Na Na' E; cbn in E.
  - injection E as <-. auto.
  - injection E as <- _. exfalso. apply Na'. left. reflexivity.
  - injection E as -> _. exfalso. apply Na. left. reflexivity.
  - injection E as <- E. destruct (IH b a' b') as [-> ->]; auto; intros H; [apply Na|apply Na']; right; exact H.
Qed.
Lemma prefix_split : forall p a b, no_dot p -> is_prefix p (a ++ "."%char :: b) = true -> is_prefix p a = true.
Proof.
  induction p as [|x p IH]; intros a b Np H; [destruct a; reflexivity|]. destruct a as [|y a].
  - cbn in H. apply andb_true_iff in H. destruct H as [H _]. apply Ascii.eqb_eq in H. subst. exfalso. apply Np. left. reflexivity.
  - cbn in *. apply andb_true_iff in H. destruct H as [H0 H]. rewrite H0. cbn. apply (IH a b); [intros I0; apply Np; right; exact I0|exact H].
Qed.
(** The label [lab] of the species [sp] in the table. *)
Definition label_key (sp lab : str) : str := sp ++ lit "." ++ lab.
Lemma label_key_inj sp lab sp' lab' : no_dot sp -> no_dot sp' -> label_key sp lab = label_key sp' lab' -> sp = sp' /\ lab = lab'.
Proof. unfold label_key. cbn [lit app]. apply split_dot. Qed.
Lemma label_key_dot sp lab : In "."%char (label_key sp lab).
Proof. unfold label_key. apply in_or_app. right. left. reflexivity. Qed.
(** What each name refers to: the last assignment wins. *)
Inductive writes (tv : bool) (names : list str) (cfg : list (str * snode)) : str -> saver -> Prop :=
  | W_fields k node : In (k, node) cfg -> starts_fields k -> writes tv names cfg k SvFields
  | W_label sp node lab dims : In (sp, node) cfg -> ~ starts_fields sp -> In sp names -> In (lab, dims) (sn_labels node) -> writes tv names cfg (label_key sp lab) (SvDist sp dims)
  | W_diag k node : In (k, node) cfg -> ~ starts_fields k -> ~ In k names -> In k (diag_types tv) -> writes tv names cfg k (SvDiag (sn_dims node))
  | W_default : writes tv names cfg (lit "default") SvDefault.

Lemma add_labels_get tv sp : forall l acc T, add_labels tv sp l acc = Some T -> NoDup (map fst l) ->
  (forall lab dims, In (lab, dims) l -> dget (label_key sp lab) T = Some (SvDist sp dims)) /\
  (forall k, (forall lab dims, In (lab, dims) l -> k <> label_key sp lab) -> dget k T = dget k acc) /\
  (forall k w, dget k T = Some w -> dget k acc = Some w \/ exists lab dims, In (lab, dims) l /\ k = label_key sp lab /\ w = SvDist sp dims).
Proof.
  induction l as [|[lab dims] l IH]; intros acc T E ND; cbn [add_labels] in E.
  - injection E as <-. split; [intros ? ? []|]. split; auto.
  - destruct (dims_ok tv dims); [|discriminate]. inversion ND as [|? ? NI ND']; subst. destruct (IH _ _ E ND') as (A & B & C). fold (label_key sp lab) in B, C. split; [|split].
    + intros lab' dims' [EQ|I0]; [injection EQ as <- <-|exact (A _ _ I0)].
      rewrite B; [apply dget_dset_same|]. intros lab' dims' I0 EQ. unfold label_key in EQ. apply app_inv_head in EQ. apply app_inv_head in EQ. subst lab'. apply NI. apply (in_map fst) in I0. exact I0.
    + intros k Hk. rewrite B; [|intros lab' dims' I0; apply (Hk lab' dims'); right; exact I0]. apply dget_dset_other. intros EQ. apply (Hk lab dims); [left; reflexivity|congruence].
    + intros k w Hk. destruct (C k w Hk) as [H|(lab' & dims' & I0 & ? & ?)]; [|right; exists lab', dims'; split; [right; exact I0|auto]].
      destruct (str_eqb_spec (label_key sp lab) k) as [<-|NE]; [rewrite dget_dset_same in H; injection H as <-; right; exists lab, dims; split; [left; reflexivity|auto]|rewrite dget_dset_other in H by congruence; left; exact H].
Qed.
Lemma nd_fields : no_dot fields_key. Proof. unfold no_dot. cbn. intuition discriminate. Qed.
Lemma DD tv k : In k (diag_types tv) -> ~ In "."%char k.
Proof. destruct tv; cbn; intros [<-|[<-|[]]]; cbn; intuition discriminate. Qed.
(** Everything the loop writes. *)
Lemma expand_get tv names cfg0 : (forall sp, In sp names -> no_dot sp) -> forall todo fa acc T,
  expand tv names cfg0 todo fa acc = Some T -> NoDup (map fst todo) -> (forall k node, In (k, node) todo -> NoDup (map fst (sn_labels node))) ->
  (forall k w, writes tv names todo k w -> dget k T = Some w) /\
  (forall k, (forall w, ~ writes tv names todo k w) -> dget k T = dget k acc).
Proof.
  intros Nd. induction todo as [|[k0 node0] todo IH]; intros fa acc T E ND NL; cbn [expand] in E.
  - injection E as <-. split.
    + intros k w W. inversion W; subst; try (match goal with H : In _ [] |- _ => destruct H end). apply dget_dset_same.
    + intros k H. apply dget_dset_other. intros ->. apply (H SvDefault). constructor.
  - inversion ND as [|? ? NI ND']; subst. assert (NL' : forall k node, In (k, node) todo -> NoDup (map fst (sn_labels node))) by (intros k node H; apply (NL k); right; exact H).
    assert (NK : forall node, ~ In (k0, node) todo) by (intros node H; apply NI; apply (in_map fst) in H; exact H).
    (* a name that the rest of the loop writes *)
    assert (MONO : forall k w, writes tv names todo k w -> writes tv names ((k0, node0) :: todo) k w).
    { intros k w W. inversion W; subst; [eapply W_fields|eapply W_label|eapply W_diag|apply W_default]; eauto; right; eauto. }
    assert (STEP : forall acc', (forall k w, writes tv names ((k0, node0) :: todo) k w -> writes tv names todo k w \/ ((forall w', ~ writes tv names todo k w') /\ dget k acc' = Some w)) ->
        (forall k, (forall w, ~ writes tv names ((k0, node0) :: todo) k w) -> dget k acc' = dget k acc) -> forall fa', expand tv names cfg0 todo fa' acc' = Some T ->
        (forall k w, writes tv names ((k0, node0) :: todo) k w -> dget k T = Some w) /\ (forall k, (forall w, ~ writes tv names ((k0, node0) :: todo) k w) -> dget k T = dget k acc)).
    { intros acc' H1 H2 fa' E'. destruct (IH _ _ _ E' ND' NL') as [A B]. split.
      - intros k w W. destruct (H1 k w W) as [W'|[NW G]]; [auto|rewrite B by exact NW; exact G].
      - intros k H. rewrite B by (intros w W; apply (H w), MONO, W). apply H2, H. }
    destruct (is_prefix fields_key k0) eqn:PF.
    + destruct (fields_ok cfg0 fa); [|discriminate]. apply prefix_spec in PF. apply (STEP (dset k0 SvFields acc)) with (3 := E); clear E.
      * intros k w W. inversion W; subst.
        -- destruct H as [EQ|H]; [injection EQ as <- <-; right|left; econstructor; eauto]. split; [|apply dget_dset_same].
           intros w' W'. inversion W'; subst; [eapply NK; eauto| |eapply NK; eauto|].
           ++ destruct PF as [r PF]. assert (PX : is_prefix fields_key (label_key sp lab) = true) by (apply prefix_spec; exists r; exact PF). unfold label_key in PX. cbn [lit app] in PX.
              apply prefix_split in PX; [apply H1, prefix_spec, PX|apply nd_fields].
           ++ destruct PF as [r PF]. discriminate PF.
        -- destruct H as [EQ|H]; [injection EQ as <- <-; contradiction|left; econstructor; eauto].
        -- destruct H as [EQ|H]; [injection EQ as <- <-; contradiction|left; econstructor; eauto].
        -- left. constructor.
      * intros k H. apply dget_dset_other. intros ->. apply (H SvFields). econstructor; [left; reflexivity|exact PF].
    + assert (NF : ~ starts_fields k0) by (rewrite <- prefix_spec; congruence). destruct (existsb (str_eqb k0) names) eqn:KN.
      * apply memb_spec in KN. destruct (add_labels tv k0 (sn_labels node0) acc) as [acc'|] eqn:AL; [|discriminate].
        destruct (add_labels_get _ _ _ _ _ AL) as (A & B & C); [eapply NL; left; reflexivity|]. apply (STEP acc') with (3 := E); clear E.
        -- intros k w W. inversion W; subst.
           ++ destruct H as [EQ|H]; [injection EQ as <- <-; contradiction|left; econstructor; eauto].
           ++ destruct H as [EQ|H]; [|left; econstructor; eauto]. injection EQ as <- <-. right. split; [|apply A, H2].
              intros w' W'. inversion W' as [k1 n1 I1 S1|sp1 n1 lab1 dims1 I1 S1 M1 L1|k1 n1 I1 S1 M1|]; subst.
              ** apply prefix_spec in S1. unfold label_key in S1. cbn [lit app] in S1. apply prefix_split in S1; [apply H0, prefix_spec, S1|apply nd_fields].
              ** apply label_key_inj in H; [|auto|auto]. destruct H as [-> _]. eapply NK; eauto.
              ** apply (DD tv (label_key k0 lab)); [assumption|apply label_key_dot].
              ** assert (X := label_key_dot k0 lab). rewrite <- H in X. cbn in X. intuition discriminate.
           ++ destruct H as [EQ|H]; [injection EQ as <- <-; contradiction|left; econstructor; eauto].
           ++ left. constructor.
        -- intros k H. apply B. intros lab dims I0 ->. apply (H (SvDist k0 dims)). econstructor; eauto. left; reflexivity.
      * assert (NN : ~ In k0 names) by (rewrite <- memb_spec; congruence). destruct (existsb (str_eqb k0) (diag_types tv)) eqn:KD; [|discriminate]. apply memb_spec in KD.
        destruct (dims_ok false (sn_dims node0) && existsb (str_eqb (lit "electron")) names); [|discriminate]. apply (STEP (dset k0 (SvDiag (sn_dims node0)) acc)) with (3 := E); clear E.
        -- intros k w W. inversion W; subst.
           ++ destruct H as [EQ|H]; [injection EQ as <- <-; contradiction|left; econstructor; eauto].
           ++ destruct H as [EQ|H]; [injection EQ as <- <-; contradiction|left; econstructor; eauto].
           ++ destruct H as [EQ|H]; [|left; econstructor; eauto]. injection EQ as <- <-. right. split; [|apply dget_dset_same].
              intros w' W'. inversion W' as [k1 n1 I1 S1|sp1 n1 lab1 dims1 I1 S1 M1 L1|k1 n1 I1 S1 M1|]; subst; [eapply NK; eauto| |eapply NK; eauto|].
              ** apply (DD tv (label_key sp1 lab1)); [assumption|apply label_key_dot].
              ** destruct tv; cbn in KD; intuition discriminate.
           ++ left. constructor.
        -- intros k H. apply dget_dset_other. intros ->. apply (H (SvDiag (sn_dims node0))). econstructor; eauto. left; reflexivity.
Qed.

(** When the section is expanded and no species name has a dot: every label of every species (whose name does not start with
    "fields") is saved under "species.label", from that species and with its own dimensions; every entry that starts with
    "fields" -- a species of such a name included -- is a save of the fields; every diagnostic has its own name and
    dimensions; the default save is present; and there is nothing else in the table. *)
Theorem C104_table_holds : forall two_v names cfg T, NoDup (map fst cfg) -> (forall k node, In (k, node) cfg -> NoDup (map fst (sn_labels node))) ->
  (forall sp, In sp names -> ~ In "."%char sp) -> save_table two_v names cfg = Some T ->
  (forall sp node lab dims, In (sp, node) cfg -> In sp names -> ~ starts_fields sp -> In (lab, dims) (sn_labels node) -> dget (sp ++ lit "." ++ lab) T = Some (SvDist sp dims)) /\
  (forall k node, In (k, node) cfg -> starts_fields k -> dget k T = Some SvFields) /\
  (forall k node, In (k, node) cfg -> ~ starts_fields k -> ~ In k names -> dget k T = Some (SvDiag (sn_dims node))) /\
  dget (lit "default") T = Some SvDefault /\
  (forall k w, dget k T = Some w -> k = lit "default" \/ (exists node, In (k, node) cfg /\ ~ (In k names /\ ~ starts_fields k)) \/
     exists sp node lab dims, In (sp, node) cfg /\ In sp names /\ In (lab, dims) (sn_labels node) /\ k = sp ++ lit "." ++ lab /\ w = SvDist sp dims).
Proof.
  intros tv names cfg T ND NL Nd E. assert (LEG := proj1 (expand_iff tv names cfg cfg false []) (ex_intro _ T E)). destruct LEG as [_ LEG].
  destruct (expand_get tv names cfg Nd cfg false [] T E ND NL) as [A B].
  assert (DG : forall k node, In (k, node) cfg -> ~ starts_fields k -> ~ In k names -> In k (diag_types tv)).
  { intros k node I0 NF NN. destruct (LEG _ I0) as [H|[[H _]|(_ & _ & _ & H)]]; cbn [fst] in *; [contradiction|contradiction|exact H]. }
  split; [|split; [|split; [|split]]].
  - intros sp node lab dims I0 IN NF IL. apply A. exact (W_label tv names cfg sp node lab dims I0 NF IN IL).
  - intros k node I0 F. apply A. exact (W_fields tv names cfg k node I0 F).
  - intros k node I0 NF NN. apply A. exact (W_diag tv names cfg k node I0 NF NN (DG _ _ I0 NF NN)).
  - apply A. constructor.
  - intros k w G.
    destruct (str_eqb_spec k (lit "default")) as [->|N0]; [left; reflexivity|right].
    destruct (existsb (fun e => str_eqb k (fst e) && negb (existsb (str_eqb k) names && negb (is_prefix fields_key k))) cfg) eqn:X.
    + left. apply existsb_exists in X. destruct X as ([k1 node] & I0 & X). cbn [fst] in X. apply andb_true_iff in X. destruct X as [X1 X2]. apply str_eqb_eq in X1. subst k1. exists node. split; [exact I0|]. intros [P Q].
      apply memb_spec in P. rewrite P in X2. rewrite <- prefix_spec in Q. destruct (is_prefix fields_key k); [apply Q; reflexivity|discriminate].
    + right. destruct (existsb (fun e => existsb (str_eqb (fst e)) names && negb (is_prefix fields_key (fst e)) && existsb (fun ld => str_eqb k (label_key (fst e) (fst ld))) (sn_labels (snd e))) cfg) eqn:Y.
      * apply existsb_exists in Y. destruct Y as ([sp node] & I0 & Y). cbn [fst snd] in Y. rewrite !andb_true_iff in Y. destruct Y as [[Y1 Y2] Y3]. apply existsb_exists in Y3. destruct Y3 as ([lab dims] & IL & Y3). cbn [fst] in Y3. apply str_eqb_eq in Y3. apply memb_spec in Y1. apply negb_true_iff in Y2.
        exists sp, node, lab, dims. split; [exact I0|]. split; [exact Y1|]. split; [exact IL|]. split; [exact Y3|]. assert (NF : ~ starts_fields sp) by (rewrite <- prefix_spec; congruence).
        assert (G' := A _ _ (W_label tv names cfg sp node lab dims I0 NF Y1 IL)). rewrite <- Y3, G in G'. injection G' as ->. reflexivity.
      * exfalso. rewrite B in G; [discriminate G|]. intros w' W. inversion W as [k1 n1 I1 S1|sp1 n1 lab1 dims1 I1 S1 M1 L1|k1 n1 I1 S1 M1 D1|]; subst.
        -- assert (Z : existsb (fun e => str_eqb k (fst e) && negb (existsb (str_eqb k) names && negb (is_prefix fields_key k))) cfg = true); [|congruence].
           apply existsb_exists. exists (k, n1). split; [exact I1|]. cbn [fst]. rewrite str_eqb_refl. apply prefix_spec in S1. rewrite S1. rewrite andb_false_r. reflexivity.
        -- match type of Y with ?t = _ => assert (Z : t = true); [|congruence] end. apply existsb_exists. exists (sp1, n1). split; [exact I1|]. cbn [fst snd]. rewrite (proj2 (memb_spec _ _) M1). rewrite <- prefix_spec in S1. destruct (is_prefix fields_key sp1); [exfalso; apply S1; reflexivity|]. cbn [negb andb].
           apply existsb_exists. exists (lab1, dims1). split; [exact L1|apply str_eqb_refl].
        -- match type of X with ?t = _ => assert (Z : t = true); [|congruence] end. apply existsb_exists. exists (k, n1). split; [exact I1|]. cbn [fst]. rewrite str_eqb_refl. destruct (existsb (str_eqb k) names) eqn:Q; [apply memb_spec in Q; contradiction|reflexivity].
        -- apply N0. reflexivity.
Qed.
Print Assumptions C104_table_holds.

(** A concrete section: fields, a species with two labels and a diagnostic. *)
Definition tnode := {| sn_dims := [lit "t"]; sn_labels := [] |}.
Definition enode := {| sn_dims := [lit "main"; lit "full"]; sn_labels := [(lit "main", [lit "t"]); (lit "full", [lit "v"; lit "t"; lit "x"])] |}.
Definition txv := {| sn_dims := [lit "t"; lit "x"; lit "v"]; sn_labels := [] |}.
Definition section := [(lit "fields", tnode); (lit "electron", enode); (lit "diag-vlasov-dfdt", txv)].
Example section_keys : NoDup (map fst section).
Proof. repeat constructor; cbn; intuition discriminate. Qed.
Example section_saved : exists T, save_table false [lit "electron"; lit "ion"] section = Some T /\
  map fst T = [lit "fields"; lit "electron.main"; lit "electron.full"; lit "diag-vlasov-dfdt"; lit "default"] /\
  dget (lit "electron.full") T = Some (SvDist (lit "electron") [lit "v"; lit "t"; lit "x"]).
Proof. eexists. split; [vm_compute; reflexivity|]. split; vm_compute; reflexivity. Qed.
Example section_legal : (forall e, In e section -> legal false [lit "electron"; lit "ion"] e) /\ fields_last section.
Proof. apply (C104_table_built false [lit "electron"; lit "ion"] section section_keys). destruct section_saved as (T & E & _). eauto. Qed.

(** The order of the section matters: with the general fields save first and a second fields save after it, the setup
    fails; the other way round it is accepted. *)
Theorem C104_fields_order_refuted : exists cfg cfg', Permutation.Permutation cfg cfg' /\ NoDup (map fst cfg) /\
  save_table false [lit "electron"] cfg = None /\ exists T, save_table false [lit "electron"] cfg' = Some T.
Proof.
  exists [(lit "fields", tnode); (lit "fields-early", tnode)], [(lit "fields-early", tnode); (lit "fields", tnode)].
  split; [apply Permutation.perm_swap|]. split; [repeat constructor; cbn; intuition discriminate|]. split; [vm_compute; reflexivity|eexists; vm_compute; reflexivity].
Qed.
Print Assumptions C104_fields_order_refuted.
(** Labels of two species meet when a species name has a dot: one of the saves asked for is silently lost. *)
Theorem C104_dotted_names_refuted : exists names cfg T, NoDup (map fst cfg) /\ (forall k node, In (k, node) cfg -> NoDup (map fst (sn_labels node))) /\ save_table false names cfg = Some T /\
  exists sp node lab dims, In (sp, node) cfg /\ In sp names /\ ~ starts_fields sp /\ In (lab, dims) (sn_labels node) /\ forall k, dget k T <> Some (SvDist sp dims).
Proof.
  exists [lit "e.hot"; lit "e"], [(lit "e.hot", {| sn_dims := []; sn_labels := [(lit "f", [lit "t"])] |}); (lit "e", {| sn_dims := []; sn_labels := [(lit "hot.f", [lit "t"])] |})].
  eexists. split; [repeat constructor; cbn; intuition discriminate|]. split; [intros k node [E|[E|[]]]; injection E as _ <-; repeat constructor; cbn; auto|]. split; [vm_compute; reflexivity|].
  exists (lit "e.hot"). eexists. eexists. eexists. split; [left; reflexivity|]. split; [left; reflexivity|]. split; [rewrite <- prefix_spec; discriminate|]. split; [left; reflexivity|].
  intros k H. apply dget_In in H. cbn in H. intuition discriminate.
Qed.
Print Assumptions C104_dotted_names_refuted.
