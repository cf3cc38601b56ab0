From Verif Require Import Runner RunnerSpec.

Lemma path_eqb_spec : forall a b, reflect (a = b) (path_eqb a b).
Proof.
  induction a as [|x a IH]; destruct b as [|y b]; cbn; try (constructor; congruence).
  destruct (str_eqb_spec x y) as [->|Hn]; cbn.
  - destruct (IH b) as [->|Hn]; constructor; congruence.
  - constructor; congruence.
Qed.

Lemma is_prefix_spec : forall p s, is_prefix p s = true <-> exists b, s = p ++ b.
Proof.
  induction p as [|x p IH]; intros s; cbn; [split; [eauto|reflexivity]|].
  destruct s as [|y s]; [split; [discriminate|intros [b H]; discriminate]|].
  rewrite andb_true_iff, IH. split.
  - intros [H [b ->]]. apply Ascii.eqb_eq in H. subst. now exists b.
  - intros [b H]. injection H as -> ->. split; [apply Ascii.eqb_refl|eauto].
Qed.
Lemma contains_spec : forall s p, contains p s = true <-> occurs p s.
Proof.
  induction s as [|x s IH]; intros p; cbn [contains]; rewrite orb_true_iff, is_prefix_spec.
  - split; [intros [[b Hb]|H]; [exists [], b; exact Hb|discriminate]|]. intros (a & b & H). left.
    destruct a as [|y a]; [now exists b|discriminate].
  - rewrite IH. split.
    + intros [[b Hb]|(a & b & ->)]; [exists [], b; exact Hb|exists (x :: a), b; reflexivity].
    + intros (a & b & H). destruct a as [|y a]; [left; now exists b|]. right. injection H as -> ->. now exists a, b.
Qed.
Lemma contains_false s p : contains p s = false <-> ~ occurs p s.
Proof. rewrite <- contains_spec. destruct (contains p s); split; congruence. Qed.
Lemma ends_with_spec p s : ends_with p s = true <-> exists a, s = a ++ p.
Proof.
  unfold ends_with. rewrite is_prefix_spec. split; intros [b H].
  - exists (rev b). rewrite <- (rev_involutive s), H, rev_app_distr, rev_involutive. reflexivity.
  - exists (rev b). rewrite H, rev_app_distr. reflexivity.
Qed.

(** C17 *)
Lemma readlines_aux_concat : forall s cur, List.concat (readlines_aux cur s) = rev cur ++ s.
Proof.
  induction s as [|c s IH]; intros cur; cbn [readlines_aux].
  - destruct cur; cbn; now rewrite ?app_nil_r.
  - destruct (aeqb c nl); cbn [List.concat].
    + rewrite IH. cbn [rev]. rewrite <- !app_assoc. reflexivity.
    + rewrite IH. cbn [rev]. rewrite <- app_assoc. reflexivity.
Qed.
Lemma readlines_concat s : List.concat (readlines s) = s.
Proof. apply readlines_aux_concat. Qed.

Definition is_line (l : str) : Prop := exists body, (l = body ++ [nl] \/ (l = body /\ body <> [])) /\ ~ In nl body.
Lemma readlines_aux_lines : forall s cur, ~ In nl cur -> Forall is_line (readlines_aux cur s).
Proof.
  induction s as [|c s IH]; intros cur Hc; cbn [readlines_aux].
  - destruct cur as [|d cur]; [constructor|]. constructor; [|constructor]. exists (rev (d :: cur)). split.
    + right. split; [reflexivity|]. intros H. apply (f_equal (@List.length ascii)) in H. rewrite rev_length in H. discriminate.
    + now rewrite <- in_rev.
  - destruct (aeqb c nl) eqn:E; unfold aeqb in E.
    + apply Ascii.eqb_eq in E. subst c. constructor; [|now apply IH]. exists (rev cur). split; [left; reflexivity|now rewrite <- in_rev].
    + apply IH. cbn. intros [H|H]; [|now apply Hc]. subst c. now rewrite Ascii.eqb_refl in E.
Qed.

Lemma skipn_plus {A} : forall a b (l : list A), skipn a (skipn b l) = skipn (a + b) l.
Proof.
  intros a b. revert a. induction b as [|b IH]; intros a l; [now rewrite Nat.add_0_r|].
  destruct l as [|x l]; [now rewrite !skipn_nil|]. rewrite Nat.add_succ_r. cbn [skipn]. apply IH.
Qed.
Lemma last_n_all {A} n (l : list A) : List.length l <= n -> last_n n l = l.
Proof. intros H. unfold last_n. replace (List.length l - n) with 0 by lia. reflexivity. Qed.
Lemma last_n_snoc {A} n (l : list A) x : 0 < n -> last_n n (l ++ [x]) = last_n n (last_n n l ++ [x]).
Proof.
  intros Hn. unfold last_n. rewrite !app_length, skipn_length. cbn [List.length].
  rewrite (skipn_app (List.length l + 1 - n) l [x]).
  rewrite (skipn_app _ (skipn (List.length l - n) l)).
  rewrite skipn_plus, skipn_length. f_equal; [f_equal; lia|f_equal; lia].
Qed.
Lemma tee1_spec m ls file tail x : 0 < m -> tail = last_n m ls ->
  tee1 m (file, tail) x = (file ++ x, last_n m (ls ++ [x])).
Proof.
  intros Hm ->. unfold tee1. cbn [fst snd]. f_equal. rewrite (last_n_snoc m ls x Hm).
  set (l := last_n m ls). change (last_n m (l ++ [x])) with (skipn (List.length (l ++ [x]) - m) (l ++ [x])). rewrite app_length. cbn [List.length].
  destruct (Nat.ltb_spec m (List.length l + 1)); [reflexivity|].
  replace (List.length l + 1 - m) with 0 by lia. reflexivity.
Qed.
Lemma tee_spec m : 0 < m -> forall new ls,
  fold_left (tee1 m) new (List.concat ls, last_n m ls) = (List.concat (ls ++ new), last_n m (ls ++ new)).
Proof.
  intros Hm. induction new as [|x new IH]; intros ls; cbn [fold_left]; [now rewrite app_nil_r|].
  rewrite (tee1_spec m ls _ _ x Hm eq_refl).
  replace (List.concat ls ++ x) with (List.concat (ls ++ [x])) by (rewrite concat_app; cbn; now rewrite app_nil_r).
  rewrite IH, <- app_assoc. reflexivity.
Qed.
Lemma capture_spec bytes : stream_to_file_and_buffer bytes = (bytes, last_n 200 (readlines bytes)).
Proof.
  pose proof (tee_spec 200 ltac:(lia) (readlines bytes) []) as H. rewrite app_nil_l, readlines_concat in H. exact H.
Qed.

(** C16 *)
Lemma lower_lit_noise : map lower stderr_noise = [lit "no protocol specified"; lit "mpi_init"; lit "couldn't chdir to"].
Proof. reflexivity. Qed.
Lemma looks_like_spec ln : looks_like_osiris_error ln = true <-> error_line ln.
Proof.
  unfold looks_like_osiris_error, error_line. set (low := lower (strip ln)).
  assert (E : existsb (fun noise => contains (lower noise) low) stderr_noise
              = existsb (fun x => contains x low) (map lower stderr_noise)).
  { unfold stderr_noise. reflexivity. }
  rewrite E, lower_lit_noise. unfold err_tokens. cbn [existsb]. rewrite <- !contains_spec.
  destruct low as [|c low'] eqn:El.
  { split; [discriminate|]. intros ([H|[H|H]] & _); vm_compute in H; discriminate H. }
  rewrite <- El. clearbody low. clear El c low' E.
  destruct (contains (lit "(*warning*)") low), (contains (lit "no protocol specified") low), (contains (lit "mpi_init") low),
    (contains (lit "couldn't chdir to") low), (contains (lit "error") low), (contains (lit "aborting") low), (contains (lit "(*error*)") low);
    cbn; intuition congruence.
Qed.

Lemma failure_spec o : failure o = true <-> run_failed o.
Proof.
  unfold failure, run_failed. rewrite !capture_spec. cbn [snd].
  set (e := last_n 200 (readlines (o_err o))). set (u := last_n 200 (readlines (o_out o))).
  destruct (Z.eqb_spec (o_rc o) 0) as [Hz|Hz]; cbn [negb]; [|tauto].
  destruct (filter looks_like_osiris_error e ++ filter (contains (lit "(*error*)")) u) as [|x l] eqn:E.
  - split; [discriminate|]. apply app_eq_nil in E. destruct E as [E1 E2]. intros [H|[(ln & Hin & H)|(ln & Hin & H)]]; [contradiction| |].
    + apply looks_like_spec in H. assert (In ln (filter looks_like_osiris_error e)) by now apply filter_In. rewrite E1 in *. contradiction.
    + apply contains_spec in H. assert (X : In ln (filter (contains (lit "(*error*)")) u)) by now apply filter_In. rewrite E2 in X. contradiction.
  - split; [intros _|reflexivity]. right. assert (Hx : In x (x :: l)) by now left. rewrite <- E in Hx.
    apply in_app_or in Hx. destruct Hx as [Hx|Hx]; apply filter_In in Hx; destruct Hx as [Hx H].
    + left. exists x. split; [exact Hx|now apply looks_like_spec].
    + right. exists x. split; [exact Hx|now apply contains_spec].
Qed.

Lemma below_spec d p : below d p = true <-> exists mid name, p = d :: mid ++ [name].
Proof.
  unfold below. destruct p as [|x [|y p]].
  - split; [discriminate|intros (mid & name & H); discriminate].
  - split; [discriminate|intros (mid & name & H); destruct mid; discriminate].
  - rewrite str_eqb_eq. split.
    + intros ->. destruct (exists_last (l := y :: p) ltac:(discriminate)) as (mid & name & E). exists mid, name. now rewrite E.
    + intros (mid & name & H). now injection H.
Qed.
Lemma rglob_spec d suffix t : rglob_has d suffix t = true <->
  tlookup [d] t = Some Dir /\ exists mid name n, In (d :: mid ++ [name], n) t /\ exists stem, name = stem ++ suffix.
Proof.
  unfold rglob_has, is_dir. rewrite andb_true_iff, existsb_exists. split.
  - intros [H1 ([p n] & Hin & H2)]. cbn [fst] in H2. apply andb_prop in H2. destruct H2 as [Hb He].
    split; [destruct (tlookup [d] t) as [[|]|]; congruence|]. apply below_spec in Hb. destruct Hb as (mid & name & ->).
    exists mid, name, n. split; [exact Hin|]. apply ends_with_spec in He. rewrite app_comm_cons, last_last in He. exact He.
  - intros [-> (mid & name & n & Hin & Hst)]. split; [reflexivity|]. exists (d :: mid ++ [name], n). split; [exact Hin|]. cbn [fst].
    apply andb_true_intro. split; [apply below_spec; eauto|]. apply ends_with_spec. now rewrite app_comm_cons, last_last.
Qed.
Lemma produced_output_spec t : run_produced_output t = true <-> has_output t.
Proof.
  unfold run_produced_output, has_output. rewrite !orb_true_iff, !rglob_spec. split.
  - intros [[H|H]|H]; [exists (lit "MS"), (lit ".h5")|exists (lit "binary"), (lit ".nc")|exists (lit "HIST"), []]; (split; [cbn; tauto|exact H]).
  - intros (d & sfx & Hin & H). cbn [In] in Hin.
    destruct Hin as [E|[E|[E|[]]]]; injection E as <- <-; tauto.
Qed.

(** C20 *)
Lemma tlookup_in p n t : tlookup p t = Some n -> In (p, n) t.
Proof.
  induction t as [|[q m] t IH]; cbn; [discriminate|]. destruct (path_eqb_spec p q) as [->|Hne]; [intros [= ->]; now left|right; auto].
Qed.
Lemma tlookup_none p t : tlookup p t = None <-> ~ In p (map fst t).
Proof.
  induction t as [|[q m] t IH]; cbn; [tauto|]. destruct (path_eqb_spec p q) as [->|Hne]; [split; [discriminate|tauto]|].
  rewrite IH. intuition congruence.
Qed.
Lemma in_tlookup p n t : NoDup (map fst t) -> In (p, n) t -> tlookup p t = Some n.
Proof.
  induction t as [|[q m] t IH]; cbn; [tauto|]. intros Hnd [H|H]; apply NoDup_cons_iff in Hnd; destruct Hnd as [Hni Hnd].
  - injection H as -> ->. destruct (path_eqb_spec p p); congruence.
  - destruct (path_eqb_spec p q) as [->|Hne]; [|auto]. exfalso. apply Hni. exact (in_map fst _ _ H).
Qed.
Lemma tlookup_app p t u : tlookup p (t ++ u) = match tlookup p t with Some n => Some n | None => tlookup p u end.
Proof. induction t as [|[q m] t IH]; cbn; [reflexivity|]. destruct (path_eqb p q); [reflexivity|exact IH]. Qed.
Lemma tlookup_one p q n : tlookup p [(q, n)] = if path_eqb p q then Some n else None.
Proof. reflexivity. Qed.

Lemma mkdirs_spec : forall ps t, match mkdirs ps t with
  | Some t' => (forall p, In p ps -> tlookup p t <> Some Dir -> tlookup p t = None) /\
               forall p, tlookup p t' = match tlookup p t with Some n => Some n | None => if existsb (path_eqb p) ps then Some Dir else None end
  | None => exists p c, In p ps /\ tlookup p t = Some (File c)
  end.
Proof.
  induction ps as [|q ps IH]; intros t; cbn [mkdirs].
  - split; [intros p []|]. intros p. cbn. destruct (tlookup p t); reflexivity.
  - destruct (tlookup q t) as [[c|]|] eqn:Eq.
    + exists q, c. split; [now left|exact Eq].
    + specialize (IH t). destruct (mkdirs ps t) as [t'|].
      * destruct IH as [I1 I2]. split.
        -- intros p [<-|H] Hne; [congruence|now apply I1].
        -- intros p. rewrite I2. cbn [existsb]. destruct (path_eqb_spec p q) as [->|Hne]; [now rewrite Eq|reflexivity].
      * destruct IH as (p & c & H1 & H2). exists p, c. split; [now right|exact H2].
    + specialize (IH (t ++ [(q, Dir)])). destruct (mkdirs ps (t ++ [(q, Dir)])) as [t'|].
      * destruct IH as [I1 I2]. split.
        -- intros p [<-|H] Hne; [exact Eq|]. specialize (I1 p H). rewrite tlookup_app, tlookup_one in I1.
           destruct (tlookup p t) as [n|]; [|reflexivity]. apply I1. congruence.
        -- intros p. rewrite I2, tlookup_app, tlookup_one. cbn [existsb]. destruct (tlookup p t); [reflexivity|].
           destruct (path_eqb p q); reflexivity.
      * destruct IH as (p & c & H1 & H2). rewrite tlookup_app, tlookup_one in H2. destruct (tlookup p t) as [n|] eqn:Ep.
        -- exists p, c. split; [now right|congruence].
        -- destruct (path_eqb p q); discriminate.
Qed.

(** Nothing that existed is changed, whatever happens. *)
Lemma sync_keeps fault : forall src dst p n, tlookup p dst = Some n -> tlookup p (fst (sync_tree fault src dst)) = Some n.
Proof.
  induction src as [|[q [c|]] src IH]; intros dst p n H; cbn [sync_tree]; [exact H| |now apply IH].
  destruct (tlookup q dst) eqn:Eq; [now apply IH|].
  pose proof (mkdirs_spec (parents q) dst) as Hm. destruct (mkdirs (parents q) dst) as [d|]; [|exact H].
  destruct Hm as [_ Hm]. assert (Hd : tlookup p d = Some n) by (rewrite Hm, H; reflexivity).
  destruct (fault q); [cbn [fst]; now rewrite tlookup_app, Hd|]. apply IH. now rewrite tlookup_app, Hd.
Qed.
(** Every file of the result comes from the destination, from the source, or is a failed copy. *)
Lemma sync_sound fault : forall src dst p c, tlookup p (fst (sync_tree fault src dst)) = Some (File c) ->
  tlookup p dst = Some (File c) \/ In (p, File c) src \/ fault p = Some c.
Proof.
  induction src as [|[q [c'|]] src IH]; intros dst p c H; cbn [sync_tree] in H; [now left| |].
  2:{ destruct (IH _ _ _ H) as [A|[A|A]]; [now left|right; left; now right|right; now right]. }
  destruct (tlookup q dst) eqn:Eq.
  { destruct (IH _ _ _ H) as [A|[A|A]]; [now left|right; left; now right|right; now right]. }
  pose proof (mkdirs_spec (parents q) dst) as Hm. destruct (mkdirs (parents q) dst) as [d|]; [|now left].
  destruct Hm as [_ Hm].
  assert (Hd : forall x, tlookup p (d ++ [(q, File x)]) = Some (File c) -> tlookup p dst = Some (File c) \/ (p = q /\ x = c)).
  { intros x Hx. rewrite tlookup_app, Hm, tlookup_one in Hx. destruct (tlookup p dst) as [m|]; [left; exact Hx|].
    destruct (existsb (path_eqb p) (parents q)); [discriminate|]. destruct (path_eqb_spec p q) as [->|]; [|discriminate]. right. split; congruence. }
  destruct (fault q) as [x|] eqn:Ef.
  - cbn [fst] in H. destruct (Hd _ H) as [A|[-> ->]]; [now left|right; right; exact Ef].
  - destruct (IH _ _ _ H) as [A|[A|A]]; [|right; left; now right|right; now right].
    destruct (Hd _ A) as [B|[-> ->]]; [now left|right; left; now left].
Qed.

Lemma in_parents p q : existsb (path_eqb p) (parents q) = true <-> p <> [] /\ exists r, r <> [] /\ q = p ++ r.
Proof.
  rewrite existsb_exists. unfold parents. split.
  - intros (x & Hin & Hx). destruct (path_eqb_spec p x) as [->|]; [|discriminate]. apply in_map_iff in Hin. destruct Hin as (k & <- & Hk).
    apply in_seq in Hk. split.
    + intros H. apply (f_equal (@List.length str)) in H. rewrite firstn_length in H. cbn in H. lia.
    + exists (skipn k q). split; [|symmetry; apply firstn_skipn]. intros H. apply (f_equal (@List.length str)) in H. rewrite skipn_length in H. cbn in H. lia.
  - intros (Hp & r & Hr & ->). exists p. split; [|destruct (path_eqb_spec p p); congruence].
    apply in_map_iff. exists (List.length p). split; [now rewrite firstn_app, Nat.sub_diag, firstn_all, app_nil_r|].
    rewrite app_length. apply in_seq. destruct p; [congruence|]. destruct r; [congruence|]. cbn [List.length]. lia.
Qed.

(** Where the entries of the result come from. *)
Definition from (dst0 all : tree) (p : path) (n : node) : Prop :=
  tlookup p dst0 = Some n \/ match n with File c => In (p, File c) all | Dir => p <> [] /\ above_file all p end.

Lemma sync_from all dst0 : forall src dst fault, incl src all -> (forall p, fault p = None) ->
  (forall p n, tlookup p dst = Some n -> from dst0 all p n) ->
  forall p n, tlookup p (fst (sync_tree fault src dst)) = Some n -> from dst0 all p n.
Proof.
  induction src as [|[q [c|]] src IH]; intros dst fault Hi Hf Hd p n H; cbn [sync_tree] in H; [now apply Hd| |].
  2:{ eapply IH; [|exact Hf|exact Hd|exact H]. intros x Hx. apply Hi. now right. }
  assert (Hi' : incl src all) by (intros x Hx; apply Hi; now right).
  destruct (tlookup q dst) eqn:Eq; [eapply IH; eassumption|].
  pose proof (mkdirs_spec (parents q) dst) as Hm. destruct (mkdirs (parents q) dst) as [d|]; [|now apply Hd].
  destruct Hm as [_ Hm]. rewrite Hf in H. eapply IH; [exact Hi'|exact Hf| |exact H].
  intros r m Hr. rewrite tlookup_app, Hm, tlookup_one in Hr. destruct (tlookup r dst) as [m'|] eqn:Er; [apply Hd; congruence|].
  destruct (existsb (path_eqb r) (parents q)) eqn:Ep.
  - injection Hr as <-. right. apply in_parents in Ep. destruct Ep as (Hne & t & Ht & E). split; [exact Hne|].
    exists t, c. split; [exact Ht|]. rewrite <- E. apply Hi. now left.
  - destruct (path_eqb_spec r q) as [->|]; [|discriminate]. injection Hr as <-. right. apply Hi. now left.
Qed.

Lemma file_not_above t q c : tree_ok t -> In (q, File c) t -> ~ above_file t q.
Proof.
  intros (Hnd & Hne & Hpar) HF (r & x & Hr & Hin).
  assert (Hq : q <> []) by (eapply Hne; eassumption).
  assert (HD : In (firstn (List.length q) (q ++ r), Dir) t).
  { apply (Hpar (q ++ r) (File x)); [exact Hin|]. rewrite app_length. destruct q; [congruence|]. destruct r; [congruence|]. cbn [List.length]; lia. }
  rewrite firstn_app, Nat.sub_diag, firstn_all in HD. cbn [firstn] in HD. rewrite app_nil_r in HD.
  apply (in_tlookup _ _ _ Hnd) in HD. apply (in_tlookup _ _ _ Hnd) in HF. congruence.
Qed.

Lemma sync_complete all dst0 : tree_ok all ->
  (forall p c, above_file all p -> tlookup p dst0 <> Some (File c)) ->
  forall src dst fault, incl src all -> (forall p, fault p = None) ->
  (forall p n, tlookup p dst = Some n -> from dst0 all p n) ->
  snd (sync_tree fault src dst) = false /\
  forall p c, In (p, File c) src -> tlookup p dst0 = None -> tlookup p (fst (sync_tree fault src dst)) = Some (File c).
Proof.
  intros Hok Hcomp. induction src as [|[q nd] src IH]; intros dst fault Hi Hf Hd; cbn [sync_tree]; [split; [reflexivity|intros p c []]|].
  assert (Hi' : incl src all) by (intros x Hx; apply Hi; now right).
  destruct nd as [c|].
  2:{ destruct (IH dst fault Hi' Hf Hd) as [I1 I2]. split; [exact I1|]. intros p x [H|H]; [discriminate|now apply I2]. }
  assert (Hq : In (q, File c) all) by (apply Hi; now left).
  destruct (tlookup q dst) as [m|] eqn:Eq.
  - destruct (IH dst fault Hi' Hf Hd) as [I1 I2]. split; [exact I1|]. intros p x [H|H] Hp; [|now apply I2].
    injection H as <- <-. apply sync_keeps. rewrite Eq. f_equal. destruct (Hd _ _ Eq) as [A|A]; [congruence|]. destruct m as [y|].
    + pose proof (in_tlookup _ _ _ (proj1 Hok) A) as B. pose proof (in_tlookup _ _ _ (proj1 Hok) Hq) as C. congruence.
    + exfalso. eapply file_not_above; [exact Hok|exact Hq|apply A].
  - pose proof (mkdirs_spec (parents q) dst) as Hm. destruct (mkdirs (parents q) dst) as [d|] eqn:Em.
    + destruct Hm as [Hm0 Hm]. rewrite Hf.
      assert (Hd' : forall p n, tlookup p (d ++ [(q, File c)]) = Some n -> from dst0 all p n).
      { intros r m Hr. rewrite tlookup_app, Hm, tlookup_one in Hr. destruct (tlookup r dst) as [m'|] eqn:Er; [apply Hd; congruence|].
        destruct (existsb (path_eqb r) (parents q)) eqn:Ep.
        - injection Hr as <-. right. apply in_parents in Ep. destruct Ep as (Hne & t & Ht & E). split; [exact Hne|].
          exists t, c. split; [exact Ht|]. now rewrite <- E.
        - destruct (path_eqb_spec r q) as [->|]; [|discriminate]. injection Hr as <-. right. exact Hq. }
      destruct (IH _ fault Hi' Hf Hd') as [I1 I2]. split; [exact I1|]. intros p x [H|H] Hp; [|now apply I2].
      injection H as <- <-. apply sync_keeps. rewrite tlookup_app, Hm, Eq, tlookup_one.
      destruct (existsb (path_eqb q) (parents q)) eqn:Ep.
      * apply in_parents in Ep. destruct Ep as (_ & r & Hr & E). exfalso. apply (f_equal (@List.length str)) in E.
        rewrite app_length in E. destruct r; [congruence|]. cbn [List.length] in E. lia.
      * destruct (path_eqb_spec q q); congruence.
    + exfalso. destruct Hm as (p & x & Hp & Hpx).
      assert (Hab : p <> [] /\ above_file all p).
      { assert (E : existsb (path_eqb p) (parents q) = true) by (apply existsb_exists; exists p; split; [exact Hp|destruct (path_eqb_spec p p); congruence]).
        apply in_parents in E. destruct E as (Hne & r & Hr & E). split; [exact Hne|]. exists r, c. split; [exact Hr|]. now rewrite <- E. }
      destruct (Hd _ _ Hpx) as [A|A]; [eapply Hcomp; [apply Hab|exact A]|].
      eapply file_not_above; [exact Hok|exact A|apply Hab].
Qed.
