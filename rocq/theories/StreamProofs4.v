(** Accesses and crash points (C11, C12, C13) and the batch conversion. *)
From Verif Require Import Stream StreamSpec StreamProofs StreamProofs2 StreamProofs3.
From Coq Require Import ZifyBool ZifyNat Sorted Permutation.

Section C.
Context {D : sdom} (load : loader (D := D)).
Notation writer := (Stream.writer (D := D)).
Notation ncfile := (Stream.ncfile (D := D)).
Notation row := (Stream.row (D := D)).
Notation fs := (Stream.fs (D := D)).
Notation st := (Stream.st (D := D)).
Notation dump := (Z * d_file D)%type.

(** Staging with mirroring, or no staging at all. *)

Definition good (c : conf) (q hb : list dump) (f : fs) : Prop :=
  dirs q hb f /\ (keeps c -> forall d, In d (q ++ hb) -> on_disk f d).
Definition ev_ok (q : list dump) (e : event) : Prop := is_peek e = true \/ exists x, In (ev_iter e, x) q.
Record tgood (c : conf) (q hb : list dump) (s : st) : Prop := {
  tg_num : numbered (q ++ hb);
  tg_f : good c q hb (s_fs s);
  tg_t : Forall (good c q hb) (s_trace s);
  tg_e : Forall (ev_ok q) (s_ev s)
}.

Lemma good_ext c q hb f g : f_scratch g = f_scratch f -> f_persist g = f_persist f -> f_bad g = f_bad f ->
  good c q hb f -> good c q hb g.
Proof.
  intros Hs Hp Hb [H1 H2]. split.
  - constructor; rewrite ?Hs, ?Hp; apply H1.
  - intros K d Hd. unfold on_disk. rewrite Hs, Hp, Hb. now apply H2.
Qed.
Lemma tg_do c q hb g s : tgood c q hb s -> good c q hb (g (s_fs s)) -> tgood c q hb (do_fs g s).
Proof. intros [H1 H2 H3 H4] H. constructor; cbn; try assumption. now constructor. Qed.
Lemma tg_emit c q hb e s : tgood c q hb s -> ev_ok q e -> tgood c q hb (emit e s).
Proof. intros [H1 H2 H3 H4] H. constructor; cbn; try assumption. now constructor. Qed.
Lemma tg_ctl c q hb (s s' : st) : s_fs s' = s_fs s -> s_trace s' = s_trace s -> s_ev s' = s_ev s -> tgood c q hb s -> tgood c q hb s'.
Proof. intros E1 E2 E3 [H1 H2 H3 H4]. constructor; rewrite ?E1, ?E2, ?E3; assumption. Qed.
Ltac ctl := repeat match goal with
  | |- tgood ?c ?q ?hb (set_w _ ?s) => apply (tg_ctl c q hb s); [reflexivity|reflexivity|reflexivity|]
  | |- tgood ?c ?q ?hb (set_fl _ ?s) => apply (tg_ctl c q hb s); [reflexivity|reflexivity|reflexivity|]
  | |- tgood ?c ?q ?hb (set_completed ?s) => apply (tg_ctl c q hb s); [reflexivity|reflexivity|reflexivity|]
  | |- tgood ?c ?q ?hb (set_is_raw _ ?s) => apply (tg_ctl c q hb s); [reflexivity|reflexivity|reflexivity|]
  end.
Lemma tg_put c q hb a s : tgood c q hb s -> tgood c q hb (put_lres a s).
Proof.
  intros H. unfold put_lres. ctl.
  generalize (l_states a) as l. intros l. revert s H. induction l as [|g l IH]; intros s H; [exact H|].
  cbn [fold_left]. apply IH. apply tg_do; [exact H|]. eapply good_ext; [| | |apply H]; reflexivity.
Qed.

Lemma in_q_of_scratch q hb i x y (f : fs) : numbered (q ++ hb) -> dirs q hb f -> In (i, x) q -> lookup i (f_scratch f) = Some y -> x = y.
Proof.
  intros Hn Hd Hq Hl. apply lookup_in in Hl. apply (di_s _ _ _ Hd) in Hl.
  eapply key_unique; [apply (num_nodup q hb Hn)|apply in_or_app; left; exact Hq|exact Hl].
Qed.

Lemma good_publish c q hb i x f p : numbered (q ++ hb) -> In (i, x) q -> good c q hb f ->
  lookup i (f_scratch f) = Some x -> lookup i (f_persist f) = None ->
  good c q hb (set_parts p (set_dir Persist (f_persist f ++ [(i, x)]) f)).
Proof.
  intros Hn Hq [Hd Ho] Hs Hp. split.
  - constructor; cbn; try apply Hd.
    + intros d Hin. apply in_app_or in Hin. destruct Hin as [Hin|[<-|[]]]; [now apply (di_p _ _ _ Hd)|exact Hq].
    + apply nodup_snoc; [apply Hd|exact Hp].
  - intros K d Hin. destruct (Ho K d Hin) as [A|[A|A]]; [now left|right; left; cbn; apply in_or_app; now left|right; now right].
Qed.
Lemma good_unlink c q hb i x f : numbered (q ++ hb) -> In (i, x) q -> good c q hb f ->
  (keeps c -> exists y, lookup i (f_persist f) = Some y) -> good c q hb (set_dir Scratch (remove i (f_scratch f)) f).
Proof.
  intros Hn Hq [Hd Ho] Hp. split.
  - constructor; cbn; try apply Hd.
    + intros [j y] Hin. apply in_remove in Hin. now apply (di_s _ _ _ Hd).
    + apply increasing_filter. apply Hd.
    + intros [j y] Hin. apply in_remove. split; [now apply (di_hb _ _ _ Hd)|]. intros ->. eapply num_disj; eassumption.
  - intros K [j y] Hin. destruct (Ho K _ Hin) as [A|[A|A]]; [|right; now left|right; now right].
    destruct (Z.eq_dec j i) as [->|Hne]; [|left; cbn; apply in_remove; now split].
    right; left. cbn. destruct (Hp K) as (z & Hz). apply lookup_in in Hz.
    assert (z = y); [|now subst]. eapply key_unique; [apply (num_nodup q hb Hn)| |exact Hin].
    apply in_or_app; left. now apply (di_p _ _ _ Hd).
Qed.

Lemma tg_reap c q hb e i x m s : In (i, x) q -> (keeps c -> c_staged c = true -> m = true) -> tgood c q hb s -> tgood c q hb (reap c e i m s).
Proof.
  intros Hq Hm H. unfold reap. destruct (c_staged c) eqn:Est; cbn [negb]; [|exact H].
  destruct (lookup i (f_scratch (s_fs s))) as [y|] eqn:Ey; [|exact H].
  assert (Exy : x = y) by (eapply in_q_of_scratch; [apply H|apply H|exact Hq|exact Ey]). subst y.
  assert (Hev : ev_ok q (EvDelete Scratch i)) by (right; now exists x).
  set (r := if m then _ else _).
  assert (Hr : tgood c q hb (fst r) /\ (snd r = true -> keeps c -> exists y, lookup i (f_persist (s_fs (fst r))) = Some y)).
  { unfold r. destruct m.
    - destruct (lookup i (f_persist (s_fs s))) as [y|] eqn:Ep.
      + cbn [fst snd]. split; [exact H|]. intros _ _. now exists y.
      + cbv zeta.
        assert (H0 : tgood c q hb (emit (EvCopy i) s)) by (apply tg_emit; [exact H|right; now exists x]).
        assert (H1 : tgood c q hb (do_fs (fun f => set_parts ((i, None) :: remove i (f_parts f)) f) (emit (EvCopy i) s))).
        { apply tg_do; [exact H0|]. eapply good_ext; [| | |apply H]; reflexivity. }
        set (sp := do_fs (fun f => set_parts ((i, None) :: remove i (f_parts f)) f) (emit (EvCopy i) s)) in *.
        assert (H2 : tgood c q hb (do_fs (fun f => set_parts ((i, Some x) :: remove i (f_parts f)) f) sp)).
        { apply tg_do; [exact H1|]. eapply good_ext; [| | |apply H]; reflexivity. }
        set (sf := do_fs (fun f => set_parts ((i, Some x) :: remove i (f_parts f)) f) sp) in *.
        assert (H3 : tgood c q hb (do_fs (fun f => set_parts (remove i (f_parts f)) (set_dir Persist (f_persist f ++ [(i, x)]) f)) sf)).
        { apply tg_do; [exact H2|]. apply good_publish; [apply H|exact Hq|apply H2|exact Ey|exact Ep]. }
        assert (H4 : exists y, lookup i (f_persist (s_fs (do_fs (fun f => set_parts (remove i (f_parts f)) (set_dir Persist (f_persist f ++ [(i, x)]) f)) sf))) = Some y).
        { cbn. rewrite lookup_app, Ep. cbn. rewrite Z.eqb_refl. now exists x. }
        destruct (e_reap e i); cbn [fst snd]; (split; [assumption|]); first [intros _ _; exact H4|discriminate].
    - cbn [fst snd]. split; [exact H|]. intros _ K. specialize (Hm K eq_refl). discriminate. }
  destruct r as [s1 ok]. cbn [fst snd] in Hr. destruct Hr as [H1 Hok]. destruct ok; [|exact H1].
  assert (H2 : tgood c q hb (do_fs (fun f => set_dir Scratch (remove i (f_scratch f)) f) (emit (EvDelete Scratch i) s1))).
  { apply tg_do; [apply tg_emit; assumption|]. eapply good_unlink; [apply H1|exact Hq|apply H1|]. intros K. exact (Hok eq_refl K). }
  destruct (e_reap e i); assumption.
Qed.

Lemma tg_cleanup c q hb e l i x s : In (i, x) q -> tgood c q hb s -> tgood c q hb (cleanup_consumed c e l i s).
Proof.
  intros Hq H. unfold cleanup_consumed. destruct (c_staged c) eqn:Est; cbn [negb]; [|exact H]. destruct l.
  - eapply tg_reap; [exact Hq| |exact H]. intros [K|K] _; [congruence|]. now rewrite K.
  - destruct (c_discard c && e_unlink e i) eqn:E; [|exact H]. apply andb_prop in E. destruct E as [E _].
    apply tg_do; [apply tg_emit; [exact H|right; now exists x]|]. destruct (tg_f _ _ _ _ H) as [Hd Ho]. split.
    + constructor; cbn; try apply Hd.
      * intros [j y] Hin. apply in_remove in Hin. now apply (di_p _ _ _ Hd).
      * apply nodup_remove. apply Hd.
    + intros [K|K]; congruence.
Qed.

Lemma tg_quarantine c q hb e l i x s : In (i, x) q -> tgood c q hb s -> tgood c q hb (quarantine e l i s).
Proof.
  intros Hq H. unfold quarantine. destruct (lookup i (dir_of l (s_fs s))) as [y|] eqn:Ey; [|eapply tg_ctl; [| | |exact H]; reflexivity].
  destruct (e_rename e l i); [|eapply tg_ctl; [| | |exact H]; reflexivity].
  apply tg_do; [apply tg_emit; [exact H|right; now exists x]|]. destruct (tg_f _ _ _ _ H) as [Hd Ho]. cbn [emit s_fs].
  pose proof (tg_num _ _ _ _ H) as Hn.
  split.
  - destruct l; cbn; constructor; cbn; try apply Hd.
    + intros [j z] Hin. apply in_remove in Hin. now apply (di_s _ _ _ Hd).
    + apply increasing_filter. apply Hd.
    + intros [j z] Hin. apply in_remove. split; [now apply (di_hb _ _ _ Hd)|]. intros ->. eapply num_disj; eassumption.
    + intros [j z] Hin. apply in_remove in Hin. now apply (di_p _ _ _ Hd).
    + apply nodup_remove. apply Hd.
  - intros K [j z] Hin.
    assert (Hz : j = i -> z = y).
    { intros ->. assert (In (i, y) (q ++ hb)).
      { destruct l; cbn [dir_of] in Ey; apply lookup_in in Ey; [now apply (di_s _ _ _ Hd)|apply in_or_app; left; now apply (di_p _ _ _ Hd)]. }
      eapply key_unique; [apply (num_nodup q hb Hn)|exact Hin|assumption]. }
    destruct (Z.eq_dec j i) as [->|Hne].
    + right; right. exists l. cbn [fst snd]. rewrite (Hz eq_refl). destruct l; cbn; now left.
    + destruct (Ho K _ Hin) as [A|[A|(l' & A)]].
      * left. destruct l; cbn; [apply in_remove; now split|exact A].
      * right; left. destruct l; cbn; [exact A|apply in_remove; now split].
      * right; right. exists l'. destruct l; cbn; now right.
Qed.

Definition keys_in (q : list dump) (cands : list (loc * Z)) : Prop := Forall (fun p => exists x, In (snd p, x) q) cands.

Lemma tg_consume c q hb e : forall cands s, keys_in q cands -> tgood c q hb s -> tgood c q hb (fst (consume load c e cands s)).
Proof.
  induction cands as [|[l i] r IH]; intros s Hk H; [exact H|]. apply Forall_cons_iff in Hk. destruct Hk as [[x Hx] Hk]. cbn [snd] in Hx.
  cbn [consume]. destruct (s_w s) as [w|]; [|exact H]. destruct (i <=? w_last w)%Z.
  - apply IH; [exact Hk|]. eapply tg_cleanup; eassumption.
  - unfold load_file. assert (H1 : tgood c q hb (emit (EvRead l i) s)) by (apply tg_emit; [exact H|right; now exists x]).
    destruct (match lookup i (dir_of l (s_fs s)) with Some x0 => load i x0 | None => None end) as [da|].
    + cbv zeta. set (a := append _ _ _ _). destruct (l_raised a).
      * cbn [fst]. now apply tg_put.
      * apply IH; [exact Hk|]. eapply tg_cleanup; [exact Hx|]. now apply tg_put.
    + apply IH; [exact Hk|]. eapply tg_quarantine; eassumption.
Qed.

Lemma tg_open_writer c q hb e : forall cands s, keys_in q cands -> tgood c q hb s ->
  tgood c q hb (fst (fst (open_writer load c e cands s))) /\ keys_in q (snd (fst (open_writer load c e cands s))).
Proof.
  induction cands as [|[l i] r IH]; intros s Hk H; [split; [exact H|constructor]|].
  pose proof Hk as Hk0. apply Forall_cons_iff in Hk. destruct Hk as [[x Hx] Hk]. cbn [snd] in Hx.
  cbn [open_writer]. unfold load_file. assert (H1 : tgood c q hb (emit (EvRead l i) s)) by (apply tg_emit; [exact H|right; now exists x]).
  destruct (match lookup i (dir_of l (s_fs s)) with Some x0 => load i x0 | None => None end) as [t|].
  - destruct (open_nc (c_ct c) t (f_nc (s_fs (emit (EvRead l i) s)))) as [w f]. cbv zeta.
    set (s2 := set_w (Some w) (do_fs (set_nc (Some f)) (emit (EvRead l i) s))).
    assert (H2 : tgood c q hb s2).
    { unfold s2. ctl. apply tg_do; [exact H1|].
      eapply good_ext; [| | |apply H]; reflexivity. }
    destruct (n_written w =? 0); [|split; [exact H2|exact Hk0]].
    set (a := append _ _ _ _). destruct (l_raised a); cbn [fst snd]; (split; [|exact Hk]).
    + now apply tg_put.
    + eapply tg_cleanup; [exact Hx|]. now apply tg_put.
  - apply IH; [exact Hk|]. eapply tg_quarantine; eassumption.
Qed.

Lemma tg_stream c q hb e final cands s : keys_in q cands -> tgood c q hb s ->
  tgood c q hb (fst (stream_candidates load c e final cands s)).
Proof.
  intros Hk H. unfold stream_candidates. destruct cands as [|cd cs] eqn:Ec; [exact H|]. rewrite <- Ec in *. clear Ec.
  set (r := match s_w s with Some _ => (s, cands, false) | None => open_writer load c e cands s end).
  assert (Hr : tgood c q hb (fst (fst r)) /\ keys_in q (snd (fst r))).
  { unfold r. destruct (s_w s); [split; assumption|]. now apply tg_open_writer. }
  destruct r as [[s1 cands1] raised]. cbn [fst snd] in Hr. destruct Hr as [H1 Hk1]. destruct raised; [exact H1|].
  destruct (s_w s1); [|exact H1].
  pose proof (tg_consume c q hb e cands1 s1 Hk1 H1) as H2. destruct (consume load c e cands1 s1) as [s2 raised2]. cbn [fst] in H2.
  destruct raised2; [exact H2|]. destruct (s_w s2) as [w2|]; [|exact H2]. cbv zeta.
  set (fr := flush _ _ _). assert (H3 := tg_put c q hb fr s2 H2). destruct (l_raised fr); [exact H3|]. destruct final; [|exact H3].
  set (cr := close _ _ _). assert (H4 := tg_put c q hb cr _ H3). destruct (l_raised cr); [exact H4|].
  eapply tg_ctl; [| | |exact H4]; reflexivity.
Qed.

Lemma tg_reaps c q hb e : forall (is : list Z) s, Forall (fun i => exists x, In (i, x) q) is -> tgood c q hb s ->
  tgood c q hb (fold_left (fun s i => reap c e i true s) is s).
Proof.
  induction is as [|i is IH]; intros s Hf H; [exact H|]. apply Forall_cons_iff in Hf. destruct Hf as [[x Hx] Hf].
  cbn [fold_left]. apply IH; [exact Hf|]. eapply tg_reap; [exact Hx| |exact H]. reflexivity.
Qed.
Lemma fold_snd c e (ps : list (loc * Z)) : forall s : st,
  fold_left (fun s p => reap c e (snd p) true s) ps s = fold_left (fun s i => reap c e i true s) (map snd ps) s.
Proof. induction ps as [|p ps IH]; intros s; [reflexivity|]. cbn [fold_left map]. apply IH. Qed.

(** Which keys a drain may handle. *)
Lemma removelast_in {A} (l : list A) x : In x (removelast l) -> In x l.
Proof. induction l as [|y l IH]; cbn; [tauto|]. destruct l; [tauto|]. intros [->|H]; [now left|right; now apply IH]. Qed.
Lemma removelast_filter_app {A} (p : A -> bool) l h x : In x (removelast (filter p (l ++ [h]))) -> In x (filter p l).
Proof.
  rewrite filter_app. cbn [filter]. destruct (p h); [now rewrite removelast_last|]. rewrite app_nil_r. apply removelast_in.
Qed.

Definition safe_split (final : bool) (q hb : list dump) : Prop :=
  if final then hb = [] else (q = [] /\ hb = []) \/ exists h, hb = [h].

Lemma safe_keys final q hb (f : fs) (p : loc * Z -> bool) : numbered (q ++ hb) -> dirs q hb f -> safe_split final q hb ->
  keys_in q (let dumps := filter p (map (fun i => (Scratch, i)) (sort_dumps (f_scratch f))) in if final then dumps else removelast dumps).
Proof.
  intros Hn Hd Hsp. cbv zeta. rewrite (sort_dumps_id _ (di_ss _ _ _ Hd)). unfold keys_in. rewrite Forall_forall. intros [l i] Hin. cbn [snd].
  assert (G : forall pre, (forall d, In d pre -> In d q) -> In (l, i) (filter p (map (fun i : Z => (Scratch, i)) (map fst pre))) -> exists x, In (i, x) q).
  { intros pre Hp Hi. apply filter_In in Hi. destruct Hi as [Hi _]. apply in_map_iff in Hi. destruct Hi as (k & [= <- <-] & Hk).
    apply in_map_iff in Hk. destruct Hk as ([k' x] & E & Hk). cbn in E. subst k'. exists x. now apply Hp. }
  destruct final; cbn [safe_split] in Hsp.
  - subst hb. apply (G (f_scratch f)); [|exact Hin]. intros d Hi. apply (di_s _ _ _ Hd) in Hi. now rewrite app_nil_r in Hi.
  - destruct Hsp as [[-> ->]|[h ->]].
    + apply removelast_in in Hin. apply (G (f_scratch f)); [|exact Hin]. intros d Hi. apply (di_s _ _ _ Hd) in Hi. destruct Hi.
    + destruct (scratch_last q h f Hn Hd) as (pre & Epre & Hpre). rewrite Epre, !map_app in Hin. cbn [map] in Hin.
      apply removelast_filter_app in Hin. now apply (G pre).
Qed.

Lemma tg_drain_grid c q hb e final s : safe_split final q hb -> tgood c q hb s -> tgood c q hb (fst (drain_grid load c e final s)).
Proof.
  intros Hsp H. unfold drain_grid. destruct (e_list_raises e); [exact H|]. cbv zeta.
  pose proof (safe_keys final q hb (s_fs s) (fun p => negb (is_bad s p)) (tg_num _ _ _ _ H) (proj1 (tg_f _ _ _ _ H)) Hsp) as Hk. cbv zeta in Hk.
  set (safe := if final then _ else _) in *.
  destruct (c_staged c && negb final && _).
  - cbn [fst]. rewrite fold_snd. apply tg_reaps; [|eapply tg_ctl; [| | |exact H]; reflexivity].
    rewrite Forall_forall. intros i Hi. apply in_map_iff in Hi. destruct Hi as (p & <- & Hp). unfold keys_in in Hk. rewrite Forall_forall in Hk. now apply Hk.
  - apply tg_stream; [|exact H]. destruct (final && c_staged c && s_spilled s); [|exact Hk].
    unfold keys_in in *. rewrite Forall_forall in *. intros p Hp. apply (Permutation_in _ (Permutation_sym (sort_by_perm snd _))) in Hp.
    apply in_app_or in Hp. destruct Hp as [Hp|Hp]; [|now apply Hk]. apply filter_In in Hp. destruct Hp as [Hp _].
    apply in_map_iff in Hp. destruct Hp as (k & <- & Hkk). apply (proj1 (sort_dumps_in _ _)) in Hkk. apply in_map_iff in Hkk. destruct Hkk as ([k' x] & E & Hin).
    cbn in E. subst k'. exists x. cbn. apply (di_p _ _ _ (proj1 (tg_f _ _ _ _ H))). exact Hin.
Qed.

Lemma tg_drain_raw c q hb e final s : safe_split final q hb -> tgood c q hb s -> tgood c q hb (fst (drain_raw c e final s)).
Proof.
  intros Hsp H. unfold drain_raw. destruct (e_list_raises e); [exact H|]. cbv zeta.
  pose proof (safe_keys final q hb (s_fs s) (fun _ => true) (tg_num _ _ _ _ H) (proj1 (tg_f _ _ _ _ H)) Hsp) as Hk. cbv zeta in Hk.
  assert (Hall : forall l : list (loc * Z), filter (fun _ => true) l = l) by (induction l; cbn; congruence).
  rewrite Hall in Hk.
  destruct (sort_dumps (f_scratch (s_fs s))) as [|i0 is0] eqn:Es; [exact H|]. rewrite <- Es in *. clear Es.
  assert (Hr : tgood c q hb (fold_left (fun s i => reap c e i true s)
      (if final then sort_dumps (f_scratch (s_fs s)) else removelast (sort_dumps (f_scratch (s_fs s)))) s)).
  { apply tg_reaps; [|exact H]. unfold keys_in in Hk. rewrite Forall_forall in *. intros i Hi.
    apply (Hk (Scratch, i)). destruct final; [now apply in_map with (f := fun i => (Scratch, i))|].
    clear - Hi. induction (sort_dumps (f_scratch (s_fs s))) as [|a l IH]; [destruct Hi|]. cbn [removelast map] in *.
    destruct l; [destruct Hi|]. cbn [map] in *. destruct Hi as [->|Hi]; [now left|right; now apply IH]. }
  destruct final; cbn [fst]; [eapply tg_ctl; [| | |exact Hr]; reflexivity|exact Hr].
Qed.

Lemma tg_scan c q hb e final s : safe_split final q hb -> tgood c q hb s -> tgood c q hb (scan_once load c e final s).
Proof.
  intros Hsp H. unfold scan_once. destruct (f_scratch (s_fs s)); [exact H|].
  destruct (s_completed s || s_raw_completed s); [exact H|].
  assert (Hc : tgood c q hb (fst (classify c s))).
  { unfold classify. destruct (s_is_raw s); [exact H|]. destruct (c_raw_rel c); [eapply tg_ctl; [| | |exact H]; reflexivity|].
    destruct (sort_dumps (f_scratch (s_fs s))); [eapply tg_ctl; [| | |exact H]; reflexivity|]. cbn [fst].
    ctl. apply tg_emit; [exact H|]. now left. }
  destruct (classify c s) as [s0 raw]. cbn [fst] in Hc.
  set (r := if raw then _ else _).
  assert (Hr : tgood c q hb (fst r)).
  { unfold r. destruct raw; [destruct (c_staged c); [now apply tg_drain_raw|exact Hc]|now apply tg_drain_grid]. }
  destruct r as [s1 raised]. cbn [fst] in Hr. destruct raised; [|exact Hr]. destruct (s_w s1); [|exact Hr].
  ctl. now apply tg_put.
Qed.

Lemma good_final c q hb f : good c q hb f -> good c (q ++ hb) [] f.
Proof.
  intros [Hd Ho]. split; [|now rewrite app_nil_r]. constructor; try apply Hd; rewrite ?app_nil_r; try apply Hd; [|intros d []].
  intros d Hin. apply in_or_app; left. now apply (di_p _ _ _ Hd).
Qed.

Lemma tg_finalize c q hb e b s : tgood c q hb s -> s_trace s = [] -> s_ev s = [] ->
  tgood c (q ++ hb) [] (finalize load c e b s).
Proof.
  intros [H1 H2 _ _] Ht He.
  assert (H : tgood c (q ++ hb) [] s).
  { constructor; [now rewrite app_nil_r|now apply good_final|rewrite Ht; constructor|rewrite He; constructor]. }
  unfold finalize. set (s1 := if b then s else scan_once load c e true s).
  assert (Hs1 : tgood c (q ++ hb) [] s1) by (unfold s1; destruct b; [exact H|now apply tg_scan]).
  cbv zeta. destruct (s_w s1); [|exact Hs1]. ctl. now apply tg_put.
Qed.

Lemma tg_run c fl ops : numbered (produced ops) ->
  exists q hb, produced ops = q ++ hb /\ safe_split false q hb /\ good c q hb (s_fs (run load c fl ops)).
Proof.
  induction ops as [|o ops IH] using rev_ind; intros Hn.
  - exists [], []. split; [reflexivity|]. split; [now left|]. split; [constructor; cbn; try tauto; constructor|]. intros _ d [].
  - destruct (IH (numbered_snoc_inv ops o Hn)) as (q & hb & Ep & Hsp & Hg). pose proof (numbered_snoc_inv ops o Hn) as Hn0.
    unfold run in *. rewrite fold_left_app. cbn [fold_left]. set (s := fold_left (step load c) ops (init_st fl)) in *.
    rewrite produced_snoc in *. destruct o as [i x|x|e|]; cbn [produce1 step] in *.
    + exists (q ++ hb), [(i, x)]. rewrite Ep in *. split; [reflexivity|]. split; [right; now exists (i, x)|].
      destruct Hg as [Hd Ho].
      assert (Hlt : forall j y, In (j, y) (q ++ hb) -> (j < i)%Z).
      { intros j y Hin. destruct Hn as [Hn _]. rewrite map_app in Hn. apply increasing_app in Hn. destruct Hn as (_ & _ & Hn).
        apply (Hn j i); [apply (in_map fst _ _ Hin)|now left]. }
      split.
      * cbn. constructor; cbn [f_scratch f_persist].
        -- intros d Hin. apply in_app_or in Hin. apply in_or_app. destruct Hin as [Hin|Hin]; [left; now apply (di_s _ _ _ Hd)|now right].
        -- rewrite map_app. apply increasing_app. split; [apply Hd|]. split; [cbn; split; [constructor|exact I]|].
           intros a b Ha [<-|[]]. apply in_map_iff in Ha. destruct Ha as ([a' y] & <- & Ha). cbn [fst].
           eapply Hlt. apply (di_s _ _ _ Hd). exact Ha.
        -- intros d Hin. apply in_or_app; left. now apply (di_p _ _ _ Hd).
        -- apply Hd.
        -- intros d Hin. apply in_or_app; now right.
      * intros K d Hin. apply in_app_or in Hin. destruct Hin as [Hin|Hin].
        -- destruct (Ho K d Hin) as [A|[A|A]]; [left; cbn; apply in_or_app; now left|right; now left|right; now right].
        -- left. cbn. apply in_or_app; now right.
    + destruct Hsp as [[-> ->]|[[j y] ->]].
      * exists [], []. rewrite Ep. split; [reflexivity|]. split; [now left|]. destruct Hg as [Hd Ho].
        assert (Es : f_scratch (s_fs s) = []).
        { destruct (f_scratch (s_fs s)) as [|d ds] eqn:E; [reflexivity|exfalso].
          assert (Hin : In d ([] ++ [])) by (apply (di_s _ _ _ Hd); rewrite E; now left). destruct Hin. }
        split; [|intros _ d []]. cbn. rewrite Es. constructor; cbn; try tauto; apply Hd.
      * rewrite Ep in *. destruct Hg as [Hd Ho]. destruct (scratch_last q (j, y) _ Hn0 Hd) as (pre & Epre & Hpre).
        rewrite rev_app_distr in *. cbn [rev app] in *. rewrite rev_involutive in *.
        exists q, [(j, x)]. split; [reflexivity|]. split; [right; now exists (j, x)|]. split.
        -- cbn. rewrite Epre, rewrite_last_app. constructor; cbn [f_scratch f_persist].
           ++ intros d Hin. apply in_app_or in Hin. apply in_or_app. destruct Hin as [Hin|Hin]; [left; now apply Hpre|now right].
           ++ pose proof (di_ss _ _ _ Hd) as Hs. rewrite Epre in Hs. rewrite map_app in *. exact Hs.
           ++ apply Hd.
           ++ apply Hd.
           ++ intros d Hin. apply in_or_app; now right.
        -- intros K d Hin. unfold on_disk. cbn. rewrite Epre, rewrite_last_app. apply in_app_or in Hin. destruct Hin as [Hin|Hin].
           ++ destruct (Ho K d ltac:(apply in_or_app; now left)) as [A|A]; [left|now right]. rewrite Epre in A.
              apply in_app_or in A. apply in_or_app. destruct A as [A|[<-|[]]]; [now left|]. exfalso. eapply num_disj; [exact Hn0|exact Hin|now left].
           ++ left. apply in_or_app; now right.
    + exists q, hb. split; [exact Ep|]. split; [exact Hsp|].
      assert (Ht : tgood c q hb (start_op s)) by (constructor; cbn; [now rewrite <- Ep|exact Hg|constructor|constructor]).
      apply (tg_scan c q hb e false _ Hsp Ht).
    + exists q, hb. split; [exact Ep|]. split; [exact Hsp|exact Hg].
Qed.

(** The states and accesses of one scan / of finalize. *)
Lemma scan_trace c fl ops e : numbered (produced ops) ->
  exists q hb, produced ops = q ++ hb /\ safe_split false q hb /\ tgood c q hb (step load c (run load c fl ops) (Scan e)).
Proof.
  intros Hn. destruct (tg_run c fl ops Hn) as (q & hb & Ep & Hsp & Hg). exists q, hb. split; [exact Ep|]. split; [exact Hsp|].
  cbn [step]. apply tg_scan; [exact Hsp|]. constructor; cbn; [now rewrite <- Ep|exact Hg|constructor|constructor].
Qed.
Lemma finalize_trace c fl ops e b : numbered (produced ops) ->
  tgood c (produced ops) [] (finalize load c e b (start_op (run load c fl ops))).
Proof.
  intros Hn. destruct (tg_run c fl ops Hn) as (q & hb & Ep & Hsp & Hg). rewrite Ep. apply tg_finalize; [|reflexivity|reflexivity].
  constructor; cbn; [now rewrite <- Ep|exact Hg|constructor|constructor].
Qed.

(** C12, mirroring. *)
Lemma never_lost c fl ops : numbered (produced ops) -> keeps c ->
  (forall e f, In f (s_fs (step load c (run load c fl ops) (Scan e)) :: s_trace (step load c (run load c fl ops) (Scan e))) ->
     forall d, In d (produced ops) -> on_disk f d) /\
  (forall e b f, let s := finalize load c e b (start_op (run load c fl ops)) in In f (s_fs s :: s_trace s) ->
     forall d, In d (produced ops) -> on_disk f d).
Proof.
  intros Hn K. split.
  - intros e f Hin d Hd. destruct (scan_trace c fl ops e Hn) as (q & hb & Ep & _ & H). rewrite Ep in Hd.
    destruct Hin as [<-|Hin]; [apply (proj2 (tg_f _ _ _ _ H)); assumption|].
    pose proof (tg_t _ _ _ _ H) as Ht. rewrite Forall_forall in Ht. apply (proj2 (Ht f Hin)); assumption.
  - intros e b f s Hin d Hd. pose proof (finalize_trace c fl ops e b Hn) as H. fold s in H.
    assert (Hd' : In d (produced ops ++ [])) by now rewrite app_nil_r.
    destruct Hin as [<-|Hin]; [apply (proj2 (tg_f _ _ _ _ H)); assumption|].
    pose proof (tg_t _ _ _ _ H) as Ht. rewrite Forall_forall in Ht. apply (proj2 (Ht f Hin)); assumption.
Qed.

(** C11. *)
Lemma newest_untouched c fl ops e : numbered (produced ops) -> forall pre i x, produced ops = pre ++ [(i, x)] ->
  forall ev, In ev (s_ev (step load c (run load c fl ops) (Scan e))) -> is_peek ev = false -> (ev_iter ev < i)%Z.
Proof.
  intros Hn pre i x E ev Hin Hpk. destruct (scan_trace c fl ops e Hn) as (q & hb & Ep & Hsp & H).
  pose proof (tg_e _ _ _ _ H) as He. rewrite Forall_forall in He. destruct (He ev Hin) as [K|[y Hy]]; [congruence|].
  rewrite E in Ep. destruct Hsp as [[-> ->]|[h ->]]; [destruct Hy|]. apply app_inj_tail in Ep. destruct Ep as [-> <-].
  rewrite E in Hn. destruct Hn as [Hn _]. rewrite map_app in Hn. apply increasing_app in Hn. destruct Hn as (_ & _ & Hn).
  apply (Hn _ i (in_map fst _ _ Hy)). now left.
Qed.
Lemma newest_content_unchanged c fl ops e : numbered (produced ops) -> forall pre i x, produced ops = pre ++ [(i, x)] ->
  In (i, x) (f_scratch (s_fs (step load c (run load c fl ops) (Scan e)))).
Proof.
  intros Hn pre i x E. destruct (scan_trace c fl ops e Hn) as (q & hb & Ep & Hsp & H). rewrite E in Ep.
  destruct Hsp as [[-> ->]|[h ->]]; [destruct pre; discriminate|]. apply app_inj_tail in Ep. destruct Ep as [_ <-].
  apply (di_hb _ _ _ (proj1 (tg_f _ _ _ _ H))). now left.
Qed.

(** C13. *)
Lemma reap_states c e i m (s : st) x : c_staged c = true -> lookup i (f_scratch (s_fs s)) = Some x ->
  let s' := reap c e i m (start_op s) in
  Forall (fun f =>
    (lookup i (f_persist f) = lookup i (f_persist (s_fs s)) \/ (lookup i (f_persist (s_fs s)) = None /\ lookup i (f_persist f) = Some x)) /\
    (m = true -> lookup i (f_scratch f) = Some x \/ exists y, lookup i (f_persist f) = Some y) /\
    (forall j, j <> i -> lookup j (f_scratch f) = lookup j (f_scratch (s_fs s)) /\ lookup j (f_persist f) = lookup j (f_persist (s_fs s))) /\
    f_nc f = f_nc (s_fs s) /\ f_bad f = f_bad (s_fs s)) (s_fs s' :: s_trace s').
Proof.
  intros Hst Hx. unfold reap. rewrite Hst. cbn [negb start_op s_fs]. rewrite Hx.
  assert (Hrm : forall j, j <> i -> lookup j (remove i (f_scratch (s_fs s))) = lookup j (f_scratch (s_fs s))) by (intros; now apply lookup_remove_ne).
  assert (Hap : forall j, j <> i -> lookup j (f_persist (s_fs s) ++ [(i, x)]) = lookup j (f_persist (s_fs s))).
  { intros j Hj. rewrite lookup_app. cbn. destruct (Z.eqb_spec j i); [contradiction|]. destruct (lookup j (f_persist (s_fs s))); reflexivity. }
  destruct m.
  - destruct (lookup i (f_persist (s_fs s))) as [y|] eqn:Ep.
    + destruct (e_reap e i); cbn; repeat (first [apply Forall_cons|apply Forall_nil]); cbn;
        (split; [left; exact Ep|split; [intros _; first [left; exact Hx|right; exists y; exact Ep]|split; [intros j Hj; split; [first [reflexivity|now apply Hrm]|reflexivity]|split; reflexivity]]]).
    + assert (Hi : lookup i (f_persist (s_fs s) ++ [(i, x)]) = Some x) by (rewrite lookup_app, Ep; cbn; now rewrite Z.eqb_refl).
      destruct (e_reap e i); cbn; repeat (first [apply Forall_cons|apply Forall_nil]); cbn;
        (split; [first [left; exact Ep|right; split; [reflexivity|exact Hi]]
               |split; [intros _; first [left; exact Hx|right; exists x; exact Hi]
               |split; [intros j Hj; split; [first [reflexivity|now apply Hrm]|first [reflexivity|now apply Hap]]|split; reflexivity]]]).
  - destruct (e_reap e i); cbn; repeat (first [apply Forall_cons|apply Forall_nil]); cbn;
        (split; [left; reflexivity|split; [discriminate|split; [intros j Hj; split; [first [reflexivity|now apply Hrm]|reflexivity]|split; reflexivity]]]).
Qed.

Lemma lookup_remove_eq {A} i (d : list (Z * A)) : lookup i (remove i d) = None.
Proof.
  apply lookup_none. intros H. apply in_map_iff in H. destruct H as ([j y] & E & Hin). cbn in E. subst j. apply in_remove in Hin. tauto.
Qed.
Lemma reap_retry c e i (s : st) x : c_staged c = true -> lookup i (f_scratch (s_fs s)) = Some x -> e_reap e i = RNone ->
  (lookup i (f_persist (s_fs s)) = None \/ lookup i (f_persist (s_fs s)) = Some x) ->
  let f := s_fs (reap c e i true s) in
  lookup i (f_persist f) = Some x /\ lookup i (f_scratch f) = None /\ lookup i (f_parts f) = (if lookup i (f_persist (s_fs s)) then lookup i (f_parts (s_fs s)) else None).
Proof.
  intros Hst Hx He Hp. unfold reap. rewrite Hst. cbn [negb]. rewrite Hx, He. destruct Hp as [Hp|Hp]; rewrite Hp; cbn.
  - rewrite lookup_app, Hp. cbn. rewrite Z.eqb_refl. split; [reflexivity|]. split; [apply lookup_remove_eq|].
    apply lookup_remove_eq.
  - split; [exact Hp|]. split; [apply lookup_remove_eq|reflexivity].
Qed.

(** Batch conversion of a readable directory. *)
Lemma load_all_ok (d p : list dump) : (forall i x, In (i, x) p -> lookup i d = Some x /\ load i x <> None) ->
  load_all load d (map fst p) = Some (readable load p).
Proof.
  induction p as [|[i x] p IH]; intros H; [reflexivity|]. cbn [map fst load_all].
  destruct (H i x (or_introl eq_refl)) as [-> Hl]. destruct (load i x) as [r|] eqn:E; [|congruence].
  rewrite IH by (intros j y Hin; apply H; now right). cbn [readable flat_map fst snd]. now rewrite E.
Qed.
Lemma append_all_ok shape rs : Forall (fun r : row => r_shape r = shape) rs -> forall w f rd rp, winv w f rd rp -> w_shape w = shape ->
  exists w' f' rd' rp', append_all [] w f rs = ({| l_w := w'; l_fl := []; l_states := []; l_raised := false |}, f') /\
    winv w' f' rd' rp' /\ rd' ++ rp' = rd ++ rp ++ rs.
Proof.
  induction rs as [|r rs IH]; intros Hs w f rd rp Hw Hsh.
  - exists w, f, rd, rp. split; [reflexivity|]. split; [exact Hw|now rewrite app_nil_r].
  - apply Forall_cons_iff in Hs. destruct Hs as [Hr Hs]. cbn [append_all]. cbv zeta.
    destruct (append_ok w f rd rp r Hw ltac:(congruence)) as (A1 & A2 & (rd' & rp' & A3 & A4 & _) & _ & A6 & _).
    rewrite A1, A2. destruct (IH Hs _ _ _ _ A4 ltac:(congruence)) as (w' & f' & rd2 & rp2 & E & W & R).
    exists w', f', rd2, rp2. split; [exact E|]. split; [exact W|]. rewrite R, app_assoc, A3.
    rewrite <- !app_assoc. reflexivity.
Qed.
Lemma convert_ok shape ct (p : list dump) : numbered p -> consistent load shape p -> p <> [] ->
  (forall i x, In (i, x) p -> load i x <> None) -> convert_streaming load ct p = Some (nc_of (readable load p)).
Proof.
  intros Hn Hc Hne Hl. unfold convert_streaming. rewrite (sort_dumps_id p (proj1 Hn)).
  rewrite (load_all_ok p p).
  2:{ intros i x Hin. split; [|now apply (Hl i x)]. apply in_lookup; [|exact Hin]. apply increasing_nodup. apply Hn. }
  assert (Hsh : Forall (fun r : row => r_shape r = shape) (readable load p)).
  { rewrite Forall_forall. intros r Hr. apply readable_in in Hr. destruct Hr as (i & x & Hin & Hlx). now apply (Hc i x r Hin Hlx). }
  destruct (readable load p) as [|t rs] eqn:Er.
  { destruct p as [|[i x] p]; [congruence|]. cbn [readable flat_map fst snd] in Er.
    specialize (Hl i x (or_introl eq_refl)). destruct (load i x); [discriminate|congruence]. }
  destruct (open_nc ct t None) as [w f] eqn:Eo. destruct (open_fresh ct t) as (rd & rp & E0 & W & S & _). rewrite Eo in W, S. cbn [fst snd] in W, S.
  apply app_eq_nil in E0. destruct E0 as [-> ->].
  assert (Hsh' : r_shape t = shape) by (inversion Hsh; assumption). rewrite Hsh' in S.
  destruct (append_all_ok shape (t :: rs) Hsh w f [] [] W S) as (w' & f' & rd' & rp' & -> & W' & R). cbn [app] in R.
  cbn [l_raised l_fl l_w]. destruct (close_ok w' f' rd' rp' W') as (_ & C & _). rewrite C, R. reflexivity.
Qed.

(** C12, discard mode, between two fault-free scans. *)
Lemma in_nc_of (rs : list row) r : In r rs -> in_nc (Some (nc_of rs)) r.
Proof.
  intros H. apply In_nth_error in H. destruct H as [k Hk]. exists (nc_of rs), k. split; [reflexivity|].
  assert (k < length rs) by (apply nth_error_Some; congruence). cbn.
  split; [assumption|]. repeat split; now rewrite nth_error_map, Hk.
Qed.
Lemma discard_between_scans shape c ops : c_raw_rel c = false ->
  numbered (produced ops) -> consistent load shape (removelast (produced ops)) ->
  Forall looks_grid ops -> Forall lists_ok ops -> (c_staged c = true -> Forall no_restart ops) ->
  forall i x r, In (i, x) (produced ops) -> load i x = Some r ->
  on_disk (s_fs (run load c [] ops)) (i, x) \/ in_nc (f_nc (s_fs (run load c [] ops))) r.
Proof.
  intros Hc Hn Hcon Hg Hl Hr i x r Hin Hlo.
  destruct (inv_run load shape c Hc ops Hn Hcon Hg Hl Hr) as (q & hb & R & Ep & H). set (s := run load c [] ops) in *.
  rewrite Ep in Hin. apply in_app_or in Hin. destruct Hin as [Hin|Hin].
  2:{ left. left. now apply (di_hb _ _ _ (in_dirs _ _ _ _ _ _ _ _ H)). }
  destruct (Z.lt_ge_cases (last_it R) i) as [Hlt|Hge].
  - left. destruct (in_avail _ _ _ _ _ _ _ _ H i x r Hin Hlo Hlt) as [A|[_ A]]; [now left|right; now left].
  - right. assert (HR : In r R).
    { rewrite (in_R _ _ _ _ _ _ _ _ H). apply readable_in. exists i, x. split; [|exact Hlo]. apply filter_In. split; [exact Hin|].
      cbn [fst]. now apply Z.leb_le. }
    pose proof (in_w _ _ _ _ _ _ _ _ H) as W. unfold wrel in W. destruct (s_w s) as [w|] eqn:Ew.
    + destruct W as (f & rd & rp & E1 & W & E2 & _). rewrite E1, (wi_f _ _ _ _ W).
      assert (rp = []) as ->.
      { pose proof (in_pend _ _ _ _ _ _ _ _ H w Ew) as E. rewrite (wi_rows _ _ _ _ W) in E. now apply map_eq_nil in E. }
      rewrite app_nil_r in E2. subst rd. now apply in_nc_of.
    + destruct W as [[-> _]|[_ ->]]; [destruct HR|]. now apply in_nc_of.
Qed.

End C.
