(** The converter over whole histories (C10, C15). *)
From Verif Require Import Stream StreamSpec StreamProofs StreamProofs2.
From Coq Require Import ZifyBool ZifyNat Sorted Permutation.

Section C.
Context {D : sdom} (load : loader (D := D)) (shape : list Z).
Notation writer := (Stream.writer (D := D)).
Notation ncfile := (Stream.ncfile (D := D)).
Notation row := (Stream.row (D := D)).
Notation fs := (Stream.fs (D := D)).
Notation st := (Stream.st (D := D)).
Notation dump := (Z * d_file D)%type.
Notation cinv := (StreamProofs2.cinv load shape).
Notation wrel := (StreamProofs2.wrel shape).
Notation bads := (StreamProofs2.bads load).

Record inv (c : conf) (nr : bool) (q hb : list dump) (s : st) (R : list row) : Prop := {
  in_num : numbered (q ++ hb);
  in_con : consistent load shape q;
  in_w : wrel s R;
  in_pend : forall w, s_w s = Some w -> w_rows w = [];
  in_fl : s_fl s = [];
  in_R : R = readable load (upto (last_it R) q);
  in_dirs : dirs q hb (s_fs s);
  in_bad : bads q s;
  in_avail : forall i x r, In (i, x) q -> load i x = Some r -> (last_it R < i)%Z ->
     In (i, x) (f_scratch (s_fs s)) \/ (s_spilled s = true /\ In (i, x) (f_persist (s_fs s)));
  in_completed : s_completed s = false;
  in_rawc : s_raw_completed s = false;
  in_israw : s_is_raw s <> Some true;
  in_staged : s_spilled s = true -> c_staged c = true;
  in_hb : (q = [] /\ hb = []) \/ exists h, hb = [h];
  in_fresh : nr = true -> s_w s = None -> R = []
}.

Lemma scratch_last q h (f : fs) : numbered (q ++ [h]) -> dirs q [h] f ->
  exists pre, f_scratch f = pre ++ [h] /\ (forall d, In d pre -> In d q).
Proof.
  intros [Hn _] Hd. destruct (in_split h (f_scratch f) (di_hb _ _ _ Hd h (or_introl eq_refl))) as (l1 & l2 & E).
  pose proof (di_ss _ _ _ Hd) as Hs. rewrite E, map_app in Hs. cbn [map] in Hs. apply increasing_app in Hs.
  destruct Hs as (_ & Hs2 & Hs3). cbn [increasing] in Hs2. destruct Hs2 as [Hs2 _]. rewrite Forall_forall in Hs2.
  rewrite map_app in Hn. apply increasing_app in Hn. destruct Hn as (_ & _ & Hn).
  assert (l2 = []).
  { destruct l2 as [|d l2]; [reflexivity|exfalso].
    assert (Hlt : (fst h < fst d)%Z) by (apply Hs2; now left).
    assert (Hin : In d (q ++ [h])) by (apply (di_s _ _ _ Hd); rewrite E; apply in_or_app; right; right; now left).
    apply in_app_or in Hin. destruct Hin as [Hin|[<-|[]]]; [|lia].
    specialize (Hn (fst d) (fst h) (in_map fst _ _ Hin) (or_introl eq_refl)). lia. }
  subst l2. exists l1. split; [exact E|]. intros d Hin.
  assert (Hin2 : In d (q ++ [h])) by (apply (di_s _ _ _ Hd); rewrite E; apply in_or_app; now left).
  apply in_app_or in Hin2. destruct Hin2 as [|[<-|[]]]; [assumption|].
  specialize (Hs3 (fst h) (fst h) (in_map fst _ _ Hin) (or_introl eq_refl)). lia.
Qed.

Lemma is_bad_in (s : st) l i : is_bad s (l, i) = true <-> In (l, i) (s_bad s).
Proof.
  unfold is_bad. rewrite existsb_exists. split.
  - intros ([l' j] & Hin & E). cbn [fst snd] in E. apply andb_prop in E. destruct E as [E1 E2]. apply Z.eqb_eq in E2. subst j.
    assert (l = l') by (destruct l, l'; cbn in E1; congruence). now subst.
  - intros Hin. exists (l, i). split; [exact Hin|]. cbn [fst snd]. rewrite Z.eqb_refl. destruct l; reflexivity.
Qed.

Lemma sortedk_map_filter (p : loc * Z -> bool) l (ks : list Z) : sortedk (fun i => i) ks -> sortedk snd (filter p (map (pair l) ks)).
Proof.
  induction ks as [|k ks IH]; cbn [map filter]; intros H; [constructor|]. inversion H as [|? ? H1 H2]; subst.
  destruct (p (l, k)); [|now apply IH]. constructor; [now apply IH|].
  rewrite Forall_forall in *. intros [l' j] Hin. apply filter_In in Hin. destruct Hin as [Hin _].
  apply in_map_iff in Hin. destruct Hin as (m & [= <- <-] & Hm). cbn. now apply H2.
Qed.
Lemma nodup_map_filter (p : loc * Z -> bool) l (ks : list Z) : NoDup ks -> NoDup (filter p (map (pair l) ks)).
Proof. intros H. apply NoDup_filter. apply FinFun.Injective_map_NoDup; [|exact H]. intros a b [= ->]. reflexivity. Qed.

Lemma nodup_app_disj {A} (l1 l2 : list A) : NoDup l1 -> NoDup l2 -> (forall x, In x l1 -> In x l2 -> False) -> NoDup (l1 ++ l2).
Proof.
  induction l1 as [|x l1 IH]; cbn [app]; intros H1 H2 Hd; [exact H2|]. inversion H1; subst. constructor.
  - intros Hin. apply in_app_or in Hin. destruct Hin as [Hin|Hin]; [contradiction|]. apply (Hd x); [now left|exact Hin].
  - apply IH; try assumption. intros y Hy. apply Hd. now right.
Qed.

(** last_it of the rows in the file stays below the held-back dump. *)
Lemma last_it_lt q hb R j y : numbered (q ++ hb) -> consistent load shape q ->
  R = readable load (upto (last_it R) q) -> In (j, y) hb -> (last_it R < j)%Z.
Proof.
  intros Hn Hc HR Hin. destruct Hn as [Hi Hp].
  assert (Hj : (0 <= j)%Z) by (rewrite Forall_forall in Hp; apply (Hp (j, y)); apply in_or_app; now right).
  assert (last_it R <= j - 1)%Z; [|lia]. apply last_it_le; [lia|]. intros r Hr. rewrite HR in Hr.
  apply readable_in in Hr. destruct Hr as (i & x & Hx & Hl). apply upto_sub in Hx. destruct (Hc i x r Hx Hl) as [-> _].
  rewrite map_app in Hi. apply increasing_app in Hi. destruct Hi as (_ & _ & Hi).
  specialize (Hi i j (in_map fst _ _ Hx) (in_map fst _ _ Hin)). lia.
Qed.

Lemma upto_hb q hb R : numbered (q ++ hb) -> consistent load shape q -> R = readable load (upto (last_it R) q) ->
  R = readable load (upto (last_it R) (q ++ hb)).
Proof.
  intros Hn Hc HR. unfold upto. rewrite filter_app. fold (upto (last_it R) q). fold (upto (last_it R) hb).
  rewrite (upto_none hb (last_it R)), app_nil_r; [exact HR|]. intros j y Hin.
  exact (last_it_lt q hb R j y Hn Hc HR Hin).
Qed.

(* ---- draining a candidate list ---- *)
Lemma flush_ok (s : st) R w : wrel s R -> s_w s = Some w -> s_fl s = [] ->
  let fr := flush (s_fl s) w (cur_nc s) in let s' := put_lres fr s in
  l_raised fr = false /\ wrel s' R /\ s_fl s' = [] /\ s_w s' = Some (l_w fr) /\ w_rows (l_w fr) = [] /\
  f_scratch (s_fs s') = f_scratch (s_fs s) /\ f_persist (s_fs s') = f_persist (s_fs s) /\ s_bad s' = s_bad s /\ same_ctl s s' /\
  f_nc (s_fs s') = Some (nc_of R) /\ winv (l_w fr) (nc_of R) R [].
Proof.
  intros W Hw Hfl. unfold wrel in W. rewrite Hw in W. destruct W as (f & rd & rp & Hf & Wi & HR & Hne & HL & Hsh).
  assert (Hn : cur_nc s = f) by (unfold cur_nc; now rewrite Hf). rewrite Hn, Hfl. unfold flush.
  destruct (write_batch_ok w f rd rp Wi) as (A & B & C & L & S & _ & Rw). set (fr := write_batch [] w f) in *.
  destruct (put_lres_spec fr s f Hf) as (P1 & P2 & P3 & _ & P5 & P6 & P7 & P8).
  cbv zeta. split; [exact A|]. rewrite HR in C. split.
  - unfold wrel. rewrite P5. exists (last (l_states fr) f), R, []. split; [exact P1|]. split; [exact C|].
    split; [apply app_nil_r|]. split; [exact Hne|]. split; congruence.
  - split; [congruence|]. split; [exact P5|]. split; [exact Rw|]. repeat (split; [assumption|]).
    pose proof (wi_f _ _ _ _ C) as Hc. split; [congruence|]. now rewrite <- Hc.
Qed.

Lemma cinv_nocands q hb (s s' : st) R : cinv q hb s [] R -> wrel s' R -> s_fl s' = [] ->
  f_scratch (s_fs s') = f_scratch (s_fs s) -> f_persist (s_fs s') = f_persist (s_fs s) -> s_bad s' = s_bad s -> cinv q hb s' [] R.
Proof.
  intros H Hw Hfl Hs Hp Hb. constructor; try apply H; try assumption.
  - constructor; rewrite ?Hs, ?Hp; apply (ci_dirs _ _ _ _ _ _ _ H).
  - intros l i Hin. rewrite Hb in Hin. eapply (ci_bad _ _ _ _ _ _ _ H); exact Hin.
  - intros l i [].
Qed.

(** Draining the candidates, not final: everything handed in is in the file afterwards. *)
Lemma stream_candidates_ok q hb c e cands (s : st) R : cinv q hb s cands R -> cands <> [] ->
  exists s' R', stream_candidates load c e false cands s = (s', false) /\ cinv q hb s' [] R' /\ same_ctl s s' /\
    (forall w, s_w s' = Some w -> w_rows w = []) /\ (s_w s' = None -> s_w s = None /\ R' = R).
Proof.
  intros H Hne. unfold stream_candidates. destruct cands as [|cd cs] eqn:Ec; [congruence|]. rewrite <- Ec in *. clear Hne.
  assert (G : forall s1 cands1 R1, s_w s1 <> None -> cinv q hb s1 cands1 R1 -> same_ctl s s1 ->
    exists s' R', (match s_w s1 with None => (s1, false) | Some _ =>
          let '(s2, raised2) := consume load c e cands1 s1 in
          if raised2 then (s2, true) else
          match s_w s2 with
          | None => (s2, false)
          | Some w =>
              let fr := flush (s_fl s2) w (cur_nc s2) in
              let s3 := put_lres fr s2 in
              if l_raised fr then (s3, true) else (s3, false)
          end end) = (s', false) /\ cinv q hb s' [] R' /\ same_ctl s s' /\
       (forall w, s_w s' = Some w -> w_rows w = []) /\ s_w s' <> None).
  { intros s1 cands1 R1 Hw1 H1 Hct. destruct (s_w s1) as [w1|] eqn:Ew1; [|congruence].
    destruct (consume_ok load shape q hb c e cands1 s1 R1 H1 ltac:(congruence)) as (s2 & R2 & E2 & H2 & Hw2 & Hct2).
    rewrite E2. destruct (s_w s2) as [w2|] eqn:Ew2; [|congruence].
    destruct (flush_ok s2 R2 w2 (ci_w _ _ _ _ _ _ _ H2) Ew2 (ci_fl _ _ _ _ _ _ _ H2)) as (A & B & C & E & F & G1 & G2 & G3 & G4 & _).
    cbv zeta in *. rewrite A. eexists _, R2. split; [reflexivity|]. split; [now apply (cinv_nocands q hb s2)|].
    split; [eapply same_ctl_trans; [exact Hct|eapply same_ctl_trans; eassumption]|].
    split; [|congruence]. intros w Hw. rewrite E in Hw. injection Hw as <-. exact F. }
  destruct (s_w s) as [w|] eqn:Ew.
  - destruct (G s cands R ltac:(congruence) H (same_ctl_refl s)) as (s' & R' & E & A & B & C & F).
    exists s', R'. rewrite Ew in *. split; [exact E|]. repeat (split; [assumption|]). intros; congruence.
  - destruct (open_writer_ok load shape q hb c e cands s R H Ew) as (s1 & cands1 & E1 & Hct & [(Hw1 & H1 & ->)|(R1 & Hw1 & H1)]); rewrite E1.
    + rewrite Hw1. exists s1, R. repeat (split; [first [reflexivity|assumption]|]). split; [congruence|]. intros _. now split.
    + destruct (G s1 cands1 R1 Hw1 H1 Hct) as (s' & R' & E & A & B & C & F).
      exists s', R'. split; [exact E|]. repeat (split; [assumption|]). intros; congruence.
Qed.

Lemma close_closed (s : st) w f : w_open w = false -> f_nc (s_fs s) = Some f ->
  f_nc (s_fs (put_lres (close (s_fl s) w (cur_nc s)) s)) = Some f.
Proof.
  intros Ho Hf. unfold close, write_batch. rewrite Ho. cbn [negb orb l_raised l_states put_lres fold_left]. cbn. exact Hf.
Qed.

Lemma stream_candidates_final q c e cands (s : st) R : cinv q [] s cands R -> cands <> [] ->
  exists s' , stream_candidates load c e true cands s = (s', false) /\
    ((s_w s' = None /\ s_w s = None /\ R = readable load q /\ wrel s' R /\ s_completed s' = s_completed s) \/
     (exists w, s_w s' = Some w /\ w_open w = false /\ readable load q <> [] /\ f_nc (s_fs s') = Some (nc_of (readable load q)) /\ s_completed s' = true)).
Proof.
  intros H Hne. unfold stream_candidates. destruct cands as [|cd cs] eqn:Ec; [congruence|]. rewrite <- Ec in *. clear Hne.
  assert (G : forall s1 cands1 R1, s_w s1 <> None -> cinv q [] s1 cands1 R1 ->
    exists s', (match s_w s1 with None => (s1, false) | Some _ =>
          let '(s2, raised2) := consume load c e cands1 s1 in
          if raised2 then (s2, true) else
          match s_w s2 with
          | None => (s2, false)
          | Some w =>
              let fr := flush (s_fl s2) w (cur_nc s2) in
              let s3 := put_lres fr s2 in
              if l_raised fr then (s3, true) else 
                let cr := close (s_fl s3) (l_w fr) (cur_nc s3) in
                let s4 := put_lres cr s3 in
                if l_raised cr then (s4, true) else (set_completed s4, false)
          end end) = (s', false) /\
     (exists w, s_w s' = Some w /\ w_open w = false /\ readable load q <> [] /\ f_nc (s_fs s') = Some (nc_of (readable load q)) /\ s_completed s' = true)).
  { intros s1 cands1 R1 Hw1 H1. destruct (s_w s1) as [w1|] eqn:Ew1; [|congruence].
    destruct (consume_ok load shape q [] c e cands1 s1 R1 H1 ltac:(congruence)) as (s2 & R2 & E2 & H2 & Hw2 & Hct2).
    rewrite E2. destruct (s_w s2) as [w2|] eqn:Ew2; [|congruence].
    destruct (flush_ok s2 R2 w2 (ci_w _ _ _ _ _ _ _ H2) Ew2 (ci_fl _ _ _ _ _ _ _ H2)) as (A & B & C & E & F & _ & _ & _ & _ & Hnc & Wi).
    cbv zeta in *. rewrite A. set (s3 := put_lres (flush (s_fl s2) w2 (cur_nc s2)) s2) in *.
    set (w3 := l_w (flush (s_fl s2) w2 (cur_nc s2))) in *.
    assert (Hn : cur_nc s3 = nc_of R2) by (unfold cur_nc; now rewrite Hnc). rewrite Hn, C.
    destruct (close_ok w3 (nc_of R2) R2 [] Wi) as (K1 & K2 & K3). rewrite K1.
    destruct (put_lres_spec (close [] w3 (nc_of R2)) s3 (nc_of R2) Hnc) as (P1 & _ & _ & _ & P5 & _).
    pose proof (cinv_done load shape q [] s2 R2 H2) as HR.
    eexists. split; [reflexivity|]. exists (l_w (close [] w3 (nc_of R2))). cbn [s_w set_completed s_fs s_completed].
    split; [exact P5|]. split; [unfold close; destruct (l_raised (write_batch [] w3 (nc_of R2))) eqn:Er; [|reflexivity]|].
    - unfold close in K1. rewrite Er in K1. congruence.
    - split.
      + rewrite <- HR. pose proof (ci_w _ _ _ _ _ _ _ H2) as W. unfold StreamProofs2.wrel in W. rewrite Ew2 in W.
        destruct W as (? & ? & ? & _ & _ & _ & Hne & _). exact Hne.
      + rewrite P1, K2, app_nil_r, HR. split; reflexivity. }
  destruct (s_w s) as [w|] eqn:Ew.
  - destruct (G s cands R ltac:(congruence) H) as (s' & E & A). exists s'. rewrite Ew in *. split; [exact E|]. now right.
  - destruct (open_writer_ok load shape q [] c e cands s R H Ew) as (s1 & cands1 & E1 & Hct & [(Hw1 & H1 & ->)|(R1 & Hw1 & H1)]); rewrite E1.
    + rewrite Hw1. exists s1. split; [reflexivity|]. left. repeat (split; [first [reflexivity|assumption]|]).
      split; [exact (cinv_done load shape q [] s1 R H1)|]. split; [apply H1|apply Hct].
    + destruct (G s1 cands1 R1 Hw1 H1) as (s' & E & A). exists s'. split; [exact E|]. now right.
Qed.

(* ---- the spill branch ---- *)
Definition no_discard (c : conf) : conf :=
  {| c_staged := c_staged c; c_discard := false; c_ct := c_ct c; c_spill_files := c_spill_files c;
     c_spill_bytes := c_spill_bytes c; c_raw_rel := c_raw_rel c |}.
Lemma reap_cleanup c e i (s : st) : reap c e i true s = cleanup_consumed (no_discard c) e Scratch i s.
Proof. unfold cleanup_consumed, reap, no_discard. cbn [c_staged c_discard negb]. destruct (c_staged c); reflexivity. Qed.

Record sinv (q hb : list dump) (s0 s : st) (L : Z) : Prop := {
  si_dirs : dirs q hb (s_fs s);
  si_avail : forall i x r, In (i, x) q -> load i x = Some r -> (L < i)%Z ->
     In (i, x) (f_scratch (s_fs s)) \/ In (i, x) (f_persist (s_fs s));
  si_nc : f_nc (s_fs s) = f_nc (s_fs s0);
  si_w : s_w s = s_w s0; si_fl : s_fl s = s_fl s0; si_b : s_bad s = s_bad s0; si_ctl : same_ctl s0 s
}.
Lemma sinv_reap q hb c e i x s0 s L : numbered (q ++ hb) -> In (i, x) q -> sinv q hb s0 s L -> sinv q hb s0 (reap c e i true s) L.
Proof.
  intros Hn Hx H. destruct (reap_spec c e i true s) as (E1 & _ & E2 & E3 & E4 & E5 & Hs & Hp).
  assert (Hd : dirs q hb (s_fs (reap c e i true s))).
  { rewrite reap_cleanup. eapply dirs_cleanup; [exact Hn|exact Hx|apply H]. }
  constructor; try (first [exact Hd|rewrite ?E1, ?E2, ?E3, ?E4; apply H]).
  - intros j y r Hy Hr HL.
    assert (Hpm : In (j, y) (f_persist (s_fs s)) -> In (j, y) (f_persist (s_fs (reap c e i true s)))).
    { intros Hin. destruct Hp as [->|(_ & z & _ & ->)]; [exact Hin|apply in_or_app; now left]. }
    destruct (si_avail _ _ _ _ _ H j y r Hy Hr HL) as [Hin|Hin]; [|right; now apply Hpm].
    destruct Hs as [->|[Es Hm]]; [now left|]. destruct (Z.eq_dec j i) as [->|Hne].
    + right. destruct (Hm eq_refl) as (z & Hz). apply lookup_in in Hz.
      assert (z = y); [|now subst]. pose proof (di_p _ _ _ Hd _ Hz) as Hzq.
      eapply key_unique; [apply (num_nodup q hb Hn)|apply in_or_app; left; exact Hzq|apply in_or_app; left; exact Hy].
    + left. rewrite Es. apply in_remove. now split.
  - eapply same_ctl_trans; [apply H|exact E5].
Qed.
Lemma sinv_fold q hb c e s0 L : numbered (q ++ hb) -> forall (ps : list (loc * Z)) s, Forall (fun p => exists x, In (snd p, x) q) ps ->
  sinv q hb s0 s L -> sinv q hb s0 (fold_left (fun s p => reap c e (snd p) true s) ps s) L.
Proof.
  intros Hn. induction ps as [|p ps IH]; intros s Hf H; [exact H|]. cbn [fold_left].
  apply Forall_cons_iff in Hf. destruct Hf as [[x Hx] Hf]. apply IH; [exact Hf|]. eapply sinv_reap; eassumption.
Qed.

(** One non-final drain of a grid diagnostic keeps the invariant. *)
Lemma drain_grid_inv c e nr q h s R : e_list_raises e = false -> inv c nr q [h] s R ->
  exists s' R', drain_grid load c e false s = (s', false) /\ inv c nr q [h] s' R'.
Proof.
  intros He H. unfold drain_grid. rewrite He. cbv zeta.
  destruct (scratch_last q h (s_fs s) (in_num _ _ _ _ _ _ H) (in_dirs _ _ _ _ _ _ H)) as (pre & Epre & Hpre).
  rewrite (sort_dumps_id _ (di_ss _ _ _ (in_dirs _ _ _ _ _ _ H))).
  set (nb := fun p => negb (is_bad s p)).
  assert (Hnb : nb (Scratch, fst h) = true).
  { unfold nb. apply negb_true_iff. apply not_true_is_false. rewrite is_bad_in. intros Hin.
    destruct (in_bad _ _ _ _ _ _ H _ _ Hin) as (x & Hx & _). destruct h as [j y].
    eapply num_disj; [apply (in_num _ _ _ _ _ _ H)|exact Hx|now left]. }
  set (cands := filter nb (map (pair Scratch) (map fst pre))).
  assert (Hsafe : removelast (filter nb (map (fun i : Z => (Scratch, i)) (map fst (f_scratch (s_fs s))))) = cands).
  { change (fun i : Z => (Scratch, i)) with (@pair loc Z Scratch). rewrite Epre, !map_app, filter_app. cbn [map filter].
    rewrite Hnb. apply removelast_last. }
  rewrite Hsafe.
  assert (Hin_c : forall l i, In (l, i) cands -> l = Scratch /\ exists x, In (i, x) q /\ In (i, x) (f_scratch (s_fs s))).
  { intros l i Hin. unfold cands in Hin. apply filter_In in Hin. destruct Hin as [Hin _]. apply in_map_iff in Hin.
    destruct Hin as (k & [= <- <-] & Hk). split; [reflexivity|]. apply in_map_iff in Hk. destruct Hk as ([k' x] & E & Hk). cbn in E. subst k'.
    exists x. split; [now apply Hpre|]. rewrite Epre. apply in_or_app; now left. }
  cbn [negb andb]. rewrite andb_true_r.
  destruct (c_staged c && (e_force e || s_spilled s || over_threshold c (length cands) (if c_staged c then pending_bytes e s cands else 0%Z))) eqn:Esp.
  - (* spill *)
    apply andb_prop in Esp. destruct Esp as [Est _].
    assert (S0 : sinv q [h] (set_spilled true s) (set_spilled true s) (last_it R)).
    { constructor; try reflexivity; [apply H| |apply same_ctl_refl].
      intros i x r Hx Hr HL. destruct (in_avail _ _ _ _ _ _ H i x r Hx Hr HL) as [A|[_ A]]; [now left|now right]. }
    pose proof (sinv_fold q [h] c e _ (last_it R) (in_num _ _ _ _ _ _ H) cands _
      ltac:(rewrite Forall_forall; intros [l i] Hin; destruct (Hin_c l i Hin) as [_ (x & Hx & _)]; now exists x) S0) as S.
    set (s' := fold_left _ cands (set_spilled true s)) in *.
    exists s', R. split; [reflexivity|]. destruct S as [Sd Sa Sn Sw Sf Sb (C1 & C2 & C3 & C4)]. cbn in Sn, Sw, Sf, Sb, C1, C2, C3, C4.
    constructor; try apply H; try assumption.
    + eapply wrel_same; [exact Sw|exact Sn|apply H].
    + intros w Hw. rewrite Sw in Hw. now apply (in_pend _ _ _ _ _ _ H).
    + rewrite Sf. apply H.
    + intros l i Hin. rewrite Sb in Hin. eapply (in_bad _ _ _ _ _ _ H); exact Hin.
    + intros i x r Hx Hr HL. destruct (Sa i x r Hx Hr HL) as [A|A]; [now left|right; split; assumption].
    + rewrite C2. apply H.
    + rewrite C3. apply H.
    + rewrite C4. apply H.
    + intros _. exact Est.
    + intros Hnr Hw. rewrite Sw in Hw. now apply (in_fresh _ _ _ _ _ _ H).
  - (* stream *)
    assert (Hsp : s_spilled s = false).
    { destruct (s_spilled s) eqn:E; [|reflexivity]. rewrite (in_staged _ _ _ _ _ _ H E), orb_true_r in Esp. discriminate. }
    destruct cands as [|cd cs] eqn:Ec.
    { exists s, R. split; [reflexivity|exact H]. }
    rewrite <- Ec in *.
    assert (H1 : cinv q [h] s cands R).
    { constructor; try apply H.
      - unfold cands. apply sortedk_map_filter. apply increasing_sortedk.
        pose proof (di_ss _ _ _ (in_dirs _ _ _ _ _ _ H)) as Hs. rewrite Epre, map_app in Hs. now apply increasing_app in Hs.
      - unfold cands. apply nodup_map_filter. apply increasing_nodup.
        pose proof (di_ss _ _ _ (in_dirs _ _ _ _ _ _ H)) as Hs. rewrite Epre, map_app in Hs. now apply increasing_app in Hs.
      - intros l i Hin. destruct (Hin_c l i Hin) as [-> (x & Hx & Hxs)]. exists x. split; [exact Hx|].
        cbn [dir_of]. apply in_lookup; [|exact Hxs]. apply increasing_nodup. apply (in_dirs _ _ _ _ _ _ H).
      - intros i x r Hx Hr HL. exists Scratch. destruct (in_avail _ _ _ _ _ _ H i x r Hx Hr HL) as [A|[A _]]; [|congruence].
        unfold cands. apply filter_In. split.
        + apply in_map. rewrite Epre in A. apply in_app_or in A. destruct A as [A|[A|[]]]; [apply (in_map fst _ _ A)|].
          subst h. exfalso. eapply num_disj; [apply (in_num _ _ _ _ _ _ H)|exact Hx|now left].
        + unfold nb. apply negb_true_iff, not_true_is_false. rewrite is_bad_in. intros Hin.
          destruct (in_bad _ _ _ _ _ _ H _ _ Hin) as (y & Hy & Hly).
          assert (x = y) by (eapply key_unique; [apply (num_nodup q [h]), H|apply in_or_app; left; exact Hx|apply in_or_app; left; exact Hy]).
          congruence. }
    destruct (stream_candidates_ok q [h] c e cands s R H1 ltac:(rewrite Ec; discriminate)) as (s' & R' & E & H2 & (C1 & C2 & C3 & C4) & Hp & Hf).
    cbn [andb]. exists s', R'. split; [exact E|].
    constructor; try apply H2; try assumption.
    + intros i x r Hx Hr HL. destruct (ci_avail _ _ _ _ _ _ _ H2 i x r Hx Hr HL) as (l & []).
    + rewrite C2. apply H.
    + rewrite C3. apply H.
    + rewrite C4. apply H.
    + intros K. rewrite C1 in K. now apply (in_staged _ _ _ _ _ _ H).
    + right. now exists h.
    + intros Hnr Hw. destruct (Hf Hw) as [Hw0 ->]. now apply (in_fresh _ _ _ _ _ _ H).
Qed.

(** The final drain. *)
Lemma drain_grid_final c e nr q h s R : e_list_raises e = false -> inv c nr q [h] s R -> consistent load shape (q ++ [h]) ->
  exists s', drain_grid load c e true s = (s', false) /\
    ((s_w s' = None /\ s_w s = None /\ R = readable load (q ++ [h]) /\ wrel s' R /\ s_completed s' = false) \/
     (exists w, s_w s' = Some w /\ w_open w = false /\ readable load (q ++ [h]) <> [] /\
        f_nc (s_fs s') = Some (nc_of (readable load (q ++ [h]))) /\ s_completed s' = true)).
Proof.
  intros He H Hcon. unfold drain_grid. rewrite He. cbv zeta. rewrite andb_false_r. cbn [andb].
  rewrite (sort_dumps_id _ (di_ss _ _ _ (in_dirs _ _ _ _ _ _ H))).
  set (nb := fun p => negb (is_bad s p)). change (fun i : Z => (Scratch, i)) with (@pair loc Z Scratch).
  change (fun i : Z => (Persist, i)) with (@pair loc Z Persist).
  set (safe := filter nb (map (pair Scratch) (map fst (f_scratch (s_fs s))))).
  set (pers := filter nb (map (pair Persist) (sort_dumps (f_persist (s_fs s))))).
  set (cands := if c_staged c && s_spilled s then sort_by snd (pers ++ safe) else safe).
  assert (Hcs : (exists ps, Permutation (ps ++ safe) cands /\ (ps = pers \/ ps = []) /\ (s_spilled s = true -> ps = pers)) /\ sortedk snd cands).
  { unfold cands. destruct (c_staged c && s_spilled s) eqn:E.
    - split; [|apply sort_by_sorted]. exists pers. split; [apply sort_by_perm|]. split; [now left|reflexivity].
    - split.
      + exists []. split; [reflexivity|]. split; [now right|]. intros K. rewrite (in_staged _ _ _ _ _ _ H K), K in E. discriminate.
      + apply sortedk_map_filter, increasing_sortedk. apply (in_dirs _ _ _ _ _ _ H). }
  destruct Hcs as [(ps & Hperm & Hps & Hpsp) Hsorted].
  assert (Hin_c : forall l i, In (l, i) cands -> exists x, In (i, x) (q ++ [h]) /\ lookup i (dir_of l (s_fs s)) = Some x).
  { intros l i Hin. apply (Permutation_in _ (Permutation_sym Hperm)) in Hin. apply in_app_or in Hin. destruct Hin as [Hin|Hin].
    - assert (Hin' : In (l, i) pers) by (destruct Hps as [->| ->]; [exact Hin|destruct Hin]). clear Hin.
      unfold pers in Hin'. apply filter_In in Hin'. destruct Hin' as [Hin _]. apply in_map_iff in Hin.
      destruct Hin as (k & [= <- <-] & Hk). apply (proj1 (sort_dumps_in _ _)) in Hk. destruct (lookup_some_key _ _ Hk) as (x & Hx).
      exists x. split; [|exact Hx]. apply in_or_app; left. apply (di_p _ _ _ (in_dirs _ _ _ _ _ _ H)). now apply lookup_in.
    - unfold safe in Hin. apply filter_In in Hin. destruct Hin as [Hin _]. apply in_map_iff in Hin.
      destruct Hin as (k & [= <- <-] & Hk). destruct (lookup_some_key _ _ Hk) as (x & Hx).
      exists x. split; [|exact Hx]. apply (di_s _ _ _ (in_dirs _ _ _ _ _ _ H)). now apply lookup_in. }
  assert (Hbad : forall i x r, In (i, x) (q ++ [h]) -> load i x = Some r -> forall l, nb (l, i) = true).
  { intros i x r Hx Hr l. unfold nb. apply negb_true_iff, not_true_is_false. rewrite is_bad_in. intros Hin.
    destruct (in_bad _ _ _ _ _ _ H _ _ Hin) as (y & Hy & Hly).
    assert (x = y) by (eapply key_unique; [apply (num_nodup q [h]), H|exact Hx|apply in_or_app; left; exact Hy]). congruence. }
  assert (Hh : In (Scratch, fst h) cands).
  { apply (Permutation_in _ Hperm). apply in_or_app; right. unfold safe. apply filter_In. split.
    - apply in_map, in_map. apply (di_hb _ _ _ (in_dirs _ _ _ _ _ _ H)). now left.
    - unfold nb. apply negb_true_iff, not_true_is_false. rewrite is_bad_in. intros Hin.
      destruct (in_bad _ _ _ _ _ _ H _ _ Hin) as (y & Hy & _). destruct h as [j z].
      eapply num_disj; [apply (in_num _ _ _ _ _ _ H)|exact Hy|now left]. }
  pose proof (in_dirs _ _ _ _ _ _ H) as Hd.
  assert (H1 : cinv (q ++ [h]) [] s cands R).
  { constructor; try apply H; try assumption.
    - rewrite app_nil_r. apply H.
    - apply upto_hb; apply H.
    - constructor; try apply Hd; rewrite ?app_nil_r; try apply Hd; [|intros d []].
      intros d Hin. apply in_or_app; left. now apply (di_p _ _ _ Hd).
    - intros l i Hin. destruct (in_bad _ _ _ _ _ _ H _ _ Hin) as (x & Hx & Hl). exists x. split; [apply in_or_app; now left|exact Hl].
    - apply (Permutation_NoDup Hperm).
      assert (Hns : NoDup safe) by (apply nodup_map_filter, increasing_nodup; apply Hd).
      assert (Hnp : NoDup ps).
      { destruct Hps as [->| ->]; [|constructor]. apply nodup_map_filter, sort_dumps_nodup. apply Hd. }
      apply nodup_app_disj; [exact Hnp|exact Hns|]. intros [l i] Ha Hb.
      assert (l = Persist).
      { destruct Hps as [->| ->]; [|destruct Ha]. unfold pers in Ha. apply filter_In in Ha. destruct Ha as [Ha _].
        apply in_map_iff in Ha. destruct Ha as (? & [= <- _] & _). reflexivity. }
      assert (l = Scratch).
      { unfold safe in Hb. apply filter_In in Hb. destruct Hb as [Hb _]. apply in_map_iff in Hb. destruct Hb as (? & [= <- _] & _). reflexivity. }
      congruence.
    - intros i x r Hx Hr HL. apply in_app_or in Hx. destruct Hx as [Hx|[->|[]]]; [|exists Scratch; exact Hh].
      destruct (in_avail _ _ _ _ _ _ H i x r Hx Hr HL) as [A|[Hsp A]].
      + exists Scratch. apply (Permutation_in _ Hperm). apply in_or_app; right. unfold safe. apply filter_In. split.
        * apply in_map. apply (in_map fst _ _ A).
        * apply (Hbad i x r); [apply in_or_app; now left|exact Hr].
      + exists Persist. apply (Permutation_in _ Hperm). apply in_or_app; left. rewrite (Hpsp Hsp). unfold pers. apply filter_In. split.
        * apply in_map. apply sort_dumps_in. apply (in_map fst _ _ A).
        * apply (Hbad i x r); [apply in_or_app; now left|exact Hr]. }
  assert (Hne : cands <> []) by (intros E; rewrite E in Hh; destruct Hh).
  destruct (stream_candidates_final (q ++ [h]) c e cands s R H1 Hne) as (s' & E & Hr).
  exists s'. split; [exact E|]. destruct Hr as [(A & B & C & F & G)|Hr]; [left|right; exact Hr].
  repeat (split; [assumption|]). rewrite G. apply H.
Qed.

(* ---- scans ---- *)
Lemma inv_start c nr q hb s R : inv c nr q hb s R -> inv c nr q hb (start_op s) R.
Proof. intros H. destruct H. constructor; assumption. Qed.

Lemma inv_classify c nr q hb s R : inv c nr q hb s R -> c_raw_rel c = false ->
  (forall i x, In (i, x) (q ++ hb) -> d_is_raw D x = false) ->
  exists s', classify c s = (s', false) /\ inv c nr q hb s' R /\ s_fs s' = s_fs s /\ s_w s' = s_w s.
Proof.
  intros H Hc Hg. unfold classify. destruct (s_is_raw s) as [b|] eqn:E.
  - destruct b; [exfalso; now apply (in_israw _ _ _ _ _ _ H)|]. exists s. repeat (split; [first [reflexivity|exact H]|]). reflexivity.
  - rewrite Hc. destruct (sort_dumps (f_scratch (s_fs s))) as [|i is] eqn:Es.
    + eexists. split; [reflexivity|]. split; [|split; reflexivity]. destruct H. constructor; try assumption. discriminate.
    + assert (Hb : match lookup i (f_scratch (s_fs s)) with Some x => d_is_raw D x | None => false end = false).
      { destruct (lookup i (f_scratch (s_fs s))) as [x|] eqn:El; [|reflexivity]. apply (Hg i x).
        apply (di_s _ _ _ (in_dirs _ _ _ _ _ _ H)). now apply lookup_in. }
      rewrite Hb. eexists. split; [reflexivity|]. split; [|split; reflexivity]. destruct H. constructor; try assumption. discriminate.
Qed.

Lemma inv_scan c nr q hb s R e : inv c nr q hb s R -> c_raw_rel c = false -> e_list_raises e = false ->
  (forall i x, In (i, x) (q ++ hb) -> d_is_raw D x = false) ->
  exists R', inv c nr q hb (scan_once load c e false s) R'.
Proof.
  intros H Hc He Hg. unfold scan_once. destruct (f_scratch (s_fs s)) as [|d ds] eqn:Ed; [now exists R|].
  rewrite (in_completed _ _ _ _ _ _ H), (in_rawc _ _ _ _ _ _ H). cbn [orb].
  destruct (inv_classify c nr q hb s R H Hc Hg) as (s0 & -> & H0 & _).
  destruct (in_hb _ _ _ _ _ _ H) as [[-> ->]|[h ->]].
  - exfalso. assert (Hin : In d ([] ++ [])) by (apply (di_s _ _ _ (in_dirs _ _ _ _ _ _ H)); rewrite Ed; now left). destruct Hin.
  - destruct (drain_grid_inv c e nr q h s0 R He H0) as (s' & R' & -> & H'). now exists R'.
Qed.

Lemma rewrite_last_app x pre i y : rewrite_last (D := D) x (pre ++ [(i, y)]) = pre ++ [(i, x)].
Proof. induction pre as [|p pre IH]; [reflexivity|]. cbn [app rewrite_last]. rewrite IH. destruct p, pre; reflexivity. Qed.

Lemma produced_snoc ops (o : op (D := D)) : produced (ops ++ [o]) = produce1 (produced ops) o.
Proof. unfold produced. now rewrite fold_left_app. Qed.

Lemma numbered_snoc_inv ops (o : op (D := D)) : numbered (produced (ops ++ [o])) -> numbered (produced ops).
Proof.
  rewrite produced_snoc. destruct o as [i x|x|e|]; cbn [produce1]; try exact (fun H => H).
  - apply num_q.
  - destruct (rev (produced ops)) as [|[i y] r] eqn:E; intros [H1 H2].
    + assert (produced ops = []) by (rewrite <- (rev_involutive (produced ops)), E; reflexivity). now rewrite H.
    + assert (Ep : produced ops = rev r ++ [(i, y)]) by (rewrite <- (rev_involutive (produced ops)), E; reflexivity).
      rewrite Ep. split; [rewrite map_app in *; exact H1|]. apply Forall_app in H2. apply Forall_app. split; [tauto|].
      destruct H2 as [_ H2]. inversion H2; subst. constructor; [assumption|constructor].
Qed.
Lemma consistent_snoc_inv ops (o : op (D := D)) :
  consistent load shape (removelast (produced (ops ++ [o]))) -> consistent load shape (removelast (produced ops)).
Proof.
  rewrite produced_snoc. destruct o as [i x|x|e|]; cbn [produce1]; try exact (fun H => H).
  - rewrite removelast_last. intros H. eapply consistent_sub; [|exact H]. intros d Hin.
    destruct (produced ops) as [|p ps _] using rev_ind; [destruct Hin|]. rewrite removelast_last in Hin. apply in_or_app; now left.
  - destruct (rev (produced ops)) as [|[i y] r] eqn:E; intros H.
    + assert (Ep : produced ops = []) by (rewrite <- (rev_involutive (produced ops)), E; reflexivity). now rewrite Ep.
    + assert (Ep : produced ops = rev r ++ [(i, y)]) by (rewrite <- (rev_involutive (produced ops)), E; reflexivity).
      rewrite removelast_last in H. now rewrite Ep, removelast_last.
Qed.
Lemma grid_contents ops : Forall looks_grid ops -> forall i x, In (i, x) (produced ops) -> d_is_raw D x = false.
Proof.
  induction ops as [|o ops IH] using rev_ind; intros H i x Hin; [destruct Hin|].
  apply Forall_app in H. destruct H as [H1 H2]. apply Forall_cons_iff in H2. destruct H2 as [H2 _].
  rewrite produced_snoc in Hin. destruct o as [j y|y|e|]; cbn [produce1] in Hin; try (eapply IH; eassumption).
  - apply in_app_or in Hin. destruct Hin as [Hin|[[= <- <-]|[]]]; [eapply IH; eassumption|exact H2].
  - destruct (rev (produced ops)) as [|[j z] r] eqn:E; [destruct Hin|].
    assert (Ep : produced ops = rev r ++ [(j, z)]) by (rewrite <- (rev_involutive (produced ops)), E; reflexivity).
    apply in_app_or in Hin. destruct Hin as [Hin|[[= <- <-]|[]]]; [|exact H2].
    eapply IH; [exact H1|]. rewrite Ep. apply in_or_app; left; exact Hin.
Qed.

Definition no_restartb (o : op (D := D)) : bool := match o with Restart => false | _ => true end.

Lemma inv_run c : c_raw_rel c = false -> forall ops,
  numbered (produced ops) -> consistent load shape (removelast (produced ops)) ->
  Forall looks_grid ops -> Forall lists_ok ops -> (c_staged c = true -> Forall no_restart ops) ->
  exists q hb R, produced ops = q ++ hb /\ inv c (forallb no_restartb ops) q hb (run load c [] ops) R.
Proof.
  intros Hc. induction ops as [|o ops IH] using rev_ind; intros Hn Hcon Hg Hl Hr.
  - exists [], [], []. split; [reflexivity|]. cbn. constructor; cbn; try reflexivity; try tauto; try discriminate.
    all: try solve [split; [exact I|constructor]|intros ? ? ? []|intros ? ? []
                   |constructor; cbn; try exact I; try tauto; try constructor].
  - assert (IH' : exists q hb R, produced ops = q ++ hb /\ inv c (forallb no_restartb ops) q hb (run load c [] ops) R).
    { apply Forall_app in Hg, Hl. apply IH; [eapply numbered_snoc_inv; exact Hn|eapply consistent_snoc_inv; exact Hcon|tauto|tauto|].
      intros K. specialize (Hr K). apply Forall_app in Hr. tauto. }
    clear IH. destruct IH' as (q & hb & R & Ep & H). unfold run in *. rewrite fold_left_app. cbn [fold_left].
    set (s := fold_left (step load c) ops (init_st [])) in *. rewrite forallb_app. cbn [forallb]. rewrite andb_true_r.
    rewrite produced_snoc in *. pose proof Hg as Hg0. apply Forall_app in Hg. destruct Hg as [Hg Ho].
    apply Forall_app in Hl. destruct Hl as [_ Hlo]. apply Forall_cons_iff in Hlo. destruct Hlo as [Hlo _].
    destruct o as [i x|x|e|]; cbn [produce1 step no_restartb] in *; rewrite ?andb_true_r.
    + (* Produce *)
      rewrite Ep in *. rewrite removelast_last in Hcon. exists (q ++ hb), [(i, x)], R. split; [reflexivity|].
      pose proof (in_dirs _ _ _ _ _ _ H) as Hd.
      assert (Hlt : forall j y, In (j, y) (q ++ hb) -> (j < i)%Z).
      { intros j y Hin. destruct Hn as [Hn _]. rewrite map_app in Hn. apply increasing_app in Hn. destruct Hn as (_ & _ & Hn).
        apply (Hn j i); [apply (in_map fst _ _ Hin)|now left]. }
      constructor; try assumption; try apply H.
      * apply upto_hb; apply H.
      * cbn [do_fs s_fs set_dir start_op]. constructor; cbn [f_scratch f_persist].
        -- intros d Hin. apply in_app_or in Hin. apply in_or_app. destruct Hin as [Hin|Hin]; [left; now apply (di_s _ _ _ Hd)|now right].
        -- rewrite map_app. apply increasing_app. split; [apply Hd|]. split; [cbn; split; [constructor|exact I]|].
           intros a b Ha [<-|[]]. apply in_map_iff in Ha. destruct Ha as ([a' y] & <- & Ha). cbn [fst].
           eapply Hlt. apply (di_s _ _ _ Hd). exact Ha.
        -- intros d Hin. apply in_or_app; left. now apply (di_p _ _ _ Hd).
        -- apply Hd.
        -- intros d Hin. apply in_or_app; now right.
      * intros l j Hin. destruct (in_bad _ _ _ _ _ _ H l j Hin) as (y & Hy & Hly). exists y. split; [apply in_or_app; now left|exact Hly].
      * intros j y r Hin Hr' HL. cbn [do_fs s_fs set_dir start_op f_scratch f_persist s_spilled].
        apply in_app_or in Hin. destruct Hin as [Hin|Hin].
        -- destruct (in_avail _ _ _ _ _ _ H j y r Hin Hr' HL) as [A|A]; [left; apply in_or_app; now left|now right].
        -- left. apply in_or_app; left. now apply (di_hb _ _ _ Hd).
      * right. now exists (i, x).
    + (* Rewrite *)
      destruct (in_hb _ _ _ _ _ _ H) as [[-> ->]|[[j y] ->]].
      * exists [], [], R. rewrite Ep. split; [reflexivity|].
        assert (Es : f_scratch (s_fs s) = []).
        { destruct (f_scratch (s_fs s)) as [|d ds] eqn:E; [reflexivity|exfalso].
          assert (Hin : In d ([] ++ [])) by (apply (di_s _ _ _ (in_dirs _ _ _ _ _ _ H)); rewrite E; now left). destruct Hin. }
        assert (Hd : dirs [] [] (s_fs (do_fs (fun f => set_dir Scratch (rewrite_last x (f_scratch f)) f) (start_op s)))).
        { pose proof (in_dirs _ _ _ _ _ _ H) as Hd. cbn. rewrite Es. cbn. constructor; cbn; try tauto; try apply Hd. }
        constructor; try exact Hd; try (destruct H; assumption).
        intros a b r [].
      * pose proof (in_dirs _ _ _ _ _ _ H) as Hd. pose proof (scratch_last q (j, y) _ (in_num _ _ _ _ _ _ H) Hd) as (pre & Epre & Hpre).
        exists q, [(j, x)], R. rewrite Ep, rev_app_distr in *. cbn [rev app] in *. rewrite rev_involutive in *. split; [reflexivity|].
        assert (Hd' : dirs q [(j, x)] (s_fs (do_fs (fun f => set_dir Scratch (rewrite_last x (f_scratch f)) f) (start_op s)))).
        { cbn. rewrite Epre, rewrite_last_app. constructor; cbn [f_scratch f_persist].
          - intros d Hin. apply in_app_or in Hin. apply in_or_app. destruct Hin as [Hin|Hin]; [left; now apply Hpre|now right].
          - pose proof (di_ss _ _ _ Hd) as Hs. rewrite Epre in Hs. rewrite map_app in *. exact Hs.
          - apply Hd.
          - apply Hd.
          - intros d Hin. apply in_or_app; now right. }
        constructor; try exact Hd'; try exact Hn; try (destruct H; assumption).
        -- intros a b r Hin Hr' HL. destruct (in_avail _ _ _ _ _ _ H a b r Hin Hr' HL) as [A|A]; [left|now right].
           cbn. rewrite Epre in *. rewrite rewrite_last_app. apply in_app_or in A. apply in_or_app. destruct A as [A|[[= <- <-]|[]]]; [now left|exfalso].
           eapply num_disj; [apply (in_num _ _ _ _ _ _ H)|exact Hin|now left].
        -- right. now exists (j, x).
    + (* Scan *)
      destruct (inv_scan c _ q hb (start_op s) R e (inv_start _ _ _ _ _ _ H) Hc Hlo) as (R' & H').
      { intros i x Hin. apply (grid_contents ops Hg i x). now rewrite Ep. }
      exists q, hb, R'. split; [exact Ep|exact H'].
    + (* Restart *)
      exists q, hb, R. split; [exact Ep|].
      assert (Hst : c_staged c = false).
      { destruct (c_staged c) eqn:E; [|reflexivity]. specialize (Hr eq_refl). apply Forall_app in Hr. destruct Hr as [_ Hr]. inversion Hr; subst; contradiction. }
      rewrite andb_false_r. constructor; try apply H; cbn [s_fs s_w s_spilled s_completed s_raw_completed s_is_raw s_fl s_bad]; try reflexivity; try discriminate.
      * pose proof (in_w _ _ _ _ _ _ H) as W. unfold StreamProofs2.wrel in *. cbn [s_w s_fs]. destruct (s_w s) as [w|] eqn:Ew; [|exact W].
        destruct W as (f & rd & rp & Hf & Wi & HR & Hne & _). right. split; [exact Hne|].
        pose proof (in_pend _ _ _ _ _ _ H w Ew) as Hp. rewrite (wi_rows _ _ _ _ Wi) in Hp. destruct rp; [|discriminate].
        rewrite app_nil_r in HR. rewrite Hf, (wi_f _ _ _ _ Wi), HR. reflexivity.
      * intros l i [].
      * intros i x r Hin Hr' HL. destruct (in_avail _ _ _ _ _ _ H i x r Hin Hr' HL) as [A|[A _]]; [now left|].
        rewrite (in_staged _ _ _ _ _ _ H A) in Hst. discriminate.
Qed.


Lemma finalize_ok c e nr q h s R : e_list_raises e = false -> inv c nr q [h] s R -> consistent load shape (q ++ [h]) ->
  c_raw_rel c = false -> (forall i x, In (i, x) (q ++ [h]) -> d_is_raw D x = false) ->
  let s' := finalize load c e false s in
  f_nc (s_fs s') = nc_result (readable load (q ++ [h])) /\
  (s_completed s' = true -> readable load (q ++ [h]) <> []) /\
  (nr = true -> readable load (q ++ [h]) <> [] -> s_completed s' = true).
Proof.
  intros He H Hcon Hc Hg. unfold finalize, scan_once.
  destruct (f_scratch (s_fs s)) as [|d ds] eqn:Ed.
  { exfalso. pose proof (di_hb _ _ _ (in_dirs _ _ _ _ _ _ H) h (or_introl eq_refl)) as Hin. rewrite Ed in Hin. destruct Hin. }
  rewrite (in_completed _ _ _ _ _ _ H), (in_rawc _ _ _ _ _ _ H). cbn [orb].
  destruct (inv_classify c nr q [h] s R H Hc Hg) as (s0 & -> & H0 & _ & Hw0).
  destruct (drain_grid_final c e nr q h s0 R He H0 Hcon) as (s1 & -> & [(A & B & C & F & G)|(w & A & B & C & F & G)]).
  - cbv zeta. rewrite A. unfold StreamProofs2.wrel in F. rewrite A in F. rewrite <- C in *. repeat split.
    + destruct F as [[-> ->]|[Hne ->]]; [reflexivity|]. destruct R; [congruence|reflexivity].
    + intros K. congruence.
    + intros Hnr Hne. exfalso. apply Hne. apply (in_fresh _ _ _ _ _ _ H0 Hnr B).
  - cbv zeta. rewrite A. cbn [s_fs set_completed s_completed]. rewrite (close_closed s1 w _ B F).
    repeat split; [|tauto]. destruct (readable load (q ++ [h])); [congruence|reflexivity].
Qed.

Lemma streaming_exact c ops e :
  c_raw_rel c = false -> numbered (produced ops) -> consistent load shape (produced ops) ->
  Forall looks_grid ops -> Forall lists_ok ops -> e_list_raises e = false -> (c_staged c = true -> Forall no_restart ops) ->
  let s' := finalize load c e false (run load c [] ops) in
  f_nc (s_fs s') = nc_result (readable load (produced ops)) /\
  (s_completed s' = true -> readable load (produced ops) <> []) /\
  (Forall no_restart ops -> readable load (produced ops) <> [] -> s_completed s' = true).
Proof.
  intros Hc Hn Hcon Hg Hl He Hr.
  assert (Hcon' : consistent load shape (removelast (produced ops))).
  { eapply consistent_sub; [|exact Hcon]. intros d. destruct (produced ops) as [|p ps _] using rev_ind; [exact (fun H => H)|].
    rewrite removelast_last. intros; apply in_or_app; now left. }
  destruct (inv_run c Hc ops Hn Hcon' Hg Hl Hr) as (q & hb & R & Ep & H).
  destruct (in_hb _ _ _ _ _ _ H) as [[-> ->]|[h ->]].
  - rewrite Ep. cbn [app]. unfold finalize, scan_once.
    destruct (f_scratch (s_fs (run load c [] ops))) as [|d ds] eqn:Ed.
    + pose proof (in_w _ _ _ _ _ _ H) as W. pose proof (in_R _ _ _ _ _ _ H) as HR. cbn in HR. subst R. unfold StreamProofs2.wrel in W.
      destruct (s_w (run load c [] ops)) as [w|]; [destruct W as (? & ? & ? & _ & _ & _ & Hne & _); congruence|].
      destruct W as [[_ W]|[W _]]; [|congruence]. cbv zeta. cbn [readable flat_map nc_result]. split; [exact W|].
      split; [|congruence]. rewrite (in_completed _ _ _ _ _ _ H). discriminate.
    + exfalso. assert (Hin : In d ([] ++ [])) by (apply (di_s _ _ _ (in_dirs _ _ _ _ _ _ H)); rewrite Ed; now left). destruct Hin.
  - rewrite Ep in *. destruct (finalize_ok c e _ q h _ R He H Hcon Hc) as (A & B & C).
    { intros i x Hin. apply (grid_contents ops Hg i x). now rewrite Ep. }
    split; [exact A|]. split; [exact B|]. intros Hnr Hne. apply C; [|exact Hne]. apply forallb_forall.
    rewrite Forall_forall in Hnr. intros o Ho. specialize (Hnr o Ho). destruct o; cbn in *; tauto.
Qed.
End C.
