(** Lemmas for the StreamWriter (C08, C09). *)
From Verif Require Import Stream StreamSpec.
From Coq Require Import ZifyBool ZifyNat.

Section W.
Context {D : sdom}.
Notation writer := (Stream.writer (D := D)).
Notation ncfile := (Stream.ncfile (D := D)).
Notation row := (Stream.row (D := D)).
Notation wop := (StreamSpec.wop (D := D)).

Definition last_it (rs : list row) : Z := fold_left Z.max (map r_iter rs) (-1)%Z.

(** Writer [w] over file [nc_of rd] with pending rows [rp]. *)
Record winv (w : writer) (f : ncfile) (rd rp : list row) : Prop := {
  wi_f : f = nc_of rd;
  wi_n : w_ndisk w = length rd;
  wi_rows : w_rows w = map r_val rp;
  wi_ts : w_ts w = map r_time rp;
  wi_its : w_its w = map r_iter rp;
  wi_bnds : w_bnds w = map r_bnd rp;
  wi_open : w_open w = true
}.

Lemma resize_grow {A} (fill : A) (l : list A) k : resize_col fill (length l + k) l = l ++ repeat fill k.
Proof.
  unfold resize_col. rewrite firstn_all2 by lia. f_equal. f_equal. lia.
Qed.

Lemma slice_end {A} (l xs ys : list A) : length xs = length ys -> slice_set (length l) xs (l ++ ys) = l ++ xs.
Proof.
  intros H. unfold slice_set. rewrite firstn_app, firstn_all, Nat.sub_diag, firstn_O, app_nil_r.
  rewrite skipn_all2; [now rewrite app_nil_r|]. rewrite app_length. lia.
Qed.

Lemma last_cons {A} (l : list A) : forall x d, last (x :: l) d = last l x.
Proof. induction l as [|y l IH]; intros x d; [reflexivity|]. change (last (x :: y :: l) d) with (last (y :: l) d). now rewrite !IH. Qed.

Lemma last_states_of ops : forall f, last (states_of (D := D) ops f) f = fold_left (fun f o => o f) ops f.
Proof.
  induction ops as [|o r IH]; intros f; [reflexivity|]. cbn [states_of fold_left].
  now rewrite <- IH, last_cons.
Qed.

Lemma batch_run w rd rp : winv w (nc_of rd) rd rp ->
  fold_left (fun f o => o f) (batch_ops w) (nc_of rd) = nc_of (rd ++ rp).
Proof.
  intros H. unfold batch_ops. cbn [fold_left nc_of nc_n nc_val nc_time nc_iter nc_bnd].
  rewrite (wi_n _ _ _ _ H), (wi_rows _ _ _ _ H), (wi_ts _ _ _ _ H), (wi_its _ _ _ _ H), (wi_bnds _ _ _ _ H).
  rewrite map_length. unfold nc_of. f_equal.
  - now rewrite app_length.
  - rewrite <- (map_length r_val rd) at 1 2. rewrite resize_grow, slice_end; [now rewrite map_app|]. now rewrite repeat_length, map_length.
  - rewrite <- (map_length r_time rd) at 1 2. rewrite resize_grow, slice_end; [now rewrite map_app|]. now rewrite repeat_length, map_length.
  - rewrite <- (map_length r_iter rd) at 1 2. rewrite resize_grow, slice_end; [now rewrite map_app|]. now rewrite repeat_length, map_length.
  - rewrite <- (map_length r_bnd rd) at 1 2. rewrite resize_grow, slice_end; [now rewrite map_app|]. now rewrite repeat_length, map_length.
Qed.

Lemma write_batch_ok w f rd rp : winv w f rd rp ->
  let r := write_batch [] w f in
  l_raised r = false /\ l_fl r = [] /\ winv (l_w r) (last (l_states r) f) (rd ++ rp) [] /\
  w_last (l_w r) = w_last w /\ w_shape (l_w r) = w_shape w /\ w_ct (l_w r) = w_ct w /\ w_rows (l_w r) = [].
Proof.
  intros H r. subst r. unfold write_batch. rewrite (wi_open _ _ _ _ H), (wi_rows _ _ _ _ H), map_length.
  cbn [negb orb]. destruct rp as [|a rp].
  - cbn [length Nat.eqb l_raised l_fl l_w l_states last]. rewrite app_nil_r.
    repeat (split; [first [reflexivity|assumption]|]). exact (wi_rows _ _ _ _ H).
  - cbn [length Nat.eqb hd l_raised l_fl l_w l_states tl w_last w_shape w_ct w_rows].
    repeat (split; [reflexivity|]). split; [|repeat split].
    pose proof (wi_f _ _ _ _ H) as Hf. subst f.
    constructor; cbn [w_ndisk w_rows w_ts w_its w_bnds w_open map]; try reflexivity.
    + rewrite last_states_of. apply batch_run. exact H.
    + rewrite (wi_n _ _ _ _ H), app_length. reflexivity.
Qed.

Lemma last_it_snoc rs (r : row) : last_it (rs ++ [r]) = Z.max (last_it rs) (r_iter r).
Proof. unfold last_it. rewrite map_app, fold_left_app. reflexivity. Qed.

Lemma push_row_ok w f rd rp da : winv w f rd rp -> winv (push_row w da) f rd (rp ++ [da]).
Proof.
  intros H. constructor; unfold push_row; cbn [w_ndisk w_rows w_ts w_its w_bnds w_open]; rewrite ?map_app;
    try (f_equal; apply H); apply H.
Qed.

Lemma shape_eqb_spec a b : shape_eqb a b = true <-> a = b.
Proof. unfold shape_eqb. destruct (list_eq_dec Z.eq_dec a b); split; congruence. Qed.

(** Fault-free append of a row of the right shape. *)
Lemma append_ok w f rd rp da : winv w f rd rp -> r_shape da = w_shape w ->
  let r := append [] w f da in
  l_raised r = false /\ l_fl r = [] /\
  (exists rd' rp', rd' ++ rp' = rd ++ rp ++ [da] /\ winv (l_w r) (last (l_states r) f) rd' rp' /\
     (length rp' < Nat.max 1 (w_ct w))) /\
  w_last (l_w r) = Z.max (w_last w) (r_iter da) /\ w_shape (l_w r) = w_shape w /\ w_ct (l_w r) = w_ct w.
Proof.
  intros H Hs r. subst r. unfold append. rewrite (proj2 (shape_eqb_spec _ _) Hs). cbn [negb].
  pose proof (push_row_ok _ _ _ _ da H) as H1.
  assert (L : w_last (push_row w da) = Z.max (w_last w) (r_iter da)).
  { unfold push_row. cbn [w_last]. destruct (Z.gtb_spec (r_iter da) (w_last w)); lia. }
  destruct (w_ct (push_row w da) <=? length (w_rows (push_row w da))) eqn:E.
  - destruct (write_batch_ok _ _ _ _ H1) as (A & B & C & Dq & F & G & _).
    split; [exact A|split; [exact B|split]].
    + exists (rd ++ rp ++ [da]), []. split; [now rewrite app_nil_r|]. split; [exact C|]. cbn [length]. lia.
    + split; [rewrite Dq; exact L|]. split; [rewrite F; reflexivity|rewrite G; reflexivity].
  - cbn [l_raised l_fl l_w l_states last]. split; [reflexivity|split; [reflexivity|split]].
    + exists rd, (rp ++ [da]). split; [reflexivity|]. split; [exact H1|].
      rewrite (wi_rows _ _ _ _ H1), map_length in E. cbn [push_row w_ct] in E. lia.
    + split; [exact L|split; reflexivity].
Qed.

Lemma close_ok w f rd rp : winv w f rd rp ->
  l_raised (close [] w f) = false /\ last (l_states (close [] w f)) f = nc_of (rd ++ rp) /\ l_fl (close [] w f) = [].
Proof.
  intros H. unfold close. destruct (write_batch_ok _ _ _ _ H) as (A & B & C & _). rewrite A. cbn [l_raised l_states l_fl].
  split; [reflexivity|]. split; [exact (wi_f _ _ _ _ C)|exact B].
Qed.

(* ---- C08 ---- *)

Definition wstate (shape : list Z) (ct : nat) (wf : writer * ncfile) (rs : list row) : Prop :=
  exists rd rp, rd ++ rp = rs /\ winv (fst wf) (snd wf) rd rp /\ w_shape (fst wf) = shape /\ w_ct (fst wf) = ct /\
    w_last (fst wf) = last_it rs /\ length rp < Nat.max 1 ct.

Lemma wstep_append shape ct wf rs da : wstate shape ct wf rs -> r_shape da = shape ->
  wstate shape ct (wstep wf (WAppend da)) (rs ++ [da]).
Proof.
  intros (rd & rp & <- & H & Hs & Hc & Hl & Hp) Hda. rewrite <- Hs in Hda.
  destruct (append_ok _ _ _ _ _ H Hda) as (_ & _ & (rd' & rp' & E & Hw & Hlen) & L & S & C).
  exists rd', rp'. rewrite <- app_assoc. split; [exact E|]. cbn [wstep fst snd]. split; [exact Hw|].
  split; [congruence|split; [congruence|split; [|congruence]]]. rewrite L, Hl, app_assoc, last_it_snoc. reflexivity.
Qed.

Lemma wstep_flush shape ct wf rs : wstate shape ct wf rs -> wstate shape ct (wstep wf WFlush) rs.
Proof.
  intros (rd & rp & <- & H & Hs & Hc & Hl & Hp).
  destruct (write_batch_ok _ _ _ _ H) as (_ & _ & W & L & S & C & _).
  exists (rd ++ rp), []. split; [apply app_nil_r|]. cbn [wstep flush fst snd]. unfold flush. split; [exact W|].
  repeat split; try congruence. cbn [length]; lia.
Qed.

Lemma open_fresh ct t : wstate (r_shape t) ct (open_nc ct t None) [].
Proof.
  exists [], []. split; [reflexivity|]. cbn [open_nc fst snd]. split; [constructor; reflexivity|].
  repeat split. cbn [length]; lia.
Qed.

Lemma wrun ct shape ops : forall wf rs, wstate shape ct wf rs -> Forall (fun r => r_shape r = shape) (appended ops) ->
  wstate shape ct (fold_left wstep ops wf) (rs ++ appended ops).
Proof.
  induction ops as [|o ops IH]; intros wf rs H Hf; [cbn; now rewrite app_nil_r|].
  cbn [fold_left appended flat_map]. destruct o as [da|].
  - cbn [appended flat_map app] in Hf. apply Forall_cons_iff in Hf. destruct Hf as [H1 H2]. cbn [app].
    change (flat_map _ ops) with (appended ops). change (rs ++ da :: appended ops) with (rs ++ [da] ++ appended ops). rewrite (app_assoc rs [da] (appended ops)) .
    apply (IH _ (rs ++ [da])); [apply wstep_append; [exact H|exact H1]|exact H2].
  - apply IH; [now apply wstep_flush|exact Hf].
Qed.

Lemma batching_invisible ct (t : row) (ops : list wop) : Forall (fun r => r_shape r = r_shape t) (appended ops) ->
  let wf : writer * ncfile := fold_left wstep ops (open_nc ct t None) in
  wclose wf = nc_of (appended ops) /\
  (exists landed pending, appended ops = landed ++ pending /\ snd wf = nc_of landed /\
     w_rows (fst wf) = map r_val pending /\ length pending < Nat.max 1 ct).
Proof.
  intros Hf wf. destruct (wrun ct _ ops _ _ (open_fresh ct t) Hf) as (rd & rp & E & W & _ & _ & _ & Hp).
  fold wf in W. cbn [app] in E. split.
  - unfold wclose. destruct (close_ok _ _ _ _ W) as (_ & C & _). rewrite C. now rewrite E.
  - exists rd, rp. split; [now rewrite E|]. split; [exact (wi_f _ _ _ _ W)|]. split; [exact (wi_rows _ _ _ _ W)|exact Hp].
Qed.

Lemma append_bad_shape fl w f (da : row) : r_shape da <> w_shape w ->
  append fl w f da = {| l_w := w; l_fl := fl; l_states := []; l_raised := true |}.
Proof.
  intros H. unfold append. destruct (shape_eqb (r_shape da) (w_shape w)) eqn:E; [|reflexivity].
  apply shape_eqb_spec in E. contradiction.
Qed.

Lemma default_chunk_ok shape :
  (1 <= default_chunk_t shape <= 512)%Z /\
  (default_chunk_t shape = 1 \/ default_chunk_t shape * per_row shape <= target_chunk_bytes)%Z.
Proof.
  unfold default_chunk_t. set (q := (target_chunk_bytes / per_row shape)%Z).
  split; [lia|]. destruct (Z.le_gt_cases q 1) as [H|H]; [left; lia|right].
  assert (P : (0 < per_row shape)%Z) by (unfold per_row; lia).
  pose proof (Z.mul_div_le target_chunk_bytes (per_row shape) P) as Hm. fold q in Hm. nia.
Qed.

(* ---- C09 ---- *)

Lemma increasing_app l1 l2 : increasing (l1 ++ l2) <->
  increasing l1 /\ increasing l2 /\ (forall a b, In a l1 -> In b l2 -> (a < b)%Z).
Proof.
  induction l1 as [|x l1 IH]; cbn [app increasing].
  - split; [intros H; repeat split; auto; intros a b []|intros (_ & H & _); exact H].
  - rewrite Forall_app, IH. rewrite !Forall_forall. split.
    + intros ((A & B) & C & E & F). split; [split; assumption|]. split; [exact E|].
      intros a b [<-|Ha] Hb; [now apply B|now apply F].
    + intros ((A & C) & E & F). split; [split; [exact A|]|split; [exact C|split; [exact E|]]].
      * intros b Hb. apply F; [now left|exact Hb].
      * intros a b Ha Hb. apply F; [now right|exact Hb].
Qed.

Lemma last_it_max rs (r : row) : In r rs -> (r_iter r <= last_it rs)%Z.
Proof.
  revert r. induction rs as [|x rs IH] using rev_ind; intros r Hin; [destruct Hin|].
  rewrite last_it_snoc. apply in_app_or in Hin. destruct Hin as [Hin|[<-|[]]]; [specialize (IH _ Hin)|]; lia.
Qed.
Lemma last_it_in rs : rs <> [] -> Forall (fun r : row => (0 <= r_iter r)%Z) rs -> exists r, In r rs /\ r_iter r = last_it rs.
Proof.
  induction rs as [|x rs IH] using rev_ind; intros Hne Hf; [congruence|].
  rewrite last_it_snoc. apply Forall_app in Hf. destruct Hf as [Hf Hx]. inversion Hx; subst.
  destruct rs as [|y rs].
  - exists x. split; [now left|]. cbn. lia.
  - destruct (IH ltac:(discriminate) Hf) as (r & Hr & E).
    destruct (Z.le_gt_cases (r_iter x) (last_it (y :: rs))).
    + exists r. split; [apply in_or_app; now left|lia].
    + exists x. split; [apply in_or_app; right; now left|lia].
Qed.
Lemma last_it_ge rs : (-1 <= last_it (rs : list row))%Z.
Proof. induction rs as [|x rs IH] using rev_ind; [cbn; lia|]. rewrite last_it_snoc. lia. Qed.

Lemma last_it_le rs b : (-1 <= b)%Z -> (forall r : row, In r rs -> (r_iter r <= b)%Z) -> (last_it rs <= b)%Z.
Proof.
  induction rs as [|x rs IH] using rev_ind; intros Hb H; [cbn; lia|]. rewrite last_it_snoc.
  assert (last_it rs <= b)%Z by (apply IH; [exact Hb|intros r Hr; apply H; apply in_or_app; now left]).
  assert (r_iter x <= b)%Z by (apply H; apply in_or_app; right; now left). lia.
Qed.
Lemma last_it_sorted rs (x : row) : increasing (map r_iter (rs ++ [x])) -> (0 <= r_iter x)%Z -> last_it (rs ++ [x]) = r_iter x.
Proof.
  intros H Hx. rewrite last_it_snoc. rewrite map_app in H. apply increasing_app in H. destruct H as (_ & _ & H).
  assert (last_it rs <= r_iter x)%Z; [|lia]. apply last_it_le; [lia|]. intros r Hr.
  specialize (H (r_iter r) (r_iter x) (in_map _ _ _ Hr) (or_introl eq_refl)). lia.
Qed.

(** Reopening the file of a sorted series. *)
Lemma open_resume ct t rs : increasing (map r_iter rs) -> Forall (fun r : row => (0 <= r_iter r)%Z) rs ->
  wstate (r_shape t) ct (open_nc ct t (Some (nc_of rs))) rs.
Proof.
  intros Hi Hp. exists rs, []. split; [apply app_nil_r|]. cbn [open_nc fst snd].
  split; [constructor; reflexivity|]. cbn [w_shape w_ct w_last]. repeat (split; [reflexivity|]).
  split; [|cbn [length]; lia]. destruct rs as [|x rs _] using rev_ind; [reflexivity|].
  cbn [nc_of nc_n nc_iter]. rewrite app_length, Nat.add_1_r. rewrite map_app.
  rewrite app_nth2 by (rewrite map_length; lia). rewrite map_length, Nat.sub_diag. cbn [nth].
  rewrite map_app in Hi. symmetry. apply last_it_sorted; [now rewrite map_app|].
  apply Forall_app in Hp. destruct Hp as [_ Hp]. now inversion Hp.
Qed.

(** A session fed a prefix of a sorted series, starting from a shorter or longer prefix. *)
Lemma firstn_snoc {A} (l : list A) k x : nth_error l k = Some x -> firstn (S k) l = firstn k l ++ [x].
Proof.
  revert l. induction k as [|k IH]; intros [|y l] H; cbn in *; try discriminate.
  - congruence.
  - f_equal. now apply IH.
Qed.

Lemma sorted_filter_le ds k (x : row) : increasing (map r_iter ds) -> nth_error ds k = Some x ->
  forall j, j <= length ds -> Forall (fun r : row => (0 <= r_iter r)%Z) ds ->
  ((r_iter x <=? last_it (firstn j ds))%Z = true <-> k < j).
Proof.
  intros Hi Hk j Hj Hp. assert (Hkl : k < length ds) by (apply nth_error_Some; congruence).
  destruct (Nat.lt_ge_cases k j) as [H|H].
  - split; [intros _; exact H|intros _]. apply Z.leb_le. apply last_it_max.
    assert (E : nth_error (firstn j ds) k = Some x).
    { rewrite <- Hk. rewrite <- (firstn_skipn j ds) at 2. rewrite nth_error_app1; [reflexivity|]. rewrite firstn_length. lia. }
    eapply nth_error_In; exact E.
  - split; [|lia]. intros E. apply Z.leb_le in E. exfalso.
    rewrite <- (firstn_skipn j ds), map_app in Hi. apply increasing_app in Hi. destruct Hi as (_ & _ & Hi).
    assert (Hx : In x (skipn j ds)).
    { apply (nth_error_In _ (k - j)). rewrite <- Hk. rewrite <- (firstn_skipn j ds) at 2.
      rewrite nth_error_app2; rewrite firstn_length_le by exact Hj; [reflexivity|exact H]. }
    assert (Hx0 : (0 <= r_iter x)%Z).
    { rewrite Forall_forall in Hp. apply Hp. eapply nth_error_In; exact Hk. }
    assert (last_it (firstn j ds) <= r_iter x - 1)%Z; [|lia].
    apply last_it_le; [lia|]. intros r Hr. specialize (Hi (r_iter r) (r_iter x) (in_map _ _ _ Hr) (in_map _ _ _ Hx)). lia.
Qed.

Lemma session_run shape ct ds : increasing (map r_iter ds) -> Forall (fun r : row => (0 <= r_iter r)%Z) ds ->
  Forall (fun r => r_shape r = shape) ds ->
  forall ops wf j p, wstate shape ct wf (firstn j ds) -> j <= length ds -> p <= j ->
    (exists k, p + k <= length ds /\ appended ops = firstn k (skipn p ds)) ->
    exists j', wstate shape ct (fold_left sstep ops wf) (firstn j' ds) /\ j' <= length ds /\
       j' = Nat.max j (p + length (appended ops)).
Proof.
  intros Hi Hp Hsh. induction ops as [|o ops IH]; intros wf j p W Hj Hpj Hk.
  - exists j. cbn. split; [exact W|split; [exact Hj|lia]].
  - cbn [fold_left]. destruct o as [da|].
    + destruct Hk as (k & Hkl & Hk). cbn [appended flat_map app] in Hk.
      change (flat_map _ ops) with (appended ops) in Hk.
      destruct k as [|k]; [discriminate|].
      destruct (skipn p ds) as [|x sk] eqn:Es; [discriminate|]. cbn [firstn] in Hk. injection Hk as -> Hk.
      assert (Hn : nth_error ds p = Some x).
      { rewrite <- (firstn_skipn p ds), Es. rewrite nth_error_app2; rewrite firstn_length_le by lia; [|lia]. now rewrite Nat.sub_diag. }
      assert (Hsk : sk = skipn (S p) ds).
      { clear - Es. revert ds Es. induction p as [|p IHp]; intros [|y ds] Es; cbn in *; try discriminate; [congruence|now apply IHp]. }
      pose proof W as (rd & rp & E & Wi & S1 & S2 & L & _). cbn [sstep].
      rewrite L. pose proof (sorted_filter_le ds p x Hi Hn j Hj Hp) as Q.
      cbn [appended flat_map app length]. change (flat_map _ ops) with (appended ops).
      destruct (r_iter x <=? last_it (firstn j ds))%Z.
      * assert (p < j) by (apply Q; reflexivity).
        destruct (IH wf j (S p) W Hj ltac:(lia)) as (j' & A & B & C).
        { exists k. split; [lia|]. now rewrite <- Hsk. }
        exists j'. split; [exact A|split; [exact B|]]. lia.
      * assert (p = j). { destruct (Nat.eq_dec p j) as [|Hne]; [assumption|]. assert (p < j) as Hlt by lia. apply Q in Hlt. discriminate. }
        subst j. assert (Hshx : r_shape x = shape). { rewrite Forall_forall in Hsh. apply Hsh. eapply nth_error_In; exact Hn. }
        assert (Hlen : p < length ds) by (apply nth_error_Some; congruence).
        pose proof (wstep_append _ _ _ _ x W Hshx) as W'. rewrite <- (firstn_snoc ds p x Hn) in W'.
        destruct (IH _ (S p) (S p) W' Hlen ltac:(lia)) as (j' & A & B & C).
        { exists k. split; [lia|]. now rewrite <- Hsk. }
        exists j'. split; [exact A|split; [exact B|]]. lia.
    + cbn [sstep]. apply (IH _ j p); [now apply wstep_flush|exact Hj|exact Hpj|exact Hk].
Qed.

Lemma firstn_prefix_sorted ds j : increasing (map (r_iter (D := D)) ds) -> increasing (map r_iter (firstn j ds)).
Proof. intros H. rewrite <- (firstn_skipn j ds), map_app in H. now apply increasing_app in H. Qed.
Lemma Forall_firstn {A} (P : A -> Prop) l j : Forall P l -> Forall P (firstn j l).
Proof. intros H. rewrite <- (firstn_skipn j l) in H. now apply Forall_app in H. Qed.

(** What a crash leaves on disk. *)
Definition prefix_file (ds : list row) (f : option ncfile) : Prop :=
  f = None \/ exists j, j <= length ds /\ f = Some (nc_of (firstn j ds)).


Lemma open_prefix ds ct t f : increasing (map r_iter ds) -> Forall (fun r : row => (0 <= r_iter r)%Z) ds -> prefix_file ds f ->
  exists j, j <= length ds /\ wstate (r_shape t) ct (open_nc ct t f) (firstn j ds).
Proof.
  intros Hi Hp [->|(j & Hj & ->)].
  - exists 0. split; [lia|]. apply open_fresh.
  - exists j. split; [exact Hj|]. apply open_resume; [now apply firstn_prefix_sorted|now apply Forall_firstn].
Qed.

Lemma firstn_min {A} (l : list A) k : firstn k l = firstn (Nat.min k (length l)) l.
Proof.
  destruct (Nat.le_ge_cases k (length l)); [now rewrite Nat.min_l|].
  rewrite Nat.min_r by assumption. now rewrite firstn_all, firstn_all2.
Qed.

Lemma crash_session_prefix shape ds ct t ops f : increasing (map r_iter ds) -> Forall (fun r : row => (0 <= r_iter r)%Z) ds ->
  Forall (fun r => r_shape r = shape) ds -> r_shape t = shape ->
  feeds_prefix ds (ct, t, ops) -> prefix_file ds f -> prefix_file ds (crash_session f (ct, t, ops)).
Proof.
  intros Hi Hp Hs Ht (k & Hk) Hf. destruct (open_prefix ds ct t f Hi Hp Hf) as (j & Hj & W). rewrite Ht in W.
  cbn [snd] in Hk. destruct (session_run shape ct ds Hi Hp Hs ops _ j 0 W Hj ltac:(lia)) as (j' & W' & Hj' & _).
  - exists (Nat.min k (length ds)). cbn [skipn]. split; [lia|]. rewrite Hk. apply firstn_min.
  - cbn [crash_session]. right. destruct W' as (rd & rp & E & W' & _). exists (length rd).
    unfold session. rewrite (wi_f _ _ _ _ W').
    assert (rd = firstn (length rd) ds).
    { assert (E2 : firstn (length rd) (firstn j' ds) = rd) by (rewrite <- E, firstn_app, firstn_all, Nat.sub_diag; cbn; now rewrite app_nil_r).
      rewrite firstn_firstn in E2. assert (length rd <= j').
      { assert (length (rd ++ rp) = length (firstn j' ds)) by now rewrite E. rewrite app_length, firstn_length in H. lia. }
      rewrite Nat.min_l in E2 by assumption. now symmetry. }
    split; [|now rewrite <- H].
    rewrite H, firstn_length. lia.
Qed.

Lemma restart_exact shape ds sessions ct t ops :
  increasing (map r_iter ds) -> Forall (fun r : row => (0 <= r_iter r)%Z) ds -> Forall (fun r => r_shape r = shape) ds ->
  Forall (fun s => feeds_prefix ds s /\ r_shape (snd (fst s)) = shape) sessions ->
  r_shape t = shape -> appended ops = ds ->
  wclose (session ct t (fold_left crash_session sessions None) ops) = nc_of ds.
Proof.
  intros Hi Hp Hs Hses Ht Hops.
  assert (Hf : prefix_file ds (fold_left crash_session sessions None)).
  { assert (G : forall f, prefix_file ds f -> prefix_file ds (fold_left crash_session sessions f)).
    { induction sessions as [|[[ct' t'] o'] r IH]; intros f Hf; [exact Hf|]. cbn [fold_left].
      inversion Hses as [|? ? [H1 H1t] H2]; subst. apply (IH H2).
      eapply (crash_session_prefix); try eassumption; exact H1t. }
    apply G. now left. }
  destruct (open_prefix ds ct t _ Hi Hp Hf) as (j & Hj & W). rewrite Ht in W.
  destruct (session_run shape ct ds Hi Hp Hs ops _ j 0 W Hj ltac:(lia)) as (j' & W' & Hj' & E).
  - exists (length ds). cbn [skipn]. split; [lia|]. now rewrite Hops, firstn_all.
  - rewrite Hops in E. assert (j' = length ds) by lia. subst j'. rewrite H, firstn_all in W'.
    destruct W' as (rd & rp & Er & W' & _). unfold wclose.
    destruct (close_ok _ _ _ _ W') as (_ & C & _). unfold session. now rewrite C, Er.
Qed.
End W.
