(** Properties C08-C15 (streaming NetCDF conversion). Vocabulary: StreamSpec.v. *)
From Verif Require Import Stream StreamSpec StreamProofs StreamProofs2 StreamProofs3 StreamProofs4.

(** A concrete instance for the examples: values, times, bounds and file contents are integers; a
    negative content is an unreadable (half-written) file, content 777 looks like a RAW dump. *)
Definition zdom : sdom :=
  {| d_val := Z; d_time := Z; d_bnd := Z; d_vfill := 0%Z; d_tfill := 0%Z; d_ifill := 0%Z; d_bfill := 0%Z;
     d_file := Z; d_size := fun x => Z.abs x; d_is_raw := fun x => Z.eqb x 777 |}.
Definition zload : loader (D := zdom) := fun i x =>
  if Z.ltb x 0 then None
  else Some {| r_shape := [4%Z]; r_val := x : d_val zdom; r_time := (10 * i)%Z : d_time zdom; r_iter := i; r_bnd := (x + 1)%Z : d_bnd zdom |}.
Definition zrow (i x : Z) : row (D := zdom) :=
  {| r_shape := [4%Z]; r_val := x : d_val zdom; r_time := (10 * i)%Z : d_time zdom; r_iter := i; r_bnd := (x + 1)%Z : d_bnd zdom |}.
Notation P i x := (@Produce zdom i%Z (x%Z : d_file zdom)).
Definition calm : env :=
  {| e_force := false; e_stat := fun _ => true; e_reap := fun _ => RNone; e_rename := fun _ _ => true;
     e_unlink := fun _ => true; e_list_raises := false |}.
Definition pressed : env :=   (* the scratch is short of space: spill *)
  {| e_force := true; e_stat := fun _ => true; e_reap := fun _ => RNone; e_rename := fun _ _ => true;
     e_unlink := fun _ => true; e_list_raises := false |}.
Definition zconf (staged discard : bool) (ct : nat) : conf :=
  {| c_staged := staged; c_discard := discard; c_ct := ct; c_spill_files := 50; c_spill_bytes := 0; c_raw_rel := false |}.

(* ------------------------------------------------------------------------------------------------ *)
(** C08: batching is invisible.  Whatever the chunk size and the append/flush history, closing leaves
    exactly the appended rows, and before that the file holds a prefix of them, the rest being buffered
    (never a whole batch). *)
Theorem C08_batching_invisible : forall (D : sdom) ct (t : row (D := D)) (ops : list (wop (D := D))),
  Forall (fun r => r_shape r = r_shape t) (appended ops) ->
  let wf := fold_left wstep ops (open_nc ct t None) in
  wclose wf = nc_of (appended ops) /\
  (exists landed pending, appended ops = landed ++ pending /\ snd wf = nc_of landed /\
     w_rows (fst wf) = map r_val pending /\ length pending < Nat.max 1 ct).
Proof. intros D. exact batching_invisible. Qed.
Print Assumptions C08_batching_invisible.

(** A dump of another shape is rejected before anything is buffered or written. *)
Theorem C08_bad_shape_rejected : forall (D : sdom) fl (w : writer (D := D)) f (da : row (D := D)), r_shape da <> w_shape w ->
  append fl w f da = {| l_w := w; l_fl := fl; l_states := []; l_raised := true |}.
Proof. intros D. exact append_bad_shape. Qed.
Print Assumptions C08_bad_shape_rejected.

(** The default chunk: between 1 and 512 rows, and at most 1 MiB unless a single row is bigger. *)
Theorem C08_default_chunk : forall shape,
  (1 <= default_chunk_t shape <= 512)%Z /\
  (default_chunk_t shape = 1 \/ default_chunk_t shape * per_row shape <= target_chunk_bytes)%Z.
Proof. exact default_chunk_ok. Qed.
Print Assumptions C08_default_chunk.

Example C08_nonvacuous :
  wclose (fold_left wstep [WAppend (zrow 1 7); WFlush; WAppend (zrow 2 8); WAppend (zrow 3 9); WAppend (zrow 5 4)] (open_nc 2 (zrow 1 7) None))
  = {| nc_n := 4; nc_val := [7; 8; 9; 4]%Z : list (d_val zdom); nc_time := [10; 20; 30; 50]%Z : list (d_time zdom);
       nc_iter := [1; 2; 3; 5]%Z; nc_bnd := [8; 9; 10; 5]%Z : list (d_bnd zdom) |}.
Proof.
  refine (proj1 (C08_batching_invisible zdom 2 (zrow 1 7)
    [WAppend (zrow 1 7); WFlush; WAppend (zrow 2 8); WAppend (zrow 3 9); WAppend (zrow 5 4)] _)).
  cbn [appended flat_map app]. repeat constructor.
Qed.

(* ------------------------------------------------------------------------------------------------ *)
(** C09: any number of crashed sessions, each fed a prefix of the series and dying between two writer
    calls (the in-memory batch is lost, the file stays), then one full session: exactly the series. *)
Theorem C09_restart_exact : forall (D : sdom) shape (ds : list (row (D := D))) sessions ct t ops,
  increasing (map r_iter ds) -> Forall (fun r => (0 <= r_iter r)%Z) ds -> Forall (fun r => r_shape r = shape) ds ->
  Forall (fun s => feeds_prefix ds s /\ r_shape (snd (fst s)) = shape) sessions ->
  r_shape t = shape -> appended ops = ds ->
  wclose (session ct t (fold_left crash_session sessions None) ops) = nc_of ds.
Proof. intros D. exact restart_exact. Qed.
Print Assumptions C09_restart_exact.

Example C09_nonvacuous :
  let ds := [zrow 1 7; zrow 2 8; zrow 5 9] in
  fold_left crash_session [(2, zrow 1 7, [WAppend (zrow 1 7); WAppend (zrow 2 8); WAppend (zrow 5 9)])] None
    = Some (nc_of [zrow 1 7; zrow 2 8]) /\
  wclose (session 4 (zrow 1 7)
     (fold_left crash_session [(2, zrow 1 7, [WAppend (zrow 1 7); WAppend (zrow 2 8); WAppend (zrow 5 9)])] None)
     [WAppend (zrow 1 7); WAppend (zrow 2 8); WAppend (zrow 5 9)]) = nc_of ds.
Proof.
  cbv zeta. split; [reflexivity|].
  apply (C09_restart_exact zdom [4%Z]); try reflexivity; try (repeat constructor; cbn; lia).
  repeat constructor. exists 3. reflexivity.
Qed.

(** False when the process dies INSIDE a landing: the file has been enlarged but not filled, and the
    fill rows survive the restart. *)
Theorem C09_crash_inside_landing_refuted : exists (ds : list (row (D := zdom))) ct t (w : writer (D := zdom)) f j,
  increasing (map r_iter ds) /\
  (w, f) = session ct t None (map WAppend (firstn 2 ds)) /\          (* reached by appending a prefix of ds *)
  let f' := last (l_states (flush [Some j] w f)) f in               (* the flush dies after j file operations *)
  wclose (session ct t (Some f') (map WAppend ds)) <> nc_of ds.
Proof.
  exists [zrow 1 7; zrow 2 8; zrow 3 9], 5, (zrow 1 7).
  eexists (fst (session 5 (zrow 1 7) None [WAppend (zrow 1 7); WAppend (zrow 2 8)])), _, 1.
  split; [repeat constructor; cbn; lia|]. split; [reflexivity|]. vm_compute. discriminate.
Qed.
Print Assumptions C09_crash_inside_landing_refuted.

(* ------------------------------------------------------------------------------------------------ *)
(** C10: streaming is exact under every schedule: for every history of dumps, rewrites of the newest
    dump, scans under any environment (spill pressure, failing stat / copy / replace / unlink / rename)
    and - when not staged - converter restarts, finalize leaves exactly the readable dumps, in order,
    and reports the diagnostic complete iff there is one. *)
Theorem C10_streaming_exact : forall (D : sdom) (load : loader (D := D)) shape c ops e,
  c_raw_rel c = false -> numbered (produced ops) -> consistent load shape (produced ops) ->
  Forall looks_grid ops -> Forall lists_ok ops -> e_list_raises e = false ->
  (c_staged c = true -> Forall no_restart ops) ->
  let s' := finalize load c e false (run load c [] ops) in
  f_nc (s_fs s') = nc_result (readable load (produced ops)) /\
  (s_completed s' = true -> readable load (produced ops) <> []) /\
  (Forall no_restart ops -> readable load (produced ops) <> [] -> s_completed s' = true).
Proof. intros D load. exact (streaming_exact load). Qed.
Print Assumptions C10_streaming_exact.

(** The same as the batch conversion of the directory holding all the dumps, for any two chunk sizes. *)
Theorem C10_equals_batch : forall (D : sdom) (load : loader (D := D)) shape c ops e ct,
  c_raw_rel c = false -> numbered (produced ops) -> consistent load shape (produced ops) ->
  Forall looks_grid ops -> Forall lists_ok ops -> e_list_raises e = false ->
  (c_staged c = true -> Forall no_restart ops) -> produced ops <> [] ->
  (forall i x, In (i, x) (produced ops) -> load i x <> None) ->
  f_nc (s_fs (finalize load c e false (run load c [] ops))) = convert_streaming load ct (produced ops).
Proof.
  intros D load shape c ops e ct H1 H2 H3 H4 H5 H6 H7 Hne Hr.
  destruct (streaming_exact load shape c ops e H1 H2 H3 H4 H5 H6 H7) as (E & _).
  rewrite E, (convert_ok load shape ct _ H2 H3 Hne Hr). unfold nc_result.
  destruct (readable load (produced ops)) eqn:Er; [|reflexivity]. exfalso.
  destruct (produced ops) as [|[i x] p] eqn:Ep; [congruence|]. cbn in Er.
  specialize (Hr i x (or_introl eq_refl)). destruct (load i x); [discriminate|congruence].
Qed.
Print Assumptions C10_equals_batch.

(** An example history: an unreadable dump, the newest dump first half-written, spilling in the middle. *)
Definition zhist : list (op (D := zdom)) :=
  [P 1 7; Scan calm; P 3 (-1); Rewrite (8%Z : d_file zdom); P 4 (-1); Scan calm; P 6 9; P 8 (-1); Scan pressed; Rewrite (5%Z : d_file zdom); P 9 2; Scan calm].
Example zhist_ok : numbered (produced zhist) /\ consistent zload [4%Z] (produced zhist) /\ Forall looks_grid zhist /\
  Forall lists_ok zhist /\ Forall no_restart zhist.
Proof.
  split; [split; [cbn; repeat (constructor; try lia)|cbn; repeat (constructor; cbn; try lia)]|].
  split; [|split; [repeat (constructor; try reflexivity; try exact I)|split; repeat (constructor; try reflexivity; try exact I)]].
  intros i x r Hin Hl. unfold zload in Hl. destruct (Z.ltb x 0); [discriminate|]. injection Hl as <-. split; reflexivity.
Qed.
Example C10_nonvacuous :
  f_nc (s_fs (finalize zload (zconf true true 2) calm false (run zload (zconf true true 2) [] zhist)))
  = Some (nc_of [zrow 1 7; zrow 3 8; zrow 6 9; zrow 8 5; zrow 9 2]).
Proof.
  destruct zhist_ok as (A & B & C & E & F).
  rewrite (proj1 (C10_streaming_exact zdom zload [4%Z] (zconf true true 2) zhist calm eq_refl A B C E eq_refl (fun _ => F))).
  reflexivity.
Qed.
(** ... and in that history dump 1 really was spilled to the mirror and read back from there. *)
Example C10_spill_happens : s_spilled (run zload (zconf true true 2) [] zhist) = true /\
  f_persist (s_fs (run zload (zconf true true 2) [] zhist)) <> [].
Proof. split; [reflexivity|discriminate]. Qed.

(** Not without the hypothesis on restarts: a staged converter restarted after a spill forgets the
    dumps it has spilled. *)
Theorem C10_restart_staged_refuted : exists c ops, c_raw_rel c = false /\ numbered (produced ops) /\
  consistent zload [4%Z] (produced ops) /\ Forall looks_grid ops /\ Forall lists_ok ops /\
  f_nc (s_fs (finalize zload c calm false (run zload c [] ops))) <> nc_result (readable zload (produced ops)).
Proof.
  exists (zconf true false 2), [P 1 7; P 2 8; Scan pressed; Restart; P 3 9; Scan calm].
  split; [reflexivity|]. split; [split; cbn; repeat (constructor; cbn; try lia)|]. split.
  - intros i x r Hin Hl. unfold zload in Hl. destruct (Z.ltb x 0); [discriminate|]. injection Hl as <-. split; reflexivity.
  - split; [repeat (constructor; try reflexivity; try exact I)|]. split; [repeat (constructor; try reflexivity; try exact I)|]. vm_compute. discriminate.
Qed.
Print Assumptions C10_restart_staged_refuted.

(** Nor when a half-written first dump looks like a RAW dump to the classification peek: the verdict is
    cached and the diagnostic is never streamed, though every final content is a grid dump. *)
Theorem C10_misclassified_refuted : exists c ops, c_raw_rel c = false /\ numbered (produced ops) /\
  consistent zload [4%Z] (produced ops) /\ (forall i x, In (i, x) (produced ops) -> d_is_raw zdom x = false) /\ Forall lists_ok ops /\
  Forall no_restart ops /\ readable zload (produced ops) <> [] /\
  f_nc (s_fs (finalize zload c calm false (run zload c [] ops))) = None.
Proof.
  exists (zconf false false 2), [P 1 777; Scan calm; Rewrite (5%Z : d_file zdom); P 2 8; Scan calm].
  split; [reflexivity|]. split; [split; cbn; repeat (constructor; cbn; try lia)|]. split.
  - intros i x r Hin Hl. unfold zload in Hl. destruct (Z.ltb x 0); [discriminate|]. injection Hl as <-. split; reflexivity.
  - split; [cbn; intros i x [[= <- <-]|[[= <- <-]|[]]]; reflexivity|]. split; [repeat (constructor; try reflexivity; try exact I)|].
    split; [repeat (constructor; try exact I)|]. split; [discriminate|reflexivity].
Qed.
Print Assumptions C10_misclassified_refuted.

(* ------------------------------------------------------------------------------------------------ *)
(** C11: whatever the history, mode, environment and landing faults, a scan of a live run reads, copies,
    deletes and renames only dumps OLDER than the newest one, and leaves the newest in the scratch with
    its contents. *)
Theorem C11_newest_untouched : forall (D : sdom) (load : loader (D := D)) c fl ops e pre i x,
  numbered (produced ops) -> produced ops = pre ++ [(i, x)] ->
  let s' := step load c (run load c fl ops) (Scan e) in
  (forall ev, In ev (s_ev s') -> is_peek ev = false -> (ev_iter ev < i)%Z) /\
  In (i, x) (f_scratch (s_fs s')).
Proof.
  intros D load c fl ops e pre i x Hn E. split.
  - exact (newest_untouched load c fl ops e Hn pre i x E).
  - exact (newest_content_unchanged load c fl ops e Hn pre i x E).
Qed.
Print Assumptions C11_newest_untouched.

Example C11_nonvacuous : exists pre i x, produced zhist = pre ++ [(i, x)] /\ numbered (produced zhist) /\
  In (EvDelete Scratch 1) (s_ev (step zload (zconf true false 2) (run zload (zconf true false 2) [] [P 1 7; P 2 8]) (Scan calm))).
Proof.
  exists [(1%Z, 7%Z); (3%Z, 8%Z); (4%Z, (-1)%Z); (6%Z, 9%Z); (8%Z, 5%Z)], 9%Z, (2%Z : d_file zdom). split; [reflexivity|].
  split; [apply zhist_ok|]. vm_compute. left. reflexivity.
Qed.

(** But the classification peek does open the newest dump when it is the only one. *)
Theorem C11_peek_refuted : exists c ops i x, produced ops = [(i, x)] /\
  In (EvPeek i) (s_ev (step zload c (run zload c [] ops) (Scan calm))).
Proof. exists (zconf false false 2), [P 1 7], 1%Z, (7%Z : d_file zdom). split; [reflexivity|]. vm_compute. left. reflexivity. Qed.
Print Assumptions C11_peek_refuted.

(* ------------------------------------------------------------------------------------------------ *)
(** C12: in place or staged with mirroring, after every single file operation of every scan and of
    finalize - hence at every crash point - every dump produced so far is on disk, complete. *)
Theorem C12_never_lost_mirroring : forall (D : sdom) (load : loader (D := D)) c fl ops,
  numbered (produced ops) -> keeps c ->
  (forall e f, let s := step load c (run load c fl ops) (Scan e) in In f (s_fs s :: s_trace s) ->
     forall d, In d (produced ops) -> on_disk f d) /\
  (forall e b f, let s := finalize load c e b (start_op (run load c fl ops)) in In f (s_fs s :: s_trace s) ->
     forall d, In d (produced ops) -> on_disk f d).
Proof. intros D load. exact (never_lost load). Qed.
Print Assumptions C12_never_lost_mirroring.

Example C12_nonvacuous : keeps (zconf true false 2) /\ numbered (produced zhist) /\
  length (s_trace (step zload (zconf true false 2) (run zload (zconf true false 2) [] [P 1 7; P 2 8; P 3 (-1); P 4 6]) (Scan calm))) = 15.
Proof. split; [now right|]. split; [apply zhist_ok|reflexivity]. Qed.

(** In discard mode: between two scans of a run whose landings succeed, every readable dump is on disk
    or in the NetCDF file. *)
Theorem C12_discard_between_scans : forall (D : sdom) (load : loader (D := D)) shape c ops,
  c_raw_rel c = false -> numbered (produced ops) -> consistent load shape (removelast (produced ops)) ->
  Forall looks_grid ops -> Forall lists_ok ops -> (c_staged c = true -> Forall no_restart ops) ->
  forall i x r, In (i, x) (produced ops) -> load i x = Some r ->
  let f := s_fs (run load c [] ops) in on_disk f (i, x) \/ in_nc (f_nc f) r.
Proof. intros D load. exact (discard_between_scans load). Qed.
Print Assumptions C12_discard_between_scans.

Example C12_discard_nonvacuous : let f := s_fs (run zload (zconf true true 2) [] [P 1 7; P 2 8; Scan calm]) in
  f_scratch f = [(2%Z, 8%Z)] /\ f_persist f = [] /\ f_nc f = Some (nc_of [zrow 1 7]).
Proof. split; [reflexivity|]. split; reflexivity. Qed.

Ltac nodisk := intros [H|[H|[l H]]]; cbn in H; intuition discriminate.
Ltac nonc := intros (g & k & E & Hk & _); injection E as <-; cbn in Hk; lia.

(** False inside a scan: the dump is deleted while its row is only in memory. *)
Theorem C12_discard_mode_refuted : exists c ops f i x r,
  c_staged c = true /\ c_discard c = true /\ numbered (produced ops) /\ In (i, x) (produced ops) /\ zload i x = Some r /\
  In f (s_trace (step zload c (run zload c [] ops) (Scan calm))) /\ ~ on_disk f (i, x) /\ ~ in_nc (f_nc f) r.
Proof.
  exists (zconf true true 5), [P 1 7; P 2 8]. eexists (@Build_fs zdom [(2, 8)]%Z [] [] [] (Some empty_nc)), 1%Z, (7%Z : d_file zdom), _.
  split; [reflexivity|]. split; [reflexivity|]. split; [split; cbn; repeat (constructor; cbn; try lia)|].
  split; [now left|]. split; [reflexivity|]. split.
  - vm_compute. do 5 right. left. reflexivity.
  - split; [nodisk|nonc].
Qed.
Print Assumptions C12_discard_mode_refuted.

(** And for good when the landing itself fails. *)
Theorem C12_discard_failed_landing_refuted : exists c fl ops i x r,
  c_staged c = true /\ c_discard c = true /\ numbered (produced ops) /\ In (i, x) (produced ops) /\ zload i x = Some r /\
  let f := s_fs (finalize zload c calm false (run zload c fl ops)) in ~ on_disk f (i, x) /\ ~ in_nc (f_nc f) r.
Proof.
  exists (zconf true true 5), [Some 0; Some 0], [P 1 7; P 2 8; Scan calm], 1%Z, (7%Z : d_file zdom). eexists.
  split; [reflexivity|]. split; [reflexivity|]. split; [split; cbn; repeat (constructor; cbn; try lia)|].
  split; [now left|]. split; [reflexivity|]. vm_compute. split; [nodisk|].
  intros (g & k & E & Hk & Hv & _). injection E as <-. cbn in Hk, Hv. destruct k as [|[|k]]; cbn in Hv; [discriminate|lia|lia].
Qed.
Print Assumptions C12_discard_failed_landing_refuted.

(* ------------------------------------------------------------------------------------------------ *)
(** C13: after each file operation of a mirror operation (and so wherever it stops), the mirror entry is
    as before or - if there was none - the complete dump; the scratch dump is there unless the mirror
    has an entry; nothing else changes. *)
Theorem C13_mirror_atomic : forall (D : sdom) c e i m (s : st (D := D)) x,
  c_staged c = true -> lookup i (f_scratch (s_fs s)) = Some x ->
  let s' := reap c e i m (start_op s) in
  Forall (fun f =>
    (lookup i (f_persist f) = lookup i (f_persist (s_fs s)) \/
       (lookup i (f_persist (s_fs s)) = None /\ lookup i (f_persist f) = Some x)) /\
    (m = true -> lookup i (f_scratch f) = Some x \/ exists y, lookup i (f_persist f) = Some y) /\
    (forall j, j <> i -> lookup j (f_scratch f) = lookup j (f_scratch (s_fs s)) /\
                         lookup j (f_persist f) = lookup j (f_persist (s_fs s))) /\
    f_nc f = f_nc (s_fs s) /\ f_bad f = f_bad (s_fs s)) (s_fs s' :: s_trace s').
Proof. intros D. exact reap_states. Qed.
Print Assumptions C13_mirror_atomic.

(** Retrying without faults completes the mirror and frees the scratch, whatever an interrupted attempt
    left behind (a ".part" file). *)
Theorem C13_retry_completes : forall (D : sdom) c e i (s : st (D := D)) x,
  c_staged c = true -> lookup i (f_scratch (s_fs s)) = Some x -> e_reap e i = RNone ->
  (lookup i (f_persist (s_fs s)) = None \/ lookup i (f_persist (s_fs s)) = Some x) ->
  let f := s_fs (reap c e i true s) in
  lookup i (f_persist f) = Some x /\ lookup i (f_scratch f) = None /\
  lookup i (f_parts f) = (if lookup i (f_persist (s_fs s)) then lookup i (f_parts (s_fs s)) else None).
Proof. intros D. exact reap_retry. Qed.
Print Assumptions C13_retry_completes.

Definition znew (persist : list (Z * Z)) : st (D := zdom) :=
  {| s_fs := @Build_fs zdom [(1, 7); (2, 8)]%Z persist [(1%Z, None)] [] None;
     s_trace := []; s_ev := []; s_w := None; s_spilled := false; s_bad := []; s_completed := false; s_raw_completed := false; s_is_raw := None; s_fl := [] |}.
Example C13_nonvacuous :
  lookup 1 (f_persist (s_fs (reap (zconf true false 2) calm 1 true (znew [])))) = Some 7%Z /\
  length (s_trace (reap (zconf true false 2) calm 1 true (start_op (znew [])))) = 4.
Proof. split; [exact (proj1 (C13_retry_completes zdom (zconf true false 2) calm 1 (znew []) 7%Z eq_refl eq_refl eq_refl (or_introl eq_refl)))|reflexivity]. Qed.

(** False when the mirror already holds another file under the same name (left by an earlier run): the
    scratch dump is deleted and the stale copy kept. *)
Theorem C13_stale_destination_refuted : exists c (s : st (D := zdom)) i x,
  c_staged c = true /\ lookup i (f_scratch (s_fs s)) = Some x /\
  let f := s_fs (reap c calm i true s) in lookup i (f_scratch f) = None /\ lookup i (f_persist f) <> Some x.
Proof. exists (zconf true false 2), (znew [(1, 99)]%Z), 1%Z, (7%Z : d_file zdom). split; [reflexivity|]. split; [reflexivity|]. split; [reflexivity|discriminate]. Qed.
Print Assumptions C13_stale_destination_refuted.

(* ------------------------------------------------------------------------------------------------ *)
(** C14: false - a NetCDF left partial by a failed stream is saved as if complete, though every dump is
    still on disk and readable and the converter did not report the diagnostic. *)
Theorem C14_partial_nc_saved_refuted : exists c fl ops,
  let s := finalize zload c calm false (run zload c fl ops) in
  c_staged c = false /\ numbered (produced ops) /\ s_completed s = false /\ f_scratch (s_fs s) = produced ops /\
  (forall i x, In (i, x) (produced ops) -> zload i x <> None) /\
  saved_nc zload 2 (f_nc (s_fs s)) (f_scratch (s_fs s)) <> Some (nc_of (readable zload (produced ops))).
Proof.
  exists (zconf false false 1), [None; Some 0; Some 0], [P 1 7; P 2 8; Scan calm; P 3 9]. cbv zeta.
  split; [reflexivity|]. split; [split; cbn; repeat (constructor; cbn; try lia)|]. split; [reflexivity|]. split; [reflexivity|].
  split; [cbn; intros i x [[= <- <-]|[[= <- <-]|[[= <- <-]|[]]]]; discriminate|]. vm_compute. discriminate.
Qed.
Print Assumptions C14_partial_nc_saved_refuted.

(** It holds when no landing failed, and when the failed stream left no NetCDF at all. *)
Theorem C14_saved_exact_without_faults : forall (D : sdom) (load : loader (D := D)) shape c ops e ct,
  c_raw_rel c = false -> numbered (produced ops) -> consistent load shape (produced ops) ->
  Forall looks_grid ops -> Forall lists_ok ops -> e_list_raises e = false ->
  (c_staged c = true -> Forall no_restart ops) -> readable load (produced ops) <> [] ->
  forall ms, saved_nc load ct (f_nc (s_fs (finalize load c e false (run load c [] ops)))) ms
             = Some (nc_of (readable load (produced ops))).
Proof.
  intros D load shape c ops e ct H1 H2 H3 H4 H5 H6 H7 Hne ms.
  destruct (streaming_exact load shape c ops e H1 H2 H3 H4 H5 H6 H7) as (-> & _).
  unfold nc_result. destruct (readable load (produced ops)); [congruence|reflexivity].
Qed.
Print Assumptions C14_saved_exact_without_faults.
Theorem C14_saved_exact_when_absent : forall (D : sdom) (load : loader (D := D)) shape ct ms,
  numbered ms -> consistent load shape ms -> ms <> [] -> (forall i x, In (i, x) ms -> load i x <> None) ->
  saved_nc load ct None ms = Some (nc_of (readable load ms)).
Proof. intros D load. exact (convert_ok load). Qed.
Print Assumptions C14_saved_exact_when_absent.

Example C14_nonvacuous : saved_nc zload 2 (f_nc (s_fs (finalize zload (zconf true true 2) calm false (run zload (zconf true true 2) [] zhist)))) []
  = Some (nc_of [zrow 1 7; zrow 3 8; zrow 6 9; zrow 8 5; zrow 9 2]) /\
  saved_nc zload 2 None [(1, 7); (2, 8)]%Z = Some (nc_of [zrow 1 7; zrow 2 8]).
Proof.
  split.
  - destruct zhist_ok as (A & B & C & E & F).
    exact (C14_saved_exact_without_faults zdom zload [4%Z] (zconf true true 2) zhist calm 2 eq_refl A B C E eq_refl (fun _ => F) ltac:(discriminate) []).
  - reflexivity.
Qed.

(* ------------------------------------------------------------------------------------------------ *)
(** C15: without landing faults, a diagnostic reported complete by finalize has the exact NetCDF. *)
Theorem C15_completed_exact : forall (D : sdom) (load : loader (D := D)) shape c ops e,
  c_raw_rel c = false -> numbered (produced ops) -> consistent load shape (produced ops) ->
  Forall looks_grid ops -> Forall lists_ok ops -> e_list_raises e = false ->
  (c_staged c = true -> Forall no_restart ops) ->
  let s' := finalize load c e false (run load c [] ops) in
  s_completed s' = true -> f_nc (s_fs s') = Some (nc_of (readable load (produced ops))).
Proof.
  intros D load shape c ops e H1 H2 H3 H4 H5 H6 H7 s' Hc.
  destruct (streaming_exact load shape c ops e H1 H2 H3 H4 H5 H6 H7) as (E & Hne & _). unfold s' in *. rewrite E. specialize (Hne Hc).
  unfold nc_result. destruct (readable load (produced ops)); [congruence|reflexivity].
Qed.
Print Assumptions C15_completed_exact.

Example C15_nonvacuous : s_completed (finalize zload (zconf true true 2) calm false (run zload (zconf true true 2) [] zhist)) = true.
Proof. reflexivity. Qed.

(** False when the final sweep raises before reaching the diagnostic: it is reported complete without
    its last dumps. *)
Theorem C15_failed_sweep_refuted : exists c ops, numbered (produced ops) /\
  let s := finalize zload c calm true (run zload c [] ops) in
  s_completed s = true /\ f_nc (s_fs s) <> Some (nc_of (readable zload (produced ops))).
Proof.
  exists (zconf false false 1), [P 1 7; P 2 8; Scan calm; P 3 9].
  split; [split; cbn; repeat (constructor; cbn; try lia)|]. split; [reflexivity|]. vm_compute. discriminate.
Qed.
Print Assumptions C15_failed_sweep_refuted.

(** And when an earlier landing failed half-way: the fill row it left stays in the "complete" series. *)
Theorem C15_fill_rows_refuted : exists c fl ops, numbered (produced ops) /\
  let s := finalize zload c calm false (run zload c fl ops) in
  s_completed s = true /\
  option_map nc_iter (f_nc (s_fs s)) = Some (0%Z :: map r_iter (readable zload (produced ops))).
Proof.
  exists (zconf false false 1), [Some 1; Some 0], [P 1 7; P 2 8; Scan calm].
  split; [split; cbn; repeat (constructor; cbn; try lia)|]. split; reflexivity.
Qed.
Print Assumptions C15_fill_rows_refuted.
