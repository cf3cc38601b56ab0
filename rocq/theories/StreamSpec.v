(** Specification vocabulary for C08-C15, independent of the converter's internals. *)
From Verif Require Import Stream.

Section Spec.
Context {D : sdom} (load : loader (D := D)).
Notation writer := (Stream.writer (D := D)).
Notation ncfile := (Stream.ncfile (D := D)).
Notation row := (Stream.row (D := D)).
Notation op := (Stream.op (D := D)).

(** The NetCDF time series holding exactly the rows [rs], in this order. *)
Definition nc_of (rs : list row) : ncfile :=
  {| nc_n := length rs; nc_val := map r_val rs; nc_time := map r_time rs; nc_iter := map r_iter rs;
     nc_bnd := map r_bnd rs |}.

(** The dumps OSIRIS has written after a history, oldest first, with their current contents. *)
Definition produce1 (p : list (Z * d_file D)) (o : op) : list (Z * d_file D) :=
  match o with
  | Produce i x => p ++ [(i, x)]
  | Rewrite x => match rev p with [] => [] | (i, _) :: r => rev r ++ [(i, x)] end
  | Scan _ | Restart => p
  end.
Definition produced (ops : list op) : list (Z * d_file D) := fold_left produce1 ops [].

(** The rows of the readable dumps, in order. *)
Definition readable (p : list (Z * d_file D)) : list row :=
  flat_map (fun d => match load (fst d) (snd d) with Some r => [r] | None => [] end) p.

Fixpoint increasing (l : list Z) : Prop :=
  match l with [] => True | i :: r => Forall (fun j => (i < j)%Z) r /\ increasing r end.

(** OSIRIS numbers its dumps with increasing, non-negative iterations. *)
Definition numbered (p : list (Z * d_file D)) : Prop := increasing (map fst p) /\ Forall (fun d => (0 <= fst d)%Z) p.

(** The contents agree with the file names and have one shape. *)
Definition consistent (shape : list Z) (p : list (Z * d_file D)) : Prop :=
  forall i x r, In (i, x) p -> load i x = Some r -> r_iter r = i /\ r_shape r = shape.

(** Every content OSIRIS ever shows looks like a grid dump to the peek. *)
Definition looks_grid (o : op) : Prop :=
  match o with Produce _ x | Rewrite x => d_is_raw D x = false | _ => True end.

(** The scan's directory listing works. *)
Definition lists_ok (o : op) : Prop := match o with Scan e => e_list_raises e = false | _ => True end.
Definition no_restart (o : op) : Prop := match o with Restart => False | _ => True end.

(** A dump is somewhere on disk, complete: in the scratch, in the mirror, or set aside as *.bad. *)
Definition on_disk (f : fs (D := D)) (d : Z * d_file D) : Prop :=
  In d (f_scratch f) \/ In d (f_persist f) \/ exists l, In (l, fst d, snd d) (f_bad f).

(** A row is stored in the NetCDF file. *)
Definition in_nc (f : option ncfile) (r : row) : Prop :=
  exists g k, f = Some g /\ k < nc_n g /\ nth_error (nc_val g) k = Some (r_val r) /\ nth_error (nc_time g) k = Some (r_time r) /\
    nth_error (nc_iter g) k = Some (r_iter r) /\ nth_error (nc_bnd g) k = Some (r_bnd r).

(** The iteration an access concerns; a peek (classification) is told apart. *)
Definition ev_iter (e : event) : Z :=
  match e with EvRead _ i | EvCopy i | EvDelete _ i | EvRename _ i | EvPeek i => i end.
Definition is_peek (e : event) : bool := match e with EvPeek _ => true | _ => false end.

(** Writer histories: append a row, flush. *)
Inductive wop := WAppend (r : row) | WFlush.
Definition appended (ops : list wop) : list row :=
  flat_map (fun o => match o with WAppend r => [r] | WFlush => [] end) ops.
(** Running them without faults; the file goes through the landings. *)
Definition wstep (wf : writer * ncfile) (o : wop) : writer * ncfile :=
  let r := match o with WAppend da => append [] (fst wf) (snd wf) da | WFlush => flush [] (fst wf) (snd wf) end in
  (l_w r, last (l_states r) (snd wf)).
Definition wclose (wf : writer * ncfile) : ncfile := last (l_states (close [] (fst wf) (snd wf))) (snd wf).

(** A writer session as the drain loop runs it (stream.py:606-626): dumps at or below last_iter are
    skipped; flushes may come anywhere. *)
Definition sstep (wf : writer * ncfile) (o : wop) : writer * ncfile :=
  match o with
  | WAppend da => if (r_iter da <=? w_last (fst wf))%Z then wf else wstep wf o
  | WFlush => wstep wf o
  end.
(** Open (or reopen) the file and run the session; what survives a crash is the file. *)
Definition session (ct : nat) (t : row) (f : option ncfile) (ops : list wop) : writer * ncfile :=
  fold_left sstep ops (open_nc ct t f).
Definition crash_session (f : option ncfile) (s : nat * row * list wop) : option ncfile :=
  let '(ct, t, ops) := s in Some (snd (session ct t f ops)).

(** A session is fed dumps of the series [ds] in order, from the first one on. *)
Definition feeds_prefix (ds : list row) (s : nat * row * list wop) : Prop :=
  exists k, appended (snd s) = firstn k ds.

(** What the streamed file must be: absent when no dump is readable. *)
Definition nc_result (rs : list row) : option ncfile := match rs with [] => None | _ => Some (nc_of rs) end.

(** Modes in which the HDF5 dumps are kept: in place, or staged with mirroring. *)
Definition keeps (c : conf) : Prop := c_staged c = false \/ c_discard c = false.

End Spec.
