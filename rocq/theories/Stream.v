(** Model of adept/osiris/stream.py (StreamWriter, StreamConverter) for ONE diagnostic directory.

    Scope and simplifications, valid for the whole file:
    - one grid (or RAW) diagnostic [rel]; [StreamConverter] treats diagnostics independently of one
      another (stream.py:521-544), the only shared data being logs and statistics, not modelled;
    - a dump file is identified by its directory (scratch or persist mirror) and its iteration number,
      i.e. a directory holds at most one file per iteration ("-<iter>.h5", io.py:33,76-78), all files
      being of one report series (multi-series directories are skipped, stream.py:476-484);
    - file contents are an abstract type; [d_load] is io.load_grid_h5 (None = it raises),
      [d_size] the size in bytes, [d_is_raw] the peek io._is_raw_h5 (an exception counts as false,
      io.py:260-264);
    - the per-dimension bounds variables {d}_min/{d}_max are one column of abstract bounds;
    - a NetCDF file is its columns; every h5netcdf call (resize, slice write) is one atomic step that is
      durable when it returns, in program order;
    - the watcher thread and finalize do not overlap (finalize joins the thread, stream.py:409-411; a
      join timeout is not modelled);
    - statistics, logging, _prune_empty (directories) are not modelled. *)
From Coq Require Export ZArith List Lia Bool Arith.
Export ListNotations.

Record sdom := {
  d_val : Type; d_time : Type; d_bnd : Type;            (* one dump's values / time / axis bounds *)
  d_vfill : d_val; d_tfill : d_time; d_ifill : Z; d_bfill : d_bnd;   (* HDF5 fill values *)
  d_file : Type;                                         (* contents of an .h5 file *)
  d_size : d_file -> Z;
  d_is_raw : d_file -> bool
}.

Section Stream.
Context {D : sdom}.

(** What io.load_grid_h5 returns (io.py:81-126): shape, values, attrs time / iter, axis bounds. *)
Record row := { r_shape : list Z; r_val : d_val D; r_time : d_time D; r_iter : Z; r_bnd : d_bnd D }.

(** The loader: file name's iteration and contents to a row, or None when it raises. *)
Definition loader := Z -> d_file D -> option row.
Variable load : loader.

(** The NetCDF file: size of the unlimited dimension t and its variables (stream.py:185-216). *)
Record ncfile := { nc_n : nat; nc_val : list (d_val D); nc_time : list (d_time D);
                   nc_iter : list Z; nc_bnd : list (d_bnd D) }.
Definition empty_nc : ncfile := {| nc_n := 0; nc_val := []; nc_time := []; nc_iter := []; nc_bnd := [] |}.

(** h5netcdf resize_dimension / slice assignment on one variable. *)
Definition resize_col {A} (fill : A) (n : nat) (l : list A) : list A :=
  firstn n l ++ repeat fill (n - length l).
Definition slice_set {A} (i : nat) (xs l : list A) : list A :=
  firstn i l ++ xs ++ skipn (i + length xs) l.

(** StreamWriter's fields (stream.py:147-174). *)
Record writer := { w_shape : list Z; w_ct : nat; w_rows : list (d_val D); w_ts : list (d_time D);
                   w_its : list Z; w_bnds : list (d_bnd D); w_ndisk : nat; w_last : Z; w_open : bool }.

(** StreamWriter.__init__ (stream.py:147-174): resume an existing file, else create the schema. *)
Definition open_nc (ct : nat) (template : row) (f : option ncfile) : writer * ncfile :=
  match f with
  | Some f =>
      ({| w_shape := r_shape template; w_ct := ct; w_rows := []; w_ts := []; w_its := []; w_bnds := [];
          w_ndisk := nc_n f;
          w_last := match nc_n f with O => (-1)%Z | S k => nth k (nc_iter f) (d_ifill D) end;
          w_open := true |}, f)
  | None =>
      ({| w_shape := r_shape template; w_ct := ct; w_rows := []; w_ts := []; w_its := []; w_bnds := [];
          w_ndisk := 0; w_last := -1; w_open := true |}, empty_nc)
  end.

(** n_written (stream.py:176-178). *)
Definition n_written (w : writer) : nat := w_ndisk w + length (w_rows w).

(** The file operations of _write_batch (stream.py:236-248), in order. *)
Definition batch_ops (w : writer) : list (ncfile -> ncfile) :=
  let k := length (w_rows w) in let i := w_ndisk w in
  [ (fun f => {| nc_n := i + k; nc_val := resize_col (d_vfill D) (i + k) (nc_val f);
                 nc_time := resize_col (d_tfill D) (i + k) (nc_time f);
                 nc_iter := resize_col (d_ifill D) (i + k) (nc_iter f);
                 nc_bnd := resize_col (d_bfill D) (i + k) (nc_bnd f) |});
    (fun f => {| nc_n := nc_n f; nc_val := slice_set i (w_rows w) (nc_val f); nc_time := nc_time f;
                 nc_iter := nc_iter f; nc_bnd := nc_bnd f |});
    (fun f => {| nc_n := nc_n f; nc_val := nc_val f; nc_time := slice_set i (w_ts w) (nc_time f);
                 nc_iter := nc_iter f; nc_bnd := nc_bnd f |});
    (fun f => {| nc_n := nc_n f; nc_val := nc_val f; nc_time := nc_time f;
                 nc_iter := slice_set i (w_its w) (nc_iter f); nc_bnd := nc_bnd f |});
    (fun f => {| nc_n := nc_n f; nc_val := nc_val f; nc_time := nc_time f;
                 nc_iter := nc_iter f; nc_bnd := slice_set i (w_bnds w) (nc_bnd f) |}) ].

(** Successive file states under a list of operations. *)
Fixpoint states_of (ops : list (ncfile -> ncfile)) (f : ncfile) : list ncfile :=
  match ops with [] => [] | o :: r => o f :: states_of r (o f) end.

(** Result of a writer call: new writer, remaining fault schedule, file states passed through (in
    order), and whether it raised. *)
Record lres := { l_w : writer; l_fl : list (option nat); l_states : list ncfile; l_raised : bool }.

(** _write_batch (stream.py:234-254).  Fault schedule: each landing consumes one entry; [Some j] = the
    j+1-st file operation raises (e.g. ENOSPC).  An empty schedule means no more faults. *)
Definition write_batch (fl : list (option nat)) (w : writer) (f : ncfile) : lres :=
  if negb (w_open w) || (length (w_rows w) =? 0) then
    {| l_w := w; l_fl := fl; l_states := []; l_raised := false |}
  else match hd None fl with
  | Some j => {| l_w := w; l_fl := tl fl; l_states := states_of (firstn j (batch_ops w)) f; l_raised := true |}
  | None =>
      {| l_w := {| w_shape := w_shape w; w_ct := w_ct w; w_rows := []; w_ts := []; w_its := []; w_bnds := [];
                   w_ndisk := w_ndisk w + length (w_rows w); w_last := w_last w; w_open := w_open w |};
         l_fl := tl fl; l_states := states_of (batch_ops w) f; l_raised := false |}
  end.

(** append (stream.py:218-232): shape check first, then buffer, then land when a chunk is full. *)
Definition push_row (w : writer) (da : row) : writer :=
  {| w_shape := w_shape w; w_ct := w_ct w; w_rows := w_rows w ++ [r_val da]; w_ts := w_ts w ++ [r_time da];
     w_its := w_its w ++ [r_iter da]; w_bnds := w_bnds w ++ [r_bnd da]; w_ndisk := w_ndisk w;
     w_last := if (r_iter da >? w_last w)%Z then r_iter da else w_last w; w_open := w_open w |}.
Definition shape_eqb (a b : list Z) : bool := if list_eq_dec Z.eq_dec a b then true else false.
Definition append (fl : list (option nat)) (w : writer) (f : ncfile) (da : row) : lres :=
  if negb (shape_eqb (r_shape da) (w_shape w)) then
    {| l_w := w; l_fl := fl; l_states := []; l_raised := true |}
  else
    let w1 := push_row w da in
    if w_ct w1 <=? length (w_rows w1) then write_batch fl w1 f
    else {| l_w := w1; l_fl := fl; l_states := []; l_raised := false |}.

(** flush (stream.py:256-259). *)
Definition flush (fl : list (option nat)) (w : writer) (f : ncfile) : lres := write_batch fl w f.

(** close (stream.py:261-265): if landing raises, the handle is not closed. *)
Definition close (fl : list (option nat)) (w : writer) (f : ncfile) : lres :=
  let r := write_batch fl w f in
  if l_raised r then r
  else {| l_w := {| w_shape := w_shape (l_w r); w_ct := w_ct (l_w r); w_rows := w_rows (l_w r);
                    w_ts := w_ts (l_w r); w_its := w_its (l_w r); w_bnds := w_bnds (l_w r);
                    w_ndisk := w_ndisk (l_w r); w_last := w_last (l_w r); w_open := false |};
          l_fl := l_fl r; l_states := l_states r; l_raised := false |}.

(* ------------------------------------------------------------------------------------------------ *)
(** * The converter *)

Inductive loc := Scratch | Persist.
Definition loc_eqb (a b : loc) : bool :=
  match a, b with Scratch, Scratch | Persist, Persist => true | _, _ => false end.

(** The file system: the two dump directories, temporary ".part" files of the mirror (None = partially
    copied), quarantined "*.h5.bad" files, and the streamed NetCDF. *)
Definition dir := list (Z * d_file D).
Record fs := { f_scratch : dir; f_persist : dir; f_parts : list (Z * option (d_file D));
               f_bad : list (loc * Z * d_file D); f_nc : option ncfile }.
Definition empty_fs : fs := {| f_scratch := []; f_persist := []; f_parts := []; f_bad := []; f_nc := None |}.

Fixpoint lookup {A} (i : Z) (d : list (Z * A)) : option A :=
  match d with [] => None | (j, c) :: r => if (i =? j)%Z then Some c else lookup i r end.
Definition remove {A} (i : Z) (d : list (Z * A)) : list (Z * A) := filter (fun x => negb (fst x =? i)%Z) d.
Definition dir_of (l : loc) (f : fs) : dir := match l with Scratch => f_scratch f | Persist => f_persist f end.
Definition set_dir (l : loc) (d : dir) (f : fs) : fs :=
  match l with
  | Scratch => {| f_scratch := d; f_persist := f_persist f; f_parts := f_parts f; f_bad := f_bad f; f_nc := f_nc f |}
  | Persist => {| f_scratch := f_scratch f; f_persist := d; f_parts := f_parts f; f_bad := f_bad f; f_nc := f_nc f |}
  end.
Definition set_parts (p : list (Z * option (d_file D))) (f : fs) : fs :=
  {| f_scratch := f_scratch f; f_persist := f_persist f; f_parts := p; f_bad := f_bad f; f_nc := f_nc f |}.
Definition set_bad b (f : fs) : fs :=
  {| f_scratch := f_scratch f; f_persist := f_persist f; f_parts := f_parts f; f_bad := b; f_nc := f_nc f |}.
Definition set_nc n (f : fs) : fs :=
  {| f_scratch := f_scratch f; f_persist := f_persist f; f_parts := f_parts f; f_bad := f_bad f; f_nc := n |}.

(** io._sort_dumps (io.py:282-325) of a single-series directory: iterations, ascending (stable
    insertion sort; Python's sort is stable). *)
Fixpoint insert_by {A} (key : A -> Z) (x : A) (l : list A) : list A :=
  match l with
  | [] => [x]
  | y :: r => if (key x <=? key y)%Z then x :: y :: r else y :: insert_by key x r
  end.
Fixpoint sort_by {A} (key : A -> Z) (l : list A) : list A :=
  match l with [] => [] | x :: r => insert_by key x (sort_by key r) end.
Definition sort_dumps (d : dir) : list Z := sort_by (fun i => i) (map fst d).

(** Accesses to dump files, recorded for C11. *)
Inductive event := EvRead (l : loc) (i : Z) | EvCopy (i : Z) | EvDelete (l : loc) (i : Z)
                 | EvRename (l : loc) (i : Z) | EvPeek (i : Z).

(** StreamConverter's configuration (stream.py:332-366); [c_raw_rel] = the relpath starts with "RAW"
    (io.py:255). *)
Record conf := { c_staged : bool; c_discard : bool; c_ct : nat; c_spill_files : Z; c_spill_bytes : Z; c_raw_rel : bool }.

(** Environment of one scan: whether free space is under the floor (force_spill, stream.py:508-518),
    which stat / reap / rename / unlink calls fail, whether listing the directory raises. *)
Inductive reap_fault := RNone | RCopyFails | RReplaceFails | RUnlinkFails.
Record env := { e_force : bool; e_stat : Z -> bool; e_reap : Z -> reap_fault; e_rename : loc -> Z -> bool;
                e_unlink : Z -> bool; e_list_raises : bool }.

(** Converter state for the diagnostic: the file system, every file-system state and file access of the
    current operation (newest first), self._writers.get(rel), rel in self._spilled, self._bad,
    rel in self._completed / _raw_completed, the cached classification self._is_raw, fault schedule. *)
Record st := { s_fs : fs; s_trace : list fs; s_ev : list event; s_w : option writer; s_spilled : bool;
               s_bad : list (loc * Z); s_completed : bool; s_raw_completed : bool; s_is_raw : option bool;
               s_fl : list (option nat) }.
Definition init_st (fl : list (option nat)) : st :=
  {| s_fs := empty_fs; s_trace := []; s_ev := []; s_w := None; s_spilled := false; s_bad := [];
     s_completed := false; s_raw_completed := false; s_is_raw := None; s_fl := fl |}.

(** One atomic file-system operation. *)
Definition do_fs (g : fs -> fs) (s : st) : st :=
  {| s_fs := g (s_fs s); s_trace := g (s_fs s) :: s_trace s; s_ev := s_ev s; s_w := s_w s; s_spilled := s_spilled s;
     s_bad := s_bad s; s_completed := s_completed s; s_raw_completed := s_raw_completed s; s_is_raw := s_is_raw s; s_fl := s_fl s |}.
Definition emit (e : event) (s : st) : st :=
  {| s_fs := s_fs s; s_trace := s_trace s; s_ev := e :: s_ev s; s_w := s_w s; s_spilled := s_spilled s;
     s_bad := s_bad s; s_completed := s_completed s; s_raw_completed := s_raw_completed s; s_is_raw := s_is_raw s; s_fl := s_fl s |}.
Definition set_w (w : option writer) (s : st) : st :=
  {| s_fs := s_fs s; s_trace := s_trace s; s_ev := s_ev s; s_w := w; s_spilled := s_spilled s;
     s_bad := s_bad s; s_completed := s_completed s; s_raw_completed := s_raw_completed s; s_is_raw := s_is_raw s; s_fl := s_fl s |}.
Definition set_fl (fl : list (option nat)) (s : st) : st :=
  {| s_fs := s_fs s; s_trace := s_trace s; s_ev := s_ev s; s_w := s_w s; s_spilled := s_spilled s;
     s_bad := s_bad s; s_completed := s_completed s; s_raw_completed := s_raw_completed s; s_is_raw := s_is_raw s; s_fl := fl |}.
Definition set_spilled (b : bool) (s : st) : st :=
  {| s_fs := s_fs s; s_trace := s_trace s; s_ev := s_ev s; s_w := s_w s; s_spilled := b;
     s_bad := s_bad s; s_completed := s_completed s; s_raw_completed := s_raw_completed s; s_is_raw := s_is_raw s; s_fl := s_fl s |}.
Definition add_bad (l : loc) (i : Z) (s : st) : st :=
  {| s_fs := s_fs s; s_trace := s_trace s; s_ev := s_ev s; s_w := s_w s; s_spilled := s_spilled s;
     s_bad := (l, i) :: s_bad s; s_completed := s_completed s; s_raw_completed := s_raw_completed s; s_is_raw := s_is_raw s; s_fl := s_fl s |}.
Definition set_completed (s : st) : st :=
  {| s_fs := s_fs s; s_trace := s_trace s; s_ev := s_ev s; s_w := s_w s; s_spilled := s_spilled s;
     s_bad := s_bad s; s_completed := true; s_raw_completed := s_raw_completed s; s_is_raw := s_is_raw s; s_fl := s_fl s |}.
Definition set_raw_completed (s : st) : st :=
  {| s_fs := s_fs s; s_trace := s_trace s; s_ev := s_ev s; s_w := s_w s; s_spilled := s_spilled s;
     s_bad := s_bad s; s_completed := s_completed s; s_raw_completed := true; s_is_raw := s_is_raw s; s_fl := s_fl s |}.
Definition set_is_raw (b : bool) (s : st) : st :=
  {| s_fs := s_fs s; s_trace := s_trace s; s_ev := s_ev s; s_w := s_w s; s_spilled := s_spilled s;
     s_bad := s_bad s; s_completed := s_completed s; s_raw_completed := s_raw_completed s; s_is_raw := Some b; s_fl := s_fl s |}.

(** Put the outcome of a writer call into the state: the file passes through its states. *)
Definition put_lres (r : lres) (s : st) : st :=
  set_fl (l_fl r) (set_w (Some (l_w r))
    (fold_left (fun s f => do_fs (set_nc (Some f)) s) (l_states r) s)).
Definition cur_nc (s : st) : ncfile := match f_nc (s_fs s) with Some f => f | None => empty_nc end.

(** _reap (stream.py:710-729).  [copyfile] is two steps (destination truncated, then complete);
    os.replace and unlink are one each. *)
Definition reap (c : conf) (e : env) (i : Z) (mirror : bool) (s : st) : st :=
  if negb (c_staged c) then s else
  match lookup i (f_scratch (s_fs s)) with
  | None => s                                            (* copy / unlink raises: deferred *)
  | Some x =>
      let '(s1, ok) :=
        if mirror then
          match lookup i (f_persist (s_fs s)) with
          | Some _ => (s, true)                          (* dest.exists() *)
          | None =>
              let s0 := emit (EvCopy i) s in
              let sp := do_fs (fun f => set_parts ((i, None) :: remove i (f_parts f)) f) s0 in
              match e_reap e i with
              | RCopyFails => (sp, false)
              | _ =>
                  let sf := do_fs (fun f => set_parts ((i, Some x) :: remove i (f_parts f)) f) sp in
                  match e_reap e i with
                  | RReplaceFails => (sf, false)
                  | _ => (do_fs (fun f => set_parts (remove i (f_parts f))
                                          (set_dir Persist (f_persist f ++ [(i, x)]) f)) sf, true)
                  end
              end
          end
        else (s, true) in
      if ok then
        match e_reap e i with
        | RUnlinkFails => s1
        | _ => do_fs (fun f => set_dir Scratch (remove i (f_scratch f)) f) (emit (EvDelete Scratch i) s1)
        end
      else s1
  end.

(** _cleanup_consumed (stream.py:657-670). *)
Definition cleanup_consumed (c : conf) (e : env) (l : loc) (i : Z) (s : st) : st :=
  if negb (c_staged c) then s else
  match l with
  | Persist =>
      if c_discard c && e_unlink e i
      then do_fs (fun f => set_dir Persist (remove i (f_persist f)) f) (emit (EvDelete Persist i) s)
      else s
  | Scratch => reap c e i (negb (c_discard c)) s
  end.

(** _quarantine (stream.py:672-683). *)
Definition quarantine (e : env) (l : loc) (i : Z) (s : st) : st :=
  match lookup i (dir_of l (s_fs s)) with
  | Some x =>
      if e_rename e l i
      then do_fs (fun f => set_bad ((l, i, x) :: f_bad f) (set_dir l (remove i (dir_of l f)) f)) (emit (EvRename l i) s)
      else add_bad l i s
  | None => add_bad l i s
  end.

(** io.load_grid_h5(p): reads the file as it is now. *)
Definition load_file (l : loc) (i : Z) (s : st) : st * option row :=
  (emit (EvRead l i) s, match lookup i (dir_of l (s_fs s)) with Some x => load i x | None => None end).

Definition is_bad (s : st) (p : loc * Z) : bool :=
  existsb (fun q => loc_eqb (fst p) (fst q) && (snd p =? snd q)%Z) (s_bad s).

(** The loop of _drain_grid (stream.py:612-625); the flag says an exception escaped. *)
Fixpoint consume (c : conf) (e : env) (cands : list (loc * Z)) (s : st) {struct cands} : st * bool :=
  match cands with
  | [] => (s, false)
  | (l, i) :: r =>
      match s_w s with
      | None => (s, true)                                 (* not reachable: a writer is open *)
      | Some w =>
          if (i <=? w_last w)%Z then consume c e r (cleanup_consumed c e l i s)
          else
            let '(s1, o) := load_file l i s in
            match o with
            | None => consume c e r (quarantine e l i s1)
            | Some da =>
                let a := append (s_fl s1) w (cur_nc s1) da in
                let s2 := put_lres a s1 in
                if l_raised a then (s2, true) else consume c e r (cleanup_consumed c e l i s2)
            end
      end
  end.

(** _open_writer (stream.py:635-655): returns the remaining candidates. *)
Fixpoint open_writer (c : conf) (e : env) (cands : list (loc * Z)) (s : st) {struct cands} : st * list (loc * Z) * bool :=
  match cands with
  | [] => (s, [], false)
  | (l, i) :: r =>
      let '(s1, o) := load_file l i s in
      match o with
      | None => open_writer c e r (quarantine e l i s1)
      | Some t =>
          let '(w, f) := open_nc (c_ct c) t (f_nc (s_fs s1)) in
          let s2 := set_w (Some w) (do_fs (set_nc (Some f)) s1) in
          if n_written w =? 0 then
            let a := append (s_fl s2) w f t in
            let s3 := put_lres a s2 in
            if l_raised a then (s3, r, true) else (cleanup_consumed c e l i s3, r, false)
          else (s2, cands, false)
      end
  end.

(** The part of _drain_grid after the candidates are known (stream.py:603-633). *)
Definition stream_candidates (c : conf) (e : env) (final : bool) (cands : list (loc * Z)) (s : st) : st * bool :=
  match cands with
  | [] => (s, false)
  | _ =>
      let '(s1, cands1, raised) :=
        match s_w s with Some _ => (s, cands, false) | None => open_writer c e cands s end in
      if raised then (s1, true) else
      match s_w s1 with
      | None => (s1, false)
      | Some _ =>
          let '(s2, raised2) := consume c e cands1 s1 in
          if raised2 then (s2, true) else
          match s_w s2 with
          | None => (s2, false)                           (* not reachable *)
          | Some w =>
              let fr := flush (s_fl s2) w (cur_nc s2) in
              let s3 := put_lres fr s2 in
              if l_raised fr then (s3, true)
              else if final then
                let cr := close (s_fl s3) (l_w fr) (cur_nc s3) in
                let s4 := put_lres cr s3 in
                if l_raised cr then (s4, true) else (set_completed s4, false)
              else (s3, false)
          end
      end
  end.

(** _drain_grid (stream.py:549-633). *)
Definition pending_bytes (e : env) (s : st) (safe : list (loc * Z)) : Z :=
  fold_right Z.add 0%Z (map (fun p => if e_stat e (snd p) then
    match lookup (snd p) (f_scratch (s_fs s)) with Some x => d_size D x | None => 0%Z end else 0%Z) safe).
Definition over_threshold (c : conf) (n : nat) (bytes : Z) : bool :=
  (negb (c_spill_files c =? 0) && (Z.of_nat n >? c_spill_files c))%Z
  || (negb (c_spill_bytes c =? 0) && (bytes >? c_spill_bytes c))%Z.
Definition drain_grid (c : conf) (e : env) (final : bool) (s : st) : st * bool :=
  if e_list_raises e then (s, true) else
  let dumps := filter (fun p => negb (is_bad s p)) (map (fun i => (Scratch, i)) (sort_dumps (f_scratch (s_fs s)))) in
  let safe := if final then dumps else removelast dumps in
  let bytes := if c_staged c then pending_bytes e s safe else 0%Z in
  if c_staged c && negb final
     && (e_force e || s_spilled s || over_threshold c (length safe) bytes) then
    (fold_left (fun s p => reap c e (snd p) true s) safe (set_spilled true s), false)
  else
    let cands :=
      if final && c_staged c && s_spilled s
      then sort_by snd (filter (fun p => negb (is_bad s p)) (map (fun i => (Persist, i)) (sort_dumps (f_persist (s_fs s)))) ++ safe)
      else safe in
    stream_candidates c e final cands s.

(** _drain_raw (stream.py:699-708). *)
Definition drain_raw (c : conf) (e : env) (final : bool) (s : st) : st * bool :=
  if e_list_raises e then (s, true) else
  let dumps := sort_dumps (f_scratch (s_fs s)) in
  match dumps with
  | [] => (s, false)
  | _ =>
      let safe := if final then dumps else removelast dumps in
      let s1 := fold_left (fun s i => reap c e i true s) safe s in
      (if final then set_raw_completed s1 else s1, false)
  end.

(** _diag_is_raw with its cache (stream.py:498-503, io.py:248-264): peeks at the lowest dump. *)
Definition classify (c : conf) (s : st) : st * bool :=
  match s_is_raw s with
  | Some b => (s, b)
  | None =>
      if c_raw_rel c then (set_is_raw true s, true) else
      match sort_dumps (f_scratch (s_fs s)) with
      | [] => (set_is_raw false s, false)
      | i :: _ =>
          let b := match lookup i (f_scratch (s_fs s)) with Some x => d_is_raw D x | None => false end in
          (set_is_raw b (emit (EvPeek i) s), b)
      end
  end.

(** _scan_once restricted to this diagnostic (stream.py:521-544).  The diagnostic is discovered when its
    directory holds a dump (stream.py:461-486). *)
Definition scan_once (c : conf) (e : env) (final : bool) (s : st) : st :=
  match f_scratch (s_fs s) with
  | [] => s
  | _ =>
      if s_completed s || s_raw_completed s then s else
      let '(s0, raw) := classify c s in
      let '(s1, raised) :=
        if raw then (if c_staged c then drain_raw c e final s0 else (s0, false)) else drain_grid c e final s0 in
      if raised then
        match s_w s1 with                                 (* pop the writer, close it, swallow errors *)
        | None => s1
        | Some w => set_w None (put_lres (close (s_fl s1) w (cur_nc s1)) s1)
        end
      else s1
  end.

(** finalize (stream.py:397-422); [disc_raises] = the final sweep raises before reaching this diagnostic
    (e.g. in discovery). *)
Definition finalize (c : conf) (e : env) (disc_raises : bool) (s : st) : st :=
  let s1 := if disc_raises then s else scan_once c e true s in
  match s_w s1 with
  | None => s1
  | Some w => set_completed (put_lres (close (s_fl s1) w (cur_nc s1)) s1)
  end.

(** What happens to the diagnostic over a run: OSIRIS creates a new dump file (with whatever it has
    written so far), rewrites the contents of its newest dump, the watcher scans, or the converter
    process is restarted between two scans (a new StreamConverter over the same directories; the
    in-memory batch is empty between scans, stream.py:626). *)
Inductive op := Produce (i : Z) (x : d_file D) | Rewrite (x : d_file D) | Scan (e : env) | Restart.
Definition start_op (s : st) : st :=
  {| s_fs := s_fs s; s_trace := []; s_ev := []; s_w := s_w s; s_spilled := s_spilled s;
     s_bad := s_bad s; s_completed := s_completed s; s_raw_completed := s_raw_completed s; s_is_raw := s_is_raw s; s_fl := s_fl s |}.
Fixpoint rewrite_last (x : d_file D) (d : dir) : dir :=
  match d with [] => [] | [(i, _)] => [(i, x)] | y :: r => y :: rewrite_last x r end.
Definition step (c : conf) (s : st) (o : op) : st :=
  match o with
  | Produce i x => do_fs (fun f => set_dir Scratch (f_scratch f ++ [(i, x)]) f) (start_op s)
  | Rewrite x => do_fs (fun f => set_dir Scratch (rewrite_last x (f_scratch f)) f) (start_op s)
  | Scan e => scan_once c e false (start_op s)
  | Restart => {| s_fs := s_fs s; s_trace := [s_fs s]; s_ev := []; s_w := None; s_spilled := false; s_bad := [];
                  s_completed := false; s_raw_completed := false; s_is_raw := None; s_fl := s_fl s |}
  end.
Definition run (c : conf) (fl : list (option nat)) (ops : list op) : st := fold_left (step c) ops (init_st fl).

(** convert_diagnostic_streaming (stream.py:268-292): the batch conversion of a directory; None = it
    raises (the [finally: close] still leaves a file, ignored here: the caller drops it). *)
Fixpoint append_all (fl : list (option nat)) (w : writer) (f : ncfile) (rs : list row) : lres * ncfile :=
  match rs with
  | [] => ({| l_w := w; l_fl := fl; l_states := []; l_raised := false |}, f)
  | da :: r => let a := append fl w f da in
               let f1 := last (l_states a) f in
               if l_raised a then (a, f1) else append_all (l_fl a) (l_w a) f1 r
  end.
Fixpoint load_all (d : dir) (is : list Z) : option (list row) :=
  match is with
  | [] => Some []
  | i :: r => match lookup i d with
              | None => None
              | Some x => match load i x, load_all d r with Some a, Some b => Some (a :: b) | _, _ => None end
              end
  end.
Definition convert_streaming (ct : nat) (d : dir) : option ncfile :=
  match load_all d (sort_dumps d) with
  | None | Some [] => None
  | Some (t :: rs) =>
      let '(w, f) := open_nc ct t None in
      let '(a, f1) := append_all [] w f (t :: rs) in
      if l_raised a then None else
      let k := close (l_fl a) (l_w a) f1 in Some (last (l_states k) f1)
  end.

(** _default_chunk_t (stream.py:107-110) with float32 data (io.py:40): [_TARGET_CHUNK_BYTES] = 2^20,
    4 bytes per value. *)
Definition target_chunk_bytes : Z := 2 ^ 20.
Definition per_row (shape : list Z) : Z := (Z.max 1 (fold_right Z.mul 1 shape) * 4)%Z.
Definition default_chunk_t (shape : list Z) : Z := Z.max 1 (Z.min 512 (target_chunk_bytes / per_row shape)).

(** save_run_datasets's choice for a grid diagnostic (io.py:731-752): the streamed NetCDF if the file
    exists, else a conversion of the directory.  [ms] is the durable MS directory of the diagnostic. *)
Definition saved_nc (ct : nat) (streamed : option ncfile) (ms : dir) : option ncfile :=
  match streamed with Some f => Some f | None => convert_streaming ct ms end.

End Stream.
