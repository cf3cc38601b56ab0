(** Model of the discrete parts of adept/osiris/io.py: dump names, series, time selection, RAW series,
    diagnostic listing, autoscaled axes, HIST tables.

    Simplifications: names are Latin-1 strings (PyStr.v) without a trailing newline; the order of a
    dictionary that is only looked up by key is not tracked. *)
From Verif Require Export PyStr.
From Verif Require Stream.

Notation sort_by := Stream.sort_by.

(* ------------------------------------------------------------------------------------------------ *)
(** * Dump names and series *)

(** [p.suffix == ".h5"] (pathlib: the name ends with ".h5" and something precedes it). *)
Definition h5_suffix (n : str) : bool := ends_with (lit ".h5") n && Nat.ltb 3 (List.length n).

(** The longest prefix of [s] satisfying [f], and the rest. *)
Fixpoint span (f : ascii -> bool) (s : str) : str * str :=
  match s with
  | c :: r => if f c then let (a, b) := span f r in (c :: a, b) else ([], s)
  | [] => ([], [])
  end.

(** The match of [_ITER_RE] / [_BASE_RE] = -(\d+)\.h5$ (io.py:33,267): (text before the dash, digits). *)
Definition split_dump (n : str) : option (str * str) :=
  if ends_with (lit ".h5") n then
    let (ds, r) := span is_digit (skipn 3 (rev n)) in
    match ds, r with
    | _ :: _, c :: b => if aeqb c "-" then Some (rev b, rev ds) else None
    | _, _ => None
    end
  else None.

(** _iter_from_name (io.py:76-78). *)
Definition iter_from_name (n : str) : Z :=
  match split_dump n with Some (_, ds) => Z.of_N (digits_to_n ds) | None => -1 end.

(** _dump_base (io.py:270-280): the name minus the match. *)
Definition dump_base (n : str) : str := match split_dump n with Some (b, _) => b | None => n end.

(** _series_dumps (io.py:282-291); a directory listing is the list of (name, is_file). *)
Definition listing := list (str * bool).
Definition dump_names (l : listing) : list str := map fst (filter (fun e => snd e && h5_suffix (fst e)) l).
Definition add_dump (g : dict (list str)) (n : str) : dict (list str) :=
  let b := dump_base n in
  dset b ((match dget b g with Some ns => ns | None => [] end) ++ [n]) g.
Definition series_dumps (l : listing) : dict (list str) :=
  map (fun e => (fst e, sort_by iter_from_name (snd e))) (fold_left add_dump (dump_names l) []).

(** _sort_dumps on a directory (io.py:307-325) without / with a base; None = it raises ValueError. *)
Definition sort_dumps (l : listing) (base : option str) : option (list str) :=
  let g := series_dumps l in
  match base with
  | Some b => Some (match dget b g with Some ns => ns | None => [] end)
  | None => match g with [] => Some [] | [(_, ns)] => Some ns | _ => None end
  end.

(* ------------------------------------------------------------------------------------------------ *)
(** * Time selection *)

Inductive io_err := IndexError | ValueError | FileNotFoundError.
Inductive ires (A : Type) := IOk (a : A) | IErr (e : io_err).
Arguments IOk {A}. Arguments IErr {A}.

(** _normalize_t_indices (io.py:344-355). *)
Fixpoint normalize_loop (ts : list Z) (n : Z) : ires (list Z) :=
  match ts with
  | [] => IOk []
  | i :: r =>
      let j := if (i <? 0)%Z then (i + n)%Z else i in
      if (0 <=? j)%Z && (j <? n)%Z then
        match normalize_loop r n with IOk js => IOk (j :: js) | IErr e => IErr e end
      else IErr IndexError
  end.
Definition normalize_t_indices (ts : list Z) (n : Z) : ires (list Z) :=
  match normalize_loop ts n with
  | IErr e => IErr e
  | IOk [] => IErr ValueError
  | IOk js => IOk js
  end.

(** The dumps load_series reads (io.py:377-385); the per-dump contents follow by loading each. *)
Definition select_dumps {A} (dumps : list A) (ts : option (list Z)) : ires (list A) :=
  match dumps with
  | [] => IErr FileNotFoundError
  | d :: _ =>
      match ts with
      | None => IOk dumps
      | Some ts =>
          match normalize_t_indices ts (Z.of_nat (List.length dumps)) with
          | IErr e => IErr e
          | IOk js => IOk (map (fun j => nth (Z.to_nat j) dumps d) js)
          end
      end
  end.

(* ------------------------------------------------------------------------------------------------ *)
(** * RAW series *)

(** The dumps load_raw_series keeps (io.py:209-219). *)
Definition raw_kept (drop_initial : bool) (dumps : list str) : list str :=
  if drop_initial && Nat.ltb 1 (List.length dumps) then
    match filter (fun p => negb (iter_from_name p =? 0)%Z) dumps with [] => dumps | l => l end
  else dumps.

(** The concatenation (io.py:221-238): rows of each dump, in order, each with its dump's time and
    iteration. *)
Definition raw_concat {P T} (load : str -> list P * T * Z) (dumps : list str) : list (P * T * Z) :=
  flat_map (fun d => let '(ps, t, i) := load d in map (fun p => (p, t, i)) ps) dumps.

(* ------------------------------------------------------------------------------------------------ *)
(** * Listing diagnostics (io.py:465-515) *)

Inductive handle := HDir (rel : str) | HSeries (rel base : str) | HNc (rel : str).

Definition slash : ascii := "/".
Definition synth (rel base : str) : str := rel ++ slash :: base.

(** One directory of the MS walk (io.py:484-499). *)
Definition add_dir (out : dict handle) (d : str * listing) : dict handle :=
  let (rel, l) := d in
  match series_dumps l with
  | [] => out
  | [_] => dset rel (HDir rel) out
  | g => fold_left (fun o e => dset (synth rel (fst e)) (HSeries rel (fst e)) o) g out
  end.
Definition setdefault {V} (out : dict V) (k : str) (v : V) : dict V := if dmem k out then out else out ++ [(k, v)].
(** [ms]: the directories under MS with their listings; [ncs]: the keys of list_diagnostics_nc of
    run_dir/binary. *)
Definition list_diagnostics (ms : list (str * listing)) (ncs : list str) : dict handle :=
  fold_left (fun o r => setdefault o r (HNc r)) ncs (fold_left add_dir ms []).

(** What load_series finds behind a handle: _sort_dumps through _resolve_series (io.py:294-325): a
    handle that IS a directory is that directory, otherwise its last component is a base.  [d / base] is
    [d] itself for the bases "" (a dump named "-5.h5") and "." (pathlib); for ".." it is the parent, which
    is not modelled (None). *)
Definition dir_listing (ms : list (str * listing)) (rel : str) : option listing := dget rel ms.
Definition dir_dumps (ms : list (str * listing)) (rel : str) (base : option str) : option (str * list str) :=
  match dir_listing ms rel with
  | Some l => match sort_dumps l base with Some ns => Some (rel, ns) | None => None end
  | None => None
  end.
(** (directory, names of its dumps in order), or None = load_series raises. *)
Definition handle_dumps (ms : list (str * listing)) (h : handle) : option (str * list str) :=
  match h with
  | HDir rel => dir_dumps ms rel None
  | HSeries rel base =>
      if str_eqb base [] || str_eqb base (lit ".") then dir_dumps ms rel None
      else if str_eqb base (lit "..") then None
      else match dir_listing ms (synth rel base) with
           | Some _ => dir_dumps ms (synth rel base) None
           | None => dir_dumps ms rel (Some base)
           end
  | HNc _ => None
  end.

(* ------------------------------------------------------------------------------------------------ *)
(** * Autoscaled axes (io.py:404-461, 588-638; stream.py:185-216) for one dimension *)
Section Axis.
Variable B : Type.                       (* a bound (float64) *)
Variable close : B -> B -> bool.         (* np.isclose(a, b) *)

(** The series: the dumps' (min, max) in time order; the first dump is non-missing. *)
Definition moves (bs : list (B * B)) : bool :=
  match bs with
  | [] => false
  | b0 :: _ => negb (forallb (fun b => close (fst b) (fst b0)) bs && forallb (fun b => close (snd b) (snd b0)) bs)
  end.

(** A loaded series' metadata for the dimension: the nominal axis, the per-dump bounds coordinates if
    carried, and whether the dimension is listed in autoscaled_dims. *)
Record axis_meta := { ax_nominal : B * B; ax_bounds : option (list (B * B)); ax_auto : bool }.

(** load_series off the HDF5 dumps (io.py:416-427). *)
Definition axis_h5 (bs : list (B * B)) (d : B * B) : axis_meta :=
  {| ax_nominal := hd d bs; ax_bounds := if moves bs then Some bs else None; ax_auto := moves bs |}.
(** series_to_dataset + to_netcdf + load_series_nc of that (io.py:537-638). *)
Definition reload (m : axis_meta) : axis_meta :=
  {| ax_nominal := ax_nominal m; ax_bounds := ax_bounds m;
     ax_auto := match ax_bounds m with Some bs => moves bs | None => false end |}.
Definition axis_batch (bs : list (B * B)) (d : B * B) : axis_meta := reload (axis_h5 bs d).
(** The streamed NetCDF: bounds recorded for every dimension (stream.py:199-204,246-247). *)
Definition axis_streamed (bs : list (B * B)) (d : B * B) : axis_meta :=
  reload {| ax_nominal := hd d bs; ax_bounds := Some bs; ax_auto := true |}.

(** physical_axis (io.py:437-461): the (min, max) it spans at time index [it] (0 <= it). *)
Definition physical_axis (m : axis_meta) (it : nat) (d : B * B) : B * B :=
  match ax_bounds m with Some bs => nth it bs d | None => ax_nominal m end.
End Axis.

(* ------------------------------------------------------------------------------------------------ *)
(** * HIST tables (io.py:773-800) *)
Section Hist.
Variable F : Type.                                (* float64 *)
Variable parse_row : str -> option (list F).      (* [float(tok) for tok in s.split()], None = ValueError *)

(** One line: skipped, or a row. *)
Definition hist_line (line : str) : list (list F) :=
  let s := strip line in
  match s with
  | [] => []
  | c :: _ => if aeqb c "!" || aeqb c "#" then [] else match parse_row s with Some r => [r] | None => [] end
  end.
Definition list_min (l : list nat) (d : nat) : nat := fold_right Nat.min d l.
(** _parse_hist_table: (t, values), or None. *)
Definition parse_hist (lines : list str) : option (list F * list (list F)) :=
  let rows := flat_map hist_line lines in
  match rows with
  | [] => None
  | r0 :: _ =>
      let width := list_min (map (@List.length F) rows) (List.length r0) in
      if Nat.ltb width 2 then None
      else Some (flat_map (fun r => firstn 1 (skipn 1 r)) rows, map (fun r => skipn 2 (firstn width r)) rows)
  end.
End Hist.
