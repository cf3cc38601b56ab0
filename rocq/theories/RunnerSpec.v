(** Specification vocabulary for C16-C20. *)
From Verif Require Export Runner.

(** Substring. *)
Definition occurs (p s : str) : Prop := exists a b, s = a ++ p ++ b.

(** The last n elements. *)
Definition last_n {A} (n : nat) (l : list A) : list A := skipn (List.length l - n) l.

(** A stderr line that reports an error: some error token in it, case-insensitively, and it is neither a
    warning nor known launcher noise. *)
Definition error_line (line : str) : Prop :=
  let low := lower (strip line) in
  (occurs (lit "error") low \/ occurs (lit "aborting") low \/ occurs (lit "(*error*)") low) /\
  ~ occurs (lit "(*warning*)") low /\
  ~ occurs (lit "no protocol specified") low /\ ~ occurs (lit "mpi_init") low /\ ~ occurs (lit "couldn't chdir to") low.

(** The run failed: non-zero exit, or an error among the last 200 lines of stderr / stdout. *)
Definition run_failed (o : outcome) : Prop :=
  o_rc o <> 0%Z \/
  (exists ln, In ln (last_n 200 (readlines (o_err o))) /\ error_line ln) \/
  (exists ln, In ln (last_n 200 (readlines (o_out o))) /\ occurs (lit "(*error*)") ln).

(** The tree holds salvageable output: MS/**/*.h5, binary/**/*.nc or anything under HIST. *)
Definition has_output (t : tree) : Prop :=
  exists d suffix, In (d, suffix) [(lit "MS", lit ".h5"); (lit "binary", lit ".nc"); (lit "HIST", [])] /\
  tlookup [d] t = Some Dir /\
  exists mid name n, In (d :: mid ++ [name], n) t /\ exists stem, name = stem ++ suffix.

(** A well-formed tree: paths are unique and non-empty, and a file's parents are directories. *)
Definition tree_ok (t : tree) : Prop :=
  NoDup (map fst t) /\
  (forall p n, In (p, n) t -> p <> []) /\
  (forall p n k, In (p, n) t -> 0 < k < List.length p -> In (firstn k p, Dir) t).

(** Directory [p] contains, at any depth, a file of [t]. *)
Definition above_file (t : tree) (p : path) : Prop :=
  exists q c, q <> [] /\ In (p ++ q, File c) t.
