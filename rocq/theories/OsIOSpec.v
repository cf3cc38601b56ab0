(** Vocabulary of the properties C21-C23, C45-C47, independent of the model's helpers. *)
From Verif Require Import PyStr.
From Coq Require Import Sorted.

(** A dump file name: something followed by ".h5". *)
Definition is_h5 (n : str) : Prop := exists a, a <> [] /\ n = a ++ lit ".h5".

(** [n] is "<b>-<digits>.h5". *)
Definition numbered (n b ds : str) : Prop :=
  n = b ++ "-"%char :: ds ++ lit ".h5" /\ ds <> [] /\ forallb is_digit ds = true.

(** The series [n] belongs to: the name without "-<digits>.h5", or the whole name when it has none. *)
Definition in_base (n b : str) : Prop :=
  (exists ds, numbered n b ds) \/ ((forall b' ds, ~ numbered n b' ds) /\ b = n).

(** Its iteration number, -1 for an unnumbered file. *)
Definition iteration (n : str) (i : Z) : Prop :=
  (exists b ds, numbered n b ds /\ i = Z.of_N (digits_to_n ds)) \/ ((forall b ds, ~ numbered n b ds) /\ i = (-1)%Z).

(** Ordered by iteration number. *)
Definition by_iteration (ns : list str) : Prop :=
  StronglySorted (fun a b => forall i j, iteration a i -> iteration b j -> (i <= j)%Z) ns.

(** A directory: its entries' names with "is it a regular file". *)
Definition h5_file (l : list (str * bool)) (n : str) : Prop := In (n, true) l /\ is_h5 n.

(** [ns] is the series [b] of the directory: its dumps, each once, in order. *)
Definition series (l : list (str * bool)) (b : str) (ns : list str) : Prop :=
  ns <> [] /\ by_iteration ns /\ NoDup ns /\ forall n, In n ns <-> h5_file l n /\ in_base n b.

(** [a] is [b] with some elements left out. *)
Inductive subseq {A} : list A -> list A -> Prop :=
| sub_nil : subseq [] []
| sub_keep x a b : subseq a b -> subseq (x :: a) (x :: b)
| sub_drop x a b : subseq a b -> subseq a (x :: b).

(** A listed directory tree: distinct directories, each with distinct entries whose names have no "/". *)
Definition tree_ok (ms : list (str * list (str * bool))) : Prop :=
  NoDup (map fst ms) /\ forall rel l, In (rel, l) ms -> NoDup (map fst l) /\ forall e, In e l -> ~ In "/"%char (fst e).

(** No directory that holds several series has a subdirectory named like one of them, nor a dump whose
    series name is "", "." or "..". *)
Definition no_series_clash (ms : list (str * list (str * bool))) : Prop :=
  forall rel l n m b c, In (rel, l) ms -> h5_file l n -> h5_file l m -> in_base n b -> in_base m c -> b <> c ->
    ~ In (rel ++ "/"%char :: b) (map fst ms) /\ ~ In b [[]; lit "."; lit ".."].

(** The numeric rows of a HIST table: blank lines, lines starting with ! or # and lines that are not
    all-numeric contribute nothing. *)
Inductive hist_rows {F} (parse_row : str -> option (list F)) : list str -> list (list F) -> Prop :=
| hr_nil : hist_rows parse_row [] []
| hr_blank line ls rs : strip line = [] -> hist_rows parse_row ls rs -> hist_rows parse_row (line :: ls) rs
| hr_comment line c s ls rs : strip line = c :: s -> c = "!"%char \/ c = "#"%char ->
    hist_rows parse_row ls rs -> hist_rows parse_row (line :: ls) rs
| hr_header line ls rs : parse_row (strip line) = None -> hist_rows parse_row ls rs -> hist_rows parse_row (line :: ls) rs
| hr_row line c s r ls rs : strip line = c :: s -> c <> "!"%char -> c <> "#"%char -> parse_row (strip line) = Some r ->
    hist_rows parse_row ls rs -> hist_rows parse_row (line :: ls) (r :: rs).
