(** Model of adept/osiris/runner.py.

    Simplifications, valid for the whole file: text is Latin-1 (PyStr.v) and decoding is the identity;
    a directory tree is the list of its entries (path relative to the root, file contents or directory)
    in listing order; symbolic links, permissions and expanduser/resolve are not modelled; the process
    itself is an arbitrary outcome (exit code, bytes on stdout and stderr, files it left). *)
From Verif Require Export PyStr.

(* ------------------------------------------------------------------------------------------------ *)
(** * Output capture *)

Definition nl : ascii := ascii_of_nat 10.

(** [iter(stream.readline, b"")] (runner.py:58): the stream cut after every newline; the last piece may
    lack one. *)
Fixpoint readlines_aux (cur : str) (s : str) : list str :=
  match s with
  | [] => match cur with [] => [] | _ => [rev cur] end
  | c :: s' => if aeqb c nl then rev (c :: cur) :: readlines_aux [] s' else readlines_aux (c :: cur) s'
  end.
Definition readlines (s : str) : list str := readlines_aux [] s.

(** One iteration of the loop of _stream_to_file_and_buffer (runner.py:58-64): file, then tail. *)
Definition tee1 (tail_max : nat) (ft : str * list str) (line : str) : str * list str :=
  let tail := snd ft ++ [line] in
  (fst ft ++ line,
   if Nat.ltb tail_max (List.length tail) then skipn (List.length tail - tail_max) tail else tail).

(** _stream_to_file_and_buffer (runner.py:55-64), tail_max = 200. *)
Definition tail_max : nat := 200.
Definition stream_to_file_and_buffer (bytes : str) : str * list str :=
  fold_left (tee1 tail_max) (readlines bytes) ([], []).

(** _OSIRIS_ERR_TOKENS, _OSIRIS_STDERR_NOISE (runner.py:25-37). *)
Definition err_tokens : list str := [lit "error"; lit "aborting"; lit "(*error*)"].
Definition stderr_noise : list str := [lit "No protocol specified"; lit "MPI_INIT"; lit "couldn't chdir to"].

(** _looks_like_osiris_error (runner.py:40-52). *)
Definition looks_like_osiris_error (line : str) : bool :=
  let low := lower (strip line) in
  match low with
  | [] => false
  | _ =>
      if contains (lit "(*warning*)") low then false
      else if existsb (fun noise => contains (lower noise) low) stderr_noise then false
      else existsb (fun tok => contains tok low) err_tokens
  end.

(* ------------------------------------------------------------------------------------------------ *)
(** * Directory trees *)

Inductive node := File (c : str) | Dir.
Definition path := list str.
Definition tree := list (path * node).

Fixpoint path_eqb (a b : path) : bool :=
  match a, b with
  | [], [] => true
  | x :: a', y :: b' => str_eqb x y && path_eqb a' b'
  | _, _ => false
  end.
Fixpoint tlookup (p : path) (t : tree) : option node :=
  match t with [] => None | (q, n) :: r => if path_eqb p q then Some n else tlookup p r end.

(** The path's proper non-empty prefixes, shortest first: its parent directories. *)
Definition parents (p : path) : list path := map (fun k => firstn k p) (seq 1 (List.length p - 1)).

(** [target.parent.mkdir(parents=True, exist_ok=True)]; None = it raises (a parent is a file). *)
Fixpoint mkdirs (ps : list path) (t : tree) : option tree :=
  match ps with
  | [] => Some t
  | p :: r => match tlookup p t with
              | Some Dir => mkdirs r t
              | Some (File _) => None
              | None => mkdirs r (t ++ [(p, Dir)])
              end
  end.

(** _sync_tree (runner.py:76-96) over the entries [src.rglob("*")] yields.  [fault p = Some c]: copying p
    raises, leaving c in the target.  Returns the destination and whether it raised. *)
Fixpoint sync_tree (fault : path -> option str) (src : tree) (dst : tree) : tree * bool :=
  match src with
  | [] => (dst, false)
  | (_, Dir) :: r => sync_tree fault r dst
  | (p, File c) :: r =>
      match tlookup p dst with
      | Some _ => sync_tree fault r dst                   (* target.exists() *)
      | None =>
          match mkdirs (parents p) dst with
          | None => (dst, true)                           (* some parents may have been created *)
          | Some d => match fault p with
                      | Some c' => (d ++ [(p, File c')], true)
                      | None => sync_tree fault r (d ++ [(p, File c)])
                      end
          end
      end
  end.

(** [d.is_dir() and next(d.rglob("*" + suffix), None) is not None] for a top-level directory. *)
Definition is_dir (p : path) (t : tree) : bool := match tlookup p t with Some Dir => true | _ => false end.
Definition below (d : str) (p : path) : bool :=
  match p with x :: _ :: _ => str_eqb x d | _ => false end.
Definition rglob_has (d suffix : str) (t : tree) : bool :=
  is_dir [d] t && existsb (fun e => below d (fst e) && ends_with suffix (last (fst e) [])) t.

(** _run_produced_output (runner.py:99-117); binary_dir = run_dir/binary (runner.py:211). *)
Definition run_produced_output (t : tree) : bool :=
  rglob_has (lit "MS") (lit ".h5") t || rglob_has (lit "binary") (lit ".nc") t || rglob_has (lit "HIST") [] t.

(* ------------------------------------------------------------------------------------------------ *)
(** * run_osiris *)

Record run_args := { a_binary : str; a_binary_exists : bool; a_ranks : Z; a_launcher : str;
                     a_extra : list str; a_stream : bool; a_stage_root : bool }.

(** What the process and the converter did: exit code, output bytes, the two trees once the converter
    is finalized (the scratch is used only when staging), what finalize returned (None = the converter
    could not start or finalize raised), which copies of the final sync fail. *)
Record outcome := { o_rc : Z; o_out : str; o_err : str; o_scratch : tree; o_run : tree;
                    o_streamed : option (list str); o_fault : path -> option str }.

(** The returned dictionary; [res_tree] is the run directory on return, [res_scratch] the scratch. *)
Record result := { res_exit : Z; res_crashed : bool; res_cmd : list str; res_streamed : option (list str);
                   res_staged : bool; res_tree : tree; res_scratch : tree }.
Inductive run_res := NotFound | RunFailed (t scratch : tree) | Returned (r : result).

(** The command line (runner.py:187-194). *)
Definition command (a : run_args) : list str :=
  if (a_ranks a >? 1)%Z then [a_launcher a; lit "-n"; z_to_str (a_ranks a)] ++ a_extra a ++ [a_binary a]
  else [a_binary a].

(** The failure condition (runner.py:280-307). *)
Definition failure (o : outcome) : bool :=
  let err_tail := snd (stream_to_file_and_buffer (o_err o)) in
  let out_tail := snd (stream_to_file_and_buffer (o_out o)) in
  if negb (o_rc o =? 0)%Z then true
  else match filter looks_like_osiris_error err_tail ++ filter (contains (lit "(*error*)")) out_tail with
       | [] => false
       | _ => true
       end.

(** run_osiris (runner.py:120-335). *)
Definition run_osiris (a : run_args) (o : outcome) : run_res :=
  if negb (a_binary_exists a) then NotFound else
  let staging := a_stage_root a && a_stream a in
  let t := if staging then fst (sync_tree (o_fault o) (o_scratch o) (o_run o)) else o_run o in
  let scratch := if staging then [] else o_scratch o in                       (* shutil.rmtree *)
  let crashed := failure o in
  if crashed && negb (run_produced_output t) then RunFailed t scratch else
  Returned {| res_exit := o_rc o; res_crashed := crashed; res_cmd := command a;
              res_streamed := if a_stream a then Some (match o_streamed o with Some l => l | None => [] end) else None;
              res_staged := staging; res_tree := t; res_scratch := scratch |}.

(* ------------------------------------------------------------------------------------------------ *)
(** * discover_binary (runner.py:338-355) *)

(** [exists_ p]: Path(p).expanduser().exists(). *)
Definition binary_candidates (cfg : option str) (dim : option Z) (env : str -> option str) : list str :=
  (match cfg with Some c => match c with [] => [] | _ => [c] end | None => [] end) ++
  (match dim with
   | Some d => match env (lit "OSIRIS_BIN_" ++ z_to_str d ++ lit "D") with Some v => [v] | None => [] end
   | None => []
   end) ++
  (match env (lit "OSIRIS_BIN") with Some v => [v] | None => [] end).
Definition discover_binary (exists_ : str -> bool) (cfg : option str) (dim : option Z) (env : str -> option str) : option str :=
  find exists_ (binary_candidates cfg dim env).
