(** Model of the discrete parts of adept/utils.py and adept/mlflow_logging.py. *)
From Verif Require Export PyStr.
From Coq Require Export NArith.

(* ------------------------------------------------------------------------------------------------ *)
(** * Nested configurations *)
Section Cfg.
Variable V : Type.      (* a non-dict value *)

(** A nested dict with string keys. *)
Inductive cfg := Leaf (v : V) | Node (d : list (str * cfg)).

(** dict.update *)
Definition dupdate {A} (d e : dict A) : dict A := fold_left (fun d x => dset (fst x) (snd x) d) e d.

(** [f"{_prefix}{delimiter}{k}" if _prefix else k] (utils.py:27). *)
Definition full_key (delim prefix k : str) : str := match prefix with [] => k | _ => prefix ++ delim ++ k end.

(** flatten_dict (utils.py:24-33). *)
Fixpoint flatten (delim prefix : str) (t : cfg) {struct t} : dict V :=
  match t with
  | Leaf _ => []
  | Node d =>
      (fix go (d : list (str * cfg)) (items : dict V) : dict V :=
         match d with
         | [] => items
         | (k, c) :: r =>
             match c with
             | Node _ => go r (dupdate items (flatten delim (full_key delim prefix k) c))
             | Leaf v => go r (dset (full_key delim prefix k) v items)
             end
         end) d []
  end.
Definition flatten_dict (d : list (str * cfg)) : dict V := flatten (lit ".") [] (Node d).

(** log_params (utils.py:36-50): the argument of every mlflow.log_params call, in order; [show] is
    [str(v) if isinstance(v, Quantity) else v]. *)
Variable show : V -> V.
Definition slice {A} (l : list A) (a b : nat) : list A := firstn (b - a) (skipn a l).
Definition log_params_flat (flat : dict V) : list (dict V) :=
  let n := List.length flat in
  let fl := map (fun e => (fst e, show (snd e))) flat in
  if Nat.ltb 100 n then
    map (fun i => slice fl (i * 100) (Nat.min ((i + 1) * 100) n)) (seq 0 (n mod 100))
  else [fl].
Definition log_params (d : list (str * cfg)) : list (dict V) := log_params_flat (flatten_dict d).

(** filter_scalars (utils.py:234-249); [scalar] is is_scalar (utils.py:220-231) on a non-dict value. *)
Variable scalar : V -> bool.
Fixpoint filter_scalars (t : cfg) {struct t} : cfg :=
  match t with
  | Leaf v => Leaf v
  | Node d =>
      Node ((fix go (d : list (str * cfg)) (result : list (str * cfg)) : list (str * cfg) :=
         match d with
         | [] => result
         | (k, c) :: r =>
             match c with
             | Node _ => match filter_scalars c with Node [] => go r result | f => go r (dset k f result) end
             | Leaf v => if scalar v then go r (dset k (Leaf v) result) else go r result
             end
         end) d [])
  end.
End Cfg.
Arguments Leaf {V}. Arguments Node {V}.

(* ------------------------------------------------------------------------------------------------ *)
(** * Artifact upload (utils.py:203-217) *)

Inductive upload_event := Upload (ok : bool) | Sleep.
(** [outcome i] = attempt [i] does not raise. The events, in order. *)
Fixpoint attempts (outcome : nat -> bool) (i retries : nat) : list upload_event :=
  match retries with
  | O => []
  | S r => if outcome i then [Upload true] else Upload false :: Sleep :: attempts outcome (S i) r
  end.
Definition robust_log_artifacts (outcome : nat -> bool) (retries : nat) : list upload_event := attempts outcome 0 retries.

(* ------------------------------------------------------------------------------------------------ *)
(** * Run ids (mlflow_logging.py:12-29)

    A Python str is a list of code points; jnp.frombuffer of a non-empty buffer. *)

(** [id.encode("UTF-8")] of one code point; None = UnicodeEncodeError (surrogates). *)
Definition utf8_char (c : N) : option (list N) :=
  (if c <? 128 then Some [c]
   else if c <? 2048 then Some [192 + c / 64; 128 + c mod 64]
   else if (55296 <=? c) && (c <? 57344) then None
   else if c <? 65536 then Some [224 + c / 4096; 128 + (c / 64) mod 64; 128 + c mod 64]
   else if c <? 1114112 then Some [240 + c / 262144; 128 + (c / 4096) mod 64; 128 + (c / 64) mod 64; 128 + c mod 64]
   else None)%N.
Fixpoint utf8_encode (s : list N) : option (list N) :=
  match s with
  | [] => Some []
  | c :: r => match utf8_char c, utf8_encode r with Some a, Some b => Some (a ++ b) | _, _ => None end
  end.
Definition cont (b : N) : bool := ((128 <=? b) && (b <? 192))%N.
(** bytes.decode("UTF-8"), strict; [fuel] >= the number of bytes. *)
Fixpoint utf8_decode (fuel : nat) (bs : list N) : option (list N) :=
  match fuel with
  | O => match bs with [] => Some [] | _ => None end
  | S fuel =>
      let tail c r := match utf8_decode fuel r with Some s => Some (c :: s) | None => None end in
      match bs with
      | [] => Some []
      | a :: r =>
          (if a <? 128 then tail a r
           else if (194 <=? a) && (a <? 224) then
             match r with
             | b :: r => if cont b then tail ((a - 192) * 64 + (b - 128)) r else None
             | _ => None
             end
           else if (224 <=? a) && (a <? 240) then
             match r with
             | b :: c :: r =>
                 let cp := (a - 224) * 4096 + (b - 128) * 64 + (c - 128) in
                 if cont b && cont c && (2048 <=? cp) && negb ((55296 <=? cp) && (cp <? 57344)) then tail cp r else None
             | _ => None
             end
           else if (240 <=? a) && (a <? 245) then
             match r with
             | b :: c :: d :: r =>
                 let cp := (a - 240) * 262144 + (b - 128) * 4096 + (c - 128) * 64 + (d - 128) in
                 if cont b && cont c && cont d && (65536 <=? cp) && (cp <? 1114112) then tail cp r else None
             | _ => None
             end
           else None)%N
      end
  end.

(** frombuffer(..., dtype=int8): a byte read as a signed integer; and its memory read back. *)
Definition as_int8 (b : N) : Z := if (b <? 128)%N then Z.of_N b else (Z.of_N b - 256)%Z.
Definition int8_byte (z : Z) : N := Z.to_N (z mod 256).

(** MLRunId.__init__ (mlflow_logging.py:20-21) and __str__ (mlflow_logging.py:23-24). *)
Definition run_id_init (id : list N) : option (list Z) :=
  match utf8_encode id with Some bs => Some (map as_int8 bs) | None => None end.
Definition run_id_str (arr : list Z) : option (list N) := utf8_decode (List.length arr) (map int8_byte arr).
