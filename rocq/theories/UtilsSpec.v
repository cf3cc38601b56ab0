(** Vocabulary of C25, C26, C28, C29, C48. *)
From Verif Require Import Utils.

Section Spec.
Context {V : Type}.
(** The leaves of a nested dict with their paths, depth first. *)
Fixpoint leaves (t : cfg V) : list (list str * V) :=
  match t with
  | Leaf v => [([], v)]
  | Node d => flat_map (fun e => map (fun pv => (fst e :: fst pv, snd pv)) (leaves (snd e))) d
  end.
(** A path joined by dots. *)
Fixpoint dotted (p : list str) : str :=
  match p with
  | [] => []
  | [k] => k
  | k :: r => k ++ "."%char :: dotted r
  end.
(** Every dict in it has distinct keys ... *)
Inductive dicts_ok : cfg V -> Prop :=
| do_leaf v : dicts_ok (Leaf v)
| do_node d : NoDup (map fst d) -> (forall k t, In (k, t) d -> dicts_ok t) -> dicts_ok (Node d).
(** ... and no key is empty or contains a dot. *)
Inductive plain_keys : cfg V -> Prop :=
| pk_leaf v : plain_keys (Leaf v)
| pk_node d : (forall k t, In (k, t) d -> k <> [] /\ ~ In "."%char k /\ plain_keys t) -> plain_keys (Node d).
(** No dict below the top is empty. *)
Inductive no_empty : cfg V -> Prop :=
| ne_leaf v : no_empty (Leaf v)
| ne_node d : (forall k t, In (k, t) d -> t <> Node [] /\ no_empty t) -> no_empty (Node d).
End Spec.

(** Unicode scalar values: the code points that can be encoded. *)
Definition scalar_value (c : N) : Prop := (c < 1114112 /\ ~ (55296 <= c < 57344))%N.
