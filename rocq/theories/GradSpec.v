(** Vocabulary of C27. *)
From Verif Require Import Grad.
Open Scope R_scope.

(** All trees have [List.length shape] leaves, and every array at leaf [i] has [nth i shape] elements. *)
Definition same_structure (shape : list nat) (gs : list tree) : Prop :=
  Forall (fun g => Forall2 (fun n (l : leaf) => match l with Some a => List.length a = n | None => True end) shape g) gs.

(** What the devices contribute to leaf [i]. *)
Definition contributions (i : nat) (gs : list tree) : list leaf := map (fun g => nth i g None) gs.
(** The numbers (not missing, not NaN) they contribute to its element [j]. *)
Definition numbers (j : nat) (ls : list leaf) : list R :=
  flat_map (fun l : leaf => match l with Some a => match nth j a NaN with Num x => [x] | NaN => [] end | None => [] end) ls.
Definition total (xs : list R) : R := fold_right Rplus 0 xs.
Definition clipped (x : R) : R := if Rlt_dec x (-1000) then -1000 else if Rlt_dec 1000 x then 1000 else x.

(** [r] is the average over [num] devices of the contributions [ls] to a leaf of [size] elements. *)
Definition is_average (num size : nat) (ls : list leaf) (r : leaf) : Prop :=
  match r with
  | None => Forall (fun l => l = None) ls
  | Some a =>
      ~ Forall (fun l => l = None) ls /\ List.length a = size /\
      forall j, (j < size)%nat ->
        nth j a NaN = match numbers j ls with [] => NaN | xs => Num (clipped (total xs / INR num)) end
  end.
