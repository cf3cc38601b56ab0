(** Model of adept/utils.py:103-204, all_reduce_gradients.

    Simplifications: floating-point numbers are real numbers or NaN (no rounding, no infinities). A pytree is
    the list of its leaves, all trees having the same structure (jax.tree.map requires it); a leaf is None or an
    array, flattened; arrays at the same leaf have the same shape (broadcasting is not modelled: zipping stops
    at the shorter one). *)
From Coq Require Export Reals List Lra Lia.
Export ListNotations.

Inductive fl := NaN | Num (x : R).
Definition leaf := option (list fl).
Definition tree := list leaf.
Inductive outcome := Average (t : tree) | UnboundLocalError | IndexError.

Fixpoint map2 {A B C} (f : A -> B -> C) (l : list A) (m : list B) : list C :=
  match l, m with x :: l', y :: m' => f x y :: map2 f l' m' | _, _ => [] end.

(** Elementwise jnp.where expressions (utils.py:178, 187, 193). *)
Definition add1 (a b : fl) : fl :=
  match a with NaN => b | Num x => match b with NaN => a | Num y => Num (x + y) end end.
Definition div1 (num : nat) (a : fl) : fl := match a with NaN => a | Num x => Num (x / INR num) end.
(** jnp.clip(g, lo, hi) is minimum(maximum(g, lo), hi). *)
Definition clip1 (a : fl) : fl := match a with NaN => a | Num x => Num (Rmin (Rmax x (-1000)) 1000) end.

(** utils.py:172-178, 183-187, 189-193 *)
Definition safe_add (a b : leaf) : leaf :=
  match a, b with None, _ => b | _, None => a | Some x, Some y => Some (map2 add1 x y) end.
Definition safe_divide (num : nat) (a : leaf) : leaf := option_map (map (div1 num)) a.
Definition clip_gradient (a : leaf) : leaf := option_map (map clip1) a.

(** utils.py:195-197: for i in range(2, num): summed = tree.map(_safe_add, summed, gradients[i]). *)
Fixpoint sum_from (gs : list tree) (acc : tree) (is : list nat) : option tree :=
  match is with
  | [] => Some acc
  | i :: r => match nth_error gs i with None => None | Some g => sum_from gs (map2 safe_add acc g) r end
  end.
Definition all_reduce_gradients (gs : list tree) (num : nat) : outcome :=
  if Nat.leb num 1 then UnboundLocalError                                       (* utils.py:170, 202: return *)
  else
    match nth_error gs 0, nth_error gs 1 with
    | Some g0, Some g1 =>
        match sum_from gs (map2 safe_add g0 g1) (seq 2 (num - 2)) with
        | Some s => Average (map clip_gradient (map (safe_divide num) s))
        | None => IndexError
        end
    | _, _ => IndexError
    end.
