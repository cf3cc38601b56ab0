(** Model of the transverse wave solver (adept/_vlasov1d/solvers/pushers/field.py:94-157).

    Simplifications: exact real arithmetic; an array is a function of its index, [a] has nx + 2 entries
    (the cells 1..nx and one guard cell on each side); [electron_density] has nx entries. *)
From Coq Require Export Reals Lra Lia ZArith List.
Local Open Scope R_scope.

(** WaveSolver.__init__ (field.py:97-108). *)
Definition courant (c dx dt : R) : R := c / dx * dt.
Definition inv_courant (c dx dt : R) : R := 1 / dt / (c / dx).

(** The interior update of __call__ (field.py:143-152); [i] is the index in the padded array, 1 <= i <= nx. *)
Definition wave_interior (c dx dt : R) (a aold djy ne : nat -> R) (i : nat) : R :=
  2 * a i - aold i
  + dt ^ 2 * (c ^ 2 * ((a (i - 1)%nat - 2 * a i + a (i + 1)%nat) / dx ^ 2) - ne (i - 1)%nat * a i + djy i).

(** apply_2nd_order_abc (field.py:110-138): anew holds the nx interior values, so its first two entries are
    the padded cells 1 and 2; negative indices count from the end of the padded (or interior) array. *)
Definition abc (C O anew1 anew2 a0 a1 a2 aold0 aold1 aold2 : R) : R :=
  ((O - 2 + C) * (anew2 + aold0) + 2 * (C - O) * (a0 + a2 - anew1 - aold1) - 4 * (O + C) * a1)
  * (- (1) / (O + 2 + C)) - aold2.
Definition wave_left (c dx dt : R) (a aold djy ne : nat -> R) : R :=
  let anew := wave_interior c dx dt a aold djy ne in
  abc (courant c dx dt) (inv_courant c dx dt) (anew 1%nat) (anew 2%nat) (a 0%nat) (a 1%nat) (a 2%nat) (aold 0%nat) (aold 1%nat) (aold 2%nat).
Definition wave_right (nx : nat) (c dx dt : R) (a aold djy ne : nat -> R) : R :=
  let anew := wave_interior c dx dt a aold djy ne in
  abc (courant c dx dt) (inv_courant c dx dt) (anew nx) (anew (nx - 1)%nat)
      (a (nx + 1)%nat) (a nx) (a (nx - 1)%nat) (aold (nx + 1)%nat) (aold nx) (aold (nx - 1)%nat).

(** __call__ (field.py:140-157): the new (a, prev_a). *)
Definition wave_step (nx : nat) (c dx dt : R) (a aold djy ne : nat -> R) : (nat -> R) * (nat -> R) :=
  if Rlt_dec 0 c then
    (fun i => if (i =? 0)%nat then wave_left c dx dt a aold djy ne
              else if (i =? nx + 1)%nat then wave_right nx c dx dt a aold djy ne
              else wave_interior c dx dt a aold djy ne i, a)
  else (a, aold).

(** A run of the wave solver alone: one (source, density) pair per step. *)
Fixpoint wave_run (nx : nat) (c dx dt : R) (steps : list ((nat -> R) * (nat -> R))) (st : (nat -> R) * (nat -> R)) : (nat -> R) * (nat -> R) :=
  match steps with
  | nil => st
  | cons (djy, ne) rest => wave_run nx c dx dt rest (wave_step nx c dx dt (fst st) (snd st) djy ne)
  end.
