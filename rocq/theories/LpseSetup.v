(** Model of the setup of the laser-plasma envelope solver: adept/_lpse2d/helpers.py, next_smooth_fft_size (lines 22-68), write_units (71-173),
    get_derived_quantities (198-277), the grid, absorbing boundary and time axis of get_solver_quantities (320-401), get_density_profile
    (504-563).
    Simplifications: exact arithmetic; the strings with units are already numbers in um, ps and keV; the while loop is bounded by the limit it
    compares with (C99_smooth proves that it then ends as in the code). *)
From Coq Require Import Reals ZArith List Bool Lia.
From Verif Require Import RSum Pic VGrid.
Import ListNotations.
Local Open Scope nat_scope.

(* ------------------------------------------------------------------------------------------------ *)
(** * next_smooth_fft_size (helpers.py:22-68) *)
Fixpoint map2 {A B C} (f : A -> B -> C) (l : list A) (m : list B) : list C :=
  match l, m with x :: l', y :: m' => f x y :: map2 f l' m' | _, _ => [] end.
Definition lmin (l : list nat) : nat := match l with [] => 0 | x :: t => fold_left Nat.min t x end.
Definition primes_of (max_prime : Z) : list nat := if (7 <=? max_prime)%Z then [2; 3; 5; 7] else [2; 3; 5].
(** One pass of the loop (lines 54-64): the candidates, the smallest appended, its indices advanced. *)
Definition candidates (ps : list nat) (s : list nat) (ix : list nat) : list nat := map2 (fun i p => nth i s 0 * p) ix ps.
Definition grow (ps : list nat) (st : list nat * list nat) : list nat * list nat :=
  let '(s, ix) := st in let cs := candidates ps s ix in let m := lmin cs in
  (s ++ [m], map2 (fun c i => if c =? m then S i else i) cs ix).
Fixpoint grow_until (ps : list nat) (fuel limit : nat) (st : list nat * list nat) : list nat * list nat :=
  match fuel with O => st | S k => if last (fst st) 0 <? limit then grow_until ps k limit (grow ps st) else st end.
(** numpy.searchsorted on a sorted list, side left. *)
Definition searchsorted (s : list nat) (n : nat) : nat := length (filter (fun x => x <? n) s).
Definition next_smooth (n : Z) (max_prime : Z) : nat :=
  if (n <=? 1)%Z then 1 else
  let k := Z.to_nat n in let ps := primes_of max_prime in
  let s := fst (grow_until ps (2 * k) (2 * k) ([1], map (fun _ => 0) ps)) in nth (searchsorted s k) s 0.

(* ------------------------------------------------------------------------------------------------ *)
(** * get_derived_quantities (helpers.py:198-277) *)
Local Open Scope R_scope.
(** What it reads: the density basis ("linear" with its scale length and end values, or another one), the box and the times. *)
Record gin := { i_lin : option (R * R * R); i_xmax : R; i_ymin : R; i_ymax : R; i_dx : R; i_dt : R; i_tmax : R }.
Record gout := { o_xmin : R; o_xmax : R; o_ymin : R; o_ymax : R; o_nx : nat; o_ny : nat; o_dx : R; o_dy : R; o_dt : R; o_tmax : R; o_nt : Z; o_max_steps : Z }.
(** Lgrid (lines 219-228). *)
Definition lgrid (g : gin) : R := match i_lin g with Some (L, nmax, nmin) => L / (1 / 4) * (nmax - nmin) | None => i_xmax g end.
Definition derive (g : gin) : gout :=
  let xmax := lgrid g in
  let nx := next_smooth (trunc ((xmax - 0) / i_dx g)) 5 in
  let dx := (xmax - 0) / INR nx in
  let ny := next_smooth (trunc ((i_ymax g - i_ymin g) / dx)) 5 in
  let ymax := dx * INR ny / 2 in
  let nt := trunc (i_tmax g / i_dt g + 1) in
  {| o_xmin := 0; o_xmax := xmax; o_ymin := - ymax; o_ymax := ymax; o_nx := nx; o_ny := ny; o_dx := dx; o_dy := dx; o_dt := i_dt g;
     o_tmax := i_dt g * IZR nt; o_nt := nt; o_max_steps := (nt + 2048)%Z |}.
(** The axes (helpers.py:337-348). *)
Definition x_ax (o : gout) (a : nat) : R := linspace (o_xmin o + o_dx o / 2) (o_xmax o - o_dx o / 2) (o_nx o) a.
Definition y_ax (o : gout) (b : nat) : R := linspace (o_ymin o + o_dy o / 2) (o_ymax o - o_dy o / 2) (o_ny o) b.
Definition t_ax (o : gout) (k : nat) : R := linspace 0 (o_tmax o) (Z.to_nat (o_nt o)) k.
(** absorbing_boundaries (helpers.py:375-395). *)
Definition absorb (o : gout) (absx absy : bool) (width coeff : R) (a b : nat) : R :=
  let rise := width / 5 in
  let ex := if absx then get_envelope rise rise (o_xmin o + width) (o_xmax o - width) (x_ax o a) else 1 in
  let ey := if absy then get_envelope rise rise (o_ymin o + width) (o_ymax o - width) (y_ax o b) else 1 in
  exp (- coeff * o_dt o * (1 - ex * ey)).
(** get_density_profile (helpers.py:504-563): the two bases that give a 2-d array. "exponential" reads derived["x0"], which write_units does not
    set, and fails; "tanh" and "sine" give a 1-d array of length nx along x, which numpy adds to 2-d arrays along their last axis (y). *)
Inductive basis := BUniform | BLinear (nmin nmax : R) | BExponential | BTanh (prof : R -> R) | BSine (baseline amp k : R).
Inductive dens := D2 (v : nat -> nat -> R) | D1 (v : nat -> R).
Definition density_profile (o : gout) (b : basis) : option dens :=
  match b with
  | BUniform => Some (D2 (fun _ _ => 1))
  | BLinear nmin nmax => Some (D2 (fun a _ => nmin + (nmax - nmin) * x_ax o a / o_xmax o))
  | BExponential => None
  | BTanh p => Some (D1 (fun a => p (x_ax o a)))
  | BSine bl amp k => Some (D1 (fun a => bl * (1 + amp * sin (k * x_ax o a))))
  end.
(** How numpy reads it against an array of shape (nx, ny): a 1-d array of length nx needs nx = ny (or nx = 1), and varies along y. *)
Definition broadcast (nx ny : nat) (d : dens) : option (nat -> nat -> R) :=
  match d with D2 v => Some v | D1 v => if (nx =? ny)%nat then Some (fun _ b => v b) else if (nx =? 1)%nat then Some (fun _ _ => v 0%nat) else None end.

(* ------------------------------------------------------------------------------------------------ *)
(** * write_units (helpers.py:71-173) *)
(** The collisions entry: a bool, a float or an int. *)
Inductive coll := CBool (b : bool) | CFloat (f : R) | CInt (z : Z).
Record uin := { u_Te : R; u_Z : R; u_lam : R; u_I0 : R; u_env : R; u_coll : coll }.
Definition c_cgs : R := 299792458 * 100.
Definition me_cgs : R := 910938291 / 10 ^ 36.
Definition e_cgs : R := 48032068 / 10 ^ 17.
(** Scales (lines 79-85): ps, um, gram. *)
Definition tscale : R := / 10 ^ 12.
Definition xscale : R := / 10 ^ 4.
Definition u_c : R := c_cgs / (xscale / tscale).
Definition u_me : R := me_cgs / 1.
Definition u_e : R := e_cgs / (Rpower xscale (3 / 2) * Rpower 1 (1 / 2) / tscale).
Definition fscale : R := Rpower 1 (1 / 2) / Rpower xscale (1 / 2) / tscale.
Definition u_w0 (u : uin) : R := 2 * PI * u_c / u_lam u.
Definition u_wp0 (u : uin) : R := u_w0 u * sqrt (u_env u).
Definition u_vte2 (u : uin) : R := (u_c * sqrt (u_Te u / 511)) ^ 2.
Definition u_nc (u : uin) : R := u_w0 u ^ 2 * u_me / (4 * PI * u_e ^ 2).
Definition u_E0 (u : uin) : R := sqrt (8 * PI * u_I0 u * 10 ^ 7 / c_cgs) / fscale.
(** The Coulomb logarithm of lines 124-126 (computed, not used) and the one that enters the collision rate (lines 135-138), for the electron
    density [ne] per cc. *)
Definition log_printed (u : uin) (ne : R) : R :=
  let TeV := u_Te u * 1000 in
  if Rlt_dec TeV (10 * u_Z u ^ 2) then 23 - ln (sqrt ne * u_Z u / Rpower TeV (3 / 2)) else 24 - ln (sqrt ne / TeV).
Definition log_used (u : uin) (ne : R) : option R :=
  let TeV := u_Te u * 1000 in
  if Rlt_dec TeV (1 / 100 * u_Z u ^ 2) then Some (228487 / 10000 - ln (sqrt ne * u_Z u / Rpower TeV (3 / 2)))
  else if Rlt_dec (1 / 100 * u_Z u ^ 2) TeV then Some (24 - ln (sqrt ne / TeV)) else None.
(** nu_coll (lines 133-150); [None]: the variable is never assigned and the function raises. *)
Definition rate_of (u : uin) (ne loglam : R) : R :=
  let e2 := 5109896 / 10 ^ 4 * (28179 / 10 ^ 17) in let m := 5109896 / 10 ^ 4 / c_cgs ^ 2 in
  4 * sqrt (2 * PI) / 3 * e2 ^ 2 / sqrt m * u_Z u ^ 2 * (1 * ne / (u_Z u * 1)) * loglam / Rpower (u_Te u) (3 / 2) / 2 * tscale.
Definition nu_coll (u : uin) (ne : R) : option R :=
  match u_coll u with
  | CBool false => Some 0
  | CBool true => match log_used u ne with Some l => Some (rate_of u ne l) | None => None end
  | CFloat f => Some (if Req_EM_T f 0 then 0 else f)
  | CInt z => if (z =? 0)%Z then Some 0 else None
  end.
