(** Model of the PIC-1D particle loaders, the neutralising background and the initial state
    (adept/_pic1d/helpers.py:25-181, adept/_pic1d/modules.py:91-152).

    Simplifications: exact real arithmetic, so round is numpy's round-half-even on exact values; configuration
    values are already parsed; density profiles are given by their values on the grid (component by component);
    numpy's seeded generator is a parameter giving, per seed, the permutation it applies and the sequence of
    doubles in [0,1) it produces (Generator.uniform consumes one per element and scales it);
    alpha = sqrt(3 Gamma(3/m) / Gamma(5/m)) is a parameter of a component. *)
From Verif Require Export PyStr RSum Pic VGrid DriftDiff Drivers.
Local Open Scope R_scope.

(** The part of Grid the loader reads: dx = (xmax - xmin) / nx and cell centres (grid.py, see VGrid). *)
Record lgrid := { lg_nx : nat; lg_xmin : R; lg_xmax : R }.
Definition lg_L (g : lgrid) : R := lg_xmax g - lg_xmin g.
Definition lg_dx (g : lgrid) : R := lg_L g / INR (lg_nx g).
Definition lg_x (g : lgrid) (i : nat) : R := linspace (lg_xmin g + lg_dx g / 2) (lg_xmax g - lg_dx g / 2) (lg_nx g) i.

(** SubspeciesDistributionSpec as the loader reads it, with the profile's values on the grid (helpers.py:100-103). *)
Record sub := { u_prof : nat -> R; u_T0 : R; u_order : R; u_alpha : R; u_v0 : R; u_seed : Z }.
(** PICSpecies (simulation.py:18-35) with its components in order. *)
Record pspecies := { l_name : str; l_mass : R; l_charge : R; l_quiet : bool; l_vmax : R; l_subs : list sub }.
(** What a seeded generator produces: Generator.permutation and the doubles behind Generator.uniform. *)
Record rng := { r_perm : list R -> list R; r_draw : nat -> R }.

Inductive lres (A : Type) :=
| LOk (a : A) | LNonPositive | LZeroDivision | LNegativeSize | LBadSeed | LNotFinished.
Arguments LOk {A}. Arguments LNonPositive {A}. Arguments LZeroDivision {A}. Arguments LNegativeSize {A}.
Arguments LBadSeed {A}. Arguments LNotFinished {A}.

(** Sum of integers, np.sum / np.maximum on integer arrays. *)
Fixpoint zsum (l : list Z) : Z := match l with [] => 0%Z | z :: t => (z + zsum t)%Z end.
Fixpoint add_last (d : Z) (l : list Z) : list Z := match l with [] => [] | [z] => [(z + d)%Z] | z :: t => z :: add_last d t end.

(** integrated = sum(p) * dx per component (helpers.py:105). *)
Definition integrated (g : lgrid) (u : sub) : R := rsum (lg_nx g) (u_prof u) * lg_dx g.
(** share, np_per_sub and the correction of its last entry (helpers.py:109-112). *)
Definition first_counts (ints : list R) (n : Z) : list Z :=
  map (fun q => Z.max (round_half_even (q / lsum ints * IZR n)) 1) ints.
Definition counts (ints : list R) (n : Z) : list Z :=
  let c := first_counts ints n in add_last (n - zsum c) c.

(** Cumulative trapezoidal integral of [h] on nodes [x], normalised by the total: helpers.py:42-44 and 150-152. *)
Definition trapz (n : nat) (x h : nat -> R) : R := rsum (n - 1) (fun i => 1 / 2 * (h (S i) + h i) * (x (S i) - x i)).
Definition cum (x h : nat -> R) (k : nat) : R := rsum k (fun i => 1 / 2 * (h (S i) + h i) * (x (S i) - x i)).
Definition cdf (n : nat) (x h : nat -> R) (k : nat) : R :=
  let p := fun i => h i / trapz n x h in cum x p k / cum x p (n - 1)%nat.

(** _inverse_cdf_supergaussian (helpers.py:25-47). *)
Definition v_nodes (n : nat) : nat := Nat.max (Z.to_nat 8192) (8 * n).
Definition v_grid (n : nat) (vmax : R) (i : nat) : R := linspace (- vmax) vmax (v_nodes n) i.
Definition v_pdf (n : nat) (T0 mass order alpha vmax v0 : R) (i : nat) : R :=
  exp (- abs_pow ((v_grid n vmax i - v0) / (alpha * sqrt (T0 / mass))) order).
Definition quantile (n : nat) (T0 mass order alpha vmax v0 q : R) : R :=
  interp (v_nodes n) (cdf (v_nodes n) (v_grid n vmax) (v_pdf n T0 mass order alpha vmax v0)) (v_grid n vmax) q.
Definition quiet_v (n : nat) (T0 mass order alpha vmax v0 : R) : list R :=
  map (fun k => quantile n T0 mass order alpha vmax v0 ((INR k + 1 / 2) / INR n)) (seq 0 n).

(** _random_supergaussian (helpers.py:50-76): [passes] bounds the number of passes of the while loop, [start] is the
    number of doubles the generator has already produced. *)
Definition accepted (T0 mass order alpha vmax v0 : R) (draw : nat -> R) (batch start : nat) : list R :=
  map fst (filter (fun c : R * R => if Rlt_dec (snd c) (exp (- abs_pow ((fst c - v0) / (alpha * sqrt (T0 / mass))) order)) then true else false)
    (map (fun i => (- vmax + (vmax - - vmax) * draw (start + i)%nat + v0, draw (start + batch + i)%nat)) (seq 0 batch))).
Fixpoint reject (T0 mass order alpha vmax v0 : R) (draw : nat -> R) (batch start need passes : nat) : option (list R) :=
  match need with
  | O => Some []
  | _ => match passes with
    | O => None
    | S p =>
        let keep := accepted T0 mass order alpha vmax v0 draw batch start in
        let take := Nat.min (List.length keep) need in
        match reject T0 mass order alpha vmax v0 draw batch (start + 2 * batch) (need - take) p with
        | Some rest => Some (firstn take keep ++ rest)
        | None => None
        end
    end
  end.
Definition random_v (n : nat) (T0 mass order alpha vmax v0 : R) (draw : nat -> R) (start passes : nat) : option (list R) :=
  reject T0 mass order alpha vmax v0 draw (Nat.max n 1024) start n passes.

(** One component (helpers.py:119-166): the quiet branch divides by sub_np as a Python integer; the random branch
    asks the generator for sub_np numbers and divides a numpy float by sub_np. *)
Definition mk (x v w : R) : particle := {| px := x; pv := v; pw := w |}.
Fixpoint zip3 (xs vs ws : list R) : list particle :=
  match xs, vs, ws with x :: xt, v :: vt, w :: wt => mk x v w :: zip3 xt vt wt | _, _, _ => [] end.
Definition quiet_x (g : lgrid) (n k : nat) : R := lg_xmin g + (INR k + 1 / 2) * (lg_L g / INR n).
Definition quiet_w (g : lgrid) (u : sub) (n k : nat) : R :=
  interp (lg_nx g) (lg_x g) (u_prof u) (quiet_x g n k) * (lg_L g / INR n).
Definition load_quiet (g : lgrid) (s : pspecies) (u : sub) (r : rng) (m : Z) : lres (list particle) :=
  if (m =? 0)%Z then LZeroDivision
  else let n := Z.to_nat m in
    LOk (zip3 (map (quiet_x g n) (seq 0 n))
              (r_perm r (quiet_v n (u_T0 u) (l_mass s) (u_order u) (u_alpha u) (l_vmax s) (u_v0 u)))
              (map (quiet_w g u n) (seq 0 n))).
Definition random_x (g : lgrid) (u : sub) (r : rng) (i : nat) : R :=
  interp (lg_nx g) (cdf (lg_nx g) (lg_x g) (u_prof u)) (lg_x g) (r_draw r i).
Definition load_random (g : lgrid) (s : pspecies) (u : sub) (r : rng) (passes : nat) (m : Z) : lres (list particle) :=
  if (m <? 0)%Z then LNegativeSize
  else let n := Z.to_nat m in
    match random_v n (u_T0 u) (l_mass s) (u_order u) (u_alpha u) (l_vmax s) (u_v0 u) (r_draw r) n passes with
    | None => LNotFinished
    | Some vs => LOk (zip3 (map (random_x g u r) (seq 0 n)) vs (map (fun _ => integrated g u / INR n) (seq 0 n)))
    end.
Definition load_sub (gen : Z -> rng) (g : lgrid) (s : pspecies) (passes : nat) (u : sub) (m : Z) : lres (list particle) :=
  if (u_seed u <? 0)%Z then LBadSeed
  else if l_quiet s then load_quiet g s u (gen (u_seed u)) m else load_random g s u (gen (u_seed u)) passes m.
Fixpoint load_subs (gen : Z -> rng) (g : lgrid) (s : pspecies) (passes : nat) (us : list sub) (ms : list Z) : lres (list particle) :=
  match us, ms with
  | u :: ut, m :: mt =>
      match load_sub gen g s passes u m with
      | LOk ps => match load_subs gen g s passes ut mt with LOk qs => LOk (ps ++ qs) | e => e end
      | e => e
      end
  | _, _ => LOk []
  end.
(** np.resize (helpers.py:174-177): repeat cyclically, or cut; an empty array gives zeros. *)
Definition resize (n : nat) (l : list particle) : list particle :=
  match l with [] => repeat (mk 0 0 0) n | _ => map (fun i => nth (i mod List.length l) l (mk 0 0 0)) (seq 0 n) end.
(** _initialize_particles_ for one species (helpers.py:93-181). *)
Definition n_prof (s : pspecies) : nat -> R := fold_left (fun acc u => fun i => acc i + u_prof u i) (l_subs s) (fun _ => 0).
Definition load_species (gen : Z -> rng) (g : lgrid) (ppc : nat) (passes : nat) (s : pspecies) : lres (list particle) :=
  let n := (lg_nx g * ppc)%nat in
  let ints := map (integrated g) (l_subs s) in
  if Rle_dec (lsum ints) 0 then LNonPositive
  else match load_subs gen g s passes (l_subs s) (counts ints (Z.of_nat n)) with
    | LOk ps => LOk (if Nat.eqb (List.length ps) n then ps else resize n ps)
    | e => e
    end.
(** All species in order (helpers.py:92-181), for distinct names. *)
Fixpoint load_all (gen : Z -> rng) (g : lgrid) (ppc passes : nat) (l : list pspecies) : lres (dict (list particle * (nat -> R))) :=
  match l with
  | [] => LOk []
  | s :: t =>
      match load_species gen g ppc passes s with
      | LOk ps => match load_all gen g ppc passes t with LOk d => LOk ((l_name s, (ps, n_prof s)) :: d) | e => e end
      | LNonPositive => LNonPositive | LZeroDivision => LZeroDivision | LNegativeSize => LNegativeSize
      | LBadSeed => LBadSeed | LNotFinished => LNotFinished
      end
  end.
(** The static background of get_solver_quantities (modules.py:119-128); the profile is the species' own when names
    are distinct. *)
Definition ion_charge (quasineutral : bool) (l : list pspecies) : nat -> R :=
  if quasineutral then fold_left (fun acc s => fun i => acc i - l_charge s * n_prof s i) l (fun _ => 0) else fun _ => 0.
