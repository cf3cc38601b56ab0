(** Model of the Vlasov-1D grid, the cubic-spline velocity pusher and the profile functions.

    Simplifications: exact real arithmetic; arrays are functions of an index (with their length as a separate
    parameter); the conversion of configuration strings to numbers (normalize) has already happened; the printed
    message about too many steps and the sharded dispatch, which computes the same rows on other devices, are not
    represented. *)
From Verif Require Export RSum Pic.

(** Python's int() on a float: truncation towards zero. *)
Definition trunc (x : R) : Z := if Rle_dec 0 x then floor x else (- floor (- x))%Z.

(** jnp.linspace(a, b, n), entry [i]. *)
Definition linspace (a b : R) (n i : nat) : R := if Nat.leb n 1 then a else a + (b - a) * INR i / INR (n - 1).

(* ------------------------------------------------------------------------------------------------ *)
(** Grid (grid.py:36-88). The fields of the object; arrays are functions of the index. *)
Record grid_in := { in_xmin : R; in_xmax : R; in_nx : nat; in_tmin : R; in_tmax : R; in_dt : R; in_override : bool; in_beta : R }.

(** grid.py:55 *)
Definition g_dx (c : grid_in) : R := (in_xmax c - in_xmin c) / INR (in_nx c).
(** grid.py:58-62: c_light = 1/beta; dt = min(dt_requested, 0.95 * dx / c_light). *)
Definition g_dt (c : grid_in) : R :=
  if in_override c then Rmin (in_dt c) (95 / 100 * g_dx c / (1 / in_beta c)) else in_dt c.
(** grid.py:65-66 *)
Definition g_nt (c : grid_in) : Z := trunc (in_tmax c / g_dt c + 1).
Definition g_tmax (c : grid_in) : R := g_dt c * IZR (g_nt c).
(** grid.py:68-71: min(nt + 4, int(1e8)). *)
Definition g_max_steps (c : grid_in) : Z := Z.min (g_nt c + 4) 100000000.
(** grid.py:74-75 *)
Definition g_x (c : grid_in) (i : nat) : R := linspace (in_xmin c + g_dx c / 2) (in_xmax c - g_dx c / 2) (in_nx c) i.
Definition g_t (c : grid_in) (i : nat) : R := linspace 0 (g_tmax c) (Z.to_nat (g_nt c)) i.
(** grid.py:88: x with one ghost cell on either side (nx + 2 entries). *)
Definition g_x_a (c : grid_in) (i : nat) : R :=
  if Nat.eqb i 0 then g_x c 0 - g_dx c
  else if Nat.leb i (in_nx c) then g_x c (i - 1) else g_x c (in_nx c - 1) + g_dx c.

(* ------------------------------------------------------------------------------------------------ *)
(** _uniform_cubic_interp (solvers/pushers/vlasov.py:106-148), one row [f] of [nv] values; [ss] = shift / dv. The
    ValueError for nv < 2 is the premise [2 <= nv] of the theorems. *)
Definition clipZ (x lo hi : Z) : Z := Z.min (Z.max x lo) hi.
Definition clipR (x lo hi : R) : R := Rmin (Rmax x lo) hi.
Definition ci_left (nv : nat) (ss : R) (j : nat) : Z := clipZ (Z.of_nat j + floor (- ss)) 0 (Z.of_nat nv - 2).
Definition ci_query (ss : R) (j : nat) : R := INR j - ss.
Definition take (f : nat -> R) (i : Z) : R := f (Z.to_nat i).
Definition hermite (t f0 f1 m0 m1 : R) : R :=
  (2 * t ^ 3 - 3 * t ^ 2 + 1) * f0 + (t ^ 3 - 2 * t ^ 2 + t) * m0 + (- 2 * t ^ 3 + 3 * t ^ 2) * f1 + (t ^ 3 - t ^ 2) * m1.
Definition tiny : R := / 10 ^ 30.
Definition cubic_row (nv : nat) (f : nat -> R) (ss : R) (j : nat) : R :=
  let n := Z.of_nat nv in
  let left := ci_left nv ss j in
  let t := clipR (ci_query ss j - IZR left) 0 1 in
  let fm1 := take f (clipZ (left - 1) 0 (n - 1)) in
  let f0 := take f left in
  let f1 := take f (left + 1) in
  let f2 := take f (clipZ (left + 2) 0 (n - 1)) in
  let m0 := if Z.eqb left 0 then f1 - f0 else 1 / 2 * (f1 - fm1) in
  let m1 := if Z.eqb left (n - 2) then f1 - f0 else 1 / 2 * (f2 - f0) in
  if Rlt_dec (ci_query ss j) 0 then tiny
  else if Rlt_dec (INR nv - 1) (ci_query ss j) then tiny
  else hermite t f0 f1 m0 m1.

(** VelocityCubicSpline.push (vlasov.py:162-172), one species, row [i]: force and acceleration, then the shift. *)
Definition accel (q m e pond : R) : R := (q * e + q ^ 2 / m * pond) / m.
Definition velocity_push (nv : nat) (dv q m dt : R) (e pond : nat -> R) (f : nat -> nat -> R) (i j : nat) : R :=
  cubic_row nv (f i) (accel q m (e i) (pond i) * dt / dv) j.

(* ------------------------------------------------------------------------------------------------ *)
(** EnvelopeFunction (functions.py:65-80). *)
Record envelope := { e_center : R; e_width : R; e_rise : R; e_baseline : R; e_height : R; e_trough : bool }.
Definition tanh_step (l r w1 w2 x : R) : R := 1 / 2 * (tanh ((x - l) / w1) - tanh ((x - r) / w2)).
Definition env_call (p : envelope) (x : R) : R :=
  let left := e_center p - e_width p * (1 / 2) in
  let right := e_center p + e_width p * (1 / 2) in
  let env := tanh_step left right (e_rise p) (e_rise p) x in
  e_baseline p + e_height p * (if e_trough p then 1 - env else env).
(** SpaceTimeEnvelopeFunction.__call__ (functions.py:112-118). *)
Definition st_call (time space : envelope) (x t : R) : R := env_call time t * env_call space x.
(** get_envelope (_base_.py:21-27). *)
Definition get_envelope (p_wL p_wR p_L p_R ax : R) : R := tanh_step p_L p_R p_wL p_wR ax.
(** UniformFunction, LinearFunction, ExponentialFunction, SineFunction (functions.py:137-192). *)
Definition uniform_call (value x : R) : R := value * 1.
Definition linear_call (center L val x : R) : R := val + (x - center) / L.
Definition exponential_call (center L val x : R) : R := val * exp ((x - center) / L).
Definition sine_call (baseline amplitude k x : R) : R := baseline * (1 + amplitude * sin (k * x)).
