(** Model of the Vlasov-2D solver: adept/_vlasov2d/{grid,helpers,modules,distributed,simulation,storage}.py and solvers/.

    Simplifications: exact arithmetic; numpy/JAX transforms are those of Dft.v (irfft here is called with the length of its axis); interpax's
    cubic interp2d is an arbitrary function inside the box and 0 outside (extrap = 0); scipy's gamma is an arbitrary function; the
    tridiagonal solver returns a solution of its system; a dictionary of distributions is a list in insertion order; numbers are what
    [normalize] returns. *)
From Coq Require Import Reals ZArith List Bool Lia.
From Verif Require Import PyStr RSum Pic VGrid DriftDiff Dft Vfp2d.
Import ListNotations.
Local Open Scope R_scope.

Definition f4 : Type := nat -> nat -> nat -> nat -> R.   (* x, y, vx, vy *)
Definition rfl : Type := nat -> nat -> R.                (* a field over (x, y) *)

(** * Grid (grid.py:38-95) *)
Record grid_v2 := { v2_xmin : R; v2_xmax : R; v2_nx : nat; v2_ymin : R; v2_ymax : R; v2_ny : nat; v2_tmin : R; v2_tmax : R; v2_dt : R; v2_override : bool; v2_beta : R }.
Definition v2_dx (g : grid_v2) : R := (v2_xmax g - v2_xmin g) / INR (v2_nx g).
Definition v2_dy (g : grid_v2) : R := (v2_ymax g - v2_ymin g) / INR (v2_ny g).
Definition run_dt (g : grid_v2) : R :=
  if v2_override g then let c_light := 1 / v2_beta g in Rmin (v2_dt g) (1 / 2 * Rmin (v2_dx g) (v2_dy g) / c_light) else v2_dt g.
(** int() truncates towards zero; the argument is positive for positive times. *)
Definition run_nt (g : grid_v2) : Z := floor (v2_tmax g / run_dt g + 1).
Definition run_tmax (g : grid_v2) : R := run_dt g * IZR (run_nt g).
Definition run_max_steps (g : grid_v2) : Z := Z.min (run_nt g + 4) 100000000.
Definition v2_x (g : grid_v2) : nat -> R := linspace (v2_xmin g + v2_dx g / 2) (v2_xmax g - v2_dx g / 2) (v2_nx g).
Definition v2_y (g : grid_v2) : nat -> R := linspace (v2_ymin g + v2_dy g / 2) (v2_ymax g - v2_dy g / 2) (v2_ny g).
(** modules.py: the run goes from t0 = 0.0 to grid.tmax (init_diffeqsolve). *)
Definition run_t0 (g : grid_v2) : R := 0.

(** * Species (simulation.py:74-93, modules.py:151-200) *)
Record sp2 := { s2_q : R; s2_m : R; s2_vmax : R; s2_nvx : nat; s2_nvy : nat }.
Definition dvx (s : sp2) : R := 2 * s2_vmax s / INR (s2_nvx s).
Definition dvy (s : sp2) : R := 2 * s2_vmax s / INR (s2_nvy s).
(** helpers.py:38-41 *)
Definition vx (s : sp2) : nat -> R := linspace (- s2_vmax s + dvx s / 2) (s2_vmax s - dvx s / 2) (s2_nvx s).
Definition vy (s : sp2) : nat -> R := linspace (- s2_vmax s + dvy s / 2) (s2_vmax s - dvy s / 2) (s2_nvy s).

(** * Pushers (solvers/pushers/vlasov.py) *)
(** _shift_axis (lines 14-18) with the phase exp(-1j k s), k = rfftfreq(n, d) 2 pi. *)
Definition kr2 (n : nat) (d : R) (k : nat) : R := INR k / (INR n * d) * 2 * PI.
Definition shift_axis (n : nat) (d s : R) (a : nat -> R) (g : nat) : R := irfft n (fun k => cmul (cis (- (kr2 n d k * s))) (rfft n a k)) g.
(** SpaceExponentialX, SpaceExponentialY (lines 21-52). *)
Definition stream_x (nx : nat) (dx : R) (s : sp2) (dt : R) (f : f4) : f4 := fun x y i j => shift_axis nx dx (vx s i * dt) (fun x' => f x' y i j) x.
Definition stream_y (ny : nat) (dy : R) (s : sp2) (dt : R) (f : f4) : f4 := fun x y i j => shift_axis ny dy (vy s j * dt) (fun y' => f x y' i j) y.
(** VelocityExponentialE (lines 55-87). *)
Definition accel (s : sp2) (e : rfl) (x y : nat) : R := s2_q s / s2_m s * e x y.
Definition exp_vx (s : sp2) (ex : rfl) (dt : R) (f : f4) : f4 := fun x y i j => shift_axis (s2_nvx s) (dvx s) (accel s ex x y * dt) (fun i' => f x y i' j) i.
Definition exp_vy (s : sp2) (ey : rfl) (dt : R) (f : f4) : f4 := fun x y i j => shift_axis (s2_nvy s) (dvy s) (accel s ey x y * dt) (fun j' => f x y i j') j.
(** interp2d(..., method = "cubic", extrap = 0.0). *)
Definition cubic2 : Type := sp2 -> (nat -> nat -> R) -> R -> R -> R.
Definition in_box (s : sp2) (a b : R) : bool :=
  (if Rle_dec (vx s 0) a then true else false) && (if Rle_dec a (vx s (s2_nvx s - 1)) then true else false) &&
  (if Rle_dec (vy s 0) b then true else false) && (if Rle_dec b (vy s (s2_nvy s - 1)) then true else false).
Definition interp2 (cub : cubic2) (s : sp2) (a : nat -> nat -> R) (u w : R) : R := if in_box s u w then cub s a u w else 0.
(** VelocitySL2DE (lines 90-132). *)
Definition sl_vx (cub : cubic2) (s : sp2) (ex : rfl) (dt : R) (f : f4) : f4 := fun x y i j => interp2 cub s (f x y) (vx s i - accel s ex x y * dt) (vy s j).
Definition sl_vy (cub : cubic2) (s : sp2) (ey : rfl) (dt : R) (f : f4) : f4 := fun x y i j => interp2 cub s (f x y) (vx s i) (vy s j - accel s ey x y * dt).
(** VelocityRotateB (lines 135-173). *)
Definition rot_q (theta a b : R) : R * R := (cos theta * a + sin theta * b, - sin theta * a + cos theta * b).
Definition theta_of (s : sp2) (bz : rfl) (dt : R) (x y : nat) : R := - (s2_q s / s2_m s) * bz x y * dt.
Definition rotate (cub : cubic2) (s : sp2) (bz : rfl) (dt : R) (f : f4) : f4 := fun x y i j =>
  let q := rot_q (theta_of s bz dt x y) (vx s i) (vy s j) in interp2 cub s (f x y) (fst q) (snd q).
(** terms.edfdv (solvers/vector_field.py:47-50): "exponential" or anything else. *)
Definition push_vx (cub : cubic2) (spectral : bool) (s : sp2) : rfl -> R -> f4 -> f4 := if spectral then exp_vx s else sl_vx cub s.
Definition push_vy (cub : cubic2) (spectral : bool) (s : sp2) : rfl -> R -> f4 -> f4 := if spectral then exp_vy s else sl_vy cub s.
(** TimeIntegrator.kinetic_substep (solvers/vector_field.py:79-95) for one species. *)
Definition kinetic (cub : cubic2) (spectral : bool) (G : grid2) (s : sp2) (dt : R) (ex ey bz : rfl) (f : f4) : f4 :=
  let f := stream_x (g_nx G) (g_dx G) s (1 / 2 * dt) f in
  let f := stream_y (g_ny G) (g_dy G) s (1 / 2 * dt) f in
  let f := push_vx cub spectral s ex (1 / 2 * dt) f in
  let f := push_vy cub spectral s ey (1 / 2 * dt) f in
  let f := rotate cub s bz dt f in
  let f := push_vy cub spectral s ey (1 / 2 * dt) f in
  let f := push_vx cub spectral s ex (1 / 2 * dt) f in
  let f := stream_y (g_ny G) (g_dy G) s (1 / 2 * dt) f in
  stream_x (g_nx G) (g_dx G) s (1 / 2 * dt) f.
(** HouLiFilter (lines 176-210). *)
Definition hl_sigma (n : nat) (alpha : R) (order : nat) (k : nat) : R := exp (- alpha * (INR k / INR (n / 2)) ^ (2 * order)).
Definition hl_axis (n : nat) (alpha : R) (order : nat) (a : nat -> R) (g : nat) : R := irfft n (fun k => cscal (hl_sigma n alpha order k) (rfft n a k)) g.
Definition hou_li2 (dimx dimy : bool) (nx ny : nat) (alpha : R) (order : nat) (f : f4) : f4 :=
  let f := if dimx then (fun x y i j => hl_axis nx alpha order (fun x' => f x' y i j) x) else f in
  if dimy then (fun x y i j => hl_axis ny alpha order (fun y' => f x y' i j) y) else f.

(** * Fields (solvers/pushers/field.py) *)
(** MaxwellSpectral (lines 24-58); [ddx], [ddy] are real(ifft(1j k fft(.))) along an axis (Vfp2d.v). *)
Definition gspec (nx ny : nat) (dx dy : R) : grid2 := {| g_nx := nx; g_ny := ny; g_dx := dx; g_dy := dy; g_kx := Spectral; g_ky := Spectral |}.
Definition b_half (G : grid2) (ex ey bz : rfl) (dt : R) : rfl := fun x y => bz x y - 1 / 2 * dt * (ddx G ey x y - ddy G ex x y).
Definition ex_full (G : grid2) (c2 : R) (ex bz jx : rfl) (dt : R) : rfl := fun x y => ex x y + dt * (c2 * ddy G bz x y - jx x y).
Definition ey_full (G : grid2) (c2 : R) (ey bz jy : rfl) (dt : R) : rfl := fun x y => ey x y + dt * (- c2 * ddx G bz x y - jy x y).
Definition maxwell_step (G : grid2) (c2 : R) (ex ey bz jx jy : rfl) (dt : R) : rfl * rfl * rfl :=
  let b1 := b_half G ex ey bz dt in
  let ex1 := ex_full G c2 ex b1 jx dt in let ey1 := ey_full G c2 ey b1 jy dt in
  (ex1, ey1, b_half G ex1 ey1 b1 dt).
(** ChargeMoment, CurrentMoments (lines 61-102) and the densities of storage.py. *)
Definition dens2 (s : sp2) (f : f4) : rfl := fun x y => rsum (s2_nvx s) (fun i => rsum (s2_nvy s) (fun j => f x y i j)) * (dvx s * dvy s).
Definition momx (s : sp2) (f : f4) : rfl := fun x y => rsum (s2_nvx s) (fun i => rsum (s2_nvy s) (fun j => vx s i * f x y i j)) * (dvx s * dvy s).
Definition momy (s : sp2) (f : f4) : rfl := fun x y => rsum (s2_nvx s) (fun i => rsum (s2_nvy s) (fun j => vy s j * f x y i j)) * (dvx s * dvy s).
Definition lsum2 {A} (h : A -> R) (l : list A) : R := fold_right (fun p r => h p + r) 0 l.
Definition charge2 (l : list (sp2 * f4)) : rfl := fun x y => lsum2 (fun p => s2_q (fst p) * dens2 (fst p) (snd p) x y) l.
Definition jx_of (l : list (sp2 * f4)) : rfl := fun x y => lsum2 (fun p => s2_q (fst p) * momx (fst p) (snd p) x y) l.
Definition jy_of (l : list (sp2 * f4)) : rfl := fun x y => lsum2 (fun p => s2_q (fst p) * momy (fst p) (snd p) x y) l.
(** InitialPoissonSolver (lines 105-126) is [poisson2] of Vfp2d.v (same formula, no third component). *)
(** EMDriverFieldSource (lines 129-150); [e2_env] is the envelope product. *)
(** [e2_pol]: the configured polarization, "x" or "y" (simulation.py:39-60). *)
Record em2 := { e2_a0 : R; e2_kx : R; e2_ky : R; e2_w0 : R; e2_dw0 : R; e2_env : R -> R -> R -> R; e2_pol : str }.
Definition source (gx gy : nat -> R) (l : list em2) (t : R) : rfl := fun x y =>
  lsum2 (fun d => let w := e2_w0 d + e2_dw0 d in - w ^ 2 * e2_a0 d * e2_env d (gx x) (gy y) t * sin (e2_kx d * gx x + e2_ky d * gy y - w * t)) l.

(** * Collisions (solvers/pushers/fokker_planck.py) *)
(** _dougherty_step_1d (lines 25-59): backward Euler on one column; the new column solves the system. *)
Definition col_n (nv : nat) (dv : R) (f : nat -> R) : R := rsum nv f * dv.
Definition safe_n (n : R) : R := if Rlt_dec 0 n then n else 1.
Definition col_u (nv : nat) (v : nat -> R) (dv : R) (f : nat -> R) : R := rsum nv (fun i => f i * v i) * dv / safe_n (col_n nv dv f).
Definition col_T (nv : nat) (v : nat -> R) (dv : R) (f : nat -> R) : R :=
  Rmax (rsum nv (fun i => f i * (v i - col_u nv v dv f) ^ 2) * dv / safe_n (col_n nv dv f)) (1 / 10 ^ 12).
Definition doug_op (nv : nat) (v : nat -> R) (dv nu dt : R) (f : nat -> R) : tridiagonal :=
  let C := fun i => v_edge v i - col_u nv v dv f in let D := col_T nv v dv f in
  let bare_diag := fun i => (if Nat.ltb (S i) nv then (C i / 2 - D / dv) / dv else 0) + (match i with O => 0 | S j => - (C j / 2 + D / dv) / dv end) in
  {| diagonal := fun i => 1 - dt * nu * bare_diag i; upper := fun i => - dt * nu * ((C i / 2 + D / dv) / dv); lower := fun i => - dt * nu * ((- C i / 2 + D / dv) / dv) |}.
Definition doug_step (nv : nat) (v : nat -> R) (dv nu dt : R) (f f' : nat -> R) : Prop := forall i, (i < nv)%nat -> mv nv (doug_op nv v dv nu dt f) f' i = f i.
(** DoughertyFP.__call__ (lines 62-103): vx on every (x, y, vy), then vy on every (x, y, vx). *)
Definition doug2 (G : grid2) (s : sp2) (nu : rfl) (dt : R) (f f' : f4) : Prop :=
  exists h : f4, (forall x y j, (x < g_nx G)%nat -> (y < g_ny G)%nat -> (j < s2_nvy s)%nat -> doug_step (s2_nvx s) (vx s) (dvx s) (nu x y) dt (fun i => f x y i j) (fun i => h x y i j)) /\
                 (forall x y i, (x < g_nx G)%nat -> (y < g_ny G)%nat -> (i < s2_nvx s)%nat -> doug_step (s2_nvy s) (vy s) (dvy s) (nu x y) dt (fun j => h x y i j) (fun j => f' x y i j)).
(** Krook2D (lines 106-137). *)
Definition maxw (n : nat) (v : nat -> R) (dv : R) (i : nat) : R := exp (- (1 / 2) * v i ^ 2) / (rsum n (fun k => exp (- (1 / 2) * v k ^ 2)) * dv).
Definition krook2 (s : sp2) (nu : rfl) (dt : R) (f : f4) : f4 := fun x y i j =>
  let decay := exp (- (nu x y * dt)) in
  f x y i j * decay + dens2 s f x y * (maxw (s2_nvx s) (vx s) (dvx s) i * maxw (s2_nvy s) (vy s) (dvy s) j) * (1 - decay).
(** Collisions.__init__, __call__ (lines 140-162) with the profiles of modules.py:63-79 (built when the term is on); None is
    NotImplementedError. *)
Definition coll_ok (fp_on : bool) (fp_type : str) : bool := negb fp_on || str_eqb (PyStr.lower fp_type) (lit "dougherty").
Definition collide2 (G : grid2) (s : sp2) (fp krook : option rfl) (dt : R) (f f' : f4) : Prop :=
  exists h, match fp with Some nu => doug2 G s nu dt f h | None => h = f end /\ f' = match krook with Some nu => krook2 s nu dt h | None => h end.

(** * One step (solvers/vector_field.py:98-156) *)
Record st2 := { q_f : list (sp2 * f4); q_ex : rfl; q_ey : rfl; q_bz : rfl; q_jx : rfl; q_jy : rfl }.
Record cfg2 := { k_cub : cubic2; k_spectral : bool; k_grid : grid2; k_x : nat -> R; k_y : nat -> R; k_dt : R; k_c2 : R; k_dex : list em2; k_dey : list em2;
                 k_skip : bool; k_fp : option (R -> rfl); k_krook : option (R -> rfl); k_filter : option (bool * bool * R * nat) }.
Definition filt (c : cfg2) (f : f4) : f4 := match k_filter c with Some (a, b, alpha, order) => hou_li2 a b (g_nx (k_grid c)) (g_ny (k_grid c)) alpha order f | None => f end.
Definition kin_all (c : cfg2) (s : st2) : list (sp2 * f4) := map (fun p => (fst p, kinetic (k_cub c) (k_spectral c) (k_grid c) (fst p) (k_dt c) (q_ex s) (q_ey s) (q_bz s) (snd p))) (q_f s).
Definition fields_next (c : cfg2) (t : R) (s : st2) : rfl * rfl * rfl :=
  let f := kin_all c s in let tm := t + 1 / 2 * k_dt c in
  if k_skip c then (q_ex s, q_ey s, q_bz s)
  else maxwell_step (k_grid c) (k_c2 c) (q_ex s) (q_ey s) (q_bz s) (fun x y => jx_of f x y + source (k_x c) (k_y c) (k_dex c) tm x y) (fun x y => jy_of f x y + source (k_x c) (k_y c) (k_dey c) tm x y) (k_dt c).
Definition step2 (c : cfg2) (t : R) (s s' : st2) : Prop :=
  exists fs, Forall2 (fun p q => fst q = fst p /\ collide2 (k_grid c) (fst p) (option_map (fun nu => nu t) (k_fp c)) (option_map (fun nu => nu t) (k_krook c)) (k_dt c) (snd p) (snd q)) (kin_all c s) fs /\
    s' = {| q_f := map (fun p => (fst p, filt c (snd p))) fs;
            q_ex := fst (fst (fields_next c t s)); q_ey := snd (fst (fields_next c t s)); q_bz := snd (fields_next c t s);
            q_jx := source (k_x c) (k_y c) (k_dex c) (t + 1 / 2 * k_dt c); q_jy := source (k_x c) (k_y c) (k_dey c) (t + 1 / 2 * k_dt c) |}.

(** * Initial distribution (helpers.py:20-200, simulation.py:96-142) *)
(** SubspeciesDensityProfile (simulation.py:96-142) without noise; None is NotImplementedError. *)
Record dprof := { dp_basis : str; dp_base : option R; dp_amp : option R; dp_kx : option R; dp_ky : option R; dp_ex : option (R -> R); dp_ey : option (R -> R) }.
Definition odef (o : option R) (d : R) : R := match o with Some z => z | None => d end.
Definition density_prof (p : dprof) (gx gy : nat -> R) : option rfl :=
  if negb (str_eqb (dp_basis p) (lit "uniform") || str_eqb (dp_basis p) (lit "sine")) then None else
  Some (fun x y =>
    let n := odef (dp_base p) 1 + odef (dp_amp p) 0 * cos (odef (dp_kx p) 0 * gx x + odef (dp_ky p) 0 * gy y) in
    let n := match dp_ex p with Some e => n * e (gx x) | None => n end in
    match dp_ey p with Some e => n * e (gy y) | None => n end).
Record comp2 := { c2_n : rfl; c2_ux : R; c2_uy : R; c2_T : R; c2_m : R }.
(** _gamma_ratio_alpha (helpers.py:20-21). *)
Definition g_alpha (gam : R -> R) (m : R) : R := sqrt (3 * gam (3 / m) / gam (5 / m)).
(** _evaluate_bi_supergaussian_on_axes (helpers.py:46-73): one normalised axis of n points. *)
Definition sg_raw (gam : R -> R) (T0 mass m u : R) (ax : nat -> R) (i : nat) : R := exp (- abs_pow ((ax i - u) / (g_alpha gam m * sqrt (T0 / mass))) m).
Definition sg_axis (gam : R -> R) (T0 mass m u vmax : R) (n : nat) (ax : nat -> R) (i : nat) : R :=
  sg_raw gam T0 mass m u ax i / (rsum n (sg_raw gam T0 mass m u ax) * (2 * vmax / INR n)).
Definition eval_bi (gam : R -> R) (s : sp2) (c : comp2) (nx ny : nat) (ax ay : nat -> R) (n : R) (i j : nat) : R :=
  n * (sg_axis gam (c2_T c) (s2_m s) (c2_m c) (c2_ux c) (s2_vmax s) nx ax i * sg_axis gam (c2_T c) (s2_m s) (c2_m c) (c2_uy c) (s2_vmax s) ny ay j).
(** _initialize_total_distribution_ (helpers.py:140-200) without sharding. *)
Definition init_f (gam : R -> R) (s : sp2) (l : list comp2) : f4 := fun x y i j => lsum2 (fun c => eval_bi gam s c (s2_nvx s) (s2_nvy s) (vx s) (vy s) (c2_n c x y) i j) l.
(** _initialize_sharded_species_distribution (helpers.py:86-137): each device evaluates the components on its own block of bx x by x bvx
    x bvy points. *)
Definition shard_f (gam : R -> R) (s : sp2) (bvx bvy : nat) (l : list comp2) : f4 := fun x y i j =>
  lsum2 (fun c => eval_bi gam s c bvx bvy (fun k => vx s (i / bvx * bvx + k)%nat) (fun k => vy s (j / bvy * bvy + k)%nat) (c2_n c x y) (i mod bvx)%nat (j mod bvy)%nat) l.
(** create_distribution_sharding (distributed.py:40-82): Some None = off, None = ValueError. [partition] entries: None = replicated. *)
Record shcfg := { sh_on : bool; sh_axes : list str; sh_shape : option (list nat); sh_part : list (option str) }.
Definition or_default {A} (l d : list A) : list A := match l with [] => d | _ => l end.
Definition lprod (l : list nat) : nat := fold_right Nat.mul 1%nat l.
Definition make_dist_sharding (c : shcfg) (devices : nat) : option (option (list (str * nat) * list (option str))) :=
  if negb (sh_on c) then Some None else
  let axes := or_default (sh_axes c) [lit "x"] in let part := or_default (sh_part c) [Some (lit "x"); None; None; None] in
  if negb (List.length part =? 4)%nat then None else
  if negb (forallb (fun p => match p with None => true | Some a => existsb (str_eqb a) axes end) part) then None else
  if (devices =? 0)%nat then None else
  let shape := match sh_shape c with Some (a :: l) => a :: l | _ => devices :: repeat 1%nat (List.length axes - 1) end in
  if negb (List.length shape =? List.length axes)%nat then None else
  if negb (lprod shape =? devices)%nat then None else Some (Some (combine axes shape, part)).
(** init_state_and_args (modules.py:202-235): the static background of a single-species run is its density profile; [poisson2]. *)
Definition rho0 (l : list (sp2 * f4)) (nprof : rfl) : rfl := fun x y => charge2 l x y + (if (1 <? List.length l)%nat then 0 else nprof x y).
Definition init_e (nx ny : nat) (dx dy : R) (l : list (sp2 * f4)) (nprof : rfl) : rfl * rfl :=
  let e := poisson2 nx ny dx dy (rho0 l nprof) in (fx e, fy e).
(** species_set_from_config (modules.py:29-51); None is ValueError. *)
Definition species_set (terms : list (str * sp2 * list str)) (density_keys : list str) (nvx nvy : option nat) (vmax : option R) : option (list (str * sp2 * list str)) :=
  match terms with
  | _ :: _ => Some terms
  | [] => match filter (is_prefix (lit "species-")) density_keys, nvx, nvy, vmax with
          | [], _, _, _ => None
          | comps, Some a, Some b, Some v => Some [((lit "electron", {| s2_q := -1; s2_m := 1; s2_vmax := v; s2_nvx := a; s2_nvy := b |}), comps)]
          | _, _, _, _ => None
          end
  end.

(** * Saved quantities (storage.py) *)
(** One entry of cfg["save"]: the keys of its dictionary (fields and distribution labels have the same shape); None is an exception
    (KeyError or NotImplementedError). get_field_save_func looks at cfg["save"]["fields"] only, whatever the name of the entry being
    expanded, and a processed entry has gained the key "func" (storage.py:79-84, 200-228). *)
Inductive sentry := SFields (keys : list str) | SDist (labels : list (str * list str)).
Definition same_set (a b : list str) : bool := forallb (fun k => existsb (str_eqb k) b) a && forallb (fun k => existsb (str_eqb k) a) b.
Definition fields_accepts (save : list (str * list str)) : bool := match find (fun p => str_eqb (fst p) (lit "fields")) save with Some p => same_set (snd p) [lit "t"] | None => false end.
Definition dist_accepts (keys : list str) : bool :=
  same_set keys [lit "t"] || same_set keys [lit "t"; lit "func"] || same_set keys [lit "t"; lit "func"; lit "_species_name"] ||
  forallb (fun k => existsb (str_eqb k) keys) [lit "t"; lit "x"; lit "y"; lit "vx"; lit "vy"].
(** [fkeys]: the current keys of the entries named fields...; returns the flat names in order. *)
Fixpoint expand (species : list str) (fkeys : list (str * list str)) (l : list (str * sentry)) : option (list str) :=
  match l with
  | [] => Some [lit "default"]
  | (nm, e) :: rest =>
      if is_prefix (lit "fields") nm then
        if fields_accepts fkeys then
          let fkeys' := map (fun p => if str_eqb (fst p) nm then (fst p, snd p ++ [lit "func"]) else p) fkeys in
          match expand species fkeys' rest with Some r => Some (nm :: r) | None => None end
        else None
      else if existsb (str_eqb nm) species then
        match e with
        | SDist labels => if forallb (fun p => dist_accepts (snd p)) labels then match expand species fkeys rest with Some r => Some (map (fun p => nm ++ lit "." ++ fst p) labels ++ r) | None => None end else None
        | SFields _ => None
        end
      else None
  end.
Definition fields_of (l : list (str * sentry)) : list (str * list str) := flat_map (fun p => match snd p with SFields k => [(fst p, k)] | SDist _ => [] end) l.
Definition save_quantities (species : list str) (l : list (str * sentry)) : option (list str) := expand species (fields_of l) l.
(** _add_dim_axes (storage.py:188-197): cell centres for x and y, end points for the others. *)
Definition dim_axis (key : str) (lo hi : R) (n : nat) : nat -> R :=
  let d := if str_eqb key (lit "x") || str_eqb key (lit "y") then (hi - lo) / INR n else 0 in linspace (lo + d / 2) (hi - d / 2) n.
(** get_field_save_func (storage.py:79-119) at one cell and the scalars of get_default_save_func (storage.py:231-253). *)
Definition usafe (n : R) : R := if Rlt_dec 0 n then n else 1.
Definition ux_of (s : sp2) (f : f4) : rfl := fun x y => momx s f x y / usafe (dens2 s f x y).
Definition uy_of (s : sp2) (f : f4) : rfl := fun x y => momy s f x y / usafe (dens2 s f x y).
Definition txx_of (s : sp2) (f : f4) : rfl := fun x y => rsum (s2_nvx s) (fun i => rsum (s2_nvy s) (fun j => (vx s i - ux_of s f x y) ^ 2 * f x y i j)) * (dvx s * dvy s).
Definition tyy_of (s : sp2) (f : f4) : rfl := fun x y => rsum (s2_nvx s) (fun i => rsum (s2_nvy s) (fun j => (vy s j - uy_of s f x y) ^ 2 * f x y i j)) * (dvx s * dvy s).
Definition t_of (s : sp2) (f : f4) : rfl := fun x y => 1 / 2 * (txx_of s f x y + tyy_of s f x y) / usafe (dens2 s f x y).
Definition gmean (nx ny : nat) (a : rfl) : R := rsum nx (fun x => rsum ny (fun y => a x y)) / (INR nx * INR ny).
Definition mean_n (nx ny : nat) (s : sp2) (f : f4) : R := gmean nx ny (dens2 s f).
Definition mean_ke (nx ny : nat) (s : sp2) (f : f4) : R :=
  gmean nx ny (fun x y => rsum (s2_nvx s) (fun i => rsum (s2_nvy s) (fun j => 1 / 2 * (vx s i ^ 2 + vy s j ^ 2) * f x y i j)) * (dvx s * dvy s)).
Definition mean_f2 (nx ny : nat) (s : sp2) (f : f4) : R := gmean nx ny (fun x y => rsum (s2_nvx s) (fun i => rsum (s2_nvy s) (fun j => f x y i j * f x y i j)) * (dvx s * dvy s)).
