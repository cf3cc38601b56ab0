(** Model of the 1D Hermite-Poisson solver (adept/_hermite_poisson_1d/vector_field.py and modules.py).

    Simplifications: exact real arithmetic; an array is a function of its indices: a coefficient array
    [Ck] of shape (Nn, Nx) maps the Hermite index n < Nn and the FFT index k < Nx (or the cell g < Nx) to a
    complex number (the float64 view of the state is not modelled). jnp.linalg.eigh is not modelled: the
    eigenvalues and the eigenvector matrix it returns are parameters, and [is_eigh] is its documented
    contract. *)
From Coq Require Export Reals Lra Lia ZArith List Bool.
From Verif Require Export PyStr Wave RSum Pic PicFourier Dft.
Local Open Scope R_scope.

Definition coeffs : Type := nat -> nat -> cplx.

(** jnp.fft.fft / jnp.fft.ifft with norm="forward": the 1/Nx factor sits on the forward transform. *)
Definition ffwd (nx : nat) (h : nat -> cplx) (k : nat) : cplx := cscal (/ INR nx) (cfft nx h k).
Definition finv (nx : nat) (X : nat -> cplx) (g : nat) : cplx := csum nx (fun k => cmul (X k) (cis (angle nx k g))).

(* ------------------------------------------------------------------------------------------------ *)
(** * Linear operators (vector_field.py:168-302) *)

(** FreeStreamingExp1D.__init__ (vector_field.py:183-206): the matrix handed to eigh, off-diagonal entries
    sqrt((n+1)/2) and u/alpha on the diagonal. For Nn = 1 (lines 196-198) the code uses V = [[1]] and the
    eigenvalue u/alpha, which is the same contract. *)
Definition stream_T (u alpha : R) (n m : nat) : R :=
  (if (m =? S n)%nat then sqrt ((INR n + 1) / 2) else 0)
  + (if (n =? S m)%nat then sqrt ((INR m + 1) / 2) else 0)
  + (if (n =? m)%nat then u / alpha else 0).

(** The documented result of jnp.linalg.eigh on a symmetric matrix: orthonormal eigenvectors in the columns
    of V. *)
Record is_eigh (Nn : nat) (T : nat -> nat -> R) (ev : nat -> R) (V : nat -> nat -> R) : Prop := {
  eigh_cols : forall i j, (i < Nn)%nat -> (j < Nn)%nat -> rsum Nn (fun n => V n i * V n j) = if (i =? j)%nat then 1 else 0;
  eigh_rows : forall n m, (n < Nn)%nat -> (m < Nn)%nat -> rsum Nn (fun i => V n i * V m i) = if (n =? m)%nat then 1 else 0;
  eigh_vec : forall n i, (n < Nn)%nat -> (i < Nn)%nat -> rsum Nn (fun m => T n m * V m i) = ev i * V n i }.

(** FreeStreamingExp1D.apply (vector_field.py:208-215). *)
Definition stream (Nn : nat) (ev : nat -> R) (V : nat -> nat -> R) (alpha : R) (kxs : nat -> R) (C : coeffs) (s : R) : coeffs :=
  fun n k => csum Nn (fun i => cscal (V n i) (cmul (csum Nn (fun m => cscal (V m i) (C m k))) (cis (- (alpha * s * ev i * kxs k))))).

(** DiagonalExp1D (vector_field.py:218-254): the decay rate of mode n at wavenumber index k, and the factor. *)
Definition diag_rate (nu : R) (col : nat -> R) (D : R) (kxsq : nat -> R) (strength : R) (hl : option (nat -> R)) (n k : nat) : R :=
  nu * col n + D * kxsq k + match hl with Some h => if Rlt_dec 0 strength then strength * h n else 0 | None => 0 end.
Definition diagonal (rate : nat -> nat -> R) (C : coeffs) (s : R) : coeffs := fun n k => cscal (exp (- rate n k * s)) (C n k).

(** LinearExp1D.apply (vector_field.py:264-267). *)
Definition linear_exp (Nn : nat) (ev : nat -> R) (V : nat -> nat -> R) (alpha : R) (kxs : nat -> R) (rate : nat -> nat -> R)
  (C : coeffs) (s : R) : coeffs := diagonal rate (stream Nn ev V alpha kxs C s) s.

(** _safe_col_1d and _collision_profile (modules.py:48-74); None is the ValueError for an unknown model. *)
Definition safe_col (Nn n : nat) : R :=
  if (3 <? Nn)%nat then (INR n * (INR n - 1) * (INR n - 2)) / ((INR Nn - 1) * (INR Nn - 2) * (INR Nn - 3)) else 0.
Definition collision_profile (Nn : nat) (model : str) : option (nat -> R) :=
  if str_eqb model (lit "lenard-bernstein") then Some (fun n => if (3 <=? n)%nat then INR n else 0)
  else if str_eqb model (lit "hypercollision") then Some (safe_col Nn)
  else None.

(** The Hermite-mode absorber profiles (modules.py:299-317). [x ** y] for x >= 0: 0 ** 0 = 1, 0 ** y = 0 for y > 0. *)
Definition fpow (x y : R) : R := if Req_EM_T x 0 then (if Req_EM_T y 0 then 1 else 0) else Rpower x y.
Definition houli_profile (Nn : nat) (order : R) (n : nat) : R := fpow (INR n / INR (Nat.max (Nn - 1) 1)) order.
Definition knee_profile (n_knee width : R) (n : nat) : R := 1 / 2 * (1 + tanh ((INR n - n_knee) / width)).

(* ------------------------------------------------------------------------------------------------ *)
(** * Poisson solver (vector_field.py:309-357) *)

(** PoissonSolver1D.electron_density / ion_density (vector_field.py:335-345). *)
Definition density_of (nx : nat) (alpha : R) (C : coeffs) (g : nat) : R := alpha ^ 3 * fst (finv nx (C 0%nat) g).
(** kx_1d and one_over_kx are those of modules.py:157-160: 2 pi fftfreq(Nx) Nx / Lx, i.e. [Pic.kx] with dx = Lx / Nx.
    PoissonSolver1D.__call__ (vector_field.py:347-357). *)
Definition poisson1d (nx : nat) (dx : R) (ne ni : nat -> R) (g : nat) : R :=
  let rho_k := ffwd nx (fun h => (ni h - ne h, 0)) in
  fst (finv nx (fun k => cmul (cmul (0, - (1)) (one_over_kx nx dx k, 0)) (rho_k k)) g).

(* ------------------------------------------------------------------------------------------------ *)
(** * Force coupling (vector_field.py:364-481) *)

(** modules.py:332-333: modes = fftfreq(Nx) * Nx; mask23 = |modes| <= Nx // 3. *)
Definition mode (nx k : nat) : Z := if (2 * k <? nx)%nat then Z.of_nat k else (Z.of_nat k - Z.of_nat nx)%Z.
Definition mask23 (nx k : nat) : bool := (Z.abs (mode nx k) <=? Z.of_nat nx / 3)%Z.

(** Multiplication by an optional 0/1 mask in k-space. *)
Definition masked (m : option (nat -> bool)) (X : nat -> cplx) (k : nat) : cplx :=
  match m with Some b => if b k then X k else c0 | None => X k end.
(** vector_field.py:406 / 459: the force with its masked spectrum. *)
Definition masked_force (nx : nat) (m : option (nat -> bool)) (F : nat -> R) (g : nat) : R :=
  match m with Some _ => fst (finv nx (masked m (ffwd nx (fun h => (F h, 0)))) g) | None => F g end.
(** C_up = concatenate([0, C[:-1]]) (vector_field.py:412, 469). *)
Definition shift_up (C : coeffs) : coeffs := fun n g => match n with O => c0 | S m => C m g end.

(** _hermite_e_coupling (vector_field.py:364-421); sqrt_n_minus = sqrt([0, 1, ..., Nn-1]) (modules.py:164-165). *)
Definition e_coupling (nx : nat) (m : option (nat -> bool)) (C : coeffs) (F : nat -> R) (qm alpha Om : R) : coeffs :=
  fun n => masked m (fun k =>
    cscal (qm * Om) (ffwd nx (fun g => cscal (sqrt (INR n) * sqrt 2 / alpha * masked_force nx m F g)
                                       (shift_up (fun n' => finv nx (masked m (C n'))) n g)) k)).

(** _exp_force_substep (vector_field.py:424-481). *)
Definition kappa (Om alpha : R) (n : nat) : R := Om * sqrt 2 / alpha * sqrt (INR n).
Definition k_max (n_terms Nn : nat) : nat := if (1 <? Nn)%nat then Nat.min n_terms (Nn - 1) else 0.
Fixpoint force_term (kdt : nat -> nat -> R) (C : coeffs) (j : nat) : coeffs :=
  match j with
  | O => C
  | S i => fun n g => cscal (/ INR (S i)) (cscal (kdt n g) (shift_up (force_term kdt C i) n g))
  end.
(** The series in real space: sum of the terms 0 .. k_max (vector_field.py:462-476). *)
Definition force_series (kdt : nat -> nat -> R) (terms : nat) (C : coeffs) : coeffs :=
  fun n g => csum (S terms) (fun j => force_term kdt C j n g).
Definition force_substep (Nn nx : nat) (m : option (nat -> bool)) (C : coeffs) (accel : nat -> R) (alpha Om dt : R) (n_terms : nat) : coeffs :=
  fun n => masked m (ffwd nx (force_series (fun n' g => kappa Om alpha n' * dt * masked_force nx m accel g)
                                           (k_max n_terms Nn) (fun n' => finv nx (masked m (C n'))) n)).

(** jnp.gradient of an array of length nx with spacing dx: one-sided at the ends. *)
Definition jgradient (nx : nat) (dx : R) (f : nat -> R) (g : nat) : R :=
  if (g =? 0)%nat then (f 1%nat - f 0%nat) / dx
  else if (g =? nx - 1)%nat then (f (nx - 1)%nat - f (nx - 2)%nat) / dx
  else (f (S g) - f (g - 1)%nat) / (2 * dx).
(** The ponderomotive term -0.5 d(a^2)/dx of an interior vector potential (vector_field.py:656-657, 819). *)
Definition pond (nx : nat) (dx : R) (a : nat -> R) (g : nat) : R := - (1 / 2) * jgradient nx dx (fun h => a h ^ 2) g.
(** The species acceleration (vector_field.py:661, 676, 821, 844). *)
Definition accel_of (qm : R) (E Ed noise Fp : nat -> R) (g : nat) : R := qm * (E g + Ed g + noise g) + qm ^ 2 * Fp g.

(* ------------------------------------------------------------------------------------------------ *)
(** * The step (vector_field.py:501-946) *)

(** HermitePoisson1DVectorField.__init__ (vector_field.py:531-614), with the linear operators already built:
    [lin_e]/[lin_i] are the LinearExp1D.apply of the species. [noise t] is what _draw_noise returns for the step at
    t (a function of t and the seed only, lines 620-627), or 0 when noise is off. [exd]/[eyd] are the drivers. *)
Record hpcfg := {
  Nn_e : nat; Nn_i : nat; hp_nx : nat; hp_dx : R; hp_alpha_e : R; hp_alpha_i : R; qm_e : R; qm_i : R; hp_Om : R; hp_dt : R; hp_c : R;
  static_ions : bool; static_density : option (nat -> R); sponge_plasma : option (nat -> R); sponge_fields : option (nat -> R);
  hp_mask : option (nat -> bool); hp_noise : R -> nat -> R; force_terms : nat; wave_max : option R;
  linear_response : bool; Ceq_e : coeffs; Ceq_i : coeffs;
  lin_e : coeffs -> R -> coeffs; lin_i : coeffs -> R -> coeffs; exd : R -> nat -> R; eyd : R -> nat -> R }.

Record hpstate := { Ce : coeffs; Ci : coeffs; sa : nat -> R; sprev : nat -> R; se : nat -> R; sda : nat -> R; sde : nat -> R }.

(** CombinedLinearExp1D.apply (vector_field.py:287-302) on the two coefficient arrays; the other entries pass through. *)
Definition combined_exp (c : hpcfg) (C : coeffs * coeffs) (s : R) : coeffs * coeffs :=
  (lin_e c (fst C) s, if static_ions c then snd C else lin_i c (snd C) s).

(** The field of a pair of coefficient arrays (PoissonSolver1D with its static background, vector_field.py:340-357). *)
Definition ne_of (c : hpcfg) (C : coeffs * coeffs) : nat -> R := density_of (hp_nx c) (hp_alpha_e c) (fst C).
Definition ni_of (c : hpcfg) (C : coeffs * coeffs) : nat -> R :=
  match static_density c with Some n => n | None => density_of (hp_nx c) (hp_alpha_i c) (snd C) end.
Definition field_of (c : hpcfg) (C : coeffs * coeffs) : nat -> R := poisson1d (hp_nx c) (hp_dx c) (ne_of c C) (ni_of c C).

(** _apply_sponge (vector_field.py:744-771). *)
Definition sponge_row (nx : nat) (sp : nat -> R) (dt : R) (C : coeffs) : coeffs :=
  fun n => ffwd nx (fun g => cscal (if (n =? 0)%nat then 1 else exp (- sp g * dt)) (finv nx (C n) g)).
Definition sponge_a (nx : nat) (sp : nat -> R) (dt : R) (a : nat -> R) (i : nat) : R :=
  if ((1 <=? i) && (i <=? nx))%nat%bool then a i * exp (- sp (i - 1)%nat * dt) else a i.
Definition apply_sponge (c : hpcfg) (s : hpstate) : hpstate :=
  let C := match sponge_plasma c with
           | Some sp => (sponge_row (hp_nx c) sp (hp_dt c) (Ce s), sponge_row (hp_nx c) sp (hp_dt c) (Ci s))
           | None => (Ce s, Ci s) end in
  let A := match sponge_fields c with
           | Some sp => (sponge_a (hp_nx c) sp (hp_dt c) (sa s), sponge_a (hp_nx c) sp (hp_dt c) (sprev s))
           | None => (sa s, sprev s) end in
  {| Ce := fst C; Ci := snd C; sa := fst A; sprev := snd A; se := se s; sda := sda s; sde := sde s |}.

(** jnp.clip(n_e, 0, wave_density_max) (vector_field.py:801-802). *)
Definition clip_density (mx : option R) (n : nat -> R) (g : nat) : R := match mx with Some b => Rmin (Rmax (n g) 0) b | None => n g end.

(** The force on one species in _strang_exp_step (vector_field.py:821-861). *)
Definition strang_force (c : hpcfg) (Nn : nat) (alpha : R) (Ceq C : coeffs) (accel : nat -> R) : coeffs :=
  if linear_response c then
    fun n k => cadd (C n k) (cscal (hp_dt c) (e_coupling (hp_nx c) (hp_mask c) Ceq accel 1 alpha (hp_Om c) n k))
  else force_substep Nn (hp_nx c) (hp_mask c) C accel alpha (hp_Om c) (hp_dt c) (force_terms c).

(** _strang_exp_step up to the second linear half step (vector_field.py:806-867), on the coefficient arrays. *)
Definition strang_accel (c : hpcfg) (t : R) (s : hpstate) (Ch : coeffs * coeffs) (qm : R) : nat -> R :=
  let a_mid := fun g => 3 / 2 * sa s (S g) - 1 / 2 * sprev s (S g) in
  accel_of qm (field_of c Ch) (exd c (t + 1 / 2 * hp_dt c)) (hp_noise c t) (pond (hp_nx c) (hp_dx c) a_mid).
Definition strang_coeffs (c : hpcfg) (t : R) (s : hpstate) : coeffs * coeffs :=
  let Ch := combined_exp c (Ce s, Ci s) (hp_dt c / 2) in
  let Cf := (strang_force c (Nn_e c) (hp_alpha_e c) (Ceq_e c) (fst Ch) (strang_accel c t s Ch (qm_e c)),
             if static_ions c then snd Ch
             else strang_force c (Nn_i c) (hp_alpha_i c) (Ceq_i c) (snd Ch) (strang_accel c t s Ch (qm_i c))) in
  combined_exp c Cf (hp_dt c / 2).
(** _strang_exp_step (vector_field.py:783-892). *)
Definition strang_step (c : hpcfg) (t : R) (s : hpstate) : hpstate :=
  let djy := eyd c t in
  let ne := clip_density (wave_max c) (ne_of c (Ce s, Ci s)) in
  let C1 := strang_coeffs c t s in
  let A := wave_step (hp_nx c) (hp_c c) (hp_dx c) (hp_dt c) (sa s) (sprev s) djy ne in
  apply_sponge c {| Ce := fst C1; Ci := snd C1; sa := fst A; sprev := snd A; se := field_of c C1; sda := djy; sde := exd c t |}.

(** _nonlinear_rhs (vector_field.py:629-696) on the coefficient arrays (its other entries are zero). *)
Definition nonlinear_rhs (c : hpcfg) (t : R) (C : coeffs * coeffs) (a_frozen noise : nat -> R) : coeffs * coeffs :=
  let Fp := pond (hp_nx c) (hp_dx c) a_frozen in
  (e_coupling (hp_nx c) (hp_mask c) (fst C) (accel_of (qm_e c) (field_of c C) (exd c t) noise Fp) 1 (hp_alpha_e c) (hp_Om c),
   if static_ions c then fun _ _ => c0
   else e_coupling (hp_nx c) (hp_mask c) (snd C) (accel_of (qm_i c) (field_of c C) (exd c t) noise Fp) 1 (hp_alpha_i c) (hp_Om c)).
Definition tadd (x y : coeffs * coeffs) : coeffs * coeffs :=
  (fun n k => cadd (fst x n k) (fst y n k), fun n k => cadd (snd x n k) (snd y n k)).
Definition tscale (r : R) (x : coeffs * coeffs) : coeffs * coeffs := (fun n k => cscal r (fst x n k), fun n k => cscal r (snd x n k)).
(** _lawson_rk4 (vector_field.py:702-738) on the coefficient arrays: the caller reads no other entry of its result. *)
Definition lawson_rk4 (c : hpcfg) (t : R) (y : coeffs * coeffs) (a_frozen : nat -> R) : coeffs * coeffs :=
  let dt := hp_dt c in let E := combined_exp c in let noise := hp_noise c t in
  let Eh_y := E y (dt / 2) in let Ef_y := E y dt in
  let N1 := nonlinear_rhs c t y a_frozen noise in
  let N2 := nonlinear_rhs c (t + dt / 2) (tadd Eh_y (tscale (dt / 2) (E N1 (dt / 2)))) a_frozen noise in
  let N3 := nonlinear_rhs c (t + dt / 2) (tadd Eh_y (tscale (dt / 2) N2)) a_frozen noise in
  let Eh_N3 := E N3 (dt / 2) in
  let N4 := nonlinear_rhs c (t + dt) (tadd Ef_y (tscale dt Eh_N3)) a_frozen noise in
  tadd Ef_y (tscale (dt / 6) (tadd (tadd (E N1 dt) (tscale 2 (E N2 (dt / 2)))) (tadd (tscale 2 Eh_N3) N4))).
(** _lawson_step (vector_field.py:894-946). *)
Definition lawson_step (c : hpcfg) (t : R) (s : hpstate) : hpstate :=
  let C1 := lawson_rk4 c t (Ce s, Ci s) (fun g => sa s (S g)) in
  let ne := fun g => 1 / 2 * (ne_of c (Ce s, Ci s) g + ne_of c C1 g) in
  let djy := eyd c (t + 1 / 2 * hp_dt c) in
  let A := wave_step (hp_nx c) (hp_c c) (hp_dx c) (hp_dt c) (sa s) (sprev s) djy ne in
  apply_sponge c {| Ce := fst C1; Ci := snd C1; sa := fst A; sprev := snd A; se := field_of c C1; sda := djy; sde := exd c t |}.

(** The integrator check of __init__ (vector_field.py:562-563) and __call__ (lines 777-781); None is the ValueError. *)
Definition hp_step (integrator : str) (c : hpcfg) : option (R -> hpstate -> hpstate) :=
  if str_eqb integrator (lit "strang-exp") then Some (strang_step c)
  else if str_eqb integrator (lit "lawson-rk4") then Some (lawson_step c) else None.
(** A run: the Stepper applies the map at t, t + dt, ... *)
Fixpoint hp_run (step : R -> hpstate -> hpstate) (dt : R) (nsteps : nat) (t : R) (s : hpstate) : hpstate :=
  match nsteps with O => s | S k => hp_run step dt k (t + dt) (step t s) end.

(* ------------------------------------------------------------------------------------------------ *)
(** * Initial state and time grid (modules.py:95-126, 195-239) *)

(** init_state_and_args (modules.py:206-226): [pert] = (mode, amplitude). The .at[0, mode].set of an index >= Nx is
    dropped by JAX, and a negative index counts from the end. Modes are taken as naturals. *)
Definition init_electrons (nx : nat) (alpha n0 : R) (pert : option (nat * R)) : coeffs :=
  fun n k =>
    let base := if ((n =? 0) && (k =? 0))%nat%bool then (n0 / alpha ^ 3, 0) else c0 in
    match pert with
    | None => base
    | Some (m, eps) =>
        let half := (1 / 2 * eps * n0 / alpha ^ 3, 0) in
        if ((n =? 0)%nat && ((k =? m)%nat || ((0 <? m)%nat && (m <=? nx)%nat && (k =? nx - m)%nat)))%bool then half else base
    end.
Definition init_ions (alpha n0 : R) : coeffs := fun n k => if ((n =? 0) && (k =? 0))%nat%bool then (n0 / alpha ^ 3, 0) else c0.

(** get_derived_quantities (modules.py:95-126): (dx, dt, nt, tmax, max_steps); [user_dt] is a numeric dt of the
    config, None otherwise; c_light > 0 (for c_light <= 0 without a user dt the time step is infinite). int() truncates,
    which for a non-negative argument is the floor. *)
Definition hp_derived (Lx : R) (nx : nat) (c_light tmax : R) (user_dt : option R) : R * R * Z * R * Z :=
  let dx := Lx / INR nx in
  let dt := match user_dt with Some d => if Rlt_dec 0 d then d else 9 / 10 * dx / c_light | None => 9 / 10 * dx / c_light end in
  let nt := (Pic.floor (tmax / dt)%R + 1)%Z in
  (dx, dt, nt, dt * IZR nt, (nt + 4)%Z).

(* ------------------------------------------------------------------------------------------------ *)
(** * Drivers (vector_field.py:21-161) *)
(** TransverseWaveDriver.__init__ (vector_field.py:49-91), one pulse: [env_x] is get_envelope on the padded grid x_a
    (modelled in Drivers.v) and [G] its trapezoidal integral; the result is the spatial source profile with its
    amplitude, or an error. [i0] = argmin |x_a - x_center|. *)
Inductive source := Point | Extended.
Definition parse_source (s : option str) : option source :=
  match s with
  | None => Some Extended
  | Some s => if str_eqb s (lit "extended") then Some Extended else if str_eqb s (lit "point") then Some Point else None
  end.
Definition trapezoid (n : nat) (y x : nat -> R) : R := rsum (n - 1) (fun i => (y (S i) + y i) / 2 * (x (S i) - x i)).
Definition extended_amp (w a0 c G : R) : option R := if Rle_dec G 0 then None else Some (- w ^ 2 * a0 * (2 * c / (w * G))).
Definition point_scale (w a0 c dx : R) : R := 2 * w * c * a0 / dx.
(** The pulse contributions of __call__ (vector_field.py:93-102). *)
Definition point_pulse (scale w : R) (i0 : nat) (env_t t : R) (i : nat) : R := scale * env_t * (if (i =? i0)%nat then 1 else 0) * sin (w * t).
Definition extended_pulse (amp w k0 : R) (env_x x : nat -> R) (env_t t : R) (i : nat) : R := env_t * env_x i * amp * sin (k0 * x i - w * t).

(* ------------------------------------------------------------------------------------------------ *)
(** * What init_diffeqsolve builds (modules.py:241-425) *)
(** The LinearExp1D of a species (modules.py:319-329, drift 0). *)
Definition hp_linear (Nn : nat) (ev : nat -> R) (V : nat -> nat -> R) (alpha : R) (nx : nat) (Lx nu : R) (col : nat -> R) (D strength : R)
  (hl : option (nat -> R)) : coeffs -> R -> coeffs :=
  linear_exp Nn ev V alpha (kx nx (Lx / INR nx)) (diag_rate nu col D (fun k => kx nx (Lx / INR nx) k ^ 2) strength hl).
(** modules.py:379-394. *)
Definition wave_max_default (lr : bool) (wm : option R) : option R := match wm with Some b => Some b | None => if lr then Some 2 else None end.
