(** Model of adept/driftdiffusion.py: the Chang-Cooper weight and the three implicit drift-diffusion operators.

    Simplifications: exact real arithmetic; an array of [nv] cells (or [nv-1] edges) is a function on the
    natural numbers of which only the first [nv] (or [nv-1]) values are used; D is given per edge (a scalar is a
    constant function) and nu per cell (the broadcast of driftdiffusion.py:583, 635, 705); one batch point. *)
From Verif Require Export RSum.

(** chang_cooper_delta (driftdiffusion.py:77-103). *)
Definition small (w : R) : bool := if Rlt_dec (Rabs w) (1 / 100000000) then true else false.
Definition delta_small (w : R) : R := 1 / 2 - w / 12 + w ^ 3 / 720.
Definition delta_full (w : R) : R := 1 / w - 1 / (exp w - 1).
Definition chang_cooper_delta (w : R) : R :=
  let w_safe := if small w then 1 else w in
  if small w then delta_small w else delta_full w_safe.

(** lineax.TridiagonalLinearOperator and its [mv]. *)
Record tridiagonal := { diagonal : nat -> R; upper : nat -> R; lower : nat -> R }.
Definition mv (nv : nat) (op : tridiagonal) (x : nat -> R) (i : nat) : R :=
  diagonal op i * x i
  + (if Nat.ltb (S i) nv then upper op i * x (S i) else 0)
  + (match i with O => 0 | S j => lower op j * x j end).

(** The shared assembly (driftdiffusion.py:644-658 and 718-732): bare_diag starts at zero, the edges to the
    right of a cell add to [:-1], those to its left to [1:]. *)
Definition assemble (nv : nat) (dv dt : R) (nu : nat -> R) (alpha beta : nat -> R) : tridiagonal :=
  let bare_diag i := (if Nat.ltb (S i) nv then - alpha i / dv else 0) + (match i with O => 0 | S j => beta j / dv end) in
  let bare_upper i := - beta i / dv in
  let bare_lower i := alpha i / dv in
  {| diagonal := fun i => 1 - dt * nu i * bare_diag i;
     upper := fun i => - dt * nu i * bare_upper i;
     lower := fun i => - dt * nu (S i) * bare_lower i |}.

Definition safe_D (D : nat -> R) (i : nat) : R := Rmax (D i) (1 / 10 ^ 30).

(** ChangCooper.get_operator (driftdiffusion.py:614-658). *)
Definition chang_cooper (nv : nat) (dv : R) (C D nu : nat -> R) (dt : R) : tridiagonal :=
  let w i := C i * dv / safe_D D i in
  let delta i := chang_cooper_delta (w i) in
  let alpha i := - C i * delta i + safe_D D i / dv in
  let beta i := - C i * (1 - delta i) - safe_D D i / dv in
  assemble nv dv dt nu alpha beta.

(** LogMeanFlux.get_operator (driftdiffusion.py:681-732); [f]: the frozen distribution. *)
Definition log_mean_floor : R := 1 / 10 ^ 200.
Definition log_mean_flux (nv : nat) (dv : R) (C D nu : nat -> R) (dt : R) (f : nat -> R) : tridiagonal :=
  let f_left i := Rmax (f i) log_mean_floor in
  let f_right i := Rmax (f (S i)) log_mean_floor in
  let w_lm i := ln (f_right i / f_left i) in
  let delta i := chang_cooper_delta (- w_lm i) in
  let alpha i := - C i * delta i + safe_D D i / dv in
  let beta i := - C i * (1 - delta i) - safe_D D i / dv in
  assemble nv dv dt nu alpha beta.

(** CentralDifferencing.get_operator (driftdiffusion.py:563-600). *)
Definition central (nv : nat) (dv : R) (C D nu : nat -> R) (dt : R) : tridiagonal :=
  let bare_diag i := (if Nat.ltb (S i) nv then (C i / 2 - D i / dv) / dv else 0) + (match i with O => 0 | S j => - (C j / 2 + D j / dv) / dv end) in
  let bare_upper i := (C i / 2 + D i / dv) / dv in
  let bare_lower i := (- C i / 2 + D i / dv) / dv in
  {| diagonal := fun i => 1 - dt * nu i * bare_diag i;
     upper := fun i => - dt * nu i * bare_upper i;
     lower := fun i => - dt * nu (S i) * bare_lower i |}.

(** The implicit step in the delta formulation (driftdiffusion.py:54-61; _vlasov1d/solvers/pushers/fokker_planck.py
    and vfp1d/fokker_planck.py do the same): delta solves op delta = f - op f, f_new = f + delta. The linear
    solver is assumed to return a solution. *)
Definition implicit_step (nv : nat) (op : tridiagonal) (f f_new : nat -> R) : Prop :=
  exists delta, (forall i, (i < nv)%nat -> mv nv op delta i = f i - mv nv op f i) /\
                (forall i, (i < nv)%nat -> f_new i = f i + delta i).

(** AbstractBetaBasedModel.compute_C_and_D (driftdiffusion.py:359-378), D computed by the model. *)
Definition v_edge (v : nat -> R) (i : nat) : R := 1 / 2 * (v (S i) + v i).
Definition beta_drift (v : nat -> R) (vbar beta D : R) (i : nat) : R := 2 * beta * D * (v_edge v i - vbar).

(* ------------------------------------------------------------------------------------------------ *)
(** * Kernel-based models (driftdiffusion.py:381-507, vfp1d/fokker_planck.py:134-211) *)

(** _log_mean_interp (driftdiffusion.py:485-507). *)
Definition interp_floor : R := 1 / 10 ^ 300.
Definition log_mean_interp (f : nat -> R) (i : nat) : R :=
  let f_left := f i in
  let f_right := f (S i) in
  let log_diff := ln (Rmax f_right interp_floor / Rmax f_left interp_floor) in
  let use_arithmetic :=
    orb (orb (small log_diff) (if Rlt_dec f_left interp_floor then true else false)) (if Rlt_dec f_right interp_floor then true else false) in
  if use_arithmetic then 1 / 2 * (f_left + f_right) else (f_right - f_left) / (if use_arithmetic then 1 else log_diff).

(** AbstractKernelBasedModel.__init__ (driftdiffusion.py:404-409). *)
Definition sqrt_eps_edge (v : nat -> R) (i : nat) : R := sqrt (1 / 2 * (v (S i) ^ 2 + v i ^ 2)).
Definition d_eps_edge (v : nat -> R) (dv : R) (i : nat) : R := (v (S i) + v i) * dv.

(** A kernel maps [nv-1] edge values to [nv-1] edge values. *)
Definition kernel := (nat -> R) -> nat -> R.
(** AsymptoticLocal.apply_kernel (vfp1d/fokker_planck.py:146-160). *)
Definition asymptotic_local (nv : nat) (v : nat -> R) (dv : R) : kernel := fun h i =>
  let inner := 4 * PI * rsum (nv - 1) (fun j => sqrt_eps_edge v j * h j * d_eps_edge v dv j) in
  sqrt_eps_edge v i * inner.
(** CoulombianKernel.apply_kernel (vfp1d/fokker_planck.py:176-211): lower = exclusive cumulative sum from below,
    upper = inclusive cumulative sum from above. *)
Definition coulombian (nv : nat) (v : nat -> R) (dv : R) : kernel := fun h i =>
  let e32 j := sqrt_eps_edge v j ^ 3 in
  let lower_i := rsum i (fun j => e32 j * h j * d_eps_edge v dv j) in
  let upper_i := rsum (nv - 1 - i) (fun t => h (i + t)%nat * d_eps_edge v dv (i + t)%nat) in
  4 * PI * (lower_i + e32 i * upper_i) / 3.

(** AbstractKernelBasedModel.compute_C_and_D (driftdiffusion.py:433-466). *)
Definition kernel_D (K : kernel) (v : nat -> R) (f : nat -> R) (i : nat) : R := K (log_mean_interp f) i / (2 * v_edge v i).
Definition df_deps (v : nat -> R) (dv : R) (f : nat -> R) (i : nat) : R := (f (S i) - f i) / d_eps_edge v dv i.
Definition kernel_C (K : kernel) (v : nat -> R) (dv : R) (f : nat -> R) (i : nat) : R := - K (df_deps v dv f) i.

(** F0Collisions._solve_one_vslice_ (vfp1d/fokker_planck.py:363-364): nu = nuee_coeff / v^2. *)
Definition spherical_nu (nuee : R) (v : nat -> R) (i : nat) : R := nuee / v i ^ 2.

(** FastVFP.compute_C_and_D (vfp1d/fokker_planck.py:115-131). *)
Definition fast_vfp_D (v : nat -> R) (beta : R) (i : nat) : R := 1 / (2 * beta * v_edge v i).
Definition fast_vfp_C (i : nat) : R := 1.

(** SuperGaussianDougherty.compute_C_and_D (_vlasov1d/solvers/pushers/fokker_planck.py:227-255); |x|^m for a
    real exponent m > 0 is 0 at 0. *)
Definition abs_pow (x m : R) : R := if Req_EM_T x 0 then 0 else Rpower (Rabs x) m.
Definition super_gaussian_phi (v : nat -> R) (vbar beta m : R) (i : nat) : R := beta * abs_pow (v i - vbar) m.
Definition super_gaussian_C (v : nat -> R) (vbar beta m D dv : R) (i : nat) : R :=
  D * (super_gaussian_phi v vbar beta m (S i) - super_gaussian_phi v vbar beta m i) / dv.

(** Dougherty.compute_vbar (_vlasov1d/solvers/pushers/fokker_planck.py:78-88); D = 1/(2 beta) for both
    LenardBernstein and Dougherty (45-58, 90-103). *)
Definition mean_velocity (nv : nat) (v f : nat -> R) : R := rsum nv (fun i => f i * v i) / rsum nv f.
Definition thermal_D (beta : R) : R := 1 / (2 * beta).

(** The three schemes behind one interface (driftdiffusion.py:510-540 AbstractDriftDiffusionDifferencingScheme);
    [LogMeanFlux g]: with the distribution [g] passed as [f]. *)
Inductive scheme := ChangCooper | LogMeanFlux (g : nat -> R) | CentralDifferencing.
Definition get_operator (s : scheme) (nv : nat) (dv : R) (C D nu : nat -> R) (dt : R) : tridiagonal :=
  match s with
  | ChangCooper => chang_cooper nv dv C D nu dt
  | LogMeanFlux g => log_mean_flux nv dv C D nu dt g
  | CentralDifferencing => central nv dv C D nu dt
  end.

(** F0Collisions heating terms (vfp1d/fokker_planck.py:352-361). *)
Definition heated_D (v D : nat -> R) (D0 vosc2 Z2ni_w0 : R) (i : nat) : R :=
  D i + D0 * v_edge v i ^ 2 + vosc2 / (6 * v_edge v i) / (1 + (Z2ni_w0 / v_edge v i ^ 3) ^ 2).

(** Collisions._apply_collisions for "dougherty_nodrag" (_vlasov1d/solvers/pushers/fokker_planck.py:408-427): the
    implicit step runs with zero drift, then the diffusion of the Maxwellian is subtracted. One spatial point,
    nv >= 2; the result of the implicit solve is the argument [f_star]. *)
Definition normalised_maxwellian (nv : nat) (v : nat -> R) (dv vbar beta : R) (f : nat -> R) (i : nat) : R :=
  let shape j := exp (- beta * (v j - vbar) ^ 2) in
  let n_prof := rsum nv f * dv in
  shape i * (n_prof / (rsum nv shape * dv)).
Definition nodrag_lap (nv : nat) (dv : R) (DfM : nat -> R) (i : nat) : R :=
  if Nat.eqb i 0 then (DfM 1%nat - DfM 0%nat) / dv ^ 2
  else if Nat.eqb (S i) nv then (DfM (i - 1)%nat - DfM i) / dv ^ 2
  else (DfM (S i) - 2 * DfM i + DfM (i - 1)%nat) / dv ^ 2.
Definition nodrag_step (nv : nat) (v : nat -> R) (dv vbar beta D nu dt : R) (f f_new : nat -> R) : Prop :=
  exists f_star, implicit_step nv (central nv dv (fun _ => 0) (fun _ => D) (fun _ => nu) dt) f f_star /\
    forall i, (i < nv)%nat -> f_new i = f_star i - dt * nu * nodrag_lap nv dv (fun j => D * normalised_maxwellian nv v dv vbar beta f j) i.

(** Krook (_vlasov1d/solvers/pushers/fokker_planck.py:446-487), one spatial point. *)
Definition krook_shape (nv : nat) (v : nat -> R) (dv T0 mass : R) (i : nat) : R :=
  let f_mx j := exp (- (v j ^ 2) / (2 * T0 / mass)) in
  f_mx i / rsum nv f_mx / dv.
Definition krook (nv : nat) (v : nat -> R) (dv T0 mass nu_K dt : R) (f : nat -> R) (i : nat) : R :=
  let e := exp (- (dt * nu_K)) in
  let n_prof := rsum nv f * dv in
  f i * e + n_prof * krook_shape nv v dv T0 mass i * (1 - e).
