(** Model of the temperature and shape-parameter computations of the collision operators
    (adept/driftdiffusion.py:106-268, adept/_vlasov1d/solvers/pushers/fokker_planck.py:103-225).

    Simplifications: exact real arithmetic, one spatial point; the Newton solver (optimistix) is not modelled: the
    theorems speak about its target, a root of the residual, and about the value used without iterations. *)
From Verif Require Export RSum DriftDiff.
Local Open Scope R_scope.

(** discrete_temperature (driftdiffusion.py:106-137): [dv] per cell; [vbar] = 0 stands for None. *)
Definition discrete_temperature (nv : nat) (v dv : nat -> R) (spherical : bool) (vbar : R) (f : nat -> R) : R :=
  let vsq i := (v i - vbar) ^ 2 in
  if spherical then rsum nv (fun i => f i * vsq i ^ 2 * dv i) / (3 * rsum nv (fun i => f i * vsq i * dv i))
  else rsum nv (fun i => f i * vsq i * dv i) / rsum nv (fun i => f i * dv i).

(** The target shape exp(-beta |v - vbar|^m) of the residual (driftdiffusion.py:213-222); m = 2 uses the square. *)
Definition target_shape (v : nat -> R) (vbar m beta : R) (i : nat) : R :=
  if Req_EM_T m 2 then exp (- beta * (v i - vbar) ^ 2) else exp (- beta * abs_pow (v i - vbar) m).
(** residual of _find_self_consistent_beta_single (driftdiffusion.py:213-223). *)
Definition beta_residual (nv : nat) (v dv : nat -> R) (spherical : bool) (vbar m : R) (f : nat -> R) (beta : R) : R :=
  discrete_temperature nv v dv spherical vbar (target_shape v vbar m beta) - discrete_temperature nv v dv spherical vbar f.
(** beta_init for m = 2, also the value returned when max_steps = 0 (driftdiffusion.py:201-211). *)
Definition beta_analytic (nv : nat) (v dv : nat -> R) (spherical : bool) (vbar : R) (f : nat -> R) : R :=
  1 / (2 * discrete_temperature nv v dv spherical vbar f).

(** SuperGaussianDougherty.compute_beta (fokker_planck.py:186-208): the continuum closure and the residual. *)
Definition sg_beta_init (nv : nat) (v : nat -> R) (m : R) (f : nat -> R) : R :=
  let vbar := mean_velocity nv v f in
  rsum nv f / (m * rsum nv (fun i => f i * abs_pow (v i - vbar) m)).
Definition sg_residual (nv : nat) (v : nat -> R) (m : R) (f : nat -> R) (beta : R) : R :=
  let vbar := mean_velocity nv v f in
  let psi i := abs_pow (v i - vbar) m in
  rsum (nv - 1) (fun i =>
    let w := beta * (psi (S i) - psi i) in
    let delta := chang_cooper_delta w in
    let f_tilde := delta * f i + (1 - delta) * f (S i) in
    v_edge v i * (w * f_tilde + (f (S i) - f i))).
(** SuperGaussianDougherty.compute_D (fokker_planck.py:210-225); [ratio] is Gamma(3/m)/Gamma(1/m). *)
Definition sg_D (m ratio beta : R) : R := Rpower beta (-2 / m) * ratio.
