(** Model of the collision operators of the Hermite-Legendre solver (adept/_hermite_legendre_1d/vector_field.py:301-516):
    BGK and Dougherty, at one position.

    Simplifications: exact real arithmetic; np.linalg.eigh is a parameter constrained by its documented contract
    ([HermitePoisson.is_eigh]); jnp.linalg.solve of the 3x3 lower-triangular Hermite moment matrix is forward substitution (the
    matrix is regular, so the solution is unique); exp(0.5 lgamma(n + 1)) is sqrt(n!). *)
From Coq Require Export Reals Lra Lia List Bool.
From Verif Require Export HermLeg RSum Pic PicFourier Dft.
Import ListNotations.
Local Open Scope R_scope.

(** The frozen moments (vector_field.py:379-381, 499-501): [tg] is the moment vector (n, n u, energy). *)
Definition col_density (tg : nat -> R) : R := Rmax (tg 0%nat) (/ 10 ^ 14).
Definition col_mean (tg : nat -> R) : R := tg 1%nat / col_density tg.
Definition col_temp (Tmin : R) (tg : nat -> R) : R := Rmax (2 * tg 2%nat / col_density tg - col_mean tg ^ 2) Tmin.

(** _maxwellian_coefficients (vector_field.py:355-364): the pair (h_n, h_{n+1}). *)
Fixpoint mx_pair (p q : R) (n : nat) : R * R :=
  match n with
  | O => (1, p)
  | S m => let a := mx_pair p q m in
           (snd a, p / sqrt (INR n + 1) * snd a + 2 * q * sqrt (INR n / (INR n + 1)) * fst a)
  end.
Definition mx_coeff (alpha u density mean temp : R) (n : nat) : R :=
  density / alpha * fst (mx_pair (sqrt 2 * (mean - u) / alpha) (temp / alpha ^ 2 - 1 / 2) n).

(** low_correction = solve(moment_matrix[:, :3], target - moments(C, B)) added to C[:3] (vector_field.py:390-392, 508-510). *)
Definition low_correction (M : nat -> nat -> R) (d : nat -> R) (n : nat) : R :=
  let x0 := d 0%nat / M 0%nat 0%nat in
  let x1 := (d 1%nat - M 1%nat 0%nat * x0) / M 1%nat 1%nat in
  let x2 := (d 2%nat - M 2%nat 0%nat * x0 - M 2%nat 1%nat * x1) / M 2%nat 2%nat in
  nth n [x0; x1; x2] 0.
Definition restore (M : nat -> nat -> R) (tg : nat -> R) (C B : nat -> R) (n : nat) : R :=
  C n + low_correction M (fun r => tg r - moments M C B r) n.

(** ConservingBGKCollision1D.apply (vector_field.py:366-397) at one position, nu <> 0 and s <> 0. *)
Definition bgk_B (nu s : R) (B : nat -> R) (m : nat) : R := exp (- nu * s) * B m.
Definition bgk_raw (alpha u Tmin nu s : R) (tg : nat -> R) (C : nat -> R) (n : nat) : R :=
  exp (- nu * s) * C n + (1 - exp (- nu * s)) * mx_coeff alpha u (col_density tg) (col_mean tg) (col_temp Tmin tg) n.
Definition bgk_C (M : nat -> nat -> R) (alpha u Tmin nu s : R) (C B : nat -> R) : nat -> R :=
  let tg := moments M C B in restore M tg (bgk_raw alpha u Tmin nu s tg C) (bgk_B nu s B).

(** _hermite_exact (vector_field.py:452-472): exp_coeff as the pair (e_k, e_{k+1}), then the convolution. *)
Fixpoint ec_pair (p q : R) (k : nat) : R * R :=
  match k with
  | O => (1, p)
  | S m => let a := ec_pair p q m in (snd a, (p * snd a + 2 * q * fst a) / (INR k + 1))
  end.
Definition ecoef (p q : R) (k : nat) : R := fst (ec_pair p q k).
Definition ou_A (alpha u mean : R) : R := sqrt 2 * (u - mean) / alpha.
Definition ou_B (alpha temp : R) : R := 1 - 2 * temp / alpha ^ 2.
Definition hexact (alpha u mean temp tau : R) (C : nat -> R) (n : nat) : R :=
  let r := exp (- tau) in
  let p := - ou_A alpha u mean * (1 - r) in let q := - (1 / 2) * ou_B alpha temp * (1 - r ^ 2) in
  sqrt (INR (fact n)) * rsum (S n) (fun j => C j / sqrt (INR (fact j)) * r ^ j * ecoef p q (n - j)).

(** The Legendre blocks (vector_field.py:443-449): diffusion = -(D D^T), drift_0 = tril(-(D V)). *)
Definition dg_diffusion (Nl : nat) (va vb : R) (m n : nat) : R := - rsum Nl (fun i => lderiv va vb m i * lderiv va vb n i).
Definition dg_drift0 (Nl : nat) (va vb : R) (m n : nat) : R :=
  if (n <=? m)%nat then - rsum Nl (fun i => lderiv va vb m i * lT va vb i n) else 0.
(** _legendre_diffusion (vector_field.py:474-477); tau = nu s. *)
Definition dg_diffuse (Nl : nat) (ev : nat -> R) (V : nat -> nat -> R) (temp tau : R) (B : nat -> R) (n : nat) : R :=
  rsum Nl (fun i => V n i * (exp (tau * Rmin (ev i) 0 * temp) * rsum Nl (fun m => V m i * B m))).
(** _legendre_drift (vector_field.py:479-485): the drift matrix, and forward substitution with the diagonal. *)
Definition dg_drift (Nl : nat) (va vb mean : R) (m n : nat) : R := dg_drift0 Nl va vb m n + mean * lderiv va vb m n.
Fixpoint tsubs (A : nat -> nat -> R) (rhs : nat -> R) (n : nat) : nat -> R :=
  match n with
  | O => fun _ => 0
  | S k => let x := tsubs A rhs k in fun i => if (i =? k)%nat then (rhs k - rsum k (fun j => A k j * x j)) / A k k else x i
  end.
Definition dg_drifted (Nl : nat) (va vb mean tau : R) (B : nat -> R) : nat -> R :=
  tsubs (fun m n => (if (m =? n)%nat then 1 else 0) - 1 / 2 * tau * dg_drift Nl va vb mean m n)
        (fun m => B m + 1 / 2 * tau * (rsum Nl (fun n => dg_drift0 Nl va vb m n * B n) + rsum Nl (fun n => lderiv va vb m n * B n) * mean)) Nl.
(** DoughertyCollision1D.apply (vector_field.py:487-516) at one position, nu <> 0 and s <> 0; tau = nu s. *)
Definition dg_B (Nl : nat) (va vb : R) (ev : nat -> R) (V : nat -> nat -> R) (mean temp tau : R) (B : nat -> R) : nat -> R :=
  dg_diffuse Nl ev V temp (1 / 2 * tau) (dg_drifted Nl va vb mean tau (dg_diffuse Nl ev V temp (1 / 2 * tau) B)).
Definition dg_apply (Nl : nat) (va vb : R) (ev : nat -> R) (V : nat -> nat -> R) (M : nat -> nat -> R) (alpha u Tmin tau : R) (C B : nat -> R) : (nat -> R) * (nat -> R) :=
  let tg := moments M C B in let mean := col_mean tg in let temp := col_temp Tmin tg in
  let B' := dg_B Nl va vb ev V mean temp tau B in
  (restore M tg (hexact alpha u mean temp tau C) B', B').

(** apply on the grid (vector_field.py:371-374, 394-396): real parts of the inverse transforms, a local map, forward transforms. *)
Definition coll_grid (nx : nat) (f : (nat -> R) -> (nat -> R) -> (nat -> R) * (nat -> R)) (C B : coeffs) : coeffs * coeffs :=
  let loc := fun g => f (fun n => fst (finv nx (C n) g)) (fun m => fst (finv nx (B m) g)) in
  (fun n => ffwd nx (fun g => (fst (loc g) n, 0)), fun m => ffwd nx (fun g => (snd (loc g) m, 0))).

(** PoissonSolver1D._rho_k, electric_field, potential (vector_field.py:566-585); [iok k] is one_over_kx, [ksq k] is kx_sq. *)
Definition hl_rho (nx : nat) (alpha width : R) (C B : coeffs) (g : nat) : R :=
  1 - alpha * fst (finv nx (C 0%nat) g) - width * fst (finv nx (B 0%nat) g).
Definition hl_field (nx : nat) (alpha width : R) (iok : nat -> R) (C B : coeffs) (g : nat) : R :=
  fst (finv nx (fun k => cmul (0, - iok k) (ffwd nx (fun g' => (hl_rho nx alpha width C B g', 0)) k)) g).
Definition hl_potential (nx : nat) (alpha width : R) (ksq : nat -> R) (C B : coeffs) (g : nat) : R :=
  fst (finv nx (fun k => if Rlt_dec 0 (ksq k) then cscal (/ ksq k) (ffwd nx (fun g' => (hl_rho nx alpha width C B g', 0)) k) else c0) g).
