(** Model of the mixed Hermite-Legendre solver (adept/_hermite_legendre_1d/vector_field.py, modules.py, storage.py).

    Simplifications: exact real arithmetic; an array is a function of its indices; complex numbers are pairs (the float64
    views of the state are not modelled). np.linalg.eigh, jnp.linalg.solve / inv and numpy's Gauss-Legendre nodes are
    parameters constrained by their documented contract. hermite_streaming_matrix (vector_field.py:100-116) is
    [HermitePoisson.stream_T] and safe_col (vector_field.py:84-97) is [HermitePoisson.safe_col]: the code is the same. *)
From Coq Require Export Reals Lra Lia ZArith List Bool.
From Verif Require Export HermitePoisson RSum Pic PicFourier Dft.
Import ListNotations.
Local Open Scope R_scope.

(* ------------------------------------------------------------------------------------------------ *)
(** * Basis constants (vector_field.py:119-275) *)

(** legendre_constants (vector_field.py:119-167): sigma_n (sigma_0 = 0), T_L, deriv, xi_b, xi_a. *)
Definition lsigma (va vb : R) (n : nat) : R :=
  if (n =? 0)%nat then 0 else (vb - va) / 2 * INR n / sqrt ((2 * INR n + 1) * (2 * INR n - 1)).
Definition lsigma_bar (va vb : R) : R := 1 / 2 * (va + vb).
Definition lT (va vb : R) (m n : nat) : R :=
  (if (m =? n)%nat then lsigma_bar va vb else 0)
  + (if (n =? S m)%nat then lsigma va vb n else 0) + (if (m =? S n)%nat then lsigma va vb m else 0).
Definition lderiv (va vb : R) (m i : nat) : R :=
  if ((i <? m) && ((m - i) mod 2 =? 1))%nat%bool then 2 * sqrt ((2 * INR m + 1) * (2 * INR i + 1)) / (vb - va) else 0.
Definition lxi_b (m : nat) : R := sqrt (2 * INR m + 1).
Definition lxi_a (m : nat) : R := sqrt (2 * INR m + 1) * (- 1) ^ m.

(** mixed_moment_matrix (vector_field.py:170-205), rows density / momentum / kinetic energy, columns C_0..C_2, B_0..B_2. *)
Definition moment_matrix (alpha u : R) (T : nat -> nat -> R) (width : R) (r c : nat) : R :=
  let sb := T 0%nat 0%nat in let s1 := T 0%nat 1%nat in let s2 := T 1%nat 2%nat in
  nth c (nth r [[alpha; 0; 0; width; 0; 0];
                [u * alpha; alpha ^ 2 / sqrt 2; 0; width * sb; width * s1; 0];
                [1 / 2 * alpha * (alpha ^ 2 / 2 + u ^ 2); alpha ^ 2 * u / sqrt 2; alpha ^ 3 / (2 * sqrt 2);
                 1 / 2 * width * (s1 ^ 2 + sb ^ 2); width * s1 * sb; 1 / 2 * width * s2 * s1]] []) 0.
(** moment_matrix @ [C_0, C_1, C_2, B_0, B_1, B_2] (vector_field.py:351-353, 461-463, 938-945). *)
Definition low6 (C B : nat -> R) (c : nat) : R := if (c <? 3)%nat then C c else B (c - 3)%nat.
Definition moments (M : nat -> nat -> R) (C B : nat -> R) (r : nat) : R := rsum 6 (fun c => M r c * low6 C B c).

(** _hermite_function_values (vector_field.py:208-231) at one velocity: the pair (psi_n, psi_{n+1}). *)
Fixpoint psi_pair (z : R) (n : nat) : R * R :=
  match n with
  | O => (/ sqrt PI * exp (- z ^ 2), sqrt 2 * z * (/ sqrt PI * exp (- z ^ 2)))
  | S m => let p := psi_pair z m in
           (snd p, z * sqrt (2 / (INR n + 1)) * snd p - sqrt (INR n / (INR n + 1)) * fst p)
  end.
Definition psi (alpha u : R) (n : nat) (v : R) : R := fst (psi_pair ((v - u) / alpha) n).

(** _legendre_basis_values (vector_field.py:234-246) at one velocity: the pair (L_k, L_{k+1}), then the scale. *)
Fixpoint leg_pair (s : R) (k : nat) : R * R :=
  match k with
  | O => (1, s)
  | S j => let p := leg_pair s j in (snd p, ((2 * INR k + 1) * s * snd p - INR k * fst p) / (INR k + 1))
  end.
Definition lbasis (va vb : R) (m : nat) (v : R) : R := sqrt (2 * INR m + 1) * fst (leg_pair ((2 * v - (va + vb)) / (vb - va)) m).

(** hermite_legendre_coupling_vector (vector_field.py:249-275): [nodes]/[weights] are leggauss(deg). *)
Definition coupling_J (Nh : nat) (alpha u va vb : R) (deg : nat) (nodes weights : nat -> R) (enforce : bool) (m : nat) : R :=
  if (enforce && (m <? 3)%nat)%bool then 0
  else rsum deg (fun q => let v := 1 / 2 * (vb - va) * nodes q + 1 / 2 * (vb + va) in
                          lbasis va vb m v * (psi alpha u Nh v * (1 / 2 * (vb - va) * weights q))).
(** coupling_vec (modules.py:445-446). *)
Definition coupling_vec (Nh : nat) (alpha va vb : R) (J : nat -> R) (m : nat) : R := - (alpha / (vb - va)) * sqrt (INR Nh / 2) * J m.

(* ------------------------------------------------------------------------------------------------ *)
(** * Saved scalars (storage.py:55-125) *)

(** get_default_save_func's mass, momentum and energy; [c n]/[b m] are the real parts of Ck[n, 0] / Bk[m, 0], a mode
    that does not exist counts 0 (lines 79-80). sigma1, sigma2 are those of get_save_quantities (lines 146-147). *)
Definition sv_sigma1 (va vb : R) : R := (vb - va) / 2 * 1 / sqrt (3 * 1).
Definition sv_sigma2 (va vb : R) : R := (vb - va) / 2 * 2 / sqrt (5 * 3).
Definition intg (Lx : R) (N : nat) (a : nat -> R) (n : nat) : R := if (n <? N)%nat then Lx * a n else 0.
Definition sv_mass (alpha va vb Lx : R) (Nh Nl : nat) (c b : nat -> R) : R :=
  alpha * intg Lx Nh c 0 + (vb - va) * intg Lx Nl b 0.
Definition sv_momentum (alpha u va vb Lx : R) (Nh Nl : nat) (c b : nat -> R) : R :=
  alpha ^ 2 / sqrt 2 * intg Lx Nh c 1 + u * alpha * intg Lx Nh c 0 + (vb - va) * sv_sigma1 va vb * intg Lx Nl b 1
  + lsigma_bar va vb * (vb - va) * intg Lx Nl b 0.
Definition sv_kinetic (alpha u va vb Lx : R) (Nh Nl : nat) (c b : nat -> R) : R :=
  alpha / 2 * (alpha ^ 2 / sqrt 2 * intg Lx Nh c 2 + sqrt 2 * u * alpha * intg Lx Nh c 1 + (alpha ^ 2 / 2 + u ^ 2) * intg Lx Nh c 0)
  + (vb - va) / 2 * (sv_sigma2 va vb * sv_sigma1 va vb * intg Lx Nl b 2 + 2 * sv_sigma1 va vb * lsigma_bar va vb * intg Lx Nl b 1
                     + (sv_sigma1 va vb ^ 2 + lsigma_bar va vb ^ 2) * intg Lx Nl b 0).
Definition sv_field (Lx : R) (nx : nat) (e : nat -> R) : R := 1 / 2 * rsum nx (fun g => e g ^ 2) * (Lx / INR nx).
Definition sv_energy (alpha u va vb Lx : R) (Nh Nl nx : nat) (c b e : nat -> R) : R :=
  sv_kinetic alpha u va vb Lx Nh Nl c b + sv_field Lx nx e.

(* ------------------------------------------------------------------------------------------------ *)
(** * The electric force (vector_field.py:585-806, 914-936, 1062-1100) *)

(** modules.py:432-433. *)
Definition sq2n (alpha : R) (n : nat) : R := sqrt (2 * INR n) / alpha.

(** _hermite_force (vector_field.py:592-609). *)
Definition hermite_force (nx : nat) (m : option (nat -> bool)) (alpha : R) (C : coeffs) (E : nat -> R) : coeffs :=
  fun n => masked m (ffwd nx (fun g => cscal (- sq2n alpha n * masked_force nx m E g) (shift_up (fun n' => finv nx (masked m (C n'))) n g))).
(** _legendre_force (vector_field.py:612-650): [gam] is gamma_vec. *)
Definition legendre_force (Nl nx : nat) (m : option (nat -> bool)) (va vb : R) (gam : nat -> R) (B : coeffs) (E : nat -> R) : coeffs :=
  let Br := fun n g => finv nx (masked m (B n)) g in
  fun n => masked m (ffwd nx (fun g =>
    let deriv_term := csum Nl (fun i => cscal (lderiv va vb n i) (Br i g)) in
    let df_b := csum Nl (fun i => cscal (lxi_b i) (Br i g)) in
    let df_a := csum Nl (fun i => cscal (lxi_a i) (Br i g)) in
    cscal (- masked_force nx m E g)
      (csub deriv_term (cscal (gam n / (vb - va)) (csub (cscal (lxi_b n) df_b) (cscal (lxi_a n) df_a)))))).
(** _cross_coupling (vector_field.py:653-680); [cv] is coupling_vec. *)
Definition cross_coupling (Nh nx : nat) (m : option (nat -> bool)) (kxs : nat -> R) (cv : nat -> R) (alpha : R) (C : coeffs) (E : nat -> R) : coeffs :=
  fun n k => cscal (cv n) (cadd (cmul (0, kxs k) (C (Nh - 1)%nat k))
    (masked m (ffwd nx (fun g => cscal (2 / alpha ^ 2 * masked_force nx m E g) (finv nx (masked m (C (Nh - 1)%nat)) g))) k)).

(** hermite_force_operator, legendre_force_operator (vector_field.py:688-714). *)
Definition G_C (alpha : R) (n m : nat) : R := if (n =? S m)%nat then - sqrt (2 * INR n) / alpha else 0.
Definition G_B (va vb : R) (gam : nat -> R) (m j : nat) : R :=
  gam m / (vb - va) * (lxi_b m * lxi_b j - lxi_a m * lxi_a j) - lderiv va vb m j.
Definition mvr (N : nat) (G : nat -> nat -> R) (x : nat -> R) (n : nat) : R := rsum N (fun m => G n m * x m).

(** hermite_cayley_update (vector_field.py:717-736) at one position, scale = dt E / 2. The arrays are complex but every
    coefficient is real, so the real and the imaginary part are updated separately by this formula ([clift]). *)
Fixpoint hcayley (alpha s : R) (C : nat -> R) (n : nat) : R :=
  match n with
  | O => C 0%nat
  | S k => C n + s * (- sq2n alpha n) * (C k + hcayley alpha s C k)
  end.
Definition clift (f : (nat -> R) -> nat -> R) (x : nat -> cplx) (n : nat) : cplx := (f (fun i => fst (x i)) n, f (fun i => snd (x i)) n).

(** jsla.solve_triangular(A, rhs, lower=True, unit_diagonal=True): forward substitution; entries below n are final. *)
Fixpoint fsubs (A : nat -> nat -> R) (rhs : nat -> R) (n : nat) : nat -> R :=
  match n with
  | O => fun _ => 0
  | S k => let x := fsubs A rhs k in fun i => if (i =? k)%nat then rhs k - rsum k (fun j => A k j * x j) else x i
  end.
(** legendre_cayley_update, Woodbury path (vector_field.py:772-806). jnp.linalg.solve of the 2x2 system is Cramer's rule. *)
Definition wood_V (r : nat) : nat -> R := if (r =? 0)%nat then lxi_b else lxi_a.
Definition wood_U (va vb : R) (gam : nat -> R) (s : R) (r m : nat) : R :=
  if (r =? 0)%nat then - s * (gam m / (vb - va) * lxi_b m) else s * (gam m / (vb - va) * lxi_a m).
Definition wood_solve (N : nat) (va vb s : R) (rhs : nat -> R) : nat -> R := fsubs (fun m j => s * lderiv va vb m j) rhs N.
Definition wood_small (N : nat) (va vb : R) (gam : nat -> R) (s : R) (r j : nat) : R :=
  (if (r =? j)%nat then 1 else 0) + rsum N (fun i => wood_V r i * wood_solve N va vb s (wood_U va vb gam s j) i).
Definition wood_det (N : nat) (va vb : R) (gam : nat -> R) (s : R) : R :=
  let M := wood_small N va vb gam s in M 0%nat 0%nat * M 1%nat 1%nat - M 0%nat 1%nat * M 1%nat 0%nat.
Definition wood_rhs (N : nat) (va vb : R) (gam : nat -> R) (s : R) (B : nat -> R) (m : nat) : R :=
  let df_b := rsum N (fun i => lxi_b i * B i) in let df_a := rsum N (fun i => lxi_a i * B i) in
  B m + s * (gam m / (vb - va) * (lxi_b m * df_b - lxi_a m * df_a) - rsum N (fun i => lderiv va vb m i * B i)).
Definition wood_update (N : nat) (va vb : R) (gam : nat -> R) (s : R) (B : nat -> R) (n : nat) : R :=
  let z := wood_solve N va vb s (wood_rhs N va vb gam s B) in
  let M := wood_small N va vb gam s in let d := wood_det N va vb gam s in
  let p := fun r => rsum N (fun i => wood_V r i * z i) in
  let w0 := (p 0%nat * M 1%nat 1%nat - M 0%nat 1%nat * p 1%nat) / d in
  let w1 := (M 0%nat 0%nat * p 1%nat - p 0%nat * M 1%nat 0%nat) / d in
  z n - (wood_solve N va vb s (wood_U va vb gam s 0) n * w0 + wood_solve N va vb s (wood_U va vb gam s 1) n * w1).

(** The documented result of np.linalg.eigh(1j * G) for a real skew G (modules.py:453-457). *)
Record is_heigh (N : nat) (G : nat -> nat -> R) (ev : nat -> R) (V : nat -> nat -> cplx) : Prop := {
  heigh_cols : forall i j, (i < N)%nat -> (j < N)%nat -> csum N (fun n => cmul (conj (V n i)) (V n j)) = if (i =? j)%nat then c1 else c0;
  heigh_rows : forall n m, (n < N)%nat -> (m < N)%nat -> csum N (fun i => cmul (V n i) (conj (V m i))) = if (n =? m)%nat then c1 else c0;
  heigh_vec : forall n i, (n < N)%nat -> (i < N)%nat -> csum N (fun m => cmul (0, G n m) (V m i)) = cscal (ev i) (V n i) }.
Definition cdiv (a b : cplx) : cplx := cscal (/ cabs2 b) (cmul a (conj b)).
(** legendre_cayley_update, skew path (vector_field.py:763-768). *)
Definition skew_update (N : nat) (ev : nat -> R) (V : nat -> nat -> cplx) (s : R) (B : nat -> cplx) (n : nat) : cplx :=
  csum N (fun i => cmul (V n i) (cmul (cdiv (1, - (ev i * s)) (1, ev i * s)) (csum N (fun m => cmul (conj (V m i)) (B m))))).

(** _force_cayley (vector_field.py:912-936) for one of the two bases: [upd s] is the local update with scale s = dt E / 2. *)
Definition force_cayley (nx : nat) (m : option (nat -> bool)) (upd : R -> (nat -> cplx) -> nat -> cplx) (C : coeffs) (E : nat -> R) (dt : R) : coeffs :=
  fun n => masked m (ffwd nx (fun g => upd (1 / 2 * dt * E g) (fun n' => finv nx (masked m (C n')) g) n)).

(** _implicit_E_substep (vector_field.py:1048-1089) at one position: jnp.linalg.solve(I - dt E G, x) returns any X with *)
Definition be_solves (N : nat) (G : nat -> nat -> R) (s : R) (x X : nat -> R) : Prop :=
  forall n, (n < N)%nat -> X n - s * mvr N G X n = x n.

(** gamma_vec (modules.py:441-443). *)
Definition penalty_all (user : option bool) (split enforce : bool) : bool := match user with Some b => b | None => split || negb enforce end.
Definition gamma_vec (all : bool) (gamma : R) (m : nat) : R := if all then gamma else if (3 <=? m)%nat then gamma else 0.
