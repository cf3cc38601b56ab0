(** Model of the exponential operators of the spectrax-1d solver (adept/_spectrax1d/exponential_operators.py), at one
    wavevector: [ks] = (kx/Lx, ky/Ly, kz/Lz). jnp.linalg.eigh is a parameter with its documented contract
    (HermitePoisson.is_eigh). Arithmetic is exact. *)
From Verif Require Export Spectrax HermitePoisson.
Local Open Scope R_scope.
Local Open Scope cx_scope.

(** The eigenvalues and eigenvector matrices of the three directions (exponential_operators.py:75-78, 104-135). *)
Record eig3 := { e_vx : nat -> nat -> R; e_lx : nat -> R; e_vy : nat -> nat -> R; e_ly : nat -> R; e_vz : nat -> nat -> R; e_lz : nat -> R }.

(** One direction (exponential_operators.py:155-207): project, multiply by exp(-1j alpha k s lambda_i / L), project back. *)
Definition exp1 (N : nat) (lam : nat -> R) (V : nat -> nat -> R) (al k : R) (x : nat -> cplx) (s : R) (n : nat) : cplx :=
  csum N (fun i => V n i *c cmul (csum N (fun m => V m i *c x m)) (cis (- (al * s * lam i * k)))).

(** gamma_n (exponential_operators.py:90-97): strength * (n / Nn) ** order when both are positive, otherwise no damping. *)
Definition gamma_n (N : nat) (strength : R) (order : nat) (n : nat) : R :=
  if Rlt_dec 0 strength then (if (0 <? order)%nat then strength * (INR n / INR N) ^ order else 0) else 0.

(** _apply_direction_x, _y, _z and apply (exponential_operators.py:137-207); [gam] = fun _ => 0 when gamma_n is None. *)
Definition fs_x (d : dims) (e : eig3) (a : nat -> R) (ks : nat -> R) (gam : nat -> R) (C : hco) (s : R) : hco := fun p m n =>
  exp (- gam n * Rabs s) *c exp1 (d_n d) (e_lx e) (e_vx e) (a 0%nat) (ks 0%nat) (fun n' => C p m n') s n.
Definition fs_y (d : dims) (e : eig3) (a : nat -> R) (ks : nat -> R) (C : hco) (s : R) : hco := fun p m n =>
  exp1 (d_m d) (e_ly e) (e_vy e) (a 1%nat) (ks 1%nat) (fun m' => C p m' n) s m.
Definition fs_z (d : dims) (e : eig3) (a : nat -> R) (ks : nat -> R) (C : hco) (s : R) : hco := fun p m n =>
  exp1 (d_p d) (e_lz e) (e_vz e) (a 2%nat) (ks 2%nat) (fun p' => C p' m n) s p.
Definition fs_apply (d : dims) (e : eig3) (a : nat -> R) (ks : nat -> R) (gam : nat -> R) (C : hco) (s : R) : hco :=
  fs_z d e a ks (fs_y d e a ks (fs_x d e a ks gam C s) s) s.

(** DiagonalExponential.apply (exponential_operators.py:305-320); [k2] = k2_grid at the wavevector. *)
Definition diag_exp (d : dims) (nu D k2 : R) (C : hco) (s : R) : hco := fun p m n =>
  exp (- nu * colm d p m n * s + - D * k2 * s) *c C p m n.

(** MaxwellExponential (exponential_operators.py:210-285): F = (Ex, Ey, Ez, Bx, By, Bz). *)
Definition omega (xi : nat -> R) : R := sqrt (xi 0%nat ^ 2 + xi 1%nat ^ 2 + xi 2%nat ^ 2).
Definition cdot (xi : nat -> R) (v : nat -> cplx) : cplx := xi 0%nat *c v 0%nat +c xi 1%nat *c v 1%nat +c xi 2%nat *c v 2%nat.
Definition max_exp (xi : nat -> R) (F : nat -> cplx) (s : R) : nat -> cplx := fun i =>
  let w := omega xi in
  let sw := if Rlt_dec 0 w then w else 1 in
  let k1 := sin (sw * s) / sw in
  let k2 := (1 - cos (sw * s)) / sw ^ 2 in
  let E := fun j => F j in let B := fun j => F (3 + j)%nat in
  if (i <? 3)%nat
  then E i +c k1 *c cmul cI (ccross xi B i) +c k2 *c (xi i *c cdot xi E -c (w ^ 2) *c E i)
  else let j := (i - 3)%nat in
       B j +c k1 *c cneg (cmul cI (ccross xi E j)) +c k2 *c (xi j *c cdot xi B -c (w ^ 2) *c B j).

(** CombinedLinearExponential.apply (exponential_operators.py:349-391) with build_combined_exponential (394-459): the filter
    acts on electrons only. *)
Record eigs := { g_e : eig3; g_i : eig3 }.
Definition species_exp (d : dims) (e : eig3) (a : nat -> R) (gam : nat -> R) (nu D : R) (g : sgrid) (C : coef6) (s : R) : coef6 :=
  fun p m n y x z => diag_exp d nu D (k2g g y x z) (fs_apply d e a (fun i => nab g i y x z) gam (at_pt C y x z) s) s p m n.
Definition lin_exp (c : spcfg) (A : spargs) (G : eigs) (gam : nat -> R) (st : spx) (s : R) : spx :=
  {| c_e := species_exp (x_de c) (g_e G) (a_al A) gam (a_nu A) (a_D A) (x_g c) (c_e st) s;
     c_i := if x_static c then c_i st else species_exp (x_di c) (g_i G) (ions (a_al A)) (fun _ => 0) (a_nu A) (a_D A) (x_g c) (c_i st) s;
     f_k := fun i y x z => max_exp (fun j => nab (x_g c) j y x z) (fun j => f_k st j y x z) s i |}.
