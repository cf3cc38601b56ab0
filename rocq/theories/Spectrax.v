(** Model of the Hermite-Fourier Vlasov-Maxwell solver, adept/_spectrax1d: the right-hand side of the ODE system
    (hermite_fourier_ode.py, vector_field.py, nonlinear_vector_field.py), the ladder operators and collision matrix
    (base_module.py) and the external driver (driver.py).

    Simplifications: exact real arithmetic; an array is a function of its indices; a coefficient array of shape
    (Np, Nm, Nn, Ny, Nx, Nz) maps (p, m, n, y, x, z) to a complex number (the float64 view of the complex state is not
    modelled). The neural-network closures of shift_multi are left out: no caller in the repository passes one, so
    every out-of-range Hermite mode is zero. *)
From Coq Require Export Reals Lra Lia ZArith List Bool.
From Verif Require Export PyStr RSum Pic Dft HermitePoisson.
Local Open Scope R_scope.

Definition cI : cplx := (0, 1).
Declare Scope cx_scope.
Infix "+c" := cadd (at level 50, left associativity) : cx_scope.
Infix "-c" := csub (at level 50, left associativity) : cx_scope.
Infix "*c" := cscal (at level 40, left associativity) : cx_scope.
Local Open Scope cx_scope.

(** Mode counts of one species; the spatial grid and box. *)
Record dims := { d_n : nat; d_m : nat; d_p : nat }.
Record sgrid := { s_nx : nat; s_ny : nat; s_nz : nat; s_lx : R; s_ly : R; s_lz : R }.
Definition hco : Type := nat -> nat -> nat -> cplx.       (* Hermite modes (p, m, n) at one place *)
Definition afield : Type := nat -> nat -> nat -> cplx.    (* one array over (y, x, z) *)
Definition coef6 : Type := nat -> nat -> nat -> afield.   (* Ck of one species *)
Definition at_pt (C : coef6) (y x z : nat) : hco := fun p m n => C p m n y x z.

(** jnp.fft.fftn / ifftn over the three spatial axes with norm="forward" (e.g. vector_field.py:197-199,
    hermite_fourier_ode.py:341-350). *)
Definition fwd3 (g : sgrid) (h : afield) : afield := fun y x z =>
  ffwd (s_ny g) (fun y' => ffwd (s_nx g) (fun x' => ffwd (s_nz g) (fun z' => h y' x' z') z) x) y.
Definition inv3 (g : sgrid) (h : afield) : afield := fun y x z =>
  finv (s_ny g) (fun y' => finv (s_nx g) (fun x' => finv (s_nz g) (fun z' => h y' x' z') z) x) y.

(** HermiteFourierODE._pad_hermite_axes and shift_multi without closures (hermite_fourier_ode.py:121-208): the source
    index is (p + dp, m + dm, n + dn), zero outside the array. *)
Definition inb (N : nat) (i : Z) : bool := ((0 <=? i)%Z && (i <? Z.of_nat N)%Z)%bool.
Definition shiftm (d : dims) (dp dm dn : Z) (C : hco) : hco := fun p m n =>
  let p' := (Z.of_nat p + dp)%Z in let m' := (Z.of_nat m + dm)%Z in let n' := (Z.of_nat n + dn)%Z in
  if (inb (d_p d) p' && inb (d_m d) m' && inb (d_n d) n')%bool then C (Z.to_nat p') (Z.to_nat m') (Z.to_nat n') else c0.

(** The ladder factors sqrt(i + 1) and sqrt(i) (base_module.py:107-116). *)
Definition sqp (i : nat) : R := sqrt (INR i + 1).
Definition sqm (i : nat) : R := sqrt (INR i).

(** C_aux_x, C_aux_y, C_aux_z (hermite_fourier_ode.py:271-293 and 411-433). *)
Definition aux_x (d : dims) (a u : nat -> R) (C : hco) : hco := fun p m n =>
  (sqm m * sqm p * (a 2%nat / a 1%nat - a 1%nat / a 2%nat)) *c shiftm d (-1) (-1) 0 C p m n
  +c (sqm m * sqp p * (a 2%nat / a 1%nat)) *c shiftm d 1 (-1) 0 C p m n
  -c (sqp m * sqm p * (a 1%nat / a 2%nat)) *c shiftm d (-1) 1 0 C p m n
  +c (sqrt 2 * sqm m * (u 2%nat / a 1%nat)) *c shiftm d 0 (-1) 0 C p m n
  -c (sqrt 2 * sqm p * (u 1%nat / a 2%nat)) *c shiftm d (-1) 0 0 C p m n.
Definition aux_y (d : dims) (a u : nat -> R) (C : hco) : hco := fun p m n =>
  (sqm n * sqm p * (a 0%nat / a 2%nat - a 2%nat / a 0%nat)) *c shiftm d (-1) 0 (-1) C p m n
  +c (sqp n * sqm p * (a 0%nat / a 2%nat)) *c shiftm d (-1) 0 1 C p m n
  -c (sqm n * sqp p * (a 2%nat / a 0%nat)) *c shiftm d 1 0 (-1) C p m n
  +c (sqrt 2 * sqm p * (u 0%nat / a 2%nat)) *c shiftm d (-1) 0 0 C p m n
  -c (sqrt 2 * sqm n * (u 2%nat / a 0%nat)) *c shiftm d 0 0 (-1) C p m n.
Definition aux_z (d : dims) (a u : nat -> R) (C : hco) : hco := fun p m n =>
  (sqm n * sqm m * (a 1%nat / a 0%nat - a 0%nat / a 1%nat)) *c shiftm d 0 (-1) (-1) C p m n
  +c (sqm n * sqp m * (a 1%nat / a 0%nat)) *c shiftm d 0 1 (-1) C p m n
  -c (sqp n * sqm m * (a 0%nat / a 1%nat)) *c shiftm d 0 (-1) 1 C p m n
  +c (sqrt 2 * sqm n * (u 1%nat / a 0%nat)) *c shiftm d 0 0 (-1) C p m n
  -c (sqrt 2 * sqm m * (u 0%nat / a 1%nat)) *c shiftm d 0 (-1) 0 C p m n.

(** The argument of the forward transform in the Lorentz term (hermite_fourier_ode.py:342-347 and 437-444): the six
    fields F = (Ex, Ey, Ez, Bx, By, Bz) and the coefficients C at one point of real space. *)
Definition lor (d : dims) (a u : nat -> R) (F : nat -> cplx) (C : hco) : hco := fun p m n =>
  (sqm n * sqrt 2 / a 0%nat) *c cmul (F 0%nat) (shiftm d 0 0 (-1) C p m n)
  +c (sqm m * sqrt 2 / a 1%nat) *c cmul (F 1%nat) (shiftm d 0 (-1) 0 C p m n)
  +c (sqm p * sqrt 2 / a 2%nat) *c cmul (F 2%nat) (shiftm d (-1) 0 0 C p m n)
  +c cmul (F 3%nat) (aux_x d a u C p m n)
  +c cmul (F 4%nat) (aux_y d a u C p m n)
  +c cmul (F 5%nat) (aux_z d a u C p m n).

(** The 2/3 mask (vector_field.py:86-94, nonlinear_vector_field.py:216-232). *)
Definition mask3 (g : sgrid) (y x z : nat) : bool := (mask23 (s_ny g) y && mask23 (s_nx g) x && mask23 (s_nz g) z)%bool.
Definition keep (b : bool) (a : cplx) : cplx := if b then a else c0.

(** _compute_lorentz_rhs (hermite_fourier_ode.py:363-448). *)
Definition lorentz_rhs (g : sgrid) (d : dims) (a u : nat -> R) (q Om mass : R) (F : nat -> afield) (C : coef6) : coef6 :=
  fun p m n y x z => (q / mass * Om) *c keep (mask3 g y x z)
    (fwd3 g (fun y' x' z' => lor d a u (fun i => F i y' x' z') (at_pt C y' x' z') p m n) y x z).

(** Wavenumber grids (base_module.py:458-467): integer mode number times 2 pi; [nab] is nabla, divided by the box length. *)
Definition kint (n k : nat) : R := IZR (mode n k) * 2 * PI.
Definition k2g (g : sgrid) (y x z : nat) : R := kint (s_nx g) x ^ 2 + kint (s_ny g) y ^ 2 + kint (s_nz g) z ^ 2.
Definition nab (g : sgrid) (i y x z : nat) : R :=
  match i with O => kint (s_nx g) x / s_lx g | 1%nat => kint (s_ny g) y / s_ly g | _ => kint (s_nz g) z / s_lz g end.

(** The collision matrix (base_module.py:118-131). *)
Definition col_term (N i : nat) : R :=
  if (3 <? N)%nat then INR i * (INR i - 1) * (INR i - 2) / ((INR N - 1) * (INR N - 2) * (INR N - 3)) else 0.
Definition colm (d : dims) (p m n : nat) : R := col_term (d_n d) n + col_term (d_m d) m + col_term (d_p d) p.

(** The free-streaming terms of _compute_rhs (hermite_fourier_ode.py:304-338), for one wavevector with
    [ks] = (kx_grid / Lx, ky_grid / Ly, kz_grid / Lz). *)
Definition stream_rhs (d : dims) (a u : nat -> R) (ks : nat -> R) (C : hco) : hco := fun p m n =>
  cneg (cmul (ks 0%nat *c cI) (a 0%nat *c
     ((sqp n / sqrt 2) *c shiftm d 0 0 1 C p m n +c (sqm n / sqrt 2) *c shiftm d 0 0 (-1) C p m n +c (u 0%nat / a 0%nat) *c C p m n)))
  -c cmul (ks 1%nat *c cI) (a 1%nat *c
     ((sqp m / sqrt 2) *c shiftm d 0 1 0 C p m n +c (sqm m / sqrt 2) *c shiftm d 0 (-1) 0 C p m n +c (u 1%nat / a 1%nat) *c C p m n))
  -c cmul (ks 2%nat *c cI) (a 2%nat *c
     ((sqp p / sqrt 2) *c shiftm d 1 0 0 C p m n +c (sqm p / sqrt 2) *c shiftm d (-1) 0 0 C p m n +c (u 2%nat / a 2%nat) *c C p m n)).

(** _compute_rhs (hermite_fourier_ode.py:210-359). *)
Definition compute_rhs (g : sgrid) (d : dims) (a u : nat -> R) (nu D q Om mass : R) (F : nat -> afield) (Ck C : coef6) : coef6 :=
  fun p m n y x z =>
    stream_rhs d a u (fun i => nab g i y x z) (at_pt Ck y x z) p m n
    +c lorentz_rhs g d a u q Om mass F C p m n y x z
    +c (- nu * colm d p m n) *c Ck p m n y x z
    +c (- D * k2g g y x z) *c Ck p m n y x z.

(** _houli_filter / _compute_houli_hermite_filter (vector_field.py:142-160, nonlinear_vector_field.py:234-260); [order] is
    int(...) and taken to be a natural number. *)
Definition axis_filter (N : nat) (strength : R) (order i : nat) : R :=
  if (N <=? 1)%nat then 1 else exp (- strength * (INR i / (INR N - 1)) ^ order).
Definition houli3 (d : dims) (fl : option (R * nat)) (p m n : nat) : R :=
  match fl with
  | None => 1
  | Some (s, o) => axis_filter (d_p d) s o p * axis_filter (d_m d) s o m * axis_filter (d_n d) s o n
  end.

(** _current / _compute_plasma_current_single_species (vector_field.py:162-171, nonlinear_vector_field.py:262-279). *)
Definition current_s (d : dims) (q : R) (a u : nat -> R) (C : hco) (i : nat) : cplx :=
  let C1 := match i with
            | O => if (1 <? d_n d)%nat then C 0%nat 0%nat 1%nat else c0
            | 1%nat => if (1 <? d_m d)%nat then C 0%nat 1%nat 0%nat else c0
            | _ => if (1 <? d_p d)%nat then C 1%nat 0%nat 0%nat else c0
            end in
  (q * a 0%nat * a 1%nat * a 2%nat) *c ((1 / sqrt 2) *c (a i *c C1) +c u i *c C 0%nat 0%nat 0%nat).

(** jnp.cross of a real vector with a complex one (vector_field.py:252, 265). *)
Definition ccross (k : nat -> R) (v : nat -> cplx) (i : nat) : cplx :=
  match i with
  | O => k 1%nat *c v 2%nat -c k 2%nat *c v 1%nat
  | 1%nat => k 2%nat *c v 0%nat -c k 0%nat *c v 2%nat
  | _ => k 0%nat *c v 1%nat -c k 1%nat *c v 0%nat
  end.

(** The state, the physical parameters (args) and the configuration of the vector field. Species arrays: electrons are
    entries 0..2 of alpha_s and u_s and charge qs[0], ions 3..5 and qs[1]. [x_noise_e t ix] is the density noise added to
    the (0,0,0) mode at ky = kz = 0 (vector_field.py:176-181, 238-248; zero when disabled), [x_drive t i y x z] the external
    drive (zero when there is none). *)
Record spx := { c_e : coef6; c_i : coef6; f_k : nat -> afield }.
Record spargs := { a_q : nat -> R; a_nu : R; a_D : R; a_Om : R; a_mi : R; a_al : nat -> R; a_u : nat -> R }.
Record spcfg := { x_g : sgrid; x_de : dims; x_di : dims; x_static : bool; x_filter : option (R * nat);
  x_noise_e : R -> nat -> cplx; x_noise_i : R -> nat -> cplx; x_drive : R -> nat -> afield }.
Definition ions (v : nat -> R) (i : nat) : R := v (3 + i)%nat.

(** Dealiased transform to real space (vector_field.py:197-199). *)
Definition to_real (g : sgrid) (h : afield) : afield := inv3 g (fun y x z => keep (mask3 g y x z) (h y x z)).

(** Noise added to the density mode (vector_field.py:238-248). *)
Definition add_noise (nz : nat -> cplx) (C : coef6) : coef6 := fun p m n y x z =>
  if ((p =? 0) && (m =? 0) && (n =? 0) && (y =? 0) && (z =? 0))%nat%bool then C p m n y x z +c nz x else C p m n y x z.
Definition filtered (d : dims) (fl : option (R * nat)) (C : coef6) : coef6 := fun p m n y x z => houli3 d fl p m n *c C p m n y x z.

(** The total current entering Ampere's law (vector_field.py:254-259). *)
Definition total_current (c : spcfg) (A : spargs) (s : spx) (y x z i : nat) : cplx :=
  let je := current_s (x_de c) (a_q A 0%nat) (a_al A) (a_u A) (at_pt (c_e s) y x z) i in
  if x_static c then je else je +c current_s (x_di c) (a_q A 1%nat) (ions (a_al A)) (ions (a_u A)) (at_pt (c_i s) y x z) i.

(** SpectraxVectorField.__call__ (vector_field.py:183-274). *)
Definition vf_species (c : spcfg) (A : spargs) (d : dims) (q mass : R) (a u : nat -> R) (F : nat -> afield) (Ck : coef6) : coef6 :=
  filtered d (x_filter c) (compute_rhs (x_g c) d a u (a_nu A) (a_D A) q (a_Om A) mass F Ck
     (fun p m n => to_real (x_g c) (Ck p m n))).
Definition vf_fields (c : spcfg) (A : spargs) (t : R) (s : spx) (i : nat) : afield := fun y x z =>
  let k := fun j => nab (x_g c) j y x z in
  if (i <? 3)%nat
  then cmul cI (ccross k (fun j => f_k s (3 + j)%nat y x z) i) -c (1 / a_Om A) *c total_current c A s y x z i +c x_drive c t i y x z
  else cneg (cmul cI (ccross k (fun j => f_k s j y x z) (i - 3))).
Definition spx_field (c : spcfg) (A : spargs) (t : R) (s : spx) : spx :=
  let F := fun i => to_real (x_g c) (f_k s i) in
  {| c_e := add_noise (x_noise_e c t) (vf_species c A (x_de c) (a_q A 0%nat) 1 (a_al A) (a_u A) F (c_e s));
     c_i := if x_static c then fun _ _ _ _ _ _ => c0
            else add_noise (x_noise_i c t) (vf_species c A (x_di c) (a_q A 1%nat) (a_mi A) (ions (a_al A)) (ions (a_u A)) F (c_i s));
     f_k := vf_fields c A t s |}.

(** NonlinearVectorField.__call__ (nonlinear_vector_field.py:323-437): Lorentz force, noise, current and drive only. *)
Definition nl_species (c : spcfg) (A : spargs) (d : dims) (q mass : R) (a u : nat -> R) (F : nat -> afield) (Ck : coef6) : coef6 :=
  filtered d (x_filter c) (lorentz_rhs (x_g c) d a u q (a_Om A) mass F (fun p m n => to_real (x_g c) (Ck p m n))).
Definition nl_fields (c : spcfg) (A : spargs) (t : R) (s : spx) (i : nat) : afield := fun y x z =>
  if (i <? 3)%nat then cneg ((1 / a_Om A) *c total_current c A s y x z i) +c x_drive c t i y x z else c0.
Definition spx_nonlinear (c : spcfg) (A : spargs) (t : R) (s : spx) : spx :=
  let F := fun i => to_real (x_g c) (f_k s i) in
  {| c_e := add_noise (x_noise_e c t) (nl_species c A (x_de c) (a_q A 0%nat) 1 (a_al A) (a_u A) F (c_e s));
     c_i := if x_static c then fun _ _ _ _ _ _ => c0
            else add_noise (x_noise_i c t) (nl_species c A (x_di c) (a_q A 1%nat) (a_mi A) (ions (a_al A)) (ions (a_u A)) F (c_i s));
     f_k := nl_fields c A t s |}.

(** Driver.__call__ (driver.py:46-75): the real field of the pulses on the x grid, transformed over an array of shape
    (1, Nx, 1) and then broadcast into (Ny, Nx, Nz). [comp] is 0, 1, 2 for "ex", "ey", "ez". *)
Definition drive_one (g : sgrid) (cmp : nat) (field : nat -> R) (i : nat) : afield := fun y x z =>
  if (i =? cmp)%nat then ffwd (s_nx g) (fun h => (field h, 0)) x else c0.
(** One pulse (driver.py:95-114): [env_t], [env_x] are the values of get_envelope. *)
Definition pulse (env_t : R) (env_x : nat -> R) (k0 w0 dw a0 t : R) (xax : nat -> R) (h : nat) : R :=
  env_t * env_x h * Rabs k0 * a0 * sin (k0 * xax h - (w0 + dw) * t).
