(** Model of the two-fluid solver: adept/_tf1d/solvers/pushers.py, adept/_tf1d/solvers/vector_field.py, adept/_tf1d/modules.py:105-252 and
    the frequency table of adept/electrostatic.py:154-174.

    Simplifications: exact arithmetic; an array over the cells is a function of the cell index, read below nx; the roots of the
    dispersion relation (scipy's Newton iteration on the Faddeeva function) are an arbitrary table of (real, imaginary) frequencies; the
    learned growth-rate closure args["nu_g"] is an arbitrary function; the Tsit5 time integrator is not modelled (only the right-hand side
    it integrates); the transverse WaveSolver of this package is the one of Wave.v and is never called. *)
From Coq Require Import Reals ZArith List Bool Lia.
From Verif Require Import PyStr RSum Pic VGrid Vlasov Drivers Vfp2d Dft.
Import ListNotations.
Local Open Scope R_scope.

(** * Grid (modules.py:124-168) *)
Record tgrid := { t_nx : nat; t_xmin : R; t_xmax : R; t_tmin : R; t_tmax : R }.
Definition t_dx (g : tgrid) : R := t_xmax g / INR (t_nx g).
Definition t_dt (g : tgrid) : R := 5 / 100 * t_dx g.
(** int() truncates towards zero. *)
Definition t_nt (g : tgrid) : Z := trunc (t_tmax g / t_dt g + 1).
Definition t_end (g : tgrid) : R := t_dt g * IZR (t_nt g).
Definition t_max_steps (g : tgrid) : Z := if (1000000 <? t_nt g)%Z then 1000000%Z else (t_nt g + 4)%Z.
Definition t_x (g : tgrid) : nat -> R := linspace (t_xmin g + t_dx g / 2) (t_xmax g - t_dx g / 2) (t_nx g).
(** init_diffeqsolve (modules.py:238-239): the run starts at 0.0. *)
Definition t_start (g : tgrid) : R := 0.
(** kxr = rfftfreq(nx, dx) 2 pi is [kr] (Vlasov.v), kx is [kx] (Pic.v); one_over_kxr (modules.py:166-168). *)
Definition inv_kr (n : nat) (dx : R) (k : nat) : R := match k with O => 0 | _ => 1 / kr n dx k end.

(** * Frequency table (electrostatic.py:154-174, num = 1024) *)
Definition tab_n : nat := Z.to_nat 1024.
Definition tab_k : nat -> R := linspace (2 / 100) (4 / 10) tab_n.
(** [root i]: the complex root of the dispersion relation at tab_k i. *)
Definition tab_wr (root : nat -> cplx) (kinetic : bool) (i : nat) : R := if kinetic then fst (root i) else sqrt (1 + 3 * tab_k i ^ 2).
Definition tab_wi (root : nat -> cplx) (i : nat) : R := snd (root i).
(** jnp.interp(x, xp, fp, left, right). *)
Definition interp_lr (n : nat) (xp fp : nat -> R) (left right x : R) : R :=
  if Rlt_dec x (xp O) then left else if Rlt_dec (xp (n - 1)%nat) x then right else interp n xp fp x.

(** * Species (datamodel.py:52-87) *)
Inductive gamma_t := Kinetic | Gamma (g : R).
Record trap := { tr_kld : R; tr_nuee : R; tr_model : str }.
Record fsp := { p_on : bool; p_mass : R; p_charge : R; p_T0 : R; p_gamma : gamma_t; p_landau : bool; p_trap : option trap }.
Definition is_kinetic (s : fsp) : bool := match p_gamma s with Kinetic => true | Gamma _ => false end.
Record fluid := { f_n : nat -> R; f_u : nat -> R; f_p : nat -> R; f_d : nat -> R }.

(** * Pushers (pushers.py) *)
(** gradient (lines 130-134) is [rder Spectral] (Vfp2d.v). *)
Definition grad (n : nat) (dx : R) (a : nat -> R) : nat -> R := rder Spectral n dx a.
(** PoissonSolver.__call__ (lines 117-118): +1j / kx. *)
Definition fpoisson (n : nat) (dx : R) (dn : nat -> R) (g : nat) : R := fst (ifft n (fun k => cmul (cmul (0, 1) (one_over_kx n dx k, 0)) (fft n dn k)) g).
(** Driver.__call__ (lines 86-103). *)
Record pulse := { d_k0 : R; d_w0 : R; d_dw0 : R; d_tc : R; d_tw : R; d_tr : R; d_xc : R; d_xw : R; d_xr : R; d_a0 : R }.
Definition fdriver (d : pulse) (x : nat -> R) (t : R) (g : nat) : R :=
  get_envelope (d_tr d) (d_tr d) (d_tc d - d_tw d * (1 / 2)) (d_tc d + d_tw d * (1 / 2)) t *
  get_envelope (d_xr d) (d_xr d) (d_xc d - d_xw d * (1 / 2)) (d_xc d + d_xw d * (1 / 2)) (x g) *
  Rabs (d_k0 d) * d_a0 d * sin (d_k0 d * x g - (d_w0 d + d_dw0 d) * t).
Definition drivers (l : list pulse) (x : nat -> R) (t : R) (g : nat) : R := fold_left (fun a d => a + fdriver d x t g) l 0.
(** DensityStepper (lines 137-149). *)
Definition push_n (n : nat) (dx : R) (a u : nat -> R) (g : nat) : R := - u g * grad n dx a g - a g * grad n dx u g.
(** VelocityStepper.__init__ (lines 170-202). *)
Definition wr_at (root : nat -> cplx) (s : fsp) (k : R) : R := interp_lr tab_n tab_k (tab_wr root (is_kinetic s)) 1 (tab_wr root (is_kinetic s) (tab_n - 1)) k.
Definition wr_corr (root : nat -> cplx) (s : fsp) (n : nat) (dx : R) (k : nat) : R :=
  if is_kinetic s then (wr_at root s (kr n dx k) ^ 2 - 1) * inv_kr n dx k ^ 2 else 1.
Definition wi_at (root : nat -> cplx) (s : fsp) (n : nat) (dx : R) (k : nat) : R :=
  if p_landau s then interp_lr tab_n tab_k (tab_wi root) 0 (tab_wi root (tab_n - 1)) (kr n dx k) else 0.
(** landau_damping_term (lines 204-242): the factor of the trapping model at one cell; None is NotImplementedError. *)
Definition trap_coeff (s : fsp) (delta : R) : option R :=
  match p_trap s with
  | None => Some 1
  | Some tr => if str_eqb (tr_model tr) (lit "zk") then Some (1 / 2)
               else if str_eqb (tr_model tr) (lit "delta") then Some (1 / (1 + delta ^ 2))
               else if str_eqb (tr_model tr) (lit "none") then Some 1 else None
  end.
Definition the_coeff (s : fsp) (delta : R) : R := match trap_coeff s delta with Some c => c | None => 1 end.
Definition damping (root : nat -> cplx) (s : fsp) (n : nat) (dx : R) (u delta : nat -> R) (g : nat) : R :=
  2 * smul n (fun k => (wi_at root s n dx k, 0)) u g * the_coeff s (delta g).
Definition restoring (root : nat -> cplx) (s : fsp) (n : nat) (dx : R) (h : nat -> R) : nat -> R := smul n (fun k => (wr_corr root s n dx k, 0)) h.
(** __call__ (lines 244-250). *)
Definition push_u (root : nat -> cplx) (s : fsp) (n : nat) (dx : R) (a u pm qe delta : nat -> R) (g : nat) : R :=
  - u g * grad n dx u g - restoring root s n dx (fun h => grad n dx pm h / a h) g - qe g + damping root s n dx u delta g.
(** EnergyStepper (lines 253-276). *)
Definition gam_of (s : fsp) : R := match p_gamma s with Kinetic => 1 | Gamma g => g end.
Definition push_p (s : fsp) (n : nat) (dx : R) (a u pm qe : nat -> R) (g : nat) : R :=
  - u g * grad n dx pm g - gam_of s * pm g * grad n dx u g - 2 * a g * u g * qe g.
(** ParticleTrapper (lines 279-337). *)
Definition log10 (x : R) : R := ln x / ln 10.
Definition trap_vph (root : nat -> cplx) (s : fsp) (tr : trap) : R := wr_at root s (tr_kld tr) / tr_kld tr.
Definition trap_wi (root : nat -> cplx) (n : nat) (dx : R) (k : nat) : R := interp_lr tab_n tab_k (tab_wi root) 0 0 (kr n dx k).
Definition cmod (z : cplx) : R := sqrt (fst z ^ 2 + snd z ^ 2).
Definition trap_rate (nu_g : R -> R -> R -> R) (tr : trap) (n : nat) (dx : R) (e : nat -> R) : R :=
  let ek := fun k => cscal (2 / INR n) (rfft n e k) in
  let norm_e := (log10 (interp (n / 2 + 1) (kr n dx) (fun k => cmod (ek k)) (tr_kld tr) + 1 / 10 ^ 10) + 10) / -10 in
  Rpower 10 (3 * nu_g norm_e ((tr_kld tr - 26 / 100) / (14 / 100)) ((log10 (tr_nuee tr) + 7) / -4)).
Definition push_d (root : nat -> cplx) (nu_g : R -> R -> R -> R) (s : fsp) (tr : trap) (n : nat) (dx : R) (e delta : nat -> R) (g : nat) : R :=
  - trap_vph root s tr * grad n dx delta g + trap_rate nu_g tr n dx e * Rabs (smul n (fun k => (trap_wi root n dx k, 0)) e g) / (1 + delta g ^ 2).

(** * The right-hand side (vector_field.py:46-99) *)
Definition zero_arr : nat -> R := fun _ => 0.
Definition rhs_species (root : nat -> cplx) (nu_g : R -> R -> R -> R) (s : fsp) (n : nat) (dx : R) (e te : nat -> R) (y : fluid) : fluid :=
  let qm := p_charge s / p_mass s in let pm := fun g => f_p y g / p_mass s in
  {| f_n := if p_on s then push_n n dx (f_n y) (f_u y) else zero_arr;
     f_u := if p_on s then push_u root s n dx (f_n y) (f_u y) pm (fun g => qm * te g) (f_d y) else zero_arr;
     f_p := if p_on s then push_p s n dx (f_n y) (f_u y) pm (fun g => qm * e g) else zero_arr;
     f_d := match p_trap s with Some tr => push_d root nu_g s tr n dx e (f_d y) | None => zero_arr end |}.
(** An odd number of cells is a shape error in irfft as soon as a species or a trapper is active (pushers.py:210, 223, 336: irfft without a
    length returns an even number of points), an unknown trapping model a NotImplementedError. *)
Definition active (s : fsp) : bool := p_on s || match p_trap s with Some _ => true | None => false end.
Definition model_ok (s : fsp) : bool := negb (p_on s) || match trap_coeff s 0 with Some _ => true | None => false end.
Definition fields (n : nat) (dx : R) (si se : fsp) (yi ye : fluid) : nat -> R := fpoisson n dx (fun g => p_charge si * f_n yi g + p_charge se * f_n ye g).
Definition rhs (root : nat -> cplx) (nu_g : R -> R -> R -> R) (n : nat) (dx : R) (x : nat -> R) (si se : fsp) (l : list pulse) (t : R) (yi ye : fluid) : option (fluid * fluid) :=
  if Nat.odd n && (active si || active se) then None else
  if negb (model_ok si && model_ok se) then None else
  let e := fields n dx si se yi ye in let te := fun g => e g + drivers l x t g in
  Some (rhs_species root nu_g si n dx e te yi, rhs_species root nu_g se n dx e te ye).
(** init_state_and_args (modules.py:174-191). *)
Definition rest (s : fsp) : fluid := {| f_n := fun _ => 1; f_u := zero_arr; f_p := fun _ => p_T0 s; f_d := zero_arr |}.

(** * Saved quantities (modules.py:198-226) *)
(** The x axis of the save section, and linear interpolation of the field on it. *)
Definition save_ax (lo hi : R) (m : nat) : nat -> R := let d := (hi - lo) / INR m in linspace (lo + d / 2) (hi - d / 2) m.
Definition save_x (g : tgrid) (lo hi : R) (m : nat) (f : nat -> R) (i : nat) : R := interp (t_nx g) (t_x g) f (save_ax lo hi m i).
(** The complex amplitude (abs and angle of which are saved) at wavenumber k. *)
Definition save_kx (n : nat) (dx : R) (f : nat -> R) (k : R) : cplx :=
  let c := fun j => cscal (2 / INR n) (rfft n f j) in
  (interp (n / 2 + 1) (kr n dx) (fun j => fst (c j)) k, interp (n / 2 + 1) (kr n dx) (fun j => snd (c j)) k).
