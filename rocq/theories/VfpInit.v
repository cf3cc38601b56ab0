(** Model of the VFP-1D initial state and configuration: adept/vfp1d/helpers.py:175-342 (super-Gaussian distributions,
    sum over species, local f10, clip), adept/vfp1d/base.py:148-215 (density scaling, ions), adept/vfp1d/vector_field.py:23-75
    (which coefficients reach which operator).

    Simplifications: exact real arithmetic; Euler's gamma function is an arbitrary function argument; the profiles of the
    species are arbitrary functions of the cell (bases "uniform", "sine" and "cosine" are written out); pint quantities
    are the numbers they reduce to; the tridiagonal solver is an arbitrary function as in Vfp.v. *)
From Verif Require Export Vfp.
Local Open Scope R_scope.

(** Profiles with basis uniform, sine, cosine (helpers.py:230-260); [xs]: cell centres. *)
Definition prof_uniform (baseline : R) (x : nat) : R := baseline * 1.
Definition prof_sine (xs : nat -> R) (baseline amp wavelength : R) (x : nat) : R := baseline * (1 + amp * sin (2 * PI / wavelength * xs x)).
Definition prof_cosine (xs : nat -> R) (baseline amp wavelength : R) (x : nat) : R := baseline * (1 + amp * cos (2 * PI / wavelength * xs x)).
(** Cell centres (grid.py:88). *)
Definition x_at (g : vgrid) (x : nat) : R := linspace (x_min g + d_x g / 2) (x_max g - d_x g / 2) (n_x g) x.

(** _initialize_distribution_ (helpers.py:175-211). *)
Definition sg_alpha (gam : R -> R) (m : R) : R := sqrt (3 * gam (3 / m) / 2 / gam (5 / m)).
Definition sg_cst (gam : R -> R) (m : R) : R := m / (4 * PI * sg_alpha gam m ^ 3 * gam (3 / m)).
Definition sg_dist (gam : R -> R) (g : vgrid) (vth m : R) (n T : nat -> R) (x i : nat) : R :=
  let vx := sqrt (T x) * vth in
  n x * (sg_cst gam m / vx ^ 3 * exp (- Rpower (v_at g i / sg_alpha gam m / vx) m)).

(** The loop over the species (helpers.py:229-331): accumulated density, f0 and f10. *)
Record vspecies := { sp_m : R; sp_n : nat -> R; sp_T : nat -> R }.
Record vacc := { acc_n : nat -> R; acc_f0 : nat -> nat -> R; acc_f10 : nat -> nat -> R }.
Definition acc_zero : vacc := {| acc_n := fun _ => 0; acc_f0 := fun _ _ => 0; acc_f10 := fun _ _ => 0 |}.
Definition big_dt : R := 10 ^ 12.
(** The local f10 at an edge (helpers.py:292-326). *)
Definition local_adv (tri : tri_solver) (g : vgrid) (c : flm) (ni : nat -> R) (f0 : nat -> nat -> R) (x : nat) : nat -> R :=
  flm_solve tri g c 1 (interp_c2e g (fun _ => 1) x) (interp_c2e g ni x) (fun i => interp_c2e g (fun k => f0 k i) x)
    (fun i => - big_dt * v_at g i * ddx_c2e g (fun k => f0 k i) x) big_dt false.
Definition local_acc (tri : tri_solver) (g : vgrid) (c : flm) (ni : nat -> R) (f0 : nat -> nat -> R) (x : nat) : nat -> R :=
  flm_solve tri g c 1 (interp_c2e g (fun _ => 1) x) (interp_c2e g ni x) (fun i => interp_c2e g (fun k => f0 k i) x)
    (fun i => ddv g (fun j => interp_c2e g (fun k => f0 k j) x) i) big_dt false.
Definition local_f10 (tri : tri_solver) (g : vgrid) (c : flm) (ni : nat -> R) (f0 : nat -> nat -> R) (x i : nat) : R :=
  let e := - calc_j g (local_adv tri g c ni f0 x) / calc_j g (local_acc tri g c ni f0 x) in
  local_adv tri g c ni f0 x i + e * local_acc tri g c ni f0 x i.
Definition init_species (tri : tri_solver) (gam : R -> R) (g : vgrid) (c : flm) (vth : R) (a : vacc) (s : vspecies) : vacc :=
  let n x := acc_n a x + sp_n s x in
  let f0 x i := acc_f0 a x i + sg_dist gam g vth (sp_m s) (sp_n s) (sp_T s) x i in
  {| acc_n := n; acc_f0 := f0; acc_f10 := fun x i => acc_f10 a x i + local_f10 tri g c (fun k => n k / flm_Z c) f0 x i |}.
(** Entries whose name starts with "species-" (helpers.py:225, 329-331). *)
Definition init_loop (tri : tri_solver) (gam : R -> R) (g : vgrid) (c : flm) (vth : R) (l : list (str * vspecies)) : vacc :=
  fold_left (fun a p => if is_prefix (lit "species-") (fst p) then init_species tri gam g c vth a (snd p) else a) l acc_zero.
(** The clip (helpers.py:338-342): clamped ends whatever the boundary condition. *)
Definition clamp_edge (g : vgrid) (f : nat -> R) (x : nat) : R :=
  if Nat.eqb x 0 then f 0%nat else if Nat.eqb x (n_x g) then f (n_x g - 1)%nat else 1 / 2 * (f x + f (x - 1)%nat).
Definition clip (lo hi a : R) : R := Rmin (Rmax a lo) hi.
(** _initialize_total_distribution_ (helpers.py:214-342): (f0, f10, n); None: ValueError "No species found". *)
Definition init_total (tri : tri_solver) (gam : R -> R) (g : vgrid) (c : flm) (vth : R) (l : list (str * vspecies)) : option ((nat -> nat -> R) * (nat -> nat -> R) * (nat -> R)) :=
  if existsb (fun p => is_prefix (lit "species-") (fst p)) l then
    let a := init_loop tri gam g c vth l in
    Some (acc_f0 a,
          fun x i => let b := clamp_edge g (fun k => acc_f0 a k i) x in clip (- b) b (acc_f10 a x i),
          acc_n a)
  else None.

(** Ions (base.py:170-214); [ne]: scaled density profile; [Zu]: units.Z. A mixture is a list of (fraction, Z). *)
Inductive ions := NoIonCfg | SingleIon (ni : nat -> R) | Mixture (l : list (R * R)).
Definition isclose (a b : R) : bool := if Rle_dec (Rabs (a - b)) (1 / 10 ^ 8 + 1 / 10 ^ 5 * Rabs b) then true else false.
Definition zbar (l : list (R * R)) : R := lsum (map (fun p => fst p * snd p) l).
Definition zeff (l : list (R * R)) : R := lsum (map (fun p => fst p * snd p ^ 2) l) / zbar l.
Definition init_ions (Zu : R) (ne : nat -> R) (io : ions) : option ((nat -> R) * (nat -> R)) :=
  match io with
  | NoIonCfg => Some (fun _ => 1, fun x => ne x / Zu)
  | SingleIon ni => Some (fun x => ne x / ni x / Zu, ni)
  | Mixture l => if isclose (lsum (map fst l)) 1 then Some (fun _ => zeff l / Zu * 1, fun x => ne x / zeff l) else None
  end.
(** init_state_and_args (base.py:148-215): the density is scaled by ne/n0, f10 is not. *)
Definition init_state (tri : tri_solver) (gam : R -> R) (g : vgrid) (c : flm) (vth : R) (l : list (str * vspecies)) (ratio : R) (io : ions) : option vstate :=
  match init_total tri gam g c vth l with
  | Some (f0, f10, n) =>
      let ne x := n x * ratio in
      match init_ions (flm_Z c) ne io with
      | Some (Z, ni) => Some {| s_f := fun ix => match ix with F0 x i => f0 x i * ratio | F10 x i => f10 x i end; s_e := fun _ => 0; s_Z := Z; s_ni := ni |}
      | None => None
      end
  | None => None
  end.

(** OSHUN1D.__init__ (vector_field.py:23-71): coefficients from the configuration. [o_nuee]: terms.fokker_planck.nuee_coeff
    if present; [o_D0]: drivers.maxwellian_heating.D0 if present; [o_int]: drivers.ib.intensity_1e15_Wcm2 if present. *)
Record vraw := { r_nuee : R; o_nuee : option R; r_loglam : R; r_Z : R; r_full : bool; r_nl : nat; o_D0 : option R; o_int : option R; r_vosc2 : R; r_w0 : R }.
Definition get_or (o : option R) (d : R) : R := match o with Some x => x | None => d end.
Definition oshun_cfg (r : vraw) (g : vgrid) (m : vmodel) (s : scheme_name) (beta : (nat -> R) -> R) (solver : str) : vcfg :=
  {| c_grid := g; c_model := m; c_scheme := s; c_beta := beta; c_nuee := get_or (o_nuee r) (r_nuee r);
     c_flm := {| flm_Z := r_Z r; flm_nuee := r_nuee r; flm_loglam := r_loglam r; flm_full := r_full r; flm_nl := r_nl r |};
     c_D0 := get_or (o_D0 r) 0; c_vosc2 := r_vosc2 r * get_or (o_int r) 0; c_w0 := r_w0 r; c_solver := solver |}.
