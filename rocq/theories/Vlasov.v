(** Model of the Vlasov-1D pushers, field solvers and time integrators (adept/_vlasov1d/solvers).

    Simplifications: exact real arithmetic; numpy/JAX transforms are those of Dft.v; the sharded ("parallel")
    branches compute the same values row by row and are not represented; a dictionary of distributions is a
    list of (species, array) pairs in insertion order. *)
From Coq Require Export Reals Lra Lia ZArith List Bool.
From Verif Require Export RSum Pic VGrid Dft.
Export ListNotations.
Local Open Scope R_scope.

Definition profile := nat -> R.                     (* an array over x *)
Definition dist := nat -> nat -> R.                 (* f[x, v] *)

(** One entry of species_grids / species_params (modules.py:222-256). *)
Record species := { sp_q : R; sp_m : R; sp_nv : nat; sp_vmin : R; sp_vmax : R }.
Definition sp_dv (s : species) : R := (sp_vmax s - sp_vmin s) / INR (sp_nv s).                        (* modules.py:226 *)
Definition sp_v (s : species) (j : nat) : R :=
  linspace (sp_vmin s + sp_dv s / 2) (sp_vmax s - sp_dv s / 2) (sp_nv s) j.                           (* helpers.py:132, modules.py:230 *)
Definition fdict := list (species * dist).

(** jnp.fft.rfftfreq(n, d) * 2 pi (vlasov.py:228, modules.py:236). *)
Definition kr (n : nat) (d : R) (k : nat) : R := INR k / (INR n * d) * 2 * PI.
(** irfft is called without n: it returns 2 (len - 1) values, and len = n // 2 + 1. *)
Definition out_len (n : nat) : nat := (2 * (n / 2 + 1 - 1))%nat.

(** SpaceExponential.push for one column, [vdt] = v_j dt (vlasov.py:234-238, 244). [dx] is x[1] - x[0]. *)
Definition space_col (nx : nat) (dx vdt : R) (f : profile) (g : nat) : R :=
  irfft (out_len nx) (fun k => cmul (cis (- (kr nx dx k * vdt))) (rfft nx f k)) g.
(** SpaceExponential.__call__ for one species (vlasov.py:240-251). *)
Definition space_push (nx : nat) (dx : R) (s : species) (dt : R) (f : dist) : dist :=
  fun g j => space_col nx dx (sp_v s j * dt) (fun i => f i j) g.

(** VelocityExponential.push (vlasov.py:74-91): the acceleration and the row update. *)
Definition sp_accel (s : species) (e pond : profile) (i : nat) : R :=
  let force := sp_q s * e i + (sp_q s ^ 2 / sp_m s) * pond i in force / sp_m s.
Definition vel_row (nv : nat) (dv dt a : R) (f : profile) (j : nat) : R :=
  irfft (out_len nv) (fun k => cmul (cis (- (kr nv dv k * dt * a))) (rfft nv f k)) j.
Definition vel_push (s : species) (e pond : profile) (dt : R) (f : dist) : dist :=
  fun i j => vel_row (sp_nv s) (sp_dv s) dt (sp_accel s e pond i) (f i) j.

(** HouLiFilter (vlasov.py:209-220). [order] is an int. *)
Definition hou_li_sigma (nx : nat) (alpha : R) (order : nat) (k : nat) : R :=
  exp (- alpha * (INR k / INR (nx / 2)) ^ (2 * order)).
Definition hou_li (nx : nat) (alpha : R) (order : nat) (f : dist) : dist :=
  fun g j => irfft (out_len nx) (fun k => cscal (hou_li_sigma nx alpha order k) (rfft nx (fun i => f i j) k)) g.

(* ------------------------------------------------------------------------------------------------ *)
(** * Field solvers (solvers/pushers/field.py) *)

(** Moments of one species: jnp.sum(f, axis=1) * dv and jnp.sum(v f, axis=1) * dv. *)
Definition density (s : species) (f : dist) (i : nat) : R := rsum (sp_nv s) (f i) * sp_dv s.
Definition flux (s : species) (f : dist) (i : nat) : R := rsum (sp_nv s) (fun j => sp_v s j * f i j) * sp_dv s.

(** SpectralPoissonSolver.compute_charge_density (field.py:186-208); the static part is added by [poisson]. *)
Definition charge_density (F : fdict) (i : nat) : R :=
  fold_left (fun rho p => rho + sp_q (fst p) * density (fst p) (snd p) i) F 0.
(** SpectralPoissonSolver.__call__ (field.py:210-224); the transform is that of the PIC solver. *)
Definition poisson (nx : nat) (dx : R) (static : option profile) (F : fdict) : profile :=
  spectral_poisson nx dx static (charge_density F).

(** BoltzmannPoissonSolver.__call__ (field.py:282-298); [lam] = lambda_De. *)
Definition boltzmann_kernel (nx : nat) (dx Te : R) (lam : option R) (rho0 : R) (k : nat) : R :=
  let lambda_sq := match lam with None => Te / rho0 | Some l => l ^ 2 end in
  kx nx dx k * (Te / rho0) / (1 + lambda_sq * kx nx dx k ^ 2).
Definition mean (nx : nat) (r : profile) : R := rsum nx r / INR nx.
Definition boltzmann (nx : nat) (dx Te : R) (lam : option R) (F : fdict) : profile :=
  let rho := charge_density F in
  fun g => fst (ifft nx (fun k => cmul (cmul (0, - (1)) (boltzmann_kernel nx dx Te lam (mean nx rho) k, 0)) (fft nx rho k)) g).

(** AmpereSolver (field.py:319-354). *)
Definition current_density (F : fdict) (i : nat) : R :=
  fold_left (fun c p => c + sp_q (fst p) * flux (fst p) (snd p) i) F 0.
Definition ampere (F : fdict) (prev : profile) (dt : R) : profile := fun i => prev i - dt * current_density F i.

(** HampereSolver (field.py:368-419): one species only, the constructor raises otherwise.
    self.one_over_ikx = one_over_kx / 1j. *)
Definition hampere_ek (nx : nat) (dx : R) (s : species) (f : dist) (prev : profile) (dt : R) (k : nat) : cplx :=
  cadd (fft nx prev k)
    (cscal (sp_dv s) (cmul (cscal (sp_q s) (0, - one_over_kx nx dx k))
      (csum (sp_nv s) (fun j => cmul (fft nx (fun i => f i j) k) (csub (cis (- (kx nx dx k * dt * sp_v s j))) c1))))).
Definition hampere (nx : nat) (dx : R) (s : species) (f : dist) (prev : profile) (dt : R) : profile :=
  fun g => fst (ifft nx (hampere_ek nx dx s f prev dt) g).

(** jnp.gradient(y, dx) for an array of n values: central inside, one-sided at the ends. *)
Definition gradient (n : nat) (dx : R) (y : profile) (i : nat) : R :=
  if (i =? 0)%nat then (y 1%nat - y 0%nat) / dx
  else if (i =? n - 1)%nat then (y (n - 1)%nat - y (n - 2)%nat) / dx
  else (y (i + 1)%nat - y (i - 1)%nat) / (2 * dx).
(** ElectricFieldSolver.__call__ (field.py:495): [a] has nx + 2 entries, the result nx. *)
Definition ponderomotive (nx : nat) (dx : R) (a : profile) (i : nat) : R :=
  - (1 / 2) * gradient (nx + 2) dx (fun h => a h ^ 2) (i + 1).

(* ------------------------------------------------------------------------------------------------ *)
(** * Time integrators (solvers/vector_field.py) *)

(** The configured field solver: Hampere reads the distributions before the x push (vector_field.py:88-91). *)
Inductive solver :=
| SPoisson (static : option profile)
| SBoltzmann (Te : R) (lam : option R)
| SAmpere
| SHampere.
(** ElectricFieldSolver.__init__/__call__ (field.py:429-497). [None]: the constructor of HampereSolver raises
    (more than one species); an empty dictionary raises in every solver. *)
Definition field_solve (nx : nat) (dx : R) (sol : solver) (F : fdict) (prev : profile) (dt : R) : option profile :=
  match F with
  | [] => None
  | (s, f) :: rest =>
    match sol with
    | SPoisson static => Some (poisson nx dx static F)
    | SBoltzmann Te lam => Some (boltzmann nx dx Te lam F)
    | SAmpere => Some (ampere F prev dt)
    | SHampere => match rest with [] => Some (hampere nx dx s f prev dt) | _ => None end
    end
  end.

(** terms.edfdv: "exponential" or "cubic-spline" (vector_field.py:41-52); the cubic row update is VGrid's. *)
Inductive edfdv := EExponential | ECubic.
Definition v_push (ed : edfdv) (s : species) (e pond : profile) (dt : R) (f : dist) : dist :=
  match ed with
  | EExponential => vel_push s e pond dt f
  | ECubic => fun i j => cubic_row (sp_nv s) (f i) (sp_accel s e pond i * dt / sp_dv s) j
  end.
Definition map_f (h : species -> dist -> dist) (F : fdict) : fdict := map (fun p => (fst p, h (fst p) (snd p))) F.

(** LeapfrogIntegrator.__call__ (vector_field.py:75-95); [dex] = dex_array[0]. Returns (e, f_dict). *)
Definition leapfrog (nx : nat) (dx : R) (sol : solver) (ed : edfdv) (dt : R) (F : fdict) (a dex prev : profile)
  : option (profile * fdict) :=
  let Fv := map_f (fun s f => space_push nx dx s dt f) F in
  let Ff := match sol with SHampere => F | _ => Fv end in
  match field_solve nx dx sol Ff prev dt with
  | None => None
  | Some e => Some (e, map_f (fun s f => v_push ed s (fun i => e i + dex i) (ponderomotive nx dx a) dt f) Fv)
  end.

(** SixthOrderHamIntegrator (vector_field.py:118-144): the coefficients are decimals. *)
Definition dec (m e : Z) : R := IZR m / IZR (10 ^ e).
Definition sa1 := dec 168735950563437422448196 24.
Definition sa2 := dec 377851589220928303880766 24.
Definition sa3 := dec (-093175079568731452657924) 24.
Definition sb1 := dec 049086460976116245491441 24.
Definition sb2 := dec 264177609888976700200146 24.
Definition sb3 := dec 186735929134907054308413 24.
Definition sc1 := dec (-000069728715055305084099) 24.
Definition sc2 := dec (-000625704827430047189169) 24.
Definition sc3 := dec (-002213085124045325561636) 24.
Definition sd2 := dec (-2916600457689847816445691) 30.
Definition sd3 := dec 3048480261700038788680723 29.
Definition se3 := dec 4985549387875068121593988 31.
Definition sD1 (dt : R) := sb1 + 2 * sc1 * dt ^ 2.
Definition sD2 (dt : R) := sb2 + 2 * sc2 * dt ^ 2 + 4 * sd2 * dt ^ 4.
Definition sD3 (dt : R) := sb3 + 2 * sc3 * dt ^ 2 + 4 * sd3 * dt ^ 4 - 8 * se3 * dt ^ 6.
(** self.dt_array (vector_field.py:135-144). *)
Definition sixth_times (dt : R) : list R :=
  map (Rmult dt) [0; sa1; sa1 + sa2; sa1 + sa2 + sa3; sa1 + sa2 + sa3 + sa2; sa1 + sa2 + sa3 + sa2 + sa1].
(** The six (drift before the kick, kick) pairs of __call__ (vector_field.py:158-184). *)
Definition sixth_stages (dt : R) : list (option R * R) :=
  [(None, sD1 dt); (Some sa1, sD2 dt); (Some sa2, sD3 dt); (Some sa3, sD3 dt); (Some sa2, sD2 dt); (Some sa1, sD1 dt)].
(** __call__ (vector_field.py:146-186): a stage drifts, solves the field, kicks. Only the Poisson solvers are
    allowed (field.py:460, 470 raise for the others). *)
Definition sixth_stage (nx : nat) (dx : R) (sol : solver) (ed : edfdv) (dt : R) (pond dex : profile) (st : option R * R) (F : fdict)
  : option (profile * fdict) :=
  let F1 := match fst st with None => F | Some c => map_f (fun s f => space_push nx dx s (c * dt) f) F end in
  match sol with
  | SAmpere | SHampere => None
  | _ => match field_solve nx dx sol F1 (fun _ => 0) 0 with
         | None => None
         | Some e => Some (e, map_f (fun s f => v_push ed s (fun i => dex i + e i) pond (snd st * dt) f) F1)
         end
  end.
Fixpoint sixth_run (nx : nat) (dx : R) (sol : solver) (ed : edfdv) (dt : R) (pond : profile) (l : list ((option R * R) * profile)) (e : profile) (F : fdict)
  : option (profile * fdict) :=
  match l with
  | [] => Some (e, F)
  | (st, dex) :: l' => match sixth_stage nx dx sol ed dt pond dex st F with
                       | None => None
                       | Some (e', F') => sixth_run nx dx sol ed dt pond l' e' F'
                       end
  end.
Definition sixth (nx : nat) (dx : R) (sol : solver) (ed : edfdv) (dt : R) (F : fdict) (a : profile) (dex : list profile) : option (profile * fdict) :=
  sixth_run nx dx sol ed dt (ponderomotive nx dx a) (combine (sixth_stages dt) dex) (fun _ => 0) F.
