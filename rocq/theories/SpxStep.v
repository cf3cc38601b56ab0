(** Model of the time steppers of the spectrax-1d solver (adept/_spectrax1d/integrators.py): the Lawson-RK4 step and the
    split-step damping around it. Arithmetic is exact; adaptive step-size control is outside the model. *)
From Verif Require Export Spectrax SpxExp.
Local Open Scope R_scope.
Local Open Scope cx_scope.

(** _tree_add and _tree_scale (integrators.py:294-301). *)
Definition st_add (s s' : spx) : spx :=
  {| c_e := fun p m n y x z => c_e s p m n y x z +c c_e s' p m n y x z; c_i := fun p m n y x z => c_i s p m n y x z +c c_i s' p m n y x z;
     f_k := fun i y x z => f_k s i y x z +c f_k s' i y x z |}.
Definition st_scale (s : spx) (r : R) : spx :=
  {| c_e := fun p m n y x z => r *c c_e s p m n y x z; c_i := fun p m n y x z => r *c c_i s p m n y x z; f_k := fun i y x z => r *c f_k s i y x z |}.
Definition st_sub (s s' : spx) : spx :=
  {| c_e := fun p m n y x z => c_e s p m n y x z -c c_e s' p m n y x z; c_i := fun p m n y x z => c_i s p m n y x z -c c_i s' p m n y x z;
     f_k := fun i y x z => f_k s i y x z -c f_k s' i y x z |}.

(** LawsonRK4Solver.step (integrators.py:349-418): the new state and the error estimate. [E] is combined_exp.apply and [N] the
    vector field. *)
Definition lawson (E : spx -> R -> spx) (N : R -> spx -> spx) (t0 t1 : R) (y0 : spx) : spx * spx :=
  let dt := t1 - t0 in
  let Eh_yn := E y0 (dt / 2) in
  let Ef_yn := E y0 dt in
  let N1 := N t0 y0 in
  let Eh_N1 := E N1 (dt / 2) in
  let N2 := N (t0 + dt / 2) (st_add Eh_yn (st_scale Eh_N1 (dt / 2))) in
  let N3 := N (t0 + dt / 2) (st_add Eh_yn (st_scale N2 (dt / 2))) in
  let Eh_N3 := E N3 (dt / 2) in
  let N4 := N t1 (st_add Ef_yn (st_scale Eh_N3 dt)) in
  let Ef_N1 := E N1 dt in
  let Eh_N2 := E N2 (dt / 2) in
  let y1 := st_add Ef_yn (st_scale (st_add (st_add Ef_N1 (st_scale Eh_N2 2)) (st_add (st_scale Eh_N3 2) N4)) (dt / 6)) in
  (y1, st_sub y1 (st_add Ef_yn (st_scale (st_add Ef_N1 N4) (dt / 2)))).
(** dense_info and LocalLinearInterpolation (integrators.py:335, 416): what a save at time t reads. *)
Definition interp_linear (t0 t1 t : R) (y0 y1 : spx) : spx := st_add y0 (st_scale (st_sub y1 y0) ((t - t0) / (t1 - t0))).

(** SplitStepDampingSolver._apply_damping (integrators.py:146-278): [sp_f], [sp_e], [sp_i] are the sponge profiles on the x
    grid, [fl] the Hermite filter of the state (None on the explicit path, base_module.py:750-758). *)
Record sponge := { sp_f : option (nat -> R); sp_e : option (nat -> R); sp_i : option (nat -> R) }.
Definition damp3 (g : sgrid) (sig : nat -> R) (dt : R) (h : afield) : afield :=
  fwd3 g (fun y x z => exp (- sig x * dt) *c inv3 g h y x z).
Definition damp_species (g : sgrid) (sig : option (nat -> R)) (dt : R) (C : coef6) : coef6 := fun p m n =>
  match sig with
  | None => C p m n
  | Some sg => fwd3 g (fun y x z => (if ((p =? 0) && (m =? 0) && (n =? 0))%nat%bool then 1 else exp (- sg x * dt)) *c inv3 g (C p m n) y x z)
  end.
Definition apply_damping (c : spcfg) (sp : sponge) (fl : option (R * nat)) (dt : R) (s : spx) : spx :=
  {| c_e := filtered (x_de c) fl (damp_species (x_g c) (sp_e sp) dt (c_e s));
     c_i := filtered (x_di c) fl (damp_species (x_g c) (sp_i sp) dt (c_i s));
     f_k := fun i => match sp_f sp with None => f_k s i | Some sg => damp3 (x_g c) sg dt (f_k s i) end |}.
(** SplitStepDampingSolver.step (integrators.py:106-144) around the Lawson step: the next state, and the pair the saves
    interpolate between (the wrapped solver's dense_info, built before the damping). *)
Definition spx_step (c : spcfg) (A : spargs) (G : eigs) (gam : nat -> R) (sp : sponge) (t0 t1 : R) (y0 : spx) : spx * (spx * spx) :=
  let y1 := fst (lawson (lin_exp c A G gam) (spx_nonlinear c A) t0 t1 y0) in
  (apply_damping c sp (x_filter c) (t1 - t0) y1, (y0, y1)).
