(** Model of one complete Vlasov-1D time step: Vlasov-Poisson integrator, collisions, filter, diagnostics, drivers
    and the transverse wave (adept/_vlasov1d/solvers/vector_field.py:189-361,
    adept/_vlasov1d/solvers/pushers/fokker_planck.py:258-443).

    Simplifications: exact real arithmetic; the linear solver returns a solution (so the step is a relation); the
    result of the Newton refinement of beta is arbitrary; the sharded branches compute the same rows; the state
    dictionary is a record (name clashes between species and fields: see C62_species_name_refuted). *)
From Verif Require Export PyStr DriftDiff RSum Pic VGrid Beta Density Drivers Wave Vlasov.
Local Open Scope R_scope.

Definition entry := (str * (species * dist))%type.
Definition ndict := list entry.                       (* f_dict: name -> f, in insertion order, with its species_grids entry *)
Definition f_of (F : ndict) : fdict := map snd F.
Definition electron : str := lit "electron".

(* ------------------------------------------------------------------------------------------------ *)
(** * Collisions (fokker_planck.py) *)

Inductive fp_model := LenardBernstein | Dougherty | SuperGaussian (m ratio : R).   (* ratio = Gamma(3/m) / Gamma(1/m) *)
Record fp_op := { fo_model : fp_model; fo_scheme : scheme; fo_nodrag : bool }.
(** Collisions.__init_fp_operator__ (fokker_planck.py:310-353) and self._nodrag (:284); casefold on ASCII is lower.
    [None]: NotImplementedError. *)
Definition fp_operator (ty : str) (m ratio : R) : option fp_op :=
  let t := lower ty in
  if str_eqb t (lit "lenard_bernstein") then Some {| fo_model := LenardBernstein; fo_scheme := CentralDifferencing; fo_nodrag := false |}
  else if str_eqb t (lit "chang_cooper") || str_eqb t (lit "lenard_bernstein_chang_cooper") then Some {| fo_model := LenardBernstein; fo_scheme := ChangCooper; fo_nodrag := false |}
  else if str_eqb t (lit "chang_cooper_dougherty") || str_eqb t (lit "dougherty_chang_cooper") then Some {| fo_model := Dougherty; fo_scheme := ChangCooper; fo_nodrag := false |}
  else if str_eqb t (lit "dougherty") then Some {| fo_model := Dougherty; fo_scheme := CentralDifferencing; fo_nodrag := false |}
  else if str_eqb t (lit "super_gaussian") || str_eqb t (lit "super_gaussian_chang_cooper") then Some {| fo_model := SuperGaussian m ratio; fo_scheme := ChangCooper; fo_nodrag := false |}
  else if str_eqb t (lit "dougherty_nodrag") then Some {| fo_model := Dougherty; fo_scheme := CentralDifferencing; fo_nodrag := true |}
  else None.

(** compute_vbar (driftdiffusion.py:316-326, fokker_planck.py:78-88); None stands for 0. *)
Definition model_vbar (mo : fp_model) (nv : nat) (v f : nat -> R) : R :=
  match mo with LenardBernstein => 0 | _ => mean_velocity nv v f end.
(** The beta of _collide (fokker_planck.py:387-406): without refinement the closed form, with it ([sc]) any value. *)
Definition model_beta (mo : fp_model) (sc : bool) (nv : nat) (v : nat -> R) (dv : R) (f : nat -> R) (beta : R) : Prop :=
  sc = true \/
  beta = match mo with
         | SuperGaussian m _ => sg_beta_init nv v m f
         | _ => beta_analytic nv v (fun _ => dv) false (model_vbar mo nv v f) f
         end.
(** compute_C_and_D of the three models (driftdiffusion.py:359-378, fokker_planck.py:210-255). *)
Definition model_D (mo : fp_model) (beta : R) : R := match mo with SuperGaussian m r => sg_D m r beta | _ => thermal_D beta end.
Definition model_C (mo : fp_model) (nv : nat) (v : nat -> R) (dv : R) (f : nat -> R) (beta : R) : nat -> R :=
  match mo with
  | SuperGaussian m r => super_gaussian_C v (mean_velocity nv v f) beta m (sg_D m r beta) dv
  | _ => beta_drift v (model_vbar mo nv v f) beta (thermal_D beta)
  end.
(** The Fokker-Planck part of _collide at one point in space (fokker_planck.py:386-427). *)
Definition fp_row (op : fp_op) (sc : bool) (nv : nat) (v : nat -> R) (dv nu dt : R) (f f_new : nat -> R) : Prop :=
  exists beta, model_beta (fo_model op) sc nv v dv f beta /\
    if fo_nodrag op then nodrag_step nv v dv (model_vbar (fo_model op) nv v f) beta (model_D (fo_model op) beta) nu dt f f_new
    else implicit_step nv (get_operator (fo_scheme op) nv dv (model_C (fo_model op) nv v dv f beta) (fun _ => model_D (fo_model op) beta) (fun _ => nu) dt) f f_new.

(** cfg["terms"]: the switches and parameters read by the step. *)
Record terms := { t_fp_on : bool; t_fp_type : str; t_m : R; t_ratio : R; t_sc : bool;
                  t_krook_on : bool; t_T0 : R; t_hou_li : option (R * nat); t_diag_v : bool; t_diag_fp : bool }.

(** _apply_collisions (fokker_planck.py:371-443). *)
Definition collide (tm : terms) (op : fp_op) (nx : nat) (dt : R) (nu_fp nu_K : profile) (s : species) (f f_new : dist) : Prop :=
  exists f1 : dist,
    (if t_fp_on tm then forall i, (i < nx)%nat -> fp_row op (t_sc tm) (sp_nv s) (sp_v s) (sp_dv s) (nu_fp i) dt (f i) (f1 i) else f1 = f) /\
    (if t_krook_on tm then f_new = (fun i j => krook (sp_nv s) (sp_v s) (sp_dv s) (t_T0 tm) (sp_m s) (nu_K i) dt (f1 i) j) else f_new = f1).

(** _collision_species (fokker_planck.py:258-269) and ref_species (vector_field.py:251). *)
Definition ref_name (names : list str) : option str :=
  if existsb (str_eqb electron) names then Some electron else hd_error names.
(** Collisions.__call__ (fokker_planck.py:355-369). *)
Definition collide_entry (tm : terms) (op : fp_op) (nx : nat) (dt : R) (nu_fp nu_K : profile) (ref : str) (p p' : entry) : Prop :=
  fst p' = fst p /\ fst (snd p') = fst (snd p) /\
  if str_eqb (fst p) ref then collide tm op nx dt nu_fp nu_K (fst (snd p)) (snd (snd p)) (snd (snd p')) else snd (snd p') = snd (snd p).
Definition collisions (tm : terms) (op : fp_op) (nx : nat) (dt : R) (nu_fp nu_K : profile) (ref : str) (F F' : ndict) : Prop :=
  Forall2 (collide_entry tm op nx dt nu_fp nu_K ref) F F'.

(* ------------------------------------------------------------------------------------------------ *)
(** * The step (vector_field.py) *)

Inductive integrator := Leapfrog | Sixth.
Record setup := { g_nx : nat; g_dx : R; g_dt : R; g_x : profile; g_xa : profile; g_c : R;
                  g_solver : solver; g_edfdv : edfdv; g_time : integrator; g_terms : terms;
                  g_ex : list Drivers.driver; g_ey : list Drivers.driver; g_stochastic : option (R -> R -> R);   (* t -> x -> field *)
                  g_nu_fp : R -> R -> R; g_nu_K : R -> R -> R }.                                (* x -> t -> frequency *)

(** dt_array of the two integrators (vector_field.py:73, 135-144). *)
Definition dt_array (g : setup) : list R := match g_time g with Leapfrog => map (Rmult (g_dt g)) [0; 1] | Sixth => sixth_times (g_dt g) end.
(** VlasovMaxwell.total_dex (vector_field.py:299-304). *)
Definition total_dex (g : setup) (t : R) : profile := fun i =>
  ex_drive (g_ex g) (g_x g i) t + match g_stochastic g with Some h => h t (g_x g i) | None => 0 end.

Definition rename (F : ndict) (G : fdict) : ndict := combine (map fst F) G.
(** self.vlasov_poisson(f_dict, a, dex_array, prev_ex) (vector_field.py:75-95, 146-186). *)
Definition vlasov_poisson (g : setup) (F : ndict) (a prev : profile) (dex : list profile) : option (profile * ndict) :=
  match (match g_time g with
         | Leapfrog => match dex with [] => None | d :: _ => leapfrog (g_nx g) (g_dx g) (g_solver g) (g_edfdv g) (g_dt g) (f_of F) a d prev end
         | Sixth => sixth (g_nx g) (g_dx g) (g_solver g) (g_edfdv g) (g_dt g) (f_of F) a dex
         end) with
  | Some (e, G) => Some (e, rename F G)
  | None => None
  end.
(** self.hou_li_filter(f_fp) on every species (vlasov.py:209-220, vector_field.py:244-245). *)
Definition filtered (g : setup) (F : ndict) : ndict :=
  match t_hou_li (g_terms g) with
  | None => F
  | Some (alpha, order) => map (fun p => (fst p, (fst (snd p), hou_li (g_nx g) alpha order (snd (snd p))))) F
  end.
Fixpoint lookup (name : str) (F : ndict) : option dist :=
  match F with [] => None | (n, (_, f)) :: F' => if str_eqb n name then Some f else lookup name F' end.
(** The diagnostics (vector_field.py:247-256): [diag dt a b] = (b[ref] - a[ref]) / dt. *)
Definition diag (dt : R) (ref : str) (A B : ndict) : option dist :=
  match lookup ref A, lookup ref B with Some a, Some b => Some (fun i j => (b i j - a i j) / dt) | _, _ => None end.

(** VlasovPoissonFokkerPlanck.__call__ (vector_field.py:235-258). The collision operator is built even when it is
    switched off (vector_field.py:215), so an unknown type is an error in any case. *)
Definition vpfp (g : setup) (F : ndict) (a prev : profile) (dex : list profile) (nu_fp nu_K : profile)
  (e : profile) (F' : ndict) (dv dfp : option dist) : Prop :=
  exists op ref Fv Fc,
    fp_operator (t_fp_type (g_terms g)) (t_m (g_terms g)) (t_ratio (g_terms g)) = Some op /\
    ref_name (map fst F) = Some ref /\
    vlasov_poisson g F a prev dex = Some (e, Fv) /\
    collisions (g_terms g) op (g_nx g) (g_dt g) nu_fp nu_K ref Fv Fc /\
    F' = filtered g Fc /\
    dv = (if t_diag_v (g_terms g) then diag (g_dt g) ref F Fv else None) /\
    dfp = (if t_diag_fp (g_terms g) then diag (g_dt g) ref Fv F' else None).

(** compute_electron_charge_density (vector_field.py:306-316). *)
Fixpoint electron_charge (F : ndict) (i : nat) : R :=
  match F with
  | [] => 0
  | (n, (s, f)) :: F' => if str_eqb n electron then sp_q s * rsum (sp_nv s) (f i) * sp_dv s else electron_charge F' i
  end.

(** The state y and VlasovMaxwell.__call__ (vector_field.py:318-361). *)
Record vstate := { y_f : ndict; y_a : profile; y_prev_a : profile; y_e : profile; y_da : profile; y_de : profile;
                   y_diag_v : option dist; y_diag_fp : option dist }.
Definition vm_step (g : setup) (t : R) (y y' : vstate) : Prop :=
  let dex := map (fun d => total_dex g (t + d)) (dt_array g) in
  let djy := ey_drive (g_nx g + 2) (g_xa g) (g_c g) (g_ey g) (t + nth 1 (dt_array g) 0) in
  let nu_fp := fun i => if t_fp_on (g_terms g) then g_nu_fp g (g_x g i) t else 0 in
  let nu_K := fun i => if t_krook_on (g_terms g) then g_nu_K g (g_x g i) t else 0 in
  vpfp g (y_f y) (y_a y) (y_e y) dex nu_fp nu_K (y_e y') (y_f y') (y_diag_v y') (y_diag_fp y') /\
  (let ne := fun i => - (1 / 2) * (electron_charge (y_f y) i + electron_charge (y_f y') i) in
   let w := wave_step (g_nx g) (g_c g) (g_dx g) (g_dt g) (y_a y) (y_prev_a y) djy ne in
   y_a y' = fst w /\ y_prev_a y' = snd w) /\
  y_da y' = djy /\
  y_de y' = nth (match g_time g with Leapfrog => 0 | Sixth => 3 end) dex (fun _ => 0).

(** A run: n steps from time t (diffrax calls the step at t, t + dt, ...: _base_.py:30-58, _vlasov1d/modules.py:334). *)
Inductive vm_run (g : setup) : nat -> R -> vstate -> vstate -> Prop :=
| run_0 t y : vm_run g 0 t y y
| run_S n t y y1 y2 : vm_step g t y y1 -> vm_run g n (t + g_dt g) y1 y2 -> vm_run g (S n) t y y2.
