(** Model of one complete Vlasov-1D2V time step and of a run
    (adept/_vlasov1d2v/solvers/vector_field.py:19-239, adept/_vlasov1d2v/solvers/pushers/vlasov.py:11-56,
    adept/_vlasov1d2v/solvers/pushers/fokker_planck.py:31-152, adept/_vlasov1d2v/modules.py:25-160).

    Simplifications: those of VStep.v and Cyl.v; the options read from the 1D configuration are the records [setup] and
    [terms] of VStep.v, where t_diag_v / t_diag_fp stand for diag-vlasov-cumulative / diag-fp-cumulative; every species
    has the same perpendicular grid (modules.py:64, 97-101). *)
From Verif Require Export Cyl VStep.
Local Open Scope R_scope.

Definition dist3 := nat -> nat -> nat -> R.               (* f[x, v_par, v_perp] *)
Definition entry2 := (str * (species * dist3))%type.
Definition ndict2 := list entry2.

(** The configuration: the 1D part, grid.nvperp, grid.vperp_max, and the options of cylindrical_landau
    (fokker_planck.py:51-64: channels.speed, channels.lorentz, moment_restoration, explicit_substeps). *)
Record setup2 := { h_g : setup; h_nvp : nat; h_vpmax : R; h_speed : R; h_lorentz : R; h_restore : bool; h_substeps : Z }.
Definition wperp (h : setup2) (k : nat) : R := perp_w (h_nvp h) (h_vpmax h) k.

(** einsum("xvp,p->xv", f, wperp) (vector_field.py:33-35, fokker_planck.py:79-81). *)
Definition marginal (h : setup2) (f : dist3) : dist := fun i j => rsum (h_nvp h) (fun k => f i j k * wperp h k).
Definition marginals (h : setup2) (F : ndict2) : ndict := map (fun p => (fst p, (fst (snd p), marginal h (snd (snd p))))) F.

(** SpaceExponential2V.__call__ and VelocityExponential2V.__call__ for one species (vlasov.py:45-56, 19-34): the
    transforms act on one axis, for every value of the two other indices. *)
Definition space_push2 (nx : nat) (dx : R) (s : species) (dt : R) (f : dist3) : dist3 :=
  fun g j k => space_col nx dx (sp_v s j * dt) (fun i => f i j k) g.
Definition vel_push2 (s : species) (e pond : profile) (dt : R) (f : dist3) : dist3 :=
  fun i j k => vel_row (sp_nv s) (sp_dv s) dt (sp_accel s e pond i) (fun l => f i l k) j.
Definition map_f2 (m : species -> dist3 -> dist3) (F : ndict2) : ndict2 := map (fun p => (fst p, (fst (snd p), m (fst (snd p)) (snd (snd p))))) F.

(** LeapfrogIntegrator.__call__ (vector_field.py:47-54). *)
Definition leapfrog2 (h : setup2) (F : ndict2) (a dex prev : profile) : option (profile * ndict2) :=
  let g := h_g h in
  let Fv := map_f2 (fun s f => space_push2 (g_nx g) (g_dx g) s (g_dt g) f) F in
  let Ff := match g_solver g with SHampere => F | _ => Fv end in
  match field_solve (g_nx g) (g_dx g) (g_solver g) (f_of (marginals h Ff)) prev (g_dt g) with
  | None => None
  | Some e => Some (e, map_f2 (fun s f => vel_push2 s (fun i => e i + dex i) (ponderomotive (g_nx g) (g_dx g) a) (g_dt g) f) Fv)
  end.
(** SixthOrderHamIntegrator.__call__ (vector_field.py:93-108): drift, field, kick. *)
Definition sixth_stage2 (h : setup2) (pond dex : profile) (st : option R * R) (F : ndict2) : option (profile * ndict2) :=
  let g := h_g h in
  let F1 := match fst st with None => F | Some c => map_f2 (fun s f => space_push2 (g_nx g) (g_dx g) s (c * g_dt g) f) F end in
  match g_solver g with
  | SAmpere | SHampere => None
  | _ => match field_solve (g_nx g) (g_dx g) (g_solver g) (f_of (marginals h F1)) (fun _ => 0) 0 with
         | None => None
         | Some e => Some (e, map_f2 (fun s f => vel_push2 s (fun i => dex i + e i) pond (snd st * g_dt g) f) F1)
         end
  end.
Fixpoint sixth_run2 (h : setup2) (pond : profile) (l : list ((option R * R) * profile)) (e : profile) (F : ndict2) : option (profile * ndict2) :=
  match l with
  | [] => Some (e, F)
  | (st, dex) :: l' => match sixth_stage2 h pond dex st F with
                       | None => None
                       | Some (e', F') => sixth_run2 h pond l' e' F'
                       end
  end.
(** The integrator; its constructor raises unless edfdv is "exponential" (vector_field.py:28-29). *)
Definition vlasov_poisson2 (h : setup2) (F : ndict2) (a prev : profile) (dex : list profile) : option (profile * ndict2) :=
  match g_edfdv (h_g h) with
  | ECubic => None
  | EExponential =>
    match g_time (h_g h) with
    | Leapfrog => match dex with [] => None | d :: _ => leapfrog2 h F a d prev end
    | Sixth => sixth_run2 h (ponderomotive (g_nx (h_g h)) (g_dx (h_g h)) a) (combine (sixth_stages (g_dt (h_g h))) dex) (fun _ => 0) F
    end
  end.

(** Collisions.__init__ (fokker_planck.py:34-77). [None]: KeyError without an electron species (:38),
    NotImplementedError for another type (:64) or with Krook (:69-70), whether or not collisions are on. *)
Inductive op2 := Slices (op : fp_op) | Cylindrical.
Definition fp_operator2 (tm : terms) (names : list str) : option op2 :=
  let t := lower (t_fp_type tm) in
  if negb (existsb (str_eqb electron) names) then None
  else if t_krook_on tm then None
  else if str_eqb t (lit "dougherty") then Some (Slices {| fo_model := Dougherty; fo_scheme := CentralDifferencing; fo_nodrag := false |})
  else if str_eqb t (lit "dougherty_nodrag") then Some (Slices {| fo_model := Dougherty; fo_scheme := CentralDifferencing; fo_nodrag := true |})
  else if str_eqb t (lit "lenard_bernstein") then Some (Slices {| fo_model := LenardBernstein; fo_scheme := CentralDifferencing; fo_nodrag := false |})
  else if str_eqb t (lit "cylindrical_landau") then Some Cylindrical
  else None.
(** The slices of _apply at one point in space (fokker_planck.py:83-99, 121-152): vbar, beta, C and D come from the
    marginal F(v_par); every slice is solved with the same operator; without drag, each slice has its own share of the
    Maxwellian. *)
Definition slices_row (h : setup2) (op : fp_op) (nv : nat) (v : nat -> R) (dv nu dt : R) (f f_new : nat -> nat -> R) : Prop :=
  let F := fun j => rsum (h_nvp h) (fun k => f j k * wperp h k) in
  exists beta, model_beta (fo_model op) (t_sc (g_terms (h_g h))) nv v dv F beta /\
    forall k, (k < h_nvp h)%nat ->
      if fo_nodrag op
      then nodrag_step nv v dv (model_vbar (fo_model op) nv v F) beta (model_D (fo_model op) beta) nu dt (fun j => f j k) (fun j => f_new j k)
      else implicit_step nv (get_operator (fo_scheme op) nv dv (model_C (fo_model op) nv v dv F beta) (fun _ => model_D (fo_model op) beta) (fun _ => nu) dt)
             (fun j => f j k) (fun j => f_new j k).
(** CylindricalLandau as built by Collisions.__init__ (fokker_planck.py:51-64). *)
Definition cyl_of (h : setup2) (s : species) : cyl :=
  {| c_nv := sp_nv s; c_v := sp_v s; c_dv := sp_dv s; c_nvp := h_nvp h; c_vp := perp_v (h_nvp h) (h_vpmax h);
     c_dvp := perp_dv (h_nvp h) (h_vpmax h); c_wp := perp_w (h_nvp h) (h_vpmax h);
     c_speed := h_speed h; c_lorentz := h_lorentz h; c_restore := h_restore h; c_substeps := h_substeps h |}.
(** _apply (fokker_planck.py:107-152). *)
Definition collide2v (h : setup2) (op : op2) (nu : profile) (s : species) (f f_new : dist3) : Prop :=
  if t_fp_on (g_terms (h_g h)) then
    forall i, (i < g_nx (h_g h))%nat ->
      match op with
      | Slices o => slices_row h o (sp_nv s) (sp_v s) (sp_dv s) (nu i) (g_dt (h_g h)) (f i) (f_new i)
      | Cylindrical => cyl_apply (cyl_of h s) (nu i) (g_dt (h_g h)) (f i) (f_new i)
      end
  else f_new = f.
(** Collisions.__call__ (fokker_planck.py:101-105): the species called electron only. *)
Definition collide_entry2 (h : setup2) (op : op2) (nu : profile) (p p' : entry2) : Prop :=
  fst p' = fst p /\ fst (snd p') = fst (snd p) /\
  if str_eqb (fst p) electron then collide2v h op nu (fst (snd p)) (snd (snd p)) (snd (snd p')) else snd (snd p') = snd (snd p).

(** The increments of the diagnostics (vector_field.py:151-164), on the marginals. *)
Definition increment (h : setup2) (ref : str) (A B : ndict2) : option dist :=
  match lookup ref (marginals h A), lookup ref (marginals h B) with Some a, Some b => Some (fun i j => b i j - a i j) | _, _ => None end.

(** The state y and VlasovMaxwell2V.__call__ (vector_field.py:129-166, 204-239). The terms hou_li_filter and the
    driver ex_stochastic of the 1D configuration are not read. *)
Record vstate2 := { z_f : ndict2; z_a : profile; z_prev_a : profile; z_e : profile; z_da : profile; z_de : profile;
                    z_cum_v : option dist; z_cum_fp : option dist }.
(** result[key] = y[key] + increment (vector_field.py:235-237); without y[key] a KeyError. *)
Definition accumulate (on : bool) (old inc new : option dist) : Prop :=
  if on then match old, inc with Some a, Some d => new = Some (fun i j => a i j + d i j) | _, _ => False end else new = None.
(** compute_electron_charge_density (vector_field.py:194-202) reads the marginal. *)
Definition electron_charge2 (h : setup2) (F : ndict2) : profile := electron_charge (marginals h F).
(** dex (vector_field.py:206): the deterministic driver only. *)
Definition ex_dex (g : setup) (t : R) : profile := fun i => ex_drive (g_ex g) (g_x g i) t.
Definition vm_step2 (h : setup2) (t : R) (y y' : vstate2) : Prop :=
  let g := h_g h in
  let dex := map (fun d => ex_dex g (t + d)) (dt_array g) in
  let djy := ey_drive (g_nx g + 2) (g_xa g) (g_c g) (g_ey g) (t + nth 1 (dt_array g) 0) in
  let nu_fp := fun i => if t_fp_on (g_terms g) then g_nu_fp g (g_x g i) t else 0 in
  (exists op ref Fv,
     fp_operator2 (g_terms g) (map fst (z_f y)) = Some op /\
     ref_name (map fst (z_f y)) = Some ref /\
     vlasov_poisson2 h (z_f y) (z_a y) (z_e y) dex = Some (z_e y', Fv) /\
     Forall2 (collide_entry2 h op nu_fp) Fv (z_f y') /\
     accumulate (t_diag_v (g_terms g)) (z_cum_v y) (increment h ref (z_f y) Fv) (z_cum_v y') /\
     accumulate (t_diag_fp (g_terms g)) (z_cum_fp y) (increment h ref Fv (z_f y')) (z_cum_fp y')) /\
  (let ne := fun i => - (1 / 2) * (electron_charge2 h (z_f y) i + electron_charge2 h (z_f y') i) in
   let w := wave_step (g_nx g) (g_c g) (g_dx g) (g_dt g) (z_a y) (z_prev_a y) djy ne in
   z_a y' = fst w /\ z_prev_a y' = snd w) /\
  z_da y' = djy /\
  z_de y' = nth (match g_time g with Leapfrog => 0 | Sixth => 3 end) dex (fun _ => 0).
(** A run of n steps (diffrax with the Stepper of _base_.py; modules.py:141-160). *)
Inductive vm_run2 (h : setup2) : nat -> R -> vstate2 -> vstate2 -> Prop :=
| run2_0 t y : vm_run2 h 0 t y y
| run2_S n t y y1 y2 : vm_step2 h t y y1 -> vm_run2 h n (t + g_dt (h_g h)) y1 y2 -> vm_run2 h (S n) t y y2.

(** The initial distribution (helpers.py:32-92): component shapes in v_par times a Maxwellian in v_perp. *)
Definition m_perp_raw (h : setup2) (T0 mass : R) (k : nat) : R := exp (- (perp_v (h_nvp h) (h_vpmax h) k ^ 2) / (2 * T0 / mass)).
Definition m_perp (h : setup2) (T0 mass : R) (k : nat) : R :=
  m_perp_raw h T0 mass k / rsum (h_nvp h) (fun l => m_perp_raw h T0 mass l * wperp h l).
