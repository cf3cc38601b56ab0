(** Model of the VFP-1D solver: grid (adept/vfp1d/grid.py), staggered differences, streaming, acceleration, field
    solve and complete step (adept/vfp1d/vector_field.py), anisotropic collisions (adept/vfp1d/fokker_planck.py:401-628).

    Simplifications: exact real arithmetic; arrays are functions on the natural numbers of which the first nx (centres),
    nx+1 (edges) or nv (speeds) values are used; diffrax's Tsit5 with one step of size dt is an explicit Runge-Kutta
    step with an arbitrary tableau; the tridiagonal solver used for the anisotropic part is an arbitrary function;
    the coupled minimisation "edfdv-ampere-implicit" is represented only by the shapes of its arguments. *)
From Verif Require Export PyStr RSum Rk VGrid DriftDiff.
Local Open Scope R_scope.

(** Grid (grid.py:53-113). *)
Record vgrid := { n_x : nat; n_v : nat; x_min : R; x_max : R; v_max : R; d_t : R; bnd : str; geom : str }.
Definition d_x (g : vgrid) : R := (x_max g - x_min g) / INR (n_x g).
Definition d_v (g : vgrid) : R := v_max g / INR (n_v g).
Definition v_at (g : vgrid) (i : nat) : R := linspace (d_v g / 2) (v_max g - d_v g / 2) (n_v g) i.
Definition x_edge (g : vgrid) (x : nat) : R := linspace (x_min g) (x_max g) (n_x g + 1) x.
Definition periodic (g : vgrid) : bool := str_eqb (bnd g) (lit "periodic").
Definition reflective (g : vgrid) : bool := str_eqb (bnd g) (lit "reflective").
Definition spherical (g : vgrid) : bool := str_eqb (geom g) (lit "spherical").
(** The checks of the constructor (grid.py:67-82): true if no ValueError is raised. *)
Definition grid_ok (g : vgrid) : bool :=
  (str_eqb (geom g) (lit "cartesian") || spherical g) &&
  (if spherical g then (if Rlt_dec (x_min g) 0 then false else true) && reflective g else true).
(** nt, max_steps, tmax (grid.py:97-109). *)
Definition v_nt (tmax dt : R) : Z := (trunc (tmax / dt) + 1)%Z.
Definition v_max_steps (nt : Z) : Z := if (1000000 <? nt)%Z then 1000000%Z else (nt + 4)%Z.
Definition v_tmax (tmax dt : R) : R := dt * IZR (v_nt tmax dt).

(** np.gradient along an axis of length m (central inside, one-sided at both ends). *)
Definition gradient (m : nat) (h : R) (f : nat -> R) (i : nat) : R :=
  match i with
  | O => (f 1%nat - f 0%nat) / h
  | S k => if Nat.eqb (S i) m then (f i - f k) / h else (f (S i) - f k) / (2 * h)
  end.
Definition prepend (a : R) (f : nat -> R) (i : nat) : R := match i with O => a | S k => f k end.
(** ddv, ddv_f1 (vector_field.py:77-102). *)
Definition ddv (g : vgrid) (f : nat -> R) (i : nat) : R := gradient (n_v g + 1) (d_v g) (prepend (f 0%nat) f) (S i).
Definition ddv_f1 (g : vgrid) (f : nat -> R) (i : nat) : R := gradient (n_v g + 1) (d_v g) (prepend (- f 0%nat) f) (S i).
(** Ghost cells of a centred field (vector_field.py:106-111, 138-145); entry 0 is the left ghost. *)
Definition ghosts (g : vgrid) (f : nat -> R) (k : nat) : R :=
  match k with
  | O => if periodic g then f (n_x g - 1)%nat else f 0%nat
  | S x => if Nat.ltb x (n_x g) then f x else if periodic g then f 0%nat else f (n_x g - 1)%nat
  end.
(** ddx_c2e, ddx_e2c, div_e2c, interp_e2c, interp_c2e (vector_field.py:104-147). *)
Definition ddx_c2e (g : vgrid) (f : nat -> R) (x : nat) : R := (ghosts g f (S x) - ghosts g f x) / d_x g.
Definition ddx_e2c (g : vgrid) (f : nat -> R) (x : nat) : R := (f (S x) - f x) / d_x g.
Definition div_e2c (g : vgrid) (f : nat -> R) (x : nat) : R :=
  if spherical g then
    (x_edge g (S x) ^ 2 * f (S x) - x_edge g x ^ 2 * f x) / ((x_edge g (S x) ^ 3 - x_edge g x ^ 3) / 3)
  else ddx_e2c g f x.
Definition interp_e2c (f : nat -> R) (x : nat) : R := 1 / 2 * (f x + f (S x)).
Definition interp_c2e (g : vgrid) (f : nat -> R) (x : nat) : R := 1 / 2 * (ghosts g f x + ghosts g f (S x)).
(** calc_j (vector_field.py:149-160). *)
Definition calc_j (g : vgrid) (f1 : nat -> R) : R := - 4 * PI / 3 * rsum (n_v g) (fun i => f1 i * v_at g i ^ 3) * d_v g.

(** The pair of distributions as one vector. *)
Inductive vix := F0 (x i : nat) | F10 (x i : nat).
Definition wall (g : vgrid) (x : nat) : bool := reflective g && (Nat.eqb x 0 || Nat.eqb x (n_x g)).
(** _vdfdx_ (vector_field.py:321-348). *)
Definition vdfdx (g : vgrid) (t : R) (y : vix -> R) (ix : vix) : R :=
  match ix with
  | F0 x i => - v_at g i / 3 * div_e2c g (fun e => y (F10 e i)) x
  | F10 x i => if wall g x then 0 else - v_at g i * ddx_c2e g (fun c => y (F0 c i)) x
  end.
(** _edfdv_ (vector_field.py:256-296). *)
Definition edfdv (g : vgrid) (e : nat -> R) (t : R) (y : vix -> R) (ix : vix) : R :=
  match ix with
  | F0 x i => let f10c j := interp_e2c (fun k => y (F10 k j)) x in
              interp_e2c e x / 3 * (2 / v_at g i * f10c i + ddv_f1 g f10c i)
  | F10 x i => if wall g x then 0 else e x * ddv g (fun j => interp_c2e g (fun c => y (F0 c j)) x) i
  end.
Definition push_vdfdx (tab : tableau) (g : vgrid) (y : vix -> R) : vix -> R := rk_step tab (vdfdx g) 0 (d_t g) y.
Definition push_edfdv (tab : tableau) (g : vgrid) (e : nat -> R) (y : vix -> R) : vix -> R := rk_step tab (edfdv g e) 0 (d_t g) y.

(** ** Anisotropic collisions, FLMCollisions (fokker_planck.py:401-628), at one point of space *)
Record flm := { flm_Z : R; flm_nuee : R; flm_loglam : R; flm_full : bool; flm_nl : nat }.
Definition nuei_coeff (c : flm) : R := flm_nuee c * flm_Z c ^ 2 * flm_loglam c.
Definition z_scaling (c : flm) : R := (flm_Z c + 42 / 10) / (flm_Z c + 24 / 100).
(** Coefficients (fokker_planck.py:423-443); entry 0 is the zero padding. *)
Definition dplus (l : R) : R := (2 * l + 1) * (2 * l + 3).
Definition dminus (l : R) : R := (2 * l + 1) * (2 * l - 1).
Definition ll (l : R) : R := l * (l + 1) / 2.
Definition pad0 (f : R -> R) (l : nat) : R := match l with O => 0 | _ => f (INR l) end.
Definition a1 := pad0 (fun l => (l + 1) * (l + 2) / dplus l).
Definition a2 := pad0 (fun l => - (l - 1) * l / dminus l).
Definition b1 := pad0 (fun l => (- ll l - (l + 1)) / dplus l).
Definition b2 := pad0 (fun l => (- ll l + (l + 2)) / dplus l).
Definition b3 := pad0 (fun l => (ll l + (l - 1)) / dminus l).
Definition b4 := pad0 (fun l => (ll l - l) / dminus l).
(** calc_ros_i, calc_ros_j (fokker_planck.py:445-479): cumulative sums from below and from above, both inclusive. *)
Definition ros_i (g : vgrid) (f : nat -> R) (p : Z) (i : nat) : R :=
  4 * PI * powerRZ (v_at g i) (- p) * rsum (S i) (fun j => powerRZ (v_at g j) (2 + p) * f j) * d_v g.
Definition ros_j (g : vgrid) (f : nat -> R) (p : Z) (i : nat) : R :=
  4 * PI * powerRZ (v_at g i) (- p) * rsum (n_v g - i) (fun k => powerRZ (v_at g (i + k)) (2 + p) * f (i + k)%nat) * d_v g.
(** get_ee_offdiagonal_contrib (fokker_planck.py:481-504). *)
Definition offdiag (g : vgrid) (l : nat) (d2 d1 f : nat -> R) (i : nat) : R :=
  let L := Z.of_nat l in
  (a1 l * d2 i + b1 l * d1 i) * ros_i g f (2 + L) i
  + (a1 l * d2 i + b2 l * d1 i) * ros_j g f (- L - 1) i
  + (a2 l * d2 i + b3 l * d1 i) * ros_i g f L i
  + (if Nat.ltb 1 l then (a2 l * d2 i + b4 l * d1 i) * ros_j g f (1 - L) i else 0).
(** get_ee_diagonal_contrib (fokker_planck.py:506-556). *)
Definition ee_second (g : vgrid) (f0 : nat -> R) (i : nat) : R := (ros_i g f0 2 i + ros_j g f0 (-1) i) / (3 * v_at g i) / d_v g ^ 2.
Definition tri_i1 (g : vgrid) (f0 : nat -> R) (i : nat) : R := (- ros_i g f0 2 i + 2 * ros_j g f0 (-1) i + 3 * ros_i g f0 0 i) / 3.
Definition ee_first (g : vgrid) (f0 : nat -> R) (i : nat) : R := tri_i1 g f0 i / v_at g i ^ 2 / 2 / d_v g.
Definition ee_low (g : vgrid) (f0 : nat -> R) (i : nat) : R := ee_second g f0 i - ee_first g f0 i.
Definition ee_up (g : vgrid) (f0 : nat -> R) (i : nat) : R := ee_second g f0 i + ee_first g f0 i.
Definition ee_diag (g : vgrid) (f0 : nat -> R) (l i : nat) : R :=
  8 * PI * f0 i - 2 * ee_second g f0 i + - ll (INR l) * tri_i1 g f0 i / v_at g i ^ 3
  + (if Nat.eqb i 0 then (if Nat.odd l then -1 else 1) * ee_low g f0 0 else 0).
(** solve_harmonic (fokker_planck.py:572-614); None: ValueError. *)
Definition ei_diag (g : vgrid) (l : nat) (Z ni : R) (i : nat) : R := - INR l * (INR l + 1) / 2 * Z ^ 2 * ni / v_at g i ^ 3.
Definition pad_f0 (f0 : nat -> R) (i : nat) : R := match i with O => f0 1%nat | S k => prepend (f0 0%nat) f0 k end.
Definition flm_op (g : vgrid) (c : flm) (l : nat) (Z ni : R) (f0 : nat -> R) (dt : R) : tridiagonal :=
  {| diagonal := fun i => 1 - dt * (nuei_coeff c * ei_diag g l Z ni i + flm_nuee c * ee_diag g f0 l i);
     upper := fun i => - dt * flm_nuee c * ee_up g f0 i;
     lower := fun i => - dt * flm_nuee c * ee_low g f0 (S i) |}.
Definition flm_d2 (g : vgrid) (f0 : nat -> R) (i : nat) : R :=
  1 / 2 / v_at g i * gradient (n_v g + 2) (d_v g) (gradient (n_v g + 2) (d_v g) (pad_f0 f0)) (S (S i)).
Definition flm_d1 (g : vgrid) (f0 : nat -> R) (i : nat) : R := powerRZ (v_at g i) (-2) * gradient (n_v g + 2) (d_v g) (pad_f0 f0) (S (S i)).
Definition tri_solver := nat -> tridiagonal -> (nat -> R) -> nat -> R.
Definition flm_solve (tri : tri_solver) (g : vgrid) (c : flm) (l : nat) (Z ni : R) (f0 f : nat -> R) (dt : R) (explicit : bool) (i : nat) : R :=
  if flm_full c then
    tri (n_v g) (flm_op g c l Z ni f0 dt) f i
    + (if explicit then dt * flm_nuee c * offdiag g l (flm_d2 g f0) (flm_d1 g f0) f i else 0)
  else f i / (1 - dt * nuei_coeff c * z_scaling c * ei_diag g l Z ni i).
Definition solve_harmonic (tri : tri_solver) (g : vgrid) (c : flm) (l : nat) (Z ni : R) (f0 f : nat -> R) (dt : R) (explicit : bool) : option (nat -> R) :=
  if (Nat.leb 1 l && Nat.leb l (flm_nl c))%bool then Some (flm_solve tri g c l Z ni f0 f dt explicit) else None.

(** ** The isotropic collision models (fokker_planck.py:82-265) and one complete step *)
Inductive vmodel := Coulombian | Asymptotic | FastVFP | NullModel.
(** get_model (fokker_planck.py:225-254). *)
Definition get_model (name : str) : option vmodel :=
  let n := PyStr.lower name in
  if existsb (str_eqb n) [lit "coulombian"; lit "coulombiankernel"; lit "coulombian_kernel"; lit "coulombian-kernel"; lit "landau"] then Some Coulombian
  else if existsb (str_eqb n) [lit "asymptoticlocal"; lit "asymptotic_local"; lit "asymptotic-local"; lit "sqrt"] then Some Asymptotic
  else if existsb (str_eqb n) [lit "fastvfp"; lit "fast_vfp"; lit "fast-vfp"] then Some FastVFP
  else if existsb (str_eqb n) [lit "null"; lit "none"; lit "collisionless"] then Some NullModel
  else None.
Definition model_C (m : vmodel) (g : vgrid) (f : nat -> R) : nat -> R :=
  match m with
  | Coulombian => kernel_C (coulombian (n_v g) (v_at g) (d_v g)) (v_at g) (d_v g) f
  | Asymptotic => kernel_C (asymptotic_local (n_v g) (v_at g) (d_v g)) (v_at g) (d_v g) f
  | FastVFP => fast_vfp_C
  | NullModel => fun _ => 0
  end.
Definition model_D (m : vmodel) (g : vgrid) (beta : R) (f : nat -> R) : nat -> R :=
  match m with
  | Coulombian => kernel_D (coulombian (n_v g) (v_at g) (d_v g)) (v_at g) f
  | Asymptotic => kernel_D (asymptotic_local (n_v g) (v_at g) (d_v g)) (v_at g) f
  | FastVFP => fast_vfp_D (v_at g) beta
  | NullModel => fun _ => 0
  end.
(** get_scheme (fokker_planck.py:257-281); LogMeanFlux receives the distribution (365). *)
Inductive scheme_name := SCentral | SChangCooper | SLogMean.
Definition get_scheme (name : str) : option scheme_name :=
  let n := PyStr.lower name in
  if existsb (str_eqb n) [lit "central"; lit "central_differencing"; lit "central-differencing"] then Some SCentral
  else if existsb (str_eqb n) [lit "chang_cooper"; lit "chang-cooper"; lit "cc"] then Some SChangCooper
  else if existsb (str_eqb n) [lit "log_mean"; lit "log-mean"; lit "log_mean_flux"; lit "logmean"; lit "buet"] then Some SLogMean
  else None.
Definition scheme_of (s : scheme_name) (f : nat -> R) : scheme :=
  match s with SCentral => CentralDifferencing | SChangCooper => ChangCooper | SLogMean => LogMeanFlux f end.
Record vcfg := {
  c_grid : vgrid; c_model : vmodel; c_scheme : scheme_name; c_beta : (nat -> R) -> R; c_nuee : R; c_flm : flm;
  c_D0 : R; c_vosc2 : R; c_w0 : R; c_solver : str }.
Record vstate := { s_f : vix -> R; s_e : nat -> R; s_Z : nat -> R; s_ni : nat -> R }.
(** inverse_bremsstrahlung_resonance_ratio (fokker_planck.py:56-79). *)
Definition ib_ratio (c : vcfg) (Z ni : R) : R := c_nuee c * flm_loglam (c_flm c) * Z ^ 2 * ni / c_w0 c.
(** The inverse-bremsstrahlung term is on only for a positive amplitude (vector_field.py:62, 389). *)
Definition ib_on (c : vcfg) : R := if Rlt_dec 0 (c_vosc2 c) then c_vosc2 c else 0.
(** F0Collisions._solve_one_vslice_ (fokker_planck.py:305-374). Absent heating terms are zero. *)
Definition f0_collide (c : vcfg) (Z ni : R) (f f' : nat -> R) : Prop :=
  let g := c_grid c in
  implicit_step (n_v g)
    (get_operator (scheme_of (c_scheme c) f) (n_v g) (d_v g) (model_C (c_model c) g f)
       (heated_D (v_at g) (model_D (c_model c) g (c_beta c f) f) (c_D0 c) (ib_on c) (ib_ratio c Z ni)) (spherical_nu (c_nuee c) (v_at g)) (d_t g)) f f'.
(** solve_aniso on all edges (vector_field.py:395-397, 418-419 ...). *)
Definition collide_edges (tri : tri_solver) (c : vcfg) (Z ni : nat -> R) (f0 : nat -> nat -> R) (f10 : nat -> nat -> R) (x : nat) : nat -> R :=
  let g := c_grid c in
  flm_solve tri g (c_flm c) 1 (interp_c2e g Z x) (interp_c2e g ni x) (fun i => interp_c2e g (fun k => f0 k i) x) (f10 x) (d_t g) true.
(** implicit_e_solve (vector_field.py:162-209); [y]: the pair after streaming and f0 collisions. *)
Definition implicit_e (tri : tri_solver) (tab : tableau) (c : vcfg) (Z ni : nat -> R) (y : vix -> R) (e : nat -> R) (x : nat) : R :=
  let g := c_grid c in
  let j0 := calc_j g (collide_edges tri c Z ni (fun k i => y (F0 k i)) (fun k i => y (F10 k i)) x) in
  let de k := Rabs (e k) * (1 / 10 ^ 6) + 1 / 10 ^ 12 in
  let y1 := push_edfdv tab g de y in
  let jd := calc_j g (collide_edges tri c Z ni (fun k i => y (F0 k i)) (fun k i => y1 (F10 k i)) x) in
  if wall g x then 0 else - j0 * de x / (jd - j0).
(** __call__ (vector_field.py:368-446). The relation holds if the implicit f0 solve returned a solution. *)
Definition vfp_step (tri : tri_solver) (tab : tableau) (c : vcfg) (y y' : vstate) : Prop :=
  let g := c_grid c in
  let s := push_vdfdx tab g (s_f y) in
  exists f0s : nat -> nat -> R,
    (forall x, (x < n_x g)%nat -> f0_collide c (s_Z y x) (s_ni y x) (fun i => s (F0 x i)) (f0s x)) /\
    let ys ix := match ix with F0 x i => f0s x i | F10 x i => s (F10 x i) end in
    s_Z y' = s_Z y /\ s_ni y' = s_ni y /\
    if str_eqb (c_solver c) (lit "oshun") then
      let e' := implicit_e tri tab c (s_Z y) (s_ni y) ys (s_e y) in
      let p := push_edfdv tab g e' ys in
      s_e y' = e' /\
      s_f y' = fun ix => match ix with
                         | F0 x i => p (F0 x i)
                         | F10 x i => if wall g x then 0 else collide_edges tri c (s_Z y) (s_ni y) f0s (fun k i => p (F10 k i)) x i
                         end
    else if str_eqb (c_solver c) (lit "ampere") then
      let e' x := s_e y x + d_t g * (1 / 10 ^ 6) * calc_j g (fun i => ys (F10 x i)) in
      let p := push_edfdv tab g e' ys in
      s_e y' = e' /\
      s_f y' = fun ix => match ix with
                         | F0 x i => p (F0 x i)
                         | F10 x i => if wall g x then 0 else collide_edges tri c (s_Z y) (s_ni y) (fun k i => p (F0 k i)) (fun k i => p (F10 k i)) x i
                         end
    else False.
Inductive vfp_run (tri : tri_solver) (tab : tableau) (c : vcfg) : nat -> vstate -> vstate -> Prop :=
| run_0 : forall y, vfp_run tri tab c 0 y y
| run_S : forall n y y1 y2, vfp_step tri tab c y y1 -> vfp_run tri tab c n y1 y2 -> vfp_run tri tab c (S n) y y2.
(** nonlinear_implicit_e_f0_f1_operator (vector_field.py:211-232): numpy broadcasting of the first axes of
    new_f0 (nx rows) and new_e[:, None] / 3 * (ddv_f1 new_f1 + ...) (nx+1 rows); None: the shapes do not broadcast. *)
Definition broadcast (m n : nat) : option nat :=
  if Nat.eqb m n then Some m else if Nat.eqb m 1 then Some n else if Nat.eqb n 1 then Some m else None.
Definition res_f0_rows (g : vgrid) : option nat := broadcast (n_x g) (n_x g + 1).
