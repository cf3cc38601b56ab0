(** Model of the VFP-2D configuration, initial state and collision step: adept/vfp2d/grid.py, adept/vfp2d/distributed.py,
    adept/vfp2d/collisions.py and adept/vfp2d/base.py:51-260, 342-500.

    Simplifications: exact arithmetic; lengths, times and densities are the numbers [normalize] returns; profile basis "file" is not
    modelled; Euler's gamma function is an arbitrary argument (Vfp1d's initial distribution, VfpInit.v); the tridiagonal solver is an
    arbitrary function of the system (VfpInit.v), applied to the real and imaginary part of a mode; the self-consistent inverse temperature
    of the isotropic model is an arbitrary function of the distribution. *)
From Coq Require Import Reals ZArith List Bool Lia.
From Verif Require Import PyStr RSum Pic VGrid DriftDiff Vfp VfpInit Harm2d Dft Vfp2d.
Import ListNotations.
Local Open Scope R_scope.

(** * Grid.__init__ (grid.py:32-79); [make_grid] None is a ValueError *)
Record gcfg := { gc_xmin : R; gc_xmax : R; gc_nx : Z; gc_ymin : R; gc_ymax : R; gc_ny : Z; gc_vmax : R; gc_nv : Z; gc_dt : R; gc_lmax : Z; gc_mmax : option Z }.
Definition rleb (a b : R) : bool := if Rle_dec a b then true else false.
Record g2d := { gr_nx : nat; gr_ny : nat; gr_nv : nat; gr_dx : R; gr_dy : R; gr_dv : R; gr_x : nat -> R; gr_y : nat -> R; gr_v : nat -> R; gr_L : nat; gr_M : nat }.
Definition make_grid (c : gcfg) : option g2d :=
  if ((gc_nx c <? 1) || (gc_ny c <? 1) || (gc_nv c <? 2))%Z%bool then None else
  if (rleb (gc_xmax c) (gc_xmin c) || rleb (gc_ymax c) (gc_ymin c) || rleb (gc_vmax c) 0 || rleb (gc_dt c) 0)%bool then None else
  let m := match gc_mmax c with None => gc_lmax c | Some m => m end in
  if negb ((0 <=? m) && (m <=? gc_lmax c))%Z%bool then None else
  let nx := Z.to_nat (gc_nx c) in let ny := Z.to_nat (gc_ny c) in let nv := Z.to_nat (gc_nv c) in
  let dx := (gc_xmax c - gc_xmin c) / IZR (gc_nx c) in let dy := (gc_ymax c - gc_ymin c) / IZR (gc_ny c) in let dv := gc_vmax c / IZR (gc_nv c) in
  Some {| gr_nx := nx; gr_ny := ny; gr_nv := nv; gr_dx := dx; gr_dy := dy; gr_dv := dv;
          gr_x := linspace (gc_xmin c + dx / 2) (gc_xmax c - dx / 2) nx; gr_y := linspace (gc_ymin c + dy / 2) (gc_ymax c - dy / 2) ny;
          gr_v := linspace (dv / 2) (gc_vmax c - dv / 2) nv; gr_L := Z.to_nat (gc_lmax c); gr_M := Z.to_nat m |}.
(** Time (base.py:139-143): nt = ceil((tmax - tmin) / dt). *)
Definition ceil (x : R) : Z := (- floor (- x))%Z.
Definition nt2 (tmin requested dt : R) : Z := ceil ((requested - tmin) / dt).
Definition tmax2 (tmin requested dt : R) : R := tmin + IZR (nt2 tmin requested dt) * dt.
Definition max_steps2 (tmin requested dt : R) : Z := (nt2 tmin requested dt + 4)%Z.

(** * create_spatial_sharding (distributed.py:40-60): Some None = no mesh, Some (Some p) = a mesh of p devices, None = ValueError *)
Definition make_sharding (enabled : bool) (axis : str) (devices : nat) (nx : nat) : option (option nat) :=
  if negb enabled then Some None else
  if negb (str_eqb axis (lit "x")) then None else
  if (devices =? 0)%nat then None else
  if negb (nx mod devices =? 0)%nat then None else Some (Some devices).
(** shard_map over x (collisions.py:118-143): device r applies [local] to its own block and the blocks are put back together. *)
Definition shard_x {A B : Type} (p n : nat) (local : (nat -> A) -> nat -> B) (f : nat -> A) (x : nat) : B :=
  let nloc := (n / p)%nat in let r := (x / nloc)%nat in local (fun i => f (r * nloc + i)%nat) (x mod nloc)%nat.

(** * Profiles (base.py:51-109); None is NotImplementedError *)
Inductive prof1 :=
| PUniform (baseline : R) | PSine (baseline amplitude wavelength : R) | PCosine (baseline amplitude wavelength : R)
| PTanh (baseline height center width rise : R) (kind : str) | POther.
Definition profile_1d (p : prof1) (axis : nat -> R) : option (nat -> R) :=
  match p with
  | PUniform b => Some (fun _ => b)
  | PSine b a w => Some (fun i => b * (1 + a * sin (2 * PI * axis i / w)))
  | PCosine b a w => Some (fun i => b * (1 + a * cos (2 * PI * axis i / w)))
  | PTanh b h c w r k => Some (fun i =>
      let left := c - 1 / 2 * w in let right := c + 1 / 2 * w in
      let env := 1 / 2 * (tanh ((axis i - left) / r) - tanh ((axis i - right) / r)) in
      let env := if str_eqb k (lit "trough") then 1 - env else env in
      b + h * env)
  | POther => None
  end.
Inductive prof2 :=
| GaussianSpots (amplitude x_center x_radius y_radius : R) (y_centers : list R)
| Separable (px py : option prof1)     (* "x" in profile or "y" in profile; a missing one is uniform 1 *)
| OneAxis (axis : str) (p : prof1).
Definition opt_prof (o : option prof1) : prof1 := match o with Some p => p | None => PUniform 1 end.
Definition profile_2d (p : prof2) (gx gy : nat -> R) : option (nat -> nat -> R) :=
  match p with
  | GaussianSpots a xc xr yr ycs => Some (fun i j => a * exp (- ((gx i - xc) / xr) ^ 2) * lsum (map (fun yc => exp (- ((gy j - yc) / yr) ^ 2)) ycs))
  | Separable px py => match profile_1d (opt_prof px) gx, profile_1d (opt_prof py) gy with Some fx, Some fy => Some (fun i j => fx i * fy j) | _, _ => None end
  | OneAxis ax q => if str_eqb ax (lit "y") then match profile_1d q gy with Some f => Some (fun _ j => f j) | None => None end
                    else match profile_1d q gx with Some f => Some (fun i _ => f i) | None => None end
  end.

(** * Initial state (base.py:193-249) *)
Record spec2 := { sq_m : R; sq_n : nat -> nat -> R; sq_T : nat -> nat -> R }.
(** The velocity grid handed to _initialize_distribution_ depends on nv and vmax only. *)
Definition v_only (nv : nat) (vmax : R) : vgrid := {| n_x := 1; n_v := nv; x_min := 0; x_max := 1; v_max := vmax; d_t := 1; bnd := lit "periodic"; geom := lit "cartesian" |}.
(** The two shapes of a species at one cell; [rel] = Some theta0: relativistic Maxwell-Juttner normalised on the grid. *)
Definition mj (nv : nat) (dv : R) (v : nat -> R) (theta n : R) (j : nat) : R :=
  let w := fun j => exp (- (sqrt (1 + v j ^ 2) - 1) / theta) in
  n * w j / (4 * PI * rsum nv (fun i => w i * v i ^ 2) * dv).
Definition cell_f0 (gam : R -> R) (rel : option R) (g : g2d) (vmax vth m n T : R) (j : nat) : R :=
  match rel with
  | Some theta0 => mj (gr_nv g) (gr_dv g) (gr_v g) (theta0 * T) n j
  | None => sg_dist gam (v_only (gr_nv g) vmax) vth m (fun _ => n) (fun _ => T) 0 j
  end.
Definition is_species {A} (p : str * A) : bool := is_prefix (lit "species-") (fst p).
(** The accumulated isotropic part and density profile (lines 194-228), both scaled by n_ref / n0 (lines 230-234). *)
Definition f00_init (gam : R -> R) (rel : option R) (g : g2d) (vmax vth ratio : R) (l : list (str * spec2)) (x y j : nat) : R :=
  ratio * lsum (map (fun p => cell_f0 gam rel g vmax vth (sq_m (snd p)) (sq_n (snd p) x y) (sq_T (snd p) x y) j) (filter is_species l)).
Definition n_init (ratio : R) (l : list (str * spec2)) (x y : nat) : R := ratio * lsum (map (fun p => sq_n (snd p) x y) (filter is_species l)).
Definition flm_init (L M : nat) (f00 : nat -> nat -> nat -> R) : dst := fun x y i j => if (Z.of_nat i =? index L M 0 0)%Z then (f00 x y j, 0) else c0.
Definition mean2 (nx ny : nat) (a : nat -> nat -> R) : R := rsum nx (fun x => rsum ny (fun y => a x y)) / (INR nx * INR ny).
Record init2 := { i_f : dst; i_e : vfld; i_b : vfld; i_ne : nat -> nat -> R; i_Z : nat -> nat -> R; i_ni : nat -> nat -> R }.
Definition init_2d (gam : R -> R) (rel : option R) (g : g2d) (vmax vth ratio zref : R) (quasineutral : bool) (l : list (str * spec2)) : option init2 :=
  if negb (existsb is_species l) then None else
  let f := flm_init (gr_L g) (gr_M g) (f00_init gam rel g vmax vth ratio l) in
  let n := n_init ratio l in
  let ion := if quasineutral then n else (fun _ _ => mean2 (gr_nx g) (gr_ny g) n) in
  let rho := fun x y => ion x y - density2 (gr_L g) (gr_M g) (gr_nv g) (gr_v g) (gr_dv g) (f x y) in
  Some {| i_f := f; i_e := poisson2 (gr_nx g) (gr_ny g) (gr_dx g) (gr_dy g) rho; i_b := fun _ _ => (0, 0, 0); i_ne := n; i_Z := fun _ _ => 1; i_ni := fun x y => n x y / zref |}.

(** * Collisions (collisions.py) *)
(** AnisotropicCollisions.__init__, __call__ at one cell (lines 24-47): None is the ValueError. The solve uses the isotropic part of its
    input. *)
Definition aniso (tri : tri_solver) (g : vgrid) (c : flm) (L M : nat) (Z ni dt : R) (f : nat -> nat -> cplx) : option (nat -> nat -> cplx) :=
  if (flm_nl c <? L)%nat then None else
  let f0 := re_mode L M f 0 0 in
  Some (fun i j => let l := fst (nth i (pairs L M) (0%nat, 0%nat)) in
    if (l =? 0)%nat then f i j
    else (flm_solve tri g c l Z ni f0 (fun j => fst (f i j)) dt true j, flm_solve tri g c l Z ni f0 (fun j => snd (f i j)) dt true j)).
(** F0Collisions (vfp1d/fokker_planck.py:305-374) with the heating arrays of one cell; absent ones are zero. *)
Record iso := { is_grid : vgrid; is_model : vmodel; is_scheme : scheme_name; is_beta : (nat -> R) -> R; is_nuee : R }.
Definition iso_collide (o : iso) (dt D0 vosc2 ratio : R) (f f' : nat -> R) : Prop :=
  implicit_step (n_v (is_grid o))
    (get_operator (scheme_of (is_scheme o) f) (n_v (is_grid o)) (d_v (is_grid o)) (model_C (is_model o) (is_grid o) f)
       (heated_D (v_at (is_grid o)) (model_D (is_model o) (is_grid o) (is_beta o f) f) D0 vosc2 ratio) (spherical_nu (is_nuee o) (v_at (is_grid o))) dt) f f'.
(** CollisionStep._local_step at one cell (lines 68-95): the new f00 solves the isotropic system (if there is one) and is written as a real
    number, then the anisotropic solve uses it. *)
Definition heat_ok (ib ratio : option R) : bool := match ib, ratio with Some _, None => false | _, _ => true end.
Definition oget (o : option R) : R := match o with Some z => z | None => 0 end.
Definition collide_cell (tri : tri_solver) (isot : option iso) (an : option flm) (g : vgrid) (L M : nat) (Z ni dt : R) (D0 ib ratio : option R) (f f' : nat -> nat -> cplx) : Prop :=
  exists h, (match isot with
             | None => h = f
             | Some o => heat_ok ib ratio = true /\ exists f00, iso_collide o dt (oget D0) (match ib with Some v => v | None => 0 end) (match ib with Some _ => oget ratio | None => 0 end) (re_mode L M f 0 0) f00 /\
                 h = fun i j => if (Z.of_nat i =? index L M 0 0)%Z then (f00 j, 0) else f i j
             end) /\
            match an with None => f' = h | Some c => aniso tri g c L M Z ni dt h = Some f' end.

(** * Which solver is built (base.py:145-147, 318-328, 369-462) *)
Inductive field_cfg := FieldStr (mode : str) | FieldDict (mode : option str).
Definition field_mode (c : field_cfg) : str := match c with FieldStr m => m | FieldDict (Some m) => m | FieldDict None => lit "maxwell" end.
Inductive built := Maxwell2 (collisions : bool) | Ohm2 (collisions positivity : bool) (filter : option (list str)) | NotImpl | BadValue.
(** [fp]: fokker_planck.active (default true); [hl]: hou_li_filter.is_on with its dimensions (already a set). *)
Definition build (mode : str) (fp relativistic : bool) (positivity : str) (hl : option (list str)) : built :=
  if fp && relativistic then NotImpl else
  if str_eqb mode (lit "maxwell") then Maxwell2 fp else
  if str_eqb mode (lit "kinetic-ohm") then
    match hl with
    | Some dims => if negb (match dims with [] => false | _ => true end) || negb (forallb (fun d => str_eqb d (lit "x") || str_eqb d (lit "y")) dims) then BadValue
                   else Ohm2 fp (str_eqb positivity (lit "conservative")) (Some dims)
    | None => Ohm2 fp (str_eqb positivity (lit "conservative")) None
    end
  else BadValue.
(** Save times (base.py:463-467). *)
Definition save_times (tmin tmax : R) (nt : nat) (i : nat) : R := linspace tmin tmax nt i.
