(** Model of the scalar results of an OSIRIS run: the metrics of adept/osiris/post.py, the energies of
    adept/osiris/plots.py:394-480 and 1843-1865 that feed them, and the derived quantities of adept/osiris/base.py:50-162.

    Simplifications: exact real arithmetic; directories are listings with the contents of their dumps; a value that is not a
    number (NaN) is [None]; a file that cannot be read is not modelled except where an exception is caught. *)
From Coq Require Export Reals ZArith List Bool.
From Verif Require Export PyStr OsIO Drivers.
From Verif Require Import RSum.
Export ListNotations.
Local Open Scope R_scope.

(** * Field energy (post.py) *)
(** What one dump holds: the values of its dataset ([None]: no dataset of that name and not exactly one other), and the
    SIMULATION attributes XMIN, XMAX, NX. *)
Record h5 := { h_vals : option (list R); h_xmin : list R; h_xmax : list R; h_nx : list nat }.
Definition sumsq (l : list R) : R := fold_right (fun a r => a * a + r) 0 l.
(** dvol (post.py:77-84); [NDIMS] is the length of NX. *)
Definition dvol (h : h5) : R := fold_left (fun v d => v * ((nth d (h_xmax h) 0 - nth d (h_xmin h) 0) / INR (nth d (h_nx h) 1%nat))) (seq 0 (length (h_nx h))) 1.
(** _field_energy_from_dump (post.py:57-85). *)
Definition dump_energy (h : h5) : option R := match h_vals h with Some l => Some (1 / 2 * sumsq l * dvol h) | None => None end.

(** _iter_h5_files, _latest_h5 (post.py:25-40): the first file of greatest iteration, -1 when there is none in the name. *)
Definition h5_files (l : list (str * (bool * h5))) : list (str * h5) := map (fun e => (fst e, snd (snd e))) (filter (fun e => fst (snd e) && h5_suffix (fst e))%bool l).
Definition later (best : option (str * h5)) (e : str * h5) : option (str * h5) :=
  match best with None => Some e | Some b => if (iter_from_name (fst b) <? iter_from_name (fst e))%Z then Some e else best end.
Definition latest (l : list (str * (bool * h5))) : option (str * h5) := fold_left later (h5_files l) None.

(** _is_field_component_dir (post.py:43-54). *)
Definition components : list str := map lit ["e1"; "e2"; "e3"; "b1"; "b2"; "b3"]%string.
Definition before_dash (s : str) : str := fst (span (fun c => negb (aeqb c "-")) s).
Definition is_component (name : str) : bool :=
  (existsb (str_eqb (before_dash name)) components && negb (contains (lit "line") name) && negb (contains (lit "slice") name))%bool.

(** _total_field_energy (post.py:88-109): the entries of MS/FLD with (name, (is a directory, files)); [None] on the left:
    no MS/FLD. *)
Definition fdir := (str * (bool * list (str * (bool * h5))))%type.
Definition dir_energy (d : fdir) : option R :=
  if (fst (snd d) && is_component (fst d))%bool then match latest (snd (snd d)) with Some e => dump_energy (snd e) | None => None end else None.
Definition add_found (acc : option R) (e : option R) : option R :=
  match e with None => acc | Some x => Some (match acc with Some a => a | None => 0 end + x) end.
Definition total_field_energy (fld : option (list fdir)) : option R :=
  match fld with None => None | Some ds => fold_left (fun acc d => add_found acc (dir_energy d)) ds None end.

(** _final_iter (post.py:112-129): the names of the .h5 files below MS/FLD and below MS ([None]: no such directory). *)
Definition best_iter (names : list str) : Z := fold_left (fun b n => match split_dump n with Some (_, ds) => Z.max b (Z.of_N (digits_to_n ds)) | None => b end) names (-1)%Z.
Definition final_iter (fld ms : option (list str)) : Z :=
  let b := match fld with Some l => best_iter l | None => (-1)%Z end in
  if (0 <=? b)%Z then b else match ms with Some l => best_iter l | None => (-1)%Z end.

(** _total_field_energy_nc (post.py:132-160): (stem, the values of the last slice and the coordinates of each dimension;
    [None]: it cannot be read). *)
Definition nc_cell (coords : list (list R)) : R := fold_left (fun v c => match c with a :: b :: _ => v * (b - a) | _ => v end) coords 1.
Definition nc_energy (d : str * option (list R * list (list R))) : option R :=
  if is_component (fst d) then match snd d with Some (vals, coords) => Some (1 / 2 * sumsq vals * nc_cell coords) | None => None end else None.
Definition total_field_energy_nc (fld : option (list (str * option (list R * list (list R))))) : option R :=
  match fld with None => None | Some ds => fold_left (fun acc d => add_found acc (nc_energy d)) ds None end.

(** * The energies of the plots (plots.py) *)
(** _resolve_fld_diag (plots.py:394-410): the leaves of the FLD diagnostics in sorted order. *)
Definition resolve (leaves : list str) (comp : str) : option str :=
  if existsb (str_eqb comp) leaves then Some comp
  else find (fun leaf => str_eqb (before_dash leaf) comp && negb (contains (lit "line") leaf) && negb (contains (lit "slice") leaf))%bool leaves.
(** field_energy_components (plots.py:413-480): a diagnostic is its list of (iteration, energy), the energy being that of
    _field_energy_from_series; the result is E_energy and B_energy at every iteration, in order. *)
Definition series := list (Z * R).
Definition comp_at (s : option series) (i : Z) : R := match s with None => 0 | Some l => fold_right (fun p r => (if (fst p =? i)%Z then snd p else 0) + r) 0 l end.
Definition loaded (diags : list (str * series)) (comp : str) : option series :=
  match resolve (map fst diags) comp with Some leaf => dget leaf diags | None => None end.
Definition e_energy (diags : list (str * series)) (i : Z) : R := comp_at (loaded diags (lit "e1")) i + comp_at (loaded diags (lit "e2")) i + comp_at (loaded diags (lit "e3")) i.
Definition b_energy (diags : list (str * series)) (i : Z) : R := comp_at (loaded diags (lit "b1")) i + comp_at (loaded diags (lit "b2")) i + comp_at (loaded diags (lit "b3")) i.
Definition all_iters (diags : list (str * series)) : list Z := flat_map (fun c => match loaded diags c with Some l => map fst l | None => [] end) components.
(** values[-1] of the two (post.py:216-218); [None]: the RuntimeError. *)
Definition last_iter (diags : list (str * series)) : option Z := match all_iters diags with [] => None | i :: l => Some (fold_left Z.max l i) end.
Definition eb_final (diags : list (str * series)) : option (R * R) := match last_iter diags with None => None | Some i => Some (e_energy diags i, b_energy diags i) end.

(** * Derived quantities (base.py) *)
(** _first_array_value (base.py:217-225); a deck value is a list of numbers already, a scalar being one element. *)
Definition first_array (params : list (str * list R)) (key : str) : option (list R) :=
  option_map snd (find (fun p => str_eqb (fst p) key || is_prefix (key ++ lit "(") (fst p))%bool params).
(** _infer_dim (base.py:227-234). *)
Definition infer_dim (grid : list (str * list R)) : option nat := option_map (fun p => length (snd p)) (find (fun p => is_prefix (lit "nx_p") (fst p)) grid).
(** get_derived_quantities (base.py:128-154): dx, cfl_ratio, num_steps; the outer [None]: an IndexError. *)
Fixpoint diffs (xmin xmax nx : list R) {struct nx} : option (list R) :=
  match nx with
  | [] => Some []
  | n :: nx' => match xmin, xmax with a :: xmin', b :: xmax' => option_map (cons ((b - a) / n)) (diffs xmin' xmax' nx') | _, _ => None end
  end.
Fixpoint min_of (a : R) (l : list R) : R := match l with [] => a | b :: l' => min_of (Rmin a b) l' end.
Record derived := { dv_dx : option (list R); dv_cfl : option R; dv_steps : option Z }.
(** int() of a real number: towards zero. *)
Definition py_int (x : R) : Z := if Rle_dec 0 x then Int_part x else (- Int_part (- x))%Z.
Definition steps_of (dt tmax : option R) : option Z := match dt, tmax with Some d, Some T => if Req_EM_T d 0 then None else Some (py_int (T / d)) | _, _ => None end.
Definition get_derived (grid space : list (str * list R)) (dt tmax : option R) : option derived :=
  match first_array grid (lit "nx_p"), first_array space (lit "xmin"), first_array space (lit "xmax") with
  | Some (n :: nx), Some xmin, Some xmax =>
      match diffs xmin xmax (n :: nx) with
      | Some (d :: dx) => Some {| dv_dx := Some (d :: dx); dv_cfl := match dt with Some t => Some (t / min_of d dx) | None => None end; dv_steps := steps_of dt tmax |}
      | _ => None
      end
  | _, _, _ => Some {| dv_dx := None; dv_cfl := None; dv_steps := steps_of dt tmax |}
  end.

(** write_units (base.py:50-126): the reference of the simulation section, and the quantities with a dimension. *)
Definition osiris_reference (k : constants) (n0 omega_p0 : option R) : option norm :=
  match n0, omega_p0 with Some n, _ => Some (skin_depth k n) | None, Some w => Some (skin_depth_from_frequency k w) | None, None => None end.
Definition box_length (u : norm) (xmin xmax : list R) : R := (hd 0 xmax - hd 0 xmin) * n_L0 u.
Definition sim_duration (u : norm) (tmin : option R) (tmax : R) : R := (tmax - match tmin with Some t => t | None => 0 end) * n_tau u.
(** The laser: w_laser, laser_wavelength, laser_intensity (base.py:112-121), and the first of the three sections that gives
    both a0 and omega0. *)
Definition w_laser (u : norm) (omega0 : R) : R := omega0 / n_tau u.
Definition laser_wavelength (k : constants) (u : norm) (omega0 : R) : R := 2 * PI * k_c k / w_laser u omega0.
Definition e_peak (k : constants) (u : norm) (a0 omega0 : R) : R := a0 * w_laser u omega0 * k_me k * k_c k / k_e k.
Definition laser_intensity (k : constants) (u : norm) (a0 omega0 : R) : R := e_peak k u a0 omega0 ^ 2 * k_eps0 k * k_c k / 2.
Definition laser_section (sections : list (str * (option R * option R))) : option (R * R) :=
  fold_right (fun name r => match find (fun s => str_eqb (fst s) name) sections with Some (_, (Some a, Some w)) => Some (a, w) | _ => r end) None
    (map lit ["antenna"; "zpulse_speckle"; "zpulse"]%string).
