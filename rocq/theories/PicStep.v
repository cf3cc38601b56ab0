(** Model of one complete PIC-1D step and of what a run saves
    (adept/_pic1d/solvers/vector_field.py:33-128, adept/_pic1d/solvers/pushers/field.py:58-88, adept/_pic1d/storage.py).

    Simplifications: exact real arithmetic; the state dictionary is a record; drivers are values of type
    Drivers.driver; the diffrax loop calls the step with t = 0, dt, 2 dt, ... *)
From Verif Require Export PyStr RSum Pic Wave Drivers.
Local Open Scope R_scope.

(** The state dictionary (modules.py:135-151): x_, v_, w_ of each species by name, and the shared fields. *)
Record pic := { y_sp : list (str * species); y_e : nat -> R; y_de : nat -> R; y_a : nat -> R; y_prev_a : nat -> R; y_da : nat -> R }.
Record pcfg := {
  q_nx : nat; q_dx : R; q_xmin : R; q_xmax : R; q_dt : R; q_shape : shape;
  q_ion : option (nat -> R); q_ex : list Drivers.driver; q_ey : list Drivers.driver;
  q_x : nat -> R; q_xa : nat -> R; q_beta : R; q_time : str }.
(** _Kicker.__init__ as wired by PIC1DVectorField.__init__ (vector_field.py:41-51, push.py:63-74). *)
Definition the_kicker (g : pcfg) : kicker :=
  {| k_nx := q_nx g; k_dx := q_dx g; k_xmin := q_xmin g; k_shape := q_shape g;
     poisson := spectral_poisson (q_nx g) (q_dx g) (q_ion g);
     Pic.driver := fun t i => ex_drive (q_ex g) (q_x g i) t |}.
Definition has_ey (g : pcfg) : bool := match q_ey g with [] => false | _ => true end.
(** c = 1 / beta if beta > 0 else 1 (vector_field.py:67-68). *)
Definition the_c (g : pcfg) : R := if Rlt_dec 0 (q_beta g) then 1 / q_beta g else 1.
(** ElectronChargeDensity (pushers/field.py:60-88): the species called "electron", or zeros. *)
Fixpoint find_sp (n : str) (l : list (str * species)) : option species :=
  match l with [] => None | (m, s) :: t => if str_eqb m n then Some s else find_sp n t end.
Definition electron_charge_density (g : pcfg) (l : list (str * species)) (i : nat) : R :=
  match find_sp (lit "electron") l with
  | None => 0
  | Some s => charge s * deposit (q_shape g) (parts s) (q_nx g) (q_dx g) (q_xmin g) i
  end.
(** The integrators with the self-consistent field they return: that of the last kick (push.py:115-119, 141-155). *)
Definition lf (k : kicker) (xmin xmax dt t : R) (a : option (nat -> R)) (st : list species) : list species * (nat -> R) :=
  let st := kick k (1 / 2 * dt) t a st in
  let st := drift dt xmin xmax st in
  (kick k (1 / 2 * dt) (t + dt) a st, field_sc k st).
Definition y4 (k : kicker) (xmin xmax dt t : R) (a : option (nat -> R)) (st : list species) : list species * (nat -> R) :=
  fold_left (fun r e => lf k xmin xmax (snd e) (t + fst e) a (fst r)) (yoshida_substeps dt) (st, fun _ => 0).
(** The stepper chosen in __init__ (vector_field.py:53-59); None: NotImplementedError. *)
Definition push (g : pcfg) : option (R -> option (nat -> R) -> list species -> list species * (nat -> R)) :=
  if str_eqb (q_time g) (lit "leapfrog") then Some (lf (the_kicker g) (q_xmin g) (q_xmax g) (q_dt g))
  else if str_eqb (q_time g) (lit "yoshida4") then Some (y4 (the_kicker g) (q_xmin g) (q_xmax g) (q_dt g))
  else None.
(** PIC1DVectorField.__call__ (vector_field.py:95-128). *)
Definition relabel (names : list (str * species)) (l : list species) : list (str * species) := combine (map fst names) l.
Definition pic_step (g : pcfg) (t : R) (y : pic) : option pic :=
  match push g with
  | None => None
  | Some stepper =>
      let ne_n := electron_charge_density g (y_sp y) in
      let r := stepper t (if has_ey g then Some (y_a y) else None) (map snd (y_sp y)) in
      let sp := relabel (y_sp y) (fst r) in
      let de := fun i => ex_drive (q_ex g) (q_x g i) (t + q_dt g) in
      let e := snd r in
      if has_ey g then
        let ne_np1 := electron_charge_density g sp in
        let djy := ey_drive (q_nx g + 2) (q_xa g) (the_c g) (q_ey g) (t + q_dt g) in
        let w := wave_step (q_nx g) (the_c g) (q_dx g) (q_dt g) (y_a y) (y_prev_a y) djy (fun i => - (1 / 2) * (ne_n i + ne_np1 i)) in
        Some {| y_sp := sp; y_e := e; y_de := de; y_a := fst w; y_prev_a := snd w; y_da := djy |}
      else Some {| y_sp := sp; y_e := e; y_de := de; y_a := y_a y; y_prev_a := y_prev_a y; y_da := fun _ => 0 |}
  end.
(** The loop of diffeqsolve with the Stepper (modules.py:153-175): n steps from t. *)
Fixpoint pic_run (g : pcfg) (n : nat) (t : R) (y : pic) : option pic :=
  match n with
  | O => Some y
  | S m => match pic_step g t y with Some y' => pic_run g m (t + q_dt g) y' | None => None end
  end.

(** ** storage.py *)
(** _moments_from_particles (storage.py:38-48): deposits of w, w v, w v^2. *)
Definition reweigh (h : R -> R) (p : particle) : particle := {| px := px p; pv := pv p; pw := pw p * h (pv p) |}.
Definition moment (g : pcfg) (h : R -> R) (ps : list particle) (i : nat) : R :=
  deposit (q_shape g) (map (reweigh h) ps) (q_nx g) (q_dx g) (q_xmin g) i.
Definition save_n (g : pcfg) (ps : list particle) : nat -> R := deposit (q_shape g) ps (q_nx g) (q_dx g) (q_xmin g).
Definition save_j (g : pcfg) := moment g (fun v => v).
Definition save_P (g : pcfg) := moment g (fun v => v * v).
(** get_field_save_func (storage.py:51-80): the ponderomotive force saved is that of the kicker. *)
Definition save_pond (g : pcfg) (y : pic) : nat -> R := pond_grid (the_kicker g) (y_a y).
(** get_default_save_func (storage.py:83-103), per species and shared. *)
Definition save_KE (mass : R) (ps : list particle) : R := 1 / 2 * mass * lsum (map (fun p => pw p * pv p * pv p) ps).
Definition save_p (mass : R) (ps : list particle) : R := mass * lsum (map (fun p => pw p * pv p) ps).
Definition save_w (ps : list particle) : R := lsum (map pw ps).
Definition mean_sq (n : nat) (h : nat -> R) : R := rsum n (fun i => h i ^ 2) / INR n.
Definition save_e2 (g : pcfg) (y : pic) : R := mean_sq (q_nx g) (y_e y).
Definition save_de2 (g : pcfg) (y : pic) : R := mean_sq (q_nx g) (y_de y).
Definition save_a2 (g : pcfg) (y : pic) : R := mean_sq (q_nx g) (fun i => y_a y (S i)).

(** get_save_quantities (storage.py:113-128): the save section is a dictionary whose value is either a time axis
    or a dictionary of labels; the result maps each saved key to what is saved under it. *)
Inductive saved := Fields | Dist (species : str) | Scalars.
Definition save_label (sp label : str) : str := sp ++ lit "." ++ label.
Fixpoint save_labels (sp : str) (labels : list str) (d : dict saved) : dict saved :=
  match labels with [] => d | l :: t => save_labels sp t (dset (save_label sp l) (Dist sp) d) end.
Fixpoint save_keys (names : list str) (cfg : list (str * list str)) (d : dict saved) : option (dict saved) :=
  match cfg with
  | [] => Some d
  | (k, labels) :: t =>
      if is_prefix (lit "fields") k then save_keys names t (dset k Fields d)
      else if existsb (str_eqb k) names then save_keys names t (save_labels k labels d)
      else None
  end.
Definition save_quantities (names : list str) (cfg : list (str * list str)) : option (dict saved) :=
  match save_keys names cfg [] with Some d => Some (dset (lit "default") Scalars d) | None => None end.

(** The directory a scalar is plotted in (helpers.py:330-336): the first species whose name ends the scalar's name. *)
Fixpoint scalar_dir (names : list str) (nm : str) : option str :=
  match names with [] => None | sp :: t => if ends_with (lit "_" ++ sp) nm then Some sp else scalar_dir t nm end.
