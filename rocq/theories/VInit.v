(** Model of the initial conditions of Vlasov-1D: density components, species, initial distributions, the static
    background and the state dictionary (adept/_vlasov1d/simulation.py, helpers.py, modules.py).

    Simplifications: exact real arithmetic; configuration values are already parsed and normalised; the random
    draws of a noise profile are a parameter of the component (one value per cell); the factor
    alpha = sqrt(3 Gamma(3/m) / Gamma(5/m)) is a parameter of the component. *)
From Verif Require Export PyStr DriftDiff RSum Pic VGrid Vlasov.
Local Open Scope R_scope.

(** NoiseProfile.__call__ (functions.py:210-218). [draws] are the values returned by jax.random: uniform draws lie
    in [-noise_val, noise_val), normal draws are multiplied by noise_val; any other type gives zeros. *)
Inductive noise := NUniform (val : R) (draws : nat -> R) | NGaussian (val : R) (draws : nat -> R) | NNone.
Definition noise_call (z : noise) (i : nat) : R :=
  match z with NUniform _ u => u i | NGaussian val u => u i * val | NNone => 0 end.
(** What jax.random.uniform guarantees. *)
Definition noise_drawn (z : noise) : Prop :=
  match z with NUniform val u => forall i, - val <= u i <= val | _ => True end.

(** SubspeciesDensityProfile.from_config (simulation.py:221-268): the accepted bases. *)
Inductive basis :=
| BUniform (baseline : option R)
| BTanh (env : envelope)
| BLinear (center L val : R) (env : envelope)
| BExponential (center L val : R) (env : envelope)
| BSine (baseline amplitude wavenumber : R).
(** SubspeciesDensityProfile.__call__ before the noise (simulation.py:213-218). *)
Definition basis_call (b : basis) (x : R) : R :=
  match b with
  | BUniform o => uniform_call (match o with Some v => v | None => 1 end) x
  | BTanh env => env_call env x * uniform_call 1 x
  | BLinear c L v env => env_call env x * linear_call c L v x
  | BExponential c L v env => env_call env x * exponential_call c L v x
  | BSine bl a k => sine_call bl a k x
  end.
(** SubspeciesDistributionSpec (simulation.py:270-288). *)
Record component := { c_basis : basis; c_noise : noise; c_v0 : R; c_T0 : R; c_order : R; c_alpha : R }.
(** SubspeciesDensityProfile.__call__ (simulation.py:213-218): the value in cell i at position x. *)
Definition component_density (c : component) (x : nat -> R) (i : nat) : R :=
  basis_call (c_basis c) (x i) * (1 + noise_call (c_noise c) i).

(** _initialize_supergaussian_distribution_ (helpers.py:62-94); np.power(np.abs(.), m) is abs_pow. *)
Definition shape_call (s : species) (c : component) (j : nat) : R :=
  exp (- abs_pow ((sp_v s j - c_v0 c) / (c_alpha c * sqrt (c_T0 c / sp_m s))) (c_order c)).
Definition init_component (nx : nat) (s : species) (c : component) (n_prof : profile) : dist :=
  fun i j =>
    let f := shape_call s c j / rsum (sp_nv s) (shape_call s c) / sp_dv s in
    if (1 <? nx)%nat then n_prof i * f else f.

(** _initialize_total_distribution_ for one species (helpers.py:122-152). *)
Definition init_density (x : nat -> R) (cs : list component) : profile :=
  fold_left (fun n c => fun i => n i + component_density c x i) cs (fun _ => 0).
Definition init_dist (nx : nat) (x : nat -> R) (s : species) (cs : list component) : dist :=
  fold_left (fun f c => fun i j => f i j + init_component nx s c (component_density c x) i j) cs (fun _ _ => 0).

(** A species entry of terms.species: its name, its parameters and its components in order (simulation.py:171-201). *)
Record sp_entry := { en_name : str; en_sp : species; en_comps : list component }.

(** sim_from_config builds species_distributions as a dictionary by name (modules.py:70-76), species_dict likewise
    (simulation.py:317-319): for a repeated name both keep the last entry. *)
Definition last_entry (l : list sp_entry) (n : str) : option sp_entry :=
  dget n (fold_left (fun d e => dset (en_name e) e d) l []).
(** _initialize_total_distribution_ (helpers.py:97-157): a dictionary name -> (n_prof, f). The species parameters are
    those of the entry in the list, the components those of the dictionary. [None]: ValueError, no component. *)
Definition init_total (nx : nat) (x : nat -> R) (l : list sp_entry) : option (dict (species * profile * dist)) :=
  let comps e := match last_entry l (en_name e) with Some e' => en_comps e' | None => [] end in
  let d := fold_left (fun d e => dset (en_name e) (en_sp e, init_density x (comps e), init_dist nx x (en_sp e) (comps e)) d) l [] in
  if existsb (fun e => match comps e with [] => false | _ => true end) l then Some d else None.

(** get_solver_quantities (modules.py:209-270): n_prof_total and ion_charge. *)
Definition n_prof_total (d : dict (species * profile * dist)) : profile :=
  fold_left (fun n p => fun i => n i + snd (fst (snd p)) i) d (fun _ => 0).
Definition ion_charge (l : list sp_entry) (d : dict (species * profile * dist)) : profile :=
  if (1 <? List.length l)%nat then fun _ => 0 else n_prof_total d.
Definition fdict_of (d : dict (species * profile * dist)) : fdict := map (fun p => (fst (fst (snd p)), snd (snd p))) d.

(** species_set_from_config (modules.py:24-45): explicit species, or one electron species made of every density
    component whose name starts with "species-". [None]: ValueError. *)
Definition starts_with (p s : str) : bool := is_prefix p s.
Definition species_set (explicit : option (list sp_entry)) (electron : species) (density : list (str * component)) : option (list sp_entry) :=
  let legacy :=
    match filter (fun kc => starts_with (lit "species-") (fst kc)) density with
    | [] => None
    | cs => Some [{| en_name := lit "electron"; en_sp := electron; en_comps := map snd cs |}]
    end in
  match explicit with Some (e :: l) => Some (e :: l) | _ => legacy end.

(** The state dictionary of init_state_and_args (modules.py:280-318). *)
Inductive entry := EDist (f : dist) | EField (n : nat) (a : profile).
Definition init_state (nx : nat) (d : dict (species * profile * dist)) : dict entry :=
  let st := fold_left (fun st p => dset (fst p) (EDist (snd (snd p))) st) d [] in
  let st := fold_left (fun st k => dset k (EField nx (fun _ => 0)) st) [lit "e"; lit "de"] st in
  fold_left (fun st k => dset k (EField (nx + 2) (fun _ => 0)) st) [lit "a"; lit "da"; lit "prev_a"] st.
