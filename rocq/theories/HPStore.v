(** Model of the save functions and the stored coefficients of the 1D Hermite-Poisson module
    (adept/_hermite_poisson_1d/storage.py) and of the times it saves at.

    Simplifications: exact real arithmetic; blocks of cfg["save"] are dictionaries; the netCDF files are not modelled. *)
From Verif Require Export HermitePoisson VGrid HLInit.
From Verif Require Import Pic RSum Dft.
Local Open Scope R_scope.

(** get_fields_save_func (storage.py:27-41): [a] has two boundary cells; [de] only when the state has it. *)
Record hp_state := { q_Ce : coeffs; q_Ci : coeffs; q_e : nat -> R; q_a : nat -> R; q_da : nat -> R; q_de : option (nat -> R) }.
Definition inner_cells (a : nat -> R) (g : nat) : R := a (g + 1)%nat.
Definition fields_saved (y : hp_state) : (nat -> R) * (nat -> R) * (nat -> R) * option (nat -> R) := (q_e y, inner_cells (q_a y), inner_cells (q_da y), q_de y).

(** get_default_save_func (storage.py:56-82). *)
Fixpoint amax (n : nat) (f : nat -> R) : R := match n with O => f 0%nat | S m => Rmax (amax m f) (f (S m)) end.
Fixpoint amin (n : nat) (f : nat -> R) : R := match n with O => f 0%nat | S m => Rmin (amin m f) (f (S m)) end.
(** jnp.max and jnp.min over n > 0 entries. *)
Definition jmax (n : nat) (f : nat -> R) : R := amax (n - 1) f.
Definition jmin (n : nat) (f : nat -> R) : R := amin (n - 1) f.
Record hp_diag := { dg_e : R; dg_a : R; dg_ne_max : R; dg_ne_min : R; dg_ni_max : R; dg_ck : R }.
Definition default_saved (Nn_e nx : nat) (alpha_e alpha_i : R) (y : hp_state) : hp_diag :=
  let n_e := fun g => alpha_e ^ 3 * fst (finv nx (q_Ce y 0%nat) g) in let n_i := fun g => alpha_i ^ 3 * fst (finv nx (q_Ci y 0%nat) g) in
  {| dg_e := rsum nx (fun g => q_e y g ^ 2); dg_a := rsum nx (fun g => inner_cells (q_a y) g ^ 2);
     dg_ne_max := jmax nx n_e; dg_ne_min := jmin nx n_e; dg_ni_max := jmax nx n_i;
     dg_ck := jmax Nn_e (fun n => jmax nx (fun k => cmod (q_Ce y n k))) |}.

(** get_save_quantities (storage.py:90-141). A block: its t entry (an axis given, or tmin, tmax, nt), its func. *)
Inductive func := UserFunc | FieldsFunc | HermiteFunc | DefaultFunc.
Record tbox := { t_ax : option (list R); t_min : option R; t_max : option R; t_nt : option nat }.
Record block := { b_t : option tbox; b_func : option func }.
Definition linspace_list (a b : R) (n : nat) : list R := map (linspace a b n) (seq 0 n).
Definition or_else {A} (o : option A) (d : A) : A := match o with Some x => x | None => d end.
Definition set_ax (tmax : R) (nt : nat) (t : tbox) : tbox :=
  match t_ax t with Some _ => t | None => {| t_ax := Some (linspace_list (or_else (t_min t) 0) (or_else (t_max t) tmax) (or_else (t_nt t) nt)); t_min := t_min t; t_max := t_max t; t_nt := t_nt t |} end.
Definition set_func (key : str) (f : option func) : option func :=
  match f with Some u => Some u | None => if str_eqb key (lit "fields") then Some FieldsFunc else if (str_eqb key (lit "hermite") || str_eqb key (lit "distribution"))%bool then Some HermiteFunc else None end.
Definition prepare (tmax : R) (nt : nat) (e : str * block) : str * block := (fst e, {| b_t := option_map (set_ax tmax nt) (b_t (snd e)); b_func := set_func (fst e) (b_func (snd e)) |}).
Definition whole_run (tmax : R) (nt : nat) : list R := linspace_list 0 tmax nt.
Definition plain (ax : list R) : tbox := {| t_ax := Some ax; t_min := None; t_max := None; t_nt := None |}.
Definition default_block (tmax : R) (nt : nat) (b : option block) : block :=
  {| b_t := match b with
            | Some b => match b_t b with
                        | Some t => match t_ax t with Some _ => Some t | None => Some {| t_ax := Some (whole_run tmax nt); t_min := t_min t; t_max := t_max t; t_nt := t_nt t |} end
                        | None => Some (plain (whole_run tmax nt)) end
            | None => Some (plain (whole_run tmax nt)) end;
     b_func := Some DefaultFunc |}.
Definition save_quantities (tmax : R) (nt : nat) (save : list (str * block)) : list (str * block) :=
  let prepared := map (prepare tmax nt) save in dset (lit "default") (default_block tmax nt (dget (lit "default") prepared)) prepared.
(** The time grid (modules.py:112-125): tmax > 0, dt > 0; int() of a positive quotient is its floor. *)
Definition hp_nt (tmax dt : R) : nat := (Z.to_nat (Int_part (tmax / dt)) + 1)%nat.
Definition hp_tmax (tmax dt : R) : R := dt * INR (hp_nt tmax dt).

(** store_ck_timeseries (storage.py:160-175): the fftshift of the last axis of one saved coefficient array and of
    fftfreq(Nx, 1/Nx). *)
Definition hp_shift (n j : nat) : nat := ((j + (n - n / 2)) mod n)%nat.
Definition stored_ck (nx : nat) (C : coeffs) (n j : nat) : cplx := C n (hp_shift nx j).
Definition stored_ck_kx (nx j : nat) : Z := HermitePoisson.mode nx (hp_shift nx j).
