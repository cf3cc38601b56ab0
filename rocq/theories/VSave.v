(** Model of what a Vlasov-1D and a Vlasov-1D2V run saves (adept/_vlasov1d/storage.py, adept/_vlasov1d2v/storage.py): the
    table of saves made from the configuration, the sample axes, the moments and scalars, the interpolated distributions and
    the split of the transverse field.

    Simplifications: exact real arithmetic (0 log 0 is 0 here and NaN in the program; a quotient by a zero density is 0
    here); diffrax only calls the functions below at the save times, and netCDF stores what they return. *)
From Verif Require Export VStep2v.
Local Open Scope R_scope.

(* ------------------------------------------------------------------------------------------------ *)
(** * Axes and interpolation *)
(** _add_dim_axes (_vlasov1d/storage.py:203-219): cell centres for x, end points included otherwise. *)
Definition save_axis (is_x : bool) (lo hi : R) (n k : nat) : R :=
  let d := if is_x then (hi - lo) / INR n else 0 in linspace (lo + d / 2) (hi - d / 2) n k.
(** interpax.interp2d, method "linear": on each axis the interval of searchsorted (side right, clipped to 1 .. n-1) and the
    two weights; outside of the points not a number ([None]) unless extrap, where the edge interval is prolonged. *)
Definition bin (n : nat) (x : nat -> R) (q : R) : nat :=
  Nat.min (Nat.max (List.length (filter (fun i => if Rle_dec (x i) q then true else false) (seq 0 n))) 1) (n - 1).
Definition lin_weights (extrap : bool) (n : nat) (x : nat -> R) (q : R) : option (nat * R * R) :=
  let i := bin n x q in let h := x i - x (i - 1)%nat in
  let w := Some (i, (x i - q) / h, (q - x (i - 1)%nat) / h) in
  if extrap then w else if Rlt_dec q (x 0%nat) then None else if Rlt_dec (x (n - 1)%nat) q then None else w.
Definition sample2 (extrap : bool) (nx ny : nat) (x y : nat -> R) (f : nat -> nat -> R) (p q : R) : option R :=
  match lin_weights extrap nx x p, lin_weights extrap ny y q with
  | Some (i, u0, u1), Some (j, v0, v1) =>
      Some (u0 * (v0 * f (i - 1)%nat (j - 1)%nat + v1 * f (i - 1)%nat j) + u1 * (v0 * f i (j - 1)%nat + v1 * f i j))
  | _, _ => None
  end.
(** What one distribution save returns (get_dist_save_func, _vlasov1d/storage.py:165-200; get_dist_save_func_2v,
    _vlasov1d2v/storage.py:79-108): everything, samples on (x, v), or samples of |rfft| over x on (kx, v). The kx axis
    given to interp2d is the one of fftfreq, with nx entries (grid.py:77, storage.py:259), while rfft gives nx / 2 + 1
    rows: interp2d raises ([None]) when the two lengths differ. *)
Inductive dsave := DWhole | DSampled (xs vs : nat -> R) | DSpectrum (ks vs : nat -> R).
Definition dist_saved (nx : nat) (x : nat -> R) (kx : nat -> R) (s : species) (d : dsave) (f : dist) (a b : nat) : option R :=
  match d with
  | DWhole => Some (f a b)
  | DSampled xs vs => sample2 false nx (sp_nv s) x (sp_v s) f (xs a) (vs b)
  | DSpectrum ks vs => if (nx =? nx / 2 + 1)%nat then sample2 false nx (sp_nv s) kx (sp_v s) (fun k j => sqrt (cabs2 (fft nx (fun i => f i j) k))) (ks a) (vs b) else None
  end.
(** The 1D2V version with axes x and v: the marginal, extrapolated outside of the points. *)
Definition dist_saved2 (h : setup2) (nx : nat) (x : nat -> R) (s : species) (xs vs : nat -> R) (f : dist3) (a b : nat) : option R :=
  sample2 true nx (sp_nv s) x (sp_v s) (marginal h f) (xs a) (vs b).

(* ------------------------------------------------------------------------------------------------ *)
(** * Moments and scalars *)
(** _calc_moment_ and the moments of one species (_vlasov1d/storage.py:130-146). *)
Definition mom (s : species) (g : nat -> nat -> R) (i : nat) : R := rsum (sp_nv s) (g i) * sp_dv s.
Definition sv_n (s : species) (f : dist) : profile := mom s f.
Definition sv_j (s : species) (f : dist) : profile := mom s (fun i j => f i j * sp_v s j).
Definition sv_v (s : species) (f : dist) : profile := fun i => sv_j s f i / sv_n s f i.
Definition sv_p (s : species) (f : dist) : profile := mom s (fun i j => f i j * (sp_v s j - sv_v s f i) ^ 2).
Definition sv_q (s : species) (f : dist) : profile := mom s (fun i j => f i j * (sp_v s j - sv_v s f i) ^ 3).
Definition sv_flogf (s : species) (f : dist) : profile := mom s (fun i j => - Rabs (f i j) * ln (Rabs (f i j))).
Definition sv_f2 (s : species) (f : dist) : profile := mom s (fun i j => f i j * f i j).
(** The three moments of _vlasov1d2v/storage.py:61-64 that are not those of the marginal. *)
Definition mom2 (h : setup2) (s : species) (g : nat -> nat -> nat -> R) (i : nat) : R :=
  rsum (sp_nv s) (fun j => rsum (h_nvp h) (fun k => g i j k * wperp h k)) * sp_dv s.
Definition vperp (h : setup2) (k : nat) : R := perp_v (h_nvp h) (h_vpmax h) k.
Definition sv2_pperp (h : setup2) (s : species) (f : dist3) : profile := mom2 h s (fun i j k => f i j k * vperp h k ^ 2).
Definition sv2_flogf (h : setup2) (s : species) (f : dist3) : profile := mom2 h s (fun i j k => - Rabs (f i j k) * ln (Rabs (f i j k))).
Definition sv2_f2 (h : setup2) (s : species) (f : dist3) : profile := mom2 h s (fun i j k => f i j k * f i j k).

(** The scalars of one species: P, j, n, q (_vlasov1d/storage.py:302-311), Pperp (_vlasov1d2v/storage.py:136). *)
Definition mean_P (nx : nat) (s : species) (f : dist) : R := mean nx (mom s (fun i j => f i j * sp_v s j ^ 2)).
Definition mean_j (nx : nat) (s : species) (f : dist) : R := mean nx (mom s (fun i j => f i j * sp_v s j)).
Definition mean_n (nx : nat) (s : species) (f : dist) : R := mean nx (mom s f).
Definition mean_q (nx : nat) (s : species) (f : dist) : R := mean nx (mom s (fun i j => f i j * sp_v s j ^ 3)).
Definition mean_Pperp (h : setup2) (nx : nat) (s : species) (f : dist3) : R := mean nx (sv2_pperp h s f).
(** The energies (_vlasov1d/storage.py:295-323, _vlasov1d2v/storage.py:120-154). *)
Definition mean_kinetic (nx : nat) (F : ndict) : R := fold_left (fun a p => a + 1 / 2 * sp_m (fst (snd p)) * mean_P nx (fst (snd p)) (snd (snd p))) F 0.
Definition mean_kinetic2 (h : setup2) (nx : nat) (F : ndict2) : R :=
  fold_left (fun a p => let s := fst (snd p) in let f := snd (snd p) in a + 1 / 2 * sp_m s * (mean_P nx s (marginal h f) + mean_Pperp h nx s f)) F 0.
Definition mean_e2 (nx : nat) (e : profile) : R := mean nx (fun i => e i ^ 2).
Definition mean_total (nx : nat) (kinetic : R) (e : profile) : R := kinetic + 1 / 2 * mean_e2 nx e.
Definition mean_pond (nx : nat) (dx : R) (a : profile) : R := mean nx (ponderomotive nx dx a).

(** The transverse field of store_fields (_vlasov1d/storage.py:48-60): Ey and c Bz at half steps; a and prev_a have nx + 2
    entries, of which the inner nx are kept. *)
Definition sv_ey (dt : R) (a prev : profile) (i : nat) : R := - (a (i + 1)%nat - prev (i + 1)%nat) / dt.
Definition sv_bz (nx : nat) (dx : R) (a prev : profile) (i : nat) : R :=
  1 / 2 * (gradient (nx + 2) dx a (i + 1) + gradient (nx + 2) dx prev (i + 1)).
Definition sv_ep (nx : nat) (dx dt c : R) (a prev : profile) (i : nat) : R := sv_ey dt a prev i + c * sv_bz nx dx a prev i.
Definition sv_em (nx : nat) (dx dt c : R) (a prev : profile) (i : nat) : R := sv_ey dt a prev i - c * sv_bz nx dx a prev i.

(* ------------------------------------------------------------------------------------------------ *)
(** * The table of saves *)
(** A value of the save section: the dimensions of a fields or diagnostic save, or the labels of a species with their
    dimensions; a dictionary of dictionaries can be read both ways, so both readings are kept. *)
Record snode := { sn_dims : list str; sn_labels : list (str * list str) }.
Inductive saver := SvFields | SvDist (species_name : str) (kind : list str) | SvDiag (kind : list str) | SvDefault.
Definition set_is (l : list str) (m : list str) : bool := forallb (fun x => existsb (str_eqb x) m) l && forallb (fun x => existsb (str_eqb x) l) m.
(** The accepted dimensions; with kv the branch assigns no function and returning it raises (_vlasov1d/storage.py:192-196). *)
Definition dims_ok (two_v : bool) (l : list str) : bool :=
  set_is l [lit "t"] || set_is l [lit "t"; lit "x"; lit "v"] || (negb two_v && set_is l [lit "t"; lit "kx"; lit "v"]).
(** The loop of get_save_quantities (_vlasov1d/storage.py:242-283; _vlasov1d2v/storage.py:161-204). Every entry whose name
    starts with "fields" asks for the dimensions of the entry called exactly "fields" to be {t}
    (_vlasov1d/storage.py:121, _vlasov1d2v/storage.py:32); once that entry has been processed it also holds its function, so
    the test fails. The diagnostics of 1D2V use the 1D function. [None]: an exception. *)
Definition diag_types (two_v : bool) : list str :=
  if two_v then [lit "diag-vlasov-cumulative"; lit "diag-fp-cumulative"] else [lit "diag-vlasov-dfdt"; lit "diag-fp-dfdt"].
Definition fields_key : str := lit "fields".
Definition fields_ok (cfg : list (str * snode)) (func_added : bool) : bool :=
  match dget fields_key cfg with Some n => negb func_added && set_is (sn_dims n) [lit "t"] | None => false end.
Fixpoint add_labels (two_v : bool) (sp : str) (l : list (str * list str)) (acc : dict saver) : option (dict saver) :=
  match l with
  | [] => Some acc
  | (lab, dims) :: l' => if dims_ok two_v dims then add_labels two_v sp l' (dset (sp ++ lit "." ++ lab) (SvDist sp dims) acc) else None
  end.
Fixpoint expand (two_v : bool) (species_names : list str) (cfg : list (str * snode)) (todo : list (str * snode)) (func_added : bool) (acc : dict saver) : option (dict saver) :=
  match todo with
  | [] => Some (dset (lit "default") SvDefault acc)
  | (key, node) :: todo' =>
    if is_prefix fields_key key then
      if fields_ok cfg func_added then expand two_v species_names cfg todo' (func_added || str_eqb key fields_key) (dset key SvFields acc) else None
    else if existsb (str_eqb key) species_names then
      match add_labels two_v key (sn_labels node) acc with Some acc' => expand two_v species_names cfg todo' func_added acc' | None => None end
    else if existsb (str_eqb key) (diag_types two_v) then
      if dims_ok false (sn_dims node) && existsb (str_eqb (lit "electron")) species_names then expand two_v species_names cfg todo' func_added (dset key (SvDiag (sn_dims node)) acc) else None
    else None
  end.
Definition save_table (two_v : bool) (species_names : list str) (cfg : list (str * snode)) : option (dict saver) :=
  expand two_v species_names cfg cfg false [].
