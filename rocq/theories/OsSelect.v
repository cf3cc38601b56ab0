(** Model of the choices behind the OSIRIS plots: which cells, times and windows adept/osiris/plots.py shows, and the settings
    adept/osiris/regen.py draws with.

    Simplifications: exact real arithmetic; sizes, targets and panel numbers are not negative; paths are lists of names; files that
    exist can be opened. *)
From Coq Require Export Reals List Bool Arith Lia Lra.
From Verif Require Export PyStr.
From Verif Require Import RSum.
Export ListNotations.
Local Open Scope R_scope.

(** _boxcar_downsample (plots.py:104-132): block factor and number of blocks along one axis; means over blocks, for data and
    coordinates. With factors of one the code returns its input, which is what these means give. *)
Definition factor (size target : nat) : nat := Nat.max 1 (size / Nat.max target 1).
Definition blocks (size target : nat) : nat := (size / factor size target)%nat.
Definition reduced (fr fc : nat) (data : nat -> nat -> R) (i j : nat) : R :=
  rsum fr (fun a => rsum fc (fun b => data (i * fr + a)%nat (j * fc + b)%nat)) / (INR fr * INR fc).
Definition reduced_coord (f : nat) (c : nat -> R) (i : nat) : R := rsum f (fun a => c (i * f + a)%nat) / INR f.

(** _evolution_t_indices (plots.py:267-276): sorted(set(range(0, n, skip)) | {n - 1}); the range is increasing and below n. *)
Definition t_skip (n p : nat) : nat := Nat.max 1 (n / p).
Definition strided (n s : nat) : list nat := map (fun k => k * s)%nat (seq 0 ((n - 1) / s + 1)).
Definition evolution (n p : nat) : list nat := let r := strided n (t_skip n p) in if existsb (Nat.eqb (n - 1)) r then r else r ++ [(n - 1)%nat].
(** plot_phasespace_evolution (plots.py:300-311): from a path the series is read at these indices, and the panels are chosen by
    the same rule among what was read; from a series in memory they are chosen among all. *)
Definition panels_from_path (n p : nat) : list nat := let loaded := evolution n p in map (fun k => nth k loaded 0%nat) (evolution (List.length loaded) p).

(** _sim_box_bound (plots.py:911-930): the attribute is absent, a number, or one number per dimension; the entry of dimension
    xk is k-1. *)
Inductive attr := Absent | Scalar (b : R) | PerDim (l : list R).
Definition box_bound (a : attr) (k : nat) (fallback : R) : R :=
  match a with Absent => fallback | Scalar b => b | PerDim l => if ((1 <=? k) && (k - 1 <? List.length l))%nat%bool then nth (k - 1) l 0 else last l 0 end.
(** _crop_spatial_to_box (plots.py:954-975) on one axis with increasing coordinates: searchsorted left (right) is the number of
    coordinates below (not above) the bound. *)
Definition ltb (a b : R) : bool := if Rlt_dec a b then true else false.
Definition leb (a b : R) : bool := if Rle_dec a b then true else false.
Definition count (p : R -> bool) (l : list R) : nat := List.length (filter p l).
Definition crop_to (lo hi : R) (xv : list R) : list R :=
  if (List.length xv <? 2)%nat then xv else
  let left := count (fun x => ltb x lo) xv in
  let right := Nat.max (left + 1) (Nat.min (count (fun x => leb x hi) xv) (List.length xv)) in
  if ((0 <? left) || (right <? List.length xv))%nat%bool then firstn (right - left) (skipn left xv) else xv.
Definition crop (k : nat) (amin amax : attr) (xv : list R) : list R := crop_to (box_bound amin k (hd 0 xv)) (box_bound amax k (last xv 0)) xv.

(** _nonzero_log_clim (plots.py:938-951). *)
Definition log10 (x : R) : R := ln x / ln 10.
Definition lmin (l : list R) : R := match l with [] => 0 | a :: r => fold_left Rmin r a end.
Definition lmax (l : list R) : R := match l with [] => 0 | a :: r => fold_left Rmax r a end.
Definition log_clim (v : list R) : option (R * R) :=
  let mag := map Rabs v in match filter (ltb 0) mag with [] => None | nz => Some (log10 (lmin nz), log10 (lmax mag)) end.

(** Late-time windows: of nt dumps, with r = round(fraction * nt): plot_profile (plots.py:1218-1226) and plot_currents_lineouts
    (plots.py:1031-1040); the first dump of slice(nt - w, nt), a negative start counts from the end. *)
Definition slice_start (nt w : nat) : nat := if (w <=? nt)%nat then (nt - w)%nat else (nt - (w - nt))%nat.
Definition profile_window (nt : nat) (r : nat) (explicit : option nat) : nat := let w := match explicit with Some w => w | None => Nat.max 1 r end in Nat.max 1 (Nat.min w nt).
Definition profile_start (nt r : nat) (explicit : option nat) : nat := slice_start nt (profile_window nt r explicit).
Definition lineout_start (nt r : nat) : nat := slice_start nt (Nat.max 1 r).

(** _omega_k_zoom_window (plots.py:1454-1471). *)
Definition zoom_window (t x : list R) (requested : option R) : option R :=
  match t, x with
  | t0 :: t1 :: _, x0 :: x1 :: _ => let cap := Rmin (PI / (x1 - x0)) (PI / (t1 - t0)) in
      Some (match requested with None => cap | Some q => if Rle_dec q 0 then cap else Rmin q cap end)
  | _, _ => None
  end.

(** * Settings *)
(** YAML values of the output block, and keyword arguments. *)
Inductive yval := YNull | YNum (x : R) | YBool (b : bool).
Definition kw := list (str * yval).
Definition truthy (v : yval) : bool := match v with YNull => false | YNum x => if Req_EM_T x 0 then false else true | YBool b => b end.
Definition num (v : yval) : R := match v with YNum x => x | YBool true => 1 | _ => 0 end.
(** canned_plot_kwargs (plots.py:1426-1451). *)
Definition when (c : option yval) (f : yval -> option (str * yval)) : kw := match c with Some v => match f v with Some e => [e] | None => [] end | None => [] end.
Definition canned_kwargs (cfg : kw) : kw :=
  (lit "v_th", match dget (lit "v_th") cfg with Some v => v | None => YNull end) ::
  when (dget (lit "omega_k_zoom") cfg) (fun v => Some (lit "omega_k_zoom", v)) ++
  when (dget (lit "overlay_density") cfg) (fun v => match v with YNull => None | _ => Some (lit "omega_p", YNum (sqrt (num v))) end) ++
  when (dget (lit "bam") cfg) (fun v => Some (lit "show_bam", YBool (truthy v))) ++
  when (dget (lit "ion_acoustic") cfg) (fun v => Some (lit "show_ion_acoustic", YBool (truthy v))).
(** The parameters of save_canned_plots and their defaults (plots.py:1474-1485). *)
Definition defaults : kw := [(lit "v_th", YNull); (lit "omega_p", YNum 1); (lit "show_bam", YBool false); (lit "show_ion_acoustic", YBool false);
  (lit "dpi", YNum 120); (lit "n_panels", YNum 8); (lit "omega_k_zoom", YNum 4)].
Definition setting (kwargs : kw) (k : str) : option yval := match dget k kwargs with Some v => Some v | None => dget k defaults end.
Fixpoint update (d e : kw) : kw := match e with [] => d | (k, v) :: e => update (dset k v d) e end.

(** Files: is this a directory; the config.yaml in a directory, if there is one: [None] inside when it cannot be parsed, else
    its output block ([None]: none or empty). *)
Definition path := list str.
Record disk := { is_dir : path -> bool; config_at : path -> option (option (option kw)) }.
Definition sub (p : path) (name : str) : path := p ++ [name].
Definition parent (p : path) : path := removelast p.
(** find_binary_dir, default_out_dir, load_output_cfg, regenerate (regen.py:47-112). *)
Definition find_binary_dir (d : disk) (p : path) : path := if is_dir d (sub p (lit "binary")) then sub p (lit "binary") else p.
Definition default_out_dir (d : disk) (src : path) : path := sub (if is_dir d (sub src (lit "binary")) then src else parent src) (lit "plots_regen").
Definition block_of (c : option (option kw)) : kw := match c with Some (Some o) => o | _ => [] end.
Definition load_output_cfg (d : disk) (src : path) : kw :=
  match config_at d src with Some c => block_of c | None => match config_at d (parent src) with Some c => block_of c | None => [] end end.
Record job := { j_source : path; j_out : path; j_kwargs : kw }.
Definition regenerate (d : disk) (src : path) (out : option path) (use_config : bool) (overrides : kw) : job :=
  {| j_source := find_binary_dir d src; j_out := match out with Some o => o | None => default_out_dir d src end;
     j_kwargs := update (canned_kwargs (if use_config then load_output_cfg d src else [])) overrides |}.
(** The live path (post.py:225-227). *)
Definition live_kwargs (output : option kw) : kw := canned_kwargs (match output with Some o => o | None => [] end).
(** _cli_overrides (regen.py:125-138). *)
Record cli := { a_v_th : option R; a_dpi : option R; a_n_panels : option R; a_no_zoom : bool; a_zoom : option R }.
Definition opt (k : str) (o : option R) : kw := match o with Some x => [(k, YNum x)] | None => [] end.
Definition cli_overrides (a : cli) : kw :=
  opt (lit "v_th") (a_v_th a) ++ opt (lit "dpi") (a_dpi a) ++ opt (lit "n_panels") (a_n_panels a) ++
  if a_no_zoom a then [(lit "omega_k_zoom", YNull)] else opt (lit "omega_k_zoom") (a_zoom a).
