(** Model of the reconnection diagnostics of a VFP-2D run: /repo/adept/vfp2d/plotting.py. Numbers are reals, NaN and inf are None; the
    threshold 1e-30 is the real 10^-30. [x], [y] and every field are read at cell numbers. *)
From Coq Require Import Reals Lra Lia ZArith List Bool.
From Verif Require Import RSum Pic Dft Harm2d Vfp2d Drivers Density.
Import ListNotations.
Local Open Scope R_scope.

(** _vector_potential (plotting.py:102-114): one frame; kx is numpy's fftfreq. *)
Definition vpot (nx ny : nat) (dx dy : R) (bx by_ : fld) : fld :=
  let fb := fft2 nx ny (fun x y => (bx x y, 0)) in let gb := fft2 nx ny (fun x y => (by_ x y, 0)) in
  let num := fun k l => cadd (cmul (0, - kx ny dy l) (fb k l)) (cmul (0, kx nx dx k) (gb k l)) in
  fun x y => fst (ifft2 nx ny (fun k l => cscal (inv_k2 nx ny dx dy k l) (num k l)) x y).

(** np.gradient with one spacing, edge_order 1 (plotting.py:161-163): one-sided at the two ends. *)
Definition npgrad (n : nat) (h : R) (f : nat -> R) (i : nat) : R :=
  if (i =? 0)%nat then (f 1%nat - f 0%nat) / h else if (i =? n - 1)%nat then (f (n - 1)%nat - f (n - 2)%nat) / h else (f (i + 1)%nat - f (i - 1)%nat) / (2 * h).

(** np.mean(np.diff(x)) (plotting.py:124-125). *)
Definition mean_step (n : nat) (x : nat -> R) : R := rsum (n - 1) (fun i => x (S i) - x i) / INR (n - 1).

(** x_center (plotting.py:127-128) and the cell nearest to it (129). *)
Definition centre (n : nat) (x : nat -> R) : R :=
  if Rle_dec (x 0%nat) 0 then (if Rle_dec 0 (x (n - 1)%nat) then 0 else 1 / 2 * (x 0%nat + x (n - 1)%nat)) else 1 / 2 * (x 0%nat + x (n - 1)%nat).
Definition centre_cell (n : nat) (x : nat -> R) : nat := argmin n (fun i => Rabs (x i - centre n x)).

(** np.flatnonzero(y < y_center), np.flatnonzero(y > y_center) (131-132). *)
Definition rlt (a b : R) : bool := if Rlt_dec a b then true else false.
Definition rle (a b : R) : bool := if Rle_dec a b then true else false.
Definition lower (n : nat) (y : nat -> R) : list nat := filter (fun i => rlt (y i) (centre n y)) (seq 0 n).
Definition upper (n : nat) (y : nat -> R) : list nat := filter (fun i => rlt (centre n y) (y i)) (seq 0 n).
(** lower[np.argmax(values[lower])] (138-139): the first of the largest. *)
Fixpoint best (f : nat -> R) (c : nat) (l : list nat) : nat :=
  match l with [] => c | i :: r => if Rlt_dec (f c) (f i) then best f i r else best f c r end.
Definition argmax (f : nat -> R) (l : list nat) : nat := match l with [] => 0%nat | i :: r => best f i r end.

(** What one saved frame supplies (the grid first): b, e_z, |current_z| is taken below, v_nernst_y. *)
Record rgrid := { r_nx : nat; r_ny : nat; r_x : nat -> R; r_y : nat -> R }.
Record rframe := { f_bx : fld; f_by : fld; f_bz : fld; f_ez : fld; f_jz : fld; f_vy : fld }.
Definition r_dx (g : rgrid) : R := mean_step (r_nx g) (r_x g).
Definition r_dy (g : rgrid) : R := mean_step (r_ny g) (r_y g).
Definition ix0 (g : rgrid) : nat := centre_cell (r_nx g) (r_x g).
Definition iy0 (g : rgrid) : nat := centre_cell (r_ny g) (r_y g).
(** ValueError unless both halves hold a cell (133-134). *)
Definition both_sides (g : rgrid) : bool := negb (length (lower (r_ny g) (r_y g)) =? 0)%nat && negb (length (upper (r_ny g) (r_y g)) =? 0)%nat.
Definition lo (g : rgrid) (f : rframe) : nat := argmax (fun i => Rabs (f_bx f (ix0 g) i)) (lower (r_ny g) (r_y g)).
Definition up (g : rgrid) (f : rframe) : nat := argmax (fun i => Rabs (f_bx f (ix0 g) i)) (upper (r_ny g) (r_y g)).
Definition bx_lo (g : rgrid) (f : rframe) : R := f_bx f (ix0 g) (lo g f).
Definition bx_up (g : rgrid) (f : rframe) : R := f_bx f (ix0 g) (up g f).
Definition tiny : R := / 10 ^ 30.
(** upstream_bx, upstream_balance, antiparallel (140-150). *)
Definition upstream_bx (g : rgrid) (f : rframe) : R := 1 / 2 * (Rabs (bx_lo g f) + Rabs (bx_up g f)).
Definition balance (g : rgrid) (f : rframe) : R :=
  if Rlt_dec tiny (Rabs (bx_lo g f) + Rabs (bx_up g f)) then 2 * Rmin (Rabs (bx_lo g f)) (Rabs (bx_up g f)) / (Rabs (bx_lo g f) + Rabs (bx_up g f)) else 0.
Definition antiparallel (g : rgrid) (f : rframe) : bool := rlt (bx_lo g f * bx_up g f) 0.
(** az, raw_reconnected_flux (126, 152-153). *)
Definition az (g : rgrid) (f : rframe) : fld := vpot (r_nx g) (r_ny g) (r_dx g) (r_dy g) (f_bx f) (f_by f).
Definition raw_flux (g : rgrid) (f : rframe) : R := az g f (ix0 g) (iy0 g) - 1 / 2 * (az g f (ix0 g) (lo g f) + az g f (ix0 g) (up g f)).
(** upstream_vn: towards the sheet is +y below and -y above (155-158). *)
Definition upstream_vn (g : rgrid) (f : rframe) : R := 1 / 2 * (Rmax (f_vy f (ix0 g) (lo g f)) 0 + Rmax (- f_vy f (ix0 g) (up g f)) 0).
Definition xpoint_ez (g : rgrid) (f : rframe) : R := f_ez f (ix0 g) (iy0 g).
(** inplane_null_ratio; None is inf (161-166). *)
Definition null_ratio (g : rgrid) (f : rframe) : option R :=
  if Rlt_dec tiny (upstream_bx g f) then Some (sqrt (f_bx f (ix0 g) (iy0 g) ^ 2 + f_by f (ix0 g) (iy0 g) ^ 2) / upstream_bx g f) else None.
(** xpoint_hessian_determinant (167-170). *)
Definition gx (g : rgrid) (a : fld) : fld := fun x y => npgrad (r_nx g) (r_dx g) (fun x' => a x' y) x.
Definition gy (g : rgrid) (a : fld) : fld := fun x y => npgrad (r_ny g) (r_dy g) (fun y' => a x y') y.
Definition hessian (g : rgrid) (f : rframe) : R :=
  let a := az g f in gx g (gx g a) (ix0 g) (iy0 g) * gy g (gy g a) (ix0 g) (iy0 g) - gy g (gx g a) (ix0 g) (iy0 g) ^ 2.

(** The current sheet (172-191): the window about the centre row, its |j_z|-weighted width (None is NaN), its share of the peak. *)
Definition rmax0 (l : list R) : R := fold_right Rmax 0 l.
Definition lsum (l : list R) : R := fold_right Rplus 0 l.
Definition y_sheet (g : rgrid) (i : nat) : R := r_y g i - r_y g (iy0 g).
Definition up_dist (g : rgrid) (f : rframe) : R := Rmin (Rabs (r_y g (lo g f))) (Rabs (r_y g (up g f))).
Definition half_width (g : rgrid) (f : rframe) : R := Rmax (2 * r_dy g) (4 / 10 * up_dist g f).
Definition sheet (g : rgrid) (f : rframe) : list nat := filter (fun i => rle (Rabs (y_sheet g i)) (half_width g f)) (seq 0 (r_ny g)).
Definition jline (g : rgrid) (f : rframe) (i : nat) : R := Rabs (f_jz f (ix0 g) i).
Definition sheet_width (g : rgrid) (f : rframe) : option R :=
  let w := lsum (map (jline g f) (sheet g f)) in
  if Rlt_dec tiny w then Some (sqrt (lsum (map (fun i => jline g f i * y_sheet g i ^ 2) (sheet g f)) / w)) else None.
Definition cells (g : rgrid) : list (nat * nat) := list_prod (seq 0 (r_nx g)) (seq 0 (r_ny g)).
Definition peak_j (g : rgrid) (f : rframe) : R := rmax0 (map (fun p => Rabs (f_jz f (fst p) (snd p))) (cells g)).
Definition dominance (g : rgrid) (f : rframe) : R := if Rlt_dec tiny (peak_j g f) then rmax0 (map (jline g f) (sheet g f)) / peak_j g f else 0.

(** The B_z quadrupole (193-204): the mask is centred on x = 0, y = 0. *)
Definition sgn (x : R) : R := if Rlt_dec x 0 then -1 else if Rlt_dec 0 x then 1 else 0.
Definition x_half (g : rgrid) (f : rframe) : R := Rmax (2 * r_dx g) (2 * up_dist g f).
Definition central (g : rgrid) (f : rframe) : list (nat * nat) :=
  filter (fun p => rle (Rabs (r_x g (fst p))) (x_half g f) && rle (Rabs (r_y g (snd p))) (up_dist g f)) (cells g).
Definition bz_at (f : rframe) (p : nat * nat) : R := f_bz f (fst p) (snd p).
Definition local_l1 (g : rgrid) (f : rframe) : R := lsum (map (fun p => Rabs (bz_at f p)) (central g f)).
Definition signed_sum (g : rgrid) (f : rframe) : R := lsum (map (fun p => bz_at f p * sgn (r_x g (fst p) * r_y g (snd p))) (central g f)).
Definition purity (g : rgrid) (f : rframe) : R := if Rlt_dec tiny (local_l1 g f) then Rabs (signed_sum g f) / local_l1 g f else 0.
Definition projection (g : rgrid) (f : rframe) : R := if Rlt_dec tiny (local_l1 g f) then signed_sum g f / INR (length (central g f)) else 0.
Definition central_fraction (g : rgrid) (f : rframe) : R := if Rlt_dec tiny (local_l1 g f) then local_l1 g f / lsum (map (fun p => Rabs (bz_at f p)) (cells g)) else 0.

(** reconnection_valid (206-212), rate_normalization_valid and normalized_rate (213-222), reconnected_flux (223), over the run's frames. *)
Definition valid (g : rgrid) (f : rframe) : bool :=
  antiparallel g f && rle (1 / 4) (balance g f) && match null_ratio g f with Some r => rle r (1 / 2) | None => false end && rlt (hessian g f) 0 && rle (1 / 4) (dominance g f).
Definition peak_vn (g : rgrid) (run : list rframe) : R := rmax0 (map (upstream_vn g) run).
Definition rate_valid (g : rgrid) (run : list rframe) (f : rframe) : bool := valid g f && rle (1 / 10 * peak_vn g run) (upstream_vn g f).
Definition rate (g : rgrid) (run : list rframe) (f : rframe) : option R :=
  let s := upstream_bx g f * upstream_vn g f in
  if rate_valid g run f && rlt tiny s then Some (xpoint_ez g f / s) else None.
Definition flux (g : rgrid) (f : rframe) : option R := if valid g f then Some (raw_flux g f) else None.
(** add_reconnection_diagnostics (117-262) for the two series the summary reads: ValueError or the series. *)
Definition diagnostics (g : rgrid) (run : list rframe) : option (list (bool * bool * option R * option R)) :=
  if both_sides g then Some (map (fun f => (valid g f, rate_valid g run f, rate g run f, flux g f)) run) else None.

(** reconnection_metrics (564-588): peak and final values with 0 for "none", and the fraction of valid frames. *)
Definition finite (l : list (option R)) : list R := flat_map (fun o => match o with Some r => [r] | None => [] end) l.
Definition peak_abs (l : list (option R)) : R := rmax0 (map Rabs (finite l)).
Definition or0 (o : option R) : R := match o with Some r => r | None => 0 end.
Definition fraction (l : list bool) : R := INR (length (filter (fun b => b) l)) / INR (length l).
Definition b2r (b : bool) : R := if b then 1 else 0.
Record rmetrics := { m_peak_rate : R; m_final_rate : R; m_final_flux : R; m_peak_flux : R; m_valid_fraction : R; m_final_valid : R; m_rate_fraction : R; m_final_rate_valid : R }.
Definition metrics (s : list (bool * bool * option R * option R)) : rmetrics :=
  let v := map (fun q => fst (fst (fst q))) s in let w := map (fun q => snd (fst (fst q))) s in
  let r := map (fun q => snd (fst q)) s in let q := map snd s in
  {| m_peak_rate := peak_abs r; m_final_rate := or0 (last r None); m_final_flux := or0 (last q None); m_peak_flux := peak_abs q;
     m_valid_fraction := fraction v; m_final_valid := b2r (last v false); m_rate_fraction := fraction w; m_final_rate_valid := b2r (last w false) |}.

(** _selected_indices (plotting.py:17-18): np.linspace(0, nt - 1, m).round(), m = min(nt, n_panels); np.unique sorts and drops repeats. *)
Definition panel_step (nt m : nat) : R := INR (nt - 1) / INR (m - 1).
Definition panel (nt m i : nat) : Z := if (m =? 1)%nat then 0%Z else round_half_even (INR i * panel_step nt m).
Definition panels (nt n : nat) : list Z := let m := Nat.min nt n in nodup Z.eq_dec (map (panel nt m) (seq 0 m)).
