(** Model of the saved results of the laser-plasma envelope solver: adept/_lpse2d/helpers.py, make_field_xarrays (lines 692-779),
    get_save_quantities (782-859), get_default_save_func (862-873).
    Simplifications: exact arithmetic; one saved time at a time; the plots and the files are not modelled. interpax.interp2d (linear) and
    scipy's RegularGridInterpolator (linear) are given by their documented formula. *)
From Coq Require Import Reals ZArith List Bool Lia.
From Verif Require Import RSum Pic VGrid Lpse LpseSetup Dft.
Local Open Scope R_scope.

(** The save entry: times, and the optional spacings in x and in y. *)
Record scfg := { s_tmin : R; s_tmax : R; s_dt : R; s_dx : option R; s_dy : option R }.
(** The times of the saved fields (helpers.py:791-797). *)
Definition save_nt (s : scfg) : Z := (trunc ((s_tmax s - s_tmin s) / s_dt s) + 1)%Z.
Definition save_t (s : scfg) (k : nat) : R := linspace (s_tmin s) (s_tmax s) (Z.to_nat (save_nt s)) k.
(** The axes (helpers.py:799-818): with an "x" entry they are rebuilt from the requested spacing and the size of the solver's grid; without a "y"
    entry this raises. *)
Inductive saxes := Whole | Resampled (dx dy : R) | Refused.
Definition save_axes (s : scfg) : saxes := match s_dx s, s_dy s with None, _ => Whole | Some dx, Some dy => Resampled dx dy | Some _, None => Refused end.
Definition sx_ax (o : gout) (dx : R) (a : nat) : R := linspace (o_xmin o + dx / 2) (o_xmax o - dx / 2) (o_nx o) a.
Definition sy_ax (o : gout) (dy : R) (b : nat) : R := linspace (o_ymin o + dy / 2) (o_ymax o - dy / 2) (o_ny o) b.

(* ------------------------------------------------------------------------------------------------ *)
(** Linear interpolation at [q] on the points [x 0 < ... < x (n-1)]: the interval found by searchsorted (side right, clipped to 1 .. n-1) and
    the two weights; [None] outside of the points (interpax gives NaN, scipy the fill value). *)
Definition searchsorted_right (n : nat) (x : nat -> R) (q : R) : nat := length (filter (fun i => if Rle_dec (x i) q then true else false) (seq 0 n)).
Definition interval (n : nat) (x : nat -> R) (q : R) : nat := Nat.min (Nat.max (searchsorted_right n x q) 1) (n - 1).
Definition weights (n : nat) (x : nat -> R) (q : R) : option (nat * R * R) :=
  if Rlt_dec q (x 0%nat) then None else if Rlt_dec (x (n - 1)%nat) q then None else
  let i := interval n x q in let h := x i - x (i - 1)%nat in Some (i, (x i - q) / h, (q - x (i - 1)%nat) / h).
(** interp2d of a complex array (helpers.py:820-829). *)
Definition interp2 (nx ny : nat) (x y : nat -> R) (f : cfield) (p q : R) : option cplx :=
  match weights nx x p, weights ny y q with
  | Some (i, u0, u1), Some (j, v0, v1) =>
      Some (cadd (cscal u0 (cadd (cscal v0 (f (i - 1)%nat (j - 1)%nat)) (cscal v1 (f (i - 1)%nat j)))) (cscal u1 (cadd (cscal v0 (f i (j - 1)%nat)) (cscal v1 (f i j)))))
  | _, _ => None
  end.
(** save_func (helpers.py:831-855): the state as it is, or every array of it, the Fourier coefficients of the potential included, interpolated
    from the cell centres to the save axes. [None] at a cell: not a number. *)
Definition saved (o : gout) (s : saxes) (f : cfield) (a b : nat) : option cplx :=
  match s with
  | Whole => Some (f a b)
  | Resampled dx dy => interp2 (o_nx o) (o_ny o) (x_ax o) (y_ax o) f (sx_ax o dx a) (sy_ax o dy b)
  | Refused => None
  end.
(** The background density on the save grid (helpers.py:748-761), 0 outside of the cell centres. *)
Definition saved_density (o : gout) (s : saxes) (n : nat -> nat -> R) (a b : nat) : R :=
  let xa := match s with Resampled dx _ => sx_ax o dx a | _ => x_ax o a end in
  let ya := match s with Resampled _ dy => sy_ax o dy b | _ => y_ax o b end in
  match interp2 (o_nx o) (o_ny o) (x_ax o) (y_ax o) (fun i j => (n i j, 0)) xa ya with Some z => fst z | None => 0 end.

(* ------------------------------------------------------------------------------------------------ *)
(** * make_field_xarrays (helpers.py:692-779) *)
(** The saved arrays are real (the float64 views of the state, float32 when jax runs in single precision). [complex_words]: the dtype chosen in
    lines 717-721, in 4-byte words; since the array is real, the test against complex128 is never met. *)
Inductive prec := Single | Double.
Definition real_words (p : prec) : nat := match p with Single => 1 | Double => 2 end.
Definition complex_words (p : prec) : nat := 2%nat.
(** Entries of the last axis after .view(_complex): 2 ny reals. *)
Definition row_len (p : prec) (ny : nat) : nat := (2 * ny * real_words p / complex_words p)%nat.
(** numpy.fft.fftshift on an axis of length n. *)
Definition fftshift (n i : nat) : nat := ((i + (n - n / 2)) mod n)%nat.
Record kdata := { k_kx : nat -> R; k_ky : nat -> R; k_phi : cfield; k_ex : cfield; k_ey : cfield }.
Record xdata := { x_x : nat -> R; x_y : nat -> R; x_phi : cfield; x_ex : cfield; x_ey : cfield }.
(** [sx], [sy]: the spacing the wavenumber axes are built with. The product with ky of length ny and the coordinates of length ny need row_len =
    ny (lines 726, 728-738); otherwise numpy or xarray raises: [None]. *)
Definition field_arrays (o : gout) (s : saxes) (p : prec) (c w0 : R) (phi : cfield) : option (kdata * xdata) :=
  let nx := o_nx o in let ny := o_ny o in
  let sx := match s with Resampled dx _ => dx | _ => o_dx o end in let sy := match s with Resampled _ dy => dy | _ => o_dy o end in
  let ex_k : cfield := fun i j => cmul (0, - kx nx sx i) (phi i j) in let ey_k : cfield := fun i j => cmul (0, - kx ny sy j) (phi i j) in
  if negb (row_len p ny =? ny)%nat then None else
  Some ({| k_kx := fun i => kx nx sx (fftshift nx i) * c / w0; k_ky := fun j => kx ny sy (fftshift ny j) * c / w0;
           k_phi := fun i j => phi (fftshift nx i) (fftshift ny j); k_ex := fun i j => ex_k (fftshift nx i) (fftshift ny j); k_ey := fun i j => ey_k (fftshift nx i) (fftshift ny j) |},
        {| x_x := match s with Resampled dx _ => sx_ax o dx | _ => x_ax o end; x_y := match s with Resampled _ dy => sy_ax o dy | _ => y_ax o end;
           x_phi := ifft2 nx ny phi;
           x_ex := fun a b => cscal 4 (cscal (/ INR ny) (cscal (/ INR nx) (ifft2 nx ny ex_k a b)));
           x_ey := fun a b => cscal 4 (cscal (/ INR ny) (cscal (/ INR nx) (ifft2 nx ny ey_k a b))) |}).
(** max_phi of the default series (helpers.py:871). *)
Fixpoint rmax (n : nat) (f : nat -> R) : R := match n with O => 0 | S k => Rmax (rmax k f) (f k) end.
Definition max_phi (nx ny : nat) (phi : cfield) : R := rmax nx (fun i => rmax ny (fun j => sqrt (cabs2 (phi i j)))).
