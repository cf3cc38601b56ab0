(** Model of the speckled pump of the laser-plasma envelope solver: adept/_lpse2d/core/speckle.py (gen_gaussian_time_series, lines 16-57, and SpeckleProfile,
    59-422), its normalisation in adept/_lpse2d/core/laser.py (lines 26-49, 92-98) and the transverse support of adept/_lpse2d/helpers.py:307-312.
    Simplifications: exact arithmetic; every random draw is an arbitrary function; the polarisation vector is not used by any caller and left out; the
    two-dimensional position arrays are a pair of coordinates (evaluate is called with a meshgrid). *)
From Coq Require Import Reals ZArith List Bool Lia.
From Verif Require Import RSum Pic VGrid Lpse LpseLaser LpseSave Dft.
Local Open Scope R_scope.

(** SpeckleProfile.__init__ (speckle.py:108-232): smoothing type, wavelength, focal length, aperture, beamlets, bandwidth, the pairs of the SSD parameters. [d_sign],
    [d_plate], [d_deph]: draws of the phase plate and of the dephasing; [d_re s k], [d_im s k]: the normal draws of the time series [s]. *)
Inductive smoothing := RPP | CPP | FMSSD | GPRPM | GPISI.
Record spk := { p_type : smoothing; p_lam : R; p_f : R; p_D0 : R; p_D1 : R; p_n0 : nat; p_n1 : nat; p_bw : R; p_pma0 : R; p_pma1 : R; p_cyc0 : R; p_cyc1 : R; p_dist0 : R; p_dist1 : R;
  p_tmax : R; d_sign : nat -> nat -> bool; d_plate : nat -> nat -> R; d_deph : nat -> R; d_re : nat -> nat -> R; d_im : nat -> nat -> R }.
Definition c_si : R := 299792458.
Definition dt_update (p : spk) : R := 1 / p_bw p / 50.
Definition lens (n i : nat) : R := linspace (- (1 / 2) * (INR n - 1)) (1 / 2 * (INR n - 1)) n i.
(** ssd_frac, ssd_phase_modulation_frequency, ssd_time_delay (speckle.py:164-187). *)
Definition ssd_norm (p : spk) : R := sqrt (p_dist0 p ^ 2 + p_dist1 p ^ 2).
Definition ssd_f0 (p : spk) : R := p_bw p * (p_dist0 p / ssd_norm p) * (1 / 2) / p_pma0 p.
Definition ssd_f1 (p : spk) : R := p_bw p * (p_dist1 p / ssd_norm p) * (1 / 2) / p_pma1 p.
Definition delay0 (p : spk) : R := if Rlt_dec 0 (ssd_f0 p) then p_cyc0 p / ssd_f0 p else 0.
Definition delay1 (p : spk) : R := if Rlt_dec 0 (ssd_f1 p) then p_cyc1 p / ssd_f1 p else 0.
(** The phase plate (speckle.py:209-219); jax.random.uniform(minval=-pi, maxval=pi) of a draw in [0, 1). *)
Definition plate (p : spk) (i j : nat) : cplx :=
  match p_type p with RPP => cis (if d_sign p i j then PI else 0) | GPISI => cis 0 | _ => cis (- PI + d_plate p i j * (PI - - PI)) end.
(** jnp.arange(0, stop, step): the number of entries and the entries. *)
Definition ceil (x : R) : Z := (- floor (- x))%Z.
Definition arange_len (stop step : R) : nat := Z.to_nat (ceil (stop / step)).
Definition arange (step : R) (k : nat) : R := INR k * step.
(** gen_gaussian_time_series (speckle.py:16-57) with the draws of series [s]. *)
Definition omega_of (n : nat) (dt : R) (k : nat) : R := kx n dt (fftshift n k) / (2 * PI).
Definition psd (n : nat) (dt fwhm : R) (k : nat) : R := exp (- ln 2 * (1 / 2) * (omega_of n dt k / fwhm * 2 * PI) ^ 2).
Definition raw_series (re im : nat -> R) (n : nat) (dt fwhm : R) : nat -> cplx :=
  ifftshift n (cfft n (fun k => let m := fftshift n k in cscal (psd n dt fwhm m) (re m, im m))).
Definition mean2 (n : nat) (f : nat -> cplx) : R := rsum n (fun k => cabs2 (f k)) / INR n.
Definition gauss_series (re im : nat -> R) (n : nat) (dt fwhm rms : R) (k : nat) : cplx :=
  if Req_EM_T fwhm 0 then c0 else let f := raw_series re im n dt fwhm in cscal (rms / sqrt (mean2 n f)) (f k).
(** series_time (speckle.py:228-232) and _init_gaussian_time_series (234-299): the number of samples and, for SSD, of points in time. *)
Definition base_len (p : spk) : nat := arange_len (p_tmax p * c_si / p_lam p + dt_update p) (dt_update p).
Definition delay_sum (p : spk) : R := delay0 p + delay1 p.
Definition n_pts (p : spk) : nat := (base_len p + Z.to_nat (trunc (delay_sum p / dt_update p)) + 2)%nat.
Definition interp_len (p : spk) : nat := Nat.min (arange_len (arange (dt_update p) (base_len p - 1) + delay_sum p + 3 * dt_update p) (dt_update p)) (n_pts p).
Definition rpm_series (p : spk) (s : nat) (k : nat) : R :=
  let f := gauss_series (d_re p s) (d_im p s) (n_pts p) (dt_update p) (2 * PI * (if (s =? 0)%nat then ssd_f0 p else ssd_f1 p)) (if (s =? 0)%nat then p_pma0 p else p_pma1 p) k in
  (fst f + snd f) / sqrt 2.
Definition isi_series (p : spk) (i j k : nat) : cplx := let s := (i * p_n1 p + j)%nat in gauss_series (d_re p s) (d_im p s) (base_len p) (dt_update p) (2 * p_bw p) 1 k.
(** jnp.interp on the points [x 0 .. x (n-1)]: constant beyond the ends. *)
Definition jinterp (n : nat) (x f : nat -> R) (q : R) : R :=
  if Rlt_dec q (x 0%nat) then f 0%nat else if Rlt_dec (x (n - 1)%nat) q then f (n - 1)%nat else
  match weights n x q with Some (i, u0, u1) => u0 * f (i - 1)%nat + u1 * f i | None => 0 end.
(** beamlets_complex_amplitude (speckle.py:301-352). *)
Definition beamlet (p : spk) (t : R) (i j : nat) : cplx :=
  match p_type p with
  | RPP | CPP => c1
  | FMSSD => cis (p_pma0 p * sin (d_deph p 0 * PI + 2 * PI * ssd_f0 p * (t - lens (p_n0 p) i * delay0 p / INR (p_n0 p)))
                  + p_pma1 p * sin (d_deph p 1 * PI + 2 * PI * ssd_f1 p * (t - lens (p_n1 p) j * delay1 p / INR (p_n1 p))))
  | GPRPM => cis (jinterp (interp_len p) (arange (dt_update p)) (rpm_series p 0) (t + INR i * delay0 p / INR (p_n0 p))
                  + jinterp (interp_len p) (arange (dt_update p)) (rpm_series p 1) (t + INR j * delay1 p / INR (p_n1 p)))
  | GPISI => isi_series p i j (Nat.min (Z.to_nat (round_half_even (t / dt_update p))) (base_len p - 1))
  end.
(** generate_speckle_pattern (speckle.py:354-400), without the transverse envelope (no caller asks for it), and evaluate (402-422). *)
Definition pattern (p : spk) (t x y : R) : cplx :=
  let X := x / (p_lam p * p_f p / p_D0 p) in let Y := y / (p_lam p * p_f p / p_D1 p) in
  csum (p_n1 p) (fun j => cmul (csum (p_n0 p) (fun i => cmul (cmul (beamlet p t i j) (plate p i j)) (cis (- (2 * PI / INR (p_n0 p) * lens (p_n0 p) i * X)))))
                               (cis (- (2 * PI / INR (p_n1 p) * lens (p_n1 p) j * Y)))).
Definition evaluate (p : spk) (x y t : R) : cplx := pattern p (t * c_si / p_lam p) x y.
(** The normalisation (laser.py:38-49) over [m] x [m] points (the code takes 1000), and the envelope of a row (laser.py:93-98; t in ps, y in um). *)
Definition period0 (p : spk) : R := p_f p * p_lam p / (p_D0 p / INR (p_n0 p)).
Definition period1 (p : spk) : R := p_f p * p_lam p / (p_D1 p / INR (p_n1 p)).
Definition norm_pt (p : spk) (m a b : nat) : cplx := evaluate p (linspace (- period0 p) (period0 p) m a) (linspace (- period1 p) (period1 p) m b) 0.
Definition normalization (p : spk) (m : nat) : R := rsum m (fun a => rsum m (fun b => sqrt (cabs2 (norm_pt p m a b)))) / (INR m * INR m).
Definition envelope (p : spk) (m : nat) (t_ps y_um : R) : cplx := cscal (/ normalization p m) (evaluate p 0 (y_um * / 10 ^ 6) (t_ps * / 10 ^ 12)).
(** The half-width in ky of the pump with speckle (helpers.py:307-312): the largest k0 times the numerical aperture. *)
Definition ky_support (c : lcfg) (dmax : R) (p : spk) : R := k0_of c dmax * (Rmax (p_D0 p) (p_D1 p) / (2 * p_f p)).
