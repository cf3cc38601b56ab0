(** Model of the pump of the laser-plasma envelope solver: adept/_lpse2d/core/laser.py (Light.laser_update, lines 51-100) and the drivers that
    feed it, adept/_lpse2d/modules/driver.py:64-196.
    Simplifications: exact arithmetic; the speckle envelope, when configured, is an arbitrary function of time and row (the code evaluates it
    at x = 0 only, laser.py:92-98), already divided by its normalization; the random draws of the drivers are arbitrary functions; a value
    that numpy makes inf or nan (swelling at or above the critical density) is None. calc_ey_at_one_point (laser.py:102-121) is not used by
    a run and is not modelled. *)
From Coq Require Import Reals ZArith List Bool Lia.
From Verif Require Import RSum Pic PicFourier VGrid Lpse Dft.
Local Open Scope R_scope.

(** What Light.__init__ (laser.py:6-49) reads from the configuration. *)
Record lcfg := { g_nx : nat; g_ny : nat; g_dx : R; g_c : R; g_w0 : R; g_wp0 : R; g_E0 : R; g_bg : nat -> nat -> R; g_speckle : option (R -> nat -> cplx) }.
(** The light-wave arguments: a 2-d array (colour, row) can be indexed [i, :], a 1-d array cannot. *)
Inductive arr := Flat (v : nat -> R) | Rows (v : nat -> nat -> R).
Record lwave := { w_n : nat; w_dw : nat -> R; w_int : arr; w_ph : arr }.
(** dk and Lx (laser.py:15-16). *)
Definition ldk (c : lcfg) : R := 2 * PI / (INR (g_nx c) * g_dx c).
Definition lLx (c : lcfg) : R := INR (g_nx c) * g_dx c.
(** The wavenumber of a colour at the reference density and its place on the shifted grid (laser.py:74-75). *)
Definition k0_of (c : lcfg) (dw : R) : R := g_w0 c / g_c c * sqrt ((1 + dw) ^ 2 - g_wp0 c ^ 2 / g_w0 c ^ 2).
Definition k_index (c : lcfg) (dw : R) : nat :=
  Z.to_nat ((round_half_even (k0_of c dw / ldk c) + Z.of_nat (g_nx c / 2)) mod Z.of_nat (g_nx c)).
(** amp (laser.py:76-83). *)
Definition l_amp (c : lcfg) (dw intensity phase t : R) : cplx :=
  cscal (g_E0 c * sqrt intensity) (cis (- (dw * g_w0 c * t - (phase - lLx c / 2 * k0_of c dw)))).
(** E0y_k after the loop over the colours (laser.py:67-84). *)
Definition l_spectrum (c : lcfg) (w : lwave) (t : R) : option (nat -> nat -> cplx) :=
  if (w_n w =? 0)%nat then Some (fun _ _ => c0) else
  match w_int w, w_ph w with
  | Rows It, Rows Ph => Some (fun i b => csum (w_n w) (fun q => if (i =? k_index c (w_dw w q))%nat then l_amp c (w_dw w q) (It q b) (Ph q b) t else c0))
  | _, _ => None
  end.
(** numpy.fft.ifftshift on an axis of length n. *)
Definition ifftshift (n : nat) (X : nat -> cplx) : nat -> cplx := fun i => X ((i + n / 2) mod n)%nat.
(** The swelling factor (laser.py:90-91). *)
Definition swell (c : lcfg) (a b : nat) : option R :=
  let wpe := g_w0 c * sqrt (g_bg c a b) in let r := 1 - wpe ^ 2 / g_w0 c ^ 2 in
  if Rlt_dec 0 r then Some (Rpower r (- (1 / 4))) else None.
(** laser_update (laser.py:51-100): the y component; the x component is zero (laser.py:17,100). *)
Definition laser_update (c : lcfg) (t : R) (w : lwave) : option (nat -> nat -> option cplx) :=
  match l_spectrum c w t with None => None | Some X => Some (fun a b =>
    let f := cscal (INR (g_nx c)) (ifft (g_nx c) (ifftshift (g_nx c) (fun i => X i b)) a) in
    match swell c a b with None => None | Some s => let g := cscal s f in
      Some (match g_speckle c with None => g | Some e => cmul g (e t b) end) end) end.

(** The drivers (driver.py:71-81, 175-196): colours, weights, normalization, phases. *)
Inductive dshape := Uniform | Gaussian | Lorentzian.
Definition d_omega (dmax : R) (n i : nat) : R := linspace (- dmax) dmax n i.
Definition d_weight (s : dshape) (dmax : R) (n i : nat) : R :=
  match s with
  | Uniform => 1
  | Gaussian => 2 * ln 2 / dmax / sqrt PI * exp (- 4 * ln 2 * (d_omega dmax n i / dmax) ^ 2)
  | Lorentzian => 1 / PI * (dmax / 2) / (d_omega dmax n i ^ 2 + (dmax / 2) ^ 2)
  end.
Definition normalized (n : nat) (w : nat -> R) (i : nat) : R := w i / rsum n w.
(** UniformDriver.__call__ (driver.py:99-107), inherited by the Gaussian and the Lorentzian driver. [draw] are the numbers in [-1, 1). *)
Definition drive (s : dshape) (dmax : R) (n : nat) (draw : nat -> R) : lwave :=
  {| w_n := n; w_dw := d_omega dmax n; w_int := Rows (fun i _ => normalized n (d_weight s dmax n) i); w_ph := Rows (fun i _ => tanh (draw i) * PI) |}.
(** ArbitraryDriver (driver.py:110-172): activation and __call__. *)
Inductive activation := ALinear | ALog | ALog3.
Definition scale_int (a : activation) (x : R) : R :=
  match a with
  | ALinear => 1 / 2 * (tanh x + 1)
  | ALog => Rpower 10 (3 * (tanh x + 1) - 3)
  | ALog3 => Rpower 10 (- (3 / 2) * (tanh x + 1))
  end.
Definition drive_arbitrary (a : activation) (dmax : R) (n : nat) (amps draw : nat -> R) : lwave :=
  {| w_n := n; w_dw := d_omega dmax n; w_int := Flat (normalized n (fun i => scale_int a (amps i))); w_ph := Flat (fun i => tanh (draw i) * PI) |}.

(** The retained band (helpers.py:403-446): the isotropic low-pass filter, its taper, and the shifted band of half-width [kx_pump] along x and
    [ky_pump] along y. kmax is the largest positive wavenumber of the x axis. *)
Record fcfg := { f_cut : R; f_taper : R; f_kxp : R; f_kyp : R; f_shifted : bool }.
Definition k_mag (nx ny : nat) (dx dy : R) (i j : nat) : R := sqrt (kx nx dx i ^ 2 + kx ny dy j ^ 2).
Definition kmax (n : nat) (dx : R) : R := INR ((n - 1) / 2) * (2 * PI / (INR n * dx)).
Definition knyq (n : nat) (dx : R) : R := INR (n / 2) * (2 * PI / (INR n * dx)).
Definition low_pass (f : fcfg) (nx ny : nat) (dx dy : R) (i j : nat) : R :=
  let k := k_mag nx ny dx dy i j in let cutoff := f_cut f * kmax nx dx in
  if Rle_dec cutoff 0 then 1
  else if Rle_dec (f_taper f) 0 then (if Rlt_dec k cutoff then 1 else 0)
  else let start := Rmax (cutoff * (1 - f_taper f)) 0 in
       if Rle_dec cutoff k then 0
       else if Rle_dec start k then (if Rlt_dec start cutoff then 1 / 2 * (1 + cos (PI * ((k - start) / (cutoff - start)))) else 1)
       else 1.
Definition band (f : fcfg) (nx ny : nat) (dx dy : R) (i j : nat) : option R :=
  if f_shifted f then
    let lx := knyq nx dx - f_kxp f in let ly := knyq ny dy - f_kyp f in
    if Rle_dec lx 0 then None else if Rle_dec ly 0 then None else
    Some (if Rle_dec (Rabs (kx nx dx i)) lx then if Rle_dec (Rabs (kx ny dy j)) ly then low_pass f nx ny dx dy i j else 0 else 0)
  else Some (low_pass f nx ny dx dy i j).
(** _pump_k_support (helpers.py:280-317) without speckle: the largest k0 over the colours, and zero. *)
Definition pump_support (c : lcfg) (dmax : R) : R := k0_of c dmax.
