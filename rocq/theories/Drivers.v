(** Model of the external drivers of Vlasov-1D and of the unit system.
    (adept/_vlasov1d/solvers/pushers/field.py:13-91, adept/_vlasov1d/simulation.py:36-168, adept/normalization.py)

    Simplifications: exact real arithmetic; a physical quantity is its value in SI units, so pint's unit
    conversions are identities; physical constants are parameters; the random numbers are a parameter. *)
From Coq Require Export Reals Lra Lia ZArith List Bool.
From Verif Require Export RSum Pic VGrid Density.
Export ListNotations.
Local Open Scope R_scope.

(** EMDriver (simulation.py:36-44): [d_space]/[d_time] are the two factors of the envelope (functions.py:103-118). *)
Record driver := { d_a0 : R; d_k0 : R; d_w0 : R; d_dw0 : R; d_time : envelope; d_space : envelope; d_point : bool }.

(** LongitudinalElectricFieldDriver (field.py:13-34). *)
Definition ex_single (d : driver) (x t : R) : R :=
  st_call (d_time d) (d_space d) x t * (d_w0 d + d_dw0 d) * d_a0 d * sin (d_k0 d * x - (d_w0 d + d_dw0 d) * t).
Definition ex_drive (drivers : list driver) (x t : R) : R := fold_left (fun total d => total + ex_single d x t) drivers 0.

(** jnp.argmin: the first index of the smallest of n values. *)
Fixpoint argmin (n : nat) (h : nat -> R) : nat :=
  match n with
  | O => O
  | S m => let b := argmin m h in if Rlt_dec (h m) (h b) then m else b
  end.
(** TransverseCurrentSourceDriver (field.py:37-91); [x] has n entries. *)
Definition point_cell (n : nat) (x : nat -> R) (d : driver) : nat := argmin n (fun i => Rabs (x i - e_center (d_space d))).
Definition point_scale (x : nat -> R) (c : R) (d : driver) : R := 2 * (d_w0 d + d_dw0 d) * c * d_a0 d / (x 1%nat - x 0%nat).
Definition ey_single (n : nat) (x : nat -> R) (c : R) (d : driver) (t : R) (i : nat) : R :=
  let w := d_w0 d + d_dw0 d in
  if d_point d then point_scale x c d * env_call (d_time d) t * (if (i =? point_cell n x d)%nat then 1 else 0) * sin (w * t)
  else - st_call (d_time d) (d_space d) (x i) t * w ^ 2 * d_a0 d * sin (d_k0 d * x i - w * t).
Definition ey_drive (n : nat) (x : nat -> R) (c : R) (drivers : list driver) (t : R) (i : nat) : R :=
  fold_left (fun total d => total + ey_single n x c d t i) drivers 0.

(** AKWDriverConfig.check_w_or_k (datamodel.py:143-148) and the AKW branch of EMDriver.from_config
    (simulation.py:53-63): Python evaluates c * None in the first branch and None / c in the second, which raises;
    [None] is that error. *)
Definition akw_accepted (k0 w0 : option R) : bool := match k0, w0 with None, None => false | _, _ => true end.
Definition akw_build (c : R) (k0 w0 : option R) : option (R * R) :=
  match k0 with
  | None => None
  | Some k => match w0 with None => None | Some w => Some (k, w) end
  end.

(* ------------------------------------------------------------------------------------------------ *)
(** * Units (normalization.py) *)
Record constants := { k_e : R; k_me : R; k_mp : R; k_eps0 : R; k_c : R }.
Definition physical (k : constants) : Prop := 0 < k_e k /\ 0 < k_me k /\ 0 < k_mp k /\ 0 < k_eps0 k /\ 0 < k_c k.
Record norm := { n_m0 : R; n_q0 : R; n_n0 : R; n_T0 : option R; n_L0 : R; n_v0 : R; n_tau : R }.
(** speed_of_light_norm (normalization.py:78-79), vth_norm (74-76). *)
Definition c_norm (k : constants) (u : norm) : R := k_c k / n_v0 u.
(** electron_debye_normalization (normalization.py:104-125). *)
Definition electron_debye (k : constants) (n0 T0 : R) : norm :=
  let wp0 := sqrt (n0 * k_e k ^ 2 / (k_me k * k_eps0 k)) in let v0 := sqrt (T0 / k_me k) in
  {| n_m0 := k_me k; n_q0 := k_e k; n_n0 := n0; n_T0 := Some T0; n_L0 := v0 / wp0; n_v0 := v0; n_tau := 1 / wp0 |}.
(** ion_debye_normalization (normalization.py:128-151). *)
Definition ion_debye (k : constants) (n0 T0 A Z : R) : norm :=
  let m0 := A * k_mp k in let q0 := Z * k_e k in
  let wpi := sqrt (n0 * q0 ^ 2 / (m0 * k_eps0 k)) in let v0 := sqrt (T0 / m0) in
  {| n_m0 := m0; n_q0 := q0; n_n0 := n0; n_T0 := Some T0; n_L0 := v0 / wpi; n_v0 := v0; n_tau := 1 / wpi |}.
(** laser_normalization (normalization.py:154-176). *)
Definition laser_norm (k : constants) (wavelength T0 : R) : norm :=
  let one_over_k := wavelength / 2 / PI in let w := k_c k / one_over_k in
  {| n_m0 := k_me k; n_q0 := k_e k; n_n0 := k_eps0 k * k_me k * w ^ 2 / k_e k ^ 2; n_T0 := Some T0;
     n_L0 := one_over_k; n_v0 := 1 * k_c k; n_tau := 1 / w |}.
(** _osiris_normalization, skin_depth_normalization, skin_depth_normalization_from_frequency (normalization.py:179-228). *)
Definition osiris_norm (k : constants) (wp0 n0 : R) : norm :=
  let v0 := 1 * k_c k in
  {| n_m0 := k_me k; n_q0 := k_e k; n_n0 := n0; n_T0 := None; n_L0 := v0 / wp0; n_v0 := v0; n_tau := 1 / wp0 |}.
Definition skin_depth (k : constants) (n0 : R) : norm := osiris_norm k (sqrt (n0 * k_e k ^ 2 / (k_me k * k_eps0 k))) n0.
Definition skin_depth_from_frequency (k : constants) (wp0 : R) : norm :=
  osiris_norm k wp0 (wp0 ^ 2 * k_eps0 k * k_me k / k_e k ^ 2).
(** normalize (normalization.py:82-101): a plain number passes through; a string is a physical quantity; a bool
    takes the string path and fails on its dimension. [None]: a ValueError or a dimension error. *)
Inductive dimension := DimX | DimT | DimV | DimTemp | DimK | DimOther.
Inductive quantity := Number (r : R) | Bool | Physical (si : R).
Definition normalize (q : quantity) (u : option norm) (d : dimension) : option R :=
  match q with
  | Number r => Some r
  | Bool => None
  | Physical s =>
    match u with
    | None => None
    | Some u => match d with
                | DimX => Some (s / n_L0 u)
                | DimT => Some (s / n_tau u)
                | DimV => Some (s / n_v0 u)
                | DimTemp => match n_T0 u with None => None | Some T => Some (s / T) end
                | DimK => Some (s * n_L0 u)
                | DimOther => None
                end
    end
  end.

(** The intensity/wavelength branch of EMDriver.from_config (simulation.py:65-92): (a0, k0, w0). *)
Definition laser_driver (k : constants) (u : norm) (intensity wavelength : R) (leftgoing : bool) : R * R * R :=
  let a0_std := k_e k * wavelength / (k_me k * PI) * sqrt (intensity / (2 * k_eps0 k * k_c k ^ 5)) in
  (a0_std * c_norm k u,
   (if leftgoing then - (1) else 1) * (2 * PI / wavelength * n_L0 u),
   2 * PI * k_c k / wavelength * n_tau u).

(* ------------------------------------------------------------------------------------------------ *)
(** * StochasticDriver (simulation.py:97-147) *)
Definition st_dt (tau : R) (dt_update : option R) : R := Rmin (match dt_update with Some d => d | None => tau / 10 end) (tau / 2).
Definition st_nt (tmin tmax dtu : R) : Z := (ceil ((tmax - tmin) / dtu) + 2)%Z.
Definition st_time (tmin dtu : R) (k : nat) : R := tmin + dtu * INR k.
(** The amplitudes of one mode: [xi k] is the k-th complex normal number drawn for it. *)
Fixpoint st_amp (amplitude theta : R) (xi : nat -> cplx) (k : nat) : cplx :=
  match k with
  | O => cscal amplitude (xi O)
  | S m => cadd (cscal theta (st_amp amplitude theta xi m)) (cscal (amplitude * sqrt (1 - theta ^ 2)) (xi k))
  end.
Definition st_theta (tau dtu : R) : R := exp (- dtu / tau).
(** jnp.interp on n increasing nodes: clipped searchsorted(side="right"), linear inside, constant outside. *)
Fixpoint count_le (n : nat) (xp : nat -> R) (x : R) : nat :=
  match n with O => O | S m => (count_le m xp x + if Rle_dec (xp m) x then 1 else 0)%nat end.
Definition interp (n : nat) (xp fp : nat -> R) (x : R) : R :=
  let i := Nat.min (Nat.max (count_le n xp x) 1) (n - 1) in
  let f := fp (i - 1)%nat + (x - xp (i - 1)%nat) / (xp i - xp (i - 1)%nat) * (fp i - fp (i - 1)%nat) in
  if Rlt_dec x (xp O) then fp O else if Rlt_dec (xp (n - 1)%nat) x then fp (n - 1)%nat else f.
(** __call__ (simulation.py:142-147); [modes] lists (mode number, amplitude series). *)
Definition st_field (n : nat) (ts : nat -> R) (length : R) (modes : list (Z * (nat -> cplx))) (t x : R) : R :=
  fold_left (fun total md =>
    let ar := interp n ts (fun k => fst (snd md k)) t in let ai := interp n ts (fun k => snd (snd md k)) t in
    let phase := 2 * PI * IZR (fst md) / length * x in total + (ar * cos phase - ai * sin phase)) modes 0.
