(** Model of the laser-plasma envelope solver: adept/_lpse2d/core/epw.py (SpectralEPWSolver, lines 282-644, the solver that
    adept/_lpse2d/core/vector_field.py:25 selects) and adept/_lpse2d/core/vector_field.py (SplitStep).
    Simplifications: exact arithmetic; a 2-d array is a function of the two indices, read below nx and ny; a complex array is a pair of
    reals per cell (the float64 views of _unpack_y_/_pack_y_, vector_field.py:42-56, are lossless and not modelled); the random phases
    of the noise source are an arbitrary function of time and mode. The older class SpectralPotential (epw.py:9-279) is not selected by
    any code path and is not modelled. *)
From Coq Require Import Reals ZArith List Bool Lia.
From Verif Require Import RSum Pic Dft.
Local Open Scope R_scope.

(** jnp.fft.fft2 and jnp.fft.ifft2 over the two axes. *)
Definition cfield : Type := nat -> nat -> cplx.
Definition fft2 (nx ny : nat) (h : cfield) : cfield := fun i j => cfft nx (fun a => cfft ny (fun b => h a b) j) i.
Definition ifft2 (nx ny : nat) (X : cfield) : cfield := fun a b => ifft nx (fun i => ifft ny (fun j => X i j) b) a.

(** What SpectralEPWSolver.__init__ (epw.py:298-358) reads from the configuration. [e_noise t i j] are the random phases. The flag
    [e_srs] (terms.epw.source.srs) and [e_hyper] (terms.epw.hyperviscosity) are configuration entries this solver never reads. *)
Record ecfg := { e_nx : nat; e_ny : nat; e_dx : R; e_dy : R; e_dt : R; e_wp0 : R; e_w0 : R; e_vte2 : R; e_e : R; e_me : R; e_nu : R;
  e_env : R; e_bg : nat -> nat -> R; e_bound : nat -> nat -> R; e_filter : nat -> nat -> R; e_tpd : bool; e_noise_on : bool;
  e_noise : R -> nat -> nat -> R; e_grad : bool; e_srs : bool; e_hyper : option (R * nat) }.
(** kx, ky (helpers.py:348-350, fftfreq with spacing dx / 2 / pi) and k_sq, one_over_k_sq, zero_mask (epw.py:315-323). *)
Definition ekx (c : ecfg) (i : nat) : R := kx (e_nx c) (e_dx c) i.
Definition eky (c : ecfg) (j : nat) : R := kx (e_ny c) (e_dy c) j.
Definition ksq (c : ecfg) (i j : nat) : R := ekx c i ^ 2 + eky c j ^ 2.
Definition inv_ksq (c : ecfg) (i j : nat) : R := if Rlt_dec 0 (ksq c i j) then 1 / ksq c i j else 0.
Definition zmask (c : ecfg) (i j : nat) : R := if Rlt_dec 0 (ksq c i j) then 1 else 0.
(** calc_landau_damping_rate (epw.py:360-384). *)
Definition ksq_safe (c : ecfg) (i j : nat) : R := if Rlt_dec 0 (ksq c i j) then ksq c i j else 1.
Definition landau (c : ecfg) (i j : nat) : R :=
  sqrt (PI / 8) * (1 + 3 / 2 * ksq c i j * e_vte2 c / e_wp0 c ^ 2) * e_wp0 c ^ 4
  / (Rpower (ksq_safe c i j) (3 / 2) * Rpower (e_vte2 c) (3 / 2))
  * exp (- (3 / 2 + 1 / 2 * e_wp0 c ^ 2 / (ksq_safe c i j * e_vte2 c))) * zmask c i j.
(** phi_k_to_e_fields (epw.py:386-420). *)
Definition ex_of (c : ecfg) (phi : cfield) : cfield := ifft2 (e_nx c) (e_ny c) (fun i j => cmul (0, - ekx c i) (phi i j)).
Definition ey_of (c : ecfg) (phi : cfield) : cfield := ifft2 (e_nx c) (e_ny c) (fun i j => cmul (0, - eky c j) (phi i j)).
(** e_fields_to_phi_k (epw.py:422-459). *)
Definition phi_of (c : ecfg) (ex ey : cfield) : cfield := fun i j =>
  let ex_k := fft2 (e_nx c) (e_ny c) ex i j in let ey_k := fft2 (e_nx c) (e_ny c) ey i j in
  let div := cscal (e_filter c i j) (cmul (0, 1) (cadd (cscal (ekx c i) ex_k) (cscal (eky c j) ey_k))) in
  cscal (zmask c i j) (cscal (inv_ksq c i j) div).
(** calc_tpd_source (epw.py:461-505) and tpd_prefactor (epw.py:347). *)
Definition tpd_source (c : ecfg) (t : R) (phi ey E0y : cfield) : cfield := fun i j =>
  let F := fft2 (e_nx c) (e_ny c) in
  let tpd1 := F (fun a b => cmul (E0y a b) (conj (ey a b))) i j in
  let div_true := ifft2 (e_nx c) (e_ny c) (fun i j => cscal (ksq c i j) (phi i j)) in
  let tpd2 := cmul (0, eky c j * inv_ksq c i j) (F (fun a b => cmul (E0y a b) (conj (div_true a b))) i j) in
  let pref := (0, e_e c / (8 * e_wp0 c * e_me c)) in
  let phase := cis (- ((e_w0 c - 2 * e_wp0 c) * t)) in
  cscal (zmask c i j) (cscal (e_filter c i j) (cmul (cmul pref phase) (cadd tpd1 tpd2))).
(** get_noise (epw.py:507-533); noise_amplitude (epw.py:351). *)
Definition noise_at (c : ecfg) (t : R) : cfield := fun i j =>
  cscal (zmask c i j) (cscal (e_filter c i j) (cscal (/ 10 ^ 10) (cis (2 * PI * e_noise c t i j)))).
(** __call__ steps 1-3 (epw.py:568-585). *)
Definition epw_linear (c : ecfg) (phi : cfield) : cfield := fun i j =>
  let a := cmul (phi i j) (cis (- (3 / 2 * e_vte2 c / e_wp0 c * ksq c i j * e_dt c))) in
  cscal (e_filter c i j) (cscal (exp (- (landau c i j + e_nu c) * e_dt c)) a).
(** step 4 (epw.py:590-593). *)
Definition epw_noisy (c : ecfg) (t : R) (phi : cfield) : cfield := fun i j =>
  let p := epw_linear c phi i j in if e_noise_on c then cadd p (cscal (e_dt c) (noise_at c t i j)) else p.
(** steps 7-8 (epw.py:610-629): the density phase and the absorbing boundary, in real space. *)
Definition epw_medium (c : ecfg) (f : cfield) : cfield := fun a b =>
  let g := if e_grad c then cmul (f a b) (cis (- (e_wp0 c / 2 * (e_bg c a b / e_env c - 1) * e_dt c))) else f a b in
  cscal (e_bound c a b) g.
(** SpectralEPWSolver.__call__ (epw.py:535-644). *)
Definition epw_step (c : ecfg) (t : R) (E0y phi : cfield) : cfield :=
  let p := epw_noisy c t phi in
  let ex := ex_of c p in let ey := ey_of c p in
  let p' := phi_of c (epw_medium c ex) (epw_medium c ey) in
  if e_tpd c then fun i j => cadd (p' i j) (cscal (e_dt c) (tpd_source c t p ey E0y i j)) else p'.

(** The state (modules/base.py:97-102) and SplitStep.__call__ (vector_field.py:67-91). [light t] is the y component the laser module
    returns (its x component is identically zero, laser.py:17,100) and [coeff t] the temporal envelope; [None] for the light means that no
    "E0" driver is in the arguments. With an "E2" driver the step reads self.epw.driver, which SpectralEPWSolver does not have: None. *)
Record lst := { l_epw : cfield; l_E0x : cfield; l_E0y : cfield; l_E1x : cfield; l_E1y : cfield }.
Record sdrv := { s_light : option ((R -> R) * (R -> cfield)); s_E2 : bool }.
Definition split_step (c : ecfg) (d : sdrv) (t : R) (y : lst) : option lst :=
  let e0x := match s_light d with Some _ => fun _ _ => c0 | None => l_E0x y end in
  let e0y := match s_light d with Some (co, li) => fun a b => cscal (co t) (li t a b) | None => l_E0y y end in
  if s_E2 d then None else
  Some {| l_epw := epw_step c t e0y (l_epw y); l_E0x := e0x; l_E0y := e0y;
          l_E1x := fun a b => cscal (e_bound c a b) (l_E1x y a b); l_E1y := fun a b => cscal (e_bound c a b) (l_E1y y a b) |}.
(** diffeqsolve with the Stepper (modules/base.py:123-134): fixed steps of dt, each state the step of the one before. *)
Fixpoint split_run (c : ecfg) (d : sdrv) (n : nat) (t : R) (y : lst) : option lst :=
  match n with O => Some y | S k => match split_step c d t y with Some y' => split_run c d k (t + e_dt c) y' | None => None end end.
(** init_state_and_args (modules/base.py:77-102): phi_noise is multiplied by zero, the laser fields start at zero. *)
Definition lpse_init (noise : cfield) : lst :=
  {| l_epw := fun i j => cscal 0 (noise i j); l_E0x := fun _ _ => c0; l_E0y := fun _ _ => c0; l_E1x := fun _ _ => c0; l_E1y := fun _ _ => c0 |}.
(** The saved series (helpers.py:862-873): e_sq and max_phi. *)
Definition e_sq (c : ecfg) (phi : cfield) : R :=
  rsum (e_nx c) (fun a => rsum (e_ny c) (fun b => (cabs2 (ex_of c phi a b) + cabs2 (ey_of c phi a b)) * e_dx c * e_dy c)).
