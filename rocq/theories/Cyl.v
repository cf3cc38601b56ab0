(** Model of the cylindrical velocity grid and of the linearised Landau operator of Vlasov-1D2V
    (adept/_vlasov1d2v/helpers.py:20-29, adept/_vlasov1d2v/solvers/pushers/fokker_planck.py:155-403).

    Simplifications: exact real arithmetic; the operator is local in x, so one point in space is modelled and f is
    f[v_par, v_perp]; jax.lax.linalg.tridiagonal_solve returns a solution of the system it is given (so a sweep is a
    relation; existence and uniqueness are proved); erf is the integral of the Gaussian. *)
From Coquelicot Require Import Coquelicot.
From Verif Require Export RSum VGrid DriftDiff.
Local Open Scope R_scope.

Definition dist2 := nat -> nat -> R.

(** perp_grid (helpers.py:20-29): spacing, points and weights. *)
Definition perp_dv (nvp : nat) (vmax : R) : R := vmax / INR nvp.
Definition perp_v (nvp : nat) (vmax : R) (j : nat) : R :=
  linspace (perp_dv nvp vmax / 2) (vmax - perp_dv nvp vmax / 2) nvp j.
Definition perp_w (nvp : nat) (vmax : R) (j : nat) : R := 2 * PI * perp_v nvp vmax j * perp_dv nvp vmax.

(** The attributes of CylindricalLandau (fokker_planck.py:196-222); n_sub = max(int(explicit_substeps), 1). *)
Record cyl := { c_nv : nat; c_v : nat -> R; c_dv : R; c_nvp : nat; c_vp : nat -> R; c_dvp : R; c_wp : nat -> R;
                c_speed : R; c_lorentz : R; c_restore : bool; c_substeps : Z }.
Definition n_sub (c : cyl) : nat := Z.to_nat (Z.max (c_substeps c) 1).
Definition c_w (c : cyl) (i j : nat) : R := c_dv c * c_wp c j * 1.
Definition par_edge (c : cyl) (i : nat) : R := 1 / 2 * (c_v c (S i) + c_v c i).
Definition perp_edge (c : cyl) (j : nat) : R := 1 / 2 * (c_vp c (S j) + c_vp c j).

(** _psi, _dhat_par, _dhat_perp (fokker_planck.py:225-248). *)
Definition erf (x : R) : R := 2 / sqrt PI * RInt (fun t => exp (- (t * t))) 0 x.
Definition psi (x : R) : R := erf (sqrt x) - 2 * sqrt (x / PI) * exp (- x).
Definition dhat_par (s : R) : R := let s := Rmax s (1 / 10 ^ 6) in psi (s ^ 2 / 2) / s ^ 3.
Definition dhat_perp (s : R) : R :=
  let s := Rmax s (1 / 10 ^ 6) in
  let x := s ^ 2 / 2 in
  let psip := sqrt (2 / PI) * s * exp (- x) in
  ((1 - 1 / s ^ 2) * psi x + psip) / (2 * s).
(** _tensor (fokker_planck.py:250-264): (D_parpar, D_parperp, D_perpperp). *)
Definition tensor (c : cyl) (wpar vperp T : R) : R * R * R :=
  let s2 := wpar ^ 2 + vperp ^ 2 in
  let s := sqrt (s2 + 1 / 10 ^ 30) in
  let shat := s / sqrt T in
  let dpar := c_speed c * dhat_par shat in
  let dperp := c_lorentz c * dhat_perp shat in
  ((dpar * wpar ^ 2 + dperp * vperp ^ 2) / s2,
   (dpar - dperp) * wpar * vperp / s2,
   (dpar * vperp ^ 2 + dperp * wpar ^ 2) / s2).
Definition d_pp (c : cyl) (wpar vperp T : R) : R := fst (fst (tensor c wpar vperp T)).
Definition d_pq (c : cyl) (wpar vperp T : R) : R := snd (fst (tensor c wpar vperp T)).
Definition d_qq (c : cyl) (wpar vperp T : R) : R := snd (tensor c wpar vperp T).

(** einsum("xvp,vp->x", f, h). *)
Definition sum2 (c : cyl) (h : dist2) : R := rsum (c_nv c) (fun i => rsum (c_nvp c) (fun j => h i j)).
(** _moments (fokker_planck.py:266-272). *)
Definition m_n (c : cyl) (f : dist2) : R := sum2 c (fun i j => f i j * c_w c i j).
Definition m_u (c : cyl) (f : dist2) : R := sum2 c (fun i j => f i j * (c_v c i * c_w c i j)) / m_n c f.
Definition m_T (c : cyl) (f : dist2) : R :=
  sum2 c (fun i j => f i j * (((c_v c i - m_u c f) ^ 2 + c_vp c j ^ 2) * c_w c i j)) / (3 * m_n c f).
(** M (fokker_planck.py:290, 379). *)
Definition maxwell (c : cyl) (u T : R) (i j : nat) : R := exp (- ((c_v c i - u) ^ 2 + c_vp c j ^ 2) / (2 * T)).

(** The implicit v_par sweep (fokker_planck.py:294-313) on the row of slice j. *)
Definition par_M (c : cyl) (u T : R) (i j : nat) : R := sqrt (maxwell c u T (S i) j * maxwell c u T i j).
Definition par_c (c : cyl) (n u T : R) (i j : nat) : R :=
  n * sqrt T * d_pp c (par_edge c i - u) (c_vp c j) T * par_M c u T i j / c_dv c ^ 2.
Definition par_op (c : cyl) (n u T nudt : R) (j : nat) : tridiagonal :=
  let ce i := par_c c n u T i j in
  let M i := maxwell c u T i j in
  let lo i := match i with O => 0 | S k => ce k end in
  let hi i := if Nat.ltb (S i) (c_nv c) then ce i else 0 in
  {| diagonal := fun i => 1 + nudt * (lo i + hi i) / M i;
     lower := fun i => - nudt * ce i / M i;               (* row i + 1, multiplies f_i *)
     upper := fun i => - nudt * ce i / M (S i) |}.        (* row i, multiplies f_{i+1} *)
Definition par_sweep (c : cyl) (n u T nudt : R) (f g : dist2) : Prop :=
  forall j, (j < c_nvp c)%nat -> forall i, (i < c_nv c)%nat -> mv (c_nv c) (par_op c n u T nudt j) (fun k => g k j) i = f i j.

(** The implicit v_perp sweep (fokker_planck.py:321-334) on the row of cell i. *)
Definition perp_M (c : cyl) (u T : R) (i j : nat) : R := sqrt (maxwell c u T i (S j) * maxwell c u T i j).
Definition perp_c (c : cyl) (n u T : R) (i j : nat) : R :=
  perp_edge c j * (n * sqrt T) * d_qq c (c_v c i - u) (perp_edge c j) T * perp_M c u T i j / c_dvp c ^ 2.
Definition perp_op (c : cyl) (n u T nudt : R) (i : nat) : tridiagonal :=
  let vc j := perp_c c n u T i j in
  let M j := maxwell c u T i j in
  let lo j := match j with O => 0 | S k => vc k end in
  let hi j := if Nat.ltb (S j) (c_nvp c) then vc j else 0 in
  {| diagonal := fun j => 1 + nudt * (lo j + hi j) / (c_vp c j * M j);
     lower := fun j => - nudt * vc j / (c_vp c (S j) * M j);
     upper := fun j => - nudt * vc j / (c_vp c j * M (S j)) |}.
Definition perp_sweep (c : cyl) (n u T nudt : R) (f g : dist2) : Prop :=
  forall i, (i < c_nv c)%nat -> forall j, (j < c_nvp c)%nat -> mv (c_nvp c) (perp_op c n u T nudt i) (g i) j = f i j.

(** A centred difference with replicated boundary cells (fokker_planck.py:274-277, 351-352). *)
Definition centred (len : nat) (d : R) (g : nat -> R) (k : nat) : R :=
  (g (if Nat.ltb (S k) len then S k else k) - g (k - 1)%nat) / (2 * d).
(** explicit_step (fokker_planck.py:339-362). *)
Definition gam_par (c : cyl) (n u T : R) (g : dist2) (i j : nat) : R :=
  let dperp_g k := centred (c_nvp c) (c_dvp c) (g k) j in
  n * sqrt T * d_pq c (par_edge c i - u) (c_vp c j) T * par_M c u T i j * (1 / 2 * (dperp_g (S i) + dperp_g i)).
Definition gam_perp (c : cyl) (n u T : R) (g : dist2) (i j : nat) : R :=
  let dpar_g l := centred (c_nv c) (c_dv c) (fun k => g k l) i in
  n * sqrt T * d_pq c (c_v c i - u) (perp_edge c j) T * (1 / 2 * (dpar_g (S j) + dpar_g j)) * perp_M c u T i j.
Definition div_par (c : cyl) (n u T : R) (g : dist2) (i j : nat) : R :=
  ((if Nat.ltb (S i) (c_nv c) then gam_par c n u T g i j else 0) - match i with O => 0 | S k => gam_par c n u T g k j end) / c_dv c.
Definition div_perp (c : cyl) (n u T : R) (g : dist2) (i j : nat) : R :=
  let vg l := perp_edge c l * gam_perp c n u T g i l in
  ((if Nat.ltb (S j) (c_nvp c) then vg j else 0) - match j with O => 0 | S k => vg k end) / (c_vp c j * c_dvp c).
Definition explicit_step (c : cyl) (n u T nudt : R) (f : dist2) : dist2 := fun i j =>
  let g := fun k l => f k l / maxwell c u T k l in
  f i j + nudt / INR (n_sub c) * (div_par c n u T g i j + div_perp c n u T g i j).

(** CylindricalLandau.__call__ (fokker_planck.py:279-366). *)
Definition cyl_call (c : cyl) (nu dt : R) (f f_new : dist2) : Prop :=
  let n := m_n c f in let u := m_u c f in let T := m_T c f in
  exists f1 f2, par_sweep c n u T (dt * nu) f f1 /\ perp_sweep c n u T (dt * nu) f1 f2 /\
    forall i j, (i < c_nv c)%nat -> (j < c_nvp c)%nat -> f_new i j = Nat.iter (n_sub c) (explicit_step c n u T (dt * nu)) f2 i j.

(** The restoration (fokker_planck.py:374-403). *)
Definition m_hat (c : cyl) (u T : R) (i j : nat) : R := maxwell c u T i j / sum2 c (fun k l => maxwell c u T k l * c_w c k l).
Definition phi1 (c : cyl) (u T : R) (i j : nat) : R :=
  (c_v c i - u) * m_hat c u T i j - sum2 c (fun k l => (c_v c k - u) * m_hat c u T k l * c_w c k l) * m_hat c u T i j.
Definition s2_of (c : cyl) (u : R) (i j : nat) : R := (c_v c i - u) ^ 2 + c_vp c j ^ 2.
Definition phi2 (c : cyl) (u T : R) (i j : nat) : R :=
  (s2_of c u i j - sum2 c (fun k l => s2_of c u k l * m_hat c u T k l * c_w c k l)) * m_hat c u T i j.
Definition mom_v (c : cyl) (i j : nat) : R := c_v c i * c_w c i j.
Definition mom_e (c : cyl) (i j : nat) : R := (c_v c i ^ 2 + c_vp c j ^ 2) * c_w c i j.
Definition restored (c : cyl) (f f_new : dist2) : dist2 :=
  let u := m_u c f in let T := m_T c f in
  let dj := sum2 c (fun i j => (f_new i j - f i j) * mom_v c i j) in
  let de := sum2 c (fun i j => (f_new i j - f i j) * mom_e c i j) in
  let a11 := sum2 c (fun i j => phi1 c u T i j * mom_v c i j) in
  let a12 := sum2 c (fun i j => phi2 c u T i j * mom_v c i j) in
  let a21 := sum2 c (fun i j => phi1 c u T i j * mom_e c i j) in
  let a22 := sum2 c (fun i j => phi2 c u T i j * mom_e c i j) in
  let det := a11 * a22 - a12 * a21 in
  let b := (- dj * a22 + de * a12) / det in
  let k := (- de * a11 + dj * a21) / det in
  fun i j => f_new i j + b * phi1 c u T i j + k * phi2 c u T i j.
(** apply_with_restoration (fokker_planck.py:368-403). *)
Definition cyl_apply (c : cyl) (nu dt : R) (f f_new : dist2) : Prop :=
  exists h, cyl_call c nu dt f h /\
    forall i j, (i < c_nv c)%nat -> (j < c_nvp c)%nat -> f_new i j = if c_restore c then restored c f h i j else h i j.
