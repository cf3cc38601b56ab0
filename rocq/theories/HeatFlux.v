(** Model of the VFP-1D heat-flux diagnostics: adept/vfp1d/heat_flux.py:33-199 (Spitzer-Haerm and SNB fluxes), the
    Epperlein-Haines table and the saved moments of adept/vfp1d/storage.py:13-90, 342-385, 444-470.

    Simplifications: exact real arithmetic; arrays are functions on the natural numbers (nx centres, nx+1 edges);
    solve_banded is represented by the relation "the returned vector solves the banded system" (a solution exists and is
    unique, C72_snb_solvable); plots and netCDF files are not modelled. *)
From Verif Require Export PyStr RSum DriftDiff Drivers Vfp.
Local Open Scope R_scope.

(** Epperlein-Haines table (storage.py:24, 28, 30; 84-88). The other rows of the table are not used by the code. *)
Definition eh_Z (i : nat) : R := nth i [1; 2; 3; 4; 5; 6; 7; 8; 10; 12; 14; 20; 30; 60; 1000001] 0.
Definition eh_g0p (i : nat) : R := nth i [618/100; 93/10; 102/10; 914/100; 86/10; 857/100; 884/100; 793/100; 744/100; 732/100; 708/100; 679/100; 674/100; 636/100; 621/100] 0.
Definition eh_c0p (i : nat) : R := nth i [193/100; 189/100; 166/100; 131/100; 112/100; 104/100; 102/100; 875/1000; 77/100; 722/1000; 674/1000; 605/1000; 566/1000; 502/1000; 457/1000] 0.
Definition calc_EH (Z : R) : R := interp 15 eh_Z eh_g0p Z / interp 15 eh_Z eh_c0p Z.

(** _geometry_factors (heat_flux.py:35-44); [xs]: centres. *)
Definition hf_edge (nx : nat) (xs : nat -> R) (dx : R) (e : nat) : R :=
  if Nat.eqb e 0 then xs 0%nat - dx / 2 else if Nat.eqb e nx then xs (nx - 1)%nat + dx / 2 else 1 / 2 * (xs e + xs (e - 1)%nat).
Definition hf_area (sph : bool) (nx : nat) (xs : nat -> R) (dx : R) (e : nat) : R := if sph then hf_edge nx xs dx e ^ 2 else 1.
Definition hf_vol (sph : bool) (nx : nat) (xs : nat -> R) (dx : R) (i : nat) : R :=
  if sph then (hf_edge nx xs dx (S i) ^ 3 - hf_edge nx xs dx i ^ 3) / 3 else dx.
(** _interp_c2e, _ddx_c2e (heat_flux.py:47-54). *)
Definition hf_c2e (nx : nat) (f : nat -> R) (e : nat) : R :=
  if Nat.eqb e 0 then f 0%nat else if Nat.eqb e nx then f (nx - 1)%nat else 1 / 2 * (f e + f (e - 1)%nat).
Definition hf_ddx (nx : nat) (dx : R) (f : nat -> R) (e : nat) : R := if Nat.eqb e 0 then 0 else if Nat.eqb e nx then 0 else (f e - f (e - 1)%nat) / dx.

Record hf := { h_nx : nat; h_dx : R; h_x : nat -> R; h_n : nat -> R; h_T : nat -> R; h_Z : nat -> R; h_ni : nat -> R; h_sph : bool;
               n_ref : R; T_ref : R; Z_ref : R; nuei_ref : R; h_nuee : R; h_loglam : R; h_groups : nat; h_bmax : R; h_r : R }.
(** local_transport_coefficients (heat_flux.py:57-80). *)
Definition nu_local (p : hf) (i : nat) : R := nuei_ref p * (h_Z p i / Z_ref p) * (h_n p i / n_ref p) * Rpower (h_T p i / T_ref p) (- (3 / 2)).
(** spitzer_harm_heat_flux (heat_flux.py:83-95). *)
Definition chi (p : hf) (i : nat) : R := calc_EH (h_Z p i) * h_n p i * h_T p i / nu_local p i.
Definition q_sh (p : hf) (e : nat) : R := - hf_c2e (h_nx p) (chi p) e * hf_ddx (h_nx p) (h_dx p) (h_T p) e.

(** snb_heat_flux (heat_flux.py:98-199). *)
Fixpoint maxf (n : nat) (f : nat -> R) : R := match n with O => f 0%nat | S k => Rmax (maxf k f) (f (S k)) end.
Definition eps_edge (p : hf) (k : nat) : R := linspace 0 (h_bmax p * maxf (h_nx p - 1) (h_T p)) (h_groups p + 1) k.
Definition eps_c (p : hf) (k : nat) : R := 1 / 2 * (eps_edge p (S k) + eps_edge p k).
Definition cdf (b : R) : R := 1 - exp (- b) * (1 + b + b ^ 2 / 2 + b ^ 3 / 6 + b ^ 4 / 24).
Definition lam_ee (p : hf) (k i : nat) : R := (2 * eps_c p k) ^ 2 / (h_nuee p * h_n p i).
Definition lam_ei (p : hf) (k e : nat) : R := (2 * eps_c p k) ^ 2 / (h_nuee p * h_loglam p * hf_c2e (h_nx p) (fun i => h_Z p i ^ 2 * h_ni p i) e).
Definition D_e (p : hf) (k e : nat) : R := hf_c2e (h_nx p) (fun i => (h_Z p i + 24 / 100) / (h_Z p i + 42 / 10)) e * lam_ei p k e / 3.
Definition w_group (p : hf) (k e : nat) : R := cdf (eps_edge p (S k) / hf_c2e (h_nx p) (h_T p) e) - cdf (eps_edge p k / hf_c2e (h_nx p) (h_T p) e).
Definition s_area (p : hf) (e : nat) : R := hf_area (h_sph p) (h_nx p) (h_x p) (h_dx p) e.
Definition s_vol (p : hf) (i : nat) : R := hf_vol (h_sph p) (h_nx p) (h_x p) (h_dx p) i.
Definition snb_src (p : hf) (k i : nat) : R := - (s_area p (S i) * (w_group p k (S i) * q_sh p (S i)) - s_area p i * (w_group p k i * q_sh p i)) / s_vol p i.
(** Interior face conductances; entry j is the face between cells j and j+1 (heat_flux.py:178). *)
Definition conduct (p : hf) (k j : nat) : R := s_area p (S j) * D_e p k (S j) / h_dx p.
(** The banded matrix (heat_flux.py:179-188) in diagonal form: upper j couples row j to j+1, lower j row j+1 to j. *)
Definition snb_matrix (p : hf) (k : nat) : tridiagonal :=
  {| diagonal := fun i => h_r p / lam_ee p k i + (if Nat.ltb (S i) (h_nx p) then conduct p k i / s_vol p i else 0) + (match i with O => 0 | S j => conduct p k j / s_vol p i end);
     upper := fun j => - conduct p k j / s_vol p j;
     lower := fun j => - conduct p k j / s_vol p (S j) |}.
Definition snb_solution (p : hf) (H : nat -> nat -> R) : Prop := forall k i, (k < h_groups p)%nat -> (i < h_nx p)%nat -> mv (h_nx p) (snb_matrix p k) (H k) i = snb_src p k i.
Definition q_snb (p : hf) (H : nat -> nat -> R) (e : nat) : R := q_sh p e - rsum (h_groups p) (fun k => D_e p k e * hf_ddx (h_nx p) (h_dx p) (H k) e).

(** Saved moments (storage.py:348-379, 452-468). *)
Definition f0_moment (g : vgrid) (f : nat -> R) : R := 4 * PI * rsum (n_v g) (fun i => f i * v_at g i ^ 2) * d_v g.
Definition f1_moment (g : vgrid) (f : nat -> R) : R := 4 / 3 * PI * rsum (n_v g) (fun i => f i * v_at g i ^ 3) * d_v g.
Definition save_n (g : vgrid) (y : vix -> R) (x : nat) : R := f0_moment g (fun i => y (F0 x i)).
Definition save_v (g : vgrid) (y : vix -> R) (x : nat) : R := interp_e2c (fun e => f1_moment g (fun i => y (F10 e i))) x.
Definition save_U (g : vgrid) (y : vix -> R) (x : nat) : R := f0_moment g (fun i => y (F0 x i) * v_at g i ^ 2).
Definition save_P (g : vgrid) (y : vix -> R) (x : nat) : R := save_U g y x / 3.
Definition save_T (g : vgrid) (y : vix -> R) (x : nat) : R := save_P g y x / save_n g y x.
Definition save_q (g : vgrid) (y : vix -> R) (x : nat) : R := interp_e2c (fun e => f1_moment g (fun i => 1 / 2 * y (F10 e i) * v_at g i ^ 2)) x.
Definition mean (n : nat) (f : nat -> R) : R := rsum n f / INR n.
Definition mean_n (g : vgrid) (y : vix -> R) : R := mean (n_x g) (fun x => f0_moment g (fun i => y (F0 x i))).
Definition mean_U (g : vgrid) (y : vix -> R) : R := mean (n_x g) (fun x => f0_moment g (fun i => y (F0 x i) * v_at g i ^ 2)).
Definition mean_j (g : vgrid) (y : vix -> R) : R := mean (n_x g) (fun x => f1_moment g (fun i => interp_e2c (fun e => y (F10 e i)) x)).
Definition mean_q (g : vgrid) (y : vix -> R) : R := mean (n_x g) (fun x => f1_moment g (fun i => 1 / 2 * interp_e2c (fun e => y (F10 e i)) x * v_at g i ^ 2)).
(** compare_heat_flux: ratio at the peak (heat_flux.py:249-258). *)
Definition safe_ratio (num den : R) : R := if Rlt_dec (1 / 10 ^ 30) (Rabs den) then num / den else 0.
(** calc_kappa (storage.py:127-151): gradient along x with one-sided ends. *)
Definition calc_kappa (nx : nat) (dx nuei : R) (n T q : nat -> R) (x : nat) : R := - q x / n x / T x / gradient nx dx T x * nuei.
