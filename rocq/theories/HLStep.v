(** Model of one time step of the Hermite-Legendre solver (adept/_hermite_legendre_1d/vector_field.py:267-300, 526-550, 809-1175).

    Simplifications: exact real arithmetic; np.linalg.eigh and jnp.linalg.solve are parameters; jnp.linalg.inv of the 3x3 Gram
    matrix is the adjugate over the determinant; the state dictionary is the pair (Ck, Bk) and the scalars are returned next to it;
    the float64 views are not modelled. *)
From Coq Require Export Reals Lra Lia List Bool.
From Verif Require Export HermLeg HLColl RSum Pic PicFourier Dft.
Import ListNotations.
Local Open Scope R_scope.

Definition hst : Type := coeffs * coeffs.
Inductive hl_integrator := Lawson | Imex | Split.
(** The attributes of HermiteLegendre1DVectorField (vector_field.py:829-895) and of the objects it holds. *)
Record hlcfg := {
  hl_nx : nat; hl_Nh : nat; hl_Nl : nat; hl_alpha : R; hl_u : R; hl_va : R; hl_vb : R; hl_Lx : R; hl_dt : R;
  hl_mask : option (nat -> bool); hl_field_on : bool; hl_driver : option (R -> nat -> R); hl_integ : hl_integrator;
  hl_iters : nat; hl_enforce : bool; hl_gam : nat -> R; hl_cv : nat -> R;
  hl_evH : nat -> R; hl_VH : nat -> nat -> R; hl_evL : nat -> R; hl_VL : nat -> nat -> R; hl_nuH : R; hl_nuL : R;
  hl_leg : R -> (nat -> cplx) -> nat -> cplx;
  hl_solve : nat -> (nat -> nat -> R) -> R -> (nat -> cplx) -> nat -> cplx;
  hl_coll : option (R -> hst -> hst) }.
Definition hl_width (c : hlcfg) : R := hl_vb c - hl_va c.
Definition hl_dx (c : hlcfg) : R := hl_Lx c / INR (hl_nx c).
(** kx_1d and one_over_kx (modules.py:217-219): fftfreq(Nx) Nx 2 pi / Lx is [Pic.kx] with dx = Lx / Nx. *)
Definition hl_kx (c : hlcfg) : nat -> R := kx (hl_nx c) (hl_dx c).
Definition hl_iok (c : hlcfg) : nat -> R := one_over_kx (hl_nx c) (hl_dx c).

(** DiagonalCollisionExp1D.apply (vector_field.py:290-300). *)
Definition edge_decay (nu : R) (N : nat) (C : coeffs) (s : R) : coeffs :=
  if Req_EM_T nu 0 then C else fun n k => cscal (exp (- nu * safe_col N n * s)) (C n k).
(** CombinedLinearExp1D.apply (vector_field.py:526-550) with the streams of modules.py:392-393. *)
Definition hl_linear (c : hlcfg) (s : R) (y : hst) : hst :=
  (edge_decay (hl_nuH c) (hl_Nh c) (stream (hl_Nh c) (hl_evH c) (hl_VH c) (hl_alpha c) (hl_kx c) (fst y) s) s,
   edge_decay (hl_nuL c) (hl_Nl c) (stream (hl_Nl c) (hl_evL c) (hl_VL c) 1 (hl_kx c) (snd y) s) s).

(** The self-consistent field, zero when the field is off (vector_field.py:903 and every later use). *)
Definition hl_self (c : hlcfg) (y : hst) (g : nat) : R :=
  if hl_field_on c then hl_field (hl_nx c) (hl_alpha c) (hl_width c) (hl_iok c) (fst y) (snd y) g else 0.
Definition hl_ext (c : hlcfg) (t : R) (g : nat) : R := match hl_driver c with Some d => d t g | None => 0 end.
Definition hl_total (c : hlcfg) (t : R) (y : hst) (g : nat) : R := hl_self c y g + hl_ext c t g.

Definition hl_cross (c : hlcfg) (C : coeffs) (E : nat -> R) : coeffs :=
  cross_coupling (hl_Nh c) (hl_nx c) (hl_mask c) (hl_kx c) (hl_cv c) (hl_alpha c) C E.
(** _nonlinear_rhs (vector_field.py:897-936). *)
Definition hl_rhs (c : hlcfg) (t : R) (y : hst) : hst :=
  let E := hl_total c t y in let cr := hl_cross c (fst y) E in
  match hl_integ c with
  | Imex => (fun _ _ => c0, cr)
  | _ => (hermite_force (hl_nx c) (hl_mask c) (hl_alpha c) (fst y) E,
          fun n k => cadd (legendre_force (hl_Nl c) (hl_nx c) (hl_mask c) (hl_va c) (hl_vb c) (hl_gam c) (snd y) E n k) (cr n k))
  end.
(** _tree_add, _tree_scale (vector_field.py:809-814). *)
Definition ladd (a b : hst) : hst := (fun n k => cadd (fst a n k) (fst b n k), fun n k => cadd (snd a n k) (snd b n k)).
Definition lscale (a : hst) (r : R) : hst := (fun n k => cscal r (fst a n k), fun n k => cscal r (snd a n k)).
(** _lawson_rk4 (vector_field.py:939-968). *)
Definition hl_lawson (c : hlcfg) (t : R) (y : hst) : hst :=
  let dt := hl_dt c in let L := fun a s => hl_linear c s a in
  let Eh := L y (dt / 2) in let Ef := L y dt in
  let N1 := hl_rhs c t y in let Eh_N1 := L N1 (dt / 2) in
  let N2 := hl_rhs c (t + dt / 2) (ladd Eh (lscale Eh_N1 (dt / 2))) in
  let N3 := hl_rhs c (t + dt / 2) (ladd Eh (lscale N2 (dt / 2))) in
  let Eh_N3 := L N3 (dt / 2) in
  let N4 := hl_rhs c (t + dt) (ladd Ef (lscale Eh_N3 dt)) in
  let Ef_N1 := L N1 dt in let Eh_N2 := L N2 (dt / 2) in
  ladd Ef (lscale (ladd (ladd Ef_N1 (lscale Eh_N2 2)) (ladd (lscale Eh_N3 2) N4)) (dt / 6)).

(** _force_cayley (vector_field.py:970-996). *)
Definition hl_force (c : hlcfg) (y : hst) (E : nat -> R) (dt : R) : hst :=
  (force_cayley (hl_nx c) (hl_mask c) (fun s => clift (hcayley (hl_alpha c) s)) (fst y) E dt,
   force_cayley (hl_nx c) (hl_mask c) (hl_leg c) (snd y) E dt).

(** _moment_matrix (vector_field.py:889-892) and _moment_density (vector_field.py:998-1004). *)
Definition hl_M (c : hlcfg) : nat -> nat -> R := moment_matrix (hl_alpha c) (hl_u c) (lT (hl_va c) (hl_vb c)) (hl_width c).
Definition k0 (A : coeffs) (n : nat) : R := fst (A n 0%nat).
Definition mean_sq (nx : nat) (E : nat -> R) : R := rsum nx (fun g => E g ^ 2) / INR nx.
Definition moment_density (c : hlcfg) (y : hst) (E : nat -> R) (r : nat) : R :=
  moments (hl_M c) (k0 (fst y)) (k0 (snd y)) r + (if (r =? 2)%nat then 1 / 2 * mean_sq (hl_nx c) E else 0).
(** _moment_projector = M^T inv(M M^T) (vector_field.py:893-895). *)
Definition gram (M : nat -> nat -> R) (i j : nat) : R := rsum 6 (fun c => M i c * M j c).
Definition cof (G : nat -> nat -> R) (i j : nat) : R :=
  let a := (i + 1) mod 3 in let b := (i + 2) mod 3 in let p := (j + 1) mod 3 in let q := (j + 2) mod 3 in
  G a p * G b q - G a q * G b p.
Definition det3 (G : nat -> nat -> R) : R := rsum 3 (fun j => G 0%nat j * cof G 0 j).
Definition inv3 (G : nat -> nat -> R) (i j : nat) : R := cof G j i / det3 G.
Definition projector (M : nat -> nat -> R) (i r : nat) : R := rsum 3 (fun j => M j i * inv3 (gram M) j r).
(** _conservation_correct (vector_field.py:1006-1019); jnp.linalg.norm(delta) next to the state. *)
Definition low_delta (c : hlcfg) (y : hst) (target : nat -> R) (i : nat) : R :=
  rsum 3 (fun r => projector (hl_M c) i r * (target r - moment_density c y (hl_self c y) r)).
Definition add_k0 (A : coeffs) (d : nat -> R) : coeffs :=
  fun n k => if ((n <? 3) && (k =? 0))%nat%bool then cadd (A n k) (d n, 0) else A n k.
Definition hl_correct (c : hlcfg) (y : hst) (target : nat -> R) : hst * R :=
  let d := low_delta c y target in
  ((add_k0 (fst y) d, add_k0 (snd y) (fun n => d (n + 3)%nat)), sqrt (rsum 6 (fun i => d i ^ 2))).

(** _split_step (vector_field.py:1036-1090): the corrector loop returns (forced, residual, E_mid). *)
Definition norm_x (nx : nat) (E : nat -> R) : R := sqrt (rsum nx (fun g => E g ^ 2)).
Definition hl_forced (c : hlcfg) (half : hst) (E_mid : nat -> R) : hst :=
  let f := hl_force c half E_mid (hl_dt c) in
  let C_mid := fun n k => cscal (1 / 2) (cadd (fst half n k) (fst f n k)) in
  (fst f, fun n k => cadd (snd f n k) (cscal (hl_dt c) (hl_cross c C_mid E_mid n k))).
Definition hl_next (c : hlcfg) (t : R) (half : hst) (E_left E_mid : nat -> R) (g : nat) : R :=
  1 / 2 * (E_left g + hl_total c (t + 1 / 2 * hl_dt c) (hl_forced c half E_mid) g).
Definition hl_residual (c : hlcfg) (E_mid E_next : nat -> R) : R :=
  norm_x (hl_nx c) (fun g => E_mid g - E_next g) / Rmax (norm_x (hl_nx c) E_mid) (/ 10 ^ 14).
Fixpoint hl_iter (c : hlcfg) (t : R) (half : hst) (E_left : nat -> R) (n : nat) (E_mid : nat -> R) : nat -> R :=
  match n with O => E_mid | S k => hl_iter c t half E_left k (hl_next c t half E_left E_mid) end.
(** The field with which the last pass of the loop (split_field_iters >= 1) works. *)
Definition hl_E_left (c : hlcfg) (t : R) (half : hst) : nat -> R := hl_total c (t + 1 / 2 * hl_dt c) half.
Definition hl_predict (c : hlcfg) (t : R) (half : hst) : nat -> R :=
  let E_left := hl_E_left c t half in
  let p := hl_force c half E_left (hl_dt c) in
  let pred := (fst p, fun n k => cadd (snd p n k) (cscal (hl_dt c) (hl_cross c (fst half) E_left n k))) in
  fun g => 1 / 2 * (E_left g + hl_total c (t + 1 / 2 * hl_dt c) pred g).
Definition hl_E_mid (c : hlcfg) (t : R) (half : hst) : nat -> R :=
  hl_iter c t half (hl_E_left c t half) (hl_iters c - 1) (hl_predict c t half).
Definition hl_split (c : hlcfg) (t : R) (y : hst) : hst * R * R :=
  let target := moment_density c y (hl_self c y) in
  let half := hl_linear c (1 / 2 * hl_dt c) y in
  let E_mid := hl_E_mid c t half in
  let out := hl_linear c (1 / 2 * hl_dt c) (hl_forced c half E_mid) in
  let res := hl_residual c E_mid (hl_next c t half (hl_E_left c t half) E_mid) in
  if (hl_enforce c && match hl_driver c with None => true | _ => false end)%bool
  then let o := hl_correct c out target in (fst o, res, snd o) else (out, res, 0).

(** _implicit_E_substep (vector_field.py:1092-1127). *)
Definition hl_implicit (c : hlcfg) (y : hst) (E : nat -> R) (dt : R) : hst :=
  let sub := fun (N : nat) (G : nat -> nat -> R) (A : coeffs) n =>
    masked (hl_mask c) (ffwd (hl_nx c) (fun g => hl_solve c N G (dt * E g) (fun n' => finv (hl_nx c) (masked (hl_mask c) (A n')) g) n)) in
  (sub (hl_Nh c) (G_C (hl_alpha c)) (fst y), sub (hl_Nl c) (G_B (hl_va c) (hl_vb c) (hl_gam c)) (snd y)).

(** _coefficient_diagnostics (vector_field.py:1021-1034); jnp.max over the grid is [maxn]. *)
Fixpoint maxn (n : nat) (f : nat -> R) : R := match n with O => 0 | S m => Rmax (maxn m f) (f m) end.
Definition cmod (a : cplx) : R := sqrt (cabs2 a).
Definition hl_edge (nx Nl : nat) (xi : nat -> R) (B : coeffs) : R :=
  maxn nx (fun g => cmod (csum Nl (fun m => cscal (xi m) (finv nx (B m) g)))).
Definition hl_high (nx Nl : nat) (B : coeffs) : R :=
  let cutoff := Nat.max 3 (3 * Nl / 4) in
  let total := rsum Nl (fun m => rsum nx (fun k => cabs2 (B m k))) in
  let high := rsum (Nl - cutoff) (fun i => rsum nx (fun k => cabs2 (B (cutoff + i)%nat k))) in
  if Rlt_dec 0 total then high / total else 0.

(** __call__ (vector_field.py:1129-1175). *)
Record hl_out := { o_state : hst; o_e : nat -> R; o_phi : nat -> R; o_de : nat -> R;
  o_edge_a : R; o_edge_b : R; o_edge : R; o_high : R; o_residual : R; o_correction : R }.
Definition hl_collide (c : hlcfg) (y : hst) : hst := match hl_coll c with Some f => f (1 / 2 * hl_dt c) y | None => y end.
Definition hl_advance (c : hlcfg) (t : R) (y : hst) : hst * R * R :=
  match hl_integ c with
  | Split => hl_split c t y
  | Lawson => (hl_lawson c t y, 0, 0)
  | Imex => let p := hl_lawson c t y in (hl_implicit c p (hl_total c (t + hl_dt c) p) (hl_dt c), 0, 0)
  end.
Definition hl_step (c : hlcfg) (t : R) (y : hst) : hl_out :=
  let a := hl_advance c t (hl_collide c y) in
  let y' := hl_collide c (fst (fst a)) in
  let ea := hl_edge (hl_nx c) (hl_Nl c) lxi_a (snd y') in let eb := hl_edge (hl_nx c) (hl_Nl c) lxi_b (snd y') in
  {| o_state := y';
     o_e := if hl_field_on c then hl_field (hl_nx c) (hl_alpha c) (hl_width c) (hl_iok c) (fst y') (snd y') else fun _ => 0;
     o_phi := if hl_field_on c then hl_potential (hl_nx c) (hl_alpha c) (hl_width c) (fun k => hl_kx c k ^ 2) (fst y') (snd y') else fun _ => 0;
     o_de := hl_ext c (t + hl_dt c);
     o_edge_a := ea; o_edge_b := eb; o_edge := Rmax ea eb; o_high := hl_high (hl_nx c) (hl_Nl c) (snd y');
     o_residual := snd (fst a); o_correction := snd a |}.
(** A run: the step applied at t0, t0 + dt, ... *)
Fixpoint hl_run (c : hlcfg) (t : R) (n : nat) (y : hst) : hst :=
  match n with O => y | S k => hl_run c (t + hl_dt c) k (o_state (hl_step c t y)) end.
