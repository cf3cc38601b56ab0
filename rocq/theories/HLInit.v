(** Model of the set-up, the initial state, the external driver and the post-processing of the Hermite-Legendre solver
    (adept/_hermite_legendre_1d/modules.py, storage.py:126-203, vector_field.py:38-81).

    Simplifications: exact real arithmetic; configuration values are parsed numbers; np.polynomial.legendre.leggauss is a pair
    of parameters (nodes, weights); plots and files are not modelled; str.casefold is ASCII lower-casing. *)
From Verif Require Export HLStep HLColl HermLeg VGrid PyStr RSum Pic PicFourier Dft.
Import ListNotations.
Local Open Scope R_scope.

(** x = linspace(0, Lx, Nx, endpoint=False) (modules.py:222). *)
Definition hl_x (Lx : R) (nx g : nat) : R := Lx * INR g / INR nx.
(** _density_profile (modules.py:57-59). *)
Definition density_profile (x Lx base eps : R) (md : Z) : R := base * (1 + eps * cos (2 * PI * IZR md * x / Lx)).

(** _project_legendre (modules.py:157-168). *)
Definition proj_deg (Nl : nat) : nat := Nat.max (4 * Nl) 400.
Definition proj_v (va vb : R) (nodes : nat -> R) (q : nat) : R := 1 / 2 * (vb - va) * nodes q + 1 / 2 * (vb + va).
Definition proj_w (va vb : R) (weights : nat -> R) (q : nat) : R := 1 / 2 * (vb - va) * weights q.
Definition project_legendre (nodes weights : nat -> R) (gv : R -> R) (Nl : nat) (va vb : R) (m : nat) : R :=
  rsum (proj_deg Nl) (fun q => lbasis va vb m (proj_v va vb nodes q) * (gv (proj_v va vb nodes q) * proj_w va vb weights q)) / (vb - va).

(** The initialization block after its defaults (modules.py:257-308). [i_type] None is an absent key (linear-advection). *)
Record beam := { b_amp : R; b_drift : R; b_vth : R }.
Record icfg := { i_type : option str; i_eps : option R; i_mode : option Z; i_nbeam : option R; i_vdrift : option R; i_vth : option R;
  i_hermite : list (Z * (R * R * Z)); i_df : option (list beam * R * Z) }.
Definition dflt {T} (o : option T) (d : T) : T := match o with Some x => x | None => d end.
(** A real-space state: C_n(x_g), B_m(x_g). *)
Definition rstate : Type := (nat -> nat -> R) * (nat -> nat -> R).
Definition set_row (C : nat -> nat -> R) (n : nat) (r : nat -> R) : nat -> nat -> R := fun n' g => if (n' =? n)%nat then r g else C n' g.
(** C[n] = ... with a Python index: negative counts from the end, out of range raises IndexError (None). *)
Definition py_row (N : nat) (n : Z) : option nat :=
  if ((- Z.of_nat N <=? n) && (n <? Z.of_nat N))%Z%bool then Some (Z.to_nat (n mod Z.of_nat N)) else None.
Definition gauss_beam (b : beam) (v : R) : R := b_amp b * exp (- (v - b_drift b) ^ 2 / (2 * b_vth b ^ 2)).
Definition beams_sum (bs : list beam) (v : R) : R := fold_left (fun out b => out + gauss_beam b v) bs 0.
Fixpoint set_rows (Nh : nat) (prof : R -> R -> Z -> nat -> R) (l : list (Z * (R * R * Z))) (C : nat -> nat -> R) : option (nat -> nat -> R) :=
  match l with
  | [] => Some C
  | (n, (base, eps, md)) :: t => match py_row Nh n with Some r => set_rows Nh prof t (set_row C r (prof base eps md)) | None => None end
  end.
(** init_state_and_args, the real-space coefficients (modules.py:251-308); None is the exception. *)
Definition hl_init (nodes weights : nat -> R) (nx Nh Nl : nat) (alpha va vb Lx : R) (i : icfg) : option rstate :=
  let Z0 := fun _ _ : nat => 0 in
  let prof := fun base eps md (g : nat) => density_profile (hl_x Lx nx g) Lx base eps md in
  let ty := dflt (i_type i) (lit "linear-advection") in
  let md := dflt (i_mode i) 1%Z in
  if str_eqb ty (lit "linear-advection") then
    Some (set_row Z0 0 (fun g => prof 1 (dflt (i_eps i) 1) md g / alpha), Z0)
  else if str_eqb ty (lit "two-stream") then
    let C := set_row Z0 0 (fun g => prof 1 (dflt (i_eps i) (1 / 100)) md g / alpha) in
    Some (if (2 <? Nh)%nat then set_row C 2 (fun g => sqrt 2 * C 0%nat g) else C, Z0)
  else if str_eqb ty (lit "bump-on-tail") then
    let nb := dflt (i_nbeam i) (1 / 100) in let vth := dflt (i_vth i) 1 in
    let C := set_row Z0 0 (fun g => prof (1 - nb) (dflt (i_eps i) (1 / 10000)) md g / alpha) in
    let Bb := project_legendre nodes weights (gauss_beam {| b_amp := nb / (sqrt (2 * PI) * vth); b_drift := dflt (i_vdrift i) 10; b_vth := vth |}) Nl va vb in
    Some (C, fun m _ => Bb m)
  else if str_eqb ty (lit "custom") then
    match set_rows Nh prof (i_hermite i) Z0 with
    | None => None
    | Some C => Some (C, match i_df i with
                         | None => Z0
                         | Some (bs, eps, md') => fun m g => project_legendre nodes weights (beams_sum bs) Nl va vb m * prof 1 eps md' g
                         end)
    end
  else None.
(** Ck, Bk = fft(C), fft(B) (modules.py:310-311). *)
Definition to_k (nx : nat) (r : rstate) : hst := (fun n => ffwd nx (fun g => (fst r n g, 0)), fun m => ffwd nx (fun g => (snd r m g, 0))).
(** The seeded diagnostics of the state dictionary (modules.py:313-350). *)
Definition init_out (c : hlcfg) (r : rstate) : hl_out :=
  let y := to_k (hl_nx c) r in let nx := hl_nx c in
  let da := fun g => rsum (hl_Nl c) (fun m => lxi_a m * snd r m g) in let db := fun g => rsum (hl_Nl c) (fun m => lxi_b m * snd r m g) in
  let ma := maxn nx (fun g => Rabs (da g)) in let mb := maxn nx (fun g => Rabs (db g)) in
  {| o_state := y;
     o_e := if hl_field_on c then hl_field nx (hl_alpha c) (hl_width c) (hl_iok c) (fst y) (snd y) else fun _ => 0;
     o_phi := if hl_field_on c then hl_potential nx (hl_alpha c) (hl_width c) (fun k => hl_kx c k ^ 2) (fst y) (snd y) else fun _ => 0;
     o_de := fun _ => 0; o_edge_a := ma; o_edge_b := mb; o_edge := Rmax ma mb; o_high := hl_high nx (hl_Nl c) (snd y); o_residual := 0; o_correction := 0 |}.

(** get_derived_quantities (modules.py:183-208). *)
Record times := { tm_dt : R; tm_nt : Z; tm_tmax : R; tm_max_steps : Z }.
Definition hl_times (tmax : R) (dt : option R) : times :=
  let d := dflt dt (1 / 100) in let nt := round_half_even (tmax / d) in
  {| tm_dt := d; tm_nt := nt; tm_tmax := d * IZR nt; tm_max_steps := (nt + 4)%Z |}.
(** The save axes (modules.py:200-205, storage.py:151-177): a block with a "t" entry gets linspace(tmin, tmax, nt), the
    automatic "default" block linspace(0, tmax, nt + 1). *)
Record tcfg := { s_tmin : option R; s_tmax : option R; s_nt : option nat }.
Definition block_axis (t : times) (s : tcfg) (i : nat) : R := linspace (dflt (s_tmin s) 0) (dflt (s_tmax s) (tm_tmax t)) (dflt (s_nt s) (Z.to_nat (tm_nt t))) i.
Definition block_points (t : times) (s : tcfg) : nat := dflt (s_nt s) (Z.to_nat (tm_nt t)).
Definition default_axis (t : times) (s : option tcfg) (i : nat) : R :=
  match s with Some b => block_axis t b i | None => linspace 0 (tm_tmax t) (Z.to_nat (tm_nt t) + 1) i end.
Definition default_points (t : times) (s : option tcfg) : nat := match s with Some b => block_points t b | None => Z.to_nat (tm_nt t) + 1 end.

(** init_diffeqsolve's validation (modules.py:371-427); None is the ValueError. *)
Record scfg := { c_integ : option str; c_Nh : Z; c_Nl : Z; c_iters : option Z; c_coll : option str; c_nu : option R; c_driver : list (option unit) }.
Inductive coll_model := NoColl | BGK | Dougherty.
Record setup := { u_integ : hl_integrator; u_iters : Z; u_coll : coll_model; u_driver : bool }.
Definition dash (c : ascii) : ascii := if Ascii.eqb c "_"%char then "-"%char else c.
Definition parse_integ (s : option str) : option hl_integrator :=
  let l := PyStr.lower (dflt s (lit "lawson")) in
  if str_eqb l (lit "lawson") then Some Lawson else if str_eqb l (lit "imex") then Some Imex else if str_eqb l (lit "split") then Some Split else None.
Definition parse_coll (s : option str) : option coll_model :=
  let l := map dash (PyStr.lower (dflt s (lit "none"))) in
  if (str_eqb l (lit "none") || str_eqb l (lit "off"))%bool then Some NoColl else if str_eqb l (lit "bgk") then Some BGK
  else if str_eqb l (lit "dougherty") then Some Dougherty else None.
Definition hl_setup (c : scfg) : option setup :=
  match parse_integ (c_integ c) with
  | None => None
  | Some g =>
    if (match g with Split => (c_Nh c <? 3) || (c_Nl c <? 3) | _ => false end)%Z%bool then None else
    let it := dflt (c_iters c) 1%Z in
    if (it <? 1)%Z then None else
    match parse_coll (c_coll c) with
    | None => None
    | Some m =>
      let nu := dflt (c_nu c) 0 in
      if Rlt_dec nu 0 then None else
      Some {| u_integ := g; u_iters := it; u_coll := if Rlt_dec 0 nu then m else NoColl;
              u_driver := match c_driver c with [] => false | _ => true end |}
    end
  end.

(** ExternalExDriver (vector_field.py:38-81), one parsed pulse. get_envelope divides by the rise: a zero rise gives the sign
    of the distance to the edge (0/0 at the edge itself is not modelled). *)
Record xpulse := { x_k0 : R; x_w0 : R; x_dw0 : option R; x_a0 : R; x_tc : option R; x_tw : option R; x_tr : option R; x_xc : option R; x_xw : option R; x_xr : option R }.
Definition sgn (x : R) : R := if Rlt_dec 0 x then 1 else if Rlt_dec x 0 then -1 else 0.
Definition sstep (w d : R) : R := if Req_EM_T w 0 then sgn d else tanh (d / w).
Definition hl_env (rise lo hi a : R) : R := 1 / 2 * (sstep rise (a - lo) - sstep rise (a - hi)).
Definition hl_pulse (x_last : R) (p : xpulse) (x t : R) : R :=
  let w := x_w0 p + dflt (x_dw0 p) 0 in
  let tc := dflt (x_tc p) 0 in let th := 1 / 2 * dflt (x_tw p) (10 ^ 10) in let tr := dflt (x_tr p) 0 in
  let xc := dflt (x_xc p) (1 / 2 * x_last) in let xh := 1 / 2 * dflt (x_xw p) (10 ^ 10) in let xr := dflt (x_xr p) 0 in
  hl_env tr (tc - th) (tc + th) t * hl_env xr (xc - xh) (xc + xh) x * w * x_a0 p * sin (x_k0 p * x - w * t).
Definition hl_driver_field (Lx : R) (nx : nat) (ps : list xpulse) (t : R) (g : nat) : R :=
  fold_left (fun total p => total + hl_pulse (hl_x Lx nx (nx - 1)) p (hl_x Lx nx g) t) ps 0.

(** post_process, a scalar series (modules.py:548-556): final value and relative drift of finite values. *)
Definition reldrift (n : nat) (a : nat -> R) : option R :=
  if Req_EM_T (a 0%nat) 0 then None else Some (maxn n (fun i => Rabs (a i - a 0%nat)) / Rabs (a 0%nat)).
Definition final (n : nat) (a : nat -> R) : R := a (n - 1)%nat.
(** The snapshot indices of _distribution_diagnostics (modules.py:88): floor(i (nt-1) / (m-1)), m = min(6, nt); the exact value
    of linspace(0, nt-1, m).astype(int). *)
Definition snap_m (nt : nat) : nat := Nat.min 6 nt.
Definition snap (nt i : nat) : nat := if (snap_m nt <=? 1)%nat then 0%nat else (i * (nt - 1) / (snap_m nt - 1))%nat.
(** The velocity axis and the reconstruction (modules.py:91-99). *)
Definition dist_v (alpha u va vb : R) (i : nat) : R := linspace (Rmin (u - 5 * alpha) (va - 1)) (Rmax (u + 5 * alpha) (vb + 1)) 384 i.
Definition xi_win (va vb : R) (m : nat) (v : R) : R := if Rlt_dec v va then 0 else if Rlt_dec vb v then 0 else lbasis va vb m v.
Definition dist_f (alpha u va vb : R) (nx Nh Nl : nat) (y : hst) (g : nat) (v : R) : R :=
  rsum Nh (fun n => fst (finv nx (fst y n) g) * psi alpha u n v) + rsum Nl (fun m => fst (finv nx (snd y m) g) * xi_win va vb m v).
(** store_coeff_timeseries (storage.py:191-203): fftshift of the coefficients and of fftfreq(Nx, 1/Nx). *)
Definition shift_ix (n j : nat) : nat := ((j + (n - n / 2)) mod n)%nat.
Definition stored_coeff (nx : nat) (A : coeffs) (n j : nat) : cplx := A n (shift_ix nx j).
Definition stored_kx (nx j : nat) : Z := HermitePoisson.mode nx (shift_ix nx j).
