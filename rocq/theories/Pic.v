(** Model of adept/_pic1d: particle shapes, deposition, gather, pushers and the spectral field solve.

    Simplifications: exact real arithmetic; indices are not bounded to 32 bits; scatter-adds are sums (the order
    in which JAX adds the contributions does not matter over the reals); arrays of particles are lists of
    particles; an unknown shape name, which raises before anything is computed, is not represented. *)
From Verif Require Export RSum.
From Coq Require Export ZArith List.
Export ListNotations.

(** jnp.floor and jnp.round (half to even). *)
Definition floor (x : R) : Z := (up x - 1)%Z.
Definition round_half_even (x : R) : Z :=
  let n := floor (x + 1 / 2) in
  if Req_EM_T (IZR n) (x + 1 / 2) then (if Z.even n then n else (n - 1)%Z) else n.

Fixpoint lsum (l : list R) : R := match l with [] => 0 | x :: t => x + lsum t end.

(** _shape_indices_weights (shape.py:17-53): the stencil of one particle, a list of (index, weight). *)
Inductive shape := linear | tsc | cubic.
Definition wrap (nx : nat) (i : Z) : nat := Z.to_nat (i mod Z.of_nat nx).
Definition s_real (x dx xmin : R) : R := (x - xmin) / dx - 1 / 2.
Definition stencil (sh : shape) (x dx xmin : R) (nx : nat) : list (nat * R) :=
  let sr := s_real x dx xmin in
  match sh with
  | linear =>
      let ig := floor sr in
      let s := sr - IZR ig in
      [(wrap nx ig, 1 - s); (wrap nx (ig + 1), s)]
  | tsc =>
      let ig := round_half_even sr in
      let s := sr - IZR ig in
      [(wrap nx (ig - 1), 1 / 2 * (1 / 2 - s) ^ 2); (wrap nx ig, 3 / 4 - s ^ 2); (wrap nx (ig + 1), 1 / 2 * (1 / 2 + s) ^ 2)]
  | cubic =>
      let ig := floor sr in
      let s := sr - IZR ig in
      [(wrap nx (ig - 1), (1 - s) ^ 3 / 6); (wrap nx ig, 2 / 3 - s ^ 2 + s ^ 3 / 2);
       (wrap nx (ig + 1), 2 / 3 - (1 - s) ^ 2 + (1 - s) ^ 3 / 2); (wrap nx (ig + 2), s ^ 3 / 6)]
  end.

Record particle := { px : R; pv : R; pw : R }.

(** deposit (shape.py:56-82), value at grid point [g]. *)
Definition scatter (st : list (nat * R)) (w : R) (g : nat) : R :=
  lsum (map (fun e => if Nat.eqb (fst e) g then snd e * w else 0) st).
Definition deposit (sh : shape) (ps : list particle) (nx : nat) (dx xmin : R) (g : nat) : R :=
  lsum (map (fun p => scatter (stencil sh (px p) dx xmin nx) (pw p) g) ps) / dx.

(** gather (shape.py:85-98). *)
Definition gather (sh : shape) (field : nat -> R) (nx : nat) (x dx xmin : R) : R :=
  lsum (map (fun e => snd e * field (fst e)) (stencil sh x dx xmin nx)).

(** One entry of the particles dictionary with its species parameters. *)
Record species := { charge : R; charge_to_mass : R; parts : list particle }.

(** ParticleChargeDensity.__call__ (field.py:50-57). *)
Definition charge_density (sh : shape) (st : list species) (nx : nat) (dx xmin : R) (g : nat) : R :=
  lsum (map (fun s => charge s * deposit sh (parts s) nx dx xmin g) st).

(** _drift (push.py:22-31). *)
Definition fmod (y L : R) : R := y - L * IZR (floor (y / L)).
Definition drift_particle (dt xmin xmax : R) (p : particle) : particle :=
  {| px := fmod (px p + dt * pv p - xmin) (xmax - xmin) + xmin; pv := pv p; pw := pw p |}.
Definition on_parts (h : particle -> particle) (s : species) : species :=
  {| charge := charge s; charge_to_mass := charge_to_mass s; parts := map h (parts s) |}.
Definition drift (dt xmin xmax : R) (st : list species) : list species := map (on_parts (drift_particle dt xmin xmax)) st.

(** _Kicker (push.py:34-96). The Poisson solver and the external driver are parameters: a function of the charge
    density and a function of time. *)
Record kicker := { k_nx : nat; k_dx : R; k_xmin : R; k_shape : shape; poisson : (nat -> R) -> nat -> R; driver : R -> nat -> R }.
(** field (push.py:70-74). *)
Definition field_sc (k : kicker) (st : list species) : nat -> R := poisson k (charge_density (k_shape k) st (k_nx k) (k_dx k) (k_xmin k)).
Definition e_total (k : kicker) (st : list species) (t : R) (g : nat) : R := field_sc k st g + driver k t g.
(** Ponderomotive force (push.py:79-84): interior of jnp.gradient, [a] has nx + 2 entries. *)
Definition pond_grid (k : kicker) (a : nat -> R) (g : nat) : R := - (1 / 2) * ((a (g + 2)%nat ^ 2 - a g ^ 2) / (2 * k_dx k)).
Definition acceleration (k : kicker) (E : nat -> R) (a : option (nat -> R)) (qm x : R) : R :=
  let Ep := gather (k_shape k) E (k_nx k) x (k_dx k) (k_xmin k) in
  match a with
  | Some av => qm * Ep + qm * qm * gather (k_shape k) (pond_grid k av) (k_nx k) x (k_dx k) (k_xmin k)
  | None => qm * Ep
  end.
(** apply (push.py:76-96), without the returned diagnostics. *)
Definition kick_particle (k : kicker) (E : nat -> R) (a : option (nat -> R)) (qm dt : R) (p : particle) : particle :=
  {| px := px p; pv := pv p + dt * acceleration k E a qm (px p); pw := pw p |}.
Definition kick (k : kicker) (dt t : R) (a : option (nat -> R)) (st : list species) : list species :=
  let E := e_total k st t in
  map (fun s => on_parts (kick_particle k E a (charge_to_mass s) dt) s) st.

(** LeapfrogIntegrator.__call__ (push.py:115-119). *)
Definition leapfrog (k : kicker) (xmin xmax dt : R) (t : R) (a : option (nat -> R)) (st : list species) : list species :=
  let st := kick k (1 / 2 * dt) t a st in
  let st := drift dt xmin xmax st in
  kick k (1 / 2 * dt) (t + dt) a st.

(** Yoshida4Integrator (push.py:130-155). *)
Definition cbrt2 : R := Rpower 2 (1 / 3).
Definition yoshida_dt1 (dt : R) : R := dt / (2 - cbrt2).
Definition yoshida_dt2 (dt : R) : R := - cbrt2 * yoshida_dt1 dt.
Definition yoshida_substeps (dt : R) : list (R * R) :=
  let dt1 := yoshida_dt1 dt in
  let dt2 := yoshida_dt2 dt in
  [(0, dt1); (dt1, dt2); (dt1 + dt2, dt1)].
Definition yoshida4 (k : kicker) (xmin xmax dt : R) (t : R) (a : option (nat -> R)) (st : list species) : list species :=
  fold_left (fun st e => leapfrog k xmin xmax (snd e) (t + fst e) a st) (yoshida_substeps dt) st.

(* ------------------------------------------------------------------------------------------------ *)
(** * Spectral Poisson solver (_pic1d/solvers/pushers/field.py:15-30) *)
Definition cplx : Type := R * R.
Definition c0 : cplx := (0, 0).
Definition cadd (a b : cplx) : cplx := (fst a + fst b, snd a + snd b).
Definition cmul (a b : cplx) : cplx := (fst a * fst b - snd a * snd b, fst a * snd b + snd a * fst b).
Definition cscal (r : R) (a : cplx) : cplx := (r * fst a, r * snd a).
Definition cis (theta : R) : cplx := (cos theta, sin theta).
Fixpoint csum (n : nat) (h : nat -> cplx) : cplx := match n with O => c0 | S k => cadd (csum k h) (h k) end.
(** jnp.fft.fft of a real array and jnp.fft.ifft. *)
Definition angle (n k g : nat) : R := 2 * PI * INR k * INR g / INR n.
Definition fft (n : nat) (rho : nat -> R) (k : nat) : cplx := csum n (fun g => cscal (rho g) (cis (- angle n k g))).
Definition ifft (n : nat) (h : nat -> cplx) (g : nat) : cplx := cscal (/ INR n) (csum n (fun k => cmul (h k) (cis (angle n k g)))).
(** Grid.__init__ (_vlasov1d/grid.py:77-82): kx = fftfreq(nx, d=dx) * 2 pi; one_over_kx is 0 at k = 0. *)
Definition kx (n : nat) (dx : R) (k : nat) : R :=
  2 * PI * ((if Nat.ltb (2 * k) n then INR k else INR k - INR n) / (INR n * dx)).
Definition one_over_kx (n : nat) (dx : R) (k : nat) : R := match k with O => 0 | _ => 1 / kx n dx k end.
(** SpectralPoissonSolver.__call__ (field.py:27-30). *)
Definition spectral_poisson (n : nat) (dx : R) (static : option (nat -> R)) (rho : nat -> R) (g : nat) : R :=
  let rho' := match static with Some s => fun h => rho h + s h | None => rho end in
  fst (ifft n (fun k => cmul (cmul (0, - (1)) (one_over_kx n dx k, 0)) (fft n rho' k)) g).
