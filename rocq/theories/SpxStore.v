(** Model of the diagnostics of the spectrax-1d solver: save functions and axes (adept/_spectrax1d/storage.py), coordinates of
    the stored arrays (base_module.py post_process).

    Simplifications: exact real arithmetic; interpolated outputs (interpax) and plots are not modelled. *)
From Verif Require Export SpxInit.
Local Open Scope R_scope.
Local Open Scope cx_scope.

(** _moments_species (storage.py:365-411) at one point of real space: [C] are the Hermite coefficients there, i.e. the inverse
    transforms of Ck. *)
Definition mode1 (d : dims) (C : hco) (i : nat) : cplx :=
  match i with
  | O => if (1 <? d_n d)%nat then C 0%nat 0%nat 1%nat else c0
  | 1%nat => if (1 <? d_m d)%nat then C 0%nat 1%nat 0%nat else c0
  | _ => if (1 <? d_p d)%nat then C 1%nat 0%nat 0%nat else c0
  end.
Definition mode2 (d : dims) (C : hco) (i : nat) : option cplx :=
  match i with
  | O => if (2 <? d_n d)%nat then Some (C 0%nat 0%nat 2%nat) else None
  | 1%nat => if (2 <? d_m d)%nat then Some (C 0%nat 2%nat 0%nat) else None
  | _ => if (2 <? d_p d)%nat then Some (C 2%nat 0%nat 0%nat) else None
  end.
Definition save_n (a : nat -> R) (C : hco) : R := fst ((a 0%nat * a 1%nat * a 2%nat) *c C 0%nat 0%nat 0%nat).
Definition save_J (d : dims) (a u : nat -> R) (C : hco) (i : nat) : R :=
  fst ((a 0%nat * a 1%nat * a 2%nat) *c (u i *c C 0%nat 0%nat 0%nat +c (1 / sqrt 2 * a i) *c mode1 d C i)).
(** jnp.abs and the real part of a complex quotient. *)
Definition cabs (z : cplx) : R := sqrt (cabs2 z).
Definition re_div (a b : cplx) : R := (fst a * fst b + snd a * snd b) / cabs2 b.
Definition safe0 (c : cplx) : cplx := if Rlt_dec (cabs c) (/ 10 ^ 20) then (/ 10 ^ 20, 0) else c.
Definition save_T1 (d : dims) (a : nat -> R) (C : hco) (i : nat) : R :=
  match mode2 d C i with
  | Some c2 => 1 / 2 * a i ^ 2 * (1 + sqrt 2 * re_div c2 (safe0 (C 0%nat 0%nat 0%nat)))
  | None => 1 / 2 * a i ^ 2 * 1
  end.
Definition save_T (d : dims) (a : nat -> R) (C : hco) : R := (save_T1 d a C 0 + save_T1 d a C 1 + save_T1 d a C 2) / 3.
(** The real-space coefficients and the total currents (storage.py:354-355, 430-443). *)
Definition real_pt (g : sgrid) (C : coef6) (y x z : nat) : hco := fun p m n => inv3 g (C p m n) y x z.
Definition save_J_total (de di : dims) (al us : nat -> R) (Ce Ci : hco) (i : nat) : R :=
  save_J de al us Ce i + save_J di (ions al) (ions us) Ci i.

(** The default scalars (storage.py:314-327). *)
Definition gsum (g : sgrid) (f : nat -> nat -> nat -> R) : R := rsum (s_ny g) (fun y => rsum (s_nx g) (fun x => rsum (s_nz g) (fun z => f y x z))).
Definition save_E (g : sgrid) (F : nat -> afield) : R := gsum g (fun y x z => cabs2 (F 0%nat y x z)) + gsum g (fun y x z => cabs2 (F 1%nat y x z)) + gsum g (fun y x z => cabs2 (F 2%nat y x z)).
Definition save_B (g : sgrid) (F : nat -> afield) : R := gsum g (fun y x z => cabs2 (F 3%nat y x z)) + gsum g (fun y x z => cabs2 (F 4%nat y x z)) + gsum g (fun y x z => cabs2 (F 5%nat y x z)).
Definition save_EM (g : sgrid) (F : nat -> afield) : R := save_E g F + save_B g F.
(** jnp.max over a non-empty array of non-negative numbers. *)
Fixpoint nmax (n : nat) (f : nat -> R) : R := match n with O => 0 | S n => Rmax (nmax n f) (f n) end.
Definition gmax (g : sgrid) (f : nat -> nat -> nat -> R) : R := nmax (s_ny g) (fun y => nmax (s_nx g) (fun x => nmax (s_nz g) (fun z => f y x z))).
Definition save_max (g : sgrid) (F : nat -> afield) (i : nat) : R := gmax g (fun y x z => cabs (F i y x z)).

(** The stored distribution (storage.py:97-118): flattened Hermite index, np.fft.fftshift along kx, and the coordinates. *)
Definition flat (d : dims) (p m n : nat) : nat := ((p * d_m d + m) * d_n d + n)%nat.
Definition shifted (N j : nat) : nat := ((j + (N - N / 2)) mod N)%nat.
Definition kx_coord (N j : nat) : Z := mode N (shifted N j).
Definition stored (g : sgrid) (C : coef6) (p m n y j z : nat) : cplx := C p m n y (shifted (s_nx g) j) z.
Definition ky_coord (j : nat) : Z := Z.of_nat j.
(** The x coordinate of the stored fields and moments (base_module.py:1018). *)
Definition x_post (Lx : R) (Nx i : nat) : R := linspace 0 Lx Nx i.
(** The optional axes (storage.py:490-516). *)
Definition save_t_axis (tmin tmax : option R) (nt : option nat) (gtmax : R) (gnt : nat) (i : nat) : R :=
  linspace (orelse tmin 0) (orelse tmax gtmax) (orelse nt gnt) i.
Definition save_x_axis (xmin xmax : R) (n i : nat) : R :=
  let d := (xmax - xmin) / INR n in linspace (xmin + d / 2) (xmax - d / 2) n i.
