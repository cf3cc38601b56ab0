(** Model of adept/vfp2d/{harmonics,ohm,vector_field,collisions,grid,distributed,base}.py: spatial operators and time steps.

    Simplifications: exact arithmetic; an array over the (x, y) cells is a function of the two cell indices, read below (nx, ny);
    jnp.finfo(...).tiny is a parameter. *)
From Coq Require Import Reals ZArith List Bool Lia.
From Verif Require Import Harm2d PyStr RSum Pic Dft.
Import ListNotations.
Local Open Scope R_scope.

(** * Derivatives along one periodic axis of n cells *)
(** _spectral_derivative (harmonics.py:68-74), ddx/ddy of Maxwell2D (vector_field.py:66-74) and KineticOhm2D (ohm.py:50-60):
    k = 2 pi fftfreq(n, d = h) (grid.py:78-79). *)
Definition dspec (n : nat) (h : R) (a : nat -> cplx) (g : nat) : cplx := ifft n (fun k => cmul (0, kx n h k) (cfft n a k)) g.
(** a[(g + s) mod n], the entry jnp.roll(a, -s)[g]. *)
Definition cshift {A} (n : nat) (a : nat -> A) (g : nat) (s : Z) : A := a (Z.to_nat ((Z.of_nat g + s) mod Z.of_nat n)).
Definition diff2 (h : R) (p m : cplx) : cplx := cscal (/ (2 * h)) (csub p m).
Definition diff4 (h : R) (m2 m1 p1 p2 : cplx) : cplx := cscal (/ (12 * h)) (csub (cadd (csub m2 (cscal 8 m1)) (cscal 8 p1)) p2).
(** periodic_central_derivative without a mesh (harmonics.py:107-115). *)
Definition dcentral (n : nat) (h : R) (a : nat -> cplx) (g : nat) : cplx :=
  if (n <? 5)%nat then diff2 h (cshift n a g 1) (cshift n a g (-1))
  else diff4 h (cshift n a g (-2)) (cshift n a g (-1)) (cshift n a g 1) (cshift n a g 2).
(** The halo exchange on a mesh of p devices (harmonics.py:88-97, 124-132): the local block of device g / nloc padded by the last
    [halo] entries of the previous device and the first [halo] entries of the next one, read at position q. *)
Definition padded {A} (p n halo : nat) (a : nat -> A) (r q : nat) : A :=
  let nloc := (n / p)%nat in
  if (q <? halo)%nat then a (((r + p - 1) mod p) * nloc + (nloc - halo + q))%nat
  else if (q <? halo + nloc)%nat then a (r * nloc + (q - halo))%nat
  else a (((r + 1) mod p) * nloc + (q - halo - nloc))%nat.
(** periodic_central_derivative with a mesh (harmonics.py:83-105). *)
Definition dsharded (p n : nat) (h : R) (a : nat -> cplx) (g : nat) : cplx :=
  let nloc := (n / p)%nat in let halo := if ((2 <=? nloc) && (5 <=? n))%nat%bool then 2%nat else 1%nat in
  let r := (g / nloc)%nat in let l := (g mod nloc)%nat in let P := padded p n halo a r in
  if (halo =? 1)%nat then diff2 h (P (l + 2)%nat) (P l) else diff4 h (P l) (P (l + 1)%nat) (P (l + 3)%nat) (P (l + 4)%nat).
(** partitioned_high_order_filter (harmonics.py:118-141). *)
Definition filter_coef (k : nat) : R := nth k [1; -8; 28; -56; 70; -56; 28; -8; 1] 0.
Definition part_filter (p n : nat) (a : nat -> cplx) (g : nat) : cplx :=
  let nloc := (n / p)%nat in let halo := if (4 <=? nloc)%nat then 4%nat else 1%nat in
  let r := (g / nloc)%nat in let l := (g mod nloc)%nat in let P := padded p n halo a r in
  if (halo =? 1)%nat then cadd (cadd (cscal (1 / 4) (P l)) (cscal (1 / 2) (P (l + 1)%nat))) (cscal (1 / 4) (P (l + 2)%nat))
  else csub (a g) (cscal (/ 256) (csum 9 (fun k => cscal (filter_coef k) (P (l + k)%nat)))).
(** HouLiFilter2D (harmonics.py:372-432): None is a ValueError; one axis of n cells. *)
Definition houli_ok (alpha : R) (order : Z) (dims : list str) : bool :=
  (if Rle_dec alpha 0 then false else true) && (1 <=? order)%Z && forallb (fun d => str_eqb d (lit "x") || str_eqb d (lit "y")) dims.
Definition fftfreq (n k : nat) : R := (if Nat.ltb (2 * k) n then INR k else INR k - INR n) / INR n.
Definition houli_kernel (n : nat) (alpha : R) (order : nat) (k : nat) : R := exp (- alpha * Rabs (2 * fftfreq n k) ^ (2 * order)).
Definition houli (n : nat) (alpha : R) (order : nat) (a : nat -> cplx) (g : nat) : cplx :=
  ifft n (fun k => cmul (cfft n a k) (houli_kernel n alpha order k, 0)) g.

(** HouLiFilter2D.__init__, __call__ (harmonics.py:380-432) on an array over (x, y); [mesh] = Some p: p devices along x. None is a
    ValueError. *)
Definition has_dim (d : str) (dims : list str) : bool := existsb (str_eqb d) dims.
Definition houli2 (mesh : option nat) (nx ny : nat) (alpha : R) (order : Z) (dims : list str) (a : nat -> nat -> cplx) : option (nat -> nat -> cplx) :=
  if negb (houli_ok alpha order dims) then None else
  let o := Z.to_nat order in
  let b := if has_dim (lit "x") dims then (fun x y => match mesh with None => houli nx alpha o (fun x' => a x' y) x | Some p => part_filter p nx (fun x' => a x' y) x end) else a in
  Some (if has_dim (lit "y") dims then (fun x y => houli ny alpha o (fun y' => b x y') y) else b).

(** The derivative actually used: spectral without sharding, finite differences with it (base.py:398-399). [Sharded p] in x means p
    devices; the y axis is never partitioned (harmonics.py:208-212). *)
Inductive dkind := Spectral | Central | Sharded (p : nat).
Definition dax (k : dkind) (n : nat) (h : R) (a : nat -> cplx) : nat -> cplx :=
  match k with Spectral => dspec n h a | Central => dcentral n h a | Sharded p => dsharded p n h a end.
(** The same on a real array: the real part is taken after the inverse transform; finite differences stay real. *)
Definition rder (k : dkind) (n : nat) (h : R) (a : nat -> R) (g : nat) : R := fst (dax k n h (emb a) g).

(** * Grid, fields *)
Record grid2 := { g_nx : nat; g_ny : nat; g_dx : R; g_dy : R; g_kx : dkind; g_ky : dkind }.
Definition fld : Type := nat -> nat -> R.
Definition vfld : Type := nat -> nat -> vec3.
Definition ddx (G : grid2) (a : fld) : fld := fun x y => rder (g_kx G) (g_nx G) (g_dx G) (fun x' => a x' y) x.
Definition ddy (G : grid2) (a : fld) : fld := fun x y => rder (g_ky G) (g_ny G) (g_dy G) (fun y' => a x y') y.
Definition fx (a : vfld) : fld := fun x y => v_x (a x y).
Definition fy (a : vfld) : fld := fun x y => v_y (a x y).
Definition fz (a : vfld) : fld := fun x y => v_z (a x y).
(** Maxwell2D.curl, __call__ (vector_field.py:76-83). *)
Definition curl (G : grid2) (a : vfld) : vfld := fun x y => (ddy G (fz a) x y, - ddx G (fz a) x y, ddx G (fy a) x y - ddy G (fx a) x y).
Definition fadd (a b : vfld) : vfld := fun x y => vadd (a x y) (b x y).
Definition fscal (r : R) (a : vfld) : vfld := fun x y => vscal r (a x y).
Definition maxwell_e (G : grid2) (c2 : R) (b j : vfld) : vfld := fun x y => vadd (vscal c2 (curl G b x y)) (vscal (-1) (j x y)).
Definition maxwell_b (G : grid2) (e : vfld) : vfld := fun x y => vscal (-1) (curl G e x y).

(** SpectralPoisson2D (vector_field.py:86-102); fft2/ifft2 transform the two axes in turn. *)
Definition fft2 (nx ny : nat) (a : nat -> nat -> cplx) (k l : nat) : cplx := cfft nx (fun x => cfft ny (fun y => a x y) l) k.
Definition ifft2 (nx ny : nat) (X : nat -> nat -> cplx) (x y : nat) : cplx := ifft nx (fun k => ifft ny (fun l => X k l) y) x.
Definition inv_k2 (nx ny : nat) (dx dy : R) (k l : nat) : R :=
  let k2 := kx nx dx k ^ 2 + kx ny dy l ^ 2 in if Rlt_dec 0 k2 then 1 / k2 else 0.
Definition poisson2 (nx ny : nat) (dx dy : R) (rho : fld) : vfld := fun x y =>
  let phi := fun k l => cscal (inv_k2 nx ny dx dy k l) (fft2 nx ny (fun x y => (rho x y, 0)) k l) in
  (fst (ifft2 nx ny (fun k l => cmul (0, - kx nx dx k) (phi k l)) x y), fst (ifft2 nx ny (fun k l => cmul (0, - kx ny dy l) (phi k l)) x y), 0).

(** * Vlasov-Maxwell right-hand side (vector_field.py:105-163) *)
Record vspace := { h_L : nat; h_M : nat; h_nv : nat; h_dv : R; h_v : nat -> R; h_speed : nat -> R }.
Definition dst : Type := nat -> nat -> nat -> nat -> cplx.   (* x, y, harmonic, speed *)
Definition dfdx (G : grid2) (f : dst) (x y i j : nat) : cplx := dax (g_kx G) (g_nx G) (g_dx G) (fun x' => f x' y i j) x.
Definition dfdy (G : grid2) (f : dst) (x y i j : nat) : cplx := dax (g_ky G) (g_ny G) (g_dy G) (fun y' => f x y' i j) y.
Definition vlasov2 (G : grid2) (V : vspace) (f : dst) (e b : vfld) (dfdz : dst) : dst := fun x y i j =>
  vlasov (h_L V) (h_M V) (h_nv V) (h_dv V) (h_v V) (h_speed V) (v_x (e x y)) (v_y (e x y)) (v_z (e x y)) (v_x (b x y)) (v_y (b x y)) (v_z (b x y))
    (f x y) (dfdx G f x y) (dfdy G f x y) (dfdz x y) i j.
Definition dens (V : vspace) (f : dst) : fld := fun x y => density2 (h_L V) (h_M V) (h_nv V) (h_v V) (h_dv V) (f x y).
Definition curr (V : vspace) (q : R) (f : dst) : vfld := fun x y => current2 (h_L V) (h_M V) (h_nv V) (h_v V) (h_dv V) q (h_speed V) (f x y).
Definition zero_dst : dst := fun _ _ _ _ => c0.
Record state2 := { s_f : dst; s_e : vfld; s_b : vfld }.
(** [ext_e], [ext_b], [drv]: the optional arguments at the time of the call, zero when absent. *)
Definition vm_rhs (G : grid2) (V : vspace) (c2 : R) (ext_e ext_b drv : vfld) (s : state2) : state2 :=
  {| s_f := vlasov2 G V (s_f s) (fadd (s_e s) ext_e) (fadd (s_b s) ext_b) zero_dst;
     s_e := maxwell_e G c2 (s_b s) (fadd (curr V (-1) (s_f s)) drv);
     s_b := maxwell_b G (s_e s) |}.
(** value + r * slope on every leaf (vector_field.py:193, 195). *)
Definition axpy (s : state2) (r : R) (k : state2) : state2 :=
  {| s_f := fun x y i j => cadd (s_f s x y i j) (cscal r (s_f k x y i j)); s_e := fadd (s_e s) (fscal r (s_e k)); s_b := fadd (s_b s) (fscal r (s_b k)) |}.
(** SplitStepVFP2D.__call__ (vector_field.py:191-196); the external fields are functions of time and the collision step is a
    function of time and step size acting on the distribution. *)
Definition split_step (G : grid2) (V : vspace) (c2 dt : R) (ext_e ext_b drv : R -> vfld) (coll : R -> R -> dst -> dst) (t : R) (s : state2) : state2 :=
  let collide := fun t h s => {| s_f := coll t h (s_f s); s_e := s_e s; s_b := s_b s |} in
  let s0 := collide t (1 / 2 * dt) s in
  let k1 := vm_rhs G V c2 (ext_e t) (ext_b t) (drv t) s0 in
  let mid := axpy s0 (1 / 2 * dt) k1 in
  let k2 := vm_rhs G V c2 (ext_e (t + 1 / 2 * dt)) (ext_b (t + 1 / 2 * dt)) (drv (t + 1 / 2 * dt)) mid in
  collide (t + dt) (1 / 2 * dt) (axpy s0 dt k2).
