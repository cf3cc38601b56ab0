(** Model of adept/vfp2d/ohm.py and of KineticOhmStep (adept/vfp2d/vector_field.py:25-43, 199-334).

    Simplifications: exact arithmetic; jnp.finfo(...).tiny is the parameter [tiny]; real storage is the complex state itself (the round
    trip is the identity, Harm2d.to_real); the collision step is any function of time, step size and distribution. *)
From Coq Require Import Reals ZArith List Bool Lia.
From Verif Require Import Harm2d PyStr RSum Pic Dft Vfp2d.
Import ListNotations.
Local Open Scope R_scope.

(** _ib_gate (vector_field.py:25-43): the two optional edges; t_on/t_off None = key absent. *)
Definition edge_on (t t_on width : R) : R :=
  if Rlt_dec 0 width then 1 / 2 * (1 + tanh ((t - t_on) / Rmax width (1 / 10 ^ 30))) else if Rle_dec t_on t then 1 else 0.
Definition edge_off (t t_off width : R) : R :=
  if Rlt_dec 0 width then 1 / 2 * (1 - tanh ((t - t_off) / Rmax width (1 / 10 ^ 30))) else if Rlt_dec t t_off then 1 else 0.
Definition ib_gate (t width : R) (t_on t_off : option R) : R :=
  (match t_on with Some s => edge_on t s width | None => 1 end) * (match t_off with Some s => edge_off t s width | None => 1 end).
(** KineticOhmStep._hidden_dndz (vector_field.py:272-283); [src] None = key absent. *)
Definition hidden (src : option fld) (t_off : option R) (width t : R) : fld := fun x y =>
  match src with None => 0 | Some s => match t_off with None => s x y | Some q => s x y * edge_off t q width end end.

(** KineticOhm2D.__call__ (ohm.py:62-113). *)
Section Ohm.
Variables (tiny : R) (G : grid2) (V : vspace) (eta0 : R).
Definition o_smom (p : nat) (f : dst) : fld := fun x y => scalar_moment tiny (h_L V) (h_M V) (h_nv V) (h_v V) (h_dv V) p (f x y).
Definition o_tmom (f : dst) (a b : nat) : fld := fun x y => tensor_moment tiny (h_L V) (h_M V) (h_nv V) (h_v V) (h_dv V) 3 (f x y) a b.
Definition o_ne (f : dst) : fld := dens V f.
Definition o_safe (a : fld) : fld := fun x y => Rmax (a x y) tiny.
Definition o_resistive (f : dst) (j : vfld) : vfld := fun x y => vscal (eta0 / o_safe (o_smom 3 f) x y) (j x y).
Definition o_hall (f : dst) (b j : vfld) : vfld := fun x y => vscal (/ o_safe (o_ne f) x y) (vcross (j x y) (b x y)).
Definition o_nernst (f : dst) (b j : vfld) : vfld := fun x y =>
  vscal (-1) (vcross (nernst tiny (h_L V) (h_M V) (h_nv V) (h_v V) (h_dv V) (f x y) (j x y)) (b x y)).
Definition o_scalar (f : dst) (dndz : fld) : vfld := fun x y =>
  let flux := fun x y => o_ne f x y * o_smom 5 f x y in
  vscal (- / (6 * o_safe (o_ne f) x y * o_safe (o_smom 3 f) x y)) (ddx G flux x y, ddy G flux x y, dndz x y * o_smom 5 f x y).
Definition o_tensor (f : dst) (dndz : fld) : vfld := fun x y =>
  let comp := fun a => ddx G (fun x y => o_ne f x y * o_tmom f a 0 x y) x y + ddy G (fun x y => o_ne f x y * o_tmom f a 1 x y) x y + dndz x y * o_tmom f a 2 x y in
  vscal (- / (2 * o_safe (o_ne f) x y * o_safe (o_smom 3 f) x y)) (comp 0%nat, comp 1%nat, comp 2%nat).
(** The five terms in the order of the dictionary, and their sum from zero. *)
Definition ohm_terms (f : dst) (b j : vfld) (dndz : fld) : list vfld := [o_resistive f j; o_hall f b j; o_nernst f b j; o_scalar f dndz; o_tensor f dndz].
Definition ohm (f : dst) (b j : vfld) (dndz : fld) : vfld := fold_left fadd (ohm_terms f b j dndz) (fun _ _ => (0, 0, 0)).
End Ohm.

(** KineticOhmStep (vector_field.py:209-334). *)
Record ostep := { os_tiny : R; os_G : grid2; os_V : vspace; os_c2 : R; os_eta0 : R; os_dt : R; os_positive : bool;
                  os_coll : R -> R -> dst -> dst; os_filter : option ((nat -> nat -> cplx) -> nat -> nat -> cplx); os_dndz : R -> fld }.
Section Step.
Variable (O : ostep).
(** _positive_f00 (lines 243-246). *)
Definition os_pos (f : dst) : dst := if os_positive O then (fun x y => positivity (os_tiny O) (h_L (os_V O)) (h_M (os_V O)) (h_nv (os_V O)) (h_v (os_V O)) (h_dv (os_V O)) (f x y)) else f.
(** _filter (lines 248-249) of the distribution and of the magnetic field (real part taken, line 321). *)
Definition os_filter_f (f : dst) : dst := match os_filter O with None => f | Some F => fun x y i j => F (fun x y => f x y i j) x y end.
Definition os_filter_b (b : vfld) : vfld := match os_filter O with None => b | Some F => fun x y =>
  (fst (F (fun x y => (fx b x y, 0)) x y), fst (F (fun x y => (fy b x y, 0)) x y), fst (F (fun x y => (fz b x y, 0)) x y)) end.
(** _target_current, _project (lines 259-269); a ValueError (l_max = 0) leaves the distribution as it is here and is reported by
    [os_ok]. *)
Definition os_target (b : vfld) : vfld := fscal (os_c2 O) (curl (os_G O) b).
Definition os_project (f : dst) (b : vfld) : dst := fun x y =>
  match project (os_tiny O) (h_L (os_V O)) (h_M (os_V O)) (h_nv (os_V O)) (h_v (os_V O)) (h_dv (os_V O)) (f x y) (os_target b x y) with Some g => g | None => f x y end.
Definition os_ok : bool := (1 <=? h_L (os_V O))%nat.
(** _rates (lines 285-302): the distribution is projected again, then dfdz = dndz f / ne. *)
Definition os_rates (t : R) (f0 : dst) (b : vfld) : dst * vfld * vfld :=
  let f := os_project f0 b in
  let dndz := os_dndz O t in
  let e := ohm (os_tiny O) (os_G O) (os_V O) (os_eta0 O) f b (os_target b) dndz in
  let dfdz := fun x y i j => cscal (dndz x y / Rmax (dens (os_V O) f x y) (os_tiny O)) (f x y i j) in
  (vlasov2 (os_G O) (os_V O) f e b dfdz, fscal (-1) (curl (os_G O) e), e).
Definition os_r (t : R) (f : dst) (b : vfld) : dst := fst (fst (os_rates t f b)).
Definition os_rb (t : R) (f : dst) (b : vfld) : vfld := snd (fst (os_rates t f b)).
Definition dadd (f : dst) (r : R) (k : dst) : dst := fun x y i j => cadd (f x y i j) (cscal r (k x y i j)).
(** __call__ (lines 304-334): the Runge-Kutta stages up to the closing collision half step ... *)
Definition os_stages (t : R) (s : state2) : dst * vfld :=
  let dt := os_dt O in
  let b := s_b s in
  let f := os_project (os_pos (os_coll O t (1 / 2 * dt) (s_f s))) b in
  let df1 := os_r t f b in let db1 := os_rb t f b in
  let b2 := fadd b (fscal (1 / 2 * dt) db1) in
  let f2 := os_pos (os_project (dadd f (1 / 2 * dt) df1) b2) in
  let df2 := os_r (t + 1 / 2 * dt) f2 b2 in let db2 := os_rb (t + 1 / 2 * dt) f2 b2 in
  let b3 := fadd b (fscal (1 / 2 * dt) db2) in
  let f3 := os_pos (os_project (dadd f (1 / 2 * dt) df2) b3) in
  let df3 := os_r (t + 1 / 2 * dt) f3 b3 in let db3 := os_rb (t + 1 / 2 * dt) f3 b3 in
  let b4 := fadd b (fscal dt db3) in
  let f4 := os_pos (os_project (dadd f dt df3) b4) in
  let df4 := os_r (t + dt) f4 b4 in let db4 := os_rb (t + dt) f4 b4 in
  let rb := fadd b (fscal (dt / 6) (fadd (fadd (fadd db1 (fscal 2 db2)) (fscal 2 db3)) db4)) in
  let rf := fun x y i j => cadd (f x y i j) (cscal (dt / 6) (cadd (cadd (cadd (df1 x y i j) (cscal 2 (df2 x y i j))) (cscal 2 (df3 x y i j))) (df4 x y i j))) in
  let rf := os_pos (os_project rf rb) in
  (os_pos (os_coll O (t + dt) (1 / 2 * dt) rf), rb).
(** ... and the filter, the last projection and the new electric field. *)
Definition ostep_run (t : R) (s : state2) : option state2 :=
  if negb os_ok then None else
  let q := os_stages t s in
  let rb := os_filter_b (snd q) in
  let rf := os_project (os_pos (os_filter_f (fst q))) rb in
  let re := ohm (os_tiny O) (os_G O) (os_V O) (os_eta0 O) rf rb (os_target rb) (os_dndz O (t + os_dt O)) in
  Some {| s_f := rf; s_e := re; s_b := rb |}.
End Step.
