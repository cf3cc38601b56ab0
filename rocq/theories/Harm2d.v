(** Model of adept/vfp2d/harmonics.py: packed spherical-harmonic layout, Vlasov operators, spatial derivatives, filters and moments.

    Simplifications: exact real and complex arithmetic; an array of harmonic coefficients is a function of the packed index, an
    array over configuration space a function of the two cell indices; a guarded update "if index >= 0: value += c * f[index]" is
    modelled as adding c times an entry that reads 0 for a truncated mode; jnp.finfo(...).tiny is a parameter of the definitions
    that use it. *)
From Coq Require Import Reals ZArith List Bool Lia.
From Verif Require Import PyStr RSum Pic Dft.
Import ListNotations.
Local Open Scope R_scope.

(* ------------------------------------------------------------------------------------------------ *)
(** * Layout (harmonics.py:23-65) *)
(** HarmonicLayout.__init__ (lines 32-38): the accepted (l_max, m_max); None is the ValueError. *)
Definition make_layout (l_max : Z) (m_max : option Z) : option (nat * nat) :=
  if (l_max <? 0)%Z then None else
  let mm := match m_max with None => l_max | Some m => m end in
  if ((0 <=? mm) && (mm <=? l_max))%Z%bool then Some (Z.to_nat l_max, Z.to_nat mm) else None.
(** line 40: pairs. *)
Definition pairs (L M : nat) : list (nat * nat) := flat_map (fun l => map (fun m => (l, m)) (seq 0 (S (Nat.min l M)))) (seq 0 (S L)).
Definition size (L M : nat) : nat := List.length (pairs L M).
(** line 41: the dictionary pair -> position. *)
Fixpoint position (p : nat * nat) (l : list (nat * nat)) (i : nat) : option nat :=
  match l with [] => None | q :: t => if ((fst p =? fst q) && (snd p =? snd q))%nat%bool then Some i else position p t (S i) end.
(** index (lines 60-65); the row lookup is lookup.get(pair, -1) (line 42). *)
Definition index (L M : nat) (ell m : Z) : Z :=
  if ((ell <? 0) || (Z.of_nat L <? ell) || (m <? 0) || (Z.of_nat M <? m))%Z%bool then (-1)%Z
  else match position (Z.to_nat ell, Z.to_nat m) (pairs L M) 0 with Some i => Z.of_nat i | None => (-1)%Z end.
(** The guarded read "index >= 0". *)
Definition at_ (L M : nat) (f : nat -> cplx) (ell m : Z) : cplx :=
  let i := index L M ell m in if (0 <=? i)%Z then f (Z.to_nat i) else c0.
Definition ci : cplx := (0, 1).
Definition creal (a : cplx) : cplx := (fst a, 0).
(** "for target, (ell, m) in enumerate(pairs): out[target] = ...". *)
Definition packed {A} (L M : nat) (F : nat -> nat -> A) (i : nat) : A := let p := nth i (pairs L M) (0%nat, 0%nat) in F (fst p) (snd p).

(* ------------------------------------------------------------------------------------------------ *)
(** * Vlasov operators at one cell and one speed (harmonics.py:143-345) *)
(** streaming (lines 215-251) for the target mode (l, m), given the derivatives of the packed coefficients in x, y and z;
    [v] is the streaming speed. *)
Definition stream_mode (L M : nat) (v : R) (a b c : nat -> cplx) (l m : nat) : cplx :=
  let zl := Z.of_nat l in let zm := Z.of_nat m in let rl := INR l in let rm := INR m in
  let A := at_ L M a in
  let Tm := at_ L M (fun i => csub (b i) (cmul ci (c i))) in
  let Tp := at_ L M (fun i => cadd (b i) (cmul ci (c i))) in
  let along := csub (csub c0 (cscal (v * (rl - rm) / (2 * rl - 1)) (A (zl - 1) zm)%Z)) (cscal (v * (rl + rm + 1) / (2 * rl + 3)) (A (zl + 1) zm)%Z) in
  if (0 <? m)%nat then
    csub (cadd (cadd (csub along
      (cscal (1 / 2 * v / (2 * rl - 1)) (Tm (zl - 1) (zm - 1))%Z))
      (cscal (1 / 2 * v * (rl - rm) * (rl - rm - 1) / (2 * rl - 1)) (Tp (zl - 1) (zm + 1))%Z))
      (cscal (1 / 2 * v / (2 * rl + 3)) (Tm (zl + 1) (zm - 1))%Z))
      (cscal (1 / 2 * v * (rl + rm + 1) * (rl + rm + 2) / (2 * rl + 3)) (Tp (zl + 1) (zm + 1))%Z)
  else
    let transverse := cadd (csub c0 (cscal (rl * (rl - 1) / (2 * rl - 1)) (Tp (zl - 1) 1)%Z)) (cscal ((rl + 1) * (rl + 2) / (2 * rl + 3)) (Tp (zl + 1) 1)%Z) in
    csub along (v * fst transverse, 0).
Definition streaming (L M : nat) (v : R) (a b c : nat -> cplx) : nat -> cplx := packed L M (stream_mode L M v a b c).

(** ddv (lines 176-182): [f] is one harmonic on the nv speeds. *)
Definition hddv (nv : nat) (dv : R) (ell : nat) (f : nat -> cplx) (j : nat) : cplx :=
  let left := cscal ((- (1)) ^ ell) (f 0%nat) in
  let padded := fun k => match k with O => left | S k' => if (k' <? nv)%nat then f k' else c0 end in
  cscal (/ (2 * dv)) (csub (padded (S (S j))) (padded j)).
(** gh (lines 184-194): G_l and H_l of a packed array f[harmonic, speed] at speed index j. *)
Definition gh_g (L M nv : nat) (dv : R) (vj : R) (f : nat -> nat -> cplx) (j i : nat) : cplx :=
  let ell := fst (nth i (pairs L M) (0%nat, 0%nat)) in csub (hddv nv dv ell (f i) j) (cscal (INR ell * (1 / vj)) (f i j)).
Definition gh_h (L M nv : nat) (dv : R) (vj : R) (f : nat -> nat -> cplx) (j i : nat) : cplx :=
  let ell := fst (nth i (pairs L M) (0%nat, 0%nat)) in cadd (hddv nv dv ell (f i) j) (cscal ((INR ell + 1) * (1 / vj)) (f i j)).
(** electric (lines 253-295) for the target mode (l, m), given packed G and H. *)
Definition electric_mode (L M : nat) (ex ey ez : R) (g h : nat -> cplx) (l m : nat) : cplx :=
  let zl := Z.of_nat l in let zm := Z.of_nat m in let rl := INR l in let rm := INR m in
  let G := at_ L M g in let H := at_ L M h in
  let eminus := (ey, - ez) in let eplus := (ey, ez) in
  let along := cadd (cadd c0 (cscal (ex * (rl - rm) / (2 * rl - 1)) (G (zl - 1) zm)%Z)) (cscal (ex * (rl + rm + 1) / (2 * rl + 3)) (H (zl + 1) zm)%Z) in
  if (0 <? m)%nat then
    cadd (csub (csub (cadd along
      (cmul (cscal (1 / 2 / (2 * rl - 1)) eminus) (G (zl - 1) (zm - 1))%Z))
      (cmul (cscal (1 / 2 * (rl - rm) * (rl - rm - 1) / (2 * rl - 1)) eplus) (G (zl - 1) (zm + 1))%Z))
      (cmul (cscal (1 / 2 / (2 * rl + 3)) eminus) (H (zl + 1) (zm - 1))%Z))
      (cmul (cscal (1 / 2 * (rl + rm + 1) * (rl + rm + 2) / (2 * rl + 3)) eplus) (H (zl + 1) (zm + 1))%Z)
  else
    let transverse := cadd (csub c0 (cscal (rl * (rl - 1) / (2 * rl - 1)) (G (zl - 1) 1)%Z)) (cscal ((rl + 1) * (rl + 2) / (2 * rl + 3)) (H (zl + 1) 1)%Z) in
    cadd along (creal (cmul eplus transverse)).
Definition electric (L M : nat) (ex ey ez : R) (g h : nat -> cplx) : nat -> cplx := packed L M (electric_mode L M ex ey ez g h).
(** magnetic (lines 297-322) for the target mode (l, m). *)
Definition magnetic_mode (L M : nat) (bx by_ bz : R) (f : nat -> cplx) (l m : nat) : cplx :=
  let zl := Z.of_nat l in let zm := Z.of_nat m in let rl := INR l in let rm := INR m in
  let F := at_ L M f in let bminus := (bz, - by_) in let bplus := (bz, by_) in
  if (0 <? m)%nat then
    csub (cadd (csub c0 (cmul (cscal (bx * rm) ci) (F zl zm)))
      (cmul (cscal (1 / 2 * (rl - rm) * (rl + rm + 1)) bminus) (F zl (zm + 1))%Z))
      (cmul (cscal (1 / 2) bplus) (F zl (zm - 1))%Z)
  else if (0 <? l)%nat then (rl * (rl + 1) * fst (cmul bminus (F zl 1%Z)), 0) else c0.
Definition magnetic (L M : nat) (bx by_ bz : R) (f : nat -> cplx) : nat -> cplx := packed L M (magnetic_mode L M bx by_ bz f).
(** __call__ (lines 324-339), with the derivative arrays already computed. *)
Definition vlasov (L M nv : nat) (dv : R) (vs : nat -> R) (speed : nat -> R) (ex ey ez bx by_ bz : R) (f a b c : nat -> nat -> cplx) (i j : nat) : cplx :=
  let at_j := fun (q : nat -> nat -> cplx) => fun i => q i j in
  let r := cadd (cadd (streaming L M (speed j) (at_j a) (at_j b) (at_j c) i)
                      (electric L M ex ey ez (gh_g L M nv dv (vs j) f j) (gh_h L M nv dv (vs j) f j) i))
                (magnetic L M bx by_ bz (at_j f) i) in
  if (snd (nth i (pairs L M) (0%nat, 0%nat)) =? 0)%nat then creal r else r.

(* ------------------------------------------------------------------------------------------------ *)
(** * Moments at one cell (harmonics.py:340-560) *)
Definition re_mode (L M : nat) (f : nat -> nat -> cplx) (l m : Z) (j : nat) : R := fst (at_ L M (fun i => f i j) l m).
(** density (lines 340-344). *)
Definition density2 (L M nv : nat) (v : nat -> R) (dv : R) (f : nat -> nat -> cplx) : R :=
  4 * PI * rsum nv (fun j => re_mode L M f 0 0 j * v j ^ 2) * dv.
(** The sum over speeds of one harmonic against a weight. *)
Definition vsum (L M nv : nat) (dv : R) (w : nat -> R) (f : nat -> nat -> cplx) (l m : Z) : cplx :=
  cscal dv (csum nv (fun j => cscal (w j) (at_ L M (fun i => f i j) l m))).
Definition vec3 : Type := R * R * R.
Definition v_x (a : vec3) : R := fst (fst a).
Definition v_y (a : vec3) : R := snd (fst a).
Definition v_z (a : vec3) : R := snd a.
Definition vscal (r : R) (a : vec3) : vec3 := (r * v_x a, r * v_y a, r * v_z a).
Definition vadd (a b : vec3) : vec3 := (v_x a + v_x b, v_y a + v_y b, v_z a + v_z b).
Definition vcross (a b : vec3) : vec3 := (v_y a * v_z b - v_z a * v_y b, v_z a * v_x b - v_x a * v_z b, v_x a * v_y b - v_y a * v_x b).
Definition vec_moment (L M nv : nat) (dv : R) (w : nat -> R) (f : nat -> nat -> cplx) : vec3 :=
  let m10 := vsum L M nv dv w f 1 0 in let m11 := vsum L M nv dv w f 1 1 in
  vscal (4 * PI / 3) (fst m10, 2 * fst m11, - 2 * snd m11).
(** current (lines 435-458); the early return for l_max = 0 is the zero of the truncated modes. *)
Definition current2 (L M nv : nat) (v : nat -> R) (dv charge : R) (speed : nat -> R) (f : nat -> nat -> cplx) : vec3 :=
  vscal charge (vec_moment L M nv dv (fun j => v j ^ 2 * speed j) f).
(** scalar_velocity_moment (lines 461-473), vector_velocity_moment (lines 476-488); [tiny] = jnp.finfo(...).tiny. *)
Definition scalar_moment (tiny : R) (L M nv : nat) (v : nat -> R) (dv : R) (p : nat) (f : nat -> nat -> cplx) : R :=
  4 * PI * rsum nv (fun j => re_mode L M f 0 0 j * v j ^ (p + 2)) * dv / Rmax (density2 L M nv v dv f) tiny.
Definition vector_moment (tiny : R) (L M nv : nat) (v : nat -> R) (dv : R) (p : nat) (f : nat -> nat -> cplx) : vec3 :=
  vscal (/ Rmax (density2 L M nv v dv f) tiny) (vec_moment L M nv dv (fun j => v j ^ (p + 3)) f).
(** cartesian_l2 (lines 491-519) of the coefficients at one speed: rows xx, xy, xz / xy, yy, yz / xz, yz, zz. *)
Definition cartesian_l2 (L M : nat) (f : nat -> cplx) : vec3 * vec3 * vec3 :=
  let f20 := fst (at_ L M f 2 0) in let f21 := at_ L M f 2 1 in let f22 := at_ L M f 2 2 in
  let fxx := f20 in let fxy := 3 * fst f21 in let fxz := - 3 * snd f21 in
  let fyy := - (1 / 2) * f20 + 6 * fst f22 in let fyz := - 6 * snd f22 in let fzz := - (1 / 2) * f20 - 6 * fst f22 in
  ((fxx, fxy, fxz), (fxy, fyy, fyz), (fxz, fyz, fzz)).
Definition row (t : vec3 * vec3 * vec3) (a : nat) : vec3 := match a with 0%nat => fst (fst t) | 1%nat => snd (fst t) | _ => snd t end.
Definition vcomp (u : vec3) (a : nat) : R := match a with 0%nat => v_x u | 1%nat => v_y u | _ => v_z u end.
(** tensor_velocity_moment (lines 522-528). *)
Definition tensor_moment (tiny : R) (L M nv : nat) (v : nat -> R) (dv : R) (p : nat) (f : nat -> nat -> cplx) (a b : nat) : R :=
  8 * PI / 15 * rsum nv (fun j => vcomp (row (cartesian_l2 L M (fun i => f i j)) a) b * v j ^ (p + 4)) * dv / Rmax (density2 L M nv v dv f) tiny.
(** nernst_velocity (lines 531-546). *)
Definition nernst (tiny : R) (L M nv : nat) (v : nat -> R) (dv : R) (f : nat -> nat -> cplx) (j : vec3) : vec3 :=
  vadd (vscal (/ (2 * Rmax (scalar_moment tiny L M nv v dv 3 f) tiny)) (vector_moment tiny L M nv v dv 3 f)) (vscal (/ Rmax (density2 L M nv v dv f) tiny) j).
(** conservative_f00_positivity (lines 347-369): the new f00 at one cell, and the state. *)
Definition pos_f00 (tiny : R) (nv : nat) (v : nat -> R) (dv : R) (f00 : nat -> R) (j : nat) : R :=
  let w := fun j => 4 * PI * v j ^ 2 * dv in
  let target := rsum nv (fun j => f00 j * w j) in
  let positive := fun j => Rmax (f00 j) 0 in
  let pd := rsum nv (fun j => positive j * w j) in
  let scale := if Rlt_dec 0 target then (if Rlt_dec tiny pd then target / Rmax pd tiny else 0) else 0 in
  positive j * scale.
Definition positivity (tiny : R) (L M nv : nat) (v : nat -> R) (dv : R) (f : nat -> nat -> cplx) (i j : nat) : cplx :=
  if (Z.of_nat i =? index L M 0 0)%Z then (pos_f00 tiny nv v dv (re_mode L M f 0 0) j, 0) else f i j.
(** project_current_moment (ohm.py:116-151); None is the ValueError for l_max = 0. *)
Definition project (tiny : R) (L M nv : nat) (v : nat -> R) (dv : R) (f : nat -> nat -> cplx) (target : vec3) : option (nat -> nat -> cplx) :=
  if (index L M 1 0 <? 0)%Z then None else
  let corr := vadd target (vscal (-1) (current2 L M nv v dv (-1) v f)) in
  let f00 := re_mode L M f 0 0 in
  let response := Rmax (4 * PI / 3 * rsum nv (fun j => f00 j * v j ^ 3) * dv) tiny in
  let ax := - v_x corr / response in
  let a1 := cscal (/ (2 * response)) (- v_y corr, v_z corr) in
  Some (fun i j => if (Z.of_nat i =? index L M 1 0)%Z then cadd (f i j) (ax * f00 j, 0)
                   else if (Z.of_nat i =? index L M 1 1)%Z then cadd (f i j) (cscal (f00 j) a1) else f i j).
(** complex_to_real, real_to_complex (lines 549-560): a trailing axis of length 2. *)
Definition to_real (a : cplx) : list R := [fst a; snd a].
Definition to_complex (l : list R) : option cplx := match l with [a; b] => Some (a, b) | _ => None end.
