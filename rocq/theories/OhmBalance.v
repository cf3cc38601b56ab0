(** Property C81, continued: what the kinetic Ohm law of VFP-2D stands for — the balance of the v^3-weighted electron momentum. *)
From Coq Require Import Reals Lra Lia ZArith List Bool Psatz.
From Verif Require Import PyStr Harm2d Harm2dLayout Harm2dSum Harm2dProps Harm2dMoments Vfp2d Vfp2dOps Vfp2dField VfpOhm VfpOhmProps RSum Pic PicProofs PicFourier Dft.
Import ListNotations.
Local Open Scope R_scope.

Lemma vm_x L M nv dv w f : v_x (vec_moment L M nv dv w f) = 4 * PI / 3 * dv * rsum nv (fun j => w j * fst (gf L M (fun i => f i j) 1 0)).
Proof. unfold vec_moment, vsum, vscal, v_x, v_y, v_z. cbn [fst snd]. unfold cscal. cbn [fst snd]. rewrite csum_fst. cbn [fst]. change (fun j => w j * fst (at_ L M (fun i => f i j) 1 0)) with (fun j => w j * fst (gf L M (fun i => f i j) 1 0)). ring. Qed.
Lemma vm_y L M nv dv w f : v_y (vec_moment L M nv dv w f) = 8 * PI / 3 * dv * rsum nv (fun j => w j * fst (gf L M (fun i => f i j) 1 1)).
Proof. unfold vec_moment, vsum, vscal, v_x, v_y, v_z. cbn [fst snd]. unfold cscal. cbn [fst snd]. rewrite csum_fst. cbn [fst]. change (fun j => w j * fst (at_ L M (fun i => f i j) 1 1)) with (fun j => w j * fst (gf L M (fun i => f i j) 1 1)). field. Qed.
Lemma vm_z L M nv dv w f : v_z (vec_moment L M nv dv w f) = - (8 * PI / 3 * dv * rsum nv (fun j => w j * snd (gf L M (fun i => f i j) 1 1))).
Proof. unfold vec_moment, vsum, vscal, v_x, v_y, v_z. cbn [fst snd]. unfold cscal. cbn [fst snd]. rewrite csum_snd. cbn [snd]. change (fun j => w j * snd (at_ L M (fun i => f i j) 1 1)) with (fun j => w j * snd (gf L M (fun i => f i j) 1 1)). field. Qed.
Lemma stream_10 L M v a b c : (1 <= L)%nat -> fst (gf L M (streaming L M v a b c) 1 0) =
  - v * (fst (gf L M a 0 0) + 2 / 5 * fst (gf L M a 2 0) + 6 / 5 * (fst (gf L M b 2 1) - snd (gf L M c 2 1))).
Proof.
  intros H. unfold streaming. rewrite gf_packed by (apply retained_iff; lia). unfold stream_mode. cbv zeta. change (0 <? 0)%nat with false. cbv iota.
  change (Z.of_nat 1 + 1)%Z with (Z.of_nat 2). change (Z.of_nat 1 - 1)%Z with (Z.of_nat 0).
  change (at_ L M ?q (Z.of_nat 2) 1) with (gf L M q 2 1). change (at_ L M ?q (Z.of_nat 0) 1) with (gf L M q 0 1).
  rewrite !(gf_map2 L M (fun u w => cadd u (cmul ci w))) by cx.
  change (at_ L M a (Z.of_nat ?l) (Z.of_nat 0)) with (gf L M a l 0). change (INR 0) with 0. change (INR 1) with 1.
  unfold csub, cneg; unfold cadd, cmul, cscal, ci, c0. cbn [fst snd]. field.
Qed.
Lemma stream_11 L M v a b c : (1 <= L)%nat -> (1 <= M)%nat -> gf L M (streaming L M v a b c) 1 1 =
  cscal (- v) (cadd (cadd (cscal (3 / 5) (gf L M a 2 1)) (cscal (1 / 2) (csub (gf L M b 0 0) (cmul ci (gf L M c 0 0)))))
    (cadd (cscal (- (1 / 10)) (csub (gf L M b 2 0) (cmul ci (gf L M c 2 0)))) (cscal (6 / 5) (cadd (gf L M b 2 2) (cmul ci (gf L M c 2 2)))))).
Proof.
  intros H HM. unfold streaming. rewrite gf_packed by (apply retained_iff; lia). unfold stream_mode. cbv zeta. change (0 <? 1)%nat with true. cbv iota.
  change (Z.of_nat 1 + 1)%Z with (Z.of_nat 2). change (Z.of_nat 1 - 1)%Z with (Z.of_nat 0).
  repeat match goal with |- context [at_ L M ?q (Z.of_nat ?l) (Z.of_nat ?m)] => change (at_ L M q (Z.of_nat l) (Z.of_nat m)) with (gf L M q l m) end.
  rewrite !(gf_map2 L M (fun u w => cadd u (cmul ci w))) by cx. rewrite !(gf_map2 L M (fun u w => csub u (cmul ci w))) by cx.
  change (INR 1) with 1. apply cplx_eq; unfold csub, cneg; unfold cadd, cmul, cscal, ci, c0; cbn [fst snd]; field.
Qed.
(** The rate of the weighted momentum by advection is minus the divergence of the weighted momentum flux: isotropic part / 3 plus the
    stress of the degree-2 part. Fields at one cell: a, b, c are the derivatives of f along x, y, z. *)
Definition flux_iso (L M nv : nat) (dv : R) (w : nat -> R) (a : nat -> nat -> cplx) : R := 4 * PI / 3 * dv * rsum nv (fun j => w j * fst (gf L M (fun i => a i j) 0 0)).
Definition flux_str (L M nv : nat) (dv : R) (w : nat -> R) (f : nat -> nat -> cplx) (a b : nat) : R :=
  8 * PI / 15 * dv * rsum nv (fun j => w j * vcomp (row (cartesian_l2 L M (fun i => f i j)) a) b).
Definition real_m0 (L M : nat) (a : nat -> nat -> cplx) : Prop := forall j l, snd (gf L M (fun i => a i j) l 0) = 0.
Lemma rsum_lin3 n (A B C : nat -> R) p q r : p * rsum n A + q * rsum n B + r * rsum n C = rsum n (fun j => p * A j + q * B j + r * C j).
Proof. rewrite !rsum_plus, !rsum_scal. reflexivity. Qed.
Theorem C78_momentum_streaming : forall L M nv dv v w a b c, (1 <= L)%nat -> (1 <= M)%nat -> real_m0 L M b -> real_m0 L M c ->
  let wv := fun j => w j * v j in
  vec_moment L M nv dv w (fun i j => streaming L M (v j) (fun i => a i j) (fun i => b i j) (fun i => c i j) i) =
  vscal (-1) (flux_iso L M nv dv wv a + (flux_str L M nv dv wv a 0 0 + flux_str L M nv dv wv b 0 1 + flux_str L M nv dv wv c 0 2),
              flux_iso L M nv dv wv b + (flux_str L M nv dv wv a 1 0 + flux_str L M nv dv wv b 1 1 + flux_str L M nv dv wv c 1 2),
              flux_iso L M nv dv wv c + (flux_str L M nv dv wv a 2 0 + flux_str L M nv dv wv b 2 1 + flux_str L M nv dv wv c 2 2)).
Proof.
  intros L M nv dv v w a b c HL HM Rb Rc wv. apply vec3_eq; [rewrite vm_x|rewrite vm_y|rewrite vm_z]; unfold vscal, v_x, v_y, v_z; cbn [fst snd]; unfold flux_iso, flux_str.
  - transitivity (rsum nv (fun j => 4 * PI / 3 * dv * (w j * (- v j * (fst (gf L M (fun i => a i j) 0 0) + 2 / 5 * fst (gf L M (fun i => a i j) 2 0) + 6 / 5 * (fst (gf L M (fun i => b i j) 2 1) - snd (gf L M (fun i => c i j) 2 1))))))).
    + rewrite rsum_scal. f_equal. apply rsum_ext. intros j _. f_equal. change (fun i => streaming L M (v j) ?p ?q ?r i) with (streaming L M (v j) p q r). now rewrite stream_10.
    + rewrite <- !rsum_scal, <- !rsum_plus, <- rsum_scal. apply rsum_ext. intros j _. unfold wv, cartesian_l2, row, vcomp, v_x, v_y, v_z. cbn [fst snd].
      repeat match goal with |- context [at_ L M ?q ?l ?m] => change (at_ L M q l m) with (gf L M q (Z.to_nat l) (Z.to_nat m)) end. change (Z.to_nat 2) with 2%nat. change (Z.to_nat 1) with 1%nat. change (Z.to_nat 0) with 0%nat. field.
  - transitivity (rsum nv (fun j => 8 * PI / 3 * dv * (w j * (- v j * (3 / 5 * fst (gf L M (fun i => a i j) 2 1) + 1 / 2 * fst (gf L M (fun i => b i j) 0 0) - 1 / 10 * fst (gf L M (fun i => b i j) 2 0) + 6 / 5 * (fst (gf L M (fun i => b i j) 2 2) - snd (gf L M (fun i => c i j) 2 2))))))).
    + rewrite rsum_scal. f_equal. apply rsum_ext. intros j _. f_equal. change (fun i => streaming L M (v j) ?p ?q ?r i) with (streaming L M (v j) p q r). rewrite stream_11 by assumption.
      unfold csub, cneg; unfold cadd, cmul, cscal, ci; cbn [fst snd]. rewrite (Rc j 0%nat), (Rc j 2%nat). field.
    + rewrite <- !rsum_scal, <- !rsum_plus, <- rsum_scal. apply rsum_ext. intros j _. unfold wv, cartesian_l2, row, vcomp, v_x, v_y, v_z. cbn [fst snd].
      repeat match goal with |- context [at_ L M ?q ?l ?m] => change (at_ L M q l m) with (gf L M q (Z.to_nat l) (Z.to_nat m)) end. change (Z.to_nat 2) with 2%nat. change (Z.to_nat 1) with 1%nat. change (Z.to_nat 0) with 0%nat. field.
  - transitivity (rsum nv (fun j => - (8 * PI / 3 * dv) * (w j * (- v j * (3 / 5 * snd (gf L M (fun i => a i j) 2 1) - 1 / 2 * fst (gf L M (fun i => c i j) 0 0) + 1 / 10 * fst (gf L M (fun i => c i j) 2 0) + 6 / 5 * (snd (gf L M (fun i => b i j) 2 2) + fst (gf L M (fun i => c i j) 2 2))))))).
    + rewrite rsum_scal, <- Ropp_mult_distr_l. f_equal. f_equal. apply rsum_ext. intros j _. f_equal. change (fun i => streaming L M (v j) ?p ?q ?r i) with (streaming L M (v j) p q r). rewrite stream_11 by assumption.
      unfold csub, cneg; unfold cadd, cmul, cscal, ci; cbn [fst snd]. rewrite (Rb j 0%nat), (Rb j 2%nat). field.
    + rewrite <- !rsum_scal, <- !rsum_plus, <- rsum_scal. apply rsum_ext. intros j _. unfold wv, cartesian_l2, row, vcomp, v_x, v_y, v_z. cbn [fst snd].
      repeat match goal with |- context [at_ L M ?q ?l ?m] => change (at_ L M q l m) with (gf L M q (Z.to_nat l) (Z.to_nat m)) end. change (Z.to_nat 2) with 2%nat. change (Z.to_nat 1) with 1%nat. change (Z.to_nat 0) with 0%nat. field.
Qed.
Print Assumptions C78_momentum_streaming.
(** What the magnetic operator does to a weighted momentum: M' = (bx, -by, -bz) x M. *)
Theorem C78_momentum_magnetic : forall L M nv dv w bx by_ bz f, (1 <= L)%nat -> (1 <= M)%nat -> real_m0 L M f ->
  vec_moment L M nv dv w (fun i j => magnetic L M bx by_ bz (fun i => f i j) i) = vcross (bx, - by_, - bz) (vec_moment L M nv dv w f).
Proof.
  intros L M nv dv w bx by_ bz f HL HM Rf.
  assert (M10 : forall g, fst (gf L M (magnetic L M bx by_ bz g) 1 0) = 2 * (bz * fst (gf L M g 1 1) + by_ * snd (gf L M g 1 1))).
  { intros g. unfold magnetic. rewrite gf_packed by (apply retained_iff; lia). unfold magnetic_mode. cbv zeta. change (0 <? 0)%nat with false. change (0 <? 1)%nat with true. cbv iota.
    change (at_ L M g (Z.of_nat 1) 1) with (gf L M g 1 1). change (INR 1) with 1. unfold cmul. cbn [fst snd]. ring. }
  assert (M11 : forall g, gf L M (magnetic L M bx by_ bz g) 1 1 = csub (csub c0 (cmul (cscal bx ci) (gf L M g 1 1))) (cmul (cscal (1 / 2) (bz, by_)) (gf L M g 1 0))).
  { intros g. unfold magnetic. rewrite gf_packed by (apply retained_iff; lia). unfold magnetic_mode. cbv zeta. change (0 <? 1)%nat with true. cbv iota.
    change (Z.of_nat 1 + 1)%Z with (Z.of_nat 2). change (Z.of_nat 1 - 1)%Z with (Z.of_nat 0). change (at_ L M g (Z.of_nat 1) (Z.of_nat ?m)) with (gf L M g 1 m).
    rewrite (gf_out L M g 1 2); [|unfold retained; rewrite (proj2 (Nat.leb_gt 2 1)) by lia; destruct (1 <=? L)%nat; reflexivity]. change (INR 1) with 1. apply cplx_eq; unfold csub, cneg; unfold cadd, cmul, cscal, ci, c0; cbn [fst snd]; ring. }
  set (W := vec_moment L M nv dv w f).
  apply vec3_eq; [rewrite vm_x; change (v_x (vcross ?p W)) with (v_y p * v_z W - v_z p * v_y W)|rewrite vm_y; change (v_y (vcross ?p W)) with (v_z p * v_x W - v_x p * v_z W)|rewrite vm_z; change (v_z (vcross ?p W)) with (v_x p * v_y W - v_y p * v_x W)]; unfold W.
  - rewrite (rsum_ext nv _ (fun j => (2 * bz) * (w j * fst (gf L M (fun i => f i j) 1 1)) + (2 * by_) * (w j * snd (gf L M (fun i => f i j) 1 1)))).
    + rewrite rsum_plus, !rsum_scal.       change (v_y (bx, - by_, - bz)) with (- by_). change (v_z (bx, - by_, - bz)) with (- bz). rewrite vm_z, vm_y. field.
    + intros j _. change (fun i => magnetic L M bx by_ bz ?p i) with (magnetic L M bx by_ bz p). rewrite M10. ring.
  - rewrite (rsum_ext nv _ (fun j => bx * (w j * snd (gf L M (fun i => f i j) 1 1)) + (- (1 / 2) * bz) * (w j * fst (gf L M (fun i => f i j) 1 0)))).
    + rewrite rsum_plus, !rsum_scal. change (v_x (bx, - by_, - bz)) with bx. change (v_z (bx, - by_, - bz)) with (- bz). rewrite ?vm_z, ?vm_x. field.
    + intros j _. change (fun i => magnetic L M bx by_ bz ?p i) with (magnetic L M bx by_ bz p). rewrite M11. unfold csub, cneg; unfold cadd, cmul, cscal, ci, c0; cbn [fst snd]. pose proof (Rf j 1%nat) as E. rewrite E. ring.
  - rewrite (rsum_ext nv _ (fun j => (- bx) * (w j * fst (gf L M (fun i => f i j) 1 1)) + (- (1 / 2) * by_) * (w j * fst (gf L M (fun i => f i j) 1 0)))).
    + rewrite rsum_plus, !rsum_scal. change (v_x (bx, - by_, - bz)) with bx. change (v_y (bx, - by_, - bz)) with (- by_). rewrite ?vm_y, ?vm_x. field.
    + intros j _. change (fun i => magnetic L M bx by_ bz ?p i) with (magnetic L M bx by_ bz p). rewrite M11. unfold csub, cneg; unfold cadd, cmul, cscal, ci, c0; cbn [fst snd]. pose proof (Rf j 1%nat) as E. rewrite E. ring.
Qed.
Print Assumptions C78_momentum_magnetic.
