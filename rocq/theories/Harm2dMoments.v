(** Properties C78, C79: moments, conservation and the projections of the VFP-2D solver at one cell. *)
From Coq Require Import Reals Lra Lia ZArith List Bool Psatz.
From Verif Require Import Harm2d Harm2dLayout Harm2dSum Harm2dProps Legendre RSum Pic PicProofs PicFourier Dft.
Import ListNotations.
Local Open Scope R_scope.

Lemma retained_iff L M l m : retained L M l m = true <-> (m <= l /\ l <= L /\ m <= M)%nat.
Proof. unfold retained. destruct (Nat.leb_spec l L), (Nat.leb_spec m l), (Nat.leb_spec m M); cbn; split; intros; try discriminate; try lia; auto. Qed.
(** ** Specification: what the harmonics of degree 0, 1 and 2 stand for *)
(** The coefficients of degree at most 2 of a distribution are its mean over directions, a vector and a symmetric traceless
    tensor: f(n) = f00 + n.V + n.F.n. [cartesian_l2] is that tensor and [dir_vec] the vector of the current. *)
Definition dir_vec (L M : nat) (f : nat -> cplx) : vec3 := (fst (gf L M f 1 0), 2 * fst (gf L M f 1 1), - 2 * snd (gf L M f 1 1)).
Definition vdot (a b : vec3) : R := v_x a * v_x b + v_y a * v_y b + v_z a * v_z b.
Theorem C78_tensor : forall L M f,
  let T := cartesian_l2 L M f in
  (forall a b, (a < 3)%nat -> (b < 3)%nat -> vcomp (row T a) b = vcomp (row T b) a) /\
  vcomp (row T 0) 0 + vcomp (row T 1) 1 + vcomp (row T 2) 2 = 0 /\
  (forall x y z, x * x + y * y + z * z = 1 -> (L <= 2)%nat ->
     dist_at L M f x y z = fst (gf L M f 0 0) + vdot (x, y, z) (dir_vec L M f)
       + vdot (x, y, z) (vdot (row T 0) (x, y, z), vdot (row T 1) (x, y, z), vdot (row T 2) (x, y, z))).
Proof.
  intros L M f T. split; [|split].
  - intros a b Ha Hb. destruct a as [|[|[|a]]]; try lia; destruct b as [|[|[|b]]]; try lia; reflexivity.
  - unfold T, cartesian_l2, row, vcomp, v_x, v_y, v_z. cbn [fst snd]. lra.
  - intros x y z HS HL. rewrite (dist_double L M 3) by lia. cbn [rsum].
    unfold dterm, T, cartesian_l2, row, vcomp, vdot, dir_vec, v_x, v_y, v_z. cbn [fst snd].
    change (at_ L M f 2 0) with (gf L M f 2 0). change (at_ L M f 2 1) with (gf L M f 2 1). change (at_ L M f 2 2) with (gf L M f 2 2).
    rewrite (legd_high x 0 1), (legd_high x 0 2), (legd_high x 1 2) by lia.
    assert (L00 : legd x 0 0 = 1) by reflexivity. assert (L10 : legd x 1 0 = x) by reflexivity. assert (L11 : legd x 1 1 = 1) by reflexivity.
    assert (L20 : legd x 2 0 = (3 * x * x - 1) / 2) by (rewrite legd_SS, L10, L00; change (INR 0) with 0; field).
    assert (L21 : legd x 2 1 = 3 * x) by (rewrite legd_SS; cbn [Nat.sub]; rewrite L10, L11, (legd_high x 0 1) by lia; change (INR 0) with 0; change (INR 1) with 1; field).
    assert (L22 : legd x 2 2 = 3) by (rewrite legd_SS; cbn [Nat.sub]; rewrite L11, (legd_high x 0 2), (legd_high x 1 2) by lia; change (INR 0) with 0; change (INR 2) with (1 + 1); field).
    rewrite L00, L10, L11, L20, L21, L22. unfold wt. cbn [Nat.eqb cpow]. unfold c1, cmul. cbn [fst snd].
    assert (HX : z * z = 1 - x * x - y * y) by lra.
    apply Rminus_diag_uniq.
    match goal with |- ?e = 0 => replace e with (fst (gf L M f 2 0) * (1 / 2 * (x * x + y * y + z * z - 1))) by field end. rewrite HS. field.
Qed.
Print Assumptions C78_tensor.

(** ** Moments are linear and follow the streaming operator: continuity *)
Lemma re_mode_gf L M f l m j : re_mode L M f (Z.of_nat l) (Z.of_nat m) j = fst (gf L M (fun i => f i j) l m).
Proof. reflexivity. Qed.
Lemma stream_00 L M v a b c : fst (gf L M (streaming L M v a b c) 0 0) =
  - v / 3 * (fst (gf L M a 1 0) + 2 * fst (gf L M b 1 1) - 2 * snd (gf L M c 1 1)).
Proof.
  unfold streaming. rewrite gf_packed by (apply retained_iff; lia). unfold stream_mode. cbv zeta. change (0 <? 0)%nat with false. cbv iota.
  change (Z.of_nat 0 + 1)%Z with (Z.of_nat 1). rewrite !at_pred. cbn [prd].
  change (at_ L M (fun i => cadd (b i) (cmul ci (c i))) (Z.of_nat 0 - 1) 1) with (at_ L M (fun i => cadd (b i) (cmul ci (c i))) (Z.of_nat 0 - 1) (Z.of_nat 1)). rewrite at_pred. cbn [prd].
  change (at_ L M (fun i => cadd (b i) (cmul ci (c i))) (Z.of_nat 1) 1) with (gf L M (fun i => cadd (b i) (cmul ci (c i))) 1 1).
  rewrite (gf_map2 L M (fun u w => cadd u (cmul ci w))) by cx.
  change (at_ L M a (Z.of_nat 1) (Z.of_nat 0)) with (gf L M a 1 0). change (INR 0) with 0.
  unfold csub, cneg; unfold cadd, cmul, cscal, ci, c0. cbn [fst snd]. field.
Qed.
Lemma csum_fst' n h : fst (csum n h) = rsum n (fun i => fst (h i)).
Proof. induction n; cbn [csum rsum]; auto. unfold cadd. cbn [fst]. now rewrite IHn. Qed.
Lemma csum_snd' n h : snd (csum n h) = rsum n (fun i => snd (h i)).
Proof. induction n; cbn [csum rsum]; auto. unfold cadd. cbn [snd]. now rewrite IHn. Qed.
(** Spatial advection changes the density by minus the divergence of the particle flux, exactly: with the derivatives a = df/dx,
    b = df/dy, c = df/dz the rate is -(flux_x(a) + flux_y(b) + flux_z(c)), flux being the current of charge 1. This is true at
    every truncation, for every speed grid and streaming speed. *)
Theorem C78_continuity : forall L M nv v dv speed a b c,
  density2 L M nv v dv (fun i j => streaming L M (speed j) (fun i => a i j) (fun i => b i j) (fun i => c i j) i) =
  - (v_x (current2 L M nv v dv 1 speed a) + v_y (current2 L M nv v dv 1 speed b) + v_z (current2 L M nv v dv 1 speed c)).
Proof.
  intros L M nv v dv speed a b c. unfold density2, current2, vec_moment, vsum, vscal, v_x, v_y, v_z. cbn [fst snd]. unfold cscal. cbn [fst snd].
  rewrite !csum_fst', !csum_snd'. unfold cscal. cbn [fst snd].
  rewrite (rsum_ext nv _ (fun j => - (1 / 3) * (v j ^ 2 * speed j * fst (gf L M (fun i => a i j) 1 0) + 2 * (v j ^ 2 * speed j * fst (gf L M (fun i => b i j) 1 1)) - 2 * (v j ^ 2 * speed j * snd (gf L M (fun i => c i j) 1 1))))).
  - rewrite rsum_scal, rsum_minus, rsum_plus, !rsum_scal. 
    change (rsum nv (fun j => v j ^ 2 * speed j * fst (at_ L M (fun i => a i j) 1 0))) with (rsum nv (fun j => v j ^ 2 * speed j * fst (gf L M (fun i => a i j) 1 0))).
    change (rsum nv (fun j => v j ^ 2 * speed j * fst (at_ L M (fun i => b i j) 1 1))) with (rsum nv (fun j => v j ^ 2 * speed j * fst (gf L M (fun i => b i j) 1 1))).
    change (rsum nv (fun j => v j ^ 2 * speed j * snd (at_ L M (fun i => c i j) 1 1))) with (rsum nv (fun j => v j ^ 2 * speed j * snd (gf L M (fun i => c i j) 1 1))).
    field.
  - intros j _. unfold re_mode. change (at_ L M (fun i => streaming L M (speed j) (fun i0 => a i0 j) (fun i0 => b i0 j) (fun i0 => c i0 j) i) 0 0) with (gf L M (streaming L M (speed j) (fun i0 => a i0 j) (fun i0 => b i0 j) (fun i0 => c i0 j)) 0 0).
    rewrite stream_00. field.
Qed.
Print Assumptions C78_continuity.

(** ** The electric force: number and energy *)
Lemma elec_00 L M ex ey ez g h : fst (gf L M (electric L M ex ey ez g h) 0 0) =
  / 3 * (ex * fst (gf L M h 1 0) + 2 * ey * fst (gf L M h 1 1) - 2 * ez * snd (gf L M h 1 1)).
Proof.
  unfold electric. rewrite gf_packed by (apply retained_iff; lia). unfold electric_mode. cbv zeta. change (0 <? 0)%nat with false. cbv iota.
  change (Z.of_nat 0 + 1)%Z with (Z.of_nat 1). rewrite !at_pred. cbn [prd].
  change (at_ L M g (Z.of_nat 0 - 1) 1) with (at_ L M g (Z.of_nat 0 - 1) (Z.of_nat 1)). rewrite at_pred. cbn [prd].
  change (at_ L M h (Z.of_nat 1) 1) with (gf L M h 1 1). change (at_ L M h (Z.of_nat 1) (Z.of_nat 0)) with (gf L M h 1 0). change (INR 0) with 0.
  unfold csub, cneg; unfold cadd, cmul, cscal, creal, c0. cbn [fst snd]. field.
Qed.
(** The cell-centred speeds of the grid. *)
Definition centred (dv : R) (v : nat -> R) : Prop := forall j, v j = (INR j + 1 / 2) * dv.
Definition parts_g (nv : nat) (g : nat -> R) (j : nat) : R := (if (S j <? nv)%nat then g (S j) else 0) - match j with O => - g 0%nat | S k => g k end.
Lemma parts nv (w g : nat -> R) : (0 < nv)%nat ->
  rsum nv (fun j => w j * parts_g nv g j) = rsum nv (fun j => g j * ((match j with O => w 0%nat | S k => w k end) - w (S j))) + w nv * g (nv - 1)%nat.
Proof.
  intros Hn. destruct nv as [|n]; [lia|]. replace (S n - 1)%nat with n by lia. unfold parts_g.
  transitivity (rsum (S n) (fun j => w j * (if (S j <? S n)%nat then g (S j) else 0)) - rsum (S n) (fun j => w j * match j with O => - g 0%nat | S k => g k end)).
  { rewrite <- rsum_minus. apply rsum_ext. intros. ring. }
  assert (E1 : rsum (S n) (fun j => w j * (if (S j <? S n)%nat then g (S j) else 0)) = rsum n (fun j => w j * g (S j))).
  { cbn [rsum]. rewrite Nat.ltb_irrefl. rewrite (rsum_ext n _ (fun j => w j * g (S j))); [ring|]. intros j Hj. destruct (Nat.ltb_spec (S j) (S n)); [auto|lia]. }
  rewrite E1. rewrite (rsum_shift n (fun j => w j * match j with O => - g 0%nat | S k => g k end)).
  rewrite (rsum_ext (S n) (fun j => g j * ((match j with O => w 0%nat | S k => w k end) - w (S j))) (fun j => g j * (match j with O => w 0%nat | S k => w k end) - g j * w (S j))) by (intros; ring).
  rewrite rsum_minus. rewrite (rsum_shift n (fun j => g j * match j with O => w 0%nat | S k => w k end)). cbn [rsum].
  rewrite (rsum_ext n (fun i => w i * g (S i)) (fun i => g (S i) * w i)) by (intros; ring). rewrite (rsum_ext n (fun i => w (S i) * g i) (fun i => g i * w (S i))) by (intros; ring). ring.
Qed.
Lemma hddv1_parts nv dv g j : dv <> 0 -> (j < nv)%nat -> hddv nv dv 1 g j = cscal (/ (2 * dv)) (parts_g nv (fun k => fst (g k)) j, parts_g nv (fun k => snd (g k)) j).
Proof.
  intros Hd Hj. unfold hddv, parts_g. cbv zeta. destruct (S j <? nv)%nat; destruct j as [|j]; try (destruct (Nat.ltb_spec j nv); [|lia]); cx.
Qed.
Lemma gf_speed L M nv dv f j l m : gf L M (speed_deriv L M nv dv f j) l m = hddv nv dv l (fun k => gf L M (fun i => f i k) l m) j.
Proof.
  destruct (retained L M l m) eqn:E.
  - destruct (retained_index L M l m E) as (i & Hi & A & B & C). rewrite C. unfold speed_deriv. rewrite A. unfold hddv. cbv zeta.
    assert (Q : forall k, gf L M (fun i => f i k) l m = f i k) by (intros; apply C). rewrite !Q. destruct j as [|j]; [reflexivity|]. now rewrite !Q.
  - rewrite gf_out by auto. symmetry. apply hddv_zero. intros k. now apply gf_out.
Qed.
(** The sum over speeds of w_j times the degree-1 H operator. *)
Lemma h_sum nv dv v (w : nat -> R) (g : nat -> R) : (0 < nv)%nat -> dv <> 0 -> centred dv v ->
  rsum nv (fun j => w j * (/ (2 * dv) * parts_g nv g j + 2 * (1 / v j) * g j)) * dv =
  1 / 2 * rsum nv (fun j => g j * ((match j with O => w 0%nat | S k => w k end) - w (S j) + 4 * (w j / v j) * dv)) + 1 / 2 * (w nv * g (nv - 1)%nat).
Proof.
  intros Hn Hd Hv.
  rewrite (rsum_ext nv _ (fun j => / (2 * dv) * (w j * parts_g nv g j) + 2 * (w j / v j * g j))) by (intros; unfold Rdiv; ring).
  rewrite rsum_plus, !rsum_scal, parts by auto.
  rewrite (rsum_ext nv (fun j => g j * ((match j with O => w 0%nat | S k => w k end) - w (S j) + 4 * (w j / v j) * dv))
     (fun j => g j * ((match j with O => w 0%nat | S k => w k end) - w (S j)) + (4 * dv) * (w j / v j * g j))) by (intros; ring).
  rewrite rsum_plus, rsum_scal. field. auto.
Qed.
Lemma v_nz dv v j : dv <> 0 -> centred dv v -> v j <> 0.
Proof. intros Hd Hv. rewrite Hv. apply Rmult_integral_contrapositive_currified; auto. pose proof (pos_INR j). lra. Qed.
Lemma number_sum nv dv v g : (0 < nv)%nat -> dv <> 0 -> centred dv v ->
  rsum nv (fun j => v j ^ 2 * (/ (2 * dv) * parts_g nv g j + 2 * (1 / v j) * g j)) * dv = 1 / 2 * (v nv ^ 2 * g (nv - 1)%nat).
Proof.
  intros Hn Hd Hv. rewrite (h_sum nv dv v (fun j => v j ^ 2)) by auto. rewrite (rsum_ext nv _ (fun _ => 0)); [rewrite rsum_zero; ring|].
  intros j _. pose proof (v_nz dv v j Hd Hv) as K. destruct j as [|k].
  - replace (v 0%nat ^ 2 / v 0%nat) with (v 0%nat) by (field; auto). rewrite !Hv. change (INR 1) with 1. change (INR 0) with 0. field.
  - replace (v (S k) ^ 2 / v (S k)) with (v (S k)) by (field; auto). rewrite !Hv, !S_INR. field.
Qed.
Lemma energy_sum nv dv v g : (0 < nv)%nat -> dv <> 0 -> centred dv v ->
  rsum nv (fun j => v j ^ 4 * (/ (2 * dv) * parts_g nv g j + 2 * (1 / v j) * g j)) * dv =
  - 2 * (rsum nv (fun j => v j ^ 3 * g j) * dv) - 4 * dv ^ 2 * (rsum nv (fun j => v j * g j) * dv) + 1 / 2 * (v nv ^ 4 * g (nv - 1)%nat).
Proof.
  intros Hn Hd Hv. rewrite (h_sum nv dv v (fun j => v j ^ 4)) by auto.
  rewrite (rsum_ext nv _ (fun j => (- 4 * dv) * (v j ^ 3 * g j) + (- 8 * dv ^ 3) * (v j * g j))).
  - rewrite rsum_plus, !rsum_scal. field.
  - intros j _. pose proof (v_nz dv v j Hd Hv) as K. destruct j as [|k].
    + replace (v 0%nat ^ 4 / v 0%nat) with (v 0%nat ^ 3) by (field; auto). rewrite !Hv. change (INR 1) with 1. change (INR 0) with 0. field.
    + replace (v (S k) ^ 4 / v (S k)) with (v (S k) ^ 3) by (field; auto). rewrite !Hv, !S_INR. field.
Qed.
(** The rate of change by the electric force of 4 pi sum_j w_j f00_j dv, for any even moment w of the speed. *)
Definition e_op (L M nv : nat) (dv : R) (v : nat -> R) (E : vec3) (f : nat -> nat -> cplx) (i j : nat) : cplx :=
  electric L M (v_x E) (v_y E) (v_z E) (gh_g L M nv dv (v j) f j) (gh_h L M nv dv (v j) f j) i.
Definition moment00 (L M nv : nat) (dv : R) (w : nat -> R) (f : nat -> nat -> cplx) : R := 4 * PI * rsum nv (fun j => re_mode L M f 0 0 j * w j) * dv.
Lemma e_rate L M nv dv v E f w (F : (nat -> R) -> R) : dv <> 0 ->
  (forall g, rsum nv (fun j => w j * (/ (2 * dv) * parts_g nv g j + 2 * (1 / v j) * g j)) * dv = F g) ->
  moment00 L M nv dv w (e_op L M nv dv v E f) = 4 * PI / 3 *
   (v_x E * F (fun j => v_x (dir_vec L M (fun i => f i j))) + v_y E * (2 * F (fun j => fst (gf L M (fun i => f i j) 1 1))) + v_z E * (- 2 * F (fun j => snd (gf L M (fun i => f i j) 1 1)))).
Proof.
  intros Hd HF. rewrite <- !HF. unfold moment00.
  pose (h := fun (g : nat -> R) j => w j * (/ (2 * dv) * parts_g nv g j + 2 * (1 / v j) * g j)).
  rewrite (rsum_ext nv _ (fun j => / 3 * (v_x E * h (fun j => v_x (dir_vec L M (fun i => f i j))) j + (2 * v_y E) * h (fun j => fst (gf L M (fun i => f i j) 1 1)) j + (- 2 * v_z E) * h (fun j => snd (gf L M (fun i => f i j) 1 1)) j))).
  - rewrite rsum_scal, !rsum_plus, !rsum_scal. unfold h. field.
  - intros j Hj. unfold re_mode, e_op. change (at_ L M ?q 0 0) with (gf L M q 0 0).
    change (fun i => electric L M (v_x E) (v_y E) (v_z E) (gh_g L M nv dv (v j) f j) (gh_h L M nv dv (v j) f j) i) with (electric L M (v_x E) (v_y E) (v_z E) (gh_g L M nv dv (v j) f j) (gh_h L M nv dv (v j) f j)).
    rewrite elec_00, !gf_gh_h, !gf_speed, !hddv1_parts by auto. unfold h, dir_vec, v_x, v_y, v_z. change (INR 1) with 1. unfold cadd, cscal. cbn [fst snd].
    change (fun j0 : nat => fst (gf L M (fun i : nat => f i j0) 1 0)) with (fun k : nat => fst (gf L M (fun i : nat => f i k) 1 0)). ring.
Qed.
(** Number: the electric force creates or destroys electrons only at the top speed cell, by the density of E . f1 there. *)
Theorem C78_electric_number : forall L M nv dv v E f, (0 < nv)%nat -> 0 < dv -> centred dv v ->
  density2 L M nv v dv (e_op L M nv dv v E f) = 2 * PI / 3 * ((INR nv + 1 / 2) * dv) ^ 2 * vdot E (dir_vec L M (fun i => f i (nv - 1)%nat)).
Proof.
  intros L M nv dv v E f Hn Hd Hv. assert (Hd' : dv <> 0) by lra. change (density2 L M nv v dv (e_op L M nv dv v E f)) with (moment00 L M nv dv (fun j => v j ^ 2) (e_op L M nv dv v E f)).
  rewrite (e_rate L M nv dv v E f (fun j => v j ^ 2) (fun g => 1 / 2 * (v nv ^ 2 * g (nv - 1)%nat)) Hd'); [|intros g; now apply number_sum].
  rewrite Hv. unfold vdot, dir_vec, v_x, v_y, v_z. cbn [fst snd]. field.
Qed.
Print Assumptions C78_electric_number.
(** Energy: the power given by the electric force is E . j (current of charge -1) plus a discretisation term of second order in the
    speed step and a term at the top speed cell. *)
Theorem C78_electric_power : forall L M nv dv v E f, (0 < nv)%nat -> 0 < dv -> centred dv v ->
  1 / 2 * moment00 L M nv dv (fun j => v j ^ 4) (e_op L M nv dv v E f) =
  vdot E (current2 L M nv v dv (-1) v f) - 2 * dv ^ 2 * vdot E (vec_moment L M nv dv v f)
  + PI / 3 * ((INR nv + 1 / 2) * dv) ^ 4 * vdot E (dir_vec L M (fun i => f i (nv - 1)%nat)).
Proof.
  intros L M nv dv v E f Hn Hd Hv. assert (Hd' : dv <> 0) by lra.
  rewrite (e_rate L M nv dv v E f (fun j => v j ^ 4) (fun g => - 2 * (rsum nv (fun j => v j ^ 3 * g j) * dv) - 4 * dv ^ 2 * (rsum nv (fun j => v j * g j) * dv) + 1 / 2 * (v nv ^ 4 * g (nv - 1)%nat)) Hd'); [|intros g; now apply energy_sum].
  rewrite (Hv nv). unfold vdot, current2, vec_moment, vsum, vscal, dir_vec, v_x, v_y, v_z. cbn [fst snd]. unfold cscal. cbn [fst snd]. rewrite !csum_fst', !csum_snd'. unfold cscal. cbn [fst snd].
  change (fun j => v j * fst (at_ L M (fun i => f i j) 1 0)) with (fun j => v j * fst (gf L M (fun i => f i j) 1 0)).
  change (fun j => v j * fst (at_ L M (fun i => f i j) 1 1)) with (fun j => v j * fst (gf L M (fun i => f i j) 1 1)).
  change (fun j => v j * snd (at_ L M (fun i => f i j) 1 1)) with (fun j => v j * snd (gf L M (fun i => f i j) 1 1)).
  assert (P : forall q : nat -> R, rsum nv (fun j => v j ^ 2 * v j * q j) = rsum nv (fun j => v j ^ 3 * q j)) by (intros q; apply rsum_ext; intros; ring).
  change (rsum nv (fun j => v j ^ 2 * v j * fst (at_ L M (fun i => f i j) 1 0))) with (rsum nv (fun j => v j ^ 2 * v j * fst (gf L M (fun i => f i j) 1 0))).
  change (rsum nv (fun j => v j ^ 2 * v j * fst (at_ L M (fun i => f i j) 1 1))) with (rsum nv (fun j => v j ^ 2 * v j * fst (gf L M (fun i => f i j) 1 1))).
  change (rsum nv (fun j => v j ^ 2 * v j * snd (at_ L M (fun i => f i j) 1 1))) with (rsum nv (fun j => v j ^ 2 * v j * snd (gf L M (fun i => f i j) 1 1))).
  rewrite (P (fun j => fst (gf L M (fun i => f i j) 1 0))), (P (fun j => fst (gf L M (fun i => f i j) 1 1))), (P (fun j => snd (gf L M (fun i => f i j) 1 1))). field.
Qed.
Print Assumptions C78_electric_power.
(** The magnetic force changes no moment of f00: it does no work. *)
Theorem C78_magnetic_no_work : forall L M nv dv bx by_ bz w f,
  moment00 L M nv dv w (fun i j => magnetic L M bx by_ bz (fun i => f i j) i) = 0.
Proof.
  intros L M nv dv bx by_ bz w f. unfold moment00. rewrite (rsum_ext nv _ (fun _ => 0)); [rewrite rsum_zero; ring|].
  intros j _. unfold re_mode. change (at_ L M ?q 0 0) with (gf L M q 0 0). 
  change (fun i => magnetic L M bx by_ bz (fun i0 => f i0 j) i) with (magnetic L M bx by_ bz (fun i0 => f i0 j)).
  unfold magnetic. rewrite gf_packed by (apply retained_iff; lia). unfold magnetic_mode. cbn. ring.
Qed.
Print Assumptions C78_magnetic_no_work.
(** A concrete state (l_max = m_max = 1, two speed cells, a beam along x in the top cell) in a field along x loses number at the rate
    of the theorem, which is not zero. *)
Example C78_nonvacuous : let f := fun i j => if ((i =? 1) && (j =? 1))%nat%bool then (1, 0) else c0 in
  let v := fun j => (INR j + 1 / 2) * 1 in
  centred 1 v /\ density2 1 1 2 v 1 (e_op 1 1 2 1 v (1, 0, 0) f) = 2 * PI / 3 * (25 / 4) /\ vdot (1, 0, 0) (current2 1 1 2 v 1 (-1) v f) < 0.
Proof.
  intros f v. assert (C : centred 1 v) by (intros j; reflexivity). split; auto. split.
  - rewrite C78_electric_number by (auto; try lia; lra). unfold vdot, dir_vec, f. cbn. unfold v_x, v_y, v_z. cbn. unfold gf, at_. cbn. change (Pos.to_nat 1) with 1%nat. cbn. change (Pos.to_nat 1) with 1%nat. change (Pos.to_nat 2) with 2%nat. cbn. field.
  - unfold vdot, current2, vec_moment, vsum, f, v, v_x, v_y, v_z. cbn. unfold at_. cbn. change (Pos.to_nat 1) with 1%nat. change (Pos.to_nat 2) with 2%nat. cbn. change (Pos.to_nat 1) with 1%nat. change (Pos.to_nat 2) with 2%nat. cbn. pose proof PI_RGT_0. match goal with |- ?e < 0 => replace e with (- (4 * PI / 3) * (27 / 8)) by field end. lra.
Qed.
