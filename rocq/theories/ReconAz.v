(** Property C107: the vector potential of a saved in-plane field. *)
From Coq Require Import Reals Lra Lia ZArith List Bool Psatz.
From Verif Require Import Drivers Density Recon PyStr Harm2d Harm2dLayout Harm2dSum Harm2dProps Harm2dMoments Vfp2d Vfp2dOps Vfp2dField RSum Pic PicProofs PicFourier Dft.
Import ListNotations.
Local Open Scope R_scope.
Add Ring cplx_ring107 : cring.

(** The grid with the solver's spectral derivatives along both axes. *)
Definition sgrid (nx ny : nat) (dx dy : R) : grid2 := {| g_nx := nx; g_ny := ny; g_dx := dx; g_dy := dy; g_kx := Spectral; g_ky := Spectral |}.
(** A real field without content at half the sampling rate of either axis (always so when both cell numbers are odd). *)
Definition band_limited (nx ny : nat) (a : fld) : Prop :=
  forall k l, (k < nx)%nat -> (l < ny)%nat -> (2 * k = nx \/ 2 * l = ny)%nat -> fft2 nx ny (fun x y => (a x y, 0)) k l = c0.
Definition mean2 (nx ny : nat) (a : fld) : R := rsum nx (fun x => rsum ny (fun y => a x y)) / (INR nx * INR ny).

Lemma fft2_ifft2 nx ny X k l : (k < nx)%nat -> (l < ny)%nat -> fft2 nx ny (ifft2 nx ny X) k l = X k l.
Proof.
  intros Hk Hl. unfold fft2. rewrite (cfft_ext nx _ (ifft nx (fun k => X k l))); [now rewrite cfft_ifft|].
  intros x Hx. rewrite (cfft_ext ny _ (ifft ny (fun l => ifft nx (fun k => X k l) x))); [now rewrite cfft_ifft|]. intros y Hy. apply ifft2_swap.
Qed.
Lemma emb_fst (z : cplx) : snd z = 0 -> (fst z, 0) = z.
Proof. destruct z. cbn. now intros ->. Qed.
Lemma ddx_ifft2 nx ny dx dy X a b : (a < nx)%nat -> (forall x y, snd (ifft2 nx ny X x y) = 0) ->
  ddx (sgrid nx ny dx dy) (fun x y => fst (ifft2 nx ny X x y)) a b = fst (ifft2 nx ny (fun k l => cmul (0, kx nx dx k) (X k l)) a b).
Proof.
  intros Ha HR. unfold ddx, rder. cbn [g_kx g_nx g_dx sgrid dax]. f_equal.
  rewrite (dspec_ext nx dx _ (ifft nx (fun k => ifft ny (X k) b))) by (auto; intros q _; exact (emb_fst (ifft2 nx ny X q b) (HR q b))). rewrite dspec_ifft by auto. unfold ifft2. apply ifft_ext. intros k _. unfold ifft.
  rewrite !cscal_mul. rewrite (csum_ext ny (fun k0 => cmul (cmul (0, kx nx dx k) (X k k0)) (cis (angle ny k0 b))) (fun k0 => cmul (0, kx nx dx k) (cmul (X k k0) (cis (angle ny k0 b))))) by (intros; ring). rewrite csum_mul. ring.
Qed.
Lemma ddy_ifft2 nx ny dx dy X a b : (b < ny)%nat -> (forall x y, snd (ifft2 nx ny X x y) = 0) ->
  ddy (sgrid nx ny dx dy) (fun x y => fst (ifft2 nx ny X x y)) a b = fst (ifft2 nx ny (fun k l => cmul (0, kx ny dy l) (X k l)) a b).
Proof.
  intros Hb HR. unfold ddy, rder. cbn [g_ky g_ny g_dy sgrid dax]. f_equal.
  rewrite (dspec_ext ny dy _ (ifft ny (fun l => ifft nx (fun k => X k l) a))) by (auto; intros q _; (transitivity (ifft2 nx ny X a q); [exact (emb_fst (ifft2 nx ny X a q) (HR a q))|apply ifft2_swap])). rewrite dspec_ifft by auto. rewrite ifft2_swap. apply ifft_ext. intros l _. unfold ifft.
  rewrite !cscal_mul. rewrite (csum_ext nx (fun k => cmul (cmul (0, kx ny dy l) (X k l)) (cis (angle nx k a))) (fun k => cmul (0, kx ny dy l) (cmul (X k l) (cis (angle nx k a))))) by (intros; ring). rewrite csum_mul. ring.
Qed.
Lemma angle_0 n a : angle n 0 a = 0.
Proof. unfold angle. change (INR 0) with 0. unfold Rdiv. ring. Qed.
Lemma fft2_00 nx ny a : fft2 nx ny (fun x y => (a x y, 0)) 0 0 = (rsum nx (fun x => rsum ny (fun y => a x y)), 0).
Proof.
  rewrite fft2_sum. rewrite (csum_ext nx _ (fun x => (rsum ny (fun y => a x y), 0))).
  - apply cplx_eq; [rewrite csum_fst; apply rsum_ext; reflexivity|]. rewrite csum_snd. rewrite (rsum_ext nx _ (fun _ => 0)) by reflexivity. apply rsum_zero.
  - intros x _. rewrite (csum_ext ny _ (fun y => (a x y, 0))) by (intros; rewrite !angle_0, Ropp_0, cis_0; ring).
    apply cplx_eq; [rewrite csum_fst; apply rsum_ext; reflexivity|]. rewrite csum_snd. rewrite (rsum_ext ny _ (fun _ => 0)) by reflexivity. apply rsum_zero.
Qed.
(** Dropping the constant mode subtracts the mean. *)
Lemma ifft2_minus_mean nx ny a X x y : (x < nx)%nat -> (y < ny)%nat ->
  (forall k l, (k < nx)%nat -> (l < ny)%nat -> X k l = if ((k =? 0) && (l =? 0))%nat%bool then c0 else fft2 nx ny (fun x y => (a x y, 0)) k l) ->
  fst (ifft2 nx ny X x y) = a x y - mean2 nx ny a.
Proof.
  intros Hx Hy HX. set (A := fft2 nx ny (fun x y => (a x y, 0))) in *. pose (delta := fun k l : nat => if ((k =? 0) && (l =? 0))%nat%bool then A 0%nat 0%nat else c0).
  transitivity (fst (ifft2 nx ny A x y) - fst (ifft2 nx ny delta x y)).
  - rewrite !ifft2_sum. unfold cscal. cbn [fst]. rewrite <- Rmult_minus_distr_l. f_equal. rewrite !csum_fst, <- rsum_minus. apply rsum_ext. intros k Hk. rewrite !csum_fst, <- rsum_minus. apply rsum_ext. intros l Hl.
    rewrite HX by auto. unfold delta. destruct (Nat.eqb_spec k 0) as [->|]; [destruct (Nat.eqb_spec l 0) as [->|]|]; cbn [andb]; unfold cmul, c0; cbn [fst snd]; ring.
  - unfold A at 1. rewrite ifft2_fft2 by auto. cbn [fst]. f_equal.
    rewrite ifft2_sum. rewrite (csum_single nx 0); [|lia|].
    2:{ intros k Hk Hk0. rewrite (csum_ext ny _ (fun _ => c0)); [apply csum_zero|]. intros l _. unfold delta. destruct (Nat.eqb_spec k 0); [lia|]. cbn [andb]. cy. }
    rewrite (csum_single ny 0); [|lia|].
    2:{ intros l Hl Hl0. unfold delta. destruct (Nat.eqb_spec l 0); [lia|]. cbn [Nat.eqb andb]. cy. }
    unfold delta. cbn [Nat.eqb andb]. rewrite !angle_0, cis_0. unfold A. rewrite fft2_00. unfold mean2, cscal, cmul, c1. cbn [fst snd]. field. split; apply not_0_INR; lia.
Qed.

Section AZ.
Variables (nx ny : nat) (dx dy : R) (bx by_ : fld).
Hypothesis (Hx : (0 < nx)%nat) (Hy : (0 < ny)%nat) (Dx : 0 < dx) (Dy : 0 < dy).
Hypothesis (Bx : band_limited nx ny bx) (By : band_limited nx ny by_).
Let G := sgrid nx ny dx dy.
Let fb := fft2 nx ny (fun x y => (bx x y, 0)).
Let gb := fft2 nx ny (fun x y => (by_ x y, 0)).
Let P := fun k l => cscal (inv_k2 nx ny dx dy k l) (cadd (cmul (0, - kx ny dy l) (fb k l)) (cmul (0, kx nx dx k) (gb k l))).
Lemma az_vpot : vpot nx ny dx dy bx by_ = fun x y => fst (ifft2 nx ny P x y).
Proof. reflexivity. Qed.
Definition herm (X : nat -> nat -> cplx) : Prop := (forall k l, (k < nx)%nat -> (l < ny)%nat -> X (mir nx k) (mir ny l) = conj (X k l)) /\
  (forall k l, (k < nx)%nat -> (l < ny)%nat -> (2 * k = nx \/ 2 * l = ny)%nat -> X k l = c0).
Lemma herm_fft a : band_limited nx ny a -> herm (fft2 nx ny (fun x y => (a x y, 0))).
Proof. intros H. split; [intros; now apply fft2_mir|exact H]. Qed.
Lemma herm_x X : herm X -> herm (fun k l => cmul (0, kx nx dx k) (X k l)).
Proof.
  intros [H1 H2]. split.
  - intros k l Hk Hl. rewrite H1, conj_mul by auto. destruct (Nat.eq_dec (2 * k) nx) as [N|N]; [rewrite (H2 k l) by auto; unfold conj; cy|]. rewrite kx_mir by (auto; lra). unfold conj. cy.
  - intros k l Hk Hl N. rewrite H2 by auto. cy.
Qed.
Lemma herm_y X : herm X -> herm (fun k l => cmul (0, kx ny dy l) (X k l)).
Proof.
  intros [H1 H2]. split.
  - intros k l Hk Hl. rewrite H1, conj_mul by auto. destruct (Nat.eq_dec (2 * l) ny) as [N|N]; [rewrite (H2 k l) by auto; unfold conj; cy|]. rewrite kx_mir by (auto; lra). unfold conj. cy.
  - intros k l Hk Hl N. rewrite H2 by auto. cy.
Qed.
Lemma herm_P : herm P.
Proof.
  destruct (herm_fft bx Bx) as [F1 F2], (herm_fft by_ By) as [G1 G2]. fold fb in F1, F2. fold gb in G1, G2. unfold P. split.
  - intros k l Hk Hl. replace (inv_k2 nx ny dx dy (mir nx k) (mir ny l)) with (inv_k2 nx ny dx dy k l) by (unfold inv_k2; rewrite !kx_mir_sq by (auto; lra); reflexivity).
    destruct (Nat.eq_dec (2 * k) nx) as [N|N].
    { rewrite F1, G1 by auto. rewrite (F2 k l), (G2 k l) by auto. unfold conj. cy. }
    destruct (Nat.eq_dec (2 * l) ny) as [N'|N'].
    { rewrite F1, G1 by auto. rewrite (F2 k l), (G2 k l) by auto. unfold conj. cy. }
    rewrite F1, G1, !kx_mir by (auto; lra). unfold conj. cy.
  - intros k l Hk Hl N. rewrite F2, G2 by auto. cy.
Qed.
Lemma herm_real X x y : herm X -> snd (ifft2 nx ny X x y) = 0.
Proof. intros [H _]. now apply ifft2_real. Qed.
Lemma okG : ok_grid G. Proof. split; cbn; split; auto. Qed.
Lemma ddx_fft a x y : band_limited nx ny a -> cell G x y -> ddx G a x y = fst (ifft2 nx ny (fun k l => cmul (0, kx nx dx k) (fft2 nx ny (fun x y => (a x y, 0)) k l)) x y).
Proof.
  intros Ha [Cx Cy]. cbn in Cx, Cy. rewrite <- (ddx_ifft2 nx ny dx dy) by (auto; intros; apply herm_real, herm_fft; auto). destruct okG as [O1 O2]. unfold ddx. apply rder_ext; auto. intros q Hq. cbn [G sgrid g_nx] in Hq. rewrite ifft2_fft2 by auto. reflexivity.
Qed.
Lemma ddy_fft a x y : band_limited nx ny a -> cell G x y -> ddy G a x y = fst (ifft2 nx ny (fun k l => cmul (0, kx ny dy l) (fft2 nx ny (fun x y => (a x y, 0)) k l)) x y).
Proof.
  intros Ha [Cx Cy]. cbn in Cx, Cy. rewrite <- (ddy_ifft2 nx ny dx dy) by (auto; intros; apply herm_real, herm_fft; auto). destruct okG as [O1 O2]. unfold ddy. apply rder_ext; auto. intros q Hq. cbn [G sgrid g_ny] in Hq. rewrite ifft2_fft2 by auto. reflexivity.
Qed.
Lemma k2_pos k l : (k < nx)%nat -> (l < ny)%nat -> (k =? 0)%nat && (l =? 0)%nat = false -> 0 < kx nx dx k ^ 2 + kx ny dy l ^ 2.
Proof.
  intros Hk Hl. destruct (Nat.eqb_spec k 0) as [->|Hk0]; [destruct (Nat.eqb_spec l 0) as [->|Hl0]|]; cbn [andb]; intros E; try discriminate.
  - pose proof (pow2_gt_0 _ (kx_nonzero ny dy l ltac:(lra) ltac:(lia))). pose proof (pow2_ge_0 (kx nx dx 0)). lra.
  - pose proof (pow2_gt_0 _ (kx_nonzero nx dx k ltac:(lra) ltac:(lia))). pose proof (pow2_ge_0 (kx ny dy l)). lra.
Qed.
Lemma inv_val k l : (k < nx)%nat -> (l < ny)%nat -> inv_k2 nx ny dx dy k l = if (k =? 0)%nat && (l =? 0)%nat then 0 else / (kx nx dx k ^ 2 + kx ny dy l ^ 2).
Proof.
  intros Hk Hl. unfold inv_k2. cbv zeta. destruct ((k =? 0)%nat && (l =? 0)%nat) eqn:E.
  - apply andb_prop in E as [E1 E2]. apply Nat.eqb_eq in E1, E2. subst. rewrite !kx_0. destruct (Rlt_dec 0 (0 ^ 2 + 0 ^ 2)); [lra|reflexivity].
  - pose proof (k2_pos k l Hk Hl E). destruct Rlt_dec; [|tauto]. unfold Rdiv. ring.
Qed.
(** The mean of the potential is zero. *)
Lemma az_mean : mean2 nx ny (vpot nx ny dx dy bx by_) = 0.
Proof.
  rewrite az_vpot. assert (E : fft2 nx ny (fun x y => (fst (ifft2 nx ny P x y), 0)) 0 0 = c0).
  { transitivity (fft2 nx ny (ifft2 nx ny P) 0 0).
    - rewrite !fft2_sum. apply csum_ext. intros. apply csum_ext. intros. f_equal. apply emb_fst, herm_real, herm_P.
    - rewrite fft2_ifft2 by auto. unfold P. rewrite inv_val by auto. cbn [Nat.eqb andb]. cy. }
  rewrite (fft2_00 nx ny (fun x y => fst (ifft2 nx ny P x y))) in E. apply (f_equal fst) in E. cbn [fst c0] in E. unfold mean2. rewrite E. unfold Rdiv. ring.
Qed.
(** Its Laplacian is minus the out-of-plane curl of the field. *)
Lemma az_laplace x y : cell G x y -> ddx G (ddx G (vpot nx ny dx dy bx by_)) x y + ddy G (ddy G (vpot nx ny dx dy bx by_)) x y = ddy G bx x y - ddx G by_ x y.
Proof.
  intros C. destruct okG as [O1 O2]. pose proof C as [Cx Cy]. cbn in Cx, Cy. rewrite az_vpot.
  assert (E1 : ddx G (ddx G (fun x y => fst (ifft2 nx ny P x y))) x y = ddx G (fun x y => fst (ifft2 nx ny (fun k l => cmul (0, kx nx dx k) (P k l)) x y)) x y).
  { unfold ddx at 1 3. apply rder_ext; auto. intros q Hq. apply ddx_ifft2; auto. intros. apply herm_real, herm_P. }
  assert (E2 : ddy G (ddy G (fun x y => fst (ifft2 nx ny P x y))) x y = ddy G (fun x y => fst (ifft2 nx ny (fun k l => cmul (0, kx ny dy l) (P k l)) x y)) x y).
  { unfold ddy at 1 3. apply rder_ext; auto. intros q Hq. apply ddy_ifft2; auto. intros. apply herm_real, herm_P. }
  rewrite E1, E2. unfold G. rewrite ddx_ifft2, ddy_ifft2 by (auto; intros; apply herm_real; auto using herm_x, herm_y, herm_P). fold G. rewrite ddx_fft, ddy_fft by auto. fold fb. fold gb.
  rewrite !ifft2_sum. unfold cscal. cbn [fst]. rewrite <- Rmult_minus_distr_l, <- Rmult_plus_distr_l. f_equal. rewrite !csum_fst, <- rsum_plus, <- rsum_minus. apply rsum_ext. intros k Hk. rewrite !csum_fst, <- rsum_plus, <- rsum_minus. apply rsum_ext. intros l Hl.
  unfold P. rewrite inv_val by auto. destruct ((k =? 0)%nat && (l =? 0)%nat) eqn:E.
  - apply andb_prop in E as [A B]. apply Nat.eqb_eq in A, B. subst. rewrite !kx_0. unfold cscal, cmul, cadd. cbn [fst snd]. ring.
  - pose proof (k2_pos k l Hk Hl E). generalize dependent (kx nx dx k). generalize (kx ny dy l). intros v u K. destruct (cis (angle nx k x)) as [c s], (cis (angle ny l y)) as [c' s'], (fb k l) as [f1 f2], (gb k l) as [g1 g2].
    unfold cscal, cmul, cadd. cbn [fst snd]. field. lra.
Qed.
(** For a field without divergence the potential gives the field back, less its mean. *)
Lemma az_field x y : (forall x y, cell G x y -> ddx G bx x y + ddy G by_ x y = 0) -> cell G x y ->
  ddy G (vpot nx ny dx dy bx by_) x y = bx x y - mean2 nx ny bx /\ - ddx G (vpot nx ny dx dy bx by_) x y = by_ x y - mean2 nx ny by_.
Proof.
  intros D C. pose proof C as [Cx Cy]. cbn in Cx, Cy. rewrite az_vpot.
  set (Z := fun k l => cadd (cmul (0, kx nx dx k) (fb k l)) (cmul (0, kx ny dy l) (gb k l))).
  assert (HZ : herm Z).
  { destruct (herm_x _ (herm_fft bx Bx)) as [A1 A2], (herm_y _ (herm_fft by_ By)) as [B1 B2]. split; intros; unfold Z, fb, gb.
    - rewrite A1, B1 by auto. symmetry. apply conj_add.
    - rewrite A2, B2 by auto. cy. }
  assert (Z0 : forall k l, (k < nx)%nat -> (l < ny)%nat -> Z k l = c0).
  { intros k l Hk Hl. rewrite <- (fft2_ifft2 nx ny Z k l) by auto. rewrite fft2_sum. rewrite (csum_ext nx _ (fun _ => c0)); [apply csum_zero|]. intros a Ha. rewrite (csum_ext ny _ (fun _ => c0)); [apply csum_zero|]. intros b Hb.
    replace (ifft2 nx ny Z a b) with c0; [cy|]. symmetry. apply cplx_eq; [|apply herm_real, HZ]. cbn [fst c0]. rewrite <- (D a b) by (split; auto). rewrite ddx_fft, ddy_fft by (auto; split; auto). fold fb. fold gb.
    rewrite !ifft2_sum. unfold cscal. cbn [fst]. rewrite <- Rmult_plus_distr_l. f_equal. rewrite !csum_fst, <- rsum_plus. apply rsum_ext. intros p _. rewrite !csum_fst, <- rsum_plus. apply rsum_ext. intros q _. unfold Z, cmul, cadd. cbn [fst snd]. ring. }
  unfold G. rewrite ddx_ifft2, ddy_ifft2 by (auto; intros; apply herm_real, herm_P). split.
  - apply (ifft2_minus_mean nx ny bx); auto. intros k l Hk Hl. fold fb. specialize (Z0 k l Hk Hl). unfold Z in Z0. unfold P. rewrite inv_val by auto. destruct ((k =? 0)%nat && (l =? 0)%nat) eqn:E; [cy|].
    pose proof (k2_pos k l Hk Hl E) as K. revert Z0 K. generalize (kx ny dy l) (kx nx dx k). intros v u Z0 K. destruct (fb k l) as [f1 f2], (gb k l) as [g1 g2].
    pose proof (f_equal fst Z0) as W1. pose proof (f_equal snd Z0) as W2. unfold cmul, cadd, c0 in W1, W2. cbn [fst snd] in W1, W2. 
    assert (U1 : u * f1 = - (v * g1)) by lra. assert (U2 : u * f2 = - (v * g2)) by lra.
    apply cplx_eq; unfold cscal, cmul, cadd; cbn [fst snd].
    + transitivity (/ (u ^ 2 + v ^ 2) * (v ^ 2 * f1 - u * (v * g1))); [ring|]. replace (v * g1) with (- (u * f1)) by lra. field. lra.
    + transitivity (/ (u ^ 2 + v ^ 2) * (v ^ 2 * f2 - u * (v * g2))); [ring|]. replace (v * g2) with (- (u * f2)) by lra. field. lra.
  - match goal with |- - ?a = _ => replace (- a) with (fst (ifft2 nx ny (fun k l => cmul (0, - kx nx dx k) (P k l)) x y)) end.
    2:{ rewrite !ifft2_sum. unfold cscal. cbn [fst]. match goal with |- ?r * _ = - (_ * ?b) => replace (- (r * b)) with (r * (-1 * b)) by ring end. f_equal. rewrite !csum_fst, <- rsum_scal. apply rsum_ext. intros p _. rewrite !csum_fst, <- rsum_scal. apply rsum_ext. intros q _. unfold cmul. cbn [fst snd]. ring. }
    apply (ifft2_minus_mean nx ny by_); auto. intros k l Hk Hl. fold gb. specialize (Z0 k l Hk Hl). unfold Z in Z0. unfold P. rewrite inv_val by auto. destruct ((k =? 0)%nat && (l =? 0)%nat) eqn:E; [cy|].
    pose proof (k2_pos k l Hk Hl E) as K. revert Z0 K. generalize (kx ny dy l) (kx nx dx k). intros v u Z0 K. destruct (fb k l) as [f1 f2], (gb k l) as [g1 g2].
    pose proof (f_equal fst Z0) as W1. pose proof (f_equal snd Z0) as W2. unfold cmul, cadd, c0 in W1, W2. cbn [fst snd] in W1, W2.
    apply cplx_eq; unfold cscal, cmul, cadd; cbn [fst snd].
    + transitivity (/ (u ^ 2 + v ^ 2) * (u ^ 2 * g1 - v * (u * f1))); [ring|]. replace (u * f1) with (- (v * g1)) by lra. field. lra.
    + transitivity (/ (u ^ 2 + v ^ 2) * (u ^ 2 * g2 - v * (u * f2))); [ring|]. replace (u * f2) with (- (v * g2)) by lra. field. lra.
Qed.
End AZ.

Lemma ddx_one ny dx dy a x y : (x < 1)%nat -> ddx (sgrid 1 ny dx dy) a x y = 0.
Proof.
  intros Cx. unfold ddx. rewrite rder_mat by (auto; split; cbn; auto; lia). cbn [g_nx g_kx g_dx sgrid rsum]. assert (x = 0)%nat by lia. subst x.
  unfold rmat, dmat, specmat. cbn [csum]. rewrite kx_0. unfold cscal, cadd, cmul, c0. cbn [fst snd]. ring.
Qed.
Lemma ddy_zero nx ny dx dy x y : (y < ny)%nat -> ddy (sgrid nx ny dx dy) (fun _ _ => 0) x y = 0.
Proof. intros Cy. unfold ddy. rewrite rder_mat by (auto; split; cbn; auto; lia). rewrite (rsum_ext _ _ (fun _ => 0)) by (intros; ring). apply rsum_zero. Qed.

(** The saved potential has zero mean, its Laplacian is minus the out-of-plane curl of B, and for every divergence-free in-plane field it
    satisfies B_x = d_y A_z and B_y = - d_x A_z up to the mean field, with the solver's own spectral derivatives, for every field without
    content at half the sampling rate. *)
Theorem C107_vector_potential : forall nx ny dx dy bx by_, (0 < nx)%nat -> (0 < ny)%nat -> 0 < dx -> 0 < dy -> band_limited nx ny bx -> band_limited nx ny by_ ->
  let G := sgrid nx ny dx dy in let A := vpot nx ny dx dy bx by_ in
  mean2 nx ny A = 0 /\
  (forall x y, (x < nx)%nat -> (y < ny)%nat -> ddx G (ddx G A) x y + ddy G (ddy G A) x y = ddy G bx x y - ddx G by_ x y) /\
  ((forall x y, (x < nx)%nat -> (y < ny)%nat -> ddx G bx x y + ddy G by_ x y = 0) ->
   forall x y, (x < nx)%nat -> (y < ny)%nat -> ddy G A x y = bx x y - mean2 nx ny bx /\ - ddx G A x y = by_ x y - mean2 nx ny by_).
Proof.
  intros nx ny dx dy bx by_ Hx Hy Dx Dy Bx By G A. split; [|split].
  - now apply az_mean.
  - intros x y Cx Cy. apply az_laplace; auto. split; auto.
  - intros D x y Cx Cy. apply az_field; auto; [|split; auto]. intros a b [Ca Cb]. now apply D.
Qed.
Print Assumptions C107_vector_potential.
(** On a grid with odd cell numbers every field is covered. *)
Theorem C107_odd_grid : forall nx ny dx dy bx by_, Nat.odd nx = true -> Nat.odd ny = true -> 0 < dx -> 0 < dy ->
  let G := sgrid nx ny dx dy in let A := vpot nx ny dx dy bx by_ in
  (forall x y, (x < nx)%nat -> (y < ny)%nat -> ddx G bx x y + ddy G by_ x y = 0) ->
  forall x y, (x < nx)%nat -> (y < ny)%nat -> ddy G A x y = bx x y - mean2 nx ny bx /\ - ddx G A x y = by_ x y - mean2 nx ny by_.
Proof.
  intros nx ny dx dy bx by_ Ox Oy Dx Dy G A D x y Cx Cy. assert (B : forall a, band_limited nx ny a).
  { intros a k l _ _ [E|E]; exfalso; [apply Nat.odd_spec in Ox as [q Q]; lia|apply Nat.odd_spec in Oy as [q Q]; lia]. }
  destruct (C107_vector_potential nx ny dx dy bx by_ ltac:(lia) ltac:(lia) Dx Dy (B _) (B _)) as (_ & _ & H). exact (H D x y Cx Cy).
Qed.
Print Assumptions C107_odd_grid.
(** The documented B_x = d_y A_z itself fails for a uniform field: the potential of a periodic box cannot carry the mean. *)
Theorem C107_uniform_refuted : ~ (forall nx ny dx dy bx by_, Nat.odd nx = true -> Nat.odd ny = true -> 0 < dx -> 0 < dy ->
  let G := sgrid nx ny dx dy in (forall x y, (x < nx)%nat -> (y < ny)%nat -> ddx G bx x y + ddy G by_ x y = 0) ->
  forall x y, (x < nx)%nat -> (y < ny)%nat -> ddy G (vpot nx ny dx dy bx by_) x y = bx x y).
Proof.
  intros H. set (bx := fun _ _ : nat => 1). set (by_ := fun _ _ : nat => 0).
  assert (D : forall x y, (x < 1)%nat -> (y < 3)%nat -> ddx (sgrid 1 3 1 1) bx x y + ddy (sgrid 1 3 1 1) by_ x y = 0).
  { intros x y Cx Cy. unfold by_. rewrite ddx_one, ddy_zero by auto. ring. }
  pose proof (C107_odd_grid 1 3 1 1 bx by_ eq_refl eq_refl ltac:(lra) ltac:(lra) D 0%nat 0%nat ltac:(lia) ltac:(lia)) as [E _].
  rewrite (H 1%nat 3%nat 1 1 bx by_ eq_refl eq_refl ltac:(lra) ltac:(lra) D 0%nat 0%nat ltac:(lia) ltac:(lia)) in E. unfold bx, mean2 in E. rewrite !rsum_const in E. change (INR 1) with 1 in E. assert (INR 3 <> 0) by (apply not_0_INR; lia).
  replace (1 * (INR 3 * 1) / (1 * INR 3)) with 1 in E by (field; auto). lra.
Qed.
Print Assumptions C107_uniform_refuted.
(** With an even number of cells a divergence-free field of zero mean is lost: it alternates from cell to cell. *)
Theorem C107_even_refuted : ~ (forall nx ny dx dy bx by_, (0 < nx)%nat -> (0 < ny)%nat -> 0 < dx -> 0 < dy -> mean2 nx ny bx = 0 ->
  let G := sgrid nx ny dx dy in (forall x y, (x < nx)%nat -> (y < ny)%nat -> ddx G bx x y + ddy G by_ x y = 0) ->
  forall x y, (x < nx)%nat -> (y < ny)%nat -> ddy G (vpot nx ny dx dy bx by_) x y = bx x y).
Proof.
  intros H. set (bx := fun _ y : nat => if (y =? 0)%nat then 1 else -1). set (by_ := fun _ _ : nat => 0).
  assert (O : ok_grid (sgrid 1 2 1 1)) by (split; split; cbn; auto; lia). destruct O as [O1 O2].
  assert (D : forall x y, (x < 1)%nat -> (y < 2)%nat -> ddx (sgrid 1 2 1 1) bx x y + ddy (sgrid 1 2 1 1) by_ x y = 0).
  { intros x y Cx Cy. unfold by_. rewrite ddx_one, ddy_zero by auto. ring. }
  assert (M : mean2 1 2 bx = 0) by (unfold mean2, bx; cbn [rsum Nat.eqb]; unfold Rdiv; ring).
  pose proof (H 1%nat 2%nat 1 1 bx by_ ltac:(lia) ltac:(lia) ltac:(lra) ltac:(lra) M D 0%nat 0%nat ltac:(lia) ltac:(lia)) as E.
  assert (Z : forall a b, (a < 1)%nat -> (b < 2)%nat -> vpot 1 2 1 1 bx by_ a b = 0).
  { intros a b Ca Cb. assert (a = 0)%nat by lia. subst a. unfold vpot. rewrite ifft2_sum. unfold cscal at 1. cbn [fst].
    cbn [csum]. rewrite !angle_0, kx_0. unfold inv_k2. rewrite !kx_0. cbv zeta.
    destruct (Rlt_dec 0 (0 ^ 2 + 0 ^ 2)); [lra|].
    assert (F : fft2 1 2 (fun x y => (bx x y, 0)) 0 1 = (2, 0)).
    { rewrite fft2_sum. cbn [csum]; unfold bx. cbn [Nat.eqb]. replace (angle 1 0 0) with 0 by (symmetry; apply angle_0). replace (angle 2 1 0) with 0 by (unfold angle; change (INR 0) with 0; unfold Rdiv; ring).
      replace (angle 2 1 1) with PI by (unfold angle; change (INR 1) with 1; change (INR 2) with (1 + 1); field). rewrite Ropp_0, cis_0. unfold cis. rewrite cos_neg, sin_neg, cos_PI, sin_PI. cy. }
    rewrite F. assert (G0 : fft2 1 2 (fun x y => (by_ x y, 0)) 0 1 = c0).
    { rewrite fft2_sum. cbn [csum]; unfold by_. cy. }
    rewrite G0, cis_0. assert (S : snd (cis (angle 2 1 b)) = 0).
    { destruct b as [|[|]]; [|  |lia]. - replace (angle 2 1 0) with 0 by (unfold angle; change (INR 0) with 0; unfold Rdiv; ring). rewrite cis_0. reflexivity.
      - replace (angle 2 1 1) with PI by (unfold angle; change (INR 1) with 1; change (INR 2) with (1 + 1); field). cbn. apply sin_PI. }
    destruct (cis (angle 2 1 b)) as [c s]. cbn [snd] in S. subst s. destruct Rlt_dec; unfold cadd, cmul, cscal, c0, c1; cbn [fst snd]; ring. }
  unfold ddy in E. rewrite (rder_ext _ _ _ _ (fun _ => 0)) in E; [|exact O2|cbn; lia|intros q Hq; cbn in Hq; apply Z; lia].
  rewrite rder_mat in E by (auto; cbn; lia). rewrite (rsum_ext _ _ (fun _ => 0)), rsum_zero in E by (intros; ring). unfold bx in E. cbn in E. lra.
Qed.
Print Assumptions C107_even_refuted.
(** Non-vacuity: a sheared field on a 1 x 3 grid is divergence-free and not constant. *)
Example C107_nonvacuous : let bx := fun _ y : nat => INR y in let G := sgrid 1 3 1 1 in
  (forall x y, (x < 1)%nat -> (y < 3)%nat -> ddx G bx x y + ddy G (fun _ _ => 0) x y = 0) /\ bx 0%nat 0%nat <> bx 0%nat 1%nat.
Proof.
  cbv zeta. split; [|change (INR 0) with 0; change (INR 1) with 1; lra]. intros x y Cx Cy. rewrite ddx_one, ddy_zero by auto. ring.
Qed.
