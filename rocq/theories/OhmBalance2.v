(** Property C81, continued: the kinetic Ohm law on the grid. *)
From Coq Require Import Reals Lra Lia ZArith List Bool Psatz.
From Verif Require Import PyStr Harm2d Harm2dLayout Harm2dSum Harm2dProps Harm2dMoments Vfp2d Vfp2dOps Vfp2dField VfpOhm VfpOhmProps OhmBalance RSum Pic PicProofs PicFourier Dft.
Import ListNotations.
Local Open Scope R_scope.

Lemma snd_dax k n h a g : ok_kind k n -> (g < n)%nat -> h <> 0 -> real_deriv k n -> snd (dax k n h a g) = rder k n h (fun q => snd (a q)) g.
Proof. intros Hk Hg Hh Hr. rewrite rder_mat, dax_mat, csum_snd by auto. apply rsum_ext. intros q Hq. unfold cmul, rmat. cbn [fst snd]. rewrite dmat_real by auto. ring. Qed.
Lemma rder_zero k n h g : ok_kind k n -> (g < n)%nat -> rder k n h (fun _ => 0) g = 0.
Proof. intros. rewrite rder_mat by auto. rewrite (rsum_ext n _ (fun _ => 0)) by (intros; ring). apply rsum_zero. Qed.
Definition good (G : grid2) : Prop := ok_grid G /\ ok_steps G /\ real_deriv (g_kx G) (g_nx G) /\ real_deriv (g_ky G) (g_ny G).
(** Moments of the derivative of the distribution are the derivatives of its moments. *)
Lemma gf_dx G V f x y j l m : good G -> cell G x y -> let D := gf (h_L V) (h_M V) (fun i => dfdx G f x y i j) l m in
  fst D = ddx G (fun x y => fst (gf (h_L V) (h_M V) (fun i => f x y i j) l m)) x y /\ snd D = ddx G (fun x y => snd (gf (h_L V) (h_M V) (fun i => f x y i j) l m)) x y.
Proof.
  intros ([Hx Hy] & [Dx Dy] & Rx & Ry) [Cx Cy] D. unfold D, dfdx. rewrite (gf_dax (h_L V) (h_M V) (g_kx G) (g_nx G) (g_dx G) (fun x' i => f x' y i j)) by auto. unfold ddx.
  split; [apply (fst_dax (g_kx G) (g_nx G) (g_dx G) (fun q => gf (h_L V) (h_M V) (fun i => f q y i j) l m)); auto; lra|apply (snd_dax (g_kx G) (g_nx G) (g_dx G) (fun q => gf (h_L V) (h_M V) (fun i => f q y i j) l m)); auto; lra].
Qed.
Lemma gf_dy G V f x y j l m : good G -> cell G x y -> let D := gf (h_L V) (h_M V) (fun i => dfdy G f x y i j) l m in
  fst D = ddy G (fun x y => fst (gf (h_L V) (h_M V) (fun i => f x y i j) l m)) x y /\ snd D = ddy G (fun x y => snd (gf (h_L V) (h_M V) (fun i => f x y i j) l m)) x y.
Proof.
  intros ([Hx Hy] & [Dx Dy] & Rx & Ry) [Cx Cy] D. unfold D, dfdy. rewrite (gf_dax (h_L V) (h_M V) (g_ky G) (g_ny G) (g_dy G) (fun y' i => f x y' i j)) by auto. unfold ddy.
  split; [apply (fst_dax (g_ky G) (g_ny G) (g_dy G) (fun q => gf (h_L V) (h_M V) (fun i => f x q i j) l m)); auto; lra|apply (snd_dax (g_ky G) (g_ny G) (g_dy G) (fun q => gf (h_L V) (h_M V) (fun i => f x q i j) l m)); auto; lra].
Qed.
Lemma ddx_sum G n (u : nat -> R) (A : nat -> fld) x y : ok_grid G -> cell G x y -> rsum n (fun j => u j * ddx G (A j) x y) = ddx G (fun x y => rsum n (fun j => u j * A j x y)) x y.
Proof. intros [Hx Hy] [Cx Cy]. unfold ddx. symmetry. apply (rder_rsum (g_kx G) (g_nx G) (g_dx G) n u (fun j q => A j q y)); auto. Qed.
Lemma ddy_sum G n (u : nat -> R) (A : nat -> fld) x y : ok_grid G -> cell G x y -> rsum n (fun j => u j * ddy G (A j) x y) = ddy G (fun x y => rsum n (fun j => u j * A j x y)) x y.
Proof. intros [Hx Hy] [Cx Cy]. unfold ddy. symmetry. apply (rder_rsum (g_ky G) (g_ny G) (g_dy G) n u (fun j q => A j x q)); auto. Qed.
Lemma ddx_scal G c a x y : ok_grid G -> cell G x y -> ddx G (fun x y => c * a x y) x y = c * ddx G a x y.
Proof. intros [Hx Hy] [Cx Cy]. unfold ddx. now apply rder_scal. Qed.
Lemma ddy_scal G c a x y : ok_grid G -> cell G x y -> ddy G (fun x y => c * a x y) x y = c * ddy G a x y.
Proof. intros [Hx Hy] [Cx Cy]. unfold ddy. now apply rder_scal. Qed.
Lemma ddx_ext G a b x y : ok_grid G -> cell G x y -> (forall x y, cell G x y -> a x y = b x y) -> ddx G a x y = ddx G b x y.
Proof. intros [Hx Hy] [Cx Cy] E. unfold ddx. apply rder_ext; auto. intros q Hq. apply E. split; auto. Qed.
Lemma ddy_ext G a b x y : ok_grid G -> cell G x y -> (forall x y, cell G x y -> a x y = b x y) -> ddy G a x y = ddy G b x y.
Proof. intros [Hx Hy] [Cx Cy] E. unfold ddy. apply rder_ext; auto. intros q Hq. apply E. split; auto. Qed.

(** The components of the stress in terms of the harmonics, linear with real coefficients. *)
Definition str_mode (a b : nat) (g : nat -> nat -> cplx) : R := vcomp (row (let f20 := fst (g 2%nat 0%nat) in let f21 := g 2%nat 1%nat in let f22 := g 2%nat 2%nat in
  ((f20, 3 * fst f21, - 3 * snd f21), (3 * fst f21, - (1 / 2) * f20 + 6 * fst f22, - 6 * snd f22), (- 3 * snd f21, - 6 * snd f22, - (1 / 2) * f20 - 6 * fst f22))) a) b.
Lemma cart_mode L M f a b : vcomp (row (cartesian_l2 L M f) a) b = str_mode a b (gf L M f).
Proof. reflexivity. Qed.
Lemma str_dx G V f x y j a b : good G -> cell G x y -> str_mode a b (gf (h_L V) (h_M V) (fun i => dfdx G f x y i j)) = ddx G (fun x y => str_mode a b (gf (h_L V) (h_M V) (fun i => f x y i j))) x y.
Proof.
  intros HG HC. pose proof (proj1 HG) as OG.
  pose proof (gf_dx G V f x y j 2 0 HG HC) as [A _]. pose proof (gf_dx G V f x y j 2 1 HG HC) as [B1 B2]. pose proof (gf_dx G V f x y j 2 2 HG HC) as [C1 C2]. cbv zeta in *.
  destruct a as [|[|a]]; destruct b as [|[|b]]; unfold str_mode, row, vcomp, v_x, v_y, v_z; cbn [fst snd]; rewrite ?A, ?B1, ?B2, ?C1, ?C2; rewrite <- ?ddx_scal by auto; try reflexivity.
  - rewrite ddx_scal, ddx_scal by auto. rewrite <- (ddx_lin G (- (1 / 2)) 6 (fun x y => fst (gf (h_L V) (h_M V) (fun i => f x y i j) 2 0)) (fun x y => fst (gf (h_L V) (h_M V) (fun i => f x y i j) 2 2))) by auto. reflexivity.
  - rewrite ddx_scal, ddx_scal by auto. transitivity (- (1 / 2) * ddx G (fun x y => fst (gf (h_L V) (h_M V) (fun i => f x y i j) 2 0)) x y + - 6 * ddx G (fun x y => fst (gf (h_L V) (h_M V) (fun i => f x y i j) 2 2)) x y); [ring|].
    rewrite <- ddx_lin by auto. apply ddx_ext; auto. intros. ring.
Qed.
Lemma str_dy G V f x y j a b : good G -> cell G x y -> str_mode a b (gf (h_L V) (h_M V) (fun i => dfdy G f x y i j)) = ddy G (fun x y => str_mode a b (gf (h_L V) (h_M V) (fun i => f x y i j))) x y.
Proof.
  intros HG HC. pose proof (proj1 HG) as OG.
  pose proof (gf_dy G V f x y j 2 0 HG HC) as [A _]. pose proof (gf_dy G V f x y j 2 1 HG HC) as [B1 B2]. pose proof (gf_dy G V f x y j 2 2 HG HC) as [C1 C2]. cbv zeta in *.
  destruct a as [|[|a]]; destruct b as [|[|b]]; unfold str_mode, row, vcomp, v_x, v_y, v_z; cbn [fst snd]; rewrite ?A, ?B1, ?B2, ?C1, ?C2; rewrite <- ?ddy_scal by auto; try reflexivity.
  - rewrite ddy_scal, ddy_scal by auto. rewrite <- (ddy_lin G (- (1 / 2)) 6 (fun x y => fst (gf (h_L V) (h_M V) (fun i => f x y i j) 2 0)) (fun x y => fst (gf (h_L V) (h_M V) (fun i => f x y i j) 2 2))) by auto. reflexivity.
  - rewrite ddy_scal, ddy_scal by auto. transitivity (- (1 / 2) * ddy G (fun x y => fst (gf (h_L V) (h_M V) (fun i => f x y i j) 2 0)) x y + - 6 * ddy G (fun x y => fst (gf (h_L V) (h_M V) (fun i => f x y i j) 2 2)) x y); [ring|].
    rewrite <- ddy_lin by auto. apply ddy_ext; auto. intros. ring.
Qed.
(** ** The balance *)
(** The distribution's z derivative that the kinetic step uses: (dn/dz / n) f (vector_field.py:285-302). *)
Definition hidden_dfdz (V : vspace) (f : dst) (dndz : fld) (x y : nat) : nat -> nat -> cplx := fun i j => cscal (dndz x y / dens V f x y) (f x y i j).
(** The momentum weighted by v^3 of a rate of change at one cell, and 4 pi sum v^5 f00 dv = n <v^3>. *)
Definition momentum3 (V : vspace) (r : nat -> nat -> cplx) : vec3 := vec_moment (h_L V) (h_M V) (h_nv V) (h_dv V) (fun j => h_v V j ^ 6) r.
Definition n_v3 (V : vspace) (f : nat -> nat -> cplx) : R := 4 * PI * rsum (h_nv V) (fun j => fst (gf (h_L V) (h_M V) (fun i => f i j) 0 0) * h_v V j ^ 5) * h_dv V.
(** n <v^3> E is eta0 n j plus half the rate at which advection and the magnetic force (with the sign of the Lorentz force on
    electrons) change the v^3-weighted momentum: the electric force, which takes 2 n <v^3> E from it (E . d/dv acting on the isotropic
    part, by parts), balances them and friction. *)
Theorem C81_ohm_balance : forall tiny G V eta0 f b j dndz x y, good G -> cell G x y -> real_state V f -> (1 <= h_L V)%nat -> (1 <= h_M V)%nat ->
  (forall x y, cell G x y -> tiny < dens V f x y) -> 0 < tiny -> tiny < n_v3 V (f x y) / dens V f x y ->
  vscal (2 * n_v3 V (f x y)) (ohm tiny G V eta0 f b j dndz x y) =
  vadd (vscal (2 * dens V f x y * eta0) (j x y))
    (vadd (momentum3 V (fun i k => streaming (h_L V) (h_M V) (h_v V k) (fun i => dfdx G f x y i k) (fun i => dfdy G f x y i k) (fun i => hidden_dfdz V f dndz x y i k) i))
          (momentum3 V (fun i k => magnetic (h_L V) (h_M V) (v_x (b x y)) (- v_y (b x y)) (- v_z (b x y)) (fun i => f x y i k) i))).
Proof.
  intros tiny G V eta0 f b j dndz x y HG HC HR HL HM Hn Ht H3. pose proof (proj1 HG) as OG. set (L := h_L V) in *. set (M := h_M V) in *. set (nv := h_nv V). set (dv := h_dv V). set (v := h_v V) in *.
  assert (Nd : forall x y, cell G x y -> 0 < dens V f x y) by (intros x0 y0 C0; specialize (Hn x0 y0 C0); lra).
  assert (RF : forall x y, real_m0 L M (f x y)) by (intros x0 y0 k l; apply real0_gf; apply HR).
  assert (RB : real_m0 L M (dfdy G f x y)).
  { intros k l. destruct (gf_dy G V f x y k l 0 HG HC) as [_ E]. cbv zeta in E. unfold L, M. rewrite E. destruct OG as [Hx Hy]. destruct HC as [Cx Cy]. unfold ddy. rewrite (rder_ext _ _ _ _ (fun _ => 0)) by (auto; intros; apply (RF x q)). now apply rder_zero. }
  assert (GZ : forall k l m, gf L M (fun i => hidden_dfdz V f dndz x y i k) l m = cscal (dndz x y / dens V f x y) (gf L M (fun i => f x y i k) l m)).
  { intros k l m. unfold hidden_dfdz. apply (gf_map L M (cscal (dndz x y / dens V f x y)) (fun i => f x y i k)). cx. }
  assert (RC : real_m0 L M (hidden_dfdz V f dndz x y)).
  { intros k l. rewrite GZ. unfold cscal. cbn [snd]. rewrite (RF x y k l). ring. }
  set (n := dens V f x y) in *. assert (N0 : 0 < n) by (apply Nd; exact HC).
  assert (S3 : o_smom tiny V 3 f x y = n_v3 V (f x y) / n).
  { unfold o_smom, scalar_moment. change (density2 (h_L V) (h_M V) (h_nv V) (h_v V) (h_dv V) (f x y)) with n. rewrite Rmax_left by (specialize (Hn x y HC); fold n in Hn; lra). reflexivity. }
  set (P3 := n_v3 V (f x y)) in *. assert (P30 : 0 < P3) by (apply (Rmult_lt_reg_r (/ n)); [apply Rinv_0_lt_compat; exact N0|]; rewrite Rmult_0_l; unfold Rdiv in H3; lra).
  assert (F5 : forall x y, cell G x y -> o_ne V f x y * o_smom tiny V 5 f x y = 3 * flux_iso L M nv dv (fun k => v k ^ 6 * v k) (f x y)).
  { intros x0 y0 C0. pose proof (Nd x0 y0 C0) as N1. pose proof (Hn x0 y0 C0) as N2. unfold o_ne, o_smom, scalar_moment. change (density2 (h_L V) (h_M V) (h_nv V) (h_v V) (h_dv V) (f x0 y0)) with (dens V f x0 y0). rewrite Rmax_left by lra.
    unfold flux_iso. rewrite (rsum_ext (h_nv V) (fun k => re_mode (h_L V) (h_M V) (f x0 y0) 0 0 k * h_v V k ^ (5 + 2)) (fun k => v k ^ 6 * v k * fst (gf L M (fun i => f x0 y0 i k) 0 0))) by (intros k _; change (re_mode (h_L V) (h_M V) (f x0 y0) 0 0 k) with (fst (gf L M (fun i => f x0 y0 i k) 0 0)); unfold v; change (5 + 2)%nat with 7%nat; ring).
    fold nv dv. field. lra. }
  assert (T3 : forall a c x y, cell G x y -> o_ne V f x y * o_tmom tiny V f a c x y = flux_str L M nv dv (fun k => v k ^ 6 * v k) (f x y) a c).
  { intros a c x0 y0 C0. pose proof (Nd x0 y0 C0) as N1. pose proof (Hn x0 y0 C0) as N2. unfold o_ne, o_tmom, tensor_moment. change (density2 (h_L V) (h_M V) (h_nv V) (h_v V) (h_dv V) (f x0 y0)) with (dens V f x0 y0). rewrite Rmax_left by lra.
    unfold flux_str. rewrite (rsum_ext (h_nv V) (fun k => vcomp (row (cartesian_l2 (h_L V) (h_M V) (fun i => f x0 y0 i k)) a) c * h_v V k ^ (3 + 4)) (fun k => v k ^ 6 * v k * vcomp (row (cartesian_l2 L M (fun i => f x0 y0 i k)) a) c)) by (intros k _; unfold v, L, M; change (3 + 4)%nat with 7%nat; ring).
    fold nv dv. field. lra. }
  assert (IX : flux_iso L M nv dv (fun k => v k ^ 6 * v k) (dfdx G f x y) = / 3 * ddx G (fun x y => o_ne V f x y * o_smom tiny V 5 f x y) x y).
  { rewrite (ddx_ext G _ (fun x y => (3 * (4 * PI / 3 * dv)) * rsum nv (fun k => v k ^ 6 * v k * fst (gf L M (fun i => f x y i k) 0 0)))) by (auto; intros; rewrite F5 by assumption; unfold flux_iso; ring).
    rewrite ddx_scal by auto. rewrite <- (ddx_sum G nv (fun k => v k ^ 6 * v k) (fun k x y => fst (gf L M (fun i => f x y i k) 0 0))) by auto. unfold flux_iso.
    rewrite (rsum_ext nv (fun k => v k ^ 6 * v k * fst (gf L M (fun i => dfdx G f x y i k) 0 0)) (fun k => v k ^ 6 * v k * ddx G (fun x y => fst (gf L M (fun i => f x y i k) 0 0)) x y)) by (intros k _; f_equal; apply (gf_dx G V f x y k 0 0 HG HC)). field. }
  assert (IY : flux_iso L M nv dv (fun k => v k ^ 6 * v k) (dfdy G f x y) = / 3 * ddy G (fun x y => o_ne V f x y * o_smom tiny V 5 f x y) x y).
  { rewrite (ddy_ext G _ (fun x y => (3 * (4 * PI / 3 * dv)) * rsum nv (fun k => v k ^ 6 * v k * fst (gf L M (fun i => f x y i k) 0 0)))) by (auto; intros; rewrite F5 by assumption; unfold flux_iso; ring).
    rewrite ddy_scal by auto. rewrite <- (ddy_sum G nv (fun k => v k ^ 6 * v k) (fun k x y => fst (gf L M (fun i => f x y i k) 0 0))) by auto. unfold flux_iso.
    rewrite (rsum_ext nv (fun k => v k ^ 6 * v k * fst (gf L M (fun i => dfdy G f x y i k) 0 0)) (fun k => v k ^ 6 * v k * ddy G (fun x y => fst (gf L M (fun i => f x y i k) 0 0)) x y)) by (intros k _; f_equal; apply (gf_dy G V f x y k 0 0 HG HC)). field. }
  assert (SX : forall a c, flux_str L M nv dv (fun k => v k ^ 6 * v k) (dfdx G f x y) a c = ddx G (fun x y => o_ne V f x y * o_tmom tiny V f a c x y) x y).
  { intros a c. rewrite (ddx_ext G _ (fun x y => (8 * PI / 15 * dv) * rsum nv (fun k => v k ^ 6 * v k * str_mode a c (gf L M (fun i => f x y i k))))) by (auto; intros; rewrite T3 by assumption; reflexivity).
    rewrite ddx_scal by auto. rewrite <- (ddx_sum G nv (fun k => v k ^ 6 * v k) (fun k x y => str_mode a c (gf L M (fun i => f x y i k)))) by auto. unfold flux_str. f_equal. apply rsum_ext. intros k _. f_equal. rewrite cart_mode. apply (str_dx G V f x y k a c HG HC). }
  assert (SY : forall a c, flux_str L M nv dv (fun k => v k ^ 6 * v k) (dfdy G f x y) a c = ddy G (fun x y => o_ne V f x y * o_tmom tiny V f a c x y) x y).
  { intros a c. rewrite (ddy_ext G _ (fun x y => (8 * PI / 15 * dv) * rsum nv (fun k => v k ^ 6 * v k * str_mode a c (gf L M (fun i => f x y i k))))) by (auto; intros; rewrite T3 by assumption; reflexivity).
    rewrite ddy_scal by auto. rewrite <- (ddy_sum G nv (fun k => v k ^ 6 * v k) (fun k x y => str_mode a c (gf L M (fun i => f x y i k)))) by auto. unfold flux_str. f_equal. apply rsum_ext. intros k _. f_equal. rewrite cart_mode. apply (str_dy G V f x y k a c HG HC). }
  assert (IZ : flux_iso L M nv dv (fun k => v k ^ 6 * v k) (hidden_dfdz V f dndz x y) = / 3 * (dndz x y * o_smom tiny V 5 f x y)).
  { transitivity (dndz x y / n * flux_iso L M nv dv (fun k => v k ^ 6 * v k) (f x y)).
    - unfold flux_iso. rewrite (rsum_ext nv _ (fun k => dndz x y / n * (v k ^ 6 * v k * fst (gf L M (fun i => f x y i k) 0 0)))); [rewrite rsum_scal; ring|]. intros k _. rewrite GZ. unfold cscal. cbn [fst]. ring.
    - pose proof (F5 x y HC) as E. change (o_ne V f x y) with n in E. replace (flux_iso L M nv dv (fun k => v k ^ 6 * v k) (f x y)) with (/ 3 * (n * o_smom tiny V 5 f x y)) by lra. field. lra. }
  assert (SZ : forall a c, flux_str L M nv dv (fun k => v k ^ 6 * v k) (hidden_dfdz V f dndz x y) a c = dndz x y * o_tmom tiny V f a c x y).
  { intros a c. transitivity (dndz x y / n * flux_str L M nv dv (fun k => v k ^ 6 * v k) (f x y) a c).
    - unfold flux_str. rewrite (rsum_ext nv _ (fun k => dndz x y / n * (v k ^ 6 * v k * vcomp (row (cartesian_l2 L M (fun i => f x y i k)) a) c))); [rewrite rsum_scal; ring|]. intros k _. rewrite !cart_mode.
      assert (E : str_mode a c (gf L M (fun i => hidden_dfdz V f dndz x y i k)) = dndz x y / n * str_mode a c (gf L M (fun i => f x y i k))).
      { destruct a as [|[|a]]; destruct c as [|[|c]]; unfold str_mode, row, vcomp, v_x, v_y, v_z; cbn [fst snd]; rewrite ?GZ; unfold cscal; cbn [fst snd]; fold n; ring. }
      rewrite E. ring.
    - pose proof (T3 a c x y HC) as E. change (o_ne V f x y) with n in E. rewrite <- E. field. lra. }
  unfold momentum3. fold L M nv dv v. rewrite (C78_momentum_streaming L M nv dv v (fun k => v k ^ 6) (dfdx G f x y) (dfdy G f x y) (hidden_dfdz V f dndz x y) HL HM RB RC). cbv zeta.
  rewrite (C78_momentum_magnetic L M nv dv (fun k => v k ^ 6) (v_x (b x y)) (- v_y (b x y)) (- v_z (b x y)) (f x y) HL HM (RF x y)).
  rewrite IX, IY, IZ, !SX, !SY, !SZ. destruct (C81_ohm tiny G V eta0 f b j dndz x y) as [EO HN]. cbv zeta in HN. rewrite EO. clear EO.
  set (Wm := vec_moment L M nv dv (fun k => v k ^ 6) (f x y)).
  assert (VM : vector_moment tiny (h_L V) (h_M V) (h_nv V) (h_v V) (h_dv V) 3 (f x y) = vscal (/ n) Wm).
  { unfold vector_moment. change (density2 (h_L V) (h_M V) (h_nv V) (h_v V) (h_dv V) (f x y)) with n. rewrite Rmax_left by (specialize (Hn x y HC); fold n in Hn; lra). reflexivity. }
  rewrite VM, S3, (Rmax_left (P3 / n) tiny) in HN by lra.
  assert (SR : o_resistive tiny V eta0 f j x y = vscal (eta0 / (P3 / n)) (j x y)) by (unfold o_resistive, o_safe; rewrite S3, Rmax_left by lra; reflexivity).
  rewrite SR. clear SR.
  assert (SN : o_safe tiny (o_ne V f) x y = n) by (unfold o_safe, o_ne; fold n; rewrite Rmax_left by (specialize (Hn x y HC); fold n in Hn; lra); reflexivity).
  assert (SV : o_safe tiny (o_smom tiny V 3 f) x y = P3 / n) by (unfold o_safe; rewrite S3, Rmax_left by lra; reflexivity).
  unfold o_scalar, o_tensor. cbv zeta. rewrite SN, SV.
  revert HN. generalize (o_hall tiny V f b j x y) (o_nernst tiny V f b j x y). intros h1 h2 HN.
  pose proof (f_equal v_x HN) as HX. pose proof (f_equal v_y HN) as HY. pose proof (f_equal v_z HN) as HZ. clear HN. destruct h1 as [[h1x h1y] h1z], h2 as [[h2x h2y] h2z], (b x y) as [[bx by_] bz], (j x y) as [[jx jy] jz], Wm as [[wx wy] wz].
  unfold vadd, vscal, vcross, v_x, v_y, v_z in HX, HY, HZ. cbn [fst snd] in HX, HY, HZ.
  assert (Q : P3 / n <> 0) by (apply Rgt_not_eq, Rdiv_lt_0_compat; assumption).
  apply vec3_eq; unfold vsum5, vadd, vscal, vcross, v_x, v_y, v_z; cbn [fst snd].
  - match goal with |- context [?r + h1x + h2x + ?s + ?u] => replace (r + h1x + h2x + s + u) with (r + (h1x + h2x) + s + u) by ring end. rewrite HX. field. repeat split; lra.
  - match goal with |- context [?r + h1y + h2y + ?s + ?u] => replace (r + h1y + h2y + s + u) with (r + (h1y + h2y) + s + u) by ring end. rewrite HY. field. repeat split; lra.
  - match goal with |- context [?r + h1z + h2z + ?s + ?u] => replace (r + h1z + h2z + s + u) with (r + (h1z + h2z) + s + u) by ring end. rewrite HZ. field. repeat split; lra.
Qed.
Print Assumptions C81_ohm_balance.
(** A concrete state: one cell, one speed, a drift along x. *)
Definition ob_G : grid2 := {| g_nx := 1; g_ny := 1; g_dx := 1; g_dy := 1; g_kx := Central; g_ky := Central |}.
Definition ob_V : vspace := {| h_L := 1; h_M := 1; h_nv := 1; h_dv := 1; h_v := fun _ => 1; h_speed := fun _ => 1 |}.
Definition ob_f : dst := fun _ _ i _ => if (i <? 2)%nat then (1, 0) else c0.
Lemma ob_gf x y k l m : gf 1 1 (fun i => ob_f x y i k) l m = if ((l =? 0) || (l =? 1))%nat%bool then (if (m =? 0)%nat then (1, 0) else c0) else c0.
Proof.
  destruct (retained 1 1 l m) eqn:E.
  - apply retained_iff in E. destruct l as [|[|l]]; try lia; destruct m as [|[|m]]; try lia; reflexivity.
  - rewrite gf_out by exact E. destruct (Nat.eqb_spec l 0), (Nat.eqb_spec l 1); cbn [orb]; subst; try reflexivity; destruct (Nat.eqb_spec m 0); subst; try reflexivity; discriminate E.
Qed.
Example C81_ohm_balance_nonvacuous : good ob_G /\ cell ob_G 0 0 /\ real_state ob_V ob_f /\ (forall x y, cell ob_G x y -> 1 / 2 < dens ob_V ob_f x y) /\ 1 / 2 < n_v3 ob_V (ob_f 0%nat 0%nat) / dens ob_V ob_f 0%nat 0%nat.
Proof.
  pose proof PI_RGT_0 as P. pose proof PI2_3_2 as P2. unfold PI2 in P2.
  assert (D : forall x y, dens ob_V ob_f x y = 4 * PI).
  { intros x y. unfold dens. rewrite density2_gf. cbn [h_L h_M h_nv h_v h_dv ob_V rsum]. rewrite ob_gf. cbn. ring. }
  assert (N : forall x y, n_v3 ob_V (ob_f x y) = 4 * PI). { intros x y. unfold n_v3. cbn [h_L h_M h_nv h_v h_dv ob_V rsum]. rewrite ob_gf. cbn. ring. }
  split; [|split; [|split; [|split]]].
  - repeat split; cbn; try lia; lra.
  - split; cbn; lia.
  - intros x y j i Hi _. cbn in Hi. unfold ob_f. destruct (i <? 2)%nat; reflexivity.
  - intros. rewrite D. lra.
  - rewrite N, D. replace (4 * PI / (4 * PI)) with 1 by (field; lra). lra.
Qed.
(** The kinetic step's own magnetic operator (see C77_lorentz_refuted) does not satisfy the balance: E of the Ohm law is the one for
    the opposite rotation by the transverse field. *)
Theorem C81_ohm_kinetic_refuted : ~ (forall tiny G V eta0 f b j dndz x y, good G -> cell G x y -> real_state V f -> (1 <= h_L V)%nat -> (1 <= h_M V)%nat ->
  (forall x y, cell G x y -> tiny < dens V f x y) -> 0 < tiny -> tiny < n_v3 V (f x y) / dens V f x y ->
  vscal (2 * n_v3 V (f x y)) (ohm tiny G V eta0 f b j dndz x y) =
  vadd (vscal (2 * dens V f x y * eta0) (j x y))
    (vadd (momentum3 V (fun i k => streaming (h_L V) (h_M V) (h_v V k) (fun i => dfdx G f x y i k) (fun i => dfdy G f x y i k) (fun i => hidden_dfdz V f dndz x y i k) i))
          (momentum3 V (fun i k => magnetic (h_L V) (h_M V) (v_x (b x y)) (v_y (b x y)) (v_z (b x y)) (fun i => f x y i k) i)))).
Proof.
  intros H. destruct C81_ohm_balance_nonvacuous as (HG & HC & HR & Hn & H3). set (b := (fun _ _ => (0, 0, 1)) : vfld). set (j := (fun _ _ => (0, 0, 0)) : vfld). set (z := (fun _ _ => 0) : fld).
  assert (HL : (1 <= h_L ob_V)%nat) by (cbn; lia). assert (HM : (1 <= h_M ob_V)%nat) by (cbn; lia).
  pose proof (H (1 / 2) ob_G ob_V 0 ob_f b j z 0%nat 0%nat HG HC HR HL HM Hn ltac:(lra) H3) as A. pose proof (C81_ohm_balance (1 / 2) ob_G ob_V 0 ob_f b j z 0%nat 0%nat HG HC HR HL HM Hn ltac:(lra) H3) as B. rewrite A in B. clear A H.
  assert (RF : real_m0 1 1 (ob_f 0%nat 0%nat)) by (intros k l; apply real0_gf; apply (HR 0%nat 0%nat k)).
  unfold momentum3 in B. cbn [h_L h_M] in B.
  change (h_L ob_V) with 1%nat in B. change (h_M ob_V) with 1%nat in B. 
  rewrite !(C78_momentum_magnetic 1 1 (h_nv ob_V) (h_dv ob_V) (fun k => h_v ob_V k ^ 6) _ _ _ (ob_f 0%nat 0%nat) ltac:(lia) ltac:(lia) RF) in B.
  set (S := vec_moment 1 1 _ _ _ (fun i k => streaming _ _ _ _ _ _ _)) in B. set (W := vec_moment 1 1 _ _ _ (ob_f 0%nat 0%nat)) in B.
  assert (WX : v_x W = 4 * PI / 3). { unfold W. rewrite vm_x. cbn [h_nv h_dv h_v ob_V rsum]. rewrite ob_gf. cbn. field. }
  apply (f_equal v_y) in B. unfold b, vadd, vscal, vcross in B. destruct S as [[sx sy] sz], W as [[wx wy] wz]. unfold v_x, v_y, v_z in B, WX. cbn [fst snd] in B, WX. pose proof PI_RGT_0. nra.
Qed.
Print Assumptions C81_ohm_kinetic_refuted.
