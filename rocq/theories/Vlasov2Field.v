(** C84: the grid, the Maxwell solver, one complete step and the saved quantities of the Vlasov-2D solver. *)
From Coq Require Import Reals ZArith List Bool Lia Lra Psatz.
From Verif Require Import PyStr RSum Pic PicProofs PicFourier VGrid DriftDiff Vlasov VlasovProofs Vfp2d Vfp2dField VfpSetup2Props Dft Vlasov2 Vlasov2Props.
Import ListNotations.
Local Open Scope R_scope.

(** * Grid and time *)
Theorem C84_grid : forall g, (1 <= v2_nx g)%nat -> (1 <= v2_ny g)%nat -> v2_xmin g < v2_xmax g -> v2_ymin g < v2_ymax g ->
  INR (v2_nx g) * v2_dx g = v2_xmax g - v2_xmin g /\ INR (v2_ny g) * v2_dy g = v2_ymax g - v2_ymin g /\
  (forall i, (i < v2_nx g)%nat -> v2_x g i = v2_xmin g + (INR i + 1 / 2) * v2_dx g) /\ (forall i, (i < v2_ny g)%nat -> v2_y g i = v2_ymin g + (INR i + 1 / 2) * v2_dy g).
Proof.
  intros g A B Dx Dy. assert (0 < INR (v2_nx g)) by (apply lt_0_INR; lia). assert (0 < INR (v2_ny g)) by (apply lt_0_INR; lia).
  split; [unfold v2_dx; field; lra|]. split; [unfold v2_dy; field; lra|]. split; intros i Hi; [exact (proj1 (centres _ _ (v2_nx g) i A Dx Hi))|exact (proj1 (centres _ _ (v2_ny g) i B Dy Hi))].
Qed.
Print Assumptions C84_grid.
(** The step is the requested one, or with a driver at most half the time light takes to cross a cell; the run covers the requested
    time and less than one step more. *)
Theorem C84_time : forall g, 0 < v2_dx g -> 0 < v2_dy g -> 0 < v2_beta g -> 0 < v2_dt g -> 0 <= v2_tmax g ->
  0 < run_dt g <= v2_dt g /\ (v2_override g = false -> run_dt g = v2_dt g) /\
  (v2_override g = true -> 1 / v2_beta g * run_dt g <= v2_dx g / 2 /\ 1 / v2_beta g * run_dt g <= v2_dy g / 2) /\
  v2_tmax g < run_tmax g <= v2_tmax g + run_dt g /\ (1 <= run_nt g)%Z /\ ((run_nt g <= 99999996)%Z -> (run_nt g < run_max_steps g)%Z).
Proof.
  intros g Dx Dy Hb Hd Ht. assert (C : 0 < 1 / v2_beta g) by (apply Rdiv_lt_0_compat; lra).
  assert (M : 0 < Rmin (v2_dx g) (v2_dy g) <= v2_dx g /\ Rmin (v2_dx g) (v2_dy g) <= v2_dy g) by (split; [split; [apply Rmin_glb_lt; assumption|apply Rmin_l]|apply Rmin_r]).
  assert (D : 0 < run_dt g <= v2_dt g).
  { unfold run_dt. destruct (v2_override g); [|lra]. split; [apply Rmin_glb_lt; [exact Hd|]|apply Rmin_l]. apply Rdiv_lt_0_compat; lra. }
  split; [exact D|]. split; [intros H; unfold run_dt; now rewrite H|]. split.
  { intros H. unfold run_dt. rewrite H. set (q := 1 / 2 * Rmin (v2_dx g) (v2_dy g) / (1 / v2_beta g)). assert (Q : 1 / v2_beta g * q = Rmin (v2_dx g) (v2_dy g) / 2) by (unfold q; field; lra).
    pose proof (Rmult_le_compat_l (1 / v2_beta g) _ _ ltac:(lra) (Rmin_r (v2_dt g) q)). cbv zeta. fold q. lra. }
  pose proof (floor_spec (v2_tmax g / run_dt g + 1)) as F. fold (run_nt g) in F. assert (Q : 0 <= v2_tmax g / run_dt g) by (apply Rmult_le_pos; [lra|apply Rlt_le, Rinv_0_lt_compat; lra]).
  assert (E : v2_tmax g = run_dt g * (v2_tmax g / run_dt g)) by (field; lra). unfold run_tmax. split; [split|].
  - rewrite E at 1. apply Rmult_lt_compat_l; lra.
  - rewrite E at 1. replace (run_dt g * (v2_tmax g / run_dt g) + run_dt g) with (run_dt g * (v2_tmax g / run_dt g + 1)) by ring. apply Rmult_le_compat_l; lra.
  - split; [|unfold run_max_steps; lia]. assert (0 < IZR (run_nt g)) by lra. apply lt_IZR in H. lia.
Qed.
Print Assumptions C84_time.
(** The run starts at 0 whatever grid.tmin says; a run of more than 10^8 steps is given fewer steps than it needs. *)
Theorem C84_tmin_refuted : exists g, v2_tmin g = 5 /\ v2_tmax g = 10 /\ run_t0 g = 0 /\ run_tmax g > 10.
Proof.
  set (g := {| v2_xmin := 0; v2_xmax := 1; v2_nx := 8; v2_ymin := 0; v2_ymax := 1; v2_ny := 8; v2_tmin := 5; v2_tmax := 10; v2_dt := 1; v2_override := false; v2_beta := 1 |}). exists g. repeat split; try reflexivity.
  destruct (C84_time g) as (_ & _ & _ & [T _] & _); [unfold v2_dx; cbn; lra|unfold v2_dy; cbn; lra|cbn; lra|cbn; lra|cbn; lra|]. exact T.
Qed.
Print Assumptions C84_tmin_refuted.
Theorem C84_budget_refuted : forall g, (100000000 < run_nt g)%Z -> (run_max_steps g < run_nt g)%Z.
Proof. intros g H. unfold run_max_steps. lia. Qed.
Print Assumptions C84_budget_refuted.

(** * Maxwell: energy *)
Definition nil2 : rfl := fun _ _ => 0.
Definition curlz (G : grid2) (ex ey : rfl) : rfl := fun x y => ddx G ey x y - ddy G ex x y.
Definition em_energy (G : grid2) (c2 dt : R) (F : rfl * rfl * rfl) : R :=
  let '(ex, ey, bz) := F in plane_sum G (fun x y => ex x y ^ 2 + ey x y ^ 2) + c2 * plane_sum G (fun x y => bz x y ^ 2) - c2 * dt ^ 2 / 4 * plane_sum G (fun x y => curlz G ex ey x y ^ 2).
Lemma ddx_ext2 G a b x y : ok_grid G -> cell G x y -> (forall x y, cell G x y -> a x y = b x y) -> ddx G a x y = ddx G b x y.
Proof. intros [Hx Hy] [Cx Cy] H. unfold ddx. apply rder_ext; auto. intros q Hq. apply H. now split. Qed.
Lemma ddy_ext2 G a b x y : ok_grid G -> cell G x y -> (forall x y, cell G x y -> a x y = b x y) -> ddy G a x y = ddy G b x y.
Proof. intros [Hx Hy] [Cx Cy] H. unfold ddy. apply rder_ext; auto. intros q Hq. apply H. now split. Qed.
Lemma curl_adj G b ex ey : ok_grid G -> plane_sum G (fun x y => b x y * curlz G ex ey x y) = plane_sum G (fun x y => ddy G b x y * ex x y - ddx G b x y * ey x y).
Proof.
  intros H. rewrite (plane_ext G _ (fun x y => b x y * ddx G ey x y + -1 * (b x y * ddy G ex x y))) by (intros; unfold curlz; ring). rewrite plane_plus, plane_scal, plane_x, plane_y by exact H.
  rewrite (plane_ext G (fun x y => ddy G b x y * ex x y - ddx G b x y * ey x y) (fun x y => ex x y * ddy G b x y + -1 * (ey x y * ddx G b x y))) by (intros; ring). rewrite plane_plus, plane_scal. ring.
Qed.
(** The discrete balance: the staggered energy changes by exactly the work of the current on the mean of the old and new fields. *)
Theorem C84_energy : forall G c2 ex ey bz jx jy dt, ok_grid G ->
  let F' := maxwell_step G c2 ex ey bz jx jy dt in
  em_energy G c2 dt F' - em_energy G c2 dt (ex, ey, bz) = - dt * plane_sum G (fun x y => jx x y * (ex x y + fst (fst F') x y) + jy x y * (ey x y + snd (fst F') x y)).
Proof.
  intros G c2 ex ey bz jx jy dt H F'. unfold F', maxwell_step. cbn [fst snd]. set (b1 := b_half G ex ey bz dt). set (e1 := ex_full G c2 ex b1 jx dt). set (e2 := ey_full G c2 ey b1 jy dt). unfold em_energy. cbv beta iota.
  set (C := curlz G ex ey). set (C' := curlz G e1 e2).
  assert (B1 : forall x y, bz x y = b1 x y + dt / 2 * C x y) by (intros; unfold b1, b_half, C, curlz; field).
  assert (B2 : forall x y, b_half G e1 e2 b1 dt x y = b1 x y - dt / 2 * C' x y) by (intros; unfold b_half at 1, C', curlz; field).
  assert (E1 : forall x y, e1 x y - ex x y = dt * (c2 * ddy G b1 x y - jx x y)) by (intros; unfold e1, ex_full; ring).
  assert (E2 : forall x y, e2 x y - ey x y = dt * (- c2 * ddx G b1 x y - jy x y)) by (intros; unfold e2, ey_full; ring).
  pose proof (curl_adj G b1 ex ey H) as A1. pose proof (curl_adj G b1 e1 e2 H) as A2. fold C in A1. fold C' in A2.
  assert (PE : plane_sum G (fun x y => e1 x y ^ 2 + e2 x y ^ 2) = plane_sum G (fun x y => ex x y ^ 2 + ey x y ^ 2)
     + dt * c2 * (plane_sum G (fun x y => ddy G b1 x y * ex x y - ddx G b1 x y * ey x y) + plane_sum G (fun x y => ddy G b1 x y * e1 x y - ddx G b1 x y * e2 x y))
     + - dt * plane_sum G (fun x y => jx x y * (ex x y + e1 x y) + jy x y * (ey x y + e2 x y))).
  { rewrite <- plane_plus, <- !plane_scal, <- !plane_plus. apply plane_ext. intros x y _.
    replace (e1 x y ^ 2 + e2 x y ^ 2) with (ex x y ^ 2 + ey x y ^ 2 + (e1 x y - ex x y) * (ex x y + e1 x y) + (e2 x y - ey x y) * (ey x y + e2 x y)) by ring. rewrite E1, E2. ring. }
  assert (PB : plane_sum G (fun x y => b_half G e1 e2 b1 dt x y ^ 2) = plane_sum G (fun x y => bz x y ^ 2) + - dt * (plane_sum G (fun x y => b1 x y * C x y) + plane_sum G (fun x y => b1 x y * C' x y)) + dt ^ 2 / 4 * (plane_sum G (fun x y => C' x y ^ 2) + -1 * plane_sum G (fun x y => C x y ^ 2))).
  { rewrite <- !plane_scal, <- !plane_plus, <- !plane_scal, <- !plane_plus. apply plane_ext. intros x y _. rewrite B2, B1. field. }
  rewrite PE, PB, A1, A2. repeat match goal with |- context [plane_sum G ?h] => let z := fresh "z" in set (z := plane_sum G h); clearbody z end. field.
Qed.
Print Assumptions C84_energy.
(** Gauss's law is kept up to the divergence of the current. *)
Definition div2 (G : grid2) (ex ey : rfl) : rfl := fun x y => ddx G ex x y + ddy G ey x y.
Theorem C84_divergence : forall G c2 ex ey bz jx jy dt x y, ok_grid G -> cell G x y ->
  let F' := maxwell_step G c2 ex ey bz jx jy dt in div2 G (fst (fst F')) (snd (fst F')) x y - div2 G ex ey x y = - dt * div2 G jx jy x y.
Proof.
  intros G c2 ex ey bz jx jy dt x y H K F'. unfold F', maxwell_step. cbn [fst snd]. set (b1 := b_half G ex ey bz dt). unfold div2.
  assert (A : ddx G (ex_full G c2 ex b1 jx dt) x y = 1 * ddx G ex x y + 1 * ((dt * c2) * ddx G (ddy G b1) x y + (- dt) * ddx G jx x y)).
  { rewrite <- ddx_lin by assumption. rewrite <- ddx_lin by assumption. apply ddx_ext2; try assumption. intros. unfold ex_full. ring. }
  assert (B : ddy G (ey_full G c2 ey b1 jy dt) x y = 1 * ddy G ey x y + 1 * ((- dt * c2) * ddy G (ddx G b1) x y + (- dt) * ddy G jy x y)).
  { rewrite <- ddy_lin by assumption. rewrite <- ddy_lin by assumption. apply ddy_ext2; try assumption. intros. unfold ey_full. ring. }
  rewrite A, B, ddx_ddy by assumption. ring.
Qed.
Print Assumptions C84_divergence.

(** * Maxwell: stability *)
Definition wavenumber (n : nat) (h : R) (m : nat) : R := 2 * PI * INR m / (INR n * h).
Lemma rder_wave n h m A phi g : (0 < m)%nat -> (2 * m < n)%nat -> h <> 0 -> (g < n)%nat ->
  rder Spectral n h (fun q => A * cos (angle n m q + phi)) g = - (wavenumber n h m * A) * sin (angle n m g + phi).
Proof.
  intros Hm Hmn Hh Hg. set (K := wavenumber n h m). set (a := fun q => A * cos (angle n m q + phi)). set (b := fun q => (K * A) * cos (angle n m q + (phi + PI / 2))).
  assert (EK : kx n h m = K). { unfold kx, K, wavenumber. rewrite (proj2 (Nat.ltb_lt _ _) Hmn). field. split; [exact Hh|apply not_0_INR; lia]. }
  assert (L : forall j, (2 * j <= n)%nat -> fft n b j = cmul (0, kx n h j) (fft n a j)).
  { intros j Hj. unfold a, b. rewrite !fft_wave by lia. destruct (Nat.eqb_spec j m) as [->|N]; [|apply cplx_eq; unfold cmul, c0; cbn [fst snd]; ring]. rewrite EK.
    apply cplx_eq; unfold cmul, cscal, cis; cbn [fst snd]; rewrite ?(Rplus_comm phi (PI / 2)), ?cos_plus, ?sin_plus, ?cos_PI2, ?sin_PI2; field. }
  assert (A1 : forall k, (k < n)%nat -> cmul (0, kx n h k) (cfft n (emb a) k) = cfft n (emb b) k).
  { intros k Hk. rewrite <- !fft_emb. destruct (Nat.le_gt_cases (2 * k) n) as [D|D]; [symmetry; now apply L|].
    pose proof (fft_mirror n a (n - k) ltac:(lia) ltac:(lia)) as E1. pose proof (fft_mirror n b (n - k) ltac:(lia) ltac:(lia)) as E2. replace (n - (n - k))%nat with k in E1, E2 by lia. rewrite E1, E2, L by lia.
    pose proof (kx_mir n h (n - k) Hh ltac:(lia) ltac:(lia)) as E3. unfold mir in E3. destruct (Nat.eqb_spec (n - k) 0); [lia|]. replace (n - (n - k))%nat with k in E3 by lia. rewrite E3.
    apply cplx_eq; unfold cmul, conj; cbn [fst snd]; ring. }
  unfold rder, dax, dspec. rewrite (ifft_ext n _ (cfft n (emb b)) g A1). rewrite (ifft_cfft n (emb b) g Hg). unfold emb. cbn [fst]. unfold b.
  replace (angle n m g + (phi + PI / 2)) with (angle n m g + phi + PI / 2) by ring. rewrite cos_plus, cos_PI2, sin_PI2. ring.
Qed.
Lemma kx_bound n h k : (k < n)%nat -> 0 < h -> kx n h k ^ 2 <= (PI / h) ^ 2.
Proof.
  intros Hk Hh. assert (Q : 0 < INR n) by (apply lt_0_INR; lia). pose proof PI_RGT_0 as P. unfold kx. set (z := if (2 * k <? n)%nat then INR k else INR k - INR n).
  assert (Z : - INR n <= 2 * z <= INR n).
  { pose proof (pos_INR k). assert (INR k < INR n) by (apply lt_INR; lia). unfold z. destruct (Nat.ltb_spec (2 * k) n) as [L|L].
    - apply lt_INR in L. rewrite mult_INR in L. change (INR 2) with 2 in L. lra.
    - apply le_INR in L. rewrite mult_INR in L. change (INR 2) with 2 in L. lra. }
  replace (2 * PI * (z / (INR n * h))) with (PI / h * (2 * z / INR n)) by (field; lra). rewrite Rpow_mult_distr. rewrite <- (Rmult_1_r ((PI / h) ^ 2)) at 2. apply Rmult_le_compat_l; [apply pow2_ge_0|].
  assert (W : -1 <= 2 * z / INR n <= 1). { split; apply Rmult_le_reg_r with (INR n); try exact Q; replace (2 * z / INR n * INR n) with (2 * z) by (field; lra); lra. }
  nra.
Qed.
Lemma rder_bound n h a : (0 < n)%nat -> 0 < h -> rsum n (fun g => rder Spectral n h a g ^ 2) <= (PI / h) ^ 2 * rsum n (fun g => a g ^ 2).
Proof.
  intros Hn Hh. set (X := fun k => cmul (0, kx n h k) (cfft n (emb a) k)). assert (HnR : 0 < INR n) by now apply lt_0_INR.
  apply Rle_trans with (rsum n (fun g => cabs2 (ifft n X g))).
  { apply rsum_le. intros g _. unfold rder, dax, dspec. fold X. unfold cabs2. pose proof (pow2_ge_0 (snd (ifft n X g))). nra. }
  apply Rmult_le_reg_l with (INR n); [exact HnR|]. rewrite <- (parseval n (ifft n X)) by exact Hn.
  replace (INR n * ((PI / h) ^ 2 * rsum n (fun g => a g ^ 2))) with ((PI / h) ^ 2 * (INR n * rsum n (fun g => cabs2 (emb a g)))).
  2:{ rewrite (rsum_ext n (fun g => cabs2 (emb a g)) (fun g => a g ^ 2)) by (intros; unfold cabs2, emb; cbn [fst snd]; ring). ring. }
  rewrite <- parseval by exact Hn. rewrite <- rsum_scal. apply rsum_le. intros k Hk. rewrite cfft_ifft by exact Hk. unfold X. rewrite cmul_conj_abs. apply Rmult_le_compat_r; [apply cabs2_nonneg|].
  unfold cabs2 at 1. cbn [fst snd]. pose proof (kx_bound n h k Hk Hh). nra.
Qed.
Lemma ddx_bound nx ny dx dy a : (0 < nx)%nat -> 0 < dx -> plane_sum (gspec nx ny dx dy) (fun x y => ddx (gspec nx ny dx dy) a x y ^ 2) <= (PI / dx) ^ 2 * plane_sum (gspec nx ny dx dy) (fun x y => a x y ^ 2).
Proof.
  intros Hn Hd. unfold plane_sum. cbn [g_nx g_ny gspec]. rewrite rsum_swap, (rsum_swap nx ny (fun x y => a x y ^ 2)), <- rsum_scal. apply rsum_le. intros y _. exact (rder_bound nx dx (fun x => a x y) Hn Hd).
Qed.
Lemma ddy_bound nx ny dx dy a : (0 < ny)%nat -> 0 < dy -> plane_sum (gspec nx ny dx dy) (fun x y => ddy (gspec nx ny dx dy) a x y ^ 2) <= (PI / dy) ^ 2 * plane_sum (gspec nx ny dx dy) (fun x y => a x y ^ 2).
Proof. intros Hn Hd. unfold plane_sum. cbn [g_nx g_ny gspec]. rewrite <- rsum_scal. apply rsum_le. intros x _. exact (rder_bound ny dy (fun y => a x y) Hn Hd). Qed.
Lemma plane_le G a b : (forall x y, cell G x y -> a x y <= b x y) -> plane_sum G a <= plane_sum G b.
Proof. intros H. unfold plane_sum. apply rsum_le; intros x Hx. apply rsum_le; intros y Hy. apply H. now split. Qed.
Lemma curl_bound nx ny dx dy ex ey : (0 < nx)%nat -> (0 < ny)%nat -> 0 < dx -> 0 < dy -> let G := gspec nx ny dx dy in
  plane_sum G (fun x y => curlz G ex ey x y ^ 2) <= ((PI / dx) ^ 2 + (PI / dy) ^ 2) * plane_sum G (fun x y => ex x y ^ 2 + ey x y ^ 2).
Proof.
  intros Hx Hy Dx Dy G. pose proof PI_RGT_0 as P. set (p := (PI / dx) ^ 2). set (q := (PI / dy) ^ 2). assert (Hp : 0 < p) by (apply pow_lt, Rdiv_lt_0_compat; lra). assert (Hq : 0 < q) by (apply pow_lt, Rdiv_lt_0_compat; lra).
  apply Rle_trans with ((p + q) / p * plane_sum G (fun x y => ddx G ey x y ^ 2) + (p + q) / q * plane_sum G (fun x y => ddy G ex x y ^ 2)).
  - rewrite <- !plane_scal, <- plane_plus. apply plane_le. intros x y _. unfold curlz. set (u := ddx G ey x y). set (w := ddy G ex x y).
    assert (T : (p + q) / p * u ^ 2 + (p + q) / q * w ^ 2 - (u - w) ^ 2 = (q * u + p * w) ^ 2 / (p * q)) by (field; lra). assert (0 <= (q * u + p * w) ^ 2 / (p * q)) by (apply Rmult_le_pos; [apply pow2_ge_0|apply Rlt_le, Rinv_0_lt_compat, Rmult_lt_0_compat; lra]). lra.
  - pose proof (ddx_bound nx ny dx dy ey Hx Dx) as A. pose proof (ddy_bound nx ny dx dy ex Hy Dy) as B. fold G in A, B. fold p in A. fold q in B. rewrite plane_plus.
    assert (C1 : 0 < (p + q) / p) by (apply Rdiv_lt_0_compat; lra). assert (C2 : 0 < (p + q) / q) by (apply Rdiv_lt_0_compat; lra).
    apply (Rmult_le_compat_l _ _ _ (Rlt_le _ _ C1)) in A. apply (Rmult_le_compat_l _ _ _ (Rlt_le _ _ C2)) in B.
    replace ((p + q) / p * (p * plane_sum G (fun x y => ey x y ^ 2))) with ((p + q) * plane_sum G (fun x y => ey x y ^ 2)) in A by (field; lra).
    replace ((p + q) / q * (q * plane_sum G (fun x y => ex x y ^ 2))) with ((p + q) * plane_sum G (fun x y => ex x y ^ 2)) in B by (field; lra). lra.
Qed.
(** The fields of k steps without current. *)
Fixpoint vacuum (G : grid2) (c2 dt : R) (k : nat) (F : rfl * rfl * rfl) : rfl * rfl * rfl :=
  match k with O => F | S k' => let '(ex, ey, bz) := vacuum G c2 dt k' F in maxwell_step G c2 ex ey bz nil2 nil2 dt end.
Lemma ok_gspec nx ny dx dy : (0 < nx)%nat -> (0 < ny)%nat -> ok_grid (gspec nx ny dx dy).
Proof. intros A B. repeat split; assumption. Qed.
(** In vacuum the staggered energy is the same after any number of steps; if c dt |k| < 2 for the shortest wave, the fields stay bounded
    by it for ever. *)
Theorem C84_vacuum : forall nx ny dx dy c dt F k, (0 < nx)%nat -> (0 < ny)%nat -> 0 < dx -> 0 < dy -> let G := gspec nx ny dx dy in
  em_energy G (c ^ 2) dt (vacuum G (c ^ 2) dt k F) = em_energy G (c ^ 2) dt F /\
  ((1 - (c * dt) ^ 2 * ((PI / dx) ^ 2 + (PI / dy) ^ 2) / 4) * plane_sum G (fun x y => fst (fst (vacuum G (c ^ 2) dt k F)) x y ^ 2 + snd (fst (vacuum G (c ^ 2) dt k F)) x y ^ 2)
   + c ^ 2 * plane_sum G (fun x y => snd (vacuum G (c ^ 2) dt k F) x y ^ 2) <= em_energy G (c ^ 2) dt F).
Proof.
  intros nx ny dx dy c dt F k Hx Hy Dx Dy G. assert (E : em_energy G (c ^ 2) dt (vacuum G (c ^ 2) dt k F) = em_energy G (c ^ 2) dt F).
  { induction k as [|k IH]; [reflexivity|]. cbn [vacuum]. destruct (vacuum G (c ^ 2) dt k F) as [[ex ey] bz]. rewrite <- IH. pose proof (C84_energy G (c ^ 2) ex ey bz nil2 nil2 dt (ok_gspec nx ny dx dy Hx Hy)) as H. cbv zeta in H.
    rewrite (plane_ext G _ (fun _ _ => 0 * 0)) in H by (intros; unfold nil2; ring). rewrite plane_scal in H. lra. }
  split; [exact E|]. rewrite <- E. destruct (vacuum G (c ^ 2) dt k F) as [[ex ey] bz]. cbn [fst snd]. unfold em_energy. cbv beta iota. pose proof (curl_bound nx ny dx dy ex ey Hx Hy Dx Dy) as B. cbv zeta in B. fold G in B.
  set (U := plane_sum G (fun x y => curlz G ex ey x y ^ 2)) in *. set (W := plane_sum G (fun x y => ex x y ^ 2 + ey x y ^ 2)) in *. assert (0 <= c ^ 2 * dt ^ 2 / 4) by (pose proof (pow2_ge_0 (c * dt)) as Z; rewrite Rpow_mult_distr in Z; lra).
  apply (Rmult_le_compat_l _ _ _ H) in B. rewrite Rpow_mult_distr. lra.
Qed.
Print Assumptions C84_vacuum.

(** A wave with c dt |k| > 2 grows: each step multiplies the fields by the same factor, below -1. *)
Lemma ddx_wave nx ny dx dy mx my A phi x y : (0 < mx)%nat -> (2 * mx < nx)%nat -> 0 < dx -> (x < nx)%nat ->
  ddx (gspec nx ny dx dy) (fun x y => A * cos (angle nx mx x + angle ny my y + phi)) x y = - (wavenumber nx dx mx * A) * sin (angle nx mx x + angle ny my y + phi).
Proof.
  intros. unfold ddx. cbn [g_kx g_nx g_dx gspec]. etransitivity; [|rewrite Rplus_assoc; apply rder_wave; try assumption; lra]. unfold rder. do 2 f_equal. f_equal.
  assert (E : (fun x' => A * cos (angle nx mx x' + angle ny my y + phi)) = (fun q => A * cos (angle nx mx q + (angle ny my y + phi)))) by (apply FunctionalExtensionality.functional_extensionality; intros; do 2 f_equal; ring). now rewrite E.
Qed.
Lemma ddy_wave nx ny dx dy mx my A phi x y : (0 < my)%nat -> (2 * my < ny)%nat -> 0 < dy -> (y < ny)%nat ->
  ddy (gspec nx ny dx dy) (fun x y => A * cos (angle nx mx x + angle ny my y + phi)) x y = - (wavenumber ny dy my * A) * sin (angle nx mx x + angle ny my y + phi).
Proof.
  intros. unfold ddy. cbn [g_ky g_ny g_dy gspec]. pose proof (rder_wave ny dy my A (angle nx mx x + phi) y H H0 ltac:(lra) H2) as E.
  replace (angle ny my y + (angle nx mx x + phi)) with (angle nx mx x + angle ny my y + phi) in E by ring. rewrite <- E.
  apply rder_ext; [split; [lia|exact I]|exact H2|]. intros q _. do 2 f_equal. ring.
Qed.
Definition on_mode (nx ny : nat) (dx dy : R) (mx my : nat) (e b : R) (F : rfl * rfl * rfl) : Prop :=
  forall x y, (x < nx)%nat -> (y < ny)%nat -> let th := angle nx mx x + angle ny my y in
    fst (fst F) x y = e * wavenumber ny dy my * sin th /\ snd (fst F) x y = - (e * wavenumber nx dx mx) * sin th /\ snd F x y = b * cos th.
Lemma sin_shift t : sin t = cos (t + - (PI / 2)).
Proof. rewrite cos_plus, cos_neg, sin_neg, cos_PI2, sin_PI2. ring. Qed.
Lemma mode_step nx ny dx dy mx my c2 dt e b F : (0 < mx)%nat -> (2 * mx < nx)%nat -> (0 < my)%nat -> (2 * my < ny)%nat -> 0 < dx -> 0 < dy ->
  let k2 := wavenumber nx dx mx ^ 2 + wavenumber ny dy my ^ 2 in let b1 := b + dt / 2 * k2 * e in let e1 := e - dt * c2 * b1 in
  on_mode nx ny dx dy mx my e b F -> on_mode nx ny dx dy mx my e1 (b1 + dt / 2 * k2 * e1) (maxwell_step (gspec nx ny dx dy) c2 (fst (fst F)) (snd (fst F)) (snd F) nil2 nil2 dt).
Proof.
  intros Hmx Mx Hmy My Dx Dy k2 b1 e1 HF. destruct F as [[ex ey] bz]. unfold on_mode in HF. cbv zeta in HF. cbn [fst snd] in *. set (G := gspec nx ny dx dy). assert (OK : ok_grid G) by (apply ok_gspec; lia).
  set (kx' := wavenumber nx dx mx) in *. set (ky' := wavenumber ny dy my) in *. set (th := fun x y => angle nx mx x + angle ny my y).
  assert (CU : forall e ex ey, (forall x y, cell G x y -> ex x y = e * ky' * sin (th x y)) -> (forall x y, cell G x y -> ey x y = - (e * kx') * sin (th x y)) -> forall x y, cell G x y -> ddx G ey x y - ddy G ex x y = - k2 * e * cos (th x y)).
  { clear - OK Hmx Mx Hmy My Dx Dy. intros e ex ey H1 H2 x y Cxy.
    rewrite (ddx_ext2 G ey (fun x y => - (e * kx') * cos (angle nx mx x + angle ny my y + - (PI / 2)))) by (try assumption; intros u w Hu; rewrite (H2 u w Hu), sin_shift; reflexivity).
    rewrite (ddy_ext2 G ex (fun x y => e * ky' * cos (angle nx mx x + angle ny my y + - (PI / 2)))) by (try assumption; intros u w Hu; rewrite (H1 u w Hu), sin_shift; reflexivity).
    destruct Cxy as [Cx Cy]. cbn [g_nx g_ny G gspec] in Cx, Cy. unfold G. rewrite ddx_wave, ddy_wave by assumption. fold kx' ky'. fold (th x y). rewrite sin_plus, cos_neg, sin_neg, cos_PI2, sin_PI2. unfold k2. ring. }
  assert (B1 : forall x y, cell G x y -> b_half G ex ey bz dt x y = b1 * cos (th x y)).
  { intros x y Cxy. unfold b_half. rewrite (CU e ex ey) by (try assumption; intros u w [Hu Hw]; apply (HF u w Hu Hw)). destruct Cxy as [Hu Hw]. destruct (HF x y Hu Hw) as (_ & _ & ->). fold (th x y). unfold b1. field. }
  assert (DB : forall x y, cell G x y -> ddx G (b_half G ex ey bz dt) x y = - (kx' * b1) * sin (th x y) /\ ddy G (b_half G ex ey bz dt) x y = - (ky' * b1) * sin (th x y)).
  { intros x y Cxy. rewrite (ddx_ext2 G _ (fun x y => b1 * cos (angle nx mx x + angle ny my y + 0))) by (try assumption; intros u w Hu; rewrite (B1 u w Hu); unfold th; do 2 f_equal; ring).
    rewrite (ddy_ext2 G _ (fun x y => b1 * cos (angle nx mx x + angle ny my y + 0))) by (try assumption; intros u w Hu; rewrite (B1 u w Hu); unfold th; do 2 f_equal; ring).
    destruct Cxy as [Cx Cy]. cbn [g_nx g_ny G gspec] in Cx, Cy. unfold G. rewrite ddx_wave, ddy_wave by assumption. rewrite Rplus_0_r. now split. }
  unfold maxwell_step. cbv zeta. set (b0 := b_half G ex ey bz dt) in *.
  assert (E1 : forall x y, cell G x y -> ex_full G c2 ex b0 nil2 dt x y = e1 * ky' * sin (th x y)).
  { intros x y Cxy. unfold ex_full, nil2. rewrite (proj2 (DB x y Cxy)). destruct Cxy as [Hu Hw]. destruct (HF x y Hu Hw) as (-> & _ & _). fold (th x y). unfold e1. ring. }
  assert (E2 : forall x y, cell G x y -> ey_full G c2 ey b0 nil2 dt x y = - (e1 * kx') * sin (th x y)).
  { intros x y Cxy. unfold ey_full, nil2. rewrite (proj1 (DB x y Cxy)). destruct Cxy as [Hu Hw]. destruct (HF x y Hu Hw) as (_ & -> & _). fold (th x y). unfold e1. ring. }
  intros x y Hx Hy. cbv zeta. fold (th x y). cbn [fst snd]. assert (Cxy : cell G x y) by (split; assumption). split; [now apply E1|]. split; [now apply E2|].
  unfold b_half. rewrite (CU e1 _ _ E1 E2 x y Cxy), (B1 x y Cxy). field.
Qed.
Theorem C84_growth : forall nx ny dx dy mx my c dt, (0 < mx)%nat -> (2 * mx < nx)%nat -> (0 < my)%nat -> (2 * my < ny)%nat -> 0 < dx -> 0 < dy -> 0 < c -> 0 < dt ->
  (c * dt) ^ 2 * ((2 * PI * INR mx / (INR nx * dx)) ^ 2 + (2 * PI * INR my / (INR ny * dy)) ^ 2) > 4 ->
  exists ex ey bz lam, lam < -1 /\ bz 0%nat 0%nat <> 0 /\
    forall k x y, (x < nx)%nat -> (y < ny)%nat -> let F := vacuum (gspec nx ny dx dy) (c ^ 2) dt k (ex, ey, bz) in
      fst (fst F) x y = lam ^ k * ex x y /\ snd (fst F) x y = lam ^ k * ey x y /\ snd F x y = lam ^ k * bz x y.
Proof.
  intros nx ny dx dy mx my c dt Hmx Mx Hmy My Dx Dy Hc Hd H. fold (wavenumber nx dx mx) in H. fold (wavenumber ny dy my) in H. set (k2 := wavenumber nx dx mx ^ 2 + wavenumber ny dy my ^ 2) in *.
  set (a := 1 - (c * dt) ^ 2 * k2 / 2). assert (Ha : a < -1) by (unfold a; lra). set (r := sqrt (a ^ 2 - 1)). assert (Hr : 0 < r) by (apply sqrt_lt_R0; nra). assert (Rr : r * r = a ^ 2 - 1) by (apply sqrt_sqrt; nra).
  set (lam := a - r). set (e := 1). set (b := r / (dt * c ^ 2)). assert (Hc2 : 0 < dt * c ^ 2) by (apply Rmult_lt_0_compat; [exact Hd|apply pow_lt; exact Hc]).
  exists (fun x y => e * wavenumber ny dy my * sin (angle nx mx x + angle ny my y)), (fun x y => - (e * wavenumber nx dx mx) * sin (angle nx mx x + angle ny my y)), (fun x y => b * cos (angle nx mx x + angle ny my y)), lam.
  set (F0 := (_, _, _)). split; [unfold lam; lra|]. split.
  { cbv beta. replace (angle nx mx 0 + angle ny my 0) with 0 by (unfold angle, Rdiv; change (INR 0) with 0; ring). rewrite cos_0, Rmult_1_r. unfold b. apply Rgt_not_eq, Rdiv_lt_0_compat; assumption. }
  assert (S0 : (c * dt) ^ 2 * k2 / 2 = 1 - a) by (unfold a; ring).
  assert (W : forall k, on_mode nx ny dx dy mx my (lam ^ k * e) (lam ^ k * b) (vacuum (gspec nx ny dx dy) (c ^ 2) dt k F0)).
  { induction k as [|k IH]; [intros x y _ _; cbn [vacuum pow F0 fst snd]; rewrite !Rmult_1_l; repeat split|].
    cbn [vacuum]. destruct (vacuum (gspec nx ny dx dy) (c ^ 2) dt k F0) as [[ex ey] bz] eqn:V. pose proof (mode_step nx ny dx dy mx my (c ^ 2) dt (lam ^ k * e) (lam ^ k * b) (ex, ey, bz) Hmx Mx Hmy My Dx Dy IH) as M. cbv zeta in M. cbn [fst snd] in M. fold k2 in M.
    assert (X1 : lam ^ k * e - dt * c ^ 2 * (lam ^ k * b + dt / 2 * k2 * (lam ^ k * e)) = lam ^ S k * e).
    { change (lam ^ S k) with (lam * lam ^ k). replace (dt * c ^ 2 * (lam ^ k * b + dt / 2 * k2 * (lam ^ k * e))) with (lam ^ k * ((dt * c ^ 2) * b + (c * dt) ^ 2 * k2 / 2 * e)) by field. rewrite S0. unfold b. replace (dt * c ^ 2 * (r / (dt * c ^ 2))) with r by (field; split; lra). unfold e, lam. ring. }
    rewrite X1 in M.
    assert (X2 : lam ^ k * b + dt / 2 * k2 * (lam ^ k * e) + dt / 2 * k2 * (lam ^ S k * e) = lam ^ S k * b).
    { change (lam ^ S k) with (lam * lam ^ k). assert (Y : dt / 2 * k2 = (1 - a) / (dt * c ^ 2)) by (rewrite <- S0; field; split; lra). rewrite Y. unfold b, e. apply Rmult_eq_reg_r with (dt * c ^ 2); [|lra].
      replace ((lam ^ k * (r / (dt * c ^ 2)) + (1 - a) / (dt * c ^ 2) * (lam ^ k * 1) + (1 - a) / (dt * c ^ 2) * (lam * lam ^ k * 1)) * (dt * c ^ 2)) with (lam ^ k * (r + (1 - a) * (1 + lam))) by (field; split; lra).
      replace (lam * lam ^ k * (r / (dt * c ^ 2)) * (dt * c ^ 2)) with (lam ^ k * (lam * r)) by (field; split; lra). f_equal. unfold lam. nra. }
    rewrite X2 in M. exact M. }
  intros k x y Hx Hy. cbv zeta. destruct (W k x y Hx Hy) as (A & B & C). rewrite A, B, C. repeat split; ring.
Qed.
Print Assumptions C84_growth.
(** The step chosen for a driven run (grid.py:68-73: "stability requires c dt k_max < 1; use 0.5 of the min cell to be safe") is not safe:
    on every square grid of at least 36 points a side, with the largest step the rule allows, some fields grow without bound. *)
Theorem C84_dt_cap_refuted : forall g, (36 <= v2_nx g)%nat -> v2_ny g = v2_nx g -> 0 < v2_dx g -> v2_dy g = v2_dx g -> 0 < v2_beta g -> v2_override g = true -> v2_dx g * v2_beta g / 2 <= v2_dt g ->
  let c := 1 / v2_beta g in let G := gspec (v2_nx g) (v2_ny g) (v2_dx g) (v2_dy g) in
  1 < c * run_dt g * (PI / v2_dx g) /\
  exists ex ey bz lam, lam < -1 /\ bz 0%nat 0%nat <> 0 /\ forall k, snd (vacuum G (c ^ 2) (run_dt g) k (ex, ey, bz)) 0%nat 0%nat = lam ^ k * bz 0%nat 0%nat.
Proof.
  intros g Hn Hny Dx Hdy Hb Ov Hdt c G. pose proof PI2_3_2 as P3. assert (Hc : 0 < c) by (apply Rdiv_lt_0_compat; lra).
  assert (R : c * run_dt g = v2_dx g / 2).
  { unfold run_dt. rewrite Ov. cbv zeta. fold c. rewrite Hdy. rewrite (Rmin_left (v2_dx g) (v2_dx g)) by lra. rewrite Rmin_right; [field; lra|]. replace (1 / 2 * v2_dx g / c) with (v2_dx g * v2_beta g / 2) by (unfold c; field; lra). exact Hdt. }
  assert (Rd : 0 < run_dt g) by (apply Rmult_lt_reg_l with c; [exact Hc|]; rewrite R; lra).
  split; [rewrite R; replace (v2_dx g / 2 * (PI / v2_dx g)) with (PI / 2) by (field; lra); lra|].
  set (n := v2_nx g) in *. set (m := ((n - 1) / 2)%nat). assert (Hm : (0 < m)%nat /\ (2 * m < n)%nat /\ (n <= 2 * m + 2)%nat) by (pose proof (Nat.div_mod (n - 1) 2 ltac:(lia)); pose proof (Nat.mod_upper_bound (n - 1) 2 ltac:(lia)); unfold m; lia).
  destruct Hm as (M0 & M1 & M2). assert (N36 : 36 <= INR n) by (change 36 with (IZR (Z.of_nat 36)); rewrite <- INR_IZR_INZ; apply le_INR; exact Hn).
  assert (MR : INR n <= 2 * INR m + 2) by (apply le_INR in M2; rewrite plus_INR, mult_INR in M2; change (INR 2) with 2 in M2; lra).
  destruct (C84_growth n n (v2_dx g) (v2_dx g) m m c (run_dt g) M0 M1 M0 M1 Dx Dx Hc Rd) as (ex & ey & bz & lam & L & B & K).
  - rewrite R. set (q := INR m / INR n). replace ((v2_dx g / 2) ^ 2 * ((2 * PI * INR m / (INR n * v2_dx g)) ^ 2 + (2 * PI * INR m / (INR n * v2_dx g)) ^ 2)) with (2 * (PI * q) ^ 2) by (unfold q; field; split; lra).
    assert (Q : 17 / 36 <= q). { unfold q. apply Rmult_le_reg_r with (INR n); [lra|]. replace (INR m / INR n * INR n) with (INR m) by (field; lra). lra. }
    assert (1416 / 1000 < PI * q) by nra. nra.
  - exists ex, ey, bz, lam. split; [exact L|]. split; [exact B|]. intros k. unfold G. fold n. rewrite Hny, Hdy. apply (K k 0%nat 0%nat); lia.
Qed.
Print Assumptions C84_dt_cap_refuted.

(** * Initial fields *)
(** A single species is loaded with a background of its own profile, of charge +1 whatever the charge of the species; with several
    species there is no background. The field solves Poisson's equation up to the mean and up to the waves of two cells. *)
Theorem C84_initial : forall gam s comps nx ny dx dy x y, sp_ok s -> (0 < nx)%nat -> (0 < ny)%nat -> 0 < dx -> 0 < dy -> (x < nx)%nat -> (y < ny)%nat ->
  let n := fun x y => fold_right (fun c r => c2_n c x y + r) 0 comps in let l := [(s, init_f gam s comps)] in
  rho0 l n x y = (s2_q s + 1) * n x y /\
  ((forall k m, (k < nx)%nat -> (m < ny)%nat -> (2 * k = nx \/ 2 * m = ny)%nat -> fft2 nx ny (fun x y => (rho0 l n x y, 0)) k m = c0) ->
   div2 (gspec nx ny dx dy) (fst (init_e nx ny dx dy l n)) (snd (init_e nx ny dx dy l n)) x y = rho0 l n x y - plane_sum (gspec nx ny dx dy) (rho0 l n) / (INR nx * INR ny)) /\
  (forall p q r, rho0 (p :: q :: r) n x y = fold_right (fun p z => s2_q (fst p) * dens2 (fst p) (snd p) x y + z) 0 (p :: q :: r)).
Proof.
  intros gam s comps nx ny dx dy x y K Hx Hy Dx Dy Cx Cy n l. split; [|split].
  - unfold rho0, charge2, lsum2, l. cbn [fold_right fst snd List.length]. change (1 <? 1)%nat with false. cbv iota. rewrite (proj1 (C83_init gam s comps x y K)). unfold n. ring.
  - intros HN. exact (proj1 (C80_poisson nx ny dx dy (rho0 l n) x y Hx Hy Dx Dy HN Cx Cy)).
  - intros p q r. unfold rho0, charge2, lsum2. cbn [List.length]. change (1 <? S (S (List.length r)))%nat with true. cbv iota. ring.
Qed.
Print Assumptions C84_initial.

(** * One step *)
Definition cfg_ok (c : cfg2) : Prop := (2 <= g_nx (k_grid c))%nat /\ (2 <= g_ny (k_grid c))%nat /\ 0 < g_dx (k_grid c) /\ 0 < g_dy (k_grid c) /\
  match k_filter c with Some (_, _, alpha, order) => 0 <= alpha /\ (0 < order)%nat | None => True end.
Definition number (c : cfg2) (p : sp2 * f4) : R := sum4 (g_nx (k_grid c)) (g_ny (k_grid c)) (fst p) (snd p).
Lemma sum4_dens nx ny s f : sp_ok s -> sum4 nx ny s f = rsum nx (fun x => rsum ny (fun y => dens2 s f x y)) / (dvx s * dvy s).
Proof.
  intros K. pose proof (dvx_pos s K). pose proof (dvy_pos s K). unfold dens2, sum4. rewrite (rsum_ext nx (fun x => rsum ny (fun y => rsum (s2_nvx s) (fun i => rsum (s2_nvy s) (fun j => f x y i j)) * (dvx s * dvy s)))
    (fun x => rsum ny (fun y => rsum (s2_nvx s) (fun i => rsum (s2_nvy s) (fun j => f x y i j))) * (dvx s * dvy s))) by (intros; apply rsum_scal_r). rewrite rsum_scal_r. field. split; lra.
Qed.
(** Without magnetic field, with the spectral push, every species keeps its number through the push, the collisions and the filter; the
    species and the driver currents reported are those of the run; skip_maxwell freezes the fields. *)
Theorem C84_step : forall c t s s', cfg_ok c -> k_spectral c = true -> (forall p, In p (q_f s) -> sp_ok (fst p) /\ node_exact (k_cub c) (fst p)) ->
  (forall x y, cell (k_grid c) x y -> q_bz s x y = 0) -> step2 c t s s' ->
  map fst (q_f s') = map fst (q_f s) /\ map (number c) (q_f s') = map (number c) (q_f s) /\
  (k_skip c = true -> q_ex s' = q_ex s /\ q_ey s' = q_ey s /\ q_bz s' = q_bz s) /\
  q_jx s' = source (k_x c) (k_y c) (k_dex c) (t + 1 / 2 * k_dt c) /\ q_jy s' = source (k_x c) (k_y c) (k_dey c) (t + 1 / 2 * k_dt c).
Proof.
  intros c t s s' (Nx & Ny & Dx & Dy & Fi) Sp Ok B (fs & H & ->). cbn [q_f q_ex q_ey q_bz q_jx q_jy]. split; [|split; [|split; [|now split]]].
  - unfold kin_all in H. clear - H. revert fs H. induction (q_f s) as [|p l IH]; intros fs H; cbn [map] in H; inversion H; subst; [reflexivity|]. cbn [map fst]. destruct H2 as [E _]. cbn [fst] in E. rewrite E. f_equal. now apply IH.
  - unfold kin_all in H. revert fs H. induction (q_f s) as [|p l IH]; intros fs H; cbn [map] in H; inversion H; subst; [reflexivity|]. cbn [map]. f_equal; [|apply IH; [intros; apply Ok; now right|assumption]].
    destruct (Ok p (or_introl eq_refl)) as [K N]. destruct H2 as [E C]. cbn [fst snd] in E, C. unfold number. cbn [fst snd]. rewrite E.
    transitivity (sum4 (g_nx (k_grid c)) (g_ny (k_grid c)) (fst p) (snd y)).
    { unfold filt. destruct (k_filter c) as [[[[u w] alpha] order]|]; [|reflexivity]. destruct Fi as [Ha Ho]. now apply C83_filter_number. }
    rewrite sum4_dens by exact K. rewrite (rsum_ext (g_nx (k_grid c)) _ (fun x => rsum (g_ny (k_grid c)) (fun z => dens2 (fst p) (kinetic (k_cub c) (k_spectral c) (k_grid c) (fst p) (k_dt c) (q_ex s) (q_ey s) (q_bz s) (snd p)) x z))).
    2:{ intros x Hx. apply rsum_ext. intros z Hz. exact (C83_collisions_density _ _ _ _ _ _ _ x z K C Hx Hz). }
    rewrite <- sum4_dens by exact K. rewrite Sp. apply C83_number; try assumption; try lia. intros x z Hx Hz. apply B. now split.
  - intros Sk. unfold fields_next. rewrite Sk. cbn [fst snd]. repeat split.
Qed.
Print Assumptions C84_step.
(** With skip_maxwell and no magnetic field this holds for a run of any length. *)
Inductive steps2 (c : cfg2) : R -> st2 -> R -> st2 -> Prop :=
| steps2_0 : forall t s, steps2 c t s t s
| steps2_S : forall t s s' t'' s'', step2 c t s s' -> steps2 c (t + k_dt c) s' t'' s'' -> steps2 c t s t'' s''.
Theorem C84_run : forall c t s t' s', steps2 c t s t' s' -> cfg_ok c -> k_spectral c = true -> k_skip c = true -> (forall p, In p (q_f s) -> sp_ok (fst p) /\ node_exact (k_cub c) (fst p)) ->
  (forall x y, cell (k_grid c) x y -> q_bz s x y = 0) -> map (number c) (q_f s') = map (number c) (q_f s) /\ q_ex s' = q_ex s /\ q_ey s' = q_ey s.
Proof.
  intros c t s t' s' H. induction H as [t s|t s s' t'' s'' H1 H2 IH]; intros Ck Sp Sk Ok B; [now repeat split|].
  destruct (C84_step c t s s' Ck Sp Ok B H1) as (F & N & E & _). destruct (E Sk) as (E1 & E2 & E3).
  assert (Ok' : forall p, In p (q_f s') -> sp_ok (fst p) /\ node_exact (k_cub c) (fst p)).
  { intros p Hp. assert (Q : In (fst p) (map fst (q_f s))) by (rewrite <- F; now apply in_map). apply in_map_iff in Q. destruct Q as (q & <- & Hq). now apply Ok. }
  rewrite E3 in IH. destruct (IH Ck Sp Sk Ok' B) as (I1 & I2 & I3). rewrite I1, I2, I3, N, E1, E2. now repeat split.
Qed.
Print Assumptions C84_run.
(** The mean electric field changes by the mean current alone: the charge of each species times the flux of its pushed
    distribution, plus the drivers at the middle of the step. *)
Theorem C84_mean_field : forall c t s s', ok_grid (k_grid c) -> k_skip c = false -> step2 c t s s' ->
  let G := k_grid c in
  plane_sum G (q_ex s') = plane_sum G (q_ex s) - k_dt c * (fold_right (fun p r => s2_q (fst p) * plane_sum G (momx (fst p) (snd p)) + r) 0 (kin_all c s) + plane_sum G (q_jx s')) /\
  plane_sum G (q_ey s') = plane_sum G (q_ey s) - k_dt c * (fold_right (fun p r => s2_q (fst p) * plane_sum G (momy (fst p) (snd p)) + r) 0 (kin_all c s) + plane_sum G (q_jy s')).
Proof.
  intros c t s s' Og Sk (fs & _ & ->) G. cbn [q_ex q_ey q_jx q_jy]. unfold fields_next. rewrite Sk. cbn [fst snd maxwell_step].
  assert (ZX : forall a, plane_sum G (fun x y => ddx G a x y) = 0).
  { intros a. unfold plane_sum. rewrite (rsum_swap (g_nx G) (g_ny G) (fun x y => ddx G a x y)). rewrite (rsum_ext (g_ny G) _ (fun _ => 0)); [apply rsum_zero|]. intros y _. unfold ddx, rder. rewrite <- csum_fst. rewrite dax_sum by apply Og. reflexivity. }
  assert (ZY : forall a, plane_sum G (fun x y => ddy G a x y) = 0).
  { intros a. unfold plane_sum. rewrite (rsum_ext (g_nx G) _ (fun _ => 0)); [apply rsum_zero|]. intros y _. unfold ddy, rder. rewrite <- csum_fst. rewrite dax_sum by apply Og. reflexivity. }
  assert (L : forall (h : sp2 * f4 -> rfl) l, plane_sum G (fun x y => lsum2 (fun p => s2_q (fst p) * h p x y) l) = fold_right (fun p r => s2_q (fst p) * plane_sum G (h p) + r) 0 l).
  { intros h l. induction l as [|p l IH]; cbn [fold_right].
    - unfold lsum2. cbn [fold_right]. unfold plane_sum. rewrite (rsum_ext (g_nx G) _ (fun _ => 0)) by (intros; apply rsum_zero). apply rsum_zero.
    - rewrite <- IH, <- plane_scal, <- plane_plus. apply plane_ext. intros. reflexivity. }
  split.
  - unfold ex_full, jx_of. fold G. rewrite (plane_ext G _ (fun x y => q_ex s x y + (k_dt c * k_c2 c * ddy G (b_half G (q_ex s) (q_ey s) (q_bz s) (k_dt c)) x y + - k_dt c * (lsum2 (fun p => s2_q (fst p) * momx (fst p) (snd p) x y) (kin_all c s) + source (k_x c) (k_y c) (k_dex c) (t + 1 / 2 * k_dt c) x y)))) by (intros; ring).
    rewrite plane_plus, plane_plus, !plane_scal, plane_plus, ZY, (L (fun p => momx (fst p) (snd p))). change (fun x y => source (k_x c) (k_y c) (k_dex c) (t + 1 / 2 * k_dt c) x y) with (source (k_x c) (k_y c) (k_dex c) (t + 1 / 2 * k_dt c)). ring.
  - unfold ey_full, jy_of. fold G. rewrite (plane_ext G _ (fun x y => q_ey s x y + (- (k_dt c * k_c2 c) * ddx G (b_half G (q_ex s) (q_ey s) (q_bz s) (k_dt c)) x y + - k_dt c * (lsum2 (fun p => s2_q (fst p) * momy (fst p) (snd p) x y) (kin_all c s) + source (k_x c) (k_y c) (k_dey c) (t + 1 / 2 * k_dt c) x y)))) by (intros; ring).
    rewrite plane_plus, plane_plus, !plane_scal, plane_plus, ZX, (L (fun p => momy (fst p) (snd p))). change (fun x y => source (k_x c) (k_y c) (k_dey c) (t + 1 / 2 * k_dt c) x y) with (source (k_x c) (k_y c) (k_dey c) (t + 1 / 2 * k_dt c)). ring.
Qed.
Print Assumptions C84_mean_field.
(** A driver is a wave travelling along (kx, ky) at the frequency w0 + dw0: under its envelope, moving along the wave with the
    phase velocity the current does not change, and at a fixed point it is the second time derivative of a0 sin(phase). *)
Theorem C84_driver : forall gx gy gx' gy' d t t' x y, let w := e2_w0 d + e2_dw0 d in
  (forall a b c, e2_env d a b c = 1) ->
  (e2_kx d * (gx' x - gx x) + e2_ky d * (gy' y - gy y) = w * (t' - t) -> source gx' gy' [d] t' x y = source gx gy [d] t x y) /\
  exists A', (forall t, derivable_pt_lim (fun t => e2_a0 d * sin (e2_kx d * gx x + e2_ky d * gy y - w * t)) t (A' t)) /\ derivable_pt_lim A' t (source gx gy [d] t x y).
Proof.
  intros gx gy gx' gy' d t t' x y w E. split.
  - intros H. unfold source, lsum2. cbn [fold_right]. rewrite !E. fold w. replace (e2_kx d * gx' x + e2_ky d * gy' y - w * t') with (e2_kx d * gx x + e2_ky d * gy y - w * t) by lra. reflexivity.
  - exists (fun t => - w * e2_a0 d * cos (e2_kx d * gx x + e2_ky d * gy y - w * t)). set (P := e2_kx d * gx x + e2_ky d * gy y).
    assert (L : forall t, derivable_pt_lim (fun t => P - w * t) t (- w)).
    { intros u. replace (- w) with (0 - w * 1) by ring. apply (derivable_pt_lim_minus (fun _ => P) (fun t => w * t)); [apply derivable_pt_lim_const|]. apply (derivable_pt_lim_scal id w), derivable_pt_lim_id. }
    split.
    + intros u. replace (- w * e2_a0 d * cos (P - w * u)) with (e2_a0 d * (cos (P - w * u) * - w)) by ring. apply (derivable_pt_lim_scal (fun t => sin (P - w * t)) (e2_a0 d)). apply (derivable_pt_lim_comp (fun t => P - w * t) sin); [apply L|apply derivable_pt_lim_sin].
    + unfold source, lsum2. cbn [fold_right]. rewrite E. fold w. fold P. replace (- w ^ 2 * e2_a0 d * 1 * sin (P - w * t) + 0) with (- w * e2_a0 d * (- sin (P - w * t) * - w)) by ring. apply (derivable_pt_lim_scal (fun t => cos (P - w * t)) (- w * e2_a0 d)). apply (derivable_pt_lim_comp (fun t => P - w * t) cos); [apply L|apply derivable_pt_lim_cos].
Qed.
Print Assumptions C84_driver.
(** The polarization of a driver is never read: a driver listed under ex drives the x current even if its polarization says "y". *)
Theorem C84_polarization_refuted : forall gx gy l t pol x y, source gx gy (map (fun d => {| e2_a0 := e2_a0 d; e2_kx := e2_kx d; e2_ky := e2_ky d; e2_w0 := e2_w0 d; e2_dw0 := e2_dw0 d; e2_env := e2_env d; e2_pol := pol |}) l) t x y = source gx gy l t x y.
Proof. intros. unfold source, lsum2. induction l as [|d l IH]; cbn [map fold_right]; [reflexivity|]. rewrite IH. reflexivity. Qed.
Print Assumptions C84_polarization_refuted.

(** * Saved quantities *)
(** The energy density splits into thermal and flow energy; the saved mean density is the number of particles over the area. *)
Theorem C84_moments : forall s f x y, sp_ok s -> 0 < dens2 s f x y ->
  dens2 s f x y * ux_of s f x y = momx s f x y /\ dens2 s f x y * uy_of s f x y = momy s f x y /\
  rsum (s2_nvx s) (fun i => rsum (s2_nvy s) (fun j => 1 / 2 * (vx s i ^ 2 + vy s j ^ 2) * f x y i j)) * (dvx s * dvy s) =
  dens2 s f x y * t_of s f x y + 1 / 2 * dens2 s f x y * (ux_of s f x y ^ 2 + uy_of s f x y ^ 2).
Proof.
  intros s f x y K Hn. assert (U : usafe (dens2 s f x y) = dens2 s f x y) by (unfold usafe; destruct (Rlt_dec 0 (dens2 s f x y)); [reflexivity|contradiction]).
  assert (A : dens2 s f x y * ux_of s f x y = momx s f x y) by (unfold ux_of; rewrite U; field; lra). assert (B : dens2 s f x y * uy_of s f x y = momy s f x y) by (unfold uy_of; rewrite U; field; lra).
  split; [exact A|]. split; [exact B|]. unfold t_of. rewrite U. set (u := ux_of s f x y) in *. set (w := uy_of s f x y) in *.
  replace (dens2 s f x y * (1 / 2 * (txx_of s f x y + tyy_of s f x y) / dens2 s f x y)) with (1 / 2 * (txx_of s f x y + tyy_of s f x y)) by (field; lra).
  unfold txx_of, tyy_of. fold u w. set (S2 := fun g : nat -> nat -> R => rsum (s2_nvx s) (fun i => rsum (s2_nvy s) (fun j => g i j * f x y i j))).
  assert (L : forall a b g h, S2 (fun i j => a * g i j + b * h i j) = a * S2 g + b * S2 h).
  { intros a b g h. unfold S2. rewrite <- !rsum_scal, <- rsum_plus. apply rsum_ext. intros i _. rewrite <- !rsum_scal, <- rsum_plus. apply rsum_ext. intros j _. ring. }
  assert (EX : forall g h, (forall i j, g i j = h i j) -> S2 g = S2 h) by (intros g h H; unfold S2; apply rsum_ext; intros; apply rsum_ext; intros; now rewrite H).
  change (rsum (s2_nvx s) (fun i => rsum (s2_nvy s) (fun j => 1 / 2 * (vx s i ^ 2 + vy s j ^ 2) * f x y i j))) with (S2 (fun i j => 1 / 2 * (vx s i ^ 2 + vy s j ^ 2))).
  change (rsum (s2_nvx s) (fun i => rsum (s2_nvy s) (fun j => (vx s i - u) ^ 2 * f x y i j))) with (S2 (fun i j => (vx s i - u) ^ 2)). change (rsum (s2_nvx s) (fun i => rsum (s2_nvy s) (fun j => (vy s j - w) ^ 2 * f x y i j))) with (S2 (fun i j => (vy s j - w) ^ 2)).
  assert (D : dens2 s f x y = S2 (fun _ _ => 1) * (dvx s * dvy s)) by (unfold dens2, S2; f_equal; apply rsum_ext; intros; apply rsum_ext; intros; ring).
  assert (MX : momx s f x y = S2 (fun i _ => vx s i) * (dvx s * dvy s)) by reflexivity. assert (MY : momy s f x y = S2 (fun _ j => vy s j) * (dvx s * dvy s)) by reflexivity.
  assert (Q0 : S2 (fun i j => 1 / 2 * (vx s i ^ 2 + vy s j ^ 2)) = 1 / 2 * S2 (fun i _ => vx s i ^ 2) + 1 / 2 * S2 (fun _ j => vy s j ^ 2)) by (rewrite <- L; apply EX; intros; ring).
  assert (Q1 : S2 (fun i j => (vx s i - u) ^ 2) = 1 * S2 (fun i _ => vx s i ^ 2) + 1 * (- (2 * u) * S2 (fun i _ => vx s i) + u ^ 2 * S2 (fun _ _ => 1))) by (rewrite <- !L; apply EX; intros; ring).
  assert (Q2 : S2 (fun i j => (vy s j - w) ^ 2) = 1 * S2 (fun _ j => vy s j ^ 2) + 1 * (- (2 * w) * S2 (fun _ j => vy s j) + w ^ 2 * S2 (fun _ _ => 1))) by (rewrite <- !L; apply EX; intros; ring).
  rewrite Q0, Q1, Q2. rewrite MX in A. rewrite MY in B. rewrite D in *. set (N := S2 (fun _ _ => 1)) in *. set (X1 := S2 (fun i _ => vx s i)) in *. set (Y1 := S2 (fun _ j => vy s j)) in *. set (d := dvx s * dvy s) in *.
  set (X2 := S2 (fun i _ => vx s i ^ 2)). set (Y2 := S2 (fun _ j => vy s j ^ 2)).
  replace (1 / 2 * ((1 * X2 + 1 * (- (2 * u) * X1 + u ^ 2 * N)) * d + (1 * Y2 + 1 * (- (2 * w) * Y1 + w ^ 2 * N)) * d))
    with (1 / 2 * ((X2 + Y2) * d - 2 * u * (X1 * d) - 2 * w * (Y1 * d) + (u ^ 2 + w ^ 2) * (N * d))) by ring.
  rewrite <- A, <- B. field.
Qed.
Print Assumptions C84_moments.
Theorem C84_scalars : forall nx ny dx dy s f, sp_ok s -> (0 < nx)%nat -> (0 < ny)%nat ->
  mean_n nx ny s f * (INR nx * dx * (INR ny * dy)) = sum4 nx ny s f * (dx * dy * dvx s * dvy s) /\ mean_f2 nx ny s f * (INR nx * dx * (INR ny * dy)) = sum4 nx ny s (sq4 f) * (dx * dy * dvx s * dvy s).
Proof.
  intros nx ny dx dy s f K Hx Hy. assert (INR nx <> 0) by (apply not_0_INR; lia). assert (INR ny <> 0) by (apply not_0_INR; lia). pose proof (dvx_pos s K). pose proof (dvy_pos s K). split.
  - rewrite sum4_dens by exact K. unfold mean_n, gmean. field. repeat split; try assumption; lra.
  - rewrite (sum4_dens nx ny s (sq4 f)) by exact K. unfold mean_f2, gmean. rewrite (rsum_ext nx _ (fun x => rsum ny (fun y => dens2 s (sq4 f) x y))).
    + field. repeat split; try assumption; lra.
    + intros x _. apply rsum_ext. intros y _. unfold dens2, sq4. f_equal. apply rsum_ext; intros; apply rsum_ext; intros; ring.
Qed.
Print Assumptions C84_scalars.
(** The saved mean kinetic energy is the total kinetic energy over the area, and the centre-of-mass axes: x and y are cell centres (half a
    cell inside), any other axis starts and ends at the given limits. *)
Theorem C84_mean_energy : forall nx ny s f, (0 < nx)%nat -> (0 < ny)%nat -> mean_ke nx ny s f * (INR nx * INR ny) =
  rsum nx (fun x => rsum ny (fun y => rsum (s2_nvx s) (fun i => rsum (s2_nvy s) (fun j => 1 / 2 * (vx s i ^ 2 + vy s j ^ 2) * f x y i j)) * (dvx s * dvy s))).
Proof. intros nx ny s f Hx Hy. assert (INR nx <> 0) by (apply not_0_INR; lia). assert (INR ny <> 0) by (apply not_0_INR; lia). unfold mean_ke, gmean. field. now split. Qed.
Print Assumptions C84_mean_energy.
Theorem C84_saved_axis : forall key lo hi n, (2 <= n)%nat ->
  ((key = lit "x" \/ key = lit "y") -> forall i, (i < n)%nat -> dim_axis key lo hi n i = lo + (INR i + 1 / 2) * ((hi - lo) / INR n)) /\
  (key <> lit "x" -> key <> lit "y" -> dim_axis key lo hi n 0 = lo /\ dim_axis key lo hi n (n - 1) = hi).
Proof.
  intros key lo hi n Hn. assert (P : INR n <> 0) by (apply not_0_INR; lia). assert (P1 : INR (n - 1) = INR n - 1) by (rewrite minus_INR by lia; reflexivity). assert (P2 : INR n - 1 <> 0) by (rewrite <- P1; apply not_0_INR; lia). split.
  - intros Hk i Hi. assert (E : str_eqb key (lit "x") || str_eqb key (lit "y") = true) by (destruct Hk as [-> | ->]; reflexivity). unfold dim_axis. rewrite E. unfold linspace. destruct (Nat.leb_spec n 1) as [L|L]; [lia|]. rewrite P1. field. now split.
  - intros H1 H2. assert (E : str_eqb key (lit "x") || str_eqb key (lit "y") = false) by (rewrite (proj2 (str_eqb_neq _ _) H1), (proj2 (str_eqb_neq _ _) H2); reflexivity). unfold dim_axis. rewrite E. replace (lo + 0 / 2) with lo by field. replace (hi - 0 / 2) with hi by field. unfold linspace. destruct (Nat.leb_spec n 1) as [L|L]; [lia|]. rewrite P1. change (INR 0) with 0. split; field; exact P2.
Qed.
Print Assumptions C84_saved_axis.
(** The save section: what is accepted is saved under its own name, one entry per distribution label, and the default scalars are always
    added last. *)
Definition flat_names (e : str * sentry) : list str := match snd e with SFields _ => [fst e] | SDist labels => if is_prefix (lit "fields") (fst e) then [fst e] else map (fun p => fst e ++ lit "." ++ fst p) labels end.
Theorem C84_save_names : forall species l r, save_quantities species l = Some r -> r = flat_map flat_names l ++ [lit "default"] /\
  forall nm e, In (nm, e) l -> is_prefix (lit "fields") nm = true \/ (In nm species /\ exists labels, e = SDist labels).
Proof.
  intros species l r. unfold save_quantities. generalize (fields_of l) as fk. revert r. induction l as [|[nm e] l IH]; intros r fk H; cbn [expand] in H.
  - injection H as <-. split; [reflexivity|]. intros nm e [].
  - destruct (is_prefix (lit "fields") nm) eqn:P.
    + destruct (fields_accepts fk); [|discriminate]. destruct (expand species _ l) as [r'|] eqn:E; [|discriminate]. injection H as <-. destruct (IH _ _ E) as [-> I]. split.
      * cbn [flat_map]. unfold flat_names at 2. cbn [fst snd]. rewrite P. destruct e; reflexivity.
      * intros nm' e' [Q|Q]; [injection Q as <- <-; now left|now apply I].
    + destruct (existsb (str_eqb nm) species) eqn:X; [|discriminate]. destruct e as [k|labels]; [discriminate|]. destruct (forallb _ labels); [|discriminate]. destruct (expand species fk l) as [r'|] eqn:E; [|discriminate]. injection H as <-. destruct (IH _ _ E) as [-> I]. split.
      * cbn [flat_map]. unfold flat_names at 2. cbn [fst snd]. rewrite P. now rewrite app_assoc.
      * intros nm' e' [Q|Q]; [|now apply I]. injection Q as <- <-. right. apply existsb_exists in X. destruct X as (z & Hz & Hq). apply str_eqb_eq in Hq. subst z. split; [exact Hz|now exists labels].
Qed.
Print Assumptions C84_save_names.
(** Whether two groups of saved fields are accepted depends on their order, and a single group must be called exactly "fields". *)
Theorem C84_save_fields_refuted : let k := [lit "t"] in
  save_quantities [] [(lit "fields", SFields k)] = Some [lit "fields"; lit "default"] /\
  save_quantities [] [(lit "fields-early", SFields k); (lit "fields", SFields k)] = Some [lit "fields-early"; lit "fields"; lit "default"] /\
  save_quantities [] [(lit "fields", SFields k); (lit "fields-early", SFields k)] = None /\ save_quantities [] [(lit "fields-early", SFields k)] = None.
Proof. now vm_compute. Qed.
Print Assumptions C84_save_fields_refuted.
(** ** A concrete case: a step exists from a uniform two-velocity state, and every hypothesis of C84_step holds of it. *)
Example C84_nonvacuous : let s := {| s2_q := -1; s2_m := 1; s2_vmax := 1; s2_nvx := 2; s2_nvy := 2 |} in
  let c := {| k_cub := cell_cub; k_spectral := true; k_grid := gspec 2 2 1 1; k_x := INR; k_y := INR; k_dt := 1; k_c2 := 1; k_dex := []; k_dey := []; k_skip := true; k_fp := None; k_krook := None; k_filter := Some (true, true, 36, 18%nat) |} in
  let z : rfl := fun _ _ => 0 in let st := {| q_f := [(s, fun _ _ _ _ => 1)]; q_ex := z; q_ey := z; q_bz := z; q_jx := z; q_jy := z |} in
  cfg_ok c /\ sp_ok s /\ node_exact cell_cub s /\ number c (s, fun _ _ _ _ => 1) = 16 /\ exists st', step2 c 0 st st' /\ q_ex st' = z.
Proof.
  cbn zeta. split; [|split; [|split; [apply cell_cub_exact|split]]].
  - unfold cfg_ok. cbn. repeat split; try lia; lra.
  - unfold sp_ok. cbn. repeat split; try lia; lra.
  - unfold sp_ok. cbn. repeat split; try lia; lra.
  - unfold number, sum4. cbn. ring.
  - eexists. split.
    + match goal with |- step2 ?c _ ?st _ => exists (kin_all c st) end. split; [|reflexivity]. constructor; [|constructor]. cbn [fst snd]. split; [reflexivity|]. eexists. split; reflexivity.
    + reflexivity.
Qed.
