(** Property C108, continued: what is reported, its ranges, field reversal, longer runs, the summary and the panels. *)
From Coq Require Import Reals Lra Lia ZArith List Bool Psatz.
From Verif Require Import Drivers DriversProps Density DensityProofs PyStr Harm2d Harm2dLayout Harm2dSum Harm2dProps Harm2dMoments Vfp2d Vfp2dOps Vfp2dField RSum Pic PicProofs PicFourier Dft ReconAz Recon ReconProps.
Import ListNotations.
Local Open Scope R_scope.

(** * What is reported *)
Lemma vn_nonneg g f : 0 <= upstream_vn g f.
Proof. unfold upstream_vn. pose proof (Rmax_r (f_vy f (ix0 g) (lo g f)) 0). pose proof (Rmax_r (- f_vy f (ix0 g) (up g f)) 0). lra. Qed.
(** A rate is reported for a frame exactly when it is reconnection, the inflow is at least a tenth of the largest of the run and not
    negligible; then it is E_z at the centre over the upstream field times the inflow. A flux is reported exactly when it is reconnection. *)
Theorem C108_rate : forall g run f, (0 < r_nx g)%nat -> both_sides g = true -> In f run ->
  (forall r, rate g run f = Some r <-> reconnects g f /\ (forall h, In h run -> upstream_vn g h <= 10 * upstream_vn g f) /\
     tiny < upstream_bx g f * upstream_vn g f /\ r * (upstream_bx g f * upstream_vn g f) = xpoint_ez g f) /\
  (forall q, flux g f = Some q <-> reconnects g f /\ q = raw_flux g f).
Proof.
  intros g run f Hn HB Hf. pose proof (C108_gate g f Hn HB) as GA. pose proof tiny_pos as T. split.
  - intros r. unfold rate, rate_valid. cbv zeta. set (s := upstream_bx g f * upstream_vn g f).
    assert (P : rle (1 / 10 * peak_vn g run) (upstream_vn g f) = true <-> forall h, In h run -> upstream_vn g h <= 10 * upstream_vn g f).
    { rewrite rle_iff. unfold peak_vn. split; intros H.
      - intros h Hh. pose proof (rmax0_in (map (upstream_vn g) run) (upstream_vn g h) (in_map _ _ _ Hh)). lra.
      - assert (rmax0 (map (upstream_vn g) run) <= 10 * upstream_vn g f); [|lra]. apply rmax0_le; [pose proof (vn_nonneg g f); lra|]. intros a Ha. apply in_map_iff in Ha as (h & <- & Hh). now apply H. }
    destruct (valid g f && rle (1 / 10 * peak_vn g run) (upstream_vn g f) && rlt tiny s) eqn:E.
    + apply andb_prop in E as [E E3]. apply andb_prop in E as [E1 E2]. apply GA in E1. pose proof (proj1 P E2) as E2P. apply rlt_iff in E3. split.
      * intros Q. injection Q as <-. repeat split; auto. field. lra.
      * intros (_ & _ & _ & Q). f_equal. rewrite <- Q. field. lra.
    + split; [discriminate|]. intros (Q1 & Q2 & Q3 & _). apply GA in Q1. pose proof (proj2 P Q2) as Q2P. apply rlt_iff in Q3. rewrite Q1, Q2P, Q3 in E. discriminate.
  - intros q. unfold flux. destruct (valid g f) eqn:E.
    + pose proof (proj1 GA eq_refl) as RE. split; [intros Q; injection Q as <-; auto|intros [_ ->]; reflexivity].
    + split; [discriminate|]. intros [Q _]. pose proof (proj2 GA Q); discriminate.
Qed.
Print Assumptions C108_rate.

(** The scores lie in their ranges. *)
Lemma ratio01 a b : 0 <= a <= b -> 0 < b -> 0 <= a / b <= 1.
Proof.
  intros [H0 H1] Hb. split; [apply Rmult_le_pos; [lra|left; now apply Rinv_0_lt_compat]|]. apply (Rmult_le_reg_r b); [lra|]. unfold Rdiv. rewrite Rmult_assoc, Rinv_l by lra. lra.
Qed.
Lemma sgn_abs x : Rabs (sgn x) <= 1.
Proof. unfold sgn. destruct Rlt_dec; [rewrite Rabs_left; lra|]. destruct Rlt_dec; [rewrite Rabs_right; lra|rewrite Rabs_R0; lra]. Qed.
Lemma signed_le g f : Rabs (signed_sum g f) <= local_l1 g f.
Proof.
  unfold signed_sum, local_l1. eapply Rle_trans; [apply lsum_abs|]. apply lsum_le. intros p _. rewrite Rabs_mult. pose proof (sgn_abs (r_x g (fst p) * r_y g (snd p))). pose proof (Rabs_pos (bz_at f p)). nra.
Qed.
Theorem C108_ranges : forall g f, (0 < r_nx g)%nat ->
  0 <= balance g f <= 1 /\ 0 <= dominance g f <= 1 /\ 0 <= purity g f <= 1 /\ 0 <= central_fraction g f <= 1 /\
  0 <= upstream_vn g f /\ 0 <= upstream_bx g f /\
  (forall w, sheet_width g f = Some w -> 0 <= w <= half_width g f) /\
  (forall m, (forall x y, (x < r_nx g)%nat -> (y < r_ny g)%nat -> Rabs (f_bz f x y) <= m) -> 0 <= m -> Rabs (projection g f) <= m).
Proof.
  intros g f Hn. pose proof tiny_pos as T. pose proof (Rabs_pos (bx_lo g f)) as A1. pose proof (Rabs_pos (bx_up g f)) as A2.
  split. { unfold balance. destruct Rlt_dec; [|lra]. apply ratio01; [|lra]. unfold Rmin. destruct Rle_dec; lra. }
  split. { unfold dominance. destruct Rlt_dec as [L|L]; [|lra]. apply ratio01; [|lra]. split; [apply rmax0_ge0|]. apply rmax0_le; [lra|]. intros a Ha. apply in_map_iff in Ha as (i & <- & I). apply sheet_in in I as [I _]. apply peak_ge; auto. now apply ix0_lt. }
  split. { unfold purity. destruct Rlt_dec as [L|L]; [|lra]. apply ratio01; [|lra]. split; [apply Rabs_pos|apply signed_le]. }
  split. { unfold central_fraction. destruct Rlt_dec as [L|L]; [|lra]. assert (Q : local_l1 g f <= lsum (map (fun p => Rabs (bz_at f p)) (cells g))) by (apply lsum_filter; intros; apply Rabs_pos). apply ratio01; [|lra]. split; [lra|exact Q]. }
  split; [apply vn_nonneg|]. split; [unfold upstream_bx; lra|]. split.
  - intros w. unfold sheet_width. cbv zeta. destruct Rlt_dec as [L|L]; [|discriminate]. intros E. injection E as <-. split; [apply sqrt_pos|].
    assert (HW : 0 <= half_width g f). { destruct (sheet g f) as [|i r] eqn:ES; [cbn in L; lra|]. assert (I : In i (sheet g f)) by (rewrite ES; now left). apply sheet_in in I as [_ I]. pose proof (Rabs_pos (y_sheet g i)). lra. }
    rewrite <- (sqrt_pow2 (half_width g f)) by auto. apply sqrt_le_1_alt. set (S0 := lsum (map (jline g f) (sheet g f))) in *.
    apply (Rmult_le_reg_r S0); [lra|]. unfold Rdiv. rewrite Rmult_assoc, Rinv_l, Rmult_1_r by lra. unfold S0. rewrite <- lsum_scal. apply lsum_le. intros i I. apply sheet_in in I as [_ I].
    assert (0 <= jline g f i) by apply Rabs_pos. assert (y_sheet g i ^ 2 <= half_width g f ^ 2) by (rewrite <- (pow2_abs (y_sheet g i)); apply pow_incr; split; [apply Rabs_pos|exact I]). nra.
  - intros m Hm H0. unfold projection. destruct Rlt_dec as [L|L]; [|rewrite Rabs_R0; exact H0].
    assert (N : (0 < length (central g f))%nat). { unfold local_l1 in L. destruct (central g f); [cbn in L; lra|cbn; lia]. }
    assert (NP : 0 < INR (length (central g f))) by now apply lt_0_INR. unfold Rdiv. rewrite Rabs_mult, (Rabs_right (/ _)) by (left; now apply Rinv_0_lt_compat).
    apply (Rmult_le_reg_r (INR (length (central g f)))); [lra|]. rewrite Rmult_assoc, Rinv_l, Rmult_1_r by lra. eapply Rle_trans; [apply signed_le|]. unfold local_l1.
    assert (K : forall l, (forall p, In p l -> Rabs (bz_at f p) <= m) -> lsum (map (fun p => Rabs (bz_at f p)) l) <= m * INR (length l)).
    { induction l as [|p l IH]; intros H; [cbn; lra|]. cbn [map length]. rewrite S_INR. cbn [lsum fold_right]. fold (lsum (map (fun p => Rabs (bz_at f p)) l)). pose proof (H p (or_introl eq_refl)). pose proof (IH ltac:(intros; apply H; now right)). lra. }
    apply K. intros [x y] I. apply filter_In in I as [I _]. apply cells_in in I as [I1 I2]. now apply Hm.
Qed.
Print Assumptions C108_ranges.

(** * Reversing the fields *)
Definition flip (f : rframe) : rframe := {| f_bx := fun x y => - f_bx f x y; f_by := fun x y => - f_by f x y; f_bz := fun x y => - f_bz f x y;
  f_ez := f_ez f; f_jz := fun x y => - f_jz f x y; f_vy := f_vy f |}.
Lemma best_ext f h l c : (forall i, f i = h i) -> best f c l = best h c l.
Proof. intros E. revert c. induction l as [|i r IH]; intros c; cbn; [reflexivity|]. rewrite !E, !IH. reflexivity. Qed.
Lemma argmax_ext f h l : (forall i, f i = h i) -> argmax f l = argmax h l.
Proof. intros E. destruct l; [reflexivity|]. now apply best_ext. Qed.
Lemma fft2_neg nx ny a k l : fft2 nx ny (fun x y => (- a x y, 0)) k l = cneg (fft2 nx ny (fun x y => (a x y, 0)) k l).
Proof.
  rewrite !fft2_sum. replace (cneg (csum nx (fun x => csum ny (fun y => cmul (a x y, 0) (cmul (cis (- angle nx k x)) (cis (- angle ny l y)))))))
    with (cmul (-1, 0) (csum nx (fun x => csum ny (fun y => cmul (a x y, 0) (cmul (cis (- angle nx k x)) (cis (- angle ny l y))))))) by cy.
  rewrite <- csum_mul. apply csum_ext. intros x _. rewrite <- csum_mul. apply csum_ext. intros y _. cy.
Qed.
Lemma vpot_neg nx ny dx dy bx by_ x y : vpot nx ny dx dy (fun x y => - bx x y) (fun x y => - by_ x y) x y = - vpot nx ny dx dy bx by_ x y.
Proof.
  unfold vpot. rewrite !ifft2_sum. unfold cscal at 1 3. cbn [fst]. match goal with |- ?r * ?a = - (_ * ?b) => replace (- (r * b)) with (r * - b) by ring end. f_equal. rewrite !csum_fst.
  match goal with |- ?a = - ?b => replace (- b) with (-1 * b) by ring end. rewrite <- rsum_scal. apply rsum_ext. intros k _. rewrite !csum_fst, <- rsum_scal. apply rsum_ext. intros l _.
  rewrite !fft2_neg. unfold cneg, cadd, cmul, cscal. cbn [fst snd]. ring.
Qed.
Lemma npgrad_neg n h f i : npgrad n h (fun j => - f j) i = - npgrad n h f i.
Proof. unfold npgrad. destruct (i =? 0)%nat; [unfold Rdiv; ring|]. destruct (i =? n - 1)%nat; unfold Rdiv; ring. Qed.
Lemma npgrad_ext n h f f' i : (forall j, f j = f' j) -> npgrad n h f i = npgrad n h f' i.
Proof. intros E. unfold npgrad. now rewrite !E. Qed.
Lemma lo_flip g f : lo g (flip f) = lo g f.
Proof. unfold lo. apply argmax_ext. intros. cbn. apply Rabs_Ropp. Qed.
Lemma up_flip g f : up g (flip f) = up g f.
Proof. unfold up. apply argmax_ext. intros. cbn. apply Rabs_Ropp. Qed.
Lemma az_flip g f x y : az g (flip f) x y = - az g f x y.
Proof. apply vpot_neg. Qed.
Lemma gx_neg g a a' x y : (forall x y, a' x y = - a x y) -> gx g a' x y = - gx g a x y.
Proof. intros E. unfold gx. rewrite <- npgrad_neg. apply npgrad_ext. auto. Qed.
Lemma gy_neg g a a' x y : (forall x y, a' x y = - a x y) -> gy g a' x y = - gy g a x y.
Proof. intros E. unfold gy. rewrite <- npgrad_neg. apply npgrad_ext. auto. Qed.
Lemma sqr_opp x : (- x) ^ 2 = x ^ 2. Proof. ring. Qed.
Theorem C108_reversal : forall g run f, valid g (flip f) = valid g f /\ rate g (map flip run) (flip f) = rate g run f /\
  flux g (flip f) = option_map Ropp (flux g f) /\ sheet_width g (flip f) = sheet_width g f /\ purity g (flip f) = purity g f /\ projection g (flip f) = - projection g f.
Proof.
  intros g run f. assert (BL : bx_lo g (flip f) = - bx_lo g f) by (unfold bx_lo; rewrite lo_flip; reflexivity). assert (BU : bx_up g (flip f) = - bx_up g f) by (unfold bx_up; rewrite up_flip; reflexivity).
  assert (UD : up_dist g (flip f) = up_dist g f) by (unfold up_dist; now rewrite lo_flip, up_flip). assert (HW : half_width g (flip f) = half_width g f) by (unfold half_width; now rewrite UD).
  assert (SH : sheet g (flip f) = sheet g f) by (unfold sheet; now rewrite HW). assert (CE : central g (flip f) = central g f) by (unfold central, x_half; now rewrite UD).
  assert (JL : forall i, jline g (flip f) i = jline g f i) by (intros; unfold jline; cbn; apply Rabs_Ropp).
  assert (BZ : forall p, bz_at (flip f) p = - bz_at f p) by reflexivity.
  assert (UB : upstream_bx g (flip f) = upstream_bx g f) by (unfold upstream_bx; now rewrite BL, BU, !Rabs_Ropp).
  assert (VN : forall h, upstream_vn g (flip h) = upstream_vn g h) by (intros; unfold upstream_vn; rewrite lo_flip, up_flip; reflexivity).
  assert (V : valid g (flip f) = valid g f).
  { unfold valid. f_equal; [f_equal; [f_equal; [f_equal|]|]|].
    - unfold antiparallel. rewrite BL, BU. f_equal. ring.
    - unfold balance. now rewrite BL, BU, !Rabs_Ropp.
    - unfold null_ratio. rewrite UB. cbn [flip f_bx f_by]. now rewrite !sqr_opp.
    - unfold hessian. cbv zeta. rewrite (gx_neg g (gx g (az g f)) (gx g (az g (flip f)))) by (intros; apply gx_neg, az_flip). rewrite (gy_neg g (gy g (az g f)) (gy g (az g (flip f)))) by (intros; apply gy_neg, az_flip).
      rewrite (gy_neg g (gx g (az g f)) (gx g (az g (flip f)))) by (intros; apply gx_neg, az_flip). f_equal. ring.
    - unfold dominance. assert (PJ : peak_j g (flip f) = peak_j g f). { unfold peak_j. f_equal. apply map_ext. intros. cbn. apply Rabs_Ropp. } rewrite PJ, SH. now rewrite (map_ext _ _ JL). }
  split; [exact V|]. split.
  { unfold rate, rate_valid. rewrite V, UB, VN. assert (PV : peak_vn g (map flip run) = peak_vn g run) by (unfold peak_vn; rewrite map_map; f_equal; apply map_ext, VN). rewrite PV. reflexivity. }
  split. { unfold flux. rewrite V. destruct (valid g f); [|reflexivity]. cbn. f_equal. unfold raw_flux. rewrite lo_flip, up_flip, !az_flip. ring. }
  split. { unfold sheet_width. cbv zeta. rewrite SH, (map_ext _ _ JL). destruct Rlt_dec; [|reflexivity]. f_equal. f_equal. f_equal. f_equal. apply map_ext. intros. now rewrite JL. }
  assert (L1 : local_l1 g (flip f) = local_l1 g f) by (unfold local_l1; rewrite CE; f_equal; apply map_ext; intros; rewrite BZ; apply Rabs_Ropp).
  assert (SS : signed_sum g (flip f) = - signed_sum g f). { unfold signed_sum. rewrite CE. replace (- lsum (map (fun p => bz_at f p * sgn (r_x g (fst p) * r_y g (snd p))) (central g f))) with (-1 * lsum (map (fun p => bz_at f p * sgn (r_x g (fst p) * r_y g (snd p))) (central g f))) by ring. rewrite <- lsum_scal. apply lsum_ext. intros. rewrite BZ. ring. }
  split.
  - unfold purity. rewrite L1, SS, Rabs_Ropp. reflexivity.
  - unfold projection. rewrite L1, SS, CE. destruct Rlt_dec; unfold Rdiv; ring.
Qed.
Print Assumptions C108_reversal.

(** * Longer runs *)
(** Whether a frame is reconnection depends on that frame alone; a rate reported in a longer run is the rate of the shorter one. *)
Theorem C108_extension : forall g run more f r, In f run -> rate g (run ++ more) f = Some r -> rate g run f = Some r.
Proof.
  intros g run more f r Hf. unfold rate, rate_valid. cbv zeta.
  assert (P : peak_vn g run <= peak_vn g (run ++ more)). { unfold peak_vn. apply rmax0_le; [apply rmax0_ge0|]. intros a Ha. apply rmax0_in. rewrite map_app. apply in_or_app. now left. }
  destruct (valid g f); cbn [andb]; [|discriminate]. destruct (rle (1 / 10 * peak_vn g (run ++ more)) (upstream_vn g f)) eqn:E; cbn [andb]; [|discriminate].
  apply rle_iff in E. assert (E' : rle (1 / 10 * peak_vn g run) (upstream_vn g f) = true) by (apply rle_iff; lra). rewrite E'. auto.
Qed.
Print Assumptions C108_extension.

(** A concrete run: three by three cells one apart, an in-plane field (y, x), a current and an inflow of speed [v]. *)
Definition xg : rgrid := {| r_nx := 3; r_ny := 3; r_x := fun i => INR i - 1; r_y := fun i => INR i - 1 |}.
Definition xf (v : R) : rframe := {| f_bx := fun _ y => INR y - 1; f_by := fun x _ => INR x - 1; f_bz := fun x y => (INR x - 1) * (INR y - 1); f_ez := fun _ _ => 1;
  f_jz := fun _ _ => 1; f_vy := fun _ y => v * (1 - INR y) |}.
Lemma i0 : INR 0 = 0. Proof. reflexivity. Qed.
Lemma i1 : INR 1 = 1. Proof. reflexivity. Qed.
Lemma i2 : INR 2 = 2. Proof. cbn. ring. Qed.
Lemma xg_centre n : n = 3%nat -> centre n (fun i => INR i - 1) = 0.
Proof. intros ->. unfold centre. cbn [Nat.sub]. rewrite i0, i2. destruct Rle_dec; [|lra]. destruct Rle_dec; lra. Qed.
Lemma xg_cell n : n = 3%nat -> centre_cell n (fun i => INR i - 1) = 1%nat.
Proof.
  intros ->. unfold centre_cell. rewrite xg_centre by reflexivity. destruct (argmin_spec 3 (fun i => Rabs (INR i - 1 - 0)) ltac:(lia)) as (A & B & _). set (k := argmin 3 (fun i => Rabs (INR i - 1 - 0))) in *.
  specialize (B 1%nat ltac:(lia)). cbv beta in B. rewrite i1 in B. replace (1 - 1 - 0) with 0 in B by ring. rewrite Rabs_R0 in B.
  destruct k as [|[|[|]]]; try lia; [rewrite i0, Rabs_left in B by lra; lra|rewrite i2, Rabs_right in B by lra; lra].
Qed.
Lemma xg_ix : ix0 xg = 1%nat. Proof. now apply xg_cell. Qed.
Lemma xg_iy : iy0 xg = 1%nat. Proof. now apply xg_cell. Qed.
Lemma xg_lower : lower 3 (r_y xg) = [0%nat].
Proof. unfold lower. cbn [r_y xg]. rewrite xg_centre by reflexivity. unfold rlt. cbn [seq filter]. rewrite i0, i1, i2. destruct (Rlt_dec (0 - 1) 0); [|lra]. destruct (Rlt_dec (1 - 1) 0); [lra|]. destruct (Rlt_dec (2 - 1) 0); [lra|reflexivity]. Qed.
Lemma xg_upper : upper 3 (r_y xg) = [2%nat].
Proof. unfold upper. cbn [r_y xg]. rewrite xg_centre by reflexivity. unfold rlt. cbn [seq filter]. rewrite i0, i1, i2. destruct (Rlt_dec 0 (0 - 1)); [lra|]. destruct (Rlt_dec 0 (1 - 1)); [lra|]. destruct (Rlt_dec 0 (2 - 1)); [reflexivity|lra]. Qed.
Lemma xg_sides : both_sides xg = true.
Proof. unfold both_sides. change (r_ny xg) with 3%nat. rewrite xg_lower, xg_upper. reflexivity. Qed.
Lemma xg_step : r_dx xg = 1 /\ r_dy xg = 1.
Proof. assert (E : mean_step 3 (fun i => INR i - 1) = 1) by (unfold mean_step; cbn [Nat.sub rsum]; rewrite i0, i1, i2; field). split; exact E. Qed.
Lemma xg_lo v : lo xg (xf v) = 0%nat. Proof. unfold lo. change (r_ny xg) with 3%nat. now rewrite xg_lower. Qed.
Lemma xg_up v : up xg (xf v) = 2%nat. Proof. unfold up. change (r_ny xg) with 3%nat. now rewrite xg_upper. Qed.
(** The spectral derivative on three cells of unit size is kap times the central difference. *)
Definition kap : R := 4 * PI / 9 * sin (2 * PI / 3).
Lemma kap_pos : 0 < kap.
Proof. unfold kap. pose proof PI_RGT_0. assert (0 < sin (2 * PI / 3)) by (apply sin_gt_0; lra). apply Rmult_lt_0_compat; lra. Qed.
Lemma rmat3 g q : rmat Spectral 3 1 g q = 4 * PI / 9 * sin (2 * PI / 3 * (INR q - INR g)).
Proof.
  unfold rmat, dmat, specmat. cbn [csum]. rewrite kx_0. unfold cscal, cadd, cmul, c0, cis. cbn [fst snd].
  assert (K1 : kx 3 1 1 = 2 * PI / 3). { unfold kx. destruct (Nat.ltb_spec (2 * 1) 3); [|lia]. change (INR 1) with 1. replace (INR 3) with 3 by (cbn; ring). field. }
  assert (K2 : kx 3 1 2 = - (2 * PI / 3)). { unfold kx. destruct (Nat.ltb_spec (2 * 2) 3); [lia|]. replace (INR 2) with 2 by (cbn; ring). replace (INR 3) with 3 by (cbn; ring). field. }
  rewrite K1, K2. replace (INR 3) with 3 by (cbn; ring).
  assert (A1 : angle 3 1 g - angle 3 1 q = - (2 * PI / 3 * (INR q - INR g))) by (unfold angle; change (INR 1) with 1; replace (INR 3) with 3 by (cbn; ring); field).
  assert (A2 : sin (angle 3 2 g - angle 3 2 q) = sin (2 * PI / 3 * (INR q - INR g))).
  { replace (angle 3 2 g - angle 3 2 q) with (2 * PI / 3 * (INR q - INR g) + 2 * IZR (Z.of_nat g - Z.of_nat q) * PI).
    - set (z := (Z.of_nat g - Z.of_nat q)%Z). set (a := 2 * PI / 3 * (INR q - INR g)). destruct (Z_le_gt_dec 0 z).
      + rewrite <- (sin_period a (Z.to_nat z)). f_equal. rewrite (INR_IZR_INZ (Z.to_nat z)), Z2Nat.id by lia. reflexivity.
      + rewrite <- (sin_period (a + 2 * IZR z * PI) (Z.to_nat (- z))). f_equal. rewrite (INR_IZR_INZ (Z.to_nat (- z))), Z2Nat.id, opp_IZR by lia. ring.
    - unfold angle. replace (INR 2) with 2 by (cbn; ring). replace (INR 3) with 3 by (cbn; ring). rewrite minus_IZR, <- !INR_IZR_INZ. field. }
  rewrite A1, A2, sin_neg. field.
Qed.
Lemma sin3 : sin (2 * PI / 3 * 2) = - sin (2 * PI / 3).
Proof. replace (2 * PI / 3 * 2) with (- (2 * PI / 3) + 2 * PI) by field. replace (2 * PI) with (2 * INR 1 * PI) at 2 by (change (INR 1) with 1; ring). rewrite sin_period. apply sin_neg. Qed.
Lemma der3 a : rder Spectral 3 1 a 0 = kap * (a 1%nat - a 2%nat) /\ rder Spectral 3 1 a 1 = kap * (a 2%nat - a 0%nat) /\ rder Spectral 3 1 a 2 = kap * (a 0%nat - a 1%nat).
Proof.
  assert (O : ok_kind Spectral 3) by (split; auto; lia). rewrite !rder_mat by (auto; lia). cbn [rsum]. rewrite !rmat3, i0, i1, i2.
  replace (2 * PI / 3 * (0 - 0)) with 0 by ring. replace (2 * PI / 3 * (1 - 1)) with 0 by ring. replace (2 * PI / 3 * (2 - 2)) with 0 by ring. rewrite sin_0.
  replace (2 * PI / 3 * (1 - 0)) with (2 * PI / 3) by ring. replace (2 * PI / 3 * (2 - 1)) with (2 * PI / 3) by ring. replace (2 * PI / 3 * (2 - 0)) with (2 * PI / 3 * 2) by ring.
  replace (2 * PI / 3 * (0 - 1)) with (- (2 * PI / 3)) by ring. replace (2 * PI / 3 * (1 - 2)) with (- (2 * PI / 3)) by ring. replace (2 * PI / 3 * (0 - 2)) with (- (2 * PI / 3 * 2)) by ring. rewrite !sin_neg, sin3. unfold kap. repeat split; ring.
Qed.
Lemma xg_az v : forall x y, (x < 3)%nat -> (y < 3)%nat -> ddy (sgrid 3 3 1 1) (az xg (xf v)) x y = INR y - 1 /\ - ddx (sgrid 3 3 1 1) (az xg (xf v)) x y = INR x - 1.
Proof.
  intros x y Hx Hy. unfold az. destruct xg_step as [S1 S2]. rewrite S1, S2. cbn [r_nx r_ny xg xf f_bx f_by].
  assert (M : mean2 3 3 (fun _ y => INR y - 1) = 0 /\ mean2 3 3 (fun x _ => INR x - 1) = 0). { unfold mean2. cbn [rsum]. rewrite i0, i1, i2. split; unfold Rdiv; ring. } destruct M as [M1 M2].
  destruct (C107_odd_grid 3 3 1 1 (fun _ y => INR y - 1) (fun x _ => INR x - 1) eq_refl eq_refl ltac:(lra) ltac:(lra)) with (x := x) (y := y) as [E1 E2]; auto; [|rewrite E1, E2, M1, M2; split; ring].
  intros a b Ha Hb. unfold ddx, ddy. cbn [g_kx g_nx g_dx g_ky g_ny g_dy sgrid]. destruct (der3 (fun _ => INR b - 1)) as (D0 & D1 & D2), (der3 (fun _ => INR a - 1)) as (F0 & F1 & F2).
  destruct a as [|[|[|]]]; try lia; destruct b as [|[|[|]]]; try lia; rewrite ?D0, ?D1, ?D2, ?F0, ?F1, ?F2; ring.
Qed.
Lemma xg_hessian v : hessian xg (xf v) < 0.
Proof.
  unfold hessian. cbv zeta. rewrite xg_ix, xg_iy. unfold gx, gy. destruct xg_step as [S1 S2]. rewrite S1, S2. cbn [r_nx r_ny xg]. unfold npgrad. cbn [Nat.eqb Nat.sub Nat.add]. set (A := az xg (xf v)).
  pose proof kap_pos as K.
  assert (Y : forall x, (x < 3)%nat -> A x 1%nat = A x 2%nat - / kap /\ A x 0%nat = A x 2%nat).
  { intros x Hx. destruct (xg_az v x 0 Hx ltac:(lia)) as [E0 _], (xg_az v x 1 Hx ltac:(lia)) as [E1 _]. unfold ddy in E0, E1. cbn [g_ky g_ny g_dy sgrid] in E0, E1. destruct (der3 (fun y => az xg (xf v) x y)) as (D0 & D1 & D2). rewrite D0, i0 in E0. rewrite D1, i1 in E1. fold A in E0, E1.
    split; apply (Rmult_eq_reg_l kap); try lra. rewrite Rmult_minus_distr_l, Rinv_r by lra. lra. }
  assert (X : forall y, (y < 3)%nat -> A 1%nat y = A 2%nat y + / kap /\ A 0%nat y = A 2%nat y).
  { intros y Hy. destruct (xg_az v 0 y ltac:(lia) Hy) as [_ E0], (xg_az v 1 y ltac:(lia) Hy) as [_ E1]. unfold ddx in E0, E1. cbn [g_kx g_nx g_dx sgrid] in E0, E1. destruct (der3 (fun x => az xg (xf v) x y)) as (D0 & D1 & D2). rewrite D0, i0 in E0. rewrite D1, i1 in E1. fold A in E0, E1.
    split; apply (Rmult_eq_reg_l kap); try lra. rewrite Rmult_plus_distr_l, Rinv_r by lra. lra. }
  destruct (Y 0%nat), (Y 1%nat), (Y 2%nat), (X 0%nat), (X 1%nat), (X 2%nat); try lia. pose proof (Rinv_0_lt_compat kap K) as IK.
  assert (W1 : A 1%nat 2%nat - A 1%nat 1%nat = / kap) by lra. assert (W2 : A 1%nat 1%nat - A 1%nat 0%nat = - / kap) by lra.
  assert (W3 : A 2%nat 1%nat - A 1%nat 1%nat = - / kap) by lra. assert (W4 : A 1%nat 1%nat - A 0%nat 1%nat = / kap) by lra.
  assert (W5 : A 2%nat 2%nat - A 0%nat 2%nat = 0) by lra. assert (W6 : A 2%nat 0%nat - A 0%nat 0%nat = 0) by lra.
  rewrite ?W1, ?W2, ?W3, ?W4, ?W5, ?W6. assert (Q : 0 < / kap * / kap) by now apply Rmult_lt_0_compat. unfold Rdiv. rewrite Rinv_1. replace (/ (2 * 1)) with (/ 2) by (f_equal; ring). nra.
Qed.
Lemma xg_bx v : bx_lo xg (xf v) = -1 /\ bx_up xg (xf v) = 1.
Proof. unfold bx_lo, bx_up. rewrite xg_lo, xg_up, xg_ix. cbn [xf f_bx]. rewrite i0, i2. split; ring. Qed.
Lemma xg_reconnects v : reconnects xg (xf v).
Proof.
  pose proof (lo_spec xg (xf v) xg_sides) as SL. pose proof (up_spec xg (xf v) xg_sides) as SU. destruct (xg_bx v) as [BL BU]. exists (lo xg (xf v)), (up xg (xf v)). cbv zeta. fold (bx_lo xg (xf v)) (bx_up xg (xf v)). rewrite BL, BU.
  rewrite (Rabs_left (-1)), Rabs_R1 by lra. split; [exact SL|]. split; [exact SU|]. split; [lra|]. split; [lra|]. split; [lra|]. split.
  { unfold tiny. assert (1 < 10 ^ 30) by (apply Rlt_pow_R1; [lra|lia]). assert (/ 10 ^ 30 < / 1) by (apply Rinv_lt_contravar; lra). rewrite Rinv_1 in H0. lra. }
  split. { rewrite xg_ix, xg_iy. cbn [xf f_bx f_by]. rewrite i1. lra. }
  split. { pose proof (xg_hessian v) as H. unfold hessian in H. cbv zeta in H. lra. }
  assert (J : forall x y, f_jz (xf v) x y = 1) by reflexivity. split.
  { exists 0%nat, 0%nat. rewrite J, Rabs_R1. split; [cbn; lia|]. split; [cbn; lia|]. unfold tiny. assert (1 < 10 ^ 30) by (apply Rlt_pow_R1; [lra|lia]). assert (/ 10 ^ 30 < / 1) by (apply Rinv_lt_contravar; lra). rewrite Rinv_1 in H0. lra. }
  exists 1%nat. split; [cbn; lia|]. split; [|intros; rewrite !J, Rabs_R1; lra]. rewrite xg_iy. replace (r_y xg 1 - r_y xg 1) with 0 by ring. rewrite Rabs_R0. destruct xg_step as [_ S2]. rewrite S2. eapply Rle_trans; [|apply Rmax_l]. lra.
Qed.
Lemma xg_vn v : 0 <= v -> upstream_vn xg (xf v) = v.
Proof. intros Hv. unfold upstream_vn. rewrite xg_lo, xg_up, xg_ix. cbn [xf f_vy]. rewrite i0, i2. rewrite !Rmax_left; lra. Qed.
Lemma tiny_lt1 : tiny < 1.
Proof. unfold tiny. assert (1 < 10 ^ 30) by (apply Rlt_pow_R1; [lra|lia]). assert (/ 10 ^ 30 < / 1) by (apply Rinv_lt_contravar; lra). rewrite Rinv_1 in H0. lra. Qed.
Lemma xg_ub v : upstream_bx xg (xf v) = 1.
Proof. unfold upstream_bx. destruct (xg_bx v) as [-> ->]. rewrite Rabs_R1, Rabs_left by lra. lra. Qed.
(** Non-vacuity of the gate and of the reported rate: this frame, alone in its run, is reconnection with rate 1. *)
Example C108_nonvacuous : both_sides xg = true /\ reconnects xg (xf 1) /\ rate xg [xf 1] (xf 1) = Some 1.
Proof.
  split; [exact xg_sides|]. split; [apply xg_reconnects|]. apply (C108_rate xg [xf 1] (xf 1)); [cbn; lia|exact xg_sides|now left|]. split; [apply xg_reconnects|]. rewrite xg_vn, xg_ub by lra. split; [intros h [<-|[]]; rewrite xg_vn; lra|]. split; [pose proof tiny_lt1; lra|]. unfold xpoint_ez. cbn. ring.
Qed.
(** Continuing a run takes back rates already reported: the normalisation is the largest inflow of the whole run. *)
Theorem C108_extension_refuted : ~ (forall g run more f r, both_sides g = true -> In f run -> rate g run f = Some r -> rate g (run ++ more) f = Some r).
Proof.
  intros H. destruct C108_nonvacuous as (_ & _ & E). pose proof (H xg [xf 1] [xf 20] (xf 1) 1 xg_sides (or_introl eq_refl) E) as Q.
  apply (C108_rate xg ([xf 1] ++ [xf 20]) (xf 1)) in Q; [|cbn; lia|exact xg_sides|now left]. destruct Q as (_ & Q & _). specialize (Q (xf 20) (or_intror (or_introl eq_refl))). rewrite !xg_vn in Q by lra. lra.
Qed.
Print Assumptions C108_extension_refuted.
