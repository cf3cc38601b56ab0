From Verif Require Import RSum ExpBounds DriftDiff DriftDiffProofs DriftDiffProofs2.

(** Every scheme is an [assemble]. *)
Lemma operator_assemble s nv dv C D nu dt : exists alpha beta, forall f fn,
  implicit_step nv (get_operator s nv dv C D nu dt) f fn <-> implicit_step nv (assemble nv dv dt nu alpha beta) f fn.
Proof.
  destruct s as [|g|]; cbn [get_operator].
  - exists (cc_alpha dv C D), (cc_beta dv C D). intros. now rewrite chang_cooper_eq.
  - exists (fun i => - C i * lm_delta g i + safe_D D i / dv), (fun i => - C i * (1 - lm_delta g i) - safe_D D i / dv). intros. now rewrite log_mean_flux_eq.
  - exists (fun j => - C j / 2 + D j / dv), (fun j => - C j / 2 - D j / dv). intros. apply central_step.
Qed.

Lemma cc_k nv dv nu dt : 0 < dv -> 0 <= dt -> (forall i, (i < nv)%nat -> 0 <= nu i) -> forall i, (i < nv)%nat -> 0 <= dt * nu i / dv.
Proof. intros H1 H2 H3 i Hi. apply Rmult_le_pos; [apply Rmult_le_pos; auto|apply Rlt_le, Rinv_0_lt_compat; exact H1]. Qed.

Lemma cc_fixed_iff nv dv dt nu C D f : 0 < dv -> 0 <= dt -> (forall i, (i < nv)%nat -> 0 <= nu i) ->
  (forall j, (S j < nv)%nat -> flux nv (cc_alpha dv C D) (cc_beta dv C D) f j = 0) ->
  forall fn, implicit_step nv (chang_cooper nv dv C D nu dt) f fn <-> (forall i, (i < nv)%nat -> fn i = f i).
Proof.
  intros Hdv Hdt Hnu HF fn. rewrite chang_cooper_eq, step_solves. pose proof (zero_flux_fixed nv dv dt nu _ _ f HF) as Hfix. split.
  - intros H i Hi. apply (solution_unique nv dv dt nu (cc_alpha dv C D) (cc_beta dv C D)) with (b := f); try assumption.
    + now apply cc_k. + intros; now apply cc_alpha_nonneg. + intros; now apply cc_beta_nonpos.
  - intros H i Hi. rewrite (mv_ext nv _ fn f i Hi H). now apply Hfix.
Qed.

Lemma beta_peclet v vbar beta D dv j : v (S j) = v j + dv -> beta_drift v vbar beta D j * dv = D * (beta * (v (S j) - vbar) ^ 2 - beta * (v j - vbar) ^ 2).
Proof. intros H. unfold beta_drift, v_edge. rewrite H. field. Qed.
Lemma fast_vfp_peclet v beta dv j : v (S j) = v j + dv -> beta <> 0 -> v_edge v j <> 0 -> fast_vfp_C j * dv = fast_vfp_D v beta j * (beta * v (S j) ^ 2 - beta * v j ^ 2).
Proof. intros H Hb Hv. unfold fast_vfp_C, fast_vfp_D. replace (beta * v (S j) ^ 2 - beta * v j ^ 2) with (2 * beta * v_edge v j * dv) by (unfold v_edge; rewrite H; field). field. now split. Qed.

(** ** Log-mean edges *)
Lemma lm_edge f j : log_mean_floor <= f j -> log_mean_floor <= f (S j) -> f (S j) = f j \/ 1 / 100000000 <= Rabs (ln (f (S j) / f j)) ->
  lm_delta f j * f j + (1 - lm_delta f j) * f (S j) = log_mean_interp f j.
Proof.
  intros H1 H2 Hl. assert (F : 0 < log_mean_floor) by (unfold log_mean_floor; apply Rdiv_lt_0_compat; [lra|apply pow_lt; lra]).
  assert (G : interp_floor <= log_mean_floor).
  { unfold interp_floor, log_mean_floor. unfold Rdiv. rewrite !Rmult_1_l. apply Rinv_le_contravar; [apply pow_lt; lra|]. apply Rle_pow; [lra|lia]. }
  unfold lm_delta, log_mean_interp. rewrite !(Rmax_left (f j)), !(Rmax_left (f (S j))) by lra.
  destruct (Rlt_dec (f j) interp_floor) as [X|_]; [lra|]. destruct (Rlt_dec (f (S j)) interp_floor) as [X|_]; [lra|]. rewrite !Bool.orb_false_r.
  destruct Hl as [E|E].
  - rewrite E. replace (f j / f j) with 1 by (field; lra). rewrite ln_1. assert (S0 : small 0 = true) by (apply small_true; rewrite Rabs_R0; lra). rewrite S0. lra.
  - rewrite (proj2 (small_false _) E). apply log_mean_edge; lra.
Qed.

(** The log-mean flux of the frozen distribution. *)
Lemma lm_flux nv dv C D f j : 0 < dv -> (S j < nv)%nat -> 1 / 10 ^ 30 <= D j -> log_mean_floor <= f j -> log_mean_floor <= f (S j) ->
  f (S j) = f j \/ 1 / 100000000 <= Rabs (ln (f (S j) / f j)) ->
  flux nv (fun i => - C i * lm_delta f i + safe_D D i / dv) (fun i => - C i * (1 - lm_delta f i) - safe_D D i / dv) f j = C j * log_mean_interp f j + D j * (f (S j) - f j) / dv.
Proof.
  intros Hdv Hj HD H1 H2 Hl. unfold flux. rewrite (proj2 (Nat.ltb_lt _ _) Hj). rewrite (safe_D_id D j HD). rewrite <- (lm_edge f j H1 H2 Hl). field. lra.
Qed.

(** Kernels are linear. *)
Definition linear (K : kernel) (nv : nat) : Prop := forall c h i, K (fun j => c * h j) i = c * K h i.
Definition local (K : kernel) (nv : nat) : Prop := forall h g i, (i < nv - 1)%nat -> (forall j, (j < nv - 1)%nat -> h j = g j) -> K h i = K g i.
Lemma asymptotic_linear nv v dv : linear (asymptotic_local nv v dv) nv.
Proof.
  intros c h i. unfold asymptotic_local. rewrite (rsum_ext (nv - 1) _ (fun j => c * (sqrt_eps_edge v j * h j * d_eps_edge v dv j))) by (intros; ring). rewrite rsum_scal. ring.
Qed.
Lemma asymptotic_ext nv v dv : local (asymptotic_local nv v dv) nv.
Proof. intros h g i _ H. unfold asymptotic_local. f_equal. f_equal. apply rsum_ext. intros j Hj. now rewrite H. Qed.
Lemma coulombian_linear nv v dv : linear (coulombian nv v dv) nv.
Proof.
  intros c h i. unfold coulombian. rewrite (rsum_ext i _ (fun j => c * (sqrt_eps_edge v j ^ 3 * h j * d_eps_edge v dv j))) by (intros; ring).
  rewrite (rsum_ext (nv - 1 - i) _ (fun t => c * (h (i + t)%nat * d_eps_edge v dv (i + t)%nat))) by (intros; ring). rewrite !rsum_scal. field.
Qed.
Lemma coulombian_ext nv v dv : local (coulombian nv v dv) nv.
Proof.
  intros h g i Hi H. unfold coulombian. rewrite (rsum_ext i _ (fun j => sqrt_eps_edge v j ^ 3 * g j * d_eps_edge v dv j)) by (intros j Hj; rewrite H by lia; reflexivity).
  rewrite (rsum_ext (nv - 1 - i) _ (fun t => g (i + t)%nat * d_eps_edge v dv (i + t)%nat)) by (intros t Ht; rewrite H by lia; reflexivity). reflexivity.
Qed.

Lemma kernel_energy nv v dv dt nuee K f : 0 < dv -> symmetric nv v dv K ->
  (forall i, (i < nv)%nat -> 0 < v i) -> (forall i, (S i < nv)%nat -> v (S i) = v i + dv) ->
  (forall i, (i < nv)%nat -> log_mean_floor <= f i) ->
  (forall j, (S j < nv)%nat -> f (S j) = f j \/ 1 / 100000000 <= Rabs (ln (f (S j) / f j))) ->
  (forall j, (S j < nv)%nat -> 1 / 10 ^ 30 <= kernel_D K v f j) ->
  rsum nv (fun i => v i ^ 4 * (f i - mv nv (log_mean_flux nv dv (kernel_C K v dv f) (kernel_D K v f) (spherical_nu nuee v) dt f) f i)) = 0.
Proof.
  intros Hdv HK Hv Hg Hf Hl HD. rewrite log_mean_flux_eq.
  set (al := fun i => - kernel_C K v dv f i * lm_delta f i + safe_D (kernel_D K v f) i / dv). set (be := fun i => - kernel_C K v dv f i * (1 - lm_delta f i) - safe_D (kernel_D K v f) i / dv).
  rewrite (rsum_ext nv _ (fun i => dt * nuee / dv * (v i ^ 2 * (flux nv al be f i - flux_left nv al be f i)))).
  2:{ intros i Hi. rewrite assemble_mv by exact Hi. unfold spherical_nu. specialize (Hv i Hi). field. lra. }
  rewrite rsum_scal, (flux_parts nv al be f (fun i => v i ^ 2)).
  destruct nv as [|n]; [cbn; ring|]. cbn [rsum]. assert (E0 : flux (S n) al be f n = 0) by (unfold flux; now rewrite (proj2 (Nat.ltb_ge (S n) (S n))) by lia). rewrite E0.
  assert (E1 : rsum n (fun i => flux (S n) al be f i * (v i ^ 2 - v (S i) ^ 2)) = 0); [|rewrite E1; ring].
  assert (HK' := HK (log_mean_interp f) (df_deps v dv f)). replace (S n - 1)%nat with n in HK' by lia.
  rewrite (rsum_ext n _ (fun i => K (df_deps v dv f) i * log_mean_interp f i * d_eps_edge v dv i - K (log_mean_interp f) i * df_deps v dv f i * d_eps_edge v dv i)).
  - rewrite rsum_minus, HK'. ring.
  - intros j Hj. unfold al, be. rewrite (lm_flux (S n)) by (auto; try (apply HD; lia); try (apply Hf; lia); try (apply Hl; lia); lia).
    assert (Hs : v (S j) = v j + dv) by (apply Hg; lia). rewrite <- (Ropp_involutive (v j ^ 2 - v (S j) ^ 2)). replace (- (v j ^ 2 - v (S j) ^ 2)) with (d_eps_edge v dv j) by (rewrite (d_eps_uniform v dv j Hs); ring).
    unfold kernel_C, kernel_D, df_deps. assert (0 < v j) by (apply Hv; lia). rewrite !d_eps_2v. assert (0 < v_edge v j) by (unfold v_edge; rewrite Hs; lra). field. lra.
Qed.

(** ** Maxwellians and kernels *)
Lemma maxwellian_ratio (n beta x y : R) : 0 < n -> ln (n * exp (- beta * y ^ 2) / (n * exp (- beta * x ^ 2))) = - beta * (y ^ 2 - x ^ 2).
Proof.
  intros Hn. pose proof (exp_pos (- beta * x ^ 2)). pose proof (exp_pos (- beta * y ^ 2)).
  replace (n * exp (- beta * y ^ 2) / (n * exp (- beta * x ^ 2))) with (exp (- beta * y ^ 2) * / exp (- beta * x ^ 2)) by (field; lra).
  rewrite <- exp_Ropp, <- exp_plus, ln_exp. ring.
Qed.
Lemma maxwellian_log_mean v dv n beta j : let f := fun i => n * exp (- beta * v i ^ 2) in
  0 < n -> 0 < dv -> 0 < v j -> v (S j) = v j + dv -> interp_floor <= f j -> interp_floor <= f (S j) ->
  1 / 100000000 <= beta * (v (S j) ^ 2 - v j ^ 2) ->
  df_deps v dv f j = - beta * log_mean_interp f j.
Proof.
  intros f Hn Hdv Hv Hs H1 H2 Hb. assert (F : 0 < interp_floor) by (unfold interp_floor; apply Rdiv_lt_0_compat; [lra|apply pow_lt; lra]).
  unfold log_mean_interp. rewrite (Rmax_left (f j)), (Rmax_left (f (S j))) by lra.
  destruct (Rlt_dec (f j) interp_floor) as [X|_]; [lra|]. destruct (Rlt_dec (f (S j)) interp_floor) as [X|_]; [lra|]. rewrite !Bool.orb_false_r.
  assert (L : ln (f (S j) / f j) = - beta * (v (S j) ^ 2 - v j ^ 2)) by (unfold f; now apply maxwellian_ratio). rewrite L.
  assert (Sm : small (- beta * (v (S j) ^ 2 - v j ^ 2)) = false). { apply small_false. replace (- beta * (v (S j) ^ 2 - v j ^ 2)) with (- (beta * (v (S j) ^ 2 - v j ^ 2))) by ring. rewrite Rabs_Ropp, Rabs_right; lra. }
  rewrite Sm. unfold df_deps. rewrite (d_eps_uniform v dv j Hs). assert (v (S j) ^ 2 - v j ^ 2 <> 0) by (intros Z; rewrite Z in Hb; lra).
  assert (beta <> 0) by (intros Z; rewrite Z in Hb; lra). field. split; assumption.
Qed.

Section KernelMaxwellian.
Variables (nv : nat) (v : nat -> R) (dv n beta : R) (K : kernel).
Let f := fun i => n * exp (- beta * v i ^ 2).
Hypothesis Hn : 0 < n.
Hypothesis Hdv : 0 < dv.
Hypothesis Hlin : linear K nv.
Hypothesis Hloc : local K nv.
Hypothesis Hv : forall i, (i < nv)%nat -> 0 < v i.
Hypothesis Hg : forall i, (S i < nv)%nat -> v (S i) = v i + dv.
Hypothesis Hf : forall i, (i < nv)%nat -> log_mean_floor <= f i.
Hypothesis Hb : forall i, (S i < nv)%nat -> 1 / 100000000 <= beta * (v (S i) ^ 2 - v i ^ 2).
Hypothesis HD : forall i, (S i < nv)%nat -> 1 / 10 ^ 30 <= kernel_D K v f i.

Lemma floors : interp_floor <= log_mean_floor.
Proof. unfold interp_floor, log_mean_floor, Rdiv. rewrite !Rmult_1_l. apply Rinv_le_contravar; [apply pow_lt; lra|]. apply Rle_pow; [lra|lia]. Qed.
Lemma kernel_C_max j : (S j < nv)%nat -> kernel_C K v dv f j = beta * K (log_mean_interp f) j.
Proof.
  intros Hj. unfold kernel_C. rewrite (Hloc (df_deps v dv f) (fun i => - beta * log_mean_interp f i) j); [|lia|].
  2:{ intros i Hi. pose proof floors. apply maxwellian_log_mean; [exact Hn|exact Hdv|apply Hv; lia|apply Hg; lia|pose proof (Hf i ltac:(lia)); fold (f i); lra|pose proof (Hf (S i) ltac:(lia)); fold (f (S i)); lra|apply Hb; lia]. }
  rewrite (Hlin (- beta)). ring.
Qed.
Lemma kernel_cc_flux j : (S j < nv)%nat -> flux nv (cc_alpha dv (kernel_C K v dv f) (kernel_D K v f)) (cc_beta dv (kernel_C K v dv f) (kernel_D K v f)) f j = 0.
Proof.
  intros Hj. transitivity (flux nv (cc_alpha dv (kernel_C K v dv f) (kernel_D K v f)) (cc_beta dv (kernel_C K v dv f) (kernel_D K v f)) (fun i => n * exp (- (beta * v i ^ 2))) j).
  { unfold flux, f. now rewrite !Ropp_mult_distr_l. }
  apply flux_equilibrium; try assumption; [now apply HD| |right; rewrite Rabs_right; [|]; pose proof (Hb j Hj); lra].
  rewrite (kernel_C_max j Hj). unfold kernel_D. assert (0 < v j) by (apply Hv; lia). specialize (Hg j Hj). assert (0 < v_edge v j) by (unfold v_edge; rewrite Hg; lra).
  replace (beta * v (S j) ^ 2 - beta * v j ^ 2) with (beta * (2 * v_edge v j * dv)) by (unfold v_edge; rewrite Hg; field). field. lra.
Qed.
Lemma kernel_lm_flux j : (S j < nv)%nat ->
  flux nv (fun i => - kernel_C K v dv f i * lm_delta f i + safe_D (kernel_D K v f) i / dv) (fun i => - kernel_C K v dv f i * (1 - lm_delta f i) - safe_D (kernel_D K v f) i / dv) f j = 0.
Proof.
  intros Hj. pose proof (Hb j Hj) as B. rewrite lm_flux; try assumption; [|now apply HD|apply Hf; lia|apply Hf; lia|].
  2:{ right. unfold f. rewrite maxwellian_ratio by exact Hn. replace (- beta * (v (S j) ^ 2 - v j ^ 2)) with (- (beta * (v (S j) ^ 2 - v j ^ 2))) by ring. rewrite Rabs_Ropp, Rabs_right; lra. }
  rewrite (kernel_C_max j Hj). pose proof floors as FF.
  assert (M : df_deps v dv f j = - beta * log_mean_interp f j). { apply maxwellian_log_mean; try assumption; [apply Hv; lia|now apply Hg|pose proof (Hf j ltac:(lia)); fold (f j); lra|pose proof (Hf (S j) Hj); fold (f (S j)); lra]. }
  assert (0 < v j) by (apply Hv; lia). specialize (Hg j Hj). assert (0 < v_edge v j) by (unfold v_edge; rewrite Hg; lra).
  replace (kernel_D K v f j * (f (S j) - f j) / dv) with (K (log_mean_interp f) j * df_deps v dv f j).
  - rewrite M. ring.
  - unfold kernel_D, df_deps. rewrite d_eps_2v. field. lra.
Qed.
End KernelMaxwellian.

(** ** Moments of the central Dougherty step *)
(** The central flux. *)
Lemma central_flux_eq nv dv C D f j : 0 < dv -> flux nv (fun j => - C j / 2 + D j / dv) (fun j => - C j / 2 - D j / dv) f j =
  if Nat.ltb (S j) nv then C j * (f j + f (S j)) / 2 + D j * (f (S j) - f j) / dv else 0.
Proof. intros H. unfold flux. destruct (Nat.ltb (S j) nv); [field; lra|reflexivity]. Qed.
(** Moment of a conservative step. *)
Lemma step_moment nv dv dt nu alpha beta f fn s : implicit_step nv (assemble nv dv dt (fun _ => nu) alpha beta) f fn ->
  rsum nv (fun i => s i * fn i) - rsum nv (fun i => s i * f i) = - (dt * nu / dv) * rsum (nv - 1) (fun i => flux nv alpha beta fn i * (s (S i) - s i)).
Proof.
  intros H. rewrite step_solves in H. rewrite <- rsum_minus. rewrite (rsum_ext nv _ (fun i => dt * nu / dv * (s i * (flux nv alpha beta fn i - flux_left nv alpha beta fn i)))).
  2:{ intros i Hi. rewrite <- (H i Hi), assemble_mv by exact Hi. unfold Rdiv. ring. }
  rewrite rsum_scal, flux_parts. destruct nv as [|n]; [cbn; ring|]. cbn [rsum]. replace (S n - 1)%nat with n by lia.
  assert (E0 : flux (S n) alpha beta fn n = 0) by (unfold flux; now rewrite (proj2 (Nat.ltb_ge (S n) (S n))) by lia). rewrite E0.
  rewrite (rsum_ext n (fun i => flux (S n) alpha beta fn i * (s i - s (S i))) (fun i => -1 * (flux (S n) alpha beta fn i * (s (S i) - s i)))) by (intros; ring). rewrite rsum_scal. unfold Rdiv. ring.
Qed.

Lemma edge_average_sum m (x : nat -> R) : rsum m (fun j => (x j + x (S j)) / 2) = rsum (S m) x - x 0%nat / 2 - x m / 2.
Proof. induction m as [|m IH]; cbn; [field|]. rewrite IH. cbn. field. Qed.
(** edge velocity times edge average. *)
Lemma edge_product_sum m v dv (f : nat -> R) : (forall i, (i < m)%nat -> v (S i) = v i + dv) ->
  rsum m (fun j => v_edge v j * ((f j + f (S j)) / 2)) = rsum (S m) (fun i => f i * v i) - (v 0%nat - dv / 2) * f 0%nat / 2 - (v m + dv / 2) * f m / 2.
Proof.
  induction m as [|m IH]; intros H; [cbn; field|]. cbn [rsum]. rewrite IH by (intros; apply H; lia). cbn [rsum]. unfold v_edge. rewrite (H m) by lia. field.
Qed.
Lemma edge_square_sum m v dv (f : nat -> R) : (forall i, (i < m)%nat -> v (S i) = v i + dv) ->
  rsum m (fun j => v_edge v j ^ 2 * ((f j + f (S j)) / 2)) = rsum (S m) (fun i => f i * v i ^ 2) + dv ^ 2 / 4 * rsum (S m) f - (v 0%nat - dv / 2) ^ 2 * f 0%nat / 2 - (v m + dv / 2) ^ 2 * f m / 2.
Proof.
  induction m as [|m IH]; intros H; [cbn; field|]. cbn [rsum]. rewrite IH by (intros; apply H; lia). cbn [rsum]. unfold v_edge. rewrite (H m) by lia. field.
Qed.
Lemma edge_diff_sum m v dv (f : nat -> R) : (forall i, (i < m)%nat -> v (S i) = v i + dv) ->
  rsum m (fun j => v_edge v j * (f (S j) - f j)) = - dv * rsum (S m) f + (v m + dv / 2) * f m - (v 0%nat - dv / 2) * f 0%nat.
Proof.
  induction m as [|m IH]; intros H; [cbn; field|]. cbn [rsum]. rewrite IH by (intros; apply H; lia). cbn [rsum]. unfold v_edge. rewrite (H m) by lia. field.
Qed.
