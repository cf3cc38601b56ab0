From Verif Require Import RSum ExpBounds DriftDiff DriftDiffProofs.

Lemma safe_D_pos D i : 0 < safe_D D i.
Proof. unfold safe_D. eapply Rlt_le_trans; [|apply Rmax_r]. apply Rdiv_lt_0_compat; [lra|]. apply pow_lt. lra. Qed.
Lemma safe_D_id D i : 1 / 10 ^ 30 <= D i -> safe_D D i = D i.
Proof. intros H. unfold safe_D. now apply Rmax_left. Qed.

Definition cc_w (dv : R) (C D : nat -> R) (i : nat) : R := C i * dv / safe_D D i.
Definition cc_alpha (dv : R) (C D : nat -> R) (i : nat) : R := - C i * chang_cooper_delta (cc_w dv C D i) + safe_D D i / dv.
Definition cc_beta (dv : R) (C D : nat -> R) (i : nat) : R := - C i * (1 - chang_cooper_delta (cc_w dv C D i)) - safe_D D i / dv.
Lemma chang_cooper_eq nv dv C D nu dt : chang_cooper nv dv C D nu dt = assemble nv dv dt nu (cc_alpha dv C D) (cc_beta dv C D).
Proof. reflexivity. Qed.
Lemma cc_alpha_eq dv C D i : 0 < dv -> cc_alpha dv C D i = safe_D D i / dv * (1 - cc_w dv C D i * chang_cooper_delta (cc_w dv C D i)).
Proof. intros H. unfold cc_alpha. replace (C i) with (cc_w dv C D i * safe_D D i / dv) at 1. - field. lra. - unfold cc_w. pose proof (safe_D_pos D i). field. split; lra. Qed.
Lemma cc_beta_eq dv C D i : 0 < dv -> cc_beta dv C D i = - (safe_D D i / dv * (1 + cc_w dv C D i * (1 - chang_cooper_delta (cc_w dv C D i)))).
Proof. intros H. unfold cc_beta. replace (C i) with (cc_w dv C D i * safe_D D i / dv) at 1. - field. lra. - unfold cc_w. pose proof (safe_D_pos D i). field. split; lra. Qed.
Lemma cc_alpha_nonneg dv C D i : 0 < dv -> 0 <= cc_alpha dv C D i.
Proof. intros H. rewrite cc_alpha_eq by exact H. apply Rlt_le, Rmult_lt_0_compat; [apply Rdiv_lt_0_compat; [apply safe_D_pos|exact H]|apply left_pos]. Qed.
Lemma cc_beta_nonpos dv C D i : 0 < dv -> cc_beta dv C D i <= 0.
Proof.
  intros H. rewrite cc_beta_eq by exact H. assert (0 < safe_D D i / dv * (1 + cc_w dv C D i * (1 - chang_cooper_delta (cc_w dv C D i)))); [|lra].
  apply Rmult_lt_0_compat; [apply Rdiv_lt_0_compat; [apply safe_D_pos|exact H]|apply right_pos].
Qed.

Lemma central_step nv dv C D nu dt f fn : implicit_step nv (central nv dv C D nu dt) f fn <->
  implicit_step nv (assemble nv dv dt nu (fun j => - C j / 2 + D j / dv) (fun j => - C j / 2 - D j / dv)) f fn.
Proof. rewrite !step_solves. split; intros H i Hi; specialize (H i Hi); rewrite <- H; [symmetry|]; apply central_mv. Qed.

(** ** Equilibria *)
(** Flux of n exp(-phi) when the Peclet number of the edge is phi(j+1) - phi(j). *)
Lemma equilibrium_flux w (n p : R) : n * (- (1 - w * delta_full w)) * exp (- p) + n * (1 + w * (1 - delta_full w)) * exp (- (p + w)) = 0 \/ w = 0.
Proof.
  destruct (Req_dec w 0) as [Hw|Hw]; [now right|left]. rewrite full_left, full_right by exact Hw. rewrite Ropp_plus_distr, exp_plus, (exp_Ropp w).
  pose proof (expm1_nonzero w Hw). pose proof (exp_pos w). field. split; [lra|assumption].
Qed.
Lemma cc_equilibrium_flux w (n p : R) : w = 0 \/ 1 / 100000000 <= Rabs w ->
  - (1 - w * chang_cooper_delta w) * (n * exp (- p)) + (1 + w * (1 - chang_cooper_delta w)) * (n * exp (- (p + w))) = 0.
Proof.
  intros [->|Hw]; [rewrite Rplus_0_r; ring|]. assert (E : small w = false) by now apply small_false. rewrite (cc_full w E).
  destruct (equilibrium_flux w n p) as [H|H]; [lra|]. apply small_nonzero in E. contradiction.
Qed.
Lemma flux_equilibrium nv dv C D n phi j : 0 < dv -> (S j < nv)%nat -> 1 / 10 ^ 30 <= D j -> C j * dv = D j * (phi (S j) - phi j) ->
  phi (S j) = phi j \/ 1 / 100000000 <= Rabs (phi (S j) - phi j) ->
  flux nv (cc_alpha dv C D) (cc_beta dv C D) (fun i => n * exp (- phi i)) j = 0.
Proof.
  intros Hdv Hj HD HC Hw. unfold flux. rewrite (proj2 (Nat.ltb_lt _ _) Hj). rewrite cc_alpha_eq, cc_beta_eq by exact Hdv. pose proof (safe_D_pos D j) as Hp.
  assert (E : cc_w dv C D j = phi (S j) - phi j). { unfold cc_w. rewrite HC, (safe_D_id D j HD). rewrite (safe_D_id D j HD) in Hp. field. lra. }
  rewrite E. set (w := phi (S j) - phi j) in *. assert (Hw' : w = 0 \/ 1 / 100000000 <= Rabs w) by (destruct Hw; [left; unfold w; lra|now right]).
  pose proof (cc_equilibrium_flux w n (phi j) Hw') as K. replace (phi (S j)) with (phi j + w) by (unfold w; ring).
  transitivity (safe_D D j / dv * (- (1 - w * chang_cooper_delta w) * (n * exp (- phi j)) + (1 + w * (1 - chang_cooper_delta w)) * (n * exp (- (phi j + w))))); [ring|]. rewrite K. ring.
Qed.
Lemma zero_flux_fixed nv dv dt nu alpha beta f : (forall j, (S j < nv)%nat -> flux nv alpha beta f j = 0) -> forall i, (i < nv)%nat -> mv nv (assemble nv dv dt nu alpha beta) f i = f i.
Proof.
  intros H i Hi. rewrite assemble_mv by exact Hi.
  assert (K : forall j, flux nv alpha beta f j = 0). { intros j. destruct (Nat.ltb (S j) nv) eqn:E; [apply H; now apply Nat.ltb_lt|unfold flux; now rewrite E]. }
  rewrite K. unfold flux_left. destruct i; rewrite ?K; ring.
Qed.

(** Series branch: the flux of the equilibrium is tiny. *)
Lemma flux_series nv dv C D n phi j : 0 < dv -> (S j < nv)%nat -> 1 / 10 ^ 30 <= D j -> C j * dv = D j * (phi (S j) - phi j) ->
  Rabs (flux nv (cc_alpha dv C D) (cc_beta dv C D) (fun i => n * exp (- phi i)) j) <= D j * Rabs (n * exp (- phi (S j)) - n * exp (- phi j)) * (1 / 10 ^ 24) / dv.
Proof.
  intros Hdv Hj HD HC. pose proof (safe_D_pos D j) as Hp. rewrite (safe_D_id D j HD) in Hp.
  set (A := Rabs (n * exp (- phi (S j)) - n * exp (- phi j))). assert (HA : 0 <= A) by apply Rabs_pos.
  assert (Hrhs : 0 <= D j * A * (1 / 10 ^ 24) / dv).
  { apply Rmult_le_pos; [|apply Rlt_le, Rinv_0_lt_compat; exact Hdv]. apply Rmult_le_pos; [apply Rmult_le_pos; lra|]. apply Rlt_le, Rdiv_lt_0_compat; [lra|apply pow_lt; lra]. }
  destruct (Req_dec (phi (S j)) (phi j)) as [E0|E0]. { rewrite flux_equilibrium by (auto; now left). rewrite Rabs_R0. exact Hrhs. }
  destruct (Rle_dec (1 / 100000000) (Rabs (phi (S j) - phi j))) as [E1|E1]. { rewrite flux_equilibrium by (auto; now right). rewrite Rabs_R0. exact Hrhs. }
  unfold flux. rewrite (proj2 (Nat.ltb_lt _ _) Hj). rewrite cc_alpha_eq, cc_beta_eq by exact Hdv. rewrite (safe_D_id D j HD).
  assert (E : cc_w dv C D j = phi (S j) - phi j). { unfold cc_w. rewrite HC, (safe_D_id D j HD). field. lra. }
  rewrite E. set (w := phi (S j) - phi j) in *. assert (Hw0 : w <> 0) by (unfold w; lra).
  assert (Hs : small w = true) by (apply small_true; lra). rewrite (cc_small w Hs).
  destruct (equilibrium_flux w n (phi j)) as [K|K]; [|contradiction]. unfold A. replace (phi (S j)) with (phi j + w) by (unfold w; ring).
  set (x := n * exp (- phi j)) in *. set (y := n * exp (- (phi j + w))) in *.
  replace (- (D j / dv * (1 - w * delta_small w)) * x - - (D j / dv * (1 + w * (1 - delta_small w))) * y) with (D j / dv * (w * ((delta_small w - delta_full w) * (x - y)))).
  2:{ transitivity (D j / dv * (w * ((delta_small w - delta_full w) * (x - y)) + (n * - (1 - w * delta_full w) * exp (- phi j) + n * (1 + w * (1 - delta_full w)) * exp (- (phi j + w))))); [rewrite K; ring|].
      unfold x, y. ring. }
  pose proof (series_close w Hw0 ltac:(lra)) as HS. rewrite !Rabs_mult. rewrite (Rabs_right (D j / dv)) by (apply Rle_ge, Rlt_le, Rdiv_lt_0_compat; assumption).
  rewrite (Rabs_minus_sym y x). set (Z := Rabs (x - y)). assert (0 <= Z) by apply Rabs_pos.
  assert (Hw : Rabs w <= 1 / 100000000) by lra. assert (Hwa : 0 <= Rabs w) by apply Rabs_pos. assert (Hsq : w ^ 2 <= 1 / 10 ^ 16).
  { rewrite <- (pow2_abs w). replace (1 / 10 ^ 16) with ((1 / 100000000) ^ 2) by (simpl; field). apply pow_incr. lra. }
  assert (B : Rabs w * Rabs (delta_small w - delta_full w) <= 1 / 10 ^ 24).
  { replace (1 / 10 ^ 24) with (1 / 100000000 * (1 / 10 ^ 16)) by (simpl; field). apply Rmult_le_compat; [exact Hwa|apply Rabs_pos|exact Hw|lra]. }
  replace (D j * Z * (1 / 10 ^ 24) / dv) with (D j / dv * (1 / 10 ^ 24 * Z)) by (field; lra).
  apply Rmult_le_compat_l; [apply Rlt_le, Rdiv_lt_0_compat; assumption|]. rewrite <- Rmult_assoc. apply Rmult_le_compat_r; assumption.
Qed.

(** ** Log-mean *)
Definition lm_delta (f : nat -> R) (i : nat) : R := chang_cooper_delta (- ln (Rmax (f (S i)) log_mean_floor / Rmax (f i) log_mean_floor)).
Lemma log_mean_flux_eq nv dv C D nu dt f : log_mean_flux nv dv C D nu dt f =
  assemble nv dv dt nu (fun i => - C i * lm_delta f i + safe_D D i / dv) (fun i => - C i * (1 - lm_delta f i) - safe_D D i / dv).
Proof. reflexivity. Qed.

Lemma log_mean_edge x y : 0 < x -> 0 < y -> 1 / 100000000 <= Rabs (ln (y / x)) ->
  chang_cooper_delta (- ln (y / x)) * x + (1 - chang_cooper_delta (- ln (y / x))) * y = (y - x) / ln (y / x).
Proof.
  intros Hx Hy Hl. set (l := ln (y / x)) in *. assert (E : small (- l) = false) by (apply small_false; now rewrite Rabs_Ropp). rewrite (cc_full _ E).
  assert (Hl0 : l <> 0) by (intros K; rewrite K, Rabs_R0 in Hl; lra).
  unfold delta_full. assert (Hexp : exp (- l) = x / y). { rewrite exp_Ropp. unfold l. rewrite exp_ln by (now apply Rdiv_lt_0_compat). field. split; lra. }
  rewrite Hexp. assert (x / y - 1 <> 0). { rewrite <- Hexp. apply expm1_nonzero. lra. }
  assert (x <> y). { intros ->. apply H. field. lra. }
  field. repeat split; try assumption; lra.
Qed.

Lemma d_eps_uniform v dv i : v (S i) = v i + dv -> d_eps_edge v dv i = v (S i) ^ 2 - v i ^ 2.
Proof. intros H. unfold d_eps_edge. rewrite H. ring. Qed.
Lemma d_eps_2v v dv i : d_eps_edge v dv i = 2 * v_edge v i * dv.
Proof. unfold d_eps_edge, v_edge. field. Qed.

(** The two kernels are symmetric. *)
Definition symmetric (nv : nat) (v : nat -> R) (dv : R) (K : kernel) : Prop :=
  forall A B, rsum (nv - 1) (fun i => K A i * B i * d_eps_edge v dv i) = rsum (nv - 1) (fun i => K B i * A i * d_eps_edge v dv i).
Lemma asymptotic_symmetric nv v dv : symmetric nv v dv (asymptotic_local nv v dv).
Proof.
  intros A B. unfold asymptotic_local.
  set (SA := rsum (nv - 1) (fun j => sqrt_eps_edge v j * A j * d_eps_edge v dv j)). set (SB := rsum (nv - 1) (fun j => sqrt_eps_edge v j * B j * d_eps_edge v dv j)).
  rewrite (rsum_ext _ _ (fun i => 4 * PI * SA * (sqrt_eps_edge v i * B i * d_eps_edge v dv i))) by (intros; ring).
  rewrite (rsum_ext _ (fun i => sqrt_eps_edge v i * (4 * PI * SB) * A i * d_eps_edge v dv i) (fun i => 4 * PI * SB * (sqrt_eps_edge v i * A i * d_eps_edge v dv i))) by (intros; ring).
  rewrite !rsum_scal. fold SA SB. ring.
Qed.
Lemma rsum_split m n h : (m <= n)%nat -> rsum n h = rsum m h + rsum (n - m) (fun t => h (m + t)%nat).
Proof.
  intros H. replace n with (m + (n - m))%nat at 1 by lia. generalize (n - m)%nat. intros k. induction k as [|k IH]; [rewrite Nat.add_0_r; cbn; lra|].
  rewrite Nat.add_succ_r. cbn. rewrite IH. ring.
Qed.
Lemma coulombian_matrix nv v dv h i : (i < nv - 1)%nat ->
  coulombian nv v dv h i = rsum (nv - 1) (fun j => 4 * PI / 3 * sqrt_eps_edge v (Nat.min i j) ^ 3 * h j * d_eps_edge v dv j).
Proof.
  intros Hi. unfold coulombian. rewrite (rsum_split i (nv - 1)) by lia.
  rewrite (rsum_ext i (fun j => 4 * PI / 3 * sqrt_eps_edge v (Nat.min i j) ^ 3 * h j * d_eps_edge v dv j) (fun j => 4 * PI / 3 * (sqrt_eps_edge v j ^ 3 * h j * d_eps_edge v dv j))) by (intros j Hj; rewrite Nat.min_r by lia; ring).
  rewrite (rsum_ext (nv - 1 - i) (fun t => 4 * PI / 3 * sqrt_eps_edge v (Nat.min i (i + t)) ^ 3 * h (i + t)%nat * d_eps_edge v dv (i + t)%nat) (fun t => 4 * PI / 3 * sqrt_eps_edge v i ^ 3 * (h (i + t)%nat * d_eps_edge v dv (i + t)%nat)))
    by (intros t _; rewrite Nat.min_l by lia; ring).
  rewrite !rsum_scal. field.
Qed.
Lemma coulombian_symmetric nv v dv : symmetric nv v dv (coulombian nv v dv).
Proof.
  intros A B.
  assert (E : forall h g, rsum (nv - 1) (fun i => coulombian nv v dv h i * g i * d_eps_edge v dv i) =
     rsum (nv - 1) (fun i => rsum (nv - 1) (fun j => 4 * PI / 3 * sqrt_eps_edge v (Nat.min i j) ^ 3 * h j * g i * d_eps_edge v dv i * d_eps_edge v dv j))).
  { intros h g. apply rsum_ext. intros i Hi. rewrite coulombian_matrix by exact Hi. rewrite Rmult_assoc, <- rsum_scal_r. apply rsum_ext. intros j _. ring. }
  rewrite !E. rewrite rsum_swap. apply rsum_ext. intros i _. apply rsum_ext. intros j _. rewrite Nat.min_comm. ring.
Qed.
