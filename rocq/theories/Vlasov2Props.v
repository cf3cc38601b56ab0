(** C83: the kinetic half of the Vlasov-2D solver: streaming, velocity pushes, rotation, collisions, filter, initial distribution. *)
From Coq Require Import Reals ZArith List Bool Lia Lra Psatz.
From Verif Require Import PyStr RSum Pic PicProofs PicFourier VGrid DriftDiff DriftDiffProofs DriftDiffProps BetaProps Vlasov VlasovProofs VInitProps DriftDiffProofs2 Vfp2d VfpSetup2Props Dft Vlasov2.
Import ListNotations.
Local Open Scope R_scope.

(** * Translation along one periodic axis of n points with spacing d *)
(** What the code does to a row (a) to move it by the distance s (b): the sum is kept, the sum of squares does not grow, a move by whole
    cells is an exact cyclic move, and a sum of waves longer than two cells is moved exactly. *)
Definition row_waves (n M : nat) (A phi : nat -> R) (g : R) : R := rsum M (fun m => A m * cos (2 * PI * INR m * g / INR n + phi m)).
Definition moved (n : nat) (d s : R) (a b : nat -> R) : Prop :=
  rsum n b = rsum n a /\
  rsum n (fun g => b g ^ 2) <= rsum n (fun g => a g ^ 2) /\
  (forall z : Z, s = IZR z * d -> forall g, (g < n)%nat -> b g = a (Z.to_nat ((Z.of_nat g - z) mod Z.of_nat n))) /\
  (forall M A phi, (2 * M < n + 2)%nat -> (forall g, (g < n)%nat -> a g = row_waves n M A phi (INR g)) -> forall g, (g < n)%nat -> b g = row_waves n M A phi (INR g - s / d)).

Lemma shift_smul n d s a g : shift_axis n d s a g = smul n (shiftM n d s) a g.
Proof. reflexivity. Qed.
Lemma smul_waves n d s M A phi g : (g < n)%nat -> (2 * M < n + 2)%nat -> d <> 0 ->
  smul n (shiftM n d s) (fun h => row_waves n M A phi (INR h)) g = row_waves n M A phi (INR g - s / d).
Proof.
  intros Hg HM Hd. induction M as [|M IH].
  - unfold row_waves. cbn [rsum]. pose proof (smul_linear n (shiftM n d s) 0 0 (fun _ => 0) (fun _ => 0) g Hg) as E. cbv beta in E.
    rewrite (smul_ext n (shiftM n d s) (shiftM n d s) (fun i => 0 * 0 + 0 * 0) (fun _ => 0)) in E by (intros; try ring; reflexivity). lra.
  - rewrite (smul_ext n (shiftM n d s) (shiftM n d s) _ (fun h => 1 * row_waves n M A phi (INR h) + 1 * (A M * cos (angle n M h + phi M)))).
    2: reflexivity.
    2:{ intros h _. unfold row_waves. cbn [rsum]. unfold angle. ring. }
    rewrite smul_linear by exact Hg. rewrite IH by lia. rewrite smul_wave by lia. unfold row_waves. cbn [rsum]. rewrite !Rmult_1_l. f_equal. f_equal. f_equal. f_equal.
    unfold angle, kr. field. split; first [exact Hd|apply not_0_INR; lia].
Qed.
Lemma shift_moved n d s a : (0 < n)%nat -> d <> 0 -> moved n d s a (shift_axis n d s a).
Proof.
  intros Hn Hd. unfold moved. split; [|split; [|split]].
  - refine (smul_mean n (shiftM n d s) a Hn _). rewrite shiftM_0. reflexivity.
  - pose proof (smul_energy n (shiftM n d s) a Hn ltac:(intros; rewrite shiftM_abs; lra)) as E.
    rewrite (rsum_ext n (fun g => shift_axis n d s a g ^ 2) (fun g => smul n (shiftM n d s) a g * smul n (shiftM n d s) a g)) by (intros; rewrite shift_smul; ring).
    rewrite (rsum_ext n (fun g => a g ^ 2) (fun g => a g * a g)) by (intros; ring). exact E.
  - intros z Hz g Hg. rewrite shift_smul. exact (smul_cells n d s a z g Hd Hz Hg).
  - intros M A phi HM Ha g Hg. rewrite shift_smul. rewrite (smul_ext n _ (shiftM n d s) a (fun h => row_waves n M A phi (INR h))) by (intros; auto). now apply smul_waves.
Qed.

(** The velocity axes are the centres of equal cells covering (-vmax, vmax). *)
Definition sp_ok (s : sp2) : Prop := (0 < s2_nvx s)%nat /\ (0 < s2_nvy s)%nat /\ 0 < s2_vmax s.
Lemma vx_at s i : sp_ok s -> (i < s2_nvx s)%nat -> vx s i = - s2_vmax s + (INR i + 1 / 2) * dvx s /\ - s2_vmax s < vx s i < s2_vmax s.
Proof. intros (H & _ & V) Hi. assert (E : dvx s = (s2_vmax s - - s2_vmax s) / INR (s2_nvx s)) by (unfold dvx; f_equal; lra). unfold vx. rewrite E. apply centres; try lia; lra. Qed.
Lemma vy_at s i : sp_ok s -> (i < s2_nvy s)%nat -> vy s i = - s2_vmax s + (INR i + 1 / 2) * dvy s /\ - s2_vmax s < vy s i < s2_vmax s.
Proof. intros (_ & H & V) Hi. assert (E : dvy s = (s2_vmax s - - s2_vmax s) / INR (s2_nvy s)) by (unfold dvy; f_equal; lra). unfold vy. rewrite E. apply centres; try lia; lra. Qed.
Lemma dvx_pos s : sp_ok s -> 0 < dvx s.
Proof. intros (H & _ & V). unfold dvx. apply Rdiv_lt_0_compat; [lra|apply lt_0_INR; lia]. Qed.
Lemma dvy_pos s : sp_ok s -> 0 < dvy s.
Proof. intros (_ & H & V). unfold dvy. apply Rdiv_lt_0_compat; [lra|apply lt_0_INR; lia]. Qed.

Theorem C83_velocity_axes : forall s, sp_ok s ->
  (INR (s2_nvx s) * dvx s = 2 * s2_vmax s /\ INR (s2_nvy s) * dvy s = 2 * s2_vmax s) /\
  (forall i, (i < s2_nvx s)%nat -> vx s i = - s2_vmax s + (INR i + 1 / 2) * dvx s /\ - s2_vmax s < vx s i < s2_vmax s) /\
  (forall j, (j < s2_nvy s)%nat -> vy s j = - s2_vmax s + (INR j + 1 / 2) * dvy s /\ - s2_vmax s < vy s j < s2_vmax s).
Proof.
  intros s K. split; [|split; intros; [now apply vx_at|now apply vy_at]]. destruct K as (A & B & V). unfold dvx, dvy. split; field; apply not_0_INR; lia.
Qed.
Print Assumptions C83_velocity_axes.

(** Streaming moves the row of each velocity by v dt; the spectral field push moves the row of each place by (q/m) E dt. *)
Theorem C83_pushers : forall nx ny dx dy s dt ex ey f, (0 < nx)%nat -> (0 < ny)%nat -> 0 < dx -> 0 < dy -> sp_ok s ->
  (forall y i j, moved nx dx (vx s i * dt) (fun x => f x y i j) (fun x => stream_x nx dx s dt f x y i j)) /\
  (forall x i j, moved ny dy (vy s j * dt) (fun y => f x y i j) (fun y => stream_y ny dy s dt f x y i j)) /\
  (forall x y j, moved (s2_nvx s) (dvx s) (s2_q s / s2_m s * ex x y * dt) (fun i => f x y i j) (fun i => exp_vx s ex dt f x y i j)) /\
  (forall x y i, moved (s2_nvy s) (dvy s) (s2_q s / s2_m s * ey x y * dt) (fun j => f x y i j) (fun j => exp_vy s ey dt f x y i j)).
Proof.
  intros nx ny dx dy s dt ex ey f Hx Hy Dx Dy K. pose proof (dvx_pos s K). pose proof (dvy_pos s K). destruct K as (A & B & V).
  split; [|split; [|split]]; intros.
  - exact (shift_moved nx dx (vx s i * dt) (fun x => f x y i j) Hx ltac:(lra)).
  - exact (shift_moved ny dy (vy s j * dt) (fun y => f x y i j) Hy ltac:(lra)).
  - exact (shift_moved (s2_nvx s) (dvx s) (accel s ex x y * dt) (fun i => f x y i j) A ltac:(lra)).
  - exact (shift_moved (s2_nvy s) (dvy s) (accel s ey x y * dt) (fun j => f x y i j) B ltac:(lra)).
Qed.
Print Assumptions C83_pushers.

(** * Totals *)
Definition sum4 (nx ny : nat) (s : sp2) (h : f4) : R := rsum nx (fun x => rsum ny (fun y => rsum (s2_nvx s) (fun i => rsum (s2_nvy s) (fun j => h x y i j)))).
Definition sq4 (h : f4) : f4 := fun x y i j => h x y i j ^ 2.
(** The interpolant reproduces the values at the points of its grid. *)
Definition node_exact (cub : cubic2) (s : sp2) : Prop := forall a i j, (i < s2_nvx s)%nat -> (j < s2_nvy s)%nat -> cub s a (vx s i) (vy s j) = a i j.

Lemma sum4_ext nx ny s h h' : (forall x y i j, (x < nx)%nat -> (y < ny)%nat -> (i < s2_nvx s)%nat -> (j < s2_nvy s)%nat -> h x y i j = h' x y i j) -> sum4 nx ny s h = sum4 nx ny s h'.
Proof. intros H. unfold sum4. apply rsum_ext; intros x Hx. apply rsum_ext; intros y Hy. apply rsum_ext; intros i Hi. apply rsum_ext; intros j Hj. auto. Qed.
Lemma sum4_x nx ny s h : sum4 nx ny s h = rsum ny (fun y => rsum (s2_nvx s) (fun i => rsum (s2_nvy s) (fun j => rsum nx (fun x => h x y i j)))).
Proof.
  unfold sum4. rewrite rsum_swap. apply rsum_ext; intros y _. rewrite rsum_swap. apply rsum_ext; intros i _. now rewrite rsum_swap.
Qed.
Lemma sum4_y nx ny s h : sum4 nx ny s h = rsum nx (fun x => rsum (s2_nvx s) (fun i => rsum (s2_nvy s) (fun j => rsum ny (fun y => h x y i j)))).
Proof. unfold sum4. apply rsum_ext; intros x _. rewrite rsum_swap. apply rsum_ext; intros i _. now rewrite rsum_swap. Qed.
Lemma sum4_i nx ny s h : sum4 nx ny s h = rsum nx (fun x => rsum ny (fun y => rsum (s2_nvy s) (fun j => rsum (s2_nvx s) (fun i => h x y i j)))).
Proof. unfold sum4. apply rsum_ext; intros x _. apply rsum_ext; intros y _. now rewrite rsum_swap. Qed.
Ltac four := do 3 (first [apply rsum_ext | apply rsum_le]; intros).

Definition keeps (nx ny : nat) (s : sp2) (f f' : f4) : Prop := sum4 nx ny s f' = sum4 nx ny s f /\ sum4 nx ny s (sq4 f') <= sum4 nx ny s (sq4 f).
Lemma keeps_trans nx ny s f g h : keeps nx ny s f g -> keeps nx ny s g h -> keeps nx ny s f h.
Proof. intros [A B] [C D]. split; lra. Qed.
Lemma stream_x_keeps nx ny dx s dt f : (0 < nx)%nat -> 0 < dx -> keeps nx ny s f (stream_x nx dx s dt f).
Proof.
  intros Hn Hd. assert (M : forall y i j, moved nx dx (vx s i * dt) (fun x => f x y i j) (fun x => stream_x nx dx s dt f x y i j)) by (intros; apply (shift_moved nx dx (vx s i * dt) (fun x => f x y i j)); [exact Hn|lra]).
  split; rewrite !sum4_x; four; apply M.
Qed.
Lemma stream_y_keeps nx ny dy s dt f : (0 < ny)%nat -> 0 < dy -> keeps nx ny s f (stream_y ny dy s dt f).
Proof.
  intros Hn Hd. assert (M : forall x i j, moved ny dy (vy s j * dt) (fun y => f x y i j) (fun y => stream_y ny dy s dt f x y i j)) by (intros; apply (shift_moved ny dy (vy s j * dt) (fun y => f x y i j)); [exact Hn|lra]).
  split; rewrite !sum4_y; four; apply M.
Qed.
Lemma exp_vx_keeps nx ny s e dt f : sp_ok s -> keeps nx ny s f (exp_vx s e dt f).
Proof.
  intros K. pose proof (dvx_pos s K). destruct K as (A & B & V).
  assert (M : forall x y j, moved (s2_nvx s) (dvx s) (accel s e x y * dt) (fun i => f x y i j) (fun i => exp_vx s e dt f x y i j)) by (intros; apply (shift_moved (s2_nvx s) (dvx s) (accel s e x y * dt) (fun i => f x y i j)); [exact A|lra]).
  split; rewrite !sum4_i; four; apply M.
Qed.
Lemma exp_vy_keeps nx ny s e dt f : sp_ok s -> keeps nx ny s f (exp_vy s e dt f).
Proof.
  intros K. pose proof (dvy_pos s K). destruct K as (A & B & V).
  assert (M : forall x y i, moved (s2_nvy s) (dvy s) (accel s e x y * dt) (fun j => f x y i j) (fun j => exp_vy s e dt f x y i j)) by (intros; apply (shift_moved (s2_nvy s) (dvy s) (accel s e x y * dt) (fun j => f x y i j)); [exact B|lra]).
  unfold keeps, sum4. split; four; apply M.
Qed.

Lemma in_box_spec s a b : in_box s a b = true <-> vx s 0 <= a <= vx s (s2_nvx s - 1) /\ vy s 0 <= b <= vy s (s2_nvy s - 1).
Proof.
  unfold in_box. destruct (Rle_dec (vx s 0) a); destruct (Rle_dec a (vx s (s2_nvx s - 1))); destruct (Rle_dec (vy s 0) b); destruct (Rle_dec b (vy s (s2_nvy s - 1))); cbn; split; intros H; try discriminate; try lra; try reflexivity.
Qed.
Lemma in_box_node s i j : sp_ok s -> (i < s2_nvx s)%nat -> (j < s2_nvy s)%nat -> in_box s (vx s i) (vy s j) = true.
Proof.
  intros K Hi Hj. apply in_box_spec. pose proof (dvx_pos s K) as P. pose proof (dvy_pos s K) as Q.
  rewrite (proj1 (vx_at s i K Hi)), (proj1 (vy_at s j K Hj)), (proj1 (vx_at s 0 K ltac:(lia))), (proj1 (vy_at s 0 K ltac:(lia))).
  rewrite (proj1 (vx_at s (s2_nvx s - 1) K ltac:(lia))), (proj1 (vy_at s (s2_nvy s - 1) K ltac:(lia))).
  pose proof (pos_INR i). pose proof (pos_INR j). assert (INR i <= INR (s2_nvx s - 1)) by (apply le_INR; lia). assert (INR j <= INR (s2_nvy s - 1)) by (apply le_INR; lia).
  change (INR 0) with 0. repeat split; nra.
Qed.
Lemma interp_node cub s a i j : sp_ok s -> node_exact cub s -> (i < s2_nvx s)%nat -> (j < s2_nvy s)%nat -> interp2 cub s a (vx s i) (vy s j) = a i j.
Proof. intros K N Hi Hj. unfold interp2. rewrite in_box_node by assumption. now apply N. Qed.
Lemma rotate_zero cub s bz dt f x y i j : sp_ok s -> node_exact cub s -> bz x y = 0 -> (i < s2_nvx s)%nat -> (j < s2_nvy s)%nat -> rotate cub s bz dt f x y i j = f x y i j.
Proof.
  intros K N B Hi Hj. unfold rotate, rot_q, theta_of. rewrite B. cbn [fst snd]. replace (- (s2_q s / s2_m s) * 0 * dt) with 0 by ring. rewrite cos_0, sin_0.
  replace (1 * vx s i + 0 * vy s j) with (vx s i) by ring. replace (-0 * vx s i + 1 * vy s j) with (vy s j) by ring. now apply interp_node.
Qed.

(** With the spectral push and no magnetic field, a kinetic step keeps the number of particles of the species and does not increase the
    sum of squares; the field push alone keeps the density at every point. *)
Theorem C83_number : forall cub G s dt ex ey bz f, (0 < g_nx G)%nat -> (0 < g_ny G)%nat -> 0 < g_dx G -> 0 < g_dy G -> sp_ok s -> node_exact cub s ->
  (forall x y, (x < g_nx G)%nat -> (y < g_ny G)%nat -> bz x y = 0) ->
  sum4 (g_nx G) (g_ny G) s (kinetic cub true G s dt ex ey bz f) = sum4 (g_nx G) (g_ny G) s f /\
  sum4 (g_nx G) (g_ny G) s (sq4 (kinetic cub true G s dt ex ey bz f)) <= sum4 (g_nx G) (g_ny G) s (sq4 f) /\
  (forall x y, dens2 s (exp_vx s ex dt f) x y = dens2 s f x y /\ dens2 s (exp_vy s ey dt f) x y = dens2 s f x y).
Proof.
  intros cub G s dt ex ey bz f Hx Hy Dx Dy K N B.
  assert (H : keeps (g_nx G) (g_ny G) s f (kinetic cub true G s dt ex ey bz f)).
  { unfold kinetic, push_vx, push_vy.
    eapply keeps_trans; [apply (stream_x_keeps _ _ (g_dx G) s (1 / 2 * dt)); assumption|].
    eapply keeps_trans; [apply (stream_y_keeps _ _ (g_dy G) s (1 / 2 * dt)); assumption|].
    eapply keeps_trans; [apply (exp_vx_keeps _ _ s ex (1 / 2 * dt)); assumption|].
    eapply keeps_trans; [apply (exp_vy_keeps _ _ s ey (1 / 2 * dt)); assumption|].
    eapply keeps_trans.
    { instantiate (1 := rotate cub s bz dt _). split; [apply sum4_ext|apply Req_le; apply sum4_ext]; intros; unfold sq4; rewrite rotate_zero; auto. }
    eapply keeps_trans; [apply (exp_vy_keeps _ _ s ey (1 / 2 * dt)); assumption|].
    eapply keeps_trans; [apply (exp_vx_keeps _ _ s ex (1 / 2 * dt)); assumption|].
    eapply keeps_trans; [apply (stream_y_keeps _ _ (g_dy G) s (1 / 2 * dt)); assumption|].
    apply (stream_x_keeps _ _ (g_dx G) s (1 / 2 * dt)); assumption. }
  destruct H as [H1 H2]. split; [exact H1|split; [exact H2|]]. intros x y.
  pose proof (C83_pushers (g_nx G) (g_ny G) (g_dx G) (g_dy G) s dt ex ey f Hx Hy Dx Dy K) as (_ & _ & P & Q). unfold dens2. split; f_equal.
  - rewrite rsum_swap. rewrite (rsum_swap _ _ (fun i j => f x y i j)). apply rsum_ext; intros j _. apply P.
  - apply rsum_ext; intros i _. apply Q.
Qed.
Print Assumptions C83_number.

(** The semi-Lagrangian push by whole cells moves the row without wrapping: what leaves is lost and zero enters. *)
Theorem C83_semi_lagrangian : forall cub s ex ey dt f x y i j (z : Z), sp_ok s -> node_exact cub s -> (i < s2_nvx s)%nat -> (j < s2_nvy s)%nat ->
  (s2_q s / s2_m s * ex x y * dt = IZR z * dvx s ->
   sl_vx cub s ex dt f x y i j = if ((0 <=? Z.of_nat i - z) && (Z.of_nat i - z <? Z.of_nat (s2_nvx s)))%Z then f x y (Z.to_nat (Z.of_nat i - z)) j else 0) /\
  (s2_q s / s2_m s * ey x y * dt = IZR z * dvy s ->
   sl_vy cub s ey dt f x y i j = if ((0 <=? Z.of_nat j - z) && (Z.of_nat j - z <? Z.of_nat (s2_nvy s)))%Z then f x y i (Z.to_nat (Z.of_nat j - z)) else 0).
Proof.
  intros cub s ex ey dt f x y i j z K N Hi Hj. pose proof (dvx_pos s K) as P. pose proof (dvy_pos s K) as Q. split; intros E.
  - unfold sl_vx. unfold accel. rewrite E. destruct ((0 <=? Z.of_nat i - z) && (Z.of_nat i - z <? Z.of_nat (s2_nvx s)))%Z eqn:C.
    + apply andb_prop in C. destruct C as [C1 C2]. apply Z.leb_le in C1. apply Z.ltb_lt in C2.
      replace (vx s i - IZR z * dvx s) with (vx s (Z.to_nat (Z.of_nat i - z))).
      2:{ rewrite (proj1 (vx_at s i K Hi)), (proj1 (vx_at s (Z.to_nat (Z.of_nat i - z)) K ltac:(lia))). rewrite (INR_IZR_INZ (Z.to_nat _)), Z2Nat.id by lia. rewrite minus_IZR, <- INR_IZR_INZ. ring. }
      rewrite interp_node by (try assumption; lia). reflexivity.
    + unfold interp2. replace (in_box s (vx s i - IZR z * dvx s) (vy s j)) with false; [reflexivity|]. symmetry. apply not_true_is_false. intros H. apply in_box_spec in H. destruct H as [H _].
      rewrite (proj1 (vx_at s i K Hi)), (proj1 (vx_at s 0 K ltac:(lia))), (proj1 (vx_at s (s2_nvx s - 1) K ltac:(lia))) in H. change (INR 0) with 0 in H.
      assert (E1 : 0 <= IZR (Z.of_nat i - z)) by (rewrite minus_IZR, <- INR_IZR_INZ; nra).
      assert (E2 : IZR (Z.of_nat i - z) <= INR (s2_nvx s - 1)) by (rewrite minus_IZR, <- INR_IZR_INZ; nra).
      apply le_IZR in E1. rewrite INR_IZR_INZ in E2. apply le_IZR in E2. apply andb_false_iff in C. destruct C as [C|C]; [apply Z.leb_gt in C; lia|apply Z.ltb_ge in C; lia].
  - unfold sl_vy. unfold accel. rewrite E. destruct ((0 <=? Z.of_nat j - z) && (Z.of_nat j - z <? Z.of_nat (s2_nvy s)))%Z eqn:C.
    + apply andb_prop in C. destruct C as [C1 C2]. apply Z.leb_le in C1. apply Z.ltb_lt in C2.
      replace (vy s j - IZR z * dvy s) with (vy s (Z.to_nat (Z.of_nat j - z))).
      2:{ rewrite (proj1 (vy_at s j K Hj)), (proj1 (vy_at s (Z.to_nat (Z.of_nat j - z)) K ltac:(lia))). rewrite (INR_IZR_INZ (Z.to_nat _)), Z2Nat.id by lia. rewrite minus_IZR, <- INR_IZR_INZ. ring. }
      rewrite interp_node by (try assumption; lia). reflexivity.
    + unfold interp2. replace (in_box s (vx s i) (vy s j - IZR z * dvy s)) with false; [reflexivity|]. symmetry. apply not_true_is_false. intros H. apply in_box_spec in H. destruct H as [_ H].
      rewrite (proj1 (vy_at s j K Hj)), (proj1 (vy_at s 0 K ltac:(lia))), (proj1 (vy_at s (s2_nvy s - 1) K ltac:(lia))) in H. change (INR 0) with 0 in H.
      assert (E1 : 0 <= IZR (Z.of_nat j - z)) by (rewrite minus_IZR, <- INR_IZR_INZ; nra).
      assert (E2 : IZR (Z.of_nat j - z) <= INR (s2_nvy s - 1)) by (rewrite minus_IZR, <- INR_IZR_INZ; nra).
      apply le_IZR in E1. rewrite INR_IZR_INZ in E2. apply le_IZR in E2. apply andb_false_iff in C. destruct C as [C|C]; [apply Z.leb_gt in C; lia|apply Z.ltb_ge in C; lia].
Qed.
Print Assumptions C83_semi_lagrangian.

(** * Rotation about the magnetic field *)
(** The value written at velocity (a, b) is read at the velocity from which a particle of charge q and mass m arrives at (a, b) after dt
    in the field Bz: the path solves dv/dt = (q/m) v x B. Outside the box zero is read. *)
Theorem C83_rotation : forall cub s bz dt f x y i j,
  exists qx qy X Y,
    (rotate cub s bz dt f x y i j = if in_box s qx qy then cub s (f x y) qx qy else 0) /\
    qx ^ 2 + qy ^ 2 = vx s i ^ 2 + vy s j ^ 2 /\
    X 0 = qx /\ Y 0 = qy /\ X dt = vx s i /\ Y dt = vy s j /\
    (forall t, derivable_pt_lim X t (s2_q s / s2_m s * (Y t * bz x y))) /\ (forall t, derivable_pt_lim Y t (s2_q s / s2_m s * - (X t * bz x y))).
Proof.
  intros cub s bz dt f x y i j. set (w := s2_q s / s2_m s * bz x y). set (a := vx s i). set (b := vy s j).
  set (qx := cos (- (w * dt)) * a + sin (- (w * dt)) * b). set (qy := - sin (- (w * dt)) * a + cos (- (w * dt)) * b).
  exists qx, qy, (fun t => cos (w * t) * qx + sin (w * t) * qy), (fun t => - sin (w * t) * qx + cos (w * t) * qy).
  assert (SC : sin (w * dt) ^ 2 + cos (w * dt) ^ 2 = 1) by (pose proof (sin2_cos2 (w * dt)) as S; unfold Rsqr in S; lra).
  assert (L : forall t, derivable_pt_lim (fun t => w * t) t w) by (intros t; pose proof (derivable_pt_lim_scal id w t 1 (derivable_pt_lim_id t)) as E; rewrite Rmult_1_r in E; exact E).
  assert (DC : forall t, derivable_pt_lim (fun t => cos (w * t)) t (- sin (w * t) * w)) by (intros t; exact (derivable_pt_lim_comp (fun t => w * t) cos t w (- sin (w * t)) (L t) (derivable_pt_lim_cos (w * t)))).
  assert (DS : forall t, derivable_pt_lim (fun t => sin (w * t)) t (cos (w * t) * w)) by (intros t; exact (derivable_pt_lim_comp (fun t => w * t) sin t w (cos (w * t)) (L t) (derivable_pt_lim_sin (w * t)))).
  repeat split.
  - unfold rotate, rot_q, theta_of, interp2. cbn [fst snd]. replace (- (s2_q s / s2_m s) * bz x y * dt) with (- (w * dt)) by (unfold w; ring). reflexivity.
  - unfold qx, qy. rewrite sin_neg, cos_neg. transitivity ((sin (w * dt) ^ 2 + cos (w * dt) ^ 2) * (a ^ 2 + b ^ 2)); [ring|rewrite SC; ring].
  - cbv beta. rewrite Rmult_0_r, cos_0, sin_0. ring.
  - cbv beta. rewrite Rmult_0_r, cos_0, sin_0. ring.
  - unfold qx, qy. rewrite sin_neg, cos_neg. transitivity ((sin (w * dt) ^ 2 + cos (w * dt) ^ 2) * a); [ring|rewrite SC; ring].
  - unfold qx, qy. rewrite sin_neg, cos_neg. transitivity ((sin (w * dt) ^ 2 + cos (w * dt) ^ 2) * b); [ring|rewrite SC; ring].
  - intros t. replace (s2_q s / s2_m s * ((- sin (w * t) * qx + cos (w * t) * qy) * bz x y)) with (qx * (- sin (w * t) * w) + qy * (cos (w * t) * w)) by (unfold w; ring).
    pose proof (derivable_pt_lim_plus _ _ t _ _ (derivable_pt_lim_scal _ qx t _ (DC t)) (derivable_pt_lim_scal _ qy t _ (DS t))) as E. unfold plus_fct, mult_real_fct in E.
    eapply derivable_pt_lim_ext; [|exact E]. intros u. cbv beta. ring.
  - intros t. replace (s2_q s / s2_m s * - ((cos (w * t) * qx + sin (w * t) * qy) * bz x y)) with (- qx * (cos (w * t) * w) + qy * (- sin (w * t) * w)) by (unfold w; ring).
    pose proof (derivable_pt_lim_plus _ _ t _ _ (derivable_pt_lim_scal _ (- qx) t _ (DS t)) (derivable_pt_lim_scal _ qy t _ (DC t))) as E. unfold plus_fct, mult_real_fct in E.
    eapply derivable_pt_lim_ext; [|exact E]. intros u. cbv beta. ring.
Qed.
Print Assumptions C83_rotation.

(** On a square velocity grid a quarter turn is an exact permutation of the values. *)
Theorem C83_quarter_turn : forall cub s bz dt f x y i j, sp_ok s -> node_exact cub s -> s2_nvx s = s2_nvy s -> - (s2_q s / s2_m s * bz x y * dt) = PI / 2 ->
  (i < s2_nvx s)%nat -> (j < s2_nvy s)%nat -> rotate cub s bz dt f x y i j = f x y j (s2_nvx s - 1 - i)%nat.
Proof.
  intros cub s bz dt f x y i j K N Sq E Hi Hj. unfold rotate, rot_q, theta_of. cbn [fst snd].
  replace (- (s2_q s / s2_m s) * bz x y * dt) with (PI / 2) by (rewrite <- E; ring). rewrite cos_PI2, sin_PI2.
  assert (D : dvx s = dvy s) by (unfold dvx, dvy; now rewrite Sq).
  replace (0 * vx s i + 1 * vy s j) with (vx s j) by (rewrite (proj1 (vx_at s j K ltac:(lia))), (proj1 (vy_at s j K Hj)), D; ring).
  replace (- (1) * vx s i + 0 * vy s j) with (vy s (s2_nvx s - 1 - i)%nat).
  2:{ rewrite (proj1 (vy_at s (s2_nvx s - 1 - i) K ltac:(lia))), (proj1 (vx_at s i K Hi)), D. rewrite !minus_INR by lia. change (INR 1) with 1.
      destruct (C83_velocity_axes s K) as [[P Q] _]. rewrite D in P. nra. }
  apply interp_node; try assumption; lia.
Qed.
Print Assumptions C83_quarter_turn.

(** Rotation does not keep the number of particles: on a 2 x 2 velocity grid every particle turned by an eighth leaves the box, whatever
    the interpolant. *)
Theorem C83_rotation_number_refuted : exists s bz dt f, sp_ok s /\ 0 < dens2 s f 0%nat 0%nat /\ forall cub, dens2 s (rotate cub s bz dt f) 0%nat 0%nat = 0.
Proof.
  set (s := {| s2_q := -1; s2_m := 1; s2_vmax := 2; s2_nvx := 2; s2_nvy := 2 |}). assert (K : sp_ok s) by (repeat split; cbn; try lia; lra).
  exists s, (fun _ _ => PI / 4), 1, (fun _ _ _ _ => 1). split; [exact K|]. split.
  - unfold dens2, dvx, dvy. cbn [s s2_nvx s2_nvy s2_vmax rsum]. change (INR 2) with 2. lra.
  - intros cub. unfold dens2. rewrite (rsum_ext _ _ (fun _ => 0)); [rewrite rsum_zero; ring|]. intros i Hi. rewrite (rsum_ext _ _ (fun _ => 0)); [apply rsum_zero|]. intros j Hj.
    assert (D : dvx s = 2 /\ dvy s = 2) by (unfold dvx, dvy; cbn [s s2_nvx s2_nvy s2_vmax]; change (INR 2) with 2; lra).
    assert (V : forall k, (k < 2)%nat -> vx s k = -1 + 2 * INR k /\ vy s k = -1 + 2 * INR k).
    { intros k Hk. rewrite (proj1 (vx_at s k K Hk)), (proj1 (vy_at s k K Hk)), (proj1 D), (proj2 D). cbn [s s2_vmax]. lra. }
    unfold rotate, rot_q, theta_of. cbn [fst snd]. unfold interp2.
    replace (- (s2_q s / s2_m s) * (PI / 4) * 1) with (PI / 4) by (cbn [s s2_q s2_m]; field). rewrite sin_PI4, cos_PI4.
    rewrite (proj1 (V i Hi)), (proj2 (V j Hj)). set (r := 1 / sqrt 2). assert (R1 : 0 < r /\ 2 * (r * r) = 1).
    { assert (0 < sqrt 2) by (apply sqrt_lt_R0; lra). pose proof (sqrt_sqrt 2 ltac:(lra)) as S2. split; [apply Rdiv_lt_0_compat; lra|]. unfold r.
      replace (2 * (1 / sqrt 2 * (1 / sqrt 2))) with (2 / (sqrt 2 * sqrt 2)) by (field; lra). rewrite S2. field. }
    assert (R2 : 1 < 2 * r) by nra.
    replace (in_box s _ _) with false; [reflexivity|]. symmetry. apply not_true_is_false. intros H. apply in_box_spec in H.
    change (s2_nvx s - 1)%nat with 1%nat in H. change (s2_nvy s - 1)%nat with 1%nat in H.
    rewrite (proj1 (V 0%nat ltac:(lia))), (proj2 (V 0%nat ltac:(lia))), (proj1 (V 1%nat ltac:(lia))), (proj2 (V 1%nat ltac:(lia))) in H. change (INR 0) with 0 in H. change (INR 1) with 1 in H.
    change (s2_nvx s) with 2%nat in Hi. change (s2_nvy s) with 2%nat in Hj.
    destruct i as [|[|i]]; [| |lia]; destruct j as [|[|j]]; try lia; change (INR 0) with 0 in H; change (INR 1) with 1 in H; nra.
Qed.
Print Assumptions C83_rotation_number_refuted.

(** * Krook relaxation *)
Definition unit_maxwellian (s : sp2) (i j : nat) : R :=
  exp (- (vx s i ^ 2 + vy s j ^ 2) / 2) / (rsum (s2_nvx s) (fun k => rsum (s2_nvy s) (fun l => exp (- (vx s k ^ 2 + vy s l ^ 2) / 2))) * (dvx s * dvy s)).
Lemma rsum_sep n m a b : rsum n (fun i => rsum m (fun j => a i * b j)) = rsum n a * rsum m b.
Proof. rewrite (rsum_ext n _ (fun i => a i * rsum m b)) by (intros; apply rsum_scal). now rewrite rsum_scal_r. Qed.
Lemma maxw_unit s i j : sp_ok s -> maxw (s2_nvx s) (vx s) (dvx s) i * maxw (s2_nvy s) (vy s) (dvy s) j = unit_maxwellian s i j.
Proof.
  intros K. pose proof (dvx_pos s K). pose proof (dvy_pos s K). destruct K as (A & B & V). unfold maxw, unit_maxwellian.
  assert (E : forall a b, exp (- (a ^ 2 + b ^ 2) / 2) = exp (- (1 / 2) * a ^ 2) * exp (- (1 / 2) * b ^ 2)) by (intros; rewrite <- exp_plus; f_equal; field).
  rewrite E. rewrite (rsum_ext (s2_nvx s) (fun k => rsum (s2_nvy s) (fun l => exp (- (vx s k ^ 2 + vy s l ^ 2) / 2))) (fun k => rsum (s2_nvy s) (fun l => exp (- (1 / 2) * vx s k ^ 2) * exp (- (1 / 2) * vy s l ^ 2)))) by (intros; apply rsum_ext; intros; apply E).
  rewrite rsum_sep. pose proof (rsum_pos (s2_nvx s) (fun k => exp (- (1 / 2) * vx s k ^ 2)) A ltac:(intros; apply exp_pos)). pose proof (rsum_pos (s2_nvy s) (fun k => exp (- (1 / 2) * vy s k ^ 2)) B ltac:(intros; apply exp_pos)).
  field. repeat split; lra.
Qed.
Lemma unit_maxwellian_dens s : sp_ok s -> rsum (s2_nvx s) (fun i => rsum (s2_nvy s) (fun j => unit_maxwellian s i j)) * (dvx s * dvy s) = 1.
Proof.
  intros K. pose proof (dvx_pos s K). pose proof (dvy_pos s K). destruct K as (A & B & V). unfold unit_maxwellian, Rdiv at 1.
  set (Z := rsum (s2_nvx s) (fun k => rsum (s2_nvy s) (fun l => exp (- (vx s k ^ 2 + vy s l ^ 2) / 2)))). assert (0 < Z) by (apply rsum_pos; [exact A|]; intros; apply rsum_pos; [exact B|]; intros; apply exp_pos).
  rewrite (rsum_ext (s2_nvx s) _ (fun i => rsum (s2_nvy s) (fun j => exp (- (vx s i ^ 2 + vy s j ^ 2) / 2)) * / (Z * (dvx s * dvy s)))) by (intros; rewrite rsum_scal_r; reflexivity).
  rewrite rsum_scal_r. fold Z. field. repeat split; lra.
Qed.
Lemma unit_maxwellian_pos s i j : sp_ok s -> 0 < unit_maxwellian s i j.
Proof.
  intros K. pose proof (dvx_pos s K). pose proof (dvy_pos s K). destruct K as (A & B & V). unfold unit_maxwellian. apply Rdiv_lt_0_compat; [apply exp_pos|].
  apply Rmult_lt_0_compat; [|now apply Rmult_lt_0_compat]. apply rsum_pos; [exact A|]; intros; apply rsum_pos; [exact B|]; intros; apply exp_pos.
Qed.
(** The density is kept; the distance to the Maxwellian of the local density shrinks by exp(-nu dt) at every velocity; positivity is kept. *)
Theorem C83_krook : forall s nu dt f x y, sp_ok s ->
  dens2 s (krook2 s nu dt f) x y = dens2 s f x y /\
  (forall i j, krook2 s nu dt f x y i j - dens2 s f x y * unit_maxwellian s i j = exp (- (nu x y * dt)) * (f x y i j - dens2 s f x y * unit_maxwellian s i j)) /\
  (0 <= nu x y * dt -> (forall i j, (i < s2_nvx s)%nat -> (j < s2_nvy s)%nat -> 0 <= f x y i j) -> forall i j, (i < s2_nvx s)%nat -> (j < s2_nvy s)%nat -> 0 <= krook2 s nu dt f x y i j).
Proof.
  intros s nu dt f x y K. set (d := exp (- (nu x y * dt))). assert (E : forall i j, krook2 s nu dt f x y i j = d * f x y i j + (1 - d) * dens2 s f x y * unit_maxwellian s i j) by (intros; unfold krook2; rewrite maxw_unit by exact K; fold d; ring).
  split; [|split].
  - unfold dens2 at 1. rewrite (rsum_ext (s2_nvx s) _ (fun i => d * rsum (s2_nvy s) (fun j => f x y i j) + (1 - d) * dens2 s f x y * rsum (s2_nvy s) (fun j => unit_maxwellian s i j))).
    2:{ intros i _. rewrite (rsum_ext (s2_nvy s) _ (fun j => d * f x y i j + (1 - d) * dens2 s f x y * unit_maxwellian s i j)) by (intros; apply E). now rewrite rsum_plus, !rsum_scal. }
    rewrite rsum_plus, !rsum_scal. pose proof (unit_maxwellian_dens s K) as U. unfold dens2 in *. set (W := rsum (s2_nvx s) (fun i => rsum (s2_nvy s) (fun j => unit_maxwellian s i j))) in *. set (F := rsum (s2_nvx s) (fun i => rsum (s2_nvy s) (fun j => f x y i j))) in *.
    transitivity (d * F * (dvx s * dvy s) + (1 - d) * (F * (dvx s * dvy s)) * (W * (dvx s * dvy s))); [ring|]. rewrite U. ring.
  - intros i j. rewrite E. ring.
  - intros Hn Hf i j Hi Hj. rewrite E. assert (0 < d <= 1) by (unfold d; split; [apply exp_pos|rewrite <- exp_0; destruct (Req_dec (nu x y * dt) 0) as [->|]; [apply Req_le; f_equal; ring|apply Rlt_le, exp_increasing; lra]]).
    pose proof (Hf i j Hi Hj). pose proof (unit_maxwellian_pos s i j K). assert (0 <= dens2 s f x y).
    { unfold dens2. pose proof (dvx_pos s K). pose proof (dvy_pos s K). apply Rmult_le_pos; [|apply Rmult_le_pos; lra]. apply rsum_nonneg; intros; apply rsum_nonneg; intros; now apply Hf. }
    apply Rplus_le_le_0_compat; [apply Rmult_le_pos; lra|]. apply Rmult_le_pos; [apply Rmult_le_pos; lra|lra].
Qed.
Print Assumptions C83_krook.

(** * Initial distribution *)
Lemma sg_raw_pos gam T0 mass m u ax i : 0 < sg_raw gam T0 mass m u ax i.
Proof. apply exp_pos. Qed.
Lemma sg_axis_sum gam T0 mass m u vmax n ax : (0 < n)%nat -> 0 < vmax -> rsum n (sg_axis gam T0 mass m u vmax n ax) * (2 * vmax / INR n) = 1.
Proof.
  intros Hn Hv. unfold sg_axis, Rdiv at 1. rewrite rsum_scal_r. pose proof (rsum_pos n (sg_raw gam T0 mass m u ax) Hn ltac:(intros; apply sg_raw_pos)) as P.
  assert (0 < INR n) by (apply lt_0_INR; lia). change (rsum n (fun i => sg_raw gam T0 mass m u ax i)) with (rsum n (sg_raw gam T0 mass m u ax)). field. repeat split; lra.
Qed.
Lemma sg_axis_pos gam T0 mass m u vmax n ax i : (0 < n)%nat -> 0 < vmax -> 0 < sg_axis gam T0 mass m u vmax n ax i.
Proof.
  intros Hn Hv. unfold sg_axis. apply Rdiv_lt_0_compat; [apply sg_raw_pos|]. apply Rmult_lt_0_compat; [apply rsum_pos; [exact Hn|]; intros; apply sg_raw_pos|]. apply Rdiv_lt_0_compat; [lra|apply lt_0_INR; lia].
Qed.
Lemma lsum2_rsum {A} n (h : A -> nat -> R) l : rsum n (fun i => lsum2 (fun c => h c i) l) = lsum2 (fun c => rsum n (h c)) l.
Proof. induction l as [|c l IH]; cbn [lsum2 fold_right]; [apply rsum_zero|]. rewrite rsum_plus. f_equal. exact IH. Qed.
Lemma lsum2_scal_r {A} (h : A -> R) k l : lsum2 h l * k = lsum2 (fun c => h c * k) l.
Proof. unfold lsum2. induction l as [|c l IH]; cbn [fold_right]; [ring|]. rewrite <- IH. ring. Qed.
Lemma lsum2_ext {A} (h h' : A -> R) l : (forall c, In c l -> h c = h' c) -> lsum2 h l = lsum2 h' l.
Proof. unfold lsum2. induction l as [|c l IH]; intros H; cbn [fold_right]; [reflexivity|]. rewrite (H c (or_introl eq_refl)). f_equal. apply IH. intros; apply H; now right. Qed.
Lemma lsum2_nonneg {A} (h : A -> R) l : (forall c, In c l -> 0 <= h c) -> 0 <= lsum2 h l.
Proof. unfold lsum2. induction l as [|c l IH]; intros H; cbn [fold_right]; [lra|]. pose proof (H c (or_introl eq_refl)). assert (0 <= fold_right (fun p r => h p + r) 0 l) by (apply IH; intros; apply H; now right). lra. Qed.
Lemma vx_mirror s i : sp_ok s -> (i < s2_nvx s)%nat -> vx s (s2_nvx s - 1 - i) = - vx s i.
Proof.
  intros K Hi. rewrite (proj1 (vx_at s i K Hi)), (proj1 (vx_at s (s2_nvx s - 1 - i) K ltac:(lia))). rewrite !minus_INR by lia. change (INR 1) with 1.
  destruct (C83_velocity_axes s K) as [[P _] _]. nra.
Qed.
Lemma vy_mirror s i : sp_ok s -> (i < s2_nvy s)%nat -> vy s (s2_nvy s - 1 - i) = - vy s i.
Proof.
  intros K Hi. rewrite (proj1 (vy_at s i K Hi)), (proj1 (vy_at s (s2_nvy s - 1 - i) K ltac:(lia))). rewrite !minus_INR by lia. change (INR 1) with 1.
  destruct (C83_velocity_axes s K) as [[_ P] _]. nra.
Qed.
Lemma odd_sum n (v w : nat -> R) : (forall i, (i < n)%nat -> v (n - 1 - i)%nat = - v i) -> (forall i, (i < n)%nat -> w (n - 1 - i)%nat = w i) -> rsum n (fun i => v i * w i) = 0.
Proof.
  intros Hv Hw. assert (E : rsum n (fun i => v i * w i) = -1 * rsum n (fun i => v i * w i)); [|lra].
  rewrite (rsum_rev n (fun i => v i * w i)) at 1. rewrite <- rsum_scal. apply rsum_ext. intros i Hi. rewrite Hv, Hw by exact Hi. ring.
Qed.
Lemma sg_axis_even gam T0 mass m vmax n ax i : (forall i, (i < n)%nat -> ax (n - 1 - i)%nat = - ax i) -> (i < n)%nat -> sg_axis gam T0 mass m 0 vmax n ax (n - 1 - i) = sg_axis gam T0 mass m 0 vmax n ax i.
Proof.
  intros H Hi. unfold sg_axis. f_equal. unfold sg_raw. rewrite H by exact Hi. do 2 f_equal. rewrite <- (abs_pow_opp ((ax i - 0) / _)). f_equal. unfold Rdiv. ring.
Qed.
(** The discrete density is the sum of the component profiles, exactly; no value is negative; without drift the discrete flow is zero. *)
Theorem C83_init : forall gam s l x y, sp_ok s ->
  dens2 s (init_f gam s l) x y = fold_right (fun c r => c2_n c x y + r) 0 l /\
  ((forall c, In c l -> 0 <= c2_n c x y) -> forall i j, 0 <= init_f gam s l x y i j) /\
  ((forall c, In c l -> c2_ux c = 0) -> momx s (init_f gam s l) x y = 0) /\
  ((forall c, In c l -> c2_uy c = 0) -> momy s (init_f gam s l) x y = 0).
Proof.
  intros gam s l x y K. assert (K' := K). destruct K' as (A & B & V). split; [|split; [|split]].
  - unfold dens2, init_f. rewrite (rsum_ext (s2_nvx s) _ (fun i => lsum2 (fun c => rsum (s2_nvy s) (fun j => eval_bi gam s c (s2_nvx s) (s2_nvy s) (vx s) (vy s) (c2_n c x y) i j)) l)) by (intros; apply lsum2_rsum).
    rewrite lsum2_rsum, lsum2_scal_r. apply lsum2_ext. intros c _. unfold eval_bi.
    rewrite (rsum_ext (s2_nvx s) _ (fun i => rsum (s2_nvy s) (fun j => (c2_n c x y * sg_axis gam (c2_T c) (s2_m s) (c2_m c) (c2_ux c) (s2_vmax s) (s2_nvx s) (vx s) i) * sg_axis gam (c2_T c) (s2_m s) (c2_m c) (c2_uy c) (s2_vmax s) (s2_nvy s) (vy s) j))) by (intros; apply rsum_ext; intros; ring).
    rewrite rsum_sep, rsum_scal. pose proof (sg_axis_sum gam (c2_T c) (s2_m s) (c2_m c) (c2_ux c) (s2_vmax s) (s2_nvx s) (vx s) A V) as E1. pose proof (sg_axis_sum gam (c2_T c) (s2_m s) (c2_m c) (c2_uy c) (s2_vmax s) (s2_nvy s) (vy s) B V) as E2.
    fold (dvx s) in E1. fold (dvy s) in E2. set (X := rsum (s2_nvx s) _) in *. set (Y := rsum (s2_nvy s) _) in *.
    transitivity (c2_n c x y * (X * dvx s) * (Y * dvy s)); [ring|]. rewrite E1, E2. ring.
  - intros H i j. unfold init_f. apply lsum2_nonneg. intros c Hc. unfold eval_bi. pose proof (sg_axis_pos gam (c2_T c) (s2_m s) (c2_m c) (c2_ux c) (s2_vmax s) (s2_nvx s) (vx s) i A V). pose proof (sg_axis_pos gam (c2_T c) (s2_m s) (c2_m c) (c2_uy c) (s2_vmax s) (s2_nvy s) (vy s) j B V).
    apply Rmult_le_pos; [now apply H|]. apply Rmult_le_pos; lra.
  - intros H. unfold momx. rewrite rsum_swap. rewrite (rsum_ext (s2_nvy s) _ (fun _ => 0)); [rewrite rsum_zero; ring|]. intros j _. apply (odd_sum (s2_nvx s) (vx s) (fun i => init_f gam s l x y i j)); intros i Hi; [now apply vx_mirror|].
    unfold init_f. apply lsum2_ext. intros c Hc. unfold eval_bi. rewrite (H c Hc). rewrite sg_axis_even; [reflexivity| |exact Hi]. intros; now apply vx_mirror.
  - intros H. unfold momy. rewrite (rsum_ext (s2_nvx s) _ (fun _ => 0)); [rewrite rsum_zero; ring|]. intros i _. apply (odd_sum (s2_nvy s) (vy s) (fun j => init_f gam s l x y i j)); intros j Hj; [now apply vy_mirror|].
    unfold init_f. apply lsum2_ext. intros c Hc. unfold eval_bi. rewrite (H c Hc). rewrite (sg_axis_even gam (c2_T c) (s2_m s) (c2_m c) (s2_vmax s) (s2_nvy s)); [reflexivity| |exact Hj]. intros; now apply vy_mirror.
Qed.
Print Assumptions C83_init.

(** Distributing the array over x and y only gives the same values; over velocity it does not: with one vx point per device every value
    is the same, whatever the temperature (the model of a run with partition (None, None, x, None) on nvx devices). *)
Theorem C83_sharded_init : forall gam s l x y i j, (i < s2_nvx s)%nat -> (j < s2_nvy s)%nat -> shard_f gam s (s2_nvx s) (s2_nvy s) l x y i j = init_f gam s l x y i j.
Proof.
  intros gam s l x y i j Hi Hj. unfold shard_f, init_f. apply lsum2_ext. intros c _. rewrite !Nat.div_small, !Nat.mod_small by assumption. cbn [Nat.mul Nat.add]. reflexivity.
Qed.
Print Assumptions C83_sharded_init.
Theorem C83_velocity_sharding_refuted : forall gam s l x y i j, sp_ok s ->
  shard_f gam s 1 1 l x y i j = fold_right (fun c r => c2_n c x y + r) 0 l / (2 * s2_vmax s) ^ 2.
Proof.
  intros gam s l x y i j (A & B & V). unfold shard_f. unfold Rdiv. change (fold_right (fun c r => c2_n c x y + r) 0 l) with (lsum2 (fun c => c2_n c x y) l). rewrite lsum2_scal_r. apply lsum2_ext. intros c _.
  unfold eval_bi, sg_axis. rewrite !Nat.mod_1_r. cbn [rsum]. change (INR 1) with 1.
  pose proof (sg_raw_pos gam (c2_T c) (s2_m s) (c2_m c) (c2_ux c) (fun k => vx s (i / 1 * 1 + k)%nat) 0). pose proof (sg_raw_pos gam (c2_T c) (s2_m s) (c2_m c) (c2_uy c) (fun k => vy s (j / 1 * 1 + k)%nat) 0). field. repeat split; lra.
Qed.
Print Assumptions C83_velocity_sharding_refuted.

(** A heavy species loaded as a Maxwellian at temperature one is not at rest under Krook: the target is the Maxwellian of unit mass. *)
Theorem C83_krook_mass_refuted : forall gam, 3 * gam (3 / 2) / gam (5 / 2) = 2 ->
  exists s c nu dt, sp_ok s /\ s2_m s = 4 /\ c2_T c = 1 /\ c2_m c = 2 /\ c2_ux c = 0 /\ c2_uy c = 0 /\
    krook2 s nu dt (init_f gam s [c]) 0%nat 0%nat 1%nat 1%nat < init_f gam s [c] 0%nat 0%nat 1%nat 1%nat.
Proof.
  intros gam Hg. set (s := {| s2_q := 1; s2_m := 4; s2_vmax := 3; s2_nvx := 3; s2_nvy := 3 |}). set (c := {| c2_n := fun _ _ => 1; c2_ux := 0; c2_uy := 0; c2_T := 1; c2_m := 2 |}).
  assert (K : sp_ok s) by (repeat split; cbn; try lia; lra). exists s, c, (fun _ _ => 1), 1. repeat (split; [first [exact K|reflexivity]|]).
  destruct (C83_krook s (fun _ _ => 1) 1 (init_f gam s [c]) 0 0 K) as (_ & E & _). specialize (E 1%nat 1%nat).
  destruct (C83_init gam s [c] 0%nat 0%nat K) as (D & _). rewrite D in E. cbn [fold_right c c2_n] in E. replace (1 + 0) with 1 in E by ring. rewrite !Rmult_1_l in E.
  assert (V : vx s 0 = -2 /\ vx s 1 = 0 /\ vx s 2 = 2 /\ vy s 0 = -2 /\ vy s 1 = 0 /\ vy s 2 = 2).
  { assert (D1 : dvx s = 2 /\ dvy s = 2) by (unfold dvx, dvy; cbn [s s2_nvx s2_nvy s2_vmax]; change (INR 3) with (2 + 1); lra). destruct D1 as [D1 D2].
    rewrite (proj1 (vx_at s 0 K ltac:(cbn; lia))), (proj1 (vx_at s 1 K ltac:(cbn; lia))), (proj1 (vx_at s 2 K ltac:(cbn; lia))), (proj1 (vy_at s 0 K ltac:(cbn; lia))), (proj1 (vy_at s 1 K ltac:(cbn; lia))), (proj1 (vy_at s 2 K ltac:(cbn; lia))), D1, D2.
    cbn [s s2_vmax]. change (INR 0) with 0. change (INR 1) with 1. change (INR 2) with 2. lra. }
  destruct V as (V0 & V1 & V2 & W0 & W1 & W2).
  assert (GA : g_alpha gam 2 = sqrt 2) by (unfold g_alpha; now rewrite Hg). assert (S2 : 0 < sqrt 2) by (apply sqrt_lt_R0; lra). assert (S4 : sqrt (1 / 4) = 1 / 2) by (replace (1 / 4) with ((1 / 2) * (1 / 2)) by field; apply sqrt_square; lra).
  assert (SQ : sqrt 2 * sqrt 2 = 2) by (apply sqrt_sqrt; lra).
  assert (RA : forall ax k v, ax k = v -> sg_raw gam 1 4 2 0 ax k = exp (- (2 * v ^ 2))).
  { intros ax k v Hk. unfold sg_raw. rewrite Hk, GA, S4. f_equal. f_equal. unfold abs_pow. destruct (Req_EM_T _ 0) as [Z|Z].
    - assert (v0 : v = 0). { replace v with ((v - 0) / (sqrt 2 * (1 / 2)) * (sqrt 2 * (1 / 2))) by (field; lra). rewrite Z. ring. } rewrite v0. ring.
    - replace 2 with (INR 2) at 3 by reflexivity. rewrite Rpower_pow by (now apply Rabs_pos_lt). rewrite pow2_abs. replace (((v - 0) / (sqrt 2 * (1 / 2))) ^ 2) with (4 * v ^ 2 / (sqrt 2 * sqrt 2)) by (field; lra). rewrite SQ. field. }
  set (a := exp (- (2 * 2 ^ 2))) in *. set (b := exp (- (1 / 2) * 2 ^ 2)). assert (AB : 0 < a < b) by (unfold a, b; split; [apply exp_pos|apply exp_increasing; lra]).
  assert (F : init_f gam s [c] 0%nat 0%nat 1%nat 1%nat = (1 / ((1 + 2 * a) * 2)) ^ 2).
  { unfold init_f, lsum2. cbn [fold_right]. unfold eval_bi, sg_axis. cbn [s c s2_nvx s2_nvy s2_m s2_vmax c2_n c2_T c2_m c2_ux c2_uy rsum]. fold s.
    rewrite (RA (vx s) 0%nat (-2) V0), (RA (vx s) 1%nat 0 V1), (RA (vx s) 2%nat 2 V2), (RA (vy s) 0%nat (-2) W0), (RA (vy s) 1%nat 0 W1), (RA (vy s) 2%nat 2 W2).
    replace ((-2) ^ 2) with (2 ^ 2) by ring. fold a. replace (- (2 * 0 ^ 2)) with 0 by ring. rewrite exp_0. replace (INR 3) with 3 by (cbn; ring). field. lra. }
  assert (M : unit_maxwellian s 1 1 = (1 / ((1 + 2 * b) * 2)) ^ 2).
  { rewrite <- maxw_unit by exact K. unfold maxw. cbn [s s2_nvx s2_nvy rsum]. fold s. rewrite V0, V1, V2, W0, W1, W2. replace ((-2) ^ 2) with (2 ^ 2) by ring. fold b. replace (- (1 / 2) * 0 ^ 2) with 0 by ring. rewrite exp_0.
    assert (D1 : dvx s = 2 /\ dvy s = 2) by (unfold dvx, dvy; cbn [s s2_nvx s2_nvy s2_vmax]; replace (INR 3) with 3 by (cbn; ring); lra). destruct D1 as [D1 D2]. rewrite D1, D2. field. lra. }
  rewrite F, M in *. set (d := exp (- (1))) in E. assert (Hd : 0 < d < 1) by (pose proof (exp_increasing (- (1)) 0 ltac:(lra)) as X; rewrite exp_0 in X; unfold d; split; [apply exp_pos|exact X]).
  assert (L : 1 / ((1 + 2 * b) * 2) < 1 / ((1 + 2 * a) * 2)) by (unfold Rdiv; rewrite !Rmult_1_l; apply Rinv_lt_contravar; nra). assert (0 < 1 / ((1 + 2 * b) * 2)) by (apply Rdiv_lt_0_compat; lra).
  set (p := 1 / ((1 + 2 * a) * 2)) in *. set (q := 1 / ((1 + 2 * b) * 2)) in *. assert (q ^ 2 < p ^ 2) by nra. nra.
Qed.
Print Assumptions C83_krook_mass_refuted.

(** * Dougherty collisions *)
Lemma doug_central nv v dv nu dt f f' : doug_step nv v dv nu dt f f' <->
  implicit_step nv (central nv dv (fun i => v_edge v i - col_u nv v dv f) (fun _ => col_T nv v dv f) (fun _ => nu) dt) f f'.
Proof. rewrite step_solves. unfold doug_step. split; intros H i Hi; rewrite <- (H i Hi); reflexivity. Qed.
Lemma doug_number nv v dv nu dt f f' : doug_step nv v dv nu dt f f' -> rsum nv f' = rsum nv f.
Proof. intros H. apply doug_central in H. exact (C32_density_conserved CentralDifferencing _ _ _ _ _ _ _ _ H). Qed.
(** One axis: the number in the row is kept exactly; for a row with a positive number and a resolved temperature T, the momentum changes
    only through the two end cells, while the energy also falls by a fixed fraction of n dv^2 / 4 per step. *)
Theorem C83_dougherty_row : forall m v dv nu dt f f', 0 < dv -> (forall i, (i < m)%nat -> v (S i) = v i + dv) -> doug_step (S m) v dv nu dt f f' ->
  rsum (S m) f' = rsum (S m) f /\
  (0 < rsum (S m) f ->
   let n := rsum (S m) f in let u := rsum (S m) (fun i => f i * v i) / n in let T := rsum (S m) (fun i => f i * (v i - u) ^ 2) / n in
   let P := fun g => rsum (S m) (fun i => g i * v i) in let E := fun g => rsum (S m) (fun i => g i * v i ^ 2) in
   let vL := v 0%nat - dv / 2 in let vR := v m + dv / 2 in let k := dt * nu in
   1 / 10 ^ 12 <= T ->
   (1 + k) * (P f' - P f) = k * ((vL - u) * f' 0%nat / 2 + (vR - u) * f' m / 2 - T * (f' m - f' 0%nat) / dv) /\
   (1 + 2 * k) * (E f' - E f) = - (2 * k) * n * (dv ^ 2 / 4) + 2 * k * u * (P f' - P f)
     + k * (vL * (vL - u) * f' 0%nat + vR * (vR - u) * f' m - 2 * T * (vR * f' m - vL * f' 0%nat) / dv)).
Proof.
  intros m v dv nu dt f f' Hdv Hg H. split; [exact (doug_number _ _ _ _ _ _ _ H)|]. intros Hn n u T P E vL vR k HT.
  assert (T0 : 0 < T) by (apply Rlt_le_trans with (1 / 10 ^ 12); [apply Rdiv_lt_0_compat; [lra|apply pow_lt; lra]|exact HT]).
  assert (Hu : col_u (S m) v dv f = u). { unfold col_u, safe_n, col_n. fold n. destruct (Rlt_dec 0 (n * dv)) as [_|N]; [|exfalso; apply N; apply Rmult_lt_0_compat; assumption]. unfold u. field. split; unfold n; lra. }
  assert (Ht : col_T (S m) v dv f = T).
  { unfold col_T. rewrite Hu. unfold safe_n, col_n. fold n. destruct (Rlt_dec 0 (n * dv)) as [_|N]; [|exfalso; apply N; apply Rmult_lt_0_compat; assumption].
    replace (rsum (S m) (fun i => f i * (v i - u) ^ 2) * dv / (n * dv)) with T by (unfold T; field; split; unfold n; lra). now apply Rmax_left. }
  set (b := 1 / (2 * T)). assert (Hb : b <> 0) by (unfold b; apply Rgt_not_eq, Rdiv_lt_0_compat; lra). assert (HD : 1 / (2 * b) = T) by (unfold b; field; lra).
  assert (H' : implicit_step (S m) (get_operator CentralDifferencing (S m) dv (beta_drift v (mean_velocity (S m) v f) b (thermal_D b)) (fun _ => thermal_D b) (fun _ => nu) dt) f f').
  { cbn [get_operator]. apply step_solves. intros i Hi. rewrite <- (H i Hi) at 1. change (mean_velocity (S m) v f) with u. change (thermal_D b) with (1 / (2 * b)). rewrite HD.
    assert (BD : forall j, beta_drift v u b T j = v_edge v j - u) by (intros j; unfold beta_drift, b; field; lra).
    unfold mv, central, doug_op. cbn [diagonal upper lower]. rewrite Hu, Ht, !BD. destruct i as [|i]; rewrite ?BD; reflexivity. }
  pose proof (C50_dougherty_momentum m v dv b nu dt f f' Hdv Hb Hg ltac:(lra) H') as M. pose proof (C50_dougherty_energy m v dv b nu dt f f' Hdv Hb Hg ltac:(lra) H') as N.
  cbv zeta in M, N. fold n in M, N. fold u in M, N. rewrite HD in M, N. fold T in N. fold vL vR in M, N. fold k in M, N. split.
  - exact M.
  - unfold E, P. rewrite N. ring.
Qed.
Print Assumptions C83_dougherty_row.
(** The header of fokker_planck.py says density, mean velocity and energy are conserved exactly along the axis. The last two are not. *)
Definition cells3 (a b c : R) (i : nat) : R := match i with 0%nat => a | 1%nat => b | _ => c end.
Theorem C83_dougherty_exact_refuted :
  (exists v f f', doug_step 2 v 1 1 1 f f' /\ rsum 2 (fun i => f' i * v i) <> rsum 2 (fun i => f i * v i)) /\
  (exists v f f', doug_step 3 v 1 1 1 f f' /\ rsum 3 (fun i => f' i * v i) = rsum 3 (fun i => f i * v i) /\ rsum 3 (fun i => f' i * v i ^ 2) < rsum 3 (fun i => f i * v i ^ 2)).
Proof.
  split.
  - exists (cells3 (-1/2) (1/2) 0), (cells3 3 1 0), (cells3 (34/11) (10/11) 0). split.
    + assert (Hu : col_u 2 (cells3 (-1/2) (1/2) 0) 1 (cells3 3 1 0) = -1/4). { unfold col_u, safe_n, col_n. cbn [rsum cells3]. destruct (Rlt_dec _ _) as [_|N]; [field|exfalso; apply N; lra]. }
      assert (Ht : col_T 2 (cells3 (-1/2) (1/2) 0) 1 (cells3 3 1 0) = 3/16).
      { unfold col_T. rewrite Hu. unfold safe_n, col_n. cbn [rsum cells3]. destruct (Rlt_dec _ _) as [_|N]; [|exfalso; apply N; lra]. rewrite Rmax_left; [field|]. apply Rle_trans with (1 / 10); [|lra]. unfold Rdiv. rewrite !Rmult_1_l. apply Rinv_le_contravar; [lra|]. pose proof (Rle_pow 10 1 12 ltac:(lra) ltac:(lia)). lra. }
      intros i Hi. unfold mv, doug_op. cbn [diagonal upper lower]. rewrite Hu, Ht. unfold v_edge. destruct i as [|[|i]]; [| |lia]; cbn [cells3 Nat.ltb Nat.leb]; field.
    + cbn [rsum cells3]. lra.
  - exists (cells3 (-1) 0 1), (cells3 1 2 1), (cells3 (8/9) (20/9) (8/9)). split; [|split; cbn [rsum cells3]; lra].
    assert (Hu : col_u 3 (cells3 (-1) 0 1) 1 (cells3 1 2 1) = 0). { unfold col_u, safe_n, col_n. cbn [rsum cells3]. destruct (Rlt_dec _ _) as [_|N]; [field|exfalso; apply N; lra]. }
    assert (Ht : col_T 3 (cells3 (-1) 0 1) 1 (cells3 1 2 1) = 1/2).
    { unfold col_T. rewrite Hu. unfold safe_n, col_n. cbn [rsum cells3]. destruct (Rlt_dec _ _) as [_|N]; [|exfalso; apply N; lra]. rewrite Rmax_left; [field|]. apply Rle_trans with (1 / 10); [|lra]. unfold Rdiv. rewrite !Rmult_1_l. apply Rinv_le_contravar; [lra|]. pose proof (Rle_pow 10 1 12 ltac:(lra) ltac:(lia)). lra. }
    intros i Hi. unfold mv, doug_op. cbn [diagonal upper lower]. rewrite Hu, Ht. unfold v_edge. destruct i as [|[|[|i]]]; [| | |lia]; cbn [cells3 Nat.ltb Nat.leb]; field.
Qed.
Print Assumptions C83_dougherty_exact_refuted.
(** The two passes and Krook together keep the density at every point, whatever the collision frequencies. *)
Theorem C83_collisions_density : forall G s fp kr dt f f' x y, sp_ok s -> collide2 G s fp kr dt f f' -> (x < g_nx G)%nat -> (y < g_ny G)%nat ->
  dens2 s f' x y = dens2 s f x y.
Proof.
  intros G s fp kr dt f f' x y K (h & Hh & ->) Hx Hy.
  assert (E : dens2 s h x y = dens2 s f x y).
  { destruct fp as [nu|]; [|now subst h]. destruct Hh as (g & A & B). unfold dens2. f_equal.
    transitivity (rsum (s2_nvx s) (fun i => rsum (s2_nvy s) (fun j => g x y i j))).
    - apply rsum_ext. intros i Hi. exact (doug_number _ _ _ _ _ _ _ (B x y i Hx Hy Hi)).
    - rewrite rsum_swap, (rsum_swap (s2_nvx s)). apply rsum_ext. intros j Hj. exact (doug_number _ _ _ _ _ _ _ (A x y j Hx Hy Hj)). }
  destruct kr as [nu|]; [|exact E]. now rewrite (proj1 (C83_krook s nu dt h x y K)).
Qed.
Print Assumptions C83_collisions_density.

(** * Filter *)
Lemma hl_smul n alpha order a g : hl_axis n alpha order a g = smul n (fun k => (hl_sigma n alpha order k, 0)) a g.
Proof. unfold hl_axis, smul. apply irfft_ext. intros k _. apply cscal_mul. Qed.
(** The damping of wave number k is 1 for the mean, decreasing in k and exp(-alpha) at the shortest wave; along the filtered axis the
    sum is kept, the sum of squares does not grow, and a wave of number m < n/2 is multiplied by its factor. *)
Theorem C83_filter : forall n alpha order a, (2 <= n)%nat -> (0 < order)%nat -> 0 <= alpha ->
  hl_sigma n alpha order 0 = 1 /\ hl_sigma n alpha order (n / 2) = exp (- alpha) /\ (forall k, 0 < hl_sigma n alpha order k <= 1) /\
  (forall k k', (k <= k')%nat -> hl_sigma n alpha order k' <= hl_sigma n alpha order k) /\
  rsum n (hl_axis n alpha order a) = rsum n a /\
  rsum n (fun g => hl_axis n alpha order a g ^ 2) <= rsum n (fun g => a g ^ 2) /\
  (forall m A phi g, (0 < m)%nat -> (2 * m < n)%nat -> (g < n)%nat -> (forall h, (h < n)%nat -> a h = A * cos (2 * PI * INR m * INR h / INR n + phi)) -> hl_axis n alpha order a g = hl_sigma n alpha order m * a g).
Proof.
  intros n alpha order a Hn Ho Ha. assert (N2 : 0 < INR (n / 2)) by (apply lt_0_INR; apply Nat.div_str_pos; lia).
  assert (S0 : hl_sigma n alpha order 0 = 1). { unfold hl_sigma. change (INR 0) with 0. unfold Rdiv. rewrite Rmult_0_l, pow_i by lia. rewrite Rmult_0_r. apply exp_0. }
  assert (MO : forall k k', (k <= k')%nat -> hl_sigma n alpha order k' <= hl_sigma n alpha order k).
  { intros k k' Hk. unfold hl_sigma. assert (P : (INR k / INR (n / 2)) ^ (2 * order) <= (INR k' / INR (n / 2)) ^ (2 * order)).
    { apply pow_incr. split; [apply Rmult_le_pos; [apply pos_INR|apply Rlt_le, Rinv_0_lt_compat; exact N2]|]. apply Rmult_le_compat_r; [apply Rlt_le, Rinv_0_lt_compat; exact N2|apply le_INR; exact Hk]. }
    destruct (Rle_lt_or_eq_dec (- alpha * (INR k' / INR (n / 2)) ^ (2 * order)) (- alpha * (INR k / INR (n / 2)) ^ (2 * order)) ltac:(nra)) as [L|L]; [apply Rlt_le, exp_increasing, L|rewrite L; lra]. }
  assert (B : forall k, 0 < hl_sigma n alpha order k <= 1) by (intros k; split; [apply exp_pos|rewrite <- S0; apply MO; lia]).
  split; [exact S0|]. split.
  { unfold hl_sigma. replace (INR (n / 2) / INR (n / 2)) with 1 by (field; lra). rewrite pow1. f_equal. ring. }
  split; [exact B|]. split; [exact MO|]. split; [|split].
  - rewrite (rsum_ext n _ (smul n (fun k => (hl_sigma n alpha order k, 0)) a)) by (intros; apply hl_smul). apply smul_mean; [lia|exact S0].
  - rewrite (rsum_ext n (fun g => hl_axis n alpha order a g ^ 2) (fun g => smul n (fun k => (hl_sigma n alpha order k, 0)) a g * smul n (fun k => (hl_sigma n alpha order k, 0)) a g)) by (intros; rewrite hl_smul; ring).
    rewrite (rsum_ext n (fun g => a g ^ 2) (fun g => a g * a g)) by (intros; ring). apply smul_energy; [lia|]. intros k _. unfold cabs2. cbn [fst snd]. pose proof (B k). nra.
  - intros m A phi g Hm Hmn Hg Hw. rewrite hl_smul. rewrite (smul_ext n _ (fun k => (hl_sigma n alpha order k, 0)) a (fun h => A * cos (angle n m h + phi))) by (intros; try reflexivity; rewrite Hw by assumption; unfold angle; reflexivity).
    rewrite (Hw g Hg). fold (angle n m g).
    apply (fft_inj n (smul n (fun k => (hl_sigma n alpha order k, 0)) (fun h => A * cos (angle n m h + phi))) (fun h => hl_sigma n alpha order m * (A * cos (angle n m h + phi)))); [|exact Hg].
    intros k Hk. rewrite fft_smul by lia. rewrite (fft_ext n (fun h => hl_sigma n alpha order m * (A * cos (angle n m h + phi))) (fun h => (hl_sigma n alpha order m * A) * cos (angle n m h + phi))) by (intros; ring).
    rewrite !fft_wave by lia. unfold eff. destruct (Nat.eqb_spec k m) as [->|Kn].
    + destruct (Nat.eqb_spec m 0); [lia|]. destruct (Nat.eqb_spec (2 * m) n); [lia|]. cbn [orb]. apply cplx_eq; unfold cmul, cscal; cbn [fst snd]; field.
    + destruct (_ || _)%bool; apply cplx_eq; unfold cmul, c0; cbn [fst snd]; ring.
Qed.
Print Assumptions C83_filter.
(** The filter keeps the number of particles whatever dimensions are listed; an order of 0 is not refused and removes a fraction of it. *)
Theorem C83_filter_number : forall dimx dimy nx ny s alpha order f, (2 <= nx)%nat -> (2 <= ny)%nat -> (0 < order)%nat -> 0 <= alpha ->
  sum4 nx ny s (hou_li2 dimx dimy nx ny alpha order f) = sum4 nx ny s f /\ sum4 nx ny s (sq4 (hou_li2 dimx dimy nx ny alpha order f)) <= sum4 nx ny s (sq4 f).
Proof.
  intros dimx dimy nx ny s alpha order f Hx Hy Ho Ha. set (g := if dimx then (fun x y i j => hl_axis nx alpha order (fun x' => f x' y i j) x) else f).
  assert (A : keeps nx ny s f g).
  { unfold g. destruct dimx; [|split; lra]. split; rewrite !sum4_x; four; eapply C83_filter; try eassumption. }
  assert (B : keeps nx ny s g (hou_li2 dimx dimy nx ny alpha order f)).
  { unfold hou_li2. fold g. destruct dimy; [|split; lra]. split; rewrite !sum4_y; four.
    - exact (proj1 (proj2 (proj2 (proj2 (proj2 (C83_filter ny alpha order (fun y' => g i y' i0 i1) Hy Ho Ha)))))).
    - exact (proj1 (proj2 (proj2 (proj2 (proj2 (proj2 (C83_filter ny alpha order (fun y' => g i y' i0 i1) Hy Ho Ha))))))). }
  exact (keeps_trans _ _ _ _ _ _ A B).
Qed.
Print Assumptions C83_filter_number.
Theorem C83_filter_order_refuted : forall n alpha a, (2 <= n)%nat -> rsum n (hl_axis n alpha 0 a) = exp (- alpha) * rsum n a.
Proof.
  intros n alpha a Hn. rewrite (rsum_ext n _ (fun g => exp (- alpha) * a g)); [apply rsum_scal|]. intros g Hg. rewrite hl_smul.
  rewrite (smul_ext n _ (fun _ => (exp (- alpha), 0)) a a) by (intros; try reflexivity; unfold hl_sigma; change (2 * 0)%nat with 0%nat; rewrite pow_O, Rmult_1_r; reflexivity).
  apply (fft_inj n (smul n (fun _ => (exp (- alpha), 0)) a) (fun h => exp (- alpha) * a h)); [|exact Hg]. intros k Hk. rewrite fft_smul by lia.
  rewrite (fft_emb n (fun h => exp (- alpha) * a h)), fft_emb. unfold cfft. rewrite <- csum_mul. apply csum_ext. intros h _. unfold eff. destruct (_ || _)%bool; unfold emb; apply cplx_eq; unfold cmul; cbn [fst snd]; ring.
Qed.
Print Assumptions C83_filter_order_refuted.

(** * Configuration *)
(** A component's profile: only the bases "uniform" and "sine" are accepted, and both mean the same formula, so an amplitude given with
    "uniform" modulates the density. *)
Theorem C83_profile : forall p gx gy,
  (density_prof p gx gy <> None <-> dp_basis p = lit "uniform" \/ dp_basis p = lit "sine") /\
  (forall n, density_prof p gx gy = Some n -> forall x y,
     n x y = (match dp_base p with Some b => b | None => 1 end + match dp_amp p with Some a => a | None => 0 end *
              cos (match dp_kx p with Some k => k | None => 0 end * gx x + match dp_ky p with Some k => k | None => 0 end * gy y))
             * match dp_ex p with Some e => e (gx x) | None => 1 end * match dp_ey p with Some e => e (gy y) | None => 1 end).
Proof.
  intros p gx gy. unfold density_prof. destruct (str_eqb (dp_basis p) (lit "uniform")) eqn:A; [|destruct (str_eqb (dp_basis p) (lit "sine")) eqn:B]; cbn [orb negb]; split.
  - split; [intros _; left; now apply str_eqb_eq|discriminate].
  - intros n H x y. injection H as <-. unfold odef. destruct (dp_ex p), (dp_ey p); ring.
  - split; [intros _; right; now apply str_eqb_eq|discriminate].
  - intros n H x y. injection H as <-. unfold odef. destruct (dp_ex p), (dp_ey p); ring.
  - split; [now intros H|]. intros [H|H]; apply str_eqb_eq in H; congruence.
  - discriminate.
Qed.
Print Assumptions C83_profile.
Theorem C83_uniform_refuted : exists p n, dp_basis p = lit "uniform" /\ density_prof p (fun i => INR i) (fun _ => 0) = Some n /\ n 0%nat 0%nat <> n 1%nat 0%nat.
Proof.
  exists {| dp_basis := lit "uniform"; dp_base := None; dp_amp := Some 1; dp_kx := Some PI; dp_ky := None; dp_ex := None; dp_ey := None |}. eexists. split; [reflexivity|]. split.
  - unfold density_prof. cbn [dp_basis dp_base dp_amp dp_kx dp_ky dp_ex dp_ey]. change (str_eqb (lit "uniform") (lit "uniform")) with true. cbn [orb negb]. reflexivity.
  - cbv beta. unfold odef. change (INR 0) with 0. change (INR 1) with 1. replace (PI * 0 + 0 * 0) with 0 by ring. replace (PI * 1 + 0 * 0) with PI by ring. rewrite cos_0, cos_PI. lra.
Qed.
Print Assumptions C83_uniform_refuted.

(** The requested device mesh: accepted exactly when the partition names four entries among the mesh axes and the mesh has one size per
    axis multiplying to the number of devices; without a shape all devices go on the first axis. *)
Theorem C83_sharding_accepts : forall c devices, sh_on c = true ->
  let axes := or_default (sh_axes c) [lit "x"] in let part := or_default (sh_part c) [Some (lit "x"); None; None; None] in
  (make_dist_sharding c devices <> None <->
     List.length part = 4%nat /\ (forall a, In (Some a) part -> In a axes) /\ (0 < devices)%nat /\
     match sh_shape c with Some (n :: l) => List.length (n :: l) = List.length axes /\ lprod (n :: l) = devices | _ => True end) /\
  (forall mesh p, make_dist_sharding c devices = Some (Some (mesh, p)) -> p = part /\ map fst mesh = axes /\ lprod (map snd mesh) = devices).
Proof.
  intros c devices On axes part. unfold make_dist_sharding. rewrite On. cbn [negb]. fold axes part.
  assert (NE : axes <> []) by (unfold axes, or_default; destruct (sh_axes c); discriminate).
  assert (AE : forall a, existsb (str_eqb a) axes = true <-> In a axes).
  { intros a. rewrite existsb_exists. split; [intros (b & Hb & E); apply str_eqb_eq in E; now subst|intros H; exists a; split; [exact H|apply str_eqb_refl]]. }
  assert (FA : forallb (fun p => match p with None => true | Some a => existsb (str_eqb a) axes end) part = true <-> forall a, In (Some a) part -> In a axes).
  { rewrite forallb_forall. split; [intros H a Ha; apply AE; exact (H _ Ha)|intros H [a|] Ha; [apply AE; auto|reflexivity]]. }
  assert (LP : forall k, lprod (repeat 1%nat k) = 1%nat) by (induction k as [|k IH]; [reflexivity|]; cbn [repeat lprod fold_right]; fold (lprod (repeat 1%nat k)); lia).
  set (shape := match sh_shape c with Some (a :: l) => a :: l | _ => devices :: repeat 1%nat (List.length axes - 1) end).
  assert (SH : match sh_shape c with Some (n :: l) => shape = n :: l | _ => List.length shape = List.length axes /\ lprod shape = devices end).
  { unfold shape. destruct (sh_shape c) as [[|n l]|]; try reflexivity; (split; [cbn [List.length]; rewrite repeat_length; destruct axes; [congruence|cbn [List.length]; lia]|cbn [lprod fold_right]; fold (lprod (repeat 1%nat (List.length axes - 1))); rewrite LP; lia]). }
  destruct (Nat.eqb_spec (List.length part) 4) as [P|P]; cbn [negb]; [|split; [split; [now intros H|intros (H & _); congruence]|discriminate]].
  destruct (forallb _ part) eqn:F; cbn [negb]; [|split; [split; [now intros H|intros (_ & H & _); apply FA in H; congruence]|discriminate]].
  destruct (Nat.eqb_spec devices 0) as [D|D]; [split; [split; [now intros H|intros (_ & _ & H & _); lia]|discriminate]|].
  destruct (Nat.eqb_spec (List.length shape) (List.length axes)) as [L|L]; cbn [negb].
  2:{ split; [split; [now intros H|intros (_ & _ & _ & H)]|discriminate]. destruct (sh_shape c) as [[|n l]|]; first [tauto|rewrite SH in L; tauto]. }
  destruct (Nat.eqb_spec (lprod shape) devices) as [Q|Q]; cbn [negb].
  2:{ split; [split; [now intros H|intros (_ & _ & _ & H)]|discriminate]. destruct (sh_shape c) as [[|n l]|]; first [tauto|rewrite SH in Q; tauto]. }
  split.
  - split; [intros _|discriminate]. split; [exact P|]. split; [now apply FA|]. split; [lia|]. destruct (sh_shape c) as [[|n l]|]; try exact I. rewrite SH in L, Q. now split.
  - intros mesh p H. injection H as <- <-. split; [reflexivity|]. clear - L Q. revert L. assert (E1 : forall (a : list str) (b : list nat), List.length b = List.length a -> map fst (combine a b) = a /\ map snd (combine a b) = b).
    { induction a as [|a0 a IH]; intros [|b0 b] H; try discriminate; [now split|]. cbn [combine map]. cbn [List.length] in H. injection H as H. destruct (IH b H) as [-> ->]. now split. }
    intros L. destruct (E1 axes shape L) as [-> ->]. now split.
Qed.
Print Assumptions C83_sharding_accepts.

(** The species of a run: those listed, or else one electron species with every density entry whose name starts with "species-". *)
Theorem C83_species : forall terms keys nvx nvy vmax,
  (terms <> [] -> species_set terms keys nvx nvy vmax = Some terms) /\
  (terms = [] ->
     (species_set terms keys nvx nvy vmax <> None <-> (exists k, In k keys /\ is_prefix (lit "species-") k = true) /\ nvx <> None /\ nvy <> None /\ vmax <> None) /\
     (forall l, species_set terms keys nvx nvy vmax = Some l -> exists s comps, l = [((lit "electron", s), comps)] /\ s2_q s = -1 /\ s2_m s = 1 /\
        Some (s2_nvx s) = nvx /\ Some (s2_nvy s) = nvy /\ Some (s2_vmax s) = vmax /\ (forall k, In k comps <-> In k keys /\ is_prefix (lit "species-") k = true))).
Proof.
  intros terms keys nvx nvy vmax. split; [intros H; unfold species_set; destruct terms; [congruence|reflexivity]|]. intros ->. unfold species_set.
  assert (FI : forall k, In k (filter (is_prefix (lit "species-")) keys) <-> In k keys /\ is_prefix (lit "species-") k = true) by (intros; apply filter_In).
  destruct (filter (is_prefix (lit "species-")) keys) as [|k0 ks] eqn:F.
  - split; [split; [now intros H|intros ((k & Hk) & _); now apply FI in Hk]|discriminate].
  - assert (X : exists k, In k keys /\ is_prefix (lit "species-") k = true) by (exists k0; apply FI; now left).
    destruct nvx as [a|]; [destruct nvy as [b|]; [destruct vmax as [v|]|]|].
    2-4: split; [split; [now intros H|intros (_ & H1 & H2 & H3); congruence]|discriminate].
    split; [split; [intros _; repeat split; [exact X|discriminate|discriminate|discriminate]|discriminate]|].
    intros l H. injection H as <-. eexists _, _. split; [reflexivity|]. cbn [s2_q s2_m s2_nvx s2_nvy s2_vmax]. repeat split; try reflexivity; apply FI; assumption.
Qed.
Print Assumptions C83_species.

(** * The hypotheses can be met *)
(** The value of the cell that contains the point: an interpolant that is exact at the nodes. *)
Definition cell_cub : cubic2 := fun s a u w => a (Z.to_nat (floor ((u + s2_vmax s) / dvx s))) (Z.to_nat (floor ((w + s2_vmax s) / dvy s))).
Lemma cell_cub_exact s : sp_ok s -> node_exact cell_cub s.
Proof.
  intros K a i j Hi Hj. pose proof (dvx_pos s K). pose proof (dvy_pos s K). unfold cell_cub. rewrite (proj1 (vx_at s i K Hi)), (proj1 (vy_at s j K Hj)).
  rewrite (floor_unique _ (Z.of_nat i)), (floor_unique _ (Z.of_nat j)), !Nat2Z.id; [reflexivity| |].
  - replace ((- s2_vmax s + (INR j + 1 / 2) * dvy s + s2_vmax s) / dvy s) with (INR j + 1 / 2) by (field; lra). rewrite <- INR_IZR_INZ. lra.
  - replace ((- s2_vmax s + (INR i + 1 / 2) * dvx s + s2_vmax s) / dvx s) with (INR i + 1 / 2) by (field; lra). rewrite <- INR_IZR_INZ. lra.
Qed.
Definition ions : sp2 := {| s2_q := 1; s2_m := 1836; s2_vmax := 6; s2_nvx := 32; s2_nvy := 32 |}.
Example C83_nonvacuous : sp_ok ions /\ node_exact cell_cub ions /\ s2_nvx ions = s2_nvy ions /\
  (exists bz dt, - (s2_q ions / s2_m ions * bz * dt) = PI / 2) /\ (exists e dt, s2_q ions / s2_m ions * e * dt = IZR 3 * dvx ions) /\
  rsum 4 (fun g => shift_axis 4 1 1 (fun x => INR x) g) = 6 /\ shift_axis 4 1 1 (fun x => INR x) 0 = 3 /\
  (exists f f', doug_step 3 (cells3 (-1) 0 1) 1 1 1 f f' /\ f 0%nat <> f' 0%nat /\ 0 < rsum 3 f) /\
  make_dist_sharding {| sh_on := true; sh_axes := [lit "x"; lit "y"]; sh_shape := Some [2%nat; 2%nat]; sh_part := [Some (lit "x"); Some (lit "y"); None; None] |} 4 <> None /\
  make_dist_sharding {| sh_on := true; sh_axes := [lit "x"]; sh_shape := Some [2%nat]; sh_part := [] |} 4 = None /\
  species_set [] [lit "quasineutrality"; lit "species-background"] (Some 64%nat) (Some 64%nat) (Some 6) <> None.
Proof.
  assert (K : sp_ok ions) by (repeat split; cbn; try lia; lra). pose proof (shift_moved 4 1 1 (fun x => INR x) ltac:(lia) ltac:(lra)) as (M1 & _ & M3 & _).
  split; [exact K|]. split; [now apply cell_cub_exact|]. split; [reflexivity|]. split; [exists (-1), (1836 * (PI / 2)); cbn [ions s2_q s2_m]; field|].
  split; [exists 1836, (IZR 3 * dvx ions); cbn [ions s2_q s2_m]; field|]. split; [etransitivity; [exact M1|]; cbn; lra|].
  split; [rewrite (M3 1%Z ltac:(lra) 0%nat ltac:(lia)); change (INR 3 = 3); cbn; lra|]. split.
  { destruct (proj2 C83_dougherty_exact_refuted) as (v & f & f' & H & _ & L). clear v f f' H L.
    exists (cells3 1 2 1), (cells3 (8/9) (20/9) (8/9)). split; [|cbn [rsum cells3]; split; lra].
    assert (Hu : col_u 3 (cells3 (-1) 0 1) 1 (cells3 1 2 1) = 0). { unfold col_u, safe_n, col_n. cbn [rsum cells3]. destruct (Rlt_dec _ _) as [_|N]; [field|exfalso; apply N; lra]. }
    assert (Ht : col_T 3 (cells3 (-1) 0 1) 1 (cells3 1 2 1) = 1/2).
    { unfold col_T. rewrite Hu. unfold safe_n, col_n. cbn [rsum cells3]. destruct (Rlt_dec _ _) as [_|N]; [|exfalso; apply N; lra]. rewrite Rmax_left; [field|]. apply Rle_trans with (1 / 10); [|lra]. unfold Rdiv. rewrite !Rmult_1_l. apply Rinv_le_contravar; [lra|]. pose proof (Rle_pow 10 1 12 ltac:(lra) ltac:(lia)). lra. }
    intros i Hi. unfold mv, doug_op. cbn [diagonal upper lower]. rewrite Hu, Ht. unfold v_edge. destruct i as [|[|[|i]]]; [| | |lia]; cbn [cells3 Nat.ltb Nat.leb]; field. }
  split; [vm_compute; discriminate|]. split; [vm_compute; reflexivity|]. unfold species_set. cbn [filter]. change (is_prefix (lit "species-") (lit "quasineutrality")) with false. change (is_prefix (lit "species-") (lit "species-background")) with true. cbv iota. discriminate.
Qed.
