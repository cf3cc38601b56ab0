(** Properties C57-C58: the spectral velocity push and the Hou-Li filter. *)
From Coq Require Import Psatz.
From Verif Require Import RSum Pic PicProofs PicFourier Dft Vlasov VlasovProofs VlasovProofs2 VlasovProps.
Local Open Scope R_scope.

(* ------------------------------------------------------------------------------------------------ *)
(** C57: the spectral velocity push. A species of charge q and mass m in the field e and the ponderomotive
    term pond is accelerated by (q e + q^2/m pond)/m at each position. *)
Theorem C57_number : forall s e pond dt f i, Nat.Even (sp_nv s) -> (0 < sp_nv s)%nat ->
  rsum (sp_nv s) (fun j => vel_push s e pond dt f i j) = rsum (sp_nv s) (fun j => f i j).
Proof.
  intros s e pond dt f i He Hn. unfold vel_push.
  rewrite (rsum_ext _ _ (space_col (sp_nv s) (sp_dv s) (dt * sp_accel s e pond i) (f i))) by (intros; apply vel_row_col).
  now apply space_col_mass.
Qed.
Print Assumptions C57_number.

Theorem C57_whole_cells : forall s e pond dt f i (c : Z) j, Nat.Even (sp_nv s) -> (j < sp_nv s)%nat -> sp_vmin s < sp_vmax s ->
  (sp_q s * e i + sp_q s ^ 2 / sp_m s * pond i) / sp_m s * dt = IZR c * ((sp_vmax s - sp_vmin s) / INR (sp_nv s)) ->
  vel_push s e pond dt f i j = f i (wrap (sp_nv s) (Z.of_nat j - c)).
Proof.
  intros s e pond dt f i c j He Hj Hv Ha. unfold vel_push. rewrite vel_row_col. apply (space_col_cells _ _ _ (f i) c); [exact He| |unfold sp_accel, sp_dv; lra|exact Hj].
  unfold sp_dv. assert (0 < INR (sp_nv s)) by (apply lt_0_INR; lia). apply Rgt_not_eq. apply Rdiv_lt_0_compat; lra.
Qed.
Print Assumptions C57_whole_cells.

(** A neutral species is not pushed, and without fields nothing is. *)
Theorem C57_no_force : forall s e pond dt f i j, Nat.Even (sp_nv s) -> (j < sp_nv s)%nat ->
  sp_q s = 0 \/ (e i = 0 /\ pond i = 0) \/ dt = 0 -> vel_push s e pond dt f i j = f i j.
Proof.
  intros s e pond dt f i j He Hj H. unfold vel_push. rewrite vel_row_col.
  replace (dt * sp_accel s e pond i) with 0; [now apply space_col_zero|]. unfold sp_accel, Rdiv. destruct H as [H|[[H1 H2]|H]]; [rewrite H|rewrite H1, H2|rewrite H]; ring.
Qed.
Print Assumptions C57_no_force.

(** Two kicks in the same fields are one kick of the total duration, for rows without the shortest wave. *)
Theorem C57_compose : forall s e pond dt1 dt2 f i j, Nat.Even (sp_nv s) -> (j < sp_nv s)%nat ->
  rsum (sp_nv s) (fun h => (-1) ^ h * f i h) = 0 ->
  vel_push s e pond dt2 (vel_push s e pond dt1 f) i j = vel_push s e pond (dt1 + dt2) f i j.
Proof.
  intros s e pond dt1 dt2 f i j He Hj H0. unfold vel_push. rewrite !vel_row_col. rewrite space_col_smul by exact He.
  rewrite (smul_ext _ _ (shiftM (sp_nv s) (sp_dv s) (dt2 * sp_accel s e pond i)) _ (space_col (sp_nv s) (sp_dv s) (dt1 * sp_accel s e pond i) (f i))) by (try reflexivity; intros; apply vel_row_col).
  rewrite <- space_col_smul by exact He. rewrite space_col_compose by assumption. f_equal. ring.
Qed.
Print Assumptions C57_compose.

Theorem C57_energy : forall s e pond dt f i, Nat.Even (sp_nv s) -> (0 < sp_nv s)%nat ->
  rsum (sp_nv s) (fun j => vel_push s e pond dt f i j ^ 2) <= rsum (sp_nv s) (fun j => f i j ^ 2).
Proof.
  intros s e pond dt f i He Hn. unfold vel_push.
  rewrite (rsum_ext _ (fun j => f i j ^ 2) (fun j => f i j * f i j)) by (intros; ring).
  rewrite (rsum_ext _ _ (fun j => space_col (sp_nv s) (sp_dv s) (dt * sp_accel s e pond i) (f i) j * space_col (sp_nv s) (sp_dv s) (dt * sp_accel s e pond i) (f i) j)) by (intros; rewrite vel_row_col; ring).
  now apply space_col_energy.
Qed.
Print Assumptions C57_energy.

(** One velocity column of 4 classes; the push in a unit field of a positive unit charge by one class. *)
Definition ex_sp4 : species := {| sp_q := 1; sp_m := 1; sp_nv := 4; sp_vmin := -2; sp_vmax := 2 |}.
Example C57_nonvacuous : forall j, (j < 4)%nat ->
  vel_push ex_sp4 (fun _ => 1) (fun _ => 0) 1 (fun _ h => INR h) 0%nat j = INR (wrap 4 (Z.of_nat j - 1)).
Proof.
  intros j Hj. apply (C57_whole_cells ex_sp4 (fun _ => 1) (fun _ => 0) 1 (fun _ h => INR h) 0%nat 1 j); cbn; [exists 2%nat; reflexivity|exact Hj|lra|lra].
Qed.
(** False: an accelerating force never moves particles to lower velocities. The top class reappears at the bottom. *)
Theorem C57_edge_refuted : exists s e pond dt f i, Nat.Even (sp_nv s) /\ sp_vmin s < sp_vmax s /\ 0 < sp_q s * e i /\ pond i = 0 /\ 0 < dt /\ 0 < sp_m s /\
  (forall j, (j < 3)%nat -> f i j = 0) /\ f i 3%nat = 1 /\ sp_nv s = 4%nat /\ vel_push s e pond dt f i 0%nat = 1 /\ vel_push s e pond dt f i 3%nat = 0.
Proof.
  exists ex_sp4, (fun _ => 1), (fun _ => 0), 1, (fun _ h => if Nat.eqb h 3 then 1 else 0), 0%nat.
  split; [exists 2%nat; reflexivity|]. cbn [ex_sp4 sp_vmin sp_vmax sp_q sp_m sp_nv]. split; [lra|]. split; [lra|]. split; [reflexivity|]. split; [lra|]. split; [lra|].
  split; [intros j Hj; destruct j as [|[|[|j]]]; [reflexivity..|lia]|]. split; [reflexivity|]. split; [reflexivity|].
  split; rewrite (C57_whole_cells ex_sp4 (fun _ => 1) (fun _ => 0) 1 _ 0%nat 1) by (cbn; try (exists 2%nat; reflexivity); try lia; try lra); reflexivity.
Qed.
Print Assumptions C57_edge_refuted.

(* ------------------------------------------------------------------------------------------------ *)
(** C58: the Hou-Li filter (x only). *)
Definition hlM (nx : nat) (alpha : R) (order k : nat) : cplx := (hou_li_sigma nx alpha order k, 0).
Lemma hou_li_smul nx alpha order f g j : Nat.Even nx -> hou_li nx alpha order f g j = smul nx (hlM nx alpha order) (fun i => f i j) g.
Proof. intros H. unfold hou_li. rewrite out_len_even by exact H. unfold smul. apply irfft_ext. intros k _. unfold hlM. apply cscal_mul. Qed.
Lemma sigma_0 nx alpha order : (0 < order)%nat -> hou_li_sigma nx alpha order 0 = 1.
Proof.
  intros H. unfold hou_li_sigma. change (INR 0) with 0. unfold Rdiv. rewrite Rmult_0_l. rewrite pow_i by lia. rewrite Rmult_0_r. apply exp_0.
Qed.

(** The number of particles of every velocity class is kept. *)
Theorem C58_number : forall nx alpha order f j, Nat.Even nx -> (0 < nx)%nat -> (0 < order)%nat ->
  rsum nx (fun i => hou_li nx alpha order f i j) = rsum nx (fun i => f i j).
Proof.
  intros nx alpha order f j He Hn Ho. rewrite (rsum_ext nx _ (smul nx (hlM nx alpha order) (fun i => f i j))) by (intros; now apply hou_li_smul).
  apply smul_mean; [exact Hn|]. now apply sigma_0.
Qed.
Print Assumptions C58_number.

(** A wave with m periods in the box (fewer than nx/2) keeps its phase; its amplitude is multiplied by
    exp(-alpha (m/(nx/2))^(2 order)). *)
Theorem C58_wave : forall h alpha order f j m A phi, (0 < order)%nat -> (m < h)%nat -> let nx := (2 * h)%nat in
  (forall i, (i < nx)%nat -> f i j = A * cos (2 * PI * INR m * INR i / INR nx + phi)) ->
  forall i, (i < nx)%nat -> hou_li nx alpha order f i j = exp (- alpha * (INR m / INR h) ^ (2 * order)) * f i j.
Proof.
  intros h alpha order f j m A phi Ho Hm nx Hf i Hi. assert (He : Nat.Even nx) by (exists h; reflexivity). assert (Hn : (0 < nx)%nat) by lia.
  rewrite hou_li_smul by exact He.
  set (sg := exp (- alpha * (INR m / INR h) ^ (2 * order))).
  apply (fft_inj nx (smul nx (hlM nx alpha order) (fun i => f i j)) (fun i => sg * f i j)); [|exact Hi].
  intros k Hk. rewrite fft_smul by assumption.
  assert (L : fft nx (fun i => sg * f i j) k = cscal sg (fft nx (fun i => f i j) k)) by (unfold fft; rewrite <- csum_scal; apply csum_ext; intros; creal). rewrite L.
  assert (Heff : eff nx (hlM nx alpha order) k = hlM nx alpha order k) by (unfold eff, hlM; destruct (_ || _)%bool; reflexivity). rewrite Heff.
  assert (Eh : (nx / 2 = h)%nat) by (unfold nx; rewrite Nat.mul_comm, Nat.div_mul; lia).
  rewrite (fft_ext nx (fun i => f i j) (fun i => A * cos (angle nx m i + phi))) by (intros; now apply Hf).
  destruct (Nat.eq_dec m 0) as [->|M].
  - destruct (Nat.eq_dec k 0) as [->|K].
    + unfold hlM. rewrite sigma_0 by exact Ho. unfold sg. change (INR 0) with 0. unfold Rdiv. rewrite Rmult_0_l, pow_i, Rmult_0_r, exp_0 by lia. creal.
    + assert (Z0 : fft nx (fun h => A * cos (angle nx 0 h + phi)) k = c0).
      { rewrite fft_emb. unfold cfft, emb. rewrite (csum_ext nx _ (fun h => cmul (A * cos phi, 0) (cis (angle nx 0 h - angle nx k h)))).
        2:{ intros l _. replace (angle nx 0 l) with 0 by (unfold angle; cbn [INR]; unfold Rdiv; ring). rewrite Rplus_0_l. do 2 f_equal. ring. }
        rewrite csum_mul, char_orth by lia. destruct (Nat.eqb_spec 0 k); [lia|]. creal. }
      rewrite Z0. creal.
  - rewrite fft_wave by lia. destruct (Nat.eqb_spec k m) as [->|K]; [|creal]. unfold hlM, hou_li_sigma, sg. rewrite Eh. creal.
Qed.
Print Assumptions C58_wave.

(** With alpha >= 0 the sum of squares never grows; alpha = 0 changes nothing. *)
Theorem C58_energy : forall nx alpha order f j, Nat.Even nx -> (0 < nx)%nat -> 0 <= alpha ->
  rsum nx (fun i => hou_li nx alpha order f i j ^ 2) <= rsum nx (fun i => f i j ^ 2).
Proof.
  intros nx alpha order f j He Hn Ha.
  rewrite (rsum_ext nx (fun i => f i j ^ 2) (fun i => f i j * f i j)) by (intros; ring).
  rewrite (rsum_ext nx _ (fun i => smul nx (hlM nx alpha order) (fun h => f h j) i * smul nx (hlM nx alpha order) (fun h => f h j) i)) by (intros; rewrite hou_li_smul by exact He; ring).
  apply smul_energy; [exact Hn|]. intros k Hk. unfold cabs2, hlM. cbn [fst snd].
  assert (0 < hou_li_sigma nx alpha order k <= 1); [|nra]. split; [apply exp_pos|]. unfold hou_li_sigma. rewrite <- exp_0.
  assert (P : 0 <= (INR k / INR (nx / 2)) ^ (2 * order)) by (rewrite pow_mult; apply pow_le, pow2_ge_0).
  assert (0 <= alpha * (INR k / INR (nx / 2)) ^ (2 * order)) by now apply Rmult_le_pos.
  destruct (Rle_lt_or_eq_dec 0 (alpha * (INR k / INR (nx / 2)) ^ (2 * order)) ltac:(assumption)) as [L|L].
  - left. apply exp_increasing. lra.
  - right. f_equal. lra.
Qed.
Print Assumptions C58_energy.
Theorem C58_alpha_zero : forall nx order f i j, Nat.Even nx -> (i < nx)%nat -> hou_li nx 0 order f i j = f i j.
Proof.
  intros nx order f i j He Hi. rewrite hou_li_smul by exact He. rewrite (smul_ext nx _ (fun _ => c1) _ (fun h => f h j)) by (try reflexivity; intros; unfold hlM, hou_li_sigma, c1; rewrite Ropp_0, Rmult_0_l, exp_0; reflexivity).
  exact (smul_one nx (fun h => f h j) i Hi).
Qed.
Print Assumptions C58_alpha_zero.

(** The filter commutes with the advection in x. *)
Theorem C58_commutes : forall nx alpha order dx s dt f i j, Nat.Even nx -> (i < nx)%nat ->
  hou_li nx alpha order (space_push nx dx s dt f) i j = space_push nx dx s dt (hou_li nx alpha order f) i j.
Proof.
  intros nx alpha order dx s dt f i j He Hi. rewrite hou_li_smul by exact He. unfold space_push. rewrite space_col_smul by exact He.
  rewrite (smul_ext nx _ (hlM nx alpha order) _ (smul nx (shiftM nx dx (sp_v s j * dt)) (fun i => f i j))) by (try reflexivity; intros; now apply space_col_smul).
  rewrite (smul_ext nx (shiftM nx dx (sp_v s j * dt)) (shiftM nx dx (sp_v s j * dt)) _ (smul nx (hlM nx alpha order) (fun i => f i j))) by (try reflexivity; intros; now apply hou_li_smul).
  rewrite !smul_compose by exact Hi. apply smul_ext; [|reflexivity]. intros. ring.
Qed.
Print Assumptions C58_commutes.

Example C58_nonvacuous : forall i, (i < 4)%nat -> hou_li 4 36 1 (fun h _ => 5 * cos (2 * PI * INR 1 * INR h / INR 4 + 0)) i 0%nat = exp (- 36 * (1 / 2) ^ 2) * (5 * cos (2 * PI * INR 1 * INR i / INR 4 + 0)).
Proof.
  intros i Hi. pose proof (C58_wave 2 36 1 (fun h _ => 5 * cos (2 * PI * INR 1 * INR h / INR 4 + 0)) 0 1 5 0 ltac:(lia) ltac:(lia)) as H. cbn zeta in H.
  change (2 * 2)%nat with 4%nat in H. rewrite H by (try exact Hi; reflexivity). replace (INR 1 / INR 2) with (1 / 2) by (cbn [INR]; lra). reflexivity.
Qed.

(** Nothing stops order = 0 or a negative alpha: the former removes particles, the latter amplifies. *)
Theorem C58_unchecked_parameters_refuted :
  (exists nx alpha f, Nat.Even nx /\ 0 < alpha /\ rsum nx (fun i => f i 0%nat) = 2 /\ rsum nx (fun i => hou_li nx alpha 0 f i 0%nat) < 1) /\
  (exists nx alpha order f, Nat.Even nx /\ (0 < order)%nat /\ rsum nx (fun i => f i 0%nat ^ 2) < rsum nx (fun i => hou_li nx alpha order f i 0%nat ^ 2)).
Proof.
  assert (E2 : Nat.Even 2) by (exists 1%nat; reflexivity). assert (E4 : Nat.Even 4) by (exists 2%nat; reflexivity). split.
  - exists 2%nat, 1, (fun _ _ => 1). split; [exact E2|]. split; [lra|]. split; [cbn; lra|].
    rewrite (rsum_ext 2 _ (smul 2 (hlM 2 1 0) (fun _ => 1))) by (intros; exact (hou_li_smul 2 1 0 (fun _ _ => 1) i 0 E2)).
    pose proof (fft_smul 2 (hlM 2 1 0) (fun _ => 1) 0 ltac:(lia) ltac:(lia)) as E. rewrite !fft_0 in E. apply (f_equal fst) in E. unfold eff in E. cbn [Nat.eqb orb] in E.
    unfold cmul in E. cbn [fst snd] in E. rewrite E. unfold hlM, hou_li_sigma. cbn [fst snd]. change (2 * 0)%nat with 0%nat. cbn [pow rsum]. rewrite Rmult_1_r.
    assert (H2 : 2 < exp 1) by (pose proof (exp_ineq1 1 ltac:(lra)); lra). rewrite exp_Ropp. pose proof (exp_pos 1).
    assert (/ exp 1 < / 2) by (apply Rinv_lt_contravar; nra). lra.
  - exists 4%nat, (-1), 1%nat, (fun h _ => 1 * cos (2 * PI * INR 1 * INR h / INR 4 + 0)). split; [exact E4|]. split; [lia|].
    pose proof (C58_wave 2 (-1) 1 (fun h _ => 1 * cos (2 * PI * INR 1 * INR h / INR 4 + 0)) 0 1 1 0 ltac:(lia) ltac:(lia)) as H. cbn zeta in H. change (2 * 2)%nat with 4%nat in H.
    set (c := exp (- -1 * (INR 1 / INR 2) ^ (2 * 1))) in *. set (f := fun h (_ : nat) => 1 * cos (2 * PI * INR 1 * INR h / INR 4 + 0)) in *.
    rewrite (rsum_ext 4 (fun i => hou_li 4 (-1) 1 f i 0%nat ^ 2) (fun i => c ^ 2 * (f i 0%nat ^ 2))) by (intros; rewrite H by (try assumption; reflexivity); ring).
    rewrite rsum_scal.
    assert (C : 1 < c). { unfold c. rewrite <- exp_0. apply exp_increasing. replace (INR 1 / INR 2) with (1 / 2) by (cbn [INR]; lra). cbn [pow Nat.mul Nat.add]. lra. }
    assert (S : 0 < rsum 4 (fun i => f i 0%nat ^ 2)).
    { cbn [rsum]. assert (f 0%nat 0%nat = 1). { unfold f. replace (2 * PI * INR 1 * INR 0 / INR 4 + 0) with 0 by (cbn [INR]; field). rewrite cos_0. ring. }
      rewrite H0. pose proof (pow2_ge_0 (f 1%nat 0%nat)). pose proof (pow2_ge_0 (f 2%nat 0%nat)). pose proof (pow2_ge_0 (f 3%nat 0%nat)). lra. }
    assert (1 < c ^ 2) by nra. set (S2 := rsum 4 _) in *. assert (0 < (c ^ 2 - 1) * S2) by (apply Rmult_lt_0_compat; lra). lra.
Qed.
Print Assumptions C58_unchecked_parameters_refuted.
