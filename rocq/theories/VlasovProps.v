(** Properties C56-C61: the spectral Vlasov pushers, the field solvers and the time steps of Vlasov-1D. *)
From Coq Require Import Permutation Psatz.
From Verif Require Import RSum Pic PicProofs PicFourier Dft Vlasov VlasovProofs VlasovProofs2.
Local Open Scope R_scope.

(* ------------------------------------------------------------------------------------------------ *)
(** C56: advection in x. [wrap n z] is the cell z modulo the n cells of the periodic box. *)

(** Every velocity class keeps its number of particles. *)
Theorem C56_number : forall nx dx s dt f j, Nat.Even nx -> (0 < nx)%nat ->
  rsum nx (fun i => space_push nx dx s dt f i j) = rsum nx (fun i => f i j).
Proof. intros. unfold space_push. now apply space_col_mass. Qed.
Print Assumptions C56_number.

(** A displacement of a whole number of cells is an exact periodic translation. *)
Theorem C56_whole_cells : forall nx dx s dt f j (c : Z) i, Nat.Even nx -> dx <> 0 -> (i < nx)%nat ->
  sp_v s j * dt = IZR c * dx -> space_push nx dx s dt f i j = f (wrap nx (Z.of_nat i - c)) j.
Proof. intros nx dx s dt f j c i He Hd Hi Hv. unfold space_push. apply (space_col_cells nx dx _ (fun h => f h j) c i He Hd Hv Hi). Qed.
Print Assumptions C56_whole_cells.

(** Every wave longer than two cells is translated by exactly v dt, whatever dt. *)
Theorem C56_wave : forall nx dx s dt f j m A phi, Nat.Even nx -> dx <> 0 -> (2 * m < nx)%nat ->
  (forall i, (i < nx)%nat -> f i j = A * cos (2 * PI * INR m * INR i / INR nx + phi)) ->
  forall i, (i < nx)%nat -> space_push nx dx s dt f i j = A * cos (2 * PI * INR m * (INR i - sp_v s j * dt / dx) / INR nx + phi).
Proof.
  intros nx dx s dt f j m A phi He Hd Hm Hf i Hi. unfold space_push. rewrite space_col_smul by exact He.
  rewrite (smul_ext nx _ (shiftM nx dx (sp_v s j * dt)) _ (fun h => A * cos (angle nx m h + phi))) by (try reflexivity; intros; now apply Hf).
  rewrite <- space_col_smul by exact He. rewrite space_col_wave by assumption. do 2 f_equal. f_equal. rewrite kr_shift by (try exact Hd; lia). unfold angle. field.
  split; first [exact Hd | apply not_0_INR; lia].
Qed.
Print Assumptions C56_wave.

(** The sum of squares never grows; what is lost is the shortest wave's share, and nothing else. *)
Theorem C56_energy : forall h dx s dt f j, (0 < h)%nat -> dx <> 0 ->
  let nx := (2 * h)%nat in
  rsum nx (fun i => f i j ^ 2) - rsum nx (fun i => space_push nx dx s dt f i j ^ 2)
  = (sin (PI * (sp_v s j * dt) / dx) * rsum nx (fun i => (-1) ^ i * f i j)) ^ 2 / INR nx
  /\ rsum nx (fun i => space_push nx dx s dt f i j ^ 2) <= rsum nx (fun i => f i j ^ 2).
Proof.
  intros h dx s dt f j Hh Hd nx. assert (E : rsum nx (fun i => f i j ^ 2) - rsum nx (fun i => space_push nx dx s dt f i j ^ 2)
    = (sin (PI * (sp_v s j * dt) / dx) * rsum nx (fun i => (-1) ^ i * f i j)) ^ 2 / INR nx).
  { rewrite (rsum_ext nx (fun i => f i j ^ 2) (fun i => f i j * f i j)) by (intros; ring).
    rewrite (rsum_ext nx (fun i => space_push nx dx s dt f i j ^ 2) (fun i => space_push nx dx s dt f i j * space_push nx dx s dt f i j)) by (intros; ring).
    unfold space_push, nx. rewrite (space_col_energy_defect h dx (sp_v s j * dt) (fun i => f i j) Hh Hd). unfold shortest.
    replace (PI / dx * (sp_v s j * dt)) with (PI * (sp_v s j * dt) / dx) by (field; exact Hd). reflexivity. }
  split; [exact E|]. assert (0 < INR nx) by (apply lt_0_INR; unfold nx; lia).
  assert (0 <= (sin (PI * (sp_v s j * dt) / dx) * rsum nx (fun i => (-1) ^ i * f i j)) ^ 2 / INR nx).
  { apply Rmult_le_pos; [apply pow2_ge_0|]. apply Rlt_le, Rinv_0_lt_compat. assumption. }
  lra.
Qed.
Print Assumptions C56_energy.

(** Without the shortest wave, steps compose, and a step back undoes a step. *)
Theorem C56_compose : forall nx dx s dt1 dt2 f j i, Nat.Even nx -> (i < nx)%nat ->
  rsum nx (fun h => (-1) ^ h * f h j) = 0 ->
  space_push nx dx s dt2 (space_push nx dx s dt1 f) i j = space_push nx dx s (dt1 + dt2) f i j.
Proof.
  intros nx dx s dt1 dt2 f j i He Hi H0. unfold space_push. rewrite space_col_compose by assumption. f_equal. ring.
Qed.
Print Assumptions C56_compose.
Theorem C56_reversible : forall nx dx s dt f j i, Nat.Even nx -> (i < nx)%nat ->
  rsum nx (fun h => (-1) ^ h * f h j) = 0 ->
  space_push nx dx s (- dt) (space_push nx dx s dt f) i j = f i j.
Proof.
  intros nx dx s dt f j i He Hi H0. rewrite C56_compose by assumption. unfold space_push. replace (sp_v s j * (dt + - dt)) with 0 by ring. now apply (space_col_zero nx dx (fun h => f h j) i He).
Qed.
Print Assumptions C56_reversible.
Theorem C56_linear : forall nx dx s dt u w f1 f2 i j, Nat.Even nx -> (i < nx)%nat ->
  space_push nx dx s dt (fun a b => u * f1 a b + w * f2 a b) i j = u * space_push nx dx s dt f1 i j + w * space_push nx dx s dt f2 i j.
Proof. intros. unfold space_push. now apply space_col_linear. Qed.
Print Assumptions C56_linear.

(** A species with velocity classes -1 and 1 (dv = 2), used by the examples. *)
Definition ex_sp : species := {| sp_q := -1; sp_m := 1; sp_nv := 2; sp_vmin := -2; sp_vmax := 2 |}.
Lemma ex_dv : sp_dv ex_sp = 2.
Proof. unfold sp_dv, ex_sp; cbn [sp_vmin sp_vmax sp_nv INR]. lra. Qed.
Lemma ex_v : sp_v ex_sp 0 = -1 /\ sp_v ex_sp 1 = 1.
Proof. unfold sp_v. rewrite ex_dv. unfold linspace, ex_sp; cbn [sp_vmin sp_vmax sp_nv Nat.leb Nat.sub INR]. split; lra. Qed.
Example C56_nonvacuous : space_push 4 1 ex_sp 3 (fun i j => INR i + 10 * INR j) 1%nat 1%nat = 12 /\
  space_push 4 1 ex_sp 3 (fun i j => INR i + 10 * INR j) 1%nat 0%nat = 0.
Proof.
  destruct ex_v as [V0 V1]. split.
  - rewrite (C56_whole_cells 4 1 ex_sp 3 _ 1 3) by (try (exists 2%nat; reflexivity); try lia; try lra). replace (wrap 4 (Z.of_nat 1 - 3)) with 2%nat by reflexivity. cbn [INR]. lra.
  - rewrite (C56_whole_cells 4 1 ex_sp 3 _ 0 (-3)) by (try (exists 2%nat; reflexivity); try lia; try lra). replace (wrap 4 (Z.of_nat 1 - -3)) with 0%nat by reflexivity. cbn [INR]. lra.
Qed.

(** With the shortest wave present two half-cell steps are not one whole-cell step: it is destroyed. *)
Theorem C56_compose_refuted : exists nx dx s dt f j i, Nat.Even nx /\ (i < nx)%nat /\
  space_push nx dx s dt (space_push nx dx s dt f) i j = 0 /\ space_push nx dx s (dt + dt) f i j = -1.
Proof.
  exists 2%nat, 1, ex_sp, (1 / 2), (fun i _ => if Nat.eqb i 0 then 1 else -1), 1%nat, 0%nat. destruct ex_v as [_ V1].
  assert (E2 : Nat.Even 2) by (exists 1%nat; reflexivity). split; [exact E2|]. split; [lia|]. split.
  - set (f := fun (i _ : nat) => if (i =? 0)%nat then 1 else -1).
    assert (Z : forall g, (g < 2)%nat -> space_push 2 1 ex_sp (1 / 2) f g 1%nat = 0).
    { pose proof (C56_number 2 1 ex_sp (1 / 2) f 1 E2 ltac:(lia)) as M. destruct (C56_energy 1 1 ex_sp (1 / 2) f 1 ltac:(lia) ltac:(lra)) as [En _].
      cbn zeta in En. change (2 * 1)%nat with 2%nat in En. rewrite V1 in En. replace (PI * (1 * (1 / 2)) / 1) with (PI / 2) in En by field. rewrite sin_PI2 in En.
      cbn [rsum pow INR] in M, En. assert (F0 : f 0%nat 1%nat = 1) by reflexivity. assert (F1 : f 1%nat 1%nat = -1) by reflexivity. rewrite F0, F1 in M, En.
      set (y0 := space_push 2 1 ex_sp (1 / 2) f 0%nat 1%nat) in *. set (y1 := space_push 2 1 ex_sp (1 / 2) f 1%nat 1%nat) in *.
      assert (y0 * y0 + y1 * y1 = 0) by lra. assert (y0 = 0) by nra. assert (y1 = 0) by nra.
      intros g Hg. destruct g as [|[|g]]; [exact H0|exact H1|lia]. }
    unfold space_push at 1. rewrite space_col_smul by exact E2.
    rewrite (smul_ext 2 _ (shiftM 2 1 (sp_v ex_sp 1 * (1 / 2))) _ (fun _ => 0 * 0 + 0 * 0)) by (try reflexivity; intros g Hg; rewrite Z by exact Hg; ring).
    rewrite (smul_linear 2 _ 0 0 (fun _ => 0) (fun _ => 0)) by lia. ring.
  - rewrite (C56_whole_cells 2 1 ex_sp (1 / 2 + 1 / 2) _ 1 1) by (try exact E2; try lia; try lra). reflexivity.
Qed.
Print Assumptions C56_compose_refuted.

(** Positivity is not kept: a single occupied cell moved by half a cell leaves negative densities. *)
Theorem C56_positivity_refuted : exists nx dx s dt f j i, Nat.Even nx /\ 0 < dx /\ (i < nx)%nat /\ (forall a b, 0 <= f a b) /\
  space_push nx dx s dt f i j < 0.
Proof.
  exists 4%nat, 1, ex_sp, (1 / 2), (fun i _ => if Nat.eqb i 0 then 1 else 0), 1%nat, 2%nat. destruct ex_v as [_ V1].
  assert (E4 : Nat.Even 4) by (exists 2%nat; reflexivity). split; [exact E4|]. split; [lra|]. split; [lia|].
  split; [intros; destruct Nat.eqb; lra|].
  unfold space_push. rewrite V1. set (f := fun i : nat => if (i =? 0)%nat then 1 else 0).
  assert (D : space_col 4 1 (1 * (1 / 2)) f 2 = 1 / 4 + 1 / 2 * cos (angle 4 1 2 - kr 4 1 1 * (1 * (1 / 2)) + 0) + 1 / 4 * smul 4 (shiftM 4 1 (1 * (1 / 2))) (fun g => (-1) ^ g) 2).
  { rewrite space_col_smul by exact E4.
    rewrite (smul_ext 4 _ (shiftM 4 1 (1 * (1 / 2))) f (fun g => 1 * (1 / 4 * cos (angle 4 0 g + 0) + 1 * (1 / 2 * cos (angle 4 1 g + 0))) + 1 / 4 * (-1) ^ g)).
    2: reflexivity.
    2:{ intros g Hg. unfold f, angle. replace (2 * PI * INR 0 * INR g / INR 4 + 0) with 0 by (cbn [INR]; field). rewrite cos_0.
        replace (2 * PI * INR 1 * INR g / INR 4 + 0) with (INR g * (PI / 2)) by (cbn [INR]; field).
        destruct g as [|[|[|[|g]]]]; [| | | |lia]; cbn [Nat.eqb INR pow].
        - rewrite Rmult_0_l, cos_0. lra.
        - replace (1 * (PI / 2)) with (PI / 2) by ring. rewrite cos_PI2. lra.
        - replace ((1 + 1) * (PI / 2)) with PI by field. rewrite cos_PI. lra.
        - replace ((1 + 1 + 1) * (PI / 2)) with (PI / 2 + PI) by field. rewrite neg_cos, cos_PI2. lra. }
    rewrite (smul_linear 4 _ 1 (1 / 4) (fun g => 1 / 4 * cos (angle 4 0 g + 0) + 1 * (1 / 2 * cos (angle 4 1 g + 0))) (fun g => (-1) ^ g)) by lia.
    rewrite (smul_ext 4 _ (shiftM 4 1 (1 * (1 / 2))) (fun g => 1 / 4 * cos (angle 4 0 g + 0) + 1 * (1 / 2 * cos (angle 4 1 g + 0))) (fun g => 1 * (1 / 4 * cos (angle 4 0 g + 0)) + 1 * (1 / 2 * cos (angle 4 1 g + 0)))) by (try reflexivity; intros; ring).
    rewrite (smul_linear 4 _ 1 1 (fun g => 1 / 4 * cos (angle 4 0 g + 0)) (fun g => 1 / 2 * cos (angle 4 1 g + 0))) by lia.
    rewrite <- !space_col_smul by exact E4. rewrite !space_col_wave by (try exact E4; lia).
    replace (angle 4 0 2 - kr 4 1 0 * (1 * (1 / 2)) + 0) with 0 by (rewrite kr_0; unfold angle; cbn [INR]; field). rewrite cos_0. ring. }
  assert (N : smul 4 (shiftM 4 1 (1 * (1 / 2))) (fun g => (-1) ^ g) 2 = 0).
  { destruct (C56_energy 2 1 ex_sp (1 / 2) (fun g _ => (-1) ^ g) 1 ltac:(lia) ltac:(lra)) as [En _]. cbn zeta in En. change (2 * 2)%nat with 4%nat in En.
    rewrite V1 in En. replace (PI * (1 * (1 / 2)) / 1) with (PI / 2) in En by field. rewrite sin_PI2 in En. unfold space_push in En. rewrite V1 in En.
    cbn [rsum pow INR] in En. rewrite !space_col_smul in En by exact E4.
    match type of En with context [smul 4 ?M ?h 2 * _] => change h with (fun g : nat => (-1) ^ g) in En end.
    set (y0 := smul 4 _ _ 0) in *. set (y1 := smul 4 _ _ 1) in *. set (y2 := smul 4 _ _ 2) in *. set (y3 := smul 4 _ _ 3) in *.
    assert (y0 * y0 + y1 * y1 + y2 * y2 + y3 * y3 = 0) by lra. nra. }
  rewrite D, N. replace (angle 4 1 2 - kr 4 1 1 * (1 * (1 / 2)) + 0) with (PI - PI / 4) by (unfold angle, kr; cbn [INR]; field).
  rewrite Rtrigo_facts.cos_pi_minus, cos_PI4. pose proof Rlt_sqrt2_0. assert (sqrt 2 * sqrt 2 = 2) by (apply sqrt_sqrt; lra). assert (1 < sqrt 2) by nra.
  assert (1 / sqrt 2 > 1 / 2). { unfold Rdiv. rewrite !Rmult_1_l. apply Rinv_lt_contravar; nra. } lra.
Qed.
Print Assumptions C56_positivity_refuted.

(** The result has as many cells as the input exactly on even grids: an odd grid loses one. *)
Theorem C56_shape : forall nx, (0 < nx)%nat -> (out_len nx = nx <-> Nat.Even nx) /\ (Nat.Odd nx -> out_len nx = (nx - 1)%nat).
Proof.
  intros nx Hn. split; [|apply out_len_odd]. split; [|apply out_len_even]. intros H. destruct (Nat.Even_or_Odd nx) as [E|O]; [exact E|]. rewrite (out_len_odd nx O) in H. lia.
Qed.
Print Assumptions C56_shape.
