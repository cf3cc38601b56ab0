From Verif Require Import RSum Pic PicProofs VGrid.

Lemma trunc_pos x : 0 <= x -> trunc x = floor x.
Proof. intros H. unfold trunc. destruct (Rle_dec 0 x); [reflexivity|contradiction]. Qed.

(** ** Grid *)
Definition sane (c : grid_in) : Prop := in_xmin c < in_xmax c /\ (0 < in_nx c)%nat /\ 0 < in_dt c /\ 0 < in_beta c /\ 0 <= in_tmax c.
Lemma dx_pos c : sane c -> 0 < g_dx c.
Proof. intros (H & Hn & _). unfold g_dx. apply Rmult_lt_0_compat; [lra|]. now apply Rinv_0_lt_compat, lt_0_INR. Qed.
Lemma dt_pos c : sane c -> 0 < g_dt c.
Proof.
  intros H. pose proof (dx_pos c H) as D. destruct H as (_ & _ & Hd & Hb & _). unfold g_dt. destruct (in_override c); [|assumption].
  apply Rmin_glb_lt; [assumption|]. unfold Rdiv. rewrite Rmult_1_l, Rinv_inv. nra.
Qed.
Lemma nt_spec c : sane c -> in_tmax c < g_tmax c <= in_tmax c + g_dt c /\ (1 <= g_nt c)%Z.
Proof.
  intros H. pose proof (dt_pos c H) as D. destruct H as (_ & _ & _ & _ & Ht).
  assert (Q : 0 <= in_tmax c / g_dt c) by (apply Rmult_le_pos; [assumption|now apply Rlt_le, Rinv_0_lt_compat]).
  unfold g_tmax, g_nt. rewrite trunc_pos by lra. pose proof (floor_spec (in_tmax c / g_dt c + 1)) as F.
  assert (E : in_tmax c = g_dt c * (in_tmax c / g_dt c)) by (field; lra). set (q := in_tmax c / g_dt c) in *. set (k := floor (q + 1)) in *.
  split; [rewrite E; nra|]. apply le_IZR. assert (IZR k > 0) by lra. apply (lt_IZR 0) in H. apply IZR_le. lia.
Qed.
Lemma linspace_step a b n i : (1 < n)%nat -> linspace a b n (S i) - linspace a b n i = (b - a) / INR (n - 1).
Proof.
  intros H. unfold linspace. destruct (Nat.leb_spec n 1); [lia|]. rewrite S_INR. field.
  assert (0 < INR (n - 1)) by (apply lt_0_INR; lia). lra.
Qed.
Lemma g_x_formula c i : sane c -> (i < in_nx c)%nat -> g_x c i = in_xmin c + (INR i + 1 / 2) * g_dx c.
Proof.
  intros (H & Hn & _) Hi. unfold g_x, linspace. destruct (Nat.leb_spec (in_nx c) 1).
  - assert (i = 0)%nat by lia. subst i. cbn [INR]. lra.
  - assert (P : 0 < INR (in_nx c - 1)) by (apply lt_0_INR; lia). assert (P' : INR (in_nx c) = INR (in_nx c - 1) + 1) by (rewrite <- S_INR; f_equal; lia).
    assert (E : in_xmax c - in_xmin c = INR (in_nx c) * g_dx c) by (unfold g_dx; field; lra).
    replace (in_xmax c - g_dx c / 2 - (in_xmin c + g_dx c / 2)) with (INR (in_nx c - 1) * g_dx c) by (rewrite P' in E; lra). field. lra.
Qed.

(** ** Cubic interpolation *)
Lemma clip01 x : 0 <= x <= 1 -> clipR x 0 1 = x.
Proof. intros H. unfold clipR. rewrite Rmax_left by lra. apply Rmin_left. lra. Qed.
Lemma floor_opp_cases ss j : IZR (Z.of_nat j + floor (- ss)) <= ci_query ss j < IZR (Z.of_nat j + floor (- ss)) + 1.
Proof. unfold ci_query. pose proof (floor_spec (- ss)). rewrite plus_IZR, <- INR_IZR_INZ. lra. Qed.

(** Inside the grid: segment [l] and local coordinate [t], with the last point belonging to the last segment. *)
Lemma inside_segment nv ss j : (2 <= nv)%nat -> 0 <= ci_query ss j <= INR nv - 1 ->
  exists l : nat, (l <= nv - 2)%nat /\ ci_left nv ss j = Z.of_nat l /\ 0 <= ci_query ss j - INR l <= 1 /\ clipR (ci_query ss j - IZR (ci_left nv ss j)) 0 1 = ci_query ss j - INR l.
Proof.
  intros Hn Hq. pose proof (floor_opp_cases ss j) as F. set (z := (Z.of_nat j + floor (- ss))%Z) in *. set (u := ci_query ss j) in *.
  assert (Z0 : (0 <= z)%Z). { apply Z.lt_succ_r. apply lt_IZR. rewrite succ_IZR. lra. }
  assert (Z1 : (z <= Z.of_nat nv - 1)%Z). { apply le_IZR. rewrite minus_IZR, <- INR_IZR_INZ. lra. }
  unfold ci_left, clipZ. fold z. exists (Z.to_nat (Z.min (Z.max z 0) (Z.of_nat nv - 2))). split; [lia|]. split; [lia|].
  rewrite INR_IZR_INZ, Z2Nat.id by lia. rewrite Z.max_l by lia. assert (R : 0 <= u - IZR (Z.min z (Z.of_nat nv - 2)) <= 1).
  { destruct (Z.min_spec z (Z.of_nat nv - 2)) as [[? ->]|[? ->]]; [lra|]. assert (z = Z.of_nat nv - 2 \/ z = Z.of_nat nv - 1)%Z as [->| ->] by lia; rewrite ?minus_IZR, <- ?INR_IZR_INZ in *; lra. }
  split; [exact R|]. now apply clip01.
Qed.
Lemma cubic_inside nv f ss j : (2 <= nv)%nat -> 0 <= ci_query ss j <= INR nv - 1 ->
  exists l : nat, (l <= nv - 2)%nat /\ 0 <= ci_query ss j - INR l <= 1 /\
    cubic_row nv f ss j = hermite (ci_query ss j - INR l) (f l) (f (S l))
      (if Nat.eqb l 0 then f (S l) - f l else 1 / 2 * (f (S l) - f (l - 1)%nat))
      (if Nat.eqb l (nv - 2) then f (S l) - f l else 1 / 2 * (f (S (S l)) - f l)).
Proof.
  intros Hn Hq. destruct (inside_segment nv ss j Hn Hq) as (l & Hl & El & Hr & Ec). exists l. split; [exact Hl|]. split; [exact Hr|].
  unfold cubic_row. destruct (Rlt_dec (ci_query ss j) 0); [lra|]. destruct (Rlt_dec (INR nv - 1) (ci_query ss j)); [lra|].
  rewrite Ec, El. unfold take, clipZ. rewrite Nat2Z.id. replace (Z.to_nat (Z.of_nat l + 1)) with (S l) by lia. f_equal.
  - destruct (Nat.eqb_spec l 0) as [->|H]; [reflexivity|]. destruct (Z.eqb_spec (Z.of_nat l) 0); [lia|]. do 3 f_equal. lia.
  - destruct (Nat.eqb_spec l (nv - 2)) as [->|H].
    + destruct (Z.eqb_spec (Z.of_nat (nv - 2)) (Z.of_nat nv - 2)); [reflexivity|lia].
    + destruct (Z.eqb_spec (Z.of_nat l) (Z.of_nat nv - 2)); [lia|]. do 3 f_equal. lia.
Qed.
Lemma hermite0 f0 f1 m0 m1 : hermite 0 f0 f1 m0 m1 = f0. Proof. unfold hermite. ring. Qed.
Lemma hermite1 f0 f1 m0 m1 : hermite 1 f0 f1 m0 m1 = f1. Proof. unfold hermite. ring. Qed.
Lemma cubic_node nv f ss j i : (2 <= nv)%nat -> (i < nv)%nat -> ci_query ss j = INR i -> cubic_row nv f ss j = f i.
Proof.
  intros Hn Hi E. assert (Q : 0 <= ci_query ss j <= INR nv - 1). { rewrite E. split; [apply pos_INR|]. apply lt_INR in Hi as Hi'. assert (INR (S i) <= INR nv) by (apply le_INR; lia). rewrite S_INR in H. lra. }
  destruct (cubic_inside nv f ss j Hn Q) as (l & Hl & Hr & ->). rewrite E in *.
  assert (D : i = l \/ i = S l). { rewrite !INR_IZR_INZ, <- minus_IZR in Hr. destruct Hr as [A B]. apply (le_IZR 0) in A. apply (le_IZR _ 1) in B. lia. }
  destruct D as [->| ->]; [replace (INR l - INR l) with 0 by ring; apply hermite0|]. rewrite S_INR. replace (INR l + 1 - INR l) with 1 by ring. apply hermite1.
Qed.

(** ** Moments: the interpolation acts on compactly supported rows as a fixed four-point stencil. *)
Definition ext (nv : nat) (f : nat -> R) (z : Z) : R := if andb (0 <=? z)%Z (z <? Z.of_nat nv)%Z then f (Z.to_nat z) else 0.
Definition w_m1 (t : R) : R := - (t ^ 3 - 2 * t ^ 2 + t) / 2.
Definition w_0 (t : R) : R := (2 * t ^ 3 - 3 * t ^ 2 + 1) - (t ^ 3 - t ^ 2) / 2.
Definition w_1 (t : R) : R := (- 2 * t ^ 3 + 3 * t ^ 2) + (t ^ 3 - 2 * t ^ 2 + t) / 2.
Definition w_2 (t : R) : R := (t ^ 3 - t ^ 2) / 2.

Lemma zsum_step n (F : Z -> R) s : rsum n (fun j => F (Z.of_nat j + (s + 1))%Z) = rsum n (fun j => F (Z.of_nat j + s)%Z) + F (Z.of_nat n + s)%Z - F s.
Proof.
  pose proof (rsum_telescope n (fun j => F (Z.of_nat j + s)%Z)) as T. cbn beta in T. rewrite rsum_minus in T. change (Z.of_nat 0 + s)%Z with s in T.
  rewrite (rsum_ext n _ (fun i => F (Z.of_nat (S i) + s)%Z)) by (intros; f_equal; lia). lra.
Qed.
Lemma zsum_shift_pos n (F : Z -> R) (k : nat) : (forall z, F z <> 0 -> (Z.of_nat k <= z < Z.of_nat n)%Z) ->
  rsum n (fun j => F (Z.of_nat j + Z.of_nat k)%Z) = rsum n (fun j => F (Z.of_nat j)).
Proof.
  induction k as [|k IH]; intros H; [apply rsum_ext; intros; f_equal; lia|].
  rewrite (rsum_ext n _ (fun j => F (Z.of_nat j + (Z.of_nat k + 1))%Z)) by (intros; f_equal; lia). rewrite zsum_step.
  rewrite IH by (intros z Hz; apply H in Hz; lia). destruct (Req_dec (F (Z.of_nat n + Z.of_nat k)%Z) 0) as [->|A]; [|apply H in A; lia].
  destruct (Req_dec (F (Z.of_nat k)) 0) as [->|A]; [lra|apply H in A; lia].
Qed.
Lemma zsum_shift_neg n (F : Z -> R) (k : nat) : (forall z, F z <> 0 -> (0 <= z < Z.of_nat n - Z.of_nat k)%Z) ->
  rsum n (fun j => F (Z.of_nat j - Z.of_nat k)%Z) = rsum n (fun j => F (Z.of_nat j)).
Proof.
  induction k as [|k IH]; intros H; [apply rsum_ext; intros; f_equal; lia|].
  assert (I := IH ltac:(intros z Hz; apply H in Hz; lia)).
  rewrite <- I. rewrite (rsum_ext n (fun j => F (Z.of_nat j - Z.of_nat k)%Z) (fun j => F (Z.of_nat j + (- Z.of_nat (S k) + 1))%Z)) by (intros; f_equal; lia).
  rewrite zsum_step. destruct (Req_dec (F (Z.of_nat n + - Z.of_nat (S k))%Z) 0) as [->|A]; [|apply H in A; lia].
  destruct (Req_dec (F (- Z.of_nat (S k))%Z) 0) as [->|A]; [|apply H in A; lia]. rewrite (rsum_ext n _ (fun j => F (Z.of_nat j + - Z.of_nat (S k))%Z)) by (intros; f_equal; lia). lra.
Qed.
Lemma zsum_shift n (F : Z -> R) s : (forall z, F z <> 0 -> (0 <= z < Z.of_nat n /\ s <= z < Z.of_nat n + s)%Z) ->
  rsum n (fun j => F (Z.of_nat j + s)%Z) = rsum n (fun j => F (Z.of_nat j)).
Proof.
  intros H. destruct (Z_le_gt_dec 0 s).
  - rewrite <- (zsum_shift_pos n F (Z.to_nat s)) by (intros z Hz; apply H in Hz; lia). apply rsum_ext. intros. f_equal. lia.
  - rewrite <- (zsum_shift_neg n F (Z.to_nat (- s))) by (intros z Hz; apply H in Hz; lia). apply rsum_ext. intros. f_equal. lia.
Qed.

Definition outside (nv : nat) (ss : R) (j : nat) : bool :=
  if Rlt_dec (ci_query ss j) 0 then true else if Rlt_dec (INR nv - 1) (ci_query ss j) then true else false.
(** [f] vanishes within |ss| + 2 cells of either end. *)
Definition away (nv : nat) (ss : R) (f : nat -> R) : Prop :=
  forall i, (i < nv)%nat -> f i <> 0 -> Rabs ss + 2 <= INR i /\ INR i <= INR nv - 1 - (Rabs ss + 2).
Lemma cubic_stencil nv f ss j : (2 <= nv)%nat -> (j < nv)%nat -> away nv ss f ->
  let K := floor (- ss) in let t := - ss - IZR K in
  cubic_row nv f ss j = w_m1 t * ext nv f (Z.of_nat j + K - 1) + w_0 t * ext nv f (Z.of_nat j + K) + w_1 t * ext nv f (Z.of_nat j + K + 1)
    + w_2 t * ext nv f (Z.of_nat j + K + 2) + (if outside nv ss j then tiny else 0).
Proof.
  intros Hn Hj Ha K t. pose proof (floor_spec (- ss)) as FK. fold K in FK. pose proof (floor_opp_cases ss j) as F. fold K in F.
  assert (Sup : forall z, ext nv f z <> 0 -> Rabs ss + 2 <= IZR z <= INR nv - 1 - (Rabs ss + 2)).
  { intros z Hz. unfold ext in Hz. destruct (Z.leb_spec 0 z); [|cbn in Hz; lra]. destruct (Z.ltb_spec z (Z.of_nat nv)); [|cbn in Hz; lra]. cbn in Hz.
    destruct (Ha (Z.to_nat z)) as [A B]; [lia|exact Hz|]. rewrite INR_IZR_INZ, Z2Nat.id in A, B by lia. lra. }
  assert (AB : 0 <= Rabs ss) by apply Rabs_pos.
  assert (Zero : forall z, (z <= 1)%Z \/ (Z.of_nat nv - 2 <= z)%Z -> ext nv f z = 0).
  { intros z Hz. destruct (Req_dec (ext nv f z) 0) as [E|E]; [exact E|exfalso]. apply Sup in E. destruct Hz as [Hz|Hz]; apply IZR_le in Hz; rewrite ?minus_IZR, <- ?INR_IZR_INZ in Hz; lra. }
  assert (At : forall i, (i < nv)%nat -> ext nv f (Z.of_nat i) = f i).
  { intros i Hi. unfold ext. destruct (Z.leb_spec 0 (Z.of_nat i)); [|lia]. destruct (Z.ltb_spec (Z.of_nat i) (Z.of_nat nv)); [|lia]. cbn. now rewrite Nat2Z.id. }
  unfold outside. destruct (Rlt_dec (ci_query ss j) 0) as [Q|Q]; [|destruct (Rlt_dec (INR nv - 1) (ci_query ss j)) as [Q'|Q']].
  - unfold cubic_row. destruct (Rlt_dec (ci_query ss j) 0); [|contradiction]. assert ((Z.of_nat j + K <= -1)%Z). { assert ((Z.of_nat j + K < 0)%Z) by (apply lt_IZR; lra). lia. }
    rewrite !Zero by lia. ring.
  - unfold cubic_row. destruct (Rlt_dec (ci_query ss j) 0); [contradiction|]. destruct (Rlt_dec (INR nv - 1) (ci_query ss j)); [|contradiction].
    assert ((Z.of_nat nv - 1 <= Z.of_nat j + K)%Z). { assert ((Z.of_nat nv - 1 < Z.of_nat j + K + 1)%Z) by (apply lt_IZR; rewrite minus_IZR, (plus_IZR _ 1), <- INR_IZR_INZ; lra). lia. }
    rewrite !Zero by lia. ring.
  - destruct (cubic_inside nv f ss j Hn) as (l & Hl & Hr & ->); [lra|].
    assert (T : ci_query ss j = IZR (Z.of_nat j + K) + t). { unfold ci_query, t. rewrite plus_IZR, <- INR_IZR_INZ. lra. }
    assert (Ht : 0 <= t < 1) by (unfold t; lra).
    assert (Dl : (Z.of_nat j + K = Z.of_nat l)%Z \/ ((Z.of_nat j + K = Z.of_nat l + 1)%Z /\ t = 0)).
    { rewrite T, INR_IZR_INZ in Hr. assert (B : IZR (Z.of_nat j + K) - IZR (Z.of_nat l) <= 1) by lra. rewrite <- minus_IZR in B. apply (le_IZR _ 1) in B.
      assert (A : -1 < IZR (Z.of_nat j + K) - IZR (Z.of_nat l)) by lra. rewrite <- minus_IZR in A. apply (lt_IZR (-1)) in A.
      assert (Z.of_nat j + K - Z.of_nat l = 0 \/ Z.of_nat j + K - Z.of_nat l = 1)%Z as [E|E] by lia; [left; lia|right; split; [lia|]].
      assert (E' : IZR (Z.of_nat j + K) = IZR (Z.of_nat l) + 1) by (rewrite <- plus_IZR; f_equal; lia). lra. }
    assert (M0 : (if Nat.eqb l 0 then f (S l) - f l else 1 / 2 * (f (S l) - f (l - 1)%nat)) = 1 / 2 * (ext nv f (Z.of_nat l + 1) - ext nv f (Z.of_nat l - 1))).
    { destruct (Nat.eqb_spec l 0) as [->|H]. - rewrite <- (At 0%nat), <- (At 1%nat) by lia. rewrite !Zero by lia. ring.
      - rewrite <- (At (S l)), <- (At (l - 1)%nat) by lia. do 3 f_equal; lia. }
    assert (M1 : (if Nat.eqb l (nv - 2) then f (S l) - f l else 1 / 2 * (f (S (S l)) - f l)) = 1 / 2 * (ext nv f (Z.of_nat l + 2) - ext nv f (Z.of_nat l))).
    { destruct (Nat.eqb_spec l (nv - 2)) as [->|H]. - rewrite <- (At (S (nv - 2))), <- (At (nv - 2)%nat) by lia. rewrite !Zero by lia. ring.
      - rewrite <- (At (S (S l))), <- (At l) by lia. do 3 f_equal; lia. }
    rewrite M0, M1. rewrite <- (At l), <- (At (S l)) by lia. replace (Z.of_nat (S l)) with (Z.of_nat l + 1)%Z by lia. rewrite T.
    destruct Dl as [E|[E T0]].
    + rewrite E. rewrite INR_IZR_INZ. replace (IZR (Z.of_nat l) + t - IZR (Z.of_nat l)) with t by ring. unfold hermite, w_m1, w_0, w_1, w_2. field.
    + rewrite E, T0, plus_IZR, INR_IZR_INZ. replace (IZR (Z.of_nat l) + 1 + 0 - IZR (Z.of_nat l)) with 1 by ring. rewrite hermite1. unfold w_m1, w_0, w_1, w_2.
      replace (Z.of_nat l + 1 - 1)%Z with (Z.of_nat l) by lia. field.
Qed.

Lemma zsum_weighted nv f ss (p : R -> R) (a : Z) : away nv ss f -> (-1 <= a <= 2)%Z ->
  let K := floor (- ss) in
  rsum nv (fun j => p (INR j) * ext nv f (Z.of_nat j + K + a)) = rsum nv (fun i => p (INR i - IZR (K + a)) * f i).
Proof.
  intros Ha Hr K. pose proof (floor_spec (- ss)) as FK. fold K in FK. pose proof (Rabs_pos ss).
  pose proof (abs_le_both ss (Rabs ss) (Rle_refl _)) as AB.
  set (F := fun z : Z => p (IZR z - IZR (K + a)) * ext nv f z).
  rewrite (rsum_ext nv _ (fun j => F (Z.of_nat j + (K + a))%Z)).
  2:{ intros j Hj. unfold F. rewrite <- minus_IZR. replace (Z.of_nat j + (K + a) - (K + a))%Z with (Z.of_nat j) by lia. rewrite <- INR_IZR_INZ. do 2 f_equal. lia. }
  rewrite zsum_shift.
  - apply rsum_ext. intros i Hi. unfold F, ext. rewrite <- INR_IZR_INZ. destruct (Z.leb_spec 0 (Z.of_nat i)); [|lia]. destruct (Z.ltb_spec (Z.of_nat i) (Z.of_nat nv)); [|lia]. cbn. now rewrite Nat2Z.id.
  - intros z Hz. unfold F in Hz. assert (E : ext nv f z <> 0) by (intros E; apply Hz; rewrite E; ring). unfold ext in E.
    destruct (Z.leb_spec 0 z); [|cbn in E; lra]. destruct (Z.ltb_spec z (Z.of_nat nv)); [|cbn in E; lra]. cbn in E.
    destruct (Ha (Z.to_nat z)) as [A B]; [lia|exact E|]. rewrite INR_IZR_INZ, Z2Nat.id in A, B by lia. split; [lia|].
    assert (HK : IZR K <= Rabs ss) by lra. assert (HK' : - Rabs ss - 1 < IZR K) by lra. assert (IZR (K + a) <= Rabs ss + 2) by (rewrite plus_IZR; destruct Hr as [_ Hr]; apply IZR_le in Hr; lra).
    assert (- Rabs ss - 2 < IZR (K + a)) by (rewrite plus_IZR; destruct Hr as [Hr _]; apply IZR_le in Hr; lra).
    split; [apply le_IZR; lra|]. apply lt_IZR. rewrite plus_IZR, <- INR_IZR_INZ. lra.
Qed.

Lemma cubic_moment nv f ss (c0 c1 c2 : R) : (2 <= nv)%nat -> away nv ss f ->
  let p := fun u => c0 + c1 * u + c2 * u ^ 2 in
  rsum nv (fun j => p (INR j) * cubic_row nv f ss j) =
  rsum nv (fun i => p (INR i + ss) * f i) + tiny * rsum nv (fun j => if outside nv ss j then p (INR j) else 0).
Proof.
  intros Hn Ha p. set (K := floor (- ss)). set (t := - ss - IZR K).
  rewrite (rsum_ext nv _ (fun j => (w_m1 t * (p (INR j) * ext nv f (Z.of_nat j + K + -1)) + w_0 t * (p (INR j) * ext nv f (Z.of_nat j + K + 0)))
     + (w_1 t * (p (INR j) * ext nv f (Z.of_nat j + K + 1)) + w_2 t * (p (INR j) * ext nv f (Z.of_nat j + K + 2))) + tiny * (if outside nv ss j then p (INR j) else 0))).
  2:{ intros j Hj. rewrite (cubic_stencil nv f ss j) by assumption. fold K t. replace (Z.of_nat j + K + -1)%Z with (Z.of_nat j + K - 1)%Z by lia. replace (Z.of_nat j + K + 0)%Z with (Z.of_nat j + K)%Z by lia.
      destruct (outside nv ss j); ring. }
  rewrite !rsum_plus, !rsum_scal. f_equal. rewrite !(zsum_weighted nv f ss p) by (assumption || lia). fold K.
  rewrite <- !rsum_scal, <- !rsum_plus. apply rsum_ext. intros i _. rewrite !plus_IZR. assert (S : ss = - (IZR K + t)) by (unfold t; ring). rewrite S. unfold p, w_m1, w_0, w_1, w_2. field.
Qed.

(** ** tanh *)
Lemma tanh_exp x : tanh x = 1 - 2 / (exp (2 * x) + 1).
Proof.
  unfold tanh, sinh, cosh. pose proof (exp_pos x). pose proof (exp_pos (- x)). pose proof (exp_pos (2 * x)). assert (E : exp (2 * x) = exp x * exp x) by (rewrite <- exp_plus; f_equal; ring).
  assert (E' : exp x * exp (- x) = 1) by (rewrite <- exp_plus; replace (x + - x) with 0 by ring; apply exp_0). rewrite E in *.
  assert (D : exp (- x) = / exp x) by (apply exp_Ropp). rewrite D in *. field. split; nra.
Qed.
Lemma tanh_bounds x : -1 < tanh x < 1.
Proof.
  rewrite tanh_exp. pose proof (exp_pos (2 * x)). assert (0 < / (exp (2 * x) + 1) < 1).
  { split; [apply Rinv_0_lt_compat; lra|]. rewrite <- Rinv_1. apply Rinv_lt_contravar; lra. } unfold Rdiv. lra.
Qed.
Lemma tanh_incr x y : x < y -> tanh x < tanh y.
Proof.
  intros H. rewrite !tanh_exp. pose proof (exp_pos (2 * x)). pose proof (exp_increasing (2 * x) (2 * y) ltac:(lra)).
  assert (/ (exp (2 * y) + 1) < / (exp (2 * x) + 1)) by (apply Rinv_lt_contravar; nra). unfold Rdiv. lra.
Qed.
Lemma tanh_le x y : x <= y -> tanh x <= tanh y.
Proof. intros [H| ->]; [left; now apply tanh_incr|right; reflexivity]. Qed.
Lemma tanh_opp x : tanh (- x) = - tanh x.
Proof. unfold tanh, sinh, cosh. rewrite Ropp_involutive. pose proof (exp_pos x). pose proof (exp_pos (- x)). field. lra. Qed.
Lemma div_le a b r : 0 < r -> a <= b -> a / r <= b / r.
Proof. intros Hr H. apply Rmult_le_compat_r; [now apply Rlt_le, Rinv_0_lt_compat|exact H]. Qed.
Lemma div_lt a b r : 0 < r -> a < b -> a / r < b / r.
Proof. intros Hr H. apply Rmult_lt_compat_r; [now apply Rinv_0_lt_compat|exact H]. Qed.
(** tanh (m + d) - tanh (m - d) is largest at m = 0 and decreases with |m|. *)
Lemma tanh_gap d m : tanh (m + d) - tanh (m - d) = 2 * (exp (2 * d) - exp (- (2 * d))) / (exp (2 * m) + exp (- (2 * m)) + exp (2 * d) + exp (- (2 * d))).
Proof.
  rewrite !tanh_exp. replace (2 * (m + d)) with (2 * m + 2 * d) by ring. replace (2 * (m - d)) with (2 * m + - (2 * d)) by ring. rewrite !exp_plus, !exp_Ropp.
  pose proof (exp_pos (2 * m)). pose proof (exp_pos (2 * d)). set (A := exp (2 * m)) in *. set (B := exp (2 * d)) in *. field.
  assert (0 < A * B) by nra. assert (0 < A * A) by nra. assert (0 < B * B) by nra. repeat split; try lra; nra.
Qed.
Lemma cosh_like_le a b : 0 <= a <= b -> exp a + exp (- a) <= exp b + exp (- b).
Proof.
  intros H. rewrite !exp_Ropp. assert (E : exp b = exp a * exp (b - a)) by (rewrite <- exp_plus; f_equal; ring). assert (A : 1 <= exp a) by (pose proof (exp_ineq1_le a); lra).
  assert (C : 1 <= exp (b - a)) by (pose proof (exp_ineq1_le (b - a)); lra). rewrite E. set (u := exp a) in *. set (c := exp (b - a)) in *.
  assert (0 <= u * c + / (u * c) - (u + / u)); [|lra]. replace (u * c + / (u * c) - (u + / u)) with ((c - 1) * (u * u * c - 1) * / (u * c)) by (field; lra).
  apply Rmult_le_pos; [|apply Rlt_le, Rinv_0_lt_compat; nra]. apply Rmult_le_pos; [lra|]. nra.
Qed.
Lemma cosh_like_abs m : exp (2 * m) + exp (- (2 * m)) = exp (2 * Rabs m) + exp (- (2 * Rabs m)).
Proof. unfold Rabs. destruct (Rcase_abs m); [|reflexivity]. replace (2 * - m) with (- (2 * m)) by ring. rewrite Ropp_involutive. ring. Qed.
Lemma tanh_gap_mono d m m' : 0 <= d -> Rabs m <= Rabs m' -> tanh (m' + d) - tanh (m' - d) <= tanh (m + d) - tanh (m - d).
Proof.
  intros Hd H. rewrite !tanh_gap, !(cosh_like_abs m), !(cosh_like_abs m'). pose proof (cosh_like_le (2 * Rabs m) (2 * Rabs m') ltac:(pose proof (Rabs_pos m); lra)) as C.
  set (c := exp (2 * Rabs m) + exp (- (2 * Rabs m))) in *. set (c' := exp (2 * Rabs m') + exp (- (2 * Rabs m'))) in *.
  assert (0 < c) by (unfold c; pose proof (exp_pos (2 * Rabs m)); pose proof (exp_pos (- (2 * Rabs m))); lra). pose proof (exp_pos (2 * d)). pose proof (exp_pos (- (2 * d))).
  assert (exp (- (2 * d)) <= exp (2 * d)). { destruct (Rle_lt_or_eq_dec 0 d Hd) as [L| <-]; [left; apply exp_increasing; lra|right; f_equal; ring]. }
  unfold Rdiv. apply Rmult_le_compat_l; [nra|]. apply Rinv_le_contravar; lra.
Qed.
