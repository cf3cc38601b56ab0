From Verif Require Import RSum ExpBounds DriftDiff.

(** * The weight *)
Lemma small_true w : small w = true <-> Rabs w < 1 / 100000000.
Proof. unfold small. destruct (Rlt_dec _ _); split; intros; (lra || discriminate || reflexivity). Qed.
Lemma small_false w : small w = false <-> 1 / 100000000 <= Rabs w.
Proof. unfold small. destruct (Rlt_dec _ _); split; intros; (lra || discriminate || reflexivity). Qed.
Lemma cc_small w : small w = true -> chang_cooper_delta w = delta_small w.
Proof. intros H. unfold chang_cooper_delta. now rewrite H. Qed.
Lemma cc_full w : small w = false -> chang_cooper_delta w = delta_full w.
Proof. intros H. unfold chang_cooper_delta. now rewrite H. Qed.
Lemma small_nonzero w : small w = false -> w <> 0.
Proof. intros H ->. apply small_false in H. rewrite Rabs_R0 in H. lra. Qed.

Lemma expm1_nonzero w : w <> 0 -> exp w - 1 <> 0.
Proof. intros H E. assert (exp w = exp 0) by (rewrite exp_0; lra). apply exp_inv in H0. lra. Qed.
Lemma expm1_sign w : w <> 0 -> 0 < w * (exp w - 1).
Proof.
  intros H. destruct (Rlt_dec 0 w) as [Hw|Hw].
  - assert (exp 0 < exp w) by now apply exp_increasing. rewrite exp_0 in H0. apply Rmult_lt_0_compat; lra.
  - assert (exp w < exp 0) by (apply exp_increasing; lra). rewrite exp_0 in H0. replace (w * (exp w - 1)) with ((- w) * (1 - exp w)) by ring. apply Rmult_lt_0_compat; lra.
Qed.

(** w delta(w) = 1 - w/(e^w - 1) *)
Lemma full_left w : w <> 0 -> 1 - w * delta_full w = w / (exp w - 1).
Proof. intros H. unfold delta_full. pose proof (expm1_nonzero w H). field. now split. Qed.
Lemma full_right w : w <> 0 -> 1 + w * (1 - delta_full w) = w * exp w / (exp w - 1).
Proof. intros H. unfold delta_full. pose proof (expm1_nonzero w H). field. now split. Qed.
Lemma quotient_pos w : w <> 0 -> 0 < w / (exp w - 1).
Proof.
  intros H. pose proof (expm1_sign w H). pose proof (expm1_nonzero w H). replace (w / (exp w - 1)) with (w * (exp w - 1) / ((exp w - 1) * (exp w - 1))) by (field; assumption).
  apply Rdiv_lt_0_compat; [assumption|]. destruct (Rlt_dec 0 (exp w - 1)); [apply Rmult_lt_0_compat; lra|]. replace ((exp w - 1) * (exp w - 1)) with ((1 - exp w) * (1 - exp w)) by ring. apply Rmult_lt_0_compat; lra.
Qed.

Lemma small_bounds w : Rabs w < 1 / 100000000 -> 4 / 10 < delta_small w < 6 / 10.
Proof.
  intros H. unfold delta_small. apply Rabs_def2 in H. assert (- (1 / 10) < w ^ 3 < 1 / 10) by (simpl; nra). lra.
Qed.

Lemma delta_sum w : chang_cooper_delta w + chang_cooper_delta (- w) = 1.
Proof.
  destruct (small w) eqn:E.
  - rewrite (cc_small w E). rewrite cc_small. { unfold delta_small. simpl. field. }
    apply small_true. rewrite Rabs_Ropp. now apply small_true.
  - rewrite (cc_full w E). rewrite cc_full. 2:{ apply small_false. rewrite Rabs_Ropp. now apply small_false. }
    pose proof (small_nonzero w E) as Hw. pose proof (expm1_nonzero w Hw). unfold delta_full. rewrite exp_Ropp. pose proof (exp_pos w).
    field. repeat split; try assumption; try lra.
Qed.
Lemma full_pos w : w <> 0 -> 0 < delta_full w.
Proof.
  intros H. unfold delta_full. pose proof (expm1_nonzero w H) as H1. pose proof (expm1_sign w H) as H2.
  replace (1 / w - 1 / (exp w - 1)) with ((exp w - 1 - w) / (w * (exp w - 1))) by (field; now split).
  apply Rdiv_lt_0_compat; [|exact H2]. pose proof (exp_ineq1 w H). lra.
Qed.
Lemma delta_pos w : 0 < chang_cooper_delta w.
Proof.
  destruct (small w) eqn:E.
  - rewrite (cc_small w E). apply small_true in E. pose proof (small_bounds w E). lra.
  - rewrite (cc_full w E). apply full_pos. now apply small_nonzero.
Qed.
Lemma delta_lt1 w : chang_cooper_delta w < 1.
Proof. pose proof (delta_sum w). pose proof (delta_pos (- w)). lra. Qed.

(** Positivity of the two matrix coefficients. *)
Lemma left_pos w : 0 < 1 - w * chang_cooper_delta w.
Proof.
  destruct (small w) eqn:E.
  - rewrite (cc_small w E). apply small_true in E. pose proof (small_bounds w E). apply Rabs_def2 in E. nra.
  - rewrite (cc_full w E). rewrite full_left by now apply small_nonzero. apply quotient_pos. now apply small_nonzero.
Qed.
Lemma right_pos w : 0 < 1 + w * (1 - chang_cooper_delta w).
Proof. pose proof (left_pos (- w)). pose proof (delta_sum w). replace (1 - chang_cooper_delta w) with (chang_cooper_delta (- w)) by lra. lra. Qed.

(** The series against the formula. *)
Lemma series_close w : w <> 0 -> Rabs w <= 1 / 100000000 -> Rabs (delta_small w - delta_full w) <= w ^ 2.
Proof.
  intros Hw Ha. destruct (exp_taylor w) as [T1 T2]; [lra|]. set (r := exp w - (1 + w + w ^ 2 / 2 + w ^ 3 / 6)) in *.
  assert (Hw4 : 0 < w ^ 4) by (replace (w ^ 4) with ((w * w) * (w * w)) by ring; assert (0 < w * w) by nra; nra).
  set (p := r / w ^ 4). assert (Hp : 0 <= p <= 1 / 8).
  { unfold p. split; [apply Rmult_le_pos; [lra|apply Rlt_le, Rinv_0_lt_compat; lra]|].
    apply Rmult_le_reg_r with (w ^ 4); [lra|]. replace (r / w ^ 4 * w ^ 4) with r by (field; lra). lra. }
  set (d := 1 + w / 2 + w ^ 2 / 6 + w ^ 3 * p).
  assert (Hd : exp w - 1 = w * d). { unfold d, p. replace (exp w - 1) with (r + w + w ^ 2 / 2 + w ^ 3 / 6) by (unfold r; ring). field. exact Hw. }
  assert (Ha' : - (1 / 100000000) <= w <= 1 / 100000000) by (split; [pose proof (Rle_abs (- w)) as K; rewrite Rabs_Ropp in K; lra|pose proof (Rle_abs w); lra]). clear Ha; rename Ha' into Ha. set (e := 1 / 100000000) in *. assert (He : e <= 1 / 10) by (unfold e; lra). assert (He0 : 0 < e) by (unfold e; lra). clearbody e.
  assert (Hw2 : 0 <= w ^ 2 <= 1 / 100) by (simpl; nra). assert (Hw3 : - (1 / 100) <= w ^ 3 <= 1 / 100) by (replace (w ^ 3) with (w * w ^ 2) by ring; generalize dependent (w ^ 2); intros u Hu; nra). assert (Hw4' : w ^ 4 <= 1 / 100) by (replace (w ^ 4) with (w ^ 2 * w ^ 2) by ring; nra).
  assert (P1 : - (1 / 10) <= w * p <= 1 / 10) by nra. assert (P2 : 0 <= w ^ 2 * p <= 1 / 100) by (generalize dependent (w ^ 2); intros; nra). assert (P3 : - (1 / 100) <= w ^ 3 * p <= 1 / 100) by (generalize dependent (w ^ 3); intros; nra). assert (P4 : 0 <= w ^ 4 * p <= 1 / 100) by (generalize dependent (w ^ 4); intros; nra).
  assert (Hd2 : 9 / 10 <= d) by (unfold d; lra).
  set (N := 1 / 24 - p + w * p / 2 - w / 80 - w ^ 2 * p / 12 + w ^ 2 / 1440 + w ^ 3 / 4320 + w ^ 4 * p / 720).
  assert (HN : - (9 / 10) <= N <= 9 / 10) by (unfold N; lra).
  replace (delta_small w - delta_full w) with (w ^ 2 * (N / d)).
  2:{ unfold delta_full, delta_small. rewrite Hd. unfold N, d in *. field. split; [lra|exact Hw]. }
  assert (Rabs (N / d) <= 1).
  { unfold Rdiv. rewrite Rabs_mult, Rabs_inv, (Rabs_right d) by lra. apply Rmult_le_reg_r with d; [lra|]. rewrite Rmult_assoc, Rinv_l, Rmult_1_r, Rmult_1_l by lra.
    apply Rabs_le. lra. }
  rewrite Rabs_mult, (Rabs_right (w ^ 2)) by lra. nra.
Qed.

(** * The operators *)
(** Flux through the right edge of cell [j]. *)
Definition flux (nv : nat) (alpha beta x : nat -> R) (j : nat) : R := if Nat.ltb (S j) nv then - alpha j * x j - beta j * x (S j) else 0.
Definition flux_left (nv : nat) (alpha beta x : nat -> R) (i : nat) : R := match i with O => 0 | S j => flux nv alpha beta x j end.

Lemma assemble_mv nv dv dt nu alpha beta x i : (i < nv)%nat ->
  mv nv (assemble nv dv dt nu alpha beta) x i = x i - dt * nu i / dv * (flux nv alpha beta x i - flux_left nv alpha beta x i).
Proof.
  intros Hi. unfold mv, assemble, flux_left, flux. cbn [diagonal upper lower]. destruct i as [|j].
  - destruct (Nat.ltb 1 nv); unfold Rdiv; ring.
  - assert (E : Nat.ltb (S j) nv = true) by (apply Nat.ltb_lt; lia). rewrite E. destruct (Nat.ltb (S (S j)) nv); unfold Rdiv; ring.
Qed.
Lemma central_mv nv dv C D nu dt x i : mv nv (central nv dv C D nu dt) x i = mv nv (assemble nv dv dt nu (fun j => - C j / 2 + D j / dv) (fun j => - C j / 2 - D j / dv)) x i.
Proof. unfold mv, assemble, central. cbn [diagonal upper lower]. destruct i as [|j]; destruct (Nat.ltb _ nv); unfold Rdiv; ring. Qed.

Lemma flux_sum nv alpha beta x : rsum nv (fun i => flux nv alpha beta x i - flux_left nv alpha beta x i) = 0.
Proof.
  rewrite (rsum_ext nv _ (fun i => flux_left nv alpha beta x (S i) - flux_left nv alpha beta x i)) by reflexivity.
  rewrite rsum_telescope. destruct nv as [|n]; cbn [flux_left]; [lra|]. unfold flux. rewrite (proj2 (Nat.ltb_ge (S n) (S n))) by lia. lra.
Qed.
(** Summation by parts. *)
Lemma flux_parts nv alpha beta x s : rsum nv (fun i => s i * (flux nv alpha beta x i - flux_left nv alpha beta x i)) = rsum nv (fun i => flux nv alpha beta x i * (s i - s (S i))).
Proof.
  set (G := flux_left nv alpha beta x).
  assert (E : rsum nv (fun i => s i * (flux nv alpha beta x i - G i) - flux nv alpha beta x i * (s i - s (S i))) = 0).
  { rewrite (rsum_ext nv _ (fun i => (fun k => s k * G k) (S i) - (fun k => s k * G k) i)) by (intros i _; unfold G; cbn [flux_left]; ring).
    rewrite (rsum_telescope nv (fun k => s k * G k)). destruct nv as [|n]; cbn [G flux_left]; [unfold G; cbn; lra|]. unfold G. cbn [flux_left]. unfold flux. rewrite (proj2 (Nat.ltb_ge (S n) (S n))) by lia. lra. }
  rewrite rsum_minus in E. fold G. lra.
Qed.

Lemma mv_plus nv op x y i : mv nv op (fun k => x k + y k) i = mv nv op x i + mv nv op y i.
Proof. unfold mv. destruct i; destruct (Nat.ltb _ nv); ring. Qed.
Lemma mv_minus nv op x y i : mv nv op (fun k => x k - y k) i = mv nv op x i - mv nv op y i.
Proof. unfold mv. destruct i; destruct (Nat.ltb _ nv); ring. Qed.
Lemma mv_ext nv op x y i : (i < nv)%nat -> (forall k, (k < nv)%nat -> x k = y k) -> mv nv op x i = mv nv op y i.
Proof.
  intros Hi H. unfold mv. rewrite (H i Hi). destruct (Nat.ltb (S i) nv) eqn:E; [apply Nat.ltb_lt in E; rewrite (H (S i) E)|]; (destruct i as [|j]; [reflexivity|rewrite (H j) by lia; reflexivity]).
Qed.

(** The delta formulation solves the implicit system. *)
Lemma step_solves nv op f fn : implicit_step nv op f fn <-> forall i, (i < nv)%nat -> mv nv op fn i = f i.
Proof.
  split.
  - intros (d & Hd & Hn) i Hi. rewrite (mv_ext nv op fn (fun k => f k + d k) i Hi Hn). rewrite mv_plus, (Hd i Hi). ring.
  - intros H. exists (fun k => fn k - f k). split; intros i Hi; [|ring]. now rewrite mv_minus, (H i Hi).
Qed.

Lemma weighted_conservation nv dv dt nu alpha beta p k f fn :
  (forall i, (i < nv)%nat -> p i * nu i = k) ->
  implicit_step nv (assemble nv dv dt nu alpha beta) f fn -> rsum nv (fun i => p i * fn i) = rsum nv (fun i => p i * f i).
Proof.
  intros Hp Hs. rewrite step_solves in Hs.
  assert (E : rsum nv (fun i => p i * fn i - p i * f i) = 0).
  { rewrite (rsum_ext nv _ (fun i => dt * k / dv * (flux nv alpha beta fn i - flux_left nv alpha beta fn i))).
    - rewrite rsum_scal, flux_sum. ring.
    - intros i Hi. rewrite <- (Hs i Hi), assemble_mv by exact Hi. rewrite <- (Hp i Hi). unfold Rdiv. ring. }
  rewrite rsum_minus in E. lra.
Qed.

(** * Positivity *)
Section Positive.
Variables (nv : nat) (dv dt : R) (nu alpha beta : nat -> R).
Hypothesis Hk : forall i, (i < nv)%nat -> 0 <= dt * nu i / dv.
Hypothesis Ha : forall j, (S j < nv)%nat -> 0 <= alpha j.
Hypothesis Hb : forall j, (S j < nv)%nat -> beta j <= 0.

Lemma solution_nonneg b x :
  (forall i, (i < nv)%nat -> mv nv (assemble nv dv dt nu alpha beta) x i = b i) -> (forall i, (i < nv)%nat -> 0 <= b i) -> forall i, (i < nv)%nat -> 0 <= x i.
Proof.
  intros Hx Hbp. set (s := fun i => if Rlt_dec (x i) 0 then 1 else 0). set (t := fun i => s i * (flux nv alpha beta x i - flux_left nv alpha beta x i)).
  assert (Ht : forall i, (i < nv)%nat -> t i <= 0 /\ (x i < 0 -> t i < 0)).
  { intros i Hi. unfold t, s. destruct (Rlt_dec (x i) 0) as [Hn|Hn]; [|split; [lra|intros; lra]].
    specialize (Hx i Hi). rewrite assemble_mv in Hx by exact Hi. specialize (Hbp i Hi). specialize (Hk i Hi).
    set (k := dt * nu i / dv) in *. set (F := flux nv alpha beta x i - flux_left nv alpha beta x i) in *.
    assert (F < 0) by (destruct (Rlt_dec F 0); [assumption|]; assert (0 <= k * F) by (apply Rmult_le_pos; lra); lra). lra. }
  assert (Hs : 0 <= rsum nv t).
  { unfold t. rewrite flux_parts. apply rsum_nonneg. intros j Hj. unfold flux. destruct (Nat.ltb (S j) nv) eqn:E; [|lra]. apply Nat.ltb_lt in E.
    specialize (Ha j E). specialize (Hb j E). unfold s. destruct (Rlt_dec (x j) 0), (Rlt_dec (x (S j)) 0); try lra.
    - assert (0 <= alpha j * (- x j)) by (apply Rmult_le_pos; lra). assert (0 <= (- beta j) * x (S j)) by (apply Rmult_le_pos; lra). lra.
    - assert (0 <= alpha j * x j) by (apply Rmult_le_pos; lra). assert (0 <= (- beta j) * (- x (S j))) by (apply Rmult_le_pos; lra). lra. }
  assert (Hz : forall i, (i < nv)%nat -> - t i = 0).
  { apply rsum_nonneg_zero; [intros i Hi; destruct (Ht i Hi); lra|].
    assert (0 <= rsum nv (fun i => - t i)) by (apply rsum_nonneg; intros i Hi; destruct (Ht i Hi); lra).
    assert (rsum nv (fun i => - t i) = - rsum nv t) by (rewrite (rsum_ext nv _ (fun i => -1 * t i)) by (intros; ring); rewrite rsum_scal; ring). lra. }
  intros i Hi. destruct (Rlt_dec (x i) 0) as [Hn|Hn]; [|lra]. destruct (Ht i Hi) as [_ H]. specialize (H Hn). specialize (Hz i Hi). lra.
Qed.
Lemma solution_unique b x y :
  (forall i, (i < nv)%nat -> mv nv (assemble nv dv dt nu alpha beta) x i = b i) -> (forall i, (i < nv)%nat -> mv nv (assemble nv dv dt nu alpha beta) y i = b i) ->
  forall i, (i < nv)%nat -> x i = y i.
Proof.
  intros Hx Hy i Hi.
  assert (H1 : 0 <= x i - y i). { apply (solution_nonneg (fun _ => 0) (fun k => x k - y k)); [|intros; lra|exact Hi]. intros k Hk'. rewrite mv_minus, (Hx k Hk'), (Hy k Hk'). ring. }
  assert (H2 : 0 <= y i - x i). { apply (solution_nonneg (fun _ => 0) (fun k => y k - x k)); [|intros; lra|exact Hi]. intros k Hk'. rewrite mv_minus, (Hx k Hk'), (Hy k Hk'). ring. }
  lra.
Qed.

(** Forward elimination: the first [m] equations can be solved for any given value of cell [m]; the last of
    them then is rho + gamma * that value. *)
Definition a (j : nat) : R := if Nat.ltb (S j) nv then alpha j else 0.
Definition c (j : nat) : R := if Nat.ltb (S j) nv then - beta j else 0.
Definition k (i : nat) : R := dt * nu i / dv.
Lemma a_nonneg j : 0 <= a j.
Proof. unfold a. destruct (Nat.ltb (S j) nv) eqn:E; [apply Ha; now apply Nat.ltb_lt|lra]. Qed.
Lemma c_nonneg j : 0 <= c j.
Proof. unfold c. destruct (Nat.ltb (S j) nv) eqn:E; [apply Nat.ltb_lt in E; specialize (Hb j E); lra|lra]. Qed.
Lemma flux_ac x j : flux nv alpha beta x j = - a j * x j + c j * x (S j).
Proof. unfold flux, a, c. destruct (Nat.ltb (S j) nv); ring. Qed.
Definition row (x : nat -> R) (i : nat) : R := x i - k i * (- a i * x i + c i * x (S i) - match i with O => 0 | S j => - a j * x j + c j * x (S j) end).
Lemma row_mv x i : (i < nv)%nat -> mv nv (assemble nv dv dt nu alpha beta) x i = row x i.
Proof. intros Hi. rewrite assemble_mv by exact Hi. unfold row. rewrite flux_ac. unfold flux_left. destruct i as [|j]; [reflexivity|]. now rewrite flux_ac. Qed.
Lemma row_ext x y i : (forall j, (j <= S i)%nat -> x j = y j) -> row x i = row y i.
Proof. intros H. unfold row. rewrite (H i), (H (S i)) by lia. destruct i as [|j]; [reflexivity|]. now rewrite (H j), (H (S j)) by lia. Qed.

Lemma eliminate b m : (m <= nv)%nat ->
  exists rho gamma, (match m with O => True | S j => 0 <= gamma /\ gamma * a j <= c j end) /\
    forall y, exists x, x m = y /\ (forall i, (i < m)%nat -> row x i = b i) /\ (match m with O => True | S j => x j = rho + gamma * y end).
Proof.
  induction m as [|m IH]; intros Hm.
  - exists 0, 0. split; [exact I|]. intros y. exists (fun _ => y). split; [reflexivity|]. split; [intros; lia|exact I].
  - destruct IH as (rho & gamma & Hg & Hsol); [lia|].
    assert (Kp : 0 <= k m) by (apply Hk; lia). pose proof (a_nonneg m) as Am. pose proof (c_nonneg m) as Cm.
    set (back := match m with O => 0 | S j => c j - gamma * a j end). set (from := match m with O => 0 | S j => rho * a j end).
    assert (Hback : 0 <= back) by (unfold back; destruct m; [lra|destruct Hg; lra]).
    set (q := 1 + k m * a m + k m * back). assert (Hq : 1 + k m * a m <= q) by (unfold q; assert (0 <= k m * back) by (apply Rmult_le_pos; assumption); lra).
    assert (Hka : 0 <= k m * a m) by now apply Rmult_le_pos. assert (Hkc : 0 <= k m * c m) by now apply Rmult_le_pos.
    exists ((b m + k m * from) / q), (k m * c m / q). split.
    + split; [apply Rmult_le_pos; [exact Hkc|apply Rlt_le, Rinv_0_lt_compat; lra]|].
      apply Rmult_le_reg_r with q; [lra|]. replace (k m * c m / q * a m * q) with (c m * (k m * a m)) by (field; lra). apply Rmult_le_compat_l; lra.
    + intros y. set (z := (b m + k m * from) / q + k m * c m / q * y). destruct (Hsol z) as (x & Hxm & Hrows & Hlast).
      exists (fun i => if Nat.eqb i (S m) then y else x i). split; [now rewrite Nat.eqb_refl|].
      assert (Hsame : forall j, (j <= m)%nat -> (if Nat.eqb j (S m) then y else x j) = x j) by (intros j Hj; rewrite (proj2 (Nat.eqb_neq j (S m))) by lia; reflexivity).
      split.
      * intros i Hi. destruct (Nat.eq_dec i m) as [->|Hn].
        -- unfold row. rewrite Hsame by lia. rewrite Nat.eqb_refl, Hxm.
           assert (Hz : q * z = b m + k m * from + k m * c m * y) by (unfold z; field; lra).
           destruct m as [|j].
           ++ unfold q, back, from in Hz. lra.
           ++ rewrite !Hsame by lia. rewrite Hlast, Hxm. unfold q, back, from in Hz.
              replace (z - k (S j) * (- a (S j) * z + c (S j) * y - (- a j * (rho + gamma * z) + c j * z))) with ((1 + k (S j) * a (S j) + k (S j) * (c j - gamma * a j)) * z - k (S j) * (rho * a j) - k (S j) * c (S j) * y) by ring. lra.
        -- rewrite <- (Hrows i) by lia. apply row_ext. intros j Hj. apply Hsame. lia.
      * rewrite Hsame by lia. rewrite Hxm. unfold z. reflexivity.
Qed.
Lemma solution_exists b : exists x, forall i, (i < nv)%nat -> mv nv (assemble nv dv dt nu alpha beta) x i = b i.
Proof.
  destruct (eliminate b nv (le_n nv)) as (rho & gamma & _ & H). destruct (H 0) as (x & _ & Hx & _). exists x. intros i Hi. rewrite row_mv by exact Hi. now apply Hx.
Qed.
End Positive.
