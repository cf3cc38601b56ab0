(** Proofs about PicLoad: interpolation, cumulative distributions, counts, shifts of the deposit stencil. *)
From Verif Require Import RSum Pic PicProofs VGridProofs PicLoad.
From Coq Require Import Permutation.
Local Open Scope R_scope.

(** * Sums *)
Lemma lsum_seq n (h : nat -> R) : lsum (map h (seq 0 n)) = rsum n h.
Proof.
  induction n as [|n IH]; [reflexivity|]. rewrite seq_S, map_app, lsum_app, IH. cbn. ring.
Qed.
Lemma rsum_add n m h : rsum (n + m) h = rsum n h + rsum m (fun i => h (n + i)%nat).
Proof. induction m as [|m IH]; [rewrite Nat.add_0_r; cbn; ring|]. rewrite Nat.add_succ_r. cbn [rsum]. rewrite IH. ring. Qed.
Lemma rsum_mult a b h : rsum (a * b) h = rsum a (fun c => rsum b (fun r => h (c * b + r)%nat)).
Proof.
  induction a as [|a IH]; [reflexivity|]. replace (S a * b)%nat with (a * b + b)%nat by lia. rewrite rsum_add, IH. reflexivity.
Qed.
Lemma rsum_INR n : rsum n (fun r => INR r) = INR n * (INR n - 1) / 2.
Proof. induction n as [|n IH]; [cbn; field|]. cbn [rsum]. rewrite IH, S_INR. field. Qed.

(** * np.interp on increasing nodes *)
Definition increasing (n : nat) (x : nat -> R) : Prop := forall i, (S i < n)%nat -> x i < x (S i).
Lemma increasing_lt n x i j : increasing n x -> (i < j)%nat -> (j < n)%nat -> x i < x j.
Proof.
  intros H Hij Hj. induction j as [|j IH]; [lia|]. destruct (Nat.eq_dec i j) as [->|N]; [now apply H|].
  apply Rlt_trans with (x j); [apply IH; lia|now apply H].
Qed.
Lemma increasing_le n x i j : increasing n x -> (i <= j)%nat -> (j < n)%nat -> x i <= x j.
Proof. intros H Hij Hj. destruct (Nat.eq_dec i j) as [->|N]; [lra|]. apply Rlt_le, (increasing_lt n); auto. lia. Qed.
Lemma count_le_inc n x q i : increasing n x -> (i < n)%nat -> x i <= q -> ((S i < n)%nat -> q < x (S i)) -> count_le n x q = S i.
Proof.
  intros H Hi Hq Hs.
  assert (E : forall k, (k <= n)%nat -> count_le k x q = Nat.min k (S i)).
  { induction k as [|k IHk]; intros Hk; [reflexivity|]. cbn [count_le]. rewrite IHk by lia.
    destruct (Rle_dec (x k) q) as [C|C].
    - destruct (le_lt_dec k i) as [L|L]; [rewrite !Nat.min_l by lia; lia|].
      assert (q < x (S i)) by (apply Hs; lia). assert (x (S i) <= x k) by (apply (increasing_le n); auto; lia). lra.
    - destruct (le_lt_dec k i) as [L|L]; [|rewrite !Nat.min_r by lia; lia].
      assert (x k <= x i) by (apply (increasing_le n); auto; lia). lra. }
  rewrite E by lia. apply Nat.min_r. lia.
Qed.
Lemma interp_at n x f q i : increasing n x -> (S i < n)%nat -> x i <= q <= x (S i) ->
  interp n x f q = f i + (q - x i) / (x (S i) - x i) * (f (S i) - f i).
Proof.
  intros H Hi [L U]. pose proof (H i Hi) as P.
  assert (Z0 : x 0%nat <= x i) by (apply (increasing_le n); auto; lia).
  assert (ZN : x (S i) <= x (n - 1)%nat) by (apply (increasing_le n); auto; lia).
  unfold interp. destruct (Rlt_dec q (x 0%nat)) as [C|C]; [lra|]. destruct (Rlt_dec (x (n - 1)%nat) q) as [D|D]; [lra|].
  destruct (Req_dec q (x (S i))) as [E|E].
  - rewrite (count_le_inc n x q (S i)); auto; [|lra|].
    + rewrite Nat.max_l by lia. destruct (Nat.eq_dec (S i) (n - 1)) as [E1|E1].
      * rewrite Nat.min_r by lia. rewrite <- E1. cbn [Nat.sub]. rewrite Nat.sub_0_r. reflexivity.
      * rewrite Nat.min_l by lia. replace (S (S i) - 1)%nat with (S i) by lia. rewrite E.
        pose proof (H (S i) ltac:(lia)). field. split; lra.
    + intros G. pose proof (H (S i) G). lra.
  - rewrite (count_le_inc n x q i); auto; [|lia|intros _; lra].
    rewrite Nat.max_l by lia. rewrite Nat.min_l by lia. replace (S i - 1)%nat with i by lia. reflexivity.
Qed.
Lemma locate n x q : (2 <= n)%nat -> x 0%nat <= q <= x (n - 1)%nat -> exists i, (S i < n)%nat /\ x i <= q <= x (S i).
Proof.
  intros Hn [L U]. induction n as [|n IH]; [lia|]. destruct (Nat.eq_dec n 1) as [->|N].
  - exists 0%nat. split; [lia|]. cbn in U. lra.
  - destruct (Rle_dec q (x (n - 1)%nat)) as [C|C].
    + destruct IH as (i & A & B); [lia|exact C|]. exists i. split; [lia|exact B].
    + exists (n - 1)%nat. split; [lia|]. replace (S (n - 1))%nat with n by lia. replace (S n - 1)%nat with n in U by lia. lra.
Qed.
Lemma interp_below n x f q : q < x 0%nat -> interp n x f q = f 0%nat.
Proof. intros H. unfold interp. destruct (Rlt_dec q (x 0%nat)); [reflexivity|lra]. Qed.
Lemma interp_above n x f q : increasing n x -> (1 <= n)%nat -> x (n - 1)%nat < q -> interp n x f q = f (n - 1)%nat.
Proof.
  intros I Hn H. unfold interp. assert (x 0%nat <= x (n - 1)%nat) by (apply (increasing_le n); auto; lia).
  destruct (Rlt_dec q (x 0%nat)); [lra|]. destruct (Rlt_dec (x (n - 1)%nat) q); [reflexivity|lra].
Qed.
Lemma interp_one x f q : interp 1 x f q = f 0%nat.
Proof.
  unfold interp. replace (Nat.min (Nat.max (count_le 1 x q) 1) (1 - 1)) with 0%nat by (cbn [Nat.sub]; lia). cbn [Nat.sub].
  destruct (Rlt_dec q (x 0%nat)); [reflexivity|]. destruct (Rlt_dec (x 0%nat) q); [reflexivity|]. unfold Rdiv. ring.
Qed.
Lemma between_lin a b t : 0 <= t <= 1 -> a <= b -> a <= a + t * (b - a) <= b.
Proof. intros H D. split; nra. Qed.
Lemma slope_range a b q : a < b -> a <= q <= b -> 0 <= (q - a) / (b - a) <= 1.
Proof.
  intros P Q. split; [apply Rmult_le_pos; [lra|apply Rlt_le, Rinv_0_lt_compat; lra]|].
  apply Rmult_le_reg_r with (b - a); [lra|]. unfold Rdiv. rewrite Rmult_assoc, Rinv_l by lra. lra.
Qed.
Lemma interp_range n x f q : (1 <= n)%nat -> increasing n x -> (forall i, (S i < n)%nat -> f i <= f (S i)) -> f 0%nat <= interp n x f q <= f (n - 1)%nat.
Proof.
  intros Hn I M.
  assert (Mle : forall i j, (i <= j)%nat -> (j < n)%nat -> f i <= f j).
  { intros i j. induction j as [|j IH]; intros A B; [replace i with 0%nat by lia; lra|]. destruct (Nat.eq_dec i (S j)) as [->|N]; [lra|].
    apply Rle_trans with (f j); [apply IH; lia|apply M; lia]. }
  destruct (Nat.eq_dec n 1) as [->|N1]; [rewrite interp_one; cbn; lra|].
  destruct (Rlt_dec q (x 0%nat)) as [C|C]; [rewrite interp_below by exact C; split; [lra|apply Mle; lia]|].
  destruct (Rlt_dec (x (n - 1)%nat) q) as [D|D]; [rewrite interp_above by auto; split; [apply Mle; lia|lra]|].
  destruct (locate n x q) as (i & A & B); [lia|lra|]. rewrite (interp_at n x f q i) by auto.
  pose proof (between_lin (f i) (f (S i)) ((q - x i) / (x (S i) - x i)) (slope_range _ _ _ (I i A) B) (M i A)).
  pose proof (Mle 0%nat i ltac:(lia) ltac:(lia)). pose proof (Mle (S i) (n - 1)%nat ltac:(lia) ltac:(lia)). lra.
Qed.

(** * Cumulative distributions *)
Lemma cum_scale x h c k : cum x (fun i => h i / c) k = cum x h k / c.
Proof. unfold cum, Rdiv. rewrite <- rsum_scal_r. apply rsum_ext. intros i _. unfold Rdiv. ring. Qed.
Lemma cum_inc n x h : increasing n x -> (forall i, (i < n)%nat -> 0 < h i) -> increasing n (cum x h).
Proof.
  intros I P i Hi. unfold cum. cbn [rsum]. pose proof (P i ltac:(lia)). pose proof (P (S i) Hi). pose proof (I i Hi).
  assert (0 < 1 / 2 * (h (S i) + h i) * (x (S i) - x i)) by (apply Rmult_lt_0_compat; lra). lra.
Qed.
Lemma cum_last_pos n x h : (2 <= n)%nat -> increasing n x -> (forall i, (i < n)%nat -> 0 < h i) -> 0 < cum x h (n - 1)%nat.
Proof. intros Hn I P. change 0 with (cum x h 0%nat). apply (increasing_lt n (cum x h) 0%nat (n - 1)%nat); [now apply cum_inc|lia|lia]. Qed.
Lemma cdf_formula n x h k : (2 <= n)%nat -> increasing n x -> (forall i, (i < n)%nat -> 0 < h i) -> cdf n x h k = cum x h k / cum x h (n - 1)%nat.
Proof.
  intros Hn I P. pose proof (cum_last_pos n x h Hn I P) as Q. unfold cdf. change (trapz n x h) with (cum x h (n - 1)%nat). cbv zeta.
  rewrite !cum_scale. field. lra.
Qed.
Lemma cdf_inc n x h : (2 <= n)%nat -> increasing n x -> (forall i, (i < n)%nat -> 0 < h i) -> increasing n (cdf n x h).
Proof.
  intros Hn I P i Hi. rewrite !cdf_formula by auto. pose proof (cum_last_pos n x h Hn I P). pose proof (cum_inc n x h I P i Hi).
  apply Rmult_lt_compat_r; [now apply Rinv_0_lt_compat|assumption].
Qed.
Lemma cdf_ends n x h : (2 <= n)%nat -> increasing n x -> (forall i, (i < n)%nat -> 0 < h i) -> cdf n x h 0 = 0 /\ cdf n x h (n - 1) = 1.
Proof.
  intros Hn I P. rewrite !cdf_formula by auto. pose proof (cum_last_pos n x h Hn I P). split; [unfold cum at 1; cbn; field; lra|field; lra].
Qed.
Lemma inverse_interp n x c q : (2 <= n)%nat -> increasing n x -> increasing n c -> c 0%nat <= q <= c (n - 1)%nat ->
  interp n x c (interp n c x q) = q.
Proof.
  intros Hn Ix Ic Q. destruct (locate n c q Hn Q) as (i & A & B). rewrite (interp_at n c x q i) by auto.
  pose proof (Ix i A). pose proof (Ic i A).
  pose proof (between_lin (x i) (x (S i)) _ (slope_range _ _ _ (Ic i A) B) ltac:(lra)) as BB.
  rewrite (interp_at n x c _ i) by auto. field. split; lra.
Qed.
Lemma interp_mirror n c x q a : (2 <= n)%nat -> increasing n c -> c 0%nat <= q <= c (n - 1)%nat ->
  (forall i, (i < n)%nat -> c (n - 1 - i)%nat = a - c i) -> (forall i, (i < n)%nat -> x (n - 1 - i)%nat = - x i) ->
  interp n c x (a - q) = - interp n c x q.
Proof.
  intros Hn Ic Q Mc Mx. destruct (locate n c q Hn Q) as (i & A & B). rewrite (interp_at n c x q i) by auto.
  pose proof (Ic i A). pose proof (Mc i ltac:(lia)) as C1. pose proof (Mc (S i) A) as C2. pose proof (Mx i ltac:(lia)) as X1. pose proof (Mx (S i) A) as X2.
  set (j := (n - 1 - S i)%nat) in *. replace (n - 1 - i)%nat with (S j) in C1, X1 by lia.
  rewrite (interp_at n c x (a - q) j); [|auto|lia|rewrite C1, C2; lra]. rewrite C1, C2, X1, X2. field; repeat split; lra.
Qed.

(** * The grids *)
Definition fit (g : lgrid) : Prop := lg_xmin g < lg_xmax g /\ (0 < lg_nx g)%nat.
Lemma lg_pos g : fit g -> 0 < lg_L g /\ 0 < lg_dx g /\ 0 < INR (lg_nx g) /\ lg_L g = INR (lg_nx g) * lg_dx g.
Proof.
  intros [H Hn]. assert (P : 0 < INR (lg_nx g)) by (apply lt_0_INR; lia). assert (Q : 0 < lg_L g) by (unfold lg_L; lra).
  repeat split; [exact Q| |exact P|].
  - unfold lg_dx. apply Rmult_lt_0_compat; [exact Q|now apply Rinv_0_lt_compat].
  - unfold lg_dx. field. lra.
Qed.
Lemma lg_x_formula g i : fit g -> (i < lg_nx g)%nat -> lg_x g i = lg_xmin g + (INR i + 1 / 2) * lg_dx g.
Proof.
  intros F Hi. destruct (lg_pos g F) as (P & D & N & E). destruct F as [H Hn]. unfold lg_x, linspace.
  assert (EX : lg_xmax g = lg_xmin g + INR (lg_nx g) * lg_dx g) by (unfold lg_L in E; lra).
  destruct (Nat.leb_spec (lg_nx g) 1) as [C|C].
  - replace i with 0%nat by lia. change (INR 0) with 0. lra.
  - rewrite EX, minus_INR by lia. change (INR 1) with 1. field. apply lt_INR in C. change (INR 1) with 1 in C. lra.
Qed.
Lemma lg_x_inc g : fit g -> increasing (lg_nx g) (lg_x g).
Proof.
  intros F i Hi. destruct (lg_pos g F) as (_ & D & _). rewrite !lg_x_formula by (auto; lia). rewrite S_INR. lra.
Qed.
Lemma linspace_inc a b n : a < b -> increasing n (linspace a b n).
Proof.
  intros H i Hi. pose proof (linspace_step a b n i ltac:(lia)) as S1.
  assert (0 < (b - a) / INR (n - 1)) by (apply Rmult_lt_0_compat; [lra|apply Rinv_0_lt_compat, lt_0_INR; lia]). lra.
Qed.
Lemma linspace_mirror a n i : (2 <= n)%nat -> (i < n)%nat -> linspace (- a) a n (n - 1 - i) = - linspace (- a) a n i.
Proof.
  intros Hn Hi. unfold linspace. destruct (Nat.leb_spec n 1); [lia|]. rewrite (minus_INR (n - 1) i) by lia. field.
  assert (0 < INR (n - 1)) by (apply lt_0_INR; lia). lra.
Qed.
Lemma linspace_ends a b n : (2 <= n)%nat -> linspace a b n 0 = a /\ linspace a b n (n - 1) = b.
Proof.
  intros Hn. unfold linspace. destruct (Nat.leb_spec n 1); [lia|]. assert (0 < INR (n - 1)) by (apply lt_0_INR; lia).
  split; [change (INR 0) with 0; field; lra|field; lra].
Qed.
Lemma v_nodes_two n : (2 <= v_nodes n)%nat.
Proof. unfold v_nodes. assert (H : (2 <= Z.to_nat 8192)%nat) by (apply (Z2Nat.inj_le 2 8192); lia). revert H. generalize (Z.to_nat 8192). intros. lia. Qed.
Opaque v_nodes.

(** ** Quiet velocities *)
Lemma v_pdf_pos n T m o al vm v0 i : 0 < v_pdf n T m o al vm v0 i.
Proof. apply exp_pos. Qed.
Lemma quantile_range n T m o al vm v0 q : 0 < vm -> - vm <= quantile n T m o al vm v0 q <= vm.
Proof.
  intros H. pose proof (v_nodes_two n) as N. pose proof (linspace_inc (- vm) vm (v_nodes n) ltac:(lra)) as I.
  unfold quantile. destruct (linspace_ends (- vm) vm (v_nodes n) N) as [E0 E1].
  pose proof (interp_range (v_nodes n) (cdf (v_nodes n) (v_grid n vm) (v_pdf n T m o al vm v0)) (v_grid n vm) q ltac:(lia)
    (cdf_inc (v_nodes n) (v_grid n vm) (v_pdf n T m o al vm v0) N I (fun i _ => v_pdf_pos n T m o al vm v0 i)) (fun i Hi => Rlt_le _ _ (I i Hi))) as B.
  change (v_grid n vm 0%nat) with (linspace (- vm) vm (v_nodes n) 0) in B. change (v_grid n vm (v_nodes n - 1)%nat) with (linspace (- vm) vm (v_nodes n) (v_nodes n - 1)) in B.
  rewrite E0, E1 in B. exact B.
Qed.
Lemma quantile_inverse n T m o al vm v0 q : 0 < vm -> 0 <= q <= 1 ->
  interp (v_nodes n) (v_grid n vm) (cdf (v_nodes n) (v_grid n vm) (v_pdf n T m o al vm v0)) (quantile n T m o al vm v0 q) = q.
Proof.
  intros H Q. pose proof (v_nodes_two n) as N. pose proof (linspace_inc (- vm) vm (v_nodes n) ltac:(lra)) as I.
  pose proof (cdf_inc (v_nodes n) (v_grid n vm) _ N I (fun i _ => v_pdf_pos n T m o al vm v0 i)) as C.
  destruct (cdf_ends (v_nodes n) (v_grid n vm) _ N I (fun i _ => v_pdf_pos n T m o al vm v0 i)) as [E0 E1].
  unfold quantile. apply inverse_interp; auto. rewrite E0, E1. exact Q.
Qed.
Lemma abs_pow_even x m : abs_pow (- x) m = abs_pow x m.
Proof. unfold abs_pow. rewrite Rabs_Ropp. destruct (Req_EM_T (- x) 0), (Req_EM_T x 0); try reflexivity; lra. Qed.
Lemma cum_mirror n x h k : (2 <= n)%nat -> (k < n)%nat -> (forall i, (i < n)%nat -> x (n - 1 - i)%nat = - x i) -> (forall i, (i < n)%nat -> h (n - 1 - i)%nat = h i) ->
  cum x h (n - 1 - k) = cum x h (n - 1) - cum x h k.
Proof.
  intros Hn Hk Mx Mh. unfold cum.
  replace (rsum (n - 1) (fun i => 1 / 2 * (h (S i) + h i) * (x (S i) - x i))) with
    (rsum (n - 1 - k + k) (fun i => 1 / 2 * (h (S i) + h i) * (x (S i) - x i))) by (f_equal; lia).
  rewrite rsum_add.
  assert (E : rsum k (fun i => 1 / 2 * (h (S (n - 1 - k + i)) + h (n - 1 - k + i)%nat) * (x (S (n - 1 - k + i)) - x (n - 1 - k + i)%nat)) =
              rsum k (fun i => 1 / 2 * (h (S i) + h i) * (x (S i) - x i))).
  { clear Hn. induction k as [|k IH]; [reflexivity|]. rewrite rsum_shift. cbn [rsum]. rewrite Nat.add_0_r.
    rewrite <- IH by lia. rewrite Rplus_comm. f_equal.
    - apply rsum_ext. intros i Hi. now replace (n - 1 - S k + S i)%nat with (n - 1 - k + i)%nat by lia.
    - replace (S (n - 1 - S k)) with (n - 1 - k)%nat by lia. rewrite !Mh, !Mx by lia. ring. }
  rewrite E. ring.
Qed.
Lemma cdf_mirror n x h i : (2 <= n)%nat -> increasing n x -> (forall i, (i < n)%nat -> 0 < h i) ->
  (forall i, (i < n)%nat -> x (n - 1 - i)%nat = - x i) -> (i < n)%nat -> (forall i, (i < n)%nat -> h (n - 1 - i)%nat = h i) ->
  cdf n x h (n - 1 - i) = 1 - cdf n x h i.
Proof.
  intros N I P Mx Hi Mh. rewrite !cdf_formula by auto. pose proof (cum_last_pos n x h N I P) as Q. rewrite (cum_mirror n) by auto. field. lra.
Qed.
Lemma quantile_mirror n T m o al vm q : 0 < vm -> 0 <= q <= 1 -> quantile n T m o al vm 0 (1 - q) = - quantile n T m o al vm 0 q.
Proof.
  intros H Q. pose proof (v_nodes_two n) as N. pose proof (linspace_inc (- vm) vm (v_nodes n) ltac:(lra)) as I.
  pose proof (cdf_inc (v_nodes n) (v_grid n vm) _ N I (fun i _ => v_pdf_pos n T m o al vm 0 i)) as C.
  destruct (cdf_ends (v_nodes n) (v_grid n vm) _ N I (fun i _ => v_pdf_pos n T m o al vm 0 i)) as [E0 E1].
  unfold quantile. apply interp_mirror; auto.
  - rewrite E0, E1. exact Q.
  - intros i Hi. apply cdf_mirror; [exact N|exact I|intros; apply v_pdf_pos| |exact Hi|].
    + intros j Hj. exact (linspace_mirror vm (v_nodes n) j N Hj).
    + intros j Hj. unfold v_pdf, v_grid. rewrite (linspace_mirror vm (v_nodes n) j N Hj). f_equal. f_equal.
      replace ((- linspace (- vm) vm (v_nodes n) j - 0) / (al * sqrt (T / m))) with (- ((linspace (- vm) vm (v_nodes n) j - 0) / (al * sqrt (T / m))))
        by (unfold Rdiv; ring). apply abs_pow_even.
  - intros i Hi. exact (linspace_mirror vm (v_nodes n) i N Hi).
Qed.
Lemma lsum_rev l : lsum (rev l) = lsum l.
Proof. induction l as [|a l IH]; [reflexivity|]. cbn [rev]. rewrite lsum_app, IH. cbn. ring. Qed.
Lemma rsum_flip n h : rsum n h = rsum n (fun j => h (n - 1 - j)%nat).
Proof.
  induction n as [|n IH]; [reflexivity|]. cbn [rsum]. rewrite IH.
  change (rsum n (fun j => h (n - 1 - j)%nat) + h n = rsum (S n) (fun j => h (S n - 1 - j)%nat)). rewrite rsum_shift. rewrite Rplus_comm. f_equal; [f_equal; lia|].
  apply rsum_ext. intros i Hi. f_equal. lia.
Qed.
Lemma quiet_v_sum n T m o al vm : 0 < vm -> lsum (quiet_v n T m o al vm 0) = 0.
Proof.
  intros H. unfold quiet_v. rewrite lsum_seq. destruct n as [|n']; [reflexivity|]. set (n := S n').
  assert (P : 0 < INR n) by (apply lt_0_INR; unfold n; lia).
  set (Q := fun k => quantile n T m o al vm 0 ((INR k + 1 / 2) / INR n)).
  assert (E : rsum n Q = - rsum n Q).
  { rewrite rsum_flip at 1. replace (- rsum n Q) with (-1 * rsum n Q) by ring. rewrite <- rsum_scal. apply rsum_ext. intros k Hk. unfold Q.
    replace ((INR (n - 1 - k) + 1 / 2) / INR n) with (1 - (INR k + 1 / 2) / INR n).
    - rewrite quantile_mirror; [ring|exact H|]. pose proof (pos_INR k). split.
      + apply Rmult_le_pos; [lra|now apply Rlt_le, Rinv_0_lt_compat].
      + apply Rmult_le_reg_r with (INR n); [exact P|]. unfold Rdiv. rewrite Rmult_assoc, Rinv_l by lra. apply lt_INR in Hk.
        assert (INR k + 1 <= INR n) by (rewrite <- S_INR; apply le_INR; apply INR_lt in Hk; lia). lra.
    - rewrite !minus_INR by lia. change (INR 1) with 1. field. lra. }
  lra.
Qed.

(** ** Counts *)
Lemma zsum_add_last d l : l <> [] -> zsum (add_last d l) = (zsum l + d)%Z.
Proof.
  induction l as [|a l IH]; intros N; [contradiction|]. destruct l as [|b l]; [cbn; lia|].
  change (zsum (add_last d (a :: b :: l))) with (a + zsum (add_last d (b :: l)))%Z. rewrite IH by discriminate. cbn [zsum]. lia.
Qed.
Lemma add_last_app d l z : add_last d (l ++ [z]) = l ++ [(z + d)%Z].
Proof. induction l as [|a l IH]; [reflexivity|]. cbn [app add_last]. rewrite IH. destruct l; reflexivity. Qed.
Lemma zsum_app a b : zsum (a ++ b) = (zsum a + zsum b)%Z.
Proof. induction a as [|x a IH]; [reflexivity|]. cbn [app zsum]. rewrite IH. lia. Qed.

(** * Shifting a particle by whole cells *)
Definition raw (sh : shape) (sr : R) : list (Z * R) :=
  match sh with
  | linear => let ig := floor sr in let s := sr - IZR ig in [(ig, 1 - s); ((ig + 1)%Z, s)]
  | tsc => let ig := round_half_even sr in let s := sr - IZR ig in
      [((ig - 1)%Z, 1 / 2 * (1 / 2 - s) ^ 2); (ig, 3 / 4 - s ^ 2); ((ig + 1)%Z, 1 / 2 * (1 / 2 + s) ^ 2)]
  | cubic => let ig := floor sr in let s := sr - IZR ig in
      [((ig - 1)%Z, (1 - s) ^ 3 / 6); (ig, 2 / 3 - s ^ 2 + s ^ 3 / 2);
       ((ig + 1)%Z, 2 / 3 - (1 - s) ^ 2 + (1 - s) ^ 3 / 2); ((ig + 2)%Z, s ^ 3 / 6)]
  end.
Lemma stencil_raw sh x dx xmin nx : stencil sh x dx xmin nx = map (fun e => (wrap nx (fst e), snd e)) (raw sh (s_real x dx xmin)).
Proof. destruct sh; reflexivity. Qed.
Definition act (l : list (Z * R)) (G : Z -> R) : R := lsum (map (fun e => snd e * G (fst e)) l).
Lemma raw_shift sh sr M (G : Z -> R) : act (raw sh (sr + IZR M)) G = act (raw sh sr) (fun i => G (i + M)%Z).
Proof.
  unfold act. destruct sh; unfold raw; cbv zeta.
  - rewrite floor_shift, plus_IZR. replace (sr + IZR M - (IZR (floor sr) + IZR M)) with (sr - IZR (floor sr)) by ring. cbn [map lsum fst snd].
    now replace (floor sr + M + 1)%Z with (floor sr + 1 + M)%Z by lia.
  - destruct (round_shift sr M) as [E|[[E1 E]|[E1 E]]]; rewrite E.
    + rewrite plus_IZR. replace (sr + IZR M - (IZR (round_half_even sr) + IZR M)) with (sr - IZR (round_half_even sr)) by ring. cbn [map lsum fst snd].
      replace (round_half_even sr + M + 1)%Z with (round_half_even sr + 1 + M)%Z by lia.
      now replace (round_half_even sr + M - 1)%Z with (round_half_even sr - 1 + M)%Z by lia.
    + rewrite !plus_IZR. replace (sr + IZR M - (IZR (round_half_even sr) + IZR M + 1)) with (- (1 / 2)) by lra. rewrite E1. cbn [map lsum fst snd].
      replace (round_half_even sr + M + 1 - 1)%Z with (round_half_even sr + M)%Z by lia.
      replace (round_half_even sr + M + 1)%Z with (round_half_even sr + 1 + M)%Z by lia. field.
    + rewrite minus_IZR, plus_IZR. replace (sr + IZR M - (IZR (round_half_even sr) + IZR M - 1)) with (1 / 2) by lra. rewrite E1. cbn [map lsum fst snd].
      replace (round_half_even sr + M - 1 + 1)%Z with (round_half_even sr + M)%Z by lia.
      replace (round_half_even sr + M - 1)%Z with (round_half_even sr - 1 + M)%Z by lia. field.
  - rewrite floor_shift, plus_IZR. replace (sr + IZR M - (IZR (floor sr) + IZR M)) with (sr - IZR (floor sr)) by ring. cbn [map lsum fst snd].
    replace (floor sr + M + 1)%Z with (floor sr + 1 + M)%Z by lia. replace (floor sr + M + 2)%Z with (floor sr + 2 + M)%Z by lia.
    now replace (floor sr + M - 1)%Z with (floor sr - 1 + M)%Z by lia.
Qed.
Lemma cyc_step nx b (F : nat -> R) : (0 < nx)%nat ->
  rsum nx (fun c => F (wrap nx (b + 1 + Z.of_nat c))) = rsum nx (fun c => F (wrap nx (b + Z.of_nat c))).
Proof.
  intros Hn. destruct nx as [|n]; [lia|]. rewrite (rsum_shift n (fun c => F (wrap (S n) (b + Z.of_nat c)))). cbn [rsum].
  rewrite Rplus_comm. f_equal.
  - f_equal. rewrite <- (wrap_shift (S n) (b + Z.of_nat 0) 1) by lia. f_equal. lia.
  - apply rsum_ext. intros i _. do 2 f_equal. lia.
Qed.
Lemma cyc_sum nx b (F : nat -> R) : (0 < nx)%nat -> rsum nx (fun c => F (wrap nx (b + Z.of_nat c))) = rsum nx F.
Proof.
  intros Hn. assert (P : forall k, rsum nx (fun c => F (wrap nx (Z.of_nat k + Z.of_nat c))) = rsum nx F).
  { induction k as [|k IH].
    - apply rsum_ext. intros i Hi. f_equal. unfold wrap. cbn [Z.of_nat Z.add]. rewrite Z.mod_small by lia. apply Nat2Z.id.
    - rewrite Nat2Z.inj_succ. unfold Z.succ. now rewrite cyc_step. }
  rewrite <- (P (wrap nx b)) at 1. apply rsum_ext. intros c _. f_equal. unfold wrap. rewrite Z2Nat.id by (apply Z.mod_pos_bound; lia).
  now rewrite Zplus_mod_idemp_l.
Qed.
Lemma full_row sh x dx xmin nx w g : (0 < nx)%nat -> dx <> 0 -> (g < nx)%nat ->
  rsum nx (fun c => scatter (stencil sh (x + INR c * dx) dx xmin nx) w g) = w.
Proof.
  intros Hn Hd Hg.
  set (F := fun i => if Nat.eqb i g then 1 else 0).
  assert (E : forall c, scatter (stencil sh (x + INR c * dx) dx xmin nx) w g = w * act (raw sh (s_real x dx xmin)) (fun i => F (wrap nx (i + Z.of_nat c)))).
  { intros c. rewrite scatter_action. f_equal. rewrite stencil_raw, map_map. cbn [fst snd].
    change (act (raw sh (s_real (x + INR c * dx) dx xmin)) (fun i => F (wrap nx i)) = act (raw sh (s_real x dx xmin)) (fun i => F (wrap nx (i + Z.of_nat c)))).
    replace (s_real (x + INR c * dx) dx xmin) with (s_real x dx xmin + IZR (Z.of_nat c)) by (unfold s_real; rewrite <- INR_IZR_INZ; field; exact Hd).
    now rewrite raw_shift. }
  rewrite (rsum_ext nx _ (fun c => w * act (raw sh (s_real x dx xmin)) (fun i => F (wrap nx (i + Z.of_nat c))))) by (intros; apply E).
  rewrite rsum_scal. unfold act. rewrite (rsum_lsum nx (raw sh (s_real x dx xmin)) (fun e c => snd e * F (wrap nx (fst e + Z.of_nat c)))).
  assert (S1 : lsum (map (fun e => rsum nx (fun c => snd e * F (wrap nx (fst e + Z.of_nat c)))) (raw sh (s_real x dx xmin))) = lsum (map snd (raw sh (s_real x dx xmin)))).
  { apply lsum_ext. intros e _. rewrite rsum_scal, (cyc_sum nx (fst e) F Hn).
    rewrite (rsum_single nx g F Hg); [unfold F; rewrite Nat.eqb_refl; ring|]. intros i _ N. unfold F. apply Nat.eqb_neq in N. now rewrite N. }
  rewrite S1. pose proof (stencil_sum sh x dx xmin nx) as T. rewrite stencil_raw, map_map in T. change (lsum (map snd (raw sh (s_real x dx xmin))) = 1) in T. rewrite T. ring.
Qed.

(** * Lists of particles *)
Lemma zip3_length xs : forall vs ws, List.length vs = List.length xs -> List.length ws = List.length xs -> List.length (zip3 xs vs ws) = List.length xs.
Proof. induction xs as [|x xs IH]; intros [|v vs] [|w ws] A B; cbn in *; try discriminate; auto. Qed.
Lemma zip3_x xs : forall vs ws, List.length vs = List.length xs -> List.length ws = List.length xs -> map px (zip3 xs vs ws) = xs.
Proof. induction xs as [|x xs IH]; intros [|v vs] [|w ws] A B; cbn in *; try discriminate; auto. now rewrite IH by lia. Qed.
Lemma zip3_v xs : forall vs ws, List.length vs = List.length xs -> List.length ws = List.length xs -> map pv (zip3 xs vs ws) = vs.
Proof. induction xs as [|x xs IH]; intros [|v vs] [|w ws] A B; cbn in *; try discriminate; auto. now rewrite IH by lia. Qed.
Lemma zip3_w xs : forall vs ws, List.length vs = List.length xs -> List.length ws = List.length xs -> map pw (zip3 xs vs ws) = ws.
Proof. induction xs as [|x xs IH]; intros [|v vs] [|w ws] A B; cbn in *; try discriminate; auto. now rewrite IH by lia. Qed.
Lemma quiet_v_length n T m o al vm v0 : List.length (quiet_v n T m o al vm v0) = n.
Proof. unfold quiet_v. now rewrite map_length, seq_length. Qed.
Lemma reject_spec T m o al vm v0 draw batch passes : forall start need out, reject T m o al vm v0 draw batch start need passes = Some out ->
  List.length out = need /\ exists b, out = firstn need (List.concat (map (fun j => accepted T m o al vm v0 draw batch (start + j * (2 * batch))) (seq 0 b))).
Proof.
  induction passes as [|p IH]; intros start need out E; destruct need as [|need]; cbn [reject] in E; try discriminate.
  - injection E as <-. split; [reflexivity|]. now exists 0%nat.
  - injection E as <-. split; [reflexivity|]. now exists 0%nat.
  - set (keep := accepted T m o al vm v0 draw batch start) in E. set (take := Nat.min (List.length keep) (S need)) in E.
    destruct (reject T m o al vm v0 draw batch (start + 2 * batch) (S need - take) p) as [rest|] eqn:R; [|discriminate]. injection E as <-.
    destruct (IH _ _ _ R) as (L & b & E). split.
    + rewrite app_length, L, firstn_length_le by lia. lia.
    + exists (S b). cbn [seq map List.concat]. rewrite Nat.mul_0_l, Nat.add_0_r. fold keep.
      rewrite <- seq_shift, map_map.
      rewrite (map_ext (fun j => accepted T m o al vm v0 draw batch (start + S j * (2 * batch))) (fun j => accepted T m o al vm v0 draw batch (start + 2 * batch + j * (2 * batch)))) by (intros; f_equal; lia).
      rewrite firstn_app. destruct (le_lt_dec (List.length keep) (S need)) as [C|C].
      * assert (take = List.length keep) as TE by (unfold take; lia). rewrite TE in *. rewrite firstn_all. rewrite (firstn_all2 (n := S need)) by lia. now rewrite <- E.
      * assert (take = S need) as TE by (unfold take; lia). rewrite TE in *. replace (S need - S need)%nat with 0%nat in * by lia.
        replace (S need - List.length keep)%nat with 0%nat by lia. rewrite E. cbn. reflexivity.
Qed.
