(** C110: cells, times, windows and settings of the OSIRIS plots. *)
From Verif Require Import RSum OsSelect.
From Coq Require Import List Sorted.
Local Open Scope R_scope.

(** ** Downsampling *)
Lemma factor_pos s t : (1 <= factor s t)%nat.
Proof. unfold factor. lia. Qed.
(** The number of blocks along an axis: never more than the cells, untouched below twice the target, from the target on at
    least the target and less than twice the target; fewer cells than one block are left out. *)
Theorem C110_blocks : forall size target, (1 <= target)%nat ->
  (blocks size target <= size)%nat /\ ((size < 2 * target)%nat -> factor size target = 1%nat /\ blocks size target = size) /\
  ((target <= size)%nat -> (target <= blocks size target < 2 * target)%nat) /\
  (blocks size target * factor size target <= size < blocks size target * factor size target + factor size target)%nat.
Proof.
  intros n t Ht. assert (F := factor_pos n t). unfold blocks. set (f := factor n t) in *.
  assert (D := Nat.div_mod n f ltac:(lia)). assert (M := Nat.mod_upper_bound n f ltac:(lia)).
  assert (E : f = Nat.max 1 (n / t)) by (unfold f, factor; f_equal; f_equal; lia).
  assert (D' := Nat.div_mod n t ltac:(lia)). assert (M' := Nat.mod_upper_bound n t ltac:(lia)).
  set (q := (n / t)%nat) in *. set (b := (n / f)%nat) in *. clearbody f q b. split; [nia|]. split; [|split].
  - intros H. assert (f = 1%nat) by nia. subst f. nia.
  - intros H. assert (1 <= q)%nat by nia. assert (f = q) by lia. subst f. split.
    + apply Nat.lt_succ_r. apply Nat.mul_lt_mono_pos_l with (p := q); nia.
    + destruct (Nat.lt_ge_cases b (2 * t)) as [L|L]; [exact L|]. exfalso. assert (q * (2 * t) <= q * b)%nat by (apply Nat.mul_le_mono_l; exact L). nia.
  - nia.
Qed.
Print Assumptions C110_blocks.
Lemma rsum_blocks f (c : nat -> R) : forall n, rsum n (fun i => rsum f (fun a => c (i * f + a)%nat)) = rsum (n * f) c.
Proof.
  assert (K : forall m k, rsum (m + k) c = rsum m c + rsum k (fun a => c (m + a)%nat)).
  { intros m k. induction k as [|k IH]; cbn [rsum]; [rewrite Nat.add_0_r; ring|]. rewrite Nat.add_succ_r. cbn [rsum]. rewrite IH. ring. }
  induction n as [|n IH]; cbn [rsum]; [reflexivity|]. rewrite IH. replace (Datatypes.S n * f)%nat with (n * f + f)%nat by lia. now rewrite K.
Qed.
(** Block means: the total over the kept cells is kept, each value lies between the bounds of the data. *)
Theorem C110_downsample : forall nr nc fr fc data, (1 <= fr)%nat -> (1 <= fc)%nat ->
  INR fr * INR fc * rsum nr (fun i => rsum nc (fun j => reduced fr fc data i j)) = rsum (nr * fr) (fun x => rsum (nc * fc) (fun y => data x y)) /\
  forall i j lo hi, (i < nr)%nat -> (j < nc)%nat -> (forall x y, (x < nr * fr)%nat -> (y < nc * fc)%nat -> lo <= data x y <= hi) -> lo <= reduced fr fc data i j <= hi.
Proof.
  intros nr nc fr fc data Hr Hc. assert (P : 0 < INR fr) by (apply lt_0_INR; lia). assert (Q : 0 < INR fc) by (apply lt_0_INR; lia). assert (PQ := Rmult_lt_0_compat _ _ P Q). split.
  - rewrite <- (rsum_blocks fr). rewrite <- rsum_scal. apply rsum_ext. intros i _. rewrite <- rsum_scal.
    rewrite (rsum_ext fr (fun a => rsum (nc * fc) _) (fun a => rsum nc (fun j => rsum fc (fun b => data (i * fr + a)%nat (j * fc + b)%nat)))) by (intros; symmetry; apply (rsum_blocks fc)).
    rewrite rsum_swap. apply rsum_ext. intros j _. unfold reduced. field. lra.
  - intros i j lo hi Hi Hj H. unfold reduced.
    assert (B : forall a b, (a < fr)%nat -> (b < fc)%nat -> lo <= data (i * fr + a)%nat (j * fc + b)%nat <= hi) by (intros a b Ha Hb; apply H; nia).
    assert (L : INR fr * (INR fc * lo) <= rsum fr (fun a => rsum fc (fun b => data (i * fr + a)%nat (j * fc + b)%nat))).
    { rewrite <- rsum_const. apply rsum_le. intros a Ha. rewrite <- rsum_const. apply rsum_le. intros b Hb. now apply B. }
    assert (U : rsum fr (fun a => rsum fc (fun b => data (i * fr + a)%nat (j * fc + b)%nat)) <= INR fr * (INR fc * hi)).
    { rewrite <- rsum_const. apply rsum_le. intros a Ha. rewrite <- rsum_const. apply rsum_le. intros b Hb. now apply B. }
    split; apply Rmult_le_reg_r with (INR fr * INR fc); try exact PQ; unfold Rdiv; rewrite Rmult_assoc, Rinv_l by lra; nra.
Qed.
Print Assumptions C110_downsample.
(** A uniform axis stays uniform, shifted to the centres of the blocks; with factor one nothing changes. *)
Theorem C110_axis : forall f c0 h i, (1 <= f)%nat -> reduced_coord f (fun k => c0 + h * INR k) i = (c0 + h * ((INR f - 1) / 2)) + h * INR f * INR i.
Proof.
  intros f c0 h i Hf. unfold reduced_coord. assert (P : 0 < INR f) by (apply lt_0_INR; lia).
  assert (T : forall n, rsum n INR = INR n * (INR n - 1) / 2) by (induction n as [|n IH]; [cbn; lra|]; cbn [rsum]; rewrite IH, S_INR; field).
  rewrite (rsum_ext f _ (fun a => (c0 + h * (INR i * INR f)) + h * INR a)) by (intros a _; rewrite plus_INR, mult_INR; ring).
  rewrite rsum_plus, rsum_const, rsum_scal, T. field. lra.
Qed.
Print Assumptions C110_axis.
Theorem C110_untouched : forall data c i j, reduced 1 1 data i j = data i j /\ reduced_coord 1 c i = c i.
Proof. intros. unfold reduced, reduced_coord. cbn [rsum]. rewrite !Nat.mul_1_r, !Nat.add_0_r. cbn [INR]. split; field. Qed.
Print Assumptions C110_untouched.
Example blocks_example : factor 1000 300 = 3%nat /\ blocks 1000 300 = 333%nat /\ blocks 599 300 = 599%nat.
Proof. repeat split; reflexivity. Qed.
(** Refuted: every cell of the data is in the picture. *)
Theorem C110_every_cell_refuted : exists size target, (1 <= target <= size)%nat /\ (blocks size target * factor size target < size)%nat.
Proof. exists 5%nat, 2%nat. split; [lia|]. apply Nat.ltb_lt. reflexivity. Qed.
Print Assumptions C110_every_cell_refuted.

(** ** The sampled times *)
Lemma t_skip_pos n p : (1 <= t_skip n p)%nat.
Proof. unfold t_skip. lia. Qed.
Lemma strided_in n s i : (1 <= s)%nat -> (1 <= n)%nat -> In i (strided n s) <-> (i < n)%nat /\ Nat.divide s i.
Proof.
  intros Hs Hn. unfold strided. rewrite in_map_iff. split.
  - intros (k & <- & I). apply in_seq in I. split; [|exists k; reflexivity]. assert (D := Nat.mul_div_le (n - 1) s ltac:(lia)). nia.
  - intros [H [k ->]]. exists k. split; [reflexivity|]. apply in_seq. assert (k <= (n - 1) / s)%nat; [|lia]. apply Nat.div_le_lower_bound; nia.
Qed.
Lemma strided_sorted n s : (1 <= s)%nat -> StronglySorted lt (strided n s).
Proof.
  intros Hs. unfold strided. generalize ((n - 1) / s + 1)%nat as m. intros m. generalize 0%nat as a. induction m as [|m IH]; intros a; cbn; constructor; [apply IH|].
  apply Forall_forall. intros x I. apply in_map_iff in I as (k & <- & I). apply in_seq in I. nia.
Qed.
Lemma sorted_app_last (l : list nat) a : StronglySorted lt l -> (forall x, In x l -> (x < a)%nat) -> StronglySorted lt (l ++ [a]).
Proof.
  induction 1 as [|x l S IH F]; intros H; cbn; [repeat constructor|]. constructor; [apply IH; intros; apply H; now right|].
  apply Forall_app. split; [exact F|]. repeat constructor. apply H. now left.
Qed.
(** The sampled times: every multiple of the stride and the last dump, in order, each once; from the first to the last. *)
Theorem C110_times : forall n p, (1 <= n)%nat ->
  (forall i, In i (evolution n p) <-> (i < n)%nat /\ (Nat.divide (t_skip n p) i \/ i = (n - 1)%nat)) /\
  StronglySorted lt (evolution n p) /\ hd_error (evolution n p) = Some 0%nat /\ last (evolution n p) n = (n - 1)%nat.
Proof.
  intros n p Hn. assert (Hs := t_skip_pos n p). set (s := t_skip n p) in *. unfold evolution. cbv zeta. fold s. clearbody s.
  assert (I := strided_in n s). assert (S := strided_sorted n s Hs).
  assert (Z : hd_error (strided n s) = Some 0%nat) by (unfold strided; rewrite Nat.add_1_r; reflexivity).
  destruct (existsb (Nat.eqb (n - 1)) (strided n s)) eqn:E.
  - apply existsb_exists in E as (y & Iy & Ey). apply Nat.eqb_eq in Ey. subst y. split; [|split; [exact S|split; [exact Z|]]].
    + intros i. rewrite I by lia. split; [tauto|]. intros [H [D| ->]]; [tauto|]. now apply I.
    + destruct (exists_last (l := strided n s)) as (l' & a & El); [intros El; rewrite El in Z; discriminate|]. rewrite El, last_last.
      assert (A : In a (strided n s)) by (rewrite El; apply in_or_app; right; now left). apply I in A; [|lia|lia].
      rewrite El in Iy. apply in_app_or in Iy as [Iy|[<-|[]]]; [|reflexivity]. rewrite El in S. exfalso.
      assert (L : (n - 1 < a)%nat); [|lia]. clear - S Iy. induction l' as [|b l IH]; [destruct Iy|]. cbn in S. inversion S; subst. destruct Iy as [->|Iy]; [|now apply IH].
      rewrite Forall_forall in H2. apply H2, in_or_app. right. now left.
  - assert (NI : ~ In (n - 1)%nat (strided n s)). { intros J. assert (T : existsb (Nat.eqb (n - 1)) (strided n s) = true) by (apply existsb_exists; exists (n - 1)%nat; split; [exact J|apply Nat.eqb_refl]). congruence. }
    split; [|split; [|split]].
    + intros i. rewrite in_app_iff, I by lia. cbn. split; [intros [H|[<-|[]]]; [tauto|split; [lia|now right]]|intros [H [D| ->]]; [left; tauto|right; now left]].
    + apply sorted_app_last; [exact S|]. intros x J. assert (x <> n - 1)%nat by (intros ->; contradiction). apply I in J; lia.
    + destruct (strided n s); [discriminate|exact Z].
    + apply last_last.
Qed.
Print Assumptions C110_times.
Lemma evolution_length n p : (1 <= n)%nat -> List.length (evolution n p) = ((n - 1) / t_skip n p + (if (n - 1) mod t_skip n p =? 0 then 1 else 2))%nat.
Proof.
  intros Hn. assert (Hs := t_skip_pos n p). unfold evolution. cbv zeta. set (s := t_skip n p) in *. assert (L : List.length (strided n s) = ((n - 1) / s + 1)%nat) by (unfold strided; now rewrite map_length, seq_length).
  destruct (existsb (Nat.eqb (n - 1)) (strided n s)) eqn:E.
  - apply existsb_exists in E as (y & Iy & Ey). apply Nat.eqb_eq in Ey. subst y. apply strided_in in Iy as [_ D]; [|lia|lia]. apply Nat.mod_divide in D; [|lia]. rewrite D. exact L.
  - destruct ((n - 1) mod s =? 0)%nat eqn:M; [|rewrite app_length, L; cbn; lia]. exfalso. apply Nat.eqb_eq, Nat.mod_divide in M; [|lia].
    assert (J : In (n - 1)%nat (strided n s)) by (apply strided_in; [lia|lia|split; [lia|exact M]]).
    assert (T : existsb (Nat.eqb (n - 1)) (strided n s) = true) by (apply existsb_exists; exists (n - 1)%nat; split; [exact J|apply Nat.eqb_refl]). congruence.
Qed.
(** How many: at least min(n, p), at most 2p - 1 (two for one panel). *)
Theorem C110_how_many : forall n p, (1 <= n)%nat -> (1 <= p)%nat -> (Nat.min n p <= List.length (evolution n p) <= Nat.max 2 (2 * p - 1))%nat.
Proof.
  intros n p Hn Hp. rewrite evolution_length by exact Hn. assert (E : t_skip n p = Nat.max 1 (n / p)) by reflexivity. assert (Hs := t_skip_pos n p). set (s := t_skip n p) in *. clearbody s.
  assert (D := Nat.div_mod n p ltac:(lia)). assert (M := Nat.mod_upper_bound n p ltac:(lia)). set (q := (n / p)%nat) in *. set (r := (n mod p)%nat) in *. clearbody q r.
  assert (D' := Nat.div_mod (n - 1) s ltac:(lia)). assert (M' := Nat.mod_upper_bound (n - 1) s ltac:(lia)). set (k := ((n - 1) / s)%nat) in *. set (t := ((n - 1) mod s)%nat) in *. clearbody k t.
  destruct (Nat.lt_ge_cases n p) as [L|L].
  - assert (q = 0%nat) by nia. assert (s = 1%nat) by lia. subst s. assert (t = 0%nat) by lia. subst t. cbn [Nat.eqb]. lia.
  - assert (1 <= q)%nat by nia. assert (s = q) by lia. subst q. clear E. destruct (t =? 0)%nat eqn:Et; [apply Nat.eqb_eq in Et; subst t|apply Nat.eqb_neq in Et].
    + split; [|].
      * assert (p <= k + 1)%nat; [|lia]. assert (p - 1 < k + 1)%nat; [|lia]. nia.
      * assert (k + 1 <= Nat.max 1 (2 * p - 1))%nat; [|lia]. assert (s * k < s * (2 * p - 1))%nat by nia. nia.
    + split; [|].
      * assert (p <= k + 2)%nat; [|lia]. nia.
      * assert (2 <= s)%nat by lia. destruct (Nat.eq_dec p 1) as [->|]; [assert (k < 1)%nat by nia; lia|]. assert (k + 2 <= 2 * p - 1)%nat; [|lia].
        assert (s * k + t < s * p + p - 1)%nat by nia. assert (k < 2 * p - 2)%nat; [|lia].
        destruct (Nat.lt_ge_cases k (2 * p - 2)) as [G|G]; [exact G|]. exfalso. assert (s * (2 * p - 2) <= s * k)%nat by (apply Nat.mul_le_mono_l; exact G).
        destruct (Nat.eq_dec p 2) as [->|]; [nia|]. assert (s * (p - 2) < p - 1)%nat by nia. assert (2 * (p - 2) <= s * (p - 2))%nat by (apply Nat.mul_le_mono_r; lia). lia.
Qed.
Print Assumptions C110_how_many.
Lemma all_times m p : (1 <= m)%nat -> (1 <= p)%nat -> (m <= Nat.max 2 (2 * p - 1))%nat -> evolution m p = seq 0 m.
Proof.
  intros Hm Hp H. assert (A : (m <= 2 * p - 1)%nat \/ (m = 2%nat /\ p = 1%nat)) by lia. destruct A as [A|[-> ->]]; [|reflexivity].
  assert (E : t_skip m p = 1%nat). { unfold t_skip. assert (m / p < 2)%nat by (apply Nat.div_lt_upper_bound; lia). lia. }
  unfold evolution. cbv zeta. rewrite E. unfold strided. rewrite Nat.div_1_r. replace (m - 1 + 1)%nat with m by lia.
  rewrite (map_ext _ (fun k => k)) by (intros; lia). rewrite map_id. destruct (existsb _ _) eqn:X; [reflexivity|]. exfalso.
  assert (T : existsb (Nat.eqb (m - 1)) (seq 0 m) = true) by (apply existsb_exists; exists (m - 1)%nat; split; [apply in_seq; lia|apply Nat.eqb_refl]). congruence.
Qed.
(** Reading only the sampled dumps from disk and choosing the panels among them draws exactly the panels that would be chosen
    in the whole history. *)
Theorem C110_from_path : forall n p, (1 <= n)%nat -> (1 <= p)%nat -> panels_from_path n p = evolution n p.
Proof.
  intros n p Hn Hp. unfold panels_from_path. cbv zeta. assert (B := C110_how_many n p Hn Hp). assert (L : (1 <= List.length (evolution n p))%nat) by lia.
  rewrite (all_times (List.length (evolution n p)) p L Hp) by lia. generalize (evolution n p) as l. intros l. clear. induction l as [|a l IH]; [reflexivity|]. cbn [List.length seq map nth]. f_equal.
  rewrite <- seq_shift, map_map. exact IH.
Qed.
Print Assumptions C110_from_path.
Example times_example : evolution 100 8 = [0; 12; 24; 36; 48; 60; 72; 84; 96; 99]%nat /\ panels_from_path 100 8 = evolution 100 8.
Proof. split; reflexivity. Qed.
(** Refuted: about as many panels as asked for: 8 panels of 15 dumps are 15. *)
Theorem C110_panel_number_refuted : List.length (evolution 15 8) = 15%nat.
Proof. reflexivity. Qed.
Print Assumptions C110_panel_number_refuted.
