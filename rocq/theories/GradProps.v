(** Property C27 (model: Grad.v, vocabulary: GradSpec.v). *)
From Verif Require Import Grad GradSpec.
Open Scope R_scope.

Lemma map2_length {A B C} (f : A -> B -> C) : forall l m, List.length l = List.length m -> List.length (map2 f l m) = List.length l.
Proof. induction l as [|x l IH]; intros [|y m] H; cbn in *; try lia. f_equal. apply IH. lia. Qed.
Lemma nth_map2 {A B C} (f : A -> B -> C) a b c : forall l m i, List.length l = List.length m -> (i < List.length l)%nat ->
  nth i (map2 f l m) c = f (nth i l a) (nth i m b).
Proof. induction l as [|x l IH]; intros [|y m] i H Hi; cbn in *; try lia. destruct i as [|i]; [reflexivity|]. apply IH; lia. Qed.
Lemma nth_map_lt {A B} (f : A -> B) a b : forall l i, (i < List.length l)%nat -> nth i (map f l) b = f (nth i l a).
Proof. induction l as [|x l IH]; intros i Hi; cbn in *; [lia|]. destruct i as [|i]; [reflexivity|]. apply IH; lia. Qed.

(** Sum of the contributions. *)
Definition leaf_ok (n : nat) (l : leaf) : Prop := match l with Some a => List.length a = n | None => True end.
Definition is_sum (size : nat) (ls : list leaf) (r : leaf) : Prop :=
  match r with
  | None => Forall (fun l => l = None) ls
  | Some a => ~ Forall (fun l => l = None) ls /\ List.length a = size /\
      forall j, (j < size)%nat -> nth j a NaN = match numbers j ls with [] => NaN | xs => Num (total xs) end
  end.
Lemma numbers_app j l m : numbers j (l ++ m) = numbers j l ++ numbers j m.
Proof. unfold numbers. now rewrite flat_map_app. Qed.
Lemma numbers_none j ls : Forall (fun l : leaf => l = None) ls -> numbers j ls = [].
Proof. induction 1 as [|l ls -> _ IH]; [reflexivity|exact IH]. Qed.
Lemma total_app l m : total (l ++ m) = total l + total m.
Proof. unfold total. induction l as [|x l IH]; cbn; [lra|]. rewrite IH. lra. Qed.

Lemma is_sum_one size l : leaf_ok size l -> is_sum size [l] l.
Proof.
  destruct l as [a|]; intros H; cbn.
  - split; [|split]; [intros K; inversion K; discriminate|exact H|]. intros j Hj. destruct (nth j a NaN) as [|x]; cbn; [reflexivity|]. unfold total. cbn. f_equal. lra.
  - constructor; [reflexivity|constructor].
Qed.
Lemma is_sum_add size ls r l : is_sum size ls r -> leaf_ok size l -> is_sum size (ls ++ [l]) (safe_add r l).
Proof.
  destruct r as [a|], l as [b|]; cbn [is_sum leaf_ok safe_add].
  - intros (Hn & Hl & Hj) Hb. split; [|split].
    + intros K. apply Hn. apply Forall_app in K. tauto.
    + rewrite map2_length; lia.
    + intros j Hlt. rewrite (nth_map2 _ NaN NaN) by lia. rewrite (Hj j Hlt), numbers_app. cbn [numbers flat_map]. rewrite app_nil_r.
      destruct (numbers j ls) as [|x xs]; destruct (nth j b NaN) as [|y]; cbn [add1 app].
      * reflexivity.
      * unfold total. cbn. f_equal. lra.
      * now rewrite app_nil_r.
      * f_equal. change (x :: xs ++ [y]) with ((x :: xs) ++ [y]). rewrite total_app. unfold total at 3. cbn. lra.
  - intros (Hn & Hl & Hj) _. split; [|split]; [intros K; apply Hn; apply Forall_app in K; tauto|exact Hl|].
    intros j Hlt. rewrite (Hj j Hlt), numbers_app. cbn [numbers flat_map]. now rewrite app_nil_r.
  - intros Hn Hb. split; [|split]; [intros K; apply Forall_app in K as [_ K]; inversion K; discriminate|exact Hb|].
    intros j Hlt. rewrite numbers_app, (numbers_none j ls Hn). cbn. destruct (nth j b NaN) as [|y]; [reflexivity|]. cbn. unfold total. cbn. f_equal. lra.
  - intros Hn _. apply Forall_app. split; [exact Hn|]. constructor; [reflexivity|constructor].
Qed.

Definition tree_ok (shape : list nat) (g : tree) : Prop := Forall2 leaf_ok shape g.
Lemma tree_ok_length shape g : tree_ok shape g -> List.length g = List.length shape.
Proof. induction 1; cbn; congruence. Qed.
Lemma tree_ok_nth shape g : tree_ok shape g -> forall i, (i < List.length shape)%nat -> leaf_ok (nth i shape 0%nat) (nth i g None).
Proof. induction 1 as [|n l shape g H _ IH]; intros i Hi; cbn in *; [lia|]. destruct i as [|i]; [exact H|]. apply IH. lia. Qed.
Lemma nth_error_cons_firstn {A} (l : list A) i x : nth_error l i = Some x -> firstn (S i) l = firstn i l ++ [x].
Proof. revert i; induction l as [|y l IH]; intros [|i] H; cbn in *; try discriminate; [congruence|]. f_equal. now apply IH. Qed.

Definition sums shape gs k (acc : tree) : Prop :=
  List.length acc = List.length shape /\ forall i, (i < List.length shape)%nat -> is_sum (nth i shape 0%nat) (contributions i (firstn k gs)) (nth i acc None).
Lemma sums_add shape gs k acc g : Forall (tree_ok shape) gs -> nth_error gs k = Some g -> sums shape gs k acc -> sums shape gs (S k) (map2 safe_add acc g).
Proof.
  intros Hgs Hk [Hl Hs]. assert (Hg : tree_ok shape g) by (eapply Forall_forall in Hgs; [exact Hgs|eapply nth_error_In; exact Hk]).
  assert (Hlg := tree_ok_length _ _ Hg). split; [rewrite map2_length; lia|].
  intros i Hi. rewrite (nth_map2 safe_add (None : leaf) (None : leaf)) by lia. rewrite (nth_error_cons_firstn gs k g Hk). unfold contributions. rewrite map_app. cbn [map].
  apply is_sum_add; [exact (Hs i Hi)|now apply tree_ok_nth].
Qed.
Lemma sum_from_ok shape gs : Forall (tree_ok shape) gs -> forall n k acc, (k + n <= List.length gs)%nat -> sums shape gs k acc ->
  exists r, sum_from gs acc (seq k n) = Some r /\ sums shape gs (k + n) r.
Proof.
  intros Hgs. induction n as [|n IH]; intros k acc Hk Hs; cbn [seq sum_from].
  - exists acc. rewrite Nat.add_0_r. now split.
  - destruct (nth_error gs k) as [g|] eqn:E; [|apply nth_error_None in E; lia]. destruct (IH (S k) (map2 safe_add acc g)) as (r & H1 & H2); [lia|now apply sums_add|].
    exists r. split; [exact H1|]. now replace (k + S n)%nat with (S k + n)%nat by lia.
Qed.
Lemma clip_clipped x : Rmin (Rmax x (-1000)) 1000 = clipped x.
Proof. unfold clipped, Rmin, Rmax. destruct (Rle_dec x (-1000)); destruct (Rlt_dec x (-1000)), (Rlt_dec 1000 x); match goal with |- context [Rle_dec ?a ?b] => destruct (Rle_dec a b) end; lra. Qed.

Lemma sum_average size num ls r : is_sum size ls r -> is_average num size ls (clip_gradient (safe_divide num r)).
Proof.
  destruct r as [a|]; cbn; [|exact (fun H => H)]. intros (Hn & Hl & Hj). split; [exact Hn|]. split; [now rewrite !map_length|]. intros j Hlt.
  rewrite (nth_map_lt _ NaN) by (rewrite map_length; lia). rewrite (nth_map_lt _ NaN) by lia. rewrite (Hj j Hlt). destruct (numbers j ls) as [|x xs]; [reflexivity|].
  cbn [div1 clip1]. f_equal. apply clip_clipped.
Qed.

(** Two or more devices: every leaf of the result is the NaN-aware clipped mean of the devices' leaves. *)
Theorem C27_average_exact (gs : list tree) (num : nat) (shape : list nat) :
  same_structure shape gs -> (2 <= num)%nat -> (num <= List.length gs)%nat ->
  exists avg, all_reduce_gradients gs num = Average avg /\ List.length avg = List.length shape /\
    forall i, (i < List.length shape)%nat -> is_average num (nth i shape 0%nat) (contributions i (firstn num gs)) (nth i avg None).
Proof.
  intros Hgs H2 Hlen. change (Forall (tree_ok shape) gs) in Hgs. unfold all_reduce_gradients.
  replace (Nat.leb num 1) with false by (symmetry; apply Nat.leb_gt; lia).
  destruct gs as [|g0 [|g1 gs]]; cbn [List.length] in Hlen; try lia. cbn [nth_error].
  assert (S1 : sums shape (g0 :: g1 :: gs) 1 g0).
  { inversion Hgs as [|? ? Hg0 _]; subst. split; [now apply tree_ok_length|]. intros i Hi. cbn. apply is_sum_one. now apply tree_ok_nth. }
  assert (S2 := sums_add _ _ 1%nat g0 g1 Hgs eq_refl S1).
  destruct (sum_from_ok shape _ Hgs (num - 2) 2%nat _ ltac:(cbn [List.length]; lia) S2) as (r & -> & Hl & Hr). replace (2 + (num - 2))%nat with num in Hr by lia.
  eexists. split; [reflexivity|]. rewrite !map_length. split; [exact Hl|]. intros i Hi.
  rewrite (nth_map_lt _ (None : leaf)) by (rewrite map_length; lia). rewrite (nth_map_lt _ (None : leaf)) by lia. apply sum_average. now apply Hr.
Qed.
Print Assumptions C27_average_exact.

(** More devices announced than gradients given: IndexError. *)
Theorem C27_too_few_gradients (gs : list tree) (num : nat) :
  (2 <= num)%nat -> (List.length gs < num)%nat -> all_reduce_gradients gs num = IndexError.
Proof.
  intros H2 Hlen. unfold all_reduce_gradients. replace (Nat.leb num 1) with false by (symmetry; apply Nat.leb_gt; lia).
  destruct gs as [|g0 [|g1 gs]]; try reflexivity. cbn [nth_error].
  assert (K : forall n k acc, (k <= List.length (g0 :: g1 :: gs))%nat -> (List.length (g0 :: g1 :: gs) < k + n)%nat -> sum_from (g0 :: g1 :: gs) acc (seq k n) = None).
  { induction n as [|n IH]; intros k acc Hk Hn; [lia|]. cbn [seq sum_from]. destruct (nth_error _ k) as [g|] eqn:E; [|reflexivity].
    assert (Hx : (k < List.length (g0 :: g1 :: gs))%nat) by (apply nth_error_Some; congruence). apply IH; lia. }
  rewrite K; [reflexivity|cbn [List.length] in *; lia|cbn [List.length] in *; lia].
Qed.
Print Assumptions C27_too_few_gradients.

(** One device ("averages gradients across multiple devices and returns a single gradient pytree", number of
    devices 1): the call always fails instead of returning that device's gradient. *)
Theorem C27_one_device_refuted : forall gs, all_reduce_gradients gs 1 = UnboundLocalError.
Proof. reflexivity. Qed.
Print Assumptions C27_one_device_refuted.

Example C27_nonvacuous :
  all_reduce_gradients
    [[Some [Num 1; NaN; Num 9000]; None; None]; [Some [Num 2; NaN; NaN]; Some [Num 3]; None]; [Some [NaN; NaN; NaN]; None; None]] 3 =
    Average [Some [Num 1; NaN; Num 1000]; Some [Num 1]; None].
Proof.
  cbn. repeat f_equal; try (rewrite clip_clipped; unfold clipped; repeat match goal with |- context [Rlt_dec ?a ?b] => destruct (Rlt_dec a b) end; lra).
Qed.
Example C27_nonvacuous_hyps :
  same_structure [3; 1; 1]%nat [[Some [Num 1; NaN; Num 9000]; None; None]; [Some [Num 2; NaN; NaN]; Some [Num 3]; None]; [Some [NaN; NaN; NaN]; None; None]].
Proof. unfold same_structure. repeat (constructor; cbn; try reflexivity). Qed.
