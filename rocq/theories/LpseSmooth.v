(** Property C99, first part: the transform size chosen for the grid is the least one with small prime factors. *)
From Coq Require Import ZArith List Bool Lia Arith Psatz.
From Verif Require Import LpseSetup.
Import ListNotations.
Local Open Scope nat_scope.

(** A number built from the primes [ps]. *)
Inductive smooth (ps : list nat) : nat -> Prop := sm_one : smooth ps 1 | sm_mul p x : In p ps -> smooth ps x -> smooth ps (p * x).
Definition good_primes (ps : list nat) : Prop := ps <> [] /\ forall p, In p ps -> 2 <= p.
Lemma smooth_pos ps x : good_primes ps -> smooth ps x -> 1 <= x.
Proof. intros [_ G] H. induction H; [lia|]. specialize (G p H). nia. Qed.

Lemma map2_length {A B C} (f : A -> B -> C) l m : length l = length m -> length (map2 f l m) = length l.
Proof. revert m. induction l as [|x l IH]; intros [|y m] H; cbn in *; try lia. rewrite IH; lia. Qed.
Lemma map2_nth {A B C} (f : A -> B -> C) l m k a b c : length l = length m -> k < length l -> nth k (map2 f l m) c = f (nth k l a) (nth k m b).
Proof. revert m k. induction l as [|x l IH]; intros [|y m] [|k] H K; cbn in *; try lia; auto. apply IH; lia. Qed.
Lemma fold_min_le t x : fold_left Nat.min t x <= x /\ forall y, In y t -> fold_left Nat.min t x <= y.
Proof.
  revert x. induction t as [|z t IH]; intros x; cbn [fold_left]; [split; [lia|intros y []]|]. destruct (IH (Nat.min x z)) as [A B]. split; [lia|]. intros y [->|H]; [lia|auto].
Qed.
Lemma fold_min_in t x : fold_left Nat.min t x = x \/ In (fold_left Nat.min t x) t.
Proof.
  revert x. induction t as [|z t IH]; intros x; cbn [fold_left]; [auto|]. destruct (IH (Nat.min x z)) as [A|A].
  - rewrite A. destruct (Nat.min_spec x z) as [[_ ->]|[_ ->]]; [auto|right; left; reflexivity].
  - right. right. exact A.
Qed.
Lemma lmin_le l y : In y l -> lmin l <= y.
Proof. destruct l as [|x t]; [intros []|]. cbn [lmin In]. intros [->|H]; [exact (proj1 (fold_min_le t y))|exact (proj2 (fold_min_le t x) y H)]. Qed.
Lemma lmin_in l : l <> [] -> In (lmin l) l.
Proof. destruct l as [|x t]; [congruence|]. intros _. cbn [lmin]. destruct (fold_min_in t x) as [->|H]; [left; reflexivity|right; exact H]. Qed.

(** The loop invariant: the list holds exactly the smooth numbers up to its last entry, in order; each index points to the first entry whose
    product with its prime is new. *)
Definition inc (s : list nat) : Prop := forall i j, i < j -> j < length s -> nth i s 0 < nth j s 0.
Definition top (s : list nat) : nat := last s 0.
Definition inv (ps : list nat) (st : list nat * list nat) : Prop :=
  let '(s, ix) := st in s <> [] /\ inc s /\ length ix = length ps /\ (forall x, In x s <-> smooth ps x /\ x <= top s) /\
  (forall k, k < length ps -> let i := nth k ix 0 in let p := nth k ps 0 in
     i < length s /\ top s < nth i s 0 * p /\ forall j, j < i -> nth j s 0 * p <= top s).
Lemma top_nth s : s <> [] -> top s = nth (length s - 1) s 0.
Proof.
  unfold top. intros H. induction s as [|x s IH]; [congruence|]. destruct s as [|y s]; [reflexivity|]. change (last (x :: y :: s) 0) with (last (y :: s) 0). rewrite IH by congruence.
  cbn [length]. replace (S (S (length s)) - 1) with (S (S (length s) - 1)) by lia. reflexivity.
Qed.
Lemma top_app s m : top (s ++ [m]) = m.
Proof. unfold top. apply last_last. Qed.
Lemma inc_nth s i j : inc s -> i <= j -> j < length s -> nth i s 0 <= nth j s 0.
Proof. intros H L J. destruct (Nat.eq_dec i j) as [->|N]; [lia|]. assert (i < j) as K by lia. specialize (H i j K J). lia. Qed.
Lemma grow_inv ps st : good_primes ps -> inv ps st -> inv ps (grow ps st) /\ top (fst st) < top (fst (grow ps st)).
Proof.
  intros GP H. pose proof GP as [NE G]. destruct st as [s ix]. destruct H as (H0 & H1 & H2 & H3 & H4). cbn [grow fst].
  set (cs := candidates ps s ix). set (m := lmin cs).
  assert (LC : length cs = length ps) by (unfold cs, candidates; rewrite map2_length; auto).
  assert (NC : forall k, k < length ps -> nth k cs 0 = nth (nth k ix 0) s 0 * nth k ps 0) by (intros k K; unfold cs, candidates; rewrite (map2_nth _ _ _ _ 0 0) by lia; reflexivity).
  assert (CE : cs <> []) by (intros E; rewrite E in LC; destruct ps; cbn in LC; [congruence|lia]).
  assert (MIN : forall k, k < length ps -> m <= nth k cs 0) by (intros k K; apply lmin_le, nth_In; lia).
  destruct (In_nth cs m 0 (lmin_in cs CE)) as (k0 & K0 & E0). rewrite LC in K0.
  assert (TM : top s < m) by (rewrite <- E0, NC by auto; apply H4; auto).
  assert (SM : smooth ps m).
  { rewrite <- E0, NC by auto. destruct (H4 k0 K0) as (I0 & _). rewrite Nat.mul_comm. apply sm_mul; [apply nth_In; auto|]. apply H3, nth_In; auto. }
  (* no smooth number lies between the last entry and m *)
  assert (ONE : 1 <= top s).
  { destruct s as [|z s']; [congruence|]. assert (Z : In z (z :: s')) by (left; reflexivity). apply H3 in Z. destruct Z as [Z1 Z2]. pose proof (smooth_pos ps z GP Z1). lia. }
  assert (GAP : forall x, smooth ps x -> top s < x -> m <= x).
  { intros x. induction x as [x IH] using (well_founded_induction lt_wf). intros Sx Tx. destruct Sx as [|p y Hp Sy]; [lia|].
    pose proof (G p Hp) as P2. pose proof (smooth_pos ps y GP Sy) as Y1.
    destruct (le_lt_dec y (top s)) as [L|L].
    - destruct (In_nth ps p 0 Hp) as (k & K & EK). assert (Iy : In y s) by (apply H3; auto). destruct (In_nth s y 0 Iy) as (j & J & EJ).
      destruct (H4 k K) as (A & B & C). rewrite EK in *. specialize (MIN k K). rewrite NC, EK in MIN by auto.
      destruct (le_lt_dec (nth k ix 0) j) as [Q|Q].
      + pose proof (inc_nth s _ j H1 Q J). rewrite EJ in *. nia.
      + specialize (C j Q). rewrite EJ in C. nia.
    - assert (m <= y) by (apply IH; auto; nia). nia. }
  split; [|rewrite top_app; exact TM].
  split; [destruct s; discriminate|]. split; [|split; [|split]].
  - intros i j L J. rewrite app_length in J. cbn [length] in J. destruct (Nat.eq_dec j (length s)) as [->|N].
    + rewrite (app_nth2 s [m] 0 (le_n _)), Nat.sub_diag. cbn [nth]. rewrite app_nth1 by lia. pose proof (inc_nth s i (length s - 1) H1 ltac:(lia) ltac:(lia)). rewrite <- top_nth in H by auto. lia.
    + rewrite !app_nth1 by lia. apply H1; lia.
  - rewrite map2_length by (rewrite LC, H2; reflexivity). exact LC.
  - intros x. rewrite top_app, in_app_iff, H3. cbn [In]. split.
    + intros [[A B]|[<-|[]]]; [split; [auto|lia]|split; auto].
    + intros [A B]. destruct (le_lt_dec x (top s)) as [L|L]; [left; auto|]. right. left. specialize (GAP x A L). lia.
  - intros k K. cbv zeta. rewrite top_app, (map2_nth _ _ _ _ 0 0) by lia. destruct (H4 k K) as (A & B & C). pose proof (NC k K) as Ek. pose proof (MIN k K) as Mk.
    rewrite app_length. cbn [length]. destruct (Nat.eqb_spec (nth k cs 0) m) as [Q|Q].
    + split; [lia|]. assert (P2 : 2 <= nth k ps 0) by (apply G, nth_In; auto). split.
      * assert (nth (nth k ix 0) s 0 < nth (S (nth k ix 0)) (s ++ [m]) 0).
        { destruct (Nat.eq_dec (S (nth k ix 0)) (length s)) as [E|E].
          - rewrite E, (app_nth2 s [m] 0 (le_n _)), Nat.sub_diag. cbn [nth]. pose proof (inc_nth s (nth k ix 0) (length s - 1) H1 ltac:(lia) ltac:(lia)). rewrite <- top_nth in H by auto. lia.
          - rewrite app_nth1 by lia. apply H1; lia. }
        assert (M : m = nth (nth k ix 0) s 0 * nth k ps 0) by lia. set (v := nth (S (nth k ix 0)) (s ++ [m]) 0) in *. clearbody v. set (u := nth (nth k ix 0) s 0) in *. set (p := nth k ps 0) in *. clearbody u p. nia.
      * intros j J. rewrite app_nth1 by lia. destruct (Nat.eq_dec j (nth k ix 0)) as [->|N]; [rewrite <- Ek; lia|]. specialize (C j ltac:(lia)). lia.
    + rewrite app_nth1 by auto. split; [lia|]. split; [lia|]. intros j J. rewrite app_nth1 by lia. specialize (C j J). lia.
Qed.
Lemma start_inv ps : good_primes ps -> inv ps ([1], map (fun _ => 0) ps).
Proof.
  intros GP. pose proof GP as [NE G]. split; [discriminate|]. split; [intros i j L J; cbn in J; lia|]. split; [apply map_length|]. split.
  - intros x. cbn [In top last]. split; [intros [<-|[]]; split; [apply sm_one|lia]|]. intros [A B]. left. change (top [1]) with 1 in B. pose proof (smooth_pos ps x GP A). lia.
  - intros k K. cbv zeta. rewrite (map_nth (fun _ => 0) ps 0 k) || (replace (nth k (map (fun _ : nat => 0) ps) 0) with 0 by (rewrite (nth_indep _ 0 ((fun _ => 0) 0)) by (rewrite map_length; auto); rewrite (map_nth (fun _ => 0)); reflexivity)).
    split; [cbn; lia|]. split; [|intros j J; lia]. change (top [1]) with 1. cbn [nth]. assert (2 <= nth k ps 0) by (apply G, nth_In; auto). lia.
Qed.
Lemma until_inv ps fuel limit st : good_primes ps -> inv ps st -> inv ps (grow_until ps fuel limit st) /\ (limit <= top (fst st) + fuel -> limit <= top (fst (grow_until ps fuel limit st))).
Proof.
  intros GP. revert st. induction fuel as [|f IH]; intros st H; [split; auto; cbn; lia|]. cbn [grow_until]. fold (top (fst st)).
  destruct (Nat.ltb_spec (top (fst st)) limit) as [L|L]; [|split; auto]. destruct (grow_inv ps st GP H) as [A B]. destruct (IH _ A) as [C D]. split; [exact C|]. intros E. apply D. lia.
Qed.
Lemma sorted_search s n : inc s -> (exists j, j < length s /\ n <= nth j s 0) ->
  let k := searchsorted s n in k < length s /\ n <= nth k s 0 /\ forall j, j < k -> nth j s 0 < n.
Proof.
  unfold searchsorted. induction s as [|x s IH]; intros H (j & J & Q); [cbn in J; lia|]. cbn [filter length] in *. destruct (Nat.ltb_spec x n) as [L|L].
  - assert (Hs : inc s) by (intros a b A B; apply (H (S a) (S b)); cbn; lia).
    destruct (IH Hs) as (A & B & C). { destruct j as [|j]; [cbn in Q; lia|]. exists j. split; [lia|exact Q]. }
    cbn [length nth]. split; [lia|]. split; [exact B|]. intros [|i] I; [exact L|]. apply C. lia.
  - assert (E : filter (fun y => y <? n) s = []).
    { assert (forall y, In y s -> n <= y). { intros y Y. destruct (In_nth s y 0 Y) as (i & I & <-). specialize (H 0 (S i) ltac:(lia) ltac:(cbn; lia)). cbn [nth] in H. lia. }
      clear -H0. induction s as [|y s IH]; [reflexivity|]. cbn [filter]. destruct (Nat.ltb_spec y n) as [K|K]; [specialize (H0 y (or_introl eq_refl)); lia|]. apply IH. intros z Z. apply H0. right. exact Z. }
    rewrite E. cbn [length nth]. split; [lia|]. split; [exact L|]. intros i I. lia.
Qed.
Lemma next_smooth_spec ps n : good_primes ps -> 1 < n -> let s := fst (grow_until ps (2 * n) (2 * n) ([1], map (fun _ => 0) ps)) in let r := nth (searchsorted s n) s 0 in
  smooth ps r /\ n <= r /\ forall x, smooth ps x -> n <= x -> r <= x.
Proof.
  intros GP N s r. destruct (until_inv ps (2 * n) (2 * n) _ GP (start_inv ps GP)) as [I T]. cbn [fst] in T. change (top [1]) with 1 in T. specialize (T ltac:(lia)).
  destruct (grow_until ps (2 * n) (2 * n) ([1], map (fun _ => 0) ps)) as [s' ix]. cbn [fst] in *. destruct I as (H0 & H1 & H2 & H3 & H4). unfold r, s in *. clear r s. rename s' into s.
  assert (L0 : 0 < length s) by (destruct s; [congruence|cbn; lia]).
  destruct (sorted_search s n H1) as (A & B & C). { exists (length s - 1). split; [lia|]. rewrite <- top_nth by auto. lia. }
  assert (RI : In (nth (searchsorted s n) s 0) s) by (apply nth_In; auto). split; [apply H3; auto|]. split; [exact B|].
  intros x Sx Nx. destruct (le_lt_dec x (top s)) as [L|L].
  - assert (Ix : In x s) by (apply H3; auto). destruct (In_nth s x 0 Ix) as (j & J & <-). destruct (le_lt_dec (searchsorted s n) j) as [Q|Q]; [apply inc_nth; auto|]. specialize (C j Q). lia.
  - apply H3 in RI. lia.
Qed.

(** In terms of exponents. *)
Definition sizes (with7 : bool) (x : nat) : Prop := exists a b c d, x = 2 ^ a * 3 ^ b * 5 ^ c * 7 ^ d /\ (with7 = false -> d = 0).
Lemma pow_smooth ps p k x : In p ps -> smooth ps x -> smooth ps (p ^ k * x).
Proof. intros P S. induction k; cbn [Nat.pow]; [rewrite Nat.mul_1_l; auto|]. rewrite <- Nat.mul_assoc. apply sm_mul; auto. Qed.
Lemma smooth_sizes mp x : smooth (primes_of mp) x <-> sizes (7 <=? mp)%Z x.
Proof.
  unfold primes_of. split.
  - intros H. induction H as [|p y P Sy (a & b & c & d & E & F)]; [exists 0, 0, 0, 0; split; auto|]. 
    destruct (7 <=? mp)%Z; cbn [In] in P; repeat destruct P as [<-|P]; try contradiction.
    + exists (S a), b, c, d. split; [rewrite E; cbn [Nat.pow]; ring|auto].
    + exists a, (S b), c, d. split; [rewrite E; cbn [Nat.pow]; ring|auto].
    + exists a, b, (S c), d. split; [rewrite E; cbn [Nat.pow]; ring|auto].
    + exists a, b, c, (S d). split; [rewrite E; cbn [Nat.pow]; ring|discriminate].
    + exists (S a), b, c, d. split; [rewrite E; cbn [Nat.pow]; ring|auto].
    + exists a, (S b), c, d. split; [rewrite E; cbn [Nat.pow]; ring|auto].
    + exists a, b, (S c), d. split; [rewrite E; cbn [Nat.pow]; ring|auto].
  - intros (a & b & c & d & -> & F). rewrite <- !Nat.mul_assoc. destruct (7 <=? mp)%Z.
    + apply pow_smooth; [cbn; auto|]. apply pow_smooth; [cbn; auto|]. apply pow_smooth; [cbn; auto|]. rewrite <- (Nat.mul_1_r (7 ^ d)). apply pow_smooth; [cbn; auto|apply sm_one].
    + rewrite (F eq_refl). cbn [Nat.pow]. apply pow_smooth; [cbn; auto|]. apply pow_smooth; [cbn; auto|]. apply pow_smooth; [cbn; auto|]. apply sm_one.
Qed.
(** next_smooth_fft_size returns the least number of the form 2^a 3^b 5^c (times 7^d when 7 is allowed) that is at least n, and it is below 2 n. *)
Theorem C99_smooth : forall n max_prime, (1 <= n)%Z -> let r := next_smooth n max_prime in
  sizes (7 <=? max_prime)%Z r /\ (n <= Z.of_nat r < 2 * n)%Z /\ forall x, sizes (7 <=? max_prime)%Z x -> (n <= Z.of_nat x)%Z -> r <= x.
Proof.
  intros n mp H r. assert (GP : good_primes (primes_of mp)).
  { unfold primes_of. split; destruct (7 <=? mp)%Z; try discriminate; intros p P; cbn [In] in P; repeat destruct P as [<-|P]; try contradiction; lia. }
  assert (L : sizes (7 <=? mp)%Z r /\ Z.to_nat n <= r /\ forall x, sizes (7 <=? mp)%Z x -> Z.to_nat n <= x -> r <= x).
  { unfold r, next_smooth. destruct (Z.leb_spec n 1) as [Q|Q].
    - split; [apply smooth_sizes, sm_one|]. split; [lia|]. intros x X _. apply smooth_sizes, (smooth_pos _ _ GP) in X. exact X.
    - destruct (next_smooth_spec (primes_of mp) (Z.to_nat n) GP ltac:(lia)) as (A & B & C). split; [apply smooth_sizes, A|]. split; [exact B|]. intros x X. apply C, smooth_sizes, X. }
  destruct L as (A & B & C). split; [exact A|]. split; [|intros x X Y; apply C; auto; lia]. split; [lia|].
  (* a power of two lies in the range *)
  set (k := Nat.log2_up (Z.to_nat n)). assert (K : Z.to_nat n <= 2 ^ k /\ 2 ^ k < 2 * Z.to_nat n).
  { destruct (le_lt_dec (Z.to_nat n) 1) as [q|q]; [unfold k; replace (Z.to_nat n) with 1 by lia; cbn; lia|].
    destruct (Nat.log2_up_spec (Z.to_nat n) q) as [U V]. fold k in U, V. split; [exact V|]. assert (0 < k) by (apply Nat.log2_up_pos; auto). replace k with (S (Nat.pred k)) by lia. cbn [Nat.pow]. lia. }
  assert (r <= 2 ^ k) by (apply C; [exists k, 0, 0, 0; cbn [Nat.pow]; split; [lia|auto]|lia]). lia.
Qed.
Print Assumptions C99_smooth.
Example smooth_11 : next_smooth 11 5 = 12 /\ next_smooth 13 7 = 14 /\ next_smooth 13 5 = 15 /\ next_smooth 0 5 = 1 /\ next_smooth 97 5 = 100.
Proof. repeat split. Qed.
