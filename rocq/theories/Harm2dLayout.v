(** Property C76: the packed layout of spherical-harmonic modes. *)
From Coq Require Import Reals Lra Lia ZArith List Bool Psatz.
From Verif Require Import Harm2d RSum Pic PicProofs PicFourier Dft.
Import ListNotations.

(** A mode is retained when 0 <= l <= L and 0 <= m <= min(l, M). *)
Definition retained (L M l m : nat) : bool := ((l <=? L) && (m <=? l) && (m <=? M))%nat%bool.

Lemma in_pairs L M l m : In (l, m) (pairs L M) <-> (l <= L /\ m <= l /\ m <= M)%nat.
Proof.
  unfold pairs. rewrite in_flat_map. split.
  - intros (k & Hk & H). apply in_seq in Hk. apply in_map_iff in H. destruct H as (j & E & Hj). injection E as -> ->. apply in_seq in Hj. lia.
  - intros (A & B & C). exists l. split; [apply in_seq; lia|]. apply in_map_iff. exists m. split; auto. apply in_seq. lia.
Qed.
Lemma NoDup_map_pair (l : nat) (s : list nat) : NoDup s -> NoDup (map (fun m => (l, m)) s).
Proof. intros H. induction H; cbn; constructor; auto. rewrite in_map_iff. intros (y & E & Hy). injection E as ->. auto. Qed.
Lemma NoDup_app_disj {A} (a b : list A) : NoDup a -> NoDup b -> (forall x, In x a -> In x b -> False) -> NoDup (a ++ b).
Proof. intros Ha Hb H. induction Ha; cbn; auto. constructor. - rewrite in_app_iff. intros [K|K]; auto. apply (H x); cbn; auto. - apply IHHa. intros y Hy. apply H. now right. Qed.
Lemma NoDup_pairs L M : NoDup (pairs L M).
Proof.
  unfold pairs. generalize (seq_NoDup (S L) 0). generalize (seq 0 (S L)) as s. induction s as [|l s IH]; intros H; cbn [flat_map]; [constructor|].
  inversion H; subst. apply NoDup_app_disj; auto.
  - apply NoDup_map_pair, seq_NoDup.
  - intros (a, b) A B. apply in_map_iff in A. destruct A as (j & E & _). injection E as -> ->. apply in_flat_map in B. destruct B as (k & Hk & B).
    apply in_map_iff in B. destruct B as (j' & E & _). injection E as -> ->. auto.
Qed.
Lemma position_some p l i k : position p l i = Some k -> (i <= k)%nat /\ nth_error l (k - i) = Some p.
Proof.
  revert i. induction l as [|q l IH]; cbn; [discriminate|]. intros i. destruct (Nat.eqb_spec (fst p) (fst q)); destruct (Nat.eqb_spec (snd p) (snd q)); cbn [andb]; intros H;
    try (apply IH in H; destruct H as [A B]; split; [lia|]; replace (k - i)%nat with (S (k - S i)) by lia; exact B).
  injection H as <-. split; auto. rewrite Nat.sub_diag. cbn. destruct p, q; cbn in *; subst; auto.
Qed.
Lemma position_none p l i : position p l i = None <-> ~ In p l.
Proof.
  revert i. induction l as [|q l IH]; cbn; intros i; [tauto|]. destruct (Nat.eqb_spec (fst p) (fst q)); destruct (Nat.eqb_spec (snd p) (snd q)); cbn [andb].
  - split; [discriminate|]. intros H. exfalso. apply H. left. destruct p, q; cbn in *; subst; auto.
  - rewrite IH. split; [intros H [E|K]; [subst; auto|auto]|auto].
  - rewrite IH. split; [intros H [E|K]; [subst; auto|auto]|auto].
  - rewrite IH. split; [intros H [E|K]; [subst; auto|auto]|auto].
Qed.
Lemma index_cases L M (l m : nat) :
  (retained L M l m = true /\ (0 <= index L M (Z.of_nat l) (Z.of_nat m))%Z /\ nth_error (pairs L M) (Z.to_nat (index L M (Z.of_nat l) (Z.of_nat m))) = Some (l, m)) \/
  (retained L M l m = false /\ index L M (Z.of_nat l) (Z.of_nat m) = (-1)%Z).
Proof.
  unfold index, retained. rewrite !Nat2Z.id.
  destruct (position (l, m) (pairs L M) 0) as [k|] eqn:P.
  - left. apply position_some in P. destruct P as [_ P]. rewrite Nat.sub_0_r in P. pose proof (nth_error_In _ _ P) as I. apply in_pairs in I. destruct I as (A & B & C).
    destruct (Z.ltb_spec (Z.of_nat l) 0); [lia|]. destruct (Z.ltb_spec (Z.of_nat L) (Z.of_nat l)); [lia|]. destruct (Z.ltb_spec (Z.of_nat m) 0); [lia|]. destruct (Z.ltb_spec (Z.of_nat M) (Z.of_nat m)); [lia|]. cbn [orb].
    rewrite Nat2Z.id. split; [|split; [lia|exact P]]. destruct (Nat.leb_spec l L); [|lia]. destruct (Nat.leb_spec m l); [|lia]. destruct (Nat.leb_spec m M); [|lia]. reflexivity.
  - right. apply position_none in P. rewrite in_pairs in P. split.
    + destruct (Nat.leb_spec l L); auto. destruct (Nat.leb_spec m l); auto. destruct (Nat.leb_spec m M); auto. exfalso. apply P. auto.
    + destruct (_ || _)%bool; reflexivity.
Qed.
Lemma index_neg L M ell m : (ell < 0 \/ m < 0)%Z -> index L M ell m = (-1)%Z.
Proof. intros H. unfold index. destruct (Z.ltb_spec ell 0); [reflexivity|]. destruct (Z.ltb_spec m 0); [|lia]. rewrite orb_true_r. reflexivity. Qed.

(** [index] numbers the retained modes 0 .. size-1 without gaps or repetitions and returns -1 exactly for truncated modes; the
    packed axis has (m_max+1)(2 l_max + 2 - m_max)/2 entries. *)
Theorem C76_index : forall L M,
  (forall ell m : Z, index L M ell m = (-1)%Z <-> ~ (0 <= m <= ell /\ ell <= Z.of_nat L /\ m <= Z.of_nat M)%Z) /\
  (forall ell m : Z, index L M ell m <> (-1)%Z -> (0 <= index L M ell m < Z.of_nat (size L M))%Z /\
      nth_error (pairs L M) (Z.to_nat (index L M ell m)) = Some (Z.to_nat ell, Z.to_nat m)) /\
  (forall i, (i < size L M)%nat -> exists l m, nth_error (pairs L M) i = Some (l, m) /\ index L M (Z.of_nat l) (Z.of_nat m) = Z.of_nat i).
Proof.
  intros L M.
  assert (A : forall ell m : Z, index L M ell m = (-1)%Z <-> ~ (0 <= m <= ell /\ ell <= Z.of_nat L /\ m <= Z.of_nat M)%Z).
  { intros ell m. destruct (Z.ltb_spec ell 0). { rewrite index_neg by auto. split; auto. intros _. lia. }
    destruct (Z.ltb_spec m 0). { rewrite index_neg by auto. split; auto. intros _. lia. }
    destruct (index_cases L M (Z.to_nat ell) (Z.to_nat m)) as [(R0 & I & N)|(R0 & I)]; rewrite !Z2Nat.id in * by lia; unfold retained in R0.
    - destruct (Nat.leb_spec (Z.to_nat ell) L); [|discriminate]. destruct (Nat.leb_spec (Z.to_nat m) (Z.to_nat ell)); [|discriminate]. destruct (Nat.leb_spec (Z.to_nat m) M); [|discriminate].
      split; [lia|]. intros K. exfalso. apply K. lia.
    - split; auto. intros _ K. destruct (Nat.leb_spec (Z.to_nat ell) L); [|lia]. destruct (Nat.leb_spec (Z.to_nat m) (Z.to_nat ell)); [|lia]. destruct (Nat.leb_spec (Z.to_nat m) M); [discriminate|lia]. }
  assert (B : forall ell m : Z, index L M ell m <> (-1)%Z -> (0 <= index L M ell m < Z.of_nat (size L M))%Z /\
      nth_error (pairs L M) (Z.to_nat (index L M ell m)) = Some (Z.to_nat ell, Z.to_nat m)).
  { intros ell m H. destruct (Z.ltb_spec ell 0); [rewrite index_neg in H by auto; lia|]. destruct (Z.ltb_spec m 0); [rewrite index_neg in H by auto; lia|].
    destruct (index_cases L M (Z.to_nat ell) (Z.to_nat m)) as [(R0 & I & N)|(R0 & I)]; rewrite !Z2Nat.id in * by lia; [|lia].
    split; [|exact N]. split; [exact I|]. assert (Z.to_nat (index L M ell m) < size L M)%nat; [|lia]. unfold size. apply nth_error_Some. rewrite N. discriminate. }
  split; [exact A|]. split; [exact B|].
  intros i Hi. destruct (nth_error (pairs L M) i) as [[l m]|] eqn:E; [|apply nth_error_None in E; unfold size in Hi; lia].
  exists l, m. split; auto. pose proof (nth_error_In _ _ E) as I. apply in_pairs in I.
  assert (NE : index L M (Z.of_nat l) (Z.of_nat m) <> (-1)%Z) by (rewrite A; lia).
  destruct (B _ _ NE) as [Bd N]. rewrite !Nat2Z.id in N. 
  assert (Z.to_nat (index L M (Z.of_nat l) (Z.of_nat m)) = i); [|lia].
  pose proof (NoDup_pairs L M) as ND. rewrite NoDup_nth_error in ND. apply ND; [unfold size in Bd; lia|]. now rewrite N, E.
Qed.
Print Assumptions C76_index.
Lemma length_flat_map {A B} (f : A -> list B) s : List.length (flat_map f s) = fold_right (fun x n => List.length (f x) + n)%nat 0%nat s.
Proof. induction s; cbn; auto. rewrite app_length. now rewrite IHs. Qed.
Theorem C76_size : forall L M, (M <= L)%nat -> (2 * size L M = (M + 1) * (2 * L + 2 - M))%nat.
Proof.
  intros L M H. unfold size, pairs. 
  assert (G : forall n, (2 * List.length (flat_map (fun l => map (fun m => (l, m)) (seq 0 (S (Nat.min l M)))) (seq 0 n)) = if (n <=? M + 1)%nat then n * (n + 1) else (M + 1) * (2 * n - M))%nat).
  { induction n; [reflexivity|]. rewrite seq_S, flat_map_app, app_length. cbn [flat_map plus]. rewrite app_nil_r, map_length, seq_length.
    rewrite Nat.mul_add_distr_l, IHn. destruct (Nat.leb_spec (S n) (M + 1)).
    - destruct (Nat.leb_spec n (M + 1)); [|lia]. rewrite Nat.min_l by lia. nia.
    - rewrite Nat.min_r by lia. destruct (Nat.leb_spec n (M + 1)); [assert (n = M + 1)%nat by lia; subst n|]; nia. }
  rewrite G. destruct (Nat.leb_spec (S L) (M + 1)); [assert (L = M) by lia; subst; nia|nia].
Qed.
Print Assumptions C76_size.
(** Which (l_max, m_max) are accepted, and the default m_max = l_max. *)
Theorem C76_accepted : forall l m, (make_layout l m = None <-> (l < 0 \/ match m with Some k => k < 0 \/ l < k | None => False end)%Z) /\
  (forall L M, make_layout l m = Some (L, M) -> Z.of_nat L = l /\ Z.of_nat M = match m with Some k => k | None => l end /\ (M <= L)%nat).
Proof.
  intros l m. unfold make_layout. destruct (Z.ltb_spec l 0). { split; [split; auto|discriminate]. }
  destruct m as [k|].
  - destruct (Z.leb_spec 0 k); destruct (Z.leb_spec k l); cbn [andb]; split; try (split; [discriminate|lia]); try (split; [lia|auto]); try discriminate. intros L M E. injection E as <- <-. lia.
  - destruct (Z.leb_spec 0 l); [|lia]. rewrite Z.leb_refl. cbn [andb]. split; [split; [discriminate|lia]|]. intros L M E. injection E as <- <-. lia.
Qed.
Print Assumptions C76_accepted.
Example C76_inhabited : make_layout 4 (Some 2%Z) = Some (4, 2)%nat /\ size 4 2 = 12%nat /\ index 4 2 3 2 = 8%Z /\ index 4 2 3 3 = (-1)%Z. Proof. repeat split. Qed.
