(** Lemmas for the spherical-harmonic operators: packed sums as double sums, and the shift of the six couplings. *)
From Coq Require Import Reals Lra Lia ZArith List Bool Psatz.
From Verif Require Import Harm2d Harm2dLayout Legendre RSum Pic PicProofs PicFourier Dft.
Import ListNotations.
Local Open Scope R_scope.

Ltac cx := apply cplx_eq; unfold csub, cneg; unfold cadd, cmul, cscal, c0, ci, creal; cbn [fst snd]; try ring.

Lemma rsum_nth {A} (s : list A) d (F : A -> R) : rsum (List.length s) (fun i => F (nth i s d)) = lsum (map F s).
Proof. induction s as [|a s IH]; [reflexivity|]. cbn [List.length map lsum]. rewrite rsum_shift. cbn [nth]. now rewrite IH. Qed.
Lemma lsum_app a b : lsum (a ++ b) = lsum a + lsum b.
Proof. induction a; cbn; [ring|]. rewrite IHa. ring. Qed.
Lemma lsum_map_seq (F : nat -> R) n : lsum (map F (seq 0 n)) = rsum n F.
Proof. induction n; [reflexivity|]. rewrite seq_S, map_app, lsum_app, IHn. cbn. ring. Qed.
Lemma lsum_flat (F : nat * nat -> R) M n : lsum (map F (flat_map (fun l => map (fun m => (l, m)) (seq 0 (S (Nat.min l M)))) (seq 0 n))) =
  rsum n (fun l => rsum (S (Nat.min l M)) (fun m => F (l, m))).
Proof.
  induction n; [reflexivity|]. rewrite seq_S, flat_map_app, map_app, lsum_app, IHn. cbn [plus flat_map]. rewrite app_nil_r, map_map, lsum_map_seq. reflexivity.
Qed.
Lemma rsum_extend n m f : (n <= m)%nat -> (forall i, (n <= i < m)%nat -> f i = 0) -> rsum m f = rsum n f.
Proof. intros H E. induction m; [now replace n with 0%nat by lia|]. destruct (Nat.eq_dec n (S m)) as [->|]; auto. cbn [rsum]. rewrite IHm by (try lia; intros; apply E; lia). rewrite E by lia. ring. Qed.
Lemma packed_sum L M N (F : nat -> nat -> R) : (S L <= N)%nat ->
  rsum (size L M) (packed L M F) = rsum N (fun l => rsum N (fun m => if retained L M l m then F l m else 0)).
Proof.
  intros HN. unfold packed, size. rewrite (rsum_nth (pairs L M) (0, 0)%nat (fun p => F (fst p) (snd p))). unfold pairs. rewrite lsum_flat. cbn [fst snd].
  rewrite (rsum_extend (S L) N); [|exact HN|].
  2: { intros l Hl. rewrite (rsum_ext N _ (fun _ => 0)); [apply rsum_zero|]. intros m _. unfold retained. destruct (Nat.leb_spec l L); [lia|reflexivity]. }
  apply rsum_ext. intros l Hl. rewrite (rsum_extend (S (Nat.min l M)) N).
  - apply rsum_ext. intros m Hm. unfold retained. destruct (Nat.leb_spec l L); [|lia]. destruct (Nat.leb_spec m l); [|lia]. destruct (Nat.leb_spec m M); [reflexivity|lia].
  - lia.
  - intros m Hm. unfold retained. destruct (Nat.leb_spec l L); [|lia]. destruct (Nat.leb_spec m l); [|reflexivity]. destruct (Nat.leb_spec m M); [lia|reflexivity].
Qed.

(** ** Coefficients by mode *)
Definition gf (L M : nat) (f : nat -> cplx) (l m : nat) : cplx := at_ L M f (Z.of_nat l) (Z.of_nat m).
Definition prd {A} (z : A) (l : nat) (F : nat -> A) : A := match l with O => z | S k => F k end.
Lemma at_pred L M f l m : at_ L M f (Z.of_nat l - 1)%Z (Z.of_nat m) = prd c0 l (fun k => gf L M f k m).
Proof. destruct l as [|l]; cbn [prd]; [unfold at_; now rewrite index_neg by lia|]. unfold gf. f_equal. lia. Qed.
Lemma at_succ L M f l m : at_ L M f (Z.of_nat l + 1)%Z (Z.of_nat m) = gf L M f (S l) m.
Proof. unfold gf. f_equal. lia. Qed.
Lemma at_pp L M f l m : at_ L M f (Z.of_nat l - 1)%Z (Z.of_nat m - 1)%Z = prd c0 l (fun k => prd c0 m (fun j => gf L M f k j)).
Proof. destruct l as [|l]; cbn [prd]; [unfold at_; now rewrite index_neg by lia|]. destruct m as [|m]; cbn [prd]; [unfold at_; now rewrite index_neg by lia|]. unfold gf. f_equal; lia. Qed.
Lemma at_ps L M f l m : at_ L M f (Z.of_nat l - 1)%Z (Z.of_nat m + 1)%Z = prd c0 l (fun k => gf L M f k (S m)).
Proof. destruct l as [|l]; cbn [prd]; [unfold at_; now rewrite index_neg by lia|]. unfold gf. f_equal; lia. Qed.
Lemma at_sp L M f l m : at_ L M f (Z.of_nat l + 1)%Z (Z.of_nat m - 1)%Z = prd c0 m (fun j => gf L M f (S l) j).
Proof. destruct m as [|m]; cbn [prd]; [unfold at_; now rewrite index_neg by lia|]. unfold gf. f_equal; lia. Qed.
Lemma at_ss L M f l m : at_ L M f (Z.of_nat l + 1)%Z (Z.of_nat m + 1)%Z = gf L M f (S l) (S m).
Proof. unfold gf. f_equal; lia. Qed.
Lemma gf_out L M f l m : retained L M l m = false -> gf L M f l m = c0.
Proof. intros H. unfold gf, at_. destruct (index_cases L M l m) as [(R0 & _)|(_ & I)]; [congruence|]. rewrite I. reflexivity. Qed.
Lemma gf_map L M (F : cplx -> cplx) f l m : F c0 = c0 -> gf L M (fun i => F (f i)) l m = F (gf L M f l m).
Proof. intros H. unfold gf, at_. destruct (0 <=? _)%Z; auto. Qed.
Lemma gf_map2 L M (F : cplx -> cplx -> cplx) f g l m : F c0 c0 = c0 -> gf L M (fun i => F (f i) (g i)) l m = F (gf L M f l m) (gf L M g l m).
Proof. intros H. unfold gf, at_. destruct (0 <=? _)%Z; auto. Qed.
Lemma gf_packed L M F l m : retained L M l m = true -> gf L M (packed L M F) l m = F l m.
Proof.
  intros H. unfold gf, at_. destruct (index_cases L M l m) as [(_ & I & N)|(R0 & _)]; [|congruence]. destruct (Z.leb_spec 0 (index L M (Z.of_nat l) (Z.of_nat m))); [|lia].
  unfold packed. rewrite (nth_error_nth _ _ _ N). reflexivity.
Qed.
Lemma nth_retained L M i : (i < size L M)%nat -> retained L M (fst (nth i (pairs L M) (0, 0)%nat)) (snd (nth i (pairs L M) (0, 0)%nat)) = true /\
  forall f, gf L M f (fst (nth i (pairs L M) (0, 0)%nat)) (snd (nth i (pairs L M) (0, 0)%nat)) = f i.
Proof.
  intros Hi. destruct (C76_index L M) as (A & B & C). destruct (C i Hi) as (l & m & E & I). rewrite (nth_error_nth _ _ _ E). cbn [fst snd].
  destruct (index_cases L M l m) as [(R0 & _)|(_ & K)]; [|lia]. split; auto. intros f. unfold gf, at_. rewrite I. destruct (Z.leb_spec 0 (Z.of_nat i)); [|lia]. now rewrite Nat2Z.id.
Qed.
Lemma packed_eq {A} L M (F : nat -> nat -> A) i : (i < size L M)%nat -> packed L M F i = F (fst (nth i (pairs L M) (0, 0)%nat)) (snd (nth i (pairs L M) (0, 0)%nat)). Proof. reflexivity. Qed.

(** ** The distribution a set of coefficients stands for *)
Fixpoint cpow (z : cplx) (m : nat) : cplx := match m with O => c1 | S k => cmul z (cpow z k) end.
Definition wt (m : nat) : R := if (m =? 0)%nat then 1 else 2.
(** sum_l sum_{|m| <= l} f_l^m P_l^{|m|}(cos theta) e^{i m phi} with f_l^{-m} = conj(f_l^m) (overview.md), in the direction
    (x, y, z) = (cos theta, sin theta cos phi, sin theta sin phi): the terms m and -m add up to twice a real part. *)
Definition dist_at (L M : nat) (f : nat -> cplx) (x y z : R) : R :=
  rsum (size L M) (fun i => let p := nth i (pairs L M) (0, 0)%nat in wt (snd p) * fst (cmul (f i) (cpow (y, z) (snd p))) * legd x (fst p) (snd p)).
Definition dterm (x y z : R) (a : cplx) (l m : nat) : R := wt m * fst (cmul a (cpow (y, z) m)) * legd x l m.
Lemma dist_double L M N f x y z : (S L <= N)%nat -> dist_at L M f x y z = rsum N (fun l => rsum N (fun m => dterm x y z (gf L M f l m) l m)).
Proof.
  intros HN. unfold dist_at. rewrite (rsum_ext _ _ (packed L M (fun l m => dterm x y z (gf L M f l m) l m))).
  - rewrite (packed_sum L M N) by auto. apply rsum_ext. intros l _. apply rsum_ext. intros m _. destruct (retained L M l m) eqn:R0; auto. rewrite gf_out by auto. unfold dterm, cmul, c0. cbn [fst snd]. ring.
  - intros i Hi. unfold packed, dterm. cbv zeta. destruct (nth_retained L M i Hi) as [_ E]. rewrite E. reflexivity.
Qed.

(** ** Shifting double sums *)
Definition rsum2 (N : nat) (F : nat -> nat -> R) : R := rsum N (fun l => rsum N (fun m => F l m)).
Lemma rsum2_ext N F G : (forall l m, (l < N)%nat -> (m < N)%nat -> F l m = G l m) -> rsum2 N F = rsum2 N G.
Proof. intros H. apply rsum_ext. intros l Hl. apply rsum_ext. intros m Hm. auto. Qed.
Lemma rsum2_plus N F G : rsum2 N (fun l m => F l m + G l m) = rsum2 N F + rsum2 N G.
Proof. unfold rsum2. rewrite <- rsum_plus. apply rsum_ext. intros l _. now rewrite rsum_plus. Qed.
Lemma rsum2_swap N F : rsum2 N F = rsum2 N (fun m l => F l m).
Proof. unfold rsum2. apply rsum_swap. Qed.
Lemma rsum2_l N (G : nat -> nat -> R) : (0 < N)%nat -> (forall m, G (N - 1)%nat m = 0) -> rsum2 N (fun l m => prd 0 l (fun k => G k m)) = rsum2 N G.
Proof.
  intros HN H. unfold rsum2. destruct N as [|N]; [lia|]. replace (S N - 1)%nat with N in H by lia. rewrite rsum_shift. cbn [prd]. rewrite rsum_zero, Rplus_0_l.
  change (rsum (S N) (fun l => rsum (S N) (fun m => G l m))) with (rsum N (fun l => rsum (S N) (fun m => G l m)) + rsum (S N) (fun m => G N m)).
  rewrite (rsum_ext (S N) (fun m => G N m) (fun _ => 0)) by auto. rewrite rsum_zero. ring.
Qed.
Lemma rsum2_lup N (G : nat -> nat -> R) : (forall m, G N m = 0) -> rsum2 N (fun l m => G (S l) m) = rsum2 N (fun l m => prd 0 l (fun _ => G l m)).
Proof.
  intros H. unfold rsum2. destruct N as [|N]; [reflexivity|].
  rewrite (rsum_shift N (fun l => rsum (S N) (fun m => prd 0 l (fun _ => G l m)))). cbn [prd]. rewrite rsum_zero, Rplus_0_l.
  change (rsum (S N) (fun l => rsum (S N) (fun m => G (S l) m))) with (rsum N (fun l => rsum (S N) (fun m => G (S l) m)) + rsum (S N) (fun m => G (S N) m)).
  rewrite (rsum_ext (S N) (fun m => G (S N) m) (fun _ => 0)) by auto. rewrite rsum_zero. ring.
Qed.
Lemma rsum2_m N (G : nat -> nat -> R) : (0 < N)%nat -> (forall l, G l (N - 1)%nat = 0) -> rsum2 N (fun l m => prd 0 m (fun j => G l j)) = rsum2 N G.
Proof. intros HN H. rewrite rsum2_swap, (rsum2_swap N G). apply (rsum2_l N (fun m l => G l m)); auto. Qed.
Lemma rsum2_mup N (G : nat -> nat -> R) : (forall l, G l N = 0) -> rsum2 N (fun l m => G l (S m)) = rsum2 N (fun l m => prd 0 m (fun _ => G l m)).
Proof. intros H. rewrite rsum2_swap, (rsum2_swap N (fun l m => prd 0 m (fun _ => G l m))). apply (rsum2_lup N (fun m l => G l m)); auto. Qed.

(** ** The six couplings *)
Record six := { gx : nat -> nat -> cplx; hx : nat -> nat -> cplx; gm : nat -> nat -> cplx; hm : nat -> nat -> cplx; gp : nat -> nat -> cplx; hp : nat -> nat -> cplx }.
Definition six_mode (s : six) (l m : nat) : cplx :=
  let rl := INR l in let rm := INR m in
  let along := cadd (cscal ((rl - rm) / (2 * rl - 1)) (prd c0 l (fun k => gx s k m))) (cscal ((rl + rm + 1) / (2 * rl + 3)) (hx s (S l) m)) in
  let lower := csub (cscal ((rl + rm + 1) * (rl + rm + 2) / (2 * rl + 3)) (hp s (S l) (S m))) (cscal ((rl - rm) * (rl - rm - 1) / (2 * rl - 1)) (prd c0 l (fun k => gp s k (S m)))) in
  let raise := csub (cscal (1 / (2 * rl - 1)) (prd c0 l (fun k => prd c0 m (fun j => gm s k j)))) (cscal (1 / (2 * rl + 3)) (prd c0 m (fun j => hm s (S l) j))) in
  if (0 <? m)%nat then cadd along (cscal (1 / 2) (cadd raise lower)) else cadd along (creal lower).
Definition vanish (N : nat) (F : nat -> nat -> cplx) : Prop := forall l m, (N - 1 <= l \/ N - 1 <= m)%nat -> F l m = c0.
Definition re_at (y z : R) (a : cplx) (m : nat) : R := fst (cmul a (cpow (y, z) m)).
Lemma re_add y z a b m : re_at y z (cadd a b) m = re_at y z a m + re_at y z b m. Proof. unfold re_at, cmul, cadd. cbn [fst snd]. ring. Qed.
Lemma re_sub y z a b m : re_at y z (csub a b) m = re_at y z a m - re_at y z b m. Proof. unfold re_at, cmul, csub, cneg, cadd. cbn [fst snd]. ring. Qed.
Lemma re_scal y z r a m : re_at y z (cscal r a) m = r * re_at y z a m. Proof. unfold re_at, cmul, cscal. cbn [fst snd]. ring. Qed.
Lemma re_c0 y z m : re_at y z c0 m = 0. Proof. unfold re_at, cmul, c0. cbn [fst snd]. ring. Qed.
Lemma re_creal y z a : re_at y z (creal a) 0 = re_at y z a 0. Proof. unfold re_at, cmul, creal, c1. cbn [fst snd cpow]. unfold c1. cbn. ring. Qed.
Lemma re_pre y z l F m : re_at y z (prd c0 l F) m = prd 0 l (fun k => re_at y z (F k) m). Proof. destruct l; cbn [prd]; auto. apply re_c0. Qed.
Lemma den1 l : 2 * INR l + 1 <> 0. Proof. pose proof (pos_INR l). lra. Qed.
Lemma wt_S m : wt (S m) = 2. Proof. reflexivity. Qed.

Definition six_source (x y z : R) (s : six) (l m : nat) : R :=
  wt m / (2 * INR l + 1) * ((INR l - INR m + 1) * re_at y z (gx s l m) m * legd x (S l) m + (INR l + INR m) * re_at y z (hx s l m) m * legp x l m)
  + 1 / (2 * INR l + 1) * (re_at y z (gm s l m) (S m) * legd x (S l) (S m) - re_at y z (hm s l m) (S m) * legp x l (S m))
  + prd 0 m (fun j => 1 / (2 * INR l + 1) * ((INR l + INR j) * (INR l + INR j + 1) * re_at y z (hp s l m) j * legp x l j
                       - (INR l - INR j + 1) * (INR l - INR j) * re_at y z (gp s l m) j * legd x (S l) j)).
Lemma rsum2_minus N F G : rsum2 N (fun l m => F l m - G l m) = rsum2 N F - rsum2 N G.
Proof. unfold rsum2. rewrite <- rsum_minus. apply rsum_ext. intros l _. now rewrite rsum_minus. Qed.
Lemma six_sum N x y z s : (0 < N)%nat -> vanish N (gx s) -> vanish N (hx s) -> vanish N (gm s) -> vanish N (hm s) -> vanish N (gp s) -> vanish N (hp s) ->
  rsum2 N (fun l m => dterm x y z (six_mode s l m) l m) = rsum2 N (six_source x y z s).
Proof.
  intros HN V1 V2 V3 V4 V5 V6.
  pose (t1 := fun k m : nat => wt m * ((INR k - INR m + 1) / (2 * INR k + 1)) * re_at y z (gx s k m) m * legd x (S k) m).
  pose (t2 := fun l m : nat => wt m * ((INR l + INR m) / (2 * INR l + 1)) * re_at y z (hx s l m) m * legp x l m).
  pose (t3 := fun k j : nat => 1 / (2 * INR k + 1) * re_at y z (gm s k j) (S j) * legd x (S k) (S j)).
  pose (t4 := fun l j : nat => 1 / (2 * INR l + 1) * re_at y z (hm s l j) (S j) * legp x l (S j)).
  pose (t5 := fun l m : nat => prd 0 m (fun j => (INR l + INR j) * (INR l + INR j + 1) / (2 * INR l + 1) * re_at y z (hp s l m) j * legp x l j)).
  pose (t6 := fun k m : nat => prd 0 m (fun j => (INR k - INR j + 1) * (INR k - INR j) / (2 * INR k + 1) * re_at y z (gp s k m) j * legd x (S k) j)).
  transitivity (rsum2 N (fun l m => prd 0 l (fun k => t1 k m)) + rsum2 N (fun l m => t2 (S l) m) + (rsum2 N (fun l m => prd 0 l (fun k => prd 0 m (fun j => t3 k j))) - rsum2 N (fun l m => prd 0 m (fun j => t4 (S l) j)))
     + (rsum2 N (fun l m => t5 (S l) (S m)) - rsum2 N (fun l m => prd 0 l (fun k => t6 k (S m))))).
  - rewrite <- !rsum2_minus, <- !rsum2_plus. apply rsum2_ext. intros l m Hl Hm.
    change (dterm x y z (six_mode s l m) l m) with (wt m * re_at y z (six_mode s l m) m * legd x l m).
    assert (D3 : 2 * INR l + 3 = 2 * INR (S l) + 1) by (rewrite S_INR; ring).
    assert (P1 : prd 0 l (fun k => t1 k m) = wt m * ((INR l - INR m) / (2 * INR l - 1)) * re_at y z (prd c0 l (fun k => gx s k m)) m * legd x l m).
    { rewrite re_pre. destruct l as [|l]; cbn [prd]; [ring|]. unfold t1. rewrite S_INR. replace (2 * (INR l + 1) - 1) with (2 * INR l + 1) by ring. replace (INR l + 1 - INR m) with (INR l - INR m + 1) by ring. reflexivity. }
    assert (P2 : t2 (S l) m = wt m * ((INR l + INR m + 1) / (2 * INR l + 3)) * re_at y z (hx s (S l) m) m * legd x l m).
    { unfold t2. cbn [legp]. rewrite D3, S_INR. replace (INR l + 1 + INR m) with (INR l + INR m + 1) by ring. reflexivity. }
    assert (P6 : prd 0 l (fun k => t6 k (S m)) = (INR l - INR m) * (INR l - INR m - 1) / (2 * INR l - 1) * re_at y z (prd c0 l (fun k => gp s k (S m))) m * legd x l m).
    { rewrite re_pre. destruct l as [|l]; cbn [prd]; [ring|]. unfold t6. cbn [prd]. rewrite S_INR. replace (2 * (INR l + 1) - 1) with (2 * INR l + 1) by ring. replace (INR l + 1 - INR m - 1) with (INR l - INR m) by ring. replace (INR l + 1 - INR m) with (INR l - INR m + 1) by ring. reflexivity. }
    assert (P5 : t5 (S l) (S m) = (INR l + INR m + 1) * (INR l + INR m + 2) / (2 * INR l + 3) * re_at y z (hp s (S l) (S m)) m * legd x l m).
    { unfold t5. cbn [prd legp]. rewrite D3, S_INR. replace (INR l + 1 + INR m) with (INR l + INR m + 1) by ring. replace (INR l + INR m + 1 + 1) with (INR l + INR m + 2) by ring. reflexivity. }
    assert (P3 : prd 0 l (fun k => prd 0 m (fun j => t3 k j)) = 1 / (2 * INR l - 1) * re_at y z (prd c0 l (fun k => prd c0 m (fun j => gm s k j))) m * legd x l m).
    { rewrite re_pre. destruct l as [|l]; cbn [prd]; [ring|]. rewrite re_pre. destruct m as [|m]; cbn [prd]; [ring|]. unfold t3. rewrite S_INR. replace (2 * (INR l + 1) - 1) with (2 * INR l + 1) by ring. reflexivity. }
    assert (P4 : prd 0 m (fun j => t4 (S l) j) = 1 / (2 * INR l + 3) * re_at y z (prd c0 m (fun j => hm s (S l) j)) m * legd x l m).
    { rewrite re_pre. destruct m as [|m]; cbn [prd]; [ring|]. unfold t4. cbn [legp]. rewrite D3. reflexivity. }
    rewrite P1, P2, P3, P4, P5, P6. unfold six_mode. cbv zeta. destruct m as [|m].
    + change (0 <? 0)%nat with false. cbv iota. rewrite !re_add, re_creal, !re_sub, !re_scal. destruct l; cbn [prd]; rewrite !re_c0; unfold wt; cbn [Nat.eqb]; ring.
    + change (0 <? S m)%nat with true. cbv iota. rewrite !re_add, !re_scal, !re_add, !re_sub, !re_scal, wt_S. pose proof (pos_INR l) as PL.
      assert (K1 : 2 * INR l - 1 <> 0) by (intros K; destruct l as [|l]; [change (INR 0) with 0 in K; lra|]; rewrite S_INR in K; pose proof (pos_INR l); lra).
      assert (K3 : 2 * INR l + 3 <> 0) by lra. field. split; auto.
  - rewrite (rsum2_l N t1), (rsum2_lup N t2), (rsum2_l N (fun k m => prd 0 m (fun j => t3 k j))), (rsum2_m N t3).
    rewrite (rsum2_m N (fun l j => t4 (S l) j)), (rsum2_lup N t4).
    rewrite (rsum2_lup N (fun l m => t5 l (S m))). rewrite (rsum2_l N (fun k m => t6 k (S m))).
    assert (K5 : rsum2 N (fun l m => prd 0 l (fun _ => t5 l (S m))) = rsum2 N (fun l m => prd 0 l (fun _ => t5 l m))).
    { rewrite (rsum2_mup N (fun l m => prd 0 l (fun _ => t5 l m))).
      - apply rsum2_ext. intros l m _ _. destruct l, m; reflexivity.
      - intros l. destruct l; cbn [prd]; auto. unfold t5. destruct N as [|N]; [lia|]. cbn [prd]. rewrite (V6 _ _) by (first [left; lia|right; lia]). rewrite re_c0. ring. }
    assert (K6 : rsum2 N (fun k m => t6 k (S m)) = rsum2 N t6).
    { rewrite (rsum2_mup N t6).
      - apply rsum2_ext. intros l m _ _. destruct m; reflexivity.
      - intros l. unfold t6. destruct N as [|N]; [lia|]. cbn [prd]. rewrite (V5 _ _) by (first [left; lia|right; lia]). rewrite re_c0. ring. }
    rewrite K5, K6. rewrite <- !rsum2_minus, <- !rsum2_plus. apply rsum2_ext. intros l m Hl Hm.
    unfold six_source, t1, t2, t3, t4, t5, t6.
    assert (Q2 : prd 0 l (fun _ => wt m * ((INR l + INR m) / (2 * INR l + 1)) * re_at y z (hx s l m) m * legp x l m) = wt m * ((INR l + INR m) / (2 * INR l + 1)) * re_at y z (hx s l m) m * legp x l m) by (destruct l; cbn [prd legp]; ring).
    assert (Q4 : prd 0 l (fun _ => 1 / (2 * INR l + 1) * re_at y z (hm s l m) (S m) * legp x l (S m)) = 1 / (2 * INR l + 1) * re_at y z (hm s l m) (S m) * legp x l (S m)) by (destruct l; cbn [prd legp]; ring).
    rewrite Q2, Q4. pose proof (den1 l). destruct m as [|m]; cbn [prd].
    + destruct l; cbn [prd]; field; auto.
    + assert (Q5 : prd 0 l (fun _ => (INR l + INR m) * (INR l + INR m + 1) / (2 * INR l + 1) * re_at y z (hp s l (S m)) m * legp x l m) = (INR l + INR m) * (INR l + INR m + 1) / (2 * INR l + 1) * re_at y z (hp s l (S m)) m * legp x l m) by (destruct l; cbn [prd legp]; ring).
      rewrite Q5. field. auto.
    + auto.
    + intros m. unfold t6. cbn [prd]. rewrite (V5 _ _) by (first [left; lia|right; lia]). rewrite re_c0. ring.
    + intros m. unfold t5. cbn [prd]. rewrite (V6 _ _) by (first [left; lia|right; lia]). rewrite re_c0. ring.
    + intros m. unfold t4. rewrite (V4 _ _) by (first [left; lia|right; lia]). rewrite re_c0. ring.
    + auto.
    + intros l. unfold t4. rewrite (V4 _ _) by (first [left; lia|right; lia]). rewrite re_c0. ring.
    + auto.
    + intros l. unfold t3. rewrite (V3 _ _) by (first [left; lia|right; lia]). rewrite re_c0. ring.
    + auto.
    + intros m. destruct m; cbn [prd]; auto. unfold t3. rewrite (V3 _ _) by (first [left; lia|right; lia]). rewrite re_c0. ring.
    + intros m. unfold t2. rewrite (V2 _ _) by (first [left; lia|right; lia]). rewrite re_c0. ring.
    + auto.
    + intros m. unfold t1. rewrite (V1 _ _) by (first [left; lia|right; lia]). rewrite re_c0. ring.
Qed.
