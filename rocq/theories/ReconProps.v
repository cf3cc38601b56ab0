(** Property C108: when a frame counts as reconnection, and the rate, flux and scores reported for it. *)
From Coq Require Import Reals Lra Lia ZArith List Bool Psatz.
From Verif Require Import Drivers DriversProps Density PyStr Harm2d Harm2dLayout Harm2dSum Harm2dProps Harm2dMoments Vfp2d Vfp2dOps Vfp2dField RSum Pic PicProofs PicFourier Dft ReconAz Recon.
Import ListNotations.
Local Open Scope R_scope.

(** * Specification *)
(** The first of the cells of one side at which |b| is largest. *)
Definition strongest (n : nat) (side : nat -> Prop) (b : nat -> R) (i : nat) : Prop :=
  (i < n)%nat /\ side i /\ forall j, (j < n)%nat -> side j -> Rabs (b j) <= Rabs (b i) /\ ((j < i)%nat -> Rabs (b j) < Rabs (b i)).
(** Reconnection: oppositely directed upstream B_x of comparable size (within a factor 7) on the line through the centre, a central in-plane
    field of at most half their mean, a saddle of the potential, and within the central window a |j_z| of a quarter of the global peak. *)
Definition reconnects (g : rgrid) (f : rframe) : Prop :=
  exists l u, let c := ix0 g in let r := iy0 g in let B := f_bx f c in
  strongest (r_ny g) (fun i => r_y g i < centre (r_ny g) (r_y g)) B l /\ strongest (r_ny g) (fun i => centre (r_ny g) (r_y g) < r_y g i) B u /\
  B l * B u < 0 /\ Rabs (B l) <= 7 * Rabs (B u) /\ Rabs (B u) <= 7 * Rabs (B l) /\
  tiny < (Rabs (B l) + Rabs (B u)) / 2 /\ 16 * (f_bx f c r ^ 2 + f_by f c r ^ 2) <= (Rabs (B l) + Rabs (B u)) ^ 2 /\
  gx g (gx g (az g f)) c r * gy g (gy g (az g f)) c r < gy g (gx g (az g f)) c r ^ 2 /\
  (exists x y, (x < r_nx g)%nat /\ (y < r_ny g)%nat /\ tiny < Rabs (f_jz f x y)) /\
  exists i, (i < r_ny g)%nat /\ Rabs (r_y g i - r_y g r) <= Rmax (2 * r_dy g) (4 / 10 * Rmin (Rabs (r_y g l)) (Rabs (r_y g u))) /\
    forall x y, (x < r_nx g)%nat -> (y < r_ny g)%nat -> Rabs (f_jz f x y) <= 4 * Rabs (f_jz f c i).

(** * Lists *)
Lemma rlt_iff a b : rlt a b = true <-> a < b.
Proof. unfold rlt. destruct Rlt_dec; split; intros; auto; try discriminate; lra. Qed.
Lemma rle_iff a b : rle a b = true <-> a <= b.
Proof. unfold rle. destruct Rle_dec; split; intros; auto; try discriminate; lra. Qed.
Lemma tiny_pos : 0 < tiny.
Proof. unfold tiny. apply Rinv_0_lt_compat, pow_lt. lra. Qed.
Lemma rmax0_ge0 l : 0 <= rmax0 l.
Proof. induction l as [|a l IH]; cbn; [lra|]. fold (rmax0 l). pose proof (Rmax_r a (rmax0 l)). lra. Qed.
Lemma rmax0_in l a : In a l -> a <= rmax0 l.
Proof. induction l as [|b l IH]; intros H; [destruct H|]. cbn. fold (rmax0 l). destruct H as [->|H]; [apply Rmax_l|]. eapply Rle_trans; [apply IH, H|apply Rmax_r]. Qed.
Lemma rmax0_le l m : 0 <= m -> (forall a, In a l -> a <= m) -> rmax0 l <= m.
Proof. intros Hm. induction l as [|b l IH]; intros H; cbn; [exact Hm|]. fold (rmax0 l). apply Rmax_lub; [apply H; now left|apply IH; intros; apply H; now right]. Qed.
Lemma rmax0_att l : 0 < rmax0 l -> In (rmax0 l) l.
Proof. induction l as [|b l IH]; cbn; [lra|]. fold (rmax0 l). intros H. unfold Rmax in *. destruct (Rle_dec b (rmax0 l)); [right; apply IH, H|now left]. Qed.
Lemma lsum_le {A} (f h : A -> R) l : (forall a, In a l -> f a <= h a) -> lsum (map f l) <= lsum (map h l).
Proof. induction l as [|a l IH]; intros H; cbn; [lra|]. fold (lsum (map f l)). fold (lsum (map h l)). pose proof (H a (or_introl eq_refl)). pose proof (IH ltac:(intros; apply H; now right)). lra. Qed.
Lemma lsum_nonneg {A} (f : A -> R) l : (forall a, In a l -> 0 <= f a) -> 0 <= lsum (map f l).
Proof. induction l as [|a l IH]; intros H; cbn; [lra|]. fold (lsum (map f l)). pose proof (H a (or_introl eq_refl)). pose proof (IH ltac:(intros; apply H; now right)). lra. Qed.
Lemma lsum_scal {A} (f : A -> R) c l : lsum (map (fun a => c * f a) l) = c * lsum (map f l).
Proof. induction l as [|a l IH]; cbn; [ring|]. fold (lsum (map f l)). fold (lsum (map (fun a => c * f a) l)). rewrite IH. ring. Qed.
Lemma lsum_filter {A} (f : A -> R) (p : A -> bool) l : (forall a, 0 <= f a) -> lsum (map f (filter p l)) <= lsum (map f l).
Proof. intros H. induction l as [|a l IH]; cbn; [lra|]. fold (lsum (map f l)). pose proof (H a). destruct (p a); cbn; fold (lsum (map f (filter p l))); lra. Qed.
Lemma lsum_abs {A} (f : A -> R) l : Rabs (lsum (map f l)) <= lsum (map (fun a => Rabs (f a)) l).
Proof. induction l as [|a l IH]; cbn; [rewrite Rabs_R0; lra|]. fold (lsum (map f l)). fold (lsum (map (fun a => Rabs (f a)) l)). pose proof (Rabs_triang (f a) (lsum (map f l))). lra. Qed.
Lemma lsum_ext {A} (f h : A -> R) l : (forall a, In a l -> f a = h a) -> lsum (map f l) = lsum (map h l).
Proof. intros H. f_equal. now apply map_ext_in. Qed.

Lemma best_spec f l c : (forall a b, In a (c :: l) -> In b l -> a = c -> (c < b)%nat) -> NoDup l -> (forall i j, (i < j < length l)%nat -> (nth i l 0 < nth j l 0)%nat) ->
  In (best f c l) (c :: l) /\ forall j, In j (c :: l) -> f j <= f (best f c l) /\ ((j < best f c l)%nat -> f j < f (best f c l)).
Proof.
  revert c. induction l as [|i r IH]; intros c Hc ND HS; cbn [best].
  - split; [now left|]. intros j [<-|[]]. split; [lra|lia].
  - assert (Hi : (c < i)%nat) by (apply (Hc c i); [now left|now left|reflexivity]).
    assert (Hr : forall b, In b r -> (i < b)%nat). { intros b Hb. destruct (In_nth r b 0%nat Hb) as (q & Hq & E). pose proof (HS 0%nat (S q) ltac:(cbn; lia)) as W. cbn [nth] in W. now rewrite E in W. }
    assert (HS' : forall i0 j, (i0 < j < length r)%nat -> (nth i0 r 0 < nth j r 0)%nat) by (intros a b Hab; apply (HS (S a) (S b)); cbn; lia).
    inversion ND as [|? ? NI ND']; subst. destruct (Rlt_dec (f c) (f i)) as [L|L].
    + destruct (IH i ltac:(intros a b _ Hb _; now apply Hr) ND' HS') as [I1 I2]. split; [right; exact I1|].
      intros j [<-|Hj]; [|now apply I2]. destruct (I2 i (or_introl eq_refl)) as [A B]. split; [lra|]. intros _. lra.
    + destruct (IH c ltac:(intros a b _ Hb _; specialize (Hr b Hb); lia) ND' HS') as [I1 I2]. split; [destruct I1 as [E|I1]; [now left|right; now right]|].
      intros j [<-|[<-|Hj]]; [apply I2; now left| |apply I2; now right]. destruct (I2 c (or_introl eq_refl)) as [A B]. split; [lra|]. intros Q.
      assert (c <> best f c r) by (intros E; rewrite <- E in Q; lia). destruct I1 as [E|I1]; [congruence|]. assert (c < best f c r)%nat by (specialize (Hr _ I1); lia). specialize (B H0). lra.
Qed.
Lemma filter_seq_sorted p s n : forall i j, (i < j < length (filter p (seq s n)))%nat -> (nth i (filter p (seq s n)) 0 < nth j (filter p (seq s n)) 0)%nat.
Proof.
  revert s. induction n as [|n IH]; intros s i j H; cbn in *; [lia|]. destruct (p s); [|now apply IH]. cbn [length] in H.
  destruct j as [|j]; [lia|]. destruct i as [|i]; cbn [nth]; [|apply IH; lia].
  assert (I : In (nth j (filter p (seq (S s) n)) 0%nat) (filter p (seq (S s) n))) by (apply nth_In; lia). apply filter_In in I as [I _]. apply in_seq in I. lia.
Qed.
Lemma argmax_spec (n : nat) (side : nat -> bool) b : filter side (seq 0 n) <> [] -> strongest n (fun i => side i = true) b (argmax (fun i => Rabs (b i)) (filter side (seq 0 n))).
Proof.
  intros NE. pose proof (filter_seq_sorted side 0 n) as HS. assert (HI : forall j, In j (filter side (seq 0 n)) <-> (j < n)%nat /\ side j = true) by (intros j; rewrite filter_In, in_seq; intuition lia).
  assert (ND : NoDup (filter side (seq 0 n))) by apply NoDup_filter, seq_NoDup. destruct (filter side (seq 0 n)) as [|c l]; [congruence|]. cbn [argmax].
  destruct (best_spec (fun i => Rabs (b i)) l c) as [A B].
  - intros a d _ Hd _. destruct (In_nth l d 0%nat Hd) as (q & Hq & E). specialize (HS 0%nat (S q) ltac:(cbn; lia)). cbn [nth] in HS. now rewrite E in HS.
  - now inversion ND.
  - intros i j Hij. apply (HS (S i) (S j)). cbn. lia.
  - apply HI in A as [A1 A2]. split; [exact A1|split; [exact A2|]]. intros j Hj Sj. apply B, HI. auto.
Qed.
Lemma strongest_unique n side b i j : strongest n side b i -> strongest n side b j -> i = j.
Proof.
  intros (A1 & A2 & A3) (B1 & B2 & B3). destruct (A3 j B1 B2) as [C1 C2], (B3 i A1 A2) as [D1 D2].
  destruct (Nat.lt_trichotomy i j) as [L|[L|L]]; auto; [specialize (D2 L)|specialize (C2 L)]; lra.
Qed.
Lemma strongest_ext n (s1 s2 : nat -> Prop) b i : (forall k, s1 k <-> s2 k) -> strongest n s1 b i -> strongest n s2 b i.
Proof. intros E (A & B & C). split; [exact A|split; [now apply E|]]. intros j Hj Sj. apply C; auto. now apply E. Qed.

Lemma lo_spec g f : both_sides g = true -> strongest (r_ny g) (fun i => r_y g i < centre (r_ny g) (r_y g)) (f_bx f (ix0 g)) (lo g f).
Proof.
  intros H. apply andb_prop in H as [H _]. apply strongest_ext with (fun i => rlt (r_y g i) (centre (r_ny g) (r_y g)) = true); [intros; apply rlt_iff|].
  apply argmax_spec. intros E. unfold lower in H. rewrite E in H. discriminate.
Qed.
Lemma up_spec g f : both_sides g = true -> strongest (r_ny g) (fun i => centre (r_ny g) (r_y g) < r_y g i) (f_bx f (ix0 g)) (up g f).
Proof.
  intros H. apply andb_prop in H as [_ H]. apply strongest_ext with (fun i => rlt (centre (r_ny g) (r_y g)) (r_y g i) = true); [intros; apply rlt_iff|].
  apply argmax_spec. intros E. unfold upper in H. rewrite E in H. discriminate.
Qed.
Lemma ix0_lt g : (0 < r_nx g)%nat -> (ix0 g < r_nx g)%nat.
Proof. intros H. unfold ix0, centre_cell. now destruct (argmin_spec (r_nx g) (fun i => Rabs (r_x g i - centre (r_nx g) (r_x g))) H). Qed.
Lemma cells_in g x y : In (x, y) (cells g) <-> (x < r_nx g)%nat /\ (y < r_ny g)%nat.
Proof. unfold cells. rewrite in_prod_iff, !in_seq. lia. Qed.
Lemma peak_ge g f x y : (x < r_nx g)%nat -> (y < r_ny g)%nat -> Rabs (f_jz f x y) <= peak_j g f.
Proof. intros. unfold peak_j. apply rmax0_in, in_map_iff. exists (x, y). split; [reflexivity|]. now apply cells_in. Qed.
Lemma sheet_in g f i : In i (sheet g f) <-> (i < r_ny g)%nat /\ Rabs (y_sheet g i) <= half_width g f.
Proof. unfold sheet. rewrite filter_In, in_seq, rle_iff. intuition lia. Qed.

(** * The gate *)
Lemma balance_iff a b : 0 <= a -> 0 <= b -> 0 < a + b -> (1 / 4 <= 2 * Rmin a b / (a + b) <-> a <= 7 * b /\ b <= 7 * a).
Proof.
  intros Ha Hb Hs. assert (E : 1 / 4 <= 2 * Rmin a b / (a + b) <-> a + b <= 8 * Rmin a b).
  { split; intros H.
    - apply (Rmult_le_compat_r (a + b)) in H; [|lra]. unfold Rdiv in H at 2. rewrite Rmult_assoc, Rinv_l in H by lra. lra.
    - apply (Rmult_le_reg_r (a + b)); [lra|]. unfold Rdiv at 2. rewrite Rmult_assoc, Rinv_l by lra. lra. }
  rewrite E. unfold Rmin. destruct (Rle_dec a b); lra.
Qed.
Lemma dominance_iff g f : (0 < r_nx g)%nat -> 1 / 4 <= dominance g f <->
  (exists x y, (x < r_nx g)%nat /\ (y < r_ny g)%nat /\ tiny < Rabs (f_jz f x y)) /\
  exists i, (i < r_ny g)%nat /\ Rabs (y_sheet g i) <= half_width g f /\ forall x y, (x < r_nx g)%nat -> (y < r_ny g)%nat -> Rabs (f_jz f x y) <= 4 * Rabs (f_jz f (ix0 g) i).
Proof.
  intros Hn. pose proof tiny_pos as T. unfold dominance. destruct (Rlt_dec tiny (peak_j g f)) as [L|L].
  - assert (E : 1 / 4 <= rmax0 (map (jline g f) (sheet g f)) / peak_j g f <-> peak_j g f <= 4 * rmax0 (map (jline g f) (sheet g f))).
    { set (m := rmax0 _). set (p := peak_j g f) in *. split; intros H.
      - apply (Rmult_le_compat_r p) in H; [|lra]. unfold Rdiv in H at 2. rewrite Rmult_assoc, Rinv_l in H by lra. lra.
      - apply (Rmult_le_reg_r p); [lra|]. unfold Rdiv at 2. rewrite Rmult_assoc, Rinv_l by lra. lra. }
    rewrite E. clear E. split.
    + intros H. split.
      * assert (I := rmax0_att _ (Rlt_trans _ _ _ T L : 0 < rmax0 (map (fun p => Rabs (f_jz f (fst p) (snd p))) (cells g)))). apply in_map_iff in I as ([x y] & E & I). apply cells_in in I. cbn [fst snd] in E. exists x, y. unfold peak_j in L. rewrite E. tauto.
      * assert (P : 0 < rmax0 (map (jline g f) (sheet g f))) by lra. apply rmax0_att, in_map_iff in P as (i & E & I). apply sheet_in in I as [I1 I2]. exists i. split; [exact I1|split; [exact I2|]].
        intros x y Hx Hy. pose proof (peak_ge g f x y Hx Hy). change (Rabs (f_jz f (ix0 g) i)) with (jline g f i). lra.
    + intros [_ (i & I1 & I2 & I3)]. assert (Q : jline g f i <= rmax0 (map (jline g f) (sheet g f))) by (apply rmax0_in, in_map_iff; exists i; split; [reflexivity|]; now apply sheet_in). change (jline g f i) with (Rabs (f_jz f (ix0 g) i)) in Q.
      unfold peak_j. apply rmax0_le; [pose proof (rmax0_ge0 (map (jline g f) (sheet g f))); lra|]. intros a Ha. apply in_map_iff in Ha as ([x y] & <- & I). apply cells_in in I as [Ix Iy]. cbn [fst snd]. specialize (I3 x y Ix Iy). lra.
  - split; [lra|]. intros [(x & y & Hx & Hy & H) _]. exfalso. pose proof (peak_ge g f x y Hx Hy). lra.
Qed.
Lemma sqrt_half a s : 0 <= a -> 0 < s -> (sqrt a / s <= 1 / 2 <-> 16 * a <= (2 * s) ^ 2).
Proof.
  intros Ha Hs. assert (E : sqrt a / s <= 1 / 2 <-> sqrt a <= s / 2).
  { split; intros H.
    - apply (Rmult_le_compat_r s) in H; [|lra]. unfold Rdiv in H at 1. rewrite Rmult_assoc, Rinv_l in H by lra. lra.
    - apply (Rmult_le_reg_r s); [lra|]. unfold Rdiv at 1. rewrite Rmult_assoc, Rinv_l by lra. lra. }
  rewrite E. pose proof (sqrt_sqrt a Ha) as Q. pose proof (sqrt_pos a) as P. split; intros H; [nra|]. destruct (Rle_or_lt (sqrt a) (s / 2)); [assumption|]. nra.
Qed.
Theorem C108_gate : forall g f, (0 < r_nx g)%nat -> both_sides g = true -> (valid g f = true <-> reconnects g f).
Proof.
  intros g f Hn HB. pose proof (lo_spec g f HB) as SL. pose proof (up_spec g f HB) as SU. pose proof tiny_pos as T.
  assert (V : valid g f = true <-> bx_lo g f * bx_up g f < 0 /\ 1 / 4 <= balance g f /\ (tiny < upstream_bx g f /\ sqrt (f_bx f (ix0 g) (iy0 g) ^ 2 + f_by f (ix0 g) (iy0 g) ^ 2) / upstream_bx g f <= 1 / 2) /\ hessian g f < 0 /\ 1 / 4 <= dominance g f).
  { unfold valid, antiparallel, null_ratio. rewrite !andb_true_iff, !rlt_iff, !rle_iff. destruct (Rlt_dec tiny (upstream_bx g f)) as [L|L]; [rewrite rle_iff; tauto|]. split; [intros [[[_ W] _] _]; discriminate|tauto]. }
  rewrite V, dominance_iff by auto. pose proof (Rabs_pos (bx_lo g f)) as A1. pose proof (Rabs_pos (bx_up g f)) as A2.
  assert (N : forall s, 0 < s -> (sqrt (f_bx f (ix0 g) (iy0 g) ^ 2 + f_by f (ix0 g) (iy0 g) ^ 2) / s <= 1 / 2 <-> 16 * (f_bx f (ix0 g) (iy0 g) ^ 2 + f_by f (ix0 g) (iy0 g) ^ 2) <= (2 * s) ^ 2)) by (intros; apply sqrt_half; auto; nra).
  unfold hessian. cbv zeta. split.
  - intros (H1 & H2 & (H3 & H4) & H5 & H6 & H7). exists (lo g f), (up g f). cbv zeta. fold (bx_lo g f) (bx_up g f). assert (U : upstream_bx g f = (Rabs (bx_lo g f) + Rabs (bx_up g f)) / 2) by (unfold upstream_bx; lra).
    unfold balance in H2. destruct Rlt_dec as [L|L]; [|lra]. apply balance_iff in H2; [|auto|auto|lra]. apply N in H4; [|lra]. rewrite U in H3, H4. split; [exact SL|]. split; [exact SU|]. split; [exact H1|]. split; [apply H2|]. split; [apply H2|]. split; [exact H3|].
    split; [replace (2 * ((Rabs (bx_lo g f) + Rabs (bx_up g f)) / 2)) with (Rabs (bx_lo g f) + Rabs (bx_up g f)) in H4 by field; exact H4|].
    split; [lra|]. split; [exact H6|]. destruct H7 as (i & I1 & I2 & I3). exists i. auto.
  - intros (l & u & H). cbv zeta in H. destruct H as (Sl & Su & H1 & H2 & H3 & H4 & H5 & H6 & H7 & i & I1 & I2 & I3).
    pose proof (strongest_unique _ _ _ _ _ Sl SL). pose proof (strongest_unique _ _ _ _ _ Su SU). subst l u. fold (bx_lo g f) (bx_up g f) in *. assert (U : upstream_bx g f = (Rabs (bx_lo g f) + Rabs (bx_up g f)) / 2) by (unfold upstream_bx; lra).
    split; [exact H1|]. split; [unfold balance; destruct Rlt_dec as [L|L]; [apply balance_iff; auto; lra|lra]|]. split.
    { split; [lra|]. apply N; [lra|]. rewrite U. replace (2 * ((Rabs (bx_lo g f) + Rabs (bx_up g f)) / 2)) with (Rabs (bx_lo g f) + Rabs (bx_up g f)) by field. exact H5. }
    split; [lra|]. split; [exact H7|]. exists i. auto.
Qed.
Print Assumptions C108_gate.
