(** Specification and lemmas for the bases of the Hermite-Legendre solver: integrals as differences of antiderivatives. *)
From Coq Require Import Reals Lra Lia ZArith List Bool Psatz.
From Verif Require Import HermitePoisson HPProps HPForceProps Legendre GaussInt HermLeg RSum Pic PicProofs PicFourier Dft.
Local Open Scope R_scope.

(* ------------------------------------------------------------------------------------------------ *)
(** * Integrals *)

(** The integral of f over [a, b], and over the whole line, by an antiderivative. *)
Definition integral (f : R -> R) (a b I : R) : Prop := exists F, (forall x, derivable_pt_lim F x (f x)) /\ F b - F a = I.
Definition limit_at (s : R) (F : R -> R) (L : R) : Prop := forall eps, 0 < eps -> exists X, forall x, X <= x -> Rabs (F (s * x) - L) < eps.
Definition line_integral (f : R -> R) (I : R) : Prop :=
  exists F Lp Lm, (forall x, derivable_pt_lim F x (f x)) /\ limit_at 1 F Lp /\ limit_at (-1) F Lm /\ Lp - Lm = I.

Lemma derive_ext_fun (f g : R -> R) s d : (forall t, f t = g t) -> derivable_pt_lim f s d -> derivable_pt_lim g s d.
Proof. intros E H eps He. destruct (H eps He) as (d0 & Hd). exists d0. intros h A B. rewrite <- !E. apply Hd; assumption. Qed.
Lemma derive_lin2 (F G : R -> R) c d x f g : derivable_pt_lim F x f -> derivable_pt_lim G x g -> derivable_pt_lim (fun y => c * F y + d * G y) x (c * f + d * g).
Proof.
  intros A B. apply (derivable_pt_lim_plus (fun y => c * F y) (fun y => d * G y)).
  - apply (derivable_pt_lim_scal F c x f A).
  - apply (derivable_pt_lim_scal G d x g B).
Qed.
Lemma same_deriv (F G : R -> R) (f : R -> R) : (forall x, derivable_pt_lim F x (f x)) -> (forall x, derivable_pt_lim G x (f x)) ->
  forall x, F x - G x = F 0 - G 0.
Proof.
  intros HF HG. apply (const_of_deriv0 (fun y => F y - G y)). intros t. replace 0 with (f t - f t) by ring.
  apply (derivable_pt_lim_minus F G t (f t) (f t)); auto.
Qed.
Lemma integral_unique f a b I J : integral f a b I -> integral f a b J -> I = J.
Proof. intros (F & HF & <-) (G & HG & <-). pose proof (same_deriv F G f HF HG a). pose proof (same_deriv F G f HF HG b). lra. Qed.
Lemma limit_unique s F G L M k : (forall x, F x - G x = k) -> limit_at s F L -> limit_at s G M -> L - M = k.
Proof.
  intros E HF HG. destruct (Req_dec (L - M) k) as [Q|Q]; [exact Q|]. exfalso.
  assert (P : 0 < Rabs (L - M - k) / 2) by (assert (0 < Rabs (L - M - k)) by (apply Rabs_pos_lt; lra); lra).
  destruct (HF _ P) as (X & HX). destruct (HG _ P) as (Y & HY).
  pose proof (HX (Rmax X Y) (Rmax_l _ _)) as A. pose proof (HY (Rmax X Y) (Rmax_r _ _)) as B. pose proof (E (s * Rmax X Y)) as C.
  generalize dependent (F (s * Rmax X Y)). generalize dependent (G (s * Rmax X Y)). intros g B f A C.
  replace (L - M - k) with ((g - M) - (f - L)) in A, B, P by lra.
  pose proof (Rabs_triang (g - M) (- (f - L))) as T. rewrite Rabs_Ropp in T. unfold Rminus in *. lra.
Qed.
Lemma line_unique f I J : line_integral f I -> line_integral f J -> I = J.
Proof.
  intros (F & A & B & HF & HA & HB & <-) (G & A' & B' & HG & HA' & HB' & <-). pose proof (same_deriv F G f HF HG) as E.
  pose proof (limit_unique 1 F G A A' _ E HA HA'). pose proof (limit_unique (-1) F G B B' _ E HB HB'). lra.
Qed.
Lemma integral_lin f g a b I J c d : integral f a b I -> integral g a b J -> integral (fun x => c * f x + d * g x) a b (c * I + d * J).
Proof.
  intros (F & HF & <-) (G & HG & <-). exists (fun x => c * F x + d * G x). split; [|ring]. intros x. apply derive_lin2; auto.
Qed.
Lemma limit_lin s F G L M c d : limit_at s F L -> limit_at s G M -> limit_at s (fun x => c * F x + d * G x) (c * L + d * M).
Proof.
  intros HF HG eps He. assert (P : 0 < 1 + Rabs c + Rabs d) by (pose proof (Rabs_pos c); pose proof (Rabs_pos d); lra).
  destruct (HF (eps / (1 + Rabs c + Rabs d))) as (X & HX); [apply Rdiv_lt_0_compat; lra|].
  destruct (HG (eps / (1 + Rabs c + Rabs d))) as (Y & HY); [apply Rdiv_lt_0_compat; lra|].
  exists (Rmax X Y). intros x Hx. pose proof (HX x (Rle_trans _ _ _ (Rmax_l _ _) Hx)) as A. pose proof (HY x (Rle_trans _ _ _ (Rmax_r _ _) Hx)) as B.
  replace (c * F (s * x) + d * G (s * x) - (c * L + d * M)) with (c * (F (s * x) - L) + d * (G (s * x) - M)) by ring.
  apply Rle_lt_trans with (Rabs (c * (F (s * x) - L)) + Rabs (d * (G (s * x) - M))); [apply Rabs_triang|]. rewrite !Rabs_mult.
  pose proof (Rabs_pos c) as Pc. pose proof (Rabs_pos d) as Pd. set (q := eps / (1 + Rabs c + Rabs d)) in *.
  assert (Q : q * (1 + Rabs c + Rabs d) = eps) by (unfold q; field; lra). assert (0 < q) by (unfold q; apply Rdiv_lt_0_compat; lra).
  apply Rle_lt_trans with (Rabs c * q + Rabs d * q); [|nra].
  apply Rplus_le_compat; apply Rmult_le_compat_l; lra.
Qed.
Lemma line_lin f g I J c d : line_integral f I -> line_integral g J -> line_integral (fun x => c * f x + d * g x) (c * I + d * J).
Proof.
  intros (F & A & B & HF & HA & HB & <-) (G & A' & B' & HG & HA' & HB' & <-).
  exists (fun x => c * F x + d * G x), (c * A + d * A'), (c * B + d * B'). repeat split.
  - intros x. apply derive_lin2; auto. - apply limit_lin; assumption. - apply limit_lin; assumption. - ring.
Qed.
Lemma integral_ext f g a b I J : (forall x, f x = g x) -> I = J -> integral f a b I -> integral g a b J.
Proof. intros E <- (F & HF & H). exists F. split; [|exact H]. intros x. rewrite <- E. apply HF. Qed.
Lemma line_ext f g I J : (forall x, f x = g x) -> I = J -> line_integral f I -> line_integral g J.
Proof. intros E <- (F & A & B & HF & H). exists F, A, B. split; [|exact H]. intros x. rewrite <- E. apply HF. Qed.
Lemma integral_zero a b : integral (fun _ => 0) a b 0.
Proof. exists (fun _ => 0). split; [intros x; apply derivable_pt_lim_const|ring]. Qed.
Lemma line_zero : line_integral (fun _ => 0) 0.
Proof.
  exists (fun _ => 0), 0, 0. repeat split; try (intros x; apply derivable_pt_lim_const); try ring;
  intros eps He; exists 0; intros x _; replace (0 - 0) with 0 by ring; rewrite Rabs_R0; exact He.
Qed.
Lemma integral_rsum n (f : nat -> R -> R) a b (I : nat -> R) (c : nat -> R) : (forall i, (i < n)%nat -> integral (f i) a b (I i)) ->
  integral (fun x => rsum n (fun i => c i * f i x)) a b (rsum n (fun i => c i * I i)).
Proof.
  induction n as [|n IH]; intros H; cbn [rsum]; [apply integral_zero|].
  apply (integral_ext (fun x => 1 * rsum n (fun i => c i * f i x) + c n * f n x) _ a b (1 * rsum n (fun i => c i * I i) + c n * I n)); try (intros; ring).
  apply integral_lin; [apply IH; intros i Hi; apply H; lia|apply H; lia].
Qed.
Lemma line_rsum n (f : nat -> R -> R) (I : nat -> R) (c : nat -> R) : (forall i, (i < n)%nat -> line_integral (f i) (I i)) ->
  line_integral (fun x => rsum n (fun i => c i * f i x)) (rsum n (fun i => c i * I i)).
Proof.
  induction n as [|n IH]; intros H; cbn [rsum]; [apply line_zero|].
  apply (line_ext (fun x => 1 * rsum n (fun i => c i * f i x) + c n * f n x) _ (1 * rsum n (fun i => c i * I i) + c n * I n)); try (intros; ring).
  apply line_lin; [apply IH; intros i Hi; apply H; lia|apply H; lia].
Qed.
(** Affine change of variable. *)
Lemma integral_affine f a b I p q : p <> 0 -> integral f (p * a + q) (p * b + q) I -> integral (fun x => f (p * x + q)) a b (I / p).
Proof.
  intros Hp (F & HF & <-). exists (fun x => / p * F (p * x + q)). split.
  - intros x. replace (f (p * x + q)) with (/ p * (f (p * x + q) * p)) by (field; exact Hp).
    apply (derivable_pt_lim_scal (fun y => F (p * y + q)) (/ p) x (f (p * x + q) * p)).
    apply (derivable_pt_lim_comp (fun y => p * y + q) F x p (f (p * x + q))); [|apply HF].
    assert (Z : derivable_pt_lim (fun y => p * y + q) x (p * 1 + 0)).
    { apply (derivable_pt_lim_plus (fun y => p * y) (fun _ => q)); [|apply derivable_pt_lim_const].
      apply (derivable_pt_lim_scal (fun y => y) p x 1). apply derivable_pt_lim_id. }
    replace (p * 1 + 0) with p in Z by ring. exact Z.
  - field. exact Hp.
Qed.

(* ------------------------------------------------------------------------------------------------ *)
(** * Legendre basis *)
Lemma leg_pair_legd s k : leg_pair s k = (legd s k 0, legd s (S k) 0).
Proof.
  induction k as [|k IH]; [reflexivity|]. cbn [leg_pair]. rewrite IH. cbn [fst snd]. f_equal.
  pose proof (legd_bonnet s k) as B. rewrite S_INR. pose proof (pos_INR k). apply Rmult_eq_reg_l with (INR k + 2); [|lra]. rewrite B. field. lra.
Qed.
Lemma lbasis_legd va vb m v : lbasis va vb m v = sqrt (2 * INR m + 1) * legd ((2 * v - (va + vb)) / (vb - va)) m 0.
Proof. unfold lbasis. rewrite leg_pair_legd. reflexivity. Qed.
Lemma legd_at_1 l : legd 1 l 0 = 1 /\ legd 1 (S l) 0 = 1.
Proof.
  induction l as [|l [A B]]; [split; reflexivity|]. split; [exact B|]. pose proof (legd_bonnet 1 l) as E. rewrite A, B in E. pose proof (pos_INR l).
  apply Rmult_eq_reg_l with (INR l + 2); [|lra]. lra.
Qed.
Lemma legd_at_m1 l : legd (-1) l 0 = (-1) ^ l /\ legd (-1) (S l) 0 = (-1) ^ (S l).
Proof.
  induction l as [|l [A B]]; [split; [reflexivity|cbn; ring]|]. split; [exact B|]. pose proof (legd_bonnet (-1) l) as E. rewrite A, B in E. pose proof (pos_INR l).
  apply Rmult_eq_reg_l with (INR l + 2); [|lra]. rewrite E. cbn [pow]. ring.
Qed.
Lemma odd_sqrt_pos m : 0 < sqrt (2 * INR m + 1). Proof. apply sqrt_lt_R0. pose proof (pos_INR m). lra. Qed.
Lemma odd_sqrt_sq m : sqrt (2 * INR m + 1) * sqrt (2 * INR m + 1) = 2 * INR m + 1. Proof. apply sqrt_sqrt. pose proof (pos_INR m). lra. Qed.
Lemma lsigma_S va vb m : lsigma va vb (S m) = (vb - va) / 2 * (INR m + 1) / (sqrt (2 * INR (S m) + 1) * sqrt (2 * INR m + 1)).
Proof.
  unfold lsigma. change (S m =? 0)%nat with false. cbv iota. pose proof (pos_INR m). rewrite !S_INR. rewrite sqrt_mult by lra.
  replace (2 * (INR m + 1) - 1) with (2 * INR m + 1) by ring. reflexivity.
Qed.
(** s P_m, with s the scaled velocity. *)
Lemma lbasis_s_0 va vb v : va < vb -> let s := (2 * v - (va + vb)) / (vb - va) in (vb - va) / 2 * (s * lbasis va vb 0 v) = lsigma va vb 1 * lbasis va vb 1 v.
Proof.
  intros H s. rewrite !lbasis_legd. fold s. rewrite lsigma_S. rewrite legd_0, legd_1. cbv [Nat.eqb]. change (INR 0) with 0. change (INR 1) with 1.
  replace (2 * 0 + 1) with 1 by ring. rewrite sqrt_1. assert (0 < sqrt (2 * 1 + 1)) by (apply sqrt_lt_R0; lra). field. lra.
Qed.
Lemma lbasis_s_S va vb m v : va < vb -> let s := (2 * v - (va + vb)) / (vb - va) in
  (vb - va) / 2 * (s * lbasis va vb (S m) v) = lsigma va vb (S (S m)) * lbasis va vb (S (S m)) v + lsigma va vb (S m) * lbasis va vb m v.
Proof.
  intros H s. rewrite !lbasis_legd. fold s. rewrite !lsigma_S.
  pose proof (leg_x s (S m) 0) as E. cbn [legp] in E. change (INR 0) with 0 in E.
  pose proof (odd_sqrt_pos m) as P0. pose proof (odd_sqrt_pos (S m)) as P1. pose proof (odd_sqrt_pos (S (S m))) as P2. pose proof (odd_sqrt_sq (S m)) as Q1.
  set (a := sqrt (2 * INR m + 1)) in *. set (b := sqrt (2 * INR (S m) + 1)) in *. set (c := sqrt (2 * INR (S (S m)) + 1)) in *.
  generalize dependent (legd s (S m) 0). intros L1. generalize dependent (legd s (S (S m)) 0). intros L2. generalize dependent (legd s m 0). intros L0 E.
  assert (F : s * L1 = ((INR (S m) - 0 + 1) * L2 + (INR (S m) + 0) * L0) / (b * b)) by (rewrite Q1, <- E; field; rewrite <- Q1; nra).
  replace (s * (b * L1)) with (b * (s * L1)) by ring. rewrite F. rewrite !S_INR. field. lra.
Qed.
Lemma v_of_s va vb v : va < vb -> v = (vb - va) / 2 * ((2 * v - (va + vb)) / (vb - va)) + lsigma_bar va vb.
Proof. intros H. unfold lsigma_bar. field. lra. Qed.
Lemma rsum_zero_ext n f : (forall i, (i < n)%nat -> f i = 0) -> rsum n f = 0.
Proof. intros H. rewrite (rsum_ext n f (fun _ => 0) H). apply rsum_zero. Qed.
Lemma rsum_tri3 n p q r (f : nat -> R) : (p < n)%nat -> (q < n)%nat -> (r < n)%nat -> p <> q -> p <> r -> q <> r ->
  (forall i, (i < n)%nat -> i <> p -> i <> q -> i <> r -> f i = 0) -> rsum n f = f p + f q + f r.
Proof.
  intros Hp Hq Hr A B C H.
  rewrite (rsum_ext n f (fun i => (if (i =? p)%nat then f p else 0) + (if (i =? q)%nat then f q else 0) + (if (i =? r)%nat then f r else 0))).
  - rewrite !rsum_plus. f_equal; [f_equal|].
    + rewrite (rsum_single n p); [now rewrite Nat.eqb_refl|exact Hp|]. intros i _ N. destruct (Nat.eqb_spec i p); [congruence|reflexivity].
    + rewrite (rsum_single n q); [now rewrite Nat.eqb_refl|exact Hq|]. intros i _ N. destruct (Nat.eqb_spec i q); [congruence|reflexivity].
    + rewrite (rsum_single n r); [now rewrite Nat.eqb_refl|exact Hr|]. intros i _ N. destruct (Nat.eqb_spec i r); [congruence|reflexivity].
  - intros i Hi. destruct (Nat.eqb_spec i p) as [->|N1].
    { destruct (Nat.eqb_spec p q); [congruence|]. destruct (Nat.eqb_spec p r); [congruence|]. ring. }
    destruct (Nat.eqb_spec i q) as [->|N2]. { destruct (Nat.eqb_spec q r); [congruence|]. ring. }
    destruct (Nat.eqb_spec i r) as [->|N3]; [ring|]. rewrite (H i Hi N1 N2 N3). ring.
Qed.
Lemma lT_row va vb N m (x : nat -> R) : (S m < N)%nat ->
  rsum N (fun n => lT va vb m n * x n) = lsigma_bar va vb * x m + lsigma va vb (S m) * x (S m) + match m with O => 0 | S j => lsigma va vb m * x j end.
Proof.
  intros H. destruct m as [|j].
  - rewrite (rsum_two N 0 1) by (first [lia | intros i Hi A B; unfold lT; destruct i as [|[|i]]; [lia|lia|]; cbn [Nat.eqb]; ring]).
    unfold lT. cbn [Nat.eqb]. ring.
  - rewrite (rsum_tri3 N j (S j) (S (S j))) by (first [lia | intros i Hi A B C; unfold lT;
      destruct (Nat.eqb_spec (S j) i); [lia|]; destruct (Nat.eqb_spec i (S (S j))); [lia|]; destruct (Nat.eqb_spec (S j) (S i)); [lia|]; ring]).
    unfold lT. rewrite Nat.eqb_refl. destruct (Nat.eqb_spec (S j) j); [lia|]. destruct (Nat.eqb_spec j (S (S j))); [lia|].
    destruct (Nat.eqb_spec (S j) (S j)); [|lia]. destruct (Nat.eqb_spec (S j) (S (S j))); [lia|]. destruct (Nat.eqb_spec (S (S j)) (S (S j))); [|lia].
    destruct (Nat.eqb_spec (S j) (S (S (S j)))); [lia|]. ring.
Qed.
Lemma lbasis_velocity va vb N m v : va < vb -> (S m < N)%nat -> v * lbasis va vb m v = rsum N (fun n => lT va vb m n * lbasis va vb n v).
Proof.
  intros H HN. rewrite (lT_row va vb N m (fun n => lbasis va vb n v) HN). rewrite (v_of_s va vb v H) at 1.
  set (s := (2 * v - (va + vb)) / (vb - va)). destruct m as [|j].
  - pose proof (lbasis_s_0 va vb v H) as E. cbv zeta in E. fold s in E. lra.
  - pose proof (lbasis_s_S va vb j v H) as E. cbv zeta in E. fold s in E. lra.
Qed.

(** P_m' = sum of (2i+1) P_i over i < m with m - i odd. *)
Definition oddlow (m i : nat) : bool := ((i <? m) && ((m - i) mod 2 =? 1))%nat%bool.
Lemma legd_deriv_sum s m : legd s m 1 = rsum m (fun i => if oddlow m i then (2 * INR i + 1) * legd s i 0 else 0) /\
  legd s (S m) 1 = rsum (S m) (fun i => if oddlow (S m) i then (2 * INR i + 1) * legd s i 0 else 0).
Proof.
  induction m as [|m [A B]].
  - split; [reflexivity|]. cbn. ring.
  - split; [exact B|]. pose proof (legd_C s m 0%nat) as C. replace (legd s (S (S m)) 1) with (legd s m 1 + (2 * INR m + 3) * legd s (S m) 0) by lra.
    rewrite A. cbn [rsum]. assert (O1 : oddlow (S (S m)) (S m) = true).
    { unfold oddlow. replace (S (S m) - S m)%nat with 1%nat by lia. rewrite (proj2 (Nat.ltb_lt (S m) (S (S m)))) by lia. reflexivity. }
    assert (O2 : oddlow (S (S m)) m = false).
    { unfold oddlow. replace (S (S m) - m)%nat with 2%nat by lia. rewrite andb_comm. reflexivity. }
    rewrite O1, O2. rewrite (rsum_ext m _ (fun i => if oddlow (S (S m)) i then (2 * INR i + 1) * legd s i 0 else 0)).
    + rewrite S_INR. ring.
    + intros i Hi. assert (O : oddlow m i = oddlow (S (S m)) i); [|rewrite O; reflexivity].
      unfold oddlow. rewrite (proj2 (Nat.ltb_lt i m)) by lia. rewrite (proj2 (Nat.ltb_lt i (S (S m)))) by lia. cbn [andb].
      replace (S (S m) - i)%nat with ((m - i) + 1 * 2)%nat by lia. rewrite Nat.mod_add by lia. reflexivity.
Qed.
Lemma lbasis_deriv va vb N m v : va < vb -> (m <= N)%nat -> derivable_pt_lim (lbasis va vb m) v (rsum N (fun i => lderiv va vb m i * lbasis va vb i v)).
Proof.
  intros H HN. set (s := (2 * v - (va + vb)) / (vb - va)).
  assert (D : derivable_pt_lim (fun y => sqrt (2 * INR m + 1) * legd ((2 * y - (va + vb)) / (vb - va)) m 0) v (sqrt (2 * INR m + 1) * (legd s m 1 * (2 / (vb - va))))).
  { apply (derivable_pt_lim_scal (fun y => legd ((2 * y - (va + vb)) / (vb - va)) m 0) (sqrt (2 * INR m + 1)) v (legd s m 1 * (2 / (vb - va)))).
    apply (derivable_pt_lim_comp (fun y => (2 * y - (va + vb)) / (vb - va)) (fun x => legd x m 0) v (2 / (vb - va)) (legd s m 1)); [|apply legd_deriv].
    apply (derive_ext_fun (fun y => 2 / (vb - va) * y + - (va + vb) / (vb - va) * 1)); [intros t; field; lra|].
    pose proof (derive_lin2 (fun y => y) (fun _ => 1) (2 / (vb - va)) (- (va + vb) / (vb - va)) v 1 0 (derivable_pt_lim_id v) (derivable_pt_lim_const 1 v)) as Z.
    replace (2 / (vb - va) * 1 + - (va + vb) / (vb - va) * 0) with (2 / (vb - va)) in Z by ring. exact Z. }
  assert (E : rsum N (fun i => lderiv va vb m i * lbasis va vb i v) = sqrt (2 * INR m + 1) * (legd s m 1 * (2 / (vb - va)))).
  { rewrite (proj1 (legd_deriv_sum s m)).
    rewrite (rsum_ext N _ (fun i => if oddlow m i then sqrt (2 * INR m + 1) * (2 / (vb - va)) * ((2 * INR i + 1) * legd s i 0) else 0)).
    - assert (G : forall k, (m <= k)%nat -> rsum k (fun i => if oddlow m i then sqrt (2 * INR m + 1) * (2 / (vb - va)) * ((2 * INR i + 1) * legd s i 0) else 0)
        = rsum m (fun i => if oddlow m i then sqrt (2 * INR m + 1) * (2 / (vb - va)) * ((2 * INR i + 1) * legd s i 0) else 0)).
      { intros k Hk. induction Hk as [|k Hk IH]; [reflexivity|]. cbn [rsum]. rewrite IH. assert (O : oddlow m k = false).
        { unfold oddlow. rewrite (proj2 (Nat.ltb_ge k m)) by lia. reflexivity. } rewrite O. ring. }
      rewrite (G N HN). rewrite (rsum_ext m _ (fun i => sqrt (2 * INR m + 1) * (2 / (vb - va)) * (if oddlow m i then (2 * INR i + 1) * legd s i 0 else 0))).
      + rewrite rsum_scal. ring.
      + intros i _. destruct (oddlow m i); ring.
    - intros i Hi. unfold lderiv. fold (oddlow m i). destruct (oddlow m i); [|ring]. rewrite lbasis_legd. fold s.
      rewrite sqrt_mult by (pose proof (pos_INR m); pose proof (pos_INR i); lra). pose proof (odd_sqrt_sq i) as Q. generalize dependent (sqrt (2 * INR i + 1)). intros q Q. rewrite <- Q. field. lra. }
  rewrite E. apply (derive_ext_fun _ (lbasis va vb m) v _ (fun t => eq_sym (lbasis_legd va vb m t)) D).
Qed.
Lemma s_at_b va vb : va < vb -> (2 * vb - (va + vb)) / (vb - va) = 1. Proof. intros H. field. lra. Qed.
Lemma s_at_a va vb : va < vb -> (2 * va - (va + vb)) / (vb - va) = -1. Proof. intros H. field. lra. Qed.

(** Orthogonality. *)
Lemma legd_orth m n : integral (fun x => legd x m 0 * legd x n 0) (-1) 1 (if (m =? n)%nat then 2 / (2 * INR m + 1) else 0).
Proof.
  assert (NE : forall m n, m <> n -> integral (fun x => legd x m 0 * legd x n 0) (-1) 1 0).
  { clear m n. intros m n H. pose (k := (INR m * (INR m + 1) - INR n * (INR n + 1))).
    assert (Hk : k <> 0). { unfold k. intro E. apply H. apply INR_eq. pose proof (pos_INR m). pose proof (pos_INR n). nra. }
    exists (fun x => / k * ((1 - x * x) * (legd x m 0 * legd x n 1 - legd x m 1 * legd x n 0))). split; [|ring].
    intros x. pose proof (leg_ode x m 0) as Om. pose proof (leg_ode x n 0) as On. change (INR 0) with 0 in Om, On.
    replace (legd x m 0 * legd x n 0) with (/ k * ((- (2 * x)) * (legd x m 0 * legd x n 1 - legd x m 1 * legd x n 0) +
      (1 - x * x) * ((legd x m 1 * legd x n 1 + legd x m 0 * legd x n 2) - (legd x m 2 * legd x n 0 + legd x m 1 * legd x n 1)))).
    - apply (derivable_pt_lim_scal (fun x => (1 - x * x) * (legd x m 0 * legd x n 1 - legd x m 1 * legd x n 0)) (/ k) x).
      apply (derivable_pt_lim_mult (fun x => 1 - x * x) (fun x => legd x m 0 * legd x n 1 - legd x m 1 * legd x n 0) x).
      + replace (- (2 * x)) with (0 - (1 * x + x * 1)) by ring. apply (derivable_pt_lim_minus (fun _ => 1) (fun x => x * x) x); [apply derivable_pt_lim_const|].
        apply (derivable_pt_lim_mult (fun x => x) (fun x => x) x); apply derivable_pt_lim_id.
      + apply (derivable_pt_lim_minus (fun x => legd x m 0 * legd x n 1) (fun x => legd x m 1 * legd x n 0) x).
        * apply (derivable_pt_lim_mult (fun x => legd x m 0) (fun x => legd x n 1) x); apply legd_deriv.
        * apply (derivable_pt_lim_mult (fun x => legd x m 1) (fun x => legd x n 0) x); apply legd_deriv.
    - apply Rmult_eq_reg_l with k; [|exact Hk]. rewrite <- Rmult_assoc, Rinv_r, Rmult_1_l by exact Hk. unfold k.
      
      transitivity (- (2 * x) * (legd x m 0 * legd x n 1 - legd x m 1 * legd x n 0) + (legd x m 0 * ((1 - x * x) * legd x n 2) - legd x n 0 * ((1 - x * x) * legd x m 2))); [ring|].
      replace ((1 - x * x) * legd x n 2) with (2 * (x * legd x n 1) - (INR n + 1) * INR n * legd x n 0) by lra.
      replace ((1 - x * x) * legd x m 2) with (2 * (x * legd x m 1) - (INR m + 1) * INR m * legd x m 0) by lra. ring. }
  destruct (Nat.eqb_spec m n) as [<-|H]; [|apply NE; exact H].
  induction m as [|m IH].
  - apply (integral_ext (fun _ => 1) _ (-1) 1 2); [intros x; rewrite legd_0; cbn; ring|change (INR 0) with 0; field|].
    exists (fun x => x). split; [intros x; apply derivable_pt_lim_id|ring].
  - pose proof (pos_INR m) as P.
    pose proof (integral_lin _ _ _ _ _ _ ((2 * INR m + 1) / ((INR m + 1) * (2 * INR m + 3)) * (INR m + 2)) ((2 * INR m + 1) / (2 * INR m + 3)) (NE (S (S m)) m ltac:(lia)) IH) as A.
    assert (Z : integral (fun x => legp x m 0 * legd x (S m) 0) (-1) 1 0).
    { destruct m as [|j]; cbn [legp]; [|apply NE; lia]. apply (integral_ext (fun _ => 0) _ _ _ 0); [intros; ring|reflexivity|apply integral_zero]. }
    pose proof (integral_lin _ _ _ _ _ _ 1 (- (INR m / (INR m + 1))) A Z) as B.
    eapply integral_ext; [| |exact B].
    + intros x. cbv beta. pose proof (leg_x x m 0) as E1. pose proof (leg_x x (S m) 0) as E2. cbn [legp] in E2. change (INR 0) with 0 in E1, E2. rewrite S_INR in E2.
      generalize dependent (legd x (S (S m)) 0). intros p2 E2. generalize dependent (legd x (S m) 0). intros p1 E1 E2.
      generalize dependent (legp x m 0). intros pm E1. generalize dependent (legd x m 0). intros p0 E1 E2.
      assert (F1 : p1 = ((2 * INR m + 1) * (x * p0) - INR m * pm) / (INR m + 1)) by (apply Rmult_eq_reg_l with (INR m + 1); [field_simplify; [lra|lra]|lra]).
      assert (F2 : x * p1 = ((INR m + 2) * p2 + (INR m + 1) * p0) / (2 * INR m + 3)) by (apply Rmult_eq_reg_l with (2 * INR m + 3); [field_simplify; [lra|lra]|lra]).
      assert (G : p1 * p1 = (2 * INR m + 1) / (INR m + 1) * p0 * (x * p1) - INR m / (INR m + 1) * (pm * p1)).
      { transitivity (((2 * INR m + 1) * (x * p0) - INR m * pm) / (INR m + 1) * p1); [rewrite <- F1; reflexivity|]. field. lra. }
      rewrite G.
      rewrite F2. field. lra.
    + rewrite S_INR. field. lra.
Qed.
Lemma lbasis_orth va vb m n : va < vb -> integral (fun v => lbasis va vb m v * lbasis va vb n v) va vb (if (m =? n)%nat then vb - va else 0).
Proof.
  intros H. pose (p := 2 / (vb - va)). pose (q := - (va + vb) / (vb - va)). assert (Hp : p <> 0). { unfold p. apply Rgt_not_eq, Rdiv_lt_0_compat; lra. }
  pose proof (integral_affine (fun x => legd x m 0 * legd x n 0) va vb (if (m =? n)%nat then 2 / (2 * INR m + 1) else 0) p q Hp) as A.
  replace (p * va + q) with (-1) in A by (unfold p, q; field; lra). replace (p * vb + q) with 1 in A by (unfold p, q; field; lra).
  specialize (A (legd_orth m n)).
  pose proof (integral_lin _ _ _ _ _ _ (sqrt (2 * INR m + 1) * sqrt (2 * INR n + 1)) 0 A (integral_zero va vb)) as B.
  eapply integral_ext; [| |exact B].
  - intros v. cbv beta. rewrite !lbasis_legd. replace ((2 * v - (va + vb)) / (vb - va)) with (p * v + q) by (unfold p, q; field; lra). ring.
  - destruct (Nat.eqb_spec m n) as [<-|N]; [|unfold Rdiv; ring]. rewrite (odd_sqrt_sq m). unfold p. pose proof (pos_INR m). field. lra.
Qed.

(* ------------------------------------------------------------------------------------------------ *)
(** * Hermite functions *)
Lemma hnorm_up n z : hnorm (S (S n)) z = z * sqrt (2 / (INR (S n) + 1)) * hnorm (S n) z - sqrt (INR (S n) / (INR (S n) + 1)) * hnorm n z.
Proof.
  pose proof (hnorm_mult n z) as E. pose proof (pos_INR n) as P. pose proof (SINR n) as P1.
  assert (A : 0 < (INR (S n) + 1) / 2) by lra. pose proof (sqrt_lt_R0 _ A) as SA. pose proof (sqrt_sqrt _ (Rlt_le _ _ A)) as QA.
  assert (B : sqrt (2 / (INR (S n) + 1)) = / sqrt ((INR (S n) + 1) / 2)).
  { rewrite <- sqrt_inv. f_equal. field. lra. }
  assert (D : sqrt (INR (S n) / (INR (S n) + 1)) = sqrt ((INR n + 1) / 2) / sqrt ((INR (S n) + 1) / 2)).
  { rewrite <- sqrt_div by lra. f_equal. rewrite S_INR. field. lra. }
  rewrite B, D. apply Rmult_eq_reg_l with (sqrt ((INR (S n) + 1) / 2)); [|lra].
  transitivity (z * hnorm (S n) z - sqrt ((INR n + 1) / 2) * hnorm n z); [lra|]. field. lra.
Qed.
Lemma hnorm_0 z : hnorm 0 z = 1. Proof. unfold hnorm. rewrite hermite_0. cbn [pow fact]. change (INR 1) with 1. rewrite Rmult_1_l, sqrt_1. field. Qed.
Lemma hnorm_1 z : hnorm 1 z = sqrt 2 * z.
Proof.
  unfold hnorm. rewrite hermite_1. replace (2 ^ 1 * INR (fact 1)) with 2 by (cbn; ring). assert (0 < sqrt 2) by (apply sqrt_lt_R0; lra).
  pose proof (sqrt_sqrt 2 ltac:(lra)) as Q. apply Rmult_eq_reg_l with (sqrt 2); [|lra]. transitivity (2 * z); [field; lra|]. rewrite <- Rmult_assoc, Q. reflexivity.
Qed.
Lemma psi_pair_eq z n : psi_pair z n = (hnorm n z * (/ sqrt PI * exp (- z ^ 2)), hnorm (S n) z * (/ sqrt PI * exp (- z ^ 2))).
Proof.
  induction n as [|n IH]; [cbn [psi_pair]; rewrite hnorm_0, hnorm_1; f_equal; ring|].
  cbn [psi_pair]. rewrite IH. cbn [fst snd]. f_equal. rewrite hnorm_up. ring.
Qed.
Lemma psi_eq alpha u n v : psi alpha u n v = hnorm n ((v - u) / alpha) * (/ sqrt PI * exp (- ((v - u) / alpha) ^ 2)).
Proof. unfold psi. rewrite psi_pair_eq. reflexivity. Qed.
(** v psi_n = alpha (T_H psi)_n without truncation. *)
Lemma psi_velocity alpha u n v : 0 < alpha -> v * psi alpha u n v =
  alpha * (sqrt ((INR n + 1) / 2) * psi alpha u (S n) v + match n with O => 0 | S m => sqrt ((INR m + 1) / 2) * psi alpha u m v end + u / alpha * psi alpha u n v).
Proof.
  intros Ha. assert (Ev : v = alpha * ((v - u) / alpha) + u) by (field; lra).
  destruct n as [|m]; rewrite !psi_eq; set (z := (v - u) / alpha) in *; set (e := / sqrt PI * exp (- z ^ 2)); rewrite Ev.
  - pose proof (hnorm_0_mult z) as E. replace ((alpha * z + u) * (hnorm 0 z * e)) with (alpha * e * (z * hnorm 0 z) + u * (hnorm 0 z * e)) by ring. rewrite E. field. lra.
  - pose proof (hnorm_mult m z) as E.
    replace ((alpha * z + u) * (hnorm (S m) z * e)) with (alpha * e * (z * hnorm (S m) z) + u * (hnorm (S m) z * e)) by ring. rewrite E. field. lra.
Qed.
Lemma sqrt_2_half n : sqrt 2 * sqrt (INR (S n)) = 2 * sqrt ((INR n + 1) / 2).
Proof. rewrite half_sqrt. rewrite <- sqrt_mult by (try lra; pose proof (pos_INR (S n)); lra). field. Qed.
Lemma psi_deriv alpha u n v : 0 < alpha -> derivable_pt_lim (psi alpha u n) v (- (sqrt (2 * INR (S n)) / alpha) * psi alpha u (S n) v).
Proof.
  intros Ha. set (z := (v - u) / alpha).
  assert (Dz : derivable_pt_lim (fun y => (y - u) / alpha) v (/ alpha)).
  { apply (derive_ext_fun (fun y => / alpha * y + - u / alpha * 1)); [intros t; field; lra|].
    pose proof (derive_lin2 (fun y => y) (fun _ => 1) (/ alpha) (- u / alpha) v 1 0 (derivable_pt_lim_id v) (derivable_pt_lim_const 1 v)) as Z.
    replace (/ alpha * 1 + - u / alpha * 0) with (/ alpha) in Z by ring. exact Z. }
  assert (De : derivable_pt_lim (fun x => / sqrt PI * exp (- x ^ 2)) z (/ sqrt PI * (exp (- z ^ 2) * (- (2 * z))))).
  { apply (derivable_pt_lim_scal (fun x => exp (- x ^ 2)) (/ sqrt PI) z). apply (derivable_pt_lim_comp (fun x => - x ^ 2) exp z (- (2 * z)) (exp (- z ^ 2))); [|apply derivable_pt_lim_exp].
    apply (derivable_pt_lim_opp (fun x => x ^ 2) z (2 * z)). replace (2 * z) with (INR 2 * z ^ pred 2) by (cbn; ring). apply derivable_pt_lim_pow. }
  pose proof (derivable_pt_lim_mult (hnorm n) (fun x => / sqrt PI * exp (- x ^ 2)) z _ _ (hnorm_deriv n z) De) as Dm.
  pose proof (derivable_pt_lim_comp (fun y => (y - u) / alpha) (fun x => hnorm n x * (/ sqrt PI * exp (- x ^ 2))) v _ _ Dz Dm) as D.
  rewrite psi_eq. fold z. unfold comp, mult_fct in D. cbv beta in D.
  match type of D with derivable_pt_lim _ _ ?d => replace (- (sqrt (2 * INR (S n)) / alpha) * (hnorm (S n) z * (/ sqrt PI * exp (- z ^ 2)))) with d end.
  - apply (derive_ext_fun (fun x => hnorm n ((x - u) / alpha) * (/ sqrt PI * exp (- ((x - u) / alpha) ^ 2)))); [intros t; symmetry; apply psi_eq|exact D].
  - rewrite (sqrt_mult 2 (INR (S n))) by (try lra; pose proof (pos_INR (S n)); lra). rewrite sqrt_2_half. destruct n as [|m].
    + pose proof (hnorm_0_mult z) as E. change (INR 0) with 0 in *. set (k := sqrt ((0 + 1) / 2)) in *.
      transitivity (- (2 * (z * hnorm 0 z)) * (/ sqrt PI * exp (- z ^ 2)) / alpha); [field; split; [apply Rgt_not_eq, sqrt_lt_R0, PI_RGT_0|lra]|]. rewrite E. field. split; [apply Rgt_not_eq, sqrt_lt_R0, PI_RGT_0|lra].
    + pose proof (hnorm_mult m z) as E. rewrite sqrt_2_half. set (k := sqrt ((INR m + 1) / 2)) in *. set (k' := sqrt ((INR (S m) + 1) / 2)) in *.
      transitivity ((2 * k * hnorm m z - 2 * (z * hnorm (S m) z)) * (/ sqrt PI * exp (- z ^ 2)) / alpha); [field; split; [apply Rgt_not_eq, sqrt_lt_R0, PI_RGT_0|lra]|].
      rewrite E. field. split; [apply Rgt_not_eq, sqrt_lt_R0, PI_RGT_0|lra].
Qed.
(** Growth of the Hermite polynomials and decay of psi_n. *)
Lemma exp_ge_self x : x <= exp x. Proof. pose proof (exp_ineq1_le x). lra. Qed.
Lemma exp_ge_1 x : 0 <= x -> 1 <= exp x. Proof. intros H. pose proof (exp_ineq1_le x). lra. Qed.
Lemma hnorm_growth n : exists K, 0 <= K /\ (forall z, Rabs (hnorm n z) <= K * exp (INR n * Rabs z)) /\ (forall z, Rabs (hnorm (S n) z) <= K * exp (INR (S n) * Rabs z)).
Proof.
  induction n as [|n (K & K0 & A & B)].
  - exists (1 + sqrt 2). pose proof (sqrt_pos 2) as S2. split; [lra|]. split.
    + intros z. rewrite hnorm_0, Rabs_R1. change (INR 0) with 0. rewrite Rmult_0_l, exp_0. lra.
    + intros z. rewrite hnorm_1, Rabs_mult, (Rabs_right (sqrt 2)) by lra. change (INR 1) with 1. rewrite Rmult_1_l. pose proof (exp_ge_self (Rabs z)). pose proof (Rabs_pos z). pose proof (exp_pos (Rabs z)). nra.
  - pose (a := sqrt (2 / (INR (S n) + 1))). pose (b := sqrt (INR (S n) / (INR (S n) + 1))). pose proof (sqrt_pos (2 / (INR (S n) + 1))) as Pa. pose proof (sqrt_pos (INR (S n) / (INR (S n) + 1))) as Pb. fold a in Pa. fold b in Pb.
    exists (K * (1 + a + b)). split; [nra|]. split.
    + intros z. eapply Rle_trans; [apply B|]. pose proof (exp_pos (INR (S n) * Rabs z)). apply Rmult_le_compat_r; [lra|]. nra.
    + intros z. rewrite hnorm_up. fold a. fold b. pose proof (Rabs_pos z) as Pz. pose proof (exp_ge_self (Rabs z)) as E1. pose proof (exp_ge_1 (Rabs z) Pz) as E2.
      pose proof (exp_pos (INR n * Rabs z)) as Pn. specialize (A z). specialize (B z).
      rewrite S_INR in B. rewrite Rmult_plus_distr_r, Rmult_1_l, exp_plus in B.
      rewrite !S_INR. rewrite (Rmult_plus_distr_r (INR n + 1) 1), (Rmult_plus_distr_r (INR n) 1), !Rmult_1_l, !exp_plus.
      set (en := exp (INR n * Rabs z)) in *. set (e1 := exp (Rabs z)) in *.
      apply Rle_trans with (Rabs (z * a * hnorm (S n) z) + Rabs (b * hnorm n z)). { unfold Rminus. eapply Rle_trans; [apply Rabs_triang|]. rewrite Rabs_Ropp. lra. }
      rewrite !Rabs_mult, (Rabs_right a) by lra. rewrite (Rabs_right b) by lra.
      apply Rle_trans with (e1 * a * (K * (en * e1)) + b * (K * en)).
      * apply Rplus_le_compat; [|apply Rmult_le_compat_l; lra]. apply Rmult_le_compat; [apply Rmult_le_pos; lra|apply Rabs_pos|apply Rmult_le_compat_r; lra|lra].
      * assert (Q : en <= en * e1 * e1). { assert (1 <= e1 * e1) by nra. nra. } assert (0 <= K * (en * e1 * e1)) by (apply Rmult_le_pos; [lra|]; repeat apply Rmult_le_pos; lra).
        assert (b * (K * en) <= b * (K * (en * e1 * e1))) by (apply Rmult_le_compat_l; [lra|]; apply Rmult_le_compat_l; lra). nra.
Qed.
Lemma exp_small eps : 0 < eps -> exists X, 0 <= X /\ forall x, X <= x -> exp (- x) < eps.
Proof.
  intros He. exists (/ eps). split; [left; apply Rinv_0_lt_compat; exact He|]. intros x Hx. rewrite exp_Ropp. pose proof (Rinv_0_lt_compat _ He) as P.
  rewrite <- (Rinv_inv eps). apply Rinv_lt_contravar; [apply Rmult_lt_0_compat; [exact P|apply exp_pos]|]. pose proof (exp_ineq1_le x). lra.
Qed.
Lemma psi_decay alpha u n s : 0 < alpha -> (s = 1 \/ s = -1) -> limit_at s (psi alpha u n) 0.
Proof.
  intros Ha Hs eps He. destruct (hnorm_growth n) as (K & K0 & G & _).
  pose proof (sqrt_lt_R0 PI PI_RGT_0) as SP. destruct (exp_small (eps * sqrt PI / (K + 1))) as (X & X0 & HX); [apply Rdiv_lt_0_compat; nra|].
  exists (Rabs u + alpha * (INR n + 1 + X)). intros x Hx. rewrite Rminus_0_r, psi_eq. set (z := (s * x - u) / alpha). pose proof (pos_INR n) as Pn.
  assert (Hz : INR n + 1 + X <= Rabs z).
  { assert (E : Rabs (s * x - u) = alpha * Rabs z). { unfold z. rewrite <- (Rabs_right alpha) at 1 by lra. rewrite <- Rabs_mult. f_equal. field. lra. }
    assert (L : x - Rabs u <= Rabs (s * x - u)). { pose proof (Rle_abs u). pose proof (Rle_abs (- u)) as Q. rewrite Rabs_Ropp in Q. destruct Hs as [->| ->]; unfold Rabs at 2; destruct (Rcase_abs _); lra. }
    apply Rmult_le_reg_l with alpha; [exact Ha|]. lra. }
  rewrite Rabs_mult, (Rabs_right (/ sqrt PI * exp (- z ^ 2))) by (apply Rle_ge, Rmult_le_pos; [left; apply Rinv_0_lt_compat; exact SP|left; apply exp_pos]).
  assert (Q : exp (INR n * Rabs z) * exp (- z ^ 2) <= exp (- Rabs z)).
  { rewrite <- exp_plus. assert (E : z ^ 2 = Rabs z * Rabs z) by (rewrite <- Rabs_mult, Rabs_right; [ring|nra]). rewrite E.
    assert (L : INR n * Rabs z + - (Rabs z * Rabs z) <= - Rabs z) by nra. destruct L as [L|L]; [left; apply exp_increasing; exact L|rewrite L; lra]. }
  assert (HX' : exp (- Rabs z) < eps * sqrt PI / (K + 1)) by (apply HX; lra).
  apply Rle_lt_trans with (K * exp (INR n * Rabs z) * (/ sqrt PI * exp (- z ^ 2))).
  { apply Rmult_le_compat_r; [apply Rmult_le_pos; [left; apply Rinv_0_lt_compat; exact SP|left; apply exp_pos]|apply G]. }
  replace (K * exp (INR n * Rabs z) * (/ sqrt PI * exp (- z ^ 2))) with (K / sqrt PI * (exp (INR n * Rabs z) * exp (- z ^ 2))) by (field; lra).
  assert (0 <= K / sqrt PI) by (apply Rmult_le_pos; [exact K0|left; apply Rinv_0_lt_compat; exact SP]).
  apply Rle_lt_trans with (K / sqrt PI * (eps * sqrt PI / (K + 1))); [apply Rmult_le_compat_l; lra|].
  replace (K / sqrt PI * (eps * sqrt PI / (K + 1))) with (eps * (K / (K + 1))) by (field; lra).
  assert (K / (K + 1) < 1) by (apply Rmult_lt_reg_r with (K + 1); [lra|]; unfold Rdiv; rewrite Rmult_assoc, Rinv_l by lra; lra). nra.
Qed.
Lemma psi_integral_S alpha u n : 0 < alpha -> line_integral (psi alpha u (S n)) 0.
Proof.
  intros Ha. set (k := sqrt (2 * INR (S n)) / alpha). assert (Hk : 0 < k) by (apply Rdiv_lt_0_compat; [apply sqrt_lt_R0; pose proof (SINR n); lra|exact Ha]).
  assert (L : forall s, s = 1 \/ s = -1 -> limit_at s (fun v => - / k * psi alpha u n v) 0).
  { intros s Hs. pose proof (limit_lin s _ _ _ _ (- / k) 0 (psi_decay alpha u n s Ha Hs) (psi_decay alpha u n s Ha Hs)) as Q.
    intros eps He. destruct (Q eps He) as (X & HX). exists X. intros x Hx. specialize (HX x Hx). cbv beta in HX.
    replace (- / k * psi alpha u n (s * x) - 0) with (- / k * psi alpha u n (s * x) + 0 * psi alpha u n (s * x) - (- / k * 0 + 0 * 0)) by ring. exact HX. }
  exists (fun v => - / k * psi alpha u n v), 0, 0. split; [|split; [apply L; auto|split; [apply L; auto|ring]]].
  intros v. replace (psi alpha u (S n) v) with (- / k * (- k * psi alpha u (S n) v)) by (field; lra).
  apply (derivable_pt_lim_scal (psi alpha u n) (- / k) v). apply psi_deriv. exact Ha.
Qed.
Lemma gI_deriv_pt x : derivable_pt_lim gI x (exp (- x ^ 2)).
Proof. replace (exp (- x ^ 2)) with (gss x) by (unfold gss; f_equal; ring). apply Coquelicot.Derive.is_derive_Reals. apply gI_deriv. Qed.
Lemma gI_limit alpha u : 0 < alpha -> limit_at 1 (fun v => alpha / sqrt PI * gI ((v - u) / alpha)) (alpha / 2).
Proof.
  intros Ha eps He. pose proof (sqrt_lt_R0 PI PI_RGT_0) as SP. destruct (exp_small (eps * PI / (2 * alpha))) as (X & X0 & HX); [apply Rdiv_lt_0_compat; [pose proof PI_RGT_0; nra|lra]|].
  exists (u + alpha * (1 + X)). intros x Hx. rewrite Rmult_1_l. set (z := (x - u) / alpha).
  assert (Hz : 1 + X <= z). { unfold z. apply Rmult_le_reg_r with alpha; [exact Ha|]. unfold Rdiv. rewrite Rmult_assoc, Rinv_l by lra. lra. }
  destruct (gI_lim z ltac:(lra)) as [L0 L1]. assert (Q : gss z <= exp (- z)). { unfold gss. assert (L : - (z * z) <= - z) by nra. destruct L as [L|L]; [left; apply exp_increasing; exact L|rewrite L; lra]. }
  pose proof (HX z ltac:(lra)) as Hs. replace (alpha / sqrt PI * gI z - alpha / 2) with (- (alpha / sqrt PI * (sqrt PI / 2 - gI z))) by (field; lra).
  rewrite Rabs_Ropp, Rabs_right by (apply Rle_ge, Rmult_le_pos; [left; apply Rdiv_lt_0_compat; lra|lra]).
  assert (P : 0 < alpha / sqrt PI) by (apply Rdiv_lt_0_compat; lra). assert (P2 : 0 < 2 / sqrt PI) by (apply Rdiv_lt_0_compat; lra).
  apply Rle_lt_trans with (alpha / sqrt PI * (exp (- z) * (2 / sqrt PI))).
  { apply Rmult_le_compat_l; [lra|]. eapply Rle_trans; [exact L1|]. apply Rmult_le_compat_r; lra. }
  apply Rlt_le_trans with (alpha / sqrt PI * (eps * PI / (2 * alpha) * (2 / sqrt PI))).
  { apply Rmult_lt_compat_l; [lra|]. apply Rmult_lt_compat_r; [lra|exact Hs]. }
  right. pose proof (sqrt_sqrt PI (Rlt_le _ _ PI_RGT_0)) as SQ. set (q := sqrt PI) in *. rewrite <- SQ. field. lra.
Qed.
Lemma psi_integral_0 alpha u : 0 < alpha -> line_integral (psi alpha u 0) alpha.
Proof.
  intros Ha. pose proof (sqrt_lt_R0 PI PI_RGT_0) as SP. exists (fun v => alpha / sqrt PI * gI ((v - u) / alpha)), (alpha / 2), (- (alpha / 2)). split; [|split; [|split]].
  - intros v. rewrite psi_eq, hnorm_0. set (z := (v - u) / alpha).
    replace (1 * (/ sqrt PI * exp (- z ^ 2))) with (alpha / sqrt PI * (exp (- z ^ 2) * / alpha)) by (field; lra).
    apply (derivable_pt_lim_scal (fun y => gI ((y - u) / alpha)) (alpha / sqrt PI) v).
    apply (derivable_pt_lim_comp (fun y => (y - u) / alpha) gI v (/ alpha) (exp (- z ^ 2))); [|apply gI_deriv_pt].
    apply (derive_ext_fun (fun y => / alpha * y + - u / alpha * 1)); [intros t; field; lra|].
    pose proof (derive_lin2 (fun y => y) (fun _ => 1) (/ alpha) (- u / alpha) v 1 0 (derivable_pt_lim_id v) (derivable_pt_lim_const 1 v)) as Z.
    replace (/ alpha * 1 + - u / alpha * 0) with (/ alpha) in Z by ring. exact Z.
  - apply gI_limit. exact Ha.
  - intros eps He. destruct (gI_limit alpha (- u) Ha eps He) as (X & HX). exists X. intros x Hx. specialize (HX x Hx). cbv beta in HX.
    replace ((-1 * x - u) / alpha) with (- ((1 * x - - u) / alpha)) by (field; lra). rewrite gI_odd.
    replace (alpha / sqrt PI * - gI ((1 * x - - u) / alpha) - - (alpha / 2)) with (- (alpha / sqrt PI * gI ((1 * x - - u) / alpha) - alpha / 2)) by ring.
    rewrite Rabs_Ropp. exact HX.
  - lra.
Qed.
Lemma psi_integral alpha u n : 0 < alpha -> line_integral (psi alpha u n) (if (n =? 0)%nat then alpha else 0).
Proof. intros Ha. destruct n as [|n]; [apply psi_integral_0|apply psi_integral_S]; exact Ha. Qed.
