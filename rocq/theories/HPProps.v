(** Property C73: the linear part of the Hermite-Poisson solver: free streaming, collisions, filters. *)
From Coq Require Import Reals Lra Lia ZArith List Bool Psatz.
From Verif Require Import HermitePoisson RSum Pic PicProofs PicFourier Dft.
Local Open Scope R_scope.

(* ------------------------------------------------------------------------------------------------ *)
(** * Independent specification: the Hermite coefficients of a set of particles *)
(** Physicists' Hermite polynomials by their three-term recurrence. *)
Fixpoint hpair (n : nat) (x : R) : R * R :=
  match n with O => (1, 2 * x) | S m => let p := hpair m x in (snd p, 2 * x * snd p - 2 * INR (S m) * fst p) end.
Definition hermite (n : nat) (x : R) : R := fst (hpair n x).
(** The normalised polynomial H_n / sqrt(2^n n!). *)
Definition hnorm (n : nat) (x : R) : R := hermite n x / sqrt (2 ^ n * INR (fact n)).
(** The n-th coefficient of the distribution sum_i w_i delta(v - v_i) for the thermal speed alpha. *)
Definition particle_coeff (alpha : R) (ps : list (R * R)) (n : nat) : R := lsum (map (fun p => fst p * hnorm n (snd p / alpha)) ps).

Lemma hermite_0 x : hermite 0 x = 1. Proof. reflexivity. Qed.
Lemma hermite_1 x : hermite 1 x = 2 * x. Proof. reflexivity. Qed.
Lemma hermite_SS n x : hermite (S (S n)) x = 2 * x * hermite (S n) x - 2 * INR (S n) * hermite n x.
Proof. unfold hermite. reflexivity. Qed.

Definition hw (n : nat) : R := 2 ^ n * INR (fact n).
Lemma hw_pos n : 0 < hw n.
Proof. apply Rmult_lt_0_compat; [apply pow_lt; lra|apply lt_0_INR, lt_O_fact]. Qed.
Lemma hw_S n : hw (S n) = 2 * INR (S n) * hw n.
Proof. unfold hw. rewrite fact_simpl, mult_INR. cbn [pow]. ring. Qed.
Lemma sqrt_hw_S n : sqrt (hw (S n)) = sqrt (2 * INR (S n)) * sqrt (hw n).
Proof. rewrite hw_S. apply sqrt_mult; [|left; apply hw_pos]. pose proof (pos_INR (S n)). lra. Qed.
Lemma sqrt_hw_pos n : 0 < sqrt (hw n). Proof. apply sqrt_lt_R0, hw_pos. Qed.
Lemma SINR n : 0 < INR (S n). Proof. apply lt_0_INR. lia. Qed.
Lemma sq2 n : sqrt (2 * INR (S n)) * sqrt (2 * INR (S n)) = 2 * INR (S n).
Proof. apply sqrt_sqrt. pose proof (pos_INR (S n)). lra. Qed.
Lemma half_sqrt n : sqrt ((INR n + 1) / 2) = sqrt (2 * INR (S n)) / 2.
Proof.
  replace ((INR n + 1) / 2) with (2 * INR (S n) / (2 * 2)) by (rewrite S_INR; field).
  rewrite sqrt_div_alt by lra. rewrite sqrt_square by lra. reflexivity.
Qed.
(** x h_n = sqrt((n+1)/2) h_{n+1} + sqrt(n/2) h_{n-1}. *)
Lemma hnorm_0_mult x : x * hnorm 0 x = sqrt ((INR 0 + 1) / 2) * hnorm 1 x.
Proof.
  rewrite half_sqrt. unfold hnorm. fold (hw 0) (hw 1). rewrite (sqrt_hw_S 0), hermite_0, hermite_1.
  pose proof (sqrt_hw_pos 0). assert (0 < sqrt (2 * INR 1)) by (apply sqrt_lt_R0; pose proof (SINR 0); lra).
  field. split; lra.
Qed.
Lemma hnorm_mult n x : x * hnorm (S n) x = sqrt ((INR (S n) + 1) / 2) * hnorm (S (S n)) x + sqrt ((INR n + 1) / 2) * hnorm n x.
Proof.
  rewrite !half_sqrt. unfold hnorm. fold (hw n) (hw (S n)) (hw (S (S n))). rewrite (sqrt_hw_S (S n)), (sqrt_hw_S n), hermite_SS.
  pose proof (sqrt_hw_pos n). pose proof (SINR n). pose proof (SINR (S n)).
  assert (A : 0 < sqrt (2 * INR (S n))) by (apply sqrt_lt_R0; lra).
  assert (B : 0 < sqrt (2 * INR (S (S n)))) by (apply sqrt_lt_R0; lra).
  pose proof (sq2 n) as Q. set (p := sqrt (2 * INR (S n))) in *. set (q := sqrt (2 * INR (S (S n)))) in *.
  replace (2 * INR (S n) * hermite n x) with (p * p * hermite n x) by (rewrite Q; ring).
  field. repeat split; lra.
Qed.

(* ------------------------------------------------------------------------------------------------ *)
(** * Sums *)
Lemma rsum_as_csum n f : csum n (fun i => (f i, 0)) = (rsum n f, 0).
Proof. induction n; cbn; [reflexivity|]. rewrite IHn. unfold cadd. cbn. f_equal. ring. Qed.
Lemma csum_real_mul n (f : nat -> R) (a : cplx) : csum n (fun i => cscal (f i) a) = cscal (rsum n f) a.
Proof. induction n; cbn; [creal|]. rewrite IHn. creal. Qed.
Lemma cscal_cscal r s a : cscal r (cscal s a) = cscal (r * s) a. Proof. creal. Qed.
Lemma cscal_cmul r a b : cscal r (cmul a b) = cmul (cscal r a) b. Proof. creal. Qed.
Lemma cscal_cadd r a b : cscal r (cadd a b) = cadd (cscal r a) (cscal r b). Proof. creal. Qed.
Lemma cscal_1 a : cscal 1 a = a. Proof. creal. Qed.
Lemma cscal_0 a : cscal 0 a = c0. Proof. creal. Qed.
Lemma cscal_c0 r : cscal r c0 = c0. Proof. creal. Qed.
Lemma cadd_c0 a : cadd a c0 = a. Proof. creal. Qed.
Lemma c0_cadd a : cadd c0 a = a. Proof. creal. Qed.
Lemma cmul_c1 a : cmul a c1 = a. Proof. creal. Qed.
Lemma csum_delta n k (f : nat -> cplx) : (k < n)%nat -> csum n (fun i => cscal (if (k =? i)%nat then 1 else 0) (f i)) = f k.
Proof.
  intros H. rewrite (csum_single n k); auto; [rewrite Nat.eqb_refl; apply cscal_1|].
  intros i _ Hi. destruct (Nat.eqb_spec k i); [lia|apply cscal_0].
Qed.

Section Stream.
Variables (Nn : nat) (T : nat -> nat -> R) (ev : nat -> R) (V : nat -> nat -> R).
Hypothesis EIG : is_eigh Nn T ev V.
Definition proj (x : nat -> cplx) (i : nat) : cplx := csum Nn (fun m => cscal (V m i) (x m)).
Definition unproj (y : nat -> cplx) (n : nat) : cplx := csum Nn (fun i => cscal (V n i) (y i)).
Lemma unproj_ext x y n : (forall i, (i < Nn)%nat -> x i = y i) -> unproj x n = unproj y n.
Proof. intros H. apply csum_ext. intros i Hi. rewrite H; auto. Qed.
Lemma proj_ext x y n : (forall i, (i < Nn)%nat -> x i = y i) -> proj x n = proj y n.
Proof. intros H. apply csum_ext. intros i Hi. rewrite H; auto. Qed.
Lemma unproj_proj x n : (n < Nn)%nat -> unproj (proj x) n = x n.
Proof.
  intros Hn. unfold unproj, proj.
  transitivity (csum Nn (fun m => cscal (rsum Nn (fun i => V n i * V m i)) (x m))).
  - rewrite (csum_ext Nn _ (fun i => csum Nn (fun m => cscal (V n i * V m i) (x m)))).
    + rewrite csum_swap. apply csum_ext. intros m _. apply csum_real_mul.
    + intros i _. rewrite <- csum_scal. apply csum_ext. intros. apply cscal_cscal.
  - rewrite (csum_ext Nn _ (fun m => cscal (if (n =? m)%nat then 1 else 0) (x m))).
    + apply csum_delta; auto.
    + intros m Hm. rewrite (eigh_rows _ _ _ _ EIG n m Hn Hm). reflexivity.
Qed.
Lemma proj_unproj y i : (i < Nn)%nat -> proj (unproj y) i = y i.
Proof.
  intros Hn. unfold unproj, proj.
  transitivity (csum Nn (fun j => cscal (rsum Nn (fun m => V m i * V m j)) (y j))).
  - rewrite (csum_ext Nn _ (fun m => csum Nn (fun j => cscal (V m i * V m j) (y j)))).
    + rewrite csum_swap. apply csum_ext. intros m _. apply csum_real_mul.
    + intros m _. rewrite <- csum_scal. apply csum_ext. intros. apply cscal_cscal.
  - rewrite (csum_ext Nn _ (fun m => cscal (if (i =? m)%nat then 1 else 0) (y m))).
    + apply csum_delta; auto.
    + intros m Hm. rewrite (eigh_cols _ _ _ _ EIG i m Hn Hm). reflexivity.
Qed.
(** Orthogonal maps preserve the sum of squares. *)
Lemma sumsq_re (x : nat -> cplx) : rsum Nn (fun n => cabs2 (x n)) = fst (csum Nn (fun n => cmul (x n) (conj (x n)))).
Proof. rewrite csum_fst. apply rsum_ext. intros. unfold cabs2, cmul, conj. cbn. ring. Qed.
Lemma unproj_norm y : rsum Nn (fun n => cabs2 (unproj y n)) = rsum Nn (fun i => cabs2 (y i)).
Proof.
  rewrite !sumsq_re. f_equal.
  transitivity (csum Nn (fun n => csum Nn (fun i => cmul (cscal (V n i) (y i)) (conj (unproj y n))))).
  { apply csum_ext. intros n _. unfold unproj at 1. rewrite <- csum_mul_r. reflexivity. }
  rewrite csum_swap. apply csum_ext. intros i Hi.
  transitivity (cmul (y i) (conj (proj (unproj y) i))).
  - unfold proj. rewrite csum_conj, <- csum_mul. apply csum_ext. intros n _. creal.
  - rewrite proj_unproj; auto.
Qed.
Lemma proj_norm x : rsum Nn (fun n => cabs2 (proj x n)) = rsum Nn (fun i => cabs2 (x i)).
Proof.
  rewrite <- unproj_norm. apply rsum_ext. intros n Hn. rewrite unproj_proj; auto.
Qed.

Variables (alpha : R) (kxs : nat -> R).
Notation S_ := (stream Nn ev V alpha kxs).
Definition phase (k : nat) (s : R) (i : nat) : cplx := cis (- (alpha * s * ev i * kxs k)).
Lemma stream_eq C s n k : S_ C s n k = unproj (fun i => cmul (proj (fun m => C m k) i) (phase k s i)) n.
Proof. reflexivity. Qed.
Lemma stream_ext C C' s n k : (forall m, (m < Nn)%nat -> C m k = C' m k) -> S_ C s n k = S_ C' s n k.
Proof. intros H. rewrite !stream_eq. apply unproj_ext. intros i Hi. f_equal. apply proj_ext. auto. Qed.
Lemma stream_zero C n k : (n < Nn)%nat -> S_ C 0 n k = C n k.
Proof.
  intros Hn. rewrite stream_eq. rewrite (unproj_ext _ (proj (fun m => C m k))); [apply (unproj_proj (fun m => C m k)); auto|].
  intros i _. unfold phase. replace (- (alpha * 0 * ev i * kxs k)) with 0 by ring. rewrite cis_0. apply cmul_c1.
Qed.
Lemma stream_k0 C s n k : (n < Nn)%nat -> kxs k = 0 -> S_ C s n k = C n k.
Proof.
  intros Hn Hk. rewrite stream_eq. rewrite (unproj_ext _ (proj (fun m => C m k))); [apply (unproj_proj (fun m => C m k)); auto|].
  intros i _. unfold phase. rewrite Hk. replace (- (alpha * s * ev i * 0)) with 0 by ring. rewrite cis_0. apply cmul_c1.
Qed.
Lemma stream_add C s t n k : (n < Nn)%nat -> S_ (S_ C s) t n k = S_ C (s + t) n k.
Proof.
  intros Hn. rewrite !stream_eq. apply unproj_ext. intros i Hi.
  rewrite (proj_ext _ (unproj (fun i => cmul (proj (fun m => C m k) i) (phase k s i)))) by (intros; apply stream_eq).
  rewrite proj_unproj by auto. unfold phase.
  replace (- (alpha * (s + t) * ev i * kxs k)) with (- (alpha * s * ev i * kxs k) + - (alpha * t * ev i * kxs k)) by ring.
  rewrite cis_add. ring.
Qed.
Lemma stream_norm C s k : rsum Nn (fun n => cabs2 (S_ C s n k)) = rsum Nn (fun n => cabs2 (C n k)).
Proof.
  transitivity (rsum Nn (fun n => cabs2 (unproj (fun i => cmul (proj (fun m => C m k) i) (phase k s i)) n))); [reflexivity|].
  rewrite unproj_norm. rewrite <- (proj_norm (fun m => C m k)). apply rsum_ext. intros i _. rewrite cmul_conj_abs. unfold phase. rewrite cabs2_cis. ring.
Qed.
(** The flow solves dC/ds = - i alpha k T C. *)
Lemma T_unproj y n : (n < Nn)%nat -> csum Nn (fun m => cscal (T n m) (unproj y m)) = unproj (fun i => cscal (ev i) (y i)) n.
Proof.
  intros Hn. unfold unproj.
  transitivity (csum Nn (fun m => csum Nn (fun i => cscal (T n m * V m i) (y i)))).
  { apply csum_ext. intros m _. rewrite <- csum_scal. apply csum_ext. intros. apply cscal_cscal. }
  rewrite csum_swap. apply csum_ext. intros i Hi. rewrite csum_real_mul, (eigh_vec _ _ _ _ EIG n i Hn Hi), cscal_cscal. f_equal. ring.
Qed.
Lemma derive_rsum n (f : R -> nat -> R) (f' : nat -> R) s :
  (forall i, (i < n)%nat -> derivable_pt_lim (fun t => f t i) s (f' i)) -> derivable_pt_lim (fun t => rsum n (f t)) s (rsum n f').
Proof.
  induction n; intros H; cbn [rsum]; [apply derivable_pt_lim_const|].
  apply (derivable_pt_lim_plus (fun t => rsum n (f t)) (fun t => f t n)); [apply IHn; auto|apply H; lia].
Qed.
Lemma derive_lin a s : derivable_pt_lim (fun t => - (a * t)) s (- a).
Proof.
  replace (- a) with (- (a * 1)) by ring. apply (derivable_pt_lim_opp (fun t => a * t)).
  apply (derivable_pt_lim_scal (fun t => t)). apply derivable_pt_lim_id.
Qed.
Lemma derive_cos a s : derivable_pt_lim (fun t => cos (- (a * t))) s (a * sin (- (a * s))).
Proof.
  replace (a * sin (- (a * s))) with (- sin (- (a * s)) * - a) by ring.
  apply (derivable_pt_lim_comp (fun t => - (a * t)) cos); [apply derive_lin|apply derivable_pt_lim_cos].
Qed.
Lemma derive_sin a s : derivable_pt_lim (fun t => sin (- (a * t))) s (- a * cos (- (a * s))).
Proof.
  replace (- a * cos (- (a * s))) with (cos (- (a * s)) * - a) by ring.
  apply (derivable_pt_lim_comp (fun t => - (a * t)) sin); [apply derive_lin|apply derivable_pt_lim_sin].
Qed.
Definition has_cderiv (f : R -> cplx) (s : R) (d : cplx) : Prop :=
  derivable_pt_lim (fun t => fst (f t)) s (fst d) /\ derivable_pt_lim (fun t => snd (f t)) s (snd d).
Lemma derive_ext (f g : R -> R) s d : (forall t, f t = g t) -> derivable_pt_lim f s d -> derivable_pt_lim g s d.
Proof. intros E H eps He. destruct (H eps He) as [del Hd]. exists del. intros h A B. rewrite <- !E. apply Hd; auto. Qed.
Lemma stream_deriv C s n k : (n < Nn)%nat ->
  has_cderiv (fun t => S_ C t n k) s
    (cmul (0, - (alpha * kxs k)) (csum Nn (fun m => cscal (T n m) (S_ C s m k)))).
Proof.
  intros Hn.
  assert (E : csum Nn (fun m => cscal (T n m) (S_ C s m k)) = unproj (fun i => cscal (ev i) (cmul (proj (fun m => C m k) i) (phase k s i))) n)
    by (rewrite <- T_unproj by auto; reflexivity).
  rewrite E. set (P := proj (fun m => C m k)). pose (th := fun i => alpha * ev i * kxs k).
  assert (PH : forall t i, phase k t i = cis (- (th i * t))) by (intros; unfold phase, th; f_equal; ring).
  split.
  - apply (derive_ext (fun t => rsum Nn (fun i => V n i * (fst (P i) * cos (- (th i * t)) - snd (P i) * sin (- (th i * t)))))).
    { intros t. rewrite stream_eq. unfold unproj. rewrite csum_fst. apply rsum_ext. intros i _. rewrite PH. fold P. unfold cscal, cmul, cis. cbn [fst snd]. ring. }
    replace (fst _) with (rsum Nn (fun i => V n i * (fst (P i) * (th i * sin (- (th i * s))) - snd (P i) * (- th i * cos (- (th i * s)))))).
    + apply derive_rsum. intros i _. apply (derivable_pt_lim_scal (fun t => fst (P i) * cos (- (th i * t)) - snd (P i) * sin (- (th i * t)))).
      apply (derivable_pt_lim_minus (fun t => fst (P i) * cos (- (th i * t))) (fun t => snd (P i) * sin (- (th i * t)))).
      * apply (derivable_pt_lim_scal (fun t => cos (- (th i * t)))), derive_cos.
      * apply (derivable_pt_lim_scal (fun t => sin (- (th i * t)))), derive_sin.
    + unfold unproj. unfold cmul at 1. cbn [fst snd]. rewrite csum_snd, Rmult_0_l, Rminus_0_l, <- rsum_scal.
      rewrite Ropp_involutive || idtac.
      transitivity (- rsum Nn (fun i => - (alpha * kxs k) * snd (cscal (V n i) (cscal (ev i) (cmul (P i) (phase k s i)))))).
      * rewrite <- (Rmult_1_l (rsum Nn (fun i => - (alpha * kxs k) * _))), Ropp_mult_distr_l, <- rsum_scal.
        apply rsum_ext. intros i _. rewrite PH. unfold cscal, cmul, cis. cbn [fst snd]. unfold th. ring.
      * reflexivity.
  - apply (derive_ext (fun t => rsum Nn (fun i => V n i * (fst (P i) * sin (- (th i * t)) + snd (P i) * cos (- (th i * t)))))).
    { intros t. rewrite stream_eq. unfold unproj. rewrite csum_snd. apply rsum_ext. intros i _. rewrite PH. fold P. unfold cscal, cmul, cis. cbn [fst snd]. ring. }
    replace (snd _) with (rsum Nn (fun i => V n i * (fst (P i) * (- th i * cos (- (th i * s))) + snd (P i) * (th i * sin (- (th i * s)))))).
    + apply derive_rsum. intros i _. apply (derivable_pt_lim_scal (fun t => fst (P i) * sin (- (th i * t)) + snd (P i) * cos (- (th i * t)))).
      apply (derivable_pt_lim_plus (fun t => fst (P i) * sin (- (th i * t))) (fun t => snd (P i) * cos (- (th i * t)))).
      * apply (derivable_pt_lim_scal (fun t => sin (- (th i * t)))), derive_sin.
      * apply (derivable_pt_lim_scal (fun t => cos (- (th i * t)))), derive_cos.
    + unfold unproj. unfold cmul at 1. cbn [fst snd]. rewrite csum_fst, Rmult_0_l, Rplus_0_l, <- rsum_scal.
      apply rsum_ext. intros i _. rewrite PH. unfold cscal, cmul, cis. cbn [fst snd]. unfold th. ring.
Qed.
(** Conjugate symmetry. *)
Lemma stream_conj C s n k k' : kxs k' = - kxs k -> (forall m, (m < Nn)%nat -> C m k' = conj (C m k)) -> S_ C s n k' = conj (S_ C s n k).
Proof.
  intros Hk HC. rewrite !stream_eq. unfold unproj. rewrite csum_conj. apply csum_ext. intros i _.
  replace (proj (fun m => C m k') i) with (conj (proj (fun m => C m k) i)).
  - unfold phase. rewrite Hk. replace (- (alpha * s * ev i * - kxs k)) with (- - (alpha * s * ev i * kxs k)) by ring. rewrite (cis_neg (- _)).
    unfold cscal. creal.
  - unfold proj. rewrite csum_conj. apply csum_ext. intros m Hm. rewrite HC by auto. creal.
Qed.
End Stream.

(* ------------------------------------------------------------------------------------------------ *)
(** * Specifications *)
(** The streaming ladder, written out: sqrt(n/2) C_{n-1} + sqrt((n+1)/2) C_{n+1} + (u/alpha) C_n, with C_{Nn} absent. *)
Definition ladder (Nn : nat) (u alpha : R) (x : nat -> cplx) (n : nat) : cplx :=
  cadd (cadd (match n with O => c0 | S m => cscal (sqrt (INR n / 2)) (x m) end)
             (if (S n <? Nn)%nat then cscal (sqrt ((INR n + 1) / 2)) (x (S n)) else c0))
       (cscal (u / alpha) (x n)).
Definition mode_energy (Nn : nat) (C : coeffs) (k : nat) : R := rsum Nn (fun n => cabs2 (C n k)).
Definition total_energy (Nn nx : nat) (C : coeffs) : R := rsum nx (mode_energy Nn C).

Lemma rsum_two n p q (f : nat -> R) : (p < n)%nat -> (q < n)%nat -> p <> q -> (forall i, (i < n)%nat -> i <> p -> i <> q -> f i = 0) -> rsum n f = f p + f q.
Proof. apply rsum_pair. Qed.
Lemma csum_pair n p q (f : nat -> cplx) : (p < n)%nat -> (q < n)%nat -> p <> q -> (forall i, (i < n)%nat -> i <> p -> i <> q -> f i = c0) -> csum n f = cadd (f p) (f q).
Proof.
  intros. apply cplx_eq; unfold cadd; cbn [fst snd]; [rewrite csum_fst|rewrite csum_snd];
  (rewrite (rsum_pair n p q); auto; intros i A B D; rewrite H2; auto).
Qed.
Lemma csum_trip n p q r (f : nat -> cplx) : (p < n)%nat -> (q < n)%nat -> (r < n)%nat -> p <> q -> p <> r -> q <> r ->
  (forall i, (i < n)%nat -> i <> p -> i <> q -> i <> r -> f i = c0) -> csum n f = cadd (cadd (f p) (f q)) (f r).
Proof.
  intros Hp Hq Hr A B D Hz.
  transitivity (csum n (fun i => cadd (if (i =? r)%nat then c0 else f i) (if (i =? r)%nat then f i else c0))).
  { apply csum_ext. intros i _. destruct (i =? r)%nat; [symmetry; apply c0_cadd|symmetry; apply cadd_c0]. }
  rewrite csum_add. f_equal.
  - rewrite (csum_pair n p q); auto; [destruct (Nat.eqb_spec p r), (Nat.eqb_spec q r); try lia; reflexivity|].
    intros i Hi E1 E2. destruct (Nat.eqb_spec i r); auto.
  - rewrite (csum_single n r); auto; [rewrite Nat.eqb_refl; reflexivity|]. intros i _ Hi. destruct (Nat.eqb_spec i r); [lia|reflexivity].
Qed.
Lemma T_ladder Nn u alpha x n : (n < Nn)%nat -> csum Nn (fun m => cscal (stream_T u alpha n m) (x m)) = ladder Nn u alpha x n.
Proof.
  intros Hn. unfold ladder.
  assert (Tn : stream_T u alpha n n = u / alpha).
  { unfold stream_T. rewrite Nat.eqb_refl. destruct (Nat.eqb_spec n (S n)); [lia|]. ring. }
  assert (Tup : stream_T u alpha n (S n) = sqrt ((INR n + 1) / 2)).
  { unfold stream_T. rewrite Nat.eqb_refl. destruct (Nat.eqb_spec n (S (S n))); [lia|]. destruct (Nat.eqb_spec n (S n)); [lia|]. ring. }
  assert (Tz : forall m, m <> n -> m <> S n -> n <> S m -> cscal (stream_T u alpha n m) (x m) = c0).
  { intros m A B D. unfold stream_T. destruct (Nat.eqb_spec m (S n)); [lia|]. destruct (Nat.eqb_spec n (S m)); [lia|]. destruct (Nat.eqb_spec n m); [lia|].
    replace (0 + 0 + 0) with 0 by ring. apply cscal_0. }
  destruct n as [|p].
  - destruct (Nat.ltb_spec 1 Nn).
    + rewrite (csum_pair Nn 1 0); try lia.
      * rewrite Tn, Tup, c0_cadd. reflexivity.
      * intros i A B D. apply Tz; lia.
    + rewrite (csum_single Nn 0); auto; [rewrite Tn; creal|]. intros i A B. apply Tz; lia.
  - assert (Tdn : stream_T u alpha (S p) p = sqrt (INR (S p) / 2)).
    { unfold stream_T. rewrite Nat.eqb_refl. destruct (Nat.eqb_spec p (S (S p))); [lia|]. destruct (Nat.eqb_spec (S p) p); [lia|]. rewrite <- S_INR. ring. }
    destruct (Nat.ltb_spec (S (S p)) Nn).
    + rewrite (csum_trip Nn p (S (S p)) (S p)); try lia; [rewrite Tn, Tup, Tdn; reflexivity|]. intros i A B D E. apply Tz; lia.
    + rewrite (csum_pair Nn p (S p)); try lia; [rewrite Tn, Tdn, cadd_c0; reflexivity|]. intros i A B D. apply Tz; lia.
Qed.

(* ------------------------------------------------------------------------------------------------ *)
(** * Theorems *)
(** Free streaming is exact in time: it starts at the given coefficients and solves dC_n/ds = - i alpha kx (ladder C)_n
    for every wavenumber, every Hermite index, every elapsed time. *)
Theorem C73_streaming_exact : forall Nn u alpha ev V kxs C, is_eigh Nn (stream_T u alpha) ev V ->
  (forall n k, (n < Nn)%nat -> stream Nn ev V alpha kxs C 0 n k = C n k) /\
  (forall s n k, (n < Nn)%nat ->
     has_cderiv (fun t => stream Nn ev V alpha kxs C t n k) s
       (cmul (0, - (alpha * kxs k)) (ladder Nn u alpha (fun m => stream Nn ev V alpha kxs C s m k) n))).
Proof.
  intros Nn u alpha ev V kxs C EIG. split; [intros; eapply stream_zero; eauto|].
  intros s n k Hn. rewrite <- (T_ladder Nn u alpha (fun m => stream Nn ev V alpha kxs C s m k) n Hn).
  apply (stream_deriv Nn (stream_T u alpha) ev V EIG alpha kxs C s n k Hn).
Qed.
Print Assumptions C73_streaming_exact.

Lemma lsum_map_scal {A} (r : R) (h : A -> R) l : lsum (map (fun p => r * h p) l) = r * lsum (map h l).
Proof. induction l; cbn; [ring|]. rewrite IHl. ring. Qed.
Lemma lsum_map_plus {A} (h h' : A -> R) l : lsum (map (fun p => h p + h' p) l) = lsum (map h l) + lsum (map h' l).
Proof. induction l; cbn; [ring|]. rewrite IHl. ring. Qed.
Lemma lsum_map_ext {A} (h h' : A -> R) l : (forall p, h p = h' p) -> lsum (map h l) = lsum (map h' l).
Proof. intros E. induction l; cbn; [reflexivity|]. rewrite IHl, E. reflexivity. Qed.
(** The ladder is multiplication by the velocity (in units of alpha): on the coefficients of any set of particles it gives
    the coefficients of the same particles weighted by v/alpha, except in the last retained row. *)
Theorem C73_ladder_is_velocity : forall Nn alpha (ps : list (R * R)) n, (S n < Nn)%nat ->
  ladder Nn 0 alpha (fun m => (particle_coeff alpha ps m, 0)) n
  = (particle_coeff alpha (map (fun p => (snd p / alpha * fst p, snd p)) ps) n, 0).
Proof.
  intros Nn alpha ps n Hn. unfold ladder. destruct (Nat.ltb_spec (S n) Nn); [|lia].
  assert (Z : 0 / alpha = 0) by (unfold Rdiv; ring). rewrite Z.
  unfold cscal, cadd, c0, particle_coeff. cbn [fst snd]. rewrite map_map.
  apply cplx_eq; destruct n as [|n]; cbn [fst snd]; try ring.
  - rewrite Rmult_0_l, Rplus_0_l, Rplus_0_r.
    rewrite <- lsum_map_scal. apply lsum_map_ext. intros p.
    replace (sqrt ((INR 0 + 1) / 2) * (fst p * hnorm 1 (snd p / alpha))) with (fst p * (sqrt ((INR 0 + 1) / 2) * hnorm 1 (snd p / alpha))) by ring.
    rewrite <- hnorm_0_mult. ring.
  - rewrite Rmult_0_l, Rplus_0_r. rewrite <- !lsum_map_scal, <- lsum_map_plus. apply lsum_map_ext. intros p.
    pose proof (hnorm_mult n (snd p / alpha)) as H0. rewrite <- (S_INR n) in H0.
    replace (snd p / alpha * fst p * hnorm (S n) (snd p / alpha)) with (fst p * (snd p / alpha * hnorm (S n) (snd p / alpha))) by ring.
    rewrite H0. ring.
Qed.
Print Assumptions C73_ladder_is_velocity.

(** Streaming preserves the energy sum |C|^2 at every wavenumber, composes over times, and is undone by streaming
    backwards. *)
Theorem C73_streaming_reversible : forall Nn T alpha ev V kxs C, is_eigh Nn T ev V ->
  (forall s k, mode_energy Nn (stream Nn ev V alpha kxs C s) k = mode_energy Nn C k) /\
  (forall s t n k, (n < Nn)%nat -> stream Nn ev V alpha kxs (stream Nn ev V alpha kxs C s) t n k = stream Nn ev V alpha kxs C (s + t) n k) /\
  (forall s n k, (n < Nn)%nat -> stream Nn ev V alpha kxs (stream Nn ev V alpha kxs C s) (- s) n k = C n k).
Proof.
  intros Nn T alpha ev V kxs C EIG. split; [|split]; intros.
  - apply (stream_norm Nn T ev V EIG).
  - apply (stream_add Nn T ev V EIG); auto.
  - rewrite (stream_add Nn T ev V EIG) by auto. replace (s + - s) with 0 by ring. apply (stream_zero Nn T ev V EIG); auto.
Qed.
Print Assumptions C73_streaming_reversible.

(** The spatial mean of every Hermite coefficient is untouched by streaming. *)
Theorem C73_mean_unchanged : forall Nn T alpha ev V nx dx C s n, is_eigh Nn T ev V -> (n < Nn)%nat ->
  stream Nn ev V alpha (kx nx dx) C s n 0%nat = C n 0%nat.
Proof.
  intros. apply (stream_k0 Nn T ev V); auto. unfold kx. destruct (Nat.ltb_spec (2 * 0) nx); cbn [INR]; unfold Rdiv; [ring|].
  assert (nx = 0)%nat by lia. subst. cbn [INR]. ring.
Qed.
Print Assumptions C73_mean_unchanged.

(** Real distributions stay real: conjugate symmetry of the spectrum survives streaming at every wavenumber but the
    Nyquist one. *)
Theorem C73_real : forall Nn T alpha ev V nx dx C s n k, is_eigh Nn T ev V -> dx <> 0 -> (0 < k < nx)%nat -> (2 * k <> nx)%nat ->
  (forall m, (m < Nn)%nat -> C m (nx - k)%nat = conj (C m k)) ->
  stream Nn ev V alpha (kx nx dx) C s n (nx - k)%nat = conj (stream Nn ev V alpha (kx nx dx) C s n k).
Proof.
  intros Nn T alpha ev V nx dx C s n k E D K K2 HC. apply stream_conj; auto. apply kx_mirror; auto.
Qed.
Print Assumptions C73_real.

(* ---- collisions and filters ---- *)
(** The collision profiles: both known models leave density, momentum and energy (modes 0, 1, 2) undamped and never
    amplify; hypercollision reaches 1 at the last mode and stays below 1, Lenard-Bernstein damps mode n at rate n from n = 3
    on; every other model name is an error. *)
Lemma INR3 n : (3 <= n)%nat -> 3 <= INR n.
Proof. intros H. apply le_INR in H. replace (INR 3) with 3 in H by (cbn; ring). exact H. Qed.
Lemma cubic_mono a b : 2 <= a <= b -> a * (a - 1) * (a - 2) <= b * (b - 1) * (b - 2).
Proof.
  intros [H1 H2]. apply Rmult_le_compat; try lra; [|apply Rmult_le_compat; lra]. apply Rmult_le_pos; lra.
Qed.
Lemma cubic_small n : (n <= 2)%nat -> INR n * (INR n - 1) * (INR n - 2) = 0.
Proof. intros H. destruct n as [|[|[|]]]; [| | |lia]; cbn [INR]; ring. Qed.
Lemma cubic_nonneg n : 0 <= INR n * (INR n - 1) * (INR n - 2).
Proof.
  destruct (Nat.le_gt_cases n 2); [rewrite cubic_small by auto; lra|]. pose proof (INR3 n H).
  apply Rmult_le_pos; [apply Rmult_le_pos|]; lra.
Qed.
Theorem C73_collision_profiles : forall Nn model,
  (collision_profile Nn model = None <-> model <> lit "lenard-bernstein" /\ model <> lit "hypercollision") /\
  forall col, collision_profile Nn model = Some col ->
    col 0%nat = 0 /\ col 1%nat = 0 /\ col 2%nat = 0 /\
    (forall n, 0 <= col n) /\
    (model = lit "lenard-bernstein" -> forall n, (3 <= n)%nat -> col n = INR n) /\
    (model = lit "hypercollision" -> (3 < Nn)%nat -> col (Nn - 1)%nat = 1 /\ forall n, (n < Nn)%nat -> col n <= 1).
Proof.
  intros Nn model. unfold collision_profile.
  destruct (str_eqb_spec model (lit "lenard-bernstein")) as [->|N1].
  { split; [split; [discriminate|intros [A _]; congruence]|]. intros col [= <-].
    split; [reflexivity|]. split; [reflexivity|]. split; [reflexivity|]. split; [|split].
    - intros [|[|[|n]]]; cbn beta iota; try lra. apply pos_INR.
    - intros _ [|[|[|n]]] Hn; try lia. reflexivity.
    - intros A. discriminate A. }
  destruct (str_eqb_spec model (lit "hypercollision")) as [->|N2].
  { split; [split; [discriminate|intros [_ A]; congruence]|]. intros col [= <-].
    assert (Z : forall n, (n <= 2)%nat -> safe_col Nn n = 0).
    { intros n Hn. unfold safe_col. destruct (Nat.ltb_spec 3 Nn); auto. rewrite cubic_small by auto. unfold Rdiv. ring. }
    split; [apply Z; lia|]. split; [apply Z; lia|]. split; [apply Z; lia|]. split; [|split].
    - intros n. unfold safe_col. destruct (Nat.ltb_spec 3 Nn); [|lra]. pose proof (INR3 Nn ltac:(lia)).
      assert (INR 4 <= INR Nn) by (apply le_INR; lia). replace (INR 4) with 4 in H1 by (cbn; ring).
      apply Rmult_le_pos; [apply cubic_nonneg|]. left. apply Rinv_0_lt_compat. apply Rmult_lt_0_compat; [apply Rmult_lt_0_compat|]; lra.
    - intros A. discriminate A.
    - intros _ H. assert (H1 : INR 4 <= INR Nn) by (apply le_INR; lia). replace (INR 4) with 4 in H1 by (cbn; ring).
      assert (P : 0 < (INR Nn - 1) * (INR Nn - 2) * (INR Nn - 3)) by (apply Rmult_lt_0_compat; [apply Rmult_lt_0_compat|]; lra).
      unfold safe_col. destruct (Nat.ltb_spec 3 Nn); [|lia]. split.
      + rewrite minus_INR by lia. cbn [INR]. field. repeat split; lra.
      + intros n Hn. apply (Rmult_le_reg_r _ _ _ P). unfold Rdiv. rewrite Rmult_assoc, Rinv_l by lra. rewrite Rmult_1_r, Rmult_1_l.
        replace ((INR Nn - 1) * (INR Nn - 2) * (INR Nn - 3)) with ((INR Nn - 1) * (INR Nn - 1 - 1) * (INR Nn - 1 - 2)) by ring.
        destruct (Nat.le_gt_cases n 2).
        * rewrite cubic_small by auto. left. replace ((INR Nn - 1) * (INR Nn - 1 - 1) * (INR Nn - 1 - 2)) with ((INR Nn - 1) * (INR Nn - 2) * (INR Nn - 3)) by ring. exact P.
        * apply cubic_mono. pose proof (INR3 n H2). apply le_INR in Hn. rewrite S_INR in Hn. lra. }
  split; [split; auto|]. discriminate.
Qed.
Print Assumptions C73_collision_profiles.

Lemma cabs2_scal r a : cabs2 (cscal r a) = r * r * cabs2 a.
Proof. unfold cabs2, cscal; cbn [fst snd]; ring. Qed.
Lemma exp_le1 x : x <= 0 -> exp x <= 1.
Proof. intros [H|H]; [left; rewrite <- exp_0; apply exp_increasing; auto|subst; rewrite exp_0; lra]. Qed.
(** With non-negative coefficients the linear operator never increases the energy of any wavenumber, for any forward time. *)
Theorem C73_linear_dissipative : forall Nn T ev V alpha kxs nu col D kxsq strength hl C s k,
  is_eigh Nn T ev V -> 0 <= nu -> 0 <= D -> (forall n, 0 <= col n) -> (forall k, 0 <= kxsq k) ->
  (forall h n, hl = Some h -> 0 <= h n) -> 0 <= s ->
  mode_energy Nn (linear_exp Nn ev V alpha kxs (diag_rate nu col D kxsq strength hl) C s) k <= mode_energy Nn C k.
Proof.
  intros Nn T ev V alpha kxs nu col D kxsq strength hl C s k EIG Hnu HD Hc Hk Hh Hs.
  rewrite <- (proj1 (C73_streaming_reversible Nn T alpha ev V kxs C EIG) s k).
  apply rsum_le. intros n _. unfold linear_exp, diagonal. rewrite cabs2_scal.
  set (r := diag_rate nu col D kxsq strength hl n k).
  assert (R0 : 0 <= r).
  { unfold r, diag_rate. pose proof (Rmult_le_pos _ _ Hnu (Hc n)). pose proof (Rmult_le_pos _ _ HD (Hk k)).
    destruct hl as [h|]; [|lra]. destruct (Rlt_dec 0 strength); [|lra]. pose proof (Rmult_le_pos strength (h n) ltac:(lra) (Hh h n eq_refl)). lra. }
  assert (E : exp (- r * s) <= 1) by (apply exp_le1; pose proof (Rmult_le_pos _ _ R0 Hs); lra).
  pose proof (exp_pos (- r * s)). pose proof (cabs2_nonneg (stream Nn ev V alpha kxs C s n k)).
  assert (exp (- r * s) * exp (- r * s) <= 1) by nra. nra.
Qed.
Print Assumptions C73_linear_dissipative.

(** The linear operator changes no spatial mean of the first three moments: total number, momentum and energy of each
    species are kept, with either collision model, any diffusion, and with the Hou-Li filter off. *)
Theorem C73_moments_kept : forall Nn T ev V alpha nx dx nu model col D C s n, is_eigh Nn T ev V -> (n < Nn)%nat -> (n <= 2)%nat ->
  collision_profile Nn model = Some col ->
  linear_exp Nn ev V alpha (kx nx dx) (diag_rate nu col D (fun k => kx nx dx k ^ 2) 0 None) C s n 0%nat = C n 0%nat.
Proof.
  intros Nn T ev V alpha nx dx nu model col D C s n EIG Hn H2 HC. unfold linear_exp, diagonal.
  rewrite (C73_mean_unchanged Nn T) by auto.
  assert (K0 : kx nx dx 0 = 0).
  { unfold kx. destruct (Nat.ltb_spec (2 * 0) nx); cbn [INR]; unfold Rdiv; [ring|]. assert (nx = 0)%nat by lia. subst. cbn [INR]. ring. }
  assert (Cn : col n = 0).
  { destruct (proj2 (C73_collision_profiles Nn model) col HC) as (A0 & A1 & A2 & _). destruct n as [|[|[|]]]; auto; lia. }
  unfold diag_rate. rewrite K0, Cn. replace (- (nu * 0 + D * 0 ^ 2 + 0) * s) with 0 by ring. rewrite exp_0. apply cscal_1.
Qed.
Print Assumptions C73_moments_kept.

Lemma fpow_0 y : 0 < y -> fpow 0 y = 0.
Proof. intros H. unfold fpow. destruct (Req_EM_T 0 0); [|lra]. destruct (Req_EM_T y 0); [lra|reflexivity]. Qed.
Lemma fpow_1 y : fpow 1 y = 1.
Proof. unfold fpow. destruct (Req_EM_T 1 0); [lra|]. unfold Rpower. rewrite ln_1, Rmult_0_r, exp_0. reflexivity. Qed.
Lemma fpow_range x y : 0 <= y -> 0 <= x <= 1 -> 0 <= fpow x y <= 1.
Proof.
  intros Hy [H0 H1]. unfold fpow. destruct (Req_EM_T x 0).
  - destruct (Req_EM_T y 0); lra.
  - unfold Rpower. split; [left; apply exp_pos|]. apply exp_le1. assert (ln x <= 0).
    { destruct H1 as [H1|H1]; [|subst; rewrite ln_1; lra]. left. rewrite <- ln_1. apply ln_increasing; lra. }
    nra.
Qed.
(** The Hou-Li profile with a positive order leaves the density mode alone, lies in [0, 1] and is 1 at the last mode. *)
Theorem C73_houli : forall Nn order, 0 < order -> (2 <= Nn)%nat ->
  houli_profile Nn order 0 = 0 /\ houli_profile Nn order (Nn - 1) = 1 /\
  (forall n, (n < Nn)%nat -> 0 <= houli_profile Nn order n <= 1) /\
  (forall n n', (n <= n')%nat -> (n' < Nn)%nat -> houli_profile Nn order n <= houli_profile Nn order n').
Proof.
  intros Nn order Ho HN. unfold houli_profile. rewrite Nat.max_l by lia.
  assert (P : 0 < INR (Nn - 1)) by (apply lt_0_INR; lia).
  assert (Rg : forall n, (n < Nn)%nat -> 0 <= INR n / INR (Nn - 1) <= 1).
  { intros n Hn. split; [apply Rmult_le_pos; [apply pos_INR|left; apply Rinv_0_lt_compat; auto]|].
    apply (Rmult_le_reg_r _ _ _ P). unfold Rdiv. rewrite Rmult_assoc, Rinv_l by lra. rewrite Rmult_1_r, Rmult_1_l. apply le_INR. lia. }
  split; [|split; [|split]].
  - change (INR 0) with 0. unfold Rdiv. rewrite Rmult_0_l. apply fpow_0; auto.
  - unfold Rdiv. rewrite Rinv_r by lra. apply fpow_1.
  - intros n Hn. apply fpow_range; [lra|auto].
  - intros n n' L Hn'. destruct n as [|n].
    + change (INR 0) with 0. unfold Rdiv at 1. rewrite Rmult_0_l, fpow_0 by auto. apply fpow_range; [lra|auto].
    + assert (P1 : 0 < INR (S n) / INR (Nn - 1)) by (apply Rmult_lt_0_compat; [apply SINR|apply Rinv_0_lt_compat; auto]).
      assert (L' : INR (S n) / INR (Nn - 1) <= INR n' / INR (Nn - 1)) by (apply Rmult_le_compat_r; [left; apply Rinv_0_lt_compat; auto|apply le_INR; auto]).
      unfold fpow. destruct (Req_EM_T (INR (S n) / INR (Nn - 1)) 0); [lra|]. destruct (Req_EM_T (INR n' / INR (Nn - 1)) 0); [lra|].
      apply Rle_Rpower_l; lra.
Qed.
Print Assumptions C73_houli.

Lemma tanh_gt x : -1 < tanh x < 1.
Proof.
  unfold tanh, sinh, cosh. pose proof (exp_pos x). pose proof (exp_pos (- x)).
  assert (P : 0 < (exp x + exp (- x)) / 2) by lra.
  split; apply (Rmult_lt_reg_r _ _ _ P); replace ((exp x - exp (- x)) / 2 / ((exp x + exp (- x)) / 2) * ((exp x + exp (- x)) / 2)) with ((exp x - exp (- x)) / 2) by (field; lra); lra.
Qed.
(** The "knee" profile does damp the density mode: its rate at n = 0 is positive for every knee and width, so the total
    number of particles decays (docs: "~0 below n_knee"), although the Hou-Li profile would keep it. *)
Theorem C73_knee_refuted : ~ (forall Nn T ev V alpha nx dx nu D C s n_knee width, is_eigh Nn T ev V -> (0 < Nn)%nat -> 0 < width ->
  linear_exp Nn ev V alpha (kx nx dx) (diag_rate nu (safe_col Nn) D (fun k => kx nx dx k ^ 2) 1 (Some (knee_profile n_knee width))) C s 0%nat 0%nat = C 0%nat 0%nat).
Proof.
  intros H. pose (C := fun (_ _ : nat) => c1).
  assert (EIG : is_eigh 1 (stream_T 0 1) (fun _ => 0 / 1) (fun _ _ => 1)).
  { split; intros a b Ha Hb; assert (a = 0)%nat by lia; assert (b = 0)%nat by lia; subst; unfold stream_T; cbn; ring. }
  specialize (H 1%nat (stream_T 0 1) (fun _ => 0 / 1) (fun _ _ => 1) 1 4%nat 1 0 0 C 1 45 8 EIG ltac:(lia) ltac:(lra)).
  unfold linear_exp, diagonal in H. rewrite (C73_mean_unchanged 1 (stream_T 0 1)) in H by auto.
  apply (f_equal fst) in H. unfold C, cscal, c1 in H. cbn [fst snd] in H. rewrite Rmult_1_r in H.
  assert (L : exp (- diag_rate 0 (safe_col 1) 0 (fun k => kx 4 1 k ^ 2) 1 (Some (knee_profile 45 8)) 0 0 * 1) < 1).
  { match goal with |- exp ?y < _ => pose proof (exp_increasing y 0) as X end. rewrite exp_0 in X. apply X. clear X.
    unfold diag_rate, knee_profile. destruct (Rlt_dec 0 1); [|lra]. pose proof (tanh_gt ((INR 0 - 45) / 8)). lra. }
  lra.
Qed.
Print Assumptions C73_knee_refuted.

(* ---- non-vacuity: a two-mode instance of the eigh contract ---- *)
Definition ex_ev (i : nat) : R := if (i =? 0)%nat then - sqrt (1 / 2) else sqrt (1 / 2).
Definition ex_V (n i : nat) : R := if ((n =? 0) && (i =? 0))%nat%bool then - sqrt (1 / 2) else sqrt (1 / 2).
Lemma half_half : sqrt (1 / 2) * sqrt (1 / 2) = 1 / 2. Proof. apply sqrt_sqrt. lra. Qed.
Example C73_eigh_inhabited : is_eigh 2 (stream_T 0 1) ex_ev ex_V.
Proof.
  pose proof half_half as Q. set (h := sqrt (1 / 2)) in *.
  split; intros a b Ha Hb; destruct a as [|[|]]; try lia; destruct b as [|[|]]; try lia; unfold ex_V, ex_ev, stream_T; fold h; cbn [rsum Nat.eqb andb INR]; try lra;
  replace ((0 + 1) / 2) with (1 / 2) by lra; fold h; lra.
Qed.
Example C73_dissipative_inhabited : (forall n, 0 <= safe_col 2 n) /\ (forall k, 0 <= kx 4 1 k ^ 2).
Proof. split; [intros n; unfold safe_col; cbn; lra|intros k; apply pow2_ge_0]. Qed.

(** At even resolutions the Nyquist wavenumber breaks reality: streaming a real density perturbation at the Nyquist mode makes
    the next coefficient imaginary in real space. *)
Theorem C73_nyquist_refuted : ~ (forall Nn T alpha ev V nx dx C s n g, is_eigh Nn T ev V -> 0 < dx -> (0 < nx)%nat -> (n < Nn)%nat ->
  (forall m h, snd (finv nx (C m) h) = 0) ->
  snd (finv nx (stream Nn ev V alpha (kx nx dx) C s n) g) = 0).
Proof.
  intros H. pose (C := fun n k : nat => if ((n =? 0) && (k =? 1))%nat%bool then c1 else c0).
  specialize (H 2%nat (stream_T 0 1) 1 ex_ev ex_V 2%nat 1 C (sqrt (1 / 2)) 1%nat 0%nat C73_eigh_inhabited ltac:(lra) ltac:(lia) ltac:(lia)).
  assert (A0 : forall k, angle 2 k 0 = 0) by (intros; unfold angle; cbn [INR]; unfold Rdiv; ring).
  assert (R0 : forall m h, snd (finv 2 (C m) h) = 0).
  { intros m h. unfold finv, C. cbn [csum]. assert (E : snd (cis (angle 2 1 h)) = 0).
    { unfold cis, angle. cbn [snd]. change (INR 1) with 1. replace (2 * PI * 1 * INR h / INR 2) with (0 + INR h * PI) by (cbn [INR]; field).
      clear. induction h; [cbn [INR]; rewrite Rmult_0_l, Rplus_0_r; apply sin_0|]. rewrite S_INR.
      replace (0 + (INR h + 1) * PI) with (0 + INR h * PI + PI) by ring. rewrite neg_sin. rewrite IHh. ring. }
    destruct (m =? 0)%nat; cbn [andb Nat.eqb]; unfold cadd, cmul, c0, c1; cbn [fst snd]; rewrite E; ring. }
  specialize (H R0). revert H. unfold finv. cbn [csum]. rewrite !A0, cis_0. unfold cadd, cmul, c0, c1. cbn [fst snd].
  assert (S0 : stream 2 ex_ev ex_V 1 (kx 2 1) C (sqrt (1 / 2)) 1%nat 0%nat = c0).
  { rewrite (C73_mean_unchanged 2 (stream_T 0 1)); [reflexivity|apply C73_eigh_inhabited|lia]. }
  rewrite S0. unfold c0. cbn [fst snd].
  assert (K : kx 2 1 1%nat = - PI) by (unfold kx; cbn [Nat.mul Nat.add Nat.ltb Nat.leb INR]; field).
  unfold stream. cbn [csum]. rewrite K. unfold C, ex_V, ex_ev. cbn [Nat.eqb andb].
  pose proof half_half as Q. set (h := sqrt (1 / 2)) in *.
  replace (- (1 * h * - h * - PI)) with (- (PI / 2)) by (replace (1 * h * - h * - PI) with (h * h * PI) by ring; rewrite Q; lra).
  replace (- (1 * h * h * - PI)) with (PI / 2) by (replace (1 * h * h * - PI) with (- (h * h * PI)) by ring; rewrite Q; lra).
  unfold cadd, cscal, cmul, cis, c0, c1. cbn [fst snd]. rewrite sin_neg, cos_neg, sin_PI2, cos_PI2. intros E.
  assert (2 * (h * h) = 0) by lra. rewrite Q in H. lra.
Qed.
Print Assumptions C73_nyquist_refuted.
