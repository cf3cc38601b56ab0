(** Property C87, continued: free streaming and the combined linear operator. *)
From Coq Require Import FunctionalExtensionality Reals Lra Lia ZArith List Bool Psatz.
From Verif Require Import HPForceProps Spectrax SpxExp SpxProps SpxLaws SpxMore SpxExpProps RSum Pic PicProofs PicFourier Dft HPProps.
Local Open Scope R_scope.
Local Open Scope cx_scope.

(* ------------------------------------------------------------------------------------------------ *)
(** * One direction *)
Lemma exp1_stream N lam V al k x s n : exp1 N lam V al k x s n = stream N lam V al (fun _ => k) (fun m _ => x m) s n 0%nat.
Proof. reflexivity. Qed.
Lemma exp1_ext N lam V al k x y s n : (forall m, (m < N)%nat -> x m = y m) -> exp1 N lam V al k x s n = exp1 N lam V al k y s n.
Proof. intros H. unfold exp1. apply csum_ext. intros i _. f_equal. f_equal. apply csum_ext. intros m M. rewrite H by assumption. reflexivity. Qed.
Lemma exp1_csum N lam V al k (M : nat) (c : nat -> R) (X : nat -> nat -> cplx) s n :
  exp1 N lam V al k (fun m => csum M (fun j => c j *c X j m)) s n = csum M (fun j => c j *c exp1 N lam V al k (X j) s n).
Proof.
  unfold exp1. rewrite (csum_ext N _ (fun i => csum M (fun j => c j *c (V n i *c cmul (csum N (fun m => V m i *c X j m)) (cis (- (al * s * lam i * k))))))).
  - rewrite csum_swap. apply csum_ext. intros j _. rewrite csum_scal. reflexivity.
  - intros i _. rewrite (csum_ext N _ (fun m => csum M (fun j => c j *c (V m i *c X j m)))).
    + rewrite csum_swap. rewrite (csum_ext M _ (fun j => c j *c csum N (fun m => V m i *c X j m))) by (intros; apply csum_scal).
      rewrite <- csum_mul_r, <- csum_scal. apply csum_ext. intros j _. cxu; ring.
    + intros m _. rewrite <- csum_scal. apply csum_ext. intros j _. cxu; ring.
Qed.
Lemma exp1_mul N lam V al k (a : cplx) x s n : exp1 N lam V al k (fun m => cmul a (x m)) s n = cmul a (exp1 N lam V al k x s n).
Proof.
  unfold exp1. rewrite <- csum_mul. apply csum_ext. intros i _. rewrite (csum_ext N _ (fun m => cmul a (V m i *c x m))) by (intros; cxu; ring).
  rewrite csum_mul. cxu; ring.
Qed.
Lemma exp1_add N lam V al k x y s n : exp1 N lam V al k (fun m => x m +c y m) s n = exp1 N lam V al k x s n +c exp1 N lam V al k y s n.
Proof.
  unfold exp1. rewrite <- csum_add. apply csum_ext. intros i _. rewrite (csum_ext N _ (fun m => (V m i *c x m) +c (V m i *c y m))) by (intros; cxu; ring).
  rewrite csum_add. cxu; ring.
Qed.
(** Derivative when the argument depends on time too. *)
Lemma cd_csum n (f : nat -> R -> cplx) (f' : nat -> cplx) t : (forall i, (i < n)%nat -> cderiv (f i) t (f' i)) -> cderiv (fun s => csum n (fun i => f i s)) t (csum n f').
Proof.
  intros H. split.
  - rewrite PicFourier.csum_fst. apply derive_ext with (f := fun s => rsum n (fun i => fst (f i s))); [intros; now rewrite PicFourier.csum_fst|]. apply (derive_rsum n (fun s i => fst (f i s))). intros i I. apply H. assumption.
  - rewrite PicFourier.csum_snd. apply derive_ext with (f := fun s => rsum n (fun i => snd (f i s))); [intros; now rewrite PicFourier.csum_snd|]. apply (derive_rsum n (fun s i => snd (f i s))). intros i I. apply H. assumption.
Qed.
Lemma cd_mul f g t v w : cderiv f t v -> cderiv g t w -> cderiv (fun s => cmul (f s) (g s)) t (cmul v (g t) +c cmul (f t) w).
Proof.
  intros (A & B) (C & D). unfold cmul, cadd. split; cbn [fst snd].
  - replace (fst v * fst (g t) - snd v * snd (g t) + (fst (f t) * fst w - snd (f t) * snd w)) with
      ((fst v * fst (g t) + fst (f t) * fst w) - (snd v * snd (g t) + snd (f t) * snd w)) by ring.
    apply (derivable_pt_lim_minus (fun s => fst (f s) * fst (g s)) (fun s => snd (f s) * snd (g s)));
    [exact (derivable_pt_lim_mult (fun s => fst (f s)) (fun s => fst (g s)) t _ _ A C)|exact (derivable_pt_lim_mult (fun s => snd (f s)) (fun s => snd (g s)) t _ _ B D)].
  - replace (fst v * snd (g t) + snd v * fst (g t) + (fst (f t) * snd w + snd (f t) * fst w)) with
      ((fst v * snd (g t) + fst (f t) * snd w) + (snd v * fst (g t) + snd (f t) * fst w)) by ring.
    apply (derivable_pt_lim_plus (fun s => fst (f s) * snd (g s)) (fun s => snd (f s) * fst (g s)));
    [exact (derivable_pt_lim_mult (fun s => fst (f s)) (fun s => snd (g s)) t _ _ A D)|exact (derivable_pt_lim_mult (fun s => snd (f s)) (fun s => fst (g s)) t _ _ B C)].
Qed.
Lemma cd_ext f g t v : (forall s, f s = g s) -> cderiv f t v -> cderiv g t v.
Proof. intros E (A & B). split; [apply derive_ext with (f := fun s => fst (f s))|apply derive_ext with (f := fun s => snd (f s))]; auto; intros; now rewrite E. Qed.
Lemma cd_cis th t : cderiv (fun s => cis (- (th * s))) t (cmul (0, - th) (cis (- (th * t)))).
Proof.
  unfold cis. split; cbn [fst snd cmul].
  - unfold cmul. cbn [fst snd]. replace (0 * cos (- (th * t)) - - th * sin (- (th * t))) with (th * sin (- (th * t))) by ring. apply derive_cos.
  - unfold cmul. cbn [fst snd]. replace (0 * sin (- (th * t)) + - th * cos (- (th * t))) with (- th * cos (- (th * t))) by ring. apply derive_sin.
Qed.
Definition tsum (N : nat) (T : nat -> nat -> R) (x : nat -> cplx) (n : nat) : cplx := csum N (fun m => T n m *c x m).
Lemma exp1_cd N T lam V al k (X : R -> nat -> cplx) X' t n : is_eigh N T lam V -> (n < N)%nat -> (forall m, (m < N)%nat -> cderiv (fun s => X s m) t (X' m)) ->
  cderiv (fun s => exp1 N lam V al k (X s) s n) t (exp1 N lam V al k X' t n +c cmul (0, - (al * k)) (tsum N T (exp1 N lam V al k (X t) t) n)).
Proof.
  intros E I D. eapply cd_val.
  - unfold exp1. apply cd_csum. intros i Hi. apply cd_scal. apply cd_mul.
    + apply cd_csum. intros m Hm. apply cd_scal. apply D. assumption.
    + apply cd_ext with (f := fun s => cis (- ((al * lam i * k) * s))); [intros; f_equal; ring|]. apply cd_cis.
  - cbv beta.
    assert (TE : tsum N T (exp1 N lam V al k (X t) t) n = csum N (fun i => V n i *c (lam i *c cmul (csum N (fun m => V m i *c X t m)) (cis (- (al * t * lam i * k)))))).
    { unfold tsum, exp1. exact (T_unproj N T lam V E (fun i => cmul (csum N (fun m => V m i *c X t m)) (cis (- (al * t * lam i * k)))) n I). }
    rewrite TE. unfold exp1. rewrite <- csum_mul, <- csum_add. apply csum_ext. intros i _.
    replace (- (al * lam i * k * t)) with (- (al * t * lam i * k)) by ring.
    generalize (csum N (fun m => V m i *c X' m)) (csum N (fun m => V m i *c X t m)) (cis (- (al * t * lam i * k))). intros. cxu; ring.
Qed.

(* ------------------------------------------------------------------------------------------------ *)
(** * Three directions *)
Definition ok_eig (d : dims) (a u : nat -> R) (e : eig3) : Prop :=
  is_eigh (d_n d) (stream_T (u 0%nat) (a 0%nat)) (e_lx e) (e_vx e) /\
  is_eigh (d_m d) (stream_T (u 1%nat) (a 1%nat)) (e_ly e) (e_vy e) /\
  is_eigh (d_p d) (stream_T (u 2%nat) (a 2%nat)) (e_lz e) (e_vz e).
Definition nogam : nat -> R := fun _ => 0.
Lemma fs_x_nogam d e a ks C s p m n : fs_x d e a ks nogam C s p m n = exp1 (d_n d) (e_lx e) (e_vx e) (a 0%nat) (ks 0%nat) (fun n' => C p m n') s n.
Proof. unfold fs_x, nogam. rewrite Ropp_0, Rmult_0_l, exp_0. apply cscal_1. Qed.
(** The streaming term of the equations in each direction is the ladder of that direction. *)
Lemma stream_ladder d a u ks C p m n : ok_al a -> in_dims d p m n ->
  stream_rhs d a u ks C p m n =
    cmul (0, - (a 0%nat * ks 0%nat)) (tsum (d_n d) (stream_T (u 0%nat) (a 0%nat)) (fun n' => C p m n') n)
    +c cmul (0, - (a 1%nat * ks 1%nat)) (tsum (d_m d) (stream_T (u 1%nat) (a 1%nat)) (fun m' => C p m' n) m)
    +c cmul (0, - (a 2%nat * ks 2%nat)) (tsum (d_p d) (stream_T (u 2%nat) (a 2%nat)) (fun p' => C p' m n) p).
Proof.
  intros (A0 & A1 & A2) (P & M & N). unfold tsum. rewrite !T_ladder by assumption. unfold stream_rhs, ladder.
  assert (Q : forall i, sqrt ((INR i + 1) / 2) = sqp i / sqrt 2) by (intros; unfold sqp; apply sqrt_div_alt; lra).
  assert (Q' : forall i, sqrt (INR i / 2) = sqm i / sqrt 2) by (intros; unfold sqm; apply sqrt_div_alt; lra).
  assert (SX : shiftm d 0 0 1 C p m n = (if (S n <? d_n d)%nat then C p m (S n) else c0) /\ shiftm d 0 0 (-1) C p m n = match n with O => c0 | S n' => C p m n' end).
  { split; unfold shiftm, inb; rewrite !Z.add_0_r, !Nat2Z.id.
    - destruct (Nat.ltb_spec (S n) (d_n d)) as [L|L].
      + rewrite (proj2 (Z.ltb_lt (Z.of_nat n + 1) _)) by lia. rewrite (proj2 (Z.leb_le 0 (Z.of_nat n + 1))) by lia. rewrite !(proj2 (Z.ltb_lt _ _)), !(proj2 (Z.leb_le _ _)) by lia. cbn [andb]. f_equal. lia.
      + rewrite (proj2 (Z.ltb_ge (Z.of_nat n + 1) _)) by lia. rewrite !andb_false_r. reflexivity.
    - destruct n as [|n']; [cbn [Z.of_nat Z.add]; change (0 <=? -1)%Z with false; cbn [andb]; rewrite andb_false_r; reflexivity|].
      rewrite (proj2 (Z.ltb_lt (Z.of_nat (S n') + -1) _)) by lia. rewrite (proj2 (Z.leb_le 0 (Z.of_nat (S n') + -1))) by lia. rewrite !(proj2 (Z.ltb_lt _ _)), !(proj2 (Z.leb_le _ _)) by lia. cbn [andb]. f_equal. lia. }
  assert (SY : shiftm d 0 1 0 C p m n = (if (S m <? d_m d)%nat then C p (S m) n else c0) /\ shiftm d 0 (-1) 0 C p m n = match m with O => c0 | S m' => C p m' n end).
  { split; unfold shiftm, inb; rewrite !Z.add_0_r, !Nat2Z.id.
    - destruct (Nat.ltb_spec (S m) (d_m d)) as [L|L].
      + rewrite (proj2 (Z.ltb_lt (Z.of_nat m + 1) _)) by lia. rewrite (proj2 (Z.leb_le 0 (Z.of_nat m + 1))) by lia. rewrite !(proj2 (Z.ltb_lt _ _)), !(proj2 (Z.leb_le _ _)) by lia. cbn [andb]. f_equal. lia.
      + rewrite (proj2 (Z.ltb_ge (Z.of_nat m + 1) _)) by lia. rewrite !andb_false_r. reflexivity.
    - destruct m as [|m']; [cbn [Z.of_nat Z.add]; change (0 <=? -1)%Z with false; cbn [andb]; rewrite andb_false_r; reflexivity|].
      rewrite (proj2 (Z.ltb_lt (Z.of_nat (S m') + -1) _)) by lia. rewrite (proj2 (Z.leb_le 0 (Z.of_nat (S m') + -1))) by lia. rewrite !(proj2 (Z.ltb_lt _ _)), !(proj2 (Z.leb_le _ _)) by lia. cbn [andb]. f_equal. lia. }
  assert (SZ : shiftm d 1 0 0 C p m n = (if (S p <? d_p d)%nat then C (S p) m n else c0) /\ shiftm d (-1) 0 0 C p m n = match p with O => c0 | S p' => C p' m n end).
  { split; unfold shiftm, inb; rewrite !Z.add_0_r, !Nat2Z.id.
    - destruct (Nat.ltb_spec (S p) (d_p d)) as [L|L].
      + rewrite (proj2 (Z.ltb_lt (Z.of_nat p + 1) _)) by lia. rewrite (proj2 (Z.leb_le 0 (Z.of_nat p + 1))) by lia. rewrite !(proj2 (Z.ltb_lt _ _)), !(proj2 (Z.leb_le _ _)) by lia. cbn [andb]. f_equal. lia.
      + rewrite (proj2 (Z.ltb_ge (Z.of_nat p + 1) _)) by lia. rewrite !andb_false_r. reflexivity.
    - destruct p as [|p']; [cbn [Z.of_nat Z.add]; change (0 <=? -1)%Z with false; cbn [andb]; reflexivity|].
      rewrite (proj2 (Z.ltb_lt (Z.of_nat (S p') + -1) _)) by lia. rewrite (proj2 (Z.leb_le 0 (Z.of_nat (S p') + -1))) by lia. rewrite !(proj2 (Z.ltb_lt _ _)), !(proj2 (Z.leb_le _ _)) by lia. cbn [andb]. f_equal. lia. }
  rewrite (proj1 SX), (proj2 SX), (proj1 SY), (proj2 SY), (proj1 SZ), (proj2 SZ).
  rewrite !Q.
  assert (MX : match n with O => c0 | S m0 => sqrt (INR n / 2) *c C p m m0 end = (sqm n / sqrt 2) *c match n with O => c0 | S n' => C p m n' end) by (destruct n; [cxu; ring|rewrite Q'; reflexivity]).
  assert (MY : match m with O => c0 | S m0 => sqrt (INR m / 2) *c C p m0 n end = (sqm m / sqrt 2) *c match m with O => c0 | S n' => C p n' n end) by (destruct m; [cxu; ring|rewrite Q'; reflexivity]).
  assert (MZ : match p with O => c0 | S m0 => sqrt (INR p / 2) *c C m0 m n end = (sqm p / sqrt 2) *c match p with O => c0 | S n' => C n' m n end) by (destruct p; [cxu; ring|rewrite Q'; reflexivity]).
  rewrite MX, MY, MZ.
  assert (IX : forall (b : bool) r (v : cplx), (if b then r *c v else c0) = r *c (if b then v else c0)) by (intros b r v; destruct b; [reflexivity|cxu; ring]).
  rewrite !IX.
  generalize (match n with O => c0 | S n' => C p m n' end) (match m with O => c0 | S m' => C p m' n end) (match p with O => c0 | S p' => C p' m n end)
    (if (S n <? d_n d)%nat then C p m (S n) else c0) (if (S m <? d_m d)%nat then C p (S m) n else c0) (if (S p <? d_p d)%nat then C (S p) m n else c0)
    (C p m n) (sqp n / sqrt 2) (sqp m / sqrt 2) (sqp p / sqrt 2) (sqm n / sqrt 2) (sqm m / sqrt 2) (sqm p / sqrt 2) (u 0%nat / a 0%nat) (u 1%nat / a 1%nat) (u 2%nat / a 2%nat).
  intros. cxu; ring.
Qed.
Lemma exp1_csumC N lam V al k (M : nat) (c : nat -> cplx) (X : nat -> nat -> cplx) s n :
  exp1 N lam V al k (fun m => csum M (fun j => cmul (c j) (X j m))) s n = csum M (fun j => cmul (c j) (exp1 N lam V al k (X j) s n)).
Proof.
  unfold exp1. rewrite (csum_ext N _ (fun i => csum M (fun j => cmul (c j) (V n i *c cmul (csum N (fun m => V m i *c X j m)) (cis (- (al * s * lam i * k))))))).
  - rewrite csum_swap. apply csum_ext. intros j _. rewrite csum_mul. reflexivity.
  - intros i _. rewrite (csum_ext N _ (fun m => csum M (fun j => cmul (c j) (V m i *c X j m)))).
    + rewrite csum_swap. rewrite (csum_ext M _ (fun j => cmul (c j) (csum N (fun m => V m i *c X j m)))) by (intros; apply csum_mul).
      rewrite <- csum_mul_r, <- csum_scal. apply csum_ext. intros j _. cxu; ring.
    + intros m _. rewrite <- csum_scal. apply csum_ext. intros j _. cxu; ring.
Qed.
Definition ker (N : nat) (lam : nat -> R) (V : nat -> nat -> R) (al k s : R) (n m : nat) : cplx := csum N (fun i => (V n i * V m i) *c cis (- (al * s * lam i * k))).
Lemma exp1_ker N lam V al k x s n : exp1 N lam V al k x s n = csum N (fun m => cmul (ker N lam V al k s n m) (x m)).
Proof.
  unfold exp1, ker. rewrite (csum_ext N _ (fun i => csum N (fun m => cmul ((V n i * V m i) *c cis (- (al * s * lam i * k))) (x m)))).
  - rewrite csum_swap. apply csum_ext. intros m _. apply csum_mul_r.
  - intros i _. rewrite <- csum_mul_r, <- csum_scal. apply csum_ext. intros m _. cxu; ring.
Qed.
Lemma exp1_comm N lam V al k M lam' V' al' k' (X : nat -> nat -> cplx) s t n m :
  exp1 N lam V al k (fun n' => exp1 M lam' V' al' k' (fun m' => X m' n') t m) s n = exp1 M lam' V' al' k' (fun m' => exp1 N lam V al k (fun n' => X m' n') s n) t m.
Proof.
  rewrite (exp1_ext N lam V al k _ (fun n' => csum M (fun m' => cmul (ker M lam' V' al' k' t m m') (X m' n')))) by (intros; apply exp1_ker).
  rewrite exp1_csumC. symmetry. apply exp1_ker.
Qed.
Lemma exp1_0 N T lam V al k x n : is_eigh N T lam V -> (n < N)%nat -> exp1 N lam V al k x 0 n = x n.
Proof. intros E I. exact (stream_zero N T lam V E al (fun _ => k) (fun m _ => x m) n 0%nat I). Qed.
Lemma exp1_k0 N T lam V al x s n : is_eigh N T lam V -> (n < N)%nat -> exp1 N lam V al 0 x s n = x n.
Proof. intros E I. exact (stream_k0 N T lam V E al (fun _ => 0) (fun m _ => x m) s n 0%nat I eq_refl). Qed.
Lemma exp1_plus N T lam V al k x s t n : is_eigh N T lam V -> (n < N)%nat -> exp1 N lam V al k (exp1 N lam V al k x s) t n = exp1 N lam V al k x (s + t) n.
Proof. intros E I. exact (stream_add N T lam V E al (fun _ => k) (fun m _ => x m) s t n 0%nat I). Qed.
Lemma exp1_norm N T lam V al k x s : is_eigh N T lam V -> rsum N (fun n => cabs2 (exp1 N lam V al k x s n)) = rsum N (fun n => cabs2 (x n)).
Proof. intros E. exact (stream_norm N T lam V E al (fun _ => k) (fun m _ => x m) s 0%nat). Qed.
Lemma cmul_real r v : cmul (r, 0) v = r *c v.
Proof. cxu; ring. Qed.
Lemma exp1_conj N lam V al k x y s n : (forall m, (m < N)%nat -> y m = conj (x m)) -> exp1 N lam V al (- k) y s n = conj (exp1 N lam V al k x s n).
Proof.
  intros H. rewrite !exp1_ker, csum_conj. apply csum_ext. intros m M. rewrite (H m M).
  assert (K : ker N lam V al (- k) s n m = conj (ker N lam V al k s n m)).
  { unfold ker. rewrite csum_conj. apply csum_ext. intros i _. replace (- (al * s * lam i * - k)) with (- - (al * s * lam i * k)) by ring. rewrite (cis_neg (- _)). unfold cscal, conj. cbn [fst snd]. f_equal. ring. }
  rewrite K. apply cplx_eq; unfold cmul, conj; cbn [fst snd]; ring.
Qed.

(** Free streaming without the filter, at every wavevector: starts at the given coefficients, solves the streaming part of the
    equations at every time, composes over times, is undone by going backwards, keeps the sum of squared moduli, does nothing at
    k = 0 and keeps real distributions real. *)
Definition hnorm2 (d : dims) (C : hco) : R := rsum (d_p d) (fun p => rsum (d_m d) (fun m => rsum (d_n d) (fun n => cabs2 (C p m n)))).
Lemma fs_eq d e a ks C s p m n : fs_apply d e a ks nogam C s p m n =
  exp1 (d_p d) (e_lz e) (e_vz e) (a 2%nat) (ks 2%nat) (fun p' => exp1 (d_m d) (e_ly e) (e_vy e) (a 1%nat) (ks 1%nat) (fun m' =>
    exp1 (d_n d) (e_lx e) (e_vx e) (a 0%nat) (ks 0%nat) (fun n' => C p' m' n') s n) s m) s p.
Proof.
  unfold fs_apply, fs_z. apply exp1_ext. intros p' _. unfold fs_y. apply exp1_ext. intros m' _. apply fs_x_nogam.
Qed.
Theorem C87_streaming : forall d a u e ks C, ok_al a -> ok_eig d a u e ->
  (forall p m n, in_dims d p m n -> fs_apply d e a ks nogam C 0 p m n = C p m n) /\
  (forall s p m n, in_dims d p m n -> cderiv (fun t => fs_apply d e a ks nogam C t p m n) s (stream_rhs d a u ks (fs_apply d e a ks nogam C s) p m n)) /\
  (forall s t p m n, in_dims d p m n -> fs_apply d e a ks nogam (fs_apply d e a ks nogam C s) t p m n = fs_apply d e a ks nogam C (s + t) p m n) /\
  (forall s p m n, in_dims d p m n -> fs_apply d e a ks nogam (fs_apply d e a ks nogam C s) (- s) p m n = C p m n) /\
  (forall s, hnorm2 d (fs_apply d e a ks nogam C s) = hnorm2 d C) /\
  ((forall i, ks i = 0) -> forall s p m n, in_dims d p m n -> fs_apply d e a ks nogam C s p m n = C p m n) /\
  (forall s p m n, fs_apply d e a (fun i => - ks i) nogam (fun p m n => conj (C p m n)) s p m n = conj (fs_apply d e a ks nogam C s p m n)).
Proof.
  intros d a u e ks C HA (EX & EY & EZ).
  assert (H0 : forall p m n, in_dims d p m n -> fs_apply d e a ks nogam C 0 p m n = C p m n).
  { intros p m n (P & M & N). rewrite fs_eq. rewrite (exp1_0 _ _ _ _ _ _ _ _ EZ P), (exp1_0 _ _ _ _ _ _ _ _ EY M), (exp1_0 _ _ _ _ _ _ _ _ EX N). reflexivity. }
  assert (HG : forall s t p m n, in_dims d p m n -> fs_apply d e a ks nogam (fs_apply d e a ks nogam C s) t p m n = fs_apply d e a ks nogam C (s + t) p m n).
  { intros s t p m n (P & M & N). rewrite (fs_eq d e a ks (fs_apply d e a ks nogam C s)).
    rewrite fs_eq.
    (* push the x exponential inside, then y *)
    transitivity (exp1 (d_p d) (e_lz e) (e_vz e) (a 2%nat) (ks 2%nat) (fun p' => exp1 (d_p d) (e_lz e) (e_vz e) (a 2%nat) (ks 2%nat) (fun p'' =>
        exp1 (d_m d) (e_ly e) (e_vy e) (a 1%nat) (ks 1%nat) (fun m' => exp1 (d_n d) (e_lx e) (e_vx e) (a 0%nat) (ks 0%nat) (fun n' => C p'' m' n') (s + t) n) (s + t) m) s p') t p).
    - apply exp1_ext. intros p' P'.
      rewrite (exp1_ext (d_m d) _ _ _ _ _ (fun m' => exp1 (d_p d) (e_lz e) (e_vz e) (a 2%nat) (ks 2%nat) (fun p'' =>
         exp1 (d_m d) (e_ly e) (e_vy e) (a 1%nat) (ks 1%nat) (fun m'' => exp1 (d_n d) (e_lx e) (e_vx e) (a 0%nat) (ks 0%nat) (fun n' => C p'' m'' n') (s + t) n) s m') s p')).
      + rewrite (exp1_comm (d_m d) (e_ly e) (e_vy e) (a 1%nat) (ks 1%nat) (d_p d) (e_lz e) (e_vz e) (a 2%nat) (ks 2%nat)).
        apply exp1_ext. intros p'' P''. apply (exp1_plus _ _ _ _ _ _ _ _ _ _ EY M).
      + intros m' M'. rewrite (exp1_ext (d_n d) _ _ _ _ _ (fun n' => exp1 (d_p d) (e_lz e) (e_vz e) (a 2%nat) (ks 2%nat) (fun p'' => exp1 (d_m d) (e_ly e) (e_vy e) (a 1%nat) (ks 1%nat) (fun m'' =>
            exp1 (d_n d) (e_lx e) (e_vx e) (a 0%nat) (ks 0%nat) (fun n'' => C p'' m'' n'') s n') s m') s p')) by (intros; apply fs_eq).
        rewrite (exp1_comm (d_n d) (e_lx e) (e_vx e) (a 0%nat) (ks 0%nat) (d_p d) (e_lz e) (e_vz e) (a 2%nat) (ks 2%nat)).
        apply exp1_ext. intros p'' P''.
        rewrite (exp1_comm (d_n d) (e_lx e) (e_vx e) (a 0%nat) (ks 0%nat) (d_m d) (e_ly e) (e_vy e) (a 1%nat) (ks 1%nat)).
        apply exp1_ext. intros m'' M''. apply (exp1_plus _ _ _ _ _ _ _ _ _ _ EX N).
    - apply (exp1_plus _ _ _ _ _ _ _ _ _ _ EZ P). }
  split; [exact H0|]. split; [|split; [exact HG|split; [|split; [|split]]]].
  - intros s p m n I. pose proof I as (P & M & N). rewrite stream_ladder by assumption.
    apply cd_ext with (f := fun t => exp1 (d_p d) (e_lz e) (e_vz e) (a 2%nat) (ks 2%nat) (fun p' => exp1 (d_m d) (e_ly e) (e_vy e) (a 1%nat) (ks 1%nat) (fun m' =>
      exp1 (d_n d) (e_lx e) (e_vx e) (a 0%nat) (ks 0%nat) (fun n' => C p' m' n') t n) t m) t p); [intros; symmetry; apply fs_eq|].
    assert (DX : forall p m n, (n < d_n d)%nat -> cderiv (fun t => exp1 (d_n d) (e_lx e) (e_vx e) (a 0%nat) (ks 0%nat) (fun n' => C p m n') t n) s
        (cmul (0, - (a 0%nat * ks 0%nat)) (tsum (d_n d) (stream_T (u 0%nat) (a 0%nat)) (exp1 (d_n d) (e_lx e) (e_vx e) (a 0%nat) (ks 0%nat) (fun n' => C p m n') s) n))).
    { intros p' m' n' N'. eapply cd_val; [apply (exp1_cd (d_n d) _ (e_lx e) (e_vx e) (a 0%nat) (ks 0%nat) (fun _ n'' => C p' m' n'') (fun _ => c0) s n' EX N'); intros; apply cd_const|].
      rewrite (exp1_ext _ _ _ _ _ (fun _ => c0) (fun _ => cmul c0 c0)) by (intros; cxu; ring). rewrite (exp1_mul _ _ _ _ _ c0 (fun _ => c0)). cxu; ring. }
    assert (DY : forall p m n, (m < d_m d)%nat -> (n < d_n d)%nat -> cderiv (fun t => exp1 (d_m d) (e_ly e) (e_vy e) (a 1%nat) (ks 1%nat) (fun m' => exp1 (d_n d) (e_lx e) (e_vx e) (a 0%nat) (ks 0%nat) (fun n' => C p m' n') t n) t m) s
        (cmul (0, - (a 0%nat * ks 0%nat)) (tsum (d_n d) (stream_T (u 0%nat) (a 0%nat)) (fun n' => exp1 (d_m d) (e_ly e) (e_vy e) (a 1%nat) (ks 1%nat) (fun m' => exp1 (d_n d) (e_lx e) (e_vx e) (a 0%nat) (ks 0%nat) (fun n' => C p m' n') s n') s m) n)
         +c cmul (0, - (a 1%nat * ks 1%nat)) (tsum (d_m d) (stream_T (u 1%nat) (a 1%nat)) (exp1 (d_m d) (e_ly e) (e_vy e) (a 1%nat) (ks 1%nat) (fun m' => exp1 (d_n d) (e_lx e) (e_vx e) (a 0%nat) (ks 0%nat) (fun n' => C p m' n') s n) s) m))).
    { intros p' m' n' M' N'. eapply cd_val; [apply (exp1_cd (d_m d) _ (e_ly e) (e_vy e) (a 1%nat) (ks 1%nat) (fun t m' => exp1 (d_n d) (e_lx e) (e_vx e) (a 0%nat) (ks 0%nat) (fun n' => C p' m' n') t n')
        (fun m'' => cmul (0, - (a 0%nat * ks 0%nat)) (tsum (d_n d) (stream_T (u 0%nat) (a 0%nat)) (exp1 (d_n d) (e_lx e) (e_vx e) (a 0%nat) (ks 0%nat) (fun n' => C p' m'' n') s) n')) s m' EY M'); intros; apply DX; assumption|].
      f_equal. rewrite exp1_mul. unfold tsum. rewrite exp1_csum. reflexivity. }
    eapply cd_val; [apply (exp1_cd (d_p d) _ (e_lz e) (e_vz e) (a 2%nat) (ks 2%nat) (fun t p' => exp1 (d_m d) (e_ly e) (e_vy e) (a 1%nat) (ks 1%nat) (fun m' => exp1 (d_n d) (e_lx e) (e_vx e) (a 0%nat) (ks 0%nat) (fun n' => C p' m' n') t n) t m)
        (fun p => cmul (0, - (a 0%nat * ks 0%nat)) (tsum (d_n d) (stream_T (u 0%nat) (a 0%nat)) (fun n' => exp1 (d_m d) (e_ly e) (e_vy e) (a 1%nat) (ks 1%nat) (fun m' => exp1 (d_n d) (e_lx e) (e_vx e) (a 0%nat) (ks 0%nat) (fun n' => C p m' n') s n') s m) n)
         +c cmul (0, - (a 1%nat * ks 1%nat)) (tsum (d_m d) (stream_T (u 1%nat) (a 1%nat)) (exp1 (d_m d) (e_ly e) (e_vy e) (a 1%nat) (ks 1%nat) (fun m' => exp1 (d_n d) (e_lx e) (e_vx e) (a 0%nat) (ks 0%nat) (fun n' => C p m' n') s n) s) m)) s p EZ P); intros; apply DY; assumption|].
    rewrite exp1_add, !exp1_mul. unfold tsum. rewrite !exp1_csum.
    f_equal; [f_equal|]; f_equal; apply csum_ext; intros j _; rewrite fs_eq; reflexivity.
  - intros s p m n I. rewrite HG by assumption. replace (s + - s) with 0 by ring. apply H0. assumption.
  - intros s. unfold hnorm2.
    transitivity (rsum (d_p d) (fun p => rsum (d_m d) (fun m => rsum (d_n d) (fun n => cabs2 (exp1 (d_p d) (e_lz e) (e_vz e) (a 2%nat) (ks 2%nat) (fun p' => exp1 (d_m d) (e_ly e) (e_vy e) (a 1%nat) (ks 1%nat) (fun m' =>
      exp1 (d_n d) (e_lx e) (e_vx e) (a 0%nat) (ks 0%nat) (fun n' => C p' m' n') s n) s m) s p))))).
    { apply rsum_ext. intros p _. apply rsum_ext. intros m _. apply rsum_ext. intros n _. rewrite fs_eq. reflexivity. }
    rewrite (rsum_swap (d_p d) (d_m d)).
    rewrite (rsum_ext (d_m d) _ (fun m => rsum (d_n d) (fun n => rsum (d_p d) (fun p => cabs2 (exp1 (d_m d) (e_ly e) (e_vy e) (a 1%nat) (ks 1%nat) (fun m' => exp1 (d_n d) (e_lx e) (e_vx e) (a 0%nat) (ks 0%nat) (fun n' => C p m' n') s n) s m))))).
    2:{ intros m _. rewrite rsum_swap. apply rsum_ext. intros n _. apply (exp1_norm _ _ _ _ _ _ _ _ EZ). }
    rewrite rsum_swap.
    rewrite (rsum_ext (d_n d) _ (fun n => rsum (d_p d) (fun p => rsum (d_m d) (fun m => cabs2 (exp1 (d_n d) (e_lx e) (e_vx e) (a 0%nat) (ks 0%nat) (fun n' => C p m n') s n))))).
    2:{ intros n _. rewrite rsum_swap. apply rsum_ext. intros p _. apply (exp1_norm _ _ _ _ _ _ _ _ EY). }
    rewrite rsum_swap. apply rsum_ext. intros p _. rewrite rsum_swap. apply rsum_ext. intros m _. apply (exp1_norm _ _ _ _ _ _ _ _ EX).
  - intros K s p m n (P & M & N). rewrite fs_eq, !K. rewrite (exp1_k0 _ _ _ _ _ _ _ _ EZ P), (exp1_k0 _ _ _ _ _ _ _ _ EY M), (exp1_k0 _ _ _ _ _ _ _ _ EX N). reflexivity.
  - intros s p m n. rewrite !fs_eq. apply exp1_conj. intros p' _. apply exp1_conj. intros m' _. apply exp1_conj. reflexivity.
Qed.
Print Assumptions C87_streaming.

(* ------------------------------------------------------------------------------------------------ *)
(** * The combined linear operator *)
Lemma diag_eq d nu D k2 C s p m n : diag_exp d nu D k2 C s p m n = exp (- (nu * colm d p m n + D * k2) * s) *c C p m n.
Proof. unfold diag_exp. f_equal. f_equal. ring. Qed.
Lemma cd_exp r t : derivable_pt_lim (fun s => exp (r * s)) t (r * exp (r * t)).
Proof.
  pose proof (derivable_pt_lim_comp (fun s => r * s) exp t r (exp (r * t)) (d_arg r t) (derivable_pt_lim_exp _)) as H. rewrite Rmult_comm in H. exact H.
Qed.
Lemma cd_rmul (r : R -> R) f t r' v : derivable_pt_lim r t r' -> cderiv f t v -> cderiv (fun s => r s *c f s) t (r' *c f t +c r t *c v).
Proof.
  intros A (B & C). split; cbn; [apply (derivable_pt_lim_mult r (fun s => fst (f s)))|apply (derivable_pt_lim_mult r (fun s => snd (f s)))]; assumption.
Qed.
Lemma species_eq d e a nu D g C s p m n y x z : species_exp d e a nogam nu D g C s p m n y x z =
  exp (- (nu * colm d p m n + D * k2g g y x z) * s) *c fs_apply d e a (fun i => nab g i y x z) nogam (at_pt C y x z) s p m n.
Proof. unfold species_exp. apply diag_eq. Qed.
Lemma stream_scal d a u ks r C p m n : ok_al a -> in_dims d p m n -> stream_rhs d a u ks (fun p m n => r *c C p m n) p m n = r *c stream_rhs d a u ks C p m n.
Proof.
  intros A I. rewrite !stream_ladder by assumption. unfold tsum.
  rewrite (csum_ext (d_n d) _ (fun j => r *c (stream_T (u 0%nat) (a 0%nat) n j *c C p m j))) by (intros; cxu; ring).
  rewrite (csum_ext (d_m d) _ (fun j => r *c (stream_T (u 1%nat) (a 1%nat) m j *c C p j n))) by (intros; cxu; ring).
  rewrite (csum_ext (d_p d) _ (fun j => r *c (stream_T (u 2%nat) (a 2%nat) p j *c C j m n))) by (intros; cxu; ring).
  rewrite !csum_scal. generalize (csum (d_n d) (fun i => stream_T (u 0%nat) (a 0%nat) n i *c C p m i)) (csum (d_m d) (fun i => stream_T (u 1%nat) (a 1%nat) m i *c C p i n)) (csum (d_p d) (fun i => stream_T (u 2%nat) (a 2%nat) p i *c C i m n)).
  intros. cxu; ring.
Qed.
Lemma stream_ext' d a u ks C C' p m n : ok_al a -> in_dims d p m n -> (forall p m n, in_dims d p m n -> C p m n = C' p m n) -> stream_rhs d a u ks C p m n = stream_rhs d a u ks C' p m n.
Proof.
  intros A I H. pose proof I as (P & M & N). rewrite !stream_ladder by assumption. unfold tsum.
  f_equal; [f_equal|]; f_equal; apply csum_ext; intros j J; rewrite H by (unfold in_dims; auto); reflexivity.
Qed.
(** The rates of the linear part of the equations, as in C86_paths_agree. *)
Lemma species_deriv c A d e a u Ck s p m n y x z : ok_al a -> ok_eig d a u e -> in_dims d p m n -> (s = 0 \/ a_nu A = 0) ->
  cderiv (fun t => species_exp d e a nogam (a_nu A) (a_D A) (x_g c) Ck t p m n y x z) s
    (linear_part c A d a u (species_exp d e a nogam (a_nu A) (a_D A) (x_g c) Ck s) p m n y x z).
Proof.
  intros HA HE I Z. destruct (C87_streaming d a u e (fun i => nab (x_g c) i y x z) (at_pt Ck y x z) HA HE) as (S0 & SD & _).
  set (r := fun p m n => a_nu A * colm d p m n + a_D A * k2g (x_g c) y x z).
  apply cd_ext with (f := fun t => exp (- r p m n * t) *c fs_apply d e a (fun i => nab (x_g c) i y x z) nogam (at_pt Ck y x z) t p m n); [intros t; symmetry; apply species_eq|].
  eapply cd_val; [apply cd_rmul; [apply cd_exp|apply SD; assumption]|].
  unfold linear_part.
  rewrite (stream_ext' d a u (fun i => nab (x_g c) i y x z) (at_pt (species_exp d e a nogam (a_nu A) (a_D A) (x_g c) Ck s) y x z)
     (fun p' m' n' => exp (- r p m n * s) *c fs_apply d e a (fun i => nab (x_g c) i y x z) nogam (at_pt Ck y x z) s p' m' n')); [|assumption|assumption|].
  - rewrite stream_scal by assumption. rewrite (species_eq d e a (a_nu A) (a_D A) (x_g c) Ck s p m n y x z). fold (r p m n).
    generalize (stream_rhs d a u (fun i => nab (x_g c) i y x z) (fs_apply d e a (fun i => nab (x_g c) i y x z) nogam (at_pt Ck y x z) s) p m n)
      (fs_apply d e a (fun i => nab (x_g c) i y x z) nogam (at_pt Ck y x z) s p m n) (exp (- r p m n * s)). intros. cxu; ring.
  - intros p' m' n' I'. unfold at_pt. rewrite species_eq. f_equal. unfold r. destruct Z as [-> | ->]; f_equal; ring.
Qed.
(** Without collisions (nu = 0) and filter, the combined operator is the exact solution operator of the linear part of the
    equations: it solves them at every time and composes; with collisions it agrees with them to first order at s = 0. Fields are
    always exact; fixed ions never change. *)
Definition ok_lin (c : spcfg) (A : spargs) (G : eigs) : Prop := ok_al (a_al A) /\ ok_al (ions (a_al A)) /\
  ok_eig (x_de c) (a_al A) (a_u A) (g_e G) /\ ok_eig (x_di c) (ions (a_al A)) (ions (a_u A)) (g_i G).
Theorem C87_combined : forall c A G st y x z, ok_lin c A G ->
  (forall s, s = 0 \/ a_nu A = 0 ->
    (forall p m n, in_dims (x_de c) p m n -> cderiv (fun t => c_e (lin_exp c A G nogam st t) p m n y x z) s (linear_part c A (x_de c) (a_al A) (a_u A) (c_e (lin_exp c A G nogam st s)) p m n y x z)) /\
    (x_static c = false -> forall p m n, in_dims (x_di c) p m n ->
       cderiv (fun t => c_i (lin_exp c A G nogam st t) p m n y x z) s (linear_part c A (x_di c) (ions (a_al A)) (ions (a_u A)) (c_i (lin_exp c A G nogam st s)) p m n y x z))) /\
  (forall s i, (i < 6)%nat -> cderiv (fun t => f_k (lin_exp c A G nogam st t) i y x z) s (curls (x_g c) (f_k (lin_exp c A G nogam st s)) i y x z)) /\
  (forall p m n, in_dims (x_de c) p m n -> c_e (lin_exp c A G nogam st 0) p m n y x z = c_e st p m n y x z) /\
  (x_static c = true -> forall s, c_i (lin_exp c A G nogam st s) = c_i st) /\
  (a_nu A = 0 -> forall s t p m n, in_dims (x_de c) p m n ->
     c_e (lin_exp c A G nogam (lin_exp c A G nogam st s) t) p m n y x z = c_e (lin_exp c A G nogam st (s + t)) p m n y x z).
Proof.
  intros c A G st y x z (Ae & Ai & Ee & Ei). split; [|split; [|split; [|split]]].
  - intros s Z. split; [intros p m n I; apply species_deriv; assumption|]. intros St p m n I. unfold lin_exp. cbn [c_i]. rewrite St.
    change (fun t => species_exp (x_di c) (g_i G) (ions (a_al A)) (fun _ => 0) (a_nu A) (a_D A) (x_g c) (c_i st) t p m n y x z) with (fun t => species_exp (x_di c) (g_i G) (ions (a_al A)) nogam (a_nu A) (a_D A) (x_g c) (c_i st) t p m n y x z).
    apply species_deriv; assumption.
  - intros s i I. destruct (C87_maxwell (fun j => nab (x_g c) j y x z) (fun j => f_k st j y x z)) as (_ & M & _). apply (M s i I).
  - intros p m n I. unfold lin_exp. cbn [c_e]. rewrite species_eq. rewrite (proj1 (C87_streaming _ _ _ _ _ _ Ae Ee)) by assumption. rewrite Rmult_0_r, exp_0. apply cscal_1.
  - intros St s. unfold lin_exp. cbn [c_i]. rewrite St. reflexivity.
  - intros N0 s t p m n I. unfold lin_exp. cbn [c_e]. rewrite !species_eq. rewrite N0.
    set (ks := fun i => nab (x_g c) i y x z).
    set (r := 0 * colm (x_de c) p m n + a_D A * k2g (x_g c) y x z).
    assert (E : fs_apply (x_de c) (g_e G) (a_al A) ks nogam (at_pt (species_exp (x_de c) (g_e G) (a_al A) nogam 0 (a_D A) (x_g c) (c_e st) s) y x z) t p m n =
       exp (- r * s) *c fs_apply (x_de c) (g_e G) (a_al A) ks nogam (fs_apply (x_de c) (g_e G) (a_al A) ks nogam (at_pt (c_e st) y x z) s) t p m n).
    { rewrite !fs_eq. rewrite <- (cmul_real (exp (- r * s))). rewrite <- exp1_mul. apply exp1_ext. intros p' P'. rewrite <- exp1_mul. apply exp1_ext. intros m' M'. rewrite <- exp1_mul. apply exp1_ext. intros n' N'.
      unfold at_pt at 1. rewrite species_eq. fold ks. rewrite cmul_real. f_equal. f_equal. unfold r. ring. }
    rewrite E. destruct (C87_streaming (x_de c) (a_al A) (a_u A) (g_e G) ks (at_pt (c_e st) y x z) Ae Ee) as (_ & _ & GR & _). rewrite GR by assumption.
    rewrite cscal_cscal, <- exp_plus. f_equal. f_equal. ring.
Qed.
Print Assumptions C87_combined.

(** With non-negative rates and time the combined operator never increases the sum of squared moduli at any wavevector, whatever
    the filter; the number of particles (the (0,0,0) coefficient at k = 0) never changes. *)
Lemma gamma_nonneg N s o n : 0 <= gamma_n N s o n.
Proof.
  unfold gamma_n. destruct (Rlt_dec 0 s); [|lra]. destruct (0 <? o)%nat; [|lra]. apply Rmult_le_pos; [lra|]. apply pow_le.
  destruct N as [|N]; [change (INR 0) with 0; unfold Rdiv; rewrite Rinv_0; lra|]. apply Rmult_le_pos; [apply pos_INR|]. left. apply Rinv_0_lt_compat. apply lt_0_INR. lia.
Qed.
Lemma gamma_0 N s o : gamma_n N s o 0 = 0.
Proof.
  unfold gamma_n. destruct (Rlt_dec 0 s); [|reflexivity]. destruct o as [|o]; [reflexivity|]. cbn [Nat.ltb Nat.leb]. change (INR 0) with 0. unfold Rdiv. rewrite Rmult_0_l, pow_i by lia. ring.
Qed.
Lemma fs_gam d e a u ks gam C s : ok_eig d a u e -> (forall n, 0 <= gam n) -> hnorm2 d (fs_apply d e a ks gam C s) <= hnorm2 d C.
Proof.
  intros (EX & EY & EZ) G. unfold hnorm2.
  apply Rle_trans with (rsum (d_p d) (fun p => rsum (d_m d) (fun m => rsum (d_n d) (fun n => cabs2 (fs_x d e a ks gam C s p m n))))).
  - right. unfold fs_apply. rewrite (rsum_swap (d_p d) (d_m d)).
    rewrite (rsum_ext (d_m d) _ (fun m => rsum (d_n d) (fun n => rsum (d_p d) (fun p => cabs2 (fs_y d e a ks (fs_x d e a ks gam C s) s p m n))))).
    2:{ intros m _. rewrite rsum_swap. apply rsum_ext. intros n _. unfold fs_z. apply (exp1_norm _ _ _ _ _ _ _ _ EZ). }
    rewrite rsum_swap. rewrite (rsum_ext (d_n d) _ (fun n => rsum (d_p d) (fun p => rsum (d_m d) (fun m => cabs2 (fs_x d e a ks gam C s p m n))))).
    2:{ intros n _. rewrite rsum_swap. apply rsum_ext. intros p _. unfold fs_y. apply (exp1_norm _ _ _ _ _ _ _ _ EY). }
    rewrite rsum_swap. apply rsum_ext. intros p _. rewrite rsum_swap. reflexivity.
  - apply rsum_le. intros p _. apply rsum_le. intros m _. rewrite <- (exp1_norm _ _ _ _ (a 0%nat) (ks 0%nat) (fun n => C p m n) s EX). apply rsum_le. intros n _.
    unfold fs_x. rewrite cabs2_scal. assert (X : 0 < exp (- gam n * Rabs s) <= 1) by (split; [apply exp_pos|]; apply exp_le1; pose proof (Rmult_le_pos _ _ (G n) (Rabs_pos s)); lra).
    assert (0 <= cabs2 (exp1 (d_n d) (e_lx e) (e_vx e) (a 0%nat) (ks 0%nat) (fun n' => C p m n') s n)) by (unfold cabs2; pose proof (pow2_ge_0 (fst (exp1 (d_n d) (e_lx e) (e_vx e) (a 0%nat) (ks 0%nat) (fun n' => C p m n') s n))); pose proof (pow2_ge_0 (snd (exp1 (d_n d) (e_lx e) (e_vx e) (a 0%nat) (ks 0%nat) (fun n' => C p m n') s n))); nra).
    assert (exp (- gam n * Rabs s) * exp (- gam n * Rabs s) <= 1) by nra. nra.
Qed.
Theorem C87_dissipative : forall d e a u strength order nu D g C s y x z, ok_eig d a u e -> 0 <= nu -> 0 <= D -> 0 <= s ->
  hnorm2 d (at_pt (species_exp d e a (gamma_n (d_n d) strength order) nu D g C s) y x z) <= hnorm2 d (at_pt C y x z).
Proof.
  intros d e a u st o nu D g C s y x z E Hnu HD Hs.
  apply Rle_trans with (hnorm2 d (fs_apply d e a (fun i => nab g i y x z) (gamma_n (d_n d) st o) (at_pt C y x z) s)).
  - unfold hnorm2. apply rsum_le. intros p P. apply rsum_le. intros m M. apply rsum_le. intros n N. unfold at_pt at 1, species_exp. rewrite diag_eq, cabs2_scal.
    assert (0 <= colm d p m n) by (unfold colm; pose proof (proj1 (col_range _ _ P)); pose proof (proj1 (col_range _ _ M)); pose proof (proj1 (col_range _ _ N)); lra).
    assert (0 <= k2g g y x z) by (unfold k2g; pose proof (pow2_ge_0 (kint (s_nx g) x)); pose proof (pow2_ge_0 (kint (s_ny g) y)); pose proof (pow2_ge_0 (kint (s_nz g) z)); lra).
    set (w := nu * colm d p m n + D * k2g g y x z). assert (0 <= w) by (unfold w; pose proof (Rmult_le_pos nu (colm d p m n)); pose proof (Rmult_le_pos D (k2g g y x z)); lra).
    assert (X : 0 < exp (- w * s) <= 1) by (split; [apply exp_pos|]; apply exp_le1; pose proof (Rmult_le_pos w s); lra).
    match goal with |- context [cabs2 ?v] => assert (0 <= cabs2 v) by (unfold cabs2; pose proof (pow2_ge_0 (fst v)); pose proof (pow2_ge_0 (snd v)); nra); generalize dependent (cabs2 v) end. intros q Hq. assert (exp (- w * s) * exp (- w * s) <= 1) by nra. nra.
  - apply fs_gam with (u := u); [assumption|]. intros; apply gamma_nonneg.
Qed.
Print Assumptions C87_dissipative.
Theorem C87_number : forall d e a u strength order nu D g C s, ok_grid3 g -> ok_dims d -> ok_eig d a u e ->
  species_exp d e a (gamma_n (d_n d) strength order) nu D g C s 0%nat 0%nat 0%nat 0%nat 0%nat 0%nat = C 0%nat 0%nat 0%nat 0%nat 0%nat 0%nat.
Proof.
  intros d e a u st o nu D g C s Hg (N & M & P) (EX & EY & EZ). unfold species_exp. rewrite diag_eq. unfold fs_apply, fs_z, fs_y, fs_x.
  rewrite !nab_0 by assumption. rewrite (exp1_k0 _ _ _ _ _ _ _ _ EZ P), (exp1_k0 _ _ _ _ _ _ _ _ EY M), (exp1_k0 _ _ _ _ _ _ _ _ EX N). rewrite gamma_0.
  unfold colm, k2g. rewrite !col_low by lia. destruct Hg as (X & Y & Z & _). rewrite !kint_0 by assumption. unfold at_pt.
  replace (- (nu * (0 + 0 + 0) + D * (0 ^ 2 + 0 ^ 2 + 0 ^ 2)) * s) with 0 by ring. rewrite Ropp_0, Rmult_0_l, exp_0. rewrite !cscal_1. reflexivity.
Qed.
Print Assumptions C87_number.

(** Refuted: the combined operator treats the linear terms exactly. Collisions do not commute with streaming: with four modes in
    x, any collision frequency and any k, two steps differ from one step of twice the length, so it is not exp(L s). *)
Lemma zero_right f v : (forall s, 0 < s -> f s = 0) -> f 0 = 0 -> derivable_pt_lim f 0 v -> v = 0.
Proof.
  intros P Z D. destruct (Req_dec v 0) as [|N]; [assumption|]. exfalso.
  destruct (D (Rabs v) (Rabs_pos_lt _ N)) as [del H]. pose proof (cond_pos del) as DP. specialize (H (del / 2)).
  rewrite Rplus_0_l, Z, P in H by lra. replace ((0 - 0) / (del / 2) - v) with (- v) in H by (field; lra). rewrite Rabs_Ropp in H.
  assert (Rabs (del / 2) < del) by (rewrite Rabs_right by lra; lra). specialize (H ltac:(lra) ltac:(assumption)). lra.
Qed.
Definition delta3 (i : nat) : hco := fun p m n => if ((p =? 0) && (m =? 0) && (n =? i))%nat%bool then c1 else c0.
Lemma fs_scal d e a ks C r s p m n : fs_apply d e a ks nogam (fun p m n => r *c C p m n) s p m n = r *c fs_apply d e a ks nogam C s p m n.
Proof. rewrite !fs_eq. rewrite <- (cmul_real r). rewrite <- exp1_mul. apply exp1_ext. intros p' _. rewrite <- exp1_mul. apply exp1_ext. intros m' _. rewrite <- exp1_mul. apply exp1_ext. intros n' _. rewrite cmul_real. reflexivity. Qed.
Lemma fs_ext d e a ks C C' s p m n : (forall p m n, in_dims d p m n -> C p m n = C' p m n) -> (n < d_n d)%nat -> fs_apply d e a ks nogam C s p m n = fs_apply d e a ks nogam C' s p m n.
Proof. intros H N. rewrite !fs_eq. apply exp1_ext. intros p' P. apply exp1_ext. intros m' M. apply exp1_ext. intros n' N'. apply H. unfold in_dims. auto. Qed.
Lemma stream_delta d a u ks j : ok_al a -> in_dims d 0 0 (S j) -> stream_rhs d a u ks (delta3 (S j)) 0%nat 0%nat j = cmul (0, - (a 0%nat * ks 0%nat)) (sqrt ((INR j + 1) / 2), 0).
Proof.
  intros A (P & M & N). rewrite stream_ladder by (auto; unfold in_dims; lia). unfold tsum.
  rewrite (csum_single (d_n d) (S j)); [|assumption|intros i I E; unfold delta3; rewrite (proj2 (Nat.eqb_neq i (S j))) by assumption; cbn [andb Nat.eqb]; cxu; ring].
  assert (Z0 : forall T (N : nat) X, csum N (fun m0 => T m0 *c delta3 (S j) X m0 j) = c0) by (intros T N' X; rewrite (csum_ext N' _ (fun _ => c0)); [apply csum_zero|]; intros i _; unfold delta3; rewrite (proj2 (Nat.eqb_neq j (S j))) by lia; rewrite andb_false_r; cxu; ring).
  assert (Z1 : forall T (N : nat) X, csum N (fun m0 => T m0 *c delta3 (S j) m0 X j) = c0) by (intros T N' X; rewrite (csum_ext N' _ (fun _ => c0)); [apply csum_zero|]; intros i _; unfold delta3; rewrite (proj2 (Nat.eqb_neq j (S j))) by lia; rewrite andb_false_r; cxu; ring).
  rewrite Z0, Z1. unfold delta3, stream_T. rewrite !Nat.eqb_refl. rewrite (proj2 (Nat.eqb_neq j (S (S j)))), (proj2 (Nat.eqb_neq j (S j))) by lia. cbn [Nat.eqb andb]. cxu; ring.
Qed.
Theorem C87_collisions_refuted : forall d e a u ks nu D k2, ok_al a -> ok_eig d a u e -> (4 <= d_n d)%nat -> (0 < d_m d)%nat -> (0 < d_p d)%nat -> ks 0%nat <> 0 -> nu <> 0 ->
  ~ (forall C s t p m n, in_dims d p m n ->
       diag_exp d nu D k2 (fs_apply d e a ks nogam (diag_exp d nu D k2 (fs_apply d e a ks nogam C s) s) t) t p m n = diag_exp d nu D k2 (fs_apply d e a ks nogam C (s + t)) (s + t) p m n).
Proof.
  intros d e a u ks nu D k2 HA HE N4 M0 P0 K0 Nu H.
  assert (I2 : in_dims d 0 0 2) by (unfold in_dims; lia). assert (I3 : in_dims d 0 0 3) by (unfold in_dims; lia).
  set (r2 := nu * colm d 0 0 2 + D * k2). set (r3 := nu * colm d 0 0 3 + D * k2).
  assert (R : r3 - r2 <> 0).
  { unfold r2, r3, colm. rewrite !(col_low _ 0), (col_low _ 2) by lia. unfold col_term. rewrite (proj2 (Nat.ltb_lt 3 (d_n d))) by lia.
    replace (INR 3) with 3 by (cbn; ring). assert (4 <= INR (d_n d)) by (apply le_INR in N4; replace (INR 4) with 4 in N4 by (cbn; ring); exact N4).
    assert (0 < 3 * (3 - 1) * (3 - 2) / ((INR (d_n d) - 1) * (INR (d_n d) - 2) * (INR (d_n d) - 3))).
    { apply Rdiv_lt_0_compat; [lra|]. apply Rmult_lt_0_compat; [apply Rmult_lt_0_compat|]; lra. }
    set (q := 3 * (3 - 1) * (3 - 2) / _) in *. replace (nu * (q + 0 + 0) + D * k2 - (nu * (0 + 0 + 0) + D * k2)) with (nu * q) by ring. apply Rmult_integral_contrapositive_currified; lra. }
  assert (Z : forall s, fs_apply d e a ks nogam (delta3 3) s 0%nat 0%nat 2%nat = c0).
  { intros t. destruct (C87_streaming d a u e ks (delta3 3) HA HE) as (_ & _ & _ & INV & _).
    specialize (H (fs_apply d e a ks nogam (delta3 3) (- 1)) 1 t 0%nat 0%nat 2%nat I2). rewrite !diag_eq in H. fold r2 in H.
    assert (B : fs_apply d e a ks nogam (diag_exp d nu D k2 (fs_apply d e a ks nogam (fs_apply d e a ks nogam (delta3 3) (- 1)) 1) 1) t 0%nat 0%nat 2%nat = exp (- r3 * 1) *c fs_apply d e a ks nogam (delta3 3) t 0%nat 0%nat 2%nat).
    { rewrite <- fs_scal. apply fs_ext; [|lia]. intros p m n I. rewrite diag_eq. pose proof (INV (- 1) p m n I) as J. replace (- - 1) with 1 in J by ring. rewrite J.
      unfold delta3. destruct ((p =? 0) && (m =? 0) && (n =? 3))%nat%bool eqn:E; [|cxu; ring].
      apply andb_prop in E. destruct E as (E & E3). apply andb_prop in E. destruct E as (E1 & E2). apply Nat.eqb_eq in E1, E2, E3. subst. reflexivity. }
    rewrite B in H. assert (GR := proj1 (proj2 (proj2 (C87_streaming d a u e ks (delta3 3) HA HE))) (- 1) (1 + t) 0%nat 0%nat 2%nat I2).
    replace (- 1 + (1 + t)) with t in GR by ring. rewrite GR in H. rewrite cscal_cscal in H. 
    set (v := fs_apply d e a ks nogam (delta3 3) t 0%nat 0%nat 2%nat) in *.
    assert (Q : (exp (- r2 * t) * exp (- r3 * 1) - exp (- r2 * (1 + t))) *c v = c0).
    { apply cplx_eq; [apply (f_equal fst) in H|apply (f_equal snd) in H]; unfold cscal, c0 in *; cbn [fst snd] in *; lra. }
    assert (QN : exp (- r2 * t) * exp (- r3 * 1) - exp (- r2 * (1 + t)) <> 0).
    { rewrite <- exp_plus. intros QQ. assert (EE : exp (- r2 * t + - r3 * 1) = exp (- r2 * (1 + t))) by lra. apply exp_inv in EE. lra. }
    apply cplx_eq; [apply (f_equal fst) in Q|apply (f_equal snd) in Q]; unfold cscal, c0 in *; cbn [fst snd] in *; apply Rmult_integral in Q; destruct Q; [contradiction|assumption|contradiction|assumption]. }
  destruct (C87_streaming d a u e ks (delta3 3) HA HE) as (S0 & SD & _). specialize (SD 0 0%nat 0%nat 2%nat I2).
  rewrite (stream_ext' d a u ks _ (delta3 3)) in SD by auto. rewrite stream_delta in SD by assumption. destruct SD as (_ & SD). unfold cmul in SD. cbn [fst snd] in SD.
  apply zero_right in SD; [|intros; rewrite Z; reflexivity|rewrite Z; reflexivity].
  assert (0 < sqrt ((INR 2 + 1) / 2)) by (apply sqrt_lt_R0; cbn [INR]; lra). destruct HA as (A0 & _).
  assert (W : a 0%nat * ks 0%nat <> 0) by (apply Rmult_integral_contrapositive_currified; assumption). apply W.
  apply Rmult_eq_reg_r with (sqrt ((INR 2 + 1) / 2)); lra.
Qed.
Print Assumptions C87_collisions_refuted.
