(** Discrete Fourier transforms of complex arrays, and the half-spectrum transforms of real arrays: the
    algebra shared by every spectral operator of adept. Nothing here models adept code: [cfft], [ifft],
    [rfft], [irfft] are the numpy/JAX transforms, whose definitions (numpy.fft documentation) are taken
    as given. *)
From Coq Require Import Reals Lra Lia ZArith Psatz Bool.
From Verif Require Import RSum Pic PicProofs PicFourier.
Local Open Scope R_scope.

Definition c1 : cplx := (1, 0).
Definition cneg (a : cplx) : cplx := (- fst a, - snd a).
Definition csub (a b : cplx) : cplx := cadd a (cneg b).
Definition conj (a : cplx) : cplx := (fst a, - snd a).
Definition cabs2 (a : cplx) : R := fst a * fst a + snd a * snd a.

Lemma cplx_eq (a b : cplx) : fst a = fst b -> snd a = snd b -> a = b.
Proof. destruct a, b; cbn; intros; f_equal; assumption. Qed.
Ltac creal := apply cplx_eq; unfold csub, cadd, cmul, cneg, cscal, conj, cis, c0, c1; cbn [fst snd]; try ring.

Lemma cring : ring_theory c0 c1 cadd cmul csub cneg (@eq cplx).
Proof. split; intros; try reflexivity; creal. Qed.
Add Ring CplxRing : cring.

Lemma cscal_mul r a : cscal r a = cmul (r, 0) a.
Proof. creal. Qed.
Lemma cmul_conj_abs a b : cabs2 (cmul a b) = cabs2 a * cabs2 b.
Proof. unfold cabs2, cmul; cbn [fst snd]; ring. Qed.
Lemma cabs2_cis t : cabs2 (cis t) = 1.
Proof. unfold cabs2, cis; cbn [fst snd]. pose proof (sin2_cos2 t). unfold Rsqr in *. lra. Qed.
Lemma cabs2_nonneg a : 0 <= cabs2 a.
Proof. unfold cabs2. nra. Qed.
Lemma cis_add a b : cis (a + b) = cmul (cis a) (cis b).
Proof. apply cplx_eq; unfold cis, cmul; cbn [fst snd]; [apply cos_plus|rewrite sin_plus; ring]. Qed.
Lemma cis_0 : cis 0 = c1.
Proof. apply cplx_eq; cbn; [apply cos_0|apply sin_0]. Qed.
Lemma cis_neg a : cis (- a) = conj (cis a).
Proof. apply cplx_eq; cbn; [apply cos_neg|apply sin_neg]. Qed.
Lemma cis_period a z : cis (a + 2 * IZR z * PI) = cis a.
Proof. apply cplx_eq; cbn; [apply cos_2Zpi|apply sin_2Zpi]. Qed.
Lemma conj_mul a b : conj (cmul a b) = cmul (conj a) (conj b).
Proof. creal. Qed.
Lemma conj_add a b : conj (cadd a b) = cadd (conj a) (conj b).
Proof. creal. Qed.
Lemma conj_conj a : conj (conj a) = a.
Proof. creal. Qed.

(** Sums *)
Lemma csum_ext n f g : (forall i, (i < n)%nat -> f i = g i) -> csum n f = csum n g.
Proof. induction n; intros H; cbn; [reflexivity|]. rewrite IHn, H; auto with arith. Qed.
Lemma csum_zero n : csum n (fun _ => c0) = c0.
Proof. induction n; cbn; [reflexivity|]. rewrite IHn. creal. Qed.
Lemma csum_add n f g : csum n (fun i => cadd (f i) (g i)) = cadd (csum n f) (csum n g).
Proof. induction n; cbn; [creal|]. rewrite IHn. ring. Qed.
Lemma csum_mul n c f : csum n (fun i => cmul c (f i)) = cmul c (csum n f).
Proof. induction n; cbn; [creal|]. rewrite IHn. ring. Qed.
Lemma csum_mul_r n c f : csum n (fun i => cmul (f i) c) = cmul (csum n f) c.
Proof. induction n; cbn; [creal|]. rewrite IHn. ring. Qed.
Lemma csum_scal n c f : csum n (fun i => cscal c (f i)) = cscal c (csum n f).
Proof. induction n; cbn; [creal|]. rewrite IHn. creal. Qed.
Lemma csum_swap n m f : csum n (fun i => csum m (fun j => f i j)) = csum m (fun j => csum n (fun i => f i j)).
Proof.
  induction n; cbn; [symmetry; apply csum_zero|]. rewrite IHn. rewrite <- csum_add. apply csum_ext. reflexivity.
Qed.
Lemma csum_single n k f : (k < n)%nat -> (forall i, (i < n)%nat -> i <> k -> f i = c0) -> csum n f = f k.
Proof.
  intros Hk H. apply cplx_eq.
  - rewrite csum_fst. apply (rsum_single n k (fun i => fst (f i))); [exact Hk|]. intros i Hi Hn. rewrite H by assumption. reflexivity.
  - rewrite csum_snd. apply (rsum_single n k (fun i => snd (f i))); [exact Hk|]. intros i Hi Hn. rewrite H by assumption. reflexivity.
Qed.
Lemma csum_conj n f : conj (csum n f) = csum n (fun i => conj (f i)).
Proof. induction n; cbn; [creal|]. rewrite conj_add, IHn. reflexivity. Qed.
Lemma csum_const n c : csum n (fun _ => c) = cscal (INR n) c.
Proof. apply cplx_eq; [rewrite csum_fst|rewrite csum_snd]; rewrite rsum_const; reflexivity. Qed.

(** Orthogonality of the characters *)
Lemma char_sum n (j : Z) : (0 < n)%nat -> csum n (fun g => cis (angleZ n j g)) = if Z.eqb (j mod Z.of_nat n) 0 then (INR n, 0) else c0.
Proof.
  intros Hn. apply cplx_eq.
  - rewrite csum_fst. cbn [cis fst]. rewrite (rsum_ext n _ (fun g => cos (angleZ n j g + 0))) by (intros; now rewrite Rplus_0_r).
    rewrite cos_sum by assumption. rewrite cos_0. destruct Z.eqb; cbn [fst c0]; ring.
  - rewrite csum_snd. cbn [cis snd]. rewrite (rsum_ext n _ (fun g => sin (angleZ n j g + 0))) by (intros; now rewrite Rplus_0_r).
    rewrite sin_sum by assumption. rewrite sin_0. destruct Z.eqb; cbn [snd c0]; ring.
Qed.

(** jnp.fft.fft of a complex array. *)
Definition cfft (n : nat) (h : nat -> cplx) (k : nat) : cplx := csum n (fun g => cmul (h g) (cis (- angle n k g))).

Lemma angle_diff n k m g : angle n k g - angle n m g = angleZ n (Z.of_nat k - Z.of_nat m) g.
Proof. rewrite !angle_Z. unfold angleZ. rewrite minus_IZR. unfold Rdiv. ring. Qed.
Lemma angle_sym n k g : angle n k g = angle n g k.
Proof. unfold angle, Rdiv. ring. Qed.
Lemma mod_diff_zero n k m : (k < n)%nat -> (m < n)%nat -> ((Z.of_nat k - Z.of_nat m) mod Z.of_nat n = 0)%Z <-> k = m.
Proof.
  intros Hk Hm. split.
  - intros H. apply Z.mod_divide in H; [|lia]. destruct H as [q Hq]. assert (q = 0)%Z by nia. lia.
  - intros ->. rewrite Z.sub_diag. apply Z.mod_0_l. lia.
Qed.
Lemma char_orth n k m : (k < n)%nat -> (m < n)%nat ->
  csum n (fun g => cis (angle n k g - angle n m g)) = if Nat.eqb k m then (INR n, 0) else c0.
Proof.
  intros Hk Hm. rewrite (csum_ext n _ (fun g => cis (angleZ n (Z.of_nat k - Z.of_nat m) g))) by (intros; now rewrite angle_diff).
  rewrite char_sum by lia. destruct (Nat.eqb_spec k m) as [E|E].
  - rewrite (proj2 (mod_diff_zero n k m Hk Hm) E). reflexivity.
  - destruct (Z.eqb_spec ((Z.of_nat k - Z.of_nat m) mod Z.of_nat n) 0) as [F|F]; [|reflexivity].
    exfalso. apply E. now apply (proj1 (mod_diff_zero n k m Hk Hm)).
Qed.

Lemma inv_n n : (0 < n)%nat -> / INR n * INR n = 1.
Proof. intros H. apply Rinv_l. apply not_0_INR. lia. Qed.

Theorem cfft_ifft n X k : (k < n)%nat -> cfft n (ifft n X) k = X k.
Proof.
  intros Hk. unfold cfft, ifft.
  rewrite (csum_ext n _ (fun g => csum n (fun m => cmul (cscal (/ INR n) (X m)) (cis (angle n m g - angle n k g))))).
  2:{ intros g Hg. rewrite cscal_mul. rewrite <- csum_mul, <- csum_mul_r. apply csum_ext. intros m Hm.
      unfold Rminus. rewrite cis_add. rewrite (cscal_mul (/ INR n) (X m)). ring. }
  rewrite csum_swap. rewrite (csum_ext n _ (fun m => cmul (cscal (/ INR n) (X m)) (if Nat.eqb m k then (INR n, 0) else c0))).
  2:{ intros m Hm. rewrite csum_mul, char_orth by assumption. reflexivity. }
  rewrite (csum_single n k) by (try assumption; intros m Hm Hne; apply Nat.eqb_neq in Hne; rewrite Hne; creal).
  rewrite Nat.eqb_refl. pose proof (inv_n n ltac:(lia)) as E.
  apply cplx_eq; unfold cmul, cscal; cbn [fst snd]; [transitivity ((/ INR n * INR n) * fst (X k)); [ring|]|transitivity ((/ INR n * INR n) * snd (X k)); [ring|]]; rewrite E; ring.
Qed.

Theorem ifft_cfft n x g : (g < n)%nat -> ifft n (cfft n x) g = x g.
Proof.
  intros Hg. unfold ifft, cfft.
  rewrite (csum_ext n _ (fun k => csum n (fun h => cmul (x h) (cis (angle n g k - angle n h k))))).
  2:{ intros k Hk. rewrite <- csum_mul_r. apply csum_ext. intros h Hh. unfold Rminus. rewrite cis_add.
      rewrite (angle_sym n k h), (angle_sym n k g). ring. }
  rewrite csum_swap. rewrite (csum_ext n _ (fun h => cmul (x h) (if Nat.eqb g h then (INR n, 0) else c0))).
  2:{ intros h Hh. rewrite csum_mul, char_orth by assumption. reflexivity. }
  rewrite (csum_single n g) by (try assumption; intros m Hm Hne; apply not_eq_sym, Nat.eqb_neq in Hne; rewrite Hne; creal).
  rewrite Nat.eqb_refl. pose proof (inv_n n ltac:(lia)) as E.
  apply cplx_eq; unfold cmul, cscal; cbn [fst snd]; [transitivity ((/ INR n * INR n) * fst (x g)); [ring|]|transitivity ((/ INR n * INR n) * snd (x g)); [ring|]]; rewrite E; ring.
Qed.

(** Parseval *)
Theorem parseval n x : (0 < n)%nat -> rsum n (fun k => cabs2 (cfft n x k)) = INR n * rsum n (fun g => cabs2 (x g)).
Proof.
  intros Hn.
  assert (P : csum n (fun k => cmul (cfft n x k) (conj (cfft n x k))) = cscal (INR n) (csum n (fun g => cmul (x g) (conj (x g))))).
  { rewrite (csum_ext n _ (fun k => csum n (fun h => cmul (conj (x h)) (cmul (cfft n x k) (cis (angle n k h)))))).
    2:{ intros k Hk. unfold cfft at 2. rewrite csum_conj, <- csum_mul. apply csum_ext. intros h Hh.
        rewrite conj_mul, <- cis_neg, Ropp_involutive. ring. }
    rewrite csum_swap. rewrite <- csum_scal. apply csum_ext. intros h Hh. rewrite csum_mul.
    pose proof (ifft_cfft n x h Hh) as E. unfold ifft in E.
    assert (E2 : csum n (fun i => cmul (cfft n x i) (cis (angle n i h))) = cscal (INR n) (x h)).
    { rewrite <- E. rewrite !cscal_mul. pose proof (inv_n n Hn) as F. set (S := csum _ _).
      apply cplx_eq; unfold cmul; cbn [fst snd]; [transitivity ((/ INR n * INR n) * fst S)|transitivity ((/ INR n * INR n) * snd S)]; try (rewrite F; ring); ring. }
    rewrite E2, !cscal_mul. ring. }
  apply (f_equal fst) in P. rewrite csum_fst in P. unfold cscal in P. cbn [fst] in P. rewrite csum_fst in P.
  rewrite (rsum_ext n _ (fun k => fst (cmul (cfft n x k) (conj (cfft n x k))))) by (intros; unfold cabs2, cmul, conj; cbn [fst snd]; ring).
  rewrite P. f_equal. apply rsum_ext. intros. unfold cabs2, cmul, conj; cbn [fst snd]; ring.
Qed.

(** The transform of a real array is the transform of its embedding; real arrays have mirrored spectra. *)
Definition emb (f : nat -> R) : nat -> cplx := fun g => (f g, 0).
Lemma fft_emb n f k : fft n f k = cfft n (emb f) k.
Proof. unfold fft, cfft, emb. apply csum_ext. intros. creal. Qed.
Lemma cis_mirror n m g : (0 < n)%nat -> (m <= n)%nat -> cis (angle n (n - m) g) = cis (- angle n m g).
Proof. intros Hn Hm. rewrite angle_mirror by assumption. apply cis_period. Qed.
Lemma fft_mirror n f m : (0 < n)%nat -> (m <= n)%nat -> fft n f (n - m) = conj (fft n f m).
Proof.
  intros Hn Hm. unfold fft. rewrite csum_conj. apply csum_ext. intros g Hg.
  rewrite cis_neg, (cis_mirror n m g Hn Hm). creal.
Qed.

(** ** Half-spectrum transforms of real arrays *)

(** jnp.fft.rfft: the first n/2+1 entries of the transform. *)
Definition rfft (n : nat) (f : nat -> R) (k : nat) : cplx := fft n f k.
(** jnp.fft.irfft(X, n): the inverse transform of the mirrored extension of X; the imaginary parts of the mean
    and, for even n, of the shortest wave are ignored. *)
Definition herm (n : nat) (X : nat -> cplx) (k : nat) : cplx :=
  if (k =? 0)%nat then (fst (X 0%nat), 0)
  else if (2 * k <? n)%nat then X k
  else if (2 * k =? n)%nat then (fst (X k), 0)
  else conj (X (n - k)%nat).
Definition irfft (n : nat) (X : nat -> cplx) (g : nat) : R := fst (ifft n (herm n X) g).

Lemma herm_mirror n X k : (0 < k < n)%nat -> herm n X (n - k) = conj (herm n X k).
Proof.
  intros H. unfold herm. destruct (Nat.eqb_spec (n - k) 0); [lia|]. destruct (Nat.eqb_spec k 0); [lia|].
  destruct (Nat.ltb_spec (2 * k) n) as [A|A].
  - destruct (Nat.ltb_spec (2 * (n - k)) n); [lia|]. destruct (Nat.eqb_spec (2 * (n - k)) n); [lia|].
    replace (n - (n - k))%nat with k by lia. reflexivity.
  - destruct (Nat.eqb_spec (2 * k) n) as [B|B].
    + assert (n - k = k)%nat as -> by lia. destruct (Nat.ltb_spec (2 * k) n); [lia|]. rewrite (proj2 (Nat.eqb_eq _ _) B). creal.
    + destruct (Nat.ltb_spec (2 * (n - k)) n); [|lia]. now rewrite conj_conj.
Qed.
Lemma herm_0 n X : herm n X 0 = (fst (X 0%nat), 0).
Proof. reflexivity. Qed.
Lemma herm_low n X k : (0 < k)%nat -> (2 * k < n)%nat -> herm n X k = X k.
Proof. intros A B. unfold herm. destruct (Nat.eqb_spec k 0); [lia|]. destruct (Nat.ltb_spec (2 * k) n); [reflexivity|lia]. Qed.
Lemma herm_nyq n X k : (0 < k)%nat -> (2 * k = n)%nat -> herm n X k = (fst (X k), 0).
Proof. intros A B. unfold herm. destruct (Nat.eqb_spec k 0); [lia|]. destruct (Nat.ltb_spec (2 * k) n); [lia|]. rewrite (proj2 (Nat.eqb_eq _ _) B). reflexivity. Qed.
Lemma herm_ext n X Y : (forall k, (2 * k <= n)%nat -> X k = Y k) -> forall k, (k < n)%nat -> herm n X k = herm n Y k.
Proof.
  intros H k Hk. unfold herm. destruct (Nat.eqb_spec k 0); [rewrite H by lia; reflexivity|]. destruct (Nat.ltb_spec (2 * k) n); [apply H; lia|].
  destruct (Nat.eqb_spec (2 * k) n); rewrite H by lia; reflexivity.
Qed.

Lemma csum_shift n f : csum (S n) f = cadd (f 0%nat) (csum n (fun i => f (S i))).
Proof. apply cplx_eq; [rewrite csum_fst; cbn [cadd fst]; rewrite csum_fst; apply (rsum_shift n (fun i => fst (f i)))|rewrite csum_snd; cbn [cadd snd]; rewrite csum_snd; apply (rsum_shift n (fun i => snd (f i)))]. Qed.
Lemma csum_rev n f : csum n f = csum n (fun i => f (n - 1 - i)%nat).
Proof.
  induction n as [|n IH]; [reflexivity|]. rewrite csum_shift. cbn [csum].
  rewrite (csum_ext n (fun i => f (S n - 1 - i)%nat) (fun i => f (S (n - 1 - i))%nat)) by (intros i Hi; f_equal; lia).
  assert (E : csum n (fun i => f (S (n - 1 - i))) = csum n (fun i => f (S i))).
  { clear IH. revert f. induction n as [|n IHn]; intros f; [reflexivity|].
    rewrite csum_shift. cbn [csum]. rewrite (csum_ext n (fun i => f (S (S n - 1 - S i))%nat) (fun i => (fun j => f j) (S (n - 1 - i))%nat)) by (intros i Hi; f_equal; lia).
    rewrite IHn. replace (S n - 1 - 0)%nat with n by lia. ring. }
  rewrite E. replace (S n - 1 - n)%nat with 0%nat by lia. ring.
Qed.
(** Reindexing k -> -k modulo n. *)
Lemma csum_mirror n f : (0 < n)%nat -> csum n f = csum n (fun k => if (k =? 0)%nat then f 0%nat else f (n - k)%nat).
Proof.
  intros Hn. destruct n as [|n]; [lia|]. rewrite !csum_shift. cbn [Nat.eqb]. f_equal. rewrite csum_rev. apply csum_ext. intros i Hi. f_equal. lia.
Qed.

Lemma real_inverse n X : (0 < n)%nat -> snd (X 0%nat) = 0 -> (forall k, (0 < k < n)%nat -> X (n - k)%nat = conj (X k)) -> forall g, snd (ifft n X g) = 0.
Proof.
  intros Hn H0 Hm g.
  assert (E : conj (ifft n X g) = ifft n X g).
  { unfold ifft. set (F := fun k => cmul (X k) (cis (angle n k g))).
    assert (G : conj (csum n F) = csum n F).
    { rewrite csum_conj. rewrite (csum_mirror n F) by exact Hn. apply csum_ext. intros k Hk. destruct (Nat.eqb_spec k 0) as [->|K].
      - unfold F. replace (angle n 0 g) with 0 by (unfold angle; cbn; unfold Rdiv; ring). rewrite cis_0. apply cplx_eq; unfold conj, cmul, c1; cbn [fst snd]; rewrite H0; ring.
      - unfold F. rewrite Hm by lia. rewrite conj_mul. rewrite cis_mirror by lia. rewrite cis_neg. reflexivity. }
    transitivity (cscal (/ INR n) (conj (csum n F))); [creal|]. rewrite G. reflexivity. }
  apply (f_equal snd) in E. unfold conj in E. cbn [snd] in E. lra.
Qed.

Theorem fft_irfft n X k : (k < n)%nat -> fft n (irfft n X) k = herm n X k.
Proof.
  intros Hk. rewrite fft_emb. rewrite <- (cfft_ifft n (herm n X) k Hk). unfold cfft. apply csum_ext. intros g Hg. f_equal.
  unfold emb, irfft. apply cplx_eq; [reflexivity|]. symmetry. apply real_inverse; [lia|reflexivity|]. intros j Hj. now apply herm_mirror.
Qed.
Lemma fft_0_real n f : snd (fft n f 0) = 0.
Proof.
  rewrite fft_snd. rewrite (rsum_ext n _ (fun _ => 0)); [rewrite rsum_zero; ring|]. intros g _. replace (angle n 0 g) with 0 by (unfold angle; cbn; unfold Rdiv; ring). rewrite sin_0. ring.
Qed.
Lemma fft_0 n f : fft n f 0 = (rsum n f, 0).
Proof.
  apply cplx_eq; [|apply fft_0_real]. rewrite fft_fst. cbn [fst]. apply rsum_ext. intros g _. replace (angle n 0 g) with 0 by (unfold angle; cbn; unfold Rdiv; ring). rewrite cos_0. ring.
Qed.
Lemma fft_nyq_real n f k : (0 < k)%nat -> (2 * k = n)%nat -> snd (fft n f k) = 0.
Proof.
  intros A B. pose proof (fft_mirror n f k ltac:(lia) ltac:(lia)) as E. replace (n - k)%nat with k in E by lia.
  apply (f_equal snd) in E. unfold conj in E. cbn [snd] in E. lra.
Qed.
Lemma herm_fft n f k : (k < n)%nat -> herm n (fft n f) k = fft n f k.
Proof.
  intros Hk. unfold herm. destruct (Nat.eqb_spec k 0) as [->|K]; [apply cplx_eq; [reflexivity|symmetry; apply fft_0_real]|].
  destruct (Nat.ltb_spec (2 * k) n); [reflexivity|]. destruct (Nat.eqb_spec (2 * k) n).
  - apply cplx_eq; [reflexivity|symmetry; apply fft_nyq_real; lia].
  - pose proof (fft_mirror n f (n - k) ltac:(lia) ltac:(lia)) as E. replace (n - (n - k))%nat with k in E by lia. symmetry. exact E.
Qed.
Lemma ifft_ext n X Y g : (forall k, (k < n)%nat -> X k = Y k) -> ifft n X g = ifft n Y g.
Proof. intros H. unfold ifft. f_equal. apply csum_ext. intros k Hk. now rewrite H. Qed.
Theorem irfft_rfft n f g : (g < n)%nat -> irfft n (rfft n f) g = f g.
Proof.
  intros Hg. unfold irfft, rfft. rewrite (ifft_ext n _ (fft n f)) by (intros; now apply herm_fft).
  rewrite (ifft_ext n _ (cfft n (emb f))) by (intros; apply fft_emb). rewrite ifft_cfft by exact Hg. reflexivity.
Qed.
Lemma irfft_ext n X Y g : (forall k, (2 * k <= n)%nat -> X k = Y k) -> irfft n X g = irfft n Y g.
Proof. intros H. unfold irfft. f_equal. apply ifft_ext. now apply herm_ext. Qed.
Lemma fft_ext n f h k : (forall g, (g < n)%nat -> f g = h g) -> fft n f k = fft n h k.
Proof. intros H. unfold fft. apply csum_ext. intros g Hg. now rewrite H. Qed.
(** Two real arrays with the same transform are equal. *)
Lemma fft_inj n f h : (forall k, (2 * k <= n)%nat -> fft n f k = fft n h k) -> forall g, (g < n)%nat -> f g = h g.
Proof. intros H g Hg. rewrite <- (irfft_rfft n f g Hg), <- (irfft_rfft n h g Hg). apply irfft_ext. exact H. Qed.

Theorem parseval_real n f : (0 < n)%nat -> rsum n (fun k => cabs2 (fft n f k)) = INR n * rsum n (fun g => f g * f g).
Proof.
  intros Hn. rewrite (rsum_ext n _ (fun k => cabs2 (cfft n (emb f) k))) by (intros; now rewrite fft_emb). rewrite parseval by exact Hn.
  f_equal. apply rsum_ext. intros. unfold cabs2, emb; cbn [fst snd]; ring.
Qed.

(** ** Spectral multipliers: irfft(M * rfft(f)) *)
Definition smul (n : nat) (M : nat -> cplx) (f : nat -> R) (g : nat) : R := irfft n (fun k => cmul (M k) (rfft n f k)) g.

Lemma smul_ext n M M' f f' : (forall k, (2 * k <= n)%nat -> M k = M' k) -> (forall g, (g < n)%nat -> f g = f' g) -> forall g, smul n M f g = smul n M' f' g.
Proof. intros HM Hf g. unfold smul. apply irfft_ext. intros k Hk. rewrite HM by exact Hk. f_equal. unfold rfft. now apply fft_ext. Qed.

(** The multiplier that is really applied: real at the mean and at the shortest wave. *)
Definition eff (n : nat) (M : nat -> cplx) (k : nat) : cplx := if ((k =? 0)%nat || (2 * k =? n)%nat)%bool then (fst (M k), 0) else M k.
Theorem fft_smul n M f k : (0 < n)%nat -> (2 * k <= n)%nat -> fft n (smul n M f) k = cmul (eff n M k) (fft n f k).
Proof.
  intros Hn Hk. unfold smul. rewrite fft_irfft by lia. unfold eff, rfft. destruct (Nat.eqb_spec k 0) as [->|K].
  - rewrite herm_0. cbn [orb]. pose proof (fft_0_real n f) as E. apply cplx_eq; unfold cmul; cbn [fst snd]; rewrite E; ring.
  - destruct (Nat.eqb_spec (2 * k) n) as [B|B]; cbn [orb].
    + rewrite herm_nyq by lia. pose proof (fft_nyq_real n f k ltac:(lia) B) as E. apply cplx_eq; unfold cmul; cbn [fst snd]; rewrite E; ring.
    + rewrite herm_low by lia. reflexivity.
Qed.
Lemma smul_linear n M a b f1 f2 g : (g < n)%nat -> smul n M (fun i => a * f1 i + b * f2 i) g = a * smul n M f1 g + b * smul n M f2 g.
Proof.
  intros Hg. assert (L : forall u v h k, fft n (fun i => u * h i + v * 0) k = cscal u (fft n h k)).
  { intros u v h k. unfold fft. rewrite <- csum_scal. apply csum_ext. intros. creal. }
  assert (A : forall h1 h2 k, fft n (fun i => a * h1 i + b * h2 i) k = cadd (cscal a (fft n h1 k)) (cscal b (fft n h2 k))).
  { intros h1 h2 k. unfold fft. rewrite <- !csum_scal, <- csum_add. apply csum_ext. intros. creal. }
  apply (fft_inj n (smul n M (fun i => a * f1 i + b * f2 i)) (fun g => a * smul n M f1 g + b * smul n M f2 g)); [|exact Hg].
  intros k Hk. rewrite A, !fft_smul by lia. rewrite A. rewrite !cscal_mul. ring.
Qed.
Lemma smul_compose n M1 M2 f g : (g < n)%nat -> smul n M1 (smul n M2 f) g = smul n (fun k => cmul (eff n M1 k) (eff n M2 k)) f g.
Proof.
  intros Hg. apply (fft_inj n (smul n M1 (smul n M2 f)) (smul n (fun k => cmul (eff n M1 k) (eff n M2 k)) f)); [|exact Hg].
  intros k Hk. rewrite !fft_smul by lia. unfold eff at 3. unfold eff. destruct (_ || _)%bool; creal.
Qed.
Lemma smul_one n f g : (g < n)%nat -> smul n (fun _ => c1) f g = f g.
Proof. intros Hg. unfold smul. transitivity (irfft n (rfft n f) g); [|now apply irfft_rfft]. apply irfft_ext. intros. ring. Qed.
Lemma smul_mean n M f : (0 < n)%nat -> fst (M 0%nat) = 1 -> rsum n (smul n M f) = rsum n f.
Proof.
  intros Hn H. pose proof (fft_smul n M f 0 Hn ltac:(lia)) as E. rewrite !fft_0 in E. unfold eff in E. cbn [Nat.eqb orb] in E. rewrite H in E.
  apply (f_equal fst) in E. unfold cmul in E. cbn [fst snd] in E. lra.
Qed.
Lemma cabs2_conj a : cabs2 (conj a) = cabs2 a.
Proof. unfold cabs2, conj; cbn [fst snd]; ring. Qed.
Lemma cabs2_re a : cabs2 (fst a, 0) <= cabs2 a.
Proof. unfold cabs2; cbn [fst snd]. nra. Qed.
Lemma smul_energy n M f : (0 < n)%nat -> (forall k, (2 * k <= n)%nat -> cabs2 (M k) <= 1) ->
  rsum n (fun g => smul n M f g * smul n M f g) <= rsum n (fun g => f g * f g).
Proof.
  intros Hn HM. assert (HnR : 0 < INR n) by now apply lt_0_INR. apply Rmult_le_reg_l with (INR n); [exact HnR|]. rewrite <- !parseval_real by exact Hn.
  apply rsum_le. intros k Hk.
  assert (G : forall j, (2 * j <= n)%nat -> cabs2 (fft n (smul n M f) j) <= cabs2 (fft n f j)).
  { intros j Hj. rewrite fft_smul by lia. rewrite cmul_conj_abs. pose proof (cabs2_nonneg (fft n f j)).
    assert (cabs2 (eff n M j) <= 1). { unfold eff. destruct (_ || _)%bool; [eapply Rle_trans; [apply cabs2_re|]|]; now apply HM. }
    nra. }
  destruct (Nat.le_gt_cases (2 * k) n) as [A|A]; [now apply G|].
  pose proof (fft_mirror n (smul n M f) (n - k) Hn ltac:(lia)) as E1. pose proof (fft_mirror n f (n - k) Hn ltac:(lia)) as E2.
  replace (n - (n - k))%nat with k in E1, E2 by lia. rewrite E1, E2, !cabs2_conj. apply G. lia.
Qed.
