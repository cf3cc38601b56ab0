(** Two-dimensional discrete Fourier transform: inversion, linearity, Parseval, product with a plane wave. *)
From Coq Require Import Reals Lra Lia ZArith List Bool.
From Verif Require Import RSum Pic PicProofs PicFourier Lpse Dft.
Local Open Scope R_scope.

Ltac cxr := repeat match goal with a : cplx |- _ => destruct a end; apply cplx_eq; unfold csub, cadd, cmul, cscal, cneg, conj, c0, c1 in *; cbn [fst snd] in *; try ring; try lra.

Lemma cfft_ext n f g k : (forall i, (i < n)%nat -> f i = g i) -> cfft n f k = cfft n g k.
Proof. intros H. unfold cfft. apply csum_ext. intros i Hi. rewrite (H i Hi). reflexivity. Qed.
Lemma cfft_add n f g k : cfft n (fun i => cadd (f i) (g i)) k = cadd (cfft n f k) (cfft n g k).
Proof. unfold cfft. rewrite <- csum_add. apply csum_ext. intros i _. generalize (cis (- angle n k i)) (f i) (g i). intros; cxr. Qed.
Lemma cfft_mul n c f k : cfft n (fun i => cmul c (f i)) k = cmul c (cfft n f k).
Proof. unfold cfft. rewrite <- csum_mul. apply csum_ext. intros i _. generalize (cis (- angle n k i)) (f i). intros; cxr. Qed.
Lemma ifft_add n f g k : ifft n (fun i => cadd (f i) (g i)) k = cadd (ifft n f k) (ifft n g k).
Proof.
  unfold ifft. rewrite (csum_ext n _ (fun i => cadd (cmul (f i) (cis (angle n i k))) (cmul (g i) (cis (angle n i k))))).
  - rewrite csum_add. generalize (csum n (fun i => cmul (f i) (cis (angle n i k)))) (csum n (fun i => cmul (g i) (cis (angle n i k)))). intros; cxr.
  - intros i _. generalize (cis (angle n i k)) (f i) (g i). intros; cxr.
Qed.
Lemma ifft_mul n c f k : ifft n (fun i => cmul c (f i)) k = cmul c (ifft n f k).
Proof.
  unfold ifft. rewrite (csum_ext n _ (fun i => cmul c (cmul (f i) (cis (angle n i k))))).
  - rewrite csum_mul. generalize (csum n (fun i => cmul (f i) (cis (angle n i k)))). intros; cxr.
  - intros i _. generalize (cis (angle n i k)) (f i). intros; cxr.
Qed.
Lemma ifft_zero n k : ifft n (fun _ => c0) k = c0.
Proof. unfold ifft. rewrite (csum_ext n _ (fun _ => c0)), csum_zero; [cxr|]. intros; unfold cmul, c0; cbn [fst snd]; f_equal; ring. Qed.
Lemma cfft_zero n k : cfft n (fun _ => c0) k = c0.
Proof. unfold cfft. rewrite (csum_ext n _ (fun _ => c0)), csum_zero; [reflexivity|]. intros; unfold cmul, c0; cbn [fst snd]; f_equal; ring. Qed.

(** The two one-dimensional transforms commute. *)
Lemma ci_comm n m (F : nat -> nat -> cplx) k l : ifft m (fun j => cfft n (F j) k) l = cfft n (fun g => ifft m (fun j => F j g) l) k.
Proof.
  unfold cfft, ifft.
  rewrite (csum_ext m _ (fun j => csum n (fun g => cmul (cmul (F j g) (cis (- angle n k g))) (cis (angle m j l))))).
  - rewrite csum_swap, <- csum_scal. apply csum_ext. intros g _.
    rewrite <- !csum_scal, <- csum_mul_r. apply csum_ext. intros j _. generalize (F j g) (cis (- angle n k g)) (cis (angle m j l)). intros; cxr.
  - intros j _. rewrite <- csum_mul_r. reflexivity.
Qed.

Section Two.
Variables nx ny : nat.
Definition inb2 (i j : nat) : Prop := (i < nx)%nat /\ (j < ny)%nat.
Lemma fft2_ext f g i j : (forall a b, inb2 a b -> f a b = g a b) -> fft2 nx ny f i j = fft2 nx ny g i j.
Proof. intros H. unfold fft2. apply cfft_ext. intros a Ha. apply cfft_ext. intros b Hb. apply H. split; auto. Qed.
Lemma ifft2_ext f g i j : (forall a b, inb2 a b -> f a b = g a b) -> ifft2 nx ny f i j = ifft2 nx ny g i j.
Proof. intros H. unfold ifft2. apply ifft_ext. intros a Ha. apply ifft_ext. intros b Hb. apply H. split; auto. Qed.
Lemma fft2_ifft2 X i j : inb2 i j -> fft2 nx ny (ifft2 nx ny X) i j = X i j.
Proof.
  intros [Hi Hj]. unfold fft2, ifft2.
  rewrite (cfft_ext nx _ (fun a => ifft nx (fun i' => cfft ny (fun b => ifft ny (fun j' => X i' j') b) j) a)).
  - rewrite cfft_ifft by auto. apply cfft_ifft; auto.
  - intros a _. rewrite <- ci_comm. reflexivity.
Qed.
Lemma ifft2_fft2 X i j : inb2 i j -> ifft2 nx ny (fft2 nx ny X) i j = X i j.
Proof.
  intros [Hi Hj]. unfold fft2, ifft2.
  rewrite (ifft_ext nx _ (fun a => cfft nx (fun i' => ifft ny (fun b => cfft ny (fun j' => X i' j') b) j) a)).
  - rewrite ifft_cfft by auto. apply ifft_cfft; auto.
  - intros a _. rewrite ci_comm. reflexivity.
Qed.
Lemma fft2_add f g i j : fft2 nx ny (fun a b => cadd (f a b) (g a b)) i j = cadd (fft2 nx ny f i j) (fft2 nx ny g i j).
Proof. unfold fft2. rewrite <- cfft_add. apply cfft_ext. intros a _. apply cfft_add. Qed.
Lemma fft2_mul c f i j : fft2 nx ny (fun a b => cmul c (f a b)) i j = cmul c (fft2 nx ny f i j).
Proof. unfold fft2. rewrite <- cfft_mul. apply cfft_ext. intros a _. apply cfft_mul. Qed.
Lemma ifft2_add f g i j : ifft2 nx ny (fun a b => cadd (f a b) (g a b)) i j = cadd (ifft2 nx ny f i j) (ifft2 nx ny g i j).
Proof. unfold ifft2. rewrite <- ifft_add. apply ifft_ext. intros a _. apply ifft_add. Qed.
Lemma ifft2_mul c f i j : ifft2 nx ny (fun a b => cmul c (f a b)) i j = cmul c (ifft2 nx ny f i j).
Proof. unfold ifft2. rewrite <- ifft_mul. apply ifft_ext. intros a _. apply ifft_mul. Qed.
Lemma fft2_zero i j : fft2 nx ny (fun _ _ => c0) i j = c0.
Proof. unfold fft2. rewrite (cfft_ext nx _ (fun _ => c0)); [apply cfft_zero|]. intros; apply cfft_zero. Qed.
Lemma ifft2_zero i j : ifft2 nx ny (fun _ _ => c0) i j = c0.
Proof. unfold ifft2. rewrite (ifft_ext nx _ (fun _ => c0)); [apply ifft_zero|]. intros; apply ifft_zero. Qed.
Definition norm2 (f : cfield) : R := rsum nx (fun i => rsum ny (fun j => cabs2 (f i j))).
Lemma parseval2 f : (0 < nx)%nat -> (0 < ny)%nat -> norm2 (fft2 nx ny f) = INR nx * INR ny * norm2 f.
Proof.
  intros Hx Hy. unfold norm2, fft2. rewrite rsum_swap.
  rewrite (rsum_ext ny _ (fun j => INR nx * rsum nx (fun a => cabs2 (cfft ny (fun b => f a b) j)))) by (intros; apply parseval; auto).
  rewrite rsum_scal, rsum_swap.
  rewrite (rsum_ext nx _ (fun a => INR ny * rsum ny (fun b => cabs2 (f a b)))) by (intros; apply parseval; auto).
  rewrite rsum_scal. ring.
Qed.
Lemma parseval2_inv X : (0 < nx)%nat -> (0 < ny)%nat -> norm2 (ifft2 nx ny X) = norm2 X / (INR nx * INR ny).
Proof.
  intros Hx Hy. assert (0 < INR nx) by (apply lt_0_INR; auto). assert (0 < INR ny) by (apply lt_0_INR; auto).
  apply (Rmult_eq_reg_l (INR nx * INR ny)); [|nra]. rewrite <- parseval2 by auto.
  replace (INR nx * INR ny * (norm2 X / (INR nx * INR ny))) with (norm2 X) by (field; lra).
  unfold norm2. apply rsum_ext. intros i Hi. apply rsum_ext. intros j Hj. rewrite fft2_ifft2; [reflexivity|split; auto].
Qed.
End Two.

(** Product of a plane wave (index [m]) with a conjugated inverse transform: a shift of the mirrored, conjugated spectrum. *)
Definition wrap (n : nat) (z : Z) : nat := Z.to_nat (z mod Z.of_nat n).
Lemma wrap_lt n z : (0 < n)%nat -> (wrap n z < n)%nat.
Proof. intros H. unfold wrap. pose proof (Z.mod_pos_bound z (Z.of_nat n) ltac:(lia)). lia. Qed.
Lemma wrap_Z n z : (0 < n)%nat -> Z.of_nat (wrap n z) = (z mod Z.of_nat n)%Z.
Proof. intros H. unfold wrap. pose proof (Z.mod_pos_bound z (Z.of_nat n) ltac:(lia)). lia. Qed.
Lemma plane_conj n (m : Z) X i : (0 < n)%nat -> (i < n)%nat ->
  cfft n (fun a => cmul (cis (angleZ n m a)) (conj (ifft n X a))) i = conj (X (wrap n (m - Z.of_nat i))).
Proof.
  intros Hn Hi. unfold cfft, ifft.
  rewrite (csum_ext n _ (fun a => csum n (fun k => cmul (cscal (/ INR n) (conj (X k))) (cis (angleZ n (m - Z.of_nat i - Z.of_nat k) a))))).
  - rewrite csum_swap.
    rewrite (csum_ext n _ (fun k => cmul (cscal (/ INR n) (conj (X k))) (csum n (fun a => cis (angleZ n (m - Z.of_nat i - Z.of_nat k) a))))) by (intros; apply csum_mul).
    set (w := wrap n (m - Z.of_nat i)). assert (Hw : (w < n)%nat) by (apply wrap_lt; auto).
    rewrite (csum_single n w).
    + rewrite char_sum by auto.
      replace ((m - Z.of_nat i - Z.of_nat w) mod Z.of_nat n)%Z with 0%Z.
      * cbn [Z.eqb]. pose proof (inv_n n Hn). generalize (conj (X w)). intros z. destruct z as [p q]. unfold cmul, cscal. cbn [fst snd]. f_equal.
        -- transitivity (/ INR n * INR n * p); [ring|rewrite H; ring].
        -- transitivity (/ INR n * INR n * q); [ring|rewrite H; ring].
      * unfold w. rewrite wrap_Z by auto. rewrite Zminus_mod_idemp_r, Z.sub_diag. symmetry. apply Z.mod_0_l. lia.
    + exact Hw.
    + intros k Hk Hne. rewrite char_sum by auto.
      destruct (Z.eqb_spec ((m - Z.of_nat i - Z.of_nat k) mod Z.of_nat n) 0) as [E|E]; [|cxr].
      exfalso. apply Hne. unfold w, wrap.
      assert (E2 : ((m - Z.of_nat i) mod Z.of_nat n = Z.of_nat k mod Z.of_nat n)%Z).
      { replace (m - Z.of_nat i)%Z with ((m - Z.of_nat i - Z.of_nat k) + Z.of_nat k)%Z by lia. rewrite <- Zplus_mod_idemp_l, E. f_equal; lia. }
      rewrite E2, Z.mod_small by lia. lia.
  - intros a Ha. transitivity (cmul (cis (angleZ n m a)) (cmul (cscal (/ INR n) (csum n (fun k => cmul (conj (X k)) (conj (cis (angle n k a)))))) (cis (- angle n i a)))).
    + rewrite (csum_ext n (fun k => cmul (conj (X k)) (conj (cis (angle n k a)))) (fun k => conj (cmul (X k) (cis (angle n k a))))) by (intros; symmetry; apply conj_mul).
      rewrite <- csum_conj. generalize (csum n (fun k => cmul (X k) (cis (angle n k a)))) (cis (angleZ n m a)) (cis (- angle n i a)). intros; cxr.
    + rewrite <- csum_scal, <- csum_mul_r, <- csum_mul. apply csum_ext. intros k Hk.
      replace (angleZ n (m - Z.of_nat i - Z.of_nat k) a) with (angleZ n m a + (- angle n k a + - angle n i a)).
      * rewrite !cis_add, <- cis_neg. generalize (conj (X k)) (cis (angleZ n m a)) (cis (- angle n k a)) (cis (- angle n i a)). intros; cxr.
      * rewrite !angle_Z. unfold angleZ. rewrite !minus_IZR. unfold Rdiv. ring.
Qed.
Lemma plane_conj2 nx ny (m : Z) A X i j : (0 < nx)%nat -> (0 < ny)%nat -> (i < nx)%nat -> (j < ny)%nat ->
  fft2 nx ny (fun a b => cmul (cmul A (cis (angleZ nx m a))) (conj (ifft2 nx ny X a b))) i j = cmul A (conj (X (wrap nx (m - Z.of_nat i)) (wrap ny (- Z.of_nat j)))).
Proof.
  intros Hx Hy Hi Hj. rewrite (fft2_ext nx ny _ (fun a b => cmul A (cmul (cis (angleZ nx m a)) (conj (ifft2 nx ny X a b))))) by (intros; generalize (cis (angleZ nx m a)) (conj (ifft2 nx ny X a b)); intros; cxr).
  rewrite fft2_mul. f_equal. unfold fft2, ifft2.
  rewrite (cfft_ext nx _ (fun a => cmul (cis (angleZ nx m a)) (conj (ifft nx (fun k => X k (wrap ny (- Z.of_nat j))) a)))).
  - rewrite plane_conj by auto. reflexivity.
  - intros a Ha. rewrite cfft_mul. f_equal.
    rewrite (cfft_ext ny _ (fun b => cmul (cis (angleZ ny 0 b)) (conj (ifft ny (fun l => ifft nx (fun k => X k l) a) b)))).
    + rewrite plane_conj by auto. reflexivity.
    + intros b Hb. replace (angleZ ny 0 b) with 0 by (unfold angleZ, Rdiv; ring). rewrite cis_0.
      assert (E : ifft nx (fun k => ifft ny (fun l => X k l) b) a = ifft ny (fun l => ifft nx (fun k => X k l) a) b).
      { unfold ifft. rewrite (csum_ext nx _ (fun k => csum ny (fun l => cscal (/ INR ny) (cmul (cmul (X k l) (cis (angle ny l b))) (cis (angle nx k a)))))).
        - rewrite csum_swap, <- !csum_scal. apply csum_ext. intros l _. rewrite <- csum_scal, <- csum_scal, <- csum_mul_r, <- csum_scal. apply csum_ext. intros k _.
          generalize (X k l) (cis (angle ny l b)) (cis (angle nx k a)). intros; cxr.
        - intros k _. rewrite <- csum_scal, <- csum_mul_r. apply csum_ext. intros l _. generalize (X k l) (cis (angle ny l b)) (cis (angle nx k a)). intros; cxr. }
      rewrite E. generalize (conj (ifft ny (fun l => ifft nx (fun k => X k l) a) b)). intros; cxr.
Qed.
