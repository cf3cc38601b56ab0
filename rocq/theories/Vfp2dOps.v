(** Property C79: the partitioned derivative and filters of VFP-2D against the unpartitioned ones. *)
From Coq Require Import Reals Lra Lia ZArith List Bool Psatz.
From Verif Require Import PyStr Vfp2d Harm2d RSum Pic PicProofs PicFourier Dft.
Import ListNotations.
Ltac cy := apply cplx_eq; unfold csub, cneg; unfold cadd, cmul, cscal, c0, c1; cbn [fst snd]; try ring.
Local Open Scope R_scope.
Add Ring cplx_ring2 : cring.

Lemma shift_in n g s : (0 < n)%nat -> (0 <= Z.of_nat g + s < Z.of_nat n)%Z -> forall A (a : nat -> A), cshift n a g s = a (Z.to_nat (Z.of_nat g + s)).
Proof. intros Hn H A a. unfold cshift. now rewrite Z.mod_small. Qed.
Lemma padded_shift {A} p nloc halo (a : nat -> A) g s : (0 < p)%nat -> (0 < nloc)%nat -> (halo <= nloc)%nat -> (g < p * nloc)%nat -> (s <= 2 * halo)%nat ->
  padded p (p * nloc) halo a (g / nloc) (g mod nloc + s) = cshift (p * nloc) a g (Z.of_nat s - Z.of_nat halo).
Proof.
  intros Hp Hn Hh Hg Hs. unfold padded. rewrite (Nat.mul_comm p nloc), Nat.div_mul by lia. rewrite (Nat.mul_comm nloc p).
  pose proof (Nat.div_mod g nloc ltac:(lia)) as D. pose proof (Nat.mod_upper_bound g nloc ltac:(lia)) as U.
  set (r := (g / nloc)%nat) in *. set (l := (g mod nloc)%nat) in *.
  assert (Hr : (r < p)%nat) by (unfold r; apply Nat.div_lt_upper_bound; lia).
  assert (W : forall i z, (Z.of_nat i = (Z.of_nat g + (Z.of_nat s - Z.of_nat halo)) + z * Z.of_nat (p * nloc))%Z -> (i < p * nloc)%nat ->
     cshift (p * nloc) a g (Z.of_nat s - Z.of_nat halo) = a i).
  { intros i z E Hi. unfold cshift. f_equal. rewrite <- (Z_mod_plus_full _ z), <- E, Z.mod_small by lia. now rewrite Nat2Z.id. }
  destruct (Nat.ltb_spec (l + s) halo).
  - destruct (Nat.eq_dec r 0) as [E|E].
    + rewrite E. cbn [plus]. rewrite (Nat.mod_small (p - 1)) by lia. symmetry. apply (W _ 1%Z); [|nia]. nia.
    + replace ((r + p - 1) mod p)%nat with (r - 1)%nat. 2: { replace (r + p - 1)%nat with (r - 1 + 1 * p)%nat by lia. rewrite Nat.mod_add by lia. now rewrite Nat.mod_small by lia. }
      symmetry. apply (W _ 0%Z); nia.
  - destruct (Nat.ltb_spec (l + s) (halo + nloc)).
    + symmetry. apply (W _ 0%Z); nia.
    + destruct (Nat.eq_dec r (p - 1)) as [E|E].
      * rewrite E. replace (p - 1 + 1)%nat with (1 * p)%nat by lia. rewrite Nat.mod_mul by lia. symmetry. apply (W _ (-1)%Z); nia.
      * rewrite (Nat.mod_small (r + 1)) by lia. symmetry. apply (W _ 0%Z); nia.
Qed.
Lemma dsharded_eq p nloc h a g : (0 < p)%nat -> (0 < nloc)%nat -> (g < p * nloc)%nat ->
  dsharded p (p * nloc) h a g = if ((2 <=? nloc) && (5 <=? p * nloc))%nat%bool then diff4 h (cshift (p * nloc) a g (-2)) (cshift (p * nloc) a g (-1)) (cshift (p * nloc) a g 1) (cshift (p * nloc) a g 2)
    else diff2 h (cshift (p * nloc) a g 1) (cshift (p * nloc) a g (-1)).
Proof.
  intros Hp Hn Hg. unfold dsharded. replace (p * nloc / p)%nat with nloc by (rewrite Nat.mul_comm, Nat.div_mul; lia). cbv zeta.
  destruct (Nat.leb_spec 2 nloc); cbn [andb]; [destruct (Nat.leb_spec 5 (p * nloc))|]; cbn [Nat.eqb].
  - rewrite <- (Nat.add_0_r (g mod nloc)) at 1. rewrite !padded_shift by lia. reflexivity.
  - replace (padded p (p * nloc) 1 a (g / nloc) (g mod nloc)) with (padded p (p * nloc) 1 a (g / nloc) (g mod nloc + 0)) by (f_equal; lia). rewrite !padded_shift by lia. reflexivity.
  - replace (padded p (p * nloc) 1 a (g / nloc) (g mod nloc)) with (padded p (p * nloc) 1 a (g / nloc) (g mod nloc + 0)) by (f_equal; lia). rewrite !padded_shift by lia. reflexivity.
Qed.
(** On any number of devices the partitioned derivative is the unpartitioned one as long as every device holds at least two cells
    (or the grid has fewer than five); with one cell per device it is the second-order difference instead of the fourth-order one. *)
Theorem C79_derivative_device_independent : forall p nloc h a g, (0 < p)%nat -> (0 < nloc)%nat -> (g < p * nloc)%nat ->
  ((2 <= nloc)%nat \/ (p * nloc < 5)%nat -> dsharded p (p * nloc) h a g = dcentral (p * nloc) h a g) /\
  (nloc = 1%nat -> dsharded p (p * nloc) h a g = cscal (/ (2 * h)) (csub (cshift (p * nloc) a g 1) (cshift (p * nloc) a g (-1)))).
Proof.
  intros p nloc h a g Hp Hn Hg. rewrite dsharded_eq by auto. split.
  - intros H. unfold dcentral. destruct (Nat.leb_spec 2 nloc); destruct (Nat.leb_spec 5 (p * nloc)); destruct (Nat.ltb_spec (p * nloc) 5); cbn [andb]; try reflexivity; lia.
  - intros ->. reflexivity.
Qed.
Print Assumptions C79_derivative_device_independent.
(** Adding devices changes the result: eight cells on eight devices against the same cells on one. *)
Theorem C79_device_count_refuted : ~ (forall p p' n h a g, (0 < p)%nat -> (0 < p')%nat -> (n mod p = 0)%nat -> (n mod p' = 0)%nat -> 0 < h -> (g < n)%nat ->
  dsharded p n h a g = dsharded p' n h a g).
Proof.
  intros H. specialize (H 8%nat 1%nat 8%nat 1 (fun i => if (i =? 2)%nat then (1, 0) else c0) 0%nat ltac:(lia) ltac:(lia) eq_refl eq_refl ltac:(lra) ltac:(lia)).
  pose proof (dsharded_eq 8 1 1 (fun i => if (i =? 2)%nat then (1, 0) else c0) 0 ltac:(lia) ltac:(lia) ltac:(lia)) as E1.
  pose proof (dsharded_eq 1 8 1 (fun i => if (i =? 2)%nat then (1, 0) else c0) 0 ltac:(lia) ltac:(lia) ltac:(lia)) as E2.
  change (8 * 1)%nat with 8%nat in E1. change (1 * 8)%nat with 8%nat in E2. rewrite E1, E2 in H. apply (f_equal fst) in H.
  cbn [Nat.leb andb] in H. unfold cshift in H.
  change (Z.to_nat ((Z.of_nat 0 + 1) mod Z.of_nat 8)) with 1%nat in H. change (Z.to_nat ((Z.of_nat 0 + -1) mod Z.of_nat 8)) with 7%nat in H.
  change (Z.to_nat ((Z.of_nat 0 + 2) mod Z.of_nat 8)) with 2%nat in H. change (Z.to_nat ((Z.of_nat 0 + -2) mod Z.of_nat 8)) with 6%nat in H.
  cbn [Nat.eqb] in H. unfold diff2, diff4 in H. unfold csub, cneg, c0 in H. unfold cadd, cscal in H. cbn [fst snd] in H. lra.
Qed.
Print Assumptions C79_device_count_refuted.

(** * Filters *)
(** ** Specification: an operation on one periodic axis that multiplies every Fourier mode by a real factor *)
Definition multiplier (n : nat) (T : (nat -> cplx) -> nat -> cplx) (F : nat -> R) : Prop :=
  forall a k, (k < n)%nat -> cfft n (T a) k = cscal (F k) (cfft n a k).
(** What that means on the cells: the total is kept when the mean mode is, and the norm does not grow when no factor exceeds 1. *)
Lemma csum_cfft0 n b : csum n b = cfft n b 0.
Proof. unfold cfft. apply csum_ext. intros g _. replace (- angle n 0 g) with 0 by (unfold angle; change (INR 0) with 0; unfold Rdiv; ring). rewrite cis_0. ring. Qed.
Lemma multiplier_sum n T F a : (0 < n)%nat -> multiplier n T F -> F 0%nat = 1 -> csum n (T a) = csum n a.
Proof. intros Hn H H0. rewrite !csum_cfft0, H, H0 by auto. cy. Qed.
Lemma multiplier_norm n T F a : (0 < n)%nat -> multiplier n T F -> (forall k, (k < n)%nat -> 0 <= F k <= 1) ->
  rsum n (fun g => cabs2 (T a g)) <= rsum n (fun g => cabs2 (a g)).
Proof.
  intros Hn H HF. apply Rmult_le_reg_l with (INR n); [apply lt_0_INR; lia|]. rewrite <- !parseval by auto. apply rsum_le. intros k Hk.
  rewrite H by auto. unfold cabs2, cscal. cbn [fst snd]. pose proof (HF k Hk). assert (F k * F k <= 1) by nra.
  pose proof (Rle_0_sqr (fst (cfft n a k))). pose proof (Rle_0_sqr (snd (cfft n a k))). unfold Rsqr in *. nra.
Qed.
Lemma ifft_ext' n X Y g : (forall k, (k < n)%nat -> X k = Y k) -> ifft n X g = ifft n Y g.
Proof. exact (ifft_ext n X Y g). Qed.
(** ** The Hou-Li kernel *)
Fixpoint cpow' (z : cplx) (k : nat) : cplx := match k with O => c1 | S q => cmul z (cpow' z q) end.
Theorem C79_houli : forall n alpha order a, (0 < n)%nat -> houli_ok alpha (Z.of_nat order) [lit "x"] = true ->
  (forall k, (k < n)%nat -> cfft n (houli n alpha order a) k = cscal (exp (- alpha * Rabs (2 * fftfreq n k) ^ (2 * order))) (cfft n a k)) /\
  csum n (houli n alpha order a) = csum n a /\
  rsum n (fun g => cabs2 (houli n alpha order a g)) <= rsum n (fun g => cabs2 (a g)) /\
  ((forall g, (g < n)%nat -> snd (a g) = 0) -> forall g, (g < n)%nat -> snd (houli n alpha order a g) = 0).
Proof.
  intros n alpha order a Hn Hok.
  assert (Ha : 0 < alpha /\ (1 <= order)%nat). { unfold houli_ok in Hok. destruct (Rle_dec alpha 0); [discriminate|]. apply andb_prop in Hok. destruct Hok as [Hok _]. cbn in Hok. apply Z.leb_le in Hok. split; [lra|lia]. }
  destruct Ha as [Ha Ho].
  assert (M : multiplier n (houli n alpha order) (houli_kernel n alpha order)).
  { intros b k Hk. unfold houli. rewrite cfft_ifft by auto. cy. }
  assert (K : forall k, (k < n)%nat -> 0 <= houli_kernel n alpha order k <= 1).
  { intros k _. unfold houli_kernel. split; [left; apply exp_pos|]. rewrite <- exp_0 at 1. assert (0 <= Rabs (2 * fftfreq n k) ^ (2 * order)) by (apply pow_le, Rabs_pos).
    destruct (Rle_lt_or_eq_dec 0 _ H) as [P|P]; [left; apply exp_increasing; nra|]. rewrite <- P. right. f_equal. ring. }
  assert (K0 : houli_kernel n alpha order 0 = 1).
  { unfold houli_kernel, fftfreq. destruct (Nat.ltb_spec (2 * 0) n); [|lia]. change (INR 0) with 0. replace (2 * (0 / INR n)) with 0 by (unfold Rdiv; ring). rewrite Rabs_R0, pow_i by lia. rewrite Rmult_0_r. apply exp_0. }
  split; [exact (M a)|]. split; [now apply (multiplier_sum n _ _ a Hn M)|]. split; [exact (multiplier_norm n _ _ a Hn M K)|].
  intros Hr g Hg. unfold houli. apply real_inverse; auto.
  - rewrite K0. rewrite <- csum_cfft0. unfold cmul. cbn [fst snd]. rewrite csum_snd. rewrite (rsum_ext n _ (fun _ => 0)) by (intros; now apply Hr). rewrite rsum_zero. ring.
  - intros k Hk. assert (E : forall i, cfft n a i = fft n (fun g => fst (a g)) i).
    { intros i. rewrite fft_emb. unfold cfft, emb. apply csum_ext. intros q Hq. f_equal. apply cplx_eq; cbn [fst snd]; auto. }
    rewrite !E, fft_mirror by lia. rewrite conj_mul. f_equal. unfold conj. cbn [fst snd]. rewrite Ropp_0. f_equal. unfold houli_kernel. do 2 f_equal. f_equal.
    assert (Hn0 : INR n <> 0) by (apply not_0_INR; lia).
    destruct (Nat.eq_dec (2 * k) n) as [D|D].
    + replace (n - k)%nat with k by lia. reflexivity.
    + rewrite <- Rabs_Ropp. f_equal. unfold fftfreq. rewrite minus_INR by lia. destruct (Nat.ltb_spec (2 * (n - k)) n), (Nat.ltb_spec (2 * k) n); try lia; field; auto.
Qed.
Print Assumptions C79_houli.
Example C79_houli_nonvacuous : houli_ok 36 36 [lit "x"] = true /\ houli_ok 0 36 [lit "x"] = false /\ houli_ok (-1) 36 [lit "x"] = false /\
  houli_ok 36 0 [lit "x"] = false /\ houli_ok 36 1 [lit "x"; lit "z"] = false /\ houli_ok 36 1 [lit "y"] = true.
Proof. unfold houli_ok. repeat (destruct Rle_dec; try lra). cbn. tauto. Qed.

(** ** The partitioned filter *)
Lemma part_filter_eq p nloc a g : (0 < p)%nat -> (0 < nloc)%nat -> (g < p * nloc)%nat ->
  part_filter p (p * nloc) a g = if (4 <=? nloc)%nat then csub (a g) (cscal (/ 256) (csum 9 (fun k => cscal (filter_coef k) (cshift (p * nloc) a g (Z.of_nat k - 4)))))
    else cadd (cadd (cscal (1 / 4) (cshift (p * nloc) a g (-1))) (cscal (1 / 2) (a g))) (cscal (1 / 4) (cshift (p * nloc) a g 1)).
Proof.
  intros Hp Hn Hg. unfold part_filter. replace (p * nloc / p)%nat with nloc by (rewrite Nat.mul_comm, Nat.div_mul; lia). cbv zeta.
  destruct (Nat.leb_spec 4 nloc); cbn [Nat.eqb].
  - do 2 f_equal. apply csum_ext. intros k Hk. f_equal. change (4%Z) with (Z.of_nat 4). apply padded_shift; lia.
  - replace (padded p (p * nloc) 1 a (g / nloc) (g mod nloc)) with (padded p (p * nloc) 1 a (g / nloc) (g mod nloc + 0)) by (f_equal; lia). rewrite !padded_shift by lia. 
    change (Z.of_nat 1 - Z.of_nat 1)%Z with 0%Z. rewrite (shift_in _ g 0) by lia. rewrite Z.add_0_r, Nat2Z.id. reflexivity.
Qed.
Lemma cis_shift n k g s : (0 < n)%nat -> cis (angle n k (Z.to_nat ((Z.of_nat g + s) mod Z.of_nat n))) = cmul (cis (2 * PI * INR k * IZR s / INR n)) (cis (angle n k g)).
Proof.
  intros Hn. rewrite <- cis_add. assert (Hn0 : INR n <> 0) by (apply not_0_INR; lia).
  pose proof (Z.mod_pos_bound (Z.of_nat g + s) (Z.of_nat n) ltac:(lia)) as B.
  rewrite <- (cis_period (angle n k (Z.to_nat ((Z.of_nat g + s) mod Z.of_nat n))) (Z.of_nat k * ((Z.of_nat g + s) / Z.of_nat n))). f_equal.
  unfold angle. rewrite (INR_IZR_INZ (Z.to_nat _)), Z2Nat.id by lia. rewrite Z.mod_eq by lia. rewrite minus_IZR, !mult_IZR, plus_IZR, <- !INR_IZR_INZ. field. auto.
Qed.
(** The shift theorem: a cyclic shift multiplies mode k by exp(2 pi i k s / n). *)
Lemma cfft_shift n a k s : (k < n)%nat -> cfft n (fun g => cshift n a g s) k = cmul (cis (2 * PI * INR k * IZR s / INR n)) (cfft n a k).
Proof.
  intros Hk. transitivity (cfft n (ifft n (fun i => cmul (cis (2 * PI * INR i * IZR s / INR n)) (cfft n a i))) k); [|now rewrite cfft_ifft].
  unfold cfft at 1 2. apply csum_ext. intros g Hg. f_equal. unfold cshift.
  pose proof (Z.mod_pos_bound (Z.of_nat g + s) (Z.of_nat n) ltac:(lia)) as B.
  rewrite <- (ifft_cfft n a (Z.to_nat _)) by lia. unfold ifft. f_equal. apply csum_ext. intros i Hi. rewrite cis_shift by lia. ring.
Qed.
Lemma cfft_lin n (u w : R) a b k : cfft n (fun g => cadd (cscal u (a g)) (cscal w (b g))) k = cadd (cscal u (cfft n a k)) (cscal w (cfft n b k)).
Proof. unfold cfft. rewrite !cscal_mul, <- !csum_mul, <- csum_add. apply csum_ext. intros. rewrite !cscal_mul. ring. Qed.
Lemma cfft_csum n m (u : nat -> R) (a : nat -> nat -> cplx) k : cfft n (fun g => csum m (fun q => cscal (u q) (a q g))) k = csum m (fun q => cscal (u q) (cfft n (a q) k)).
Proof.
  unfold cfft. rewrite (csum_ext n _ (fun g => csum m (fun q => cscal (u q) (cmul (a q g) (cis (- angle n k g)))))).
  - rewrite csum_swap. apply csum_ext. intros q _. apply csum_scal.
  - intros g _. rewrite <- csum_mul_r. apply csum_ext. intros q _. rewrite !cscal_mul. ring.
Qed.
Lemma binom8_ring z w : csum 9 (fun k => cscal (filter_coef k) (cmul (cpow' z k) (cpow' w (8 - k)))) = cpow' (csub z w) 8.
Proof.
  unfold filter_coef. cbn [csum nth Nat.sub cpow']. rewrite !cscal_mul.
  pose (e2 := cadd c1 c1). pose (e8 := cmul e2 (cmul e2 e2)).
  assert (E1 : (1, 0) = c1) by reflexivity. assert (E8 : (8, 0) = e8) by (unfold e8, e2; cy).
  assert (M8 : (-8, 0) = cneg e8) by (rewrite <- E8; cy).
  assert (E28 : (28, 0) = csub (cmul (cmul e2 e2) e8) (cmul e2 e2)) by (unfold e8, e2; cy).
  assert (M56 : (-56, 0) = cneg (csub (cmul e8 e8) e8)) by (unfold e8, e2; cy).
  assert (E70 : (70, 0) = cadd (cmul e8 e8) (csub e8 e2)) by (unfold e8, e2; cy).
  rewrite E1, M8, E28, M56, E70. unfold e8, e2. ring.
Qed.
Lemma binom8 t : csum 9 (fun k => cscal (filter_coef k) (cis (2 * t * IZR (Z.of_nat k - 4)))) = (256 * sin t ^ 8, 0).
Proof.
  assert (E : forall k, (k < 9)%nat -> cis (2 * t * IZR (Z.of_nat k - 4)) = cmul (cis (INR k * t)) (cis (- (INR (8 - k) * t)))).
  { intros k Hk. rewrite <- cis_add. f_equal. rewrite minus_IZR, <- INR_IZR_INZ, minus_INR by lia. change (INR 8) with (1 + 1 + 1 + 1 + 1 + 1 + 1 + 1). ring. }
  rewrite (csum_ext 9 _ (fun k => cscal (filter_coef k) (cmul (cis (INR k * t)) (cis (- (INR (8 - k) * t)))))) by (intros k Hk; now rewrite E by auto).
  assert (P : forall k, cis (INR k * t) = cpow' (cis t) k).
  { induction k; [change (INR 0) with 0; rewrite Rmult_0_l, cis_0; reflexivity|]. rewrite S_INR. replace ((INR k + 1) * t) with (t + INR k * t) by ring. now rewrite cis_add, IHk. }
  assert (Q : forall k, cis (- (INR k * t)) = cpow' (conj (cis t)) k).
  { induction k; [change (INR 0) with 0; rewrite Rmult_0_l, Ropp_0, cis_0; reflexivity|]. rewrite S_INR. replace (- ((INR k + 1) * t)) with (- t + - (INR k * t)) by ring. now rewrite cis_add, IHk, cis_neg. }
  rewrite (csum_ext 9 _ (fun k => cscal (filter_coef k) (cmul (cpow' (cis t) k) (cpow' (conj (cis t)) (8 - k))))) by (intros k Hk; now rewrite P, Q).
  rewrite binom8_ring. replace (csub (cis t) (conj (cis t))) with (0, 2 * sin t) by (unfold cis, conj; cy). cbn [cpow']. cy.
Qed.
(** With at least four cells per device mode k is multiplied by 1 - sin^8(pi k / n), with fewer by cos^2(pi k / n): in both cases the
    mean is kept, no mode grows, the norm does not grow and the mode at half the sampling rate is removed. *)
Theorem C79_partitioned_filter : forall p nloc a, (0 < p)%nat -> (0 < nloc)%nat ->
  let n := (p * nloc)%nat in
  let F := fun k => if (4 <=? nloc)%nat then 1 - sin (PI * INR k / INR n) ^ 8 else cos (PI * INR k / INR n) ^ 2 in
  (forall k, (k < n)%nat -> cfft n (part_filter p n a) k = cscal (F k) (cfft n a k)) /\
  csum n (part_filter p n a) = csum n a /\
  rsum n (fun g => cabs2 (part_filter p n a g)) <= rsum n (fun g => cabs2 (a g)) /\
  (forall k, (0 < k)%nat -> (2 * k = n)%nat -> cfft n (part_filter p n a) k = c0).
Proof.
  intros p nloc a Hp Hn n F. assert (Hn0 : (0 < n)%nat) by (unfold n; nia). assert (HN : INR n <> 0) by (apply not_0_INR; lia).
  assert (M : multiplier n (part_filter p n) F).
  { intros b k Hk. unfold F. destruct (Nat.leb_spec 4 nloc) as [H4|H4].
    - transitivity (cfft n (fun g => cadd (cscal 1 (b g)) (cscal (- / 256) (csum 9 (fun q => cscal (filter_coef q) (cshift n b g (Z.of_nat q - 4)))))) k).
      { unfold cfft. apply csum_ext. intros g Hg. f_equal. unfold n. rewrite part_filter_eq by auto. destruct (Nat.leb_spec 4 nloc); [|lia]. cy. }
      rewrite cfft_lin, cfft_csum.
      rewrite (csum_ext 9 _ (fun q => cmul (cscal (filter_coef q) (cis (2 * (PI * INR k / INR n) * IZR (Z.of_nat q - 4)))) (cfft n b k))).
      2:{ intros q _. rewrite cfft_shift by auto. rewrite !cscal_mul. replace (2 * PI * INR k * IZR (Z.of_nat q - 4) / INR n) with (2 * (PI * INR k / INR n) * IZR (Z.of_nat q - 4)) by (unfold Rdiv; ring). ring. }
      rewrite csum_mul_r, binom8. apply cplx_eq; unfold cadd, cscal, cmul; cbn [fst snd]; field.
    - transitivity (cfft n (fun g => cadd (cscal 1 (cadd (cscal (1 / 4) (cshift n b g (-1))) (cscal (1 / 2) (b g)))) (cscal (1 / 4) (cshift n b g 1))) k).
      { unfold cfft. apply csum_ext. intros g Hg. f_equal. unfold n. rewrite part_filter_eq by auto. destruct (Nat.leb_spec 4 nloc); [lia|]. cy. }
      rewrite cfft_lin, cfft_lin, !cfft_shift by auto. set (t := PI * INR k / INR n). 
      replace (2 * PI * INR k * -1 / INR n) with (- (2 * t)) by (unfold t, Rdiv; ring). replace (2 * PI * INR k * 1 / INR n) with (2 * t) by (unfold t, Rdiv; ring).
      rewrite cis_neg. unfold cis, conj. cbn [fst snd]. rewrite cos_2a_cos. apply cplx_eq; unfold cadd, cscal, cmul; cbn [fst snd]; field. }
  assert (HF : forall k, (k < n)%nat -> 0 <= F k <= 1).
  { intros k _. unfold F. set (t := PI * INR k / INR n). pose proof (sin2_cos2 t) as S. unfold Rsqr in S. destruct (4 <=? nloc)%nat.
    - replace (sin t ^ 8) with ((sin t * sin t) ^ 4) by ring. assert (0 <= sin t * sin t <= 1) by nra. assert (0 <= (sin t * sin t) ^ 4) by (apply pow_le; lra).
      assert ((sin t * sin t) ^ 4 <= 1 ^ 4) by (apply pow_incr; lra). rewrite pow1 in *. lra.
    - nra. }
  assert (F0 : F 0%nat = 1). { unfold F. change (INR 0) with 0. replace (PI * 0 / INR n) with 0 by (field; auto). rewrite sin_0, cos_0. destruct (4 <=? nloc)%nat; ring. }
  split; [exact (M a)|]. split; [exact (multiplier_sum n _ _ a Hn0 M F0)|]. split; [exact (multiplier_norm n _ _ a Hn0 M HF)|].
  intros k Hk0 Hk. rewrite M by lia. unfold F. replace (PI * INR k / INR n) with (PI / 2). 
  - rewrite sin_PI2, cos_PI2. destruct (4 <=? nloc)%nat; cy.
  - rewrite <- Hk, mult_INR. change (INR 2) with 2. field. apply not_0_INR. lia.
Qed.
Print Assumptions C79_partitioned_filter.
Example C79_partitioned_filter_nonvacuous : (2 * 4 = 8)%nat /\ (4 <=? 4)%nat = true /\ (4 <=? 2)%nat = false.
Proof. auto. Qed.
(** The two factors differ, so the number of devices changes the filter. *)
Theorem C79_filter_device_count_refuted : ~ (forall p p' n a g, (0 < p)%nat -> (0 < p')%nat -> (n mod p = 0)%nat -> (n mod p' = 0)%nat -> (g < n)%nat ->
  part_filter p n a g = part_filter p' n a g).
Proof.
  intros H. specialize (H 8%nat 1%nat 8%nat (fun i => if (i =? 1)%nat then (1, 0) else c0) 0%nat ltac:(lia) ltac:(lia) eq_refl eq_refl ltac:(lia)).
  pose proof (part_filter_eq 8 1 (fun i => if (i =? 1)%nat then (1, 0) else c0) 0 ltac:(lia) ltac:(lia) ltac:(lia)) as E1.
  pose proof (part_filter_eq 1 8 (fun i => if (i =? 1)%nat then (1, 0) else c0) 0 ltac:(lia) ltac:(lia) ltac:(lia)) as E2.
  change (8 * 1)%nat with 8%nat in E1. change (1 * 8)%nat with 8%nat in E2. rewrite E1, E2 in H. apply (f_equal fst) in H.
  cbn [Nat.leb andb csum] in H. unfold cshift, filter_coef in H. cbn [nth] in H.
  repeat match type of H with context [Z.to_nat ?z] => let k := eval vm_compute in (Z.to_nat z) in change (Z.to_nat z) with k in H end.
  cbn [Nat.eqb] in H. unfold csub, cneg, c0 in H. unfold cadd, cscal in H. cbn [fst snd] in H. lra.
Qed.
Print Assumptions C79_filter_device_count_refuted.

(** ** HouLiFilter2D on the (x, y) plane *)
(** Whatever axes are filtered and whether or not x is partitioned, the plane total is kept and its norm does not grow. *)
Theorem C79_plane_filter : forall mesh nx ny alpha order dims a b, (0 < nx)%nat -> (0 < ny)%nat ->
  match mesh with None => True | Some p => (0 < p)%nat /\ (nx mod p = 0)%nat end ->
  houli2 mesh nx ny alpha order dims a = Some b ->
  csum nx (fun x => csum ny (fun y => b x y)) = csum nx (fun x => csum ny (fun y => a x y)) /\
  rsum nx (fun x => rsum ny (fun y => cabs2 (b x y))) <= rsum nx (fun x => rsum ny (fun y => cabs2 (a x y))) /\
  (dims = [] -> b = a).
Proof.
  intros mesh nx ny alpha order dims a b Hx Hy Hm Hb. unfold houli2 in Hb. destruct (houli_ok alpha order dims) eqn:Hok; [|discriminate]. cbn [negb] in Hb.
  assert (O1 : houli_ok alpha (Z.of_nat (Z.to_nat order)) [lit "x"] = true).
  { unfold houli_ok in *. apply andb_prop in Hok. destruct Hok as [Hok _]. pose proof Hok as Hok'. apply andb_prop in Hok'. destruct Hok' as [A B]. apply Z.leb_le in B.
    rewrite Z2Nat.id by lia. rewrite Hok. reflexivity. }
  apply (f_equal (fun o => match o with Some z => z | None => b end)) in Hb. cbv beta iota zeta in Hb. set (o := Z.to_nat order) in *.
  set (b1 := if has_dim (lit "x") dims then (fun x y => match mesh with None => houli nx alpha o (fun x' => a x' y) x | Some p => part_filter p nx (fun x' => a x' y) x end) else a) in *.
  assert (X : csum nx (fun x => csum ny (fun y => b1 x y)) = csum nx (fun x => csum ny (fun y => a x y)) /\
     rsum nx (fun x => rsum ny (fun y => cabs2 (b1 x y))) <= rsum nx (fun x => rsum ny (fun y => cabs2 (a x y)))).
  { unfold b1. destruct (has_dim (lit "x") dims); [|split; [reflexivity|lra]]. rewrite !(csum_swap nx ny), !(rsum_swap nx ny).
    destruct mesh as [p|]; [destruct Hm as [Hp Hm]; assert (Q : (nx = p * (nx / p))%nat) by (apply Nat.div_exact; lia); assert (Q0 : (0 < nx / p)%nat) by nia; rewrite Q|];
    (split; [apply csum_ext; intros y _|apply rsum_le; intros y _]).
    - apply (C79_partitioned_filter p (nx / p) (fun x' => a x' y) Hp Q0).
    - apply (C79_partitioned_filter p (nx / p) (fun x' => a x' y) Hp Q0).
    - apply (C79_houli nx alpha o (fun x' => a x' y) Hx O1).
    - apply (C79_houli nx alpha o (fun x' => a x' y) Hx O1). }
  destruct X as [X1 X2]. rewrite <- X1. split; [|split].
  - rewrite <- Hb. destruct (has_dim (lit "y") dims); [|reflexivity]. apply csum_ext. intros x _. apply (C79_houli ny alpha o (fun y' => b1 x y') Hy O1).
  - eapply Rle_trans; [|exact X2]. rewrite <- Hb. destruct (has_dim (lit "y") dims); [|lra]. apply rsum_le. intros x _. apply (C79_houli ny alpha o (fun y' => b1 x y') Hy O1).
  - intros ->. rewrite <- Hb. reflexivity.
Qed.
Print Assumptions C79_plane_filter.
Example C79_plane_filter_nonvacuous : exists b, houli2 (Some 2%nat) 8 4 36 36 [lit "x"; lit "y"] (fun x y => (INR x, INR y)) = Some b.
Proof. unfold houli2, houli_ok. destruct (Rle_dec 36 0); [lra|]. cbn. eexists. reflexivity. Qed.
