(** Proofs about the spectral pushers. *)
From Verif Require Import RSum Pic PicProofs PicFourier Dft Vlasov.
Local Open Scope R_scope.

Lemma out_len_even n : Nat.Even n -> out_len n = n.
Proof. intros [h ->]. unfold out_len. replace (2 * h / 2)%nat with h by (rewrite Nat.mul_comm, Nat.div_mul; lia). lia. Qed.
Lemma out_len_odd n : Nat.Odd n -> out_len n = (n - 1)%nat.
Proof. intros [h ->]. unfold out_len. replace ((2 * h + 1) / 2)%nat with h by (rewrite Nat.add_comm, Nat.mul_comm, Nat.div_add; [reflexivity|lia]). lia. Qed.

Definition shiftM (n : nat) (d vdt : R) (k : nat) : cplx := cis (- (kr n d k * vdt)).
Lemma space_col_smul n d vdt f g : Nat.Even n -> space_col n d vdt f g = smul n (shiftM n d vdt) f g.
Proof. intros H. unfold space_col. rewrite out_len_even by exact H. reflexivity. Qed.
Lemma vel_row_col n d dt a f j : vel_row n d dt a f j = space_col n d (dt * a) f j.
Proof. unfold vel_row, space_col. apply irfft_ext. intros k _. do 3 f_equal. ring. Qed.

Lemma kr_0 n d : kr n d 0 = 0.
Proof. unfold kr. cbn [INR]. unfold Rdiv. ring. Qed.
Lemma shiftM_0 n d vdt : shiftM n d vdt 0 = c1.
Proof. unfold shiftM. rewrite kr_0. replace (- (0 * vdt)) with 0 by ring. apply cis_0. Qed.
Lemma shiftM_abs n d vdt k : cabs2 (shiftM n d vdt k) = 1.
Proof. apply cabs2_cis. Qed.
Lemma kr_shift n d vdt k : d <> 0 -> (0 < n)%nat -> kr n d k * vdt = 2 * PI * INR k * (vdt / d) / INR n.
Proof. intros Hd Hn. unfold kr. field. split; [exact Hd|]. apply not_0_INR. lia. Qed.

Lemma space_col_mass n d vdt f : Nat.Even n -> (0 < n)%nat -> rsum n (space_col n d vdt f) = rsum n f.
Proof.
  intros He Hn. rewrite (rsum_ext n _ (smul n (shiftM n d vdt) f)) by (intros; now apply space_col_smul).
  apply smul_mean; [exact Hn|]. rewrite shiftM_0. reflexivity.
Qed.

(** Whole cells *)
Definition wrap (n : nat) (z : Z) : nat := Z.to_nat (z mod Z.of_nat n).
Lemma wrap_lt n z : (0 < n)%nat -> (wrap n z < n)%nat.
Proof. intros H. unfold wrap. pose proof (Z.mod_pos_bound z (Z.of_nat n) ltac:(lia)). lia. Qed.
Lemma angle_wrap n k z : (0 < n)%nat -> exists q, 2 * PI * INR k * IZR z / INR n = angle n k (wrap n z) + 2 * IZR q * PI.
Proof.
  intros Hn. exists (Z.of_nat k * (z / Z.of_nat n))%Z. unfold angle, wrap.
  rewrite (INR_IZR_INZ (Z.to_nat _)), Z2Nat.id by (apply Z.mod_pos_bound; lia).
  rewrite (Z_div_mod_eq_full z (Z.of_nat n)) at 1. rewrite plus_IZR, !mult_IZR, <- !INR_IZR_INZ. field. apply not_0_INR. lia.
Qed.
Lemma smul_cells n d vdt f (s : Z) g : d <> 0 -> vdt = IZR s * d -> (g < n)%nat ->
  smul n (shiftM n d vdt) f g = f (wrap n (Z.of_nat g - s)).
Proof.
  intros Hd Hs Hg. assert (Hn : (0 < n)%nat) by lia. unfold smul, irfft.
  assert (Ev : forall k, kr n d k * vdt = 2 * PI * INR k * IZR s / INR n).
  { intros k. rewrite kr_shift by assumption. rewrite Hs. f_equal. f_equal. field. exact Hd. }
  set (X := fun k => cmul (shiftM n d vdt k) (rfft n f k)).
  assert (HX : forall k, (k < n)%nat -> herm n X k = cmul (cis (- (2 * PI * INR k * IZR s / INR n))) (fft n f k)).
  { intros k Hk. unfold herm. destruct (Nat.eqb_spec k 0) as [->|K].
    - unfold X. rewrite shiftM_0. replace (- (2 * PI * INR 0 * IZR s / INR n)) with 0 by (cbn [INR]; unfold Rdiv; ring). rewrite cis_0.
      pose proof (fft_0_real n f) as E. unfold rfft. apply cplx_eq; unfold cmul, c1; cbn [fst snd]; rewrite ?E; ring.
    - destruct (Nat.ltb_spec (2 * k) n) as [A|A]; [unfold X, shiftM, rfft; rewrite Ev; reflexivity|].
      destruct (Nat.eqb_spec (2 * k) n) as [B|B].
      + assert (Hc : snd (cis (- (2 * PI * INR k * IZR s / INR n))) = 0).
        { cbn [cis snd]. assert (E2 : INR n = 2 * INR k) by (rewrite <- B, mult_INR; cbn [INR]; ring). assert (Hk0 : INR k <> 0) by (apply not_0_INR; lia). rewrite E2.
          replace (- (2 * PI * INR k * IZR s / (2 * INR k))) with (IZR (- s) * PI) by (rewrite opp_IZR; field; exact Hk0).
          apply sin_eq_0_1. exists (- s)%Z. reflexivity. }
        pose proof (fft_nyq_real n f k ltac:(lia) B) as E. unfold X, shiftM, rfft. rewrite Ev.
        apply cplx_eq; unfold cmul; cbn [fst snd]; rewrite ?E, ?Hc; ring.
      + unfold X, shiftM, rfft. rewrite conj_mul, <- cis_neg, Ev.
        pose proof (fft_mirror n f (n - k) Hn ltac:(lia)) as E. replace (n - (n - k))%nat with k in E by lia. rewrite <- E. f_equal.
        rewrite Ropp_involutive. rewrite minus_INR by lia.
        replace (2 * PI * (INR n - INR k) * IZR s / INR n) with (- (2 * PI * INR k * IZR s / INR n) + 2 * IZR s * PI) by (field; apply not_0_INR; lia).
        apply cis_period. }
  rewrite (ifft_ext n _ (fun k => cmul (cis (- (2 * PI * INR k * IZR s / INR n))) (fft n f k)) g HX).
  transitivity (fst (ifft n (cfft n (emb f)) (wrap n (Z.of_nat g - s)))).
  2:{ rewrite ifft_cfft by now apply wrap_lt. reflexivity. }
  unfold ifft. do 2 f_equal. apply csum_ext. intros k Hk. rewrite <- fft_emb.
  destruct (angle_wrap n k (Z.of_nat g - s) Hn) as [q Hq].
  transitivity (cmul (fft n f k) (cmul (cis (- (2 * PI * INR k * IZR s / INR n))) (cis (angle n k g)))); [ring|]. f_equal.
  rewrite <- cis_add. rewrite <- (cis_period (angle n k (wrap n (Z.of_nat g - s))) q), <- Hq. f_equal.
  unfold angle. rewrite minus_IZR, <- INR_IZR_INZ. field. apply not_0_INR. lia.
Qed.

Lemma space_col_cells n d vdt f (s : Z) g : Nat.Even n -> d <> 0 -> vdt = IZR s * d -> (g < n)%nat ->
  space_col n d vdt f g = f (wrap n (Z.of_nat g - s)).
Proof. intros He Hd Hs Hg. rewrite space_col_smul by exact He. now apply smul_cells. Qed.

(** A single wave *)
Lemma fft_wave n m A phi k : (0 < m)%nat -> (2 * m < n)%nat -> (2 * k <= n)%nat ->
  fft n (fun g => A * cos (angle n m g + phi)) k = if Nat.eqb k m then cscal (INR n * A / 2) (cis phi) else c0.
Proof.
  intros Hm Hmn Hk. rewrite fft_emb. unfold cfft, emb.
  rewrite (csum_ext n _ (fun g => cadd (cmul (cscal (A / 2) (cis phi)) (cis (angle n m g - angle n k g))) (cmul (cscal (A / 2) (cis (- phi))) (cis (angleZ n (- (Z.of_nat m + Z.of_nat k)) g))))).
  2:{ intros g Hg. replace (angleZ n (- (Z.of_nat m + Z.of_nat k)) g) with (- angle n m g - angle n k g) by (rewrite !angle_Z; unfold angleZ; rewrite opp_IZR, plus_IZR; unfold Rdiv; ring).
      apply cplx_eq; unfold cadd, cmul, cscal, cis; cbn [fst snd]; unfold Rminus; rewrite ?cos_plus, ?sin_plus, ?cos_neg, ?sin_neg; field. }
  rewrite csum_add, !csum_mul, char_orth, char_sum by lia.
  rewrite (proj2 (Z.eqb_neq _ _)).
  2:{ intros E. apply Z.mod_divide in E; [|lia]. destruct E as [q Hq]. assert (q < 0)%Z by nia. nia. }
  rewrite Nat.eqb_sym. destruct (Nat.eqb k m); apply cplx_eq; unfold cadd, cmul, cscal, cis, c0; cbn [fst snd]; field.
Qed.
Lemma smul_wave n d vdt m A phi g : (2 * m < n)%nat -> (g < n)%nat ->
  smul n (shiftM n d vdt) (fun h => A * cos (angle n m h + phi)) g = A * cos (angle n m g - kr n d m * vdt + phi).
Proof.
  intros Hm Hg.
  apply (fft_inj n (smul n (shiftM n d vdt) (fun h => A * cos (angle n m h + phi))) (fun h => A * cos (angle n m h - kr n d m * vdt + phi))); [|exact Hg].
  intros k Hk. rewrite fft_smul by lia.
  rewrite (fft_ext n (fun h => A * cos (angle n m h - kr n d m * vdt + phi)) (fun h => A * cos (angle n m h + (phi - kr n d m * vdt)))) by (intros; do 2 f_equal; ring).
  destruct (Nat.eq_dec m 0) as [->|M].
  - rewrite kr_0. rewrite (fft_ext n (fun h => A * cos (angle n 0 h + (phi - 0 * vdt))) (fun h => A * cos (angle n 0 h + phi))) by (intros; do 2 f_equal; ring).
    unfold eff. destruct (Nat.eqb_spec k 0) as [->|K]; cbn [orb]; [rewrite shiftM_0; apply cplx_eq; unfold cmul, c1; cbn [fst snd]; ring|].
    assert (Z0 : fft n (fun h => A * cos (angle n 0 h + phi)) k = c0).
    { rewrite fft_emb. unfold cfft, emb. rewrite (csum_ext n _ (fun h => cmul (A * cos phi, 0) (cis (angle n 0 h - angle n k h)))).
      2:{ intros h _. replace (angle n 0 h) with 0 by (unfold angle; cbn [INR]; unfold Rdiv; ring). rewrite Rplus_0_l. do 2 f_equal. ring. }
      rewrite csum_mul, char_orth by lia. destruct (Nat.eqb_spec 0 k); [lia|]. creal. }
    rewrite Z0. creal.
  - rewrite !fft_wave by lia. destruct (Nat.eqb_spec k m) as [->|K]; [|creal].
    unfold eff. destruct (Nat.eqb_spec m 0); [lia|]. destruct (Nat.eqb_spec (2 * m) n); [lia|]. cbn [orb].
    unfold Rminus. rewrite cis_add. unfold shiftM. rewrite !cscal_mul. ring.
Qed.

Lemma space_col_wave n d vdt m A phi g : Nat.Even n -> (2 * m < n)%nat -> (g < n)%nat ->
  space_col n d vdt (fun h => A * cos (angle n m h + phi)) g = A * cos (angle n m g - kr n d m * vdt + phi).
Proof. intros He Hm Hg. rewrite space_col_smul by exact He. now apply smul_wave. Qed.

(** Energy *)
Lemma space_col_energy n d vdt f : Nat.Even n -> (0 < n)%nat ->
  rsum n (fun g => space_col n d vdt f g * space_col n d vdt f g) <= rsum n (fun g => f g * f g).
Proof.
  intros He Hn. rewrite (rsum_ext n _ (fun g => smul n (shiftM n d vdt) f g * smul n (shiftM n d vdt) f g)) by (intros; now rewrite space_col_smul).
  apply smul_energy; [exact Hn|]. intros. rewrite shiftM_abs. lra.
Qed.
(** The alternating sum: the amplitude of the shortest wave of an even grid. *)
Definition shortest (n : nat) (f : profile) : R := rsum n (fun g => (-1) ^ g * f g).
Lemma cos_nat_PI g : cos (PI * INR g) = (-1) ^ g.
Proof.
  induction g as [|g IH]; [cbn [INR pow]; rewrite Rmult_0_r; apply cos_0|]. rewrite S_INR. replace (PI * (INR g + 1)) with (PI * INR g + PI) by ring. rewrite neg_cos, IH. cbn [pow]. ring.
Qed.
Lemma fft_nyq n h f : (0 < h)%nat -> n = (2 * h)%nat -> fft n f h = (shortest n f, 0).
Proof.
  intros Hh ->. apply cplx_eq; [|apply fft_nyq_real; lia]. rewrite fft_fst. cbn [fst]. unfold shortest. apply rsum_ext. intros g _.
  replace (angle (2 * h) h g) with (PI * INR g).
  2:{ unfold angle. rewrite mult_INR. change (INR 2) with 2. field. apply not_0_INR. lia. }
  rewrite cos_nat_PI. ring.
Qed.
Lemma kr_nyq h d : (0 < h)%nat -> d <> 0 -> kr (2 * h) d h = PI / d.
Proof. intros Hh Hd. unfold kr. rewrite mult_INR. change (INR 2) with 2. field. split; first [exact Hd | apply not_0_INR; lia]. Qed.
Lemma space_col_energy_defect h d vdt f : (0 < h)%nat -> d <> 0 ->
  rsum (2 * h) (fun g => f g * f g) - rsum (2 * h) (fun g => space_col (2 * h) d vdt f g * space_col (2 * h) d vdt f g)
  = (sin (PI / d * vdt) * shortest (2 * h) f) ^ 2 / INR (2 * h).
Proof.
  intros Hh Hd. assert (He : Nat.Even (2 * h)) by (exists h; reflexivity). set (n := (2 * h)%nat) in *. assert (Hn : (0 < n)%nat) by (unfold n; lia).
  assert (HnR : INR n <> 0) by (apply not_0_INR; lia).
  rewrite (rsum_ext n (fun g => space_col n d vdt f g * space_col n d vdt f g) (fun g => smul n (shiftM n d vdt) f g * smul n (shiftM n d vdt) f g)) by (intros; now rewrite space_col_smul).
  set (y := smul n (shiftM n d vdt) f).
  apply Rmult_eq_reg_l with (INR n); [|exact HnR]. rewrite Rmult_minus_distr_l, <- !parseval_real by exact Hn. rewrite <- rsum_minus.
  assert (G : forall j, (2 * j <= n)%nat -> j <> h -> cabs2 (fft n y j) = cabs2 (fft n f j)).
  { intros j Hj Hjh. unfold y. rewrite fft_smul by lia. rewrite cmul_conj_abs. unfold eff. destruct (Nat.eqb_spec j 0) as [->|J]; cbn [orb].
    - rewrite shiftM_0. unfold c1, cabs2; cbn [fst snd]. ring.
    - destruct (Nat.eqb_spec (2 * j) n) as [B|B]; [unfold n in B; lia|]. rewrite shiftM_abs. ring. }
  rewrite (rsum_single n h).
  - unfold y. rewrite fft_smul by (unfold n; lia). rewrite (fft_nyq n h f Hh eq_refl). unfold eff.
    replace (2 * h =? n)%nat with true by (symmetry; apply Nat.eqb_refl). rewrite orb_true_r. unfold shiftM, n. rewrite kr_nyq by assumption. fold n.
    unfold cmul, cabs2, cis; cbn [fst snd]. rewrite cos_neg. pose proof (sin2_cos2 (PI / d * vdt)) as S. unfold Rsqr in S.
    field_simplify; [|exact HnR]. replace (cos (PI / d * vdt) ^ 2) with (1 - sin (PI / d * vdt) ^ 2) by (cbn [pow]; lra). field.
  - unfold n; lia.
  - intros k Hk Hkh. destruct (Nat.le_gt_cases (2 * k) n) as [A|A]; [rewrite G by assumption; ring|].
    pose proof (fft_mirror n y (n - k) Hn ltac:(lia)) as E1. pose proof (fft_mirror n f (n - k) Hn ltac:(lia)) as E2.
    replace (n - (n - k))%nat with k in E1, E2 by lia. rewrite E1, E2, !cabs2_conj, G by (unfold n in *; lia). ring.
Qed.

(** Composition *)
Lemma space_col_compose n d a b f g : Nat.Even n -> (g < n)%nat -> shortest n f = 0 ->
  space_col n d b (space_col n d a f) g = space_col n d (a + b) f g.
Proof.
  intros He Hg HN. rewrite !space_col_smul by exact He.
  rewrite (smul_ext n (shiftM n d b) (shiftM n d b) _ (smul n (shiftM n d a) f)) by (reflexivity || (intros; now apply space_col_smul)).
  rewrite smul_compose by exact Hg.
  apply (fft_inj n (smul n (fun k => cmul (eff n (shiftM n d b) k) (eff n (shiftM n d a) k)) f) (smul n (shiftM n d (a + b)) f)); [|exact Hg].
  intros k Hk. rewrite !fft_smul by lia. destruct (Nat.eqb_spec k 0) as [->|K].
  - unfold eff. cbn [Nat.eqb orb]. rewrite !shiftM_0. creal.
  - destruct (Nat.eqb_spec (2 * k) n) as [B|B].
    + rewrite (fft_nyq n k f) by lia. rewrite HN. creal.
    + unfold eff. destruct (Nat.eqb_spec k 0); [lia|]. destruct (Nat.eqb_spec (2 * k) n); [lia|]. cbn [orb]. unfold shiftM. f_equal. rewrite <- cis_add. f_equal. ring.
Qed.
Lemma space_col_shortest h d a f : (0 < h)%nat -> d <> 0 -> shortest (2 * h) (space_col (2 * h) d a f) = cos (PI / d * a) * shortest (2 * h) f.
Proof.
  intros Hh Hd. assert (He : Nat.Even (2 * h)) by (exists h; reflexivity).
  assert (E : fft (2 * h) (space_col (2 * h) d a f) h = cmul (eff (2 * h) (shiftM (2 * h) d a) h) (fft (2 * h) f h)).
  { rewrite <- fft_smul by lia. apply fft_ext. intros. now apply space_col_smul. }
  rewrite !(fft_nyq (2 * h) h _ Hh eq_refl) in E. unfold eff in E. rewrite Nat.eqb_refl, orb_true_r in E. apply (f_equal fst) in E.
  unfold cmul, shiftM, cis in E. cbn [fst snd] in E. rewrite kr_nyq, cos_neg in E by assumption. lra.
Qed.
Lemma space_col_zero n d f g : Nat.Even n -> (g < n)%nat -> space_col n d 0 f g = f g.
Proof.
  intros He Hg. rewrite space_col_smul by exact He. rewrite (smul_ext n _ (fun _ => c1) f f) by (try reflexivity; intros; unfold shiftM; rewrite Rmult_0_r, Ropp_0; apply cis_0).
  now apply smul_one.
Qed.
Lemma space_col_linear n d a u w f1 f2 g : Nat.Even n -> (g < n)%nat ->
  space_col n d a (fun i => u * f1 i + w * f2 i) g = u * space_col n d a f1 g + w * space_col n d a f2 g.
Proof. intros He Hg. rewrite !space_col_smul by exact He. now apply smul_linear. Qed.
