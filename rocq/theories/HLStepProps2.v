(** C95 (continued): convergence of the midpoint field, stationary states, diagnostics. *)
From Coq Require Import Reals Lra Lia ZArith List Bool Psatz.
From Verif Require Import HermitePoisson HPProps HPForceProps HPStepProps Legendre GaussInt HermLeg HLBasis HermLegProps HLForceProps HLColl HLCollProps HLCollProps2 HLStep HLStepProps RSum Pic PicProofs PicFourier Dft.
Import ListNotations.
Local Open Scope R_scope.

(* ------------------------------------------------------------------------------------------------ *)
(** * Equality of states, coefficient by coefficient *)
Definition steq (y y' : hst) : Prop := (forall n k, fst y n k = fst y' n k) /\ (forall n k, snd y n k = snd y' n k).
Lemma steq_refl y : steq y y. Proof. split; reflexivity. Qed.
Lemma steq_sym y z : steq y z -> steq z y. Proof. intros [A B]; split; intros; symmetry; auto. Qed.
Lemma steq_trans x y z : steq x y -> steq y z -> steq x z.
Proof. intros [A B] [C D]; split; intros; [rewrite A; apply C|rewrite B; apply D]. Qed.
Lemma masked_force_ext' nx m E E' g : (g < nx)%nat -> (forall h, (h < nx)%nat -> E h = E' h) -> masked_force nx m E g = masked_force nx m E' g.
Proof. intros Hg H. apply masked_force_ext; auto. Qed.
Lemma linear_steq c s y y' : steq y y' -> steq (hl_linear c s y) (hl_linear c s y').
Proof.
  intros [A B]. unfold hl_linear, edge_decay. split; intros n k; cbn [fst snd].
  - destruct (Req_EM_T (hl_nuH c) 0); [|f_equal]; apply stream_ext; intros; apply A.
  - destruct (Req_EM_T (hl_nuL c) 0); [|f_equal]; apply stream_ext; intros; apply B.
Qed.
Lemma self_steq c y y' g : steq y y' -> hl_self c y g = hl_self c y' g.
Proof.
  intros [A B]. unfold hl_self, hl_field. destruct (hl_field_on c); [|reflexivity]. f_equal. apply finv_ext. intros k Hk. f_equal. apply ffwd_ext. intros h Hh. unfold hl_rho.
  rewrite (finv_ext (hl_nx c) (fst y 0%nat) (fst y' 0%nat)) by auto. rewrite (finv_ext (hl_nx c) (snd y 0%nat) (snd y' 0%nat)) by auto. reflexivity.
Qed.
Lemma total_steq c t y y' g : steq y y' -> hl_total c t y g = hl_total c t y' g.
Proof. intros H. unfold hl_total. now rewrite (self_steq c y y' g H). Qed.
Lemma cayley_Eext nx m upd C E E' dt n k : (forall g, (g < nx)%nat -> E g = E' g) -> force_cayley nx m upd C E dt n k = force_cayley nx m upd C E' dt n k.
Proof. intros H. unfold force_cayley. apply masked_ext. apply ffwd_ext. intros g Hg. rewrite H by exact Hg. reflexivity. Qed.
Lemma cross_ext c C C' E E' n k : (forall n k, C n k = C' n k) -> (forall g, (g < hl_nx c)%nat -> E g = E' g) -> hl_cross c C E n k = hl_cross c C' E' n k.
Proof.
  intros HC HE. unfold hl_cross, cross_coupling. rewrite HC. do 2 f_equal. apply masked_ext. apply ffwd_ext. intros g Hg.
  rewrite (masked_force_ext' _ _ E E' g Hg HE). f_equal. apply finv_ext. intros j Hj. apply masked_ext. apply HC.
Qed.
Lemma forced_ext c half E E' : (forall g, (g < hl_nx c)%nat -> E g = E' g) -> steq (hl_forced c half E) (hl_forced c half E').
Proof.
  intros H. unfold hl_forced, hl_force. split; intros n k; cbn [fst snd].
  - apply cayley_Eext; exact H.
  - f_equal; [apply cayley_Eext; exact H|]. f_equal. apply cross_ext; [|exact H]. intros i j. do 2 f_equal. apply cayley_Eext. exact H.
Qed.
Lemma next_ext c t half EL E E' g : (forall g, (g < hl_nx c)%nat -> E g = E' g) -> hl_next c t half EL E g = hl_next c t half EL E' g.
Proof. intros H. unfold hl_next. do 2 f_equal. apply total_steq. apply forced_ext. exact H. Qed.
Lemma iter_fixed c t half EL m E : (forall g, (g < hl_nx c)%nat -> hl_next c t half EL E g = E g) -> forall E', (forall g, (g < hl_nx c)%nat -> E' g = E g) -> forall g, (g < hl_nx c)%nat -> hl_iter c t half EL m E' g = E g.
Proof.
  intros F. induction m as [|m IH]; intros E' HE g Hg; [apply HE; exact Hg|]. cbn [hl_iter]. apply IH; [|exact Hg]. intros h Hh. rewrite (next_ext c t half EL E' E h HE). apply F. exact Hh.
Qed.
Lemma iter_add c t half EL m k E : hl_iter c t half EL (m + k) E = hl_iter c t half EL k (hl_iter c t half EL m E).
Proof. revert E. induction m as [|m IH]; intros E; [reflexivity|]. cbn [Nat.add hl_iter]. apply IH. Qed.
(** A zero residual means the midpoint field used is the average of the field before and after the force step; any larger
    split_field_iters then gives the same step. *)
Definition with_iters (c : hlcfg) (m : nat) : hlcfg :=
  {| hl_nx := hl_nx c; hl_Nh := hl_Nh c; hl_Nl := hl_Nl c; hl_alpha := hl_alpha c; hl_u := hl_u c; hl_va := hl_va c; hl_vb := hl_vb c; hl_Lx := hl_Lx c;
     hl_dt := hl_dt c; hl_mask := hl_mask c; hl_field_on := hl_field_on c; hl_driver := hl_driver c; hl_integ := hl_integ c; hl_iters := m;
     hl_enforce := hl_enforce c; hl_gam := hl_gam c; hl_cv := hl_cv c; hl_evH := hl_evH c; hl_VH := hl_VH c; hl_evL := hl_evL c; hl_VL := hl_VL c;
     hl_nuH := hl_nuH c; hl_nuL := hl_nuL c; hl_leg := hl_leg c; hl_solve := hl_solve c; hl_coll := hl_coll c |}.
Lemma sumsq_zero n f : rsum n (fun g => f g ^ 2) = 0 -> forall g, (g < n)%nat -> f g = 0.
Proof.
  intros H g Hg. assert (P : forall i, 0 <= f i ^ 2) by (intros; apply pow2_ge_0).
  assert (L : f g ^ 2 <= rsum n (fun g => f g ^ 2)).
  { clear H. induction n as [|n IH]; [lia|]. cbn [rsum]. destruct (Nat.eq_dec g n) as [->|Hne].
    - assert (0 <= rsum n (fun g => f g ^ 2)) by (apply rsum_nonneg; auto). lra.
    - specialize (IH ltac:(lia)). pose proof (P n). lra. }
  pose proof (P g). assert (E : f g ^ 2 = 0) by lra. rewrite <- Rsqr_pow2 in E. apply Rsqr_0_uniq. exact E.
Qed.
Lemma residual_zero c E E' : hl_residual c E E' = 0 -> forall g, (g < hl_nx c)%nat -> E' g = E g.
Proof.
  intros H g Hg. unfold hl_residual, Rdiv in H. apply Rmult_integral in H. destruct H as [H|H].
  - unfold norm_x in H. apply sqrt_eq_0 in H; [|apply rsum_nonneg; intros; apply pow2_ge_0].
    pose proof (sumsq_zero _ (fun g => E g - E' g) H g Hg) as Z. cbv beta in Z. lra.
  - exfalso. revert H. apply Rinv_neq_0_compat. assert (0 < Rmax (norm_x (hl_nx c) E) (/ 10 ^ 14)) by (eapply Rlt_le_trans; [|apply Rmax_r]; apply tiny_pos). lra.
Qed.
Lemma correct_steq c y y' tg : (0 < hl_nx c)%nat -> steq y y' -> steq (fst (hl_correct c y tg)) (fst (hl_correct c y' tg)) /\ snd (hl_correct c y tg) = snd (hl_correct c y' tg).
Proof.
  intros Hx H. pose proof H as [A B].
  assert (D : forall i, low_delta c y tg i = low_delta c y' tg i).
  { intros i. unfold low_delta. apply rsum_ext. intros r _. do 2 f_equal. unfold moment_density. f_equal.
    - apply moments_ext; intros; unfold k0; rewrite ?A, ?B; reflexivity.
    - destruct (r =? 2)%nat; [|reflexivity]. unfold mean_sq. do 2 f_equal. apply rsum_ext. intros g _. rewrite (self_steq c y y' g H). reflexivity. }
  unfold hl_correct. cbn [fst snd]. split; [split; intros n k; cbn [fst snd]; unfold add_k0; rewrite D, ?A, ?B; reflexivity|]. f_equal. apply rsum_ext. intros; rewrite D; reflexivity.
Qed.
Lemma iter_with c m t half EL n E : hl_iter (with_iters c m) t half EL n E = hl_iter c t half EL n E.
Proof. revert E. induction n as [|n IH]; intros E; [reflexivity|]. cbn [hl_iter]. rewrite IH. reflexivity. Qed.
Theorem C95_converged : forall c t y m, (0 < hl_nx c)%nat -> (1 <= hl_iters c <= m)%nat ->
  snd (fst (hl_split c t y)) = 0 ->
  let half := hl_linear c (1 / 2 * hl_dt c) y in let E_mid := hl_E_mid c t half in
  (forall g, (g < hl_nx c)%nat -> E_mid g = 1 / 2 * (hl_total c (t + 1 / 2 * hl_dt c) half g + hl_total c (t + 1 / 2 * hl_dt c) (hl_forced c half E_mid) g)) /\
  steq (fst (fst (hl_split (with_iters c m) t y))) (fst (fst (hl_split c t y))).
Proof.
  intros c t y m Hx Hm HR half E_mid.
  assert (F : forall g, (g < hl_nx c)%nat -> hl_next c t half (hl_E_left c t half) E_mid g = E_mid g).
  { apply residual_zero. unfold hl_split in HR. cbv zeta in HR. destruct (hl_enforce c && _)%bool; cbn [fst snd] in HR; exact HR. }
  split; [intros g Hg; rewrite <- (F g Hg) at 1; reflexivity|].
  assert (EM : forall g, (g < hl_nx c)%nat -> hl_E_mid (with_iters c m) t half g = E_mid g).
  { intros g Hg. unfold hl_E_mid. rewrite iter_with. change (hl_iter c t half (hl_E_left c t half) (m - 1) (hl_predict c t half) g = E_mid g).
    replace (m - 1)%nat with ((hl_iters c - 1) + (m - hl_iters c))%nat by lia. rewrite iter_add. apply (iter_fixed c t half (hl_E_left c t half) (m - hl_iters c) E_mid F); auto. }
  assert (OUT : steq (hl_linear c (1 / 2 * hl_dt c) (hl_forced c half (hl_E_mid (with_iters c m) t half))) (hl_linear c (1 / 2 * hl_dt c) (hl_forced c half E_mid))) by (apply linear_steq, forced_ext; exact EM).
  change (hl_split (with_iters c m) t y) with (let target := moment_density c y (hl_self c y) in
    let E' := hl_E_mid (with_iters c m) t half in let out := hl_linear c (1 / 2 * hl_dt c) (hl_forced c half E') in
    let res := hl_residual c E' (hl_next c t half (hl_E_left c t half) E') in
    if (hl_enforce c && match hl_driver c with None => true | _ => false end)%bool then let o := hl_correct c out target in (fst o, res, snd o) else (out, res, 0)).
  unfold hl_split. cbv zeta. fold half. fold E_mid. destruct (hl_enforce c && _)%bool; cbn [fst]; [|exact OUT].
  apply correct_steq; auto.
Qed.
Print Assumptions C95_converged.

(* ------------------------------------------------------------------------------------------------ *)
(** * Stationary states *)
(** A spatially uniform state: only the k = 0 coefficients. *)
Definition uniform (c : hlcfg) (y : hst) : Prop := forall n k, (0 < k < hl_nx c)%nat -> fst y n k = c0 /\ snd y n k = c0.
(** Equality on the stored entries. *)
Definition sheq (c : hlcfg) (y y' : hst) : Prop := forall k, (k < hl_nx c)%nat -> (forall n, (n < hl_Nh c)%nat -> fst y n k = fst y' n k) /\ (forall n, (n < hl_Nl c)%nat -> snd y n k = snd y' n k).
(** The Legendre half of the force step, as init_diffeqsolve chooses it: Woodbury, or the eigen-decomposition when gamma = 1/2 everywhere. *)
Definition leg_ok (c : hlcfg) : Prop :=
  (forall s x n, hl_leg c s x n = clift (wood_update (hl_Nl c) (hl_va c) (hl_vb c) (hl_gam c) s) x n) \/
  (exists ev V, is_heigh (hl_Nl c) (G_B (hl_va c) (hl_vb c) (hl_gam c)) ev V /\ forall s x n, hl_leg c s x n = skew_update (hl_Nl c) ev V s x n).
Lemma fsubs_zero A n i : fsubs A (fun _ => 0) n i = 0.
Proof.
  revert i. induction n as [|n IH]; intros i; [reflexivity|]. cbn [fsubs]. destruct (i =? n)%nat; [|apply IH].
  rewrite (rsum_ext n _ (fun _ => 0)) by (intros; rewrite IH; ring). rewrite rsum_zero. ring.
Qed.
Lemma fsubs_rhs A r r' n i : (forall j, r j = r' j) -> fsubs A r n i = fsubs A r' n i.
Proof.
  intros H. revert i. induction n as [|n IH]; intros i; [reflexivity|]. cbn [fsubs]. destruct (i =? n)%nat; [|apply IH]. rewrite H. f_equal. apply rsum_ext. intros. rewrite IH. reflexivity.
Qed.
Lemma wood_det_0 N va vb gam : wood_det N va vb gam 0 = 1.
Proof.
  assert (U : forall r j, wood_solve N va vb 0 (wood_U va vb gam 0 r) j = 0).
  { intros r j. unfold wood_solve. rewrite (fsubs_rhs _ _ (fun _ => 0)); [apply fsubs_zero|]. intros i. unfold wood_U. destruct (r =? 0)%nat; ring. }
  unfold wood_det, wood_small. rewrite !(rsum_ext N (fun i => _ * wood_solve N va vb 0 _ i) (fun _ => 0)) by (intros; rewrite U; ring). rewrite rsum_zero. cbn [Nat.eqb]. ring.
Qed.
Lemma leg_zero c x n : leg_ok c -> (n < hl_Nl c)%nat -> hl_leg c 0 x n = x n.
Proof.
  intros [H|(ev & V & HE & H)] Hn; rewrite H.
  - assert (D : wood_det (hl_Nl c) (hl_va c) (hl_vb c) (hl_gam c) 0 <> 0) by (rewrite wood_det_0; lra).
    assert (W : forall B, wood_update (hl_Nl c) (hl_va c) (hl_vb c) (hl_gam c) 0 B n = B n).
    { intros B. symmetry. apply (proj1 (C93_legendre_midpoint _ _ _ _ 0 B B D)); [|exact Hn]. intros k Hk. ring. }
    unfold clift. rewrite !W. apply cplx_eq; reflexivity.
  - pose proof (skew_solves _ _ ev V HE 0 x) as M. apply cmidpoint_parts in M. destruct M as [M1 M2]. specialize (M1 n Hn). specialize (M2 n Hn). rewrite Rmult_0_l in M1, M2. unfold re, im in M1, M2. apply cplx_eq; lra.
Qed.
Lemma sheq_refl c y : sheq c y y. Proof. intros k _. split; reflexivity. Qed.
Lemma sheq_trans c x y z : sheq c x y -> sheq c y z -> sheq c x z.
Proof. intros A B k Hk. destruct (A k Hk) as [A1 A2], (B k Hk) as [B1 B2]. split; intros; [rewrite A1 by auto; auto|rewrite A2 by auto; auto]. Qed.
(** Uniform in the stored entries only. *)
Definition suni (c : hlcfg) (y : hst) : Prop := forall k, (0 < k < hl_nx c)%nat -> (forall n, (n < hl_Nh c)%nat -> fst y n k = c0) /\ (forall n, (n < hl_Nl c)%nat -> snd y n k = c0).
Lemma suni_sheq c y y' : sheq c y y' -> suni c y' -> suni c y.
Proof. intros H U k Hk. destruct (H k ltac:(lia)) as [A B], (U k Hk) as [C D]. split; intros; [rewrite A by auto; auto|rewrite B by auto; auto]. Qed.
Lemma uni_self c y g : (0 < hl_nx c)%nat -> (0 < hl_Nh c)%nat -> (0 < hl_Nl c)%nat -> suni c y -> hl_self c y g = 0.
Proof.
  intros Hx HN HL U. rewrite (self_k0 c y (fun _ _ => c0, fun _ _ => c0) g Hx) by (intros k Hk; cbn [fst snd]; apply (U k Hk); assumption).
  unfold hl_self. destruct (hl_field_on c); [|reflexivity]. unfold hl_field. rewrite (finv_ext _ _ (fun _ => c0)).
  - rewrite (finv_const (hl_nx c) (fun _ => c0) g) by auto. reflexivity.
  - intros k Hk. rewrite (ffwd_ext _ _ (fun _ => (1, 0))).
    + rewrite ffwd_const by exact Hk. destruct (Nat.eqb_spec k 0) as [->|Hn]; [rewrite iok_0|]; unfold cmul, c0; apply cplx_eq; cbn [fst snd]; ring.
    + intros h Hh. unfold hl_rho. cbn [fst snd]. rewrite (finv_const (hl_nx c) (fun _ => c0) h) by auto. apply cplx_eq; cbn [fst snd c0]; ring.
Qed.
Lemma uni_linear c s y : eigh_ok c -> hl_nuH c = 0 -> hl_nuL c = 0 -> suni c y -> sheq c (hl_linear c s y) y.
Proof.
  intros [EH EL] NH NL U k Hk. unfold hl_linear, edge_decay. rewrite NH, NL. destruct (Req_EM_T 0 0) as [_|X]; [|exfalso; apply X; reflexivity]. cbn [fst snd].
  destruct k as [|k]; [split; intros n Hn; eapply stream_k0; eauto; apply hl_kx_0|]. destruct (U (S k) ltac:(lia)) as [A B].
  split; intros n Hn; rewrite stream_zero_in by assumption; symmetry; auto.
Qed.
Lemma uni_cross c C E n k : (0 < hl_Nh c)%nat -> (k < hl_nx c)%nat -> (forall g, (g < hl_nx c)%nat -> E g = 0) -> (forall k, (0 < k < hl_nx c)%nat -> forall n, (n < hl_Nh c)%nat -> C n k = c0) -> hl_cross c C E n k = c0.
Proof.
  intros HN Hk HE HC. unfold hl_cross, cross_coupling.
  assert (A : cmul (0, hl_kx c k) (C (hl_Nh c - 1)%nat k) = c0).
  { destruct k as [|k]; [rewrite hl_kx_0|rewrite HC by lia]; unfold cmul, c0; apply cplx_eq; cbn [fst snd]; ring. }
  rewrite A. rewrite (masked_ext _ _ (fun _ => c0)); [rewrite masked_c0, cadd_c0; apply cscal_c0|]. rewrite (ffwd_ext _ _ (fun _ => c0)); [apply ffwd_zero|]. intros g Hg.
  assert (M : masked_force (hl_nx c) (hl_mask c) E g = 0).
  { rewrite (masked_force_ext' _ _ E (fun _ => 0) g Hg HE). unfold masked_force. destruct (hl_mask c) as [b|]; [|reflexivity]. rewrite (finv_ext _ _ (fun _ => c0)); [|intros j Hj; rewrite (masked_ext _ _ (fun _ => c0)); [apply masked_c0|apply ffwd_zero]].
    unfold finv. rewrite (csum_ext _ _ (fun _ => c0)) by (intros; unfold cmul, c0; apply cplx_eq; cbn [fst snd]; ring). rewrite csum_zero. reflexivity. }
  rewrite M, Rmult_0_r. apply cscal_0.
Qed.
Lemma masked_uni c (X : nat -> cplx) k : hl_mask c = None \/ hl_mask c = Some (mask23 (hl_nx c)) -> (forall k, (0 < k < hl_nx c)%nat -> X k = c0) -> (k < hl_nx c)%nat -> masked (hl_mask c) X k = X k.
Proof.
  intros HM HX Hk. destruct HM as [->| ->]; [reflexivity|]. unfold masked. destruct k as [|k]; [rewrite mask_zero; reflexivity|]. rewrite HX by lia. destruct (mask23 (hl_nx c) (S k)); reflexivity.
Qed.
Lemma uni_cayley c upd N A E dt n k : hl_mask c = None \/ hl_mask c = Some (mask23 (hl_nx c)) -> (forall x, upd 0 x n = x n) -> (n < N)%nat ->
  (forall g, (g < hl_nx c)%nat -> E g = 0) -> (forall k, (0 < k < hl_nx c)%nat -> A n k = c0) -> (k < hl_nx c)%nat -> force_cayley (hl_nx c) (hl_mask c) upd A E dt n k = A n k.
Proof.
  intros HM HU Hn HE HA Hk. unfold force_cayley. rewrite (masked_ext _ _ (A n) k); [apply masked_uni; auto|].
  rewrite <- (ffwd_finv (hl_nx c) (A n) k Hk). apply ffwd_ext. intros g Hg. rewrite HE by exact Hg. rewrite Rmult_0_r, HU. apply finv_ext. intros j Hj. apply masked_uni; auto.
Qed.
Lemma sheq_sym c x y : sheq c x y -> sheq c y x.
Proof. intros A k Hk. destruct (A k Hk) as [A1 A2]. split; intros; symmetry; auto. Qed.
Section Uniform.
Variables (c : hlcfg).
Hypotheses (Hx : (0 < hl_nx c)%nat) (HN : (0 < hl_Nh c)%nat) (HL : (0 < hl_Nl c)%nat) (EO : eigh_ok c) (NH : hl_nuH c = 0) (NL : hl_nuL c = 0)
  (DR : hl_driver c = None) (HM : hl_mask c = None \/ hl_mask c = Some (mask23 (hl_nx c))).
Lemma uni_total t y g : suni c y -> hl_total c t y g = 0.
Proof. intros U. unfold hl_total, hl_ext. rewrite DR, uni_self by assumption. ring. Qed.
Lemma uni_forced half E : leg_ok c -> suni c half -> (forall g, (g < hl_nx c)%nat -> E g = 0) -> sheq c (hl_forced c half E) half.
Proof.
  intros LO U HE k Hk.
  assert (FC : forall n, (n < hl_Nh c)%nat -> forall k, (k < hl_nx c)%nat -> fst (hl_force c half E (hl_dt c)) n k = fst half n k).
  { intros n Hn j Hj. apply (uni_cayley c _ (hl_Nh c)); auto; [|intros i Hi; apply (U i Hi); exact Hn]. intros x. unfold clift. rewrite !hcayley_0. apply cplx_eq; reflexivity. }
  unfold hl_forced. cbn [fst snd]. split; intros n Hn; [apply FC; auto|].
  rewrite uni_cross; auto; [rewrite cscal_c0, cadd_c0|].
  - apply (uni_cayley c _ (hl_Nl c)); auto; [|intros i Hi; apply (U i Hi); exact Hn]. intros x. apply leg_zero; auto.
  - intros j Hj m Hm. rewrite FC by (auto; lia). rewrite (proj1 (U j Hj) m Hm). unfold cscal, cadd, c0. apply cplx_eq; cbn [fst snd]; ring.
Qed.
Lemma uni_predict t half g : leg_ok c -> suni c half -> hl_predict c t half g = 0.
Proof.
  intros LO U. unfold hl_predict. cbv zeta. unfold hl_E_left at 1. rewrite uni_total by exact U. rewrite uni_total; [ring|].
  intros k Hk. pose proof (uni_forced half (hl_E_left c t half) LO U ltac:(intros; apply uni_total; exact U)) as S. destruct (S k ltac:(lia)) as [A B]. destruct (U k Hk) as [UA UB].
  cbn [fst snd]. split; intros n Hn.
  - transitivity (fst (hl_forced c half (hl_E_left c t half)) n k); [reflexivity|]. rewrite A by exact Hn. auto.
  - rewrite uni_cross; auto; [|lia|intros; apply uni_total; exact U|intros j Hj m Hm; apply (U j Hj); exact Hm]. rewrite cscal_c0, cadd_c0.
    rewrite <- (UB n Hn). unfold hl_force. cbn [snd]. apply (uni_cayley c _ (hl_Nl c)); auto; [|intros; apply uni_total; exact U|intros i Hi; apply (U i Hi); exact Hn|lia]. intros x. apply leg_zero; auto.
Qed.
Lemma uni_iter t half m E : leg_ok c -> suni c half -> (forall g, (g < hl_nx c)%nat -> E g = 0) -> forall g, (g < hl_nx c)%nat -> hl_iter c t half (hl_E_left c t half) m E g = 0.
Proof.
  intros LO U. revert E. induction m as [|m IH]; intros E HE g Hg; [auto|]. cbn [hl_iter]. apply IH; [|exact Hg]. intros h Hh. unfold hl_next, hl_E_left. rewrite !uni_total; [ring| |exact U].
  apply (suni_sheq c _ half); [apply uni_forced; auto|exact U].
Qed.
Lemma uni_correct y y0 : 0 < hl_alpha c -> (3 <= hl_Nh c)%nat -> (3 <= hl_Nl c)%nat -> suni c y0 -> sheq c y y0 -> sheq c (fst (hl_correct c y (moment_density c y0 (hl_self c y0)))) y.
Proof.
  intros Ha H3 L3 U S. assert (D : forall i, low_delta c y (moment_density c y0 (hl_self c y0)) i = 0).
  { intros i. unfold low_delta. rewrite (rsum_ext 3 _ (fun _ => 0)); [apply rsum_zero|]. intros r Hr. enough (E : moment_density c y0 (hl_self c y0) r = moment_density c y (hl_self c y) r) by (rewrite E; ring).
    unfold moment_density. destruct (S 0%nat Hx) as [A B]. f_equal.
    - apply moments_ext; intros n Hn; unfold k0; symmetry; rewrite ?A, ?B by lia; reflexivity.
    - destruct (r =? 2)%nat; [|reflexivity]. unfold mean_sq. do 2 f_equal. apply rsum_ext. intros g _. rewrite !uni_self; auto. apply (suni_sheq c y y0); auto. }
  intros k Hk. unfold hl_correct. cbn [fst snd]. split; intros n Hn; unfold add_k0; rewrite D; destruct (_ && _)%bool; try reflexivity; unfold cadd; apply cplx_eq; cbn [fst snd]; ring.
Qed.
Lemma mf_zero E g : (g < hl_nx c)%nat -> (forall g, (g < hl_nx c)%nat -> E g = 0) -> masked_force (hl_nx c) (hl_mask c) E g = 0.
Proof.
  intros Hg HE. rewrite (masked_force_ext' _ _ E (fun _ => 0) g Hg HE). unfold masked_force. destruct (hl_mask c) as [b|]; [|reflexivity]. rewrite (finv_ext _ _ (fun _ => c0)); [|intros j Hj; rewrite (masked_ext _ _ (fun _ => c0)); [apply masked_c0|apply ffwd_zero]].
  unfold finv. rewrite (csum_ext _ _ (fun _ => c0)) by (intros; unfold cmul, c0; apply cplx_eq; cbn [fst snd]; ring). rewrite csum_zero. reflexivity.
Qed.
Definition szero (z : hst) : Prop := forall k, (k < hl_nx c)%nat -> (forall n, (n < hl_Nh c)%nat -> fst z n k = c0) /\ (forall n, (n < hl_Nl c)%nat -> snd z n k = c0).
Lemma uni_rhs t y : suni c y -> szero (hl_rhs c t y).
Proof.
  intros U k Hk. assert (E0 : forall g, (g < hl_nx c)%nat -> hl_total c t y g = 0) by (intros; apply uni_total; exact U).
  assert (CR : forall n, hl_cross c (fst y) (hl_total c t y) n k = c0) by (intros n; apply uni_cross; auto; intros j Hj m Hm; apply (U j Hj); exact Hm).
  assert (HF : forall n, hermite_force (hl_nx c) (hl_mask c) (hl_alpha c) (fst y) (hl_total c t y) n k = c0).
  { intros n. unfold hermite_force. rewrite (masked_ext _ _ (fun _ => c0)); [apply masked_c0|]. rewrite (ffwd_ext _ _ (fun _ => c0)); [apply ffwd_zero|]. intros g Hg. rewrite mf_zero by auto. rewrite Rmult_0_r. apply cscal_0. }
  assert (LF : forall n, legendre_force (hl_Nl c) (hl_nx c) (hl_mask c) (hl_va c) (hl_vb c) (hl_gam c) (snd y) (hl_total c t y) n k = c0).
  { intros n. unfold legendre_force. rewrite (masked_ext _ _ (fun _ => c0)); [apply masked_c0|]. rewrite (ffwd_ext _ _ (fun _ => c0)); [apply ffwd_zero|]. intros g Hg. rewrite mf_zero by auto. rewrite Ropp_0. apply cscal_0. }
  unfold hl_rhs. destruct (hl_integ c); cbn [fst snd]; split; intros n Hn; rewrite ?CR, ?HF, ?LF; try reflexivity; apply cadd_c0.
Qed.
Lemma zero_linear s z : szero z -> szero (hl_linear c s z).
Proof.
  intros Z k Hk. destruct (Z k Hk) as [A B]. unfold hl_linear, edge_decay. cbn [fst snd]. split; intros n Hn; destruct (Req_EM_T _ 0); rewrite ?stream_zero_in by assumption; try reflexivity; apply cscal_c0.
Qed.
Lemma zero_scale z r : szero z -> szero (lscale z r).
Proof. intros Z k Hk. destruct (Z k Hk) as [A B]. unfold lscale. cbn [fst snd]. split; intros n Hn; rewrite ?A, ?B by exact Hn; apply cscal_c0. Qed.
Lemma zero_add z z' : szero z -> szero z' -> szero (ladd z z').
Proof. intros Z Z' k Hk. destruct (Z k Hk) as [A B], (Z' k Hk) as [A' B']. unfold ladd. cbn [fst snd]. split; intros n Hn; rewrite ?A, ?B, ?A', ?B' by exact Hn; apply cadd_c0. Qed.
Lemma sheq_add y y0 z : sheq c y y0 -> szero z -> sheq c (ladd y z) y0.
Proof. intros S Z k Hk. destruct (S k Hk) as [A B], (Z k Hk) as [A' B']. unfold ladd. cbn [fst snd]. split; intros n Hn; rewrite ?A, ?B, ?A', ?B' by exact Hn; apply cadd_c0. Qed.
Lemma uni_lawson t y : suni c y -> sheq c (hl_lawson c t y) y.
Proof.
  intros U. unfold hl_lawson. cbv zeta. set (dt := hl_dt c).
  assert (Z1 : szero (hl_rhs c t y)) by (apply uni_rhs; exact U).
  assert (LU : forall s, sheq c (hl_linear c s y) y) by (intros; apply uni_linear; auto).
  assert (SU : forall w, sheq c w y -> suni c w) by (intros w H; apply (suni_sheq c w y); auto).
  set (N1 := hl_rhs c t y) in *. set (Y2 := ladd (hl_linear c (dt / 2) y) (lscale (hl_linear c (dt / 2) N1) (dt / 2))).
  assert (Z2 : szero (hl_rhs c (t + dt / 2) Y2)) by (apply uni_rhs, SU, sheq_add; [apply LU|apply zero_scale, zero_linear; exact Z1]).
  set (N2 := hl_rhs c (t + dt / 2) Y2) in *. set (Y3 := ladd (hl_linear c (dt / 2) y) (lscale N2 (dt / 2))).
  assert (Z3 : szero (hl_rhs c (t + dt / 2) Y3)) by (apply uni_rhs, SU, sheq_add; [apply LU|apply zero_scale; exact Z2]).
  set (N3 := hl_rhs c (t + dt / 2) Y3) in *. set (Y4 := ladd (hl_linear c dt y) (lscale (hl_linear c (dt / 2) N3) dt)).
  assert (Z4 : szero (hl_rhs c (t + dt) Y4)) by (apply uni_rhs, SU, sheq_add; [apply LU|apply zero_scale, zero_linear; exact Z3]).
  apply sheq_add; [apply LU|]. apply zero_scale. repeat first [apply zero_add | apply zero_scale | apply zero_linear | assumption].
Qed.
Lemma uni_implicit y E dt : solve_ok c -> suni c y -> (forall g, (g < hl_nx c)%nat -> E g = 0) -> sheq c (hl_implicit c y E dt) y.
Proof.
  intros SO U HE k Hk. unfold hl_implicit. cbn [fst snd].
  assert (G : forall N G A, force_system c N G -> (forall k, (0 < k < hl_nx c)%nat -> forall n, (n < N)%nat -> A n k = c0) -> forall n, (n < N)%nat ->
    masked (hl_mask c) (ffwd (hl_nx c) (fun g => hl_solve c N G (dt * E g) (fun n' => finv (hl_nx c) (masked (hl_mask c) (A n')) g) n)) k = A n k).
  { intros N G A FS HA n Hn. rewrite (masked_ext _ _ (A n) k); [apply masked_uni; auto|]. rewrite <- (ffwd_finv (hl_nx c) (A n) k Hk). apply ffwd_ext. intros g Hg.
    rewrite HE by exact Hg. rewrite Rmult_0_r. set (x := fun n' => finv (hl_nx c) (masked (hl_mask c) (A n')) g).
    assert (EX : forall v, exists X, be_solves N G 0 v X) by (intros v; exists v; intros m Hm; ring).
    destruct (SO N G 0 x FS (EX _) (EX _)) as [P Q]. specialize (P n Hn). specialize (Q n Hn). unfold re, im in P, Q.
    transitivity (x n); [apply cplx_eq; lra|]. unfold x. apply finv_ext. intros j Hj. apply masked_uni; auto. }
  split; intros n Hn; apply G; auto; try (left; split; reflexivity); try (right; split; reflexivity); intros j Hj m Hm; apply (U j Hj); exact Hm.
Qed.
End Uniform.

(** A spatially uniform state of any velocity dependence is stationary, for every integrator and any number of steps, when there is no
    driver, no collision operator and no edge damping. *)
Theorem C95_uniform : forall c n t y, 0 < hl_alpha c -> (0 < hl_nx c)%nat -> (3 <= hl_Nh c)%nat -> (3 <= hl_Nl c)%nat -> eigh_ok c -> (hl_integ c = Split -> leg_ok c) -> (hl_integ c = Imex -> solve_ok c) ->
  hl_nuH c = 0 -> hl_nuL c = 0 -> hl_driver c = None -> hl_coll c = None -> (hl_mask c = None \/ hl_mask c = Some (mask23 (hl_nx c))) ->
  suni c y -> sheq c (hl_run c t n y) y.
Proof.
  intros c n t y Ha Hx H3 L3 EO LO SO NH NL DR CO HM U. assert (HN : (0 < hl_Nh c)%nat) by lia. assert (HL : (0 < hl_Nl c)%nat) by lia.
  revert t y U. induction n as [|n IH]; intros t y U; [apply sheq_refl|]. cbn [hl_run].
  assert (ST : sheq c (o_state (hl_step c t y)) y).
  { unfold hl_step, hl_collide. rewrite CO. cbn [o_state]. unfold hl_advance. destruct (hl_integ c) eqn:EI; cbn [fst]; [|specialize (SO eq_refl)|specialize (LO eq_refl)].
    - apply uni_lawson; auto.
    - pose proof (uni_lawson c Hx HN HL EO NH NL DR HM t y U) as SL. assert (UL : suni c (hl_lawson c t y)) by (apply (suni_sheq c _ y); auto).
      apply (sheq_trans c _ (hl_lawson c t y)); [|exact SL]. apply uni_implicit; auto. intros; apply uni_total; auto.
    - unfold hl_split. cbv zeta. set (half := hl_linear c (1 / 2 * hl_dt c) y).
      assert (SH : sheq c half y) by (apply uni_linear; auto). assert (UH : suni c half) by (apply (suni_sheq c _ y); auto).
      assert (EM : forall g, (g < hl_nx c)%nat -> hl_E_mid c t half g = 0) by (intros g Hg; apply uni_iter; auto; intros; apply uni_predict; auto).
      assert (SF : sheq c (hl_forced c half (hl_E_mid c t half)) half) by (apply uni_forced; auto).
      assert (UF : suni c (hl_forced c half (hl_E_mid c t half))) by (apply (suni_sheq c _ half); auto).
      assert (SO2 : sheq c (hl_linear c (1 / 2 * hl_dt c) (hl_forced c half (hl_E_mid c t half))) y).
      { apply (sheq_trans c _ (hl_forced c half (hl_E_mid c t half))); [apply uni_linear; auto|]. apply (sheq_trans c _ half); auto. }
      destruct (hl_enforce c && _)%bool; cbn [fst]; [|exact SO2]. apply (sheq_trans c _ (hl_linear c (1 / 2 * hl_dt c) (hl_forced c half (hl_E_mid c t half)))); [|exact SO2].
      apply uni_correct; auto. }
  apply (sheq_trans c _ (o_state (hl_step c t y))); [|exact ST]. apply IH. apply (suni_sheq c _ y); auto.
Qed.
Print Assumptions C95_uniform.

(* ------------------------------------------------------------------------------------------------ *)
(** * Diagnostics *)
Lemma maxn_spec n f : (forall g, (g < n)%nat -> 0 <= f g) -> (forall g, (g < n)%nat -> f g <= maxn n f) /\ ((0 < n)%nat -> exists g, (g < n)%nat /\ maxn n f = f g).
Proof.
  induction n as [|n IH]; intros P; [split; intros; lia|]. destruct (IH ltac:(intros; apply P; lia)) as [A B]. cbn [maxn]. split.
  - intros g Hg. destruct (Nat.eq_dec g n) as [->|Hn]; [apply Rmax_r|]. eapply Rle_trans; [apply A; lia|apply Rmax_l].
  - intros _. destruct n as [|n].
    + exists 0%nat. split; [lia|]. cbn [maxn]. apply Rmax_right. apply P. lia.
    + destruct (B ltac:(lia)) as (g & Hg & E). unfold Rmax. destruct (Rle_dec (maxn (S n) f) (f (S n))); [exists (S n); split; [lia|reflexivity]|exists g; split; [lia|exact E]].
Qed.
(** The value of df at position g and velocity v: complex because Bk may be any array; |.| is the modulus. *)
Definition df_at (c : hlcfg) (y : hst) (g : nat) (v : R) : cplx := csum (hl_Nl c) (fun m => cscal (lbasis (hl_va c) (hl_vb c) m v) (finv (hl_nx c) (snd y m) g)).
(** Boundary occupancy: the reported maxima are the largest |df| over the grid at v_a, at v_b, and over both. The high-mode fraction lies
    in [0, 1], is the share of the coefficient energy in the modes from max(3, 3 Nl/4) on, and is 0 for a state with no such modes. *)
Theorem C95_diagnostics : forall c t y, (0 < hl_nx c)%nat -> hl_va c < hl_vb c -> let o := hl_step c t y in let s := o_state o in
  (forall g, (g < hl_nx c)%nat -> cmod (df_at c s g (hl_va c)) <= o_edge_a o /\ cmod (df_at c s g (hl_vb c)) <= o_edge_b o /\ o_edge_a o <= o_edge o /\ o_edge_b o <= o_edge o) /\
  (exists g, (g < hl_nx c)%nat /\ o_edge_a o = cmod (df_at c s g (hl_va c))) /\ (exists g, (g < hl_nx c)%nat /\ o_edge_b o = cmod (df_at c s g (hl_vb c))) /\
  (o_edge o = o_edge_a o \/ o_edge o = o_edge_b o) /\
  0 <= o_high o <= 1 /\
  ((forall m k, (m < hl_Nl c)%nat -> (3 <= m)%nat -> (3 * hl_Nl c / 4 <= m)%nat -> (k < hl_nx c)%nat -> snd s m k = c0) -> o_high o = 0) /\
  ((forall m k, (m < hl_Nl c)%nat -> (m < 3 \/ m < 3 * hl_Nl c / 4)%nat -> (k < hl_nx c)%nat -> snd s m k = c0) -> (exists m k, (m < hl_Nl c)%nat /\ (k < hl_nx c)%nat /\ snd s m k <> c0) -> o_high o = 1).
Proof.
  intros c t y Hx Hv o s. assert (BV : forall i, lbasis (hl_va c) (hl_vb c) i (hl_vb c) = lxi_b i /\ lbasis (hl_va c) (hl_vb c) i (hl_va c) = lxi_a i).
  { intros i. destruct (C92_legendre_functions (hl_va c) (hl_vb c) i i (S (S i)) 0 Hv ltac:(lia)) as (_ & _ & _ & A & B' & _). auto. }
  assert (EA : forall g, csum (hl_Nl c) (fun m => cscal (lxi_a m) (finv (hl_nx c) (snd s m) g)) = df_at c s g (hl_va c)) by (intros g; apply csum_ext; intros; rewrite (proj2 (BV i)); reflexivity).
  assert (EB : forall g, csum (hl_Nl c) (fun m => cscal (lxi_b m) (finv (hl_nx c) (snd s m) g)) = df_at c s g (hl_vb c)) by (intros g; apply csum_ext; intros; rewrite (proj1 (BV i)); reflexivity).
  destruct (maxn_spec (hl_nx c) (fun g => cmod (csum (hl_Nl c) (fun m => cscal (lxi_a m) (finv (hl_nx c) (snd s m) g)))) ltac:(intros; apply sqrt_pos)) as [A1 A2].
  destruct (maxn_spec (hl_nx c) (fun g => cmod (csum (hl_Nl c) (fun m => cscal (lxi_b m) (finv (hl_nx c) (snd s m) g)))) ltac:(intros; apply sqrt_pos)) as [B1 B2].
  change (maxn (hl_nx c) (fun g => cmod (csum (hl_Nl c) (fun m => cscal (lxi_a m) (finv (hl_nx c) (snd s m) g))))) with (o_edge_a o) in A1, A2.
  change (maxn (hl_nx c) (fun g => cmod (csum (hl_Nl c) (fun m => cscal (lxi_b m) (finv (hl_nx c) (snd s m) g))))) with (o_edge_b o) in B1, B2.
  assert (EO : o_edge o = Rmax (o_edge_a o) (o_edge_b o)) by reflexivity.
  split; [|split; [|split; [|split]]].
  - intros g Hg. rewrite <- EA, <- EB, EO. repeat split; [apply A1; auto|apply B1; auto|apply Rmax_l|apply Rmax_r].
  - destruct (A2 Hx) as (g & Hg & E). exists g. split; [exact Hg|]. rewrite <- EA. exact E.
  - destruct (B2 Hx) as (g & Hg & E). exists g. split; [exact Hg|]. rewrite <- EB. exact E.
  - rewrite EO. unfold Rmax. destruct (Rle_dec (o_edge_a o) (o_edge_b o)); auto.
  - assert (OH : o_high o = hl_high (hl_nx c) (hl_Nl c) (snd s)) by reflexivity. rewrite OH. clearbody s. clear - Hx. set (q := fun m => rsum (hl_nx c) (fun k => cabs2 (snd s m k))).
    assert (Q : forall m, 0 <= q m) by (intros; apply rsum_nonneg; intros; apply cabs2_nonneg).
    unfold hl_high. set (cut := Nat.max 3 (3 * hl_Nl c / 4)). change (rsum (hl_Nl c) (fun m => rsum (hl_nx c) (fun k => cabs2 (snd s m k)))) with (rsum (hl_Nl c) q).
    change (rsum (hl_Nl c - cut) (fun i => rsum (hl_nx c) (fun k => cabs2 (snd s (cut + i)%nat k)))) with (rsum (hl_Nl c - cut) (fun i => q (cut + i)%nat)).
    assert (H0 : 0 <= rsum (hl_Nl c - cut) (fun i => q (cut + i)%nat)) by (apply rsum_nonneg; intros; apply Q).
    assert (SP : rsum (hl_Nl c - cut) (fun i => q (cut + i)%nat) <= rsum (hl_Nl c) q /\ ((forall m, (m < hl_Nl c)%nat -> (m < cut)%nat -> q m = 0) -> rsum (hl_Nl c - cut) (fun i => q (cut + i)%nat) = rsum (hl_Nl c) q)).
    { destruct (Nat.le_gt_cases (hl_Nl c) cut) as [Hc|Hc].
      - replace (hl_Nl c - cut)%nat with 0%nat by lia. cbn [rsum]. split; [apply rsum_nonneg; intros; apply Q|]. intros Z. rewrite (rsum_ext _ q (fun _ => 0)) by (intros; apply Z; lia). rewrite rsum_zero. reflexivity.
      - assert (E : rsum (hl_Nl c) q = rsum cut q + rsum (hl_Nl c - cut) (fun i => q (cut + i)%nat)).
        { replace (hl_Nl c) with (cut + (hl_Nl c - cut))%nat at 1 by lia. generalize (hl_Nl c - cut)%nat. intros k. induction k as [|k IH]; [rewrite Nat.add_0_r; cbn [rsum]; ring|]. rewrite Nat.add_succ_r. cbn [rsum]. rewrite IH. ring. }
        rewrite E. assert (0 <= rsum cut q) by (apply rsum_nonneg; intros; apply Q). split; [lra|]. intros Z. rewrite (rsum_ext cut q (fun _ => 0)) by (intros; apply Z; lia). rewrite rsum_zero. ring. }
    destruct SP as [SP SE]. assert (RZ : forall m, (m < hl_Nl c)%nat -> (forall k, (k < hl_nx c)%nat -> snd s m k = c0) -> q m = 0).
    { intros m Hm Hz. unfold q. rewrite (rsum_ext _ _ (fun _ => 0)); [apply rsum_zero|]. intros k Hk. rewrite Hz by exact Hk. unfold cabs2, c0. cbn [fst snd]. ring. }
    destruct (Rlt_dec 0 (rsum (hl_Nl c) q)) as [P|P].
    + split; [|split].
      * split; [apply Rmult_le_pos; [exact H0|left; apply Rinv_0_lt_compat; exact P]|]. apply (Rmult_le_reg_r (rsum (hl_Nl c) q)); [exact P|]. unfold Rdiv. rewrite Rmult_assoc, Rinv_l by lra. lra.
      * intros Z. rewrite (rsum_ext (hl_Nl c - cut) _ (fun _ => 0)); [rewrite rsum_zero; unfold Rdiv; ring|]. intros i Hi. apply RZ; [lia|]. intros k Hk. apply Z; lia.
      * intros Z _. rewrite SE; [unfold Rdiv; apply Rinv_r; lra|]. intros m Hm Hc. apply RZ; [exact Hm|]. intros k Hk. apply Z; auto. lia.
    + split; [lra|]. split; [reflexivity|]. intros _ (m & k & Hm & Hk & Hne). exfalso. apply P. 
      assert (0 < q m).
      { unfold q. assert (0 < cabs2 (snd s m k)).
        { destruct (snd s m k) as [a b]. unfold cabs2. cbn [fst snd]. destruct (Req_dec a 0) as [->|Ha]; [destruct (Req_dec b 0) as [->|Hb]; [exfalso; apply Hne; reflexivity|]|]; [pose proof (Rsqr_pos_lt b Hb) as X|pose proof (Rsqr_pos_lt a Ha) as X]; unfold Rsqr in X; nra. }
        clear -H Hk. revert Hk. generalize (hl_nx c). intros n. induction n as [|n IH]; intros Hk; [lia|]. cbn [rsum]. destruct (Nat.eq_dec k n) as [->|Hn].
        - assert (0 <= rsum n (fun k => cabs2 (snd s m k))) by (apply rsum_nonneg; intros; apply cabs2_nonneg). lra.
        - specialize (IH ltac:(lia)). pose proof (cabs2_nonneg (snd s m n)). lra. }
      clear -H Hm Q. revert Hm. generalize (hl_Nl c). intros n. induction n as [|n IH]; intros Hm; [lia|]. cbn [rsum]. destruct (Nat.eq_dec m n) as [->|Hn].
      * assert (0 <= rsum n q) by (apply rsum_nonneg; intros; apply Q). lra.
      * specialize (IH ltac:(lia)). pose proof (Q n). lra.
Qed.
Print Assumptions C95_diagnostics.

(* ------------------------------------------------------------------------------------------------ *)
(** * The hypotheses are met: a split configuration with three modes in each basis *)
Section Tri.
Variables (d a b : R).
Hypothesis (Ha : 0 < a) (Hb : 0 < b).
Let r := sqrt (a ^ 2 + b ^ 2).
Definition tri_T (n m : nat) : R := nth m (nth n [[d; a; 0]; [a; d; b]; [0; b; d]] []) 0.
Definition tri_ev (i : nat) : R := nth i [d; d + r; d - r] 0.
Definition tri_V (n i : nat) : R := nth i (nth n [[b / r; a / (r * sqrt 2); a / (r * sqrt 2)]; [0; / sqrt 2; - / sqrt 2]; [- (a / r); b / (r * sqrt 2); b / (r * sqrt 2)]] []) 0.
Lemma tri_eigh : is_eigh 3 tri_T tri_ev tri_V.
Proof.
  assert (P2 : 0 < sqrt 2) by (apply sqrt_lt_R0; lra). assert (Q2 : sqrt 2 * sqrt 2 = 2) by (apply sqrt_sqrt; lra).
  assert (PP : 0 < a ^ 2 + b ^ 2) by nra. assert (Pr : 0 < r) by (apply sqrt_lt_R0; exact PP). assert (Qr : r * r = a ^ 2 + b ^ 2) by (apply sqrt_sqrt; lra).
  set (h := / sqrt 2). assert (Hh : h * h = 1 / 2) by (unfold h; rewrite <- Rinv_mult; rewrite Q2; lra).
  set (x := a / r). set (y := b / r). assert (N : x * x + y * y = 1) by (unfold x, y; transitivity ((a ^ 2 + b ^ 2) / (r * r)); [field; lra|rewrite Qr; field; lra]).
  assert (Vx : a / (r * sqrt 2) = x * h) by (unfold x, h; field; lra). assert (Vy : b / (r * sqrt 2) = y * h) by (unfold y, h; field; lra).
  assert (Ax : a = r * x) by (unfold x; field; lra). assert (By : b = r * y) by (unfold y; field; lra).
  assert (W : forall p, x * h * p * h + y * h * p * h = p * ((x + y) / 2)) by (intros; transitivity (p * (x + y) * (h * h)); [ring|rewrite Hh; field]).
  constructor.
  - intros i j Hi Hj. unfold tri_V. fold x y h. rewrite !Vx, !Vy. destruct i as [|[|[|i]]], j as [|[|[|j]]]; try lia; cbn [nth rsum Nat.eqb].
    + transitivity (x * x + y * y); [ring|exact N].
    + ring. + ring. + ring.
    + transitivity ((x * x + y * y) * (h * h) + h * h); [ring|rewrite N, Hh; field].
    + transitivity ((x * x + y * y) * (h * h) - h * h); [ring|rewrite N; ring].
    + ring.
    + transitivity ((x * x + y * y) * (h * h) - h * h); [ring|rewrite N; ring].
    + transitivity ((x * x + y * y) * (h * h) + h * h); [ring|rewrite N, Hh; field].
  - intros n m Hn Hm. unfold tri_V. fold x y h. rewrite !Vx, !Vy. destruct n as [|[|[|n]]], m as [|[|[|m]]]; try lia; cbn [nth rsum Nat.eqb].
    + transitivity (y * y + 2 * (x * x) * (h * h)); [ring|rewrite Hh; lra].
    + ring.
    + transitivity (- (x * y) + 2 * (x * y) * (h * h)); [ring|rewrite Hh; field].
    + ring.
    + transitivity (2 * (h * h)); [ring|rewrite Hh; field].
    + ring.
    + transitivity (- (x * y) + 2 * (x * y) * (h * h)); [ring|rewrite Hh; field].
    + ring.
    + transitivity (x * x + 2 * (y * y) * (h * h)); [ring|rewrite Hh; lra].
  - intros n i Hn Hi. unfold tri_T, tri_V, tri_ev. fold x y h. rewrite !Vx, !Vy. destruct n as [|[|[|n]]], i as [|[|[|i]]]; try lia; cbn [nth rsum]; rewrite ?Ax, ?By; try ring.
    + transitivity (d * h + r * h * (x * x + y * y)); [ring|rewrite N; ring].
    + transitivity (- (d * h) + r * h * (x * x + y * y)); [ring|rewrite N; ring].
Qed.
End Tri.
Lemma is_eigh_ext N T T' ev V : (forall n m, (n < N)%nat -> (m < N)%nat -> T n m = T' n m) -> is_eigh N T ev V -> is_eigh N T' ev V.
Proof. intros H [A B C]. constructor; auto. intros n i Hn Hi. rewrite <- C by auto. apply rsum_ext. intros m Hm. rewrite H by auto. reflexivity. Qed.
Definition ex_cfg (integ : hl_integrator) : hlcfg :=
  {| hl_nx := 4; hl_Nh := 3; hl_Nl := 3; hl_alpha := 1; hl_u := 0; hl_va := -1; hl_vb := 1; hl_Lx := 1; hl_dt := 1 / 10; hl_mask := Some (mask23 4);
     hl_field_on := true; hl_driver := None; hl_integ := integ; hl_iters := 2; hl_enforce := true; hl_gam := gamma_vec (penalty_all None (match integ with Split => true | _ => false end) true) (1 / 2); hl_cv := fun m => INR m;
     hl_evH := tri_ev 0 (sqrt (1 / 2)) (sqrt (2 / 2)); hl_VH := tri_V (sqrt (1 / 2)) (sqrt (2 / 2));
     hl_evL := tri_ev 0 (lsigma (-1) 1 1) (lsigma (-1) 1 2); hl_VL := tri_V (lsigma (-1) 1 1) (lsigma (-1) 1 2);
     hl_nuH := 0; hl_nuL := 0; hl_leg := fun s => clift (wood_update 3 (-1) 1 (fun _ => 1 / 2) s);
     hl_solve := fun _ _ _ x => x; hl_coll := None |}.
Example C95_cfg_eigh : forall i, eigh_ok (ex_cfg i).
Proof.
  intros integ. split; cbn [hl_Nh hl_Nl hl_u hl_alpha hl_va hl_vb hl_evH hl_VH hl_evL hl_VL ex_cfg].
  - apply (is_eigh_ext 3 (tri_T 0 (sqrt (1 / 2)) (sqrt (2 / 2)))); [|apply tri_eigh; apply sqrt_lt_R0; lra].
    intros n m Hn Hm. unfold tri_T, stream_T. destruct n as [|[|[|n]]], m as [|[|[|m]]]; try lia; cbn [nth Nat.eqb INR]; try lra; unfold Rdiv; rewrite ?Rplus_0_l, ?Rplus_0_r; try ring; try reflexivity; f_equal; ring.
  - apply (is_eigh_ext 3 (tri_T 0 (lsigma (-1) 1 1) (lsigma (-1) 1 2))).
    + intros n m Hn Hm. unfold tri_T, lT, lsigma_bar. destruct n as [|[|[|n]]], m as [|[|[|m]]]; try lia; cbn [nth Nat.eqb]; try lra; ring.
    + apply tri_eigh; rewrite ?lsigma_1, ?lsigma_2; (apply Rdiv_lt_0_compat; [lra|apply sqrt_lt_R0; lra]).
Qed.
Example C95_cfg_leg : leg_ok (ex_cfg Split). Proof. left. reflexivity. Qed.
Example C95_cfg_coll : forall i, collision_ok (ex_cfg i). Proof. left. reflexivity. Qed.
(** A perturbed state and a uniform one. *)
Example C95_run_example : let c := ex_cfg Split in let y := ((fun n k => if (n =? 0)%nat then (if (k =? 0)%nat then (1, 0) else (1 / 10, 0)) else (1 / 20, 0)), fun m k => (1 / 30, 0)) : hst in
  energy c (hl_run c 0 1000 y) (field c (hl_run c 0 1000 y)) = energy c y (field c y).
Proof. intros c y. apply (C95_split_conserves c 1000 0 y); try (cbn; lra); try (cbn; lia); try reflexivity. left; reflexivity. Qed.
Example C95_uniform_example : let c := ex_cfg Split in let y := ((fun n k => if (k =? 0)%nat then (INR n, 0) else c0), fun m k => if (k =? 0)%nat then (1, 0) else c0) : hst in
  sheq c (hl_run c 0 1000 y) y.
Proof.
  intros c y. apply C95_uniform; try (cbn; lra); try (cbn; lia); try reflexivity; auto; [apply C95_cfg_eigh|intros _; apply C95_cfg_leg|discriminate|].
  intros k Hk. unfold y. cbn [fst snd]. destruct (Nat.eqb_spec k 0); [lia|]. split; reflexivity.
Qed.
Example C95_mass_example : let c := ex_cfg Lawson in let y := ((fun n k => (1 / 10, 0)), fun m k => (1 / 30, 0)) : hst in mass c (hl_run c 0 1000 y) = mass c y.
Proof. intros c y. apply C95_mass; try (cbn; lra); try (cbn; lia); try reflexivity; [apply C95_cfg_eigh|left; reflexivity|left; reflexivity]. Qed.
