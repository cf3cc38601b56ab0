(** The Gaussian integral, as an antiderivative with limits at both infinities. Proof by the differentiation of
    [int_0^1 exp(-x^2(1+t^2))/(1+t^2) dt] under the integral sign. *)
From Coq Require Import Reals Lra Lia Psatz.
From Coquelicot Require Import Coquelicot.
Local Open Scope R_scope.

Definition gss (t : R) : R := exp (- (t * t)).
Definition gI (x : R) : R := RInt gss 0 x.
Definition gk (x t : R) : R := exp (- (x * x) * (1 + t * t)) / (1 + t * t).
Definition gJ (x : R) : R := RInt (gk x) 0 1.
Lemma one_sq t : 0 < 1 + t * t. Proof. nra. Qed.
Lemma gss_cont t : continuous gss t.
Proof. apply (ex_derive_continuous gss t). unfold gss. auto_derive. exact I. Qed.
Lemma gk_cont x t : continuous (gk x) t.
Proof. apply (ex_derive_continuous (gk x) t). unfold gk. auto_derive. pose proof (one_sq t). repeat split; lra. Qed.
Lemma gss_int a b : ex_RInt gss a b. Proof. apply (ex_RInt_continuous gss). intros z _. apply gss_cont. Qed.
Lemma gk_int x a b : ex_RInt (gk x) a b. Proof. apply (ex_RInt_continuous (gk x)). intros z _. apply gk_cont. Qed.
Lemma gI_deriv x : is_derive gI x (gss x).
Proof. apply (is_derive_RInt gss gI 0 x). - apply filter_forall. intros y. unfold gI. apply (RInt_correct gss 0 y). apply gss_int. - apply gss_cont. Qed.
Lemma gI_0 : gI 0 = 0. Proof. unfold gI. rewrite RInt_point. reflexivity. Qed.
Lemma gk_deriv x t : is_derive (fun y => gk y t) x (- 2 * x * exp (- (x * x) * (1 + t * t))).
Proof. unfold gk. auto_derive. - exact I. - pose proof (one_sq t). field. lra. Qed.
Lemma gk_Deriv x t : Derive (fun y => gk y t) x = - 2 * x * exp (- (x * x) * (1 + t * t)).
Proof. apply is_derive_unique, gk_deriv. Qed.
Lemma scaled_int x : RInt (fun t => x * gss (x * t + 0)) 0 1 = gI x.
Proof.
  pose proof (RInt_comp_lin gss x 0 0 1 (gss_int _ _)) as E.
  transitivity (RInt gss (x * 0 + 0) (x * 1 + 0)); [exact E|]. unfold gI. f_equal; ring.
Qed.

Lemma gJ_deriv x : is_derive gJ x (- 2 * gss x * gI x).
Proof.
  assert (C : forall y t, continuity_2d_pt (fun u v => - 2 * u * exp (- (u * u) * (1 + v * v))) y t).
  { intros y t. apply continuity_2d_pt_mult.
    - apply continuity_2d_pt_mult; [apply continuity_2d_pt_const|apply continuity_2d_pt_id1].
    - apply (continuity_1d_2d_pt_comp exp (fun u v => - (u * u) * (1 + v * v))); [apply derivable_continuous_pt, derivable_pt_exp|].
      apply continuity_2d_pt_mult.
      + apply continuity_2d_pt_opp. apply continuity_2d_pt_mult; apply continuity_2d_pt_id1.
      + apply continuity_2d_pt_plus; [apply continuity_2d_pt_const|]. apply continuity_2d_pt_mult; apply continuity_2d_pt_id2. }
  assert (D : is_derive gJ x (RInt (fun t => Derive (fun u => gk u t) x) 0 1)).
  { apply (is_derive_RInt_param gk 0 1 x).
    - apply filter_forall. intros y t _. exists (- 2 * y * exp (- (y * y) * (1 + t * t))). apply gk_deriv.
    - intros t _. apply (continuity_2d_pt_ext (fun u v => - 2 * u * exp (- (u * u) * (1 + v * v)))); [|apply C].
      intros u v. symmetry. apply gk_Deriv.
    - apply filter_forall. intros y. apply gk_int. }
  assert (E : RInt (fun t => Derive (fun u => gk u t) x) 0 1 = - 2 * gss x * gI x).
  { rewrite <- scaled_int. transitivity (RInt (fun t => scal (- 2 * gss x) (x * gss (x * t + 0))) 0 1).
    - apply RInt_ext. intros t _. rewrite gk_Deriv. unfold scal. cbn. unfold mult. cbn. unfold gss.
      replace (- (x * x) * (1 + t * t)) with (- (x * x) + - ((x * t + 0) * (x * t + 0))) by ring. rewrite exp_plus. ring.
    - apply (RInt_scal (fun t => x * gss (x * t + 0)) 0 1 (- 2 * gss x)). apply (ex_RInt_continuous (fun t => x * gss (x * t + 0))). intros z _.
      apply (ex_derive_continuous (fun t => x * gss (x * t + 0))). unfold gss. auto_derive. exact I. }
  rewrite E in D. exact D.
Qed.
Lemma gJ_0 : gJ 0 = PI / 4.
Proof.
  unfold gJ. rewrite (RInt_ext _ (fun t => / (1 + t ^ 2))).
  - rewrite <- atan_1. replace (atan 1) with (atan 1 - atan 0) by (rewrite atan_0; ring).
    apply is_RInt_unique. apply (is_RInt_derive atan (fun t => / (1 + t ^ 2))).
    + intros t _. apply is_derive_Reals. apply derivable_pt_lim_atan.
    + intros t _. apply (ex_derive_continuous (fun t => / (1 + t ^ 2))). auto_derive. pose proof (one_sq t). nra.
  - intros t _. unfold gk. replace (- (0 * 0) * (1 + t * t)) with 0 by ring. rewrite exp_0. enough (H : @eq R (1 / (1 + t * t)) (/ (1 + t ^ 2))) by exact H. pose proof (one_sq t). field. nra.
Qed.
Lemma gI_sq x : gI x * gI x + gJ x = PI / 4.
Proof.
  assert (D : forall y, is_derive (fun z => gI z * gI z + gJ z) y 0).
  { intros y. replace 0 with (plus (plus (mult (gss y) (gI y)) (mult (gI y) (gss y))) (- 2 * gss y * gI y)) by (unfold plus, mult; cbn; ring).
    apply (is_derive_plus (fun z => gI z * gI z) gJ y); [|apply gJ_deriv].
    apply (is_derive_mult gI gI y); [apply gI_deriv|apply gI_deriv|]. intros a b. unfold mult. cbn. ring. }
  assert (E : forall y, gI y * gI y + gJ y = gI 0 * gI 0 + gJ 0).
  { intros y. destruct (MVT_gen (fun z => gI z * gI z + gJ z) 0 y (fun _ => 0)) as (z & _ & Ez).
    - intros w _. apply D.
    - intros w _. apply continuity_pt_filterlim. apply (ex_derive_continuous (fun z => gI z * gI z + gJ z)). exists 0. apply D.
    - assert (Ez' : (gI y * gI y + gJ y) - (gI 0 * gI 0 + gJ 0) = 0 * (y - 0)) by exact Ez. lra. }
  rewrite E, gI_0, gJ_0. ring.
Qed.
Lemma gJ_bounds x : 0 <= gJ x <= gss x.
Proof.
  split.
  - unfold gJ. apply RInt_ge_0; [lra|apply gk_int|]. intros t _. unfold gk. apply Rlt_le, Rdiv_lt_0_compat; [apply exp_pos|apply one_sq].
  - replace (gss x) with (RInt (fun _ => gss x) 0 1) by (rewrite RInt_const; unfold scal; cbn; unfold mult; cbn; ring).
    unfold gJ. apply RInt_le; [lra|apply gk_int|apply ex_RInt_const|]. intros t _. unfold gk, gss.
    apply Rle_trans with (exp (- (x * x) * (1 + t * t))).
    + assert (H : 1 <= 1 + t * t) by nra. pose proof (exp_pos (- (x * x) * (1 + t * t))). apply Rle_div_l; [lra|]. nra.
    + destruct (Req_dec (x * x * (t * t)) 0) as [Z|Z].
      * right. f_equal. replace (- (x * x) * (1 + t * t)) with (- (x * x) - x * x * (t * t)) by ring. lra.
      * left. apply exp_increasing. assert (0 <= x * x * (t * t)) by nra. nra.
Qed.
Lemma gI_odd x : gI (- x) = - gI x.
Proof.
  assert (D : forall y, is_derive (fun z => gI (- z) + gI z) y 0).
  { intros y. replace 0 with (plus (scal (- 1) (gss (- y))) (gss y)).
    - apply (is_derive_plus (fun z => gI (- z)) gI y); [|apply gI_deriv].
      apply (is_derive_comp gI (fun z => - z) y); [apply gI_deriv|]. auto_derive; [exact I|ring].
    - unfold plus, scal. cbn. unfold mult. cbn. unfold gss. replace (- y * - y) with (y * y) by ring. ring. }
  destruct (MVT_gen (fun z => gI (- z) + gI z) 0 x (fun _ => 0)) as (z & _ & Ez).
  - intros w _. apply D.
  - intros w _. apply continuity_pt_filterlim. apply (ex_derive_continuous (fun z => gI (- z) + gI z)). exists 0. apply D.
  - assert (Ez' : (gI (- x) + gI x) - (gI (- 0) + gI 0) = 0 * (x - 0)) by exact Ez. rewrite Ropp_0, gI_0 in Ez'. lra.
Qed.
Lemma gI_pos x : 0 <= x -> 0 <= gI x.
Proof. intros H. unfold gI. apply RInt_ge_0; [exact H|apply gss_int|]. intros t _. apply Rlt_le, exp_pos. Qed.
(** |sqrt(pi)/2 - gI x| <= C exp(-x^2) for x >= 0. *)
Lemma gI_lim x : 0 <= x -> 0 <= sqrt PI / 2 - gI x <= gss x * (2 / sqrt PI).
Proof.
  intros H. pose proof (gI_sq x) as S. pose proof (gJ_bounds x) as [J0 J1]. pose proof (gI_pos x H) as P.
  pose proof PI_RGT_0 as HP. pose proof (sqrt_lt_R0 PI HP) as HS. pose proof (sqrt_sqrt PI (Rlt_le _ _ HP)) as HQ.
  assert (F : (sqrt PI / 2 - gI x) * (sqrt PI / 2 + gI x) = gJ x).
  { replace ((sqrt PI / 2 - gI x) * (sqrt PI / 2 + gI x)) with (sqrt PI * sqrt PI / 4 - gI x * gI x) by field. rewrite HQ. lra. }
  assert (G : 0 < sqrt PI / 2 + gI x) by lra.
  assert (A : 0 <= sqrt PI / 2 - gI x). { apply Rnot_lt_le. intro N. assert ((sqrt PI / 2 - gI x) * (sqrt PI / 2 + gI x) < 0) by nra. lra. }
  split; [exact A|]. assert (B : (sqrt PI / 2 - gI x) * (sqrt PI / 2) <= gss x) by nra.
  replace (sqrt PI / 2 - gI x) with ((sqrt PI / 2 - gI x) * (sqrt PI / 2) * (2 / sqrt PI)) by (field; lra).
  apply Rmult_le_compat_r; [|exact B]. apply Rlt_le, Rdiv_lt_0_compat; lra.
Qed.
