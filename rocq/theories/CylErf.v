(** The diffusion coefficients of the cylindrical Landau operator are positive. *)
From Coq Require Import Reals Lra Lia Psatz.
From Coquelicot Require Import Coquelicot.
From Verif Require Import RSum DriftDiff Cyl GaussInt.
Local Open Scope R_scope.

Lemma erf_gI x : erf x = 2 / sqrt PI * gI x.
Proof. reflexivity. Qed.
Lemma erf_0 : erf 0 = 0.
Proof. rewrite erf_gI, gI_0. ring. Qed.
Lemma sqrt_PI_pos : 0 < sqrt PI. Proof. apply sqrt_lt_R0. exact PI_RGT_0. Qed.
Lemma erf_derive x : is_derive erf x (2 / sqrt PI * exp (- (x * x))).
Proof.
  apply (is_derive_ext (fun y => 2 / sqrt PI * gI y)); [intros t; symmetry; apply erf_gI|].
  apply (is_derive_scal gI). apply gI_deriv.
Qed.

Lemma incr_pos (f f' : R -> R) z : (forall x, is_derive f x (f' x)) -> f 0 = 0 -> (forall x, 0 < x -> 0 < f' x) -> 0 < z -> 0 < f z.
Proof.
  intros D Z P Hz. destruct (MVT_cor2 f f' 0 z Hz) as (c & E & Hc); [intros; apply is_derive_Reals, D|].
  rewrite Z in E. specialize (P c (proj1 Hc)). replace (f z) with (f' c * (z - 0)) by lra. apply Rmult_lt_0_compat; lra.
Qed.
Lemma erf_pos z : 0 < z -> 0 < erf z.
Proof.
  apply (incr_pos erf (fun x => 2 / sqrt PI * exp (- (x * x)))); [apply erf_derive|apply erf_0|]. intros x _. pose proof sqrt_PI_pos. pose proof (exp_pos (- (x * x))).
  apply Rmult_lt_0_compat; [|assumption]. apply Rdiv_lt_0_compat; lra.
Qed.
Definition par_aux (z : R) : R := erf z - 2 / sqrt PI * (z * exp (- (z * z))).
Lemma par_aux_pos z : 0 < z -> 0 < par_aux z.
Proof.
  apply (incr_pos par_aux (fun x => 4 / sqrt PI * (x * x * exp (- (x * x))))).
  - intros x. unfold par_aux. eapply is_derive_ext; [intros t; reflexivity|].
    replace (4 / sqrt PI * (x * x * exp (- (x * x)))) with (2 / sqrt PI * exp (- (x * x)) - 2 / sqrt PI * (exp (- (x * x)) * (1 - 2 * x * x))) by (unfold Rdiv; ring).
    apply (is_derive_minus erf (fun t => 2 / sqrt PI * (t * exp (- (t * t))))); [apply erf_derive|]. auto_derive; [exact Logic.I|]. unfold Rdiv. ring.
  - unfold par_aux. rewrite erf_0. ring.
  - intros x Hx. pose proof sqrt_PI_pos. pose proof (exp_pos (- (x * x))). apply Rmult_lt_0_compat; [apply Rdiv_lt_0_compat; lra|]. apply Rmult_lt_0_compat; [nra|assumption].
Qed.
Definition perp_aux (z : R) : R := (2 * (z * z) - 1) * erf z + 2 / sqrt PI * (z * exp (- (z * z))).
Lemma perp_aux_pos z : 0 < z -> 0 < perp_aux z.
Proof.
  apply (incr_pos perp_aux (fun x => 4 * x * erf x)).
  - intros x. unfold perp_aux.
    replace (4 * x * erf x) with ((4 * x * erf x + (2 * (x * x) - 1) * (2 / sqrt PI * exp (- (x * x)))) + 2 / sqrt PI * (exp (- (x * x)) * (1 - 2 * x * x))) by (unfold Rdiv; ring).
    apply (is_derive_plus (fun t => (2 * (t * t) - 1) * erf t) (fun t => 2 / sqrt PI * (t * exp (- (t * t))))).
    + replace (4 * x * erf x + (2 * (x * x) - 1) * (2 / sqrt PI * exp (- (x * x)))) with (plus (mult (4 * x) (erf x)) (mult (2 * (x * x) - 1) (2 / sqrt PI * exp (- (x * x))))) by reflexivity.
      apply (is_derive_mult (fun t => 2 * (t * t) - 1) erf x (4 * x) (2 / sqrt PI * exp (- (x * x)))); [|apply erf_derive|intros; apply Rmult_comm]. auto_derive; [exact Logic.I|ring].
    + auto_derive; [exact Logic.I|]. unfold Rdiv. ring.
  - unfold perp_aux. rewrite erf_0. ring.
  - intros x Hx. pose proof (erf_pos x Hx). nra.
Qed.

Lemma scaled s : 0 < s -> let z := s / sqrt 2 in 0 < z /\ s ^ 2 / 2 = z * z /\ sqrt (s ^ 2 / 2) = z /\ sqrt (s ^ 2 / 2 / PI) = z / sqrt PI /\ sqrt (2 / PI) * s = 2 * (z / sqrt PI).
Proof.
  intros Hs z. assert (S2 : 0 < sqrt 2) by (apply sqrt_lt_R0; lra). pose proof (sqrt_sqrt 2 ltac:(lra)) as E2. pose proof sqrt_PI_pos as SP. pose proof PI_RGT_0 as HP.
  assert (Hz : 0 < z) by (apply Rdiv_lt_0_compat; assumption). assert (E : s = z * sqrt 2) by (unfold z; field; lra).
  assert (E3 : s ^ 2 / 2 = z * z) by (rewrite E; replace ((z * sqrt 2) ^ 2) with (z * z * (sqrt 2 * sqrt 2)) by ring; rewrite E2; field).
  repeat split; auto.
  - rewrite E3. apply sqrt_square. lra.
  - rewrite E3. rewrite sqrt_div; [|nra|lra]. rewrite sqrt_square by lra. reflexivity.
  - rewrite sqrt_div by lra. rewrite E. replace (sqrt 2 / sqrt PI * (z * sqrt 2)) with ((sqrt 2 * sqrt 2) * (z / sqrt PI)) by (field; lra). rewrite E2. reflexivity.
Qed.
Lemma psi_aux s : 0 < s -> psi (s ^ 2 / 2) = par_aux (s / sqrt 2).
Proof.
  intros Hs. destruct (scaled s Hs) as (Hz & E1 & E2 & E3 & E4). unfold psi, par_aux. rewrite E2, E3, E1. unfold Rdiv. ring.
Qed.
Lemma dhat_par_pos s : 0 < dhat_par s.
Proof.
  unfold dhat_par. set (t := Rmax s (1 / 10 ^ 6)). assert (Ht : 0 < t) by (unfold t; pose proof (Rmax_r s (1 / 10 ^ 6)); lra). clearbody t.
  rewrite psi_aux by exact Ht. destruct (scaled t Ht) as (Hz & _). apply Rdiv_lt_0_compat; [now apply par_aux_pos|now apply pow_lt].
Qed.
Lemma dhat_perp_pos s : 0 < dhat_perp s.
Proof.
  unfold dhat_perp. set (t := Rmax s (1 / 10 ^ 6)). assert (Ht : 0 < t) by (unfold t; pose proof (Rmax_r s (1 / 10 ^ 6)); lra). clearbody t. cbv zeta.
  rewrite psi_aux by exact Ht. destruct (scaled t Ht) as (Hz & E1 & _ & _ & E4). rewrite E4.
  apply Rdiv_lt_0_compat; [|lra]. set (z := t / sqrt 2) in *. pose proof (perp_aux_pos z Hz) as P.
  assert (T2 : t ^ 2 = 2 * (z * z)) by lra. rewrite E1, T2. unfold par_aux.
  replace ((1 - 1 / (2 * (z * z))) * (erf z - 2 / sqrt PI * (z * exp (- (z * z)))) + 2 * (z / sqrt PI) * exp (- (z * z))) with (perp_aux z / (2 * (z * z))).
  - apply Rdiv_lt_0_compat; [exact P|nra].
  - unfold perp_aux. pose proof sqrt_PI_pos. field. lra.
Qed.
