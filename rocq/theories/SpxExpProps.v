(** Property C87: the exponential operators of the spectrax-1d solver. *)
From Coq Require Import FunctionalExtensionality Reals Lra Lia ZArith List Bool Psatz.
From Verif Require Import HPForceProps Spectrax SpxExp SpxProps SpxLaws SpxMore RSum Pic PicProofs PicFourier Dft HPProps.
Local Open Scope R_scope.
Local Open Scope cx_scope.

(* ------------------------------------------------------------------------------------------------ *)
(** * Specification: Maxwell's equations without current, dE/dt = i k x B, dB/dt = - i k x E, at one wavevector *)
Definition maxwell_rate (k : nat -> R) (F : nat -> cplx) (i : nat) : cplx :=
  if (i <? 3)%nat then cmul cI (ccross k (fun j => F (3 + j)%nat) i) else cneg (cmul cI (ccross k (fun j => F j) (i - 3))).
Definition field_norm (F : nat -> cplx) : R := rsum 6 (fun i => cabs2 (F i)).

(** The two coefficients and their relations. *)
Definition kk1 (w s : R) : R := sin (w * s) / w.
Definition kk2 (w s : R) : R := (1 - cos (w * s)) / w ^ 2.
Lemma kk_add w s t : w <> 0 -> kk1 w (s + t) = kk1 w s * (1 - w ^ 2 * kk2 w t) + (1 - w ^ 2 * kk2 w s) * kk1 w t /\
  kk2 w (s + t) = kk2 w s + kk2 w t - w ^ 2 * kk2 w s * kk2 w t + kk1 w s * kk1 w t.
Proof. intros W. unfold kk1, kk2. rewrite Rmult_plus_distr_l, sin_plus, cos_plus. split; field; auto. Qed.
Lemma kk_sq w s : w <> 0 -> kk1 w s * kk1 w s = 2 * kk2 w s - w ^ 2 * kk2 w s * kk2 w s.
Proof.
  intros W. unfold kk1, kk2. pose proof (sin2_cos2 (w * s)) as H. unfold Rsqr in H.
  replace (sin (w * s) / w * (sin (w * s) / w)) with ((sin (w * s) * sin (w * s)) / w ^ 2) by (field; auto).
  replace (sin (w * s) * sin (w * s)) with (1 - cos (w * s) * cos (w * s)) by lra. field; auto.
Qed.
Lemma kk_0 w : w <> 0 -> kk1 w 0 = 0 /\ kk2 w 0 = 0.
Proof. intros W. unfold kk1, kk2. rewrite Rmult_0_r, sin_0, cos_0. split; field; auto. Qed.
Lemma d_arg w s : derivable_pt_lim (fun t => w * t) s w.
Proof. pose proof (derivable_pt_lim_scal id w s 1 (derivable_pt_lim_id s)) as H. rewrite Rmult_1_r in H. exact H. Qed.
Lemma kk1_d w s : w <> 0 -> derivable_pt_lim (kk1 w) s (1 - w ^ 2 * kk2 w s).
Proof.
  intros W. apply derive_ext with (f := fun t => / w * sin (w * t)); [intros; unfold kk1; field; auto|].
  replace (1 - w ^ 2 * kk2 w s) with (/ w * (cos (w * s) * w)) by (unfold kk2; field; auto).
  apply (derivable_pt_lim_scal (fun t => sin (w * t))). apply (derivable_pt_lim_comp (fun t => w * t) sin); [apply d_arg|apply derivable_pt_lim_sin].
Qed.
Lemma kk2_d w s : w <> 0 -> derivable_pt_lim (kk2 w) s (kk1 w s).
Proof.
  intros W. apply derive_ext with (f := fun t => / w ^ 2 * (1 - cos (w * t))); [intros; unfold kk2; field; auto|].
  replace (kk1 w s) with (/ w ^ 2 * (0 - (- sin (w * s) * w))) by (unfold kk1; field; auto).
  apply (derivable_pt_lim_scal (fun t => 1 - cos (w * t))). apply (derivable_pt_lim_minus (fun _ => 1) (fun t => cos (w * t))); [apply derivable_pt_lim_const|].
  apply (derivable_pt_lim_comp (fun t => w * t) cos); [apply d_arg|apply derivable_pt_lim_cos].
Qed.
Definition sw (xi : nat -> R) : R := if Rlt_dec 0 (omega xi) then omega xi else 1.
Lemma omega_sq xi : omega xi ^ 2 = xi 0%nat ^ 2 + xi 1%nat ^ 2 + xi 2%nat ^ 2.
Proof. unfold omega. apply pow2_sqrt. pose proof (pow2_ge_0 (xi 0%nat)). pose proof (pow2_ge_0 (xi 1%nat)). pose proof (pow2_ge_0 (xi 2%nat)). lra. Qed.
Lemma omega_case xi : (sw xi <> 0 /\ sw xi ^ 2 = omega xi ^ 2) \/ (sw xi = 1 /\ omega xi ^ 2 = 0 /\ xi 0%nat = 0 /\ xi 1%nat = 0 /\ xi 2%nat = 0).
Proof.
  unfold sw. destruct (Rlt_dec 0 (omega xi)) as [W|W]; [left; split; lra|]. right.
  assert (O : omega xi = 0) by (pose proof (sqrt_pos (xi 0%nat ^ 2 + xi 1%nat ^ 2 + xi 2%nat ^ 2)); unfold omega in *; lra).
  pose proof (omega_sq xi) as Q. rewrite O in Q. pose proof (pow2_ge_0 (xi 0%nat)). pose proof (pow2_ge_0 (xi 1%nat)). pose proof (pow2_ge_0 (xi 2%nat)).
  split; [reflexivity|]. split; [rewrite O; ring|]. repeat split; apply Rsqr_0_uniq; rewrite Rsqr_pow2; lra.
Qed.
Lemma max_eq xi F s i : max_exp xi F s i =
  if (i <? 3)%nat then F i +c kk1 (sw xi) s *c cmul cI (ccross xi (fun j => F (3 + j)%nat) i) +c kk2 (sw xi) s *c (xi i *c cdot xi (fun j => F j) -c (omega xi ^ 2) *c F i)
  else F (3 + (i - 3))%nat +c kk1 (sw xi) s *c cneg (cmul cI (ccross xi (fun j => F j) (i - 3))) +c kk2 (sw xi) s *c (xi (i - 3)%nat *c cdot xi (fun j => F (3 + j)%nat) -c (omega xi ^ 2) *c F (3 + (i - 3))%nat).
Proof. reflexivity. Qed.
Ltac six i := destruct i as [|[|[|[|[|[|i]]]]]]; [| | | | | |lia].
Ltac cxu := apply cplx_eq; unfold csub, cadd, cneg, cmul, cscal, c0, c1, cI; cbn [fst snd].
Ltac mru := unfold maxwell_rate, ccross, cdot; cbn [Nat.ltb Nat.leb Nat.sub Nat.add].
Lemma rate_lin k X Y Z r q i : (i < 6)%nat -> maxwell_rate k (fun j => X j +c r *c Y j +c q *c Z j) i = maxwell_rate k X i +c r *c maxwell_rate k Y i +c q *c maxwell_rate k Z i.
Proof. intros I. six i; mru; cxu; ring. Qed.
Lemma rate_ext k X Y i : (i < 6)%nat -> (forall j, (j < 6)%nat -> X j = Y j) -> maxwell_rate k X i = maxwell_rate k Y i.
Proof. intros I H. six i; mru; rewrite !H by lia; reflexivity. Qed.
Lemma rate2 k F i : (i < 6)%nat -> maxwell_rate k (maxwell_rate k F) i =
  if (i <? 3)%nat then k i *c cdot k (fun j => F j) -c (omega k ^ 2) *c F i else k (i - 3)%nat *c cdot k (fun j => F (3 + j)%nat) -c (omega k ^ 2) *c F i.
Proof. intros I. rewrite omega_sq. six i; mru; cxu; ring. Qed.
Lemma rate3 k F i : (i < 6)%nat -> maxwell_rate k (maxwell_rate k (maxwell_rate k F)) i = (- omega k ^ 2) *c maxwell_rate k F i.
Proof. intros I. rewrite rate2 by assumption. rewrite omega_sq. six i; mru; cxu; ring. Qed.
Lemma max_rate k F s i : (i < 6)%nat -> max_exp k F s i = F i +c kk1 (sw k) s *c maxwell_rate k F i +c kk2 (sw k) s *c maxwell_rate k (maxwell_rate k F) i.
Proof. intros I. rewrite max_eq, rate2 by assumption. six i; reflexivity. Qed.
Lemma rot_norm a b c u0 u1 u2 v0 v1 v2 k1 k2 : k1 * k1 = 2 * k2 - (a ^ 2 + b ^ 2 + c ^ 2) * k2 * k2 ->
  (u0 - k1 * (b * v2 - c * v1) + k2 * (a * (a * u0 + b * u1 + c * u2) - (a ^ 2 + b ^ 2 + c ^ 2) * u0)) ^ 2
  + (u1 - k1 * (c * v0 - a * v2) + k2 * (b * (a * u0 + b * u1 + c * u2) - (a ^ 2 + b ^ 2 + c ^ 2) * u1)) ^ 2
  + (u2 - k1 * (a * v1 - b * v0) + k2 * (c * (a * u0 + b * u1 + c * u2) - (a ^ 2 + b ^ 2 + c ^ 2) * u2)) ^ 2
  + (v0 - k1 * (b * u2 - c * u1) + k2 * (a * (a * v0 + b * v1 + c * v2) - (a ^ 2 + b ^ 2 + c ^ 2) * v0)) ^ 2
  + (v1 - k1 * (c * u0 - a * u2) + k2 * (b * (a * v0 + b * v1 + c * v2) - (a ^ 2 + b ^ 2 + c ^ 2) * v1)) ^ 2
  + (v2 - k1 * (a * u1 - b * u0) + k2 * (c * (a * v0 + b * v1 + c * v2) - (a ^ 2 + b ^ 2 + c ^ 2) * v2)) ^ 2
  = u0 ^ 2 + u1 ^ 2 + u2 ^ 2 + v0 ^ 2 + v1 ^ 2 + v2 ^ 2.
Proof.
  intros H. apply Rminus_diag_uniq.
  transitivity ((k1 * k1 - (2 * k2 - (a ^ 2 + b ^ 2 + c ^ 2) * k2 * k2)) *
    ((b * v2 - c * v1) ^ 2 + (c * v0 - a * v2) ^ 2 + (a * v1 - b * v0) ^ 2 + (b * u2 - c * u1) ^ 2 + (c * u0 - a * u2) ^ 2 + (a * u1 - b * u0) ^ 2)); [ring|].
  rewrite H. ring.
Qed.
(** The rotation is the exact solution operator of Maxwell's equations without current: it starts at the given fields,
    solves them at every time, composes over times, keeps the field energy and both divergences, and leaves the k = 0
    fields alone. *)
Theorem C87_maxwell : forall k F,
  (forall i, (i < 6)%nat -> max_exp k F 0 i = F i) /\
  (forall s i, (i < 6)%nat -> cderiv (fun t => max_exp k F t i) s (maxwell_rate k (max_exp k F s) i)) /\
  (forall s t i, (i < 6)%nat -> max_exp k (max_exp k F s) t i = max_exp k F (s + t) i) /\
  (forall s, field_norm (max_exp k F s) = field_norm F) /\
  (forall s, cdot k (fun j => max_exp k F s j) = cdot k (fun j => F j) /\
             cdot k (fun j => max_exp k F s (3 + j)%nat) = cdot k (fun j => F (3 + j)%nat)) /\
  (k 0%nat = 0 -> k 1%nat = 0 -> k 2%nat = 0 -> forall s i, (i < 6)%nat -> max_exp k F s i = F i).
Proof.
  intros k F. pose proof (omega_sq k) as Q.
  assert (W : sw k <> 0) by (destruct (omega_case k) as [(W & _)|(W & _)]; lra).
  assert (K0 : kk1 (sw k) 0 = 0 /\ kk2 (sw k) 0 = 0) by (apply kk_0; exact W).
  assert (RM : forall s i, (i < 6)%nat -> maxwell_rate k (max_exp k F s) i =
     maxwell_rate k F i +c kk1 (sw k) s *c maxwell_rate k (maxwell_rate k F) i +c kk2 (sw k) s *c ((- omega k ^ 2) *c maxwell_rate k F i)).
  { intros s i I. rewrite (rate_ext k _ (fun j => F j +c kk1 (sw k) s *c maxwell_rate k F j +c kk2 (sw k) s *c maxwell_rate k (maxwell_rate k F) j)) by (auto; intros; apply max_rate; assumption).
    rewrite rate_lin, rate3 by assumption. reflexivity. }
  assert (Z1 : omega k ^ 2 = sw k ^ 2 \/ (forall X i, (i < 6)%nat -> maxwell_rate k X i = c0)).
  { destruct (omega_case k) as [(_ & S2)|(S1 & O2 & X0 & X1 & X2)]; [left; lra|right]. intros X i I. six i; mru; rewrite ?X0, ?X1, ?X2; cxu; ring. }
  split; [|split; [|split; [|split; [|split]]]].
  - intros i I. destruct K0 as (A & B). rewrite max_rate, A, B by assumption. cxu; ring.
  - intros s i I.
    pose proof (kk1_d (sw k) s W) as D1. pose proof (kk2_d (sw k) s W) as D2.
    set (E := maxwell_rate k F i) in *. set (E2 := maxwell_rate k (maxwell_rate k F) i) in *.
    apply cd_val with (v := (1 - sw k ^ 2 * kk2 (sw k) s) *c E +c kk1 (sw k) s *c E2).
    + assert (X : forall t, max_exp k F t i = F i +c kk1 (sw k) t *c E +c kk2 (sw k) t *c E2) by (intros t; apply max_rate; assumption).
      split.
      * apply derive_ext with (f := fun t => (fst (F i) + kk1 (sw k) t * fst E) + kk2 (sw k) t * fst E2); [intros t; rewrite X; reflexivity|].
        match goal with |- derivable_pt_lim _ _ ?v => replace v with ((0 + (1 - sw k ^ 2 * kk2 (sw k) s) * fst E) + kk1 (sw k) s * fst E2) by (unfold cadd, cscal; cbn [fst snd]; ring) end.
        apply (derivable_pt_lim_plus (fun t => fst (F i) + kk1 (sw k) t * fst E) (fun t => kk2 (sw k) t * fst E2)); [apply (derivable_pt_lim_plus (fun _ => fst (F i)) (fun t => kk1 (sw k) t * fst E)); [apply derivable_pt_lim_const|]|]; (eapply derive_ext; [intros; apply Rmult_comm|]; rewrite Rmult_comm; apply derivable_pt_lim_scal; assumption).
      * apply derive_ext with (f := fun t => (snd (F i) + kk1 (sw k) t * snd E) + kk2 (sw k) t * snd E2); [intros t; rewrite X; reflexivity|].
        match goal with |- derivable_pt_lim _ _ ?v => replace v with ((0 + (1 - sw k ^ 2 * kk2 (sw k) s) * snd E) + kk1 (sw k) s * snd E2) by (unfold cadd, cscal; cbn [fst snd]; ring) end.
        apply (derivable_pt_lim_plus (fun t => snd (F i) + kk1 (sw k) t * snd E) (fun t => kk2 (sw k) t * snd E2)); [apply (derivable_pt_lim_plus (fun _ => snd (F i)) (fun t => kk1 (sw k) t * snd E)); [apply derivable_pt_lim_const|]|]; (eapply derive_ext; [intros; apply Rmult_comm|]; rewrite Rmult_comm; apply derivable_pt_lim_scal; assumption).
    + rewrite RM by assumption. destruct Z1 as [O|Z].
      * fold E E2. rewrite O. generalize E, E2. intros. cxu; ring.
      * unfold E, E2. rewrite !Z by assumption. cxu; ring.
  - intros s t i I. destruct (kk_add (sw k) s t W) as (A1 & A2). rewrite (max_rate k (max_exp k F s)), RM by assumption.
    rewrite (rate_ext k (maxwell_rate k (max_exp k F s)) (fun j => maxwell_rate k F j +c kk1 (sw k) s *c maxwell_rate k (maxwell_rate k F) j +c (kk2 (sw k) s * (- omega k ^ 2)) *c maxwell_rate k F j))
      by (auto; intros j J; rewrite RM by assumption; cxu; ring).
    rewrite rate_lin, rate3, !max_rate by assumption. destruct Z1 as [O|Z].
    + rewrite A1, A2, O. generalize (maxwell_rate k F i) (maxwell_rate k (maxwell_rate k F) i) (kk1 (sw k) s) (kk2 (sw k) s) (kk1 (sw k) t) (kk2 (sw k) t). intros. cxu; ring.
    + rewrite !Z by assumption. cxu; ring.
  - intros s. unfold field_norm. cbn [rsum]. pose proof (kk_sq (sw k) s W) as S. rewrite !max_rate by lia.
    destruct Z1 as [O|Z].
    + rewrite <- O, Q in S. pose proof (rot_norm (k 0%nat) (k 1%nat) (k 2%nat) (fst (F 0%nat)) (fst (F 1%nat)) (fst (F 2%nat)) (snd (F 3%nat)) (snd (F 4%nat)) (snd (F 5%nat)) _ _ S) as R1.
      pose proof (rot_norm (k 0%nat) (k 1%nat) (k 2%nat) (snd (F 0%nat)) (snd (F 1%nat)) (snd (F 2%nat)) (- fst (F 3%nat)) (- fst (F 4%nat)) (- fst (F 5%nat)) _ _ S) as R2.
      assert (RR := f_equal2 Rplus R1 R2). clear R1 R2 S.
      match type of RR with ?l = ?r => transitivity l; [|rewrite RR; unfold cabs2; ring] end. clear RR.
      rewrite !rate2 by lia. rewrite Q. mru. generalize (kk1 (sw k) s) (kk2 (sw k) s). intros k1 k2. clear.
      unfold cabs2, csub, cadd, cneg, cmul, cscal, c0, c1, cI. cbn [fst snd].
      generalize (k 0%nat) (k 1%nat) (k 2%nat) (fst (F 0%nat)) (fst (F 1%nat)) (fst (F 2%nat)) (snd (F 3%nat)) (snd (F 4%nat)) (snd (F 5%nat)) (snd (F 0%nat)) (snd (F 1%nat)) (snd (F 2%nat)) (fst (F 3%nat)) (fst (F 4%nat)) (fst (F 5%nat)). intros.
      ring.
    + rewrite !Z by lia. unfold cabs2, cadd, cscal, c0. cbn [fst snd]. ring.
  - intros s. split; unfold cdot; cbn [Nat.add]; rewrite !max_rate, !rate2 by lia; rewrite Q; mru; generalize (kk1 (sw k) s) (kk2 (sw k) s); intros k1 k2; cxu; ring.
  - intros A B C s i I. rewrite max_rate by assumption. assert (Z : forall X, maxwell_rate k X i = c0) by (intros X; six i; mru; rewrite ?A, ?B, ?C; cxu; ring).
    rewrite !Z. cxu; ring.
Qed.
Print Assumptions C87_maxwell.
