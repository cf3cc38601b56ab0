(** Taylor bounds of the exponential function around zero. *)
From Coq Require Import Reals Lra Lia.
From Coquelicot Require Import Coquelicot.
Open Scope R_scope.

Lemma grows (f f' : R -> R) (b : R) :
  (forall t, 0 <= t <= b -> is_derive f t (f' t)) -> (forall t, 0 <= t <= b -> 0 <= f' t) -> 0 <= f 0 -> forall t, 0 <= t <= b -> 0 <= f t.
Proof.
  intros Hd Hp H0 t Ht. destruct (MVT_gen f 0 t f') as (c & Hc & E).
  - intros x Hx. rewrite Rmin_left, Rmax_right in Hx by lra. apply Hd. lra.
  - intros x Hx. rewrite Rmin_left, Rmax_right in Hx by lra. apply continuity_pt_filterlim. apply (ex_derive_continuous (V := R_NormedModule) f x). exists (f' x). apply Hd. lra.
  - rewrite Rmin_left, Rmax_right in Hc by lra. assert (0 <= f' c) by (apply Hp; lra). assert (0 <= f' c * (t - 0)) by (apply Rmult_le_pos; lra). lra.
Qed.

Lemma exp_le_3_unit t : 0 <= t <= 1 -> exp t <= 3.
Proof. intros H. apply Rle_trans with (exp 1); [destruct (Req_dec t 1) as [->|]; [lra|]; apply Rlt_le, exp_increasing; lra|apply exp_le_3]. Qed.

Lemma exp_lower1 t : 1 + t <= exp t.
Proof. apply exp_ineq1_le. Qed.
Lemma exp_lower2 t : 0 <= t <= 1 -> 1 + t + t ^ 2 / 2 <= exp t.
Proof.
  intros Ht. assert (H : 0 <= (fun t => exp t - (1 + t + t ^ 2 / 2)) t); [|cbn beta in H; lra]. revert t Ht.
  apply grows with (f' := fun t => exp t - (1 + t)).
  - intros t _. auto_derive; [exact I|]. simpl. field.
  - intros t _. pose proof (exp_lower1 t). lra.
  - rewrite exp_0. lra.
Qed.
Lemma exp_lower3 t : 0 <= t <= 1 -> 1 + t + t ^ 2 / 2 + t ^ 3 / 6 <= exp t.
Proof.
  intros Ht. assert (H : 0 <= (fun t => exp t - (1 + t + t ^ 2 / 2 + t ^ 3 / 6)) t); [|cbn beta in H; lra]. revert t Ht.
  apply grows with (f' := fun t => exp t - (1 + t + t ^ 2 / 2)).
  - intros t _. auto_derive; [exact I|]. simpl. field.
  - intros t Ht. pose proof (exp_lower2 t Ht). lra.
  - rewrite exp_0. lra.
Qed.
Lemma exp_upper1 t : 0 <= t <= 1 -> exp t <= 1 + 3 * t.
Proof.
  intros Ht. assert (H : 0 <= (fun t => 1 + 3 * t - exp t) t); [|cbn beta in H; lra]. revert t Ht.
  apply grows with (f' := fun t => 3 - exp t).
  - intros t _. auto_derive; [exact I|]. simpl. field.
  - intros t Ht. pose proof (exp_le_3_unit t Ht). lra.
  - rewrite exp_0. lra.
Qed.
Lemma exp_upper2 t : 0 <= t <= 1 -> exp t <= 1 + t + 3 * t ^ 2 / 2.
Proof.
  intros Ht. assert (H : 0 <= (fun t => 1 + t + 3 * t ^ 2 / 2 - exp t) t); [|cbn beta in H; lra]. revert t Ht.
  apply grows with (f' := fun t => 1 + 3 * t - exp t).
  - intros t _. auto_derive; [exact I|]. simpl. field.
  - intros t Ht. pose proof (exp_upper1 t Ht). lra.
  - rewrite exp_0. lra.
Qed.
Lemma exp_upper3 t : 0 <= t <= 1 -> exp t <= 1 + t + t ^ 2 / 2 + t ^ 3 / 2.
Proof.
  intros Ht. assert (H : 0 <= (fun t => 1 + t + t ^ 2 / 2 + t ^ 3 / 2 - exp t) t); [|cbn beta in H; lra]. revert t Ht.
  apply grows with (f' := fun t => 1 + t + 3 * t ^ 2 / 2 - exp t).
  - intros t _. auto_derive; [exact I|]. simpl. field.
  - intros t Ht. pose proof (exp_upper2 t Ht). lra.
  - rewrite exp_0. lra.
Qed.
Lemma exp_upper4 t : 0 <= t <= 1 -> exp t <= 1 + t + t ^ 2 / 2 + t ^ 3 / 6 + t ^ 4 / 8.
Proof.
  intros Ht. assert (H : 0 <= (fun t => 1 + t + t ^ 2 / 2 + t ^ 3 / 6 + t ^ 4 / 8 - exp t) t); [|cbn beta in H; lra]. revert t Ht.
  apply grows with (f' := fun t => 1 + t + t ^ 2 / 2 + t ^ 3 / 2 - exp t).
  - intros t _. auto_derive; [exact I|]. simpl. field.
  - intros t Ht. pose proof (exp_upper3 t Ht). lra.
  - rewrite exp_0. lra.
Qed.
Lemma exp_neg_upper2 s : 0 <= s <= 1 -> exp (- s) <= 1 - s + s ^ 2 / 2.
Proof.
  intros Hs. assert (H : 0 <= (fun s => 1 - s + s ^ 2 / 2 - exp (- s)) s); [|cbn beta in H; lra]. revert s Hs.
  apply grows with (f' := fun s => exp (- s) - (1 - s)).
  - intros s _. auto_derive; [exact I|]. simpl. field.
  - intros s Hs. pose proof (exp_lower1 (- s)). lra.
  - rewrite Ropp_0, exp_0. lra.
Qed.
Lemma exp_neg_lower3 s : 0 <= s <= 1 -> 1 - s + s ^ 2 / 2 - s ^ 3 / 6 <= exp (- s).
Proof.
  intros Hs. assert (H : 0 <= (fun s => exp (- s) - (1 - s + s ^ 2 / 2 - s ^ 3 / 6)) s); [|cbn beta in H; lra]. revert s Hs.
  apply grows with (f' := fun s => 1 - s + s ^ 2 / 2 - exp (- s)).
  - intros s _. auto_derive; [exact I|]. simpl. field.
  - intros s Hs. pose proof (exp_neg_upper2 s Hs). lra.
  - rewrite Ropp_0, exp_0. lra.
Qed.
Lemma exp_neg_upper4 s : 0 <= s <= 1 -> exp (- s) <= 1 - s + s ^ 2 / 2 - s ^ 3 / 6 + s ^ 4 / 24.
Proof.
  intros Hs. assert (H : 0 <= (fun s => 1 - s + s ^ 2 / 2 - s ^ 3 / 6 + s ^ 4 / 24 - exp (- s)) s); [|cbn beta in H; lra]. revert s Hs.
  apply grows with (f' := fun s => exp (- s) - (1 - s + s ^ 2 / 2 - s ^ 3 / 6)).
  - intros s _. auto_derive; [exact I|]. simpl. field.
  - intros s Hs. pose proof (exp_neg_lower3 s Hs). lra.
  - rewrite Ropp_0, exp_0. lra.
Qed.

(** |e^w - (1 + w + w^2/2 + w^3/6)| <= w^4/8 for |w| <= 1. *)
Lemma exp_taylor w : Rabs w <= 1 -> 0 <= exp w - (1 + w + w ^ 2 / 2 + w ^ 3 / 6) <= w ^ 4 / 8.
Proof.
  intros H. destruct (Rle_dec 0 w) as [Hw|Hw].
  - rewrite Rabs_right in H by lra. pose proof (exp_lower3 w). pose proof (exp_upper4 w). lra.
  - rewrite Rabs_left in H by lra. set (s := - w). replace w with (- s) by (unfold s; ring). assert (Hs : 0 <= s <= 1) by (unfold s; lra).
    pose proof (exp_neg_lower3 s Hs). pose proof (exp_neg_upper4 s Hs).
    replace ((- s) ^ 2) with (s ^ 2) by ring. replace ((- s) ^ 3) with (- s ^ 3) by ring. replace ((- s) ^ 4) with (s ^ 4) by ring.
    assert (0 <= s ^ 4) by (apply pow_le; lra). lra.
Qed.
