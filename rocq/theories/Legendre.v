(** Independent specification for the spherical-harmonic solver: Legendre polynomials, their derivatives and the
    surface harmonics P_l^m(cos theta) e^{i m phi} written with the Cartesian components of a direction. *)
From Coq Require Import Reals Lra Lia ZArith Bool Psatz.
From Verif Require Import RSum Pic PicProofs PicFourier Dft.
Local Open Scope R_scope.

(** [legd x l m] is the m-th derivative at x of the Legendre polynomial P_l: Bonnet's recurrence
    (l+2) P_{l+2} = (2l+3) x P_{l+1} - (l+1) P_l, differentiated m times. [legd_deriv] and [legd_bonnet] below state both facts. *)
Fixpoint legpair (x : R) (l : nat) : (nat -> R) * (nat -> R) :=
  match l with
  | O => (fun m => if (m =? 0)%nat then 1 else 0, fun m => if (m =? 0)%nat then x else if (m =? 1)%nat then 1 else 0)
  | S k => let p := legpair x k in
      (snd p, fun m => ((2 * INR k + 3) * (x * snd p m + INR m * snd p (m - 1)%nat) - (INR k + 1) * fst p m) / (INR k + 2))
  end.
Definition legd (x : R) (l m : nat) : R := fst (legpair x l) m.

Lemma legd_0 x m : legd x 0 m = if (m =? 0)%nat then 1 else 0. Proof. reflexivity. Qed.
Lemma legd_1 x m : legd x 1 m = if (m =? 0)%nat then x else if (m =? 1)%nat then 1 else 0. Proof. reflexivity. Qed.
Lemma legd_SS x l m : legd x (S (S l)) m =
  ((2 * INR l + 3) * (x * legd x (S l) m + INR m * legd x (S l) (m - 1)%nat) - (INR l + 1) * legd x l m) / (INR l + 2).
Proof. reflexivity. Qed.
Lemma legd_rec x l m : (INR l + 2) * legd x (S (S l)) m = (2 * INR l + 3) * (x * legd x (S l) m + INR m * legd x (S l) (m - 1)%nat) - (INR l + 1) * legd x l m.
Proof. rewrite legd_SS. pose proof (pos_INR l). field. lra. Qed.
(** P_l by Bonnet's recurrence. *)
Lemma legd_bonnet x l : (INR l + 2) * legd x (S (S l)) 0 = (2 * INR l + 3) * x * legd x (S l) 0 - (INR l + 1) * legd x l 0.
Proof. rewrite legd_rec. change (INR 0) with 0. ring. Qed.
(** The entries m+1 are the derivatives of the entries m. *)
Lemma legd_deriv x l m : derivable_pt_lim (fun y => legd y l m) x (legd x l (S m)).
Proof.
  assert (G : forall l m, derivable_pt_lim (fun y => legd y l m) x (legd x l (S m)) /\ derivable_pt_lim (fun y => legd y (S l) m) x (legd x (S l) (S m))).
  { clear l m. induction l as [|l IH]; intros m.
    - split.
      + replace (legd x 0 (S m)) with 0 by reflexivity. apply (derivable_pt_lim_const (if (m =? 0)%nat then 1 else 0)).
      + destruct m as [|[|m]]; [apply derivable_pt_lim_id| |]; apply derivable_pt_lim_const.
    - split; [apply IH|]. destruct (IH m) as [A B].
      assert (C : derivable_pt_lim (fun y => legd y (S l) (m - 1)%nat) x (if (m =? 0)%nat then legd x (S l) (S (0 - 1)) else legd x (S l) m)).
      { destruct m as [|m]; [apply IH|]. cbn [Nat.sub Nat.eqb]. rewrite Nat.sub_0_r. apply IH. }
      assert (E : legd x (S (S l)) (S m) = ((2 * INR l + 3) * ((1 * legd x (S l) m + x * legd x (S l) (S m)) + INR m * (if (m =? 0)%nat then legd x (S l) (S (0 - 1)) else legd x (S l) m)) - (INR l + 1) * legd x l (S m)) * / (INR l + 2)).
      { rewrite legd_SS. cbn [Nat.sub]. rewrite Nat.sub_0_r. rewrite (S_INR m). unfold Rdiv. f_equal. f_equal. f_equal. destruct (Nat.eqb_spec m 0) as [->|]; [change (INR 0) with 0|]; ring. }
      rewrite E. 
      pose (h := fun y => (2 * INR l + 3) * (y * legd y (S l) m + INR m * legd y (S l) (m - 1)%nat) - (INR l + 1) * legd y l m).
      assert (D : derivable_pt_lim h x ((2 * INR l + 3) * ((1 * legd x (S l) m + x * legd x (S l) (S m)) + INR m * (if (m =? 0)%nat then legd x (S l) (S (0 - 1)) else legd x (S l) m)) - (INR l + 1) * legd x l (S m))).
      { apply (derivable_pt_lim_minus (fun y => (2 * INR l + 3) * (y * legd y (S l) m + INR m * legd y (S l) (m - 1)%nat)) (fun y => (INR l + 1) * legd y l m)).
        - apply (derivable_pt_lim_scal (fun y => y * legd y (S l) m + INR m * legd y (S l) (m - 1)%nat)).
          apply (derivable_pt_lim_plus (fun y => y * legd y (S l) m) (fun y => INR m * legd y (S l) (m - 1)%nat)).
          + apply (derivable_pt_lim_mult (fun y => y) (fun y => legd y (S l) m)); [apply derivable_pt_lim_id|exact B].
          + apply (derivable_pt_lim_scal (fun y => legd y (S l) (m - 1)%nat)). exact C.
        - apply (derivable_pt_lim_scal (fun y => legd y l m)). exact A. }
      pose proof (derivable_pt_lim_scal h (/ (INR l + 2)) x _ D) as K. rewrite Rmult_comm. 
      intros eps He. destruct (K eps He) as [d Hd]. exists d. intros k Hk0 Hkd. specialize (Hd k Hk0 Hkd). unfold mult_real_fct in Hd.
      rewrite !legd_SS. unfold Rdiv at 2 3. rewrite !(Rmult_comm _ (/ (INR l + 2))). exact Hd. }
  apply (proj1 (G l m)).
Qed.
(** The derivatives above the degree vanish. *)
Lemma legd_high x l m : (l < m)%nat -> legd x l m = 0.
Proof.
  assert (G : forall l, (forall m, (l < m)%nat -> legd x l m = 0) /\ (forall m, (S l < m)%nat -> legd x (S l) m = 0)).
  { clear l m. induction l as [|l [A B]].
    - split; intros m Hm; [rewrite legd_0|rewrite legd_1]; destruct (Nat.eqb_spec m 0); try lia; auto. destruct (Nat.eqb_spec m 1); [lia|auto].
    - split; [exact B|]. intros m Hm. rewrite legd_SS, (B m), (B (m - 1)%nat), (A m) by lia. unfold Rdiv. ring. }
  apply (proj1 (G l)).
Qed.

(** ** Ladder identities *)
Definition DD x l := forall m, legd x (S l) (S m) = x * legd x l (S m) + (INR l + INR m + 1) * legd x l m.
Definition EE x l := forall m, x * legd x (S l) (S m) - legd x l (S m) = (INR l + 1 - INR m) * legd x (S l) m.
Definition CC x l := forall m, legd x (S (S l)) (S m) - legd x l (S m) = (2 * INR l + 3) * legd x (S l) m.
Definition TT x l := forall m, (INR l + 2 - INR m) * legd x (S (S l)) m = (2 * INR l + 3) * x * legd x (S l) m - (INR l + 1 + INR m) * legd x l m.
Lemma DE_C x l : DD x (S l) -> EE x l -> CC x l.
Proof. intros D E m. rewrite (D m). pose proof (E m). rewrite S_INR. lra. Qed.
Lemma C_T x l : CC x l -> TT x l.
Proof.
  intros C m. pose proof (legd_rec x l m) as R0. destruct m as [|m]; [change (INR 0) with 0 in *; lra|].
  pose proof (C m) as Cm. cbn [Nat.sub] in R0. rewrite Nat.sub_0_r in R0. rewrite S_INR in *. 
  assert (K : (INR m + 1) * (legd x (S (S l)) (S m) - legd x l (S m)) = (INR m + 1) * ((2 * INR l + 3) * legd x (S l) m)) by (now rewrite Cm). lra.
Qed.
Lemma legd_DE x l : DD x l /\ EE x l.
Proof.
  induction l as [|l [D E]].
  - split; intros m; rewrite !legd_0, !legd_1; destruct m as [|[|m]]; cbn [Nat.eqb]; rewrite ?S_INR; change (INR 0) with 0; ring.
  - assert (D' : DD x (S l)).
    { intros m. pose proof (legd_rec x l (S m)) as R0. cbn [Nat.sub] in R0. rewrite Nat.sub_0_r in R0. pose proof (E m) as Em. rewrite !S_INR in *. pose proof (pos_INR l).
      apply (Rmult_eq_reg_l (INR l + 2)); [|lra]. rewrite R0. 
      replace (legd x l (S m)) with (x * legd x (S l) (S m) - (INR l + 1 - INR m) * legd x (S l) m) by lra. ring. }
    split; [exact D'|]. pose proof (C_T x l (DE_C x l D' E)) as T. intros m. pose proof (T m) as Tm. pose proof (D' m) as Dm. pose proof (D m) as D0. pose proof (E m) as Em. rewrite !S_INR in *.
    replace (INR l + 1 + 1 - INR m) with (INR l + 2 - INR m) by ring. rewrite Tm, Dm. 
    assert (K : x * (x * legd x (S l) (S m)) = x * (legd x l (S m) + (INR l + 1 - INR m) * legd x (S l) m)) by (f_equal; lra).
    replace (x * (x * legd x (S l) (S m) + (INR l + 1 + INR m + 1) * legd x (S l) m)) with (x * (x * legd x (S l) (S m)) + (INR l + 1 + INR m + 1) * (x * legd x (S l) m)) by ring.
    rewrite K. rewrite Rmult_plus_distr_l. assert (x * legd x l (S m) = legd x (S l) (S m) - (INR l + INR m + 1) * legd x l m) by lra. rewrite H. ring.
Qed.
Lemma legd_C x l : CC x l. Proof. apply DE_C; apply legd_DE. Qed.
Lemma legd_T x l : TT x l. Proof. apply C_T, legd_C. Qed.
Lemma legd_F x l m : (1 - x * x) * legd x l (S m) = (INR l + INR m + 1) * x * legd x l m - (INR l + 1 - INR m) * legd x (S l) m.
Proof. destruct (legd_DE x l) as [D E]. rewrite <- (E m), (D m). ring. Qed.
(** multiplication by x, by the transverse component (raising and lowering m), l = 0 included with P_{-1} = 0. *)
Definition legp (x : R) (l m : nat) : R := match l with O => 0 | S k => legd x k m end.
Lemma leg_x x l m : (2 * INR l + 1) * (x * legd x l m) = (INR l - INR m + 1) * legd x (S l) m + (INR l + INR m) * legp x l m.
Proof.
  destruct l as [|l]; cbn [legp].
  - rewrite legd_0, legd_1. destruct m as [|[|m]]; cbn [Nat.eqb]; rewrite ?S_INR; change (INR 0) with 0; ring.
  - pose proof (legd_T x l m). rewrite S_INR. lra.
Qed.
Lemma leg_up x l m : (2 * INR l + 1) * legd x l m = legd x (S l) (S m) - legp x l (S m).
Proof.
  destruct l as [|l]; cbn [legp].
  - rewrite legd_0, legd_1. destruct m as [|m]; cbn [Nat.eqb]; change (INR 0) with 0; ring.
  - pose proof (legd_C x l m). rewrite S_INR. lra.
Qed.
Lemma leg_down x l m : (2 * INR l + 1) * ((1 - x * x) * legd x l (S m)) = (INR l + INR m + 1) * (INR l + INR m) * legp x l m - (INR l - INR m) * (INR l - INR m + 1) * legd x (S l) m.
Proof.
  rewrite legd_F. pose proof (leg_x x l m) as T.
  replace ((2 * INR l + 1) * ((INR l + INR m + 1) * x * legd x l m - (INR l + 1 - INR m) * legd x (S l) m))
    with ((INR l + INR m + 1) * ((2 * INR l + 1) * (x * legd x l m)) - (2 * INR l + 1) * (INR l + 1 - INR m) * legd x (S l) m) by ring.
  rewrite T. ring.
Qed.
(** Legendre's equation. *)
Lemma leg_ode x l m : (1 - x * x) * legd x l (S (S m)) - 2 * (INR m + 1) * (x * legd x l (S m)) + (INR l + INR m + 1) * (INR l - INR m) * legd x l m = 0.
Proof. rewrite legd_F. destruct (legd_DE x l) as [D _]. rewrite (D m), S_INR. ring. Qed.
Lemma leg_ode0 x l : (1 - x * x) * legd x l 1 = (INR l + 1) * (x * legd x l 0 - legd x (S l) 0).
Proof. rewrite legd_F. change (INR 0) with 0. ring. Qed.
