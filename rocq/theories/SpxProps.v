(** Property C86: the right-hand side of the Hermite-Fourier Vlasov-Maxwell system. *)
From Coq Require Import Reals Lra Lia ZArith List Bool Psatz.
From Verif Require Import Spectrax RSum Pic PicProofs PicFourier Dft HPProps.
Local Open Scope R_scope.
Local Open Scope cx_scope.

(* ------------------------------------------------------------------------------------------------ *)
(** * Independent specification: velocity and velocity derivative in the Hermite basis *)
(** Coefficients outside the truncated array are zero. *)
Definition in_dims (d : dims) (p m n : nat) : Prop := (p < d_p d)%nat /\ (m < d_m d)%nat /\ (n < d_n d)%nat.
Definition ext (d : dims) (C : hco) : hco := fun p m n =>
  if ((p <? d_p d) && (m <? d_m d) && (n <? d_n d))%nat%bool then C p m n else c0.
(** Multiplication of the distribution by the velocity component i: v = u + alpha xi with
    xi h_n = (sqrt(n+1) h_{n+1} + sqrt(n) h_{n-1}) / sqrt 2. *)
Definition vel (a u : nat -> R) (i : nat) (C : hco) : hco := fun p m n =>
  u i *c C p m n +c (a i / sqrt 2) *c
    match i with
    | O => sqrt (INR n + 1) *c C p m (n + 1)%nat +c sqrt (INR n) *c C p m (n - 1)%nat
    | 1%nat => sqrt (INR m + 1) *c C p (m + 1)%nat n +c sqrt (INR m) *c C p (m - 1)%nat n
    | _ => sqrt (INR p + 1) *c C (p + 1)%nat m n +c sqrt (INR p) *c C (p - 1)%nat m n
    end.
(** Minus the derivative with respect to the velocity component i: -d/dv (h_n w) = sqrt(2 (n+1)) / alpha h_{n+1} w. *)
Definition dvel (a : nat -> R) (i : nat) (C : hco) : hco := fun p m n =>
  (sqrt 2 / a i) *c
    match i with
    | O => sqrt (INR n) *c C p m (n - 1)%nat
    | 1%nat => sqrt (INR m) *c C p (m - 1)%nat n
    | _ => sqrt (INR p) *c C (p - 1)%nat m n
    end.
(** -d/dv . ((E + v x B) f). *)
Definition force_spec (a u : nat -> R) (E B : nat -> cplx) (C : hco) : hco := fun p m n =>
  cmul (E 0%nat) (dvel a 0 C p m n) +c cmul (E 1%nat) (dvel a 1 C p m n) +c cmul (E 2%nat) (dvel a 2 C p m n)
  +c cmul (B 0%nat) (dvel a 1 (vel a u 2 C) p m n -c dvel a 2 (vel a u 1 C) p m n)
  +c cmul (B 1%nat) (dvel a 2 (vel a u 0 C) p m n -c dvel a 0 (vel a u 2 C) p m n)
  +c cmul (B 2%nat) (dvel a 0 (vel a u 1 C) p m n -c dvel a 1 (vel a u 0 C) p m n).

Lemma s2_pos : 0 < sqrt 2. Proof. apply sqrt_lt_R0. lra. Qed.
Lemma s2_sq : sqrt 2 * sqrt 2 = 2. Proof. apply sqrt_sqrt. lra. Qed.
Lemma ext_in d C p m n : in_dims d p m n -> ext d C p m n = C p m n.
Proof. intros (A & B & E). unfold ext. rewrite !(proj2 (Nat.ltb_lt _ _)) by assumption. reflexivity. Qed.
Lemma shift_ext d dp dm dn C p m n p' m' n' : (Z.of_nat p + dp = Z.of_nat p')%Z -> (Z.of_nat m + dm = Z.of_nat m')%Z -> (Z.of_nat n + dn = Z.of_nat n')%Z ->
  shiftm d dp dm dn C p m n = ext d C p' m' n'.
Proof.
  intros A B E. unfold shiftm, ext, inb. rewrite A, B, E, !Nat2Z.id.
  replace (Z.of_nat p' <? Z.of_nat (d_p d))%Z with (p' <? d_p d)%nat by (destruct (Nat.ltb_spec p' (d_p d)), (Z.ltb_spec (Z.of_nat p') (Z.of_nat (d_p d))); lia || reflexivity).
  replace (Z.of_nat m' <? Z.of_nat (d_m d))%Z with (m' <? d_m d)%nat by (destruct (Nat.ltb_spec m' (d_m d)), (Z.ltb_spec (Z.of_nat m') (Z.of_nat (d_m d))); lia || reflexivity).
  replace (Z.of_nat n' <? Z.of_nat (d_n d))%Z with (n' <? d_n d)%nat by (destruct (Nat.ltb_spec n' (d_n d)), (Z.ltb_spec (Z.of_nat n') (Z.of_nat (d_n d))); lia || reflexivity).
  rewrite !(proj2 (Z.leb_le 0 _)) by lia. reflexivity.
Qed.
Lemma shift_neg d dp dm dn C p m n : (Z.of_nat p + dp < 0 \/ Z.of_nat m + dm < 0 \/ Z.of_nat n + dn < 0)%Z -> shiftm d dp dm dn C p m n = c0.
Proof.
  intros H. unfold shiftm, inb.
  destruct (Z.leb_spec 0 (Z.of_nat p + dp)), (Z.leb_spec 0 (Z.of_nat m + dm)), (Z.leb_spec 0 (Z.of_nat n + dn)); try lia;
  cbn; rewrite ?andb_false_r; reflexivity.
Qed.
(** Every shift of a coefficient that carries the factor sqrt of the lowered index. *)
Ltac shifts := repeat first
  [ rewrite shift_neg by lia
  | match goal with |- context [shiftm ?d ?dp ?dm ?dn ?C ?p ?m ?n] =>
      let p' := eval cbn in (Z.to_nat (Z.of_nat 0 + 0)) in
      rewrite (shift_ext d dp dm dn C p m n (Z.to_nat (Z.of_nat p + dp)) (Z.to_nat (Z.of_nat m + dm)) (Z.to_nat (Z.of_nat n + dn))) by lia end ].
Lemma tn0 i : Z.to_nat (Z.of_nat i + 0) = i. Proof. lia. Qed.
Lemma tn1 i : Z.to_nat (Z.of_nat i + 1) = (i + 1)%nat. Proof. lia. Qed.
Lemma tnm i : Z.to_nat (Z.of_nat (S i) + -1) = i. Proof. lia. Qed.
Lemma sm1 i : (S i - 1)%nat = i. Proof. lia. Qed.
Lemma sqm0 : sqrt (INR 0) = 0. Proof. exact sqrt_0. Qed.
Lemma sz0 C : 0 *c C = c0. Proof. apply cscal_0. Qed.
Ltac cx := unfold cmul, csub, cneg, cadd, cscal, c0, cI, c1; cbn [fst snd]; f_equal.
Ltac prep := unfold sqm, sqp; shifts; rewrite ?tn0, ?tn1, ?tnm, ?sm1, ?sqm0, ?Nat.add_1_r.
Lemma aux_x_spec d a u C p m n : a 1%nat <> 0 -> a 2%nat <> 0 ->
  aux_x d a u C p m n = dvel a 1 (vel a u 2 (ext d C)) p m n -c dvel a 2 (vel a u 1 (ext d C)) p m n.
Proof.
  intros A B. pose proof s2_pos as S. assert (sqrt 2 <> 0) as S' by lra. unfold aux_x, dvel, vel.
  destruct p as [|p], m as [|m]; prep; cbn [Nat.add Nat.sub]; rewrite ?sm1; 
  apply cplx_eq; unfold csub, cadd, cmul, cneg, cscal, conj, c0, c1, cI; cbn [fst snd]; field; auto.
Qed.
Lemma aux_y_spec d a u C p m n : a 0%nat <> 0 -> a 2%nat <> 0 ->
  aux_y d a u C p m n = dvel a 2 (vel a u 0 (ext d C)) p m n -c dvel a 0 (vel a u 2 (ext d C)) p m n.
Proof.
  intros A B. pose proof s2_pos as S. assert (sqrt 2 <> 0) as S' by lra. unfold aux_y, dvel, vel.
  destruct p as [|p], n as [|n]; prep; cbn [Nat.add Nat.sub]; rewrite ?sm1;
  apply cplx_eq; unfold csub, cadd, cmul, cneg, cscal, conj, c0, c1, cI; cbn [fst snd]; field; auto.
Qed.
Lemma aux_z_spec d a u C p m n : a 0%nat <> 0 -> a 1%nat <> 0 ->
  aux_z d a u C p m n = dvel a 0 (vel a u 1 (ext d C)) p m n -c dvel a 1 (vel a u 0 (ext d C)) p m n.
Proof.
  intros A B. pose proof s2_pos as S. assert (sqrt 2 <> 0) as S' by lra. unfold aux_z, dvel, vel.
  destruct m as [|m], n as [|n]; prep; cbn [Nat.add Nat.sub]; rewrite ?sm1;
  apply cplx_eq; unfold csub, cadd, cmul, cneg, cscal, conj, c0, c1, cI; cbn [fst snd]; field; auto.
Qed.
Definition ok_al (a : nat -> R) : Prop := a 0%nat <> 0 /\ a 1%nat <> 0 /\ a 2%nat <> 0.

(** The Lorentz term at each point of space is exactly -d/dv . ((E + v x B) f) of the truncated expansion, for every
    number of modes, drift and anisotropic thermal speed. *)
Theorem C86_lorentz_force : forall d a u F C p m n, ok_al a ->
  lor d a u F C p m n = force_spec a u F (fun i => F (3 + i)%nat) (ext d C) p m n.
Proof.
  intros d a u F C p m n (A0 & A1 & A2). unfold lor, force_spec. rewrite aux_x_spec, aux_y_spec, aux_z_spec by assumption.
  f_equal. f_equal. f_equal. unfold dvel. destruct p as [|p], m as [|m], n as [|n]; prep; cbn [Nat.add Nat.sub]; rewrite ?sm1;
  apply cplx_eq; unfold csub, cadd, cmul, cneg, cscal, conj, c0, c1, cI; cbn [fst snd]; field; auto.
Qed.
Print Assumptions C86_lorentz_force.
Example C86_lorentz_case : exists d a u C F, ok_al a /\ in_dims d 0 0 1 /\ lor d a u F C 0%nat 0%nat 1%nat = (sqrt 2, 0).
Proof.
  exists {| d_n := 2; d_m := 1; d_p := 1 |}, (fun _ => 1), (fun _ => 0), (fun _ _ n => match n with O => c1 | _ => c0 end),
    (fun i => match i with O => c1 | _ => c0 end).
  split; [unfold ok_al; repeat split; lra|]. split; [unfold in_dims; cbn; lia|].
  rewrite C86_lorentz_force by (unfold ok_al; repeat split; lra). unfold force_spec, dvel, vel, ext. cbn [d_n d_m d_p Nat.ltb Nat.leb Nat.sub Nat.add andb].
  rewrite ?sqm0. change (INR 1) with 1. rewrite sqrt_1. pose proof s2_pos. creal; field; lra.
Qed.
(** The basis functions obey the two rules of the specification: h_n = H_n / sqrt(2^n n!), weight exp(-x^2). *)
Lemma hermite_pos_deriv n : forall x, derivable_pt_lim (hermite (S n)) x (2 * INR (S n) * hermite n x).
Proof.
  enough (H : (forall x, derivable_pt_lim (hermite (S n)) x (2 * INR (S n) * hermite n x)) /\
              (forall x, derivable_pt_lim (hermite (S (S n))) x (2 * INR (S (S n)) * hermite (S n) x))) by apply H.
  assert (D1 : forall x, derivable_pt_lim (hermite 1) x (2 * INR 1 * hermite 0 x)).
  { intros x. apply derive_ext with (f := fun t => 2 * t); [intros; reflexivity|]. rewrite hermite_0. change (INR 1) with 1.
    replace (2 * 1 * 1) with (2 * 1) by ring. apply derivable_pt_lim_scal, derivable_pt_lim_id. }
  assert (DS : forall k x (d1 d2 : R), derivable_pt_lim (hermite (S k)) x d1 -> derivable_pt_lim (hermite k) x d2 ->
      derivable_pt_lim (hermite (S (S k))) x (2 * hermite (S k) x + 2 * x * d1 - 2 * INR (S k) * d2)).
  { intros k x d1 d2 P Q. apply derive_ext with (f := fun t => (2 * t) * hermite (S k) t - 2 * INR (S k) * hermite k t).
    - intros t. rewrite hermite_SS. reflexivity.
    - apply derivable_pt_lim_minus; [|apply derivable_pt_lim_scal, Q].
      replace (2 * hermite (S k) x + 2 * x * d1) with ((2 * 1) * hermite (S k) x + (2 * x) * d1) by ring.
      apply derivable_pt_lim_mult with (f1 := fun t => 2 * t); [apply derivable_pt_lim_scal, derivable_pt_lim_id|exact P]. }
  induction n as [|n (I1 & I2)].
  - split; [exact D1|]. intros x. replace (2 * INR 2 * hermite 1 x) with (2 * hermite 1 x + 2 * x * (2 * INR 1 * hermite 0 x) - 2 * INR 1 * 0).
    + apply DS; [apply D1|]. apply derive_ext with (f := fun _ => 1); [reflexivity|apply derivable_pt_lim_const].
    + rewrite hermite_0, hermite_1. cbn. ring.
  - split; [exact I2|]. intros x.
    replace (2 * INR (S (S (S n))) * hermite (S (S n)) x) with (2 * hermite (S (S n)) x + 2 * x * (2 * INR (S (S n)) * hermite (S n) x) - 2 * INR (S (S n)) * (2 * INR (S n) * hermite n x)).
    + apply DS; [apply I2|apply I1].
    + rewrite (hermite_SS n), (S_INR (S (S n))). ring.
Qed.
Theorem C86_basis_rules : forall n x,
  x * hnorm n x = (sqrt (INR n + 1) * hnorm (n + 1) x + sqrt (INR n) * hnorm (n - 1) x) / sqrt 2 /\
  derivable_pt_lim (fun t => hnorm n t * exp (- (t * t))) x (- (sqrt 2 * sqrt (INR n + 1)) * (hnorm (n + 1) x * exp (- (x * x)))).
Proof.
  intros n x. pose proof s2_pos as S2. split.
  - assert (Q : forall k, sqrt ((INR k + 1) / 2) = sqrt (INR k + 1) / sqrt 2) by (intros; rewrite sqrt_div_alt by lra; reflexivity).
    destruct n as [|n].
    + rewrite hnorm_0_mult, Q. cbn [Nat.add Nat.sub]. change (INR 0) with 0. rewrite sqrt_0. field. lra.
    + rewrite hnorm_mult, !Q, sm1, Nat.add_1_r. rewrite <- (S_INR n). field. lra.
  - rewrite Nat.add_1_r.
    apply derive_ext with (f := fun t => / sqrt (hw n) * (hermite n t * exp (- (t * t)))); [intros; unfold hnorm, hw; unfold Rdiv; ring|].
    replace (- (sqrt 2 * sqrt (INR n + 1)) * (hnorm (S n) x * exp (- (x * x)))) with (/ sqrt (hw n) * (- hermite (S n) x * exp (- (x * x)))).
    2:{ unfold hnorm. fold (hw (S n)). rewrite sqrt_hw_S, S_INR, (sqrt_mult 2 (INR n + 1)) by (pose proof (pos_INR n); lra).
        pose proof (sqrt_hw_pos n). assert (0 < sqrt (INR n + 1)) by (apply sqrt_lt_R0; pose proof (pos_INR n); lra). field. lra. }
    apply derivable_pt_lim_scal.
    assert (E : derivable_pt_lim (fun t => exp (- (t * t))) x (exp (- (x * x)) * (- (1 * x + x * 1)))).
    { apply derivable_pt_lim_comp with (f1 := fun t => - (t * t)); [|apply derivable_pt_lim_exp].
      apply derivable_pt_lim_opp. apply derivable_pt_lim_mult with (f1 := fun t => t) (f2 := fun t => t); apply derivable_pt_lim_id. }
    assert (P : derivable_pt_lim (hermite n) x (2 * INR n * hermite (n - 1) x)).
    { destruct n as [|n]; [|rewrite sm1; apply hermite_pos_deriv]. change (INR 0) with 0. replace (2 * 0 * hermite (0 - 1) x) with 0 by ring.
      apply derive_ext with (f := fun _ => 1); [reflexivity|apply derivable_pt_lim_const]. }
    replace (- hermite (S n) x * exp (- (x * x))) with (2 * INR n * hermite (n - 1) x * exp (- (x * x)) + hermite n x * (exp (- (x * x)) * (- (1 * x + x * 1)))).
    2:{ destruct n as [|n]; [cbn [Nat.sub]; change (INR 0) with 0; rewrite hermite_0, hermite_1; ring|]. rewrite sm1, hermite_SS. ring. }
    exact (derivable_pt_lim_mult (hermite n) (fun t => exp (- (t * t))) x _ _ P E).
Qed.
Print Assumptions C86_basis_rules.

(* ------------------------------------------------------------------------------------------------ *)
(** * Free streaming and velocity moments *)
(** Free streaming is -i k . v applied to the truncated expansion. *)
Theorem C86_streaming : forall d a u ks C p m n, ok_al a -> in_dims d p m n ->
  stream_rhs d a u ks C p m n =
    cneg (cmul cI (ks 0%nat *c vel a u 0 (ext d C) p m n +c ks 1%nat *c vel a u 1 (ext d C) p m n +c ks 2%nat *c vel a u 2 (ext d C) p m n)).
Proof.
  intros d a u ks C p m n (A0 & A1 & A2) I. pose proof s2_pos as S2. assert (S' : sqrt 2 <> 0) by lra. unfold stream_rhs, vel.
  rewrite (ext_in d C p m n I). clear I.
  destruct p as [|p], m as [|m], n as [|n]; prep; cbn [Nat.add Nat.sub]; rewrite ?sm1;
  apply cplx_eq; unfold csub, cadd, cmul, cneg, cscal, conj, c0, c1, cI; cbn [fst snd]; field; auto.
Qed.
Print Assumptions C86_streaming.

(** Moments of one species at one place: the number density and the particle flux. *)
Definition vol3 (a : nat -> R) : R := a 0%nat * a 1%nat * a 2%nat.
Definition dens (a : nat -> R) (C : hco) : cplx := vol3 a *c C 0%nat 0%nat 0%nat.
Definition flux (d : dims) (a u : nat -> R) (C : hco) (i : nat) : cplx := vol3 a *c vel a u i (ext d C) 0%nat 0%nat 0%nat.
Definition ok_dims (d : dims) : Prop := (0 < d_n d)%nat /\ (0 < d_m d)%nat /\ (0 < d_p d)%nat.
(** The current the code uses in Ampere's law is charge times that flux. *)
Theorem C86_current_is_flux : forall d q a u C i, (i < 3)%nat -> ok_dims d -> current_s d q a u C i = q *c flux d a u C i.
Proof.
  intros d q a u C i I (D0 & D1 & D2). pose proof s2_pos as S2. unfold current_s, flux, vel, vol3, ext.
  rewrite !(proj2 (Nat.ltb_lt 0 _)) by assumption.
  destruct i as [|[|[|i]]]; try lia; cbn [andb Nat.add Nat.sub]; rewrite !sqm0, (Rplus_comm (INR 0)); change (1 + INR 0) with (1 + 0); rewrite Rplus_0_r, sqrt_1.
  - destruct (1 <? d_n d)%nat; creal; field; lra.
  - rewrite ?andb_true_r. destruct (1 <? d_m d)%nat; creal; field; lra.
  - rewrite ?andb_true_r. destruct (1 <? d_p d)%nat; creal; field; lra.
Qed.
Print Assumptions C86_current_is_flux.
(** The Lorentz force creates no particles, transfers momentum at the rate n E + flux x B, and only E does work. *)
Definition modes (d : dims) (i : nat) : nat := match i with O => d_n d | 1%nat => d_m d | _ => d_p d end.
Definition cross2 (v w : nat -> cplx) (i : nat) : cplx :=
  match i with
  | O => cmul (v 1%nat) (w 2%nat) -c cmul (v 2%nat) (w 1%nat)
  | 1%nat => cmul (v 2%nat) (w 0%nat) -c cmul (v 0%nat) (w 2%nat)
  | _ => cmul (v 0%nat) (w 1%nat) -c cmul (v 1%nat) (w 0%nat)
  end.
(** Twice the kinetic energy in direction i (per unit mass): the moment of v_i^2. *)
Definition vv (d : dims) (a u : nat -> R) (C : hco) (i j : nat) : cplx := vol3 a *c vel a u i (vel a u j (ext d C)) 0%nat 0%nat 0%nat.

Ltac ltbs := repeat match goal with |- context [(?k <? ?N)%nat] => rewrite (proj2 (Nat.ltb_lt k N)) by lia end.
Lemma ext_at d C p m n : ok_dims d -> ext d C p m n = if ((p <? d_p d) && (m <? d_m d) && (n <? d_n d))%nat%bool then C p m n else c0.
Proof. reflexivity. Qed.
Lemma sq01 : sqrt (INR 0 + 1) = 1. Proof. change (INR 0) with 0. rewrite Rplus_0_l. apply sqrt_1. Qed.
Lemma sq1 : sqrt (INR 1) = 1. Proof. apply sqrt_1. Qed.
Lemma sq11 : sqrt (INR 1 + 1) = sqrt 2. Proof. reflexivity. Qed.
Lemma sq2 : sqrt (INR 2) = sqrt 2. Proof. reflexivity. Qed.
Lemma lor_000 d a u F C : ok_al a -> lor d a u F C 0%nat 0%nat 0%nat = c0.
Proof. intros A. rewrite C86_lorentz_force by assumption. unfold force_spec, dvel. rewrite sqm0. creal. Qed.
Lemma vel0_000 a u Y : vel a u 0 Y 0%nat 0%nat 0%nat = u 0%nat *c Y 0%nat 0%nat 0%nat +c (a 0%nat / sqrt 2) *c Y 0%nat 0%nat 1%nat.
Proof. unfold vel. cbn [Nat.add Nat.sub]. rewrite sqm0, sq01. creal. Qed.
Lemma vel1_000 a u Y : vel a u 1 Y 0%nat 0%nat 0%nat = u 1%nat *c Y 0%nat 0%nat 0%nat +c (a 1%nat / sqrt 2) *c Y 0%nat 1%nat 0%nat.
Proof. unfold vel. cbn [Nat.add Nat.sub]. rewrite sqm0, sq01. creal. Qed.
Lemma vel2_000 a u Y : vel a u 2 Y 0%nat 0%nat 0%nat = u 2%nat *c Y 0%nat 0%nat 0%nat +c (a 2%nat / sqrt 2) *c Y 1%nat 0%nat 0%nat.
Proof. unfold vel. cbn [Nat.add Nat.sub]. rewrite sqm0, sq01. creal. Qed.
Lemma vel0_001 a u Y : vel a u 0 Y 0%nat 0%nat 1%nat = u 0%nat *c Y 0%nat 0%nat 1%nat +c (a 0%nat / sqrt 2) *c (sqrt 2 *c Y 0%nat 0%nat 2%nat +c Y 0%nat 0%nat 0%nat).
Proof. unfold vel. cbn [Nat.add Nat.sub]. rewrite sq1, sq11. creal. Qed.
Lemma vel1_010 a u Y : vel a u 1 Y 0%nat 1%nat 0%nat = u 1%nat *c Y 0%nat 1%nat 0%nat +c (a 1%nat / sqrt 2) *c (sqrt 2 *c Y 0%nat 2%nat 0%nat +c Y 0%nat 0%nat 0%nat).
Proof. unfold vel. cbn [Nat.add Nat.sub]. rewrite sq1, sq11. creal. Qed.
Lemma vel2_100 a u Y : vel a u 2 Y 1%nat 0%nat 0%nat = u 2%nat *c Y 1%nat 0%nat 0%nat +c (a 2%nat / sqrt 2) *c (sqrt 2 *c Y 2%nat 0%nat 0%nat +c Y 0%nat 0%nat 0%nat).
Proof. unfold vel. cbn [Nat.add Nat.sub]. rewrite sq1, sq11. creal. Qed.
Lemma mom_lhs vol ui ai L1 Q0 : ai <> 0 -> L1 = (sqrt 2 / ai) *c Q0 -> vol *c (ui *c c0 +c (ai / sqrt 2) *c L1) = vol *c Q0.
Proof. intros A ->. pose proof s2_pos as S2. assert (S' : sqrt 2 <> 0) by lra. apply cplx_eq; unfold cadd, cscal, c0; cbn [fst snd]; field; auto. Qed.
Lemma mom_rhs vol (E B1 B2 x0 y0 z0 : cplx) :
  cmul E (vol *c x0) +c (cmul (vol *c y0) B2 -c cmul (vol *c z0) B1) = vol *c (cmul E x0 +c cmul B2 y0 -c cmul B1 z0).
Proof. apply cplx_eq; unfold csub, cadd, cmul, cneg, cscal; cbn [fst snd]; ring. Qed.
Ltac lorz := rewrite !C86_lorentz_force by assumption; unfold force_spec, dvel; cbn [Nat.add Nat.sub]; rewrite ?sqm0, ?sq1, ?sq2;
    repeat match goal with |- context [vel ?a ?u ?j ?X ?p ?m ?n] => let w := fresh "w" in generalize (vel a u j X p m n); intros w end;
    match goal with |- context [sqrt 2 / ?a 0%nat] => generalize (sqrt 2 / a 0%nat) (sqrt 2 / a 1%nat) (sqrt 2 / a 2%nat) end; intros; apply cplx_eq; unfold csub, cadd, cmul, cneg, cscal, c0; cbn [fst snd]; ring.
Theorem C86_force_moments : forall d a u F C, ok_al a -> ok_dims d ->
  dens a (lor d a u F C) = c0 /\
  (forall i, (i < 3)%nat -> (2 <= modes d i)%nat ->
     flux d a u (lor d a u F C) i = cmul (F i) (dens a C) +c cross2 (flux d a u C) (fun j => F (3 + j)%nat) i).
Proof.
  intros d a u F C A D. split; [unfold dens; rewrite lor_000 by assumption; creal|].
  intros i I M. pose proof A as (A0 & A1 & A2). pose proof D as (D0 & D1 & D2).
  assert (L0 : ext d (lor d a u F C) 0%nat 0%nat 0%nat = c0) by (rewrite ext_in by (unfold in_dims; lia); apply lor_000; assumption).
  assert (C0 : dens a C = vol3 a *c ext d C 0%nat 0%nat 0%nat) by (unfold dens; rewrite ext_in by (unfold in_dims; lia); reflexivity). rewrite C0.
  destruct i as [|[|[|i]]]; [| | |lia]; cbn [modes] in M; unfold cross2, flux; rewrite mom_rhs.
  - rewrite vel0_000, L0, (ext_in d (lor d a u F C) 0 0 1) by (unfold in_dims; lia). apply mom_lhs; [assumption|lorz].
  - rewrite vel1_000, L0, (ext_in d (lor d a u F C) 0 1 0) by (unfold in_dims; lia). apply mom_lhs; [assumption|lorz].
  - rewrite vel2_000, L0, (ext_in d (lor d a u F C) 1 0 0) by (unfold in_dims; lia). apply mom_lhs; [assumption|lorz].
Qed.
Print Assumptions C86_force_moments.
(** Work: with three modes in direction i, d/dt of the v_i^2 moment is 2 (E_i flux_i + second moments crossed with B). *)
Lemma vel_comm a u C i j : (i < 3)%nat -> (j < 3)%nat -> i <> j -> vel a u i (vel a u j C) 0%nat 0%nat 0%nat = vel a u j (vel a u i C) 0%nat 0%nat 0%nat.
Proof.
  intros. pose proof s2_pos. destruct i as [|[|[|i]]], j as [|[|[|j]]]; try lia; unfold vel; cbn [Nat.add Nat.sub]; rewrite ?sqm0; creal; field; lra.
Qed.
Lemma work_lhs vol ui ai L1 L2 Q0 Q1 : ai <> 0 -> L1 = (sqrt 2 / ai) *c Q0 -> L2 = (sqrt 2 / ai) *c (sqrt 2 *c Q1) ->
  vol *c (ui *c (ui *c c0 +c (ai / sqrt 2) *c L1) +c (ai / sqrt 2) *c (ui *c L1 +c (ai / sqrt 2) *c (sqrt 2 *c L2 +c c0)))
  = 2 *c (vol *c (ui *c Q0 +c (ai / sqrt 2) *c Q1)).
Proof.
  intros A -> ->. pose proof s2_pos as S2. pose proof s2_sq as SS. assert (S' : sqrt 2 <> 0) by lra.
  apply cplx_eq; unfold cadd, cscal, c0; cbn [fst snd]; field [SS]; auto.
Qed.
Lemma work_rhs vol ui r (E B1 B2 x0 x1 y0 y1 z0 z1 : cplx) :
  2 *c (cmul E (vol *c (ui *c x0 +c r *c x1)) +c (cmul (vol *c (ui *c y0 +c r *c y1)) B2 -c cmul (vol *c (ui *c z0 +c r *c z1)) B1))
  = 2 *c (vol *c (ui *c (cmul E x0 +c cmul B2 y0 -c cmul B1 z0) +c r *c (cmul E x1 +c cmul B2 y1 -c cmul B1 z1))).
Proof. apply cplx_eq; unfold csub, cadd, cmul, cneg, cscal; cbn [fst snd]; ring. Qed.
Theorem C86_work : forall d a u F C i, ok_al a -> ok_dims d -> (i < 3)%nat -> (3 <= modes d i)%nat ->
  vv d a u (lor d a u F C) i i = 2 *c (cmul (F i) (flux d a u C i) +c cross2 (fun j => vv d a u C i j) (fun j => F (3 + j)%nat) i).
Proof.
  intros d a u F C i A D I M. pose proof A as (A0 & A1 & A2). pose proof D as (D0 & D1 & D2).
  assert (L0 : ext d (lor d a u F C) 0%nat 0%nat 0%nat = c0) by (rewrite ext_in by (unfold in_dims; lia); apply lor_000; assumption).
  assert (G0 : forall X, dvel a 0 X 0%nat 0%nat 0%nat = c0 /\ dvel a 1 X 0%nat 0%nat 0%nat = c0 /\ dvel a 2 X 0%nat 0%nat 0%nat = c0) by (intros; unfold dvel; rewrite !sqm0; repeat split; creal).
  destruct i as [|[|[|i]]]; [| | |lia]; cbn [modes] in M; unfold vv, cross2, flux.
  - rewrite !vel0_000, vel0_001, L0, work_rhs.
    rewrite (ext_in d (lor d a u F C) 0 0 1), (ext_in d (lor d a u F C) 0 0 2) by (unfold in_dims; lia).
    apply work_lhs; [assumption| |]; rewrite !C86_lorentz_force by assumption; unfold force_spec, dvel; cbn [Nat.add Nat.sub]; rewrite ?sqm0, ?sq1, ?sq2;
    repeat match goal with |- context [vel a u ?j ?X ?p ?m ?n] => let w := fresh "w" in generalize (vel a u j X p m n); intros w end;
    generalize (sqrt 2 / a 0%nat) (sqrt 2 / a 1%nat) (sqrt 2 / a 2%nat); intros; apply cplx_eq; unfold csub, cadd, cmul, cneg, cscal, c0; cbn [fst snd]; ring.
  - rewrite !vel1_000, vel1_010, L0, work_rhs.
    rewrite (ext_in d (lor d a u F C) 0 1 0), (ext_in d (lor d a u F C) 0 2 0) by (unfold in_dims; lia).
    apply work_lhs; [assumption| |]; rewrite !C86_lorentz_force by assumption; unfold force_spec, dvel; cbn [Nat.add Nat.sub]; rewrite ?sqm0, ?sq1, ?sq2;
    repeat match goal with |- context [vel a u ?j ?X ?p ?m ?n] => let w := fresh "w" in generalize (vel a u j X p m n); intros w end;
    generalize (sqrt 2 / a 0%nat) (sqrt 2 / a 1%nat) (sqrt 2 / a 2%nat); intros; apply cplx_eq; unfold csub, cadd, cmul, cneg, cscal, c0; cbn [fst snd]; ring.
  - rewrite !vel2_000, vel2_100, L0, work_rhs.
    rewrite (ext_in d (lor d a u F C) 1 0 0), (ext_in d (lor d a u F C) 2 0 0) by (unfold in_dims; lia).
    apply work_lhs; [assumption| |]; rewrite !C86_lorentz_force by assumption; unfold force_spec, dvel; cbn [Nat.add Nat.sub]; rewrite ?sqm0, ?sq1, ?sq2;
    repeat match goal with |- context [vel a u ?j ?X ?p ?m ?n] => let w := fresh "w" in generalize (vel a u j X p m n); intros w end;
    generalize (sqrt 2 / a 0%nat) (sqrt 2 / a 1%nat) (sqrt 2 / a 2%nat); intros; apply cplx_eq; unfold csub, cadd, cmul, cneg, cscal, c0; cbn [fst snd]; ring.
Qed.
Print Assumptions C86_work.
Definition kin (d : dims) (a u : nat -> R) (C : hco) : cplx := (1 / 2) *c (vv d a u C 0 0 +c vv d a u C 1 1 +c vv d a u C 2 2).
(** With three modes per direction the magnetic field does no work; in a one-dimensional run (one mode in y and z, no drift there)
    the same holds for the energy in x. *)
Theorem C86_only_E_works : forall d a u F C, ok_al a -> ok_dims d ->
  ((forall i, (i < 3)%nat -> (3 <= modes d i)%nat) ->
     kin d a u (lor d a u F C) = cmul (F 0%nat) (flux d a u C 0) +c cmul (F 1%nat) (flux d a u C 1) +c cmul (F 2%nat) (flux d a u C 2)) /\
  ((3 <= d_n d)%nat -> d_m d = 1%nat -> d_p d = 1%nat -> u 1%nat = 0 -> u 2%nat = 0 ->
     vv d a u (lor d a u F C) 0 0 = 2 *c cmul (F 0%nat) (flux d a u C 0)).
Proof.
  intros d a u F C A D. split.
  - intros M. unfold kin. rewrite !C86_work by (auto; apply M; lia). unfold cross2.
    assert (E : forall i j, (i < 3)%nat -> (j < 3)%nat -> i <> j -> vv d a u C i j = vv d a u C j i) by (intros; unfold vv; f_equal; apply vel_comm; assumption).
    rewrite (E 1%nat 0%nat), (E 2%nat 0%nat), (E 2%nat 1%nat) by lia.
    generalize (flux d a u C 0), (flux d a u C 1), (flux d a u C 2), (vv d a u C 0 1), (vv d a u C 0 2), (vv d a u C 1 2). intros z1 z2 z3 z4 z5 z6.
    cbn [Nat.add]. creal; field.
  - intros M D1 D2 U1 U2. rewrite C86_work by (auto; cbn; lia). unfold cross2.
    assert (Z : forall j, j = 1%nat \/ j = 2%nat -> vv d a u C 0 j = c0).
    { intros j J. unfold vv. rewrite vel0_000. assert (Y : forall n, vel a u j (ext d C) 0%nat 0%nat n = c0).
      { intros n. destruct J as [-> | ->]; unfold vel, ext; rewrite D1, D2, ?U1, ?U2; cbn [Nat.add Nat.sub Nat.ltb Nat.leb andb]; rewrite sqm0; destruct (n <? d_n d)%nat; creal. }
      rewrite !Y. creal. }
    rewrite !Z by auto. creal.
Qed.
Print Assumptions C86_only_E_works.
Example C86_moments_case : exists d a u C F, ok_al a /\ ok_dims d /\ (forall i, (i < 3)%nat -> (3 <= modes d i)%nat) /\
  flux d a u C 0 = (1, 0) /\ kin d a u (lor d a u F C) = (1, 0).
Proof.
  pose (d := {| d_n := 3; d_m := 3; d_p := 3 |}). pose (C := fun _ _ n : nat => match n with 1%nat => (sqrt 2, 0) | _ => c0 end).
  assert (A : ok_al (fun _ => 1)) by (unfold ok_al; repeat split; lra). assert (D : ok_dims d) by (unfold ok_dims; cbn; lia).
  assert (M : forall i, (i < 3)%nat -> (3 <= modes d i)%nat) by (intros [|[|[|i]]] I; cbn; lia).
  assert (Fl : flux d (fun _ => 1) (fun _ => 0) C 0 = (1, 0)).
  { unfold flux. rewrite vel0_000. unfold ext, C, vol3, d. cbn [d_n d_m d_p Nat.ltb Nat.leb andb]. pose proof s2_pos. creal; field; lra. }
  exists d, (fun _ => 1), (fun _ => 0), C, (fun i => match i with O => c1 | _ => c0 end). split; [exact A|]. split; [exact D|]. split; [exact M|]. split; [exact Fl|].
  rewrite (proj1 (C86_only_E_works d _ _ _ C A D) M), Fl. creal.
Qed.
