(** C70: VFP-1D transport, field solve and complete step. *)
From Verif Require Import PyStr RSum Rk VGrid VGridProofs PicProofs DriftDiff DriftDiffProofs3 DriftDiffProps Vfp.
From Coq Require Import FunctionalExtensionality.
Local Open Scope R_scope.

(** ** Specification: what a user measures *)
(** Usable grids: at least one cell, two speeds, positive extents, and the constructor raised no error. *)
Definition usable (g : vgrid) : Prop := (1 <= n_x g)%nat /\ (2 <= n_v g)%nat /\ x_min g < x_max g /\ 0 < v_max g /\ grid_ok g = true.
(** Volume of a cell and area of an edge: slab or spherical shell (divided by 4 pi). *)
Definition vol (g : vgrid) (x : nat) : R := if spherical g then (x_edge g (S x) ^ 3 - x_edge g x ^ 3) / 3 else d_x g.
Definition area (g : vgrid) (x : nat) : R := if spherical g then x_edge g x ^ 2 else 1.
(** Electrons of speed i in the whole box, and all electrons (divided by 4 pi dv). *)
Definition shell (g : vgrid) (y : vix -> R) (i : nat) : R := rsum (n_x g) (fun x => vol g x * y (F0 x i)).
Definition number (g : vgrid) (y : vix -> R) : R := rsum (n_x g) (fun x => vol g x * rsum (n_v g) (fun i => v_at g i ^ 2 * y (F0 x i))).
(** Boundary condition on the anisotropic part. *)
Definition bc (g : vgrid) (y : vix -> R) : Prop :=
  if periodic g then forall i, y (F10 0 i) = y (F10 (n_x g) i) else forall i, y (F10 0 i) = 0 /\ y (F10 (n_x g) i) = 0.

Lemma dx_pos g : usable g -> 0 < d_x g.
Proof. intros (H1 & _ & H3 & _). unfold d_x. apply Rdiv_lt_0_compat; [lra|]. apply lt_0_INR. lia. Qed.
Lemma dv_pos g : usable g -> 0 < d_v g.
Proof. intros (_ & H2 & _ & H4 & _). unfold d_v. apply Rdiv_lt_0_compat; [lra|]. apply lt_0_INR. lia. Qed.
Lemma v_formula g i : usable g -> v_at g i = (INR i + 1 / 2) * d_v g.
Proof.
  intros (_ & H2 & _ & _ & _). unfold v_at, linspace. destruct (Nat.leb_spec (n_v g) 1); [lia|]. unfold d_v.
  rewrite minus_INR by lia. change (INR 1) with 1. assert (2 <= INR (n_v g)) by (replace 2 with (INR 2) by (cbn; lra); now apply le_INR). field. lra.
Qed.
Lemma v_pos g i : usable g -> 0 < v_at g i.
Proof. intros U. rewrite v_formula by exact U. pose proof (dv_pos g U). pose proof (pos_INR i). apply Rmult_lt_0_compat; lra. Qed.
Lemma x_formula g x : usable g -> x_edge g x = x_min g + INR x * d_x g.
Proof.
  intros (H1 & _ & _ & _ & _). unfold x_edge, linspace. destruct (Nat.leb_spec (n_x g + 1) 1); [lia|]. unfold d_x.
  replace (n_x g + 1 - 1)%nat with (n_x g) by lia. assert (INR (n_x g) <> 0) by (apply not_0_INR; lia). field. assumption.
Qed.
Lemma vol_pos g x : usable g -> 0 < vol g x.
Proof.
  intros U. pose proof (dx_pos g U) as D. unfold vol. destruct (spherical g) eqn:S; [|exact D].
  destruct U as (A & B & C & E & G). assert (U : usable g) by (repeat split; assumption).
  unfold grid_ok in G. rewrite S in G. assert (X : 0 <= x_min g).
  { destruct (Rlt_dec (x_min g) 0); [|lra]. rewrite Bool.andb_false_l, Bool.andb_false_r in G. discriminate. }
  rewrite !x_formula by exact U. rewrite S_INR. set (r := x_min g + INR x * d_x g). replace (x_min g + (INR x + 1) * d_x g) with (r + d_x g) by (unfold r; ring).
  assert (0 <= r) by (unfold r; pose proof (pos_INR x); nra).
  replace ((r + d_x g) ^ 3 - r ^ 3) with (d_x g * (3 * r ^ 2 + 3 * r * d_x g + d_x g ^ 2)) by ring.
  apply Rdiv_lt_0_compat; [|lra]. apply Rmult_lt_0_compat; [exact D|]. assert (0 < d_x g ^ 2) by now apply pow_lt. nra.
Qed.
Lemma div_vol g f x : usable g -> vol g x * div_e2c g f x = area g (S x) * f (S x) - area g x * f x.
Proof.
  intros U. pose proof (vol_pos g x U) as V. unfold div_e2c, vol, area, ddx_e2c in *. destruct (spherical g).
  - field. intros C. rewrite C in V. lra.
  - field. lra.
Qed.
Lemma spherical_reflective g : usable g -> spherical g = true -> reflective g = true.
Proof. intros (_ & _ & _ & _ & G) S. unfold grid_ok in G. rewrite S in G. destruct (reflective g); [reflexivity|]. rewrite !Bool.andb_false_r in G. discriminate. Qed.
Lemma reflective_not_periodic g : reflective g = true -> periodic g = false.
Proof. unfold reflective, periodic. intros H. apply str_eqb_eq in H. rewrite H. reflexivity. Qed.
Lemma bc_area g y i : usable g -> bc g y -> area g (n_x g) * y (F10 (n_x g) i) = area g 0 * y (F10 0 i).
Proof.
  intros U B. unfold bc in B. destruct (periodic g) eqn:P.
  - unfold area. destruct (spherical g) eqn:S; [|now rewrite B]. pose proof (reflective_not_periodic g (spherical_reflective g U S)). congruence.
  - destruct (B i) as [-> ->]. ring.
Qed.
Lemma ddx_wall g f : periodic g = false -> ddx_c2e g f 0 = 0 /\ ((1 <= n_x g)%nat -> ddx_c2e g f (n_x g) = 0).
Proof.
  intros P. unfold ddx_c2e. split.
  - cbn [ghosts]. rewrite P. destruct (Nat.ltb_spec 0 (n_x g)); unfold Rdiv; [ring|]. replace (n_x g - 1)%nat with 0%nat by lia. ring.
  - intros H. destruct (n_x g) as [|m] eqn:N; [lia|]. cbn [ghosts]. rewrite P, N. destruct (Nat.ltb_spec (S m) (S m)); [lia|]. destruct (Nat.ltb_spec m (S m)); [|lia].
    replace (S m - 1)%nat with m by lia. unfold Rdiv. ring.
Qed.
Lemma ghosts_periodic g f : periodic g = true -> (1 <= n_x g)%nat ->
  ghosts g f 0 = f (n_x g - 1)%nat /\ ghosts g f 1 = f 0%nat /\ ghosts g f (n_x g) = f (n_x g - 1)%nat /\ ghosts g f (S (n_x g)) = f 0%nat.
Proof.
  intros P H. cbn [ghosts]. rewrite P. destruct (Nat.ltb_spec 0 (n_x g)); [|lia]. destruct (Nat.ltb_spec (n_x g) (n_x g)); [lia|]. repeat split.
  destruct (n_x g) as [|m] eqn:N; [lia|]. cbn [ghosts]. rewrite N. destruct (Nat.ltb_spec m (S m)); [|lia]. f_equal. lia.
Qed.
Lemma vdfdx_bc g t y : usable g -> bc g (vdfdx g t y).
Proof.
  intros (H & _). unfold bc. destruct (periodic g) eqn:P.
  - intros i. cbn [vdfdx]. assert (R0 : reflective g = false) by (destruct (reflective g) eqn:E; [|reflexivity]; pose proof (reflective_not_periodic g E); congruence).
    unfold wall. rewrite R0. cbn [andb]. unfold ddx_c2e. destruct (ghosts_periodic g (fun c => y (F0 c i)) P H) as (-> & -> & -> & ->). reflexivity.
  - intros i. cbn [vdfdx]. destruct (ddx_wall g (fun c => y (F0 c i)) P) as [W0 W1]. rewrite W0, (W1 H). split; destruct (wall g _); ring.
Qed.
Lemma bc_subspace g : subspace (bc g).
Proof. intros a x y. unfold bc. destruct (periodic g); intros Hx Hy i; [now rewrite Hx, Hy|]. destruct (Hx i) as [-> ->], (Hy i) as [-> ->]. split; ring. Qed.
Lemma shell_linear g i : linear_fn (fun y => shell g y i).
Proof. intros a x y. unfold shell. rewrite <- rsum_scal, <- rsum_plus. apply rsum_ext. intros; ring. Qed.
Lemma number_linear g : linear_fn (number g).
Proof.
  intros a x y. unfold number. rewrite <- rsum_scal, <- rsum_plus. apply rsum_ext. intros k _.
  rewrite (rsum_ext (n_v g) _ (fun i => v_at g i ^ 2 * x (F0 k i) + a * (v_at g i ^ 2 * y (F0 k i)))) by (intros; ring). rewrite rsum_plus, rsum_scal. ring.
Qed.
Lemma number_shells g y : number g y = rsum (n_v g) (fun i => v_at g i ^ 2 * shell g y i).
Proof.
  unfold number, shell. rewrite (rsum_ext (n_x g) _ (fun x => rsum (n_v g) (fun i => v_at g i ^ 2 * (vol g x * y (F0 x i))))).
  - rewrite rsum_swap. apply rsum_ext. intros. now rewrite rsum_scal.
  - intros x _. rewrite <- rsum_scal. apply rsum_ext. intros; ring.
Qed.
(** Streaming moves electrons without changing the number at any speed, in slab and spherical geometry, with
    periodic and reflecting boundaries, whatever the Runge-Kutta method; and it keeps the boundary condition. *)
Theorem C70_streaming : forall tab g y, usable g -> bc g y ->
  bc g (push_vdfdx tab g y) /\ (forall i, shell g (push_vdfdx tab g y) i = shell g y i) /\ number g (push_vdfdx tab g y) = number g y.
Proof.
  intros tab g y U B.
  assert (K : forall i, shell g (push_vdfdx tab g y) i = shell g y i).
  { intros i. unfold push_vdfdx. apply (rk_conserved (bc g) (fun y => shell g y i)); [apply shell_linear|apply bc_subspace| |exact B].
    intros t x Bx. split; [now apply vdfdx_bc|]. unfold shell. cbn [vdfdx].
    rewrite (rsum_ext _ _ (fun k => (- v_at g i / 3) * (area g (S k) * x (F10 (S k) i) - area g k * x (F10 k i)))).
    - rewrite rsum_scal, (rsum_telescope (n_x g) (fun k => area g k * x (F10 k i))), bc_area by assumption. ring.
    - intros k _. rewrite <- (div_vol g (fun e => x (F10 e i)) k U). ring. }
  split; [|split; [exact K|]].
  - unfold push_vdfdx. apply rk_subspace; [apply bc_subspace|intros; now apply vdfdx_bc|exact B].
  - rewrite !number_shells. apply rsum_ext. intros i _. now rewrite K.
Qed.
Print Assumptions C70_streaming.
(** The streaming rates neither create nor destroy the quadratic norm of (f0, f10). *)
Theorem C70_streaming_norm : forall g t y i, usable g -> bc g y ->
  rsum (n_x g) (fun x => vol g x * (y (F0 x i) * vdfdx g t y (F0 x i)) + 1 / 3 * (area g x * d_x g) * (y (F10 x i) * vdfdx g t y (F10 x i))) = 0.
Proof.
  intros g t y i U B. pose proof (dx_pos g U) as D. set (gh := ghosts g (fun c => y (F0 c i))).
  assert (NW : forall x, (x < n_x g)%nat -> y (F10 x i) * vdfdx g t y (F10 x i) = y (F10 x i) * (- v_at g i * ddx_c2e g (fun c => y (F0 c i)) x)).
  { intros x Hx. cbn [vdfdx]. unfold wall. destruct (reflective g) eqn:E; [|reflexivity]. cbn [andb]. destruct (Nat.eqb_spec x 0) as [->|]; cbn [orb].
    - pose proof (reflective_not_periodic g E) as P. unfold bc in B. rewrite P in B. destruct (B i) as [-> _]. ring.
    - destruct (Nat.eqb_spec x (n_x g)); [lia|reflexivity]. }
  rewrite (rsum_ext _ _ (fun x => (- v_at g i / 3) * (gh (S x) * (area g (S x) * y (F10 (S x) i)) - gh x * (area g x * y (F10 x i))))).
  - rewrite rsum_scal, (rsum_telescope (n_x g) (fun x => gh x * (area g x * y (F10 x i)))), bc_area by assumption.
    unfold bc in B. destruct (periodic g) eqn:P.
    + destruct U as (H & _). unfold gh. destruct (ghosts_periodic g (fun c => y (F0 c i)) P H) as (-> & _ & -> & _). ring.
    + destruct (B i) as [-> _]. ring.
  - intros x Hx. rewrite NW by exact Hx. assert (G : y (F0 x i) = gh (S x)) by (unfold gh; cbn [ghosts]; destruct (Nat.ltb_spec x (n_x g)); [reflexivity|lia]).
    cbn [vdfdx]. replace (vol g x * (y (F0 x i) * (- v_at g i / 3 * div_e2c g (fun e => y (F10 e i)) x))) with (- v_at g i / 3 * y (F0 x i) * (vol g x * div_e2c g (fun e => y (F10 e i)) x)) by ring.
    rewrite div_vol by exact U. rewrite G. unfold ddx_c2e. fold gh. field. lra.
Qed.
Print Assumptions C70_streaming_norm.

(** ** Acceleration *)
(** Electrons the acceleration of one cell loses or gains at the largest speed, per unit force. *)
Definition tail (g : vgrid) (f : nat -> R) : R :=
  let n := n_v g in let w := v_at g (n - 1) in let h := d_v g in
  ((3 * w ^ 2 + 2 * h * w + h ^ 2) * f (n - 1)%nat - w ^ 2 * f (n - 2)%nat) / (2 * h).
Definition accel (g : vgrid) (f : nat -> R) (i : nat) : R := 2 / v_at g i * f i + ddv_f1 g f i.
Lemma ddv_f1_inner g f i : (S i < n_v g)%nat -> ddv_f1 g f i = (f (S i) - prepend (- f 0%nat) f i) / (2 * d_v g).
Proof. intros H. unfold ddv_f1, gradient. destruct (Nat.eqb_spec (S (S i)) (n_v g + 1)); [lia|]. reflexivity. Qed.
Lemma ddv_f1_last g f : (2 <= n_v g)%nat -> ddv_f1 g f (n_v g - 1) = (f (n_v g - 1)%nat - f (n_v g - 2)%nat) / d_v g.
Proof.
  intros H. unfold ddv_f1, gradient. destruct (Nat.eqb_spec (S (S (n_v g - 1))) (n_v g + 1)); [|lia]. cbn [prepend].
  destruct (n_v g - 1)%nat as [|k] eqn:K; [lia|]. cbn [prepend]. now replace (n_v g - 2)%nat with k by lia.
Qed.
Lemma v_succ g i : usable g -> v_at g (S i) = v_at g i + d_v g.
Proof. intros U. rewrite !v_formula by exact U. rewrite S_INR. ring. Qed.
Lemma accel_partial g f (U : usable g) : forall m, (S m < n_v g)%nat ->
  rsum (S m) (fun i => v_at g i ^ 2 * accel g f i) = (v_at g m ^ 2 * f (S m) + v_at g (S m) ^ 2 * f m) / (2 * d_v g) /\
  rsum (S m) (fun i => v_at g i ^ 4 * accel g f i) =
    (v_at g m ^ 4 * f (S m) + v_at g (S m) ^ 4 * f m) / (2 * d_v g) - rsum (S m) (fun i => (2 * v_at g i ^ 3 + 4 * d_v g ^ 2 * v_at g i) * f i).
Proof.
  pose proof (dv_pos g U) as D. induction m as [|m IH]; intros Hm.
  - cbn [rsum]. unfold accel. rewrite ddv_f1_inner by lia. cbn [prepend]. rewrite (v_succ g 0 U), (v_formula g 0 U). change (INR 0) with 0. split; field; lra.
  - destruct IH as [I2 I4]; [lia|]. split.
    + cbn [rsum]. cbn [rsum] in I2. rewrite I2. unfold accel. rewrite ddv_f1_inner by lia. cbn [prepend]. rewrite (v_succ g (S m) U), (v_succ g m U). pose proof (v_pos g m U). field. lra.
    + cbn [rsum]. cbn [rsum] in I4. rewrite I4. unfold accel. rewrite ddv_f1_inner by lia. cbn [prepend]. rewrite (v_succ g (S m) U), (v_succ g m U). pose proof (v_pos g m U). field. lra.
Qed.
Lemma accel_sums g f : usable g ->
  rsum (n_v g) (fun i => v_at g i ^ 2 * accel g f i) = tail g f /\
  (f (n_v g - 1)%nat = 0 -> f (n_v g - 2)%nat = 0 ->
   rsum (n_v g) (fun i => v_at g i ^ 4 * accel g f i) = - rsum (n_v g) (fun i => (2 * v_at g i ^ 3 + 4 * d_v g ^ 2 * v_at g i) * f i)).
Proof.
  intros U. pose proof (dv_pos g U) as D. assert (N := U). destruct N as (_ & N & _).
  pose proof (ddv_f1_last g f N) as LA. destruct (accel_partial g f U (n_v g - 2)) as [I2 I4]; [lia|]. unfold tail.
  pose proof (v_succ g (n_v g - 2) U) as VS. pose proof (v_pos g (n_v g - 2) U) as VP.
  destruct (n_v g) as [|[|k]] eqn:K; try lia. replace (S (S k) - 2)%nat with k in * by lia. replace (S (S k) - 1)%nat with (S k) in * by lia.
  split.
  - change (rsum (S (S k)) ?h) with (rsum (S k) h + h (S k)). cbv beta. rewrite I2. unfold accel. rewrite LA, VS. field. lra.
  - intros Z1 Z2. change (rsum (S (S k)) ?h) with (rsum (S k) h + h (S k)). cbv beta. rewrite I4. unfold accel. rewrite LA, Z1, Z2. unfold Rdiv. ring.
Qed.
(** Rate of the number of electrons in a cell under the field: nothing but the tail. *)
Theorem C70_acceleration_rate : forall g e t y x, usable g ->
  rsum (n_v g) (fun i => v_at g i ^ 2 * edfdv g e t y (F0 x i)) = (e x + e (S x)) / 6 * tail g (fun i => (y (F10 x i) + y (F10 (S x) i)) / 2).
Proof.
  intros g e t y x U. cbn [edfdv].
  set (f := fun j => interp_e2c (fun k => y (F10 k j)) x).
  rewrite (rsum_ext _ _ (fun i => interp_e2c e x / 3 * (v_at g i ^ 2 * accel g f i))) by (intros; unfold accel; cbv beta; fold (f i); fold f; ring).
  rewrite rsum_scal. destruct (accel_sums g f U) as [-> _]. unfold tail, f, interp_e2c. pose proof (dv_pos g U). field. lra.
Qed.
Print Assumptions C70_acceleration_rate.
(** Work: where the two largest speeds are empty, the rate of the kinetic energy (2 pi dv sum v^4 f0) is the field
    times the current of the cell, apart from a term of relative order dv^2. *)
Theorem C70_work : forall g e t y x, usable g ->
  let f i := (y (F10 x i) + y (F10 (S x) i)) / 2 in let ec := (e x + e (S x)) / 2 in
  f (n_v g - 1)%nat = 0 -> f (n_v g - 2)%nat = 0 ->
  2 * PI * d_v g * rsum (n_v g) (fun i => v_at g i ^ 4 * edfdv g e t y (F0 x i)) =
  ec * calc_j g f - 8 * PI / 3 * ec * d_v g ^ 2 * (d_v g * rsum (n_v g) (fun i => v_at g i * f i)).
Proof.
  intros g e t y x U f ec Z1 Z2. cbn [edfdv].
  set (f' := fun j => interp_e2c (fun k => y (F10 k j)) x). assert (FF : f' = f) by (apply functional_extensionality; intros i; unfold f', f, interp_e2c; field).
  rewrite (rsum_ext _ _ (fun i => interp_e2c e x / 3 * (v_at g i ^ 4 * accel g f' i))) by (intros; unfold accel; cbv beta; fold (f' i); fold f'; ring).
  rewrite rsum_scal, FF. destruct (accel_sums g f U) as [_ ->]; [|assumption|assumption].
  rewrite (rsum_ext _ (fun i => (2 * v_at g i ^ 3 + 4 * d_v g ^ 2 * v_at g i) * f i) (fun i => 2 * (f i * v_at g i ^ 3) + 4 * d_v g ^ 2 * (v_at g i * f i))) by (intros; ring).
  rewrite rsum_plus, !rsum_scal. unfold calc_j, interp_e2c, ec. field.
Qed.
Print Assumptions C70_work.
(** With s stages, if the s+1 largest speeds are empty, the field changes the number of electrons in no cell. *)
Theorem C70_acceleration_number : forall tab g e y, usable g ->
  (forall x i, (n_v g <= i + List.length (rk_rows tab) + 1)%nat -> y (F0 x i) = 0 /\ y (F10 x i) = 0) ->
  forall x, rsum (n_v g) (fun i => v_at g i ^ 2 * push_edfdv tab g e y (F0 x i)) = rsum (n_v g) (fun i => v_at g i ^ 2 * y (F0 x i)).
Proof.
  intros tab g e y U E x. set (s := List.length (rk_rows tab)).
  set (P := fun (j : nat) (y : vix -> R) => forall x i, (n_v g + j <= i + s + 1)%nat -> y (F0 x i) = 0 /\ y (F10 x i) = 0).
  unfold push_edfdv. apply (rk_levels P (fun y => rsum (n_v g) (fun i => v_at g i ^ 2 * y (F0 x i)))).
  - intros a p q. rewrite <- rsum_scal, <- rsum_plus. apply rsum_ext. intros; ring.
  - intros j a p q Hp Hq k i H. destruct (Hp k i H) as [-> ->], (Hq k i H) as [-> ->]. split; ring.
  - intros j p Hp k i H. apply Hp. lia.
  - intros j t p Hp k i H.
    assert (G : forall i', (n_v g + j <= i' + s + 1)%nat -> forall m, ghosts g (fun c => p (F0 c i')) m = 0).
    { intros i' H' m. destruct m; cbn [ghosts]; destruct (periodic g); try destruct (Nat.ltb _ _); apply Hp; exact H'. }
    assert (IZ : forall i', (n_v g + j <= i' + s + 1)%nat -> interp_c2e g (fun c => p (F0 c i')) k = 0).
    { intros i' H'. unfold interp_c2e. rewrite !G by exact H'. ring. }
    assert (EZ : forall i', (n_v g + j <= i' + s + 1)%nat -> interp_e2c (fun q => p (F10 q i')) k = 0).
    { intros i' H'. unfold interp_e2c. rewrite (proj2 (Hp k i' H')), (proj2 (Hp (S k) i' H')). ring. }
    cbn [edfdv]. split.
    + assert (Z0 : interp_e2c (fun q => p (F10 q i)) k = 0) by (apply EZ; lia). rewrite Z0. unfold ddv_f1, gradient.
      assert (ZS : interp_e2c (fun q => p (F10 q (S i))) k = 0) by (apply EZ; lia).
      assert (ZP : prepend (- interp_e2c (fun q => p (F10 q 0)) k) (fun j0 => interp_e2c (fun q => p (F10 q j0)) k) i = 0).
      { destruct i as [|i]; cbn [prepend]; [rewrite EZ by lia; ring|apply EZ; lia]. }
      rewrite ZP. cbn [prepend]. rewrite Z0, ZS. destruct (Nat.eqb _ _); unfold Rdiv; ring.
    + destruct (wall g k); [reflexivity|]. unfold ddv, gradient.
      assert (Z0 : interp_c2e g (fun c => p (F0 c i)) k = 0) by (apply IZ; lia).
      assert (ZS : interp_c2e g (fun c => p (F0 c (S i))) k = 0) by (apply IZ; lia).
      assert (ZP : prepend (interp_c2e g (fun c => p (F0 c 0%nat)) k) (fun j0 => interp_c2e g (fun c => p (F0 c j0)) k) i = 0).
      { destruct i as [|i]; cbn [prepend]; apply IZ; lia. }
      rewrite ZP. cbn [prepend]. rewrite Z0, ZS. destruct (Nat.eqb _ _); unfold Rdiv; ring.
  - intros k i H. apply E. fold s. lia.
  - intros j t p Hj Hp. fold s in Hj. rewrite C70_acceleration_rate by exact U. destruct U as (_ & N & _). unfold tail.
    rewrite (proj2 (Hp x (n_v g - 1)%nat ltac:(lia))), (proj2 (Hp (S x) (n_v g - 1)%nat ltac:(lia))), (proj2 (Hp x (n_v g - 2)%nat ltac:(lia))), (proj2 (Hp (S x) (n_v g - 2)%nat ltac:(lia))).
    unfold Rdiv. ring.
Qed.
Print Assumptions C70_acceleration_number.

(** ** The complete step *)
(** The electrons that one evaluation of the acceleration loses (or gains) at the largest speed, over the box. *)
Definition escape (g : vgrid) (e : nat -> R) (y : vix -> R) : R :=
  rsum (n_x g) (fun x => vol g x * ((e x + e (S x)) / 6 * tail g (fun i => (y (F10 x i) + y (F10 (S x) i)) / 2))).
Lemma number_rate g e t y : usable g -> number g (edfdv g e t y) = escape g e y.
Proof. intros U. unfold number, escape. apply rsum_ext. intros x _. now rewrite C70_acceleration_rate. Qed.
Lemma number_push tab g e y : usable g ->
  number g (push_edfdv tab g e y) = number g y + d_t g * lsum (map (fun p => fst p * escape g e (snd p)) (combine (rk_b tab) (rk_inputs (edfdv g e) 0 (d_t g) y (rk_rows tab) []))).
Proof.
  intros U. unfold push_edfdv. rewrite (rk_change (number g)) by apply number_linear. rewrite rk_stages_inputs by reflexivity. cbn [app]. do 2 f_equal.
  generalize (rk_inputs (edfdv g e) 0 (d_t g) y (rk_rows tab) []). intros l. generalize (rk_b tab). intros cs. revert l.
  induction cs as [|c cs IH]; intros [|k l]; try reflexivity. cbn [map combine fst snd]. rewrite number_rate by exact U. change (lsum (?a :: ?b)) with (a + lsum b). rewrite IH. reflexivity.
Qed.
Lemma number_F0 g y z : (forall x i, (x < n_x g)%nat -> (i < n_v g)%nat -> y (F0 x i) = z (F0 x i)) -> number g y = number g z.
Proof. intros H. unfold number. apply rsum_ext. intros x Hx. f_equal. apply rsum_ext. intros i Hi. now rewrite H. Qed.
Lemma step_split tri tab c y y' : vfp_step tri tab c y y' ->
  exists ys, (forall x, (x < n_x (c_grid c))%nat -> f0_collide c (s_Z y x) (s_ni y x) (fun i => push_vdfdx tab (c_grid c) (s_f y) (F0 x i)) (fun i => ys (F0 x i))) /\
  (forall x i, ys (F10 x i) = push_vdfdx tab (c_grid c) (s_f y) (F10 x i)) /\
  (forall x i, s_f y' (F0 x i) = push_edfdv tab (c_grid c) (s_e y') ys (F0 x i)).
Proof.
  intros (f0s & H & HZ & Hn & H'). exists (fun ix => match ix with F0 x i => f0s x i | F10 x i => push_vdfdx tab (c_grid c) (s_f y) (F10 x i) end).
  split; [exact H|]. split; [reflexivity|]. cbv zeta in H'. destruct (str_eqb (c_solver c) (lit "oshun")).
  - destruct H' as [-> ->]. reflexivity.
  - destruct (str_eqb (c_solver c) (lit "ampere")); [|contradiction]. destruct H' as [-> ->]. reflexivity.
Qed.
Lemma collide_number c tab y ys : usable (c_grid c) ->
  (forall x, (x < n_x (c_grid c))%nat -> f0_collide c (s_Z y x) (s_ni y x) (fun i => push_vdfdx tab (c_grid c) (s_f y) (F0 x i)) (fun i => ys (F0 x i))) ->
  number (c_grid c) ys = number (c_grid c) (push_vdfdx tab (c_grid c) (s_f y)).
Proof.
  intros U H. unfold number. apply rsum_ext. intros x Hx. f_equal. specialize (H x Hx). unfold f0_collide in H.
  eapply (C32_spherical_density_conserved _ (n_v (c_grid c)) (d_v (c_grid c)) (v_at (c_grid c))); [|exact H].
  intros i _. pose proof (v_pos (c_grid c) i U). lra.
Qed.
(** Streaming and collisions conserve the number of electrons exactly; a complete step changes it only by what the
    acceleration stages carry past the largest speed. *)
Theorem C70_number_balance : forall tri tab c y y', usable (c_grid c) -> bc (c_grid c) (s_f y) -> vfp_step tri tab c y y' ->
  exists ys, number (c_grid c) ys = number (c_grid c) (s_f y) /\
  let inputs := rk_inputs (edfdv (c_grid c) (s_e y')) 0 (d_t (c_grid c)) ys (rk_rows tab) [] in
  number (c_grid c) (s_f y') = number (c_grid c) (s_f y) + d_t (c_grid c) * lsum (map (fun p => fst p * escape (c_grid c) (s_e y') (snd p)) (combine (rk_b tab) inputs)).
Proof.
  intros tri tab c y y' U B S. destruct (step_split tri tab c y y' S) as (ys & H & HF & HE). exists ys.
  assert (N : number (c_grid c) ys = number (c_grid c) (s_f y)).
  { rewrite (collide_number c tab y ys U H). now apply C70_streaming. }
  split; [exact N|]. cbv zeta. rewrite <- N, <- number_push by exact U. apply number_F0. intros; apply HE.
Qed.
Print Assumptions C70_number_balance.
(** In particular a step that finds no field conserves it exactly. *)
Theorem C70_number_no_field : forall tri tab c y y', usable (c_grid c) -> bc (c_grid c) (s_f y) -> vfp_step tri tab c y y' ->
  (forall x, s_e y' x = 0) -> number (c_grid c) (s_f y') = number (c_grid c) (s_f y).
Proof.
  intros tri tab c y y' U B S E. destruct (C70_number_balance tri tab c y y' U B S) as (ys & _ & H). cbv zeta in H. rewrite H.
  assert (Z : forall q, escape (c_grid c) (s_e y') q = 0).
  { intros q. unfold escape. rewrite <- (rsum_zero (n_x (c_grid c))). apply rsum_ext. intros x _. rewrite !E. unfold Rdiv. ring. }
  replace (lsum _) with 0; [ring|]. symmetry. generalize (combine (rk_b tab) (rk_inputs (edfdv (c_grid c) (s_e y')) 0 (d_t (c_grid c)) ys (rk_rows tab) [])). intros l.
  induction l as [|p l IH]; [reflexivity|]. cbn [map]. change (lsum (?a :: ?b)) with (a + lsum b). rewrite IH, Z. ring.
Qed.
Print Assumptions C70_number_no_field.

(** Boundary conditions of a state: those of f10, and for the field equality at the two ends (periodic) or zero. *)
Definition e_bc (g : vgrid) (e : nat -> R) : Prop := if periodic g then e 0%nat = e (n_x g) else e 0%nat = 0 /\ e (n_x g) = 0.
Lemma interp_ends g f : periodic g = true -> (1 <= n_x g)%nat -> interp_c2e g f 0 = interp_c2e g f (n_x g).
Proof. intros P H. unfold interp_c2e. destruct (ghosts_periodic g f P H) as (-> & -> & -> & ->). reflexivity. Qed.
Lemma edfdv_bc g e t y : usable g -> e_bc g e -> bc g (edfdv g e t y).
Proof.
  intros (H & _) B. unfold bc, e_bc in *. destruct (periodic g) eqn:P.
  - intros i. cbn [edfdv]. assert (R0 : reflective g = false) by (destruct (reflective g) eqn:E; [|reflexivity]; pose proof (reflective_not_periodic g E); congruence).
    unfold wall. rewrite R0. cbn [andb]. rewrite B. f_equal.
    replace (fun j => interp_c2e g (fun c => y (F0 c j)) 0) with (fun j => interp_c2e g (fun c => y (F0 c j)) (n_x g)); [reflexivity|].
    apply functional_extensionality. intros j. symmetry. now apply interp_ends.
  - intros i. cbn [edfdv]. destruct B as [-> ->]. split; destruct (wall g _); ring.
Qed.
Lemma wall_ends g : reflective g = true -> wall g 0 = true /\ wall g (n_x g) = true.
Proof. intros E. unfold wall. rewrite E. split; [reflexivity|]. rewrite Nat.eqb_refl. now rewrite Bool.orb_true_r. Qed.
Lemma edfdv_bc_reflective g e t y : reflective g = true -> bc g (edfdv g e t y).
Proof.
  intros E. unfold bc. rewrite (reflective_not_periodic g E). intros i. cbn [edfdv]. destruct (wall_ends g E) as [-> ->]. split; reflexivity.
Qed.
Lemma push_edfdv_bc tab g e y : usable g -> (e_bc g e \/ reflective g = true) -> bc g y -> bc g (push_edfdv tab g e y).
Proof.
  intros U B By. unfold push_edfdv. apply rk_subspace; [apply bc_subspace| |exact By]. intros t z _. destruct B as [B|B]; [now apply edfdv_bc|now apply edfdv_bc_reflective].
Qed.
(** The boundary conditions hold at every step of a run. *)
Theorem C70_boundaries : forall tri tab c n y y', usable (c_grid c) -> periodic (c_grid c) = true \/ reflective (c_grid c) = true ->
  bc (c_grid c) (s_f y) -> e_bc (c_grid c) (s_e y) -> vfp_run tri tab c n y y' -> bc (c_grid c) (s_f y') /\ e_bc (c_grid c) (s_e y').
Proof.
  intros tri tab c n y y' U PR By Be R. revert By Be. induction R as [y|n y y1 y2 S R IH]; intros By Be; [now split|]. apply IH; clear IH R.
  all: destruct S as (f0s & _ & _ & _ & H'); cbv zeta in H'; set (g := c_grid c) in *; set (s := push_vdfdx tab g (s_f y)) in *.
  all: set (ys := fun ix => match ix with F0 x i => f0s x i | F10 x i => s (F10 x i) end) in *.
  all: assert (Bs : bc g ys) by (destruct (C70_streaming tab g (s_f y) U By) as [K _]; fold s in K; unfold bc in *; destruct (periodic g); exact K).
  all: pose proof (proj1 U) as NX.
  all: assert (CE : forall f0 f10, periodic g = true -> f10 0%nat = f10 (n_x g) -> collide_edges tri c (s_Z y) (s_ni y) f0 f10 0 = collide_edges tri c (s_Z y) (s_ni y) f0 f10 (n_x g)).
  1,3: (intros f0 f10 P Q; unfold collide_edges; fold g; rewrite !(interp_ends g _ P NX), Q;
      replace (fun i => interp_c2e g (fun k => f0 k i) 0) with (fun i => interp_c2e g (fun k => f0 k i) (n_x g)) by (apply functional_extensionality; intros j; symmetry; now apply interp_ends);
      reflexivity).
  all: assert (EQ : forall z, bc g z -> periodic g = true -> (fun i => z (F10 0 i)) = (fun i => z (F10 (n_x g) i))) by (intros z Bz P; apply functional_extensionality; unfold bc in Bz; rewrite P in Bz; exact Bz).
  all: assert (EO : e_bc g (implicit_e tri tab c (s_Z y) (s_ni y) ys (s_e y))).
  1,3: (unfold e_bc; destruct (periodic g) eqn:P;
    [ unfold implicit_e; fold g; assert (W : forall x, wall g x = false) by (intros x; unfold wall; destruct (reflective g) eqn:E; [pose proof (reflective_not_periodic g E); congruence|reflexivity]);
      rewrite !W; unfold e_bc in Be; rewrite P in Be; rewrite Be;
      set (de := fun k => Rabs (s_e y k) * (1 / 10 ^ 6) + 1 / 10 ^ 12);
      assert (Bd : bc g (push_edfdv tab g de ys)) by (apply push_edfdv_bc; [exact U| |exact Bs]; left; unfold e_bc; rewrite P; unfold de; now rewrite Be);
      rewrite (CE _ (fun k i => ys (F10 k i)) eq_refl (EQ _ Bs eq_refl)), (CE _ (fun k i => push_edfdv tab g de ys (F10 k i)) eq_refl (EQ _ Bd eq_refl)); reflexivity
    | destruct PR as [C|RE]; [congruence|]; unfold implicit_e; fold g; destruct (wall_ends g RE) as [-> ->]; split; reflexivity]).
  all: assert (EA : e_bc g (fun x => s_e y x + d_t g * (1 / 10 ^ 6) * calc_j g (fun i => ys (F10 x i)))).
  1,3: (unfold e_bc in *; destruct (periodic g) eqn:P;
    [ rewrite Be, (EQ _ Bs eq_refl); reflexivity
    | destruct Be as [-> ->]; unfold bc in Bs; rewrite P in Bs; unfold calc_j;
      rewrite (rsum_ext _ (fun i => ys (F10 0 i) * v_at g i ^ 3) (fun _ => 0)) by (intros i _; rewrite (proj1 (Bs i)); ring);
      rewrite (rsum_ext _ (fun i => ys (F10 (n_x g) i) * v_at g i ^ 3) (fun _ => 0)) by (intros i _; rewrite (proj2 (Bs i)); ring);
      rewrite rsum_zero; split; ring ]).
  all: assert (FIN : forall e f0, e_bc g e -> bc g (fun ix => match ix with F0 x i => push_edfdv tab g e ys (F0 x i) | F10 x i => if wall g x then 0 else collide_edges tri c (s_Z y) (s_ni y) f0 (fun k i => push_edfdv tab g e ys (F10 k i)) x i end)).
  1,3: (intros e f0 Bee; assert (Bp : bc g (push_edfdv tab g e ys)) by (apply push_edfdv_bc; auto);
    unfold bc; destruct (periodic g) eqn:P;
    [ intros i; assert (W : forall x, wall g x = false) by (intros x; unfold wall; destruct (reflective g) eqn:E; [pose proof (reflective_not_periodic g E); congruence|reflexivity]);
      rewrite !W, (CE f0 (fun k i => push_edfdv tab g e ys (F10 k i)) eq_refl (EQ _ Bp eq_refl)); reflexivity
    | intros i; destruct PR as [C|RE]; [congruence|]; destruct (wall_ends g RE) as [-> ->]; split; reflexivity ]).
  all: destruct (str_eqb (c_solver c) (lit "oshun")); [|destruct (str_eqb (c_solver c) (lit "ampere")); [|contradiction]]; destruct H' as [E1 E2]; rewrite ?E1, ?E2; auto.
Qed.
Print Assumptions C70_boundaries.

(** ** Equilibria and symmetry *)
Lemma rk_fixed {I} tab rhs t dt (y : I -> R) : (forall t, rhs t y = fun _ => 0) -> rk_step tab rhs t dt y = y.
Proof.
  intros H. assert (C : forall cs ks, Forall (fun k => k = fun _ : I => 0) ks -> comb dt cs ks y = y).
  { intros cs ks F. revert cs. induction F as [|k ks E F IH]; intros [|c cs]; rewrite ?comb_nil, ?comb_nil'; try reflexivity.
    rewrite comb_cons, IH. apply functional_extensionality. intros i. rewrite E. ring. }
  unfold rk_step. apply C. assert (G : forall rows ks, Forall (fun k => k = fun _ : I => 0) ks -> Forall (fun k => k = fun _ : I => 0) (rk_stages rhs t dt y rows ks)).
  { induction rows as [|[c a] rs IH]; intros ks F; cbn [rk_stages]; [exact F|]. apply IH. apply Forall_app. split; [exact F|]. constructor; [|constructor]. now rewrite C. }
  apply G. constructor.
Qed.
Lemma ros_zero g p i : ros_i g (fun _ => 0) p i = 0 /\ ros_j g (fun _ => 0) p i = 0.
Proof. unfold ros_i, ros_j. rewrite !(rsum_ext _ (fun j => _ * 0) (fun _ => 0)) by (intros; ring). rewrite !rsum_zero. split; ring. Qed.
Lemma flm_zero tri g c l Z ni f0 dt b : (flm_full c = true -> forall n op, tri n op (fun _ => 0) = fun _ => 0) -> flm_solve tri g c l Z ni f0 (fun _ => 0) dt b = fun _ => 0.
Proof.
  intros H. apply functional_extensionality. intros i. unfold flm_solve. destruct (flm_full c); [|unfold Rdiv; ring]. rewrite H by reflexivity.
  destruct b; [|ring]. unfold offdiag. rewrite !(proj1 (ros_zero g _ i)), !(proj2 (ros_zero g _ i)). destruct (Nat.ltb 1 l); ring.
Qed.
Lemma j_zero g : calc_j g (fun _ => 0) = 0.
Proof. unfold calc_j. rewrite (rsum_ext _ _ (fun _ => 0)) by (intros; ring). rewrite rsum_zero. ring. Qed.
(** A uniform plasma in collisional equilibrium without field does not change. *)
Theorem C70_uniform : forall tri tab c y y' h, usable (c_grid c) ->
  (flm_full (c_flm c) = true -> forall n op, tri n op (fun _ => 0) = fun _ => 0) ->
  (forall x i, s_f y (F0 x i) = h i) -> (forall x i, s_f y (F10 x i) = 0) -> (forall x, s_e y x = 0) ->
  (forall x f', f0_collide c (s_Z y x) (s_ni y x) h f' -> forall i, (i < n_v (c_grid c))%nat -> f' i = h i) ->
  vfp_step tri tab c y y' ->
  (forall x i, (x < n_x (c_grid c))%nat -> (i < n_v (c_grid c))%nat -> s_f y' (F0 x i) = h i) /\ (forall x i, s_f y' (F10 x i) = 0) /\ (forall x, s_e y' x = 0).
Proof.
  intros tri tab c y y' h U T H0 H1 He HC S. destruct S as (f0s & K & _ & _ & H'). set (g := c_grid c) in *.
  assert (ST : push_vdfdx tab g (s_f y) = s_f y).
  { apply rk_fixed. intros t. apply functional_extensionality. intros [x i|x i]; cbn [vdfdx].
    - unfold div_e2c, ddx_e2c. rewrite !H1. destruct (spherical g); unfold Rdiv; ring.
    - destruct (wall g x); [reflexivity|]. assert (G : forall k, ghosts g (fun c0 => s_f y (F0 c0 i)) k = h i) by (intros [|k]; cbn [ghosts]; destruct (periodic g); try destruct (Nat.ltb _ _); apply H0).
      unfold ddx_c2e. rewrite !G. unfold Rdiv. ring. }
  cbv zeta in H'. rewrite ST in *.
  assert (F0S : forall x i, (x < n_x g)%nat -> (i < n_v g)%nat -> f0s x i = h i).
  { intros x i Hx Hi. apply (HC x); [|exact Hi]. specialize (K x Hx). replace h with (fun i => s_f y (F0 x i)) by (apply functional_extensionality; intros; apply H0). exact K. }
  set (ys := fun ix => match ix with F0 x i => f0s x i | F10 x i => s_f y (F10 x i) end) in *.
  assert (Z1 : forall k, (fun i => ys (F10 k i)) = fun _ => 0) by (intros k; apply functional_extensionality; intros i; apply H1).
  assert (P0 : forall e, (forall x, e x = 0) -> push_edfdv tab g e ys = ys).
  { intros e E. apply rk_fixed. intros t. apply functional_extensionality. intros [x i|x i]; cbn [edfdv].
    - unfold interp_e2c at 1. rewrite !E. unfold Rdiv. ring.
    - rewrite E. destruct (wall g x); ring. }
  assert (CZ : forall Z ni f0 x, collide_edges tri c Z ni f0 (fun _ _ => 0) x = fun _ => 0) by (intros; unfold collide_edges; now apply flm_zero).
  assert (ZZ : (fun k i => ys (F10 k i)) = fun _ _ => 0) by (apply functional_extensionality; intros k; apply Z1).
  destruct (str_eqb (c_solver c) (lit "oshun")); [|destruct (str_eqb (c_solver c) (lit "ampere")); [|contradiction]]; destruct H' as [E1 E2].
  - assert (EZ : forall x, implicit_e tri tab c (s_Z y) (s_ni y) ys (s_e y) x = 0).
    { intros x. unfold implicit_e. rewrite ZZ, CZ, j_zero. destruct (wall _ x); [reflexivity|]. unfold Rdiv. ring. }
    rewrite E1, E2, (P0 _ EZ). split; [intros x i Hx Hi; now apply F0S|]. split; [|exact EZ]. intros x i. destruct (wall g x); [reflexivity|]. rewrite ZZ, CZ. reflexivity.
  - assert (EZ : forall x, s_e y' x = 0) by (intros x; rewrite E1, He; replace (fun i => s_f y (F10 x i)) with (fun _ : nat => 0) by (apply functional_extensionality; intros i; now rewrite H1); rewrite ?Z1, j_zero; ring).
    rewrite <- E1 in E2. rewrite E2, (P0 _ EZ). split; [intros x i Hx Hi; now apply F0S|]. split; [|exact EZ]. intros x i. destruct (wall g x); [reflexivity|]. rewrite ZZ, CZ. reflexivity.
Qed.
Print Assumptions C70_uniform.

(** Mirror images (slab geometry): x -> -x reverses f10 and the field. *)
Definition mirrored (g : vgrid) (y y' : vix -> R) : Prop :=
  (forall x i, (x < n_x g)%nat -> y' (F0 x i) = y (F0 (n_x g - 1 - x) i)) /\ (forall x i, (x <= n_x g)%nat -> y' (F10 x i) = - y (F10 (n_x g - x) i)).
Lemma mirrored_rel g : linear_rel (mirrored g).
Proof. intros a x y x' y' [A B] [C D]. split; intros k i H; [now rewrite A, C|rewrite B, D by exact H; ring]. Qed.
Lemma ghosts_mirror g f f' k : (1 <= n_x g)%nat -> (forall x, (x < n_x g)%nat -> f' x = f (n_x g - 1 - x)%nat) -> (k <= n_x g + 1)%nat -> ghosts g f' k = ghosts g f (n_x g + 1 - k).
Proof.
  intros N H Hk. destruct k as [|x].
  - replace (n_x g + 1 - 0)%nat with (S (n_x g)) by lia. cbn [ghosts]. destruct (Nat.ltb_spec (n_x g) (n_x g)); [lia|]. destruct (periodic g); rewrite H by lia; f_equal; lia.
  - cbn [ghosts]. destruct (Nat.ltb_spec x (n_x g)).
    + rewrite H by lia. replace (n_x g + 1 - S x)%nat with (S (n_x g - 1 - x)) by lia. cbn [ghosts]. destruct (Nat.ltb_spec (n_x g - 1 - x) (n_x g)); [reflexivity|lia].
    + replace (n_x g + 1 - S x)%nat with 0%nat by lia. cbn [ghosts]. destruct (periodic g); rewrite H by lia; f_equal; lia.
Qed.
Lemma wall_mirror g x : (x <= n_x g)%nat -> wall g (n_x g - x) = wall g x.
Proof. intros H. unfold wall. f_equal. destruct (Nat.eqb_spec (n_x g - x) 0), (Nat.eqb_spec (n_x g - x) (n_x g)), (Nat.eqb_spec x 0), (Nat.eqb_spec x (n_x g)); try reflexivity; lia. Qed.
Lemma ddv_f1_opp g f i : ddv_f1 g (fun j => - f j) i = - ddv_f1 g f i.
Proof. unfold ddv_f1, gradient. cbn [prepend]. destruct (Nat.eqb _ _); destruct i; cbn [prepend]; unfold Rdiv; ring. Qed.
Theorem C70_mirror : forall tab g e e' y y', usable g -> spherical g = false -> mirrored g y y' -> (forall x, (x <= n_x g)%nat -> e' x = - e (n_x g - x)%nat) ->
  mirrored g (push_vdfdx tab g y) (push_vdfdx tab g y') /\ mirrored g (push_edfdv tab g e y) (push_edfdv tab g e' y').
Proof.
  intros tab g e e' y y' U SP M E. destruct U as (N & U'). split.
  - unfold push_vdfdx, push_edfdv; apply (rk_rel (mirrored g)); [apply mirrored_rel| |exact M]. clear M y y'. intros t y y' [A B]. split; intros x i Hx; cbn [vdfdx].
    + unfold div_e2c. rewrite SP. unfold ddx_e2c. rewrite !B by lia. replace (S (n_x g - 1 - x)) with (n_x g - x)%nat by lia. replace (n_x g - S x)%nat with (n_x g - 1 - x)%nat by lia. unfold Rdiv. ring.
    + rewrite wall_mirror by exact Hx. destruct (wall g x); [ring|]. unfold ddx_c2e. rewrite !(ghosts_mirror g (fun c => y (F0 c i)) (fun c => y' (F0 c i))) by (auto; lia).
      replace (n_x g + 1 - S x)%nat with (n_x g - x)%nat by lia. replace (n_x g + 1 - x)%nat with (S (n_x g - x)) by lia. unfold Rdiv. ring.
  - unfold push_vdfdx, push_edfdv; apply (rk_rel (mirrored g)); [apply mirrored_rel| |exact M]. clear M y y'. intros t y y' [A B]. split; intros x i Hx; cbn [edfdv].
    + assert (F : forall j, interp_e2c (fun k => y' (F10 k j)) x = - interp_e2c (fun k => y (F10 k j)) (n_x g - 1 - x)).
      { intros j. unfold interp_e2c. rewrite !B by lia. replace (S (n_x g - 1 - x)) with (n_x g - x)%nat by lia. replace (n_x g - S x)%nat with (n_x g - 1 - x)%nat by lia. ring. }
      assert (EE : interp_e2c e' x = - interp_e2c e (n_x g - 1 - x)).
      { unfold interp_e2c. rewrite !E by lia. replace (S (n_x g - 1 - x)) with (n_x g - x)%nat by lia. replace (n_x g - S x)%nat with (n_x g - 1 - x)%nat by lia. ring. }
      rewrite F, EE. rewrite (functional_extensionality _ _ F). rewrite ddv_f1_opp. unfold Rdiv. ring.
    + rewrite wall_mirror by exact Hx. destruct (wall g x); [ring|]. rewrite E by lia.
      assert (F : forall j, interp_c2e g (fun c => y' (F0 c j)) x = interp_c2e g (fun c => y (F0 c j)) (n_x g - x)).
      { intros j. unfold interp_c2e. rewrite !(ghosts_mirror g (fun c => y (F0 c j)) (fun c => y' (F0 c j))) by (auto; lia).
        replace (n_x g + 1 - S x)%nat with (n_x g - x)%nat by lia. replace (n_x g + 1 - x)%nat with (S (n_x g - x)) by lia. ring. }
      rewrite (functional_extensionality _ _ F). ring.
Qed.
Print Assumptions C70_mirror.

(** ** The field solvers *)
Definition tri_linear (tri : tri_solver) : Prop := forall n op a x z i, tri n op (fun j => x j + a * z j) i = tri n op x i + a * tri n op z i.
Lemma ros_linear g p a x z i : ros_i g (fun j => x j + a * z j) p i = ros_i g x p i + a * ros_i g z p i /\ ros_j g (fun j => x j + a * z j) p i = ros_j g x p i + a * ros_j g z p i.
Proof.
  unfold ros_i, ros_j.
  assert (D : forall n w (u s : nat -> R), rsum n (fun j => w j * (u j + a * s j)) = rsum n (fun j => w j * u j) + a * rsum n (fun j => w j * s j)).
  { intros n w u s. rewrite <- rsum_scal, <- rsum_plus. apply rsum_ext. intros; ring. }
  split.
  - rewrite (D _ (fun j => powerRZ (v_at g j) (2 + p)) x z). ring.
  - rewrite (D _ (fun k => powerRZ (v_at g (i + k)) (2 + p)) (fun k => x (i + k)%nat) (fun k => z (i + k)%nat)). ring.
Qed.
Lemma flm_linear tri g c l Z ni f0 dt b : tri_linear tri -> forall a x z i,
  flm_solve tri g c l Z ni f0 (fun j => x j + a * z j) dt b i = flm_solve tri g c l Z ni f0 x dt b i + a * flm_solve tri g c l Z ni f0 z dt b i.
Proof.
  intros T a x z i. unfold flm_solve. destruct (flm_full c); [|unfold Rdiv; ring]. rewrite T. destruct b; [|ring]. unfold offdiag.
  rewrite !(proj1 (ros_linear g _ a x z i)), !(proj2 (ros_linear g _ a x z i)). destruct (Nat.ltb 1 l); ring.
Qed.
Lemma j_linear g a x z : calc_j g (fun j => x j + a * z j) = calc_j g x + a * calc_j g z.
Proof.
  unfold calc_j. rewrite (rsum_ext _ (fun i => (x i + a * z i) * v_at g i ^ 3) (fun i => x i * v_at g i ^ 3 + a * (z i * v_at g i ^ 3))) by (intros; ring).
  rewrite rsum_plus, rsum_scal. ring.
Qed.
Lemma euler_step {I} rhs t dt (y : I -> R) i : rk_step rk_euler rhs t dt y i = y i + dt * rhs (t + 0 * dt) y i.
Proof. unfold rk_step, rk_euler. cbn [rk_rows rk_b rk_stages app]. unfold comb at 1. cbn [combine map fst snd]. change (lsum [?x]) with (x + 0). rewrite comb_nil. ring. Qed.
(** The "oshun" field: taken to first order in the time step (Euler tableau), the field found is the one for which the
    current after acceleration and anisotropic collisions vanishes at every edge where the probe changed the current. *)
Theorem C70_current_first_order : forall tri c y y' ys f0s, tri_linear tri ->
  let g := c_grid c in
  let probe x := Rabs (s_e y x) * (1 / 10 ^ 6) + 1 / 10 ^ 12 in
  let current e x := calc_j g (collide_edges tri c (s_Z y) (s_ni y) f0s (fun k i => push_edfdv rk_euler g e ys (F10 k i)) x) in
  (forall x i, ys (F0 x i) = f0s x i) ->
  s_e y' = implicit_e tri rk_euler c (s_Z y) (s_ni y) ys (s_e y) ->
  forall x, wall g x = false -> current probe x <> current (fun _ => 0) x -> current (s_e y') x = 0.
Proof.
  intros tri c y y' ys f0s T g probe current HF E x W N.
  set (G := fun i => ddv g (fun j => interp_c2e g (fun k => ys (F0 k j)) x) i).
  set (K := fun f => calc_j g (flm_solve tri g (c_flm c) 1 (interp_c2e g (s_Z y) x) (interp_c2e g (s_ni y) x) (fun i => interp_c2e g (fun k => f0s k i) x) f (d_t g) true)).
  assert (KL : forall a u w, K (fun i => u i + a * w i) = K u + a * K w).
  { intros a u w. unfold K. rewrite <- j_linear. f_equal. apply functional_extensionality. intros i. now apply flm_linear. }
  assert (CU : forall e, current e x = K (fun i => ys (F10 x i)) + d_t g * e x * K G).
  { intros e. rewrite <- KL. unfold current, collide_edges, K. fold g. do 2 f_equal. apply functional_extensionality. intros i. unfold push_edfdv. rewrite euler_step. cbn [edfdv]. rewrite W. fold (G i). ring. }
  assert (EX : s_e y' x = - K (fun i => ys (F10 x i)) * probe x / (current probe x - K (fun i => ys (F10 x i)))).
  { rewrite E. unfold implicit_e. fold g. rewrite W. replace (fun k i => ys (F0 k i)) with f0s by (apply functional_extensionality; intros k; apply functional_extensionality; intros i; now rewrite HF). reflexivity. }
  rewrite !CU in N. rewrite CU, EX, CU. set (J := K (fun i => ys (F10 x i))) in *. set (A := K G) in *. clearbody J A.
  assert (d_t g * probe x * A <> 0) by (intros C; apply N; lra).
  field. intros C. apply H. lra.
Qed.
Print Assumptions C70_current_first_order.
(** In a complete step: at every edge the final current vanishes, or no field at all could have changed it. *)
Theorem C70_current_step : forall tri c y y', tri_linear tri -> c_solver c = lit "oshun" -> vfp_step tri rk_euler c y y' ->
  let g := c_grid c in
  exists f0s, (forall x, (x < n_x g)%nat -> f0_collide c (s_Z y x) (s_ni y x) (fun i => push_vdfdx rk_euler g (s_f y) (F0 x i)) (f0s x)) /\ let ys ix := match ix with F0 x i => f0s x i | F10 x i => push_vdfdx rk_euler g (s_f y) (F10 x i) end in
  let current e x := calc_j g (collide_edges tri c (s_Z y) (s_ni y) f0s (fun k i => push_edfdv rk_euler g e ys (F10 k i)) x) in
  forall x, calc_j g (fun i => s_f y' (F10 x i)) = 0 \/ (forall e, current e x = current (fun _ => 0) x).
Proof.
  intros tri c y y' T SO (f0s & HC & _ & _ & H) g. exists f0s. split; [exact HC|]. cbv zeta in H. rewrite SO in H. change (str_eqb (lit "oshun") (lit "oshun")) with true in H. destruct H as [E1 E2]. fold g in E1, E2.
  intros ys current x. fold ys in E1, E2. rewrite <- E1 in E2. destruct (wall g x) eqn:W.
  - left. rewrite E2, W. apply j_zero.
  - set (probe := fun x => Rabs (s_e y x) * (1 / 10 ^ 6) + 1 / 10 ^ 12).
    destruct (Req_dec (current probe x) (current (fun _ => 0) x)) as [Q|Q].
    + right. intros e. revert Q. unfold current, collide_edges. fold g.
      set (K := fun f => calc_j g (flm_solve tri g (c_flm c) 1 (interp_c2e g (s_Z y) x) (interp_c2e g (s_ni y) x) (fun i => interp_c2e g (fun k => f0s k i) x) f (d_t g) true)).
      assert (KL : forall a u w, K (fun i => u i + a * w i) = K u + a * K w).
      { intros a u w. unfold K. rewrite <- j_linear. f_equal. apply functional_extensionality. intros i. now apply flm_linear. }
      set (G := fun i => ddv g (fun j => interp_c2e g (fun k => ys (F0 k j)) x) i).
      assert (CU : forall e, (fun i => push_edfdv rk_euler g e ys (F10 x i)) = (fun i => ys (F10 x i) + (d_t g * e x) * G i)).
      { intros e'. apply functional_extensionality. intros i. unfold push_edfdv. rewrite euler_step. cbn [edfdv]. rewrite W. fold (G i). ring. }
      rewrite !CU. fold (K (fun i => ys (F10 x i) + d_t g * probe x * G i)). fold (K (fun i => ys (F10 x i) + d_t g * 0 * G i)). fold (K (fun i => ys (F10 x i) + d_t g * e x * G i)).
      rewrite !KL. intros Q. assert (P : 0 < probe x) by (unfold probe; pose proof (Rabs_pos (s_e y x)); assert (0 < 1 / 10 ^ 6) by lra; assert (0 < 1 / 10 ^ 12) by lra; nra).
      assert (Z : d_t g * K G = 0) by (assert (probe x * (d_t g * K G) = 0) by nra; destruct (Rmult_integral _ _ H); [lra|assumption]). replace (d_t g * e x * K G) with (e x * (d_t g * K G)) by ring. rewrite Z. ring.
    + left. rewrite E2, W. refine (C70_current_first_order tri c y y' ys f0s T _ E1 x W Q). reflexivity.
Qed.
Print Assumptions C70_current_step.
(** The "ampere" field: a current in the direction +x (electrons moving to -x) RAISES the field, at every step of every
    run -- Ampere's law dE/dt = - j has the opposite sign. *)
Theorem C70_ampere_sign : forall tri tab c y y' x, c_solver c = lit "ampere" -> 0 < d_t (c_grid c) -> vfp_step tri tab c y y' ->
  let j := calc_j (c_grid c) (fun i => push_vdfdx tab (c_grid c) (s_f y) (F10 x i)) in
  (0 < j -> s_e y x < s_e y' x) /\ (j < 0 -> s_e y' x < s_e y x).
Proof.
  intros tri tab c y y' x S D (f0s & _ & _ & _ & H) j. rewrite S in H. cbv zeta in H. cbn [str_eqb lit] in H.
  change (str_eqb (lit "ampere") (lit "oshun")) with false in H. change (str_eqb (lit "ampere") (lit "ampere")) with true in H. destruct H as [E _].
  assert (E' : s_e y' x = s_e y x + d_t (c_grid c) * (1 / 10 ^ 6) * j) by (rewrite E; reflexivity). rewrite E'.
  assert (0 < d_t (c_grid c) * (1 / 10 ^ 6)) by (apply Rmult_lt_0_compat; lra). split; intros; nra.
Qed.
Print Assumptions C70_ampere_sign.

(** ** Examples *)
Definition ex_grid : vgrid := {| n_x := 2; n_v := 3; x_min := 0; x_max := 2; v_max := 3; d_t := 1; bnd := lit "periodic"; geom := lit "cartesian" |}.
Definition ex_flm : flm := {| flm_Z := 1; flm_nuee := 1; flm_loglam := 1; flm_full := false; flm_nl := 1 |}.
Definition ex_cfg (s : str) : vcfg :=
  {| c_grid := ex_grid; c_model := NullModel; c_scheme := SCentral; c_beta := fun _ => 1; c_nuee := 1; c_flm := ex_flm; c_D0 := 0; c_vosc2 := 0; c_w0 := 1; c_solver := s |}.
Definition ex_tri : tri_solver := fun _ _ f => f.
Example ex_usable : usable ex_grid.
Proof. unfold usable, ex_grid; cbn [n_x n_v x_min x_max v_max]. repeat split; try lia; try lra. Qed.
Definition ex_sphere : vgrid := {| n_x := 2; n_v := 3; x_min := 0; x_max := 2; v_max := 3; d_t := 1; bnd := lit "reflective"; geom := lit "spherical" |}.
Example ex_sphere_usable : usable ex_sphere.
Proof.
  unfold usable, ex_sphere; cbn [n_x n_v x_min x_max v_max]. do 4 (split; [first [lia|lra]|]). unfold grid_ok, spherical, reflective. cbn [geom bnd x_min].
  destruct (Rlt_dec 0 0); [lra|]. reflexivity.
Qed.
(** With the collisionless model and no heating the isotropic solve returns its input. *)
Lemma ex_collide s Z ni f : f0_collide (ex_cfg s) Z ni f f.
Proof.
  unfold f0_collide, implicit_step. exists (fun _ => 0). split; [|intros; ring]. intros i Hi.
  cbn [ex_cfg c_grid c_model c_scheme c_D0 c_nuee scheme_of get_operator model_C model_D].
  assert (Z0 : forall k, heated_D (v_at ex_grid) (fun _ : nat => 0) 0 (ib_on (ex_cfg s)) (ib_ratio (ex_cfg s) Z ni) k = 0).
  { intros k. unfold heated_D, ib_on. cbn [ex_cfg c_vosc2]. destruct (Rlt_dec 0 0); [lra|]. unfold Rdiv. ring. }
  unfold central, mv, assemble. cbn [diagonal upper lower]. rewrite !Z0.
  destruct i as [|k]; rewrite ?Z0; destruct (Nat.ltb _ _); unfold Rdiv; ring.
Qed.
(** Steps exist, with both solvers, from any state. *)
Example ex_steps : forall tri tab y, (exists y', vfp_step tri tab (ex_cfg (lit "oshun")) y y') /\ (exists y', vfp_step tri tab (ex_cfg (lit "ampere")) y y').
Proof.
  intros tri tab y. split.
  - eexists {| s_Z := s_Z y; s_ni := s_ni y |}. exists (fun x i => push_vdfdx tab ex_grid (s_f y) (F0 x i)). split; [intros x _; apply ex_collide|]. cbn. repeat split; reflexivity.
  - eexists {| s_Z := s_Z y; s_ni := s_ni y |}. exists (fun x i => push_vdfdx tab ex_grid (s_f y) (F0 x i)). split; [intros x _; apply ex_collide|]. cbn. repeat split; reflexivity.
Qed.

(** "The field never changes the number of electrons" is false if the largest speeds are populated. *)
Definition small_grid : vgrid := {| n_x := 1; n_v := 2; x_min := 0; x_max := 1; v_max := 2; d_t := 1; bnd := lit "periodic"; geom := lit "cartesian" |}.
Example small_usable : usable small_grid.
Proof. unfold usable, small_grid; cbn [n_x n_v x_min x_max v_max]. repeat split; try lia; try lra. Qed.
Theorem C70_tail_refuted : exists g e y, usable g /\ bc g y /\ number g (push_edfdv rk_euler g e y) <> number g y.
Proof.
  exists small_grid, (fun _ => 1), (fun ix => match ix with F0 _ _ => 0 | F10 _ _ => 1 end). split; [exact small_usable|]. split; [intros i; reflexivity|].
  rewrite number_push by exact small_usable. cbn [rk_euler rk_rows rk_b rk_inputs combine map fst snd]. rewrite comb_nil. change (lsum [?a]) with (a + 0).
  set (E := escape _ _ _). assert (EV : E = 17 / 12); [|change (d_t small_grid) with 1; intros C; lra].
  unfold E, escape, tail. cbn [small_grid n_x n_v rsum]. change (spherical small_grid) with false. rewrite !v_formula by exact small_usable. unfold d_v, vol, d_x. cbn [small_grid n_x n_v v_max x_max x_min Nat.sub INR].
  change (spherical _) with false. cbv iota. field.
Qed.
Print Assumptions C70_tail_refuted.
(** "The power given to a cell is exactly field times current" is false: the discrete identity has the term of C70_work. *)
Theorem C70_joule_refuted : ~ (forall g e t y x, usable g ->
  let f i := (y (F10 x i) + y (F10 (S x) i)) / 2 in let ec := (e x + e (S x)) / 2 in
  f (n_v g - 1)%nat = 0 -> f (n_v g - 2)%nat = 0 ->
  2 * PI * d_v g * rsum (n_v g) (fun i => v_at g i ^ 4 * edfdv g e t y (F0 x i)) = ec * calc_j g f).
Proof.
  intros H. specialize (H ex_grid (fun _ => 1) 0 (fun ix => match ix with F10 _ O => 1 | _ => 0 end) 0%nat ex_usable). cbv zeta in H.
  rewrite (C70_work ex_grid (fun _ => 1) 0 _ 0%nat ex_usable) in H by (cbn; field). specialize (H ltac:(cbn; field) ltac:(cbn; field)). cbv zeta in H.
  assert (Z : 8 * PI / 3 * ((1 + 1) / 2) * d_v ex_grid ^ 2 * (d_v ex_grid * rsum (n_v ex_grid) (fun i => v_at ex_grid i * (((match i with O => 1 | _ => 0 end) + (match i with O => 1 | _ => 0 end)) / 2))) = 0) by lra.
  assert (DV : d_v ex_grid = 1) by (unfold d_v; cbn [ex_grid v_max n_v INR]; field).
  change (n_v ex_grid) with 3%nat in Z. cbn [rsum] in Z. rewrite (v_formula ex_grid 0 ex_usable), DV in Z. change (INR 0) with 0 in Z. pose proof PI_RGT_0. lra.
Qed.
Print Assumptions C70_joule_refuted.
(** The third field solver, "edfdv-ampere-implicit", subtracts an array with one row per edge from one with one row
    per centre: the shapes do not broadcast on any grid of two or more cells. *)
Theorem C70_implicit_shapes : forall g, (2 <= n_x g)%nat -> res_f0_rows g = None.
Proof.
  intros g H. unfold res_f0_rows, broadcast. destruct (Nat.eqb_spec (n_x g) (n_x g + 1)); [lia|]. destruct (Nat.eqb_spec (n_x g) 1); [lia|]. destruct (Nat.eqb_spec (n_x g + 1) 1); [lia|]. reflexivity.
Qed.
Print Assumptions C70_implicit_shapes.
(** The grid: accepted geometries, cell centres strictly inside, run length. *)
Theorem C70_grid : forall g, (grid_ok g = true <-> geom g = lit "cartesian" \/ (geom g = lit "spherical" /\ 0 <= x_min g /\ bnd g = lit "reflective")) /\
  forall tmax dt, 0 <= tmax -> 0 < dt -> tmax < v_tmax tmax dt <= tmax + dt /\
  ((v_nt tmax dt <= v_max_steps (v_nt tmax dt))%Z <-> tmax < 1000000 * dt) /\
  (tmax < 1000000 * dt -> v_max_steps (v_nt tmax dt) = (v_nt tmax dt + 4)%Z).
Proof.
  intros g. split.
  - unfold grid_ok, spherical, reflective. split.
    + intros H. apply andb_prop in H. destruct H as [H1 H2]. destruct (str_eqb (geom g) (lit "spherical")) eqn:S.
      * right. apply str_eqb_eq in S. split; [exact S|]. apply andb_prop in H2. destruct H2 as [H2 H3]. apply str_eqb_eq in H3. split; [|exact H3]. destruct (Rlt_dec (x_min g) 0); [discriminate|lra].
      * left. rewrite Bool.orb_false_r in H1. now apply str_eqb_eq.
    + intros [H|(H & X & B)]; rewrite H; [reflexivity|]. rewrite B. destruct (Rlt_dec (x_min g) 0); [lra|reflexivity].
  - intros tmax dt H0 Hd. assert (Q : 0 <= tmax / dt) by (apply Rmult_le_pos; [lra|left; now apply Rinv_0_lt_compat]).
    assert (T : IZR (trunc (tmax / dt)) <= tmax / dt < IZR (trunc (tmax / dt)) + 1) by (rewrite trunc_pos by exact Q; apply floor_spec).
    assert (M : tmax = dt * (tmax / dt)) by (field; lra). set (q := tmax / dt) in *. unfold v_tmax, v_nt. fold q. rewrite plus_IZR.
    split; [rewrite M; split; nra|]. unfold v_max_steps. destruct (Z.ltb_spec 1000000 (trunc q + 1)) as [L|L]; (split; [split|]); intros K; try lia.
    + exfalso. assert (q < 1000000) by nra. assert (A : (1000000 <= trunc q)%Z) by lia. apply IZR_le in A. lra.
    + exfalso. assert (q < 1000000) by nra. assert (A : (1000000 <= trunc q)%Z) by lia. apply IZR_le in A. lra.
    + assert (A : (trunc q <= 999999)%Z) by lia. apply IZR_le in A. nra.
Qed.
Print Assumptions C70_grid.
