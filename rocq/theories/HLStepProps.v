(** C95: one step of the Hermite-Legendre solver. *)
From Coq Require Import Reals Lra Lia ZArith List Bool Psatz.
From Verif Require Import HermitePoisson HPProps HPForceProps HPStepProps Legendre GaussInt HermLeg HLBasis HermLegProps HLForceProps HLColl HLCollProps HLCollProps2 HLStep RSum Pic PicProofs PicFourier Dft.
Import ListNotations.
Local Open Scope R_scope.

(* ------------------------------------------------------------------------------------------------ *)
(** * Specification *)
(** The saved invariants of a state; C92 relates them to the velocity moments of f0 + df. *)
Definition mass (c : hlcfg) (y : hst) : R := sv_mass (hl_alpha c) (hl_va c) (hl_vb c) (hl_Lx c) (hl_Nh c) (hl_Nl c) (k0 (fst y)) (k0 (snd y)).
Definition momentum (c : hlcfg) (y : hst) : R := sv_momentum (hl_alpha c) (hl_u c) (hl_va c) (hl_vb c) (hl_Lx c) (hl_Nh c) (hl_Nl c) (k0 (fst y)) (k0 (snd y)).
Definition energy (c : hlcfg) (y : hst) (e : nat -> R) : R :=
  sv_energy (hl_alpha c) (hl_u c) (hl_va c) (hl_vb c) (hl_Lx c) (hl_Nh c) (hl_Nl c) (hl_nx c) (k0 (fst y)) (k0 (snd y)) e.
(** The electric field of a state. *)
Definition field (c : hlcfg) (y : hst) : nat -> R := hl_self c y.
(** What init_diffeqsolve passes as collision operator (modules.py:404-427). *)
Definition collision_ok (c : hlcfg) : Prop :=
  hl_coll c = None \/ exists nu Tmin, 0 < nu /\
    (hl_coll c = Some (fun s y => coll_grid (hl_nx c) (fun a b => (bgk_C (hl_M c) (hl_alpha c) (hl_u c) Tmin nu s a b, bgk_B nu s b)) (fst y) (snd y)) \/
     exists ev V, hl_coll c = Some (fun s y => coll_grid (hl_nx c) (dg_apply (hl_Nl c) (hl_va c) (hl_vb c) ev V (hl_M c) (hl_alpha c) (hl_u c) Tmin (nu * s)) (fst y) (snd y))).

(* ------------------------------------------------------------------------------------------------ *)
(** * Three by three algebra *)
Ltac r3 := cbn [rsum Nat.modulo Nat.divmod Nat.add Nat.sub fst snd].
Lemma cof_unf G : (cof G 0 0 = G 1%nat 1%nat * G 2%nat 2%nat - G 1%nat 2%nat * G 2%nat 1%nat) /\
  (cof G 0 1 = G 1%nat 2%nat * G 2%nat 0%nat - G 1%nat 0%nat * G 2%nat 2%nat) /\ (cof G 0 2 = G 1%nat 0%nat * G 2%nat 1%nat - G 1%nat 1%nat * G 2%nat 0%nat) /\
  (cof G 1 0 = G 2%nat 1%nat * G 0%nat 2%nat - G 2%nat 2%nat * G 0%nat 1%nat) /\ (cof G 1 1 = G 2%nat 2%nat * G 0%nat 0%nat - G 2%nat 0%nat * G 0%nat 2%nat) /\
  (cof G 1 2 = G 2%nat 0%nat * G 0%nat 1%nat - G 2%nat 1%nat * G 0%nat 0%nat) /\ (cof G 2 0 = G 0%nat 1%nat * G 1%nat 2%nat - G 0%nat 2%nat * G 1%nat 1%nat) /\
  (cof G 2 1 = G 0%nat 2%nat * G 1%nat 0%nat - G 0%nat 0%nat * G 1%nat 2%nat) /\ (cof G 2 2 = G 0%nat 0%nat * G 1%nat 1%nat - G 0%nat 1%nat * G 1%nat 0%nat).
Proof. repeat split; reflexivity. Qed.
Lemma inv3_right G i r : det3 G <> 0 -> (i < 3)%nat -> (r < 3)%nat -> rsum 3 (fun j => G i j * inv3 G j r) = if (i =? r)%nat then 1 else 0.
Proof.
  intros D Hi Hr. destruct (cof_unf G) as (E00 & E01 & E02 & E10 & E11 & E12 & E20 & E21 & E22).
  assert (X : rsum 3 (fun j => G i j * inv3 G j r) = rsum 3 (fun j => G i j * cof G r j) / det3 G) by (unfold inv3; cbn [rsum]; field; exact D).
  assert (Y : rsum 3 (fun j => G i j * cof G r j) = if (i =? r)%nat then det3 G else 0).
  { unfold det3. destruct i as [|[|[|i]]], r as [|[|[|r]]]; try lia; cbn [Nat.eqb rsum]; rewrite ?E00, ?E01, ?E02, ?E10, ?E11, ?E12, ?E20, ?E21, ?E22; ring. }
  rewrite X, Y. destruct (i =? r)%nat; field; exact D.
Qed.
Lemma gram_det c : 0 < hl_alpha c -> 0 < det3 (gram (hl_M c)).
Proof.
  intros Ha. destruct (cof_unf (gram (hl_M c))) as (E00 & E01 & E02 & _). unfold det3. cbn [rsum]. rewrite E00, E01, E02. clear E00 E01 E02.
  assert (P2 : 0 < sqrt 2) by (apply sqrt_lt_R0; lra). unfold gram, hl_M, moment_matrix. cbn [rsum nth].
  set (a := hl_alpha c) in *. set (b := hl_u c * a). set (cc := a ^ 2 / sqrt 2).
  assert (Pc : 0 < cc) by (apply Rdiv_lt_0_compat; [apply pow_lt; exact Ha|exact P2]).
  assert (Ph : 0 < a ^ 3 / (2 * sqrt 2)) by (apply Rdiv_lt_0_compat; [apply pow_lt; exact Ha|lra]).
  set (h := a ^ 3 / (2 * sqrt 2)) in *. set (f := 1 / 2 * a * (a ^ 2 / 2 + hl_u c ^ 2)). set (g := a ^ 2 * hl_u c / sqrt 2).
  set (w := hl_width c). set (d := w * lT (hl_va c) (hl_vb c) 0 0). set (j := w * lT (hl_va c) (hl_vb c) 0 1 * lT (hl_va c) (hl_vb c) 0 0). set (e := w * lT (hl_va c) (hl_vb c) 0 1).
  set (i := 1 / 2 * w * (lT (hl_va c) (hl_vb c) 0 1 ^ 2 + lT (hl_va c) (hl_vb c) 0 0 ^ 2)).
  set (k := 1 / 2 * w * lT (hl_va c) (hl_vb c) 1 2 * lT (hl_va c) (hl_vb c) 0 1).
  clearbody a b cc h f g w d e i j k.
  assert (P : 0 < (a * cc * h) ^ 2) by (apply pow_lt; apply Rmult_lt_0_compat; [apply Rmult_lt_0_compat|]; assumption).
  (* Cauchy-Binet: the determinant is the sum of the squares of the 3x3 minors *)
  set (m3 := fun p0 q0 r0 p1 q1 r1 p2 q2 r2 : R => p0 * (q1 * r2 - r1 * q2) - q0 * (p1 * r2 - r1 * p2) + r0 * (p1 * q2 - q1 * p2)).
  match goal with |- 0 < ?X => replace X with ((a * cc * h) ^ 2
     + (m3 a 0 w b cc d f g i) ^ 2 + (m3 a 0 0 b cc e f g j) ^ 2 + (m3 a 0 0 b cc 0 f g k) ^ 2
     + (m3 a 0 w b 0 d f h i) ^ 2 + (m3 a 0 0 b 0 e f h j) ^ 2 + (m3 a 0 0 b 0 0 f h k) ^ 2
     + (m3 a w 0 b d e f i j) ^ 2 + (m3 a w 0 b d 0 f i k) ^ 2 + (m3 a 0 0 b e 0 f j k) ^ 2
     + (m3 0 0 w cc 0 d g h i) ^ 2 + (m3 0 0 0 cc 0 e g h j) ^ 2 + (m3 0 0 0 cc 0 0 g h k) ^ 2
     + (m3 0 w 0 cc d e g i j) ^ 2 + (m3 0 w 0 cc d 0 g i k) ^ 2 + (m3 0 0 0 cc e 0 g j k) ^ 2
     + (m3 0 w 0 0 d e h i j) ^ 2 + (m3 0 w 0 0 d 0 h i k) ^ 2 + (m3 0 0 0 0 e 0 h j k) ^ 2
     + (m3 w 0 0 d e 0 i j k) ^ 2) by (unfold m3; ring) end.
  repeat match goal with |- context [m3 ?a ?b ?c ?d ?e ?f ?g ?h ?i ^ 2] => let H := fresh in pose proof (pow2_ge_0 (m3 a b c d e f g h i)) as H; generalize dependent (m3 a b c d e f g h i ^ 2); intros end.
  lra.
Qed.
(** M (M^T (M M^T)^-1 d) = d. *)
Lemma project_right c d r : 0 < hl_alpha c -> (r < 3)%nat ->
  rsum 6 (fun i => hl_M c r i * rsum 3 (fun s => projector (hl_M c) i s * d s)) = d r.
Proof.
  intros Ha Hr. pose proof (gram_det c Ha) as D.
  transitivity (rsum 3 (fun s => rsum 3 (fun j => gram (hl_M c) r j * inv3 (gram (hl_M c)) j s) * d s)).
  - transitivity (rsum 3 (fun s => rsum 6 (fun i => hl_M c r i * projector (hl_M c) i s) * d s)).
    + rewrite (rsum_ext 6 _ (fun i => rsum 3 (fun s => hl_M c r i * projector (hl_M c) i s * d s))) by (intros; rewrite <- rsum_scal; apply rsum_ext; intros; ring).
      rewrite rsum_swap. apply rsum_ext. intros s _. cbn [rsum]. ring.
    + apply rsum_ext. intros s _. f_equal. unfold projector, gram.
      rewrite (rsum_ext 6 _ (fun i => rsum 3 (fun j => hl_M c r i * hl_M c j i * inv3 (fun i0 j0 => rsum 6 (fun c0 => hl_M c i0 c0 * hl_M c j0 c0)) j s))) by (intros; rewrite <- rsum_scal; apply rsum_ext; intros; ring).
      rewrite rsum_swap. apply rsum_ext. intros j _. rewrite Rmult_comm, <- rsum_scal. apply rsum_ext. intros; ring.
  - rewrite (rsum_ext 3 _ (fun s => (if (r =? s)%nat then 1 else 0) * d s)) by (intros s Hs; rewrite inv3_right by (auto; lra); reflexivity).
    destruct r as [|[|[|r]]]; [| | |lia]; cbn [rsum Nat.eqb]; ring.
Qed.

(* ------------------------------------------------------------------------------------------------ *)
(** * The k = 0 modes and the field *)
Lemma iok_0 c : hl_iok c 0%nat = 0. Proof. reflexivity. Qed.
Lemma finv_k0 nx (X Y : nat -> cplx) g : (0 < nx)%nat -> (forall k, (0 < k < nx)%nat -> X k = Y k) -> finv nx X g = cadd (finv nx Y g) (csub (X 0%nat) (Y 0%nat)).
Proof.
  intros Hx H. assert (E : finv nx X g = finv nx (fun k => cadd (Y k) (if (k =? 0)%nat then csub (X 0%nat) (Y 0%nat) else c0)) g).
  { apply finv_ext. intros k Hk. destruct (Nat.eqb_spec k 0) as [->|Hn]; [|rewrite H by lia]; unfold csub, cneg, cadd, c0; apply cplx_eq; cbn [fst snd]; ring. }
  rewrite E, finv_add. f_equal. rewrite (finv_const nx _ g) by (first [exact Hx | intros k Hk; destruct (Nat.eqb_spec k 0); [lia|reflexivity]]). reflexivity.
Qed.
(** The field does not see the spatial means. *)
Lemma field_k0 c C C' B B' g : (0 < hl_nx c)%nat -> (forall k, (0 < k < hl_nx c)%nat -> C 0%nat k = C' 0%nat k) -> (forall k, (0 < k < hl_nx c)%nat -> B 0%nat k = B' 0%nat k) ->
  hl_field (hl_nx c) (hl_alpha c) (hl_width c) (hl_iok c) C B g = hl_field (hl_nx c) (hl_alpha c) (hl_width c) (hl_iok c) C' B' g.
Proof.
  intros Hx HC HB. unfold hl_field. f_equal. apply finv_ext. intros k Hk. destruct k as [|k].
  - rewrite iok_0. unfold cmul. apply cplx_eq; cbn [fst snd]; ring.
  - f_equal. unfold hl_rho.
    rewrite (ffwd_ext (hl_nx c) _ (fun g' => cadd ((1 - hl_alpha c * fst (finv (hl_nx c) (C' 0%nat) g') - hl_width c * fst (finv (hl_nx c) (B' 0%nat) g')), 0)
       (- hl_alpha c * fst (csub (C 0%nat 0%nat) (C' 0%nat 0%nat)) - hl_width c * fst (csub (B 0%nat 0%nat) (B' 0%nat 0%nat)), 0))).
    + rewrite ffwd_add, ffwd_const by exact Hk. cbn [Nat.eqb]. apply cadd_c0.
    + intros g' _. rewrite (finv_k0 _ (C 0%nat) (C' 0%nat) g' Hx HC), (finv_k0 _ (B 0%nat) (B' 0%nat) g' Hx HB). unfold cadd. apply cplx_eq; cbn [fst snd]; ring.
Qed.
Lemma self_k0 c y y' g : (0 < hl_nx c)%nat -> (forall k, (0 < k < hl_nx c)%nat -> fst y 0%nat k = fst y' 0%nat k) -> (forall k, (0 < k < hl_nx c)%nat -> snd y 0%nat k = snd y' 0%nat k) ->
  hl_self c y g = hl_self c y' g.
Proof. intros. unfold hl_self. destruct (hl_field_on c); [|reflexivity]. apply field_k0; auto. Qed.

Lemma energy_eq c y e : hl_va c < hl_vb c -> (3 <= hl_Nh c)%nat -> (3 <= hl_Nl c)%nat ->
  mass c y = hl_Lx c * moments (hl_M c) (k0 (fst y)) (k0 (snd y)) 0 /\ momentum c y = hl_Lx c * moments (hl_M c) (k0 (fst y)) (k0 (snd y)) 1 /\
  energy c y e = hl_Lx c * (moments (hl_M c) (k0 (fst y)) (k0 (snd y)) 2 + 1 / 2 * mean_sq (hl_nx c) e).
Proof.
  intros Hv HN HL. destruct (C92_saved_invariants (hl_alpha c) (hl_u c) (hl_va c) (hl_vb c) (hl_Lx c) (hl_Nh c) (hl_Nl c) (hl_nx c) (k0 (fst y)) (k0 (snd y)) e Hv) as (A & B & C).
  unfold mass, momentum, energy. rewrite A, B, C. 
  assert (X : forall r, moments (moment_matrix (hl_alpha c) (hl_u c) (lT (hl_va c) (hl_vb c)) (hl_vb c - hl_va c)) (cut (hl_Nh c) (k0 (fst y))) (cut (hl_Nl c) (k0 (snd y))) r = moments (hl_M c) (k0 (fst y)) (k0 (snd y)) r).
  { intros r. unfold hl_M, hl_width. apply moments_ext; intros n Hn; unfold cut; [destruct (Nat.ltb_spec n (hl_Nh c))|destruct (Nat.ltb_spec n (hl_Nl c))]; (reflexivity || lia). }
  rewrite !X. repeat split. unfold mean_sq, Rdiv. ring.
Qed.

(* ------------------------------------------------------------------------------------------------ *)
(** * Theorems: the conservation correction *)
(** The correction restores the target mass, momentum and total-energy densities for every state and every target, only adds
    real numbers to the spatial means of C_0..C_2, B_0..B_2, leaves the electric field alone, and its reported norm is the size of the
    change. Among all such changes that reach the target it is the only smallest one. *)
Theorem C95_correction : forall c y target, 0 < hl_alpha c -> (0 < hl_nx c)%nat ->
  let o := hl_correct c y target in
  (forall r, (r < 3)%nat -> moment_density c (fst o) (field c (fst o)) r = target r) /\
  (forall g, field c (fst o) g = field c y g) /\
  (forall n k, (3 <= n \/ 0 < k)%nat -> fst (fst o) n k = fst y n k /\ snd (fst o) n k = snd y n k) /\
  (forall n, snd (fst (fst o) n 0%nat) = snd (fst y n 0%nat) /\ snd (snd (fst o) n 0%nat) = snd (snd y n 0%nat)) /\
  snd o ^ 2 = rsum 3 (fun n => (k0 (fst (fst o)) n - k0 (fst y) n) ^ 2 + (k0 (snd (fst o)) n - k0 (snd y) n) ^ 2) /\
  forall dC dB, let y' := (add_k0 (fst y) dC, add_k0 (snd y) dB) in
    (forall r, (r < 3)%nat -> moment_density c y' (field c y') r = target r) ->
    snd o ^ 2 <= rsum 3 (fun n => dC n ^ 2 + dB n ^ 2) /\
    (rsum 3 (fun n => dC n ^ 2 + dB n ^ 2) <= snd o ^ 2 -> forall n, (n < 3)%nat -> dC n = k0 (fst (fst o)) n - k0 (fst y) n /\ dB n = k0 (snd (fst o)) n - k0 (snd y) n).
Proof.
  intros c y target Ha Hx o. set (d := low_delta c y target).
  assert (FL : forall dC dB g, field c (add_k0 (fst y) dC, add_k0 (snd y) dB) g = field c y g).
  { intros dC dB g. apply self_k0; auto; intros k Hk; cbn [fst snd]; unfold add_k0; destruct (Nat.eqb_spec k 0); try lia; rewrite andb_false_r; reflexivity. }
  assert (MD : forall dC dB r, (r < 3)%nat -> moment_density c (add_k0 (fst y) dC, add_k0 (snd y) dB) (field c (add_k0 (fst y) dC, add_k0 (snd y) dB)) r
     = moment_density c y (field c y) r + rsum 6 (fun i => hl_M c r i * low6 dC dB i)).
  { intros dC dB r Hr. unfold moment_density. cbn [fst snd].
    rewrite (moments_ext _ (k0 (add_k0 (fst y) dC)) (fun n => 1 * k0 (fst y) n + 1 * dC n) (k0 (add_k0 (snd y) dB)) (fun n => 1 * k0 (snd y) n + 1 * dB n)).
    - rewrite moments_lin. unfold mean_sq. rewrite (rsum_ext (hl_nx c) _ (fun g => field c y g ^ 2)) by (intros; rewrite FL; reflexivity). unfold moments. ring.
    - intros n Hn. unfold k0, add_k0. destruct (Nat.ltb_spec n 3); [|lia]. cbn [andb Nat.eqb]. unfold cadd. cbn [fst]. ring.
    - intros n Hn. unfold k0, add_k0. destruct (Nat.ltb_spec n 3); [|lia]. cbn [andb Nat.eqb]. unfold cadd. cbn [fst]. ring. }
  assert (L6 : forall i, (i < 6)%nat -> low6 d (fun n => d (n + 3)%nat) i = d i) by (intros i Hi; unfold low6; destruct (Nat.ltb_spec i 3); [reflexivity|f_equal; lia]).
  assert (PR : forall r, (r < 3)%nat -> rsum 6 (fun i => hl_M c r i * low6 d (fun n => d (n + 3)%nat) i) = target r - moment_density c y (field c y) r).
  { intros r Hr. rewrite (rsum_ext 6 _ (fun i => hl_M c r i * d i)) by (intros; rewrite L6 by auto; reflexivity). unfold d, low_delta.
    rewrite (project_right c (fun r => target r - moment_density c y (hl_self c y) r) r Ha Hr). reflexivity. }
  assert (DC : forall n, (n < 3)%nat -> k0 (fst (fst o)) n - k0 (fst y) n = d n /\ k0 (snd (fst o)) n - k0 (snd y) n = d (n + 3)%nat).
  { intros n Hn. unfold o, hl_correct. cbn [fst snd]. unfold k0, add_k0. destruct (Nat.ltb_spec n 3); [|lia]. cbn [andb Nat.eqb]. unfold cadd. cbn [fst]. fold d. split; ring. }
  assert (NN : snd o ^ 2 = rsum 6 (fun i => d i ^ 2)).
  { unfold o, hl_correct. cbn [snd]. cbn [pow]. rewrite Rmult_1_r. apply sqrt_sqrt. apply rsum_nonneg. intros. apply pow2_ge_0. }
  split; [|split; [|split; [|split; [|split]]]].
  - intros r Hr. unfold o, hl_correct. cbn [fst]. fold d. rewrite MD, PR by exact Hr. ring.
  - intros g. unfold o, hl_correct. cbn [fst]. apply FL.
  - intros n k Hnk. unfold o, hl_correct. cbn [fst snd]. unfold add_k0. destruct (Nat.ltb_spec n 3), (Nat.eqb_spec k 0); cbn [andb]; (lia || auto).
  - intros n. unfold o, hl_correct. cbn [fst snd]. unfold add_k0. destruct ((n <? 3)%nat && (0 =? 0)%nat)%bool; unfold cadd; cbn [fst snd]; split; ring.
  - rewrite NN. rewrite (rsum_ext 3 _ (fun n => d n ^ 2 + d (n + 3)%nat ^ 2)) by (intros n Hn; destruct (DC n Hn) as [-> ->]; reflexivity). cbn [rsum Nat.add]. ring.
  - intros dC dB y' HT. set (e := low6 dC dB).
    assert (SE : rsum 3 (fun n => dC n ^ 2 + dB n ^ 2) = rsum 6 (fun i => e i ^ 2)) by (unfold e, low6; cbn [rsum Nat.ltb Nat.leb Nat.sub]; ring).
    assert (ME : forall r, (r < 3)%nat -> rsum 6 (fun i => hl_M c r i * e i) = rsum 6 (fun i => hl_M c r i * d i)).
    { intros r Hr. specialize (HT r Hr). unfold y' in HT. rewrite MD in HT by exact Hr. fold e in HT. pose proof (PR r Hr) as Q.
      rewrite (rsum_ext 6 _ (fun i => hl_M c r i * d i)) in Q by (intros; rewrite L6 by auto; reflexivity). lra. }
    (* d is in the range of M^T, so it is orthogonal to e - d *)
    assert (OR : rsum 6 (fun i => d i * (e i - d i)) = 0).
    { set (lam := fun j => rsum 3 (fun r => inv3 (gram (hl_M c)) j r * (target r - moment_density c y (hl_self c y) r))).
      assert (DL : forall i, d i = rsum 3 (fun j => hl_M c j i * lam j)).
      { intros i. unfold d, low_delta, projector, lam. rewrite (rsum_ext 3 _ (fun r => rsum 3 (fun j => hl_M c j i * (inv3 (gram (hl_M c)) j r * (target r - moment_density c y (hl_self c y) r))))) by (intros; rewrite Rmult_comm, <- rsum_scal; apply rsum_ext; intros; ring).
        rewrite rsum_swap. apply rsum_ext. intros j _. rewrite <- rsum_scal. reflexivity. }
      transitivity (rsum 3 (fun j => lam j * (rsum 6 (fun i => hl_M c j i * e i) - rsum 6 (fun i => hl_M c j i * d i)))).
      - rewrite (rsum_ext 6 _ (fun i => rsum 3 (fun j => lam j * (hl_M c j i * (e i - d i))))).
        + rewrite rsum_swap. apply rsum_ext. intros j _. rewrite rsum_scal. f_equal. rewrite <- rsum_minus. apply rsum_ext. intros; ring.
        + intros i _. rewrite (DL i) at 1. rewrite Rmult_comm, <- rsum_scal. apply rsum_ext. intros; ring.
      - rewrite (rsum_ext 3 _ (fun _ => 0)) by (intros j Hj; rewrite ME by exact Hj; ring). apply rsum_zero. }
    assert (PY : rsum 6 (fun i => e i ^ 2) = rsum 6 (fun i => d i ^ 2) + rsum 6 (fun i => (e i - d i) ^ 2)).
    { rewrite (rsum_ext 6 (fun i => e i ^ 2) (fun i => d i ^ 2 + (e i - d i) ^ 2 + 2 * (d i * (e i - d i)))) by (intros; ring). rewrite !rsum_plus, rsum_scal, OR. ring. }
    assert (Q0 : 0 <= rsum 6 (fun i => (e i - d i) ^ 2)) by (apply rsum_nonneg; intros; apply pow2_ge_0).
    rewrite NN, SE, PY. split; [lra|]. intros HL.
    assert (Z : forall i, (i < 6)%nat -> e i = d i).
    { intros i Hi. assert (Hs : (e i - d i) ^ 2 <= rsum 6 (fun i => (e i - d i) ^ 2)).
      { clear -Hi. set (q := fun i => (e i - d i) ^ 2). change (q i <= rsum 6 q). assert (forall i, 0 <= q i) by (intros; apply pow2_ge_0).
        pose proof (H 0%nat); pose proof (H 1%nat); pose proof (H 2%nat); pose proof (H 3%nat); pose proof (H 4%nat); pose proof (H 5%nat).
        clearbody q. destruct i as [|[|[|[|[|[|i]]]]]]; try lia; cbn [rsum]; lra. }
      pose proof (pow2_ge_0 (e i - d i)). assert (E0 : (e i - d i) ^ 2 = 0) by lra. apply Rsqr_0_uniq in E0 || (cbn [pow] in E0; rewrite Rmult_1_r in E0; apply Rmult_integral in E0; destruct E0; lra). }
    intros n Hn. destruct (DC n Hn) as [-> ->]. pose proof (Z n ltac:(lia)) as Z1. pose proof (Z (n + 3)%nat ltac:(lia)) as Z2. unfold e, low6 in Z1, Z2.
    destruct (Nat.ltb_spec n 3); [|lia]. destruct (Nat.ltb_spec (n + 3) 3); [lia|]. replace (n + 3 - 3)%nat with n in Z2 by lia. auto.
Qed.
Print Assumptions C95_correction.

(** Collisions keep the spatial averages of the three moments and the field. *)
Lemma coll_mean c f C B r : (0 < hl_nx c)%nat -> (forall a b, moments (hl_M c) (fst (f a b)) (snd (f a b)) r = moments (hl_M c) a b r) ->
  moments (hl_M c) (k0 (fst (coll_grid (hl_nx c) f C B))) (k0 (snd (coll_grid (hl_nx c) f C B))) r = moments (hl_M c) (k0 C) (k0 B) r.
Proof.
  intros Hx Hf. set (nx := hl_nx c) in *. assert (N : 0 < INR nx) by (apply lt_0_INR; lia).
  assert (K : forall A n, k0 A n = / INR nx * rsum nx (fun g => fst (finv nx (A n) g))).
  { intros A n. unfold k0. pose proof (ffwd_re nx (A n) 0 ltac:(lia)) as E. rewrite ffwd_0 in E. apply (f_equal fst) in E. unfold cscal in E at 1. cbn [fst] in E.
    rewrite csum_fst in E. cbn [fst] in E. rewrite E. unfold mir. cbn [Nat.eqb]. unfold cscal, cadd, conj. cbn [fst]. field. }
  assert (MM : forall (u v : nat -> nat -> R), moments (hl_M c) (fun n => / INR nx * rsum nx (fun g => u g n)) (fun n => / INR nx * rsum nx (fun g => v g n)) r = / INR nx * rsum nx (fun g => moments (hl_M c) (u g) (v g) r)).
  { intros u v. unfold moments. rewrite rsum_swap, <- rsum_scal. apply rsum_ext. intros i _. rewrite rsum_scal. unfold low6. destruct (i <? 3)%nat; ring. }
  assert (S1 : moments (hl_M c) (k0 C) (k0 B) r = / INR nx * rsum nx (fun g => moments (hl_M c) (fun n => fst (finv nx (C n) g)) (fun n => fst (finv nx (B n) g)) r)).
  { rewrite <- MM. apply moments_ext; intros; apply K. }
  rewrite S1. transitivity (/ INR nx * rsum nx (fun g => moments (hl_M c) (fst (f (fun n => fst (finv nx (C n) g)) (fun m => fst (finv nx (B m) g)))) (snd (f (fun n => fst (finv nx (C n) g)) (fun m => fst (finv nx (B m) g)))) r)).
  - rewrite <- MM. apply moments_ext; intros n _; rewrite K; f_equal; apply rsum_ext; intros g Hg; unfold coll_grid; cbn [fst snd]; rewrite finv_ffwd by exact Hg; reflexivity.
  - f_equal. apply rsum_ext. intros g _. apply Hf.
Qed.
Lemma collide_keeps c y : collision_ok c -> 0 < hl_alpha c -> (0 < hl_nx c)%nat ->
  (forall r, (r < 3)%nat -> moments (hl_M c) (k0 (fst (hl_collide c y))) (k0 (snd (hl_collide c y))) r = moments (hl_M c) (k0 (fst y)) (k0 (snd y)) r) /\
  (forall g, (g < hl_nx c)%nat -> hl_self c (hl_collide c y) g = hl_self c y g).
Proof.
  intros HC Ha Hx. unfold hl_collide. destruct HC as [->|(nu & Tmin & Hnu & [HC|(ev & V & HC)])]; [auto| |]; rewrite HC; split.
  - intros r Hr. apply coll_mean; auto. intros a b. apply (proj1 (C94_conservation (hl_alpha c) (hl_u c) (hl_va c) (hl_vb c) Tmin a b r Ha Hr)).
  - intros g Hg. unfold hl_self. destruct (hl_field_on c); [|reflexivity].
    apply (C94_field_unchanged (hl_nx c) (hl_alpha c) (hl_u c) (hl_va c) (hl_vb c) Tmin nu (1 / 2 * hl_dt c) (hl_Nl c) (fun _ => 0) (fun _ _ => 0) 0 (hl_iok c) (hl_iok c) (fst y) (snd y) g Ha Hg).
  - intros r Hr. apply coll_mean; auto. intros a b. apply (proj2 (C94_conservation (hl_alpha c) (hl_u c) (hl_va c) (hl_vb c) Tmin a b r Ha Hr)).
  - intros g Hg. unfold hl_self. destruct (hl_field_on c); [|reflexivity].
    apply (C94_field_unchanged (hl_nx c) (hl_alpha c) (hl_u c) (hl_va c) (hl_vb c) Tmin 0 0 (hl_Nl c) ev V (nu * (1 / 2 * hl_dt c)) (hl_iok c) (hl_iok c) (fst y) (snd y) g Ha Hg).
Qed.

(* ------------------------------------------------------------------------------------------------ *)
(** * Theorems: conservation over a run *)
Lemma split_invariants c t y : 0 < hl_alpha c -> (0 < hl_nx c)%nat -> hl_enforce c = true -> hl_driver c = None -> forall r, (r < 3)%nat ->
  moment_density c (fst (fst (hl_split c t y))) (field c (fst (fst (hl_split c t y)))) r = moment_density c y (field c y) r.
Proof.
  intros Ha Hx He Hd r Hr. unfold hl_split. rewrite He, Hd. cbn [andb fst].
  apply (proj1 (C95_correction c _ (moment_density c y (hl_self c y)) Ha Hx) r Hr).
Qed.
Lemma invariants_eq c y y' : hl_va c < hl_vb c -> (3 <= hl_Nh c)%nat -> (3 <= hl_Nl c)%nat ->
  (forall r, (r < 3)%nat -> moment_density c y' (field c y') r = moment_density c y (field c y) r) ->
  mass c y' = mass c y /\ momentum c y' = momentum c y /\ energy c y' (field c y') = energy c y (field c y).
Proof.
  intros Hv HN HL H. destruct (energy_eq c y (field c y) Hv HN HL) as (A & B & C). destruct (energy_eq c y' (field c y') Hv HN HL) as (A' & B' & C').
  rewrite A, A', B, B', C, C'. pose proof (H 0%nat ltac:(lia)) as H0. pose proof (H 1%nat ltac:(lia)) as H1. pose proof (H 2%nat ltac:(lia)) as H2.
  unfold moment_density in H0, H1, H2. cbn [Nat.eqb] in H0, H1, H2. repeat split; f_equal; lra.
Qed.
Lemma collide_md c y : collision_ok c -> 0 < hl_alpha c -> (0 < hl_nx c)%nat -> forall r, (r < 3)%nat ->
  moment_density c (hl_collide c y) (field c (hl_collide c y)) r = moment_density c y (field c y) r.
Proof.
  intros HC Ha Hx r Hr. destruct (collide_keeps c y HC Ha Hx) as [M F]. unfold moment_density. rewrite (M r Hr). do 2 f_equal. unfold mean_sq.
  destruct (r =? 2)%nat; [|reflexivity]. do 2 f_equal. apply rsum_ext. intros g Hg. unfold field. rewrite F by exact Hg. reflexivity.
Qed.
(** With the split integrator, conservation enforced and no external driver, a run of any length keeps the saved mass, momentum
    and total energy exactly: for every initial state, step size, number of field iterations, dealiasing, edge damping, penalty,
    coupling, eigen-decompositions and collision operator (field on or off). *)
Theorem C95_split_conserves : forall c n t y, 0 < hl_alpha c -> (0 < hl_nx c)%nat -> hl_va c < hl_vb c -> (3 <= hl_Nh c)%nat -> (3 <= hl_Nl c)%nat ->
  hl_integ c = Split -> hl_enforce c = true -> hl_driver c = None -> collision_ok c ->
  let y' := hl_run c t n y in mass c y' = mass c y /\ momentum c y' = momentum c y /\ energy c y' (field c y') = energy c y (field c y).
Proof.
  intros c n t y Ha Hx Hv HN HL HI He Hd HC y'. apply invariants_eq; auto. unfold y'. clear y'. revert t y.
  induction n as [|n IH]; intros t y r Hr; [reflexivity|]. cbn [hl_run]. rewrite IH by exact Hr.
  unfold hl_step. cbn [o_state]. rewrite collide_md by assumption. unfold hl_advance. rewrite HI. rewrite split_invariants by assumption. apply collide_md; assumption.
Qed.
Print Assumptions C95_split_conserves.

(** The field the step returns is the field of the returned state, so the saved energy uses a consistent pair. *)
Theorem C95_outputs : forall c t y, let o := hl_step c t y in
  (forall g, o_e o g = field c (o_state o) g) /\
  (hl_field_on c = false -> forall g, o_e o g = 0 /\ o_phi o g = 0) /\
  (hl_driver c = None -> forall g, o_de o g = 0) /\ (forall d, hl_driver c = Some d -> forall g, o_de o g = d (t + hl_dt c) g) /\
  (hl_integ c <> Split \/ hl_enforce c = false \/ hl_driver c <> None -> o_correction o = 0) /\
  (hl_integ c <> Split -> o_residual o = 0) /\ 0 <= o_residual o /\ 0 <= o_correction o.
Proof.
  intros c t y o. unfold o, hl_step. cbn [o_e o_state o_phi o_de o_correction o_residual].
  assert (R0 : forall E E', 0 <= hl_residual c E E').
  { intros E E'. unfold hl_residual, Rdiv. apply Rmult_le_pos; [apply sqrt_pos|]. left. apply Rinv_0_lt_compat. eapply Rlt_le_trans; [|apply Rmax_r]. apply tiny_pos. }
  split; [|split; [|split; [|split; [|split; [|split; [|split]]]]]].
  - intros g. unfold field, hl_self. destruct (hl_field_on c); reflexivity.
  - intros ->. auto.
  - intros Hd g. unfold hl_ext. rewrite Hd. reflexivity.
  - intros d Hd g. unfold hl_ext. rewrite Hd. reflexivity.
  - unfold hl_advance, hl_split. destruct (hl_integ c); auto. intros [H|[H|H]]; [congruence| |]; [rewrite H; reflexivity|]. destruct (hl_driver c); [|congruence]. rewrite andb_false_r. reflexivity.
  - unfold hl_advance. destruct (hl_integ c); auto. congruence.
  - unfold hl_advance, hl_split. destruct (hl_integ c); cbn [fst snd]; try lra. destruct (hl_enforce c && _)%bool; cbn [fst snd]; apply R0.
  - unfold hl_advance, hl_split. destruct (hl_integ c); cbn [fst snd]; try lra. destruct (hl_enforce c && _)%bool; cbn [fst snd]; [|lra]. unfold hl_correct. cbn [snd]. apply sqrt_pos.
Qed.
Print Assumptions C95_outputs.

(** The returned field has zero mean and satisfies Gauss's law d e/dx = 1 - alpha C_0 - (v_b - v_a) B_0 mode by mode, except at the
    Nyquist wavenumber; and e = - d phi/dx there. *)
Definition charge_density (c : hlcfg) (y : hst) (g : nat) : R := 1 - hl_alpha c * fst (finv (hl_nx c) (fst y 0%nat) g) - hl_width c * fst (finv (hl_nx c) (snd y 0%nat) g).
Lemma field_spectral c y g : (g < hl_nx c)%nat -> hl_field (hl_nx c) (hl_alpha c) (hl_width c) (hl_iok c) (fst y) (snd y) g = spectral_poisson (hl_nx c) (hl_dx c) None (charge_density c y) g.
Proof.
  intros Hg. rewrite <- (Rminus_0_r (spectral_poisson _ _ _ _ _)).
  transitivity (poisson1d (hl_nx c) (hl_dx c) (fun _ => 0) (charge_density c y) g).
  - unfold hl_field, poisson1d. f_equal. apply finv_ext. intros k Hk. f_equal.
    + unfold cmul, hl_iok. apply cplx_eq; cbn [fst snd]; ring.
    + apply ffwd_ext. intros h Hh. unfold hl_rho, charge_density. apply cplx_eq; cbn [fst snd]; ring.
  - rewrite poisson_spectral by exact Hg. rewrite Rminus_0_r. unfold spectral_poisson. f_equal. apply ifft_ext. intros k Hk. f_equal. apply fft_ext. intros; ring.
Qed.
Theorem C95_gauss : forall c t y, (0 < hl_nx c)%nat -> hl_Lx c <> 0 -> hl_field_on c = true ->
  let o := hl_step c t y in
  rsum (hl_nx c) (o_e o) = 0 /\
  (forall m, (0 < m < hl_nx c)%nat -> (2 * m <> hl_nx c)%nat ->
     cmul (0, hl_kx c m) (fft (hl_nx c) (o_e o) m) = fft (hl_nx c) (charge_density c (o_state o)) m /\
     fft (hl_nx c) (o_e o) m = cmul (0, - hl_kx c m) (fft (hl_nx c) (o_phi o) m)).
Proof.
  intros c t y Hx HL Hf o. assert (Nx : INR (hl_nx c) <> 0) by (apply not_0_INR; lia).
  assert (Hd : hl_dx c <> 0) by (unfold hl_dx, Rdiv; apply Rmult_integral_contrapositive_currified; [exact HL|apply Rinv_neq_0_compat; exact Nx]).
  set (s := o_state o).
  assert (FE : forall g, (g < hl_nx c)%nat -> o_e o g = spectral_poisson (hl_nx c) (hl_dx c) None (charge_density c s) g).
  { intros g Hg. rewrite <- field_spectral by exact Hg. unfold s, o, hl_step. cbn [o_e o_state]. rewrite Hf. reflexivity. }
  split; [rewrite (rsum_ext _ _ _ FE); apply poisson_mean; exact Hx|]. intros m Hm H2.
  assert (GL : cmul (0, hl_kx c m) (fft (hl_nx c) (o_e o) m) = fft (hl_nx c) (charge_density c s) m).
  { rewrite (fft_ext (hl_nx c) _ _ m FE). pose proof (gauss_law (hl_nx c) (hl_dx c) None (charge_density c s) m Hd Hm H2) as G. cbn [total_charge] in G. unfold hl_kx.
    match goal with |- cmul _ ?X = ?Y => transitivity (cmul (0, 1) (cscal (kx (hl_nx c) (hl_dx c) m) X)); [creal|]; rewrite G; creal end. }
  split; [exact GL|].
  assert (K0 : hl_kx c m <> 0) by (apply kx_nonzero; auto).
  assert (PH : fft (hl_nx c) (o_phi o) m = cscal (/ hl_kx c m ^ 2) (fft (hl_nx c) (charge_density c s) m)).
  { assert (CH : forall k, ffwd (hl_nx c) (fun g' => (hl_rho (hl_nx c) (hl_alpha c) (hl_width c) (fst s) (snd s) g', 0)) k = cscal (/ INR (hl_nx c)) (fft (hl_nx c) (charge_density c s) k)) by (intros; unfold ffwd; rewrite fft_emb; reflexivity).
    rewrite fft_emb. transitivity (cscal (INR (hl_nx c)) (ffwd (hl_nx c) (emb (o_phi o)) m)); [unfold ffwd; rewrite cscal_cscal, Rinv_r, cscal_1 by exact Nx; reflexivity|].
    assert (OP : forall g, o_phi o g = fst (finv (hl_nx c) (fun k => if Rlt_dec 0 (hl_kx c k ^ 2) then cscal (/ hl_kx c k ^ 2) (cscal (/ INR (hl_nx c)) (fft (hl_nx c) (charge_density c s) k)) else c0) g)).
    { intros g. unfold o at 1, hl_step. cbn [o_phi]. rewrite Hf. unfold hl_potential. f_equal. apply finv_ext. intros k Hk. destruct (Rlt_dec 0 (hl_kx c k ^ 2)); [|reflexivity]. f_equal. apply CH. }
    unfold emb. rewrite (ffwd_ext (hl_nx c) _ (fun g => (fst (finv (hl_nx c) (fun k => if Rlt_dec 0 (hl_kx c k ^ 2) then cscal (/ hl_kx c k ^ 2) (cscal (/ INR (hl_nx c)) (fft (hl_nx c) (charge_density c s) k)) else c0) g), 0))) by (intros; rewrite OP; reflexivity).
    rewrite ffwd_re by lia. unfold mir. destruct (Nat.eqb_spec m 0); [lia|].
    assert (KM : hl_kx c (hl_nx c - m) = - hl_kx c m) by (apply kx_mirror; auto; lia).
    rewrite KM. replace ((- hl_kx c m) ^ 2) with (hl_kx c m ^ 2) by ring.
    assert (0 < hl_kx c m ^ 2) by (rewrite <- Rsqr_pow2; apply Rsqr_pos_lt; exact K0). destruct (Rlt_dec 0 (hl_kx c m ^ 2)); [|contradiction].
    rewrite (fft_mirror (hl_nx c) (charge_density c s) m) by lia. set (F := fft (hl_nx c) (charge_density c s) m). unfold cscal, cadd, conj. apply cplx_eq; cbn [fst snd]; field; auto. }
  rewrite PH, <- GL. unfold cscal, cmul. apply cplx_eq; cbn [fst snd]; field; exact K0.
Qed.
Print Assumptions C95_gauss.

(* ------------------------------------------------------------------------------------------------ *)
(** * Theorems: mass with the explicit and the semi-implicit integrator *)
Definition eigh_ok (c : hlcfg) : Prop :=
  is_eigh (hl_Nh c) (stream_T (hl_u c) (hl_alpha c)) (hl_evH c) (hl_VH c) /\ is_eigh (hl_Nl c) (lT (hl_va c) (hl_vb c)) (hl_evL c) (hl_VL c).
Lemma edge_low nu N C s n k : (n < 3)%nat -> edge_decay nu N C s n k = C n k.
Proof.
  intros Hn. unfold edge_decay. destruct (Req_EM_T nu 0); [reflexivity|]. unfold safe_col.
  assert (Z : INR n * (INR n - 1) * (INR n - 2) = 0) by (apply cubic_small; lia). destruct (3 <? N)%nat; [rewrite Z; unfold Rdiv; rewrite Rmult_0_l|].
  - rewrite Rmult_0_r, Rmult_0_l, exp_0. apply cscal_1.
  - rewrite Rmult_0_r, Rmult_0_l, exp_0. apply cscal_1.
Qed.
Lemma hl_kx_0 c : hl_kx c 0 = 0. Proof. apply kx_0. Qed.
(** Streaming and edge damping keep the spatial means of the first three modes of both bases. *)
Theorem C95_linear_means : forall c s y n, eigh_ok c -> (n < 3)%nat ->
  ((n < hl_Nh c)%nat -> fst (hl_linear c s y) n 0%nat = fst y n 0%nat) /\ ((n < hl_Nl c)%nat -> snd (hl_linear c s y) n 0%nat = snd y n 0%nat).
Proof.
  intros c s y n [EH EL] Hn. unfold hl_linear. cbn [fst snd]. split; intros H; rewrite edge_low by exact Hn; eapply stream_k0; eauto; apply hl_kx_0.
Qed.
Print Assumptions C95_linear_means.
Lemma lderiv_0 va vb i : lderiv va vb 0 i = 0. Proof. apply lderiv_lower. lia. Qed.
Lemma rhs_row0 c t y k : hl_gam c 0%nat = 0 -> hl_cv c 0%nat = 0 -> fst (hl_rhs c t y) 0%nat k = c0 /\ snd (hl_rhs c t y) 0%nat k = c0.
Proof.
  intros Hg Hc. assert (CR : forall C E, hl_cross c C E 0%nat k = c0) by (intros; unfold hl_cross, cross_coupling; rewrite Hc; apply cscal_0).
  assert (HF : forall E, hermite_force (hl_nx c) (hl_mask c) (hl_alpha c) (fst y) E 0%nat k = c0).
  { intros E. unfold hermite_force. rewrite (masked_ext _ _ (fun _ => c0)); [apply masked_c0|]. rewrite (ffwd_ext _ _ (fun _ => c0)); [apply ffwd_zero|]. intros g _. cbn [shift_up]. apply cscal_c0. }
  assert (LF : forall E, legendre_force (hl_Nl c) (hl_nx c) (hl_mask c) (hl_va c) (hl_vb c) (hl_gam c) (snd y) E 0%nat k = c0).
  { intros E. unfold legendre_force. rewrite (masked_ext _ _ (fun _ => c0)); [apply masked_c0|]. rewrite (ffwd_ext _ _ (fun _ => c0)); [apply ffwd_zero|]. intros g _. rewrite Hg.
    rewrite (csum_ext (hl_Nl c) (fun i => cscal (lderiv (hl_va c) (hl_vb c) 0 i) _) (fun _ => c0)) by (intros; rewrite lderiv_0; apply cscal_0). rewrite csum_zero.
    unfold Rdiv. rewrite Rmult_0_l. unfold cscal, csub, cneg, cadd, c0. apply cplx_eq; cbn [fst snd]; ring. }
  unfold hl_rhs. destruct (hl_integ c); cbn [fst snd]; rewrite ?CR, ?HF, ?LF; split; try reflexivity; apply cadd_c0.
Qed.
Lemma lawson_row0 c t y : eigh_ok c -> (0 < hl_Nh c)%nat -> (0 < hl_Nl c)%nat -> hl_gam c 0%nat = 0 -> hl_cv c 0%nat = 0 ->
  fst (hl_lawson c t y) 0%nat 0%nat = fst y 0%nat 0%nat /\ snd (hl_lawson c t y) 0%nat 0%nat = snd y 0%nat 0%nat.
Proof.
  intros E HN HL Hg Hc. assert (L : forall s a, fst (hl_linear c s a) 0%nat 0%nat = fst a 0%nat 0%nat /\ snd (hl_linear c s a) 0%nat 0%nat = snd a 0%nat 0%nat).
  { intros s a. destruct (C95_linear_means c s a 0 E ltac:(lia)) as [X Y]. auto. }
  assert (N : forall t a, fst (hl_rhs c t a) 0%nat 0%nat = c0 /\ snd (hl_rhs c t a) 0%nat 0%nat = c0) by (intros; apply rhs_row0; auto).
  unfold hl_lawson. cbv zeta. split.
  - assert (A : forall a b, fst (ladd a b) 0%nat 0%nat = cadd (fst a 0%nat 0%nat) (fst b 0%nat 0%nat)) by reflexivity.
    assert (S : forall a r, fst (lscale a r) 0%nat 0%nat = cscal r (fst a 0%nat 0%nat)) by reflexivity.
    rewrite A, S, !A, !S, !(fun s a => proj1 (L s a)), !(fun t a => proj1 (N t a)). creal.
  - assert (A : forall a b, snd (ladd a b) 0%nat 0%nat = cadd (snd a 0%nat 0%nat) (snd b 0%nat 0%nat)) by reflexivity.
    assert (S : forall a r, snd (lscale a r) 0%nat 0%nat = cscal r (snd a 0%nat 0%nat)) by reflexivity.
    rewrite A, S, !A, !S, !(fun s a => proj2 (L s a)), !(fun t a => proj2 (N t a)). creal.
Qed.
(** jnp.linalg.solve: a solution whenever the system has one (real and imaginary part). *)
Definition force_system (c : hlcfg) (N : nat) (G : nat -> nat -> R) : Prop :=
  (N = hl_Nh c /\ G = G_C (hl_alpha c)) \/ (N = hl_Nl c /\ G = G_B (hl_va c) (hl_vb c) (hl_gam c)).
Definition solve_ok (c : hlcfg) : Prop := forall N G s x, force_system c N G ->
  (exists X, be_solves N G s (re x) X) -> (exists X, be_solves N G s (im x) X) ->
  be_solves N G s (re x) (re (hl_solve c N G s x)) /\ be_solves N G s (im x) (im (hl_solve c N G s x)).
Definition force_regular (c : hlcfg) : Prop := forall s x, exists X, be_solves (hl_Nl c) (G_B (hl_va c) (hl_vb c) (hl_gam c)) s x X.
Lemma mvr_GB_row0 c X : hl_gam c 0%nat = 0 -> mvr (hl_Nl c) (G_B (hl_va c) (hl_vb c) (hl_gam c)) X 0 = 0.
Proof.
  intros Hg. rewrite mvr_GB, Hg. rewrite (rsum_ext (hl_Nl c) _ (fun _ => 0)) by (intros; rewrite lderiv_0; ring). rewrite rsum_zero. unfold Rdiv. ring.
Qed.
Lemma implicit_row0 c y E dt : solve_ok c -> force_regular c -> (0 < hl_Nh c)%nat -> (0 < hl_Nl c)%nat -> (0 < hl_nx c)%nat -> hl_gam c 0%nat = 0 -> hl_mask c = Some (mask23 (hl_nx c)) ->
  fst (hl_implicit c y E dt) 0%nat 0%nat = fst y 0%nat 0%nat /\ snd (hl_implicit c y E dt) 0%nat 0%nat = snd y 0%nat 0%nat.
Proof.
  intros SO FR HN HL Hx Hg Hm. unfold hl_implicit. cbn [fst snd]. rewrite Hm.
  assert (G : forall N G A, force_system c N G -> (0 < N)%nat -> (forall X, mvr N G X 0 = 0) -> (forall s x, exists X, be_solves N G s x X) ->
    masked (Some (mask23 (hl_nx c))) (ffwd (hl_nx c) (fun g => hl_solve c N G (dt * E g) (fun n' => finv (hl_nx c) (masked (Some (mask23 (hl_nx c))) (A n')) g) 0%nat)) 0%nat = A 0%nat 0%nat).
  { intros N G A FS HNN R0 EX. rewrite (masked_ext _ _ (masked (Some (mask23 (hl_nx c))) (A 0%nat)) 0).
    - unfold masked. rewrite mask_zero. reflexivity.
    - rewrite <- (ffwd_finv (hl_nx c) (masked (Some (mask23 (hl_nx c))) (A 0%nat)) 0 Hx). apply ffwd_ext. intros g Hg'.
      set (x := fun n' => finv (hl_nx c) (masked (Some (mask23 (hl_nx c))) (A n')) g).
      destruct (SO N G (dt * E g) x FS (EX _ _) (EX _ _)) as [P Q]. specialize (P 0%nat HNN). specialize (Q 0%nat HNN). rewrite R0 in P, Q. unfold re, im in P, Q. change (finv (hl_nx c) (masked (Some (mask23 (hl_nx c))) (A 0%nat)) g) with (x 0%nat). apply cplx_eq; lra. }
  split; apply G; auto; try (left; split; reflexivity); try (right; split; reflexivity).
  - intros X. rewrite mvr_GC by exact HN. reflexivity.
  - intros s x. exists (be_hermite (hl_alpha c) s x). apply (proj2 (C93_backward_euler (hl_Nh c) s x)). reflexivity.
  - intros X. apply mvr_GB_row0. exact Hg.
Qed.
Lemma moment0 c y : moments (hl_M c) (k0 (fst y)) (k0 (snd y)) 0 = hl_alpha c * k0 (fst y) 0 + hl_width c * k0 (snd y) 0.
Proof. unfold moments, low6, hl_M, moment_matrix. cbn [rsum nth Nat.ltb Nat.leb Nat.sub]. ring. Qed.
Lemma mass_eq c y : (0 < hl_Nh c)%nat -> (0 < hl_Nl c)%nat -> mass c y = hl_Lx c * moments (hl_M c) (k0 (fst y)) (k0 (snd y)) 0.
Proof.
  intros HN HL. rewrite moment0. unfold mass, sv_mass, intg, hl_width. destruct (Nat.ltb_spec 0 (hl_Nh c)), (Nat.ltb_spec 0 (hl_Nl c)); try lia. ring.
Qed.
(** With the Lawson or the IMEX integrator the saved mass is exact over a run of any length when the density modes carry no penalty
    and no coupling (the setup with conservation enforced), driver or not; IMEX needs its force systems to be solvable. *)
Theorem C95_mass : forall c n t y, 0 < hl_alpha c -> (0 < hl_nx c)%nat -> (0 < hl_Nh c)%nat -> (0 < hl_Nl c)%nat -> eigh_ok c ->
  hl_gam c 0%nat = 0 -> hl_cv c 0%nat = 0 -> collision_ok c ->
  (hl_integ c = Lawson \/ (hl_integ c = Imex /\ hl_mask c = Some (mask23 (hl_nx c)) /\ solve_ok c /\ force_regular c)) ->
  mass c (hl_run c t n y) = mass c y.
Proof.
  intros c n t y Ha Hx HN HL EO Hg Hc HC HI. rewrite !mass_eq by assumption. f_equal. revert t y.
  induction n as [|n IH]; intros t y; [reflexivity|]. cbn [hl_run]. rewrite IH. unfold hl_step. cbn [o_state].
  rewrite (proj1 (collide_keeps c _ HC Ha Hx) 0%nat ltac:(lia)). rewrite <- (proj1 (collide_keeps c y HC Ha Hx) 0%nat ltac:(lia)).
  rewrite !moment0. unfold hl_advance, k0. destruct HI as [->|(-> & Hm & SO & FR)]; cbn [fst snd].
  - destruct (lawson_row0 c t (hl_collide c y) EO HN HL Hg Hc) as [-> ->]. reflexivity.
  - destruct (implicit_row0 c (hl_lawson c t (hl_collide c y)) (hl_total c (t + hl_dt c) (hl_lawson c t (hl_collide c y))) (hl_dt c) SO FR HN HL Hx Hg Hm) as [-> ->].
    destruct (lawson_row0 c t (hl_collide c y) EO HN HL Hg Hc) as [-> ->]. reflexivity.
Qed.
Print Assumptions C95_mass.
