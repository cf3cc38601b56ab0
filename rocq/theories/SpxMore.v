(** Property C86, continued: free energy, collisions and filter, the two integrator paths, the external drive. *)
From Coq Require Import FunctionalExtensionality Reals Lra Lia ZArith List Bool Psatz.
From Verif Require Import HPForceProps Spectrax SpxProps SpxLaws RSum Pic PicProofs PicFourier Dft HPProps.
Local Open Scope R_scope.
Local Open Scope cx_scope.

(* ------------------------------------------------------------------------------------------------ *)
(** * Free energy: the sum of the squared moduli of all coefficients *)
Definition hsum (d : dims) (f : nat -> nat -> nat -> R) : R := rsum (d_p d) (fun p => rsum (d_m d) (fun m => rsum (d_n d) (fun n => f p m n))).
Lemma hsum_ext d f h : (forall p m n, in_dims d p m n -> f p m n = h p m n) -> hsum d f = hsum d h.
Proof. intros H. unfold hsum. apply rsum_ext. intros. apply rsum_ext. intros. apply rsum_ext. intros. apply H. unfold in_dims. auto. Qed.
Lemma hsum_plus d f h : hsum d (fun p m n => f p m n + h p m n) = hsum d f + hsum d h.
Proof. unfold hsum. rewrite <- rsum_plus. apply rsum_ext. intros. rewrite <- rsum_plus. apply rsum_ext. intros. apply rsum_plus. Qed.
Lemma hsum_scal d r f : hsum d (fun p m n => r * f p m n) = r * hsum d f.
Proof. unfold hsum. rewrite <- rsum_scal. apply rsum_ext. intros. rewrite <- rsum_scal. apply rsum_ext. intros. apply rsum_scal. Qed.
Lemma hsum_zero d : hsum d (fun _ _ _ => 0) = 0.
Proof. unfold hsum. rewrite (rsum_ext (d_p d) _ (fun _ => 0)); [apply rsum_zero|]. intros. rewrite (rsum_ext (d_m d) _ (fun _ => 0)); [apply rsum_zero|]. intros. apply rsum_zero. Qed.
Definition wed (a b : cplx) : R := fst a * snd b - snd a * fst b.
Definition dot (a b : cplx) : R := fst a * fst b + snd a * snd b.
(** The ladder along one axis is symmetric: it produces no free energy. *)
Lemma ladder_wed N (c : nat -> cplx) : (forall i, (N <= i)%nat -> c i = c0) ->
  rsum N (fun n => wed (c n) (sqrt (INR n + 1) *c c (n + 1)%nat +c sqrt (INR n) *c c (n - 1)%nat)) = 0.
Proof.
  intros Z. rewrite (rsum_ext N _ (fun n => (fun i => sqrt (INR i) * wed (c (i - 1)%nat) (c i)) (S n) - (fun i => sqrt (INR i) * wed (c (i - 1)%nat) (c i)) n)).
  - rewrite (rsum_telescope N (fun i => sqrt (INR i) * wed (c (i - 1)%nat) (c i))). rewrite (Z N) by lia. change (INR 0) with 0. rewrite sqrt_0. unfold wed, c0. cbn [fst snd]. ring.
  - intros n _. cbv beta. rewrite sm1, S_INR, Nat.add_1_r. unfold wed, cscal, cadd. cbn [fst snd]. ring.
Qed.
Lemma ext_out d C p m n : (d_p d <= p \/ d_m d <= m \/ d_n d <= n)%nat -> ext d C p m n = c0.
Proof.
  intros H. unfold ext. destruct (Nat.ltb_spec p (d_p d)), (Nat.ltb_spec m (d_m d)), (Nat.ltb_spec n (d_n d)); try lia; reflexivity.
Qed.
Lemma vel_wed d a u C i : (i < 3)%nat -> hsum d (fun p m n => wed (ext d C p m n) (vel a u i (ext d C) p m n)) = 0.
Proof.
  intros I. set (X := ext d C). unfold vel. destruct i as [|[|[|i]]]; [| | |lia]; unfold hsum.
  - rewrite (rsum_ext (d_p d) _ (fun _ => 0)); [apply rsum_zero|]. intros p P. rewrite (rsum_ext (d_m d) _ (fun _ => 0)); [apply rsum_zero|]. intros m M.
    rewrite (rsum_ext (d_n d) _ (fun n => (a 0%nat / sqrt 2) * wed (X p m n) (sqrt (INR n + 1) *c X p m (n + 1)%nat +c sqrt (INR n) *c X p m (n - 1)%nat))) by (intros; unfold wed, cadd, cscal; cbn [fst snd]; ring).
    rewrite rsum_scal, (ladder_wed (d_n d) (fun n => X p m n)) by (intros; apply ext_out; lia). ring.
  - rewrite (rsum_ext (d_p d) _ (fun _ => 0)); [apply rsum_zero|]. intros p P. rewrite rsum_swap. rewrite (rsum_ext (d_n d) _ (fun _ => 0)); [apply rsum_zero|]. intros n M.
    rewrite (rsum_ext (d_m d) _ (fun m => (a 1%nat / sqrt 2) * wed (X p m n) (sqrt (INR m + 1) *c X p (m + 1)%nat n +c sqrt (INR m) *c X p (m - 1)%nat n))) by (intros; unfold wed, cadd, cscal; cbn [fst snd]; ring).
    rewrite rsum_scal, (ladder_wed (d_m d) (fun m => X p m n)) by (intros; apply ext_out; lia). ring.
  - rewrite rsum_swap. rewrite (rsum_ext (d_m d) _ (fun _ => 0)); [apply rsum_zero|]. intros m P. rewrite rsum_swap. rewrite (rsum_ext (d_n d) _ (fun _ => 0)); [apply rsum_zero|]. intros n M.
    rewrite (rsum_ext (d_p d) _ (fun p => (a 2%nat / sqrt 2) * wed (X p m n) (sqrt (INR p + 1) *c X (p + 1)%nat m n +c sqrt (INR p) *c X (p - 1)%nat m n))) by (intros; unfold wed, cadd, cscal; cbn [fst snd]; ring).
    rewrite rsum_scal, (ladder_wed (d_p d) (fun p => X p m n)) by (intros; apply ext_out; lia). ring.
Qed.
(** Free streaming conserves the free energy of every wavevector, whatever the truncation. *)
Theorem C86_streaming_conserves : forall d a u ks C, ok_al a -> hsum d (fun p m n => dot (C p m n) (stream_rhs d a u ks C p m n)) = 0.
Proof.
  intros d a u ks C A.
  rewrite (hsum_ext d _ (fun p m n => (ks 0%nat * wed (ext d C p m n) (vel a u 0 (ext d C) p m n) + ks 1%nat * wed (ext d C p m n) (vel a u 1 (ext d C) p m n))
     + ks 2%nat * wed (ext d C p m n) (vel a u 2 (ext d C) p m n))).
  - rewrite !hsum_plus, !hsum_scal, !vel_wed by lia. ring.
  - intros p m n I. rewrite C86_streaming by assumption. rewrite <- (ext_in d C p m n I) at 1.
    generalize (ext d C p m n), (vel a u 0 (ext d C) p m n), (vel a u 1 (ext d C) p m n), (vel a u 2 (ext d C) p m n). intros.
    unfold dot, wed, cneg, cmul, cadd, cscal, cI. cbn [fst snd]. ring.
Qed.
Print Assumptions C86_streaming_conserves.
(** The rotation of a pair of axes is antisymmetric. *)
Lemma rot_dot M P (c : nat -> nat -> cplx) : (forall p m, (P <= p \/ M <= m)%nat -> c p m = c0) ->
  rsum P (fun p => rsum M (fun m => dot (c p m) ((sqrt (INR m) * sqrt (INR p + 1)) *c c (p + 1)%nat (m - 1)%nat -c (sqrt (INR m + 1) * sqrt (INR p)) *c c (p - 1)%nat (m + 1)%nat))) = 0.
Proof.
  intros Z. set (T := fun m p => sqrt (INR m) * sqrt (INR p + 1) * dot (c p m) (c (p + 1)%nat (m - 1)%nat)).
  rewrite (rsum_ext P _ (fun p => rsum M (fun m => T m p) - rsum M (fun m => match p with O => 0 | S q => T (S m) q end))).
  - rewrite rsum_minus. enough (E : rsum P (fun p => rsum M (fun m => match p with O => 0 | S q => T (S m) q end)) = rsum P (fun p => rsum M (fun m => T m p))) by (rewrite E; ring).
    destruct P as [|P]; [reflexivity|]. rewrite rsum_shift. rewrite rsum_zero, Rplus_0_l.
    change (rsum (S P) (fun p => rsum M (fun m => T m p))) with (rsum P (fun p => rsum M (fun m => T m p)) + rsum M (fun m => T m P)).
    assert (L : rsum M (fun m => T m P) = 0).
    { rewrite (rsum_ext M _ (fun _ => 0)); [apply rsum_zero|]. intros m _. unfold T. rewrite (Z (P + 1)%nat) by lia. unfold dot, c0. cbn [fst snd]. ring. }
    rewrite L, Rplus_0_r. apply rsum_ext. intros p _.
    assert (E : rsum M (fun m => T (S m) p) - rsum M (fun m => T m p) = 0).
    { rewrite <- rsum_minus, (rsum_telescope M (fun m => T m p)). unfold T. rewrite (Z p M) by lia. change (INR 0) with 0. rewrite sqrt_0. unfold dot, c0. cbn [fst snd]. ring. }
    lra.
  - intros p _. rewrite <- rsum_minus. apply rsum_ext. intros m _. destruct p as [|p].
    + rewrite sqm0. unfold T, dot, csub, cadd, cneg, cscal. cbn [fst snd]. ring.
    + unfold T. rewrite !sm1, !S_INR, !Nat.add_1_r. unfold dot, csub, cadd, cneg, cscal. cbn [fst snd]. ring.
Qed.
(** In an isotropic basis without drift the magnetic force only rotates velocities: it changes no free energy at any
    point of space. *)
Theorem C86_magnetic_conserves : forall d a F C, ok_al a -> a 1%nat = a 0%nat -> a 2%nat = a 0%nat ->
  (forall i, (i < 3)%nat -> F i = c0) -> (forall i, snd (F i) = 0) ->
  hsum d (fun p m n => dot (C p m n) (lor d a (fun _ => 0) F C p m n)) = 0.
Proof.
  intros d a F C A E1 E2 E0 Re. pose proof A as (A0 & _ & _). pose proof s2_pos as S2. set (X := ext d C).
  assert (ZX : forall p m n, (d_p d <= p \/ d_m d <= m \/ d_n d <= n)%nat -> X p m n = c0) by (intros; apply ext_out; assumption).
  set (RX := fun p m n => dot (X p m n) ((sqrt (INR m) * sqrt (INR p + 1)) *c X (p + 1)%nat (m - 1)%nat n -c (sqrt (INR m + 1) * sqrt (INR p)) *c X (p - 1)%nat (m + 1)%nat n)).
  set (RY := fun p m n => dot (X p m n) ((sqrt (INR p) * sqrt (INR n + 1)) *c X (p - 1)%nat m (n + 1)%nat -c (sqrt (INR p + 1) * sqrt (INR n)) *c X (p + 1)%nat m (n - 1)%nat)).
  set (RZ := fun p m n => dot (X p m n) ((sqrt (INR n) * sqrt (INR m + 1)) *c X p (m + 1)%nat (n - 1)%nat -c (sqrt (INR n + 1) * sqrt (INR m)) *c X p (m - 1)%nat (n + 1)%nat)).
  rewrite (hsum_ext d _ (fun p m n => (fst (F 3%nat) * RX p m n + fst (F 4%nat) * RY p m n) + fst (F 5%nat) * RZ p m n)).
  - rewrite !hsum_plus, !hsum_scal.
    assert (HX : hsum d RX = 0).
    { unfold hsum. rewrite (rsum_ext (d_p d) _ (fun p => rsum (d_n d) (fun n => rsum (d_m d) (fun m => RX p m n)))) by (intros; apply rsum_swap). rewrite rsum_swap.
      rewrite (rsum_ext (d_n d) _ (fun _ => 0)); [apply rsum_zero|]. intros n _. apply (rot_dot (d_m d) (d_p d) (fun p m => X p m n)). intros; apply ZX; lia. }
    assert (HY : hsum d RY = 0).
    { unfold hsum. rewrite rsum_swap. rewrite (rsum_ext (d_m d) _ (fun _ => 0)); [apply rsum_zero|]. intros m _. rewrite rsum_swap. apply (rot_dot (d_p d) (d_n d) (fun n p => X p m n)). intros; apply ZX; lia. }
    assert (HZ : hsum d RZ = 0).
    { unfold hsum. rewrite (rsum_ext (d_p d) _ (fun _ => 0)); [apply rsum_zero|]. intros p _. apply (rot_dot (d_n d) (d_m d) (fun m n => X p m n)). intros; apply ZX; lia. }
    rewrite HX, HY, HZ. ring.
  - intros p m n I. rewrite C86_lorentz_force by assumption. fold X. rewrite <- (ext_in d C p m n I). fold X.
    unfold force_spec. rewrite !E0 by lia. cbn [Nat.add]. pose proof (Re 3%nat) as R3. pose proof (Re 4%nat) as R4. pose proof (Re 5%nat) as R5.
    unfold RX, RY, RZ, dvel, vel. rewrite E1, E2. revert R3 R4 R5. generalize (F 3%nat), (F 4%nat), (F 5%nat). intros [b3 i3] [b4 i4] [b5 i5]. cbn [fst snd]. intros -> -> ->.
    assert (NS : sqrt 2 <> 0) by lra.
    unfold dot, csub, cneg, cadd, cmul, cscal, c0. cbn [fst snd]. field. auto.
Qed.
Print Assumptions C86_magnetic_conserves.

(* ------------------------------------------------------------------------------------------------ *)
(** * Collisions and the Hou-Li filter *)
Lemma cubic_top N : (3 < N)%nat -> 0 < (INR N - 1) * (INR N - 2) * (INR N - 3).
Proof. intros H. apply lt_INR in H. replace (INR 3) with 3 in H by (cbn; ring). repeat apply Rmult_lt_0_compat; lra. Qed.
Lemma col_range N i : (i < N)%nat -> 0 <= col_term N i <= 1.
Proof.
  intros I. unfold col_term. destruct (Nat.ltb_spec 3 N) as [H|H]; [|lra]. pose proof (cubic_top N H) as D. pose proof (cubic_nonneg i) as P.
  split; [apply Rmult_le_pos; [exact P|left; apply Rinv_0_lt_compat; exact D]|].
  apply Rmult_le_reg_r with ((INR N - 1) * (INR N - 2) * (INR N - 3)); [exact D|]. unfold Rdiv. rewrite Rmult_assoc, Rinv_l, Rmult_1_r, Rmult_1_l by lra.
  destruct (Nat.le_gt_cases i 2) as [L|L]; [rewrite (cubic_small i L); lra|].
  replace ((INR N - 1) * (INR N - 2) * (INR N - 3)) with ((INR N - 1) * ((INR N - 1) - 1) * ((INR N - 1) - 2)) by ring. apply cubic_mono.
  apply le_INR in I. rewrite S_INR in I. assert (L2 : (2 <= i)%nat) by lia. apply le_INR in L2. change (INR 2) with 2 in L2. lra.
Qed.
(** The collision matrix leaves every mode with all three indices at most 2 alone (density, momentum, energy), never adds
    free energy, and damps the highest mode of an axis at the full rate nu when no other index contributes. *)
Theorem C86_collisions : forall d,
  (forall p m n, (p <= 2)%nat -> (m <= 2)%nat -> (n <= 2)%nat -> colm d p m n = 0) /\
  (forall p m n, in_dims d p m n -> 0 <= colm d p m n <= 3) /\
  ((3 < d_n d)%nat -> colm d 0 0 (d_n d - 1) = 1) /\
  (forall nu C, 0 <= nu -> hsum d (fun p m n => dot (C p m n) ((- nu * colm d p m n) *c C p m n)) <= 0).
Proof.
  intros d. split; [|split; [|split]].
  - intros. unfold colm. rewrite !col_low by assumption. ring.
  - intros p m n (P & M & Nn). unfold colm. pose proof (col_range _ _ P). pose proof (col_range _ _ M). pose proof (col_range _ _ Nn). lra.
  - intros H. unfold colm. rewrite (col_low (d_m d)), (col_low (d_p d)) by lia. unfold col_term. rewrite (proj2 (Nat.ltb_lt 3 (d_n d))) by lia. pose proof (cubic_top _ H) as D.
    rewrite minus_INR by lia. change (INR 1) with 1. rewrite !Rplus_0_r. apply Rmult_eq_reg_r with ((INR (d_n d) - 1) * (INR (d_n d) - 2) * (INR (d_n d) - 3)); [|lra].
    unfold Rdiv. rewrite Rmult_assoc, Rinv_l by lra. ring.
  - intros nu C Hn. apply Rle_trans with (hsum d (fun _ _ _ => 0)); [|rewrite hsum_zero; lra]. unfold hsum. apply rsum_le. intros p P. apply rsum_le. intros m M. apply rsum_le. intros n Hn'.
    assert (Q : 0 <= colm d p m n) by (unfold colm; pose proof (col_range _ _ P); pose proof (col_range _ _ M); pose proof (col_range _ _ Hn'); lra).
    unfold dot, cscal. cbn [fst snd]. pose proof (Rmult_le_pos _ _ Hn Q). pose proof (Rle_0_sqr (fst (C p m n))). pose proof (Rle_0_sqr (snd (C p m n))). unfold Rsqr in *. nra.
Qed.
Print Assumptions C86_collisions.
Example C86_collisions_case : colm {| d_n := 5; d_m := 1; d_p := 1 |} 0 0 4 = 1 /\ colm {| d_n := 5; d_m := 1; d_p := 1 |} 0 0 3 = 1 / 4.
Proof. unfold colm, col_term. cbn. split; field. Qed.
(** The Hou-Li factor: one at the density mode, in [0, 1], exp(-strength) at the top of every axis (so no short axis is left
    unfiltered), one on an axis with a single mode. *)
Lemma axis_range N s o i : 0 <= s -> (i < N)%nat -> 0 < axis_filter N s o i <= 1.
Proof.
  intros S I. unfold axis_filter. destruct (Nat.leb_spec N 1) as [L|L]; [lra|]. split; [apply exp_pos|]. apply exp_le1.
  assert (0 < INR N - 1) by (apply lt_INR in L; change (INR 1) with 1 in L; lra).
  assert (0 <= INR i / (INR N - 1)) by (apply Rmult_le_pos; [apply pos_INR|left; apply Rinv_0_lt_compat; assumption]).
  pose proof (pow_le _ o H0). nra.
Qed.
Lemma axis_top N s o : (1 < N)%nat -> axis_filter N s o (N - 1) = exp (- s).
Proof.
  intros L. unfold axis_filter. rewrite (proj2 (Nat.leb_gt N 1)) by lia. rewrite minus_INR by lia. change (INR 1) with 1.
  assert (INR N - 1 <> 0) by (apply lt_INR in L; change (INR 1) with 1 in L; lra). unfold Rdiv. rewrite Rinv_r, pow1 by assumption. f_equal. ring.
Qed.
Theorem C86_filter : forall d s o, 0 <= s ->
  ((0 < o)%nat -> houli3 d (Some (s, o)) 0 0 0 = 1) /\
  (forall p m n, in_dims d p m n -> 0 < houli3 d (Some (s, o)) p m n <= 1) /\
  ((0 < o)%nat -> (1 < d_n d)%nat -> houli3 d (Some (s, o)) 0 0 (d_n d - 1) = exp (- s)) /\
  ((0 < o)%nat -> (1 < d_m d)%nat -> houli3 d (Some (s, o)) 0 (d_m d - 1) 0 = exp (- s)) /\
  ((0 < o)%nat -> (1 < d_p d)%nat -> houli3 d (Some (s, o)) (d_p d - 1) 0 0 = exp (- s)) /\
  (forall p m n, houli3 d None p m n = 1).
Proof.
  intros d s o S. cbn [houli3]. split; [|split; [|split; [|split; [|split]]]].
  - intros O. rewrite !axis_filter_0 by assumption. ring.
  - intros p m n (P & M & Nn). pose proof (axis_range _ s o _ S P). pose proof (axis_range _ s o _ S M). pose proof (axis_range _ s o _ S Nn).
    set (x := axis_filter (d_p d) s o p) in *. set (y := axis_filter (d_m d) s o m) in *. set (z := axis_filter (d_n d) s o n) in *.
    assert (0 < x * y <= 1) by nra. nra.
  - intros O H. rewrite !axis_filter_0, axis_top by assumption. ring.
  - intros O H. rewrite !axis_filter_0, axis_top by assumption. ring.
  - intros O H. rewrite !axis_filter_0, axis_top by assumption. ring.
  - reflexivity.
Qed.
Print Assumptions C86_filter.
(** Refuted: a filter of order 0 is accepted and then multiplies the rate of the density itself by exp(-strength) on
    every axis, so the continuity equation is lost. *)
Theorem C86_filter_order_refuted : forall d s, (1 < d_n d)%nat -> 0 < s -> houli3 d (Some (s, 0%nat)) 0 0 0 < 1.
Proof.
  intros d s N S. cbn [houli3]. assert (D : forall k, 0 < axis_filter k s 0 0 <= 1).
  { intros k. unfold axis_filter. destruct (k <=? 1)%nat; [lra|]. cbn [pow]. split; [apply exp_pos|apply exp_le1; lra]. }
  assert (L : axis_filter (d_n d) s 0 0 < 1).
  { unfold axis_filter. rewrite (proj2 (Nat.leb_gt (d_n d) 1)) by lia. cbn [pow]. rewrite <- exp_0 at 2. apply exp_increasing. lra. }
  pose proof (D (d_p d)). pose proof (D (d_m d)). pose proof (D (d_n d)). set (x := axis_filter (d_p d) s 0 0) in *. set (y := axis_filter (d_m d) s 0 0) in *. set (z := axis_filter (d_n d) s 0 0) in *.
  assert (0 < x * y <= 1) by nra. nra.
Qed.
Print Assumptions C86_filter_order_refuted.
(** Refuted: with two modes on an axis the filter acts on the momentum: its rate is multiplied by exp(-strength). *)
Theorem C86_filter_momentum_refuted : forall c A d q mass a u F Ck y x z s o, x_filter c = Some (s, o) -> (0 < o)%nat -> d_n d = 2%nat -> d_m d = 1%nat -> d_p d = 1%nat ->
  vf_species c A d q mass a u F Ck 0%nat 0%nat 1%nat y x z = exp (- s) *c compute_rhs (x_g c) d a u (a_nu A) (a_D A) q (a_Om A) mass F Ck (fun p m n => to_real (x_g c) (Ck p m n)) 0%nat 0%nat 1%nat y x z.
Proof.
  intros c A d q mass a u F Ck y x z s o E O N M P. unfold vf_species, filtered. rewrite E. cbn [houli3]. f_equal. unfold axis_filter. rewrite N, M, P. cbn [Nat.leb].
  change (INR 1) with 1. change (INR 2) with 2. replace (1 / (2 - 1)) with 1 by field. rewrite pow1. rewrite !Rmult_1_l. f_equal. ring.
Qed.
Print Assumptions C86_filter_momentum_refuted.

(* ------------------------------------------------------------------------------------------------ *)
(** * The two integrator paths solve the same equations *)
(** Without the filter, the full vector field is the nonlinear one plus free streaming, collisions, diffusion and the two curls. *)
Definition linear_part (c : spcfg) (A : spargs) (d : dims) (a u : nat -> R) (Ck : coef6) : coef6 := fun p m n y x z =>
  stream_rhs d a u (fun i => nab (x_g c) i y x z) (at_pt Ck y x z) p m n +c (- (a_nu A * colm d p m n + a_D A * k2g (x_g c) y x z)) *c Ck p m n y x z.
Definition curls (g : sgrid) (f : nat -> afield) (i y x z : nat) : cplx :=
  if (i <? 3)%nat then cmul cI (ccross (fun j => nab g j y x z) (fun j => f (3 + j)%nat y x z) i)
  else cneg (cmul cI (ccross (fun j => nab g j y x z) (fun j => f j y x z) (i - 3))).
Theorem C86_paths_agree : forall c A t s p m n y x z, x_filter c = None ->
  c_e (spx_field c A t s) p m n y x z = c_e (spx_nonlinear c A t s) p m n y x z +c linear_part c A (x_de c) (a_al A) (a_u A) (c_e s) p m n y x z /\
  (x_static c = false -> c_i (spx_field c A t s) p m n y x z =
     c_i (spx_nonlinear c A t s) p m n y x z +c linear_part c A (x_di c) (ions (a_al A)) (ions (a_u A)) (c_i s) p m n y x z) /\
  (x_static c = true -> c_i (spx_field c A t s) p m n y x z = c0 /\ c_i (spx_nonlinear c A t s) p m n y x z = c0) /\
  (forall i, f_k (spx_field c A t s) i y x z = f_k (spx_nonlinear c A t s) i y x z +c curls (x_g c) (f_k s) i y x z).
Proof.
  intros c A t s p m n y x z Hf. unfold spx_field, spx_nonlinear. cbn [c_e c_i f_k].
  split; [|split; [|split]].
  - unfold add_noise, vf_species, nl_species, filtered, compute_rhs, linear_part. rewrite Hf. cbn [houli3].
    match goal with |- context [lorentz_rhs ?g ?d ?a ?u ?q ?Om ?mm ?F ?C p m n y x z] => generalize (lorentz_rhs g d a u q Om mm F C p m n y x z) end.
    match goal with |- context [stream_rhs ?d ?a ?u ?k ?C p m n] => generalize (stream_rhs d a u k C p m n) end. intros.
    destruct (_ && _)%bool; creal.
  - intros ->. unfold add_noise, vf_species, nl_species, filtered, compute_rhs, linear_part. rewrite Hf. cbn [houli3].
    match goal with |- context [lorentz_rhs ?g ?d ?a ?u ?q ?Om ?mm ?F ?C p m n y x z] => generalize (lorentz_rhs g d a u q Om mm F C p m n y x z) end.
    match goal with |- context [stream_rhs ?d ?a ?u ?k ?C p m n] => generalize (stream_rhs d a u k C p m n) end. intros.
    destruct (_ && _)%bool; creal.
  - intros ->. split; reflexivity.
  - intros i. unfold vf_fields, nl_fields, curls. destruct (i <? 3)%nat; [|creal].
    generalize (total_current c A s y x z i), (ccross (fun j => nab (x_g c) j y x z) (fun j => f_k s (3 + j)%nat y x z) i). intros. creal.
Qed.
Print Assumptions C86_paths_agree.

(* ------------------------------------------------------------------------------------------------ *)
(** * External drive and density noise *)
Lemma finv_const n c g : (g < n)%nat -> finv n (fun _ => c) g = if (g =? 0)%nat then (INR n) *c c else c0.
Proof.
  intros G. unfold finv. rewrite csum_mul. rewrite (csum_ext n _ (fun k => cis (angleZ n (Z.of_nat g) k))).
  - rewrite char_sum by lia. rewrite Z.mod_small by lia. destruct (Nat.eqb_spec g 0) as [->|E]; [change (Z.of_nat 0 =? 0)%Z with true; cbv iota; apply cplx_eq; unfold cmul, cscal; cbn [fst snd]; ring|]. destruct (Z.eqb_spec (Z.of_nat g) 0) as [F|F]; [lia|apply cplx_eq; unfold cmul, c0; cbn [fst snd]; ring].
  - intros k K. f_equal. rewrite angle_sym. unfold angle, angleZ. rewrite <- INR_IZR_INZ. reflexivity.
Qed.
(** In real space the drive of one component is the real pulse field on a one-dimensional grid, and acts on that component only. *)
Theorem C86_drive : forall g cmp field i y x z, in_grid g y x z ->
  inv3 g (drive_one g cmp field i) y x z =
    if ((i =? cmp) && (y =? 0) && (z =? 0))%nat%bool then (INR (s_ny g) * INR (s_nz g) * field x, 0) else c0.
Proof.
  intros g cmp field i y x z (Y & X & Z). unfold drive_one. destruct (i =? cmp)%nat; cbn [andb]; [|apply inv3_zero; reflexivity].
  unfold inv3. rewrite (finv_ext (s_ny g) _ (fun _ => if (z =? 0)%nat then (INR (s_nz g)) *c (field x, 0) else c0)).
  - rewrite finv_const by assumption. destruct (y =? 0)%nat, (z =? 0)%nat; cbn [andb]; try reflexivity; creal.
  - intros _ _. rewrite (finv_ext (s_nx g) _ (fun x' => if (z =? 0)%nat then (INR (s_nz g)) *c ffwd (s_nx g) (fun h => (field h, 0)) x' else c0)) by (intros; apply finv_const; assumption).
    destruct (z =? 0)%nat.
    + rewrite (finv_ext (s_nx g) _ (fun x' => (INR (s_nz g)) *c ffwd (s_nx g) (fun h => (field h, 0)) x' +c 0 *c c0)) by (intros; creal).
      rewrite (finv_lin (s_nx g) (INR (s_nz g)) 0 (ffwd (s_nx g) (fun h => (field h, 0))) (fun _ => c0)), finv_ffwd by assumption. creal.
    + rewrite finv_const by assumption. destruct (x =? 0)%nat; creal.
Qed.
Print Assumptions C86_drive.
(** Refuted: with more than one y (or z) point the drive is not the plane wave the configuration describes: it is
    concentrated, ny nz times too strong, on the line y = z = 0, and zero elsewhere. *)
Theorem C86_drive_plane_refuted : exists g cmp field, s_ny g = 2%nat /\ s_nz g = 1%nat /\ field 0%nat = 1 /\
  inv3 g (drive_one g cmp field cmp) 0%nat 0%nat 0%nat = (2, 0) /\ inv3 g (drive_one g cmp field cmp) 1%nat 0%nat 0%nat = c0.
Proof.
  exists {| s_nx := 4; s_ny := 2; s_nz := 1; s_lx := 1; s_ly := 1; s_lz := 1 |}, 0%nat, (fun _ => 1). repeat (split; [reflexivity|]).
  rewrite !C86_drive by (unfold in_grid; cbn; lia). cbn [Nat.eqb andb s_ny s_nz]. split; [|reflexivity]. change (INR 1) with 1. change (INR 2) with 2. f_equal. ring.
Qed.
Print Assumptions C86_drive_plane_refuted.
(** _generate_density_noise (vector_field.py:176-181): unit-modulus noise with the given phases, transformed, over alpha^3. *)
Definition density_noise (nx : nat) (alpha amp : R) (phase : nat -> R) (ix : nat) : cplx := (/ alpha ^ 3) *c ffwd nx (fun i => amp *c cis (2 * PI * phase i)) ix.
(** Refuted: the density noise keeps the number of particles and the density real. Its k = 0 component is the mean of random
    complex numbers; with all phases a quarter turn it is imaginary and not zero. *)
Theorem C86_noise_refuted : forall nx alpha amp, (0 < nx)%nat -> alpha <> 0 -> density_noise nx alpha amp (fun _ => 1 / 4) 0 = (0, amp / alpha ^ 3).
Proof.
  intros nx alpha amp N A. unfold density_noise. rewrite ffwd_0, csum_const. unfold cis. replace (2 * PI * (1 / 4)) with (PI / 2) by field. rewrite cos_PI2, sin_PI2.
  assert (INR nx <> 0) by (apply not_0_INR; lia). apply cplx_eq; unfold cscal; cbn [fst snd]; field; auto.
Qed.
Print Assumptions C86_noise_refuted.
(** The noise is added to the rate of the density modes with ky = kz = 0 and to nothing else: no other Hermite mode, no
    other wavevector and no field. *)
Definition silent (c : spcfg) : spcfg := {| x_g := x_g c; x_de := x_de c; x_di := x_di c; x_static := x_static c; x_filter := x_filter c; x_noise_e := fun _ _ => c0; x_noise_i := fun _ _ => c0; x_drive := x_drive c |}.
Theorem C86_noise : forall c A t s p m n y x z,
  let quiet := spx_field (silent c) A t s in let loud := spx_field c A t s in
  ((p, m, n, y, z) <> (0, 0, 0, 0, 0)%nat -> c_e loud p m n y x z = c_e quiet p m n y x z /\ c_i loud p m n y x z = c_i quiet p m n y x z) /\
  c_e loud 0%nat 0%nat 0%nat 0%nat x 0%nat = c_e quiet 0%nat 0%nat 0%nat 0%nat x 0%nat +c x_noise_e c t x /\
  (x_static c = false -> c_i loud 0%nat 0%nat 0%nat 0%nat x 0%nat = c_i quiet 0%nat 0%nat 0%nat 0%nat x 0%nat +c x_noise_i c t x) /\
  (x_static c = true -> forall p m n y x z, c_i loud p m n y x z = c0) /\ f_k loud = f_k quiet.
Proof.
  intros c A t s p m n y x z quiet loud. unfold quiet, loud, spx_field. cbn [silent c_e c_i f_k x_g x_de x_di x_static x_filter x_noise_e x_noise_i x_drive].
  split; [|split; [|split; [|split]]].
  - intros N. assert (F : ((p =? 0) && (m =? 0) && (n =? 0) && (y =? 0) && (z =? 0))%nat%bool = false).
    { destruct (((p =? 0) && (m =? 0) && (n =? 0) && (y =? 0) && (z =? 0))%nat%bool) eqn:E; [|reflexivity]. exfalso. apply N. rewrite !andb_true_iff, !Nat.eqb_eq in E. destruct E as ((((-> & ->) & ->) & ->) & ->). reflexivity. }
    split; [|destruct (x_static c); [reflexivity|]]; unfold add_noise; rewrite F; reflexivity.
  - rewrite (add_no_noise (fun _ => c0)) by reflexivity. reflexivity.
  - intros ->. rewrite (add_no_noise (fun _ => c0)) by reflexivity. reflexivity.
  - intros ->. reflexivity.
  - reflexivity.
Qed.
Print Assumptions C86_noise.

(* ------------------------------------------------------------------------------------------------ *)
(** * A solution meeting the hypotheses of the laws: a uniform plasma oscillation *)
(** Electrons with velocity V = - sin t in a uniform field E_x = cos t over fixed ions; the electron modes are those of the
    displaced Maxwellian, V^n 2^(n/2) / sqrt(n!). *)
Definition ex_g : sgrid := {| s_nx := 4; s_ny := 1; s_nz := 1; s_lx := 2 * PI; s_ly := 1; s_lz := 1 |}.
Definition ex_d : dims := {| d_n := 3; d_m := 3; d_p := 3 |}.
Definition ex_c : spcfg := {| x_g := ex_g; x_de := ex_d; x_di := ex_d; x_static := true; x_filter := None; x_noise_e := fun _ _ => c0; x_noise_i := fun _ _ => c0; x_drive := fun _ _ _ _ _ => c0 |}.
Definition ex_A : spargs := {| a_q := fun i => match i with O => -1 | _ => 1 end; a_nu := 1; a_D := 0; a_Om := 1; a_mi := 2; a_al := fun _ => 1; a_u := fun _ => 0 |}.
Definition orig (y x z : nat) : bool := ((y =? 0) && (x =? 0) && (z =? 0))%nat%bool.
Definition ex_m (v : R) (p m n : nat) : cplx :=
  match p, m, n with O, O, O => c1 | O, O, 1%nat => (sqrt 2 * v, 0) | O, O, 2%nat => (sqrt 2 * v ^ 2, 0) | _, _, _ => c0 end.
Definition ex_C (v : R) : coef6 := fun p m n y x z => if orig y x z then ex_m v p m n else c0.
Definition ex_F (e : R) (i : nat) : afield := fun y x z => if ((i =? 0)%nat && orig y x z)%bool then (e, 0) else c0.
Definition ex_S (t : R) : spx := {| c_e := ex_C (- sin t); c_i := ex_C 0; f_k := ex_F (cos t) |}.
Lemma finv_delta n h g : (0 < n)%nat -> (forall k, (k < n)%nat -> k <> 0%nat -> h k = c0) -> finv n h g = h 0%nat.
Proof.
  intros N H. unfold finv. rewrite (csum_single n 0) by (try assumption; intros i I E; rewrite (H i I E); apply cplx_eq; unfold cmul, c0; cbn [fst snd]; ring).
  replace (angle n 0 g) with 0 by (unfold angle; change (INR 0) with 0; unfold Rdiv; ring).
  unfold cis. rewrite cos_0, sin_0. apply cplx_eq; unfold cmul; cbn [fst snd]; ring.
Qed.
Lemma ffwd_const n v k : (k < n)%nat -> ffwd n (fun _ => v) k = if (k =? 0)%nat then v else c0.
Proof.
  intros K. rewrite (ffwd_ext n _ (finv n (fun j => if (j =? 0)%nat then v else c0))).
  - apply HPForceProps.ffwd_finv. assumption.
  - intros g _. rewrite finv_delta; [reflexivity|lia|]. intros j _ J. destruct (Nat.eqb_spec j 0); [lia|reflexivity].
Qed.
Lemma fwd3_const g v y x z : in_grid g y x z -> fwd3 g (fun _ _ _ => v) y x z = if orig y x z then v else c0.
Proof.
  intros (Y & X & Z). unfold fwd3, orig. rewrite (ffwd_ext (s_ny g) _ (fun _ => if ((x =? 0) && (z =? 0))%nat%bool then v else c0)).
  - rewrite ffwd_const by assumption. destruct (y =? 0)%nat, (x =? 0)%nat, (z =? 0)%nat; reflexivity.
  - intros _ _. rewrite (ffwd_ext (s_nx g) _ (fun _ => if (z =? 0)%nat then v else c0)) by (intros; apply ffwd_const; assumption).
    rewrite ffwd_const by assumption. destruct (x =? 0)%nat, (z =? 0)%nat; reflexivity.
Qed.
Definition at0 (h : afield) : Prop := forall y x z, orig y x z = false -> h y x z = c0.
Lemma real_at0 g h y x z : ok_grid3 g -> at0 h -> to_real g h y x z = h 0%nat 0%nat 0%nat.
Proof.
  intros Hg H. pose proof Hg as (X & Y & Z & _). unfold to_real, inv3.
  assert (K : forall y x z, orig y x z = false -> keep (mask3 g y x z) (h y x z) = c0) by (intros y' x' z' E; rewrite H by assumption; unfold keep; destruct mask3; reflexivity).
  rewrite finv_delta; [|assumption|].
  - rewrite finv_delta; [|assumption|].
    + rewrite finv_delta; [rewrite mask_000 by assumption; reflexivity|assumption|]. intros k _ E. apply K. unfold orig. cbn [Nat.eqb andb]. now apply Nat.eqb_neq.
    + intros k _ E. rewrite finv_delta; [|assumption|].
      * apply K. unfold orig. destruct k; [lia|reflexivity].
      * intros k' _ E'. apply K. unfold orig. destruct k; [lia|reflexivity].
  - intros k _ E. rewrite finv_delta; [|assumption|].
    + rewrite finv_delta; [|assumption|]; [|intros k' _ _]; apply K; unfold orig; (destruct k; [lia|reflexivity]).
    + intros k' _ _. rewrite finv_delta; [|assumption|]; [|intros k'' _ _]; apply K; unfold orig; (destruct k; [lia|reflexivity]).
Qed.
Lemma stream_at0 d a u g (C : coef6) p m n y x z : ok_al a -> ok_grid3 g -> in_dims d p m n -> (forall p m n, at0 (C p m n)) ->
  stream_rhs d a u (fun i => nab g i y x z) (at_pt C y x z) p m n = c0.
Proof.
  intros Ha Hg I H. rewrite C86_streaming by assumption. destruct (orig y x z) eqn:B.
  - unfold orig in B. apply andb_prop in B. destruct B as (B & B3). apply andb_prop in B. destruct B as (B1 & B2). apply Nat.eqb_eq in B1, B2, B3. subst. rewrite !nab_0 by assumption. creal.
  - assert (Z : forall i, vel a u i (ext d (at_pt C y x z)) p m n = c0).
    { intros i. assert (E : forall p m n, ext d (at_pt C y x z) p m n = c0) by (intros p' m' n'; unfold ext; destruct (_ && _ && _)%bool; [apply H; assumption|reflexivity]).
      unfold vel. destruct i as [|[|i]]; rewrite !E; creal. }
    rewrite !Z. creal.
Qed.
Lemma ex_C_at0 v p m n : at0 (ex_C v p m n).
Proof. intros y x z E. unfold ex_C. rewrite E. reflexivity. Qed.
Lemma ex_F_at0 e i : at0 (ex_F e i).
Proof. intros y x z E. unfold ex_F. rewrite E, andb_false_r. reflexivity. Qed.
Lemma ex_ok : ok_cfg ex_c ex_A /\ no_noise ex_c /\ full_dims ex_d /\ a_D ex_A = 0 /\ a_mi ex_A <> 0 /\ filter_ok (x_filter ex_c).
Proof.
  split; [|split; [|split; [|split; [|split]]]].
  - unfold ok_cfg, ok_grid3, ok_dims, ok_al, ions, ex_c, ex_A, ex_g, ex_d. cbn. pose proof PI_RGT_0. repeat split; try lra; lia.
  - intros t ix. split; reflexivity.
  - intros i I. destruct i as [|[|i]]; cbn; lia.
  - reflexivity.
  - cbn. lra.
  - exact I.
Qed.
Lemma ex_lor v e p m n : in_dims ex_d p m n ->
  lor ex_d (fun _ => 1) (fun _ => 0) (fun i => if (i =? 0)%nat then (e, 0) else c0) (ex_m v) p m n =
  match p, m, n with O, O, 1%nat => (sqrt 2 * e, 0) | O, O, 2%nat => (sqrt 2 * (2 * e * v), 0) | _, _, _ => c0 end.
Proof.
  intros (P & M & N). cbn [d_p d_m d_n ex_d] in *. pose proof s2_pos as S2. pose proof s2_sq as SQ.
  unfold lor. cbn [Nat.eqb]. unfold shiftm. cbn [d_p d_m d_n ex_d].
  assert (X : forall a : cplx, cmul c0 a = c0) by (intros; apply cplx_eq; unfold cmul, c0; cbn [fst snd]; ring).
  rewrite !X.
  assert (Q1 : sqm 1 = 1) by (unfold sqm; change (INR 1) with 1; apply sqrt_1). assert (Q2 : sqm 2 = sqrt 2) by reflexivity.
  destruct p as [|[|[|p]]]; [| | |lia]; (destruct m as [|[|[|m]]]; [| | |lia]); (destruct n as [|[|[|n]]]; [| | |lia]); vm_compute (inb _ _); cbn [andb]; cbv iota;
   repeat match goal with |- context [Z.to_nat ?e] => let v := eval vm_compute in (Z.to_nat e) in change (Z.to_nat e) with v end; cbn [ex_m];
   try (apply cplx_eq; unfold cadd, cmul, cscal, c0; cbn [fst snd]; unfold sqm; change (INR 0) with 0; rewrite ?sqrt_0; unfold Rdiv; ring).
  - rewrite Q1. apply cplx_eq; unfold cadd, cmul, cscal, c0, c1; cbn [fst snd]; field.
  - rewrite Q2. apply cplx_eq; unfold cadd, cmul, cscal, c0; cbn [fst snd]; field [SQ].
Qed.
Lemma ex_rate e v p m n y x z : in_grid ex_g y x z -> in_dims ex_d p m n ->
  vf_species ex_c ex_A ex_d (-1) 1 (fun _ => 1) (fun _ => 0) (fun i => to_real ex_g (ex_F e i)) (ex_C v) p m n y x z =
  if orig y x z then match p, m, n with O, O, 1%nat => (sqrt 2 * - e, 0) | O, O, 2%nat => (sqrt 2 * (- (2 * e * v)), 0) | _, _, _ => c0 end else c0.
Proof.
  intros G I. destruct ex_ok as ((Hg & _) & _). unfold vf_species, filtered, compute_rhs. cbn [x_filter ex_c houli3 x_g a_nu a_D a_Om ex_A].
  rewrite stream_at0 by (try assumption; try (unfold ok_al; repeat split; lra); apply ex_C_at0).
  unfold lorentz_rhs.
  rewrite (fwd3_ext ex_g _ (fun _ _ _ => lor ex_d (fun _ => 1) (fun _ => 0) (fun i => if (i =? 0)%nat then (e, 0) else c0) (ex_m v) p m n)).
  2:{ intros y' x' z' _ _ _. f_equal; apply functional_extensionality; intros i.
      - rewrite real_at0 by (try assumption; apply ex_F_at0). unfold ex_F, orig. cbn [Nat.eqb andb]. rewrite andb_true_r. reflexivity.
      - apply functional_extensionality; intros i'. apply functional_extensionality; intros i''. unfold at_pt. rewrite real_at0 by (try assumption; apply ex_C_at0). reflexivity. }
  rewrite fwd3_const by assumption. rewrite ex_lor by assumption.
  assert (HC : colm ex_d p m n = 0).
  { destruct I as (I1 & I2 & I3). cbn [d_p d_m d_n ex_d] in *. unfold colm. rewrite !col_low by lia. lra. }
  rewrite HC. unfold ex_C, keep. destruct (orig y x z) eqn:O.
  - assert (E : y = 0%nat /\ x = 0%nat /\ z = 0%nat).
    { unfold orig in O. apply andb_prop in O. destruct O as (O & O3). apply andb_prop in O. destruct O as (O1 & O2). apply Nat.eqb_eq in O1, O2, O3. auto. }
    destruct E as (-> & -> & ->). rewrite mask_000 by assumption.
    destruct p as [|p], m as [|m], n as [|[|[|n]]]; apply cplx_eq; unfold cadd, cscal, c0; cbn [fst snd]; field.
  - destruct mask3; apply cplx_eq; unfold cadd, cscal, c0; cbn [fst snd]; unfold Rdiv; ring.
Qed.
Lemma cd_real (f : R -> R) t v : derivable_pt_lim f t v -> cderiv (fun s => (f s, 0)) t (v, 0).
Proof. intros H. split; cbn [fst snd]; [exact H|apply derivable_pt_lim_const]. Qed.
Lemma ex_solution : solution ex_c ex_A ex_S.
Proof.
  intros t y x z G. destruct ex_ok as ((Hg & _) & _).
  assert (DS : derivable_pt_lim (fun s => - sin s) t (- cos t)) by apply derivable_pt_lim_opp, derivable_pt_lim_sin.
  split; [|split].
  - intros p m n I. change (cderiv (fun s => ex_C (- sin s) p m n y x z) t (add_noise (fun _ => c0) (vf_species ex_c ex_A ex_d (-1) 1 (fun _ => 1) (fun _ => 0) (fun i => to_real ex_g (ex_F (cos t) i)) (ex_C (- sin t))) p m n y x z)). rewrite add_no_noise by reflexivity.
    rewrite ex_rate by assumption. unfold ex_C. destruct (orig y x z); [|apply cd_const].
    destruct p as [|p], m as [|m], n as [|[|[|n]]]; cbn [ex_m]; try apply cd_const; apply cd_real.
    + apply derivable_pt_lim_scal. exact DS.
    + apply derivable_pt_lim_scal. apply derive_ext with (f := fun s => (- sin s) * (- sin s)); [intros; ring|].
      replace (- (2 * cos t * - sin t)) with (- cos t * - sin t + - sin t * - cos t) by ring. exact (derivable_pt_lim_mult _ _ t _ _ DS DS).
  - intros p m n I. unfold spx_field. cbn [c_i ex_S x_noise_i x_static ex_c]. apply cd_const.
  - intros i I. unfold spx_field. cbn [f_k ex_S]. eapply cd_val.
    + instantiate (1 := if ((i =? 0)%nat && orig y x z)%bool then (- sin t, 0) else c0).
      unfold ex_F. destruct (_ && _)%bool; [|apply cd_const]. apply cd_real. apply derivable_pt_lim_cos.
    + unfold vf_fields. cbn [f_k x_drive ex_c x_g]. unfold total_current. cbn [x_static ex_c x_de a_Om ex_A a_q a_al a_u]. change (c_e (ex_S t)) with (ex_C (- sin t)). change (f_k (ex_S t)) with (ex_F (cos t)).
      assert (Z : orig y x z = true \/ orig y x z = false) by (destruct orig; auto). destruct Z as [Z|Z].
      * assert (E : y = 0%nat /\ x = 0%nat /\ z = 0%nat).
        { unfold orig in Z. apply andb_prop in Z. destruct Z as (Z & Z3). apply andb_prop in Z. destruct Z as (Z1 & Z2). apply Nat.eqb_eq in Z1, Z2, Z3. auto. }
        destruct E as (-> & -> & ->). unfold ccross. rewrite !nab_0 by assumption.
        pose proof s2_pos as S2. pose proof s2_sq as SQ.
        destruct i as [|[|[|[|[|[|i]]]]]]; [| | | | | |lia]; unfold current_s, at_pt, ex_C, ex_F; cbn [Nat.ltb Nat.leb Nat.eqb andb orig d_n d_m d_p ex_d ex_m Nat.sub];
        apply cplx_eq; unfold csub, cadd, cneg, cmul, cscal, c0, c1, cI; cbn [fst snd]; (field; lra).
      * rewrite Z, andb_false_r. unfold current_s, at_pt.
        destruct i as [|[|[|[|[|[|i]]]]]]; [| | | | | |lia]; cbn [Nat.ltb Nat.leb d_n d_m d_p ex_d Nat.sub ccross];
        rewrite ?(ex_C_at0 _ _ _ _ _ _ _ Z), ?(ex_F_at0 _ _ _ _ _ Z); apply cplx_eq; unfold csub, cadd, cneg, cmul, cscal, c0, c1, cI; cbn [fst snd]; unfold Rdiv; ring.
Qed.
Example C86_laws_case : ok_cfg ex_c ex_A /\ no_noise ex_c /\ full_dims ex_d /\ a_D ex_A = 0 /\ filter_ok (x_filter ex_c) /\ solution ex_c ex_A ex_S /\
  (forall t, real_E ex_c (ex_S t)) /\
  (forall t i y x z, (i < 3)%nat -> in_grid (x_g ex_c) y x z -> mask3 (x_g ex_c) y x z = false -> f_k (ex_S t) i y x z = c0) /\
  (forall t, field_energy ex_c ex_A (ex_S t) = cos t ^ 2 / 2).
Proof.
  destruct ex_ok as (H1 & H2 & H3 & H4 & H5 & H6). pose proof H1 as (Hg & _).
  split; [exact H1|]. split; [exact H2|]. split; [exact H3|]. split; [exact H4|]. split; [exact H6|]. split; [exact ex_solution|]. split; [|split].
  - intros t i y x z I G. rewrite real_at0 by (try assumption; apply ex_F_at0). unfold ex_S, ex_F. cbn [f_k]. destruct (_ && _)%bool; reflexivity.
  - intros t i y x z I G M. unfold ex_S. cbn [f_k]. apply ex_F_at0. destruct (orig y x z) eqn:Z; [|reflexivity]. exfalso.
    assert (E : y = 0%nat /\ x = 0%nat /\ z = 0%nat).
    { unfold orig in Z. apply andb_prop in Z. destruct Z as (Z & Z3). apply andb_prop in Z. destruct Z as (Z1 & Z2). apply Nat.eqb_eq in Z1, Z2, Z3. auto. }
    destruct E as (-> & -> & ->). rewrite mask_000 in M by assumption. discriminate.
  - intros t. unfold field_energy. cbn [a_Om ex_A x_g ex_c f_k ex_S]. unfold rsum3, ex_g. cbn [s_nx s_ny s_nz rsum]. unfold ex_F, orig, cabs2. cbn [Nat.eqb andb fst snd c0]. unfold c0. cbn [fst snd]. field.
Qed.
