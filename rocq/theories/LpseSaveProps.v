(** Property C100: the saved results of the laser-plasma envelope solver. *)
From Coq Require Import Reals Lra Lia ZArith List Bool Psatz.
From Verif Require Import RSum Pic PicProofs VGrid VGridProofs Lpse LpseFft LpseProps LpseSetup LpseSmooth LpseSetupProps LpseSave Dft.
Local Open Scope R_scope.

(* ------------------------------------------------------------------------------------------------ *)
(** * Times *)
(** The first and the last saved time are the requested ones; the spacing is uniform, at least the requested one and less than twice it, and the
    requested one exactly when it divides the window. *)
Theorem C100_times : forall s, 0 < s_dt s -> s_dt s <= s_tmax s - s_tmin s ->
  let n := Z.to_nat (save_nt s) in (2 <= n)%nat /\ save_t s 0 = s_tmin s /\ save_t s (n - 1) = s_tmax s /\
  exists h, s_dt s <= h < 2 * s_dt s /\ (forall k, (k < n)%nat -> save_t s k = s_tmin s + INR k * h) /\
    (forall m, s_tmax s - s_tmin s = IZR m * s_dt s -> h = s_dt s /\ save_nt s = (m + 1)%Z).
Proof.
  intros s D W n. set (w := s_tmax s - s_tmin s) in *. assert (Q : 1 <= w / s_dt s) by (apply (Rmult_le_reg_r (s_dt s)); auto; unfold Rdiv; rewrite Rmult_assoc, Rinv_l by lra; lra).
  destruct (trunc_b (w / s_dt s) ltac:(lra)) as [B B0]. set (z := trunc (w / s_dt s)) in *. assert (E : w / s_dt s * s_dt s = w) by (field; lra).
  assert (Z1 : (1 <= z)%Z). { destruct (Z_lt_ge_dec z 1) as [q|q]; [|lia]. assert (z + 1 <= 1)%Z as r by lia. apply IZR_le in r. rewrite plus_IZR in r. lra. }
  assert (NT : save_nt s = (z + 1)%Z) by reflexivity. assert (N : n = S (Z.to_nat z)) by (unfold n; rewrite NT; lia).
  assert (R1 : 1 <= IZR z) by (apply IZR_le; auto). assert (IN : INR (n - 1) = IZR z) by (rewrite INR_IZR_INZ; f_equal; lia).
  assert (K : forall k, save_t s k = s_tmin s + INR k * (w / IZR z)).
  { intros k. unfold save_t. fold n. unfold linspace. destruct (Nat.leb_spec n 1); [lia|]. rewrite IN. fold w. field. lra. }
  split; [lia|]. split; [rewrite K; change (INR 0) with 0; ring|]. split; [rewrite K, IN; unfold w; field; lra|].
  assert (F : w / IZR z * IZR z = w) by (field; lra).
  exists (w / IZR z). split; [|split].
  - split; [apply (Rmult_le_reg_r (IZR z)); [lra|]; rewrite F; nra|]. apply (Rmult_lt_reg_r (IZR z)); [lra|]. rewrite F. nra.
  - intros k _. apply K.
  - intros m M. assert (z = m). { unfold z. rewrite M. replace (IZR m * s_dt s / s_dt s) with (IZR m) by (field; lra). rewrite M in Q. replace (IZR m * s_dt s / s_dt s) with (IZR m) in Q by (field; lra).
      apply trunc_val; [apply le_IZR; lra|lra]. }
    subst m. split; [rewrite M; field; lra|exact NT].
Qed.
Print Assumptions C100_times.

(* ------------------------------------------------------------------------------------------------ *)
(** * Interpolation *)
Section W.
Variables (n : nat) (x : nat -> R).
Hypothesis Inc : forall i j, (i < j)%nat -> x i < x j.
Lemma ssr_spec q m : (searchsorted_right m x q <= m)%nat /\ forall i, (i < m)%nat -> ((i < searchsorted_right m x q)%nat <-> x i <= q).
Proof.
  induction m as [|m [IH1 IH2]]; [split; [cbn; lia|intros; lia]|].
  assert (E : searchsorted_right (S m) x q = (searchsorted_right m x q + if Rle_dec (x m) q then 1 else 0)%nat).
  { unfold searchsorted_right. rewrite seq_S, filter_app, app_length. f_equal. cbn [filter Nat.add]. destruct (Rle_dec (x m) q); reflexivity. }
  rewrite E. destruct (Rle_dec (x m) q) as [l|l].
  - assert (A : searchsorted_right m x q = m). { destruct m as [|k]; [reflexivity|]. assert ((k < searchsorted_right (S k) x q)%nat); [|lia]. apply IH2; [lia|]. pose proof (Inc k (S k) ltac:(lia)). lra. }
    rewrite A. split; [lia|]. intros i Hi. split; [|lia]. intros _. destruct (Nat.eq_dec i m) as [->|]; [auto|]. pose proof (Inc i m ltac:(lia)). lra.
  - split; [lia|]. intros i Hi. rewrite Nat.add_0_r. destruct (Nat.eq_dec i m) as [->|]; [|apply IH2; lia]. split; [lia|contradiction].
Qed.
Lemma weights_spec q : (2 <= n)%nat -> x 0%nat <= q <= x (n - 1)%nat -> exists i u0 u1, weights n x q = Some (i, u0, u1) /\ (1 <= i <= n - 1)%nat /\ 0 <= u0 /\ 0 <= u1 /\ u0 + u1 = 1 /\
  u0 * x (i - 1)%nat + u1 * x i = q.
Proof.
  intros Hn [L U]. unfold weights. destruct (Rlt_dec q (x 0%nat)); [lra|]. destruct (Rlt_dec (x (n - 1)%nat) q); [lra|]. set (i := interval n x q).
  destruct (ssr_spec q n) as [S1 S2]. set (k := searchsorted_right n x q) in *. assert (I : i = Nat.min (Nat.max k 1) (n - 1)) by reflexivity.
  assert (k1 : (1 <= k)%nat) by (apply (S2 0%nat); lia || lra).
  assert (A : x (i - 1)%nat <= q) by (apply S2; lia). assert (B : q <= x i). { destruct (Nat.eq_dec i (n - 1)) as [->|]; [lra|]. destruct (Rle_lt_dec q (x i)) as [|h]; [auto|]. assert (x i <= q) as h' by lra. apply S2 in h'; lia. }
  assert (P : x (i - 1)%nat < x i) by (apply Inc; lia). exists i, ((x i - q) / (x i - x (i - 1)%nat)), ((q - x (i - 1)%nat) / (x i - x (i - 1)%nat)).
  split; [reflexivity|]. split; [lia|]. split; [apply Rmult_le_pos; [lra|apply Rlt_le, Rinv_0_lt_compat; lra]|]. split; [apply Rmult_le_pos; [lra|apply Rlt_le, Rinv_0_lt_compat; lra]|]. split; field; lra.
Qed.
Lemma weights_node a : (2 <= n)%nat -> (a < n)%nat -> exists i u0 u1, weights n x (x a) = Some (i, u0, u1) /\ ((i = S a /\ u0 = 1 /\ u1 = 0) \/ (i = a /\ u0 = 0 /\ u1 = 1)).
Proof.
  intros Hn Ha. unfold weights.
  assert (M : forall i j, (i <= j)%nat -> x i <= x j) by (intros i j h; destruct (Nat.eq_dec i j) as [->|]; [lra|apply Rlt_le, Inc; lia]).
  pose proof (M 0%nat a ltac:(lia)). pose proof (M a (n - 1)%nat ltac:(lia)). destruct (Rlt_dec (x a) (x 0%nat)); [lra|]. destruct (Rlt_dec (x (n - 1)%nat) (x a)); [lra|].
  destruct (ssr_spec (x a) n) as [S1 S2]. set (k := searchsorted_right n x (x a)) in *.
  assert (K : k = S a). { assert ((a < k)%nat) by (apply S2; [lia|lra]). destruct (Nat.eq_dec k (S a)); [auto|]. assert (x (S a) <= x a) by (apply S2; lia). pose proof (Inc a (S a) ltac:(lia)). lra. }
  assert (I : interval n x (x a) = Nat.min (S a) (n - 1)) by (unfold interval; fold k; lia).
  destruct (Nat.eq_dec a (n - 1)) as [e|e].
  - exists a, 0, 1. rewrite I. replace (Nat.min (S a) (n - 1)) with a by lia. assert (P : x (a - 1)%nat < x a) by (apply Inc; lia). split; [|auto]. f_equal. f_equal; [f_equal|]; field; lra.
  - exists (S a), 1, 0. rewrite I. replace (Nat.min (S a) (n - 1)) with (S a) by lia. assert (P : x a < x (S a)) by (apply Inc; lia). replace (S a - 1)%nat with a by lia. split; [|auto]. f_equal. f_equal; [f_equal|]; field; lra.
Qed.
End W.

(** The grids the statements are about: at least two cells in each direction. *)
Definition planar (g : gin) : Prop := usable g /\ (2 <= o_nx (derive g))%nat /\ (2 <= o_ny (derive g))%nat.
Lemma lin_inc a b n : (2 <= n)%nat -> a < b -> forall i j, (i < j)%nat -> linspace a b n i < linspace a b n j.
Proof.
  intros Hn Hab i j Hij. unfold linspace. destruct (Nat.leb_spec n 1); [lia|]. assert (P : 0 < INR (n - 1)) by (apply lt_0_INR; lia). apply lt_INR in Hij. unfold Rdiv.
  assert (0 < / INR (n - 1)) by (apply Rinv_0_lt_compat; auto). assert ((b - a) * INR i < (b - a) * INR j) by nra. nra.
Qed.
Lemma lin_in a b n i : a <= b -> (i < n)%nat -> a <= linspace a b n i <= b.
Proof.
  intros Hab Hi. unfold linspace. destruct (Nat.leb_spec n 1); [lra|]. assert (P : 0 < INR (n - 1)) by (apply lt_0_INR; lia). assert (I1 : INR i <= INR (n - 1)) by (apply le_INR; lia). pose proof (pos_INR i).
  assert (0 <= (b - a) * INR i / INR (n - 1) <= b - a). { split; [apply Rmult_le_pos; [nra|apply Rlt_le, Rinv_0_lt_compat; auto]|]. apply (Rmult_le_reg_r (INR (n - 1))); [auto|]. unfold Rdiv. rewrite Rmult_assoc, Rinv_l by lra. nra. } lra.
Qed.
Lemma lin_0 a b n : linspace a b n 0 = a.
Proof. unfold linspace. destruct (Nat.leb n 1); [reflexivity|]. change (INR 0) with 0. unfold Rdiv. ring. Qed.
Lemma lin_last a b n : (2 <= n)%nat -> linspace a b n (n - 1) = b.
Proof. intros H. unfold linspace. destruct (Nat.leb_spec n 1); [lia|]. assert (INR (n - 1) <> 0) by (apply not_0_INR; lia). field. auto. Qed.
Lemma boxes g : planar g -> let o := derive g in 0 < o_dx o /\ 0 < o_dy o /\ 2 * o_dx o <= o_xmax o - o_xmin o /\ 2 * o_dy o <= o_ymax o - o_ymin o.
Proof.
  intros (U & Hx & Hy) o. destruct (C99_grid g U) as (_ & _ & DY & PD & FX & FY & _). fold o in DY, PD, FX, FY, Hx, Hy. apply le_INR in Hx. apply le_INR in Hy. change (INR 2) with 2 in *. rewrite DY in *.
  split; [auto|]. split; [auto|]. split; nra.
Qed.
Lemma x_inc g : planar g -> let o := derive g in forall i j, (i < j)%nat -> x_ax o i < x_ax o j.
Proof. intros P o. destruct (boxes g P) as (B & _ & C & _). fold o in B, C. destruct P as (_ & Hx & _). unfold x_ax. apply lin_inc; [exact Hx|lra]. Qed.
Lemma y_inc g : planar g -> let o := derive g in forall i j, (i < j)%nat -> y_ax o i < y_ax o j.
Proof. intros P o. destruct (boxes g P) as (_ & B & _ & C). fold o in B, C. destruct P as (_ & _ & Hy). unfold y_ax. apply lin_inc; [exact Hy|lra]. Qed.

(** Without an "x" entry, or with the spacing of the solver's grid, the saved state is the state. *)
Theorem C100_identity : forall g f a b, planar g -> let o := derive g in (a < o_nx o)%nat -> (b < o_ny o)%nat ->
  saved o Whole f a b = Some (f a b) /\ saved o (Resampled (o_dx o) (o_dy o)) f a b = Some (f a b).
Proof.
  intros g f a b P o Ha Hb. split; [reflexivity|]. unfold saved, interp2.
  change (sx_ax o (o_dx o) a) with (x_ax o a). change (sy_ax o (o_dy o) b) with (y_ax o b).
  pose proof P as (_ & Hx & Hy). fold o in Hx, Hy.
  destruct (weights_node (o_nx o) (x_ax o) (x_inc g P) a Hx Ha) as (i & u0 & u1 & E & C). destruct (weights_node (o_ny o) (y_ax o) (y_inc g P) b Hy Hb) as (j & v0 & v1 & F & D).
  rewrite E, F. f_equal. destruct C as [(-> & -> & ->)|(-> & -> & ->)], D as [(-> & -> & ->)|(-> & -> & ->)]; cbn [Nat.sub]; rewrite ?Nat.sub_0_r; apply cplx_eq; unfold cadd, cscal; cbn [fst snd]; ring.
Qed.
Print Assumptions C100_identity.
(** With spacings no smaller than the solver's and no larger than the box, every saved value is a convex combination of the values of the array (so it
    stays within the bounds of the array in both components), and an array that is affine in the position is saved as it is at the save points. *)
Theorem C100_resample : forall g dx dy f a b, planar g -> let o := derive g in o_dx o <= dx <= o_xmax o - o_xmin o -> o_dy o <= dy <= o_ymax o - o_ymin o -> (a < o_nx o)%nat -> (b < o_ny o)%nat ->
  exists z, saved o (Resampled dx dy) f a b = Some z /\
    (forall al be m M, (forall i j, (i < o_nx o)%nat -> (j < o_ny o)%nat -> m <= al * fst (f i j) + be * snd (f i j) <= M) -> m <= al * fst z + be * snd z <= M) /\
    (forall A B C, (forall i j, f i j = cadd A (cadd (cscal (x_ax o i) B) (cscal (y_ax o j) C))) -> z = cadd A (cadd (cscal (sx_ax o dx a) B) (cscal (sy_ax o dy b) C))).
Proof.
  intros g dx dy f a b P o X Y Ha Hb. pose proof P as (_ & Hx & Hy). fold o in Hx, Hy. destruct (boxes g P) as (B1 & B2 & B3 & B4). fold o in B1, B2, B3, B4.
  assert (Qx : x_ax o 0 <= sx_ax o dx a <= x_ax o (o_nx o - 1)) by (unfold x_ax; rewrite lin_0, lin_last by auto; pose proof (lin_in (o_xmin o + dx / 2) (o_xmax o - dx / 2) (o_nx o) a ltac:(lra) Ha); unfold sx_ax; lra).
  assert (Qy : y_ax o 0 <= sy_ax o dy b <= y_ax o (o_ny o - 1)) by (unfold y_ax; rewrite lin_0, lin_last by auto; pose proof (lin_in (o_ymin o + dy / 2) (o_ymax o - dy / 2) (o_ny o) b ltac:(lra) Hb); unfold sy_ax; lra).
  destruct (weights_spec (o_nx o) (x_ax o) (x_inc g P) (sx_ax o dx a) Hx Qx) as (i & u0 & u1 & E & Hi & U0 & U1 & US & UX).
  destruct (weights_spec (o_ny o) (y_ax o) (y_inc g P) (sy_ax o dy b) Hy Qy) as (j & v0 & v1 & F & Hj & V0 & V1 & VS & VY).
  unfold saved, interp2. rewrite E, F. eexists. split; [reflexivity|]. split.
  - intros al be m M Bd. pose proof (Bd (i - 1)%nat (j - 1)%nat ltac:(lia) ltac:(lia)) as b1. pose proof (Bd (i - 1)%nat j ltac:(lia) ltac:(lia)) as b2. pose proof (Bd i (j - 1)%nat ltac:(lia) ltac:(lia)) as b3. pose proof (Bd i j ltac:(lia) ltac:(lia)) as b4.
    unfold cadd, cscal. cbn [fst snd]. set (p1 := f (i - 1)%nat (j - 1)%nat) in *. set (p2 := f (i - 1)%nat j) in *. set (p3 := f i (j - 1)%nat) in *. set (p4 := f i j) in *.
    set (w1 := al * fst p1 + be * snd p1) in *. set (w2 := al * fst p2 + be * snd p2) in *. set (w3 := al * fst p3 + be * snd p3) in *. set (w4 := al * fst p4 + be * snd p4) in *.
    replace (al * (u0 * (v0 * fst p1 + v1 * fst p2) + u1 * (v0 * fst p3 + v1 * fst p4)) + be * (u0 * (v0 * snd p1 + v1 * snd p2) + u1 * (v0 * snd p3 + v1 * snd p4)))
      with (u0 * (v0 * w1 + v1 * w2) + u1 * (v0 * w3 + v1 * w4)) by (unfold w1, w2, w3, w4; ring).
    assert (v0 = 1 - v1) as -> by lra. assert (u0 = 1 - u1) as -> by lra.
    assert (m <= (1 - v1) * w1 + v1 * w2 <= M) by nra. assert (m <= (1 - v1) * w3 + v1 * w4 <= M) by nra. nra.
  - intros A B C H. rewrite !H. assert (v0 = 1 - v1) as -> by lra. assert (u0 = 1 - u1) as -> by lra. rewrite <- UX, <- VY. apply cplx_eq; unfold cadd, cscal; cbn [fst snd]; ring.
Qed.
Print Assumptions C100_resample.
(** With a finer spacing than the solver's the first and the last saved rows are not numbers, and the density is 0 there. *)
Theorem C100_finer_refuted : forall g dx dy f n b, planar g -> let o := derive g in dx < o_dx o -> 
  saved o (Resampled dx dy) f 0 b = None /\ saved o (Resampled dx dy) f (o_nx o - 1) b = None /\ saved_density o (Resampled dx dy) n 0 b = 0.
Proof.
  intros g dx dy f n b P o D. pose proof P as (_ & Hx & Hy). fold o in Hx, Hy.
  assert (W0 : weights (o_nx o) (x_ax o) (sx_ax o dx 0) = None). { assert (Q : sx_ax o dx 0 < x_ax o 0) by (unfold sx_ax, x_ax; rewrite !lin_0; lra). unfold weights. destruct (Rlt_dec (sx_ax o dx 0) (x_ax o 0)); [reflexivity|contradiction]. }
  assert (W1 : weights (o_nx o) (x_ax o) (sx_ax o dx (o_nx o - 1)) = None). { assert (Q : x_ax o (o_nx o - 1) < sx_ax o dx (o_nx o - 1)) by (unfold sx_ax, x_ax; rewrite !lin_last by auto; lra). unfold weights. destruct (Rlt_dec _ (x_ax o 0)); [reflexivity|]. destruct (Rlt_dec (x_ax o (o_nx o - 1)) (sx_ax o dx (o_nx o - 1))); [reflexivity|contradiction]. }
  unfold saved, saved_density, interp2. rewrite W0, W1. auto.
Qed.
Print Assumptions C100_finer_refuted.
(** With a coarser spacing the Fourier coefficients themselves are interpolated: at twice the spacing the coefficient saved for kx = 0 is the mean of those of the
    first two wavenumbers, and the wavenumber axis is half of the true one. *)
Theorem C100_coarser_refuted : forall g f b, planar g -> let o := derive g in (b < o_ny o)%nat -> 2 * o_dx o < o_xmax o - o_xmin o ->
  saved o (Resampled (2 * o_dx o) (o_dy o)) f 0 b = Some (cscal (1 / 2) (cadd (f 0%nat b) (f 1%nat b))) /\
  (forall i, kx (o_nx o) (2 * o_dx o) i = kx (o_nx o) (o_dx o) i / 2).
Proof.
  intros g f b P o Hb L. pose proof P as (_ & Hx & Hy). fold o in Hx, Hy. destruct (boxes g P) as (B1 & B2 & B3 & B4). fold o in B1, B2, B3, B4.
  pose proof (C99_grid g (proj1 P)) as G. fold o in G. destruct G as (_ & _ & DY & PD & FX & _ & X0 & _ & _ & _ & _ & XA & _).
  split.
  2: { intros i. unfold kx. assert (0 < INR (o_nx o)) by (apply lt_0_INR; lia). field. lra. }
  unfold saved, interp2. change (sy_ax o (o_dy o) b) with (y_ax o b).
  destruct (weights_node (o_ny o) (y_ax o) (y_inc g P) b Hy Hb) as (j & v0 & v1 & F & D). rewrite F.
  assert (Q : sx_ax o (2 * o_dx o) 0 = o_dx o) by (unfold sx_ax; rewrite lin_0, X0; lra).
  assert (x0 : x_ax o 0 = o_dx o / 2) by (rewrite XA by lia; change (INR 0) with 0; lra). assert (x1 : x_ax o 1 = 3 / 2 * o_dx o) by (rewrite XA by lia; change (INR 1) with 1; lra).
  assert (W : weights (o_nx o) (x_ax o) (sx_ax o (2 * o_dx o) 0) = Some (1%nat, 1 / 2, 1 / 2)).
  { rewrite Q. unfold weights. destruct (Rlt_dec (o_dx o) (x_ax o 0)); [lra|]. destruct (Rlt_dec (x_ax o (o_nx o - 1)) (o_dx o)) as [h|h].
    { unfold x_ax in h. rewrite lin_last in h by auto. lra. }
    destruct (ssr_spec (x_ax o) (x_inc g P) (o_dx o) (o_nx o)) as [S1 S2]. unfold interval. set (k := searchsorted_right (o_nx o) (x_ax o) (o_dx o)) in *.
    assert (K : k = 1%nat). { assert ((0 < k)%nat) by (apply S2; [lia|lra]). destruct (Nat.eq_dec k 1); [auto|]. assert (x_ax o 1 <= o_dx o) by (apply S2; lia). lra. }
    rewrite K. replace (Nat.min (Nat.max 1 1) (o_nx o - 1)) with 1%nat by lia. cbn [Nat.sub]. rewrite x0, x1. f_equal. f_equal; [f_equal|]; field; lra. }
  rewrite W. f_equal. destruct D as [(-> & -> & ->)|(-> & -> & ->)]; cbn [Nat.sub]; rewrite ?Nat.sub_0_r; apply cplx_eq; unfold cadd, cscal; cbn [fst snd]; field.
Qed.
Print Assumptions C100_coarser_refuted.
(** An "x" entry without a "y" entry is refused. *)
Theorem C100_needs_y : forall s dx, s_dx s = Some dx -> s_dy s = None -> save_axes s = Refused.
Proof. intros s dx A B. unfold save_axes. rewrite A, B. reflexivity. Qed.
Print Assumptions C100_needs_y.

(* ------------------------------------------------------------------------------------------------ *)
(** * The saved spectra and fields *)
Lemma shift_freq n dx i : (i < n)%nat -> (fftshift n i < n)%nat /\ kx n dx (fftshift n i) = 2 * PI * (IZR (Z.of_nat i - Z.of_nat (n / 2)) / (INR n * dx)) /\ fftshift n i = wrap n (Z.of_nat i - Z.of_nat (n / 2)).
Proof.
  intros Hi. unfold fftshift. assert (Dm : (2 * (n / 2) <= n)%nat) by (apply Nat.mul_div_le; lia). assert (Dp : (n < 2 * (n / 2) + 2)%nat) by (pose proof (Nat.mod_upper_bound n 2 ltac:(lia)); pose proof (Nat.div_mod n 2 ltac:(lia)); lia).
  set (m := (n / 2)%nat) in *. destruct (le_lt_dec m i) as [h|h].
  - assert (E : ((i + (n - m)) mod n = i - m)%nat). { replace (i + (n - m))%nat with ((i - m) + 1 * n)%nat by lia. rewrite Nat.mod_add by lia. apply Nat.mod_small. lia. }
    rewrite E. split; [lia|]. split.
    + unfold kx. replace (Nat.ltb (2 * (i - m)) n) with true by (symmetry; apply Nat.ltb_lt; lia). rewrite INR_IZR_INZ. rewrite Nat2Z.inj_sub by lia. reflexivity.
    + unfold wrap. rewrite Z.mod_small by lia. lia.
  - assert (E : ((i + (n - m)) mod n = i + (n - m))%nat) by (apply Nat.mod_small; lia). rewrite E. split; [lia|]. split.
    + unfold kx. replace (Nat.ltb (2 * (i + (n - m))) n) with false by (symmetry; apply Nat.ltb_ge; lia). f_equal. f_equal. rewrite plus_INR, minus_INR by lia. rewrite minus_IZR, <- !INR_IZR_INZ. ring.
    + unfold wrap. replace (Z.of_nat i - Z.of_nat m)%Z with (Z.of_nat i - Z.of_nat m + Z.of_nat n + (-1) * Z.of_nat n)%Z by lia. rewrite Z_mod_plus_full, Z.mod_small by lia. lia.
Qed.
(** In single precision, on the solver's own grid: the wavenumber axes are the multiples of 2 pi / L from -n/2 upwards in increasing order, in units of w0 / c; next to
    each pair of wavenumbers stands its Fourier coefficient, and the electric spectra are minus i k times it; the saved potential in real space is the inverse transform. *)
Theorem C100_spectra : forall g c w0 phi, usable g -> 0 < c -> 0 < w0 -> let o := derive g in
  exists K X, field_arrays o Whole Single c w0 phi = Some (K, X) /\
  (forall i, (i < o_nx o)%nat -> k_kx K i = IZR (Z.of_nat i - Z.of_nat (o_nx o / 2)) * (2 * PI / (o_xmax o - o_xmin o)) * c / w0) /\
  (forall j, (j < o_ny o)%nat -> k_ky K j = IZR (Z.of_nat j - Z.of_nat (o_ny o / 2)) * (2 * PI / (o_ymax o - o_ymin o)) * c / w0) /\
  (forall i i', (i < i')%nat -> (i' < o_nx o)%nat -> k_kx K i < k_kx K i') /\
  (forall i j, (i < o_nx o)%nat -> (j < o_ny o)%nat ->
     k_phi K i j = phi (wrap (o_nx o) (Z.of_nat i - Z.of_nat (o_nx o / 2))) (wrap (o_ny o) (Z.of_nat j - Z.of_nat (o_ny o / 2))) /\
     k_ex K i j = cmul (0, - (k_kx K i * w0 / c)) (k_phi K i j) /\ k_ey K i j = cmul (0, - (k_ky K j * w0 / c)) (k_phi K i j)) /\
  (forall i j, (i < o_nx o)%nat -> (j < o_ny o)%nat -> fft2 (o_nx o) (o_ny o) (x_phi X) i j = phi i j) /\
  x_x X = x_ax o /\ x_y X = y_ax o.
Proof.
  intros g c w0 phi U C W o. destruct (C99_grid g U) as (_ & _ & DY & PD & FX & FY & _). fold o in DY, PD, FX, FY.
  assert (RL : row_len Single (o_ny o) = o_ny o) by (unfold row_len; unfold real_words, complex_words; replace (2 * o_ny o * 1)%nat with (o_ny o * 2)%nat by lia; apply Nat.div_mul; lia).
  unfold field_arrays. rewrite RL, Nat.eqb_refl. cbn [negb]. eexists. eexists. split; [reflexivity|]. cbn [k_kx k_ky k_phi k_ex k_ey x_phi x_x x_y].
  assert (PX : 0 < INR (o_nx o)) by (apply lt_0_INR; apply next_pos). assert (PY : 0 < INR (o_ny o)) by (apply lt_0_INR; apply next_pos).
  assert (KX : forall i, (i < o_nx o)%nat -> kx (o_nx o) (o_dx o) (fftshift (o_nx o) i) = IZR (Z.of_nat i - Z.of_nat (o_nx o / 2)) * (2 * PI / (o_xmax o - o_xmin o))).
  { intros i Hi. destruct (shift_freq (o_nx o) (o_dx o) i Hi) as (_ & E & _). rewrite E, FX. unfold Rdiv. ring. }
  assert (KY : forall j, (j < o_ny o)%nat -> kx (o_ny o) (o_dy o) (fftshift (o_ny o) j) = IZR (Z.of_nat j - Z.of_nat (o_ny o / 2)) * (2 * PI / (o_ymax o - o_ymin o))).
  { intros i Hi. destruct (shift_freq (o_ny o) (o_dy o) i Hi) as (_ & E & _). rewrite E, FY. unfold Rdiv. ring. }
  split; [intros i Hi; rewrite KX by auto; reflexivity|]. split; [intros j Hj; rewrite KY by auto; reflexivity|]. split.
  { intros i i' L Hi. rewrite !KX by lia. assert (IZR (Z.of_nat i - Z.of_nat (o_nx o / 2)) < IZR (Z.of_nat i' - Z.of_nat (o_nx o / 2))) by (apply IZR_lt; lia).
    assert (0 < 2 * PI / (o_xmax o - o_xmin o)) by (apply Rdiv_lt_0_compat; [pose proof PI_RGT_0; lra|rewrite <- FX; apply Rmult_lt_0_compat; auto]). unfold Rdiv. apply Rmult_lt_compat_r; [apply Rinv_0_lt_compat; auto|]. apply Rmult_lt_compat_r; [auto|]. apply Rmult_lt_compat_r; auto. }
  split.
  { intros i j Hi Hj. destruct (shift_freq (o_nx o) (o_dx o) i Hi) as (_ & _ & E1). destruct (shift_freq (o_ny o) (o_dy o) j Hj) as (_ & _ & E2). split; [rewrite E1, E2; reflexivity|].
    split; f_equal; f_equal; f_equal; field; lra. }
  split; [|split; reflexivity]. intros i j Hi Hj. apply fft2_ifft2. split; auto.
Qed.
Print Assumptions C100_spectra.
(** But the saved electric field in real space is 4 / (nx ny) times the field of the saved potential: its energy is (4 / (nx ny))^2 times that of the series. *)
Theorem C100_field_scale_refuted : forall cf g c w0 phi K X, usable g -> let o := derive g in e_nx cf = o_nx o -> e_ny cf = o_ny o -> e_dx cf = o_dx o -> e_dy cf = o_dy o ->
  field_arrays o Whole Single c w0 phi = Some (K, X) ->
  (forall a b, x_ex X a b = cscal (4 / (INR (o_nx o) * INR (o_ny o))) (ex_of cf phi a b) /\ x_ey X a b = cscal (4 / (INR (o_nx o) * INR (o_ny o))) (ey_of cf phi a b)) /\
  let energy := rsum (o_nx o) (fun a => rsum (o_ny o) (fun b => (cabs2 (x_ex X a b) + cabs2 (x_ey X a b)) * o_dx o * o_dy o)) in
  energy = (4 / (INR (o_nx o) * INR (o_ny o))) ^ 2 * e_sq cf phi /\ (4 < INR (o_nx o) * INR (o_ny o) -> 0 < e_sq cf phi -> energy < e_sq cf phi).
Proof.
  intros cf g c w0 phi K X U o N1 N2 D1 D2 F. assert (PX : 0 < INR (o_nx o)) by (apply lt_0_INR; apply next_pos). assert (PY : 0 < INR (o_ny o)) by (apply lt_0_INR; apply next_pos).
  unfold field_arrays in F. destruct (negb _); [discriminate|]. injection F as _ <-. cbn [x_ex x_ey].
  assert (E : forall z, cscal 4 (cscal (/ INR (o_ny o)) (cscal (/ INR (o_nx o)) z)) = cscal (4 / (INR (o_nx o) * INR (o_ny o))) z) by (intros z; apply cplx_eq; unfold cscal; cbn [fst snd]; field; lra).
  assert (A : forall a b, ifft2 (o_nx o) (o_ny o) (fun i j => cmul (0, - kx (o_nx o) (o_dx o) i) (phi i j)) a b = ex_of cf phi a b) by (intros a b; unfold ex_of, ekx; rewrite N1, N2, D1; reflexivity).
  assert (B : forall a b, ifft2 (o_nx o) (o_ny o) (fun i j => cmul (0, - kx (o_ny o) (o_dy o) j) (phi i j)) a b = ey_of cf phi a b) by (intros a b; unfold ey_of, eky; rewrite N1, N2, D2; reflexivity).
  split; [intros a b; rewrite !E, A, B; auto|]. match goal with |- ?e = _ /\ _ => set (energy := e) end.
  assert (EE : energy = (4 / (INR (o_nx o) * INR (o_ny o))) ^ 2 * e_sq cf phi).
  { unfold energy, e_sq. rewrite N1, N2, D1, D2. rewrite <- rsum_scal. apply rsum_ext. intros a Ha. rewrite <- rsum_scal. apply rsum_ext. intros b Hb. rewrite !E, A, B. unfold cabs2, cscal. cbn [fst snd]. ring. }
  split; [exact EE|]. intros L P. rewrite EE. set (N := INR (o_nx o) * INR (o_ny o)) in *. assert (Q : 0 < 4 / N < 1). { split; [apply Rdiv_lt_0_compat; lra|]. apply (Rmult_lt_reg_r N); [lra|]. unfold Rdiv. rewrite Rmult_assoc, Rinv_l by lra. lra. }
  set (q := 4 / N) in *. set (w := e_sq cf phi) in *. assert (q ^ 2 < 1) by nra. nra.
Qed.
Print Assumptions C100_field_scale_refuted.
(** In double precision the saved real array is read as single-precision complex numbers, twice as many as there are cells: the post-processing fails. *)
Theorem C100_precision_refuted : forall g s c w0 phi, usable g -> field_arrays (derive g) s Double c w0 phi = None.
Proof.
  intros g s c w0 phi U. unfold field_arrays. assert (P : (0 < o_ny (derive g))%nat) by apply next_pos. set (n := o_ny (derive g)) in *.
  assert (RL : row_len Double n = (2 * n)%nat) by (unfold row_len, real_words, complex_words; apply Nat.div_mul; lia). rewrite RL. replace ((2 * n =? n)%nat) with false by (symmetry; apply Nat.eqb_neq; lia). reflexivity.
Qed.
Print Assumptions C100_precision_refuted.

(* ------------------------------------------------------------------------------------------------ *)
(** * The series max_phi *)
Lemma rmax_ge n f i : (i < n)%nat -> f i <= rmax n f.
Proof. induction n; intros H; [lia|]. cbn [rmax]. destruct (Nat.eq_dec i n) as [->|]; [apply Rmax_r|]. eapply Rle_trans; [apply IHn; lia|apply Rmax_l]. Qed.
Lemma rmax_pos n f : 0 <= rmax n f.
Proof. induction n; cbn [rmax]; [lra|]. eapply Rle_trans; [exact IHn|apply Rmax_l]. Qed.
Lemma rmax_le n f M : 0 <= M -> (forall i, (i < n)%nat -> f i <= M) -> rmax n f <= M.
Proof. intros P. induction n; intros H; cbn [rmax]; [auto|]. apply Rmax_lub; auto. Qed.
Lemma cabs_tri a b : sqrt (cabs2 (cadd a b)) <= sqrt (cabs2 a) + sqrt (cabs2 b).
Proof.
  pose proof (cabs2_nonneg a) as PA. pose proof (cabs2_nonneg b) as PB. pose proof (sqrt_pos (cabs2 a)) as QA. pose proof (sqrt_pos (cabs2 b)) as QB. pose proof (sqrt_sqrt _ PA) as SA. pose proof (sqrt_sqrt _ PB) as SB.
  rewrite <- (sqrt_square (sqrt (cabs2 a) + sqrt (cabs2 b))) by lra. apply sqrt_le_1_alt.
  set (A := sqrt (cabs2 a)) in *. set (B := sqrt (cabs2 b)) in *. assert (D : fst a * fst b + snd a * snd b <= A * B).
  { apply Rsqr_incr_0_var; [|nra]. unfold Rsqr. replace (A * B * (A * B)) with ((A * A) * (B * B)) by ring. rewrite SA, SB. unfold cabs2. pose proof (Rle_0_sqr (fst a * snd b - snd a * fst b)) as Q. unfold Rsqr in Q. nra. }
  replace ((A + B) * (A + B)) with (A * A + B * B + 2 * (A * B)) by ring. rewrite SA, SB. unfold cabs2, cadd. cbn [fst snd]. nra.
Qed.
Lemma csum_bound n f M : (forall i, (i < n)%nat -> sqrt (cabs2 (f i)) <= M) -> sqrt (cabs2 (csum n f)) <= INR n * M.
Proof.
  induction n; intros H; [cbn [csum]; change (INR 0) with 0; unfold cabs2, c0; cbn [fst snd]; replace (0 * 0 + 0 * 0) with 0 by ring; rewrite sqrt_0; lra|].
  cbn [csum]. rewrite S_INR. eapply Rle_trans; [apply cabs_tri|]. pose proof (IHn ltac:(auto)). pose proof (H n ltac:(lia)). lra.
Qed.
Lemma ifft_bound n X M g : (0 < n)%nat -> (forall i, (i < n)%nat -> sqrt (cabs2 (X i)) <= M) -> sqrt (cabs2 (ifft n X g)) <= M.
Proof.
  intros Hn H. unfold ifft. assert (P : 0 < INR n) by (apply lt_0_INR; auto). assert (Q : 0 <= / INR n) by (apply Rlt_le, Rinv_0_lt_compat; auto).
  replace (cabs2 (cscal (/ INR n) (csum n (fun k => cmul (X k) (cis (angle n k g)))))) with ((/ INR n) ^ 2 * cabs2 (csum n (fun k => cmul (X k) (cis (angle n k g))))) by (unfold cabs2, cscal; cbn [fst snd]; ring).
  rewrite sqrt_mult_alt by apply pow2_ge_0. rewrite sqrt_pow2 by auto.
  pose proof (csum_bound n (fun k => cmul (X k) (cis (angle n k g))) M ltac:(intros i Hi; cbv beta; rewrite cmul_conj_abs, cabs2_cis, Rmult_1_r; auto)) as B.
  apply (Rmult_le_compat_l (/ INR n)) in B; [|auto]. eapply Rle_trans; [exact B|]. rewrite <- Rmult_assoc, Rinv_l by lra. lra.
Qed.
(** max_phi bounds the potential at every cell. *)
Theorem C100_max_phi : forall nx ny phi a b, (0 < nx)%nat -> (0 < ny)%nat -> sqrt (cabs2 (ifft2 nx ny phi a b)) <= max_phi nx ny phi.
Proof.
  intros nx ny phi a b Hx Hy. unfold ifft2. apply ifft_bound; [auto|]. intros i Hi. apply ifft_bound; [auto|]. intros j Hj.
  eapply Rle_trans; [apply (rmax_ge ny (fun j => sqrt (cabs2 (phi i j))) j Hj)|]. apply (rmax_ge nx (fun i => rmax ny (fun j => sqrt (cabs2 (phi i j)))) i Hi).
Qed.
Print Assumptions C100_max_phi.
(** But it is not the largest value of the potential: a single wave of amplitude A, whose potential has modulus A everywhere, is reported as nx ny A. *)
Definition one_wave (nx ny i0 j0 : nat) (A : R) : cfield := fun i j => if (i =? i0)%nat && (j =? j0)%nat then (INR nx * INR ny * A, 0) else c0.
Theorem C100_max_phi_refuted : forall nx ny i0 j0 A, (i0 < nx)%nat -> (j0 < ny)%nat -> 0 <= A ->
  (forall a b, sqrt (cabs2 (ifft2 nx ny (one_wave nx ny i0 j0 A) a b)) = A) /\ max_phi nx ny (one_wave nx ny i0 j0 A) = INR nx * INR ny * A.
Proof.
  intros nx ny i0 j0 A Hi Hj PA. assert (PX : 0 < INR nx) by (apply lt_0_INR; lia). assert (PY : 0 < INR ny) by (apply lt_0_INR; lia). assert (PP : 0 <= INR nx * INR ny * A) by (apply Rmult_le_pos; [apply Rmult_le_pos; lra|auto]). split.
  - intros a b. unfold ifft2.
    assert (E1 : forall i, ifft ny (fun j => one_wave nx ny i0 j0 A i j) b = if (i =? i0)%nat then cscal (INR nx * A) (cis (angle ny j0 b)) else c0).
    { intros i. unfold ifft. rewrite (csum_single ny j0); auto.
      - unfold one_wave. rewrite Nat.eqb_refl, andb_true_r. destruct (i =? i0)%nat; apply cplx_eq; unfold cscal, cmul, c0, cis; cbn [fst snd]; field; lra.
      - intros j _ N. unfold one_wave. apply Nat.eqb_neq in N. rewrite N, andb_false_r. apply cplx_eq; unfold cmul, c0; cbn [fst snd]; ring. }
    assert (E2 : ifft nx (fun i => ifft ny (fun j => one_wave nx ny i0 j0 A i j) b) a = cscal A (cmul (cis (angle ny j0 b)) (cis (angle nx i0 a)))).
    { unfold ifft at 1. rewrite (csum_single nx i0); auto.
      - rewrite E1, Nat.eqb_refl. apply cplx_eq; unfold cscal, cmul, cis; cbn [fst snd]; field; lra.
      - intros i _ N. rewrite E1. apply Nat.eqb_neq in N. rewrite N. apply cplx_eq; unfold cmul, c0; cbn [fst snd]; ring. }
    rewrite E2. replace (cabs2 (cscal A (cmul (cis (angle ny j0 b)) (cis (angle nx i0 a))))) with (A ^ 2 * cabs2 (cmul (cis (angle ny j0 b)) (cis (angle nx i0 a)))) by (unfold cabs2, cscal; cbn [fst snd]; ring).
    rewrite cmul_conj_abs, !cabs2_cis. replace (A ^ 2 * (1 * 1)) with (A ^ 2) by ring. apply sqrt_pow2; auto.
  - assert (V : forall i j, sqrt (cabs2 (one_wave nx ny i0 j0 A i j)) = if (i =? i0)%nat && (j =? j0)%nat then INR nx * INR ny * A else 0).
    { intros i j. unfold one_wave. destruct ((i =? i0)%nat && (j =? j0)%nat); unfold cabs2, c0; cbn [fst snd]; [replace (INR nx * INR ny * A * (INR nx * INR ny * A) + 0 * 0) with ((INR nx * INR ny * A) ^ 2) by ring; apply sqrt_pow2; auto|replace (0 * 0 + 0 * 0) with 0 by ring; apply sqrt_0]. }
    apply Rle_antisym.
    + unfold max_phi. apply rmax_le; [auto|]. intros i _. apply rmax_le; [auto|]. intros j _. rewrite V. destruct (_ && _); lra.
    + pose proof (rmax_ge ny (fun j => sqrt (cabs2 (one_wave nx ny i0 j0 A i0 j))) j0 Hj) as B. cbv beta in B. rewrite V, !Nat.eqb_refl in B. cbn [andb] in B.
      eapply Rle_trans; [exact B|]. apply (rmax_ge nx (fun i => rmax ny (fun j => sqrt (cabs2 (one_wave nx ny i0 j0 A i j)))) i0 Hi).
Qed.
Print Assumptions C100_max_phi_refuted.
(** The ramp of C99 (160 cells in x) is a grid these statements are about. *)
Example C100_ex : planar ramp /\ save_axes {| s_tmin := 0; s_tmax := 2; s_dt := 1 / 10; s_dx := Some 1; s_dy := None |} = Refused.
Proof.
  split; [|reflexivity]. destruct C99_linear_ex as (U & XM & NX). split; [exact U|]. split; [rewrite NX; lia|].
  destruct (C99_grid ramp U) as (_ & _ & DY & PD & FX & FY & X0 & _ & _ & YB & _). destruct (le_lt_dec 2 (o_ny (derive ramp))) as [|h]; [auto|exfalso].
  rewrite NX, X0, XM in FX. replace (INR 160) with 160 in FX by (rewrite INR_IZR_INZ; reflexivity). assert (DX : o_dx (derive ramp) = 1 / 2) by lra. rewrite DY, DX in *. cbn [ramp i_ymin i_ymax] in YB.
  assert (INR (o_ny (derive ramp)) <= 1) by (apply (le_INR _ 1); lia). lra.
Qed.
