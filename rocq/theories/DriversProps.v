(** Properties C64 (external drivers) and C67 (unit systems). *)
From Coq Require Import Permutation Psatz.
From Verif Require Import RSum Pic PicProofs PicFourier VGrid VGridProofs Density DensityProofs Dft Drivers.
Local Open Scope R_scope.

Definition sum_of {A} (h : A -> R) (l : list A) : R := fold_right (fun a acc => h a + acc) 0 l.
Lemma fold_sum_of {A} (h : A -> R) l : forall z, fold_left (fun acc a => acc + h a) l z = z + sum_of h l.
Proof. induction l as [|a l IH]; intros z; cbn [fold_left sum_of fold_right]; [ring|]. rewrite IH. unfold sum_of. ring. Qed.
Lemma sum_of_perm {A} (h : A -> R) l l' : Permutation l l' -> sum_of h l = sum_of h l'.
Proof. induction 1; unfold sum_of in *; cbn [fold_right]; lra. Qed.
Lemma sum_of_app {A} (h : A -> R) l l' : sum_of h (l ++ l') = sum_of h l + sum_of h l'.
Proof. induction l as [|a l IH]; unfold sum_of in *; cbn [app fold_right]; [ring|]. rewrite IH. ring. Qed.

(** Drivers add up, in any order; no drivers, no force. *)
Theorem C64_superposition : forall n x c t i pos,
  (ex_drive [] pos t = 0 /\ ey_drive n x c [] t i = 0) /\
  (forall l l', ex_drive (l ++ l') pos t = ex_drive l pos t + ex_drive l' pos t /\ ey_drive n x c (l ++ l') t i = ey_drive n x c l t i + ey_drive n x c l' t i) /\
  (forall l l', Permutation l l' -> ex_drive l pos t = ex_drive l' pos t /\ ey_drive n x c l t i = ey_drive n x c l' t i).
Proof.
  intros n x c t i pos. assert (E : forall l, ex_drive l pos t = sum_of (fun d => ex_single d pos t) l) by (intros; unfold ex_drive; rewrite fold_sum_of; ring).
  assert (F : forall l, ey_drive n x c l t i = sum_of (fun d => ey_single n x c d t i) l) by (intros; unfold ey_drive; rewrite fold_sum_of; ring).
  split; [split; reflexivity|]. split; intros l l'.
  - rewrite !E, !F, !sum_of_app. split; ring.
  - intros P. rewrite !E, !F. split; now apply sum_of_perm.
Qed.
Print Assumptions C64_superposition.

(** One longitudinal driver is a travelling wave of amplitude (w0 + dw0) a0 under its envelope: constant along
    k x - w t, so it moves at the phase speed; extended transverse drivers are minus (w0 + dw0) times the same wave. *)
Theorem C64_travelling : forall d x t s, let w := d_w0 d + d_dw0 d in
  (forall tau, env_call (d_time d) tau = 1) -> (forall y, env_call (d_space d) y = 1) -> d_k0 d <> 0 ->
  ex_drive [d] x t = w * d_a0 d * sin (d_k0 d * x - w * t) /\
  ex_drive [d] (x + w / d_k0 d * s) (t + s) = ex_drive [d] x t /\
  (d_point d = false -> forall n xs c i, xs i = x -> ey_drive n xs c [d] t i = - w * ex_drive [d] x t).
Proof.
  intros d x t s w Ht Hx Hk. unfold ex_drive, ey_drive, ex_single, ey_single, st_call. cbn [fold_left]. rewrite !Ht, !Hx. fold w. repeat split.
  - ring.
  - replace (d_k0 d * (x + w / d_k0 d * s) - w * (t + s)) with (d_k0 d * x - w * t) by (field; exact Hk). ring.
  - intros -> n xs c i <-. rewrite ?Ht, ?Hx. cbn zeta. fold w. ring.
Qed.
Print Assumptions C64_travelling.
Definition always (h : R) : envelope := {| e_center := 0; e_width := 0; e_rise := 1; e_baseline := h; e_height := 0; e_trough := false |}.
Lemma always_const h x : env_call (always h) x = h. Proof. unfold env_call, always. cbn. ring. Qed.
Example C64_nonvacuous_travelling : exists d, (forall tau, env_call (d_time d) tau = 1) /\ (forall y, env_call (d_space d) y = 1) /\ d_k0 d <> 0 /\ d_a0 d <> 0 /\ d_w0 d + d_dw0 d <> 0 /\ d_point d = false.
Proof. exists {| d_a0 := 1; d_k0 := 3; d_w0 := 1; d_dw0 := 1; d_time := always 1; d_space := always 1; d_point := false |}. cbn. repeat split; try lra; apply always_const. Qed.

(** A point source acts in exactly one cell, the one nearest to its centre (the lowest of several). *)
Lemma argmin_spec n h : (0 < n)%nat -> (argmin n h < n)%nat /\ (forall i, (i < n)%nat -> h (argmin n h) <= h i) /\ (forall i, (i < argmin n h)%nat -> h (argmin n h) < h i).
Proof.
  induction n as [|n IH]; [lia|]. intros _. cbn [argmin]. destruct n as [|n].
  - cbn [argmin]. destruct (Rlt_dec (h 0%nat) (h 0%nat)); [lra|]. repeat split; [lia| |lia]. intros i Hi. replace i with 0%nat by lia. lra.
  - destruct (IH ltac:(lia)) as (A & B & C). set (b := argmin (S n) h) in *. destruct (Rlt_dec (h (S n)) (h b)) as [L|L].
    + repeat split; [lia| |].
      * intros i Hi. destruct (Nat.eq_dec i (S n)) as [->|]; [lra|]. specialize (B i ltac:(lia)). lra.
      * intros i Hi. specialize (B i ltac:(lia)). lra.
    + repeat split; [lia| |exact C]. intros i Hi. destruct (Nat.eq_dec i (S n)) as [->|]; [lra|]. apply B. lia.
Qed.
Theorem C64_point_source : forall n x c d t, (0 < n)%nat -> d_point d = true -> exists i0, (i0 < n)%nat /\
  (forall j, (j < n)%nat -> Rabs (x i0 - e_center (d_space d)) <= Rabs (x j - e_center (d_space d))) /\
  (forall j, (j < i0)%nat -> Rabs (x i0 - e_center (d_space d)) < Rabs (x j - e_center (d_space d))) /\
  (forall i, (i < n)%nat -> i <> i0 -> ey_drive n x c [d] t i = 0) /\
  ey_drive n x c [d] t i0 = 2 * (d_w0 d + d_dw0 d) * c * d_a0 d / (x 1%nat - x 0%nat) * env_call (d_time d) t * sin ((d_w0 d + d_dw0 d) * t).
Proof.
  intros n x c d t Hn Hp. set (h := fun i => Rabs (x i - e_center (d_space d))). destruct (argmin_spec n h Hn) as (A & B & C).
  exists (point_cell n x d). split; [exact A|]. split; [exact B|]. split; [exact C|].
  assert (E : forall i, ey_drive n x c [d] t i = point_scale x c d * env_call (d_time d) t * (if (i =? point_cell n x d)%nat then 1 else 0) * sin ((d_w0 d + d_dw0 d) * t)).
  { intros i. unfold ey_drive, ey_single. cbn [fold_left]. rewrite Hp. ring. }
  split.
  - intros i Hi Hne. rewrite E. destruct (Nat.eqb_spec i (point_cell n x d)); [contradiction|ring].
  - rewrite E, Nat.eqb_refl. unfold point_scale. ring.
Qed.
Print Assumptions C64_point_source.
Example C64_nonvacuous_point : point_cell 3 (fun i => INR i) {| d_a0 := 1; d_k0 := 0; d_w0 := 1; d_dw0 := 0; d_time := always 1; d_space := {| e_center := 1; e_width := 1; e_rise := 1; e_baseline := 0; e_height := 1; e_trough := false |}; d_point := true |} = 1%nat.
Proof.
  unfold point_cell. destruct (argmin_spec 3 (fun i => Rabs (INR i - 1)) ltac:(lia)) as (A & B & C). cbn [d_space e_center].
  set (k := argmin 3 (fun i => Rabs (INR i - 1))) in *. specialize (B 1%nat ltac:(lia)). change (INR 1) with 1 in B. rewrite (Rminus_diag_eq 1 1 eq_refl), Rabs_R0 in B.
  destruct k as [|[|[|k]]]; [|reflexivity| |lia]; exfalso; cbn in B; unfold Rabs in B; destruct (Rcase_abs _) in B; lra.
Qed.

(** A driver given by amplitude, wavenumber and frequency. The check asks for at least one of wavenumber and
    frequency and the code means to infer the other; in fact it is built exactly when both are given. *)
Theorem C64_akw : forall c k0 w0, (akw_build c k0 w0 <> None <-> k0 <> None /\ w0 <> None) /\
  (forall k w, akw_build c (Some k) (Some w) = Some (k, w)) /\ (akw_accepted k0 w0 = true <-> k0 <> None \/ w0 <> None).
Proof.
  intros c [k|] [w|]; cbn; repeat split; try congruence; try (intros [H H']; congruence); try (intros; now left); try (intros; now right); try (intros [H|H]; congruence); try tauto; try (left; discriminate); try (right; discriminate).
Qed.
Print Assumptions C64_akw.
Theorem C64_akw_inference_refuted : ~ forall c k0 w0, akw_accepted k0 w0 = true -> akw_build c k0 w0 <> None.
Proof. intros H. apply (H 1 (Some 1) None); reflexivity. Qed.
Print Assumptions C64_akw_inference_refuted.

(** A laser given by intensity and wavelength has the amplitude e E / (m_e c w) of that intensity, in units of v0/c,
    satisfies the vacuum dispersion relation w = c |k|, and "leftgoing" reverses only the wavenumber. *)
Theorem C64_laser : forall k u I lam E, physical k -> 0 < n_v0 u -> 0 < n_tau u -> n_L0 u = n_v0 u * n_tau u -> 0 < lam -> 0 <= E ->
  I = k_eps0 k * k_c k * E ^ 2 / 2 ->
  let w := 2 * PI * k_c k / lam in
  forall dir, let '(a0, k0, w0) := laser_driver k u I lam dir in
  a0 * n_v0 u / k_c k = k_e k * E / (k_me k * k_c k * w) /\ w0 = w * n_tau u /\ w0 = c_norm k u * Rabs k0 /\
  laser_driver k u I lam (negb dir) = (a0, - k0, w0) /\ (k0 < 0 <-> dir = true).
Proof.
  intros k u I lam E (He & Hm & Hmp & Hp & Hc) Hv Ht HL Hlam HE HI w dir. unfold laser_driver. pose proof PI_RGT_0 as HP.
  assert (S : sqrt (I / (2 * k_eps0 k * k_c k ^ 5)) = E / (2 * k_c k ^ 2)).
  { replace (I / (2 * k_eps0 k * k_c k ^ 5)) with ((E / (2 * k_c k ^ 2)) ^ 2) by (rewrite HI; field; lra). apply sqrt_pow2. apply Rmult_le_pos; [exact HE|]. apply Rlt_le, Rinv_0_lt_compat. nra. }
  rewrite S. assert (Q : 0 < 2 * PI / lam * n_L0 u). { rewrite HL. apply Rmult_lt_0_compat; [apply Rdiv_lt_0_compat; lra|nra]. }
  repeat split.
  - unfold c_norm, w. field. repeat split; lra.
  - unfold c_norm. destruct dir.
    + rewrite Rabs_left by lra. rewrite HL. field. lra.
    + rewrite Rabs_pos_eq by lra. rewrite HL. field. lra.
  - destruct dir; cbn [negb]; f_equal; f_equal; ring.
  - destruct dir; [reflexivity|intros; lra].
  - intros ->. lra.
Qed.
Print Assumptions C64_laser.

(* ------------------------------------------------------------------------------------------------ *)
(** The stochastic driver. *)
(** The precomputed times start at tmin, reach beyond tmax and are never further apart than half a correlation time. *)
Theorem C64_stochastic_times : forall tau upd tmin tmax, 0 < tau -> (forall d, upd = Some d -> 0 < d) -> tmin <= tmax ->
  let dtu := st_dt tau upd in let nt := Z.to_nat (st_nt tmin tmax dtu) in
  0 < dtu <= tau / 2 /\ (2 <= nt)%nat /\ st_time tmin dtu 0 = tmin /\ tmax <= st_time tmin dtu (nt - 2) /\ st_time tmin dtu (nt - 1) < tmax + 2 * dtu /\
  (forall d, upd = Some d -> d <= tau / 2 -> dtu = d) /\ (upd = None -> dtu = tau / 10).
Proof.
  intros tau upd tmin tmax Ht Hu Hm dtu nt.
  assert (D : 0 < dtu) by (unfold dtu, st_dt; apply Rmin_glb_lt; [destruct upd; [now apply Hu|lra]|lra]).
  assert (D2 : dtu <= tau / 2) by apply Rmin_r.
  set (q := (tmax - tmin) / dtu). assert (Q : 0 <= q) by (unfold q; apply Rmult_le_pos; [lra|apply Rlt_le, Rinv_0_lt_compat, D]).
  assert (C : q <= IZR (ceil q) < q + 1) by (unfold ceil; rewrite opp_IZR; pose proof (floor_spec (- q)); lra).
  assert (C0 : (0 <= ceil q)%Z) by (apply le_IZR; lra).
  assert (N : nt = (Z.to_nat (ceil q) + 2)%nat) by (unfold nt, st_nt; fold q; lia).
  assert (R : INR (Z.to_nat (ceil q)) = IZR (ceil q)) by (rewrite INR_IZR_INZ, Z2Nat.id by exact C0; reflexivity).
  assert (T : tmax = tmin + dtu * q) by (unfold q; field; lra).
  split; [split; assumption|]. split; [lia|]. split; [unfold st_time; cbn; ring|]. rewrite N.
  replace (Z.to_nat (ceil q) + 2 - 2)%nat with (Z.to_nat (ceil q)) by lia. replace (Z.to_nat (ceil q) + 2 - 1)%nat with (S (Z.to_nat (ceil q))) by lia.
  unfold st_time. rewrite S_INR, R. repeat split.
  - rewrite T at 1. nra.
  - rewrite T. nra.
  - intros d -> Hd. unfold dtu, st_dt. apply Rmin_left. exact Hd.
  - intros ->. unfold dtu, st_dt. apply Rmin_left. lra.
Qed.
Print Assumptions C64_stochastic_times.
(** False without the positivity hypothesis, and the configuration does not check it. *)
Theorem C64_update_unchecked_refuted : ~ forall tau d tmin tmax, 0 < tau -> tmin <= tmax -> let dtu := st_dt tau (Some d) in
  tmax <= st_time tmin dtu (Z.to_nat (st_nt tmin tmax dtu) - 1).
Proof.
  intros H. specialize (H 1 (-1) 0 1 ltac:(lra) ltac:(lra)). cbn zeta in H.
  assert (D : st_dt 1 (Some (-1)) = -1) by (unfold st_dt; apply Rmin_left; lra). rewrite D in H. unfold st_time in H. pose proof (pos_INR (Z.to_nat (st_nt 0 1 (-1)) - 1)). lra.
Qed.
Print Assumptions C64_update_unchecked_refuted.

Lemma count_le_uniform n t0 d x k : 0 < d -> t0 + d * INR k <= x < t0 + d * (INR k + 1) -> count_le n (st_time t0 d) x = Nat.min n (S k).
Proof.
  intros Hd Hx. induction n as [|n IH]; [reflexivity|]. cbn [count_le]. rewrite IH. unfold st_time. destruct (Rle_dec (t0 + d * INR n) x) as [L|L].
  - assert (INR n < INR k + 1) by nra. rewrite <- S_INR in H. apply INR_lt in H. lia.
  - assert (INR k < INR n) by nra. apply INR_lt in H. lia.
Qed.
(** Between two of its times the amplitude is the straight line through them; before the first and after the
    last time it is frozen. *)
Theorem C64_stochastic_interp : forall n t0 d fp t, (2 <= n)%nat -> 0 < d ->
  (forall k s, (S k < n)%nat -> 0 <= s < 1 -> t = t0 + d * (INR k + s) -> interp n (st_time t0 d) fp t = (1 - s) * fp k + s * fp (S k)) /\
  (t < t0 -> interp n (st_time t0 d) fp t = fp 0%nat) /\ (st_time t0 d (n - 1) <= t -> interp n (st_time t0 d) fp t = fp (n - 1)%nat).
Proof.
  intros n t0 d fp t Hn Hd. assert (Z0 : st_time t0 d 0 = t0) by (unfold st_time; cbn; ring). split; [|split].
  - intros k s Hk Hs ->. unfold interp. rewrite Z0. pose proof (pos_INR k) as Pk.
    destruct (Rlt_dec _ t0); [nra|]. destruct (Rlt_dec (st_time t0 d (n - 1)) _) as [L|_].
    { unfold st_time in L. assert (INR (S k) <= INR (n - 1)) by (apply le_INR; lia). rewrite S_INR in H. nra. }
    rewrite (count_le_uniform n t0 d _ k Hd) by (split; nra). replace (Nat.min (Nat.max (Nat.min n (S k)) 1) (n - 1)) with (S k) by lia.
    replace (S k - 1)%nat with k by lia. unfold st_time. rewrite S_INR. field. lra.
  - intros Ht. unfold interp. rewrite Z0. destruct (Rlt_dec t t0); [reflexivity|lra].
  - intros Ht. unfold interp. rewrite Z0. assert (S1 : st_time t0 d (n - 1) = t0 + d * INR (n - 1)) by reflexivity. assert (0 < INR (n - 1)) by (apply lt_0_INR; lia).
    destruct (Rlt_dec t t0); [nra|]. destruct (Rlt_dec _ t) as [L|L]; [reflexivity|]. assert (E : t = st_time t0 d (n - 1)) by lra.
    rewrite (count_le_uniform n t0 d t (n - 1) Hd) by (rewrite E; unfold st_time; lra).
    replace (Nat.min (Nat.max (Nat.min n (S (n - 1))) 1) (n - 1)) with (n - 1)%nat by lia. rewrite E. unfold st_time.
    replace (INR (n - 1)) with (INR (n - 1 - 1) + 1) by (rewrite <- S_INR; f_equal; lia). field. lra.
Qed.
Print Assumptions C64_stochastic_interp.
Example C64_nonvacuous_interp : interp 2 (st_time 0 2) (fun k => INR k) 1 = 1 / 2.
Proof.
  destruct (C64_stochastic_interp 2 0 2 (fun k => INR k) 1 ltac:(lia) ltac:(lra)) as [H _]. rewrite (H 0%nat (1 / 2) ltac:(lia) ltac:(lra)).
  - change (INR 0) with 0. change (INR 1) with 1. lra.
  - change (INR 0) with 0. lra.
Qed.

(** The field is periodic with the box, and on the cell centres of an nx-cell grid it has no mean (exerts no net
    force) as long as no driven mode is a multiple of nx. *)
Theorem C64_stochastic_periodic : forall n ts L modes t x, L <> 0 -> st_field n ts L modes t (x + L) = st_field n ts L modes t x.
Proof.
  intros n ts L modes t x HL. unfold st_field. rewrite !fold_sum_of. f_equal. unfold sum_of. induction modes as [|md l IH]; [reflexivity|]. cbn [fold_right]. rewrite IH. cbv zeta. destruct md as [m am]. cbn [fst snd].
  replace (2 * PI * IZR m / L * (x + L)) with (2 * PI * IZR m / L * x + 2 * IZR m * PI) by (field; exact HL). now rewrite cos_2Zpi, sin_2Zpi.
Qed.
Print Assumptions C64_stochastic_periodic.
Lemma sum_of_rsum {A} n (h : nat -> A -> R) l : rsum n (fun i => sum_of (h i) l) = sum_of (fun a => rsum n (fun i => h i a)) l.
Proof. induction l as [|a l IH]; unfold sum_of in *; cbn [fold_right]; [apply rsum_zero|]. rewrite rsum_plus, IH. reflexivity. Qed.
Theorem C64_stochastic_no_mean : forall n ts nx xmin dx modes t, (0 < nx)%nat -> dx <> 0 ->
  (forall md, In md modes -> ((fst md) mod Z.of_nat nx <> 0)%Z) ->
  rsum nx (fun i => st_field n ts (INR nx * dx) modes t (xmin + (INR i + 1 / 2) * dx)) = 0.
Proof.
  intros n ts nx xmin dx modes t Hn Hd Hm. assert (HnR : INR nx <> 0) by (apply not_0_INR; lia).
  rewrite (rsum_ext nx _ (fun i => sum_of (fun md => interp n ts (fun k => fst (snd md k)) t * cos (2 * PI * IZR (fst md) / (INR nx * dx) * (xmin + (INR i + 1 / 2) * dx))
     - interp n ts (fun k => snd (snd md k)) t * sin (2 * PI * IZR (fst md) / (INR nx * dx) * (xmin + (INR i + 1 / 2) * dx))) modes)) by (intros; unfold st_field; rewrite fold_sum_of; ring).
  rewrite sum_of_rsum. unfold sum_of. induction modes as [|md l IH]; [reflexivity|]. cbn [fold_right]. rewrite IH by (intros; apply Hm; now right). rewrite Rplus_0_r.
  rewrite rsum_minus, !rsum_scal. set (ph := 2 * PI * IZR (fst md) / (INR nx * dx) * (xmin + 1 / 2 * dx)).
  assert (P : forall i, 2 * PI * IZR (fst md) / (INR nx * dx) * (xmin + (INR i + 1 / 2) * dx) = angleZ nx (fst md) i + ph) by (intros; unfold angleZ, ph; field; split; assumption).
  rewrite (rsum_ext nx (fun i => cos _) (fun i => cos (angleZ nx (fst md) i + ph))) by (intros; now rewrite P).
  rewrite (rsum_ext nx (fun i => sin _) (fun i => sin (angleZ nx (fst md) i + ph))) by (intros; now rewrite P).
  rewrite cos_sum, sin_sum by exact Hn. specialize (Hm md (or_introl eq_refl)). apply Z.eqb_neq in Hm. rewrite Hm. ring.
Qed.
Print Assumptions C64_stochastic_no_mean.
(** Modes are only required to be positive: a mode equal to the number of cells aliases to a uniform force. *)
Theorem C64_alias_refuted : ~ forall n ts nx modes t, (0 < nx)%nat -> (forall md, In md modes -> (0 < fst md)%Z) ->
  rsum nx (fun i => st_field n ts (INR nx * 1) modes t (0 + (INR i + 1 / 2) * 1)) = 0.
Proof.
  intros H. specialize (H 2%nat (st_time 0 1) 1%nat [(2%Z, fun _ => (1, 0))] 0 ltac:(lia)).
  assert (M : forall md, In md [(2%Z, fun _ : nat => (1, 0))] -> (0 < fst md)%Z) by (intros md [<-|[]]; cbn; lia). specialize (H M). clear M.
  unfold st_field in H. cbn [fold_left rsum fst snd] in H. change (INR 0) with 0 in H. change (INR 1) with 1 in H.
  assert (I : forall c, interp 2 (st_time 0 1) (fun _ => c) 0 = c).
  { intros c. destruct (C64_stochastic_interp 2 0 1 (fun _ => c) 0 ltac:(lia) ltac:(lra)) as [G _]. rewrite (G 0%nat 0 ltac:(lia) ltac:(lra)); [ring|]. change (INR 0) with 0. ring. }
  rewrite !I in H. replace (2 * PI * 2 / (1 * 1) * (0 + (0 + 1 / 2) * 1)) with (2 * PI) in H by field. rewrite cos_2PI, sin_2PI in H. lra.
Qed.
Print Assumptions C64_alias_refuted.
(** The Ornstein-Uhlenbeck update: over [theta] in (0,1), amplitude and kick are balanced so that uncorrelated unit
    noise keeps the mean square of the amplitude at amplitude^2 for ever: here for the average over any finite
    sample of noise sequences that are uncorrelated with the past and of unit mean square. *)
Definition average (M : nat) (h : nat -> R) : R := rsum M h / INR M.
Theorem C64_stochastic_rms : forall M A tau dtu (xi : nat -> nat -> cplx), (0 < M)%nat -> 0 < tau -> 0 < dtu ->
  let theta := st_theta tau dtu in let a s k := st_amp A theta (xi s) k in
  (forall k, average M (fun s => cabs2 (xi s k)) = 1) ->
  (forall k, average M (fun s => fst (a s k) * fst (xi s (S k)) + snd (a s k) * snd (xi s (S k))) = 0) ->
  0 < theta < 1 /\ forall k, average M (fun s => cabs2 (a s k)) = A ^ 2.
Proof.
  intros M A tau dtu xi HM Ht Hd theta a H1 H0.
  assert (TH : 0 < theta < 1). { unfold theta, st_theta. split; [apply exp_pos|]. rewrite <- exp_0. apply exp_increasing. unfold Rdiv. pose proof (Rinv_0_lt_compat tau Ht). nra. }
  split; [exact TH|]. assert (HMR : INR M <> 0) by (apply not_0_INR; lia).
  assert (Q : sqrt (1 - theta ^ 2) * sqrt (1 - theta ^ 2) = 1 - theta ^ 2) by (apply sqrt_sqrt; nra).
  induction k as [|k IH].
  - transitivity (A ^ 2 * average M (fun s => cabs2 (xi s 0%nat))); [|rewrite H1; ring]. unfold average. rewrite (rsum_ext M _ (fun s => A ^ 2 * cabs2 (xi s 0%nat))); [rewrite rsum_scal; unfold Rdiv; ring|].
    intros s _. unfold a. cbn [st_amp]. unfold cabs2, cscal. cbn [fst snd]. ring.
  - set (w := sqrt (1 - theta ^ 2)) in *.
    transitivity (theta ^ 2 * average M (fun s => cabs2 (a s k)) + 2 * theta * (A * w) * average M (fun s => fst (a s k) * fst (xi s (S k)) + snd (a s k) * snd (xi s (S k))) + A ^ 2 * (w * w) * average M (fun s => cabs2 (xi s (S k)))).
    + unfold average. rewrite (rsum_ext M _ (fun s => theta ^ 2 * cabs2 (a s k) + 2 * theta * (A * w) * (fst (a s k) * fst (xi s (S k)) + snd (a s k) * snd (xi s (S k))) + A ^ 2 * (w * w) * cabs2 (xi s (S k)))).
      * rewrite !rsum_plus, !rsum_scal, !rsum_plus. unfold Rdiv. ring.
      * intros s _. unfold a. cbn [st_amp]. fold w. unfold cabs2, cadd, cscal. cbn [fst snd]. ring.
    + rewrite IH, H0, H1, Q. ring.
Qed.
Print Assumptions C64_stochastic_rms.
(** Noise that meets the two conditions: always a quarter turn ahead of the amplitude. *)
Fixpoint turning (th w : R) (k : nat) : cplx := match k with O => (1, 0) | S m => cmul (th, w) (turning th w m) end.
Example C64_nonvacuous_rms : let theta := st_theta 1 1 in exists xi : nat -> nat -> cplx,
  (forall k, average 1 (fun s => cabs2 (xi s k)) = 1) /\
  (forall k, average 1 (fun s => fst (st_amp 1 theta (xi s) k) * fst (xi s (S k)) + snd (st_amp 1 theta (xi s) k) * snd (xi s (S k))) = 0).
Proof.
  intros theta. set (w := sqrt (1 - theta ^ 2)). set (xi := fun k => match k with O => (1, 0) | S m => cmul (0, 1) (turning theta w m) end).
  assert (TH : 0 < theta < 1). { unfold theta, st_theta. split; [apply exp_pos|]. apply Rlt_le_trans with (exp 0); [apply exp_increasing; lra|rewrite exp_0; lra]. }
  assert (Q : theta * theta + w * w = 1) by (unfold w; rewrite sqrt_sqrt by nra; ring).
  assert (T : forall k, cabs2 (turning theta w k) = 1).
  { induction k as [|k IH]; [unfold cabs2; cbn; ring|]. cbn [turning]. rewrite <- IH. unfold cabs2, cmul. cbn [fst snd].
    transitivity ((theta * theta + w * w) * (fst (turning theta w k) * fst (turning theta w k) + snd (turning theta w k) * snd (turning theta w k))); [ring|rewrite Q; ring]. }
  assert (A : forall k, st_amp 1 theta xi k = turning theta w k).
  { induction k as [|k IH]; [unfold xi; cbn; unfold cscal; cbn; f_equal; ring|]. cbn [st_amp turning]. rewrite IH. fold w. unfold xi, cadd, cscal, cmul. cbn [fst snd]. f_equal; ring. }
  exists (fun _ => xi). split; intros k; unfold average; cbn [rsum]; change (INR 1) with 1.
  - replace (cabs2 (xi k)) with 1; [field|]. destruct k as [|k]; [unfold xi, cabs2; cbn; ring|]. rewrite <- (T k). unfold xi, cabs2, cmul. cbn [fst snd]. ring.
  - rewrite A. unfold xi, cmul. cbn [fst snd]. field.
Qed.

(* ------------------------------------------------------------------------------------------------ *)
(** C67: the unit systems. *)
(** In all of them a unit length is crossed in a unit time at unit speed; the electron and ion systems have the
    Debye length, thermal speed and plasma frequency of the given density and temperature. *)
Theorem C67_debye : forall k n0 T0 A Z, physical k -> 0 < n0 -> 0 < T0 -> 0 < A -> 0 < Z ->
  let e := electron_debye k n0 T0 in let i := ion_debye k n0 T0 A Z in
  (n_L0 e = sqrt (k_eps0 k * T0 / (n0 * k_e k ^ 2)) /\ n_m0 e * n_v0 e ^ 2 = T0 /\ (1 / n_tau e) ^ 2 = n0 * k_e k ^ 2 / (k_me k * k_eps0 k) /\ n_L0 e = n_v0 e * n_tau e) /\
  (n_L0 i = sqrt (k_eps0 k * T0 / (n0 * (Z * k_e k) ^ 2)) /\ n_m0 i * n_v0 i ^ 2 = T0 /\ (1 / n_tau i) ^ 2 = n0 * (Z * k_e k) ^ 2 / (A * k_mp k * k_eps0 k) /\ n_L0 i = n_v0 i * n_tau i) /\
  n_T0 e = Some T0 /\ n_T0 i = Some T0 /\ n_n0 e = n0 /\ n_n0 i = n0.
Proof.
  intros k n0 T0 A Z (He & Hm & Hmp & Hp & Hc) Hn HT HA HZ e i.
  assert (G : forall m q, 0 < m -> 0 < q -> let wp := sqrt (n0 * q ^ 2 / (m * k_eps0 k)) in let v := sqrt (T0 / m) in
    v / wp = sqrt (k_eps0 k * T0 / (n0 * q ^ 2)) /\ m * v ^ 2 = T0 /\ (1 / (1 / wp)) ^ 2 = n0 * q ^ 2 / (m * k_eps0 k) /\ v / wp = v * (1 / wp)).
  { intros m q Hm0 Hq wp v. assert (Q2 : 0 < q ^ 2) by nra. assert (W : 0 < n0 * q ^ 2 / (m * k_eps0 k)) by (apply Rdiv_lt_0_compat; nra).
    assert (WP : 0 < wp) by now apply sqrt_lt_R0. assert (V : 0 < T0 / m) by now apply Rdiv_lt_0_compat. repeat split.
    - unfold v, wp. rewrite <- sqrt_div by lra. f_equal. field. repeat split; lra.
    - unfold v. rewrite pow2_sqrt by lra. field. lra.
    - replace (1 / (1 / wp)) with wp by (field; lra). unfold wp. apply pow2_sqrt. lra.
    - field. lra. }
  split; [exact (G (k_me k) (k_e k) Hm He)|]. split; [apply (G (A * k_mp k) (Z * k_e k)); nra|]. repeat split.
Qed.
Print Assumptions C67_debye.
(** The density- and frequency-based OSIRIS systems are the same: asking by the plasma frequency of n0 gives back n0. *)
Theorem C67_skin_depth : forall k n0 wp0, physical k -> 0 < n0 -> 0 < wp0 ->
  skin_depth_from_frequency k (1 / n_tau (skin_depth k n0)) = skin_depth k n0 /\
  skin_depth k (n_n0 (skin_depth_from_frequency k wp0)) = skin_depth_from_frequency k wp0 /\
  n_v0 (skin_depth k n0) = k_c k /\ n_L0 (skin_depth k n0) = k_c k * n_tau (skin_depth k n0) /\ c_norm k (skin_depth k n0) = 1.
Proof.
  intros k n0 wp0 (He & Hm & Hmp & Hp & Hc) Hn Hw. assert (Q : 0 < k_e k ^ 2) by nra.
  assert (W : 0 < n0 * k_e k ^ 2 / (k_me k * k_eps0 k)) by (apply Rdiv_lt_0_compat; nra). pose proof (sqrt_lt_R0 _ W) as WP.
  assert (A1 : 1 / n_tau (skin_depth k n0) = sqrt (n0 * k_e k ^ 2 / (k_me k * k_eps0 k))) by (unfold skin_depth, osiris_norm; cbn [n_tau]; field; lra).
  split; [|split; [|split; [|split]]].
  - unfold skin_depth_from_frequency. rewrite A1. unfold skin_depth. f_equal. rewrite pow2_sqrt by lra. field. repeat split; lra.
  - unfold skin_depth, skin_depth_from_frequency. cbn [osiris_norm n_n0]. f_equal. rewrite <- (sqrt_pow2 wp0) at 2 by lra. f_equal. field. repeat split; lra.
  - cbn. ring.
  - unfold skin_depth, osiris_norm. cbn [n_L0 n_tau]. field. lra.
  - unfold c_norm. cbn. field. lra.
Qed.
Print Assumptions C67_skin_depth.
(** Laser units: the plasma frequency at the reference (critical) density is the laser frequency. *)
Theorem C67_laser : forall k lam T0, physical k -> 0 < lam -> let u := laser_norm k lam T0 in
  1 / n_tau u = 2 * PI * k_c k / lam /\ n_L0 u = lam / (2 * PI) /\ n_L0 u = n_v0 u * n_tau u /\
  n_tau (skin_depth k (n_n0 u)) = n_tau u /\ n_L0 (skin_depth k (n_n0 u)) = n_L0 u /\ c_norm k u = 1.
Proof.
  intros k lam T0 (He & Hm & Hmp & Hp & Hc) Hl u. pose proof PI_RGT_0 as HP. assert (Q : 0 < k_e k ^ 2) by nra.
  set (w := k_c k / (lam / 2 / PI)). assert (W : 0 < w) by (unfold w; repeat apply Rdiv_lt_0_compat; lra).
  assert (S : sqrt (n_n0 u * k_e k ^ 2 / (k_me k * k_eps0 k)) = w) by (unfold u; cbn [laser_norm n_n0]; fold w; rewrite <- (sqrt_pow2 w) at 2 by lra; f_equal; field; repeat split; lra).
  split; [|split; [|split; [|split; [|split]]]].
  - unfold u, laser_norm. cbn [n_tau]. field. repeat split; lra.
  - unfold u, laser_norm. cbn [n_L0]. field. lra.
  - unfold u, laser_norm. cbn [n_L0 n_v0 n_tau]. field. repeat split; lra.
  - unfold skin_depth, osiris_norm. cbn [n_tau]. rewrite S. reflexivity.
  - unfold skin_depth, osiris_norm. cbn [n_L0]. rewrite S. unfold u, laser_norm, w. cbn [n_L0]. field. repeat split; lra.
  - unfold c_norm, u. cbn. field. lra.
Qed.
Print Assumptions C67_laser.
(** normalize: plain numbers are taken as they are, whatever the units and dimension; physical lengths, times, speeds,
    temperatures and wavenumbers are divided by (multiplied by) their unit; without units they are refused, and a bool always is. *)
Theorem C67_normalize : forall q u d r,
  (normalize (Number r) u d = Some r) /\ normalize Bool u d = None /\
  (normalize q u d = Some r -> normalize (Number r) u d = Some r) /\
  (forall s, normalize (Physical s) None d = None) /\
  (forall s w, u = Some w -> 0 < n_L0 w -> normalize (Physical s) u DimX = Some r -> normalize (Physical (1 / s)) u DimK = Some (1 / r) \/ s = 0) /\
  (forall s w, u = Some w -> n_L0 w = n_v0 w * n_tau w -> n_v0 w <> 0 -> n_tau w <> 0 -> forall t, t <> 0 -> normalize (Physical s) u DimX = Some r ->
     exists rt rv, normalize (Physical t) u DimT = Some rt /\ normalize (Physical (s / t)) u DimV = Some rv /\ r = rv * rt).
Proof.
  intros q u d r. repeat split; try reflexivity.
  - intros s w -> Hw H. cbn in *. injection H as <-. destruct (Req_dec s 0) as [->|Hs]; [now right|left]. f_equal. field. split; lra.
  - intros s w -> HL Hv Htau t Ht H. cbn in *. injection H as <-. exists (t / n_tau w), (s / t / n_v0 w). repeat split. rewrite HL. field. repeat split; assumption.
Qed.
Print Assumptions C67_normalize.
Example C67_nonvacuous : physical {| k_e := 1; k_me := 1; k_mp := 1836; k_eps0 := 1; k_c := 10 |} /\
  n_L0 (electron_debye {| k_e := 1; k_me := 1; k_mp := 1836; k_eps0 := 1; k_c := 10 |} 4 9) = 3 / 2.
Proof.
  split; [repeat split; cbn; lra|]. unfold electron_debye. cbn [n_L0 k_e k_me k_eps0].
  replace (4 * 1 ^ 2 / (1 * 1)) with (2 ^ 2) by field. replace (9 / 1) with (3 ^ 2) by field. rewrite !sqrt_pow2 by lra. reflexivity.
Qed.
