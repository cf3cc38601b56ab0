(** Property C74: the velocity-space force of the Hermite-Poisson solver. *)
From Coq Require Import Reals Lra Lia ZArith List Bool Psatz.
From Verif Require Import HermitePoisson HPProps RSum Pic PicProofs PicFourier Dft.
Local Open Scope R_scope.

(* ------------------------------------------------------------------------------------------------ *)
(** * The forward-normalised transforms *)
Lemma finv_ifft nx X g : (0 < nx)%nat -> finv nx X g = cscal (INR nx) (ifft nx X g).
Proof.
  intros H. assert (INR nx <> 0) by (apply not_0_INR; lia). unfold finv, ifft. rewrite cscal_cscal, Rinv_r by auto. symmetry. apply cscal_1.
Qed.
Lemma finv_ffwd nx h g : (g < nx)%nat -> finv nx (ffwd nx h) g = h g.
Proof.
  intros H. assert (N : INR nx <> 0) by (apply not_0_INR; lia). rewrite finv_ifft by lia.
  transitivity (cscal (INR nx) (cscal (/ INR nx) (ifft nx (cfft nx h) g))).
  - f_equal. unfold ffwd, ifft. f_equal. rewrite <- csum_scal. apply csum_ext. intros. creal.
  - rewrite ifft_cfft by auto. rewrite cscal_cscal, Rinv_r by auto. apply cscal_1.
Qed.
Lemma cfft_ext nx h h' k : (forall g, (g < nx)%nat -> h g = h' g) -> cfft nx h k = cfft nx h' k.
Proof. intros E. apply csum_ext. intros g Hg. rewrite E; auto. Qed.
Lemma ffwd_ext nx h h' k : (forall g, (g < nx)%nat -> h g = h' g) -> ffwd nx h k = ffwd nx h' k.
Proof. intros E. unfold ffwd. f_equal. apply cfft_ext; auto. Qed.
Lemma finv_ext nx X Y g : (forall k, (k < nx)%nat -> X k = Y k) -> finv nx X g = finv nx Y g.
Proof. intros E. apply csum_ext. intros k Hk. rewrite E; auto. Qed.
Lemma ffwd_finv nx X k : (k < nx)%nat -> ffwd nx (finv nx X) k = X k.
Proof.
  intros H. assert (N : INR nx <> 0) by (apply not_0_INR; lia). unfold ffwd.
  rewrite (cfft_ext nx _ (fun g => cscal (INR nx) (ifft nx X g))) by (intros; apply finv_ifft; lia).
  transitivity (cscal (/ INR nx) (cscal (INR nx) (cfft nx (ifft nx X) k))).
  - f_equal. unfold cfft. rewrite <- csum_scal. apply csum_ext. intros. creal.
  - rewrite cfft_ifft by auto. rewrite cscal_cscal, Rinv_l by auto. apply cscal_1.
Qed.
Lemma finv_add nx X Y g : finv nx (fun k => cadd (X k) (Y k)) g = cadd (finv nx X g) (finv nx Y g).
Proof. unfold finv. rewrite <- csum_add. apply csum_ext. intros. ring. Qed.
Lemma finv_mul nx c X g : finv nx (fun k => cmul c (X k)) g = cmul c (finv nx X g).
Proof. unfold finv. rewrite <- csum_mul. apply csum_ext. intros. ring. Qed.
Lemma ffwd_add nx X Y g : ffwd nx (fun k => cadd (X k) (Y k)) g = cadd (ffwd nx X g) (ffwd nx Y g).
Proof. unfold ffwd, cfft. rewrite <- cscal_cadd, <- csum_add. f_equal. apply csum_ext. intros. ring. Qed.
Lemma ffwd_mul nx c X g : ffwd nx (fun k => cmul c (X k)) g = cmul c (ffwd nx X g).
Proof.
  unfold ffwd, cfft. transitivity (cscal (/ INR nx) (cmul c (csum nx (fun g0 => cmul (X g0) (cis (- angle nx g g0)))))); [|creal].
  f_equal. rewrite <- csum_mul. apply csum_ext. intros. ring.
Qed.
Lemma angle_0k nx g : angle nx 0 g = 0. Proof. unfold angle. cbn [INR]. unfold Rdiv. ring. Qed.
(** The k = 0 coefficient is the mean over the cells. *)
Lemma ffwd_0 nx h : ffwd nx h 0 = cscal (/ INR nx) (csum nx h).
Proof.
  unfold ffwd, cfft. f_equal. apply csum_ext. intros g _. rewrite angle_0k, Ropp_0, cis_0. apply cmul_c1.
Qed.
Lemma masked_ext m X Y k : X k = Y k -> masked m X k = masked m Y k.
Proof. unfold masked. intros E. destruct m as [b|]; auto. destruct (b k); auto. Qed.

(* ------------------------------------------------------------------------------------------------ *)
(** * The ladder ODE and its solution *)
(** Row-wise solution of x_0' = 0, x_{n+1}' = K_{n+1} x_n: the finite series. *)
Fixpoint wprod (K : nat -> R) (n j : nat) : R := match j with O => 1 | S i => K n * wprod K (n - 1) i end.
Definition ser (K : nat -> R) (C : nat -> R) (th : R) (n : nat) : R := rsum (S n) (fun j => th ^ j / INR (fact j) * wprod K n j * C (n - j)%nat).
Lemma ser_0 K C n : ser K C 0 n = C n.
Proof.
  unfold ser. rewrite rsum_shift. cbn [pow wprod]. rewrite Nat.sub_0_r.
  rewrite (rsum_ext n _ (fun _ => 0)); [rewrite rsum_zero; cbn [fact INR]; field|].
  intros i _. cbn [pow]. unfold Rdiv. ring.
Qed.
Lemma ser_row0 K C th : ser K C th 0 = C 0%nat.
Proof. unfold ser. cbn [rsum pow wprod Nat.sub fact INR]. field. Qed.
Lemma ser_deriv K C th n : derivable_pt_lim (fun t => ser K C t n) th (match n with O => 0 | S m => K n * ser K C th m end).
Proof.
  destruct n as [|n].
  - apply (derive_ext (fun _ => C 0%nat)); [intros; symmetry; apply ser_row0|apply derivable_pt_lim_const].
  - replace (K (S n) * ser K C th n) with (rsum (S (S n)) (fun j => INR j * th ^ pred j / INR (fact j) * wprod K (S n) j * C (S n - j)%nat)).
    + unfold ser. apply derive_rsum. intros j _.
      apply (derive_ext (fun t => (/ INR (fact j) * wprod K (S n) j * C (S n - j)%nat) * t ^ j)); [intros; unfold Rdiv; ring|].
      replace (INR j * th ^ pred j / INR (fact j) * wprod K (S n) j * C (S n - j)%nat) with ((/ INR (fact j) * wprod K (S n) j * C (S n - j)%nat) * (INR j * th ^ pred j)) by (unfold Rdiv; ring).
      apply (derivable_pt_lim_scal (fun t => t ^ j)), derivable_pt_lim_pow.
    + rewrite rsum_shift. change (INR 0) with 0. unfold Rdiv at 1. rewrite !Rmult_0_l, Rplus_0_l. unfold ser. rewrite <- rsum_scal.
      apply rsum_ext. intros j _. cbn [wprod pred]. replace (S n - 1)%nat with n by lia. replace (S n - S j)%nat with (n - j)%nat by lia.
      rewrite fact_simpl, mult_INR. pose proof (SINR j). assert (INR (fact j) <> 0) by apply INR_fact_neq_0. field. split; auto; lra.
Qed.
Lemma const_of_deriv0 (f : R -> R) : (forall t, derivable_pt_lim f t 0) -> forall t, f t = f 0.
Proof.
  intros H t. pose (pr := fun x => exist _ 0 (H x) : derivable_pt f x).
  apply (null_derivative_1 f pr). intros x. reflexivity.
Qed.
(** Uniqueness: the first Nn rows are determined by the initial values. *)
Lemma ser_unique K C (X : R -> nat -> R) Nn :
  (forall n, (n < Nn)%nat -> X 0 n = C n) ->
  (forall n t, (n < Nn)%nat -> derivable_pt_lim (fun s => X s n) t (match n with O => 0 | S m => K n * X t m end)) ->
  forall n t, (n < Nn)%nat -> X t n = ser K C t n.
Proof.
  intros H0 HD. induction n as [|n IH]; intros t Hn.
  - rewrite ser_row0, <- H0 by auto. apply (const_of_deriv0 (fun s => X s 0%nat)). intros s. apply (HD 0%nat s Hn).
  - assert (E : forall t, (fun s => X s (S n) - ser K C s (S n)) t = (fun s => X s (S n) - ser K C s (S n)) 0).
    { apply const_of_deriv0. intros s. replace 0 with (K (S n) * X s n - K (S n) * ser K C s n) by (rewrite IH by lia; ring).
      apply (derivable_pt_lim_minus (fun s => X s (S n)) (fun s => ser K C s (S n))); [apply (HD (S n) s Hn)|apply ser_deriv]. }
    specialize (E t). cbv beta in E. rewrite ser_0, H0 in E by auto. lra.
Qed.
Lemma ser_ext K C C' t n : (forall m, (m <= n)%nat -> C m = C' m) -> ser K C t n = ser K C' t n.
Proof. intros H. unfold ser. apply rsum_ext. intros j Hj. rewrite H by lia. reflexivity. Qed.
Lemma derive_shift f s d a : derivable_pt_lim f (a + s) d -> derivable_pt_lim (fun t => f (a + t)) s d.
Proof.
  intros H. replace d with (d * 1) by ring. apply (derivable_pt_lim_comp (fun t => a + t) f); [|exact H].
  replace 1 with (0 + 1) by ring. apply (derivable_pt_lim_plus (fun _ => a) (fun t => t)); [apply derivable_pt_lim_const|apply derivable_pt_lim_id].
Qed.
Lemma ser_add K C s t n : ser K (fun m => ser K C s m) t n = ser K C (s + t) n.
Proof.
  symmetry. apply (ser_unique K (fun m => ser K C s m) (fun t m => ser K C (s + t) m) (S n)); [| |lia].
  - intros m _. rewrite Rplus_0_r. reflexivity.
  - intros m r _. apply (derive_shift (fun r => ser K C r m)). apply ser_deriv.
Qed.

(** The series computed by the code, row n, with at least n terms, is [ser] in the variable dt * accel. *)
Lemma force_term_eq kdt C j n g : force_term kdt C j n g = if (j <=? n)%nat then cscal (wprod (fun m => kdt m g) n j / INR (fact j)) (C (n - j)%nat g) else c0.
Proof.
  revert n. induction j as [|j IH]; intros n.
  - cbn [force_term Nat.leb wprod fact]. rewrite Nat.sub_0_r. change (INR 1) with 1. replace (1 / 1) with 1 by lra. symmetry. apply cscal_1.
  - cbn [force_term]. destruct n as [|n]; cbn [shift_up].
    + cbn [Nat.leb]. rewrite !cscal_c0. reflexivity.
    + rewrite IH. change (S j <=? S n)%nat with (j <=? n)%nat. destruct (Nat.leb_spec j n).
      * rewrite !cscal_cscal. cbn [wprod]. replace (S n - 1)%nat with n by lia. change (S n - S j)%nat with (n - j)%nat. f_equal.
        rewrite fact_simpl, mult_INR. pose proof (SINR j). assert (INR (fact j) <> 0) by apply INR_fact_neq_0. field. split; auto; lra.
      * rewrite !cscal_c0. reflexivity.
Qed.
Lemma wprod_scal K th n j : wprod (fun m => K m * th) n j = th ^ j * wprod K n j.
Proof. revert n. induction j; intros n; cbn [wprod pow]; [ring|]. rewrite IHj. ring. Qed.
Lemma csum_extend n m f : (n <= m)%nat -> (forall i, (n <= i < m)%nat -> f i = c0) -> csum m f = csum n f.
Proof.
  intros H Z. induction m; [replace n with 0%nat by lia; reflexivity|].
  destruct (Nat.eq_dec n (S m)); [subst; reflexivity|]. cbn [csum]. rewrite IHm, Z by (auto; intros; try apply Z; lia). apply cadd_c0.
Qed.
Lemma force_series_ser K th terms C n g : (n <= terms)%nat ->
  force_series (fun m _ => K m * th) terms C n g
  = (ser K (fun m => fst (C m g)) th n, ser K (fun m => snd (C m g)) th n).
Proof.
  intros H. unfold force_series. rewrite (csum_extend (S n) (S terms)); [|lia|].
  - apply cplx_eq; cbn [fst snd]; [rewrite csum_fst|rewrite csum_snd]; unfold ser; apply rsum_ext; intros j Hj; rewrite force_term_eq;
    (destruct (Nat.leb_spec j n); [|lia]); rewrite wprod_scal; unfold cscal; cbn [fst snd]; unfold Rdiv; ring.
  - intros j Hj. rewrite force_term_eq. destruct (Nat.leb_spec j n); [lia|reflexivity].
Qed.
Lemma force_series_ext kdt kdt' terms C C' n g : (forall m, (m <= n)%nat -> kdt m g = kdt' m g) -> (forall m, (m <= n)%nat -> C m g = C' m g) ->
  force_series kdt terms C n g = force_series kdt' terms C' n g.
Proof.
  intros H H'. unfold force_series. apply csum_ext. intros j _. rewrite !force_term_eq. destruct (Nat.leb_spec j n); auto.
  rewrite H' by lia. f_equal. f_equal. clear H' H0. revert n H. induction j; intros n H; cbn [wprod]; auto. rewrite H by lia. rewrite IHj; auto.
  intros m Hm. apply H. lia.
Qed.
(** The code's real-space result, row n, for enough terms. *)
Lemma substep_series Nn nx m C accel alpha Om dt terms n g : (n < Nn)%nat -> (n <= terms)%nat ->
  force_series (fun n' g => kappa Om alpha n' * dt * masked_force nx m accel g) (k_max terms Nn) (fun n' => finv nx (masked m (C n'))) n g
  = (ser (kappa Om alpha) (fun r => fst (finv nx (masked m (C r)) g)) (dt * masked_force nx m accel g) n,
     ser (kappa Om alpha) (fun r => snd (finv nx (masked m (C r)) g)) (dt * masked_force nx m accel g) n).
Proof.
  intros Hn Ht. rewrite <- (force_series_ser _ _ (k_max terms Nn) (fun n' => finv nx (masked m (C n'))) n g).
  - apply force_series_ext; auto. intros. ring.
  - unfold k_max. destruct (Nat.ltb_spec 1 Nn); lia.
Qed.

(* ------------------------------------------------------------------------------------------------ *)
(** * Hermite polynomials under a shift *)
Lemma hermite_deriv n x : derivable_pt_lim (hermite n) x (match n with O => 0 | S m => 2 * INR n * hermite m x end) /\
  derivable_pt_lim (hermite (S n)) x (2 * INR (S n) * hermite n x).
Proof.
  induction n as [|n [IH1 IH2]].
  - split.
    + apply (derive_ext (fun _ => 1)); [intros; reflexivity|apply derivable_pt_lim_const].
    + apply (derive_ext (fun t => 2 * t)); [intros; reflexivity|]. rewrite hermite_0. change (INR 1) with 1. replace (2 * 1 * 1) with (2 * 1) by ring.
      apply (derivable_pt_lim_scal (fun t => t)), derivable_pt_lim_id.
  - split; [exact IH2|].
    apply (derive_ext (fun t => 2 * t * hermite (S n) t - 2 * INR (S n) * hermite n t)); [intros; symmetry; apply hermite_SS|].
    replace (2 * INR (S (S n)) * hermite (S n) x) with
      ((2 * 1 * hermite (S n) x + 2 * x * (2 * INR (S n) * hermite n x)) - 2 * INR (S n) * (match n with O => 0 | S m => 2 * INR n * hermite m x end)).
    + apply (derivable_pt_lim_minus (fun t => 2 * t * hermite (S n) t) (fun t => 2 * INR (S n) * hermite n t)).
      * apply (derivable_pt_lim_mult (fun t => 2 * t) (hermite (S n))); [|exact IH2]. apply (derivable_pt_lim_scal (fun t => t)), derivable_pt_lim_id.
      * apply (derivable_pt_lim_scal (hermite n)). exact IH1.
    + destruct n as [|n].
      * rewrite hermite_0, hermite_1. change (INR 1) with 1. change (INR 2) with 2. ring.
      * rewrite (S_INR (S (S n))). rewrite (hermite_SS n). ring.
Qed.
Lemma hnorm_deriv n x : derivable_pt_lim (hnorm n) x (match n with O => 0 | S m => sqrt 2 * sqrt (INR n) * hnorm m x end).
Proof.
  apply (derive_ext (fun t => / sqrt (hw n) * hermite n t)); [intros; unfold hnorm, hw, Rdiv; ring|].
  replace (match n with O => 0 | S m => sqrt 2 * sqrt (INR n) * hnorm m x end) with (/ sqrt (hw n) * (match n with O => 0 | S m => 2 * INR n * hermite m x end)).
  - apply (derivable_pt_lim_scal (hermite n)), (proj1 (hermite_deriv n x)).
  - destruct n as [|n]; [ring|]. unfold hnorm. fold (hw n). rewrite (sqrt_hw_S n). pose proof (sqrt_hw_pos n). pose proof (SINR n).
    rewrite <- (sqrt_mult 2 (INR (S n))) by lra. assert (A : 0 < sqrt (2 * INR (S n))) by (apply sqrt_lt_R0; lra). pose proof (sq2 n) as Q.
    set (p := sqrt (2 * INR (S n))) in *. rewrite <- Q. field. split; lra.
Qed.
Definition shift_particles (d : R) (ps : list (R * R)) : list (R * R) := map (fun p => (fst p, snd p + d)) ps.
Lemma derive_lsum {A} (f : R -> A -> R) (f' : A -> R) s l :
  (forall p, derivable_pt_lim (fun t => f t p) s (f' p)) -> derivable_pt_lim (fun t => lsum (map (f t) l)) s (lsum (map f' l)).
Proof.
  intros H. induction l as [|p l IH]; cbn [map lsum]; [apply derivable_pt_lim_const|].
  apply (derivable_pt_lim_plus (fun t => f t p) (fun t => lsum (map (f t) l))); auto.
Qed.
Lemma shifted_coeff_deriv alpha Om ps t n : alpha <> 0 ->
  derivable_pt_lim (fun s => particle_coeff alpha (shift_particles (Om * s) ps) n) t
    (match n with O => 0 | S m => kappa Om alpha n * particle_coeff alpha (shift_particles (Om * t) ps) m end).
Proof.
  intros Ha.
  apply (derive_ext (fun s => lsum (map (fun p => fst p * hnorm n ((snd p + Om * s) / alpha)) ps))).
  { intros s. unfold particle_coeff, shift_particles. rewrite map_map. reflexivity. }
  replace (match n with O => 0 | S m => kappa Om alpha n * particle_coeff alpha (shift_particles (Om * t) ps) m end)
    with (lsum (map (fun p => fst p * ((match n with O => 0 | S m => sqrt 2 * sqrt (INR n) * hnorm m ((snd p + Om * t) / alpha) end) * (Om / alpha))) ps)).
  - apply (derive_lsum (fun s p => fst p * hnorm n ((snd p + Om * s) / alpha))). intros p.
    apply (derivable_pt_lim_scal (fun s => hnorm n ((snd p + Om * s) / alpha))).
    apply (derivable_pt_lim_comp (fun s => (snd p + Om * s) / alpha) (hnorm n)); [|apply hnorm_deriv].
    apply (derive_ext (fun s => snd p / alpha + Om / alpha * s)); [intros; field; auto|].
    apply (eq_ind (0 + Om / alpha * 1) (fun d => derivable_pt_lim (fun s => snd p / alpha + Om / alpha * s) t d)); [|ring].
    apply (derivable_pt_lim_plus (fun _ => snd p / alpha) (fun s => Om / alpha * s)); [apply derivable_pt_lim_const|].
    apply (derivable_pt_lim_scal (fun s => s)), derivable_pt_lim_id.
  - destruct n as [|n].
    + rewrite (lsum_map_ext _ (fun p => 0 * 0)) by (intros; ring). rewrite lsum_map_scal. ring.
    + unfold particle_coeff, shift_particles. rewrite map_map. rewrite <- lsum_map_scal. apply lsum_map_ext. intros p. cbn [fst snd]. unfold kappa. field. auto.
Qed.
Lemma shift0 ps : shift_particles 0 ps = ps.
Proof. unfold shift_particles. rewrite <- (map_id ps) at 2. apply map_ext. intros [w v]. cbn. f_equal. ring. Qed.
Lemma ser_shift alpha Om ps th n : alpha <> 0 -> ser (kappa Om alpha) (particle_coeff alpha ps) th n = particle_coeff alpha (shift_particles (Om * th) ps) n.
Proof.
  intros Ha. symmetry. apply (ser_unique (kappa Om alpha) (particle_coeff alpha ps) (fun s m => particle_coeff alpha (shift_particles (Om * s) ps) m) (S n)); [| |lia].
  - intros m _. rewrite Rmult_0_r, shift0. reflexivity.
  - intros m t _. apply shifted_coeff_deriv; auto.
Qed.
Lemma ser_zero K th n : ser K (fun _ => 0) th n = 0.
Proof. unfold ser. rewrite (rsum_ext _ _ (fun _ => 0)); [apply rsum_zero|]. intros. ring. Qed.

(* ------------------------------------------------------------------------------------------------ *)
(** * Theorems *)
(** The force substep is exactly the velocity shift v -> v + accel dt of every particle, cell by cell: if in each cell the
    coefficients are those of some particles, the new coefficients are those of the shifted particles, in every row the
    series reaches (all Nn rows when force_exp_terms >= Nn - 1). *)
Theorem C74_velocity_shift : forall Nn nx C accel alpha Om dt terms (ps : nat -> list (R * R)),
  0 < alpha -> (forall n g, (n < Nn)%nat -> (g < nx)%nat -> finv nx (C n) g = (particle_coeff alpha (ps g) n, 0)) ->
  forall n g, (n < Nn)%nat -> (n <= terms)%nat -> (g < nx)%nat ->
  finv nx (force_substep Nn nx None C accel alpha Om dt terms n) g
  = (particle_coeff alpha (map (fun p => (fst p, snd p + Om * (dt * accel g))) (ps g)) n, 0).
Proof.
  intros Nn nx C accel alpha Om dt terms ps Ha HC n g Hn Ht Hg. unfold force_substep. cbn [masked].
  rewrite (finv_ext nx _ (ffwd nx (force_series (fun n' g0 => kappa Om alpha n' * dt * masked_force nx None accel g0) (k_max terms Nn) (fun n' => finv nx (masked None (C n'))) n))) by (intros; reflexivity).
  rewrite finv_ffwd by auto. rewrite substep_series by auto. cbn [masked masked_force].
  apply cplx_eq; cbn [fst snd].
  - rewrite (ser_ext _ _ (particle_coeff alpha (ps g))); [apply ser_shift; lra|]. intros m Hm. change (masked None (C m)) with (C m). rewrite HC by (auto; lia). reflexivity.
  - rewrite (ser_ext _ _ (fun _ => 0)); [apply ser_zero|]. intros m Hm. change (masked None (C m)) with (C m). rewrite HC by (auto; lia). reflexivity.
Qed.
Print Assumptions C74_velocity_shift.

Lemma masked_None X : masked None X = X. Proof. reflexivity. Qed.
Lemma substep_real Nn nx C accel alpha Om dt terms n g : (g < nx)%nat ->
  finv nx (force_substep Nn nx None C accel alpha Om dt terms n) g
  = force_series (fun n' g => kappa Om alpha n' * dt * accel g) (k_max terms Nn) (fun n' => finv nx (C n')) n g.
Proof. intros. unfold force_substep. rewrite masked_None, finv_ffwd by auto. reflexivity. Qed.

(** Two substeps with the same force make one of the summed duration; a substep is undone by the opposite one; duration
    zero, or no force, changes nothing (no dealiasing, enough terms). *)
Theorem C74_substep_group : forall Nn nx C accel alpha Om terms, (Nn - 1 <= terms)%nat ->
  (forall dt1 dt2 n k, (n < Nn)%nat -> (k < nx)%nat ->
    force_substep Nn nx None (force_substep Nn nx None C accel alpha Om dt1 terms) accel alpha Om dt2 terms n k
    = force_substep Nn nx None C accel alpha Om (dt1 + dt2) terms n k) /\
  (forall dt n k, (n < Nn)%nat -> (k < nx)%nat -> (dt = 0 \/ forall g, (g < nx)%nat -> accel g = 0) ->
    force_substep Nn nx None C accel alpha Om dt terms n k = C n k) /\
  (forall dt n k, (n < Nn)%nat -> (k < nx)%nat ->
    force_substep Nn nx None (force_substep Nn nx None C accel alpha Om dt terms) accel alpha Om (- dt) terms n k = C n k).
Proof.
  intros Nn nx C accel alpha Om terms HT.
  assert (G : forall dt1 dt2 n k, (n < Nn)%nat -> (k < nx)%nat ->
    force_substep Nn nx None (force_substep Nn nx None C accel alpha Om dt1 terms) accel alpha Om dt2 terms n k
    = force_substep Nn nx None C accel alpha Om (dt1 + dt2) terms n k).
  { intros dt1 dt2 n k Hn Hk. unfold force_substep at 1 3. rewrite !masked_None. apply ffwd_ext. intros g Hg.
    rewrite !substep_series by (auto; lia). cbn [masked_force].
    assert (E : forall m, (m <= n)%nat -> finv nx (masked None (force_substep Nn nx None C accel alpha Om dt1 terms m)) g =
      (ser (kappa Om alpha) (fun r => fst (finv nx (C r) g)) (dt1 * accel g) m, ser (kappa Om alpha) (fun r => snd (finv nx (C r) g)) (dt1 * accel g) m)).
    { intros m Hm. rewrite masked_None. unfold force_substep. rewrite masked_None, finv_ffwd by auto. rewrite substep_series by (auto; lia). reflexivity. }
    apply cplx_eq; cbn [fst snd].
    - rewrite (ser_ext _ _ (ser (kappa Om alpha) (fun r => fst (finv nx (C r) g)) (dt1 * accel g))) by (intros m Hm; rewrite E by auto; reflexivity).
      rewrite ser_add. f_equal. ring.
    - rewrite (ser_ext _ _ (ser (kappa Om alpha) (fun r => snd (finv nx (C r) g)) (dt1 * accel g))) by (intros m Hm; rewrite E by auto; reflexivity).
      rewrite ser_add. f_equal. ring. }
  assert (Z : forall dt n k, (n < Nn)%nat -> (k < nx)%nat -> (dt = 0 \/ forall g, (g < nx)%nat -> accel g = 0) ->
    force_substep Nn nx None C accel alpha Om dt terms n k = C n k).
  { intros dt n k Hn Hk Hd. unfold force_substep. rewrite masked_None. rewrite <- (ffwd_finv nx (C n) k Hk). apply ffwd_ext. intros g Hg.
    rewrite substep_series by (auto; lia). cbn [masked_force]. replace (dt * accel g) with 0 by (destruct Hd as [->|Hd]; [|rewrite Hd by auto]; ring).
    rewrite !ser_0. apply cplx_eq; reflexivity. }
  split; [exact G|]. split; [exact Z|]. intros dt n k Hn Hk. rewrite G by auto. apply Z; auto. left. ring.
Qed.
Print Assumptions C74_substep_group.

(** The density row: without dealiasing the substep leaves every density mode unchanged; with the 2/3 mask it leaves the
    retained modes unchanged and drops the others. In both cases the total number (the k = 0 coefficient) is kept. *)
Theorem C74_density_row : forall Nn nx m C accel alpha Om dt terms k, (0 < Nn)%nat -> (k < nx)%nat ->
  force_substep Nn nx m C accel alpha Om dt terms 0%nat k = masked m (C 0%nat) k.
Proof.
  intros Nn nx m C accel alpha Om dt terms k HN Hk. unfold force_substep.
  rewrite (masked_ext m _ (masked m (C 0%nat)) k).
  - unfold masked. destruct m as [b|]; auto. destruct (b k); reflexivity.
  - rewrite <- (ffwd_finv nx (masked m (C 0%nat)) k Hk). apply ffwd_ext. intros g Hg. rewrite substep_series by (auto; lia). rewrite !ser_row0. apply cplx_eq; reflexivity.
Qed.
Print Assumptions C74_density_row.

Lemma mask_zero nx : mask23 nx 0 = true.
Proof. unfold mask23, mode. apply Z.leb_le. destruct (Nat.ltb_spec (2 * 0) nx); cbn -[Z.div]; [apply Z.div_pos; lia|]. assert (nx = 0)%nat by lia. subst. reflexivity. Qed.
Corollary C74_number_kept : forall Nn nx C accel alpha Om dt terms, (0 < Nn)%nat -> (0 < nx)%nat ->
  force_substep Nn nx (Some (mask23 nx)) C accel alpha Om dt terms 0%nat 0%nat = C 0%nat 0%nat.
Proof. intros. rewrite C74_density_row by auto. cbn [masked]. rewrite mask_zero. reflexivity. Qed.
Print Assumptions C74_number_kept.

(** vector_field.py:810-812 ("the force operator itself never changes C_0, so Ex is constant across the substep") does not
    hold for the substep actually used: the 2/3 mask removes density modes, even with no force at all. *)
Theorem C74_density_refuted : ~ (forall Nn nx C accel alpha Om dt terms k, (0 < Nn)%nat -> (k < nx)%nat -> (forall g, accel g = 0) ->
  force_substep Nn nx (Some (mask23 nx)) C accel alpha Om dt terms 0%nat k = C 0%nat k).
Proof.
  intros H. specialize (H 4%nat 4%nat (fun _ _ => c1) (fun _ => 0) 1 1 1 24%nat 2%nat ltac:(lia) ltac:(lia) ltac:(reflexivity)).
  rewrite C74_density_row in H by lia. apply (f_equal fst) in H. unfold masked in H. change (mask23 4 2) with false in H. cbn in H. lra.
Qed.
Print Assumptions C74_density_refuted.

(** The explicit coupling used by lawson-rk4 and by the linear-response mode: row 0 gets nothing; a uniform force on a
    uniform Maxwellian (only C_0, only k = 0) drives exactly the mean of row 1, at the rate (q/m) sqrt(2)/alpha F C_0, in both
    integrators. *)
Lemma masked_c0 m k : masked m (fun _ => c0) k = c0.
Proof. unfold masked. destruct m as [b|]; auto. destruct (b k); reflexivity. Qed.
Lemma ffwd_zero nx k : ffwd nx (fun _ => c0) k = c0.
Proof. unfold ffwd, cfft. rewrite (csum_ext nx _ (fun _ => c0)); [rewrite csum_zero; apply cscal_c0|]. intros. creal. Qed.
Lemma coupling_row0 nx m C F qm alpha Om k : e_coupling nx m C F qm alpha Om 0%nat k = c0.
Proof.
  unfold e_coupling. rewrite (masked_ext m _ (fun _ => c0) k); [apply masked_c0|]. cbn [shift_up].
  rewrite (ffwd_ext nx _ (fun _ => c0)) by (intros; apply cscal_c0). rewrite ffwd_zero. apply cscal_c0.
Qed.
Lemma finv_const nx X g : (forall k, (0 < k < nx)%nat -> X k = c0) -> (0 < nx)%nat -> finv nx X g = X 0%nat.
Proof.
  intros H Hn. unfold finv. rewrite (csum_single nx 0); auto; [rewrite angle_0k, cis_0; apply cmul_c1|].
  intros i Hi Hi0. rewrite H by lia. creal.
Qed.
Lemma ffwd_const nx c k : (k < nx)%nat -> ffwd nx (fun _ => c) k = if (k =? 0)%nat then c else c0.
Proof.
  intros Hk. rewrite <- (ffwd_finv nx (fun j => if (j =? 0)%nat then c else c0) k Hk). apply ffwd_ext. intros g Hg. symmetry.
  rewrite finv_const; auto; [|lia]. intros j Hj. destruct (Nat.eqb_spec j 0); [lia|reflexivity].
Qed.
Lemma masked_force_const nx F m g : (g < nx)%nat -> masked_force nx (match m with true => Some (mask23 nx) | false => None end) (fun _ => F) g = F.
Proof.
  intros Hg. destruct m; cbn [masked_force]; auto. rewrite (finv_ext nx _ (fun k => if (k =? 0)%nat then (F, 0) else c0)).
  - rewrite finv_const; [reflexivity| |lia]. intros k Hk. destruct (Nat.eqb_spec k 0); [lia|reflexivity].
  - intros k Hk. unfold masked. rewrite ffwd_const by auto. destruct (Nat.eqb_spec k 0) as [->|]; [rewrite mask_zero; reflexivity|]. destruct (mask23 nx k); reflexivity.
Qed.
Theorem C74_maxwellian_current : forall (dealias : bool) Nn nx alpha Om F n0 dt terms, (1 < Nn)%nat -> (0 < nx)%nat -> (0 < terms)%nat ->
  let m := if dealias then Some (mask23 nx) else None in
  let C := fun n k : nat => if ((n =? 0) && (k =? 0))%nat%bool then (n0, 0) else c0 in
  (forall qm n k, (k < nx)%nat ->
    e_coupling nx m C (fun _ => F) qm alpha Om n k
    = if ((n =? 1) && (k =? 0))%nat%bool then (qm * Om * sqrt 2 / alpha * F * n0, 0) else c0) /\
  (forall k, (k < nx)%nat ->
    force_substep Nn nx m C (fun _ => F) alpha Om dt terms 1%nat k = if (k =? 0)%nat then (Om * sqrt 2 / alpha * F * dt * n0, 0) else c0).
Proof.
  intros dealias Nn nx alpha Om F n0 dt terms HN Hx Ht m C.
  assert (Mc : forall g, (g < nx)%nat -> masked_force nx m (fun _ => F) g = F) by (intros; apply (masked_force_const nx F dealias g); auto).
  assert (CR : forall n g, (g < nx)%nat -> finv nx (masked m (C n)) g = if (n =? 0)%nat then (n0, 0) else c0).
  { intros n g Hg. rewrite finv_const; auto.
    - unfold m, C, masked. destruct dealias; [rewrite mask_zero|]; destruct (n =? 0)%nat; reflexivity.
    - intros k Hk. unfold m, C, masked. destruct dealias; [destruct (mask23 nx k)|]; auto; (destruct (Nat.eqb_spec k 0); [lia|]); rewrite andb_false_r; reflexivity. }
  assert (MZ : forall X k, (0 < k < nx)%nat -> X k = c0 -> masked m X k = c0).
  { intros X k Hk E. unfold m, masked. destruct dealias; auto. destruct (mask23 nx k); auto. }
  assert (M0 : forall X, masked m X 0%nat = X 0%nat) by (intros X; unfold m, masked; destruct dealias; [rewrite mask_zero|]; reflexivity).
  split.
  - intros qm n k Hk. unfold e_coupling.
    assert (FF : forall k, (k < nx)%nat -> ffwd nx (fun g => cscal (sqrt (INR n) * sqrt 2 / alpha * masked_force nx m (fun _ => F) g)
        (shift_up (fun n' => finv nx (masked m (C n'))) n g)) k
      = if (k =? 0)%nat then cscal (sqrt (INR n) * sqrt 2 / alpha * F) (if (n =? 1)%nat then (n0, 0) else c0) else c0).
    { intros j Hj. rewrite <- (ffwd_const nx _ j Hj). apply ffwd_ext. intros g Hg. rewrite Mc by auto. destruct n as [|n]; cbn [shift_up].
      - rewrite cscal_c0. cbn [Nat.eqb]. rewrite cscal_c0. reflexivity.
      - rewrite CR by auto. change (S n =? 1)%nat with (n =? 0)%nat. reflexivity. }
    destruct (Nat.eqb_spec k 0) as [->|Nk].
    + rewrite M0, FF by auto. cbn [Nat.eqb]. rewrite andb_true_r. destruct (Nat.eqb_spec n 1) as [->|]; [|rewrite !cscal_c0; reflexivity].
      change (INR 1) with 1. rewrite sqrt_1. unfold cscal. cbn [fst snd]. apply cplx_eq; cbn [fst snd]; unfold Rdiv; ring.
    + rewrite andb_false_r. apply MZ; [lia|]. rewrite FF by auto. destruct (Nat.eqb_spec k 0); [lia|]. apply cscal_c0.
  - intros k Hk. unfold force_substep.
    assert (FF : forall k, (k < nx)%nat -> ffwd nx (force_series (fun n' g => kappa Om alpha n' * dt * masked_force nx m (fun _ => F) g) (k_max terms Nn) (fun n0 => finv nx (masked m (C n0))) 1%nat) k
      = if (k =? 0)%nat then (Om * sqrt 2 / alpha * F * dt * n0, 0) else c0).
    { intros j Hj. rewrite <- (ffwd_const nx _ j Hj). apply ffwd_ext. intros g Hg. rewrite substep_series by (auto; lia). rewrite Mc by auto.
      unfold ser, kappa. cbn [rsum pow fact wprod Nat.sub]. rewrite !CR by auto. cbn [Nat.eqb fst snd c0]. change (INR (1 * 1)) with 1. change (INR 1) with 1. rewrite sqrt_1.
      apply cplx_eq; cbn [fst snd]; unfold c0; cbn [fst snd]; unfold Rdiv; rewrite ?Rinv_1; ring. }
    destruct (Nat.eqb_spec k 0) as [->|Nk]; [rewrite M0, FF by auto; reflexivity|].
    apply MZ; [lia|]. rewrite FF by auto. destruct (Nat.eqb_spec k 0); [lia|]. reflexivity.
Qed.
Print Assumptions C74_maxwellian_current.

(* ------------------------------------------------------------------------------------------------ *)
(** * Dealiasing *)
(** When Nx is not a multiple of 3 no product of two retained modes aliases into a retained mode: if the sum of two retained
    modes agrees with a retained mode modulo Nx, it is that mode. *)
Lemma mode_mod nx k : exists z, (mode nx k = Z.of_nat k + z * Z.of_nat nx)%Z.
Proof. unfold mode. destruct (2 * k <? nx)%nat; [exists 0%Z|exists (-1)%Z]; lia. Qed.
Theorem C74_dealiased : forall nx k1 k2 k, (nx mod 3 <> 0)%nat -> mask23 nx k1 = true -> mask23 nx k2 = true -> mask23 nx k = true ->
  ((mode nx k1 + mode nx k2 - mode nx k) mod Z.of_nat nx = 0)%Z -> (mode nx k1 + mode nx k2 = mode nx k)%Z.
Proof.
  intros nx k1 k2 k H3 H1 H2 H0 HM. unfold mask23 in *. apply Z.leb_le in H1, H2, H0.
  assert (D : (3 * (Z.of_nat nx / 3) < Z.of_nat nx)%Z).
  { pose proof (Z.div_mod (Z.of_nat nx) 3 ltac:(lia)). pose proof (Z.mod_pos_bound (Z.of_nat nx) 3 ltac:(lia)).
    assert (Z.of_nat nx mod 3 <> 0)%Z. { pose proof (Nat2Z.inj_mod nx 3) as IM. change (Z.of_nat 3) with 3%Z in IM. lia. } lia. }
  destruct (Nat.eq_dec nx 0) as [->|Hn]; [cbn in *; lia|].
  apply Z.mod_divide in HM; [|lia]. destruct HM as [q Hq].
  assert (q = 0)%Z by nia. lia.
Qed.
Print Assumptions C74_dealiased.
Example C74_dealiased_inhabited : (8 mod 3 <> 0)%nat /\ mask23 8 1 = true /\ mask23 8 2 = true /\ ((mode 8 1 + mode 8 1 - mode 8 2) mod 8 = 0)%Z.
Proof. repeat split; cbn; congruence. Qed.
(** When Nx is a multiple of 3 the mask is one mode too wide: the products of the two outermost retained modes alias back
    into the band (mode Nx/3 twice lands on -Nx/3). *)
Theorem C74_dealiased_refuted : ~ (forall nx k1 k2 k, mask23 nx k1 = true -> mask23 nx k2 = true -> mask23 nx k = true ->
  ((mode nx k1 + mode nx k2 - mode nx k) mod Z.of_nat nx = 0)%Z -> (mode nx k1 + mode nx k2 = mode nx k)%Z).
Proof. intros H. specialize (H 6%nat 2%nat 2%nat 4%nat eq_refl eq_refl eq_refl eq_refl). cbn in H. lia. Qed.
Print Assumptions C74_dealiased_refuted.
Lemma mode_mirror nx k : (0 < k < nx)%nat -> (2 * k <> nx)%nat -> (mode nx (nx - k) = - mode nx k)%Z.
Proof. intros H H'. unfold mode. destruct (Nat.ltb_spec (2 * k) nx), (Nat.ltb_spec (2 * (nx - k)) nx); lia. Qed.
Lemma mask_mirror nx k : (0 < k < nx)%nat -> mask23 nx (nx - k) = mask23 nx k.
Proof.
  intros H. destruct (Nat.eq_dec (2 * k) nx); [replace (nx - k)%nat with k by lia; reflexivity|].
  unfold mask23. rewrite mode_mirror by auto. rewrite Z.abs_opp. reflexivity.
Qed.

(* ------------------------------------------------------------------------------------------------ *)
(** * Momentum *)
(** The mirror index of a mode and the spectrum of a real part. *)
Definition mir (nx k : nat) : nat := if (k =? 0)%nat then 0%nat else (nx - k)%nat.
Lemma mir_lt nx k : (k < nx)%nat -> (mir nx k < nx)%nat.
Proof. unfold mir. destruct (Nat.eqb_spec k 0); lia. Qed.
Lemma cis_mir nx k g : (k < nx)%nat -> cis (angle nx (mir nx k) g) = cis (- angle nx k g).
Proof.
  intros H. unfold mir. destruct (Nat.eqb_spec k 0) as [->|]; [rewrite angle_0k, Ropp_0; reflexivity|]. apply cis_mirror; lia.
Qed.
Lemma conj_finv nx X g : (0 < nx)%nat -> conj (finv nx X g) = finv nx (fun k => conj (X (mir nx k))) g.
Proof.
  intros Hn. unfold finv. rewrite csum_conj, (csum_mirror nx (fun k => cmul (conj (X (mir nx k))) (cis (angle nx k g)))) by auto.
  apply csum_ext. intros k Hk. rewrite conj_mul, <- cis_neg. unfold mir at 1.
  destruct (Nat.eqb_spec k 0) as [->|N0].
  - cbn [Nat.eqb]. rewrite angle_0k, Ropp_0. reflexivity.
  - unfold mir. destruct (Nat.eqb_spec (nx - k) 0); [lia|]. replace (nx - (nx - k))%nat with k by lia. f_equal. symmetry. apply cis_mirror; lia.
Qed.
Lemma ffwd_re nx X k : (k < nx)%nat -> ffwd nx (fun g => (fst (finv nx X g), 0)) k = cscal (1 / 2) (cadd (X k) (conj (X (mir nx k)))).
Proof.
  intros Hk. rewrite <- (ffwd_finv nx (fun k => cscal (1 / 2) (cadd (X k) (conj (X (mir nx k))))) k Hk). apply ffwd_ext. intros g Hg.
  rewrite (finv_ext nx (fun k => cscal (1 / 2) (cadd (X k) (conj (X (mir nx k))))) (fun k => cmul (1 / 2, 0) (cadd (X k) (conj (X (mir nx k)))))) by (intros; apply cscal_mul).
  rewrite finv_mul, finv_add, <- conj_finv by lia. unfold cmul, cadd, conj. cbn [fst snd]. apply cplx_eq; cbn [fst snd]; lra.
Qed.
(** Parseval for a real and a complex array. *)
Lemma parseval_bilinear nx (h : nat -> R) X : csum nx (fun g => cscal (h g) (finv nx X g)) = cscal (INR nx) (csum nx (fun k => cmul (X k) (conj (ffwd nx (emb h) k)))).
Proof.
  destruct (Nat.eq_dec nx 0) as [->|Hn]; [cbn; creal|]. assert (N : INR nx <> 0) by (apply not_0_INR; auto).
  unfold finv. transitivity (csum nx (fun g => csum nx (fun k => cmul (X k) (cscal (h g) (cis (angle nx k g)))))).
  { apply csum_ext. intros g _. rewrite <- csum_scal. apply csum_ext. intros. creal. }
  rewrite csum_swap, <- csum_scal. apply csum_ext. intros k Hk. rewrite csum_mul.
  transitivity (cmul (X k) (cscal (INR nx) (conj (ffwd nx (emb h) k)))); [|creal]. f_equal.
  unfold ffwd, cfft. transitivity (conj (csum nx (fun g => cmul (emb h g) (cis (- angle nx k g))))).
  - rewrite csum_conj. apply csum_ext. intros g _. rewrite conj_mul, <- cis_neg, Ropp_involutive. unfold emb. creal.
  - set (z := csum nx _). unfold cscal, conj. cbn [fst snd]. apply cplx_eq; cbn [fst snd]; field; auto.
Qed.
Definition efield_mult (nx : nat) (dx : R) (k : nat) : cplx := cmul (0, - (1)) (one_over_kx nx dx k, 0).
Lemma efield_mult_im nx dx k : fst (efield_mult nx dx k) = 0. Proof. unfold efield_mult, cmul. cbn [fst snd]. ring. Qed.
Lemma herm_spec nx (h : nat -> R) k : (k < nx)%nat -> conj (ffwd nx (emb h) (mir nx k)) = ffwd nx (emb h) k.
Proof.
  intros Hk. unfold ffwd, cfft. transitivity (cscal (/ INR nx) (conj (csum nx (fun g => cmul (emb h g) (cis (- angle nx (mir nx k) g)))))); [creal|]. f_equal.
  rewrite csum_conj. apply csum_ext. intros g _. rewrite conj_mul, <- cis_neg, Ropp_involutive, cis_mir by auto. unfold emb. creal.
Qed.
(** The dealiased self-field exerts no net force on the dealiased charge. *)
Lemma masked_self_force nx dx (b : nat -> bool) (ne ni : nat -> R) : (forall k, (0 < k < nx)%nat -> b (nx - k)%nat = b k) ->
  rsum nx (fun g => masked_force nx (Some b) (fun h => ni h - ne h) g * masked_force nx (Some b) (poisson1d nx dx ne ni) g) = 0.
Proof.
  intros Hb. destruct (Nat.eq_dec nx 0) as [->|Hn]; [reflexivity|].
  set (rho := fun h => ni h - ne h). set (E := poisson1d nx dx ne ni).
  assert (Bm : forall k, (k < nx)%nat -> b (mir nx k) = b k).
  { intros k Hk. unfold mir. destruct (Nat.eqb_spec k 0) as [->|]; auto. apply Hb. lia. }
  pose (rk := ffwd nx (emb rho)).
  assert (SE : forall k, (k < nx)%nat -> ffwd nx (emb E) k = cscal (1 / 2) (cadd (cmul (efield_mult nx dx k) (rk k)) (cmul (conj (efield_mult nx dx (mir nx k))) (rk k)))).
  { intros k Hk. unfold E, poisson1d, emb. rewrite (ffwd_re nx (fun k => cmul (cmul (0, - (1)) (one_over_kx nx dx k, 0)) (ffwd nx (fun h => (ni h - ne h, 0)) k))) by auto.
    f_equal. f_equal. rewrite conj_mul. f_equal. apply (herm_spec nx rho k Hk). }
  pose (em := masked_force nx (Some b) E). pose (rm := masked_force nx (Some b) rho).
  assert (SR : forall k, (k < nx)%nat -> ffwd nx (emb rm) k = cscal (if b k then 1 else 0) (rk k)).
  { intros k Hk. unfold rm, masked_force, emb. rewrite ffwd_re by auto. unfold masked. rewrite Bm by auto. destruct (b k).
    - change (fun h => (rho h, 0)) with (emb rho). rewrite herm_spec by auto. fold rk. creal; lra.
    - creal. }
  change (rsum nx (fun g => rm g * em g) = 0).
  transitivity (fst (csum nx (fun g => cscal (rm g) (finv nx (masked (Some b) (ffwd nx (emb E))) g)))).
  { rewrite csum_fst. apply rsum_ext. intros g _. reflexivity. }
  rewrite parseval_bilinear. unfold cscal at 1. cbn [fst]. rewrite csum_fst. rewrite (rsum_ext nx _ (fun _ => 0)); [rewrite rsum_zero; ring|].
  intros k Hk. rewrite SR by auto. cbn [masked]. destruct (b k); [|unfold cmul, cscal, conj, c0; cbn [fst snd]; ring]. rewrite SE by auto.
  pose proof (efield_mult_im nx dx k) as I1. pose proof (efield_mult_im nx dx (mir nx k)) as I2.
  destruct (efield_mult nx dx k) as [a1 a2], (efield_mult nx dx (mir nx k)) as [d1 d2], (rk k) as [x y]. cbn in I1, I2. subst.
  unfold cmul, cscal, conj, cadd. cbn [fst snd]. field.
Qed.

(** The real part of a dealiased complex row is the dealiased real part. *)
Lemma re_masked nx (b : nat -> bool) X g : (forall k, (0 < k < nx)%nat -> b (nx - k)%nat = b k) -> (g < nx)%nat ->
  fst (finv nx (masked (Some b) X) g) = masked_force nx (Some b) (fun h => fst (finv nx X h)) g.
Proof.
  intros Hb Hg. unfold masked_force.
  assert (Bm : forall k, (k < nx)%nat -> b (mir nx k) = b k).
  { intros k Hk. unfold mir. destruct (Nat.eqb_spec k 0) as [->|]; auto. apply Hb. lia. }
  rewrite (finv_ext nx (masked (Some b) (ffwd nx (fun h => (fst (finv nx X h), 0)))) (fun k => cmul (1 / 2, 0) (cadd (masked (Some b) X k) (conj (masked (Some b) X (mir nx k)))))).
  - rewrite finv_mul, finv_add, <- conj_finv by lia. unfold cmul, cadd, conj. cbn [fst snd]. lra.
  - intros k Hk. unfold masked. rewrite Bm by auto. destruct (b k); [rewrite ffwd_re by auto; apply cscal_mul|]. creal.
Qed.
Lemma masked_force_lin nx b a c f h g : masked_force nx (Some b) (fun i => a * f i + c * h i) g = a * masked_force nx (Some b) f g + c * masked_force nx (Some b) h g.
Proof.
  unfold masked_force. rewrite (finv_ext nx _ (fun k => cadd (cmul (a, 0) (masked (Some b) (ffwd nx (fun i => (f i, 0))) k)) (cmul (c, 0) (masked (Some b) (ffwd nx (fun i => (h i, 0))) k)))).
  - rewrite finv_add, !finv_mul. unfold cadd, cmul. cbn [fst snd]. ring.
  - intros k _. unfold masked. destruct (b k); [|creal]. rewrite <- !ffwd_mul, <- ffwd_add. apply ffwd_ext. intros i _. creal.
Qed.
Lemma masked_force_ext nx m f h g : (g < nx)%nat -> (forall i, (i < nx)%nat -> f i = h i) -> masked_force nx m f g = masked_force nx m h g.
Proof.
  intros Hg E. destruct m as [b|]; cbn [masked_force]; [|auto]. f_equal. apply finv_ext. intros k _. apply masked_ext. apply ffwd_ext. intros i Hi. rewrite E by auto. reflexivity.
Qed.
(** The momentum of a species of mass m and thermal speed alpha: the mean velocity moment of C_1, alpha^4/sqrt(2) Re C_1(k=0). *)
Definition species_momentum (mass alpha : R) (C : coeffs) : R := mass * (alpha ^ 4 / sqrt 2) * fst (C 1%nat 0%nat).
Lemma substep_row1 Nn nx C accel alpha Om dt terms : (1 < Nn)%nat -> (0 < nx)%nat -> (0 < terms)%nat ->
  fst (force_substep Nn nx (Some (mask23 nx)) C accel alpha Om dt terms 1%nat 0%nat)
  = fst (C 1%nat 0%nat) + Om * sqrt 2 / alpha * dt * / INR nx * rsum nx (fun g => masked_force nx (Some (mask23 nx)) accel g * masked_force nx (Some (mask23 nx)) (fun h => fst (finv nx (C 0%nat) h)) g).
Proof.
  intros HN Hx Ht. unfold force_substep. cbn [masked]. rewrite mask_zero.
  set (m := Some (mask23 nx)).
  rewrite (ffwd_ext nx _ (fun g => cadd (finv nx (masked m (C 1%nat)) g) (cscal (Om * sqrt 2 / alpha * (dt * masked_force nx m accel g)) (finv nx (masked m (C 0%nat)) g)))).
  - rewrite ffwd_add. unfold cadd. cbn [fst]. f_equal.
    + rewrite ffwd_finv by auto. unfold m, masked. rewrite mask_zero. reflexivity.
    + rewrite ffwd_0. unfold cscal at 1. cbn [fst]. rewrite csum_fst.
      transitivity (/ INR nx * rsum nx (fun g => Om * sqrt 2 / alpha * dt * (masked_force nx m accel g * masked_force nx m (fun h => fst (finv nx (C 0%nat) h)) g))).
      * f_equal. apply rsum_ext. intros g Hg. unfold cscal. cbn [fst]. unfold m at 2. rewrite re_masked; [unfold m; ring| |auto]. intros; apply mask_mirror; auto.
      * rewrite rsum_scal. ring.
  - intros g Hg. rewrite substep_series by (auto; lia). unfold ser. cbn [rsum pow wprod fact Nat.sub]. unfold kappa.
    change (INR (1 * 1)) with 1. change (INR 1) with 1. rewrite sqrt_1. unfold cadd, cscal. cbn [fst snd]. apply cplx_eq; cbn [fst snd]; unfold Rdiv; rewrite ?Rinv_1; ring.
Qed.
(** With mobile ions, no drivers, no noise and no laser, the force substep (dealiased, as the solver runs it) conserves the
    total momentum of electrons and ions exactly: whatever the coefficients, the field it computes from them exerts no net
    force. *)
Theorem C74_momentum : forall Nn_e Nn_i nx dx alpha_e alpha_i mi Om dt terms Ce Ci,
  (1 < Nn_e)%nat -> (1 < Nn_i)%nat -> (0 < nx)%nat -> (0 < terms)%nat -> 0 < alpha_e -> 0 < alpha_i -> 0 < mi ->
  let E := poisson1d nx dx (density_of nx alpha_e Ce) (density_of nx alpha_i Ci) in
  let zero := fun _ : nat => 0 in
  let m := Some (mask23 nx) in
  species_momentum 1 alpha_e (force_substep Nn_e nx m Ce (accel_of (- (1)) E zero zero zero) alpha_e Om dt terms)
  + species_momentum mi alpha_i (force_substep Nn_i nx m Ci (accel_of (1 / mi) E zero zero zero) alpha_i Om dt terms)
  = species_momentum 1 alpha_e Ce + species_momentum mi alpha_i Ci.
Proof.
  intros Nn_e Nn_i nx dx alpha_e alpha_i mi Om dt terms Ce Ci HNe HNi Hx Ht Hae Hai Hmi E zero m.
  unfold species_momentum. unfold m. rewrite !substep_row1 by auto. fold m.
  pose (n_e := density_of nx alpha_e Ce). pose (n_i := density_of nx alpha_i Ci).
  pose proof (masked_self_force nx dx (mask23 nx) n_e n_i (fun k Hk => mask_mirror nx k Hk)) as SF. fold m E in SF.
  assert (S2 : sqrt 2 <> 0) by (apply Rgt_not_eq, sqrt_lt_R0; lra). assert (N : INR nx <> 0) by (apply not_0_INR; lia).
  assert (P : forall alpha C mass q, 0 < alpha -> 0 < mass ->
     mass * (alpha ^ 4 / sqrt 2) * (Om * sqrt 2 / alpha * dt * / INR nx * rsum nx (fun g => masked_force nx m (accel_of (q / mass) E zero zero zero) g * masked_force nx m (fun h => fst (finv nx (C 0%nat) h)) g))
     = Om * dt / INR nx * rsum nx (fun g => q * (masked_force nx m E g * masked_force nx m (density_of nx alpha C) g))).
  { intros alpha C mass q Ha Hm. rewrite (rsum_ext nx (fun g => q * _) (fun g => (alpha ^ 3 * mass) * (masked_force nx m (accel_of (q / mass) E zero zero zero) g * masked_force nx m (fun h => fst (finv nx (C 0%nat) h)) g))).
    - rewrite rsum_scal. field. repeat split; auto; lra.
    - intros g Hg. rewrite (masked_force_ext nx m (accel_of (q / mass) E zero zero zero) (fun i => q / mass * E i + 0 * E i) g Hg) by (intros; unfold accel_of, zero; ring).
      rewrite (masked_force_ext nx m (density_of nx alpha C) (fun i => alpha ^ 3 * fst (finv nx (C 0%nat) i) + 0 * E i) g Hg) by (intros; unfold density_of; ring).
      unfold m. rewrite !masked_force_lin. field. lra. }
  rewrite !Rmult_plus_distr_l. replace (- (1)) with (- (1) / 1) by lra. rewrite (P alpha_e Ce 1 (- (1))) by lra. rewrite (P alpha_i Ci mi 1) by lra.
  assert (Z : rsum nx (fun g => - (1) * (masked_force nx m E g * masked_force nx m (density_of nx alpha_e Ce) g))
            + rsum nx (fun g => 1 * (masked_force nx m E g * masked_force nx m (density_of nx alpha_i Ci) g)) = 0).
  { rewrite <- rsum_plus. transitivity (rsum nx (fun g => masked_force nx m (fun h => n_i h - n_e h) g * masked_force nx m E g)); [|exact SF]. apply rsum_ext. intros g Hg.
    rewrite (masked_force_ext nx m (fun h => n_i h - n_e h) (fun h => 1 * n_i h + - (1) * n_e h) g Hg) by (intros; ring). unfold m at 5. rewrite masked_force_lin. fold m. unfold n_e, n_i. ring. }
  nra.
Qed.
Print Assumptions C74_momentum.

(** The ponderomotive acceleration does not depend on the sign of the charge while the field response flips with it: with no
    field the two charge signs accelerate alike, with no laser they accelerate oppositely. *)
Theorem C74_ponderomotive_sign : forall qm E Ed noise Fp g,
  accel_of (- qm) (fun _ => 0) (fun _ => 0) (fun _ => 0) Fp g = accel_of qm (fun _ => 0) (fun _ => 0) (fun _ => 0) Fp g /\
  accel_of (- qm) E Ed noise (fun _ => 0) g = - accel_of qm E Ed noise (fun _ => 0) g.
Proof. intros. unfold accel_of. split; ring. Qed.
Print Assumptions C74_ponderomotive_sign.
(** The ponderomotive force pushes both ways symmetrically: reversing the vector potential changes nothing, a uniform one
    exerts no force, summed over a profile that vanishes at both ends of the box there is no net force, and where a^2 grows linearly
    it is minus half the slope at every cell, the two ends included. *)
Theorem C74_ponderomotive : forall nx dx a, dx <> 0 -> (3 <= nx)%nat ->
  (forall g, pond nx dx (fun h => - a h) g = pond nx dx a g) /\
  (forall c, (forall h, (h < nx)%nat -> a h = c \/ a h = - c) -> forall g, (g < nx)%nat -> pond nx dx a g = 0) /\
  (a 0%nat = 0 -> a 1%nat = 0 -> a (nx - 1)%nat = 0 -> a (nx - 2)%nat = 0 -> rsum nx (pond nx dx a) = 0) /\
  (forall u w, (forall h, (h < nx)%nat -> a h ^ 2 = u + w * (INR h * dx)) -> forall g, (g < nx)%nat -> pond nx dx a g = - (1 / 2) * w).
Proof.
  intros nx dx a Hd Hn. split; [|split; [|split]].
  - intros g. unfold pond, jgradient. destruct (g =? 0)%nat; [f_equal; field; auto|]. destruct (g =? nx - 1)%nat; f_equal; field; auto.
  - intros c H g Hg. assert (Q : forall h, (h < nx)%nat -> a h ^ 2 = c ^ 2) by (intros h Hh; destruct (H h Hh) as [-> | ->]; ring).
    unfold pond, jgradient. destruct (Nat.eqb_spec g 0); [rewrite !Q by lia; field; auto|]. destruct (Nat.eqb_spec g (nx - 1)); rewrite !Q by lia; field; auto.
  - intros A0 A1 B0 B1. set (f := fun h => a h ^ 2).
    assert (F0 : f 0%nat = 0) by (unfold f; rewrite A0; ring). assert (F1 : f 1%nat = 0) by (unfold f; rewrite A1; ring).
    assert (G0 : f (nx - 1)%nat = 0) by (unfold f; rewrite B0; ring). assert (G1 : f (nx - 2)%nat = 0) by (unfold f; rewrite B1; ring).
    destruct nx as [|[|n]]; try lia. replace (S (S n) - 1)%nat with (S n) in * by lia. replace (S (S n) - 2)%nat with n in * by lia.
    assert (PF : forall g, pond (S (S n)) dx a g = - (1 / 2) * jgradient (S (S n)) dx f g) by reflexivity.
    rewrite rsum_shift. cbn [rsum]. rewrite (PF 0%nat), (PF (S n)). unfold jgradient. cbn [Nat.eqb]. replace (S (S n) - 1)%nat with (S n) by lia. rewrite Nat.eqb_refl.
    replace (S (S n) - 2)%nat with n by lia. rewrite F0, F1, G0, G1.
    rewrite (rsum_ext n _ (fun i => - (1 / 2) / (2 * dx) * ((f (S i) - f i) + (f (S (S i)) - f (S i))))).
    + rewrite rsum_scal, rsum_plus. rewrite (rsum_telescope n f), (rsum_telescope n (fun i => f (S i))). rewrite F0, F1, G0, G1. field. auto.
    + intros i Hi. rewrite PF. unfold jgradient. cbn [Nat.eqb]. replace (S (S n) - 1)%nat with (S n) by lia. destruct (Nat.eqb_spec i n); [lia|].
      replace (S i - 1)%nat with i by lia. field. auto.
  - intros u w H g Hg. unfold pond, jgradient. destruct (Nat.eqb_spec g 0); [rewrite !H by lia; change (INR 1) with 1; change (INR 0) with 0; field; auto|].
    destruct (Nat.eqb_spec g (nx - 1)); rewrite !H by lia; [replace (nx - 1)%nat with (S (nx - 2)) by lia|replace (g + 1)%nat with (S (S (g - 1))) by lia; replace (S g) with (S (S (g - 1))) by lia]; rewrite !S_INR; field; auto.
Qed.
Print Assumptions C74_ponderomotive.
Example C74_velocity_shift_inhabited : forall Nn nx alpha (ps : nat -> list (R * R)), exists C : coeffs,
  forall n g, (n < Nn)%nat -> (g < nx)%nat -> finv nx (C n) g = (particle_coeff alpha (ps g) n, 0).
Proof. intros. exists (fun n => ffwd nx (fun g => (particle_coeff alpha (ps g) n, 0))). intros. apply finv_ffwd. auto. Qed.
(** Two rows are enough to see the shift: density unchanged, mean velocity moved by accel dt. *)
Example C74_shift_two_rows : forall alpha w v d, 0 < alpha ->
  particle_coeff alpha ((w, v + d) :: nil) 0 = w /\ particle_coeff alpha ((w, v + d) :: nil) 1 = w * (sqrt 2 * (v + d) / alpha).
Proof.
  intros. unfold particle_coeff, hnorm. cbn [map lsum fst snd]. rewrite hermite_0, hermite_1. cbn [pow fact]. change (INR (1 * 1)) with 1. change (INR 1) with 1.
  replace (2 * 1 * 1) with 2 by ring. replace (1 * 1) with 1 by ring. rewrite sqrt_1. split; [field|].
  assert (S2 : 0 < sqrt 2) by (apply sqrt_lt_R0; lra). assert (Q : sqrt 2 * sqrt 2 = 2) by (apply sqrt_sqrt; lra).
  transitivity (w * ((sqrt 2 * sqrt 2) * ((v + d) / alpha) / sqrt 2)); [rewrite Q; field; lra|field; lra].
Qed.
