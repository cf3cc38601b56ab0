(** Properties of the particle-in-cell solver (C36-C41, C53). [rsum nx h] = h 0 + ... + h (nx-1);
    [lsum] adds the entries of a list. *)
From Verif Require Import RSum Pic PicProofs PicFourier.

(** Specification vocabulary. *)
Definition weight (ps : list particle) : R := lsum (map pw ps).
Definition momentum_of (mass : R) (s : species) : R := mass * lsum (map (fun p => pw p * pv p) (parts s)).
(** Masses of the species in the order of the state; [charge = mass * charge_to_mass] for each of them. *)
Definition masses_fit (ms : list R) (st : list species) : Prop := Forall2 (fun m s => charge s = m * charge_to_mass s) ms st.
Fixpoint momentum (ms : list R) (st : list species) : R :=
  match ms, st with m :: ms', s :: st' => momentum_of m s + momentum ms' st' | _, _ => 0 end.

(* ------------------------------------------------------------------------------------------------ *)
(** * C36: deposition *)
Theorem C36_deposit_conserves_weight (sh : shape) (ps : list particle) (nx : nat) (dx xmin : R) :
  (0 < nx)%nat -> dx <> 0 -> dx * rsum nx (deposit sh ps nx dx xmin) = weight ps.
Proof.
  intros Hn Hd. rewrite (rsum_ext nx (deposit sh ps nx dx xmin) (fun g => (fun _ => 1) g * deposit sh ps nx dx xmin g)) by (intros; ring).
  rewrite (adjoint sh (fun _ => 1)) by assumption. unfold weight. apply lsum_ext. intros p _. rewrite gather_const. ring.
Qed.
Print Assumptions C36_deposit_conserves_weight.
Theorem C36_deposit_nonneg (sh : shape) (ps : list particle) (nx : nat) (dx xmin : R) (g : nat) :
  0 < dx -> (forall p, In p ps -> 0 <= pw p) -> 0 <= deposit sh ps nx dx xmin g.
Proof.
  intros Hd Hw. unfold deposit. apply Rmult_le_pos; [|now apply Rlt_le, Rinv_0_lt_compat]. apply lsum_nonneg. intros p Hp. unfold scatter. apply lsum_nonneg. intros e He.
  destruct (Nat.eqb (fst e) g); [|lra]. apply Rmult_le_pos; [eapply stencil_nonneg; eauto|auto].
Qed.
Print Assumptions C36_deposit_nonneg.
(** A particle displaced by whole box lengths (nx dx) deposits the same density. *)
Theorem C36_deposit_periodic (sh : shape) (ps : list particle) (shift : particle -> Z) (nx : nat) (dx xmin : R) (g : nat) :
  (0 < nx)%nat -> dx <> 0 ->
  deposit sh (map (fun p => {| px := px p + IZR (shift p) * (INR nx * dx); pv := pv p; pw := pw p |}) ps) nx dx xmin g = deposit sh ps nx dx xmin g.
Proof.
  intros Hn Hd. unfold deposit. f_equal. rewrite map_map. apply lsum_ext. intros p _. cbn [px pw]. rewrite !scatter_action. f_equal. now apply (stencil_shift sh (px p) dx xmin nx (shift p) Hn Hd (fun i => if Nat.eqb i g then 1 else 0)).
Qed.
Print Assumptions C36_deposit_periodic.
(** A particle only touches the cells within two of its own position. *)
Theorem C36_deposit_local (sh : shape) (p : particle) (nx : nat) (dx xmin : R) (g : nat) :
  (0 < nx)%nat -> 0 < dx -> deposit sh [p] nx dx xmin g <> 0 ->
  exists i : Z, g = Z.to_nat (i mod Z.of_nat nx) /\ Rabs (px p - (xmin + (IZR i + 1 / 2) * dx)) <= 2 * dx.
Proof.
  intros Hn Hd H. assert (E : exists e, In e (stencil sh (px p) dx xmin nx) /\ fst e = g).
  { destruct (existsb (fun e => Nat.eqb (fst e) g) (stencil sh (px p) dx xmin nx)) eqn:B.
    - apply existsb_exists in B. destruct B as (e & He & Eg). exists e. split; [exact He|now apply Nat.eqb_eq].
    - exfalso. apply H. unfold deposit. cbn [map lsum]. replace (scatter _ _ _) with 0; [unfold Rdiv; ring|]. symmetry. unfold scatter.
      rewrite (lsum_ext _ _ (fun _ => 0 * 0)); [rewrite lsum_scal; ring|]. intros e He. destruct (Nat.eqb (fst e) g) eqn:B'; [|ring].
      exfalso. assert (T : existsb (fun e => Nat.eqb (fst e) g) (stencil sh (px p) dx xmin nx) = true) by (apply existsb_exists; now exists e). congruence. }
  assert (A : forall i : Z, -2 <= s_real (px p) dx xmin - IZR i <= 2 -> Rabs (px p - (xmin + (IZR i + 1 / 2) * dx)) <= 2 * dx).
  { intros i Hi. replace (px p - (xmin + (IZR i + 1 / 2) * dx)) with ((s_real (px p) dx xmin - IZR i) * dx) by (unfold s_real; field; lra). apply Rabs_le. nra. }
  destruct E as (e & He & <-). destruct sh; cbn [stencil In] in He.
  - pose proof (floor_spec (s_real (px p) dx xmin)). destruct He as [<-|[<-|[]]]; cbn [fst]; eexists; (split; [reflexivity|]); apply A; rewrite ?plus_IZR; lra.
  - pose proof (round_spec (s_real (px p) dx xmin)) as K. apply abs_le_both in K. destruct He as [<-|[<-|[<-|[]]]]; cbn [fst]; eexists; (split; [reflexivity|]); apply A; rewrite ?plus_IZR, ?minus_IZR; lra.
  - pose proof (floor_spec (s_real (px p) dx xmin)). destruct He as [<-|[<-|[<-|[<-|[]]]]]; cbn [fst]; eexists; (split; [reflexivity|]); apply A; rewrite ?plus_IZR, ?minus_IZR; lra.
Qed.
Print Assumptions C36_deposit_local.
(** Total charge on the grid. *)
Theorem C36_total_charge (sh : shape) (st : list species) (nx : nat) (dx xmin : R) :
  (0 < nx)%nat -> dx <> 0 -> dx * rsum nx (charge_density sh st nx dx xmin) = lsum (map (fun s => charge s * weight (parts s)) st).
Proof.
  intros Hn Hd. unfold charge_density. rewrite (rsum_lsum nx st (fun s g => charge s * deposit sh (parts s) nx dx xmin g)). rewrite <- lsum_scal. apply lsum_ext. intros s _.
  rewrite rsum_scal, <- (C36_deposit_conserves_weight sh (parts s) nx dx xmin Hn Hd). ring.
Qed.
Print Assumptions C36_total_charge.
(** A tie of the rounding shape, one particle on a cell edge: half of its weight on either side. *)
Example C36_nonvacuous : deposit tsc [{| px := 1; pv := 0; pw := 3 |}] 4 1 0 0 + deposit tsc [{| px := 1; pv := 0; pw := 3 |}] 4 1 0 1 = 3
  /\ deposit tsc [{| px := 1; pv := 0; pw := 3 |}] 4 1 0 1 = 3 / 2.
Proof.
  assert (F : floor (s_real 1 1 0 + 1 / 2) = 1%Z) by (apply floor_unique; unfold s_real; lra).
  assert (R : round_half_even (s_real 1 1 0) = 0%Z). { unfold round_half_even. rewrite F. destruct (Req_EM_T _ _) as [E|E]; [reflexivity|]. exfalso. apply E. unfold s_real. lra. }
  unfold deposit, scatter, stencil. cbn [px pw map lsum]. rewrite R. cbv zeta. change (wrap 4 (0 - 1)) with 3%nat. change (wrap 4 0) with 0%nat. change (wrap 4 (0 + 1)) with 1%nat. cbn [map lsum fst snd Nat.eqb]. unfold s_real. split; field.
Qed.

(* ------------------------------------------------------------------------------------------------ *)
(** * C37: gather *)
Theorem C37_gather_constant (sh : shape) (c : R) (nx : nat) (x dx xmin : R) : gather sh (fun _ => c) nx x dx xmin = c.
Proof. apply gather_const. Qed.
Print Assumptions C37_gather_constant.
Theorem C37_gather_adjoint (sh : shape) (F : nat -> R) (ps : list particle) (nx : nat) (dx xmin : R) :
  (0 < nx)%nat -> dx <> 0 ->
  lsum (map (fun p => pw p * gather sh F nx (px p) dx xmin) ps) = dx * rsum nx (fun g => F g * deposit sh ps nx dx xmin g).
Proof. intros. symmetry. now apply adjoint. Qed.
Print Assumptions C37_gather_adjoint.
Theorem C37_gather_bounds (sh : shape) (F : nat -> R) (lo hi : R) (nx : nat) (x dx xmin : R) :
  (0 < nx)%nat -> (forall g, (g < nx)%nat -> lo <= F g <= hi) -> lo <= gather sh F nx x dx xmin <= hi.
Proof.
  intros Hn H. split.
  - rewrite <- (gather_const sh lo nx x dx xmin) at 1. apply gather_le; [exact Hn|]. intros g Hg. now apply H.
  - rewrite <- (gather_const sh hi nx x dx xmin) at 1. apply gather_le; [exact Hn|]. intros g Hg. now apply H.
Qed.
Print Assumptions C37_gather_bounds.
Theorem C37_gather_periodic (sh : shape) (F : nat -> R) (m : Z) (nx : nat) (x dx xmin : R) :
  (0 < nx)%nat -> dx <> 0 -> gather sh F nx (x + IZR m * (INR nx * dx)) dx xmin = gather sh F nx x dx xmin.
Proof. intros Hn Hd. unfold gather. now apply stencil_shift. Qed.
Print Assumptions C37_gather_periodic.
(** A field that is linear on the grid is gathered exactly at every position whose stencil does not wrap around. *)
Theorem C37_gather_linear (sh : shape) (c0 c1 : R) (nx : nat) (x dx xmin : R) :
  0 < dx -> xmin + 2 * dx <= x <= xmin + (INR nx - 2) * dx ->
  gather sh (fun g => c0 + c1 * (xmin + (INR g + 1 / 2) * dx)) nx x dx xmin = c0 + c1 * x.
Proof.
  intros Hd Hx. assert (Hs : 3 / 2 <= s_real x dx xmin <= INR nx - 5 / 2).
  { unfold s_real. split; apply Rmult_le_reg_r with dx; try exact Hd; replace (((x - xmin) / dx - 1 / 2) * dx) with (x - xmin - dx / 2) by (field; lra); lra. }
  assert (W : forall i : Z, (0 <= i < Z.of_nat nx)%Z -> INR (wrap nx i) = IZR i).
  { intros i Hi. unfold wrap. rewrite Z.mod_small by exact Hi. rewrite INR_IZR_INZ, Z2Nat.id by lia. reflexivity. }
  assert (B : forall i : Z, -1 < IZR i < INR nx -> (0 <= i < Z.of_nat nx)%Z).
  { intros i [H1 H2]. rewrite INR_IZR_INZ in H2. apply lt_IZR in H1, H2. lia. }
  assert (Ex : x = xmin + (s_real x dx xmin + 1 / 2) * dx) by (unfold s_real; field; lra).
  set (sr := s_real x dx xmin) in *. unfold gather, stencil. fold sr. destruct sh; cbv zeta; cbn [map lsum fst snd].
  - pose proof (floor_spec sr) as F. set (n := floor sr) in *. rewrite !W by (apply B; rewrite ?plus_IZR, ?minus_IZR; lra). rewrite plus_IZR. rewrite Ex at 1. field.
  - pose proof (round_spec sr) as F. apply abs_le_both in F. set (n := round_half_even sr) in *. rewrite !W by (apply B; rewrite ?plus_IZR, ?minus_IZR; lra). rewrite plus_IZR, minus_IZR. rewrite Ex at 1. field.
  - pose proof (floor_spec sr) as F. set (n := floor sr) in *. rewrite !W by (apply B; rewrite ?plus_IZR, ?minus_IZR; lra). rewrite !plus_IZR, minus_IZR. rewrite Ex at 1. field.
Qed.
Print Assumptions C37_gather_linear.
Example C37_nonvacuous : gather cubic (fun g => 1 + 2 * (0 + (INR g + 1 / 2) * 1)) 8 (7 / 2) 1 0 = 8.
Proof. rewrite C37_gather_linear; cbn; lra. Qed.

(* ------------------------------------------------------------------------------------------------ *)
(** * C38: drift *)
Theorem C38_drift_particle (dt xmin xmax : R) (p : particle) : xmin < xmax ->
  let q := drift_particle dt xmin xmax p in
  xmin <= px q < xmax /\ (exists n : Z, px q = px p + dt * pv p + IZR n * (xmax - xmin)) /\ pv q = pv p /\ pw q = pw p.
Proof.
  intros H q. split; [|split; [|split; reflexivity]].
  - unfold q, drift_particle. cbn [px]. pose proof (fmod_range (px p + dt * pv p - xmin) (xmax - xmin) ltac:(lra)). lra.
  - exists (- floor ((px p + dt * pv p - xmin) / (xmax - xmin)))%Z. unfold q, drift_particle, fmod. cbn [px]. rewrite opp_IZR. ring.
Qed.
Print Assumptions C38_drift_particle.
(** Every particle of every species is drifted, in place. *)
Theorem C38_drift_state (dt xmin xmax : R) (st : list species) (i j : nat) (s : species) (p : particle) :
  nth_error st i = Some s -> nth_error (parts s) j = Some p ->
  exists s', nth_error (drift dt xmin xmax st) i = Some s' /\ charge s' = charge s /\ charge_to_mass s' = charge_to_mass s
    /\ length (parts s') = length (parts s) /\ nth_error (parts s') j = Some (drift_particle dt xmin xmax p).
Proof.
  intros Hs Hp. exists (on_parts (drift_particle dt xmin xmax) s). unfold drift. rewrite nth_error_map, Hs. cbn [option_map on_parts charge charge_to_mass parts]. repeat split.
  - now rewrite map_length.
  - now rewrite nth_error_map, Hp.
Qed.
Print Assumptions C38_drift_state.
Example C38_nonvacuous : px (drift_particle 1 0 10 {| px := 9; pv := 25; pw := 1 |}) = 4.
Proof. unfold drift_particle, fmod. cbn [px pv]. rewrite (floor_unique _ 3); lra. Qed.

(* ------------------------------------------------------------------------------------------------ *)
(** * C39: time reversibility. The Poisson solver and the driver are arbitrary functions. *)
Theorem C39_leapfrog_reversible (k : kicker) (xmin xmax dt t : R) (a : option (nat -> R)) (st : list species) :
  xmin < xmax -> (forall s p, In s st -> In p (parts s) -> xmin <= px p < xmax) ->
  leapfrog k xmin xmax (- dt) (t + dt) a (leapfrog k xmin xmax dt t a st) = st.
Proof. apply leapfrog_back. Qed.
Print Assumptions C39_leapfrog_reversible.
Theorem C39_yoshida_reversible (k : kicker) (xmin xmax dt t : R) (a : option (nat -> R)) (st : list species) :
  xmin < xmax -> (forall s p, In s st -> In p (parts s) -> xmin <= px p < xmax) ->
  yoshida4 k xmin xmax (- dt) (t + dt) a (yoshida4 k xmin xmax dt t a st) = st.
Proof. apply yoshida_back. Qed.
Print Assumptions C39_yoshida_reversible.
(** Any number of steps, then as many backwards. *)
Fixpoint run_steps (step : R -> R -> list species -> list species) (dt : R) (n : nat) (t : R) (st : list species) : list species :=
  match n with O => st | S m => step dt (t + INR m * dt) (run_steps step dt m t st) end.
Fixpoint run_back (step : R -> R -> list species -> list species) (dt : R) (n : nat) (t : R) (st : list species) : list species :=
  match n with O => st | S m => run_back step dt m t (step (- dt) (t + INR m * dt + dt) st) end.
Theorem C39_run_reversible (k : kicker) (xmin xmax dt t : R) (a : option (nat -> R)) (st : list species) (n : nat) (order4 : bool) :
  xmin < xmax -> (forall s p, In s st -> In p (parts s) -> xmin <= px p < xmax) ->
  let step := fun d t' st' => if order4 then yoshida4 k xmin xmax d t' a st' else leapfrog k xmin xmax d t' a st' in
  run_back step dt n t (run_steps step dt n t st) = st.
Proof.
  intros H Hi step. assert (I : forall m, inside xmin xmax (run_steps step dt m t st)).
  { intros [|m]; [exact Hi|]. cbn [run_steps]. unfold step at 1. destruct order4; [|now apply leapfrog_inside]. unfold yoshida4, yoshida_substeps. cbn [fold_left]. now apply leapfrog_inside. }
  induction n as [|n IH]; [reflexivity|]. cbn [run_steps run_back]. replace (step (- dt) (t + INR n * dt + dt) (step dt (t + INR n * dt) (run_steps step dt n t st))) with (run_steps step dt n t st); [exact IH|]. symmetry. specialize (I n). unfold step at 1 2. destruct order4; [now apply yoshida_back|now apply leapfrog_back].
Qed.
Print Assumptions C39_run_reversible.
(** The hypothesis on the positions is needed: a particle outside the box comes back inside. *)
Definition free_kicker : kicker := {| k_nx := 1; k_dx := 1; k_xmin := 0; k_shape := linear; poisson := fun _ _ => 0; driver := fun _ _ => 0 |}.
Theorem C39_outside_refuted : ~ forall (k : kicker) (xmin xmax dt t : R) (a : option (nat -> R)) (st : list species),
  xmin < xmax -> leapfrog k xmin xmax (- dt) (t + dt) a (leapfrog k xmin xmax dt t a st) = st.
Proof.
  intros H. specialize (H free_kicker 0 1 1 0 None [{| charge := 1; charge_to_mass := 1; parts := [{| px := 5; pv := 0; pw := 1 |}] |}] ltac:(lra)).
  assert (I := leapfrog_inside free_kicker 0 1 (- (1)) (0 + 1) None (leapfrog free_kicker 0 1 1 0 None [{| charge := 1; charge_to_mass := 1; parts := [{| px := 5; pv := 0; pw := 1 |}] |}]) ltac:(lra)).
  rewrite H in I. specialize (I _ _ (or_introl eq_refl) (or_introl eq_refl)). cbn [px] in I. lra.
Qed.
Print Assumptions C39_outside_refuted.

(* ------------------------------------------------------------------------------------------------ *)
(** * C40: the substeps of the 4th-order scheme *)
Theorem C40_substeps_sum (dt : R) : lsum (map snd (yoshida_substeps dt)) = dt.
Proof. unfold yoshida_substeps. cbn [map lsum snd]. pose proof (yoshida_sum dt). lra. Qed.
Print Assumptions C40_substeps_sum.
Theorem C40_substeps_cubes (dt : R) : lsum (map (fun e => snd e ^ 3) (yoshida_substeps dt)) = 0.
Proof. unfold yoshida_substeps. cbn [map lsum snd]. pose proof (yoshida_cubes dt). lra. Qed.
Print Assumptions C40_substeps_cubes.
(** The first substep starts at the step's start, every other one where the one before it ended. *)
Theorem C40_substeps_contiguous (dt : R) (i : nat) (e : R * R) : nth_error (yoshida_substeps dt) i = Some e ->
  fst e = lsum (map snd (firstn i (yoshida_substeps dt))).
Proof.
  unfold yoshida_substeps. destruct i as [|[|[|i]]]; cbn [nth_error firstn map lsum snd]; intros H; try (injection H as <-; cbn [fst]; lra). destruct i; discriminate.
Qed.
Print Assumptions C40_substeps_contiguous.
(** The scheme is symmetric and the middle substep goes backwards. *)
Theorem C40_substeps_symmetric (dt : R) : 0 < dt -> exists d1 d2, map snd (yoshida_substeps dt) = [d1; d2; d1] /\ dt < d1 /\ d2 < 0.
Proof.
  intros H. exists (yoshida_dt1 dt), (yoshida_dt2 dt). split; [reflexivity|]. pose proof cbrt2_bounds as B. unfold yoshida_dt2. assert (D : dt < yoshida_dt1 dt).
  { unfold yoshida_dt1. apply Rmult_lt_reg_r with (2 - cbrt2); [lra|]. replace (dt / (2 - cbrt2) * (2 - cbrt2)) with dt by (field; lra). nra. }
  split; [exact D|]. nra.
Qed.
Print Assumptions C40_substeps_symmetric.

(* ------------------------------------------------------------------------------------------------ *)
(** * C41: weights and momentum *)
(** Charges, charge-to-mass ratios and weights of all species, in order. *)
Definition invariants (st : list species) : list (R * R * list R) := map (fun s => (charge s, charge_to_mass s, map pw (parts s))) st.
Lemma kick_inv k dt t a st : invariants (kick k dt t a st) = invariants st.
Proof. unfold invariants, kick. rewrite map_map. apply map_ext. intros s. cbn [charge charge_to_mass parts on_parts]. rewrite map_map. reflexivity. Qed.
Lemma drift_inv dt xmin xmax st : invariants (drift dt xmin xmax st) = invariants st.
Proof. unfold invariants, drift. rewrite map_map. apply map_ext. intros s. cbn [charge charge_to_mass parts on_parts]. rewrite map_map. reflexivity. Qed.
Lemma leapfrog_inv k xmin xmax dt t a st : invariants (leapfrog k xmin xmax dt t a st) = invariants st.
Proof. unfold leapfrog. now rewrite kick_inv, drift_inv, kick_inv. Qed.
Theorem C41_weights_constant (k : kicker) (xmin xmax dt t : R) (a : option (nat -> R)) (st : list species) :
  invariants (leapfrog k xmin xmax dt t a st) = invariants st /\ invariants (yoshida4 k xmin xmax dt t a st) = invariants st.
Proof. split; [apply leapfrog_inv|]. unfold yoshida4, yoshida_substeps. cbn [fold_left]. now rewrite !leapfrog_inv. Qed.
Print Assumptions C41_weights_constant.

Lemma lsum_kick_one k E a qm dt (ps : list particle) :
  lsum (map (fun p => pw p * pv p) (map (kick_particle k E a qm dt) ps)) = lsum (map (fun p => pw p * pv p) ps) + dt * lsum (map (fun p => pw p * acceleration k E a qm (px p)) ps).
Proof. induction ps as [|p ps IH]; cbn [map lsum]; [ring|]. rewrite IH. cbn [kick_particle pw pv]. ring. Qed.
Definition pond_of (k : kicker) (a : option (nat -> R)) (g : nat) : R := match a with Some av => pond_grid k av g | None => 0 end.
Lemma accel_sum k E a qm ps : (0 < k_nx k)%nat -> k_dx k <> 0 ->
  lsum (map (fun p => pw p * acceleration k E a qm (px p)) ps) = k_dx k * rsum (k_nx k) (fun g => qm * (E g + qm * pond_of k a g) * deposit (k_shape k) ps (k_nx k) (k_dx k) (k_xmin k) g).
Proof.
  intros Hn Hd. rewrite (rsum_ext (k_nx k) _ (fun g => qm * (E g * deposit (k_shape k) ps (k_nx k) (k_dx k) (k_xmin k) g) + qm * qm * (pond_of k a g * deposit (k_shape k) ps (k_nx k) (k_dx k) (k_xmin k) g))) by (intros; ring).
  rewrite rsum_plus, !rsum_scal, Rmult_plus_distr_l.
  replace (k_dx k * (qm * rsum (k_nx k) (fun i => E i * deposit (k_shape k) ps (k_nx k) (k_dx k) (k_xmin k) i))) with (qm * (k_dx k * rsum (k_nx k) (fun i => E i * deposit (k_shape k) ps (k_nx k) (k_dx k) (k_xmin k) i))) by ring.
  replace (k_dx k * (qm * qm * rsum (k_nx k) (fun i => pond_of k a i * deposit (k_shape k) ps (k_nx k) (k_dx k) (k_xmin k) i))) with (qm * qm * (k_dx k * rsum (k_nx k) (fun i => pond_of k a i * deposit (k_shape k) ps (k_nx k) (k_dx k) (k_xmin k) i))) by ring.
  rewrite !adjoint by assumption. rewrite <- !lsum_scal, <- lsum_plus. apply lsum_ext. intros p _. unfold acceleration. destruct a as [r|]; [change (pond_of k (Some r)) with (pond_grid k r); ring|]. change (pond_of k None) with (fun _ : nat => 0). rewrite (gather_const (k_shape k) 0). ring.
Qed.
Lemma momentum_kick ms k E a dt st : (0 < k_nx k)%nat -> k_dx k <> 0 -> masses_fit ms st ->
  momentum ms (map (fun s => on_parts (kick_particle k E a (charge_to_mass s) dt) s) st) = momentum ms st
  + dt * (k_dx k * rsum (k_nx k) (fun g => charge_density (k_shape k) st (k_nx k) (k_dx k) (k_xmin k) g * E g
      + lsum (map (fun s => charge s * charge_to_mass s * deposit (k_shape k) (parts s) (k_nx k) (k_dx k) (k_xmin k) g) st) * pond_of k a g)).
Proof.
  intros Hn Hd H. induction H as [|m s ms st Hms H IH].
  - cbn [map momentum charge_density lsum]. rewrite (rsum_ext (k_nx k) _ (fun _ => 0)) by (intros; unfold charge_density; cbn; ring). rewrite rsum_zero. ring.
  - cbn [map momentum]. rewrite IH. unfold momentum_of at 1. cbn [parts on_parts]. rewrite lsum_kick_one, accel_sum by assumption. unfold momentum_of at 1.
    rewrite (rsum_ext (k_nx k) (fun g => charge_density (k_shape k) (s :: st) (k_nx k) (k_dx k) (k_xmin k) g * E g + _) (fun g => m * (charge_to_mass s * (E g + charge_to_mass s * pond_of k a g) * deposit (k_shape k) (parts s) (k_nx k) (k_dx k) (k_xmin k) g) +
      (charge_density (k_shape k) st (k_nx k) (k_dx k) (k_xmin k) g * E g + lsum (map (fun s => charge s * charge_to_mass s * deposit (k_shape k) (parts s) (k_nx k) (k_dx k) (k_xmin k) g) st) * pond_of k a g))).
    2:{ intros g _. unfold charge_density. cbn [map lsum]. rewrite Hms. ring. }
    set (A := fun g : nat => charge_to_mass s * (E g + charge_to_mass s * pond_of k a g) * deposit (k_shape k) (parts s) (k_nx k) (k_dx k) (k_xmin k) g).
    set (B := fun g : nat => charge_density (k_shape k) st (k_nx k) (k_dx k) (k_xmin k) g * E g + _).
    pose proof (rsum_plus (k_nx k) (fun g => m * A g) B) as P. pose proof (rsum_scal (k_nx k) m A) as Q. unfold A at 1, B at 1 in P. rewrite P, Q. ring.
Qed.
(** The change of total momentum in a kick: dt times the grid integral of charge density times field, plus, with a
    vector potential, that of the species' (charge * charge-to-mass) densities times the ponderomotive force. *)
Theorem C41_kick_momentum (ms : list R) (k : kicker) (dt t : R) (a : option (nat -> R)) (st : list species) :
  (0 < k_nx k)%nat -> k_dx k <> 0 -> masses_fit ms st ->
  momentum ms (kick k dt t a st) - momentum ms st =
    dt * (k_dx k * rsum (k_nx k) (fun g => charge_density (k_shape k) st (k_nx k) (k_dx k) (k_xmin k) g * e_total k st t g
      + lsum (map (fun s => charge s * charge_to_mass s * deposit (k_shape k) (parts s) (k_nx k) (k_dx k) (k_xmin k) g) st)
        * match a with Some av => - (1 / 2) * ((av (g + 2)%nat ^ 2 - av g ^ 2) / (2 * k_dx k)) | None => 0 end)).
Proof. intros Hn Hd H. unfold kick. rewrite momentum_kick by assumption. unfold pond_of, pond_grid. destruct a; ring. Qed.
Print Assumptions C41_kick_momentum.
Lemma momentum_drift ms dt xmin xmax st : momentum ms (drift dt xmin xmax st) = momentum ms st.
Proof.
  revert st. induction ms as [|m ms IH]; intros [|s st]; try reflexivity. unfold drift. cbn [map momentum]. f_equal; [|apply IH]. unfold momentum_of. f_equal. cbn [parts on_parts]. rewrite map_map. reflexivity.
Qed.
Theorem C41_drift_momentum (ms : list R) (dt xmin xmax : R) (st : list species) : momentum ms (drift dt xmin xmax st) = momentum ms st.
Proof. apply momentum_drift. Qed.
Print Assumptions C41_drift_momentum.

(** The solver's own field: the spectral Poisson solve. *)
Definition spectral_kicker (sh : shape) (nx : nat) (dx xmin : R) (static : option (nat -> R)) (drv : R -> nat -> R) : kicker :=
  {| k_nx := nx; k_dx := dx; k_xmin := xmin; k_shape := sh; poisson := spectral_poisson nx dx static; driver := drv |}.
Definition uniform (static : option (nat -> R)) : Prop := match static with Some s => exists c, forall g, s g = c | None => True end.
Lemma self_force_zero n dx static rho : (0 < n)%nat -> uniform static -> rsum n (fun g => rho g * spectral_poisson n dx static rho g) = 0.
Proof.
  intros Hn Hu. pose proof (poisson_self_force n dx static rho) as H. destruct static as [s|]; [|exact H]. destruct Hu as (c & Hc). cbn [total_charge] in H.
  rewrite (rsum_ext n _ (fun g => rho g * spectral_poisson n dx (Some s) rho g + c * spectral_poisson n dx (Some s) rho g)) in H by (intros g _; rewrite Hc; ring).
  rewrite rsum_plus, rsum_scal, poisson_mean in H by exact Hn. lra.
Qed.
(** Without driver and laser, over any number of steps of either scheme, with any shape, total momentum is exactly
    conserved when there is no static background or a uniform one. *)
Lemma leapfrog_masses ms k xmin xmax dt t a st : masses_fit ms st -> masses_fit ms (leapfrog k xmin xmax dt t a st).
Proof.
  assert (M : forall h, (forall s, charge (h s) = charge s /\ charge_to_mass (h s) = charge_to_mass s) -> forall ms st, masses_fit ms st -> masses_fit ms (map h st)).
  { intros h Hh ms' st' F. induction F as [|m s ms' st' Hm F IH]; constructor; [|exact IH]. destruct (Hh s) as [-> ->]. exact Hm. }
  intros H. unfold leapfrog, kick, drift. repeat (apply M; [intros; now split|]). exact H.
Qed.
Lemma leapfrog_momentum ms sh nx dx xmin0 static xmin xmax dt t st : (0 < nx)%nat -> dx <> 0 -> uniform static -> masses_fit ms st ->
  momentum ms (leapfrog (spectral_kicker sh nx dx xmin0 static (fun _ _ => 0)) xmin xmax dt t None st) = momentum ms st.
Proof.
  intros Hn Hd Hu Hm. set (k := spectral_kicker _ _ _ _ _ _).
  assert (K : forall d t' st', masses_fit ms st' -> momentum ms (kick k d t' None st') = momentum ms st').
  { intros d t' st' Hm'. pose proof (C41_kick_momentum ms k d t' None st' Hn Hd Hm') as E. cbn [k k_nx k_dx k_xmin k_shape spectral_kicker] in E.
    rewrite (rsum_ext nx _ (fun g => charge_density sh st' nx dx xmin0 g * spectral_poisson nx dx static (charge_density sh st' nx dx xmin0) g)) in E.
    2:{ intros g _. unfold e_total, field_sc, k, spectral_kicker. cbn. ring. }
    rewrite self_force_zero in E by assumption. lra. }
  unfold leapfrog. rewrite K, momentum_drift, K; [reflexivity|exact Hm|].
  assert (M : forall h, (forall s, charge (h s) = charge s /\ charge_to_mass (h s) = charge_to_mass s) -> forall ms st, masses_fit ms st -> masses_fit ms (map h st)).
  { intros h Hh ms' st' F. induction F as [|m s ms' st' Hm' F IH]; constructor; [|exact IH]. destruct (Hh s) as [-> ->]. exact Hm'. }
  unfold kick, drift. repeat (apply M; [intros; now split|]). exact Hm.
Qed.
Theorem C41_momentum_conserved (ms : list R) (sh : shape) (nx : nat) (dx xmin0 : R) (static : option (nat -> R)) (xmin xmax dt t : R) (st : list species) (n : nat) (order4 : bool) :
  (0 < nx)%nat -> dx <> 0 -> match static with Some s => exists c, forall g, s g = c | None => True end -> masses_fit ms st ->
  let k := spectral_kicker sh nx dx xmin0 static (fun _ _ => 0) in
  let step := fun d t' st' => if order4 then yoshida4 k xmin xmax d t' None st' else leapfrog k xmin xmax d t' None st' in
  momentum ms (run_steps step dt n t st) = momentum ms st.
Proof.
  intros Hn Hd Hu Hm k step. assert (G : masses_fit ms (run_steps step dt n t st) /\ momentum ms (run_steps step dt n t st) = momentum ms st); [|apply G].
  induction n as [|n [IH1 IH2]]; [now split|]. cbn [run_steps]. unfold step at 1 3. destruct order4.
  - unfold yoshida4, yoshida_substeps. cbn [fold_left]. split; [now repeat apply leapfrog_masses|]. unfold k. rewrite !leapfrog_momentum; try assumption; now repeat apply leapfrog_masses.
  - split; [now apply leapfrog_masses|]. unfold k. now rewrite leapfrog_momentum.
Qed.
Print Assumptions C41_momentum_conserved.
(** Two particles of unequal charge in an empty box: the hypotheses hold and the momentum is not trivially zero. *)
Example C41_nonvacuous : let st := [{| charge := -1; charge_to_mass := -1; parts := [{| px := 1; pv := 3; pw := 1 |}] |}; {| charge := 1; charge_to_mass := 1 / 2; parts := [{| px := 2; pv := 1; pw := 1 |}] |}] in
  masses_fit [1; 2] st /\ momentum [1; 2] st = 5 /\ (forall s p, In s st -> In p (parts s) -> 0 <= px p < 4).
Proof.
  cbv zeta. split; [repeat constructor; cbn [charge charge_to_mass]; lra|]. split; [unfold momentum, momentum_of; cbn [parts map lsum pw pv]; lra|]. intros s p [<-|[<-|[]]] [<-|[]]; cbn [px]; lra.
Qed.
(** With a non-uniform static background momentum need not be conserved: a charge near a fixed one is pushed. *)
Theorem C41_background_refuted : ~ forall (ms : list R) (sh : shape) (nx : nat) (dx xmin0 : R) (static : option (nat -> R)) (dt t : R) (st : list species),
  (0 < nx)%nat -> dx <> 0 -> masses_fit ms st ->
  momentum ms (kick (spectral_kicker sh nx dx xmin0 static (fun _ _ => 0)) dt t None st) = momentum ms st.
Proof.
  intros H.
  set (st := [{| charge := 1; charge_to_mass := 1; parts := [{| px := 1 / 2; pv := 0; pw := 1 |}] |}]).
  assert (Hm : masses_fit [1] st) by (repeat constructor; cbn; lra).
  set (S := fun h : nat => 1 * cos (angle 3 1 h + - (PI / 2))).
  specialize (H [1] linear 3%nat 1 0 (Some S) 1 0 st ltac:(lia) ltac:(lra) Hm).
  pose proof (C41_kick_momentum [1] (spectral_kicker linear 3 1 0 (Some S) (fun _ _ => 0)) 1 0 None st ltac:(cbn; lia) ltac:(cbn; lra) Hm) as K. rewrite H in K. cbn [k_nx k_dx k_xmin k_shape spectral_kicker] in K.
  set (rho := charge_density linear st 3 1 0) in *.
  rewrite (rsum_ext 3 _ (fun g => rho g * spectral_poisson 3 1 (Some S) rho g)) in K by (intros; unfold e_total, field_sc; cbn [poisson driver spectral_kicker k_nx k_dx k_xmin k_shape]; fold rho; ring).
  assert (R : forall g, rho g = if Nat.eqb 0 g then 1 else 0).
  { intros g. unfold rho, charge_density, deposit, scatter, stencil. cbn [map lsum parts st charge px pw]. unfold s_real. rewrite (floor_unique _ 0) by lra. change (wrap 3 0) with 0%nat. change (wrap 3 (0 + 1)) with 1%nat. cbn [map lsum fst snd]. destruct (Nat.eqb 0 g), (Nat.eqb 1 g); field. }
  rewrite (rsum_ext 3 _ (fun g => rho g * (1 * spectral_poisson 3 1 None rho g + 1 * spectral_poisson 3 1 None S g))) in K.
  2:{ intros g _. f_equal. rewrite <- poisson_linear. unfold spectral_poisson. do 2 f_equal. apply FunctionalExtensionality.functional_extensionality. intros i. do 2 f_equal. apply FunctionalExtensionality.functional_extensionality. intros h. ring. }
  rewrite (rsum_ext 3 _ (fun g => rho g * spectral_poisson 3 1 None rho g + rho g * spectral_poisson 3 1 None S g)) in K by (intros; ring).
  rewrite rsum_plus in K. rewrite (self_force_zero 3 1 None rho ltac:(lia) I) in K. cbn [rsum] in K. rewrite !R in K. cbn [Nat.eqb] in K.
  assert (E : spectral_poisson 3 1 None S 0 = - (3 / (2 * PI))).
  { unfold S. rewrite poisson_mode by (try lra; lia).
    unfold kx, angle. cbn [Nat.mul Nat.add Nat.ltb Nat.leb INR]. pose proof PI_RGT_0. replace (2 * PI * 1 * 0 / (1 + 1 + 1) + - (PI / 2)) with (- (PI / 2)) by field. rewrite sin_neg, sin_PI2. field. lra. }
  rewrite E in K. pose proof PI_RGT_0 as P. assert (0 < 3 / (2 * PI)) by (apply Rdiv_lt_0_compat; lra). lra.
Qed.
Print Assumptions C41_background_refuted.

(* ------------------------------------------------------------------------------------------------ *)
(** * C53: the spectral Poisson solve. The total charge is the argument plus the static background, if any. *)
Definition with_background (static : option (nat -> R)) (rho : nat -> R) (g : nat) : R := match static with Some s => rho g + s g | None => rho g end.
Lemma wb static rho g : with_background static rho g = total_charge static rho g.
Proof. now destruct static. Qed.
Theorem C53_zero_mean (n : nat) (dx : R) (static : option (nat -> R)) (rho : nat -> R) : (0 < n)%nat -> rsum n (spectral_poisson n dx static rho) = 0.
Proof. apply poisson_mean. Qed.
Print Assumptions C53_zero_mean.
Theorem C53_no_self_force (n : nat) (dx : R) (static : option (nat -> R)) (rho : nat -> R) :
  rsum n (fun g => with_background static rho g * spectral_poisson n dx static rho g) = 0.
Proof. rewrite (rsum_ext n _ (fun g => total_charge static rho g * spectral_poisson n dx static rho g)) by (intros; now rewrite wb). apply poisson_self_force. Qed.
Print Assumptions C53_no_self_force.
(** Gauss's law, dE/dx = rho, wave by wave: the projection of E on cos(k x + psi), times k, is that of rho on
    -sin(k x + psi), for every phase psi and every resolved wavenumber k = 2 pi m / (n dx). *)
Theorem C53_gauss (n : nat) (dx : R) (static : option (nat -> R)) (rho : nat -> R) (m : nat) (psi : R) :
  dx <> 0 -> (0 < m)%nat -> (2 * m < n)%nat ->
  2 * PI * INR m / (INR n * dx) * rsum n (fun g => spectral_poisson n dx static rho g * cos (2 * PI * INR m * INR g / INR n + psi))
  = - rsum n (fun g => with_background static rho g * sin (2 * PI * INR m * INR g / INR n + psi)).
Proof.
  intros Hd Hm H2. pose proof (gauss_phase n dx static rho m psi Hd ltac:(lia) ltac:(lia)) as G. unfold kx in G. rewrite (proj2 (Nat.ltb_lt (2 * m) n) H2) in G.
  rewrite (rsum_ext n (fun g => with_background static rho g * _) (fun h => total_charge static rho h * sin (angle n m h + psi))) by (intros; now rewrite wb). rewrite <- G. unfold angle. unfold Rdiv. ring.
Qed.
Print Assumptions C53_gauss.
(** A wave is solved exactly: rho = A cos(k x + phi) gives E = (A / k) sin(k x + phi); and the solver is linear. *)
Theorem C53_single_wave (n : nat) (dx : R) (m : nat) (A phi : R) (g : nat) :
  dx <> 0 -> (0 < m)%nat -> (2 * m < n)%nat ->
  spectral_poisson n dx None (fun h => A * cos (2 * PI * INR m * INR h / INR n + phi)) g = A / (2 * PI * INR m / (INR n * dx)) * sin (2 * PI * INR m * INR g / INR n + phi).
Proof.
  intros Hd Hm H2. pose proof (poisson_mode n dx m A phi g Hd Hm H2) as K. unfold angle in K at 1 2. rewrite K. f_equal. f_equal. unfold kx. rewrite (proj2 (Nat.ltb_lt (2 * m) n) H2). unfold Rdiv. ring.
Qed.
Print Assumptions C53_single_wave.
Theorem C53_linear (n : nat) (dx a b : R) (r1 r2 : nat -> R) (g : nat) :
  spectral_poisson n dx None (fun h => a * r1 h + b * r2 h) g = a * spectral_poisson n dx None r1 g + b * spectral_poisson n dx None r2 g.
Proof. apply poisson_linear. Qed.
Print Assumptions C53_linear.
(** Only the mean of the charge and, on an even grid, the shortest wave are not represented. *)
Theorem C53_mean_ignored (n : nat) (dx c : R) (rho : nat -> R) (g : nat) : (0 < n)%nat ->
  spectral_poisson n dx (Some (fun _ => c)) rho g = spectral_poisson n dx None rho g.
Proof.
  intros Hn. assert (E : spectral_poisson n dx (Some (fun _ => c)) rho g = spectral_poisson n dx None (fun h => 1 * rho h + 1 * c) g).
  { rewrite !poisson_formula. f_equal. apply rsum_ext. intros k _. f_equal. apply rsum_ext. intros h _. cbn [total_charge]. ring. }
  rewrite E, poisson_linear, poisson_const by exact Hn. ring.
Qed.
Print Assumptions C53_mean_ignored.
Theorem C53_nyquist_dropped (n : nat) (dx : R) (static : option (nat -> R)) (rho : nat -> R) (m : nat) :
  (0 < m)%nat -> (2 * m = n)%nat -> rsum n (fun g => spectral_poisson n dx static rho g * cos (PI * INR g)) = 0.
Proof.
  intros Hm H2. pose proof (poisson_nyquist n dx static rho m Hm H2) as H. apply (f_equal fst) in H. rewrite fft_fst in H. cbn [fst c0] in H. rewrite <- H. apply rsum_ext. intros g _. do 2 f_equal.
  unfold angle. rewrite <- H2, mult_INR. cbn [INR]. field. apply not_0_INR. lia.
Qed.
Print Assumptions C53_nyquist_dropped.
Example C53_nonvacuous : spectral_poisson 4 1 None (fun h => 1 * cos (2 * PI * INR 1 * INR h / INR 4 + 0)) 1 = 2 / PI.
Proof.
  rewrite C53_single_wave by (try lra; lia). replace (2 * PI * INR 1 * INR 1 / INR 4 + 0) with (PI / 2) by (cbn; field). rewrite sin_PI2. pose proof PI_RGT_0. cbn. field. lra.
Qed.
