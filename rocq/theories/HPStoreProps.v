(** C112: what the 1D Hermite-Poisson module saves. *)
From Verif Require Import HPStore.
From Verif Require Import Pic RSum Dft HPForceProps HLInitProps5.
From Coq Require Import List.
Local Open Scope R_scope.

(** ** The scalar diagnostics *)
Lemma amax_spec n f : (forall i, (i <= n)%nat -> f i <= amax n f) /\ exists i, (i <= n)%nat /\ amax n f = f i.
Proof.
  induction n as [|n [A (j & Hj & E)]]; cbn [amax]; [split; [intros i Hi; replace i with 0%nat by lia; lra|exists 0%nat; auto]|]. split.
  - intros i Hi. destruct (Nat.eq_dec i (Datatypes.S n)) as [->|N]; [apply Rmax_r|]. eapply Rle_trans; [apply A; lia|apply Rmax_l].
  - unfold Rmax. destruct (Rle_dec _ _); [exists (Datatypes.S n); auto|exists j; split; [lia|exact E]].
Qed.
Lemma amin_spec n f : (forall i, (i <= n)%nat -> amin n f <= f i) /\ exists i, (i <= n)%nat /\ amin n f = f i.
Proof.
  induction n as [|n [A (j & Hj & E)]]; cbn [amin]; [split; [intros i Hi; replace i with 0%nat by lia; lra|exists 0%nat; auto]|]. split.
  - intros i Hi. destruct (Nat.eq_dec i (Datatypes.S n)) as [->|N]; [apply Rmin_r|]. eapply Rle_trans; [apply Rmin_l|apply A; lia].
  - unfold Rmin. destruct (Rle_dec _ _); [exists j; split; [lia|exact E]|exists (Datatypes.S n); auto].
Qed.
Lemma jmax_spec n f : (0 < n)%nat -> (forall i, (i < n)%nat -> f i <= jmax n f) /\ exists i, (i < n)%nat /\ jmax n f = f i.
Proof. intros H. destruct (amax_spec (n - 1) f) as [A (j & Hj & E)]. split; [intros i Hi; apply A; lia|exists j; split; [lia|exact E]]. Qed.
Lemma jmin_spec n f : (0 < n)%nat -> (forall i, (i < n)%nat -> jmin n f <= f i) /\ exists i, (i < n)%nat /\ jmin n f = f i.
Proof. intros H. destruct (amin_spec (n - 1) f) as [A (j & Hj & E)]. split; [intros i Hi; apply A; lia|exists j; split; [lia|exact E]]. Qed.
Lemma cmod_bounds (z : cplx) : Rabs (fst z) <= cmod z.
Proof. unfold cmod. rewrite <- sqrt_Rsqr_abs. apply sqrt_le_1_alt. unfold cabs2, Rsqr. pose proof (Rle_0_sqr (snd z)) as P. unfold Rsqr in P. lra. Qed.
(** The mean of the saved density is alpha^3 Re C_0 at wavenumber zero, whatever the other coefficients. *)
Lemma density_mean nx alpha C : (0 < nx)%nat -> rsum nx (density_of nx alpha C) = INR nx * (alpha ^ 3 * fst (C 0%nat 0%nat)).
Proof.
  intros H. assert (Nn : INR nx <> 0) by (apply not_0_INR; lia). pose proof (ffwd_finv nx (C 0%nat) 0 H) as E. unfold ffwd in E.
  assert (F : fst (cfft nx (finv nx (C 0%nat)) 0%nat) = rsum nx (fun g => fst (finv nx (C 0%nat) g))).
  { unfold cfft. rewrite PicFourier.csum_fst. apply rsum_ext. intros g _. assert (Z : angle nx 0 g = 0) by (unfold angle; change (INR 0) with 0; unfold Rdiv; ring).
    rewrite Z, Ropp_0. unfold cis, cmul. cbn [fst snd]. rewrite cos_0, sin_0. ring. }
  assert (G : / INR nx * rsum nx (fun g => fst (finv nx (C 0%nat) g)) = fst (C 0%nat 0%nat)) by (rewrite <- F, <- E; reflexivity).
  unfold density_of. rewrite rsum_scal. rewrite <- G. field. exact Nn.
Qed.
(** Energies are not negative and vanish exactly with the field on the grid; the density extrema are those of the density the
    solver uses and enclose its mean alpha^3 Re C_0(k=0); Ck_e_max bounds every coefficient and is reached. *)
Theorem C112_diagnostics : forall Nn nx ae ai y, (0 < Nn)%nat -> (0 < nx)%nat -> let d := default_saved Nn nx ae ai y in
  0 <= dg_e d /\ (dg_e d = 0 <-> forall g, (g < nx)%nat -> q_e y g = 0) /\ 0 <= dg_a d /\ (dg_a d = 0 <-> forall g, (1 <= g <= nx)%nat -> q_a y g = 0) /\
  (forall g, (g < nx)%nat -> dg_ne_min d <= density_of nx ae (q_Ce y) g <= dg_ne_max d /\ density_of nx ai (q_Ci y) g <= dg_ni_max d) /\
  (exists g h k, (g < nx)%nat /\ (h < nx)%nat /\ (k < nx)%nat /\ dg_ne_min d = density_of nx ae (q_Ce y) g /\ dg_ne_max d = density_of nx ae (q_Ce y) h /\ dg_ni_max d = density_of nx ai (q_Ci y) k) /\
  dg_ne_min d <= ae ^ 3 * fst (q_Ce y 0%nat 0%nat) <= dg_ne_max d /\
  (forall n k, (n < Nn)%nat -> (k < nx)%nat -> cmod (q_Ce y n k) <= dg_ck d) /\ exists n k, (n < Nn)%nat /\ (k < nx)%nat /\ dg_ck d = cmod (q_Ce y n k).
Proof.
  intros Nn nx ae ai y HN Hx d. unfold d, default_saved. cbn [dg_e dg_a dg_ne_max dg_ne_min dg_ni_max dg_ck]. fold (density_of nx ae (q_Ce y)). fold (density_of nx ai (q_Ci y)).
  assert (SQ : forall f : nat -> R, 0 <= rsum nx (fun g => f g ^ 2) /\ (rsum nx (fun g => f g ^ 2) = 0 <-> forall g, (g < nx)%nat -> f g = 0)).
  { intros f. assert (P : forall g, (g < nx)%nat -> 0 <= f g ^ 2) by (intros; apply pow2_ge_0). split; [apply rsum_nonneg, P|]. split.
    - intros Z g Hg. pose proof (rsum_nonneg_zero nx _ P Z g Hg) as Q. cbv beta in Q. replace (f g ^ 2) with (f g * f g) in Q by ring. apply Rmult_integral in Q. tauto.
    - intros Z. rewrite (rsum_ext nx _ (fun _ => 0)); [apply rsum_zero|]. intros g Hg. rewrite Z by exact Hg. ring. }
  destruct (SQ (q_e y)) as [E1 E2]. destruct (SQ (inner_cells (q_a y))) as [A1 A2].
  destruct (jmin_spec nx (density_of nx ae (q_Ce y)) Hx) as [M1 (g & Hg & Eg)]. destruct (jmax_spec nx (density_of nx ae (q_Ce y)) Hx) as [X1 (h & Hh & Eh)]. destruct (jmax_spec nx (density_of nx ai (q_Ci y)) Hx) as [I1 (k & Hk & Ek)].
  split; [exact E1|]. split; [exact E2|]. split; [exact A1|]. split.
  { rewrite A2. unfold inner_cells. split; intros Z i Hi; [specialize (Z (i - 1)%nat ltac:(lia)); replace (i - 1 + 1)%nat with i in Z by lia; exact Z|apply Z; lia]. }
  split; [intros i Hi; split; [split; auto|auto]|]. split; [exists g, h, k; tauto|]. split.
  - assert (P : 0 < INR nx) by (apply lt_0_INR; lia). pose proof (density_mean nx ae (q_Ce y) Hx) as D. split; apply Rmult_le_reg_l with (INR nx); try exact P; rewrite <- D, <- rsum_const; apply rsum_le; auto.
  - destruct (jmax_spec Nn (fun n => jmax nx (fun k => cmod (q_Ce y n k))) HN) as [J1 (n & Hn & En)]. split.
    + intros n' k' Hn' Hk'. eapply Rle_trans; [|apply J1, Hn']. cbv beta. now apply (jmax_spec nx (fun k => cmod (q_Ce y n' k)) Hx).
    + destruct (jmax_spec nx (fun k => cmod (q_Ce y n k)) Hx) as [_ (k' & Hk' & Ek')]. exists n, k'. rewrite En, Ek'. auto.
Qed.
Print Assumptions C112_diagnostics.
(** The saved fields are the state's without the two boundary cells of the potential and its driver; the saved energies are the sums
    of the squares of the saved fields. *)
Theorem C112_fields : forall Nn nx ae ai y e a da de, fields_saved y = (e, a, da, de) ->
  (forall g, e g = q_e y g /\ a g = q_a y (g + 1)%nat /\ da g = q_da y (g + 1)%nat) /\ de = q_de y /\
  dg_e (default_saved Nn nx ae ai y) = rsum nx (fun g => e g ^ 2) /\ dg_a (default_saved Nn nx ae ai y) = rsum nx (fun g => a g ^ 2).
Proof. intros Nn nx ae ai y e a da de H. injection H as <- <- <- <-. repeat split. Qed.
Print Assumptions C112_fields.
Definition rest (nx : nat) (c : R) : hp_state := {| q_Ce := fun n k => if ((n =? 0) && (k =? 0))%nat then (1, 0) else c0; q_Ci := fun _ _ => c0; q_e := fun _ => c; q_a := fun _ => 0; q_da := fun _ => 0; q_de := None |}.
Example diagnostics_example : dg_e (default_saved 2 3 1 1 (rest 3 2)) = 12 /\ dg_ne_min (default_saved 2 3 1 1 (rest 3 2)) <= 1 <= dg_ne_max (default_saved 2 3 1 1 (rest 3 2)).
Proof.
  split; [cbn; ring|]. destruct (C112_diagnostics 2 3 1 1 (rest 3 2) ltac:(lia) ltac:(lia)) as (_ & _ & _ & _ & _ & _ & M & _). 
  assert (V : 1 ^ 3 * fst (q_Ce (rest 3 2) 0%nat 0%nat) = 1) by (cbn; ring). rewrite V in M. exact M.
Qed.
(** Refuted: e_energy is the energy of the field (it is a bare sum: the same uniform field on twice as many cells counts twice). *)
Theorem C112_energy_refuted : forall c, c <> 0 -> dg_e (default_saved 2 8 1 1 (rest 8 c)) = 2 * dg_e (default_saved 2 4 1 1 (rest 4 c)) /\ dg_e (default_saved 2 8 1 1 (rest 8 c)) <> dg_e (default_saved 2 4 1 1 (rest 4 c)).
Proof.
  intros c H. assert (E : forall n, dg_e (default_saved 2 n 1 1 (rest n c)) = INR n * c ^ 2) by (intros n; unfold default_saved; cbn [dg_e rest q_e]; apply rsum_const).
  rewrite !E. cbn [INR]. pose proof (pow_nonzero c 2 H). split; [ring|]. intros Z. apply H0. lra.
Qed.
Print Assumptions C112_energy_refuted.

(** ** The blocks *)
Lemma dget_dset {V} k k' (v : V) d : dget k (dset k' v d) = if str_eqb k k' then Some v else dget k d.
Proof.
  induction d as [|[k2 v2] d IH]; cbn; [reflexivity|]. destruct (str_eqb k' k2) eqn:E.
  - apply str_eqb_eq in E. subst k2. cbn. destruct (str_eqb k k'); reflexivity.
  - cbn. rewrite IH. destruct (str_eqb k k2) eqn:E2; [|reflexivity]. destruct (str_eqb k k') eqn:E3; [|reflexivity]. apply str_eqb_eq in E2, E3. subst. rewrite str_eqb_refl in E. discriminate.
Qed.
Lemma dget_prepare k tmax nt save : dget k (map (prepare tmax nt) save) = option_map (fun b => snd (prepare tmax nt (k, b))) (dget k save).
Proof. induction save as [|[k' b] l IH]; cbn; [reflexivity|]. destruct (str_eqb k k') eqn:E; [apply str_eqb_eq in E; subst; reflexivity|exact IH]. Qed.
(** Every block but "default" keeps its place: its own function wins, else "fields" and "hermite"/"distribution" get theirs, other
    names none; its own time axis wins, else it runs from tmin (0) to tmax (the end of the run) with nt points (the steps). *)
Theorem C112_blocks : forall tmax nt save k, k <> lit "default" ->
  dget k (save_quantities tmax nt save) = option_map (fun b =>
    {| b_t := match b_t b with
              | Some t => Some {| t_ax := Some (match t_ax t with Some a => a | None => linspace_list (or_else (t_min t) 0) (or_else (t_max t) tmax) (or_else (t_nt t) nt) end); t_min := t_min t; t_max := t_max t; t_nt := t_nt t |}
              | None => None end;
       b_func := match b_func b with Some u => Some u | None => if str_eqb k (lit "fields") then Some FieldsFunc else if str_eqb k (lit "hermite") then Some HermiteFunc else if str_eqb k (lit "distribution") then Some HermiteFunc else None end |}) (dget k save).
Proof.
  intros tmax nt save k H. unfold save_quantities. cbv zeta. rewrite dget_dset. apply str_eqb_neq in H. rewrite H, dget_prepare. destruct (dget k save) as [[t f]|]; [|reflexivity]. cbn [option_map prepare snd fst b_t b_func]. f_equal. f_equal.
  - destruct t as [[[a|] mn mx n]|]; reflexivity.
  - unfold set_func. destruct f; [reflexivity|]. destruct (str_eqb k (lit "fields")), (str_eqb k (lit "hermite")), (str_eqb k (lit "distribution")); reflexivity.
Qed.
Print Assumptions C112_blocks.
(** The scalar diagnostics are always saved, over the whole run unless the block says when; added last when not asked for. *)
Theorem C112_default : forall tmax nt save,
  (exists b, dget (lit "default") (save_quantities tmax nt save) = Some b /\ b_func b = Some DefaultFunc /\ exists t a, b_t b = Some t /\ t_ax t = Some a /\
    a = match dget (lit "default") save with
        | Some {| b_t := Some t |} => match t_ax t with Some a => a | None => linspace_list (or_else (t_min t) 0) (or_else (t_max t) tmax) (or_else (t_nt t) nt) end
        | _ => linspace_list 0 tmax nt end) /\
  map fst (save_quantities tmax nt save) = map fst save ++ (if existsb (str_eqb (lit "default")) (map fst save) then [] else [lit "default"]).
Proof.
  intros tmax nt save. split.
  - unfold save_quantities. cbv zeta. rewrite dget_dset, str_eqb_refl, dget_prepare. eexists. split; [reflexivity|]. split; [reflexivity|].
    destruct (dget (lit "default") save) as [[[[[a|] mn mx n]|] f]|]; cbn; eexists _, _; repeat split; reflexivity.
  - unfold save_quantities. cbv zeta. generalize (default_block tmax nt (dget (lit "default") (map (prepare tmax nt) save))) as v. intros v. induction save as [|[k b] l IH]; [reflexivity|].
    cbn [map dset prepare fst existsb]. change (prepare tmax nt (k, b)) with (k, snd (prepare tmax nt (k, b))). cbn [dset]. destruct (str_eqb (lit "default") k) eqn:E; cbn [orb].
    + cbn [map fst]. rewrite app_nil_r. f_equal. rewrite map_map. reflexivity.
    + cbn [map fst app]. f_equal. exact IH.
Qed.
Print Assumptions C112_default.
(** Refuted: a function already set by the caller is kept (the one of "default" is replaced). *)
Theorem C112_user_default_refuted : exists b, dget (lit "default") (save_quantities 1 2 [(lit "default", {| b_t := None; b_func := Some UserFunc |})]) = Some b /\ b_func b = Some DefaultFunc.
Proof. eexists. split; reflexivity. Qed.
Print Assumptions C112_user_default_refuted.
Example blocks_example : exists b, dget (lit "fields") (save_quantities 1 2 [(lit "fields", {| b_t := None; b_func := None |})]) = Some b /\ b_func b = Some FieldsFunc.
Proof. eexists. split; reflexivity. Qed.

(** ** The times *)
(** The run ends at the first multiple of dt beyond the requested time; the default diagnostics are saved at nt >= 2 equally
    spaced times from 0 to the end, which are dt nt/(nt-1) apart. *)
Theorem C112_times : forall tmax dt, 0 < dt -> 0 < tmax -> let nt := hp_nt tmax dt in let T := hp_tmax tmax dt in
  tmax < T <= tmax + dt /\ length (whole_run T nt) = nt /\
  forall i, (i < nt)%nat -> (2 <= nt)%nat -> nth i (whole_run T nt) 0 = INR i * (dt * INR nt / INR (nt - 1)).
Proof.
  intros tmax dt Hd Ht nt T. destruct (base_Int_part (tmax / dt)) as [B1 B2]. assert (P : 0 < tmax / dt) by (apply Rdiv_lt_0_compat; lra).
  assert (Z0 : (0 <= Int_part (tmax / dt))%Z). { assert (-1 < Int_part (tmax / dt))%Z; [|lia]. apply lt_IZR. lra. }
  assert (EN : INR nt = IZR (Int_part (tmax / dt)) + 1) by (unfold nt, hp_nt; rewrite plus_INR, INR_IZR_INZ, Z2Nat.id by exact Z0; reflexivity).
  assert (ET : T = dt * INR nt) by reflexivity. assert (EQ : tmax = dt * (tmax / dt)) by (field; lra). split; [|split].
  - rewrite ET, EN. assert (X1 : dt * (tmax / dt) < dt * (IZR (Int_part (tmax / dt)) + 1)) by (apply Rmult_lt_compat_l; lra).
    assert (X2 : dt * IZR (Int_part (tmax / dt)) <= dt * (tmax / dt)) by (apply Rmult_le_compat_l; lra). rewrite <- EQ in X1, X2. lra.
  - unfold whole_run, linspace_list. now rewrite map_length, seq_length.
  - intros i Hi H2. unfold whole_run, linspace_list. rewrite (nth_indep _ 0 (linspace 0 T nt 0)) by (rewrite map_length, seq_length; exact Hi). rewrite map_nth, seq_nth by exact Hi. rewrite Nat.add_0_l.
    unfold linspace. destruct (Nat.leb_spec nt 1); [lia|]. rewrite ET. field. apply not_0_INR. lia.
Qed.
Print Assumptions C112_times.
(** Refuted: the default diagnostics are saved at times the solver steps to: with
    4 steps of 1 the second is 4/3. *)
Theorem C112_step_times_refuted : exists tmax dt, 0 < dt /\ 0 < tmax /\ forall n : nat, nth 1 (whole_run (hp_tmax tmax dt) (hp_nt tmax dt)) 0 <> INR n * dt.
Proof.
  exists (7 / 2), 1. split; [lra|]. split; [lra|]. intros n.
  assert (E : hp_nt (7 / 2) 1 = 4%nat).
  { assert (E : Int_part (7 / 2 / 1) = 3%Z); [|unfold hp_nt; rewrite E; reflexivity].
    destruct (base_Int_part (7 / 2 / 1)) as [A B]. assert (X1 : (Int_part (7 / 2 / 1) < 4)%Z) by (apply lt_IZR; lra). assert (X2 : (2 < Int_part (7 / 2 / 1))%Z) by (apply lt_IZR; lra). lia. }
  destruct (C112_times (7 / 2) 1 ltac:(lra) ltac:(lra)) as (_ & _ & P). rewrite P by (rewrite E; lia). rewrite E. change (4 - 1)%nat with 3%nat. rewrite Rmult_1_r. intros H.
  assert (H' : INR (3 * n) = INR 4) by (rewrite mult_INR, <- H; cbn [INR]; field). apply INR_eq in H'. lia.
Qed.
Print Assumptions C112_step_times_refuted.

(** ** The stored coefficients *)
(** The kx axis runs from -(Nx/2) in unit steps; the entry labelled kx is the coefficient of exp(2 pi i kx x / Lx), so that the
    stored entries and their labels give back the array on the grid. *)
Theorem C112_stored_coefficients : forall nx C n j, (j < nx)%nat ->
  stored_ck_kx nx j = (Z.of_nat j - Z.of_nat (nx / 2))%Z /\
  (forall g, (g < nx)%nat -> finv nx (C n) g = csum nx (fun i => cmul (stored_ck nx C n i) (cis (2 * PI * IZR (stored_ck_kx nx i) * INR g / INR nx)))).
Proof. intros nx C n j H. destruct (C96_stored_coefficients nx C n j H) as (A & _ & B). split; [exact A|exact B]. Qed.
Print Assumptions C112_stored_coefficients.
(** Every coefficient is stored exactly once. *)
Theorem C112_all_stored : forall nx k, (k < nx)%nat -> exists j, (j < nx)%nat /\ hp_shift nx j = k /\ forall j', (j' < nx)%nat -> hp_shift nx j' = k -> j' = j.
Proof.
  intros nx k H. assert (D := Nat.div_mod nx 2 ltac:(lia)). assert (M := Nat.mod_upper_bound nx 2 ltac:(lia)).
  assert (V : forall j, (j < nx)%nat -> hp_shift nx j = if (j <? nx / 2)%nat then (j + (nx - nx / 2))%nat else (j - nx / 2)%nat) by (intros j Hj; apply (shift_val nx j Hj)).
  exists (if (k <? nx - nx / 2)%nat then (k + nx / 2)%nat else (k - (nx - nx / 2))%nat). destruct (Nat.ltb_spec k (nx - nx / 2)).
  - split; [lia|]. split.
    + rewrite V by lia. destruct (Nat.ltb_spec (k + nx / 2) (nx / 2)); lia.
    + intros j' Hj'. rewrite V by lia. destruct (Nat.ltb_spec j' (nx / 2)); lia.
  - split; [lia|]. split.
    + rewrite V by lia. destruct (Nat.ltb_spec (k - (nx - nx / 2)) (nx / 2)); lia.
    + intros j' Hj'. rewrite V by lia. destruct (Nat.ltb_spec j' (nx / 2)); lia.
Qed.
Print Assumptions C112_all_stored.
