(** C69: one complete PIC-1D step and what a run saves. *)
From Verif Require Import RSum Pic PicProofs PicFourier PicProps PicStep.
From Coq Require Import FunctionalExtensionality.
Local Open Scope R_scope.

Lemma lf_fst k xmin xmax dt t a st : fst (lf k xmin xmax dt t a st) = leapfrog k xmin xmax dt t a st. Proof. reflexivity. Qed.
Lemma lf_snd k xmin xmax dt t a st : snd (lf k xmin xmax dt t a st) = field_sc k (fst (lf k xmin xmax dt t a st)).
Proof. unfold lf. cbn [fst snd]. apply field_positions. now rewrite kick_positions. Qed.
Lemma y4_fst k xmin xmax dt t a st : fst (y4 k xmin xmax dt t a st) = yoshida4 k xmin xmax dt t a st. Proof. reflexivity. Qed.
Lemma y4_snd k xmin xmax dt t a st : snd (y4 k xmin xmax dt t a st) = field_sc k (fst (y4 k xmin xmax dt t a st)).
Proof. unfold y4, yoshida_substeps. cbn [fold_left fst snd]. apply lf_snd. Qed.
(** The saved mean squares are means over the nx cells (not the two guard cells of the potential). *)
Theorem C69_mean_squares : forall g y, (0 < q_nx g)%nat ->
  save_e2 g y * INR (q_nx g) = rsum (q_nx g) (fun i => y_e y i ^ 2) /\ save_de2 g y * INR (q_nx g) = rsum (q_nx g) (fun i => y_de y i ^ 2) /\
  save_a2 g y * INR (q_nx g) = rsum (q_nx g) (fun i => y_a y (i + 1)%nat ^ 2).
Proof.
  intros g y H. assert (INR (q_nx g) <> 0) by (apply not_0_INR; lia). unfold save_e2, save_de2, save_a2, mean_sq. repeat split; try (field; assumption).
  unfold Rdiv. rewrite Rmult_assoc, Rinv_l, Rmult_1_r by assumption. apply rsum_ext. intros i _. now replace (i + 1)%nat with (S i) by lia.
Qed.
Print Assumptions C69_mean_squares.
(** Which schemes exist. *)
Theorem C69_schemes : forall g t y, pic_step g t y <> None <-> q_time g = lit "leapfrog" \/ q_time g = lit "yoshida4".
Proof.
  intros g t y. unfold pic_step, push. destruct (str_eqb_spec (q_time g) (lit "leapfrog")) as [E|E].
  - destruct (has_ey g); split; intros; try discriminate; now left.
  - destruct (str_eqb_spec (q_time g) (lit "yoshida4")) as [E'|E'].
    + destruct (has_ey g); split; intros; try discriminate; now right.
    + split; [congruence|]. intros [C|C]; contradiction.
Qed.
Print Assumptions C69_schemes.
(** The particle part of a step. *)
Definition advance (g : pcfg) (t : R) (a : option (nat -> R)) (st : list species) : list species :=
  if str_eqb (q_time g) (lit "leapfrog") then leapfrog (the_kicker g) (q_xmin g) (q_xmax g) (q_dt g) t a st
  else yoshida4 (the_kicker g) (q_xmin g) (q_xmax g) (q_dt g) t a st.
Lemma advance_inv g t a st : invariants (advance g t a st) = invariants st.
Proof. unfold advance. destruct (C41_weights_constant (the_kicker g) (q_xmin g) (q_xmax g) (q_dt g) t a st). now destruct (str_eqb _ _). Qed.
Lemma advance_length g t a st : List.length (advance g t a st) = List.length st.
Proof. pose proof (f_equal (@List.length _) (advance_inv g t a st)) as E. unfold invariants in E. now rewrite !map_length in E. Qed.
Lemma step_parts g t y y' : pic_step g t y = Some y' ->
  y_sp y' = combine (map fst (y_sp y)) (advance g t (if has_ey g then Some (y_a y) else None) (map snd (y_sp y))) /\
  y_e y' = field_sc (the_kicker g) (map snd (y_sp y')) /\ map fst (y_sp y') = map fst (y_sp y).
Proof.
  intros E. unfold pic_step in E. destruct (push g) as [stepper|] eqn:P; [|discriminate].
  set (a := if has_ey g then Some (y_a y) else None) in *.
  assert (F : fst (stepper t a (map snd (y_sp y))) = advance g t a (map snd (y_sp y)) /\
              snd (stepper t a (map snd (y_sp y))) = field_sc (the_kicker g) (fst (stepper t a (map snd (y_sp y))))).
  { unfold push, advance in *. destruct (str_eqb (q_time g) (lit "leapfrog")).
    - injection P as <-. split; [apply lf_fst|apply lf_snd].
    - destruct (str_eqb (q_time g) (lit "yoshida4")); [|discriminate]. injection P as <-. split; [apply y4_fst|apply y4_snd]. }
  destruct F as [F1 F2].
  assert (L : List.length (map fst (y_sp y)) = List.length (fst (stepper t a (map snd (y_sp y))))) by (rewrite F1, advance_length, !map_length; reflexivity).
  assert (C1 : forall A B (l : list A) (m : list B), List.length l = List.length m -> map fst (combine l m) = l /\ map snd (combine l m) = m).
  { intros A B l. induction l as [|x l IH]; intros [|z m] H; try discriminate; [now split|]. cbn in *. destruct (IH m) as [-> ->]; [lia|]. now split. }
  destruct (C1 _ _ _ _ L) as [K1 K2].
  assert (G : y_sp y' = combine (map fst (y_sp y)) (fst (stepper t a (map snd (y_sp y)))) /\ y_e y' = snd (stepper t a (map snd (y_sp y)))).
  { destruct (has_ey g); injection E as <-; now split. }
  destruct G as [G1 G2]. rewrite G1, G2, K1, K2, F1. split; [reflexivity|]. split; [rewrite F2, F1; reflexivity|reflexivity].
Qed.
(** The field saved with a step is the Poisson field of the positions saved with it, and the driver field is the
    driver's at that same time. *)
Theorem C69_fields : forall g t y y', pic_step g t y = Some y' ->
  y_e y' = spectral_poisson (q_nx g) (q_dx g) (q_ion g) (charge_density (q_shape g) (map snd (y_sp y')) (q_nx g) (q_dx g) (q_xmin g)) /\
  forall i, y_de y' i = ex_drive (q_ex g) (q_x g i) (t + q_dt g).
Proof.
  intros g t y y' E. split.
  - destruct (step_parts g t y y' E) as (_ & H & _). exact H.
  - unfold pic_step in E. destruct (push g); [|discriminate]. destruct (has_ey g); injection E as <-; reflexivity.
Qed.
Print Assumptions C69_fields.
(** No step renames a species or changes a charge, a charge-to-mass ratio, a weight or the number of particles. *)
Theorem C69_invariants : forall g n t y y', pic_run g n t y = Some y' ->
  map fst (y_sp y') = map fst (y_sp y) /\
  map (fun s => (charge s, charge_to_mass s, map pw (parts s))) (map snd (y_sp y')) = map (fun s => (charge s, charge_to_mass s, map pw (parts s))) (map snd (y_sp y)).
Proof.
  intros g n. induction n as [|n IH]; intros t y y' E; cbn [pic_run] in E; [injection E as <-; now split|].
  destruct (pic_step g t y) as [y1|] eqn:S1; [|discriminate]. destruct (IH _ _ _ E) as [A B]. rewrite A, B.
  destruct (step_parts g t y y1 S1) as (P & _ & N). split; [exact N|].
  assert (C1 : forall A B (l : list A) (m : list B), List.length l = List.length m -> map snd (combine l m) = m).
  { intros A0 B0 l. induction l as [|x l IH']; intros [|z m] H; try discriminate; [reflexivity|]. cbn in *. rewrite IH' by lia. reflexivity. }
  rewrite P, C1 by (rewrite advance_length, !map_length; reflexivity). apply advance_inv.
Qed.
Print Assumptions C69_invariants.
(** The scalars of weights saved at any two times of a run agree. *)
Theorem C69_saved_weight : forall g n t y y' i sp sp', pic_run g n t y = Some y' -> nth_error (y_sp y) i = Some sp -> nth_error (y_sp y') i = Some sp' ->
  fst sp' = fst sp /\ save_w (parts (snd sp')) = save_w (parts (snd sp)).
Proof.
  intros g n t y y' i sp sp' E H H'. destruct (C69_invariants g n t y y' E) as [A B]. split.
  - pose proof (map_nth_error fst _ _ H) as K. pose proof (map_nth_error fst _ _ H') as K'. rewrite A in K'. congruence.
  - pose proof (map_nth_error snd _ _ H) as K. pose proof (map_nth_error snd _ _ H') as K'.
    pose proof (map_nth_error (fun s => (charge s, charge_to_mass s, map pw (parts s))) _ _ K) as Q.
    pose proof (map_nth_error (fun s => (charge s, charge_to_mass s, map pw (parts s))) _ _ K') as Q'. rewrite B in Q'.
    unfold save_w. congruence.
Qed.
Print Assumptions C69_saved_weight.
(** Without a transverse driver the vector potential is not advanced and does not act on the particles. *)
Theorem C69_electrostatic : forall g n t y y', q_ey g = [] -> pic_run g n t y = Some y' ->
  y_a y' = y_a y /\ y_prev_a y' = y_prev_a y /\
  forall a b, exists y2, pic_run g n t {| y_sp := y_sp y; y_e := y_e y; y_de := y_de y; y_a := a; y_prev_a := b; y_da := y_da y |} = Some y2 /\ y_sp y2 = y_sp y' /\ y_e y2 = y_e y'.
Proof.
  intros g n. induction n as [|n IH]; intros t y y' N E; cbn [pic_run] in *.
  - injection E as <-. repeat split. intros a b. eexists. repeat split; reflexivity.
  - destruct (pic_step g t y) as [y1|] eqn:S1; [|discriminate]. destruct (IH _ _ _ N E) as (A & B & C).
    assert (HE : has_ey g = false) by (unfold has_ey; now rewrite N).
    unfold pic_step in S1. rewrite HE in S1. destruct (push g) as [st|] eqn:P; [|discriminate]. injection S1 as S1. rewrite <- S1 in A, B. cbn in A, B. repeat split; auto.
    intros a b. destruct (C a b) as (y2 & R2 & H2). exists y2. split; [|exact H2]. unfold pic_step. rewrite P, HE. cbn [y_sp y_a y_prev_a]. rewrite <- S1 in R2. cbn [y_sp y_e y_de y_da] in R2. exact R2.
Qed.
Print Assumptions C69_electrostatic.
(** With one, the interior of the potential obeys the discrete wave equation, the plasma term being the electron
    density averaged over the two ends of the step; the source is evaluated at the end of the step. *)
Definition electron_density (g : pcfg) (y : pic) (i : nat) : R :=
  match find_sp (lit "electron") (y_sp y) with Some s => deposit (q_shape g) (parts s) (q_nx g) (q_dx g) (q_xmin g) i | None => 0 end.
Lemma find_sp_step n l l' : map fst l = map fst l' -> map (fun s => (charge s, charge_to_mass s, map pw (parts s))) (map snd l) = map (fun s => (charge s, charge_to_mass s, map pw (parts s))) (map snd l') ->
  match find_sp n l, find_sp n l' with Some s, Some s' => charge s = charge s' | None, None => True | _, _ => False end.
Proof.
  revert l'. induction l as [|[m s] l IH]; intros [|[m' s'] l'] A B; cbn in *; try discriminate; auto. injection A as -> A. injection B as B1 B2 B3 B.
  destruct (str_eqb m' n); [exact B1|now apply IH].
Qed.
Theorem C69_wave : forall g t y y', q_ey g <> [] -> 0 < q_beta g -> 0 < q_dt g -> pic_step g t y = Some y' ->
  (forall s, find_sp (lit "electron") (y_sp y) = Some s -> charge s = -1) ->
  y_prev_a y' = y_a y /\ (forall i, y_da y' i = ey_drive (q_nx g + 2) (q_xa g) (1 / q_beta g) (q_ey g) (t + q_dt g) i) /\
  forall i, (1 <= i <= q_nx g)%nat ->
  (y_a y' i - 2 * y_a y i + y_prev_a y i) / q_dt g ^ 2 =
  (1 / q_beta g) ^ 2 * (y_a y (i - 1)%nat - 2 * y_a y i + y_a y (i + 1)%nat) / q_dx g ^ 2
  - (electron_density g y (i - 1) + electron_density g y' (i - 1)) / 2 * y_a y i + y_da y' i.
Proof.
  intros g t y y' N Hb Hd E Q.
  assert (HR : pic_run g 1 t y = Some y') by (cbn [pic_run]; now rewrite E).
  destruct (C69_invariants g 1 t y y' HR) as [A B]. pose proof (find_sp_step (lit "electron") _ _ A B) as FS.
  assert (HE : has_ey g = true) by (unfold has_ey; destruct (q_ey g); [contradiction|reflexivity]).
  assert (HC : the_c g = 1 / q_beta g) by (unfold the_c; destruct (Rlt_dec 0 (q_beta g)); [reflexivity|lra]).
  assert (PC : 0 < 1 / q_beta g) by (apply Rdiv_lt_0_compat; lra).
  unfold pic_step in E. destruct (push g) as [st|]; [|discriminate]. rewrite HE in E. rewrite HC in E. unfold wave_step in E. destruct (Rlt_dec 0 (1 / q_beta g)); [|contradiction].
  cbn [fst snd] in E.
  match type of E with Some ?r = _ => assert (E' : y' = r) by congruence end. clear E.
  assert (D : forall j, electron_charge_density g (y_sp y') j = - electron_density g y' j /\ electron_charge_density g (y_sp y) j = - electron_density g y j).
  { intros j. unfold electron_charge_density, electron_density. destruct (find_sp (lit "electron") (y_sp y')) as [s'|], (find_sp (lit "electron") (y_sp y)) as [s|]; try contradiction.
    - rewrite FS, (Q s eq_refl). split; ring.
    - split; ring. }
  split; [now rewrite E'|]. split; [intros i; now rewrite E'|]. intros i Hi.
  assert (AI : y_a y' i = wave_interior (1 / q_beta g) (q_dx g) (q_dt g) (y_a y) (y_prev_a y) (y_da y') (fun j => - (1 / 2) * (electron_charge_density g (y_sp y) j + electron_charge_density g (y_sp y') j)) i).
  { rewrite E'. cbn [y_a y_da y_sp]. destruct (Nat.eqb_spec i 0); [lia|]. destruct (Nat.eqb_spec i (q_nx g + 1)); [lia|]. reflexivity. }
  rewrite AI. unfold wave_interior. destruct (D (i - 1)%nat) as [-> ->].
  set (n1 := electron_density g y (i - 1)). set (n2 := electron_density g y' (i - 1)). set (src := y_da y' i). unfold Rdiv.
  set (Z := / q_dx g ^ 2). field. lra.
Qed.
Print Assumptions C69_wave.
(** A species called anything but "electron" does not load the wave. *)
Theorem C69_no_electron : forall g t y y', q_ey g <> [] -> 0 < q_beta g -> 0 < q_dt g -> pic_step g t y = Some y' -> ~ In (lit "electron") (map fst (y_sp y)) ->
  forall i, (1 <= i <= q_nx g)%nat ->
  (y_a y' i - 2 * y_a y i + y_prev_a y i) / q_dt g ^ 2 =
  (1 / q_beta g) ^ 2 * (y_a y (i - 1)%nat - 2 * y_a y i + y_a y (i + 1)%nat) / q_dx g ^ 2 + y_da y' i.
Proof.
  intros g t y y' N Hb Hd E NI i Hi.
  assert (F : forall l, ~ In (lit "electron") (map fst l) -> find_sp (lit "electron") l = None).
  { induction l as [|[m s] l IH]; intros H; [reflexivity|]. cbn [find_sp map fst In] in *. destruct (str_eqb_spec m (lit "electron")) as [->|]; [exfalso; apply H; now left|]. apply IH. intros K. apply H. now right. }
  pose proof (F _ NI) as F0. destruct (step_parts g t y y' E) as (_ & _ & A). rewrite <- A in NI. pose proof (F _ NI) as F1.
  destruct (C69_wave g t y y' N Hb Hd E) as (_ & _ & W); [rewrite F0; discriminate|]. rewrite (W i Hi). unfold electron_density. rewrite F0, F1. lra.
Qed.
Print Assumptions C69_no_electron.
(** Without drivers and with a uniform (or no) background, the saved momenta of all species add up to the same
    number at every step of a run. *)
Definition saved_momentum (ms : list R) (y : pic) : R := lsum (map (fun e => save_p (fst e) (parts (snd e))) (combine ms (map snd (y_sp y)))).
Theorem C69_momentum : forall g n t y y' ms, q_ey g = [] -> q_ex g = [] -> (0 < q_nx g)%nat -> q_dx g <> 0 ->
  match q_ion g with Some s => exists c, forall i, s i = c | None => True end ->
  Forall2 (fun m s => charge s = m * charge_to_mass s) ms (map snd (y_sp y)) ->
  pic_run g n t y = Some y' -> saved_momentum ms y' = saved_momentum ms y.
Proof.
  intros g n t y y' ms N X Hn Hd U. revert t y. induction n as [|n IH]; intros t y M E; cbn [pic_run] in E; [now injection E as <-|].
  destruct (pic_step g t y) as [y1|] eqn:S1; [|discriminate].
  destruct (step_parts g t y y1 S1) as (P & _ & _). assert (HE : has_ey g = false) by (unfold has_ey; now rewrite N). rewrite HE in P.
  assert (C1 : forall A B (l : list A) (m : list B), List.length l = List.length m -> map snd (combine l m) = m).
  { intros A0 B0 l. induction l as [|x l IH']; intros [|z m] H; try discriminate; [reflexivity|]. cbn in *. rewrite IH' by lia. reflexivity. }
  assert (P2 : map snd (y_sp y1) = advance g t None (map snd (y_sp y))) by (rewrite P, C1 by (rewrite advance_length, !map_length; reflexivity); reflexivity).
  set (k := spectral_kicker (q_shape g) (q_nx g) (q_dx g) (q_xmin g) (q_ion g) (fun _ _ => 0)).
  assert (KK : the_kicker g = k) by (unfold the_kicker, k, spectral_kicker; rewrite X; reflexivity).
  assert (LM : forall d t' st, masses_fit ms st -> masses_fit ms (leapfrog k (q_xmin g) (q_xmax g) d t' None st) /\ momentum ms (leapfrog k (q_xmin g) (q_xmax g) d t' None st) = momentum ms st).
  { intros d t' st H. split; [now apply leapfrog_masses|]. apply leapfrog_momentum; auto. }
  assert (AD : masses_fit ms (advance g t None (map snd (y_sp y))) /\ momentum ms (advance g t None (map snd (y_sp y))) = momentum ms (map snd (y_sp y))).
  { unfold advance. rewrite KK. destruct (str_eqb _ _); [apply LM; exact M|].
    unfold yoshida4, yoshida_substeps. cbn [fold_left fst snd].
    destruct (LM (yoshida_dt1 (q_dt g)) (t + 0) _ M) as [M1 E1]. destruct (LM (yoshida_dt2 (q_dt g)) (t + yoshida_dt1 (q_dt g)) _ M1) as [M2 E2].
    destruct (LM (yoshida_dt1 (q_dt g)) (t + (yoshida_dt1 (q_dt g) + yoshida_dt2 (q_dt g))) _ M2) as [M3 E3]. split; [exact M3|]. rewrite E3, E2, E1. reflexivity. }
  destruct AD as [AM AE]. assert (SM : forall z, saved_momentum ms z = momentum ms (map snd (y_sp z))).
  { intros z. unfold saved_momentum. generalize (map snd (y_sp z)). clear. induction ms as [|m l IH]; intros [|s st]; try reflexivity. cbn [combine map momentum]. change (lsum (?x :: ?y)) with (x + lsum y). cbn [fst snd]. rewrite <- IH. reflexivity. }
  rewrite (IH (t + q_dt g) y1 ltac:(rewrite P2; exact AM) E). rewrite !SM, P2. exact AE.
Qed.
Print Assumptions C69_momentum.

(** ** Saved moments *)
Lemma moment_sum g h ps : (0 < q_nx g)%nat -> q_dx g <> 0 -> q_dx g * rsum (q_nx g) (moment g h ps) = lsum (map (fun p => pw p * h (pv p)) ps).
Proof.
  intros Hn Hd. unfold moment. pose proof (C36_deposit_conserves_weight (q_shape g) (map (reweigh h) ps) (q_nx g) (q_dx g) (q_xmin g) Hn Hd) as K.
  change (fun i => deposit (q_shape g) (map (reweigh h) ps) (q_nx g) (q_dx g) (q_xmin g) i) with (deposit (q_shape g) (map (reweigh h) ps) (q_nx g) (q_dx g) (q_xmin g)).
  rewrite K. unfold weight. rewrite map_map. reflexivity.
Qed.
(** The integrals over the box of the saved n, j and P are the particle sums, and agree with the saved scalars. *)
Theorem C69_moments : forall g ps mass, (0 < q_nx g)%nat -> q_dx g <> 0 ->
  q_dx g * rsum (q_nx g) (save_n g ps) = save_w ps /\
  mass * (q_dx g * rsum (q_nx g) (save_j g ps)) = save_p mass ps /\
  1 / 2 * mass * (q_dx g * rsum (q_nx g) (save_P g ps)) = save_KE mass ps.
Proof.
  intros g ps mass Hn Hd. split; [|split].
  - unfold save_n. now rewrite C36_deposit_conserves_weight.
  - unfold save_j. rewrite moment_sum by auto. reflexivity.
  - unfold save_P. rewrite moment_sum by auto. unfold save_KE. f_equal. apply lsum_ext. intros; ring.
Qed.
Print Assumptions C69_moments.
Lemma moment_cell g h ps i : moment g h ps i = lsum (map (fun p => scatter (stencil (q_shape g) (px p) (q_dx g) (q_xmin g) (q_nx g)) (pw p) i / q_dx g * h (pv p)) ps).
Proof.
  unfold moment, deposit. rewrite map_map. unfold Rdiv at 1. rewrite Rmult_comm, <- lsum_scal. apply lsum_ext. intros p _. cbn [reweigh px pw].
  rewrite !scatter_action. unfold Rdiv. ring.
Qed.
Lemma save_n_cell g ps i : save_n g ps i = lsum (map (fun p => scatter (stencil (q_shape g) (px p) (q_dx g) (q_xmin g) (q_nx g)) (pw p) i / q_dx g) ps).
Proof. unfold save_n, deposit. unfold Rdiv at 1. rewrite Rmult_comm, <- lsum_scal. apply lsum_ext. intros p _. unfold Rdiv. ring. Qed.
(** In every cell the saved density and pressure are non-negative and j^2 <= n P. *)
Theorem C69_cell : forall g ps i, 0 < q_dx g -> (forall p, In p ps -> 0 <= pw p) ->
  0 <= save_n g ps i /\ 0 <= save_P g ps i /\ save_j g ps i ^ 2 <= save_n g ps i * save_P g ps i.
Proof.
  intros g ps i Hd W. unfold save_j, save_P. rewrite save_n_cell, !moment_cell.
  set (c := fun p => scatter (stencil (q_shape g) (px p) (q_dx g) (q_xmin g) (q_nx g)) (pw p) i / q_dx g).
  assert (P : forall p, In p ps -> 0 <= c p).
  { intros p Hp. unfold c. apply Rmult_le_pos; [|now apply Rlt_le, Rinv_0_lt_compat]. unfold scatter. apply lsum_nonneg. intros e He.
    destruct (Nat.eqb (fst e) i); [|lra]. apply Rmult_le_pos; [eapply stencil_nonneg; eauto|auto]. }
  change (0 <= lsum (map c ps) /\ 0 <= lsum (map (fun p => c p * (pv p * pv p)) ps) /\
          lsum (map (fun p => c p * pv p) ps) ^ 2 <= lsum (map c ps) * lsum (map (fun p => c p * (pv p * pv p)) ps)).
  set (nn := lsum (map c ps)). set (jj := lsum (map (fun p => c p * pv p) ps)). set (PP := lsum (map (fun p => c p * (pv p * pv p)) ps)).
  assert (N0 : 0 <= nn) by (apply lsum_nonneg; auto).
  assert (P0 : 0 <= PP) by (apply lsum_nonneg; intros p Hp; apply Rmult_le_pos; [auto|nra]).
  assert (Q : forall s, 0 <= nn * s ^ 2 - 2 * jj * s + PP).
  { intros s. replace (nn * s ^ 2 - 2 * jj * s + PP) with (lsum (map (fun p => c p * (s - pv p) ^ 2) ps)).
    - apply lsum_nonneg. intros p Hp. apply Rmult_le_pos; [auto|apply pow2_ge_0].
    - unfold nn, jj, PP. generalize c. clear. intros c. induction ps as [|p l IH]; cbn [map]; [cbn; ring|]. change (lsum (?x :: ?y)) with (x + lsum y). rewrite IH. ring. }
  split; [exact N0|]. split; [exact P0|].
  destruct (Rle_lt_or_eq_dec 0 nn N0) as [L|Z].
  - pose proof (Q (jj / nn)) as K. replace (nn * (jj / nn) ^ 2 - 2 * jj * (jj / nn) + PP) with (PP - jj ^ 2 / nn) in K by (field; lra).
    assert (J : jj ^ 2 = jj ^ 2 / nn * nn) by (field; lra). rewrite J, (Rmult_comm nn PP). apply Rmult_le_compat_r; lra.
  - rewrite <- Z in *. destruct (Req_dec jj 0) as [J|J]; [rewrite J; lra|]. pose proof (Q ((PP + 1) / (2 * jj))) as K.
    replace (0 * ((PP + 1) / (2 * jj)) ^ 2 - 2 * jj * ((PP + 1) / (2 * jj)) + PP) with (-1) in K by (field; exact J). lra.
Qed.
Print Assumptions C69_cell.
(** ** The save section *)
Lemma save_keys_ok names cfg : forall d, save_keys names cfg d <> None <-> Forall (fun e => is_prefix (lit "fields") (fst e) = true \/ In (fst e) names) cfg.
Proof.
  induction cfg as [|[k ls] t IH]; intros d; cbn [save_keys]; [split; [constructor|discriminate]|]. destruct (is_prefix (lit "fields") k) eqn:P.
  - rewrite IH. split; [intros H; constructor; auto|intros H; now inversion H].
  - destruct (existsb (str_eqb k) names) eqn:X.
    + apply existsb_exists in X. destruct X as (x & I & Q). apply str_eqb_eq in Q. subst x. rewrite IH. split; [intros H; constructor; auto|intros H; now inversion H].
    + split; [congruence|]. intros H. inversion H as [|? ? [C|C] H']; subst; cbn in *; [congruence|]. exfalso. assert (existsb (str_eqb k) names = true) by (apply existsb_exists; exists k; split; [exact C|apply str_eqb_refl]). congruence.
Qed.
(** A save section is accepted exactly when each of its keys starts with "fields" or names a species; the scalars
    are then saved in every case. *)
Theorem C69_save_accepted : forall names cfg,
  (save_quantities names cfg <> None <-> Forall (fun e => is_prefix (lit "fields") (fst e) = true \/ In (fst e) names) cfg) /\
  forall d, save_quantities names cfg = Some d -> dget (lit "default") d = Some Scalars.
Proof.
  intros names cfg. unfold save_quantities. split.
  - rewrite <- (save_keys_ok names cfg []). destruct (save_keys names cfg []); split; intros; congruence.
  - intros d H. destruct (save_keys names cfg []); [|discriminate]. injection H as <-. apply dget_dset_same.
Qed.
Print Assumptions C69_save_accepted.
(** What is saved under a key written last is what the key says; later keys do not remove it. *)
Lemma save_labels_other sp labels : forall d k, (forall l, In l labels -> k <> save_label sp l) -> dget k (save_labels sp labels d) = dget k d.
Proof. induction labels as [|l t IH]; intros d k H; cbn [save_labels]; [reflexivity|]. rewrite IH by (intros; apply H; now right). apply dget_dset_other. apply H. now left. Qed.
Lemma save_labels_in sp labels : forall d l, In l labels -> dget (save_label sp l) (save_labels sp labels d) = Some (Dist sp).
Proof.
  induction labels as [|a t IH]; intros d l H; [contradiction|]. cbn [save_labels]. destruct (in_dec (list_eq_dec Ascii.ascii_dec) l t) as [I|I]; [now apply IH|].
  destruct H as [->|H]; [|contradiction]. rewrite save_labels_other; [apply dget_dset_same|]. intros l' I' E. apply I. unfold save_label in E. do 2 apply app_inv_head in E. now subst.
Qed.
(** Keys a section asks for. *)
Definition asked (names : list str) (cfg : list (str * list str)) (k : str) (what : saved) : Prop :=
  exists e, In e cfg /\ ((is_prefix (lit "fields") (fst e) = true /\ k = fst e /\ what = Fields) \/
                        (is_prefix (lit "fields") (fst e) = false /\ In (fst e) names /\ exists l, In l (snd e) /\ k = save_label (fst e) l /\ what = Dist (fst e))).
Lemma save_keys_sound names cfg : forall d d' k w, save_keys names cfg d = Some d' -> dget k d' = Some w -> dget k d = Some w \/ asked names cfg k w.
Proof.
  induction cfg as [|[s ls] t IH]; intros d d' k w E G; cbn [save_keys] in E; [injection E as <-; now left|].
  assert (W : forall k w, asked names t k w -> asked names ((s, ls) :: t) k w) by (intros k0 w0 (e & I & H); exists e; split; [now right|exact H]).
  destruct (is_prefix (lit "fields") s) eqn:P.
  - destruct (IH _ _ _ _ E G) as [H|H]; [|right; now apply W]. destruct (str_eq_dec k s) as [->|N].
    + rewrite dget_dset_same in H. injection H as <-. right. exists (s, ls). split; [now left|]. left. now repeat split.
    + rewrite dget_dset_other in H by exact N. now left.
  - destruct (existsb (str_eqb s) names) eqn:X; [|discriminate]. apply existsb_exists in X. destruct X as (x & I & Q). apply str_eqb_eq in Q. subst x.
    destruct (IH _ _ _ _ E G) as [H|H]; [|right; now apply W]. clear IH E G.
    assert (C : dget k d = Some w \/ exists l, In l ls /\ k = save_label s l /\ w = Dist s).
    { clear -H. revert d H. induction ls as [|l t IH]; intros d H; cbn [save_labels] in H; [now left|]. destruct (IH _ H) as [K|(l' & A & B)]; [|right; exists l'; split; [now right|exact B]].
      destruct (str_eq_dec k (save_label s l)) as [->|N]; [rewrite dget_dset_same in K; injection K as <-; right; exists l; split; [now left|now split]|].
      rewrite dget_dset_other in K by exact N. now left. }
    destruct C as [C|(l & A & B)]; [now left|]. right. exists (s, ls). split; [now left|]. right. repeat split; auto. exists l. now split.
Qed.
Lemma save_keys_complete names cfg : forall d d' k, save_keys names cfg d = Some d' -> (dget k d <> None \/ exists w, asked names cfg k w) -> exists w, dget k d' = Some w.
Proof.
  induction cfg as [|[s ls] t IH]; intros d d' k E H; cbn [save_keys] in E.
  - injection E as <-. destruct H as [H|(w & e & [] & _)]. destruct (dget k d) as [w|]; [now exists w|congruence].
  - destruct (is_prefix (lit "fields") s) eqn:P.
    + apply (IH _ _ k E). destruct H as [H|(w & e & [<-|I] & K)].
      * left. destruct (str_eq_dec k s) as [->|N]; [now rewrite dget_dset_same|now rewrite dget_dset_other].
      * cbn [fst snd] in K. destruct K as [(_ & -> & _)|(C & _)]; [left; now rewrite dget_dset_same|congruence].
      * right. exists w, e. split; auto.
    + destruct (existsb (str_eqb s) names) eqn:X; [|discriminate]. apply (IH _ _ k E). destruct H as [H|(w & e & [<-|I] & K)].
      * left. destruct (in_dec str_eq_dec k (map (save_label s) ls)) as [J|J].
        -- apply in_map_iff in J. destruct J as (l & <- & J). now rewrite save_labels_in.
        -- rewrite save_labels_other; [exact H|]. intros l L ->. apply J. now apply in_map.
      * cbn [fst snd] in K. destruct K as [(C & _)|(_ & _ & l & L & -> & _)]; [congruence|]. left. now rewrite save_labels_in.
      * right. exists w, e. split; auto.
Qed.
(** Apart from "default", a saved key and its content is one the section asks for, and every key asked for is saved. *)
Theorem C69_saved : forall names cfg d k, save_quantities names cfg = Some d -> k <> lit "default" ->
  (forall w, dget k d = Some w -> asked names cfg k w) /\ ((exists w, asked names cfg k w) -> exists w, dget k d = Some w).
Proof.
  intros names cfg d k E N. unfold save_quantities in E. destruct (save_keys names cfg []) as [d0|] eqn:S; [|discriminate]. injection E as <-. split.
  - intros w G. rewrite dget_dset_other in G by exact N. destruct (save_keys_sound _ _ _ _ _ _ S G) as [C|C]; [discriminate|exact C].
  - intros A. destruct (save_keys_complete names cfg [] d0 k S (or_intror A)) as [w W]. exists w. now rewrite dget_dset_other.
Qed.
Print Assumptions C69_saved.
(** A user's own "default" section is refused (the scalars cannot be saved on another time axis) ... *)
Theorem C69_own_default_refuted : forall names ls, ~ In (lit "default") names -> save_quantities names [(lit "default", ls)] = None.
Proof.
  intros names ls H. unfold save_quantities, save_keys. change (is_prefix (lit "fields") (lit "default")) with false. cbn beta iota.
  destruct (existsb (str_eqb (lit "default")) names) eqn:X; [|reflexivity]. exfalso. apply existsb_exists in X. destruct X as (x & I & Q). apply str_eqb_eq in Q. now subst.
Qed.
Print Assumptions C69_own_default_refuted.
(** ... and two species may share a saved key, so that one of the two distributions is not saved. *)
Theorem C69_key_clash_refuted : exists names cfg d, NoDup names /\ NoDup (map fst cfg) /\ save_quantities names cfg = Some d /\
  asked names cfg (lit "a.b.c") (Dist (lit "a")) /\ asked names cfg (lit "a.b.c") (Dist (lit "a.b")) /\ dget (lit "a.b.c") d = Some (Dist (lit "a.b")) /\
  forall k, dget k d <> Some (Dist (lit "a")).
Proof.
  exists [lit "a"; lit "a.b"], [(lit "a", [lit "b.c"]); (lit "a.b", [lit "c"])]. eexists.
  assert (ND : NoDup [lit "a"; lit "a.b"]) by (repeat constructor; cbn; intuition discriminate).
  split; [exact ND|]. split; [exact ND|]. split; [reflexivity|]. split; [|split; [|split; [reflexivity|]]].
  - eexists. split; [left; reflexivity|]. right. split; [reflexivity|]. split; [now left|]. eexists. split; [now left|]. now split.
  - eexists. split; [right; left; reflexivity|]. right. split; [reflexivity|]. split; [right; now left|]. eexists. split; [now left|]. now split.
  - intros k. match goal with |- dget k ?d <> _ => change (dget k [(lit "a.b.c", Dist (lit "a.b")); (lit "default", Scalars)] <> Some (Dist (lit "a"))) end.
    unfold dget. destruct (str_eqb k (lit "a.b.c")); [discriminate|]. destruct (str_eqb k (lit "default")); discriminate.
Qed.
Print Assumptions C69_key_clash_refuted.
(** Scalars: the plot of a scalar is put in the directory of a species whose name ends the scalar's, but not always
    in that of the species it belongs to. *)
Theorem C69_scalar_dir : forall names q sp, In sp names -> (forall s, In s names -> s <> sp -> ends_with (lit "_" ++ s) (q ++ lit "_" ++ sp) = false) ->
  scalar_dir names (q ++ lit "_" ++ sp) = Some sp.
Proof.
  intros names q sp. assert (SE : ends_with (lit "_" ++ sp) (q ++ lit "_" ++ sp) = true).
  { unfold ends_with. rewrite (rev_app_distr q). generalize (rev (lit "_" ++ sp)). intros p. induction p as [|a p IH]; [reflexivity|]. cbn. now rewrite Ascii.eqb_refl, IH. }
  induction names as [|s t IH]; intros I H; [contradiction|]. cbn [scalar_dir]. destruct (str_eq_dec s sp) as [->|N].
  - now rewrite SE.
  - rewrite (H s (or_introl eq_refl) N). apply IH; [destruct I; [contradiction|assumption]|]. intros s' I' N'. apply H; [now right|exact N'].
Qed.
Print Assumptions C69_scalar_dir.
Theorem C69_scalar_dir_refuted : scalar_dir [lit "hot"; lit "e_hot"] (lit "mean_KE_e_hot") = Some (lit "hot").
Proof. reflexivity. Qed.
Print Assumptions C69_scalar_dir_refuted.
(** The hypotheses are met: two species of opposite charge with particles on both sides of the box, with and
    without a transverse driver. *)
Definition ex_env : envelope := {| e_center := 2; e_width := 1; e_rise := 1; e_baseline := 0; e_height := 1; e_trough := false |}.
Definition ex_sp : list (str * species) :=
  [(lit "electron", {| charge := -1; charge_to_mass := -1; parts := [{| px := 1 / 2; pv := 1; pw := 2 |}; {| px := 3; pv := -1; pw := 1 |}] |});
   (lit "ion", {| charge := 1; charge_to_mass := 1 / 1836; parts := [{| px := 2; pv := 0; pw := 3 |}] |})].
Definition ex_q (ey : list Drivers.driver) (time : str) : pcfg :=
  {| q_nx := 4; q_dx := 1; q_xmin := 0; q_xmax := 4; q_dt := 1 / 10; q_shape := tsc; q_ion := None; q_ex := []; q_ey := ey;
     q_x := fun i => INR i + 1 / 2; q_xa := fun i => INR i - 1 / 2; q_beta := 1 / 10; q_time := time |}.
Definition ex_y : pic := {| y_sp := ex_sp; y_e := fun _ => 0; y_de := fun _ => 0; y_a := fun _ => 0; y_prev_a := fun _ => 0; y_da := fun _ => 0 |}.
Definition ex_ey : Drivers.driver := {| d_a0 := 1; d_k0 := 1; d_w0 := 1; d_dw0 := 0; d_time := ex_env; d_space := ex_env; d_point := false |}.
Example C69_nonvacuous :
  (forall n t, pic_run (ex_q [] (lit "leapfrog")) n t ex_y <> None) /\ (forall n t, pic_run (ex_q [ex_ey] (lit "yoshida4")) n t ex_y <> None) /\
  (forall t, pic_step (ex_q [] (lit "rk4")) t ex_y = None) /\
  Forall2 (fun m s => charge s = m * charge_to_mass s) [1; 1836] (map snd (y_sp ex_y)) /\ saved_momentum [1; 1836] ex_y = 1 /\
  (forall s, find_sp (lit "electron") (y_sp ex_y) = Some s -> charge s = -1) /\ has_ey (ex_q [ex_ey] (lit "yoshida4")) = true /\
  Forall (fun e => Forall (fun p => 0 <= pw p) (parts (snd e))) ex_sp.
Proof.
  assert (R : forall g y, q_time g = lit "leapfrog" \/ q_time g = lit "yoshida4" -> forall n t, pic_run g n t y <> None).
  { intros g y H n. revert y. induction n as [|n IH]; intros y t; cbn [pic_run]; [discriminate|]. destruct (pic_step g t y) as [y'|] eqn:E; [apply IH|]. now apply (C69_schemes g t y) in H. }
  split; [apply R; now left|]. split; [apply R; now right|]. split; [reflexivity|]. split; [repeat constructor; cbn; lra|].
  split; [unfold saved_momentum, save_p; cbn; lra|]. split; [intros s E; now injection E as <-|]. split; [reflexivity|].
  repeat (constructor; cbn; try lra).
Qed.
