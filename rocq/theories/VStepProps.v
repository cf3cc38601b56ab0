(** Property C65: the complete Vlasov-1D time step. *)
From Coq Require Import Permutation Psatz.
From Verif Require Import DriftDiffProofs DriftDiffProofs2 DriftDiffProofs3 DriftDiffProps PicProofs PicFourier PicProps VGridProofs VGridProps VlasovProofs VlasovProofs2 VlasovProps VlasovProps2 VlasovProps3 VStep.
From Verif Require Import PyStr.
Local Open Scope R_scope.

(* ------------------------------------------------------------------------------------------------ *)
(** Vocabulary of the statements. *)
Definition sp_of (p : entry) : species := fst (snd p).
Definition df_of (p : entry) : dist := snd (snd p).
(** The grid of a species: an even number of velocity cells on a proper interval. *)
Definition good_species (s : species) : Prop := Nat.Even (sp_nv s) /\ (0 < sp_nv s)%nat /\ sp_vmin s < sp_vmax s.
Definition good (F : ndict) : Prop := Forall (fun p => good_species (sp_of p)) F.
(** Number of particles of a species, up to the factor dx dv. *)
Definition particles_of (nx : nat) (p : entry) : R := rsum nx (fun i => rsum (sp_nv (sp_of p)) (df_of p i)).
(** The same species under the same names in the same order, related entry by entry. *)
Definition alike (P : entry -> entry -> Prop) (F F' : ndict) : Prop :=
  Forall2 (fun p p' => fst p' = fst p /\ sp_of p' = sp_of p /\ P p p') F F'.
Definition same_particles (nx : nat) : ndict -> ndict -> Prop := alike (fun p p' => particles_of nx p' = particles_of nx p).
Definition same_density (nx : nat) : ndict -> ndict -> Prop :=
  alike (fun p p' => forall i, (i < nx)%nat -> rsum (sp_nv (sp_of p)) (df_of p' i) = rsum (sp_nv (sp_of p)) (df_of p i)).
Definition same_cells (nx : nat) : ndict -> ndict -> Prop :=
  alike (fun p p' => forall i j, (i < nx)%nat -> (j < sp_nv (sp_of p))%nat -> df_of p' i j = df_of p i j).

Lemma alike_imp (P Q : entry -> entry -> Prop) F F' : (forall p p', In p F -> sp_of p' = sp_of p -> P p p' -> Q p p') -> alike P F F' -> alike Q F F'.
Proof.
  intros H A. unfold alike in *. induction A as [|p p' F F' (E1 & E2 & E3) A IH]; constructor.
  - repeat split; auto. apply H; auto. now left.
  - apply IH. intros. apply H; auto. now right.
Qed.
Lemma alike_refl (P : entry -> entry -> Prop) F : (forall p, P p p) -> alike P F F.
Proof. intros H. unfold alike. induction F; constructor; auto. Qed.
Lemma alike_trans (P Q T : entry -> entry -> Prop) : (forall p q r, sp_of q = sp_of p -> P p q -> Q q r -> T p r) -> forall F G H, alike P F G -> alike Q G H -> alike T F H.
Proof.
  intros HT F G H A. unfold alike in *. revert H. induction A as [|p q F G (E1 & E2 & E3) A IH]; intros H B; inversion B as [|q' r G' H' (E4 & E5 & E6) B']; subst; constructor.
  - split; [congruence|]. split; [congruence|]. eapply HT; eauto.
  - now apply IH.
Qed.
Lemma alike_good P F F' : alike P F F' -> good F -> good F'.
Proof. unfold alike, good. induction 1 as [|p p' F F' (E1 & E2 & _) A IH]; intros H; constructor; [rewrite E2; exact (Forall_inv H)|apply IH; exact (Forall_inv_tail H)]. Qed.
Lemma alike_names P F F' : alike P F F' -> map fst F' = map fst F.
Proof. unfold alike. induction 1 as [|p p' F F' (E1 & E2 & _) A IH]; cbn [map]; congruence. Qed.
Lemma same_particles_trans nx F G H : same_particles nx F G -> same_particles nx G H -> same_particles nx F H.
Proof. apply alike_trans. intros p q r E A B. congruence. Qed.
Lemma density_particles nx F F' : same_density nx F F' -> same_particles nx F F'.
Proof. apply alike_imp. intros p p' _ E H. unfold particles_of. rewrite E. now apply rsum_ext. Qed.
Lemma cells_density nx F F' : same_cells nx F F' -> same_density nx F F'.
Proof. apply alike_imp. intros p p' _ E H i Hi. apply rsum_ext. intros. now apply H. Qed.

(** Renaming the result of the integrator. *)
Lemma rename_alike (Q : species * dist -> species * dist -> Prop) F G :
  Forall2 (fun p p' => fst p = fst p' /\ Q p p') (f_of F) G -> alike (fun p p' => Q (snd p) (snd p')) F (rename F G).
Proof.
  unfold f_of, rename, alike. revert G. induction F as [|[n sf] F IH]; intros G H; cbn [map] in H; inversion H as [|? q ? G' [E HQ] H']; subst; cbn [map combine]; constructor.
  - cbn [fst snd sp_of]. unfold sp_of. cbn [fst snd]. auto.
  - now apply IH.
Qed.
Lemma good_even F : good F -> even_species (f_of F).
Proof. unfold good, even_species, f_of. induction 1 as [|p F H HF IH]; cbn [map]; constructor; [|exact IH]. destruct H as (A & B & _). split; assumption. Qed.
Lemma str_eqb_true a b : str_eqb a b = true <-> a = b.
Proof. apply str_eqb_eq. Qed.

(* ------------------------------------------------------------------------------------------------ *)
(** Collisions. *)
Lemma good_dv s : good_species s -> 0 < sp_dv s.
Proof. intros (He & Hn & Hv). unfold sp_dv. apply Rmult_lt_0_compat; [lra|]. apply Rinv_0_lt_compat. now apply lt_0_INR. Qed.
Lemma good_two s : good_species s -> (2 <= sp_nv s)%nat.
Proof. intros ([h E] & Hn & _). lia. Qed.
Lemma fp_row_density op sc s nu dt f f' : good_species s -> fp_row op sc (sp_nv s) (sp_v s) (sp_dv s) nu dt f f' -> rsum (sp_nv s) f' = rsum (sp_nv s) f.
Proof.
  intros G (beta & _ & H). destruct (fo_nodrag op).
  - apply (C51_nodrag_density _ _ _ _ _ _ _ _ _ _ (good_two s G) (good_dv s G) H).
  - apply (C32_density_conserved _ _ _ _ _ _ _ _ _ H).
Qed.
Lemma collide_density tm op nx dt nuf nuK s f f' : good_species s -> collide tm op nx dt nuf nuK s f f' ->
  forall i, (i < nx)%nat -> rsum (sp_nv s) (f' i) = rsum (sp_nv s) (f i).
Proof.
  intros G (f1 & H1 & H2) i Hi. transitivity (rsum (sp_nv s) (f1 i)).
  - destruct (t_krook_on tm); subst f'; [|reflexivity]. destruct G as (A & B & C). destruct (C52_krook (sp_nv s) (sp_v s) (sp_dv s) (t_T0 tm) (sp_m s) (nuK i) dt (f1 i) B (good_dv s (Logic.conj A (Logic.conj B C)))) as (_ & _ & E & _). exact E.
  - destruct (t_fp_on tm); [|now subst f1]. exact (fp_row_density op _ s _ dt (f i) (f1 i) G (H1 i Hi)).
Qed.
Lemma collisions_density tm op nx dt nuf nuK ref F F' : good F -> collisions tm op nx dt nuf nuK ref F F' -> same_density nx F F'.
Proof.
  unfold collisions, same_density, alike, good. intros G H. induction H as [|p p' F F' (E1 & E2 & E3) H IH]; constructor.
  - split; [exact E1|]. split; [exact E2|]. intros i Hi. destruct (str_eqb (fst p) ref); [|unfold df_of; now rewrite E3].
    apply (collide_density _ _ _ _ _ _ _ _ _ (Forall_inv G) E3 i Hi).
  - apply IH. exact (Forall_inv_tail G).
Qed.
(** The filter. *)
Lemma hou_li_particles nx alpha order s f : Nat.Even nx -> (0 < nx)%nat -> (0 < order)%nat ->
  rsum nx (fun i => rsum (sp_nv s) (hou_li nx alpha order f i)) = rsum nx (fun i => rsum (sp_nv s) (f i)).
Proof.
  intros He Hn Ho. change (rsum nx (fun i => rsum (sp_nv s) (fun j => hou_li nx alpha order f i j)) = rsum nx (fun i => rsum (sp_nv s) (fun j => f i j))).
  rewrite (rsum_swap nx (sp_nv s) (hou_li nx alpha order f)), (rsum_swap nx (sp_nv s) f). apply rsum_ext. intros j _. now apply C58_number.
Qed.
Definition filter_ok (g : setup) : Prop := match t_hou_li (g_terms g) with None => True | Some (_, order) => (0 < order)%nat end.
Lemma filtered_particles g F : Nat.Even (g_nx g) -> (0 < g_nx g)%nat -> filter_ok g -> same_particles (g_nx g) F (filtered g F).
Proof.
  intros He Hn Ho. unfold filtered, filter_ok in *. destruct (t_hou_li (g_terms g)) as [[alpha order]|]; [|now apply alike_refl].
  unfold same_particles, alike. induction F as [|[n [s f]] F IH]; cbn [map]; constructor; [|exact IH].
  cbn [fst snd]. unfold sp_of, particles_of, df_of, sp_of. cbn [fst snd]. repeat split. now apply hou_li_particles.
Qed.

(** The collisionless part, exponential velocity pusher. *)
Lemma vlasov_particles g F a prev dex e Fv : Nat.Even (g_nx g) -> (0 < g_nx g)%nat -> g_edfdv g = EExponential -> good F ->
  vlasov_poisson g F a prev dex = Some (e, Fv) -> same_particles (g_nx g) F Fv.
Proof.
  intros He Hn Hx G H. unfold vlasov_poisson in H.
  assert (K : forall G', same_numbers (g_nx g) (f_of F) G' -> same_particles (g_nx g) F (rename F G')).
  { intros G' S. apply (rename_alike (fun p p' => rsum (g_nx g) (fun i => rsum (sp_nv (fst p)) (snd p' i)) = rsum (g_nx g) (fun i => rsum (sp_nv (fst p)) (snd p i)))) in S.
    revert S. apply alike_imp. intros p p' _ E Q. unfold particles_of. rewrite E. exact Q. }
  rewrite Hx in H. destruct (g_time g).
  - destruct dex as [|d dex]; [discriminate|]. destruct (leapfrog (g_nx g) (g_dx g) (g_solver g) EExponential (g_dt g) (f_of F) a d prev) as [[e0 G0]|] eqn:L; [|discriminate].
    injection H as <- <-. apply K. exact (C61_leapfrog_number _ _ _ _ _ _ _ _ _ _ He Hn (good_even F G) L).
  - destruct (sixth (g_nx g) (g_dx g) (g_solver g) EExponential (g_dt g) (f_of F) a dex) as [[e0 G0]|] eqn:L; [|discriminate].
    injection H as <- <-. apply K. exact (C61_sixth_number _ _ _ _ _ _ _ _ _ He Hn (good_even F G) L).
Qed.

(* ------------------------------------------------------------------------------------------------ *)
(** Particle number of every species over a whole run with any collisions, filter (order at least 1), drivers and
    field solver. *)
Lemma step_particles g t y y' : Nat.Even (g_nx g) -> (0 < g_nx g)%nat -> g_edfdv g = EExponential -> filter_ok g -> good (y_f y) ->
  vm_step g t y y' -> same_particles (g_nx g) (y_f y) (y_f y').
Proof.
  intros He Hn Hx Ho G ((op & ref & Fv & Fc & H1 & H2 & H3 & H4 & H5 & _) & _).
  pose proof (vlasov_particles g _ _ _ _ _ _ He Hn Hx G H3) as A. pose proof (alike_good _ _ _ A G) as GA.
  pose proof (collisions_density _ _ _ _ _ _ _ _ _ GA H4) as B. rewrite H5.
  apply same_particles_trans with Fv; [exact A|]. apply same_particles_trans with Fc; [now apply density_particles|]. now apply filtered_particles.
Qed.
Theorem C65_number : forall g n t y y', Nat.Even (g_nx g) -> (0 < g_nx g)%nat -> g_edfdv g = EExponential -> filter_ok g -> good (y_f y) ->
  vm_run g n t y y' -> same_particles (g_nx g) (y_f y) (y_f y').
Proof.
  intros g n t y y' He Hn Hx Ho G R. induction R as [t y|n t y y1 y2 S R IH]; [now apply alike_refl|].
  pose proof (step_particles g t y y1 He Hn Hx Ho G S) as A. apply same_particles_trans with (y_f y1); [exact A|]. apply IH. exact (alike_good _ _ _ A G).
Qed.
Print Assumptions C65_number.

(* ------------------------------------------------------------------------------------------------ *)
(** Collisions act on one species only: "electron" if there is one, otherwise the first. Switching them off changes
    neither the field nor any other species. *)
Definition switch_off (g : setup) : setup :=
  let tm := g_terms g in
  {| g_nx := g_nx g; g_dx := g_dx g; g_dt := g_dt g; g_x := g_x g; g_xa := g_xa g; g_c := g_c g;
     g_solver := g_solver g; g_edfdv := g_edfdv g; g_time := g_time g;
     g_terms := {| t_fp_on := false; t_fp_type := t_fp_type tm; t_m := t_m tm; t_ratio := t_ratio tm; t_sc := t_sc tm; t_krook_on := false; t_T0 := t_T0 tm;
                   t_hou_li := t_hou_li tm; t_diag_v := t_diag_v tm; t_diag_fp := t_diag_fp tm |};
     g_ex := g_ex g; g_ey := g_ey g; g_stochastic := g_stochastic g; g_nu_fp := g_nu_fp g; g_nu_K := g_nu_K g |}.
Lemma collide_off tm op nx dt nuf nuK s f f' : t_fp_on tm = false -> t_krook_on tm = false -> collide tm op nx dt nuf nuK s f f' -> f' = f.
Proof. intros A B (f1 & H1 & H2). rewrite A in H1. rewrite B in H2. congruence. Qed.
Lemma collisions_off tm op nx dt nuf nuK ref F F' : t_fp_on tm = false -> t_krook_on tm = false -> collisions tm op nx dt nuf nuK ref F F' -> F' = F.
Proof.
  intros A B H. unfold collisions in H. induction H as [|[n [s f]] [n' [s' f']] F F' (E1 & E2 & E3) H IH]; [reflexivity|]. cbn [fst snd] in *. subst. f_equal.
  do 2 f_equal. destruct (str_eqb n ref); [now apply (collide_off tm op nx dt nuf nuK s)|exact E3].
Qed.
Lemma filtered_rel (P : str -> species -> Prop) g F G :
  Forall2 (fun p q => fst p = fst q /\ sp_of p = sp_of q /\ (P (fst p) (sp_of p) -> df_of p = df_of q)) F G ->
  Forall2 (fun p q => fst p = fst q /\ sp_of p = sp_of q /\ (P (fst p) (sp_of p) -> df_of p = df_of q)) (filtered g F) (filtered g G).
Proof.
  unfold filtered. destruct (t_hou_li (g_terms g)) as [[al o]|]; [|trivial]. induction 1 as [|[n [s f]] [n' [s' f']] F G (A & B & C) H IH]; cbn [map]; constructor; [|exact IH].
  unfold sp_of, df_of in *. cbn [fst snd] in *. split; [exact A|]. split; [exact B|]. intros HP. now rewrite C.
Qed.
Theorem C65_reference_only : forall g t y y' y'', vm_step g t y y' -> vm_step (switch_off g) t y y'' ->
  exists ref, (In electron (map fst (y_f y)) -> ref = electron) /\ (~ In electron (map fst (y_f y)) -> exists rest, map fst (y_f y) = ref :: rest) /\
    y_e y' = y_e y'' /\ y_de y' = y_de y'' /\ y_da y' = y_da y'' /\ y_diag_v y' = y_diag_v y'' /\
    Forall2 (fun p q => fst p = fst q /\ sp_of p = sp_of q /\ (fst p <> ref -> df_of p = df_of q)) (y_f y') (y_f y'').
Proof.
  intros g t y y' y'' (V & W & Da & De) (V' & W' & Da' & De'). cbv zeta in *.
  destruct V as (op & ref & Fv & Fc & H1 & H2 & H3 & H4 & H5 & H6 & H7). destruct V' as (op' & ref' & Fv' & Fc' & J1 & J2 & J3 & J4 & J5 & J6 & J7).
  change (vlasov_poisson (switch_off g) (y_f y) (y_a y) (y_e y) (map (fun d => total_dex (switch_off g) (t + d)) (dt_array (switch_off g))))
    with (vlasov_poisson g (y_f y) (y_a y) (y_e y) (map (fun d => total_dex g (t + d)) (dt_array g))) in J3.
  rewrite H3 in J3. injection J3 as Ee EF. subst Fv'. rewrite H2 in J2. injection J2 as <-.
  apply (collisions_off (g_terms (switch_off g))) in J4; try reflexivity. subst Fc'.
  exists ref. unfold ref_name in H2. split; [|split; [|split; [|split; [|split; [|split]]]]].
  - intros Hin. destruct (existsb (str_eqb electron) (map fst (y_f y))) eqn:E; [congruence|]. exfalso. rewrite <- not_true_iff_false, existsb_exists in E. apply E. exists electron. split; [exact Hin|]. now apply str_eqb_true.
  - intros Hin. destruct (existsb (str_eqb electron) (map fst (y_f y))) eqn:E.
    + exfalso. apply existsb_exists in E. destruct E as (n & Hn & En). apply str_eqb_true in En. subst n. contradiction.
    + destruct (map fst (y_f y)) as [|n rest]; [discriminate|]. injection H2 as ->. now exists rest.
  - exact Ee.
  - rewrite De, De'. reflexivity.
  - rewrite Da, Da'. reflexivity.
  - rewrite H6, J6. reflexivity.
  - rewrite H5, J5. change (filtered (switch_off g) Fv) with (filtered g Fv). apply (filtered_rel (fun n _ => n <> ref)). clear -H4. unfold collisions in H4.
    induction H4 as [|p p' F F' (E1 & E2 & E3) H IH]; constructor; [|exact IH]. unfold sp_of, df_of. split; [exact E1|]. split; [exact E2|]. intros Hne. rewrite E1 in Hne.
    destruct (str_eqb (fst p) ref) eqn:E; [apply str_eqb_true in E; contradiction|exact E3].
Qed.
Print Assumptions C65_reference_only.

(** Without the filter collisions change no density in any cell, hence not the potential either. *)
Lemma electron_charge_density nx F F' i : (i < nx)%nat -> same_density nx F F' -> electron_charge F' i = electron_charge F i.
Proof.
  intros Hi H. induction H as [|[n [s f]] [n' [s' f']] F F' (E1 & E2 & E3) H IH]; [reflexivity|]. unfold sp_of, df_of in *. cbn [fst snd electron_charge] in *. subst.
  destruct (str_eqb n electron); [|exact IH]. now rewrite E3.
Qed.
Lemma wave_step_ext nx c dx dt a aold djy ne ne' : (2 <= nx)%nat -> (forall i, (i < nx)%nat -> ne i = ne' i) ->
  forall h, (h < nx + 2)%nat -> fst (wave_step nx c dx dt a aold djy ne) h = fst (wave_step nx c dx dt a aold djy ne') h.
Proof.
  intros Hn H h Hh. unfold wave_step. destruct (Rlt_dec 0 c); [|reflexivity]. cbn [fst].
  assert (I : forall i, (1 <= i <= nx)%nat -> wave_interior c dx dt a aold djy ne i = wave_interior c dx dt a aold djy ne' i) by (intros i Hi; unfold wave_interior; rewrite H by lia; reflexivity).
  destruct (Nat.eqb_spec h 0); [unfold wave_left; cbv zeta; rewrite !I by lia; reflexivity|].
  destruct (Nat.eqb_spec h (nx + 1)); [unfold wave_right; cbv zeta; rewrite !I by lia; reflexivity|]. apply I. lia.
Qed.
Theorem C65_collisions_density : forall g t y y' y'', Nat.Even (g_nx g) -> (0 < g_nx g)%nat -> g_edfdv g = EExponential -> t_hou_li (g_terms g) = None -> good (y_f y) ->
  vm_step g t y y' -> vm_step (switch_off g) t y y'' ->
  same_density (g_nx g) (y_f y'') (y_f y') /\ (forall h, (h < g_nx g + 2)%nat -> y_a y' h = y_a y'' h) /\ y_prev_a y' = y_prev_a y''.
Proof.
  intros g t y y' y'' He Hn Hx Ho G (V & (W1 & W2) & Da & De) (V' & (W1' & W2') & Da' & De'). cbv zeta in *.
  destruct V as (op & ref & Fv & Fc & H1 & H2 & H3 & H4 & H5 & _). destruct V' as (op' & ref' & Fv' & Fc' & J1 & J2 & J3 & J4 & J5 & _).
  change (vlasov_poisson (switch_off g) (y_f y) (y_a y) (y_e y) (map (fun d => total_dex (switch_off g) (t + d)) (dt_array (switch_off g))))
    with (vlasov_poisson g (y_f y) (y_a y) (y_e y) (map (fun d => total_dex g (t + d)) (dt_array g))) in J3.
  pose proof (vlasov_particles g _ _ _ _ _ _ He Hn Hx G H3) as A. pose proof (alike_good _ _ _ A G) as GA.
  rewrite H3 in J3. injection J3 as Ee EF. subst Fv'. apply (collisions_off (g_terms (switch_off g))) in J4; try reflexivity. subst Fc'.
  assert (S : same_density (g_nx g) (y_f y'') (y_f y')).
  { rewrite H5, J5. unfold filtered. cbn [switch_off g_terms t_hou_li]. rewrite Ho. exact (collisions_density _ _ _ _ _ _ _ _ _ GA H4). }
  split; [exact S|]. split.
  - intros h Hh. rewrite W1, W1'. cbn [switch_off g_nx g_c g_dx g_dt g_xa g_ey]. destruct He as [m Em].
    apply (wave_step_ext (g_nx g)); [lia| |exact Hh]. intros i Hi. rewrite (electron_charge_density (g_nx g) (y_f y'') (y_f y') i Hi S). reflexivity.
  - rewrite W2, W2'. unfold wave_step. cbn [switch_off g_c]. destruct (Rlt_dec 0 (g_c g)); reflexivity.
Qed.
Print Assumptions C65_collisions_density.

(* ------------------------------------------------------------------------------------------------ *)
(** Diagnostics: for the reference species, new = old + dt (diag-vlasov-dfdt + diag-fp-dfdt) in every cell. *)
Lemma lookup_rel P F F' n : alike P F F' -> (exists f, lookup n F = Some f) -> exists f', lookup n F' = Some f'.
Proof.
  unfold alike. induction 1 as [|[m [s f]] [m' [s' f']] F F' (E1 & E2 & _) H IH]; intros [h Hh]; [discriminate|]. cbn [fst] in E1. subst m'. cbn [lookup] in *.
  destruct (str_eqb m n); [now exists f'|]. apply IH. now exists h.
Qed.
Lemma lookup_in F n : In n (map fst F) -> exists f, lookup n F = Some f.
Proof.
  induction F as [|[m [s f]] F IH]; cbn [map fst lookup]; [intros []|]. intros [->|H]; [rewrite (proj2 (str_eqb_true n n) eq_refl); now exists f|]. destruct (str_eqb m n); [now exists f|now apply IH].
Qed.
Lemma ref_in l n : ref_name l = Some n -> In n l.
Proof.
  unfold ref_name. destruct (existsb (str_eqb electron) l) eqn:E; intros H.
  - injection H as <-. apply existsb_exists in E. destruct E as (m & Hm & Em). apply str_eqb_true in Em. now subst m.
  - destruct l; [discriminate|]. injection H as ->. now left.
Qed.
Lemma filtered_alike g F : alike (fun _ _ => True) F (filtered g F).
Proof. unfold filtered. destruct (t_hou_li (g_terms g)) as [[al o]|]; [|now apply alike_refl]. unfold alike. induction F as [|[n [s f]] F IH]; cbn [map]; constructor; auto. Qed.
Lemma collisions_alike tm op nx dt nuf nuK ref F F' : collisions tm op nx dt nuf nuK ref F F' -> alike (fun _ _ => True) F F'.
Proof. unfold collisions, alike. induction 1 as [|p p' F F' (A & B & _) H IH]; constructor; auto. Qed.
Lemma map_f_2 h F : Forall2 (fun p p' : species * dist => fst p = fst p' /\ True) F (map_f h F).
Proof. unfold map_f. induction F; cbn [map]; constructor; auto. Qed.
Lemma f2_trans (F G H : fdict) : Forall2 (fun p p' : species * dist => fst p = fst p' /\ True) F G -> Forall2 (fun p p' : species * dist => fst p = fst p' /\ True) G H ->
  Forall2 (fun p p' : species * dist => fst p = fst p' /\ True) F H.
Proof. intros A. revert H. induction A as [|p q F G [E _] A IH]; intros H B; inversion B as [|? r ? H' [E' _] B']; subst; constructor; [split; [congruence|trivial]|now apply IH]. Qed.
Lemma vlasov_alike g F a prev dex e Fv : vlasov_poisson g F a prev dex = Some (e, Fv) -> alike (fun _ _ => True) F Fv.
Proof.
  intros H. unfold vlasov_poisson in H.
  assert (K : forall G, Forall2 (fun p p' : species * dist => fst p = fst p' /\ True) (f_of F) G -> alike (fun _ _ => True) F (rename F G)) by (intros G S; exact (rename_alike (fun _ _ => True) F G S)).
  destruct (g_time g).
  - destruct dex as [|d dex]; [discriminate|]. unfold leapfrog in H. destruct (field_solve _ _ _ _ _ _); [|discriminate]. injection H as <- <-. apply K. eapply f2_trans; apply map_f_2.
  - destruct (sixth _ _ _ _ _ _ _ _) as [[e0 G0]|] eqn:L; [|discriminate]. injection H as <- <-. apply K. unfold sixth in L. revert L.
    generalize (combine (sixth_stages (g_dt g)) dex) (fun _ : nat => 0) (ponderomotive (g_nx g) (g_dx g) a) (f_of F). intros l. induction l as [|[st d] l IH]; intros e1 pond F1 L; cbn [sixth_run] in L.
    + injection L as <- <-. clear. induction F1; constructor; auto.
    + destruct (sixth_stage _ _ _ _ _ _ _ _ _) as [[e2 F2]|] eqn:S; [|discriminate]. apply f2_trans with F2; [|exact (IH _ _ _ L)]. unfold sixth_stage in S.
      destruct (g_solver g); try discriminate; destruct (field_solve _ _ _ _ _ _); try discriminate; injection S as <- <-; (destruct (fst st); [eapply f2_trans; apply map_f_2|apply map_f_2]).
Qed.
Theorem C65_diagnostics : forall g t y y', g_dt g <> 0 -> t_diag_v (g_terms g) = true -> t_diag_fp (g_terms g) = true -> vm_step g t y y' ->
  exists ref f f' d1 d2, ref_name (map fst (y_f y)) = Some ref /\ lookup ref (y_f y) = Some f /\ lookup ref (y_f y') = Some f' /\
    y_diag_v y' = Some d1 /\ y_diag_fp y' = Some d2 /\ (forall i j, f' i j = f i j + g_dt g * (d1 i j + d2 i j)) /\
    (* with all collisions off the second term is what the filter did, and nothing without filter *)
    (t_fp_on (g_terms g) = false -> t_krook_on (g_terms g) = false ->
       (t_hou_li (g_terms g) = None -> forall i j, d2 i j = 0) /\
       (forall alpha order, t_hou_li (g_terms g) = Some (alpha, order) -> exists f1, (forall i j, f1 i j = f i j + g_dt g * d1 i j) /\ forall i j, g_dt g * d2 i j = hou_li (g_nx g) alpha order f1 i j - f1 i j)).
Proof.
  intros g t y y' Hdt Hv Hp ((op & ref & Fv & Fc & H1 & H2 & H3 & H4 & H5 & H6 & H7) & _). rewrite Hv in H6. rewrite Hp in H7.
  destruct (lookup_in (y_f y) ref (ref_in _ _ H2)) as (f & Lf). destruct (lookup_rel _ _ _ ref (vlasov_alike _ _ _ _ _ _ _ H3) (ex_intro _ f Lf)) as (fv & Lv).
  destruct (lookup_rel _ _ _ ref (collisions_alike _ _ _ _ _ _ _ _ _ H4) (ex_intro _ fv Lv)) as (fc & Lc).
  destruct (lookup_rel _ _ _ ref (filtered_alike g Fc) (ex_intro _ fc Lc)) as (f' & Lf'). rewrite <- H5 in Lf'.
  unfold diag in H6, H7. rewrite Lf, Lv in H6. rewrite Lv, Lf' in H7.
  exists ref, f, f', (fun i j => (fv i j - f i j) / g_dt g), (fun i j => (f' i j - fv i j) / g_dt g). repeat (split; [assumption|]). split; [intros; field; exact Hdt|].
  intros Hf Hk. apply collisions_off in H4; [|exact Hf|exact Hk]. subst Fc. rewrite Lv in Lc. injection Lc as <-. split.
  - intros Hl i j. unfold filtered in H5. rewrite Hl in H5. rewrite H5, Lv in Lf'. injection Lf' as <-. field. exact Hdt.
  - intros alpha order Hl. exists fv. split; [intros; field; exact Hdt|]. intros i j. replace (g_dt g * ((f' i j - fv i j) / g_dt g)) with (f' i j - fv i j) by (field; exact Hdt).
    assert (E : f' = hou_li (g_nx g) alpha order fv); [|now rewrite E]. unfold filtered in H5. rewrite Hl in H5. rewrite H5 in Lf'. clear -Lf' Lv. induction Fv as [|[n [s h]] F IH]; [discriminate|].
    cbn [map lookup fst snd] in *. destruct (str_eqb n ref); [congruence|now apply IH].
Qed.
Print Assumptions C65_diagnostics.

(* ------------------------------------------------------------------------------------------------ *)
(** The transverse wave and the times at which the drivers are evaluated. The source that enters the update centred
    at t is the one at t + dt (leapfrog) or t + a1 dt (sixth order). Only the species named "electron" loads the wave. *)
Lemma electron_lookup s f F i : electron_charge ((electron, (s, f)) :: F) i = sp_q s * rsum (sp_nv s) (f i) * sp_dv s.
Proof. cbn [electron_charge]. now rewrite (proj2 (str_eqb_true electron electron) eq_refl). Qed.
Theorem C65_wave : forall g t y y' s f f' pre post pre' post', vm_step g t y y' -> 0 < g_c g ->
  y_f y = pre ++ (electron, (s, f)) :: post -> y_f y' = pre' ++ (electron, (s, f')) :: post' -> ~ In electron (map fst pre) -> ~ In electron (map fst pre') ->
  let t1 := match g_time g with Leapfrog => t + g_dt g | Sixth => t + sa1 * g_dt g end in
  forall i, (i < g_nx g)%nat ->
  y_a y' (i + 1)%nat - 2 * y_a y (i + 1)%nat + y_prev_a y (i + 1)%nat =
  g_dt g ^ 2 * (g_c g ^ 2 * (y_a y i - 2 * y_a y (i + 1)%nat + y_a y (i + 2)%nat) / g_dx g ^ 2
     - (- sp_q s) * sp_dv s * ((rsum (sp_nv s) (f i) + rsum (sp_nv s) (f' i)) / 2) * y_a y (i + 1)%nat
     + ey_drive (g_nx g + 2) (g_xa g) (g_c g) (g_ey g) t1 (i + 1)) /\
  y_prev_a y' = y_a y.
Proof.
  intros g t y y' s f f' pre post pre' post' (_ & (W1 & W2) & _) Hc Ef Ef' Hp Hp' t1 i Hi. cbv zeta in W1, W2.
  assert (K : forall pre s f post j, ~ In electron (map fst pre) -> electron_charge (pre ++ (electron, (s, f)) :: post) j = sp_q s * rsum (sp_nv s) (f j) * sp_dv s).
  { clear. induction pre as [|[n [s0 f0]] pre IH]; intros s f post j H; [apply electron_lookup|]. cbn [app electron_charge]. destruct (str_eqb n electron) eqn:E; [|apply IH; intros C; apply H; now right].
    apply str_eqb_true in E. exfalso. apply H. now left. }
  assert (T1 : t + nth 1 (dt_array g) 0 = t1) by (unfold t1, dt_array, sixth_times; destruct (g_time g); cbn [map nth]; ring).
  rewrite T1 in *. unfold wave_step in W1, W2. destruct (Rlt_dec 0 (g_c g)); [|contradiction]. cbn [fst snd] in W1, W2. split; [|exact W2].
  rewrite W1. replace ((i + 1 =? 0)%nat) with false by (symmetry; apply Nat.eqb_neq; lia). replace ((i + 1 =? g_nx g + 1)%nat) with false by (symmetry; apply Nat.eqb_neq; lia).
  unfold wave_interior. replace (i + 1 - 1)%nat with i by lia. replace (i + 1 + 1)%nat with (i + 2)%nat by lia. rewrite Ef, Ef', !K by assumption. unfold Rdiv. ring.
Qed.
Print Assumptions C65_wave.
Theorem C65_no_electron : forall g t y y', vm_step g t y y' -> 0 < g_c g -> ~ In electron (map fst (y_f y)) ->
  forall i, (i < g_nx g)%nat ->
  y_a y' (i + 1)%nat - 2 * y_a y (i + 1)%nat + y_prev_a y (i + 1)%nat =
  g_dt g ^ 2 * (g_c g ^ 2 * (y_a y i - 2 * y_a y (i + 1)%nat + y_a y (i + 2)%nat) / g_dx g ^ 2 + y_da y' (i + 1)%nat).
Proof.
  intros g t y y' (V & (W1 & W2) & Da & _) Hc Hp i Hi. cbv zeta in W1, Da.
  destruct V as (op & ref & Fv & Fc & H1 & H2 & H3 & H4 & H5 & _).
  assert (N : map fst (y_f y') = map fst (y_f y)).
  { rewrite H5, (alike_names _ _ _ (filtered_alike g Fc)), (alike_names _ _ _ (collisions_alike _ _ _ _ _ _ _ _ _ H4)). exact (alike_names _ _ _ (vlasov_alike _ _ _ _ _ _ _ H3)). }
  assert (K : forall F j, ~ In electron (map fst F) -> electron_charge F j = 0).
  { clear. induction F as [|[n [s f]] F IH]; intros j H; [reflexivity|]. cbn [electron_charge]. destruct (str_eqb n electron) eqn:E; [apply str_eqb_true in E; exfalso; apply H; now left|]. apply IH. intros C. apply H. now right. }
  rewrite W1, <- Da. unfold wave_step. destruct (Rlt_dec 0 (g_c g)); [|contradiction]. cbn [fst].
  replace ((i + 1 =? 0)%nat) with false by (symmetry; apply Nat.eqb_neq; lia). replace ((i + 1 =? g_nx g + 1)%nat) with false by (symmetry; apply Nat.eqb_neq; lia).
  unfold wave_interior. replace (i + 1 - 1)%nat with i by lia. replace (i + 1 + 1)%nat with (i + 2)%nat by lia. rewrite !K by (rewrite ?N; assumption). unfold Rdiv. ring.
Qed.
Print Assumptions C65_no_electron.
Theorem C65_driver_times : forall g t y y', vm_step g t y y' ->
  (g_time g = Leapfrog -> forall i, y_de y' i = ex_drive (g_ex g) (g_x g i) t + match g_stochastic g with Some h => h t (g_x g i) | None => 0 end) /\
  (g_time g = Sixth -> let t3 := t + (sa1 + sa2 + sa3) * g_dt g in
     forall i, y_de y' i = ex_drive (g_ex g) (g_x g i) t3 + match g_stochastic g with Some h => h t3 (g_x g i) | None => 0 end) /\
  (forall i, y_da y' i = ey_drive (g_nx g + 2) (g_xa g) (g_c g) (g_ey g) (match g_time g with Leapfrog => t + g_dt g | Sixth => t + sa1 * g_dt g end) i).
Proof.
  intros g t y y' (_ & _ & Da & De). cbv zeta in De. split; [|split].
  - intros H i. rewrite De. unfold dt_array. rewrite H. cbn [map nth]. replace (t + g_dt g * 0) with t by ring. reflexivity.
  - intros H t3 i. rewrite De. unfold dt_array, sixth_times. rewrite H. cbn [map nth]. replace (t + g_dt g * (sa1 + sa2 + sa3)) with t3 by (unfold t3; ring). reflexivity.
  - intros i. rewrite Da. f_equal. unfold dt_array, sixth_times. destruct (g_time g); cbn [map nth]; ring.
Qed.
Print Assumptions C65_driver_times.
(** Without transverse drivers a potential that starts at rest at zero stays zero for ever. *)
Theorem C65_no_potential : forall g n t y y', g_ey g = [] -> (2 <= g_nx g)%nat ->
  (forall h, (h < g_nx g + 2)%nat -> y_a y h = 0 /\ y_prev_a y h = 0) -> vm_run g n t y y' ->
  forall h, (h < g_nx g + 2)%nat -> y_a y' h = 0 /\ y_prev_a y' h = 0.
Proof.
  intros g n t y y' Hey Hn H0 R. induction R as [t y|n t y y1 y2 S R IH]; [exact H0|]. apply IH. clear IH R.
  destruct S as (_ & (W1 & W2) & _). cbv zeta in W1, W2. rewrite Hey in W1, W2. unfold ey_drive in W1, W2. cbn [fold_left] in W1, W2.
  revert W1 W2. generalize (fun i : nat => - (1 / 2) * (electron_charge (y_f y) i + electron_charge (y_f y1) i)). intros ne W1 W2.
  assert (I : forall i, (1 <= i <= g_nx g)%nat -> wave_interior (g_c g) (g_dx g) (g_dt g) (y_a y) (y_prev_a y) (fun _ => 0) ne i = 0).
  { intros i Hi. unfold wave_interior. rewrite (proj1 (H0 i ltac:(lia))), (proj2 (H0 i ltac:(lia))), (proj1 (H0 (i - 1)%nat ltac:(lia))), (proj1 (H0 (i + 1)%nat ltac:(lia))). unfold Rdiv. ring. }
  intros h Hh. rewrite W1, W2. unfold wave_step. destruct (Rlt_dec 0 (g_c g)); cbn [fst snd]; [|exact (H0 h Hh)]. split; [|exact (proj1 (H0 h Hh))].
  destruct (Nat.eqb_spec h 0).
  - unfold wave_left. cbv zeta. rewrite !I by lia. unfold abc. rewrite (proj1 (H0 0%nat ltac:(lia))), (proj1 (H0 1%nat ltac:(lia))), (proj1 (H0 2%nat ltac:(lia))), (proj2 (H0 0%nat ltac:(lia))), (proj2 (H0 1%nat ltac:(lia))), (proj2 (H0 2%nat ltac:(lia))). ring.
  - destruct (Nat.eqb_spec h (g_nx g + 1)); [|apply I; lia]. unfold wave_right. cbv zeta. rewrite !I by lia. unfold abc.
    rewrite (proj1 (H0 (g_nx g + 1)%nat ltac:(lia))), (proj1 (H0 (g_nx g) ltac:(lia))), (proj1 (H0 (g_nx g - 1)%nat ltac:(lia))), (proj2 (H0 (g_nx g + 1)%nat ltac:(lia))), (proj2 (H0 (g_nx g) ltac:(lia))), (proj2 (H0 (g_nx g - 1)%nat ltac:(lia))). ring.
Qed.
Print Assumptions C65_no_potential.

(* ------------------------------------------------------------------------------------------------ *)
(** With the Poisson solver and no filter the returned field is that of the returned distributions, collisions
    included; with the filter every wave of the returned charge density is damped by the filter factor, the field is not. *)
Lemma charge_rel nx F F' i : (i < nx)%nat -> same_density nx F F' -> charge_density (f_of F') i = charge_density (f_of F) i.
Proof.
  intros Hi H. rewrite !charge_sum. unfold f_of, sum_list. induction H as [|[n [s f]] [n' [s' f']] F F' (E1 & E2 & E3) H IH]; [reflexivity|]. unfold sp_of, df_of in *. cbn [map fold_right fst snd] in *. subst.
  rewrite IH. unfold density. now rewrite E3.
Qed.
Lemma F2_length {A B} (P : A -> B -> Prop) l l' : Forall2 P l l' -> List.length l = List.length l'.
Proof. induction 1; cbn; congruence. Qed.
Lemma f_rename F G : List.length G = List.length F -> f_of (rename F G) = G.
Proof. unfold f_of, rename. revert G. induction F as [|p F IH]; intros [|q G] H; cbn in *; try discriminate; [reflexivity|]. f_equal. apply IH. lia. Qed.
Lemma vlasov_field g F a prev dex e Fv static : Nat.Even (g_nx g) -> (0 < g_nx g)%nat -> g_edfdv g = EExponential -> g_solver g = SPoisson static -> good F ->
  (g_time g = Sixth -> List.length dex = 6%nat) ->
  vlasov_poisson g F a prev dex = Some (e, Fv) -> forall i, e i = poisson (g_nx g) (g_dx g) static (f_of Fv) i.
Proof.
  intros He Hn Hx Hs G Hl H. pose proof (vlasov_alike _ _ _ _ _ _ _ H) as A. unfold vlasov_poisson in H. rewrite Hx, Hs in H. destruct (g_time g).
  - destruct dex as [|d dex]; [discriminate|]. destruct (leapfrog _ _ _ _ _ _ _ _ _) as [[e0 G0]|] eqn:L; [|discriminate]. injection H as <- <-.
    pose proof (C61_leapfrog_number _ _ _ _ _ _ _ _ _ _ He Hn (good_even F G) L) as S. rewrite f_rename by (symmetry; transitivity (List.length (f_of F)); [unfold f_of; symmetry; apply map_length|exact (F2_length _ _ _ S)]).
    exact (C61_leapfrog_field _ _ _ _ _ _ _ _ _ _ (good_even F G) L).
  - destruct (sixth _ _ _ _ _ _ _ _) as [[e0 G0]|] eqn:L; [|discriminate]. injection H as <- <-.
    pose proof (C61_sixth_number _ _ _ _ _ _ _ _ _ He Hn (good_even F G) L) as S. rewrite f_rename by (symmetry; transitivity (List.length (f_of F)); [unfold f_of; symmetry; apply map_length|exact (F2_length _ _ _ S)]).
    exact (C61_sixth_field _ _ _ _ _ _ _ _ _ (good_even F G) (Hl eq_refl) He Hn L).
Qed.
Lemma dex_length g t : g_time g = Sixth -> List.length (map (fun d => total_dex g (t + d)) (dt_array g)) = 6%nat.
Proof. intros H. unfold dt_array, sixth_times. rewrite H. reflexivity. Qed.
Lemma filter_charge g F k alpha order : Nat.Even (g_nx g) -> (k < g_nx g)%nat -> (2 * k < g_nx g)%nat -> t_hou_li (g_terms g) = Some (alpha, order) ->
  fft (g_nx g) (charge_density (f_of (filtered g F))) k = cscal (exp (- alpha * (INR k / INR (g_nx g / 2)) ^ (2 * order))) (fft (g_nx g) (charge_density (f_of F)) k).
Proof.
  intros He Hk H2 Hl. unfold filtered. rewrite Hl.
  rewrite (fft_ext (g_nx g) (charge_density (f_of F)) (fun i => sum_list (fun p => sp_q (fst p) * density (fst p) (snd p) i) (f_of F))) by (intros; apply charge_sum).
  match goal with |- fft _ (charge_density ?G) _ = _ => rewrite (fft_ext (g_nx g) (charge_density G) (fun i => sum_list (fun p => sp_q (fst p) * density (fst p) (snd p) i) G)) by (intros; apply charge_sum) end.
  unfold f_of, sum_list. induction F as [|[n [s f]] F IH]; cbn [map fold_right fst snd].
  - unfold fft. rewrite <- csum_scal. apply csum_ext. intros. creal.
  - rewrite !fft_add, IH. 
    assert (D : forall h, fft (g_nx g) (fun i => sp_q s * density s h i) k = cscal (sp_q s * sp_dv s) (csum (sp_nv s) (fun j => fft (g_nx g) (fun i => h i j) k))).
    { intros h. replace (fft (g_nx g) (fun i => sp_q s * density s h i) k) with (cscal (sp_q s) (fft (g_nx g) (density s h) k)) by (unfold fft; rewrite <- csum_scal; apply csum_ext; intros; creal).
      rewrite fft_density. generalize (csum (sp_nv s) (fun j => fft (g_nx g) (fun i => h i j) k)). intros z. creal. }
    rewrite !D. 
    assert (W : forall j, fft (g_nx g) (fun i => hou_li (g_nx g) alpha order f i j) k = cscal (exp (- alpha * (INR k / INR (g_nx g / 2)) ^ (2 * order))) (fft (g_nx g) (fun i => f i j) k)).
    { intros j. rewrite (fft_ext (g_nx g) (fun i => hou_li (g_nx g) alpha order f i j) (smul (g_nx g) (hlM (g_nx g) alpha order) (fun i => f i j))) by (intros; now apply hou_li_smul).
      rewrite fft_smul by lia. assert (Heff : eff (g_nx g) (hlM (g_nx g) alpha order) k = hlM (g_nx g) alpha order k) by (unfold eff, hlM; destruct (_ || _)%bool; reflexivity). rewrite Heff. unfold hlM, hou_li_sigma. creal. }
    rewrite (csum_ext (sp_nv s) (fun j => fft (g_nx g) (fun i => hou_li (g_nx g) alpha order f i j) k) (fun j => cscal (exp (- alpha * (INR k / INR (g_nx g / 2)) ^ (2 * order))) (fft (g_nx g) (fun i => f i j) k))) by (intros; apply W).
    rewrite csum_scal. generalize (csum (sp_nv s) (fun j => fft (g_nx g) (fun i => f i j) k)). intros z. creal.
Qed.
Theorem C65_field : forall g t y y' static, Nat.Even (g_nx g) -> (0 < g_nx g)%nat -> g_edfdv g = EExponential -> g_solver g = SPoisson static -> good (y_f y) -> vm_step g t y y' ->
  (t_hou_li (g_terms g) = None -> forall i, y_e y' i = poisson (g_nx g) (g_dx g) static (f_of (y_f y')) i) /\
  (forall alpha order, t_hou_li (g_terms g) = Some (alpha, order) -> exists rho,
     (forall i, y_e y' i = spectral_poisson (g_nx g) (g_dx g) static rho i) /\
     forall k, (2 * k < g_nx g)%nat -> fft (g_nx g) (charge_density (f_of (y_f y'))) k = cscal (exp (- alpha * (INR k / INR (g_nx g / 2)) ^ (2 * order))) (fft (g_nx g) rho k)).
Proof.
  intros g t y y' static He Hn Hx Hs G ((op & ref & Fv & Fc & H1 & H2 & H3 & H4 & H5 & _) & _).
  pose proof (vlasov_field g _ _ _ _ _ _ static He Hn Hx Hs G (dex_length g t) H3) as Hf.
  pose proof (vlasov_particles g _ _ _ _ _ _ He Hn Hx G H3) as A. pose proof (collisions_density _ _ _ _ _ _ _ _ _ (alike_good _ _ _ A G) H4) as B. split.
  - intros Hl i. rewrite Hf, H5. unfold filtered. rewrite Hl. apply poisson_ext. intros h Hh. symmetry. now apply (charge_rel (g_nx g)).
  - intros alpha order Hl. exists (charge_density (f_of Fc)). split.
    + intros i. rewrite Hf. change (spectral_poisson (g_nx g) (g_dx g) static (charge_density (f_of Fc)) i) with (poisson (g_nx g) (g_dx g) static (f_of Fc) i). apply poisson_ext. intros h Hh. symmetry. now apply (charge_rel (g_nx g)).
    + intros k Hk. rewrite H5. apply filter_charge; try assumption. lia.
Qed.
Print Assumptions C65_field.

(* ------------------------------------------------------------------------------------------------ *)
(** A plasma that is uniform in x, undriven and without collisions stays exactly as it is, for any number of steps,
    either integrator, either velocity pusher, the Poisson or Boltzmann field, and with the filter. *)
Definition fcells (nx : nat) (F F' : fdict) : Prop :=
  Forall2 (fun p p' => fst p = fst p' /\ forall i j, (i < nx)%nat -> (j < sp_nv (fst p))%nat -> snd p' i j = snd p i j) F F'.
Definition funiform (nx : nat) (F : fdict) : Prop := Forall (fun p => exists h : nat -> R, forall i j, (i < nx)%nat -> (j < sp_nv (fst p))%nat -> snd p i j = h j) F.
Definition fgood (F : fdict) : Prop := Forall (fun p => good_species (fst p)) F.
Lemma fcells_trans nx F G H : fcells nx F G -> fcells nx G H -> fcells nx F H.
Proof.
  unfold fcells. intros A. revert H. induction A as [|p q F G [E1 E2] A IH]; intros H B; inversion B as [|? r ? H' [E3 E4] B']; subst; constructor; [|now apply IH].
  split; [congruence|]. intros i j Hi Hj. rewrite E4 by (try assumption; rewrite <- E1; assumption). now apply E2.
Qed.
Lemma fcells_uniform nx F G : fcells nx F G -> funiform nx F -> funiform nx G.
Proof.
  unfold fcells, funiform. induction 1 as [|p q F G [E1 E2] A IH]; intros H; constructor; [|apply IH; exact (Forall_inv_tail H)].
  destruct (Forall_inv H) as [h Hh]. exists h. intros i j Hi Hj. rewrite <- E1 in Hj. rewrite E2 by assumption. now apply Hh.
Qed.
Lemma fcells_good nx F G : fcells nx F G -> fgood F -> fgood G.
Proof.
  unfold fcells, fgood. induction 1 as [|p q F G [E1 E2] A IH]; intros H; [constructor|]. constructor; [destruct p, q; cbn [fst] in *; subst; exact (Forall_inv H)|]. apply IH. exact (Forall_inv_tail H).
Qed.
Lemma fcells_map nx F h : (forall s f, In (s, f) F -> forall i j, (i < nx)%nat -> (j < sp_nv s)%nat -> h s f i j = f i j) -> fcells nx F (map_f h F).
Proof.
  unfold fcells, map_f. induction F as [|[s f] F IH]; intros H; cbn [map]; constructor.
  - split; [reflexivity|]. cbn [fst snd]. apply H. now left.
  - apply IH. intros. apply H; [now right|assumption|assumption].
Qed.
Lemma fcells_refl nx F : fcells nx F F.
Proof. unfold fcells. induction F; constructor; auto. Qed.
Lemma uniform_x nx dx c F : Nat.Even nx -> dx <> 0 -> funiform nx F -> fcells nx F (map_f (fun s f => space_push nx dx s c f) F).
Proof.
  intros He Hd U. apply fcells_map. intros s f Hin i j Hi Hj. unfold funiform in U. rewrite Forall_forall in U. destruct (U _ Hin) as [h Hh]. cbn [fst snd] in Hh.
  rewrite (C56_wave nx dx s c f j 0 (h j) 0 He Hd ltac:(lia)); [|intros l Hl|exact Hi].
  - rewrite Hh by assumption. change (INR 0) with 0. unfold Rdiv. rewrite Rmult_0_r, !Rmult_0_l, Rplus_0_l, cos_0. ring.
  - rewrite Hh by assumption. change (INR 0) with 0. unfold Rdiv. rewrite Rmult_0_r, !Rmult_0_l, Rplus_0_l, cos_0. ring.
Qed.
Lemma quiet_v nx ed e pond dt F : fgood F -> (forall i, (i < nx)%nat -> e i = 0 /\ pond i = 0) -> fcells nx F (map_f (fun s f => v_push ed s e pond dt f) F).
Proof.
  intros G H. apply fcells_map. intros s f Hin i j Hi Hj. unfold fgood in G. rewrite Forall_forall in G. pose proof (G _ Hin) as Gs. cbn [fst] in Gs. destruct (H i Hi) as [E P]. destruct ed; cbn [v_push].
  - apply C57_no_force; [exact (proj1 Gs)|exact Hj|]. right. left. now split.
  - replace (sp_accel s e pond i * dt / sp_dv s) with 0 by (unfold sp_accel; rewrite E, P; unfold Rdiv; ring). apply C43_zero_shift; [now apply good_two|exact Hj].
Qed.
Lemma uniform_charge nx F : funiform nx F -> exists c, forall i, (i < nx)%nat -> charge_density F i = c.
Proof.
  intros U. exists (charge_density F 0). intros i Hi. rewrite !charge_sum. unfold sum_list. induction U as [|[s f] F [h Hh] U IH]; cbn [fold_right fst snd] in *; [reflexivity|]. rewrite IH. do 2 f_equal. unfold density. f_equal.
  apply rsum_ext. intros j Hj. rewrite !Hh; try assumption; try reflexivity. lia.
Qed.
Lemma boltzmann_uniform nx dx Te lam F c : (0 < nx)%nat -> (forall i, (i < nx)%nat -> charge_density F i = c) -> forall g, boltzmann nx dx Te lam F g = 0.
Proof.
  intros Hn H g. unfold boltzmann. cbv zeta. rewrite (ifft_ext nx _ (fun _ => c0)).
  - unfold ifft. rewrite (csum_ext nx _ (fun _ => cscal 0 c0)) by (intros; creal). rewrite csum_scal. unfold cscal. cbn [fst]. ring.
  - intros k Hk. destruct k as [|k].
    + unfold boltzmann_kernel. rewrite kx_0 by exact Hn. unfold Rdiv. rewrite !Rmult_0_l. creal.
    + rewrite (fft_ext nx (charge_density F) (fun _ => c)) by exact H. rewrite fft_const by lia. creal.
Qed.
Definition quiet_field (nx : nat) (sol : solver) : Prop :=
  match sol with SPoisson None => True | SPoisson (Some b) => exists c, forall i, (i < nx)%nat -> b i = c | SBoltzmann _ _ => True | _ => False end.
Lemma uniform_field nx dx sol F prev dt e : (0 < nx)%nat -> quiet_field nx sol -> funiform nx F -> field_solve nx dx sol F prev dt = Some e -> forall i, e i = 0.
Proof.
  intros Hn Hs U H i. destruct (uniform_charge nx F U) as [c Hc]. destruct F as [|[s f] F]; [discriminate|]. destruct sol as [st|Te lam| |]; cbn [field_solve quiet_field] in *; try contradiction; injection H as <-.
  - destruct st as [b|]; [destruct Hs as [cb Hb]; apply (C59_neutral_no_field nx dx (Some b) _ (c + cb) Hn)|apply (C59_neutral_no_field nx dx None _ (c + 0) Hn)]; intros h Hh; rewrite Hc by exact Hh; [now rewrite Hb|reflexivity].
  - now apply (boltzmann_uniform nx dx Te lam _ c).
Qed.
Lemma ponder_zero nx dx a : (0 < nx)%nat -> (forall h, (h < nx + 2)%nat -> a h = 0) -> forall i, (i < nx)%nat -> ponderomotive nx dx a i = 0.
Proof.
  intros Hn H i Hi. unfold ponderomotive, gradient. replace ((i + 1 =? 0)%nat) with false by (symmetry; apply Nat.eqb_neq; lia).
  replace ((i + 1 =? nx + 2 - 1)%nat) with false by (symmetry; apply Nat.eqb_neq; lia). rewrite !H by lia. unfold Rdiv. ring.
Qed.
Lemma vlasov_steady g F (a prev : profile) (dex : list profile) e Fv : Nat.Even (g_nx g) -> (0 < g_nx g)%nat -> g_dx g <> 0 -> quiet_field (g_nx g) (g_solver g) -> fgood (f_of F) -> funiform (g_nx g) (f_of F) ->
  (forall h, (h < g_nx g + 2)%nat -> a h = 0) -> Forall (fun d => forall i, (i < g_nx g)%nat -> d i = 0) dex -> (g_time g = Sixth -> dex <> []) ->
  vlasov_poisson g F a prev dex = Some (e, Fv) -> same_cells (g_nx g) F Fv /\ forall i, e i = 0.
Proof.
  intros He Hn Hd Hs G U Ha Hx Hne H. unfold vlasov_poisson in H.
  assert (K : forall G', fcells (g_nx g) (f_of F) G' -> same_cells (g_nx g) F (rename F G')).
  { intros G' S. apply (rename_alike (fun p p' => forall i j, (i < g_nx g)%nat -> (j < sp_nv (fst p))%nat -> snd p' i j = snd p i j)) in S. exact S. }
  destruct (g_time g).
  - destruct dex as [|d dex]; [discriminate|]. destruct (leapfrog _ _ _ _ _ _ _ _ _) as [[e0 G0]|] eqn:L; [|discriminate]. injection H as <- <-. unfold leapfrog in L.
    pose proof (uniform_x (g_nx g) (g_dx g) (g_dt g) (f_of F) He Hd U) as A. set (F1 := map_f (fun s f => space_push (g_nx g) (g_dx g) s (g_dt g) f) (f_of F)) in *.
    destruct (field_solve _ _ _ _ _ _) as [e1|] eqn:E in L; [|discriminate]. injection L as <- <-.
    assert (Z : forall i, e1 i = 0). { refine (uniform_field (g_nx g) (g_dx g) (g_solver g) _ prev (g_dt g) e1 Hn Hs _ E). destruct (g_solver g); try exact U; now apply (fcells_uniform _ (f_of F)). }
    split; [|exact Z]. apply K. apply fcells_trans with F1; [exact A|]. apply quiet_v; [now apply (fcells_good (g_nx g) (f_of F))|]. intros i Hi. split; [rewrite Z, (Forall_inv Hx i Hi); ring|now apply ponder_zero].
  - destruct (sixth _ _ _ _ _ _ _ _) as [[e0 G0]|] eqn:L; [|discriminate]. injection H as <- <-. unfold sixth in L.
    assert (P : forall i, (i < g_nx g)%nat -> ponderomotive (g_nx g) (g_dx g) a i = 0) by now apply ponder_zero.
    assert (Q : fcells (g_nx g) (f_of F) G0 /\ (combine (sixth_stages (g_dt g)) dex = [] \/ forall i, e0 i = 0)).
    { assert (Hl : Forall (fun q => forall i, (i < g_nx g)%nat -> snd q i = 0) (combine (sixth_stages (g_dt g)) dex)).
      { clear -Hx. rewrite Forall_forall in *. intros [st d] Hin. apply (Hx d). exact (in_combine_r _ _ _ _ Hin). }
      revert Hl L G U. generalize (combine (sixth_stages (g_dt g)) dex) (fun _ : nat => 0) (f_of F). intros l.
      induction l as [|[st d] l IH]; intros e1 F1 Hl L G U; cbn [sixth_run] in L; [injection L as <- <-; split; [apply fcells_refl|now left]|].
      destruct (sixth_stage _ _ _ _ _ _ _ _ _) as [[e2 F2]|] eqn:S; [|discriminate]. unfold sixth_stage in S.
      set (F3 := match fst st with None => F1 | Some c => map_f (fun s f => space_push (g_nx g) (g_dx g) s (c * g_dt g) f) F1 end) in *.
      assert (A : fcells (g_nx g) F1 F3) by (unfold F3; destruct (fst st); [now apply uniform_x|apply fcells_refl]).
      assert (B : exists e3, field_solve (g_nx g) (g_dx g) (g_solver g) F3 (fun _ => 0) 0 = Some e3 /\ e2 = e3 /\ F2 = map_f (fun s f => v_push (g_edfdv g) s (fun i => d i + e3 i) (ponderomotive (g_nx g) (g_dx g) a) (snd st * g_dt g) f) F3).
      { destruct (g_solver g); try discriminate; destruct (field_solve _ _ _ F3 _ _) as [e3|]; try discriminate; injection S as <- <-; now exists e3. }
      destruct B as (e3 & B1 & -> & ->). assert (Z : forall i, e3 i = 0) by (apply (uniform_field _ _ _ F3 _ _ e3 Hn Hs (fcells_uniform _ _ _ A U) B1)).
      assert (C : fcells (g_nx g) F3 (map_f (fun s f => v_push (g_edfdv g) s (fun i => d i + e3 i) (ponderomotive (g_nx g) (g_dx g) a) (snd st * g_dt g) f) F3)).
      { apply quiet_v; [now apply (fcells_good (g_nx g) F1)|]. intros i Hi. split; [pose proof (Forall_inv Hl i Hi) as Hd0; cbn [snd] in Hd0; rewrite Z, Hd0; ring|now apply P]. }
      pose proof (fcells_trans _ _ _ _ A C) as D. destruct (IH _ _ (Forall_inv_tail Hl) L (fcells_good _ _ _ D G) (fcells_uniform _ _ _ D U)) as [I1 I2].
      split; [now apply (fcells_trans _ _ _ _ D)|]. right. destruct I2 as [->|I2]; [|exact I2]. cbn [sixth_run] in L. injection L as <- _. exact Z. }
    destruct Q as [Q1 Q2]. split; [now apply K|]. destruct Q2 as [Q2|Q2]; [|exact Q2]. exfalso. destruct dex; [now apply Hne|discriminate].
Qed.

Lemma f_uniform nx F : Forall (fun p => exists h : nat -> R, forall i j, (i < nx)%nat -> (j < sp_nv (sp_of p))%nat -> df_of p i j = h j) F -> funiform nx (f_of F).
Proof. unfold funiform, f_of. induction 1 as [|p F H U IH]; cbn [map]; constructor; [exact H|exact IH]. Qed.
Lemma f_good F : good F -> fgood (f_of F).
Proof. unfold good, fgood, f_of. induction 1 as [|p F H U IH]; cbn [map]; constructor; [exact H|exact IH]. Qed.
(** Uniform in x: the value in a cell depends on the velocity only. *)
Definition uniform (nx : nat) (F : ndict) : Prop := Forall (fun p => exists h : nat -> R, forall i j, (i < nx)%nat -> (j < sp_nv (sp_of p))%nat -> df_of p i j = h j) F.
Lemma cells_uniform nx F G : same_cells nx F G -> uniform nx F -> uniform nx G.
Proof.
  unfold same_cells, alike, uniform. induction 1 as [|p q F G (E1 & E2 & E3) A IH]; intros H; constructor; [|apply IH; exact (Forall_inv_tail H)].
  destruct (Forall_inv H) as [h Hh]. exists h. intros i j Hi Hj. rewrite E2 in Hj. rewrite E3 by assumption. now apply Hh.
Qed.
Lemma same_cells_trans nx F G H : same_cells nx F G -> same_cells nx G H -> same_cells nx F H.
Proof. apply alike_trans. intros p q r E A B i j Hi Hj. rewrite B by (try assumption; rewrite E; assumption). now apply A. Qed.
Lemma filter_uniform g F : Nat.Even (g_nx g) -> (0 < g_nx g)%nat -> filter_ok g -> uniform (g_nx g) F -> same_cells (g_nx g) F (filtered g F).
Proof.
  intros [m Em] Hn Ho U. unfold filtered, filter_ok in *. destruct (t_hou_li (g_terms g)) as [[alpha order]|]; [|now apply alike_refl].
  unfold same_cells, alike. induction U as [|[n [s f]] F [h Hh] U IH]; cbn [map]; constructor; [|exact IH]. unfold sp_of, df_of in *. cbn [fst snd] in *. repeat split. intros i j Hi Hj.
  rewrite Em in *. rewrite (C58_wave m alpha order f j 0 (h j) 0 Ho ltac:(lia)); [| |exact Hi].
  - change (INR 0) with 0. unfold Rdiv. rewrite Rmult_0_l, pow_i, Rmult_0_r, exp_0 by lia. ring.
  - intros l Hl. rewrite Hh by assumption. change (INR 0) with 0. unfold Rdiv. rewrite Rmult_0_r, !Rmult_0_l, Rplus_0_l, cos_0. ring.
Qed.
Theorem C65_steady : forall g n t y y', Nat.Even (g_nx g) -> (0 < g_nx g)%nat -> g_dx g <> 0 -> quiet_field (g_nx g) (g_solver g) -> filter_ok g ->
  t_fp_on (g_terms g) = false -> t_krook_on (g_terms g) = false -> g_ex g = [] -> g_ey g = [] -> g_stochastic g = None ->
  good (y_f y) -> uniform (g_nx g) (y_f y) -> (forall h, (h < g_nx g + 2)%nat -> y_a y h = 0 /\ y_prev_a y h = 0) ->
  vm_run g n t y y' -> same_cells (g_nx g) (y_f y) (y_f y') /\ ((0 < n)%nat -> forall i, y_e y' i = 0).
Proof.
  intros g n t y y' He Hn Hd Hs Ho Hf Hk Hex Hey Hst G U Ha R. revert G U Ha. induction R as [t y|n t y y1 y2 S R IH]; intros G U Ha; [split; [now apply alike_refl|lia]|].
  assert (H2 : (2 <= g_nx g)%nat) by (destruct He as [m Em]; lia).
  pose proof (C65_no_potential g 1 t y y1 Hey H2 Ha (run_S g 0 t y y1 y1 S (run_0 g _ y1))) as Ha1.
  destruct S as ((op & ref & Fv & Fc & H1 & _ & H3 & H4 & H5 & _) & _). apply collisions_off in H4; [|exact Hf|exact Hk]. subst Fc.
  assert (Dx : Forall (fun d => forall i, (i < g_nx g)%nat -> d i = 0) (map (fun d => total_dex g (t + d)) (dt_array g))).
  { apply Forall_forall. intros d Hin. apply in_map_iff in Hin. destruct Hin as (x & <- & _). intros i _. unfold total_dex, ex_drive. rewrite Hex, Hst. cbn [fold_left]. ring. }
  destruct (vlasov_steady g _ _ _ _ _ _ He Hn Hd Hs (f_good _ G) (f_uniform _ _ U) (fun h Hh => proj1 (Ha h Hh)) Dx ltac:(intros Hsx; unfold dt_array, sixth_times; rewrite Hsx; discriminate) H3) as [A Z].
  assert (B : same_cells (g_nx g) (y_f y) (y_f y1)).
  { rewrite H5. apply same_cells_trans with Fv; [exact A|]. apply filter_uniform; try assumption. now apply (cells_uniform _ (y_f y)). }
  destruct (IH (alike_good _ _ _ B G) (cells_uniform _ _ _ B U) Ha1) as [C D]. split; [now apply same_cells_trans with (y_f y1)|]. intros _ i.
  destruct n as [|n]; [inversion R; subst; apply Z|]. apply D. lia.
Qed.
Print Assumptions C65_steady.

(* ------------------------------------------------------------------------------------------------ *)
(** Collisions: accepted names, positivity, a unique result, no effect at zero frequency. *)
Theorem C65_fp_types : forall ty m ratio,
  (fp_operator ty m ratio <> None <-> In (lower ty) (map lit ["lenard_bernstein"; "chang_cooper"; "lenard_bernstein_chang_cooper"; "chang_cooper_dougherty"; "dougherty_chang_cooper";
      "dougherty"; "super_gaussian"; "super_gaussian_chang_cooper"; "dougherty_nodrag"]%string)) /\
  (* an unknown name is an error even when the collisions are switched off *)
  (forall g t y y', t_fp_type (g_terms g) = ty -> vm_step g t y y' -> In (lower ty) (map lit ["lenard_bernstein"; "chang_cooper"; "lenard_bernstein_chang_cooper"; "chang_cooper_dougherty"; "dougherty_chang_cooper";
      "dougherty"; "super_gaussian"; "super_gaussian_chang_cooper"; "dougherty_nodrag"]%string)) /\
  (* which operator each name gives: drift and diffusion, differencing, and whether the drag is dropped *)
  (forall name model scheme nodrag, In (name, (model, scheme, nodrag))
     [("lenard_bernstein", (LenardBernstein, CentralDifferencing, false)); ("chang_cooper", (LenardBernstein, ChangCooper, false)); ("lenard_bernstein_chang_cooper", (LenardBernstein, ChangCooper, false));
      ("chang_cooper_dougherty", (Dougherty, ChangCooper, false)); ("dougherty_chang_cooper", (Dougherty, ChangCooper, false)); ("dougherty", (Dougherty, CentralDifferencing, false));
      ("super_gaussian", (SuperGaussian m ratio, ChangCooper, false)); ("super_gaussian_chang_cooper", (SuperGaussian m ratio, ChangCooper, false)); ("dougherty_nodrag", (Dougherty, CentralDifferencing, true))]%string ->
   lower ty = lit name -> fp_operator ty m ratio = Some {| fo_model := model; fo_scheme := scheme; fo_nodrag := nodrag |}).
Proof.
  intros ty m ratio.
  assert (K : forall m ratio, fp_operator ty m ratio <> None <-> In (lower ty) (map lit ["lenard_bernstein"; "chang_cooper"; "lenard_bernstein_chang_cooper"; "chang_cooper_dougherty"; "dougherty_chang_cooper";
      "dougherty"; "super_gaussian"; "super_gaussian_chang_cooper"; "dougherty_nodrag"]%string)).
  { clear. intros m ratio. unfold fp_operator. cbn [map In]. generalize (lower ty). intros l.
    assert (Q : forall a, str_eqb l (lit a) = true <-> lit a = l) by (intros a; rewrite str_eqb_true; split; congruence).
    repeat match goal with |- context [str_eqb l (lit ?a)] => let E := fresh "E" in destruct (str_eqb l (lit a)) eqn:E; [apply Q in E|assert (lit a <> l) by (rewrite <- Q; congruence)]; cbn [orb] end; split; intros HH; try discriminate; tauto. }
  split; [apply K|]. split; [|intros name model sch nodrag I E; cbn [In] in I; unfold fp_operator; rewrite E; repeat (destruct I as [I|I]; [injection I as <- <- <- <-; reflexivity|]); contradiction]. intros g t y y' E ((op & ref & Fv & Fc & H1 & _) & _). rewrite E in H1. apply (proj1 (K (t_m (g_terms g)) (t_ratio (g_terms g)))). congruence.
Qed.
Print Assumptions C65_fp_types.
Theorem C65_positive : forall tm op nx dt nuf nuK s f, good_species s -> 0 <= dt -> (forall i, (i < nx)%nat -> 0 <= nuf i /\ 0 <= nuK i) -> fo_scheme op = ChangCooper -> fo_nodrag op = false -> t_sc tm = false ->
  (exists f', collide tm op nx dt nuf nuK s f f') /\
  (forall f' f'', collide tm op nx dt nuf nuK s f f' -> collide tm op nx dt nuf nuK s f f'' -> forall i j, (i < nx)%nat -> (j < sp_nv s)%nat -> f' i j = f'' i j) /\
  (forall f', collide tm op nx dt nuf nuK s f f' -> (forall i j, (i < nx)%nat -> (j < sp_nv s)%nat -> 0 <= f i j) -> forall i j, (i < nx)%nat -> (j < sp_nv s)%nat -> 0 <= f' i j).
Proof.
  intros tm op nx dt nuf nuK s f G Hdt Hnu Hs Hd Hsc. pose proof (good_dv s G) as Hdv. assert (Hn : (0 < sp_nv s)%nat) by exact (proj1 (proj2 G)).
  assert (FP : forall i, (i < nx)%nat -> exists beta, forall h, fp_row op (t_sc tm) (sp_nv s) (sp_v s) (sp_dv s) (nuf i) dt (f i) h <->
      implicit_step (sp_nv s) (chang_cooper (sp_nv s) (sp_dv s) (model_C (fo_model op) (sp_nv s) (sp_v s) (sp_dv s) (f i) beta) (fun _ => model_D (fo_model op) beta) (fun _ => nuf i) dt) (f i) h).
  { intros i Hi. exists (match fo_model op with SuperGaussian m _ => sg_beta_init (sp_nv s) (sp_v s) m (f i) | _ => beta_analytic (sp_nv s) (sp_v s) (fun _ => sp_dv s) false (model_vbar (fo_model op) (sp_nv s) (sp_v s) (f i)) (f i) end).
    intros h. unfold fp_row, model_beta. rewrite Hd, Hs, Hsc. cbn [get_operator]. split.
    - intros (beta & [B|B] & H); [discriminate|]. now rewrite <- B.
    - intros H. eexists. split; [right; reflexivity|exact H]. }
  assert (Q : forall i, (i < nx)%nat -> (exists h, fp_row op (t_sc tm) (sp_nv s) (sp_v s) (sp_dv s) (nuf i) dt (f i) h) /\
     (forall h h', fp_row op (t_sc tm) (sp_nv s) (sp_v s) (sp_dv s) (nuf i) dt (f i) h -> fp_row op (t_sc tm) (sp_nv s) (sp_v s) (sp_dv s) (nuf i) dt (f i) h' -> forall j, (j < sp_nv s)%nat -> h j = h' j) /\
     (forall h, fp_row op (t_sc tm) (sp_nv s) (sp_v s) (sp_dv s) (nuf i) dt (f i) h -> (forall j, (j < sp_nv s)%nat -> 0 <= f i j) -> forall j, (j < sp_nv s)%nat -> 0 <= h j)).
  { intros i Hi. destruct (FP i Hi) as (beta & E).
    destruct (C33_positivity (sp_nv s) (sp_dv s) (model_C (fo_model op) (sp_nv s) (sp_v s) (sp_dv s) (f i) beta) (fun _ => model_D (fo_model op) beta) (fun _ => nuf i) dt (f i) Hdv Hdt (fun _ _ => proj1 (Hnu i Hi))) as (A & B & C).
    split; [destruct A as (h & A); exists h; now apply E|]. split; [intros h h' H H'; apply E in H, H'; now apply B|intros h H; apply E in H; now apply C]. }
  split; [|split].
  - assert (X : exists f1 : dist, if t_fp_on tm then forall i, (i < nx)%nat -> fp_row op (t_sc tm) (sp_nv s) (sp_v s) (sp_dv s) (nuf i) dt (f i) (f1 i) else f1 = f).
    { destruct (t_fp_on tm); [|now exists f]. clear -Q. assert (Y : forall n, (n <= nx)%nat -> exists f1 : dist, forall i, (i < n)%nat -> fp_row op (t_sc tm) (sp_nv s) (sp_v s) (sp_dv s) (nuf i) dt (f i) (f1 i)).
      { induction n as [|n IH]; intros Hn; [exists f; lia|]. destruct (IH ltac:(lia)) as (f1 & H1). destruct (Q n ltac:(lia)) as ((h & Hh) & _). exists (fun i => if (i =? n)%nat then h else f1 i).
        intros i Hi. destruct (Nat.eqb_spec i n) as [->|N]; [exact Hh|]. apply H1. lia. }
      exact (Y nx (le_n nx)). }
    destruct X as (f1 & H1). unfold collide. destruct (t_krook_on tm) eqn:EK; [exists (fun i j => krook (sp_nv s) (sp_v s) (sp_dv s) (t_T0 tm) (sp_m s) (nuK i) dt (f1 i) j), f1|exists f1, f1]; split; auto.
  - intros f' f'' (f1 & A1 & A2) (f2 & B1 & B2). assert (E : forall i j, (i < nx)%nat -> (j < sp_nv s)%nat -> f1 i j = f2 i j).
    { intros i j Hi Hj. destruct (t_fp_on tm); [|congruence]. exact (proj1 (proj2 (Q i Hi)) (f1 i) (f2 i) (A1 i Hi) (B1 i Hi) j Hj). }
    intros i j Hi Hj. destruct (t_krook_on tm); subst f' f''; [|now apply E]. unfold krook. cbv zeta. rewrite (E i j Hi Hj). do 3 f_equal. f_equal. apply rsum_ext. intros. now apply E.
  - intros f' (f1 & A1 & A2) Hf i j Hi Hj. assert (E : forall j, (j < sp_nv s)%nat -> 0 <= f1 i j).
    { intros l Hl. destruct (t_fp_on tm); [|subst f1; now apply Hf]. exact (proj2 (proj2 (Q i Hi)) (f1 i) (A1 i Hi) (fun j0 Hj0 => Hf i j0 Hi Hj0) l Hl). }
    destruct (t_krook_on tm); subst f'; [|now apply E]. destruct (C52_krook (sp_nv s) (sp_v s) (sp_dv s) (t_T0 tm) (sp_m s) (nuK i) dt (f1 i) Hn Hdv) as (_ & _ & _ & _ & P). apply P; [|exact E|exact Hj].
    apply Rmult_le_pos; [exact Hdt|exact (proj2 (Hnu i Hi))].
Qed.
Print Assumptions C65_positive.
(** At zero frequency every collision operator is the identity. *)
Theorem C65_zero_frequency : forall tm op nx dt nuf nuK s f f', good_species s -> (forall i, (i < nx)%nat -> nuf i = 0 /\ nuK i = 0) ->
  collide tm op nx dt nuf nuK s f f' -> forall i j, (i < nx)%nat -> (j < sp_nv s)%nat -> f' i j = f i j.
Proof.
  intros tm op nx dt nuf nuK s f f' G Hnu (f1 & A1 & A2) i j Hi Hj. destruct (Hnu i Hi) as [N1 N2].
  assert (E : forall j, (j < sp_nv s)%nat -> f1 i j = f i j).
  { intros l Hl. destruct (t_fp_on tm); [|now subst f1]. destruct (A1 i Hi) as (beta & _ & H). rewrite N1 in H. destruct (fo_nodrag op).
    - destruct (nodrag_form _ _ _ _ _ _ _ _ _ _ (good_two s G) (good_dv s G) H) as (fs & _ & Hn). rewrite (Hn l Hl). ring.
    - destruct (operator_assemble (fo_scheme op) (sp_nv s) (sp_dv s) (model_C (fo_model op) (sp_nv s) (sp_v s) (sp_dv s) (f i) beta) (fun _ => model_D (fo_model op) beta) (fun _ => 0) dt) as (al & be & E). apply E in H. rewrite step_solves in H.
      rewrite <- (H l Hl), assemble_mv by exact Hl. unfold Rdiv. ring. }
  destruct (t_krook_on tm); subst f'; [|now apply E]. unfold krook. cbv zeta. rewrite N2, Rmult_0_r, Ropp_0, exp_0, (E j Hj). ring.
Qed.
Print Assumptions C65_zero_frequency.

(* ------------------------------------------------------------------------------------------------ *)
(** Steps exist: leapfrog, Poisson, a Chang-Cooper operator without refinement and non-negative frequencies. *)
Theorem C65_step_exists : forall g t y op static, g_time g = Leapfrog -> g_solver g = SPoisson static -> good (y_f y) -> y_f y <> [] -> 0 <= g_dt g ->
  fp_operator (t_fp_type (g_terms g)) (t_m (g_terms g)) (t_ratio (g_terms g)) = Some op -> fo_scheme op = ChangCooper -> t_sc (g_terms g) = false ->
  (forall x t, 0 <= g_nu_fp g x t /\ 0 <= g_nu_K g x t) -> exists y', vm_step g t y y'.
Proof.
  intros g t y op static Ht Hsol G Hne Hdt Hop Hsch Hsc Hnu.
  assert (Hd : fo_nodrag op = false). { clear -Hop Hsch. unfold fp_operator in Hop. repeat match type of Hop with context [if ?b then _ else _] => destruct b end; try discriminate; injection Hop as <-; try reflexivity; discriminate. }
  destruct (vlasov_poisson g (y_f y) (y_a y) (y_e y) (map (fun d => total_dex g (t + d)) (dt_array g))) as [[e Fv]|] eqn:EV.
  2:{ exfalso. unfold vlasov_poisson, dt_array in EV. rewrite Ht in EV. cbn [map] in EV. unfold leapfrog in EV. rewrite Hsol in EV. destruct (y_f y) as [|[n [s f]] F]; [now apply Hne|]. cbn [f_of map map_f field_solve snd fst] in EV. discriminate. }
  assert (ER : exists ref, ref_name (map fst (y_f y)) = Some ref).
  { unfold ref_name. destruct (existsb _ _); [eexists; reflexivity|]. destruct (y_f y) as [|p F]; [now exfalso|]. eexists. reflexivity. }
  destruct ER as (ref & ER). pose proof (alike_good _ _ _ (vlasov_alike _ _ _ _ _ _ _ EV) G) as GV.
  set (nuf := fun i => if t_fp_on (g_terms g) then g_nu_fp g (g_x g i) t else 0). set (nuK := fun i => if t_krook_on (g_terms g) then g_nu_K g (g_x g i) t else 0).
  assert (NN : forall i, (i < g_nx g)%nat -> 0 <= nuf i /\ 0 <= nuK i). { intros i _. unfold nuf, nuK. destruct (Hnu (g_x g i) t). split; [destruct (t_fp_on (g_terms g))|destruct (t_krook_on (g_terms g))]; lra. }
  assert (EC : exists Fc, collisions (g_terms g) op (g_nx g) (g_dt g) nuf nuK ref Fv Fc).
  { clear -GV NN Hdt Hsch Hd Hsc. unfold good in GV. induction GV as [|[n [s f]] F Gs GV [Fc IH]]; [exists []; constructor|].
    destruct (str_eqb n ref) eqn:E.
    - destruct (proj1 (C65_positive (g_terms g) op (g_nx g) (g_dt g) nuf nuK s f Gs Hdt NN Hsch Hd Hsc)) as (f' & Hf'). exists ((n, (s, f')) :: Fc). constructor; [|exact IH]. unfold collide_entry. cbn [fst snd]. rewrite E. auto.
    - exists ((n, (s, f)) :: Fc). constructor; [|exact IH]. unfold collide_entry. cbn [fst snd]. rewrite E. auto. }
  destruct EC as (Fc & EC).
  set (djy := ey_drive (g_nx g + 2) (g_xa g) (g_c g) (g_ey g) (t + nth 1 (dt_array g) 0)). set (F' := filtered g Fc).
  set (w := wave_step (g_nx g) (g_c g) (g_dx g) (g_dt g) (y_a y) (y_prev_a y) djy (fun i => - (1 / 2) * (electron_charge (y_f y) i + electron_charge F' i))).
  exists {| y_f := F'; y_a := fst w; y_prev_a := snd w; y_e := e; y_da := djy; y_de := nth 0 (map (fun d => total_dex g (t + d)) (dt_array g)) (fun _ => 0);
            y_diag_v := if t_diag_v (g_terms g) then diag (g_dt g) ref (y_f y) Fv else None; y_diag_fp := if t_diag_fp (g_terms g) then diag (g_dt g) ref Fv F' else None |}.
  unfold vm_step. cbn [y_f y_a y_prev_a y_e y_da y_de y_diag_v y_diag_fp]. cbv zeta. split; [|split; [|split]]; [|split; reflexivity|reflexivity|now rewrite Ht].
  exists op, ref, Fv, Fc. auto 10.
Qed.
Print Assumptions C65_step_exists.

(** A concrete two-species plasma: Chang-Cooper collisions and Krook on, a filter, diagnostics, a laser at c = 1. *)
Definition ex_terms (fp kr : bool) (hl : option (R * nat)) : terms :=
  {| t_fp_on := fp; t_fp_type := lit "Chang_Cooper"; t_m := 2; t_ratio := 1 / 2; t_sc := false; t_krook_on := kr; t_T0 := 1; t_hou_li := hl; t_diag_v := true; t_diag_fp := true |}.
Definition ex_setup (tm : terms) (dt : R) : setup :=
  {| g_nx := 4; g_dx := 1; g_dt := dt; g_x := INR; g_xa := fun i => INR i - 1; g_c := 1; g_solver := SPoisson None; g_edfdv := EExponential; g_time := Leapfrog; g_terms := tm;
     g_ex := []; g_ey := []; g_stochastic := None; g_nu_fp := fun _ _ => 1; g_nu_K := fun _ _ => 1 |}.
Definition ex_e : species := {| sp_q := -1; sp_m := 1; sp_nv := 2; sp_vmin := -1; sp_vmax := 1 |}.
Definition ex_n : species := {| sp_q := 0; sp_m := 1; sp_nv := 2; sp_vmin := -1; sp_vmax := 1 |}.
Definition ex_state (F : ndict) : vstate := {| y_f := F; y_a := fun _ => 0; y_prev_a := fun _ => 0; y_e := fun _ => 0; y_da := fun _ => 0; y_de := fun _ => 0; y_diag_v := None; y_diag_fp := None |}.
Lemma ex_e_good : good_species ex_e. Proof. split; [exists 1%nat; reflexivity|]. cbn. split; [lia|lra]. Qed.
Lemma ex_n_good : good_species ex_n. Proof. split; [exists 1%nat; reflexivity|]. cbn. split; [lia|lra]. Qed.
Example C65_nonvacuous : exists y',
  let g := ex_setup (ex_terms true true (Some (36, 2%nat))) (1 / 2) in let y := ex_state [(lit "electron", (ex_e, fun i j => 1 + INR (i * j))); (lit "ion", (ex_n, fun i _ => INR i))] in
  vm_run g 1 0 y y' /\ Nat.Even (g_nx g) /\ (0 < g_nx g)%nat /\ filter_ok g /\ good (y_f y).
Proof.
  destruct (C65_step_exists (ex_setup (ex_terms true true (Some (36, 2%nat))) (1 / 2)) 0 (ex_state [(lit "electron", (ex_e, fun i j => 1 + INR (i * j))); (lit "ion", (ex_n, fun i _ => INR i))])
    {| fo_model := LenardBernstein; fo_scheme := ChangCooper; fo_nodrag := false |} None eq_refl eq_refl) as (y' & H).
  - constructor; [exact ex_e_good|]. constructor; [exact ex_n_good|constructor].
  - discriminate.
  - cbn. lra.
  - reflexivity.
  - reflexivity.
  - reflexivity.
  - intros. cbn. lra.
  - exists y'. cbv zeta. split; [apply (run_S _ 0 0 _ _ _ H); apply run_0|]. split; [exists 2%nat; reflexivity|]. split; [cbn; lia|]. split; [cbn; lia|]. constructor; [exact ex_e_good|]. constructor; [exact ex_n_good|constructor].
Qed.
(** "diag-fp-dfdt" is not the collisional rate of change: it contains what the filter did. *)
Theorem C65_diag_fp_refuted : ~ forall g t y y' d i j, t_fp_on (g_terms g) = false -> t_krook_on (g_terms g) = false -> vm_step g t y y' -> y_diag_fp y' = Some d -> (i < g_nx g)%nat -> d i j = 0.
Proof.
  intros C. set (g := ex_setup (ex_terms false false (Some (1, 1%nat))) 2). set (f := fun (i j : nat) => 1 * cos (2 * PI * INR 1 * INR i / INR 4 + 0)). set (y := ex_state [(lit "n", (ex_n, f : dist))]).
  destruct (C65_step_exists g 0 y {| fo_model := LenardBernstein; fo_scheme := ChangCooper; fo_nodrag := false |} None eq_refl eq_refl) as (y' & H).
  { constructor; [exact ex_n_good|constructor]. } { discriminate. } { cbn; lra. } { reflexivity. } { reflexivity. } { reflexivity. } { intros; cbn; lra. }
  pose proof H as H0. destruct H0 as ((op & ref & Fv & Fc & H1 & H2 & H3 & H4 & H5 & _ & H7) & _). apply collisions_off in H4; [|reflexivity|reflexivity]. subst Fc.
  set (fx := space_push 4 1 ex_n 2 f). 
  assert (EV : exists ee pond, Fv = [(lit "n", (ex_n, vel_push ex_n ee pond 2 fx))]).
  { unfold vlasov_poisson in H3. cbn [g ex_setup g_time dt_array map y ex_state y_f y_a y_e g_nx g_dx g_solver g_edfdv g_dt f_of snd] in H3. unfold leapfrog in H3. cbn [map_f map fst snd field_solve v_push] in H3.
    injection H3 as _ H3. rewrite <- H3. unfold rename. cbn [map combine fst]. eexists. eexists. reflexivity. }
  destruct EV as (ee & pond & ->). assert (ER : ref = lit "n") by (cbn in H2; injection H2 as <-; reflexivity). subst ref.
  change (t_diag_fp (g_terms g)) with true in H7. cbn match in H7. rewrite H5 in H7. unfold filtered, diag in H7. cbn [g ex_setup ex_terms g_terms t_hou_li map lookup fst snd g_nx g_dt] in H7.
  rewrite (proj2 (str_eqb_true (lit "n") (lit "n")) eq_refl) in H7.
  assert (V : sp_v ex_n 0 = - (1 / 2)) by (unfold sp_v, linspace, sp_dv; cbn [sp_nv sp_vmin sp_vmax ex_n Nat.leb Nat.sub]; cbn [INR]; lra).
  assert (E1 : forall i, (i < 4)%nat -> vel_push ex_n ee pond 2 fx i 0%nat = 1 * cos (2 * PI * INR 1 * INR i / INR 4 + PI / 2)).
  { intros i Hi. rewrite C57_no_force; [|exists 1%nat; reflexivity|cbn; lia|left; reflexivity]. unfold fx. rewrite (C56_wave 4 1 ex_n 2 f 0 1 1 0 ltac:(exists 2%nat; reflexivity) ltac:(lra) ltac:(lia)); [|intros; reflexivity|exact Hi].
    rewrite V. do 2 f_equal. cbn [INR]. field. }
  pose proof (C58_wave 2 1 1 (vel_push ex_n ee pond 2 fx) 0 1 1 (PI / 2) ltac:(lia) ltac:(lia) E1 3%nat ltac:(lia)) as W. change (2 * 2)%nat with 4%nat in W.
  pose proof (C g 0 y y' _ 3%nat 0%nat eq_refl eq_refl H H7 ltac:(cbn; lia)) as Z. cbv beta in Z. rewrite W in Z. rewrite E1 in Z by lia.
  replace (2 * PI * INR 1 * INR 3 / INR 4 + PI / 2) with (2 * PI) in Z by (cbn [INR]; field). rewrite cos_2PI in Z.
  assert (X : exp (- (1) * (INR 1 / INR 2) ^ (2 * 1)) = 1) by lra. rewrite <- exp_0 in X at 2. apply exp_inv in X. cbn [INR] in X. simpl in X. lra.
Qed.
Print Assumptions C65_diag_fp_refuted.
Example C65_steady_nonvacuous : exists y',
  let g := ex_setup (ex_terms false false (Some (36, 2%nat))) (1 / 2) in let y := ex_state [(lit "electron", (ex_e, (fun _ j => 1 + INR j) : dist)); (lit "ion", (ex_n, (fun _ _ => 3) : dist))] in
  vm_run g 1 0 y y' /\ quiet_field (g_nx g) (g_solver g) /\ good (y_f y) /\ uniform (g_nx g) (y_f y) /\ (forall h, (h < g_nx g + 2)%nat -> y_a y h = 0 /\ y_prev_a y h = 0).
Proof.
  destruct (C65_step_exists (ex_setup (ex_terms false false (Some (36, 2%nat))) (1 / 2)) 0 (ex_state [(lit "electron", (ex_e, (fun _ j => 1 + INR j) : dist)); (lit "ion", (ex_n, (fun _ _ => 3) : dist))])
    {| fo_model := LenardBernstein; fo_scheme := ChangCooper; fo_nodrag := false |} None eq_refl eq_refl) as (y' & H).
  - constructor; [exact ex_e_good|]. constructor; [exact ex_n_good|constructor].
  - discriminate.
  - cbn. lra.
  - reflexivity.
  - reflexivity.
  - reflexivity.
  - intros. cbn. lra.
  - exists y'. cbv zeta. split; [apply (run_S _ 0 0 _ _ _ H); apply run_0|]. split; [exact I|]. split; [constructor; [exact ex_e_good|constructor; [exact ex_n_good|constructor]]|].
    split; [|intros; split; reflexivity]. constructor; [now exists (fun j => 1 + INR j)|]. constructor; [now exists (fun _ => 3)|constructor].
Qed.
