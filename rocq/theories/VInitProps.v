(** Property C62: initial conditions of Vlasov-1D. *)
From Coq Require Import Psatz.
From Verif Require Import RSum Pic PicProofs PicFourier PicProps Dft PyStr DriftDiff VGrid VGridProofs Vlasov VlasovProofs VlasovProofs2 VlasovProps3 VInit.
Local Open Scope R_scope.

Lemma shape_pos s c j : 0 < shape_call s c j. Proof. unfold shape_call. apply exp_pos. Qed.
Lemma shape_sum_pos s c : (0 < sp_nv s)%nat -> 0 < rsum (sp_nv s) (shape_call s c).
Proof. intros H. apply rsum_pos; [exact H|]. intros. apply shape_pos. Qed.
Lemma dv_pos s : (0 < sp_nv s)%nat -> sp_vmin s < sp_vmax s -> 0 < sp_dv s.
Proof. intros H H1. unfold sp_dv. apply Rdiv_lt_0_compat; [lra|]. now apply lt_0_INR. Qed.
Lemma init_dist_sum nx x s cs i j : init_dist nx x s cs i j = sum_list (fun c => init_component nx s c (component_density c x) i j) cs.
Proof.
  unfold init_dist. rewrite <- (fold_sum (fun c => init_component nx s c (component_density c x) i j)).
  assert (G : forall a, fold_left (fun f c => fun i j => f i j + init_component nx s c (component_density c x) i j) cs a i j
                        = fold_left (fun r c => r + init_component nx s c (component_density c x) i j) cs (a i j)).
  { induction cs as [|c cs IH]; intros a; [reflexivity|]. cbn [fold_left]. now rewrite IH. }
  apply G.
Qed.
Lemma init_density_sum x cs i : init_density x cs i = sum_list (fun c => component_density c x i) cs.
Proof.
  unfold init_density. rewrite <- (fold_sum (fun c => component_density c x i)).
  assert (G : forall a, fold_left (fun n c => fun i => n i + component_density c x i) cs a i
                        = fold_left (fun r c => r + component_density c x i) cs (a i)).
  { induction cs as [|c cs IH]; intros a; [reflexivity|]. cbn [fold_left]. now rewrite IH. }
  apply G.
Qed.
Lemma sum_list_rsum {A} (h : A -> nat -> R) l n : rsum n (fun j => sum_list (fun c => h c j) l) = sum_list (fun c => rsum n (h c)) l.
Proof. unfold sum_list. induction l as [|c l IH]; cbn; [apply rsum_zero|]. rewrite rsum_plus, IH. reflexivity. Qed.
Lemma sum_list_scal {A} (h : A -> R) l k : sum_list h l * k = sum_list (fun c => h c * k) l.
Proof. unfold sum_list. induction l as [|c l IH]; cbn; [ring|]. rewrite <- IH. ring. Qed.
Lemma sum_list_eq {A} (h h' : A -> R) l : (forall c, In c l -> h c = h' c) -> sum_list h l = sum_list h' l.
Proof. unfold sum_list. induction l as [|c l IH]; intros H; cbn; [reflexivity|]. rewrite IH by (intros; apply H; now right). rewrite H by now left. reflexivity. Qed.
Lemma component_moment nx s c n i (w : nat -> R) : (1 < nx)%nat ->
  rsum (sp_nv s) (fun j => w j * init_component nx s c n i j) = n i * (rsum (sp_nv s) (fun j => w j * shape_call s c j) / rsum (sp_nv s) (shape_call s c) / sp_dv s).
Proof.
  intros H. unfold init_component. rewrite (proj2 (Nat.ltb_lt 1 nx) H). unfold Rdiv.
  rewrite (rsum_ext _ _ (fun j => (n i * / rsum (sp_nv s) (shape_call s c) * / sp_dv s) * (w j * shape_call s c j))) by (intros; ring).
  rewrite rsum_scal. ring.
Qed.

(* ------------------------------------------------------------------------------------------------ *)
(** The density of the initial distribution is exactly the requested profile, cell by cell: the sum over the
    components of (profile at x) (1 + noise), whatever the drifts, temperatures, orders and velocity grid. *)
Theorem C62_density : forall nx x s cs i, (2 <= nx)%nat -> (0 < sp_nv s)%nat -> sp_vmin s < sp_vmax s ->
  rsum (sp_nv s) (fun j => init_dist nx x s cs i j) * ((sp_vmax s - sp_vmin s) / INR (sp_nv s))
  = fold_right Rplus 0 (map (fun c => basis_call (c_basis c) (x i) * (1 + noise_call (c_noise c) i)) cs).
Proof.
  intros nx x s cs i Hn Hv Hr. change ((sp_vmax s - sp_vmin s) / INR (sp_nv s)) with (sp_dv s).
  pose proof (dv_pos s Hv Hr) as Hd.
  rewrite (rsum_ext _ _ (fun j => sum_list (fun c => init_component nx s c (component_density c x) i j) cs)) by (intros; apply init_dist_sum).
  rewrite (sum_list_rsum (fun c j => init_component nx s c (component_density c x) i j)), sum_list_scal.
  transitivity (sum_list (fun c => component_density c x i) cs).
  - apply sum_list_eq. intros c _. pose proof (shape_sum_pos s c Hv) as P.
    rewrite (rsum_ext _ _ (fun j => 1 * init_component nx s c (component_density c x) i j)) by (intros; ring).
    rewrite (component_moment nx s c (component_density c x) i (fun _ => 1)) by lia.
    rewrite (rsum_ext _ (fun j => 1 * shape_call s c j) (shape_call s c)) by (intros; ring).
    field. lra.
  - unfold sum_list. induction cs as [|c cs IH]; cbn; [reflexivity|]. rewrite IH. reflexivity.
Qed.
Print Assumptions C62_density.

(** The same, in the quantity that the field solvers read, and the recorded density profile. *)
Lemma init_density_exact nx x s cs i : (2 <= nx)%nat -> (0 < sp_nv s)%nat -> sp_vmin s < sp_vmax s ->
  density s (init_dist nx x s cs) i = init_density x cs i.
Proof.
  intros Hn Hv Hr. unfold density, sp_dv. change (init_dist nx x s cs i) with (fun j => init_dist nx x s cs i j).
  rewrite C62_density, init_density_sum by assumption.
  unfold sum_list, component_density. induction cs as [|c cs IH]; cbn; [reflexivity|]. now rewrite IH.
Qed.

(** Non-negative profiles give non-negative distributions; positive ones positive distributions. *)
Theorem C62_nonneg : forall nx x s cs i j, (2 <= nx)%nat -> (0 < sp_nv s)%nat -> sp_vmin s < sp_vmax s ->
  (forall c, In c cs -> 0 <= basis_call (c_basis c) (x i) * (1 + noise_call (c_noise c) i)) ->
  0 <= init_dist nx x s cs i j /\
  ((exists c, In c cs /\ 0 < basis_call (c_basis c) (x i) * (1 + noise_call (c_noise c) i)) -> 0 < init_dist nx x s cs i j).
Proof.
  intros nx x s cs i j Hn Hv Hr H. rewrite init_dist_sum. pose proof (dv_pos s Hv Hr) as Hd.
  assert (E : forall c, exists k, 0 < k /\ init_component nx s c (component_density c x) i j = component_density c x i * k).
  { intros c. exists (shape_call s c j / rsum (sp_nv s) (shape_call s c) / sp_dv s). split.
    - apply Rdiv_lt_0_compat; [|exact Hd]. apply Rdiv_lt_0_compat; [apply shape_pos|now apply shape_sum_pos].
    - unfold init_component. rewrite (proj2 (Nat.ltb_lt 1 nx) ltac:(lia)). reflexivity. }
  unfold component_density in E. unfold sum_list.
  induction cs as [|c cs IH]; cbn [fold_right]; [split; [lra|intros (c & [] & _)]|].
  destruct IH as [I1 I2]; [intros; apply H; now right|]. destruct (E c) as (k & Hk & Ek). cbv beta in *.
  pose proof (H c (or_introl eq_refl)) as Hc.
  assert (Q : 0 <= init_component nx s c (component_density c x) i j) by (unfold component_density at 1; rewrite Ek; nra).
  split; [lra|]. intros (c' & [<-|Hin] & Hp).
  - assert (0 < init_component nx s c (component_density c x) i j) by (unfold component_density at 1; rewrite Ek; nra). lra.
  - assert (Z : 0 < fold_right (fun p r => init_component nx s p (component_density p x) i j + r) 0 cs) by (apply I2; exists c'; split; assumption). lra.
Qed.
Print Assumptions C62_nonneg.

(** Uniform noise of relative size at most one keeps a non-negative profile non-negative, within its band. *)
Theorem C62_noise_band : forall b val u x i, noise_drawn (NUniform val u) -> val <= 1 -> 0 <= basis_call b (x i) ->
  let n := component_density {| c_basis := b; c_noise := NUniform val u; c_v0 := 0; c_T0 := 1; c_order := 2; c_alpha := 1 |} x i in
  basis_call b (x i) * (1 - val) <= n <= basis_call b (x i) * (1 + val) /\ 0 <= n.
Proof.
  intros b val u x i H Hv Hb. unfold component_density. cbn [c_basis c_noise noise_call]. cbn [noise_drawn] in H. specialize (H i). split; [split; nra|nra].
Qed.
Print Assumptions C62_noise_band.
(** Gaussian noise is not bounded, and nothing rejects a negative density: some draw makes the distribution
    negative, for every non-zero noise level. *)
Theorem C62_gaussian_noise_refuted : forall val, 0 < val -> ~ forall u nx x s i j,
  0 <= init_dist nx x s [{| c_basis := BUniform None; c_noise := NGaussian val u; c_v0 := 0; c_T0 := 1; c_order := 2; c_alpha := sqrt 2 |}] i j.
Proof.
  intros val Hv H. specialize (H (fun _ => - (2 / val)) 2%nat (fun _ => 0) {| sp_q := -1; sp_m := 1; sp_nv := 2; sp_vmin := -1; sp_vmax := 1 |} 0%nat 0%nat).
  rewrite init_dist_sum in H. unfold sum_list in H. cbn [fold_right] in H. unfold init_component in H. cbn [Nat.ltb Nat.leb] in H.
  match type of H with 0 <= ?n * (?a / ?b / ?d) + 0 => assert (P : 0 < a / b / d) end.
  { apply Rdiv_lt_0_compat; [apply Rdiv_lt_0_compat; [apply shape_pos|apply shape_sum_pos; cbn; lia]|apply dv_pos; cbn; [lia|lra]]. }
  match type of P with 0 < ?k => set (q := k) in *; clearbody q end.
  unfold component_density in H. cbn [c_basis c_noise basis_call noise_call] in H. unfold uniform_call in H.
  replace (1 * 1 * (1 + - (2 / val) * val)) with (-1) in H by (field; lra). lra.
Qed.
Print Assumptions C62_gaussian_noise_refuted.

(* ------------------------------------------------------------------------------------------------ *)
(** Without drift, on a velocity grid symmetric about 0, the initial distribution is even in v and carries no
    current in any cell. *)
Lemma sp_v_formula s j : (j < sp_nv s)%nat -> sp_v s j = sp_vmin s + (INR j + 1 / 2) * sp_dv s.
Proof.
  intros Hj. unfold sp_v, linspace. destruct (Nat.leb_spec (sp_nv s) 1) as [H1|H1].
  - assert (j = 0)%nat as -> by lia. change (INR 0) with 0. lra.
  - assert (P : INR (sp_nv s) = INR (sp_nv s - 1) + 1) by (rewrite <- S_INR; f_equal; lia).
    assert (Q : 0 < INR (sp_nv s - 1)) by (apply lt_0_INR; lia).
    assert (E : sp_vmax s - sp_vmin s = sp_dv s * INR (sp_nv s)) by (unfold sp_dv; field; lra).
    replace (sp_vmax s - sp_dv s / 2 - (sp_vmin s + sp_dv s / 2)) with (sp_dv s * INR (sp_nv s - 1)) by (rewrite P in E; lra). field. lra.
Qed.
Lemma sp_v_mirror s j : sp_vmin s = - sp_vmax s -> (j < sp_nv s)%nat -> sp_v s (sp_nv s - 1 - j) = - sp_v s j.
Proof.
  intros Hs Hj. rewrite !sp_v_formula by lia.
  assert (E : sp_vmax s - sp_vmin s = sp_dv s * INR (sp_nv s)) by (unfold sp_dv; field; apply not_0_INR; lia).
  replace (INR (sp_nv s - 1 - j)) with (INR (sp_nv s) - 1 - INR j) by (rewrite !minus_INR by lia; cbn; ring). lra.
Qed.
Lemma rsum_rev n h : rsum n h = rsum n (fun j => h (n - 1 - j)%nat).
Proof.
  induction n as [|n IH]; [reflexivity|]. rewrite (rsum_shift n (fun j => h (S n - 1 - j)%nat)). cbn [rsum]. rewrite IH.
  replace (S n - 1 - 0)%nat with n by lia. rewrite Rplus_comm. f_equal. apply rsum_ext. intros j Hj. f_equal. lia.
Qed.
Lemma abs_pow_opp x m : abs_pow (- x) m = abs_pow x m.
Proof. unfold abs_pow. rewrite Rabs_Ropp. destruct (Req_EM_T (- x) 0), (Req_EM_T x 0); try reflexivity; exfalso; lra. Qed.
Lemma shape_mirror s c j : sp_vmin s = - sp_vmax s -> c_v0 c = 0 -> (j < sp_nv s)%nat -> shape_call s c (sp_nv s - 1 - j) = shape_call s c j.
Proof.
  intros Hs H0 Hj. unfold shape_call. rewrite sp_v_mirror by assumption. rewrite H0.
  replace ((- sp_v s j - 0) / (c_alpha c * sqrt (c_T0 c / sp_m s))) with (- ((sp_v s j - 0) / (c_alpha c * sqrt (c_T0 c / sp_m s)))) by (unfold Rdiv; ring).
  now rewrite abs_pow_opp.
Qed.
Theorem C62_symmetric : forall nx x s cs i, (2 <= nx)%nat -> sp_vmin s = - sp_vmax s -> (forall c, In c cs -> c_v0 c = 0) ->
  (forall j, (j < sp_nv s)%nat -> init_dist nx x s cs i (sp_nv s - 1 - j)%nat = init_dist nx x s cs i j) /\
  rsum (sp_nv s) (fun j => sp_v s j * init_dist nx x s cs i j) = 0.
Proof.
  intros nx x s cs i Hn Hs H0.
  assert (E : forall j, (j < sp_nv s)%nat -> init_dist nx x s cs i (sp_nv s - 1 - j)%nat = init_dist nx x s cs i j).
  { intros j Hj. rewrite !init_dist_sum. apply sum_list_eq. intros c Hc. unfold init_component. now rewrite shape_mirror by auto. }
  split; [exact E|].
  assert (F : rsum (sp_nv s) (fun j => sp_v s j * init_dist nx x s cs i j) = - rsum (sp_nv s) (fun j => sp_v s j * init_dist nx x s cs i j)).
  { rewrite rsum_rev at 1. match goal with |- _ = - ?a => replace (- a) with (-1 * a) by ring end. rewrite <- rsum_scal. apply rsum_ext. intros j Hj. rewrite sp_v_mirror, E by assumption. ring. }
  lra.
Qed.
Print Assumptions C62_symmetric.

(* ------------------------------------------------------------------------------------------------ *)
Lemma fold_dset {A B} (key : A -> str) (val : A -> B) l : forall d, NoDup (dkeys d ++ map key l) ->
  fold_left (fun d e => dset (key e) (val e) d) l d = d ++ map (fun e => (key e, val e)) l.
Proof.
  induction l as [|e l IH]; intros d H; cbn [fold_left map]; [now rewrite app_nil_r|].
  assert (N : ~ In (key e) (dkeys d)) by (intros C; apply NoDup_remove_2 in H; apply H; apply in_or_app; now left).
  rewrite dset_new by exact N. rewrite IH.
  - now rewrite <- app_assoc.
  - unfold dkeys in *. rewrite map_app. cbn [map fst]. rewrite <- app_assoc. exact H.
Qed.
Lemma dget_map {A B} (key : A -> str) (val : A -> B) l e : NoDup (map key l) -> In e l -> dget (key e) (map (fun e => (key e, val e)) l) = Some (val e).
Proof.
  intros N H. apply In_dget; [unfold dkeys; rewrite map_map; exact N|]. apply in_map_iff. exists e. auto.
Qed.
Definition entry_of (nx : nat) (x : nat -> R) (e : sp_entry) : str * (species * profile * dist) :=
  (en_name e, (en_sp e, init_density x (en_comps e), init_dist nx x (en_sp e) (en_comps e))).
Lemma init_total_nodup nx x l : NoDup (map en_name l) -> (exists e, In e l /\ en_comps e <> []) -> init_total nx x l = Some (map (entry_of nx x) l).
Proof.
  intros N (e0 & Hin & Hc). unfold init_total. cbv zeta.
  assert (L : forall e, In e l -> last_entry l (en_name e) = Some e).
  { intros e He. unfold last_entry. rewrite (fold_dset en_name (fun e => e)) by exact N. cbn [app]. now apply (dget_map en_name (fun e => e)). }
  rewrite (fold_dset en_name (fun e => (en_sp e, init_density x match last_entry l (en_name e) with Some e' => en_comps e' | None => [] end,
     init_dist nx x (en_sp e) match last_entry l (en_name e) with Some e' => en_comps e' | None => [] end))) by exact N.
  cbn [app].
  replace (existsb _ l) with true.
  - f_equal. apply map_ext_in. intros e He. unfold entry_of. now rewrite L.
  - symmetry. apply existsb_exists. exists e0. split; [exact Hin|]. rewrite L by exact Hin. destruct (en_comps e0); [contradiction|reflexivity].
Qed.
(** The static background. With one species of charge q the field at the start is (1 + q) times the field of its
    density profile: zero for electrons (q = -1), whatever the profile. *)
Definition one_species (n : str) (s : species) (cs : list component) : list sp_entry := [{| en_name := n; en_sp := s; en_comps := cs |}].
Theorem C62_single_species : forall nx x dx n s cs, (2 <= nx)%nat -> (0 < sp_nv s)%nat -> sp_vmin s < sp_vmax s -> cs <> [] ->
  exists d, init_total nx x (one_species n s cs) = Some d /\ fdict_of d = [(s, init_dist nx x s cs)] /\
  (forall g, poisson nx dx (Some (ion_charge (one_species n s cs) d)) (fdict_of d) g = (1 + sp_q s) * spectral_poisson nx dx None (init_density x cs) g) /\
  (sp_q s = -1 -> forall g, poisson nx dx (Some (ion_charge (one_species n s cs) d)) (fdict_of d) g = 0).
Proof.
  intros nx x dx n s cs Hn Hv Hr Hc.
  exists [(n, (s, init_density x cs, init_dist nx x s cs))].
  assert (T : init_total nx x (one_species n s cs) = Some [(n, (s, init_density x cs, init_dist nx x s cs))]).
  { unfold one_species. rewrite init_total_nodup; [reflexivity| |].
    - cbn [map en_name]. constructor; [intros []|constructor].
    - eexists. split; [now left|exact Hc]. }
  split; [exact T|]. split; [reflexivity|].
  assert (F : forall g, poisson nx dx (Some (ion_charge (one_species n s cs) [(n, (s, init_density x cs, init_dist nx x s cs))])) (fdict_of [(n, (s, init_density x cs, init_dist nx x s cs))]) g
              = (1 + sp_q s) * spectral_poisson nx dx None (init_density x cs) g).
  { intros g. unfold poisson. rewrite <- (Rplus_0_r ((1 + sp_q s) * _)), <- (Rmult_0_l (spectral_poisson nx dx None (fun _ => 0) g)).
    rewrite <- C53_linear, !poisson_formula. f_equal. apply rsum_ext. intros k _. f_equal. apply rsum_ext. intros h _. cbn [total_charge].
    unfold fdict_of, charge_density, ion_charge, one_species, n_prof_total. cbn [map fst snd fold_left List.length Nat.ltb Nat.leb]. rewrite init_density_exact by assumption. ring. }
  split; [exact F|]. intros Hq g. rewrite F, Hq. ring.
Qed.
Print Assumptions C62_single_species.

(** With several species there is no background: the field is that of the charges alone, so it vanishes exactly when
    the sum of charge times density is uniform (up to waves that the grid does not represent). *)
Theorem C62_several_species : forall nx x dx l, (2 <= nx)%nat -> (2 <= List.length l)%nat -> NoDup (map en_name l) -> (exists e, In e l /\ en_comps e <> []) ->
  (forall e, In e l -> (0 < sp_nv (en_sp e))%nat /\ sp_vmin (en_sp e) < sp_vmax (en_sp e)) ->
  exists d, init_total nx x l = Some d /\
  let charge i := fold_right Rplus 0 (map (fun e => sp_q (en_sp e) * init_density x (en_comps e) i) l) in
  (forall g, poisson nx dx (Some (ion_charge l d)) (fdict_of d) g = spectral_poisson nx dx None charge g) /\
  ((forall i i', (i < nx)%nat -> (i' < nx)%nat -> charge i = charge i') -> forall g, poisson nx dx (Some (ion_charge l d)) (fdict_of d) g = 0).
Proof.
  intros nx x dx l Hn Hl N Hc Hg. exists (map (entry_of nx x) l). split; [now apply init_total_nodup|]. intros charge.
  assert (C : forall i, charge_density (fdict_of (map (entry_of nx x) l)) i = charge i).
  { intros i. rewrite charge_sum. unfold fdict_of, charge. rewrite map_map.
    rewrite (sum_list_ext (fun e => sp_q (en_sp e) * init_density x (en_comps e) i)).
    - unfold sum_list. clear. induction l as [|e l IH]; [reflexivity|]. cbn [fold_right map]. now rewrite IH.
    - intros e He. cbn [fst snd entry_of]. destruct (Hg e He). now rewrite init_density_exact by assumption. }
  assert (B : ion_charge l (map (entry_of nx x) l) = fun _ => 0) by (unfold ion_charge; now rewrite (proj2 (Nat.ltb_lt 1 _)) by lia).
  rewrite B. split.
  - intros g. unfold poisson. rewrite C53_mean_ignored by lia. apply spectral_poisson_ext. intros. apply C.
  - intros U g. apply (C59_neutral_no_field nx dx _ _ (charge 0%nat)); [lia|]. intros i Hi. rewrite C. rewrite (U i 0%nat) by lia. ring.
Qed.
Print Assumptions C62_several_species.

(** A density wave in a box of four cells, x = 0, 1, 2, 3: 1 + sin(pi x / 2) / 2. *)
Definition wave_comp : component := {| c_basis := BSine 1 (1 / 2) (PI / 2); c_noise := NNone; c_v0 := 0; c_T0 := 1; c_order := 2; c_alpha := sqrt 2 |}.
Definition init_sp (q : R) : species := {| sp_q := q; sp_m := 1; sp_nv := 4; sp_vmin := -2; sp_vmax := 2 |}.
Lemma wave_field q : spectral_poisson 4 1 None (fun h => q * init_density INR [wave_comp] h) 0%nat = - q / PI.
Proof.
  pose proof PI_RGT_0 as HP.
  transitivity (spectral_poisson 4 1 None (fun h => q * 1 + 1 * ((q / 2) * cos (2 * PI * INR 1 * INR h / INR 4 + - (PI / 2)))) 0).
  - apply spectral_poisson_ext. intros h _. rewrite init_density_sum. unfold sum_list, wave_comp, component_density. cbn [fold_right c_basis c_noise basis_call noise_call].
    unfold sine_call. rewrite <- cos_shift, <- (cos_neg (PI / 2 - _)). replace (- (PI / 2 - PI / 2 * INR h)) with (2 * PI * INR 1 * INR h / INR 4 + - (PI / 2)) by (replace (INR 4) with 4 by (cbn; ring); cbn [INR]; field). lra.
  - rewrite (C53_linear 4 1 q 1 (fun _ => 1)), poisson_const by lia. rewrite C53_single_wave by (try lra; lia).
    replace (2 * PI * INR 1 * INR 0 / INR 4 + - (PI / 2)) with (- (PI / 2)) by (cbn; field). rewrite sin_neg, sin_PI2. cbn [INR]. field. lra.
Qed.
(** The electrons of this wave are neutralised and feel no field at the start. *)
Example C62_nonvacuous : exists d, init_total 4 INR (one_species (lit "electron") (init_sp (-1)) [wave_comp]) = Some d /\
  poisson 4 1 (Some (ion_charge (one_species (lit "electron") (init_sp (-1)) [wave_comp]) d)) (fdict_of d) 0%nat = 0 /\
  spectral_poisson 4 1 None (init_density INR [wave_comp]) 0%nat = - (1) / PI.
Proof.
  destruct (C62_single_species 4 INR 1 (lit "electron") (init_sp (-1)) [wave_comp]) as (d & H1 & _ & _ & H2); try (cbn; lia); try (cbn; lra); [discriminate|].
  exists d. split; [exact H1|]. split; [apply H2; reflexivity|].
  rewrite (spectral_poisson_ext 4 1 None (init_density INR [wave_comp]) (fun h => 1 * init_density INR [wave_comp] h)) by (intros; ring). apply (wave_field 1).
Qed.
(** A single species that is not an electron species (here ions, q = +1) gets a background of the same sign: the
    start is not neutral, although the state says e = 0. *)
Theorem C62_single_ion_refuted : ~ forall nx x dx n s cs d g, (2 <= nx)%nat -> (0 < sp_nv s)%nat -> sp_vmin s < sp_vmax s ->
  init_total nx x (one_species n s cs) = Some d -> poisson nx dx (Some (ion_charge (one_species n s cs) d)) (fdict_of d) g = 0.
Proof.
  intros H. pose proof PI_RGT_0 as HP.
  destruct (C62_single_species 4 INR 1 (lit "ion") (init_sp 1) [wave_comp]) as (d & H1 & _ & H2 & _); try (cbn; lia); try (cbn; lra); [discriminate|].
  pose proof (H 4%nat INR 1 (lit "ion") (init_sp 1) [wave_comp] d 0%nat ltac:(lia) ltac:(cbn; lia) ltac:(cbn; lra) H1) as E. rewrite H2 in E.
  rewrite (spectral_poisson_ext 4 1 None (init_density INR [wave_comp]) (fun h => 1 * init_density INR [wave_comp] h)) in E by (intros; ring).
  rewrite (wave_field 1) in E. cbn [sp_q init_sp] in E. assert (0 < / PI) by now apply Rinv_0_lt_compat. unfold Rdiv in E. nra.
Qed.
Print Assumptions C62_single_ion_refuted.
(** Listing the same species twice switches the background off: the electrons collapse into one entry of the
    dictionary but the list still has two. *)
Theorem C62_repeated_name_refuted : ~ forall nx x dx l d, (2 <= nx)%nat -> (forall e, In e l -> en_name e = lit "electron" /\ en_sp e = init_sp (-1)) ->
  init_total nx x l = Some d -> forall g, poisson nx dx (Some (ion_charge l d)) (fdict_of d) g = 0.
Proof.
  intros H. pose proof PI_RGT_0 as HP. set (e := {| en_name := lit "electron"; en_sp := init_sp (-1); en_comps := [wave_comp] |}).
  assert (L : last_entry [e; e] (lit "electron") = Some e) by reflexivity.
  set (d := [(lit "electron", (init_sp (-1), init_density INR [wave_comp], init_dist 4 INR (init_sp (-1)) [wave_comp]))]).
  assert (T : init_total 4 INR [e; e] = Some d) by (unfold init_total; cbv zeta; cbn [fold_left existsb en_name e en_sp]; rewrite L; reflexivity).
  specialize (H 4%nat INR 1 [e; e] d ltac:(lia) ltac:(intros e' [<-|[<-|[]]]; split; reflexivity) T 0%nat).
  change (ion_charge [e; e] d) with (fun _ : nat => 0) in H. unfold poisson in H. rewrite C53_mean_ignored in H by lia.
  rewrite (spectral_poisson_ext 4 1 None _ (fun h => -1 * init_density INR [wave_comp] h)) in H.
  - rewrite (wave_field (-1)) in H. assert (0 < / PI) by now apply Rinv_0_lt_compat. unfold Rdiv in H. lra.
  - intros h _. unfold fdict_of, charge_density, d. cbn [map fold_left fst snd]. rewrite init_density_exact by (try (cbn; lia); cbn; lra). cbn [sp_q init_sp]. ring.
Qed.
Print Assumptions C62_repeated_name_refuted.
(** A box of a single cell ignores the profile: the density is always one. *)
Theorem C62_single_cell_refuted : ~ forall x s cs, (0 < sp_nv s)%nat -> sp_vmin s < sp_vmax s -> cs <> [] ->
  density s (init_dist 1 x s cs) 0%nat = init_density x cs 0%nat.
Proof.
  intros H. set (c := {| c_basis := BUniform (Some 2); c_noise := NNone; c_v0 := 0; c_T0 := 1; c_order := 2; c_alpha := sqrt 2 |}).
  specialize (H INR (init_sp (-1)) [c] ltac:(cbn; lia) ltac:(cbn; lra) ltac:(discriminate)).
  assert (P := shape_sum_pos (init_sp (-1)) c ltac:(cbn; lia)). assert (D := dv_pos (init_sp (-1)) ltac:(cbn; lia) ltac:(cbn; lra)).
  rewrite init_density_sum in H. unfold density in H.
  rewrite (rsum_ext _ _ (fun j => / rsum (sp_nv (init_sp (-1))) (shape_call (init_sp (-1)) c) / sp_dv (init_sp (-1)) * shape_call (init_sp (-1)) c j)) in H.
  - rewrite rsum_scal in H. unfold sum_list, component_density in H. cbn [fold_right c_basis c_noise c basis_call noise_call] in H. unfold uniform_call in H.
    assert (E : / rsum (sp_nv (init_sp (-1))) (shape_call (init_sp (-1)) c) / sp_dv (init_sp (-1)) * rsum (sp_nv (init_sp (-1))) (shape_call (init_sp (-1)) c) * sp_dv (init_sp (-1)) = 1) by (field; lra).
    fold c in H. rewrite E in H. lra.
  - intros j _. rewrite init_dist_sum. unfold sum_list. cbn [fold_right]. unfold init_component. cbn [Nat.ltb Nat.leb]. unfold Rdiv. ring.
Qed.
Print Assumptions C62_single_cell_refuted.

(* ------------------------------------------------------------------------------------------------ *)
(** The state handed to the solver: every species is present under its name, and the fields start at zero with
    the right lengths, provided no species uses a field's name. *)
Definition reserved : list str := [lit "e"; lit "de"; lit "a"; lit "da"; lit "prev_a"].
Lemma dget_other {A} k ks (v : A) d : ~ In k ks -> dget k (fold_left (fun st k' => dset k' v st) ks d) = dget k d.
Proof.
  revert d. induction ks as [|k' ks IH]; intros d H; [reflexivity|]. cbn [fold_left]. rewrite IH by (intros C; apply H; now right).
  apply dget_dset_other. intros ->. apply H. now left.
Qed.
Theorem C62_state : forall nx (d : dict (species * profile * dist)), NoDup (dkeys d) -> (forall k, In k (dkeys d) -> ~ In k reserved) ->
  (forall n s p f, dget n d = Some (s, p, f) -> dget n (init_state nx d) = Some (EDist f)) /\
  dget (lit "e") (init_state nx d) = Some (EField nx (fun _ => 0)) /\ dget (lit "de") (init_state nx d) = Some (EField nx (fun _ => 0)) /\
  dget (lit "a") (init_state nx d) = Some (EField (nx + 2) (fun _ => 0)) /\ dget (lit "da") (init_state nx d) = Some (EField (nx + 2) (fun _ => 0)) /\
  dget (lit "prev_a") (init_state nx d) = Some (EField (nx + 2) (fun _ => 0)).
Proof.
  intros nx d N HR. split.
  - intros n s p f H. assert (Hk : In n (dkeys d)) by (apply dget_In in H; unfold dkeys; apply in_map_iff; exists (n, (s, p, f)); auto).
    specialize (HR n Hk). unfold init_state. cbv zeta. rewrite !dget_other by (intros C; apply HR; unfold reserved; cbn in *; tauto).
    rewrite (fold_dset (fun q : str * (species * profile * dist) => fst q) (fun q => EDist (snd (snd q)))) by exact N. cbn [app].
    apply dget_In in H. apply (dget_map fst (fun q : str * (species * profile * dist) => EDist (snd (snd q))) d (n, (s, p, f)) N H).
  - unfold init_state. cbv zeta. cbn [fold_left].
    repeat split; rewrite ?(dget_dset_other (lit "e")), ?(dget_dset_other (lit "de")), ?(dget_dset_other (lit "a")), ?(dget_dset_other (lit "da")) by discriminate; apply dget_dset_same.
Qed.
Print Assumptions C62_state.
(** Nothing checks this: a species called "e" (for electrons) is silently replaced by the field. *)
Theorem C62_species_name_refuted : ~ forall nx n s p f, dget n (init_state nx [(n, (s, p, f))]) = Some (EDist f).
Proof. intros H. specialize (H 4%nat (lit "e") (init_sp (-1)) (fun _ => 0) (fun _ _ => 1)). discriminate. Qed.
Print Assumptions C62_species_name_refuted.

(** Legacy configurations: without an explicit list there is one electron species made of exactly the components whose
    name starts with "species-", in order; an explicit non-empty list is used unchanged. *)
Theorem C62_legacy : forall explicit electron density,
  (forall e l, explicit = Some (e :: l) -> species_set explicit electron density = explicit) /\
  ((explicit = None \/ explicit = Some []) ->
   let chosen := filter (fun kc => is_prefix (lit "species-") (fst kc)) density in
   (chosen = [] -> species_set explicit electron density = None) /\
   (chosen <> [] -> species_set explicit electron density = Some [{| en_name := lit "electron"; en_sp := electron; en_comps := map snd chosen |}])).
Proof.
  intros explicit electron density. split; [intros e l ->; reflexivity|]. intros H chosen. unfold species_set. cbv zeta.
  change (filter (fun kc => starts_with (lit "species-") (fst kc)) density) with chosen.
  destruct H as [-> | ->]; destruct chosen; split; congruence.
Qed.
Print Assumptions C62_legacy.
