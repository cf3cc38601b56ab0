(** C68: what the PIC-1D loaders hand to the solver. *)
From Verif Require Import RSum Pic PicProofs PicFourier VGridProofs PicLoad PicLoadProofs.
From Coq Require Import Permutation FunctionalExtensionality.
Local Open Scope R_scope.
Opaque v_nodes.

(** ** Specification vocabulary *)
(** What numpy guarantees of a seeded generator. *)
Definition generator (gen : Z -> rng) : Prop :=
  forall seed, (forall l, Permutation (r_perm (gen seed) l) l) /\ (forall i, 0 <= r_draw (gen seed) i < 1).
(** The cumulative distribution the quiet start samples: the normalised trapezoidal integral of
    exp(-|(v - v0)/(alpha vth)|^m) over [-vmax, vmax] on the fine grid, linear between nodes. *)
Definition target_cdf (n : nat) (s : pspecies) (u : sub) (v : R) : R :=
  let N := v_nodes n in let node := fun i => linspace (- l_vmax s) (l_vmax s) N i in
  let f := fun i => exp (- abs_pow ((node i - u_v0 u) / (u_alpha u * sqrt (u_T0 u / l_mass s))) (u_order u)) in
  interp N node (cdf N node f) v.
Definition total_weight (ps : list particle) : R := lsum (map pw ps).
Definition total_momentum (ps : list particle) : R := lsum (map (fun p => pw p * pv p) ps).
(** The density the deck asks for, integrated over the box. *)
Definition asked (g : lgrid) (s : pspecies) : R := rsum (lg_nx g) (fun i => lsum (map (fun u => u_prof u i) (l_subs s))) * lg_dx g.

(** ** How many particles each component gets *)
Lemma counts_split ints q n : counts (ints ++ [q]) n =
  map (fun p => Z.max (round_half_even (p / lsum (ints ++ [q]) * IZR n)) 1) ints ++
  [(n - zsum (map (fun p => Z.max (round_half_even (p / lsum (ints ++ [q]) * IZR n)) 1) ints))%Z].
Proof.
  unfold counts, first_counts. rewrite map_app. cbn [map]. rewrite add_last_app, zsum_app. cbn [zsum]. f_equal. f_equal. lia.
Qed.
Lemma counts_length ints n : List.length (counts ints n) = List.length ints.
Proof.
  destruct (rev ints) as [|q r] eqn:E.
  - apply (f_equal (@rev R)) in E. rewrite rev_involutive in E. subst. reflexivity.
  - apply (f_equal (@rev R)) in E. rewrite rev_involutive in E. subst. cbn [rev]. rewrite counts_split, !app_length, map_length. reflexivity.
Qed.
Lemma counts_sum ints n : ints <> [] -> zsum (counts ints n) = n.
Proof.
  intros N. unfold counts. rewrite zsum_add_last; [lia|]. unfold first_counts. intros E. apply map_eq_nil in E. contradiction.
Qed.
Lemma count_upper p t n : 0 <= p -> 0 < t -> (0 <= n)%Z -> IZR (Z.max (round_half_even (p / t * IZR n)) 1) <= p / t * IZR n + 1.
Proof.
  intros Hp Ht Hn. pose proof (abs_le_both _ _ (round_spec (p / t * IZR n))) as B.
  assert (0 <= p / t * IZR n) by (apply Rmult_le_pos; [apply Rmult_le_pos; [lra|now apply Rlt_le, Rinv_0_lt_compat]|now apply IZR_le]).
  destruct (Z.max_spec (round_half_even (p / t * IZR n)) 1) as [[_ ->]|[_ ->]]; [lra|lra].
Qed.
Lemma counts_sum_upper ints t n : (forall p, In p ints -> 0 <= p) -> 0 < t -> (0 <= n)%Z ->
  IZR (zsum (map (fun p => Z.max (round_half_even (p / t * IZR n)) 1) ints)) <= lsum ints / t * IZR n + INR (List.length ints).
Proof.
  intros P Ht Hn. induction ints as [|p l IH]; [cbn; unfold Rdiv; lra|]. cbn [map zsum lsum List.length]. rewrite plus_IZR, S_INR.
  pose proof (count_upper p t n (P p (or_introl eq_refl)) Ht Hn). pose proof (IH (fun q H => P q (or_intror H))).
  replace ((p + lsum l) / t * IZR n) with (p / t * IZR n + lsum l / t * IZR n) by (field; lra). lra.
Qed.
(** The counts add up to the requested number of particles; every component but the last gets its share rounded to
    the nearest integer, or one particle if that is zero; the last gets the rest, which is at least its own share
    minus one per earlier component. *)
Theorem C68_counts : forall ints q n, (forall p, In p (ints ++ [q]) -> 0 <= p) -> 0 < lsum (ints ++ [q]) -> (0 <= n)%Z ->
  let c := counts (ints ++ [q]) n in let share := fun p => p / lsum (ints ++ [q]) * IZR n in
  List.length c = S (List.length ints) /\ zsum c = n /\
  (forall i p, nth_error ints i = Some p -> exists k, nth_error c i = Some k /\ (1 <= k)%Z /\
     (Rabs (share p - IZR k) <= 1 / 2 \/ k = 1%Z /\ share p <= 1 / 2)) /\
  exists k, nth_error c (List.length ints) = Some k /\ share q - INR (List.length ints) <= IZR k.
Proof.
  intros ints q n P T Hn c share. split; [|split; [|split]].
  - unfold c. rewrite counts_length, app_length. cbn. lia.
  - unfold c. apply counts_sum. now destruct ints.
  - intros i p E. unfold c. rewrite counts_split.
    exists (Z.max (round_half_even (share p)) 1). split; [|split; [lia|]].
    + rewrite nth_error_app1 by (rewrite map_length; apply nth_error_Some; congruence). now rewrite (map_nth_error _ _ _ E).
    + destruct (Z.max_spec (round_half_even (share p)) 1) as [[L ->]|[L ->]]; [right|left; apply round_spec].
      split; [reflexivity|]. pose proof (abs_le_both _ _ (round_spec (share p))) as B. assert (IZR (round_half_even (share p)) <= 0) by (apply IZR_le; lia). lra.
  - exists (n - zsum (map (fun p => Z.max (round_half_even (p / lsum (ints ++ [q]) * IZR n)) 1) ints))%Z. split.
    + unfold c. rewrite counts_split. rewrite nth_error_app2 by (rewrite map_length; lia). rewrite map_length, Nat.sub_diag. reflexivity.
    + rewrite minus_IZR. pose proof (counts_sum_upper ints (lsum (ints ++ [q])) n (fun p H => P p (in_or_app _ _ _ (or_introl H))) T Hn) as U.
      unfold share. assert (E : lsum (ints ++ [q]) = lsum ints + q) by (rewrite lsum_app; cbn; lra).
      replace (q / lsum (ints ++ [q]) * IZR n) with (IZR n - lsum ints / lsum (ints ++ [q]) * IZR n) by (rewrite E in *; field; lra). lra.
Qed.
Print Assumptions C68_counts.
Example C68_counts_nonvacuous : 0 < lsum ([1; 2] ++ [1]) /\ counts ([1; 2] ++ [1]) 8 = [2; 4; 2]%Z.
Proof.
  split; [cbn; lra|]. rewrite counts_split. cbn [map].
  assert (R2 : round_half_even (1 / lsum ([1; 2] ++ [1]) * IZR 8) = 2%Z) by (unfold round_half_even; rewrite (floor_unique _ 2) by (cbn; lra); destruct (Req_EM_T _ _) as [E|_]; [cbn in E; lra|reflexivity]).
  assert (R4 : round_half_even (2 / lsum ([1; 2] ++ [1]) * IZR 8) = 4%Z) by (unfold round_half_even; rewrite (floor_unique _ 4) by (cbn; lra); destruct (Req_EM_T _ _) as [E|_]; [cbn in E; lra|reflexivity]).
  rewrite R2, R4. reflexivity.
Qed.

(** ** Number of particles *)
Lemma load_sub_length gen g s passes u m ps : generator gen -> load_sub gen g s passes u m = LOk ps -> List.length ps = Z.to_nat m.
Proof.
  intros G E. unfold load_sub in E. destruct (u_seed u <? 0)%Z; [discriminate|]. destruct (l_quiet s).
  - unfold load_quiet in E. destruct (m =? 0)%Z; [discriminate|]. injection E as <-.
    rewrite zip3_length; rewrite ?map_length, ?seq_length; auto.
    rewrite (Permutation_length (proj1 (G (u_seed u)) _)). apply quiet_v_length.
  - unfold load_random in E. destruct (m <? 0)%Z; [discriminate|]. destruct (random_v _ _ _ _ _ _ _ _ _ _) as [vs|] eqn:R; [|discriminate].
    injection E as <-. destruct (reject_spec _ _ _ _ _ _ _ _ _ _ _ _ R) as [L _]. rewrite zip3_length; rewrite ?map_length, ?seq_length; auto.
Qed.
Definition znat_sum (ms : list Z) : nat := fold_right (fun m a => (Z.to_nat m + a)%nat) 0%nat ms.
Lemma load_subs_length gen g s passes : generator gen -> forall us ms ps, List.length us = List.length ms -> load_subs gen g s passes us ms = LOk ps -> List.length ps = znat_sum ms.
Proof.
  intros G us. induction us as [|u us IH]; intros [|m ms] ps L E; cbn in *; try discriminate; [now injection E as <-|].
  destruct (load_sub gen g s passes u m) as [p1| | | | |] eqn:E1; try discriminate.
  destruct (load_subs gen g s passes us ms) as [p2| | | | |] eqn:E2; try discriminate. injection E as <-.
  rewrite app_length, (load_sub_length _ _ _ _ _ _ _ G E1), (IH ms p2) by (auto; lia). reflexivity.
Qed.
Lemma znat_sum_nonneg ms : (forall m, In m ms -> (0 <= m)%Z) -> Z.of_nat (znat_sum ms) = zsum ms.
Proof. induction ms as [|m ms IH]; intros P; [reflexivity|]. change (znat_sum (m :: ms)) with (Z.to_nat m + znat_sum ms)%nat. cbn [zsum]. rewrite Nat2Z.inj_add, Z2Nat.id by (apply P; now left). rewrite IH; [reflexivity|]. intros; apply P; now right. Qed.
Lemma resize_length n l : List.length (resize n l) = n.
Proof. unfold resize. destruct l; [apply repeat_length|]. now rewrite map_length, seq_length. Qed.
(** Every species ends up with exactly nx * ppc particles, whatever the components. *)
Theorem C68_size : forall gen g ppc passes s ps, load_species gen g ppc passes s = LOk ps -> List.length ps = (lg_nx g * ppc)%nat.
Proof.
  intros gen g ppc passes s ps E. unfold load_species in E. destruct (Rle_dec _ 0); [discriminate|].
  destruct (load_subs _ _ _ _ _ _) as [qs| | | | |]; try discriminate. injection E as <-.
  destruct (Nat.eqb_spec (List.length qs) (lg_nx g * ppc)) as [H|H]; [exact H|apply resize_length].
Qed.
Print Assumptions C68_size.

(** ** Quiet start, one component *)
Definition one (s : pspecies) (u : sub) : Prop := l_subs s = [u] /\ (0 <= u_seed u)%Z /\ 0 < l_vmax s.
Lemma quiet_load gen g ppc passes s u : generator gen -> fit g -> (1 <= ppc)%nat -> one s u -> l_quiet s = true -> 0 < integrated g u ->
  let n := (lg_nx g * ppc)%nat in
  load_species gen g ppc passes s = LOk (zip3 (map (quiet_x g n) (seq 0 n))
    (r_perm (gen (u_seed u)) (quiet_v n (u_T0 u) (l_mass s) (u_order u) (u_alpha u) (l_vmax s) (u_v0 u))) (map (quiet_w g u n) (seq 0 n))) /\
  List.length (r_perm (gen (u_seed u)) (quiet_v n (u_T0 u) (l_mass s) (u_order u) (u_alpha u) (l_vmax s) (u_v0 u))) = n.
Proof.
  intros G F Hp (O & Sd & V) Q I n.
  assert (LP : List.length (r_perm (gen (u_seed u)) (quiet_v n (u_T0 u) (l_mass s) (u_order u) (u_alpha u) (l_vmax s) (u_v0 u))) = n)
    by (rewrite (Permutation_length (proj1 (G (u_seed u)) _)); apply quiet_v_length).
  split; [|exact LP].
  assert (Hn : (0 < n)%nat) by (destruct F; unfold n; nia).
  unfold load_species. rewrite O. cbn [map]. change (lsum [integrated g u]) with (integrated g u + 0). destruct (Rle_dec (integrated g u + 0) 0) as [C|_]; [lra|].
  fold n. change [integrated g u] with ([] ++ [integrated g u]). rewrite counts_split. cbn [map app zsum]. rewrite Z.sub_0_r.
  cbn [load_subs]. unfold load_sub. destruct (Z.ltb_spec (u_seed u) 0); [lia|]. rewrite Q. unfold load_quiet.
  destruct (Z.eqb_spec (Z.of_nat n) 0); [lia|]. rewrite Nat2Z.id, app_nil_r.
  rewrite (proj2 (Nat.eqb_eq _ _)); [reflexivity|].
  rewrite zip3_length; rewrite ?map_length, ?seq_length; auto.
Qed.
(** Positions: equally spaced by L/n, the first half a spacing from the left edge, the last half a spacing from the
    right edge. Velocities: one per quantile (k+1/2)/n of the target distribution, all within [-vmax, vmax], in an
    order chosen by the generator. *)
Theorem C68_quiet : forall gen g ppc passes s u, generator gen -> fit g -> (1 <= ppc)%nat -> one s u -> l_quiet s = true -> 0 < integrated g u ->
  let n := (lg_nx g * ppc)%nat in exists ps, load_species gen g ppc passes s = LOk ps /\
  (forall k p, nth_error ps k = Some p -> px p = lg_xmin g + (INR k + 1 / 2) * ((lg_xmax g - lg_xmin g) / INR n) /\ lg_xmin g < px p < lg_xmax g) /\
  (exists vs, Permutation (map pv ps) vs /\ List.length vs = n /\
     forall k v, nth_error vs k = Some v -> - l_vmax s <= v <= l_vmax s /\ target_cdf n s u v = (INR k + 1 / 2) / INR n).
Proof.
  intros gen g ppc passes s u G F Hp O Q I n. destruct (quiet_load gen g ppc passes s u G F Hp O Q I) as [E LP]. fold n in E, LP.
  eexists. split; [exact E|].
  assert (Hn : (0 < n)%nat) by (destruct F; unfold n; nia). assert (Pn : 0 < INR n) by (apply lt_0_INR; lia).
  destruct (lg_pos g F) as (PL & PD & PN & EL).
  assert (QR : forall k, (k < n)%nat -> 0 < (INR k + 1 / 2) / INR n < 1).
  { intros k Hk. pose proof (pos_INR k). split; [apply Rdiv_lt_0_compat; lra|].
    apply Rmult_lt_reg_r with (INR n); [exact Pn|]. unfold Rdiv. rewrite Rmult_assoc, Rinv_l by lra.
    assert (INR k + 1 <= INR n) by (rewrite <- S_INR; apply le_INR; lia). lra. }
  split.
  - intros k p K. assert (Hk : (k < n)%nat).
    { assert (HH : (k < List.length (zip3 (map (quiet_x g n) (seq 0 n)) (r_perm (gen (u_seed u)) (quiet_v n (u_T0 u) (l_mass s) (u_order u) (u_alpha u) (l_vmax s) (u_v0 u))) (map (quiet_w g u n) (seq 0 n))))%nat) by (apply nth_error_Some; congruence).
      rewrite zip3_length in HH; rewrite ?map_length, ?seq_length in *; auto. }
    assert (X : nth_error (map px (zip3 (map (quiet_x g n) (seq 0 n)) (r_perm (gen (u_seed u)) (quiet_v n (u_T0 u) (l_mass s) (u_order u) (u_alpha u) (l_vmax s) (u_v0 u))) (map (quiet_w g u n) (seq 0 n)))) k = Some (px p)) by (now apply map_nth_error).
    rewrite zip3_x in X; rewrite ?map_length, ?seq_length; auto.
    rewrite (map_nth_error (quiet_x g n) k (seq 0 n) (d := k)) in X by (rewrite (nth_error_nth' _ 0%nat) by (rewrite seq_length; lia); f_equal; now rewrite seq_nth by lia).
    injection X as X. rewrite <- X. unfold quiet_x. fold (lg_L g). split; [reflexivity|]. pose proof (QR k Hk) as [A B].
    replace ((INR k + 1 / 2) * (lg_L g / INR n)) with ((INR k + 1 / 2) / INR n * lg_L g) by (field; lra). unfold lg_L in *. nra.
  - exists (quiet_v n (u_T0 u) (l_mass s) (u_order u) (u_alpha u) (l_vmax s) (u_v0 u)).
    rewrite zip3_v; rewrite ?map_length, ?seq_length; auto. split; [apply (proj1 (G (u_seed u)))|]. split; [apply quiet_v_length|].
    intros k v K. assert (Hk : (k < n)%nat) by (rewrite <- (quiet_v_length n (u_T0 u) (l_mass s) (u_order u) (u_alpha u) (l_vmax s) (u_v0 u)); apply nth_error_Some; congruence).
    unfold quiet_v in K. rewrite (map_nth_error _ k (seq 0 n) (d := k)) in K by (rewrite (nth_error_nth' _ 0%nat) by (rewrite seq_length; lia); f_equal; now rewrite seq_nth by lia).
    injection K as <-. destruct O as (_ & _ & V). split; [now apply quantile_range|].
    assert (QQ : 0 <= (INR k + 1 / 2) / INR n <= 1) by (pose proof (QR k Hk); lra).
    pose proof (quantile_inverse n (u_T0 u) (l_mass s) (u_order u) (u_alpha u) (l_vmax s) (u_v0 u) _ V QQ) as Z.
    unfold target_cdf. cbv zeta. unfold v_pdf, v_grid in Z. exact Z.
Qed.
Print Assumptions C68_quiet.

(** Weights: their sum is the integral of the density, exactly, for every density profile. *)
Lemma cell_le a b d m : 0 < d -> a <= b -> m + a * d <= m + b * d. Proof. intros. nra. Qed.
Lemma cell_lt a b d m : 0 < d -> a < b -> m + a * d < m + b * d. Proof. intros. nra. Qed.
Lemma cell_value g u c o : fit g -> (c < lg_nx g)%nat -> 0 < o < 1 ->
  interp (lg_nx g) (lg_x g) (u_prof u) (lg_xmin g + (INR c + o) * lg_dx g) =
  if Rle_dec o (1 / 2) then (1 / 2 - o) * u_prof u (c - 1)%nat + (o + 1 / 2) * u_prof u c
  else (3 / 2 - o) * u_prof u c + (o - 1 / 2) * u_prof u (Nat.min (S c) (lg_nx g - 1)).
Proof.
  intros F Hc Ho. destruct (lg_pos g F) as (PL & PD & PN & EL). pose proof (lg_x_inc g F) as I. pose proof F as [_ Hn].
  assert (X : forall i, (i < lg_nx g)%nat -> lg_x g i = lg_xmin g + (INR i + 1 / 2) * lg_dx g) by (intros; now apply lg_x_formula).
  destruct (Rle_dec o (1 / 2)) as [L|L].
  - destruct c as [|c'].
    + cbn [Nat.sub]. destruct (Req_dec o (1 / 2)) as [E|E].
      * destruct (Nat.eq_dec (lg_nx g) 1) as [E1|E1]; [rewrite E1, interp_one; lra|].
        rewrite (interp_at (lg_nx g) (lg_x g) (u_prof u) _ 0%nat); [|auto|lia|rewrite !X by lia; rewrite S_INR; change (INR 0) with 0; split; apply cell_le; lra].
        rewrite !X by lia. rewrite S_INR. change (INR 0) with 0. rewrite E. field. lra.
      * rewrite interp_below; [lra|]. rewrite X by lia. change (INR 0) with 0. apply cell_lt; lra.
    + cbn [Nat.sub]. rewrite Nat.sub_0_r. rewrite (interp_at (lg_nx g) (lg_x g) (u_prof u) _ c'); [|auto|lia|rewrite !X by lia; rewrite S_INR; split; apply cell_le; lra].
      rewrite !X by lia. rewrite S_INR. field. lra.
  - destruct (Nat.eq_dec (S c) (lg_nx g)) as [E|E].
    + replace (Nat.min (S c) (lg_nx g - 1)) with c by lia. rewrite interp_above; [|auto|lia|rewrite X by lia; replace (lg_nx g - 1)%nat with c by lia; apply cell_lt; lra].
      replace (lg_nx g - 1)%nat with c by lia. lra.
    + rewrite Nat.min_l by lia. rewrite (interp_at (lg_nx g) (lg_x g) (u_prof u) _ c); [|auto|lia|rewrite !X by lia; rewrite S_INR; split; apply cell_le; lra].
      rewrite !X by lia. rewrite S_INR. field. lra.
Qed.
Lemma sum_prev n f : (0 < n)%nat -> rsum n (fun c => f (c - 1)%nat) = rsum n f + f 0%nat - f (n - 1)%nat.
Proof.
  intros H. destruct n as [|n]; [lia|]. rewrite rsum_shift. cbn [Nat.sub]. rewrite (rsum_ext n _ f) by (intros; f_equal; lia). rewrite Nat.sub_0_r. cbn [rsum]. ring.
Qed.
Lemma sum_next n f : (0 < n)%nat -> rsum n (fun c => f (Nat.min (S c) (n - 1))) = rsum n f - f 0%nat + f (n - 1)%nat.
Proof.
  intros H. destruct n as [|n]; [lia|]. rewrite (rsum_shift n f). cbn [rsum]. rewrite (rsum_ext n _ (fun i => f (S i))) by (intros; f_equal; lia).
  replace (Nat.min (S n) (S n - 1)) with (S n - 1)%nat by lia. ring.
Qed.
Lemma offset_sum g u o : fit g -> 0 < o < 1 ->
  rsum (lg_nx g) (fun c => interp (lg_nx g) (lg_x g) (u_prof u) (lg_xmin g + (INR c + o) * lg_dx g)) =
  rsum (lg_nx g) (u_prof u) + (1 / 2 - o) * (u_prof u 0%nat - u_prof u (lg_nx g - 1)%nat).
Proof.
  intros F Ho. pose proof F as [_ Hn]. rewrite (rsum_ext _ _ _ (fun c Hc => cell_value g u c o F Hc Ho)).
  destruct (Rle_dec o (1 / 2)).
  - rewrite rsum_plus, !rsum_scal, sum_prev by exact Hn. field.
  - rewrite rsum_plus, !rsum_scal, sum_next by exact Hn. field.
Qed.
Lemma quiet_place g c r ppc : fit g -> (1 <= ppc)%nat -> quiet_x g (lg_nx g * ppc) (c * ppc + r) = lg_xmin g + (INR c + (INR r + 1 / 2) / INR ppc) * lg_dx g.
Proof.
  intros F Hp. destruct (lg_pos g F) as (PL & PD & PN & EL). assert (0 < INR ppc) by (apply lt_0_INR; lia).
  unfold quiet_x, lg_dx. rewrite plus_INR, !mult_INR. field. split; lra.
Qed.
Lemma offset_range r ppc : (r < ppc)%nat -> 0 < (INR r + 1 / 2) / INR ppc < 1.
Proof.
  intros H. assert (0 < INR ppc) by (apply lt_0_INR; lia). pose proof (pos_INR r). split; [apply Rdiv_lt_0_compat; lra|].
  apply Rmult_lt_reg_r with (INR ppc); [assumption|]. unfold Rdiv. rewrite Rmult_assoc, Rinv_l by lra.
  assert (INR r + 1 <= INR ppc) by (rewrite <- S_INR; apply le_INR; lia). lra.
Qed.
Lemma quiet_total g u ppc : fit g -> (1 <= ppc)%nat -> rsum (lg_nx g * ppc) (quiet_w g u (lg_nx g * ppc)) = integrated g u.
Proof.
  intros F Hp. destruct (lg_pos g F) as (PL & PD & PN & EL). assert (P : 0 < INR ppc) by (apply lt_0_INR; lia).
  unfold quiet_w. rewrite rsum_scal_r, rsum_mult.
  rewrite (rsum_ext (lg_nx g) _ (fun c => rsum ppc (fun r => interp (lg_nx g) (lg_x g) (u_prof u) (lg_xmin g + (INR c + (INR r + 1 / 2) / INR ppc) * lg_dx g))))
    by (intros c _; apply rsum_ext; intros r _; now rewrite quiet_place).
  rewrite rsum_swap. rewrite (rsum_ext ppc _ (fun r => rsum (lg_nx g) (u_prof u) + (1 / 2 - (INR r + 1 / 2) / INR ppc) * (u_prof u 0%nat - u_prof u (lg_nx g - 1)%nat)))
    by (intros r Hr; apply offset_sum; [exact F|now apply offset_range]).
  rewrite rsum_plus, rsum_const, rsum_scal_r, rsum_minus, rsum_const.
  rewrite (rsum_ext ppc (fun i => (INR i + 1 / 2) / INR ppc) (fun i => / INR ppc * (INR i + 1 / 2))) by (intros; unfold Rdiv; ring).
  rewrite rsum_scal, rsum_plus, rsum_INR, rsum_const. unfold integrated, lg_dx. rewrite mult_INR. field. split; lra.
Qed.
Theorem C68_quiet_weight : forall gen g ppc passes s u, generator gen -> fit g -> (1 <= ppc)%nat -> one s u -> l_quiet s = true -> 0 < integrated g u ->
  exists ps, load_species gen g ppc passes s = LOk ps /\ total_weight ps = asked g s /\
  (forall k p, nth_error ps k = Some p -> pw p = interp (lg_nx g) (lg_x g) (u_prof u) (px p) * ((lg_xmax g - lg_xmin g) / INR (lg_nx g * ppc))).
Proof.
  intros gen g ppc passes s u G F Hp O Q I. destruct (quiet_load gen g ppc passes s u G F Hp O Q I) as [E LP]. set (n := (lg_nx g * ppc)%nat) in *.
  eexists. split; [exact E|]. split.
  - unfold total_weight. rewrite zip3_w; rewrite ?map_length, ?seq_length; auto. rewrite lsum_seq. unfold n. rewrite quiet_total by auto.
    unfold asked, integrated. destruct O as (-> & _). f_equal. apply rsum_ext. intros i _. cbn. ring.
  - intros k p K.
    set (ps := zip3 _ _ _) in K. assert (LX : map px ps = map (quiet_x g n) (seq 0 n)) by (unfold ps; apply zip3_x; rewrite ?map_length, ?seq_length; auto).
    assert (LW : map pw ps = map (quiet_w g u n) (seq 0 n)) by (unfold ps; apply zip3_w; rewrite ?map_length, ?seq_length; auto).
    assert (Hk : (k < n)%nat).
    { assert (HH : (k < List.length (map px ps))%nat) by (rewrite map_length; apply nth_error_Some; congruence). rewrite LX, map_length, seq_length in HH. exact HH. }
    assert (N0 : nth_error (seq 0 n) k = Some k) by (rewrite (nth_error_nth' _ 0%nat) by (rewrite seq_length; lia); f_equal; now rewrite seq_nth by lia).
    pose proof (map_nth_error px _ _ K) as X. rewrite LX, (map_nth_error _ _ _ N0) in X. injection X as X.
    pose proof (map_nth_error pw _ _ K) as W. rewrite LW, (map_nth_error _ _ _ N0) in W. injection W as W.
    rewrite <- W, <- X. reflexivity.
Qed.
Print Assumptions C68_quiet_weight.

(** A uniform plasma at rest: equal weights, no momentum, and a deposited density equal to the requested one in every
    cell, for every particle shape. *)
Lemma const_interp n x c q : increasing n x -> (1 <= n)%nat -> interp n x (fun _ => c) q = c.
Proof. intros I Hn. pose proof (interp_range n x (fun _ => c) q Hn I (fun _ _ => Rle_refl c)). lra. Qed.
Lemma interp_ext n x f h q : (1 <= n)%nat -> (forall i, (i < n)%nat -> f i = h i) -> interp n x f q = interp n x h q.
Proof.
  intros Hn E. unfold interp. rewrite !E by lia. destruct (Rlt_dec q (x 0%nat)); [reflexivity|]. destruct (Rlt_dec (x (n - 1)%nat) q); reflexivity.
Qed.
Lemma quiet_w_const g u n k n0 : fit g -> (forall i, (i < lg_nx g)%nat -> u_prof u i = n0) -> quiet_w g u n k = n0 * (lg_L g / INR n).
Proof.
  intros F H. pose proof F as [_ Hn]. unfold quiet_w. rewrite (interp_ext _ _ _ (fun _ => n0)) by (auto; lia). rewrite const_interp; [reflexivity|now apply lg_x_inc|lia].
Qed.
Lemma zip3_map A (h k : A -> R) w l : forall vs, List.length vs = List.length l -> (forall a, In a l -> k a = w) ->
  map (fun p => (px p, pw p)) (zip3 (map h l) vs (map k l)) = map (fun a => (h a, w)) l.
Proof.
  induction l as [|a l IH]; intros [|v vs] L E; cbn in *; try discriminate; [reflexivity|]. rewrite IH by (auto; lia). now rewrite E by now left.
Qed.
Theorem C68_quiet_uniform : forall gen g ppc passes s u n0, generator gen -> fit g -> (1 <= ppc)%nat -> one s u -> l_quiet s = true ->
  0 < n0 -> (forall i, (i < lg_nx g)%nat -> u_prof u i = n0) ->
  exists ps, load_species gen g ppc passes s = LOk ps /\ (u_v0 u = 0 -> total_momentum ps = 0) /\
  forall sh i, (i < lg_nx g)%nat -> deposit sh ps (lg_nx g) (lg_dx g) (lg_xmin g) i = n0.
Proof.
  intros gen g ppc passes s u n0 G F Hp O Q P0 H. destruct (lg_pos g F) as (PL & PD & PN & EL). pose proof F as [_ Hn].
  assert (I : 0 < integrated g u) by (unfold integrated; rewrite (rsum_ext _ _ (fun _ => n0)) by auto; rewrite rsum_const; apply Rmult_lt_0_compat; [apply Rmult_lt_0_compat; assumption|exact PD]).
  destruct (quiet_load gen g ppc passes s u G F Hp O Q I) as [E LP]. set (n := (lg_nx g * ppc)%nat) in *.
  eexists. split; [exact E|]. assert (Pp : 0 < INR ppc) by (apply lt_0_INR; lia).
  set (w := n0 * (lg_L g / INR n)).
  split.
  - intros V0. unfold total_momentum.
    assert (Z : forall l vs, List.length vs = List.length l -> lsum (map (fun p => pw p * pv p) (zip3 (map (quiet_x g n) l) vs (map (quiet_w g u n) l))) = w * lsum vs).
    { induction l as [|a l IH]; intros [|v vs] L; cbn in *; try discriminate; [ring|]. rewrite IH by lia. rewrite (quiet_w_const g u n a n0 F H). fold w. ring. }
    rewrite Z by (rewrite seq_length; exact LP).
    assert (PS : forall l l', Permutation l l' -> lsum l = lsum l') by (induction 1; cbn; lra).
    rewrite (PS _ _ (proj1 (G (u_seed u)) _)). rewrite V0, quiet_v_sum by (destruct O as (_ & _ & ?); assumption). ring.
  - intros sh i Hi. unfold deposit.
    set (ps := zip3 _ _ _).
    assert (PX : map (fun p => (px p, pw p)) ps = map (fun k => (quiet_x g n k, w)) (seq 0 n)).
    { unfold ps. apply zip3_map; [rewrite seq_length; exact LP|]. intros a _. now apply quiet_w_const. }
    assert (M : map (fun p => scatter (stencil sh (px p) (lg_dx g) (lg_xmin g) (lg_nx g)) (pw p) i) ps =
                map (fun k => scatter (stencil sh (quiet_x g n k) (lg_dx g) (lg_xmin g) (lg_nx g)) w i) (seq 0 n)).
    { rewrite <- (map_map (fun p => (px p, pw p)) (fun q => scatter (stencil sh (fst q) (lg_dx g) (lg_xmin g) (lg_nx g)) (snd q) i)), PX, map_map. reflexivity. }
    rewrite M, lsum_seq. unfold n at 1. rewrite rsum_mult.
    rewrite (rsum_ext (lg_nx g) _ (fun c => rsum ppc (fun r => scatter (stencil sh (lg_xmin g + (INR r + 1 / 2) / INR ppc * lg_dx g + INR c * lg_dx g) (lg_dx g) (lg_xmin g) (lg_nx g)) w i))).
    2:{ intros c _. apply rsum_ext. intros r _. unfold n. rewrite quiet_place by auto. do 2 f_equal. ring. }
    rewrite rsum_swap. rewrite (rsum_ext ppc _ (fun _ => w)) by (intros r _; apply full_row; [lia|lra|exact Hi]).
    rewrite rsum_const. unfold w, n, lg_dx. rewrite mult_INR. field. unfold lg_dx in *. repeat split; lra.
Qed.
Print Assumptions C68_quiet_uniform.

(** ** The neutralising background *)
Lemma n_prof_sum s i : n_prof s i = lsum (map (fun u => u_prof u i) (l_subs s)).
Proof.
  unfold n_prof. assert (A : forall l acc, fold_left (fun acc u => fun i => acc i + u_prof u i) l acc i = acc i + lsum (map (fun u => u_prof u i) l)).
  { induction l as [|u l IH]; intros acc; cbn; [ring|]. rewrite IH. ring. }
  rewrite A. ring.
Qed.
Lemma ion_sum l i : ion_charge true l i = - lsum (map (fun s => l_charge s * n_prof s i) l).
Proof.
  unfold ion_charge. assert (A : forall l acc, fold_left (fun acc s => fun i => acc i - l_charge s * n_prof s i) l acc i = acc i - lsum (map (fun s => l_charge s * n_prof s i) l)).
  { intros k; induction k as [|s k IH]; intros acc; cbn; [ring|]. rewrite IH. ring. }
  rewrite A. ring.
Qed.
(** With the quasineutrality flag the background cancels the requested charge density in every cell, for any mix of
    species; without it there is no background. *)
Theorem C68_neutral : forall l i,
  ion_charge true l i + lsum (map (fun s => l_charge s * lsum (map (fun u => u_prof u i) (l_subs s))) l) = 0 /\ ion_charge false l i = 0.
Proof.
  intros l i. split; [|reflexivity]. rewrite ion_sum.
  assert (E : lsum (map (fun s => l_charge s * n_prof s i) l) = lsum (map (fun s => l_charge s * lsum (map (fun u => u_prof u i) (l_subs s))) l)) by (apply lsum_ext; intros s _; now rewrite n_prof_sum).
  rewrite E. ring.
Qed.
Print Assumptions C68_neutral.
(** Hence the box as a whole is neutral once every species carries the weight that was asked for. *)
Theorem C68_neutral_total : forall g sh (l : list (pspecies * Pic.species)), fit g ->
  (forall s p, In (s, p) l -> charge p = l_charge s /\ total_weight (parts p) = asked g s) ->
  rsum (lg_nx g) (fun i => charge_density sh (map snd l) (lg_nx g) (lg_dx g) (lg_xmin g) i + ion_charge true (map fst l) i) = 0.
Proof.
  intros g sh l F H. destruct (lg_pos g F) as (PL & PD & PN & EL). pose proof F as [_ Hn].
  rewrite rsum_plus.
  assert (A : rsum (lg_nx g) (charge_density sh (map snd l) (lg_nx g) (lg_dx g) (lg_xmin g)) = lsum (map (fun e => l_charge (fst e) * (asked g (fst e) / lg_dx g)) l)).
  { unfold charge_density. rewrite (rsum_lsum (lg_nx g) (map snd l) (fun s i => charge s * deposit sh (parts s) (lg_nx g) (lg_dx g) (lg_xmin g) i)), map_map.
    apply lsum_ext. intros [s p] K. cbn [fst snd]. destruct (H s p K) as [E W]. rewrite E, rsum_scal. f_equal.
    pose proof (adjoint sh (fun _ => 1) (parts p) (lg_nx g) (lg_dx g) (lg_xmin g) ltac:(lia) ltac:(lra)) as Z.
    rewrite (rsum_ext _ (fun i => 1 * deposit sh (parts p) (lg_nx g) (lg_dx g) (lg_xmin g) i) (deposit sh (parts p) (lg_nx g) (lg_dx g) (lg_xmin g))) in Z by (intros; ring).
    rewrite (lsum_ext (parts p) _ pw) in Z by (intros; rewrite gather_const; ring). rewrite <- W. unfold total_weight. rewrite <- Z. field. lra. }
  change (fun i => charge_density sh (map snd l) (lg_nx g) (lg_dx g) (lg_xmin g) i) with (charge_density sh (map snd l) (lg_nx g) (lg_dx g) (lg_xmin g)).
  rewrite A. rewrite (rsum_ext _ _ (fun i => -1 * lsum (map (fun e => l_charge (fst e) * n_prof (fst e) i) l))) by (intros; rewrite ion_sum, map_map; ring).
  rewrite rsum_scal. rewrite (rsum_lsum (lg_nx g) l (fun e i => l_charge (fst e) * n_prof (fst e) i)).
  rewrite (lsum_ext l (fun e => rsum (lg_nx g) (fun i => l_charge (fst e) * n_prof (fst e) i)) (fun e => l_charge (fst e) * (asked g (fst e) / lg_dx g))); [ring|].
  intros [s p] _. cbn [fst]. rewrite rsum_scal. f_equal. unfold asked. rewrite (rsum_ext _ (n_prof s) _ (fun i _ => n_prof_sum s i)). field. lra.
Qed.
Print Assumptions C68_neutral_total.
(** A uniform quiet plasma starts without any field. *)
Theorem C68_field_free : forall gen g ppc passes s u n0 qm, generator gen -> fit g -> (1 <= ppc)%nat -> one s u -> l_quiet s = true ->
  0 < n0 -> (forall i, (i < lg_nx g)%nat -> u_prof u i = n0) -> exists ps, load_species gen g ppc passes s = LOk ps /\
  forall sh i, spectral_poisson (lg_nx g) (lg_dx g) (Some (ion_charge true [s]))
    (charge_density sh [{| charge := l_charge s; charge_to_mass := qm; parts := ps |}] (lg_nx g) (lg_dx g) (lg_xmin g)) i = 0.
Proof.
  intros gen g ppc passes s u n0 qm G F Hp O Q P0 H. destruct (C68_quiet_uniform gen g ppc passes s u n0 G F Hp O Q P0 H) as (ps & E & _ & D).
  exists ps. split; [exact E|]. intros sh i. rewrite poisson_formula.
  rewrite (rsum_ext _ _ (fun _ => 0)); [rewrite rsum_zero; ring|]. intros k _.
  rewrite (rsum_ext _ _ (fun _ => 0)); [rewrite rsum_zero; ring|]. intros h Hh. unfold total_charge. cbn [option_map].
  rewrite ion_sum. unfold charge_density. cbn [map lsum charge parts]. rewrite n_prof_sum. destruct O as (-> & _). cbn [map lsum].
  rewrite (D sh h Hh), (H h Hh). ring.
Qed.
Print Assumptions C68_field_free.

(** ** Random start *)
Lemma accepted_in T m o al vm v0 draw batch start c : In c (accepted T m o al vm v0 draw batch start) ->
  exists i, c = - vm + (vm - - vm) * draw (start + i)%nat + v0 /\ draw (start + batch + i)%nat < exp (- abs_pow ((c - v0) / (al * sqrt (T / m))) o).
Proof.
  intros H. unfold accepted in H. apply in_map_iff in H. destruct H as ([a b] & E & H). cbn [fst] in E. subst a.
  apply filter_In in H. destruct H as [H P]. apply in_map_iff in H. destruct H as (i & E & _). injection E as E1 E2. exists i.
  split; [congruence|]. rewrite E2. cbn [fst snd] in P. destruct (Rlt_dec _ _); [assumption|discriminate].
Qed.
Lemma firstn_in A (l : list A) n x : In x (firstn n l) -> In x l.
Proof. intros H. rewrite <- (firstn_skipn n l). apply in_or_app. now left. Qed.
Lemma random_velocity n T m o al vm v0 draw start passes vs v : random_v n T m o al vm v0 draw start passes = Some vs -> In v vs ->
  exists i j, v = v0 - vm + 2 * vm * draw i /\ draw j < exp (- abs_pow ((v - v0) / (al * sqrt (T / m))) o).
Proof.
  intros E I. destruct (reject_spec _ _ _ _ _ _ _ _ _ _ _ _ E) as (_ & b & W). rewrite W in I. apply firstn_in in I.
  apply in_concat in I. destruct I as (k & K & I). apply in_map_iff in K. destruct K as (j & <- & _).
  destruct (accepted_in _ _ _ _ _ _ _ _ _ _ I) as (i & A & B). eexists; eexists. split; [rewrite A; ring_simplify; reflexivity|exact B].
Qed.
Lemma load_random_parts g s u r passes m ps : load_random g s u r passes m = LOk ps ->
  (0 <= m)%Z /\ exists vs, random_v (Z.to_nat m) (u_T0 u) (l_mass s) (u_order u) (u_alpha u) (l_vmax s) (u_v0 u) (r_draw r) (Z.to_nat m) passes = Some vs /\
  ps = zip3 (map (random_x g u r) (seq 0 (Z.to_nat m))) vs (map (fun _ => integrated g u / INR (Z.to_nat m)) (seq 0 (Z.to_nat m))) /\ List.length vs = Z.to_nat m.
Proof.
  intros E. unfold load_random in E. destruct (Z.ltb_spec m 0) as [C|C]; [discriminate|]. split; [exact C|].
  destruct (random_v _ _ _ _ _ _ _ _ _ _) as [vs|] eqn:R; [|discriminate]. injection E as E. exists vs. split; [reflexivity|]. split; [congruence|].
  exact (proj1 (reject_spec _ _ _ _ _ _ _ _ _ _ _ _ R)).
Qed.
Lemma random_weight g s u r passes m ps : (1 <= m)%Z -> load_random g s u r passes m = LOk ps -> total_weight ps = integrated g u.
Proof.
  intros Hm E. destruct (load_random_parts _ _ _ _ _ _ _ E) as (_ & vs & _ & -> & L). unfold total_weight.
  rewrite zip3_w; rewrite ?map_length, ?seq_length; auto. rewrite lsum_seq, rsum_const. field.
  assert (0 < INR (Z.to_nat m)) by (apply lt_0_INR; lia). lra.
Qed.
Lemma total_weight_app a b : total_weight (a ++ b) = total_weight a + total_weight b.
Proof. unfold total_weight. now rewrite map_app, lsum_app. Qed.
Lemma subs_weight gen g s passes : l_quiet s = false -> forall us ms ps, List.length us = List.length ms -> (forall m, In m ms -> (1 <= m)%Z) ->
  load_subs gen g s passes us ms = LOk ps -> total_weight ps = lsum (map (integrated g) us).
Proof.
  intros Q us. induction us as [|u us IH]; intros [|m ms] ps L P E; cbn in *; try discriminate; [now injection E as <-|].
  destruct (load_sub gen g s passes u m) as [p1| | | | |] eqn:E1; try discriminate.
  destruct (load_subs gen g s passes us ms) as [p2| | | | |] eqn:E2; try discriminate. injection E as <-.
  rewrite total_weight_app, (IH ms p2) by (auto; lia). f_equal. unfold load_sub in E1. destruct (u_seed u <? 0)%Z; [discriminate|]. rewrite Q in E1.
  eapply random_weight; [|exact E1]. apply P. now left.
Qed.
Lemma asked_sum g s : asked g s = lsum (map (integrated g) (l_subs s)).
Proof.
  unfold asked, integrated. rewrite (rsum_lsum (lg_nx g) (l_subs s) (fun u i => u_prof u i)). rewrite Rmult_comm, <- lsum_scal. apply lsum_ext. intros u _. change (lg_dx g * rsum (lg_nx g) (u_prof u) = rsum (lg_nx g) (u_prof u) * lg_dx g). ring.
Qed.
Lemma load_no_resize gen g ppc passes s ps : generator gen -> l_subs s <> [] -> (forall m, In m (counts (map (integrated g) (l_subs s)) (Z.of_nat (lg_nx g * ppc))) -> (1 <= m)%Z) ->
  load_species gen g ppc passes s = LOk ps -> load_subs gen g s passes (l_subs s) (counts (map (integrated g) (l_subs s)) (Z.of_nat (lg_nx g * ppc))) = LOk ps.
Proof.
  intros G N P E. unfold load_species in E. destruct (Rle_dec _ 0); [discriminate|].
  destruct (load_subs _ _ _ _ _ _) as [qs| | | | |] eqn:E1; try discriminate. injection E as <-.
  assert (LL : List.length qs = (lg_nx g * ppc)%nat).
  { assert (LE : List.length (l_subs s) = List.length (counts (map (integrated g) (l_subs s)) (Z.of_nat (lg_nx g * ppc)))) by (now rewrite counts_length, map_length).
    rewrite (load_subs_length gen g s passes G _ _ _ LE E1).
    apply Nat2Z.inj. rewrite znat_sum_nonneg by (intros m Hm; specialize (P m Hm); lia). rewrite counts_sum; [reflexivity|].
    intros K. apply map_eq_nil in K. contradiction. }
  rewrite (proj2 (Nat.eqb_eq _ _) LL). reflexivity.
Qed.
(** Whenever every component receives a particle, the weights add up exactly to the requested density, whatever the
    random numbers. *)
Theorem C68_random_weight : forall gen g ppc passes s ps, generator gen -> l_quiet s = false -> l_subs s <> [] ->
  (forall m, In m (counts (map (integrated g) (l_subs s)) (Z.of_nat (lg_nx g * ppc))) -> (1 <= m)%Z) ->
  load_species gen g ppc passes s = LOk ps -> total_weight ps = asked g s.
Proof.
  intros gen g ppc passes s ps G Q N P E. apply load_no_resize in E; auto. rewrite asked_sum.
  eapply subs_weight; eauto. now rewrite counts_length, map_length.
Qed.
Print Assumptions C68_random_weight.
Lemma random_x_range g u r i : generator (fun _ => r) -> fit g -> (2 <= lg_nx g)%nat -> (forall k, (k < lg_nx g)%nat -> 0 < u_prof u k) ->
  lg_xmin g + lg_dx g / 2 <= random_x g u r i <= lg_xmax g - lg_dx g / 2.
Proof.
  intros G F Hn P. pose proof (lg_x_inc g F) as I. unfold random_x.
  pose proof (interp_range (lg_nx g) (cdf (lg_nx g) (lg_x g) (u_prof u)) (lg_x g) (r_draw r i) ltac:(lia) (cdf_inc _ _ _ Hn I P) (fun k Hk => Rlt_le _ _ (I k Hk))) as B.
  unfold lg_x in B at 2 5. destruct (linspace_ends (lg_xmin g + lg_dx g / 2) (lg_xmax g - lg_dx g / 2) (lg_nx g) Hn) as [E0 E1].
  change (lg_x g 0%nat) with (linspace (lg_xmin g + lg_dx g / 2) (lg_xmax g - lg_dx g / 2) (lg_nx g) 0) in B.
  change (lg_x g (lg_nx g - 1)%nat) with (linspace (lg_xmin g + lg_dx g / 2) (lg_xmax g - lg_dx g / 2) (lg_nx g) (lg_nx g - 1)) in B.
  rewrite E0, E1 in B. exact B.
Qed.
(** One component at random: positions between the first and the last cell centre; velocities within vmax of the
    drift; equal weights. *)
Theorem C68_random : forall gen g ppc passes s u ps, generator gen -> fit g -> (2 <= lg_nx g)%nat -> (1 <= ppc)%nat -> one s u -> l_quiet s = false ->
  (forall k, (k < lg_nx g)%nat -> 0 < u_prof u k) -> load_species gen g ppc passes s = LOk ps -> forall p, In p ps ->
  lg_xmin g + lg_dx g / 2 <= px p <= lg_xmax g - lg_dx g / 2 /\
  u_v0 u - l_vmax s <= pv p < u_v0 u + l_vmax s /\ pw p = asked g s / INR (lg_nx g * ppc).
Proof.
  intros gen g ppc passes s u ps G F Hn Hp O Q P E p I.
  assert (Pn : (0 < lg_nx g * ppc)%nat) by nia.
  assert (C : counts (map (integrated g) (l_subs s)) (Z.of_nat (lg_nx g * ppc)) = [Z.of_nat (lg_nx g * ppc)]).
  { destruct O as (-> & _). cbn [map]. change [integrated g u] with ([] ++ [integrated g u]). rewrite counts_split. cbn [map app zsum]. now rewrite Z.sub_0_r. }
  apply load_no_resize in E; [|exact G|destruct O as (-> & _); discriminate|rewrite C; intros m [<-|[]]; lia].
  rewrite C in E. pose proof O as (O1 & Sd & V). rewrite O1 in E. cbn [load_subs] in E. unfold load_sub in E.
  destruct (Z.ltb_spec (u_seed u) 0); [lia|]. rewrite Q in E.
  destruct (load_random g s u (gen (u_seed u)) passes (Z.of_nat (lg_nx g * ppc))) as [qs| | | | |] eqn:E1; try discriminate.
  injection E as <-. rewrite app_nil_r in I. destruct (load_random_parts _ _ _ _ _ _ _ E1) as (_ & vs & RV & -> & L). rewrite Nat2Z.id in *.
  set (n := (lg_nx g * ppc)%nat) in *.
  assert (LX : List.length vs = List.length (map (random_x g u (gen (u_seed u))) (seq 0 n))) by (rewrite map_length, seq_length; exact L).
  assert (LW : List.length (map (fun _ => integrated g u / INR n) (seq 0 n)) = List.length (map (random_x g u (gen (u_seed u))) (seq 0 n))) by (now rewrite !map_length).
  split; [|split].
  - pose proof (in_map px _ _ I) as X. rewrite zip3_x in X by assumption. apply in_map_iff in X. destruct X as (i & <- & _).
    apply random_x_range; auto. intros _. exact (G (u_seed u)).
  - pose proof (in_map pv _ _ I) as X. rewrite zip3_v in X by assumption.
    destruct (random_velocity _ _ _ _ _ _ _ _ _ _ _ _ RV X) as (i & j & -> & _). pose proof (proj2 (G (u_seed u)) i). nra.
  - pose proof (in_map pw _ _ I) as X. rewrite zip3_w in X by assumption. apply in_map_iff in X. destruct X as (i & <- & _).
    rewrite asked_sum, O1. cbn. unfold Rdiv. ring.
Qed.
Print Assumptions C68_random.
(** The rejection loop returns the first n accepted candidates in the order they were drawn, each accepted with the
    probability the target density asks for. *)
Theorem C68_rejection : forall n T m o al vm v0 draw start passes vs, random_v n T m o al vm v0 draw start passes = Some vs ->
  List.length vs = n /\ forall v, In v vs -> exists i j, v = v0 - vm + 2 * vm * draw i /\ draw j < exp (- abs_pow ((v - v0) / (al * sqrt (T / m))) o).
Proof.
  intros n T m o al vm v0 draw start passes vs E. split; [exact (proj1 (reject_spec _ _ _ _ _ _ _ _ _ _ _ _ E))|].
  intros v I. eapply random_velocity; eauto.
Qed.
Print Assumptions C68_rejection.
(** Two components with the same seed draw the same numbers: with proportional profiles their i-th particles sit at
    the same place. *)
Theorem C68_repeated_seed : forall gen g u u' c i, fit g -> (2 <= lg_nx g)%nat -> (forall k, (k < lg_nx g)%nat -> 0 < u_prof u k) -> 0 < c ->
  (forall k, (k < lg_nx g)%nat -> u_prof u' k = c * u_prof u k) -> u_seed u = u_seed u' ->
  random_x g u (gen (u_seed u)) i = random_x g u' (gen (u_seed u')) i.
Proof.
  intros gen g u u' c i F Hn P Hc E S. rewrite <- S. unfold random_x.
  assert (I := lg_x_inc g F).
  assert (P' : forall k, (k < lg_nx g)%nat -> 0 < u_prof u' k) by (intros k Hk; rewrite E by exact Hk; apply Rmult_lt_0_compat; auto).
  assert (CC : forall k, (k < lg_nx g)%nat -> cum (lg_x g) (u_prof u') k = c * cum (lg_x g) (u_prof u) k).
  { intros k Hk. unfold cum. rewrite <- rsum_scal. apply rsum_ext. intros j Hj. rewrite !E by lia. ring. }
  assert (EQ : forall k, (k < lg_nx g)%nat -> cdf (lg_nx g) (lg_x g) (u_prof u) k = cdf (lg_nx g) (lg_x g) (u_prof u') k).
  { intros k Hk. rewrite !cdf_formula by auto. rewrite !CC by lia. pose proof (cum_last_pos _ _ _ Hn I P). field. lra. }
  set (q := r_draw (gen (u_seed u)) i).
  destruct (Rlt_dec q (cdf (lg_nx g) (lg_x g) (u_prof u) 0)) as [A|A].
  { rewrite !interp_below; [reflexivity|rewrite <- EQ by lia; exact A|exact A]. }
  destruct (Rlt_dec (cdf (lg_nx g) (lg_x g) (u_prof u) (lg_nx g - 1)) q) as [B|B].
  { rewrite !interp_above; auto; try lia; [now apply cdf_inc|rewrite <- EQ by lia; exact B|now apply cdf_inc]. }
  destruct (locate (lg_nx g) (cdf (lg_nx g) (lg_x g) (u_prof u)) q) as (j & J & K); [exact Hn|lra|].
  rewrite !(interp_at _ _ _ _ j); auto; try (now apply cdf_inc); rewrite <- !EQ by lia; auto.
Qed.
Print Assumptions C68_repeated_seed.

(** ** Concrete cases *)
Definition gen0 : Z -> rng := fun _ => {| r_perm := fun l => l; r_draw := fun _ => 0 |}.
Lemma gen0_ok : generator gen0. Proof. intros seed. split; [reflexivity|]. intros i. cbn. lra. Qed.
Definition box (n : nat) : lgrid := {| lg_nx := n; lg_xmin := 0; lg_xmax := INR n |}.
Lemma box_fit n : (0 < n)%nat -> fit (box n). Proof. intros H. split; [cbn; now apply lt_0_INR|exact H]. Qed.
Lemma box_dx n : (0 < n)%nat -> lg_dx (box n) = 1.
Proof. intros H. unfold lg_dx, lg_L. cbn. apply lt_0_INR in H. field. lra. Qed.
Definition flat (n0 v0 : R) : sub := {| u_prof := fun _ => n0; u_T0 := 1; u_order := 2; u_alpha := 1; u_v0 := v0; u_seed := 0 |}.
Definition electrons (quiet : bool) (us : list sub) : pspecies := {| l_name := lit "electron"; l_mass := 1; l_charge := -1; l_quiet := quiet; l_vmax := 6; l_subs := us |}.
Lemma all_kept T m o al vm v0 batch start : accepted T m o al vm v0 (fun _ => 0) batch start = repeat (- vm + v0) batch.
Proof.
  unfold accepted. rewrite (map_ext _ (fun _ : nat => (- vm + v0, 0))) by (intros; f_equal; ring).
  assert (A : forall b k, map fst (filter (fun c : R * R => if Rlt_dec (snd c) (exp (- abs_pow ((fst c - v0) / (al * sqrt (T / m))) o)) then true else false)
    (map (fun _ : nat => (- vm + v0, 0)) (seq k b))) = repeat (- vm + v0) b); [|apply A].
  induction b as [|b IH]; intros k; [reflexivity|]. cbn [seq map filter snd].
  destruct (Rlt_dec 0 _) as [_|C]; [|exfalso; apply C; apply exp_pos]. cbn [map fst repeat]. f_equal. apply IH.
Qed.
Lemma finishes T m o al vm v0 n start passes : random_v n T m o al vm v0 (fun _ => 0) start (S passes) = Some (repeat (- vm + v0) n).
Proof.
  unfold random_v. destruct n as [|n]; [reflexivity|]. cbn [reject]. rewrite all_kept, repeat_length.
  set (b := Nat.max (S n) 1024). assert (B : (S n <= b)%nat) by apply Nat.le_max_l. rewrite (Nat.min_r b (S n) B).
  assert (Z : reject T m o al vm v0 (fun _ => 0) b (start + 2 * b) (S n - S n) passes = Some []) by (rewrite Nat.sub_diag; destruct passes; reflexivity).
  rewrite Z, app_nil_r. f_equal. revert B. generalize b. clear. intros b B. replace b with (S n + (b - S n))%nat by lia. rewrite repeat_app.
  rewrite firstn_app, repeat_length, Nat.sub_diag, firstn_O, app_nil_r. rewrite firstn_all2; [reflexivity|now rewrite repeat_length].
Qed.
Lemma flat_int n n0 v0 : (0 < n)%nat -> integrated (box n) (flat n0 v0) = INR n * n0.
Proof. intros H. unfold integrated. rewrite box_dx by exact H. cbn [flat u_prof box lg_nx]. rewrite rsum_const. ring. Qed.
Example C68_quiet_nonvacuous : generator gen0 /\ fit (box 4) /\ one (electrons true [flat 2 0]) (flat 2 0) /\ 0 < integrated (box 4) (flat 2 0).
Proof.
  split; [apply gen0_ok|]. split; [apply box_fit; lia|]. split; [split; [reflexivity|split; [cbn; lia|cbn; lra]]|]. rewrite flat_int by lia.
  replace (INR 4) with 4 by (cbn; ring). lra.
Qed.
Example C68_random_nonvacuous : exists ps, load_species gen0 (box 4) 2 1 (electrons false [flat 2 3]) = LOk ps /\ total_weight ps = 8.
Proof.
  assert (E : exists ps, load_species gen0 (box 4) 2 1 (electrons false [flat 2 3]) = LOk ps).
  { unfold load_species. cbn [electrons l_subs map]. rewrite flat_int by lia. destruct (Rle_dec _ 0) as [C|_]; [cbn in C; lra|].
    change [INR 4 * 2] with ([] ++ [INR 4 * 2]). rewrite counts_split. cbn [map app zsum load_subs]. unfold load_sub. cbn [flat u_seed Z.ltb Z.compare l_quiet].
    unfold load_random. cbn [box lg_nx Nat.mul Nat.add Z.of_nat Z.sub Z.opp Z.ltb Z.compare gen0 r_draw].
    rewrite finishes. eexists. reflexivity. }
  destruct E as [ps E]. exists ps. split; [exact E|].
  rewrite (C68_random_weight gen0 (box 4) 2 1 (electrons false [flat 2 3]) ps gen0_ok eq_refl ltac:(discriminate)); [| |exact E].
  - rewrite asked_sum. cbn [electrons l_subs map lsum]. rewrite flat_int by lia. cbn. lra.
  - intros m. cbn [electrons l_subs map]. rewrite flat_int by lia. change [INR 4 * 2] with ([] ++ [INR 4 * 2]). rewrite counts_split. cbn [map app zsum]. intros [<-|[]]. cbn. lia.
Qed.

(** ** What does not hold *)
(** A last component worth less than half a particle makes the quiet loader divide by zero... *)
Lemma tiny_counts : counts [4; 4 / 100] 8 = [8; 0]%Z.
Proof.
  change [4; 4 / 100] with ([4] ++ [4 / 100]). rewrite counts_split. cbn [map zsum].
  assert (R8 : round_half_even (4 / lsum ([4] ++ [4 / 100]) * IZR 8) = 8%Z).
  { unfold round_half_even. rewrite (floor_unique _ 8) by (cbn; lra). destruct (Req_EM_T _ _) as [E|_]; [cbn in E; lra|reflexivity]. }
  rewrite R8. reflexivity.
Qed.
Lemma tiny_ints q : map (integrated (box 4)) (l_subs (electrons q [flat 1 0; flat (1 / 100) 3])) = [4; 4 / 100].
Proof. cbn [electrons l_subs map]. rewrite !flat_int by lia. replace (INR 4) with 4 by (cbn; ring). f_equal; [ring|]. f_equal. field. Qed.
Theorem C68_small_last_refuted : ~ forall gen g ppc passes s, generator gen -> fit g -> (1 <= ppc)%nat -> l_subs s <> [] -> 0 < l_vmax s ->
  (forall u, In u (l_subs s) -> 0 < integrated g u /\ (0 <= u_seed u)%Z) -> l_quiet s = true -> load_species gen g ppc passes s <> LZeroDivision.
Proof.
  intros H. apply (H gen0 (box 4) 2%nat 1%nat (electrons true [flat 1 0; flat (1 / 100) 3])).
  - apply gen0_ok.
  - apply box_fit; lia.
  - lia.
  - discriminate.
  - cbn; lra.
  - intros u [<-|[<-|[]]]; rewrite flat_int by lia; (split; [cbn; lra|cbn; lia]).
  - reflexivity.
  - unfold load_species. rewrite tiny_ints. destruct (Rle_dec _ 0) as [C|_]; [cbn in C; lra|].
    change (Z.of_nat (lg_nx (box 4) * 2)) with 8%Z. rewrite tiny_counts. reflexivity.
Qed.
Print Assumptions C68_small_last_refuted.
(** ... and the random loader drop it without a word. *)
Theorem C68_dropped_refuted : ~ forall gen g ppc passes s ps, generator gen -> fit g -> (1 <= ppc)%nat -> l_subs s <> [] -> 0 < l_vmax s ->
  (forall u, In u (l_subs s) -> 0 < integrated g u /\ (0 <= u_seed u)%Z) -> l_quiet s = false ->
  load_species gen g ppc passes s = LOk ps -> total_weight ps = asked g s.
Proof.
  intros H. set (s := electrons false [flat 1 0; flat (1 / 100) 3]).
  assert (P8 : exists p1, load_random (box 4) s (flat 1 0) (gen0 0) 1 8 = LOk p1).
  { unfold load_random. cbn [Z.ltb Z.compare gen0 r_draw]. change (r_draw (gen0 0)) with (fun _ : nat => 0). rewrite finishes. eexists. reflexivity. }
  destruct P8 as [p1 E1].
  assert (P0 : load_random (box 4) s (flat (1 / 100) 3) (gen0 0) 1 0 = LOk []) by reflexivity.
  assert (E : load_species gen0 (box 4) 2 1 s = LOk p1).
  { assert (TI : map (integrated (box 4)) (l_subs s) = [4; 4 / 100]) by exact (tiny_ints false).
    unfold load_species. rewrite TI. destruct (Rle_dec _ 0) as [C|_]; [cbn in C; lra|].
    change (Z.of_nat (lg_nx (box 4) * 2)) with 8%Z. rewrite tiny_counts. change (l_subs s) with [flat 1 0; flat (1 / 100) 3]. cbn [load_subs].
    unfold load_sub. change (u_seed (flat 1 0)) with 0%Z. change (u_seed (flat (1 / 100) 3)) with 0%Z. cbn [Z.ltb Z.compare]. change (l_quiet s) with false. cbv iota.
    rewrite E1, P0. rewrite !app_nil_r. f_equal.
    assert (L : List.length p1 = (lg_nx (box 4) * 2)%nat).
    { destruct (load_random_parts _ _ _ _ _ _ _ E1) as (_ & vs & _ & -> & L). rewrite zip3_length; rewrite ?map_length, ?seq_length; auto. }
    rewrite (proj2 (Nat.eqb_eq _ _) L). reflexivity. }
  pose proof (H gen0 (box 4) 2%nat 1%nat s p1 gen0_ok (box_fit 4 ltac:(lia)) ltac:(lia) ltac:(discriminate) ltac:(cbn; lra)) as K.
  assert (W : total_weight p1 = 4) by (rewrite (random_weight (box 4) s (flat 1 0) (gen0 0) 1 8 p1 ltac:(lia) E1), flat_int by lia; cbn; lra).
  assert (A : asked (box 4) s = 4 + 4 / 100) by (rewrite asked_sum; unfold s; rewrite (tiny_ints false); cbn; lra).
  rewrite W, A in K. assert (4 = 4 + 4 / 100); [|lra]. apply K; [|reflexivity|exact E].
  intros u [<-|[<-|[]]]; rewrite flat_int by lia; (split; [cbn; lra|cbn; lia]).
Qed.
Print Assumptions C68_dropped_refuted.
(** The quiet loader cuts a drifting distribution at [-vmax, vmax], so the mean velocity is not the drift. *)
Theorem C68_quiet_drift_refuted : ~ forall gen g ppc passes s u n0 ps, generator gen -> fit g -> (1 <= ppc)%nat -> one s u -> l_quiet s = true ->
  0 < n0 -> (forall i, (i < lg_nx g)%nat -> u_prof u i = n0) -> load_species gen g ppc passes s = LOk ps -> total_momentum ps = u_v0 u * total_weight ps.
Proof.
  intros H. set (u := flat 1 7). set (s := electrons true [u]).
  assert (O : one s u) by (split; [reflexivity|split; [cbn; lia|cbn; lra]]).
  assert (I : 0 < integrated (box 4) u) by (unfold u; rewrite flat_int by lia; cbn; lra).
  destruct (quiet_load gen0 (box 4) 1 1 s u gen0_ok (box_fit 4 ltac:(lia)) ltac:(lia) O eq_refl I) as [E LP].
  set (ps := zip3 _ _ _) in E. specialize (H gen0 (box 4) 1%nat 1%nat s u 1 ps gen0_ok (box_fit 4 ltac:(lia)) ltac:(lia) O eq_refl ltac:(lra) (fun _ _ => eq_refl) E).
  destruct (C68_quiet_weight gen0 (box 4) 1 1 s u gen0_ok (box_fit 4 ltac:(lia)) ltac:(lia) O eq_refl I) as (ps2 & E2 & W & _).
  assert (ps2 = ps) by congruence. subst ps2.
  assert (A : asked (box 4) s = 4) by (rewrite asked_sum; unfold s, u; cbn [electrons l_subs map]; rewrite flat_int by lia; cbn; lra).
  rewrite W, A in H. cbn [u flat u_v0] in H.
  destruct (C68_quiet gen0 (box 4) 1 1 s u gen0_ok (box_fit 4 ltac:(lia)) ltac:(lia) O eq_refl I) as (ps3 & E3 & _ & vs & PM & _ & B). assert (ps3 = ps) by congruence. subst ps3.
  assert (Vp : forall p, In p ps -> pv p <= 6).
  { intros p Hp. apply (in_map pv) in Hp. apply (Permutation_in _ PM) in Hp. apply In_nth_error in Hp. destruct Hp as [k Hk]. destruct (B k _ Hk) as [C _]. cbn in C. lra. }
  assert (Wp : forall p, In p ps -> 0 <= pw p).
  { intros p Hp. apply (in_map pw) in Hp. unfold ps in Hp. rewrite zip3_w in Hp; rewrite ?map_length, ?seq_length; auto. apply in_map_iff in Hp. destruct Hp as (k & <- & _).
    rewrite (quiet_w_const (box 4) u _ k 1 (box_fit 4 ltac:(lia)) (fun _ _ => eq_refl)). unfold lg_L. cbn. lra. }
  assert (M : total_momentum ps <= 6 * total_weight ps).
  { unfold total_momentum, total_weight. clear -Vp Wp. induction ps as [|p l IH]; cbn; [lra|].
    pose proof (Vp p (or_introl eq_refl)). pose proof (Wp p (or_introl eq_refl)). specialize (IH (fun q K => Vp q (or_intror K)) (fun q K => Wp q (or_intror K))). nra. }
  rewrite W, A in M. lra.
Qed.
Print Assumptions C68_quiet_drift_refuted.
(** A random position is never in the outer half of an end cell. *)
Theorem C68_random_edge_refuted : ~ forall g u y, fit g -> (2 <= lg_nx g)%nat -> (forall k, (k < lg_nx g)%nat -> 0 < u_prof u k) ->
  lg_xmin g < y < lg_xmax g -> exists r i, generator (fun _ => r) /\ random_x g u r i = y.
Proof.
  intros H. destruct (H (box 4) (flat 1 0) (1 / 4)) as (r & i & G & E).
  - apply box_fit; lia.
  - cbn; lia.
  - intros; cbn; lra.
  - cbn; lra.
  - pose proof (random_x_range (box 4) (flat 1 0) r i G (box_fit 4 ltac:(lia)) ltac:(cbn; lia) ltac:(intros; cbn; lra)) as B.
    rewrite E, box_dx in B by lia. cbn in B. lra.
Qed.
Print Assumptions C68_random_edge_refuted.
(** With several components the counts are not multiples of nx, and quiet weights only approximate the density. *)
Definition bump : sub := {| u_prof := fun i => match i with 1%nat => 4 | _ => 1 end; u_T0 := 1; u_order := 2; u_alpha := 1; u_v0 := 0; u_seed := 0 |}.
Lemma quiet_parts g s u r m ps : generator (fun _ => r) -> load_quiet g s u r m = LOk ps -> total_weight ps = rsum (Z.to_nat m) (quiet_w g u (Z.to_nat m)).
Proof.
  intros G E. unfold load_quiet in E. destruct (m =? 0)%Z; [discriminate|]. injection E as <-. unfold total_weight.
  rewrite zip3_w; rewrite ?map_length, ?seq_length; auto; [apply lsum_seq|]. rewrite (Permutation_length (proj1 (G 0%Z) _)). apply quiet_v_length.
Qed.
Theorem C68_quiet_components_refuted : ~ forall gen g ppc passes s ps, generator gen -> fit g -> (1 <= ppc)%nat -> l_subs s <> [] -> 0 < l_vmax s ->
  (forall m, In m (counts (map (integrated g) (l_subs s)) (Z.of_nat (lg_nx g * ppc))) -> (1 <= m)%Z) ->
  (forall u, In u (l_subs s) -> 0 < integrated g u /\ (0 <= u_seed u)%Z) -> l_quiet s = true ->
  load_species gen g ppc passes s = LOk ps -> total_weight ps = asked g s.
Proof.
  intros H. set (s := electrons true [bump; flat 10 0]).
  assert (F : fit (box 3)) by (apply box_fit; lia). assert (D := box_dx 3 ltac:(lia)).
  assert (IB : integrated (box 3) bump = 6) by (unfold integrated; rewrite D; cbn; lra).
  assert (IF : integrated (box 3) (flat 10 0) = 30) by (rewrite flat_int by lia; cbn; lra).
  assert (TI : map (integrated (box 3)) (l_subs s) = [6; 30]) by (cbn [s electrons l_subs map]; now rewrite IB, IF).
  assert (C : counts [6; 30] 6 = [1; 5]%Z).
  { change [6; 30] with ([6] ++ [30]). rewrite counts_split. cbn [map zsum].
    assert (R1 : round_half_even (6 / lsum ([6] ++ [30]) * IZR 6) = 1%Z).
    { unfold round_half_even. rewrite (floor_unique _ 1) by (cbn; lra). destruct (Req_EM_T _ _) as [E|_]; [cbn in E; lra|reflexivity]. }
    rewrite R1. reflexivity. }
  assert (E1 : exists p, load_quiet (box 3) s bump (gen0 0) 1 = LOk p) by (eexists; reflexivity). destruct E1 as [p1 E1].
  assert (E2 : exists p, load_quiet (box 3) s (flat 10 0) (gen0 0) 5 = LOk p) by (eexists; reflexivity). destruct E2 as [p2 E2].
  assert (G0 : generator (fun _ => gen0 0)) by (intros z; exact (gen0_ok 0%Z)).
  assert (W1 : total_weight p1 = 12).
  { rewrite (quiet_parts _ _ _ _ _ _ G0 E1). change (Z.to_nat 1) with 1%nat. cbn [rsum]. unfold quiet_w.
    assert (X : quiet_x (box 3) 1 0 = 3 / 2) by (unfold quiet_x, lg_L; cbn; lra). rewrite X.
    change (lg_nx (box 3)) with 3%nat. rewrite (interp_at 3 (lg_x (box 3)) (u_prof bump) (3 / 2) 0); [|now apply (lg_x_inc (box 3))|lia|rewrite !lg_x_formula by (auto; cbn; lia); rewrite D; cbn; lra].
    rewrite !lg_x_formula by (auto; cbn; lia). rewrite D. unfold lg_L. cbn. field. }
  assert (W2 : total_weight p2 = 30).
  { rewrite (quiet_parts _ _ _ _ _ _ G0 E2). change (Z.to_nat 5) with 5%nat.
    rewrite (rsum_ext 5 _ (fun _ => 10 * (3 / 5))) by (intros k _; rewrite (quiet_w_const (box 3) (flat 10 0) 5 k 10 F (fun _ _ => eq_refl)); unfold lg_L; cbn; field).
    cbn. lra. }
  assert (E : load_species gen0 (box 3) 2 1 s = LOk (p1 ++ p2)).
  { unfold load_species. rewrite TI. destruct (Rle_dec _ 0) as [K|_]; [cbn in K; lra|].
    change (Z.of_nat (lg_nx (box 3) * 2)) with 6%Z. rewrite C. change (l_subs s) with [bump; flat 10 0]. cbn [load_subs].
    unfold load_sub. change (u_seed bump) with 0%Z. change (u_seed (flat 10 0)) with 0%Z. cbn [Z.ltb Z.compare]. change (l_quiet s) with true. cbv iota.
    rewrite E1, E2. rewrite !app_nil_r. f_equal.
    assert (L1 : List.length p1 = 1%nat) by (apply (load_sub_length gen0 (box 3) s 1 bump 1 p1 gen0_ok); unfold load_sub; cbn [bump u_seed Z.ltb Z.compare]; exact E1).
    assert (L2 : List.length p2 = 5%nat) by (apply (load_sub_length gen0 (box 3) s 1 (flat 10 0) 5 p2 gen0_ok); unfold load_sub; cbn [flat u_seed Z.ltb Z.compare]; exact E2).
    rewrite app_length, L1, L2. reflexivity. }
  pose proof (H gen0 (box 3) 2%nat 1%nat s (p1 ++ p2) gen0_ok F ltac:(lia) ltac:(discriminate) ltac:(cbn; lra)) as K.
  rewrite TI in K. change (Z.of_nat (lg_nx (box 3) * 2)) with 6%Z in K. rewrite C in K.
  assert (A : total_weight (p1 ++ p2) = asked (box 3) s).
  { apply K; [intros m [<-|[<-|[]]]; lia| |reflexivity|exact E]. intros u [<-|[<-|[]]]; (split; [rewrite ?IB, ?IF; lra|cbn; lia]). }
  rewrite total_weight_app, W1, W2, asked_sum, TI in A. cbn in A. lra.
Qed.
Print Assumptions C68_quiet_components_refuted.
