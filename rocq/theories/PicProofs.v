From Verif Require Import RSum Pic.

(** * Floor and rounding *)
Lemma floor_spec x : IZR (floor x) <= x < IZR (floor x) + 1.
Proof. unfold floor. rewrite minus_IZR. pose proof (archimed x). lra. Qed.
Lemma floor_unique x n : IZR n <= x < IZR n + 1 -> floor x = n.
Proof.
  intros H. pose proof (floor_spec x) as F. assert (A : IZR (floor x) < IZR (n + 1)) by (rewrite plus_IZR; lra). assert (B : IZR n < IZR (floor x + 1)) by (rewrite plus_IZR; lra).
  apply lt_IZR in A. apply lt_IZR in B. lia.
Qed.
Lemma floor_shift x n : floor (x + IZR n) = (floor x + n)%Z.
Proof. apply floor_unique. rewrite plus_IZR. pose proof (floor_spec x). lra. Qed.
Lemma round_spec x : Rabs (x - IZR (round_half_even x)) <= 1 / 2.
Proof.
  unfold round_half_even. pose proof (floor_spec (x + 1 / 2)) as F. set (n := floor (x + 1 / 2)) in *. destruct (Req_EM_T (IZR n) (x + 1 / 2)) as [E|E].
  - destruct (Z.even n); [|rewrite minus_IZR]; apply Rabs_le; lra.
  - apply Rabs_le. lra.
Qed.

Lemma abs_le_both x a : Rabs x <= a -> - a <= x <= a.
Proof. intros H. pose proof (Rle_abs x). pose proof (Rle_abs (- x)) as K. rewrite Rabs_Ropp in K. lra. Qed.

(** * Lists *)
Lemma lsum_app a b : lsum (a ++ b) = lsum a + lsum b.
Proof. induction a as [|x a IH]; cbn; [lra|]. rewrite IH. lra. Qed.
Lemma lsum_ext {A} (l : list A) h g : (forall x, In x l -> h x = g x) -> lsum (map h l) = lsum (map g l).
Proof. induction l as [|x l IH]; intros H; [reflexivity|]. cbn. rewrite (H x), IH by (intros; try apply H; cbn; auto). reflexivity. Qed.
Lemma lsum_plus {A} (l : list A) h g : lsum (map (fun x => h x + g x) l) = lsum (map h l) + lsum (map g l).
Proof. induction l as [|x l IH]; cbn; [lra|]. rewrite IH. lra. Qed.
Lemma lsum_scal {A} (l : list A) c h : lsum (map (fun x => c * h x) l) = c * lsum (map h l).
Proof. induction l as [|x l IH]; cbn; [lra|]. rewrite IH. lra. Qed.
Lemma lsum_nonneg {A} (l : list A) h : (forall x, In x l -> 0 <= h x) -> 0 <= lsum (map h l).
Proof. induction l as [|x l IH]; intros H; cbn; [lra|]. assert (0 <= h x) by (apply H; now left). assert (0 <= lsum (map h l)) by (apply IH; intros; apply H; now right). lra. Qed.
Lemma rsum_lsum {A} n (l : list A) h : rsum n (fun g => lsum (map (fun x => h x g) l)) = lsum (map (fun x => rsum n (h x)) l).
Proof. induction l as [|x l IH]; cbn; [apply rsum_zero|]. rewrite rsum_plus, IH. reflexivity. Qed.

(** * Stencils *)
Lemma wrap_lt nx i : (0 < nx)%nat -> (wrap nx i < nx)%nat.
Proof. intros H. unfold wrap. pose proof (Z.mod_pos_bound i (Z.of_nat nx) ltac:(lia)). lia. Qed.
Lemma wrap_shift nx i m : (0 < nx)%nat -> wrap nx (i + m * Z.of_nat nx) = wrap nx i.
Proof. intros H. unfold wrap. now rewrite Z_mod_plus_full. Qed.
Lemma stencil_range sh x dx xmin nx : (0 < nx)%nat -> forall e, In e (stencil sh x dx xmin nx) -> (fst e < nx)%nat.
Proof. intros H e He. destruct sh; cbn in He; intuition; subst e; cbn [fst]; now apply wrap_lt. Qed.
Lemma stencil_sum sh x dx xmin nx : lsum (map snd (stencil sh x dx xmin nx)) = 1.
Proof. destruct sh; cbn [stencil map lsum snd]; set (s := _ - IZR _); field. Qed.
Lemma stencil_nonneg sh x dx xmin nx : forall e, In e (stencil sh x dx xmin nx) -> 0 <= snd e.
Proof.
  intros e He. destruct sh; cbn [stencil In] in He.
  - pose proof (floor_spec (s_real x dx xmin)). set (s := s_real x dx xmin - IZR _) in *. intuition; subst e; cbn [snd]; unfold s; lra.
  - pose proof (round_spec (s_real x dx xmin)) as H. set (s := s_real x dx xmin - IZR (round_half_even _)) in *. assert (- (1 / 2) <= s <= 1 / 2) by (split; [pose proof (Rle_abs (- s)) as K; rewrite Rabs_Ropp in K; lra|pose proof (Rle_abs s); lra]).
    intuition; subst e; cbn [snd]; nra.
  - pose proof (floor_spec (s_real x dx xmin)). set (s := s_real x dx xmin - IZR _) in *. assert (0 <= s < 1) by (unfold s; lra).
    assert (0 <= s ^ 3) by (apply pow_le; lra). assert (0 <= (1 - s) ^ 3) by (apply pow_le; lra).
    intuition; subst e; cbn [snd]; nra.
Qed.

Lemma rsum_delta n k (c : R) : (k < n)%nat -> rsum n (fun g => if Nat.eqb k g then c else 0) = c.
Proof.
  intros H. rewrite (rsum_single n k); [now rewrite Nat.eqb_refl|exact H|]. intros i _ Hi. now rewrite (proj2 (Nat.eqb_neq k i)) by auto.
Qed.
Lemma scatter_pair n st w F : (forall e, In e st -> (fst e < n)%nat) -> rsum n (fun g => F g * scatter st w g) = w * lsum (map (fun e => snd e * F (fst e)) st).
Proof.
  intros H. unfold scatter. rewrite <- lsum_scal.
  rewrite (rsum_ext n _ (fun g => lsum (map (fun e => if Nat.eqb (fst e) g then F (fst e) * (snd e * w) else 0) st))).
  - rewrite (rsum_lsum n st (fun e g => if Nat.eqb (fst e) g then F (fst e) * (snd e * w) else 0)). apply lsum_ext. intros e He. rewrite rsum_delta by now apply H. ring.
  - intros g _. rewrite <- lsum_scal. apply lsum_ext. intros e _. destruct (Nat.eqb (fst e) g) eqn:E; [apply Nat.eqb_eq in E; now subst g|ring].
Qed.

Lemma adjoint sh F ps nx dx xmin : (0 < nx)%nat -> dx <> 0 ->
  dx * rsum nx (fun g => F g * deposit sh ps nx dx xmin g) = lsum (map (fun p => pw p * gather sh F nx (px p) dx xmin) ps).
Proof.
  intros Hn Hd. unfold deposit. rewrite (rsum_ext nx _ (fun g => / dx * lsum (map (fun p => F g * scatter (stencil sh (px p) dx xmin nx) (pw p) g) ps))) by (intros g _; rewrite lsum_scal; unfold Rdiv; ring).
  rewrite rsum_scal, (rsum_lsum nx ps (fun p g => F g * scatter (stencil sh (px p) dx xmin nx) (pw p) g)). rewrite <- Rmult_assoc, Rinv_r, Rmult_1_l by exact Hd.
  apply lsum_ext. intros p _. rewrite scatter_pair by (intros; eapply stencil_range; eauto). reflexivity.
Qed.
Lemma gather_const sh c nx x dx xmin : gather sh (fun _ => c) nx x dx xmin = c.
Proof. unfold gather. rewrite (lsum_ext _ _ (fun e => c * snd e)) by (intros; ring). rewrite lsum_scal, stencil_sum. ring. Qed.
Lemma gather_le sh F G nx x dx xmin : (0 < nx)%nat -> (forall g, (g < nx)%nat -> F g <= G g) -> gather sh F nx x dx xmin <= gather sh G nx x dx xmin.
Proof.
  intros Hn H. assert (0 <= lsum (map (fun e => snd e * (G (fst e) - F (fst e))) (stencil sh x dx xmin nx))).
  { apply lsum_nonneg. intros e He. apply Rmult_le_pos; [eapply stencil_nonneg; eauto|]. specialize (H (fst e) (stencil_range _ _ _ _ _ Hn e He)). lra. }
  rewrite (lsum_ext _ _ (fun e => snd e * G (fst e) + -1 * (snd e * F (fst e)))) in H0 by (intros; ring). rewrite lsum_plus, lsum_scal in H0. unfold gather. lra.
Qed.

(** Shifting a particle by a whole number of boxes does not change what it deposits or gathers. *)
Lemma s_real_shift x dx xmin nx m : dx <> 0 -> s_real (x + IZR m * (INR nx * dx)) dx xmin = s_real x dx xmin + IZR (m * Z.of_nat nx).
Proof. intros H. unfold s_real. rewrite mult_IZR, <- INR_IZR_INZ. field. exact H. Qed.
Definition same_action (a b : list (nat * R)) : Prop := forall F : nat -> R, lsum (map (fun e => snd e * F (fst e)) a) = lsum (map (fun e => snd e * F (fst e)) b).
Lemma round_shift x m : round_half_even (x + IZR m) = (round_half_even x + m)%Z \/
  (x - IZR (round_half_even x) = 1 / 2 /\ round_half_even (x + IZR m) = (round_half_even x + m + 1)%Z) \/
  (x - IZR (round_half_even x) = - (1 / 2) /\ round_half_even (x + IZR m) = (round_half_even x + m - 1)%Z).
Proof.
  unfold round_half_even. replace (x + IZR m + 1 / 2) with (x + 1 / 2 + IZR m) by ring. rewrite floor_shift. set (n := floor (x + 1 / 2)). rewrite plus_IZR.
  destruct (Req_EM_T (IZR n) (x + 1 / 2)) as [E|E]; destruct (Req_EM_T (IZR n + IZR m) (x + 1 / 2 + IZR m)) as [E'|E']; try lra; [|now left].
  destruct (Z.even n) eqn:En, (Z.even (n + m)) eqn:Em; rewrite ?minus_IZR.
  - now left.
  - right. right. split; [lra|lia].
  - right. left. split; [lra|lia].
  - left. lia.
Qed.
Lemma stencil_shift sh x dx xmin nx m : (0 < nx)%nat -> dx <> 0 -> same_action (stencil sh (x + IZR m * (INR nx * dx)) dx xmin nx) (stencil sh x dx xmin nx).
Proof.
  intros Hn Hd F. set (M := (m * Z.of_nat nx)%Z).
  assert (W : forall i, wrap nx (i + M) = wrap nx i) by (intros; now apply wrap_shift).
  assert (Wm : forall i, wrap nx (i + M - 1) = wrap nx (i - 1)) by (intros; rewrite <- (W (i - 1)%Z); f_equal; lia).
  assert (Wp : forall i j, wrap nx (i + M + j) = wrap nx (i + j)) by (intros i j; rewrite <- (W (i + j)%Z); f_equal; lia).
  destruct sh; unfold stencil; rewrite (s_real_shift x dx xmin nx m Hd); fold M; set (sr := s_real x dx xmin); cbv zeta.
  - rewrite floor_shift, plus_IZR. replace (sr + IZR M - (IZR (floor sr) + IZR M)) with (sr - IZR (floor sr)) by ring. now rewrite W, Wp.
  - destruct (round_shift sr M) as [E|[[E1 E]|[E1 E]]]; rewrite E.
    + rewrite plus_IZR. replace (sr + IZR M - (IZR (round_half_even sr) + IZR M)) with (sr - IZR (round_half_even sr)) by ring. now rewrite W, Wp, Wm.
    + rewrite !plus_IZR. replace (sr + IZR M - (IZR (round_half_even sr) + IZR M + 1)) with (- (1 / 2)) by lra. rewrite E1. cbn [map lsum fst snd].
      replace (round_half_even sr + M + 1 - 1)%Z with (round_half_even sr + M)%Z by lia. rewrite W, Wp. field.
    + rewrite minus_IZR, plus_IZR. replace (sr + IZR M - (IZR (round_half_even sr) + IZR M - 1)) with (1 / 2) by lra. rewrite E1. cbn [map lsum fst snd].
      replace (round_half_even sr + M - 1 + 1)%Z with (round_half_even sr + M)%Z by lia. rewrite W, Wm. field.
  - rewrite floor_shift, plus_IZR. replace (sr + IZR M - (IZR (floor sr) + IZR M)) with (sr - IZR (floor sr)) by ring. now rewrite W, !Wp, Wm.
Qed.
Lemma scatter_action st w g : scatter st w g = w * lsum (map (fun e => snd e * (if Nat.eqb (fst e) g then 1 else 0)) st).
Proof. unfold scatter. rewrite <- lsum_scal. apply lsum_ext. intros e _. destruct (Nat.eqb (fst e) g); ring. Qed.

(** * Drift and modulus *)
Lemma fmod_range y L : 0 < L -> 0 <= fmod y L < L.
Proof.
  intros H. unfold fmod. pose proof (floor_spec (y / L)) as F. set (n := IZR (floor (y / L))) in *. replace (y - L * n) with ((y / L - n) * L) by (field; lra). split; [apply Rmult_le_pos; lra|]. apply Rlt_le_trans with (1 * L); [apply Rmult_lt_compat_r; lra|lra].
Qed.
Lemma fmod_shift y L n : 0 < L -> fmod (y + IZR n * L) L = fmod y L.
Proof. intros H. unfold fmod. replace ((y + IZR n * L) / L) with (y / L + IZR n) by (field; lra). rewrite floor_shift, plus_IZR. ring. Qed.
Lemma fmod_id y L : 0 < L -> 0 <= y < L -> fmod y L = y.
Proof. intros H Hy. unfold fmod. rewrite (floor_unique (y / L) 0); [ring|]. split; [apply Rmult_le_pos; [lra|apply Rlt_le, Rinv_0_lt_compat, H]|]. apply Rmult_lt_reg_r with L; [exact H|]. replace (y / L * L) with y by (field; lra). lra. Qed.

Definition inside (xmin xmax : R) (st : list species) : Prop := forall s p, In s st -> In p (parts s) -> xmin <= px p < xmax.

Lemma drift_inside dt xmin xmax st : xmin < xmax -> inside xmin xmax (drift dt xmin xmax st).
Proof.
  intros H s p Hs Hp. unfold drift in Hs. apply in_map_iff in Hs. destruct Hs as (s' & <- & _). cbn [parts on_parts] in Hp. apply in_map_iff in Hp. destruct Hp as (p' & <- & _). cbn [px drift_particle].
  pose proof (fmod_range (px p' + dt * pv p' - xmin) (xmax - xmin) ltac:(lra)). lra.
Qed.
Lemma kick_inside k dt t a xmin xmax st : inside xmin xmax st -> inside xmin xmax (kick k dt t a st).
Proof.
  intros H s p Hs Hp. unfold kick in Hs. apply in_map_iff in Hs. destruct Hs as (s' & <- & Hs'). cbn [parts on_parts] in Hp. apply in_map_iff in Hp. destruct Hp as (p' & <- & Hp'). cbn [px kick_particle]. eauto.
Qed.
Lemma drift_back dt xmin xmax p : xmin < xmax -> xmin <= px p < xmax -> drift_particle (- dt) xmin xmax (drift_particle dt xmin xmax p) = p.
Proof.
  intros H Hp. destruct p as [x v w]. unfold drift_particle. cbn [px pv pw] in *. f_equal.
  set (L := xmax - xmin). unfold fmod at 2. set (n := floor ((x + dt * v - xmin) / L)).
  replace (x + dt * v - xmin - L * IZR n + xmin + - dt * v - xmin) with (x - xmin + IZR (- n) * L) by (rewrite opp_IZR; ring).
  rewrite fmod_shift by (unfold L; lra). rewrite fmod_id; unfold L; lra.
Qed.
Lemma on_parts_id h s : (forall p, In p (parts s) -> h p = p) -> on_parts h s = s.
Proof. intros H. destruct s as [q qm ps]. unfold on_parts. cbn [charge charge_to_mass parts] in *. f_equal. induction ps as [|p ps IH]; [reflexivity|]. cbn. rewrite H by now left. f_equal. apply IH. intros; apply H; now right. Qed.
Lemma on_parts_comp h g s : on_parts h (on_parts g s) = on_parts (fun p => h (g p)) s.
Proof. destruct s as [q qm ps]. unfold on_parts. cbn [charge charge_to_mass parts]. f_equal. now rewrite map_map. Qed.
Lemma drift_back_st dt xmin xmax st : xmin < xmax -> inside xmin xmax st -> drift (- dt) xmin xmax (drift dt xmin xmax st) = st.
Proof.
  intros H Hi. unfold drift. rewrite map_map. rewrite <- (map_id st) at 2. apply map_ext_in. intros s Hs. rewrite on_parts_comp. apply on_parts_id. intros p Hp. apply drift_back; [exact H|]. eapply Hi; eauto.
Qed.

(** The field depends on positions and weights only. *)
Definition positions (st : list species) : list (R * R * list (R * R)) := map (fun s => (charge s, charge_to_mass s, map (fun p => (px p, pw p)) (parts s))) st.
Lemma deposit_positions sh ps ps' nx dx xmin g : map (fun p => (px p, pw p)) ps = map (fun p => (px p, pw p)) ps' -> deposit sh ps nx dx xmin g = deposit sh ps' nx dx xmin g.
Proof.
  intros H. unfold deposit. f_equal. revert ps' H. induction ps as [|p ps IH]; intros [|p' ps'] H; try discriminate; [reflexivity|]. injection H as H1 H2 H3. cbn. now rewrite H1, H2, (IH ps' H3).
Qed.
Lemma charge_density_positions sh st st' nx dx xmin g : positions st = positions st' -> charge_density sh st nx dx xmin g = charge_density sh st' nx dx xmin g.
Proof.
  revert st'. induction st as [|s st IH]; intros [|s' st'] H; try discriminate; [reflexivity|]. unfold positions in H. cbn [map] in H. injection H as H1 H2 H3 H4. unfold charge_density. cbn [map lsum].
  rewrite H1, (deposit_positions sh _ _ nx dx xmin g H3). f_equal. exact (IH st' H4).
Qed.
Lemma field_positions k st st' : positions st = positions st' -> field_sc k st = field_sc k st'.
Proof. intros H. unfold field_sc. f_equal. apply FunctionalExtensionality.functional_extensionality. intros g. now apply charge_density_positions. Qed.
Lemma kick_positions k dt t a st : positions (kick k dt t a st) = positions st.
Proof. unfold positions, kick. rewrite map_map. apply map_ext. intros s. cbn [charge charge_to_mass parts on_parts]. rewrite map_map. reflexivity. Qed.

Lemma kick_back k dt t a st : kick k (- dt) t a (kick k dt t a st) = st.
Proof.
  unfold kick at 1. assert (E : e_total k (kick k dt t a st) t = e_total k st t). { unfold e_total. now rewrite (field_positions k _ st (kick_positions k dt t a st)). }
  rewrite E. unfold kick. rewrite map_map. rewrite <- (map_id st) at 2. apply map_ext. intros s. cbn [charge_to_mass on_parts]. rewrite on_parts_comp. apply on_parts_id.
  intros p _. destruct p as [x v w]. unfold kick_particle. cbn [px pv pw]. f_equal. ring.
Qed.
Lemma kick_back' k dt t a st : kick k dt t a (kick k (- dt) t a st) = st.
Proof. rewrite <- (Ropp_involutive dt) at 1. apply kick_back. Qed.

Lemma leapfrog_back k xmin xmax dt t a st : xmin < xmax -> inside xmin xmax st -> leapfrog k xmin xmax (- dt) (t + dt) a (leapfrog k xmin xmax dt t a st) = st.
Proof.
  intros H Hi. unfold leapfrog. replace (1 / 2 * - dt) with (- (1 / 2 * dt)) by ring. replace (t + dt + - dt) with t by ring.
  rewrite kick_back. rewrite drift_back_st; [|exact H|now apply kick_inside]. apply kick_back.
Qed.
Lemma leapfrog_inside k xmin xmax dt t a st : xmin < xmax -> inside xmin xmax (leapfrog k xmin xmax dt t a st).
Proof. intros H. unfold leapfrog. apply kick_inside. now apply drift_inside. Qed.

(** * Yoshida *)
Lemma cbrt2_cube : cbrt2 ^ 3 = 2.
Proof. unfold cbrt2. rewrite <- Rpower_pow by apply exp_pos. rewrite Rpower_mult. replace (1 / 3 * INR 3) with 1 by (cbn; field). apply Rpower_1. lra. Qed.
Lemma cbrt2_bounds : 1 < cbrt2 < 2.
Proof.
  pose proof cbrt2_cube as H. assert (0 < cbrt2) by apply exp_pos. split; [destruct (Rlt_dec 1 cbrt2) as [|N]; [assumption|exfalso]|destruct (Rlt_dec cbrt2 2) as [|N]; [assumption|exfalso]].
  - assert (cbrt2 ^ 3 <= 1 ^ 3) by (apply pow_incr; lra). lra.
  - assert (2 ^ 3 <= cbrt2 ^ 3) by (apply pow_incr; lra). lra.
Qed.
Lemma yoshida_sum dt : yoshida_dt1 dt + yoshida_dt2 dt + yoshida_dt1 dt = dt.
Proof. unfold yoshida_dt2, yoshida_dt1. pose proof cbrt2_bounds. field. lra. Qed.
Lemma yoshida_cubes dt : yoshida_dt1 dt ^ 3 + yoshida_dt2 dt ^ 3 + yoshida_dt1 dt ^ 3 = 0.
Proof. unfold yoshida_dt2. set (d := yoshida_dt1 dt). replace (d ^ 3 + (- cbrt2 * d) ^ 3 + d ^ 3) with ((2 - cbrt2 ^ 3) * d ^ 3) by ring. rewrite cbrt2_cube. ring. Qed.
Lemma yoshida_neg dt : yoshida_dt1 (- dt) = - yoshida_dt1 dt /\ yoshida_dt2 (- dt) = - yoshida_dt2 dt.
Proof. unfold yoshida_dt2, yoshida_dt1. pose proof cbrt2_bounds. split; field; lra. Qed.
Lemma yoshida_back k xmin xmax dt t a st : xmin < xmax -> inside xmin xmax st -> yoshida4 k xmin xmax (- dt) (t + dt) a (yoshida4 k xmin xmax dt t a st) = st.
Proof.
  intros H Hi. unfold yoshida4, yoshida_substeps. cbn [fold_left fst snd]. destruct (yoshida_neg dt) as [-> ->]. pose proof (yoshida_sum dt) as HS. set (d1 := yoshida_dt1 dt) in *. set (d2 := yoshida_dt2 dt) in *.
  set (s1 := leapfrog k xmin xmax d1 (t + 0) a st). set (s2 := leapfrog k xmin xmax d2 (t + d1) a s1).
  replace (t + dt + 0) with (t + (d1 + d2) + d1) by lra. rewrite leapfrog_back; [|exact H|unfold s2; now apply leapfrog_inside].
  unfold s2. replace (t + dt + - d1) with (t + d1 + d2) by lra. rewrite leapfrog_back; [|exact H|unfold s1; now apply leapfrog_inside].
  unfold s1. replace (t + dt + (- d1 + - d2)) with (t + 0 + d1) by lra. now apply leapfrog_back.
Qed.
