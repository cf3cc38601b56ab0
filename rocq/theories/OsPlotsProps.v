(** C109: the profiles the OSIRIS plots derive. *)
From Verif Require Import OsPlots.
From Coq Require Import List.
Local Open Scope R_scope.

(** ** Lists *)
Lemma map2_length {A B C} (f : A -> B -> C) l : forall m, length (map2 f l m) = Nat.min (length l) (length m).
Proof. induction l as [|a l IH]; intros [|b m]; cbn; auto. Qed.
Lemma map2_nth {A B C} (f : A -> B -> C) l : forall m i da db dc, (i < length l)%nat -> (i < length m)%nat -> nth i (map2 f l m) dc = f (nth i l da) (nth i m db).
Proof. induction l as [|a l IH]; intros [|b m] i da db dc H1 H2; cbn in H1, H2; try lia. destruct i; cbn; [reflexivity|]. apply IH; lia. Qed.
Lemma map2_map {A B C D E} (f : A -> B -> C) (g : D -> A) (h : E -> B) l : forall m, map2 f (map g l) (map h m) = map2 (fun x y => f (g x) (h y)) l m.
Proof. induction l as [|a l IH]; intros [|b m]; cbn; try reflexivity. f_equal. apply IH. Qed.
Lemma map2_same {A B C} (f : A -> A -> B) (g : A -> C) : forall l, map2 f l l = map (fun x => f x x) l.
Proof. induction l; cbn; congruence. Qed.
Lemma map2_firstn {A B C} (f : A -> B -> C) k : forall l m, map2 f (firstn k l) (firstn k m) = firstn k (map2 f l m).
Proof. induction k; intros [|a l] [|b m]; cbn; try reflexivity. - f_equal. apply IHk. Qed.
Lemma map2_nil_r {A B C} (f : A -> B -> C) l : map2 f l [] = [].
Proof. destruct l; reflexivity. Qed.
Lemma map2_skipn {A B C} (f : A -> B -> C) k : forall l m, map2 f (skipn k l) (skipn k m) = skipn k (map2 f l m).
Proof. induction k; intros [|a l] [|b m]; cbn; try reflexivity; try apply map2_nil_r. apply IHk. Qed.
Lemma map2_slice {A B C} (f : A -> B -> C) a b l m : map2 f (slice a b l) (slice a b m) = slice a b (map2 f l m).
Proof. unfold slice. now rewrite map2_firstn, map2_skipn. Qed.
Lemma map_map2 {A B C D} (g : C -> D) (f : A -> B -> C) l : forall m, map g (map2 f l m) = map2 (fun x y => g (f x y)) l m.
Proof. induction l as [|a l IH]; intros [|b m]; cbn; try reflexivity. f_equal. apply IH. Qed.
Lemma map2_ext {A B C} (f g : A -> B -> C) l : (forall x y, f x y = g x y) -> forall m, map2 f l m = map2 g l m.
Proof. intros H. induction l as [|a l IH]; intros [|b m]; cbn; try reflexivity. now rewrite H, IH. Qed.

(** ** Right- and left-going parts *)
Definition shaped (nt n : nat) (m : list (list R)) : Prop := length m = nt /\ Forall (fun r => length r = n) m.
Definition at2 (m : list (list R)) (t x : nat) : R := nth x (nth t m []) 0.
Lemma shaped_row nt n m t : shaped nt n m -> (t < nt)%nat -> length (nth t m []) = n.
Proof. intros [H1 H2] Ht. rewrite Forall_forall in H2. apply H2, nth_In. lia. Qed.
Lemma going_at s e b nt n t x : shaped nt n e -> shaped nt n b -> (t < nt)%nat -> (x < n)%nat -> at2 (going s e b) t x = (at2 e t x + s * at2 b t x) / 2.
Proof.
  intros He Hb Ht Hx. unfold at2, going. rewrite (map2_nth _ e b t [] []) by (destruct He, Hb; lia).
  rewrite (map2_nth _ _ _ x 0 0); [reflexivity| |]; rewrite (shaped_row nt n); auto.
Qed.

(** The four transverse fields dumped on one grid: right and left parts add up to the field; the energy density and the flux
    along x of the whole transverse field are the sum and the difference of the parts' squares. *)
Theorem C109_split : forall d nt n e2 b3 e3 b2, shaped nt n e2 -> shaped nt n b3 -> shaped nt n e3 -> shaped nt n b2 ->
  d (lit "e2") = Some {| f_n := n; f_rows := e2 |} -> d (lit "b3") = Some {| f_n := n; f_rows := b3 |} ->
  d (lit "e3") = Some {| f_n := n; f_rows := e3 |} -> d (lit "b2") = Some {| f_n := n; f_rows := b2 |} ->
  exists y z, lr_components d = [(lit "e2", y); (lit "e3", z)] /\
  forall t x, (t < nt)%nat -> (x < n)%nat ->
    at2 (s_right y) t x + at2 (s_left y) t x = at2 e2 t x /\ at2 (s_right z) t x + at2 (s_left z) t x = at2 e3 t x /\
    (at2 (s_right y) t x)² + (at2 (s_left y) t x)² + (at2 (s_right z) t x)² + (at2 (s_left z) t x)²
      = ((at2 e2 t x)² + (at2 e3 t x)² + (at2 b2 t x)² + (at2 b3 t x)²) / 2 /\
    ((at2 (s_right y) t x)² + (at2 (s_right z) t x)²) - ((at2 (s_left y) t x)² + (at2 (s_left z) t x)²)
      = at2 e2 t x * at2 b3 t x - at2 e3 t x * at2 b2 t x.
Proof.
  intros d nt n e2 b3 e3 b2 S1 S2 S3 S4 E1 E2 E3 E4. unfold lr_components, lr_pair. rewrite E1, E2, E3, E4. cbn [app f_rows].
  eexists _, _. split; [reflexivity|]. intros t x Ht Hx. unfold parts_rows. cbn [s_right s_left].
  rewrite !(going_at _ _ _ nt n) by auto. unfold Rsqr. repeat split; field.
Qed.
Print Assumptions C109_split.

(** Waves: sampled at any times and places, a superposition of waves moving right and left with speed one, in both
    polarizations, is taken apart into exactly these waves. *)
Definition samples (ts xs : list R) (f : R -> R -> R) : option field := Some {| f_n := length xs; f_rows := map (fun t => map (f t) xs) ts |}.
Theorem C109_waves : forall d ts xs Fy Gy Fz Gz,
  d (lit "e2") = samples ts xs (fun t x => Fy (x - t) + Gy (x + t)) -> d (lit "b3") = samples ts xs (fun t x => Fy (x - t) - Gy (x + t)) ->
  d (lit "e3") = samples ts xs (fun t x => Fz (x - t) + Gz (x + t)) -> d (lit "b2") = samples ts xs (fun t x => Gz (x + t) - Fz (x - t)) ->
  lr_components d =
    [(lit "e2", {| s_right := map (fun t => map (fun x => Fy (x - t)) xs) ts; s_left := map (fun t => map (fun x => Gy (x + t)) xs) ts |});
     (lit "e3", {| s_right := map (fun t => map (fun x => Fz (x - t)) xs) ts; s_left := map (fun t => map (fun x => Gz (x + t)) xs) ts |})].
Proof.
  intros d ts xs Fy Gy Fz Gz E1 E2 E3 E4. unfold lr_components, lr_pair. rewrite E1, E2, E3, E4. unfold samples. cbn [app f_rows]. unfold parts_rows.
  assert (K : forall s (f g h : R -> R -> R), (forall t x, (f t x + s * g t x) / 2 = h t x) -> going s (map (fun t => map (f t) xs) ts) (map (fun t => map (g t) xs) ts) = map (fun t => map (h t) xs) ts).
  { intros s f g h H. unfold going. rewrite map2_map, (map2_same _ (fun t : R => t)). apply map_ext. intros t. rewrite map2_map, (map2_same _ (fun t : R => t)). apply map_ext. intros x. apply H. }
  rewrite (K 1 (fun t x => Fy (x - t) + Gy (x + t)) (fun t x => Fy (x - t) - Gy (x + t)) (fun t x => Fy (x - t))) by (intros; field).
  rewrite (K (- (1)) (fun t x => Fy (x - t) + Gy (x + t)) (fun t x => Fy (x - t) - Gy (x + t)) (fun t x => Gy (x + t))) by (intros; field).
  rewrite (K (-1) (fun t x => Fz (x - t) + Gz (x + t)) (fun t x => Gz (x + t) - Fz (x - t)) (fun t x => Fz (x - t))) by (intros; field).
  rewrite (K (- (-1)) (fun t x => Fz (x - t) + Gz (x + t)) (fun t x => Gz (x + t) - Fz (x - t)) (fun t x => Gz (x + t))) by (intros; field). reflexivity.
Qed.
Print Assumptions C109_waves.
(** For every solution of the vacuum equations (the sign s is 1 for (E_y, B_z) and -1 for (E_z, B_y)) the right part is
    carried to the right, the left part to the left. *)
Theorem C109_advect : forall s (e b et ex bt bx : R -> R -> R) t x, s = 1 \/ s = -1 ->
  derivable_pt_lim (fun t => e t x) t (et t x) -> derivable_pt_lim (fun t => b t x) t (bt t x) ->
  derivable_pt_lim (fun x => e t x) x (ex t x) -> derivable_pt_lim (fun x => b t x) x (bx t x) ->
  et t x = - s * bx t x -> bt t x = - s * ex t x ->
  exists r l, derivable_pt_lim (fun x => (e t x + s * b t x) / 2) x r /\ derivable_pt_lim (fun t => (e t x + s * b t x) / 2) t (- r) /\
    derivable_pt_lim (fun x => (e t x + - s * b t x) / 2) x l /\ derivable_pt_lim (fun t => (e t x + - s * b t x) / 2) t l.
Proof.
  intros s e b et ex bt bx t x Hs D1 D2 D3 D4 M1 M2.
  assert (K : forall (f g : R -> R) y f' g' c, derivable_pt_lim f y f' -> derivable_pt_lim g y g' -> derivable_pt_lim (fun z => (f z + c * g z) / 2) y ((f' + c * g') / 2)).
  { intros f g y f' g' c Df Dg. assert (D := derivable_pt_lim_scal _ (/ 2) _ _ (derivable_pt_lim_plus _ _ _ _ _ Df (derivable_pt_lim_scal _ c _ _ Dg))).
    replace ((f' + c * g') / 2) with (/ 2 * (f' + c * g')) by field. revert D. apply derivable_pt_lim_ext. intros z. unfold mult_real_fct, plus_fct. field. }
  exists ((ex t x + s * bx t x) / 2), ((ex t x + - s * bx t x) / 2). repeat split.
  - apply (K (fun x => e t x) (fun x => b t x)); assumption.
  - replace (- ((ex t x + s * bx t x) / 2)) with ((et t x + s * bt t x) / 2) by (rewrite M1, M2; destruct Hs as [-> | ->]; field). apply (K (fun t => e t x) (fun t => b t x)); assumption.
  - apply (K (fun x => e t x) (fun x => b t x)); assumption.
  - replace ((ex t x + - s * bx t x) / 2) with ((et t x + - s * bt t x) / 2) by (rewrite M1, M2; destruct Hs as [-> | ->]; field). apply (K (fun t => e t x) (fun t => b t x)); assumption.
Qed.
Print Assumptions C109_advect.

(** The slabs: columns g .. g+w-1 and their mirror image n-g-w .. n-g-1 of the split of the whole grid; the guard is given up,
    and the window clipped, exactly when they do not fit. *)
Definition cut (a b : nat) (p : str * parts) : str * parts :=
  (fst p, {| s_right := map (slice a b) (s_right (snd p)); s_left := map (slice a b) (s_left (snd p)) |}).
Lemma going_cut s e b p q : going s (map (slice p q) e) (map (slice p q) b) = map (slice p q) (going s e b).
Proof. unfold going. rewrite map2_map, map_map2. apply map2_ext. intros. apply map2_slice. Qed.
Lemma edge_cut d a b : slab_edge d a b = map (cut a b) (lr_components d).
Proof.
  unfold slab_edge, lr_components, slab_pair, lr_pair. rewrite map_app. f_equal.
  - destruct (d (lit "e2")) as [fe|], (d (lit "b3")) as [fb|]; try reflexivity. unfold parts_rows, cut. cbn. now rewrite !going_cut.
  - destruct (d (lit "e3")) as [fe|], (d (lit "b2")) as [fb|]; try reflexivity. unfold parts_rows, cut. cbn. now rewrite !going_cut.
Qed.
Theorem C109_slabs : forall d n guard window, (forall c f, d c = Some f -> f_n f = n) ->
  match boundary_slabs d guard window with
  | None => lr_components d = []
  | Some r => let g := sl_guard r in let w := sl_window r in
      ((guard + window <= n)%nat -> g = guard /\ w = window) /\ ((n < guard + window)%nat -> g = 0%nat /\ w = Nat.min window n) /\ (g + w <= n)%nat /\
      lr_components d <> [] /\ sl_left r = map (cut g (g + w)) (lr_components d) /\ sl_right r = map (cut (n - g - w) (n - g)) (lr_components d)
  end.
Proof.
  intros d n guard window Hn. unfold boundary_slabs. destruct (probe d) as [p|] eqn:Ep.
  - assert (P : f_n p = n).
    { unfold probe in Ep. destruct (d (lit "e2")) eqn:A; [inversion Ep; subst; eauto|]. destruct (d (lit "b3")) eqn:B; [inversion Ep; subst; eauto|].
      destruct (d (lit "e3")) eqn:C; [inversion Ep; subst; eauto|]. eauto. }
    rewrite P. destruct (guard_window n guard window) as [g w] eqn:Eg. rewrite edge_cut. destruct (lr_components d) as [|c l] eqn:El; cbn [map]; [reflexivity|]. cbn [sl_guard sl_window sl_left sl_right]. rewrite edge_cut, El.
    unfold guard_window in Eg. destruct (n <? guard + window)%nat eqn:L; [apply Nat.ltb_lt in L|apply Nat.ltb_ge in L]; inversion Eg; subst g w; repeat split; try lia; discriminate.
  - unfold probe in Ep. unfold lr_components, lr_pair. destruct (d (lit "e2")), (d (lit "b3")), (d (lit "e3")), (d (lit "b2")); try discriminate Ep; reflexivity.
Qed.
Print Assumptions C109_slabs.
Lemma slice_nth (a b i : nat) (r : list R) : (a + i < b)%nat -> (b <= length r)%nat -> nth i (slice a b r) 0 = nth (a + i) r 0.
Proof.
  intros H1 H2. unfold slice. revert i b r H1 H2. induction a as [|a IH]; intros i b r H1 H2; cbn [skipn].
  - rewrite Nat.sub_0_r. clear H2. cbn [plus] in *. revert i r H1. induction b; intros i r H1; [lia|]. destruct r, i; cbn; try reflexivity. apply IHb. lia.
  - destruct r as [|y r]; cbn in H2; [lia|]. destruct b; [lia|]. cbn [skipn]. apply (IH i b r); cbn in *; lia.
Qed.
(** Column i of the left slab is column g+i of the grid, column i of the right slab is column n-g-w+i: mirror images. *)
Theorem C109_slab_columns : forall n g w i (row : list R), length row = n -> (g + w <= n)%nat -> (i < w)%nat ->
  nth i (slice g (g + w) row) 0 = nth (g + i) row 0 /\ nth (w - 1 - i) (slice (n - g - w) (n - g) row) 0 = nth (n - 1 - (g + i)) row 0.
Proof.
  intros n g w i row L H Hi. split.
  - apply slice_nth; lia.
  - rewrite slice_nth by lia. f_equal. lia.
Qed.
Print Assumptions C109_slab_columns.
Definition small_run : fields := fun c => if (str_eqb c (lit "e2") || str_eqb c (lit "b3"))%bool then Some {| f_n := 4; f_rows := [[1; 2; 3; 4]] |} else None.
Example slabs_example : exists r, boundary_slabs small_run 1 2 = Some r /\ sl_guard r = 1%nat /\ sl_window r = 2%nat /\ map fst (sl_left r) = [lit "e2"].
Proof. eexists. cbn. repeat split; reflexivity. Qed.
(** Refuted: the two slabs are disjoint. On four cells, guard 1 and window 3 give the columns 1..3 and 0..2. *)
Theorem C109_disjoint_refuted : exists d r, boundary_slabs d 1 3 = Some r /\ (sl_guard r + sl_window r > 4 - sl_guard r - sl_window r)%nat.
Proof. exists small_run. eexists. cbn. split; [reflexivity|]. cbn. lia. Qed.
Print Assumptions C109_disjoint_refuted.

(** ** Density *)
Lemma last_of_in keep q : forall es acc, fold_left (fun a e => if (keep e && str_eqb (fst (snd e)) q)%bool then Some (snd (snd e)) else a) es acc = acc \/
  exists e, In e es /\ keep e = true /\ fst (snd e) = q /\ fold_left (fun (a : option moment) (e : entry) => if (keep e && str_eqb (fst (snd e)) q)%bool then Some (snd (snd e)) else a) es acc = Some (snd (snd e)).
Proof.
  induction es as [|e es IH]; intros acc; cbn [fold_left]; [now left|].
  destruct (IH (if (keep e && str_eqb (fst (snd e)) q)%bool then Some (snd (snd e)) else acc)) as [H|(e' & I & H)].
  - destruct (keep e && str_eqb (fst (snd e)) q)%bool eqn:K; [|now left]. apply andb_true_iff in K as [K1 K2]. apply str_eqb_eq in K2. right. exists e. split; [now left|]. split; [exact K1|]. split; [exact K2|exact H].
  - right. exists e'. split; [now right|exact H].
Qed.
Lemma last_of_some es keep q m : last_of es keep q = Some m -> exists e, In e es /\ keep e = true /\ fst (snd e) = q /\ snd (snd e) = m.
Proof. unfold last_of. intros H. destruct (last_of_in keep q es None) as [E|(e & I & K & Q & E)]; assert (X := eq_trans (eq_sym E) H); [discriminate X|]. exists e. inversion X. auto. Qed.
(** A density profile is there exactly when the species has a two-dimensional density moment. *)
Theorem C109_density_found : forall es, (exists v, density_series es = Some v) <-> exists e, In e es /\ fst e = lit "DENSITY" /\ fst (snd (snd e)) = true.
Proof.
  intros es. split.
  - intros [v H]. unfold density_series in H. destruct (first_pref es preferred) as [v'|] eqn:E.
    + assert (K : forall prefs v, first_pref es prefs = Some v -> exists e, In e es /\ fst e = lit "DENSITY" /\ fst (snd (snd e)) = true).
      { clear. induction prefs as [|q r IH]; cbn; intros v H; [discriminate|]. destruct (last_of es is_density q) as [m|] eqn:L; [|eauto].
        destruct (fst m) eqn:F; [|eauto]. apply last_of_some in L as (e & I & D & _ & M). exists e. subst m. split; [exact I|]. split; [now apply str_eqb_eq|exact F]. }
      eapply K, E.
    + destruct (find _ es) as [e|] eqn:F; [|discriminate]. apply find_some in F as [I F]. apply andb_true_iff in F as [F1 F2]. exists e. split; [exact I|]. split; [now apply str_eqb_eq|exact F2].
  - intros (e & I & D & T). unfold density_series. destruct (first_pref es preferred) as [v|]; [eauto|].
    destruct (find (fun e => is_density e && fst (snd (snd e)))%bool es) as [e'|] eqn:F; [cbn; eauto|]. exfalso.
    apply (find_none _ _ F) in I. unfold is_density in I. rewrite D, T, str_eqb_refl in I. discriminate.
Qed.
Print Assumptions C109_density_found.
(** A number density is shown as it is. *)
Theorem C109_density_number : forall es v, last_of es is_density (lit "n") = Some (true, v) -> density_series es = Some v.
Proof. intros es v H. unfold density_series, preferred. cbn [map first_pref]. rewrite H. reflexivity. Qed.
Print Assumptions C109_density_number.
Lemma sign_abs x : x / sign_or_one x = Rabs x.
Proof. unfold sign_or_one. destruct (Rlt_dec x 0); [rewrite Rabs_left by lra|rewrite Rabs_right by lra]; field. Qed.
Lemma sign_sq s x : sign_or_one s * sign_or_one x * (sign_or_one s * sign_or_one x) = 1.
Proof. unfold sign_or_one. destruct (Rlt_dec s 0), (Rlt_dec x 0); ring. Qed.
Lemma nansum_cons o l : nansum (o :: l) = or0 o + nansum l.
Proof. reflexivity. Qed.
Lemma nansum_div s l : nansum (map (option_map (fun x => x / s)) l) = nansum l / s.
Proof. induction l as [|[x|] l IH]; cbn [map option_map]; rewrite ?nansum_cons, ?IH; cbn [or0]; unfold Rdiv; try ring. unfold nansum; cbn; ring. Qed.
Lemma nansum_bounds l : ((forall x, In (Some x) l -> 0 <= x) -> 0 <= nansum l /\ forall x, In (Some x) l -> x <= nansum l).
Proof.
  induction l as [|o l IH]; intros H.
  - unfold nansum; cbn. split; [lra|]. intros x [].
  - rewrite nansum_cons. destruct IH as [A B]; [intros; apply H; now right|]. destruct o as [y|]; cbn [or0].
    + assert (P := H y (or_introl eq_refl)). split; [lra|]. intros x [E|I]; [inversion E; lra|]. apply B in I. lra.
    + split; [lra|]. intros x [E|I]; [discriminate|]. apply B in I. lra.
Qed.
Lemma nansum_opp l : nansum (map (option_map Ropp) l) = - nansum l.
Proof. induction l as [|[x|] l IH]; cbn [map option_map]; rewrite ?nansum_cons, ?IH; cbn [or0]; try ring. unfold nansum; cbn; ring. Qed.
(** From the charge density (no number density dumped): magnitudes are kept, the total is not negative, and where the species
    has one sign of charge the profile is the absolute value, so not negative. *)
Theorem C109_density_charge : forall es q, (forall k, In k ["n"; "n01"; "n02"]%string -> last_of es is_density (lit k) = None) -> last_of es is_density (lit "charge") = Some (true, q) ->
  exists v, density_series es = Some v /\ length v = length q /\ 0 <= nansum v /\
    (forall i, option_map Rabs (nth i v None) = option_map Rabs (nth i q None)) /\
    ((forall x, In (Some x) q -> 0 <= x) \/ (forall x, In (Some x) q -> x <= 0) -> forall i, nth i v None = option_map Rabs (nth i q None)).
Proof.
  intros es q H C. assert (E : density_series es = Some (map (option_map (fun x => x / sign_or_one (nansum q))) q)).
  { unfold density_series, preferred. cbn [map first_pref]. rewrite (H "n"%string), (H "n01"%string), (H "n02"%string), C by (cbn; tauto). reflexivity. }
  assert (N : forall i, nth i (map (option_map (fun x => x / sign_or_one (nansum q))) q) None = option_map (fun x => x / sign_or_one (nansum q)) (nth i q None)).
  { intros i. change (@None R) with (option_map (fun x => x / sign_or_one (nansum q)) None) at 1. apply map_nth. }
  eexists. split; [exact E|]. rewrite map_length. split; [reflexivity|]. split; [rewrite nansum_div, sign_abs; apply Rabs_pos|]. split.
  - intros i. rewrite N. destruct (nth i q None) as [x|]; [cbn|reflexivity]. f_equal. unfold Rdiv. rewrite Rabs_mult. unfold sign_or_one. destruct (Rlt_dec _ _).
    + rewrite (Rabs_left (/ -1)); [field|]. replace (/ -1) with (-1) by field. lra.
    + rewrite (Rabs_right (/ 1)); [field|]. rewrite Rinv_1. lra.
  - intros S i. rewrite N. destruct (nth i q None) as [x|] eqn:Ex; [cbn|reflexivity]. f_equal.
    assert (I : In (Some x) q). { destruct (Nat.lt_ge_cases i (length q)) as [L|L]; [rewrite <- Ex; now apply nth_In|]. rewrite nth_overflow in Ex by lia. discriminate. }
    destruct S as [S|S].
    + destruct (nansum_bounds q S) as [A _]. unfold sign_or_one. destruct (Rlt_dec _ _); [lra|]. rewrite Rabs_right by (apply Rle_ge, S, I). field.
    + destruct (nansum_bounds (map (option_map Ropp) q)) as [A B].
      { intros y Hy. apply in_map_iff in Hy as ([z|] & Ez & Iz); [|discriminate]. cbn in Ez. inversion Ez. specialize (S z Iz). lra. }
      assert (P := S x I). specialize (B (- x)). rewrite nansum_opp in *. unfold sign_or_one. destruct (Rlt_dec _ _).
      * rewrite Rabs_left1 by exact P. field.
      * assert (Q : - x <= - nansum q) by (apply B, in_map_iff; exists (Some x); split; [reflexivity|exact I]). assert (x = 0) as -> by lra. rewrite Rabs_R0. field.
Qed.
Print Assumptions C109_density_charge.
Example charge_example : exists v, density_series [(lit "UDIST", (lit "uth1", (true, [Some 7]))); (lit "DENSITY", (lit "charge", (true, [Some (-2); None; Some (-3)])))] = Some v /\ nth 2 v None = Some 3.
Proof.
  destruct (C109_density_charge [(lit "UDIST", (lit "uth1", (true, [Some 7]))); (lit "DENSITY", (lit "charge", (true, [Some (-2); None; Some (-3)])))] [Some (-2); None; Some (-3)]) as (v & E & _ & _ & _ & P).
  - intros k [<-|[<-|[<-|[]]]]; reflexivity.
  - reflexivity.
  - exists v. split; [exact E|]. rewrite P; [cbn; f_equal; rewrite Rabs_left; lra|]. right. intros x [Ix|[Ix|[Ix|[]]]]; inversion Ix; lra.
Qed.
(** Refuted: the density derived from a charge density is not negative ("so the result is a non-negative number density"). *)
Theorem C109_density_sign_refuted : exists es v x, density_series es = Some v /\ In (Some x) v /\ x < 0.
Proof.
  exists [(lit "DENSITY", (lit "charge", (true, [Some 1; Some (-2)])))], [Some (1 / -1); Some (-2 / -1)], (-1). split; [|split; [left; f_equal; field|lra]].
  unfold density_series, preferred. cbn. unfold nansum, sign_or_one. cbn. destruct (Rlt_dec _ _); [reflexivity|lra].
Qed.
Print Assumptions C109_density_sign_refuted.
