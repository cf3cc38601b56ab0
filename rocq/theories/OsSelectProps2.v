(** C110, continued: cropping, colour limits, late means, zoom; C111: the settings. *)
From Verif Require Import RSum OsSelect.
From Coq Require Import List Sorted.
Local Open Scope R_scope.

(** ** Cropping to the box *)
Lemma ltb_true a b : ltb a b = true <-> a < b.
Proof. unfold ltb. destruct (Rlt_dec a b); split; intros; try discriminate; auto; contradiction. Qed.
Lemma leb_true a b : leb a b = true <-> a <= b.
Proof. unfold leb. destruct (Rle_dec a b); split; intros; try discriminate; auto; contradiction. Qed.
Lemma filter_none {A} (p : A -> bool) l : (forall a, In a l -> p a = false) -> filter p l = [].
Proof. induction l as [|a l IH]; intros H; cbn; [reflexivity|]. rewrite (H a (or_introl eq_refl)). apply IH. intros; apply H; now right. Qed.
Lemma filter_all {A} (p : A -> bool) l : (forall a, In a l -> p a = true) -> filter p l = l.
Proof. induction l as [|a l IH]; intros H; cbn; [reflexivity|]. rewrite (H a (or_introl eq_refl)). f_equal. apply IH. intros; apply H; now right. Qed.
(** On an increasing axis the cells below a bound come first. *)
Lemma skip_below lo l : StronglySorted Rlt l -> skipn (count (fun x => ltb x lo) l) l = filter (fun x => leb lo x) l.
Proof.
  induction 1 as [|a l S IH F]; [reflexivity|]. unfold count in *. cbn [filter]. rewrite Forall_forall in F. destruct (ltb a lo) eqn:E.
  - apply ltb_true in E. cbn [List.length skipn]. rewrite IH. destruct (leb lo a) eqn:E'; [apply leb_true in E'; lra|reflexivity].
  - assert (G : lo <= a) by (apply Rnot_lt_le; intros H; apply ltb_true in H; congruence).
    rewrite (filter_none (fun x => ltb x lo)) by (intros b Ib; specialize (F b Ib); destruct (ltb b lo) eqn:E'; [apply ltb_true in E'; lra|reflexivity]).
    cbn [List.length skipn]. assert (G' := proj2 (leb_true lo a) G). rewrite G'. f_equal. symmetry. apply filter_all. intros b Ib. specialize (F b Ib). apply leb_true. lra.
Qed.
Lemma take_below hi l : StronglySorted Rlt l -> firstn (count (fun x => leb x hi) l) l = filter (fun x => leb x hi) l.
Proof.
  induction 1 as [|a l S IH F]; [reflexivity|]. unfold count in *. cbn [filter]. rewrite Forall_forall in F. destruct (leb a hi) eqn:E.
  - cbn [List.length firstn]. now rewrite IH.
  - assert (G : hi < a) by (apply Rnot_le_lt; intros H; apply leb_true in H; congruence).
    rewrite (filter_none (fun x => leb x hi)) by (intros b Ib; specialize (F b Ib); destruct (leb b hi) eqn:E'; [apply leb_true in E'; lra|reflexivity]). reflexivity.
Qed.
Lemma sorted_filter p l : StronglySorted Rlt l -> StronglySorted Rlt (filter p l).
Proof.
  induction 1 as [|a l S IH F]; cbn; [constructor|]. destruct (p a); [|exact IH]. constructor; [exact IH|]. rewrite Forall_forall in *. intros b Ib. apply filter_In in Ib. apply F. tauto.
Qed.
Lemma count_split lo hi l : lo <= hi -> count (fun x => leb x hi) l = (count (fun x => ltb x lo) l + count (fun x => leb x hi) (filter (fun x => leb lo x) l))%nat.
Proof.
  intros H. unfold count. induction l as [|a l IH]; [reflexivity|]. cbn [filter]. destruct (ltb a lo) eqn:E1; destruct (leb lo a) eqn:E2.
  - apply ltb_true in E1. apply leb_true in E2. lra.
  - apply ltb_true in E1. assert (X : leb a hi = true) by (apply leb_true; lra). rewrite X. cbn [List.length]. lia.
  - cbn [filter]. destruct (leb a hi); cbn [List.length]; lia.
  - exfalso. assert (~ a < lo) by (intros G; apply ltb_true in G; congruence). assert (~ lo <= a) by (intros G; apply leb_true in G; congruence). lra.
Qed.
Lemma count_le p l : (count p l <= List.length l)%nat.
Proof. unfold count. induction l as [|a l IH]; cbn; [lia|]. destruct (p a); cbn; lia. Qed.
Lemma count_rest lo l : (count (fun x => ltb x lo) l + List.length (filter (fun x => leb lo x) l) = List.length l)%nat.
Proof.
  unfold count. induction l as [|a l IH]; [reflexivity|]. cbn [filter]. destruct (ltb a lo) eqn:E1; destruct (leb lo a) eqn:E2; cbn [List.length]; try lia.
  - apply ltb_true in E1. apply leb_true in E2. lra.
  - exfalso. assert (~ a < lo) by (intros G; apply ltb_true in G; congruence). assert (~ lo <= a) by (intros G; apply leb_true in G; congruence). lra.
Qed.
(** On an increasing axis with at least two cells: what is shown are the cells within the box, if there are any; if there are
    none, the first cell above the box; if every cell is below the box, none. *)
Theorem C110_crop : forall lo hi xv, StronglySorted Rlt xv -> (2 <= List.length xv)%nat -> lo <= hi ->
  crop_to lo hi xv = match filter (fun x => leb lo x && leb x hi)%bool xv with [] => firstn 1 (filter (fun x => leb lo x) xv) | inside => inside end.
Proof.
  intros lo hi xv S L H. unfold crop_to. replace (List.length xv <? 2)%nat with false by (symmetry; apply Nat.ltb_ge; lia). cbv zeta.
  set (left := count (fun x => ltb x lo) xv). set (m := filter (fun x => leb lo x) xv).
  assert (Sm : StronglySorted Rlt m) by (now apply sorted_filter).
  assert (Esk : skipn left xv = m) by (apply skip_below, S).
  assert (Ecnt : count (fun x => leb x hi) xv = (left + count (fun x => leb x hi) m)%nat) by (apply count_split, H).
  assert (Elen : (left + List.length m = List.length xv)%nat) by (apply count_rest).
  assert (Ein : filter (fun x => leb lo x && leb x hi)%bool xv = filter (fun x => leb x hi) m).
  { unfold m. clear. induction xv as [|a l IH]; [reflexivity|]. cbn [filter]. destruct (leb lo a); cbn [andb filter]; [|exact IH]. destruct (leb a hi); [f_equal|]; exact IH. }
  rewrite Ein, <- (take_below hi m Sm). rewrite Ecnt. set (c := count (fun x => leb x hi) m) in *. assert (Hc : (c <= List.length m)%nat) by (apply count_le).
  assert (R : firstn (Nat.max (left + 1) (Nat.min (left + c) (List.length xv)) - left) m = match firstn c m with [] => firstn 1 m | inside => inside end).
  { replace (Nat.max (left + 1) (Nat.min (left + c) (List.length xv)) - left)%nat with (Nat.max 1 c) by lia. destruct c as [|c]; [reflexivity|]. replace (Nat.max 1 (Datatypes.S c)) with (Datatypes.S c) by lia.
    destruct m; [cbn in Hc; lia|reflexivity]. }
  rewrite <- R, <- Esk. destruct (_ || _)%bool eqn:E; [reflexivity|]. apply orb_false_iff in E as [E1 E2]. apply Nat.ltb_ge in E1, E2.
  assert (Z : left = 0%nat) by lia. rewrite Z in *. cbn [skipn]. rewrite firstn_all2; [reflexivity|]. lia.
Qed.
Print Assumptions C110_crop.
Lemma last_in (l : list R) d : l <> [] -> In (last l d) l.
Proof. intros H. destruct (exists_last H) as (l' & a & ->). rewrite last_last. apply in_or_app. right. now left. Qed.
Lemma sorted_le_last l a d : StronglySorted Rlt l -> In a l -> a <= last l d.
Proof.
  induction 1 as [|b l S IH F]; intros I; [destruct I|]. destruct l as [|c l]; [destruct I as [->|[]]; cbn; lra|]. change (last (b :: c :: l) d) with (last (c :: l) d). rewrite Forall_forall in F.
  destruct I as [->|I]; [|now apply IH]. apply Rlt_le, F, last_in. discriminate.
Qed.
(** A dump without the box attributes is shown whole; one whose axis has the extent of the box also. *)
Theorem C110_crop_whole : forall k amin amax xv, StronglySorted Rlt xv -> (forall x, In x xv -> box_bound amin k (hd 0 xv) <= x <= box_bound amax k (last xv 0)) -> crop k amin amax xv = xv.
Proof.
  intros k amin amax xv S H. unfold crop. destruct (Nat.lt_ge_cases (List.length xv) 2) as [L|L].
  - unfold crop_to. apply Nat.ltb_lt in L. now rewrite L.
  - rewrite C110_crop; [|exact S|exact L|destruct xv as [|a xv]; [cbn in L; lia|destruct (H a (or_introl eq_refl)); lra]].
    rewrite filter_all; [destruct xv; [cbn in L; lia|reflexivity]|]. intros a I. apply andb_true_iff. rewrite !leb_true. apply H, I.
Qed.
Print Assumptions C110_crop_whole.
Theorem C110_crop_absent : forall k xv, StronglySorted Rlt xv -> crop k Absent Absent xv = xv.
Proof.
  intros k xv S. apply C110_crop_whole; [exact S|]. intros x I. cbn. split; [|now apply sorted_le_last]. destruct xv as [|a xv]; [destruct I|]. inversion S; subst. rewrite Forall_forall in *. cbn. destruct I as [->|I]; [lra|]. apply Rlt_le; auto.
Qed.
Print Assumptions C110_crop_absent.
Example crop_example : crop 1 (PerDim [0; -5]) (PerDim [3 / 2; 5]) [0; 1; 2; 3] = [0; 1].
Proof.
  change (crop_to 0 (3 / 2) [0; 1; 2; 3] = [0; 1]). rewrite C110_crop.
  - assert (K : forall a b, a <= b -> leb a b = true) by (intros; now apply leb_true). assert (K' : forall a b, b < a -> leb a b = false) by (intros a b H; destruct (leb a b) eqn:E; [apply leb_true in E; lra|reflexivity]).
    cbn [filter]. rewrite !K by lra. rewrite (K' 2 (3 / 2)) by lra. rewrite (K' 3 (3 / 2)) by lra. rewrite ?(K 0 3) by lra. reflexivity.
  - repeat constructor; lra.
  - cbn. lia.
  - lra.
Qed.
(** Refuted: what is shown lies within the box; something is shown. *)
Theorem C110_crop_refuted : crop_to 4 6 [0; 10] = [10] /\ crop_to 20 30 [0; 10] = [].
Proof.
  assert (K : forall a b, a <= b -> leb a b = true) by (intros; now apply leb_true). assert (K' : forall a b, b < a -> leb a b = false) by (intros a b H; destruct (leb a b) eqn:E; [apply leb_true in E; lra|reflexivity]).
  split; (rewrite C110_crop; [|repeat constructor; lra|cbn; lia|lra]); cbn [filter].
  - rewrite (K' 4 0), (K 4 10), (K' 10 6) by lra. reflexivity.
  - rewrite (K' 20 0), (K' 20 10) by lra. reflexivity.
Qed.
Print Assumptions C110_crop_refuted.

(** ** Colour limits *)
Lemma fold_min l : forall a, (forall x, In x (a :: l) -> fold_left Rmin l a <= x) /\ In (fold_left Rmin l a) (a :: l).
Proof.
  induction l as [|b l IH]; intros a; cbn [fold_left]; [split; [intros x [->|[]]; lra|now left]|]. destruct (IH (Rmin a b)) as [A B]. split.
  - intros x [->|[->|I]]; [eapply Rle_trans; [apply A; now left|apply Rmin_l]|eapply Rle_trans; [apply A; now left|apply Rmin_r]|apply A; now right].
  - destruct B as [E|I]; [|right; now right]. rewrite <- E. unfold Rmin. destruct (Rle_dec a b); [now left|right; now left].
Qed.
Lemma fold_max l : forall a, (forall x, In x (a :: l) -> x <= fold_left Rmax l a) /\ In (fold_left Rmax l a) (a :: l).
Proof.
  induction l as [|b l IH]; intros a; cbn [fold_left]; [split; [intros x [->|[]]; lra|now left]|]. destruct (IH (Rmax a b)) as [A B]. split.
  - intros x [->|[->|I]]; [eapply Rle_trans; [|apply A; now left]; apply Rmax_l|eapply Rle_trans; [|apply A; now left]; apply Rmax_r|apply A; now right].
  - destruct B as [E|I]; [|right; now right]. rewrite <- E. unfold Rmax. destruct (Rle_dec a b); [right; now left|now left].
Qed.
Lemma log10_le x y : 0 < x -> x <= y -> log10 x <= log10 y.
Proof.
  intros P H. unfold log10. assert (L : 0 < ln 10) by (rewrite <- ln_1; apply ln_increasing; lra).
  apply Rmult_le_compat_r; [left; now apply Rinv_0_lt_compat|]. destruct H as [H| ->]; [left; now apply ln_increasing|lra].
Qed.
(** Limits exist exactly when some cell is not zero; then they span the logarithms of the magnitudes of the non-zero cells, and
    both are reached. *)
Theorem C110_limits : forall v,
  (log_clim v = None <-> forall x, In x v -> x = 0) /\
  forall lo hi, log_clim v = Some (lo, hi) -> (forall x, In x v -> x <> 0 -> lo <= log10 (Rabs x) <= hi) /\
    (exists x, In x v /\ x <> 0 /\ lo = log10 (Rabs x)) /\ (exists x, In x v /\ x <> 0 /\ hi = log10 (Rabs x)).
Proof.
  intros v. unfold log_clim. cbv zeta.
  assert (I : forall y, In y (filter (ltb 0) (map Rabs v)) <-> exists x, In x v /\ x <> 0 /\ y = Rabs x).
  { intros y. rewrite filter_In, in_map_iff, ltb_true. split.
    - intros [(x & <- & Ix) P]. exists x. repeat split; auto. intros ->. rewrite Rabs_R0 in P. lra.
    - intros (x & Ix & N & ->). split; [eauto|]. now apply Rabs_pos_lt. }
  destruct (filter (ltb 0) (map Rabs v)) as [|a nz] eqn:E.
  - split; [|discriminate]. split; [|reflexivity]. intros _ x Ix. destruct (Req_EM_T x 0) as [|N]; [assumption|]. exfalso. apply (I (Rabs x)). eauto.
  - split.
    + split; [discriminate|]. intros Z. destruct (proj1 (I a) (or_introl eq_refl)) as (x & Ix & N & _). exfalso. apply N, Z, Ix.
    + intros lo hi H. inversion H; subst lo hi; clear H. cbn [lmin]. destruct (fold_min nz a) as [A B].
      assert (Pa : forall y, In y (a :: nz) -> 0 < y) by (intros y Iy; apply I in Iy as (x & _ & N & ->); now apply Rabs_pos_lt).
      assert (M : exists b l, map Rabs v = b :: l) by (destruct (map Rabs v); [discriminate|eauto]). destruct M as (b & l & M). rewrite M. cbn [lmax]. destruct (fold_max l b) as [C D].
      assert (Mx : In (fold_left Rmax l b) (map Rabs v)) by (rewrite M; exact D).
      split; [|split].
      * intros x Ix N. assert (Jx : In (Rabs x) (a :: nz)) by (apply I; eauto). split; apply log10_le.
        -- apply Pa, B.
        -- apply A, Jx.
        -- apply Pa, Jx.
        -- apply C. rewrite <- M. now apply in_map.
      * apply I in B as (x & Ix & N & ->). eauto.
      * apply in_map_iff in Mx as (x & Ex & Ix). exists x. split; [exact Ix|]. rewrite Ex. split; [|reflexivity]. intros ->. rewrite Rabs_R0 in Ex.
        assert (Q : a <= fold_left Rmax l b). { apply C. rewrite <- M. destruct (proj1 (I a) (or_introl eq_refl)) as (z & Iz & _ & ->). now apply in_map. }
        assert (0 < a) by (apply Pa; now left). lra.
Qed.
Print Assumptions C110_limits.
Example limits_example : log_clim [0; -1; 10] <> None.
Proof. intros H. assert (X := proj1 (proj1 (C110_limits [0; -1; 10])) H (-1) (or_intror (or_introl eq_refl))). lra. Qed.

(** ** Late-time windows *)
(** The late mean of a profile is over the last w dumps, 1 <= w <= nt, the requested ones clipped; the one of the current
    lineouts is the same as long as not more than all dumps are asked for. *)
Theorem C110_late_mean : forall nt r explicit, (1 <= nt)%nat ->
  let w := profile_window nt r explicit in (1 <= w <= nt)%nat /\ profile_start nt r explicit = (nt - w)%nat /\
  (explicit = None -> (1 <= r <= nt)%nat -> w = r) /\ (forall e, explicit = Some e -> (1 <= e <= nt)%nat -> w = e) /\
  ((r <= nt)%nat -> lineout_start nt r = profile_start nt r None).
Proof.
  intros nt r explicit H. cbv zeta. unfold profile_start, lineout_start, profile_window, slice_start.
  split; [destruct explicit; lia|]. split; [|split; [intros -> ?; lia|split; [intros e -> ?; lia|]]].
  - match goal with |- context[(?a <=? nt)%nat] => replace (a <=? nt)%nat with true by (symmetry; apply Nat.leb_le; destruct explicit; lia) end. reflexivity.
  - intros Hr. replace (Nat.max 1 r <=? nt)%nat with true by (symmetry; apply Nat.leb_le; lia).
    replace (Nat.max 1 (Nat.min (Nat.max 1 r) nt) <=? nt)%nat with true by (symmetry; apply Nat.leb_le; lia). lia.
Qed.
Print Assumptions C110_late_mean.
(** Refuted: asking the lineouts for more than all dumps averages all of them: 12 of 10 are the last two. *)
Theorem C110_lineout_refuted : lineout_start 10 12 = 8%nat /\ profile_start 10 12 None = 0%nat.
Proof. split; reflexivity. Qed.
Print Assumptions C110_lineout_refuted.

(** ** The zoom of the dispersion plot *)
Theorem C110_zoom : forall t x requested,
  (zoom_window t x requested = None <-> (List.length t < 2)%nat \/ (List.length x < 2)%nat) /\
  forall h, zoom_window t x requested = Some h -> nth 0 t 0 < nth 1 t 0 -> nth 0 x 0 < nth 1 x 0 ->
    0 < h /\ h <= PI / (nth 1 x 0 - nth 0 x 0) /\ h <= PI / (nth 1 t 0 - nth 0 t 0) /\
    (forall q, requested = Some q -> 0 < q -> h <= q /\ (q <= PI / (nth 1 x 0 - nth 0 x 0) -> q <= PI / (nth 1 t 0 - nth 0 t 0) -> h = q)) /\
    (h = PI / (nth 1 x 0 - nth 0 x 0) \/ h = PI / (nth 1 t 0 - nth 0 t 0) \/ requested = Some h).
Proof.
  intros t x requested. unfold zoom_window. destruct t as [|t0 [|t1 t]]; destruct x as [|x0 [|x1 x]]; cbn [List.length nth]; (split; [split; [intros; try lia; discriminate|intros; try lia; reflexivity]|]); intros h Eh Ht Hx; try discriminate.
  cbv zeta in Eh. assert (P := PI_RGT_0). assert (A : 0 < PI / (x1 - x0)) by (apply Rdiv_lt_0_compat; lra). assert (B : 0 < PI / (t1 - t0)) by (apply Rdiv_lt_0_compat; lra).
  set (kn := PI / (x1 - x0)) in *. set (wn := PI / (t1 - t0)) in *. clearbody kn wn. inversion Eh as [E]; clear Eh E. unfold Rmin.
  destruct requested as [q|]; [destruct (Rle_dec q 0)|]; destruct (Rle_dec kn wn); try destruct (Rle_dec q kn); try destruct (Rle_dec q wn);
    (split; [lra|]); (split; [lra|]); (split; [lra|]); (split; [intros q' Eq Pq; inversion Eq; try subst q'; try lra|tauto]).
Qed.
Print Assumptions C110_zoom.
Example zoom_example : exists h, zoom_window [0; 1] [0; 1] (Some 2) = Some h.
Proof. eexists. reflexivity. Qed.
