(** C109, continued: temperature profiles and ion-acoustic speeds. *)
From Verif Require Import OsPlots.
From Coq Require Import List.
From Verif Require Import OsPlotsProps.
Local Open Scope R_scope.

(** ** Temperature from moments *)
Lemma fold_oadd n cs : forall a, length a = n -> Forall (fun c => length c = n) cs ->
  fold_left (map2 oadd) (map (map (@Some R)) cs) (map Some a) = map Some (fold_left (map2 Rplus) cs a) /\ length (fold_left (map2 Rplus) cs a) = n.
Proof.
  induction cs as [|c cs IH]; intros a La F; cbn [fold_left map]; [tauto|]. inversion F; subst.
  assert (E : map2 oadd (map (@Some R) a) (map (@Some R) c) = map (@Some R) (map2 Rplus a c)) by (rewrite map2_map, map_map2; reflexivity).
  rewrite E. apply IH; [|assumption]. rewrite map2_length. lia.
Qed.
Lemma fold_plus_nth n cs : forall a i, length a = n -> Forall (fun c => length c = n) cs -> (i < n)%nat ->
  nth i (fold_left (map2 Rplus) cs a) 0 = nth i a 0 + total (map (fun c => nth i c 0) cs).
Proof.
  induction cs as [|c cs IH]; intros a i La F Hi; cbn [fold_left map total fold_right]; [ring|]. inversion F; subst. rewrite IH; [|rewrite map2_length; lia|assumption|assumption].
  rewrite (map2_nth _ _ _ _ 0 0) by lia. unfold total. ring.
Qed.
Lemma sum_comps_at n c cs : Forall (fun c => length c = n) (c :: cs) -> exists T, sum_comps (map (map Some) (c :: cs)) = Some (map Some T) /\ length T = n /\
  forall i, (i < n)%nat -> nth i T 0 = total (map (fun c => nth i c 0) (c :: cs)).
Proof.
  intros F. inversion F; subst. destruct (fold_oadd _ cs c eq_refl H2) as [E L]. eexists. cbn [map sum_comps]. rewrite E. split; [reflexivity|]. split; [exact L|].
  intros i Hi. rewrite (fold_plus_nth (length c)) by auto. reflexivity.
Qed.
(** When the run dumps thermal velocities (finite, on one grid), the temperature in every cell is the sum of the squares of
    those that are two-dimensional: never negative, and zero exactly where all of them vanish. *)
Theorem C109_temperature_uth : forall es n c cs, two_d (found es [lit "uth1"; lit "uth2"; lit "uth3"]) = map (map Some) (c :: cs) -> Forall (fun c => length c = n) (c :: cs) ->
  exists T, temperature_series es = Some (map Some T) /\ length T = n /\
    forall i, (i < n)%nat -> nth i T 0 = total (map (fun c => nth i c 0 ^ 2) (c :: cs)) /\ 0 <= nth i T 0 /\ (nth i T 0 = 0 <-> forall k, In k (c :: cs) -> nth i k 0 = 0).
Proof.
  intros es n c cs H F. change [lit "uth1"; lit "uth2"; lit "uth3"] with uths in H.
  destruct (sum_comps_at n (map (fun x => x * x) c) (map (map (fun x => x * x)) cs)) as (T & E & L & P).
  { rewrite Forall_forall in *. intros k [<-|I]; [rewrite map_length; apply F; now left|]. apply in_map_iff in I as (k' & <- & I). rewrite map_length. apply F. now right. }
  exists T. unfold temperature_series. destruct (found es uths) as [|u us] eqn:Eu; [discriminate H|]. rewrite H. split; [|split; [exact L|]].
  - rewrite <- E. f_equal. change (map (fun x => x * x) c :: map (map (fun x => x * x)) cs) with (map (map (fun x : R => x * x)) (c :: cs)). rewrite !map_map. apply map_ext. intros k. rewrite !map_map. reflexivity.
  - intros i Hi. rewrite P by exact Hi.
    assert (Q : map (fun c => nth i c 0) (map (fun x => x * x) c :: map (map (fun x => x * x)) cs) = map (fun c => nth i c 0 ^ 2) (c :: cs)).
    { change (map (fun x => x * x) c :: map (map (fun x => x * x)) cs) with (map (map (fun x : R => x * x)) (c :: cs)). rewrite map_map. apply map_ext. intros k.
      assert (Z : nth i (map (fun x : R => x * x) k) (0 * 0) = nth i k 0 * nth i k 0) by exact (map_nth (fun x : R => x * x) k 0 i). rewrite Rmult_0_r in Z. rewrite Z. ring. }
    rewrite Q. split; [reflexivity|]. clear. induction (c :: cs) as [|k l [N IH]]; cbn [map total fold_right]; [split; [lra|]; split; [intros _ k []|reflexivity]|].
    fold (total (map (fun c => nth i c 0 ^ 2) l)). assert (S := pow2_ge_0 (nth i k 0)). split; [lra|]. split.
    + intros Z. assert (A : nth i k 0 ^ 2 = 0) by lra. assert (B : total (map (fun c => nth i c 0 ^ 2) l) = 0) by lra. intros k' [<-|I]; [|now apply IH].
      apply Rmult_integral in A as [A|A]; [exact A|]. lra.
    + intros Z. rewrite (Z k (or_introl eq_refl)), (proj2 IH); [ring|]. intros; apply Z; now right.
Qed.
Print Assumptions C109_temperature_uth.
(** Without thermal velocities: the trace of the temperature tensor. *)
Theorem C109_temperature_trace : forall es n c cs, found es [lit "uth1"; lit "uth2"; lit "uth3"] = [] -> two_d (found es [lit "T11"; lit "T22"; lit "T33"]) = map (map Some) (c :: cs) -> Forall (fun c => length c = n) (c :: cs) ->
  exists T, temperature_series es = Some (map Some T) /\ length T = n /\ forall i, (i < n)%nat -> nth i T 0 = total (map (fun c => nth i c 0) (c :: cs)).
Proof.
  intros es n c cs U H F. change [lit "uth1"; lit "uth2"; lit "uth3"] with uths in U. change [lit "T11"; lit "T22"; lit "T33"] with tens in H. unfold temperature_series. rewrite U, H. destruct (sum_comps_at n c cs F) as (T & E & L & P). exists T. auto.
Qed.
Print Assumptions C109_temperature_trace.
Example temperature_example : exists T, temperature_series [(lit "UDIST", (lit "uth2", (true, [Some 3; Some 0]))); (lit "DENSITY", (lit "n", (true, [Some 1; Some 1]))); (lit "UDIST", (lit "uth1", (true, [Some 4; Some 0])))] = Some (map Some T) /\ nth 0 T 0 = 25 /\ nth 1 T 0 = 0.
Proof.
  destruct (C109_temperature_uth [(lit "UDIST", (lit "uth2", (true, [Some 3; Some 0]))); (lit "DENSITY", (lit "n", (true, [Some 1; Some 1]))); (lit "UDIST", (lit "uth1", (true, [Some 4; Some 0])))] 2 [4; 0] [[3; 0]]) as (T & E & L & P);
    [reflexivity|repeat constructor|]. exists T. split; [exact E|]. destruct (P 0%nat) as [P0 _]; [lia|]. destruct (P 1%nat) as [P1 _]; [lia|]. rewrite P0, P1. cbn. split; ring.
Qed.
(** Refuted: a run that has the temperature tensor has a temperature profile (a thermal velocity that is not (t, x) hides it). *)
Theorem C109_fallback_refuted : exists es, temperature_series es = None /\ two_d (found es [lit "T11"; lit "T22"; lit "T33"]) <> [].
Proof. exists [(lit "UDIST", (lit "uth1", (false, [Some 1]))); (lit "UDIST", (lit "T11", (true, [Some 1])))]. split; [reflexivity|]. cbn. discriminate. Qed.
Print Assumptions C109_fallback_refuted.

(** ** Temperature from the phase space *)
Lemma total_cons a l : total (a :: l) = a + total l.
Proof. reflexivity. Qed.
Lemma dot_cons a w p ps : dot (a :: w) (p :: ps) = a * p + dot w ps.
Proof. reflexivity. Qed.
Lemma weights_nonneg s f : Forall (fun a => 0 <= a) (weights s f).
Proof. apply Forall_forall. intros a I. apply in_map_iff in I as (b & <- & _). apply Rmax_r. Qed.
Lemma total_nonneg l : Forall (fun a => 0 <= a) l -> 0 <= total l.
Proof. induction 1; cbn; [lra|]. fold (total l). lra. Qed.
Lemma dot_nonneg w q : Forall (fun a => 0 <= a) w -> (forall p, In p q -> 0 <= p) -> 0 <= dot w q.
Proof.
  intros F. revert q. induction F as [|a w Ha F IH]; intros [|p q] H; try (unfold dot; cbn; lra). rewrite dot_cons.
  pose proof (IH q ltac:(intros; apply H; now right)). pose proof (Rmult_le_pos _ _ Ha (H p (or_introl eq_refl))). lra.
Qed.
Lemma dot_lin (c0 c1 c2 : R) : forall w pc, length w = length pc -> dot w (map (fun p => c2 * p ^ 2 + c1 * p + c0) pc) = c2 * dot w (map (fun p => p ^ 2) pc) + c1 * dot w pc + c0 * total w.
Proof.
  induction w as [|a w IH]; intros [|p pc] H; cbn in H; try lia; [unfold dot; cbn; ring|]. cbn [map]. rewrite !dot_cons, total_cons, IH by lia. ring.
Qed.
Lemma dot_map_ext w (f g : R -> R) pc : (forall p, f p = g p) -> dot w (map f pc) = dot w (map g pc).
Proof. intros H. f_equal. now apply map_ext. Qed.
Lemma variance_moments w pc : length w = length pc -> total w <> 0 -> variance w pc = dot w (map (fun p => p ^ 2) pc) / total w - mean_p w pc ^ 2.
Proof.
  intros L H. unfold variance. rewrite (dot_map_ext w _ (fun p => 1 * p ^ 2 + (- 2 * mean_p w pc) * p + mean_p w pc ^ 2)) by (intros; ring).
  rewrite dot_lin by exact L. unfold mean_p. field. exact H.
Qed.

(** Where the column holds some weight, the temperature is that of the Maxwellian with the same density, mean momentum and
    mean square momentum; it is not negative, at most (b - a)^2/4 on a momentum axis within [a, b], and zero exactly when all
    weight sits at the mean momentum; elsewhere there is no value. *)
Theorem C109_column : forall s pc f, length f = length pc ->
  (column_temp s pc f = None <-> forall a, In a (weights s f) -> a = 0) /\
  forall T, column_temp s pc f = Some T ->
    let w := weights s f in
    T = dot w (map (fun p => p ^ 2) pc) / total w - (dot w pc / total w) ^ 2 /\ 0 <= T /\
    (forall a b, (forall p, In p pc -> a <= p <= b) -> a <= dot w pc / total w <= b /\ T <= (b - a) ^ 2 / 4) /\
    (T = 0 <-> forall i, (i < length pc)%nat -> 0 < nth i w 0 -> nth i pc 0 = dot w pc / total w).
Proof.
  intros s pc f L. assert (N := weights_nonneg s f). assert (Lw : length (weights s f) = length pc) by (unfold weights; now rewrite map_length).
  unfold column_temp. cbv zeta. set (w := weights s f) in *. clearbody w. clear f L. destruct (Rlt_dec 0 (total w)) as [P|P].
  - split.
    + split; [discriminate|]. intros Z. exfalso. assert (total w = 0); [|lra]. clear P N Lw. induction w as [|a w IH]; [reflexivity|]. rewrite total_cons, (Z a (or_introl eq_refl)), IH; [ring|]. intros; apply Z; now right.
    + intros T E. inversion E as [ET]. clear E. rewrite variance_moments by (auto; lra). unfold mean_p. set (m := dot w pc / total w).
      assert (Em : dot w pc = m * total w) by (unfold m; field; lra).
      assert (V0 : 0 <= dot w (map (fun p => (p - m) ^ 2) pc)).
      { apply dot_nonneg; [exact N|]. intros p I. apply in_map_iff in I as (p' & <- & _). apply pow2_ge_0. }
      assert (VE : dot w (map (fun p => (p - m) ^ 2) pc) = total w * (dot w (map (fun p => p ^ 2) pc) / total w - m ^ 2)).
      { rewrite (dot_map_ext w _ (fun p => 1 * p ^ 2 + (- 2 * m) * p + m ^ 2)) by (intros; ring). rewrite dot_lin by exact Lw. rewrite Em. field. lra. }
      assert (NV : 0 <= dot w (map (fun p => p ^ 2) pc) / total w - m ^ 2).
      { apply Rmult_le_reg_l with (total w); [exact P|]. lra. }
      split; [reflexivity|]. split; [exact NV|]. split.
      * intros a b H.
        assert (A : 0 <= dot w (map (fun p => 0 * p ^ 2 + 1 * p + - a) pc)).
        { apply dot_nonneg; [exact N|]. intros p I. apply in_map_iff in I as (p' & <- & I). specialize (H p' I). lra. }
        assert (B : 0 <= dot w (map (fun p => 0 * p ^ 2 + (-1) * p + b) pc)).
        { apply dot_nonneg; [exact N|]. intros p I. apply in_map_iff in I as (p' & <- & I). specialize (H p' I). lra. }
        assert (C : 0 <= dot w (map (fun p => (-1) * p ^ 2 + (a + b) * p + - (a * b)) pc)).
        { apply dot_nonneg; [exact N|]. intros p I. apply in_map_iff in I as (p' & <- & I). specialize (H p' I). assert (0 <= (p' - a) * (b - p')) by (apply Rmult_le_pos; lra). lra. }
        rewrite dot_lin in A, B, C by exact Lw. rewrite Em in A, B, C. split.
        -- split; apply Rmult_le_reg_r with (total w); lra.
        -- assert (D : dot w (map (fun p => p ^ 2) pc) / total w <= (a + b) * m - a * b).
           { apply Rmult_le_reg_r with (total w); [exact P|]. unfold Rdiv. rewrite Rmult_assoc, Rinv_l by lra. lra. }
           assert (Q := pow2_ge_0 (m - (a + b) / 2)). lra.
      * assert (Z : dot w (map (fun p => p ^ 2) pc) / total w - m ^ 2 = 0 <-> dot w (map (fun p => (p - m) ^ 2) pc) = 0).
        { rewrite VE. split; [intros ->; ring|]. intros Q. apply Rmult_integral in Q as [Q|Q]; lra. }
        rewrite Z. clearbody m. clear V0 VE NV Z Em P ET T. revert pc Lw. induction N as [|a w Ha N IH]; intros [|p pc] Lw; cbn in Lw; try lia.
        { split; [intros _ i Hi; cbn in Hi; lia|reflexivity]. }
        cbn [map]. rewrite dot_cons. assert (V := dot_nonneg w (map (fun p => (p - m) ^ 2) pc) N). assert (V' : 0 <= dot w (map (fun p => (p - m) ^ 2) pc)) by (apply V; intros q I; apply in_map_iff in I as (q' & <- & _); apply pow2_ge_0).
        assert (U := Rmult_le_pos _ _ Ha (pow2_ge_0 (p - m))). specialize (IH pc ltac:(lia)). split.
        -- intros S0 i Hi Hw. destruct i; cbn [nth] in *; [|apply IH; [lra|cbn in Hi; lia|exact Hw]].
           assert (S1 : a * (p - m) ^ 2 = 0) by lra. apply Rmult_integral in S1 as [S1|S1]; [lra|]. assert (S2 : (p - m) * (p - m) = 0) by (rewrite <- S1; ring). apply Rmult_integral in S2. lra.
        -- intros H. assert (S1 : dot w (map (fun p => (p - m) ^ 2) pc) = 0) by (apply IH; intros i Hi Hw; apply (H (Datatypes.S i)); cbn; [lia|exact Hw]).
           rewrite S1. destruct (Req_EM_T a 0) as [->|Na]; [ring|]. assert (X : p = m) by (apply (H 0%nat); cbn; [lia|lra]). rewrite X. ring.
  - split; [|discriminate]. split; [intros _|reflexivity]. assert (Z : total w = 0) by (pose proof (total_nonneg w N); lra). clear P.
    clear Lw. induction N as [|a w Ha N IH]; [intros a []|]. rewrite total_cons in Z. pose proof (total_nonneg w N). intros b [<-|I]; [lra|]. apply IH; [lra|exact I].
Qed.
Print Assumptions C109_column.

Example column_example : column_temp 1 [-1; 0; 1] [1; 2; 1] = Some (1 / 2).
Proof.
  unfold column_temp, weights. cbn [map]. replace (Rmax (1 / 1) 0) with 1 by (rewrite Rmax_left; lra). replace (Rmax (2 / 1) 0) with 2 by (rewrite Rmax_left; lra).
  unfold variance, mean_p, dot. cbn. destruct (Rlt_dec _ _); [f_equal; field|lra].
Qed.

(** The temperature does not see a drift, a change of density or the sign of the charge; it scales with the square of the
    momentum unit. *)
Lemma dot_shift c w : forall pc, length w = length pc -> dot w (map (fun p => p + c) pc) = dot w pc + c * total w.
Proof. induction w as [|a w IH]; intros [|p pc] H; cbn in H; try lia; [unfold dot; cbn; ring|]. cbn [map]. rewrite !dot_cons, total_cons, IH by lia. ring. Qed.
Lemma dot_scale c w : forall pc, dot w (map (fun p => c * p) pc) = c * dot w pc.
Proof. induction w as [|a w IH]; intros [|p pc]; try (unfold dot; cbn; ring). cbn [map]. rewrite !dot_cons, IH. ring. Qed.
Lemma dot_scale_l c w : forall pc, dot (map (fun a => c * a) w) pc = c * dot w pc.
Proof. induction w as [|a w IH]; intros [|p pc]; try (unfold dot; cbn; ring). cbn [map]. rewrite !dot_cons, IH. ring. Qed.
Lemma total_scale c l : total (map (fun a => c * a) l) = c * total l.
Proof. induction l as [|a l IH]; cbn [map]; [cbn; ring|]. rewrite !total_cons, IH. ring. Qed.
Lemma weights_scale c s f : 0 < c -> weights s (map (fun a => c * a) f) = map (fun a => c * a) (weights s f).
Proof.
  intros H. unfold weights. rewrite !map_map. apply map_ext. intros a. replace (c * a / s) with (c * (a / s)) by (unfold Rdiv; ring).
  rewrite <- RmaxRmult by lra. now rewrite Rmult_0_r.
Qed.
Theorem C109_drift : forall s pc f c, length f = length pc -> column_temp s (map (fun p => p + c) pc) f = column_temp s pc f.
Proof.
  intros s pc f c L. unfold column_temp. cbv zeta. assert (Lw : length (weights s f) = length pc) by (unfold weights; now rewrite map_length).
  destruct (Rlt_dec 0 (total (weights s f))); [|reflexivity]. f_equal. unfold variance, mean_p. rewrite dot_shift, map_map by exact Lw. f_equal. apply dot_map_ext.
  intros p. f_equal. field. lra.
Qed.
Print Assumptions C109_drift.
Theorem C109_density_unit : forall s pc f c, 0 < c -> column_temp s pc (map (fun a => c * a) f) = column_temp s pc f.
Proof.
  intros s pc f c H. unfold column_temp. cbv zeta. rewrite weights_scale by exact H. set (w := weights s f). clearbody w. rewrite total_scale.
  destruct (Rlt_dec 0 (total w)) as [P|P].
  - destruct (Rlt_dec 0 (c * total w)) as [Q|Q]; [|exfalso; apply Q; now apply Rmult_lt_0_compat]. f_equal. unfold variance, mean_p. rewrite !dot_scale_l, !total_scale.
    replace (c * dot w pc / (c * total w)) with (dot w pc / total w) by (field; lra). field. lra.
  - destruct (Rlt_dec 0 (c * total w)) as [Q|Q]; [|reflexivity]. exfalso. apply P. apply Rmult_lt_reg_l with c; lra.
Qed.
Print Assumptions C109_density_unit.
Theorem C109_momentum_unit : forall s pc f c, column_temp s (map (fun p => c * p) pc) f = option_map (fun T => c ^ 2 * T) (column_temp s pc f).
Proof.
  intros s pc f c. unfold column_temp. cbv zeta. destruct (Rlt_dec 0 (total (weights s f))) as [P|P]; [|reflexivity]. cbn [option_map]. f_equal. unfold variance, mean_p.
  rewrite dot_scale, map_map. set (w := weights s f) in *. clearbody w. rewrite (dot_map_ext w _ (fun p => c ^ 2 * (p - dot w pc / total w) ^ 2)) by (intros; field; lra).
  rewrite <- (map_map (fun p => (p - dot w pc / total w) ^ 2) (fun q => c ^ 2 * q)), dot_scale. unfold Rdiv. ring.
Qed.
Print Assumptions C109_momentum_unit.
Lemma total_opp l : total (map Ropp l) = - total l.
Proof. induction l as [|a l IH]; cbn [map]; [cbn; ring|]. rewrite !total_cons, IH. ring. Qed.
Theorem C109_charge_sign : forall pc cols, total (map total cols) <> 0 -> phasespace_temp pc (map (map Ropp) cols) = phasespace_temp pc cols.
Proof.
  intros pc cols H. unfold phasespace_temp. rewrite !map_map.
  assert (E : total (map (fun c => total (map Ropp c)) cols) = - total (map total cols)).
  { clear H. induction cols as [|c l IH]; cbn [map]; [cbn; ring|]. rewrite !total_cons, IH, total_opp. ring. }
  rewrite E. apply map_ext. intros f.
  assert (W : weights (sign_or_one (- total (map total cols))) (map Ropp f) = weights (sign_or_one (total (map total cols))) f).
  { unfold weights. rewrite map_map. apply map_ext. intros a. f_equal. unfold sign_or_one. destruct (Rlt_dec _ _), (Rlt_dec _ _); try lra; field. }
  unfold column_temp. now rewrite W.
Qed.
Print Assumptions C109_charge_sign.
Example charge_sign_example : total (map total [[-1; -2]; [-3; 1]]) <> 0.
Proof. cbn. lra. Qed.
(** Refuted: the temperature at a place is that of the distribution there (the sign of the whole dump decides which part of a
    column counts). *)
Theorem C109_local_refuted : exists pc f g, nth 0 (phasespace_temp pc [f; g]) None = None /\ exists T, nth 0 (phasespace_temp pc [f]) None = Some T.
Proof.
  exists [0; 1], [1; 1], [-2; -2]. split.
  - unfold phasespace_temp. cbn [map nth]. unfold sign_or_one, column_temp, weights. cbn [map total fold_right]. destruct (Rlt_dec _ 0); [|lra].
    rewrite Rmax_right by lra. destruct (Rlt_dec _ _); [lra|reflexivity].
  - unfold phasespace_temp. cbn [map nth]. unfold sign_or_one, column_temp, weights. cbn [map total fold_right]. destruct (Rlt_dec _ 0); [lra|].
    rewrite Rmax_left by lra. destruct (Rlt_dec _ _); [eauto|lra].
Qed.
Print Assumptions C109_local_refuted.

(** ** Ion-acoustic speeds *)
(** A deck whose species are each followed by their udist section and by other sections: the species in order. *)
Definition block := (dparams * dparams * list (str * dparams))%type.
Definition sections_of (b : block) : list (str * dparams) := (lit "species", fst (fst b)) :: (lit "udist", snd (fst b)) :: snd b.
Definition other (s : str * dparams) : Prop := fst s <> lit "species" /\ fst s <> lit "udist".
Lemma walk_other l s : other s -> walk l s = l.
Proof. intros [A B]. apply str_eqb_neq in A, B. unfold walk. now rewrite A, B. Qed.
Lemma walk_others o : Forall other o -> forall l, fold_left walk o l = l.
Proof. induction 1 as [|s o H F IH]; intros l; cbn [fold_left]; [reflexivity|]. rewrite walk_other by exact H. apply IH. Qed.
Theorem C109_deck_species : forall pre blocks, Forall other pre -> Forall (fun b => Forall other (snd b)) blocks ->
  species_of (pre ++ flat_map sections_of blocks) =
  map (fun b => {| i_name := name_of (deck_get (fst (fst b)) (lit "name")); i_rqm := first_num (deck_get (fst (fst b)) (lit "rqm")); i_uth := first_num (deck_get (snd (fst b)) (lit "uth")) |}) blocks.
Proof.
  intros pre blocks Fp F. unfold species_of. rewrite fold_left_app, (walk_others pre Fp). clear Fp pre.
  match goal with |- _ = map ?h _ => set (g := h) end. change (map g blocks) with ([] ++ map g blocks). generalize (@nil ion) as acc.
  induction F as [|b bs H F IH]; intros acc; [cbn; now rewrite app_nil_r|]. cbn [flat_map]. rewrite fold_left_app.
  assert (E : fold_left walk (sections_of b) acc = acc ++ [g b]).
  { unfold sections_of. cbn [fold_left]. rewrite walk_others by exact H. unfold walk at 2. cbn [fst snd]. rewrite str_eqb_refl. unfold walk. cbn [fst snd].
    change (str_eqb (lit "udist") (lit "species")) with false. rewrite str_eqb_refl. cbn iota. unfold set_last_uth. rewrite rev_app_distr. cbn [rev app i_uth i_name i_rqm].
    rewrite rev_involutive. reflexivity. }
  rewrite E, IH. cbn [map]. now rewrite <- app_assoc.
Qed.
Print Assumptions C109_deck_species.
(** Parameters are found whatever their slice suffix. *)
Lemma before_paren_app k s : ~ In "("%char k -> before_paren (k ++ "("%char :: s) = k.
Proof. induction k as [|c k IH]; intros H; cbn; [reflexivity|]. destruct (aeqb c "("%char) eqn:E; [exfalso; apply H; left; now apply Ascii.eqb_eq in E|]. f_equal. apply IH. intros I. apply H. now right. Qed.
(** The overlay: one line for every species with rqm > 0 whose c_s is not zero, at c_s = sqrt(v_the^2/rqm + 3 u_th^2), where
    v_the is the thermal velocity of the first species with rqm < 0 that has one. *)
Lemma speeds_in ve : forall l i0 lab c, In (lab, c) (speeds_from ve i0 l) <->
  exists i s r, nth_error l i = Some s /\ i_rqm s = Some r /\ 0 < r /\ 0 < cs2 ve r (i_uth s) /\ c = sqrt (cs2 ve r (i_uth s)) /\ lab = match i_name s with Some n => Named n | None => Numbered (i0 + i) r end.
Proof.
  induction l as [|s l IH]; intros i0 lab c; cbn [speeds_from].
  - split; [intros []|]. intros (i & s & r & H & _). destruct i; discriminate.
  - rewrite in_app_iff, IH. split.
    + intros [H|(i & s' & r & H1 & H2 & H3 & H4 & H5 & H6)].
      * unfold speed_of in H. destruct (i_rqm s) as [r|] eqn:Er; [|destruct H]. destruct (Rle_dec r 0); [destruct H|]. destruct (Rlt_dec 0 _) as [P|]; [|destruct H].
        destruct H as [H|[]]. inversion H. exists 0%nat, s, r. rewrite Nat.add_0_r. repeat split; auto; lra.
      * exists (Datatypes.S i), s', r. replace (i0 + Datatypes.S i)%nat with (i0 + 1 + i)%nat by lia. auto 10.
    + intros ([|i] & s' & r & H1 & H2 & H3 & H4 & H5 & H6).
      * left. cbn in H1. inversion H1; subst s'. unfold speed_of. rewrite H2. destruct (Rle_dec r 0); [lra|]. destruct (Rlt_dec 0 _); [|contradiction]. left. subst. now rewrite Nat.add_0_r.
      * right. exists i, s', r. replace (i0 + 1 + i)%nat with (i0 + Datatypes.S i)%nat by lia. auto 10.
Qed.
Theorem C109_speeds : forall here parent lab c, In (lab, c) (acoustic_speeds here parent) <->
  exists d, (here = Some d \/ here = None /\ parent = Some d) /\ exists i s r, nth_error (species_of d) i = Some s /\ i_rqm s = Some r /\ 0 < r /\ 0 < c /\ c ^ 2 = match v_the (species_of d) with Some v => v ^ 2 / r | None => 0 end + 3 * or0 (i_uth s) ^ 2 /\ lab = match i_name s with Some n => Named n | None => Numbered (i + 1) r end.
Proof.
  intros here parent lab c. unfold acoustic_speeds.
  assert (K : forall d, In (lab, c) (speeds_from (v_the (species_of d)) 1 (species_of d)) <-> exists i s r, nth_error (species_of d) i = Some s /\ i_rqm s = Some r /\ 0 < r /\ 0 < c /\ c ^ 2 = match v_the (species_of d) with Some v => v ^ 2 / r | None => 0 end + 3 * or0 (i_uth s) ^ 2 /\ lab = match i_name s with Some n => Named n | None => Numbered (i + 1) r end).
  { intros d. rewrite speeds_in. split; intros (i & s & r & H1 & H2 & H3 & H4); exists i, s, r; (split; [exact H1|]); (split; [exact H2|]); (split; [exact H3|]).
    - destruct H4 as (P & -> & L). split; [now apply sqrt_lt_R0|]. split; [rewrite pow2_sqrt by lra; unfold cs2; ring|]. now rewrite Nat.add_comm.
    - destruct H4 as (P & E & L). assert (E' : cs2 (v_the (species_of d)) r (i_uth s) = c ^ 2) by (rewrite E; unfold cs2; ring).
      rewrite E'. split; [now apply pow_lt|]. split; [symmetry; apply sqrt_pow2; lra|]. now rewrite Nat.add_comm. }
  destruct here as [d|]; [|destruct parent as [d|]].
  - rewrite K. split; [intros H; exists d; auto|]. intros (d' & [E|[E _]] & H); [now inversion E|discriminate].
  - rewrite K. split; [intros H; exists d; auto|]. intros (d' & [E|[_ E]] & H); [discriminate|now inversion E].
  - split; [intros []|]. intros (d & [E|[_ E]] & _); discriminate.
Qed.
Print Assumptions C109_speeds.
(** In physical terms (masses in electron masses): c_s^2 = (Z T_e + 3 T_i)/m_i for m_i = Z rqm, T_e = v_the^2, T_i = m_i u_th^2. *)
Theorem C109_acoustic_formula : forall Z mi v u, 0 < Z -> 0 < mi -> cs2 (Some v) (mi / Z) (Some u) = (Z * v ^ 2 + 3 * (mi * u ^ 2)) / mi.
Proof. intros Z mi v u HZ Hm. unfold cs2. cbn [or0]. field. lra. Qed.
Print Assumptions C109_acoustic_formula.
Example acoustic_example : exists c, acoustic_speeds None (Some [(lit "grid", []); (lit "species", [(lit "rqm", DNum (-1))]); (lit "udist", [(lit "uth(1:3)", DList [6; 6; 6])]); (lit "species", [(lit "rqm", DNum 4)]); (lit "udist", [])]) = [(Numbered 2 4, c)] /\ c = 3.
Proof.
  eexists. unfold acoustic_speeds, species_of. cbn [fold_left]. unfold walk. cbn. unfold v_the. cbn. unfold is_electron. cbn.
  destruct (Rlt_dec (-1) 0); [|lra]. destruct (Req_EM_T 6 0); [lra|]. unfold speed_of. cbn. destruct (Rle_dec (-1) 0); [|lra]. destruct (Rle_dec 4 0); [lra|].
  unfold cs2. cbn. destruct (Rlt_dec 0 _); [|lra]. cbn. split; [reflexivity|]. replace (3 * (0 * (0 * 1)) + 6 * (6 * 1) / 4) with (3 * 3) by field. apply sqrt_square. lra.
Qed.
(** Refuted: the electron temperature comes from the first species with rqm < 0 (a cold one is passed over). *)
Theorem C109_electron_refuted : exists l s, find (fun s => match i_rqm s with Some r => if Rlt_dec r 0 then true else false | None => false end) l = Some s /\ i_uth s = Some 0 /\ v_the l = Some 1.
Proof.
  exists [{| i_name := None; i_rqm := Some (-1); i_uth := Some 0 |}; {| i_name := None; i_rqm := Some (-1); i_uth := Some 1 |}], {| i_name := None; i_rqm := Some (-1); i_uth := Some 0 |}.
  cbn. unfold v_the. cbn. unfold is_electron. cbn. destruct (Rlt_dec (-1) 0); [|lra]. destruct (Req_EM_T 0 0); [|lra]. destruct (Req_EM_T 1 0); [lra|]. auto.
Qed.
Print Assumptions C109_electron_refuted.
