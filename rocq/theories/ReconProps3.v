(** Property C108, continued: boxes away from the origin, the summary and the panels. *)
From Coq Require Import Reals Lra Lia ZArith List Bool Psatz.
From Verif Require Import Drivers DriversProps Density DensityProofs LpseBand PyStr Harm2d Vfp2d RSum Pic PicProofs Dft Recon ReconProps ReconProps2.
Import ListNotations.
Local Open Scope R_scope.

(** * A box away from the origin *)
Definition shift_x (c : R) (g : rgrid) : rgrid := {| r_nx := r_nx g; r_ny := r_ny g; r_x := fun i => r_x g i + c; r_y := r_y g |}.
(** Moving the box along x changes the quadrupole score of the same data: the mask is centred on x = 0, not on the centre of the box. *)
Theorem C108_shift_refuted : ~ (forall g f c, both_sides g = true -> reconnects g f -> purity (shift_x c g) f = purity g f).
Proof.
  intros H. specialize (H xg (xf 1) 10 xg_sides (xg_reconnects 1)). destruct xg_step as [S1 S2]. pose proof tiny_lt1 as T.
  assert (U : up_dist xg (xf 1) = 1). { unfold up_dist. rewrite xg_lo, xg_up. cbn [r_y xg]. rewrite i0, i2. rewrite (Rabs_left (0 - 1)), (Rabs_right (2 - 1)) by lra. unfold Rmin. destruct Rle_dec; lra. }
  assert (L : lo (shift_x 10 xg) (xf 1) = 0%nat) by (unfold lo; change (r_ny (shift_x 10 xg)) with 3%nat; change (r_y (shift_x 10 xg)) with (r_y xg); now rewrite xg_lower).
  assert (P : up (shift_x 10 xg) (xf 1) = 2%nat) by (unfold up; change (r_ny (shift_x 10 xg)) with 3%nat; change (r_y (shift_x 10 xg)) with (r_y xg); now rewrite xg_upper).
  assert (U' : up_dist (shift_x 10 xg) (xf 1) = 1). { unfold up_dist. rewrite L, P. rewrite <- U. unfold up_dist. rewrite xg_lo, xg_up. reflexivity. }
  assert (D' : r_dx (shift_x 10 xg) = 1). { unfold r_dx, mean_step. cbn [r_nx r_x shift_x xg Nat.sub rsum]. rewrite i0, i1, i2. field. }
  assert (C0 : central (shift_x 10 xg) (xf 1) = []).
  { unfold central, x_half. rewrite U', D'. rewrite (Rmax_left (2 * 1)) by lra. destruct (filter _ (cells (shift_x 10 xg))) as [|[x y] l] eqn:E; [reflexivity|]. exfalso.
    assert (I : In (x, y) ((x, y) :: l)) by now left. rewrite <- E in I. apply filter_In in I as [_ I]. apply andb_prop in I as [I _]. apply rle_iff in I. cbn [fst shift_x r_x xg] in I. pose proof (pos_INR x). rewrite Rabs_right in I by lra. lra. }
  assert (Q' : purity (shift_x 10 xg) (xf 1) = 0). { unfold purity, local_l1. rewrite C0. cbn. destruct Rlt_dec as [W|]; [pose proof tiny_pos; lra|reflexivity]. }
  assert (C1 : central xg (xf 1) = cells xg).
  { unfold central, x_half. rewrite U, S1. rewrite (Rmax_left (2 * 1)) by lra. assert (K : forall i, (i < 3)%nat -> -1 <= INR i - 1 <= 1) by (intros i Hi; destruct i as [|[|[|]]]; try lia; rewrite ?i0, ?i1, ?i2; lra).
    assert (F : forall (l : list (nat * nat)) p, (forall a, In a l -> p a = true) -> filter p l = l) by (induction l as [|a l IH]; intros p Hp; cbn; [reflexivity|]; rewrite (Hp a (or_introl eq_refl)), IH; auto; intros; apply Hp; now right).
    apply F. intros [x y] I. apply cells_in in I as [Hx Hy]. cbn [r_nx r_ny xg] in Hx, Hy. apply andb_true_intro. cbn [fst snd r_x r_y xg]. split; apply rle_iff; [pose proof (K x Hx)|pose proof (K y Hy)]; unfold Rabs; destruct Rcase_abs; lra. }
  assert (SS : signed_sum xg (xf 1) = 4).
  { unfold signed_sum. rewrite C1. unfold cells, bz_at. cbn [r_nx r_ny r_x r_y xg xf f_bz seq list_prod map app fst snd lsum fold_right]. rewrite i0, i1, i2.
    replace ((0 - 1) * (0 - 1)) with 1 by ring. replace ((0 - 1) * (1 - 1)) with 0 by ring. replace ((0 - 1) * (2 - 1)) with (-1) by ring. replace ((1 - 1) * (0 - 1)) with 0 by ring. replace ((1 - 1) * (1 - 1)) with 0 by ring. replace ((1 - 1) * (2 - 1)) with 0 by ring.
    replace ((2 - 1) * (0 - 1)) with (-1) by ring. replace ((2 - 1) * (1 - 1)) with 0 by ring. replace ((2 - 1) * (2 - 1)) with 1 by ring. unfold sgn.
    destruct (Rlt_dec 1 0); [lra|]. destruct (Rlt_dec 0 1); [|lra]. destruct (Rlt_dec (-1) 0); [|lra]. ring. }
  rewrite Q' in H. unfold purity in H. pose proof (signed_le xg (xf 1)) as G. rewrite SS, Rabs_right in G by lra. destruct Rlt_dec as [W|W]; [|lra]. rewrite SS, Rabs_right in H by lra.
  assert (0 < 4 / local_l1 xg (xf 1)) by (apply Rdiv_lt_0_compat; lra). lra.
Qed.
Print Assumptions C108_shift_refuted.

(** * The summary *)
Lemma finite_in l r : In r (finite l) <-> In (Some r) l.
Proof. unfold finite. rewrite in_flat_map. split; [intros ([q|] & A & B); cbn in B; [destruct B as [<-|[]]; exact A|destruct B]|]. intros H. exists (Some r). split; [exact H|now left]. Qed.
Lemma peak_abs_spec l : (forall r, In (Some r) l -> Rabs r <= peak_abs l) /\ (0 < peak_abs l -> exists r, In (Some r) l /\ Rabs r = peak_abs l) /\ 0 <= peak_abs l.
Proof.
  unfold peak_abs. split; [|split].
  - intros r H. apply rmax0_in, in_map, finite_in, H.
  - intros H. apply rmax0_att, in_map_iff in H as (r & E & I). exists r. split; [now apply finite_in|exact E].
  - apply rmax0_ge0.
Qed.
Lemma last_map {A B} (f : A -> B) l a b : l <> [] -> last (map f l) b = f (last l a).
Proof. induction l as [|x l IH]; intros H; [congruence|]. destruct l as [|y l]; [reflexivity|]. change (last (map f (x :: y :: l)) b) with (last (map f (y :: l)) b). rewrite IH by discriminate. reflexivity. Qed.
Lemma filter_len {A} (p : A -> bool) l : length (filter (fun b : bool => b) (map p l)) = length (filter p l).
Proof. induction l as [|a l IH]; cbn; [reflexivity|]. destruct (p a); cbn; now rewrite IH. Qed.
Lemma filter_len_le {A} (p : A -> bool) l : (length (filter p l) <= length l)%nat /\ (length (filter p l) = length l <-> forall a, In a l -> p a = true).
Proof.
  induction l as [|a l [IH1 IH2]]; cbn; [split; [lia|split; [intros _ _ []|reflexivity]]|]. destruct (p a) eqn:E; cbn; (split; [lia|]).
  - split; [intros H b [<-|Hb]; [exact E|apply IH2; [lia|exact Hb]]|]. intros H. f_equal. apply IH2. intros; apply H. now right.
  - split; [lia|]. intros H. rewrite (H a (or_introl eq_refl)) in E. discriminate.
Qed.
(** The peak rate and flux bound every reported value and are attained, the final ones are those of the last frame or 0 when it reports
    none, the fraction counts the frames that are reconnection and is 1 exactly when all are. *)
Theorem C108_summary : forall g run s d, (0 < r_nx g)%nat -> run <> [] -> diagnostics g run = Some s ->
  let m := metrics s in let z := last run d in
  (forall f r, In f run -> rate g run f = Some r -> Rabs r <= m_peak_rate m) /\ (0 < m_peak_rate m -> exists f r, In f run /\ rate g run f = Some r /\ Rabs r = m_peak_rate m) /\ 0 <= m_peak_rate m /\
  (forall f q, In f run -> flux g f = Some q -> Rabs q <= m_peak_flux m) /\ (0 < m_peak_flux m -> exists f q, In f run /\ flux g f = Some q /\ Rabs q = m_peak_flux m) /\ 0 <= m_peak_flux m /\
  m_final_rate m = match rate g run z with Some r => r | None => 0 end /\ m_final_flux m = match flux g z with Some q => q | None => 0 end /\
  (m_final_valid m = 1 <-> reconnects g z) /\ 0 <= m_valid_fraction m <= 1 /\ (m_valid_fraction m = 1 <-> forall f, In f run -> reconnects g f) /\
  (m_valid_fraction m = 0 <-> forall f, In f run -> ~ reconnects g f).
Proof.
  intros g run s d Hn HR HD m z. unfold diagnostics in HD. destruct (both_sides g) eqn:HB; [|discriminate]. injection HD as <-. pose proof (fun f => C108_gate g f Hn HB) as GA.
  set (D := fun f => (valid g f, rate_valid g run f, rate g run f, flux g f)) in *. unfold metrics in m.
  assert (IR : forall r, In (Some r) (map (fun q => snd (fst q)) (map D run)) <-> exists f, In f run /\ rate g run f = Some r).
  { intros r. rewrite map_map, in_map_iff. cbn. split; intros (f & A & B); exists f; auto. }
  assert (IQ : forall r, In (Some r) (map snd (map D run)) <-> exists f, In f run /\ flux g f = Some r).
  { intros r. rewrite map_map, in_map_iff. cbn. split; intros (f & A & B); exists f; auto. }
  destruct (peak_abs_spec (map (fun q => snd (fst q)) (map D run))) as (P1 & P2 & P3). destruct (peak_abs_spec (map snd (map D run))) as (Q1 & Q2 & Q3).
  split; [intros f r Hf E; apply P1, IR; eauto|]. split. { intros H. destruct (P2 H) as (r & I & E). apply IR in I as (f & I & F). exists f, r. auto. } split; [exact P3|].
  split; [intros f r Hf E; apply Q1, IQ; eauto|]. split. { intros H. destruct (Q2 H) as (r & I & E). apply IQ in I as (f & I & F). exists f, r. auto. } split; [exact Q3|].
  assert (NE : map D run <> []) by (intros E; apply map_eq_nil in E; auto).
  split. { unfold m. cbn [m_final_rate]. rewrite (last_map _ _ (D d)), (last_map _ _ d) by auto. reflexivity. }
  split. { unfold m. cbn [m_final_flux]. rewrite (last_map _ _ (D d)), (last_map _ _ d) by auto. reflexivity. }
  split. { unfold m. cbn [m_final_valid]. rewrite (last_map _ _ (D d)), (last_map _ _ d) by auto. unfold D. cbn [fst]. fold z. rewrite <- GA. destruct (valid g z); cbn; split; intros; auto; try discriminate; lra. }
  assert (FR : m_valid_fraction m = INR (length (filter (valid g) run)) / INR (length run)).
  { unfold m. cbn [m_valid_fraction]. unfold fraction. rewrite map_map. cbn. now rewrite filter_len, map_length. }
  assert (LP : (0 < length run)%nat) by (destruct run; [congruence|cbn; lia]). pose proof (lt_0_INR _ LP) as LR. destruct (filter_len_le (valid g) run) as [F1 F2].
  rewrite FR. split. { apply ratio01; [|exact LR]. split; [apply pos_INR|now apply le_INR]. }
  split.
  - split.
    + intros E f Hf. apply GA. apply F2; [|exact Hf]. apply INR_eq. apply (Rmult_eq_compat_r (INR (length run))) in E. unfold Rdiv in E. rewrite Rmult_assoc, Rinv_l in E by lra. lra.
    + intros H. assert (E : length (filter (valid g) run) = length run) by (apply F2; intros; now apply GA, H). rewrite E. field. lra.
  - split.
    + intros E f Hf RC. apply GA in RC. assert (I : In f (filter (valid g) run)) by now apply filter_In. assert (L : (0 < length (filter (valid g) run))%nat) by (destruct (filter (valid g) run); [destruct I|cbn; lia]).
      apply lt_0_INR in L. assert (0 < INR (length (filter (valid g) run)) / INR (length run)) by (apply Rdiv_lt_0_compat; auto). lra.
    + intros H. assert (E : filter (valid g) run = []). { destruct (filter (valid g) run) as [|f l] eqn:E; [reflexivity|]. assert (I : In f (filter (valid g) run)) by (rewrite E; now left). apply filter_In in I as [I1 I2]. exfalso. apply (H f I1). now apply GA. }
      rewrite E. cbn. unfold Rdiv. ring.
Qed.
Print Assumptions C108_summary.
Example C108_summary_nonvacuous : exists s, diagnostics xg [xf 1; xf 20] = Some s /\ m_valid_fraction (metrics s) = 1 /\ m_final_valid (metrics s) = 1.
Proof.
  destruct (diagnostics xg [xf 1; xf 20]) as [s|] eqn:E; [|unfold diagnostics in E; rewrite xg_sides in E; discriminate]. exists s. split; [reflexivity|].
  destruct (C108_summary xg [xf 1; xf 20] s (xf 1) ltac:(cbn; lia) ltac:(discriminate) E) as (_ & _ & _ & _ & _ & _ & _ & _ & A & _ & B & _). split; [apply B|apply A]; [intros f [<-|[<-|[]]]|]; apply xg_reconnects.
Qed.

(** * The panels *)
Lemma panel_lt nt m i j : (m <= nt)%nat -> (i < j < m)%nat -> (panel nt m i < panel nt m j)%Z.
Proof.
  intros Hm Hij. unfold panel. destruct (Nat.eqb_spec m 1); [lia|]. destruct (Nat.eq_dec m nt) as [->|NE].
  - assert (E : forall k, INR k * panel_step nt nt = IZR (Z.of_nat k)). { intros k. unfold panel_step. rewrite <- INR_IZR_INZ. field. apply not_0_INR. lia. } rewrite !E, !round_int. lia.
  - assert (S1 : 1 < panel_step nt m). { unfold panel_step. assert (0 < INR (m - 1)) by (apply lt_0_INR; lia). apply (Rmult_lt_reg_r (INR (m - 1))); [auto|]. unfold Rdiv. rewrite Rmult_assoc, Rinv_l, Rmult_1_r, Rmult_1_l by lra. apply lt_INR. lia. }
    set (x := INR i * panel_step nt m). set (y := INR j * panel_step nt m). assert (XY : x + 1 < y). { unfold x, y. assert (INR i + 1 <= INR j) by (rewrite <- S_INR; apply le_INR; lia). nra. }
    pose proof (round_spec x) as RX. pose proof (round_spec y) as RY. apply lt_IZR. revert RX RY. unfold Rabs. repeat destruct Rcase_abs; intros; lra.
Qed.
Lemma nodup_map_in {A B} (f : A -> B) l : (forall i j, In i l -> In j l -> f i = f j -> i = j) -> NoDup l -> NoDup (map f l).
Proof.
  induction l as [|a l IH]; intros H ND; cbn; [constructor|]. inversion ND as [|? ? NI ND']; subst. constructor; [|apply IH; auto; intros; apply H; auto; now right].
  intros I. apply in_map_iff in I as (b & E & I). rewrite (H b a) in I; auto; [now right|now left].
Qed.
(** The panels are min(nt, n) different saved frames in order of time, the first the first frame and, for two or more, the last the last. *)
Theorem C108_panels : forall nt n, (0 < nt)%nat -> (0 < n)%nat ->
  length (panels nt n) = Nat.min nt n /\ (forall i j, (i < j < Nat.min nt n)%nat -> (nth i (panels nt n) 0 < nth j (panels nt n) 0)%Z) /\
  (forall z, In z (panels nt n) -> (0 <= z < Z.of_nat nt)%Z) /\ nth 0 (panels nt n) 0%Z = 0%Z /\
  ((2 <= Nat.min nt n)%nat -> nth (Nat.min nt n - 1) (panels nt n) 0%Z = Z.of_nat (nt - 1)).
Proof.
  intros nt n Ht Hn. set (m := Nat.min nt n). assert (Hm : (1 <= m <= nt)%nat) by lia.
  assert (E : panels nt n = map (panel nt m) (seq 0 m)).
  { unfold panels. fold m. cbv zeta. apply nodup_fixed_point. apply nodup_map_in; [|apply seq_NoDup]. intros i j Hi Hj Q. apply in_seq in Hi, Hj.
    destruct (Nat.lt_trichotomy i j) as [L|[L|L]]; auto; exfalso; [pose proof (panel_lt nt m i j)|pose proof (panel_lt nt m j i)]; lia. }
  assert (NT : forall i, (i < m)%nat -> nth i (panels nt n) 0%Z = panel nt m i).
  { intros i Hi. rewrite E. rewrite (nth_indep _ 0%Z (panel nt m 0)) by (rewrite map_length, seq_length; lia). rewrite map_nth, seq_nth by lia. reflexivity. }
  assert (P0 : panel nt m 0 = 0%Z). { unfold panel. destruct (m =? 1)%nat; [reflexivity|]. change (INR 0) with (IZR 0). rewrite Rmult_0_l. apply round_int. }
  assert (PL : (2 <= m)%nat -> panel nt m (m - 1) = Z.of_nat (nt - 1)).
  { intros H2. unfold panel. destruct (Nat.eqb_spec m 1); [lia|]. replace (INR (m - 1) * panel_step nt m) with (IZR (Z.of_nat (nt - 1))); [apply round_int|]. rewrite <- INR_IZR_INZ. unfold panel_step. field. apply not_0_INR. lia. }
  split; [now rewrite E, map_length, seq_length|]. split; [intros i j Hij; rewrite !NT by lia; apply panel_lt; lia|]. split; [|split; [rewrite NT by lia; exact P0|intros H2; rewrite NT by lia; now apply PL]].
  intros z Hz. rewrite E in Hz. apply in_map_iff in Hz as (i & <- & Hi). apply in_seq in Hi. destruct (Nat.eq_dec i 0) as [->|N0]; [rewrite P0; lia|]. pose proof (panel_lt nt m 0 i ltac:(lia) ltac:(lia)) as L. rewrite P0 in L.
  destruct (Nat.eq_dec i (m - 1)) as [->|N1]; [rewrite PL by lia; lia|]. pose proof (panel_lt nt m i (m - 1) ltac:(lia) ltac:(lia)) as L'. rewrite PL in L' by lia. lia.
Qed.
Print Assumptions C108_panels.
Example C108_panels_nonvacuous : length (panels 20 9) = 9%nat /\ nth 8 (panels 20 9) 0%Z = 19%Z.
Proof. destruct (C108_panels 20 9 ltac:(lia) ltac:(lia)) as (A & _ & _ & _ & B). split; [exact A|]. exact (B ltac:(cbn; lia)). Qed.
