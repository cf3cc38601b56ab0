(** C97: the light and the passage of time in an LPSE-2D run. *)
From Verif Require Export Lpse LpseProps LpseTpd.
From Verif Require Import Pic RSum Dft.
Local Open Scope R_scope.

Lemma run_snoc c d n : forall t y, split_run c d (Datatypes.S n) t y = match split_run c d n t y with Some y1 => split_step c d (t + INR n * e_dt c) y1 | None => None end.
Proof.
  induction n as [|n IH]; intros t y.
  - cbn [split_run]. change (INR 0) with 0. rewrite Rmult_0_l, Rplus_0_r. destruct (split_step c d t y); reflexivity.
  - cbn [split_run]. destruct (split_step c d t y) as [y1|] eqn:E; [|reflexivity]. specialize (IH (t + e_dt c) y1). cbn [split_run] in IH. rewrite IH.
    replace (t + e_dt c + INR n * e_dt c) with (t + INR (Datatypes.S n) * e_dt c) by (rewrite S_INR; ring). reflexivity.
Qed.
(** After n + 1 steps from t the laser field of the state is the envelope times the light, both at t + n dt, polarised in y; the
    plasma wave has taken its last step from that time with exactly that field, whatever the laser field the run started with. *)
Theorem C97_light : forall c d co li n t y y', s_light d = Some (co, li) -> split_run c d (Datatypes.S n) t y = Some y' ->
  (forall a b, l_E0x y' a b = c0 /\ l_E0y y' a b = cscal (co (t + INR n * e_dt c)) (li (t + INR n * e_dt c) a b)) /\
  exists y1, split_run c d n t y = Some y1 /\ l_epw y' = epw_step c (t + INR n * e_dt c) (l_E0y y') (l_epw y1).
Proof.
  intros c d co li n t y y' L R. rewrite run_snoc in R. destruct (split_run c d n t y) as [y1|]; [|discriminate]. unfold split_step in R. rewrite L in R. destruct (s_E2 d); [discriminate|]. injection R as <-. cbn [l_E0x l_E0y l_epw].
  split; [split; reflexivity|]. exists y1. split; reflexivity.
Qed.
Print Assumptions C97_light.
(** The start of the run does not matter to the light: two runs with one light have the same laser field after any step. *)
Theorem C97_light_memoryless : forall c d co li n t y z y' z', s_light d = Some (co, li) -> split_run c d (Datatypes.S n) t y = Some y' -> split_run c d (Datatypes.S n) t z = Some z' ->
  forall a b, l_E0x y' a b = l_E0x z' a b /\ l_E0y y' a b = l_E0y z' a b.
Proof. intros c d co li n t y z y' z' L Y Z a b. destruct (C97_light _ _ _ _ _ _ _ _ L Y) as [P _]. destruct (C97_light _ _ _ _ _ _ _ _ L Z) as [Q _]. destruct (P a b) as [-> ->]. destruct (Q a b) as [-> ->]. auto. Qed.
Print Assumptions C97_light_memoryless.
(** Without a light driver the laser field stays as it was; the scattered field is damped by the boundary, n times. *)
Theorem C97_light_off : forall c d n t y y', split_run c d n t y = Some y' ->
  (s_light d = None -> forall a b, l_E0x y' a b = l_E0x y a b /\ l_E0y y' a b = l_E0y y a b) /\
  forall a b, l_E1x y' a b = cscal (e_bound c a b ^ n) (l_E1x y a b) /\ l_E1y y' a b = cscal (e_bound c a b ^ n) (l_E1y y a b).
Proof.
  intros c d n. induction n as [|n IH]; intros t y y' R.
  - cbn [split_run] in R. injection R as <-. split; [auto|]. intros a b. cbn [pow]. unfold cscal. rewrite !Rmult_1_l. now destruct (l_E1x y a b), (l_E1y y a b).
  - cbn [split_run] in R. destruct (split_step c d t y) as [y1|] eqn:E; [|discriminate]. destruct (IH _ _ _ R) as [A B]. unfold split_step in E. destruct (s_E2 d); [discriminate|]. injection E as <-. cbn [l_E0x l_E0y l_E1x l_E1y] in A, B. split.
    + intros L. rewrite L in A. apply A. reflexivity.
    + intros a b. destruct (B a b) as [-> ->]. cbn [pow]. unfold cscal. cbn [fst snd]. split; f_equal; ring.
Qed.
Print Assumptions C97_light_off.
Example light_example : exists y', split_run (box true true) {| s_light := Some (fun t => t, fun _ => pump); s_E2 := false |} 8 0 (lpse_init (fun _ _ => c1)) = Some y' /\ l_E0y y' 0%nat 0%nat = cscal (7 / 100) (pump 0%nat 0%nat).
Proof.
  destruct (run_total (box true true) {| s_light := Some (fun t => t, fun _ => pump); s_E2 := false |} 8 0 (lpse_init (fun _ _ => c1)) eq_refl) as [y' E]. exists y'. split; [exact E|].
  destruct (C97_light (box true true) {| s_light := Some (fun t => t, fun _ => pump); s_E2 := false |} (fun t => t) (fun _ => pump) 7 0 _ _ eq_refl E) as [P _]. destruct (P 0%nat 0%nat) as [_ ->]. f_equal. cbn. field.
Qed.
