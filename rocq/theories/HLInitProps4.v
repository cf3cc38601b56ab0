(** Time axes, validation, driver and post-processing of the Hermite-Legendre solver. *)
From Coq Require Import Reals Lra Lia ZArith List Bool Psatz.
From Verif Require Import HermitePoisson HPProps HPForceProps HPStepProps Legendre HermLeg HLBasis HermLegProps HLColl HLStep HLStepProps HLStepProps2 HLInit HLInitProps HLInitProps2 HLInitProps3 Drivers VGrid PyStr PicProofs RSum Pic PicFourier Dft.
Import ListNotations.
Local Open Scope R_scope.

(* ------------------------------------------------------------------------------------------------ *)
(** * Times *)
Lemma round_int z : round_half_even (IZR z) = z.
Proof.
  pose proof (round_spec (IZR z)) as H. rewrite <- minus_IZR in H. rewrite <- abs_IZR in H.
  destruct (Z.eq_dec (z - round_half_even (IZR z)) 0); [lia|]. assert (1 <= IZR (Z.abs (z - round_half_even (IZR z)))) by (apply IZR_le; lia). lra.
Qed.
(** nt is the number of steps nearest to tmax / dt; the final time moves by at most half a step to nt dt, the solver may take
    nt + 4 steps, reading the resulting configuration again changes nothing, and the automatic scalar save has nt + 1 entries, one per
    step: the i-th at i dt. *)
Theorem C96_times : forall tmax dt, 0 < dflt dt (1 / 100) -> 0 <= tmax -> let t := hl_times tmax dt in
  (0 <= tm_nt t)%Z /\ tm_tmax t = IZR (tm_nt t) * tm_dt t /\ Rabs (tm_tmax t - tmax) <= tm_dt t / 2 /\ tm_max_steps t = (tm_nt t + 4)%Z /\
  hl_times (tm_tmax t) (Some (tm_dt t)) = t /\
  default_points t None = S (Z.to_nat (tm_nt t)) /\ (forall i, (i <= Z.to_nat (tm_nt t))%nat -> default_axis t None i = INR i * tm_dt t).
Proof.
  intros tmax dt Hd Ht t. set (d := dflt dt (1 / 100)) in *. assert (ED : tm_dt t = d) by reflexivity.
  pose proof (round_spec (tmax / d)) as RS. change (round_half_even (tmax / d)) with (tm_nt t) in RS.
  assert (Q : 0 <= tmax / d) by (apply Rmult_le_pos; [exact Ht|left; apply Rinv_0_lt_compat; exact Hd]).
  assert (N0 : (0 <= tm_nt t)%Z). { apply Rabs_def2b in RS || idtac. destruct (Z_lt_le_dec (tm_nt t) 0) as [L|L]; [|exact L]. exfalso. assert (IZR (tm_nt t) <= -1) by (apply IZR_le; lia). unfold Rabs in RS. destruct (Rcase_abs _) in RS; lra. }
  split; [exact N0|]. split; [unfold t, hl_times; cbn; fold d; ring|]. split.
  { rewrite ED. replace (tm_tmax t - tmax) with (- (d * (tmax / d - IZR (tm_nt t)))) by (unfold t, hl_times; cbn; fold d; field; lra). rewrite Rabs_Ropp, Rabs_mult, (Rabs_right d) by lra.
    apply Rle_trans with (d * (1 / 2)); [apply Rmult_le_compat_l; lra|lra]. }
  split; [reflexivity|]. split.
  { unfold hl_times at 1. cbv zeta. cbn [dflt]. rewrite ED. replace (tm_tmax t / d) with (IZR (tm_nt t)) by (unfold t, hl_times; cbn; fold d; field; lra). rewrite round_int. reflexivity. }
  split; [unfold default_points; lia|]. intros i Hi. unfold default_axis, linspace. rewrite ED. destruct (Nat.leb_spec (Z.to_nat (tm_nt t) + 1) 1) as [L|L].
  - assert (i = 0%nat) by lia. subst i. change (INR 0) with 0. ring.
  - replace (Z.to_nat (tm_nt t) + 1 - 1)%nat with (Z.to_nat (tm_nt t)) by lia. assert (E : INR (Z.to_nat (tm_nt t)) = IZR (tm_nt t)) by (rewrite INR_IZR_INZ, Z2Nat.id by exact N0; reflexivity). rewrite E.
    assert (IZR (tm_nt t) <> 0) by (apply not_0_IZR; lia). change (tm_tmax t) with (d * IZR (tm_nt t)). field. assumption.
Qed.
Print Assumptions C96_times.
(** A save block without its own nt gets nt points, not nt + 1: with at least three steps its spacing is not a multiple of dt, so it
    asks for times between steps; so does a "default" block that has a "t" entry. *)
Theorem C96_block_axis_refuted : forall tmax dt, 0 < dflt dt (1 / 100) -> (3 <= tm_nt (hl_times tmax dt))%Z -> let t := hl_times tmax dt in
  let s := {| s_tmin := None; s_tmax := None; s_nt := None |} in
  (1 < block_points t s)%nat /\ (forall k : Z, block_axis t s 1 <> IZR k * tm_dt t) /\ default_axis t (Some s) 1 = block_axis t s 1 /\ block_axis t s (block_points t s - 1) = tm_tmax t.
Proof.
  intros tmax dt Hd Hn t s. fold t in Hn. unfold default_axis, block_points, block_axis. cbn [s s_tmin s_tmax s_nt dflt].
  set (d := dflt dt (1 / 100)) in *. change (tm_tmax t) with (d * IZR (tm_nt t)). change (tm_dt t) with d. set (n := tm_nt t) in *.
  assert (P : (1 < Z.to_nat n)%nat) by lia. assert (E : INR (Z.to_nat n - 1) = IZR n - 1) by (rewrite minus_INR by lia; rewrite INR_IZR_INZ, Z2Nat.id by lia; reflexivity).
  assert (3 <= IZR n) by (apply IZR_le; exact Hn). repeat split; auto.
  - intros k Hk. unfold linspace in Hk. rewrite (proj2 (Nat.leb_gt _ 1) P) in Hk. rewrite E in Hk. change (INR 1) with 1 in Hk.
    assert (Q : IZR n = IZR (k * (n - 1))). { rewrite mult_IZR, minus_IZR. apply (Rmult_eq_reg_l (d / (IZR n - 1))). - transitivity (0 + (d * IZR n - 0) * 1 / (IZR n - 1)); [field; lra|]. rewrite Hk. field. lra. - apply Rgt_not_eq. apply Rdiv_lt_0_compat; lra. }
    apply eq_IZR in Q. assert (k <= 0 \/ k = 1 \/ 2 <= k)%Z as [K|[K|K]] by lia; nia.
  - unfold linspace. rewrite (proj2 (Nat.leb_gt _ 1) P). rewrite E. field. lra.
Qed.
Print Assumptions C96_block_axis_refuted.

(* ------------------------------------------------------------------------------------------------ *)
(** * Validation *)
(** A configuration is accepted exactly when the integrator and the collision model are known (whatever their case, "_" read as
    "-"), split has at least three modes in both bases, there is at least one field iteration and nu is not negative; the accepted set-up
    has the requested integrator, and a collision operator exactly when the model is bgk or dougherty and nu is positive. *)
Lemma integ_spec o : let l := PyStr.lower (dflt o (lit "lawson")) in
  match parse_integ o with Some Lawson => l = lit "lawson" | Some Imex => l = lit "imex" | Some Split => l = lit "split" | None => ~ In l [lit "lawson"; lit "imex"; lit "split"] end.
Proof.
  intros l. unfold parse_integ. fold l. destruct (str_eqb l (lit "lawson")) eqn:E1; [now apply str_eqb_eq|]. destruct (str_eqb l (lit "imex")) eqn:E2; [now apply str_eqb_eq|].
  destruct (str_eqb l (lit "split")) eqn:E3; [now apply str_eqb_eq|]. intros [H|[H|[H|[]]]]; rewrite <- H in *; rewrite str_eqb_refl in *; discriminate.
Qed.
Lemma coll_spec o : let l := map dash (PyStr.lower (dflt o (lit "none"))) in
  match parse_coll o with Some NoColl => l = lit "none" \/ l = lit "off" | Some BGK => l = lit "bgk" | Some Dougherty => l = lit "dougherty" | None => ~ In l [lit "none"; lit "off"; lit "bgk"; lit "dougherty"] end.
Proof.
  intros l. unfold parse_coll. fold l. destruct (str_eqb l (lit "none")) eqn:E1; [left; now apply str_eqb_eq|]. destruct (str_eqb l (lit "off")) eqn:E2; [right; now apply str_eqb_eq|]. cbn [orb].
  destruct (str_eqb l (lit "bgk")) eqn:E3; [now apply str_eqb_eq|]. destruct (str_eqb l (lit "dougherty")) eqn:E4; [now apply str_eqb_eq|]. intros [H|[H|[H|[H|[]]]]]; rewrite <- H in *; rewrite str_eqb_refl in *; discriminate.
Qed.
Theorem C96_setup : forall c, let gi := PyStr.lower (dflt (c_integ c) (lit "lawson")) in let cm := map dash (PyStr.lower (dflt (c_coll c) (lit "none"))) in
  ((exists u, hl_setup c = Some u) <->
   In gi [lit "lawson"; lit "imex"; lit "split"] /\ (gi = lit "split" -> (3 <= c_Nh c /\ 3 <= c_Nl c)%Z) /\ (1 <= dflt (c_iters c) 1)%Z /\
   In cm [lit "none"; lit "off"; lit "bgk"; lit "dougherty"] /\ 0 <= dflt (c_nu c) 0) /\
  forall u, hl_setup c = Some u ->
   (u_integ u = Lawson <-> gi = lit "lawson") /\ (u_integ u = Imex <-> gi = lit "imex") /\ (u_integ u = Split <-> gi = lit "split") /\ u_iters u = dflt (c_iters c) 1%Z /\
   (u_coll u = BGK <-> cm = lit "bgk" /\ 0 < dflt (c_nu c) 0) /\ (u_coll u = Dougherty <-> cm = lit "dougherty" /\ 0 < dflt (c_nu c) 0) /\
   (u_driver u = true <-> c_driver c <> []).
Proof.
  intros c gi cm. pose proof (integ_spec (c_integ c)) as IS. pose proof (coll_spec (c_coll c)) as CS. cbv zeta in IS, CS. fold gi in IS. fold cm in CS.
  unfold hl_setup. destruct (parse_integ (c_integ c)) as [g|].
  2:{ split; [split; [intros (u & H); discriminate|intros (H & _); contradiction]|intros u H; discriminate]. }
  assert (GIN : In gi [lit "lawson"; lit "imex"; lit "split"]) by (destruct g; rewrite IS; cbn; auto).
  assert (GS : (match g with Split => (c_Nh c <? 3) || (c_Nl c <? 3) | _ => false end)%Z%bool = true <-> ~ (gi = lit "split" -> (3 <= c_Nh c /\ 3 <= c_Nl c)%Z)).
  { destruct g; rewrite IS; [split; [discriminate|intros H; exfalso; apply H; discriminate]|split; [discriminate|intros H; exfalso; apply H; discriminate]|].
    destruct (Z.ltb_spec (c_Nh c) 3); destruct (Z.ltb_spec (c_Nl c) 3); cbn [orb]; split; try (intros _ H1; specialize (H1 eq_refl); lia); try reflexivity; intros H1; try discriminate; exfalso; apply H1; lia. }
  destruct ((match g with Split => (c_Nh c <? 3) || (c_Nl c <? 3) | _ => false end)%Z%bool) eqn:GE.
  { split; [split; [intros (u & H); discriminate|intros (_ & H & _); exfalso; apply (proj1 GS eq_refl H)]|intros u H; discriminate]. }
  assert (GO : gi = lit "split" -> (3 <= c_Nh c /\ 3 <= c_Nl c)%Z).
  { intros Hs. destruct (Z_lt_le_dec (c_Nh c) 3) as [L|L]; [|destruct (Z_lt_le_dec (c_Nl c) 3) as [L'|L']; [|lia]]; exfalso; assert (X : false = true) by (apply GS; intros Y; specialize (Y Hs); lia); discriminate. }
  cbv zeta. destruct (Z.ltb_spec (dflt (c_iters c) 1%Z) 1) as [L|L].
  { split; [split; [intros (u & H); discriminate|intros (_ & _ & H & _); lia]|intros u H; discriminate]. }
  destruct (parse_coll (c_coll c)) as [m|].
  2:{ split; [split; [intros (u & H); discriminate|intros (_ & _ & _ & H & _); contradiction]|intros u H; discriminate]. }
  assert (CIN : In cm [lit "none"; lit "off"; lit "bgk"; lit "dougherty"]) by (destruct m; [destruct CS as [->| ->]|rewrite CS|rewrite CS]; cbn; auto).
  destruct (Rlt_dec (dflt (c_nu c) 0) 0) as [N|N].
  { split; [split; [intros (u & H); discriminate|intros (_ & _ & _ & _ & H); lra]|intros u H; discriminate]. }
  split.
  - split; [intros _|intros _; eexists; reflexivity]. split; [exact GIN|]. split; [exact GO|]. split; [exact L|]. split; [exact CIN|lra].
  - intros u H. injection H as <-. cbn [u_integ u_iters u_coll u_driver].
    assert (ST : forall a b : str, str_eqb a b = false -> a <> b) by (intros a b Hf ->; rewrite str_eqb_refl in Hf; discriminate).
    split; [|split; [|split; [|split; [reflexivity|split; [|split]]]]].
    + destruct g; rewrite IS; split; intros H; (reflexivity || discriminate).
    + destruct g; rewrite IS; split; intros H; (reflexivity || discriminate).
    + destruct g; rewrite IS; split; intros H; (reflexivity || discriminate).
    + destruct (Rlt_dec 0 (dflt (c_nu c) 0)); [|split; [discriminate|intros [_ H]; lra]]. destruct m; [|split; [intros _; auto|reflexivity]|]; (split; [discriminate|]; intros [H _]).
      * destruct CS as [C1|C1]; rewrite C1 in H; discriminate. * rewrite CS in H. discriminate.
    + destruct (Rlt_dec 0 (dflt (c_nu c) 0)); [|split; [discriminate|intros [_ H]; lra]]. destruct m; [| |split; [intros _; auto|reflexivity]]; (split; [discriminate|]; intros [H _]).
      * destruct CS as [C1|C1]; rewrite C1 in H; discriminate. * rewrite CS in H. discriminate.
    + destruct (c_driver c); split; intros H; try discriminate; try reflexivity. exfalso; apply H; reflexivity.
Qed.
Print Assumptions C96_setup.
