(** Concrete cases that meet the hypotheses of the C96 theorems. *)
From Coq Require Import Reals Lra Lia ZArith List Bool Psatz.
From Verif Require Import HermitePoisson HPProps HPForceProps HPStepProps Legendre HermLeg HLBasis HermLegProps HLColl HLStep HLStepProps HLStepProps2 HLInit HLInitProps HLInitProps2 HLInitProps3 HLInitProps4 HLInitProps5 Drivers VGrid PyStr PicProofs RSum Pic PicFourier Dft.
Import ListNotations.
Local Open Scope R_scope.

Definition ic (ty : string) : icfg := {| i_type := Some (lit ty); i_eps := Some (1 / 10); i_mode := Some 1%Z; i_nbeam := Some (1 / 20); i_vdrift := Some 3; i_vth := Some (1 / 2); i_hermite := []; i_df := None |}.
(** Every named problem is accepted, with a mode that the grid of four cells resolves; its mass and its field follow. *)
Example ex_C96_accepted : forall nodes weights, let c := ex_cfg Split in forall ty, In ty ["linear-advection"; "two-stream"; "bump-on-tail"; "custom"]%string ->
  exists r, hl_init nodes weights (hl_nx c) (hl_Nh c) (hl_Nl c) (hl_alpha c) (hl_va c) (hl_vb c) (hl_Lx c) (ic ty) = Some r.
Proof. intros nodes weights c ty H. destruct H as [<-|[<-|[<-|[<-|[]]]]]; eexists; reflexivity. Qed.
Example ex_C96_mass : forall nodes weights, let c := ex_cfg Split in exists r, hl_init nodes weights (hl_nx c) (hl_Nh c) (hl_Nl c) (hl_alpha c) (hl_va c) (hl_vb c) (hl_Lx c) (ic "two-stream") = Some r /\ mass c (to_k (hl_nx c) r) = hl_Lx c.
Proof.
  intros nodes weights c. destruct (ex_C96_accepted nodes weights "two-stream" ltac:(cbn; auto)) as (r & H). exists r. split; [exact H|].
  assert (E1 : base_of (ic "two-stream") (lit "two-stream") = 1) by reflexivity. assert (E2 : beam_of nodes weights (hl_Nl c) (hl_va c) (hl_vb c) (ic "two-stream") (lit "two-stream") = 0) by reflexivity.
  etransitivity; [apply (C96_initial_mass nodes weights c (ic "two-stream") (lit "two-stream") r); first [exact H|cbn; lra|cbn; lia|left; reflexivity|cbn; discriminate|idtac]|].
  - right. left. reflexivity.
  - rewrite E1, E2. ring.
Qed.
(** The Gauss rule with two nodes (the other weights zero) is exact for the products of the first two basis functions. *)
Definition two_nodes (q : nat) : R := if (q =? 0)%nat then - / sqrt 3 else if (q =? 1)%nat then / sqrt 3 else 0.
Definition two_weights (q : nat) : R := if (q <? 2)%nat then 1 else 0.
Lemma two_sum Nl va vb h : window_sum two_nodes two_weights Nl va vb h = (vb - va) / 2 * (h ((vb - va) / 2 * - / sqrt 3 + (va + vb) / 2) + h ((vb - va) / 2 * / sqrt 3 + (va + vb) / 2)).
Proof.
  unfold window_sum. rewrite (rsum_two _ 0 1); [unfold two_nodes, two_weights; cbn [Nat.eqb Nat.ltb Nat.leb]; ring|lia|lia|lia|].
  intros i _ A B. unfold two_weights. destruct (Nat.ltb_spec i 2); [lia|ring].
Qed.
Lemma lbasis_1 va vb v : va < vb -> lbasis va vb 1 v = sqrt 3 * ((2 * v - (va + vb)) / (vb - va)).
Proof. intros H. rewrite lbasis_legd, legd_1. cbn [Nat.eqb]. change (INR 1) with 1. replace (2 * 1 + 1) with 3 by ring. reflexivity. Qed.
Example ex_C96_exact : forall va vb j m, va < vb -> (j < 2)%nat -> (m < 2)%nat -> exists I, exact_for two_nodes two_weights 2 va vb (fun v => lbasis va vb j v * lbasis va vb m v) I.
Proof.
  intros va vb j m Hv Hj Hm. assert (P : 0 < sqrt 3) by (apply sqrt_lt_R0; lra). pose proof (sqrt_sqrt 3 ltac:(lra)) as Q.
  exists (if (j =? m)%nat then vb - va else 0). split; [apply lbasis_orth; exact Hv|]. rewrite two_sum.
  destruct j as [|[|j]]; destruct m as [|[|m]]; try lia; cbn [Nat.eqb]; rewrite ?lbasis_0, ?lbasis_1 by exact Hv.
  - field.
  - field. lra.
  - field. lra.
  - match goal with |- ?L = _ => transitivity ((vb - va) * (sqrt 3 * sqrt 3) * / (sqrt 3 * sqrt 3)); [field; lra|rewrite Q; field] end.
Qed.
Example ex_C96_projection : forall m, (m < 2)%nat -> project_legendre two_nodes two_weights (fun v => 3 * lbasis 2 7 0 v - 5 * lbasis 2 7 1 v) 2 2 7 m = if (m =? 0)%nat then 3 else -5.
Proof.
  intros m Hm. apply (proj2 (C96_projection two_nodes two_weights 2 2 7 (fun v => 3 * lbasis 2 7 0 v - 5 * lbasis 2 7 1 v) ltac:(lra)) (fun m => if (m =? 0)%nat then 3 else -5)); [|intros; apply ex_C96_exact; auto; lra|exact Hm].
  intros v. unfold df. cbn [rsum Nat.eqb]. ring.
Qed.
(** A rule exact for the beam exists for every window (one node), so the bump-on-tail mass deficit is real. *)
Example ex_C96_neutral : let c := ex_cfg Split in exists weights r I, let i := ic "bump-on-tail" in
  hl_init (fun _ => 0) weights (hl_nx c) (hl_Nh c) (hl_Nl c) (hl_alpha c) (hl_va c) (hl_vb c) (hl_Lx c) i = Some r /\
  exact_for (fun _ => 0) weights (hl_Nl c) (hl_va c) (hl_vb c) (gauss_beam (the_beam i)) I /\ mass c (to_k (hl_nx c) r) < hl_Lx c.
Proof.
  intros c. set (i := ic "bump-on-tail"). assert (Hv : hl_va c < hl_vb c) by (cbn; lra).
  assert (Al : 0 < sqrt 2 * (1 / 2)) by (apply Rmult_lt_0_compat; [apply sqrt_lt_R0; lra|lra]).
  assert (G : forall v, gauss_beam (the_beam i) v = 1 / 20 * unit_maxwellian (sqrt 2 * (1 / 2)) 3 v) by (intros v; unfold the_beam, i, ic; cbn [dflt i_nbeam i_vth i_vdrift]; apply (beam_maxwellian (1 / 20) 3 (1 / 2)); lra).
  destruct (unit_maxwellian_integral _ 3 Al) as (F & Lp & Lm & HF & _). set (I := 1 / 20 * F (hl_vb c) - 1 / 20 * F (hl_va c)).
  set (mid := (hl_vb c - hl_va c) / 2 * 0 + (hl_va c + hl_vb c) / 2). assert (GP : 0 < gauss_beam (the_beam i) mid) by (rewrite G; apply Rmult_lt_0_compat; [lra|apply unit_maxwellian_pos; exact Al]).
  set (w := fun q : nat => if (q =? 0)%nat then I / gauss_beam (the_beam i) mid * (2 / (hl_vb c - hl_va c)) else 0).
  destruct (ex_C96_accepted (fun _ => 0) w "bump-on-tail" ltac:(cbn; auto)) as (r & H). exists w, r, I. fold i. fold c in H.
  assert (EX : exact_for (fun _ => 0) w (hl_Nl c) (hl_va c) (hl_vb c) (gauss_beam (the_beam i)) I).
  { split.
    - exists (fun v => 1 / 20 * F v). split; [|reflexivity]. intros x. rewrite G. apply (derivable_pt_lim_scal F (1 / 20) x). apply HF.
    - unfold window_sum. rewrite (rsum_single _ 0); [|lia|intros q _ Nq; unfold w; destruct (Nat.eqb_spec q 0); [lia|ring]]. unfold w. cbn [Nat.eqb]. fold mid. field. lra. }
  split; [exact H|]. split; [exact EX|]. refine (proj1 (proj2 (proj2 (C96_neutral_refuted (fun _ => 0) w c i r I _ Hv _ _ _ _ _ _ _ H _ EX)))); try (cbn; lra); try (cbn; lia); try (left; reflexivity).
Qed.
(** 40 time units with the default step are 4000 steps. *)
Example ex_C96_times : tm_nt (hl_times 40 None) = 4000%Z.
Proof. unfold hl_times. cbn [tm_nt dflt]. replace (40 / (1 / 100)) with (IZR 4000) by lra. apply round_int. Qed.
Example ex_C96_setup : hl_setup {| c_integ := Some (lit "SPLIT"); c_Nh := 64; c_Nl := 32; c_iters := None; c_coll := Some (lit "Dougherty"); c_nu := Some (1 / 10); c_driver := [] |}
  = Some {| u_integ := Split; u_iters := 1; u_coll := Dougherty; u_driver := false |}.
Proof. unfold hl_setup. cbn. destruct (Rlt_dec (1 / 10) 0); [lra|]. destruct (Rlt_dec 0 (1 / 10)); [reflexivity|lra]. Qed.
Example ex_C96_snapshots : map (snap 101) (seq 0 (snap_m 101)) = [0; 20; 40; 60; 80; 100]%nat. Proof. reflexivity. Qed.
Example ex_C96_drift : reldrift 3 (fun i => 2 + INR i) = Some 1.
Proof.
  unfold reldrift. change (INR 0) with 0. destruct (Req_EM_T (2 + 0) 0); [lra|]. f_equal. cbn [maxn]. change (INR 0) with 0. change (INR 1) with 1. change (INR 2) with (1 + 1).
  rewrite (Rabs_right (2 + 0 - (2 + 0))), (Rabs_right (2 + 1 - (2 + 0))), (Rabs_right (2 + (1 + 1) - (2 + 0))), (Rabs_right (2 + 0)) by lra.
  rewrite (Rmax_left 0 (2 + 0 - (2 + 0))) by lra. rewrite (Rmax_right 0 (2 + 1 - (2 + 0))) by lra. rewrite Rmax_right by lra. field.
Qed.
