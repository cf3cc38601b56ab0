(** Property C104: the moments, scalars and fields a Vlasov-1D and a Vlasov-1D2V run saves. *)
From Coq Require Import Psatz FunctionalExtensionality.
From Verif Require Import CylProofs CylProps VStepProps VInitProps VInit2vProps VStep2vProofs VStep2vProps VSave.
From Verif Require Import PyStr.
Local Open Scope R_scope.

(** The velocity of cell j, the cell width, and the integral over v of a function given on the cells. *)
Definition cell_v (s : species) (j : nat) : R := sp_vmin s + (INR j + 1 / 2) * ((sp_vmax s - sp_vmin s) / INR (sp_nv s)).
Definition integral_v (s : species) (g : nat -> R) : R := rsum (sp_nv s) (fun j => g j * ((sp_vmax s - sp_vmin s) / INR (sp_nv s))).
Lemma mom_integral s g i : mom s g i = integral_v s (fun j => g i j).
Proof. unfold mom, integral_v. rewrite <- rsum_scal_r. reflexivity. Qed.
Lemma mom_integral_v s (g : nat -> nat -> R -> R) i : mom s (fun i j => g i j (sp_v s j)) i = integral_v s (fun j => g i j (cell_v s j)).
Proof. unfold mom, integral_v. rewrite <- rsum_scal_r. apply rsum_ext. intros j Hj. rewrite sp_v_formula by exact Hj. reflexivity. Qed.
Lemma int_lin s a b f g : integral_v s (fun j => a * f j + b * g j) = a * integral_v s f + b * integral_v s g.
Proof. unfold integral_v. rewrite <- !rsum_scal, <- rsum_plus. apply rsum_ext. intros. ring. Qed.
Lemma int_ext s f g : (forall j, (j < sp_nv s)%nat -> f j = g j) -> integral_v s f = integral_v s g.
Proof. intros H. unfold integral_v. apply rsum_ext. intros j Hj. now rewrite H. Qed.
Lemma int_nonneg s f : (0 < sp_nv s)%nat -> sp_vmin s < sp_vmax s -> (forall j, (j < sp_nv s)%nat -> 0 <= f j) -> 0 <= integral_v s f.
Proof. intros A B H. unfold integral_v. apply rsum_nonneg. intros j Hj. apply Rmult_le_pos; [now apply H|]. pose proof (dv_pos s A B) as D. unfold sp_dv in D. lra. Qed.
Lemma cell_v_range s j : (j < sp_nv s)%nat -> sp_vmin s < sp_vmax s -> sp_vmin s < cell_v s j < sp_vmax s.
Proof.
  intros A B. assert (P : 0 < INR (sp_nv s)) by (apply lt_0_INR; lia). set (d := (sp_vmax s - sp_vmin s) / INR (sp_nv s)). assert (D : 0 < d) by (apply Rdiv_lt_0_compat; lra).
  assert (E : d * INR (sp_nv s) = sp_vmax s - sp_vmin s) by (unfold d; field; lra). assert (Q : INR j + 1 <= INR (sp_nv s)) by (rewrite <- S_INR; apply le_INR; lia). pose proof (pos_INR j).
  unfold cell_v. fold d. split; nra.
Qed.
Lemma cauchy n (a b : nat -> R) : rsum n (fun j => a j * b j) ^ 2 <= rsum n (fun j => a j * a j) * rsum n (fun j => b j * b j).
Proof.
  set (A := rsum n (fun j => a j * a j)). set (B := rsum n (fun j => b j * b j)). set (C := rsum n (fun j => a j * b j)).
  assert (H : forall x y, 0 <= x * x * A + 2 * x * y * C + y * y * B).
  { intros x y. replace (x * x * A + 2 * x * y * C + y * y * B) with (rsum n (fun j => (x * a j + y * b j) * (x * a j + y * b j))).
    - apply rsum_nonneg. intros. apply Rle_0_sqr.
    - unfold A, B, C. rewrite <- !rsum_scal, <- !rsum_plus. apply rsum_ext. intros. ring. }
  assert (PA : 0 <= A) by (apply rsum_nonneg; intros; apply Rle_0_sqr). assert (PB : 0 <= B) by (apply rsum_nonneg; intros; apply Rle_0_sqr).
  destruct (Req_dec A 0) as [Z|N].
  - pose proof (H B (- C)) as Q. pose proof (H (1 + B) (- C)) as Q2. rewrite Z in *. assert (C = 0) by nra. nra.
  - pose proof (H (- C) A) as Q. assert (0 < A) by lra. assert (0 <= A * (A * B - C ^ 2)) by nra. assert (0 <= A * B - C ^ 2) by (apply Rmult_le_reg_l with A; lra). lra.
Qed.

(* ------------------------------------------------------------------------------------------------ *)
(** The saved moments of one species in one cell with nonzero density: n, j = n v, p, q are the mean, variance and third
    central moment of the distribution over v, so the raw moments of v are recovered from them; for f >= 0 the saved mean
    velocity lies strictly inside of the grid, 0 <= p <= n (vmax - v) (v - vmin), and f^2 is at least n^2 / (vmax - vmin). *)
Theorem C104_moments : forall s f i, (0 < sp_nv s)%nat -> sp_vmin s < sp_vmax s ->
  let n := sv_n s f i in let V := sv_v s f i in let p := sv_p s f i in let q := sv_q s f i in
  n = integral_v s (f i) /\ sv_j s f i = integral_v s (fun j => f i j * cell_v s j) /\ sv_f2 s f i = integral_v s (fun j => f i j ^ 2) /\
  (n <> 0 -> sv_j s f i = n * V /\ integral_v s (fun j => f i j * cell_v s j ^ 2) = p + n * V ^ 2 /\ integral_v s (fun j => f i j * cell_v s j ^ 3) = q + 3 * V * p + n * V ^ 3) /\
  n ^ 2 <= (sp_vmax s - sp_vmin s) * sv_f2 s f i /\
  ((forall j, (j < sp_nv s)%nat -> 0 <= f i j) -> 0 < n -> sp_vmin s < V < sp_vmax s /\ 0 <= p <= n * ((sp_vmax s - V) * (V - sp_vmin s))).
Proof.
  intros s f i A B n V p q.
  assert (En : n = integral_v s (f i)) by apply (mom_integral s f i).
  assert (Ej : sv_j s f i = integral_v s (fun j => f i j * cell_v s j)) by exact (mom_integral_v s (fun i j v => f i j * v) i).
  assert (Ep : p = integral_v s (fun j => f i j * (cell_v s j - V) ^ 2)) by exact (mom_integral_v s (fun i j v => f i j * (v - sv_v s f i) ^ 2) i).
  assert (Eq : q = integral_v s (fun j => f i j * (cell_v s j - V) ^ 3)) by exact (mom_integral_v s (fun i j v => f i j * (v - sv_v s f i) ^ 3) i).
  assert (E2 : sv_f2 s f i = integral_v s (fun j => f i j ^ 2)) by (unfold sv_f2; rewrite mom_integral; apply int_ext; intros; ring).
  split; [exact En|]. split; [exact Ej|]. split; [exact E2|].
  set (M2 := integral_v s (fun j => f i j * cell_v s j ^ 2)). set (M3 := integral_v s (fun j => f i j * cell_v s j ^ 3)).
  assert (Xp : p = M2 - 2 * V * sv_j s f i + V ^ 2 * n).
  { rewrite Ep, Ej, En. unfold M2. transitivity (integral_v s (fun j => 1 * (1 * (f i j * cell_v s j ^ 2) + (- (2 * V)) * (f i j * cell_v s j)) + V ^ 2 * f i j)); [apply int_ext; intros; ring|]. rewrite !int_lin. ring. }
  assert (Xq : q = M3 - 3 * V * M2 + 3 * V ^ 2 * sv_j s f i - V ^ 3 * n).
  { rewrite Eq, Ej, En. unfold M2, M3. transitivity (integral_v s (fun j => 1 * (1 * (1 * (f i j * cell_v s j ^ 3) + (- (3 * V)) * (f i j * cell_v s j ^ 2)) + (3 * V ^ 2) * (f i j * cell_v s j)) + (- V ^ 3) * f i j)); [apply int_ext; intros; ring|].
    rewrite !int_lin. ring. }
  assert (JV : n <> 0 -> sv_j s f i = n * V) by (intros N; unfold V, sv_v; fold n; field; exact N).
  split; [intros N; specialize (JV N); rewrite Xq, Xp, JV; repeat split; ring|]. split.
  - rewrite E2, En. unfold integral_v. set (d := (sp_vmax s - sp_vmin s) / INR (sp_nv s)). pose proof (dv_pos s A B) as D. unfold sp_dv in D. fold d in D.
    pose proof (cauchy (sp_nv s) (f i) (fun _ => 1)) as C. rewrite (rsum_ext _ (fun j => f i j * 1) (f i)) in C by (intros; ring). rewrite (rsum_ext _ (fun j => f i j * f i j) (fun j => f i j ^ 2)) in C by (intros; ring). rewrite rsum_const in C.
    rewrite !rsum_scal_r. assert (P : 0 < INR (sp_nv s)) by (apply lt_0_INR; lia). assert (W : sp_vmax s - sp_vmin s = d * INR (sp_nv s)) by (unfold d; field; lra). rewrite W.
    set (X := rsum (sp_nv s) (f i)) in *. set (Y := rsum (sp_nv s) (fun j => f i j ^ 2)) in *. assert (0 <= d ^ 2) by nra. replace ((X * d) ^ 2) with (d ^ 2 * X ^ 2) by ring. replace (d * INR (sp_nv s) * (Y * d)) with (d ^ 2 * (Y * INR (sp_nv s))) by ring.
    apply Rmult_le_compat_l; [assumption|]. replace (Y * INR (sp_nv s)) with (Y * (INR (sp_nv s) * (1 * 1))) by ring. lra.
  - intros F N. assert (N0 : n <> 0) by lra. specialize (JV N0). rewrite Ej in JV.
    (* the mean lies strictly inside: the integrals of f (v - vmin) and f (vmax - v) are positive *)
    assert (POS : forall g : nat -> R, (forall j, (j < sp_nv s)%nat -> 0 < g j) -> 0 < integral_v s (fun j => f i j * g j)).
    { intros g G. destruct (Rle_lt_or_eq_dec 0 (integral_v s (fun j => f i j * g j))) as [L|L]; [|exact L|].
      - apply int_nonneg; [assumption..|]. intros j Hj. apply Rmult_le_pos; [now apply F|apply Rlt_le; now apply G].
      - exfalso. assert (Z : forall j, (j < sp_nv s)%nat -> f i j * g j * ((sp_vmax s - sp_vmin s) / INR (sp_nv s)) = 0).
        { apply rsum_nonneg_zero; [|symmetry; exact L]. intros j Hj. pose proof (dv_pos s A B) as D. unfold sp_dv in D. specialize (F j Hj). specialize (G j Hj). apply Rmult_le_pos; [nra|lra]. }
        assert (n = 0); [|lra]. rewrite En. unfold integral_v. rewrite <- (rsum_zero (sp_nv s)). apply rsum_ext. intros j Hj. specialize (Z j Hj). specialize (G j Hj). pose proof (dv_pos s A B) as D. unfold sp_dv in D.
        apply Rmult_integral in Z. destruct Z as [Z|Z]; [|lra]. apply Rmult_integral in Z. destruct Z as [Z|Z]; [rewrite Z; ring|lra]. }
    assert (HL : 0 < n * (V - sp_vmin s)).
    { replace (n * (V - sp_vmin s)) with (integral_v s (fun j => f i j * (cell_v s j - sp_vmin s))); [apply POS; intros j Hj; pose proof (cell_v_range s j Hj B); lra|].
      transitivity (integral_v s (fun j => 1 * (f i j * cell_v s j) + (- sp_vmin s) * f i j)); [apply int_ext; intros; ring|]. rewrite int_lin, JV, <- En. ring. }
    assert (HR : 0 < n * (sp_vmax s - V)).
    { replace (n * (sp_vmax s - V)) with (integral_v s (fun j => f i j * (sp_vmax s - cell_v s j))); [apply POS; intros j Hj; pose proof (cell_v_range s j Hj B); lra|].
      transitivity (integral_v s (fun j => sp_vmax s * f i j + (- (1)) * (f i j * cell_v s j))); [apply int_ext; intros; ring|]. rewrite int_lin, JV, <- En. ring. }
    assert (V1 : 0 < V - sp_vmin s) by (apply Rmult_lt_reg_l with n; lra). assert (V2 : 0 < sp_vmax s - V) by (apply Rmult_lt_reg_l with n; lra).
    split; [lra|]. split.
    + rewrite Ep. apply int_nonneg; [assumption..|]. intros j Hj. apply Rmult_le_pos; [now apply F|]. apply pow2_ge_0.
    + assert (K : 0 <= integral_v s (fun j => f i j * ((sp_vmax s - cell_v s j) * (cell_v s j - sp_vmin s)))).
      { apply int_nonneg; [assumption..|]. intros j Hj. pose proof (cell_v_range s j Hj B). apply Rmult_le_pos; [now apply F|nra]. }
      assert (KE : integral_v s (fun j => f i j * ((sp_vmax s - cell_v s j) * (cell_v s j - sp_vmin s))) = - M2 + (sp_vmax s + sp_vmin s) * (n * V) - sp_vmax s * sp_vmin s * n).
      { rewrite <- JV. unfold M2. rewrite En. transitivity (integral_v s (fun j => 1 * ((- (1)) * (f i j * cell_v s j ^ 2) + (sp_vmax s + sp_vmin s) * (f i j * cell_v s j)) + (- (sp_vmax s * sp_vmin s)) * f i j)); [apply int_ext; intros; ring|]. rewrite !int_lin. ring. }
      rewrite KE in K. rewrite <- Ej in JV. rewrite Xp, JV. lra.
Qed.
Print Assumptions C104_moments.

(* ------------------------------------------------------------------------------------------------ *)
(** The scalars are means over x of integrals over v; the kinetic energy is the sum over the species of m/2 times the second
    moment, hence of thermal and drift parts, nonnegative for f >= 0; the total adds half the mean of E^2. *)
Definition mean_x (nx : nat) (g : nat -> R) : R := rsum nx g / INR nx.
Fixpoint sum_entries {A} (g : A -> R) (l : list A) : R := match l with [] => 0 | p :: l' => g p + sum_entries g l' end.
Lemma fold_entries {A} (g : A -> R) l : forall a, fold_left (fun a p => a + g p) l a = a + sum_entries g l.
Proof. induction l as [|p l IH]; intros a; cbn [fold_left sum_entries]; [ring|]. rewrite IH. ring. Qed.
Lemma mean_x_ext nx g g' : (forall i, (i < nx)%nat -> g i = g' i) -> mean_x nx g = mean_x nx g'.
Proof. intros H. unfold mean_x. now rewrite (rsum_ext nx g g' H). Qed.
Lemma mean_x_nonneg nx g : (0 < nx)%nat -> (forall i, (i < nx)%nat -> 0 <= g i) -> 0 <= mean_x nx g.
Proof. intros Hn H. unfold mean_x. apply Rmult_le_pos; [now apply rsum_nonneg|]. apply Rlt_le, Rinv_0_lt_compat. now apply lt_0_INR. Qed.
Theorem C104_scalars : forall nx s f,
  mean_n nx s f = mean_x nx (fun i => integral_v s (f i)) /\
  mean_j nx s f = mean_x nx (fun i => integral_v s (fun j => f i j * cell_v s j)) /\
  mean_P nx s f = mean_x nx (fun i => integral_v s (fun j => f i j * cell_v s j ^ 2)) /\
  mean_q nx s f = mean_x nx (fun i => integral_v s (fun j => f i j * cell_v s j ^ 3)) /\
  ((0 < sp_nv s)%nat -> sp_vmin s < sp_vmax s -> (forall i, (i < nx)%nat -> sv_n s f i <> 0) ->
     mean_P nx s f = mean_x nx (fun i => sv_p s f i + sv_n s f i * sv_v s f i ^ 2) /\ mean_j nx s f = mean_x nx (fun i => sv_n s f i * sv_v s f i)).
Proof.
  intros nx s f. unfold mean_n, mean_j, mean_P, mean_q.
  assert (EP : mean nx (mom s (fun i j => f i j * sp_v s j ^ 2)) = mean_x nx (fun i => integral_v s (fun j => f i j * cell_v s j ^ 2))) by (apply mean_x_ext; intros i _; exact (mom_integral_v s (fun i j v => f i j * v ^ 2) i)).
  assert (EJ : mean nx (mom s (fun i j => f i j * sp_v s j)) = mean_x nx (fun i => integral_v s (fun j => f i j * cell_v s j))) by (apply mean_x_ext; intros i _; exact (mom_integral_v s (fun i j v => f i j * v) i)).
  split; [apply mean_x_ext; intros i _; apply (mom_integral s f)|]. split; [exact EJ|]. split; [exact EP|].
  split; [apply mean_x_ext; intros i _; exact (mom_integral_v s (fun i j v => f i j * v ^ 3) i)|].
  intros A B N. rewrite EP, EJ. split; apply mean_x_ext; intros i Hi; destruct (C104_moments s f i A B) as (_ & EE & _ & H & _); destruct (H (N i Hi)) as (H1 & H2 & _); lra.
Qed.
Print Assumptions C104_scalars.
Theorem C104_energy : forall nx (F : ndict) e, (0 < nx)%nat ->
  mean_kinetic nx F = sum_entries (fun p => sp_m (sp_of p) / 2 * mean_x nx (fun i => integral_v (sp_of p) (fun j => df_of p i j * cell_v (sp_of p) j ^ 2))) F /\
  mean_total nx (mean_kinetic nx F) e = mean_kinetic nx F + mean_x nx (fun i => e i ^ 2) / 2 /\
  ((forall p, In p F -> 0 <= sp_m (sp_of p) /\ (0 < sp_nv (sp_of p))%nat /\ sp_vmin (sp_of p) < sp_vmax (sp_of p) /\ forall i j, (i < nx)%nat -> (j < sp_nv (sp_of p))%nat -> 0 <= df_of p i j) ->
     0 <= mean_kinetic nx F <= mean_total nx (mean_kinetic nx F) e).
Proof.
  intros nx F e Hn. assert (EK : mean_kinetic nx F = sum_entries (fun p => sp_m (sp_of p) / 2 * mean_x nx (fun i => integral_v (sp_of p) (fun j => df_of p i j * cell_v (sp_of p) j ^ 2))) F).
  { unfold mean_kinetic. rewrite (fold_entries (fun p => 1 / 2 * sp_m (fst (snd p)) * mean_P nx (fst (snd p)) (snd (snd p))) F 0), Rplus_0_l. induction F as [|p F IH]; cbn [sum_entries]; [reflexivity|]. rewrite IH. f_equal.
    destruct (C104_scalars nx (sp_of p) (df_of p)) as (_ & _ & H & _). rewrite <- H. unfold sp_of, df_of. field. }
  assert (ET : mean_total nx (mean_kinetic nx F) e = mean_kinetic nx F + mean_x nx (fun i => e i ^ 2) / 2) by (unfold mean_total, mean_e2; change (mean nx (fun i => e i ^ 2)) with (mean_x nx (fun i => e i ^ 2)); field).
  split; [exact EK|]. split; [exact ET|]. intros H. split.
  - rewrite EK. clear - H Hn. induction F as [|p F IH]; cbn [sum_entries]; [lra|]. destruct (H p (or_introl eq_refl)) as (H1 & H2 & H3 & H4).
    assert (0 <= sum_entries (fun p => sp_m (sp_of p) / 2 * mean_x nx (fun i => integral_v (sp_of p) (fun j => df_of p i j * cell_v (sp_of p) j ^ 2))) F) by (apply IH; intros; apply H; now right).
    assert (0 <= mean_x nx (fun i => integral_v (sp_of p) (fun j => df_of p i j * cell_v (sp_of p) j ^ 2))).
    { apply mean_x_nonneg; [exact Hn|]. intros i Hi. apply int_nonneg; [assumption..|]. intros j Hj. apply Rmult_le_pos; [now apply H4|apply pow2_ge_0]. }
    assert (0 <= sp_m (sp_of p) / 2) by lra. assert (Q := Rmult_le_pos _ _ H5 H0). lra || (pose proof (Rmult_le_pos (sp_m (sp_of p) / 2) (mean_x nx (fun i => integral_v (sp_of p) (fun j => df_of p i j * cell_v (sp_of p) j ^ 2))) ltac:(lra) ltac:(assumption)); lra).
  - rewrite ET. assert (0 <= mean_x nx (fun i => e i ^ 2)) by (apply mean_x_nonneg; [exact Hn|intros; apply pow2_ge_0]). lra.
Qed.
Print Assumptions C104_energy.
(** The mean ponderomotive force only depends on the potential in the four cells next to the two ends: it vanishes for a
    periodic potential however strong, and without light. *)
Theorem C104_pond : forall nx dx a, (2 <= nx)%nat -> dx <> 0 ->
  mean_pond nx dx a = - (a (nx + 1)%nat ^ 2 + a nx ^ 2 - a 1%nat ^ 2 - a 0%nat ^ 2) / (4 * (INR nx * dx)).
Proof.
  intros nx dx a Hn Hd. unfold mean_pond, mean, ponderomotive.
  assert (T : forall m, rsum m (fun i => a (i + 2)%nat ^ 2 - a i ^ 2) = a (m + 1)%nat ^ 2 + a m ^ 2 - a 1%nat ^ 2 - a 0%nat ^ 2).
  { induction m as [|m IH]; cbn [rsum]; [cbn [Nat.add]; ring|]. rewrite IH. replace (m + 2)%nat with (S m + 1)%nat by lia. replace (m + 1)%nat with (S m) by lia. ring. }
  rewrite (rsum_ext nx _ (fun i => - (1 / (4 * dx)) * (a (i + 2)%nat ^ 2 - a i ^ 2))).
  - rewrite rsum_scal, T. assert (INR nx <> 0) by (apply not_0_INR; lia). field. split; assumption.
  - intros i Hi. unfold gradient. destruct (Nat.eqb_spec (i + 1) 0); [lia|]. destruct (Nat.eqb_spec (i + 1) (nx + 2 - 1)); [lia|]. replace (i + 1 + 1)%nat with (i + 2)%nat by lia. replace (i + 1 - 1)%nat with i by lia. field. exact Hd.
Qed.
Print Assumptions C104_pond.

(* ------------------------------------------------------------------------------------------------ *)
(** ** Vlasov-1D2V *)
(** The perpendicular velocities and the integral over the perpendicular plane. *)
Definition cell_vp (h : setup2) (k : nat) : R := (INR k + 1 / 2) * (h_vpmax h / INR (h_nvp h)).
Definition integral_perp (h : setup2) (g : nat -> R) : R := rsum (h_nvp h) (fun k => g k * (2 * PI * cell_vp h k * (h_vpmax h / INR (h_nvp h)))).
Lemma vperp_cell h k : (k < h_nvp h)%nat -> vperp h k = cell_vp h k.
Proof.
  intros Hk. unfold vperp, cell_vp, perp_v, linspace. fold (perp_dv (h_nvp h) (h_vpmax h)). assert (D : perp_dv (h_nvp h) (h_vpmax h) * INR (h_nvp h) = h_vpmax h) by (unfold perp_dv; field; apply not_0_INR; lia).
  set (d := perp_dv (h_nvp h) (h_vpmax h)) in *. destruct (Nat.leb_spec (h_nvp h) 1) as [L|L].
  - assert (k = 0%nat) by lia. subst k. cbn [INR]. field.
  - assert (E : INR (h_nvp h) = INR (h_nvp h - 1) + 1) by (rewrite <- S_INR; f_equal; lia). assert (0 < INR (h_nvp h - 1)) by (apply lt_0_INR; lia). rewrite <- D, E. field. lra.
Qed.
Lemma perp_integral h g : rsum (h_nvp h) (fun k => g k * wperp h k) = integral_perp h g.
Proof. unfold integral_perp. apply rsum_ext. intros k Hk. rewrite <- (vperp_cell h k Hk). reflexivity. Qed.
(** The moments that are not those of the marginal: pperp, and f^2, which is at least the square of the marginal over the
    area of the perpendicular disk. All other moments are those of the 1D solver for the marginal; the kinetic energy is
    that of the marginals plus m/2 times the mean of the perpendicular pressure. *)
Theorem C104_perpendicular : forall h s f i, (0 < h_nvp h)%nat -> 0 < h_vpmax h ->
  (forall j, marginal h f i j = integral_perp h (f i j)) /\
  sv2_pperp h s f i = integral_v s (fun j => integral_perp h (fun k => f i j k * cell_vp h k ^ 2)) /\
  sv2_f2 h s f i = integral_v s (fun j => integral_perp h (fun k => f i j k ^ 2)) /\
  ((0 < sp_nv s)%nat -> sp_vmin s < sp_vmax s -> sv_f2 s (marginal h f) i <= PI * h_vpmax h ^ 2 * sv2_f2 h s f i) /\
  ((0 < sp_nv s)%nat -> sp_vmin s < sp_vmax s -> (forall j k, (j < sp_nv s)%nat -> (k < h_nvp h)%nat -> 0 <= f i j k) -> 0 <= sv2_pperp h s f i <= h_vpmax h ^ 2 * sv_n s (marginal h f) i).
Proof.
  intros h s f i A B.
  assert (EP : sv2_pperp h s f i = integral_v s (fun j => integral_perp h (fun k => f i j k * cell_vp h k ^ 2))).
  { unfold sv2_pperp, mom2, integral_v. rewrite rsum_scal_r. f_equal. apply rsum_ext. intros j _. rewrite perp_integral. unfold integral_perp. apply rsum_ext. intros k Hk. now rewrite vperp_cell. }
  assert (E2 : sv2_f2 h s f i = integral_v s (fun j => integral_perp h (fun k => f i j k ^ 2))).
  { unfold sv2_f2, mom2, integral_v. rewrite rsum_scal_r. f_equal. apply rsum_ext. intros j _. rewrite perp_integral. unfold integral_perp. apply rsum_ext. intros k _. ring. }
  split; [intros j; apply perp_integral|]. split; [exact EP|]. split; [exact E2|].
  assert (NP : 0 < INR (h_nvp h)) by now apply lt_0_INR. assert (D : 0 < h_vpmax h / INR (h_nvp h)) by (apply Rdiv_lt_0_compat; assumption).
  assert (AREA : rsum (h_nvp h) (wperp h) = PI * h_vpmax h ^ 2).
  { rewrite (rsum_ext _ _ (fun k => 1 * wperp h k)) by (intros; ring). rewrite perp_integral. unfold integral_perp, cell_vp. set (d := h_vpmax h / INR (h_nvp h)) in *.
    assert (T : forall m, rsum m (fun k => 1 * (2 * PI * ((INR k + 1 / 2) * d) * d)) = PI * (d * INR m) ^ 2).
    { induction m as [|m IH]; cbn [rsum]; [cbn [INR]; ring|]. rewrite IH, S_INR. field. }
    rewrite T. f_equal. f_equal. unfold d. field. lra. }
  split.
  - intros C E. rewrite E2. unfold sv_f2. rewrite mom_integral. apply Rle_trans with (integral_v s (fun j => PI * h_vpmax h ^ 2 * integral_perp h (fun k => f i j k ^ 2))).
    + unfold integral_v. apply rsum_le. intros j Hj. apply Rmult_le_compat_r; [pose proof (dv_pos s C E) as Q; unfold sp_dv in Q; lra|].
      rewrite <- perp_integral, <- AREA. pose proof (cauchy (h_nvp h) (fun k => f i j k * sqrt (wperp h k)) (fun k => sqrt (wperp h k))) as Q.
      assert (SQ : forall k, (k < h_nvp h)%nat -> sqrt (wperp h k) * sqrt (wperp h k) = wperp h k) by (intros k Hk; apply sqrt_sqrt, Rlt_le; now apply wperp_pos).
      rewrite (rsum_ext _ (fun k => f i j k * sqrt (wperp h k) * sqrt (wperp h k)) (fun k => f i j k * wperp h k)) in Q by (intros k Hk; rewrite Rmult_assoc, SQ by exact Hk; reflexivity).
      rewrite (rsum_ext _ (fun k => f i j k * sqrt (wperp h k) * (f i j k * sqrt (wperp h k))) (fun k => f i j k ^ 2 * wperp h k)) in Q.
      2:{ intros k Hk. rewrite <- (SQ k Hk) at 3. ring. }
      rewrite (rsum_ext _ (fun k => sqrt (wperp h k) * sqrt (wperp h k)) (wperp h)) in Q by exact SQ. unfold marginal. lra.
    + right. unfold integral_v. rewrite <- rsum_scal. apply rsum_ext. intros. ring.
  - intros C E F. pose proof (dv_pos s C E) as Q. unfold sp_dv in Q. assert (W : forall k, (k < h_nvp h)%nat -> 0 <= 2 * PI * cell_vp h k * (h_vpmax h / INR (h_nvp h)) /\ 0 <= cell_vp h k <= h_vpmax h).
    { intros k Hk. assert (K : 0 <= cell_vp h k) by (unfold cell_vp; pose proof (pos_INR k); nra). pose proof PI_RGT_0. split; [repeat (apply Rmult_le_pos; try lra)|]. split; [exact K|].
      assert (INR k + 1 <= INR (h_nvp h)) by (rewrite <- S_INR; apply le_INR; lia). unfold cell_vp. set (d := h_vpmax h / INR (h_nvp h)) in *. assert (d * INR (h_nvp h) = h_vpmax h) by (unfold d; field; lra). nra. }
    rewrite EP. split.
    + apply int_nonneg; [assumption..|]. intros j Hj. unfold integral_perp. apply rsum_nonneg. intros k Hk. destruct (W k Hk). apply Rmult_le_pos; [|assumption]. apply Rmult_le_pos; [now apply F|apply pow2_ge_0].
    + unfold sv_n. rewrite (mom_integral s (marginal h f)). unfold integral_v. rewrite <- rsum_scal. apply rsum_le. intros j Hj. unfold marginal. rewrite perp_integral. rewrite <- Rmult_assoc. apply Rmult_le_compat_r; [lra|].
      unfold integral_perp. rewrite <- rsum_scal. apply rsum_le. intros k Hk. destruct (W k Hk) as (W1 & W2). assert (X : cell_vp h k ^ 2 <= h_vpmax h ^ 2) by nra. specialize (F j k Hj Hk). set (w := 2 * PI * cell_vp h k * (h_vpmax h / INR (h_nvp h))) in *. pose proof (Rmult_le_compat_l (f i j k * w) _ _ (Rmult_le_pos _ _ F W1) X). nra.
Qed.
Print Assumptions C104_perpendicular.
Theorem C104_kinetic2 : forall h nx F,
  mean_kinetic2 h nx F = mean_kinetic nx (marginals h F) + sum_entries (fun p => sp_m (fst (snd p)) / 2 * mean_x nx (sv2_pperp h (fst (snd p)) (snd (snd p)))) F.
Proof.
  intros h nx F. unfold mean_kinetic2, mean_kinetic. rewrite (fold_entries (fun p => 1 / 2 * sp_m (fst (snd p)) * mean_P nx (fst (snd p)) (snd (snd p))) (marginals h F) 0).
  rewrite (fold_entries (fun p => 1 / 2 * sp_m (fst (snd p)) * (mean_P nx (fst (snd p)) (marginal h (snd (snd p))) + mean_Pperp h nx (fst (snd p)) (snd (snd p)))) F 0), !Rplus_0_l.
  induction F as [|[n [s f]] F IH]; cbn [sum_entries marginals map fst snd] in *; [ring|]. rewrite IH. unfold mean_Pperp. change (mean nx (sv2_pperp h s f)) with (mean_x nx (sv2_pperp h s f)). fold (marginals h F). field.
Qed.
Print Assumptions C104_kinetic2.

(* ------------------------------------------------------------------------------------------------ *)
(** ** Along a run *)
(** The saved mean density of every species is the same at every save time; in 1D2V also with cylindrical collisions, and
    without them the saved perpendicular pressure of every species is constant as well. *)
Theorem C104_run_constants : 
  (forall g n t y y', Nat.Even (g_nx g) -> (0 < g_nx g)%nat -> g_edfdv g = EExponential -> filter_ok g -> good (y_f y) -> vm_run g n t y y' ->
     alike (fun p p' => mean_n (g_nx g) (sp_of p) (df_of p') = mean_n (g_nx g) (sp_of p) (df_of p)) (y_f y) (y_f y')) /\
  (forall h n t y y', cyl_ok h -> Nat.Even (g_nx (h_g h)) -> (0 < g_nx (h_g h))%nat -> grids (z_f y) -> vm_run2 h n t y y' ->
     alike2 (fun s f f' => mean_n (g_nx (h_g h)) s (marginal h f') = mean_n (g_nx (h_g h)) s (marginal h f) /\
       (~ cyl_type h -> mean_Pperp h (g_nx (h_g h)) s f' = mean_Pperp h (g_nx (h_g h)) s f)) (z_f y) (z_f y')).
Proof.
  split.
  - intros g n t y y' He Hn ED FO G R. pose proof (C65_number g n t y y' He Hn ED FO G R) as P. revert P. apply alike_imp. intros p p' _ ES P. unfold particles_of in P. rewrite ES in P.
    unfold mean_n, mean, mom. f_equal. rewrite !rsum_scal_r. f_equal. exact P.
  - intros h n t y y' K He Hn G R. pose proof (C103_number h n t y y' K He Hn G R) as P.
    assert (Q : alike2 (fun s f f' => ~ cyl_type h -> mean_Pperp h (g_nx (h_g h)) s f' = mean_Pperp h (g_nx (h_g h)) s f) (z_f y) (z_f y')).
    { destruct (Classical_Prop.classic (cyl_type h)) as [C|C].
      - clear - P C. unfold alike2 in *. induction P as [|p p' F F' (E1 & E2 & E3) P IH]; constructor; [repeat split; auto; intros; tauto|exact IH].
      - pose proof (C103_perpendicular h n t y y' He Hn G C R) as Q. revert Q. apply alike2_imp. intros p b _ (_ & H) _. specialize (H (fun k => vperp h k ^ 2 * wperp h k)).
        unfold mean_Pperp, mean, sv2_pperp, mom2. f_equal. rewrite !rsum_scal_r. f_equal.
        assert (X : forall f : dist3, rsum (g_nx (h_g h)) (fun i => rsum (sp_nv (fst (snd p))) (fun j => rsum (h_nvp h) (fun k => f i j k * vperp h k ^ 2 * wperp h k))) =
                    rsum (g_nx (h_g h)) (fun i => rsum (sp_nv (fst (snd p))) (fun j => rsum (h_nvp h) (fun k => vperp h k ^ 2 * wperp h k * f i j k)))).
        { intros f. apply rsum_ext; intros i _. apply rsum_ext; intros j _. apply rsum_ext; intros k _. ring. }
        rewrite !X. exact H. }
    clear - P Q. unfold alike2 in *. revert Q. induction P as [|p p' F F' (E1 & E2 & E3) P IH]; intros Q; inversion Q as [|? ? ? ? (_ & _ & Q1) Q2]; subst; constructor; [|now apply IH].
    split; [exact E1|]. split; [exact E2|]. split; [|exact Q1]. unfold mean_n, mean, mom. f_equal. rewrite !rsum_scal_r. f_equal. exact E3.
Qed.
Print Assumptions C104_run_constants.

(* ------------------------------------------------------------------------------------------------ *)
(** ** The right- and left-going parts of the transverse field *)
Lemma grad_inside n dx a i : (0 < i)%nat -> (i < n - 1)%nat -> gradient n dx a i = (a (i + 1)%nat - a (i - 1)%nat) / (2 * dx).
Proof. intros A B. unfold gradient. destruct (Nat.eqb_spec i 0); [lia|]. destruct (Nat.eqb_spec i (n - 1)); [lia|]. reflexivity. Qed.
(** ep + em = 2 Ey, ep - em = 2 c dA/dx; a potential that is a quadratic function of x - c t has no left-going part at any
    step size, one of x + c t no right-going part. *)
Theorem C104_split_quadratic : forall nx dx dt c x0 t al be ga i, (i < nx)%nat -> dx <> 0 -> dt <> 0 ->
  let P xi := al + be * xi + ga * xi ^ 2 in let X (k : nat) := x0 + INR k * dx in
  sv_em nx dx dt c (fun k => P (X k - c * t)) (fun k => P (X k - c * (t - dt))) i = 0 /\
  sv_ep nx dx dt c (fun k => P (X k + c * t)) (fun k => P (X k + c * (t - dt))) i = 0 /\
  sv_ep nx dx dt c (fun k => P (X k - c * t)) (fun k => P (X k - c * (t - dt))) i = 2 * c * (be + 2 * ga * (X (S i) - c * (t - dt / 2))).
Proof.
  intros nx dx dt c x0 t al be ga i Hi Hd Ht P X. unfold sv_em, sv_ep, sv_ey, sv_bz. rewrite !grad_inside by lia. replace (i + 1 + 1)%nat with (S (S i)) by lia. replace (i + 1 - 1)%nat with i by lia. replace (i + 1)%nat with (S i) by lia.
  unfold P, X. rewrite !S_INR. repeat split; field; split; assumption.
Qed.
Print Assumptions C104_split_quadratic.
Lemma sin_cos_lt u : 0 < u <= PI -> u * cos u < sin u.
Proof.
  intros [H L]. assert (D : forall x, derivable_pt_lim (fun x => sin x - x * cos x) x (x * sin x)).
  { intros x. replace (x * sin x) with (cos x - (1 * cos x + x * (- sin x))) by ring. apply derivable_pt_lim_minus; [apply derivable_pt_lim_sin|]. apply (derivable_pt_lim_mult (fun x => x) cos); [apply derivable_pt_lim_id|apply derivable_pt_lim_cos]. }
  destruct (MVT_cor2 (fun x => sin x - x * cos x) (fun x => x * sin x) 0 u H) as (c & E & C1 & C2); [intros; apply D|]. rewrite sin_0 in E.
  assert (0 < sin c) by (apply sin_gt_0; lra). assert (0 < c * sin c * (u - 0)) by (apply Rmult_lt_0_compat; [apply Rmult_lt_0_compat; lra|lra]). lra.
Qed.
Lemma cos_lower u : 1 - u ^ 2 / 2 <= cos u.
Proof.
  replace u with (2 * (u / 2)) at 2 by field. rewrite cos_2a_sin. pose proof (SIN_bound (u / 2)). assert (Q : sin (u / 2) ^ 2 <= (u / 2) ^ 2); [|nra].
  assert (G : forall x, 0 <= x -> sin x ^ 2 <= x ^ 2).
  { intros x Hx. pose proof (SIN_bound x). destruct (Rle_lt_dec 1 x); [nra|]. destruct (Req_dec x 0) as [->|N]; [rewrite sin_0; nra|]. assert (sin x < x) by (apply sin_lt_x; lra). assert (0 <= sin x) by (apply sin_ge_0; [lra|]; pose proof PI2_1; lra). nra. }
  destruct (Rle_lt_dec 0 (u / 2)); [now apply G|]. pose proof (G (- (u / 2)) ltac:(lra)) as Q. rewrite sin_neg in Q. nra.
Qed.
Lemma sin_lower w : 0 <= w -> w - w ^ 3 / 6 <= sin w.
Proof.
  intros Hw. destruct (Req_dec w 0) as [->|N]; [rewrite sin_0; lra|].
  assert (D : forall x, derivable_pt_lim (fun x => sin x - x + x ^ 3 / 6) x (cos x - 1 + x ^ 2 / 2)).
  { intros x. apply derivable_pt_lim_plus; [apply derivable_pt_lim_minus; [apply derivable_pt_lim_sin|apply derivable_pt_lim_id]|].
    replace (x ^ 2 / 2) with ((INR 3 * x ^ 2) * / 6 + x ^ 3 * 0) by (cbn [INR]; field). apply (derivable_pt_lim_mult (fun x => x ^ 3) (fun _ => / 6)); [apply (derivable_pt_lim_pow x 3)|apply derivable_pt_lim_const]. }
  destruct (MVT_cor2 _ _ 0 w ltac:(lra) (fun x _ => D x)) as (c & E & C1 & C2). cbv beta in E. rewrite sin_0 in E. pose proof (cos_lower c). assert (0 <= (cos c - 1 + c ^ 2 / 2) * (w - 0)) by (apply Rmult_le_pos; lra). lra.
Qed.
(** A sinusoidal wave going right at speed c: the two saved parts are one wave with two amplitudes. The amplitude of the
    wrong part is never zero for a resolved wave, and it is small of second order in k dx and k c dt. *)
Theorem C104_split_wave : forall nx dx dt c x0 t A k phi, 0 < dx -> 0 < dt -> 0 < c -> 0 < k ->
  let a s (j : nat) := A * cos (k * (x0 + INR j * dx - c * s) + phi) in
  let amp sg := 2 * sin (k * c * dt / 2) / dt + sg * c * sin (k * dx) * cos (k * c * dt / 2) / dx in
  (forall i, (i < nx)%nat -> let theta := k * (x0 + INR (S i) * dx - c * (t - dt / 2)) + phi in
     sv_ep nx dx dt c (a t) (a (t - dt)) i = - A * sin theta * amp 1 /\ sv_em nx dx dt c (a t) (a (t - dt)) i = - A * sin theta * amp (- (1))) /\
  (k * c * dt < PI -> 0 < amp (- (1)) <= k * c * ((k * dx) ^ 2 / 6 + (k * c * dt / 2) ^ 2 / 2)).
Proof.
  intros nx dx dt c x0 t A k phi Hx Ht Hc Hk a amp. split.
  - intros i Hi theta.
    assert (EA : forall m, a t m = A * cos (theta + (INR m - INR (S i)) * (k * dx) - k * c * dt / 2)) by (intros m; unfold a, theta; f_equal; f_equal; field).
    assert (EB : forall m, a (t - dt) m = A * cos (theta + (INR m - INR (S i)) * (k * dx) + k * c * dt / 2)) by (intros m; unfold a, theta; f_equal; f_equal; field).
    unfold sv_ep, sv_em, sv_ey, sv_bz. rewrite !grad_inside by lia. replace (i + 1 + 1)%nat with (S (S i)) by lia. replace (i + 1 - 1)%nat with i by lia. replace (i + 1)%nat with (S i) by lia.
    rewrite !EA, !EB. rewrite !S_INR. replace ((INR i + 1 - (INR i + 1)) * (k * dx)) with 0 by ring. replace ((INR i + 1 + 1 - (INR i + 1)) * (k * dx)) with (k * dx) by ring. replace ((INR i - (INR i + 1)) * (k * dx)) with (- (k * dx)) by ring.
    unfold amp. set (u := k * c * dt / 2). set (w := k * dx). clearbody theta u w. rewrite !Rplus_0_r.
    replace (theta + w - u) with ((theta - u) + w) by ring. replace (theta + - w - u) with ((theta - u) - w) by ring. replace (theta + w + u) with ((theta + u) + w) by ring. replace (theta + - w + u) with ((theta + u) - w) by ring.
    rewrite (cos_plus (theta - u) w), (cos_minus (theta - u) w), (cos_plus (theta + u) w), (cos_minus (theta + u) w). rewrite (sin_minus theta u), (sin_plus theta u), (cos_minus theta u), (cos_plus theta u). split; field; split; lra.
  - intros Hr. unfold amp. set (u := k * c * dt / 2). set (w := k * dx). assert (Pu : 0 < u) by (unfold u; assert (0 < k * c) by (now apply Rmult_lt_0_compat); nra). assert (Pw : 0 < w) by (unfold w; now apply Rmult_lt_0_compat).
    assert (Hu : u < PI / 2) by (unfold u; lra). pose proof PI_RGT_0.
    assert (ED : 2 * sin u / dt = k * c * (sin u / u)) by (unfold u; field; lra). assert (EW : c * sin w * cos u / dx = k * c * (sin w / w * cos u)) by (unfold w; field; lra).
    replace (2 * sin u / dt + - (1) * c * sin w * cos u / dx) with (2 * sin u / dt - c * sin w * cos u / dx) by (field; lra). rewrite ED, EW.
    assert (KC : 0 < k * c) by now apply Rmult_lt_0_compat. assert (CU : 0 < cos u) by (apply cos_gt_0; lra).
    assert (S1 : cos u < sin u / u) by (pose proof (sin_cos_lt u ltac:(lra)) as Q; apply Rmult_lt_reg_r with u; [exact Pu|]; replace (sin u / u * u) with (sin u) by (field; lra); lra).
    assert (S2 : sin w / w <= 1). { apply Rmult_le_reg_r with w; [exact Pw|]. replace (sin w / w * w) with (sin w) by (field; lra). pose proof (sin_lt_x w Pw). lra. }
    assert (S3 : sin u / u <= 1). { apply Rmult_le_reg_r with u; [exact Pu|]. replace (sin u / u * u) with (sin u) by (field; lra). pose proof (sin_lt_x u Pu). lra. }
    assert (S4 : 1 - w ^ 2 / 6 <= sin w / w). { apply Rmult_le_reg_r with w; [exact Pw|]. replace (sin w / w * w) with (sin w) by (field; lra). pose proof (sin_lower w ltac:(lra)). nra. }
    pose proof (cos_lower u). split.
    + assert (0 < sin u / u - sin w / w * cos u) by nra. nra.
    + assert (sin u / u - sin w / w * cos u <= w ^ 2 / 6 + u ^ 2 / 2); [|nra].
      pose proof (COS_bound u). assert (sin w / w * cos u >= (1 - w ^ 2 / 6) * cos u) by nra. assert (w ^ 2 / 6 * cos u <= w ^ 2 / 6) by nra. lra.
Qed.
Print Assumptions C104_split_wave.
(** So the claim that a right-going wave has no left-going part is false for every resolved sinusoidal wave. *)
Theorem C104_split_refuted : ~ forall nx dx dt c (g : R -> R) i, (i < nx)%nat -> 0 < dx -> 0 < dt -> 0 < c ->
  sv_em nx dx dt c (fun k => g (INR k * dx - c * 0)) (fun k => g (INR k * dx - c * (0 - dt))) i = 0.
Proof.
  intros H. destruct (C104_split_wave 1 1 1 1 0 0 1 1 (PI / 2 - 3 / 2) ltac:(lra) ltac:(lra) ltac:(lra) ltac:(lra)) as (W1 & W2).
  specialize (W1 0%nat ltac:(lia)). destruct W1 as (_ & W1). destruct W2 as (W2 & _); [pose proof PI2_1; lra|].
  specialize (H 1%nat 1 1 1 (fun z => 1 * cos (1 * z + (PI / 2 - 3 / 2))) 0%nat ltac:(lia) ltac:(lra) ltac:(lra) ltac:(lra)). cbv beta in H, W1.
  assert (E : sv_em 1 1 1 1 (fun k => 1 * cos (1 * (INR k * 1 - 1 * 0) + (PI / 2 - 3 / 2))) (fun k => 1 * cos (1 * (INR k * 1 - 1 * (0 - 1)) + (PI / 2 - 3 / 2))) 0 =
              sv_em 1 1 1 1 (fun j => 1 * cos (1 * (0 + INR j * 1 - 1 * 0) + (PI / 2 - 3 / 2))) (fun j => 1 * cos (1 * (0 + INR j * 1 - 1 * (0 - 1)) + (PI / 2 - 3 / 2))) 0).
  { f_equal; extensionality k; f_equal; f_equal; ring. }
  rewrite E, W1 in H. replace (1 * (0 + INR 1 * 1 - 1 * (0 - 1 / 2)) + (PI / 2 - 3 / 2)) with (PI / 2) in H by (cbn [INR]; field). rewrite sin_PI2 in H. lra.
Qed.
Print Assumptions C104_split_refuted.
