(** C72: VFP-1D heat-flux diagnostics and saved moments. *)
From Verif Require Import PyStr RSum Rk VGrid Drivers PicProofs PicLoadProofs DriftDiff DriftDiffProofs Vfp VfpProps HeatFlux.
Local Open Scope R_scope.

(** ** Specification *)
(** A plasma with positive profiles on a uniform grid; in spherical geometry the grid starts at a non-negative radius. *)
Definition physical (p : hf) : Prop :=
  (2 <= h_nx p)%nat /\ 0 < h_dx p /\ (forall i, h_x p (S i) = h_x p i + h_dx p) /\ (h_sph p = true -> 0 <= h_x p 0%nat - h_dx p / 2) /\
  (forall i, 0 < h_n p i /\ 0 < h_T p i /\ 0 < h_Z p i /\ 0 < h_ni p i) /\
  0 < n_ref p /\ 0 < T_ref p /\ 0 < Z_ref p /\ 0 < nuei_ref p /\ 0 < h_nuee p /\ 0 < h_loglam p /\ (1 <= h_groups p)%nat /\ 0 < h_bmax p /\ 0 < h_r p.
(** Divergence of an edge flux in a cell. *)
Definition divergence (p : hf) (q : nat -> R) (i : nat) : R := (s_area p (S i) * q (S i) - s_area p i * q i) / s_vol p i.

(** ** Geometry *)
Lemma edge_formula p e : physical p -> (e <= h_nx p)%nat -> hf_edge (h_nx p) (h_x p) (h_dx p) e = h_x p 0%nat - h_dx p / 2 + INR e * h_dx p.
Proof.
  intros (N & D & X & _) He. assert (F : forall i, h_x p i = h_x p 0%nat + INR i * h_dx p).
  { induction i as [|i IH]; [cbn; ring|]. rewrite X, IH, S_INR. ring. }
  unfold hf_edge. destruct (Nat.eqb_spec e 0) as [->|E0]; [cbn; ring|]. destruct (Nat.eqb_spec e (h_nx p)) as [->|E1].
  - rewrite F, minus_INR by lia. cbn [INR]. field.
  - rewrite (F e), (F (e - 1)%nat), minus_INR by lia. change (INR 1) with 1. field.
Qed.
Lemma s_area_nonneg p e : 0 <= s_area p e.
Proof. unfold s_area, hf_area. destruct (h_sph p); [apply pow2_ge_0|lra]. Qed.
Lemma s_vol_pos p i : physical p -> (i < h_nx p)%nat -> 0 < s_vol p i.
Proof.
  intros P Hi. pose proof P as (N & D & X & S0 & _). unfold s_vol, hf_vol. destruct (h_sph p); [|exact D]. specialize (S0 eq_refl).
  rewrite !edge_formula by (auto; lia). rewrite S_INR. set (r := h_x p 0%nat - h_dx p / 2 + INR i * h_dx p).
  replace (h_x p 0%nat - h_dx p / 2 + (INR i + 1) * h_dx p) with (r + h_dx p) by (unfold r; ring).
  assert (0 <= r) by (unfold r; pose proof (pos_INR i); nra).
  replace ((r + h_dx p) ^ 3 - r ^ 3) with (h_dx p * (3 * r ^ 2 + 3 * r * h_dx p + h_dx p ^ 2)) by ring.
  apply Rdiv_lt_0_compat; [|lra]. apply Rmult_lt_0_compat; [exact D|]. assert (0 < h_dx p ^ 2) by now apply pow_lt. nra.
Qed.
Lemma c2e_pos nx f e : (1 <= nx)%nat -> (forall i, 0 < f i) -> 0 < hf_c2e nx f e.
Proof. intros N F. unfold hf_c2e. pose proof (F 0%nat). pose proof (F (nx - 1)%nat). pose proof (F e). pose proof (F (e - 1)%nat). destruct (Nat.eqb e 0); [auto|]. destruct (Nat.eqb e nx); lra. Qed.
Lemma c2e_range nx f lo hi e : (forall i, (i < nx)%nat -> lo <= f i <= hi) -> (1 <= nx)%nat -> (e <= nx)%nat -> lo <= hf_c2e nx f e <= hi.
Proof.
  intros F N He. unfold hf_c2e. destruct (Nat.eqb_spec e 0); [apply F; lia|]. destruct (Nat.eqb_spec e nx); [apply F; lia|].
  pose proof (F e ltac:(lia)). pose proof (F (e - 1)%nat ltac:(lia)). lra.
Qed.

(** ** The table *)
Lemma table_increasing : PicLoadProofs.increasing 15 eh_Z.
Proof. intros i Hi. do 14 (destruct i as [|i]; [cbn; lra|]). lia. Qed.
Lemma interp_bounds n x f q lo hi : (1 <= n)%nat -> PicLoadProofs.increasing n x -> (forall i, (i < n)%nat -> lo <= f i <= hi) -> lo <= interp n x f q <= hi.
Proof.
  intros Hn I F. destruct (Nat.eq_dec n 1) as [->|N1]; [rewrite interp_one; apply F; lia|].
  destruct (Rlt_dec q (x 0%nat)) as [C|C]; [rewrite interp_below by exact C; apply F; lia|].
  destruct (Rlt_dec (x (n - 1)%nat) q) as [D|D]; [rewrite interp_above by auto; apply F; lia|].
  destruct (locate n x q) as (i & A & B); [lia|lra|]. rewrite (interp_at n x f q i) by auto.
  pose proof (F i ltac:(lia)). pose proof (F (S i) A). pose proof (slope_range _ _ _ (I i A) B) as T. set (t := (q - x i) / (x (S i) - x i)) in *.
  replace (f i + t * (f (S i) - f i)) with ((1 - t) * f i + t * f (S i)) by ring.
  split.
  - apply Rle_trans with ((1 - t) * lo + t * lo); [lra|]. apply Rplus_le_compat; apply Rmult_le_compat_l; lra.
  - apply Rle_trans with ((1 - t) * hi + t * hi); [|lra]. apply Rplus_le_compat; apply Rmult_le_compat_l; lra.
Qed.
(** The conductivity coefficient lies between 3.2 and 22.4 for every charge, is the table's ratio at its entries, and
    constant outside. *)
Lemma g0p_bounds q : 618 / 100 <= interp 15 eh_Z eh_g0p q <= 102 / 10.
Proof. apply interp_bounds; [lia|exact table_increasing|]. intros i Hi. do 15 (destruct i as [|i]; [cbn; lra|]). lia. Qed.
Lemma c0p_bounds q : 457 / 1000 <= interp 15 eh_Z eh_c0p q <= 193 / 100.
Proof. apply interp_bounds; [lia|exact table_increasing|]. intros i Hi. do 15 (destruct i as [|i]; [cbn; lra|]). lia. Qed.
Theorem C72_table : forall Z, 32 / 10 < calc_EH Z < 224 / 10 /\
  (forall i, (i < 15)%nat -> Z = eh_Z i -> calc_EH Z = eh_g0p i / eh_c0p i) /\ (Z < 1 -> calc_EH Z = calc_EH 1) /\ (1000001 < Z -> calc_EH Z = calc_EH 1000001).
Proof.
  assert (A : forall f i, (i < 15)%nat -> interp 15 eh_Z f (eh_Z i) = f i).
  { intros f i Hi. destruct (Nat.eq_dec i 14) as [->|N].
    - rewrite (interp_at 15 eh_Z f _ 13) by (first [exact table_increasing|lia|cbn; lra]). replace (eh_Z 14 - eh_Z 13) with (1000001 - 60) by (cbn; ring). replace ((1000001 - 60) / (1000001 - 60)) with 1 by (field; lra). ring.
    - pose proof (table_increasing i ltac:(lia)). rewrite (interp_at 15 eh_Z f _ i) by (first [exact table_increasing|lia|lra]). unfold Rdiv. rewrite Rminus_diag_eq by reflexivity. ring. }
  intros Z. unfold calc_EH. split; [|split; [|split]].
  - pose proof (g0p_bounds Z). pose proof (c0p_bounds Z). set (a := interp 15 eh_Z eh_g0p Z) in *. set (b := interp 15 eh_Z eh_c0p Z) in *. split.
    + apply Rmult_lt_reg_r with b; [lra|]. replace (a / b * b) with a by (field; lra). lra.
    + apply Rmult_lt_reg_r with b; [lra|]. replace (a / b * b) with a by (field; lra). lra.
  - intros i Hi ->. rewrite !A by exact Hi. reflexivity.
  - intros H. rewrite !interp_below by exact H. pose proof (A eh_g0p 0%nat ltac:(lia)) as A1. pose proof (A eh_c0p 0%nat ltac:(lia)) as A2. change (eh_Z 0) with 1 in A1, A2. rewrite A1, A2. reflexivity.
  - intros H. rewrite !(interp_above 15 eh_Z) by (first [exact table_increasing|lia|exact H]). pose proof (A eh_g0p 14%nat ltac:(lia)) as A1. pose proof (A eh_c0p 14%nat ltac:(lia)) as A2. change (eh_Z 14) with 1000001 in A1, A2. rewrite A1, A2. reflexivity.
Qed.
Print Assumptions C72_table.

(** ** Spitzer-Haerm *)
Lemma chi_pos p i : physical p -> 0 < chi p i.
Proof.
  intros (_ & _ & _ & _ & F & A & B & C & D & _). destruct (F i) as (N & T & Z & _). destruct (C72_table (h_Z p i)) as ((H & _) & _).
  assert (0 < nu_local p i).
  { unfold nu_local. apply Rmult_lt_0_compat; [|unfold Rpower; apply exp_pos]. apply Rmult_lt_0_compat; [apply Rmult_lt_0_compat; [exact D|]|]; now apply Rdiv_lt_0_compat. }
  unfold chi. apply Rdiv_lt_0_compat; [|assumption]. apply Rmult_lt_0_compat; [apply Rmult_lt_0_compat; [lra|exact N]|exact T].
Qed.
(** Heat flows from hot to cold across every interior edge, vanishes exactly where the two temperatures agree, and no
    heat crosses the two ends. *)
Theorem C72_downhill : forall p, physical p -> q_sh p 0%nat = 0 /\ q_sh p (h_nx p) = 0 /\
  forall e, (0 < e < h_nx p)%nat -> (h_T p (e - 1)%nat < h_T p e -> q_sh p e < 0) /\ (h_T p e < h_T p (e - 1)%nat -> 0 < q_sh p e) /\ (h_T p e = h_T p (e - 1)%nat -> q_sh p e = 0).
Proof.
  intros p P. pose proof P as (N & D & _). unfold q_sh, hf_ddx. split; [cbn; ring|]. split.
  - rewrite Nat.eqb_refl. destruct (Nat.eqb (h_nx p) 0); ring.
  - intros e He. destruct (Nat.eqb_spec e 0); [lia|]. destruct (Nat.eqb_spec e (h_nx p)); [lia|].
    pose proof (c2e_pos (h_nx p) (chi p) e ltac:(lia) (fun i => chi_pos p i P)) as C. split; [|split]; intros H.
    + assert (0 < (h_T p e - h_T p (e - 1)%nat) / h_dx p) by (apply Rdiv_lt_0_compat; lra). nra.
    + replace (- hf_c2e (h_nx p) (chi p) e * ((h_T p e - h_T p (e - 1)%nat) / h_dx p)) with (hf_c2e (h_nx p) (chi p) e * ((h_T p (e - 1)%nat - h_T p e) / h_dx p)) by (field; lra).
      apply Rmult_lt_0_compat; [exact C|]. apply Rdiv_lt_0_compat; lra.
    + rewrite H. unfold Rdiv. ring.
Qed.
Print Assumptions C72_downhill.

(** ** Group weights *)
Lemma cdf_0 : cdf 0 = 0.
Proof. unfold cdf. rewrite Ropp_0, exp_0. field. Qed.
Lemma cdf_deriv b : derivable_pt_lim cdf b (b ^ 4 * exp (- b) / 24).
Proof.
  set (P := fun b => 1 + b + b ^ 2 / 2 + b ^ 3 / 6 + b ^ 4 / 24).
  assert (DP : derivable_pt_lim P b (1 + b + b ^ 2 / 2 + b ^ 3 / 6)).
  { assert (E : P = ((((fct_cte 1 + id) + mult_real_fct (1 / 2) (fun x => x ^ 2)) + mult_real_fct (1 / 6) (fun x => x ^ 3)) + mult_real_fct (1 / 24) (fun x => x ^ 4))%F).
    { apply FunctionalExtensionality.functional_extensionality. intros x. unfold P, plus_fct, mult_real_fct, fct_cte, id. field. }
    rewrite E. replace (1 + b + b ^ 2 / 2 + b ^ 3 / 6) with ((((0 + 1) + 1 / 2 * (INR 2 * b ^ pred 2)) + 1 / 6 * (INR 3 * b ^ pred 3)) + 1 / 24 * (INR 4 * b ^ pred 4)) by (cbn [pred]; change (INR 2) with 2; change (INR 3) with (1 + 1 + 1); change (INR 4) with (1 + 1 + 1 + 1); field).
    repeat apply derivable_pt_lim_plus; try (apply derivable_pt_lim_scal; apply derivable_pt_lim_pow); [apply derivable_pt_lim_const|apply derivable_pt_lim_id]. }
  assert (DE : derivable_pt_lim (fun x => exp (- x)) b (- exp (- b))).
  { replace (- exp (- b)) with (exp (- b) * - 1) by ring. apply (derivable_pt_lim_comp (- id)%F exp); [|apply derivable_pt_lim_exp]. replace (- 1) with (- (1)) by ring. apply derivable_pt_lim_opp, derivable_pt_lim_id. }
  replace (b ^ 4 * exp (- b) / 24) with (0 - (- exp (- b) * P b + exp (- b) * (1 + b + b ^ 2 / 2 + b ^ 3 / 6))) by (unfold P; field).
  change cdf with (fct_cte 1 - ((fun x => exp (- x)) * P))%F. apply derivable_pt_lim_minus; [apply derivable_pt_lim_const|]. now apply (derivable_pt_lim_mult (fun x => exp (- x)) P).
Qed.
Lemma cdf_mono a b : a <= b -> cdf a <= cdf b.
Proof.
  intros H. destruct (Req_dec a b) as [->|N]; [lra|].
  destruct (MVT_cor2 cdf (fun b => b ^ 4 * exp (- b) / 24) a b) as (c & E & _); [lra|intros; apply cdf_deriv|].
  assert (0 <= c ^ 4) by (replace (c ^ 4) with ((c ^ 2) ^ 2) by ring; apply pow2_ge_0). pose proof (exp_pos (- c)).
  assert (0 <= c ^ 4 * exp (- c) / 24 * (b - a)) by (apply Rmult_le_pos; [|lra]; unfold Rdiv; apply Rmult_le_pos; [|lra]; apply Rmult_le_pos; lra). lra.
Qed.
Lemma cdf_lt1 b : 0 <= b -> cdf b < 1.
Proof. intros H. unfold cdf. assert (0 < exp (- b)) by apply exp_pos. assert (1 <= 1 + b + b ^ 2 / 2 + b ^ 3 / 6 + b ^ 4 / 24) by (pose proof (pow_le b 2 H); pose proof (pow_le b 3 H); pose proof (pow_le b 4 H); lra). nra. Qed.
Lemma maxf_ge n f i : (i <= n)%nat -> f i <= maxf n f.
Proof. induction n as [|n IH]; intros H; cbn [maxf]; [replace i with 0%nat by lia; lra|]. destruct (Nat.eq_dec i (S n)) as [->|N]; [apply Rmax_r|]. apply Rle_trans with (maxf n f); [apply IH; lia|apply Rmax_l]. Qed.
Lemma eps_formula p k : physical p -> eps_edge p k = INR k * (h_bmax p * maxf (h_nx p - 1) (h_T p) / INR (h_groups p)).
Proof.
  intros (_ & _ & _ & _ & _ & _ & _ & _ & _ & _ & _ & G & _). unfold eps_edge, linspace. destruct (Nat.leb_spec (h_groups p + 1) 1); [lia|].
  replace (h_groups p + 1 - 1)%nat with (h_groups p) by lia. field. apply not_0_INR. lia.
Qed.
Lemma eps_unit_pos p : physical p -> 0 < h_bmax p * maxf (h_nx p - 1) (h_T p) / INR (h_groups p).
Proof.
  intros (_ & _ & _ & _ & F & _ & _ & _ & _ & _ & _ & G & B & _). destruct (F 0%nat) as (_ & T & _). pose proof (maxf_ge (h_nx p - 1) (h_T p) 0 ltac:(lia)).
  apply Rdiv_lt_0_compat; [apply Rmult_lt_0_compat; lra|]. apply lt_0_INR. lia.
Qed.
Lemma eps_c_pos p k : physical p -> 0 < eps_c p k.
Proof. intros P. unfold eps_c. rewrite !eps_formula by exact P. pose proof (eps_unit_pos p P). rewrite S_INR. pose proof (pos_INR k). nra. Qed.
Lemma T_edge_pos p e : physical p -> 0 < hf_c2e (h_nx p) (h_T p) e.
Proof. intros (N & _ & _ & _ & F & _). apply c2e_pos; [lia|]. intros i. apply F. Qed.
(** The groups share out the Spitzer-Haerm flux: every weight is non-negative, together they are the fraction of the
    spectrum below the largest group energy, which is at least the fraction below beta_max and always below one. *)
Theorem C72_weights : forall p, physical p -> forall e, (e <= h_nx p)%nat ->
  (forall k, (k < h_groups p)%nat -> 0 <= w_group p k e) /\
  rsum (h_groups p) (fun k => w_group p k e) = cdf (h_bmax p * maxf (h_nx p - 1) (h_T p) / hf_c2e (h_nx p) (h_T p) e) /\
  cdf (h_bmax p) <= rsum (h_groups p) (fun k => w_group p k e) < 1.
Proof.
  intros p P e He. pose proof (T_edge_pos p e P) as T. pose proof (eps_unit_pos p P) as U. pose proof P as (N & _ & _ & _ & F & _ & _ & _ & _ & _ & _ & G & B & _).
  assert (W : rsum (h_groups p) (fun k => w_group p k e) = cdf (h_bmax p * maxf (h_nx p - 1) (h_T p) / hf_c2e (h_nx p) (h_T p) e)).
  { unfold w_group. rewrite (rsum_telescope (h_groups p) (fun k => cdf (eps_edge p k / hf_c2e (h_nx p) (h_T p) e))). rewrite !eps_formula by exact P.
    change (INR 0) with 0. rewrite Rmult_0_l. unfold Rdiv at 3. rewrite Rmult_0_l, cdf_0. rewrite Rminus_0_r. f_equal. field. split; [lra|]. apply not_0_INR. lia. }
  split; [|split; [exact W|rewrite W; split]].
  - intros k _. unfold w_group. assert (cdf (eps_edge p k / hf_c2e (h_nx p) (h_T p) e) <= cdf (eps_edge p (S k) / hf_c2e (h_nx p) (h_T p) e)); [|lra].
    apply cdf_mono. unfold Rdiv. apply Rmult_le_compat_r; [apply Rlt_le, Rinv_0_lt_compat; exact T|]. rewrite !eps_formula by exact P. rewrite S_INR. lra.
  - apply cdf_mono. assert (hf_c2e (h_nx p) (h_T p) e <= maxf (h_nx p - 1) (h_T p)).
    { apply (c2e_range (h_nx p) (h_T p) 0 (maxf (h_nx p - 1) (h_T p)) e); [|lia|exact He]. intros i Hi. split; [apply Rlt_le, F|]. apply maxf_ge. lia. }
    apply Rmult_le_reg_r with (hf_c2e (h_nx p) (h_T p) e); [exact T|]. unfold Rdiv. rewrite !Rmult_assoc, Rinv_l by lra. apply Rmult_le_compat_l; lra.
  - apply cdf_lt1. apply Rlt_le, Rdiv_lt_0_compat; [|exact T]. destruct (F 0%nat) as (_ & T0 & _). pose proof (maxf_ge (h_nx p - 1) (h_T p) 0 ltac:(lia)). apply Rmult_lt_0_compat; lra.
Qed.
Print Assumptions C72_weights.

(** ** The SNB system *)
Lemma lam_ee_pos p k i : physical p -> 0 < lam_ee p k i.
Proof.
  intros P. pose proof (eps_c_pos p k P). destruct P as (_ & _ & _ & _ & F & _ & _ & _ & _ & Q & _). destruct (F i) as (N & _). unfold lam_ee.
  apply Rdiv_lt_0_compat; [apply pow_lt; lra|now apply Rmult_lt_0_compat].
Qed.
Lemma D_e_pos p k e : physical p -> 0 < D_e p k e.
Proof.
  intros P. pose proof (eps_c_pos p k P). destruct P as (Nx & _ & _ & _ & F & _ & _ & _ & _ & Q & L & _). unfold D_e, lam_ei.
  apply Rdiv_lt_0_compat; [|lra]. apply Rmult_lt_0_compat.
  - apply c2e_pos; [lia|]. intros i. destruct (F i) as (_ & _ & Z & _). apply Rdiv_lt_0_compat; lra.
  - apply Rdiv_lt_0_compat; [apply pow_lt; lra|]. apply Rmult_lt_0_compat; [now apply Rmult_lt_0_compat|]. apply c2e_pos; [lia|].
    intros i. destruct (F i) as (_ & _ & Z & NI). apply Rmult_lt_0_compat; [now apply pow_lt|exact NI].
Qed.
Lemma conduct_nonneg p k j : physical p -> 0 <= conduct p k j.
Proof. intros P. pose proof (D_e_pos p k (S j) P). pose proof (s_area_nonneg p (S j)). destruct P as (_ & D & _). unfold conduct, Rdiv. apply Rmult_le_pos; [apply Rmult_le_pos; lra|]. apply Rlt_le, Rinv_0_lt_compat, D. Qed.
Definition scaled (p : hf) (k : nat) : tridiagonal :=
  assemble (h_nx p) 1 1 (fun i => lam_ee p k i / (h_r p * s_vol p i)) (conduct p k) (fun j => - conduct p k j).
Lemma row_scaled p k H i : physical p -> (i < h_nx p)%nat -> mv (h_nx p) (snb_matrix p k) H i = h_r p / lam_ee p k i * mv (h_nx p) (scaled p k) H i.
Proof.
  intros P Hi. pose proof (lam_ee_pos p k i P) as L. pose proof (s_vol_pos p i P Hi) as V. assert (R0 : 0 < h_r p) by apply P.
  unfold mv, scaled, assemble, snb_matrix. cbn [diagonal upper lower].
  destruct i as [|j]; destruct (Nat.ltb _ (h_nx p)); field; repeat split; lra.
Qed.
Lemma row_flux p k H i : physical p -> (i < h_nx p)%nat ->
  mv (h_nx p) (snb_matrix p k) H i = h_r p / lam_ee p k i * H i - divergence p (fun e => D_e p k e * hf_ddx (h_nx p) (h_dx p) H e) i.
Proof.
  intros P Hi. rewrite row_scaled by assumption. unfold scaled. rewrite assemble_mv by exact Hi. pose proof (lam_ee_pos p k i P) as L. pose proof (s_vol_pos p i P Hi) as V.
  assert (R0 : 0 < h_r p) by apply P. assert (D0 : 0 < h_dx p) by apply P.
  assert (FL : forall j, (j < h_nx p)%nat -> flux (h_nx p) (conduct p k) (fun j => - conduct p k j) H j = s_area p (S j) * (D_e p k (S j) * hf_ddx (h_nx p) (h_dx p) H (S j))).
  { intros j Hj. unfold flux, hf_ddx, conduct. cbn [Nat.eqb Nat.sub]. rewrite Nat.sub_0_r. destruct (Nat.ltb_spec (S j) (h_nx p)) as [A|A].
    - destruct (match h_nx p with O => false | S m => Nat.eqb j m end) eqn:E; [destruct (h_nx p); [lia|apply Nat.eqb_eq in E; lia]|]. field. lra.
    - destruct (match h_nx p with O => false | S m => Nat.eqb j m end) eqn:E; [ring|]. destruct (h_nx p); [lia|]. apply Nat.eqb_neq in E. lia. }
  assert (FR : flux_left (h_nx p) (conduct p k) (fun j => - conduct p k j) H i = s_area p i * (D_e p k i * hf_ddx (h_nx p) (h_dx p) H i)).
  { destruct i as [|j]; cbn [flux_left]; [unfold hf_ddx; cbn; ring|]. apply FL. lia. }
  rewrite FR, FL by exact Hi. unfold divergence. field. repeat split; lra.
Qed.
Lemma scaled_signs p k : physical p ->
  (forall i, (i < h_nx p)%nat -> 0 <= 1 * (lam_ee p k i / (h_r p * s_vol p i)) / 1) /\ (forall j, (S j < h_nx p)%nat -> 0 <= conduct p k j) /\ (forall j, (S j < h_nx p)%nat -> - conduct p k j <= 0).
Proof.
  intros P. split; [|split; intros j _; pose proof (conduct_nonneg p k j P); lra]. intros i Hi. pose proof (lam_ee_pos p k i P). pose proof (s_vol_pos p i P Hi). assert (0 < h_r p) by apply P.
  assert (0 < lam_ee p k i / (h_r p * s_vol p i)) by (apply Rdiv_lt_0_compat; [|apply Rmult_lt_0_compat]; assumption). lra.
Qed.
(** The banded systems always have exactly one solution, so solve_banded never meets a singular matrix. *)
Theorem C72_snb_solvable : forall p, physical p -> exists H, snb_solution p H /\
  forall H', snb_solution p H' -> forall k i, (k < h_groups p)%nat -> (i < h_nx p)%nat -> H' k i = H k i.
Proof.
  intros p P. assert (R0 : 0 < h_r p) by apply P.
  assert (EX : forall m, exists H : nat -> nat -> R, forall k i, (k < m)%nat -> (i < h_nx p)%nat -> mv (h_nx p) (scaled p k) (H k) i = lam_ee p k i / h_r p * snb_src p k i).
  { induction m as [|m (H & IH)]; [exists (fun _ _ => 0); intros; lia|]. destruct (scaled_signs p m P) as (S1 & S2 & S3).
    destruct (solution_exists _ _ _ _ _ _ S1 S2 S3 (fun i => lam_ee p m i / h_r p * snb_src p m i)) as (h & Hh). exists (fun k => if Nat.eqb k m then h else H k).
    intros k i Hk Hi. destruct (Nat.eqb_spec k m) as [->|N]; [exact (Hh i Hi)|apply IH; lia]. }
  assert (EQV : forall k h i, (i < h_nx p)%nat -> mv (h_nx p) (snb_matrix p k) h i = snb_src p k i <-> mv (h_nx p) (scaled p k) h i = lam_ee p k i / h_r p * snb_src p k i).
  { intros k h i Hi. rewrite row_scaled by assumption. pose proof (lam_ee_pos p k i P). split; intros E.
    - rewrite <- E. field. split; lra.
    - rewrite E. field. split; lra. }
  destruct (EX (h_groups p)) as (H & HH). exists H. split.
  - intros k i Hk Hi. apply EQV; auto.
  - intros H' S' k i Hk Hi. destruct (scaled_signs p k P) as (S1 & S2 & S3).
    apply (solution_unique _ _ _ _ _ _ S1 S2 S3 (fun i => lam_ee p k i / h_r p * snb_src p k i)); [| |exact Hi]; intros j Hj; [apply EQV; auto|apply (HH k j); auto].
Qed.
Print Assumptions C72_snb_solvable.

(** The non-local flux satisfies the discrete conservation law the method discretises: its divergence is that of the
    part of the Spitzer-Haerm flux above the largest group energy minus the local losses of the groups. *)
Lemma divergence_minus p q q' i : divergence p (fun e => q e - q' e) i = divergence p q i - divergence p q' i.
Proof. unfold divergence, Rdiv. ring. Qed.
Lemma divergence_sum p n q i : divergence p (fun e => rsum n (fun k => q k e)) i = rsum n (fun k => divergence p (q k) i).
Proof. induction n as [|n IH]; cbn [rsum]; [unfold divergence, Rdiv; ring|]. rewrite <- IH. unfold divergence, Rdiv. ring. Qed.
Theorem C72_snb_balance : forall p H i, physical p -> snb_solution p H -> (i < h_nx p)%nat ->
  divergence p (q_snb p H) i = divergence p (fun e => (1 - rsum (h_groups p) (fun k => w_group p k e)) * q_sh p e) i - rsum (h_groups p) (fun k => h_r p / lam_ee p k i * H k i).
Proof.
  intros p H i P S Hi. unfold q_snb. rewrite divergence_minus, (divergence_sum p (h_groups p) (fun k e => D_e p k e * hf_ddx (h_nx p) (h_dx p) (H k) e)).
  rewrite (rsum_ext (h_groups p) (fun k => divergence p (fun e => D_e p k e * hf_ddx (h_nx p) (h_dx p) (H k) e) i) (fun k => h_r p / lam_ee p k i * H k i + divergence p (fun e => w_group p k e * q_sh p e) i)).
  - rewrite rsum_plus, <- (divergence_sum p (h_groups p) (fun k e => w_group p k e * q_sh p e)).
    assert (E : divergence p (fun e => (1 - rsum (h_groups p) (fun k => w_group p k e)) * q_sh p e) i = divergence p (q_sh p) i - divergence p (fun e => rsum (h_groups p) (fun k => w_group p k e * q_sh p e)) i).
    { unfold divergence. rewrite !rsum_scal_r. unfold Rdiv. ring. }
    rewrite E. ring.
  - intros k Hk. pose proof (S k i Hk Hi) as E. rewrite row_flux in E by assumption. unfold snb_src in E. unfold divergence in *. unfold Rdiv in *. lra.
Qed.
Print Assumptions C72_snb_balance.
Lemma divergence_total p q : physical p -> rsum (h_nx p) (fun i => s_vol p i * divergence p q i) = s_area p (h_nx p) * q (h_nx p) - s_area p 0%nat * q 0%nat.
Proof.
  intros P. rewrite (rsum_ext _ _ (fun i => s_area p (S i) * q (S i) - s_area p i * q i)).
  - exact (rsum_telescope (h_nx p) (fun i => s_area p i * q i)).
  - intros i Hi. pose proof (s_vol_pos p i P Hi). unfold divergence. field. lra.
Qed.
(** No heat leaves through the ends: both fluxes vanish there, the volume sum of their divergences is zero, and each
    group's losses sum to zero over the plasma. *)
Lemma ddx_ends nx dx f : hf_ddx nx dx f 0%nat = 0 /\ hf_ddx nx dx f nx = 0.
Proof. unfold hf_ddx. split; [reflexivity|]. rewrite Nat.eqb_refl. destruct (Nat.eqb nx 0); reflexivity. Qed.
Lemma snb_ends p H : q_snb p H 0%nat = 0 /\ q_snb p H (h_nx p) = 0.
Proof.
  unfold q_snb, q_sh. destruct (ddx_ends (h_nx p) (h_dx p) (h_T p)) as (A & B). rewrite A, B. split.
  - rewrite (rsum_ext _ _ (fun _ => 0)); [rewrite rsum_zero; ring|]. intros k _. rewrite (proj1 (ddx_ends _ _ _)). ring.
  - rewrite (rsum_ext _ _ (fun _ => 0)); [rewrite rsum_zero; ring|]. intros k _. rewrite (proj2 (ddx_ends _ _ _)). ring.
Qed.
Theorem C72_closed : forall p H, physical p ->
  (q_sh p 0%nat = 0 /\ q_sh p (h_nx p) = 0) /\ (q_snb p H 0%nat = 0 /\ q_snb p H (h_nx p) = 0) /\
  rsum (h_nx p) (fun i => s_vol p i * divergence p (q_sh p) i) = 0 /\ rsum (h_nx p) (fun i => s_vol p i * divergence p (q_snb p H) i) = 0 /\
  (snb_solution p H -> forall k, (k < h_groups p)%nat -> rsum (h_nx p) (fun i => s_vol p i * (h_r p / lam_ee p k i * H k i)) = 0).
Proof.
  intros p H P. destruct (C72_downhill p P) as (A & B & _). destruct (snb_ends p H) as (C & D).
  split; [now split|]. split; [now split|]. split; [rewrite divergence_total by exact P; rewrite A, B; ring|]. split; [rewrite divergence_total by exact P; rewrite C, D; ring|].
  intros S k Hk. rewrite (rsum_ext _ _ (fun i => s_vol p i * divergence p (fun e => D_e p k e * hf_ddx (h_nx p) (h_dx p) (H k) e - w_group p k e * q_sh p e) i)).
  - rewrite divergence_total by exact P. destruct (ddx_ends (h_nx p) (h_dx p) (H k)) as (E1 & E2). rewrite A, B, E1, E2. ring.
  - intros i Hi. f_equal. pose proof (S k i Hk Hi) as E. rewrite row_flux in E by assumption. rewrite divergence_minus. unfold snb_src in E. unfold divergence in *. unfold Rdiv in *. lra.
Qed.
Print Assumptions C72_closed.
(** A plasma of one temperature carries no heat, whatever its density and charge profiles. *)
Lemma zero_solution p k H : physical p -> (forall i, (i < h_nx p)%nat -> mv (h_nx p) (snb_matrix p k) H i = 0) -> forall i, (i < h_nx p)%nat -> H i = 0.
Proof.
  intros P E. destruct (scaled_signs p k P) as (S1 & S2 & S3). apply (solution_unique _ _ _ _ _ _ S1 S2 S3 (fun _ => 0)).
  - intros i Hi. specialize (E i Hi). rewrite row_scaled in E by assumption. pose proof (lam_ee_pos p k i P). assert (0 < h_r p) by apply P.
    apply Rmult_integral in E. destruct E as [E|E]; [|exact E]. assert (0 < h_r p / lam_ee p k i) by now apply Rdiv_lt_0_compat. lra.
  - intros i Hi. rewrite assemble_mv by exact Hi. unfold flux_left, flux. destruct i as [|j]; destruct (Nat.ltb _ _); [ring|ring| |]; destruct (Nat.ltb _ _); ring.
Qed.
Theorem C72_uniform : forall p H, physical p -> snb_solution p H -> (forall i, (i < h_nx p)%nat -> h_T p i = h_T p 0%nat) ->
  forall e, (e <= h_nx p)%nat -> q_sh p e = 0 /\ q_snb p H e = 0.
Proof.
  intros p H P S T. assert (Q : forall e, (e <= h_nx p)%nat -> q_sh p e = 0).
  { intros e He. unfold q_sh, hf_ddx. destruct (Nat.eqb_spec e 0); [ring|]. destruct (Nat.eqb_spec e (h_nx p)); [ring|]. rewrite (T e), (T (e - 1)%nat) by lia. unfold Rdiv. ring. }
  assert (Z : forall k i, (k < h_groups p)%nat -> (i < h_nx p)%nat -> H k i = 0).
  { intros k i Hk. revert i. apply (zero_solution p k); [exact P|]. intros i Hi. rewrite (S k i Hk Hi). unfold snb_src. rewrite !Q by lia. unfold Rdiv. ring. }
  intros e He. split; [now apply Q|]. unfold q_snb. rewrite Q by exact He. rewrite (rsum_ext _ _ (fun _ => 0)); [rewrite rsum_zero; ring|].
  intros k Hk. unfold hf_ddx. destruct (Nat.eqb_spec e 0); [ring|]. destruct (Nat.eqb_spec e (h_nx p)); [ring|]. rewrite !Z by lia. unfold Rdiv. ring.
Qed.
Print Assumptions C72_uniform.
(** Local limit, with an explicit bound: where the source of each group times its mean free path is at most r M, the
    group's correction is at most M, and the non-local flux differs from Spitzer-Haerm by at most 2 sum (D M) / dx; both
    vanish as the mean free paths do. *)
Theorem C72_local_limit : forall p H M, physical p -> snb_solution p H ->
  (forall k i, (k < h_groups p)%nat -> (i < h_nx p)%nat -> Rabs (lam_ee p k i * snb_src p k i) <= h_r p * M k) ->
  (forall k i, (k < h_groups p)%nat -> (i < h_nx p)%nat -> Rabs (H k i) <= M k) /\
  (forall e, (e <= h_nx p)%nat -> Rabs (q_snb p H e - q_sh p e) <= 2 / h_dx p * rsum (h_groups p) (fun k => D_e p k e * M k)).
Proof.
  intros p H M P S B. assert (R0 : 0 < h_r p) by apply P. assert (D0 : 0 < h_dx p) by apply P.
  assert (HB : forall k i, (k < h_groups p)%nat -> (i < h_nx p)%nat -> Rabs (H k i) <= M k).
  { intros k i Hk Hi. destruct (scaled_signs p k P) as (S1 & S2 & S3).
    assert (C : forall j, (j < h_nx p)%nat -> mv (h_nx p) (scaled p k) (fun _ => M k) j = M k).
    { intros j Hj. unfold scaled. rewrite assemble_mv by exact Hj. unfold flux_left, flux. destruct j as [|j]; destruct (Nat.ltb _ _); [ring|ring| |]; destruct (Nat.ltb _ _); ring. }
    assert (E : forall j, (j < h_nx p)%nat -> Rabs (mv (h_nx p) (scaled p k) (H k) j) <= M k).
    { intros j Hj. pose proof (S k j Hk Hj) as Q. rewrite row_scaled in Q by assumption. pose proof (lam_ee_pos p k j P).
      replace (mv (h_nx p) (scaled p k) (H k) j) with (/ h_r p * (lam_ee p k j * snb_src p k j)) by (rewrite <- Q; field; split; lra).
      rewrite Rabs_mult, (Rabs_pos_eq (/ h_r p)) by (apply Rlt_le, Rinv_0_lt_compat; exact R0).
      apply Rmult_le_reg_l with (h_r p); [exact R0|]. rewrite <- Rmult_assoc, Rinv_r, Rmult_1_l by lra. now apply B. }
    assert (U : 0 <= M k - H k i).
    { apply (solution_nonneg _ _ _ _ _ _ S1 S2 S3 (fun j => M k - mv (h_nx p) (scaled p k) (H k) j) (fun j => M k - H k j)); [| |exact Hi].
      - intros j Hj. rewrite (mv_minus (h_nx p) _ (fun _ => M k) (H k)). unfold scaled in C |- *. rewrite C by exact Hj. reflexivity.
      - intros j Hj. specialize (E j Hj). apply Rabs_def2_le in E || (unfold Rabs in E; destruct (Rcase_abs _) in E; lra). }
    assert (L : 0 <= M k + H k i).
    { apply (solution_nonneg _ _ _ _ _ _ S1 S2 S3 (fun j => M k + mv (h_nx p) (scaled p k) (H k) j) (fun j => M k + H k j)); [| |exact Hi].
      - intros j Hj. rewrite (mv_plus (h_nx p) _ (fun _ => M k) (H k)). unfold scaled in C |- *. rewrite C by exact Hj. reflexivity.
      - intros j Hj. specialize (E j Hj). unfold Rabs in E; destruct (Rcase_abs _) in E; lra. }
    apply Rabs_le. lra. }
  split; [exact HB|]. intros e He. unfold q_snb. replace (q_sh p e - _ - q_sh p e) with (- rsum (h_groups p) (fun k => D_e p k e * hf_ddx (h_nx p) (h_dx p) (H k) e)) by ring.
  rewrite Rabs_Ropp. eapply Rle_trans; [apply rsum_abs|]. rewrite <- rsum_scal. apply rsum_le. intros k Hk.
  rewrite Rabs_mult, (Rabs_pos_eq (D_e p k e)) by (apply Rlt_le, D_e_pos; exact P). replace (2 / h_dx p * (D_e p k e * M k)) with (D_e p k e * (2 * M k / h_dx p)) by (field; lra).
  apply Rmult_le_compat_l; [apply Rlt_le, D_e_pos; exact P|]. pose proof (HB k 0%nat Hk ltac:(destruct P as (N & _); lia)) as M0. pose proof (Rabs_pos (H k 0%nat)) as M1.
  assert (MP : 0 <= 2 * M k / h_dx p) by (unfold Rdiv; apply Rmult_le_pos; [lra|]; apply Rlt_le, Rinv_0_lt_compat, D0).
  unfold hf_ddx. destruct (Nat.eqb_spec e 0); [rewrite Rabs_R0; exact MP|]. destruct (Nat.eqb_spec e (h_nx p)); [rewrite Rabs_R0; exact MP|].
  unfold Rdiv. rewrite Rabs_mult. rewrite (Rabs_pos_eq (/ h_dx p)) by (apply Rlt_le, Rinv_0_lt_compat, D0). apply Rmult_le_compat_r; [apply Rlt_le, Rinv_0_lt_compat, D0|].
  eapply Rle_trans; [apply Rabs_triang|]. rewrite Rabs_Ropp. pose proof (HB k e Hk ltac:(lia)). pose proof (HB k (e - 1)%nat Hk ltac:(lia)). lra.
Qed.
Print Assumptions C72_local_limit.

(** ** Saved moments *)
Lemma v_at_le g i : usable g -> (i < n_v g)%nat -> v_at g i <= v_max g.
Proof.
  intros U Hi. rewrite v_formula by exact U. pose proof (dv_pos g U) as D. assert (E : v_max g = INR (n_v g) * d_v g) by (unfold d_v; field; apply not_0_INR; lia).
  rewrite E. apply Rmult_le_compat_r; [lra|]. assert (INR i + 1 <= INR (n_v g)) by (rewrite <- S_INR; apply le_INR; lia). lra.
Qed.
(** Density, pressure and temperature saved from a non-negative distribution are non-negative, the temperature never
    exceeds that of electrons at the largest speed; pressure is two thirds of the energy density; the saved velocity is
    minus the average of the currents at the two edges; the box averages are the averages of the saved profiles. *)
Theorem C72_moments : forall g y x, usable g ->
  ((forall i, (i < n_v g)%nat -> 0 <= y (F0 x i)) -> 0 <= save_n g y x /\ 0 <= save_P g y x /\ (0 < save_n g y x -> 0 <= save_T g y x <= v_max g ^ 2 / 3)) /\
  save_P g y x = 2 / 3 * (4 * PI * rsum (n_v g) (fun i => (1 / 2 * v_at g i ^ 2) * y (F0 x i) * v_at g i ^ 2) * d_v g) /\
  save_v g y x = - (calc_j g (fun i => y (F10 x i)) + calc_j g (fun i => y (F10 (S x) i))) / 2 /\
  mean_n g y = mean (n_x g) (save_n g y) /\ mean_U g y = mean (n_x g) (save_U g y) /\ mean_j g y = mean (n_x g) (save_v g y) /\ mean_q g y = mean (n_x g) (save_q g y).
Proof.
  intros g y x U. pose proof (dv_pos g U) as D. pose proof PI_RGT_0 as PI0.
  assert (E1 : forall x, f1_moment g (fun i => interp_e2c (fun e => y (F10 e i)) x) = save_v g y x).
  { intros x'. unfold save_v, f1_moment, interp_e2c. rewrite <- (Rmult_1_l (1 / 2)).
    rewrite (rsum_ext _ _ (fun i => 1 / 2 * (y (F10 x' i) * v_at g i ^ 3 + y (F10 (S x') i) * v_at g i ^ 3))) by (intros; ring). rewrite rsum_scal, rsum_plus. ring. }
  assert (E2 : forall x, f1_moment g (fun i => 1 / 2 * interp_e2c (fun e => y (F10 e i)) x * v_at g i ^ 2) = save_q g y x).
  { intros x'. unfold save_q, f1_moment, interp_e2c.
    rewrite (rsum_ext _ _ (fun i => 1 / 2 * (1 / 2 * y (F10 x' i) * v_at g i ^ 2 * v_at g i ^ 3 + 1 / 2 * y (F10 (S x') i) * v_at g i ^ 2 * v_at g i ^ 3))) by (intros; ring). rewrite rsum_scal, rsum_plus. ring. }
  split; [|split; [|split; [|split; [|split; [|split]]]]].
  - intros F.
    assert (N : 0 <= save_n g y x).
    { unfold save_n, f0_moment. apply Rmult_le_pos; [|lra]. apply Rmult_le_pos; [lra|]. apply rsum_nonneg. intros i Hi. apply Rmult_le_pos; [now apply F|apply pow2_ge_0]. }
    assert (W : 0 <= save_U g y x).
    { unfold save_U, f0_moment. apply Rmult_le_pos; [|lra]. apply Rmult_le_pos; [lra|]. apply rsum_nonneg. intros i Hi. apply Rmult_le_pos; [apply Rmult_le_pos; [now apply F|]|]; apply pow2_ge_0. }
    assert (M : save_U g y x <= v_max g ^ 2 * save_n g y x).
    { unfold save_U, save_n, f0_moment.
      replace (v_max g ^ 2 * (4 * PI * rsum (n_v g) (fun i => y (F0 x i) * v_at g i ^ 2) * d_v g)) with (4 * PI * (v_max g ^ 2 * rsum (n_v g) (fun i => y (F0 x i) * v_at g i ^ 2)) * d_v g) by ring.
      apply Rmult_le_compat_r; [lra|]. apply Rmult_le_compat_l; [lra|]. rewrite <- rsum_scal. apply rsum_le. intros i Hi.
      pose proof (v_at_le g i U Hi). pose proof (v_pos g i U). assert (v_at g i ^ 2 <= v_max g ^ 2) by (apply pow_incr; lra).
      assert (0 <= y (F0 x i) * v_at g i ^ 2) by (apply Rmult_le_pos; [now apply F|apply pow2_ge_0]). nra. }
    unfold save_T, save_P. split; [exact N|]. split; [lra|]. intros NP. split.
    + unfold Rdiv. apply Rmult_le_pos; [lra|]. apply Rlt_le, Rinv_0_lt_compat, NP.
    + apply Rmult_le_reg_r with (save_n g y x); [exact NP|]. replace (save_U g y x / 3 / save_n g y x * save_n g y x) with (save_U g y x / 3) by (field; lra). lra.
  - unfold save_P, save_U, f0_moment. rewrite (rsum_ext _ (fun i => 1 / 2 * v_at g i ^ 2 * y (F0 x i) * v_at g i ^ 2) (fun i => 1 / 2 * (y (F0 x i) * v_at g i ^ 2 * v_at g i ^ 2))) by (intros; ring). rewrite rsum_scal. field.
  - unfold save_v, f1_moment, interp_e2c, calc_j. field.
  - reflexivity.
  - reflexivity.
  - unfold mean_j, mean. f_equal. apply rsum_ext. intros; apply E1.
  - unfold mean_q, mean. f_equal. apply rsum_ext. intros; apply E2.
Qed.
Print Assumptions C72_moments.
(** In slab geometry the saved mean density is the number of electrons per length, so whatever conserves the number
    keeps it; streaming does. *)
Lemma mean_number g y : usable g -> spherical g = false -> mean_n g y = 4 * PI * d_v g / (d_x g * INR (n_x g)) * number g y.
Proof.
  intros U S. pose proof (dx_pos g U) as D. assert (INR (n_x g) <> 0) by (apply not_0_INR; destruct U; lia). unfold mean_n, mean, number, f0_moment, vol. rewrite S, rsum_scal.
  rewrite (rsum_ext _ (fun x => 4 * PI * rsum (n_v g) (fun i => y (F0 x i) * v_at g i ^ 2) * d_v g) (fun x => 4 * PI * d_v g * rsum (n_v g) (fun i => v_at g i ^ 2 * y (F0 x i)))).
  - rewrite rsum_scal. field. split; [assumption|lra].
  - intros x _. rewrite (rsum_ext _ _ (fun i => v_at g i ^ 2 * y (F0 x i))) by (intros; ring). ring.
Qed.
Theorem C72_mean_density : forall g y y', usable g -> spherical g = false -> number g y' = number g y -> mean_n g y' = mean_n g y.
Proof. intros g y y' U S E. rewrite !mean_number by assumption. now rewrite E. Qed.
Print Assumptions C72_mean_density.
Theorem C72_mean_streaming : forall tab g y, usable g -> spherical g = false -> bc g y -> mean_n g (push_vdfdx tab g y) = mean_n g y.
Proof. intros tab g y U S B. apply C72_mean_density; try assumption. now apply C70_streaming. Qed.
Print Assumptions C72_mean_streaming.
(** In spherical geometry it is not: the saved mean weighs all shells equally, and drifts although no electron is lost. *)
Theorem C72_mean_spherical_refuted : ~ (forall tab g y, usable g -> bc g y -> number g (push_vdfdx tab g y) = number g y -> mean_n g (push_vdfdx tab g y) = mean_n g y).
Proof.
  intros H. set (y := fun ix => match ix with F10 1%nat 0%nat => 1 | _ => 0 end).
  assert (B : bc ex_sphere y) by (unfold bc; change (periodic ex_sphere) with false; intros i; split; reflexivity).
  specialize (H rk_euler ex_sphere y ex_sphere_usable B (proj2 (proj2 (C70_streaming rk_euler ex_sphere y ex_sphere_usable B)))).
  assert (P : forall x i, push_vdfdx rk_euler ex_sphere y (F0 x i) = vdfdx ex_sphere 0 y (F0 x i)).
  { intros x i. unfold push_vdfdx, rk_step. cbn [rk_euler rk_rows rk_b rk_stages app]. rewrite comb_nil, comb_cons, comb_nil. change (d_t ex_sphere) with 1. change (vdfdx ex_sphere (0 + 0 * 1) y) with (vdfdx ex_sphere 0 y). change (y (F0 x i)) with 0. ring. }
  assert (V : forall i, v_at ex_sphere i = INR i + 1 / 2) by (intros i; rewrite v_formula by exact ex_sphere_usable; unfold d_v; cbn [ex_sphere v_max n_v INR]; field).
  assert (X : forall x, x_edge ex_sphere x = INR x) by (intros x; rewrite x_formula by exact ex_sphere_usable; unfold d_x; cbn [ex_sphere x_min x_max n_x INR]; field).
  assert (W : forall x i, vdfdx ex_sphere 0 y (F0 x i) = - (INR i + 1 / 2) / 3 * ((INR (S x) ^ 2 * y (F10 (S x) i) - INR x ^ 2 * y (F10 x i)) / ((INR (S x) ^ 3 - INR x ^ 3) / 3))).
  { intros x i. cbn [vdfdx]. unfold div_e2c. change (spherical ex_sphere) with true. cbv iota. now rewrite V, !X. }
  unfold mean_n, mean, f0_moment in H. change (n_x ex_sphere) with 2%nat in H. change (n_v ex_sphere) with 3%nat in H. cbn [rsum] in H. rewrite !P, !W, !V in H.
  assert (DV : d_v ex_sphere = 1) by (unfold d_v; cbn [ex_sphere v_max n_v INR]; field). rewrite DV in H. cbn [y INR] in H. pose proof PI_RGT_0 as P0.
  apply (f_equal (fun z => z * 14)) in H. field_simplify in H. lra.
Qed.
Print Assumptions C72_mean_spherical_refuted.

(** ** Comparison helpers *)
(** calc_kappa recovers the coefficient of a flux that is proportional to n T grad T / nu. *)
Theorem C72_kappa : forall nx dx nuei K n T x, nuei <> 0 -> n x <> 0 -> T x <> 0 -> gradient nx dx T x <> 0 ->
  calc_kappa nx dx nuei n T (fun i => - K * n i * T i / nuei * gradient nx dx T i) x = K.
Proof. intros. unfold calc_kappa. field. repeat split; assumption. Qed.
Print Assumptions C72_kappa.
(** Ratios to a flux that is (nearly) zero are reported as zero, all others are the quotient. *)
Theorem C72_ratio : forall a b, (Rabs b <= 1 / 10 ^ 30 -> safe_ratio a b = 0) /\ (1 / 10 ^ 30 < Rabs b -> safe_ratio a b * b = a).
Proof.
  intros a b. unfold safe_ratio. assert (0 < 1 / 10 ^ 30) by (apply Rdiv_lt_0_compat; [lra|apply pow_lt; lra]). set (t := 1 / 10 ^ 30) in *. clearbody t.
  destruct (Rlt_dec t (Rabs b)); split; intros; try lra. field. intros ->. rewrite Rabs_R0 in *. lra.
Qed.
Print Assumptions C72_ratio.

(** ** Examples *)
Definition ex_hf : hf :=
  {| h_nx := 3; h_dx := 1; h_x := fun i => 1 / 2 + INR i; h_n := fun _ => 1; h_T := fun i => match i with 1%nat => 2 | _ => 1 end; h_Z := fun _ => 4; h_ni := fun _ => 1; h_sph := true;
     n_ref := 1; T_ref := 1; Z_ref := 4; nuei_ref := 1; h_nuee := 1; h_loglam := 1; h_groups := 2; h_bmax := 20; h_r := 2 |}.
Example ex_physical : physical ex_hf.
Proof.
  unfold physical; cbn [ex_hf h_nx h_dx h_x h_n h_T h_Z h_ni h_sph n_ref T_ref Z_ref nuei_ref h_nuee h_loglam h_groups h_bmax h_r].
  split; [lia|]. split; [lra|]. split; [intros i; rewrite S_INR; ring|]. split; [intros _; cbn; lra|]. split.
  - intros i. split; [lra|]. split; [destruct i as [|[|i]]; lra|]. split; lra.
  - repeat split; try lra; lia.
Qed.
Example ex_flows : q_sh ex_hf 1 < 0 /\ 0 < q_sh ex_hf 2 /\ exists H, snb_solution ex_hf H.
Proof.
  destruct (C72_downhill ex_hf ex_physical) as (_ & _ & D). split; [|split].
  - apply (D 1%nat); cbn; [lia|lra].
  - apply (D 2%nat); cbn; [lia|lra].
  - destruct (C72_snb_solvable ex_hf ex_physical) as (H & S & _). now exists H.
Qed.
(** The diagnostics know no periodic boundary: across the seam of a periodic plasma they report no flux however
    different the two temperatures are. *)
Definition seam_hf : hf :=
  {| h_nx := 2; h_dx := 1; h_x := fun i => 1 / 2 + INR i; h_n := fun _ => 1; h_T := fun i => match i with 0%nat => 1 | _ => 2 end; h_Z := fun _ => 4; h_ni := fun _ => 1; h_sph := false;
     n_ref := 1; T_ref := 1; Z_ref := 4; nuei_ref := 1; h_nuee := 1; h_loglam := 1; h_groups := 2; h_bmax := 20; h_r := 2 |}.
Theorem C72_periodic_refuted : ~ (forall p, physical p -> h_sph p = false -> h_T p 0%nat <> h_T p (h_nx p - 1)%nat -> q_sh p 0%nat <> 0).
Proof.
  intros H. assert (P : physical seam_hf).
  { unfold physical; cbn [seam_hf h_nx h_dx h_x h_n h_T h_Z h_ni h_sph n_ref T_ref Z_ref nuei_ref h_nuee h_loglam h_groups h_bmax h_r].
    split; [lia|]. split; [lra|]. split; [intros i; rewrite S_INR; ring|]. split; [discriminate|]. split.
    - intros i. split; [lra|]. split; [destruct i; lra|]. split; lra.
    - repeat split; try lra; lia. }
  refine (H seam_hf P eq_refl _ _); [cbn; lra|]. exact (proj1 (C72_downhill seam_hf P)).
Qed.
Print Assumptions C72_periodic_refuted.
