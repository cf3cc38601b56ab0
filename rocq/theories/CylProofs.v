(** Lemmas about the cylindrical Landau operator. *)
From Coq Require Import Reals Lra Lia Psatz ZArith.
From Verif Require Import RSum VGrid DriftDiff DriftDiffProofs Cyl CylErf.
Local Open Scope R_scope.

(* ------------------------------------------------------------------------------------------------ *)
(** Vocabulary of the statements: what the solver's grids satisfy (see C102_grid). *)
Record proper (c : cyl) : Prop := {
  pr_nv : (0 < c_nv c)%nat;
  pr_nvp : (0 < c_nvp c)%nat;
  pr_dv : 0 < c_dv c;
  pr_dvp : 0 < c_dvp c;
  pr_v : forall i, (S i < c_nv c)%nat -> c_v c (S i) = c_v c i + c_dv c;
  pr_vp : forall j, (j < c_nvp c)%nat -> c_vp c j = (INR j + 1 / 2) * c_dvp c;
  pr_wp : forall j, (j < c_nvp c)%nat -> c_wp c j = 2 * PI * c_vp c j * c_dvp c;
  pr_speed : 0 <= c_speed c;
  pr_lorentz : 0 <= c_lorentz c }.

Lemma vp_pos c j : proper c -> (j < c_nvp c)%nat -> 0 < c_vp c j.
Proof. intros P H. rewrite (pr_vp c P j H). pose proof (pos_INR j). pose proof (pr_dvp c P). apply Rmult_lt_0_compat; lra. Qed.
Lemma w_pos c i j : proper c -> (j < c_nvp c)%nat -> 0 < c_w c i j.
Proof.
  intros P H. unfold c_w. rewrite (pr_wp c P j H). pose proof (vp_pos c j P H). pose proof (pr_dvp c P). pose proof (pr_dv c P). pose proof PI_RGT_0.
  rewrite Rmult_1_r. apply Rmult_lt_0_compat; [lra|]. apply Rmult_lt_0_compat; [|lra]. apply Rmult_lt_0_compat; lra.
Qed.
Lemma perp_edge_pos c j : proper c -> (S j < c_nvp c)%nat -> 0 < perp_edge c j.
Proof. intros P H. unfold perp_edge. pose proof (vp_pos c j P ltac:(lia)). pose proof (vp_pos c (S j) P H). lra. Qed.
Lemma maxwell_pos c u T i j : 0 < maxwell c u T i j.
Proof. apply exp_pos. Qed.

(** ** Double sums *)
Lemma sum2_ext c f g : (forall i j, (i < c_nv c)%nat -> (j < c_nvp c)%nat -> f i j = g i j) -> sum2 c f = sum2 c g.
Proof. intros H. unfold sum2. apply rsum_ext. intros i Hi. apply rsum_ext. intros j Hj. now apply H. Qed.
Lemma sum2_plus c f g : sum2 c (fun i j => f i j + g i j) = sum2 c f + sum2 c g.
Proof. unfold sum2. rewrite <- rsum_plus. apply rsum_ext. intros i _. apply rsum_plus. Qed.
Lemma sum2_scal c k f : sum2 c (fun i j => k * f i j) = k * sum2 c f.
Proof. unfold sum2. rewrite <- rsum_scal. apply rsum_ext. intros i _. apply rsum_scal. Qed.
Lemma sum2_minus c f g : sum2 c (fun i j => f i j - g i j) = sum2 c f - sum2 c g.
Proof. unfold sum2. rewrite <- rsum_minus. apply rsum_ext. intros i _. apply rsum_minus. Qed.
Lemma sum2_swap c f : sum2 c f = rsum (c_nvp c) (fun j => rsum (c_nv c) (fun i => f i j)).
Proof. unfold sum2. apply rsum_swap. Qed.
Lemma sum2_pos c f : (0 < c_nv c)%nat -> (0 < c_nvp c)%nat -> (forall i j, (i < c_nv c)%nat -> (j < c_nvp c)%nat -> 0 < f i j) -> 0 < sum2 c f.
Proof. intros A B H. apply rsum_pos; [exact A|]. intros i Hi. apply rsum_pos; [exact B|]. intros j Hj. now apply H. Qed.
Lemma sum2_nonneg c f : (forall i j, (i < c_nv c)%nat -> (j < c_nvp c)%nat -> 0 <= f i j) -> 0 <= sum2 c f.
Proof. intros H. apply rsum_nonneg. intros i Hi. apply rsum_nonneg. intros j Hj. now apply H. Qed.
Lemma sum2_le c f g : (forall i j, (i < c_nv c)%nat -> (j < c_nvp c)%nat -> f i j <= g i j) -> sum2 c f <= sum2 c g.
Proof. intros H. apply rsum_le. intros i Hi. apply rsum_le. intros j Hj. now apply H. Qed.
Lemma sum2_zero c f : (forall i j, (i < c_nv c)%nat -> (j < c_nvp c)%nat -> 0 <= f i j) -> sum2 c f = 0 ->
  forall i j, (i < c_nv c)%nat -> (j < c_nvp c)%nat -> f i j = 0.
Proof.
  intros H E i j Hi Hj. assert (R : forall k, (k < c_nv c)%nat -> rsum (c_nvp c) (fun l => f k l) = 0).
  { apply rsum_nonneg_zero; [|exact E]. intros k Hk. apply rsum_nonneg. intros l Hl. now apply H. }
  specialize (R i Hi). revert j Hj. apply rsum_nonneg_zero; [|exact R]. intros l Hl. now apply H.
Qed.

(** ** The tensor *)
Lemma tensor_sign c a b T : 0 <= c_speed c -> 0 <= c_lorentz c -> 0 <= d_pp c a b T /\ 0 <= d_qq c a b T.
Proof.
  intros A B. unfold d_pp, d_qq, tensor. cbn [fst snd].
  set (s := sqrt _ / _). pose proof (Rmult_le_pos _ _ A (Rlt_le _ _ (dhat_par_pos s))) as P. pose proof (Rmult_le_pos _ _ B (Rlt_le _ _ (dhat_perp_pos s))) as Q.
  set (p := c_speed c * dhat_par s) in *. set (q := c_lorentz c * dhat_perp s) in *. clearbody p q.
  assert (S : 0 <= a ^ 2 + b ^ 2) by nra. assert (I : 0 <= / (a ^ 2 + b ^ 2)).
  { destruct (Rle_lt_or_eq_dec _ _ S) as [L|E]; [apply Rlt_le, Rinv_0_lt_compat, L|rewrite <- E, Rinv_0; lra]. }
  unfold Rdiv. split; (apply Rmult_le_pos; [|exact I]); apply Rplus_le_le_0_compat; (apply Rmult_le_pos; [assumption|nra]).
Qed.
Lemma tensor_strict c a b T : 0 < c_speed c -> 0 < c_lorentz c -> 0 < b -> 0 < d_pp c a b T /\ 0 < d_qq c a b T.
Proof.
  intros A B Hb. unfold d_pp, d_qq, tensor. cbn [fst snd].
  set (s := sqrt _ / _). pose proof (Rmult_lt_0_compat _ _ A (dhat_par_pos s)) as P. pose proof (Rmult_lt_0_compat _ _ B (dhat_perp_pos s)) as Q.
  set (p := c_speed c * dhat_par s) in *. set (q := c_lorentz c * dhat_perp s) in *. clearbody p q.
  assert (B2 : 0 < b ^ 2) by nra. assert (A2 : 0 <= a ^ 2) by nra.
  assert (0 <= p * a ^ 2) by (apply Rmult_le_pos; lra). assert (0 <= q * a ^ 2) by (apply Rmult_le_pos; lra).
  assert (0 < p * b ^ 2) by (apply Rmult_lt_0_compat; lra). assert (0 < q * b ^ 2) by (apply Rmult_lt_0_compat; lra).
  split; apply Rdiv_lt_0_compat; lra.
Qed.

(** ** The sweeps are implicit drift-diffusion steps in f / M *)
Definition par_alpha c n u T j i := par_c c n u T i j / maxwell c u T i j.
Definition par_beta c n u T j i := - (par_c c n u T i j / maxwell c u T (S i) j).
Lemma par_mv c n u T nudt j x i : mv (c_nv c) (par_op c n u T nudt j) x i = mv (c_nv c) (assemble (c_nv c) 1 nudt (fun _ => 1) (par_alpha c n u T j) (par_beta c n u T j)) x i.
Proof.
  unfold mv, par_op, assemble, par_alpha, par_beta. cbn [diagonal upper lower]. destruct i as [|i]; destruct (Nat.ltb _ (c_nv c)); unfold Rdiv; rewrite ?Rinv_1; ring.
Qed.
Definition perp_alpha c n u T i j := perp_c c n u T i j / maxwell c u T i j.
Definition perp_beta c n u T i j := - (perp_c c n u T i j / maxwell c u T i (S j)).
Lemma perp_mv c n u T nudt i x j : mv (c_nvp c) (perp_op c n u T nudt i) x j = mv (c_nvp c) (assemble (c_nvp c) 1 nudt (fun l => / c_vp c l) (perp_alpha c n u T i) (perp_beta c n u T i)) x j.
Proof.
  unfold mv, perp_op, assemble, perp_alpha, perp_beta. cbn [diagonal upper lower]. destruct j as [|j]; destruct (Nat.ltb _ (c_nvp c)); unfold Rdiv; rewrite ?Rinv_1, ?Rinv_mult; ring.
Qed.
Lemma par_sweep_step c n u T nudt f g : par_sweep c n u T nudt f g <->
  forall j, (j < c_nvp c)%nat -> implicit_step (c_nv c) (assemble (c_nv c) 1 nudt (fun _ => 1) (par_alpha c n u T j) (par_beta c n u T j)) (fun i => f i j) (fun i => g i j).
Proof.
  unfold par_sweep. split; intros H j Hj.
  - apply step_solves. intros i Hi. rewrite <- par_mv. now apply H.
  - intros i Hi. rewrite par_mv. exact (proj1 (step_solves _ _ _ _) (H j Hj) i Hi).
Qed.
Lemma perp_sweep_step c n u T nudt f g : perp_sweep c n u T nudt f g <->
  forall i, (i < c_nv c)%nat -> implicit_step (c_nvp c) (assemble (c_nvp c) 1 nudt (fun l => / c_vp c l) (perp_alpha c n u T i) (perp_beta c n u T i)) (f i) (g i).
Proof.
  unfold perp_sweep. split; intros H i Hi.
  - apply step_solves. intros j Hj. rewrite <- perp_mv. now apply H.
  - intros j Hj. rewrite perp_mv. exact (proj1 (step_solves _ _ _ _) (H i Hi) j Hj).
Qed.

Lemma par_c_nonneg c n u T i j : 0 <= c_speed c -> 0 <= c_lorentz c -> 0 < c_dv c -> 0 <= n -> 0 <= par_c c n u T i j.
Proof.
  intros A B D N. unfold par_c. pose proof (proj1 (tensor_sign c (par_edge c i - u) (c_vp c j) T A B)). pose proof (sqrt_pos T). pose proof (sqrt_pos (maxwell c u T (S i) j * maxwell c u T i j)).
  unfold Rdiv. apply Rmult_le_pos; [|apply Rlt_le, Rinv_0_lt_compat; nra]. unfold par_M. apply Rmult_le_pos; [|assumption]. apply Rmult_le_pos; [|assumption]. now apply Rmult_le_pos.
Qed.
Lemma perp_c_nonneg c n u T i j : proper c -> (S j < c_nvp c)%nat -> 0 <= n -> 0 <= perp_c c n u T i j.
Proof.
  intros P Hj N. unfold perp_c. pose proof (proj2 (tensor_sign c (c_v c i - u) (perp_edge c j) T (pr_speed c P) (pr_lorentz c P))). pose proof (sqrt_pos T).
  pose proof (sqrt_pos (maxwell c u T i (S j) * maxwell c u T i j)). pose proof (perp_edge_pos c j P Hj). pose proof (pr_dvp c P).
  unfold Rdiv. apply Rmult_le_pos; [|apply Rlt_le, Rinv_0_lt_compat; nra]. unfold perp_M. apply Rmult_le_pos; [|assumption]. apply Rmult_le_pos; [|assumption]. apply Rmult_le_pos; [lra|]. now apply Rmult_le_pos.
Qed.
Lemma par_signs c n u T nudt j : proper c -> 0 <= n -> 0 <= nudt ->
  (forall i, (i < c_nv c)%nat -> 0 <= nudt * 1 / 1) /\ (forall i, (S i < c_nv c)%nat -> 0 <= par_alpha c n u T j i) /\ (forall i, (S i < c_nv c)%nat -> par_beta c n u T j i <= 0).
Proof.
  intros P N H. split; [intros; lra|]. unfold par_alpha, par_beta. split; intros i _; pose proof (par_c_nonneg c n u T i j (pr_speed c P) (pr_lorentz c P) (pr_dv c P) N) as C.
  - unfold Rdiv. apply Rmult_le_pos; [exact C|]. apply Rlt_le, Rinv_0_lt_compat, maxwell_pos.
  - assert (0 <= par_c c n u T i j / maxwell c u T (S i) j); [|lra]. unfold Rdiv. apply Rmult_le_pos; [exact C|]. apply Rlt_le, Rinv_0_lt_compat, maxwell_pos.
Qed.
Lemma perp_signs c n u T nudt i : proper c -> 0 <= n -> 0 <= nudt ->
  (forall j, (j < c_nvp c)%nat -> 0 <= nudt * / c_vp c j / 1) /\ (forall j, (S j < c_nvp c)%nat -> 0 <= perp_alpha c n u T i j) /\ (forall j, (S j < c_nvp c)%nat -> perp_beta c n u T i j <= 0).
Proof.
  intros P N H. split; [intros j Hj; unfold Rdiv; rewrite Rinv_1, Rmult_1_r; apply Rmult_le_pos; [exact H|]; apply Rlt_le, Rinv_0_lt_compat; now apply vp_pos|].
  unfold perp_alpha, perp_beta. split; intros j Hj; pose proof (perp_c_nonneg c n u T i j P Hj N) as C.
  - unfold Rdiv. apply Rmult_le_pos; [exact C|]. apply Rlt_le, Rinv_0_lt_compat, maxwell_pos.
  - assert (0 <= perp_c c n u T i j / maxwell c u T i (S j)); [|lra]. unfold Rdiv. apply Rmult_le_pos; [exact C|]. apply Rlt_le, Rinv_0_lt_compat, maxwell_pos.
Qed.

(** ** Existence and uniqueness *)
Lemma finite_choice (n : nat) (P : nat -> (nat -> R) -> Prop) : (forall j, (j < n)%nat -> exists x, P j x) -> exists g : nat -> nat -> R, forall j, (j < n)%nat -> P j (g j).
Proof.
  induction n as [|n IH]; intros H; [exists (fun _ _ => 0); lia|]. destruct IH as (g & G); [intros; apply H; lia|]. destruct (H n ltac:(lia)) as (x & X).
  exists (fun j => if Nat.eqb j n then x else g j). intros j Hj. destruct (Nat.eqb_spec j n) as [->|N]; [exact X|apply G; lia].
Qed.
Lemma par_exists c n u T nudt f : proper c -> 0 <= n -> 0 <= nudt -> exists g, par_sweep c n u T nudt f g.
Proof.
  intros P N H. destruct (finite_choice (c_nvp c) (fun j x => forall i, (i < c_nv c)%nat -> mv (c_nv c) (par_op c n u T nudt j) x i = f i j)) as (g & G).
  - intros j Hj. destruct (par_signs c n u T nudt j P N H) as (K & A & B). destruct (solution_exists _ _ _ _ _ _ K A B (fun i => f i j)) as (x & X). exists x. intros i Hi. rewrite par_mv. now apply X.
  - exists (fun i j => g j i). intros j Hj i Hi. exact (G j Hj i Hi).
Qed.
Lemma perp_exists c n u T nudt f : proper c -> 0 <= n -> 0 <= nudt -> exists g, perp_sweep c n u T nudt f g.
Proof.
  intros P N H. destruct (finite_choice (c_nv c) (fun i x => forall j, (j < c_nvp c)%nat -> mv (c_nvp c) (perp_op c n u T nudt i) x j = f i j)) as (g & G).
  - intros i Hi. destruct (perp_signs c n u T nudt i P N H) as (K & A & B). destruct (solution_exists _ _ _ _ _ _ K A B (f i)) as (x & X). exists x. intros j Hj. rewrite perp_mv. now apply X.
  - exists g. intros i Hi j Hj. exact (G i Hi j Hj).
Qed.
Definition cells (c : cyl) (f g : dist2) : Prop := forall i j, (i < c_nv c)%nat -> (j < c_nvp c)%nat -> f i j = g i j.
Lemma par_unique c n u T nudt f f' g g' : proper c -> 0 <= n -> 0 <= nudt -> cells c f f' -> par_sweep c n u T nudt f g -> par_sweep c n u T nudt f' g' -> cells c g g'.
Proof.
  intros P N H E A B i j Hi Hj. destruct (par_signs c n u T nudt j P N H) as (K1 & K2 & K3).
  apply (solution_unique _ _ _ _ _ _ K1 K2 K3 (fun k => f k j) (fun k => g k j) (fun k => g' k j)); [| |exact Hi]; intros k Hk; rewrite <- par_mv; [now apply A|]. rewrite (B j Hj k Hk). symmetry. now apply E.
Qed.
Lemma perp_unique c n u T nudt f f' g g' : proper c -> 0 <= n -> 0 <= nudt -> cells c f f' -> perp_sweep c n u T nudt f g -> perp_sweep c n u T nudt f' g' -> cells c g g'.
Proof.
  intros P N H E A B i j Hi Hj. destruct (perp_signs c n u T nudt i P N H) as (K1 & K2 & K3).
  apply (solution_unique _ _ _ _ _ _ K1 K2 K3 (f i) (g i) (g' i)); [| |exact Hj]; intros k Hk; rewrite <- perp_mv; [now apply A|]. rewrite (B i Hi k Hk). symmetry. now apply E.
Qed.
Lemma par_nonneg c n u T nudt f g : proper c -> 0 <= n -> 0 <= nudt -> par_sweep c n u T nudt f g -> (forall i j, (i < c_nv c)%nat -> (j < c_nvp c)%nat -> 0 <= f i j) ->
  forall i j, (i < c_nv c)%nat -> (j < c_nvp c)%nat -> 0 <= g i j.
Proof.
  intros P N H A F i j Hi Hj. destruct (par_signs c n u T nudt j P N H) as (K1 & K2 & K3).
  apply (solution_nonneg _ _ _ _ _ _ K1 K2 K3 (fun k => f k j) (fun k => g k j)); [|now intros k Hk; apply F|exact Hi]. intros k Hk. rewrite <- par_mv. now apply A.
Qed.
Lemma perp_nonneg c n u T nudt f g : proper c -> 0 <= n -> 0 <= nudt -> perp_sweep c n u T nudt f g -> (forall i j, (i < c_nv c)%nat -> (j < c_nvp c)%nat -> 0 <= f i j) ->
  forall i j, (i < c_nv c)%nat -> (j < c_nvp c)%nat -> 0 <= g i j.
Proof.
  intros P N H A F i j Hi Hj. destruct (perp_signs c n u T nudt i P N H) as (K1 & K2 & K3).
  apply (solution_nonneg _ _ _ _ _ _ K1 K2 K3 (f i) (g i)); [|now intros k Hk; apply F|exact Hj]. intros k Hk. rewrite <- perp_mv. now apply A.
Qed.

(** ** Conservation in each slice *)
Lemma par_slice c n u T nudt f g j : par_sweep c n u T nudt f g -> (j < c_nvp c)%nat -> rsum (c_nv c) (fun i => g i j) = rsum (c_nv c) (fun i => f i j).
Proof.
  intros H Hj. pose proof (proj1 (par_sweep_step _ _ _ _ _ _ _) H) as H'; clear H; rename H' into H. pose proof (weighted_conservation (c_nv c) 1 nudt (fun _ => 1) _ _ (fun _ => 1) 1 _ _ ltac:(intros; lra) (H j Hj)) as E. cbv beta in E.
  rewrite (rsum_ext _ (fun i => g i j) (fun i => 1 * g i j)) by (intros; ring). rewrite E. apply rsum_ext. intros; ring.
Qed.
Lemma perp_slice c n u T nudt f g i : proper c -> perp_sweep c n u T nudt f g -> (i < c_nv c)%nat -> rsum (c_nvp c) (fun j => c_vp c j * g i j) = rsum (c_nvp c) (fun j => c_vp c j * f i j).
Proof.
  intros P H Hi. pose proof (proj1 (perp_sweep_step _ _ _ _ _ _ _) H) as H'; clear H; rename H' into H. refine (weighted_conservation (c_nvp c) 1 nudt (fun l => / c_vp c l) _ _ (c_vp c) 1 _ _ _ (H i Hi)). intros j Hj. apply Rinv_r. pose proof (vp_pos c j P Hj). lra.
Qed.
Lemma weight_form c h : proper c -> m_n c h = 2 * PI * c_dv c * c_dvp c * rsum (c_nv c) (fun i => rsum (c_nvp c) (fun j => c_vp c j * h i j)).
Proof.
  intros P. unfold m_n, sum2. rewrite <- rsum_scal. apply rsum_ext. intros i Hi. rewrite <- rsum_scal. apply rsum_ext. intros j Hj. unfold c_w. rewrite (pr_wp c P j Hj). ring.
Qed.
Lemma edge_sum len (F : nat -> R) : rsum len (fun k => (if Nat.ltb (S k) len then F k else 0) - match k with O => 0 | S l => F l end) = 0.
Proof.
  rewrite (rsum_ext len _ (fun k => (fun l => match l with O => 0 | S m => if Nat.ltb (S m) len then F m else 0 end) (S k) - (fun l => match l with O => 0 | S m => if Nat.ltb (S m) len then F m else 0 end) k)).
  - rewrite (rsum_telescope len (fun l => match l with O => 0 | S m => if Nat.ltb (S m) len then F m else 0 end)). destruct len as [|m]; [lra|]. rewrite (proj2 (Nat.ltb_ge (S m) (S m))) by lia. lra.
  - intros k Hk. cbv beta. destruct k as [|l]; [reflexivity|]. rewrite (proj2 (Nat.ltb_lt (S l) len)) by lia. reflexivity.
Qed.
Lemma explicit_density c n u T nudt f : proper c -> m_n c (explicit_step c n u T nudt f) = m_n c f.
Proof.
  intros P. rewrite !weight_form by exact P. f_equal. set (g := fun k l => f k l / maxwell c u T k l). set (q := nudt / INR (n_sub c)).
  assert (A : rsum (c_nv c) (fun i => rsum (c_nvp c) (fun j => c_vp c j * div_par c n u T g i j)) = 0).
  { rewrite rsum_swap. rewrite <- (rsum_zero (c_nvp c)). apply rsum_ext. intros j Hj. rewrite rsum_scal. unfold div_par. unfold Rdiv. rewrite rsum_scal_r. rewrite (edge_sum (c_nv c) (fun i => gam_par c n u T g i j)). ring. }
  assert (B : rsum (c_nv c) (fun i => rsum (c_nvp c) (fun j => c_vp c j * div_perp c n u T g i j)) = 0).
  { rewrite <- (rsum_zero (c_nv c)). apply rsum_ext. intros i Hi. unfold div_perp. cbv zeta.
    rewrite (rsum_ext _ _ (fun j => ((if Nat.ltb (S j) (c_nvp c) then perp_edge c j * gam_perp c n u T g i j else 0) - match j with O => 0 | S k => perp_edge c k * gam_perp c n u T g i k end) * / c_dvp c)).
    - rewrite rsum_scal_r, (edge_sum (c_nvp c) (fun j => perp_edge c j * gam_perp c n u T g i j)). ring.
    - intros j Hj. pose proof (vp_pos c j P Hj). pose proof (pr_dvp c P). field. lra. }
  transitivity (rsum (c_nv c) (fun i => rsum (c_nvp c) (fun j => c_vp c j * f i j)) + q * (rsum (c_nv c) (fun i => rsum (c_nvp c) (fun j => c_vp c j * div_par c n u T g i j)) + rsum (c_nv c) (fun i => rsum (c_nvp c) (fun j => c_vp c j * div_perp c n u T g i j)))).
  - rewrite <- rsum_plus, <- rsum_scal, <- rsum_plus. apply rsum_ext. intros i _. rewrite <- rsum_plus, <- rsum_scal, <- rsum_plus. apply rsum_ext. intros j _. unfold explicit_step. fold g q. ring.
  - rewrite A, B. ring.
Qed.
Lemma iter_density c n u T nudt f k : proper c -> m_n c (Nat.iter k (explicit_step c n u T nudt) f) = m_n c f.
Proof. intros P. induction k as [|k IH]; [reflexivity|]. cbn [Nat.iter nat_rect]. change (m_n c (explicit_step c n u T nudt (Nat.iter k (explicit_step c n u T nudt) f)) = m_n c f). rewrite explicit_density by exact P. exact IH. Qed.
Lemma m_n_ext c f g : cells c f g -> m_n c f = m_n c g.
Proof. intros H. apply sum2_ext. intros i j Hi Hj. now rewrite (H i j Hi Hj). Qed.
Lemma call_density c nu dt f h : proper c -> cyl_call c nu dt f h -> m_n c h = m_n c f.
Proof.
  intros P (f1 & f2 & A & B & C). transitivity (m_n c f2); [|transitivity (m_n c f1)].
  - rewrite (m_n_ext c h _ C). now apply iter_density.
  - rewrite !weight_form by exact P. f_equal. apply rsum_ext. intros i Hi. exact (perp_slice _ _ _ _ _ _ _ i P B Hi).
  - unfold m_n. rewrite !sum2_swap. apply rsum_ext. intros j Hj. rewrite (rsum_ext _ _ (fun i => f1 i j * (c_dv c * c_wp c j * 1))) by (intros; reflexivity). rewrite rsum_scal_r.
    rewrite (par_slice _ _ _ _ _ _ _ j A Hj). rewrite <- rsum_scal_r. reflexivity.
Qed.

(** ** The explicit step reads only the cells of the grid *)
Lemma centred_ext len d g g' k : (k < len)%nat -> (forall l, (l < len)%nat -> g l = g' l) -> centred len d g k = centred len d g' k.
Proof. intros Hk H. unfold centred. rewrite (H (k - 1)%nat) by lia. destruct (Nat.ltb_spec (S k) len); [rewrite (H (S k)) by lia|rewrite (H k) by lia]; reflexivity. Qed.
Lemma explicit_ext c n u T nudt f f' : cells c f f' -> cells c (explicit_step c n u T nudt f) (explicit_step c n u T nudt f').
Proof.
  intros E i j Hi Hj. unfold explicit_step. rewrite (E i j Hi Hj). set (g := fun k l => f k l / maxwell c u T k l). set (g' := fun k l => f' k l / maxwell c u T k l).
  assert (G : cells c g g') by (intros k l Hk Hl; unfold g, g'; now rewrite (E k l Hk Hl)).
  assert (A : forall i, (S i < c_nv c)%nat -> gam_par c n u T g i j = gam_par c n u T g' i j).
  { intros k Hk. unfold gam_par. rewrite (centred_ext _ _ (g (S k)) (g' (S k)) j Hj), (centred_ext _ _ (g k) (g' k) j Hj); [reflexivity| |]; intros l Hl; apply G; lia. }
  assert (B : forall j, (S j < c_nvp c)%nat -> gam_perp c n u T g i j = gam_perp c n u T g' i j).
  { intros k Hk. unfold gam_perp. rewrite (centred_ext _ _ (fun l => g l (S k)) (fun l => g' l (S k)) i Hi), (centred_ext _ _ (fun l => g l k) (fun l => g' l k) i Hi); [reflexivity| |]; intros l Hl; apply G; lia. }
  f_equal. f_equal. f_equal.
  - unfold div_par. f_equal. f_equal; [destruct (Nat.ltb_spec (S i) (c_nv c)); [now apply A|reflexivity]|destruct i; [reflexivity|apply A; lia]].
  - unfold div_perp. cbv zeta. f_equal. f_equal; [destruct (Nat.ltb_spec (S j) (c_nvp c)); [now rewrite B|reflexivity]|destruct j; [reflexivity|rewrite B; [reflexivity|lia]]].
Qed.
Lemma iter_ext c n u T nudt k f f' : cells c f f' -> cells c (Nat.iter k (explicit_step c n u T nudt) f) (Nat.iter k (explicit_step c n u T nudt) f').
Proof. intros E. induction k as [|k IH]; [exact E|]. exact (explicit_ext c n u T nudt _ _ IH). Qed.

(** ** The Maxwellian *)
Lemma centred_const len d (g : nat -> R) A k : (k < len)%nat -> (forall l, (l < len)%nat -> g l = A) -> centred len d g k = 0.
Proof. intros Hk H. unfold centred. rewrite (H (k - 1)%nat) by lia. destruct (Nat.ltb_spec (S k) len); [rewrite (H (S k)) by lia|rewrite (H k) by lia]; unfold Rdiv; ring. Qed.
Lemma explicit_maxwell c n u T nudt f A : cells c f (fun i j => A * maxwell c u T i j) -> cells c (explicit_step c n u T nudt f) f.
Proof.
  intros E i j Hi Hj. unfold explicit_step. set (g := fun k l => f k l / maxwell c u T k l).
  assert (G : forall k l, (k < c_nv c)%nat -> (l < c_nvp c)%nat -> g k l = A) by (intros k l Hk Hl; unfold g; rewrite (E k l Hk Hl); pose proof (maxwell_pos c u T k l); field; lra).
  assert (X : forall i, (S i < c_nv c)%nat -> gam_par c n u T g i j = 0).
  { intros k Hk. unfold gam_par. rewrite !(centred_const _ _ _ A) by (try exact Hj; intros; apply G; lia). ring. }
  assert (Y : forall j, (S j < c_nvp c)%nat -> gam_perp c n u T g i j = 0).
  { intros k Hk. unfold gam_perp. rewrite !(centred_const _ _ _ A) by (try exact Hi; intros; apply G; lia). ring. }
  replace (div_par c n u T g i j) with 0; [replace (div_perp c n u T g i j) with 0; [ring|]|].
  - unfold div_perp. cbv zeta. destruct (Nat.ltb_spec (S j) (c_nvp c)) as [L|L]; [rewrite (Y j L)|]; (destruct j as [|l]; [|rewrite (Y l) by lia]); unfold Rdiv; ring.
  - unfold div_par. destruct (Nat.ltb_spec (S i) (c_nv c)) as [L|L]; [rewrite (X i L)|]; (destruct i as [|l]; [|rewrite (X l) by lia]); unfold Rdiv; ring.
Qed.
Lemma flux_maxwell len alpha beta x k : ((S k < len)%nat -> - alpha k * x k - beta k * x (S k) = 0) -> flux len alpha beta x k = 0.
Proof. intros H. unfold flux. destruct (Nat.ltb_spec (S k) len) as [L|L]; auto. Qed.
Lemma par_maxwell c n u T nudt f A : cells c f (fun i j => A * maxwell c u T i j) -> par_sweep c n u T nudt f f.
Proof.
  intros E j Hj i Hi. rewrite par_mv, assemble_mv by exact Hi.
  assert (F : forall k, flux (c_nv c) (par_alpha c n u T j) (par_beta c n u T j) (fun l => f l j) k = 0).
  { intros k. apply flux_maxwell. intros L. rewrite (E k j), (E (S k) j) by lia. unfold par_alpha, par_beta. pose proof (maxwell_pos c u T k j). pose proof (maxwell_pos c u T (S k) j). field. lra. }
  rewrite F. unfold flux_left. destruct i; [|rewrite F]; unfold Rdiv; ring.
Qed.
Lemma perp_maxwell c n u T nudt f A : cells c f (fun i j => A * maxwell c u T i j) -> perp_sweep c n u T nudt f f.
Proof.
  intros E i Hi j Hj. rewrite perp_mv, assemble_mv by exact Hj.
  assert (F : forall k, flux (c_nvp c) (perp_alpha c n u T i) (perp_beta c n u T i) (f i) k = 0).
  { intros k. apply flux_maxwell. intros L. rewrite (E i k), (E i (S k)) by lia. unfold perp_alpha, perp_beta. pose proof (maxwell_pos c u T i k). pose proof (maxwell_pos c u T i (S k)). field. lra. }
  rewrite F. unfold flux_left. destruct j; [|rewrite F]; unfold Rdiv; ring.
Qed.

(** ** The sweeps do not increase the distance from the Maxwellian *)
Lemma step_dissipates len k nu (cc M p f g : nat -> R) :
  (forall i, (i < len)%nat -> 0 < M i) -> (forall i, (S i < len)%nat -> 0 <= cc i) -> 0 <= k -> (forall i, (i < len)%nat -> 0 <= p i /\ p i * nu i = 1) ->
  (forall i, (i < len)%nat -> mv len (assemble len 1 k nu (fun i => cc i / M i) (fun i => - (cc i / M (S i)))) g i = f i) ->
  rsum len (fun i => p i * (g i ^ 2 / M i)) <= rsum len (fun i => p i * (f i ^ 2 / M i)).
Proof.
  intros HM Hc Hk Hp H. set (al := fun i => cc i / M i) in *. set (be := fun i => - (cc i / M (S i))) in *.
  assert (E : rsum len (fun i => p i * (g i / M i * (g i - f i))) <= 0).
  { rewrite (rsum_ext len _ (fun i => k * (g i / M i * (flux len al be g i - flux_left len al be g i)))).
    - rewrite rsum_scal, flux_parts. assert (0 <= rsum len (fun i => - (flux len al be g i * (g i / M i - g (S i) / M (S i))))).
      { apply rsum_nonneg. intros i Hi. unfold flux. destruct (Nat.ltb_spec (S i) len) as [L|L]; [|lra]. unfold al, be.
        replace (- ((- (cc i / M i) * g i - - (cc i / M (S i)) * g (S i)) * (g i / M i - g (S i) / M (S i)))) with (cc i * (g i / M i - g (S i) / M (S i)) ^ 2) by (unfold Rdiv; ring).
        apply Rmult_le_pos; [now apply Hc|]. apply pow2_ge_0. }
      rewrite (rsum_ext len (fun i => - _) (fun i => -1 * (flux len al be g i * (g i / M i - g (S i) / M (S i))))) in H0 by (intros; ring). rewrite rsum_scal in H0.
      assert (0 <= k * (- 1 * rsum len (fun i => flux len al be g i * (g i / M i - g (S i) / M (S i))))) by (apply Rmult_le_pos; assumption). lra.
    - intros i Hi. rewrite <- (H i Hi), assemble_mv by exact Hi. destruct (Hp i Hi) as (_ & Q).
      replace (p i * (g i / M i * (g i - (g i - k * nu i / 1 * (flux len al be g i - flux_left len al be g i))))) with ((p i * nu i) * (k * (g i / M i * (flux len al be g i - flux_left len al be g i)))) by (unfold Rdiv; rewrite Rinv_1; ring).
      rewrite Q. ring. }
  assert (B : rsum len (fun i => p i * (g i ^ 2 / M i) - p i * (f i ^ 2 / M i)) <= rsum len (fun i => 2 * (p i * (g i / M i * (g i - f i))))).
  { apply rsum_le. intros i Hi. destruct (Hp i Hi) as (P0 & _). specialize (HM i Hi). assert (0 <= p i * ((g i - f i) ^ 2 / M i)).
    { apply Rmult_le_pos; [exact P0|]. unfold Rdiv. apply Rmult_le_pos; [apply pow2_ge_0|apply Rlt_le, Rinv_0_lt_compat, HM]. }
    replace (2 * (p i * (g i / M i * (g i - f i)))) with (p i * (g i ^ 2 / M i) - p i * (f i ^ 2 / M i) + p i * ((g i - f i) ^ 2 / M i)) by (unfold Rdiv; ring). lra. }
  rewrite rsum_minus, rsum_scal in B. lra.
Qed.
