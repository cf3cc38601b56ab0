(** Property C104, continued: sampled distributions and the table of saves. *)
From Coq Require Import Psatz FunctionalExtensionality.
From Verif Require Import VInitProps VSave VSaveProps.
From Verif Require Import PyStr.
From Verif Require OsIOProofs.
Local Open Scope R_scope.

(* ------------------------------------------------------------------------------------------------ *)
(** ** Interpolation *)
Section W.
Variables (n : nat) (x : nat -> R).
Hypothesis Inc : forall i j, (i < j)%nat -> x i < x j.
Let count q m := List.length (filter (fun i => if Rle_dec (x i) q then true else false) (seq 0 m)).
Lemma count_spec q m : (count q m <= m)%nat /\ forall i, (i < m)%nat -> ((i < count q m)%nat <-> x i <= q).
Proof.
  induction m as [|m [IH1 IH2]]; [split; [cbn; lia|intros; lia]|].
  assert (E : count q (S m) = (count q m + if Rle_dec (x m) q then 1 else 0)%nat).
  { unfold count. rewrite seq_S, filter_app, app_length. f_equal. cbn [filter Nat.add]. destruct (Rle_dec (x m) q); reflexivity. }
  rewrite E. destruct (Rle_dec (x m) q) as [l|l].
  - assert (A : count q m = m). { destruct m as [|k]; [reflexivity|]. assert ((k < count q (S k))%nat); [|lia]. apply IH2; [lia|]. pose proof (Inc k (S k) ltac:(lia)). lra. }
    rewrite A. split; [lia|]. intros i Hi. split; [|lia]. intros _. destruct (Nat.eq_dec i m) as [->|]; [auto|]. pose proof (Inc i m ltac:(lia)). lra.
  - split; [lia|]. intros i Hi. rewrite Nat.add_0_r. destruct (Nat.eq_dec i m) as [->|]; [|apply IH2; lia]. split; [lia|contradiction].
Qed.
(** Always: two neighbouring points, weights of sum one that reproduce the position. *)
Lemma weights_linear q : (2 <= n)%nat -> exists i u0 u1, lin_weights true n x q = Some (i, u0, u1) /\ (1 <= i <= n - 1)%nat /\ u0 + u1 = 1 /\ u0 * x (i - 1)%nat + u1 * x i = q.
Proof.
  intros Hn. unfold lin_weights. set (i := bin n x q). assert (I : (1 <= i <= n - 1)%nat) by (unfold i, bin; lia). assert (P : x (i - 1)%nat < x i) by (apply Inc; lia).
  exists i, ((x i - q) / (x i - x (i - 1)%nat)), ((q - x (i - 1)%nat) / (x i - x (i - 1)%nat)). split; [reflexivity|]. split; [exact I|]. split; field; lra.
Qed.
(** Inside of the points the weights are nonnegative. *)
Lemma weights_inside e q : (2 <= n)%nat -> x 0%nat <= q <= x (n - 1)%nat -> exists i u0 u1, lin_weights e n x q = Some (i, u0, u1) /\ (1 <= i <= n - 1)%nat /\ 0 <= u0 /\ 0 <= u1 /\ u0 + u1 = 1 /\
  u0 * x (i - 1)%nat + u1 * x i = q.
Proof.
  intros Hn [L U]. destruct (weights_linear q Hn) as (i & u0 & u1 & W & I & S1 & S2).
  assert (W' : lin_weights e n x q = Some (i, u0, u1)).
  { rewrite <- W. unfold lin_weights. destruct e; [reflexivity|]. destruct (Rlt_dec q (x 0%nat)); [lra|]. destruct (Rlt_dec (x (n - 1)%nat) q); [lra|reflexivity]. }
  unfold lin_weights in W. injection W as Ei E0 E1.
  destruct (count_spec q n) as [C1 C2]. assert (B : bin n x q = Nat.min (Nat.max (count q n) 1) (n - 1)) by reflexivity. set (k := count q n) in *. rewrite Ei in *.
  assert (k1 : (1 <= k)%nat) by (apply (C2 0%nat); lia || lra).
  assert (A : x (i - 1)%nat <= q) by (apply C2; lia). assert (A' : q <= x i). { destruct (Nat.eq_dec i (n - 1)) as [->|]; [lra|]. destruct (Rle_lt_dec q (x i)) as [|h]; [auto|]. assert (x i <= q) as h' by lra. apply C2 in h'; lia. }
  assert (P : x (i - 1)%nat < x i) by (apply Inc; lia). exists i, u0, u1. split; [exact W'|]. split; [exact I|]. split; [rewrite <- E0; apply Rmult_le_pos; [lra|apply Rlt_le, Rinv_0_lt_compat; lra]|].
  split; [rewrite <- E1; apply Rmult_le_pos; [lra|apply Rlt_le, Rinv_0_lt_compat; lra]|]. auto.
Qed.
Lemma weights_outside q : q < x 0%nat \/ x (n - 1)%nat < q -> lin_weights false n x q = None.
Proof. intros H. unfold lin_weights. destruct (Rlt_dec q (x 0%nat)); [reflexivity|]. destruct (Rlt_dec (x (n - 1)%nat) q); [reflexivity|lra]. Qed.
(** At a point, the whole weight is on it. *)
Lemma weights_point e a : (2 <= n)%nat -> (a < n)%nat -> exists i u0 u1, lin_weights e n x (x a) = Some (i, u0, u1) /\ ((i = S a /\ u0 = 1 /\ u1 = 0) \/ (i = a /\ (1 <= a)%nat /\ u0 = 0 /\ u1 = 1)).
Proof.
  intros Hn Ha. assert (M : forall i j, (i <= j)%nat -> x i <= x j) by (intros i j h; destruct (Nat.eq_dec i j) as [->|]; [lra|apply Rlt_le, Inc; lia]).
  destruct (weights_inside e (x a) Hn (Logic.conj (M 0%nat a ltac:(lia)) (M a (n - 1)%nat ltac:(lia)))) as (i & u0 & u1 & W & I & P0 & P1 & SS & Q).
  exists i, u0, u1. split; [exact W|]. destruct (Nat.lt_trichotomy a (i - 1)) as [H|[H|H]].
  - exfalso. pose proof (Inc a (i - 1)%nat H). pose proof (Inc (i - 1)%nat i ltac:(lia)). nra.
  - left. split; [lia|]. rewrite H in *. pose proof (Inc (i - 1)%nat i ltac:(lia)). assert (u1 = 0) by nra. lra.
  - right. destruct (Nat.eq_dec i a) as [E|E]; [|exfalso; pose proof (Inc i a ltac:(lia)); pose proof (Inc (i - 1)%nat i ltac:(lia)); nra].
    subst i. pose proof (Inc (a - 1)%nat a ltac:(lia)). assert (u0 = 0) by nra. split; [reflexivity|]. split; [lia|]. lra.
Qed.
End W.
Lemma cell_v_inc s : (0 < sp_nv s)%nat -> sp_vmin s < sp_vmax s -> forall i j, (i < j)%nat -> cell_v s i < cell_v s j.
Proof. intros A B i j H. unfold cell_v. pose proof (dv_pos s A B) as D. unfold sp_dv in D. apply lt_INR in H. nra. Qed.
(** lin_weights only reads the first n points. *)
Lemma weights_ext e n x y q : (0 < n)%nat -> (forall i, (i < n)%nat -> x i = y i) -> lin_weights e n x q = lin_weights e n y q.
Proof.
  intros Hn H. assert (B : bin n x q = bin n y q).
  { unfold bin. f_equal. f_equal. f_equal. apply filter_ext_in. intros i Hi. apply in_seq in Hi. now rewrite H by lia. }
  unfold lin_weights. rewrite B. assert (bin n y q < n)%nat by (unfold bin; lia). rewrite !H by lia. reflexivity.
Qed.
Lemma sample_cells e nx s x f p q : (0 < sp_nv s)%nat -> sample2 e nx (sp_nv s) x (sp_v s) f p q = sample2 e nx (sp_nv s) x (cell_v s) f p q.
Proof. intros A. unfold sample2. rewrite (weights_ext e (sp_nv s) (sp_v s) (cell_v s) q A); [reflexivity|]. intros j Hj. now apply sp_v_formula. Qed.

Definition two_by_two (nx : nat) (s : species) (x : nat -> R) : Prop := (2 <= nx)%nat /\ (2 <= sp_nv s)%nat /\ sp_vmin s < sp_vmax s /\ forall i j, (i < j)%nat -> x i < x j.
(** A sample inside of the cell centres is between any bounds of the distribution; a sample at a cell centre is the
    value of the cell; a function a + b x + c v + d x v is reproduced. *)
Theorem C104_samples : forall nx x kx s xs vs f a b, two_by_two nx s x -> x 0%nat <= xs a <= x (nx - 1)%nat -> cell_v s 0 <= vs b <= cell_v s (sp_nv s - 1) ->
  exists r, dist_saved nx x kx s (DSampled xs vs) f a b = Some r /\
  (forall lo hi, (forall i j, (i < nx)%nat -> (j < sp_nv s)%nat -> lo <= f i j <= hi) -> lo <= r <= hi) /\
  (forall i j, (i < nx)%nat -> (j < sp_nv s)%nat -> xs a = x i -> vs b = cell_v s j -> r = f i j) /\
  (forall k0 k1 k2 k3, (forall i j, (i < nx)%nat -> (j < sp_nv s)%nat -> f i j = k0 + k1 * x i + k2 * cell_v s j + k3 * x i * cell_v s j) -> r = k0 + k1 * xs a + k2 * vs b + k3 * xs a * vs b).
Proof.
  intros nx x kx s xs vs f a b (Hx & Hv & Hr & Inc) HX HV. pose proof (cell_v_inc s ltac:(lia) Hr) as VI. cbn [dist_saved]. rewrite sample_cells by lia.
  destruct (weights_inside nx x Inc false (xs a) Hx HX) as (i & u0 & u1 & W1 & I & P0 & P1 & PS & PQ). destruct (weights_inside (sp_nv s) (cell_v s) VI false (vs b) Hv HV) as (j & v0 & v1 & W2 & J & Q0 & Q1 & QS & QQ).
  unfold sample2. rewrite W1, W2. eexists. split; [reflexivity|]. split; [|split].
  - intros lo hi B. pose proof (B (i - 1)%nat (j - 1)%nat ltac:(lia) ltac:(lia)). pose proof (B (i - 1)%nat j ltac:(lia) ltac:(lia)). pose proof (B i (j - 1)%nat ltac:(lia) ltac:(lia)). pose proof (B i j ltac:(lia) ltac:(lia)).
    assert (AV : forall w0 w1 y z, 0 <= w0 -> 0 <= w1 -> w0 + w1 = 1 -> lo <= y <= hi -> lo <= z <= hi -> lo <= w0 * y + w1 * z <= hi) by (intros; split; nra).
    apply AV; auto; apply AV; auto.
  - intros i' j' Hi Hj E1 E2. rewrite E1 in W1. rewrite E2 in W2. destruct (weights_point nx x Inc false i' Hx Hi) as (i2 & a0 & a1 & W3 & C1). destruct (weights_point (sp_nv s) (cell_v s) VI false j' Hv Hj) as (j2 & b0 & b1 & W4 & C2).
    rewrite W1 in W3. rewrite W2 in W4. injection W3 as <- <- <-. injection W4 as <- <- <-.
    destruct C1 as [(-> & -> & ->)|(-> & _ & -> & ->)]; destruct C2 as [(-> & -> & ->)|(-> & _ & -> & ->)]; cbn [Nat.sub]; rewrite ?Nat.sub_0_r; ring.
  - intros k0 k1 k2 k3 E. rewrite !E by lia. rewrite <- PQ, <- QQ. set (X0 := x (i - 1)%nat). set (X1 := x i). set (V0 := cell_v s (j - 1)). set (V1 := cell_v s j). replace u0 with (1 - u1) by lra. replace v0 with (1 - v1) by lra. ring.
Qed.
Print Assumptions C104_samples.
(** In 1D2V the same holds for the marginal, and every sample is a number, also outside of the cell centres, where the
    edge interval is prolonged. *)
Theorem C104_samples2 : forall h nx x s xs vs f a b, two_by_two nx s x ->
  exists r, dist_saved2 h nx x s xs vs f a b = Some r /\
  (x 0%nat <= xs a <= x (nx - 1)%nat -> cell_v s 0 <= vs b <= cell_v s (sp_nv s - 1) -> dist_saved nx x (fun _ => 0) s (DSampled xs vs) (marginal h f) a b = Some r) /\
  (forall k0 k1 k2 k3, (forall i j, (i < nx)%nat -> (j < sp_nv s)%nat -> marginal h f i j = k0 + k1 * x i + k2 * cell_v s j + k3 * x i * cell_v s j) -> r = k0 + k1 * xs a + k2 * vs b + k3 * xs a * vs b).
Proof.
  intros h nx x s xs vs f a b (Hx & Hv & Hr & Inc). pose proof (cell_v_inc s ltac:(lia) Hr) as VI. unfold dist_saved2. rewrite sample_cells by lia.
  destruct (weights_linear nx x Inc (xs a) Hx) as (i & u0 & u1 & W1 & I & PS & PQ). destruct (weights_linear (sp_nv s) (cell_v s) VI (vs b) Hv) as (j & v0 & v1 & W2 & J & QS & QQ).
  assert (E0 : sample2 true nx (sp_nv s) x (cell_v s) (marginal h f) (xs a) (vs b) = Some (u0 * (v0 * marginal h f (i - 1)%nat (j - 1)%nat + v1 * marginal h f (i - 1)%nat j) + u1 * (v0 * marginal h f i (j - 1)%nat + v1 * marginal h f i j))) by (unfold sample2; now rewrite W1, W2).
  eexists. split; [exact E0|]. split.
  - intros HX HV. cbn [dist_saved]. rewrite sample_cells by lia. rewrite <- E0. unfold sample2, lin_weights.
    destruct (Rlt_dec (xs a) (x 0%nat)); [lra|]. destruct (Rlt_dec (x (nx - 1)%nat) (xs a)); [lra|]. destruct (Rlt_dec (vs b) (cell_v s 0)); [lra|]. destruct (Rlt_dec (cell_v s (sp_nv s - 1)) (vs b)); [lra|]. reflexivity.
  - intros k0 k1 k2 k3 E. rewrite !E by lia. rewrite <- PQ, <- QQ. set (X0 := x (i - 1)%nat). set (X1 := x i). set (V0 := cell_v s (j - 1)). set (V1 := cell_v s j). replace u0 with (1 - u1) by lra. replace v0 with (1 - v1) by lra. ring.
Qed.
Print Assumptions C104_samples2.

(** A 1D save over the whole velocity range of the species (as in the documented example, vmin and vmax equal to those of
    the grid) is not a number on its first and on its last velocity, at every x, whatever the resolutions; a save over the
    whole box in x has no such point exactly when it has at most as many cells as the grid. *)
Lemma linspace_0 a b n : linspace a b n 0 = a.
Proof. unfold linspace. destruct (Nat.leb n 1); [reflexivity|]. change (INR 0) with 0. unfold Rdiv. ring. Qed.
Lemma linspace_last a b n : (2 <= n)%nat -> linspace a b n (n - 1) = b.
Proof. intros H. unfold linspace. destruct (Nat.leb_spec n 1); [lia|]. assert (INR (n - 1) <> 0) by (apply not_0_INR; lia). field. auto. Qed.
Lemma linspace_in a b n i : a <= b -> (i < n)%nat -> a <= linspace a b n i <= b.
Proof.
  intros Hab Hi. unfold linspace. destruct (Nat.leb_spec n 1); [lra|]. assert (P : 0 < INR (n - 1)) by (apply lt_0_INR; lia). assert (I1 : INR i <= INR (n - 1)) by (apply le_INR; lia). pose proof (pos_INR i).
  assert (0 <= (b - a) * INR i / INR (n - 1) <= b - a). { split; [apply Rmult_le_pos; [nra|apply Rlt_le, Rinv_0_lt_compat; auto]|]. apply (Rmult_le_reg_r (INR (n - 1))); [auto|]. unfold Rdiv. rewrite Rmult_assoc, Rinv_l by lra. nra. } lra.
Qed.
Theorem C104_velocity_edges : forall nx x kx s xs m f a, (0 < sp_nv s)%nat -> sp_vmin s < sp_vmax s -> (2 <= m)%nat ->
  dist_saved nx x kx s (DSampled xs (save_axis false (sp_vmin s) (sp_vmax s) m)) f a 0 = None /\
  dist_saved nx x kx s (DSampled xs (save_axis false (sp_vmin s) (sp_vmax s) m)) f a (m - 1) = None.
Proof.
  intros nx x kx s xs m f a A B Hm. cbn [dist_saved]. rewrite !sample_cells by exact A.
  assert (E0 : save_axis false (sp_vmin s) (sp_vmax s) m 0 = sp_vmin s) by (unfold save_axis; cbv zeta; rewrite linspace_0; lra).
  assert (E1 : save_axis false (sp_vmin s) (sp_vmax s) m (m - 1) = sp_vmax s) by (unfold save_axis; cbv zeta; rewrite linspace_last by exact Hm; lra).
  rewrite E0, E1. pose proof (cell_v_range s 0 ltac:(lia) B). pose proof (cell_v_range s (sp_nv s - 1) ltac:(lia) B).
  unfold sample2. rewrite (weights_outside (sp_nv s) (cell_v s) (sp_vmin s)) by (left; lra). rewrite (weights_outside (sp_nv s) (cell_v s) (sp_vmax s)) by (right; lra).
  split; destruct (lin_weights false nx x _) as [[[? ?] ?]|]; reflexivity.
Qed.
Print Assumptions C104_velocity_edges.
Theorem C104_space_edges : forall nx lo hi m s vs f b kx, (2 <= nx)%nat -> (2 <= sp_nv s)%nat -> (0 < m)%nat -> lo < hi -> sp_vmin s < sp_vmax s -> cell_v s 0 <= vs b <= cell_v s (sp_nv s - 1) ->
  ((forall a, (a < m)%nat -> dist_saved nx (fun i => lo + (INR i + 1 / 2) * ((hi - lo) / INR nx)) kx s (DSampled (save_axis true lo hi m) vs) f a b <> None) <-> (m <= nx)%nat).
Proof.
  intros nx lo hi m s vs f b kx Hn Hv Hm Hl Hr HV. set (x := fun i => lo + (INR i + 1 / 2) * ((hi - lo) / INR nx)). assert (PN : 0 < INR nx) by (apply lt_0_INR; lia). assert (PM : 0 < INR m) by (apply lt_0_INR; lia).
  set (d := (hi - lo) / INR nx) in *. set (dm := (hi - lo) / INR m). assert (D : 0 < d) by (apply Rdiv_lt_0_compat; lra). assert (DM : 0 < dm) by (apply Rdiv_lt_0_compat; lra). assert (ED : d * INR nx = hi - lo) by (unfold d; field; lra). assert (EM : dm * INR m = hi - lo) by (unfold dm; field; lra).
  assert (Inc : forall i j, (i < j)%nat -> x i < x j) by (intros i j H; unfold x; apply lt_INR in H; nra).
  assert (X0 : x 0%nat = lo + d / 2) by (unfold x; cbn [INR]; field). assert (X1 : x (nx - 1)%nat = hi - d / 2) by (unfold x; rewrite minus_INR by lia; cbn [INR]; replace hi with (d * INR nx + lo) by lra; field).
  split.
  - intros H. destruct (le_lt_dec m nx) as [|L]; [assumption|exfalso]. apply (H 0%nat Hm). cbn [dist_saved]. unfold sample2. assert (A0 : save_axis true lo hi m 0 = lo + dm / 2) by (unfold save_axis; cbv zeta; apply linspace_0).
    rewrite A0. rewrite (weights_outside nx x); [reflexivity|]. left. rewrite X0. apply lt_INR in L. assert (dm < d) by (apply Rmult_lt_reg_r with (INR m); [exact PM|]; nra). lra.
  - intros L a Ha. apply le_INR in L. assert (d <= dm) by (apply Rmult_le_reg_r with (INR m); [exact PM|]; nra).
    assert (IN : lo + dm / 2 <= save_axis true lo hi m a <= hi - dm / 2).
    { unfold save_axis. cbv zeta. fold dm. apply linspace_in; [|exact Ha]. assert (1 <= INR m) by (apply (le_INR 1); lia). nra. }
    destruct (C104_samples nx x kx s (save_axis true lo hi m) vs f a b) as (r & E & _); [split; [exact Hn|split; [exact Hv|split; [exact Hr|exact Inc]]]|rewrite X0, X1; lra|exact HV|]. rewrite E. discriminate.
Qed.
Print Assumptions C104_space_edges.
(** The save of |rfft| on (kx, v) fails on every grid of more than two cells. *)
Theorem C104_spectrum_refuted : forall nx x kx s ks vs f a b, (2 < nx)%nat -> dist_saved nx x kx s (DSpectrum ks vs) f a b = None.
Proof. intros nx x kx s ks vs f a b H. cbn [dist_saved]. destruct (Nat.eqb_spec nx (nx / 2 + 1)) as [E|E]; [|reflexivity]. pose proof (Nat.div_mod nx 2 ltac:(lia)). pose proof (Nat.mod_upper_bound nx 2 ltac:(lia)). lia. Qed.
Print Assumptions C104_spectrum_refuted.

(* ------------------------------------------------------------------------------------------------ *)
(** ** A concrete case: four cells, four velocities, a distribution that depends on both *)
Definition sv_sp : species := {| sp_q := -1; sp_m := 1; sp_nv := 4; sp_vmin := -2; sp_vmax := 2 |}.
Definition sv_f0 : dist := fun i j => 1 + INR i + INR j.
Definition sv_x (i : nat) : R := INR i + 1 / 2.
Example sv_grid : two_by_two 4 sv_sp sv_x.
Proof. split; [lia|]. split; [cbn; lia|]. split; [cbn; lra|]. intros i j H. unfold sv_x. apply lt_INR in H. lra. Qed.
Example sv_moment_case : 0 < sv_n sv_sp sv_f0 1%nat /\ sp_vmin sv_sp < sv_v sv_sp sv_f0 1%nat < sp_vmax sv_sp /\ 0 <= sv_p sv_sp sv_f0 1%nat.
Proof.
  assert (P : 0 < sv_n sv_sp sv_f0 1%nat) by (unfold sv_n, mom, sv_f0, sp_dv, sv_sp; cbn [sp_nv sp_vmin sp_vmax rsum INR]; lra).
  split; [exact P|]. destruct (C104_moments sv_sp sv_f0 1%nat ltac:(cbn; lia) ltac:(cbn; lra)) as (_ & _ & _ & _ & _ & H). cbn zeta in H.
  destruct H as [A B]; [intros j _; unfold sv_f0; pose proof (pos_INR j); cbn [INR]; lra|exact P|]. split; [exact A|apply B].
Qed.
(** A sample between the cells: the weights are those of its position. *)
Example sv_sample_case : dist_saved 4 sv_x (fun _ => 0) sv_sp (DSampled (fun _ => 1) (fun _ => 0)) sv_f0 0 0 = Some 3.
Proof.
  destruct (C104_samples 4 sv_x (fun _ => 0) sv_sp (fun _ => 1) (fun _ => 0) sv_f0 0 0 sv_grid) as (r & E & _ & _ & L).
  - unfold sv_x. cbn [Nat.sub INR]. lra.
  - unfold cell_v, sv_sp. cbn [sp_nv sp_vmin sp_vmax INR Nat.sub]. lra.
  - rewrite E. f_equal. rewrite (L 2 1 1 0); [lra|]. intros i j _ _. unfold sv_f0, sv_x, cell_v, sv_sp. cbn [sp_nv sp_vmin sp_vmax]. change (INR 4) with (1 + 1 + 1 + 1). lra.
Qed.
Example sv_energy_case : let F := [(lit "e", (sv_sp, sv_f0))] in 0 <= mean_kinetic 4 F <= mean_total 4 (mean_kinetic 4 F) (fun _ => 1).
Proof.
  intros F. apply (C104_energy 4 F (fun _ => 1)); [lia|]. intros p [<-|[]]. cbn. split; [lra|]. split; [lia|]. split; [lra|]. intros i j _ _. unfold sv_f0. pose proof (pos_INR i). pose proof (pos_INR j). lra.
Qed.
Example sv_split_case : 0 < 1 / 2 /\ 1 * 1 * (1 / 4) < PI.
Proof. pose proof PI_RGT_0. pose proof PI2_3_2. unfold PI2 in *. lra. Qed.
