(** Property C99, continued: grid, times, absorbing boundary, density, units. *)
From Coq Require Import Reals Lra Lia ZArith List Bool Psatz.
From Verif Require Import RSum Pic PicProofs VGrid VGridProofs Lpse LpseFft LpseProps LpseLaser LpseBand LpseSetup LpseSmooth Dft.
Local Open Scope R_scope.

Definition usable (g : gin) : Prop := 0 < i_dx g /\ i_dx g <= lgrid g /\ i_ymin g < i_ymax g /\ 0 < i_dt g /\ 0 <= i_tmax g.
Lemma trunc_b x : 0 <= x -> IZR (trunc x) <= x < IZR (trunc x) + 1 /\ (0 <= trunc x)%Z.
Proof.
  intros H. rewrite trunc_pos by auto. pose proof (floor_spec x) as F. split; [exact F|]. destruct (Z_lt_ge_dec (floor x) 0) as [q|q]; [|lia]. assert (floor x + 1 <= 0)%Z as r by lia. apply IZR_le in r. rewrite plus_IZR in r. lra.
Qed.
Lemma next_pos n mp : (0 < next_smooth n mp)%nat.
Proof.
  destruct (Z_le_gt_dec n 1) as [q|q]; [unfold next_smooth; apply Z.leb_le in q; rewrite q; lia|]. destruct (C99_smooth n mp ltac:(lia)) as (_ & A & _). cbv zeta in A. lia.
Qed.
(** The grid: both sizes are the least 2-3-5-smooth ones that fit the box; the cells are square and fill the box exactly; the x axis starts at 0, the y axis
    is centred on 0; the cell size is within a factor two of the requested one; positions are cell centres. *)
Theorem C99_grid : forall g, usable g -> let o := derive g in
  sizes false (o_nx o) /\ sizes false (o_ny o) /\ o_dy o = o_dx o /\ 0 < o_dx o /\
  INR (o_nx o) * o_dx o = o_xmax o - o_xmin o /\ INR (o_ny o) * o_dy o = o_ymax o - o_ymin o /\ o_xmin o = 0 /\ o_ymin o = - o_ymax o /\
  i_dx g / 2 < o_dx o < 2 * i_dx g /\ i_ymax g - i_ymin g - o_dy o < o_ymax o - o_ymin o /\
  (forall m, sizes false m -> (trunc (lgrid g / i_dx g) <= Z.of_nat m)%Z -> (o_nx o <= m)%nat) /\
  (forall a, (a < o_nx o)%nat -> x_ax o a = (INR a + 1 / 2) * o_dx o) /\ (forall b, (b < o_ny o)%nat -> y_ax o b = o_ymin o + (INR b + 1 / 2) * o_dy o).
Proof.
  intros g (Hd & HL & HY & Ht & HT) o. set (L := lgrid g) in *. set (n := trunc (L / i_dx g)).
  assert (Q : 1 <= L / i_dx g) by (apply (Rmult_le_reg_r (i_dx g)); auto; unfold Rdiv; rewrite Rmult_assoc, Rinv_l by lra; lra).
  destruct (trunc_b (L / i_dx g) ltac:(lra)) as [B B0]. fold n in B, B0.
  assert (N1 : (1 <= n)%Z). { destruct (Z_lt_ge_dec n 1) as [q|q]; [|lia]. assert (n + 1 <= 1)%Z as r by lia. apply IZR_le in r. rewrite plus_IZR in r. lra. }
  assert (NX : o_nx o = next_smooth n 5) by (unfold o, derive; cbn [o_nx]; fold L; rewrite Rminus_0_r; reflexivity).
  assert (DX : o_dx o = L / INR (o_nx o)) by (rewrite NX; unfold o, derive; cbn [o_dx]; fold L; rewrite Rminus_0_r; reflexivity).
  destruct (C99_smooth n 5 N1) as (S1 & S2 & S3). cbv zeta in *. change (7 <=? 5)%Z with false in *. rewrite <- NX in *.
  assert (Px : 0 < INR (o_nx o)) by (apply lt_0_INR; rewrite NX; apply next_pos). assert (PL : 0 < L) by lra. assert (PD : 0 < o_dx o) by (rewrite DX; apply Rdiv_lt_0_compat; auto).
  set (m := trunc ((i_ymax g - i_ymin g) / o_dx o)). assert (NY : o_ny o = next_smooth m 5) by (unfold m; rewrite DX, NX; unfold o, derive; cbn [o_ny]; fold L; rewrite Rminus_0_r; reflexivity).
  assert (QY : 0 < (i_ymax g - i_ymin g) / o_dx o) by (apply Rdiv_lt_0_compat; lra). destruct (trunc_b ((i_ymax g - i_ymin g) / o_dx o) ltac:(lra)) as [C C0]. fold m in C, C0.
  assert (Py : 0 < INR (o_ny o)) by (apply lt_0_INR; rewrite NY; apply next_pos).
  assert (YM : o_ymax o = o_dx o * INR (o_ny o) / 2) by (rewrite NY; unfold m; rewrite DX, NX; unfold o, derive; cbn [o_ymax]; fold L; rewrite Rminus_0_r; reflexivity).
  assert (Yn : o_ymin o = - o_ymax o) by reflexivity. assert (XM : o_xmax o = L) by reflexivity. assert (Xn : o_xmin o = 0) by reflexivity. assert (DY : o_dy o = o_dx o) by reflexivity.
  assert (MY : (m <= Z.of_nat (o_ny o))%Z).
  { destruct (Z_le_gt_dec m 1) as [q|q]; [rewrite NY; pose proof (next_pos m 5); lia|]. destruct (C99_smooth m 5 ltac:(lia)) as (_ & A & _). cbv zeta in A. rewrite NY. lia. }
  split; [exact S1|]. split.
  { destruct (Z_le_gt_dec 1 m) as [q|q]; [destruct (C99_smooth m 5 q) as (A & _); rewrite NY; exact A|]. rewrite NY. unfold next_smooth. replace (m <=? 1)%Z with true by (symmetry; apply Z.leb_le; lia). exists 0%nat, 0%nat, 0%nat, 0%nat. split; auto. }
  split; [exact DY|]. split; [exact PD|]. split; [rewrite XM, Xn, DX; field; lra|]. split; [rewrite Yn, YM, DY; field|]. split; [exact Xn|]. split; [exact Yn|].
  assert (LE : IZR n <= INR (o_nx o)) by (rewrite INR_IZR_INZ; apply IZR_le; lia). assert (LT : INR (o_nx o) < 2 * IZR n) by (rewrite INR_IZR_INZ, <- (mult_IZR 2); apply IZR_lt; lia).
  assert (QL : L / i_dx g * i_dx g = L) by (field; lra).
  split.
  { rewrite DX. split.
    - apply (Rmult_lt_reg_r (INR (o_nx o))); auto. unfold Rdiv at 2. rewrite Rmult_assoc, Rinv_l by lra. nra.
    - apply (Rmult_lt_reg_r (INR (o_nx o))); auto. unfold Rdiv. rewrite Rmult_assoc, Rinv_l by lra.
      assert (1 <= IZR n) by (apply IZR_le; auto). nra. }
  split.
  { rewrite Yn, YM, DY. assert (IZR m <= INR (o_ny o)) by (rewrite INR_IZR_INZ; apply IZR_le; auto).
    assert (E : (i_ymax g - i_ymin g) / o_dx o * o_dx o = i_ymax g - i_ymin g) by (field; lra). nra. }
  split; [intros k K1 K2; apply S3; auto|].
  split.
  - intros a Ha. unfold x_ax, linspace. rewrite Xn. destruct (Nat.leb_spec (o_nx o) 1) as [q|q].
    + replace a with 0%nat by lia. change (INR 0) with 0. lra.
    + rewrite minus_INR by lia. change (INR 1) with 1. assert (INR (o_nx o) <> 1) by (intros E; apply (INR_eq _ 1) in E; lia). rewrite XM. replace L with (o_dx o * INR (o_nx o)) by (rewrite DX; field; lra). field. lra.
  - intros b Hb. unfold y_ax, linspace. rewrite DY, Yn. destruct (Nat.leb_spec (o_ny o) 1) as [q|q].
    + replace b with 0%nat by lia. change (INR 0) with 0. lra.
    + rewrite minus_INR by lia. change (INR 1) with 1. assert (INR (o_ny o) <> 1) by (intros E; apply (INR_eq _ 1) in E; lia). rewrite YM. field. lra.
Qed.
Print Assumptions C99_grid.
(** The cells may be larger than asked for, and a box that is not centred in y is moved. *)
Definition coarse : gin := {| i_lin := None; i_xmax := 109 / 10; i_ymin := 0; i_ymax := 4; i_dx := 1; i_dt := 1 / 10; i_tmax := 1 |}.
Lemma trunc_val x n : (0 <= n)%Z -> IZR n <= x < IZR n + 1 -> trunc x = n.
Proof. intros N H. apply IZR_le in N. rewrite trunc_pos by lra. apply floor_unique; auto. Qed.
Theorem C99_requested_refuted : usable coarse /\ i_dx coarse < o_dx (derive coarse) /\ o_ymin (derive coarse) < i_ymin coarse.
Proof.
  assert (NX : o_nx (derive coarse) = 10%nat). { unfold derive. cbn [o_nx lgrid coarse i_lin i_xmax i_dx]. rewrite (trunc_val _ 10) by (try lia; lra). reflexivity. }
  assert (DX : o_dx (derive coarse) = 109 / 100). { transitivity (109 / 10 / INR (o_nx (derive coarse))); [unfold derive; cbn [o_dx o_nx lgrid coarse i_lin i_xmax i_dx]; rewrite Rminus_0_r; reflexivity|]. rewrite NX. replace (INR 10) with 10 by (cbn; ring). field. }
  assert (U : usable coarse) by (unfold usable, coarse, lgrid; cbn; lra).
  split; [exact U|]. split; [rewrite DX; cbn [coarse i_dx]; lra|].
  destruct (C99_grid coarse U) as (_ & _ & DY & _ & _ & Ey & _ & Yn & _). rewrite Yn in *. assert (0 < INR (o_ny (derive coarse))) by (apply lt_0_INR, next_pos). rewrite DY, DX in Ey. cbn [coarse i_ymin]. nra.
Qed.
Print Assumptions C99_requested_refuted.

(** Times: the run lasts a whole number of steps, at least as long as requested and at most one step longer, within the step budget. *)
Theorem C99_times : forall g, usable g -> let o := derive g in
  (1 <= o_nt o)%Z /\ o_tmax o = IZR (o_nt o) * o_dt o /\ i_tmax g < o_tmax o <= i_tmax g + i_dt g /\ (o_nt o <= o_max_steps o)%Z /\
  ((2 <= o_nt o)%Z -> t_ax o 0 = 0 /\ t_ax o (Z.to_nat (o_nt o) - 1) = o_tmax o).
Proof.
  intros g (Hd & HL & HY & Ht & HT) o. assert (Q : 0 <= i_tmax g / i_dt g) by (apply Rmult_le_pos; [auto|apply Rlt_le, Rinv_0_lt_compat; auto]).
  destruct (trunc_b (i_tmax g / i_dt g + 1) ltac:(lra)) as [B B0]. set (n := trunc (i_tmax g / i_dt g + 1)) in *.
  assert (NT : o_nt o = n) by reflexivity. assert (TM : o_tmax o = i_dt g * IZR n) by reflexivity. assert (DT : o_dt o = i_dt g) by reflexivity.
  assert (E : i_tmax g / i_dt g * i_dt g = i_tmax g) by (field; lra).
  assert (N1 : (1 <= n)%Z). { destruct (Z_lt_ge_dec n 1) as [q|q]; [|lia]. assert (n + 1 <= 1)%Z as r by lia. apply IZR_le in r. rewrite plus_IZR in r. lra. }
  rewrite NT, TM, DT. split; [exact N1|]. split; [ring|]. split; [split; nra|]. split; [change (o_max_steps o) with (n + 2048)%Z; lia|].
  intros N2. unfold t_ax. rewrite NT, TM. unfold linspace. destruct (Nat.leb_spec (Z.to_nat n) 1) as [q|q]; [lia|]. change (INR 0) with 0. split; [unfold Rdiv; ring|]. field. apply not_0_INR. lia.
Qed.
Print Assumptions C99_times.
(** But the time axis of the default series does not fall on the steps: its spacing is dt nt / (nt - 1). *)
Theorem C99_series_axis_refuted : forall g, usable g -> let o := derive g in (3 <= o_nt o)%Z -> t_ax o 1 <> o_dt o /\ t_ax o 1 = o_dt o * (1 + / (IZR (o_nt o) - 1)) /\
  (forall k : nat, t_ax o 1 <> INR k * o_dt o).
Proof.
  intros g U o N3. destruct (C99_times g U) as (A & B & C & _). fold o in A, B, C. pose proof U as (Hd & HL & HY & Ht & HT).
  assert (DT : o_dt o = i_dt g) by reflexivity. assert (R3 : 3 <= IZR (o_nt o)) by (apply IZR_le in N3; exact N3).
  assert (E : t_ax o 1 = o_dt o * (1 + / (IZR (o_nt o) - 1))).
  { unfold t_ax, linspace. destruct (Nat.leb_spec (Z.to_nat (o_nt o)) 1) as [q|q]; [lia|]. rewrite minus_INR by lia. change (INR 1) with 1. rewrite B, INR_IZR_INZ, Z2Nat.id by lia. field. lra. }
  assert (I1 : 0 < / (IZR (o_nt o) - 1) <= / 2) by (split; [apply Rinv_0_lt_compat; lra|apply Rinv_le_contravar; lra]).
  split; [rewrite E; nra|]. split; [exact E|]. intros k. rewrite E. rewrite INR_IZR_INZ. intros F.
  assert (F' : 1 + / (IZR (o_nt o) - 1) = IZR (Z.of_nat k)) by (apply (Rmult_eq_reg_l (o_dt o)); [lra|rewrite DT; lra]).
  assert (1 < Z.of_nat k < 2)%Z; [|lia]. split; apply lt_IZR; lra.
Qed.
Print Assumptions C99_series_axis_refuted.

(** The absorbing factor lies between 0 and 1 for every width of the boundary layer; with periodic boundaries it is exactly 1. *)
Lemma env_abs w a b x : Rabs (get_envelope w w a b x) <= 1.
Proof. unfold get_envelope, tanh_step. pose proof (tanh_bounds ((x - a) / w)). pose proof (tanh_bounds ((x - b) / w)). apply Rabs_le. lra. Qed.
Theorem C99_absorb : forall o absx absy width coeff a b, 0 <= coeff -> 0 <= o_dt o ->
  0 < absorb o absx absy width coeff a b <= 1 /\ (absx = false -> absy = false -> absorb o absx absy width coeff a b = 1).
Proof.
  intros o absx absy width coeff a b C D. unfold absorb. set (ex := if absx then _ else _). set (ey := if absy then _ else _).
  assert (Ex : Rabs ex <= 1) by (unfold ex; destruct absx; [apply env_abs|rewrite Rabs_R1; lra]). assert (Ey : Rabs ey <= 1) by (unfold ey; destruct absy; [apply env_abs|rewrite Rabs_R1; lra]).
  split; [split; [apply exp_pos|]|].
  - assert (P : ex * ey <= 1). { eapply Rle_trans; [apply Rle_abs|]. rewrite Rabs_mult. pose proof (Rabs_pos ex). pose proof (Rabs_pos ey). nra. }
    assert (0 <= coeff * o_dt o) by (apply Rmult_le_pos; auto). assert (Q : - coeff * o_dt o * (1 - ex * ey) <= 0) by nra.
    destruct (Rle_lt_or_eq_dec _ _ Q) as [h|h]; [apply exp_increasing in h; rewrite exp_0 in h; lra|rewrite h, exp_0; lra].
  - intros -> ->. unfold ex, ey. replace (- coeff * o_dt o * (1 - 1 * 1)) with 0 by ring. apply exp_0.
Qed.
Print Assumptions C99_absorb.

(** Every configuration that passes the setup is a usable one for the theorems about the plasma-wave step (C97). *)
Definition solver_cfg (g : gin) (u : uin) (f : fcfg) (absx absy : bool) (width coeff nu : R) (bg : nat -> nat -> R) (tpd noise_on grad : bool) (noise : R -> nat -> nat -> R) (filt : nat -> nat -> R) : ecfg :=
  let o := derive g in
  {| e_nx := o_nx o; e_ny := o_ny o; e_dx := o_dx o; e_dy := o_dy o; e_dt := o_dt o; e_wp0 := u_wp0 u; e_w0 := u_w0 u; e_vte2 := u_vte2 u; e_e := u_e; e_me := u_me; e_nu := nu; e_env := u_env u;
     e_bg := bg; e_bound := absorb o absx absy width coeff; e_filter := filt; e_tpd := tpd; e_noise_on := noise_on; e_noise := noise; e_grad := grad; e_srs := false; e_hyper := None |}.
Lemma u_c_pos : 0 < u_c.
Proof. unfold u_c, c_cgs, xscale, tscale. apply Rdiv_lt_0_compat; [lra|]. apply Rdiv_lt_0_compat; apply Rinv_0_lt_compat; apply pow_lt; lra. Qed.
Theorem C99_ok : forall g u f absx absy width coeff nu bg tpd noise_on grad noise filt, usable g -> 0 < u_lam u -> 0 < u_env u -> 0 < u_Te u -> 0 <= coeff -> 0 <= nu ->
  (forall i j, band f (o_nx (derive g)) (o_ny (derive g)) (o_dx (derive g)) (o_dy (derive g)) i j = Some (filt i j)) ->
  ok (solver_cfg g u f absx absy width coeff nu bg tpd noise_on grad noise filt).
Proof.
  intros g u f absx absy width coeff nu bg tpd noise_on grad noise filt U Lm En Te Co Nu B. destruct (C99_grid g U) as (_ & _ & DY & PD & _). pose proof U as (_ & _ & _ & Ht & _). pose proof u_c_pos as PC. pose proof PI_RGT_0.
  assert (W : 0 < u_w0 u) by (unfold u_w0; apply Rdiv_lt_0_compat; nra).
  unfold ok, solver_cfg. cbn [e_nx e_ny e_dx e_dy e_dt e_wp0 e_vte2 e_nu e_filter e_bound].
  split; [apply next_pos|]. split; [apply next_pos|]. split; [exact PD|]. split; [rewrite DY; exact PD|]. split; [change (o_dt (derive g)) with (i_dt g); lra|].
  split; [unfold u_wp0; apply Rmult_lt_0_compat; [auto|apply sqrt_lt_R0; auto]|]. split; [unfold u_vte2; apply pow_lt, Rmult_lt_0_compat; [auto|apply sqrt_lt_R0; lra]|]. split; [exact Nu|].
  split; [intros i j; apply (C98_band f _ _ _ _ i j _ (B i j))|]. intros a b. destruct (C99_absorb (derive g) absx absy width coeff a b Co ltac:(change (o_dt (derive g)) with (i_dt g); lra)) as [A _]. lra.
Qed.
Print Assumptions C99_ok.

(** The linear profile: from the lowest to the highest density across the box, with slope 1 / (4 L), so that the density scale length where the
    density is a quarter of the critical one is the requested L. *)
Theorem C99_linear : forall g L nmax nmin, usable g -> i_lin g = Some (L, nmax, nmin) -> 0 < L -> nmin < nmax -> let o := derive g in
  exists v, density_profile o (BLinear nmin nmax) = Some (D2 v) /\ (forall a b, (a < o_nx o)%nat -> v a b = nmin + x_ax o a / (4 * L) /\ nmin < v a b < nmax) /\
  (forall a b, (S a < o_nx o)%nat -> (1 / 4) / ((v (S a) b - v a b) / o_dx o) = L).
Proof.
  intros g L nmax nmin U Lin PL PN o. destruct (C99_grid g U) as (_ & _ & _ & PD & FX & _ & Xn & _ & _ & _ & _ & XA & _). fold o in PD, FX, Xn, XA.
  assert (XM : o_xmax o = 4 * L * (nmax - nmin)) by (change (o_xmax o) with (lgrid g); unfold lgrid; rewrite Lin; field).
  eexists. split; [reflexivity|]. rewrite XM.
  assert (P : 0 < 4 * L * (nmax - nmin)) by nra. split.
  - intros a b Ha. split; [field; lra|]. rewrite (XA a Ha). rewrite Xn, Rminus_0_r, XM in FX.
    assert (A0 : 0 <= INR a) by apply pos_INR. assert (A1 : INR a + 1 <= INR (o_nx o)) by (rewrite <- S_INR; apply le_INR; lia).
    assert (0 < (INR a + 1 / 2) * o_dx o < 4 * L * (nmax - nmin)) by (rewrite <- FX; nra).
    set (X := (INR a + 1 / 2) * o_dx o) in *. set (T := 4 * L * (nmax - nmin)) in *. assert (0 < X / T < 1). { split; [apply Rdiv_lt_0_compat; lra|]. apply (Rmult_lt_reg_r T); [auto|]. unfold Rdiv. rewrite Rmult_assoc, Rinv_l by lra. lra. }
    replace ((nmax - nmin) * X / T) with ((nmax - nmin) * (X / T)) by (unfold Rdiv; ring). nra.
  - intros a b Ha. rewrite !XA by lia. rewrite S_INR. replace (nmin + (nmax - nmin) * ((INR a + 1 + 1 / 2) * o_dx o) / (4 * L * (nmax - nmin)) - (nmin + (nmax - nmin) * ((INR a + 1 / 2) * o_dx o) / (4 * L * (nmax - nmin)))) with (o_dx o / (4 * L)) by (field; lra).
    field. lra.
Qed.
Print Assumptions C99_linear.
(** A ramp from 0.18 to 0.28 critical densities with scale length 200 um, 0.5 um cells: the box is 80 um long, with 160 cells. *)
Definition ramp : gin := {| i_lin := Some (200, 28 / 100, 18 / 100); i_xmax := 0; i_ymin := - 5; i_ymax := 5; i_dx := 1 / 2; i_dt := 1 / 500; i_tmax := 2 |}.
Example C99_linear_ex : usable ramp /\ o_xmax (derive ramp) = 80 /\ o_nx (derive ramp) = 160%nat.
Proof.
  split; [unfold usable, ramp, lgrid; cbn [i_lin i_dx i_ymin i_ymax i_dt i_tmax]; lra|]. split; [unfold derive, ramp, lgrid; cbn [o_xmax i_lin]; lra|].
  unfold derive, ramp, lgrid. cbn [o_nx i_lin i_dx]. rewrite (trunc_val _ 160) by (try lia; lra). vm_compute. reflexivity.
Qed.
(** The other profiles do not work: "exponential" fails; "tanh" and "sine" fail unless the grid has as many cells in y as in x (or one in x), and
    then vary along y instead of x. *)
Theorem C99_density_refuted : forall o p bl amp k, density_profile o BExponential = None /\
  (forall b, b = BTanh p \/ b = BSine bl amp k -> exists d, density_profile o b = Some d /\
     (o_nx o <> o_ny o -> (1 < o_nx o)%nat -> broadcast (o_nx o) (o_ny o) d = None) /\
     (o_nx o = o_ny o -> exists v, broadcast (o_nx o) (o_ny o) d = Some v /\ forall i i' j, v i j = v i' j)).
Proof.
  intros o p bl amp k. split; [reflexivity|]. intros b [-> | ->]; (eexists; split; [reflexivity|]; split; [intros N M; cbn [broadcast]; destruct (Nat.eqb_spec (o_nx o) (o_ny o)); [congruence|]; destruct (Nat.eqb_spec (o_nx o) 1); [lia|reflexivity]|]);
    intros E; cbn [broadcast]; destruct (Nat.eqb_spec (o_nx o) (o_ny o)); try congruence; eexists; split; reflexivity.
Qed.
Print Assumptions C99_density_refuted.

(* ------------------------------------------------------------------------------------------------ *)
(** * Units *)
Lemma xscale_pos : 0 < xscale. Proof. unfold xscale. apply Rinv_0_lt_compat, pow_lt. lra. Qed.
Lemma tscale_pos : 0 < tscale. Proof. unfold tscale. apply Rinv_0_lt_compat, pow_lt. lra. Qed.
(** The derived constants obey the physical relations they stand for: laser frequency and wavelength, plasma frequency at the reference and at
    the critical density, thermal speed, the electromagnetic dispersion relation of the pump, and intensity of the pump field in cgs. *)
Theorem C99_units : forall u, 0 < u_lam u -> 0 < u_env u <= 1 -> 0 < u_Te u -> 0 <= u_I0 u ->
  u_w0 u * u_lam u = 2 * PI * u_c /\ u_wp0 u ^ 2 = u_env u * u_w0 u ^ 2 /\ 4 * PI * u_nc u * u_e ^ 2 / u_me = u_w0 u ^ 2 /\ u_vte2 u = u_c ^ 2 * (u_Te u / 511) /\
  (forall c, g_w0 c = u_w0 u -> g_wp0 c = u_wp0 u -> g_c c = u_c -> g_w0 c ^ 2 = g_wp0 c ^ 2 + k0_of c 0 ^ 2 * g_c c ^ 2) /\
  c_cgs * (u_E0 u * fscale) ^ 2 / (8 * PI) = u_I0 u * 10 ^ 7.
Proof.
  intros u Lm [E0 E1] Te I0. pose proof u_c_pos as PC. pose proof PI_RGT_0 as PP. assert (W : 0 < u_w0 u) by (unfold u_w0; apply Rdiv_lt_0_compat; nra).
  assert (WP : u_wp0 u ^ 2 = u_env u * u_w0 u ^ 2) by (unfold u_wp0; rewrite Rpow_mult_distr; replace (sqrt (u_env u) ^ 2) with (u_env u) by (cbn; rewrite Rmult_1_r; symmetry; apply sqrt_sqrt; lra); ring).
  assert (PE : 0 < u_e). { unfold u_e, e_cgs. apply Rdiv_lt_0_compat; [apply Rdiv_lt_0_compat; [lra|apply pow_lt; lra]|]. apply Rdiv_lt_0_compat; [|apply tscale_pos]. apply Rmult_lt_0_compat; apply exp_pos. }
  assert (PM : 0 < u_me). { unfold u_me, me_cgs. apply Rdiv_lt_0_compat; [apply Rdiv_lt_0_compat; [lra|apply pow_lt; lra]|lra]. }
  assert (PF : 0 < fscale). { unfold fscale. apply Rdiv_lt_0_compat; [|apply tscale_pos]. apply Rdiv_lt_0_compat; apply exp_pos. }
  assert (CC : 0 < c_cgs) by (unfold c_cgs; lra).
  split; [unfold u_w0; field; lra|]. split; [exact WP|]. split; [unfold u_nc; field; repeat split; try lra; apply pow_nonzero; lra|].
  split; [unfold u_vte2; rewrite Rpow_mult_distr; replace (sqrt (u_Te u / 511) ^ 2) with (u_Te u / 511) by (cbn; rewrite Rmult_1_r; symmetry; apply sqrt_sqrt; lra); reflexivity|].
  split.
  - intros c G1 G2 G3. unfold k0_of. rewrite G1, G2, G3. rewrite Rpow_mult_distr.
    replace (sqrt ((1 + 0) ^ 2 - u_wp0 u ^ 2 / u_w0 u ^ 2) ^ 2) with (1 - u_env u).
    + rewrite WP. field. lra.
    + rewrite WP. replace ((1 + 0) ^ 2 - u_env u * u_w0 u ^ 2 / u_w0 u ^ 2) with (1 - u_env u) by (field; lra). cbn. rewrite Rmult_1_r. symmetry. apply sqrt_sqrt. lra.
  - unfold u_E0. set (s := sqrt (8 * PI * u_I0 u * 10 ^ 7 / c_cgs)). assert (S2 : s ^ 2 = 8 * PI * u_I0 u * 10 ^ 7 / c_cgs).
    { assert (G : 0 < 10 ^ 7) by (apply pow_lt; lra). replace (s ^ 2) with (s * s) by ring. unfold s. apply sqrt_sqrt. apply Rmult_le_pos; [|apply Rlt_le, Rinv_0_lt_compat; auto]. apply Rmult_le_pos; [apply Rmult_le_pos; lra|apply Rlt_le; exact G]. }
    replace (s / fscale * fscale) with s by (field; lra). rewrite S2. field. lra.
Qed.
Print Assumptions C99_units.
(** The collision rate: none of the two working settings is anything else than asked for; an integer, or the temperature at the switch of the two
    formulas, leaves the rate unset and the setup fails. *)
Theorem C99_collisions_refuted : forall u ne z, (u_coll u = CInt z -> z <> 0%Z -> nu_coll u ne = None) /\
  (u_coll u = CBool true -> u_Te u * 1000 = 1 / 100 * u_Z u ^ 2 -> nu_coll u ne = None) /\
  (forall f, u_coll u = CFloat f -> nu_coll u ne = Some f) /\ (u_coll u = CBool false -> nu_coll u ne = Some 0).
Proof.
  intros u ne z. unfold nu_coll. split; [|split; [|split]].
  - intros -> N. destruct (Z.eqb_spec z 0); [congruence|reflexivity].
  - intros -> E. unfold log_used. rewrite E. destruct (Rlt_dec (1 / 100 * u_Z u ^ 2) (1 / 100 * u_Z u ^ 2)); [lra|reflexivity].
  - intros f ->. destruct (Req_EM_T f 0) as [->|]; reflexivity.
  - intros ->. reflexivity.
Qed.
Print Assumptions C99_collisions_refuted.
(** The rate switches formulas a thousand times too low in temperature: between Z^2/100 and 10 Z^2 eV the Coulomb logarithm it uses differs from the
    one the same function computes by 1 + ln (Z / sqrt T), for instance by exactly 1 at T = Z^2 eV. *)
Theorem C99_log_refuted : forall u ne, 0 < ne -> 0 < u_Z u -> 1 / 100 * u_Z u ^ 2 < u_Te u * 1000 < 10 * u_Z u ^ 2 ->
  exists l, log_used u ne = Some l /\ l - log_printed u ne = 1 + ln (u_Z u / sqrt (u_Te u * 1000)) /\ (u_Te u * 1000 = u_Z u ^ 2 -> l = log_printed u ne + 1).
Proof.
  intros u ne Ne PZ [A B]. unfold log_used, log_printed. destruct (Rlt_dec (u_Te u * 1000) (1 / 100 * u_Z u ^ 2)); [lra|]. destruct (Rlt_dec (1 / 100 * u_Z u ^ 2) (u_Te u * 1000)); [|lra]. destruct (Rlt_dec (u_Te u * 1000) (10 * u_Z u ^ 2)); [|lra].
  eexists. split; [reflexivity|]. set (T := u_Te u * 1000) in *. assert (PT : 0 < T) by nra. assert (S : 0 < sqrt ne) by (apply sqrt_lt_R0; auto). assert (S' : 0 < sqrt T) by (apply sqrt_lt_R0; auto).
  assert (P : Rpower T (3 / 2) = T * sqrt T) by (replace (3 / 2) with (1 + / 2) by lra; rewrite Rpower_plus, Rpower_1, Rpower_sqrt by auto; reflexivity).
  assert (E : 24 - ln (sqrt ne / T) - (23 - ln (sqrt ne * u_Z u / Rpower T (3 / 2))) = 1 + ln (u_Z u / sqrt T)).
  { rewrite P. replace (sqrt ne * u_Z u / (T * sqrt T)) with (sqrt ne / T * (u_Z u / sqrt T)) by (field; lra). rewrite ln_mult by (apply Rdiv_lt_0_compat; auto). lra. }
  split; [exact E|]. intros Q. assert (SQ : sqrt T = u_Z u) by (rewrite Q; apply sqrt_pow2; lra). rewrite SQ in E. replace (u_Z u / u_Z u) with 1 in E by (field; lra). rewrite ln_1 in E. lra.
Qed.
Print Assumptions C99_log_refuted.
(** A keV hydrogen plasma under a 351 nm pump meets the hypotheses of [C99_units]; one at 1 eV those of [C99_log_refuted]. *)
Definition hot : uin := {| u_Te := 1; u_Z := 1; u_lam := 351 / 1000; u_I0 := 10 ^ 15; u_env := 1 / 4; u_coll := CBool true |}.
Definition cold : uin := {| u_Te := 1 / 1000; u_Z := 1; u_lam := 351 / 1000; u_I0 := 10 ^ 15; u_env := 1 / 4; u_coll := CInt 1 |}.
Example C99_units_ex : u_wp0 hot = u_w0 hot / 2 /\ nu_coll cold 1 = None /\ exists l, log_used cold 1 = Some l /\ l = log_printed cold 1 + 1.
Proof.
  split; [unfold u_wp0; cbn [u_env hot]; replace (1 / 4) with ((1 / 2) ^ 2) by (cbn; field); rewrite sqrt_pow2 by lra; field|].
  split; [apply (proj1 (C99_collisions_refuted cold 1 1)); [reflexivity|lia]|].
  destruct (C99_log_refuted cold 1) as (l & A & _ & B); [lra|cbn [u_Z cold]; lra|cbn [u_Z u_Te cold]; lra|]. exists l. split; [exact A|]. apply B. cbn [u_Z u_Te cold]. lra.
Qed.
