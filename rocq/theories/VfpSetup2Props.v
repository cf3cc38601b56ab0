(** Property C82: VFP-2D configuration, initial state and collision step. *)
From Coq Require Import Reals Lra Lia ZArith List Bool Psatz FunctionalExtensionality.
From Verif Require Import DriftDiff DriftDiffProps VGrid Vfp VfpProps VfpInit VfpInitProps VfpSetup2 PyStr Harm2d Harm2dLayout Harm2dSum Harm2dProps Harm2dMoments Vfp2d Vfp2dOps Vfp2dField VfpOhm VfpOhmProps RSum Pic PicProofs PicFourier Dft.
Import ListNotations.
Local Open Scope R_scope.

(** * Grid *)
Lemma rleb_false a b : rleb a b = false <-> b < a.
Proof. unfold rleb. destruct (Rle_dec a b); split; intros; try discriminate; try reflexivity; lra. Qed.
Lemma centres a b n i : (1 <= n)%nat -> a < b -> (i < n)%nat -> let d := (b - a) / INR n in
  linspace (a + d / 2) (b - d / 2) n i = a + (INR i + 1 / 2) * d /\ a < linspace (a + d / 2) (b - d / 2) n i < b.
Proof.
  intros Hn Hab Hi d. assert (Q : 0 < INR n) by (apply lt_0_INR; lia). assert (D : 0 < d) by (unfold d; apply Rdiv_lt_0_compat; lra). assert (B : b = a + INR n * d) by (unfold d; field; lra).
  assert (E : linspace (a + d / 2) (b - d / 2) n i = a + (INR i + 1 / 2) * d).
  { unfold linspace. destruct (Nat.leb_spec n 1) as [H|H].
    - assert (i = 0)%nat by lia. subst i. change (INR 0) with 0. lra.
    - rewrite B at 1. rewrite minus_INR by lia. change (INR 1) with 1. assert (1 < INR n) by (change 1 with (INR 1); apply lt_INR; lia). field. lra. }
  split; [exact E|]. rewrite E. pose proof (pos_INR i). assert (INR i + 1 <= INR n) by (rewrite <- S_INR; apply le_INR; lia). split; [|rewrite B]; nra.
Qed.
(** A grid is accepted exactly when every extent, the time step and the counts are positive, there are two speeds at least and
    0 <= m_max <= l_max; the points are the centres of equal cells that fill the box, and the harmonic layout is the accepted one. *)
Theorem C82_grid : forall c,
  (make_grid c <> None <-> (1 <= gc_nx c)%Z /\ (1 <= gc_ny c)%Z /\ (2 <= gc_nv c)%Z /\ gc_xmin c < gc_xmax c /\ gc_ymin c < gc_ymax c /\ 0 < gc_vmax c /\ 0 < gc_dt c /\
     (0 <= match gc_mmax c with None => gc_lmax c | Some m => m end <= gc_lmax c)%Z) /\
  (forall g, make_grid c = Some g ->
     Z.of_nat (gr_nx g) = gc_nx c /\ Z.of_nat (gr_ny g) = gc_ny c /\ Z.of_nat (gr_nv g) = gc_nv c /\
     INR (gr_nx g) * gr_dx g = gc_xmax c - gc_xmin c /\ INR (gr_ny g) * gr_dy g = gc_ymax c - gc_ymin c /\ INR (gr_nv g) * gr_dv g = gc_vmax c /\
     0 < gr_dx g /\ 0 < gr_dy g /\ 0 < gr_dv g /\
     (forall i, (i < gr_nx g)%nat -> gr_x g i = gc_xmin c + (INR i + 1 / 2) * gr_dx g /\ gc_xmin c < gr_x g i < gc_xmax c) /\
     (forall i, (i < gr_ny g)%nat -> gr_y g i = gc_ymin c + (INR i + 1 / 2) * gr_dy g /\ gc_ymin c < gr_y g i < gc_ymax c) /\
     (forall i, (i < gr_nv g)%nat -> gr_v g i = (INR i + 1 / 2) * gr_dv g /\ 0 < gr_v g i < gc_vmax c) /\
     make_layout (gc_lmax c) (gc_mmax c) = Some (gr_L g, gr_M g)).
Proof.
  intros c. set (m := match gc_mmax c with None => gc_lmax c | Some m => m end).
  assert (A : make_grid c <> None <-> (1 <= gc_nx c)%Z /\ (1 <= gc_ny c)%Z /\ (2 <= gc_nv c)%Z /\ gc_xmin c < gc_xmax c /\ gc_ymin c < gc_ymax c /\ 0 < gc_vmax c /\ 0 < gc_dt c /\ (0 <= m <= gc_lmax c)%Z).
  { unfold make_grid. fold m. destruct (Z.ltb_spec (gc_nx c) 1), (Z.ltb_spec (gc_ny c) 1), (Z.ltb_spec (gc_nv c) 2); cbn [orb]; try (split; [intros K; now contradict K|intros K; exfalso; lia]).
    destruct (rleb (gc_xmax c) (gc_xmin c)) eqn:E1; [split; [intros K; now contradict K|intros K; exfalso; unfold rleb in E1; destruct Rle_dec in E1; [lra|discriminate]]|].
    destruct (rleb (gc_ymax c) (gc_ymin c)) eqn:E2; [split; [intros K; now contradict K|intros K; exfalso; unfold rleb in E2; destruct Rle_dec in E2; [lra|discriminate]]|].
    destruct (rleb (gc_vmax c) 0) eqn:E3; [split; [intros K; now contradict K|intros K; exfalso; unfold rleb in E3; destruct Rle_dec in E3; [lra|discriminate]]|].
    destruct (rleb (gc_dt c) 0) eqn:E4; [split; [intros K; now contradict K|intros K; exfalso; unfold rleb in E4; destruct Rle_dec in E4; [lra|discriminate]]|].
    apply rleb_false in E1, E2, E3, E4. cbn [orb]. destruct (Z.leb_spec 0 m), (Z.leb_spec m (gc_lmax c)); cbn [andb negb]; (split; [intros K; try now contradict K|intros K; try discriminate; try (exfalso; lia)]).
    repeat split; auto; lia. }
  split; [exact A|]. intros g Hg. assert (K : make_grid c <> None) by congruence. apply A in K. destruct K as (K1 & K2 & K3 & K4 & K5 & K6 & K7 & K8).
  unfold make_grid in Hg. fold m in Hg. replace ((gc_nx c <? 1) || (gc_ny c <? 1) || (gc_nv c <? 2))%Z%bool with false in Hg by (symmetry; destruct (Z.ltb_spec (gc_nx c) 1), (Z.ltb_spec (gc_ny c) 1), (Z.ltb_spec (gc_nv c) 2); cbn; auto; lia).
  rewrite (proj2 (rleb_false _ _) K4), (proj2 (rleb_false _ _) K5), (proj2 (rleb_false _ _) K6), (proj2 (rleb_false _ _) K7) in Hg. cbn [orb] in Hg.
  replace ((0 <=? m) && (m <=? gc_lmax c))%Z%bool with true in Hg by (symmetry; apply andb_true_intro; split; apply Z.leb_le; lia). cbn [negb] in Hg.
  assert (IX : forall z, (1 <= z)%Z -> IZR z = INR (Z.to_nat z)) by (intros z Hz; rewrite INR_IZR_INZ, Z2Nat.id by lia; reflexivity).
  rewrite !IX in Hg by lia. injection Hg as <-. cbn [gr_nx gr_ny gr_nv gr_dx gr_dy gr_dv gr_x gr_y gr_v gr_L gr_M].
  assert (NX : 0 < INR (Z.to_nat (gc_nx c))) by (apply lt_0_INR; lia). assert (NY : 0 < INR (Z.to_nat (gc_ny c))) by (apply lt_0_INR; lia). assert (NV : 0 < INR (Z.to_nat (gc_nv c))) by (apply lt_0_INR; lia).
  split; [apply Z2Nat.id; lia|]. split; [apply Z2Nat.id; lia|]. split; [apply Z2Nat.id; lia|].
  split; [field; lra|]. split; [field; lra|]. split; [field; lra|].
  split; [apply Rdiv_lt_0_compat; lra|]. split; [apply Rdiv_lt_0_compat; lra|]. split; [apply Rdiv_lt_0_compat; lra|].
  split; [intros i Hi; exact (centres _ _ (Z.to_nat (gc_nx c)) i ltac:(lia) K4 Hi)|]. split; [intros i Hi; exact (centres _ _ (Z.to_nat (gc_ny c)) i ltac:(lia) K5 Hi)|]. split.
  - intros i Hi. destruct (centres 0 (gc_vmax c) (Z.to_nat (gc_nv c)) i ltac:(lia) K6 Hi) as [P Q]. rewrite Rminus_0_r in P, Q. rewrite Rplus_0_l in P, Q. rewrite Rplus_0_l in P. split; [exact P|exact Q].
  - unfold make_layout. fold m. destruct (Z.ltb_spec (gc_lmax c) 0); [lia|]. now replace ((0 <=? m) && (m <=? gc_lmax c))%Z%bool with true by (symmetry; apply andb_true_intro; split; apply Z.leb_le; lia).
Qed.
Print Assumptions C82_grid.
Example C82_grid_nonvacuous : make_grid {| gc_xmin := 0; gc_xmax := 4; gc_nx := 8; gc_ymin := -1; gc_ymax := 1; gc_ny := 1; gc_vmax := 8; gc_nv := 64; gc_dt := 1 / 10; gc_lmax := 2; gc_mmax := Some 1%Z |} <> None.
Proof. apply C82_grid. cbn. repeat split; try lia; lra. Qed.
(** * Time *)
(** The run ends at the first step at or after the requested time, and the solver is allowed that many steps and four more. *)
Theorem C82_time : forall tmin requested dt, 0 < dt ->
  requested <= tmax2 tmin requested dt < requested + dt /\
  (forall k : Z, requested <= tmin + IZR k * dt -> (nt2 tmin requested dt <= k)%Z) /\
  tmax2 tmin requested dt = tmin + IZR (nt2 tmin requested dt) * dt /\
  (nt2 tmin requested dt < max_steps2 tmin requested dt)%Z /\ (tmin < requested -> (1 <= nt2 tmin requested dt)%Z).
Proof.
  intros t0 r dt D. set (q := (r - t0) / dt). assert (Q : r = t0 + q * dt) by (unfold q; field; lra).
  assert (C : q <= IZR (ceil q) < q + 1). { unfold ceil. pose proof (floor_spec (- q)). rewrite opp_IZR. lra. }
  unfold tmax2, max_steps2. change (nt2 t0 r dt) with (ceil q). rewrite Q. clearbody q. split; [split; nra|]. split.
  - intros k Hk. assert (q <= IZR k) by nra. apply Z.lt_succ_r. apply lt_IZR. rewrite succ_IZR. lra.
  - split; [reflexivity|]. split; [lia|]. intros H. assert (0 < q) by nra. assert (0 < IZR (ceil q)) by lra. apply lt_IZR in H1. lia.
Qed.
Print Assumptions C82_time.
Example C82_time_example : nt2 0 1 (3 / 10) = 4%Z.
Proof. unfold nt2, ceil. rewrite (floor_unique _ (-4)); [reflexivity|]. lra. Qed.
(** * Sharding *)
Lemma block_of p n x : (0 < p)%nat -> (n mod p = 0)%nat -> (x < n)%nat -> (0 < n / p /\ x / (n / p) < p /\ x mod (n / p) < n / p /\ x = x / (n / p) * (n / p) + x mod (n / p))%nat.
Proof.
  intros Hp Hm Hx. assert (Q : (n = p * (n / p))%nat) by (apply Nat.div_exact; lia). assert (0 < n / p)%nat by nia. split; [auto|].
  split; [apply Nat.div_lt_upper_bound; lia|]. split; [apply Nat.mod_upper_bound; lia|]. rewrite Nat.mul_comm. apply Nat.div_mod. lia.
Qed.
(** Without the switch there is no mesh whatever the rest says; with it the axis must be x and the device count a divisor of nx. Every
    cell then belongs to exactly one device, all devices hold equally many, and an operation that works cell by cell (the collision
    step) gives the same numbers on any number of devices. *)
Theorem C82_sharding : forall enabled axis devices nx,
  (make_sharding enabled axis devices nx = Some None <-> enabled = false) /\
  (forall p, make_sharding enabled axis devices nx = Some (Some p) <-> enabled = true /\ axis = lit "x" /\ (0 < devices)%nat /\ (nx mod devices = 0)%nat /\ p = devices) /\
  (forall p, make_sharding enabled axis devices nx = Some (Some p) ->
     (forall x, (x < nx)%nat -> exists r i, (r < p /\ i < nx / p /\ x = r * (nx / p) + i)%nat /\ (forall r' i', (i' < nx / p)%nat -> (x = r' * (nx / p) + i')%nat -> r' = r /\ i' = i)) /\
     (forall (A B : Type) (step : A -> B) (f : nat -> A) x, (x < nx)%nat -> shard_x p nx (fun h i => step (h i)) f x = step (f x))).
Proof.
  intros en ax d nx. unfold make_sharding. destruct en; cbn [negb].
  2: { split; [split; auto|]. split; [intros p; split; [discriminate|intros (H & _); discriminate]|discriminate]. }
  destruct (str_eqb_spec ax (lit "x")) as [Ea|Ea]; cbn [negb].
  2: { split; [split; discriminate|]. split; [intros p; split; [discriminate|intros (_ & H & _); congruence]|discriminate]. }
  destruct (Nat.eqb_spec d 0) as [Ed|Ed].
  { split; [split; discriminate|]. split; [intros p; split; [discriminate|intros (_ & _ & H & _); lia]|discriminate]. }
  destruct (Nat.eqb_spec (nx mod d) 0) as [Em|Em]; cbn [negb].
  2: { split; [split; discriminate|]. split; [intros p; split; [discriminate|intros (_ & _ & _ & H & _); congruence]|discriminate]. }
  split; [split; discriminate|]. split.
  - intros p. split; [intros H; injection H as <-; repeat split; auto; lia|]. intros (_ & _ & _ & _ & ->). reflexivity.
  - intros p H. injection H as <-. split.
    + intros x Hx. destruct (block_of d nx x ltac:(lia) Em Hx) as (A & B & C & E). exists (x / (nx / d))%nat, (x mod (nx / d))%nat. split; [auto|]. intros r i Hi E'.
      split; [apply (Nat.div_unique x (nx / d) r i); lia|apply (Nat.mod_unique x (nx / d) r i); lia].
    + intros A B step f x Hx. destruct (block_of d nx x ltac:(lia) Em Hx) as (_ & _ & _ & E). unfold shard_x. f_equal. f_equal. lia.
Qed.
Print Assumptions C82_sharding.
Example C82_sharding_nonvacuous : make_sharding true (lit "x") 4 8 = Some (Some 4%nat) /\ make_sharding true (lit "x") 3 8 = None /\ make_sharding true (lit "y") 4 8 = None /\ make_sharding false (lit "y") 3 8 = Some None.
Proof. repeat split. Qed.
(** * Profiles *)
Lemma tanh_increasing a b : a < b -> tanh a < tanh b.
Proof.
  intros H. assert (E : forall x, tanh x = 1 - 2 / (exp (2 * x) + 1)).
  { intros x. unfold tanh, sinh, cosh. replace (2 * x) with (x + x) by ring. rewrite exp_plus. pose proof (exp_pos x). rewrite exp_Ropp. field. repeat split; nra. }
  rewrite !E. assert (exp (2 * a) < exp (2 * b)) by (apply exp_increasing; lra). pose proof (exp_pos (2 * a)).
  assert (/ (exp (2 * b) + 1) < / (exp (2 * a) + 1)) by (apply Rinv_lt_contravar; nra). unfold Rdiv. lra.
Qed.
(** The one-dimensional shapes stay within the bounds the parameters announce, a sinusoid whose wavelength fits the box repeats with the
    box, a bump and a trough of the same parameters add up to twice the baseline plus the height, and only an unknown basis is refused. *)
Theorem C82_profile_1d : forall axis,
  (forall p, profile_1d p axis = None <-> p = POther) /\
  (forall b, profile_1d (PUniform b) axis = Some (fun _ => b)) /\
  (forall b a w f, profile_1d (PSine b a w) axis = Some f \/ profile_1d (PCosine b a w) axis = Some f ->
     (0 <= b -> forall i, b * (1 - Rabs a) <= f i <= b * (1 + Rabs a)) /\
     (forall (k : Z) i j, w <> 0 -> axis j = axis i + IZR k * w -> f j = f i)) /\
  (forall b h c w r k f, profile_1d (PTanh b h c w r k) axis = Some f -> 0 < w -> 0 < r -> 0 <= h ->
     (forall i, b <= f i <= b + h) /\ (0 < h -> forall i, b < f i < b + h) /\
     (forall f' i, k = lit "bump" -> profile_1d (PTanh b h c w r (lit "trough")) axis = Some f' -> f i + f' i = 2 * b + h)).
Proof.
  intros axis. split; [intros [b|b a w|b a w|b h c w r k|]; cbn; split; intros H; try discriminate; reflexivity|]. split; [reflexivity|]. split.
  - intros b a w f Hf.
    assert (Q : exists g, (forall i, f i = b * (1 + a * g (2 * PI * axis i / w))) /\ (forall x, -1 <= g x <= 1) /\ (forall x (k : Z), g (x + 2 * IZR k * PI) = g x)).
    { destruct Hf as [Hf|Hf]; cbn in Hf; apply (f_equal (fun o => match o with Some z => z | None => f end)) in Hf; subst f.
      - exists sin. split; [reflexivity|]. split; [apply SIN_bound|]. intros x k. destruct k as [|q|q]; [now rewrite Rmult_0_r, Rmult_0_l, Rplus_0_r| |].
        + replace (IZR (Z.pos q)) with (INR (Pos.to_nat q)) by (rewrite INR_IZR_INZ, positive_nat_Z; reflexivity). apply sin_period.
        + rewrite <- (sin_period (x + 2 * IZR (Z.neg q) * PI) (Pos.to_nat q)). f_equal. rewrite INR_IZR_INZ, positive_nat_Z. change (Z.neg q) with (- Z.pos q)%Z. rewrite opp_IZR. ring.
      - exists cos. split; [reflexivity|]. split; [apply COS_bound|]. intros x k. destruct k as [|q|q]; [now rewrite Rmult_0_r, Rmult_0_l, Rplus_0_r| |].
        + replace (IZR (Z.pos q)) with (INR (Pos.to_nat q)) by (rewrite INR_IZR_INZ, positive_nat_Z; reflexivity). apply cos_period.
        + rewrite <- (cos_period (x + 2 * IZR (Z.neg q) * PI) (Pos.to_nat q)). f_equal. rewrite INR_IZR_INZ, positive_nat_Z. change (Z.neg q) with (- Z.pos q)%Z. rewrite opp_IZR. ring. }
    destruct Q as (g & E & B & P). split.
    + intros Hb i. rewrite E. specialize (B (2 * PI * axis i / w)). set (s := g _) in *. assert (- Rabs a <= a * s <= Rabs a). { unfold Rabs. destruct (Rcase_abs a); nra. } split; apply Rmult_le_compat_l; lra.
    + intros k i j Hw Ha. rewrite !E. do 3 f_equal. rewrite Ha. replace (2 * PI * (axis i + IZR k * w) / w) with (2 * PI * axis i / w + 2 * IZR k * PI) by (field; auto). apply P.
  - intros b h c w r k f Hf Hw Hr Hh. unfold profile_1d in Hf. apply (f_equal (fun o => match o with Some z => z | None => f end)) in Hf.
    set (env := fun i => 1 / 2 * (tanh ((axis i - (c - 1 / 2 * w)) / r) - tanh ((axis i - (c + 1 / 2 * w)) / r))).
    assert (EF : forall i, f i = b + h * (if str_eqb k (lit "trough") then 1 - env i else env i)) by (intros i; subst f; unfold env; destruct (str_eqb k (lit "trough")); reflexivity).
    assert (B : forall i, 0 < env i < 1).
    { intros i. unfold env. assert (L : (axis i - (c + 1 / 2 * w)) / r < (axis i - (c - 1 / 2 * w)) / r) by (apply Rmult_lt_compat_r; [now apply Rinv_0_lt_compat|lra]). apply tanh_increasing in L.
      pose proof (tanh_bound ((axis i - (c - 1 / 2 * w)) / r)). pose proof (tanh_bound ((axis i - (c + 1 / 2 * w)) / r)). lra. }
    assert (B' : forall i, 0 < (if str_eqb k (lit "trough") then 1 - env i else env i) < 1) by (intros i; specialize (B i); destruct (str_eqb k (lit "trough")); lra).
    split; [intros i; rewrite EF; specialize (B' i); nra|]. split; [intros Hh' i; rewrite EF; specialize (B' i); nra|].
    intros f' i Hk Hf'. unfold profile_1d in Hf'. apply (f_equal (fun o => match o with Some z => z | None => f' end)) in Hf'. rewrite EF, <- Hf'. subst k. change (str_eqb (lit "bump") (lit "trough")) with false. change (str_eqb (lit "trough") (lit "trough")) with true. cbv beta iota zeta. fold (env i). ring.
Qed.
Print Assumptions C82_profile_1d.
(** In two dimensions: spots are positive and at most the amplitude times their number, x and y shapes multiply (a missing one is 1), and a
    single shape runs along y only when the axis is exactly "y" - any other word silently means x. *)
Theorem C82_profile_2d : forall gx gy,
  (forall a xc xr yr ycs f, profile_2d (GaussianSpots a xc xr yr ycs) gx gy = Some f -> 0 <= a -> forall i j, 0 <= f i j <= a * INR (List.length ycs)) /\
  (forall px py f, profile_2d (Separable px py) gx gy = Some f <-> exists fx fy, profile_1d (opt_prof px) gx = Some fx /\ profile_1d (opt_prof py) gy = Some fy /\ f = fun i j => fx i * fy j) /\
  (forall p f, profile_2d (OneAxis (lit "y") p) gx gy = Some f <-> exists fy, profile_1d p gy = Some fy /\ f = fun _ j => fy j) /\
  (forall ax p f, ax <> lit "y" -> (profile_2d (OneAxis ax p) gx gy = Some f <-> exists fx, profile_1d p gx = Some fx /\ f = fun i _ => fx i)).
Proof.
  intros gx gy. split; [|split; [|split]].
  - intros a xc xr yr ycs f Hf Ha i j. cbn in Hf. apply (f_equal (fun o => match o with Some z => z | None => f end)) in Hf. rewrite <- Hf.
    assert (S : forall l, 0 <= lsum (map (fun yc => exp (- ((gy j - yc) / yr) ^ 2)) l) <= INR (List.length l)).
    { induction l as [|y l IH]; [cbn; lra|]. cbn [map List.length]. rewrite S_INR. change (lsum (?u :: ?v)) with (u + lsum v). assert (exp (- ((gy j - y) / yr) ^ 2) <= 1).
      { rewrite <- exp_0. pose proof (pow2_ge_0 ((gy j - y) / yr)). destruct (Req_dec (((gy j - y) / yr) ^ 2) 0) as [Z|Z]; [right; f_equal; lra|left; apply exp_increasing; lra]. }
      pose proof (exp_pos (- ((gy j - y) / yr) ^ 2)). lra. }
    assert (X : 0 < exp (- ((gx i - xc) / xr) ^ 2) <= 1).
    { split; [apply exp_pos|]. rewrite <- exp_0. pose proof (pow2_ge_0 ((gx i - xc) / xr)). destruct (Req_dec (((gx i - xc) / xr) ^ 2) 0) as [Z|Z]; [right; f_equal; lra|left; apply exp_increasing; lra]. }
    specialize (S ycs). set (s := lsum _) in *. set (e := exp _) in *. pose proof (pos_INR (List.length ycs)). split; [apply Rmult_le_pos; [apply Rmult_le_pos; lra|lra]|].
    apply Rle_trans with (a * 1 * s); [apply Rmult_le_compat_r; [lra|]; apply Rmult_le_compat_l; lra|]. rewrite Rmult_1_r. apply Rmult_le_compat_l; lra.
  - intros px py f. cbn [profile_2d]. destruct (profile_1d (opt_prof px) gx) as [u|], (profile_1d (opt_prof py) gy) as [w|]; split; intros H; try discriminate.
    all: try (destruct H as (u' & w' & E1 & E2 & K); try discriminate; injection E1 as <-; injection E2 as <-; now rewrite K). injection H as <-. now exists u, w.
  - intros p f. cbn [profile_2d]. change (str_eqb (lit "y") (lit "y")) with true. cbv iota. destruct (profile_1d p gy) as [w|]; split; intros H; try discriminate.
    all: try (destruct H as (w' & E2 & K); try discriminate; injection E2 as <-; now rewrite K). injection H as <-. now exists w.
  - intros ax p f Hax. cbn [profile_2d]. destruct (str_eqb_spec ax (lit "y")) as [E|E]; [contradiction|]. destruct (profile_1d p gx) as [w|]; split; intros H; try discriminate.
    all: try (destruct H as (w' & E2 & K); try discriminate; injection E2 as <-; now rewrite K). injection H as <-. now exists w.
Qed.
Print Assumptions C82_profile_2d.
Example C82_profile_nonvacuous : exists f, profile_2d (Separable (Some (PSine 1 (1 / 10) 4)) None) (fun i => INR i) (fun i => INR i) = Some f /\ f 1%nat 0%nat = 11 / 10.
Proof. eexists. split; [reflexivity|]. cbv beta. change (INR 1) with 1. replace (2 * PI * 1 / 4) with (PI / 2) by field. rewrite sin_PI2. lra. Qed.

(** * Initial state *)
Lemma init_gf L M f00 x y j l m : gf L M (fun i => flm_init L M f00 x y i j) l m = if ((l =? 0) && (m =? 0))%nat%bool then (f00 x y j, 0) else c0.
Proof.
  unfold flm_init. change (index L M 0 0) with (index L M (Z.of_nat 0) (Z.of_nat 0)). rewrite (gf_upd L M 0 0 (fun _ => (f00 x y j, 0)) (fun _ => c0) l m).
  destruct ((l =? 0) && (m =? 0))%nat%bool eqn:E.
  - apply andb_prop in E. destruct E as [A B]. apply Nat.eqb_eq in A, B. subst. destruct (retained_index L M 0 0 ltac:(apply retained_iff; lia)) as (i & _ & _ & _ & C). now rewrite C.
  - destruct (retained L M l m) eqn:R; [|now rewrite gf_out]. destruct (retained_index L M l m R) as (i & _ & _ & _ & C). now rewrite C.
Qed.
Definition quad (g : g2d) (f : nat -> R) : R := 4 * PI * rsum (gr_nv g) (fun j => f j * gr_v g j ^ 2) * gr_dv g.
Lemma quad_lin g a (l : list (nat -> R)) : quad g (fun j => a * lsum (map (fun h => h j) l)) = a * lsum (map (quad g) l).
Proof.
  unfold quad. induction l as [|h l IH].
  - cbn [map]. change (lsum []) with 0. rewrite (rsum_ext _ _ (fun _ => 0)) by (intros; ring). rewrite rsum_zero. ring.
  - cbn [map]. change (lsum (?u :: ?v)) with (u + lsum v). rewrite Rmult_plus_distr_l. fold (quad g) in *. rewrite <- IH. 
    rewrite (rsum_ext _ _ (fun j => a * (h j * gr_v g j ^ 2) + (a * lsum (map (fun h => h j) l)) * gr_v g j ^ 2)).
    + rewrite rsum_plus, rsum_scal. unfold quad. ring.
    + intros j _. cbn [map]. change (lsum (?u :: ?v)) with (u + lsum v). ring.
Qed.
(** The initial state is refused without a species; otherwise it is isotropic, carries no current and no magnetic field, is nonnegative for
    nonnegative densities, its density is the sum over the species of the quadrature of each, the electric field is the Poisson field of
    the ion charge minus that density, and the ions neutralise the density profile. *)
Theorem C82_init : forall gam rel g vmax vth ratio zref qn l,
  (init_2d gam rel g vmax vth ratio zref qn l = None <-> forall p, In p l -> is_species p = false) /\
  (forall s, init_2d gam rel g vmax vth ratio zref qn l = Some s ->
     let dens := fun x y => density2 (gr_L g) (gr_M g) (gr_nv g) (gr_v g) (gr_dv g) (i_f s x y) in
     (forall x y j l' m', (l', m') <> (0, 0)%nat -> gf (gr_L g) (gr_M g) (fun i => i_f s x y i j) l' m' = c0) /\
     (forall x y q speed, current2 (gr_L g) (gr_M g) (gr_nv g) (gr_v g) (gr_dv g) q speed (i_f s x y) = (0, 0, 0)) /\
     i_b s = (fun _ _ => (0, 0, 0)) /\
     (forall x y, dens x y = ratio * lsum (map (fun p => quad g (cell_f0 gam rel g vmax vth (sq_m (snd p)) (sq_n (snd p) x y) (sq_T (snd p) x y))) (filter is_species l))) /\
     (forall x y, i_ne s x y = ratio * lsum (map (fun p => sq_n (snd p) x y) (filter is_species l))) /\
     (forall x y, zref <> 0 -> zref * i_Z s x y * i_ni s x y = i_ne s x y) /\
     i_e s = poisson2 (gr_nx g) (gr_ny g) (gr_dx g) (gr_dy g) (fun x y => (if qn then i_ne s x y else mean2 (gr_nx g) (gr_ny g) (i_ne s)) - dens x y)).
Proof.
  intros gam rel g vmax vth ratio zref qn l. unfold init_2d. destruct (existsb is_species l) eqn:E; cbn [negb]; split.
  - split; [discriminate|]. intros H. apply existsb_exists in E. destruct E as (p & Hp & K). rewrite (H p Hp) in K. discriminate.
  - intros s Hs. apply (f_equal (fun o => match o with Some z => z | None => s end)) in Hs. cbv beta iota zeta in Hs. subst s. cbn [i_f i_e i_b i_ne i_Z i_ni]. cbv zeta.
    set (f00 := f00_init gam rel g vmax vth ratio l).
    assert (NZ : forall x y j l' m', (l', m') <> (0, 0)%nat -> gf (gr_L g) (gr_M g) (fun i => flm_init (gr_L g) (gr_M g) f00 x y i j) l' m' = c0).
    { intros x y j l' m' H. rewrite init_gf. destruct (Nat.eqb_spec l' 0), (Nat.eqb_spec m' 0); cbn [andb]; try reflexivity. subst. congruence. }
    split; [exact NZ|]. split.
    { intros x y q speed. apply vec3_eq; [rewrite cur_x|rewrite cur_y|rewrite cur_z];
      (rewrite (rsum_ext _ _ (fun _ => 0)); [rewrite rsum_zero; unfold v_x, v_y, v_z; cbn [fst snd]; ring|intros j _; rewrite NZ by discriminate; unfold c0; cbn [fst snd]; ring]). }
    split; [reflexivity|]. split.
    { intros x y. rewrite density2_gf. transitivity (quad g (f00 x y)). { unfold quad. f_equal. f_equal. apply rsum_ext. intros j _. rewrite init_gf. reflexivity. }
      unfold f00, f00_init. rewrite <- (map_map (fun p => cell_f0 gam rel g vmax vth (sq_m (snd p)) (sq_n (snd p) x y) (sq_T (snd p) x y)) (quad g)). rewrite <- quad_lin. f_equal. apply functional_extensionality. intros j. rewrite map_map. reflexivity. }
    split; [reflexivity|]. split; [intros x y Hz; field; auto|]. destruct qn; reflexivity.
  - split; [|reflexivity]. intros _ p Hp. destruct (is_species p) eqn:K; [|reflexivity]. assert (existsb is_species l = true) by (apply existsb_exists; eauto). congruence.
  - discriminate.
Qed.
Print Assumptions C82_init.
(** * Neutrality of the start *)
Lemma cfft_zero n k : cfft n (fun _ => c0) k = c0.
Proof. unfold cfft. rewrite (csum_ext _ _ (fun _ => c0)) by (intros; cy). apply csum_zero. Qed.
Lemma ifft_zero n k : ifft n (fun _ => c0) k = c0.
Proof. unfold ifft. rewrite (csum_ext _ _ (fun _ => c0)) by (intros; cy). rewrite csum_zero. cy. Qed.
Lemma poisson2_zero nx ny dx dy : poisson2 nx ny dx dy (fun _ _ => 0) = fun _ _ => (0, 0, 0).
Proof.
  apply functional_extensionality. intros x. apply functional_extensionality. intros y. unfold poisson2. cbv zeta. change (0, 0) with c0.
  assert (F : fft2 nx ny (fun _ _ => c0) = fun _ _ => c0).
  { apply functional_extensionality. intros k. apply functional_extensionality. intros l. unfold fft2. rewrite cfft_zero. apply cfft_zero. }
  assert (I : forall X, (forall k l, X k l = c0) -> fst (ifft2 nx ny X x y) = 0).
  { intros X HX. replace X with (fun _ _ : nat => c0) by (apply functional_extensionality; intros k; apply functional_extensionality; intros l; now rewrite HX). unfold ifft2. rewrite ifft_zero, ifft_zero. reflexivity. }
  rewrite F. rewrite !I by (intros; cy). reflexivity.
Qed.
Lemma mj_quad g theta n : (0 < gr_nv g)%nat -> 0 < gr_dv g -> (forall j, (j < gr_nv g)%nat -> 0 < gr_v g j) -> quad g (mj (gr_nv g) (gr_dv g) (gr_v g) theta n) = n.
Proof.
  intros Hn Hd Hv. unfold quad, mj. set (w := fun j => exp (- (sqrt (1 + gr_v g j ^ 2) - 1) / theta)). set (S := rsum (gr_nv g) (fun i => w i * gr_v g i ^ 2)).
  assert (P : 0 < S). { unfold S. apply rsum_pos; auto. intros i Hi. apply Rmult_lt_0_compat; [apply exp_pos|apply pow_lt; auto]. }
  rewrite (rsum_ext _ _ (fun j => n / (4 * PI * S * gr_dv g) * (w j * gr_v g j ^ 2))).
  - rewrite rsum_scal. fold S. pose proof PI_RGT_0. field. lra.
  - intros j _. change (rsum (gr_nv g) (fun i => exp (- (sqrt (1 + gr_v g i ^ 2) - 1) / theta) * gr_v g i ^ 2)) with S. change (exp (- (sqrt (1 + gr_v g j ^ 2) - 1) / theta)) with (w j). pose proof PI_RGT_0. field. lra.
Qed.
Lemma lsum_map_ext {A} (h k : A -> R) l : (forall p, In p l -> h p = k p) -> lsum (map h l) = lsum (map k l).
Proof. induction l as [|p l IH]; intros H; [reflexivity|]. cbn [map]. change (lsum (?u :: ?v)) with (u + lsum v). rewrite (H p) by (now left). f_equal. apply IH. intros q Hq. apply H. now right. Qed.
(** What a user calls the density of a cell: the distribution integrated over the speeds of the grid. With the relativistic shape it is the
    requested density exactly, so a quasineutral start has no electric field; the other shape is the requested density times a quadrature
    of a function of the temperature and the exponent only. In both cases nonnegative densities give a nonnegative distribution. *)
Theorem C82_neutral : forall gam g vmax vth ratio zref l, (0 < gr_nv g)%nat -> 0 < gr_dv g -> (forall j, (j < gr_nv g)%nat -> 0 < gr_v g j) ->
  let dens := fun s x y => density2 (gr_L g) (gr_M g) (gr_nv g) (gr_v g) (gr_dv g) (i_f s x y) in
  (forall theta qn s, init_2d gam (Some theta) g vmax vth ratio zref qn l = Some s -> forall x y, dens s x y = i_ne s x y) /\
  (forall theta s, init_2d gam (Some theta) g vmax vth ratio zref true l = Some s -> i_e s = fun _ _ => (0, 0, 0)) /\
  (forall qn s, init_2d gam None g vmax vth ratio zref qn l = Some s -> exists q, forall x y,
     dens s x y = ratio * lsum (map (fun p => q (sq_m (snd p)) (sq_T (snd p) x y) * sq_n (snd p) x y) (filter is_species l))) /\
  (forall rel qn s, init_2d gam rel g vmax vth ratio zref qn l = Some s -> (forall z, 0 < z -> 0 < gam z) -> 0 < vth -> 0 <= ratio ->
     (forall p x y, In p l -> 0 < sq_m (snd p) /\ 0 <= sq_n (snd p) x y /\ 0 < sq_T (snd p) x y) ->
     forall x y j, 0 <= fst (gf (gr_L g) (gr_M g) (fun i => i_f s x y i j) 0 0)).
Proof.
  intros gam g vmax vth ratio zref l Hn Hd Hv dens.
  assert (D : forall theta qn s, init_2d gam (Some theta) g vmax vth ratio zref qn l = Some s -> forall x y, dens s x y = i_ne s x y).
  { intros theta qn s Hs x y. destruct (C82_init gam (Some theta) g vmax vth ratio zref qn l) as [_ I]. destruct (I s Hs) as (_ & _ & _ & E & N & _). unfold dens. rewrite E, N. f_equal. apply lsum_map_ext. intros p _. cbn [cell_f0]. now apply mj_quad. }
  split; [exact D|]. split; [|split].
  - intros theta s Hs. destruct (C82_init gam (Some theta) g vmax vth ratio zref true l) as [_ I]. destruct (I s Hs) as (_ & _ & _ & _ & _ & _ & E). rewrite E. cbv iota. rewrite <- (poisson2_zero (gr_nx g) (gr_ny g) (gr_dx g) (gr_dy g)). f_equal.
    apply functional_extensionality. intros x. apply functional_extensionality. intros y. specialize (D theta true s Hs x y). unfold dens in D. rewrite D. ring.
  - intros qn s Hs. destruct (C82_init gam None g vmax vth ratio zref qn l) as [_ I]. destruct (I s Hs) as (_ & _ & _ & E & _ & _ & _).
    exists (fun m T => quad g (sg_dist gam (v_only (gr_nv g) vmax) vth m (fun _ => 1) (fun _ => T) 0)). intros x y. unfold dens. rewrite E. f_equal. apply lsum_map_ext. intros p _. unfold quad, cell_f0, sg_dist.
    rewrite (rsum_ext _ _ (fun j => sq_n (snd p) x y * (1 * (sg_cst gam (sq_m (snd p)) / (sqrt (sq_T (snd p) x y) * vth) ^ 3 * exp (- Rpower (v_at (v_only (gr_nv g) vmax) j / sg_alpha gam (sq_m (snd p)) / (sqrt (sq_T (snd p) x y) * vth)) (sq_m (snd p)))) * gr_v g j ^ 2))).
    + rewrite rsum_scal. ring.
    + intros j _. ring.
  - intros rel qn s Hs HG Hvt Hr HP x y j. unfold init_2d in Hs. destruct (existsb is_species l) eqn:E; cbn [negb] in Hs; [|discriminate].
    apply (f_equal (fun o => match o with Some z => z | None => s end)) in Hs. cbv beta iota zeta in Hs. subst s. cbn [i_f]. rewrite init_gf. cbn [andb Nat.eqb fst]. unfold f00_init. apply Rmult_le_pos; [exact Hr|].
    assert (Q : forall k, (forall p, In p k -> In p l) -> 0 <= lsum (map (fun p => cell_f0 gam rel g vmax vth (sq_m (snd p)) (sq_n (snd p) x y) (sq_T (snd p) x y) j) k)).
    { induction k as [|p k IH]; intros K; [cbn; lra|]. cbn [map]. change (lsum (?u :: ?v)) with (u + lsum v). assert (0 <= lsum (map (fun p => cell_f0 gam rel g vmax vth (sq_m (snd p)) (sq_n (snd p) x y) (sq_T (snd p) x y) j) k)) by (apply IH; intros q Hq; apply K; now right).
      destruct (HP p x y (K p ltac:(now left))) as (A & B & C). enough (0 <= cell_f0 gam rel g vmax vth (sq_m (snd p)) (sq_n (snd p) x y) (sq_T (snd p) x y) j) by lra. destruct rel as [theta|]; unfold cell_f0.
      - unfold mj. cbv zeta. apply Rmult_le_pos; [apply Rmult_le_pos; [exact B|left; apply exp_pos]|]. left. apply Rinv_0_lt_compat. pose proof PI_RGT_0. apply Rmult_lt_0_compat; [|exact Hd]. apply Rmult_lt_0_compat; [lra|]. apply rsum_pos; auto. intros i Hi. apply Rmult_lt_0_compat; [apply exp_pos|apply pow_lt; auto].
      - apply (sg_dist_nonneg gam (v_only (gr_nv g) vmax) vth {| sp_m := sq_m (snd p); sp_n := fun _ => sq_n (snd p) x y; sp_T := fun _ => sq_T (snd p) x y |} 0 j HG Hvt). split; [exact A|]. intros x0. split; [exact B|exact C]. }
    apply Q. intros p Hp. apply filter_In in Hp. tauto.
Qed.
Print Assumptions C82_neutral.
Definition ref_grid : g2d := {| gr_nx := 1; gr_ny := 1; gr_nv := 2; gr_dx := 1; gr_dy := 1; gr_dv := 1 / 4; gr_x := fun _ => 0; gr_y := fun _ => 0; gr_v := linspace (1 / 8) (3 / 8) 2; gr_L := 1; gr_M := 1 |}.
Definition ref_sp : str * spec2 := (lit "species-a", {| sq_m := 2; sq_n := fun _ _ => 1; sq_T := fun _ _ => 1 |}).
(** Without the relativistic shape a quasineutral start is not exactly neutral: the ion charge is the requested density, the electron
    charge its quadrature. *)
Theorem C82_neutral_refuted : exists gam g vmax s, gam (3 / 2) = sqrt PI / 2 /\ gam (5 / 2) = 3 * sqrt PI / 4 /\ (forall z, 0 < z -> 0 < gam z) /\
  make_grid {| gc_xmin := 0; gc_xmax := 1; gc_nx := 1; gc_ymin := 0; gc_ymax := 1; gc_ny := 1; gc_vmax := vmax; gc_nv := 2; gc_dt := 1; gc_lmax := 1; gc_mmax := None |} = Some g /\
  init_2d gam None g vmax 1 1 1 true [ref_sp] = Some s /\
  density2 (gr_L g) (gr_M g) (gr_nv g) (gr_v g) (gr_dv g) (i_f s 0%nat 0%nat) < i_ne s 0%nat 0%nat.
Proof.
  set (c := {| gc_xmin := 0; gc_xmax := 1; gc_nx := 1; gc_ymin := 0; gc_ymax := 1; gc_ny := 1; gc_vmax := 1 / 2; gc_nv := 2; gc_dt := 1; gc_lmax := 1; gc_mmax := None |}).
  destruct (make_grid c) as [g|] eqn:Eg.
  2: { exfalso. assert (N : make_grid c <> None); [apply C82_grid; cbn; repeat split; try lia; lra|contradiction]. }
  destruct (C82_grid c) as [_ G]. destruct (G g Eg) as (_ & _ & Nv & _ & _ & DV & _ & _ & Dpos & _ & _ & V & _). assert (NV : gr_nv g = 2%nat) by (cbn in Nv; lia). rewrite NV in *. cbn [gc_vmax c] in DV. change (INR 2) with (1 + 1) in DV. assert (DV' : gr_dv g = 1 / 4) by lra.
  assert (V0 : gr_v g 0%nat = 1 / 8) by (destruct (V 0%nat ltac:(lia)) as [-> _]; rewrite DV'; change (INR 0) with 0; lra).
  assert (V1 : gr_v g 1%nat = 3 / 8) by (destruct (V 1%nat ltac:(lia)) as [-> _]; rewrite DV'; change (INR 1) with 1; lra).
  destruct (init_2d gam_half None g (1 / 2) 1 1 1 true [ref_sp]) as [s|] eqn:Es; [|discriminate].
  exists gam_half, g, (1 / 2), s. split; [unfold gam_half; destruct (Req_EM_T (3 / 2) (3 / 2)); congruence|]. split; [unfold gam_half; destruct (Req_EM_T (5 / 2) (3 / 2)); [lra|reflexivity]|]. split; [apply gam_pos|].
  split; [exact Eg|]. split; [exact Es|].
  destruct (C82_init gam_half None g (1 / 2) 1 1 1 true [ref_sp]) as [_ I]. destruct (I s Es) as (_ & _ & _ & E & N & _). cbv zeta in E. rewrite E, N.
  change (filter is_species [ref_sp]) with [ref_sp]. cbn [map]. change (lsum [?u]) with (u + 0). unfold ref_sp. cbn [snd sq_m sq_n sq_T cell_f0].
  unfold quad, cell_f0. rewrite NV, DV'. set (F := sg_dist gam_half (v_only 2 (1 / 2)) 1 2 (fun _ => 1) (fun _ => 1) 0).
  assert (U : usable (v_only 2 (1 / 2))). { unfold usable, v_only. cbn [n_x n_v x_min x_max v_max]. repeat split; try lia; try lra. }
  assert (FB : forall j, F j <= / PI).
  { intros j. unfold F. rewrite C71_maxwellian; [|unfold gam_half; destruct (Req_EM_T (3 / 2) (3 / 2)); congruence|unfold gam_half; destruct (Req_EM_T (5 / 2) (3 / 2)); [lra|reflexivity]|exact U|lra|lra]. rewrite sqrt_1. pose proof PI_RGT_0. pose proof PI2_3_2 as P3. assert (S1 : 1 <= sqrt PI) by (rewrite <- sqrt_1; apply sqrt_le_1; lra).
    set (a := v_at _ j). assert (exp (- (a ^ 2 / (1 * 1 ^ 2))) <= 1). { pose proof (pow2_ge_0 a). replace (a ^ 2 / (1 * 1 ^ 2)) with (a ^ 2) by field. destruct (Req_dec (a ^ 2) 0) as [K|K]; [rewrite K, Ropp_0, exp_0; lra|]. rewrite <- exp_0. left. apply exp_increasing. lra. }
    pose proof (exp_pos (- (a ^ 2 / (1 * 1 ^ 2)))). set (e := exp _) in *. replace (1 / (PI * sqrt PI * (1 * 1) ^ 3)) with (/ PI * / sqrt PI) by (field; lra). assert (0 < / PI) by now apply Rinv_0_lt_compat. assert (/ sqrt PI <= 1) by (rewrite <- Rinv_1; apply Rinv_le_contravar; lra). assert (0 < / sqrt PI) by (apply Rinv_0_lt_compat; lra).
    rewrite Rmult_assoc. rewrite <- (Rmult_1_r (/ PI)) at 2. apply Rmult_le_compat_l; [lra|]. nra. }
  change (rsum 2 (fun j => F j * gr_v g j ^ 2)) with (0 + F 0%nat * gr_v g 0%nat ^ 2 + F 1%nat * gr_v g 1%nat ^ 2). rewrite V0, V1. pose proof (FB 0%nat). pose proof (FB 1%nat). pose proof PI_RGT_0.
  assert (X : PI * F 0%nat <= 1) by (apply Rle_trans with (PI * / PI); [apply Rmult_le_compat_l; lra|rewrite Rinv_r; lra]). assert (Y : PI * F 1%nat <= 1) by (apply Rle_trans with (PI * / PI); [apply Rmult_le_compat_l; lra|rewrite Rinv_r; lra]). nra.
Qed.
Print Assumptions C82_neutral_refuted.
(** * Collisions *)
Lemma aniso_gf tri g c L M Z ni dt f f' l m : aniso tri g c L M Z ni dt f = Some f' -> retained L M l m = true -> forall j,
  gf L M (fun i => f' i j) l m = if (l =? 0)%nat then gf L M (fun i => f i j) l m
    else (flm_solve tri g c l Z ni (re_mode L M f 0 0) (fun j => fst (gf L M (fun i => f i j) l m)) dt true j, flm_solve tri g c l Z ni (re_mode L M f 0 0) (fun j => snd (gf L M (fun i => f i j) l m)) dt true j).
Proof.
  intros H R j. unfold aniso in H. destruct (flm_nl c <? L)%nat; [discriminate|]. apply (f_equal (fun o => match o with Some z => z | None => f' end)) in H. cbv beta iota zeta in H. subst f'.
  destruct (retained_index L M l m R) as (i & Hi & El & Em & G). rewrite !G. unfold ell_of in El. rewrite El.
  assert (X : (fun j => fst (gf L M (fun i => f i j) l m)) = fun j => fst (f i j)) by (apply functional_extensionality; intros k; now rewrite G).
  assert (Y : (fun j => snd (gf L M (fun i => f i j) l m)) = fun j => snd (f i j)) by (apply functional_extensionality; intros k; now rewrite G). now rewrite X, Y.
Qed.
Lemma rem_gf L M f j : re_mode L M f 0 0 j = fst (gf L M (fun i => f i j) 0 0).
Proof. reflexivity. Qed.
(** The collision step of one cell: the density is conserved; without isotropic collisions the isotropic harmonic is unchanged; without
    anisotropic collisions every other harmonic is unchanged; the harmonics of one degree are treated alike whatever their order; with the
    electron-ion (Z* ) form every harmonic of degree l >= 1 is divided by 1 + dt r with r >= 0 depending on l and the speed only, so
    none grows; a layout above the order of the operator and inverse bremsstrahlung without its ratio have no result. *)
Theorem C82_collisions : forall tri isot an g L M Z ni dt D0 ib ratio f f', usable g -> (forall o, isot = Some o -> is_grid o = g) ->
  collide_cell tri isot an g L M Z ni dt D0 ib ratio f f' ->
  density2 L M (n_v g) (v_at g) (d_v g) f' = density2 L M (n_v g) (v_at g) (d_v g) f /\
  (isot = None -> forall j, gf L M (fun i => f' i j) 0 0 = gf L M (fun i => f i j) 0 0) /\
  (isot <> None -> forall j, snd (gf L M (fun i => f' i j) 0 0) = 0) /\
  (an = None -> forall l m j, l <> 0%nat -> gf L M (fun i => f' i j) l m = gf L M (fun i => f i j) l m) /\
  (forall l m m', retained L M l m = true -> retained L M l m' = true -> (forall j, gf L M (fun i => f i j) l m = gf L M (fun i => f i j) l m') -> (1 <= l)%nat ->
     forall j, gf L M (fun i => f' i j) l m = gf L M (fun i => f' i j) l m') /\
  (forall c, an = Some c -> (L <= flm_nl c)%nat /\
     (flm_full c = false -> 0 <= dt -> 0 <= flm_Z c -> 0 <= flm_nuee c -> 0 <= flm_loglam c -> 0 <= ni -> exists r : nat -> nat -> R, forall l m j, (1 <= l)%nat -> retained L M l m = true ->
        0 <= r l j /\ cscal (1 + dt * r l j) (gf L M (fun i => f' i j) l m) = gf L M (fun i => f i j) l m /\
        r l j = (flm_Z c + 42 / 10) / (flm_Z c + 24 / 100) * (INR l * (INR l + 1) / 2) * (flm_nuee c * flm_loglam c * (flm_Z c * Z) ^ 2 * ni / v_at g j ^ 3) /\
        Rabs (fst (gf L M (fun i => f' i j) l m)) <= Rabs (fst (gf L M (fun i => f i j) l m)) /\ Rabs (snd (gf L M (fun i => f' i j) l m)) <= Rabs (snd (gf L M (fun i => f i j) l m)))) /\
  (isot <> None -> ib <> None -> ratio <> None).
Proof.
  intros tri isot an g L M Z ni dt D0 ib ratio f f' U HG (h & Hi & Ha).
  assert (H00 : (isot = None -> h = f) /\ (isot <> None -> (forall j, snd (gf L M (fun i => h i j) 0 0) = 0) /\ heat_ok ib ratio = true) /\
     rsum (n_v g) (fun j => fst (gf L M (fun i => h i j) 0 0) * v_at g j ^ 2) = rsum (n_v g) (fun j => fst (gf L M (fun i => f i j) 0 0) * v_at g j ^ 2) /\
     (forall l m j, l <> 0%nat -> gf L M (fun i => h i j) l m = gf L M (fun i => f i j) l m)).
  { destruct isot as [o|].
    - destruct Hi as (HO & f00 & Hs & ->). specialize (HG o eq_refl). unfold iso_collide in Hs. rewrite HG in Hs.
      assert (G0 : forall j l m, gf L M (fun i => if (Z.of_nat i =? index L M 0 0)%Z then (f00 j, 0) else f i j) l m = if ((l =? 0) && (m =? 0))%nat%bool then (f00 j, 0) else gf L M (fun i => f i j) l m).
      { intros j l m. change (index L M 0 0) with (index L M (Z.of_nat 0) (Z.of_nat 0)). rewrite (gf_upd L M 0 0 (fun _ => (f00 j, 0)) (fun i => f i j) l m). destruct ((l =? 0) && (m =? 0))%nat%bool eqn:E; [|reflexivity].
        apply andb_prop in E. destruct E as [A B]. apply Nat.eqb_eq in A, B. subst. destruct (retained_index L M 0 0 ltac:(apply retained_iff; lia)) as (i & _ & _ & _ & C). now rewrite C. }
      split; [discriminate|]. split; [intros _; split; [intros j; now rewrite G0|exact HO]|]. split.
      + apply C32_spherical_density_conserved in Hs; [|intros i _; pose proof (v_pos g i U); lra].
        rewrite (rsum_ext _ _ (fun j => v_at g j ^ 2 * f00 j)) by (intros j _; rewrite G0; cbn [andb Nat.eqb fst]; ring). rewrite Hs. apply rsum_ext. intros j _. rewrite rem_gf. ring.
      + intros l m j Hl. rewrite G0. destruct (Nat.eqb_spec l 0); [contradiction|reflexivity].
    - subst h. split; [auto|]. split; [congruence|]. split; reflexivity. }
  destruct H00 as (I1 & I2 & I3 & I4).
  assert (A0 : forall j, gf L M (fun i => f' i j) 0 0 = gf L M (fun i => h i j) 0 0).
  { intros j. destruct an as [c|]; [|now subst]. rewrite (aniso_gf tri g c L M Z ni dt h f' 0 0 Ha) by (apply retained_iff; lia). reflexivity. }
  split. { rewrite !density2_gf. f_equal. f_equal. rewrite <- I3. apply rsum_ext. intros j _. now rewrite A0. }
  split; [intros E j; rewrite A0, (I1 E); reflexivity|]. split; [intros E j; rewrite A0; now apply I2|].
  split; [intros E l m j Hl; subst an; subst f'; now apply I4|]. split; [|split].
  - intros l m m' R1 R2 E Hl j. assert (E' : forall j, gf L M (fun i => h i j) l m = gf L M (fun i => h i j) l m') by (intros k; rewrite !I4 by lia; apply E). destruct an as [c|]; [|subst f'; apply E'].
    rewrite (aniso_gf tri g c L M Z ni dt h f' l m Ha R1), (aniso_gf tri g c L M Z ni dt h f' l m' Ha R2). destruct (Nat.eqb_spec l 0); [lia|].
    assert (X : (fun j => fst (gf L M (fun i => h i j) l m)) = fun j => fst (gf L M (fun i => h i j) l m')) by (apply functional_extensionality; intros k; now rewrite E').
    assert (Y : (fun j => snd (gf L M (fun i => h i j) l m)) = fun j => snd (gf L M (fun i => h i j) l m')) by (apply functional_extensionality; intros k; now rewrite E'). now rewrite X, Y.
  - intros c ->. split; [unfold aniso in Ha; destruct (Nat.ltb_spec (flm_nl c) L); [discriminate|lia]|]. intros F D HZ Hn HL Hni.
    exists (fun l j => (flm_Z c + 42 / 10) / (flm_Z c + 24 / 100) * (INR l * (INR l + 1) / 2) * (flm_nuee c * flm_loglam c * (flm_Z c * Z) ^ 2 * ni / v_at g j ^ 3)). intros l m j Hl R.
    rewrite (aniso_gf tri g c L M Z ni dt h f' l m Ha R). destruct (Nat.eqb_spec l 0); [lia|]. cbn [fst snd].
    destruct (C71_zstar_damping tri g c l Z ni (re_mode L M h 0 0) (fun j => fst (gf L M (fun i => h i j) l m)) dt true j U F D HZ Hn HL Hni) as (A1 & B1 & _ & C1).
    destruct (C71_zstar_damping tri g c l Z ni (re_mode L M h 0 0) (fun j => snd (gf L M (fun i => h i j) l m)) dt true j U F D HZ Hn HL Hni) as (A2 & _ & _ & C2). cbv zeta in A1, A2, B1, C1, C2.
    split; [exact B1|]. split; [|split; [reflexivity|split; [eapply Rle_trans; [exact C1|]|eapply Rle_trans; [exact C2|]]]].
    + rewrite <- (I4 l m j) by lia. unfold cscal. cbn [fst snd]. rewrite (surjective_pairing (gf L M (fun i => h i j) l m)). f_equal; rewrite Rmult_comm; [exact A1|exact A2].
    + rewrite (I4 l m j) by lia. lra. + rewrite (I4 l m j) by lia. lra.
  - intros E1 E2 E3. destruct (I2 E1) as [_ HO]. destruct ib; [|congruence]. subst ratio. discriminate.
Qed.
Print Assumptions C82_collisions.
Definition col_iso : iso := {| is_grid := step_grid; is_model := NullModel; is_scheme := SCentral; is_beta := fun _ => 1; is_nuee := 1 |}.
Definition col_flm : flm := {| flm_Z := 1; flm_nuee := 1; flm_loglam := 1; flm_full := false; flm_nl := 1 |}.
Example C82_collisions_nonvacuous : forall tri f, (forall j, gf 1 1 (fun i => f i j) 1 0 = (1, 0)) ->
  exists f', collide_cell tri (Some col_iso) (Some col_flm) step_grid 1 1 1 1 1 (Some 1) None None f f' /\ Rabs (fst (gf 1 1 (fun i => f' i 0%nat) 1 0)) < 1.
Proof.
  intros tri f HF.
  set (c := {| c_grid := step_grid; c_model := NullModel; c_scheme := SCentral; c_beta := fun _ => 1; c_nuee := 1; c_flm := col_flm; c_D0 := 1; c_vosc2 := 0; c_w0 := 1; c_solver := lit "x" |}).
  destruct (C71_heating_exists c 1 0 (re_mode 1 1 f 0 0)) as (f00 & H0); [exact step_usable|reflexivity|reflexivity|cbn; lra|cbn; lra|cbn; lra|].
  set (h := fun i j => if (Z.of_nat i =? index 1 1 0 0)%Z then (f00 j, 0) else f i j).
  destruct (aniso tri step_grid col_flm 1 1 1 1 1 h) as [f'|] eqn:Ea; [|discriminate].
  assert (HC : collide_cell tri (Some col_iso) (Some col_flm) step_grid 1 1 1 1 1 (Some 1) None None f f').
  { exists h. split; [|exact Ea]. split; [reflexivity|]. exists f00. split; [|reflexivity].
    unfold iso_collide. cbn [is_grid is_scheme is_model is_beta is_nuee col_iso oget]. unfold f0_collide in H0. cbn [c_grid c_scheme c_model c_beta c_nuee c_D0 c_vosc2 c_w0 c_flm c] in H0.
    replace (ib_on c) with 0 in H0 by (unfold ib_on; cbn [c_vosc2 c]; destruct (Rlt_dec 0 0); [lra|reflexivity]). replace (ib_ratio c 1 0) with 0 in H0 by (unfold ib_ratio; cbn [c_nuee c_w0 c_flm c]; field).
    exact H0. }
  exists f'. split; [exact HC|].
  assert (HS : forall o, Some col_iso = Some o -> is_grid o = step_grid) by (intros o K; injection K as <-; reflexivity).
  destruct (C82_collisions _ _ _ _ _ _ _ _ _ _ _ _ _ _ step_usable HS HC) as (_ & _ & _ & _ & _ & A & _). destruct (A col_flm eq_refl) as [_ B]. destruct B as (r & B); try reflexivity; try (cbn; lra).
  destruct (B 1%nat 0%nat 0%nat ltac:(lia) ltac:(reflexivity)) as (R0 & E & ER & _). rewrite HF in E. cbn [flm_Z flm_nuee flm_loglam col_flm] in ER.
  assert (V : 0 < v_at step_grid 0 ^ 3) by (apply pow_lt, v_pos, step_usable). assert (RP : 0 < r 1%nat 0%nat). { rewrite ER. change (INR 1) with 1. apply Rmult_lt_0_compat; [lra|]. apply Rdiv_lt_0_compat; lra. }
  set (a := gf 1 1 (fun i => f' i 0%nat) 1 0) in *. apply (f_equal fst) in E. unfold cscal in E. cbn [fst] in E. set (z := fst a) in *. set (q := r 1%nat 0%nat) in *. unfold Rabs. destruct (Rcase_abs z); nra.
Qed.
(** * Which solver is built *)
(** The mode word must be exactly "maxwell" (also the default of a dictionary without one) or "kinetic-ohm"; collisions with the
    relativistic shape are refused in both; and the filter and the positivity option are read in kinetic-ohm mode only: in maxwell mode
    they are ignored, even an invalid filter. *)
Theorem C82_build : forall mode fp rel pos hl,
  (build mode fp rel pos hl = NotImpl <-> fp = true /\ rel = true) /\
  (build mode fp rel pos hl = Maxwell2 fp <-> mode = lit "maxwell" /\ (fp = false \/ rel = false)) /\
  (forall p k, build mode fp rel pos hl = Ohm2 fp p k <-> mode = lit "kinetic-ohm" /\ (fp = false \/ rel = false) /\ p = str_eqb pos (lit "conservative") /\ k = hl /\
     forall dims, hl = Some dims -> dims <> [] /\ forall d, In d dims -> d = lit "x" \/ d = lit "y") /\
  (forall pos' hl', build (lit "maxwell") fp rel pos' hl' = build (lit "maxwell") fp rel pos hl) /\
  field_mode (FieldDict None) = lit "maxwell".
Proof.
  assert (NE : lit "kinetic-ohm" <> lit "maxwell") by discriminate. assert (NE' : str_eqb (lit "kinetic-ohm") (lit "maxwell") = false) by reflexivity.
  assert (FB : forall dims, forallb (fun d => str_eqb d (lit "x") || str_eqb d (lit "y"))%bool dims = true <-> forall d, In d dims -> d = lit "x" \/ d = lit "y").
  { intros dims. rewrite forallb_forall. split; intros H d Hd; specialize (H d Hd).
    - apply orb_prop in H. destruct H as [H|H]; [left|right]; now apply str_eqb_eq in H.
    - apply orb_true_intro. destruct H as [->| ->]; [left|right]; reflexivity. }
  intros mode fp rel pos hl. unfold build. destruct (fp && rel)%bool eqn:E.
  { apply andb_prop in E. destruct E as [-> ->]. repeat split; try discriminate; try (intros (_ & [H|H] & _); discriminate); intros (_ & [H|H]); discriminate. }
  assert (FR : fp = false \/ rel = false) by (destruct fp, rel; try discriminate; auto).
  assert (NN : ~ (fp = true /\ rel = true)) by (intros [-> ->]; discriminate).
  destruct (str_eqb_spec mode (lit "maxwell")) as [Em|Em].
  { subst mode. split; [split; [discriminate|contradiction]|]. split; [split; auto|]. split; [|split; reflexivity]. intros p k. split; [discriminate|]. intros (H & _). now symmetry in H. }
  change (str_eqb (lit "maxwell") (lit "maxwell")) with true. cbv iota.
  destruct (str_eqb_spec mode (lit "kinetic-ohm")) as [Ek|Ek].
  2: { split; [split; [discriminate|contradiction]|]. split; [split; [discriminate|intros [H _]; contradiction]|]. split; [|split; reflexivity]. intros p k. split; [discriminate|]. intros (H & _). contradiction. }
  destruct hl as [dims|].
  - destruct (negb (match dims with [] => false | _ => true end) || negb (forallb (fun d => str_eqb d (lit "x") || str_eqb d (lit "y")) dims))%bool eqn:Eb.
    + split; [split; [discriminate|contradiction]|]. split; [split; [discriminate|intros [H _]; contradiction]|]. split; [|split; reflexivity]. intros p k. split; [discriminate|]. intros (_ & _ & _ & _ & H). destruct (H dims eq_refl) as [A B]. apply FB in B. rewrite B in Eb. destruct dims; [contradiction|discriminate].
    + split; [split; [discriminate|contradiction]|]. split; [split; [discriminate|intros [H _]; contradiction]|]. split; [|split; reflexivity].
      apply orb_false_elim in Eb. destruct Eb as [E1 E2]. apply negb_false_iff in E1, E2. intros p k. split.
      * intros H. injection H as <- <-. repeat split; auto; injection H as <-; [destruct dims; discriminate|now apply FB].
      * intros (_ & _ & -> & -> & _). reflexivity.
  - split; [split; [discriminate|contradiction]|]. split; [split; [discriminate|intros [H _]; contradiction]|]. split; [|split; reflexivity]. intros p k. split.
    + intros H. injection H as <- <-. repeat split; auto; discriminate.
    + intros (_ & _ & -> & -> & _). reflexivity.
Qed.
Print Assumptions C82_build.
Example C82_build_nonvacuous : build (field_mode (FieldStr (lit "kinetic-ohm"))) true false (lit "conservative") (Some [lit "x"]) = Ohm2 true true (Some [lit "x"]) /\
  build (lit "maxwell") true false (lit "conservative") (Some [lit "z"]) = Maxwell2 true /\ build (lit "kinetic-ohm") true false (lit "none") (Some [lit "z"]) = BadValue.
Proof. repeat split. Qed.
