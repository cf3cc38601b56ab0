(** The initial condition of spectrax-1d: what it is in real space, and when it satisfies Gauss's law. *)
From Coq Require Import Reals Lra Lia ZArith List Bool Arith.
From Verif Require Import SpxInit Tf1dProps SpxProps SpxLaws SpxMore VGridProofs.
From Verif Require Import Dft.
Local Open Scope R_scope.
Local Open Scope cx_scope.

(** * Specification *)
(** A mode number the grid resolves: strictly below the Nyquist index. *)
Definition resolved (N : nat) (k : Z) : Prop := (2 * Z.abs k < Z.of_nat N)%Z.
Definition resolved3 (g : sgrid) (nx ny nz : Z) : Prop := resolved (s_nx g) nx /\ resolved (s_ny g) ny /\ resolved (s_nz g) nz.
(** The phase 2 pi (nx x / Lx + ny y / Ly + nz z / Lz) at a node. *)
Definition phase (g : sgrid) (nx ny nz : Z) (y x z : nat) : R :=
  2 * PI * (IZR nx * INR x / INR (s_nx g) + IZR ny * INR y / INR (s_ny g) + IZR nz * INR z / INR (s_nz g)).

(** * Indices *)
Lemma at_index_mode N k : (- Z.of_nat N <= k < Z.of_nat N)%Z -> at_index N (fft_index k N) = Some (Z.to_nat (k mod Z.of_nat N)).
Proof.
  intros H. unfold at_index, fft_index, inb. destruct (Z.leb_spec 0 k).
  - destruct (Z.ltb_spec k 0); [lia|]. rewrite Z.mod_small by lia.
    destruct (Z.leb_spec 0 k), (Z.ltb_spec k (Z.of_nat N)); try lia. reflexivity.
  - destruct (Z.ltb_spec (Z.of_nat N + k) 0); [lia|].
    assert (E : (k mod Z.of_nat N = Z.of_nat N + k)%Z) by (rewrite <- (Z_mod_plus k 1) by lia; rewrite Z.mod_small; lia).
    rewrite E. destruct (Z.leb_spec 0 (Z.of_nat N + k)), (Z.ltb_spec (Z.of_nat N + k) (Z.of_nat N)); try lia. reflexivity.
Qed.
Definition ix (N : nat) (k : Z) : nat := Z.to_nat (k mod Z.of_nat N).
Lemma ix_lt N k : (0 < N)%nat -> (ix N k < N)%nat.
Proof. intros H. unfold ix. pose proof (Z.mod_pos_bound k (Z.of_nat N) ltac:(lia)). lia. Qed.
Lemma ix_inj N k l : (0 < N)%nat -> (Z.abs (k - l) < Z.of_nat N)%Z -> ix N k = ix N l -> k = l.
Proof.
  intros H A E. unfold ix in E. pose proof (Z.mod_pos_bound k (Z.of_nat N) ltac:(lia)). pose proof (Z.mod_pos_bound l (Z.of_nat N) ltac:(lia)).
  assert (E' : (k mod Z.of_nat N = l mod Z.of_nat N)%Z) by lia.
  pose proof (Z.div_mod k (Z.of_nat N) ltac:(lia)). pose proof (Z.div_mod l (Z.of_nat N) ltac:(lia)).
  assert (D : (k - l = Z.of_nat N * (k / Z.of_nat N - l / Z.of_nat N))%Z) by lia.
  assert ((k / Z.of_nat N - l / Z.of_nat N = 0)%Z) by nia. nia.
Qed.
Lemma ix_0 N : ix N 0 = 0%nat.
Proof. unfold ix. destruct N; reflexivity. Qed.
Lemma ix_mode N k : (0 < N)%nat -> resolved N k -> mode N (ix N k) = k.
Proof.
  intros H R. unfold resolved in R. unfold mode, ix. pose proof (Z.mod_pos_bound k (Z.of_nat N) ltac:(lia)).
  destruct (Z.leb_spec 0 k).
  - rewrite Z.mod_small by lia. destruct (Nat.ltb_spec (2 * Z.to_nat k) N); lia.
  - assert (E : (k mod Z.of_nat N = Z.of_nat N + k)%Z) by (rewrite <- (Z_mod_plus k 1) by lia; rewrite Z.mod_small; lia).
    rewrite E. destruct (Nat.ltb_spec (2 * Z.to_nat (Z.of_nat N + k)) N); lia.
Qed.
(** Every index of the grid is the index of its mode number. *)
Lemma mode_ix N x : (x < N)%nat -> ix N (mode N x) = x.
Proof.
  intros H. unfold mode, ix. destruct (Nat.ltb_spec (2 * x) N).
  - rewrite Z.mod_small by lia. lia.
  - rewrite <- (Z_mod_plus (Z.of_nat x - Z.of_nat N) 1) by lia. rewrite Z.mod_small by lia. lia.
Qed.

Definition delta (a b c : nat) (v : cplx) : afield := fun y x z => if ((y =? a) && (x =? b) && (z =? c))%nat%bool then v else c0.
Lemma finv_single n h a g : (a < n)%nat -> (forall k, (k < n)%nat -> k <> a -> h k = c0) -> finv n h g = cmul (h a) (cis (angle n a g)).
Proof. intros A H. unfold finv. apply (csum_single n a (fun k => cmul (h k) (cis (angle n k g)))); [assumption|]. intros i I N. rewrite H by assumption. creal. Qed.
Lemma finv_zero n h g : (forall k, (k < n)%nat -> h k = c0) -> finv n h g = c0.
Proof. intros H. unfold finv. rewrite <- (csum_zero n). apply csum_ext. intros i I. rewrite H by assumption. creal. Qed.
Lemma inv3_delta g a b c v y x z : in_grid g a b c ->
  inv3 g (delta a b c v) y x z = cmul v (cis (angle (s_ny g) a y + angle (s_nx g) b x + angle (s_nz g) c z)).
Proof.
  intros (A & B & C). unfold inv3, delta.
  assert (E : forall p q : nat, p <> q -> (p =? q)%nat = false) by (intros; apply Nat.eqb_neq; assumption).
  rewrite (finv_single (s_ny g) _ a y A) by (intros k K N; apply finv_zero; intros; apply finv_zero; intros; rewrite (E _ _ N); reflexivity).
  rewrite (finv_single (s_nx g) _ b x B) by (intros k K N; apply finv_zero; intros; rewrite (E _ _ N), andb_false_r; reflexivity).
  rewrite (finv_single (s_nz g) _ c z C) by (intros k K N; rewrite (E _ _ N), andb_false_r; reflexivity).
  rewrite !Nat.eqb_refl. cbn [andb]. rewrite !cis_add. creal.
Qed.
Lemma cis_ix N k j : (0 < N)%nat -> cis (angle N (ix N k) j) = cis (angleZ N k j).
Proof.
  intros H. rewrite angle_Z. unfold ix. pose proof (Z.mod_pos_bound k (Z.of_nat N) ltac:(lia)). rewrite Z2Nat.id by lia.
  rewrite <- (cis_period (angleZ N (k mod Z.of_nat N) j) (k / Z.of_nat N * Z.of_nat j)). f_equal. unfold angleZ.
  pose proof (Z.div_mod k (Z.of_nat N) ltac:(lia)) as D. apply (f_equal IZR) in D. rewrite plus_IZR, mult_IZR, <- (INR_IZR_INZ N) in D. rewrite D, mult_IZR, <- INR_IZR_INZ.
  pose proof (lt_0_INR N H). field. lra.
Qed.
Definition mdelta (g : sgrid) (nx ny nz : Z) (v : cplx) : afield := delta (ix (s_ny g) ny) (ix (s_nx g) nx) (ix (s_nz g) nz) v.
Lemma ix_grid g nx ny nz : ok_grid3 g -> in_grid g (ix (s_ny g) ny) (ix (s_nx g) nx) (ix (s_nz g) nz).
Proof. intros (? & ? & ? & _). repeat split; apply ix_lt; assumption. Qed.
Lemma inv3_mdelta g nx ny nz v y x z : ok_grid3 g -> inv3 g (mdelta g nx ny nz v) y x z = cmul v (cis (phase g nx ny nz y x z)).
Proof.
  intros G. unfold mdelta. rewrite inv3_delta by (apply ix_grid; assumption). f_equal. destruct G as (? & ? & ? & _). rewrite !cis_add, !cis_ix by assumption. rewrite <- !cis_add. f_equal.
  unfold angleZ, phase. pose proof (lt_0_INR _ H). pose proof (lt_0_INR _ H0). pose proof (lt_0_INR _ H1). field. lra.
Qed.

Lemma set_mode_at g h nx ny nz v : ok_grid3 g -> resolved3 g nx ny nz ->
  set_mode g h nx ny nz v = fun y x z => if ((y =? ix (s_ny g) ny) && (x =? ix (s_nx g) nx) && (z =? ix (s_nz g) nz))%nat%bool then v else h y x z.
Proof.
  intros (? & ? & ? & _) (A & B & C). unfold resolved in *. unfold set_mode, set3. rewrite !at_index_mode by lia. reflexivity.
Qed.
Lemma set3_origin g h v : ok_grid3 g -> set3 g h 0 0 0 v = fun y x z => if orig y x z then v else h y x z.
Proof.
  intros (? & ? & ? & _). unfold set3, at_index, inb. cbn [Z.ltb Z.compare Z.leb].
  destruct (Z.ltb_spec 0 (Z.of_nat (s_ny g))), (Z.ltb_spec 0 (Z.of_nat (s_nx g))), (Z.ltb_spec 0 (Z.of_nat (s_nz g))); try lia. reflexivity.
Qed.
Lemma resolved_opp N k : resolved N k -> resolved N (- k).
Proof. unfold resolved. lia. Qed.
Lemma resolved3_opp g nx ny nz : resolved3 g nx ny nz -> resolved3 g (- nx) (- ny) (- nz).
Proof. intros (? & ? & ?). repeat split; apply resolved_opp; assumption. Qed.
Lemma resolved3_0 g : ok_grid3 g -> resolved3 g 0 0 0.
Proof. intros (? & ? & ? & _). unfold resolved3, resolved. lia. Qed.

(** The three entries written are distinct. *)
Lemma hit_eq g nx ny nz mx my mz y x z : ok_grid3 g -> resolved3 g nx ny nz -> resolved3 g mx my mz ->
  ((y =? ix (s_ny g) ny) && (x =? ix (s_nx g) nx) && (z =? ix (s_nz g) nz))%nat%bool = true ->
  ((y =? ix (s_ny g) my) && (x =? ix (s_nx g) mx) && (z =? ix (s_nz g) mz))%nat%bool = true -> nx = mx /\ ny = my /\ nz = mz.
Proof.
  intros (P & Q & R & _) (A & B & C) (A' & B' & C') H H'. apply andb_prop in H as (H & H3). apply andb_prop in H as (H1 & H2). apply andb_prop in H' as (H' & H3'). apply andb_prop in H' as (H1' & H2').
  apply Nat.eqb_eq in H1, H2, H3, H1', H2', H3'. unfold resolved in *.
  split; [|split]; [apply (ix_inj (s_nx g))|apply (ix_inj (s_ny g))|apply (ix_inj (s_nz g))]; try assumption; try lia; congruence.
Qed.
Definition nonzero (nx ny nz : Z) : Prop := (nx, ny, nz) <> (0, 0, 0)%Z.
Lemma electrons_at g alpha nx ny nz dn : ok_grid3 g -> resolved3 g nx ny nz -> nonzero nx ny nz ->
  forall y x z, init_electrons g alpha nx ny nz dn 0%nat 0%nat 0%nat y x z =
    mdelta g 0 0 0 (1 / alpha ^ 3, 0) y x z +c mdelta g nx ny nz (0, - (1 / (2 * alpha ^ 3) * dn)) y x z +c mdelta g (- nx) (- ny) (- nz) (0, 1 / (2 * alpha ^ 3) * dn) y x z.
Proof.
  intros G R NZ y x z. unfold init_electrons. cbn [Nat.eqb andb]. rewrite set3_origin by assumption. rewrite set_mode_at by assumption. rewrite set_mode_at by (try assumption; apply resolved3_opp; assumption).
  unfold mdelta, delta. rewrite !ix_0. change ((y =? 0) && (x =? 0) && (z =? 0))%nat%bool with (orig y x z).
  pose proof (hit_eq g nx ny nz (- nx) (- ny) (- nz) y x z G R (resolved3_opp _ _ _ _ R)) as H1.
  pose proof (hit_eq g nx ny nz 0 0 0 y x z G R (resolved3_0 g G)) as H2.
  pose proof (hit_eq g (- nx) (- ny) (- nz) 0 0 0 y x z G (resolved3_opp _ _ _ _ R) (resolved3_0 g G)) as H3.
  rewrite !ix_0 in H2, H3. change ((y =? 0) && (x =? 0) && (z =? 0))%nat%bool with (orig y x z) in H2, H3.
  unfold nonzero in NZ.
  destruct ((y =? ix (s_ny g) ny) && (x =? ix (s_nx g) nx) && (z =? ix (s_nz g) nz))%nat%bool, ((y =? ix (s_ny g) (- ny)) && (x =? ix (s_nx g) (- nx)) && (z =? ix (s_nz g) (- nz)))%nat%bool, (orig y x z);
    try (exfalso; apply NZ; repeat f_equal; (destruct H1 as (? & ? & ?); [reflexivity|reflexivity|lia]) || (destruct H2 as (? & ? & ?); [reflexivity|reflexivity|lia]) || (destruct H3 as (? & ? & ?); [reflexivity|reflexivity|lia])); creal.
Qed.

Lemma phase_opp g nx ny nz y x z : phase g (- nx) (- ny) (- nz) y x z = - phase g nx ny nz y x z.
Proof. unfold phase. rewrite !opp_IZR. unfold Rdiv. ring. Qed.
Lemma phase_0 g y x z : phase g 0 0 0 y x z = 0.
Proof. unfold phase, Rdiv. ring. Qed.
Lemma inv3_add g f h y x z : inv3 g (fun y x z => f y x z +c h y x z) y x z = inv3 g f y x z +c inv3 g h y x z.
Proof.
  transitivity (inv3 g (fun y x z => 1 *c f y x z +c 1 *c h y x z) y x z); [apply inv3_ext; intros; creal|]. rewrite inv3_lin. creal.
Qed.

(** The initial electron distribution in real space is the equilibrium 1 / alpha^3 times 1 + dn sin(k . x), exactly and real,
    for every resolved mode vector (oblique and negative ones included); the ions are uniform. *)
Theorem C89_initial_density : forall g alpha nx ny nz dn y x z, ok_grid3 g -> resolved3 g nx ny nz -> nonzero nx ny nz -> alpha <> 0 ->
  inv3 g (init_electrons g alpha nx ny nz dn 0%nat 0%nat 0%nat) y x z = ((1 + dn * sin (phase g nx ny nz y x z)) / alpha ^ 3, 0) /\
  inv3 g (init_ions g alpha 0%nat 0%nat 0%nat) y x z = (1 / alpha ^ 3, 0) /\
  (forall p m n, (p, m, n) <> (0, 0, 0)%nat -> init_electrons g alpha nx ny nz dn p m n y x z = c0 /\ init_ions g alpha p m n y x z = c0).
Proof.
  intros g alpha nx ny nz dn y x z G R NZ Al. split; [|split].
  - rewrite (inv3_ext g _ (fun y x z => (mdelta g 0 0 0 (1 / alpha ^ 3, 0) y x z +c mdelta g nx ny nz (0, - (1 / (2 * alpha ^ 3) * dn)) y x z) +c mdelta g (- nx) (- ny) (- nz) (0, 1 / (2 * alpha ^ 3) * dn) y x z))
      by (intros; apply electrons_at; assumption).
    rewrite (inv3_add g (fun y x z => mdelta g 0 0 0 (1 / alpha ^ 3, 0) y x z +c mdelta g nx ny nz (0, - (1 / (2 * alpha ^ 3) * dn)) y x z) (mdelta g (- nx) (- ny) (- nz) (0, 1 / (2 * alpha ^ 3) * dn))).
    rewrite (inv3_add g (mdelta g 0 0 0 (1 / alpha ^ 3, 0)) (mdelta g nx ny nz (0, - (1 / (2 * alpha ^ 3) * dn)))).
    rewrite !inv3_mdelta by assumption. rewrite phase_opp, phase_0, cis_neg, cis_0.
    apply cplx_eq; unfold cadd, cmul, conj, cis, c1; cbn [fst snd]; field; assumption.
  - rewrite (inv3_ext g _ (mdelta g 0 0 0 (1 / alpha ^ 3, 0))).
    + rewrite inv3_mdelta by assumption. rewrite phase_0, cis_0. creal.
    + intros. unfold init_ions. cbn [Nat.eqb andb]. rewrite set3_origin by assumption. unfold mdelta, delta. rewrite !ix_0. reflexivity.
  - intros p m n H. unfold init_electrons, init_ions. destruct p, m, n; try (split; reflexivity). contradiction H; reflexivity.
Qed.
Print Assumptions C89_initial_density.

(** The initial field in real space: one component, 2 amp cos(k . x); every other component is zero. *)
Theorem C89_initial_field : forall g Om nx ny nz dn i y x z, ok_grid3 g -> resolved3 g nx ny nz -> (nx + ny + nz <> 0)%Z -> Om <> 0 ->
  inv3 g (init_fields g Om nx ny nz dn i) y x z =
  if match at_index 6 (Z.sgn ny + 2 * Z.sgn nz) with Some j => (i =? j)%nat | None => false end
  then (2 * (dn * (s_lx g * IZR (Z.sgn nx) + s_ly g * IZR (Z.sgn ny) + s_lz g * IZR (Z.sgn nz)) / (4 * PI * IZR (nx + ny + nz) * Om)) * cos (phase g nx ny nz y x z), 0)
  else c0.
Proof.
  intros g Om nx ny nz dn i y x z G R N O. unfold init_fields, e_comp. destruct (Z.eqb_spec (nx + ny + nz) 0); [contradiction|]. destruct (Req_EM_T Om 0); [contradiction|]. cbn [orb].
  destruct (at_index 6 (Z.sgn ny + 2 * Z.sgn nz)) as [j|]; [|apply inv3_zero; reflexivity].
  destruct (i =? j)%nat; [|apply inv3_zero; reflexivity].
  rewrite set_mode_at by assumption. rewrite set_mode_at by (try assumption; apply resolved3_opp; assumption).
  fold (sgR nx) (sgR ny) (sgR nz). fold (amp g Om nx ny nz dn). generalize (amp g Om nx ny nz dn). intros v.
  rewrite (inv3_ext g _ (fun y x z => mdelta g nx ny nz (v, 0) y x z +c mdelta g (- nx) (- ny) (- nz) (v, 0) y x z)).
  - rewrite (inv3_add g (mdelta g nx ny nz (v, 0)) (mdelta g (- nx) (- ny) (- nz) (v, 0))). rewrite !inv3_mdelta by assumption. rewrite phase_opp, cis_neg. apply cplx_eq; unfold cadd, cmul, conj, cis; cbn [fst snd]; ring.
  - intros y' x' z' _ _ _. unfold mdelta, delta. pose proof (hit_eq g nx ny nz (- nx) (- ny) (- nz) y' x' z' G R (resolved3_opp _ _ _ _ R)) as H1.
    destruct ((y' =? ix (s_ny g) ny) && (x' =? ix (s_nx g) nx) && (z' =? ix (s_nz g) nz))%nat%bool, ((y' =? ix (s_ny g) (- ny)) && (x' =? ix (s_nx g) (- nx)) && (z' =? ix (s_nz g) (- nz)))%nat%bool; try creal.
    all: exfalso; destruct H1 as (? & ? & ?); [reflexivity|reflexivity|]; lia.
Qed.
Print Assumptions C89_initial_field.
