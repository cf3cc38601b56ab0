(** Set-up of spectrax-1d: configurations for which the initial condition is wrong, the time quantities, the adaptive step
    limit, the sponge profile, the reported units. *)
From Coq Require Import Reals Lra Lia ZArith List Bool Arith.
From Verif Require Import SpxInit Tf1dProps SpxProps SpxLaws SpxMore PicProofs VGridProofs SpxInitProps SpxInitMore.
From Verif Require Import Dft.
Local Open Scope R_scope.
Local Open Scope cx_scope.

Lemma hit_self g nx ny nz : hit g nx ny nz (ix (s_ny g) ny) (ix (s_nx g) nx) (ix (s_nz g) nz) = true.
Proof. unfold hit. rewrite !Nat.eqb_refl. reflexivity. Qed.
Lemma hit_other g nx ny nz mx my mz y x z : ok_grid3 g -> resolved3 g nx ny nz -> resolved3 g mx my mz -> ~ (nx = mx /\ ny = my /\ nz = mz) ->
  hit g nx ny nz y x z = true -> hit g mx my mz y x z = false.
Proof. intros G R R' D H. destruct (hit g mx my mz y x z) eqn:E; [|reflexivity]. exfalso. apply D. apply (hit_eq g nx ny nz mx my mz y x z); assumption. Qed.

(** Gauss's law at the wavevector of the perturbation, for any mode numbers whose sum is not zero: the exact residual. *)
Lemma gauss_at_mode c A nx ny nz dn : let g := x_g c in ok_grid3 g -> resolved3 g nx ny nz -> (nx + ny + nz <> 0)%Z ->
  isotropic (a_al A) -> a_q A 0%nat = -1 -> a_q A 1%nat = 1 -> a_Om A <> 0 ->
  gauss c A (spx_init g A nx ny nz dn) (ix (s_ny g) ny) (ix (s_nx g) nx) (ix (s_nz g) nz) =
  (0, a_Om A * amp g (a_Om A) nx ny nz dn * 2 * PI * match at_index 6 (e_comp ny nz) with
      | Some 0%nat => IZR nx / s_lx g | Some 1%nat => IZR ny / s_ly g | Some 2%nat => IZR nz / s_lz g | _ => 0 end - dn / 2).
Proof.
  intros g G R Sn Iso Qe Qi Om. set (y := ix (s_ny g) ny). set (x := ix (s_nx g) nx). set (z := ix (s_nz g) nz).
  assert (NZ : nonzero nx ny nz) by (unfold nonzero; intros E; injection E; lia).
  assert (H : hit g nx ny nz y x z = true) by apply hit_self.
  unfold gauss. fold g. rewrite init_charge by assumption. unfold div. cbn [f_k spx_init]. rewrite !fields_at by assumption. rewrite Qe, Qi.
  rewrite (hit_other g nx ny nz 0 0 0 y x z G R (resolved3_0 g G)) by (try assumption; lia). rewrite H. cbn [orb].
  destruct (hit_nab g nx ny nz y x z G R H) as (-> & -> & ->). generalize (amp g (a_Om A) nx ny nz dn). intros v.
  destruct Iso as (A0 & A3 & A1 & A2 & A4 & A5). unfold vol3, ions. cbn [Nat.add]. rewrite A1, A2, A4, A5. destruct G as (_ & _ & _ & LX & LY & LZ).
  destruct (at_index 6 (e_comp ny nz)) as [[|[|[|k]]]|]; cbn [Nat.eqb]; apply cplx_eq; unfold csub, cneg, cadd, cmul, cscal, cI, c0; cbn [fst snd]; field; repeat split; assumption.
Qed.
(** An oblique perturbation in the x-y plane: only Ey is set, and Gauss's law is violated unless ny Lx = nx Ly. *)
Theorem C89_oblique_refuted : forall c A nx ny dn, let g := x_g c in ok_grid3 g -> resolved3 g nx ny 0 -> (0 < nx)%Z -> (0 < ny)%Z ->
  isotropic (a_al A) -> a_q A 0%nat = -1 -> a_q A 1%nat = 1 -> a_Om A <> 0 ->
  gauss c A (spx_init g A nx ny 0 dn) (ix (s_ny g) ny) (ix (s_nx g) nx) (ix (s_nz g) 0) =
    (0, dn / 2 * (IZR ny * s_lx g - IZR nx * s_ly g) / (s_ly g * IZR (nx + ny))) /\
  forall y x z, f_k (spx_init g A nx ny 0 dn) 0%nat y x z = c0.
Proof.
  intros c A nx ny dn g G R Px Py Iso Qe Qi Om. split.
  - unfold g; rewrite (gauss_at_mode c A nx ny 0 dn G R) by (try assumption; lia). fold g. unfold e_comp, amp, sgR. rewrite (Z.sgn_pos ny Py), (Z.sgn_pos nx Px). 
    match goal with |- context [at_index 6 ?e] => change (at_index 6 e) with (Some 1%nat) end. change (Z.sgn 0) with 0%Z. rewrite Z.add_0_r, plus_IZR.
    assert (0 < IZR nx) by (apply IZR_lt; assumption). assert (0 < IZR ny) by (apply IZR_lt; assumption).
    destruct G as (_ & _ & _ & LX & LY & LZ). apply cplx_eq; cbn [fst snd]; [reflexivity|]. pose proof PI_neq0. field. repeat split; (assumption || lra).
  - intros y x z. cbn [f_k spx_init]. rewrite fields_at by (try assumption; lia). unfold e_comp. rewrite (Z.sgn_pos ny Py).
    match goal with |- context [at_index 6 ?e] => change (at_index 6 e) with (Some 1%nat) end. reflexivity.
Qed.
Print Assumptions C89_oblique_refuted.
(** A negative mode number along x flips the density but not the field: the residual is -i dn, twice the charge. *)
Theorem C89_negative_refuted : forall c A nx dn, let g := x_g c in ok_grid3 g -> resolved3 g nx 0 0 -> (nx < 0)%Z ->
  isotropic (a_al A) -> a_q A 0%nat = -1 -> a_q A 1%nat = 1 -> a_Om A <> 0 ->
  gauss c A (spx_init g A nx 0 0 dn) (ix (s_ny g) 0) (ix (s_nx g) nx) (ix (s_nz g) 0) = (0, - dn).
Proof.
  intros c A nx dn g G R Px Iso Qe Qi Om. unfold g; rewrite (gauss_at_mode c A nx 0 0 dn G R) by (try assumption; lia). fold g. unfold e_comp, amp, sgR. rewrite (Z.sgn_neg nx Px).
  match goal with |- context [at_index 6 ?e] => change (at_index 6 e) with (Some 0%nat) end. change (Z.sgn 0) with 0%Z. rewrite !Z.add_0_r.
  assert (IZR nx < 0) by (apply IZR_lt; assumption).
  destruct G as (_ & _ & _ & LX & LY & LZ). apply cplx_eq; cbn [fst snd]; [reflexivity|]. pose proof PI_neq0. field. repeat split; (assumption || lra).
Qed.
Print Assumptions C89_negative_refuted.
(** With ny, nz > 0 the "electric" perturbation is written into Bx, with ny < 0 = nz into Bz, and E is zero. *)
Theorem C89_magnetic_refuted : forall g Om nx ny nz dn i y x z, ok_grid3 g -> resolved3 g nx ny nz -> (nx + ny + nz <> 0)%Z -> Om <> 0 ->
  (0 < ny /\ 0 < nz \/ ny < 0 /\ nz = 0)%Z ->
  ((i < 3)%nat -> init_fields g Om nx ny nz dn i y x z = c0) /\
  (hit g nx ny nz y x z = true -> init_fields g Om nx ny nz dn (if (ny <? 0)%Z then 5 else 3)%nat y x z = (amp g Om nx ny nz dn, 0)).
Proof.
  intros g Om nx ny nz dn i y x z G R Sn O C.
  assert (E : at_index 6 (e_comp ny nz) = Some (if (ny <? 0)%Z then 5 else 3)%nat).
  { unfold e_comp. destruct C as [(P & Q)|(P & ->)].
    - rewrite (Z.sgn_pos ny P), (Z.sgn_pos nz Q). destruct (Z.ltb_spec ny 0); [lia|reflexivity].
    - rewrite (Z.sgn_neg ny P). destruct (Z.ltb_spec ny 0); [reflexivity|lia]. }
  split.
  - intros I. rewrite fields_at by assumption. rewrite E. destruct (ny <? 0)%Z; destruct i as [|[|[|i]]]; try lia; reflexivity.
  - intros H. rewrite fields_at by assumption. rewrite E, Nat.eqb_refl, H. reflexivity.
Qed.
Print Assumptions C89_magnetic_refuted.
(** Mode numbers (0,0,0): the equilibrium is overwritten by -i dn / (2 alpha^3), whatever the grid. *)
Theorem C89_uniform_refuted : forall g alpha dn, ok_grid3 g -> init_electrons g alpha 0 0 0 dn 0%nat 0%nat 0%nat 0%nat 0%nat 0%nat = (0, - (1 / (2 * alpha ^ 3) * dn)).
Proof.
  intros g alpha dn G. unfold init_electrons. cbn [Nat.eqb andb]. rewrite set_mode_at by (try assumption; apply resolved3_0; assumption). rewrite !ix_0. reflexivity.
Qed.
Print Assumptions C89_uniform_refuted.
(** nx = Nx (not resolved): the -k entry lands on the equilibrium, the +k entry is dropped. *)
Theorem C89_unresolved_refuted : forall g alpha dn, ok_grid3 g ->
  init_electrons g alpha (Z.of_nat (s_nx g)) 0 0 dn 0%nat 0%nat 0%nat 0%nat 0%nat 0%nat = (0, 1 / (2 * alpha ^ 3) * dn) /\
  forall y x z, orig y x z = false -> init_electrons g alpha (Z.of_nat (s_nx g)) 0 0 dn 0%nat 0%nat 0%nat y x z = c0.
Proof.
  intros g alpha dn G. pose proof G as (P & Q & R & _).
  assert (E : forall h v, set_mode g h (Z.of_nat (s_nx g)) 0 0 v = h).
  { intros h v. unfold set_mode, set3. replace (at_index (s_nx g) (fft_index (Z.of_nat (s_nx g)) (s_nx g))) with (@None nat).
    - destruct (at_index (s_ny g) _); reflexivity.
    - unfold at_index, fft_index, inb. destruct (Z.leb_spec 0 (Z.of_nat (s_nx g))); [|lia]. destruct (Z.ltb_spec (Z.of_nat (s_nx g)) 0); [lia|]. rewrite Z.ltb_irrefl, andb_false_r. reflexivity. }
  assert (F : forall h v y x z, set_mode g h (- Z.of_nat (s_nx g)) (- 0) (- 0) v y x z = if orig y x z then v else h y x z).
  { intros h v y x z. unfold set_mode, set3. change (- 0)%Z with 0%Z. rewrite !at_index_mode by lia.
    replace (- Z.of_nat (s_nx g))%Z with (0 + (-1) * Z.of_nat (s_nx g))%Z by lia. rewrite Z_mod_plus by lia. fold (ix (s_ny g) 0) (ix (s_nx g) 0) (ix (s_nz g) 0). rewrite !ix_0. reflexivity. }
  unfold init_electrons. cbn [Nat.eqb andb]. rewrite E, set3_origin by assumption. split.
  - rewrite F. reflexivity.
  - intros y x z B. rewrite F, B. reflexivity.
Qed.
Print Assumptions C89_unresolved_refuted.
(** The Nyquist mode 2 nx = Nx: +k and -k are the same entry, the last write wins, and the density is not real. *)
Theorem C89_nyquist_refuted : forall g alpha nx dn x, ok_grid3 g -> s_ny g = 1%nat -> s_nz g = 1%nat -> (0 < nx)%nat -> (2 * nx = s_nx g)%nat -> alpha <> 0 ->
  snd (inv3 g (init_electrons g alpha (Z.of_nat nx) 0 0 dn 0%nat 0%nat 0%nat) 0%nat x 0%nat) = - dn / (2 * alpha ^ 3) * cos (PI * INR x).
Proof.
  intros g alpha nx dn x G Ey Ez P N Al. pose proof G as (X & Y & Z & _).
  assert (I1 : ix (s_nx g) (Z.of_nat nx) = nx) by (unfold ix; rewrite Z.mod_small by lia; lia).
  assert (I2 : ix (s_nx g) (- Z.of_nat nx) = nx) by (unfold ix; rewrite <- (Z_mod_plus _ 1) by lia; rewrite Z.mod_small by lia; lia).
  rewrite (inv3_ext g _ (fun y x z => mdelta g 0 0 0 (1 / alpha ^ 3, 0) y x z +c mdelta g (Z.of_nat nx) 0 0 (0, - (1 / (2 * alpha ^ 3) * dn)) y x z)).
  - rewrite (inv3_add g (mdelta g 0 0 0 (1 / alpha ^ 3, 0)) (mdelta g (Z.of_nat nx) 0 0 (0, - (1 / (2 * alpha ^ 3) * dn)))). rewrite !inv3_mdelta by assumption. rewrite phase_0, cis_0.
    replace (phase g (Z.of_nat nx) 0 0 0 x 0) with (PI * INR x).
    + unfold cadd, cmul, cis, c1. cbn [fst snd]. field. assumption.
    + unfold phase. rewrite Ey, Ez. rewrite <- INR_IZR_INZ. apply (f_equal INR) in N. rewrite mult_INR in N. change (INR 2) with 2 in N. change (INR 0) with 0. change (INR 1) with 1. rewrite <- N. pose proof (lt_0_INR nx P). field. lra.
  - intros y' x' z' _ _ _. unfold init_electrons. cbn [Nat.eqb andb]. rewrite set3_origin by assumption. unfold set_mode, set3. change (- 0)%Z with 0%Z. rewrite !at_index_mode by lia.
    fold (ix (s_ny g) 0) (ix (s_nx g) (Z.of_nat nx)) (ix (s_nx g) (- Z.of_nat nx)) (ix (s_nz g) 0). unfold mdelta, delta. rewrite !ix_0, I1, I2. unfold orig.
    destruct (y' =? 0)%nat, (z' =? 0)%nat; cbn [andb]; rewrite ?andb_true_r, ?andb_false_r; try (destruct (Nat.eqb_spec x' nx), (Nat.eqb_spec x' 0); cbn [andb]; try lia); creal.
Qed.
Print Assumptions C89_nyquist_refuted.
(** Thermal speeds that are not isotropic: the plasma is not neutral. The residual of Gauss's law at k = 0. *)
Theorem C89_anisotropic_refuted : forall c A nx ny nz dn, let g := x_g c in ok_grid3 g -> resolved3 g nx ny nz -> nonzero nx ny nz -> ok_al (a_al A) -> ok_al (ions (a_al A)) ->
  a_q A 0%nat = -1 -> a_q A 1%nat = 1 ->
  gauss c A (spx_init g A nx ny nz dn) 0 0 0 =
    (a_al A 1%nat * a_al A 2%nat / a_al A 0%nat ^ 2 - a_al A 4%nat * a_al A 5%nat / a_al A 3%nat ^ 2, 0).
Proof.
  intros c A nx ny nz dn g G R NZ (A0 & A1 & A2) (A3 & _ & _) Qe Qi. unfold gauss. fold g. rewrite init_charge by assumption. unfold div. rewrite !nab_0 by assumption.
  assert (H : hit g 0 0 0 0 0 0 = true) by (unfold hit; rewrite !ix_0; reflexivity). rewrite H, Qe, Qi. unfold vol3, ions in *. cbn [Nat.add] in *.
  apply cplx_eq; unfold csub, cneg, cadd, cmul, cscal, cI; cbn [fst snd]; field; auto.
Qed.
Print Assumptions C89_anisotropic_refuted.

(* ------------------------------------------------------------------------------------------------ *)
(** * Time quantities *)
Lemma trunc_bounds x : 0 <= x -> IZR (trunc x) <= x < IZR (trunc x) + 1 /\ (0 <= trunc x)%Z.
Proof.
  intros H. rewrite trunc_pos by assumption. destruct (floor_spec x) as (A & B). repeat split; try assumption.
  assert (IZR (-1) < IZR (floor x)) by (cbn; lra). apply lt_IZR in H0. lia.
Qed.
(** dt given: an integer number nt >= 1 of steps dt covers the requested interval and overshoots it by at most one step; dt not
    given: nt steps cover it exactly. The step limit leaves room for all the steps unless nt is about a million. *)
Theorem C89_time : forall t, 0 < ti_tmax t ->
  (forall dt, ti_dt t = Some dt -> 0 < dt ->
     to_dt (spx_time t) = dt /\ (1 <= to_nt (spx_time t))%Z /\ to_tmax (spx_time t) = dt * IZR (to_nt (spx_time t)) /\
     ti_tmax t < to_tmax (spx_time t) <= ti_tmax t + dt) /\
  (ti_dt t = None -> (match ti_nt t with Some n => (0 < n)%Z | None => True end) ->
     to_tmax (spx_time t) = ti_tmax t /\ to_nt (spx_time t) = match ti_nt t with Some n => n | None => 501%Z end /\ 0 < to_dt (spx_time t)) /\
  ((to_nt (spx_time t) <= 999996)%Z -> (0 <= to_nt (spx_time t))%Z -> (to_nt (spx_time t) + 4 <= to_max_steps (spx_time t))%Z) /\
  (to_max_steps (spx_time t) <= 1000000)%Z.
Proof.
  intros t Ht. split; [|split; [|split]].
  - intros dt E P. unfold spx_time. rewrite E. cbn [to_dt to_nt to_tmax].
    destruct (trunc_bounds (ti_tmax t / dt)) as ((L & U) & Z0); [apply Rlt_le, Rdiv_lt_0_compat; assumption|].
    repeat split; [lia| |]; rewrite plus_IZR.
    + apply (Rmult_lt_compat_l dt) in U; [|assumption]. replace (dt * (ti_tmax t / dt)) with (ti_tmax t) in U by (field; lra). exact U.
    + apply (Rmult_le_compat_l dt) in L; [|lra]. replace (dt * (ti_tmax t / dt)) with (ti_tmax t) in L by (field; lra). lra.
  - intros E N. unfold spx_time. rewrite E. cbn [to_dt to_nt to_tmax]. set (n := match ti_nt t with Some n => n | None => 501%Z end).
    assert (P : 0 < IZR n) by (apply IZR_lt; unfold n; destruct (ti_nt t); lia). repeat split; [field; lra|]. apply Rdiv_lt_0_compat; assumption.
  - intros N N0. unfold spx_time in *. destruct (match ti_dt t with None => _ | Some dt => _ end) as (dt, nt). cbn [to_nt to_max_steps] in *.
    set (k := match ti_adaptive t with Some true => 100%Z | _ => 1%Z end). assert (1 <= k)%Z by (unfold k; destruct (ti_adaptive t) as [[|]|]; lia).
    destruct (Z.ltb_spec 1000000 (nt * k + 4)); nia.
  - unfold spx_time. destruct (match ti_dt t with None => _ | Some dt => _ end) as (dt, nt). cbn [to_max_steps]. destruct (Z.ltb_spec 1000000 (nt * (match ti_adaptive t with Some true => 100 | _ => 1 end) + 4)); lia.
Qed.
Print Assumptions C89_time.
Example ex_C89_time : 0 < ti_tmax {| ti_tmax := 10; ti_dt := Some (1 / 10); ti_nt := None; ti_adaptive := None |}.
Proof. cbn. lra. Qed.
(** The call is not idempotent: each further call adds one step and lengthens the run by dt. *)
Theorem C89_time_again_refuted : forall t, 0 < to_dt (spx_time t) -> (0 < to_nt (spx_time t))%Z ->
  to_nt (spx_time (again t)) = (to_nt (spx_time t) + 1)%Z /\ to_tmax (spx_time (again t)) = to_tmax (spx_time t) + to_dt (spx_time t).
Proof.
  intros t P N. assert (E : to_tmax (spx_time t) = to_dt (spx_time t) * IZR (to_nt (spx_time t))) by (unfold spx_time; destruct (match ti_dt t with None => _ | Some dt => _ end) as (dt, nt); reflexivity).
  unfold again. remember (spx_time t) as o eqn:Eo. clear Eo. unfold spx_time. cbn [ti_dt ti_tmax ti_nt ti_adaptive to_nt to_tmax].
  assert (Q : to_tmax o / to_dt o = IZR (to_nt o)) by (rewrite E; field; lra). rewrite Q.
  assert (T : trunc (IZR (to_nt o)) = to_nt o).
  { destruct (trunc_bounds (IZR (to_nt o))) as ((L & U) & _); [apply (IZR_le 0); lia|]. apply le_IZR in L. rewrite <- plus_IZR in U. apply lt_IZR in U. lia. }
  rewrite T. split; [reflexivity|]. rewrite plus_IZR, E. ring.
Qed.
Print Assumptions C89_time_again_refuted.
(** The default save axis ends at tmax but its spacing is dt nt / (nt - 1), not dt: its points are not the step times. *)
Theorem C89_axis_refuted : forall t, 0 < to_dt (spx_time t) -> (2 <= to_nt (spx_time t))%Z ->
  t_axis t (Z.to_nat (to_nt (spx_time t)) - 1) = to_tmax (spx_time t) /\
  (forall i, t_axis t (S i) - t_axis t i = to_dt (spx_time t) * (IZR (to_nt (spx_time t)) / (IZR (to_nt (spx_time t)) - 1))) /\
  t_axis t 1 <> to_dt (spx_time t).
Proof.
  intros t P N. assert (E : to_tmax (spx_time t) = to_dt (spx_time t) * IZR (to_nt (spx_time t))) by (unfold spx_time; destruct (match ti_dt t with None => _ | Some dt => _ end) as (dt, nt); reflexivity).
  unfold t_axis, linspace. rewrite E. set (nt := to_nt (spx_time t)) in *. set (dt := to_dt (spx_time t)) in *. clearbody nt dt.
  destruct (Nat.leb_spec (Z.to_nat nt) 1); [lia|].
  assert (I : INR (Z.to_nat nt - 1) = IZR nt - 1) by (rewrite minus_INR by lia; rewrite INR_IZR_INZ, Z2Nat.id by lia; reflexivity). rewrite I.
  assert (2 <= IZR nt) by (apply (IZR_le 2); assumption).
  split; [|split].
  - field. lra.
  - intros i. rewrite S_INR. field. lra.
  - change (INR 1) with 1. intros F. apply (Rmult_eq_compat_r (IZR nt - 1)) in F. replace ((0 + (dt * IZR nt - 0) * 1 / (IZR nt - 1)) * (IZR nt - 1)) with (dt * IZR nt) in F by (field; lra). lra.
Qed.
Print Assumptions C89_axis_refuted.
(** More than a million steps: the run needs nt steps and is allowed only 10^6. On the explicit path the default is adaptive
    stepping, but the step limit was computed with the default False, so it has no headroom. *)
Theorem C89_limit_refuted :
  (forall t, (1000000 < to_nt (spx_time t))%Z -> (to_max_steps (spx_time t) < to_nt (spx_time t))%Z) /\
  (forall t, ti_adaptive t = None -> (to_nt (spx_time t) <= 9000)%Z ->
     steps_adaptively false t = true /\ steps_adaptively true t = false /\ to_max_steps (spx_time t) = (to_nt (spx_time t) + 4)%Z /\
     to_max_steps (spx_time {| ti_tmax := ti_tmax t; ti_dt := ti_dt t; ti_nt := ti_nt t; ti_adaptive := Some true |}) = (100 * to_nt (spx_time t) + 4)%Z).
Proof.
  split.
  - intros t N. assert (to_max_steps (spx_time t) <= 1000000)%Z; [|lia]. unfold spx_time. destruct (match ti_dt t with None => _ | Some dt => _ end) as (dt, nt). cbn [to_max_steps].
    destruct (Z.ltb_spec 1000000 (nt * (match ti_adaptive t with Some true => 100 | _ => 1 end) + 4)); lia.
  - intros t A N. unfold steps_adaptively. rewrite A. cbn [negb]. split; [reflexivity|]. split; [reflexivity|].
    unfold spx_time in *. cbn [ti_dt ti_tmax ti_nt ti_adaptive]. rewrite A in *. destruct (match ti_dt t with None => _ | Some dt => _ end) as (dt, nt). cbn [to_nt to_max_steps] in *.
    destruct (Z.ltb_spec 1000000 (nt * 1 + 4)), (Z.ltb_spec 1000000 (nt * 100 + 4)); lia.
Qed.
Print Assumptions C89_limit_refuted.

(** * The adaptive step limit *)
Lemma dtmax_fold ws acc : (forall d, acc = Some d -> True) ->
  match fold_left dtmax_step ws acc with
  | None => ws = [] /\ acc = None
  | Some d => (acc = Some d \/ exists w, In w ws /\ d = 2 * PI / (10 * w)) /\ (forall d', acc = Some d' -> d <= d') /\ forall w, In w ws -> d <= 2 * PI / (10 * w)
  end.
Proof.
  revert acc. induction ws as [|w ws IH]; intros acc _; cbn [fold_left].
  - destruct acc as [d|]; [|split; reflexivity]. split; [left; reflexivity|]. split; [intros d' E; injection E; lra|intros w []].
  - specialize (IH (dtmax_step acc w) ltac:(trivial)). unfold dtmax_step in *.
    assert (D : exists d0, (match acc with None => Some (2 * PI / (10 * w)) | Some d => if Rlt_dec (2 * PI / (10 * w)) d then Some (2 * PI / (10 * w)) else acc end) = Some d0 /\
      d0 <= 2 * PI / (10 * w) /\ (forall d', acc = Some d' -> d0 <= d') /\ (acc = Some d0 \/ d0 = 2 * PI / (10 * w))).
    { destruct acc as [d|].
      - destruct (Rlt_dec (2 * PI / (10 * w)) d) as [L|L]; eexists; (split; [reflexivity|]).
        + split; [lra|]. split; [intros d' E; injection E; lra|right; reflexivity].
        + split; [lra|]. split; [intros d' E; injection E; lra|left; reflexivity].
      - eexists. split; [reflexivity|]. split; [lra|]. split; [discriminate|right; reflexivity]. }
    destruct D as (d0 & E0 & L0 & M0 & O0). rewrite E0 in *.
    destruct (fold_left _ ws (Some d0)) as [d|] eqn:F.
    + destruct IH as (O & M & L). split; [|split].
      * destruct O as [O|(w' & I & O)]; [injection O as <-; destruct O0 as [O0|O0]; [left; exact O0|right; exists w; split; [left; reflexivity|exact O0]]|right; exists w'; split; [right; exact I|exact O]].
      * intros d' E. specialize (M d0 eq_refl). specialize (M0 d' E). lra.
      * intros w' [<-|I]; [specialize (M d0 eq_refl); lra|apply L; exact I].
    + destruct IH as (_ & E). discriminate E.
Qed.
(** The limit is a tenth of the shortest driver period: every pulse is resolved by at least ten steps, and the limit is
    attained by the fastest one; without drivers there is no limit. *)
Theorem C89_dtmax : forall ws, (forall w, In w ws -> 0 < w) ->
  match dtmax ws with
  | None => ws = []
  | Some d => 0 < d /\ (forall w, In w ws -> 10 * d <= 2 * PI / w) /\ exists w, In w ws /\ 10 * d = 2 * PI / w
  end.
Proof.
  intros ws P. pose proof (dtmax_fold ws None ltac:(trivial)) as H. fold (dtmax ws) in H. destruct (dtmax ws) as [d|]; [|apply H].
  destruct H as (O & _ & L). destruct O as [O|(w & I & O)]; [discriminate O|]. pose proof PI_RGT_0. pose proof (P w I).
  split; [|split].
  - rewrite O. apply Rdiv_lt_0_compat; lra.
  - intros w' I'. specialize (L w' I'). pose proof (P w' I'). replace (2 * PI / w') with (10 * (2 * PI / (10 * w'))) by (field; lra). lra.
  - exists w. split; [exact I|]. rewrite O. field. lra.
Qed.
Print Assumptions C89_dtmax.
Example ex_C89_dtmax : dtmax [1; 2] = Some (2 * PI / (10 * 2)) /\ forall w, In w [1; 2] -> 0 < w.
Proof.
  pose proof PI_RGT_0. split; [|cbn; intros w [<-|[<-|[]]]; lra]. unfold dtmax. cbn [fold_left]. unfold dtmax_step. destruct (Rlt_dec (2 * PI / (10 * 2)) (2 * PI / (10 * 1))) as [_|F]; [reflexivity|]. exfalso. apply F. lra.
Qed.
(** A negative frequency (a wave going the other way) makes the maximum step negative. *)
Theorem C89_dtmax_refuted : forall ws w, In w ws -> w < 0 -> match dtmax ws with Some d => d < 0 | None => False end.
Proof.
  intros ws w I N. pose proof (dtmax_fold ws None ltac:(trivial)) as H. fold (dtmax ws) in H. destruct (dtmax ws) as [d|].
  - destruct H as (_ & _ & L). specialize (L w I). pose proof PI_RGT_0. assert (0 < 2 * PI / (10 * - w)) by (apply Rdiv_lt_0_compat; lra). replace (2 * PI / (10 * w)) with (- (2 * PI / (10 * - w))) in L by (field; lra). lra.
  - destruct H as (-> & _). destruct I.
Qed.
Print Assumptions C89_dtmax_refuted.

(** * The sponge profile *)
Lemma clip_range x : 0 <= clipR x 0 1 <= 1.
Proof. unfold clipR. split; [apply Rmin_glb; [apply Rmax_r|lra]|apply Rmin_r]. Qed.
Lemma clip_low x : x <= 0 -> clipR x 0 1 = 0.
Proof. intros H. unfold clipR. rewrite Rmax_right by assumption. apply Rmin_left. lra. Qed.
Lemma clip_mono x y : x <= y -> clipR x 0 1 <= clipR y 0 1.
Proof. intros H. unfold clipR. apply Rle_min_compat_r, Rle_max_compat_r, H. Qed.
Lemma pow2_mono x y : 0 <= x -> x <= y -> x ^ 2 <= y ^ 2.
Proof. intros. apply pow_incr. split; assumption. Qed.
Lemma tiny_pos : 0 < / 10 ^ 10.
Proof. apply Rinv_0_lt_compat, pow_lt. lra. Qed.
Definition sided (sides : str) : bool := (str_eqb sides (lit "right") || str_eqb sides (lit "left") || str_eqb sides (lit "both"))%bool.
(** The damping rate is between 0 and the strength (even where two layers overlap), zero outside the layers, grows
    towards the right end for "right", and an unrecognised side gives no sponge at all. *)
Theorem C89_sponge : forall Lx s w sides x, 0 < Lx -> 0 <= s -> 0 < w <= 1 -> 0 <= x <= Lx ->
  0 <= sponge_sigma Lx s w sides x <= s /\
  (Lx * w <= x <= Lx * (1 - w) -> sponge_sigma Lx s w sides x = 0) /\
  (forall x', x <= x' -> sponge_sigma Lx s w (lit "right") x <= sponge_sigma Lx s w (lit "right") x') /\
  (forall x', x <= x' -> sponge_sigma Lx s w (lit "left") x' <= sponge_sigma Lx s w (lit "left") x) /\
  (sided sides = false -> sponge_sigma Lx s w sides x = 0).
Proof.
  intros Lx s w sides x PL Ps (Pw & Hw) (X0 & X1). unfold sponge_sigma. pose proof tiny_pos as T. set (tn := / 10 ^ 10) in *. clearbody tn.
  assert (WL : Lx * w <= Lx) by (rewrite <- (Rmult_1_r Lx) at 2; apply Rmult_le_compat_l; lra). assert (0 < Lx * w) by (apply Rmult_lt_0_compat; assumption).
  assert (ER : Lx - Lx * (1 - w) + tn = Lx * w + tn) by ring. assert (DR : 0 < Lx - Lx * (1 - w) + tn) by lra. assert (DL : 0 < Lx * w + tn) by lra.
  assert (B : forall r, 0 <= s * clipR r 0 1 ^ 2 <= s).
  { intros r. pose proof (clip_range r) as CR. assert (0 <= clipR r 0 1 ^ 2 <= 1) by (revert CR; generalize (clipR r 0 1); clear; intros; nra).
    split; [apply Rmult_le_pos; lra|]. rewrite <- (Rmult_1_r s) at 2. apply Rmult_le_compat_l; lra. }
  assert (ZR : x <= Lx * (1 - w) -> s * clipR ((x - Lx * (1 - w)) / (Lx - Lx * (1 - w) + tn)) 0 1 ^ 2 = 0).
  { intros H0. rewrite clip_low; [ring|]. apply Rmult_le_reg_r with (Lx - Lx * (1 - w) + tn); [assumption|]. unfold Rdiv. rewrite Rmult_assoc, Rinv_l by lra. lra. }
  assert (ZL : Lx * w <= x -> s * clipR ((Lx * w - x) / (Lx * w + tn)) 0 1 ^ 2 = 0).
  { intros H0. rewrite clip_low; [ring|]. apply Rmult_le_reg_r with (Lx * w + tn); [assumption|]. unfold Rdiv. rewrite Rmult_assoc, Rinv_l by lra. lra. }
  split; [|split; [|split; [|split]]].
  - set (r := s * clipR ((x - Lx * (1 - w)) / (Lx - Lx * (1 - w) + tn)) 0 1 ^ 2) in *. set (l := s * clipR ((Lx * w - x) / (Lx * w + tn)) 0 1 ^ 2) in *.
    assert (Br : 0 <= r <= s) by apply B. assert (Bl : 0 <= l <= s) by apply B.
    assert (S : r + l <= s).
    { destruct (Rle_or_lt (Lx * w) x); [rewrite ZL by assumption; lra|]. destruct (Rle_or_lt x (Lx * (1 - w))); [rewrite ZR by assumption; lra|].
      unfold r, l. rewrite ER. rewrite <- Rmult_plus_distr_l. rewrite <- (Rmult_1_r s) at 2. apply Rmult_le_compat_l; [assumption|].
      assert (Q1 : 0 <= (x - Lx * (1 - w)) / (Lx * w + tn) <= 1) by (split; [apply Rlt_le, Rdiv_lt_0_compat; lra|apply Rmult_le_reg_r with (Lx * w + tn); [assumption|]; unfold Rdiv; rewrite Rmult_assoc, Rinv_l by lra; lra]).
      assert (Q2 : 0 <= (Lx * w - x) / (Lx * w + tn) <= 1) by (split; [apply Rlt_le, Rdiv_lt_0_compat; lra|apply Rmult_le_reg_r with (Lx * w + tn); [assumption|]; unfold Rdiv; rewrite Rmult_assoc, Rinv_l by lra; lra]).
      rewrite !clip01 by assumption.
      assert (Q3 : (x - Lx * (1 - w)) / (Lx * w + tn) + (Lx * w - x) / (Lx * w + tn) <= 1).
      { apply Rmult_le_reg_r with (Lx * w + tn); [assumption|]. rewrite Rmult_plus_distr_r. unfold Rdiv. rewrite !Rmult_assoc, Rinv_l by lra. lra. }
      revert Q1 Q2 Q3. generalize ((x - Lx * (1 - w)) / (Lx * w + tn)), ((Lx * w - x) / (Lx * w + tn)). intros p q. nra. }
    destruct (str_eqb sides (lit "right") || str_eqb sides (lit "both"))%bool, (str_eqb sides (lit "left") || str_eqb sides (lit "both"))%bool; lra.
  - intros (H0 & H1). rewrite ZR, ZL by assumption. destruct (str_eqb sides (lit "right") || str_eqb sides (lit "both"))%bool, (str_eqb sides (lit "left") || str_eqb sides (lit "both"))%bool; ring.
  - intros x' Hx. change (str_eqb (lit "right") (lit "right") || str_eqb (lit "right") (lit "both"))%bool with true. change (str_eqb (lit "right") (lit "left") || str_eqb (lit "right") (lit "both"))%bool with false. cbn iota.
    apply Rplus_le_compat_r, Rplus_le_compat_l, Rmult_le_compat_l; [assumption|]. apply pow2_mono; [apply clip_range|]. apply clip_mono. apply Rmult_le_compat_r; [apply Rlt_le, Rinv_0_lt_compat; assumption|lra].
  - intros x' Hx. change (str_eqb (lit "left") (lit "right") || str_eqb (lit "left") (lit "both"))%bool with false. change (str_eqb (lit "left") (lit "left") || str_eqb (lit "left") (lit "both"))%bool with true. cbn iota.
    apply Rplus_le_compat_l, Rmult_le_compat_l; [assumption|]. apply pow2_mono; [apply clip_range|]. apply clip_mono. apply Rmult_le_compat_r; [apply Rlt_le, Rinv_0_lt_compat; assumption|lra].
  - unfold sided. intros E. destruct (str_eqb sides (lit "right")); [discriminate E|]. destruct (str_eqb sides (lit "left")); [discriminate E|]. cbn [orb] in *. rewrite E. ring.
Qed.
Print Assumptions C89_sponge.
Example ex_C89_sponge : 0 < sponge_sigma 10 10 (1 / 5) (lit "right") 9.
Proof.
  unfold sponge_sigma. change (str_eqb (lit "right") (lit "right") || str_eqb (lit "right") (lit "both"))%bool with true. change (str_eqb (lit "right") (lit "left") || str_eqb (lit "right") (lit "both"))%bool with false. cbn iota.
  pose proof tiny_pos. set (tn := / 10 ^ 10) in *. clearbody tn.
  assert (0 < clipR ((9 - 10 * (1 - 1 / 5)) / (10 - 10 * (1 - 1 / 5) + tn)) 0 1).
  { unfold clipR. apply Rmin_glb_lt; [|lra]. eapply Rlt_le_trans; [|apply Rmax_l]. apply Rdiv_lt_0_compat; lra. }
  assert (0 < clipR ((9 - 10 * (1 - 1 / 5)) / (10 - 10 * (1 - 1 / 5) + tn)) 0 1 ^ 2) by (apply pow_lt; assumption). lra.
Qed.
(** * Reported units *)
(** k_norm is k lambda_De of the electrons for the fundamental mode of the box, and lambda_D is the total Debye length; with
    finite ion mass k_norm is not k lambda_D. *)
Theorem C89_units : forall al mi Lx, 0 < al 0%nat -> 0 < al 3%nat -> 0 < mi -> 0 < Lx ->
  k_norm al Lx = 2 * PI / Lx * (al 0%nat / sqrt 2) /\
  1 / lambda_D al mi ^ 2 = 1 / (al 0%nat ^ 2 / 2) + 1 / (mi * al 3%nat ^ 2 / 2) /\
  2 * PI / Lx * lambda_D al mi < k_norm al Lx.
Proof.
  intros al mi Lx A0 A3 M L. assert (S2 : 0 < sqrt 2) by (apply sqrt_lt_R0; lra). assert (Q2 : sqrt 2 * sqrt 2 = 2) by (apply sqrt_sqrt; lra). pose proof PI_RGT_0 as Pi.
  assert (K : k_norm al Lx = 2 * PI / Lx * (al 0%nat / sqrt 2)).
  { unfold k_norm. apply (Rmult_eq_reg_r (sqrt 2)); [|lra]. replace (sqrt 2 * PI * al 0%nat / Lx * sqrt 2) with ((sqrt 2 * sqrt 2) * PI * al 0%nat / Lx) by (field; lra). rewrite Q2. field. split; lra. }
  assert (P0 : 0 < al 0%nat ^ 2) by (apply pow_lt; assumption). assert (P3 : 0 < mi * al 3%nat ^ 2) by (apply Rmult_lt_0_compat; [assumption|apply pow_lt; assumption]).
  assert (PA : 0 < 1 / al 0%nat ^ 2) by (apply Rdiv_lt_0_compat; lra). assert (PB : 0 < 1 / (mi * al 3%nat ^ 2)) by (apply Rdiv_lt_0_compat; lra).
  assert (PR : 0 < 1 / (2 * (1 / al 0%nat ^ 2 + 1 / (mi * al 3%nat ^ 2)))) by (apply Rdiv_lt_0_compat; lra).
  assert (D2 : lambda_D al mi ^ 2 = 1 / (2 * (1 / al 0%nat ^ 2 + 1 / (mi * al 3%nat ^ 2)))) by (unfold lambda_D; apply pow2_sqrt; lra).
  split; [exact K|]. split.
  - rewrite D2. field. repeat split; try lra. 
  - rewrite K. apply Rmult_lt_compat_l; [apply Rdiv_lt_0_compat; lra|].
    assert (LP : 0 < lambda_D al mi) by (unfold lambda_D; apply sqrt_lt_R0; assumption).
    assert (RP : 0 < al 0%nat / sqrt 2) by (apply Rdiv_lt_0_compat; lra).
    apply Rnot_le_lt. intros F. apply (pow2_mono _ _ (Rlt_le _ _ RP)) in F. rewrite D2 in F.
    replace ((al 0%nat / sqrt 2) ^ 2) with (al 0%nat ^ 2 / (sqrt 2 * sqrt 2)) in F by (field; lra). rewrite Q2 in F.
    assert (1 / (2 * (1 / al 0%nat ^ 2 + 1 / (mi * al 3%nat ^ 2))) < al 0%nat ^ 2 / 2); [|lra].
    replace (al 0%nat ^ 2 / 2) with (1 / (2 * (1 / al 0%nat ^ 2))) by (field; lra). revert PA PB. generalize (1 / al 0%nat ^ 2), (1 / (mi * al 3%nat ^ 2)). intros u v Pu Pv.
    unfold Rdiv. apply Rmult_lt_compat_l; [lra|]. apply Rinv_lt_contravar; [apply Rmult_lt_0_compat|]; lra.
Qed.
Print Assumptions C89_units.

(** * Filter settings and mode counts *)
(** With both keys given the exponential and the state filter use the same strength and order; with the keys left out the
    state filter uses (36, 36) while the exponential uses strength 0. *)
Theorem C89_filter_defaults :
  (forall s o, filter_of_exponential {| fc_enabled := true; fc_strength := Some s; fc_order := Some o |} = (s, o) /\
               filter_of_state {| fc_enabled := true; fc_strength := Some s; fc_order := Some o |} = Some (s, o)) /\
  (forall s o, filter_of_exponential {| fc_enabled := false; fc_strength := s; fc_order := o |} = (0, 0%nat) /\
               filter_of_state {| fc_enabled := false; fc_strength := s; fc_order := o |} = None).
Proof. split; intros; split; reflexivity. Qed.
Print Assumptions C89_filter_defaults.
Theorem C89_filter_defaults_refuted : filter_of_state {| fc_enabled := true; fc_strength := None; fc_order := None |} <> Some (filter_of_exponential {| fc_enabled := true; fc_strength := None; fc_order := None |}).
Proof. cbn. intros E. injection E. lra. Qed.
Print Assumptions C89_filter_defaults_refuted.
Theorem C89_modes : forall ps nn nm np,
  match resolve_modes ps nn nm np with
  | None => ps = None /\ (nn = None \/ nm = None \/ np = None)
  | Some (e, i) => ps = Some (e, i) \/ ps = None /\ e = i /\ nn = Some (d_n e) /\ nm = Some (d_m e) /\ np = Some (d_p e)
  end.
Proof. intros [(e, i)|] [a|] [b|] [c|]; cbn; auto 10. Qed.
Print Assumptions C89_modes.

(** * The hypotheses are met *)
Example ex_C89 : ok_grid3 (x_g ex_c) /\ resolved3 (x_g ex_c) 1 0 0 /\ one_axis 1 0 0 /\ isotropic (a_al ex_A) /\ a_q ex_A 0%nat = -1 /\ a_q ex_A 1%nat = 1 /\ a_Om ex_A <> 0 /\
  f_k (spx_init (x_g ex_c) ex_A 1 0 0 (1 / 100)) 0%nat 0%nat 1%nat 0%nat <> c0.
Proof.
  destruct ex_ok as ((G & _) & _). split; [exact G|]. assert (R : resolved3 (x_g ex_c) 1 0 0) by (unfold resolved3, resolved; cbn; lia). split; [exact R|]. split; [unfold one_axis; lia|].
  split; [unfold isotropic; cbn; repeat split; lra|]. split; [reflexivity|]. split; [reflexivity|]. split; [cbn; lra|].
  cbn [f_k spx_init]. rewrite fields_at by (try assumption; cbn; (lia || lra)). change (at_index 6 (e_comp 0 0)) with (Some 0%nat). cbn [Nat.eqb].
  replace (hit (x_g ex_c) 1 0 0 0 1 0) with true by reflexivity. cbn [orb]. intros E. apply (f_equal fst) in E. cbn [fst c0] in E. unfold amp, sgR in E. change (Z.sgn 1) with 1%Z in E. change (Z.sgn 0) with 0%Z in E.
  change (s_lx (x_g ex_c)) with (2 * PI) in E. change (s_ly (x_g ex_c)) with 1 in E. change (s_lz (x_g ex_c)) with 1 in E. change (a_Om ex_A) with 1 in E. change (IZR (1 + 0 + 0)) with 1 in E.
  pose proof PI_neq0. replace (1 / 100 * (2 * PI * 1 + 1 * 0 + 1 * 0) / (4 * PI * 1 * 1)) with (1 / 200) in E by (field; assumption). lra.
Qed.
(** The steady state is a solution for all time, started from the initial condition with amplitude zero. *)
Example ex_C89_steady : solution ex_c ex_A (fun _ => spx_init (x_g ex_c) ex_A 1 0 0 0) /\ (forall t y x z, div (x_g ex_c) (fun i => x_drive ex_c t i y x z) y x z = c0).
Proof.
  destruct ex_ok as (OK & NN & _). assert (R : resolved3 (x_g ex_c) 1 0 0) by (unfold resolved3, resolved; cbn; lia).
  assert (NZ : nonzero 1 0 0) by (intros E; discriminate E).
  split; [|intros; unfold div; cbn [x_drive ex_c]; creal].
  intros t y x z _. pose proof (fun p m n i => C89_equilibrium ex_c ex_A t 1 0 0 p m n i y x z OK NN (fun _ _ _ _ => eq_refl) (fun _ => eq_refl) R NZ) as E.
  split; [|split].
  - intros p m n I. destruct (E p m n 0%nat) as (H & _). rewrite (H I). apply cd_const.
  - intros p m n I. destruct (E p m n 0%nat) as (_ & H & _). rewrite (H I). apply cd_const.
  - intros i _. destruct (E 0%nat 0%nat 0%nat i) as (_ & _ & ->). apply cd_const.
Qed.
