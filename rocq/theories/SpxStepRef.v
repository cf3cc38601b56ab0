(** Property C88, continued: the vacuum limit, and what the step does not keep. *)
From Coq Require Import FunctionalExtensionality Reals Lra Lia ZArith List Bool Psatz Setoid Morphisms.
From Verif Require Import HPForceProps Spectrax SpxExp SpxStep SpxProps SpxLaws SpxMore SpxExpProps SpxStream SpxEig RSum Pic PicProofs PicFourier Dft HPProps SpxStepProps SpxStepMore.
Local Open Scope R_scope.
Local Open Scope cx_scope.

(* ------------------------------------------------------------------------------------------------ *)
(** * Vacuum *)
Definition no_plasma (c : spcfg) (s : spx) : Prop := forall y x z, in_grid (x_g c) y x z ->
  (forall p m n, in_dims (x_de c) p m n -> c_e s p m n y x z = c0) /\ (forall p m n, in_dims (x_di c) p m n -> c_i s p m n y x z = c0).
Lemma np_seq c s s' : seq c s s' -> no_plasma c s -> no_plasma c s'.
Proof. intros E H y x z G. destruct (E y x z G) as (A & B & _), (H y x z G) as (A' & B'). split; intros; [rewrite <- A|rewrite <- B]; auto. Qed.
Lemma lin_no_plasma c A G gam s t : no_plasma c s -> no_plasma c (lin_exp c A G gam s t).
Proof.
  intros H. apply np_seq with (s := lin_exp c A G gam {| c_e := fun _ _ _ _ _ _ => c0; c_i := fun _ _ _ _ _ _ => c0; f_k := f_k s |} t).
  - apply lin_proper; [|reflexivity]. intros y x z I. cbn [c_e c_i f_k]. destruct (H y x z I) as (A1 & B1). repeat split; intros; symmetry; auto.
  - intros y x z I. pose proof (lin_zero c A G gam t y x z I) as (A1 & B1 & _). split; intros; [exact (A1 p m n H0)|exact (B1 p m n H0)].
Qed.
Lemma vacuum_rate c A t s : ok_cfg c A -> no_noise c -> (forall t i y x z, x_drive c t i y x z = c0) -> no_plasma c s -> seq c (spx_nonlinear c A t s) st_zero.
Proof.
  intros Hc Nn Dr H. transitivity (spx_nonlinear c A t {| c_e := fun _ _ _ _ _ _ => c0; c_i := fun _ _ _ _ _ _ => c0; f_k := f_k s |}).
  { apply nonlinear_respects; [assumption|]. intros y x z I. cbn [c_e c_i f_k]. destruct (H y x z I) as (A1 & B1). auto. }
  assert (SH : forall d a b e p m n, shiftm d a b e (fun _ _ _ => c0) p m n = c0) by (intros; unfold shiftm; destruct (_ && _)%bool; reflexivity).
  assert (L : forall d q mass a u F p m n y x z, nl_species c A d q mass a u F (fun _ _ _ _ _ _ => c0) p m n y x z = c0).
  { intros. unfold nl_species, filtered, lorentz_rhs. rewrite fwd3_zero; [destruct (mask3 _ _ _ _); cbn [keep]; cxu; ring|]. intros y' x' z' _ _ _.
    rewrite (lor_ext d a u _ (fun i => F i y' x' z') _ (fun _ _ _ => c0)); [|reflexivity|intros; unfold at_pt; apply to_real_zero].
    unfold lor, aux_x, aux_y, aux_z. rewrite !SH. unfold csub. set (f := fun i => F i y' x' z'). cxu; unfold Rdiv; ring. }
  intros y x z I. unfold spx_nonlinear. cbn [c_e c_i f_k st_zero]. repeat split.
  - intros. rewrite add_no_noise by (intros; apply Nn). apply L.
  - intros. destruct (x_static c); [reflexivity|]. rewrite add_no_noise by (intros; apply Nn). apply L.
  - intros i _. unfold nl_fields. destruct (i <? 3)%nat; [|reflexivity]. rewrite Dr. unfold total_current, current_s, at_pt. cbn [c_e c_i].
    destruct (x_static c); destruct i as [|[|i]]; repeat match goal with |- context [if ?b then _ else _] => destruct b end; cxu; ring.
Qed.
(** Without plasma, noise and drive the step is the exact Maxwell propagator over the whole step, of any length. *)
Theorem C88_vacuum : forall c A G gam t0 dt y0, ok_cfg c A -> no_noise c -> (forall t i y x z, x_drive c t i y x z = c0) -> no_plasma c y0 ->
  seq c (fst (lawson (lin_exp c A G gam) (spx_nonlinear c A) t0 (t0 + dt) y0)) (lin_exp c A G gam y0 dt).
Proof.
  intros c A G gam t0 dt y0 Hc Nn Dr H. unfold lawson. cbn [fst]. replace (t0 + dt - t0) with dt by ring.
  pose proof (respects_proper c _ (nonlinear_respects c A Hc)) as NP.
  assert (V : forall t s, no_plasma c s -> seq c (spx_nonlinear c A t s) st_zero) by (intros; apply vacuum_rate; assumption).
  rewrite (V t0 y0 H). rewrite !lin_zero.
  set (Eh := lin_exp c A G gam y0 (dt / 2)). set (Ef := lin_exp c A G gam y0 dt).
  assert (PH : no_plasma c Eh) by (apply lin_no_plasma; assumption). assert (PF : no_plasma c Ef) by (apply lin_no_plasma; assumption).
  assert (Z : forall v r, seq c (st_add v (st_scale st_zero r)) v) by (intros; stx).
  rewrite !Z. rewrite !(V (t0 + dt / 2) Eh PH). rewrite !Z. rewrite !(V (t0 + dt / 2) Eh PH). rewrite !lin_zero. rewrite !Z. rewrite (V (t0 + dt) Ef PF). stx.
Qed.
Print Assumptions C88_vacuum.

(* ------------------------------------------------------------------------------------------------ *)
(** * The saved states *)
(** What a save at the end of a step reads is the state before sponge and filter, while the run goes on from the state after them. *)
Theorem C88_saved : forall c A G gam sp t0 t1 y0, t0 <> t1 ->
  let res := spx_step c A G gam sp t0 t1 y0 in
  let saved := interp_linear t0 t1 t1 (fst (snd res)) (snd (snd res)) in
  seq c saved (fst (lawson (lin_exp c A G gam) (spx_nonlinear c A) t0 t1 y0)) /\
  fst res = apply_damping c sp (x_filter c) (t1 - t0) (fst (lawson (lin_exp c A G gam) (spx_nonlinear c A) t0 t1 y0)).
Proof.
  intros c A G gam sp t0 t1 y0 T. cbv zeta. unfold spx_step. cbv zeta. cbn [fst snd]. split; [|reflexivity]. unfold interp_linear. generalize (fst (lawson (lin_exp c A G gam) (spx_nonlinear c A) t0 t1 y0)). intros w.
  replace ((t1 - t0) / (t1 - t0)) with 1 by (field; lra). stx.
Qed.
Print Assumptions C88_saved.
Definition uniform_E : spx := {| c_e := fun _ _ _ _ _ _ => c0; c_i := fun _ _ _ _ _ _ => c0; f_k := fun i y x z => if ((i =? 0)%nat && orig y x z)%bool then c1 else c0 |}.
Theorem C88_saved_refuted : forall c A G gam sg sp t0 t1 x1, ok_cfg c A -> no_noise c -> (forall t i y x z, x_drive c t i y x z = c0) ->
  sp_f sp = Some sg -> (x1 < s_nx (x_g c))%nat -> sg x1 <> 0 -> t0 <> t1 ->
  ~ (forall y0, let res := spx_step c A G gam sp t0 t1 y0 in seq c (interp_linear t0 t1 t1 (fst (snd res)) (snd (snd res))) (fst res)).
Proof.
  intros c A G gam sg sp t0 t1 x1 Hc Nn Dr Sp X1 Sg T H. specialize (H uniform_E). cbv zeta in H.
  destruct (C88_saved c A G gam sp t0 t1 uniform_E T) as (S1 & S2). cbv zeta in S1, S2. rewrite S1, S2 in H. clear S1 S2.
  pose proof Hc as (Hg & _). pose proof Hg as (GX & GY & GZ & _).
  assert (V : seq c (fst (lawson (lin_exp c A G gam) (spx_nonlinear c A) t0 t1 uniform_E)) (lin_exp c A G gam uniform_E (t1 - t0))).
  { replace t1 with (t0 + (t1 - t0)) at 1 by ring. apply C88_vacuum; try assumption. intros y x z _. split; intros; reflexivity. }
  set (w := fst (lawson (lin_exp c A G gam) (spx_nonlinear c A) t0 t1 uniform_E)) in *.
  assert (W : forall y x z, in_grid (x_g c) y x z -> f_k w 0%nat y x z = if orig y x z then c1 else c0).
  { intros y x z I. destruct (V y x z I) as (_ & _ & F). rewrite F by lia. unfold lin_exp. cbn [f_k].
    destruct (C87_maxwell (fun j => nab (x_g c) j y x z) (fun j => f_k uniform_E j y x z)) as (M0 & _ & _ & _ & _ & MK).
    unfold orig. destruct (Nat.eqb_spec y 0) as [->|NY]; cbn [andb].
    - destruct (Nat.eqb_spec x 0) as [->|NX]; cbn [andb].
      + destruct (Nat.eqb_spec z 0) as [->|NZ]; cbn [andb].
        * rewrite MK by (apply nab_0 || lia; assumption). reflexivity.
        * rewrite max_rate by lia. unfold maxwell_rate, ccross, uniform_E, orig. cbn [f_k Nat.ltb Nat.leb Nat.eqb Nat.add Nat.sub andb]. rewrite (proj2 (Nat.eqb_neq z 0)) by assumption. cxu; ring.
      + rewrite max_rate by lia. unfold maxwell_rate, ccross, uniform_E, orig. cbn [f_k Nat.ltb Nat.leb Nat.eqb Nat.add Nat.sub andb]. rewrite (proj2 (Nat.eqb_neq x 0)) by assumption. cxu; cbn [andb fst snd]; ring.
    - rewrite max_rate by lia. unfold maxwell_rate, ccross, uniform_E, orig. cbn [f_k Nat.ltb Nat.leb Nat.eqb Nat.add Nat.sub andb]. rewrite (proj2 (Nat.eqb_neq y 0)) by assumption. cxu; cbn [andb fst snd]; ring. }
  assert (IN : in_grid (x_g c) 0 x1 0) by (unfold in_grid; auto).
  assert (UN : inv3 (x_g c) (f_k w 0%nat) 0%nat x1 0%nat = c1).
  { rewrite (inv3_ext (x_g c) _ (fwd3 (x_g c) (fun _ _ _ => c1))); [apply (inv3_fwd3 (x_g c) (fun _ _ _ => c1)); assumption|].
    intros. rewrite fwd3_const, W by (unfold in_grid; auto). reflexivity. }
  assert (EQ : inv3 (x_g c) (f_k w 0%nat) 0%nat x1 0%nat = inv3 (x_g c) (damp3 (x_g c) sg (t1 - t0) (f_k w 0%nat)) 0%nat x1 0%nat).
  { apply inv3_ext. intros y x z Y X Z. destruct (H y x z) as (_ & _ & F); [unfold in_grid; auto|]. specialize (F 0%nat ltac:(lia)). cbn [apply_damping f_k] in F. rewrite Sp in F. exact F. }
  rewrite damp_real, UN in EQ by assumption. apply (f_equal fst) in EQ. unfold cscal, c1 in EQ. cbn [fst] in EQ. rewrite Rmult_1_r in EQ.
  assert (- sg x1 * (t1 - t0) = 0) by (apply exp_inv; rewrite exp_0; symmetry; exact EQ).
  apply Rmult_integral in H0. lra.
Qed.
Print Assumptions C88_saved_refuted.

(* ------------------------------------------------------------------------------------------------ *)
(** * Gauss's law *)
(** One Hermite mode per direction, drift u along x, static ions: the exact defect of Gauss's law after one Lawson step at a
    wavevector along x, theta = k u dt. *)
Definition drift_c (nx : nat) (Lx : R) : spcfg := {| x_g := {| s_nx := nx; s_ny := 1; s_nz := 1; s_lx := Lx; s_ly := 1; s_lz := 1 |};
  x_de := {| d_n := 1; d_m := 1; d_p := 1 |}; x_di := {| d_n := 1; d_m := 1; d_p := 1 |}; x_static := true; x_filter := None;
  x_noise_e := fun _ _ => c0; x_noise_i := fun _ _ => c0; x_drive := fun _ _ _ _ _ => c0 |}.
Definition drift_u (u : R) (i : nat) : R := if (i =? 0)%nat then u else 0.
Definition drift_A (q Om u : R) : spargs := {| a_q := fun i => if (i =? 0)%nat then q else 1; a_nu := 0; a_D := 0; a_Om := Om; a_mi := 1; a_al := fun _ => 1; a_u := drift_u u |}.
Definition drift_G (u : R) : eigs :=
  {| g_e := {| e_vx := fun _ _ => 1; e_lx := fun _ => u; e_vy := fun _ _ => 1; e_ly := fun _ => 0; e_vz := fun _ _ => 1; e_lz := fun _ => 0 |};
     g_i := {| e_vx := fun _ _ => 1; e_lx := fun _ => 0; e_vy := fun _ _ => 1; e_ly := fun _ => 0; e_vz := fun _ _ => 1; e_lz := fun _ => 0 |} |}.
Lemma drift_lin nx Lx q Om u : ok_lin (drift_c nx Lx) (drift_A q Om u) (drift_G u).
Proof.
  assert (H : forall w, is_eigh 1 (stream_T w 1) (fun _ => w) (fun _ _ => 1)).
  { intros w. constructor; intros n i Hn Hi; assert (n = 0%nat) by lia; assert (i = 0%nat) by lia; subst; cbn [rsum Nat.eqb]; [ring|ring|]. unfold stream_T. cbn [Nat.eqb]. field. }
  unfold ok_lin, ok_al, ok_eig, ions, drift_u. cbn [drift_c drift_A drift_G a_al a_u x_de x_di d_n d_m d_p g_e g_i e_vx e_lx e_vy e_ly e_vz e_lz]. pose proof (H u) as Hu. pose proof (H 0) as H0. cbn [Nat.eqb Nat.add].
  assert (1 <> 0) by lra. repeat (apply Logic.conj); try assumption.
Qed.
Lemma drift_ce nx Lx q Om u s t x : c_e (lin_exp (drift_c nx Lx) (drift_A q Om u) (drift_G u) nogam s t) 0%nat 0%nat 0%nat 0%nat x 0%nat
  = cmul (cis (- (nab (x_g (drift_c nx Lx)) 0 0 x 0 * u * t))) (c_e s 0%nat 0%nat 0%nat 0%nat x 0%nat).
Proof.
  assert (X1 : forall lam al k v r, exp1 1 (fun _ => lam) (fun _ _ => 1) al k v r 0%nat = cmul (cis (- (al * r * lam * k))) (v 0%nat)).
  { intros. unfold exp1. rewrite (csum_single 1 0) by lia. rewrite (csum_single 1 0) by lia. cxu; ring. }
  unfold lin_exp. cbn [c_e]. unfold species_exp, diag_exp. rewrite fs_eq. cbn [drift_c drift_A drift_G a_al a_nu a_D x_de d_n d_m d_p g_e e_vx e_lx e_vy e_ly e_vz e_lz].
  rewrite !X1. rewrite Ropp_0, !Rmult_0_l, Rplus_0_r, exp_0, cscal_1. rewrite !Rmult_0_r, !Rmult_0_l, Ropp_0. unfold at_pt.
  replace (- (1 * t * u * nab (x_g (drift_c nx Lx)) 0 0 x 0)) with (- (nab (x_g (drift_c nx Lx)) 0 0 x 0 * u * t)) by ring.
  change (cis 0) with (cos 0, sin 0). rewrite cos_0, sin_0. cxu; ring.
Qed.
Lemma drift_E nx Lx q Om u s t x : f_k (lin_exp (drift_c nx Lx) (drift_A q Om u) (drift_G u) nogam s t) 0%nat 0%nat x 0%nat = f_k s 0%nat 0%nat x 0%nat.
Proof.
  unfold lin_exp. cbn [f_k]. rewrite max_eq. cbn [Nat.ltb Nat.leb]. rewrite omega_sq. unfold ccross, cdot.
  assert (K : nab (x_g (drift_c nx Lx)) 1 0 x 0 = 0 /\ nab (x_g (drift_c nx Lx)) 2 0 x 0 = 0) by (split; unfold nab; cbn [drift_c x_g s_ny s_nz s_ly s_lz]; rewrite kint_0 by lia; unfold Rdiv; ring).
  destruct K as (-> & ->). cxu; ring.
Qed.
Theorem C88_gauss_defect : forall nx Lx q Om u y0 x t0 dt, Om <> 0 ->
  let c := drift_c nx Lx in let A := drift_A q Om u in
  let y1 := fst (lawson (lin_exp c A (drift_G u) nogam) (spx_nonlinear c A) t0 (t0 + dt) y0) in
  let th := nab (x_g c) 0 0 x 0 * u * dt in
  let C0 := c_e y0 0%nat 0%nat 0%nat 0%nat x 0%nat in
  gauss c A y1 0 x 0 = gauss c A y0 0 x 0 +c q *c (C0 -c cmul (cis (- th)) C0 -c (th / 6) *c cmul cI (C0 +c 4 *c cmul (cis (- (th / 2))) C0 +c cmul (cis (- th)) C0)).
Proof.
  intros nx Lx q Om u y0 x t0 dt HO. cbv zeta. set (c := drift_c nx Lx). set (A := drift_A q Om u). set (K := nab (x_g c) 0 0 x 0).
  set (E := lin_exp c A (drift_G u) nogam).
  assert (Nn : no_noise c) by (intros t i; split; reflexivity).
  assert (NC : forall t s, c_e (spx_nonlinear c A t s) 0%nat 0%nat 0%nat 0%nat x 0%nat = c0) by (intros; apply (nonlinear_000 c A); assumption).
  assert (NF : forall t s, f_k (spx_nonlinear c A t s) 0%nat 0%nat x 0%nat = (- (q * u / Om)) *c c_e s 0%nat 0%nat 0%nat 0%nat x 0%nat).
  { intros. unfold spx_nonlinear, nl_fields, total_current, current_s, at_pt. cbn [f_k Nat.ltb Nat.leb]. cbn [c drift_c drift_A A x_static x_de d_n a_q a_al a_u a_Om x_drive drift_u Nat.eqb Nat.ltb Nat.leb]. pose proof s2_pos. cxu; field; repeat split; (assumption || lra). }
  assert (EC : forall s t, c_e (E s t) 0%nat 0%nat 0%nat 0%nat x 0%nat = cmul (cis (- (K * u * t))) (c_e s 0%nat 0%nat 0%nat 0%nat x 0%nat)) by (intros; apply drift_ce).
  assert (EF : forall s t, f_k (E s t) 0%nat 0%nat x 0%nat = f_k s 0%nat 0%nat x 0%nat) by (intros; apply drift_E).
  assert (K1 : nab (x_g c) 1 0 x 0 = 0 /\ nab (x_g c) 2 0 x 0 = 0) by (split; unfold nab; cbn [c drift_c x_g s_ny s_nz s_ly s_lz]; rewrite kint_0 by lia; unfold Rdiv; ring).
  assert (GA : forall s, gauss c A s 0 x 0 = Om *c cmul cI (K *c f_k s 0%nat 0%nat x 0%nat) -c (q *c c_e s 0%nat 0%nat 0%nat 0%nat x 0%nat +c c_i s 0%nat 0%nat 0%nat 0%nat x 0%nat)).
  { intros. unfold gauss, div, SpxLaws.charge, dens, vol3, at_pt, ions. destruct K1 as (-> & ->). fold K. cbn [A drift_A a_Om a_q a_al Nat.eqb]. cxu; ring. }
  rewrite !GA. unfold lawson. cbn [fst]. replace (t0 + dt - t0) with dt by ring. cbn [st_add st_scale f_k c_e c_i].
  assert (CI : forall s t, c_i (E s t) = c_i s) by (intros; reflexivity).
  assert (NI : forall t s, c_i (spx_nonlinear c A t s) = fun _ _ _ _ _ _ => c0) by (intros; reflexivity).
  rewrite !EF, !NF, !EC, !NC, !CI, !NI. cbn [st_add st_scale f_k c_e c_i]. rewrite !EC, !NC. cbn [st_add st_scale f_k c_e c_i]. rewrite ?EC, ?NC.
  replace (K * u * (dt / 2)) with (K * u * dt / 2) by field.
  generalize (c_e y0 0%nat 0%nat 0%nat 0%nat x 0%nat) (c_i y0 0%nat 0%nat 0%nat 0%nat x 0%nat) (f_k y0 0%nat 0%nat x 0%nat) (cis (- (K * u * dt))) (cis (- (K * u * dt / 2))). intros. cxu; field; assumption.
Qed.
Print Assumptions C88_gauss_defect.
(** Refuted: the Lawson step keeps Gauss's law. Drift 1, wavenumber 1, step 2 pi: the state C = 1, E = C q / (i Om) satisfies it
    before the step and not after. *)
Definition drift_s (q Om : R) : spx := {| c_e := fun p m n y x z => if (x =? 1)%nat then c1 else c0; c_i := fun _ _ _ _ _ _ => c0;
  f_k := fun i y x z => if ((i =? 0) && (x =? 1))%nat%bool then (0, - (q / Om)) else c0 |}.
Theorem C88_gauss_refuted : forall q Om, q <> 0 -> Om <> 0 ->
  let c := drift_c 4 (2 * PI) in let A := drift_A q Om 1 in
  (forall y x z, in_grid (x_g c) y x z -> gauss c A (drift_s q Om) y x z = c0) /\
  gauss c A (fst (lawson (lin_exp c A (drift_G 1) nogam) (spx_nonlinear c A) 0 (2 * PI) (drift_s q Om))) 0 1 0 <> c0.
Proof.
  intros q Om Q O. cbv zeta. pose proof PI_RGT_0 as PI0.
  assert (K : nab (x_g (drift_c 4 (2 * PI))) 0 0 1 0 = 1) by (unfold nab, kint, mode; cbn; field; lra).
  assert (G : forall y x z, in_grid (x_g (drift_c 4 (2 * PI))) y x z -> gauss (drift_c 4 (2 * PI)) (drift_A q Om 1) (drift_s q Om) y x z = c0).
  { intros y x z (Y & X & Z). cbn [drift_c x_g s_ny s_nz] in Y, Z. assert (y = 0%nat) by lia. assert (z = 0%nat) by lia. subst y z.
    unfold gauss, div, SpxLaws.charge, dens, vol3, at_pt, drift_s, ions. cbn [f_k c_e c_i]. cbn [drift_A a_Om a_q a_al Nat.eqb andb].
    destruct (Nat.eqb_spec x 1) as [->|NE]; [rewrite K|]; cxu; field; assumption. }
  split; [exact G|].
  replace (2 * PI) with (0 + 2 * PI) at 4 by ring. rewrite C88_gauss_defect by assumption. rewrite G by (unfold in_grid; cbn [drift_c x_g s_nx s_ny s_nz]; lia). rewrite K.
  cbn [drift_s c_e Nat.eqb]. replace (1 * 1 * (2 * PI)) with (2 * PI) by ring. replace (- (2 * PI / 2)) with (- PI) by field.
  unfold cis. rewrite !cos_neg, !sin_neg, cos_2PI, sin_2PI, cos_PI, sin_PI. intros H. apply (f_equal snd) in H. revert H. unfold csub, cadd, cneg, cmul, cscal, cI, c1, c0. cbn [fst snd].
  intros H. assert (q * PI = 0) by (match type of H with ?l = _ => transitivity (3 / 2 * l); [field|rewrite H; ring] end). apply Rmult_integral in H0. lra.
Qed.
Print Assumptions C88_gauss_refuted.

(* ------------------------------------------------------------------------------------------------ *)
(** * Sponge and filter against the constraints *)
Lemma ny1 g h y x z : s_ny g = 1%nat -> s_nz g = 1%nat -> in_grid g y x z -> fwd3 g (fun _ x' _ => h x') y x z = ffwd (s_nx g) h x.
Proof.
  intros Y Z (Iy & Ix & Iz). rewrite Y in Iy. rewrite Z in Iz. assert (y = 0%nat) by lia. assert (z = 0%nat) by lia. subst. unfold fwd3. rewrite Y, Z.
  rewrite (ffwd_const 1 _ 0) by lia. cbn [Nat.eqb]. apply ffwd_ext. intros x' _. rewrite ffwd_const by lia. reflexivity.
Qed.
Lemma one_inv g h y x z : s_ny g = 1%nat -> s_nz g = 1%nat -> in_grid g y x z -> inv3 g (fun _ x' _ => ffwd (s_nx g) h x') y x z = h x.
Proof.
  intros Y Z G. rewrite (inv3_ext g _ (fwd3 g (fun _ x' _ => h x'))).
  - apply (inv3_fwd3 g (fun _ x' _ => h x')). assumption.
  - intros y' x' z' Y' X' Z'. symmetry. apply ny1; [assumption|assumption|unfold in_grid; auto].
Qed.
Lemma nab_ne g y x z : ok_grid3 g -> (2 <= s_nx g)%nat -> x = 1%nat -> nab g 0 y x z <> 0.
Proof.
  intros (_ & _ & _ & L & _) N ->. unfold nab, kint, mode. pose proof PI_RGT_0. unfold Rdiv. apply Rmult_integral_contrapositive_currified; [|apply Rinv_neq_0_compat; assumption].
  destruct (Nat.ltb_spec (2 * 1) (s_nx g)) as [A|A].
  - cbn. lra.
  - assert (s_nx g = 2%nat) as -> by lia. cbn. lra.
Qed.
(** Refuted: the sponge keeps Gauss's law. Any profile that damps somewhere breaks it for some state, because the field is damped
    and the density is not. *)
Definition gauss_state (c : spcfg) (A : spargs) (E : nat -> cplx) : spx :=
  {| c_e := fun p m n y x z => if ((p =? 0) && (m =? 0) && (n =? 0))%nat%bool then (a_Om A / (a_q A 0%nat * vol3 (a_al A))) *c div (x_g c) (fun i => if (i =? 0)%nat then ffwd (s_nx (x_g c)) E x else c0) y x z else c0;
     c_i := fun _ _ _ _ _ _ => c0;
     f_k := fun i y x z => if (i =? 0)%nat then ffwd (s_nx (x_g c)) E x else c0 |}.
Theorem C88_sponge_gauss_refuted : forall c A sg dt x1, ok_cfg c A -> s_ny (x_g c) = 1%nat -> s_nz (x_g c) = 1%nat -> (2 <= s_nx (x_g c))%nat -> (x1 < s_nx (x_g c))%nat ->
  a_q A 0%nat <> 0 -> sg x1 <> 0 -> dt <> 0 ->
  exists s, (forall y x z, in_grid (x_g c) y x z -> gauss c A s y x z = c0) /\
    exists y x z, in_grid (x_g c) y x z /\ gauss c A (apply_damping c {| sp_f := Some sg; sp_e := Some sg; sp_i := Some sg |} None dt s) y x z <> c0.
Proof.
  intros c A sg dt x1 (Hg & He & Hi & (A0 & A1 & A2) & Ai & Om) Y1 Z1 N2 X1 Q Sg Dt.
  set (E := fun x => if (x =? x1)%nat then c1 else c0). exists (gauss_state c A E).
  assert (V : vol3 (a_al A) <> 0) by (unfold vol3; repeat apply Rmult_integral_contrapositive_currified; assumption).
  assert (G0 : forall y x z, in_grid (x_g c) y x z -> gauss c A (gauss_state c A E) y x z = c0).
  { intros y x z G. unfold gauss, SpxLaws.charge, dens, at_pt, gauss_state, div. cbn [f_k c_e c_i Nat.eqb andb]. cxu; field; auto. }
  split; [exact G0|]. exists 0%nat, 1%nat, 0%nat. assert (G : in_grid (x_g c) 0 1 0) by (unfold in_grid; lia). split; [assumption|].
  intros H. specialize (G0 _ _ _ G).
  assert (CE : c_e (apply_damping c {| sp_f := Some sg; sp_e := Some sg; sp_i := Some sg |} None dt (gauss_state c A E)) 0%nat 0%nat 0%nat 0%nat 1%nat 0%nat = c_e (gauss_state c A E) 0%nat 0%nat 0%nat 0%nat 1%nat 0%nat).
  { unfold apply_damping, filtered. cbn [c_e sp_e houli3]. rewrite cscal_1. destruct (C88_sponge (x_g c) sg dt 0 (fun _ _ _ => c0) (c_e (gauss_state c A E)) Hg) as (_ & _ & D & _). apply D. assumption. }
  assert (CI : c_i (apply_damping c {| sp_f := Some sg; sp_e := Some sg; sp_i := Some sg |} None dt (gauss_state c A E)) 0%nat 0%nat 0%nat 0%nat 1%nat 0%nat = c_i (gauss_state c A E) 0%nat 0%nat 0%nat 0%nat 1%nat 0%nat).
  { unfold apply_damping, filtered. cbn [c_i sp_i houli3]. rewrite cscal_1. destruct (C88_sponge (x_g c) sg dt 0 (fun _ _ _ => c0) (c_i (gauss_state c A E)) Hg) as (_ & _ & D & _). apply D. assumption. }
  assert (F0 : f_k (apply_damping c {| sp_f := Some sg; sp_e := Some sg; sp_i := Some sg |} None dt (gauss_state c A E)) 0%nat 0%nat 1%nat 0%nat = exp (- sg x1 * dt) *c f_k (gauss_state c A E) 0%nat 0%nat 1%nat 0%nat).
  { unfold apply_damping. cbn [f_k sp_f]. unfold gauss_state. cbn [f_k Nat.eqb]. unfold damp3. rewrite <- (ny1 (x_g c) E 0 1 0 Y1 Z1 G). apply fwd3_scale. intros y x z I.
    rewrite (one_inv (x_g c) E y x z Y1 Z1 I). unfold E. destruct (Nat.eqb_spec x x1) as [->|]; [reflexivity|cxu; ring]. }
  assert (FI : forall i, (i = 1 \/ i = 2)%nat -> f_k (apply_damping c {| sp_f := Some sg; sp_e := Some sg; sp_i := Some sg |} None dt (gauss_state c A E)) i 0%nat 1%nat 0%nat = c0).
  { intros i I. unfold apply_damping. cbn [f_k sp_f]. unfold gauss_state. cbn [f_k]. rewrite (proj2 (Nat.eqb_neq i 0)) by lia. unfold damp3. apply fwd3_zero. intros. rewrite inv3_zero by reflexivity. cxu; ring. }
  unfold gauss, SpxLaws.charge, dens, at_pt, div in H, G0. rewrite CE, CI, F0, (FI 1%nat), (FI 2%nat) in H by auto.
  change (f_k (gauss_state c A E) 1%nat 0%nat 1%nat 0%nat) with c0 in G0. change (f_k (gauss_state c A E) 2%nat 0%nat 1%nat 0%nat) with c0 in G0.
  assert (K : nab (x_g c) 0 0 1 0 <> 0) by (apply nab_ne; [assumption|assumption|reflexivity]).
  set (e := f_k (gauss_state c A E) 0%nat 0%nat 1%nat 0%nat) in *.
  set (rho := a_q A 0%nat *c (vol3 (a_al A) *c c_e (gauss_state c A E) 0%nat 0%nat 0%nat 0%nat 1%nat 0%nat) +c a_q A 1%nat *c (vol3 (ions (a_al A)) *c c_i (gauss_state c A E) 0%nat 0%nat 0%nat 0%nat 1%nat 0%nat)) in *.
  assert (D : (a_Om A * nab (x_g c) 0 0 1 0 * (exp (- sg x1 * dt) - 1)) *c cmul cI e = c0).
  { clearbody e rho. clear - H G0. match type of H with ?l = _ => match type of G0 with ?l' = _ => transitivity (l -c l'); [cxu; ring|rewrite H, G0; cxu; ring] end end. }
  assert (EX : exp (- sg x1 * dt) - 1 <> 0).
  { intros Z. assert (- sg x1 * dt = 0) by (apply exp_inv; rewrite exp_0; lra). apply Rmult_integral in H0. lra. }
  assert (EE : e <> c0).
  { unfold e, gauss_state. cbn [f_k Nat.eqb]. unfold ffwd, cfft. rewrite (csum_single (s_nx (x_g c)) x1); [|assumption|intros i I NE; unfold E; rewrite (proj2 (Nat.eqb_neq i x1)) by assumption; cxu; ring].
    unfold E. rewrite Nat.eqb_refl. intros Z. assert (NN : / INR (s_nx (x_g c)) <> 0) by (apply Rinv_neq_0_compat, not_0_INR; lia).
    set (a := angle (s_nx (x_g c)) 1 x1) in *. pose proof (sin2_cos2 (- a)) as SC. unfold Rsqr in SC.
    pose proof (f_equal fst Z) as Z1'. pose proof (f_equal snd Z) as Z2. unfold cscal, cmul, c1, c0, cis in Z1', Z2. cbn [fst snd] in Z1', Z2.
    apply Rmult_integral in Z1'. apply Rmult_integral in Z2. destruct Z1' as [|Z1']; [contradiction|]. destruct Z2 as [|Z2]; [contradiction|]. nra. }
  apply EE. assert (P : a_Om A * nab (x_g c) 0 0 1 0 * (exp (- sg x1 * dt) - 1) <> 0) by (apply Rmult_integral_contrapositive_currified; [apply Rmult_integral_contrapositive_currified|]; assumption).
  clearbody e. apply cplx_eq; [apply (f_equal snd) in D|apply (f_equal fst) in D]; unfold cscal, cmul, cI, c0 in D |- *; cbn [fst snd] in D |- *; apply Rmult_integral in D; (destruct D as [D|D]; [contradiction|lra]).
Qed.
Print Assumptions C88_sponge_gauss_refuted.
(** Refuted: the sponge keeps div B = 0. A uniform Bx with a profile that is not uniform. *)
Definition uniform_Bx : spx := {| c_e := fun _ _ _ _ _ _ => c0; c_i := fun _ _ _ _ _ _ => c0; f_k := fun i y x z => if ((i =? 3)%nat && orig y x z)%bool then c1 else c0 |}.
Theorem C88_sponge_divB_refuted : forall c sg se si fl dt x1 x2, ok_grid3 (x_g c) -> s_ny (x_g c) = 1%nat -> s_nz (x_g c) = 1%nat ->
  (x1 < s_nx (x_g c))%nat -> (x2 < s_nx (x_g c))%nat -> sg x1 <> sg x2 -> dt <> 0 ->
  (forall y x z, in_grid (x_g c) y x z -> divB c uniform_Bx y x z = c0) /\
  ~ (forall y x z, in_grid (x_g c) y x z -> divB c (apply_damping c {| sp_f := Some sg; sp_e := se; sp_i := si |} fl dt uniform_Bx) y x z = c0).
Proof.
  intros c sg se si fl dt x1 x2 Hg Y1 Z1 X1 X2 Sg Dt. pose proof Hg as (GX & GY & GZ & LX & _). split.
  - intros y x z G. unfold divB, div, uniform_Bx, orig. cbn [f_k Nat.add Nat.eqb andb]. destruct (Nat.eqb_spec y 0) as [->|]; [destruct (Nat.eqb_spec x 0) as [->|]; [destruct (Nat.eqb_spec z 0) as [->|]|]|]; cbn [andb]; rewrite ?nab_0 by assumption; cxu; ring.
  - intros H. set (f := fun x => exp (- sg x * dt)).
    assert (B0 : forall y x z, in_grid (x_g c) y x z -> f_k (apply_damping c {| sp_f := Some sg; sp_e := se; sp_i := si |} fl dt uniform_Bx) 3%nat y x z = ffwd (s_nx (x_g c)) (fun x => (f x, 0)) x).
    { intros y x z G. unfold apply_damping. cbn [f_k sp_f]. unfold damp3. rewrite <- (ny1 (x_g c) (fun x => (f x, 0)) y x z Y1 Z1 G). apply fwd3_ext. intros y' x' z' Y' X' Z'.
      assert (U : inv3 (x_g c) (f_k uniform_Bx 3%nat) y' x' z' = c1).
      { rewrite (inv3_ext (x_g c) _ (fwd3 (x_g c) (fun _ _ _ => c1))); [apply (inv3_fwd3 (x_g c) (fun _ _ _ => c1)); unfold in_grid; auto|]. intros. rewrite fwd3_const by (unfold in_grid; auto). reflexivity. }
      rewrite U. unfold f. cxu; ring. }
    assert (BI : forall i y x z, (i = 4 \/ i = 5)%nat -> f_k (apply_damping c {| sp_f := Some sg; sp_e := se; sp_i := si |} fl dt uniform_Bx) i y x z = c0).
    { intros i y x z I. unfold apply_damping. cbn [f_k sp_f]. unfold damp3. apply fwd3_zero. intros y' x' z' _ _ _. rewrite inv3_zero; [cxu; ring|]. intros. unfold uniform_Bx. cbn [f_k]. rewrite (proj2 (Nat.eqb_neq i 3)) by lia. reflexivity. }
    assert (Z : forall x, (x < s_nx (x_g c))%nat -> x <> 0%nat -> ffwd (s_nx (x_g c)) (fun x => (f x, 0)) x = c0).
    { intros x X NX. assert (G : in_grid (x_g c) 0 x 0) by (unfold in_grid; auto). specialize (H 0%nat x 0%nat G). unfold divB, div in H. cbn [Nat.add] in H. rewrite B0, (BI 4%nat), (BI 5%nat) in H by (auto; assumption).
      assert (K : nab (x_g c) 0 0 x 0 <> 0).
      { unfold nab, kint. unfold Rdiv. pose proof PI_RGT_0. assert (M : IZR (mode (s_nx (x_g c)) x) <> 0) by (apply not_0_IZR; unfold mode; destruct (2 * x <? s_nx (x_g c))%nat; lia).
        apply Rmult_integral_contrapositive_currified; [|apply Rinv_neq_0_compat; assumption]. apply Rmult_integral_contrapositive_currified; [|lra]. apply Rmult_integral_contrapositive_currified; [assumption|lra]. }
      generalize dependent (ffwd (s_nx (x_g c)) (fun x => (f x, 0)) x). intros e H. generalize dependent (nab (x_g c) 0 0 x 0). intros k K H.
      apply cplx_eq; [apply (f_equal snd) in H|apply (f_equal fst) in H]; unfold cmul, cadd, cscal, cI, c0 in H |- *; cbn [fst snd] in H |- *; apply Rmult_eq_reg_l with k; try assumption; lra. }
    assert (C : forall x, (x < s_nx (x_g c))%nat -> (f x, 0) = ffwd (s_nx (x_g c)) (fun x => (f x, 0)) 0%nat).
    { intros x X. rewrite <- (finv_ffwd (s_nx (x_g c)) (fun x => (f x, 0)) x X) at 1. apply (finv_delta (s_nx (x_g c)) (ffwd (s_nx (x_g c)) (fun x => (f x, 0)))); assumption. }
    assert (F12 : f x1 = f x2) by (pose proof (C x1 X1) as H1; rewrite <- (C x2 X2) in H1; exact (f_equal fst H1)).
    unfold f in F12. apply exp_inv in F12. apply Sg. apply Rmult_eq_reg_r with dt; [lra|assumption].
Qed.
Print Assumptions C88_sponge_divB_refuted.
(** Refuted: the Hermite filter of the state is a damping over the step. It multiplies the top mode by exp(-strength) per step
    whatever its length - also in a step of length zero - and also for static ions. *)
Lemma filter_top c sp s o dt st : (0 < o)%nat -> sp_e sp = None -> sp_i sp = None ->
  ((2 <= d_n (x_de c))%nat -> forall y x z, c_e (apply_damping c sp (Some (s, o)) dt st) 0%nat 0%nat (d_n (x_de c) - 1)%nat y x z = exp (- s) *c c_e st 0%nat 0%nat (d_n (x_de c) - 1)%nat y x z) /\
  ((2 <= d_n (x_di c))%nat -> forall y x z, c_i (apply_damping c sp (Some (s, o)) dt st) 0%nat 0%nat (d_n (x_di c) - 1)%nat y x z = exp (- s) *c c_i st 0%nat 0%nat (d_n (x_di c) - 1)%nat y x z).
Proof.
  intros O Se Si. unfold apply_damping, filtered, houli3. cbn [c_e c_i]. rewrite Se, Si. cbn [damp_species]. rewrite !axis_filter_0 by assumption.
  split; intros D y x z; rewrite axis_top by lia; f_equal; ring.
Qed.
Theorem C88_filter_refuted : forall c sp s o st y x z dt dt', (0 < o)%nat -> 0 < s -> sp_e sp = None -> sp_i sp = None -> (2 <= d_n (x_de c))%nat -> (2 <= d_n (x_di c))%nat ->
  let top := (d_n (x_de c) - 1)%nat in let topi := (d_n (x_di c) - 1)%nat in
  c_e (apply_damping c sp (Some (s, o)) dt' (apply_damping c sp (Some (s, o)) dt st)) 0%nat 0%nat top y x z = exp (- (2 * s)) *c c_e st 0%nat 0%nat top y x z /\
  c_e (apply_damping c sp (Some (s, o)) (dt + dt') st) 0%nat 0%nat top y x z = exp (- s) *c c_e st 0%nat 0%nat top y x z /\
  (c_e st 0%nat 0%nat top y x z <> c0 -> c_e (apply_damping c sp (Some (s, o)) 0 st) 0%nat 0%nat top y x z <> c_e st 0%nat 0%nat top y x z) /\
  (x_static c = true -> c_i st 0%nat 0%nat topi y x z <> c0 -> c_i (apply_damping c sp (Some (s, o)) dt st) 0%nat 0%nat topi y x z <> c_i st 0%nat 0%nat topi y x z).
Proof.
  intros c sp s o st y x z dt dt' O S Se Si D Di. cbv zeta.
  assert (NE : forall v : cplx, v <> c0 -> exp (- s) *c v <> v).
  { intros v V H. assert (exp (- s) < 1) by (rewrite <- exp_0; apply exp_increasing; lra). apply V. apply cplx_eq; [apply (f_equal fst) in H|apply (f_equal snd) in H]; unfold cscal, c0 in *; cbn [fst snd] in *; nra. }
  split; [|split; [|split]].
  - rewrite (proj1 (filter_top c sp s o dt' _ O Se Si) D), (proj1 (filter_top c sp s o dt _ O Se Si) D), cscal_cscal, <- exp_plus. f_equal. f_equal. ring.
  - apply (proj1 (filter_top c sp s o (dt + dt') _ O Se Si) D).
  - intros V. rewrite (proj1 (filter_top c sp s o 0 _ O Se Si) D). apply NE. assumption.
  - intros _ V. rewrite (proj2 (filter_top c sp s o dt _ O Se Si) Di). apply NE. assumption.
Qed.
Print Assumptions C88_filter_refuted.
(** The hypotheses of the theorems of C88 are met together: four Hermite modes along x, a 4-cell box, a quadratic sponge. *)
Definition ex_cfg88 : spcfg := {| x_g := ex_g; x_de := ex_d4; x_di := ex_d4; x_static := false; x_filter := Some (36, 36%nat);
  x_noise_e := fun _ _ => c0; x_noise_i := fun _ _ => c0; x_drive := fun _ _ _ _ _ => c0 |}.
Definition ex_A88 : spargs := {| a_q := fun i => if (i =? 0)%nat then -1 else 1; a_nu := 0; a_D := 0; a_Om := 1; a_mi := 1836; a_al := fun _ => 1; a_u := fun _ => 0 |}.
Example ex_C88_ok : ok_cfg ex_cfg88 ex_A88 /\ ok_lin ex_cfg88 ex_A88 {| g_e := ex_eig; g_i := ex_eig |} /\ no_noise ex_cfg88 /\ filter_ok (x_filter ex_cfg88) /\ a_nu ex_A88 = 0 /\
  respects ex_cfg88 (spx_nonlinear ex_cfg88 ex_A88) /\ (forall t i y x z, x_drive ex_cfg88 t i y x z = c0).
Proof.
  pose proof PI_RGT_0 as P. destruct ex_C87_ok as (H1 & _ & H3 & _).
  assert (OK : ok_cfg ex_cfg88 ex_A88).
  { split; [repeat split; cbn; try lia; lra|]. split; [exact H3|]. split; [exact H3|]. split; [exact H1|]. split; [exact H1|]. cbn. lra. }
  split; [exact OK|]. split; [apply ex_C87_lin; reflexivity|]. split; [intros t i; split; reflexivity|]. split; [exact I|]. split; [reflexivity|].
  split; [apply nonlinear_respects; exact OK|reflexivity].
Qed.
Example ex_C88_vacuum : no_plasma ex_cfg88 uniform_E /\ ~ seq ex_cfg88 uniform_E st_zero.
Proof.
  split; [intros y x z _; split; reflexivity|]. intros H. destruct (H 0%nat 0%nat 0%nat) as (_ & _ & F); [repeat split; cbn; lia|]. specialize (F 0%nat ltac:(lia)). apply (f_equal fst) in F. cbn in F. lra.
Qed.
