(** Property C88, continued: invariants of the step, Gauss's law, sponge and filter. *)
From Coq Require Import FunctionalExtensionality Reals Lra Lia ZArith List Bool Psatz.
From Verif Require Import HPForceProps Spectrax SpxExp SpxStep SpxProps SpxLaws SpxMore SpxExpProps SpxStream SpxEig SpxStepProps RSum Pic PicProofs PicFourier Dft HPProps.
Local Open Scope R_scope.
Local Open Scope cx_scope.

(** The force never changes the density mode. *)
Lemma lor_000 d a u F C : lor d a u F C 0%nat 0%nat 0%nat = c0.
Proof. unfold lor, aux_x, aux_y, aux_z, sqm. rewrite !sqm0. set (sh := shiftm). clearbody sh. set (d1 := a 0%nat). set (d2 := a 1%nat). set (d3 := a 2%nat). cxu; unfold Rdiv; ring. Qed.
Lemma nl_000 c A d q mass a u F Ck y x z : nl_species c A d q mass a u F Ck 0%nat 0%nat 0%nat y x z = c0.
Proof.
  unfold nl_species, filtered, lorentz_rhs. rewrite fwd3_zero by (intros; apply lor_000). destruct (mask3 _ _ _ _); cbn [keep]; cxu; ring.
Qed.
Lemma nonlinear_000 c A t s y x z : no_noise c -> c_e (spx_nonlinear c A t s) 0%nat 0%nat 0%nat y x z = c0 /\ c_i (spx_nonlinear c A t s) 0%nat 0%nat 0%nat y x z = c0.
Proof.
  intros Nn. unfold spx_nonlinear. cbn [c_e c_i]. split.
  - rewrite add_no_noise by (intros; apply Nn). apply nl_000.
  - destruct (x_static c); [reflexivity|]. rewrite add_no_noise by (intros; apply Nn). apply nl_000.
Qed.

(* ------------------------------------------------------------------------------------------------ *)
(** * Transforms *)
Lemma fi_comm n m (F : nat -> nat -> cplx) k l : finv m (fun j => ffwd n (F j) k) l = ffwd n (fun g => finv m (fun j => F j g) l) k.
Proof.
  unfold ffwd, finv, cfft.
  rewrite (csum_ext m _ (fun j => csum n (fun g => (/ INR n) *c cmul (cmul (F j g) (cis (- angle n k g))) (cis (angle m j l))))).
  - rewrite csum_swap, <- csum_scal. apply csum_ext. intros g _. rewrite <- csum_mul_r, <- csum_scal. apply csum_ext. intros j _. cxu; ring.
  - intros j _. rewrite <- csum_scal, <- csum_mul_r. apply csum_ext. intros g _. cxu; ring.
Qed.
Lemma fwd3_inv3 g h y x z : in_grid g y x z -> fwd3 g (inv3 g h) y x z = h y x z.
Proof.
  intros (Y & X & Z). unfold fwd3, inv3.
  transitivity (ffwd (s_ny g) (fun y' => finv (s_ny g) (fun y0 => h y0 x z) y') y); [|apply (ffwd_finv (s_ny g) (fun y0 => h y0 x z)); assumption]. apply ffwd_ext. intros y' _.
  transitivity (ffwd (s_nx g) (fun x' => finv (s_ny g) (fun y0 => finv (s_nx g) (fun x0 => h y0 x0 z) x') y') x).
  - apply ffwd_ext. intros x' _. rewrite <- (fi_comm (s_nz g) (s_ny g) (fun y0 z' => finv (s_nx g) (fun x0 => finv (s_nz g) (fun z0 => h y0 x0 z0) z') x')). apply finv_ext. intros y0 _.
    rewrite <- (fi_comm (s_nz g) (s_nx g) (fun x0 z' => finv (s_nz g) (fun z0 => h y0 x0 z0) z')). apply finv_ext. intros x0 _. apply (ffwd_finv (s_nz g) (fun z0 => h y0 x0 z0)). assumption.
  - rewrite <- (fi_comm (s_nx g) (s_ny g) (fun y0 x' => finv (s_nx g) (fun x0 => h y0 x0 z) x')). apply finv_ext. intros y0 _. apply (ffwd_finv (s_nx g) (fun x0 => h y0 x0 z)). assumption.
Qed.
Lemma inv3_fwd3 g h y x z : in_grid g y x z -> inv3 g (fwd3 g h) y x z = h y x z.
Proof.
  intros (Y & X & Z). unfold fwd3, inv3.
  transitivity (finv (s_ny g) (fun y' => ffwd (s_ny g) (fun y0 => h y0 x z) y') y); [|apply (finv_ffwd (s_ny g) (fun y0 => h y0 x z)); assumption]. apply finv_ext. intros y' _.
  transitivity (finv (s_nx g) (fun x' => ffwd (s_ny g) (fun y0 => ffwd (s_nx g) (fun x0 => h y0 x0 z) x') y') x).
  - apply finv_ext. intros x' _. rewrite (fi_comm (s_ny g) (s_nz g) (fun z' y0 => ffwd (s_nx g) (fun x0 => ffwd (s_nz g) (fun z0 => h y0 x0 z0) z') x')). apply ffwd_ext. intros y0 _.
    rewrite (fi_comm (s_nx g) (s_nz g) (fun z' x0 => ffwd (s_nz g) (fun z0 => h y0 x0 z0) z')). apply ffwd_ext. intros x0 _. apply (finv_ffwd (s_nz g) (fun z0 => h y0 x0 z0)). assumption.
  - rewrite (fi_comm (s_ny g) (s_nx g) (fun x' y0 => ffwd (s_nx g) (fun x0 => h y0 x0 z) x')). apply ffwd_ext. intros y0 _. apply (finv_ffwd (s_nx g) (fun x0 => h y0 x0 z)). assumption.
Qed.

(* ------------------------------------------------------------------------------------------------ *)
(** * What a whole step keeps *)
(** Field entries outside the six components do not matter; the divergence of B at one wavevector. *)
Definition divB (c : spcfg) (s : spx) (y x z : nat) : cplx := div (x_g c) (fun i => f_k s (3 + i)%nat y x z) y x z.
Lemma div_cdot g v y x z : div g v y x z = cmul cI (cdot (fun j => nab g j y x z) v).
Proof. reflexivity. Qed.
Lemma lin_divB c A G gam s t y x z : divB c (lin_exp c A G gam s t) y x z = divB c s y x z.
Proof.
  unfold divB. rewrite !div_cdot. f_equal. destruct (C87_maxwell (fun j => nab (x_g c) j y x z) (fun j => f_k s j y x z)) as (_ & _ & _ & _ & H & _). apply (proj2 (H t)).
Qed.
(** The Lawson step without noise keeps the number of particles of each species and, at every wavevector, the divergence of B. *)
Theorem C88_step_invariants : forall c A G strength order t0 t1 y0, ok_cfg c A -> ok_lin c A G -> no_noise c ->
  let gam := gamma_n (d_n (x_de c)) strength order in
  let y1 := fst (lawson (lin_exp c A G gam) (spx_nonlinear c A) t0 t1 y0) in
  c_e y1 0%nat 0%nat 0%nat 0%nat 0%nat 0%nat = c_e y0 0%nat 0%nat 0%nat 0%nat 0%nat 0%nat /\
  c_i y1 0%nat 0%nat 0%nat 0%nat 0%nat 0%nat = c_i y0 0%nat 0%nat 0%nat 0%nat 0%nat 0%nat /\
  (forall y x z, divB c y1 y x z = divB c y0 y x z).
Proof.
  intros c A G st o t0 t1 y0 (Hg & He & Hi & _) (Ae & Ai & Ee & Ei) Nn gam. cbv zeta.
  assert (NE : forall s t, c_e (lin_exp c A G gam s t) 0%nat 0%nat 0%nat 0%nat 0%nat 0%nat = c_e s 0%nat 0%nat 0%nat 0%nat 0%nat 0%nat).
  { intros. unfold lin_exp. cbn [c_e]. apply (C87_number _ _ _ (a_u A)); assumption. }
  assert (NI : forall s t, c_i (lin_exp c A G gam s t) 0%nat 0%nat 0%nat 0%nat 0%nat 0%nat = c_i s 0%nat 0%nat 0%nat 0%nat 0%nat 0%nat).
  { intros. unfold lin_exp. cbn [c_i]. destruct (x_static c); [reflexivity|].
    transitivity (species_exp (x_di c) (g_i G) (ions (a_al A)) (gamma_n (d_n (x_di c)) 0 0) (a_nu A) (a_D A) (x_g c) (c_i s) t 0%nat 0%nat 0%nat 0%nat 0%nat 0%nat).
    - unfold gamma_n. destruct (Rlt_dec 0 0) as [L|_]; [lra|]. reflexivity.
    - apply (C87_number _ _ _ (ions (a_u A))); assumption. }
  assert (NB : forall t s y x z, divB c (spx_nonlinear c A t s) y x z = c0) by (intros; unfold divB, div, spx_nonlinear, nl_fields; cbn [f_k Nat.add Nat.ltb Nat.leb]; cxu; ring).
  unfold lawson. cbn [fst]. cbn [st_add st_scale c_e c_i f_k]. repeat split.
  - rewrite !NE. rewrite !(fun t s => proj1 (nonlinear_000 c A t s 0 0 0 Nn)). cxu; ring.
  - rewrite !NI. rewrite !(fun t s => proj2 (nonlinear_000 c A t s 0 0 0 Nn)). cxu; ring.
  - intros y x z. set (dt := t1 - t0).
    match goal with |- divB c (st_add ?a (st_scale (st_add (st_add ?b (st_scale ?d 2)) (st_add (st_scale ?e 2) ?f)) ?r)) y x z = _ =>
      transitivity (divB c a y x z +c r *c (divB c b y x z +c 2 *c divB c d y x z +c (2 *c divB c e y x z +c divB c f y x z))) end.
    + unfold divB, div. cbn [st_add st_scale f_k]. cxu; ring.
    + rewrite !lin_divB, !NB. cxu; ring.
Qed.
Print Assumptions C88_step_invariants.

(* ------------------------------------------------------------------------------------------------ *)
(** * Sponge and filter *)
Lemma damp_real g sg dt h y x z : in_grid g y x z -> inv3 g (damp3 g sg dt h) y x z = exp (- sg x * dt) *c inv3 g h y x z.
Proof. intros G. unfold damp3. apply (inv3_fwd3 g (fun y x z => exp (- sg x * dt) *c inv3 g h y x z)). assumption. Qed.
Lemma fwd3_scale g h h' y x z r : (forall y x z, in_grid g y x z -> h y x z = r *c h' y x z) -> fwd3 g h y x z = r *c fwd3 g h' y x z.
Proof.
  intros H. rewrite (fwd3_ext g h (fun y x z => r *c h' y x z +c 0 *c h' y x z)) by (intros; rewrite H by (unfold in_grid; auto); cxu; ring). rewrite fwd3_lin. cxu; ring.
Qed.
Lemma norm3 g h : ok_grid3 g -> rsum3 g (fun y x z => cabs2 (inv3 g h y x z)) = ncell g * rsum3 g (fun y x z => cabs2 (h y x z)).
Proof.
  intros Hg. pose proof (parseval3 g h h Hg) as P. apply (f_equal fst) in P. rewrite csum3_fst in P. unfold cscal in P at 1. cbn [fst] in P. rewrite csum3_fst in P.
  rewrite (rsum3_ext g _ (fun y x z => fst (cmul (conj (inv3 g h y x z)) (inv3 g h y x z)))) by (intros; unfold cabs2, cmul, conj; cbn [fst snd]; ring).
  rewrite P. f_equal. apply rsum3_ext. intros. unfold cabs2, cmul, conj; cbn [fst snd]; ring.
Qed.
Lemma rsum3_le g f h : (forall y x z, in_grid g y x z -> f y x z <= h y x z) -> rsum3 g f <= rsum3 g h.
Proof. intros H. unfold rsum3. apply rsum_le. intros. apply rsum_le. intros. apply rsum_le. intros. apply H. unfold in_grid. auto. Qed.
(** The sponge multiplies the fields and every Hermite mode except the density by exp(-sigma(x) dt) at each point of space; the
    density, at every wavevector, is untouched; two applications are one over the summed time; with non-negative profile and step
    it never increases the field energy. *)
Theorem C88_sponge : forall g sg dt dt' h C, ok_grid3 g ->
  (forall y x z, in_grid g y x z -> inv3 g (damp3 g sg dt h) y x z = exp (- sg x * dt) *c inv3 g h y x z) /\
  (forall p m n y x z, in_grid g y x z -> inv3 g (damp_species g (Some sg) dt C p m n) y x z =
     (if ((p =? 0) && (m =? 0) && (n =? 0))%nat%bool then inv3 g (C p m n) y x z else exp (- sg x * dt) *c inv3 g (C p m n) y x z)) /\
  (forall y x z, in_grid g y x z -> damp_species g (Some sg) dt C 0%nat 0%nat 0%nat y x z = C 0%nat 0%nat 0%nat y x z) /\
  (forall y x z, in_grid g y x z -> damp3 g sg dt' (damp3 g sg dt h) y x z = damp3 g sg (dt + dt') h y x z) /\
  (0 <= dt -> (forall x, (x < s_nx g)%nat -> 0 <= sg x) -> rsum3 g (fun y x z => cabs2 (damp3 g sg dt h y x z)) <= rsum3 g (fun y x z => cabs2 (h y x z))).
Proof.
  intros g sg dt dt' h C Hg. split; [intros; apply damp_real; assumption|]. split; [|split; [|split]].
  - intros p m n y x z G. unfold damp_species. rewrite inv3_fwd3 by assumption. destruct (_ && _)%bool; [apply cscal_1|reflexivity].
  - intros y x z G. unfold damp_species. cbn [Nat.eqb andb]. rewrite (fwd3_ext g _ (inv3 g (C 0%nat 0%nat 0%nat))) by (intros; apply cscal_1). apply fwd3_inv3. assumption.
  - intros y x z G. unfold damp3 at 1 3. apply fwd3_ext. intros y' x' z' Y X Z. rewrite damp_real by (unfold in_grid; auto). rewrite cscal_cscal, <- exp_plus. f_equal. f_equal. ring.
  - intros D S. apply Rmult_le_reg_l with (ncell g); [apply ncell_pos; assumption|]. rewrite <- !norm3 by assumption. apply rsum3_le. intros y x z G. rewrite damp_real by assumption. rewrite cabs2_scal.
    assert (X : 0 < exp (- sg x * dt) <= 1) by (split; [apply exp_pos|]; apply exp_le1; pose proof (Rmult_le_pos _ _ (S x (proj1 (proj2 G))) D); lra).
    assert (0 <= cabs2 (inv3 g h y x z)) by (unfold cabs2; pose proof (pow2_ge_0 (fst (inv3 g h y x z))); pose proof (pow2_ge_0 (snd (inv3 g h y x z))); nra).
    assert (exp (- sg x * dt) * exp (- sg x * dt) <= 1) by nra. nra.
Qed.
Print Assumptions C88_sponge.
(** The whole step - Lawson, sponge and filter - keeps the number of particles of each species. *)
Theorem C88_number : forall c A G strength order sp t0 t1 y0, ok_cfg c A -> ok_lin c A G -> no_noise c -> filter_ok (x_filter c) ->
  let y1 := fst (spx_step c A G (gamma_n (d_n (x_de c)) strength order) sp t0 t1 y0) in
  c_e y1 0%nat 0%nat 0%nat 0%nat 0%nat 0%nat = c_e y0 0%nat 0%nat 0%nat 0%nat 0%nat 0%nat /\
  c_i y1 0%nat 0%nat 0%nat 0%nat 0%nat 0%nat = c_i y0 0%nat 0%nat 0%nat 0%nat 0%nat 0%nat.
Proof.
  intros c A G st o sp t0 t1 y0 Hc L Nn Hf. cbv zeta. destruct (C88_step_invariants c A G st o t0 t1 y0 Hc L Nn) as (E & I & _). destruct Hc as ((GX & GY & GZ & GR) & _).
  assert (G0 : in_grid (x_g c) 0 0 0) by (unfold in_grid; auto).
  unfold spx_step. cbn [fst]. unfold apply_damping. cbn [c_e c_i]. unfold filtered. rewrite !houli_000 by assumption. rewrite !cscal_1.
  assert (Q : forall sg C, damp_species (x_g c) sg (t1 - t0) C 0%nat 0%nat 0%nat 0%nat 0%nat 0%nat = C 0%nat 0%nat 0%nat 0%nat 0%nat 0%nat).
  { intros [sg|] C; [|reflexivity]. destruct (C88_sponge (x_g c) sg (t1 - t0) 0 (C 0%nat 0%nat 0%nat) C) as (_ & _ & D & _); [unfold ok_grid3; auto|]. apply D. assumption. }
  rewrite !Q. split; assumption.
Qed.
Print Assumptions C88_number.
