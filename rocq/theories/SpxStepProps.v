(** Property C88: the Lawson-RK4 step and the split-step damping of the spectrax-1d solver. *)
From Coq Require Import FunctionalExtensionality Reals Lra Lia ZArith List Bool Psatz Morphisms Setoid.
From Verif Require Import HPForceProps Spectrax SpxExp SpxStep SpxProps SpxLaws SpxMore SpxExpProps SpxStream RSum Pic PicProofs PicFourier Dft HPProps.
Local Open Scope R_scope.
Local Open Scope cx_scope.

(* ------------------------------------------------------------------------------------------------ *)
(** * Equality of states: all entries the arrays have *)
Definition seq (c : spcfg) (s s' : spx) : Prop := forall y x z, in_grid (x_g c) y x z ->
  (forall p m n, in_dims (x_de c) p m n -> c_e s p m n y x z = c_e s' p m n y x z) /\
  (forall p m n, in_dims (x_di c) p m n -> c_i s p m n y x z = c_i s' p m n y x z) /\
  (forall i, (i < 6)%nat -> f_k s i y x z = f_k s' i y x z).
Lemma seq_equiv c : Equivalence (seq c).
Proof.
  constructor.
  - intros s y x z G. repeat split; reflexivity.
  - intros s s' H y x z G. destruct (H y x z G) as (A & B & C). repeat split; intros; symmetry; auto.
  - intros s s' s'' H H' y x z G. destruct (H y x z G) as (A & B & C), (H' y x z G) as (A' & B' & C'). repeat split; intros; [rewrite A by assumption; apply A'|rewrite B by assumption; apply B'|rewrite C by assumption; apply C']; assumption.
Qed.
#[export] Existing Instance seq_equiv.
#[export] Instance add_proper c : Proper (seq c ==> seq c ==> seq c) st_add.
Proof. intros s s' H r r' H' y x z G. destruct (H y x z G) as (A & B & C), (H' y x z G) as (A' & B' & C'). cbn [st_add c_e c_i f_k]. repeat split; intros; f_equal; auto. Qed.
#[export] Instance scale_proper c : Proper (seq c ==> eq ==> seq c) st_scale.
Proof. intros s s' H r r' -> y x z G. destruct (H y x z G) as (A & B & C). cbn [st_scale c_e c_i f_k]. repeat split; intros; f_equal; auto. Qed.
Lemma in_ext_fs d e a ks gam C C' s p m n : (forall p m n, in_dims d p m n -> C p m n = C' p m n) -> in_dims d p m n -> fs_apply d e a ks gam C s p m n = fs_apply d e a ks gam C' s p m n.
Proof.
  intros H (P & M & N). unfold fs_apply, fs_z. apply exp1_ext. intros p' P'. unfold fs_y. apply exp1_ext. intros m' M'. unfold fs_x. f_equal. apply exp1_ext. intros n' N'. apply H. unfold in_dims. auto.
Qed.
Lemma max_ext k F F' s i : (i < 6)%nat -> (forall j, (j < 6)%nat -> F j = F' j) -> max_exp k F s i = max_exp k F' s i.
Proof. intros I H. rewrite !max_rate by assumption. rewrite (H i I). rewrite (rate_ext k F F' i I H). rewrite (rate_ext k (maxwell_rate k F) (maxwell_rate k F') i I) by (intros; apply rate_ext; assumption). reflexivity. Qed.
#[export] Instance lin_proper c A G gam : Proper (seq c ==> eq ==> seq c) (lin_exp c A G gam).
Proof.
  intros s s' H r r' -> y x z I. destruct (H y x z I) as (A1 & B1 & C1). unfold lin_exp. cbn [c_e c_i f_k]. repeat split.
  - intros p m n D. unfold species_exp, diag_exp. f_equal. apply in_ext_fs; [|assumption]. intros. apply A1. assumption.
  - intros p m n D. destruct (x_static c); [apply B1; assumption|]. unfold species_exp, diag_exp. f_equal. apply in_ext_fs; [|assumption]. intros. apply B1. assumption.
  - intros i L. apply max_ext; assumption.
Qed.
(** The linear operator is linear. *)
Lemma fs_lin d e a ks gam C C' r s p m n : fs_apply d e a ks gam (fun p m n => C p m n +c r *c C' p m n) s p m n = fs_apply d e a ks gam C s p m n +c r *c fs_apply d e a ks gam C' s p m n.
Proof.
  assert (L : forall N lam V al k x x' n, exp1 N lam V al k (fun m => x m +c r *c x' m) s n = exp1 N lam V al k x s n +c r *c exp1 N lam V al k x' s n).
  { intros. rewrite (exp1_ext N lam V al k _ (fun m0 => x m0 +c cmul (r, 0) (x' m0))) by (intros; rewrite cmul_real; reflexivity). rewrite exp1_add, exp1_mul, cmul_real. reflexivity. }
  unfold fs_apply, fs_z. rewrite <- L. apply exp1_ext. intros p' _. unfold fs_y. rewrite <- L. apply exp1_ext. intros m' _. unfold fs_x. rewrite L.
  change (fun n' => C p' m' n') with (C p' m'). change (fun n' => C' p' m' n') with (C' p' m').
  set (u := exp1 (d_n d) (e_lx e) (e_vx e) (a 0%nat) (ks 0%nat) (C p' m') s n). set (v := exp1 (d_n d) (e_lx e) (e_vx e) (a 0%nat) (ks 0%nat) (C' p' m') s n).
  clearbody u v. cxu; ring.
Qed.
Lemma max_lin k F F' r s i : (i < 6)%nat -> max_exp k (fun j => F j +c r *c F' j) s i = max_exp k F s i +c r *c max_exp k F' s i.
Proof.
  intros I. rewrite !max_rate by assumption.
  assert (L : forall X Y j, (j < 6)%nat -> maxwell_rate k (fun j => X j +c r *c Y j) j = maxwell_rate k X j +c r *c maxwell_rate k Y j).
  { intros X Y j J. rewrite (rate_ext k _ (fun j => X j +c r *c Y j +c 0 *c Y j) j J) by (intros; cxu; ring). rewrite rate_lin by assumption. cxu; ring. }
  rewrite (rate_ext k (maxwell_rate k (fun j => F j +c r *c F' j)) (fun j => maxwell_rate k F j +c r *c maxwell_rate k F' j) i I) by (intros; apply L; assumption). rewrite !L by assumption.
  generalize (maxwell_rate k F i) (maxwell_rate k F' i) (maxwell_rate k (maxwell_rate k F) i) (maxwell_rate k (maxwell_rate k F') i). intros. cxu; ring.
Qed.
Lemma lin_lin c A G gam a b r s : seq c (lin_exp c A G gam (st_add a (st_scale b r)) s) (st_add (lin_exp c A G gam a s) (st_scale (lin_exp c A G gam b s) r)).
Proof.
  intros y x z I. unfold lin_exp, st_add, st_scale. cbn [c_e c_i f_k].
  assert (S : forall d e al gm nu D g C C' p m n, species_exp d e al gm nu D g (fun p m n y x z => C p m n y x z +c r *c C' p m n y x z) s p m n y x z
    = species_exp d e al gm nu D g C s p m n y x z +c r *c species_exp d e al gm nu D g C' s p m n y x z).
  { intros. unfold species_exp, diag_exp, at_pt. rewrite (fs_lin d e al (fun i => nab g i y x z) gm (fun p m n => C p m n y x z) (fun p m n => C' p m n y x z)).
    generalize (fs_apply d e al (fun i => nab g i y x z) gm (fun p m n => C p m n y x z) s p m n) (fs_apply d e al (fun i => nab g i y x z) gm (fun p m n => C' p m n y x z) s p m n). intros. cxu; ring. }
  repeat split.
  - intros. apply S.
  - intros. destruct (x_static c); [reflexivity|]. apply S.
  - intros i L. apply (max_lin (fun j => nab (x_g c) j y x z) (fun j => f_k a j y x z) (fun j => f_k b j y x z)). assumption.
Qed.
Lemma lin_add c A G gam a b s : seq c (lin_exp c A G gam (st_add a b) s) (st_add (lin_exp c A G gam a s) (lin_exp c A G gam b s)).
Proof.
  assert (O : forall b, seq c (st_scale b 1) b) by (intros w y x z _; cbn [st_scale c_e c_i f_k]; repeat split; intros; apply cscal_1).
  rewrite <- (O b) at 1. rewrite lin_lin, O. reflexivity.
Qed.
Definition st_zero : spx := {| c_e := fun _ _ _ _ _ _ => c0; c_i := fun _ _ _ _ _ _ => c0; f_k := fun _ _ _ _ => c0 |}.
Lemma lin_scale c A G gam b r s : seq c (lin_exp c A G gam (st_scale b r) s) (st_scale (lin_exp c A G gam b s) r).
Proof.
  assert (B : forall r w, seq c (st_scale w r) (st_add w (st_scale w (r - 1)))) by (intros q w y x z _; cbn [st_add st_scale c_e c_i f_k]; repeat split; intros; cxu; ring).
  rewrite (B r b), lin_lin, <- (B r). reflexivity.
Qed.
Lemma st_zero_scale c a : seq c st_zero (st_scale a 0).
Proof. intros y x z _. cbn [st_zero st_scale c_e c_i f_k]. repeat split; intros; cxu; ring. Qed.
Lemma lin_zero c A G gam s : seq c (lin_exp c A G gam st_zero s) st_zero.
Proof. rewrite (st_zero_scale c st_zero) at 1. rewrite lin_scale, <- st_zero_scale. reflexivity. Qed.
(** Without collisions and filter it is a group. *)
Lemma lin_group c A G st s t : ok_lin c A G -> a_nu A = 0 -> seq c (lin_exp c A G nogam (lin_exp c A G nogam st s) t) (lin_exp c A G nogam st (s + t)).
Proof.
  intros L N0 y x z I. repeat split.
  - intros p m n D. destruct (C87_combined c A G st y x z L) as (_ & _ & _ & _ & H). apply H; assumption.
  - intros p m n D. unfold lin_exp at 1 3. cbn [c_i]. destruct (x_static c) eqn:Es.
    + unfold lin_exp. cbn [c_i]. rewrite Es. reflexivity.
    + unfold lin_exp. cbn [c_i]. rewrite Es.
      set (c' := {| x_g := x_g c; x_de := x_di c; x_di := x_di c; x_static := true; x_filter := None; x_noise_e := x_noise_e c; x_noise_i := x_noise_i c; x_drive := x_drive c |}).
      set (A2 := {| a_q := a_q A; a_nu := a_nu A; a_D := a_D A; a_Om := a_Om A; a_mi := a_mi A; a_al := fun i => a_al A (3 + i mod 3)%nat; a_u := fun i => a_u A (3 + i mod 3)%nat |}).
      destruct L as (Ae & Ai & Ee & Ei).
      destruct (C87_combined c' A2 {| g_e := g_i G; g_i := g_i G |} {| c_e := c_i st; c_i := c_i st; f_k := f_k st |} y x z) as (_ & _ & _ & _ & H).
      { repeat split; cbn; try apply Ai; try apply Ei. }
      exact (H N0 s t p m n D).
  - intros i J. destruct (C87_maxwell (fun j => nab (x_g c) j y x z) (fun j => f_k st j y x z)) as (_ & _ & M & _). apply (M s t i J).
Qed.
Lemma lin_at0 c A G st : ok_lin c A G -> seq c (lin_exp c A G nogam st 0) st.
Proof.
  intros L y x z I. repeat split.
  - intros p m n D. destruct (C87_combined c A G st y x z L) as (_ & _ & H & _). apply H; assumption.
  - intros p m n D. unfold lin_exp. cbn [c_i]. destruct (x_static c); [reflexivity|]. destruct L as (Ae & Ai & Ee & Ei).
    unfold species_exp, diag_exp. change (fun _ : nat => 0) with nogam. rewrite (proj1 (C87_streaming _ _ _ _ _ _ Ai Ei)) by assumption.
    rewrite !Rmult_0_r, Rplus_0_r, exp_0. apply cscal_1.
  - intros i J. destruct (C87_maxwell (fun j => nab (x_g c) j y x z) (fun j => f_k st j y x z)) as (M & _). apply (M i J).
Qed.

(* ------------------------------------------------------------------------------------------------ *)
(** * The Lawson step *)
(** Specification: one classical Runge-Kutta step of v' = g(tau, v) over [0, h]. *)
Definition rk4 (g : R -> spx -> spx) (h : R) (v : spx) : spx :=
  let k1 := g 0 v in
  let k2 := g (h / 2) (st_add v (st_scale k1 (h / 2))) in
  let k3 := g (h / 2) (st_add v (st_scale k2 (h / 2))) in
  let k4 := g h (st_add v (st_scale k3 h)) in
  st_add v (st_add (st_scale k1 (h / 6)) (st_add (st_scale k2 (h / 3)) (st_add (st_scale k3 (h / 3)) (st_scale k4 (h / 6))))).
(** A right-hand side that only reads the entries the arrays have. *)
Definition respects (c : spcfg) (N : R -> spx -> spx) : Prop := forall t s s', seq c s s' -> seq c (N t s) (N t s').
#[export] Instance respects_proper c N (H : respects c N) : Proper (eq ==> seq c ==> seq c) N.
Proof. intros t t' -> s s' E. apply H. assumption. Qed.
#[export] Instance sub_proper c : Proper (seq c ==> seq c ==> seq c) st_sub.
Proof. intros s s' H r r' H' y x z G. destruct (H y x z G) as (A & B & C), (H' y x z G) as (A' & B' & C'). cbn [st_sub c_e c_i f_k]. repeat split; intros; f_equal; auto. Qed.
Ltac stx := intros ? ? ? _; cbn [st_add st_scale st_sub st_zero c_e c_i f_k]; repeat split; intros; cxu; field.
Theorem C88_integrating_factor : forall c A G N t0 dt y0, ok_lin c A G -> a_nu A = 0 -> respects c N ->
  seq c (fst (lawson (lin_exp c A G nogam) N t0 (t0 + dt) y0))
        (lin_exp c A G nogam (rk4 (fun tau v => lin_exp c A G nogam (N (t0 + tau) (lin_exp c A G nogam v tau)) (- tau)) dt y0) dt).
Proof.
  intros c A G N t0 dt y0 L N0 HN. unfold lawson, rk4. cbn [fst]. replace (t0 + dt - t0) with dt by ring. rewrite Rplus_0_r, Ropp_0.
  set (E := lin_exp c A G nogam).
  assert (EP : Proper (seq c ==> eq ==> seq c) E) by apply lin_proper. pose proof (respects_proper c N HN) as NP.
  assert (GR : forall s t v, seq c (E (E v s) t) (E v (s + t))) by (intros; apply lin_group; assumption).
  assert (E0 : forall v, seq c (E v 0) v) by (intros; apply lin_at0; assumption).
  assert (BK : forall s v, seq c (E (E v (- s)) s) v) by (intros; rewrite GR; replace (- s + s) with 0 by ring; apply E0).
  assert (LL : forall a b r s, seq c (E (st_add a (st_scale b r)) s) (st_add (E a s) (st_scale (E b s) r))) by (intros; apply lin_lin).
  set (h := dt / 2). assert (HH : dt = h + h) by (unfold h; field).
  set (k1 := E (N t0 (E y0 0)) 0).
  assert (K1 : seq c k1 (N t0 y0)) by (unfold k1; rewrite !E0; reflexivity).
  set (k2 := E (N (t0 + h) (E (st_add y0 (st_scale k1 h)) h)) (- h)).
  set (N2 := N (t0 + h) (st_add (E y0 h) (st_scale (E (N t0 y0) h) h))).
  assert (K2 : seq c (E k2 h) N2) by (unfold k2, N2; rewrite BK, LL, K1; reflexivity).
  set (k3 := E (N (t0 + h) (E (st_add y0 (st_scale k2 h)) h)) (- h)).
  set (N3 := N (t0 + h) (st_add (E y0 h) (st_scale N2 h))).
  assert (K3 : seq c (E k3 h) N3) by (unfold k3, N3; rewrite BK, LL, K2; reflexivity).
  set (k4 := E (N (t0 + dt) (E (st_add y0 (st_scale k3 dt)) dt)) (- dt)).
  set (N4 := N (t0 + dt) (st_add (E y0 dt) (st_scale (E N3 h) dt))).
  assert (K3' : seq c (E k3 dt) (E N3 h)) by (rewrite HH, <- GR, K3; reflexivity).
  assert (K2' : seq c (E k2 dt) (E N2 h)) by (rewrite HH, <- GR, K2; reflexivity).
  assert (K4 : seq c (E k4 dt) N4) by (unfold k4, N4; rewrite BK, LL, K3'; reflexivity).

  assert (LA : forall a b s, seq c (E (st_add a b) s) (st_add (E a s) (E b s))) by (intros; apply lin_add).
  assert (LS : forall a r s, seq c (E (st_scale a r) s) (st_scale (E a s) r)) by (intros; apply lin_scale).
  rewrite !LA, !LS, K4, K3', K2', K1. generalize (E y0 dt) (E (N t0 y0) dt) (E N2 h) (E N3 h) N4. intros. stx.
Qed.
Print Assumptions C88_integrating_factor.

Lemma shiftm_ext d a b e C C' p m n : (forall p m n, in_dims d p m n -> C p m n = C' p m n) -> shiftm d a b e C p m n = shiftm d a b e C' p m n.
Proof.
  intros H. unfold shiftm, inb. destruct (_ && _)%bool eqn:B; [|reflexivity].
  apply andb_prop in B. destruct B as (B & B3). apply andb_prop in B. destruct B as (B1 & B2).
  apply andb_prop in B1, B2, B3. destruct B1 as (?%Z.leb_le & ?%Z.ltb_lt), B2 as (?%Z.leb_le & ?%Z.ltb_lt), B3 as (?%Z.leb_le & ?%Z.ltb_lt). apply H. unfold in_dims. lia.
Qed.
Lemma lor_ext d a u F F' C C' p m n : (forall i, (i < 6)%nat -> F i = F' i) -> (forall p m n, in_dims d p m n -> C p m n = C' p m n) -> lor d a u F C p m n = lor d a u F' C' p m n.
Proof.
  intros HF HC. pose proof (fun a b e p m n => shiftm_ext d a b e C C' p m n HC) as S. unfold lor, aux_x, aux_y, aux_z. rewrite !S, !HF by lia. reflexivity.
Qed.
Lemma real_ext g h h' y x z : (forall y x z, in_grid g y x z -> h y x z = h' y x z) -> to_real g h y x z = to_real g h' y x z.
Proof. intros H. unfold to_real. apply inv3_ext. intros. rewrite H by (unfold in_grid; auto). reflexivity. Qed.
Lemma cur_ext d q a u C C' i : ok_dims d -> (forall p m n, in_dims d p m n -> C p m n = C' p m n) -> current_s d q a u C i = current_s d q a u C' i.
Proof.
  intros (A & B & D) H. unfold current_s. rewrite (H 0%nat 0%nat 0%nat) by (unfold in_dims; auto). f_equal. f_equal. f_equal. f_equal.
  destruct i as [|[|i]]; match goal with |- context [if ?b then _ else _] => destruct b eqn:E end; try reflexivity; apply Nat.ltb_lt in E; apply H; unfold in_dims; lia.
Qed.
(** The nonlinear right-hand side of the solver only reads the entries the arrays have. *)
Lemma nonlinear_respects c A : ok_cfg c A -> respects c (spx_nonlinear c A).
Proof.
  intros (Hg & He & Hi & _) t s s' H.
  assert (FE : forall i y x z, (i < 6)%nat -> to_real (x_g c) (f_k s i) y x z = to_real (x_g c) (f_k s' i) y x z) by (intros i y x z I; apply real_ext; intros y' x' z' G; apply (H y' x' z' G); assumption).
  assert (TC : forall y x z i, in_grid (x_g c) y x z -> total_current c A s y x z i = total_current c A s' y x z i).
  { intros y x z i G. unfold total_current. destruct (H y x z G) as (A1 & B1 & _).
    rewrite (cur_ext _ _ _ _ (at_pt (c_e s) y x z) (at_pt (c_e s') y x z) i He A1), (cur_ext _ _ _ _ (at_pt (c_i s) y x z) (at_pt (c_i s') y x z) i Hi B1). reflexivity. }
  assert (SP : forall d q mass a u C C' p m n y x z, (forall p m n y x z, in_grid (x_g c) y x z -> in_dims d p m n -> C p m n y x z = C' p m n y x z) ->
     nl_species c A d q mass a u (fun i => to_real (x_g c) (f_k s i)) C p m n y x z = nl_species c A d q mass a u (fun i => to_real (x_g c) (f_k s' i)) C' p m n y x z).
  { intros d q mass a u C C' p m n y x z HC. unfold nl_species, filtered, lorentz_rhs. f_equal. f_equal. f_equal. apply fwd3_ext. intros y' x' z' Y X Z.
    apply lor_ext; [intros; apply FE; assumption|]. intros p' m' n' D. unfold at_pt. apply real_ext. intros. apply HC; assumption. }
  intros y x z G. unfold spx_nonlinear. cbn [c_e c_i f_k]. repeat split.
  - intros p m n D. unfold add_noise. rewrite (SP (x_de c) (a_q A 0%nat) 1 (a_al A) (a_u A) (c_e s) (c_e s')); [reflexivity|]. intros p' m' n' y' x' z' G' D'. apply (H y' x' z' G'). assumption.
  - intros p m n D. destruct (x_static c); [reflexivity|]. unfold add_noise. rewrite (SP (x_di c) (a_q A 1%nat) (a_mi A) (ions (a_al A)) (ions (a_u A)) (c_i s) (c_i s')); [reflexivity|]. intros p' m' n' y' x' z' G' D'. apply (H y' x' z' G'). assumption.
  - intros i I. unfold nl_fields. rewrite TC by assumption. reflexivity.
Qed.
(** Consequences: no nonlinear term - the step is the linear operator and the error estimate is zero; a nonlinear term mu y - the
    step is exp(L dt) times the fourth-order Taylor polynomial of exp(mu dt), and the error estimate is -(z^3 + z^4)/12; a
    right-hand side without linear part - classical RK4. *)
Theorem C88_linear : forall c A G gam t0 dt y0, respects c (fun _ _ => st_zero) /\
  seq c (fst (lawson (lin_exp c A G gam) (fun _ _ => st_zero) t0 (t0 + dt) y0)) (lin_exp c A G gam y0 dt) /\
  seq c (snd (lawson (lin_exp c A G gam) (fun _ _ => st_zero) t0 (t0 + dt) y0)) st_zero.
Proof.
  intros c A G gam t0 dt y0. split; [intros t s s' _; reflexivity|]. unfold lawson. cbn [fst snd]. replace (t0 + dt - t0) with dt by ring.
  rewrite !lin_zero. split; generalize (lin_exp c A G gam y0 dt); intros; stx.
Qed.
Print Assumptions C88_linear.
Theorem C88_amplification : forall c A G mu t0 dt y0, ok_lin c A G -> a_nu A = 0 ->
  let z := mu * dt in
  let res := lawson (lin_exp c A G nogam) (fun _ s => st_scale s mu) t0 (t0 + dt) y0 in
  seq c (fst res) (st_scale (lin_exp c A G nogam y0 dt) (1 + z + z ^ 2 / 2 + z ^ 3 / 6 + z ^ 4 / 24)) /\
  seq c (snd res) (st_scale (lin_exp c A G nogam y0 dt) (- (z ^ 3 + z ^ 4) / 12)).
Proof.
  intros c A G mu t0 dt y0 L N0 z. unfold lawson. cbv zeta. cbn [fst snd]. replace (t0 + dt - t0) with dt by ring.
  set (E := lin_exp c A G nogam).
  assert (EP : Proper (seq c ==> eq ==> seq c) E) by apply lin_proper.
  assert (GR : forall s t v, seq c (E (E v s) t) (E v (s + t))) by (intros; apply lin_group; assumption).
  assert (LA : forall a b s, seq c (E (st_add a b) s) (st_add (E a s) (E b s))) by (intros; apply lin_add).
  assert (LS : forall a r s, seq c (E (st_scale a r) s) (st_scale (E a s) r)) by (intros; apply lin_scale).
  assert (HH : dt / 2 + dt / 2 = dt) by field.
  repeat (rewrite LA || rewrite LS || rewrite GR || rewrite HH). generalize (E y0 dt). intros w. unfold z. split; stx.
Qed.
Print Assumptions C88_amplification.
