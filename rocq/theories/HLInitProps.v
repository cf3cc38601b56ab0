(** Set-up and initial state of the Hermite-Legendre solver. *)
From Coq Require Import Reals Lra Lia ZArith List Bool Psatz.
From Verif Require Import HermitePoisson HPProps HPForceProps HPStepProps Legendre HermLeg HLBasis HermLegProps HLColl HLStep HLStepProps HLStepProps2 HLInit VGrid PyStr PicProofs RSum Pic PicFourier Dft.
Import ListNotations.
Local Open Scope R_scope.

(* ------------------------------------------------------------------------------------------------ *)
(** * Specification *)
(** The requested profile 1 + eps cos(2 pi mode x / Lx), and the Maxwellian of unit density with thermal width alpha and drift u. *)
Definition wave (eps : R) (md : Z) (Lx x : R) : R := 1 + eps * cos (2 * PI * IZR md * x / Lx).
Definition unit_maxwellian (alpha u v : R) : R := exp (- ((v - u) / alpha) ^ 2) / (sqrt PI * alpha).
Definition is_type (i : icfg) (s : str) : Prop := i_type i = Some s \/ i_type i = None /\ s = lit "linear-advection".

(* ------------------------------------------------------------------------------------------------ *)
(** * Lemmas *)
Lemma back_C nx r n g : (g < nx)%nat -> finv nx (fst (to_k nx r) n) g = (fst r n g, 0).
Proof. intros H. unfold to_k. cbn [fst snd]. now rewrite finv_ffwd. Qed.
Lemma back_B nx r n g : (g < nx)%nat -> finv nx (snd (to_k nx r) n) g = (snd r n g, 0).
Proof. intros H. unfold to_k. cbn [fst snd]. now rewrite finv_ffwd. Qed.
Lemma ffwd_mean nx (f : nat -> R) : ffwd nx (fun g => (f g, 0)) 0 = (rsum nx f / INR nx, 0).
Proof. unfold ffwd. change (fun g => (f g, 0)) with (emb f). rewrite <- fft_emb, fft_0. apply cplx_eq; cbn [fst snd cscal]; unfold cscal; cbn [fst snd]; unfold Rdiv; ring. Qed.
Lemma type_dflt i s : is_type i s -> dflt (i_type i) (lit "linear-advection") = s.
Proof. intros [->|[-> ->]]; reflexivity. Qed.
Lemma psi0_eq alpha u v : 0 < alpha -> psi alpha u 0 v = alpha * unit_maxwellian alpha u v.
Proof. intros Ha. assert (0 < sqrt PI) by (apply sqrt_lt_R0; exact PI_RGT_0). rewrite psi_eq, hnorm_0. unfold unit_maxwellian. field. lra. Qed.
Lemma hnorm_2 z : hnorm 2 z = (4 * z ^ 2 - 2) / sqrt 8.
Proof. unfold hnorm. rewrite hermite_SS, hermite_1, hermite_0. change (INR 1) with 1. change (fact 2) with 2%nat. change (INR 2) with (1 + 1). replace (2 ^ 2 * (1 + 1)) with 8 by ring. f_equal. ring. Qed.
Lemma psi2_eq alpha u v : 0 < alpha -> let z := (v - u) / alpha in psi alpha u 2 v = (2 * z ^ 2 - 1) / sqrt 2 * psi alpha u 0 v.
Proof.
  intros Ha z. assert (0 < sqrt PI) by (apply sqrt_lt_R0; exact PI_RGT_0). assert (0 < sqrt 2) by (apply sqrt_lt_R0; lra). rewrite !psi_eq, hnorm_0, hnorm_2. fold z.
  replace (sqrt 8) with (2 * sqrt 2). { field. lra. }
  replace 8 with (2 * 2 * 2) by ring. rewrite sqrt_mult by lra. rewrite sqrt_square by lra. reflexivity.
Qed.
Lemma prof_wave Lx nx g base eps md : density_profile (hl_x Lx nx g) Lx base eps md = base * wave eps md Lx (hl_x Lx nx g).
Proof. reflexivity. Qed.
Lemma density_moment alpha u va vb Nh Nl C B : 0 < alpha -> va < vb -> (0 < Nh)%nat -> (0 < Nl)%nat ->
  velocity_moment alpha u va vb Nh Nl C B (fun _ => 1) (alpha * C 0%nat + (vb - va) * B 0%nat).
Proof.
  intros Ha Hv HN HL. exists (alpha * C 0%nat), ((vb - va) * B 0%nat). repeat split.
  - pose proof (line_rsum Nh (fun n => psi alpha u n) (fun n => if (n =? 0)%nat then alpha else 0) C (fun n _ => psi_integral alpha u n Ha)) as L.
    eapply line_ext; [| |exact L]; [intros x; cbv beta; unfold f0; ring|].
    rewrite (rsum_single Nh 0); [cbn [Nat.eqb]; ring|lia|]. intros j _ N. destruct (Nat.eqb_spec j 0); [lia|ring].
  - pose proof (integral_rsum Nl (lbasis va vb) va vb (fun m => if (m =? 0)%nat then vb - va else 0) B (fun m _ => xi_0 va vb m Hv)) as L.
    eapply integral_ext; [| |exact L]; [intros x; cbv beta; unfold df; ring|].
    rewrite (rsum_single Nl 0); [cbn [Nat.eqb]; ring|lia|]. intros j _ N. destruct (Nat.eqb_spec j 0); [lia|ring].
Qed.
Lemma lbasis_0 va vb v : lbasis va vb 0 v = 1.
Proof. rewrite lbasis_legd. change (INR 0) with 0. replace (2 * 0 + 1) with 1 by ring. rewrite sqrt_1, legd_0. cbn [Nat.eqb]. ring. Qed.

(* ------------------------------------------------------------------------------------------------ *)
(** * The initial distribution *)
(** linear-advection starts from the Maxwellian times the density wave at every cell and velocity; two-stream from 2 z^2 times
    that (two humps) when Nh > 2 — with Nh <= 2 it silently starts from the single Maxwellian. *)
Theorem C96_initial_distribution : forall nodes weights nx Nh Nl alpha u va vb Lx i r g v, 0 < alpha -> (0 < Nh)%nat -> (g < nx)%nat ->
  hl_init nodes weights nx Nh Nl alpha va vb Lx i = Some r ->
  let f := dist_f alpha u va vb nx Nh Nl (to_k nx r) g v in let x := hl_x Lx nx g in let md := dflt (i_mode i) 1%Z in
  (is_type i (lit "linear-advection") -> f = wave (dflt (i_eps i) 1) md Lx x * unit_maxwellian alpha u v) /\
  (is_type i (lit "two-stream") -> (3 <= Nh)%nat -> f = wave (dflt (i_eps i) (1 / 100)) md Lx x * (2 * ((v - u) / alpha) ^ 2 * unit_maxwellian alpha u v)) /\
  (is_type i (lit "two-stream") -> (Nh < 3)%nat -> f = wave (dflt (i_eps i) (1 / 100)) md Lx x * unit_maxwellian alpha u v).
Proof.
  intros nodes weights nx Nh Nl alpha u va vb Lx i r g v Ha HN Hg H f x md.
  assert (F : f = rsum Nh (fun n => fst r n g * psi alpha u n v) + rsum Nl (fun m => snd r m g * xi_win va vb m v)).
  { unfold f, dist_f. f_equal; apply rsum_ext; intros n _; [rewrite back_C by exact Hg|rewrite back_B by exact Hg]; reflexivity. }
  assert (S2 : 0 < sqrt 2) by (apply sqrt_lt_R0; lra). pose proof (sqrt_sqrt 2 ltac:(lra)) as Q2.
  assert (P : forall base eps k, density_profile (hl_x Lx nx g) Lx base eps k = base * wave eps k Lx x) by reflexivity.
  rewrite F. unfold hl_init in H. cbv zeta in H. split; [|split]; intros T.
  - rewrite (type_dflt _ _ T) in H. cbn in H. injection H as <-. cbn [fst snd].
    rewrite (rsum_single Nh 0), rsum_zero_ext; [|intros; ring|lia|intros j _ N; unfold set_row; destruct (Nat.eqb_spec j 0); [lia|ring]].
    unfold set_row. cbn [Nat.eqb]. rewrite psi0_eq by exact Ha. rewrite P; fold md. field. lra.
  - intros H3. rewrite (type_dflt _ _ T) in H. cbn - [Nat.ltb sqrt] in H. rewrite (proj2 (Nat.ltb_lt 2 Nh)) in H by lia. injection H as <-. cbn [fst snd].
    rewrite (rsum_two Nh 0 2) by (first [lia | intros j Hj A B; unfold set_row; destruct (Nat.eqb_spec j 2); [lia|]; destruct (Nat.eqb_spec j 0); [lia|ring]]).
    rewrite rsum_zero_ext by (intros; ring). unfold set_row. cbn [Nat.eqb]. rewrite psi2_eq, psi0_eq by exact Ha. rewrite P; fold md. field. lra.
  - intros H3. rewrite (type_dflt _ _ T) in H. cbn - [Nat.ltb sqrt] in H. rewrite (proj2 (Nat.ltb_ge 2 Nh)) in H by lia. injection H as <-. cbn [fst snd].
    rewrite (rsum_single Nh 0), rsum_zero_ext; [|intros; ring|lia|intros j _ N; unfold set_row; destruct (Nat.eqb_spec j 0); [lia|ring]].
    unfold set_row. cbn [Nat.eqb]. rewrite psi0_eq by exact Ha. rewrite P; fold md. field. lra.
Qed.
Print Assumptions C96_initial_distribution.

(** The velocity integral of the initial distribution at every cell: the requested density wave, and for bump-on-tail
    (1 - n_beam) times the wave plus the quadrature of the beam over the Legendre window. An unknown type is rejected. *)
Definition the_beam (i : icfg) : beam := {| b_amp := dflt (i_nbeam i) (1 / 100) / (sqrt (2 * PI) * dflt (i_vth i) 1); b_drift := dflt (i_vdrift i) 10; b_vth := dflt (i_vth i) 1 |}.
Definition window_sum (nodes weights : nat -> R) (Nl : nat) (va vb : R) (h : R -> R) : R :=
  rsum (Nat.max (4 * Nl) 400) (fun q => (vb - va) / 2 * weights q * h ((vb - va) / 2 * nodes q + (va + vb) / 2)).
Lemma project_0 nodes weights h Nl va vb : va < vb -> (vb - va) * project_legendre nodes weights h Nl va vb 0 = window_sum nodes weights Nl va vb h.
Proof.
  intros Hv. unfold project_legendre, window_sum, proj_deg. transitivity (rsum (Nat.max (4 * Nl) 400) (fun q => lbasis va vb 0 (proj_v va vb nodes q) * (h (proj_v va vb nodes q) * proj_w va vb weights q))); [field; lra|].
  apply rsum_ext. intros q _. rewrite lbasis_0. unfold proj_w, proj_v. replace (1 / 2 * (vb - va) * nodes q + 1 / 2 * (vb + va)) with ((vb - va) / 2 * nodes q + (va + vb) / 2) by field. field.
Qed.
Theorem C96_initial_density : forall nodes weights nx Nh Nl alpha u va vb Lx i, 0 < alpha -> va < vb -> (0 < Nh)%nat -> (0 < Nl)%nat ->
  let known := [lit "linear-advection"; lit "two-stream"; lit "bump-on-tail"; lit "custom"] in
  ((forall s, is_type i s -> ~ In s known) -> hl_init nodes weights nx Nh Nl alpha va vb Lx i = None) /\
  forall r, hl_init nodes weights nx Nh Nl alpha va vb Lx i = Some r -> forall g, (g < nx)%nat ->
  let x := hl_x Lx nx g in let md := dflt (i_mode i) 1%Z in
  let dens := velocity_moment alpha u va vb Nh Nl (fun n => fst (finv nx (fst (to_k nx r) n) g)) (fun m => fst (finv nx (snd (to_k nx r) m) g)) (fun _ => 1) in
  (is_type i (lit "linear-advection") -> dens (wave (dflt (i_eps i) 1) md Lx x)) /\
  (is_type i (lit "two-stream") -> dens (wave (dflt (i_eps i) (1 / 100)) md Lx x)) /\
  (is_type i (lit "bump-on-tail") -> dens ((1 - dflt (i_nbeam i) (1 / 100)) * wave (dflt (i_eps i) (1 / 10000)) md Lx x + window_sum nodes weights Nl va vb (gauss_beam (the_beam i)))).
Proof.
  intros nodes weights nx Nh Nl alpha u va vb Lx i Ha Hv HN HL known. split.
  - intros Hk. assert (T : is_type i (dflt (i_type i) (lit "linear-advection"))) by (unfold is_type; destruct (i_type i); cbn [dflt]; auto).
    apply Hk in T. unfold hl_init. set (s := dflt (i_type i) (lit "linear-advection")) in *. cbv zeta.
    assert (NE : forall k, In k known -> str_eqb s k = false).
    { intros k Ik. destruct (str_eqb s k) eqn:E; [|reflexivity]. apply str_eqb_eq in E. subst k. contradiction. }
    rewrite !NE by (unfold known; cbn; auto). reflexivity.
  - intros r H g Hg x md dens.
    assert (D : dens (alpha * fst r 0%nat g + (vb - va) * snd r 0%nat g)).
    { unfold dens. pose proof (density_moment alpha u va vb Nh Nl (fun n => fst (finv nx (fst (to_k nx r) n) g)) (fun m => fst (finv nx (snd (to_k nx r) m) g)) Ha Hv HN HL) as M.
      cbv beta in M. rewrite back_C in M by exact Hg. rewrite back_B in M by exact Hg. exact M. }
    assert (P : forall base eps k, density_profile (hl_x Lx nx g) Lx base eps k = base * wave eps k Lx x) by reflexivity.
    unfold hl_init in H. cbv zeta in H. split; [|split]; intros T; rewrite (type_dflt _ _ T) in H; cbn - [Nat.ltb sqrt project_legendre] in H.
    + injection H as <-. cbn [fst snd] in D. unfold set_row in D. cbn [Nat.eqb] in D. rewrite P in D; fold md in D.
      replace (wave (dflt (i_eps i) 1) md Lx x) with (alpha * (1 * wave (dflt (i_eps i) 1) md Lx x / alpha) + (vb - va) * 0) by (field; lra). exact D.
    + injection H as <-. cbn [fst snd] in D. fold x in D. fold md in D.
      assert (E : (if (2 <? Nh)%nat then set_row (set_row (fun _ _ : nat => 0) 0 (fun g0 => density_profile (hl_x Lx nx g0) Lx 1 (dflt (i_eps i) (1 / 100)) md / alpha)) 2
                     (fun g0 => sqrt 2 * set_row (fun _ _ : nat => 0) 0 (fun g1 => density_profile (hl_x Lx nx g1) Lx 1 (dflt (i_eps i) (1 / 100)) md / alpha) 0%nat g0)
                   else set_row (fun _ _ : nat => 0) 0 (fun g0 => density_profile (hl_x Lx nx g0) Lx 1 (dflt (i_eps i) (1 / 100)) md / alpha)) 0%nat g = wave (dflt (i_eps i) (1 / 100)) md Lx x / alpha).
      { destruct (2 <? Nh)%nat; unfold set_row; cbn [Nat.eqb]; rewrite P; fold md; field; lra. }
      replace (wave (dflt (i_eps i) (1 / 100)) md Lx x) with (alpha * (wave (dflt (i_eps i) (1 / 100)) md Lx x / alpha) + (vb - va) * 0) by (field; lra). rewrite <- E. exact D.
    + injection H as <-. cbn [fst snd] in D. unfold set_row in D. cbn [Nat.eqb] in D. rewrite P in D; fold md in D.
      fold (the_beam i) in D. rewrite project_0 in D by exact Hv. 
      replace ((1 - dflt (i_nbeam i) (1 / 100)) * wave (dflt (i_eps i) (1 / 10000)) md Lx x) with (alpha * ((1 - dflt (i_nbeam i) (1 / 100)) * wave (dflt (i_eps i) (1 / 10000)) md Lx x / alpha)) by (field; lra). exact D.
Qed.
Print Assumptions C96_initial_density.
