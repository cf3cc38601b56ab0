(** Gauss's law and equilibrium for the initial condition of spectrax-1d, and the configurations for which they fail. *)
From Coq Require Import Reals Lra Lia ZArith List Bool Arith.
From Verif Require Import SpxInit Tf1dProps SpxProps SpxLaws SpxMore VGridProofs SpxInitProps.
From Verif Require Import Dft.
Local Open Scope R_scope.
Local Open Scope cx_scope.

(** A perturbation along exactly one axis, with a positive mode number. *)
Definition one_axis (nx ny nz : Z) : Prop :=
  (0 < nx /\ ny = 0 /\ nz = 0 \/ nx = 0 /\ 0 < ny /\ nz = 0 \/ nx = 0 /\ ny = 0 /\ 0 < nz)%Z.
Definition isotropic (al : nat -> R) : Prop := al 0%nat <> 0 /\ al 3%nat <> 0 /\ al 1%nat = al 0%nat /\ al 2%nat = al 0%nat /\ al 4%nat = al 3%nat /\ al 5%nat = al 3%nat.

Definition hit (g : sgrid) (nx ny nz : Z) (y x z : nat) : bool := ((y =? ix (s_ny g) ny) && (x =? ix (s_nx g) nx) && (z =? ix (s_nz g) nz))%nat%bool.
Lemma hit_nab g nx ny nz y x z : ok_grid3 g -> resolved3 g nx ny nz -> hit g nx ny nz y x z = true ->
  nab g 0 y x z = IZR nx * 2 * PI / s_lx g /\ nab g 1 y x z = IZR ny * 2 * PI / s_ly g /\ nab g 2 y x z = IZR nz * 2 * PI / s_lz g.
Proof.
  intros (P & Q & R & _) (A & B & C) H. unfold hit in H. apply andb_prop in H as (H & H3). apply andb_prop in H as (H1 & H2). apply Nat.eqb_eq in H1, H2, H3. subst.
  unfold nab, kint. rewrite !ix_mode by assumption. repeat split; reflexivity.
Qed.
Lemma mdelta_hit g nx ny nz v y x z : mdelta g nx ny nz v y x z = if hit g nx ny nz y x z then v else c0.
Proof. reflexivity. Qed.
Lemma fields_at g Om nx ny nz dn i : ok_grid3 g -> resolved3 g nx ny nz -> (nx + ny + nz <> 0)%Z -> Om <> 0 ->
  forall y x z, init_fields g Om nx ny nz dn i y x z =
    if match at_index 6 (e_comp ny nz) with Some j => (i =? j)%nat | None => false end
    then if (hit g nx ny nz y x z || hit g (- nx) (- ny) (- nz) y x z)%bool then (amp g Om nx ny nz dn, 0) else c0 else c0.
Proof.
  intros G R N O y x z. unfold init_fields. destruct (Z.eqb_spec (nx + ny + nz) 0); [contradiction|]. destruct (Req_EM_T Om 0); [contradiction|]. cbn [orb].
  destruct (at_index 6 (e_comp ny nz)) as [j|]; [|reflexivity]. destruct (i =? j)%nat; [|reflexivity].
  rewrite set_mode_at by assumption. rewrite set_mode_at by (try assumption; apply resolved3_opp; assumption). fold (hit g nx ny nz y x z) (hit g (- nx) (- ny) (- nz) y x z).
  destruct (hit g nx ny nz y x z); reflexivity.
Qed.
Lemma ions_at g alpha : ok_grid3 g -> forall y x z, init_ions g alpha 0%nat 0%nat 0%nat y x z = if hit g 0 0 0 y x z then (1 / alpha ^ 3, 0) else c0.
Proof. intros G y x z. unfold init_ions. cbn [Nat.eqb andb]. rewrite set3_origin by assumption. unfold hit. rewrite !ix_0. reflexivity. Qed.
Lemma electrons_hit g alpha nx ny nz dn : ok_grid3 g -> resolved3 g nx ny nz -> nonzero nx ny nz ->
  forall y x z, init_electrons g alpha nx ny nz dn 0%nat 0%nat 0%nat y x z =
    if hit g 0 0 0 y x z then (1 / alpha ^ 3, 0) else if hit g nx ny nz y x z then (0, - (1 / (2 * alpha ^ 3) * dn))
    else if hit g (- nx) (- ny) (- nz) y x z then (0, 1 / (2 * alpha ^ 3) * dn) else c0.
Proof.
  intros G R NZ y x z. rewrite electrons_at by assumption. rewrite !mdelta_hit.
  pose proof (hit_eq g nx ny nz (- nx) (- ny) (- nz) y x z G R (resolved3_opp _ _ _ _ R)) as H1.
  pose proof (hit_eq g nx ny nz 0 0 0 y x z G R (resolved3_0 g G)) as H2.
  pose proof (hit_eq g (- nx) (- ny) (- nz) 0 0 0 y x z G (resolved3_opp _ _ _ _ R) (resolved3_0 g G)) as H3. unfold nonzero in NZ.
  fold (hit g nx ny nz y x z) in *. fold (hit g (- nx) (- ny) (- nz) y x z) in *. fold (hit g 0 0 0 y x z) in *.
  destruct (hit g nx ny nz y x z), (hit g (- nx) (- ny) (- nz) y x z), (hit g 0 0 0 y x z);
    try (exfalso; apply NZ; repeat f_equal; (destruct H1 as (? & ? & ?); [reflexivity|reflexivity|lia]) || (destruct H2 as (? & ? & ?); [reflexivity|reflexivity|lia]) || (destruct H3 as (? & ? & ?); [reflexivity|reflexivity|lia])); creal.
Qed.
Lemma dens_e al nx ny nz dn g y x z : dens al (at_pt (init_electrons g (al 0%nat) nx ny nz dn) y x z) = vol3 al *c init_electrons g (al 0%nat) nx ny nz dn 0%nat 0%nat 0%nat y x z.
Proof. reflexivity. Qed.

(** The charge of the initial condition at each wavevector, for every choice of thermal speeds and charges. *)
Lemma init_charge g A nx ny nz dn y x z : ok_grid3 g -> resolved3 g nx ny nz -> nonzero nx ny nz ->
  SpxLaws.charge A (spx_init g A nx ny nz dn) y x z =
    (a_q A 0%nat * vol3 (a_al A)) *c (if hit g 0 0 0 y x z then (1 / a_al A 0%nat ^ 3, 0) else if hit g nx ny nz y x z then (0, - (1 / (2 * a_al A 0%nat ^ 3) * dn))
    else if hit g (- nx) (- ny) (- nz) y x z then (0, 1 / (2 * a_al A 0%nat ^ 3) * dn) else c0)
    +c (a_q A 1%nat * vol3 (ions (a_al A))) *c (if hit g 0 0 0 y x z then (1 / a_al A 3%nat ^ 3, 0) else c0).
Proof.
  intros G R NZ. unfold SpxLaws.charge, dens, at_pt, spx_init. cbn [c_e c_i]. rewrite electrons_hit, ions_at by assumption.
  repeat match goal with |- context [if ?b then _ else _] => destruct b end; creal.
Qed.

(** Gauss's law holds at every wavevector for the initial condition, for electrons and protons with isotropic thermal
    speeds and a perturbation along one axis. *)
Theorem C89_gauss : forall c A nx ny nz dn y x z, ok_grid3 (x_g c) -> resolved3 (x_g c) nx ny nz -> one_axis nx ny nz ->
  isotropic (a_al A) -> a_q A 0%nat = -1 -> a_q A 1%nat = 1 -> a_Om A <> 0 ->
  gauss c A (spx_init (x_g c) A nx ny nz dn) y x z = c0.
Proof.
  intros c A nx ny nz dn y x z G R OA Iso Qe Qi Om. set (g := x_g c) in *.
  assert (NZ : nonzero nx ny nz) by (unfold nonzero; intros E; injection E; unfold one_axis in OA; lia).
  assert (Sn : (nx + ny + nz <> 0)%Z) by (unfold one_axis in OA; lia).
  unfold gauss. fold g. rewrite init_charge by assumption. unfold div. cbn [f_k spx_init]. rewrite !fields_at by assumption. rewrite Qe, Qi.
  destruct Iso as (A0 & A3 & A1 & A2 & A4 & A5). unfold vol3, ions. cbn [Nat.add]. rewrite A1, A2, A4, A5.
  pose proof PI_neq0 as Pi. pose proof G as (_ & _ & _ & LX & LY & LZ).
  pose proof (hit_nab g nx ny nz y x z G R) as N1. pose proof (hit_nab g (- nx) (- ny) (- nz) y x z G (resolved3_opp _ _ _ _ R)) as N2.
  pose proof (hit_eq g nx ny nz 0 0 0 y x z G R (resolved3_0 g G)) as H2.
  pose proof (hit_eq g (- nx) (- ny) (- nz) 0 0 0 y x z G (resolved3_opp _ _ _ _ R) (resolved3_0 g G)) as H3.
  fold (hit g nx ny nz y x z) in *. fold (hit g (- nx) (- ny) (- nz) y x z) in *. fold (hit g 0 0 0 y x z) in *.
  assert (Z0 : hit g 0 0 0 y x z = true -> hit g nx ny nz y x z = false /\ hit g (- nx) (- ny) (- nz) y x z = false).
  { intros E. unfold one_axis in OA. split; [destruct (hit g nx ny nz y x z)|destruct (hit g (- nx) (- ny) (- nz) y x z)]; try reflexivity; exfalso; [destruct H2 as (? & ? & ?)|destruct H3 as (? & ? & ?)]; auto; lia. }
  destruct (hit g 0 0 0 y x z).
  - destruct (Z0 eq_refl) as (-> & ->). cbn [orb].
    assert (E : forall b : bool, (if b then c0 else c0) = c0) by (intros []; reflexivity). rewrite !E.
    apply cplx_eq; unfold csub, cneg, cadd, cmul, cscal, cI, c0; cbn [fst snd]; field; auto.
  - clear Z0 H2 H3. unfold amp, sgR.
    destruct OA as [(P & -> & ->)|[(-> & P & ->)|(-> & -> & P)]]; unfold e_comp.
    + rewrite (Z.sgn_pos nx P). change (Z.sgn 0) with 0%Z. rewrite ?Z.add_0_r, ?Z.add_0_l in *. match goal with |- context [at_index 6 ?e] => change (at_index 6 e) with (Some 0%nat) end. cbn [Nat.eqb].
      assert (IZR nx <> 0) by (apply not_0_IZR; lia). change (- 0)%Z with 0%Z in *.
      destruct (hit g nx 0 0 y x z); [destruct (N1 eq_refl) as (-> & -> & ->)|destruct (hit g (- nx) 0 0 y x z); [destruct (N2 eq_refl) as (-> & -> & ->)|]]; cbn [orb];
        try rewrite !opp_IZR; apply cplx_eq; unfold csub, cneg, cadd, cmul, cscal, cI, c0; cbn [fst snd]; field; repeat split; auto.
    + rewrite (Z.sgn_pos ny P). change (Z.sgn 0) with 0%Z. rewrite ?Z.add_0_r, ?Z.add_0_l in *. match goal with |- context [at_index 6 ?e] => change (at_index 6 e) with (Some 1%nat) end. cbn [Nat.eqb].
      assert (IZR ny <> 0) by (apply not_0_IZR; lia). change (- 0)%Z with 0%Z in *.
      destruct (hit g 0 ny 0 y x z); [destruct (N1 eq_refl) as (-> & -> & ->)|destruct (hit g 0 (- ny) 0 y x z); [destruct (N2 eq_refl) as (-> & -> & ->)|]]; cbn [orb];
        try rewrite !opp_IZR; apply cplx_eq; unfold csub, cneg, cadd, cmul, cscal, cI, c0; cbn [fst snd]; field; repeat split; auto.
    + rewrite (Z.sgn_pos nz P). change (Z.sgn 0) with 0%Z. rewrite ?Z.add_0_r, ?Z.add_0_l in *. match goal with |- context [at_index 6 ?e] => change (at_index 6 e) with (Some 2%nat) end. cbn [Nat.eqb].
      assert (IZR nz <> 0) by (apply not_0_IZR; lia). change (- 0)%Z with 0%Z in *.
      destruct (hit g 0 0 nz y x z); [destruct (N1 eq_refl) as (-> & -> & ->)|destruct (hit g 0 0 (- nz) y x z); [destruct (N2 eq_refl) as (-> & -> & ->)|]]; cbn [orb];
        try rewrite !opp_IZR; apply cplx_eq; unfold csub, cneg, cadd, cmul, cscal, cI, c0; cbn [fst snd]; field; repeat split; auto.
Qed.
Print Assumptions C89_gauss.

(** Hence a run started from it satisfies Gauss's law and div B = 0 at all times (with no density noise, no diffusion, no
    longitudinal drive). *)
Theorem C89_gauss_forever : forall c A S nx ny nz dn y x z, ok_cfg c A -> no_noise c -> filter_ok (x_filter c) -> a_D A = 0 ->
  (forall t, div (x_g c) (fun i => x_drive c t i y x z) y x z = c0) -> solution c A S -> in_grid (x_g c) y x z ->
  S 0 = spx_init (x_g c) A nx ny nz dn -> resolved3 (x_g c) nx ny nz -> one_axis nx ny nz ->
  isotropic (a_al A) -> a_q A 0%nat = -1 -> a_q A 1%nat = 1 ->
  forall t, gauss c A (S t) y x z = c0 /\ div (x_g c) (fun i => f_k (S t) (3 + i)%nat y x z) y x z = c0.
Proof.
  intros c A S nx ny nz dn y x z OK NN FO D0 Dr Sol I E R OA Iso Qe Qi t. pose proof OK as (G & _ & _ & _ & _ & Om).
  destruct (C86_gauss c A S y x z OK NN FO D0 Dr Sol I t 0) as (-> & ->). rewrite E. split.
  - apply C89_gauss; assumption.
  - unfold div. cbn [f_k spx_init]. assert (Sn : (nx + ny + nz <> 0)%Z) by (unfold one_axis in OA; lia). rewrite !fields_at by assumption.
    assert (Q : at_index 6 (e_comp ny nz) = Some 0%nat \/ at_index 6 (e_comp ny nz) = Some 1%nat \/ at_index 6 (e_comp ny nz) = Some 2%nat).
    { unfold e_comp. destruct OA as [(P & -> & ->)|[(-> & P & ->)|(-> & -> & P)]]; rewrite ?(Z.sgn_pos _ P); auto. }
    destruct Q as [-> | [-> | ->]]; cbn [Nat.eqb Nat.add]; creal.
Qed.
Print Assumptions C89_gauss_forever.

(** With zero amplitude, no drift, no noise and no drive the initial condition is a steady state of the solver: both
    species' rates and all field rates vanish at every wavevector. *)
Lemma lor_F0 d a u F C p m n : (forall i, (i < 6)%nat -> F i = c0) -> lor d a u F C p m n = c0.
Proof. intros H. unfold lor. rewrite !H by lia. creal. Qed.
Lemma init_e0 g alpha nx ny nz p m n : ok_grid3 g -> resolved3 g nx ny nz -> nonzero nx ny nz -> at0 (init_electrons g alpha nx ny nz 0 p m n).
Proof.
  intros G R NZ y x z B. destruct p; [destruct m; [destruct n|]|]; try reflexivity. rewrite electrons_hit by assumption. unfold hit at 1. rewrite !ix_0. change ((y =? 0) && (x =? 0) && (z =? 0))%nat%bool with (orig y x z). rewrite B.
  repeat match goal with |- context [if ?b then _ else _] => destruct b end; try reflexivity; creal.
Qed.
Lemma init_i0 g alpha p m n : ok_grid3 g -> at0 (init_ions g alpha p m n).
Proof.
  intros G y x z B. destruct p; [destruct m; [destruct n|]|]; try reflexivity. rewrite ions_at by assumption. unfold hit. rewrite !ix_0. change ((y =? 0) && (x =? 0) && (z =? 0))%nat%bool with (orig y x z). rewrite B. reflexivity.
Qed.
Lemma fields_0 g Om nx ny nz i y x z : ok_grid3 g -> resolved3 g nx ny nz -> init_fields g Om nx ny nz 0 i y x z = c0.
Proof.
  intros G R. destruct (Z.eq_dec (nx + ny + nz) 0) as [E|E]; [unfold init_fields; rewrite E; reflexivity|].
  destruct (Req_EM_T Om 0) as [O|O]; [unfold init_fields; destruct (Req_EM_T Om 0); [|contradiction]; rewrite orb_true_r; reflexivity|].
  rewrite fields_at by assumption. repeat match goal with |- context [if ?b then _ else _] => destruct b end; try reflexivity. unfold amp. apply cplx_eq; cbn [fst snd c0]; [unfold Rdiv; ring|reflexivity].
Qed.
Lemma steady_species c A d q mass a u F (C : coef6) p m n y x z : ok_al a -> ok_grid3 (x_g c) -> in_dims d p m n -> (forall p m n, at0 (C p m n)) ->
  (forall p m n y x z, (p, m, n) <> (0, 0, 0)%nat -> C p m n y x z = c0) -> (forall i, (i < 6)%nat -> forall y x z, F i y x z = c0) ->
  vf_species c A d q mass a u F C p m n y x z = c0.
Proof.
  intros Al G I Z H F0. unfold vf_species, filtered, compute_rhs. rewrite stream_at0 by assumption. unfold lorentz_rhs.
  rewrite fwd3_zero by (intros; apply lor_F0; intros; apply F0; assumption).
  assert (K : forall b, keep b c0 = c0) by (intros []; reflexivity). rewrite K.
  assert (E1 : (- a_nu A * colm d p m n) *c C p m n y x z = c0).
  { destruct p; [destruct m; [destruct n|]|]; try (rewrite H by (intros E; discriminate E); creal). 
    replace (colm d 0 0 0) with 0; [creal|]. unfold colm, col_term. change (INR 0) with 0. repeat match goal with |- context [if ?b then _ else _] => destruct b end; unfold Rdiv; ring. }
  assert (E2 : (- a_D A * k2g (x_g c) y x z) *c C p m n y x z = c0).
  { destruct (orig y x z) eqn:B; [|rewrite (Z p m n y x z B); creal].
    unfold orig in B. apply andb_prop in B. destruct B as (B & B3). apply andb_prop in B. destruct B as (B1 & B2). apply Nat.eqb_eq in B1, B2, B3. subst.
    replace (k2g (x_g c) 0 0 0) with 0; [creal|]. unfold k2g, kint. destruct G as (P & Q & R & _).
    assert (M : forall n, (0 < n)%nat -> mode n 0 = 0%Z) by (intros k Hk; unfold mode; destruct (Nat.ltb_spec (2 * 0) k); [reflexivity|lia]). rewrite !M by assumption. ring. }
  rewrite E1, E2. creal.
Qed.
Theorem C89_equilibrium : forall c A t nx ny nz p m n i y x z, ok_cfg c A -> no_noise c -> (forall j y x z, x_drive c t j y x z = c0) ->
  (forall j, a_u A j = 0) -> resolved3 (x_g c) nx ny nz -> nonzero nx ny nz ->
  (in_dims (x_de c) p m n -> c_e (spx_field c A t (spx_init (x_g c) A nx ny nz 0)) p m n y x z = c0) /\
  (in_dims (x_di c) p m n -> c_i (spx_field c A t (spx_init (x_g c) A nx ny nz 0)) p m n y x z = c0) /\
  f_k (spx_field c A t (spx_init (x_g c) A nx ny nz 0)) i y x z = c0.
Proof.
  intros c A t nx ny nz p m n i y x z (G & De & Di & Ae & Ai & Om) NN Dr U R NZ. unfold spx_field. cbn [c_e c_i f_k spx_init].
  assert (F0 : forall j, (j < 6)%nat -> forall y x z, to_real (x_g c) (init_fields (x_g c) (a_Om A) nx ny nz 0 j) y x z = c0).
  { intros j _ y' x' z'. unfold to_real. apply inv3_zero. intros. rewrite fields_0 by assumption. destruct mask3; reflexivity. }
  split; [|split].
  - intros I. rewrite add_no_noise by (intros; apply NN). apply steady_species; try assumption; intros.
    + apply init_e0; assumption.
    + destruct p0; [destruct m0; [destruct n0|]|]; try reflexivity. contradiction H; reflexivity.
  - intros I. destruct (x_static c); [reflexivity|]. rewrite add_no_noise by (intros; apply NN). apply steady_species; try assumption; intros.
    + apply init_i0; assumption.
    + destruct p0; [destruct m0; [destruct n0|]|]; try reflexivity. contradiction H; reflexivity.
  - assert (J : forall j, total_current c A (spx_init (x_g c) A nx ny nz 0) y x z j = c0).
    { intros j. unfold total_current, current_s, at_pt, spx_init. cbn [c_e c_i]. unfold ions. rewrite !U.
      assert (Q1 : init_electrons (x_g c) (a_al A 0%nat) nx ny nz 0 0%nat 0%nat 1%nat y x z = c0) by reflexivity.
      destruct j as [|[|j]]; repeat match goal with |- context [(1 <? ?b)%nat] => destruct (1 <? b)%nat end; destruct (x_static c);
        unfold init_electrons at 1, init_ions; cbn [Nat.eqb andb]; unfold init_electrons; cbn [Nat.eqb andb]; creal. }
    unfold vf_fields. cbn [f_k spx_init]. destruct (i <? 3)%nat.
    + change {| c_e := init_electrons (x_g c) (a_al A 0%nat) nx ny nz 0; c_i := init_ions (x_g c) (a_al A 3%nat); f_k := init_fields (x_g c) (a_Om A) nx ny nz 0 |} with (spx_init (x_g c) A nx ny nz 0).
      rewrite J, Dr. unfold ccross. destruct i as [|[|i]]; rewrite !fields_0 by assumption; creal.
    + unfold ccross. destruct (i - 3)%nat as [|[|k]]; rewrite !fields_0 by assumption; creal.
Qed.
Print Assumptions C89_equilibrium.
