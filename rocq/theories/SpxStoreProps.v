(** What the spectrax-1d solver stores: moments, energies, coordinates. *)
From Coq Require Import Reals Lra Lia ZArith List Bool Arith.
From Verif Require Import PicProofs VGridProofs SpxStore SpxStepMore SpxProps SpxLaws SpxMore.
From Verif Require Import Dft.
Local Open Scope R_scope.
Local Open Scope cx_scope.

(* ------------------------------------------------------------------------------------------------ *)
(** * Moments *)
Lemma ext_1 d C i : ok_dims d -> (i < 3)%nat -> ext d C (fst (fst (ex1 i))) (snd (fst (ex1 i))) (snd (ex1 i)) = mode1 d C i.
Proof.
  intros (A & B & D) I. unfold ext, mode1, ex1. destruct i as [|[|[|i]]]; [| | |lia]; cbn [fst snd].
  - rewrite (proj2 (Nat.ltb_lt 0 (d_p d))), (proj2 (Nat.ltb_lt 0 (d_m d))) by lia. cbn [andb]. reflexivity.
  - rewrite (proj2 (Nat.ltb_lt 0 (d_p d))), (proj2 (Nat.ltb_lt 0 (d_n d))) by lia. rewrite andb_true_r. reflexivity.
  - rewrite (proj2 (Nat.ltb_lt 0 (d_m d))), (proj2 (Nat.ltb_lt 0 (d_n d))) by lia. rewrite !andb_true_r. reflexivity.
Qed.
Lemma ext_2 d C i : ok_dims d -> (i < 3)%nat -> ext d C (fst (fst (ex2 i))) (snd (fst (ex2 i))) (snd (ex2 i)) = match mode2 d C i with Some c => c | None => c0 end.
Proof.
  intros (A & B & D) I. unfold ext, mode2, ex2. destruct i as [|[|[|i]]]; [| | |lia]; cbn [fst snd].
  - rewrite (proj2 (Nat.ltb_lt 0 (d_p d))), (proj2 (Nat.ltb_lt 0 (d_m d))) by lia. cbn [andb]. destruct (2 <? d_n d)%nat; reflexivity.
  - rewrite (proj2 (Nat.ltb_lt 0 (d_p d))), (proj2 (Nat.ltb_lt 0 (d_n d))) by lia. rewrite andb_true_r. destruct (2 <? d_m d)%nat; reflexivity.
  - rewrite (proj2 (Nat.ltb_lt 0 (d_m d))), (proj2 (Nat.ltb_lt 0 (d_n d))) by lia. rewrite !andb_true_r. destruct (2 <? d_p d)%nat; reflexivity.
Qed.
(** Velocity moments of the expansion at a point: density, flux and second moment (SpxProps: dens, flux, vv). The mean
    velocity and the temperature (variance) in direction i. *)
Definition mean_v (d : dims) (a u : nat -> R) (C : hco) (i : nat) : R := fst (flux d a u C i) / fst (dens a C).
Definition second_about (d : dims) (a u : nat -> R) (C : hco) (i : nat) (w : R) : R :=
  (fst (vv d a u C i i) - 2 * w * fst (flux d a u C i) + w ^ 2 * fst (dens a C)) / fst (dens a C).
Definition temperature (d : dims) (a u : nat -> R) (C : hco) (i : nat) : R := second_about d a u C i (mean_v d a u C i).

(** A point of space where the density is real and not tiny. *)
Definition real_density (C : hco) : Prop := snd (C 0%nat 0%nat 0%nat) = 0 /\ / 10 ^ 20 <= Rabs (fst (C 0%nat 0%nat 0%nat)).
Lemma tiny20 : 0 < / 10 ^ 20.
Proof. apply Rinv_0_lt_compat, pow_lt. lra. Qed.
Lemma safe_ok C : real_density C -> safe0 (C 0%nat 0%nat 0%nat) = C 0%nat 0%nat 0%nat /\ fst (C 0%nat 0%nat 0%nat) <> 0.
Proof.
  intros (S & B). pose proof tiny20 as T. assert (fst (C 0%nat 0%nat 0%nat) <> 0) by (intros E; rewrite E, Rabs_R0 in B; lra). split; [|assumption]. unfold safe0, cabs, cabs2. rewrite S.
  destruct (Rlt_dec _ _) as [L|L]; [|reflexivity]. exfalso.
  replace (fst (C 0%nat 0%nat 0%nat) * fst (C 0%nat 0%nat 0%nat) + 0 * 0) with (Rsqr (fst (C 0%nat 0%nat 0%nat))) in L by (unfold Rsqr; ring). rewrite sqrt_Rsqr_abs in L. lra.
Qed.
Theorem C90_moments : forall d a u C i, ok_dims d -> ok_al a -> (i < 3)%nat ->
  save_n a C = fst (dens a C) /\ save_J d a u C i = fst (flux d a u C i) /\
  (real_density C -> save_T1 d a C i = second_about d a u C i (u i)).
Proof.
  intros d a u C i D Al I. assert (E1 := ext_1 d C i D I). assert (E2 := ext_2 d C i D I). split; [reflexivity|].
  assert (E0 : ext d C 0%nat 0%nat 0%nat = C 0%nat 0%nat 0%nat) by (apply ext_in; destruct D as (? & ? & ?); unfold in_dims; auto).
  assert (FJ : flux d a u C i = (a 0%nat * a 1%nat * a 2%nat) *c (u i *c C 0%nat 0%nat 0%nat +c (1 / sqrt 2 * a i) *c mode1 d C i)).
  { rewrite flux_lf by assumption. unfold lf, flux_w, SpxLaws.ix. cbn [fst snd fold_right]. rewrite E1, E0. unfold vol3, Rdiv. creal. }
  split; [unfold save_J; rewrite FJ; reflexivity|]. intros RD. destruct (safe_ok C RD) as (S0 & N0). destruct RD as (Im & _).
  unfold second_about, save_T1. rewrite FJ. rewrite vv_lf by assumption. unfold lf, vv_w, SpxLaws.ix. cbn [fst snd fold_right]. rewrite E0, E1, E2. unfold dens, vol3.
  pose proof s2_pos as S2. pose proof s2_sq as SS. assert (S' : sqrt 2 <> 0) by lra. destruct Al as (A0 & A1 & A2).
  destruct (mode2 d C i) as [c2|].
  - unfold re_div, cabs2. rewrite S0, Im. unfold cadd, cscal, c0. cbn [fst snd]. generalize dependent (fst (C 0%nat 0%nat 0%nat)). intros n N0. generalize (fst (mode1 d C i)), (fst c2), (snd c2), (a i), (u i). intros m1 m2 m2' ai ui.
    assert (Q : sqrt 2 = 2 / sqrt 2) by (rewrite <- SS at 2; field; assumption). rewrite Q at 1. field. repeat split; assumption.
  - unfold cadd, cscal, c0. cbn [fst snd]. generalize dependent (fst (C 0%nat 0%nat 0%nat)). intros n N0. generalize (fst (mode1 d C i)), (a i), (u i). intros m1 ai ui. field. repeat split; assumption.
Qed.
Print Assumptions C90_moments.

(** The stored temperature is the second moment about the drift u of the basis, not about the actual mean velocity: it exceeds the
    temperature by a third of the squared distance of the two, in every state. *)
Theorem C90_temperature_refuted : forall d a u C, ok_dims d -> ok_al a -> real_density C ->
  save_T d a C = (temperature d a u C 0 + temperature d a u C 1 + temperature d a u C 2) / 3
    + ((mean_v d a u C 0 - u 0%nat) ^ 2 + (mean_v d a u C 1 - u 1%nat) ^ 2 + (mean_v d a u C 2 - u 2%nat) ^ 2) / 3.
Proof.
  intros d a u C D Al RD. unfold save_T. destruct (C90_moments d a u C 0 D Al) as (_ & _ & T0); [lia|]. destruct (C90_moments d a u C 1 D Al) as (_ & _ & T1); [lia|]. destruct (C90_moments d a u C 2 D Al) as (_ & _ & T2); [lia|].
  rewrite T0, T1, T2 by assumption. unfold temperature, second_about, mean_v.
  assert (N : fst (dens a C) <> 0).
  { destruct (safe_ok C RD) as (_ & N0). unfold dens, vol3, cscal. cbn [fst]. destruct Al as (? & ? & ?). apply Rmult_integral_contrapositive_currified; [apply Rmult_integral_contrapositive_currified; [apply Rmult_integral_contrapositive_currified|]|]; assumption. }
  field. exact N.
Qed.
Print Assumptions C90_temperature_refuted.
(** Jx_total adds the particle fluxes of the species without their charges: for equal fluxes of opposite charges the current is
    zero and the stored total is twice the flux. *)
Theorem C90_total_refuted : forall de di A Ce Ci i, ok_dims de -> ok_dims di -> ok_al (a_al A) -> ok_al (ions (a_al A)) -> (i < 3)%nat ->
  a_q A 0%nat = -1 -> a_q A 1%nat = 1 -> flux di (ions (a_al A)) (ions (a_u A)) Ci i = flux de (a_al A) (a_u A) Ce i ->
  current_s de (a_q A 0%nat) (a_al A) (a_u A) Ce i +c current_s di (a_q A 1%nat) (ions (a_al A)) (ions (a_u A)) Ci i = c0 /\
  save_J_total de di (a_al A) (a_u A) Ce Ci i = 2 * fst (flux de (a_al A) (a_u A) Ce i).
Proof.
  intros de di A Ce Ci i De Di Ae Ai I Q0 Q1 E. split.
  - rewrite !C86_current_is_flux by assumption. rewrite Q0, Q1, E. creal.
  - unfold save_J_total. destruct (C90_moments de (a_al A) (a_u A) Ce i De Ae I) as (_ & -> & _). destruct (C90_moments di (ions (a_al A)) (ions (a_u A)) Ci i Di Ai I) as (_ & -> & _). rewrite E. ring.
Qed.
Print Assumptions C90_total_refuted.

(* ------------------------------------------------------------------------------------------------ *)
(** * Energies *)
Definition field_energy (g : sgrid) (F : nat -> afield) (i : nat) : R := / ncell g * rsum3 g (fun y x z => cabs2 (inv3 g (F i) y x z)).
Lemma gsum_rsum3 g f : gsum g f = rsum3 g f.
Proof. reflexivity. Qed.
Lemma nmax_spec n f : (forall i, (i < n)%nat -> 0 <= f i) -> 0 <= nmax n f /\ (forall i, (i < n)%nat -> f i <= nmax n f) /\ ((0 < n)%nat -> exists i, (i < n)%nat /\ nmax n f = f i).
Proof.
  induction n as [|n IH]; intros H; cbn [nmax]; [repeat split; [lra|lia|lia]|].
  destruct IH as (P & U & A); [intros; apply H; lia|]. assert (Hn := H n ltac:(lia)).
  split; [apply Rle_trans with (f n); [assumption|apply Rmax_r]|]. split.
  - intros i I. destruct (Nat.eq_dec i n) as [->|]; [apply Rmax_r|]. apply Rle_trans with (nmax n f); [apply U; lia|apply Rmax_l].
  - intros _. unfold Rmax. destruct (Rle_dec (nmax n f) (f n)); [exists n; split; [lia|reflexivity]|]. destruct n; [cbn [nmax] in n0; lra|]. destruct A as (i & I & E); [lia|]. exists i. split; [lia|exact E].
Qed.
Lemma gmax_spec g f : ok_grid3 g -> (forall y x z, 0 <= f y x z) -> (forall y x z, in_grid g y x z -> f y x z <= gmax g f) /\ (exists y x z, in_grid g y x z /\ gmax g f = f y x z).
Proof.
  intros (X & Y & Z & _) P. unfold gmax.
  assert (P1 : forall y x, 0 <= nmax (s_nz g) (fun z => f y x z)) by (intros; apply nmax_spec; intros; apply P).
  assert (P2 : forall y, 0 <= nmax (s_nx g) (fun x => nmax (s_nz g) (fun z => f y x z))) by (intros; apply nmax_spec; intros; apply P1).
  destruct (nmax_spec (s_ny g) (fun y => nmax (s_nx g) (fun x => nmax (s_nz g) (fun z => f y x z)))) as (_ & U & A); [intros; apply P2|]. split.
  - intros y x z (Hy & Hx & Hz). eapply Rle_trans; [|apply U; exact Hy]. eapply Rle_trans; [|apply (proj1 (proj2 (nmax_spec (s_nx g) (fun x => nmax (s_nz g) (fun z => f y x z)) (fun i _ => P1 y i)))); exact Hx].
    apply (proj1 (proj2 (nmax_spec (s_nz g) (fun z => f y x z) (fun i _ => P y x i)))); exact Hz.
  - destruct (A Y) as (y & Hy & ->). destruct (proj2 (proj2 (nmax_spec (s_nx g) (fun x => nmax (s_nz g) (fun z => f y x z)) (fun i _ => P1 y i))) X) as (x & Hx & ->).
    destruct (proj2 (proj2 (nmax_spec (s_nz g) (fun z => f y x z) (fun i _ => P y x i))) Z) as (z & Hz & ->). exists y, x, z. split; [repeat split; assumption|reflexivity].
Qed.
Lemma rsum_ge_term n f k : (forall i, (i < n)%nat -> 0 <= f i) -> (k < n)%nat -> f k <= rsum n f.
Proof.
  induction n as [|n IH]; intros H K; [lia|]. cbn [rsum]. assert (Hn := H n ltac:(lia)). destruct (Nat.eq_dec k n) as [->|].
  - assert (0 <= rsum n f); [|lra]. rewrite <- (Rmult_0_r 0). clear IH K Hn. induction n as [|n IH]; cbn [rsum]; [lra|]. assert (0 <= f n) by (apply H; lia). assert (0 <= rsum n f); [|lra]. replace (0 * 0) with 0 in IH by ring. apply IH. intros; apply H; lia.
  - assert (f k <= rsum n f) by (apply IH; [intros; apply H; lia|lia]). lra.
Qed.
Lemma rsum_nn n f : (forall i, (i < n)%nat -> 0 <= f i) -> 0 <= rsum n f.
Proof. induction n as [|n IH]; intros H; cbn [rsum]; [lra|]. assert (0 <= f n) by (apply H; lia). assert (0 <= rsum n f) by (apply IH; intros; apply H; lia). lra. Qed.
Lemma rsum3_ge_term g f y x z : (forall y x z, 0 <= f y x z) -> in_grid g y x z -> f y x z <= rsum3 g f.
Proof.
  intros P (Y & X & Z). unfold rsum3.
  eapply Rle_trans; [|apply (rsum_ge_term (s_ny g) _ y); [intros; apply rsum_nn; intros; apply rsum_nn; intros; apply P|assumption]]. cbv beta.
  eapply Rle_trans; [|apply (rsum_ge_term (s_nx g) _ x); [intros; apply rsum_nn; intros; apply P|assumption]]. cbv beta.
  apply (rsum_ge_term (s_nz g) (fun z => f y x z) z); [intros; apply P|assumption].
Qed.
(** E_energy and B_energy are the grid averages of |E|^2 and |B|^2 in real space, the total is their sum; Ex_max (and Ey_max, Ez_max)
    is the largest modulus over the wavevectors, attained, and bounded by the energy. *)
Theorem C90_energies : forall g F, ok_grid3 g ->
  save_E g F = field_energy g F 0 + field_energy g F 1 + field_energy g F 2 /\
  save_B g F = field_energy g F 3 + field_energy g F 4 + field_energy g F 5 /\
  save_EM g F = save_E g F + save_B g F /\
  forall i, (i < 3)%nat -> (forall y x z, in_grid g y x z -> cabs (F i y x z) <= save_max g F i) /\ (exists y x z, in_grid g y x z /\ save_max g F i = cabs (F i y x z)) /\
    save_max g F i ^ 2 <= save_E g F.
Proof.
  intros g F G. pose proof (ncell_pos g G) as N.
  assert (E : forall i, field_energy g F i = gsum g (fun y x z => cabs2 (F i y x z))) by (intros i; unfold field_energy; rewrite norm3 by assumption; change (gsum g (fun y x z => cabs2 (F i y x z))) with (rsum3 g (fun y x z => cabs2 (F i y x z))); field; lra).
  split; [rewrite !E; reflexivity|]. split; [rewrite !E; reflexivity|]. split; [reflexivity|]. intros i I.
  destruct (gmax_spec g (fun y x z => cabs (F i y x z)) G) as (U & A); [intros; apply sqrt_pos|]. split; [exact U|]. split; [exact A|].
  destruct A as (y & x & z & H & Em). unfold save_max. rewrite Em. unfold cabs. rewrite pow2_sqrt by apply cabs2_nonneg. unfold save_E. change (gsum g) with (rsum3 g).
  assert (T : forall k, cabs2 (F k y x z) <= rsum3 g (fun y x z => cabs2 (F k y x z))) by (intros k; apply (rsum3_ge_term g (fun y x z => cabs2 (F k y x z))); [intros; apply cabs2_nonneg|assumption]).
  assert (Q : forall k, 0 <= cabs2 (F k y x z)) by (intros; apply cabs2_nonneg).
  pose proof (T 0%nat). pose proof (T 1%nat). pose proof (T 2%nat). pose proof (Q 0%nat). pose proof (Q 1%nat). pose proof (Q 2%nat).
  destruct i as [|[|[|i]]]; [| | |lia]; lra.
Qed.
Print Assumptions C90_energies.

(* ------------------------------------------------------------------------------------------------ *)
(** * Coordinates of the stored arrays *)
(** Distinct Hermite modes are stored at distinct indices, within the coordinate range, and every index is used. *)
Theorem C90_hermite_index : forall d,
  (forall p m n, in_dims d p m n -> (flat d p m n < d_p d * d_m d * d_n d)%nat) /\
  (forall p m n p' m' n', in_dims d p m n -> in_dims d p' m' n' -> flat d p m n = flat d p' m' n' -> (p, m, n) = (p', m', n')) /\
  (forall k, (k < d_p d * d_m d * d_n d)%nat -> exists p m n, in_dims d p m n /\ flat d p m n = k).
Proof.
  intros d. unfold flat, in_dims. split; [|split].
  - intros p m n (P & M & N). assert (Q : (p * d_m d + m < d_p d * d_m d)%nat) by nia. revert Q. generalize (p * d_m d + m)%nat (d_p d * d_m d)%nat. intros a b Q. nia.
  - intros p m n p' m' n' (P & M & N) (P' & M' & N') E.
    assert (E1 : n = n') by (apply (f_equal (fun k => k mod d_n d)%nat) in E; rewrite !(Nat.add_comm (_ * d_n d)), !Nat.mod_add, !Nat.mod_small in E by lia; exact E). subst n'.
    assert (E2 : (p * d_m d + m = p' * d_m d + m')%nat) by nia.
    assert (E3 : m = m') by (apply (f_equal (fun k => k mod d_m d)%nat) in E2; rewrite !(Nat.add_comm (_ * d_m d)), !Nat.mod_add, !Nat.mod_small in E2 by lia; exact E2). subst m'.
    assert (p = p') by nia. subst p'. reflexivity.
  - intros k K. assert (d_n d <> 0)%nat by (intros E; rewrite E in K; lia). assert (d_m d <> 0)%nat by (intros E; rewrite E in K; lia).
    exists (k / d_n d / d_m d)%nat, ((k / d_n d) mod d_m d)%nat, (k mod d_n d)%nat.
    pose proof (Nat.div_mod k (d_n d) H) as E1. pose proof (Nat.div_mod (k / d_n d) (d_m d) H0) as E2.
    pose proof (Nat.mod_upper_bound k (d_n d) H). pose proof (Nat.mod_upper_bound (k / d_n d) (d_m d) H0).
    split; [|nia]. split; [|split; assumption]. apply Nat.div_lt_upper_bound; [assumption|]. apply Nat.div_lt_upper_bound; [assumption|]. nia.
Qed.
Print Assumptions C90_hermite_index.
(** The kx axis is -N/2, ..., in increasing steps of one, for even and odd N, and the entry stored at coordinate k is the Fourier
    coefficient of mode number k; every coefficient is stored exactly once. *)
Lemma shifted_val N j : (j < N)%nat -> shifted N j = if (j <? N / 2)%nat then (j + (N - N / 2))%nat else (j - N / 2)%nat.
Proof.
  intros J. unfold shifted. pose proof (Nat.div_mod N 2 ltac:(lia)). pose proof (Nat.mod_upper_bound N 2 ltac:(lia)). destruct (Nat.ltb_spec j (N / 2)).
  - apply Nat.mod_small. lia.
  - replace (j + (N - N / 2))%nat with (j - N / 2 + 1 * N)%nat by lia. rewrite Nat.mod_add by lia. apply Nat.mod_small. lia.
Qed.
Theorem C90_kx_axis : forall N j, (j < N)%nat ->
  kx_coord N j = (Z.of_nat j - Z.of_nat (N / 2))%Z /\ (shifted N j < N)%nat /\
  (forall k, (k < N)%nat -> exists i, (i < N)%nat /\ shifted N i = k /\ kx_coord N i = mode N k) /\
  forall g C p m n y z, s_nx g = N -> stored g C p m n y j z = C p m n y (shifted N j) z.
Proof.
  intros N j J. assert (V : forall i, (i < N)%nat -> kx_coord N i = (Z.of_nat i - Z.of_nat (N / 2))%Z).
  { intros i I. unfold kx_coord. rewrite shifted_val by assumption. pose proof (Nat.div_mod N 2 ltac:(lia)). pose proof (Nat.mod_upper_bound N 2 ltac:(lia)). unfold mode. destruct (Nat.ltb_spec i (N / 2)).
    - destruct (Nat.ltb_spec (2 * (i + (N - N / 2))) N); lia.
    - destruct (Nat.ltb_spec (2 * (i - N / 2)) N); lia. }
  split; [apply V; assumption|]. split; [apply Nat.mod_upper_bound; lia|]. split.
  - intros k K. pose proof (Nat.div_mod N 2 ltac:(lia)). pose proof (Nat.mod_upper_bound N 2 ltac:(lia)).
    destruct (le_lt_dec (N - N / 2) k).
    + exists (k - (N - N / 2))%nat. assert (Q : shifted N (k - (N - N / 2)) = k) by (rewrite shifted_val by lia; destruct (Nat.ltb_spec (k - (N - N / 2)) (N / 2)); lia). split; [lia|]. split; [exact Q|]. unfold kx_coord. rewrite Q. reflexivity.
    + exists (k + N / 2)%nat. assert (Q : shifted N (k + N / 2) = k) by (rewrite shifted_val by lia; destruct (Nat.ltb_spec (k + N / 2) (N / 2)); lia). split; [lia|]. split; [exact Q|]. unfold kx_coord. rewrite Q. reflexivity.
  - intros g C p m n y z E. unfold stored. rewrite E. reflexivity.
Qed.
Print Assumptions C90_kx_axis.
Example ex_C90_kx : kx_coord 5 0 = (-2)%Z /\ kx_coord 4 0 = (-2)%Z /\ kx_coord 4 3 = 1%Z.
Proof. repeat split. Qed.
(** The ky (and kz) axis is the array index: it is not the mode number in the upper half. *)
Theorem C90_ky_refuted : forall N j, (j < N)%nat -> (N <= 2 * j)%nat -> ky_coord j <> mode N j /\ ky_coord j = (mode N j + Z.of_nat N)%Z.
Proof. intros N j J H. unfold ky_coord, mode. destruct (Nat.ltb_spec (2 * j) N); lia. Qed.
Print Assumptions C90_ky_refuted.
(** The x coordinate written with fields and moments is not the solver's node (except the first): it is stretched by N/(N-1). *)
Theorem C90_x_refuted : forall Lx N i, 0 < Lx -> (1 < N)%nat -> (i < N)%nat ->
  x_post Lx N i = x_node Lx N i * (INR N / (INR N - 1)) /\ ((0 < i)%nat -> x_node Lx N i < x_post Lx N i) /\ x_post Lx N (N - 1) - x_node Lx N (N - 1) = Lx / INR N.
Proof.
  intros Lx N i L HN HI. assert (P : 1 < INR N) by (apply (lt_INR 1) in HN; exact HN).
  assert (E : forall k, x_post Lx N k = x_node Lx N k * (INR N / (INR N - 1))).
  { intros k. unfold x_post, linspace, x_node. destruct (Nat.leb_spec N 1); [lia|]. rewrite minus_INR by lia. change (INR 1) with 1. field. lra. }
  split; [apply E|]. split.
  - intros I. rewrite E. assert (0 < x_node Lx N i) by (unfold x_node; apply Rdiv_lt_0_compat; [apply Rmult_lt_0_compat; [assumption|apply lt_0_INR; assumption]|lra]).
    rewrite <- (Rmult_1_r (x_node Lx N i)) at 1. apply Rmult_lt_compat_l; [assumption|]. apply Rmult_lt_reg_r with (INR N - 1); [lra|]. unfold Rdiv. rewrite Rmult_assoc, Rinv_l by lra. lra.
  - rewrite E. unfold x_node. rewrite minus_INR by lia. change (INR 1) with 1. field. lra.
Qed.
Print Assumptions C90_x_refuted.
(** The optional time axis runs from tmin to tmax; the optional x axis is the cell centres of n equal cells of [xmin, xmax]. *)
Theorem C90_axes : forall n i, (1 < n)%nat -> (i < n)%nat ->
  (forall tmin tmax T N, save_t_axis (Some tmin) (Some tmax) (Some n) T N i = tmin + (tmax - tmin) * INR i / (INR n - 1)) /\
  (forall T N, (1 < N)%nat -> save_t_axis None None None T N 0 = 0 /\ save_t_axis None None None T N (N - 1) = T) /\
  (forall xmin xmax, save_x_axis xmin xmax n i = xmin + (xmax - xmin) * (INR i + 1 / 2) / INR n).
Proof.
  intros n i N I. assert (P : 1 < INR n) by (apply (lt_INR 1) in N; exact N). split; [|split].
  - intros. unfold save_t_axis, linspace. cbn [orelse]. destruct (Nat.leb_spec n 1); [lia|]. rewrite minus_INR by lia. reflexivity.
  - intros T M HM. assert (1 < INR M) by (apply (lt_INR 1) in HM; exact HM). unfold save_t_axis, linspace. cbn [orelse]. destruct (Nat.leb_spec M 1); [lia|]. rewrite minus_INR by lia. change (INR 0) with 0. change (INR 1) with 1. split; field; lra.
  - intros. unfold save_x_axis, linspace. destruct (Nat.leb_spec n 1); [lia|]. rewrite minus_INR by lia. change (INR 1) with 1. field. lra.
Qed.
Print Assumptions C90_axes.

(** * The hypotheses are met: a Maxwellian with a current *)
Definition ex_pt : hco := fun p m n => if ((p =? 0) && (m =? 0))%nat%bool then match n with O => (1, 0) | 1%nat => (1 / 2, 0) | _ => c0 end else c0.
Example ex_C90 : real_density ex_pt /\ ok_dims ex_d /\ ok_al (a_al ex_A) /\ mean_v ex_d (a_al ex_A) (a_u ex_A) ex_pt 0 <> a_u ex_A 0%nat.
Proof.
  split; [|split; [|split]].
  - unfold real_density, ex_pt. cbn [Nat.eqb andb fst snd]. split; [reflexivity|]. rewrite Rabs_R1. apply Rle_trans with (/ 1); [|rewrite Rinv_1; apply Rle_refl]. apply Rinv_le_contravar; [lra|]. apply pow_R1_Rle. lra.
  - unfold ok_dims, ex_d. cbn. lia.
  - unfold ok_al, ex_A. cbn. lra.
  - unfold mean_v. assert (E : fst (flux ex_d (a_al ex_A) (a_u ex_A) ex_pt 0) = 1 / sqrt 2 * (1 / 2)).
    { destruct (C90_moments ex_d (a_al ex_A) (a_u ex_A) ex_pt 0) as (_ & <- & _); [unfold ok_dims, ex_d; cbn; lia|unfold ok_al, ex_A; cbn; lra|lia|].
      unfold save_J, mode1, ex_d, ex_pt, cadd, cscal. cbn [d_n Nat.ltb Nat.leb Nat.eqb andb fst snd a_al a_u ex_A]. ring. }
    rewrite E. unfold dens, vol3, cscal, ex_pt. cbn [fst snd Nat.eqb andb a_al a_u ex_A]. pose proof s2_pos. assert (0 < 1 / sqrt 2) by (apply Rdiv_lt_0_compat; lra). lra.
Qed.
