(** Property C87, continued: the filter inside the streaming step, and a four-mode eigenvector decomposition showing the
    hypotheses are met. *)
From Coq Require Import FunctionalExtensionality Reals Lra Lia ZArith List Bool Psatz.
From Verif Require Import HPForceProps Spectrax SpxExp SpxProps SpxLaws SpxMore SpxExpProps SpxStream RSum Pic PicProofs PicFourier Dft HPProps.
Local Open Scope R_scope.
Local Open Scope cx_scope.

(** Refuted: with the filter on, one step of length s + t equals a step of length s followed by one of length t. *)
Definition delta1 : hco := delta3 1.
Lemma fs_x_only d e a u ks gam C s p m n : ok_eig d a u e -> ks 1%nat = 0 -> ks 2%nat = 0 -> in_dims d p m n ->
  fs_apply d e a ks gam C s p m n = exp (- gam n * Rabs s) *c exp1 (d_n d) (e_lx e) (e_vx e) (a 0%nat) (ks 0%nat) (fun n' => C p m n') s n.
Proof.
  intros (EX & EY & EZ) K1 K2 (P & M & N). unfold fs_apply, fs_z, fs_y. rewrite K1, K2. rewrite (exp1_k0 _ _ _ _ _ _ _ _ EZ P), (exp1_k0 _ _ _ _ _ _ _ _ EY M). reflexivity.
Qed.
Theorem C87_filter_refuted : forall d e a u ks strength order, ok_al a -> ok_eig d a u e -> (2 <= d_n d)%nat -> (0 < d_m d)%nat -> (0 < d_p d)%nat ->
  ks 0%nat <> 0 -> ks 1%nat = 0 -> ks 2%nat = 0 -> 0 < strength -> (0 < order)%nat ->
  ~ (forall C s t p m n, 0 < s -> 0 < t -> in_dims d p m n ->
       fs_apply d e a ks (gamma_n (d_n d) strength order) (fs_apply d e a ks (gamma_n (d_n d) strength order) C s) t p m n
       = fs_apply d e a ks (gamma_n (d_n d) strength order) C (s + t) p m n).
Proof.
  intros d e a u ks st o HA HE N2 M0 P0 K0 K1 K2 HS HO H. set (gam := gamma_n (d_n d) st o) in *.
  assert (I0 : in_dims d 0 0 0) by (unfold in_dims; lia). assert (I1 : in_dims d 0 0 1) by (unfold in_dims; lia).
  assert (G0 : gam 0%nat = 0) by apply gamma_0.
  assert (G1 : 0 < gam 1%nat).
  { unfold gam, gamma_n. destruct (Rlt_dec 0 st) as [_|L]; [|lra]. rewrite (proj2 (Nat.ltb_lt 0 o)) by assumption. apply Rmult_lt_0_compat; [assumption|]. apply pow_lt.
    change (INR 1) with 1. apply Rdiv_lt_0_compat; [lra|]. apply lt_0_INR. lia. }
  pose proof HE as (EX & _).
  set (X := fun (x : nat -> cplx) s n => exp1 (d_n d) (e_lx e) (e_vx e) (a 0%nat) (ks 0%nat) x s n).
  set (dl := fun n => if (n =? 1)%nat then c1 else c0).
  assert (Z : forall t, 0 < t -> X dl t 0%nat = c0).
  { intros t T. specialize (H (fun _ _ n => X dl (- 1) n) 1 t 0%nat 0%nat 0%nat ltac:(lra) T I0).
    rewrite !(fs_x_only d e a u ks gam _ _ _ _ _ HE K1 K2) in H by assumption. rewrite G0, Ropp_0, !Rmult_0_l, exp_0, !cscal_1 in H.
    change (fun n' => X dl (- 1) n') with (X dl (- 1)) in H.
    assert (B : exp1 (d_n d) (e_lx e) (e_vx e) (a 0%nat) (ks 0%nat) (fun n' => fs_apply d e a ks gam (fun _ _ n => X dl (- 1) n) 1 0%nat 0%nat n') t 0%nat = exp (- gam 1%nat) *c X dl t 0%nat).
    { unfold X at 2. rewrite <- (cmul_real (exp (- gam 1%nat))), <- exp1_mul. apply exp1_ext. intros n' N'. rewrite (fs_x_only d e a u ks gam _ _ _ _ _ HE K1 K2) by (unfold in_dims; lia).
      change (fun n'0 => X dl (- 1) n'0) with (X dl (- 1)). unfold X. rewrite (exp1_plus _ _ _ _ _ _ _ _ _ _ EX N'). replace (- 1 + 1) with 0 by ring. rewrite (exp1_0 _ _ _ _ _ _ _ _ EX N').
      rewrite Rabs_R1, Rmult_1_r, cmul_real. unfold dl. destruct (Nat.eqb_spec n' 1) as [->|]; [reflexivity|cxu; ring]. }
    match type of H with ?l = _ => match type of B with ?b = _ => change l with b in H end end. rewrite B in H. unfold X in H at 2. rewrite (exp1_plus _ _ _ _ _ _ _ _ _ _ EX) in H by lia. replace (- 1 + (1 + t)) with t in H by ring. fold (X dl t 0%nat) in H.
    assert (EN : exp (- gam 1%nat) < 1) by (rewrite <- exp_0; apply exp_increasing; lra).
    clear B. generalize dependent (X dl t 0%nat). intros v H.
    apply cplx_eq; [apply (f_equal fst) in H|apply (f_equal snd) in H]; unfold cscal, c0 in *; cbn [fst snd] in *; nra. }
  assert (Z0 : X dl 0 0%nat = c0) by (unfold X; rewrite (exp1_0 _ _ _ _ _ _ _ _ EX) by lia; reflexivity).
  pose proof (exp1_cd (d_n d) _ (e_lx e) (e_vx e) (a 0%nat) (ks 0%nat) (fun _ => dl) (fun _ => c0) 0 0%nat EX ltac:(lia) ltac:(intros; apply cd_const)) as (_ & SD).
  apply zero_right in SD; [|intros s S; change (snd (X dl s 0%nat) = 0); rewrite Z by assumption; reflexivity|change (snd (X dl 0 0%nat) = 0); rewrite Z0; reflexivity].
  assert (TS : tsum (d_n d) (stream_T (u 0%nat) (a 0%nat)) (exp1 (d_n d) (e_lx e) (e_vx e) (a 0%nat) (ks 0%nat) dl 0) 0%nat = (sqrt (1 / 2), 0)).
  { unfold tsum. rewrite (csum_single (d_n d) 1); [|lia|].
    - rewrite (exp1_0 _ _ _ _ _ _ _ _ EX) by lia. unfold dl, stream_T. cbn [Nat.eqb]. change (INR 0) with 0. rewrite Rplus_0_l. cxu; ring.
    - intros i I E. rewrite (exp1_0 _ _ _ _ _ _ _ _ EX) by lia. unfold dl. rewrite (proj2 (Nat.eqb_neq i 1)) by assumption. cxu; ring. }
  rewrite TS in SD. rewrite (exp1_0 _ _ _ _ _ _ _ _ EX) in SD by lia. unfold cadd, cmul, c0 in SD. cbn [fst snd] in SD.
  assert (0 < sqrt (1 / 2)) by (apply sqrt_lt_R0; lra). destruct HA as (A0 & _).
  assert (W : a 0%nat * ks 0%nat <> 0) by (apply Rmult_integral_contrapositive_currified; assumption). apply W.
  apply Rmult_eq_reg_r with (sqrt (1 / 2)); lra.
Qed.
Print Assumptions C87_filter_refuted.

(** Four Hermite modes: the eigenvalues are the roots of H_4. *)
Definition b4 : R := sqrt ((3 + sqrt 2 * sqrt 3) / 12).
Definition a4 : R := sqrt 3 / 12 / b4.
Definition v4 (n i : nat) : R :=
  match n, i with
  | 0%nat, (0 | 1)%nat => a4 | 0%nat, _ => b4
  | 1%nat, (0 | 2)%nat => 1 / 2 | 1%nat, _ => - (1 / 2)
  | 2%nat, (0 | 1)%nat => b4 | 2%nat, _ => - a4
  | _, (0 | 3)%nat => 1 / 2 | _, _ => - (1 / 2)
  end.
Definition l4 (i : nat) : R := match i with 0%nat => sqrt 2 * sqrt 3 * b4 | 1%nat => - (sqrt 2 * sqrt 3 * b4) | 2%nat => sqrt 2 * sqrt 3 * a4 | _ => - (sqrt 2 * sqrt 3 * a4) end.
Lemma s3_sq : sqrt 3 * sqrt 3 = 3. Proof. apply sqrt_sqrt. lra. Qed.
Lemma ab4 : b4 <> 0 /\ a4 * b4 = sqrt 3 / 12 /\ b4 * b4 = (3 + sqrt 2 * sqrt 3) / 12 /\ a4 * a4 = (3 - sqrt 2 * sqrt 3) / 12 /\
  sqrt 2 / 2 * a4 + b4 = sqrt 2 * sqrt 3 * b4 / 2 /\ sqrt 2 / 2 * b4 - a4 = sqrt 2 * sqrt 3 * a4 / 2.
Proof.
  pose proof s2_sq as S2. pose proof s3_sq as S3. pose proof s2_pos as P2. assert (P3 : 0 < sqrt 3) by (apply sqrt_lt_R0; lra).
  assert (P6 : 0 < sqrt 2 * sqrt 3) by (apply Rmult_lt_0_compat; assumption).
  assert (B2 : b4 * b4 = (3 + sqrt 2 * sqrt 3) / 12) by (unfold b4; apply sqrt_sqrt; lra).
  assert (BP : 0 < b4) by (unfold b4; apply sqrt_lt_R0; lra). assert (B0 : b4 <> 0) by lra.
  assert (AB : a4 * b4 = sqrt 3 / 12) by (unfold a4; field; assumption).
  assert (AA : a4 * a4 = (3 - sqrt 2 * sqrt 3) / 12).
  { apply Rmult_eq_reg_r with (b4 * b4); [|apply Rmult_integral_contrapositive_currified; assumption].
    replace (a4 * a4 * (b4 * b4)) with ((a4 * b4) * (a4 * b4)) by ring. rewrite AB, B2. replace (sqrt 3 / 12 * (sqrt 3 / 12)) with (3 / 144) by (rewrite <- S3 at 1; field).
    replace ((3 - sqrt 2 * sqrt 3) / 12 * ((3 + sqrt 2 * sqrt 3) / 12)) with ((9 - (sqrt 2 * sqrt 2) * (sqrt 3 * sqrt 3)) / 144) by field. rewrite S2, S3. lra. }
  split; [assumption|]. split; [assumption|]. split; [assumption|]. split; [assumption|]. split.
  - apply Rmult_eq_reg_r with b4; [|assumption]. replace ((sqrt 2 / 2 * a4 + b4) * b4) with (sqrt 2 / 2 * (a4 * b4) + b4 * b4) by ring.
    replace (sqrt 2 * sqrt 3 * b4 / 2 * b4) with (sqrt 2 * sqrt 3 / 2 * (b4 * b4)) by field. rewrite AB, B2.
    replace (sqrt 2 * sqrt 3 / 2 * ((3 + sqrt 2 * sqrt 3) / 12)) with ((3 * (sqrt 2 * sqrt 3) + (sqrt 2 * sqrt 2) * (sqrt 3 * sqrt 3)) / 24) by field. rewrite S2, S3. field.
  - apply Rmult_eq_reg_r with b4; [|assumption]. replace ((sqrt 2 / 2 * b4 - a4) * b4) with (sqrt 2 / 2 * (b4 * b4) - a4 * b4) by ring.
    replace (sqrt 2 * sqrt 3 * a4 / 2 * b4) with (sqrt 2 * sqrt 3 / 2 * (a4 * b4)) by field. rewrite AB, B2.
    replace (sqrt 2 / 2 * ((3 + sqrt 2 * sqrt 3) / 12)) with ((3 * sqrt 2 + (sqrt 2 * sqrt 2) * sqrt 3) / 24) by field.
    replace (sqrt 2 * sqrt 3 / 2 * (sqrt 3 / 12)) with (sqrt 2 * (sqrt 3 * sqrt 3) / 24) by field. rewrite S2, S3. field.
Qed.
Lemma eigh4 : is_eigh 4 (stream_T 0 1) l4 v4.
Proof.
  pose proof s2_sq as S2. pose proof s3_sq as S3. pose proof s2_pos as P2. destruct ab4 as (B0 & AB & BB & AA & E1 & E2).
  assert (T0 : sqrt ((INR 0 + 1) / 2) = sqrt 2 / 2).
  { change (INR 0) with 0. rewrite Rplus_0_l. rewrite sqrt_div_alt by lra. rewrite sqrt_1. apply Rmult_eq_reg_r with (sqrt 2); [|lra]. replace (sqrt 2 / 2 * sqrt 2) with (sqrt 2 * sqrt 2 / 2) by field. rewrite S2. field. lra. }
  assert (T1 : sqrt ((INR 1 + 1) / 2) = 1) by (change (INR 1) with 1; replace ((1 + 1) / 2) with 1 by field; apply sqrt_1).
  assert (T2 : sqrt ((INR 2 + 1) / 2) = sqrt 2 * sqrt 3 / 2).
  { replace (INR 2) with 2 by (cbn; ring). rewrite sqrt_div_alt by lra. replace (2 + 1) with 3 by ring. apply Rmult_eq_reg_r with (sqrt 2); [|lra]. replace (sqrt 2 * sqrt 3 / 2 * sqrt 2) with (sqrt 2 * sqrt 2 * sqrt 3 / 2) by field. rewrite S2. field. lra. }
  constructor; intros n i Hn Hi.
  - destruct n as [|[|[|[|n]]]]; [| | | |lia]; (destruct i as [|[|[|[|i]]]]; [| | | |lia]); cbn [rsum v4 Nat.eqb]; nra.
  - destruct n as [|[|[|[|n]]]]; [| | | |lia]; (destruct i as [|[|[|[|i]]]]; [| | | |lia]); cbn [rsum v4 Nat.eqb]; nra.
  - destruct n as [|[|[|[|n]]]]; [| | | |lia]; (destruct i as [|[|[|[|i]]]]; [| | | |lia]); cbn [rsum v4 l4]; unfold stream_T; cbn [Nat.eqb]; rewrite ?T0, ?T1, ?T2; try (unfold Rdiv; rewrite ?Rmult_0_l); nra.
Qed.

(** One Hermite mode in a direction without drift. *)
Lemma eigh1 : is_eigh 1 (stream_T 0 1) (fun _ => 0) (fun _ _ => 1).
Proof.
  constructor; intros n i Hn Hi; assert (n = 0%nat) by lia; assert (i = 0%nat) by lia; subst; cbn [rsum Nat.eqb]; [ring|ring|].
  unfold stream_T. cbn [Nat.eqb]. field.
Qed.
Definition ex_eig : eig3 := {| e_vx := v4; e_lx := l4; e_vy := fun _ _ => 1; e_ly := fun _ => 0; e_vz := fun _ _ => 1; e_lz := fun _ => 0 |}.
Definition ex_d4 : dims := {| d_n := 4; d_m := 1; d_p := 1 |}.
(** The hypotheses of all theorems of C87 are met together: four electron modes along x. *)
Example ex_C87_ok : ok_al (fun _ => 1) /\ ok_eig ex_d4 (fun _ => 1) (fun _ => 0) ex_eig /\ ok_dims ex_d4 /\ (4 <= d_n ex_d4)%nat.
Proof. unfold ok_al, ok_eig, ok_dims. cbn [ex_d4 ex_eig d_n d_m d_p e_lx e_vx e_ly e_vy e_lz e_vz]. repeat split; try lia; try lra; apply eigh4 || apply eigh1. Qed.
Example ex_C87_lin : forall c A, x_de c = ex_d4 -> x_di c = ex_d4 -> a_al A = (fun _ => 1) -> a_u A = (fun _ => 0) -> ok_lin c A {| g_e := ex_eig; g_i := ex_eig |}.
Proof. intros c A H1 H2 H3 H4. destruct ex_C87_ok as (? & ? & _). unfold ok_lin. cbn [g_e g_i]. rewrite H1, H2, H3, H4. change (ions (fun _ => 1)) with (fun _ : nat => 1). change (ions (fun _ => 0)) with (fun _ : nat => 0). tauto. Qed.
