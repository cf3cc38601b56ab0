(** The scalar metrics of the spectrax-1d EPW and Maxwell modules. *)
From Coq Require Import Reals Lra Lia ZArith List Bool Arith Ratan.
From Verif Require Import PicProofs VGridProofs SpxMetrics SpxStepMore SpxProps SpxLaws SpxMore SpxStoreProps RSum.
From Verif Require Import Dft.
Local Open Scope R_scope.

(* ------------------------------------------------------------------------------------------------ *)
(** * Phases *)
Definition polar (rho phi : R) : cplx := (rho * cos phi, rho * sin phi).
Lemma cabs_polar rho phi : 0 <= rho -> cabs (polar rho phi) = rho.
Proof.
  intros P. unfold cabs, polar, cabs2. cbn [fst snd]. replace (rho * cos phi * (rho * cos phi) + rho * sin phi * (rho * sin phi)) with (Rsqr rho * (Rsqr (sin phi) + Rsqr (cos phi))) by (unfold Rsqr; ring).
  rewrite sin2_cos2, Rmult_1_r. apply sqrt_Rsqr. assumption.
Qed.
Lemma carg_polar rho phi : 0 < rho -> - PI < phi <= PI -> carg (polar rho phi) = phi.
Proof.
  intros P (L & U). unfold carg. rewrite cabs_polar by lra. destruct (Req_EM_T rho 0) as [E|_]; [lra|]. unfold polar. cbn [fst snd].
  replace (rho * cos phi / rho) with (cos phi) by (field; lra). destruct (Rle_dec 0 (rho * sin phi)) as [H|H].
  - apply acos_cos. split; [|assumption]. destruct (Rle_dec 0 phi) as [|N]; [assumption|]. assert (sin phi < 0) by (apply sin_lt_0_var; lra). nra.
  - assert (S : sin phi < 0) by nra. assert (phi < 0) by (destruct (Rlt_dec phi 0); [assumption|assert (0 <= sin phi) by (apply sin_ge_0; lra); lra]).
    rewrite <- (cos_neg phi). rewrite acos_cos by lra. ring.
Qed.
(** The argument is the phase up to a multiple of 2 pi, in (-pi, pi]. *)
Lemma carg_gen rho phi : 0 < rho -> exists k : Z, carg (polar rho phi) = phi - 2 * PI * IZR k /\ - PI < carg (polar rho phi) <= PI.
Proof.
  intros P. pose proof PI_RGT_0 as Pi. set (y := (PI - phi) / (2 * PI)). pose proof (floor_spec y) as (F1 & F2). exists (- floor y)%Z.
  assert (Y : 2 * PI * y = PI - phi) by (unfold y; field; lra).
  assert (E : polar rho phi = polar rho (phi - 2 * PI * IZR (- floor y))).
  { unfold polar. assert (C := cis_period (phi - 2 * PI * IZR (- floor y)) (- floor y)). replace (phi - 2 * PI * IZR (- floor y) + 2 * IZR (- floor y) * PI) with phi in C by ring.
    unfold cis in C. injection C as C1 C2. rewrite <- C1, <- C2. reflexivity. }
  assert (B : - PI < phi - 2 * PI * IZR (- floor y) <= PI) by (rewrite opp_IZR; split; nra).
  rewrite E, carg_polar by assumption. split; [reflexivity|exact B].
Qed.
Lemma npmod_small x p k : 0 < p -> 0 <= x - p * IZR k < p -> npmod x p = x - p * IZR k.
Proof.
  intros P B. unfold npmod. rewrite (floor_unique (x / p) k); [reflexivity|].
  split; apply Rmult_le_reg_l with p || apply Rmult_lt_reg_l with p; try assumption; replace (p * (x / p)) with x by (field; lra); lra.
Qed.
Lemma unwrap_step d (m : Z) : Rabs d < PI -> (d - 2 * PI * IZR m) + unwrap_corr (d - 2 * PI * IZR m) = d.
Proof.
  intros D. pose proof PI_RGT_0 as Pi. apply Rabs_def2 in D as (U & L). unfold unwrap_corr. destruct (Rlt_dec _ PI) as [S|S].
  - apply Rabs_def2 in S as (S1 & S2). assert (M : m = 0%Z).
    { assert (-1 < IZR m < 1) by (split; nra). assert (-1 < m < 1)%Z by (split; apply lt_IZR; lra). lia. }
    subst m. ring.
  - unfold unwrap_mod. rewrite (npmod_small (d - 2 * PI * IZR m + PI) (2 * PI) (- m)) by (rewrite ?opp_IZR; lra).
    rewrite opp_IZR. destruct (Req_EM_T _ (- PI)) as [E|_]; [lra|]. ring.
Qed.
Lemma unwrap_exact rho phi i : (forall j, (j <= i)%nat -> 0 < rho j) -> (forall j, (j < i)%nat -> Rabs (phi (S j) - phi j) < PI) ->
  unwrap (fun j => carg (polar (rho j) (phi j))) i = phi i + (carg (polar (rho 0%nat) (phi 0%nat)) - phi 0%nat).
Proof.
  intros P S. induction i as [|i IH]; [unfold unwrap; cbn [rsum]; ring|].
  assert (E : unwrap (fun j => carg (polar (rho j) (phi j))) i = phi i + (carg (polar (rho 0%nat) (phi 0%nat)) - phi 0%nat)) by (apply IH; intros; [apply P|apply S]; lia).
  unfold unwrap in *. cbn [rsum]. destruct (carg_gen (rho i) (phi i)) as (k & K & _); [apply P; lia|]. destruct (carg_gen (rho (Datatypes.S i)) (phi (Datatypes.S i))) as (k' & K' & _); [apply P; lia|].
  assert (Q := unwrap_step (phi (Datatypes.S i) - phi i) (k' - k) (S i ltac:(lia))). rewrite minus_IZR in Q.
  assert (D : carg (polar (rho (Datatypes.S i)) (phi (Datatypes.S i))) - carg (polar (rho i) (phi i)) = phi (Datatypes.S i) - phi i - 2 * PI * (IZR k' - IZR k)) by (rewrite K, K'; ring).
  rewrite D. rewrite <- Q in D. lra.
Qed.

(* ------------------------------------------------------------------------------------------------ *)
(** * Frequency *)
Lemma ngrad_ext n h f g c i : (2 <= n)%nat -> (i < n)%nat -> (forall j, (j < n)%nat -> f j = g j + c) -> ngrad n h f i = ngrad n h g i.
Proof.
  intros N I E. unfold ngrad. destruct (Nat.eqb_spec i 0); [rewrite !E by lia; f_equal; ring|]. destruct (Nat.eqb_spec i (n - 1)); rewrite !E by lia; f_equal; ring.
Qed.
(** The reported frequency is minus the finite-difference derivative of the true phase, whatever the amplitude does, as long as
    the phase moves by less than pi between two samples. *)
Theorem C91_frequency : forall n rho phi t, (2 <= n)%nat ->
  (forall j, (j < n)%nat -> 0 < rho j) -> (forall j, (S j < n)%nat -> Rabs (phi (S j) - phi j) < PI) ->
  exists f, frequency n (fun j => polar (rho j) (phi j)) t = Some f /\ forall i, (i < n)%nat -> f i = - ngrad n (t 1%nat - t 0%nat) phi i.
Proof.
  intros n rho phi t N P S. unfold frequency. destruct (Nat.ltb_spec n 2); [lia|]. eexists. split; [reflexivity|]. intros i I. cbv beta. f_equal.
  apply (ngrad_ext _ _ _ _ (carg (polar (rho 0%nat) (phi 0%nat)) - phi 0%nat)); try assumption. intros j J. apply unwrap_exact; intros; [apply P|apply S]; lia.
Qed.
Print Assumptions C91_frequency.
Lemma avg_const n f c : (0 < n)%nat -> (forall i, (i < n)%nat -> f i = c) -> avg n f = c.
Proof. intros N E. unfold avg. rewrite (rsum_ext n f (fun _ => c)) by assumption. rewrite rsum_const. assert (0 < INR n) by (apply lt_0_INR; assumption). field. lra. Qed.
Lemma polar_shift rho phi (m : Z) : polar rho phi = polar rho (phi + 2 * IZR m * PI).
Proof. unfold polar. assert (C := cis_period phi m). unfold cis in C. injection C as C1 C2. rewrite C1, C2. reflexivity. Qed.
Lemma ngrad_linear n h a b i : (2 <= n)%nat -> (i < n)%nat -> h <> 0 -> ngrad n h (fun j => a + b * (INR j * h)) i = b.
Proof.
  intros N I H. unfold ngrad. destruct (Nat.eqb_spec i 0) as [->|Z].
  - change (INR 1) with 1. change (INR 0) with 0. field. assumption.
  - destruct (Nat.eqb_spec i (n - 1)) as [->|L].
    + replace (n - 1)%nat with (S (n - 2)) by lia. rewrite S_INR. field. assumption.
    + replace (i + 1)%nat with (S i) by lia. destruct i as [|i]; [lia|]. replace (S i - 1)%nat with i by lia. rewrite !S_INR. field. assumption.
Qed.
(** A travelling wave rho_j exp(i(phi - omega t_j)) sampled at times with spacing dt: every entry of the frequency array, its mean and
    its last entry are omega, minus the multiple of the sampling frequency that brings omega dt into (-pi, pi). *)
Definition wave (rho : nat -> R) (phi omega : R) (t : nat -> R) (j : nat) : cplx := polar (rho j) (phi - omega * t j).
Definition uniform_times (n : nat) (t : nat -> R) (dt : R) : Prop := 0 < dt /\ forall j, (j < n)%nat -> t j = t 0%nat + INR j * dt.
Lemma wave_frequency n rho phi omega t dt (m : Z) : (2 <= n)%nat -> uniform_times n t dt -> (forall j, (j < n)%nat -> 0 < rho j) ->
  Rabs (omega * dt - 2 * PI * IZR m) < PI ->
  exists f, frequency n (wave rho phi omega t) t = Some f /\ forall i, (i < n)%nat -> f i = omega - 2 * PI * IZR m / dt.
Proof.
  intros N (T0 & T) P B. unfold frequency. destruct (Nat.ltb_spec n 2); [lia|]. eexists. split; [reflexivity|]. intros i I. cbv beta.
  set (phi' := fun j => phi - omega * t 0%nat + - (omega - 2 * PI * IZR m / dt) * (INR j * dt)).
  assert (E : forall j, (j < n)%nat -> wave rho phi omega t j = polar (rho j) (phi' j)).
  { intros j J. unfold wave, phi'. rewrite (polar_shift _ (phi - omega * t j) (m * Z.of_nat j)). f_equal. rewrite mult_IZR, <- INR_IZR_INZ, (T j J). field. lra. }
  rewrite (ngrad_ext _ _ _ phi' (carg (polar (rho 0%nat) (phi' 0%nat)) - phi' 0%nat)); [|assumption|assumption|].
  - replace (t 1%nat - t 0%nat) with dt by (rewrite (T 1%nat) by lia; change (INR 1) with 1; ring). unfold phi'. rewrite ngrad_linear by (assumption || lra). ring.
  - intros j J. rewrite <- (unwrap_exact rho phi' j).
    + unfold unwrap. rewrite (E j J). f_equal. apply rsum_ext. intros k K. rewrite !E by lia. reflexivity.
    + intros k K. apply P. lia.
    + intros k K. unfold phi'. rewrite S_INR. replace (_ - _) with (- (omega * dt - 2 * PI * IZR m)) by (field; lra). rewrite Rabs_Ropp. assumption.
Qed.
Theorem C91_travelling_wave : forall n rho phi omega t dt, (2 <= n)%nat -> uniform_times n t dt -> (forall j, (j < n)%nat -> 0 < rho j) ->
  Rabs (omega * dt) < PI ->
  epw_avg_frequency n (wave rho phi omega t) t = Some omega /\ epw_final_frequency n (wave rho phi omega t) t = Some omega.
Proof.
  intros n rho phi omega t dt N T P B. destruct (wave_frequency n rho phi omega t dt 0 N T P) as (f & F & E); [replace (omega * dt - 2 * PI * 0) with (omega * dt) by ring; assumption|].
  assert (E' : forall i, (i < n)%nat -> f i = omega) by (intros i I; rewrite (E i I); unfold Rdiv; ring).
  unfold epw_avg_frequency, epw_final_frequency. rewrite F. split; f_equal; [apply avg_const; [lia|assumption]|apply E'; lia].
Qed.
Print Assumptions C91_travelling_wave.
(** Refuted: the frequency is right for every sampling. A wave with pi < omega dt < 3 pi is reported with the alias omega - 2 pi/dt. *)
Theorem C91_alias_refuted : forall n rho phi omega t dt, (2 <= n)%nat -> uniform_times n t dt -> (forall j, (j < n)%nat -> 0 < rho j) ->
  PI < omega * dt < 3 * PI ->
  epw_avg_frequency n (wave rho phi omega t) t = Some (omega - 2 * PI / dt) /\ omega - 2 * PI / dt < omega.
Proof.
  intros n rho phi omega t dt N T P B. pose proof PI_RGT_0. assert (D : 0 < dt) by apply T. destruct (wave_frequency n rho phi omega t dt 1 N T P) as (f & F & E); [apply Rabs_def1; lra|].
  unfold epw_avg_frequency. rewrite F. split; [f_equal; apply avg_const; [lia|]; intros i I; rewrite (E i I); field; lra|].
  assert (0 < 2 * PI / dt) by (apply Rdiv_lt_0_compat; lra). lra.
Qed.
Print Assumptions C91_alias_refuted.

(** The sum of np.gradient telescopes. *)
Lemma ngrad_sum n h f : (2 <= n)%nat -> h <> 0 -> rsum n (ngrad n h f) = (- (3 / 2) * f 0%nat + f 1%nat / 2 + 3 / 2 * f (n - 1)%nat - f (n - 2)%nat / 2) / h.
Proof.
  intros N H. destruct n as [|[|k]]; [lia|lia|]. replace (S (S k) - 1)%nat with (S k) by lia. replace (S (S k) - 2)%nat with k by lia.
  rewrite rsum_shift. cbn [rsum]. assert (E0 : ngrad (S (S k)) h f 0 = (f 1%nat - f 0%nat) / h) by reflexivity.
  assert (E1 : ngrad (S (S k)) h f (S k) = (f (S k) - f k) / h).
  { unfold ngrad. cbn [Nat.eqb]. replace (S (S k) - 1)%nat with (S k) by lia. rewrite Nat.eqb_refl. replace (S (S k) - 2)%nat with k by lia. reflexivity. }
  assert (E2 : rsum k (fun i => ngrad (S (S k)) h f (S i)) = (f (S k) + f k - f 1%nat - f 0%nat) / (2 * h)).
  { rewrite (rsum_ext k _ (fun i => (fun j => (f (S j) + f j) / (2 * h)) (S i) - (fun j => (f (S j) + f j) / (2 * h)) i)).
    - rewrite (rsum_telescope k (fun j => (f (S j) + f j) / (2 * h))). field. assumption.
    - intros i I. unfold ngrad. replace (S (S k) - 1)%nat with (S k) by lia. destruct (Nat.eqb_spec (S i) 0); [lia|]. destruct (Nat.eqb_spec (S i) (S k)); [lia|].
      replace (S i + 1)%nat with (S (S i)) by lia. replace (S i - 1)%nat with i by lia. field. assumption. }
  rewrite E0, E1, E2. field. assumption.
Qed.
Lemma carg_real x : carg (x, 0) = 0 \/ carg (x, 0) = PI.
Proof.
  destruct (Rtotal_order x 0) as [H|[->|H]].
  - right. replace (x, 0) with (polar (- x) PI) by (unfold polar; rewrite cos_PI, sin_PI; f_equal; ring). apply carg_polar; pose proof PI_RGT_0; lra.
  - left. unfold carg. destruct (Req_EM_T _ 0) as [_|N]; [reflexivity|]. exfalso. apply N. unfold cabs, cabs2. cbn [fst snd]. replace (0 * 0 + 0 * 0) with 0 by ring. apply sqrt_0.
  - left. replace (x, 0) with (polar x 0) by (unfold polar; rewrite cos_0, sin_0; f_equal; ring). apply carg_polar; pose proof PI_RGT_0; lra.
Qed.
Lemma corr_real a b : (a = 0 \/ a = PI) -> (b = 0 \/ b = PI) -> unwrap_corr (b - a) = 0.
Proof.
  intros A B. pose proof PI_RGT_0 as P. unfold unwrap_corr. destruct (Rlt_dec _ PI) as [|N]; [reflexivity|].
  assert (C : b - a = 0 \/ b - a = PI \/ b - a = - PI) by (destruct A as [-> | ->], B as [-> | ->]; lra). destruct C as [C|[C|C]]; rewrite C in *.
  - rewrite Rabs_R0 in N. lra.
  - unfold unwrap_mod. rewrite (npmod_small (PI + PI) (2 * PI) 1) by lra. destruct (Req_EM_T _ (- PI)) as [_|E]; [|lra]. destruct (Rlt_dec 0 PI); lra.
  - unfold unwrap_mod. rewrite (npmod_small (- PI + PI) (2 * PI) 0) by lra. destruct (Req_EM_T _ (- PI)) as [_|E]; [|lra]. destruct (Rlt_dec 0 (- PI)); lra.
Qed.
(** Refuted: the average frequency is that of the wave for a standing wave. For any real-valued series (amplitude times
    cos(omega t), any omega) the reported average is at most 2 pi over the number of samples times dt in modulus; for a
    series of one sign it is zero. *)
Theorem C91_standing_refuted : forall n a t dt, (2 <= n)%nat -> uniform_times n t dt ->
  exists v, epw_avg_frequency n (fun j => (a j, 0)) t = Some v /\ Rabs v <= 2 * PI / (INR n * dt) /\ ((forall j, (j < n)%nat -> 0 < a j) -> v = 0).
Proof.
  intros n a t dt N (D & T). pose proof PI_RGT_0 as P. unfold epw_avg_frequency, frequency. destruct (Nat.ltb_spec n 2); [lia|]. eexists. split; [reflexivity|].
  replace (t 1%nat - t 0%nat) with dt by (rewrite (T 1%nat) by lia; change (INR 1) with 1; ring).
  set (p := fun j => carg (a j, 0)). assert (U : forall i, unwrap p i = p i).
  { intros i. unfold unwrap. rewrite (rsum_ext i _ (fun _ => 0)); [rewrite rsum_zero; ring|]. intros j _. apply corr_real; apply carg_real. }
  assert (V : avg n (fun i => - ngrad n dt (unwrap p) i) = - ((- (3 / 2) * p 0%nat + p 1%nat / 2 + 3 / 2 * p (n - 1)%nat - p (n - 2)%nat / 2) / (INR n * dt))).
  { unfold avg. rewrite (rsum_ext n _ (fun i => (-1) * ngrad n dt (unwrap p) i)) by (intros; ring). rewrite rsum_scal, ngrad_sum by (assumption || lra). rewrite !U. assert (0 < INR n) by (apply lt_0_INR; lia). field. lra. }
  change (fun j : nat => carg (a j, 0)) with p. rewrite V. assert (ND : 0 < INR n * dt) by (apply Rmult_lt_0_compat; [apply lt_0_INR; lia|assumption]). split.
  - rewrite Rabs_Ropp. unfold Rdiv at 1. rewrite Rabs_mult, (Rabs_pos_eq (/ (INR n * dt))) by (apply Rlt_le, Rinv_0_lt_compat; assumption).
    unfold Rdiv. apply Rmult_le_compat_r; [apply Rlt_le, Rinv_0_lt_compat; assumption|].
    assert (R : forall j, p j = 0 \/ p j = PI) by (intros; apply carg_real). apply Rabs_le. destruct (R 0%nat), (R 1%nat), (R (n - 1)%nat), (R (n - 2)%nat); lra.
  - intros A. assert (Z : forall j, (j < n)%nat -> p j = 0).
    { intros j J. unfold p. replace (a j, 0) with (polar (a j) 0) by (unfold polar; rewrite cos_0, sin_0; f_equal; ring). apply carg_polar; [apply A; assumption|lra]. }
    rewrite !Z by lia. unfold Rdiv. ring.
Qed.
Print Assumptions C91_standing_refuted.

(* ------------------------------------------------------------------------------------------------ *)
(** * Damping rate *)
Definition sq_error (l : list (R * R)) (a b : R) : R := lsum (fun p => (snd p - a - b * fst p) ^ 2) l.
Definition two_times (l : list (R * R)) : Prop := exists p q, In p l /\ In q l /\ fst p <> fst q.
Lemma lnum_cons p l : lnum (p :: l) = lnum l + 1.
Proof. unfold lnum. cbn [List.length]. rewrite S_INR. reflexivity. Qed.
Lemma sq_expand l a b : sq_error l a b = lsum (fun p => snd p ^ 2) l - 2 * a * lsum snd l - 2 * b * lsum (fun p => fst p * snd p) l + lnum l * a ^ 2 + 2 * a * b * lsum fst l + b ^ 2 * lsum (fun p => fst p ^ 2) l.
Proof. unfold sq_error. induction l as [|p l IH]; [unfold lnum; cbn; ring|]. cbn [lsum fold_right]. fold (lsum (fun p => (snd p - a - b * fst p) ^ 2) l) (lsum (fun p => snd p ^ 2) l) (lsum snd l) (lsum fst l) (lsum (fun p => fst p * snd p) l) (lsum (fun p => fst p ^ 2) l). rewrite IH, lnum_cons. ring. Qed.
Lemma lsum_sq_zero c l : lsum (fun p => (fst p - c) ^ 2) l <= 0 -> forall p, In p l -> fst p = c.
Proof.
  assert (NN : forall l : list (R * R), 0 <= lsum (fun p => (fst p - c) ^ 2) l) by (clear l; induction l as [|q l IH]; cbn [lsum fold_right]; [lra|]; fold (lsum (fun p => (fst p - c) ^ 2) l); pose proof (pow2_ge_0 (fst q - c)); lra).
  induction l as [|q l IH]; intros H p; [contradiction|]. intros [->|I].
  - cbn [lsum fold_right] in H. fold (lsum (fun p => (fst p - c) ^ 2) l) in H. pose proof (NN l). pose proof (pow2_ge_0 (fst p - c)). assert (Z : (fst p - c) ^ 2 = 0) by lra. replace ((fst p - c) ^ 2) with ((fst p - c) * (fst p - c)) in Z by ring. apply Rmult_integral in Z as [Z|Z]; lra.
  - apply IH; [|assumption]. cbn [lsum fold_right] in H. fold (lsum (fun p => (fst p - c) ^ 2) l) in H. pose proof (pow2_ge_0 (fst q - c)). lra.
Qed.
Lemma spread_expand l c : lsum (fun p => (fst p - c) ^ 2) l = lsum (fun p => fst p ^ 2) l - 2 * c * lsum fst l + lnum l * c ^ 2.
Proof. induction l as [|p l IH]; [unfold lnum; cbn; ring|]. cbn [lsum fold_right]. fold (lsum (fun p => (fst p - c) ^ 2) l) (lsum fst l) (lsum (fun p => fst p ^ 2) l). rewrite IH, lnum_cons. ring. Qed.
Lemma lnum_pos l : two_times l -> 0 < lnum l.
Proof. intros (p & _ & I & _). destruct l; [contradiction|]. unfold lnum. apply lt_0_INR. cbn. lia. Qed.
Lemma det_pos l : two_times l -> 0 < lnum l * lsum (fun p => fst p ^ 2) l - lsum fst l ^ 2.
Proof.
  intros T. pose proof (lnum_pos l T) as N. destruct T as (p & q & P & Q & D). apply Rnot_le_lt. intros H. apply D.
  set (c := lsum fst l / lnum l). assert (Z : lsum (fun p => (fst p - c) ^ 2) l <= 0).
  { rewrite spread_expand. apply Rmult_le_reg_l with (lnum l); [assumption|]. rewrite Rmult_0_r. unfold c. replace (lnum l * _) with (lnum l * lsum (fun p => fst p ^ 2) l - lsum fst l ^ 2) by (field; lra). assumption. }
  rewrite (lsum_sq_zero c l Z p P), (lsum_sq_zero c l Z q Q). reflexivity.
Qed.
(** The model of np.polyfit is the least-squares line. *)
Theorem C91_least_squares : forall l a b, two_times l -> sq_error l (fit_offset l) (fit_slope l) <= sq_error l a b /\
  (sq_error l a b <= sq_error l (fit_offset l) (fit_slope l) -> a = fit_offset l /\ b = fit_slope l).
Proof.
  intros l a b T. pose proof (lnum_pos l T) as N. pose proof (det_pos l T) as D. set (a0 := fit_offset l). set (b0 := fit_slope l).
  set (Dt := lnum l * lsum (fun p => fst p ^ 2) l - lsum fst l ^ 2) in *.
  assert (E : sq_error l a b - sq_error l a0 b0 = lnum l * ((a - a0) + (b - b0) * lsum fst l / lnum l) ^ 2 + (b - b0) ^ 2 * (Dt / lnum l)).
  { rewrite !sq_expand. assert (O : lnum l * a0 = lsum snd l - b0 * lsum fst l) by (unfold a0, fit_offset; fold b0; field; lra).
    assert (B0 : b0 * Dt = lnum l * lsum (fun p => fst p * snd p) l - lsum fst l * lsum snd l) by (unfold b0, fit_slope; fold Dt; field; lra).
    assert (Ea : a0 = (lsum snd l - b0 * lsum fst l) / lnum l) by (rewrite <- O; field; lra).
    assert (Ep : lsum (fun p => fst p * snd p) l = (b0 * Dt + lsum fst l * lsum snd l) / lnum l) by (rewrite B0; field; lra).
    rewrite Ep, Ea. unfold Dt. field. lra. }
  assert (P1 : 0 <= lnum l * ((a - a0) + (b - b0) * lsum fst l / lnum l) ^ 2) by (apply Rmult_le_pos; [lra|apply pow2_ge_0]).
  assert (Q : 0 < Dt / lnum l) by (apply Rdiv_lt_0_compat; assumption).
  assert (P2 : 0 <= (b - b0) ^ 2 * (Dt / lnum l)) by (apply Rmult_le_pos; [apply pow2_ge_0|lra]). split; [lra|]. intros H.
  assert (Z2 : (b - b0) ^ 2 * (Dt / lnum l) = 0) by lra. apply Rmult_integral in Z2 as [Z2|Z2]; [|lra]. replace ((b - b0) ^ 2) with ((b - b0) * (b - b0)) in Z2 by ring.
  assert (B : b = b0) by (apply Rmult_integral in Z2 as [Z2|Z2]; lra).
  assert (Z1 : lnum l * ((a - a0) + (b - b0) * lsum fst l / lnum l) ^ 2 = 0) by lra. apply Rmult_integral in Z1 as [Z1|Z1]; [lra|]. rewrite B in Z1. replace ((a - a0 + (b0 - b0) * lsum fst l / lnum l) ^ 2) with ((a - a0) * (a - a0)) in Z1 by (field; lra).
  split; [apply Rmult_integral in Z1 as [Z1|Z1]; lra|exact B].
Qed.
Print Assumptions C91_least_squares.
Lemma fit_exact l a b : two_times l -> (forall p, In p l -> snd p = a + b * fst p) -> fit_slope l = b.
Proof.
  intros T E. assert (Z : sq_error l a b = 0).
  { unfold sq_error. clear T. induction l as [|p l IH]; [reflexivity|]. cbn [lsum fold_right]. fold (lsum (fun p => (snd p - a - b * fst p) ^ 2) l). rewrite IH by (intros; apply E; right; assumption). rewrite (E p) by (left; reflexivity). ring. }
  assert (NN : 0 <= sq_error l (fit_offset l) (fit_slope l)).
  { unfold sq_error. clear. generalize (fit_offset l), (fit_slope l). intros x y. induction l as [|p l IH]; cbn [lsum fold_right]; [lra|]. fold (lsum (fun p => (snd p - x - y * fst p) ^ 2) l). pose proof (pow2_ge_0 (snd p - x - y * fst p)). lra. }
  symmetry. apply (C91_least_squares l a b T). rewrite Z. assumption.
Qed.
Lemma fit_start_third n : fit_start n = (n / 3)%nat.
Proof.
  unfold fit_start. rewrite (floor_unique _ (Z.of_nat (n / 3))); [apply Nat2Z.id|]. rewrite <- INR_IZR_INZ. pose proof (Nat.div_mod n 3 ltac:(lia)) as E. pose proof (Nat.mod_upper_bound n 3 ltac:(lia)) as M.
  apply (f_equal INR) in E. rewrite plus_INR, mult_INR in E. assert (T : INR 3 = 3) by (cbn; lra). rewrite T in E. pose proof (pos_INR (n mod 3)). apply le_n_S in M. assert (M' : (n mod 3 <= 2)%nat) by lia. apply le_INR in M'. assert (T2 : INR 2 = 2) by (cbn; lra). rewrite T2 in M'. lra.
Qed.
Lemma fit_points_in n z t p : In p (fit_points n z t) <-> exists i, (n / 3 <= i < n)%nat /\ p = (t i, cabs (z i)) /\ / 10 ^ 20 < cabs (z i).
Proof.
  unfold fit_points. rewrite filter_In, in_map_iff, fit_start_third. split.
  - intros ((i & <- & I) & H). apply in_seq in I. exists i. cbn [snd] in H. split; [lia|]. split; [reflexivity|]. destruct (Rlt_dec _ _); [assumption|discriminate].
  - intros (i & I & -> & H). split; [exists i; split; [reflexivity|apply in_seq; pose proof (Nat.div_le_upper_bound n 3 n ltac:(lia)); lia]|]. cbn [snd]. destruct (Rlt_dec _ _); [reflexivity|contradiction].
Qed.
Lemma fit_points_all n z t : (forall i, (n / 3 <= i < n)%nat -> / 10 ^ 20 < cabs (z i)) -> List.length (fit_points n z t) = (n - n / 3)%nat.
Proof.
  intros H. unfold fit_points. rewrite fit_start_third. assert (I : forall i, In i (List.seq (n / 3) (n - n / 3)) -> / 10 ^ 20 < cabs (z i)) by (intros i J; apply in_seq in J; apply H; lia).
  clear H. rewrite <- (seq_length (n - n / 3) (n / 3)) at 2. induction (List.seq (n / 3) (n - n / 3)) as [|i s IH]; [reflexivity|]. cbn [map filter snd]. destruct (Rlt_dec _ _) as [_|N]; [|exfalso; apply N, I; left; reflexivity].
  cbn [List.length]. f_equal. apply IH. intros; apply I; right; assumption.
Qed.
Lemma fit_points_le n z t : (List.length (fit_points n z t) <= n - n / 3)%nat.
Proof. unfold fit_points. rewrite fit_start_third. rewrite <- (seq_length (n - n / 3) (n / 3)) at 2. rewrite <- (map_length (fun i => (t i, cabs (z i))) (List.seq (n / 3) (n - n / 3))). generalize (map (fun i => (t i, cabs (z i))) (List.seq (n / 3) (n - n / 3))). intros l. induction l as [|p l IH]; [cbn; lia|]. cbn [filter]. destruct (Rlt_dec _ _); cbn [List.length]; lia. Qed.
(** An amplitude A0 exp(gamma t) over the last two thirds of the series is reported with exactly gamma, whatever happens before;
    with fewer than 14 samples, or fewer than ten samples above the threshold, the result is nan. *)
Theorem C91_damping : forall n z t,
  (forall A0 gamma, 0 < A0 -> (14 <= n)%nat -> (forall i, (n / 3 <= i < n)%nat -> cabs (z i) = A0 * exp (gamma * t i) /\ / 10 ^ 20 < cabs (z i)) ->
     (exists i j, (n / 3 <= i < n)%nat /\ (n / 3 <= j < n)%nat /\ t i <> t j) -> damping_rate n z t = Some gamma) /\
  ((n < 14)%nat -> damping_rate n z t = None) /\
  (forall z', (forall i, (n / 3 <= i < n)%nat -> cabs (z' i) = cabs (z i)) -> damping_rate n z' t = damping_rate n z t).
Proof.
  intros n z t. pose proof (Nat.div_mod n 3 ltac:(lia)) as DM. pose proof (Nat.mod_upper_bound n 3 ltac:(lia)) as MB. split; [|split].
  - intros A0 gamma A N H (i & j & I & J & D). unfold damping_rate. rewrite fit_points_all by (intros k K; apply H; assumption). destruct (Nat.ltb_spec (n - n / 3) 10); [lia|]. f_equal.
    apply (fit_exact _ (ln A0) gamma).
    + assert (M : forall k, (n / 3 <= k < n)%nat -> In (t k, ln (cabs (z k))) (log_points (fit_points n z t))).
      { intros k K. unfold log_points. apply in_map_iff. exists (t k, cabs (z k)). split; [reflexivity|]. apply fit_points_in. exists k. split; [assumption|]. split; [reflexivity|apply H; assumption]. }
      exists (t i, ln (cabs (z i))), (t j, ln (cabs (z j))). split; [apply M; assumption|]. split; [apply M; assumption|exact D].
    + intros p P. unfold log_points in P. apply in_map_iff in P as (q & <- & Q). apply fit_points_in in Q as (k & K & -> & _). cbn [fst snd]. rewrite (proj1 (H k K)). rewrite ln_mult by (assumption || apply exp_pos). rewrite ln_exp. ring.
  - intros N. unfold damping_rate. pose proof (fit_points_le n z t). destruct (Nat.ltb_spec (List.length (fit_points n z t)) 10); [reflexivity|]. lia.
  - intros z' E. unfold damping_rate. replace (fit_points n z' t) with (fit_points n z t); [reflexivity|]. unfold fit_points. f_equal. apply map_ext_in. intros i I. apply in_seq in I. rewrite fit_start_third in I. rewrite E by lia. reflexivity.
Qed.
Print Assumptions C91_damping.

(* ------------------------------------------------------------------------------------------------ *)
(** * Averages and ratios *)
Lemma last_window_in n t w i : In i (last_window n t w) <-> (i < n)%nat /\ t (n - 1)%nat - w <= t i.
Proof. unfold last_window. rewrite filter_In, in_seq. destruct (Rle_dec _ _); split; intros (A & B); try (split; [lia|assumption]); try discriminate; try lra. split; [lia|reflexivity]. Qed.
Lemma lavg_bounds l f lo hi : l <> nil -> (forall i, In i l -> lo <= f i <= hi) -> lo <= lavg l f <= hi.
Proof.
  intros N H. assert (P : 0 < INR (List.length l)) by (apply lt_0_INR; destruct l; [contradiction|cbn; lia]).
  assert (B : INR (List.length l) * lo <= fold_right (fun i s => f i + s) 0 l <= INR (List.length l) * hi).
  { clear N P. induction l as [|i l IH]; [cbn; lra|]. cbn [fold_right List.length]. rewrite S_INR. assert (A := H i (or_introl eq_refl)). assert (I := IH (fun j J => H j (or_intror J))). lra. }
  unfold lavg. split; apply Rmult_le_reg_l with (INR (List.length l)); try assumption; replace (INR (List.length l) * (fold_right (fun i s => f i + s) 0 l / INR (List.length l))) with (fold_right (fun i s => f i + s) 0 l) by (field; lra); lra.
Qed.
(** The final energy is an average over the saved times within 50 of the last saved one and over nothing else. *)
Theorem C91_final_energy : forall g n t Ex, (0 < n)%nat ->
  (forall lo hi, (forall i, (i < n)%nat -> t (n - 1)%nat - 50 <= t i -> lo <= es_energy g (Ex i) <= hi) -> lo <= avg_es_energy g n t Ex <= hi) /\
  (forall Ex', (forall i, (i < n)%nat -> t (n - 1)%nat - 50 <= t i -> Ex' i = Ex i) -> avg_es_energy g n t Ex' = avg_es_energy g n t Ex).
Proof.
  intros g n t Ex N. split.
  - intros lo hi H. unfold avg_es_energy. apply lavg_bounds; [|intros i I; apply last_window_in in I as (I & W); apply H; assumption].
    assert (L : In (n - 1)%nat (last_window n t 50)) by (apply last_window_in; split; [lia|lra]). intros E. rewrite E in L. contradiction.
  - intros Ex' E. unfold avg_es_energy, lavg. f_equal. assert (I : forall i, In i (last_window n t 50) -> Ex' i = Ex i) by (intros i I; apply last_window_in in I as (I & W); apply E; assumption).
    induction (last_window n t 50) as [|i l IH]; [reflexivity|]. cbn [fold_right]. rewrite I by (left; reflexivity). rewrite IH; [reflexivity|]. intros; apply I; right; assumption.
Qed.
Print Assumptions C91_final_energy.

Lemma em_start_lt n : (6 <= n)%nat -> (em_start n = n * 8 / 10)%nat /\ (2 <= n - em_start n)%nat.
Proof. intros N. unfold em_start. pose proof (Nat.div_mod (n * 8) 10 ltac:(lia)). pose proof (Nat.mod_upper_bound (n * 8) 10 ltac:(lia)). lia. Qed.
Lemma nmax_gt m f c : (0 < m)%nat -> (forall i, (i < m)%nat -> 0 <= f i) -> (c < nmax m f <-> exists i, (i < m)%nat /\ c < f i).
Proof.
  intros M P. destruct (nmax_spec m f P) as (_ & U & A). split.
  - intros H. destruct (A M) as (i & I & E). exists i. split; [assumption|]. rewrite <- E. assumption.
  - intros (i & I & H). pose proof (U i I). lra.
Qed.
(** The electromagnetic frequency: |omega| for a travelling wave of either direction over the last fifth of the samples, from six
    samples on; nan when the wave is gone; samples before 80% of the series never matter. *)
Theorem C91_em_frequency : forall n z t dt, (6 <= n)%nat -> uniform_times n t dt ->
  (forall rho phi omega, (forall j, (n * 8 / 10 <= j < n)%nat -> 0 < rho j /\ z j = wave rho phi omega t j) -> (exists j, (n * 8 / 10 <= j < n)%nat /\ / 10 ^ 30 < rho j) ->
     Rabs (omega * dt) < PI -> em_frequency n z t = Some (Some (Rabs omega))) /\
  ((forall j, (n * 8 / 10 <= j < n)%nat -> cabs (z j) <= / 10 ^ 30) -> em_frequency n z t = Some None).
Proof.
  intros n z t dt N (D & T). destruct (em_start_lt n N) as (Es & M). unfold em_frequency. rewrite Es in *. set (s := (n * 8 / 10)%nat) in *. set (m := (n - s)%nat) in *.
  destruct (Nat.eqb_spec m 0); [lia|]. assert (NN : forall i, (i < m)%nat -> 0 <= cabs (z (s + i)%nat)) by (intros; apply sqrt_pos). assert (G := nmax_gt m (fun i => cabs (z (s + i)%nat)) (/ 10 ^ 30) ltac:(lia) NN). split.
  - intros rho phi omega W (j & J & R) B.
    assert (Wc : forall i, (i < m)%nat -> z (s + i)%nat = wave (fun i => rho (s + i)%nat) phi omega (fun i => t (s + i)%nat) i) by (intros i I; apply W; lia).
    destruct (Rlt_dec _ _) as [_|X].
    + assert (UT : uniform_times m (fun i => t (s + i)%nat) dt).
      { split; [assumption|]. intros i I. rewrite (T (s + i)%nat), (T (s + 0)%nat) by lia. rewrite !plus_INR. change (INR 0) with 0. ring. }
      destruct (wave_frequency m (fun i => rho (s + i)%nat) phi omega (fun i => t (s + i)%nat) dt 0 ltac:(lia) UT) as (f & F & E); [intros i I; apply W; lia|replace (omega * dt - 2 * PI * 0) with (omega * dt) by ring; assumption|].
      assert (FE : forall (z1 z2 : nat -> cplx) tt, (forall i, (i < m)%nat -> z1 i = z2 i) -> forall f, frequency m z2 tt = Some f -> exists f', frequency m z1 tt = Some f' /\ forall i, (i < m)%nat -> f' i = f i).
      { intros z1 z2 tt Ez h. unfold frequency. destruct (Nat.ltb_spec m 2); [lia|]. intros [= <-]. eexists. split; [reflexivity|]. intros i I. cbv beta. f_equal. apply (ngrad_ext _ _ _ _ 0); [lia|assumption|]. intros k K. rewrite Rplus_0_r. unfold unwrap. rewrite (Ez k K). f_equal. apply rsum_ext. intros q Q. rewrite !Ez by lia. reflexivity. }
      destruct (FE (fun i => z (s + i)%nat) _ _ Wc f F) as (f' & -> & E'). do 2 f_equal. apply avg_const; [lia|]. intros i I. rewrite (E' i I), (E i I). f_equal. unfold Rdiv. ring.
    + exfalso. apply X. apply G. exists (j - s)%nat. split; [lia|]. replace (s + (j - s))%nat with j by lia. rewrite (proj2 (W j J)). unfold wave. rewrite cabs_polar; [assumption|]. apply Rlt_le, W. assumption.
  - intros W. destruct (Rlt_dec _ _) as [X|_]; [|reflexivity]. exfalso. apply G in X as (i & I & X). assert (cabs (z (s + i)%nat) <= / 10 ^ 30) by (apply W; lia). lra.
Qed.
Print Assumptions C91_em_frequency.
(** Refuted: the frequency uses the latter 75% of the series (docstring): samples before 80% never matter. *)
Theorem C91_em_window_refuted : forall n z z' t, (6 <= n)%nat -> (forall j, (n * 8 / 10 <= j < n)%nat -> z' j = z j) -> em_frequency n z' t = em_frequency n z t.
Proof.
  intros n z z' t N E. destruct (em_start_lt n N) as (Es & M). unfold em_frequency. rewrite Es in *. set (s := (n * 8 / 10)%nat) in *. set (m := (n - s)%nat) in *.
  assert (Ez : forall i, (i < m)%nat -> z' (s + i)%nat = z (s + i)%nat) by (intros i I; apply E; lia).
  assert (Em : nmax m (fun i => cabs (z' (s + i)%nat)) = nmax m (fun i => cabs (z (s + i)%nat))).
  { clear M. clearbody m. clear E Es. induction m as [|k IH]; [reflexivity|]. cbn [nmax]. rewrite Ez by lia. rewrite IH; [reflexivity|]. intros; apply Ez; lia. }
  rewrite Em. destruct (m =? 0)%nat; [reflexivity|]. destruct (Rlt_dec _ _); [|reflexivity]. unfold frequency. destruct (Nat.ltb_spec m 2); [reflexivity|]. do 2 f_equal. unfold avg. f_equal. apply rsum_ext. intros i I. f_equal. f_equal.
  apply (ngrad_ext _ _ _ _ 0); [lia|assumption|]. intros k K. rewrite Rplus_0_r. unfold unwrap. rewrite (Ez k K). f_equal. apply rsum_ext. intros q Q. rewrite !Ez by lia. reflexivity.
Qed.
Print Assumptions C91_em_window_refuted.
(** Refuted: the metric exists for every saved series. With two to five saved times and a wave in the last one it raises. *)
Theorem C91_em_short_refuted : forall n z t, (2 <= n <= 5)%nat -> / 10 ^ 30 < cabs (z (n - 1)%nat) -> em_frequency n z t = None.
Proof.
  intros n z t N W. assert (S : em_start n = (n - 1)%nat) by (unfold em_start; destruct n as [|[|[|[|[|[|n]]]]]]; try lia; reflexivity).
  unfold em_frequency. rewrite S. replace (n - (n - 1))%nat with 1%nat by lia. cbn [Nat.eqb nmax]. destruct (Rlt_dec _ _) as [_|X]; [reflexivity|]. exfalso. apply X. replace (n - 1 + 0)%nat with (n - 1)%nat by lia. eapply Rlt_le_trans; [exact W|apply Rmax_r].
Qed.
Print Assumptions C91_em_short_refuted.
(** Absorption ratio: between 0 and 1; at most eps when the last fifth is below eps times the peak; one for a constant energy and when
    there is no wave. *)
Theorem C91_absorption : forall n e, (0 < n)%nat -> (forall i, (i < n)%nat -> 0 <= e i) ->
  0 <= absorption_ratio n e <= 1 /\
  (forall eps j, (j < n)%nat -> 0 < e j -> (forall i, (n - Nat.max 1 (n / 5) <= i < n)%nat -> e i <= eps * e j) -> absorption_ratio n e <= eps) /\
  (forall c, (forall i, (i < n)%nat -> e i = c) -> absorption_ratio n e = 1).
Proof.
  intros n e N P. destruct (nmax_spec n e P) as (M0 & U & A). set (k := Nat.max 1 (n / 5)). assert (K : (1 <= k <= n)%nat) by (unfold k; pose proof (Nat.div_mod n 5 ltac:(lia)); lia).
  assert (Bd : forall lo hi, (forall i, (n - k <= i < n)%nat -> lo <= e i <= hi) -> lo <= em_final n e <= hi).
  { intros lo hi H. unfold em_final. fold k. unfold avg. assert (Pk : 0 < INR k) by (apply lt_0_INR; lia).
    assert (L : rsum k (fun _ => lo) <= rsum k (fun i => e (n - k + i)%nat)) by (apply rsum_le; intros; apply H; lia).
    assert (R : rsum k (fun i => e (n - k + i)%nat) <= rsum k (fun _ => hi)) by (apply rsum_le; intros; apply H; lia). rewrite rsum_const in L, R.
    split; apply Rmult_le_reg_l with (INR k); try assumption; replace (INR k * (rsum k (fun i => e (n - k + i)%nat) / INR k)) with (rsum k (fun i => e (n - k + i)%nat)) by (field; lra); lra. }
  unfold absorption_ratio. split; [|split].
  - destruct (Rlt_dec 0 (nmax n e)) as [Z|Z]; [|lra]. assert (B := Bd 0 (nmax n e) ltac:(intros i I; split; [apply P|apply U]; lia)).
    split; [apply Rmult_le_pos; [lra|apply Rlt_le, Rinv_0_lt_compat; assumption]|]. apply Rmult_le_reg_r with (nmax n e); [assumption|]. unfold Rdiv. rewrite Rmult_assoc, Rinv_l by lra. lra.
  - intros eps j J Ej H. pose proof (U j J). destruct (Rlt_dec 0 (nmax n e)) as [Z|Z]; [|lra]. assert (Ep : 0 <= eps) by (assert (Q := H (n - 1)%nat ltac:(lia)); assert (0 <= e (n - 1)%nat) by (apply P; lia); nra).
    assert (B := Bd 0 (eps * nmax n e) ltac:(intros i I; split; [apply P; lia|eapply Rle_trans; [apply H; exact I|apply Rmult_le_compat_l; assumption]])).
    apply Rmult_le_reg_r with (nmax n e); [assumption|]. unfold Rdiv. rewrite Rmult_assoc, Rinv_l by lra. lra.
  - intros c E. destruct (Rlt_dec 0 (nmax n e)) as [Z|Z]; [|reflexivity]. destruct (A N) as (i & I & Ei). rewrite Ei, (E i I) in *. assert (B := Bd c c ltac:(intros q Q; rewrite E by lia; lra)). assert (em_final n e = c) by lra. rewrite H. field. lra.
Qed.
Print Assumptions C91_absorption.

(** * The hypotheses are met: a damped travelling wave sampled forty times *)
Definition ex_t (j : nat) : R := INR j * (1 / 2).
Definition ex_rho (j : nat) : R := 1 * exp (- (1 / 100) * ex_t j).
Example ex_C91 : uniform_times 40 ex_t (1 / 2) /\ (forall j, (j < 40)%nat -> 0 < ex_rho j) /\ Rabs (3 / 2 * (1 / 2)) < PI /\
  epw_avg_frequency 40 (wave ex_rho 0 (3 / 2) ex_t) ex_t = Some (3 / 2) /\ damping_rate 40 (wave ex_rho 0 (3 / 2) ex_t) ex_t = Some (- (1 / 100)).
Proof.
  assert (U : uniform_times 40 ex_t (1 / 2)) by (split; [lra|]; intros j _; unfold ex_t; change (INR 0) with 0; ring).
  assert (R : forall j, 0 < ex_rho j) by (intros; unfold ex_rho; rewrite Rmult_1_l; apply exp_pos).
  assert (P : Rabs (3 / 2 * (1 / 2)) < PI) by (rewrite Rabs_pos_eq by lra; pose proof PI2_1; lra).
  split; [exact U|]. split; [intros; apply R|]. split; [exact P|]. split; [apply (C91_travelling_wave 40 ex_rho 0 (3 / 2) ex_t (1 / 2)); [lia|assumption|intros; apply R|assumption]|].
  apply (C91_damping 40 _ ex_t) with (A0 := 1); [lra|lia| |].
  - intros i I. unfold wave. rewrite cabs_polar by (apply Rlt_le, R). split; [reflexivity|]. unfold ex_rho. rewrite Rmult_1_l.
    assert (Hi : INR i <= 40) by (replace 40 with (INR 40) by (cbn; lra); apply le_INR; lia). pose proof (exp_ineq1_le (- (1 / 100) * ex_t i)). assert (- (1 / 100) * ex_t i >= - (1 / 5)) by (unfold ex_t; lra).
    assert (T : / 10 ^ 20 <= / 10); [|lra]. apply Rinv_le_contravar; [lra|]. replace 10 with (10 ^ 1) at 1 by ring. apply Rle_pow; [lra|lia].
  - exists 20%nat, 30%nat. split; [cbn; lia|]. split; [cbn; lia|]. unfold ex_t. assert (INR 20 <> INR 30) by (apply not_INR; lia). lra.
Qed.
