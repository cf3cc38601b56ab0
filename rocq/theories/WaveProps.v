(** Property C63: the transverse wave solver. *)
From Verif Require Import Wave.
From Coq Require Import Psatz.
Import ListNotations.
Local Open Scope R_scope.

Ltac cases_idx nx i := destruct (Nat.eqb_spec i 0) as [?|?]; [|destruct (Nat.eqb_spec i (nx + 1)) as [?|?]].
Lemma courant_eq c dx dt : courant c dx dt = c * dt / dx.
Proof. unfold courant, Rdiv. ring. Qed.
Lemma inv_courant_eq c dx dt : 0 < c -> 0 < dx -> 0 < dt -> inv_courant c dx dt = / courant c dx dt.
Proof. intros. unfold inv_courant, courant. field. lra. Qed.
Lemma courant_pos c dx dt : 0 < c -> 0 < dx -> 0 < dt -> 0 < courant c dx dt.
Proof. intros. unfold courant. apply Rmult_lt_0_compat; [apply Rdiv_lt_0_compat|]; lra. Qed.
Lemma interior_C c dx dt a aold djy ne i : 0 < dx -> wave_interior c dx dt a aold djy ne i =
  2 * a i - aold i + courant c dx dt ^ 2 * (a (i - 1)%nat - 2 * a i + a (i + 1)%nat) - dt ^ 2 * (ne (i - 1)%nat * a i) + dt ^ 2 * djy i.
Proof. intros. unfold wave_interior, courant. field. lra. Qed.

(** The update, spelled out: cells 1..nx follow the leapfrog form of a_tt = c^2 a_xx - n a + S, where n[i-1] is the
    density of cell i; the previous value becomes prev_a; without light speed nothing moves. *)
Theorem C63_wave_equation : forall nx c dx dt a aold djy ne, 0 < dx -> 0 < dt ->
  (0 < c -> snd (wave_step nx c dx dt a aold djy ne) = a /\
    forall i, (1 <= i <= nx)%nat -> let anew := fst (wave_step nx c dx dt a aold djy ne) in
      (anew i - 2 * a i + aold i) / dt ^ 2 = c ^ 2 * (a (i + 1)%nat - 2 * a i + a (i - 1)%nat) / dx ^ 2 - ne (i - 1)%nat * a i + djy i) /\
  (c <= 0 -> wave_step nx c dx dt a aold djy ne = (a, aold)).
Proof.
  intros nx c dx dt a aold djy ne Hx Ht. unfold wave_step. split; intros Hc.
  - destruct (Rlt_dec 0 c); [|lra]. split; [reflexivity|]. intros i Hi. cbn [fst]. cases_idx nx i; try lia. unfold wave_interior. field. lra.
  - destruct (Rlt_dec 0 c); [lra|reflexivity].
Qed.
Print Assumptions C63_wave_equation.

(** Left-right symmetry: mirrored fields, sources and densities give the mirrored result, guard cells included. *)
Theorem C63_mirror : forall nx c dx dt a aold djy ne a' aold' djy' ne', (2 <= nx)%nat ->
  (forall i, (i <= nx + 1)%nat -> a' i = a (nx + 1 - i)%nat /\ aold' i = aold (nx + 1 - i)%nat /\ djy' i = djy (nx + 1 - i)%nat) ->
  (forall i, (i < nx)%nat -> ne' i = ne (nx - 1 - i)%nat) ->
  forall i, (i <= nx + 1)%nat -> fst (wave_step nx c dx dt a' aold' djy' ne') i = fst (wave_step nx c dx dt a aold djy ne) (nx + 1 - i)%nat.
Proof.
  intros nx c dx dt a aold djy ne a' aold' djy' ne' Hn H Hne i Hi. unfold wave_step. destruct (Rlt_dec 0 c); cbn [fst]; [|apply H; exact Hi].
  assert (I : forall j, (1 <= j <= nx)%nat -> wave_interior c dx dt a' aold' djy' ne' j = wave_interior c dx dt a aold djy ne (nx + 1 - j)%nat).
  { intros j Hj. unfold wave_interior. destruct (H j ltac:(lia)) as (-> & -> & ->). destruct (H (j - 1)%nat ltac:(lia)) as (-> & _). destruct (H (j + 1)%nat ltac:(lia)) as (-> & _).
    rewrite Hne by lia. replace (nx + 1 - j - 1)%nat with (nx + 1 - (j + 1))%nat by lia. replace (nx + 1 - j + 1)%nat with (nx + 1 - (j - 1))%nat by lia.
    replace (nx - 1 - (j - 1))%nat with (nx + 1 - (j + 1))%nat by lia. unfold Rdiv. ring. }
  assert (L : forall k l, (k <= nx + 1)%nat -> l = (nx + 1 - k)%nat -> a' k = a l /\ aold' k = aold l) by (intros k l Hk ->; destruct (H k Hk) as (A & B & _); now split).
  cases_idx nx i; cases_idx nx (nx + 1 - i)%nat; try lia.
  - unfold wave_left, wave_right. cbv zeta. rewrite !I by lia. 
    destruct (L 0%nat (nx + 1)%nat ltac:(lia) ltac:(lia)) as [-> ->]. destruct (L 1%nat nx ltac:(lia) ltac:(lia)) as [-> ->]. destruct (L 2%nat (nx - 1)%nat ltac:(lia) ltac:(lia)) as [-> ->].
    replace (nx + 1 - 1)%nat with nx by lia. replace (nx + 1 - 2)%nat with (nx - 1)%nat by lia. reflexivity.
  - unfold wave_left, wave_right. cbv zeta. rewrite !I by lia. 
    destruct (L (nx + 1)%nat 0%nat ltac:(lia) ltac:(lia)) as [-> ->]. destruct (L nx 1%nat ltac:(lia) ltac:(lia)) as [-> ->]. destruct (L (nx - 1)%nat 2%nat ltac:(lia) ltac:(lia)) as [-> ->].
    replace (nx + 1 - nx)%nat with 1%nat by lia. replace (nx + 1 - (nx - 1))%nat with 2%nat by lia. reflexivity.
  - apply I. lia.
Qed.
Print Assumptions C63_mirror.

(** Superposition. *)
Theorem C63_linear : forall nx c dx dt u w a1 aold1 djy1 a2 aold2 djy2 ne i,
  fst (wave_step nx c dx dt (fun k => u * a1 k + w * a2 k) (fun k => u * aold1 k + w * aold2 k) (fun k => u * djy1 k + w * djy2 k) ne) i
  = u * fst (wave_step nx c dx dt a1 aold1 djy1 ne) i + w * fst (wave_step nx c dx dt a2 aold2 djy2 ne) i.
Proof.
  intros. unfold wave_step. destruct (Rlt_dec 0 c); cbn [fst]; [|reflexivity].
  cases_idx nx i; unfold wave_left, wave_right, abc, wave_interior, Rdiv; ring.
Qed.
Print Assumptions C63_linear.

(** Time reversal: stepping back from (a_new, a) recovers a_old in every cell (not in the guard cells, which absorb). *)
Theorem C63_reversible : forall nx c dx dt a aold djy ne i, 0 < c -> 0 < dx -> (1 <= i <= nx)%nat ->
  let anew := fst (wave_step nx c dx dt a aold djy ne) in fst (wave_step nx c dx dt a anew djy ne) i = aold i.
Proof.
  intros nx c dx dt a aold djy ne i Hc Hx Hi anew. unfold anew, wave_step. destruct (Rlt_dec 0 c); [|lra]. cbn [fst]. cases_idx nx i; try lia.
  unfold wave_interior at 1. destruct (Nat.eqb_spec i 0); [lia|]. destruct (Nat.eqb_spec i (nx + 1)); [lia|]. unfold wave_interior. field. lra.
Qed.
Print Assumptions C63_reversible.

(** Numerical dispersion: in a uniform plasma a wave cos(K i - W n) is stepped exactly whenever
    sin^2(W/2) = (c dt/dx)^2 sin^2(K/2) + n dt^2/4 ... *)
Lemma half_angle x : cos x = 1 - 2 * sin (x / 2) ^ 2.
Proof. replace x with (2 * (x / 2)) at 1 by field. rewrite cos_2a_sin. ring. Qed.
Theorem C63_dispersion : forall nx c dx dt n0 A K W n phi a aold djy ne, 0 < c -> 0 < dx -> 0 < dt ->
  sin (W / 2) ^ 2 = (c * dt / dx) ^ 2 * sin (K / 2) ^ 2 + n0 * dt ^ 2 / 4 ->
  (forall i, a i = A * cos (K * INR i - W * n + phi)) -> (forall i, aold i = A * cos (K * INR i - W * (n - 1) + phi)) ->
  (forall i, djy i = 0) -> (forall i, ne i = n0) ->
  forall i, (1 <= i <= nx)%nat -> fst (wave_step nx c dx dt a aold djy ne) i = A * cos (K * INR i - W * (n + 1) + phi).
Proof.
  intros nx c dx dt n0 A K W n phi a aold djy ne Hc Hx Ht D Ha Ho Hs Hn i Hi.
  unfold wave_step. destruct (Rlt_dec 0 c); [|lra]. cbn [fst]. cases_idx nx i; try lia. rewrite interior_C by exact Hx. rewrite courant_eq, Hs, Hn, Ho, !Ha.
  set (th := K * INR i - W * n + phi).
  replace (K * INR i - W * (n - 1) + phi) with (th + W) by (unfold th; ring). replace (K * INR i - W * (n + 1) + phi) with (th - W) by (unfold th; ring).
  assert (P : K * INR (i + 1) - W * n + phi = th + K) by (unfold th; rewrite plus_INR; change (INR 1) with 1; ring).
  assert (M : K * INR (i - 1) - W * n + phi = th - K) by (unfold th; rewrite minus_INR by lia; change (INR 1) with 1; ring).
  rewrite P, M, !cos_plus, !cos_minus. rewrite (half_angle W), (half_angle K).
  set (s := sin th). set (t := cos th). set (x := sin (W / 2) ^ 2) in *. set (y := sin (K / 2) ^ 2) in *. set (C := c * dt / dx) in *.
  assert (E : A * t * (4 * x) = A * t * (4 * (C ^ 2 * y) + dt ^ 2 * n0)) by (rewrite D; field). lra.
Qed.
Print Assumptions C63_dispersion.

(** ... and the scheme is unstable above the limit (c dt/dx)^2 + n dt^2/4 > 1: the shortest wave grows by a
    factor below -1 per step. *)
Theorem C63_unstable : forall c dx dt n0, 0 < c -> 0 < dx -> 1 < (c * dt / dx) ^ 2 + n0 * dt ^ 2 / 4 ->
  exists lam, lam < -1 /\ forall nx aold djy ne i, (1 <= i <= nx)%nat ->
    (forall j, (j <= nx + 1)%nat -> aold j = (-1) ^ j) -> (forall j, djy j = 0) -> (forall j, ne j = n0) ->
    fst (wave_step nx c dx dt (fun j => lam * aold j) aold djy ne) i = lam * (lam * aold i).
Proof.
  intros c dx dt n0 Hc Hx H. set (b := 4 * (c * dt / dx) ^ 2 + n0 * dt ^ 2 - 2). assert (Hb : 2 < b) by (unfold b; lra).
  set (d := sqrt (b ^ 2 - 4)). assert (Hd : d * d = b ^ 2 - 4) by (apply sqrt_sqrt; nra). assert (0 < d) by (apply sqrt_lt_R0; nra).
  set (lam := - (b + d) / 2). assert (L : lam * lam + b * lam + 1 = 0) by (unfold lam; nra). exists lam. split; [unfold lam; lra|].
  intros nx aold djy ne i Hi Ho Hs Hn. unfold wave_step. destruct (Rlt_dec 0 c); [|lra]. cbn [fst]. cases_idx nx i; try lia.
  rewrite interior_C by exact Hx. rewrite courant_eq, Hs, Hn, !Ho by lia. replace (i + 1)%nat with (S i) by lia.
  assert (M : (-1) ^ (i - 1) = - (-1) ^ i) by (replace i with (S (i - 1)) at 2 by lia; cbn [pow]; ring). rewrite M. cbn [pow]. set (s := (-1) ^ i).
  replace (lam * (lam * s)) with ((lam * lam) * s) by ring. replace (lam * lam) with (- (b * lam + 1)) by lra. unfold b. cbn [pow]. ring.
Qed.
Print Assumptions C63_unstable.

(** The dt override of the grid (dt <= 0.95 dx / c, C42) does not by itself guarantee this limit: a dense cell breaks it. *)
Theorem C63_override_stability_refuted : ~ forall c dx n0, 0 < c -> 0 < dx -> 0 <= n0 -> let dt := 95 / 100 * dx / c in (c * dt / dx) ^ 2 + n0 * dt ^ 2 / 4 <= 1.
Proof. intros H. specialize (H 1 1 1 ltac:(lra) ltac:(lra) ltac:(lra)). cbn zeta in H. lra. Qed.
Print Assumptions C63_override_stability_refuted.
Theorem C63_override_limit : forall c dx n0, 0 < c -> 0 < dx -> let dt := 95 / 100 * dx / c in
  ((c * dt / dx) ^ 2 + n0 * dt ^ 2 / 4 <= 1 <-> n0 <= 156 / 361 * (c / dx) ^ 2).
Proof.
  intros c dx n0 Hc Hx dt. assert (E : c * dt / dx = 95 / 100) by (unfold dt; field; lra). rewrite E.
  assert (Q : 0 < dx / c) by now apply Rdiv_lt_0_compat. assert (D : dt ^ 2 = (95 / 100) ^ 2 * (dx / c) ^ 2) by (unfold dt; field; lra). rewrite D.
  assert (I : (c / dx) ^ 2 * (dx / c) ^ 2 = 1) by (field; lra). assert (0 < (dx / c) ^ 2) by nra. assert (0 < (c / dx) ^ 2) by (assert (0 < c / dx) by (now apply Rdiv_lt_0_compat); nra).
  set (p := (dx / c) ^ 2) in *. set (q := (c / dx) ^ 2) in *. split; intros G.
  - apply Rmult_le_reg_r with p; [assumption|]. replace (156 / 361 * q * p) with (156 / 361 * (q * p)) by ring. rewrite I. lra.
  - assert (n0 * p <= 156 / 361 * q * p) by (apply Rmult_le_compat_r; lra). replace (156 / 361 * q * p) with (156 / 361 * (q * p)) in H1 by ring. rewrite I in H1. lra.
Qed.
Print Assumptions C63_override_limit.

(** Absorbing ends: a wave running out through the left end, a(x, t) = P(x + c t) with P any polynomial of degree
    up to five, is continued exactly through the guard cell, for every time step. By [C63_mirror] so is one
    running out on the right. *)
Theorem C63_absorbing : forall c dx dt p0 p1 p2 p3 p4 p5 x0 anew1 anew2 a0 a1 a2 aold0 aold1 aold2, 0 < c -> 0 < dx -> 0 < dt ->
  let P x := p0 + p1 * x + p2 * x ^ 2 + p3 * x ^ 3 + p4 * x ^ 4 + p5 * x ^ 5 in let s := c * dt in
  a0 = P x0 -> a1 = P (x0 + dx) -> a2 = P (x0 + 2 * dx) ->
  aold0 = P (x0 - s) -> aold1 = P (x0 + dx - s) -> aold2 = P (x0 + 2 * dx - s) ->
  anew1 = P (x0 + dx + s) -> anew2 = P (x0 + 2 * dx + s) ->
  abc (courant c dx dt) (inv_courant c dx dt) anew1 anew2 a0 a1 a2 aold0 aold1 aold2 = P (x0 + s).
Proof.
  intros c dx dt p0 p1 p2 p3 p4 p5 x0 anew1 anew2 a0 a1 a2 aold0 aold1 aold2 Hc Hx Ht P s -> -> -> -> -> -> -> ->.
  pose proof (courant_pos c dx dt Hc Hx Ht) as HC. rewrite inv_courant_eq by assumption. set (C := courant c dx dt) in *.
  assert (S : s = C * dx) by (unfold s, C; rewrite courant_eq; field; lra). rewrite S. unfold P, abc. field.
  assert (0 < 1 + 2 * C + C * C) by nra. repeat split; lra.
Qed.
Print Assumptions C63_absorbing.

(* ------------------------------------------------------------------------------------------------ *)
(** At c dt = dx pulses move one cell per step, exactly, and leave the box without reflection. *)
Lemma courant_one c dx dt : 0 < c -> 0 < dx -> 0 < dt -> c * dt = dx -> courant c dx dt = 1 /\ inv_courant c dx dt = 1.
Proof. intros Hc Hx Ht E. assert (C : courant c dx dt = 1) by (rewrite courant_eq, E; field; lra). split; [exact C|]. rewrite inv_courant_eq, C by assumption. field. Qed.
Lemma abc_one anew1 anew2 a0 a1 a2 aold0 aold1 aold2 : abc 1 1 anew1 anew2 a0 a1 a2 aold0 aold1 aold2 = 2 * a1 - aold2.
Proof. unfold abc. field. Qed.
Local Open Scope Z_scope.
Definition travelling (p q : Z -> R) (n : Z) (nx : nat) (a : nat -> R) : Prop :=
  forall i, (i <= nx + 1)%nat -> a i = (p (Z.of_nat i - n)%Z + q (Z.of_nat i + n)%Z)%R.
Local Open Scope R_scope.
Lemma travel_step nx c dx dt p q n a aold djy ne : (2 <= nx)%nat -> 0 < c -> 0 < dx -> 0 < dt -> c * dt = dx ->
  (forall z, (z <= 3 - n)%Z -> p z = 0) -> (forall z, (Z.of_nat nx - 2 + n <= z)%Z -> q z = 0) ->
  (forall i, djy i = 0) -> (forall i, ne i = 0) ->
  travelling p q n nx a -> travelling p q (n - 1) nx aold ->
  travelling p q (n + 1) nx (fst (wave_step nx c dx dt a aold djy ne)) /\ snd (wave_step nx c dx dt a aold djy ne) = a.
Proof.
  intros Hn Hc Hx Ht E Hp Hq Hs Hd Ha Ho. unfold wave_step. destruct (Rlt_dec 0 c); [|lra]. cbn [fst snd]. split; [|reflexivity].
  destruct (courant_one c dx dt Hc Hx Ht E) as [C O]. intros i Hi. cases_idx nx i.
  - subst i. unfold wave_left. cbv zeta. rewrite C, O, abc_one. rewrite (Ha 1%nat), (Ho 2%nat) by lia.
    rewrite !(Hp _) by lia. replace (Z.of_nat 1 + n)%Z with (Z.of_nat 0 + (n + 1))%Z by lia. replace (Z.of_nat 2 + (n - 1))%Z with (Z.of_nat 0 + (n + 1))%Z by lia. ring.
  - subst i. unfold wave_right. cbv zeta. rewrite C, O, abc_one. rewrite (Ha nx), (Ho (nx - 1)%nat) by lia.
    rewrite !(Hq _) by lia. replace (Z.of_nat nx - n)%Z with (Z.of_nat (nx + 1) - (n + 1))%Z by lia. replace (Z.of_nat (nx - 1) - (n - 1))%Z with (Z.of_nat (nx + 1) - (n + 1))%Z by lia. ring.
  - rewrite interior_C by exact Hx. rewrite C, Hs, Hd, (Ha i), (Ha (i - 1)%nat), (Ha (i + 1)%nat), (Ho i) by lia.
    replace (Z.of_nat (i - 1) - n)%Z with (Z.of_nat i - (n + 1))%Z by lia. replace (Z.of_nat (i - 1) + n)%Z with (Z.of_nat i + (n - 1))%Z by lia.
    replace (Z.of_nat (i + 1) - n)%Z with (Z.of_nat i - (n - 1))%Z by lia. replace (Z.of_nat (i + 1) + n)%Z with (Z.of_nat i + (n + 1))%Z by lia. ring.
Qed.
Theorem C63_pulses : forall nx c dx dt p q N a aold, (2 <= nx)%nat -> 0 < c -> 0 < dx -> 0 < dt -> c * dt = dx ->
  (* p runs to the right, q to the left; both start inside the box *)
  (forall z, (z <= 3)%Z -> p z = 0) -> (forall z, (Z.of_nat nx - 2 <= z)%Z -> q z = 0) ->
  (forall i, (i <= nx + 1)%nat -> a i = p (Z.of_nat i) + q (Z.of_nat i)) ->
  (forall i, (i <= nx + 1)%nat -> aold i = p (Z.of_nat i + 1)%Z + q (Z.of_nat i - 1)%Z) ->
  let final := wave_run nx c dx dt (repeat (fun _ => 0, fun _ => 0) N) (a, aold) in
  (forall i, (i <= nx + 1)%nat -> fst final i = p (Z.of_nat i - Z.of_nat N)%Z + q (Z.of_nat i + Z.of_nat N)%Z) /\
  ((nx - 1 <= N)%nat -> forall i, (i <= nx + 1)%nat -> fst final i = 0).
Proof.
  intros nx c dx dt p q N a aold Hn Hc Hx Ht E Hp Hq Ha Ho final.
  assert (G : forall N n a aold, (0 <= n)%Z -> travelling p q n nx a -> travelling p q (n - 1) nx aold ->
     travelling p q (n + Z.of_nat N) nx (fst (wave_run nx c dx dt (repeat (fun _ => 0, fun _ => 0) N) (a, aold)))).
  { clear - Hn Hc Hx Ht E Hp Hq. induction N as [|N IH]; intros n a aold Hnn Ha Ho; cbn [repeat wave_run].
    - rewrite Z.add_0_r. exact Ha.
    - cbn [fst snd]. destruct (travel_step nx c dx dt p q n a aold (fun _ => 0) (fun _ => 0) Hn Hc Hx Ht E) as [T1 T2]; try assumption.
      + intros. apply Hp. lia. + intros. apply Hq. lia. + reflexivity. + reflexivity.
      + destruct (wave_step nx c dx dt a aold (fun _ => 0) (fun _ => 0)) as [a1 a0] eqn:W. cbn [fst snd] in T1, T2. subst a0.
        replace (n + Z.of_nat (S N))%Z with ((n + 1) + Z.of_nat N)%Z by lia. apply IH; [lia|exact T1|]. replace (n + 1 - 1)%Z with n by lia. exact Ha. }
  assert (T : travelling p q (0 + Z.of_nat N) nx (fst final)).
  { apply G; [lia| |]; intros i Hi; [rewrite Ha by exact Hi|rewrite Ho by exact Hi]; f_equal; f_equal; lia. }
  assert (T' : forall i, (i <= nx + 1)%nat -> fst final i = p (Z.of_nat i - Z.of_nat N)%Z + q (Z.of_nat i + Z.of_nat N)%Z).
  { intros i Hi. rewrite (T i Hi). f_equal; f_equal; lia. }
  split; [exact T'|]. intros HN i Hi. rewrite (T' i Hi), Hp, Hq by lia. ring.
Qed.
Print Assumptions C63_pulses.
(** A concrete pulse: one cell high at cell 5 of a box of 8, running right. *)
Example C63_nonvacuous_pulse : let p := fun z : Z => if (z =? 5)%Z then 1 else 0 in
  (forall z, (z <= 3)%Z -> p z = 0) /\ p (Z.of_nat 7 - Z.of_nat 2)%Z = 1 /\ ((8 - 1 <= 7)%nat).
Proof. cbv zeta. repeat split; [|lia]. intros z Hz. destruct (Z.eqb_spec z 5); [lia|reflexivity]. Qed.
Example C63_nonvacuous_dispersion : exists c dx dt n0 K W, 0 < c /\ 0 < dx /\ 0 < dt /\ 0 < n0 /\ sin (W / 2) ^ 2 = (c * dt / dx) ^ 2 * sin (K / 2) ^ 2 + n0 * dt ^ 2 / 4 /\ sin (W / 2) <> 0.
Proof.
  exists 1, 1, (1 / 2), 12, PI, PI. rewrite sin_PI2. repeat split; lra.
Qed.

(** A point source of strength 2 w c a0 / dx (field.py:63-70) in vacuum radiates, in both directions, waves of
    amplitude a0 (w dx / c) / sin K, where K is the numerical phase per cell: more than a0, and a0 in the limit. *)
Theorem C63_point_source : forall nx c dx dt a0 w K i0 n a aold djy ne, 0 < c -> 0 < dx -> 0 < dt -> sin K <> 0 ->
  sin (w * dt / 2) ^ 2 = (c * dt / dx) ^ 2 * sin (K / 2) ^ 2 ->
  let A := a0 * (w * dx / c) / sin K in
  let dist i := Rabs (INR i - INR i0) in
  (forall i, a i = - A * cos (w * (n * dt) - K * dist i)) -> (forall i, aold i = - A * cos (w * ((n - 1) * dt) - K * dist i)) ->
  (forall i, ne i = 0) -> (forall i, djy i = if Nat.eqb i i0 then 2 * w * c * a0 / dx * sin (w * (n * dt)) else 0) ->
  forall i, (1 <= i <= nx)%nat -> fst (wave_step nx c dx dt a aold djy ne) i = - A * cos (w * ((n + 1) * dt) - K * dist i).
Proof.
  intros nx c dx dt a0 w K i0 n a aold djy ne Hc Hx Ht HK D A dist Ha Ho Hn Hs i Hi.
  unfold wave_step. destruct (Rlt_dec 0 c); [|lra]. cbn [fst]. cases_idx nx i; try lia. rewrite interior_C by exact Hx. rewrite courant_eq, Hn, Ho, Hs, !Ha.
  set (C := c * dt / dx) in *. set (W := w * dt) in *. set (u := w * (n * dt)).
  replace (w * ((n - 1) * dt)) with (u - W) by (unfold u, W; ring). replace (w * ((n + 1) * dt)) with (u + W) by (unfold u, W; ring).
  assert (CW : cos W = 1 - 2 * (C ^ 2 * sin (K / 2) ^ 2)) by (rewrite half_angle, D; reflexivity). assert (CK : cos K = 1 - 2 * sin (K / 2) ^ 2) by apply half_angle.
  assert (DD : cos W - 1 = C ^ 2 * (cos K - 1)) by (rewrite CW, CK; ring).
  destruct (Nat.eqb_spec i i0) as [->|Hne].
  - assert (D0 : dist i0 = 0) by (unfold dist; rewrite Rminus_diag_eq by reflexivity; apply Rabs_R0).
    assert (D1 : dist (i0 - 1)%nat = 1) by (unfold dist; rewrite minus_INR by lia; change (INR 1) with 1; replace (INR i0 - 1 - INR i0) with (- (1)) by ring; rewrite Rabs_Ropp; apply Rabs_R1).
    assert (D2 : dist (i0 + 1)%nat = 1) by (unfold dist; rewrite plus_INR; change (INR 1) with 1; replace (INR i0 + 1 - INR i0) with 1 by ring; apply Rabs_R1).
    rewrite D0, D1, D2, !Rmult_0_r, !Rminus_0_r, !Rmult_1_r, !cos_minus, cos_plus.
    assert (S : dt ^ 2 * (2 * w * c * a0 / dx * sin u) = 2 * A * C ^ 2 * sin K * sin u) by (unfold A, C; field; repeat split; lra).
    rewrite S. assert (X : A * cos u * (cos W - 1) = A * cos u * (C ^ 2 * (cos K - 1))) by (rewrite DD; reflexivity). lra.
  - assert (E1 : exists e, e * e = 1 /\ dist (i - 1)%nat = dist i - e /\ dist (i + 1)%nat = dist i + e).
    { unfold dist. rewrite minus_INR, plus_INR by lia. change (INR 1) with 1. destruct (Nat.lt_ge_cases i i0) as [L|L].
      - exists (-1). assert (INR i + 1 <= INR i0) by (rewrite <- S_INR; apply le_INR; lia). rewrite !Rabs_left1 by lra. repeat split; ring.
      - exists 1. assert (INR i0 + 1 <= INR i) by (rewrite <- S_INR; apply le_INR; lia). rewrite !Rabs_pos_eq by lra. repeat split; ring. }
    destruct E1 as (e & He & -> & ->). set (d := dist i). set (th := u - K * d).
    replace (u - W - K * d) with (th - W) by (unfold th; ring). replace (u + W - K * d) with (th + W) by (unfold th; ring).
    replace (u - K * (d - e)) with (th + K * e) by (unfold th; ring). replace (u - K * (d + e)) with (th - K * e) by (unfold th; ring).
    rewrite !cos_minus, !cos_plus.
    assert (Ke : cos (K * e) = cos K). { assert (Q : e = 1 \/ e = -1) by (assert ((e - 1) * (e + 1) = 0) by lra; destruct (Rmult_integral _ _ H); [left|right]; lra). destruct Q as [-> | ->]; [f_equal; ring|rewrite <- cos_neg; f_equal; ring]. }
    rewrite Ke. assert (X : A * cos th * (cos W - 1) = A * cos th * (C ^ 2 * (cos K - 1))) by (rewrite DD; reflexivity). rewrite Rmult_0_l, Rmult_0_r. lra.
Qed.
Print Assumptions C63_point_source.
(** The hypotheses are met at the Courant number one: w dt = K = pi / 2. *)
Example C63_nonvacuous_source : sin (PI / 2) <> 0 /\ sin (PI / 2 * 1 / 2) ^ 2 = (1 * 1 / 1) ^ 2 * sin (PI / 2 / 2) ^ 2.
Proof. rewrite sin_PI2. split; [lra|]. replace (PI / 2 * 1 / 2) with (PI / 2 / 2) by field. field. Qed.
Example C63_nonvacuous_unstable : 1 < (1 * (11 / 10) / 1) ^ 2 + 0 * (11 / 10) ^ 2 / 4.
Proof. lra. Qed.
