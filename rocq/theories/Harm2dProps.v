(** Property C77: the spherical-harmonic Vlasov operators are exact on the distribution the coefficients stand for. *)
From Coq Require Import Reals Lra Lia ZArith List Bool Psatz Nsatz.
From Verif Require Import Harm2d Harm2dLayout Harm2dSum Legendre RSum Pic PicProofs PicFourier Dft.
Import ListNotations.
Local Open Scope R_scope.

(** ** Specification vocabulary *)
Definition ell_of (L M i : nat) : nat := fst (nth i (pairs L M) (0, 0)%nat).
Definition m_of (L M i : nat) : nat := snd (nth i (pairs L M) (0, 0)%nat).
(** No content in the highest degree (nor in the highest order when m_max < l_max): truncation has nothing to cut. *)
Definition room (L M : nat) (f : nat -> cplx) : Prop :=
  forall i, (i < size L M)%nat -> (ell_of L M i = L \/ (M < L /\ m_of L M i = M))%nat -> f i = c0.
(** The coefficients of order 0 are real, as those of a real distribution. *)
Definition real0 (L M : nat) (f : nat -> cplx) : Prop := forall i, (i < size L M)%nat -> m_of L M i = 0%nat -> snd (f i) = 0.

Lemma retained_index L M l m : retained L M l m = true -> exists i, (i < size L M)%nat /\ ell_of L M i = l /\ m_of L M i = m /\ forall f, gf L M f l m = f i.
Proof.
  intros H. destruct (index_cases L M l m) as [(_ & I & N)|(R0 & _)]; [|congruence]. exists (Z.to_nat (index L M (Z.of_nat l) (Z.of_nat m))).
  assert (Z.to_nat (index L M (Z.of_nat l) (Z.of_nat m)) < size L M)%nat by (unfold size; apply nth_error_Some; rewrite N; discriminate).
  unfold ell_of, m_of. rewrite (nth_error_nth _ _ _ N). cbn [fst snd]. repeat split; auto. intros f. unfold gf, at_. destruct (Z.leb_spec 0 (index L M (Z.of_nat l) (Z.of_nat m))); [reflexivity|lia].
Qed.
Lemma room_gf L M f l m : room L M f -> (l = L \/ (M < L /\ m = M))%nat -> gf L M f l m = c0.
Proof.
  intros H K. destruct (retained L M l m) eqn:E; [|now apply gf_out]. destruct (retained_index L M l m E) as (i & Hi & A & B & C). rewrite C. apply H; auto. rewrite A, B. exact K.
Qed.
Lemma real0_gf L M f l : real0 L M f -> snd (gf L M f l 0) = 0.
Proof. intros H. destruct (retained L M l 0) eqn:E; [|now rewrite gf_out]. destruct (retained_index L M l 0 E) as (i & Hi & A & B & C). rewrite C. apply H; auto. Qed.
Lemma gf_vanish L M f : room L M f -> vanish (S (S L)) (gf L M f).
Proof.
  intros H l m K. apply gf_out. unfold retained. destruct (Nat.leb_spec l L); auto. destruct (Nat.leb_spec m l); auto. lia.
Qed.
Lemma vanish_map N F (h : cplx -> cplx) : h c0 = c0 -> vanish N F -> vanish N (fun l m => h (F l m)).
Proof. intros E H l m K. rewrite H by auto. exact E. Qed.

(** The coefficients are those of [six_mode] on every mode; outside the retained set they read zero. *)
Definition six_room (L M : nat) (s : six) : Prop :=
  forall F, (F = gx s \/ F = hx s \/ F = gm s \/ F = hm s \/ F = gp s \/ F = hp s) -> forall l m, (retained L M l m = false \/ l = L \/ (M < L /\ m = M))%nat -> F l m = c0.
Lemma six_trunc L M s l m : six_room L M s -> retained L M l m = false -> (m <= l)%nat -> six_mode s l m = c0.
Proof.
  intros H HR Hm.
  assert (OUT : forall F, (F = gx s \/ F = hx s \/ F = gm s \/ F = hm s \/ F = gp s \/ F = hp s) -> forall l' m', (L <= l' \/ (M < L /\ M <= m'))%nat -> F l' m' = c0).
  { intros F HF l' m' K. apply (H F HF). destruct (Nat.eq_dec l' L); auto. destruct (Nat.eq_dec m' M) as [->|]; [destruct (Nat.ltb_spec M L); [auto|]|].
    - left. unfold retained. destruct (Nat.leb_spec l' L); auto. lia.
    - left. unfold retained. destruct (Nat.leb_spec l' L); auto. destruct (Nat.leb_spec m' l'); auto. destruct (Nat.leb_spec m' M); auto. lia. }
  assert (CASE : (L < l)%nat \/ ((l <= L)%nat /\ (M < m)%nat)).
  { unfold retained in HR. destruct (Nat.leb_spec l L); [|auto]. destruct (Nat.leb_spec m l); [|lia]. destruct (Nat.leb_spec m M); [discriminate|auto]. }
  assert (E1 : prd c0 l (fun k => gx s k m) = c0) by (destruct l; cbn [prd]; auto; apply OUT; auto; lia).
  assert (E2 : hx s (S l) m = c0) by (apply OUT; auto; lia).
  assert (E3 : hp s (S l) (S m) = c0) by (apply OUT; [tauto|lia]).
  assert (E4 : prd c0 l (fun k => gp s k (S m)) = c0) by (destruct l; cbn [prd]; auto; apply OUT; [tauto|lia]).
  assert (E5 : prd c0 l (fun k => prd c0 m (fun j => gm s k j)) = c0) by (destruct l; cbn [prd]; auto; destruct m; cbn [prd]; auto; apply OUT; [tauto|lia]).
  assert (E6 : prd c0 m (fun j => hm s (S l) j) = c0) by (destruct m; cbn [prd]; auto; apply OUT; [tauto|lia]).
  unfold six_mode. cbv zeta. rewrite E1, E2, E3, E4, E5, E6. destruct (0 <? m)%nat; cx.
Qed.
Lemma six_dist L M s out x y z : six_room L M s -> (forall l m, retained L M l m = true -> out l m = six_mode s l m) ->
  dist_at L M (packed L M out) x y z = rsum2 (S (S L)) (six_source x y z s).
Proof.
  intros H HO. rewrite (dist_double L M (S (S L))) by lia. fold (rsum2 (S (S L)) (fun l m => dterm x y z (gf L M (packed L M out) l m) l m)).
  assert (V : forall F, (F = gx s \/ F = hx s \/ F = gm s \/ F = hm s \/ F = gp s \/ F = hp s) -> vanish (S (S L)) F).
  { intros F HF l m K. apply (H F HF). left. unfold retained. destruct (Nat.leb_spec l L); auto. destruct (Nat.leb_spec m l); auto. lia. }
  rewrite <- six_sum; try (apply V; tauto); [|lia]. apply rsum2_ext. intros l m _ _. destruct (retained L M l m) eqn:E.
  - rewrite gf_packed by auto. now rewrite HO.
  - rewrite gf_out by auto. destruct (Nat.ltb_spec l m).
    + unfold dterm. rewrite legd_high by auto. ring.
    + rewrite (six_trunc L M) by auto. reflexivity.
Qed.
Lemma leg_x' x l m : x * legd x l m = / (2 * INR l + 1) * ((INR l - INR m + 1) * legd x (S l) m + (INR l + INR m) * legp x l m).
Proof. rewrite <- leg_x. field. apply den1. Qed.
Lemma leg_up' x l m : legd x l m = / (2 * INR l + 1) * (legd x (S l) (S m) - legp x l (S m)).
Proof. rewrite <- leg_up. field. apply den1. Qed.
Lemma leg_down' x l m : (1 - x * x) * legd x l (S m) = / (2 * INR l + 1) * ((INR l + INR m + 1) * (INR l + INR m) * legp x l m - (INR l - INR m) * (INR l - INR m + 1) * legd x (S l) m).
Proof. rewrite <- leg_down. field. apply den1. Qed.
(** multiplication by the direction *)
Lemma source_same x y z s l m : hx s l m = gx s l m -> hm s l m = gm s l m -> hp s l m = gp s l m ->
  six_source x y z s l m = wt m * re_at y z (gx s l m) m * (x * legd x l m) + re_at y z (gm s l m) (S m) * legd x l m + prd 0 m (fun j => re_at y z (gp s l m) j * ((1 - x * x) * legd x l (S j))).
Proof.
  intros E1 E2 E3. unfold six_source. rewrite E1, E2, E3. pose proof (den1 l). destruct m as [|j]; cbn [prd].
  - rewrite leg_x', (leg_up' x l 0). field. auto.
  - rewrite leg_down', leg_x', (leg_up' x l (S j)). field. auto.
Qed.

(** ** Streaming *)
Definition stream_six (L M : nat) (v : R) (a b c : nat -> cplx) : six :=
  let A := fun l m => cscal (- v) (gf L M a l m) in
  let Tm := fun l m => cscal (- v) (csub (gf L M b l m) (cmul ci (gf L M c l m))) in
  let Tp := fun l m => cscal (- v) (cadd (gf L M b l m) (cmul ci (gf L M c l m))) in
  {| gx := A; hx := A; gm := Tm; hm := Tm; gp := Tp; hp := Tp |}.
Lemma prd_map l (h : cplx -> cplx) F : h c0 = c0 -> prd c0 l (fun k => h (F k)) = h (prd c0 l F).
Proof. intros H. destruct l; cbn [prd]; auto. Qed.
Lemma den_m1 l : 2 * INR l - 1 <> 0.
Proof. intros K. destruct l as [|l]; [change (INR 0) with 0 in K; lra|]. rewrite S_INR in K. pose proof (pos_INR l). lra. Qed.
Lemma den_3 l : 2 * INR l + 3 <> 0. Proof. pose proof (pos_INR l). lra. Qed.
Lemma stream_six_eq L M v a b c l m : stream_mode L M v a b c l m = six_mode (stream_six L M v a b c) l m.
Proof.
  unfold stream_mode, six_mode. cbv zeta. cbn [gx hx gm hm gp hp stream_six].
  rewrite !at_pred, !at_succ, !at_pp, !at_ps, !at_sp, !at_ss.
  pose proof (den_m1 l). pose proof (den_3 l).
  assert (Z0 : csub c0 (cmul ci c0) = c0) by cx. assert (Z1 : cadd c0 (cmul ci c0) = c0) by cx.
  destruct m as [|m]; cbn [prd].
  - change (0 <? 0)%nat with false. cbv iota. change (Z.of_nat 0 + 1)%Z with 1%Z.
    change (at_ L M (fun i => cadd (b i) (cmul ci (c i))) (Z.of_nat l - 1) 1) with (at_ L M (fun i => cadd (b i) (cmul ci (c i))) (Z.of_nat l - 1) (Z.of_nat 1)).
    change (at_ L M (fun i => cadd (b i) (cmul ci (c i))) (Z.of_nat l + 1) 1) with (at_ L M (fun i => cadd (b i) (cmul ci (c i))) (Z.of_nat l + 1) (Z.of_nat 1)).
    rewrite at_pred, at_succ. rewrite !(gf_map2 L M (fun u w => cadd u (cmul ci w))) by auto.
    destruct l as [|l]; cbn [prd].
    + change (INR 0) with 0 in *. cx; field; repeat split; lra.
    + rewrite (gf_map2 L M (fun u w => cadd u (cmul ci w))) by auto. change (INR 0) with 0. cx; field; repeat split; auto.
  - change (0 <? S m)%nat with true. cbv iota. rewrite !(gf_map2 L M (fun u w => cadd u (cmul ci w))), !(gf_map2 L M (fun u w => csub u (cmul ci w))) by auto.
    destruct l as [|l]; cbn [prd].
    + change (INR 0) with 0 in *. cx; field; repeat split; lra.
    + rewrite !(gf_map2 L M (fun u w => cadd u (cmul ci w))), !(gf_map2 L M (fun u w => csub u (cmul ci w))) by auto. cx; field; repeat split; auto.
Qed.
Lemma room_all L M f l m : room L M f -> (retained L M l m = false \/ l = L \/ (M < L /\ m = M))%nat -> gf L M f l m = c0.
Proof. intros H [K|K]; [now apply gf_out|now apply room_gf]. Qed.
Lemma rsum2_scal N c F : rsum2 N (fun l m => c * F l m) = c * rsum2 N F.
Proof. unfold rsum2. rewrite <- rsum_scal. apply rsum_ext. intros l _. now rewrite rsum_scal. Qed.
(** Spatial advection: for every direction n = (x, y, z), every speed and every coefficients of the three derivatives, the streaming
    operator returns the coefficients of -v (n . grad f), as long as truncation has nothing to cut. *)
Theorem C77_streaming : forall L M v a b c x y z, x * x + y * y + z * z = 1 ->
  room L M a -> room L M b -> room L M c -> real0 L M b -> real0 L M c ->
  dist_at L M (streaming L M v a b c) x y z = - v * (x * dist_at L M a x y z + y * dist_at L M b x y z + z * dist_at L M c x y z).
Proof.
  intros L M v a b c x y z HS Ra Rb Rc Ib Ic. unfold streaming. rewrite (six_dist L M (stream_six L M v a b c)).
  - rewrite !(dist_double L M (S (S L))) by lia.
    change (rsum (S (S L)) (fun l => rsum (S (S L)) (fun m => dterm x y z (gf L M a l m) l m))) with (rsum2 (S (S L)) (fun l m => dterm x y z (gf L M a l m) l m)).
    change (rsum (S (S L)) (fun l => rsum (S (S L)) (fun m => dterm x y z (gf L M b l m) l m))) with (rsum2 (S (S L)) (fun l m => dterm x y z (gf L M b l m) l m)).
    change (rsum (S (S L)) (fun l => rsum (S (S L)) (fun m => dterm x y z (gf L M c l m) l m))) with (rsum2 (S (S L)) (fun l m => dterm x y z (gf L M c l m) l m)).
    rewrite <- !rsum2_scal, <- !rsum2_plus, <- rsum2_scal. apply rsum2_ext. intros l m _ _.
    rewrite source_same by reflexivity. cbn [gx gm gp stream_six]. unfold dterm. 
    pose proof (real0_gf L M b l Ib) as Bb. pose proof (real0_gf L M c l Ic) as Bc.
    destruct m as [|j]; cbn [prd cpow].
    + destruct (gf L M a l 0) as [a1 a2], (gf L M b l 0) as [b1 b2], (gf L M c l 0) as [d1 d2]. cbn [snd] in Bb, Bc. subst b2 d2.
      unfold re_at, wt, cpow, c1, cmul, cscal, csub, cneg; unfold cadd, ci; cbn [fst snd Nat.eqb]. ring.
    + replace (1 - x * x) with (y * y + z * z) by lra. rewrite wt_S. unfold re_at. cbn [cpow].
      destruct (cpow (y, z) j) as [p q]. destruct (gf L M a l (S j)) as [a1 a2], (gf L M b l (S j)) as [b1 b2], (gf L M c l (S j)) as [d1 d2].
      unfold cmul, cscal, csub, cneg; unfold cadd, ci; cbn [fst snd]. ring.
  - intros F HF l m K. cbn [gx hx gm hm gp hp stream_six] in HF.
    assert (Z : gf L M a l m = c0 /\ gf L M b l m = c0 /\ gf L M c l m = c0) by (split; [|split]; apply room_all; auto). destruct Z as (Z1 & Z2 & Z3).
    destruct HF as [->|[->|[->|[->|[->| ->]]]]]; rewrite ?Z1, ?Z2, ?Z3; cx.
  - intros l m _. apply stream_six_eq.
Qed.
Print Assumptions C77_streaming.

(** ** Curves on the sphere of directions *)
Definition tang (x y z dx dy dz : R) (a : cplx) (l m : nat) : R :=
  wt m * (re_at y z a m * (legd x l (S m) * dx) + prd 0 m (fun j => INR m * re_at y z (cmul a (dy, dz)) j) * legd x l m).
Lemma derive_ext' (f g : R -> R) t d : (forall s, f s = g s) -> derivable_pt_lim f t d -> derivable_pt_lim g t d.
Proof. intros E H eps He. destruct (H eps He) as [del Hd]. exists del. intros h H0 H1. rewrite <- !E. now apply Hd. Qed.
Lemma derive_rsum' n (F : nat -> R -> R) (d : nat -> R) t : (forall i, (i < n)%nat -> derivable_pt_lim (F i) t (d i)) -> derivable_pt_lim (fun s => rsum n (fun i => F i s)) t (rsum n d).
Proof.
  induction n; intros H; [apply derivable_pt_lim_const|]. cbn [rsum].
  apply (derivable_pt_lim_plus (fun s => rsum n (fun i => F i s)) (F n)); [apply IHn; intros; apply H; lia|apply H; lia].
Qed.
Lemma derive_re (Y Z : R -> R) t dy dz : derivable_pt_lim Y t dy -> derivable_pt_lim Z t dz -> forall m a,
  derivable_pt_lim (fun s => re_at (Y s) (Z s) a m) t (prd 0 m (fun j => INR m * re_at (Y t) (Z t) (cmul a (dy, dz)) j)).
Proof.
  intros HY HZ. induction m as [|m IH]; intros [p q].
  - cbn [prd]. apply (derive_ext' (fun _ => p)); [|apply derivable_pt_lim_const]. intros s. unfold re_at, cpow, c1, cmul. cbn [fst snd]. ring.
  - assert (E : forall s, Y s * re_at (Y s) (Z s) (p, q) m + Z s * re_at (Y s) (Z s) (- q, p) m = re_at (Y s) (Z s) (p, q) (S m)).
    { intros s. unfold re_at. cbn [cpow]. unfold cmul. cbn [fst snd]. ring. }
    apply (derive_ext' _ _ _ _ E). cbn [prd].
    pose proof (derivable_pt_lim_plus (fun s => Y s * re_at (Y s) (Z s) (p, q) m) (fun s => Z s * re_at (Y s) (Z s) (- q, p) m) t _ _
      (derivable_pt_lim_mult Y (fun s => re_at (Y s) (Z s) (p, q) m) t _ _ HY (IH (p, q))) (derivable_pt_lim_mult Z (fun s => re_at (Y s) (Z s) (- q, p) m) t _ _ HZ (IH (- q, p)))) as K.
    match type of K with derivable_pt_lim _ _ ?v => replace (INR (S m) * re_at (Y t) (Z t) (cmul (p, q) (dy, dz)) m) with v; [exact K|] end.
    destruct m as [|j]; cbn [prd].
    + change (INR 1) with 1. unfold re_at, cpow, c1, cmul. cbn [fst snd]. ring.
    + rewrite (S_INR (S j)). unfold re_at. cbn [cpow]. unfold cmul. cbn [fst snd]. ring.
Qed.
Lemma derive_term (X Y Z : R -> R) t dx dy dz a l m : derivable_pt_lim X t dx -> derivable_pt_lim Y t dy -> derivable_pt_lim Z t dz ->
  derivable_pt_lim (fun s => dterm (X s) (Y s) (Z s) a l m) t (tang (X t) (Y t) (Z t) dx dy dz a l m).
Proof.
  intros HX HY HZ.
  apply (derive_ext' (fun s => wt m * (re_at (Y s) (Z s) a m * legd (X s) l m))); [intros s; unfold dterm, re_at; ring|].
  apply (derivable_pt_lim_scal (fun s => re_at (Y s) (Z s) a m * legd (X s) l m)).
  pose proof (derivable_pt_lim_comp X (fun y => legd y l m) t _ _ HX (legd_deriv (X t) l m)) as K.
  pose proof (derivable_pt_lim_mult (fun s => re_at (Y s) (Z s) a m) (fun s => legd (X s) l m) t _ _ (derive_re Y Z t dy dz HY HZ m a) K) as Q.
  match type of Q with derivable_pt_lim _ _ ?v => match goal with |- derivable_pt_lim _ _ ?w => replace w with v; [exact Q|ring] end end.
Qed.
Lemma derive_dist L M f (X Y Z : R -> R) t dx dy dz : derivable_pt_lim X t dx -> derivable_pt_lim Y t dy -> derivable_pt_lim Z t dz ->
  derivable_pt_lim (fun s => dist_at L M f (X s) (Y s) (Z s)) t (rsum2 (S (S L)) (fun l m => tang (X t) (Y t) (Z t) dx dy dz (gf L M f l m) l m)).
Proof.
  intros HX HY HZ. apply (derive_ext' (fun s => rsum (S (S L)) (fun l => rsum (S (S L)) (fun m => dterm (X s) (Y s) (Z s) (gf L M f l m) l m)))).
  - intros s. symmetry. apply dist_double. lia.
  - apply derive_rsum'. intros l _. apply (derive_rsum' (S (S L)) (fun m s => dterm (X s) (Y s) (Z s) (gf L M f l m) l m)). intros m _. apply derive_term; auto.
Qed.

(** ** Electric force *)
Lemma tan_x x l m : (1 - x * x) * legd x l (S m) - INR m * (x * legd x l m) = / (2 * INR l + 1) * ((INR l + 1) * (INR l + INR m) * legp x l m - INR l * (INR l - INR m + 1) * legd x (S l) m).
Proof. pose proof (den1 l). rewrite legd_F, !Rmult_assoc, leg_x'. field. auto. Qed.
Lemma tan_up x l m : x * legd x l (S m) + INR m * legd x l m = / (2 * INR l + 1) * (INR l * legd x (S l) (S m) + (INR l + 1) * legp x l (S m)).
Proof. pose proof (den1 l). rewrite leg_x', (leg_up' x l m), S_INR. field. auto. Qed.
Lemma tan_down x l j : (INR j + 1) * ((1 - x * x) * legd x l (S j)) + (INR l + INR j + 1) * (INR l - INR j) * (x * legd x l j) =
  / (2 * INR l + 1) * ((INR l + INR j) * (INR l + INR j + 1) * (INR l + 1) * legp x l j + INR l * (INR l - INR j + 1) * (INR l - INR j) * legd x (S l) j).
Proof. pose proof (den1 l). rewrite leg_down', leg_x'. field. auto. Qed.
Definition elec_six (L M : nat) (ex ey ez : R) (g h : nat -> cplx) : six :=
  {| gx := fun l m => cscal ex (gf L M g l m); hx := fun l m => cscal ex (gf L M h l m);
     gm := fun l m => cmul (ey, - ez) (gf L M g l m); hm := fun l m => cmul (ey, - ez) (gf L M h l m);
     gp := fun l m => cmul (ey, ez) (gf L M g l m); hp := fun l m => cmul (ey, ez) (gf L M h l m) |}.
Lemma elec_six_eq L M ex ey ez g h l m : electric_mode L M ex ey ez g h l m = six_mode (elec_six L M ex ey ez g h) l m.
Proof.
  unfold electric_mode, six_mode. cbv zeta. cbn [gx hx gm hm gp hp elec_six].
  rewrite !at_pred, !at_succ, !at_pp, !at_ps, !at_sp, !at_ss.
  pose proof (den_m1 l). pose proof (den_3 l).
  destruct m as [|m]; cbn [prd].
  - change (0 <? 0)%nat with false. cbv iota. change (Z.of_nat 0 + 1)%Z with 1%Z.
    change (at_ L M g (Z.of_nat l - 1) 1) with (at_ L M g (Z.of_nat l - 1) (Z.of_nat 1)).
    change (at_ L M h (Z.of_nat l + 1) 1) with (at_ L M h (Z.of_nat l + 1) (Z.of_nat 1)).
    rewrite at_pred, at_succ. destruct l as [|l]; cbn [prd].
    + change (INR 0) with 0 in *. cx; field; repeat split; lra.
    + change (INR 0) with 0. cx; field; repeat split; auto.
  - change (0 <? S m)%nat with true. cbv iota. destruct l as [|l]; cbn [prd].
    + change (INR 0) with 0 in *. cx; field; repeat split; lra.
    + cx; field; repeat split; auto.
Qed.
(** the source of a mode, with G = d - l r a and H = d + (l + 1) r a *)
Lemma elec_source x y z ex ey ez r (d a : cplx) s l m : x * x + y * y + z * z = 1 -> (m = 0%nat -> snd d = 0 /\ snd a = 0) ->
  let g := csub d (cscal (INR l * r) a) in let h := cadd d (cscal ((INR l + 1) * r) a) in let en := ex * x + ey * y + ez * z in
  gx s l m = cscal ex g -> hx s l m = cscal ex h -> gm s l m = cmul (ey, - ez) g -> hm s l m = cmul (ey, - ez) h -> gp s l m = cmul (ey, ez) g -> hp s l m = cmul (ey, ez) h ->
  six_source x y z s l m = en * dterm x y z d l m + r * tang x y z (ex - en * x) (ey - en * y) (ez - en * z) a l m.
Proof.
  intros HS H0 g h en E1 E2 E3 E4 E5 E6. unfold six_source. rewrite E1, E2, E3, E4, E5, E6.
  assert (A1 : 1 / (2 * INR l + 1) = / (2 * INR l + 1)) by (unfold Rdiv; ring). rewrite A1.
  set (k := / (2 * INR l + 1)). replace (wt m / (2 * INR l + 1)) with (wt m * k) by reflexivity.
  pose proof (leg_x' x l m) as X1. pose proof (leg_up' x l m) as U1. pose proof (tan_x x l m) as X2. pose proof (tan_up x l m) as U2. fold k in X1, U1, X2, U2.
  transitivity (wt m * (ex * re_at y z d m * (x * legd x l m)) + wt m * (ex * r * re_at y z a m * ((1 - x * x) * legd x l (S m) - INR m * (x * legd x l m)))
     + (re_at y z (cmul (ey, - ez) d) (S m) * legd x l m - r * re_at y z (cmul (ey, - ez) a) (S m) * (x * legd x l (S m) + INR m * legd x l m))
     + prd 0 m (fun j => re_at y z (cmul (ey, ez) d) j * ((1 - x * x) * legd x l (S j)) + r * re_at y z (cmul (ey, ez) a) j * ((INR j + 1) * ((1 - x * x) * legd x l (S j)) + (INR l + INR j + 1) * (INR l - INR j) * (x * legd x l j)))).
  - rewrite X2, U2, X1, U1. unfold g, h. unfold re_at. destruct m as [|j]; cbn [prd].
    + set (c := cpow (y, z) 0). set (c' := cpow (y, z) 1). unfold cmul, cscal, csub, cneg; unfold cadd. cbn [fst snd]. ring.
    + rewrite (tan_down x l j), (leg_down' x l j). fold k. set (c := cpow (y, z) (S j)). set (c' := cpow (y, z) (S (S j))). set (c'' := cpow (y, z) j).
      unfold cmul, cscal, csub, cneg; unfold cadd. cbn [fst snd]. ring.
  - unfold dterm, tang, en. destruct m as [|j]; cbn [prd].
    + destruct (H0 eq_refl) as [Hd Ha]. destruct d as [d1 d2], a as [a1 a2]. cbn [snd] in Hd, Ha. subst d2 a2.
      unfold re_at. cbn [cpow]. unfold wt, c1, cmul. cbn [fst snd Nat.eqb]. change (INR 0) with 0. ring.
    + pose proof (leg_ode x l j) as O. rewrite !wt_S, !S_INR. unfold re_at. cbn [cpow]. set (c := cpow (y, z) j). destruct c as [p q], d as [d1 d2], a as [a1 a2]. unfold cmul. cbn [fst snd].
      set (Q2 := legd x l (S (S j))) in *. set (Q1 := legd x l (S j)) in *. set (Q0 := legd x l j) in *.
      replace ((INR l + INR j + 1) * (INR l - INR j) * (x * Q0)) with (x * (2 * (INR j + 1) * (x * Q1) - (1 - x * x) * Q2)) by (rewrite <- (Rplus_0_r (x * _)), <- (Rmult_0_r x), <- O; ring).
      replace (1 - x * x) with (y * y + z * z) by lra.
      assert (HX : x * x = 1 - y * y - z * z) by lra.
      nsatz.
Qed.
(** The speed derivative of the packed coefficients at speed index j. *)
Definition speed_deriv (L M nv : nat) (dv : R) (f : nat -> nat -> cplx) (j i : nat) : cplx := hddv nv dv (ell_of L M i) (f i) j.
Lemma gf_gh_g L M nv dv vj f j l m : gf L M (gh_g L M nv dv vj f j) l m = csub (gf L M (speed_deriv L M nv dv f j) l m) (cscal (INR l * (1 / vj)) (gf L M (fun i => f i j) l m)).
Proof.
  destruct (retained L M l m) eqn:E; [|rewrite !gf_out by auto; cx]. destruct (retained_index L M l m E) as (i & Hi & A & B & C). rewrite !C.
  unfold gh_g, speed_deriv. cbv zeta. fold (ell_of L M i). rewrite A. reflexivity.
Qed.
Lemma gf_gh_h L M nv dv vj f j l m : gf L M (gh_h L M nv dv vj f j) l m = cadd (gf L M (speed_deriv L M nv dv f j) l m) (cscal ((INR l + 1) * (1 / vj)) (gf L M (fun i => f i j) l m)).
Proof.
  destruct (retained L M l m) eqn:E; [|rewrite !gf_out by auto; cx]. destruct (retained_index L M l m E) as (i & Hi & A & B & C). rewrite !C.
  unfold gh_h, speed_deriv. cbv zeta. fold (ell_of L M i). rewrite A. reflexivity.
Qed.
Lemma hddv_zero nv dv l f j : (forall k, f k = c0) -> hddv nv dv l f j = c0.
Proof. intros H. unfold hddv. cbv zeta. destruct (S j <? nv)%nat; destruct j as [|j]; try destruct (j <? nv)%nat; rewrite ?H; cx. Qed.
Lemma hddv_real nv dv l f j : (forall k, snd (f k) = 0) -> snd (hddv nv dv l f j) = 0.
Proof. intros H. unfold hddv, csub, cneg; unfold cadd, cscal, c0. cbv zeta. destruct (S j <? nv)%nat; destruct j as [|j]; try destruct (j <? nv)%nat; cbn [fst snd]; rewrite ?H; ring. Qed.
(** The electric force: when truncation has nothing to cut, the coefficients returned at a speed v are those of E . df/d(vector v):
    the radial part (E.n) df/dv (the code's difference in speed) plus 1/v times the rate of change of f along the projection
    of E on the sphere of directions -- here along any curve on the sphere through n with that velocity. *)
Theorem C77_electric : forall L M nv dv vj ex ey ez f j X Y Z t,
  X t * X t + Y t * Y t + Z t * Z t = 1 -> vj <> 0 ->
  let en := ex * X t + ey * Y t + ez * Z t in
  derivable_pt_lim X t (ex - en * X t) -> derivable_pt_lim Y t (ey - en * Y t) -> derivable_pt_lim Z t (ez - en * Z t) ->
  (forall k, room L M (fun i => f i k)) -> (forall k, real0 L M (fun i => f i k)) ->
  derivable_pt_lim (fun s => dist_at L M (fun i => f i j) (X s) (Y s) (Z s)) t
    (vj * (dist_at L M (electric L M ex ey ez (gh_g L M nv dv vj f j) (gh_h L M nv dv vj f j)) (X t) (Y t) (Z t)
           - en * dist_at L M (speed_deriv L M nv dv f j) (X t) (Y t) (Z t))).
Proof.
  intros L M nv dv vj ex ey ez f j X Y Z t HS Hv en HX HY HZ HR H0.
  pose proof (derive_dist L M (fun i => f i j) X Y Z t _ _ _ HX HY HZ) as K.
  match type of K with derivable_pt_lim _ _ ?v => match goal with |- derivable_pt_lim _ _ ?w => replace w with v; [exact K|] end end.
  set (g := gh_g L M nv dv vj f j). set (h := gh_h L M nv dv vj f j).
  assert (RD : room L M (speed_deriv L M nv dv f j)) by (intros i Hi Ki; apply hddv_zero; intros k; apply (HR k i Hi Ki)).
  assert (ID : real0 L M (speed_deriv L M nv dv f j)) by (intros i Hi Ki; apply hddv_real; intros k; apply (H0 k i Hi Ki)).
  unfold electric. rewrite (six_dist L M (elec_six L M ex ey ez g h)).
  - rewrite (dist_double L M (S (S L))) by lia. fold (rsum2 (S (S L)) (fun l m => dterm (X t) (Y t) (Z t) (gf L M (speed_deriv L M nv dv f j) l m) l m)).
    rewrite <- rsum2_scal, <- rsum2_minus, <- rsum2_scal. apply rsum2_ext. intros l m _ _.
    rewrite (elec_source (X t) (Y t) (Z t) ex ey ez (1 / vj) (gf L M (speed_deriv L M nv dv f j) l m) (gf L M (fun i => f i j) l m)).
    + fold en. field. auto.
    + exact HS.
    + intros ->. split; apply real0_gf; auto.
    + cbn [gx elec_six]. unfold g. now rewrite gf_gh_g.
    + cbn [hx elec_six]. unfold h. now rewrite gf_gh_h.
    + cbn [gm elec_six]. unfold g. now rewrite gf_gh_g.
    + cbn [hm elec_six]. unfold h. now rewrite gf_gh_h.
    + cbn [gp elec_six]. unfold g. now rewrite gf_gh_g.
    + cbn [hp elec_six]. unfold h. now rewrite gf_gh_h.
  - intros F HF l m K0.
    assert (Zg : gf L M g l m = c0) by (unfold g; rewrite gf_gh_g, (room_all L M _ l m RD K0), (room_all L M _ l m (HR j) K0); cx).
    assert (Zh : gf L M h l m = c0) by (unfold h; rewrite gf_gh_h, (room_all L M _ l m RD K0), (room_all L M _ l m (HR j) K0); cx).
    cbn [gx hx gm hm gp hp elec_six] in HF. destruct HF as [->|[->|[->|[->|[->| ->]]]]]; rewrite ?Zg, ?Zh; cx.
  - intros l m _. apply elec_six_eq.
Qed.
Print Assumptions C77_electric.

(** ** Magnetic rotation *)
(** The highest retained order is empty wherever a higher one was cut. *)
Definition room_m (L M : nat) (f : nat -> cplx) : Prop := forall i, (i < size L M)%nat -> (M < ell_of L M i)%nat -> m_of L M i = M -> f i = c0.
Definition mag_source (x y z : R) (bx by_ bz : R) (a : cplx) (l m : nat) : R :=
  2 * (INR m * bx) * re_at y z (cmul (0, - (1)) a) m * legd x l m - re_at y z (cmul (bz, by_) a) (S m) * legd x l (S m)
  + prd 0 m (fun j => (INR l - INR j) * (INR l + INR j + 1) * re_at y z (cmul (bz, - by_) a) j * legd x l j).
Lemma magnetic_dist L M bx by_ bz f x y z : room_m L M f ->
  dist_at L M (magnetic L M bx by_ bz f) x y z = rsum2 (S (S L)) (fun l m => mag_source x y z bx by_ bz (gf L M f l m) l m).
Proof.
  intros HR. set (N := S (S L)).
  assert (OUT : forall l m, (M < l)%nat -> (M <= m)%nat -> gf L M f l m = c0).
  { intros l m Hl Hm. destruct (retained L M l m) eqn:E; [|now apply gf_out]. destruct (retained_index L M l m E) as (i & Hi & A & B & C). rewrite C. apply HR; auto; [lia|].
    unfold retained in E. destruct (Nat.leb_spec m M); [lia|]. rewrite andb_false_r in E. discriminate. }
  pose (t1 := fun l m : nat => 2 * (INR m * bx) * re_at y z (cmul (0, - (1)) (gf L M f l m)) m * legd x l m).
  pose (t2 := fun l j : nat => re_at y z (cmul (bz, by_) (gf L M f l j)) (S j) * legd x l (S j)).
  pose (t3 := fun l m : nat => prd 0 m (fun j => (INR l - INR j) * (INR l + INR j + 1) * re_at y z (cmul (bz, - by_) (gf L M f l m)) j * legd x l j)).
  rewrite (dist_double L M N) by (unfold N; lia). fold (rsum2 N (fun l m => dterm x y z (gf L M (magnetic L M bx by_ bz f) l m) l m)).
  transitivity (rsum2 N t1 - rsum2 N (fun l m => prd 0 m (fun j => t2 l j)) + rsum2 N (fun l m => t3 l (S m))).
  - rewrite <- rsum2_minus, <- rsum2_plus. apply rsum2_ext. intros l m Hl Hm. unfold dterm, t1, t3. cbn [prd].
    destruct (retained L M l m) eqn:E.
    + unfold magnetic. rewrite gf_packed by auto. unfold magnetic_mode. cbv zeta. destruct m as [|m].
      * change (0 <? 0)%nat with false. cbv iota. cbn [prd]. change (INR 0) with 0. destruct l as [|l].
        -- change (0 <? 0)%nat with false. cbv iota. change (INR 0) with 0. unfold re_at, c0, cmul. cbn [fst snd]. ring.
        -- change (0 <? S l)%nat with true. cbv iota. change (at_ L M f (Z.of_nat (S l)) 1) with (gf L M f (S l) 1). unfold re_at. cbn [cpow]. unfold wt, c1, cmul. cbn [fst snd Nat.eqb]. ring.
      * change (0 <? S m)%nat with true. cbv iota. cbn [prd]. unfold t2. rewrite wt_S.
        replace (at_ L M f (Z.of_nat l) (Z.of_nat (S m) + 1)) with (gf L M f l (S (S m))) by (unfold gf; f_equal; lia).
        replace (at_ L M f (Z.of_nat l) (Z.of_nat (S m) - 1)) with (gf L M f l m) by (unfold gf; f_equal; lia).
        change (at_ L M f (Z.of_nat l) (Z.of_nat (S m))) with (gf L M f l (S m)).
        unfold re_at. set (w := cpow (y, z) (S m)). unfold cmul, cscal, csub, cneg; unfold cadd, c0, ci. cbn [fst snd]. field.
    + rewrite (gf_out L M _ l m E), (gf_out L M f l m E). destruct (Nat.ltb_spec l m) as [Hlm|Hlm].
      * rewrite (legd_high x l m) by auto. destruct m as [|m]; [lia|]. cbn [prd]. unfold t2. rewrite (legd_high x l (S m)) by auto. ring.
      * assert (ZZ : gf L M f l (S m) = c0 /\ forall j, m = S j -> gf L M f l j = c0).
        { unfold retained in E. destruct (Nat.leb_spec l L) as [Hll|Hll].
          - destruct (Nat.leb_spec m l); [|lia]. destruct (Nat.leb_spec m M); [discriminate|]. split; [apply OUT; lia|]. intros j ->. apply OUT; lia.
          - split; [|intros j _]; apply gf_out; unfold retained; destruct (Nat.leb_spec l L); auto; lia. }
        destruct ZZ as [Z1 Z2]. rewrite Z1. unfold t2. destruct m as [|j]; cbn [prd]; [|rewrite (Z2 j eq_refl)]; unfold re_at, c0, cmul; cbn [fst snd]; ring.
  - rewrite (rsum2_m N t2), (rsum2_mup N t3).
    + rewrite <- rsum2_minus, <- rsum2_plus. apply rsum2_ext. intros l m _ _. unfold mag_source, t1, t2, t3. destruct m; reflexivity.
    + intros l. unfold t3, N. cbn [prd]. rewrite gf_out; [unfold re_at, c0, cmul; cbn [fst snd]; ring|]. unfold retained. destruct (Nat.leb_spec l L); auto. destruct (Nat.leb_spec (S (S L)) l); auto. lia.
    + unfold N. lia.
    + intros l. unfold t2, N. rewrite gf_out; [unfold re_at, c0, cmul; cbn [fst snd]; ring|]. unfold retained. destruct (Nat.leb_spec l L); auto. destruct (Nat.leb_spec (S (S L) - 1) l); auto. lia.
Qed.
Lemma mag_tang x y z bx by_ bz a l m : x * x + y * y + z * z = 1 -> (m = 0%nat -> snd a = 0) ->
  mag_source x y z bx by_ bz a l m = tang x y z (z * by_ - y * bz) (z * bx + x * bz) (- (x * by_) - y * bx) a l m.
Proof.
  intros HS H0. unfold mag_source, tang. destruct m as [|j]; cbn [prd].
  - specialize (H0 eq_refl). destruct a as [a1 a2]. cbn [snd] in H0. subst a2. unfold re_at. cbn [cpow]. unfold wt, c1, cmul. cbn [fst snd Nat.eqb]. change (INR 0) with 0. ring.
  - pose proof (leg_ode x l j) as O. rewrite wt_S, S_INR. unfold re_at. cbn [cpow]. set (c := cpow (y, z) j). destruct c as [p q], a as [a1 a2]. unfold cmul. cbn [fst snd].
    set (Q2 := legd x l (S (S j))) in *. set (Q1 := legd x l (S j)) in *. set (Q0 := legd x l j) in *.
    match goal with |- context [(INR l - INR j) * (INR l + INR j + 1) * ?r * Q0] =>
      replace ((INR l - INR j) * (INR l + INR j + 1) * r * Q0) with (r * (2 * (INR j + 1) * (x * Q1) - (1 - x * x) * Q2)) by (rewrite <- (Rplus_0_r (r * _)), <- (Rmult_0_r r), <- O; ring) end.
    assert (HX : x * x = 1 - y * y - z * z) by lra. nsatz.
Qed.
(** What the magnetic operator computes: the rate of change of f along n' = n x (bx, -by, -bz). *)
Theorem C77_magnetic : forall L M bx by_ bz f X Y Z t,
  X t * X t + Y t * Y t + Z t * Z t = 1 -> room_m L M f -> real0 L M f ->
  derivable_pt_lim X t (Z t * by_ - Y t * bz) -> derivable_pt_lim Y t (Z t * bx + X t * bz) -> derivable_pt_lim Z t (- (X t * by_) - Y t * bx) ->
  derivable_pt_lim (fun s => dist_at L M f (X s) (Y s) (Z s)) t (dist_at L M (magnetic L M bx by_ bz f) (X t) (Y t) (Z t)).
Proof.
  intros L M bx by_ bz f X Y Z t HS HR H0 HX HY HZ. rewrite magnetic_dist by auto.
  pose proof (derive_dist L M f X Y Z t _ _ _ HX HY HZ) as K.
  match type of K with derivable_pt_lim _ _ ?v => match goal with |- derivable_pt_lim _ _ ?w => replace w with v; [exact K|] end end.
  apply rsum2_ext. intros l m _ _. symmetry. apply mag_tang; auto. intros ->. now apply real0_gf.
Qed.
Print Assumptions C77_magnetic.
(** The Lorentz force of electrons (charge -1, as in the electric operator and the streaming operator above) turns directions
    along n' = n x B.  The operator does that for a field along x, but not in general: with B along z it turns the
    distribution the other way. *)
Theorem C77_magnetic_x : forall L M bx f X Y Z t,
  X t * X t + Y t * Y t + Z t * Z t = 1 -> room_m L M f -> real0 L M f ->
  derivable_pt_lim X t 0 -> derivable_pt_lim Y t (Z t * bx) -> derivable_pt_lim Z t (- (Y t * bx)) ->
  derivable_pt_lim (fun s => dist_at L M f (X s) (Y s) (Z s)) t (dist_at L M (magnetic L M bx 0 0 f) (X t) (Y t) (Z t)).
Proof.
  intros L M bx f X Y Z t HS HR H0 HX HY HZ. apply C77_magnetic; auto.
  - replace (Z t * 0 - Y t * 0) with 0 by ring. exact HX.
  - replace (Z t * bx + X t * 0) with (Z t * bx) by ring. exact HY.
  - replace (- (X t * 0) - Y t * bx) with (- (Y t * bx)) by ring. exact HZ.
Qed.
Print Assumptions C77_magnetic_x.
Theorem C77_lorentz_refuted : ~ (forall L M bx by_ bz f X Y Z t,
  X t * X t + Y t * Y t + Z t * Z t = 1 -> room_m L M f -> real0 L M f ->
  derivable_pt_lim X t (Y t * bz - Z t * by_) -> derivable_pt_lim Y t (Z t * bx - X t * bz) -> derivable_pt_lim Z t (X t * by_ - Y t * bx) ->
  derivable_pt_lim (fun s => dist_at L M f (X s) (Y s) (Z s)) t (dist_at L M (magnetic L M bx by_ bz f) (X t) (Y t) (Z t))).
Proof.
  intros H. pose (f := fun i : nat => if (i =? 2)%nat then (1 / 2, 0) else c0 : cplx).
  assert (K : derivable_pt_lim (fun s => dist_at 1 1 f (cos s) (- sin s) 0) 0 (dist_at 1 1 (magnetic 1 1 0 0 1 f) (cos 0) (- sin 0) 0)).
  { apply (H 1%nat 1%nat 0 0 1 f cos (fun s => - sin s) (fun _ => 0) 0).
    - rewrite cos_0, sin_0. ring.
    - intros i Hi. unfold ell_of, m_of. change (size 1 1) with 3%nat in Hi. destruct i as [|[|[|]]]; cbn; lia.
    - intros i Hi Hm. change (size 1 1) with 3%nat in Hi. destruct i as [|[|[|i]]]; try lia; try reflexivity.
    - replace (- sin 0 * 1 - 0 * 0) with (- sin 0) by ring. apply derivable_pt_lim_cos.
    - replace (0 * 0 - cos 0 * 1) with (- cos 0) by ring. apply (derivable_pt_lim_opp sin), derivable_pt_lim_sin.
    - replace (cos 0 * 0 - - sin 0 * 0) with 0 by ring. apply derivable_pt_lim_const. }
  assert (E1 : forall s, - sin s = dist_at 1 1 f (cos s) (- sin s) 0).
  { intros s. unfold dist_at, f, size, pairs. cbn. unfold c0, c1, cmul, legd, wt. cbn. field. }
  assert (E2 : dist_at 1 1 (magnetic 1 1 0 0 1 f) (cos 0) (- sin 0) 0 = 1).
  { rewrite cos_0, sin_0. unfold dist_at, magnetic, packed, size, pairs. cbn. unfold magnetic_mode, at_. cbn. change (Pos.to_nat 1) with 1%nat. cbn. unfold f, csub, cneg; unfold cadd, cscal, c0, ci, cmul, c1, legd, wt. cbn. change (Pos.to_nat 1) with 1%nat. change (Pos.to_nat 2) with 2%nat. cbn. field. }
  rewrite E2 in K. pose proof (derive_ext' _ _ _ _ (fun s => eq_sym (E1 s)) K) as K2.
  assert (K3 : derivable_pt_lim (fun s => - sin s) 0 (- cos 0)) by (apply (derivable_pt_lim_opp sin), derivable_pt_lim_sin).
  pose proof (uniqueness_limite _ _ _ _ K2 K3) as U. rewrite cos_0 in U. lra.
Qed.
Print Assumptions C77_lorentz_refuted.

(** ** Any truncation: rotation conserves the norm of every degree *)
(** The squared norm of the degree-l part of the distribution over directions is 4 pi/(2l+1) times
    sum_m (2 - [m = 0]) (l+m)!/(l-m)! |f_l^m|^2; [dot] is the real inner product, so that the left side is half its rate. *)
Definition dot (a b : cplx) : R := fst a * fst b + snd a * snd b.
Definition leg_weight (l m : nat) : R := wt m * (INR (fact (l + m)) / INR (fact (l - m))).
Lemma leg_weight_step l m : (m < l)%nat -> INR (fact (l + S m)) / INR (fact (l - S m)) = (INR l - INR m) * (INR l + INR m + 1) * (INR (fact (l + m)) / INR (fact (l - m))).
Proof.
  intros H. rewrite <- plus_n_Sm. replace (l - m)%nat with (S (l - S m)) by lia. rewrite !fact_simpl, !mult_INR.
  pose proof (INR_fact_neq_0 (l - S m)). replace (INR (S (l + m))) with (INR l + INR m + 1) by (rewrite S_INR, plus_INR; ring).
  replace (INR (S (l - S m))) with (INR l - INR m) by (rewrite S_INR, minus_INR, S_INR by lia; ring).
  assert (INR l - INR m <> 0) by (apply lt_INR in H; lra). field. auto.
Qed.
Lemma rsum_pick n (F : nat -> R) k : (k < n)%nat -> rsum n (fun i => if (i =? k)%nat then F i else 0) = F k.
Proof.
  intros H. induction n; [lia|]. cbn [rsum]. destruct (Nat.eqb_spec n k) as [->|].
  - rewrite (rsum_ext k _ (fun _ => 0)); [rewrite rsum_zero; ring|]. intros i Hi. destruct (Nat.eqb_spec i k); [lia|auto].
  - rewrite IHn by lia. ring.
Qed.
Theorem C77_rotation_norm : forall L M bx by_ bz f l, (l <= L)%nat -> real0 L M f ->
  rsum (size L M) (fun i => if (ell_of L M i =? l)%nat then leg_weight l (m_of L M i) * dot (f i) (magnetic L M bx by_ bz f i) else 0) = 0.
Proof.
  intros L M bx by_ bz f l Hl H0.
  rewrite (rsum_ext _ _ (packed L M (fun l' m => if (l' =? l)%nat then leg_weight l m * dot (gf L M f l' m) (magnetic_mode L M bx by_ bz f l' m) else 0))).
  2: { intros i Hi. unfold packed, magnetic. cbv zeta. unfold packed. cbv zeta. destruct (nth_retained L M i Hi) as [_ E]. rewrite E. reflexivity. }
  rewrite (packed_sum L M (S L)) by lia.
  rewrite (rsum_ext _ _ (fun l' => if (l' =? l)%nat then rsum (S L) (fun m => if retained L M l m then leg_weight l m * dot (gf L M f l m) (magnetic_mode L M bx by_ bz f l m) else 0) else 0)).
  2: { intros l' _. destruct (Nat.eqb_spec l' l) as [->|]; [reflexivity|]. rewrite (rsum_ext _ _ (fun _ => 0)); [apply rsum_zero|]. intros m _. destruct (retained L M l' m); reflexivity. }
  rewrite (rsum_pick (S L) (fun _ => rsum (S L) (fun m => if retained L M l m then leg_weight l m * dot (gf L M f l m) (magnetic_mode L M bx by_ bz f l m) else 0))) by lia.
  rewrite (rsum_extend (S (Nat.min l M)) (S L)); [|lia|].
  2: { intros m Hm. unfold retained. destruct (Nat.leb_spec l L); auto. destruct (Nat.leb_spec m l); auto. destruct (Nat.leb_spec m M); auto. lia. }
  pose (c := fun m => INR (fact (l + m)) / INR (fact (l - m))).
  pose (p := fun m => c m * dot (gf L M f l m) (cmul (bz, - by_) (gf L M f l (S m))) * ((INR l - INR m) * (INR l + INR m + 1))).
  assert (T : forall k, (k <= Nat.min l M)%nat -> rsum (S k) (fun m => if retained L M l m then leg_weight l m * dot (gf L M f l m) (magnetic_mode L M bx by_ bz f l m) else 0) = p k).
  { assert (RT : forall k, (k <= Nat.min l M)%nat -> retained L M l k = true).
    { intros k Hk. unfold retained. destruct (Nat.leb_spec l L); [|lia]. destruct (Nat.leb_spec k l); [|lia]. destruct (Nat.leb_spec k M); [auto|lia]. }
    induction k; intros Hk.
    - cbn [rsum]. rewrite RT by lia. unfold leg_weight, wt, p, magnetic_mode. cbn [Nat.eqb]. cbv zeta. change (0 <? 0)%nat with false. cbv iota.
      destruct l as [|l']; [change (0 <? 0)%nat with false; cbv iota; rewrite (gf_out L M f 0 1) by (unfold retained; destruct (0 <=? L)%nat; reflexivity); change (INR 0) with 0; unfold dot, c0, cmul; cbn [fst snd]; ring|].
      change (0 <? S l')%nat with true. cbv iota. change (at_ L M f (Z.of_nat (S l')) 1) with (gf L M f (S l') 1). unfold dot, c. rewrite (real0_gf L M f (S l') H0). change (INR 0) with 0. unfold cmul. cbn [fst snd]. ring.
    - change (rsum (S (S k)) (fun m => if retained L M l m then leg_weight l m * dot (gf L M f l m) (magnetic_mode L M bx by_ bz f l m) else 0)) with
        (rsum (S k) (fun m => if retained L M l m then leg_weight l m * dot (gf L M f l m) (magnetic_mode L M bx by_ bz f l m) else 0) + (if retained L M l (S k) then leg_weight l (S k) * dot (gf L M f l (S k)) (magnetic_mode L M bx by_ bz f l (S k)) else 0)).
      rewrite IHk by lia. rewrite RT by lia. unfold leg_weight. rewrite wt_S. unfold magnetic_mode. cbv zeta. change (0 <? S k)%nat with true. cbv iota.
      replace (at_ L M f (Z.of_nat l) (Z.of_nat (S k) + 1)) with (gf L M f l (S (S k))) by (unfold gf; f_equal; lia).
      replace (at_ L M f (Z.of_nat l) (Z.of_nat (S k) - 1)) with (gf L M f l k) by (unfold gf; f_equal; lia).
      change (at_ L M f (Z.of_nat l) (Z.of_nat (S k))) with (gf L M f l (S k)).
      unfold p, c. rewrite (leg_weight_step l k) by lia. set (ck := INR (fact (l + k)) / INR (fact (l - k))).
      unfold dot, csub, cneg; unfold cmul, cscal, cadd, c0, ci. cbn [fst snd]. field. }
  rewrite T by lia. unfold p. rewrite (gf_out L M f l (S (Nat.min l M))).
  - unfold dot, cmul, c0. cbn [fst snd]. ring.
  - unfold retained. destruct (Nat.leb_spec l L); auto. destruct (Nat.leb_spec (S (Nat.min l M)) l); auto. destruct (Nat.leb_spec (S (Nat.min l M)) M); auto. lia.
Qed.
Print Assumptions C77_rotation_norm.
(** The whole right-hand side keeps the coefficients of order 0 real. *)
Theorem C77_real : forall L M nv dv vs speed ex ey ez bx by_ bz f a b c j, real0 L M (fun i => vlasov L M nv dv vs speed ex ey ez bx by_ bz f a b c i j).
Proof. intros L M nv dv vs speed ex ey ez bx by_ bz f a b c j i Hi Hm. unfold vlasov. cbv zeta. fold (m_of L M i). rewrite Hm. reflexivity. Qed.
Print Assumptions C77_real.
(** Non-vacuity: a distribution with density, a drift along y and room to couple. *)
Definition ex_f : nat -> cplx := fun i => match i with 0%nat => (3, 0) | 1%nat => (2, 0) | 2%nat => (1, 5) | _ => c0 end.
Example C77_inhabited : room 2 2 ex_f /\ room_m 2 2 ex_f /\ real0 2 2 ex_f /\ size 2 2 = 6%nat /\ 0 < leg_weight 2 1 /\
  dist_at 2 2 ex_f 0 1 0 = 5 /\ dist_at 2 2 (streaming 2 2 1 (fun _ => c0) ex_f (fun _ => c0)) 0 1 0 = -5.
Proof.
  assert (R : room 2 2 ex_f).
  { intros i Hi K. change (size 2 2) with 6%nat in Hi. destruct i as [|[|[|[|[|[|i]]]]]]; try reflexivity; cbn in K; lia. }
  assert (RE : real0 2 2 ex_f).
  { intros i Hi K. change (size 2 2) with 6%nat in Hi. destruct i as [|[|[|[|[|[|i]]]]]]; try reflexivity; cbn in K; lia. }
  assert (D : dist_at 2 2 ex_f 0 1 0 = 5).
  { unfold dist_at. change (size 2 2) with 6%nat. cbn. unfold c0, c1, cmul, legd, wt. cbn. field. }
  split; [exact R|]. split; [intros i Hi K1 K2; change (size 2 2) with 6%nat in Hi; destruct i as [|[|[|[|[|[|i]]]]]]; try reflexivity; cbn in K1, K2; lia|]. split; [exact RE|]. split; [reflexivity|]. split.
  - unfold leg_weight, wt. cbn. lra.
  - split; [exact D|]. rewrite C77_streaming; auto; try ring.
    + rewrite D. assert (Z : dist_at 2 2 (fun _ => c0) 0 1 0 = 0) by (unfold dist_at; rewrite (rsum_ext _ _ (fun _ => 0)); [apply rsum_zero|]; intros; unfold cmul, c0; cbn [fst snd]; ring). rewrite Z. ring.
    + intros i Hi _. reflexivity.
    + intros i Hi _. reflexivity.
    + intros i Hi _. reflexivity.
Qed.
