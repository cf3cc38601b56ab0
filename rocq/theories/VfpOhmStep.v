(** Property C81 (continued): invariants of KineticOhmStep. *)
From Coq Require Import Reals Lra Lia ZArith List Bool Psatz FunctionalExtensionality.
From Verif Require Import PyStr Harm2d Harm2dLayout Harm2dSum Harm2dProps Harm2dMoments Vfp2d Vfp2dOps Vfp2dField VfpOhm VfpOhmProps RSum Pic PicProofs PicFourier Dft.
Import ListNotations.
Local Open Scope R_scope.
Add Ring cplx_ring5 : cring.

Definition o_resp (V : vspace) (f : dst) (x y : nat) : R := response (h_L V) (h_M V) (h_nv V) (h_v V) (h_dv V) (f x y).
(** At the end of every step, whatever the state, the collisions and the filter:
    - the plasma current is the Ampere current c^2 curl B at every cell whose flux moment exceeds [tiny] (given both orders m = 0, 1 and
      no streaming-speed override);
    - with the positivity switch the isotropic part is nonnegative at every cell and speed;
    - E is the Ohm law of that state. *)
Theorem C81_step : forall O t s s' x y, 0 < os_tiny O -> 0 < h_dv (os_V O) -> (1 <= h_M (os_V O))%nat -> h_speed (os_V O) = h_v (os_V O) ->
  ostep_run O t s = Some s' ->
  (os_tiny O <= o_resp (os_V O) (s_f s') x y -> curr (os_V O) (-1) (s_f s') x y = vscal (os_c2 O) (curl (os_G O) (s_b s') x y)) /\
  (os_positive O = true -> forall j, 0 <= fst (gf (h_L (os_V O)) (h_M (os_V O)) (fun i => s_f s' x y i j) 0 0)) /\
  s_e s' = ohm (os_tiny O) (os_G O) (os_V O) (os_eta0 O) (s_f s') (s_b s') (fscal (os_c2 O) (curl (os_G O) (s_b s'))) (os_dndz O (t + os_dt O)).
Proof.
  intros O t s s' x y Ht Hd HM HS Hr. unfold ostep_run in Hr. destruct (os_ok O) eqn:HO; [|discriminate]. unfold os_ok in HO. apply Nat.leb_le in HO. cbn [negb] in Hr.
  apply (f_equal (fun o => match o with Some z => z | None => s end)) in Hr. cbv beta iota in Hr. revert Hr. generalize (os_stages O t s). intros [Q B] Hr. cbv zeta in Hr. cbn [fst snd] in Hr.
  set (F0 := os_pos O (os_filter_f O Q)) in Hr. set (B0 := os_filter_b O B) in Hr.
  assert (EF : s_f s' = os_project O F0 B0) by now rewrite <- Hr. assert (EB : s_b s' = B0) by now rewrite <- Hr.
  assert (EE : s_e s' = ohm (os_tiny O) (os_G O) (os_V O) (os_eta0 O) (os_project O F0 B0) B0 (os_target O B0) (os_dndz O (t + os_dt O))) by now rewrite <- Hr.
  clear Hr.
  set (V := os_V O) in *. 
  destruct (project_some (os_tiny O) (h_L V) (h_M V) (h_nv V) (h_v V) (h_dv V) (F0 x y) (os_target O B0 x y) HO) as [g Hg].
  assert (EG : s_f s' x y = g) by (rewrite EF; unfold os_project; fold V; now rewrite Hg).
  assert (G00 : forall j, gf (h_L V) (h_M V) (fun i => g i j) 0 0 = gf (h_L V) (h_M V) (fun i => F0 x y i j) 0 0) by (intros j; exact (project_gf _ _ _ _ _ _ _ _ _ j 0 0 Hg)).
  split; [|split].
  - intros HR. unfold o_resp in HR. rewrite EG in HR. assert (RE : response (h_L V) (h_M V) (h_nv V) (h_v V) (h_dv V) g = response (h_L V) (h_M V) (h_nv V) (h_v V) (h_dv V) (F0 x y)).
    { unfold response. do 2 f_equal. apply rsum_ext. intros j _. now rewrite G00. }
    rewrite RE in HR. destruct (C81_projection (os_tiny O) (h_L V) (h_M V) (h_nv V) (h_v V) (h_dv V) (F0 x y) (os_target O B0 x y) Ht HO HR) as (g' & Hg' & _ & C & _).
    rewrite Hg in Hg'. injection Hg' as <-. unfold curr. rewrite EG, EB, HS. rewrite C by auto. reflexivity.
  - intros HP j. rewrite EG, G00. unfold F0, os_pos; rewrite HP; apply (C81_positivity (os_tiny O) (h_L V) (h_M V) (h_nv V) (h_v V) (h_dv V)); auto.
  - rewrite EE, EF, EB. reflexivity.
Qed.
Print Assumptions C81_step.
(** A layout without degree 1 is refused; any other is accepted. *)
Theorem C81_step_accepts : forall O t s, (ostep_run O t s = None <-> h_L (os_V O) = 0%nat).
Proof.
  intros O t s. unfold ostep_run, os_ok. destruct (Nat.leb_spec 1 (h_L (os_V O))) as [H|H]; cbn [negb]; split; intros K; try discriminate; try lia; auto.
Qed.
Print Assumptions C81_step_accepts.

(** * The filter and the divergence of B *)
(** ** One axis: operations that act mode by mode commute *)
Definition cmult (n : nat) (T : (nat -> cplx) -> nat -> cplx) (lam : nat -> cplx) : Prop :=
  (forall a k, (k < n)%nat -> cfft n (T a) k = cmul (lam k) (cfft n a k)).
Lemma cfft_inj n a b : (forall k, (k < n)%nat -> cfft n a k = cfft n b k) -> forall g, (g < n)%nat -> a g = b g.
Proof. intros H g Hg. rewrite <- (ifft_cfft n a g Hg), <- (ifft_cfft n b g Hg). now apply ifft_ext. Qed.
Lemma cmult_commute n S T lam mu a g : cmult n S lam -> cmult n T mu -> (g < n)%nat -> S (T a) g = T (S a) g.
Proof. intros HS HT. apply cfft_inj. intros k Hk. rewrite HS, HT, HT, HS by auto. ring. Qed.
Lemma cmult_add n T lam a b c g : cmult n T lam -> (g < n)%nat -> T (fun q => cadd (a q) (cmul c (b q))) g = cadd (T a g) (cmul c (T b g)).
Proof.
  intros HT. apply (cfft_inj n (T (fun q => cadd (a q) (cmul c (b q)))) (fun g => cadd (T a g) (cmul c (T b g)))). intros k Hk. rewrite HT by auto.
  assert (L : forall u w, cfft n (fun q => cadd (u q) (cmul c (w q))) k = cadd (cfft n u k) (cmul c (cfft n w k))).
  { intros u w. unfold cfft. rewrite <- csum_mul, <- csum_add. apply csum_ext. intros. ring. }
  rewrite (L a b), (L (T a) (T b)), !HT by auto. ring.
Qed.
Lemma cmult_ext n T lam a b g : cmult n T lam -> (g < n)%nat -> (forall q, (q < n)%nat -> a q = b q) -> T a g = T b g.
Proof. intros HT Hg E. revert g Hg. apply cfft_inj. intros k Hk. rewrite !HT by auto. f_equal. now apply cfft_ext. Qed.
Definition real_op (n : nat) (T : (nat -> cplx) -> nat -> cplx) : Prop := forall a, (forall q, (q < n)%nat -> snd (a q) = 0) -> forall g, (g < n)%nat -> snd (T a g) = 0.
Definition rop (T : (nat -> cplx) -> nat -> cplx) (a : nat -> R) (g : nat) : R := fst (T (emb a) g).
Definition lamfd (n : nat) (u w : R) (k : nat) : cplx :=
  cadd (cscal u (csub (cis (2 * PI * INR k * 1 / INR n)) (cis (2 * PI * INR k * -1 / INR n)))) (cscal w (csub (cis (2 * PI * INR k * 2 / INR n)) (cis (2 * PI * INR k * -2 / INR n)))).
Lemma fd_cmult n u w : cmult n (fun a g => cadd (cscal u (csub (cshift n a g 1) (cshift n a g (-1)))) (cscal w (csub (cshift n a g 2) (cshift n a g (-2))))) (lamfd n u w).
Proof.
  intros a k Hk. transitivity (cfft n (fun g => cadd (cscal 1 (cadd (cscal u (cshift n a g 1)) (cscal (- u) (cshift n a g (-1))))) (cscal 1 (cadd (cscal w (cshift n a g 2)) (cscal (- w) (cshift n a g (-2)))))) k); [apply cfft_ext; intros; cy|].
  rewrite (cfft_lin n 1 1 (fun g => cadd (cscal u (cshift n a g 1)) (cscal (- u) (cshift n a g (-1)))) (fun g => cadd (cscal w (cshift n a g 2)) (cscal (- w) (cshift n a g (-2))))).
  rewrite (cfft_lin n u (- u) (fun g => cshift n a g 1) (fun g => cshift n a g (-1))), (cfft_lin n w (- w) (fun g => cshift n a g 2) (fun g => cshift n a g (-2))), !cfft_shift by auto. unfold lamfd.
  generalize (cfft n a k) (cis (2 * PI * INR k * 1 / INR n)) (cis (2 * PI * INR k * -1 / INR n)) (cis (2 * PI * INR k * 2 / INR n)) (cis (2 * PI * INR k * -2 / INR n)). intros [] [] [] [] []. cy.
Qed.
Lemma dax_cmult k n h : ok_kind k n -> exists lam, cmult n (dax k n h) lam.
Proof.
  intros Hk. destruct k as [| |p].
  - exists (fun k => (0, kx n h k)). intros a k Hk'. cbn [dax]. unfold dspec. now rewrite cfft_ifft.
  - exists (if (n <? 5)%nat then lamfd n (/ (2 * h)) 0 else lamfd n (8 * / (12 * h)) (- / (12 * h))). intros a k Hk'.
    destruct (Nat.ltb_spec n 5) as [L|L].
    + rewrite <- (fd_cmult n (/ (2 * h)) 0 a k Hk'). apply cfft_ext. intros g Hg. rewrite dax_mat, <- fdmat_sum by (auto; apply Hk). cbn [dmat]. destruct (Nat.ltb_spec n 5); [reflexivity|lia].
    + rewrite <- (fd_cmult n (8 * / (12 * h)) (- / (12 * h)) a k Hk'). apply cfft_ext. intros g Hg. rewrite dax_mat, <- fdmat_sum by (auto; apply Hk). cbn [dmat]. destruct (Nat.ltb_spec n 5); [lia|reflexivity].
  - exists (if ((2 <=? n / p) && (5 <=? n))%nat%bool then lamfd n (8 * / (12 * h)) (- / (12 * h)) else lamfd n (/ (2 * h)) 0). intros a k Hk'.
    destruct ((2 <=? n / p) && (5 <=? n))%nat%bool eqn:L.
    + rewrite <- (fd_cmult n (8 * / (12 * h)) (- / (12 * h)) a k Hk'). apply cfft_ext. intros g Hg. rewrite dax_mat, <- fdmat_sum by (auto; apply Hk). cbn [dmat]. now rewrite L.
    + rewrite <- (fd_cmult n (/ (2 * h)) 0 a k Hk'). apply cfft_ext. intros g Hg. rewrite dax_mat, <- fdmat_sum by (auto; apply Hk). cbn [dmat]. now rewrite L.
Qed.
(** A real operation that acts mode by mode commutes with the derivative of a real array. *)
Lemma real_fst n T lam z g : cmult n T lam -> real_op n T -> (g < n)%nat -> fst (T z g) = rop T (fun q => fst (z q)) g.
Proof.
  intros HT HR Hg. unfold rop.
  rewrite (cmult_ext n T lam z (fun q => cadd (emb (fun q => fst (z q)) q) (cmul (0, 1) (emb (fun q => snd (z q)) q))) g HT Hg) by (intros q _; unfold emb; destruct (z q); cy).
  rewrite (cmult_add n T lam _ _ _ g HT Hg). 
  assert (S : snd (T (emb (fun q => snd (z q))) g) = 0) by (apply HR; auto). revert S. generalize (T (emb (fun q => snd (z q))) g) (T (emb (fun q => fst (z q))) g). intros [c d] [e f] S. cbn [snd] in S. subst d. unfold cadd, cmul. cbn [fst snd]. ring.
Qed.
Lemma rop_rder T lam k n h a g : ok_kind k n -> cmult n T lam -> real_op n T -> (g < n)%nat -> rop T (rder k n h a) g = rder k n h (rop T a) g.
Proof.
  intros Hk HT HR Hg. destruct (dax_cmult k n h Hk) as [mu HD].
  transitivity (fst (T (dax k n h (emb a)) g)); [symmetry; rewrite (real_fst n T lam _ g HT HR Hg); reflexivity|].
  rewrite (cmult_commute n T (dax k n h) lam mu (emb a) g HT HD Hg). unfold rder. f_equal.
  apply (cmult_ext n (dax k n h) mu); auto. intros q Hq. unfold emb, rop. pose proof (HR (emb a) (fun _ _ => eq_refl) q Hq) as Z. change (fun g0 : nat => (a g0, 0)) with (emb a). destruct (T (emb a) q). cbn [fst snd] in *. now subst.
Qed.
Lemma rop_lin n T lam u w a b g : cmult n T lam -> (g < n)%nat -> rop T (fun q => u * a q + w * b q) g = u * rop T a g + w * rop T b g.
Proof.
  intros HT Hg. unfold rop.
  assert (S1 : forall c d, T (fun q => cadd (emb (fun _ => 0) q) (cmul (c, 0) (emb d q))) g = cmul (c, 0) (T (emb d) g)).
  { intros c d. rewrite (cmult_add n T lam _ _ _ g HT Hg).
    assert (Z : T (emb (fun _ => 0)) g = c0).
    { assert (E : T (fun q => cadd (emb (fun _ => 0) q) (cmul (1, 0) (emb (fun _ => 0) q))) g = T (emb (fun _ => 0)) g) by (apply (cmult_ext n T lam); auto; intros; unfold emb, cadd, cmul; cbn [fst snd]; f_equal; ring).
      rewrite (cmult_add n T lam _ _ _ g HT Hg) in E. revert E. generalize (T (emb (fun _ => 0)) g). intros [p q] E. unfold cadd, cmul in E. cbn [fst snd] in E. injection E as E1 E2. apply cplx_eq; cbn [fst snd c0]; unfold c0; cbn; lra. }
    rewrite Z. ring. }
  rewrite (cmult_ext n T lam (emb (fun q => u * a q + w * b q)) (fun q => cadd (cadd (emb (fun _ => 0) q) (cmul (u, 0) (emb a q))) (cmul (w, 0) (emb b q))) g HT Hg) by (intros; unfold emb, cadd, cmul; cbn [fst snd]; f_equal; ring).
  rewrite (cmult_add n T lam (fun q => cadd (emb (fun _ => 0) q) (cmul (u, 0) (emb a q))) (emb b) (w, 0) g HT Hg), S1.
  generalize (T (emb a) g) (T (emb b) g). intros [] []. unfold cadd, cmul. cbn [fst snd]. ring.
Qed.
Lemma rop_ext n T lam a b g : cmult n T lam -> (g < n)%nat -> (forall q, (q < n)%nat -> a q = b q) -> rop T a g = rop T b g.
Proof. intros HT Hg E. unfold rop. f_equal. apply (cmult_ext n T lam); auto. intros q Hq. unfold emb. now rewrite E. Qed.
Lemma rop_zero n T lam g : cmult n T lam -> (g < n)%nat -> rop T (fun _ => 0) g = 0.
Proof. intros HT Hg. rewrite (rop_ext n T lam (fun _ => 0) (fun q => 0 * 0 + 0 * 0) g HT Hg) by (intros; ring). rewrite (rop_lin n T lam 0 0 (fun _ => 0) (fun _ => 0) g HT Hg). ring. Qed.
Lemma rop_rsum n T lam m (u : nat -> R) (A : nat -> nat -> R) g : cmult n T lam -> (g < n)%nat -> rop T (fun q => rsum m (fun j => u j * A j q)) g = rsum m (fun j => u j * rop T (A j) g).
Proof.
  intros HT Hg. induction m; [exact (rop_zero n T lam g HT Hg)|]. change (rsum (S m) (fun j => u j * rop T (A j) g)) with (rsum m (fun j => u j * rop T (A j) g) + u m * rop T (A m) g). rewrite <- IHm.
  rewrite (rop_ext n T lam _ (fun q => 1 * rsum m (fun j => u j * A j q) + u m * A m q) g HT Hg) by (intros; cbn [rsum]; ring).
  rewrite (rop_lin n T lam 1 (u m) (fun q => rsum m (fun j => u j * A j q)) (A m) g HT Hg). ring.
Qed.
(** ** The plane *)
(** A real operation on each axis. *)
Definition good_op (n : nat) (T : (nat -> cplx) -> nat -> cplx) : Prop := (exists lam, cmult n T lam) /\ real_op n T.
Lemma id_good n : good_op n (fun a => a).
Proof. split; [exists (fun _ => c1); intros a k Hk; ring|]. intros a H g Hg. now apply H. Qed.
Lemma houli_good n alpha order : (0 < n)%nat -> houli_ok alpha (Z.of_nat order) [lit "x"] = true -> good_op n (houli n alpha order).
Proof.
  intros Hn Hok. split.
  - exists (fun k => (exp (- alpha * Rabs (2 * fftfreq n k) ^ (2 * order)), 0)). intros a k Hk. rewrite (proj1 (C79_houli n alpha order a Hn Hok) k Hk). now rewrite cscal_mul.
  - intros a H g Hg. now apply (C79_houli n alpha order a Hn Hok).
Qed.
Lemma part_good p n : (0 < n)%nat -> (0 < p)%nat -> (n mod p = 0)%nat -> good_op n (part_filter p n).
Proof.
  intros Hn Hp Hm. assert (Q : (n = p * (n / p))%nat) by (apply Nat.div_exact; lia). assert (Q0 : (0 < n / p)%nat) by nia. split.
  - rewrite Q. eexists. intros a k Hk. rewrite (proj1 (C79_partitioned_filter p (n / p) a Hp Q0) k Hk). rewrite cscal_mul.
    exact (eq_refl (cmul ((fun k => ((if (4 <=? n / p)%nat then 1 - sin (PI * INR k / INR (p * (n / p))) ^ 8 else cos (PI * INR k / INR (p * (n / p))) ^ 2), 0)) k) (cfft (p * (n / p)) a k))).
  - intros a H g Hg. assert (SH : forall s, snd (cshift n a g s) = 0) by (intros s; unfold cshift; apply H; pose proof (Z.mod_pos_bound (Z.of_nat g + s) (Z.of_nat n) ltac:(lia)); lia).
    rewrite Q in Hg |- *. rewrite part_filter_eq by auto. rewrite <- Q in Hg |- *. destruct (4 <=? n / p)%nat.
    + unfold csub, cadd, cneg, cscal. cbn [fst snd]. rewrite H by auto. rewrite csum_snd. rewrite (rsum_ext 9 _ (fun _ => 0)); [rewrite rsum_zero; ring|]. intros k _. unfold cscal. cbn [fst snd]. rewrite SH. ring.
    + unfold cadd, cscal. cbn [fst snd]. rewrite !SH, H by auto. ring.
Qed.
Definition RX (TX : (nat -> cplx) -> nat -> cplx) (a : fld) : fld := fun x y => rop TX (fun x' => a x' y) x.
Definition RY (TY : (nat -> cplx) -> nat -> cplx) (a : fld) : fld := fun x y => rop TY (fun y' => a x y') y.
Lemma ddx_RX G T a x y : ok_grid G -> good_op (g_nx G) T -> cell G x y -> ddx G (RX T a) x y = RX T (ddx G a) x y.
Proof. intros [Hx _] [[lam HT] HR] [Cx _]. unfold ddx, RX. symmetry. exact (rop_rder T lam (g_kx G) (g_nx G) (g_dx G) (fun x' => a x' y) x Hx HT HR Cx). Qed.
Lemma ddy_RY G T a x y : ok_grid G -> good_op (g_ny G) T -> cell G x y -> ddy G (RY T a) x y = RY T (ddy G a) x y.
Proof. intros [_ Hy] [[lam HT] HR] [_ Cy]. unfold ddy, RY. symmetry. exact (rop_rder T lam (g_ky G) (g_ny G) (g_dy G) (fun y' => a x y') y Hy HT HR Cy). Qed.
Lemma ddx_RY G T a x y : ok_grid G -> good_op (g_ny G) T -> cell G x y -> ddx G (RY T a) x y = RY T (ddx G a) x y.
Proof.
  intros [Hx _] [[lam HT] HR] [Cx Cy]. unfold ddx, RY. rewrite rder_mat by auto.
  rewrite <- (rop_rsum (g_ny G) T lam (g_nx G) (fun q => rmat (g_kx G) (g_nx G) (g_dx G) x q) (fun q y' => a q y') y HT Cy).
  apply (rop_ext (g_ny G) T lam); auto. intros q Hq. now rewrite rder_mat.
Qed.
Lemma ddy_RX G T a x y : ok_grid G -> good_op (g_nx G) T -> cell G x y -> ddy G (RX T a) x y = RX T (ddy G a) x y.
Proof.
  intros [_ Hy] [[lam HT] HR] [Cx Cy]. unfold ddy, RX. rewrite rder_mat by auto.
  rewrite <- (rop_rsum (g_nx G) T lam (g_ny G) (fun q => rmat (g_ky G) (g_ny G) (g_dy G) y q) (fun q x' => a x' q) x HT Cx).
  apply (rop_ext (g_nx G) T lam); auto. intros q Hq. now rewrite rder_mat.
Qed.
Lemma RX_ext G T a b x y : good_op (g_nx G) T -> cell G x y -> (forall x y, cell G x y -> a x y = b x y) -> RX T a x y = RX T b x y.
Proof. intros [[lam HT] _] [Cx Cy] E. unfold RX. apply (rop_ext (g_nx G) T lam); auto. intros q Hq. apply E. now split. Qed.
Lemma RY_ext G T a b x y : good_op (g_ny G) T -> cell G x y -> (forall x y, cell G x y -> a x y = b x y) -> RY T a x y = RY T b x y.
Proof. intros [[lam HT] _] [Cx Cy] E. unfold RY. apply (rop_ext (g_ny G) T lam); auto. intros q Hq. apply E. now split. Qed.
(** Filtering both components and taking the divergence is filtering the divergence. *)
Lemma div_filter G TX TY (b b' : vfld) : ok_grid G -> good_op (g_nx G) TX -> good_op (g_ny G) TY ->
  (forall x y, cell G x y -> fx b' x y = RY TY (RX TX (fx b)) x y /\ fy b' x y = RY TY (RX TX (fy b)) x y) ->
  forall x y, cell G x y -> div G b' x y = RY TY (RX TX (div G b)) x y.
Proof.
  intros HG GX GY E x y HC.
  transitivity (ddx G (RY TY (RX TX (fx b))) x y + ddy G (RY TY (RX TX (fy b))) x y).
  { unfold div. destruct HG as [Hx Hy]. destruct HC as [Cx Cy]. f_equal; unfold ddx, ddy; apply rder_ext; auto; intros q Hq; apply E; split; auto. }
  rewrite ddx_RY, ddy_RY by auto.
  rewrite (RY_ext G TY (ddx G (RX TX (fx b))) (RX TX (ddx G (fx b))) x y GY HC) by (intros; now apply ddx_RX).
  rewrite (RY_ext G TY (ddy G (RX TX (fy b))) (RX TX (ddy G (fy b))) x y GY HC) by (intros; now apply ddy_RX).
  destruct GX as [[lx HX] _]. destruct GY as [[ly HY] _]. destruct HC as [Cx Cy]. unfold RY at 1 2. 
  transitivity (rop TY (fun y' => 1 * RX TX (ddx G (fx b)) x y' + 1 * RX TX (ddy G (fy b)) x y') y).
  { rewrite (rop_lin (g_ny G) TY ly 1 1 _ _ y HY Cy). rewrite !Rmult_1_l. reflexivity. }
  unfold RY. apply (rop_ext (g_ny G) TY ly); auto. intros q Hq. unfold RX.
  rewrite (rop_ext (g_nx G) TX lx (fun x' => div G b x' q) (fun x' => 1 * ddx G (fx b) x' q + 1 * ddy G (fy b) x' q) x HX Cx) by (intros; unfold div; ring).
  rewrite (rop_lin (g_nx G) TX lx 1 1 _ _ x HX Cx). reflexivity.
Qed.
Lemma filter_zero G TX TY a : good_op (g_nx G) TX -> good_op (g_ny G) TY -> (forall x y, cell G x y -> a x y = 0) -> forall x y, cell G x y -> RY TY (RX TX a) x y = 0.
Proof.
  intros GX GY Z x y HC. rewrite (RY_ext G TY _ (fun _ _ => 0) x y GY HC).
  - destruct GY as [[l H] _]. unfold RY. apply (rop_zero (g_ny G) TY l y H). apply HC.
  - intros x' y' HC'. rewrite (RX_ext G TX a (fun _ _ => 0) x' y' GX HC' Z). destruct GX as [[l H] _]. unfold RX. apply (rop_zero (g_nx G) TX l x' H). apply HC'.
Qed.
(** The configured filter is good on each axis, and on a real field it is the two axis operations. *)
Lemma houli2_axes mesh nx ny alpha order dims F : (0 < nx)%nat -> (0 < ny)%nat -> match mesh with None => True | Some p => (0 < p)%nat /\ (nx mod p = 0)%nat end ->
  (forall a, houli2 mesh nx ny alpha order dims a = Some (F a)) ->
  exists TX TY, good_op nx TX /\ good_op ny TY /\ forall (a : fld) x y, (x < nx)%nat -> (y < ny)%nat -> fst (F (fun x y => (a x y, 0)) x y) = RY TY (RX TX a) x y.
Proof.
  intros Hx Hy Hm HF.
  assert (O1 : houli_ok alpha (Z.of_nat (Z.to_nat order)) [lit "x"] = true).
  { specialize (HF (fun _ _ => c0)). unfold houli2 in HF. destruct (houli_ok alpha order dims) eqn:Hok; [|discriminate]. unfold houli_ok in *. apply andb_prop in Hok. destruct Hok as [Hok _]. pose proof Hok as Hok'. apply andb_prop in Hok'. destruct Hok' as [A B]. apply Z.leb_le in B.
    rewrite Z2Nat.id by lia. rewrite Hok. reflexivity. }
  set (o := Z.to_nat order) in *.
  set (TX := if has_dim (lit "x") dims then (match mesh with None => houli nx alpha o | Some p => part_filter p nx end) else (fun a : nat -> cplx => a)).
  set (TY := if has_dim (lit "y") dims then houli ny alpha o else (fun a : nat -> cplx => a)).
  assert (GX : good_op nx TX). { unfold TX. destruct (has_dim (lit "x") dims); [|apply id_good]. destruct mesh as [p|]; [now apply part_good|now apply houli_good]. }
  assert (GY : good_op ny TY). { unfold TY. destruct (has_dim (lit "y") dims); [now apply houli_good|apply id_good]. }
  exists TX, TY. split; [exact GX|]. split; [exact GY|]. intros a x y Cx Cy.
  assert (EF : F (fun x y => (a x y, 0)) x y = TY (fun y' => TX (emb (fun x' => a x' y')) x) y).
  { specialize (HF (fun x y => (a x y, 0))). unfold houli2 in HF. destruct (houli_ok alpha order dims); [|discriminate]. cbn [negb] in HF. fold o in HF.
    apply (f_equal (fun o => match o with Some z => z | None => fun _ _ => c0 end)) in HF. cbv beta iota zeta in HF. rewrite <- HF. unfold TX, TY. destruct (has_dim (lit "x") dims), (has_dim (lit "y") dims), mesh; reflexivity. }
  rewrite EF. unfold RY, rop. destruct GY as [[ly HY] _]. f_equal. apply (cmult_ext ny TY ly); auto. intros q Hq. unfold emb at 2, RX, rop.
  pose proof (proj2 GX (emb (fun x' => a x' q)) (fun _ _ => eq_refl) x Cx) as Z. revert Z. destruct (TX (emb (fun x' => a x' q)) x). cbn [fst snd]. now intros ->.
Qed.
Lemma stages_div O t s x y : ok_grid (os_G O) -> cell (os_G O) x y -> div (os_G O) (snd (os_stages O t s)) x y = div (os_G O) (s_b s) x y.
Proof.
  intros HG HC. unfold os_stages. cbv zeta. cbn [snd].
  repeat match goal with |- context [os_rb O ?a ?f ?b] => let E := fresh "E" in assert (E : exists e, os_rb O a f b = fscal (-1) (curl (os_G O) e)) by (eexists; reflexivity); revert E; generalize (os_rb O a f b); intros ? [? ->] end.
  match goal with |- context [fadd (s_b s) (fscal ?c (fadd (fadd (fadd (fscal (-1) (curl ?G ?e1)) (fscal 2 (fscal (-1) (curl ?G ?e2)))) (fscal 2 (fscal (-1) (curl ?G ?e3)))) (fscal (-1) (curl ?G ?e4))))] =>
    transitivity (div G (fadd (fscal 1 (fadd (fscal 1 (s_b s)) (fscal (- c) (curl G e1)))) (fscal (- c) (fadd (fscal 1 (fadd (fscal 2 (curl G e2)) (fscal 2 (curl G e3)))) (fscal 1 (curl G e4))))) x y) end.
  - apply div_ext; auto. intros. apply vec3_eq; unfold fadd, fscal, vadd, vscal, v_x, v_y, v_z; cbn [fst snd]; ring.
  - rewrite !div_lin, !div_curl by auto. ring.
Qed.
Lemma run_b O t s s' : ostep_run O t s = Some s' -> s_b s' = os_filter_b O (snd (os_stages O t s)).
Proof.
  unfold ostep_run. destruct (negb (os_ok O)); [discriminate|]. generalize (os_stages O t s). intros [Q B] H. apply (f_equal (fun o => match o with Some z => s_b z | None => s_b s end)) in H. cbv beta iota zeta in H. cbn [s_b] in H. now rewrite <- H.
Qed.
(** The successive states of a run. *)
Inductive orun (O : ostep) : R -> state2 -> R -> state2 -> Prop :=
| orun_0 t s : orun O t s t s
| orun_S t s t' s' s'' : orun O t s t' s' -> ostep_run O t' s' = Some s'' -> orun O t s (t' + os_dt O) s''.
(** The divergence of B over a run: unchanged without a filter, and still zero with the configured Hou-Li or partitioned filter, for
    every derivative (spectral, finite difference, sharded), every distribution, collision step, time step and number of steps. *)
Theorem C81_divB : forall O t s t' s', ok_grid (os_G O) -> orun O t s t' s' ->
  (os_filter O = None -> forall x y, cell (os_G O) x y -> div (os_G O) (s_b s') x y = div (os_G O) (s_b s) x y) /\
  (forall mesh alpha order dims F, os_filter O = Some F -> match mesh with None => True | Some p => (0 < p)%nat /\ (g_nx (os_G O) mod p = 0)%nat end ->
   (forall a, houli2 mesh (g_nx (os_G O)) (g_ny (os_G O)) alpha order dims a = Some (F a)) ->
   (forall x y, cell (os_G O) x y -> div (os_G O) (s_b s) x y = 0) -> forall x y, cell (os_G O) x y -> div (os_G O) (s_b s') x y = 0).
Proof.
  intros O t s t' s' HG HR. split.
  - intros HF. induction HR; intros; [reflexivity|]. rewrite <- IHHR by auto. rewrite (run_b O t' s' s'' H). unfold os_filter_b. rewrite HF. now apply stages_div.
  - intros mesh alpha order dims F HF Hm HH H0. induction HR; intros x y HC; [now apply H0|]. rewrite (run_b O t' s' s'' H). unfold os_filter_b. rewrite HF.
    destruct (houli2_axes mesh (g_nx (os_G O)) (g_ny (os_G O)) alpha order dims F (proj1 (proj1 HG)) (proj1 (proj2 HG)) Hm HH) as (TX & TY & GX & GY & EF).
    rewrite (div_filter (os_G O) TX TY (snd (os_stages O t' s')) _ HG GX GY); [|intros x' y' [A B]; split; unfold fx at 1, fy at 1, v_x, v_y; cbn [fst snd]; now apply EF|exact HC].
    apply (filter_zero (os_G O) TX TY); auto. intros x' y' HC'. rewrite stages_div by auto. now apply IHHR.
Qed.
Print Assumptions C81_divB.
(** Non-vacuity: a spectral 8 x 6 grid, one harmonic beyond the isotropic one, the Hou-Li filter: the run goes on for ever. *)
Definition ex_G : grid2 := {| g_nx := 8; g_ny := 6; g_dx := 1 / 8; g_dy := 1 / 6; g_kx := Spectral; g_ky := Spectral |}.
Definition ex_F (a : nat -> nat -> cplx) : nat -> nat -> cplx := fun x y => houli 6 36 36 (fun y' => houli 8 36 36 (fun x' => a x' y') x) y.
Definition ex_O (V : vspace) : ostep := {| os_tiny := 1; os_G := ex_G; os_V := V; os_c2 := 1; os_eta0 := 1; os_dt := 1; os_positive := true;
  os_coll := fun _ _ f => f; os_filter := Some ex_F; os_dndz := fun _ _ _ => 0 |}.
Example C81_divB_nonvacuous : forall V s, (1 <= h_L V)%nat -> ok_grid (os_G (ex_O V)) /\
  (forall a, houli2 None 8 6 36 36 [lit "x"; lit "y"] a = Some (ex_F a)) /\ (forall n, exists s', orun (ex_O V) 0 s (INR n) s').
Proof.
  intros V s HV. split; [repeat split; cbn; lia|]. split.
  - intros a. unfold houli2, houli_ok. destruct (Rle_dec 36 0); [lra|]. reflexivity.
  - induction n; [exists s; constructor|]. destruct IHn as [s1 H1]. destruct (ostep_run (ex_O V) (INR n) s1) as [s2|] eqn:E.
    + exists s2. replace (INR (S n)) with (INR n + os_dt (ex_O V)) by (rewrite S_INR; reflexivity). now apply (orun_S _ _ _ _ s1).
    + apply C81_step_accepts in E. cbn [ex_O os_V] in E. lia.
Qed.
(** Non-vacuity of C81_step: collisions that reset the distribution to an isotropic one leave every cell above [tiny] after the step. *)
Example C81_step_nonvacuous : forall b, let v := fun j => (INR j + 1 / 2) * 1 in
  let O := {| os_tiny := 1 / 10; os_G := ex_G; os_V := {| h_L := 1; h_M := 1; h_nv := 1; h_dv := 1; h_v := v; h_speed := v |}; os_c2 := 1; os_eta0 := 1; os_dt := 1; os_positive := false;
    os_coll := fun _ _ _ => (fun x y i (j : nat) => if (i =? 0)%nat then (1, 0) else c0); os_filter := None; os_dndz := fun _ _ _ => 0 |} in
  exists s', ostep_run O 0 {| s_f := fun _ _ _ _ => c0; s_e := fun _ _ => (0, 0, 0); s_b := b |} = Some s' /\ forall x y, os_tiny O <= o_resp (os_V O) (s_f s') x y.
Proof.
  intros b v O. set (s := {| s_f := fun _ _ _ _ => c0; s_e := fun _ _ => (0, 0, 0); s_b := b |}).
  assert (Q : fst (os_stages O 0 s) = fun (x y i j : nat) => if (i =? 0)%nat then (1, 0) else c0) by reflexivity.
  destruct (ostep_run O 0 s) as [s'|] eqn:E; [|apply C81_step_accepts in E; discriminate]. exists s'. split; [reflexivity|]. intros x y.
  assert (EF : s_f s' = os_project O (os_pos O (os_filter_f O (fst (os_stages O 0 s)))) (os_filter_b O (snd (os_stages O 0 s)))).
  { revert E. unfold ostep_run. change (negb (os_ok O)) with false. cbn beta iota. generalize (os_stages O 0 s). intros [f1 b1] E. cbv zeta in E. cbn [fst snd] in *. apply (f_equal (fun o => match o with Some z => s_f z | None => s_f s end)) in E. cbv beta iota in E. cbn [s_f] in E. now rewrite <- E. }
  rewrite Q in EF. revert EF. generalize (snd (os_stages O 0 s)). intros b1 EF. unfold o_resp. rewrite EF. clear EF E Q.
  change (os_pos O (os_filter_f O (fun _ _ i _ => if (i =? 0)%nat then (1, 0) else c0))) with (fun (x y i j : nat) => if (i =? 0)%nat then (1, 0) else c0). set (f := fun i (j : nat) => if (i =? 0)%nat then (1, 0) else c0). unfold os_project.
  change (os_V O) with {| h_L := 1; h_M := 1; h_nv := 1; h_dv := 1; h_v := v; h_speed := v |}. cbn [h_L h_M h_nv h_dv h_v].
  destruct (project_some (os_tiny O) 1 1 1 v 1 f (os_target O (os_filter_b O b1) x y) ltac:(lia)) as [g Hg]. rewrite Hg.
  unfold response. cbn [rsum]. rewrite (project_gf _ _ _ _ _ _ _ _ _ 0 0 0 Hg). cbn [Nat.eqb andb].
  change (os_tiny O) with (1 / 10). replace (gf 1 1 (fun i => f i 0%nat) 0 0) with (1, 0) by reflexivity. unfold v. change (INR 0) with 0. cbn [fst]. pose proof PI2_3_2. pose proof PI_RGT_0. assert (3 / 2 < PI / 2 * 1) by (unfold PI2 in *; lra). nra.
Qed.
