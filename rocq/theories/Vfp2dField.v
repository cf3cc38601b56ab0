(** Property C80: Maxwell's equations, Gauss's law and the electron number on the VFP-2D grid. *)
From Coq Require Import Reals Lra Lia ZArith List Bool Psatz.
From Verif Require Import PyStr Harm2d Harm2dLayout Harm2dSum Harm2dProps Harm2dMoments Vfp2d Vfp2dOps RSum Pic PicProofs PicFourier Dft.
Import ListNotations.
Local Open Scope R_scope.
Add Ring cplx_ring3 : cring.

(** * A derivative along one axis as an antisymmetric matrix whose rows add up to zero *)
Definition ok_kind (k : dkind) (n : nat) : Prop := (0 < n)%nat /\ match k with Sharded p => (0 < p)%nat /\ (n mod p = 0)%nat | _ => True end.
Definition cyc (n g q : nat) (s : Z) : R := if (Z.of_nat q =? (Z.of_nat g + s) mod Z.of_nat n)%Z then 1 else 0.
Definition fdmat (n : nat) (u w : R) (g q : nat) : R := u * (cyc n g q 1 - cyc n g q (-1)) + w * (cyc n g q 2 - cyc n g q (-2)).
Definition specmat (n : nat) (h : R) (g q : nat) : cplx := cscal (/ INR n) (csum n (fun k => cmul (0, kx n h k) (cis (angle n k g - angle n k q)))).
Definition dmat (k : dkind) (n : nat) (h : R) (g q : nat) : cplx :=
  match k with
  | Spectral => specmat n h g q
  | Central => if (n <? 5)%nat then (fdmat n (/ (2 * h)) 0 g q, 0) else (fdmat n (8 * / (12 * h)) (- / (12 * h)) g q, 0)
  | Sharded p => if ((2 <=? n / p) && (5 <=? n))%nat%bool then (fdmat n (8 * / (12 * h)) (- / (12 * h)) g q, 0) else (fdmat n (/ (2 * h)) 0 g q, 0)
  end.
Lemma cyc_sum n a g s : (0 < n)%nat -> csum n (fun q => cscal (cyc n g q s) (a q)) = cshift n a g s.
Proof.
  intros Hn. pose proof (Z.mod_pos_bound (Z.of_nat g + s) (Z.of_nat n) ltac:(lia)) as B. unfold cshift. set (i := Z.to_nat _).
  rewrite (csum_single n i).
  - unfold cyc. destruct (Z.eqb_spec (Z.of_nat i) ((Z.of_nat g + s) mod Z.of_nat n)) as [|E]; [cy|]. exfalso. apply E. unfold i. lia.
  - unfold i. lia.
  - intros q Hq Hne. unfold cyc. destruct (Z.eqb_spec (Z.of_nat q) ((Z.of_nat g + s) mod Z.of_nat n)) as [E|]; [|cy]. exfalso. apply Hne. unfold i. lia.
Qed.
Lemma fdmat_sum n u w a g : (0 < n)%nat -> csum n (fun q => cmul (fdmat n u w g q, 0) (a q)) =
  cadd (cscal u (csub (cshift n a g 1) (cshift n a g (-1)))) (cscal w (csub (cshift n a g 2) (cshift n a g (-2)))).
Proof.
  intros Hn. rewrite <- !cyc_sum by auto. unfold csub. 
  rewrite (csum_ext n _ (fun q => cadd (cadd (cmul (u, 0) (cscal (cyc n g q 1) (a q))) (cmul (- u, 0) (cscal (cyc n g q (-1)) (a q)))) (cadd (cmul (w, 0) (cscal (cyc n g q 2) (a q))) (cmul (- w, 0) (cscal (cyc n g q (-2)) (a q)))))).
  - rewrite !csum_add, !csum_mul. cy.
  - intros q _. unfold fdmat. cy.
Qed.
Lemma dax_mat k n h a g : ok_kind k n -> (g < n)%nat -> dax k n h a g = csum n (fun q => cmul (dmat k n h g q) (a q)).
Proof.
  intros [Hn Hk] Hg.
  assert (D2 : diff2 h (cshift n a g 1) (cshift n a g (-1)) = csum n (fun q => cmul (fdmat n (/ (2 * h)) 0 g q, 0) (a q))).
  { rewrite fdmat_sum by auto. unfold diff2. cy. }
  assert (D4 : diff4 h (cshift n a g (-2)) (cshift n a g (-1)) (cshift n a g 1) (cshift n a g 2) = csum n (fun q => cmul (fdmat n (8 * / (12 * h)) (- / (12 * h)) g q, 0) (a q))).
  { rewrite fdmat_sum by auto. unfold diff4. cy. }
  destruct k as [| |p]; cbn [dax dmat].
  - unfold dspec, ifft, cfft, specmat. rewrite <- csum_scal.
    rewrite (csum_ext n _ (fun k => csum n (fun q => cmul (cmul (/ INR n, 0) (cmul (0, kx n h k) (cis (angle n k g - angle n k q)))) (a q)))).
    + rewrite csum_swap. apply csum_ext. intros q _. rewrite cscal_mul, <- csum_mul, <- csum_mul_r. reflexivity.
    + intros k _. rewrite cscal_mul, <- csum_mul, <- csum_mul_r, <- csum_mul. apply csum_ext. intros q _. unfold Rminus. rewrite cis_add. ring.
  - unfold dcentral. destruct (n <? 5)%nat; [exact D2|exact D4].
  - destruct Hk as [Hp Hm]. assert (Q : (n = p * (n / p))%nat) by (apply Nat.div_exact; lia). assert (Q0 : (0 < n / p)%nat) by nia.
    transitivity (dsharded p (p * (n / p)) h a g); [now rewrite <- Q|]. rewrite dsharded_eq by (auto; lia). rewrite <- Q. destruct ((2 <=? n / p) && (5 <=? n))%nat%bool; [exact D4|exact D2].
Qed.
Lemma cyc_sym n g q s : (g < n)%nat -> (q < n)%nat -> cyc n q g s = cyc n g q (- s).
Proof.
  intros Hg Hq. unfold cyc.
  assert (E : (Z.of_nat g = (Z.of_nat q + s) mod Z.of_nat n)%Z <-> (Z.of_nat q = (Z.of_nat g + - s) mod Z.of_nat n)%Z).
  { split; intros E.
    - pose proof (Z.div_mod (Z.of_nat q + s) (Z.of_nat n) ltac:(lia)). rewrite <- E in H.
      replace (Z.of_nat g + - s)%Z with (Z.of_nat q + (- ((Z.of_nat q + s) / Z.of_nat n)) * Z.of_nat n)%Z by lia. rewrite Z.mod_add, Z.mod_small by lia. auto.
    - pose proof (Z.div_mod (Z.of_nat g + - s) (Z.of_nat n) ltac:(lia)). rewrite <- E in H.
      replace (Z.of_nat q + s)%Z with (Z.of_nat g + (- ((Z.of_nat g + - s) / Z.of_nat n)) * Z.of_nat n)%Z by lia. rewrite Z.mod_add, Z.mod_small by lia. auto. }
  destruct (Z.eqb_spec (Z.of_nat g) ((Z.of_nat q + s) mod Z.of_nat n)), (Z.eqb_spec (Z.of_nat q) ((Z.of_nat g + - s) mod Z.of_nat n)); tauto.
Qed.
Lemma fdmat_anti n u w g q : (g < n)%nat -> (q < n)%nat -> fdmat n u w g q = - fdmat n u w q g.
Proof. intros Hg Hq. unfold fdmat. rewrite (cyc_sym n g q 1), (cyc_sym n g q (-1)), (cyc_sym n g q 2), (cyc_sym n g q (-2)) by auto. cbn [Z.opp]. ring. Qed.
Lemma dmat_fst_anti k n h g q : (g < n)%nat -> (q < n)%nat -> fst (dmat k n h g q) = - fst (dmat k n h q g).
Proof.
  intros Hg Hq. destruct k as [| |p]; cbn [dmat].
  - unfold specmat, cscal. cbn [fst]. rewrite !csum_fst. replace (- (/ INR n * rsum n (fun i => fst (cmul (0, kx n h i) (cis (angle n i q - angle n i g)))))) with (/ INR n * (-1 * rsum n (fun i => fst (cmul (0, kx n h i) (cis (angle n i q - angle n i g)))))) by ring.
    f_equal. rewrite <- rsum_scal. apply rsum_ext. intros i _. unfold cmul, cis. cbn [fst snd]. replace (angle n i q - angle n i g) with (- (angle n i g - angle n i q)) by ring. rewrite sin_neg. ring.
  - destruct (n <? 5)%nat; cbn [fst]; now apply fdmat_anti.
  - destruct (_ && _)%bool; cbn [fst]; now apply fdmat_anti.
Qed.
(** The derivative of a constant is zero and the derivative of anything adds up to zero. *)
Lemma kx_0 n h : kx n h 0 = 0.
Proof. unfold kx. destruct (Nat.ltb_spec (2 * 0) n). { change (INR 0) with 0. unfold Rdiv. ring. } assert (n = 0)%nat by lia. subst. change (INR 0) with 0. unfold Rdiv. ring. Qed.
Lemma dmat_col k n h q : ok_kind k n -> (q < n)%nat -> csum n (fun g => dmat k n h g q) = c0.
Proof.
  intros [Hn Hk] Hq.
  assert (FD : forall u w, csum n (fun g => (fdmat n u w g q, 0)) = c0).
  { intros u w. transitivity (csum n (fun g => cmul (fdmat n (- u) (- w) q g, 0) c1)).
    - apply csum_ext. intros g Hg. rewrite fdmat_anti by auto. unfold fdmat. cy.
    - rewrite (fdmat_sum n (- u) (- w) (fun _ => c1)) by auto. unfold cshift. cy. }
  destruct k as [| |p]; cbn [dmat].
  - unfold specmat. rewrite csum_scal, csum_swap. rewrite (csum_ext n _ (fun _ => c0)); [rewrite csum_zero; cy|]. intros k Hk'. rewrite csum_mul.
    destruct (Nat.eq_dec k 0) as [->|Hk0]; [rewrite kx_0; cy|].
    rewrite (csum_ext n _ (fun g => cmul (cis (- angle n k q)) (cis (angle n k g - angle n 0 g)))).
    + rewrite csum_mul, char_orth by lia. destruct (Nat.eqb_spec k 0); [lia|]. cy.
    + intros g _. rewrite <- cis_add. f_equal. unfold angle. change (INR 0) with 0. unfold Rdiv. ring.
  - destruct (n <? 5)%nat; apply FD.
  - destruct (_ && _)%bool; apply FD.
Qed.
Lemma dax_sum k n h a : ok_kind k n -> csum n (dax k n h a) = c0.
Proof.
  intros Hk. rewrite (csum_ext n _ (fun g => csum n (fun q => cmul (dmat k n h g q) (a q)))) by (intros; now apply dax_mat).
  rewrite csum_swap. rewrite (csum_ext n _ (fun _ => c0)); [apply csum_zero|]. intros q Hq. rewrite csum_mul_r, dmat_col by auto. cy.
Qed.
Definition rmat (k : dkind) (n : nat) (h : R) (g q : nat) : R := fst (dmat k n h g q).
Lemma rder_mat k n h a g : ok_kind k n -> (g < n)%nat -> rder k n h a g = rsum n (fun q => rmat k n h g q * a q).
Proof. intros Hk Hg. unfold rder. rewrite dax_mat, csum_fst by auto. apply rsum_ext. intros. unfold cmul, emb, rmat. cbn [fst snd]. ring. Qed.
Lemma rmat_anti k n h g q : (g < n)%nat -> (q < n)%nat -> rmat k n h g q = - rmat k n h q g.
Proof. apply dmat_fst_anti. Qed.
Lemma rder_parts k n h a b : ok_kind k n -> rsum n (fun g => b g * rder k n h a g) = - rsum n (fun g => a g * rder k n h b g).
Proof.
  intros Hk. rewrite (rsum_ext n _ (fun g => rsum n (fun q => b g * rmat k n h g q * a q))) by (intros; rewrite rder_mat by auto; rewrite <- rsum_scal; apply rsum_ext; intros; ring).
  rewrite rsum_swap. replace (- rsum n (fun g => a g * rder k n h b g)) with (-1 * rsum n (fun g => a g * rder k n h b g)) by ring. rewrite <- rsum_scal. apply rsum_ext. intros g Hg.
  rewrite rder_mat by auto. rewrite <- !rsum_scal. apply rsum_ext. intros q Hq. rewrite (rmat_anti k n h q g) by auto. ring.
Qed.
Lemma rder_lin k n h u w a b g : ok_kind k n -> (g < n)%nat -> rder k n h (fun q => u * a q + w * b q) g = u * rder k n h a g + w * rder k n h b g.
Proof. intros. rewrite !rder_mat by auto. rewrite <- !rsum_scal, <- rsum_plus. apply rsum_ext. intros; ring. Qed.
Lemma rder_ext k n h a b g : ok_kind k n -> (g < n)%nat -> (forall q, (q < n)%nat -> a q = b q) -> rder k n h a g = rder k n h b g.
Proof. intros Hk Hg E. rewrite !rder_mat by auto. apply rsum_ext. intros q Hq. now rewrite E. Qed.

(** * The plane *)
Lemma vec3_eq (a b : vec3) : v_x a = v_x b -> v_y a = v_y b -> v_z a = v_z b -> a = b.
Proof. destruct a as [[? ?] ?], b as [[? ?] ?]. unfold v_x, v_y, v_z. cbn. intros -> -> ->. reflexivity. Qed.
Definition ok_grid (G : grid2) : Prop := ok_kind (g_kx G) (g_nx G) /\ ok_kind (g_ky G) (g_ny G).
Definition div (G : grid2) (a : vfld) : fld := fun x y => ddx G (fx a) x y + ddy G (fy a) x y.
Definition cell (G : grid2) (x y : nat) : Prop := (x < g_nx G)%nat /\ (y < g_ny G)%nat.
Lemma ddx_lin G u w a b x y : ok_grid G -> cell G x y -> ddx G (fun x y => u * a x y + w * b x y) x y = u * ddx G a x y + w * ddx G b x y.
Proof. intros [Hx Hy] [Cx Cy]. unfold ddx. now rewrite rder_lin. Qed.
Lemma ddy_lin G u w a b x y : ok_grid G -> cell G x y -> ddy G (fun x y => u * a x y + w * b x y) x y = u * ddy G a x y + w * ddy G b x y.
Proof. intros [Hx Hy] [Cx Cy]. unfold ddy. now rewrite rder_lin. Qed.
Lemma ddx_ddy G a x y : ok_grid G -> cell G x y -> ddx G (ddy G a) x y = ddy G (ddx G a) x y.
Proof.
  intros [Hx Hy] [Cx Cy]. unfold ddx, ddy. rewrite !rder_mat by auto.
  rewrite (rsum_ext (g_nx G) _ (fun q => rsum (g_ny G) (fun r => rmat (g_kx G) (g_nx G) (g_dx G) x q * rmat (g_ky G) (g_ny G) (g_dy G) y r * a q r))) by (intros; rewrite rder_mat by auto; rewrite <- rsum_scal; apply rsum_ext; intros; ring).
  rewrite rsum_swap. apply rsum_ext. intros r Hr. rewrite rder_mat by auto. rewrite <- rsum_scal. apply rsum_ext. intros; ring.
Qed.
Lemma div_lin G u w a b x y : ok_grid G -> cell G x y -> div G (fadd (fscal u a) (fscal w b)) x y = u * div G a x y + w * div G b x y.
Proof.
  intros HG HC. unfold div.
  change (fx (fadd (fscal u a) (fscal w b))) with (fun x y => u * fx a x y + w * fx b x y). change (fy (fadd (fscal u a) (fscal w b))) with (fun x y => u * fy a x y + w * fy b x y).
  rewrite ddx_lin, ddy_lin by auto. ring.
Qed.
Lemma div_ext G a b x y : ok_grid G -> cell G x y -> (forall x y, cell G x y -> a x y = b x y) -> div G a x y = div G b x y.
Proof.
  intros [Hx Hy] [Cx Cy] E. unfold div, ddx, ddy. f_equal; apply rder_ext; auto; intros q Hq; unfold fx, fy; rewrite E; auto; split; auto.
Qed.
Lemma div_curl G a x y : ok_grid G -> cell G x y -> div G (curl G a) x y = 0.
Proof.
  intros HG HC. unfold div. change (fx (curl G a)) with (ddy G (fz a)).
  replace (ddy G (fy (curl G a)) x y) with (- ddy G (ddx G (fz a)) x y).
  - rewrite ddx_ddy by auto. ring.
  - pose proof (ddy_lin G (-1) 0 (ddx G (fz a)) (ddx G (fz a)) x y HG HC) as E.
    transitivity (ddy G (fun x y => -1 * ddx G (fz a) x y + 0 * ddx G (fz a) x y) x y); [rewrite E; ring|]. destruct HG as [Hx Hy]. destruct HC. unfold ddy. apply rder_ext; auto. intros q Hq. unfold fy, curl, v_y. cbn [fst snd]. ring.
Qed.

(** ** div B *)
(** N steps of the split scheme, at times t, t + dt, ... *)
Fixpoint steps (N : nat) (dt : R) (st : R -> state2 -> state2) (t : R) (s : state2) : state2 := match N with O => s | S k => steps k dt st (t + dt) (st t s) end.
Lemma split_b G V c2 dt ee eb dr coll t s x y : ok_grid G -> cell G x y -> div G (s_b (split_step G V c2 dt ee eb dr coll t s)) x y = div G (s_b s) x y.
Proof.
  intros HG HC. unfold split_step. cbv zeta. cbn [s_b axpy s_e vm_rhs].
  match goal with |- context [maxwell_b G ?E] => set (em := E) end.
  transitivity (div G (fadd (fscal 1 (s_b s)) (fscal (- dt) (curl G em))) x y).
  - apply div_ext; auto. intros. apply vec3_eq; unfold fadd, fscal, maxwell_b, vadd, vscal, v_x, v_y, v_z; cbn [fst snd]; ring.
  - rewrite div_lin by auto. rewrite div_curl by auto. ring.
Qed.
(** The discrete divergence of B never changes: any number of steps, any external fields, drivers, collisions, step size and speed of
    light, spectral or finite-difference derivatives, on any number of devices. *)
Theorem C80_div_b : forall G V c2 dt ee eb dr coll N t s x y, ok_grid G -> cell G x y ->
  div G (s_b (steps N dt (split_step G V c2 dt ee eb dr coll) t s)) x y = div G (s_b s) x y.
Proof. intros G V c2 dt ee eb dr coll N. induction N; intros t s x y HG HC; cbn [steps]; auto. rewrite IHN by auto. now apply split_b. Qed.
Print Assumptions C80_div_b.
(** ** Energy: Poynting's theorem on the grid *)
Definition plane_sum (G : grid2) (a : fld) : R := rsum (g_nx G) (fun x => rsum (g_ny G) (fun y => a x y)).
Lemma plane_x G a b : ok_grid G -> plane_sum G (fun x y => b x y * ddx G a x y) = - plane_sum G (fun x y => a x y * ddx G b x y).
Proof.
  intros [Hx Hy]. unfold plane_sum. rewrite (rsum_swap (g_nx G) (g_ny G) (fun x y => b x y * ddx G a x y)), (rsum_swap (g_nx G) (g_ny G) (fun x y => a x y * ddx G b x y)).
  replace (- rsum (g_ny G) (fun j => rsum (g_nx G) (fun i => a i j * ddx G b i j))) with (-1 * rsum (g_ny G) (fun j => rsum (g_nx G) (fun i => a i j * ddx G b i j))) by ring.
  rewrite <- rsum_scal. apply rsum_ext. intros y _. unfold ddx. rewrite (rder_parts (g_kx G) (g_nx G) (g_dx G) (fun x => a x y) (fun x => b x y)) by auto. ring.
Qed.
Lemma plane_y G a b : ok_grid G -> plane_sum G (fun x y => b x y * ddy G a x y) = - plane_sum G (fun x y => a x y * ddy G b x y).
Proof.
  intros [Hx Hy]. unfold plane_sum.
  replace (- rsum (g_nx G) (fun x => rsum (g_ny G) (fun y => a x y * ddy G b x y))) with (-1 * rsum (g_nx G) (fun x => rsum (g_ny G) (fun y => a x y * ddy G b x y))) by ring.
  rewrite <- rsum_scal. apply rsum_ext. intros x _. unfold ddy. rewrite (rder_parts (g_ky G) (g_ny G) (g_dy G) (fun y => a x y) (fun y => b x y)) by auto. ring.
Qed.
Lemma plane_plus G a b : plane_sum G (fun x y => a x y + b x y) = plane_sum G a + plane_sum G b.
Proof. unfold plane_sum. rewrite <- rsum_plus. apply rsum_ext. intros. now rewrite rsum_plus. Qed.
Lemma plane_scal G c a : plane_sum G (fun x y => c * a x y) = c * plane_sum G a.
Proof. unfold plane_sum. rewrite <- rsum_scal. apply rsum_ext. intros. now rewrite rsum_scal. Qed.
Lemma plane_ext G a b : (forall x y, cell G x y -> a x y = b x y) -> plane_sum G a = plane_sum G b.
Proof. intros E. unfold plane_sum. apply rsum_ext. intros x Hx. apply rsum_ext. intros y Hy. apply E. split; auto. Qed.
Lemma curl_sym G a b : ok_grid G -> plane_sum G (fun x y => vdot (a x y) (curl G b x y)) = plane_sum G (fun x y => vdot (b x y) (curl G a x y)).
Proof.
  intros HG.
  assert (E : forall a b, plane_sum G (fun x y => vdot (a x y) (curl G b x y)) =
     plane_sum G (fun x y => fx a x y * ddy G (fz b) x y) - plane_sum G (fun x y => fy a x y * ddx G (fz b) x y) + plane_sum G (fun x y => fz a x y * ddx G (fy b) x y) - plane_sum G (fun x y => fz a x y * ddy G (fx b) x y)).
  { intros p q. set (A := fun x y => fx p x y * ddy G (fz q) x y). set (B := fun x y => fy p x y * ddx G (fz q) x y). set (C := fun x y => fz p x y * ddx G (fy q) x y). set (D := fun x y => fz p x y * ddy G (fx q) x y).
    transitivity (plane_sum G (fun x y => (A x y + C x y) + -1 * (B x y + D x y))); [|rewrite plane_plus, plane_scal, !plane_plus; ring].
    apply plane_ext. intros. unfold vdot, curl, A, B, C, D, fx, fy, fz, v_x, v_y, v_z. cbn [fst snd]. ring. }
  rewrite !E. rewrite (plane_y G (fz b) (fx a)), (plane_x G (fz b) (fy a)), (plane_x G (fy b) (fz a)), (plane_y G (fx b) (fz a)) by auto. ring.
Qed.
(** The field energy changes by exactly minus the work of the current: sum E.dE/dt + c^2 B.dB/dt = - sum E.J, so without current the
    semi-discrete field energy is constant. *)
Theorem C80_poynting : forall G c2 e b j, ok_grid G ->
  plane_sum G (fun x y => vdot (e x y) (maxwell_e G c2 b j x y) + c2 * vdot (b x y) (maxwell_b G e x y)) = - plane_sum G (fun x y => vdot (e x y) (j x y)).
Proof.
  intros G c2 e b j HG.
  transitivity (plane_sum G (fun x y => (c2 * vdot (e x y) (curl G b x y) + - c2 * vdot (b x y) (curl G e x y)) + -1 * vdot (e x y) (j x y))).
  - apply plane_ext. intros. unfold maxwell_e, maxwell_b, vdot, vadd, vscal, v_x, v_y, v_z. cbn [fst snd]. ring.
  - rewrite !plane_plus, !plane_scal, (curl_sym G e b) by auto. ring.
Qed.
Print Assumptions C80_poynting.

(** ** Density, current and the distribution's derivatives *)
Definition ok_speed (V : vspace) : Prop := (0 < h_nv V)%nat /\ 0 < h_dv V /\ centred (h_dv V) (h_v V).
(** Electrons gained or lost at the largest speed cell (C78_electric_number): zero as soon as the degree-1 harmonics vanish there. *)
Definition leak (V : vspace) (E : vec3) (f : nat -> nat -> cplx) : R :=
  2 * PI / 3 * ((INR (h_nv V) + 1 / 2) * h_dv V) ^ 2 * vdot E (dir_vec (h_L V) (h_M V) (fun i => f i (h_nv V - 1)%nat)).
Lemma density2_ext L M nv v dv f f' : (forall j, (j < nv)%nat -> fst (gf L M (fun i => f i j) 0 0) = fst (gf L M (fun i => f' i j) 0 0)) -> density2 L M nv v dv f = density2 L M nv v dv f'.
Proof. intros E. unfold density2. do 2 f_equal. apply rsum_ext. intros j Hj. unfold re_mode. change (at_ L M ?q 0 0) with (gf L M q 0 0). now rewrite E. Qed.
Lemma density2_lin L M nv v dv (r : R) f g : density2 L M nv v dv (fun i j => cadd (f i j) (cscal r (g i j))) = density2 L M nv v dv f + r * density2 L M nv v dv g.
Proof.
  unfold density2. rewrite (rsum_ext nv _ (fun j => re_mode L M f 0 0 j * v j ^ 2 + r * (re_mode L M g 0 0 j * v j ^ 2))).
  - rewrite rsum_plus, rsum_scal. ring.
  - intros j _. unfold re_mode. change (at_ L M ?q 0 0) with (gf L M q 0 0). rewrite (gf_map2 L M (fun a b => cadd a (cscal r b)) (fun i => f i j) (fun i => g i j)) by cy. unfold cadd, cscal. cbn [fst snd]. ring.
Qed.
Lemma density_rate L M nv dv v speed E B f a b c : (0 < nv)%nat -> 0 < dv -> centred dv v ->
  density2 L M nv v dv (vlasov L M nv dv v speed (v_x E) (v_y E) (v_z E) (v_x B) (v_y B) (v_z B) f a b c) =
  - (v_x (current2 L M nv v dv 1 speed a) + v_y (current2 L M nv v dv 1 speed b) + v_z (current2 L M nv v dv 1 speed c))
  + 2 * PI / 3 * ((INR nv + 1 / 2) * dv) ^ 2 * vdot E (dir_vec L M (fun i => f i (nv - 1)%nat)).
Proof.
  intros Hn Hd Hv. rewrite <- C78_continuity, <- (C78_electric_number L M nv dv v E f Hn Hd Hv).
  pose (S1 := fun i j => streaming L M (speed j) (fun i => a i j) (fun i => b i j) (fun i => c i j) i).
  pose (S3 := fun i j => magnetic L M (v_x B) (v_y B) (v_z B) (fun i => f i j) i).
  transitivity (density2 L M nv v dv (fun i j => cadd (cadd (S1 i j) (cscal 1 (e_op L M nv dv v E f i j))) (cscal 1 (S3 i j)))).
  - apply density2_ext. intros j Hj. destruct (retained_index L M 0 0 ltac:(apply retained_iff; lia)) as (i & Hi & A & B' & C). rewrite !C. unfold vlasov.
    unfold m_of in B'. rewrite B'. cbn [Nat.eqb]. unfold S1, S3, e_op. unfold creal, cadd, cscal. cbn [fst snd]. ring.
  - rewrite (density2_lin L M nv v dv 1 (fun i j => cadd (S1 i j) (cscal 1 (e_op L M nv dv v E f i j))) S3), (density2_lin L M nv v dv 1 S1 (e_op L M nv dv v E f)).
    replace (density2 L M nv v dv S3) with 0. { fold S1. ring. }
    symmetry. exact (C78_magnetic_no_work L M nv dv (v_x B) (v_y B) (v_z B) (fun j => v j ^ 2) f).
Qed.
Lemma cur_x L M nv v dv q speed a : v_x (current2 L M nv v dv q speed a) = q * (4 * PI / 3 * dv) * rsum nv (fun j => v j ^ 2 * speed j * fst (gf L M (fun i => a i j) 1 0)).
Proof. unfold current2, vec_moment, vsum, vscal, v_x, v_y, v_z. cbn [fst snd]. unfold cscal. cbn [fst snd]. rewrite csum_fst. cbn [fst]. change (fun j => v j ^ 2 * speed j * fst (at_ L M (fun i => a i j) 1 0)) with (fun j => v j ^ 2 * speed j * fst (gf L M (fun i => a i j) 1 0)). ring. Qed.
Lemma cur_y L M nv v dv q speed a : v_y (current2 L M nv v dv q speed a) = q * (8 * PI / 3 * dv) * rsum nv (fun j => v j ^ 2 * speed j * fst (gf L M (fun i => a i j) 1 1)).
Proof. unfold current2, vec_moment, vsum, vscal, v_x, v_y, v_z. cbn [fst snd]. unfold cscal. cbn [fst snd]. rewrite csum_fst. cbn [fst]. change (fun j => v j ^ 2 * speed j * fst (at_ L M (fun i => a i j) 1 1)) with (fun j => v j ^ 2 * speed j * fst (gf L M (fun i => a i j) 1 1)). field. Qed.
Lemma cur_z0 L M nv v dv q speed : v_z (current2 L M nv v dv q speed (fun _ _ => c0)) = 0.
Proof.
  unfold current2, vec_moment, vsum, vscal, v_x, v_y, v_z. cbn [fst snd]. unfold cscal at 1. cbn [snd]. rewrite csum_snd. rewrite (rsum_ext nv _ (fun _ => 0)); [rewrite rsum_zero; ring|].
  intros j _. unfold cscal. cbn [snd]. replace (at_ L M (fun _ => c0) 1 1) with c0; [cbn; ring|]. unfold at_. cbv zeta. destruct (Z.leb 0 (index L M 1 1)); reflexivity.
Qed.
Lemma dax_zero k n h g : ok_kind k n -> (g < n)%nat -> dax k n h (fun _ => c0) g = c0.
Proof. intros Hk Hg. rewrite dax_mat by auto. rewrite (csum_ext n _ (fun _ => c0)) by (intros; cy). apply csum_zero. Qed.
Lemma gf_dax L M k n h (F : nat -> nat -> cplx) g l m : ok_kind k n -> (g < n)%nat -> gf L M (fun i => dax k n h (fun q => F q i) g) l m = dax k n h (fun q => gf L M (F q) l m) g.
Proof.
  intros Hk Hg. destruct (retained L M l m) eqn:E.
  - destruct (retained_index L M l m E) as (i & Hi & A & B & C). rewrite C. rewrite !dax_mat by auto. apply csum_ext. intros q _. f_equal. symmetry. apply (C (F q)).
  - rewrite gf_out by auto. rewrite dax_mat by auto. rewrite (csum_ext n _ (fun _ => c0)); [now rewrite csum_zero|]. intros q _. rewrite gf_out by auto. cy.
Qed.
Lemma dens_rate G V f e b x y : ok_speed V -> dens V (vlasov2 G V f e b zero_dst) x y =
  - (v_x (current2 (h_L V) (h_M V) (h_nv V) (h_v V) (h_dv V) 1 (h_speed V) (dfdx G f x y)) + v_y (current2 (h_L V) (h_M V) (h_nv V) (h_v V) (h_dv V) 1 (h_speed V) (dfdy G f x y)))
  + leak V (e x y) (f x y).
Proof.
  intros (Hn & Hd & Hv). unfold dens, vlasov2. 
  change (fun i j => vlasov (h_L V) (h_M V) (h_nv V) (h_dv V) (h_v V) (h_speed V) (v_x (e x y)) (v_y (e x y)) (v_z (e x y)) (v_x (b x y)) (v_y (b x y)) (v_z (b x y)) (f x y) (dfdx G f x y) (dfdy G f x y) (zero_dst x y) i j)
    with (vlasov (h_L V) (h_M V) (h_nv V) (h_dv V) (h_v V) (h_speed V) (v_x (e x y)) (v_y (e x y)) (v_z (e x y)) (v_x (b x y)) (v_y (b x y)) (v_z (b x y)) (f x y) (dfdx G f x y) (dfdy G f x y) (zero_dst x y)).
  rewrite density_rate by auto. change (zero_dst x y) with (fun _ _ : nat => c0). rewrite cur_z0. unfold leak. ring.
Qed.
(** ** Electron number *)
(** Advection redistributes electrons and neither creates nor loses any: the total changes only by the leak at the top speed. *)
Theorem C80_number : forall G V f e b, ok_grid G -> ok_speed V ->
  plane_sum G (dens V (vlasov2 G V f e b zero_dst)) = plane_sum G (fun x y => leak V (e x y) (f x y)).
Proof.
  intros G V f e b [Hx Hy] HV.
  set (JX := fun x y => v_x (current2 (h_L V) (h_M V) (h_nv V) (h_v V) (h_dv V) 1 (h_speed V) (dfdx G f x y))).
  set (JY := fun x y => v_y (current2 (h_L V) (h_M V) (h_nv V) (h_v V) (h_dv V) 1 (h_speed V) (dfdy G f x y))).
  transitivity (plane_sum G (fun x y => -1 * (JX x y + JY x y) + leak V (e x y) (f x y))).
  - apply plane_ext. intros x y _. rewrite dens_rate by auto. unfold JX, JY. ring.
  - rewrite plane_plus, plane_scal, plane_plus. replace (plane_sum G JX) with 0; [replace (plane_sum G JY) with 0; [ring|]|].
    + symmetry. unfold plane_sum. rewrite (rsum_ext (g_nx G) _ (fun _ => 0)); [apply rsum_zero|]. intros x Hx'. unfold JY.
      rewrite (rsum_ext (g_ny G) _ (fun y => 1 * (8 * PI / 3 * h_dv V) * rsum (h_nv V) (fun j => h_v V j ^ 2 * h_speed V j * fst (dax (g_ky G) (g_ny G) (g_dy G) (fun y' => gf (h_L V) (h_M V) (fun i => f x y' i j) 1 1) y)))).
      2:{ intros y Hy'. rewrite cur_y. f_equal. apply rsum_ext. intros j _. f_equal. f_equal. unfold dfdy. apply (gf_dax (h_L V) (h_M V) (g_ky G) (g_ny G) (g_dy G) (fun y' i => f x y' i j)); auto. }
      rewrite rsum_scal, rsum_swap. rewrite (rsum_ext (h_nv V) _ (fun _ => 0)); [rewrite rsum_zero; ring|]. intros j _. rewrite rsum_scal, <- csum_fst, dax_sum by auto. cbn. ring.
    + symmetry. unfold plane_sum. rewrite rsum_swap. rewrite (rsum_ext (g_ny G) _ (fun _ => 0)); [apply rsum_zero|]. intros y Hy'. unfold JX.
      rewrite (rsum_ext (g_nx G) _ (fun x => 1 * (4 * PI / 3 * h_dv V) * rsum (h_nv V) (fun j => h_v V j ^ 2 * h_speed V j * fst (dax (g_kx G) (g_nx G) (g_dx G) (fun x' => gf (h_L V) (h_M V) (fun i => f x' y i j) 1 0) x)))).
      2:{ intros x Hx'. rewrite cur_x. f_equal. apply rsum_ext. intros j _. f_equal. f_equal. unfold dfdx. apply (gf_dax (h_L V) (h_M V) (g_kx G) (g_nx G) (g_dx G) (fun x' i => f x' y i j)); auto. }
      rewrite rsum_scal, rsum_swap. rewrite (rsum_ext (h_nv V) _ (fun _ => 0)); [rewrite rsum_zero; ring|]. intros j _. rewrite rsum_scal, <- csum_fst, dax_sum by auto. cbn. ring.
Qed.
Print Assumptions C80_number.
(** ** Gauss's law *)
(** Derivatives that keep real data real: finite differences, or the spectral one on an odd number of cells (an even number has a
    mode at half the sampling rate whose derivative is imaginary). *)
Definition real_deriv (k : dkind) (n : nat) : Prop := match k with Spectral => Nat.odd n = true | _ => True end.
Lemma csum_odd n F : (0 < n)%nat -> F 0%nat = 0 -> (forall k, (0 < k < n)%nat -> F (n - k)%nat = - F k) -> rsum n F = 0.
Proof.
  intros Hn F0 HF. pose proof (csum_mirror n (fun k => (F k, 0)) Hn) as E. apply (f_equal fst) in E. rewrite !csum_fst in E.
  assert (X : rsum n F = -1 * rsum n F); [|lra]. rewrite <- rsum_scal.
  transitivity (rsum n (fun i => fst (F i, 0))); [reflexivity|]. rewrite E. apply rsum_ext.
  intros i Hi. destruct (Nat.eqb_spec i 0) as [->|]; cbn [fst]; [lra|]. rewrite HF by lia. ring.
Qed.
Lemma dmat_real k n h g q : ok_kind k n -> h <> 0 -> real_deriv k n -> snd (dmat k n h g q) = 0.
Proof.
  intros [Hn _] Hh Hr. destruct k as [| |p]; cbn [dmat].
  - unfold specmat, cscal. cbn [snd]. rewrite csum_snd. rewrite csum_odd; [ring|auto| |].
    + rewrite kx_0. unfold cmul. cbn [fst snd]. ring.
    + intros k Hk. assert (Hodd : (2 * k <> n)%nat) by (intros E; cbn in Hr; rewrite <- E in Hr; rewrite Nat.odd_mul in Hr; discriminate). rewrite kx_mirror by auto.
      rewrite !angle_mirror by lia. unfold cmul, cis. cbn [fst snd].
      replace (- angle n k g + 2 * IZR (Z.of_nat g) * PI - (- angle n k q + 2 * IZR (Z.of_nat q) * PI)) with (- (angle n k g - angle n k q) + 2 * IZR (Z.of_nat g - Z.of_nat q) * PI) by (rewrite minus_IZR; ring).
      rewrite cos_2Zpi, sin_2Zpi, cos_neg, sin_neg. ring.
  - destruct (n <? 5)%nat; reflexivity.
  - destruct (_ && _)%bool; reflexivity.
Qed.
Lemma fst_dax k n h a g : ok_kind k n -> (g < n)%nat -> h <> 0 -> (real_deriv k n \/ forall q, (q < n)%nat -> snd (a q) = 0) ->
  fst (dax k n h a g) = rder k n h (fun q => fst (a q)) g.
Proof.
  intros Hk Hg Hh Hr. rewrite rder_mat, dax_mat, csum_fst by auto. apply rsum_ext. intros q Hq. unfold cmul, rmat. cbn [fst snd]. destruct Hr as [Hr|Hr].
  - rewrite dmat_real by auto. ring.
  - rewrite Hr by auto. ring.
Qed.
Lemma rder_rsum k n h m (u : nat -> R) (A : nat -> nat -> R) g : ok_kind k n -> (g < n)%nat -> rder k n h (fun q => rsum m (fun j => u j * A j q)) g = rsum m (fun j => u j * rder k n h (A j) g).
Proof.
  intros Hk Hg. rewrite rder_mat by auto. rewrite (rsum_ext m _ (fun j => rsum n (fun q => rmat k n h g q * (u j * A j q)))) by (intros; rewrite rder_mat by auto; rewrite <- rsum_scal; apply rsum_ext; intros; ring).
  rewrite rsum_swap. apply rsum_ext. intros. now rewrite rsum_scal.
Qed.
Definition ok_steps (G : grid2) : Prop := 0 < g_dx G /\ 0 < g_dy G.
(** Real order-0 harmonics at every cell and speed. *)
Definition real_state (V : vspace) (f : dst) : Prop := forall x y j, real0 (h_L V) (h_M V) (fun i => f x y i j).
Lemma rder_scal k n h c a g : ok_kind k n -> (g < n)%nat -> rder k n h (fun q => c * a q) g = c * rder k n h a g.
Proof. intros. rewrite !rder_mat by auto. rewrite <- rsum_scal. apply rsum_ext. intros; ring. Qed.
Lemma div_curr G V f x y : ok_grid G -> ok_steps G -> cell G x y -> real_deriv (g_ky G) (g_ny G) -> real_state V f ->
  div G (curr V (-1) f) x y = - (v_x (current2 (h_L V) (h_M V) (h_nv V) (h_v V) (h_dv V) 1 (h_speed V) (dfdx G f x y)) + v_y (current2 (h_L V) (h_M V) (h_nv V) (h_v V) (h_dv V) 1 (h_speed V) (dfdy G f x y))).
Proof.
  intros [Hx Hy] [Dx Dy] [Cx Cy] Hr HR. unfold div, ddx, ddy. 
  rewrite (rder_ext (g_kx G) (g_nx G) (g_dx G) _ (fun q => (-1 * (4 * PI / 3 * h_dv V)) * rsum (h_nv V) (fun j => h_v V j ^ 2 * h_speed V j * fst (gf (h_L V) (h_M V) (fun i => f q y i j) 1 0)))) by (auto; intros; unfold fx, curr; apply cur_x).
  rewrite (rder_ext (g_ky G) (g_ny G) (g_dy G) _ (fun q => (-1 * (8 * PI / 3 * h_dv V)) * rsum (h_nv V) (fun j => h_v V j ^ 2 * h_speed V j * fst (gf (h_L V) (h_M V) (fun i => f x q i j) 1 1)))) by (auto; intros; unfold fy, curr; apply cur_y).
  rewrite !rder_scal by auto.
  rewrite (rder_rsum (g_kx G) (g_nx G) (g_dx G) (h_nv V) (fun j => h_v V j ^ 2 * h_speed V j) (fun j q => fst (gf (h_L V) (h_M V) (fun i => f q y i j) 1 0))) by auto.
  rewrite (rder_rsum (g_ky G) (g_ny G) (g_dy G) (h_nv V) (fun j => h_v V j ^ 2 * h_speed V j) (fun j q => fst (gf (h_L V) (h_M V) (fun i => f x q i j) 1 1))) by auto.
  rewrite cur_x, cur_y.
  rewrite (rsum_ext (h_nv V) (fun j => h_v V j ^ 2 * h_speed V j * fst (gf (h_L V) (h_M V) (fun i => dfdx G f x y i j) 1 0)) (fun j => h_v V j ^ 2 * h_speed V j * rder (g_kx G) (g_nx G) (g_dx G) (fun q => fst (gf (h_L V) (h_M V) (fun i => f q y i j) 1 0)) x)).
  rewrite (rsum_ext (h_nv V) (fun j => h_v V j ^ 2 * h_speed V j * fst (gf (h_L V) (h_M V) (fun i => dfdy G f x y i j) 1 1)) (fun j => h_v V j ^ 2 * h_speed V j * rder (g_ky G) (g_ny G) (g_dy G) (fun q => fst (gf (h_L V) (h_M V) (fun i => f x q i j) 1 1)) y)).
  - ring.
  - intros j _. f_equal. unfold dfdy. rewrite (gf_dax (h_L V) (h_M V) (g_ky G) (g_ny G) (g_dy G) (fun y' i => f x y' i j)) by auto. apply (fst_dax (g_ky G) (g_ny G) (g_dy G) (fun q => gf (h_L V) (h_M V) (fun i => f x q i j) 1 1)); auto. lra.
  - intros j _. f_equal. unfold dfdx. rewrite (gf_dax (h_L V) (h_M V) (g_kx G) (g_nx G) (g_dx G) (fun x' i => f x' y i j)) by auto. apply (fst_dax (g_kx G) (g_nx G) (g_dx G) (fun q => gf (h_L V) (h_M V) (fun i => f q y i j) 1 0)); auto; [lra|].
    right. intros q _. apply real0_gf. apply HR.
Qed.
(** The Gauss residual: divergence of E minus the charge, ions of density n0 minus electrons. *)
Definition gauss (G : grid2) (V : vspace) (n0 : fld) (s : state2) : fld := fun x y => div G (s_e s) x y - (n0 x y - dens V (s_f s) x y).
Lemma gauss_rate G V c2 ee eb dr s x y : ok_grid G -> ok_steps G -> ok_speed V -> cell G x y -> real_deriv (g_ky G) (g_ny G) -> real_state V (s_f s) ->
  gauss G V (fun _ _ => 0) (vm_rhs G V c2 ee eb dr s) x y = leak V (vadd (s_e s x y) (ee x y)) (s_f s x y) - div G dr x y.
Proof.
  intros HG Hs HV HC Hr HR. unfold gauss, vm_rhs. cbn [s_e s_f]. rewrite dens_rate by auto. fold (fadd (s_e s) ee).
  replace (div G (maxwell_e G c2 (s_b s) (fadd (curr V (-1) (s_f s)) dr)) x y) with (- div G (curr V (-1) (s_f s)) x y - div G dr x y).
  - rewrite div_curr by auto. unfold fadd. ring.
  - transitivity (div G (fadd (fscal c2 (curl G (s_b s))) (fscal (-1) (fadd (fscal 1 (curr V (-1) (s_f s))) (fscal 1 dr)))) x y).
    + rewrite div_lin, div_lin, div_curl by auto. ring.
    + apply div_ext; auto. intros. apply vec3_eq; unfold maxwell_e, fadd, fscal, vadd, vscal, v_x, v_y, v_z; cbn [fst snd]; ring.
Qed.
Lemma gauss_axpy G V n0 s r k x y : ok_grid G -> cell G x y -> gauss G V n0 (axpy s r k) x y = gauss G V n0 s x y + r * gauss G V (fun _ _ => 0) k x y.
Proof.
  intros HG HC. unfold gauss, axpy. cbn [s_e s_f].
  replace (div G (fadd (s_e s) (fscal r (s_e k))) x y) with (div G (s_e s) x y + r * div G (s_e k) x y).
  - unfold dens. rewrite (density2_lin (h_L V) (h_M V) (h_nv V) (h_v V) (h_dv V) r (s_f s x y) (s_f k x y)). ring.
  - transitivity (div G (fadd (fscal 1 (s_e s)) (fscal r (s_e k))) x y); [rewrite div_lin by auto; ring|]. apply div_ext; auto. intros. apply vec3_eq; unfold fadd, fscal, vadd, vscal, v_x, v_y, v_z; cbn [fst snd]; ring.
Qed.
(** The state at the middle of the collisionless part of a step that started from [s0]. *)
Definition half (G : grid2) (V : vspace) (c2 dt : R) (ee eb dr : R -> vfld) (t : R) (s0 : state2) : state2 := axpy s0 (1 / 2 * dt) (vm_rhs G V c2 (ee t) (eb t) (dr t) s0).
Lemma real_half G V c2 dt ee eb dr t s0 : real_state V (s_f s0) -> real_state V (s_f (half G V c2 dt ee eb dr t s0)).
Proof.
  intros H x y j i Hi Hm. unfold half, axpy, vm_rhs. cbn [s_f]. unfold cadd, cscal. cbn [snd]. rewrite (H x y j i Hi Hm).
  unfold vlasov2. rewrite (C77_real (h_L V) (h_M V) (h_nv V) (h_dv V) (h_v V) (h_speed V)) by auto. ring.
Qed.
(** One step changes the Gauss residual at every cell by the leak at the top speed and the divergence of the driver current only:
    any collision step that conserves density, finite differences or an odd number of cells along y. *)
Theorem C80_gauss : forall G V c2 dt ee eb dr coll t s n0 x y, ok_grid G -> ok_steps G -> ok_speed V -> cell G x y -> real_deriv (g_ky G) (g_ny G) ->
  (forall t h f x y, dens V (coll t h f) x y = dens V f x y) -> (forall t h f, real_state V f -> real_state V (coll t h f)) -> real_state V (s_f s) ->
  let s0 := {| s_f := coll t (1 / 2 * dt) (s_f s); s_e := s_e s; s_b := s_b s |} in
  let m := half G V c2 dt ee eb dr t s0 in
  gauss G V n0 (split_step G V c2 dt ee eb dr coll t s) x y =
  gauss G V n0 s x y + dt * (leak V (vadd (s_e m x y) (ee (t + 1 / 2 * dt) x y)) (s_f m x y) - div G (dr (t + 1 / 2 * dt)) x y).
Proof.
  intros G V c2 dt ee eb dr coll t s n0 x y HG Hs HV HC Hr HD HRe HR s0 m. unfold split_step. cbv zeta. fold s0. fold (half G V c2 dt ee eb dr t s0). fold m.
  unfold gauss at 1. cbn [s_f s_e]. rewrite HD. fold (gauss G V n0 (axpy s0 dt (vm_rhs G V c2 (ee (t + 1 / 2 * dt)) (eb (t + 1 / 2 * dt)) (dr (t + 1 / 2 * dt)) m)) x y).
  rewrite gauss_axpy, gauss_rate; auto; [|apply real_half; unfold s0; cbn [s_f]; apply HRe, HR].
  f_equal. unfold gauss, s0. cbn [s_e s_f]. now rewrite HD.
Qed.
Print Assumptions C80_gauss.
Lemma div_e G V c2 b f dr x y : ok_grid G -> cell G x y -> div G (maxwell_e G c2 b (fadd (curr V (-1) f) dr)) x y = - div G (curr V (-1) f) x y - div G dr x y.
Proof.
  intros HG HC. transitivity (div G (fadd (fscal c2 (curl G b)) (fscal (-1) (fadd (fscal 1 (curr V (-1) f)) (fscal 1 dr)))) x y).
  - apply div_ext; auto. intros. apply vec3_eq; unfold maxwell_e, fadd, fscal, vadd, vscal, v_x, v_y, v_z; cbn [fst snd]; ring.
  - rewrite div_lin, div_lin, div_curl by auto. ring.
Qed.
Definition zvec : vfld := fun _ _ => (0, 0, 0).
Definition bad_G : grid2 := {| g_nx := 1; g_ny := 2; g_dx := 1; g_dy := 1; g_kx := Spectral; g_ky := Spectral |}.
Definition bad_V : vspace := {| h_L := 1; h_M := 1; h_nv := 1; h_dv := 1; h_v := fun j => (INR j + 1 / 2) * 1; h_speed := fun j => (INR j + 1 / 2) * 1 |}.
Definition bad_f : dst := fun x y i j => if (i =? 2)%nat then (if (y =? 0)%nat then (0, 1) else (0, -1)) else c0.
Lemma bad_deriv : fst (dspec 2 1 (fun q => if (q =? 0)%nat then (0, 1) else (0, -1)) 0) = PI.
Proof.
  unfold dspec, ifft, cfft, kx. cbn [csum]. cbn [Nat.ltb Nat.leb Nat.mul Nat.add Nat.eqb].
  assert (A : forall k, angle 2 k 0 = 0) by (intros; unfold angle; change (INR 0) with 0; unfold Rdiv; ring). assert (B : angle 2 0 1 = 0) by (unfold angle; change (INR 0) with 0; unfold Rdiv; ring). assert (C : angle 2 1 1 = PI) by (unfold angle; change (INR 2) with 2; change (INR 1) with 1; field).
  rewrite !A, B, C, Ropp_0. change (INR 0) with 0. change (INR 1) with 1. change (INR 2) with 2. rewrite cis_0, cis_neg. unfold cis. rewrite cos_PI, sin_PI. unfold conj, cadd, cscal, cmul, c0, c1. cbn [fst snd]. field.
Qed.
(** On an even number of cells the spectral derivative along y breaks Gauss's law: an alternating imaginary part of the (1, 1) harmonic
    makes charge appear without any current along x or y. *)
Theorem C80_gauss_even_refuted : ~ (forall G V c2 s x y, ok_grid G -> ok_steps G -> ok_speed V -> cell G x y -> g_ky G = Spectral -> real_state V (s_f s) ->
  gauss G V (fun _ _ => 0) (vm_rhs G V c2 zvec zvec zvec s) x y = leak V (s_e s x y) (s_f s x y)).
Proof.
  intros H. set (s := {| s_f := bad_f; s_e := zvec; s_b := zvec |}).
  assert (HG : ok_grid bad_G) by (split; split; cbn; auto; lia). assert (HC : cell bad_G 0 0) by (split; cbn; lia).
  assert (HV : ok_speed bad_V) by (split; [cbn; lia|split; [cbn; lra|intros j; reflexivity]]).
  assert (HR : real_state bad_V (s_f s)).
  { intros x y j i Hi Hm. cbn [h_L h_M bad_V] in *. change (size 1 1) with 3%nat in Hi. unfold s. cbn [s_f]. unfold bad_f. destruct i as [|[|[|i]]]; try lia; cbn in Hm; try discriminate; reflexivity. }
  specialize (H bad_G bad_V 1 s 0%nat 0%nat HG ltac:(split; cbn; lra) HV HC eq_refl HR).
  unfold gauss, vm_rhs in H. cbn [s_e s_f] in H. rewrite div_e, dens_rate in H by auto.
  assert (L0 : forall e, e = (0, 0, 0) -> leak bad_V e (s_f s 0%nat 0%nat) = 0). { intros e ->. unfold leak, vdot, v_x, v_y, v_z. cbn [fst snd]. ring. }
  rewrite !L0 in H by (try reflexivity; apply vec3_eq; unfold fadd, vadd, s; cbn [s_e]; unfold zvec, v_x, v_y, v_z; cbn [fst snd]; ring).
  assert (Z : forall a, (forall x y, fx a x y = 0) -> (forall x y, fy a x y = 0) -> div bad_G a 0%nat 0%nat = 0).
  { intros a Hx Hy. unfold div, ddx, ddy. destruct HG as [GX GY]. rewrite !rder_mat by (auto; cbn; lia). rewrite (rsum_ext (g_nx bad_G) _ (fun _ => 0)) by (intros; rewrite Hx; ring). rewrite (rsum_ext (g_ny bad_G) _ (fun _ => 0)) by (intros; rewrite Hy; ring). rewrite !rsum_zero. ring. }
  rewrite (Z zvec) in H by reflexivity. rewrite (Z (curr bad_V (-1) (s_f s))) in H.
  - rewrite cur_x, cur_y in H. cbn [h_L h_M h_nv h_v h_dv h_speed bad_V rsum] in H.
    assert (I10 : forall q, gf 1 1 q 1 0 = q 1%nat) by (intros; reflexivity). assert (I11 : forall q, gf 1 1 q 1 1 = q 2%nat) by (intros; reflexivity).
    rewrite I10, I11 in H. unfold dfdx, dfdy in H. cbn [g_kx g_ky g_nx g_ny g_dx g_dy bad_G dax s_f s] in H.
    replace (dspec 1 1 (fun x' => bad_f x' 0%nat 1%nat 0%nat) 0) with c0 in H.
    + replace (fst (dspec 2 1 (fun y' => bad_f 0%nat y' 2%nat 0%nat) 0)) with PI in H by (symmetry; exact bad_deriv). unfold c0 in H. cbn [fst snd] in H. change (INR 0) with 0 in H.
      pose proof PI_RGT_0. nra.
    + symmetry. apply (dax_zero Spectral 1 1 0); [split; auto; lia|lia].
  - intros x y. unfold fx, curr. rewrite cur_x. rewrite (rsum_ext _ _ (fun _ => 0)); [rewrite rsum_zero; ring|]. intros j _.
    change (gf (h_L bad_V) (h_M bad_V) (fun i => s_f s x y i j) 1 0) with c0. cbn [fst c0]. ring.
  - intros x y. unfold fy, curr. rewrite cur_y. rewrite (rsum_ext _ _ (fun _ => 0)); [rewrite rsum_zero; ring|]. intros j _.
    change (gf (h_L bad_V) (h_M bad_V) (fun i => s_f s x y i j) 1 1) with (if (y =? 0)%nat then (0, 1) else (0, -1)). destruct (y =? 0)%nat; cbn [fst]; ring.
Qed.
Print Assumptions C80_gauss_even_refuted.
(** Non-vacuity: the grid of the counterexample with one more cell along y meets every hypothesis of C80_gauss, with a current. *)
Example C80_gauss_nonvacuous : exists G, ok_grid G /\ ok_steps G /\ cell G 0 2 /\ real_deriv (g_ky G) (g_ny G) /\ ok_speed bad_V /\ real_state bad_V bad_f /\ ok_grid bad_G /\ ~ real_deriv (g_ky bad_G) (g_ny bad_G).
Proof.
  exists {| g_nx := 1; g_ny := 3; g_dx := 1; g_dy := 1; g_kx := Spectral; g_ky := Spectral |}. repeat split; cbn; auto; try lra; try lia; try discriminate.
  intros x y j i Hi Hm. cbn [h_L h_M bad_V] in *. change (size 1 1) with 3%nat in Hi. unfold bad_f. destruct i as [|[|[|i]]]; try lia; cbn in Hm; try discriminate; reflexivity.
Qed.

(** ** The initial field *)
Definition mir (n k : nat) : nat := if (k =? 0)%nat then 0%nat else (n - k)%nat.
Lemma csum_mir n f : (0 < n)%nat -> csum n f = csum n (fun k => f (mir n k)).
Proof. intros Hn. rewrite csum_mirror by auto. apply csum_ext. intros k _. unfold mir. destruct (k =? 0)%nat; reflexivity. Qed.
Lemma cis_mir n k g : (k < n)%nat -> cis (angle n (mir n k) g) = conj (cis (angle n k g)).
Proof.
  intros Hk. unfold mir. destruct (Nat.eqb_spec k 0) as [->|].
  - replace (angle n 0 g) with 0 by (unfold angle; change (INR 0) with 0; unfold Rdiv; ring). rewrite cis_0. unfold conj, c1. cbn [fst snd]. now rewrite Ropp_0.
  - rewrite cis_mirror by lia. apply cis_neg.
Qed.
Lemma mir_mir n k : (k < n)%nat -> mir n (mir n k) = k.
Proof. intros H. unfold mir. destruct (Nat.eqb_spec k 0) as [->|]; [reflexivity|]. destruct (Nat.eqb_spec (n - k) 0); lia. Qed.
Lemma mir_lt n k : (k < n)%nat -> (mir n k < n)%nat.
Proof. intros H. unfold mir. destruct (Nat.eqb_spec k 0); lia. Qed.
Lemma ifft2_sum nx ny X x y : ifft2 nx ny X x y = cscal (/ INR nx * / INR ny) (csum nx (fun k => csum ny (fun l => cmul (X k l) (cmul (cis (angle nx k x)) (cis (angle ny l y)))))).
Proof.
  unfold ifft2, ifft. rewrite !cscal_mul. replace (/ INR nx * / INR ny, 0) with (cmul (/ INR nx, 0) (/ INR ny, 0)) by cy.
  rewrite (csum_ext nx _ (fun k => cmul (/ INR ny, 0) (csum ny (fun l => cmul (X k l) (cmul (cis (angle nx k x)) (cis (angle ny l y))))))).
  - rewrite csum_mul. ring.
  - intros k _. rewrite cscal_mul. rewrite (csum_ext ny (fun l => cmul (X k l) (cmul (cis (angle nx k x)) (cis (angle ny l y)))) (fun l => cmul (cis (angle nx k x)) (cmul (X k l) (cis (angle ny l y))))) by (intros; ring).
    rewrite csum_mul. ring.
Qed.
Lemma ifft2_real nx ny X x y : (0 < nx)%nat -> (0 < ny)%nat -> (forall k l, (k < nx)%nat -> (l < ny)%nat -> X (mir nx k) (mir ny l) = conj (X k l)) -> snd (ifft2 nx ny X x y) = 0.
Proof.
  intros Hx Hy H. rewrite ifft2_sum. set (S := csum nx _). assert (E : conj S = S).
  { unfold S. rewrite csum_conj. rewrite (csum_mir nx (fun k => csum ny (fun l => cmul (X k l) (cmul (cis (angle nx k x)) (cis (angle ny l y)))))) by auto.
    apply csum_ext. intros k Hk. rewrite csum_conj. rewrite (csum_mir ny (fun l => cmul (X (mir nx k) l) (cmul (cis (angle nx (mir nx k) x)) (cis (angle ny l y))))) by auto. apply csum_ext. intros l Hl. rewrite H, !cis_mir, !conj_mul by auto. rewrite ?mir_mir by auto. rewrite ?conj_conj. reflexivity. }
  apply (f_equal snd) in E. unfold conj in E. cbn [snd] in E. unfold cscal. cbn [snd]. assert (snd S = 0) by lra. rewrite H0. ring.
Qed.
Lemma fft2_sum nx ny a k l : fft2 nx ny a k l = csum nx (fun x => csum ny (fun y => cmul (a x y) (cmul (cis (- angle nx k x)) (cis (- angle ny l y))))).
Proof. unfold fft2, cfft. apply csum_ext. intros x _. rewrite <- csum_mul_r. apply csum_ext. intros. ring. Qed.
Lemma fft2_mir nx ny a k l : (k < nx)%nat -> (l < ny)%nat -> (forall x y, snd (a x y) = 0) -> fft2 nx ny a (mir nx k) (mir ny l) = conj (fft2 nx ny a k l).
Proof.
  intros Hk Hl Ha. rewrite !fft2_sum, csum_conj. apply csum_ext. intros x _. rewrite csum_conj. apply csum_ext. intros y _.
  rewrite !cis_neg, !cis_mir by auto. rewrite !conj_mul. f_equal. unfold conj. cbn [fst snd]. apply cplx_eq; cbn [fst snd]; [reflexivity|]. rewrite Ha. ring.
Qed.
Lemma cfft_ext n a b k : (forall g, (g < n)%nat -> a g = b g) -> cfft n a k = cfft n b k.
Proof. intros E. unfold cfft. apply csum_ext. intros g Hg. now rewrite E. Qed.
Lemma ifft2_fft2 nx ny a x y : (x < nx)%nat -> (y < ny)%nat -> ifft2 nx ny (fft2 nx ny a) x y = a x y.
Proof.
  intros Hx Hy. unfold ifft2.
  rewrite (ifft_ext nx _ (cfft nx (fun x => a x y))); [now rewrite (ifft_cfft nx (fun x => a x y))|]. intros k Hk. unfold fft2.
  transitivity (ifft ny (fun l => cfft ny (fun y => cfft nx (fun x => a x y) k) l) y); [|exact (ifft_cfft ny (fun y => cfft nx (fun x => a x y) k) y Hy)].
  apply ifft_ext. intros l Hl. change (cfft nx (fun x0 => cfft ny (fun y0 => a x0 y0) l) k) with (fft2 nx ny a k l). rewrite fft2_sum. unfold cfft. rewrite csum_swap. apply csum_ext. intros q _. rewrite <- csum_mul_r. apply csum_ext. intros; ring.
Qed.
Lemma ifft2_swap nx ny X x y : ifft2 nx ny X x y = ifft ny (fun l => ifft nx (fun k => X k l) x) y.
Proof.
  rewrite ifft2_sum. transitivity (ifft2 ny nx (fun l k => X k l) y x); [|reflexivity]. rewrite ifft2_sum, csum_swap. f_equal; [ring|]. apply csum_ext. intros l _. apply csum_ext. intros k _. f_equal. ring.
Qed.
Lemma ifft2_ext nx ny X Y x y : (forall k l, (k < nx)%nat -> (l < ny)%nat -> X k l = Y k l) -> ifft2 nx ny X x y = ifft2 nx ny Y x y.
Proof. intros E. rewrite !ifft2_sum. f_equal. apply csum_ext. intros k Hk. apply csum_ext. intros l Hl. now rewrite E. Qed.
Lemma dspec_ext n h a b g : (g < n)%nat -> (forall q, (q < n)%nat -> a q = b q) -> dspec n h a g = dspec n h b g.
Proof. intros Hg E. unfold dspec. apply ifft_ext. intros k Hk. f_equal. now apply cfft_ext. Qed.
Lemma dspec_ifft n h Y g : (g < n)%nat -> dspec n h (ifft n Y) g = ifft n (fun k => cmul (0, kx n h k) (Y k)) g.
Proof. intros Hg. unfold dspec. apply ifft_ext. intros k Hk. now rewrite cfft_ifft. Qed.
Lemma kx_mir n h k : h <> 0 -> (k < n)%nat -> (2 * k <> n)%nat -> kx n h (mir n k) = - kx n h k.
Proof. intros Hh Hk H2. unfold mir. destruct (Nat.eqb_spec k 0) as [->|]; [rewrite kx_0; ring|]. apply kx_mirror; auto. lia. Qed.
Lemma kx_mir_sq n h k : h <> 0 -> (k < n)%nat -> kx n h (mir n k) ^ 2 = kx n h k ^ 2.
Proof.
  intros Hh Hk. destruct (Nat.eq_dec (2 * k) n) as [E|E]; [|rewrite kx_mir by auto; ring].
  replace (mir n k) with k; [reflexivity|]. unfold mir. destruct (Nat.eqb_spec k 0); lia.
Qed.
Lemma pow2_gt_0 a : a <> 0 -> 0 < a ^ 2.
Proof. intros H. pose proof (Rsqr_pos_lt a H). unfold Rsqr in *. lra. Qed.
(** The initial field: its divergence, with the solver's own spectral derivatives, is the charge density minus its
    mean, for every charge density without content at half the sampling rate, and it has no curl. *)
Theorem C80_poisson : forall nx ny dx dy rho x y, (0 < nx)%nat -> (0 < ny)%nat -> 0 < dx -> 0 < dy ->
  (forall k l, (k < nx)%nat -> (l < ny)%nat -> (2 * k = nx \/ 2 * l = ny)%nat -> fft2 nx ny (fun x y => (rho x y, 0)) k l = c0) ->
  (x < nx)%nat -> (y < ny)%nat ->
  let G := {| g_nx := nx; g_ny := ny; g_dx := dx; g_dy := dy; g_kx := Spectral; g_ky := Spectral |} in
  let E := poisson2 nx ny dx dy rho in
  div G E x y = rho x y - plane_sum G rho / (INR nx * INR ny) /\ fz E x y = 0 /\ curl G E x y = (0, 0, 0).
Proof.
  intros nx ny dx dy rho x y Hx Hy Dx Dy HN Cx Cy G E.
  set (rh := fft2 nx ny (fun x y => (rho x y, 0))) in *. set (phi := fun k l => cscal (inv_k2 nx ny dx dy k l) (rh k l)).
  set (X1 := fun k l => cmul (0, - kx nx dx k) (phi k l)). set (X2 := fun k l => cmul (0, - kx ny dy l) (phi k l)).
  assert (P : forall k l, (k < nx)%nat -> (l < ny)%nat -> phi (mir nx k) (mir ny l) = conj (phi k l)).
  { intros k l Hk Hl. unfold phi, rh. rewrite fft2_mir by auto. replace (inv_k2 nx ny dx dy (mir nx k) (mir ny l)) with (inv_k2 nx ny dx dy k l); [unfold conj; cy|].
    unfold inv_k2. now rewrite !kx_mir_sq by (auto; lra). }
  assert (PN : forall k l, (k < nx)%nat -> (l < ny)%nat -> (2 * k = nx \/ 2 * l = ny)%nat -> phi k l = c0) by (intros k l Hk Hl H; unfold phi; rewrite HN by auto; cy).
  assert (R1 : forall x y, snd (ifft2 nx ny X1 x y) = 0).
  { intros a b. apply ifft2_real; auto. intros k l Hk Hl. unfold X1. rewrite P, conj_mul by auto. destruct (Nat.eq_dec (2 * k) nx) as [N|N].
    - rewrite (PN k l) by auto. unfold conj. cy.
    - rewrite kx_mir by (auto; lra). unfold conj. cy. }
  assert (R2 : forall x y, snd (ifft2 nx ny X2 x y) = 0).
  { intros a b. apply ifft2_real; auto. intros k l Hk Hl. unfold X2. rewrite P, conj_mul by auto. destruct (Nat.eq_dec (2 * l) ny) as [N|N].
    - rewrite (PN k l) by auto. unfold conj. cy.
    - rewrite kx_mir by (auto; lra). unfold conj. cy. }
  assert (S : forall X a b, snd (ifft2 nx ny X a b) = 0 -> (fst (ifft2 nx ny X a b), 0) = ifft2 nx ny X a b) by (intros X a b H; apply cplx_eq; cbn [fst snd]; auto).
  assert (EX : fx E = fun x y => fst (ifft2 nx ny X1 x y)) by reflexivity. assert (EY : fy E = fun x y => fst (ifft2 nx ny X2 x y)) by reflexivity.
  assert (DX : forall X a b, (a < nx)%nat -> (forall x y, snd (ifft2 nx ny X x y) = 0) -> ddx G (fun x y => fst (ifft2 nx ny X x y)) a b = fst (ifft2 nx ny (fun k l => cmul (0, kx nx dx k) (X k l)) a b)).
  { intros X a b Ha HR. unfold ddx, rder. cbn [g_kx g_nx g_dx G dax]. f_equal.
    rewrite (dspec_ext nx dx _ (ifft nx (fun k => ifft ny (X k) b))) by (auto; intros q _; unfold emb; now apply S). rewrite dspec_ifft by auto. unfold ifft2. apply ifft_ext. intros k _. unfold ifft.
    rewrite !cscal_mul. rewrite (csum_ext ny (fun k0 => cmul (cmul (0, kx nx dx k) (X k k0)) (cis (angle ny k0 b))) (fun k0 => cmul (0, kx nx dx k) (cmul (X k k0) (cis (angle ny k0 b))))) by (intros; ring). rewrite csum_mul. ring. }
  assert (DY : forall X a b, (b < ny)%nat -> (forall x y, snd (ifft2 nx ny X x y) = 0) -> ddy G (fun x y => fst (ifft2 nx ny X x y)) a b = fst (ifft2 nx ny (fun k l => cmul (0, kx ny dy l) (X k l)) a b)).
  { intros X a b Hb HR. unfold ddy, rder. cbn [g_ky g_ny g_dy G dax]. f_equal.
    rewrite (dspec_ext ny dy _ (ifft ny (fun l => ifft nx (fun k => X k l) a))) by (auto; intros q _; unfold emb; rewrite S by auto; apply ifft2_swap). rewrite dspec_ifft by auto. rewrite ifft2_swap. apply ifft_ext. intros l _. unfold ifft.
    rewrite !cscal_mul. rewrite (csum_ext nx (fun k => cmul (cmul (0, kx ny dy l) (X k l)) (cis (angle nx k a))) (fun k => cmul (0, kx ny dy l) (cmul (X k l) (cis (angle nx k a))))) by (intros; ring). rewrite csum_mul. ring. }
  split; [|split; [reflexivity|]].
  - unfold div. rewrite EX, EY, DX, DY by auto.
    pose (delta := fun k l : nat => if ((k =? 0) && (l =? 0))%nat%bool then rh 0%nat 0%nat else c0).
    transitivity (fst (ifft2 nx ny rh x y) - fst (ifft2 nx ny delta x y)).
    + rewrite !ifft2_sum. unfold cscal. cbn [fst]. rewrite <- !Rmult_minus_distr_l, <- Rmult_plus_distr_l. f_equal. rewrite !csum_fst, <- rsum_plus, <- rsum_minus. apply rsum_ext. intros k Hk. rewrite !csum_fst, <- rsum_plus, <- rsum_minus. apply rsum_ext. intros l Hl.
      assert (Q : cadd (cmul (0, kx nx dx k) (X1 k l)) (cmul (0, kx ny dy l) (X2 k l)) = csub (rh k l) (delta k l)).
      { unfold X1, X2, phi, inv_k2, delta. cbv zeta. destruct (Nat.eqb_spec k 0) as [->|Hk0]; [destruct (Nat.eqb_spec l 0) as [->|Hl0]|]; cbn [andb].
        - rewrite !kx_0. cy.
        - pose proof (kx_nonzero ny dy l ltac:(lra) ltac:(lia)) as NZ. rewrite kx_0. destruct Rlt_dec as [L|L]; [|exfalso; apply L; pose proof (pow2_gt_0 (kx ny dy l) NZ); nra]. apply cplx_eq; unfold csub, cneg; unfold cadd, cmul, cscal, c0; cbn [fst snd]; field; auto.
        - pose proof (kx_nonzero nx dx k ltac:(lra) ltac:(lia)) as NZ. assert (L0 : 0 < kx nx dx k ^ 2 + kx ny dy l ^ 2) by (pose proof (pow2_gt_0 (kx nx dx k) NZ); pose proof (pow2_ge_0 (kx ny dy l)); lra). destruct Rlt_dec as [L|L]; [|exfalso; apply L; exact L0].
          apply cplx_eq; unfold csub, cneg; unfold cadd, cmul, cscal, c0; cbn [fst snd]; field; lra. }
      set (w := cmul (cis (angle nx k x)) (cis (angle ny l y))). apply (f_equal (fun q => fst (cmul q w))) in Q. 
      revert Q. generalize (cmul (0, kx nx dx k) (X1 k l)) (cmul (0, kx ny dy l) (X2 k l)) (rh k l) (delta k l). intros q1 q2 q3 q4. unfold csub, cneg; unfold cadd, cmul. cbn [fst snd]. intros Q. lra.
    + unfold rh at 1. rewrite ifft2_fft2 by auto. cbn [fst]. f_equal.
      rewrite ifft2_sum. rewrite (csum_single nx 0); auto.
      2:{ intros k Hk Hk0. rewrite (csum_ext ny _ (fun _ => c0)); [apply csum_zero|]. intros l _. unfold delta. destruct (Nat.eqb_spec k 0); [lia|]. cbn [andb]. cy. }
      rewrite (csum_single ny 0); auto.
      2:{ intros l Hl Hl0. unfold delta. destruct (Nat.eqb_spec l 0); [lia|]. cbn [Nat.eqb andb]. cy. }
      unfold delta. cbn [Nat.eqb andb]. replace (angle nx 0 x) with 0 by (unfold angle; change (INR 0) with 0; unfold Rdiv; ring). replace (angle ny 0 y) with 0 by (unfold angle; change (INR 0) with 0; unfold Rdiv; ring).
      rewrite cis_0. unfold rh. rewrite fft2_sum. 
      rewrite (csum_ext nx _ (fun x => csum ny (fun y => (rho x y, 0)))).
      2:{ intros a _. apply csum_ext. intros b _. replace (- angle nx 0 a) with 0 by (unfold angle; change (INR 0) with 0; unfold Rdiv; ring). replace (- angle ny 0 b) with 0 by (unfold angle; change (INR 0) with 0; unfold Rdiv; ring). rewrite cis_0. ring. }
      unfold cscal, cmul, c1. cbn [fst snd]. rewrite csum_fst. rewrite (rsum_ext nx _ (fun a => rsum ny (fun b => rho a b))) by (intros; rewrite csum_fst; reflexivity).
      unfold plane_sum. cbn [g_nx g_ny G]. field. split; apply not_0_INR; lia.
  - unfold curl. assert (FZ : fz E = fun _ _ => 0) by reflexivity. rewrite FZ.
    assert (OKx : ok_kind Spectral nx) by (split; auto). assert (OKy : ok_kind Spectral ny) by (split; auto).
    assert (ZX : ddx G (fun _ _ => 0) x y = 0) by (unfold ddx; cbn [g_kx g_nx g_dx G]; rewrite rder_mat by auto; rewrite (rsum_ext nx _ (fun _ => 0)) by (intros; ring); apply rsum_zero).
    assert (ZY : ddy G (fun _ _ => 0) x y = 0) by (unfold ddy; cbn [g_ky g_ny g_dy G]; rewrite rder_mat by auto; rewrite (rsum_ext ny _ (fun _ => 0)) by (intros; ring); apply rsum_zero).
    rewrite ZX, ZY, EX, EY, DX, DY by auto.
    replace (ifft2 nx ny (fun k l => cmul (0, kx nx dx k) (X2 k l)) x y) with (ifft2 nx ny (fun k l => cmul (0, kx ny dy l) (X1 k l)) x y) by (apply ifft2_ext; intros; unfold X1, X2; cy).
    apply vec3_eq; unfold v_x, v_y, v_z; cbn [fst snd]; ring.
Qed.
Print Assumptions C80_poisson.
(** Non-vacuity: with odd cell counts the hypothesis holds for every charge density; the field of a single charged cell does not vanish. *)
Example C80_poisson_nonvacuous : forall rho k l, (k < 3)%nat -> (l < 5)%nat -> (2 * k = 3 \/ 2 * l = 5)%nat -> fft2 3 5 (fun x y => (rho x y, 0)) k l = c0.
Proof. intros. lia. Qed.
Example C80_poisson_nonzero : ~ (forall x y, (x < 3)%nat -> (y < 5)%nat -> poisson2 3 5 1 1 (fun x y => if ((x =? 0) && (y =? 0))%nat%bool then 1 else 0) x y = (0, 0, 0)).
Proof.
  intros H. pose proof (C80_poisson 3 5 1 1 (fun x y => if ((x =? 0) && (y =? 0))%nat%bool then 1 else 0) 0 0 ltac:(lia) ltac:(lia) ltac:(lra) ltac:(lra) ltac:(intros; lia) ltac:(lia) ltac:(lia)) as (D & _).
  set (G := {| g_nx := 3 |}) in D. set (E := poisson2 _ _ _ _ _) in *.
  rewrite (div_ext G E (fun _ _ => (0, 0, 0)) 0 0) in D; [|split; split; cbn; auto; lia|split; cbn; lia|intros a b [Ca Cb]; now apply H].
  unfold plane_sum in D. cbn in D. assert (OK : ok_grid G) by (split; split; cbn; auto; lia). destruct OK as [O1 O2].
  unfold div, ddx, ddy in D. rewrite !rder_mat in D by (auto; cbn; lia). unfold fx, fy, v_x, v_y in D. cbn [fst snd] in D.
  rewrite (rsum_ext (g_nx G) _ (fun _ => 0)) in D by (intros; ring). rewrite (rsum_ext (g_ny G) _ (fun _ => 0)) in D by (intros; ring). rewrite !rsum_zero in D. lra.
Qed.
