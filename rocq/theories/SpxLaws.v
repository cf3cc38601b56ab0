(** Property C86, continued: conservation laws along every solution of the Hermite-Fourier Vlasov-Maxwell system. *)
From Coq Require Import Reals Lra Lia ZArith List Bool Psatz.
From Verif Require Import Spectrax SpxProps RSum Pic PicProofs PicFourier Dft HPProps.
Local Open Scope R_scope.
Local Open Scope cx_scope.

(* ------------------------------------------------------------------------------------------------ *)
(** * Transforms *)
Lemma ffwd_ext n f h k : (forall g, (g < n)%nat -> f g = h g) -> ffwd n f k = ffwd n h k.
Proof. intros H. unfold ffwd, cfft. f_equal. apply csum_ext. intros. rewrite H by assumption. reflexivity. Qed.
Lemma finv_ext n f h k : (forall g, (g < n)%nat -> f g = h g) -> finv n f k = finv n h k.
Proof. intros H. unfold finv. apply csum_ext. intros. rewrite H by assumption. reflexivity. Qed.
Lemma ffwd_lin n r s f h k : ffwd n (fun g => r *c f g +c s *c h g) k = r *c ffwd n f k +c s *c ffwd n h k.
Proof.
  unfold ffwd, cfft. rewrite (csum_ext n _ (fun g => cadd (cscal r (cmul (f g) (cis (- angle n k g)))) (cscal s (cmul (h g) (cis (- angle n k g)))))) by (intros; creal).
  rewrite csum_add, !csum_scal. creal.
Qed.
Lemma finv_lin n r s f h k : finv n (fun g => r *c f g +c s *c h g) k = r *c finv n f k +c s *c finv n h k.
Proof.
  unfold finv. rewrite (csum_ext n _ (fun g => cadd (cscal r (cmul (f g) (cis (angle n g k)))) (cscal s (cmul (h g) (cis (angle n g k)))))) by (intros; creal).
  rewrite csum_add, !csum_scal. reflexivity.
Qed.
Lemma fwd3_ext g f h y x z : (forall y x z, (y < s_ny g)%nat -> (x < s_nx g)%nat -> (z < s_nz g)%nat -> f y x z = h y x z) -> fwd3 g f y x z = fwd3 g h y x z.
Proof. intros H. unfold fwd3. apply ffwd_ext. intros. apply ffwd_ext. intros. apply ffwd_ext. intros. apply H; assumption. Qed.
Lemma inv3_ext g f h y x z : (forall y x z, (y < s_ny g)%nat -> (x < s_nx g)%nat -> (z < s_nz g)%nat -> f y x z = h y x z) -> inv3 g f y x z = inv3 g h y x z.
Proof. intros H. unfold inv3. apply finv_ext. intros. apply finv_ext. intros. apply finv_ext. intros. apply H; assumption. Qed.
Lemma fwd3_lin g r s f h y x z : fwd3 g (fun y x z => r *c f y x z +c s *c h y x z) y x z = r *c fwd3 g f y x z +c s *c fwd3 g h y x z.
Proof.
  unfold fwd3. rewrite <- ffwd_lin. apply ffwd_ext. intros. rewrite <- ffwd_lin. apply ffwd_ext. intros. apply ffwd_lin.
Qed.
Lemma inv3_lin g r s f h y x z : inv3 g (fun y x z => r *c f y x z +c s *c h y x z) y x z = r *c inv3 g f y x z +c s *c inv3 g h y x z.
Proof.
  unfold inv3. rewrite <- finv_lin. apply finv_ext. intros. rewrite <- finv_lin. apply finv_ext. intros. apply finv_lin.
Qed.
Lemma fwd3_zero g f y x z : (forall y x z, (y < s_ny g)%nat -> (x < s_nx g)%nat -> (z < s_nz g)%nat -> f y x z = c0) -> fwd3 g f y x z = c0.
Proof.
  intros H. rewrite (fwd3_ext g f (fun _ _ _ => 0 *c c0 +c 0 *c c0)) by (intros; rewrite H by assumption; creal).
  rewrite (fwd3_lin g 0 0 (fun _ _ _ => c0) (fun _ _ _ => c0)). creal.
Qed.
Definition csum3 (g : sgrid) (h : afield) : cplx := csum (s_ny g) (fun y => csum (s_nx g) (fun x => csum (s_nz g) (fun z => h y x z))).
Definition rsum3 (g : sgrid) (h : nat -> nat -> nat -> R) : R := rsum (s_ny g) (fun y => rsum (s_nx g) (fun x => rsum (s_nz g) (fun z => h y x z))).
Definition ncell (g : sgrid) : R := INR (s_ny g) * INR (s_nx g) * INR (s_nz g).
Lemma ffwd_0 n f : ffwd n f 0 = (/ INR n) *c csum n f.
Proof.
  unfold ffwd, cfft. f_equal. apply csum_ext. intros. unfold angle. change (INR 0) with 0.
  replace (- (2 * PI * 0 * INR i / INR n)) with 0 by (unfold Rdiv; ring). rewrite cis_0. creal.
Qed.
Definition ok_grid3 (g : sgrid) : Prop := (0 < s_nx g)%nat /\ (0 < s_ny g)%nat /\ (0 < s_nz g)%nat /\ s_lx g <> 0 /\ s_ly g <> 0 /\ s_lz g <> 0.
Lemma fwd3_000 g h : ok_grid3 g -> fwd3 g h 0%nat 0%nat 0%nat = (/ ncell g) *c csum3 g h.
Proof.
  intros (X & Y & Z & _). unfold fwd3. rewrite ffwd_0. unfold csum3. 
  rewrite (csum_ext (s_ny g) _ (fun y => (/ INR (s_nx g) * / INR (s_nz g)) *c csum (s_nx g) (fun x => csum (s_nz g) (fun z => h y x z)))).
  - rewrite csum_scal, cscal_cscal. f_equal. unfold ncell. pose proof (lt_0_INR _ X). pose proof (lt_0_INR _ Y). pose proof (lt_0_INR _ Z). field. lra.
  - intros. rewrite ffwd_0. rewrite (csum_ext (s_nx g) _ (fun x => (/ INR (s_nz g)) *c csum (s_nz g) (fun z => h i x z))) by (intros; apply ffwd_0).
    rewrite csum_scal, cscal_cscal. reflexivity.
Qed.
(** Parseval, one axis and three. *)
Lemma parseval_fwd n A B : (0 < n)%nat -> csum n (fun g => cmul (conj (finv n A g)) (finv n B g)) = (INR n) *c csum n (fun k => cmul (conj (A k)) (B k)).
Proof.
  intros N. unfold finv.
  rewrite (csum_ext n _ (fun g => csum n (fun k => csum n (fun j => cmul (cmul (conj (A k)) (B j)) (cis (angle n j g - angle n k g)))))).
  - rewrite csum_swap. rewrite (csum_ext n _ (fun k => (INR n) *c cmul (conj (A k)) (B k))); [apply csum_scal|].
    intros k K. rewrite csum_swap.
    rewrite (csum_ext n _ (fun j => cmul (cmul (conj (A k)) (B j)) (if (j =? k)%nat then (INR n, 0) else c0))).
    + rewrite (csum_single n k) by (try assumption; intros i I J; rewrite (proj2 (Nat.eqb_neq i k)) by assumption; creal). rewrite Nat.eqb_refl. creal.
    + intros j J. rewrite csum_mul. f_equal. apply char_orth; assumption.
  - intros g G. rewrite csum_conj. rewrite <- csum_mul_r. apply csum_ext. intros k K. rewrite <- csum_mul. apply csum_ext. intros j J.
    rewrite conj_mul, <- cis_neg. unfold Rminus. rewrite cis_add. creal.
Qed.
Lemma csum_ext3 g f h : (forall y x z, (y < s_ny g)%nat -> (x < s_nx g)%nat -> (z < s_nz g)%nat -> f y x z = h y x z) -> csum3 g f = csum3 g h.
Proof. intros H. unfold csum3. apply csum_ext. intros. apply csum_ext. intros. apply csum_ext. intros. apply H; assumption. Qed.
Lemma parseval3 g A B : ok_grid3 g -> csum3 g (fun y x z => cmul (conj (inv3 g A y x z)) (inv3 g B y x z)) = (ncell g) *c csum3 g (fun y x z => cmul (conj (A y x z)) (B y x z)).
Proof.
  intros (X & Y & Z & _). unfold csum3, inv3. set (ny := s_ny g) in *. set (nx := s_nx g) in *. set (nz := s_nz g) in *.
  set (A1 := fun y x z => finv nx (fun x' => finv nz (fun z' => A y x' z') z) x). set (B1 := fun y x z => finv nx (fun x' => finv nz (fun z' => B y x' z') z) x).
  set (A2 := fun y x z => finv nz (fun z' => A y x z') z). set (B2 := fun y x z => finv nz (fun z' => B y x z') z).
  transitivity ((INR ny) *c csum nx (fun x => csum nz (fun z => csum ny (fun y => cmul (conj (A1 y x z)) (B1 y x z))))).
  { rewrite csum_swap, <- csum_scal. apply csum_ext. intros x Hx. rewrite csum_swap, <- csum_scal. apply csum_ext. intros z Hz.
    exact (parseval_fwd ny (fun y => A1 y x z) (fun y => B1 y x z) Y). }
  transitivity ((INR ny) *c csum ny (fun y => csum nz (fun z => csum nx (fun x => cmul (conj (A1 y x z)) (B1 y x z))))).
  { f_equal. rewrite (csum_ext nx _ (fun x => csum ny (fun y => csum nz (fun z => cmul (conj (A1 y x z)) (B1 y x z))))) by (intros; apply csum_swap).
    rewrite csum_swap. apply csum_ext. intros y Hy. apply csum_swap. }
  transitivity ((INR ny * INR nx) *c csum ny (fun y => csum nx (fun x => csum nz (fun z => cmul (conj (A2 y x z)) (B2 y x z))))).
  { rewrite <- cscal_cscal. f_equal. rewrite <- csum_scal. apply csum_ext. intros y Hy. rewrite (csum_swap nx nz), <- csum_scal. apply csum_ext. intros z Hz.
    exact (parseval_fwd nx (fun x => A2 y x z) (fun x => B2 y x z) X). }
  unfold ncell. rewrite <- (cscal_cscal (INR (s_ny g) * INR (s_nx g))). f_equal. rewrite <- csum_scal. apply csum_ext. intros y Hy. rewrite <- csum_scal. apply csum_ext. intros x Hx.
  exact (parseval_fwd nz (fun z => A y x z) (fun z => B y x z) Z).
Qed.

(* ------------------------------------------------------------------------------------------------ *)
(** * Moments are linear and commute with the transforms *)
Definition ix (e : R * (nat * nat * nat)) (C : hco) : cplx := C (fst (fst (snd e))) (snd (fst (snd e))) (snd (snd e)).
Definition lf (l : list (R * (nat * nat * nat))) (C : hco) : cplx := fold_right (fun e acc => fst e *c ix e C +c 1 *c acc) c0 l.
Definition ex1 (i : nat) : nat * nat * nat := match i with O => (0, 0, 1)%nat | 1%nat => (0, 1, 0)%nat | _ => (1, 0, 0)%nat end.
Definition ex2 (i : nat) : nat * nat * nat := match i with O => (0, 0, 2)%nat | 1%nat => (0, 2, 0)%nat | _ => (2, 0, 0)%nat end.
Definition flux_w (a u : nat -> R) (i : nat) : list (R * (nat * nat * nat)) := [(vol3 a * u i, (0, 0, 0)%nat); (vol3 a * (a i / sqrt 2), ex1 i)].
Definition vv_w (a u : nat -> R) (i : nat) : list (R * (nat * nat * nat)) :=
  [(vol3 a * (u i * u i + a i * a i / 2), (0, 0, 0)%nat); (vol3 a * (2 * u i * (a i / sqrt 2)), ex1 i); (vol3 a * (a i * a i / sqrt 2), ex2 i)].
Lemma flux_lf d a u C i : (i < 3)%nat -> flux d a u C i = lf (flux_w a u i) (ext d C).
Proof.
  intros I. unfold flux, lf, flux_w, ix, ex1. destruct i as [|[|[|i]]]; [| | |lia]; rewrite ?vel0_000, ?vel1_000, ?vel2_000; cbn [fst snd fold_right]; creal.
Qed.
Lemma vv_lf d a u C i : (i < 3)%nat -> vv d a u C i i = lf (vv_w a u i) (ext d C).
Proof.
  intros I. pose proof s2_pos as S2. pose proof s2_sq as SS. assert (S' : sqrt 2 <> 0) by lra. unfold vv, lf, vv_w, ix, ex1, ex2.
  destruct i as [|[|[|i]]]; [| | |lia]; rewrite ?vel0_000, ?vel1_000, ?vel2_000, ?vel0_001, ?vel1_010, ?vel2_100; cbn [fst snd fold_right];
  repeat match goal with |- context [ext d C ?p ?m ?n] => let w := fresh "w" in generalize (ext d C p m n); intros w end;
  rewrite ?vel0_000, ?vel1_000, ?vel2_000; unfold vol3; apply cplx_eq; unfold csub, cadd, cmul, cneg, cscal, c0; cbn [fst snd]; field [SS]; auto.
Qed.
Lemma dens_lf d a C : ok_dims d -> dens a C = lf [(vol3 a, (0, 0, 0)%nat)] (ext d C).
Proof. intros (A & B & D). unfold dens, lf, ix. cbn [fold_right fst snd]. rewrite ext_in by (unfold in_dims; auto). creal. Qed.
Lemma lf_add l C D : lf l (fun p m n => C p m n +c D p m n) = lf l C +c lf l D.
Proof. induction l as [|e l IH]; cbn [lf fold_right]; [creal|]. fold (lf l (fun p m n => C p m n +c D p m n)) (lf l C) (lf l D). rewrite IH. unfold ix. creal. Qed.
Lemma lf_scal l r C : lf l (fun p m n => r *c C p m n) = r *c lf l C.
Proof. induction l as [|e l IH]; cbn [lf fold_right]; [creal|]. fold (lf l (fun p m n => r *c C p m n)) (lf l C). rewrite IH. unfold ix. creal. Qed.
Lemma lf_ext l C D : (forall e, In e l -> ix e C = ix e D) -> lf l C = lf l D.
Proof. induction l as [|e l IH]; intros H; cbn [lf fold_right]; [reflexivity|]. fold (lf l C) (lf l D). rewrite IH by (intros; apply H; right; assumption). rewrite (H e) by (left; reflexivity). reflexivity. Qed.
Lemma ext_fwd3 g d h p m n y x z : ext d (fun p m n => fwd3 g (fun y x z => h y x z p m n) y x z) p m n = fwd3 g (fun y x z => ext d (h y x z) p m n) y x z.
Proof. unfold ext. destruct (_ && _)%bool; [reflexivity|]. symmetry. apply fwd3_zero. reflexivity. Qed.
Lemma lf_fwd3 g l d h y x z : fwd3 g (fun y x z => lf l (ext d (h y x z))) y x z = lf l (ext d (fun p m n => fwd3 g (fun y x z => h y x z p m n) y x z)).
Proof.
  induction l as [|e l IH]; cbn [lf fold_right]; [apply fwd3_zero; reflexivity|].
  rewrite (fwd3_lin g (fst e) 1 (fun y x z => ix e (ext d (h y x z))) (fun y x z => lf l (ext d (h y x z)))), IH. unfold ix at 2. rewrite ext_fwd3. reflexivity.
Qed.
Lemma inv3_zero g f y x z : (forall y x z, (y < s_ny g)%nat -> (x < s_nx g)%nat -> (z < s_nz g)%nat -> f y x z = c0) -> inv3 g f y x z = c0.
Proof.
  intros H. rewrite (inv3_ext g f (fun _ _ _ => 0 *c c0 +c 0 *c c0)) by (intros; rewrite H by assumption; creal).
  rewrite (inv3_lin g 0 0 (fun _ _ _ => c0) (fun _ _ _ => c0)). creal.
Qed.
Lemma to_real_lin g r s f h y x z : to_real g (fun y x z => r *c f y x z +c s *c h y x z) y x z = r *c to_real g f y x z +c s *c to_real g h y x z.
Proof. unfold to_real. rewrite <- inv3_lin. apply inv3_ext. intros. unfold keep. destruct (mask3 _ _ _ _); [reflexivity|creal]. Qed.
Lemma to_real_zero g y x z : to_real g (fun _ _ _ => c0) y x z = c0.
Proof. unfold to_real. apply inv3_zero. intros. unfold keep. destruct (mask3 _ _ _ _); reflexivity. Qed.
Lemma ext_real g d (C : coef6) p m n y x z : ext d (at_pt (fun p m n => to_real g (C p m n)) y x z) p m n = to_real g (fun y x z => ext d (at_pt C y x z) p m n) y x z.
Proof. unfold ext, at_pt. destruct (_ && _)%bool; [reflexivity|]. symmetry. apply to_real_zero. Qed.
Lemma lf_real g l d C y x z : lf l (ext d (at_pt (fun p m n => to_real g (C p m n)) y x z)) = to_real g (fun y x z => lf l (ext d (at_pt C y x z))) y x z.
Proof.
  induction l as [|e l IH]; cbn [lf fold_right]; [symmetry; apply to_real_zero|].
  rewrite (to_real_lin g (fst e) 1 (fun y x z => ix e (ext d (at_pt C y x z))) (fun y x z => lf l (ext d (at_pt C y x z)))).
  fold (lf l (ext d (at_pt (fun p m n => to_real g (C p m n)) y x z))). rewrite IH. unfold ix at 1. rewrite ext_real. reflexivity.
Qed.
(** The flux of the dealiased state in real space is the dealiased flux. *)
Lemma flux_real g d a u C i y x z : (i < 3)%nat -> flux d a u (at_pt (fun p m n => to_real g (C p m n)) y x z) i = to_real g (fun y x z => flux d a u (at_pt C y x z) i) y x z.
Proof.
  intros I. rewrite flux_lf, lf_real by assumption. unfold to_real. apply inv3_ext. intros. f_equal. symmetry. apply flux_lf. assumption.
Qed.

(* ------------------------------------------------------------------------------------------------ *)
(** * Rates of the moments *)
Lemma col_low N i : (i <= 2)%nat -> col_term N i = 0.
Proof. intros I. unfold col_term. destruct (3 <? N)%nat; [|reflexivity]. destruct i as [|[|[|i]]]; [| | |lia]; cbn [INR]; unfold Rdiv; ring. Qed.
Definition filter_ok (fl : option (R * nat)) : Prop := match fl with Some (_, O) => False | _ => True end.
Lemma axis_filter_0 N s o : (0 < o)%nat -> axis_filter N s o 0 = 1.
Proof.
  intros O. unfold axis_filter. destruct (N <=? 1)%nat; [reflexivity|]. change (INR 0) with 0. unfold Rdiv. rewrite Rmult_0_l, pow_i, Rmult_0_r by assumption. apply exp_0.
Qed.
Lemma houli_000 d fl : filter_ok fl -> houli3 d fl 0 0 0 = 1.
Proof. destruct fl as [[s [|o]]|]; cbn; intros H; try tauto; rewrite ?axis_filter_0 by lia; ring. Qed.
(** Continuity: at every wavevector the density of a species changes by -i k . flux (and hyperdiffusion). *)
Theorem C86_continuity : forall c A d q mass a u F Ck y x z, ok_al a -> ok_dims d -> filter_ok (x_filter c) ->
  dens a (at_pt (vf_species c A d q mass a u F Ck) y x z) =
    cneg (cmul cI (nab (x_g c) 0 y x z *c flux d a u (at_pt Ck y x z) 0 +c nab (x_g c) 1 y x z *c flux d a u (at_pt Ck y x z) 1
                   +c nab (x_g c) 2 y x z *c flux d a u (at_pt Ck y x z) 2))
    -c (a_D A * k2g (x_g c) y x z) *c dens a (at_pt Ck y x z).
Proof.
  intros c A d q mass a u F Ck y x z Ha Hd Hf. unfold dens, at_pt at 1, vf_species, filtered. rewrite houli_000 by assumption. unfold compute_rhs.
  rewrite C86_streaming by (try assumption; destruct Hd as (? & ? & ?); unfold in_dims; auto).
  unfold lorentz_rhs. rewrite fwd3_zero by (intros; apply lor_000; assumption).
  unfold colm. rewrite !col_low by lia. unfold flux.
  generalize (vel a u 0 (ext d (at_pt Ck y x z)) 0%nat 0%nat 0%nat), (vel a u 1 (ext d (at_pt Ck y x z)) 0%nat 0%nat 0%nat), (vel a u 2 (ext d (at_pt Ck y x z)) 0%nat 0%nat 0%nat).
  intros w1 w2 w3. unfold at_pt. unfold keep. destruct (mask3 _ _ _ _); creal.
Qed.
Print Assumptions C86_continuity.

(* ------------------------------------------------------------------------------------------------ *)
(** * Laws along solutions *)
Definition cderiv (f : R -> cplx) (t : R) (v : cplx) : Prop :=
  derivable_pt_lim (fun s => fst (f s)) t (fst v) /\ derivable_pt_lim (fun s => snd (f s)) t (snd v).
Definition in_grid (g : sgrid) (y x z : nat) : Prop := (y < s_ny g)%nat /\ (x < s_nx g)%nat /\ (z < s_nz g)%nat.
(** A differentiable curve whose derivative is the vector field the explicit integrators are given. *)
Definition solution (c : spcfg) (A : spargs) (S : R -> spx) : Prop := forall t y x z, in_grid (x_g c) y x z ->
  (forall p m n, in_dims (x_de c) p m n -> cderiv (fun s => c_e (S s) p m n y x z) t (c_e (spx_field c A t (S t)) p m n y x z)) /\
  (forall p m n, in_dims (x_di c) p m n -> cderiv (fun s => c_i (S s) p m n y x z) t (c_i (spx_field c A t (S t)) p m n y x z)) /\
  (forall i, (i < 6)%nat -> cderiv (fun s => f_k (S s) i y x z) t (f_k (spx_field c A t (S t)) i y x z)).
Lemma cd_scal r f t v : cderiv f t v -> cderiv (fun s => r *c f s) t (r *c v).
Proof. intros (A & B). split; cbn; apply derivable_pt_lim_scal; assumption. Qed.
Lemma cd_add f h t v w : cderiv f t v -> cderiv h t w -> cderiv (fun s => f s +c h s) t (v +c w).
Proof. intros (A & B) (D & E). split; cbn; apply (derivable_pt_lim_plus _ _ t _ _); assumption. Qed.
Lemma cd_sub f h t v w : cderiv f t v -> cderiv h t w -> cderiv (fun s => f s -c h s) t (v -c w).
Proof. intros (A & B) (D & E). split; cbn; apply (derivable_pt_lim_plus _ _ t _ _); try assumption; apply derivable_pt_lim_opp; assumption. Qed.
Lemma cd_I f t v : cderiv f t v -> cderiv (fun s => cmul cI (f s)) t (cmul cI v).
Proof.
  intros (A & B). split; cbn.
  - apply derive_ext with (f := fun s => -1 * snd (f s)); [intros; ring|]. replace (0 * fst v - 1 * snd v) with (-1 * snd v) by ring. apply derivable_pt_lim_scal, B.
  - apply derive_ext with (f := fun s => 1 * fst (f s)); [intros; ring|]. replace (0 * snd v + 1 * fst v) with (1 * fst v) by ring. apply derivable_pt_lim_scal, A.
Qed.
Lemma cd_const v t : cderiv (fun _ => v) t c0.
Proof. split; apply derivable_pt_lim_const. Qed.
Lemma cd_val f t v w : cderiv f t v -> v = w -> cderiv f t w.
Proof. intros A <-. exact A. Qed.
Lemma deriv0_const f : (forall t, derivable_pt_lim f t 0) -> forall s t, f s = f t.
Proof.
  intros H s t. pose (pr := fun x => exist _ 0 (H x) : derivable_pt f x). apply (null_derivative_1 f pr). intros x. unfold derive_pt, pr. reflexivity.
Qed.
Lemma cderiv0_const f : (forall t, cderiv f t c0) -> forall s t, f s = f t.
Proof.
  intros H s t. apply cplx_eq; [apply (deriv0_const (fun s => fst (f s))); intros; apply H|apply (deriv0_const (fun s => snd (f s))); intros; apply H].
Qed.

(** Charge density at a wavevector, and the residual of Gauss's law Omega i k . E = rho. *)
Definition charge (A : spargs) (s : spx) (y x z : nat) : cplx :=
  a_q A 0%nat *c dens (a_al A) (at_pt (c_e s) y x z) +c a_q A 1%nat *c dens (ions (a_al A)) (at_pt (c_i s) y x z).
Definition div (g : sgrid) (v : nat -> cplx) (y x z : nat) : cplx :=
  cmul cI (nab g 0 y x z *c v 0%nat +c nab g 1 y x z *c v 1%nat +c nab g 2 y x z *c v 2%nat).
Definition gauss (c : spcfg) (A : spargs) (s : spx) (y x z : nat) : cplx :=
  a_Om A *c div (x_g c) (fun i => f_k s i y x z) y x z -c charge A s y x z.
Definition ok_cfg (c : spcfg) (A : spargs) : Prop :=
  ok_grid3 (x_g c) /\ ok_dims (x_de c) /\ ok_dims (x_di c) /\ ok_al (a_al A) /\ ok_al (ions (a_al A)) /\ a_Om A <> 0.
Definition no_noise (c : spcfg) : Prop := forall t ix, x_noise_e c t ix = c0 /\ x_noise_i c t ix = c0.
Lemma add_no_noise nz C p m n y x z : (forall i, nz i = c0) -> add_noise nz C p m n y x z = C p m n y x z.
Proof. intros H. unfold add_noise. rewrite H. destruct (_ && _)%bool; [creal|reflexivity]. Qed.
(** The change of the charge density is -i k . J with exactly the current used in Ampere's law. *)
Lemma charge_rate c A t s y x z : ok_cfg c A -> no_noise c -> filter_ok (x_filter c) -> a_D A = 0 ->
  charge A (spx_field c A t s) y x z = cneg (div (x_g c) (total_current c A s y x z) y x z).
Proof.
  intros (Hg & He & Hi & Ae & Ai & Om) Nn Hf D0. unfold charge, spx_field. cbn [c_e c_i].
  assert (E1 : dens (a_al A) (at_pt (add_noise (x_noise_e c t) (vf_species c A (x_de c) (a_q A 0%nat) 1 (a_al A) (a_u A) (fun i => to_real (x_g c) (f_k s i)) (c_e s))) y x z)
     = dens (a_al A) (at_pt (vf_species c A (x_de c) (a_q A 0%nat) 1 (a_al A) (a_u A) (fun i => to_real (x_g c) (f_k s i)) (c_e s)) y x z)).
  { unfold dens, at_pt. rewrite add_no_noise by (intros; apply Nn). reflexivity. }
  rewrite E1, C86_continuity by assumption. rewrite D0.
  unfold div, total_current. rewrite !C86_current_is_flux by (try assumption; lia).
  destruct (x_static c).
  - generalize (flux (x_de c) (a_al A) (a_u A) (at_pt (c_e s) y x z) 0), (flux (x_de c) (a_al A) (a_u A) (at_pt (c_e s) y x z) 1), (flux (x_de c) (a_al A) (a_u A) (at_pt (c_e s) y x z) 2).
    intros. unfold dens, at_pt. creal.
  - assert (E2 : dens (ions (a_al A)) (at_pt (add_noise (x_noise_i c t) (vf_species c A (x_di c) (a_q A 1%nat) (a_mi A) (ions (a_al A)) (ions (a_u A)) (fun i => to_real (x_g c) (f_k s i)) (c_i s))) y x z)
     = dens (ions (a_al A)) (at_pt (vf_species c A (x_di c) (a_q A 1%nat) (a_mi A) (ions (a_al A)) (ions (a_u A)) (fun i => to_real (x_g c) (f_k s i)) (c_i s)) y x z)).
    { unfold dens, at_pt. rewrite add_no_noise by (intros; apply Nn). reflexivity. }
    rewrite E2, C86_continuity by assumption. rewrite D0.
    generalize (flux (x_de c) (a_al A) (a_u A) (at_pt (c_e s) y x z) 0), (flux (x_de c) (a_al A) (a_u A) (at_pt (c_e s) y x z) 1), (flux (x_de c) (a_al A) (a_u A) (at_pt (c_e s) y x z) 2).
    generalize (flux (x_di c) (ions (a_al A)) (ions (a_u A)) (at_pt (c_i s) y x z) 0), (flux (x_di c) (ions (a_al A)) (ions (a_u A)) (at_pt (c_i s) y x z) 1), (flux (x_di c) (ions (a_al A)) (ions (a_u A)) (at_pt (c_i s) y x z) 2).
    intros. unfold dens, at_pt. creal.
Qed.
Theorem C86_gauss_rate : forall c A t s y x z, ok_cfg c A -> no_noise c -> filter_ok (x_filter c) -> a_D A = 0 ->
  gauss c A (spx_field c A t s) y x z = a_Om A *c div (x_g c) (fun i => x_drive c t i y x z) y x z /\
  div (x_g c) (fun i => f_k (spx_field c A t s) (3 + i)%nat y x z) y x z = c0.
Proof.
  intros c A t s y x z H Nn Hf D0. split.
  - unfold gauss. rewrite charge_rate by assumption. destruct H as (Hg & He & Hi & Ae & Ai & Om). unfold spx_field. cbn [f_k]. unfold div, vf_fields. cbn [Nat.ltb Nat.leb].
    generalize (total_current c A s y x z 0), (total_current c A s y x z 1), (total_current c A s y x z 2). intros j1 j2 j3.
    unfold ccross. cbn [Nat.add]. creal; field; assumption.
  - unfold spx_field. cbn [f_k]. unfold div, vf_fields. cbn [Nat.ltb Nat.leb Nat.add Nat.sub]. unfold ccross. creal.
Qed.
Print Assumptions C86_gauss_rate.
(** Gauss's law for E and B: the residuals keep their initial values for all time at every wavevector. *)
Theorem C86_gauss : forall c A S y x z, ok_cfg c A -> no_noise c -> filter_ok (x_filter c) -> a_D A = 0 ->
  (forall t, div (x_g c) (fun i => x_drive c t i y x z) y x z = c0) -> solution c A S -> in_grid (x_g c) y x z ->
  forall t t', gauss c A (S t) y x z = gauss c A (S t') y x z /\
    div (x_g c) (fun i => f_k (S t) (3 + i)%nat y x z) y x z = div (x_g c) (fun i => f_k (S t') (3 + i)%nat y x z) y x z.
Proof.
  intros c A S y x z H Nn Hf D0 Dr Sol G. pose proof H as (Hg & He & Hi & _). intros t t'.
  assert (P : forall t, cderiv (fun s => gauss c A (S s) y x z) t c0).
  { intros r. destruct (Sol r y x z G) as (S1 & S2 & S3). eapply cd_val.
    - unfold gauss, div, charge, dens, at_pt. destruct He as (? & ? & ?), Hi as (? & ? & ?).
      apply cd_sub; [apply cd_scal, cd_I, cd_add; [apply cd_add|]; apply cd_scal; apply S3; lia|].
      apply cd_add; apply cd_scal, cd_scal; [apply S1|apply S2]; unfold in_dims; auto.
    - transitivity (gauss c A (spx_field c A r (S r)) y x z); [reflexivity|]. rewrite (proj1 (C86_gauss_rate c A r (S r) y x z H Nn Hf D0)), Dr. creal. }
  assert (Q : forall t, cderiv (fun s => div (x_g c) (fun i => f_k (S s) (3 + i)%nat y x z) y x z) t c0).
  { intros r. destruct (Sol r y x z G) as (S1 & S2 & S3). eapply cd_val.
    - unfold div. apply cd_I, cd_add; [apply cd_add|]; apply cd_scal; apply S3; lia.
    - exact (proj2 (C86_gauss_rate c A r (S r) y x z H Nn Hf D0)). }
  split; [exact (cderiv0_const _ P t t')|exact (cderiv0_const _ Q t t')].
Qed.
Print Assumptions C86_gauss.
(** The number of particles of each species (the k = 0 density) never changes. *)
Theorem C86_particles : forall c A S, ok_cfg c A -> no_noise c -> filter_ok (x_filter c) -> solution c A S ->
  forall t t', dens (a_al A) (at_pt (c_e (S t)) 0 0 0) = dens (a_al A) (at_pt (c_e (S t')) 0 0 0) /\
    dens (ions (a_al A)) (at_pt (c_i (S t)) 0 0 0) = dens (ions (a_al A)) (at_pt (c_i (S t')) 0 0 0).
Proof.
  intros c A S (Hg & He & Hi & Ae & Ai & Om) Nn Hf Sol t t'. pose proof Hg as (GX & GY & GZ & _).
  assert (G : in_grid (x_g c) 0 0 0) by (unfold in_grid; auto).
  assert (K : forall n, (0 < n)%nat -> kint n 0 = 0).
  { intros n N. unfold kint, mode. rewrite (proj2 (Nat.ltb_lt (2 * 0) n)) by lia. cbn. ring. }
  assert (NB : forall i, nab (x_g c) i 0 0 0 = 0) by (intros [|[|i]]; unfold nab; rewrite K by assumption; unfold Rdiv; ring).
  assert (KK : k2g (x_g c) 0 0 0 = 0) by (unfold k2g; rewrite !K by assumption; ring).
  split.
  - apply (cderiv0_const (fun s => dens (a_al A) (at_pt (c_e (S s)) 0 0 0))). intros r. destruct (Sol r _ _ _ G) as (S1 & S2 & S3). eapply cd_val.
    + unfold dens, at_pt. apply cd_scal, S1. destruct He as (? & ? & ?). unfold in_dims. auto.
    + unfold spx_field. cbn [c_e]. rewrite add_no_noise by (intros; apply Nn).
      etransitivity; [exact (C86_continuity c A (x_de c) (a_q A 0%nat) 1 (a_al A) (a_u A) _ (c_e (S r)) 0%nat 0%nat 0%nat Ae He Hf)|]. rewrite !NB, KK. creal.
  - apply (cderiv0_const (fun s => dens (ions (a_al A)) (at_pt (c_i (S s)) 0 0 0))). intros r. destruct (Sol r _ _ _ G) as (S1 & S2 & S3). eapply cd_val.
    + unfold dens, at_pt. apply cd_scal, S2. destruct Hi as (? & ? & ?). unfold in_dims. auto.
    + unfold spx_field. cbn [c_i]. destruct (x_static c); [creal|]. rewrite add_no_noise by (intros; apply Nn).
      etransitivity; [exact (C86_continuity c A (x_di c) (a_q A 1%nat) (a_mi A) (ions (a_al A)) (ions (a_u A)) _ (c_i (S r)) 0%nat 0%nat 0%nat Ai Hi Hf)|]. rewrite !NB, KK. creal.
Qed.
Print Assumptions C86_particles.

(* ------------------------------------------------------------------------------------------------ *)
(** * Energy *)
(** The work the fields do on a current at one wavevector: the real part of conj(E) . J. *)
Definition rdot (E J : nat -> cplx) : R := fst (cmul (conj (E 0%nat)) (J 0%nat) +c cmul (conj (E 1%nat)) (J 1%nat) +c cmul (conj (E 2%nat)) (J 2%nat)).
(** Kinetic energy of both species (k = 0 mode) and electromagnetic energy, as a user would compute them. *)
Definition kinetic_energy (c : spcfg) (A : spargs) (s : spx) : R :=
  fst (kin (x_de c) (a_al A) (a_u A) (at_pt (c_e s) 0 0 0)) + a_mi A * fst (kin (x_di c) (ions (a_al A)) (ions (a_u A)) (at_pt (c_i s) 0 0 0)).
Definition field_energy (c : spcfg) (A : spargs) (s : spx) : R :=
  a_Om A ^ 2 / 2 * rsum3 (x_g c) (fun y x z => rsum 6 (fun i => cabs2 (f_k s i y x z))).

Lemma mask_000 g : ok_grid3 g -> mask3 g 0 0 0 = true.
Proof.
  intros (X & Y & Z & _). unfold mask3, mask23, mode. rewrite !(proj2 (Nat.ltb_lt (2 * 0) _)) by lia. cbn [Z.of_nat Z.abs].
  rewrite !(proj2 (Z.leb_le _ _)); try (apply Z.div_pos; lia). reflexivity.
Qed.
Lemma kint_0 n : (0 < n)%nat -> kint n 0 = 0.
Proof. intros N. unfold kint, mode. rewrite (proj2 (Nat.ltb_lt (2 * 0) n)) by lia. cbn. ring. Qed.
Lemma nab_0 g i : ok_grid3 g -> nab g i 0 0 0 = 0.
Proof. intros (X & Y & Z & _). destruct i as [|[|i]]; unfold nab; rewrite kint_0 by assumption; unfold Rdiv; ring. Qed.
Definition low (l : list (R * (nat * nat * nat))) : Prop := forall e, In e l -> (fst (fst (snd e)) <= 2)%nat /\ (snd (fst (snd e)) <= 2)%nat /\ (snd (snd e) <= 2)%nat.
(** A moment of low order of the unfiltered rate at k = 0 is the mean over space of that moment of the force. *)
Lemma moment_rate c A d q mass a u F Ck l : ok_al a -> ok_grid3 (x_g c) -> x_filter c = None -> low l ->
  lf l (ext d (at_pt (vf_species c A d q mass a u F Ck) 0 0 0)) =
    (q / mass * a_Om A / ncell (x_g c)) *c csum3 (x_g c) (fun y x z => lf l (ext d (lor d a u (fun i => F i y x z) (at_pt (fun p m n => to_real (x_g c) (Ck p m n)) y x z)))).
Proof.
  intros Ha Hg Hf L. set (CR := fun p m n => to_real (x_g c) (Ck p m n)).
  transitivity ((q / mass * a_Om A) *c fwd3 (x_g c) (fun y x z => lf l (ext d (lor d a u (fun i => F i y x z) (at_pt CR y x z)))) 0%nat 0%nat 0%nat).
  - rewrite (lf_fwd3 (x_g c) l d (fun y x z => lor d a u (fun i => F i y x z) (at_pt CR y x z))), <- lf_scal. apply lf_ext. intros e He. unfold ix. destruct (L e He) as (L1 & L2 & L3).
    revert L1 L2 L3. generalize (fst (fst (snd e))), (snd (fst (snd e))), (snd (snd e)). clear He e. intros p m n L1 L2 L3. unfold ext.
    destruct ((p <? d_p d) && (m <? d_m d) && (n <? d_n d))%nat%bool eqn:B; [|creal].
    assert (I : in_dims d p m n). { apply andb_prop in B. destruct B as (B & B3). apply andb_prop in B. destruct B as (B1 & B2). apply Nat.ltb_lt in B1, B2, B3. unfold in_dims. auto. }
    unfold at_pt at 1. unfold vf_species, filtered. rewrite Hf. cbn [houli3]. unfold compute_rhs. rewrite C86_streaming by assumption. cbv beta. rewrite !nab_0 by assumption.
    unfold lorentz_rhs. rewrite mask_000 by assumption. cbn [keep]. fold CR. unfold colm. rewrite !col_low by assumption.
    pose proof Hg as (X & Y & Z & _). unfold k2g. rewrite !kint_0 by assumption.
    match goal with |- context [fwd3 ?g ?h ?a ?b ?c] => set (w := fwd3 g h a b c) end. creal.
  - rewrite fwd3_000 by assumption. rewrite cscal_cscal. reflexivity.
Qed.
Lemma vv_low a u i : (i < 3)%nat -> low (vv_w a u i).
Proof. intros I e He. cbn in He. destruct i as [|[|[|i]]]; [| | |lia]; destruct He as [<-|[<-|[<-|[]]]]; cbn; lia. Qed.
Lemma flux_low a u i : (i < 3)%nat -> low (flux_w a u i).
Proof. intros I e He. cbn in He. destruct i as [|[|[|i]]]; [| | |lia]; destruct He as [<-|[<-|[]]]; cbn; lia. Qed.
Lemma csum3_add g f h : csum3 g (fun y x z => f y x z +c h y x z) = csum3 g f +c csum3 g h.
Proof.
  unfold csum3. rewrite <- csum_add. apply csum_ext. intros. rewrite <- csum_add. apply csum_ext. intros. apply csum_add.
Qed.
Lemma csum3_scal g r f : csum3 g (fun y x z => r *c f y x z) = r *c csum3 g f.
Proof.
  unfold csum3. rewrite <- csum_scal. apply csum_ext. intros. rewrite <- csum_scal. apply csum_ext. intros. apply csum_scal.
Qed.
(** Momentum: with at least two modes in direction i the total momentum of a species changes at the rate (q/m) Omega times the
    mean over space of n E + flux x B of the dealiased state. *)
Theorem C86_momentum : forall c A d q mass a u F Ck i, ok_al a -> ok_dims d -> ok_grid3 (x_g c) -> x_filter c = None -> (i < 3)%nat -> (2 <= modes d i)%nat ->
  flux d a u (at_pt (vf_species c A d q mass a u F Ck) 0 0 0) i =
    (q / mass * a_Om A / ncell (x_g c)) *c csum3 (x_g c) (fun y x z => let C := at_pt (fun p m n => to_real (x_g c) (Ck p m n)) y x z in
      cmul (F i y x z) (dens a C) +c cross2 (flux d a u C) (fun j => F (3 + j)%nat y x z) i).
Proof.
  intros c A d q mass a u F Ck i Ha Hd Hg Hf I M. rewrite flux_lf by assumption. rewrite moment_rate by (auto using flux_low).
  f_equal. apply csum_ext3. intros y x z _ _ _. rewrite <- flux_lf by assumption.
  rewrite (proj2 (C86_force_moments d a u _ _ Ha Hd) i I M). reflexivity.
Qed.
Print Assumptions C86_momentum.
Definition full_dims (d : dims) : Prop := forall i, (i < 3)%nat -> (3 <= modes d i)%nat.
Lemma full_ok d : full_dims d -> ok_dims d.
Proof. intros H. pose proof (H 0%nat ltac:(lia)). pose proof (H 1%nat ltac:(lia)). pose proof (H 2%nat ltac:(lia)). cbn [modes] in *. unfold ok_dims. lia. Qed.
Lemma kin_rate c A d q mass a u F Ck : ok_al a -> full_dims d -> ok_grid3 (x_g c) -> x_filter c = None ->
  kin d a u (at_pt (vf_species c A d q mass a u F Ck) 0 0 0) =
    (q / mass * a_Om A / ncell (x_g c)) *c csum3 (x_g c) (fun y x z => let C := at_pt (fun p m n => to_real (x_g c) (Ck p m n)) y x z in
      cmul (F 0%nat y x z) (flux d a u C 0) +c cmul (F 1%nat y x z) (flux d a u C 1) +c cmul (F 2%nat y x z) (flux d a u C 2)).
Proof.
  intros Ha Hd Hg Hf. pose proof (full_ok d Hd) as Ho. unfold kin. rewrite !vv_lf by lia. rewrite !moment_rate by (auto; apply vv_low; lia).
  rewrite <- !cscal_cadd, cscal_cscal, (Rmult_comm (1 / 2)), <- cscal_cscal. f_equal. rewrite <- !csum3_add, <- csum3_scal. apply csum_ext3. intros y x z _ _ _.
  rewrite <- !vv_lf by lia. exact (proj1 (C86_only_E_works d a u (fun i => F i y x z) _ Ha Ho) Hd).
Qed.
Lemma rsum3_ext g f h : (forall y x z, in_grid g y x z -> f y x z = h y x z) -> rsum3 g f = rsum3 g h.
Proof. intros H. unfold rsum3. apply rsum_ext. intros. apply rsum_ext. intros. apply rsum_ext. intros. apply H. unfold in_grid. auto. Qed.
Lemma rsum3_plus g f h : rsum3 g (fun y x z => f y x z + h y x z) = rsum3 g f + rsum3 g h.
Proof. unfold rsum3. rewrite <- rsum_plus. apply rsum_ext. intros. rewrite <- rsum_plus. apply rsum_ext. intros. apply rsum_plus. Qed.
Lemma rsum3_scal g r f : rsum3 g (fun y x z => r * f y x z) = r * rsum3 g f.
Proof. unfold rsum3. rewrite <- rsum_scal. apply rsum_ext. intros. rewrite <- rsum_scal. apply rsum_ext. intros. apply rsum_scal. Qed.
Lemma csum_fst n f : fst (csum n f) = rsum n (fun i => fst (f i)).
Proof. induction n; cbn; [reflexivity|]. rewrite IHn. reflexivity. Qed.
Lemma csum3_fst g f : fst (csum3 g f) = rsum3 g (fun y x z => fst (f y x z)).
Proof. unfold csum3, rsum3. rewrite csum_fst. apply rsum_ext. intros. rewrite csum_fst. apply rsum_ext. intros. apply csum_fst. Qed.
Lemma ncell_pos g : ok_grid3 g -> 0 < ncell g.
Proof. intros (X & Y & Z & _). unfold ncell. apply Rmult_lt_0_compat; [apply Rmult_lt_0_compat|]; apply lt_0_INR; assumption. Qed.
(** The electric field of the dealiased state is real in real space. *)
Definition real_E (c : spcfg) (s : spx) : Prop := forall i y x z, (i < 3)%nat -> in_grid (x_g c) y x z -> snd (to_real (x_g c) (f_k s i) y x z) = 0.
Definition kept (b : bool) (r : R) : R := if b then r else 0.
Lemma mean_work g (E J : nat -> afield) : ok_grid3 g -> (forall i y x z, (i < 3)%nat -> in_grid g y x z -> snd (to_real g (E i) y x z) = 0) ->
  fst ((/ ncell g) *c csum3 g (fun y x z => cmul (to_real g (E 0%nat) y x z) (to_real g (J 0%nat) y x z) +c cmul (to_real g (E 1%nat) y x z) (to_real g (J 1%nat) y x z)
     +c cmul (to_real g (E 2%nat) y x z) (to_real g (J 2%nat) y x z))) =
  rsum3 g (fun y x z => kept (mask3 g y x z) (rdot (fun i => E i y x z) (fun i => J i y x z))).
Proof.
  intros Hg Re.
  assert (P : forall i, (i < 3)%nat -> csum3 g (fun y x z => cmul (to_real g (E i) y x z) (to_real g (J i) y x z)) =
     (ncell g) *c csum3 g (fun y x z => cmul (conj (keep (mask3 g y x z) (E i y x z))) (keep (mask3 g y x z) (J i y x z)))).
  { intros i I. unfold to_real at 2. rewrite <- parseval3 by assumption. apply csum_ext3. intros y x z Y X Z. f_equal.
    assert (H : snd (to_real g (E i) y x z) = 0) by (apply Re; [assumption|unfold in_grid; auto]).
    unfold to_real in *. apply cplx_eq; cbn; [reflexivity|]. rewrite H. ring. }
  rewrite (csum3_add g (fun y x z => cmul (to_real g (E 0%nat) y x z) (to_real g (J 0%nat) y x z) +c cmul (to_real g (E 1%nat) y x z) (to_real g (J 1%nat) y x z))), csum3_add.
  rewrite !P by lia. rewrite <- !cscal_cadd, cscal_cscal, Rinv_l, cscal_1 by (pose proof (ncell_pos g Hg); lra).
  rewrite <- !csum3_add, csum3_fst. apply rsum3_ext. intros y x z _. unfold kept, keep, rdot. destruct (mask3 g y x z); [reflexivity|]. cbn. ring.
Qed.
Lemma kin_work c A d q mass a u s Ck : ok_al a -> full_dims d -> ok_grid3 (x_g c) -> x_filter c = None -> real_E c s -> mass <> 0 ->
  mass * fst (kin d a u (at_pt (vf_species c A d q mass a u (fun i => to_real (x_g c) (f_k s i)) Ck) 0 0 0)) =
    a_Om A * rsum3 (x_g c) (fun y x z => kept (mask3 (x_g c) y x z) (rdot (fun i => f_k s i y x z) (current_s d q a u (at_pt Ck y x z)))).
Proof.
  intros Ha Hd Hg Hf Re Hm. rewrite kin_rate by assumption. cbv zeta. assert (NC : ncell (x_g c) <> 0) by (pose proof (ncell_pos _ Hg); lra).
  replace (q / mass * a_Om A / ncell (x_g c)) with (q * a_Om A / mass * / ncell (x_g c)) by (field; auto).
  rewrite <- cscal_cscal. change (fst ((q * a_Om A / mass) *c ?w)) with (q * a_Om A / mass * fst w). pose proof (mean_work (x_g c) (f_k s) (fun i y x z => flux d a u (at_pt Ck y x z) i) Hg Re) as W.
  rewrite (csum_ext3 (x_g c) _ (fun y x z => cmul (to_real (x_g c) (f_k s 0%nat) y x z) (to_real (x_g c) (fun y x z => flux d a u (at_pt Ck y x z) 0) y x z)
     +c cmul (to_real (x_g c) (f_k s 1%nat) y x z) (to_real (x_g c) (fun y x z => flux d a u (at_pt Ck y x z) 1) y x z)
     +c cmul (to_real (x_g c) (f_k s 2%nat) y x z) (to_real (x_g c) (fun y x z => flux d a u (at_pt Ck y x z) 2) y x z))).
  - rewrite W. rewrite <- !rsum3_scal. apply rsum3_ext. intros y x z _. unfold kept. destruct (mask3 _ _ _ _); [|ring].
    unfold rdot. rewrite !C86_current_is_flux by (try apply full_ok; try assumption; lia). cbn. pose proof s2_pos. field. split; [lra|assumption].
  - intros y x z _ _ _. rewrite !flux_real by lia. reflexivity.
Qed.
Lemma cd_lf l (C : R -> hco) D t : (forall e, In e l -> cderiv (fun s => ix e (C s)) t (ix e D)) -> cderiv (fun s => lf l (C s)) t (lf l D).
Proof.
  induction l as [|e l IH]; intros H; cbn [lf fold_right]; [apply cd_const|].
  apply cd_add; [apply cd_scal, H; left; reflexivity|apply cd_scal, IH; intros; apply H; right; assumption].
Qed.
Lemma cd_ext d (C : R -> hco) D t p m n : (in_dims d p m n -> cderiv (fun s => C s p m n) t (D p m n)) -> cderiv (fun s => ext d (C s) p m n) t (ext d D p m n).
Proof.
  intros H. unfold ext. destruct ((p <? d_p d) && (m <? d_m d) && (n <? d_n d))%nat%bool eqn:B; [|apply cd_const].
  apply H. apply andb_prop in B. destruct B as (B & B3). apply andb_prop in B. destruct B as (B1 & B2). apply Nat.ltb_lt in B1, B2, B3. unfold in_dims. auto.
Qed.
Lemma cd_kin d a u (C : R -> hco) D t : (forall p m n, in_dims d p m n -> cderiv (fun s => C s p m n) t (D p m n)) -> cderiv (fun s => kin d a u (C s)) t (kin d a u D).
Proof.
  intros H. assert (V : forall i, (i < 3)%nat -> cderiv (fun s => vv d a u (C s) i i) t (vv d a u D i i)).
  { intros i I. rewrite vv_lf by assumption. destruct (cd_lf (vv_w a u i) (fun s => ext d (C s)) (ext d D) t) as (P & Q).
    - intros e _. unfold ix. apply cd_ext, H.
    - split; (eapply derive_ext; [|eassumption]); intros s; cbv beta; rewrite vv_lf by assumption; reflexivity. }
  unfold kin. apply cd_scal, cd_add; [apply cd_add|]; apply V; lia.
Qed.
Lemma cd_abs2 f t v : cderiv f t v -> derivable_pt_lim (fun s => cabs2 (f s)) t (2 * (fst (f t) * fst v + snd (f t) * snd v)).
Proof.
  intros (A & B). unfold cabs2.
  replace (2 * (fst (f t) * fst v + snd (f t) * snd v)) with ((fst v * fst (f t) + fst (f t) * fst v) + (snd v * snd (f t) + snd (f t) * snd v)) by ring.
  apply (derivable_pt_lim_plus (fun s => fst (f s) * fst (f s)) (fun s => snd (f s) * snd (f s)));
  [apply (derivable_pt_lim_mult (fun s => fst (f s)) (fun s => fst (f s)))|apply (derivable_pt_lim_mult (fun s => snd (f s)) (fun s => snd (f s)))]; assumption.
Qed.
Lemma derive_rsum3 g (f : R -> nat -> nat -> nat -> R) f' s : (forall y x z, in_grid g y x z -> derivable_pt_lim (fun t => f t y x z) s (f' y x z)) ->
  derivable_pt_lim (fun t => rsum3 g (f t)) s (rsum3 g f').
Proof.
  intros H. unfold rsum3. apply (derive_rsum _ (fun t y => rsum (s_nx g) (fun x => rsum (s_nz g) (fun z => f t y x z)))). intros y Y.
  apply (derive_rsum _ (fun t x => rsum (s_nz g) (fun z => f t y x z))). intros x X. apply (derive_rsum _ (fun t z => f t y x z)). intros z Z. apply H. unfold in_grid. auto.
Qed.
(** Poynting's theorem for the discrete fields: the curls exchange no energy in total. *)
Lemma field_rate c A t s y x z : a_Om A <> 0 ->
  rsum 6 (fun i => 2 * (fst (f_k s i y x z) * fst (f_k (spx_field c A t s) i y x z) + snd (f_k s i y x z) * snd (f_k (spx_field c A t s) i y x z))) =
  2 * (- rdot (fun i => f_k s i y x z) (total_current c A s y x z) / a_Om A + rdot (fun i => f_k s i y x z) (fun i => x_drive c t i y x z)).
Proof.
  intros Om. unfold spx_field. cbn [f_k rsum]. unfold vf_fields. cbn [Nat.ltb Nat.leb Nat.sub]. unfold ccross, rdot. cbn [Nat.add].
  generalize (total_current c A s y x z 0), (total_current c A s y x z 1), (total_current c A s y x z 2). intros j0 j1 j2.
  unfold csub, cneg, cadd, cmul, cscal, conj, cI. cbn [fst snd]. field. assumption.
Qed.
(** The rate of change of the total energy along any solution: only the wavevectors removed by the 2/3 rule and the
    external drive contribute. *)
Theorem C86_energy : forall c A S t, ok_cfg c A -> full_dims (x_de c) -> full_dims (x_di c) -> no_noise c -> x_filter c = None -> a_mi A <> 0 ->
  solution c A S -> real_E c (S t) ->
  derivable_pt_lim (fun s => kinetic_energy c A (S s) + field_energy c A (S s)) t
    (- a_Om A * rsum3 (x_g c) (fun y x z => kept (negb (mask3 (x_g c) y x z)) (rdot (fun i => f_k (S t) i y x z) (total_current c A (S t) y x z)))
     + a_Om A ^ 2 * rsum3 (x_g c) (fun y x z => rdot (fun i => f_k (S t) i y x z) (fun i => x_drive c t i y x z))).
Proof.
  intros c A S t H Fe Fi Nn Hf Hm Sol Re. pose proof H as (Hg & He & Hi & Ae & Ai & Om). pose proof Hg as (GX & GY & GZ & _).
  assert (G0 : in_grid (x_g c) 0 0 0) by (unfold in_grid; auto).
  set (g := x_g c) in *. set (E := fun y x z i => f_k (S t) i y x z).
  set (Je := fun y x z => current_s (x_de c) (a_q A 0%nat) (a_al A) (a_u A) (at_pt (c_e (S t)) y x z)).
  set (Ji := fun y x z => current_s (x_di c) (a_q A 1%nat) (ions (a_al A)) (ions (a_u A)) (at_pt (c_i (S t)) y x z)).
  assert (DK : derivable_pt_lim (fun s => kinetic_energy c A (S s)) t (a_Om A * rsum3 g (fun y x z => kept (mask3 g y x z) (rdot (E y x z) (total_current c A (S t) y x z))))).
  { destruct (Sol t _ _ _ G0) as (S1 & S2 & _).
    pose proof (cd_kin (x_de c) (a_al A) (a_u A) (fun s => at_pt (c_e (S s)) 0 0 0) (at_pt (c_e (spx_field c A t (S t))) 0 0 0) t S1) as (K1 & _).
    pose proof (cd_kin (x_di c) (ions (a_al A)) (ions (a_u A)) (fun s => at_pt (c_i (S s)) 0 0 0) (at_pt (c_i (spx_field c A t (S t))) 0 0 0) t S2) as (K2 & _).
    assert (KE : fst (kin (x_de c) (a_al A) (a_u A) (at_pt (c_e (spx_field c A t (S t))) 0 0 0)) = a_Om A * rsum3 g (fun y x z => kept (mask3 g y x z) (rdot (E y x z) (Je y x z)))).
    { rewrite <- (Rmult_1_l (fst _)). unfold Je, E, g. rewrite <- (kin_work c A (x_de c) (a_q A 0%nat) 1 (a_al A) (a_u A) (S t) (c_e (S t)) Ae Fe Hg Hf Re) by lra.
      f_equal. f_equal. unfold kin. rewrite !vv_lf by lia. f_equal. f_equal; [f_equal|]; apply lf_ext; intros e _; unfold ix, ext; (destruct (_ && _)%bool; [|reflexivity]); unfold at_pt, spx_field; cbn [c_e]; apply add_no_noise; intros; apply Nn. }
    assert (KI : a_mi A * fst (kin (x_di c) (ions (a_al A)) (ions (a_u A)) (at_pt (c_i (spx_field c A t (S t))) 0 0 0)) =
       if x_static c then 0 else a_Om A * rsum3 g (fun y x z => kept (mask3 g y x z) (rdot (E y x z) (Ji y x z)))).
    { unfold spx_field. cbn [c_i]. destruct (x_static c).
      - unfold kin. rewrite !vv_lf by lia. unfold lf, vv_w, ix, ext, at_pt. cbn [fold_right fst snd]. unfold cscal, cadd. cbn [fst snd].
        repeat match goal with |- context [if ?b then c0 else c0] => replace (if b then c0 else c0) with c0 by (destruct b; reflexivity) end. unfold c0. cbn [fst snd]. ring.
      - unfold Ji, E, g. rewrite <- (kin_work c A (x_di c) (a_q A 1%nat) (a_mi A) (ions (a_al A)) (ions (a_u A)) (S t) (c_i (S t)) Ai Fi Hg Hf Re Hm).
        f_equal. f_equal. unfold kin. rewrite !vv_lf by lia. f_equal. f_equal; [f_equal|]; apply lf_ext; intros e _; unfold ix, ext; (destruct (_ && _)%bool; [|reflexivity]); unfold at_pt; apply add_no_noise; intros; apply Nn. }
    assert (SUM : a_Om A * rsum3 g (fun y x z => kept (mask3 g y x z) (rdot (E y x z) (total_current c A (S t) y x z)))
       = fst (kin (x_de c) (a_al A) (a_u A) (at_pt (c_e (spx_field c A t (S t))) 0 0 0)) + a_mi A * fst (kin (x_di c) (ions (a_al A)) (ions (a_u A)) (at_pt (c_i (spx_field c A t (S t))) 0 0 0))).
    { rewrite KE, KI. unfold total_current. destruct (x_static c); [rewrite Rplus_0_r; reflexivity|].
      rewrite <- Rmult_plus_distr_l, <- rsum3_plus. f_equal. apply rsum3_ext. intros y x z _. unfold kept. destruct (mask3 _ _ _ _); [|ring]. unfold rdot. fold (Je y x z) (Ji y x z).
      generalize (Je y x z 0%nat), (Je y x z 1%nat), (Je y x z 2%nat), (Ji y x z 0%nat), (Ji y x z 1%nat), (Ji y x z 2%nat). intros. unfold cadd, cmul, conj. cbn [fst snd]. ring. }
    rewrite SUM. unfold kinetic_energy. apply (derivable_pt_lim_plus (fun s => fst (kin (x_de c) (a_al A) (a_u A) (at_pt (c_e (S s)) 0 0 0)))); [exact K1|].
    apply derivable_pt_lim_scal. exact K2. }
  assert (DF : derivable_pt_lim (fun s => field_energy c A (S s)) t (- a_Om A * rsum3 g (fun y x z => rdot (E y x z) (total_current c A (S t) y x z))
      + a_Om A ^ 2 * rsum3 g (fun y x z => rdot (E y x z) (fun i => x_drive c t i y x z)))).
  { unfold field_energy. 
    replace (- a_Om A * rsum3 g (fun y x z => rdot (E y x z) (total_current c A (S t) y x z)) + a_Om A ^ 2 * rsum3 g (fun y x z => rdot (E y x z) (fun i => x_drive c t i y x z)))
      with (a_Om A ^ 2 / 2 * rsum3 g (fun y x z => 2 * (- rdot (E y x z) (total_current c A (S t) y x z) / a_Om A + rdot (E y x z) (fun i => x_drive c t i y x z)))).
    - apply derivable_pt_lim_scal. apply derive_rsum3. intros y x z Gd. unfold E. rewrite <- field_rate by assumption. apply (derive_rsum 6 (fun s i => cabs2 (f_k (S s) i y x z))).
      intros i I. apply (cd_abs2 (fun s => f_k (S s) i y x z)). apply (Sol t y x z Gd). assumption.
    - rewrite <- !rsum3_scal, <- rsum3_plus. apply rsum3_ext. intros. field. assumption. }
  match goal with |- derivable_pt_lim _ _ ?v => replace v with (a_Om A * rsum3 g (fun y x z => kept (mask3 g y x z) (rdot (E y x z) (total_current c A (S t) y x z))) +
    (- a_Om A * rsum3 g (fun y x z => rdot (E y x z) (total_current c A (S t) y x z)) + a_Om A ^ 2 * rsum3 g (fun y x z => rdot (E y x z) (fun i => x_drive c t i y x z)))) end.
  - exact (derivable_pt_lim_plus _ _ t _ _ DK DF).
  - rewrite <- Rplus_assoc. f_equal. rewrite <- !rsum3_scal, <- rsum3_plus. apply rsum3_ext. intros y x z _. unfold kept, E. destruct (mask3 g y x z); cbn [negb]; ring.
Qed.
Print Assumptions C86_energy.
(** Without a drive, and as long as the fields stay inside the dealiased band, the energy is constant. *)
Theorem C86_energy_conserved : forall c A S, ok_cfg c A -> full_dims (x_de c) -> full_dims (x_di c) -> no_noise c -> x_filter c = None -> a_mi A <> 0 ->
  solution c A S -> (forall t, real_E c (S t)) -> (forall t i y x z, in_grid (x_g c) y x z -> x_drive c t i y x z = c0) ->
  (forall t i y x z, (i < 3)%nat -> in_grid (x_g c) y x z -> mask3 (x_g c) y x z = false -> f_k (S t) i y x z = c0) ->
  forall t t', kinetic_energy c A (S t) + field_energy c A (S t) = kinetic_energy c A (S t') + field_energy c A (S t').
Proof.
  intros c A S H Fe Fi Nn Hf Hm Sol Re Dr Band. apply (deriv0_const (fun s => kinetic_energy c A (S s) + field_energy c A (S s))). intros t.
  pose proof (C86_energy c A S t H Fe Fi Nn Hf Hm Sol (Re t)) as D.
  match type of D with derivable_pt_lim _ _ ?v => replace 0 with v; [exact D|] end.
  rewrite <- !rsum3_scal, <- rsum3_plus. transitivity (rsum3 (x_g c) (fun _ _ _ => 0)); [|unfold rsum3; rewrite (rsum_ext (s_ny (x_g c)) _ (fun _ => 0)); [apply rsum_zero|intros; rewrite (rsum_ext (s_nx (x_g c)) _ (fun _ => 0)); [apply rsum_zero|intros; apply rsum_zero]]].
  apply rsum3_ext. intros y x z G. unfold kept. destruct (mask3 (x_g c) y x z) eqn:M; cbn [negb]; unfold rdot.
  - rewrite !Dr by assumption. cbn. ring.
  - rewrite !(Band t _ y x z) by (assumption || lia). rewrite !Dr by assumption. cbn. ring.
Qed.
Print Assumptions C86_energy_conserved.
