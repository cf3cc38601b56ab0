(** Proofs about the field solvers and the time steps. *)
From Coq Require Import Permutation.
From Verif Require Import RSum Pic PicProofs PicFourier Dft Vlasov VlasovProofs.
Local Open Scope R_scope.

(** ** The real part of an inverse transform *)
Lemma cfft_conj n x k : (0 < n)%nat -> (k < n)%nat -> cfft n (fun g => conj (x g)) k = conj (cfft n x (if (k =? 0)%nat then 0%nat else (n - k)%nat)).
Proof.
  intros Hn Hk. unfold cfft. rewrite csum_conj. apply csum_ext. intros g Hg. rewrite conj_mul. f_equal.
  rewrite <- cis_neg, Ropp_involutive. destruct (Nat.eqb_spec k 0) as [->|K].
  - replace (angle n 0 g) with 0 by (unfold angle; cbn [INR]; unfold Rdiv; ring). now rewrite Ropp_0.
  - symmetry. apply cis_mirror; lia.
Qed.
Lemma fft_real_ifft n X k : (k < n)%nat ->
  fft n (fun g => fst (ifft n X g)) k = cscal (1 / 2) (cadd (X k) (conj (X (if (k =? 0)%nat then 0%nat else (n - k)%nat)))).
Proof.
  intros Hk. rewrite fft_emb. transitivity (cfft n (fun g => cscal (1 / 2) (cadd (ifft n X g) (conj (ifft n X g)))) k).
  { unfold cfft. apply csum_ext. intros g _. f_equal. unfold emb. apply cplx_eq; unfold cscal, cadd, conj; cbn [fst snd]; field. }
  transitivity (cscal (1 / 2) (cadd (cfft n (ifft n X) k) (cfft n (fun g => conj (ifft n X g)) k))).
  { unfold cfft. rewrite <- csum_add, <- csum_scal. apply csum_ext. intros g _. creal. }
  rewrite cfft_conj by lia. rewrite cfft_ifft by exact Hk. destruct (Nat.eqb_spec k 0); rewrite cfft_ifft by lia; reflexivity.
Qed.
Lemma fft_real_mirrored n X k : (0 < k < n)%nat -> X (n - k)%nat = conj (X k) -> fft n (fun g => fst (ifft n X g)) k = X k.
Proof.
  intros Hk Hm. rewrite fft_real_ifft by lia. destruct (Nat.eqb_spec k 0); [lia|]. rewrite Hm, conj_conj.
  apply cplx_eq; unfold cscal, cadd; cbn [fst snd]; field.
Qed.

(** ** Charge and current densities *)
Lemma fold_acc {A} (h : A -> R) l a : fold_left (fun r p => r + h p) l a = a + fold_left (fun r p => r + h p) l 0.
Proof.
  revert a. induction l as [|p l IH]; intros a; cbn; [ring|]. rewrite IH, (IH (0 + h p)). ring.
Qed.
Definition sum_list {A} (h : A -> R) (l : list A) : R := fold_right (fun p r => h p + r) 0 l.
Lemma fold_sum {A} (h : A -> R) l : fold_left (fun r p => r + h p) l 0 = sum_list h l.
Proof. induction l as [|p l IH]; cbn; [reflexivity|]. rewrite fold_acc, IH. unfold sum_list. ring. Qed.
Lemma charge_sum F i : charge_density F i = sum_list (fun p => sp_q (fst p) * density (fst p) (snd p) i) F.
Proof. apply fold_sum. Qed.
Lemma current_sum F i : current_density F i = sum_list (fun p => sp_q (fst p) * flux (fst p) (snd p) i) F.
Proof. apply fold_sum. Qed.
Lemma sum_perm {A} (h : A -> R) l l' : Permutation l l' -> sum_list h l = sum_list h l'.
Proof. induction 1; unfold sum_list in *; cbn; lra. Qed.
Lemma sum_list_app {A} (h : A -> R) l l' : sum_list h (l ++ l') = sum_list h l + sum_list h l'.
Proof. unfold sum_list. induction l; cbn; lra. Qed.
Lemma sum_list_ext {A B} (h : A -> R) (h' : B -> R) (m : A -> B) l : (forall p, In p l -> h' (m p) = h p) -> sum_list h' (map m l) = sum_list h l.
Proof. unfold sum_list. induction l as [|p l IH]; intros H; cbn; [reflexivity|]. rewrite IH by (intros; apply H; now right). rewrite H by now left. reflexivity. Qed.

(** ** Pushes keep the particle number *)
Definition even_v (s : species) : Prop := Nat.Even (sp_nv s) /\ (0 < sp_nv s)%nat.
Lemma vel_push_density s e pond dt f i : even_v s -> density s (vel_push s e pond dt f) i = density s f i.
Proof.
  intros [He Hn]. unfold density, vel_push. f_equal.
  rewrite (rsum_ext _ _ (space_col (sp_nv s) (sp_dv s) (dt * sp_accel s e pond i) (f i))) by (intros; apply vel_row_col).
  now apply space_col_mass.
Qed.
Lemma vpush_charge F e pond dt i : Forall (fun p => even_v (fst p)) F ->
  charge_density (map_f (fun s f => v_push EExponential s e pond dt f) F) i = charge_density F i.
Proof.
  intros H. rewrite !charge_sum. unfold map_f. apply sum_list_ext. intros p Hp. rewrite Forall_forall in H. cbn [fst snd v_push].
  rewrite vel_push_density by now apply H. reflexivity.
Qed.
Definition particles (nx : nat) (s : species) (f : dist) : R := rsum nx (fun i => rsum (sp_nv s) (f i)).
Lemma space_push_particles nx dx s dt f : Nat.Even nx -> (0 < nx)%nat -> particles nx s (space_push nx dx s dt f) = particles nx s f.
Proof.
  intros He Hn. unfold particles. rewrite rsum_swap, (rsum_swap nx). apply rsum_ext. intros j _. unfold space_push. now apply space_col_mass.
Qed.
Lemma vel_push_particles nx s e pond dt f : even_v s -> particles nx s (vel_push s e pond dt f) = particles nx s f.
Proof.
  intros [He Hn]. unfold particles. apply rsum_ext. intros i _. unfold vel_push.
  rewrite (rsum_ext _ _ (space_col (sp_nv s) (sp_dv s) (dt * sp_accel s e pond i) (f i))) by (intros; apply vel_row_col).
  now apply space_col_mass.
Qed.

(** ** Poisson sees only the charge density *)
Lemma spectral_poisson_ext n dx st r r' : (forall h, (h < n)%nat -> r h = r' h) -> forall g, spectral_poisson n dx st r g = spectral_poisson n dx st r' g.
Proof.
  intros H g. rewrite !poisson_formula. f_equal. apply rsum_ext. intros k _. f_equal. apply rsum_ext. intros h Hh. f_equal. unfold total_charge. destruct st; rewrite H by exact Hh; reflexivity.
Qed.
Lemma poisson_ext n dx st F F' : (forall h, (h < n)%nat -> charge_density F h = charge_density F' h) -> forall g, poisson n dx st F g = poisson n dx st F' g.
Proof. intros H. unfold poisson. now apply spectral_poisson_ext. Qed.

(** ** Boltzmann electrons *)
Definition bk_x (nx : nat) (dx Te : R) (lam : option R) (F : fdict) (k : nat) : cplx :=
  cmul (cmul (0, - (1)) (boltzmann_kernel nx dx Te lam (mean nx (charge_density F)) k, 0)) (fft nx (charge_density F) k).
Lemma boltzmann_bk nx dx Te lam F : boltzmann nx dx Te lam F = (fun g => fst (ifft nx (bk_x nx dx Te lam F) g)).
Proof. reflexivity. Qed.
Lemma kx_0 n dx : (0 < n)%nat -> kx n dx 0 = 0.
Proof. intros H. unfold kx. destruct (Nat.ltb_spec (2 * 0) n); [|lia]. change (INR 0) with 0. unfold Rdiv. ring. Qed.
Lemma bk_mirror nx dx Te lam F k : dx <> 0 -> (0 < k < nx)%nat -> (2 * k <> nx)%nat -> bk_x nx dx Te lam F (nx - k) = conj (bk_x nx dx Te lam F k).
Proof.
  intros Hd Hk H2. unfold bk_x. set (r := mean nx (charge_density F)).
  assert (K : boltzmann_kernel nx dx Te lam r (nx - k) = - boltzmann_kernel nx dx Te lam r k).
  { unfold boltzmann_kernel. rewrite kx_mirror by (try lia; exact Hd). replace ((- kx nx dx k) ^ 2) with (kx nx dx k ^ 2) by ring. unfold Rdiv. ring. }
  rewrite K, fft_mirror by lia. apply cplx_eq; unfold cmul, conj; cbn [fst snd]; ring.
Qed.
Lemma boltzmann_mode nx dx Te lam F k : dx <> 0 -> (0 < k)%nat -> (2 * k < nx)%nat ->
  fft nx (boltzmann nx dx Te lam F) k = bk_x nx dx Te lam F k.
Proof. intros Hd Hk Hn. unfold boltzmann. apply (fft_real_mirrored nx (bk_x nx dx Te lam F) k); [lia|]. apply bk_mirror; [exact Hd|lia|lia]. Qed.
Lemma boltzmann_zero_mean nx dx Te lam F : (0 < nx)%nat -> rsum nx (boltzmann nx dx Te lam F) = 0.
Proof.
  intros Hn. pose proof (fft_0 nx (boltzmann nx dx Te lam F)) as E. apply (f_equal fst) in E. cbn [fst] in E. rewrite <- E.
  rewrite boltzmann_bk, (fft_real_ifft nx (bk_x nx dx Te lam F) 0 Hn). cbn [Nat.eqb]. unfold bk_x, boltzmann_kernel. rewrite kx_0 by exact Hn.
  unfold cscal, cadd, cmul, conj; cbn [fst snd]. pose proof (fft_0_real nx (charge_density F)) as E0. rewrite E0. unfold Rdiv. ring.
Qed.
Lemma boltzmann_nyquist nx dx Te lam F k : (0 < k)%nat -> (2 * k = nx)%nat -> fft nx (boltzmann nx dx Te lam F) k = c0.
Proof.
  intros Hk Hn. rewrite boltzmann_bk, (fft_real_ifft nx (bk_x nx dx Te lam F) k) by lia. destruct (Nat.eqb_spec k 0); [lia|].
  replace (nx - k)%nat with k by lia. unfold bk_x. pose proof (fft_nyq_real nx (charge_density F) k Hk Hn) as E.
  apply cplx_eq; unfold cscal, cadd, cmul, conj, c0; cbn [fst snd]; rewrite E; ring.
Qed.

(** ** Hamiltonian Ampere *)
Lemma hampere_mirror nx dx s f prev dt k : dx <> 0 -> (0 < k < nx)%nat -> (2 * k <> nx)%nat ->
  hampere_ek nx dx s f prev dt (nx - k) = conj (hampere_ek nx dx s f prev dt k).
Proof.
  intros Hd Hk H2. unfold hampere_ek. rewrite conj_add. rewrite fft_mirror by lia. f_equal.
  rewrite (ok_eq nx dx (nx - k)), (ok_eq nx dx k) by lia. rewrite kx_mirror by (try lia; exact Hd).
  pose proof (kx_nonzero nx dx k Hd Hk) as Hnz.
  rewrite (csum_ext (sp_nv s) _ (fun j => conj (cmul (fft nx (fun i => f i j) k) (csub (cis (- (kx nx dx k * dt * sp_v s j))) c1)))).
  2:{ intros j _. rewrite conj_mul, fft_mirror by lia. f_equal. replace (- (- kx nx dx k * dt * sp_v s j)) with (- - (kx nx dx k * dt * sp_v s j)) by ring.
      rewrite cis_neg. set (z := cis _). creal. }
  rewrite <- csum_conj. set (S := csum _ _).
  apply cplx_eq; unfold cscal, cmul, conj; cbn [fst snd]; field; exact Hnz.
Qed.
Lemma hampere_mode nx dx s f prev dt k : dx <> 0 -> (0 < k)%nat -> (2 * k < nx)%nat ->
  fft nx (hampere nx dx s f prev dt) k = hampere_ek nx dx s f prev dt k.
Proof. intros Hd Hk Hn. unfold hampere. apply fft_real_mirrored; [lia|]. apply hampere_mirror; [exact Hd|lia|lia]. Qed.
Lemma hampere_mean nx dx s f prev dt : (0 < nx)%nat -> rsum nx (hampere nx dx s f prev dt) = rsum nx prev.
Proof.
  intros Hn. pose proof (fft_0 nx (hampere nx dx s f prev dt)) as E. apply (f_equal fst) in E. cbn [fst] in E. rewrite <- E.
  unfold hampere. rewrite fft_real_ifft by exact Hn. cbn [Nat.eqb]. unfold hampere_ek at 1 2. cbn [one_over_kx]. rewrite fft_0.
  unfold cscal, cadd, cmul, conj; cbn [fst snd]. field.
Qed.
Lemma kx_kr nx dx k : (2 * k < nx)%nat -> kx nx dx k = kr nx dx k.
Proof. intros H. unfold kx, kr. destruct (Nat.ltb_spec (2 * k) nx); [|lia]. unfold Rdiv. ring. Qed.
(** The transform of the charge density of one species. *)
Lemma fft_density nx s f k : fft nx (density s f) k = cscal (sp_dv s) (csum (sp_nv s) (fun j => fft nx (fun i => f i j) k)).
Proof.
  unfold fft, density. rewrite csum_swap. rewrite <- csum_scal. apply csum_ext. intros i _. rewrite <- csum_scal.
  rewrite (csum_ext (sp_nv s) _ (fun j => cmul (f i j, 0) (cscal (sp_dv s) (cis (- angle nx k i))))) by (intros; creal).
  rewrite csum_mul_r.
  assert (E : csum (sp_nv s) (fun j => (f i j, 0)) = (rsum (sp_nv s) (f i), 0)) by (apply cplx_eq; [rewrite csum_fst; reflexivity|rewrite csum_snd; apply rsum_zero]).
  rewrite E. creal.
Qed.
Lemma fft_space_push nx dx s dt f j k : Nat.Even nx -> (0 < k)%nat -> (2 * k < nx)%nat ->
  fft nx (fun i => space_push nx dx s dt f i j) k = cmul (cis (- (kr nx dx k * (sp_v s j * dt)))) (fft nx (fun i => f i j) k).
Proof.
  intros He Hk Hn. unfold space_push. rewrite (fft_ext nx _ (smul nx (shiftM nx dx (sp_v s j * dt)) (fun i => f i j))) by (intros; now apply space_col_smul).
  rewrite fft_smul by lia. unfold eff. destruct (Nat.eqb_spec k 0); [lia|]. destruct (Nat.eqb_spec (2 * k) nx); [lia|]. reflexivity.
Qed.
Definition gauss_defect (nx : nat) (dx : R) (E rho : profile) (k : nat) : cplx := csub (cmul (0, kx nx dx k) (fft nx E k)) (fft nx rho k).
Lemma hampere_gauss nx dx s f prev dt k : Nat.Even nx -> dx <> 0 -> (0 < k)%nat -> (2 * k < nx)%nat ->
  gauss_defect nx dx (hampere nx dx s f prev dt) (fun i => sp_q s * density s (space_push nx dx s dt f) i) k
  = gauss_defect nx dx prev (fun i => sp_q s * density s f i) k.
Proof.
  intros He Hd Hk Hn. unfold gauss_defect. rewrite hampere_mode by assumption. unfold hampere_ek. rewrite ok_eq by lia.
  pose proof (kx_nonzero nx dx k Hd ltac:(lia)) as Hnz.
  assert (Q : forall r, fft nx (fun i => sp_q s * r i) k = cscal (sp_q s) (fft nx r k)).
  { intros r. unfold fft. rewrite <- csum_scal. apply csum_ext. intros. creal. }
  rewrite !Q, !fft_density.
  rewrite (csum_ext (sp_nv s) (fun j => fft nx (fun i => space_push nx dx s dt f i j) k)
            (fun j => cadd (cmul (fft nx (fun i => f i j) k) (csub (cis (- (kx nx dx k * dt * sp_v s j))) c1)) (fft nx (fun i => f i j) k))).
  2:{ intros j _. rewrite fft_space_push by assumption. rewrite <- kx_kr by exact Hn. replace (kx nx dx k * (sp_v s j * dt)) with (kx nx dx k * dt * sp_v s j) by ring. ring. }
  rewrite csum_add. set (A := csum _ (fun j => cmul _ _)). set (B := csum _ _).
  apply cplx_eq; unfold csub, cneg, cadd, cmul, cscal; cbn [fst snd]; field; exact Hnz.
Qed.
