(** Property C103, continued: the initial distribution of Vlasov-1D2V. *)
From Coq Require Import Psatz FunctionalExtensionality.
From Verif Require Import CylProofs CylProps VlasovProofs2 VInitProps VStep2v VStep2vProofs VStep2vProps VInit2v.
From Verif Require Import PyStr.
Local Open Scope R_scope.

Lemma wperp_pos h k : (0 < h_nvp h)%nat -> 0 < h_vpmax h -> (k < h_nvp h)%nat -> 0 < wperp h k.
Proof.
  intros. unfold wperp, perp_w. pose proof PI_RGT_0. assert (D : 0 < perp_dv (h_nvp h) (h_vpmax h)) by (unfold perp_dv; apply Rdiv_lt_0_compat; [assumption|now apply lt_0_INR]).
  assert (V : 0 < perp_v (h_nvp h) (h_vpmax h) k).
  { unfold perp_v, linspace. assert (A : perp_dv (h_nvp h) (h_vpmax h) * INR (h_nvp h) = h_vpmax h) by (unfold perp_dv; field; apply not_0_INR; lia).
    set (d := perp_dv (h_nvp h) (h_vpmax h)) in *. destruct (Nat.leb_spec (h_nvp h) 1); [lra|]. assert (0 <= INR k) by apply pos_INR. assert (1 <= INR (h_nvp h)) by (apply (le_INR 1); lia).
    assert (0 < INR (h_nvp h - 1)) by (apply lt_0_INR; lia). assert (0 <= (h_vpmax h - d / 2 - d / 2) / INR (h_nvp h - 1)) by (apply Rmult_le_pos; [nra|apply Rlt_le; now apply Rinv_0_lt_compat]). nra. }
  apply Rmult_lt_0_compat; [apply Rmult_lt_0_compat; [lra|exact V]|exact D].
Qed.
Lemma raw_sum_pos h T m : (0 < h_nvp h)%nat -> 0 < h_vpmax h -> 0 < rsum (h_nvp h) (fun l => m_perp_raw h T m l * wperp h l).
Proof. intros A B. apply rsum_pos; [exact A|]. intros k Hk. apply Rmult_lt_0_compat; [apply exp_pos|now apply wperp_pos]. Qed.
Lemma m_perp_pos h T m k : (0 < h_nvp h)%nat -> 0 < h_vpmax h -> 0 < m_perp h T m k.
Proof. intros. unfold m_perp. apply Rdiv_lt_0_compat; [apply exp_pos|now apply raw_sum_pos]. Qed.
Lemma m_perp_sum h T m : (0 < h_nvp h)%nat -> 0 < h_vpmax h -> rsum (h_nvp h) (fun k => m_perp h T m k * wperp h k) = 1.
Proof.
  intros A B. pose proof (raw_sum_pos h T m A B) as P. set (S0 := rsum (h_nvp h) (fun l => m_perp_raw h T m l * wperp h l)) in *.
  rewrite (rsum_ext _ _ (fun k => / S0 * (m_perp_raw h T m k * wperp h k))) by (intros; unfold m_perp; fold S0; unfold Rdiv; ring). rewrite rsum_scal. fold S0. field. lra.
Qed.
Lemma init_dist2_sum h nx x s cs i j k : init_dist2 h nx x s cs i j k = sum_list (fun c => init_component nx s c (component_density c x) i j * m_perp h (c_T0 c) (sp_m s) k) cs.
Proof.
  unfold init_dist2. rewrite <- (fold_sum (fun c => init_component nx s c (component_density c x) i j * m_perp h (c_T0 c) (sp_m s) k)).
  assert (G : forall a, fold_left (fun f c => fun i j k => f i j k + init_component nx s c (component_density c x) i j * m_perp h (c_T0 c) (sp_m s) k) cs a i j k
                        = fold_left (fun r c => r + init_component nx s c (component_density c x) i j * m_perp h (c_T0 c) (sp_m s) k) cs (a i j k)).
  { induction cs as [|c cs IH]; intros a; [reflexivity|]. cbn [fold_left]. now rewrite IH. }
  apply G.
Qed.

(* ------------------------------------------------------------------------------------------------ *)
(** The marginal of the initial distribution is exactly the initial distribution of the 1D solver, cell by cell, whatever
    the perpendicular grid, the temperatures, the drifts and the number of components; so the density is the requested
    profile. *)
Theorem C103_initial_marginal : forall h nx x s cs i j, (0 < h_nvp h)%nat -> 0 < h_vpmax h ->
  rsum (h_nvp h) (fun k => init_dist2 h nx x s cs i j k * (2 * PI * ((INR k + 1 / 2) * (h_vpmax h / INR (h_nvp h))) * (h_vpmax h / INR (h_nvp h)))) = init_dist nx x s cs i j.
Proof.
  intros h nx x s cs i j A B. rewrite (rsum_ext _ _ (fun k => sum_list (fun c => init_component nx s c (component_density c x) i j * (m_perp h (c_T0 c) (sp_m s) k * wperp h k)) cs)).
  - rewrite (sum_list_rsum (fun c k => init_component nx s c (component_density c x) i j * (m_perp h (c_T0 c) (sp_m s) k * wperp h k))). rewrite init_dist_sum. apply sum_list_eq. intros c _. rewrite rsum_scal, m_perp_sum by assumption. ring.
  - intros k Hk. replace (2 * PI * ((INR k + 1 / 2) * (h_vpmax h / INR (h_nvp h))) * (h_vpmax h / INR (h_nvp h))) with (wperp h k).
    + rewrite init_dist2_sum, sum_list_scal. apply sum_list_eq. intros c _. ring.
    + unfold wperp, perp_w, perp_v, linspace. fold (perp_dv (h_nvp h) (h_vpmax h)). assert (D : perp_dv (h_nvp h) (h_vpmax h) * INR (h_nvp h) = h_vpmax h) by (unfold perp_dv; field; apply not_0_INR; lia).
      set (d := perp_dv (h_nvp h) (h_vpmax h)) in *. destruct (Nat.leb_spec (h_nvp h) 1) as [L|L].
      * assert (k = 0%nat) by lia. subst k. cbn [INR]. field.
      * assert (E : INR (h_nvp h) = INR (h_nvp h - 1) + 1) by (rewrite <- S_INR; f_equal; lia). assert (0 < INR (h_nvp h - 1)) by (apply lt_0_INR; lia). rewrite <- D, E. field. lra.
Qed.
Print Assumptions C103_initial_marginal.
(** In v_perp a one-component distribution is the Maxwellian of its temperature, and the distribution is positive where
    the 1D one is. *)
Theorem C103_initial_maxwellian : forall h nx x s c i j k l, (0 < h_nvp h)%nat -> 0 < h_vpmax h ->
  init_dist2 h nx x s [c] i j k * exp (- (perp_v (h_nvp h) (h_vpmax h) l ^ 2) / (2 * c_T0 c / sp_m s)) =
  init_dist2 h nx x s [c] i j l * exp (- (perp_v (h_nvp h) (h_vpmax h) k ^ 2) / (2 * c_T0 c / sp_m s)) /\
  (0 < init_dist nx x s [c] i j -> 0 < init_dist2 h nx x s [c] i j k).
Proof.
  intros h nx x s c i j k l A B. rewrite !init_dist2_sum, init_dist_sum. unfold sum_list. cbn [fold_right map]. split.
  - unfold m_perp. fold (m_perp_raw h (c_T0 c) (sp_m s) k). fold (m_perp_raw h (c_T0 c) (sp_m s) l). pose proof (raw_sum_pos h (c_T0 c) (sp_m s) A B). field. lra.
  - intros P. pose proof (m_perp_pos h (c_T0 c) (sp_m s) k A B). nra.
Qed.
Print Assumptions C103_initial_maxwellian.
