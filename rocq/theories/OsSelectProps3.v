(** C111: the settings with which the OSIRIS plots are drawn, live and regenerated. *)
From Verif Require Import OsSelect.
From Coq Require Import List.
Local Open Scope R_scope.

Lemma dget_app {V} k (d e : list (str * V)) : dget k (d ++ e) = match dget k d with Some v => Some v | None => dget k e end.
Proof. induction d as [|[k' v] d IH]; cbn; [reflexivity|]. destruct (str_eqb k k'); [reflexivity|exact IH]. Qed.
Lemma dget_dset {V} k k' (v : V) d : dget k (dset k' v d) = if str_eqb k k' then Some v else dget k d.
Proof.
  induction d as [|[k2 v2] d IH]; cbn.
  - reflexivity.
  - destruct (str_eqb k' k2) eqn:E.
    + apply str_eqb_eq in E. subst k2. cbn. destruct (str_eqb k k'); reflexivity.
    + cbn. rewrite IH. destruct (str_eqb k k2) eqn:E2; [|reflexivity]. destruct (str_eqb k k') eqn:E3; [|reflexivity]. apply str_eqb_eq in E2, E3. subst. rewrite str_eqb_refl in E. discriminate.
Qed.
Lemma dget_update e : forall k d, NoDup (map fst e) -> dget k (update d e) = match dget k e with Some v => Some v | None => dget k d end.
Proof.
  induction e as [|[k' v] e IH]; intros k d N; cbn [update dget map fst] in *; [reflexivity|]. inversion N; subst. rewrite IH by assumption. rewrite dget_dset.
  destruct (dget k e) as [u|] eqn:E; [|destruct (str_eqb k k'); reflexivity]. destruct (str_eqb k k') eqn:E2; [|reflexivity]. exfalso. apply str_eqb_eq in E2. subst k'. apply H1.
  clear - E. induction e as [|[k2 w] e IH]; cbn in *; [discriminate|]. destruct (str_eqb k k2) eqn:E3; [left; now apply str_eqb_eq in E3|right; now apply IH].
Qed.

(** What each parameter of the plots is, from an output block: v_th as given (null if absent); omega_k_zoom as given, null
    included, else 4; omega_p the square root of the overlay density, else 1; the two overlays on exactly when asked for; dpi and
    the number of panels are not taken from the block. *)
Theorem C111_live : forall cfg, let s := setting (live_kwargs (Some cfg)) in
  s (lit "v_th") = Some (match dget (lit "v_th") cfg with Some v => v | None => YNull end) /\
  s (lit "omega_k_zoom") = Some (match dget (lit "omega_k_zoom") cfg with Some v => v | None => YNum 4 end) /\
  s (lit "omega_p") = Some (match dget (lit "overlay_density") cfg with Some YNull | None => YNum 1 | Some v => YNum (sqrt (num v)) end) /\
  s (lit "show_bam") = Some (YBool (match dget (lit "bam") cfg with Some v => truthy v | None => false end)) /\
  s (lit "show_ion_acoustic") = Some (YBool (match dget (lit "ion_acoustic") cfg with Some v => truthy v | None => false end)) /\
  s (lit "dpi") = Some (YNum 120) /\ s (lit "n_panels") = Some (YNum 8).
Proof.
  intros cfg. cbv zeta. unfold live_kwargs, setting, canned_kwargs.
  destruct (dget (lit "v_th") cfg), (dget (lit "omega_k_zoom") cfg), (dget (lit "overlay_density") cfg) as [[| |]|], (dget (lit "bam") cfg), (dget (lit "ion_acoustic") cfg); cbn; repeat split; reflexivity.
Qed.
Print Assumptions C111_live.
Example live_example : setting (live_kwargs (Some [(lit "overlay_density", YNum (1 / 4)); (lit "omega_k_zoom", YNull)])) (lit "omega_k_zoom") = Some YNull.
Proof. reflexivity. Qed.

(** Regenerating: an override wins over the block, the block over the defaults. *)
Theorem C111_precedence : forall d src out use ov k, NoDup (map fst ov) ->
  setting (j_kwargs (regenerate d src out use ov)) k =
  match dget k ov with Some v => Some v | None => setting (live_kwargs (Some (if use then load_output_cfg d src else []))) k end.
Proof. intros d src out use ov k N. unfold setting, regenerate, live_kwargs. cbn [j_kwargs]. rewrite dget_update by exact N. destruct (dget k ov); reflexivity. Qed.
Print Assumptions C111_precedence.
(** Without overrides the plots of a run directory that holds its config.yaml are drawn with exactly the arguments of the live
    run, from the same data when these are in its binary directory. *)
Theorem C111_same_as_live : forall d run output, config_at d run = Some (Some output) -> is_dir d (sub run (lit "binary")) = true ->
  regenerate d run None true [] = {| j_source := sub run (lit "binary"); j_out := sub run (lit "plots_regen"); j_kwargs := live_kwargs output |}.
Proof.
  intros d run output C B. unfold regenerate, find_binary_dir, default_out_dir, load_output_cfg. rewrite B, C. cbn [update]. reflexivity.
Qed.
Print Assumptions C111_same_as_live.
(** Naming the run or its binary directory is the same, when config.yaml is beside the binary directory and the binary directory
    has no binary directory and no config.yaml of its own. *)
Lemma parent_sub p n : parent (sub p n) = p.
Proof. unfold parent, sub. apply removelast_last. Qed.
Theorem C111_run_or_binary : forall d run c out use ov, is_dir d (sub run (lit "binary")) = true -> is_dir d (sub (sub run (lit "binary")) (lit "binary")) = false ->
  config_at d run = Some c -> config_at d (sub run (lit "binary")) = None ->
  regenerate d (sub run (lit "binary")) out use ov = regenerate d run out use ov.
Proof.
  intros d run c out use ov B NB C NC. unfold regenerate, find_binary_dir, default_out_dir, load_output_cfg. rewrite B, NB, NC, C, parent_sub, C. reflexivity.
Qed.
Print Assumptions C111_run_or_binary.
Definition small_disk : disk :=
  {| is_dir := fun p => match p with [_; n] | [_; _; n] => str_eqb n (lit "binary") && negb (existsb (str_eqb (lit "binary")) (removelast p)) | _ => false end;
     config_at := fun p => match p with [_; _] => if existsb (str_eqb (lit "binary")) p then None else None | [_] => Some (Some (Some [(lit "v_th", YNum 7)])) | _ => None end |}.
Example regen_example : j_source (regenerate small_disk [lit "data"] None true []) = [lit "data"; lit "binary"] /\ setting (j_kwargs (regenerate small_disk [lit "data"] None true [])) (lit "v_th") = Some (YNum 7).
Proof. split; reflexivity. Qed.
(** Refuted: without a config of its own a run is drawn with the default settings (the config of the directory above is taken),
    and then naming the run or its binary directory is the same. *)
Theorem C111_parent_refuted : let run := [lit "data"; lit "run1"] in is_dir small_disk (sub run (lit "binary")) = true /\ config_at small_disk run = None /\
  setting (j_kwargs (regenerate small_disk run None true [])) (lit "v_th") = Some (YNum 7) /\
  setting (j_kwargs (regenerate small_disk (sub run (lit "binary")) None true [])) (lit "v_th") = Some YNull.
Proof. cbv zeta. repeat split; reflexivity. Qed.
Print Assumptions C111_parent_refuted.
(** The command line: each option wins when given; without a zoom option the block decides; disabling the zoom wins over a
    requested one. *)
Theorem C111_cli : forall a, NoDup (map fst (cli_overrides a)) /\ forall k,
  dget k (cli_overrides a) =
  if str_eqb k (lit "v_th") then option_map YNum (a_v_th a) else if str_eqb k (lit "dpi") then option_map YNum (a_dpi a) else if str_eqb k (lit "n_panels") then option_map YNum (a_n_panels a)
  else if str_eqb k (lit "omega_k_zoom") then (if a_no_zoom a then Some YNull else option_map YNum (a_zoom a)) else None.
Proof.
  intros [v d n z q]. split.
  - destruct v, d, n, z, q; cbn; repeat constructor; cbn; intros H; repeat (destruct H as [H|H]; [discriminate H|]); exact H.
  - intros k. unfold cli_overrides. cbn [a_v_th a_dpi a_n_panels a_no_zoom a_zoom]. rewrite !dget_app.
    assert (D : forall x y, str_eqb k x = true -> x <> y -> str_eqb k y = false) by (intros x y E N; apply str_eqb_eq in E; subst; now apply str_eqb_neq).
    destruct (str_eqb k (lit "v_th")) eqn:E1; [|destruct (str_eqb k (lit "dpi")) eqn:E2; [|destruct (str_eqb k (lit "n_panels")) eqn:E3; [|destruct (str_eqb k (lit "omega_k_zoom")) eqn:E4]]];
      try (assert (F2 := D _ (lit "dpi") E1 ltac:(discriminate))); try (assert (F3 := D _ (lit "n_panels") E1 ltac:(discriminate))); try (assert (F4 := D _ (lit "omega_k_zoom") E1 ltac:(discriminate)));
      try (assert (F5 := D _ (lit "n_panels") E2 ltac:(discriminate))); try (assert (F6 := D _ (lit "omega_k_zoom") E2 ltac:(discriminate))); try (assert (F7 := D _ (lit "omega_k_zoom") E3 ltac:(discriminate)));
      destruct v, d, n, z, q; unfold opt; cbn [dget option_map]; rewrite ?E1, ?E2, ?E3, ?E4, ?F2, ?F3, ?F4, ?F5, ?F6, ?F7; reflexivity.
Qed.
Print Assumptions C111_cli.
