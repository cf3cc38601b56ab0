(** Properties C16-C20 (running OSIRIS). Vocabulary: RunnerSpec.v. *)
From Verif Require Import Runner RunnerSpec RunnerProofs.

(** The run directory when run_osiris decides: the final sync of a staged run has been done. *)
Definition final_tree (a : run_args) (o : outcome) : tree :=
  if a_stage_root a && a_stream a then fst (sync_tree (o_fault o) (o_scratch o) (o_run o)) else o_run o.

(* ------------------------------------------------------------------------------------------------ *)
(** C16: with an existing binary, run_osiris raises exactly when the run failed and left no output;
    otherwise it returns with crashed = "the run failed" and the exit code unchanged. *)
Theorem C16_raises_iff : forall a o, a_binary_exists a = true ->
  ((exists t s, run_osiris a o = RunFailed t s) <-> run_failed o /\ ~ has_output (final_tree a o)).
Proof.
  intros a o Hb. unfold run_osiris. rewrite Hb. cbn [negb]. fold (final_tree a o).
  rewrite <- failure_spec, <- produced_output_spec. set (t := final_tree a o).
  destruct (failure o), (run_produced_output t); cbn [andb negb]; split;
    try (intros (u & s & H); discriminate H); try (intros [H1 H2]; try discriminate H1; exfalso; apply H2; reflexivity).
  - intros _. split; [reflexivity|discriminate].
  - intros _. eexists; eexists; reflexivity.
Qed.
Print Assumptions C16_raises_iff.

Theorem C16_otherwise_returns : forall a o, a_binary_exists a = true -> ~ (run_failed o /\ ~ has_output (final_tree a o)) ->
  exists r, run_osiris a o = Returned r /\ res_exit r = o_rc o /\ (res_crashed r = true <-> run_failed o) /\
    res_tree r = final_tree a o /\ res_cmd r = command a /\ (res_staged r = true <-> a_stage_root a = true /\ a_stream a = true) /\
    res_streamed r = (if a_stream a then Some (match o_streamed o with Some l => l | None => [] end) else None).
Proof.
  intros a o Hb Hn. unfold run_osiris. rewrite Hb. cbn [negb]. fold (final_tree a o).
  rewrite <- failure_spec, <- produced_output_spec in *. set (t := final_tree a o) in *.
  destruct (failure o && negb (run_produced_output t)) eqn:E.
  { exfalso. apply Hn. apply andb_prop in E. destruct E as [E1 E2]. split; [exact E1|]. intros H. rewrite H in E2. discriminate. }
  eexists. split; [reflexivity|]. cbn. split; [reflexivity|]. split; [apply failure_spec|]. split; [reflexivity|]. split; [reflexivity|].
  split; [apply andb_true_iff|reflexivity].
Qed.
Print Assumptions C16_otherwise_returns.

(** A missing binary is reported before anything runs. *)
Theorem C16_missing_binary : forall a o, run_osiris a o = NotFound <-> a_binary_exists a = false.
Proof.
  intros a o. unfold run_osiris. destruct (a_binary_exists a); cbn [negb]; [|tauto].
  destruct (failure o && _); split; discriminate.
Qed.
Print Assumptions C16_missing_binary.

Definition ex_args (stage : bool) : run_args :=
  {| a_binary := lit "/b/osiris"; a_binary_exists := true; a_ranks := 4; a_launcher := lit "srun"; a_extra := [lit "--gpus"];
     a_stream := true; a_stage_root := stage |}.
Definition ex_tree : tree := [([lit "MS"], Dir); ([lit "MS"; lit "FLD"], Dir); ([lit "MS"; lit "FLD"; lit "e1-000001.h5"], File (lit "x"))].
Definition ex_out (rc : Z) (err : string) (t : tree) : outcome :=
  {| o_rc := rc; o_out := lit "ok"; o_err := lit err; o_scratch := []; o_run := t; o_streamed := None; o_fault := fun _ => None |}.

(** Both sides occur: a failed run without output raises, with output it returns as crashed, an error on
    stderr alone (exit code 0) counts, a warning does not. *)
Example C16_nonvacuous :
  (run_failed (ex_out 1 "" []) /\ ~ has_output (final_tree (ex_args false) (ex_out 1 "" []))) /\
  (exists r, run_osiris (ex_args false) (ex_out 139 "" ex_tree) = Returned r /\ res_crashed r = true /\ res_exit r = 139%Z) /\
  run_failed (ex_out 0 "Error reading input" []) /\ ~ run_failed (ex_out 0 "(*warning*) factor of 2 error" []).
Proof.
  split; [split; [left; discriminate|]|split; [|split]].
  - rewrite <- produced_output_spec. discriminate.
  - eexists. split; [reflexivity|]. split; reflexivity.
  - rewrite <- failure_spec. reflexivity.
  - rewrite <- failure_spec. discriminate.
Qed.

(* ------------------------------------------------------------------------------------------------ *)
(** C17: the log file is the whole stream, the tail its last min(n, 200) lines, and the lines are the
    stream's lines (a newline only ever at a line's end). *)
Theorem C17_capture_exact : forall bytes,
  let (file, tail) := stream_to_file_and_buffer bytes in
  file = bytes /\ tail = last_n 200 (readlines bytes) /\ List.length tail = Nat.min 200 (List.length (readlines bytes)).
Proof.
  intros bytes. rewrite capture_spec. split; [reflexivity|]. split; [reflexivity|].
  unfold last_n. rewrite skipn_length. lia.
Qed.
Print Assumptions C17_capture_exact.

Theorem C17_lines_exact : forall bytes, List.concat (readlines bytes) = bytes /\
  Forall (fun l => exists body, (l = body ++ [nl] \/ (l = body /\ body <> [])) /\ ~ In nl body) (readlines bytes).
Proof. intros bytes. split; [apply readlines_concat|]. apply (readlines_aux_lines bytes []). intros []. Qed.
Print Assumptions C17_lines_exact.

Example C17_nonvacuous : readlines (lit "a" ++ [nl] ++ lit "bc" ++ [nl; nl] ++ lit "d") = [lit "a" ++ [nl]; lit "bc" ++ [nl]; [nl]; lit "d"].
Proof. reflexivity. Qed.

(* ------------------------------------------------------------------------------------------------ *)
(** C18: an (*error*) line among the last 200 lines of stdout makes an exit-0 run crashed (or raise). *)
Theorem C18_recent_error_detected : forall a o ln, a_binary_exists a = true ->
  In ln (last_n 200 (readlines (o_out o))) -> occurs (lit "(*error*)") ln ->
  (exists t s, run_osiris a o = RunFailed t s) \/ (exists r, run_osiris a o = Returned r /\ res_crashed r = true).
Proof.
  intros a o ln Hb Hin Ho. assert (Hf : failure o = true) by (apply failure_spec; right; right; exists ln; split; assumption).
  unfold run_osiris. rewrite Hb, Hf. cbn [negb andb]. destruct (negb _); [left; eexists; eexists; reflexivity|right]. eexists. split; reflexivity.
Qed.
Print Assumptions C18_recent_error_detected.

Definition long_output : str := lit "(*error*) bad deck" ++ [nl] ++ List.concat (repeat (lit "step" ++ [nl]) 200).

(** False beyond: 200 further lines hide it. *)
Theorem C18_old_error_refuted : exists o r, In (lit "(*error*) bad deck" ++ [nl]) (readlines (o_out o)) /\ o_rc o = 0%Z /\
  run_osiris (ex_args false) o = Returned r /\ res_crashed r = false.
Proof.
  exists {| o_rc := 0; o_out := long_output; o_err := []; o_scratch := []; o_run := []; o_streamed := None; o_fault := fun _ => None |}.
  eexists. split; [vm_compute; left; reflexivity|]. split; [reflexivity|].
  split; [vm_compute; reflexivity|vm_compute; reflexivity].
Qed.
Print Assumptions C18_old_error_refuted.

(** And the stdout test, unlike the stderr one, is case sensitive. *)
Theorem C18_uppercase_error_refuted : exists o r, readlines (o_out o) = [lit "(*ERROR*) bad deck"] /\ o_rc o = 0%Z /\
  run_osiris (ex_args false) o = Returned r /\ res_crashed r = false.
Proof.
  exists {| o_rc := 0; o_out := lit "(*ERROR*) bad deck"; o_err := []; o_scratch := []; o_run := []; o_streamed := None; o_fault := fun _ => None |}.
  eexists. split; [reflexivity|]. split; [reflexivity|]. split; reflexivity.
Qed.
Print Assumptions C18_uppercase_error_refuted.

Example C18_nonvacuous : In (lit "(*error*)" ++ [nl]) (last_n 200 (readlines (lit "(*error*)" ++ [nl] ++ lit "aborting"))) /\ occurs (lit "(*error*)") (lit "(*error*)" ++ [nl]).
Proof. split; [left; reflexivity|]. exists [], [nl]. reflexivity. Qed.

(* ------------------------------------------------------------------------------------------------ *)
(** C19: the first existing path among the configured one (unless empty), OSIRIS_BIN_<dim>D, OSIRIS_BIN;
    an error iff none exists. *)
Theorem C19_discovery : forall exists_ cfg dim env,
  let cs := binary_candidates cfg dim env in
  (forall c, In c cs <-> (cfg = Some c /\ c <> []) \/ (exists d, dim = Some d /\ env (lit "OSIRIS_BIN_" ++ z_to_str d ++ lit "D") = Some c)
                         \/ env (lit "OSIRIS_BIN") = Some c) /\
  match discover_binary exists_ cfg dim env with
  | Some p => exists_ p = true /\ exists before after, cs = before ++ p :: after /\ Forall (fun c => exists_ c = false) before
  | None => forall c, In c cs -> exists_ c = false
  end.
Proof.
  intros exists_ cfg dim env cs. split.
  - intros c. unfold cs, binary_candidates. rewrite !in_app_iff. split.
    + intros [H|[H|H]].
      * left. destruct cfg as [[|x y]|]; cbn in H; intuition congruence.
      * right; left. destruct dim as [d|]; [|destruct H]. exists d. split; [reflexivity|].
        destruct (env _) as [v|]; [|destruct H]. destruct H as [->|[]]. reflexivity.
      * right; right. destruct (env (lit "OSIRIS_BIN")) as [v|]; [|destruct H]. destruct H as [->|[]]. reflexivity.
    + intros [[-> Hne]|[(d & -> & H)|H]].
      * left. destruct c; [congruence|now left].
      * right; left. rewrite H. now left.
      * right; right. rewrite H. now left.
  - unfold discover_binary. fold cs. clearbody cs. induction cs as [|c cs IH]; cbn [find]; [intros c []|].
    destruct (exists_ c) eqn:E.
    + split; [exact E|]. exists [], cs. split; [reflexivity|constructor].
    + destruct (find exists_ cs) as [p|].
      * destruct IH as (H & b & a & -> & Hb). split; [exact H|]. exists (c :: b), a. split; [reflexivity|]. now constructor.
      * intros x [<-|H]; [exact E|now apply IH].
Qed.
Print Assumptions C19_discovery.

Definition ex_env (k : str) : option str :=
  if str_eqb k (lit "OSIRIS_BIN_2D") then Some (lit "/opt/o2d") else if str_eqb k (lit "OSIRIS_BIN") then Some (lit "/opt/o") else None.
Example C19_nonvacuous : discover_binary (fun p => negb (str_eqb p (lit "/typo"))) (Some (lit "/typo")) (Some 2%Z) ex_env = Some (lit "/opt/o2d").
Proof. reflexivity. Qed.
(** So a mistyped configured path is not reported: another binary is used silently. *)
Theorem C19_bad_configured_path_refuted : exists exists_ cfg env p,
  exists_ cfg = false /\ cfg <> [] /\ discover_binary exists_ (Some cfg) None env = Some p /\ p <> cfg.
Proof.
  exists (fun p => negb (str_eqb p (lit "/typo"))), (lit "/typo"), ex_env, (lit "/opt/o").
  split; [reflexivity|]. split; [discriminate|]. split; [reflexivity|discriminate].
Qed.
Print Assumptions C19_bad_configured_path_refuted.

(* ------------------------------------------------------------------------------------------------ *)
(** C20: the final sync of well-formed trees, when no copy fails and no destination file stands where
    a source directory is needed: it succeeds; destination entries keep their contents; every source file
    is there; everything else is a parent directory of a source file. *)
Theorem C20_sync_exact : forall src dst fault, tree_ok src -> (forall p, fault p = None) ->
  (forall p c, above_file src p -> tlookup p dst <> Some (File c)) ->
  let (res, raised) := sync_tree fault src dst in
  raised = false /\
  (forall p n, tlookup p dst = Some n -> tlookup p res = Some n) /\
  (forall p c, In (p, File c) src -> tlookup p dst = None -> tlookup p res = Some (File c)) /\
  (forall p n, tlookup p res = Some n -> tlookup p dst = None ->
     match n with File c => In (p, File c) src | Dir => p <> [] /\ above_file src p end).
Proof.
  intros src dst fault Hok Hf Hc.
  assert (H0 : forall p n, tlookup p dst = Some n -> from dst src p n) by (intros p n H; left; exact H).
  destruct (sync_complete src dst Hok Hc src dst fault (fun x H => H) Hf H0) as [H1 H2].
  pose proof (sync_keeps fault src dst) as H3.
  pose proof (sync_from src dst src dst fault (fun x H => H) Hf H0) as H4.
  destruct (sync_tree fault src dst) as [res raised]. cbn [fst snd] in *. split; [exact H1|]. split; [exact H3|]. split; [exact H2|].
  intros p n Hp Hd. destruct (H4 p n Hp) as [A|A]; [congruence|exact A].
Qed.
Print Assumptions C20_sync_exact.

(** Whatever fails, and whatever the trees: nothing that existed is touched and no file appears from
    nowhere (a failed copy may leave a partial file at its own, new, path). *)
Theorem C20_sync_safe : forall src dst fault,
  let res := fst (sync_tree fault src dst) in
  (forall p n, tlookup p dst = Some n -> tlookup p res = Some n) /\
  (forall p c, tlookup p res = Some (File c) -> tlookup p dst = Some (File c) \/ In (p, File c) src \/ fault p = Some c).
Proof. intros src dst fault. split; [apply sync_keeps|apply sync_sound]. Qed.
Print Assumptions C20_sync_safe.

(** A staged run: every file the scratch held is in the returned run directory. *)
Theorem C20_staged_run_keeps_files : forall a o r, a_stage_root a = true -> a_stream a = true ->
  tree_ok (o_scratch o) -> (forall p, o_fault o p = None) ->
  (forall p c, above_file (o_scratch o) p -> tlookup p (o_run o) <> Some (File c)) ->
  run_osiris a o = Returned r ->
  forall p c, In (p, File c) (o_scratch o) -> tlookup p (o_run o) = None -> tlookup p (res_tree r) = Some (File c).
Proof.
  intros a o r Ha Hs Hok Hf Hc Hr p c Hin Hp.
  pose proof (C20_sync_exact (o_scratch o) (o_run o) (o_fault o) Hok Hf Hc) as H.
  assert (E : res_tree r = fst (sync_tree (o_fault o) (o_scratch o) (o_run o))).
  { unfold run_osiris in Hr. rewrite Ha, Hs in Hr. cbn [andb] in Hr. destruct (negb (a_binary_exists a)); [discriminate|].
    destruct (failure o && _); [discriminate|]. injection Hr as <-. reflexivity. }
  rewrite E. destruct (sync_tree (o_fault o) (o_scratch o) (o_run o)) as [res raised]. cbn [fst]. now apply H.
Qed.
Print Assumptions C20_staged_run_keeps_files.

Definition ex_scratch : tree := [([lit "HIST"], Dir); ([lit "HIST"; lit "fld_ene"], File (lit "1")); ([lit "HIST"; lit "par_ene"], File (lit "2"));
                                 ([lit "os-stdin"], File (lit "deck"))].
Lemma ex_scratch_ok : tree_ok ex_scratch.
Proof.
  split; [|split].
  - repeat (constructor; [cbn; intuition discriminate|]). constructor.
  - intros p n H. cbn in H. intuition (try congruence); injection H0 as <- <-; discriminate.
  - intros p n k H Hk. cbn in H. destruct H as [H|[H|[H|[H|[]]]]]; injection H as <- <-; cbn in Hk; try lia;
      (replace k with 1 by lia; left; reflexivity).
Qed.
Example C20_nonvacuous : sync_tree (fun _ => None) ex_scratch [([lit "os-stdin"], File (lit "old"))] =
  ([([lit "os-stdin"], File (lit "old")); ([lit "HIST"], Dir); ([lit "HIST"; lit "fld_ene"], File (lit "1")); ([lit "HIST"; lit "par_ene"], File (lit "2"))], false).
Proof. reflexivity. Qed.

(** When a copy fails the scratch is deleted all the same, with the files not yet copied. *)
Theorem C20_failed_sync_refuted : exists a o r p c, a_stage_root a = true /\ a_stream a = true /\ tree_ok (o_scratch o) /\
  run_osiris a o = Returned r /\ In (p, File c) (o_scratch o) /\ o_fault o p = None /\
  tlookup p (o_run o) = None /\ tlookup p (res_tree r) = None /\ res_scratch r = [].
Proof.
  exists (ex_args true), {| o_rc := 0; o_out := []; o_err := []; o_scratch := ex_scratch; o_run := []; o_streamed := None;
    o_fault := fun p => if path_eqb p [lit "HIST"; lit "fld_ene"] then Some [] else None |}.
  eexists. exists [lit "HIST"; lit "par_ene"], (lit "2").
  split; [reflexivity|]. split; [reflexivity|]. split; [exact ex_scratch_ok|]. split; [reflexivity|].
  split; [right; right; left; reflexivity|]. repeat split; reflexivity.
Qed.
Print Assumptions C20_failed_sync_refuted.

(* ------------------------------------------------------------------------------------------------ *)
(** C55: the command line reported by a run that returns. One rank (or fewer): the binary alone, whatever
    launcher and extra arguments were given. Several ranks: the launcher first, "-n" and the decimal rank
    count, every extra argument in the given order, the binary last; nothing else. *)
Theorem C55_command_line : forall a o r, run_osiris a o = Returned r ->
  last (res_cmd r) [] = a_binary a /\
  ((a_ranks a <= 1)%Z -> res_cmd r = [a_binary a]) /\
  ((1 < a_ranks a)%Z -> exists n, int_of_str n = a_ranks a /\ List.length (res_cmd r) = 4 + List.length (a_extra a) /\
     nth_error (res_cmd r) 0 = Some (a_launcher a) /\ nth_error (res_cmd r) 1 = Some (lit "-n") /\ nth_error (res_cmd r) 2 = Some n /\
     (forall i, i < List.length (a_extra a) -> nth_error (res_cmd r) (3 + i) = nth_error (a_extra a) i)).
Proof.
  intros a o r H. assert (E : res_cmd r = command a).
  { unfold run_osiris in H. destruct (negb (a_binary_exists a)); [discriminate|]. destruct (failure o && _); [discriminate|]. injection H as <-. reflexivity. }
  rewrite E. unfold command. destruct (Z.gtb_spec (a_ranks a) 1) as [G|G].
  - split; [rewrite app_assoc; apply last_last|]. split; [intros; lia|]. intros _. exists (z_to_str (a_ranks a)).
    split; [apply int_of_z_to_str|]. split; [cbn [List.length app]; rewrite app_length; cbn [List.length]; lia|].
    split; [reflexivity|]. split; [reflexivity|]. split; [reflexivity|].
    intros i Hi. cbn [app plus nth_error]. now apply nth_error_app1.
  - split; [reflexivity|]. split; [reflexivity|]. intros; lia.
Qed.
Print Assumptions C55_command_line.

Example C55_nonvacuous : exists r, run_osiris (ex_args true) (ex_out 0 "" ex_tree) = Returned r /\
  res_cmd r = [lit "srun"; lit "-n"; lit "4"; lit "--gpus"; lit "/b/osiris"] /\ res_scratch r = [].
Proof. eexists. split; [reflexivity|]. split; reflexivity. Qed.

(** A run that is not staged (no stage root, or streaming switched off) moves and deletes nothing: the run
    directory and every other directory are what the process and the converter left - also when it raises. *)
Theorem C55_unstaged_untouched : forall a o, a_stage_root a = false \/ a_stream a = false ->
  (forall r, run_osiris a o = Returned r -> res_tree r = o_run o /\ res_scratch r = o_scratch o /\ res_staged r = false) /\
  (forall t s, run_osiris a o = RunFailed t s -> t = o_run o /\ s = o_scratch o).
Proof.
  intros a o H. assert (E : a_stage_root a && a_stream a = false) by (apply andb_false_iff; exact H).
  unfold run_osiris. rewrite E. destruct (negb (a_binary_exists a)); [split; intros; discriminate|].
  destruct (failure o && _); split; intros; try discriminate.
  - injection H0 as <- <-. split; reflexivity.
  - injection H0 as <-. repeat split.
Qed.
Print Assumptions C55_unstaged_untouched.

(** A staged run always leaves an empty scratch, also when it raises. *)
Theorem C55_staged_scratch_reclaimed : forall a o, a_stage_root a = true -> a_stream a = true ->
  (forall r, run_osiris a o = Returned r -> res_scratch r = [] /\ res_staged r = true) /\
  (forall t s, run_osiris a o = RunFailed t s -> s = [] /\ t = final_tree a o).
Proof.
  intros a o H1 H2. unfold run_osiris, final_tree. rewrite H1, H2. cbn [andb]. destruct (negb (a_binary_exists a)); [split; intros; discriminate|].
  destruct (failure o && _); split; intros; try discriminate.
  - injection H as <- <-. split; reflexivity.
  - injection H as <-. repeat split.
Qed.
Print Assumptions C55_staged_scratch_reclaimed.
