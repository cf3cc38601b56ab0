(** Properties C30, C31: the ergoExo lifecycle and solver selection (model: Base.v, vocabulary: BaseSpec.v). *)
From Verif Require Import Base BaseSpec BaseProofs BaseProofs2 BaseProofs3.

Section Props.
Context {Cfg MSt Units Mods Args Out Post : Type}.
Notation st := (st Cfg MSt Units Mods Args Out Post).
Notation module := (module Cfg MSt Units Mods Args Out Post).
Notation op := (op Cfg MSt Units Mods Args Out Post).
Notation setup := (setup Cfg MSt Units Mods Args Out Post).
Notation run := (run Cfg MSt Units Mods Args Out Post).
Notation session := (session Cfg MSt Units Mods Args Out Post).
Notation fresh := (fresh Cfg MSt Units Mods Args Out Post).
Notation heap := (heap Cfg MSt Units Mods Args Out Post).
Notation trace := (trace Cfg MSt Units Mods Args Out Post).
Notation ran_setup := (ran_setup Cfg MSt Units Mods Args Out Post).
Notation run_id := (run_id Cfg MSt Units Mods Args Out Post).
Notation StartRun := (StartRun Cfg Units).
Notation EndRun := (EndRun Cfg Units).
Notation Called := (Called Cfg Units).
Notation LogParams := (LogParams Cfg Units).
Notation SetExperiment := (SetExperiment Cfg Units).
Notation CCfg := (CCfg Cfg Units).
Notation CUnits := (CUnits Cfg Units).

(** Whatever sequence of setups and runs is made on one object, with any modules: the user's configuration
    objects keep the contents they had. *)
Theorem C30_user_config_untouched (ops : list op) (cfgs : list Cfg) rid next :
  firstn (List.length cfgs) (heap (fst (session ops (fresh cfgs rid next)))) = cfgs.
Proof.
  assert (H : safe cfgs (fst (session ops (fresh cfgs rid next)))).
  { apply safe_session. unfold safe. cbn. split; [lia|]. split; [apply firstn_all|exact I]. }
  apply H.
Qed.

(** A setup with the user's configuration [c], at any point of any session. If it succeeds: the module's hooks
    ran once each, in the documented order, starting from [c] (set_up); the whole outside effect is one MLflow
    run whose parameters are the derived configuration and whose artifacts are config.yaml = the configuration
    as given, the units, the derived configuration and the array configuration. If it raises: the hooks called
    are an initial piece of that order, nothing was uploaded, the MLflow run was closed, and the object is as
    ready (or not) as before. *)
Theorem C30_setup_exact (ops : list op) (cfgs : list Cfg) rid next pick u c :
  nth_error cfgs u = Some c ->
  let s := fst (session ops (fresh cfgs rid next)) in
  let new := match run_id s with Some _ => false | None => true end in
  match setup pick u s with
  | (s', Some mods) =>
      exists m units cd ca cf msf id, pick c = Some m /\ set_up m c units cd ca cf msf mods /\
        ran_setup s' = true /\ run_id s' = Some id /\ (new = false -> run_id s = Some id) /\
        trace s' = trace s ++ (if new then [SetExperiment] else []) ++
          [StartRun id new; Called HInit; Called HWriteUnits; Called HDerived; LogParams cd; Called HSolver; Called HState;
           Called HDiffeqsolve; Called HModules;
           Artifacts _ _ [(ConfigYaml, CCfg c); (UnitsYaml, CUnits units); (DerivedYaml, CCfg cd); (ArrayPkl, CCfg ca)]; EndRun]
  | (s', None) =>
      ran_setup s' = ran_setup s /\ run_id s' = run_id s /\
      exists id t, trace s' = trace s ++ (if new then [SetExperiment] else []) ++ [StartRun id new] ++ t ++ [EndRun] /\
        prefix (hooks_called t) documented_order /\ artifacts t = []
  end.
Proof.
  intros Hc s new.
  assert (Hs : nth_error (heap s) u = Some c).
  { pose proof (C30_user_config_untouched ops cfgs rid next) as H. fold s in H. rewrite <- (firstn_skipn (List.length cfgs) (heap s)).
    rewrite nth_error_app1; [rewrite H; exact Hc|]. rewrite H. apply nth_error_Some. congruence. }
  pose proof (setup_exec pick u c s Hs) as E. change (is_new s) with new in E. destruct (setup pick u s) as [s' [mods|]].
  - destruct E as (m & units & cd & ca & cf & msf & Hp & Hu & ->). exists m, units, cd, ca, cf, msf, (the_id s).
    split; [exact Hp|]. split; [exact Hu|]. split; [reflexivity|]. split; [reflexivity|]. split; [|reflexivity].
    subst new. unfold the_id. destruct (run_id s); [reflexivity|discriminate].
  - destruct E as ((t & Et & Hp & Ha & _) & E1 & E2 & _). split; [exact E1|]. split; [exact E2|]. exists (the_id s), t. split; [exact Et|]. now split.
Qed.

(** A run is refused exactly when no setup of the session has succeeded yet; a refused run does nothing. *)
Theorem C30_refused_before_setup (ops : list op) (cfgs : list Cfg) rid next vg mods args :
  let s := fst (session ops (fresh cfgs rid next)) in
  (snd (run vg mods args s) = Refused _ <-> ~ exists ms, In (RSetup _ _ _ (Some ms)) (snd (session ops (fresh cfgs rid next)))) /\
  (snd (run vg mods args s) = Refused _ -> fst (run vg mods args s) = s).
Proof.
  intros s. pose proof (run_facts vg mods args s) as (H1 & H2 & _). pose proof (session_facts ops (fresh cfgs rid next)) as (_ & _ & _ & H3). fold s in H3.
  split; [|intros H; apply H2; now apply H1]. rewrite H1.
  assert (HE : Exists succeeded (snd (session ops (fresh cfgs rid next))) <-> exists ms, In (RSetup _ _ _ (Some ms)) (snd (session ops (fresh cfgs rid next)))).
  { rewrite Exists_exists. split.
    - intros (x & Hx & K). destruct x as [[ms|]|]; cbn in K; try tauto. now exists ms.
    - intros (ms & Hx). exists (RSetup Mods Out Post (Some ms)). split; [exact Hx|exact I]. }
  rewrite <- HE. destruct H3 as [H3 H4]. split.
  - intros E K. rewrite H4 in E by now right. discriminate.
  - intros K. destruct (ran_setup s) eqn:E; [|reflexivity]. destruct (H3 eq_refl) as [H|H]; [discriminate|tauto].
Qed.

(** Once a setup has succeeded (or the object was given a run to resume), all later setups and runs use that
    same MLflow run. *)
Theorem C30_one_run (ops1 ops2 : list op) (cfgs : list Cfg) rid next :
  let s1 := fst (session ops1 (fresh cfgs rid next)) in
  let s2 := fst (session (ops1 ++ ops2) (fresh cfgs rid next)) in
  ((exists ms, In (RSetup _ _ _ (Some ms)) (snd (session ops1 (fresh cfgs rid next)))) \/ rid <> None -> run_id s1 <> None) /\
  forall id, run_id s1 = Some id ->
    run_id s2 = Some id /\ exists t, trace s2 = trace s1 ++ t /\ forall i new, In (StartRun i new) t -> i = id /\ new = false.
Proof.
  intros s1 s2. split.
  - pose proof (session_facts ops1 (fresh cfgs rid next)) as (_ & H1 & H2 & _). fold s1 in H1, H2. intros [(ms & H)|H].
    + apply H2. apply Exists_exists. exists (RSetup Mods Out Post (Some ms)). split; [exact H|exact I].
    + destruct rid as [id|]; [|congruence]. rewrite (H1 id eq_refl). discriminate.
  - intros id Hid. subst s2. rewrite session_app. cbn [fst]. fold s1. pose proof (session_facts ops2 s1) as ((t & Et & Ht) & H1 & _).
    split; [now apply H1|]. exists t. split; [exact Et|]. exact (Ht id Hid).
Qed.

(** If the latest setup succeeded, a run calls the module that setup built, on exactly the configuration and
    private state its hooks left, and hands the run's output to the module's post-processing. *)
Theorem C30_run_uses_latest_setup (ops : list op) (cfgs : list Cfg) rid next pick u c mods0 s vg mods args :
  nth_error cfgs u = Some c ->
  setup pick u (fst (session ops (fresh cfgs rid next))) = (s, Some mods0) ->
  exists m units cd ca cf msf, pick c = Some m /\ set_up m c units cd ca cf msf mods0 /\
    snd (run vg mods args s) =
      match (if vg then m_vg _ _ _ _ _ _ _ m mods args cf msf else m_call _ _ _ _ _ _ _ m mods args cf msf) with
      | (c1, ms1, Some out) => match m_post _ _ _ _ _ _ _ m out c1 ms1 with (_, _, Some post) => Done _ (out, post) | _ => Raised _ end
      | _ => Raised _
      end.
Proof.
  intros Hc Hs. set (s0 := fst (session ops (fresh cfgs rid next))) in *.
  assert (Hh : nth_error (heap s0) u = Some c).
  { pose proof (C30_user_config_untouched ops cfgs rid next) as H. fold s0 in H. rewrite <- (firstn_skipn (List.length cfgs) (heap s0)).
    rewrite nth_error_app1; [rewrite H; exact Hc|]. rewrite H. apply nth_error_Some. congruence. }
  pose proof (setup_exec pick u c s0 Hh) as E. rewrite Hs in E. destruct E as (m & units & cd & ca & cf & msf & Hp & Hu & ->).
  exists m, units, cd, ca, cf, msf. split; [exact Hp|]. split; [exact Hu|].
  apply run_mid.
Qed.
End Props.
Print Assumptions C30_user_config_untouched.
Print Assumptions C30_setup_exact.
Print Assumptions C30_refused_before_setup.
Print Assumptions C30_one_run.
Print Assumptions C30_run_uses_latest_setup.

(* ------------------------------------------------------------------------------------------------ *)
(** A concrete module over lists of numbers: every hook appends its own number to the configuration and to the
    private state, so that every later value shows what ran before. *)
Definition L := list nat.
Definition digit (d : nat) : hook L L nat := fun c ms => (c ++ [d], ms ++ [d], Some d).
Definition digit_u (d : nat) : hook L L unit := fun c ms => (c ++ [d], ms ++ [d], Some tt).
Definition demo : module L L nat nat nat (L * L) L :=
  {| m_init := fun c => (c ++ [1], Some [1]); m_write_units := digit 2; m_derived := digit_u 3; m_solver := digit_u 4;
     m_state := digit_u 5; m_diffeqsolve := digit_u 6; m_modules := digit 7;
     m_call := fun mods args c ms => (c, ms, Some (c, ms)); m_vg := fun mods args c ms => (c, ms, Some (ms, c));
     m_post := fun out c ms => (c, ms, Some (fst out)) |}.
(** The same, but its state initialisation raises. *)
Definition broken : module L L nat nat nat (L * L) L :=
  {| m_init := fun c => (c ++ [1], Some [1]); m_write_units := digit 2; m_derived := digit_u 3; m_solver := digit_u 4;
     m_state := fun c ms => (c, ms, None); m_diffeqsolve := digit_u 6; m_modules := digit 7;
     m_call := fun mods args c ms => (c, ms, Some (c, ms)); m_vg := fun mods args c ms => (c, ms, Some (ms, c));
     m_post := fun out c ms => (c, ms, Some (fst out)) |}.
Definition good_setup : op L L nat nat nat (L * L) L := OSetup _ _ _ _ _ _ _ (fun _ => Some demo) 0.
Definition bad_setup : op L L nat nat nat (L * L) L := OSetup _ _ _ _ _ _ _ (fun _ => Some broken) 1.
Definition go : op L L nat nat nat (L * L) L := ORun _ _ _ _ _ _ _ false 0 0.
Definition start : st L L nat nat nat (L * L) L := fresh _ _ _ _ _ _ _ [[9]; [8]] None 4.

Example C30_nonvacuous_order :
  trace _ _ _ _ _ _ _ (fst (session _ _ _ _ _ _ _ [good_setup] start)) =
    [SetExperiment _ _; StartRun _ _ 4 true; Called _ _ HInit; Called _ _ HWriteUnits; Called _ _ HDerived; LogParams _ _ [9; 1; 2; 3]; Called _ _ HSolver;
     Called _ _ HState; Called _ _ HDiffeqsolve; Called _ _ HModules;
     Artifacts _ _ [(ConfigYaml, CCfg _ _ [9]); (UnitsYaml, CUnits _ _ 2); (DerivedYaml, CCfg _ _ [9; 1; 2; 3]); (ArrayPkl, CCfg _ _ [9; 1; 2; 3; 4])]; EndRun _ _].
Proof. vm_compute. reflexivity. Qed.
Example C30_nonvacuous_session :
  snd (session _ _ _ _ _ _ _ [go; bad_setup; go; good_setup; go] start) =
    [RRun _ _ _ (Refused _); RSetup _ _ _ None; RRun _ _ _ (Refused _); RSetup _ _ _ (Some 7);
     RRun _ _ _ (Done _ (([9; 1; 2; 3; 4; 5; 6; 7], [1; 2; 3; 4; 5; 6; 7]), [9; 1; 2; 3; 4; 5; 6; 7]))].
Proof. vm_compute. reflexivity. Qed.

(** "Refuses to run before setup" does not cover a failed repetition: after a successful setup and a setup that
    raised, a run is accepted and executes the module whose setup was never finished (its state initialisation
    raised; the marks 5, 6, 7 of the later hooks are missing). *)
Theorem C30_half_set_up_refuted :
  exists ops : list (op L L nat nat nat (L * L) L),
    match snd (session _ _ _ _ _ _ _ ops start) with
    | [RSetup _ _ _ (Some _); RSetup _ _ _ None; RRun _ _ _ (Done _ (out, _))] => out = ([8; 1; 2; 3; 4], [1; 2; 3; 4])
    | _ => False
    end.
Proof. exists [good_setup; bad_setup; go]. vm_compute. reflexivity. Qed.
Print Assumptions C30_half_set_up_refuted.

(* ------------------------------------------------------------------------------------------------ *)
(** The table of docs/source/solvers.md. *)
Definition documented_solvers : list (str * solver) :=
  [(lit "vlasov-1d", BaseVlasov1D); (lit "vlasov-1d-iaw", IAWTurbulence1D); (lit "vlasov-1d2v", BaseVlasov1D2V);
   (lit "vlasov-2d", BaseVlasov2D); (lit "vfp-1d", BaseVFP1D); (lit "vfp-2d", BaseVFP2D); (lit "envelope-2d", BaseLPSE2D);
   (lit "spectrax-1d", BaseSpectrax1D); (lit "hermite-epw-1d", EPW1D); (lit "hermite-maxwell-1d", Maxwell1D);
   (lit "hermite-legendre-1d", BaseHermiteLegendre1D); (lit "pic-1d", BasePIC1D); (lit "tf-1d", BaseTwoFluid1D); (lit "osiris", BaseOsiris)].

Lemma select_lookup (name : str) (x64 valid : bool) :
  get_adept_module name x64 valid =
    if negb (str_eqb name (lit "envelope-2d")) && negb x64 then RuntimeError
    else match dget name documented_solvers with
         | None => NotImplementedError
         | Some m => if str_eqb name (lit "tf-1d") && negb valid then ValidationError else Selected m
         end.
Proof.
  destruct (in_dec str_eq_dec name (dkeys documented_solvers)) as [Hin|Hout].
  - cbn [dkeys documented_solvers map fst In] in Hin. repeat destruct Hin as [<-|Hin]; try tauto; destruct x64, valid; vm_compute; reflexivity.
  - rewrite (proj2 (dget_None name documented_solvers) Hout). cbn [dkeys documented_solvers map fst In] in Hout. unfold get_adept_module.
    destruct (negb (str_eqb name (lit "envelope-2d")) && negb x64); [reflexivity|].
    repeat match goal with |- context [str_eqb name ?x] => let E := fresh "E" in destruct (str_eqb name x) eqn:E; [apply str_eqb_eq in E; exfalso; apply Hout; rewrite E; tauto|clear E] end.
    reflexivity.
Qed.
Lemma documented_nodup : NoDup (dkeys documented_solvers).
Proof.
  cbn [dkeys documented_solvers map fst].
  repeat (constructor; [intros K; cbn [In] in K; repeat destruct K as [K|K]; try exact K; apply str_eqb_eq in K; vm_compute in K; discriminate|]). constructor.
Qed.
(** For every solver name, precision setting and verdict of tf-1d's configuration model. *)
Theorem C31_selection (name : str) (x64 valid : bool) :
  (get_adept_module name x64 valid = RuntimeError <-> x64 = false /\ name <> lit "envelope-2d") /\
  (forall m, get_adept_module name x64 valid = Selected m <->
     In (name, m) documented_solvers /\ (x64 = true \/ name = lit "envelope-2d") /\ (valid = true \/ name <> lit "tf-1d")) /\
  (get_adept_module name x64 valid = ValidationError <-> name = lit "tf-1d" /\ x64 = true /\ valid = false) /\
  (get_adept_module name x64 valid = NotImplementedError <-> x64 = true /\ ~ exists m, In (name, m) documented_solvers).
Proof.
  rewrite select_lookup.
  assert (HS : forall m, In (name, m) documented_solvers <-> dget name documented_solvers = Some m).
  { intros m. split; [apply In_dget; exact documented_nodup|apply dget_In]. }
  assert (HN : (~ exists m, In (name, m) documented_solvers) <-> dget name documented_solvers = None).
  { split; [|intros E (m & K); apply HS in K; congruence]. intros K. destruct (dget name documented_solvers) as [m|] eqn:E; [|reflexivity]. exfalso. apply K. exists m. now apply HS. }
  assert (HE : str_eqb name (lit "envelope-2d") = true -> dget name documented_solvers = Some BaseLPSE2D /\ str_eqb name (lit "tf-1d") = false).
  { intros K. apply str_eqb_eq in K as ->. split; vm_compute; reflexivity. }
  assert (HT : name = lit "tf-1d" -> dget name documented_solvers = Some BaseTwoFluid1D) by (intros ->; vm_compute; reflexivity).
  rewrite HN. setoid_rewrite HS. setoid_rewrite <- (str_eqb_eq name (lit "envelope-2d")). setoid_rewrite <- (str_eqb_eq name (lit "tf-1d")). rewrite <- (str_eqb_eq name (lit "tf-1d")) in HT.
  destruct (str_eqb name (lit "envelope-2d")), (str_eqb name (lit "tf-1d")), x64, valid; cbn [negb andb]; destruct (dget name documented_solvers) as [m0|];
    repeat split; intros;
    repeat match goal with
           | H : _ /\ _ |- _ => destruct H
           | H : true = true -> _ |- _ => specialize (H eq_refl)
           | H : _ \/ _ |- _ => destruct H
           end; try congruence; auto; try (left; congruence); try (right; congruence).
Qed.
Print Assumptions C31_selection.
Example C31_nonvacuous :
  get_adept_module (lit "pic-1d") true false = Selected BasePIC1D /\ get_adept_module (lit "pic-1d") false true = RuntimeError /\
  get_adept_module (lit "envelope-2d") false false = Selected BaseLPSE2D /\ get_adept_module (lit "pic1d") true true = NotImplementedError /\
  get_adept_module (lit "tf-1d") true false = ValidationError.
Proof. vm_compute. repeat split. Qed.
