From Verif Require Import Base BaseSpec BaseProofs BaseProofs2.

Section L.
Context {Cfg MSt Units Mods Args Out Post : Type}.
Notation st := (st Cfg MSt Units Mods Args Out Post).
Notation module := (module Cfg MSt Units Mods Args Out Post).
Notation event := (event Cfg Units).
Notation setup := (setup Cfg MSt Units Mods Args Out Post).
Notation run := (run Cfg MSt Units Mods Args Out Post).
Notation step := (step Cfg MSt Units Mods Args Out Post).
Notation session := (session Cfg MSt Units Mods Args Out Post).
Notation op := (op Cfg MSt Units Mods Args Out Post).

Definition setup_files (c cd ca : Cfg) (units : Units) : list (file * content Cfg Units) :=
  [(ConfigYaml, CCfg _ _ c); (UnitsYaml, CUnits _ _ units); (DerivedYaml, CCfg _ _ cd); (ArrayPkl, CCfg _ _ ca)].
Definition setup_trace (new : bool) (id : nat) (c cd ca : Cfg) (units : Units) : list event :=
  (if new then [SetExperiment _ _] else []) ++
  [StartRun _ _ id new; Called _ _ HInit; Called _ _ HWriteUnits; Called _ _ HDerived; LogParams _ _ cd; Called _ _ HSolver;
   Called _ _ HState; Called _ _ HDiffeqsolve; Called _ _ HModules; Artifacts _ _ (setup_files c cd ca units); EndRun _ _].
Definition the_id (s : st) : nat := match run_id _ _ _ _ _ _ _ s with Some id => id | None => next_id _ _ _ _ _ _ _ s end.
Definition is_new (s : st) : bool := match run_id _ _ _ _ _ _ _ s with Some id => false | None => true end.

Lemma setup_exec pick u c (s : st) : nth_error (heap _ _ _ _ _ _ _ s) u = Some c ->
  match setup pick u s with
  | (s', Some mods) =>
      exists m units cd ca cf msf, pick c = Some m /\ set_up m c units cd ca cf msf mods /\
        s' = mid (heap _ _ _ _ _ _ _ s) cf c (trace _ _ _ _ _ _ _ s ++ setup_trace (is_new s) (the_id s) c cd ca units)
               true (Some (the_id s)) (Some (List.length (heap _ _ _ _ _ _ _ s))) m msf (if is_new s then S (the_id s) else next_id _ _ _ _ _ _ _ s)
  | (s', None) =>
      (exists t, trace _ _ _ _ _ _ _ s' = trace _ _ _ _ _ _ _ s ++ (if is_new s then [SetExperiment _ _] else []) ++ [StartRun _ _ (the_id s) (is_new s)] ++ t ++ [EndRun _ _] /\
         prefix (hooks_called t) documented_order /\ artifacts t = [] /\ (forall i b, ~ In (StartRun _ _ i b) t)) /\
      ran_setup _ _ _ _ _ _ _ s' = ran_setup _ _ _ _ _ _ _ s /\ run_id _ _ _ _ _ _ _ s' = run_id _ _ _ _ _ _ _ s /\
      self_cfg _ _ _ _ _ _ _ s' = self_cfg _ _ _ _ _ _ _ s
  end.
Proof.
  intros Hu. unfold Base.setup. rewrite bind_eq. unfold deepcopy. rewrite Hu. set (H := heap _ _ _ _ _ _ _ s) in *.
  destruct s as [h t ran rid sc am nx]. cbn [heap] in H. subst H. cbn [heap] in *. unfold with_heap. cbn [heap trace ran_setup run_id self_cfg adept_module next_id].
  rewrite bind_eq. cbn [run_id next_id]. unfold is_new, the_id. cbn [run_id next_id]. destruct rid as [id|].
  - unfold in_run. rewrite bind_eq.
    pose proof (setup_inner_exec pick h c (emit _ _ _ _ _ _ _ (StartRun _ _ id false) (Build_st Cfg MSt Units Mods Args Out Post (h ++ [c]) t ran (Some id) sc am nx)) eq_refl) as E.
    destruct (setup_inner _ _ _ _ _ _ _ pick (List.length h) _) as [s' [[mods files]|]].
    + destruct E as (m & units & cd & ca & cf & msf & Hp & Hs & -> & ->). cbn [trace emit run_id self_cfg next_id].
      rewrite bind_eq, emit_mid. unfold ret. cbn [fst snd]. exists m, units, cd, ca, cf, msf. split; [exact Hp|]. split; [exact Hs|].
      unfold modify, bind, emit, with_self_cfg, mid. cbn [heap trace ran_setup run_id self_cfg adept_module next_id]. f_equal.
      unfold setup_trace. rewrite <- !app_assoc. reflexivity.
    + destruct E as ((t' & Et & Hp & Ha & Hn) & E1 & E2 & E3 & E4). cbn [trace emit ran_setup run_id self_cfg next_id] in *.
      split; [exists t'; split; [rewrite Et, <- !app_assoc; reflexivity|split; [exact Hp|split; [exact Ha|exact Hn]]]|]. repeat split; assumption.
  - do 2 (rewrite bind_eq; unfold modify at 1). rewrite bind_eq. unfold in_run. rewrite bind_eq.
    pose proof (setup_inner_exec pick h c (emit _ _ _ _ _ _ _ (StartRun _ _ nx true) (with_next _ _ _ _ _ _ _ (S nx) (emit _ _ _ _ _ _ _ (SetExperiment _ _) (Build_st Cfg MSt Units Mods Args Out Post (h ++ [c]) t ran None sc am nx)))) eq_refl) as E.
    destruct (setup_inner _ _ _ _ _ _ _ pick (List.length h) _) as [s' [[mods files]|]].
    + destruct E as (m & units & cd & ca & cf & msf & Hp & Hs & -> & ->). cbn [trace emit with_next run_id self_cfg next_id].
      rewrite bind_eq, emit_mid. unfold ret. cbn [fst snd]. exists m, units, cd, ca, cf, msf. split; [exact Hp|]. split; [exact Hs|].
      unfold modify, bind, emit, with_self_cfg, with_run_id, mid. cbn [heap trace ran_setup run_id self_cfg adept_module next_id]. f_equal.
      unfold setup_trace. rewrite <- !app_assoc. reflexivity.
    + destruct E as ((t' & Et & Hp & Ha & Hn) & E1 & E2 & E3 & E4). cbn [trace emit with_next ran_setup run_id self_cfg next_id] in *.
      split; [exists t'; split; [rewrite Et, <- !app_assoc; reflexivity|split; [exact Hp|split; [exact Ha|exact Hn]]]|]. repeat split; assumption.
Qed.
Lemma setup_missing pick u (s : st) : nth_error (heap _ _ _ _ _ _ _ s) u = None -> setup pick u s = (s, None).
Proof. intros Hu. unfold Base.setup. rewrite bind_eq. unfold deepcopy. now rewrite Hu. Qed.

(** Facts about any step: the trace only grows; a run id, once known, stays and is used by every later run;
    the setup flag only goes up, and exactly by a successful setup. *)
Definition id_of (t : list event) (P : nat -> bool -> Prop) : Prop := forall i b, In (StartRun _ _ i b) t -> P i b.

Lemma hook_facts {R} n (h : module -> hook Cfg MSt R) (s : st) :
  let s' := fst (call_hook _ _ _ _ _ _ _ n h s) in
  (exists t, trace _ _ _ _ _ _ _ s' = trace _ _ _ _ _ _ _ s ++ t /\ forall i b, ~ In (StartRun _ _ i b) t) /\
  ran_setup _ _ _ _ _ _ _ s' = ran_setup _ _ _ _ _ _ _ s /\ run_id _ _ _ _ _ _ _ s' = run_id _ _ _ _ _ _ _ s.
Proof.
  assert (Hnil : exists t, trace _ _ _ _ _ _ _ s = trace _ _ _ _ _ _ _ s ++ t /\ forall i b, ~ In (StartRun _ _ i b) t).
  { exists []. rewrite app_nil_r. split; [reflexivity|intros i b []]. }
  unfold call_hook. destruct (adept_module _ _ _ _ _ _ _ s) as [[[m a] ms]|]; [|split; [exact Hnil|now split]].
  destruct (nth_error _ a) as [c|]; [|split; [exact Hnil|now split]]. destruct (h m c ms) as [[c' ms'] r]. cbn.
  split; [|now split]. exists [Called _ _ n]. split; [reflexivity|]. intros i b [K|[]]. discriminate.
Qed.

Lemma run_facts vg mods args (s : st) :
  let s' := fst (run vg mods args s) in
  (snd (run vg mods args s) = Refused _ <-> ran_setup _ _ _ _ _ _ _ s = false) /\
  (ran_setup _ _ _ _ _ _ _ s = false -> s' = s) /\
  (exists t, trace _ _ _ _ _ _ _ s' = trace _ _ _ _ _ _ _ s ++ t /\ id_of t (fun i b => run_id _ _ _ _ _ _ _ s = Some i /\ b = false)) /\
  ran_setup _ _ _ _ _ _ _ s' = ran_setup _ _ _ _ _ _ _ s /\ run_id _ _ _ _ _ _ _ s' = run_id _ _ _ _ _ _ _ s.
Proof.
  assert (Hnil : exists t, trace _ _ _ _ _ _ _ s = trace _ _ _ _ _ _ _ s ++ t /\ id_of t (fun i b => run_id _ _ _ _ _ _ _ s = Some i /\ b = false)).
  { exists []. rewrite app_nil_r. split; [reflexivity|intros i b []]. }
  unfold Base.run. destruct (ran_setup _ _ _ _ _ _ _ s) eqn:Er; cbn [negb].
  2:{ cbn. repeat split; auto. }
  destruct (run_id _ _ _ _ _ _ _ s) as [id|] eqn:Ei.
  2:{ cbn. repeat split; auto; intros; discriminate. }
  unfold in_run. rewrite bind_eq. set (s1 := emit _ _ _ _ _ _ _ (StartRun _ _ id false) s).
  assert (F1 : let s' := fst ((if vg then call_hook _ _ _ _ _ _ _ HVg (fun m : module => m_vg _ _ _ _ _ _ _ m mods args) else call_hook _ _ _ _ _ _ _ HCall (fun m : module => m_call _ _ _ _ _ _ _ m mods args)) s1) in
     (exists t, trace _ _ _ _ _ _ _ s' = trace _ _ _ _ _ _ _ s1 ++ t /\ forall i b, ~ In (StartRun _ _ i b) t) /\
     ran_setup _ _ _ _ _ _ _ s' = ran_setup _ _ _ _ _ _ _ s1 /\ run_id _ _ _ _ _ _ _ s' = run_id _ _ _ _ _ _ _ s1).
  { destruct vg; apply hook_facts. }
  match type of F1 with let s' := fst ?b in _ => destruct b as [s2 [out|]] end.
  - rewrite bind_eq. pose proof (hook_facts HPost (fun m : module => m_post _ _ _ _ _ _ _ m out) s2) as F2.
    destruct (call_hook _ _ _ _ _ _ _ HPost _ s2) as [s3 [post|]]; cbn in *;
    (destruct F1 as ((t1 & T1 & N1) & R1 & I1); destruct F2 as ((t2 & T2 & N2) & R2 & I2);
     split; [split; intros; congruence|split; [intros; congruence|split; [|split; congruence]]];
     exists (StartRun _ _ id false :: t1 ++ t2 ++ [EndRun _ _]); split; [rewrite T2, T1; cbn; rewrite <- !app_assoc; reflexivity|];
     intros i b [K|K]; [injection K as <- <-; auto|]; apply in_app_or in K as [K|K]; [now apply N1 in K|]; apply in_app_or in K as [K|[K|[]]]; [now apply N2 in K|discriminate]).
  - cbn in *. destruct F1 as ((t1 & T1 & N1) & R1 & I1).
    split; [split; intros; congruence|split; [intros; congruence|split; [|split; congruence]]].
    exists (StartRun _ _ id false :: t1 ++ [EndRun _ _]). split; [rewrite T1; cbn; rewrite <- !app_assoc; reflexivity|].
    intros i b [K|K]; [injection K as <- <-; auto|]. apply in_app_or in K as [K|[K|[]]]; [now apply N1 in K|discriminate].
Qed.

Definition succeeded (r : result Mods Out Post) : Prop := match r with RSetup _ _ _ (Some _) => True | _ => False end.

Lemma step_facts o (s : st) :
  let s' := fst (step o s) in
  (exists t, trace _ _ _ _ _ _ _ s' = trace _ _ _ _ _ _ _ s ++ t /\ (forall id, run_id _ _ _ _ _ _ _ s = Some id -> id_of t (fun i b => i = id /\ b = false))) /\
  (forall id, run_id _ _ _ _ _ _ _ s = Some id -> run_id _ _ _ _ _ _ _ s' = Some id) /\
  (succeeded (snd (step o s)) -> run_id _ _ _ _ _ _ _ s' <> None) /\
  (ran_setup _ _ _ _ _ _ _ s' = true <-> ran_setup _ _ _ _ _ _ _ s = true \/ succeeded (snd (step o s))).
Proof.
  destruct o as [pick u|vg mods args]; cbn [Base.step].
  - destruct (nth_error (heap _ _ _ _ _ _ _ s) u) as [c|] eqn:Hu.
    2:{ rewrite (setup_missing _ _ _ Hu). cbn. split; [exists []; rewrite app_nil_r; split; [reflexivity|intros id _ i b []]|]. split; [auto|]. split; [tauto|tauto]. }
    pose proof (setup_exec pick u c s Hu) as E. destruct (setup pick u s) as [s' [mods|]]; cbn [fst snd succeeded].
    + destruct E as (m & units & cd & ca & cf & msf & _ & _ & ->). unfold mid. cbn [trace run_id ran_setup].
      split; [eexists; split; [reflexivity|]|].
      { intros id Hid. unfold is_new, the_id, setup_trace. rewrite Hid. intros i b K. cbn in K.
        destruct K as [K|K]; [injection K as <- <-; auto|]. intuition discriminate. }
      split; [intros id Hid; unfold the_id; now rewrite Hid|]. split; [discriminate|]. tauto.
    + destruct E as ((t & Et & _ & _ & Hn) & E1 & E2 & E3). split; [eexists; split; [exact Et|]|].
      { intros id Hid. unfold is_new, the_id. rewrite Hid. intros i b K. cbn in K. destruct K as [K|K]; [injection K as <- <-; auto|].
        apply in_app_or in K as [K|[K|[]]]; [now apply Hn in K|discriminate]. }
      rewrite E1, E2. split; [auto|]. split; [tauto|tauto].
  - pose proof (run_facts vg mods args s) as (_ & _ & (t & Et & Ht) & E1 & E2). destruct (run vg mods args s) as [s' r]. cbn [fst snd succeeded] in *.
    split; [exists t; split; [exact Et|]|].
    { intros id Hid i b K. destruct (Ht i b K) as [Hi Hb]. split; [congruence|exact Hb]. }
    rewrite E1, E2. split; [auto|]. split; [tauto|tauto].
Qed.

Lemma session_facts : forall ops (s : st),
  let s' := fst (session ops s) in
  (exists t, trace _ _ _ _ _ _ _ s' = trace _ _ _ _ _ _ _ s ++ t /\ (forall id, run_id _ _ _ _ _ _ _ s = Some id -> id_of t (fun i b => i = id /\ b = false))) /\
  (forall id, run_id _ _ _ _ _ _ _ s = Some id -> run_id _ _ _ _ _ _ _ s' = Some id) /\
  (Exists succeeded (snd (session ops s)) -> run_id _ _ _ _ _ _ _ s' <> None) /\
  (ran_setup _ _ _ _ _ _ _ s' = true <-> ran_setup _ _ _ _ _ _ _ s = true \/ Exists succeeded (snd (session ops s))).
Proof.
  induction ops as [|o ops IH]; intros s; cbn [Base.session].
  - cbn. split; [exists []; rewrite app_nil_r; split; [reflexivity|intros id _ i b []]|]. split; [auto|]. split; [intros H; inversion H|]. split; [auto|]. intros [H|H]; [exact H|inversion H].
  - pose proof (step_facts o s) as ((t & Et & Ht) & Hi & Hs & Hr). destruct (step o s) as [s1 x]. cbn [fst snd] in *.
    specialize (IH s1) as ((t2 & Et2 & Ht2) & Hi2 & Hs2 & Hr2). destruct (session ops s1) as [s2 xs]. cbn [fst snd] in *.
    split; [exists (t ++ t2); split; [rewrite Et2, Et, app_assoc; reflexivity|]|].
    { intros id Hid i b K. apply in_app_or in K as [K|K]; [exact (Ht id Hid i b K)|exact (Ht2 id (Hi id Hid) i b K)]. }
    split; [auto|]. split.
    { intros H. apply Exists_cons in H as [H|H]; [|exact (Hs2 H)]. specialize (Hs H). destruct (run_id _ _ _ _ _ _ _ s1) as [id|]; [|congruence]. rewrite (Hi2 id eq_refl). discriminate. }
    rewrite Hr2, Hr, Exists_cons. tauto.
Qed.
Lemma session_app : forall ops1 ops2 (s : st),
  session (ops1 ++ ops2) s = (fst (session ops2 (fst (session ops1 s))), snd (session ops1 s) ++ snd (session ops2 (fst (session ops1 s)))).
Proof.
  induction ops1 as [|o ops IH]; intros ops2 s; cbn [Base.session app].
  - cbn. now destruct (session ops2 s).
  - destruct (step o s) as [s1 x]. rewrite IH. destruct (session ops s1) as [s2 xs]. reflexivity.
Qed.
Lemma run_mid vg mods args H c o t id sc (m : module) ms nx :
  snd (run vg mods args (mid H c o t true (Some id) sc m ms nx)) =
      match (if vg then m_vg _ _ _ _ _ _ _ m mods args c ms else m_call _ _ _ _ _ _ _ m mods args c ms) with
      | (c1, ms1, Some out) => match m_post _ _ _ _ _ _ _ m out c1 ms1 with (_, _, Some post) => Done _ (out, post) | _ => Raised _ end
      | _ => Raised _
      end.
Proof.
  set (s := mid H c o t true (Some id) sc m ms nx). unfold Base.run. change (ran_setup _ _ _ _ _ _ _ s) with true. change (run_id _ _ _ _ _ _ _ s) with (Some id).
  cbn [negb]. cbv iota. unfold in_run. rewrite bind_eq.
  change (emit _ _ _ _ _ _ _ (StartRun _ _ id false) s) with (mid H c o (t ++ [StartRun _ _ id false]) true (Some id) sc m ms nx).
  destruct vg.
  - rewrite hook_mid. destruct (m_vg _ _ _ _ _ _ _ m mods args c ms) as [[c1 ms1] [out|]]; cbn [fst snd]; [|reflexivity].
    rewrite bind_eq, hook_mid. now destruct (m_post _ _ _ _ _ _ _ m out c1 ms1) as [[c2 ms2] [post|]].
  - rewrite hook_mid. destruct (m_call _ _ _ _ _ _ _ m mods args c ms) as [[c1 ms1] [out|]]; cbn [fst snd]; [|reflexivity].
    rewrite bind_eq, hook_mid. now destruct (m_post _ _ _ _ _ _ _ m out c1 ms1) as [[c2 ms2] [post|]].
Qed.
End L.
