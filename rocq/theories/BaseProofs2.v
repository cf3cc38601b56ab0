From Verif Require Import Base BaseSpec BaseProofs.

Section L.
Context {Cfg MSt Units Mods Args Out Post : Type}.
Notation st := (st Cfg MSt Units Mods Args Out Post).
Notation module := (module Cfg MSt Units Mods Args Out Post).
Notation M := (M Cfg MSt Units Mods Args Out Post).
Notation event := (event Cfg Units).
Notation call_hook := (call_hook Cfg MSt Units Mods Args Out Post).
Notation bind := (bind Cfg MSt Units Mods Args Out Post).

Lemma bind_eq {A B} (m : M A) (f : A -> M B) s : bind m f s = match m s with (s', Some x) => f x s' | (s', None) => (s', None) end.
Proof. reflexivity. Qed.

(** A state in the middle of _setup_: the user's heap [H], then the copy in use and the snapshot. *)
Definition mid (H : list Cfg) (c o : Cfg) (t : list event) ran rid sc (m : module) ms nx : st :=
  Build_st _ _ _ _ _ _ _ (H ++ [c; o]) t ran rid sc (Some (m, List.length H, ms)) nx.

Lemma hook_mid {R} n (h : module -> hook Cfg MSt R) H c o t ran rid sc m ms nx :
  call_hook n h (mid H c o t ran rid sc m ms nx) =
    (mid H (fst (fst (h m c ms))) o (t ++ [Called _ _ n]) ran rid sc m (snd (fst (h m c ms))) nx, snd (h m c ms)).
Proof.
  unfold Base.call_hook, mid. cbn [adept_module heap]. rewrite nth_error_mid. destruct (h m c ms) as [[c' ms'] r]. cbn [fst snd].
  unfold with_module, emit, with_heap. cbn [heap trace ran_setup run_id self_cfg adept_module next_id]. now rewrite set_nth_mid.
Qed.

Lemma construct_mid m H c o t ran rid sc am nx :
  construct _ _ _ _ _ _ _ m (List.length H) (Build_st _ _ _ _ _ _ _ (H ++ [c; o]) t ran rid sc am nx) =
  match m_init _ _ _ _ _ _ _ m c with
  | (c', Some ms) => (mid H c' o (t ++ [Called _ _ HInit]) ran rid sc m ms nx, Some tt)
  | (c', None) => (Build_st _ _ _ _ _ _ _ (H ++ [c'; o]) (t ++ [Called _ _ HInit]) ran rid sc am nx, None)
  end.
Proof.
  unfold construct. cbn [heap]. rewrite nth_error_mid. destruct (m_init _ _ _ _ _ _ _ m c) as [c' [ms|]];
    unfold with_module, emit, with_heap, mid; cbn [heap trace ran_setup run_id self_cfg adept_module next_id]; now rewrite set_nth_mid.
Qed.
Lemma read_snapshot H x c o t ran rid sc m ms nx :
  read _ _ _ _ _ _ _ (List.length (H ++ [x])) (mid H c o t ran rid sc m ms nx) = (mid H c o t ran rid sc m ms nx, Some o).
Proof.
  unfold read, mid. cbn [heap]. rewrite app_length. cbn [List.length]. rewrite nth_error_app2 by lia.
  replace (List.length H + 1 - List.length H) with 1 by lia. reflexivity.
Qed.
Lemma module_cfg_mid H c o t ran rid sc m ms nx :
  module_cfg _ _ _ _ _ _ _ (mid H c o t ran rid sc m ms nx) = (mid H c o t ran rid sc m ms nx, Some c).
Proof. unfold module_cfg, read, mid. cbn [adept_module heap]. now rewrite nth_error_mid. Qed.
Lemma emit_mid e H c o t ran rid sc m ms nx : modify _ _ _ _ _ _ _ (emit _ _ _ _ _ _ _ e) (mid H c o t ran rid sc m ms nx) = (mid H c o (t ++ [e]) ran rid sc m ms nx, Some tt).
Proof. reflexivity. Qed.
Lemma ran_mid b H c o t ran rid sc m ms nx : modify _ _ _ _ _ _ _ (with_ran _ _ _ _ _ _ _ b) (mid H c o t ran rid sc m ms nx) = (mid H c o t b rid sc m ms nx, Some tt).
Proof. reflexivity. Qed.

Definition stopped (s s' : st) : Prop :=
  (exists t, trace _ _ _ _ _ _ _ s' = trace _ _ _ _ _ _ _ s ++ t /\ prefix (hooks_called t) documented_order /\ artifacts t = [] /\ (forall i b, ~ In (StartRun _ _ i b) t)) /\
  ran_setup _ _ _ _ _ _ _ s' = ran_setup _ _ _ _ _ _ _ s /\ run_id _ _ _ _ _ _ _ s' = run_id _ _ _ _ _ _ _ s /\
  self_cfg _ _ _ _ _ _ _ s' = self_cfg _ _ _ _ _ _ _ s /\ next_id _ _ _ _ _ _ _ s' = next_id _ _ _ _ _ _ _ s.

Ltac stop := split; [eexists; cbn [trace mid]; rewrite <- ?app_assoc; cbn [app]; split; [reflexivity|split; [eexists; reflexivity|split; [reflexivity|intros i b K; cbn in K; intuition discriminate]]]|repeat split].

Lemma setup_inner_exec pick H c s : heap _ _ _ _ _ _ _ s = H ++ [c] ->
  match setup_inner _ _ _ _ _ _ _ pick (List.length H) s with
  | (s', Some (mods, files)) =>
      exists m units cd ca cf msf, pick c = Some m /\ set_up m c units cd ca cf msf mods /\
        s' = mid H cf c (trace _ _ _ _ _ _ _ s ++ [Called _ _ HInit; Called _ _ HWriteUnits; Called _ _ HDerived; LogParams _ _ cd; Called _ _ HSolver;
                                      Called _ _ HState; Called _ _ HDiffeqsolve; Called _ _ HModules])
               true (run_id _ _ _ _ _ _ _ s) (self_cfg _ _ _ _ _ _ _ s) m msf (next_id _ _ _ _ _ _ _ s) /\
        files = [(ConfigYaml, CCfg _ _ c); (UnitsYaml, CUnits _ _ units); (DerivedYaml, CCfg _ _ cd); (ArrayPkl, CCfg _ _ ca)]
  | (s', None) => stopped s s'
  end.
Proof.
  destruct s as [h t ran rid sc am nx]. cbn [heap trace run_id self_cfg next_id]. intros ->.
  unfold setup_inner. rewrite bind_eq. unfold deepcopy. cbn [heap]. rewrite nth_error_mid. unfold with_heap. cbn [heap trace ran_setup run_id self_cfg adept_module next_id].
  rewrite bind_eq. unfold read at 1. cbn [heap]. rewrite <- app_assoc. cbn [app]. rewrite nth_error_mid.
  rewrite bind_eq. destruct (pick c) as [m|] eqn:Ep.
  2:{ unfold raise. split; [exists []; cbn; rewrite app_nil_r; split; [reflexivity|split; [eexists; reflexivity|split; [reflexivity|intros i b []]]]|repeat split]. }
  rewrite construct_mid. destruct (m_init _ _ _ _ _ _ _ m c) as [c1 [m1|]] eqn:E0; [|stop].
  rewrite bind_eq, read_snapshot.
  rewrite bind_eq, hook_mid. destruct (m_write_units _ _ _ _ _ _ _ m c1 m1) as [[c2 m2] [units|]] eqn:E1; cbn [fst snd]; [|stop].
  rewrite bind_eq, hook_mid. destruct (m_derived _ _ _ _ _ _ _ m c2 m2) as [[c3 m3] [[]|]] eqn:E2; cbn [fst snd]; [|stop].
  rewrite bind_eq, module_cfg_mid. rewrite bind_eq, emit_mid.
  rewrite bind_eq, hook_mid. destruct (m_solver _ _ _ _ _ _ _ m c3 m3) as [[c4 m4] [[]|]] eqn:E3; cbn [fst snd]; [|stop].
  rewrite bind_eq, module_cfg_mid.
  rewrite bind_eq, hook_mid. destruct (m_state _ _ _ _ _ _ _ m c4 m4) as [[c5 m5] [[]|]] eqn:E4; cbn [fst snd]; [|stop].
  rewrite bind_eq, hook_mid. destruct (m_diffeqsolve _ _ _ _ _ _ _ m c5 m5) as [[c6 m6] [[]|]] eqn:E5; cbn [fst snd]; [|stop].
  rewrite bind_eq, hook_mid. destruct (m_modules _ _ _ _ _ _ _ m c6 m6) as [[c7 m7] [mods|]] eqn:E6; cbn [fst snd]; [|stop].
  rewrite bind_eq, ran_mid. unfold ret.
  exists m, units, c3, c4, c7, m7. split; [reflexivity|]. split; [exists c1, m1, c2, m2, m3, m4, c5, m5, c6, m6; repeat split; assumption|].
  split; [|reflexivity]. unfold mid. f_equal. rewrite <- !app_assoc. reflexivity.
Qed.
End L.
