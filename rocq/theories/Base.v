(** Model of adept/_base_.py: the ergoExo lifecycle, and of the lifecycle of adept/mlflow_logging.py's
    MlflowLoggingModule.

    Simplifications: a configuration object is one heap cell (deepcopy allocates a new one); a module's hook
    is an arbitrary function of the module's cfg cell and its private state that may mutate both, and
    may raise (also after mutating); hooks have no other access to the heap (the module only ever receives
    that object). MLflow calls do not fail (robust_log_artifacts never raises, utils.py:203-217). Timing and
    BASE_TEMPDIR are not modelled. *)
From Verif Require Export PyStr.

Section Lifecycle.
Variables Cfg MSt Units Mods Args Out Post : Type.

(** A hook: new cfg, new private state, and the returned value unless it raises. *)
Definition hook (R : Type) : Type := Cfg -> MSt -> Cfg * MSt * option R.

(** An ADEPTModule subclass (_base_.py:45-165). [m_init] is the constructor: it may mutate the cfg, and
    returns no object if it raises. *)
Record module := {
  m_init : Cfg -> Cfg * option MSt;
  m_write_units : hook Units;
  m_derived : hook unit;
  m_solver : hook unit;
  m_state : hook unit;
  m_diffeqsolve : hook unit;
  m_modules : hook Mods;
  m_call : Mods -> Args -> hook Out;
  m_vg : Mods -> Args -> hook Out;
  m_post : Out -> hook Post
}.

Inductive hook_name := HInit | HWriteUnits | HDerived | HSolver | HState | HDiffeqsolve | HModules | HCall | HVg | HPost.
Inductive content := CCfg (c : Cfg) | CUnits (u : Units).
Inductive file := ConfigYaml | UnitsYaml | DerivedYaml | ArrayPkl.
Inductive event :=
| SetExperiment
| StartRun (id : nat) (fresh : bool)
| Called (h : hook_name)
| LogParams (c : Cfg)
| Artifacts (files : list (file * content))
| EndRun.

(** The ergoExo object, the heap of configuration objects and what the outside world has seen. *)
Record st := {
  heap : list Cfg;
  trace : list event;
  ran_setup : bool;                             (* _base_.py:217 *)
  run_id : option nat;                          (* _base_.py:205 *)
  self_cfg : option nat;                        (* _base_.py:218,267 *)
  adept_module : option (module * nat * MSt);   (* the module, its cfg object, its private state *)
  next_id : nat                                 (* MLflow's supply of run ids *)
}.

Definition set_nth {A} (l : list A) (i : nat) (x : A) : list A := firstn i l ++ match skipn i l with [] => [] | _ :: r => x :: r end.

Definition emit (e : event) (s : st) : st :=
  {| heap := heap s; trace := trace s ++ [e]; ran_setup := ran_setup s; run_id := run_id s; self_cfg := self_cfg s;
     adept_module := adept_module s; next_id := next_id s |}.
Definition with_heap (h : list Cfg) (s : st) : st :=
  {| heap := h; trace := trace s; ran_setup := ran_setup s; run_id := run_id s; self_cfg := self_cfg s;
     adept_module := adept_module s; next_id := next_id s |}.
Definition with_module (m : option (module * nat * MSt)) (s : st) : st :=
  {| heap := heap s; trace := trace s; ran_setup := ran_setup s; run_id := run_id s; self_cfg := self_cfg s;
     adept_module := m; next_id := next_id s |}.
Definition with_ran (b : bool) (s : st) : st :=
  {| heap := heap s; trace := trace s; ran_setup := b; run_id := run_id s; self_cfg := self_cfg s;
     adept_module := adept_module s; next_id := next_id s |}.
Definition with_run_id (r : option nat) (s : st) : st :=
  {| heap := heap s; trace := trace s; ran_setup := ran_setup s; run_id := r; self_cfg := self_cfg s;
     adept_module := adept_module s; next_id := next_id s |}.
Definition with_self_cfg (c : option nat) (s : st) : st :=
  {| heap := heap s; trace := trace s; ran_setup := ran_setup s; run_id := run_id s; self_cfg := c;
     adept_module := adept_module s; next_id := next_id s |}.
Definition with_next (n : nat) (s : st) : st :=
  {| heap := heap s; trace := trace s; ran_setup := ran_setup s; run_id := run_id s; self_cfg := self_cfg s;
     adept_module := adept_module s; next_id := n |}.

(** Statements: a state and, unless an exception was raised, a value. *)
Definition M (A : Type) := st -> st * option A.
Definition ret {A} (a : A) : M A := fun s => (s, Some a).
Definition bind {A B} (m : M A) (f : A -> M B) : M B :=
  fun s => match m s with (s', Some a) => f a s' | (s', None) => (s', None) end.
Definition raise {A} : M A := fun s => (s, None).
Definition modify (f : st -> st) : M unit := fun s => (f s, Some tt).
Notation "'do' x <- m ; k" := (bind m (fun x => k)) (at level 200, x name, m at level 100, k at level 200).

(** deepcopy of the object at [a]: a new object with the same contents. *)
Definition deepcopy (a : nat) : M nat := fun s =>
  match nth_error (heap s) a with
  | Some c => (with_heap (heap s ++ [c]) s, Some (List.length (heap s)))
  | None => (s, None)
  end.
Definition read (a : nat) : M Cfg := fun s => (s, nth_error (heap s) a).

(** [adept_module(cfg)] (_base_.py:328,330): assigned only if the constructor returns. *)
Definition construct (m : module) (a : nat) : M unit := fun s =>
  match nth_error (heap s) a with
  | None => (s, None)
  | Some c =>
      let (c', r) := m_init m c in
      let s := emit (Called HInit) (with_heap (set_nth (heap s) a c') s) in
      match r with
      | Some ms => (with_module (Some (m, a, ms)) s, Some tt)
      | None => (s, None)
      end
  end.

(** [self.adept_module.<hook>()]. *)
Definition call_hook {R} (n : hook_name) (h : module -> hook R) : M R := fun s =>
  match adept_module s with
  | None => (s, None)                          (* AttributeError *)
  | Some (m, a, ms) =>
      match nth_error (heap s) a with
      | None => (s, None)
      | Some c =>
          let '(c', ms', r) := h m c ms in
          (with_module (Some (m, a, ms')) (emit (Called n) (with_heap (set_nth (heap s) a c') s)), r)
      end
  end.
Definition module_cfg : M Cfg := fun s => match adept_module s with None => (s, None) | Some (_, a, _) => read a s end.

(** _setup_ with log=True (_base_.py:316-366); [pick] is the solver lookup (_base_.py:271-314) or the class
    passed by the user; it returns the files written to the temporary directory with the modules. *)
Definition setup_inner (pick : Cfg -> option module) (a : nat) : M (Mods * list (file * content)) :=
  do o <- deepcopy a;
  do c <- read a;
  do _ <- (match pick c with Some m => construct m a | None => raise end);
  do oc <- read o;
  do u <- call_hook HWriteUnits m_write_units;
  do _ <- call_hook HDerived m_derived;
  do dc <- module_cfg;
  do _ <- modify (emit (LogParams dc));
  do _ <- call_hook HSolver m_solver;
  do ac <- module_cfg;
  do _ <- call_hook HState m_state;
  do _ <- call_hook HDiffeqsolve m_diffeqsolve;
  do ms <- call_hook HModules m_modules;
  do _ <- modify (with_ran true);
  ret (ms, [(ConfigYaml, CCfg oc); (UnitsYaml, CUnits u); (DerivedYaml, CCfg dc); (ArrayPkl, CCfg ac)]).

(** [with mlflow.start_run(...)]: the run ends also when the body raises. *)
Definition in_run {A} (id : nat) (fresh : bool) (body : M A) : M A := fun s =>
  let (s', r) := body (emit (StartRun id fresh) s) in (emit EndRun s', r).

(** setup (_base_.py:220-269) of the user's configuration object [u]. *)
Definition setup (pick : Cfg -> option module) (u : nat) : M Mods :=
  do a <- deepcopy u;
  do ms <- (fun s =>
    match run_id s with
    | None =>
        let id := next_id s in
        bind (modify (emit SetExperiment)) (fun _ =>
        bind (modify (with_next (S id))) (fun _ =>
        bind (in_run id true (do r <- setup_inner pick a; do _ <- modify (emit (Artifacts (snd r))); ret (fst r))) (fun ms =>
        bind (modify (with_run_id (Some id))) (fun _ => ret ms)))) s
    | Some id => in_run id false (do r <- setup_inner pick a; do _ <- modify (emit (Artifacts (snd r))); ret (fst r)) s
    end);
  do _ <- modify (with_self_cfg (Some a));
  ret ms.

(** __call__ (_base_.py:368-420) and val_and_grad (_base_.py:422-470); AssertionError is a separate outcome.
    [export] only decides about the artifacts of the post-processing directory, which are not modelled. *)
Inductive outcome (A : Type) := Refused | Raised | Done (a : A).
Arguments Refused {A}. Arguments Raised {A}. Arguments Done {A}.
Definition run (vg : bool) (mods : Mods) (args : Args) (s : st) : st * outcome (Out * Post) :=
  if negb (ran_setup s) then (s, Refused)
  else
    match run_id s with
    | None => (s, Raised)
    | Some id =>
        match in_run id false
                (do out <- (if vg then call_hook HVg (fun m => m_vg m mods args) else call_hook HCall (fun m => m_call m mods args));
                 do post <- call_hook HPost (fun m => m_post m out);
                 ret (out, post)) s with
        | (s', Some r) => (s', Done r)
        | (s', None) => (s', Raised)
        end
    end.

(** A session: any sequence of calls on one ergoExo object. *)
Inductive op := OSetup (pick : Cfg -> option module) (u : nat) | ORun (vg : bool) (mods : Mods) (args : Args).
Inductive result := RSetup (r : option Mods) | RRun (r : outcome (Out * Post)).
Definition step (o : op) (s : st) : st * result :=
  match o with
  | OSetup pick u => let (s', r) := setup pick u s in (s', RSetup r)
  | ORun vg mods args => let (s', r) := run vg mods args s in (s', RRun r)
  end.
Fixpoint session (ops : list op) (s : st) : st * list result :=
  match ops with
  | [] => (s, [])
  | o :: r => let (s1, x) := step o s in let (s2, xs) := session r s1 in (s2, x :: xs)
  end.

(** ergoExo() (_base_.py:201-218) when the user holds the configuration objects [cfgs]; [rid]: an existing
    run to resume (ids below [next] are taken). *)
Definition fresh (cfgs : list Cfg) (rid : option nat) (next : nat) : st :=
  {| heap := cfgs; trace := []; ran_setup := false; run_id := rid; self_cfg := None; adept_module := None; next_id := next |}.
End Lifecycle.

(* ------------------------------------------------------------------------------------------------ *)
(** * Solver selection (_base_.py:271-314) *)

Inductive solver := BaseTwoFluid1D | BaseVlasov1D | BaseVlasov1D2V | IAWTurbulence1D | BaseVlasov2D | BaseLPSE2D | BaseVFP1D
| BaseVFP2D | BaseSpectrax1D | EPW1D | Maxwell1D | BasePIC1D | BaseOsiris | BaseHermiteLegendre1D.
Inductive choice := Selected (m : solver) | RuntimeError | NotImplementedError | ValidationError.
(** [x64]: jax_enable_x64; [valid]: tf1d's ConfigModel accepts the configuration. *)
Definition get_adept_module (name : str) (x64 valid : bool) : choice :=
  if negb (str_eqb name (lit "envelope-2d")) && negb x64 then RuntimeError
  else if str_eqb name (lit "tf-1d") then (if valid then Selected BaseTwoFluid1D else ValidationError)
  else if str_eqb name (lit "vlasov-1d") then Selected BaseVlasov1D
  else if str_eqb name (lit "vlasov-1d2v") then Selected BaseVlasov1D2V
  else if str_eqb name (lit "vlasov-1d-iaw") then Selected IAWTurbulence1D
  else if str_eqb name (lit "vlasov-2d") then Selected BaseVlasov2D
  else if str_eqb name (lit "envelope-2d") then Selected BaseLPSE2D
  else if str_eqb name (lit "vfp-1d") then Selected BaseVFP1D
  else if str_eqb name (lit "vfp-2d") then Selected BaseVFP2D
  else if str_eqb name (lit "spectrax-1d") then Selected BaseSpectrax1D
  else if str_eqb name (lit "hermite-epw-1d") then Selected EPW1D
  else if str_eqb name (lit "hermite-maxwell-1d") then Selected Maxwell1D
  else if str_eqb name (lit "pic-1d") then Selected BasePIC1D
  else if str_eqb name (lit "osiris") then Selected BaseOsiris
  else if str_eqb name (lit "hermite-legendre-1d") then Selected BaseHermiteLegendre1D
  else NotImplementedError.
