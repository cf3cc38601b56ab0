(** Vocabulary of C30. *)
From Verif Require Import Base.

Section Spec.
Context {Cfg MSt Units Mods Args Out Post : Type}.
Notation module := (module Cfg MSt Units Mods Args Out Post).
Notation event := (event Cfg Units).

(** The documented order of the module hooks. *)
Definition documented_order : list hook_name := [HInit; HWriteUnits; HDerived; HSolver; HState; HDiffeqsolve; HModules].
(** The hooks called during a stretch of the trace. *)
Definition hooks_called (t : list event) : list hook_name := flat_map (fun e => match e with Called _ _ h => [h] | _ => [] end) t.
(** The artifacts uploaded during it. *)
Definition artifacts (t : list event) : list (file * content Cfg Units) := flat_map (fun e => match e with Artifacts _ _ f => f | _ => [] end) t.

(** Module [m] constructed on configuration [c] and taken through all its hooks, each starting from what the
    previous one left: [cd] is the configuration after the derived quantities, [ca] after the solver
    quantities, [cf]/[msf] the final configuration and private state. *)
Definition set_up (m : module) (c : Cfg) (units : Units) (cd ca cf : Cfg) (msf : MSt) (mods : Mods) : Prop :=
  exists c1 m1 c2 m2 m3 m4 c5 m5 c6 m6,
    m_init _ _ _ _ _ _ _ m c = (c1, Some m1) /\
    m_write_units _ _ _ _ _ _ _ m c1 m1 = (c2, m2, Some units) /\
    m_derived _ _ _ _ _ _ _ m c2 m2 = (cd, m3, Some tt) /\
    m_solver _ _ _ _ _ _ _ m cd m3 = (ca, m4, Some tt) /\
    m_state _ _ _ _ _ _ _ m ca m4 = (c5, m5, Some tt) /\
    m_diffeqsolve _ _ _ _ _ _ _ m c5 m5 = (c6, m6, Some tt) /\
    m_modules _ _ _ _ _ _ _ m c6 m6 = (cf, msf, Some mods).

(** [a] is an initial piece of [b]. *)
Definition prefix {A} (a b : list A) : Prop := exists r, b = a ++ r.
End Spec.
