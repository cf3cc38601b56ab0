(** Model of the initial distribution of Vlasov-1D2V (adept/_vlasov1d2v/helpers.py:32-92): each density component is the
    component of the 1D initialiser in (x, v_par) times a Maxwellian in v_perp at the component's temperature.

    Simplifications: those of VInit.v and VStep2v.v. *)
From Verif Require Export VStep2v VInit.
Local Open Scope R_scope.

(** f_species (helpers.py:62-84). *)
Definition init_dist2 (h : setup2) (nx : nat) (x : nat -> R) (s : species) (cs : list component) : dist3 :=
  fold_left (fun f c => fun i j k => f i j k + init_component nx s c (component_density c x) i j * m_perp h (c_T0 c) (sp_m s) k) cs (fun _ _ _ => 0).
