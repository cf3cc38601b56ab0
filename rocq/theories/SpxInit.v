(** Model of the set-up of the spectrax-1d solver, adept/_spectrax1d/base_module.py: derived units, time quantities, initial
    condition, sponge profile, adaptive step limit.

    Simplifications: exact real arithmetic; int(x) of a float is truncation of the real number; configuration values are
    already parsed numbers; arrays are functions of their indices. *)
From Verif Require Export Spectrax VGrid.
Local Open Scope R_scope.
Local Open Scope cx_scope.

(** write_units (base_module.py:177-193): lambda_D and k_norm. *)
Definition lambda_D (al : nat -> R) (mi : R) : R := sqrt (1 / (2 * (1 / al 0%nat ^ 2 + 1 / (mi * al 3%nat ^ 2)))).
Definition k_norm (al : nat -> R) (Lx : R) : R := sqrt 2 * PI * al 0%nat / Lx.

(** get_derived_quantities (base_module.py:207-262). [ti_tmax] is grid.tmax after its default (physics.t_max, 50.0);
    [ti_dt], [ti_nt], [ti_adaptive] are None when the key is absent. [to_save] is the default save tmax, filled in before
    grid.tmax is recalculated. *)
Record time_in := { ti_tmax : R; ti_dt : option R; ti_nt : option Z; ti_adaptive : option bool }.
Record time_out := { to_tmax : R; to_dt : R; to_nt : Z; to_max_steps : Z; to_save : R }.
Definition spx_time (t : time_in) : time_out :=
  let '(dt, nt) := match ti_dt t with
                   | None => let nt := match ti_nt t with Some n => n | None => 501%Z end in (ti_tmax t / IZR nt, nt)
                   | Some dt => (dt, (trunc (ti_tmax t / dt) + 1)%Z)
                   end in
  let raw := (nt * (match ti_adaptive t with Some true => 100 | _ => 1 end) + 4)%Z in
  {| to_tmax := dt * IZR nt; to_dt := dt; to_nt := nt; to_max_steps := (if (1000000 <? raw)%Z then 1000000 else raw)%Z; to_save := ti_tmax t |}.
(** The configuration after the call, read again by a second call (keys dt, nt and tmax are now all present). *)
Definition again (t : time_in) : time_in :=
  let o := spx_time t in {| ti_tmax := to_tmax o; ti_dt := Some (to_dt o); ti_nt := Some (to_nt o); ti_adaptive := ti_adaptive t |}.
(** The time axis of the default save (base_module.py:421-423): linspace(0, tmax, nt). *)
Definition t_axis (t : time_in) (i : nat) : R := linspace 0 (to_tmax (spx_time t)) (Z.to_nat (to_nt (spx_time t))) i.

(** adaptive_time_step has default False in get_derived_quantities (line 251) and on the exponential path (line 674), True
    on the explicit path (line 714). *)
Definition steps_adaptively (exponential : bool) (t : time_in) : bool :=
  match ti_adaptive t with Some b => b | None => negb exponential end.

(** The Hermite mode counts (base_module.py:295-311): per species, or the legacy triple for both; None is the ValueError. *)
Definition resolve_modes (per_species : option (dims * dims)) (nn nm np : option nat) : option (dims * dims) :=
  match per_species with
  | Some p => Some p
  | None => match nn, nm, np with
            | Some a, Some b, Some c => Some ({| d_n := a; d_m := b; d_p := c |}, {| d_n := a; d_m := b; d_p := c |})
            | _, _, _ => None
            end
  end.

(** _compute_dtmax_from_driver (base_module.py:73-84) over the w0 of the pulses that have one. *)
Definition dtmax_step (acc : option R) (w : R) : option R :=
  let c := 2 * PI / (10 * w) in
  match acc with None => Some c | Some d => if Rlt_dec c d then Some c else acc end.
Definition dtmax (ws : list R) : option R := fold_left dtmax_step ws None.

(** fft_index (base_module.py:33-49). *)
Definition fft_index (k : Z) (N : nat) : Z := if (0 <=? k)%Z then k else (Z.of_nat N + k)%Z.
(** The index arithmetic of jnp's x.at[i].set: a negative index counts from the end, an index that is still out of range
    drops the update. *)
Definition at_index (N : nat) (i : Z) : option nat :=
  let j := if (i <? 0)%Z then (i + Z.of_nat N)%Z else i in if inb N j then Some (Z.to_nat j) else None.
Definition set3 (g : sgrid) (h : afield) (iy ix iz : Z) (v : cplx) : afield :=
  match at_index (s_ny g) iy, at_index (s_nx g) ix, at_index (s_nz g) iz with
  | Some a, Some b, Some c => fun y x z => if ((y =? a) && (x =? b) && (z =? c))%nat%bool then v else h y x z
  | _, _, _ => h
  end.
(** Set the entry of the mode (kx, ky, kz). *)
Definition set_mode (g : sgrid) (h : afield) (kx ky kz : Z) (v : cplx) : afield :=
  set3 g h (fft_index ky (s_ny g)) (fft_index kx (s_nx g)) (fft_index kz (s_nz g)) v.

(** The initial condition (base_module.py:336-412). [nx], [ny], [nz] are the mode numbers, [dn] the amplitude dn1. *)
Definition sgR (k : Z) : R := IZR (Z.sgn k).
Definition e_comp (ny nz : Z) : Z := (Z.sgn ny + 2 * Z.sgn nz)%Z.
Definition amp (g : sgrid) (Om : R) (nx ny nz : Z) (dn : R) : R :=
  dn * (s_lx g * sgR nx + s_ly g * sgR ny + s_lz g * sgR nz) / (4 * PI * IZR (nx + ny + nz) * Om).
Definition init_fields (g : sgrid) (Om : R) (nx ny nz : Z) (dn : R) (i : nat) : afield :=
  let zero : afield := fun _ _ _ => c0 in
  if ((nx + ny + nz =? 0)%Z || (if Req_EM_T Om 0 then true else false))%bool then zero
  else match at_index 6 (e_comp ny nz) with
       | Some cmp => if (i =? cmp)%nat
                     then set_mode g (set_mode g zero (- nx) (- ny) (- nz) (amp g Om nx ny nz dn, 0)) nx ny nz (amp g Om nx ny nz dn, 0)
                     else zero
       | None => zero
       end.
Definition init_electrons (g : sgrid) (alpha : R) (nx ny nz : Z) (dn : R) : coef6 := fun p m n =>
  if ((p =? 0) && (m =? 0) && (n =? 0))%nat%bool
  then set_mode g (set_mode g (set3 g (fun _ _ _ => c0) 0 0 0 (1 / alpha ^ 3, 0)) (- nx) (- ny) (- nz) (0, 1 / (2 * alpha ^ 3) * dn))
         nx ny nz (0, - (1 / (2 * alpha ^ 3) * dn))
  else fun _ _ _ => c0.
Definition init_ions (g : sgrid) (alpha : R) : coef6 := fun p m n =>
  if ((p =? 0) && (m =? 0) && (n =? 0))%nat%bool then set3 g (fun _ _ _ => c0) 0 0 0 (1 / alpha ^ 3, 0) else fun _ _ _ => c0.
Definition spx_init (g : sgrid) (A : spargs) (nx ny nz : Z) (dn : R) : spx :=
  {| c_e := init_electrons g (a_al A 0%nat) nx ny nz dn; c_i := init_ions g (a_al A 3%nat); f_k := init_fields g (a_Om A) nx ny nz dn |}.

(** The sponge profile (base_module.py:545-572) at the node x of the grid linspace(0, Lx, Nx, endpoint=False). *)
Definition x_node (Lx : R) (Nx i : nat) : R := Lx * INR i / INR Nx.
Definition sponge_sigma (Lx strength width : R) (sides : str) (x : R) : R :=
  let right := if (str_eqb sides (lit "right") || str_eqb sides (lit "both"))%bool
               then let xr := Lx * (1 - width) in strength * clipR ((x - xr) / (Lx - xr + / 10 ^ 10)) 0 1 ^ 2 else 0 in
  let left := if (str_eqb sides (lit "left") || str_eqb sides (lit "both"))%bool
              then let xl := Lx * width in strength * clipR ((xl - x) / (xl + / 10 ^ 10)) 0 1 ^ 2 else 0 in
  0 + right + left.

(** The Hou-Li settings used by the exponential (base_module.py:623-627) and by the state filter of the same path
    (nonlinear_vector_field.py:159-172): the same three keys with different defaults. *)
Record filter_cfg := { fc_enabled : bool; fc_strength : option R; fc_order : option nat }.
Definition orelse {T} (o : option T) (d : T) : T := match o with Some x => x | None => d end.
Definition filter_of_exponential (c : filter_cfg) : R * nat := if fc_enabled c then (orelse (fc_strength c) 0, orelse (fc_order c) 0%nat) else (0, 0%nat).
Definition filter_of_state (c : filter_cfg) : option (R * nat) := if fc_enabled c then Some (orelse (fc_strength c) 36, orelse (fc_order c) 36%nat) else None.
