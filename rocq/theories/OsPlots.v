(** Model of what the plots of an OSIRIS run show: the derived profiles of adept/osiris/plots.py (density, temperature,
    right/left-going field, ion-acoustic speeds), its choices of cells, times and windows, and the settings of
    adept/osiris/regen.py.

    Simplifications: exact real arithmetic; coordinates, names and attributes of arrays are kept only where stated, arrays that
    are combined have equal coordinates; reading a diagnostic does not fail; the drawing itself is not modelled. *)
From Coq Require Export Reals List Bool Arith Lia Lra.
From Verif Require Export PyStr.
Export ListNotations.
Local Open Scope R_scope.

Definition total (l : list R) : R := fold_right Rplus 0 l.
Fixpoint map2 {A B C} (f : A -> B -> C) (l : list A) (m : list B) : list C :=
  match l, m with a :: l, b :: m => f a b :: map2 f l m | _, _ => [] end.

(** * Right- and left-going transverse field *)
(** A diagnostic that is a (t, x) array has its number of cells and its rows; [None]: not dumped, or not two-dimensional
    (plots.py:1277-1282, 1338-1343). *)
Record field := { f_n : nat; f_rows : list (list R) }.
Definition fields := str -> option field.
Definition going (s : R) (e b : list (list R)) : list (list R) := map2 (map2 (fun x y => (x + s * y) / 2)) e b.
Record parts := { s_right : list (list R); s_left : list (list R) }.
Definition parts_rows (sgn : R) (e b : list (list R)) : parts := {| s_right := going sgn e b; s_left := going (- sgn) e b |}.
(** efield_lr_components (plots.py:1251-1305): (component, its parts). *)
Definition lr_pair (d : fields) (e b : str) (sgn : R) : list (str * parts) :=
  match d e, d b with Some fe, Some fb => [(e, parts_rows sgn (f_rows fe) (f_rows fb))] | _, _ => [] end.
Definition lr_components (d : fields) : list (str * parts) := lr_pair d (lit "e2") (lit "b3") 1 ++ lr_pair d (lit "e3") (lit "b2") (-1).

(** transverse_field_boundary_slabs (plots.py:1308-1396); guard and window are not negative. *)
Definition slice {A} (a b : nat) (l : list A) : list A := firstn (b - a) (skipn a l).
Definition probe (d : fields) : option field :=
  match d (lit "e2"), d (lit "b3"), d (lit "e3"), d (lit "b2") with
  | Some f, _, _, _ => Some f | _, Some f, _, _ => Some f | _, _, Some f, _ => Some f | _, _, _, r => r end.
Record slabs := { sl_guard : nat; sl_window : nat; sl_left : list (str * parts); sl_right : list (str * parts) }.
Definition guard_window (n guard window : nat) : nat * nat := if (n <? guard + window)%nat then (0%nat, Nat.min window n) else (guard, window).
Definition slab_pair (d : fields) (a b : nat) (e bf : str) (sgn : R) : list (str * parts) :=
  match d e, d bf with Some fe, Some fb => [(e, parts_rows sgn (map (slice a b) (f_rows fe)) (map (slice a b) (f_rows fb)))] | _, _ => [] end.
Definition slab_edge (d : fields) (a b : nat) : list (str * parts) := slab_pair d a b (lit "e2") (lit "b3") 1 ++ slab_pair d a b (lit "e3") (lit "b2") (-1).
Definition boundary_slabs (d : fields) (guard window : nat) : option slabs :=
  match probe d with
  | None => None
  | Some p => let '(g, w) := guard_window (f_n p) guard window in
    let l := slab_edge d g (g + w) in
    match l with [] => None | _ => Some {| sl_guard := g; sl_window := w; sl_left := l; sl_right := slab_edge d (f_n p - g - w) (f_n p - g) |} end
  end.

(** * Density and temperature profiles *)
(** A moment of a species: kind, quantity, (is it a (t, x) array, its values; [None]: NaN). *)
Definition moment := (bool * list (option R))%type.
Definition entry := (str * (str * moment))%type.
Definition nansum (l : list (option R)) : R := total (map (fun o => match o with Some x => x | None => 0 end) l).
Definition sign_or_one (x : R) : R := if Rlt_dec x 0 then -1 else 1.
(** by_q[q] is the last entry of that quantity. *)
Definition last_of (es : list entry) (keep : entry -> bool) (q : str) : option moment :=
  fold_left (fun acc e => if (keep e && str_eqb (fst (snd e)) q)%bool then Some (snd (snd e)) else acc) es None.
Definition is_density (e : entry) : bool := str_eqb (fst e) (lit "DENSITY").
Definition numbers (q : str) (m : moment) : list (option R) :=
  if str_eqb q (lit "charge") then map (option_map (fun x => x / sign_or_one (nansum (snd m)))) (snd m) else snd m.
(** _density_series (plots.py:1071-1106). *)
Definition preferred : list str := map lit ["n"; "n01"; "n02"; "charge"; "m"]%string.
Fixpoint first_pref (es : list entry) (prefs : list str) : option (list (option R)) :=
  match prefs with
  | [] => None
  | q :: r => match last_of es is_density q with Some m => if fst m then Some (numbers q m) else first_pref es r | None => first_pref es r end
  end.
Definition density_series (es : list entry) : option (list (option R)) :=
  match first_pref es preferred with
  | Some v => Some v
  | None => option_map (fun e => snd (snd (snd e))) (find (fun e => is_density e && fst (snd (snd e)))%bool es)
  end.
(** _temperature_series (plots.py:1109-1147). *)
Definition oadd (a b : option R) : option R := match a, b with Some x, Some y => Some (x + y) | _, _ => None end.
Definition found (es : list entry) (qs : list str) : list moment := flat_map (fun q => match last_of es (fun _ => true) q with Some m => [m] | None => [] end) qs.
Definition two_d (ms : list moment) : list (list (option R)) := map snd (filter fst ms).
Definition sum_comps (l : list (list (option R))) : option (list (option R)) := match l with [] => None | a :: r => Some (fold_left (map2 oadd) r a) end.
Definition uths : list str := map lit ["uth1"; "uth2"; "uth3"]%string.
Definition tens : list str := map lit ["T11"; "T22"; "T33"]%string.
Definition temperature_series (es : list entry) : option (list (option R)) :=
  match found es uths with
  | [] => sum_comps (two_d (found es tens))
  | u => sum_comps (map (map (option_map (fun x => x * x))) (two_d u))
  end.

(** _temperature_from_phasespace (plots.py:1161-1190): the columns f(p) of every (t, x) on the momenta [pc]; the cropping is
    [crop] below. [None]: NaN. *)
Definition weights (sgn : R) (f : list R) : list R := map (fun a => Rmax (a / sgn) 0) f.
Definition dot (w p : list R) : R := total (map2 Rmult w p).
Definition mean_p (w pc : list R) : R := dot w pc / total w.
Definition variance (w pc : list R) : R := dot w (map (fun p => (p - mean_p w pc) ^ 2) pc) / total w.
Definition column_temp (sgn : R) (pc f : list R) : option R := let w := weights sgn f in if Rlt_dec 0 (total w) then Some (variance w pc) else None.
Definition phasespace_temp (pc : list R) (cols : list (list R)) : list (option R) := map (column_temp (sign_or_one (total (map total cols))) pc) cols.

(** * Ion-acoustic speeds *)
(** A deck value as _first reads it (plots.py:624-628): a number or a list of numbers; a list read here is not empty. *)
Inductive dval := DNum (x : R) | DList (l : list R) | DStr (s : str).
Definition dparams := list (str * dval).
Definition before_paren (s : str) : str := (fix go (s : str) := match s with [] => [] | c :: r => if aeqb c "("%char then [] else c :: go r end) s.
(** _deck_get (plots.py:631-633). *)
Definition deck_get (ps : dparams) (key : str) : option dval := option_map snd (find (fun kv => str_eqb (before_paren (fst kv)) key) ps).
Definition first_num (v : option dval) : option R := match v with Some (DNum x) => Some x | Some (DList (x :: _)) => Some x | _ => None end.
Record ion := { i_name : option str; i_rqm : option R; i_uth : option R }.
(** ion_acoustic_speeds (plots.py:636-681): one pass over the sections; the species in order of the deck. The name of a species
    without one is its number, counted from one. *)
Definition name_of (v : option dval) : option str := match v with Some (DStr (c :: s)) => Some (c :: s) | _ => None end.
Definition set_last_uth (l : list ion) (u : option R) : list ion :=
  match rev l with
  | [] => l
  | s :: r => match i_uth s with None => rev ({| i_name := i_name s; i_rqm := i_rqm s; i_uth := u |} :: r) | Some _ => l end
  end.
Definition walk (l : list ion) (sec : str * dparams) : list ion :=
  if str_eqb (fst sec) (lit "species") then l ++ [{| i_name := name_of (deck_get (snd sec) (lit "name")); i_rqm := first_num (deck_get (snd sec) (lit "rqm")); i_uth := None |}]
  else if str_eqb (fst sec) (lit "udist") then set_last_uth l (first_num (deck_get (snd sec) (lit "uth"))) else l.
Definition species_of (deck : list (str * dparams)) : list ion := fold_left walk deck [].
Definition is_electron (s : ion) : bool :=
  match i_rqm s, i_uth s with Some r, Some u => if Rlt_dec r 0 then if Req_EM_T u 0 then false else true else false | _, _ => false end.
Definition v_the (l : list ion) : option R := match find is_electron l with Some s => i_uth s | None => None end.
Definition or0 (o : option R) : R := match o with Some x => x | None => 0 end.
Definition cs2 (ve : option R) (rqm : R) (uth : option R) : R := 3 * or0 uth ^ 2 + match ve with Some v => v ^ 2 / rqm | None => 0 end.
Inductive label := Named (s : str) | Numbered (i : nat) (rqm : R).
Definition speed_of (ve : option R) (i : nat) (s : ion) : list (label * R) :=
  match i_rqm s with
  | None => []
  | Some r => if Rle_dec r 0 then [] else
      if Rlt_dec 0 (cs2 ve r (i_uth s)) then [(match i_name s with Some n => Named n | None => Numbered i r end, sqrt (cs2 ve r (i_uth s)))] else []
  end.
Fixpoint speeds_from (ve : option R) (i : nat) (l : list ion) : list (label * R) := match l with [] => [] | s :: r => speed_of ve i s ++ speeds_from ve (i + 1) r end.
(** The deck of the run: that of the directory, else that of its parent. *)
Definition acoustic_speeds (here parent : option (list (str * dparams))) : list (label * R) :=
  match (match here with Some d => Some d | None => parent end) with
  | None => []
  | Some d => speeds_from (v_the (species_of d)) 1 (species_of d)
  end.
