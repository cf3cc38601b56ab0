(** Model of adept/osiris/density.py: adaptive box sizing from a density gradient scale length.

    Simplifications: numbers are exact reals ([round10] rounds half to even at ten decimals, which is what Python's
    round does to the exact decimal value); a deck value is a scalar or a list whose entries are either numbers (anything
    float() accepts) or not ([Bad]: float() and int() raise); the conversion of a length with units (pint and the
    skin-depth normalisation, density.py:233-259) is a function [unit] of the specification and the simulation section,
    which may fail; the logged copy of the specification is not represented. *)
From Verif Require Export PyStr RSum Pic VGrid.
Import ListNotations.

Inductive atom := Num (r : R) | Bad.
Inductive value := Scal (a : atom) | Arr (l : list atom).
Definition params := list (str * value).
Definition sections := list (str * params).

Inductive derr :=
| MissingSections | NoCells | MultiDim | EmptyList | NotANumber | NoProfile | FewPoints | MissingKey | NoIncrease | NoRamp
| ZeroDivision | NoUnits | NoBox.
Inductive res (A : Type) := Ok (a : A) | Err (e : derr).
Arguments Ok {A}. Arguments Err {A}.
Definition bind {A B} (r : res A) (k : A -> res B) : res B := match r with Ok a => k a | Err e => Err e end.
Notation "x <- a ;; b" := (bind a (fun x => b)) (at level 60, a at next level, right associativity).

Definition ceil (x : R) : Z := (- floor (- x))%Z.
(** round(x, 10) *)
Definition round10 (x : R) : R := IZR (round_half_even (x * 10 ^ 10)) / 10 ^ 10.

(** _first_section (density.py:172-176). *)
Fixpoint first_section (name : str) (secs : sections) : option params :=
  match secs with (n, p) :: t => if str_eqb n name then Some p else first_section name t | [] => None end.
(** Assignment into the dictionary returned by [first_section] (the list holds references). *)
Fixpoint upd_first (name : str) (h : params -> params) (secs : sections) : sections :=
  match secs with (n, p) :: t => if str_eqb n name then (n, h p) :: t else (n, p) :: upd_first name h t | [] => [] end.
(** k.split("(", 1)[0] *)
Fixpoint before_paren (k : str) : str := match k with c :: t => if aeqb c "("%char then [] else c :: before_paren t | [] => [] end.
(** _array_key (density.py:179-184). *)
Fixpoint array_key (p : params) (base : str) : option str :=
  match p with (k, _) :: t => if orb (str_eqb k base) (str_eqb (before_paren k) base) then Some k else array_key t base | [] => None end.
(** _as_list (density.py:187-188). *)
Definition as_list (v : value) : list atom := match v with Arr l => l | Scal a => [a] end.
Definition to_float (a : atom) : res R := match a with Num r => Ok r | Bad => Err NotANumber end.
Fixpoint floats_of (l : list atom) : res (list R) :=
  match l with [] => Ok [] | a :: t => r <- to_float a ;; rs <- floats_of t ;; Ok (r :: rs) end.
Definition head_atom (v : value) : res atom := match v with Scal a => Ok a | Arr (a :: _) => Ok a | Arr [] => Err EmptyList end.
(** _scalar (density.py:191-196). *)
Definition scalar (p : params) (base : str) : res (option R) :=
  match array_key p base with
  | None => Ok None
  | Some k => match dget k p with None => Ok None | Some v => a <- head_atom v ;; r <- to_float a ;; Ok (Some r) end
  end.
(** _scale_array (density.py:199-209); the value is replaced only if every entry is a number. *)
Definition scale_value (s : R) (v : value) : res value :=
  match v with
  | Arr l => rs <- floats_of l ;; Ok (Arr (map (fun r => Num (round10 (r * s))) rs))
  | Scal a => r <- to_float a ;; Ok (Scal (Num (round10 (r * s))))
  end.
Definition scale_array (base : str) (s : R) (p : params) : res params :=
  match array_key p base with
  | None => Ok p
  | Some k => match dget k p with None => Ok p | Some v => v' <- scale_value s v ;; Ok (dset k v' p) end
  end.
(** _node_count (density.py:212-224). *)
Definition node_count (secs : sections) : res Z :=
  match first_section (lit "node_conf") secs with
  | None => Ok 1%Z
  | Some p =>
      match array_key p (lit "node_number") with
      | None => Ok 1%Z
      | Some k => match dget k p with None => Ok 1%Z | Some v => a <- head_atom v ;; Ok (match a with Num r => Z.max 1 (trunc r) | Bad => 1%Z end) end
      end
  end.
(** _round_up_multiple (density.py:227-230). *)
Definition round_up_multiple (n m : Z) : Z := if (m <=? 1)%Z then n else (ceil (IZR n / IZR m) * m)%Z.

(** The manifest's osiris.density block. A key may be present with the value None. *)
Inductive lspec := LNum (r : R) | LUnit (s : str).
Record dcfg := { c_gsl : option (option lspec); c_alias : option (option lspec); c_ref : option atom; c_min : option atom; c_max : option atom }.
(** density.py:71: cfg.get("gradient_scale_length", cfg.get("gradient scale length")). *)
Definition requested (c : dcfg) : option lspec :=
  match c_gsl c with Some v => v | None => match c_alias c with Some v => v | None => None end end.

Record info := { i_L : R; i_ref : R; i_min : R; i_max : R; i_span : R; i_box : R; i_nx : Z; i_s : R }.
Inductive outcome := Inactive | Raised (e : derr) | Done (i : info).

(** l[1], l[-2] and l[i] = v for lists of at least three entries. *)
Definition second {A} (d : A) (l : list A) : A := nth 1 l d.
Definition second_last {A} (d : A) (l : list A) : A := nth (List.length l - 2) l d.
Fixpoint set_nth {A} (i : nat) (v : A) (l : list A) : list A :=
  match l, i with [], _ => [] | _ :: t, O => v :: t | x :: t, S i' => x :: set_nth i' v t end.

Section WithUnits.
(** _normalized_length for a specification with units (density.py:233-259); None: an exception. *)
Variable unit : str -> option params -> option R.

(** _normalized_length (density.py:233-248). *)
Definition normalized_length (l : lspec) (sim : option params) : res R :=
  match l with LNum r => Ok r | LUnit u => match unit u sim with Some r => Ok r | None => Err NoUnits end end.

(** What the checks of density.py:71-139 compute before anything is changed. *)
Record plan := { p_info : info; p_nx_key : str; p_nx_list : bool; p_fx_key : str; p_fx : option (list R) }.
Definition make_plan (secs : sections) (c : dcfg) (L_spec : lspec) : res plan :=
  reference <- match c_ref c with Some a => to_float a | None => Ok (25 / 100) end ;;
  match first_section (lit "space") secs, first_section (lit "grid") secs, first_section (lit "profile") secs with
  | Some space, Some grid, Some profile =>
      match array_key grid (lit "nx_p") with
      | None => Err NoCells
      | Some nx_key =>
          match dget nx_key grid with
          | None => Err NoCells
          | Some nx_val =>
              if match nx_val with Arr (_ :: _ :: _) => true | _ => false end then Err MultiDim
              else
                nx_atom <- head_atom nx_val ;;
                nx_real <- to_float nx_atom ;;
                match array_key profile (lit "x"), array_key profile (lit "fx") with
                | Some x_key, Some fx_key =>
                    match dget x_key profile, dget fx_key profile with
                    | Some xv, Some fv =>
                        x_old <- floats_of (as_list xv) ;;
                        fx <- floats_of (as_list fv) ;;
                        if orb (Nat.ltb (List.length x_old) 3) (Nat.ltb (List.length fx) 3) then Err FewPoints
                        else
                          minmax <- match c_min c, c_max c with
                                    | None, None => Ok (second 0 fx, second_last 0 fx, false)
                                    | Some a, Some b => r <- to_float a ;; r' <- to_float b ;; Ok (r, r', true)
                                    | Some a, None => r <- to_float a ;; Err MissingKey
                                    | None, Some _ => Err MissingKey
                                    end ;;
                          let nmin := fst (fst minmax) in
                          let nmax := snd (fst minmax) in
                          if Rle_dec nmax nmin then Err NoIncrease
                          else
                            let span_old := second_last 0 x_old - second 0 x_old in
                            if Rle_dec span_old 0 then Err NoRamp
                            else
                              L <- normalized_length L_spec (first_section (lit "simulation") secs) ;;
                              if Req_EM_T reference 0 then Err ZeroDivision
                              else
                                let span_new := L * (nmax - nmin) / reference in
                                let s := span_new / span_old in
                                xmax <- scalar space (lit "xmax") ;;
                                match xmax with
                                | None => Err NoBox
                                | Some xmax_old =>
                                    xmin <- scalar space (lit "xmin") ;;
                                    let xmin_old := match xmin with Some r => r | None => 0 end in
                                    nodes <- node_count secs ;;
                                    let nx_new := round_up_multiple (ceil (IZR (trunc nx_real) * s)) nodes in
                                    Ok {| p_info := {| i_L := L; i_ref := reference; i_min := nmin; i_max := nmax; i_span := span_new;
                                                       i_box := (xmax_old - xmin_old) * s; i_nx := nx_new; i_s := s |};
                                          p_nx_key := nx_key; p_nx_list := match nx_val with Arr _ => true | Scal _ => false end;
                                          p_fx_key := fx_key;
                                          p_fx := if snd minmax then Some (set_nth (List.length fx - 2) nmax (set_nth 1 nmin fx)) else None |}
                                end
                    | _, _ => Err NoProfile
                    end
                | _, _ => Err NoProfile
                end
          end
      end
  | _, _, _ => Err MissingSections
  end.

(** density.py:142-154: the changes, in order; a failure leaves the earlier ones in place. *)
Definition upd_first_res (name : str) (h : params -> res params) (secs : sections) : sections * option derr :=
  match first_section name secs with
  | None => (secs, None)
  | Some p => match h p with Ok p' => (upd_first name (fun _ => p') secs, None) | Err e => (secs, Some e) end
  end.
Definition scale_section (s : R) (n : str) (p : params) : params * option derr :=
  if str_eqb n (lit "profile") then match scale_array (lit "x") s p with Ok p' => (p', None) | Err e => (p, Some e) end
  else if str_eqb n (lit "diag_species") then
    match scale_array (lit "ps_xmin") s p with
    | Err e => (p, Some e)
    | Ok p' => match scale_array (lit "ps_xmax") s p' with Ok p'' => (p'', None) | Err e => (p', Some e) end
    end
  else (p, None).
Fixpoint scale_sections (s : R) (secs : sections) : sections * option derr :=
  match secs with
  | [] => ([], None)
  | (n, p) :: t =>
      match scale_section s n p with
      | (p', Some e) => ((n, p') :: t, Some e)
      | (p', None) => let (t', e) := scale_sections s t in ((n, p') :: t', e)
      end
  end.
Definition write_fx (pl : plan) (secs : sections) : sections :=
  match p_fx pl with
  | None => secs
  | Some fx => upd_first (lit "profile") (fun p => dset (p_fx_key pl)
                 (match dget (p_fx_key pl) p with Some (Scal _) => Scal (Num (nth 0 fx 0)) | _ => Arr (map Num fx) end) p) secs
  end.
Definition write_nx (pl : plan) (secs : sections) : sections :=
  upd_first (lit "grid") (dset (p_nx_key pl) (let z := Num (IZR (i_nx (p_info pl))) in if p_nx_list pl then Arr [z] else Scal z)) secs.
Definition carry_out (pl : plan) (secs : sections) : sections * option derr :=
  let s := i_s (p_info pl) in
  let secs1 := write_fx pl secs in
  match upd_first_res (lit "space") (scale_array (lit "xmin") s) secs1 with
  | (secs2, Some e) => (secs2, Some e)
  | (secs2, None) =>
      match upd_first_res (lit "space") (scale_array (lit "xmax") s) secs2 with
      | (secs3, Some e) => (secs3, Some e)
      | (secs3, None) => match scale_sections s secs3 with (secs4, Some e) => (secs4, Some e) | (secs4, None) => (write_nx pl secs4, None) end
      end
  end.
(** apply_gradient_scale_length (density.py:52-169): the sections afterwards and the outcome. *)
Definition apply_gradient_scale_length (secs : sections) (cfg : option dcfg) : sections * outcome :=
  match cfg with
  | None => (secs, Inactive)
  | Some c =>
      match requested c with
      | None => (secs, Inactive)
      | Some l =>
          match make_plan secs c l with
          | Err e => (secs, Raised e)
          | Ok pl => match carry_out pl secs with (secs', Some e) => (secs', Raised e) | (secs', None) => (secs', Done (p_info pl)) end
          end
      end
  end.
End WithUnits.
