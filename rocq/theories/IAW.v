(** Model of the diagnostics of driven ion-acoustic turbulence (adept/_vlasov1d/iaw.py): the saved low-|k| spectrum of the
    charge density, its average over a late window, the wavenumber axis and the choice of the phase-space panels.

    Simplifications: exact real arithmetic; files, colours and labels are not modelled; the options are numbers already
    (int() and tuple() of the configuration are not modelled); an average over an empty window (NaN) and an index out of
    range (an exception) are [None]. *)
From Verif Require Export VSave.
Local Open Scope R_scope.

(** rho of nk_save (iaw.py:77-81): the charge density of the kinetic species. *)
Definition iaw_rho (F : ndict) : profile := fun i => fold_left (fun rho p => rho + sp_q (fst (snd p)) * rsum (sp_nv (fst (snd p))) (snd (snd p) i) * sp_dv (fst (snd p))) F 0.
(** nk_modes after the clip (iaw.py:70), for a nonnegative option. *)
Definition iaw_modes (nk_modes nx : nat) : nat := Nat.min nk_modes (nx / 2).
(** rho_k (iaw.py:82), mode m of 0 .. iaw_modes: rfft divided by nx. *)
Definition nk (nx : nat) (F : ndict) (m : nat) : cplx := cscal (/ INR nx) (rfft nx (iaw_rho F) m).
(** power (iaw.py:113). *)
Definition nk_power (nx : nat) (F : ndict) (m : nat) : R := fst (nk nx F m) ^ 2 + snd (nk nx F m) ^ 2.
(** t_ax (iaw.py:71), which is also the axis of the result. *)
Definition nk_t (tmin tmax : R) (nt k : nat) : R := linspace tmin tmax nt k.

(** The window and the average of power[window] (iaw.py:138-141); [P k m]: the power at time k. *)
Definition in_window (nt : nat) (t : nat -> R) (w0 w1 : R) (k : nat) : bool :=
  let t0 := t 0%nat + w0 * (t (nt - 1)%nat - t 0%nat) in let t1 := t 0%nat + w1 * (t (nt - 1)%nat - t 0%nat) in
  if Rle_dec t0 (t k) then if Rle_dec (t k) t1 then true else false else false.
Definition window_count (nt : nat) (t : nat -> R) (w0 w1 : R) : nat := List.length (filter (in_window nt t w0 w1) (seq 0 nt)).
Definition p_avg (nt : nat) (t : nat -> R) (w0 w1 : R) (P : nat -> nat -> R) (m : nat) : option R :=
  if (window_count nt t w0 w1 =? 0)%nat then None
  else Some (rsum nt (fun k => if in_window nt t w0 w1 k then P k m else 0) / INR (window_count nt t w0 w1)).
(** The plotted curve p_avg / p_avg[1] over m = 1 .. modes (iaw.py:144). *)
Definition spectrum_curve (modes nt : nat) (t : nat -> R) (w0 w1 : R) (P : nat -> nat -> R) (m : nat) : option R :=
  if (modes =? 0)%nat then None else
  match p_avg nt t w0 w1 P m, p_avg nt t w0 w1 P 1%nat with
  | Some a, Some b => if Req_EM_T b 0 then None else Some (a / b)
  | _, _ => None
  end.

(** screening_length (iaw.py:51-64) for the configured field solver. *)
Definition screening_length (sol : solver) : R :=
  match sol with SBoltzmann Te lam => match lam with Some l => l | None => sqrt Te end | _ => 1 end.
(** The upper axis and the marked mode (iaw.py:157, 165-171). *)
Definition k_axis (length lam m : R) : R := m * (2 * PI * lam / length).
Definition k_axis_inv (length lam k : R) : R := k / (2 * PI * lam / length).
Definition m_debye (length lam : R) : R := length / (2 * PI * lam).

(** delta_f of one save (iaw.py:188-189). *)
Definition delta_f (nx : nat) (f : dist) : dist := fun i j => f i j - mean nx (fun i' => f i' j).
(** The panels (iaw.py:191-195): delta_f[slice(0, -1, t_skip)] of nt times; [None]: the division by ncols = 0. *)
Definition panel_times (nt : nat) : option (list nat) :=
  let skip := Nat.max (nt / 8) 1 in
  let l := filter (fun k => (k mod skip =? 0)%nat) (seq 0 (nt - 1)) in
  if (Nat.min 4 (List.length l) =? 0)%nat then None else Some l.
Definition panel_rows (n : nat) : nat := let ncols := Nat.min 4 n in ((n + ncols - 1) / ncols)%nat.
