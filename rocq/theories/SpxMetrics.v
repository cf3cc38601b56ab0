(** Model of the scalar metrics of the spectrax-1d EPW and Maxwell modules (adept/_spectrax1d/epw_module.py,
    adept/_spectrax1d/maxwell_module.py). A time series of length n is a function on {0..n-1}.

    Simplifications: exact real arithmetic; np.polyfit of degree one is modelled by the closed form of the least-squares line
    (SpxMetricsProps proves that it is the minimiser); plots are not modelled. *)
From Verif Require Export SpxStore.
Local Open Scope R_scope.

(** np.angle: the argument in (-pi, pi], 0 at the origin. *)
Definition carg (z : cplx) : R :=
  if Req_EM_T (cabs z) 0 then 0 else if Rle_dec 0 (snd z) then acos (fst z / cabs z) else - acos (fst z / cabs z).
(** np.mod for a positive modulus. *)
Definition npmod (x p : R) : R := x - p * IZR (floor (x / p)).
(** np.unwrap with the default discontinuity pi (numpy): the correction of one difference, and the accumulated phase. *)
Definition unwrap_mod (dd : R) : R :=
  let m := npmod (dd + PI) (2 * PI) - PI in if Req_EM_T m (- PI) then (if Rlt_dec 0 dd then PI else m) else m.
Definition unwrap_corr (dd : R) : R := if Rlt_dec (Rabs dd) PI then 0 else unwrap_mod dd - dd.
Definition unwrap (p : nat -> R) (i : nat) : R := p i + rsum i (fun j => unwrap_corr (p (S j) - p j)).
(** np.gradient with one spacing. *)
Definition ngrad (n : nat) (h : R) (f : nat -> R) (i : nat) : R :=
  if (i =? 0)%nat then (f 1%nat - f 0%nat) / h else if (i =? n - 1)%nat then (f (n - 1)%nat - f (n - 2)%nat) / h else (f (i + 1)%nat - f (i - 1)%nat) / (2 * h).
(** _compute_epw_frequency (epw_module.py:23-45), _compute_em_frequency (maxwell_module.py:39-57); None is the IndexError of
    t_array[1] (or the error of np.gradient) for fewer than two samples. *)
Definition frequency (n : nat) (z : nat -> cplx) (t : nat -> R) : option (nat -> R) :=
  if (n <? 2)%nat then None else Some (fun i => - ngrad n (t 1%nat - t 0%nat) (unwrap (fun j => carg (z j))) i).
Definition avg (n : nat) (f : nat -> R) : R := rsum n f / INR n.
(** epw_avg_frequency_k1 and epw_final_frequency_k1 (epw_module.py:144-146). *)
Definition epw_avg_frequency (n : nat) (z : nat -> cplx) (t : nat -> R) : option R := match frequency n z t with Some f => Some (avg n f) | None => None end.
Definition epw_final_frequency (n : nat) (z : nat -> cplx) (t : nat -> R) : option R := match frequency n z t with Some f => Some (f (n - 1)%nat) | None => None end.
(** epw_avg_amplitude_k1 (epw_module.py:141). *)
Definition epw_avg_amplitude (n : nat) (z : nat -> cplx) : R := avg n (fun i => cabs (z i)).

(** _compute_damping_rate (epw_module.py:47-88): start index, mask, np.polyfit(t, log A, 1)[0]; None is nan. *)
Definition fit_start (n : nat) : nat := Z.to_nat (floor (INR n * (1 - 2 / 3))).
Definition fit_points (n : nat) (z : nat -> cplx) (t : nat -> R) : list (R * R) :=
  filter (fun p => if Rlt_dec (/ 10 ^ 20) (snd p) then true else false)
    (map (fun i => (t i, cabs (z i))) (List.seq (fit_start n) (n - fit_start n))).
Definition lsum (f : R * R -> R) (l : list (R * R)) : R := fold_right (fun p s => f p + s) 0 l.
Definition lnum (l : list (R * R)) : R := INR (List.length l).
Definition fit_slope (l : list (R * R)) : R :=
  (lnum l * lsum (fun p => fst p * snd p) l - lsum fst l * lsum snd l) / (lnum l * lsum (fun p => fst p ^ 2) l - lsum fst l ^ 2).
Definition fit_offset (l : list (R * R)) : R := (lsum snd l - fit_slope l * lsum fst l) / lnum l.
Definition log_points (l : list (R * R)) : list (R * R) := map (fun p => (fst p, ln (snd p))) l.
Definition damping_rate (n : nat) (z : nat -> cplx) (t : nat -> R) : option R :=
  let l := fit_points n z t in if (List.length l <? 10)%nat then None else Some (fit_slope (log_points l)).

(** avg_electrostatic_energy_final_50 (epw_module.py:151-159): mean over the saved times within 50 of the last one. *)
Definition last_window (n : nat) (t : nat -> R) (w : R) : list nat := filter (fun i => if Rle_dec (t (n - 1)%nat - w) (t i) then true else false) (List.seq 0 n).
Definition lavg (l : list nat) (f : nat -> R) : R := fold_right (fun i s => f i + s) 0 l / INR (List.length l).
Definition es_energy (g : sgrid) (Ex : afield) : R := gsum g (fun y x z => cabs2 (Ex y x z)).
Definition avg_es_energy (g : sgrid) (n : nat) (t : nat -> R) (Ex : nat -> afield) : R := lavg (last_window n t 50) (fun i => es_energy g (Ex i)).

(** em_avg_frequency_k1 (maxwell_module.py:108-126): samples from index max(1, 8 n / 10); [Some None] is nan (the wave is gone),
    [None] the IndexError of the frequency function (or of np.max of an empty array). *)
Definition em_start (n : nat) : nat := Nat.max 1 (n * 8 / 10).
Definition em_gone (n : nat) (z : nat -> cplx) : Prop := forall i, (i < n)%nat -> cabs (z i) <= / 10 ^ 30.
Definition em_frequency (n : nat) (z : nat -> cplx) (t : nat -> R) : option (option R) :=
  let s := em_start n in let m := (n - s)%nat in
  if (m =? 0)%nat then None else
  if Rlt_dec (/ 10 ^ 30) (nmax m (fun i => cabs (z (s + i)%nat)))
  then match frequency m (fun i => z (s + i)%nat) (fun i => t (s + i)%nat) with Some f => Some (Some (avg m (fun i => Rabs (f i)))) | None => None end
  else Some None.

(** em_peak_energy, em_final_energy, em_absorption_ratio (maxwell_module.py:131-145); the energies are sums of squares, so the
    maximum of the non-empty series is [nmax]. *)
Definition em_final (n : nat) (e : nat -> R) : R := let k := Nat.max 1 (n / 5) in avg k (fun i => e (n - k + i)%nat).
Definition absorption_ratio (n : nat) (e : nat -> R) : R := let pk := nmax n e in if Rlt_dec 0 pk then em_final n e / pk else 1.
