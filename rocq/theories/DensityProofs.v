From Verif Require Import PyStr RSum Pic PicProofs VGrid VGridProofs Density.
Import ListNotations.

Lemma bind_ok {A B} (r : res A) (k : A -> res B) b : bind r k = Ok b -> exists a, r = Ok a /\ k a = Ok b.
Proof. destruct r as [a|e]; cbn; [eauto|discriminate]. Qed.

(** ** Keys *)
Fixpoint akey (ks : list str) (base : str) : option str :=
  match ks with k :: t => if orb (str_eqb k base) (str_eqb (before_paren k) base) then Some k else akey t base | [] => None end.
Lemma array_key_keys p base : array_key p base = akey (dkeys p) base.
Proof. induction p as [|[k v] t IH]; [reflexivity|]. cbn. now rewrite IH. Qed.
Lemma akey_In ks base k : akey ks base = Some k -> In k ks.
Proof. induction ks as [|a t IH]; [discriminate|]. cbn. destruct (orb _ _); [intros [= ->]; now left|right; auto]. Qed.
Lemma array_key_get p base k : array_key p base = Some k -> exists v, dget k p = Some v.
Proof. rewrite array_key_keys. intros H. apply akey_In in H. destruct (dget k p) eqn:E; [eauto|]. now apply dget_None in E. Qed.

(** ** A single key changes *)
Definition change (K : option str) (h : value -> value -> Prop) (p p' : params) : Prop :=
  dkeys p' = dkeys p /\ forall k v, dget k p = Some v -> exists v', dget k p' = Some v' /\ (K = Some k -> h v v') /\ (K <> Some k -> v' = v).
Lemma change_id h p : change None h p p.
Proof. split; [reflexivity|]. intros k v E. exists v. split; [exact E|]. split; [discriminate|reflexivity]. Qed.
Lemma change_set k w p v0 : dget k p = Some v0 -> change (Some k) (fun v v' => v = v0 /\ v' = w) p (dset k w p).
Proof.
  intros E. assert (I : In k (dkeys p)) by (apply dget_In in E; apply in_map_iff; now exists (k, v0)). split; [now apply dkeys_dset_mem|].
  intros k' v' E'. destruct (str_eq_dec k' k) as [->|N].
  - exists w. split; [apply dget_dset_same|]. split; [intros _; split; [congruence|reflexivity]|congruence].
  - exists v'. split; [rewrite dget_dset_other by assumption; exact E'|]. split; [congruence|reflexivity].
Qed.
Lemma scale_change base s p p' : scale_array base s p = Ok p' -> change (akey (dkeys p) base) (fun v v' => scale_value s v = Ok v') p p'.
Proof.
  unfold scale_array. rewrite array_key_keys. destruct (akey (dkeys p) base) as [k|] eqn:K; [|intros [= <-]; apply change_id].
  destruct (dget k p) as [v|] eqn:G; [|intros _; exfalso; apply akey_In in K; now apply dget_None in G].
  destruct (scale_value s v) as [w|] eqn:S; cbn; [|discriminate]. intros [= <-]. destruct (change_set k w p v G) as [A B]. split; [exact A|].
  intros k' v' E'. destruct (B k' v' E') as (v'' & E'' & C & D). exists v''. split; [exact E''|]. split; [|exact D]. intros Q. destruct (C Q) as [-> ->]. exact S.
Qed.

(** ** The first section of a name *)
Fixpoint first_index (name : str) (ns : list str) : option nat :=
  match ns with n :: t => if str_eqb n name then Some O else option_map S (first_index name t) | [] => None end.
Definition names (secs : sections) : list str := map fst secs.
Lemma first_section_index name secs p : first_section name secs = Some p <-> exists i, first_index name (names secs) = Some i /\ nth_error secs i = Some (name, p).
Proof.
  induction secs as [|[n q] t IH]; cbn; try change (map fst t) with (names t).
  - split; [discriminate|]. now intros (i & E & _).
  - destruct (str_eqb n name) eqn:E.
    + apply str_eqb_eq in E. subst n. split; [intros [= ->]; exists O; now split|]. intros (i & [= <-] & Q). cbn in Q. congruence.
    + rewrite IH. split.
      * intros (i & A & B). exists (S i). rewrite A. now split.
      * intros (i & A & B). destruct (first_index name (names t)) as [i'|]; [|discriminate]. cbn in A. injection A as <-. exists i'. now split.
Qed.
Lemma first_section_none name secs : first_section name secs = None <-> first_index name (names secs) = None.
Proof.
  induction secs as [|[n q] t IH]; cbn; [tauto|]. change (map fst t) with (names t). destruct (str_eqb n name); [split; discriminate|]. rewrite IH. destruct (first_index name (names t)); cbn; split; congruence.
Qed.
Lemma upd_first_names name h secs : names (upd_first name h secs) = names secs.
Proof. induction secs as [|[n p] t IH]; [reflexivity|]. cbn. destruct (str_eqb n name); cbn; [reflexivity|]. f_equal. exact IH. Qed.
Lemma upd_first_nth name h secs i : nth_error (upd_first name h secs) i =
  match nth_error secs i with Some (n, p) => Some (n, if match first_index name (names secs) with Some j => Nat.eqb j i | None => false end then h p else p) | None => None end.
Proof.
  revert i. induction secs as [|[n p] t IH]; intros i; [destruct i; reflexivity|]. cbn. change (map fst t) with (names t). destruct (str_eqb n name) eqn:E.
  - destruct i as [|i]; cbn; [reflexivity|]. destruct (nth_error t i) as [[? ?]|]; reflexivity.
  - destruct i as [|i]; cbn; [destruct (first_index name (names t)); reflexivity|]. rewrite IH. destruct (nth_error t i) as [[? ?]|]; [|reflexivity]. destruct (first_index name (names t)); reflexivity.
Qed.

(** ** Steps *)
Definition step (P : nat -> str -> params -> params -> Prop) (secs secs' : sections) : Prop :=
  names secs' = names secs /\ forall i n p, nth_error secs i = Some (n, p) -> exists p', nth_error secs' i = Some (n, p') /\ P i n p p'.
Definition sel (b : bool) (K : option str) : option str := if b then K else None.
Definition at_first (name : str) (secs : sections) (i : nat) : bool := match first_index name (names secs) with Some j => Nat.eqb j i | None => false end.
Lemma nth_name secs i n p : nth_error secs i = Some (n, p) -> nth_error (names secs) i = Some n.
Proof. intros H. unfold names. now rewrite nth_error_map, H. Qed.
Lemma first_index_name name ns i : first_index name ns = Some i -> nth_error ns i = Some name.
Proof.
  revert i. induction ns as [|a t IH]; intros i; [discriminate|]. cbn. destruct (str_eqb a name) eqn:E; [intros [= <-]; apply str_eqb_eq in E; now subst|].
  destruct (first_index name t) as [j|]; [|discriminate]. cbn. intros [= <-]. now apply IH.
Qed.
Lemma at_first_name name secs i n p : nth_error secs i = Some (n, p) -> at_first name secs i = true -> n = name.
Proof.
  intros H A. unfold at_first in A. destruct (first_index name (names secs)) as [j|] eqn:F; [|discriminate]. apply Nat.eqb_eq in A. subst j.
  apply first_index_name in F. apply nth_name in H. congruence.
Qed.
Lemma step_space base s secs secs' : upd_first_res (lit "space") (scale_array base s) secs = (secs', None) ->
  step (fun i n p p' => change (sel (at_first (lit "space") secs i) (akey (dkeys p) base)) (fun v v' => scale_value s v = Ok v') p p') secs secs'.
Proof.
  unfold upd_first_res. destruct (first_section (lit "space") secs) as [q|] eqn:F.
  - destruct (scale_array base s q) as [q'|] eqn:S; [|discriminate]. intros Q. assert (secs' = upd_first (lit "space") (fun _ => q') secs) as -> by congruence. clear Q. apply first_section_index in F. destruct F as (j & A & B).
    split; [apply upd_first_names|]. intros i n p H. rewrite upd_first_nth, H. unfold at_first. rewrite A. destruct (Nat.eqb_spec j i) as [->|N].
    + exists q'. split; [reflexivity|]. rewrite H in B. injection B as -> ->. cbn [sel]. now apply scale_change.
    + exists p. split; [reflexivity|]. apply change_id.
  - intros [= <-]. split; [reflexivity|]. intros i n p H. exists p. split; [exact H|]. apply first_section_none in F. unfold at_first. rewrite F. apply change_id.
Qed.
Lemma scale_sections_step s secs secs' : scale_sections s secs = (secs', None) ->
  step (fun i n p p' => scale_section s n p = (p', None)) secs secs'.
Proof.
  revert secs'. induction secs as [|[n p] t IH]; intros secs'; cbn.
  - intros [= <-]. split; [reflexivity|]. intros [|i]; discriminate.
  - destruct (scale_section s n p) as [p' [e|]] eqn:S; [discriminate|]. destruct (scale_sections s t) as [t' e] eqn:T. intros [= <- ->]. destruct (IH t' eq_refl) as [A B]. split.
    + cbn. f_equal. exact A.
    + intros [|i] n0 p0 H; cbn in H; [injection H as <- <-; exists p'; now split|]. exact (B i n0 p0 H).
Qed.
Lemma step_set name (h : params -> params) secs : step (fun i n p p' => p' = if at_first name secs i then h p else p) secs (upd_first name h secs).
Proof. split; [apply upd_first_names|]. intros i n p H. rewrite upd_first_nth, H. eexists. split; [reflexivity|reflexivity]. Qed.

(** ** Rounding *)
Lemma round10_close x : Rabs (round10 x - x) <= / 2 * / 10 ^ 10.
Proof.
  unfold round10. pose proof (round_spec (x * 10 ^ 10)) as H. set (z := IZR (round_half_even (x * 10 ^ 10))) in *.
  replace (z / 10 ^ 10 - x) with (- (x * 10 ^ 10 - z) * / 10 ^ 10) by (field; lra). rewrite Rabs_mult, Rabs_Ropp, (Rabs_right (/ 10 ^ 10)) by (apply Rle_ge, Rlt_le, Rinv_0_lt_compat; lra).
  apply Rmult_le_compat_r; [apply Rlt_le, Rinv_0_lt_compat; lra|lra].
Qed.
Lemma ceil_spec x : x <= IZR (ceil x) < x + 1.
Proof. unfold ceil. rewrite opp_IZR. pose proof (floor_spec (- x)). lra. Qed.
Lemma round_up_spec n m : (1 <= m)%Z -> let r := round_up_multiple n m in (n <= r < n + m)%Z /\ (exists k, r = k * m)%Z.
Proof.
  intros Hm. cbv zeta. unfold round_up_multiple. destruct (Z.leb_spec m 1).
  - assert (m = 1)%Z by lia. subst. split; [lia|]. exists n. lia.
  - pose proof (ceil_spec (IZR n / IZR m)) as C. set (k := ceil (IZR n / IZR m)) in *. assert (M : 0 < IZR m) by (apply IZR_lt; lia).
    assert (E : IZR n = IZR n / IZR m * IZR m) by (field; lra). split; [|exists k; reflexivity].
    split; [apply le_IZR|apply lt_IZR]; rewrite ?plus_IZR, mult_IZR, E; nra.
Qed.

(** ** Reading the plan *)
Section P.
Variable unit : str -> option params -> option R.
Lemma plan_inv secs c l pl : make_plan unit secs c l = Ok pl ->
  exists space grid profile x_key xv fv x_old fx nx_val nx_atom nx_real nodes L,
    first_section (lit "space") secs = Some space /\ first_section (lit "grid") secs = Some grid /\ first_section (lit "profile") secs = Some profile /\
    array_key grid (lit "nx_p") = Some (p_nx_key pl) /\ dget (p_nx_key pl) grid = Some nx_val /\ (nx_val = Scal nx_atom \/ nx_val = Arr [nx_atom]) /\ nx_atom = Num nx_real /\
    (p_nx_list pl = true <-> exists a, nx_val = Arr a) /\
    array_key profile (lit "x") = Some x_key /\ array_key profile (lit "fx") = Some (p_fx_key pl) /\ dget x_key profile = Some xv /\ dget (p_fx_key pl) profile = Some fv /\
    floats_of (as_list xv) = Ok x_old /\ floats_of (as_list fv) = Ok fx /\ (3 <= List.length x_old)%nat /\ (3 <= List.length fx)%nat /\
    ((c_min c = None /\ c_max c = None /\ p_fx pl = None /\ i_min (p_info pl) = second 0 fx /\ i_max (p_info pl) = second_last 0 fx) \/
     (c_min c = Some (Num (i_min (p_info pl))) /\ c_max c = Some (Num (i_max (p_info pl))) /\ p_fx pl = Some (set_nth (List.length fx - 2) (i_max (p_info pl)) (set_nth 1 (i_min (p_info pl)) fx)))) /\
    i_min (p_info pl) < i_max (p_info pl) /\ 0 < second_last 0 x_old - second 0 x_old /\
    normalized_length unit l (first_section (lit "simulation") secs) = Ok L /\ i_L (p_info pl) = L /\ i_ref (p_info pl) <> 0 /\
    i_ref (p_info pl) = match c_ref c with Some (Num r) => r | _ => 25 / 100 end /\ (c_ref c <> Some Bad) /\
    i_span (p_info pl) = L * (i_max (p_info pl) - i_min (p_info pl)) / i_ref (p_info pl) /\ i_s (p_info pl) = i_span (p_info pl) / (second_last 0 x_old - second 0 x_old) /\
    node_count secs = Ok nodes /\ i_nx (p_info pl) = round_up_multiple (ceil (IZR (trunc nx_real) * i_s (p_info pl))) nodes /\
    exists xmax, scalar space (lit "xmax") = Ok (Some xmax) /\ exists xmin, scalar space (lit "xmin") = Ok xmin /\ i_box (p_info pl) = (xmax - match xmin with Some r => r | None => 0 end) * i_s (p_info pl).
Proof.
  unfold make_plan. intros H. apply bind_ok in H. destruct H as (ref & Href & H).
  destruct (first_section (lit "space") secs) as [space|] eqn:FS; [|discriminate]. destruct (first_section (lit "grid") secs) as [grid|] eqn:FG; [|discriminate].
  destruct (first_section (lit "profile") secs) as [profile|] eqn:FP; [|discriminate]. destruct (array_key grid (lit "nx_p")) as [nxk|] eqn:KN; [|discriminate].
  destruct (dget nxk grid) as [nxv|] eqn:GN; [|discriminate]. destruct (match nxv with Arr (_ :: _ :: _) => true | _ => false end) eqn:MD; [discriminate|].
  apply bind_ok in H. destruct H as (na & Hna & H). apply bind_ok in H. destruct H as (nr & Hnr & H).
  destruct (array_key profile (lit "x")) as [xk|] eqn:KX; [|discriminate]. destruct (array_key profile (lit "fx")) as [fk|] eqn:KF; [|discriminate].
  destruct (dget xk profile) as [xv|] eqn:GX; [|discriminate]. destruct (dget fk profile) as [fv|] eqn:GF; [|discriminate].
  apply bind_ok in H. destruct H as (xo & Hxo & H). apply bind_ok in H. destruct H as (fx & Hfx & H).
  destruct (Nat.ltb_spec (List.length xo) 3) as [|LX]; [discriminate|]. destruct (Nat.ltb_spec (List.length fx) 3) as [|LF]; [discriminate|]. cbn [orb] in H.
  apply bind_ok in H. destruct H as (mm & Hmm & H). cbv zeta in H. destruct (Rle_dec (snd (fst mm)) (fst (fst mm))) as [|NI]; [discriminate|].
  destruct (Rle_dec (second_last 0 xo - second 0 xo) 0) as [|NR]; [discriminate|]. apply bind_ok in H. destruct H as (L & HL & H).
  destruct (Req_EM_T ref 0) as [|R0]; [discriminate|]. apply bind_ok in H. destruct H as (xm & Hxm & H). destruct xm as [xmax|]; [|discriminate].
  apply bind_ok in H. destruct H as (xn & Hxn & H). apply bind_ok in H. destruct H as (nodes & Hnd & H). injection H as <-. cbn [p_info p_nx_key p_nx_list p_fx_key p_fx i_L i_ref i_min i_max i_span i_box i_nx i_s].
  exists space, grid, profile, xk, xv, fv, xo, fx, nxv, na, nr, nodes, L.
  assert (Hn : nxv = Scal na \/ nxv = Arr [na]). { destruct nxv as [a|[|a [|b r]]]; cbn in Hna, MD; try discriminate; injection Hna as <-; tauto. }
  assert (Hn' : na = Num nr) by (destruct na; cbn in Hnr; [injection Hnr as <-; reflexivity|discriminate]).
  assert (Mm : (c_min c = None /\ c_max c = None /\ (if snd mm then Some (set_nth (List.length fx - 2) (snd (fst mm)) (set_nth 1 (fst (fst mm)) fx)) else None) = None /\ fst (fst mm) = second 0 fx /\ snd (fst mm) = second_last 0 fx) \/
     (c_min c = Some (Num (fst (fst mm))) /\ c_max c = Some (Num (snd (fst mm))) /\ (if snd mm then Some (set_nth (List.length fx - 2) (snd (fst mm)) (set_nth 1 (fst (fst mm)) fx)) else None) = Some (set_nth (List.length fx - 2) (snd (fst mm)) (set_nth 1 (fst (fst mm)) fx)))).
  { destruct (c_min c) as [[a|]|], (c_max c) as [[b|]|]; cbn in Hmm; try discriminate; injection Hmm as <-; cbn; [right|left]; repeat split; reflexivity. }
  assert (Rf : ref = match c_ref c with Some (Num r) => r | _ => 25 / 100 end /\ c_ref c <> Some Bad). { destruct (c_ref c) as [[a|]|]; cbn in Href; try discriminate; injection Href as <-; split; (reflexivity || discriminate). }
  repeat (split; [first [assumption | reflexivity | tauto | lra | lia]|]).
  split. { destruct Hn as [-> | ->]; split; try discriminate; [intros (a & ?); discriminate|eauto|reflexivity]. }
  repeat (split; [first [assumption | reflexivity | tauto | lra | lia]|]).
  exists xmax. split; [exact Hxm|]. exists xn. split; [exact Hxn|reflexivity].
Qed.
End P.
