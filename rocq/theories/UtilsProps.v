(** Properties C25, C26, C28, C29, C48 (logging helpers). Vocabulary: UtilsSpec.v. *)
From Verif Require Import Utils UtilsSpec UtilsProofs.

(* ------------------------------------------------------------------------------------------------ *)
(** C26: a nested configuration flattens to exactly one entry per leaf, named by its dotted path, in order;
    the names are distinct. *)
Theorem C26_flatten_exact : forall V (d : list (str * cfg V)), dicts_ok (Node d) -> plain_keys (Node d) ->
  flatten_dict V d = map (fun pv => (dotted (fst pv), snd pv)) (leaves (Node d)) /\ NoDup (map fst (flatten_dict V d)).
Proof.
  intros V d Hd Hp. assert (E : flatten_dict V d = named [] (leaves (Node d))) by (unfold flatten_dict; exact (flatten_spec _ Hd Hp d eq_refl [])).
  split; [exact E|]. rewrite E. now apply named_NoDup.
Qed.
Print Assumptions C26_flatten_exact.

Definition ex_cfg : list (str * cfg Z) :=
  [(lit "grid", Node [(lit "nx", Leaf 64%Z); (lit "dt", Node []); (lit "x", Node [(lit "min", Leaf 0%Z); (lit "max", Leaf 9%Z)])]); (lit "solver", Leaf 3%Z)].
Example C26_nonvacuous : dicts_ok (Node ex_cfg) /\ plain_keys (Node ex_cfg) /\
  flatten_dict Z ex_cfg = [(lit "grid.nx", 64); (lit "grid.x.min", 0); (lit "grid.x.max", 9); (lit "solver", 3)]%Z.
Proof.
  split; [|split; [|reflexivity]].
  - repeat first [apply do_leaf|apply do_node; [cbn; repeat (apply NoDup_cons_iff; split; [cbn; intros H; repeat (destruct H as [H|H]; [discriminate H|]); destruct H|]); constructor|
      intros k t H; cbn in H; repeat (destruct H as [H|H]; [injection H as <- <-|]); try (destruct H)]].
  - repeat first [apply pk_leaf|apply pk_node; intros k t H; cbn in H; repeat (destruct H as [H|H]; [injection H as <- <-|]); try (destruct H);
      (split; [discriminate|split; [cbn; intros H; repeat (destruct H as [H|H]; [discriminate H|]); destruct H|]])].
Qed.

(** Without the proviso entries overwrite each other: {"a.b": 1, "a": {"b": 2}} has two leaves and one
    entry; an empty key also merges two levels. *)
Theorem C26_dotted_keys_refuted :
  (exists d : list (str * cfg Z), dicts_ok (Node d) /\ List.length (leaves (Node d)) = 2 /\ flatten_dict Z d = [(lit "a.b", 2)]%Z) /\
  (exists d : list (str * cfg Z), dicts_ok (Node d) /\ List.length (leaves (Node d)) = 2 /\ flatten_dict Z d = [(lit "a", 2)]%Z).
Proof.
  split; [exists [(lit "a.b", Leaf 1%Z); (lit "a", Node [(lit "b", Leaf 2%Z)])]|exists [(lit "a", Leaf 1%Z); ([], Node [(lit "a", Leaf 2%Z)])]];
    (split; [|split; reflexivity]);
    repeat first [apply do_leaf|apply do_node; [cbn; repeat (apply NoDup_cons_iff; split; [cbn; intros H; repeat (destruct H as [H|H]; [discriminate H|]); destruct H|]); constructor|
      intros k t H; cbn in H; repeat (destruct H as [H|H]; [injection H as <- <-|]); try (destruct H)]].
Qed.
Print Assumptions C26_dotted_keys_refuted.

(* ------------------------------------------------------------------------------------------------ *)
(** C25: what is sent to MLflow, over all calls: a prefix of the entries (each shown once, in order), of
    length n when n <= 100 and min(n, 100 * (n mod 100)) otherwise; no call has more than 100 entries. *)
Theorem C25_logged_exactly : forall V (show : V -> V) (flat : dict V),
  let n := List.length flat in
  List.concat (log_params_flat V show flat)
    = map (fun e => (fst e, show (snd e))) (firstn (if Nat.leb n 100 then n else 100 * (n mod 100)) flat) /\
  Forall (fun call => List.length call <= 100) (log_params_flat V show flat).
Proof.
  intros V show flat n. unfold log_params_flat. fold n. set (f := fun e : str * V => (fst e, show (snd e))).
  assert (Hl : List.length (map f flat) = n) by (now rewrite map_length). rewrite <- firstn_map. fold f.
  destruct (Nat.ltb_spec 100 n) as [H|H].
  - destruct (Nat.leb_spec n 100); [lia|]. split; [rewrite batches_concat by exact Hl; f_equal; lia|].
    apply Forall_forall. intros c Hc. apply in_map_iff in Hc. destruct Hc as (i & <- & _). unfold slice. rewrite firstn_length. lia.
  - destruct (Nat.leb_spec n 100); [|lia]. split; [|constructor; [lia|constructor]]. cbn [List.concat]. rewrite app_nil_r. symmetry. apply firstn_all2. lia.
Qed.
Print Assumptions C25_logged_exactly.

(** So every parameter is logged exactly when n <= 100 or n <= 100 * (n mod 100). *)
Theorem C25_complete_iff : forall V (flat : dict V), let n := List.length flat in
  List.concat (log_params_flat V (fun v => v) flat) = flat <-> n <= 100 \/ n <= 100 * (n mod 100).
Proof.
  intros V flat n. destruct (C25_logged_exactly V (fun v => v) flat) as [E _]. cbv zeta in E. fold n in E. rewrite E.
  assert (Hid : forall l : dict V, map (fun e => (fst e, snd e)) l = l) by (induction l as [|[k v] l IH]; [reflexivity|cbn; now rewrite IH]).
  rewrite Hid. destruct (Nat.leb_spec n 100) as [H|H].
  - split; [tauto|]. intros _. apply firstn_all2. unfold n in *. lia.
  - split.
    + intros K. right. apply (f_equal (@List.length _)) in K. rewrite firstn_length in K. unfold n in *. lia.
    + intros [K|K]; [lia|]. apply firstn_all2. exact K.
Qed.
Print Assumptions C25_complete_iff.

(** Refuted in general: 101 entries lose the last one; any multiple of 100 above 100 logs nothing. *)
Theorem C25_entries_lost_refuted : forall V (flat : dict V),
  (List.length flat = 101 -> List.concat (log_params_flat V (fun v => v) flat) = firstn 100 flat) /\
  (forall k, 2 <= k -> List.length flat = 100 * k -> log_params_flat V (fun v => v) flat = []).
Proof.
  intros V flat. split.
  - intros H. destruct (C25_logged_exactly V (fun v => v) flat) as [E _]. cbv zeta in E. rewrite E, H. cbn [Nat.leb]. change (100 * (101 mod 100)) with 100.
    generalize (firstn 100 flat). clear. induction l as [|[k v] l IH]; [reflexivity|]. cbn. now rewrite IH.
  - intros k Hk H. unfold log_params_flat. rewrite H. destruct (Nat.ltb_spec 100 (100 * k)); [|lia]. rewrite Nat.mul_comm, Nat.mod_mul by lia. reflexivity.
Qed.
Print Assumptions C25_entries_lost_refuted.

Definition ex_flat (n : nat) : dict nat := map (fun i => (repeat "x"%char i, i)) (seq 1 n).
Example C25_nonvacuous : List.length (ex_flat 101) = 101 /\ List.length (ex_flat 200) = 200 /\
  List.length (log_params_flat nat (fun v => v) (ex_flat 105)) = 5 /\ List.length (ex_flat 105) <= 100 * (105 mod 100).
Proof. vm_compute. repeat split. lia. Qed.

(* ------------------------------------------------------------------------------------------------ *)
(** C28: if attempt j < retries is the first success, the uploads are j failures, each followed by a wait,
    and then that success - nothing after it; if none of the attempts succeeds there are exactly
    [retries] failed attempts. (It returns in every case.) *)
Theorem C28_retries_exact : forall outcome retries,
  (forall j, j < retries -> outcome j = true -> (forall i, i < j -> outcome i = false) ->
     robust_log_artifacts outcome retries = List.concat (repeat [Upload false; Sleep] j) ++ [Upload true]) /\
  ((forall i, i < retries -> outcome i = false) ->
     robust_log_artifacts outcome retries = List.concat (repeat [Upload false; Sleep] retries)).
Proof.
  intros outcome retries. unfold robust_log_artifacts.
  assert (G : forall r s,
    (forall j, j < r -> outcome (s + j) = true -> (forall i, i < j -> outcome (s + i) = false) -> attempts outcome s r = List.concat (repeat [Upload false; Sleep] j) ++ [Upload true]) /\
    ((forall i, i < r -> outcome (s + i) = false) -> attempts outcome s r = List.concat (repeat [Upload false; Sleep] r))).
  { induction r as [|r IH]; intros s; split; [intros; lia|reflexivity| |]; destruct (IH (S s)) as [I1 I2]; cbn [attempts].
    - intros j Hj Ho Hb. destruct j as [|j].
      + rewrite Nat.add_0_r in Ho. rewrite Ho. reflexivity.
      + assert (E := Hb 0 ltac:(lia)). rewrite Nat.add_0_r in E. rewrite E. cbn [repeat List.concat app]. rewrite <- (I1 j).
        * reflexivity. * lia. * now rewrite Nat.add_succ_comm. * intros i Hi. rewrite Nat.add_succ_comm. apply Hb. lia.
    - intros Hb. assert (E := Hb 0 ltac:(lia)). rewrite Nat.add_0_r in E. rewrite E. cbn [repeat List.concat app]. rewrite I2; [reflexivity|].
      intros i Hi. rewrite Nat.add_succ_comm. apply Hb. lia. }
  destruct (G retries 0) as [G1 G2]. split; assumption.
Qed.
Print Assumptions C28_retries_exact.

(** At most [retries] uploads, and at most one succeeds. *)
Theorem C28_bounded : forall outcome retries,
  List.length (filter (fun e => match e with Upload _ => true | Sleep => false end) (robust_log_artifacts outcome retries)) <= retries /\
  List.length (filter (fun e => match e with Upload true => true | _ => false end) (robust_log_artifacts outcome retries)) <= 1.
Proof.
  intros outcome retries. unfold robust_log_artifacts. set (s0 := 0) at 1 2. clearbody s0. revert s0. induction retries as [|r IH]; intros s; cbn [attempts]; [cbn; lia|].
  destruct (outcome s); [split; cbn; lia|]. destruct (IH (S s)) as [I1 I2]. split; [exact (le_n_S _ _ I1)|exact I2].
Qed.
Print Assumptions C28_bounded.
Example C28_nonvacuous : robust_log_artifacts (fun i => Nat.eqb i 2) 5 = [Upload false; Sleep; Upload false; Sleep; Upload true].
Proof. reflexivity. Qed.

(* ------------------------------------------------------------------------------------------------ *)
(** C29: every run id that can be encoded comes back unchanged; the array holds int8 values; encoding fails
    exactly on text that is not Unicode scalar values (lone surrogates). *)
Theorem C29_run_id_roundtrip : forall id,
  (forall arr, run_id_init id = Some arr -> run_id_str arr = Some id /\ Forall (fun z => (-128 <= z <= 127)%Z) arr) /\
  ((exists arr, run_id_init id = Some arr) <-> Forall scalar_value id).
Proof.
  intros id. split.
  - intros arr H. unfold run_id_init in H. destruct (utf8_encode id) as [bs|] eqn:E; [|discriminate]. injection H as <-.
    destruct (encode_decode _ _ E) as (H1 & H2 & H3). split.
    + unfold run_id_str. rewrite map_map. replace (map (fun x => int8_byte (as_int8 x)) bs) with bs.
      * apply H3. rewrite map_length. exact H2.
      * clear - H1. induction H1 as [|b bs Hb Hbs IH]; [reflexivity|]. cbn [map]. rewrite <- IH. f_equal. symmetry. now apply int8_roundtrip.
    + apply Forall_map. eapply Forall_impl; [|exact H1]. intros b Hb. cbv beta in *. pose proof (proj2 (int8_roundtrip b Hb)). lia.
  - unfold run_id_init. induction id as [|c id IH]; cbn [utf8_encode]; [split; [constructor|eauto]|]. rewrite Forall_cons_iff, <- IH, utf8_char_total.
    destruct (utf8_char c) as [a|]; [|split; [intros [x H]; discriminate|intros [[x H] _]; discriminate]].
    destruct (utf8_encode id) as [b|]; split; try (intros [x H]; discriminate); eauto. intros [_ [x H]]. discriminate.
Qed.
Print Assumptions C29_run_id_roundtrip.

(** An ASCII id of length n (an MLflow id has 32 hex digits, the shape of MLRunId.example()) has n bytes. *)
Theorem C29_ascii_length : forall id, Forall (fun c => (c < 128)%N) id -> exists arr, run_id_init id = Some arr /\ List.length arr = List.length id.
Proof.
  intros id H. unfold run_id_init. assert (E : utf8_encode id = Some id).
  { induction H as [|c id Hc H IH]; [reflexivity|]. cbn [utf8_encode]. rewrite IH. unfold utf8_char. destruct (N.ltb_spec c 128); [reflexivity|lia]. }
  rewrite E. eexists. split; [reflexivity|]. apply map_length.
Qed.
Print Assumptions C29_ascii_length.
Example C29_nonvacuous : run_id_init [48; 102; 233; 8364; 128512]%N = Some [48; 102; -61; -87; -30; -126; -84; -16; -97; -104; -128]%Z /\
  run_id_str [48; 102; -61; -87; -30; -126; -84; -16; -97; -104; -128]%Z = Some [48; 102; 233; 8364; 128512]%N /\ run_id_init [55296]%N = None.
Proof. vm_compute. repeat split. Qed.

(* ------------------------------------------------------------------------------------------------ *)
(** C48: filter_scalars keeps exactly the scalar leaves, each at its path, in order, and leaves no empty
    dictionary behind. *)
Theorem C48_filter_scalars_exact : forall V (scalar : V -> bool) (d : list (str * cfg V)), dicts_ok (Node d) ->
  let r := filter_scalars V scalar (Node d) in
  leaves r = filter (fun pv => scalar (snd pv)) (leaves (Node d)) /\ no_empty r /\ dicts_ok r.
Proof. intros V scalar d H. exact (filter_spec scalar _ H d eq_refl). Qed.
Print Assumptions C48_filter_scalars_exact.
Example C48_nonvacuous : filter_scalars Z (fun v => (v <? 10)%Z) (Node ex_cfg) =
  Node [(lit "grid", Node [(lit "x", Node [(lit "min", Leaf 0%Z); (lit "max", Leaf 9%Z)])]); (lit "solver", Leaf 3%Z)].
Proof. reflexivity. Qed.
