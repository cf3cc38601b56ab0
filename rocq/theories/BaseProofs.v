From Verif Require Import Base.

Section L.
Context {Cfg MSt Units Mods Args Out Post : Type}.
Notation st := (st Cfg MSt Units Mods Args Out Post).
Notation module := (module Cfg MSt Units Mods Args Out Post).
Notation M := (M Cfg MSt Units Mods Args Out Post).
Implicit Types s : st.

Lemma set_nth_length {A} (l : list A) i x : List.length (set_nth l i x) = List.length l.
Proof.
  unfold set_nth. rewrite app_length. destruct (skipn i l) as [|y r] eqn:E.
  - rewrite firstn_length. assert (H := skipn_length i l). rewrite E in H. cbn in *. lia.
  - cbn [List.length]. rewrite firstn_length. assert (H := skipn_length i l). rewrite E in H. cbn in H. lia.
Qed.
Lemma set_nth_firstn {A} (l : list A) i x n : n <= i -> firstn n (set_nth l i x) = firstn n l.
Proof.
  intros H. unfold set_nth. rewrite firstn_app, firstn_firstn, Nat.min_l by exact H. rewrite firstn_length.
  destruct (Nat.le_gt_cases i (List.length l)) as [K|K].
  - rewrite Nat.min_l by exact K. replace (n - i) with 0 by lia. cbn. now rewrite app_nil_r.
  - rewrite skipn_all2 by lia. rewrite firstn_nil. now rewrite app_nil_r.
Qed.
Lemma set_nth_mid {A} (l : list A) x y r : set_nth (l ++ x :: r) (List.length l) y = l ++ y :: r.
Proof.
  unfold set_nth. rewrite firstn_app, Nat.sub_diag, firstn_all, skipn_app, Nat.sub_diag, skipn_all. cbn. now rewrite app_nil_r.
Qed.
Lemma nth_error_mid {A} (l : list A) x r : nth_error (l ++ x :: r) (List.length l) = Some x.
Proof. rewrite nth_error_app2 by lia. now rewrite Nat.sub_diag. Qed.

(** ** The user's objects are never written *)
Definition safe (cfgs : list Cfg) s : Prop :=
  List.length cfgs <= List.length (heap _ _ _ _ _ _ _ s) /\ firstn (List.length cfgs) (heap _ _ _ _ _ _ _ s) = cfgs /\
  match adept_module _ _ _ _ _ _ _ s with Some (_, a, _) => List.length cfgs <= a | None => True end.
Definition keeps cfgs {A} (P : st -> Prop) (m : M A) (Q : A -> Prop) : Prop :=
  forall s, safe cfgs s -> P s -> match m s with (s', r) => safe cfgs s' /\ match r with Some x => Q x | None => True end end.

Lemma keeps_bind cfgs {A B} P (m : M A) Q (f : A -> M B) R :
  keeps cfgs P m Q -> (forall x, Q x -> keeps cfgs (fun _ => True) (f x) R) -> keeps cfgs P (bind _ _ _ _ _ _ _ m f) R.
Proof.
  intros Hm Hf s Hs Hp. unfold bind. specialize (Hm s Hs Hp). destruct (m s) as [s' [x|]]; [|tauto]. destruct Hm as [H1 H2]. exact (Hf x H2 s' H1 I).
Qed.
Lemma keeps_weak cfgs {A} P (m : M A) (Q Q' : A -> Prop) : keeps cfgs (fun _ => True) m Q -> (forall x, Q x -> Q' x) -> keeps cfgs P m Q'.
Proof. intros H HQ s Hs _. specialize (H s Hs I). destruct (m s) as [s' [x|]]; [split; [tauto|apply HQ; tauto]|tauto]. Qed.
Lemma keeps_ret cfgs {A} P (x : A) (Q : A -> Prop) : Q x -> keeps cfgs P (ret _ _ _ _ _ _ _ x) Q.
Proof. intros H s Hs _. now split. Qed.
Lemma keeps_modify cfgs P f : (forall s, safe cfgs s -> safe cfgs (f s)) -> keeps cfgs P (modify _ _ _ _ _ _ _ f) (fun _ => True).
Proof. intros H s Hs _. split; [now apply H|exact I]. Qed.
Lemma safe_emit cfgs e s : safe cfgs s -> safe cfgs (emit _ _ _ _ _ _ _ e s).
Proof. exact (fun H => H). Qed.

Lemma keeps_deepcopy cfgs P a : keeps cfgs P (deepcopy _ _ _ _ _ _ _ a) (fun b => List.length cfgs <= b).
Proof.
  intros s (H1 & H2 & H3) _. unfold deepcopy. destruct (nth_error _ a) as [c|]; [|split; [now repeat split|exact I]].
  split; [|exact H1]. unfold safe. cbn [heap with_heap adept_module]. split; [rewrite app_length; lia|]. split; [|exact H3].
  rewrite firstn_app, H2. replace (_ - _) with 0 by lia. cbn. now rewrite app_nil_r.
Qed.
Lemma keeps_read cfgs P a : keeps cfgs P (read _ _ _ _ _ _ _ a) (fun _ => True).
Proof. intros s H _. unfold read. split; [exact H|]. now destruct (nth_error _ a). Qed.
Lemma keeps_module_cfg cfgs P : keeps cfgs P (module_cfg _ _ _ _ _ _ _) (fun _ => True).
Proof. intros s H _. unfold module_cfg. destruct (adept_module _ _ _ _ _ _ _ s) as [[[m a] ms]|]; [apply (keeps_read cfgs (fun _ => True) a s H I)|now split]. Qed.
Lemma safe_write cfgs s a c : List.length cfgs <= a -> safe cfgs s -> safe cfgs (with_heap _ _ _ _ _ _ _ (set_nth (heap _ _ _ _ _ _ _ s) a c) s).
Proof.
  intros Ha (H1 & H2 & H3). unfold safe. cbn [heap with_heap adept_module]. rewrite set_nth_length. split; [exact H1|]. split; [|exact H3].
  rewrite set_nth_firstn by exact Ha. exact H2.
Qed.
Lemma keeps_construct cfgs P m a : List.length cfgs <= a -> keeps cfgs P (construct _ _ _ _ _ _ _ m a) (fun _ => True).
Proof.
  intros Ha s Hs _. unfold construct. destruct (nth_error _ a) as [c|]; [|now split]. destruct (m_init _ _ _ _ _ _ _ m c) as [c' [ms|]].
  - split; [|exact I]. destruct (safe_write cfgs s a c' Ha Hs) as (H1 & H2 & H3). repeat split; assumption.
  - split; [|exact I]. exact (safe_write cfgs s a c' Ha Hs).
Qed.
Lemma keeps_hook cfgs P {R} n (h : module -> hook Cfg MSt R) : keeps cfgs P (call_hook _ _ _ _ _ _ _ n h) (fun _ => True).
Proof.
  intros s Hs _. unfold call_hook. destruct (adept_module _ _ _ _ _ _ _ s) as [[[m a] ms]|] eqn:Em; [|now split].
  destruct (nth_error _ a) as [c|]; [|now split]. destruct (h m c ms) as [[c' ms'] r].
  assert (Ha : List.length cfgs <= a). { destruct Hs as (_ & _ & H3). rewrite Em in H3. exact H3. }
  split; [|now destruct r]. destruct (safe_write cfgs s a c' Ha Hs) as (H1 & H2 & H3). repeat split; assumption.
Qed.
Lemma keeps_setup_inner cfgs P pick a : List.length cfgs <= a -> keeps cfgs P (setup_inner _ _ _ _ _ _ _ pick a) (fun _ => True).
Proof.
  intros Ha. unfold setup_inner. eapply keeps_bind; [apply keeps_deepcopy|]. intros o Ho.
  eapply keeps_bind; [apply keeps_read|]. intros c _.
  eapply keeps_bind; [destruct (pick c); [apply keeps_construct; exact Ha|intros s Hs _; now split]|]. intros _ _.
  eapply keeps_bind; [apply keeps_read|]. intros oc _.
  repeat (eapply keeps_bind; [first [apply keeps_hook|apply keeps_module_cfg|apply keeps_modify; exact (fun s H => H)]|intros ? _]).
  now apply keeps_ret.
Qed.
Lemma keeps_in_run cfgs P {A} id b (m : M A) Q : keeps cfgs (fun _ => True) m Q -> keeps cfgs P (in_run _ _ _ _ _ _ _ id b m) Q.
Proof.
  intros Hm s Hs _. unfold in_run. specialize (Hm (emit _ _ _ _ _ _ _ (StartRun _ _ id b) s) (safe_emit _ _ _ Hs) I). destruct (m _) as [s' r]. exact Hm.
Qed.
Lemma keeps_setup cfgs P pick u : keeps cfgs P (setup _ _ _ _ _ _ _ pick u) (fun _ => True).
Proof.
  unfold setup. eapply keeps_bind; [apply keeps_deepcopy|]. intros a Ha.
  assert (Hb : keeps cfgs (fun _ => True)
    (bind _ _ _ _ _ _ _ (setup_inner _ _ _ _ _ _ _ pick a) (fun r => bind _ _ _ _ _ _ _ (modify _ _ _ _ _ _ _ (emit _ _ _ _ _ _ _ (Artifacts _ _ (snd r)))) (fun _ => ret _ _ _ _ _ _ _ (fst r)))) (fun _ => True)).
  { eapply keeps_bind; [apply keeps_setup_inner; exact Ha|]. intros r _. eapply keeps_bind; [apply keeps_modify; exact (fun s H => H)|]. intros _ _. now apply keeps_ret. }
  eapply (keeps_bind cfgs _ _ (fun _ => True)).
  - intros s Hs _. destruct (run_id _ _ _ _ _ _ _ s) as [id|].
    + apply (keeps_in_run cfgs (fun _ => True) id false _ _ Hb s Hs I).
    + refine (keeps_bind cfgs (fun _ => True) _ (fun _ => True) _ (fun _ => True) _ _ s Hs I); [apply keeps_modify; exact (fun s H => H)|]. intros _ _.
      eapply keeps_bind; [apply keeps_modify; exact (fun s H => H)|]. intros _ _.
      eapply keeps_bind; [apply keeps_in_run; exact Hb|]. intros ms _. eapply keeps_bind; [apply keeps_modify; exact (fun s H => H)|]. intros _ _. now apply keeps_ret.
  - intros ms _. eapply keeps_bind; [apply keeps_modify; exact (fun s H => H)|]. intros _ _. now apply keeps_ret.
Qed.
Lemma safe_run cfgs vg mods args s : safe cfgs s -> safe cfgs (fst (run _ _ _ _ _ _ _ vg mods args s)).
Proof.
  intros Hs. unfold run. destruct (negb _); [exact Hs|]. destruct (run_id _ _ _ _ _ _ _ s) as [id|]; [|exact Hs].
  match goal with |- context [in_run _ _ _ _ _ _ _ id false ?b] => assert (H : keeps cfgs (fun _ => True) (in_run _ _ _ _ _ _ _ id false b) (fun _ => True)) end.
  { apply keeps_in_run. eapply (keeps_bind cfgs _ _ (fun _ => True)); [destruct vg; apply keeps_hook|]. intros out _. eapply keeps_bind; [apply keeps_hook|]. intros p _. now apply keeps_ret. }
  specialize (H s Hs I). destruct (in_run _ _ _ _ _ _ _ id false _ s) as [s' [r|]]; cbn [fst]; tauto.
Qed.
Lemma safe_session cfgs : forall ops s, safe cfgs s -> safe cfgs (fst (session _ _ _ _ _ _ _ ops s)).
Proof.
  induction ops as [|o ops IH]; intros s Hs; [exact Hs|]. cbn [session].
  assert (H1 : safe cfgs (fst (step _ _ _ _ _ _ _ o s))).
  { destruct o as [pick u|vg mods args]; cbn [step].
    - pose proof (keeps_setup cfgs (fun _ => True) pick u s Hs I) as H. destruct (setup _ _ _ _ _ _ _ pick u s) as [s' r]. cbn. tauto.
    - pose proof (safe_run cfgs vg mods args s Hs) as H. destruct (run _ _ _ _ _ _ _ vg mods args s) as [s' r]. exact H. }
  destruct (step _ _ _ _ _ _ _ o s) as [s1 x]. cbn [fst] in H1. specialize (IH s1 H1). destruct (session _ _ _ _ _ _ _ ops s1) as [s2 xs]. exact IH.
Qed.
End L.
