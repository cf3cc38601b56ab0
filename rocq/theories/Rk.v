(** Explicit Runge-Kutta steps as taken by diffrax (used through diffeqsolve with a constant step in
    adept/vfp1d/vector_field.py:311-319, 358-366 and other solvers). The tableau is a parameter: every theorem
    about a step holds for every explicit tableau, in particular for Tsit5, Dopri5, RK4, Heun and Euler.

    A state is a function from an index type to the reals (exact arithmetic). *)
From Verif Require Export RSum Pic.
From Coq Require Import FunctionalExtensionality.
Local Open Scope R_scope.

Record tableau := { rk_rows : list (R * list R); rk_b : list R }.
Definition comb {I : Type} (dt : R) (cs : list R) (ks : list (I -> R)) (y : I -> R) : I -> R :=
  fun i => y i + dt * lsum (map (fun p => fst p * snd p i) (combine cs ks)).
Fixpoint rk_stages {I : Type} (rhs : R -> (I -> R) -> I -> R) (t dt : R) (y : I -> R) (rows : list (R * list R)) (ks : list (I -> R)) : list (I -> R) :=
  match rows with
  | [] => ks
  | (c, a) :: rs => rk_stages rhs t dt y rs (ks ++ [rhs (t + c * dt) (comb dt a ks y)])
  end.
Definition rk_step {I : Type} (tab : tableau) (rhs : R -> (I -> R) -> I -> R) (t dt : R) (y : I -> R) : I -> R :=
  comb dt (rk_b tab) (rk_stages rhs t dt y (rk_rows tab) []) y.

(** Euler's method and the classical fourth-order method, as examples of tableaux. *)
Definition rk_euler : tableau := {| rk_rows := [(0, [])]; rk_b := [1] |}.
Definition rk_four : tableau :=
  {| rk_rows := [(0, []); (1 / 2, [1 / 2]); (1 / 2, [0; 1 / 2]); (1, [0; 0; 1])]; rk_b := [1 / 6; 1 / 3; 1 / 3; 1 / 6] |}.

(** ** Linear invariants *)
Definition linear_fn {I : Type} (L : (I -> R) -> R) : Prop := forall a x y, L (fun i => x i + a * y i) = L x + a * L y.
Definition subspace {I : Type} (S : (I -> R) -> Prop) : Prop := forall a x y, S x -> S y -> S (fun i => x i + a * y i).
(** Binary version: a linear relation between states (possibly with different index types). *)
Definition linear_rel {I J : Type} (Q : (I -> R) -> (J -> R) -> Prop) : Prop :=
  forall a x y x' y', Q x x' -> Q y y' -> Q (fun i => x i + a * y i) (fun j => x' j + a * y' j).

Lemma comb_nil {I} dt cs (y : I -> R) : comb dt cs [] y = y.
Proof. apply functional_extensionality. intros i. unfold comb. destruct cs; cbn; ring. Qed.
Lemma comb_nil' {I} dt ks (y : I -> R) : comb dt [] ks y = y.
Proof. apply functional_extensionality. intros i. unfold comb. cbn. ring. Qed.
Lemma comb_cons {I} dt c cs k ks (y : I -> R) : comb dt (c :: cs) (k :: ks) y = fun i => comb dt cs ks y i + (dt * c) * k i.
Proof. apply functional_extensionality. intros i. unfold comb. cbn [combine map fst snd]. change (lsum (?x :: ?y)) with (x + lsum y). ring. Qed.
Lemma comb_rel {I J} (Q : (I -> R) -> (J -> R) -> Prop) : linear_rel Q -> forall dt cs ks ks' y y', Q y y' -> Forall2 Q ks ks' -> Q (comb dt cs ks y) (comb dt cs ks' y').
Proof.
  intros HQ dt cs ks ks' y y' Hy F. revert cs. induction F as [|k k' ks ks' H F IH]; intros cs; [now rewrite !comb_nil|].
  destruct cs as [|c cs]; [now rewrite !comb_nil'|]. rewrite !comb_cons. apply HQ; auto.
Qed.
Lemma stages_rel {I J} (Q : (I -> R) -> (J -> R) -> Prop) rhs rhs' : linear_rel Q -> (forall t y y', Q y y' -> Q (rhs t y) (rhs' t y')) ->
  forall t dt y y' rows ks ks', Q y y' -> Forall2 Q ks ks' -> Forall2 Q (rk_stages rhs t dt y rows ks) (rk_stages rhs' t dt y' rows ks').
Proof.
  intros HQ HR t dt y y' rows. induction rows as [|[c a] rs IH]; intros ks ks' Hy F; cbn [rk_stages]; [exact F|].
  apply IH; [exact Hy|]. apply Forall2_app; [exact F|]. constructor; [|constructor]. apply HR. now apply comb_rel.
Qed.
(** Related states stay related, whatever the tableau. *)
Lemma rk_rel {I J} (Q : (I -> R) -> (J -> R) -> Prop) tab rhs rhs' t dt y y' : linear_rel Q -> (forall t y y', Q y y' -> Q (rhs t y) (rhs' t y')) ->
  Q y y' -> Q (rk_step tab rhs t dt y) (rk_step tab rhs' t dt y').
Proof. intros HQ HR Hy. unfold rk_step. apply comb_rel; [exact HQ|exact Hy|]. apply stages_rel; auto. Qed.
(** A subspace kept by the right-hand side is kept by the step. *)
Lemma rk_subspace {I} (P : (I -> R) -> Prop) tab rhs t dt y : subspace P -> (forall t y, P y -> P (rhs t y)) -> P y -> P (rk_step tab rhs t dt y).
Proof. intros HP HR Hy. apply (rk_rel (fun x _ : I -> R => P x) tab rhs rhs t dt y y); [intros a x z x' z'; apply HP|intros; now apply HR|exact Hy]. Qed.
Lemma comb_linear {I} (L : (I -> R) -> R) : linear_fn L -> forall dt cs ks y, L (comb dt cs ks y) = L y + dt * lsum (map (fun p => fst p * L (snd p)) (combine cs ks)).
Proof.
  intros HL dt cs. induction cs as [|c cs IH]; intros ks y; [rewrite comb_nil'; cbn; ring|]. destruct ks as [|k ks]; [rewrite comb_nil; cbn; ring|].
  rewrite comb_cons, HL, IH. cbn [combine map fst snd]. change (lsum (?x :: ?y)) with (x + lsum y). ring.
Qed.
Lemma lsum_combine_zero {I} (L : (I -> R) -> R) cs ks : Forall (fun k => L k = 0) ks -> lsum (map (fun p => fst p * L (snd p)) (combine cs ks)) = 0.
Proof.
  intros F. revert cs. induction F as [|k ks H F IH]; intros [|c cs]; try reflexivity. cbn [combine map fst snd]. change (lsum (?x :: ?y)) with (x + lsum y). rewrite H, IH. ring.
Qed.
(** The exact change of a linear quantity: the weighted sum of its rates at the stages. *)
Lemma rk_change {I} (L : (I -> R) -> R) tab rhs t dt y : linear_fn L ->
  L (rk_step tab rhs t dt y) = L y + dt * lsum (map (fun p => fst p * L (snd p)) (combine (rk_b tab) (rk_stages rhs t dt y (rk_rows tab) []))).
Proof. intros HL. unfold rk_step. now apply comb_linear. Qed.
(** Levels: each evaluation of the right-hand side leads from one level to the next; the rate of L vanishes at all
    levels a step can reach. *)
Lemma stages_levels {I} (P : nat -> (I -> R) -> Prop) (L : (I -> R) -> R) rhs t dt y :
  (forall j, subspace (P j)) -> (forall j x, P j x -> P (S j) x) -> (forall j t x, P j x -> P (S j) (rhs t x)) -> P 0%nat y ->
  forall rows ks m, List.length ks = m -> Forall (P m) ks -> Forall (fun k => L k = 0) ks ->
  (forall j t x, (j < m + List.length rows)%nat -> P j x -> L (rhs t x) = 0) -> Forall (fun k => L k = 0) (rk_stages rhs t dt y rows ks).
Proof.
  intros HS HW HR Hy. assert (W : forall m, P m y) by (induction m; auto).
  induction rows as [|[c a] rs IH]; intros ks m E Fk FL HZ; cbn [rk_stages]; [exact FL|].
  assert (B : P m (comb dt a ks y)).
  { refine (comb_rel (fun x _ : I -> R => P m x) _ dt a ks ks y y (W m) _); [intros u x z x' z'; apply HS|]. clear -Fk. induction Fk; constructor; auto. }
  apply (IH _ (S m)).
  - rewrite app_length. cbn. lia.
  - apply Forall_app. split; [eapply Forall_impl; [|exact Fk]; intros x; apply HW|]. constructor; [now apply HR|constructor].
  - apply Forall_app. split; [exact FL|]. constructor; [|constructor]. apply (HZ m); [cbn; lia|exact B].
  - intros j t' x Hj. apply HZ. cbn. lia.
Qed.
Lemma rk_levels {I} (P : nat -> (I -> R) -> Prop) (L : (I -> R) -> R) tab rhs t dt y : linear_fn L ->
  (forall j, subspace (P j)) -> (forall j x, P j x -> P (S j) x) -> (forall j t x, P j x -> P (S j) (rhs t x)) -> P 0%nat y ->
  (forall j t x, (j < List.length (rk_rows tab))%nat -> P j x -> L (rhs t x) = 0) -> L (rk_step tab rhs t dt y) = L y.
Proof.
  intros HL HS HW HR Hy HZ. rewrite rk_change by exact HL. rewrite lsum_combine_zero; [ring|].
  apply (stages_levels P L rhs t dt y HS HW HR Hy (rk_rows tab) [] 0%nat); auto.
Qed.
(** A quantity whose rate vanishes on a subspace kept by the right-hand side. *)
Lemma rk_conserved {I} (P : (I -> R) -> Prop) (L : (I -> R) -> R) tab rhs t dt y : linear_fn L -> subspace P ->
  (forall t x, P x -> P (rhs t x) /\ L (rhs t x) = 0) -> P y -> L (rk_step tab rhs t dt y) = L y.
Proof.
  intros HL HS HR Hy. apply (rk_levels (fun _ => P)); auto; intros; now apply HR.
Qed.
(** The states at which a step evaluates the right-hand side. *)
Fixpoint rk_inputs {I : Type} (rhs : R -> (I -> R) -> I -> R) (t dt : R) (y : I -> R) (rows : list (R * list R)) (ks : list (I -> R)) : list (I -> R) :=
  match rows with
  | [] => []
  | (c, a) :: rs => comb dt a ks y :: rk_inputs rhs t dt y rs (ks ++ [rhs (t + c * dt) (comb dt a ks y)])
  end.
Lemma rk_stages_inputs {I} (rhs : R -> (I -> R) -> I -> R) t dt y : (forall t1 t2 x, rhs t1 x = rhs t2 x) ->
  forall rows ks, rk_stages rhs t dt y rows ks = ks ++ map (rhs 0) (rk_inputs rhs t dt y rows ks).
Proof.
  intros A. induction rows as [|[c a] rs IH]; intros ks; cbn [rk_stages rk_inputs map]; [now rewrite app_nil_r|].
  rewrite IH, <- app_assoc. cbn [app]. now rewrite (A (t + c * dt) 0).
Qed.
(** Every input satisfies a subspace property kept by the right-hand side. *)
Lemma rk_inputs_subspace {I} (P : (I -> R) -> Prop) rhs t dt y : subspace P -> (forall t y, P y -> P (rhs t y)) -> P y ->
  forall rows ks, Forall P ks -> Forall P (rk_inputs rhs t dt y rows ks).
Proof.
  intros HS HR Hy. induction rows as [|[c a] rs IH]; intros ks F; cbn [rk_inputs]; [constructor|].
  assert (B : P (comb dt a ks y)).
  { refine (comb_rel (fun x _ : I -> R => P x) _ dt a ks ks y y Hy _); [intros u x z x' z'; apply HS|]. clear -F. induction F; constructor; auto. }
  constructor; [exact B|]. apply IH. apply Forall_app. split; [exact F|]. constructor; [now apply HR|constructor].
Qed.
