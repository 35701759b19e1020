From Verif.Lib Require Import Base Bytes F64.
From Verif.Keys Require Import Model.
From Verif.Labels Require Import Model Proofs Spec2 Proofs4 Proofs6 Props2.
From Verif.Bitmap Require Import Model Spec.
Local Open Scope N_scope.

Lemma mem_in x b : mem x b = true <-> In x b.
Proof. unfold mem. rewrite existsb_exists. split; [intros (y & H & E); apply N.eqb_eq in E; now subst|intros H; exists x; split; [assumption|apply N.eqb_refl]]. Qed.
Lemma in_inter x a b : In x (inter a b) <-> In x a /\ In x b.
Proof. unfold inter. now rewrite filter_In, mem_in. Qed.
Lemma in_diff x a b : In x (diff a b) <-> In x a /\ ~ In x b.
Proof. unfold diff. rewrite filter_In, <- (mem_in x b), not_true_iff_false, negb_true_iff. reflexivity. Qed.
Lemma in_join x a b : In x (join a b) <-> In x a \/ In x b.
Proof. apply in_app_iff. Qed.

(** * Maps *)
Lemma in_select {K} (p : K -> bool) m x : In x (select p m) <-> exists k ids, In (k, ids) m /\ p k = true /\ In x ids.
Proof.
  unfold select. rewrite in_flat_map. split.
  - intros ((k & ids) & H & I). apply filter_In in H. exists k, ids. tauto.
  - intros (k & ids & H & P & I). exists (k, ids). split; [apply filter_In; auto|assumption].
Qed.
Lemma select_cons {K} (p : K -> bool) k ids m x : In x (select p ((k, ids) :: m)) <-> (p k = true /\ In x ids) \/ In x (select p m).
Proof. unfold select. cbn [filter fst]. destruct (p k); cbn [flat_map snd]; [rewrite in_app_iff|]; intuition congruence. Qed.
Lemma select_upsert {K} (eqb : K -> K -> bool) p k id m x : (forall a b, eqb a b = true -> p a = p b) ->
  In x (select p (upsert eqb k id m)) <-> In x (select p m) \/ (p k = true /\ x = id).
Proof.
  intros C. induction m as [|(k', ids) m IH]; cbn [upsert].
  - rewrite select_cons. cbn [select filter flat_map In]. intuition congruence.
  - destruct (eqb k' k) eqn:E.
    + apply C in E. rewrite !select_cons, in_app_iff, E. cbn [In]. intuition congruence.
    + rewrite !select_cons, IH. tauto.
Qed.
Lemma get_upsert {K} (eqb : K -> K -> bool) k0 k id m x : (forall a b, eqb a b = eqb b a) ->
  (forall a b c, eqb a b = true -> eqb b c = true -> eqb a c = true) ->
  In x (get eqb k (upsert eqb k0 id m)) <-> In x (get eqb k m) \/ (eqb k0 k = true /\ x = id).
Proof.
  intros Sy T. induction m as [|(k', ids) m IH]; cbn [upsert get].
  - destruct (eqb k0 k); cbn [In]; intuition congruence.
  - destruct (eqb k' k0) eqn:E; cbn [get].
    + destruct (eqb k' k) eqn:F.
      * assert (eqb k0 k = true) as -> by (apply (T k0 k' k); [now rewrite Sy|assumption]). rewrite in_app_iff. cbn [In]. intuition congruence.
      * destruct (eqb k0 k) eqn:G; [|intuition congruence]. rewrite (T k' k0 k E G) in F. discriminate.
    + destruct (eqb k' k) eqn:F; [|assumption].
      destruct (eqb k0 k) eqn:G; [|intuition congruence]. rewrite (T k' k k0) in E; [discriminate|assumption|now rewrite Sy].
Qed.

Lemma value_eqb_eq a b : value_eqb a b = true <-> a = b.
Proof.
  destruct a, b; cbn [value_eqb]; try (split; congruence).
  - rewrite Bool.eqb_true_iff. split; congruence.
  - rewrite Z.eqb_eq. split; congruence.
  - rewrite N.eqb_eq. split; congruence.
  - destruct (beqb_spec s s0); split; congruence.
Qed.
Lemma value_eqb_sym a b : value_eqb a b = value_eqb b a.
Proof. destruct (value_eqb a b) eqn:E, (value_eqb b a) eqn:F; try reflexivity; [apply value_eqb_eq in E|apply value_eqb_eq in F]; subst; rewrite (proj2 (value_eqb_eq _ _) eq_refl) in *; discriminate. Qed.
Lemma value_eqb_trans a b c : value_eqb a b = true -> value_eqb b c = true -> value_eqb a c = true.
Proof. rewrite !value_eqb_eq. congruence. Qed.
Lemma f64_eq_iff a b : f64_eq a b = true <-> f64_nan a = false /\ f64_nan b = false /\ f64_val a = f64_val b.
Proof. unfold f64_eq. rewrite !andb_true_iff, Z.eqb_eq, !negb_true_iff. tauto. Qed.
Lemma f64_eq_sym a b : f64_eq a b = f64_eq b a.
Proof. unfold f64_eq. rewrite Z.eqb_sym, (andb_comm (negb (f64_nan a))). reflexivity. Qed.
Lemma f64_eq_trans a b c : f64_eq a b = true -> f64_eq b c = true -> f64_eq a c = true.
Proof. rewrite !f64_eq_iff. intuition congruence. Qed.
Lemma in_range_eq op t a b : f64_eq a b = true -> in_range op t a = in_range op t b.
Proof. rewrite f64_eq_iff. intros (A & B & E). destruct op; cbn [in_range]; unfold f64_lt, f64_le; now rewrite A, B, E. Qed.
Lemma f64_eq_eq t a b : f64_eq a b = true -> negb (f64_eq a t) = negb (f64_eq b t).
Proof. rewrite f64_eq_iff. intros (A & B & E). unfold f64_eq. now rewrite A, B, E. Qed.

(** * Accelerators *)
Section Build.
Context (key : bytes).
Definition at_key (ids : list N) (labels : list attrs) (x : N) (v : value) : Prop := exists l, In (x, l) (combine ids labels) /\ assoc key l = Some v.
Lemma at_key_cons i ids l labels x v : at_key (i :: ids) (l :: labels) x v <-> (x = i /\ assoc key l = Some v) \/ at_key ids labels x v.
Proof.
  unfold at_key. cbn [combine In]. split.
  - intros (l' & [E|H] & A); [injection E as <- <-; auto|right; eauto].
  - intros [(-> & A)|(l' & H & A)]; eauto.
Qed.
Lemma inverted_select p : (forall a b, value_eqb a b = true -> p a = p b) -> forall ids labels m x,
  In x (select p (compute_inverted key ids labels m)) <-> In x (select p m) \/ exists v, at_key ids labels x v /\ p v = true.
Proof.
  intros C. induction ids as [|i ids IH]; intros labels m x; [cbn [compute_inverted]; split; [auto|intros [H|(v & (l & H & _) & _)]; [assumption|cbn [combine In] in H; destruct H]]|].
  destruct labels as [|l labels]; [cbn [compute_inverted]; split; [auto|intros [H|(v & (l & H & _) & _)]; [assumption|cbn [combine In] in H; destruct H]]|]. cbn [compute_inverted]. rewrite IH. clear IH.
  setoid_rewrite at_key_cons. destruct (assoc key l) as [v|].
  - rewrite select_upsert by assumption. split.
    + intros [[H|(P & ->)]|(w & H & P)]; [auto|right; exists v; auto|right; exists w; auto].
    + intros [H|(w & [(-> & [= <-])|H] & P)]; [auto|auto|right; exists w; auto].
  - split; [intros [H|(w & H & P)]; [auto|right; exists w; auto]|intros [H|(w & [(_ & [=])|H] & P)]; [auto|right; exists w; auto]].
Qed.
Lemma inverted_get k ids : forall labels m x,
  In x (get value_eqb k (compute_inverted key ids labels m)) <-> In x (get value_eqb k m) \/ exists v, at_key ids labels x v /\ value_eqb v k = true.
Proof.
  induction ids as [|i ids IH]; intros labels m x; [cbn [compute_inverted]; split; [auto|intros [H|(v & (l & H & _) & _)]; [assumption|cbn [combine In] in H; destruct H]]|].
  destruct labels as [|l labels]; [cbn [compute_inverted]; split; [auto|intros [H|(v & (l & H & _) & _)]; [assumption|cbn [combine In] in H; destruct H]]|]. cbn [compute_inverted]. rewrite IH. clear IH.
  setoid_rewrite at_key_cons. destruct (assoc key l) as [v|].
  - rewrite get_upsert by (exact value_eqb_sym || exact value_eqb_trans). split.
    + intros [[H|(P & ->)]|(w & H & P)]; [auto|right; exists v; auto|right; exists w; auto].
    + intros [H|(w & [(-> & [= <-])|H] & P)]; [auto|auto|right; exists w; auto].
  - split; [intros [H|(w & H & P)]; [auto|right; exists w; auto]|intros [H|(w & [(_ & [=])|H] & P)]; [auto|right; exists w; auto]].
Qed.
Lemma tree_select p : (forall a b, f64_eq a b = true -> p a = p b) -> forall ids labels m m' x, compute_tree key ids labels m = Some m' ->
  In x (select p m') <-> In x (select p m) \/ exists v k, at_key ids labels x v /\ tree_key v = Some k /\ p k = true.
Proof.
  intros C. induction ids as [|i ids IH]; intros labels m m' x; [cbn [compute_tree]; intros [= <-]; split; [auto|intros [H|(v & k & (l & H & _) & _)]; [assumption|cbn [combine In] in H; destruct H]]|].
  destruct labels as [|l labels]; [cbn [compute_tree]; intros [= <-]; split; [auto|intros [H|(v & k & (l & H & _) & _)]; [assumption|cbn [combine In] in H; destruct H]]|]. cbn [compute_tree].
  setoid_rewrite at_key_cons. destruct (assoc key l) as [v|].
  - destruct (tree_key v) as [k|] eqn:Q; [|discriminate]. intros H. rewrite (IH _ _ _ x H), select_upsert by assumption. clear IH H. split.
    + intros [[H|(P & ->)]|(w & z & H & P)]; [auto|right; exists v, k; auto|right; exists w, z; tauto].
    + intros [H|(w & z & [(-> & [= <-])|H] & Y & P)]; [auto|left; right; split; [congruence|reflexivity]|right; exists w, z; auto].
  - intros H. rewrite (IH _ _ _ x H). clear IH H.
    split; [intros [H|(w & z & H & P)]; [auto|right; exists w, z; tauto]|intros [H|(w & z & [(_ & [=])|H] & P)]; [auto|right; exists w, z; auto]].
Qed.
Lemma tree_get q ids : forall labels m m' x, compute_tree key ids labels m = Some m' ->
  In x (get f64_eq q m') <-> In x (get f64_eq q m) \/ exists v k, at_key ids labels x v /\ tree_key v = Some k /\ f64_eq k q = true.
Proof.
  induction ids as [|i ids IH]; intros labels m m' x; [cbn [compute_tree]; intros [= <-]; split; [auto|intros [H|(v & k & (l & H & _) & _)]; [assumption|cbn [combine In] in H; destruct H]]|].
  destruct labels as [|l labels]; [cbn [compute_tree]; intros [= <-]; split; [auto|intros [H|(v & k & (l & H & _) & _)]; [assumption|cbn [combine In] in H; destruct H]]|]. cbn [compute_tree].
  setoid_rewrite at_key_cons. destruct (assoc key l) as [v|].
  - destruct (tree_key v) as [k|] eqn:Q; [|discriminate]. intros H. rewrite (IH _ _ _ x H), get_upsert by (exact f64_eq_sym || exact f64_eq_trans). clear IH H. split.
    + intros [[H|(P & ->)]|(w & z & H & P)]; [auto|right; exists v, k; auto|right; exists w, z; tauto].
    + intros [H|(w & z & [(-> & [= <-])|H] & Y & P)]; [auto|left; right; split; [congruence|reflexivity]|right; exists w, z; auto].
  - intros H. rewrite (IH _ _ _ x H). clear IH H.
    split; [intros [H|(w & z & H & P)]; [auto|right; exists w, z; tauto]|intros [H|(w & z & [(_ & [=])|H] & P)]; [auto|right; exists w, z; auto]].
Qed.
Lemma tree_keys ids : forall labels m m' x v, compute_tree key ids labels m = Some m' -> at_key ids labels x v -> exists k, tree_key v = Some k.
Proof.
  induction ids as [|i ids IH]; intros labels m m' x v; [intros _ (l' & H & _); cbn [combine In] in H; destruct H|].
  destruct labels as [|l labels]; [intros _ (l' & H & _); cbn [combine In] in H; destruct H|]. cbn [compute_tree]. rewrite at_key_cons.
  destruct (assoc key l) as [w|] eqn:E.
  - destruct (tree_key w) as [k|] eqn:Q; [|discriminate]. intros H [(-> & [= <-])|A]; [eauto|]. now apply (IH _ _ _ _ _ H A).
  - intros H [(_ & [=])|A]. now apply (IH _ _ _ _ _ H A).
Qed.
End Build.

Lemma tree_key_double v k : tree_key v = Some k -> as_double v k /\ f64_nan k = false.
Proof.
  destruct v as [|b|z|y|s]; cbn [tree_key]; try discriminate; unfold ordered.
  - destruct (_ =? _)%Z; [|discriminate]. destruct (f64_nan (f64_of_Z z)) eqn:Q; [discriminate|]. intros [= <-]. split; [constructor|assumption].
  - destruct (f64_nan y) eqn:Q; [discriminate|]. intros [= <-]. split; [constructor|assumption].
Qed.
Lemma as_double_fun v a b : as_double v a -> as_double v b -> a = b.
Proof. destruct 1; now inversion 1. Qed.

(** An accelerator answers comparisons on the values it was built from. *)
Lemma accelerator_universe key r ids labels a x : compute_accelerator key r ids labels = Some a ->
  In x (universe a) <-> exists v, at_key key ids labels x v.
Proof.
  destruct r as [|b|z|y|s]; cbn [compute_accelerator]; try discriminate.
  2, 3: destruct (compute_tree key ids labels []) as [m|] eqn:E; [|discriminate]; intros [= <-]; cbn [universe];
    rewrite (tree_select key (fun _ => true) (fun _ _ _ => eq_refl) _ _ _ _ x E); (split;
    [intros [H|(v & k & H & _)]; [cbn [select filter flat_map In] in H; tauto|eauto]|intros (v & H); destruct (tree_keys key _ _ _ _ _ _ E H) as (k & Q); right; eauto 6]).
  all: intros [= <-]; cbn [universe]; rewrite (inverted_select key (fun _ => true) (fun _ _ _ => eq_refl)); cbn [select filter flat_map In]; split; [intros [[]|(v & H & _)]; eauto|intros (v & H); eauto 6].
Qed.
Lemma stands_equals v w u : (kind v = 1 \/ kind v = 4) -> value_of_json w = Some u -> (value_eqb v u = true <-> equals v w).
Proof.
  intros K V. apply value_stands in V. rewrite value_eqb_eq. split.
  - intros ->. inversion V; subst; cbn [kind] in K; try constructor; destruct K; discriminate.
  - intros E. inversion E as [s A B|b A B|a n y D F A B]; subst; inversion V; subst; try reflexivity; destruct D; destruct K; discriminate.
Qed.
Lemma accelerator_eval key r ids labels a op b x : compute_accelerator key r ids labels = Some a ->
  (forall x v, at_key key ids labels x v -> kind r = kind v) -> accel_eval a op = Some b ->
  In x b <-> exists v, at_key key ids labels x v /\ compares op v.
Proof.
  intros A K E.
  assert ((exists m, a = Inverted m /\ m = compute_inverted key ids labels [] /\ forall x v, at_key key ids labels x v -> kind v = 1 \/ kind v = 4) \/
          (exists m, a = Tree m /\ compute_tree key ids labels [] = Some m)) as [(m & -> & -> & T)|(m & -> & T)].
  { destruct r as [|c|z|y|s]; cbn [compute_accelerator] in A; try discriminate.
    2, 3: right; destruct (compute_tree key ids labels []) as [m|]; [|discriminate]; injection A as <-; eauto.
    all: left; injection A as <-; eexists; split; [reflexivity|]; split; [reflexivity|]; intros y v H; apply K in H; cbn [kind] in H; auto. }
  - destruct op as [w|w|op t]; cbn [accel_eval] in E; try discriminate; destruct (value_of_json w) as [u|] eqn:V; try discriminate; injection E as <-; cbn [compares].
    + rewrite inverted_get. cbn [get In]. split; [intros [[]|(v & H & Q)]|intros (v & H & Q); right]; exists v; (split; [assumption|]); apply (stands_equals v w u); eauto.
    + rewrite inverted_select by (intros p q L; apply value_eqb_eq in L; now subst). cbn [select filter flat_map In].
      split; [intros [[]|(v & H & Q)]|intros (v & H & Q); right]; exists v; (split; [assumption|]).
      * intros X. apply (stands_equals v w u) in X; eauto. rewrite X in Q. discriminate.
      * destruct (value_eqb v u) eqn:G; [|reflexivity]. exfalso. apply Q. apply (stands_equals v w u); eauto.
  - destruct op as [w|w|op t]; cbn [accel_eval] in E; cbn [compares].
    + destruct w as [| |n| | |]; cbn [as_f64] in E; try discriminate. change (num_f64 n) with (number n) in E. unfold ordered in E. destruct (f64_nan (number n)) eqn:Q; [discriminate|]. injection E as <-.
      rewrite (tree_get key _ _ _ _ _ x T). cbn [get In]. split.
      * intros [[]|(v & k & H & D & F)]. exists v. split; [assumption|]. apply f64_eq_iff in F. apply tree_key_double in D. apply (eq_number v n k); tauto.
      * intros (v & H & F). right. destruct (tree_keys key _ _ _ _ _ _ T H) as (k & D). exists v, k. split; [assumption|]. split; [assumption|]. apply tree_key_double in D.
        inversion F as [| |v' n' y D' F' G G']; subst. rewrite (as_double_fun _ _ _ D' (proj1 D)) in *. apply f64_eq_iff. tauto.
    + destruct w as [| |n| | |]; cbn [as_f64] in E; try discriminate. change (num_f64 n) with (number n) in E. unfold ordered in E. destruct (f64_nan (number n)) eqn:Q; [discriminate|]. injection E as <-.
      rewrite (tree_select key _ (f64_eq_eq _) _ _ _ _ x T). cbn [select filter flat_map In]. split.
      * intros [[]|(v & k & H & D & F)]. exists v. split; [assumption|]. intros X. apply tree_key_double in D. inversion X as [| |v' n' y D' F' G G']; subst.
        rewrite (as_double_fun _ _ _ D' (proj1 D)) in *. rewrite (proj2 (f64_eq_iff _ _)) in F; [discriminate|tauto].
      * intros (v & H & F). right. destruct (tree_keys key _ _ _ _ _ _ T H) as (k & D). exists v, k. split; [assumption|]. split; [assumption|]. apply tree_key_double in D.
        destruct (f64_eq k (number n)) eqn:G; [|reflexivity]. exfalso. apply F. apply f64_eq_iff in G. apply (eq_number v n k); tauto.
    + unfold ordered in E. destruct (f64_nan t) eqn:Q; [discriminate|]. injection E as <-.
      rewrite (tree_select key _ (in_range_eq op t) _ _ _ _ x T). cbn [select filter flat_map In].
      assert (forall v k, tree_key v = Some k -> (in_range op t k = true <-> compares (CRange op t) v)) as M.
      { intros v k D. apply tree_key_double in D. destruct D as (D & NK). destruct op; cbn [in_range compares]; unfold f64_lt, f64_le; rewrite NK, Q; cbn [negb andb];
          rewrite ?Z.ltb_lt, ?Z.leb_le; (split; [intros L; exists k; auto|intros (y & D' & L); now rewrite (as_double_fun _ _ _ D D')]). }
      split.
      * intros [[]|(v & k & H & D & F)]. exists v. split; [assumption|]. exact (proj1 (M v k D) F).
      * intros (v & H & F). right. destruct (tree_keys key _ _ _ _ _ _ T H) as (k & D). exists v, k. split; [assumption|]. split; [assumption|]. exact (proj2 (M v k D) F).
Qed.
