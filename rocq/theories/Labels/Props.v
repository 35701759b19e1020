(** Property theorems about the label index and its filters (C31, C32, C33). *)
From Coq Require Import String.
From Verif.Lib Require Import Base Lists Bytes F64.
From Verif.Keys Require Import Model Spec Proofs.
From Verif.Labels Require Import Model Spec Proofs Proofs2 Proofs3 Proofs4 Proofs5.
Local Open Scope N_scope.

Example codec32_lawful : lawful codec32.
Proof.
  intros l D F. exists l. split; [|tauto]. cbn [codec32 pl_de pl_ser]. clear D. induction F as [|x l H F IH]; [reflexivity|].
  change (ser32 (x :: l)) with (le_enc 4 x ++ ser32 l). remember (le_enc 4 x) as b. assert (L : length b = 4%nat) by (subst; apply le_enc_length).
  destruct b as [|b0 [|b1 [|b2 [|b3 [|]]]]]; try discriminate. cbn [app de32]. rewrite IH, Heqb. do 2 f_equal. apply le_dec_enc. exact H.
Qed.

(** * The index (C32) *)
(** After any history of inserts of new documents, updates and deletes, each repeated until it
    succeeded on a store that may fail at any point, every posting list names exactly the
    documents that currently have the attribute. *)
Theorem C32_postings_exact : forall c s d, lawful c -> indexed c s d -> postings_exact c s d.
Proof.
  intros c s d L H f v Nf V. destruct (indexed_inv c s d L H) as (K & D). destruct (posting_mem c s _ _ f v K Nf V) as (A & B). split; [assumption|].
  intros id. rewrite B. now apply dmem_attr.
Qed.
Print Assumptions C32_postings_exact.

(** Without failures every call succeeds, so such histories always continue. *)
Theorem C32_calls_succeed : forall c s d o, lawful c -> indexed c s d -> op_ok d o ->
  exists s', istep no_failure c o s = (true, s') /\ indexed c s' (apply_op o d).
Proof.
  intros c s d o L H O. pose proof (step_ok c o d s L (indexed_inv c s d L H) O) as E. destruct (istep no_failure c o s) as (b, s') eqn:Es. cbn in E. subst b.
  exists s'. split; [reflexivity|]. eapply ix_op; eauto. eapply cp_done; eauto.
Qed.
Print Assumptions C32_calls_succeed.
Definition ex_a : list (bytes * value) := [(str "/color", VStr (str "red")); (str "/n", VInt (-5))].
Definition ex_b : list (bytes * value) := [(str "/color", VStr (str "red"))].
Lemma ex_attrs_ok : attrs_ok ex_a /\ attrs_ok ex_b.
Proof.
  split; (split; [repeat constructor; cbn; intuition congruence|]; split; [|split; vm_compute; reflexivity]);
  intros f v H; repeat (destruct H as [H|H]; [injection H as <- <-; (split; [intros X; vm_compute in X; intuition discriminate|split; [vm_compute; try split; congruence|vm_compute; reflexivity]])|]); contradiction.
Qed.
Example C32_postings_exact_case : exists s d, indexed codec32 s d /\ posting codec32 s (str "/color") (VStr (str "red")) = [4; 7] /\
  posting codec32 s (str "/n") (VInt (-5)) = [7] /\ d 4 = Some ex_b /\ d 5 = None.
Proof.
  destruct ex_attrs_ok as (A & B).
  destruct (C32_calls_succeed codec32 kv_empty no_docs (OInsert 7 ex_a) codec32_lawful (ix_new _)) as (s1 & E1 & I1); [split; [reflexivity|auto]|].
  destruct (C32_calls_succeed codec32 s1 _ (OInsert 5 ex_a) codec32_lawful I1) as (s2 & E2 & I2); [split; [reflexivity|auto]|].
  destruct (C32_calls_succeed codec32 s2 _ (OUpdate 4 ex_b) codec32_lawful I2) as (s3 & E3 & I3); [split; [reflexivity|auto]|].
  destruct (C32_calls_succeed codec32 s3 _ (ODelete 5) codec32_lawful I3) as (s4 & E4 & I4); [exact I|].
  assert (X1 : s1 = snd (istep no_failure codec32 (OInsert 7 ex_a) kv_empty)) by now rewrite E1.
  assert (X2 : s2 = snd (istep no_failure codec32 (OInsert 5 ex_a) s1)) by now rewrite E2.
  assert (X3 : s3 = snd (istep no_failure codec32 (OUpdate 4 ex_b) s2)) by now rewrite E3.
  assert (X4 : s4 = snd (istep no_failure codec32 (ODelete 5) s3)) by now rewrite E4.
  eexists s4, _. split; [exact I4|]. subst s4 s3 s2 s1. split; [vm_compute; reflexivity|]. split; [vm_compute; reflexivity|]. split; reflexivity.
Qed.

(** Whatever fails and whether or not calls are repeated, a call on one document never changes
    what the index says about another one. *)
Theorem C32_failures_are_contained : forall c s fail o b s' x f v, lawful c -> any_index c s ->
  op_id o < two32 -> (forall id a, o = OInsert id a \/ o = OUpdate id a -> attrs_ok a) ->
  istep fail c o s = (b, s') -> x <> op_id o -> no_nul f -> value_ok v ->
  In x (posting c s' f v) <-> In x (posting c s f v).
Proof.
  intros c s fail o b s' x f v L A I O E N Nf V. destruct (any_inv c s L A) as (mem & rev & K & R).
  destruct (any_step c s fail o b s' mem rev L I O K R E) as (mem' & rev' & K' & _ & S). destruct (S x N) as (S1 & _).
  rewrite (proj2 (posting_mem c s _ _ f v K Nf V) x), (proj2 (posting_mem c s' _ _ f v K' Nf V) x). symmetry. apply S1.
Qed.
Print Assumptions C32_failures_are_contained.
(** and reading a posting list never fails. *)
Theorem C32_postings_readable : forall c s f v, lawful c -> any_index c s -> no_nul f -> value_ok v ->
  get_posting_list c (k_map s) f v <> None.
Proof. intros c s f v L A Nf V. destruct (any_inv c s L A) as (mem & rev & K & R). exact (proj1 (posting_mem c s _ _ f v K Nf V)). Qed.
Print Assumptions C32_postings_readable.
Example C32_failures_case : exists s, any_index codec32 s /\ posting codec32 s (str "/color") (VStr (str "red")) = [7] /\
  fst (istep (fun n => (n =? 3)%nat) codec32 (OInsert 7 ex_a) kv_empty) = false.
Proof.
  destruct ex_attrs_ok as (A & B). eexists. split; [|split].
  - eapply (ai_op codec32 kv_empty (fun n => (n =? 3)%nat) (OInsert 7 ex_a)); [constructor|reflexivity|intros id a [[= _ <-]|[=]]; assumption|].
    apply surjective_pairing.
  - vm_compute. reflexivity.
  - vm_compute. reflexivity.
Qed.

(** Inserting a document again leaves it in the posting lists of its old attributes. *)
Theorem C32_reinsert_refuted : exists s1 s2 : kv, istep no_failure codec32 (OInsert 7 ex_a) kv_empty = (true, s1) /\
  istep no_failure codec32 (OInsert 7 ex_b) s1 = (true, s2) /\ In 7 (posting codec32 s2 (str "/n") (VInt (-5))) /\
  (forall v, ~ In (str "/n", v) ex_b) /\
  (* and the delete that follows does not find them *)
  In 7 (posting codec32 (snd (istep no_failure codec32 (ODelete 7) s2)) (str "/n") (VInt (-5))).
Proof.
  eexists _, _. split; [apply surjective_pairing|]. split; [apply surjective_pairing|]. split; [vm_compute; auto|]. split; [intros v [[=]|[]]|]. vm_compute. auto.
Qed.
Print Assumptions C32_reinsert_refuted.
(** After an insert that failed on its last write, a delete reports success and the posting
    lists still name the document. *)
Theorem C32_failed_insert_refuted : exists (fail : nat -> bool) (s1 s2 : kv), istep fail codec32 (OInsert 7 ex_a) kv_empty = (false, s1) /\
  istep no_failure codec32 (ODelete 7) s1 = (true, s2) /\ In 7 (posting codec32 s2 (str "/n") (VInt (-5))).
Proof.
  exists (fun n => (n =? 4)%nat). eexists _, _. split; [apply surjective_pairing|]. split; [apply surjective_pairing|]. vm_compute. auto.
Qed.
Print Assumptions C32_failed_insert_refuted.
(** Ids are [usize] in the API and u32 in the posting lists: ids [2^32] apart share entries, and
    deleting one removes the other. *)
Theorem C32_large_ids_refuted : exists s1 s2 s3 : kv, istep no_failure codec32 (OInsert 7 ex_b) kv_empty = (true, s1) /\
  istep no_failure codec32 (OInsert (two32 + 7) ex_b) s1 = (true, s2) /\ istep no_failure codec32 (ODelete (two32 + 7)) s2 = (true, s3) /\
  posting codec32 s3 (str "/color") (VStr (str "red")) = [].
Proof.
  eexists _, _, _. split; [apply surjective_pairing|]. split; [apply surjective_pairing|]. split; [apply surjective_pairing|]. vm_compute. reflexivity.
Qed.
Print Assumptions C32_large_ids_refuted.

(** * Filters on the index (C31) *)
(** The index answers a filter with exactly the documents whose label satisfies it. *)
Theorem C31_index_agrees_with_evaluation : forall c ch s labels e, lawful c -> ch <> 0 -> labelled c ch s labels ->
  (forall id j, labels id = Some j -> plain ch j /\ exact_on e j) -> answerable ch e ->
  exists r, query c (normalizer ch) (k_map s) e = Some r /\
  forall id, In id r <-> exists j, labels id = Some j /\ eval e j = true.
Proof.
  intros c ch s labels e L C (d & H & D) P A. apply (query_exact c ch s labels d); auto.
  - now apply indexed_inv.
  - intros id j E. now apply (P id j).
  - intros id j E. now apply (P id j).
Qed.
Print Assumptions C31_index_agrees_with_evaluation.
Ltac aok := split; [repeat constructor; cbn; intuition congruence|]; split; [|split; vm_compute; reflexivity];
  intros f v H; repeat (destruct H as [H|H]; [injection H as <- <-; (split; [intros X; vm_compute in X; intuition discriminate|split; [vm_compute; try split; congruence|vm_compute; reflexivity]])|]); contradiction.
(** One labelled document, indexed. *)
Definition only (j : json) : N -> option json := fun id => if id =? 1 then Some j else None.
Lemma only_labelled ch j a : attributes [ch] j = Some a -> attrs_ok a -> labelled codec32 ch (index_one a) (only j).
Proof.
  intros E A. destruct (C32_calls_succeed codec32 kv_empty no_docs (OInsert 1 a) codec32_lawful (ix_new _)) as (s & H & I); [split; [reflexivity|auto]|].
  unfold index_one. cbn [istep] in H. rewrite H. cbn [snd]. eexists. split; [exact I|]. intros id. cbn [apply_op]. unfold set_doc, only. destruct (id =? 1); [now rewrite E|reflexivity].
Qed.
Definition ex_label : json := JObj [(str "a", JObj [(str "b", JNum (JPos 5))]); (str "c", JStr (str "x")); (str "r", JNum (JFlt f64_1_5))].
Definition ex_filter : expr := EAnd [ECmp (str "a.b") (CRange Gt f64_one); EOr [ECmp (str "c") (CEq (JStr (str "y"))); ECmp (str "r") (CRange Lt f64_1_5); ECmp (str "c") (CEq (JStr (str "x")))]].
Example C31_case : exists s, labelled codec32 47 s (only ex_label) /\ plain 47 ex_label /\ exact_on ex_filter ex_label /\ answerable 47 ex_filter /\
  query codec32 (normalizer 47) (k_map s) ex_filter = Some [1].
Proof.
  eexists. split; [eapply only_labelled; [vm_compute; reflexivity|aok]|]. split; [|split; [|split]].
  - cbn. repeat split; try (intros X; vm_compute in X; intuition discriminate); try discriminate; repeat constructor; cbn; intuition congruence.
  - split.
    + intros leaf [= <-]. split; [unfold small_int; cbn; lia|]. exists 1%Z. split; [unfold small_int; lia|vm_compute; reflexivity].
    + split; [|exact I]. split; [exact I|]. split; [|split; exact I]. intros leaf [= <-]. cbn. auto.
  - cbn. repeat split; try (intros X; vm_compute in X; intuition discriminate); try discriminate; try (right; intros X; vm_compute in X; intuition discriminate).
  - vm_compute. reflexivity.
Qed.

(** Outside these conditions index and evaluation differ.  [x > t] on the index includes
    doubles equal to [t], [x <= t] excludes them; *)
Definition num_label (n : jnum) : json := JObj [(str "x", JNum n)].
Theorem C31_double_bounds_refuted : exists s, labelled codec32 47 s (only (num_label (JFlt f64_1_5))) /\
  (query codec32 (normalizer 47) (k_map s) (ECmp (str "x") (CRange Gt f64_1_5)) = Some [1] /\ eval (ECmp (str "x") (CRange Gt f64_1_5)) (num_label (JFlt f64_1_5)) = false) /\
  (query codec32 (normalizer 47) (k_map s) (ECmp (str "x") (CRange Lte f64_1_5)) = Some [] /\ eval (ECmp (str "x") (CRange Lte f64_1_5)) (num_label (JFlt f64_1_5)) = true).
Proof.
  eexists. split; [eapply only_labelled; [vm_compute; reflexivity|aok]|]. repeat split; vm_compute; reflexivity.
Qed.
Print Assumptions C31_double_bounds_refuted.
(** the threshold is truncated for integers: [1 < 1.5] is missed; *)
Theorem C31_fractional_threshold_refuted : exists s, labelled codec32 47 s (only (num_label (JPos 1))) /\
  query codec32 (normalizer 47) (k_map s) (ECmp (str "x") (CRange Lt f64_1_5)) = Some [] /\ eval (ECmp (str "x") (CRange Lt f64_1_5)) (num_label (JPos 1)) = true.
Proof.
  eexists. split; [eapply only_labelled; [vm_compute; reflexivity|aok]|]. repeat split; vm_compute; reflexivity.
Qed.
Print Assumptions C31_fractional_threshold_refuted.
(** evaluation rounds large integers to doubles, the index does not; *)
Theorem C31_large_integer_refuted : exists s, labelled codec32 47 s (only (num_label (JPos (two53 + 1)))) /\
  query codec32 (normalizer 47) (k_map s) (ECmp (str "x") (CRange Gt (f64_of_N two53))) = Some [1] /\ eval (ECmp (str "x") (CRange Gt (f64_of_N two53))) (num_label (JPos (two53 + 1))) = false.
Proof.
  eexists. split; [eapply only_labelled; [vm_compute; reflexivity|aok]|]. repeat split; vm_compute; reflexivity.
Qed.
Print Assumptions C31_large_integer_refuted.
(** equal zeros have two keys, and different integers from [2^63] on share one; *)
Theorem C31_equality_refuted :
  (exists s, labelled codec32 47 s (only (num_label (JFlt 0))) /\
     query codec32 (normalizer 47) (k_map s) (ECmp (str "x") (CEq (JNum (JFlt two63)))) = Some [] /\ eval (ECmp (str "x") (CEq (JNum (JFlt two63)))) (num_label (JFlt 0)) = true) /\
  (exists s, labelled codec32 47 s (only (num_label (JPos two63))) /\
     query codec32 (normalizer 47) (k_map s) (ECmp (str "x") (CEq (JNum (JPos (two63 + 1))))) = Some [1] /\ eval (ECmp (str "x") (CEq (JNum (JPos (two63 + 1))))) (num_label (JPos two63)) = false).
Proof.
  split; eexists; (split; [eapply only_labelled; [vm_compute; reflexivity|aok]|]); repeat split; vm_compute; reflexivity.
Qed.
Print Assumptions C31_equality_refuted.
(** array elements and keys with the separator are reached on the index only. *)
Definition arr_label : json := JObj [(str "a", JArr [JNum (JPos 5)])].
Definition slash_label : json := JObj [(str "a/b", JNum (JPos 5))].
Theorem C31_paths_refuted :
  (exists s, labelled codec32 47 s (only arr_label) /\
     query codec32 (normalizer 47) (k_map s) (ECmp (str "a.0") (CEq (JNum (JPos 5)))) = Some [1] /\ eval (ECmp (str "a.0") (CEq (JNum (JPos 5)))) arr_label = false) /\
  (exists s, labelled codec32 47 s (only slash_label) /\
     query codec32 (normalizer 47) (k_map s) (ECmp (str "a.b") (CEq (JNum (JPos 5)))) = Some [1] /\ eval (ECmp (str "a.b") (CEq (JNum (JPos 5)))) slash_label = false).
Proof.
  split; eexists; (split; [eapply only_labelled; [vm_compute; reflexivity|aok]|]); repeat split; vm_compute; reflexivity.
Qed.
Print Assumptions C31_paths_refuted.
(** Negations are not answered at all, and an empty conjunction differently. *)
Theorem C31_negation_refuted : forall c norm m e f v j,
  query c norm m (ENot e) = None /\ query c norm m (ECmp f (CNe v)) = None /\
  query c norm m (EAnd []) = Some [] /\ eval (EAnd []) j = true.
Proof. intros. repeat split. Qed.
Print Assumptions C31_negation_refuted.

(** * The filter language (C33) *)
(** The parser accepts exactly the well-formed filters among the strict ones, *)
Theorem C33_accepts_exactly : forall f, strict f -> (exists e, parse_query_filter f = POk e) <-> well_formed f 0.
Proof. intros f S. exact (proj1 (parse_correct f S 0%nat)). Qed.
Print Assumptions C33_accepts_exactly.
(** and evaluating what it returns is what the filter says. *)
Theorem C33_means_what_it_says : forall f e label, strict f -> parse_query_filter f = POk e ->
  (eval e label = true <-> holds f label).
Proof. intros f e label S. exact (proj2 (parse_correct f S 0%nat) e label). Qed.
Print Assumptions C33_means_what_it_says.
Definition ex_query : json := JObj [(str "$and", JArr [
  JObj [(str "age", JObj [(str "$gte", JNum (JPos 18)); (str "$lt", JNum (JPos 65))])];
  JObj [(str "$not", JObj [(str "city", JObj [(str "$eq", JStr (str "x"))])])]])].
Example C33_case : strict ex_query /\ well_formed ex_query 0 /\ holds ex_query (JObj [(str "age", JNum (JPos 30))]) /\
  ~ well_formed (JObj [(str "age", JObj [(str "$like", JNum (JPos 18))])]) 0.
Proof.
  assert (S : strict ex_query).
  { split; [left; reflexivity|]. cbn. split; [split; [reflexivity|eexists; reflexivity]|]. split; [|exact I]. split; [reflexivity|eexists; reflexivity]. }
  assert (E : exists e, parse_query_filter ex_query = POk e) by (eexists; vm_compute; reflexivity).
  split; [exact S|]. split; [now apply C33_accepts_exactly|]. split.
  - destruct E as (e & E). apply (C33_means_what_it_says _ e); [assumption..|]. vm_compute in E. injection E as <-. vm_compute. reflexivity.
  - intros H. apply C33_accepts_exactly in H; [|split; [reflexivity|eexists; reflexivity]]. destruct H as (e & H). vm_compute in H. discriminate.
Qed.
(** A logical operator hides the entries next to it, *)
Definition sibling_query : json := JObj [(str "$and", JArr [JObj [(str "a", JObj [(str "$eq", JNum (JPos 1))])]]); (str "b", JObj [(str "$eq", JNum (JPos 2))])].
Theorem C33_siblings_refuted : exists e label, parse_query_filter sibling_query = POk e /\ eval e label = true /\ ~ holds sibling_query label.
Proof.
  eexists _, (JObj [(str "a", JNum (JPos 1))]). split; [vm_compute; reflexivity|]. split; [vm_compute; reflexivity|].
  intros (_ & H & _). destruct (H (str "$eq") (JNum (JPos 2)) (or_introl eq_refl)) as (x & X & _). vm_compute in X. discriminate.
Qed.
Print Assumptions C33_siblings_refuted.
(** a condition that is not an object is ignored, *)
Definition short_query : json := JObj [(str "a", JNum (JPos 1)); (str "b", JObj [(str "$eq", JNum (JPos 2))])].
Theorem C33_short_conditions_refuted : exists e label, parse_query_filter short_query = POk e /\ eval e label = true /\ ~ holds short_query label.
Proof.
  eexists _, (JObj [(str "a", JNum (JPos 7)); (str "b", JNum (JPos 2))]). split; [vm_compute; reflexivity|]. split; [vm_compute; reflexivity|]. intros (H & _). exact H.
Qed.
Print Assumptions C33_short_conditions_refuted.
(** and so is an [$and] or [$or] without an array next to a [$not]. *)
Definition bad_and_query : json := JObj [(str "$and", JNum (JPos 1)); (str "$not", JObj [(str "b", JObj [(str "$eq", JNum (JPos 2))])])].
Theorem C33_bad_operand_refuted : exists e, parse_query_filter bad_and_query = POk e /\ forall label, ~ holds bad_and_query label.
Proof. eexists. split; [vm_compute; reflexivity|]. intros label (H & _). exact H. Qed.
Print Assumptions C33_bad_operand_refuted.
