(** C127: the bitmaps of a filtered ground truth run. *)
From Coq Require Import String.
From Verif.Lib Require Import Base Bytes F64.
From Verif.Keys Require Import Model.
From Verif.Labels Require Import Model Proofs Spec2 Proofs4 Proofs6 Props2.
From Verif.Bitmap Require Import Model Spec Spec2 Proofs Proofs2 Proofs3.
Local Open Scope N_scope.

(** One bitmap for each query, in order, with the ids of exactly the documents the filter selects. *)
Theorem C127_bitmaps : forall docs queries bitmaps, NoDup (map fst docs) -> (forall d, In d docs -> distinct_keys (snd d)) ->
  compute_query_bitmaps docs queries = Some bitmaps ->
  List.length bitmaps = List.length queries /\
  forall i q b, nth_error queries i = Some q -> nth_error bitmaps i = Some b ->
    forall x, In x b <-> exists j, In (x, j) docs /\ selects docs j (snd q).
Proof.
  intros docs queries bitmaps ND DK. unfold compute_query_bitmaps.
  destruct (try_map _ docs) as [labels|] eqn:HL; [|discriminate]. destruct (global_labels [] labels) as [g|] eqn:HG; [|discriminate].
  destruct (try_map _ g) as [accs|] eqn:HA; [|discriminate]. intros H. split; [now apply try_map_len in H|].
  intros i q b Q B x. destruct (try_map_nth _ _ _ _ _ H Q) as (b' & B' & E). rewrite B in B'. injection B' as <-.
  exact (query_in docs labels g accs ND DK HL HG HA (snd q) b x E).
Qed.
Print Assumptions C127_bitmaps.

(** A run succeeds exactly when the documents are consistent and every filter suits them; otherwise it
    reports an error (or panics on a null). *)
Theorem C127_succeeds : forall docs queries, (forall d, In d docs -> distinct_keys (snd d)) ->
  (compute_query_bitmaps docs queries <> None <-> consistent docs /\ forall q, In q queries -> answerable docs (snd q)).
Proof. intros docs queries DK. now apply run_some. Qed.
Print Assumptions C127_succeeds.

(** In particular no document of a successful run has two values under one name. *)
Theorem C127_types : forall docs queries bitmaps, (forall d, In d docs -> distinct_keys (snd d)) ->
  compute_query_bitmaps docs queries = Some bitmaps ->
  forall d d' f v v', In d docs -> In d' docs -> has_value (snd d) f v -> has_value (snd d') f v' -> same_type v v' /\ (d = d' -> v = v').
Proof.
  intros docs queries bitmaps DK. unfold compute_query_bitmaps.
  destruct (try_map _ docs) as [labels|] eqn:HL; [|discriminate]. destruct (global_labels [] labels) as [g|] eqn:HG; [|discriminate].
  intros _ (x, j) (x', j') f v v' I I' V V'. cbn [snd] in *. split.
  - destruct (at_kind docs labels g HG f x v) as (w & W & Q); [apply (at_key_docs docs labels DK HL); eauto|].
    destruct (at_kind docs labels g HG f x' v') as (w' & W' & Q'); [apply (at_key_docs docs labels DK HL); eauto|].
    assert (forall j v, has_value j f v -> v <> VEmpty) as NE by (intros k u (ks & leaf & _ & St & _) ->; inversion St).
    apply NE in V. apply NE in V'. assert (kind v = kind v') as K by congruence. destruct v, v'; try discriminate; try constructor; congruence.
  - intros [= <- <-]. assert (exists l, flat j = Some l) as (l & F).
    { apply In_nth_error in I. destruct I as (i & I). destruct (try_map_nth _ _ _ _ _ HL I) as (l & _ & F). eauto. }
    apply (flat_values j l (DK _ I) F) in V. apply (flat_values j l (DK _ I) F) in V'. congruence.
Qed.
Print Assumptions C127_types.

(** A document without the field is not in the bitmap of a negated condition, although the filter
    evaluated on the document is true. *)
Definition eq_str (f s : string) : expr := ECmp (str f) (CEq (JStr (str s))).
Definition one (f s : string) : json := JObj [(str f, JStr (str s))].
Definition three : list (N * json) := [(0, one "color" "red"); (1, one "color" "blue"); (2, one "shape" "circle")].
Theorem C127_negation_refuted : exists e, compute_query_bitmaps three [(0, e)] = Some [[1]] /\ eval e (one "shape" "circle") = true.
Proof. exists (ENot (eq_str "color" "red")). split; vm_compute; reflexivity. Qed.
Print Assumptions C127_negation_refuted.

(** The order of the operands of a disjunction matters under a negation: a field no document has empties
    the result when it comes first and is ignored when it comes later. *)
Theorem C127_order_refuted : exists a b, (forall label, eval (ENot (EOr [a; b])) label = eval (ENot (EOr [b; a])) label) /\
  compute_query_bitmaps three [(0, ENot (EOr [a; b])); (1, ENot (EOr [b; a]))] = Some [[1]; []].
Proof.
  exists (eq_str "color" "red"), (eq_str "size" "big"). split; [|vm_compute; reflexivity].
  intros label. cbn [eval existsb]. f_equal. rewrite !orb_false_r. apply orb_comm.
Qed.
Print Assumptions C127_order_refuted.

(** The check that an integer fits a double lets the largest 64-bit integer pass, which does not: the
    document is then found above a number greater than it. *)
Definition two63_double : f64 := f64_of_N two63.
Theorem C127_largest_refuted : exists j, has_value j (str ".x") (VInt i64_max) /\ (i64_max * f64_unit < f64_val two63_double)%Z /\
  compute_query_bitmaps [(7, j)] [(0, ECmp (str "x") (CRange Gte two63_double))] = Some [[7]].
Proof.
  exists (JObj [(str "x", JNum (JPos 9223372036854775807))]). split; [|split; vm_compute; reflexivity].
  exists [str "x"], (JNum (JPos 9223372036854775807)). split; [reflexivity|]. split; [|reflexivity]. apply (of_int 9223372036854775807). vm_compute. discriminate.
Qed.
Print Assumptions C127_largest_refuted.

(** * Cases *)
Definition mixed : list (N * json) :=
  [(4, JObj [(str "a", JObj [(str "b", JNum (JPos 5))]); (str "c", JStr (str "x"))]);
   (9, JObj [(str "a", JObj [(str "b", JNum (JPos 7))])]);
   (6, JObj [(str "c", JStr (str "x")); (str "d", JBool true)])].
Lemma scalar_distinct j : (forall m, j <> JObj m) -> (forall l, j <> JArr l) -> distinct_keys j.
Proof. intros A B [|k ks] m; cbn [find]; [intros [= ->]; now destruct (A m)|]. destruct j; cbn [children assoc]; try discriminate; [now destruct (B l)|now destruct (A m0)]. Qed.
Lemma obj_distinct m : NoDup (map fst m) -> (forall k j, In (k, j) m -> distinct_keys j) -> distinct_keys (JObj m).
Proof.
  intros N C [|k ks] m' H; cbn [find] in H; [now injection H as <-|]. cbn [children] in H. destruct (assoc k m) as [c|] eqn:E; [|discriminate].
  apply assoc_in in E. exact (C k c E ks m' H).
Qed.
Example C127_case : NoDup (map fst mixed) /\ (forall d, In d mixed -> distinct_keys (snd d)) /\
  compute_query_bitmaps mixed [(0, EOr [ECmp (str "a.b") (CRange Gt f64_one); eq_str "d" "y"]); (1, EAnd [eq_str "c" "x"; ECmp (str ".a.b") (CNe (JNum (JPos 7)))]);
    (2, ENot (ECmp (str "a.b") (CEq (JNum (JPos 5)))))] = Some [[4; 9]; [4]; [9]].
Proof.
  split; [|split].
  - repeat constructor; cbn; intuition discriminate.
  - intros d H. repeat (destruct H as [<-|H]); [| | |destruct H]; cbn [snd].
    all: repeat first [apply obj_distinct | apply scalar_distinct; discriminate | (intros k j K; repeat (destruct K as [[= <- <-]|K]); [..|destruct K]) | (repeat constructor; cbn; intuition discriminate)].
  - vm_compute. reflexivity.
Qed.
Example C127_fails_case : compute_query_bitmaps [(0, one "a" "x"); (1, JObj [(str "a", JBool true)])] [] = None /\
  compute_query_bitmaps three [(0, ECmp (str "color") (CRange Lt f64_one))] = None.
Proof. split; vm_compute; reflexivity. Qed.
