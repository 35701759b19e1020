(** C123: flattening a document lists its leaves. *)
From Coq Require Import String.
From Verif.Lib Require Import Base Lists Bytes F64.
From Verif.Keys Require Import Model.
From Verif.Labels Require Import Model Proofs Spec2 Proofs4 Proofs6.
Local Open Scope N_scope.

Lemma value_stands leaf v : value_of_json leaf = Some v <-> stands_for leaf v.
Proof.
  split.
  - destruct leaf as [|b|[n|z|x]|s|l|m]; cbn [value_of_json]; intros [= <-]; try constructor. destruct (N.leb_spec n 9223372036854775807) as [L|L]; constructor; unfold i64_max; lia.
  - destruct 1 as [b|s|n L|n L|z|x]; cbn [value_of_json]; try reflexivity; unfold i64_max in L; destruct (N.leb_spec n 9223372036854775807); try reflexivity; lia.
Qed.
(** Every leaf is listed under the name of its path, and nothing else is: containers and their names
    never are. Holds for every one-character separator and every root prefix. *)
Theorem C123_leaves : forall ch prefix j a, distinct_keys j -> flatten [ch] prefix j = Some a ->
  forall name v, In (name, v) a <-> exists ks leaf, find j ks = Some leaf /\ stands_for leaf v /\ name = field prefix ch ks.
Proof.
  intros ch prefix j a D F name v. unfold field. rewrite (flatten_lists ch j prefix a D F). unfold path_of.
  split; intros (ks & leaf & H & V & E); exists ks, leaf; rewrite flat_map_concat_map in *; apply value_stands in V; auto.
Qed.
Print Assumptions C123_leaves.

(** When no member has the separator in its name, no two leaves share a name, so the map has one entry
    for each leaf and the name gives back the path. *)
Theorem C123_names : forall ch j, not_digit ch -> distinct_keys j -> free_of ch j ->
  (forall prefix a, flatten [ch] prefix j = Some a -> NoDup (map fst a)) /\
  attributes [ch] j = flatten [ch] [] j /\
  forall prefix ks ks' l l', find j ks = Some l -> find j ks' = Some l' -> field prefix ch ks = field prefix ch ks' -> ks = ks'.
Proof.
  intros ch j ND D H. split; [|split].
  - intros prefix a F. now apply (flatten_nodup ch ND j prefix).
  - unfold attributes. destruct (flatten [ch] [] j) as [a|] eqn:F; [|reflexivity]. cbn [option_map]. f_equal. apply collect_nodup. now apply (flatten_nodup ch ND j []).
  - intros prefix ks ks' l l' E E' F. unfold field in F. apply app_inv_head in F. rewrite <- !flat_map_concat_map in F. apply (path_inj ch); [| |exact F]; eapply find_free; eassumption.
Qed.
Print Assumptions C123_names.

(** Flattening panics exactly on documents with a null somewhere, whatever the separator. *)
Theorem C123_null : forall sp prefix j, distinct_keys j -> (flatten sp prefix j = None <-> exists ks, find j ks = Some JNull).
Proof. intros sp prefix j D. now apply flatten_none. Qed.
Print Assumptions C123_null.

(** The map keeps the last value listed under a name, and each name once. *)
Theorem C123_last : forall sp j l m, flatten sp [] j = Some l -> attributes sp j = Some m ->
  NoDup (map fst m) /\ forall name v, In (name, v) m <-> exists before after, l = before ++ (name, v) :: after /\ ~ In name (map fst after).
Proof.
  intros sp j l m F A. unfold attributes in A. rewrite F in A. injection A as <-. clear F.
  assert (SUB : forall l p, In p (map fst (collect l)) -> In p (map fst l)).
  { induction l0 as [|(f, v) l0 IH]; intros p H; [exact H|]. cbn [collect] in H. destruct (existsb _ l0); [right; auto|]. destruct H as [<-|H]; [now left|right; auto]. }
  induction l as [|(f, w) l (IH1 & IH2)]; [split; [constructor|]; intros name v; split; [contradiction|intros (b & c & E & _); destruct b; discriminate]|]. cbn [collect].
  destruct (existsb (fun p => beqb f (fst p)) l) eqn:E.
  - assert (I : In f (map fst l)) by (apply existsb_exists in E; destruct E as (p & I & E); apply in_map_iff; exists p; split; [destruct (beqb_spec f (fst p)); [auto|discriminate]|exact I]).
    split; [exact IH1|]. intros name v. rewrite IH2. split.
    + intros (b & c & -> & N). exists ((f, w) :: b), c. auto.
    + intros ([|p b] & c & X & N); [injection X as <- <- <-; contradiction|]. injection X as <- ->. exists b, c. auto.
  - assert (N : ~ In f (map fst l)). { intros I. apply in_map_iff in I. destruct I as (p & X & I). assert (existsb (fun p => beqb f (fst p)) l = true); [|congruence]. apply existsb_exists. exists p. split; [exact I|]. destruct (beqb_spec f (fst p)); congruence. }
    split; [cbn [map fst]; constructor; [auto|exact IH1]|]. intros name v. split.
    + intros [X|I]; [injection X as <- <-; exists [], l; auto|]. apply IH2 in I. destruct I as (b & c & -> & M). exists ((f, w) :: b), c. auto.
    + intros ([|p b] & c & X & M); [injection X as <- <- <-; now left|]. injection X as <- ->. right. apply IH2. exists b, c. auto.
Qed.
Print Assumptions C123_last.

(** The documentation says names are escaped and empty containers have an entry. They are not: a member
    whose name has the separator in it takes the place of a nested one, *)
Theorem C123_escape_refuted : forall ch outer inner v w,
  attributes [ch] (JObj [(outer, JObj [(inner, JStr v)]); (outer ++ ch :: inner, JStr w)]) = Some [((ch :: outer) ++ ch :: inner, VStr w)].
Proof.
  intros ch outer inner v w. unfold attributes. cbn [flatten value_of_json app option_map collect existsb fst].
  destruct (beqb_spec (ch :: outer ++ ch :: inner) (ch :: outer ++ ch :: inner)); [reflexivity|congruence].
Qed.
Print Assumptions C123_escape_refuted.
(** and a document of empty containers has no entries. *)
Theorem C123_empty_refuted : forall sp name name', attributes sp (JObj [(name, JObj []); (name', JArr [])]) = Some [].
Proof. reflexivity. Qed.
Print Assumptions C123_empty_refuted.

(** [{"a": {"b": [true, "x"]}, "c": "y"}] with slashes. *)
Definition doc : json := JObj [(str "a", JObj [(str "b", JArr [JBool true; JStr (str "x")])]); (str "c", JStr (str "y"))].
Lemma doc_nodes ks n : find doc ks = Some n -> n = doc \/ n = JObj [(str "b", JArr [JBool true; JStr (str "x")])] \/ forall m, n <> JObj m.
Proof.
  destruct ks as [|k1 ks]; cbn [find]; [intros [= <-]; now left|]. cbn [doc children assoc]. destruct (beqb k1 (str "a")).
  - destruct ks as [|k2 ks]; cbn [find]; [intros [= <-]; right; now left|]. cbn [children assoc]. destruct (beqb k2 (str "b")); [|discriminate].
    destruct ks as [|k3 ks]; cbn [find]; [intros [= <-]; right; right; discriminate|]. cbn [children numbered assoc].
    destruct (beqb k3 (decimal 0)), (beqb k3 (decimal (0 + 1))); try discriminate; destruct ks; cbn [find children assoc]; try discriminate; intros [= <-]; right; right; discriminate.
  - destruct (beqb k1 (str "c")); [|discriminate]. destruct ks; cbn [find children assoc]; [|discriminate]. intros [= <-]. right. right. discriminate.
Qed.
Example C123_example :
  flatten (str "/") [] doc = Some [(str "/a/b/0", VBool true); (str "/a/b/1", VStr (str "x")); (str "/c", VStr (str "y"))] /\
  attributes (str "/") doc = flatten (str "/") [] doc /\ find doc [str "a"; str "b"; str "1"] = Some (JStr (str "x")) /\
  not_digit 47 /\ distinct_keys doc /\ free_of 47 doc.
Proof.
  split; [vm_compute; reflexivity|]. split; [vm_compute; reflexivity|]. split; [vm_compute; reflexivity|]. split; [left; reflexivity|]. split.
  - intros ks m H. destruct (doc_nodes _ _ H) as [E|[E|E]]; [| |now elim (E m)]; injection E as ->; cbn [map fst]; repeat constructor; vm_compute; intuition discriminate.
  - intros ks m H k v I. destruct (doc_nodes _ _ H) as [E|[E|E]]; [| |now elim (E m)]; injection E as ->; cbn in I; repeat (destruct I as [I|I]; [injection I as <- <-; vm_compute; intuition discriminate|]); contradiction.
Qed.
