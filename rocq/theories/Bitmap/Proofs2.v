From Verif.Lib Require Import Base Bytes F64.
From Verif.Keys Require Import Model.
From Verif.Labels Require Import Model Proofs Spec2 Proofs4 Proofs6 Props2.
From Verif.Bitmap Require Import Model Spec Proofs.
Local Open Scope N_scope.

(** * The flattened documents *)
Lemma to_map_assoc l : forall m m', to_map m l = Some m' -> forall f v, assoc f m' = Some v <-> assoc f m = Some v \/ In (f, v) l.
Proof.
  induction l as [|(k, w) l IH]; cbn [to_map]; intros m m'.
  - intros [= <-] f v. cbn [In]. tauto.
  - destruct (assoc k m) eqn:A; [discriminate|]. intros H f v. rewrite (IH _ _ H). cbn [assoc In]. destruct (beqb_spec f k) as [->|N].
    + rewrite A. split; [intros [[= ->]|I]; auto|intros [[=]|[[= ->]|I]]; auto].
    + split; [intros [I|I]; auto|intros [I|[[= -> ->]|I]]; auto; congruence].
Qed.
Lemma to_map_nodup l : forall m m', NoDup (map fst m) -> to_map m l = Some m' -> NoDup (map fst m').
Proof.
  induction l as [|(k, w) l IH]; cbn [to_map]; intros m m' N; [now intros [= <-]|].
  destruct (assoc k m) eqn:A; [discriminate|]. apply IH. cbn [map fst]. constructor; [now apply assoc_none|assumption].
Qed.
Lemma flat_values j l : distinct_keys j -> flat j = Some l -> forall f v, assoc f l = Some v <-> has_value j f v.
Proof.
  unfold flat. destruct (flatten [46] [] j) as [a|] eqn:F; [|discriminate]. intros D M f v.
  rewrite (to_map_assoc a [] l M). cbn [assoc]. rewrite (C123_leaves 46 [] j a D F f v). unfold has_value. split; [intros [[=]|H]; exact H|auto].
Qed.
Lemma flat_nodup j l : flat j = Some l -> NoDup (map fst l).
Proof. unfold flat. destruct (flatten [46] [] j); [|discriminate]. apply to_map_nodup. constructor. Qed.

Lemma try_map_len {A B} (f : A -> option B) l : forall r, try_map f l = Some r -> length r = length l.
Proof.
  induction l as [|a l IH]; cbn [try_map]; intros r; [now intros [= <-]|]. destruct (f a); [|discriminate]. destruct (try_map f l); [|discriminate]. intros [= <-]. cbn [length]. f_equal. now apply IH.
Qed.
Lemma try_map_nth {A B} (f : A -> option B) l : forall r i a, try_map f l = Some r -> nth_error l i = Some a -> exists b, nth_error r i = Some b /\ f a = Some b.
Proof.
  induction l as [|a l IH]; cbn [try_map]; intros r i a' H N; [destruct i; discriminate|].
  destruct (f a) as [b|] eqn:E; [|discriminate]. destruct (try_map f l) as [bs|] eqn:F; [|discriminate]. injection H as <-.
  destruct i as [|i]; cbn [nth_error] in *; [injection N as <-; eauto|eauto].
Qed.
Lemma labels_of docs : forall labels, try_map (fun d : N * json => flat (snd d)) docs = Some labels -> forall x l,
  In (x, l) (combine (map fst docs) labels) <-> exists j, In (x, j) docs /\ flat j = Some l.
Proof.
  induction docs as [|(i, j) docs IH]; cbn [try_map snd]; intros labels; [intros [= <-] x l; cbn [map combine In]; split; [intros []|intros (? & [] & _)]|].
  destruct (flat j) as [l0|] eqn:F; [|discriminate]. destruct (try_map _ docs) as [ls|]; [|discriminate]. intros [= <-] x l. cbn [map fst combine In].
  rewrite (IH ls eq_refl). split.
  - intros [[= <- <-]|(j' & H & E)]; [exists j; auto|exists j'; auto].
  - intros (j' & [[= <- <-]|H] & E); [left; congruence|right; eauto].
Qed.

(** * The fields all documents have *)
Lemma global_doc_spec l : forall g g', global_doc g l = Some g' ->
  (forall k v, assoc k g = Some v -> exists w, assoc k g' = Some w /\ kind w = kind v) /\
  (forall k v, In (k, v) l -> exists w, assoc k g' = Some w /\ kind w = kind v) /\
  (forall k v, In (k, v) g' -> In (k, v) g \/ In (k, v) l).
Proof.
  induction l as [|(k0, v0) l IH]; cbn [global_doc]; intros g g'.
  - intros [= <-]. split; [eauto|]. split; [intros ? ? []|auto].
  - intros H. assert (global_doc ((k0, v0) :: g) l = Some g' /\ forall w, assoc k0 g = Some w -> kind w = kind v0) as (H' & K).
    { destruct (assoc k0 g) as [w|]; [|split; [assumption|intros ? [=]]]. destruct (N.eqb_spec (kind w) (kind v0)); [|discriminate]. split; [assumption|intros ? [= <-]; assumption]. }
    destruct (IH _ _ H') as (A & B & C). split; [|split].
    + intros k v E. destruct (beqb_spec k k0) as [->|N].
      * destruct (A k0 v0) as (w & W & Q); [cbn [assoc]; now rewrite beqb_refl|]. exists w. split; [assumption|]. rewrite Q. symmetry. now apply K.
      * apply A. cbn [assoc]. now destruct (beqb_spec k k0).
    + intros k v [[= <- <-]|I]; [|now apply B]. apply A. cbn [assoc]. now rewrite beqb_refl.
    + intros k v I. destruct (C k v I) as [[E|J]|J]; [right; left; assumption|now left|right; now right].
Qed.
Lemma global_labels_spec ls : forall g g', global_labels g ls = Some g' ->
  (forall k v, assoc k g = Some v -> exists w, assoc k g' = Some w /\ kind w = kind v) /\
  (forall l k v, In l ls -> In (k, v) l -> exists w, assoc k g' = Some w /\ kind w = kind v) /\
  (forall k v, In (k, v) g' -> In (k, v) g \/ exists l, In l ls /\ In (k, v) l).
Proof.
  induction ls as [|l ls IH]; cbn [global_labels]; intros g g'.
  - intros [= <-]. split; [eauto|]. split; [intros ? ? ? []|auto].
  - destruct (global_doc g l) as [g1|] eqn:D; [|discriminate]. intros H. destruct (global_doc_spec _ _ _ D) as (A & B & C). destruct (IH _ _ H) as (A' & B' & C').
    assert (forall k v, (exists w, assoc k g1 = Some w /\ kind w = kind v) -> exists w, assoc k g' = Some w /\ kind w = kind v) as T.
    { intros k v (w & W & Q). destruct (A' k w W) as (u & U & P). exists u. split; congruence. }
    split; [|split].
    + intros k v E. apply T. now apply A.
    + intros l' k v [<-|I] J; [apply T; now apply B|now apply (B' l')].
    + intros k v I. destruct (C' k v I) as [J|(l' & J & J')]; [destruct (C k v J); [now left|right; exists l; split; [now left|assumption]]|right; exists l'; split; [now right|assumption]].
Qed.
Lemma accs_assoc (F : bytes -> value -> option accel) g : forall accs,
  try_map (fun e => match F (fst e) (snd e) with Some a => Some (fst e, a) | None => None end) g = Some accs -> forall f,
  match assoc f g with Some v => exists a, assoc f accs = Some a /\ F f v = Some a | None => assoc f accs = None end.
Proof.
  induction g as [|(k, v) g IH]; cbn [try_map fst snd]; intros accs; [intros [= <-] f; reflexivity|].
  destruct (F k v) as [a|] eqn:E; [|discriminate]. destruct (try_map _ g) as [r|]; [|discriminate]. intros [= <-] f. cbn [assoc].
  destruct (beqb_spec f k) as [->|N]; [eauto|]. exact (IH r eq_refl f).
Qed.

(** * Queries *)
Lemma path_prepend f p : path_for f p <-> p = prepend_separator f.
Proof.
  split.
  - destruct 1 as [f|f H]; [reflexivity|]. destruct f as [|c f]; [reflexivity|]. cbn [prepend_separator]. destruct (N.eqb_spec c 46) as [->|]; [now destruct (H f)|reflexivity].
  - intros ->. destruct f as [|c f]; cbn [prepend_separator]; [constructor; discriminate|]. destruct (N.eqb_spec c 46) as [->|]; constructor. congruence.
Qed.
Lemma mentioned_labels e : mentioned e = compute_label_set e.
Proof.
  induction e as [l IH|l IH|e IH|f op] using expr_rect'; cbn [mentioned compute_label_set]; try assumption; try reflexivity.
  all: rewrite flat_map_concat_map; f_equal; now apply map_ext_in.
Qed.
Lemma all_iff {A} (P : A -> Prop) l : fold_right (fun e Q => P e /\ Q) True l <-> forall e, In e l -> P e.
Proof. induction l as [|a l IH]; cbn [fold_right In]; [split; [intros _ ? []|auto]|]. rewrite IH. split; [intros (H & K) e [<-|I]; auto|auto]. Qed.
Lemma any_iff {A} (P : A -> Prop) l : fold_right (fun e Q => P e \/ Q) False l <-> exists e, In e l /\ P e.
Proof. induction l as [|a l IH]; cbn [fold_right In]; [split; [intros []|intros (? & [] & _)]|]. rewrite IH. split; [intros [H|(e & I & H)]; eauto|intros (e & [<-|I] & H); eauto]. Qed.

Section Query.
Context (docs : list (N * json)) (labels : list attrs) (g : attrs) (accs : list (bytes * accel)).
Context (ND : NoDup (map fst docs)) (DK : forall d, In d docs -> distinct_keys (snd d)).
Context (HL : try_map (fun d : N * json => flat (snd d)) docs = Some labels) (HG : global_labels [] labels = Some g).
Context (HA : try_map (fun e => match compute_accelerator (fst e) (snd e) (map fst docs) labels with Some a => Some (fst e, a) | None => None end) g = Some accs).

Lemma at_key_docs f x v : at_key f (map fst docs) labels x v <-> exists j, In (x, j) docs /\ has_value j f v.
Proof.
  unfold at_key. split.
  - intros (l & H & A). apply (labels_of docs labels HL) in H. destruct H as (j & I & F). exists j. split; [assumption|]. apply (flat_values j l); try assumption. exact (DK _ I).
  - intros (j & I & H). assert (exists l, flat j = Some l) as (l & F).
    { apply In_nth_error in I. destruct I as (i & I). destruct (try_map_nth _ _ _ _ _ HL I) as (l & _ & F). eauto. }
    exists l. split; [apply (labels_of docs labels HL); eauto|]. apply (flat_values j l); try assumption. exact (DK _ I).
Qed.
Lemma same_doc x j j' : In (x, j) docs -> In (x, j') docs -> j = j'.
Proof.
  clear - ND. induction docs as [|(i, k) ds IH]; [intros []|]. cbn [map fst] in ND. apply NoDup_cons_iff in ND. destruct ND as (N & ND').
  intros [E|H] [E'|H'].
  - congruence.
  - injection E as -> ->. destruct N. now apply (in_map fst) in H'.
  - injection E' as -> ->. destruct N. now apply (in_map fst) in H.
  - now apply IH.
Qed.
Lemma label_in l : In l labels -> exists x j, In (x, j) docs /\ flat j = Some l.
Proof.
  intros I. apply In_nth_error in I. destruct I as (i & I).
  assert (i < length docs)%nat as L by (rewrite <- (try_map_len _ _ _ HL); apply nth_error_Some; congruence).
  destruct (nth_error docs i) as [(x, j)|] eqn:E; [|apply nth_error_None in E; lia].
  destruct (try_map_nth _ _ _ _ _ HL E) as (b & B & F). exists x, j. split; [now apply nth_error_In in E|]. cbn [snd] in F. congruence.
Qed.
Lemma in_labels x l : In (x, l) (combine (map fst docs) labels) -> In l labels.
Proof. apply in_combine_r. Qed.
Lemma at_kind f x v : at_key f (map fst docs) labels x v -> exists w, assoc f g = Some w /\ kind w = kind v.
Proof.
  intros (l & H & A). destruct (global_labels_spec _ _ _ HG) as (_ & B & _). apply (B l); [exact (in_labels _ _ H)|now apply assoc_in].
Qed.
Lemma accel_cases f : match assoc f accs with
  | Some a => (forall x, In x (universe a) <-> exists j, In (x, j) docs /\ exists v, has_value j f v) /\
              (forall op b x, accel_eval a op = Some b -> In x b <-> exists j, In (x, j) docs /\ exists v, has_value j f v /\ compares op v) /\
              (exists d v, In d docs /\ has_value (snd d) f v)
  | None => forall d v, In d docs -> ~ has_value (snd d) f v
  end.
Proof.
  pose proof (accs_assoc (fun k v => compute_accelerator k v (map fst docs) labels) g accs HA f) as H. destruct (assoc f g) as [r|] eqn:E.
  - destruct H as (a & -> & C). split; [|split].
    + intros x. rewrite (accelerator_universe _ _ _ _ _ x C). setoid_rewrite at_key_docs. split; [intros (v & j & I & V); eauto|intros (j & I & v & V); eauto].
    + intros op b x V. rewrite (accelerator_eval _ _ _ _ _ op b x C); [|intros y v K; destruct (at_kind _ _ _ K) as (w & W & Q); congruence|assumption].
      setoid_rewrite at_key_docs. split; [intros (v & (j & I & W) & P); eauto 6|intros (j & I & v & W & P); eauto 6].
    + apply assoc_in in E. destruct (global_labels_spec _ _ _ HG) as (_ & _ & G). destruct (G _ _ E) as [[]|(l & I & J)].
      destruct (label_in l I) as (x & j & X & F). exists (x, j), r. split; [assumption|]. cbn [snd]. apply (flat_values j l); [exact (DK _ X)|assumption|].
      apply in_assoc; [now apply (flat_nodup j)|assumption].
  - rewrite H. intros (x, j) v I V. destruct (at_kind f x v) as (w & W & _); [apply at_key_docs; eauto|congruence].
Qed.
Lemma has_field_iff j f : has_field j f <-> exists v, has_value j (prepend_separator f) v.
Proof. unfold has_field. split; [intros (p & v & P & H); apply path_prepend in P; subst; eauto|intros (v & H); exists (prepend_separator f), v; split; [now apply path_prepend|assumption]]. Qed.

Lemma universe_rest_in fs x : forall u, In x (universe_rest u (map prepend_separator fs) accs) <->
  In x u /\ forall f, In f fs -> (exists d, In d docs /\ has_field (snd d) f) -> exists j, In (x, j) docs /\ has_field j f.
Proof.
  induction fs as [|f fs IH]; intros u; cbn [map universe_rest].
  - split; [intros H; split; [assumption|intros ? []]|tauto].
  - rewrite IH. pose proof (accel_cases (prepend_separator f)) as A. destruct (assoc (prepend_separator f) accs) as [a|].
    + destruct A as (U & _ & (d & v & I & V)). rewrite in_inter, U. split.
      * intros ((X & j & J & Y) & K). split; [assumption|]. intros f' [<-|F] E; [exists j; split; [assumption|now apply has_field_iff]|now apply K].
      * intros (X & K). split; [split; [assumption|]|intros f' F E; apply K; [now right|assumption]].
        destruct (K f (or_introl eq_refl)) as (j & J & Y); [exists d; split; [assumption|apply has_field_iff; eauto]|]. exists j. split; [assumption|now apply has_field_iff].
    + split.
      * intros (X & K). split; [assumption|]. intros f' [<-|F] E; [|now apply K]. destruct E as (d & I & Y). apply has_field_iff in Y. destruct Y as (v & Y). now destruct (A d v I).
      * intros (X & K). split; [assumption|]. intros f' F E. apply K; [now right|assumption].
Qed.
Lemma universe_in e x : In x (compute_universe (map prepend_separator (compute_label_set e)) accs) <-> exists j, In (x, j) docs /\ in_scope docs j e.
Proof.
  unfold in_scope. rewrite mentioned_labels. destruct (compute_label_set e) as [|f fs]; cbn [map compute_universe]; [split; [intros []|intros (? & _ & [])]|].
  rewrite universe_rest_in. pose proof (accel_cases (prepend_separator f)) as A.
  assert (In x (match assoc (prepend_separator f) accs with Some a => universe a | None => [] end) <-> exists j, In (x, j) docs /\ has_field j f) as E.
  { destruct (assoc (prepend_separator f) accs) as [a|].
    - destruct A as (U & _ & _). rewrite U. setoid_rewrite has_field_iff. reflexivity.
    - split; [intros []|]. intros (j & I & H). apply has_field_iff in H. destruct H as (v & H). now destruct (A (x, j) v I). }
  rewrite E. split.
  - intros ((j & I & H) & K). exists j. split; [assumption|]. split; [assumption|]. intros h Hh D. destruct (K h Hh D) as (j' & I' & H'). now rewrite (same_doc x j j' I I').
  - intros (j & I & H & K). split; [eauto|]. intros h Hh D. exists j. split; [assumption|now apply K].
Qed.

Lemma and_in f x l : forall a r, combine_all f inter (Some a) l = Some r ->
  (forall e, In e l -> exists b, f e = Some b) /\ (In x r <-> In x a /\ forall e b, In e l -> f e = Some b -> In x b).
Proof.
  induction l as [|e l IH]; cbn [combine_all]; intros a r.
  - intros [= <-]. split; [intros ? []|]. split; [intros H; split; [assumption|intros ? ? []]|tauto].
  - destruct (f e) as [b|] eqn:E; [|discriminate]. intros H. destruct (IH _ _ H) as (T & I). split; [intros e' [<-|X]; eauto|]. rewrite I, in_inter. split.
    + intros ((A & B) & K). split; [assumption|]. intros e' b' [<-|X] Q; [congruence|eauto].
    + intros (A & K). split; [split; [assumption|apply (K e); [now left|assumption]]|]. intros e' b' X Q. apply (K e'); [now right|assumption].
Qed.
Lemma or_in f x l : forall a r, combine_all f join (Some a) l = Some r ->
  (forall e, In e l -> exists b, f e = Some b) /\ (In x r <-> In x a \/ exists e b, In e l /\ f e = Some b /\ In x b).
Proof.
  induction l as [|e l IH]; cbn [combine_all]; intros a r.
  - intros [= <-]. split; [intros ? []|]. split; [auto|intros [H|(? & ? & [] & _)]; assumption].
  - destruct (f e) as [b|] eqn:E; [|discriminate]. intros H. destruct (IH _ _ H) as (T & I). split; [intros e' [<-|X]; eauto|]. rewrite I, in_join. split.
    + intros [[A|B]|(e' & b' & X & Q & Y)]; [auto|right; exists e, b; split; [now left|auto]|right; exists e', b'; split; [now right|auto]].
    + intros [A|(e' & b' & [<-|X] & Q & Y)]; [auto|left; right; congruence|right; eauto 6].
Qed.

Lemma query_in e : forall b x, eval_query accs e = Some b -> In x b <-> exists j, In (x, j) docs /\ selects docs j e.
Proof.
  induction e as [l IH|l IH|e IH|f op] using expr_rect'; intros b x; cbn [eval_query selects].
  - destruct l as [|e l]; cbn [combine_all].
    { intros [= <-]. split; [intros []|]. intros (j & _ & N & _). now destruct N. }
    destruct (eval_query accs e) as [b0|] eqn:E; [|discriminate]. intros H. destruct (and_in _ x _ _ _ H) as (T & ->). setoid_rewrite all_iff.
    rewrite (IH e (or_introl eq_refl) b0 x E). split.
    + intros ((j & I & Y) & K). exists j. split; [assumption|]. split; [discriminate|]. intros e' [<-|X]; [assumption|]. destruct (T e' X) as (b' & Q).
      destruct (proj1 (IH e' (or_intror X) b' x Q) (K e' b' X Q)) as (j' & I' & Y'). now rewrite (same_doc x j j' I I').
    + intros (j & I & _ & K). split; [exists j; split; [assumption|apply K; now left]|]. intros e' b' X Q. apply (IH e' (or_intror X) b' x Q). exists j. split; [assumption|apply K; now right].
  - destruct l as [|e l]; cbn [combine_all].
    { intros [= <-]. split; [intros []|]. intros (j & _ & []). }
    destruct (eval_query accs e) as [b0|] eqn:E; [|discriminate]. intros H. destruct (or_in _ x _ _ _ H) as (T & ->). setoid_rewrite any_iff.
    rewrite (IH e (or_introl eq_refl) b0 x E). split.
    + intros [(j & I & Y)|(e' & b' & X & Q & Y)]; [exists j; split; [assumption|]; exists e; split; [now left|assumption]|].
      apply (IH e' (or_intror X) b' x Q) in Y. destruct Y as (j & I & Y). exists j. split; [assumption|]. exists e'. split; [now right|assumption].
    + intros (j & I & e' & [<-|X] & Y); [left; eauto|right]. destruct (T e' X) as (b' & Q). exists e', b'. split; [assumption|]. split; [assumption|]. apply (IH e' (or_intror X) b' x Q). eauto.
  - destruct (eval_query accs e) as [b0|] eqn:E; [|discriminate]. intros [= <-]. rewrite in_diff. change (compute_label_set (ENot e)) with (compute_label_set e).
    rewrite universe_in, (IH b0 x eq_refl). split.
    + intros ((j & I & Y) & K). exists j. split; [assumption|]. split; [assumption|]. intros Z0. apply K. eauto.
    + intros (j & I & Y & K). split; [eauto|]. intros (j' & I' & Y'). apply K. now rewrite (same_doc x j j' I I').
  - pose proof (accel_cases (prepend_separator f)) as A. destruct (assoc (prepend_separator f) accs) as [a|].
    + destruct A as (_ & V & _). intros H. rewrite (V op b x H). split.
      * intros (j & I & v & W & P). exists j. split; [assumption|]. exists (prepend_separator f), v. split; [now apply path_prepend|auto].
      * intros (j & I & p & v & Q & W & P). apply path_prepend in Q. subst p. eauto.
    + intros [= <-]. split; [intros []|]. intros (j & I & p & v & Q & W & P). apply path_prepend in Q. subst p. now destruct (A (x, j) v I).
Qed.
End Query.
