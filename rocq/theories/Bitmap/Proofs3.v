From Verif.Lib Require Import Base Bytes F64.
From Verif.Keys Require Import Model.
From Verif.Labels Require Import Model Proofs Spec2 Proofs4 Proofs6 Props2.
From Verif.Bitmap Require Import Model Spec Spec2 Proofs Proofs2.
Local Open Scope N_scope.

Lemma same_kind v v' : v <> VEmpty -> (same_type v v' <-> kind v = kind v').
Proof. intros N. split; [destruct 1; reflexivity|]. destruct v, v'; cbn [kind]; intros H; try discriminate; try constructor; congruence. Qed.
Lemma has_value_not_empty j f v : has_value j f v -> v <> VEmpty.
Proof. intros (ks & leaf & _ & St & _) ->. inversion St. Qed.
Lemma usable_key v : (kind v = 2 \/ kind v = 3) -> (tree_key v <> None <-> usable v).
Proof.
  intros K. destruct v as [|b|z|x|s]; cbn [kind] in K; try (destruct K; discriminate); cbn [tree_key usable]; unfold ordered.
  - destruct (Z.eqb_spec (f64_to_i64 (f64_of_Z z)) z), (f64_nan (f64_of_Z z)); intuition congruence.
  - destruct (f64_nan x); intuition congruence.
Qed.

Lemma to_map_some l : forall m, to_map m l <> None <-> NoDup (map fst l) /\ forall k, In k (map fst l) -> assoc k m = None.
Proof.
  induction l as [|(k, v) l IH]; cbn [to_map map fst]; intros m.
  - split; [intros _; split; [constructor|intros ? []]|discriminate].
  - destruct (assoc k m) as [w|] eqn:A.
    + split; [congruence|]. intros (_ & H). rewrite (H k (or_introl eq_refl)) in A. discriminate.
    + rewrite IH, NoDup_cons_iff. split.
      * intros (N & H). split; [split; [|assumption]|].
        -- intros I. apply H in I. cbn [assoc] in I. rewrite beqb_refl in I. discriminate.
        -- intros k' [<-|I]; [assumption|]. apply H in I. cbn [assoc] in I. destruct (beqb k' k); [discriminate|assumption].
      * intros ((K & N) & H). split; [assumption|]. intros k' I. cbn [assoc]. destruct (beqb_spec k' k) as [->|]; [contradiction|]. apply H. now right.
Qed.
Lemma flat_some j : flat j <> None <-> exists l, flatten [46] [] j = Some l /\ NoDup (map fst l).
Proof.
  unfold flat. destruct (flatten [46] [] j) as [l|]; [|split; [congruence|intros (l & [=] & _)]].
  rewrite to_map_some. split; [intros (N & _); eauto|]. intros (l' & [= <-] & N). split; [assumption|reflexivity].
Qed.
Lemma try_map_some {A B} (f : A -> option B) l : try_map f l <> None <-> forall a, In a l -> f a <> None.
Proof.
  induction l as [|a l IH]; cbn [try_map]; [split; [intros _ ? []|discriminate]|]. destruct (f a) as [b|] eqn:E.
  - destruct (try_map f l) as [bs|]; [|split; [congruence|intros H; exfalso; apply (proj2 IH); [intros a' I; apply H; now right|reflexivity]]].
    split; [intros _ a' [<-|I]; [congruence|apply IH; [discriminate|assumption]]|discriminate].
  - split; [congruence|]. intros H. now destruct (H a (or_introl eq_refl)).
Qed.
Lemma global_doc_some l : forall g, (forall k v v', (In (k, v) g \/ In (k, v) l) -> (In (k, v') g \/ In (k, v') l) -> kind v = kind v') -> global_doc g l <> None.
Proof.
  induction l as [|(k, v) l IH]; cbn [global_doc]; intros g H; [discriminate|].
  assert (global_doc ((k, v) :: g) l <> None) as T. { apply IH. intros k' w w' X Y. apply (H k'); cbn [In] in *; tauto. }
  destruct (assoc k g) as [w|] eqn:A; [|assumption]. rewrite (H k w v), N.eqb_refl; [assumption|left; now apply assoc_in|right; now left].
Qed.
Lemma global_labels_some ls : forall g, (forall k v v', (In (k, v) g \/ exists l, In l ls /\ In (k, v) l) -> (In (k, v') g \/ exists l, In l ls /\ In (k, v') l) -> kind v = kind v') ->
  global_labels g ls <> None.
Proof.
  induction ls as [|l ls IH]; cbn [global_labels]; intros g H; [discriminate|]. destruct (global_doc g l) as [g'|] eqn:D.
  - destruct (global_doc_spec _ _ _ D) as (_ & _ & C). apply IH.
    assert (forall k v, (In (k, v) g' \/ exists l, In l ls /\ In (k, v) l) -> In (k, v) g \/ exists l0, In l0 (l :: ls) /\ In (k, v) l0) as U.
    { intros k v [I|(l' & I & J)]; [destruct (C k v I); [now left|right; exists l; split; [now left|assumption]]|right; exists l'; split; [now right|assumption]]. }
    intros k v v' X Y. apply (H k); now apply U.
  - exfalso. revert D. apply global_doc_some.
    assert (forall k v, (In (k, v) g \/ In (k, v) l) -> In (k, v) g \/ exists l0, In l0 (l :: ls) /\ In (k, v) l0) as U by (intros k v [I|I]; [now left|right; exists l; split; [now left|assumption]]).
    intros k v v' X Y. apply (H k); now apply U.
Qed.
Lemma tree_some key ids : forall labels m, (forall x v, at_key key ids labels x v -> tree_key v <> None) -> compute_tree key ids labels m <> None.
Proof.
  induction ids as [|i ids IH]; intros [|l labels] m H; cbn [compute_tree]; try discriminate.
  assert (forall x v, at_key key ids labels x v -> tree_key v <> None) as T by (intros x v K; apply (H x); apply at_key_cons; now right).
  destruct (assoc key l) as [v|] eqn:A; [|now apply IH]. destruct (tree_key v) as [k|] eqn:Q; [now apply IH|]. exfalso. revert Q. apply (H i). apply at_key_cons. now left.
Qed.

Lemma suits_kind op v v' : kind v = kind v' -> suits op v -> suits op v'.
Proof.
  intros K. destruct op as [w|w|op t]; cbn [suits]; destruct v, v'; cbn [kind] in K; try discriminate; try (intros H; exact H); intros ((dx & D) & T); (split; [|assumption]); try (now inversion D); eexists; constructor.
Qed.
Lemma accel_suits key r ids labels a op : compute_accelerator key r ids labels = Some a -> (accel_eval a op <> None <-> suits op r).
Proof.
  intros A. assert (forall w, value_of_json w <> None <-> exists u, stands_for w u) as St.
  { intros w. destruct (value_of_json w) as [u|] eqn:V; [split; [intros _; exists u; now apply value_stands|discriminate]|]. split; [congruence|]. intros (u & U). apply value_stands in U. congruence. }
  assert (forall w, (match as_f64 w with Some x => ordered x | None => None end) <> None <-> exists n, w = JNum n /\ f64_nan (number n) = false) as Nu.
  { intros w. destruct w; cbn [as_f64]; try (split; [congruence|intros (? & [=] & _)]). change (num_f64 n) with (number n). unfold ordered.
    destruct (f64_nan (number n)) eqn:E; [split; [congruence|intros (? & [= <-] & H); congruence]|split; [eauto|discriminate]]. }
  assert ((exists m, a = Inverted m /\ (kind r = 1 \/ kind r = 4)) \/ (exists m, a = Tree m /\ (kind r = 2 \/ kind r = 3))) as [(m & -> & K)|(m & -> & K)].
  { destruct r; cbn [compute_accelerator] in A; try discriminate; try (injection A as <-; left; eexists; cbn [kind]; auto);
      (destruct (compute_tree key ids labels []); [|discriminate]; injection A as <-; right; eexists; cbn [kind]; auto). }
  - destruct op as [w|w|op t]; cbn [accel_eval suits].
    1, 2: specialize (St w); destruct (value_of_json w), r; cbn [kind] in K; try (destruct K; discriminate); rewrite <- St; split; discriminate || congruence.
    split; [congruence|]. intros ((x & D) & _). destruct D; destruct K; discriminate.
  - destruct op as [w|w|op t]; cbn [accel_eval suits].
    1, 2: specialize (Nu w); destruct r; cbn [kind] in K; try (destruct K; discriminate); rewrite <- Nu; (destruct (as_f64 w) as [y|]; [destruct (ordered y)|]); split; discriminate || congruence.
    unfold ordered. destruct (f64_nan t); [split; [congruence|intros (_ & [=])]|]. split; [|discriminate]. intros _. split; [|reflexivity].
    destruct r; cbn [kind] in K; try (destruct K; discriminate); eexists; constructor.
Qed.
Lemma combine_some f op l : forall acc, combine_all f op acc l <> None <-> forall e, In e l -> f e <> None.
Proof.
  induction l as [|e l IH]; cbn [combine_all]; intros acc; [split; [intros _ ? []|discriminate]|]. destruct (f e) as [b|] eqn:E.
  - rewrite IH. split; [intros H e' [<-|I]; [congruence|auto]|intros H e' I; apply H; now right].
  - split; [congruence|]. intros H. now destruct (H e (or_introl eq_refl)).
Qed.

Section Run.
Context (docs : list (N * json)) (DK : forall d, In d docs -> distinct_keys (snd d)).
Section Built.
Context (labels : list attrs) (g : attrs) (accs : list (bytes * accel)).
Context (HL : try_map (fun d : N * json => flat (snd d)) docs = Some labels) (HG : global_labels [] labels = Some g).
Context (HA : try_map (fun e => match compute_accelerator (fst e) (snd e) (map fst docs) labels with Some a => Some (fst e, a) | None => None end) g = Some accs).

Lemma query_some e : eval_query accs e <> None <-> answerable docs e.
Proof.
  induction e as [l IH|l IH|e IH|f op] using expr_rect'; cbn [eval_query answerable].
  1, 2: rewrite combine_some, all_iff; split; intros H e I; apply (IH e I); now apply H.
  - rewrite <- IH. destruct (eval_query accs e); split; discriminate || congruence.
  - pose proof (accs_assoc (fun k v => compute_accelerator k v (map fst docs) labels) g accs HA (prepend_separator f)) as A.
    assert (forall d p v, In d docs -> path_for f p -> has_value (snd d) p v -> exists r, assoc (prepend_separator f) g = Some r /\ kind r = kind v) as W.
    { intros (x, j) p v I P V. apply path_prepend in P. subst p. apply (at_kind docs labels g HG _ x v). apply (at_key_docs docs labels DK HL). eauto. }
    destruct (assoc (prepend_separator f) g) as [r|] eqn:E.
    + destruct A as (a & -> & C). rewrite (accel_suits _ _ _ _ _ op C). split.
      * intros S0 d p v I P V. destruct (W d p v I P V) as (r' & [= <-] & K). now apply (suits_kind op r v).
      * intros H. apply assoc_in in E. destruct (global_labels_spec _ _ _ HG) as (_ & _ & G). destruct (G _ _ E) as [[]|(l & I & J)].
        destruct (label_in docs labels HL l I) as (x & j & X & F). apply (H (x, j) (prepend_separator f) r X); [now apply path_prepend|].
        cbn [snd]. apply (flat_values j l); [exact (DK _ X)|assumption|]. apply in_assoc; [now apply (flat_nodup j)|assumption].
    + rewrite A. split; [|discriminate]. intros _ d p v I P V. destruct (W d p v I P V) as (r & [=] & _).
Qed.
End Built.

Theorem run_some queries : compute_query_bitmaps docs queries <> None <-> consistent docs /\ forall q, In q queries -> answerable docs (snd q).
Proof.
  unfold compute_query_bitmaps, consistent.
  pose proof (try_map_some (fun d : N * json => flat (snd d)) docs) as TL.
  destruct (try_map _ docs) as [labels|] eqn:HL.
  2: { split; [congruence|]. intros ((H & _) & _). exfalso. apply (proj2 TL); [|reflexivity]. intros d I. apply flat_some. now apply H. }
  assert (forall d, In d docs -> exists l, flatten [46] [] (snd d) = Some l /\ NoDup (map fst l)) as P1.
  { intros d I. apply flat_some. apply (proj1 TL); [discriminate|assumption]. }
  assert (forall l k v, In l labels -> In (k, v) l -> exists d, In d docs /\ has_value (snd d) k v) as LV.
  { intros l k v I J. destruct (label_in docs labels HL l I) as (x & j & X & F). exists (x, j). split; [assumption|]. cbn [snd].
    apply (flat_values j l); [exact (DK _ X)|assumption|]. apply in_assoc; [now apply (flat_nodup j)|assumption]. }
  destruct (global_labels [] labels) as [g|] eqn:HG.
  2: { split; [congruence|]. intros ((_ & H & _) & _). exfalso. revert HG. apply global_labels_some. intros k v v' [[]|(l & I & J)] [[]|(l' & I' & J')].
       destruct (LV l k v I J) as (d & D & V). destruct (LV l' k v' I' J') as (d' & D' & V'). apply same_kind; [now apply (has_value_not_empty (snd d) k)|]. eauto. }
  assert (forall d d' f v v', In d docs -> In d' docs -> has_value (snd d) f v -> has_value (snd d') f v' -> same_type v v') as P2.
  { intros (x, j) (x', j') f v v' I I' V V'. cbn [snd] in *. apply same_kind; [now apply (has_value_not_empty j f)|].
    destruct (at_kind docs labels g HG f x v) as (w & W & Q); [apply (at_key_docs docs labels DK HL); eauto|].
    destruct (at_kind docs labels g HG f x' v') as (w' & W' & Q'); [apply (at_key_docs docs labels DK HL); eauto|]. congruence. }
  destruct (try_map (fun e => _) g) as [accs|] eqn:HA.
  2: { split; [congruence|]. intros ((_ & _ & H) & _). exfalso. revert HA. apply try_map_some. intros (f, r) I. cbn [fst snd].
       destruct (global_labels_spec _ _ _ HG) as (_ & _ & G). destruct (G _ _ I) as [[]|(l & L & J)]. destruct (LV l f r L J) as (d & D & V).
       assert (compute_accelerator f r (map fst docs) labels <> None) as C; [|destruct (compute_accelerator f r (map fst docs) labels); congruence].
       assert ((kind r = 2 \/ kind r = 3) -> compute_tree f (map fst docs) labels [] <> None) as T.
       { intros K. apply tree_some. intros x v A. apply (at_key_docs docs labels DK HL) in A. destruct A as (j & X & W). apply usable_key; [|apply (H (x, j) f v X W)].
         rewrite <- (proj1 (same_kind r v (has_value_not_empty _ _ _ V)) (P2 d (x, j) f r v D X V W)). assumption. }
       pose proof (has_value_not_empty _ _ _ V) as NE. destruct r; cbn [compute_accelerator kind] in *; try congruence; (destruct (compute_tree f (map fst docs) labels []); [discriminate|exfalso; apply T; auto]). }
  rewrite try_map_some. split.
  - intros H. split; [split; [assumption|split; [assumption|]]|].
    + intros (x, j) f v I V. cbn [snd] in V. pose proof (proj2 (at_key_docs docs labels DK HL f x v) (ex_intro _ j (conj I V))) as K.
      destruct (at_kind docs labels g HG f x v K) as (r & R & Q).
      pose proof (accs_assoc (fun k v => compute_accelerator k v (map fst docs) labels) g accs HA f) as A. rewrite R in A. destruct A as (a & _ & C).
      assert (v <> VEmpty) as NE by now apply (has_value_not_empty j f). 
      assert ((kind v = 2 \/ kind v = 3) -> usable v) as U.
      { intros Kv. apply usable_key; [assumption|]. destruct r; cbn [compute_accelerator kind] in *; try (destruct Kv; congruence);
          (destruct (compute_tree f (map fst docs) labels []) as [m|] eqn:T; [|discriminate]; destruct (tree_keys f _ _ _ _ _ _ T K) as (k & ->); discriminate). }
      destruct v; cbn [kind] in U; first [exact Logic.I | apply U; auto].
    + intros q Iq. apply (query_some labels g accs HL HG HA). now apply H.
  - intros (_ & H) q Iq. apply (query_some labels g accs HL HG HA). now apply H.
Qed.
End Run.
