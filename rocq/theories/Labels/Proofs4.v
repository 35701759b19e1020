(** Flattening, and queries by induction on the filter. *)
From Coq Require Import String.
From Verif.Lib Require Import Base Lists Bytes F64.
From Verif.Keys Require Import Model Spec Proofs Props.
From Verif.Labels Require Import Model Spec Proofs Proofs2 Proofs3.
Local Open Scope N_scope.

(** * Induction over nested values *)
Section JsonInd.
Variable P : json -> Prop.
Hypothesis Hnull : P JNull.
Hypothesis Hbool : forall b, P (JBool b).
Hypothesis Hnum : forall n, P (JNum n).
Hypothesis Hstr : forall s, P (JStr s).
Hypothesis Harr : forall l, (forall j, In j l -> P j) -> P (JArr l).
Hypothesis Hobj : forall m, (forall k j, In (k, j) m -> P j) -> P (JObj m).
Fixpoint json_rect' (j : json) : P j :=
  match j with
  | JNull => Hnull | JBool b => Hbool b | JNum n => Hnum n | JStr s => Hstr s
  | JArr l => Harr l ((fix go l : forall j, In j l -> P j :=
      match l with
      | [] => fun j H => match H with end
      | x :: l => fun j H => match H with or_introl E => eq_ind x P (json_rect' x) j E | or_intror H => go l j H end
      end) l)
  | JObj m => Hobj m ((fix go m : forall k j, In (k, j) m -> P j :=
      match m with
      | [] => fun k j H => match H with end
      | (k', x) :: m => fun k j H => match H with
          | or_introl E => eq_ind x P (json_rect' x) j (f_equal snd E)
          | or_intror H => go m k j H end
      end) m)
  end.
End JsonInd.
Section ExprInd.
Variable P : expr -> Prop.
Hypothesis Hand : forall l, (forall e, In e l -> P e) -> P (EAnd l).
Hypothesis Hor : forall l, (forall e, In e l -> P e) -> P (EOr l).
Hypothesis Hnot : forall e, P e -> P (ENot e).
Hypothesis Hcmp : forall f op, P (ECmp f op).
Fixpoint expr_rect' (e : expr) : P e :=
  let go := fix go l : forall e, In e l -> P e :=
      match l with
      | [] => fun e H => match H with end
      | x :: l => fun e H => match H with or_introl E => eq_ind x P (expr_rect' x) e E | or_intror H => go l e H end
      end in
  match e with
  | EAnd l => Hand l (go l) | EOr l => Hor l (go l) | ENot e => Hnot e (expr_rect' e) | ECmp f op => Hcmp f op
  end.
End ExprInd.

Lemma plain_obj ch m : plain ch (JObj m) <-> NoDup (map fst m) /\ forall k v, In (k, v) m -> ~ In ch k /\ no_nul k /\ plain ch v.
Proof.
  cbn [plain]. apply and_iff_compat_l. induction m as [|(k, v) m IH]; [split; [intros _ ? ? []|auto]|]. split.
  - intros (A & B & C & D) k' v' [E|H]; [injection E as <- <-; auto|]. now apply IH.
  - intros H. destruct (H k v (or_introl eq_refl)) as (A & B & C). split; [assumption|]. split; [assumption|]. split; [assumption|]. apply IH. intros k' v' X. apply H. now right.
Qed.
Definition scalar_leaf (j : json) : Prop := value_of_json j <> None.
(** * Paths *)
Definition path_of (ch : N) (ks : list bytes) : bytes := flat_map (fun k => ch :: k) ks.
Lemma flatten_obj ch path m a : flatten [ch] path (JObj m) = Some a ->
  forall p v, In (p, v) a <-> exists k j b, In (k, j) m /\ flatten [ch] (path ++ ch :: k) j = Some b /\ In (p, v) b.
Proof.
  revert a. cbn [flatten]. induction m as [|(k, j) m IH]; intros a H p v.
  - injection H as <-. split; [contradiction|intros (? & ? & ? & [] & _)].
  - cbn [app] in H. destruct (flatten [ch] (path ++ ch :: k) j) as [a1|] eqn:E1; [|discriminate].
    match type of H with match ?x with _ => _ end = _ => destruct x as [a2|] eqn:E2; [|discriminate] end. injection H as <-.
    rewrite in_app_iff. cbn [app] in IH. rewrite (IH a2 E2). split.
    + intros [X|(k' & j' & b & I & F & X)]; [exists k, j, a1; split; [now left|auto]|exists k', j', b; split; [now right|auto]].
    + intros (k' & j' & b & [I|I] & F & X); [injection I as <- <-; left; congruence|right; exists k', j', b; auto].
Qed.
Lemma flatten_total ch : forall j path, plain ch j -> flatten [ch] path j <> None.
Proof.
  apply (json_rect' (fun j => forall path, plain ch j -> flatten [ch] path j <> None)); try (intros; cbn; discriminate).
  - intros path H. contradiction.
  - intros [n|z|x] path _; cbn; discriminate.
  - intros l _ path H. contradiction.
  - intros m IH path H. apply plain_obj in H. destruct H as (_ & H). cbn [flatten]. induction m as [|(k, v) m IHm]; [discriminate|].
    cbn [app]. specialize (IH k v (or_introl eq_refl) (path ++ ch :: k)) as I1. destruct (flatten [ch] (path ++ ch :: k) v).
    + match goal with |- match ?x with _ => _ end <> _ => destruct x eqn:E end; [discriminate|]. exfalso. revert E. apply IHm; intros; [eapply IH; [right; eassumption|assumption]|apply H; now right].
    + exfalso. apply I1; [|reflexivity]. now apply (H k v); left.
Qed.
Lemma flatten_in ch : forall j path a, plain ch j -> flatten [ch] path j = Some a ->
  forall p v, In (p, v) a <-> exists ks leaf, get_keys j ks = Some leaf /\ value_of_json leaf = Some v /\ p = path ++ path_of ch ks.
Proof.
  apply (json_rect' (fun j => forall path a, plain ch j -> flatten [ch] path j = Some a -> forall p v, In (p, v) a <-> exists ks leaf, get_keys j ks = Some leaf /\ value_of_json leaf = Some v /\ p = path ++ path_of ch ks)).
  5: { intros l _ path a H. contradiction. }
  5: { intros m IH path a P F p v. apply plain_obj in P. destruct P as (D & P). rewrite (flatten_obj _ _ _ _ F). split.
    - intros (k & j & b & I & Fj & X). destruct (P k j I) as (_ & _ & Pj). destruct (proj1 (IH k j I _ _ Pj Fj p v) X) as (ks & leaf & G & V & E).
      exists (k :: ks), leaf. split; [cbn [get_keys]; now rewrite (in_assoc k m j D I)|]. split; [assumption|]. rewrite E. cbn [path_of flat_map]. now rewrite <- app_assoc.
    - intros (ks & leaf & G & V & E). destruct ks as [|k ks]; [injection G as <-; discriminate|]. cbn [get_keys] in G. destruct (assoc k m) as [j|] eqn:A; [|discriminate].
      apply assoc_in in A. destruct (P k j A) as (_ & _ & Pj). pose proof (flatten_total ch j (path ++ ch :: k) Pj) as T.
      destruct (flatten [ch] (path ++ ch :: k) j) as [b|] eqn:Fj; [|congruence]. exists k, j, b. split; [assumption|]. split; [assumption|].
      apply (IH k j A _ _ Pj Fj). exists ks, leaf. split; [assumption|]. split; [assumption|]. rewrite E. cbn [path_of flat_map]. now rewrite <- app_assoc. }
  all: intros; cbn [flatten] in *.
  - contradiction.
  - match goal with H : _ = Some _ |- _ => cbn in H; injection H as <- end. split.
    + intros [E|[]]. injection E as <- <-. exists [], (JBool b). split; [reflexivity|]. split; [reflexivity|]. cbn. now rewrite app_nil_r.
    + intros (ks & leaf & G & V & ->). destruct ks; [|discriminate]. injection G as <-. cbn in V. injection V as <-. left. cbn. now rewrite app_nil_r.
  - destruct (value_of_json (JNum n)) as [w|] eqn:W; [|discriminate]. injection H0 as <-. split.
    + intros [E|[]]. injection E as <- <-. exists [], (JNum n). split; [reflexivity|]. split; [assumption|]. cbn. now rewrite app_nil_r.
    + intros (ks & leaf & G & V & ->). destruct ks; [|discriminate]. injection G as <-. rewrite V in W. injection W as <-. left. cbn. now rewrite app_nil_r.
  - match goal with H : _ = Some _ |- _ => cbn in H; injection H as <- end. split.
    + intros [E|[]]. injection E as <- <-. exists [], (JStr s). split; [reflexivity|]. split; [reflexivity|]. cbn. now rewrite app_nil_r.
    + intros (ks & leaf & G & V & ->). destruct ks; [|discriminate]. injection G as <-. cbn in V. injection V as <-. left. cbn. now rewrite app_nil_r.
Qed.
Lemma get_keys_free ch : forall ks j leaf, plain ch j -> get_keys j ks = Some leaf -> (forall k, In k ks -> ~ In ch k) /\ plain ch leaf.
Proof.
  induction ks as [|k ks IH]; intros j leaf P G; cbn [get_keys] in G; [injection G as <-; split; [contradiction|assumption]|].
  destruct j; try discriminate. apply plain_obj in P. destruct P as (_ & P). destruct (assoc k m) as [j|] eqn:A; [|discriminate].
  apply assoc_in in A. destruct (P k j A) as (F & _ & Pj). destruct (IH j leaf Pj G) as (I1 & I2). split; [|assumption]. intros k' [<-|H]; auto.
Qed.
Lemma path_inj ch : forall ks ks', (forall k, In k ks -> ~ In ch k) -> (forall k, In k ks' -> ~ In ch k) -> path_of ch ks = path_of ch ks' -> ks = ks'.
Proof.
  assert (S : forall k l k' l', ~ In ch k -> ~ In ch k' -> (forall x, In x (firstn 1 l) -> x = ch) -> (forall x, In x (firstn 1 l') -> x = ch) -> k ++ l = k' ++ l' -> k = k' /\ l = l').
  { induction k as [|x k IH]; intros l k' l' A B C D E; destruct k' as [|y k']; cbn [app] in E.
    - auto.
    - exfalso. subst l. apply B. left. apply C. now left.
    - exfalso. subst l'. apply A. left. apply D. now left.
    - injection E as -> E. destruct (IH l k' l') as (-> & ->); auto; intros X; [apply A|apply B]; now right. }
  assert (F : forall ks x, In x (firstn 1 (path_of ch ks)) -> x = ch) by (intros [|k ks] x; cbn; [contradiction|intros [<-|[]]; reflexivity]).
  induction ks as [|k ks IH]; intros [|k' ks'] A B E; cbn [path_of flat_map app] in E; try discriminate; [reflexivity|].
  injection E as E. destruct (S k (path_of ch ks) k' (path_of ch ks') (A k (or_introl eq_refl)) (B k' (or_introl eq_refl)) (F ks) (F ks') E) as (-> & E'). f_equal. apply IH; auto; intros; [apply A|apply B]; now right.
Qed.
Lemma split_dot_in : forall f p c, In p (split_dot f) -> In c p -> In c f /\ c <> 46.
Proof.
  induction f as [|x f IH]; intros p c P C; cbn [split_dot] in P.
  - destruct P as [<-|[]]. contradiction.
  - destruct (N.eqb_spec x 46) as [->|N].
    + destruct P as [<-|P]; [contradiction|]. destruct (IH p c P C). split; [now right|assumption].
    + destruct (split_dot f) as [|q qs] eqn:E.
      * destruct P as [<-|[]]. destruct C as [<-|[]]. split; [now left|assumption].
      * destruct P as [<-|P].
        -- destruct C as [<-|C]; [split; [now left|assumption]|]. destruct (IH q c (or_introl eq_refl) C). split; [now right|assumption].
        -- destruct (IH p c (or_intror P) C). split; [now right|assumption].
Qed.
Lemma normalizer_free ch f : field_ok ch f -> forall k, In k (split_dot f) -> ~ In ch k.
Proof. intros (_ & F) k K X. destruct (split_dot_in f k ch K X) as (A & B). destruct F; [congruence|contradiction]. Qed.
Lemma normalizer_nul ch f : ch <> 0 -> field_ok ch f -> no_nul (normalizer ch f).
Proof.
  intros C (F & _) X. unfold normalizer in X. apply in_flat_map in X. destruct X as (k & K & [X|X]); [congruence|].
  destruct (split_dot_in f k 0 K X). contradiction.
Qed.
Lemma collect_in l : (forall p v v', In (p, v) l -> In (p, v') l -> v = v') -> forall p v, In (p, v) (collect l) <-> In (p, v) l.
Proof.
  induction l as [|(f, w) l IH]; intros F p v; [tauto|]. cbn [collect].
  assert (IHl := IH (fun p v v' A B => F p v v' (or_intror A) (or_intror B))).
  destruct (existsb _ l) eqn:E.
  - rewrite IHl. split; [now right|]. intros [X|X]; [|assumption]. injection X as <- <-. apply existsb_exists in E. destruct E as ((g, w') & I & G).
    cbn [fst] in G. destruct (beqb_spec f g) as [<-|]; [|discriminate]. rewrite (F f w w' (or_introl eq_refl) (or_intror I)). assumption.
  - cbn [In]. now rewrite IHl.
Qed.
(** What a plain label is in the index. *)
Lemma attributes_in ch j a f v : plain ch j -> field_ok ch f -> attributes [ch] j = Some a ->
  In (normalizer ch f, v) a <-> exists leaf, get_value_by_path j f = Some leaf /\ value_of_json leaf = Some v.
Proof.
  intros P F A. unfold attributes in A. destruct (flatten [ch] [] j) as [l|] eqn:E; [|discriminate]. injection A as <-.
  pose proof (flatten_in ch j [] l P E) as Q. cbn [app] in Q. rewrite collect_in.
  - rewrite Q. unfold get_value_by_path. change (normalizer ch f) with (path_of ch (split_dot f)). split.
    + intros (ks & leaf & G & V & X). apply path_inj in X; [|now apply normalizer_free|now apply (get_keys_free ch ks j leaf)]. subst. eauto.
    + intros (leaf & G & V). eauto.
  - intros p w w' X Y. apply Q in X, Y. destruct X as (ks & leaf & G & V & X), Y as (ks' & leaf' & G' & V' & Y). subst p.
    apply path_inj in Y; [|now apply (get_keys_free ch _ j leaf)|now apply (get_keys_free ch _ j leaf')]. subst. congruence.
Qed.
Lemma attributes_total ch j : plain ch j -> attributes [ch] j <> None.
Proof. intros P. unfold attributes. pose proof (flatten_total ch j [] P). destruct (flatten [ch] [] j); [discriminate|contradiction]. Qed.
(** * Comparisons of leaves *)
Lemma plain_num ch n : plain ch (JNum n) -> tame n. Proof. auto. Qed.
Lemma value_not_empty j v : value_of_json j = Some v -> v <> VEmpty.
Proof. destruct j as [|b|[n|z|x]|s|l|m]; cbn; try discriminate; intros [= <-]; try discriminate. destruct (n <=? _); discriminate. Qed.
Lemma json_eq_value ch j v : plain ch j -> scalar v -> json_eqb j v = true <-> value_of_json j <> None /\ value_of_json j = value_of_json v.
Proof.
  intros P S. destruct v as [|b|n|s|l|m]; try contradiction.
  - destruct j as [|b'|n'|s'|l'|m']; cbn [json_eqb value_of_json]; try (split; [discriminate|intros (A & B); congruence]).
    + rewrite Bool.eqb_true_iff. split; [intros ->; split; [discriminate|reflexivity]|intros (_ & [= E]); assumption].
    + destruct n' as [n'|z'|x']; split; try discriminate; intros (_ & E); try discriminate. destruct (_ <=? _); discriminate.
  - destruct j as [|b'|n'|s'|l'|m']; cbn [json_eqb]; try (split; [discriminate|intros (A & B); cbn in A, B; destruct n as [y|y|y]; cbn in B; try congruence; destruct (_ <=? _); congruence]).
    apply plain_num in P. cbn [scalar] in S. destruct n' as [a|a|a], n as [b|b|b]; cbn [num_eqb value_of_json tame] in *.
    + rewrite (proj2 (N.leb_le _ _) P), (proj2 (N.leb_le _ _) S), N.eqb_eq. split; [intros ->; split; congruence|]. intros (_ & [= E]). lia.
    + rewrite (proj2 (N.leb_le _ _) P). split; [discriminate|]. intros (_ & [= E]). unfold i64_min in *. lia.
    + rewrite (proj2 (N.leb_le _ _) P). split; [discriminate|]. intros (_ & [= E]).
    + rewrite (proj2 (N.leb_le _ _) S). split; [discriminate|]. intros (_ & [= E]). unfold i64_min in *. lia.
    + rewrite Z.eqb_eq. split; [intros ->; split; congruence|]. intros (_ & [= E]). assumption.
    + split; [discriminate|]. intros (_ & [= E]).
    + rewrite (proj2 (N.leb_le _ _) S). split; [discriminate|]. intros (_ & [= E]).
    + split; [discriminate|]. intros (_ & [= E]).
    + destruct P as (P1 & P2 & P3), S as (S1 & S2 & S3). unfold f64_eq. rewrite !finite_nan by assumption. cbn [negb andb]. rewrite Z.eqb_eq.
      split; [intros E; apply val_eq in E; auto; subst; split; [discriminate|reflexivity]|]. intros (_ & [= E]). now subst.
  - destruct j as [|b'|n'|s'|l'|m']; cbn [json_eqb value_of_json]; try (split; [discriminate|intros (A & B); congruence]).
    + destruct n' as [n'|z'|x']; split; try discriminate; intros (_ & E); try discriminate. destruct (_ <=? _); discriminate.
    + destruct (beqb_spec s' s) as [->|N]; split; try discriminate; [intros _; split; [discriminate|reflexivity]|reflexivity|]. intros (_ & [= E]). contradiction.
Qed.
Lemma scalar_value v : scalar v -> exists w, value_of_json v = Some w /\ value_ok w.
Proof.
  destruct v as [|b|[n|z|x]|s|l|m]; cbn; try contradiction; intros S; try (eexists; split; [reflexivity|]; cbn; auto).
  - rewrite (proj2 (N.leb_le _ _) S). cbn [value_ok]. unfold i64_ok, i64_min, i64_max. lia.
  - unfold i64_ok, i64_min, i64_max in *. lia.
  - tauto.
Qed.
(** * Queries *)
Definition answers (labels : N -> option json) (e : expr) (r : plist) : Prop :=
  forall id, In id r <-> exists j, labels id = Some j /\ eval e j = true.
Lemma answerable_sub ch l : (fix go l := match l with [] => True | e :: l => answerable ch e /\ go l end) l <-> forall e, In e l -> answerable ch e.
Proof. induction l as [|e l IH]; [split; [intros _ ? []|auto]|]. cbn [In]. rewrite IH. split; [intros (A & B) e' [<-|H]; auto|intros H; split; auto]. Qed.
Lemma exact_sub l j : (fix go l := match l with [] => True | e :: l => exact_on e j /\ go l end) l <-> forall e, In e l -> exact_on e j.
Proof. induction l as [|e l IH]; [split; [intros _ ? []|auto]|]. cbn [In]. rewrite IH. split; [intros (A & B) e' [<-|H]; auto|intros H; split; auto]. Qed.
Section Query.
Context (c : codec) (ch : N) (s : kv) (labels : N -> option json) (d : docs).
Hypothesis L : lawful c.
Hypothesis C : ch <> 0.
Hypothesis K : DInv c s d.
Hypothesis Dl : forall id, d id = match labels id with Some j => attributes [ch] j | None => None end.
Hypothesis Pl : forall id j, labels id = Some j -> plain ch j.
(** Membership of a document in the posting list of a value of the field. *)
Lemma mem_label f v : field_ok ch f -> value_ok v -> v <> VEmpty -> forall id,
  dmem d id (encode_key (normalizer ch f) v) <-> exists j leaf, labels id = Some j /\ get_value_by_path j f = Some leaf /\ value_of_json leaf = Some v.
Proof.
  intros F V Ve id. destruct K as (_ & D). rewrite dmem_attr by (auto using normalizer_nul). rewrite Dl. destruct (labels id) as [j|] eqn:E.
  - split.
    + intros (a & A & w & I & S). pose proof (attributes_in ch j a f w (Pl id j E) F A) as X. apply X in I. destruct I as (leaf & G & W).
      exists j, leaf. split; [reflexivity|]. split; [assumption|]. pose proof (value_not_empty _ _ W). intuition congruence.
    + intros (j' & leaf & [= <-] & G & W). pose proof (attributes_total ch j (Pl id j E)) as T. destruct (attributes [ch] j) as [a|] eqn:A; [|contradiction].
      exists a. split; [reflexivity|]. exists v. split; [|now left]. apply (attributes_in ch j a f v (Pl id j E) F A). eauto.
  - split; [intros (a & [=] & _)|intros (j & leaf & [=] & _)].
Qed.
Lemma query_eq f v : field_ok ch f -> scalar v ->
  exists r, query c (normalizer ch) (k_map s) (ECmp f (CEq v)) = Some r /\ answers labels (ECmp f (CEq v)) r.
Proof.
  intros F S. destruct (scalar_value v S) as (w & W & Wo). cbn [query]. rewrite W.
  destruct (posting_mem c s _ _ (normalizer ch f) w (proj1 K) (normalizer_nul ch f C F) Wo) as (A & B). unfold posting in B.
  destruct (get_posting_list c (k_map s) (normalizer ch f) w) as [r|]; [|contradiction]. exists (match r with Some pl => pl | None => [] end). split; [now destruct r|].
  intros id. assert (X : In id match r with Some pl => pl | None => [] end <-> dmem d id (encode_key (normalizer ch f) w)) by (rewrite <- B; now destruct r).
  rewrite X. rewrite mem_label by (eauto using value_not_empty). cbn [eval]. split.
  - intros (j & leaf & E & G & V). exists j. split; [assumption|]. rewrite G. cbn [eval_cmp]. apply (json_eq_value ch); [|assumption|split; congruence].
    unfold get_value_by_path in G. now apply get_keys_free with (ch := ch) in G; [apply G|apply (Pl id)].
  - intros (j & E & H). destruct (get_value_by_path j f) as [leaf|] eqn:G; [|discriminate]. exists j, leaf. split; [assumption|]. split; [assumption|].
    cbn [eval_cmp] in H. apply (json_eq_value ch) in H; [|unfold get_value_by_path in G; now apply get_keys_free with (ch := ch) in G; [apply G|apply (Pl id)]|assumption].
    destruct H. congruence.
Qed.
Lemma query_range f op t : field_ok ch f -> f64_ok t -> f64_finite t = true -> t <> two63 ->
  (forall id j leaf, labels id = Some j -> get_value_by_path j f = Some leaf -> range_exact op t leaf) ->
  exists r, query c (normalizer ch) (k_map s) (ECmp f (CRange op t)) = Some r /\ answers labels (ECmp f (CRange op t)) r.
Proof.
  intros F T1 T2 T3 R. cbn [query]. pose proof (normalizer_nul ch f C F) as Nf. set (g := normalizer ch f) in *.
  destruct (int_bounds_shape g op t) as (s1 & e1 & B1). pose proof (float_bounds_sides g op t T2) as B2. rewrite B1, B2.
  destruct (scan_in c (k_map s) _ _ g pI s1 e1 [] (proj1 K) Nf) as (r1 & -> & R1).
  destruct (scan_in c (k_map s) _ _ g pF (fst (float_sides op t)) (snd (float_sides op t)) r1 (proj1 K) Nf) as (r2 & -> & R2).
  exists r2. split; [reflexivity|]. intros id. rewrite R2, R1. rewrite <- B1, <- B2. clear r1 r2 R1 R2 B1 B2 s1 e1.
  assert (Nt : f64_nan t = false) by now apply finite_nan.
  assert (Leaf : forall j leaf, labels id = Some j -> get_value_by_path j f = Some leaf -> plain ch leaf /\ range_exact op t leaf).
  { intros j leaf E G. split; [|now apply (R id j leaf)]. unfold get_value_by_path in G. now apply get_keys_free with (ch := ch) in G; [apply G|apply (Pl id)]. }
  assert (Int : forall n z, num_f64 n = f64_of_Z z -> small_int z -> whole t -> in_range (int_bounds g op t) (encode_key g (VInt z)) = cmp_range op (num_f64 n) t).
  { intros n z En Sz (zt & St & Et). destruct (f64_of_small z Sz) as (V1 & V2). rewrite En, cmp_range_val, V1, Et by assumption.
    rewrite (int_in g op t zt z) by (auto using whole_i64). assert (U : (0 < f64_unit)%Z) by (vm_compute; reflexivity).
    destruct op; cbn [cmp_Z]; apply eq_true_iff_eq; rewrite ?Z.ltb_lt, ?Z.leb_le; nia. }
  assert (PosN : forall n, num_f64 (JPos n) = f64_of_Z (Z.of_N n)).
  { intros n. cbn. unfold f64_of_Z. destruct (Z.ltb_spec (Z.of_N n) 0); [lia|]. now rewrite N2Z.id. }
  split.
  - intros [[[]|(v & V & (r & P) & I & M)]|(v & V & (r & P) & I & M)].
    + assert (exists z, v = VInt z) as (z & ->) by (destruct v; cbn [payload] in P; try discriminate P; eauto).
      apply mem_label in M; [|assumption..|discriminate]. destruct M as (j & leaf & E & G & W). exists j. split; [assumption|]. cbn [eval]. rewrite G. cbn [eval_cmp].
      destruct (Leaf j leaf E G) as (Pj & X). destruct leaf as [|b|[n|z'|x]|s'|l|m]; try discriminate W; cbn [value_of_json as_f64 range_exact] in *.
      * cbn [plain tame] in Pj. rewrite (proj2 (N.leb_le _ _) Pj) in W. injection W as <-. destruct X as (X1 & X2). rewrite <- (Int (JPos n) (Z.of_N n)); auto.
      * injection W as ->. destruct X as (X1 & X2). rewrite <- (Int (JNeg z) z); auto.
    + assert (exists x, v = VReal x) as (x & ->) by (destruct v; cbn [payload] in P; try discriminate P; eauto).
      apply mem_label in M; [|assumption..|discriminate]. destruct M as (j & leaf & E & G & W). exists j. split; [assumption|]. cbn [eval]. rewrite G. cbn [eval_cmp].
      destruct (Leaf j leaf E G) as (Pj & X). destruct leaf as [|b|[n|z'|x']|s'|l|m]; try discriminate W; cbn [value_of_json as_f64 range_exact] in *.
      * cbn [plain tame] in Pj. rewrite (proj2 (N.leb_le _ _) Pj) in W. discriminate.
      * injection W as ->. destruct Pj as (P1 & P2 & P3). cbn [num_f64]. rewrite cmp_range_val by auto using finite_nan. rewrite <- (float_in g op t x); auto.
  - intros (j & E & H). cbn [eval] in H. destruct (get_value_by_path j f) as [leaf|] eqn:G; [|discriminate]. cbn [eval_cmp] in H.
    destruct (Leaf j leaf E G) as (Pj & X). destruct leaf as [|b|[n|z|x]|s'|l|m]; try discriminate H; cbn [as_f64 range_exact] in *.
    + left. right. destruct X as (X1 & X2). exists (VInt (Z.of_N n)). destruct (small_ok _ X1) as (O & _). split; [assumption|]. split; [eexists; reflexivity|]. split; [rewrite (Int (JPos n)); auto|].
      apply mem_label; [assumption..|discriminate|]. exists j, (JNum (JPos n)). split; [assumption|]. split; [assumption|]. cbn [plain tame] in Pj. cbn [value_of_json]. now rewrite (proj2 (N.leb_le _ _) Pj).
    + left. right. destruct X as (X1 & X2). exists (VInt z). destruct (small_ok _ X1) as (O & _). split; [assumption|]. split; [eexists; reflexivity|]. split; [rewrite (Int (JNeg z)); auto|].
      apply mem_label; [assumption..|discriminate|]. exists j, (JNum (JNeg z)). auto.
    + right. destruct Pj as (P1 & P2 & P3). exists (VReal x). split; [assumption|]. split; [eexists; reflexivity|]. split.
      * rewrite float_in by auto. cbn [num_f64] in H. rewrite cmp_range_val in H by auto using finite_nan. assumption.
      * apply mem_label; [assumption..|discriminate|]. exists j, (JNum (JFlt x)). auto.
Qed.
Lemma query_exact : forall e, answerable ch e -> (forall id j, labels id = Some j -> exact_on e j) ->
  exists r, query c (normalizer ch) (k_map s) e = Some r /\ answers labels e r.
Proof.
  apply (expr_rect' (fun e => answerable ch e -> (forall id j, labels id = Some j -> exact_on e j) ->
    exists r, query c (normalizer ch) (k_map s) e = Some r /\ answers labels e r)).
  - intros l IH (Ne & A) X. rewrite answerable_sub in A.
    assert (Xs : forall e, In e l -> forall id j, labels id = Some j -> exact_on e j) by (intros e He id j E; specialize (X id j E); cbn [exact_on] in X; now apply (proj1 (exact_sub l j) X)).
    destruct l as [|e l]; [congruence|]. cbn [query].
    destruct (IH e (or_introl eq_refl) (A e (or_introl eq_refl)) (Xs e (or_introl eq_refl))) as (r & -> & R).
    assert (Rest : forall l' acc (Q : N -> Prop), (forall e', In e' l' -> In e' (e :: l)) -> (forall id, In id acc <-> Q id) ->
      exists r', and_rest (query c (normalizer ch) (k_map s)) l' acc = Some r' /\
      forall id, In id r' <-> Q id /\ forall e', In e' l' -> exists j, labels id = Some j /\ eval e' j = true).
    { induction l' as [|e' l' IHl]; intros acc Q Sub HQ; cbn [and_rest].
      - exists acc. split; [reflexivity|]. intros id. rewrite HQ. split; [intros q; split; [assumption|intros ? []]|tauto].
      - assert (I : In e' (e :: l)) by (apply Sub; now left). destruct (IH e' I (A e' I) (Xs e' I)) as (r2 & -> & R2).
        assert (HQ2 : forall id, In id (pl_intersect acc r2) <-> Q id /\ exists j, labels id = Some j /\ eval e' j = true) by (intros id; now rewrite intersect_in, HQ, (R2 id)).
        destruct (pl_intersect acc r2) as [|x0 l0] eqn:Ei.
        + exists []. split; [reflexivity|]. intros id. split; [contradiction|]. intros (q & H). apply HQ2. split; [assumption|]. apply H. now left.
        + destruct (IHl (x0 :: l0) _ (fun e'' H => Sub e'' (or_intror H)) HQ2) as (r3 & E3 & R3). exists r3. split; [exact E3|]. intros id. rewrite R3. cbn [In]. split.
          * intros ((q & h) & H). split; [assumption|]. intros e'' [<-|I2]; auto.
          * intros (q & H). split; [split; [assumption|apply H; now left]|]. intros e'' I2. apply H. now right. }
    destruct (Rest l r (fun id => In id r) (fun e' H => or_intror H) (fun id => iff_refl _)) as (r' & E' & R'). exists r'. split; [exact E'|]. intros id. rewrite R'. rewrite (R id).
    cbn [eval]. split.
    + intros ((j & Ej & He) & H). exists j. split; [assumption|]. cbn [forallb]. rewrite He. cbn [andb]. apply forallb_forall. intros e' I. destruct (H e' I) as (j' & Ej' & H'). congruence.
    + intros (j & Ej & H). cbn [forallb] in H. apply andb_true_iff in H. destruct H as (H1 & H2). rewrite forallb_forall in H2. split; eauto.
  - intros l IH A X. cbn [answerable] in A. rewrite answerable_sub in A.
    assert (Xs : forall e, In e l -> forall id j, labels id = Some j -> exact_on e j) by (intros e He id j E; specialize (X id j E); cbn [exact_on] in X; now apply (proj1 (exact_sub l j) X)).
    cbn [query]. unfold answers. cbn [eval].
    assert (Rest : forall l' acc (Q : N -> Prop), (forall e', In e' l' -> In e' l) -> (forall id, In id acc <-> Q id) ->
      exists r', or_rest (query c (normalizer ch) (k_map s)) l' acc = Some r' /\
      forall id, In id r' <-> Q id \/ exists e', In e' l' /\ exists j, labels id = Some j /\ eval e' j = true).
    { induction l' as [|e' l' IHl]; intros acc Q Sub HQ; cbn [or_rest].
      - exists acc. split; [reflexivity|]. intros id. rewrite HQ. split; [auto|intros [q|(? & [] & _)]; assumption].
      - assert (I : In e' l) by (apply Sub; now left). destruct (IH e' I (A e' I) (Xs e' I)) as (r2 & -> & R2).
        assert (HQ2 : forall id, In id (pl_union acc r2) <-> Q id \/ exists j, labels id = Some j /\ eval e' j = true) by (intros id; now rewrite union_in, HQ, (R2 id)).
        destruct (IHl (pl_union acc r2) _ (fun e'' H => Sub e'' (or_intror H)) HQ2) as (r3 & E3 & R3). exists r3. split; [exact E3|]. intros id. rewrite R3. cbn [In]. split.
        + intros [[q|h]|(e'' & I2 & h)]; [auto|right; exists e'; auto|right; exists e''; auto].
        + intros [q|(e'' & [<-|I2] & h)]; [auto|auto|right; exists e''; auto]. }
    destruct (Rest l [] (fun _ => False) (fun e' H => H) (fun id => iff_refl _)) as (r' & E' & R'). exists r'. split; [exact E'|]. intros id. rewrite R'. split.
    + intros [[]|(e' & I & j & Ej & H)]. exists j. split; [assumption|]. apply existsb_exists. eauto.
    + intros (j & Ej & H). apply existsb_exists in H. destruct H as (e' & I & H). right. eauto.
  - intros e _ [].
  - intros f [v|v|op t] A X; cbn [answerable] in A.
    + now apply query_eq.
    + contradiction.
    + destruct A as (F & T1 & T2 & T3). apply query_range; auto. intros id j leaf E G. specialize (X id j E). cbn [exact_on] in X. auto.
Qed.
End Query.
