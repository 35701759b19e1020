(** The inverted index: documents. *)
From Coq Require Import String.
From Verif.Lib Require Import Base Lists Bytes F64.
From Verif.Keys Require Import Model Spec Proofs Props.
From Verif.Labels Require Import Model Spec Proofs.
Local Open Scope N_scope.

Lemma total_size_ok : forall keys acc, acc + N.of_nat (list_sum (map (fun k => 4 + length k)%nat keys)) < two64 -> total_size acc keys <> None.
Proof.
  induction keys as [|k keys IH]; intros acc H; cbn [total_size]; [discriminate|].
  cbn [map list_sum fold_right] in H. change (fold_right Nat.add 0%nat) with list_sum in H.
  destruct (N.ltb_spec (acc + 4 + N.of_nat (length k)) two64); [apply IH; lia|lia].
Qed.
Lemma attrs_keys a : attrs_ok a -> (forall k, In k (keys_of a) -> akey k) /\ exists b, ser_keys (keys_of a) = Some b /\ de_keys b = DOk (keys_of a).
Proof.
  intros (A1 & A2 & A3 & A4). split.
  - intros k K. apply in_map_iff in K. destruct K as ((f, v) & <- & K). exists f, v. split; [|split; [|reflexivity]]; now apply (A2 f v K).
  - assert (T : total_size 4 (keys_of a) <> None).
    { apply total_size_ok. unfold keys_of. rewrite map_map. unfold key_sizes in A4. lia. }
    unfold ser_keys. destruct (total_size 4 (keys_of a)) eqn:E; [|congruence]. eexists. split; [reflexivity|].
    pose proof (C34_round_trip (keys_of a) _ [] ltac:(unfold ser_keys; now rewrite E)) as R. rewrite app_nil_r in R. apply R.
    + unfold keys_of. now rewrite map_length.
    + intros k K. apply in_map_iff in K. destruct K as ((f, v) & <- & K). now apply (A2 f v K).
Qed.
Definition dmem (d : docs) (id : N) (k : bytes) : Prop := exists a, d id = Some a /\ In k (keys_of a).
Definition drev (d : docs) (id : N) : option bytes := match d id with Some a => ser_keys (keys_of a) | None => None end.
Definition dsane (d : docs) : Prop := forall id a, d id = Some a -> id < two32 /\ attrs_ok a.

Lemma insert_inv c fail id a s mem rev b s' : lawful c -> id < two32 -> attrs_ok a -> KInv c (k_map s) mem rev -> insert fail c id a s = (b, s') ->
  exists pre post, keys_of a = pre ++ post /\ (b = true -> post = []) /\
  KInv c (k_map s') (add_mem id pre mem) (if b then set_rev id (ser_keys (keys_of a)) rev else rev).
Proof.
  intros L I A K H. unfold insert in H. eapply insert_loop_inv in H; eauto; [|now apply attrs_keys].
  destruct H as (pre & post & H1 & H2 & H3 & _). eauto.
Qed.
(** What a reverse entry must be: nothing, or the encoding of attribute keys. *)
Definition rev_is (id : N) (rev : N -> option bytes) (ks : list bytes) : Prop :=
  (rev id = None /\ ks = []) \/ (exists bs, rev id = Some bs /\ de_keys bs = DOk ks /\ (forall k, In k ks -> akey k) /\ id < two32).
Lemma delete_inv c fail id ks s mem rev b s' : lawful c -> KInv c (k_map s) mem rev -> rev_is id rev ks -> delete fail c id s = (b, s') ->
  exists pre post, ks = pre ++ post /\ (b = true -> post = []) /\
  KInv c (k_map s') (del_mem id pre mem) (if b then set_rev id None rev else rev).
Proof.
  intros L K R H. unfold delete, k_get in H.
  assert (Z : forall b, k_map s' = k_map s -> (b = true -> ks = [] /\ rev id = None) ->
    exists pre post, ks = pre ++ post /\ (b = true -> post = []) /\ KInv c (k_map s') (del_mem id pre mem) (if b then set_rev id None rev else rev)).
  { intros b0 E B. exists [], ks. split; [reflexivity|]. split; [now intros X; apply B in X|]. rewrite E. eapply kinv_ext; [exact K| |].
    - unfold del_mem. cbn. tauto.
    - intros x. destruct b0; [|reflexivity]. unfold set_rev. destruct (N.eqb_spec x id); [subst; now apply B|reflexivity]. }
  destruct (fail (k_ops s)); [injection H as <- <-; now apply Z|]. rewrite (kv_rev _ _ _ _ K) in H.
  destruct R as [(R & ->)|(bs & R & D & A & I)]; rewrite R in H.
  - injection H as <- <-. now apply Z.
  - rewrite D in H. eapply delete_loop_inv in H; eauto.
Qed.
Lemma drev_is d id : dsane d -> rev_is id (drev d) (match d id with Some a => keys_of a | None => [] end).
Proof.
  intros D. unfold rev_is, drev. destruct (d id) as [a|] eqn:E; [|now left]. destruct (D id a E) as (I & A).
  destruct (attrs_keys a A) as (A1 & b & A2 & A3). right. exists b. auto.
Qed.
(** A call that has not completed yet. *)
Definition during (c : codec) (o : iop) (d : docs) (s : kv) : Prop := exists mem rev,
  KInv c (k_map s) mem rev /\ (forall x k, x <> op_id o -> mem x k <-> dmem d x k) /\ (forall x, x <> op_id o -> rev x = drev d x) /\
  match o with
  | OInsert id a => rev id = None /\ forall k, mem id k -> In k (keys_of a)
  | ODelete id => rev id = drev d id /\ forall k, mem id k -> dmem d id k
  | OUpdate id a => (rev id = drev d id /\ forall k, mem id k -> dmem d id k) \/ (rev id = None /\ forall k, mem id k -> In k (keys_of a))
  end.
Definition DInv (c : codec) (s : kv) (d : docs) : Prop := KInv c (k_map s) (dmem d) (drev d) /\ dsane d.
Lemma dinv_during c o d s : DInv c s d -> op_ok d o -> during c o d s.
Proof.
  intros (K & D) O. exists (dmem d), (drev d). split; [assumption|]. split; [tauto|]. split; [auto|]. destruct o; cbn in *; auto.
  destruct O as (_ & _ & E). split; [unfold drev; now rewrite E|]. intros k (a' & E' & _). congruence.
Qed.
Lemma dsane_apply d o : dsane d -> op_ok d o -> dsane (apply_op o d).
Proof.
  intros D O x a'. unfold dsane in D. destruct o; cbn [apply_op]; unfold set_doc; destruct (N.eqb_spec x id); try (apply D); cbn in O; intros [= <-]; subst; tauto.
Qed.
(** After the insertion of everything, or the removal of everything. *)
Lemma insert_ends c id a d s mem rev : KInv c (k_map s) (add_mem id (keys_of a) mem) (set_rev id (ser_keys (keys_of a)) rev) ->
  (forall x k, x <> id -> mem x k <-> dmem d x k) -> (forall x, x <> id -> rev x = drev d x) -> (forall k, mem id k -> In k (keys_of a)) ->
  KInv c (k_map s) (dmem (set_doc d id (Some a))) (drev (set_doc d id (Some a))).
Proof.
  intros K M R S. eapply kinv_ext; [exact K| |].
  - intros x k _. unfold add_mem, dmem, set_doc. destruct (N.eqb_spec x id) as [->|N].
    + split; [intros [X|(_ & X)]; exists a; auto|intros (a' & [= <-] & X); auto].
    + rewrite M by assumption. unfold dmem. intuition.
  - intros x. unfold set_rev, drev, set_doc. destruct (N.eqb_spec x id) as [->|N]; [reflexivity|]. now apply R.
Qed.
Lemma delete_ends c id ks d s mem rev : KInv c (k_map s) (del_mem id ks mem) (set_rev id None rev) ->
  (forall x k, x <> id -> mem x k <-> dmem d x k) -> (forall x, x <> id -> rev x = drev d x) -> (forall k, mem id k -> In k ks) ->
  KInv c (k_map s) (dmem (set_doc d id None)) (drev (set_doc d id None)).
Proof.
  intros K M R S. eapply kinv_ext; [exact K| |].
  - intros x k _. unfold del_mem, dmem, set_doc. destruct (N.eqb_spec x id) as [->|N].
    + split; [intros (X & Y); exfalso; apply Y; auto|intros (a' & [=] & _)].
    + rewrite M by assumption. unfold dmem. intuition.
  - intros x. unfold set_rev, drev, set_doc. destruct (N.eqb_spec x id) as [->|N]; [reflexivity|]. now apply R.
Qed.
Lemma del_all c m id ks mem rev : KInv c m (del_mem id ks mem) rev -> (forall k, mem id k -> In k ks) -> (forall k, ~ del_mem id ks mem id k).
Proof. intros _ S k (X & Y). apply Y. auto. Qed.
Definition dkeys (d : docs) (id : N) : list bytes := match d id with Some a => keys_of a | None => [] end.
Lemma dmem_keys d id k : dmem d id k -> In k (dkeys d id).
Proof. intros (a & E & H). unfold dkeys. now rewrite E. Qed.
Lemma rev_is_eq id rev rev' ks : rev id = rev' id -> rev_is id rev' ks -> rev_is id rev ks.
Proof. unfold rev_is. intros ->. auto. Qed.

Lemma during_step c o d s fail b s' : lawful c -> dsane d -> op_ok d o -> during c o d s -> istep fail c o s = (b, s') ->
  if b then DInv c s' (apply_op o d) else during c o d s'.
Proof.
  intros L D O (mem & rev & K & M & R & W) H.
  pose proof (dsane_apply d o D O) as D'. destruct o as [id a|id a|id]; cbn [istep apply_op op_id] in *.
  - destruct O as (I & A & E). destruct W as (W1 & W2). eapply insert_inv in H; eauto. destruct H as (pre & post & H1 & H2 & H3). destruct b.
    + rewrite H2, app_nil_r in H1 by reflexivity. subst pre. split; [|assumption]. now apply (insert_ends _ _ _ _ _ mem rev).
    + eexists _, _. split; [exact H3|]. cbn [op_id]. unfold add_mem. split; [|split; [assumption|]].
      * intros x k N. rewrite <- M by assumption. intuition congruence.
      * split; [assumption|]. intros k [X|(_ & X)]; [now apply W2|rewrite H1; apply in_or_app; auto].
  - destruct O as (I & A). unfold update in H. destruct (delete fail c id s) as (b1, s1) eqn:E1.
    assert (Y : exists pre post ks, rev_is id rev ks /\ ks = pre ++ post /\ (b1 = true -> post = []) /\
      KInv c (k_map s1) (del_mem id pre mem) (if b1 then set_rev id None rev else rev)).
    { destruct W as [(W1 & W2)|(W1 & W2)].
      - assert (Q : rev_is id rev (dkeys d id)) by (eapply rev_is_eq; [exact W1|now apply drev_is]).
        eapply delete_inv in E1; eauto. destruct E1 as (pre & post & ? & ? & ?). exists pre, post, (dkeys d id). auto.
      - assert (Q : rev_is id rev []) by (left; auto). eapply delete_inv in E1; eauto. destruct E1 as (pre & post & ? & ? & ?). exists pre, post, []. auto. }
    destruct Y as (pre & post & ks & Y1 & Y2 & Y3 & Y4). destruct b1.
    + rewrite Y3, app_nil_r in Y2 by reflexivity. subst pre.
      assert (SUB : forall k, del_mem id ks mem id k -> In k (keys_of a)).
      { intros k (X & X'). destruct W as [(W1 & W2)|(W1 & W2)]; [|now apply W2]. exfalso. apply X'. split; [reflexivity|].
        apply W2 in X. apply dmem_keys in X. destruct Y1 as [(Y1 & ->)|(bs & Y1 & Y5 & _)].
        - unfold dkeys in X. unfold drev in W1. destruct (d id) as [a'|] eqn:Ed; [|contradiction]. destruct (D id a' Ed) as (_ & A').
          destruct (attrs_keys a' A') as (_ & b' & B' & _). congruence.
        - unfold dkeys in X. unfold drev in W1. destruct (d id) as [a'|] eqn:Ed; [|contradiction]. destruct (D id a' Ed) as (_ & A').
          destruct (attrs_keys a' A') as (_ & b' & B' & B''). assert (b' = bs) by congruence. subst. congruence. }
      eapply insert_inv in H; eauto. destruct H as (pre & post' & H1 & H2 & H3). destruct b.
      * rewrite H2, app_nil_r in H1 by reflexivity. subst pre. split; [|assumption]. eapply insert_ends; [exact H3| | |assumption].
        -- intros x k N. rewrite <- M by assumption. unfold del_mem. intuition.
        -- intros x N. unfold set_rev. destruct (N.eqb_spec x id); [contradiction|auto].
      * eexists _, _. split; [exact H3|]. cbn [op_id]. split; [|split].
        -- intros x k N. rewrite <- M by assumption. unfold add_mem, del_mem. intuition congruence.
        -- intros x N. unfold set_rev. destruct (N.eqb_spec x id); [contradiction|auto].
        -- right. split; [unfold set_rev; now rewrite N.eqb_refl|]. intros k [X|(_ & X)]; [now apply SUB|rewrite H1; apply in_or_app; auto].
    + injection H as <- <-. eexists _, _. split; [exact Y4|]. cbn [op_id]. split; [|split; [assumption|]].
      * intros x k N. rewrite <- M by assumption. unfold del_mem. intuition.
      * destruct W as [(W1 & W2)|(W1 & W2)]; [left|right]; (split; [assumption|]); intros k (X & _); auto.
  - destruct W as (W1 & W2). assert (Q : rev_is id rev (dkeys d id)) by (eapply rev_is_eq; [exact W1|now apply drev_is]).
    eapply delete_inv in H; eauto. destruct H as (pre & post & H1 & H2 & H3). destruct b.
    + rewrite H2, app_nil_r in H1 by reflexivity. subst pre. split; [|assumption]. eapply delete_ends; [exact H3|assumption..|].
      intros k X. now apply dmem_keys, W2.
    + eexists _, _. split; [exact H3|]. cbn [op_id]. split; [|split; [assumption|]].
      * intros x k N. rewrite <- M by assumption. unfold del_mem. intuition.
      * split; [assumption|]. intros k (X & _). auto.
Qed.
Lemma completed_inv c o d s s' : lawful c -> dsane d -> op_ok d o -> completed c o s s' -> during c o d s -> DInv c s' (apply_op o d).
Proof.
  intros L D O H. induction H as [s fail s' H|s fail s1 s' H _ IH]; intros J.
  - exact (during_step _ _ _ _ _ _ _ L D O J H).
  - apply IH. exact (during_step _ _ _ _ _ _ _ L D O J H).
Qed.
Lemma indexed_inv c s d : lawful c -> indexed c s d -> DInv c s d.
Proof.
  intros L H. induction H as [|s d o s' H IH O C].
  - split; [|intros ? ? [=]]. eapply kinv_ext; [apply kinv_new| |reflexivity]. intros. split; [contradiction|intros (a & [=] & _)].
  - eapply completed_inv; eauto; [apply IH|now apply dinv_during].
Qed.
(** Reading postings. *)
Lemma posting_mem c s mem rev f v : KInv c (k_map s) mem rev -> no_nul f -> value_ok v ->
  get_posting_list c (k_map s) f v <> None /\ forall id, In id (posting c s f v) <-> mem id (encode_key f v).
Proof.
  intros K N V. assert (A : akey (encode_key f v)) by (exists f, v; auto). pose proof (kv_post _ _ _ _ K _ A) as P.
  unfold posting, get_posting_list. destruct (assoc (encode_key f v) (k_map s)) as [bs|].
  - destruct P as (pl & -> & _ & _ & _ & P). split; [discriminate|]. apply P.
  - split; [discriminate|]. intros id. split; [contradiction|]. apply P.
Qed.
Lemma dmem_attr d id f v : dsane d -> no_nul f -> value_ok v -> dmem d id (encode_key f v) <-> exists a, d id = Some a /\ has_attr a f v.
Proof.
  intros D N V. unfold dmem, has_attr. split.
  - intros (a & E & H). exists a. split; [assumption|]. apply in_map_iff in H. destruct H as ((g, w) & H & I). cbn [fst snd] in H.
    destruct (D id a E) as (_ & _ & A & _). destruct (A g w I) as (A1 & A2 & _). rewrite !encode_key_payload in H.
    destruct (nul_split _ _ _ _ A1 N H) as (-> & P). exists w. split; [assumption|]. apply (payload_inj v w V A2). congruence.
  - intros (a & E & w & I & S). exists a. split; [assumption|]. rewrite (key_same f v w S).
    apply in_map_iff. exists (f, w). auto.
Qed.
(** Any history. *)
Definition AInv (c : codec) (s : kv) : Prop := exists mem rev, KInv c (k_map s) mem rev /\
  forall id bs, rev id = Some bs -> exists ks, de_keys bs = DOk ks /\ (forall k, In k ks -> akey k).
Definition same_for (x : N) (mem mem' : N -> bytes -> Prop) (rev rev' : N -> option bytes) : Prop :=
  (forall k, mem x k <-> mem' x k) /\ rev x = rev' x.
Lemma any_step c s fail o b s' mem rev : lawful c -> op_id o < two32 -> (forall id a, o = OInsert id a \/ o = OUpdate id a -> attrs_ok a) ->
  KInv c (k_map s) mem rev -> (forall id bs, rev id = Some bs -> exists ks, de_keys bs = DOk ks /\ (forall k, In k ks -> akey k)) ->
  istep fail c o s = (b, s') -> exists mem' rev', KInv c (k_map s') mem' rev' /\
    (forall id bs, rev' id = Some bs -> exists ks, de_keys bs = DOk ks /\ (forall k, In k ks -> akey k)) /\
    forall x, x <> op_id o -> same_for x mem mem' rev rev'.
Proof.
  intros L I A K R H.
  assert (INS : forall id a s mem rev b s', id < two32 -> attrs_ok a -> KInv c (k_map s) mem rev -> (forall id bs, rev id = Some bs -> exists ks, de_keys bs = DOk ks /\ (forall k, In k ks -> akey k)) ->
    insert fail c id a s = (b, s') -> exists mem' rev', KInv c (k_map s') mem' rev' /\
    (forall id bs, rev' id = Some bs -> exists ks, de_keys bs = DOk ks /\ (forall k, In k ks -> akey k)) /\
    forall x, x <> id -> same_for x mem mem' rev rev').
  { clear - L. intros id a s mem rev b s' I A K R H. eapply insert_inv in H; eauto. destruct H as (pre & post & H1 & H2 & H3). eexists _, _. split; [exact H3|]. split.
    - intros x bs E. destruct b; [|eauto]. unfold set_rev in E. destruct (N.eqb_spec x id); [|eauto].
      destruct (attrs_keys a A) as (A1 & b' & A2 & A3). assert (b' = bs) by congruence. subst. eauto.
    - intros x N. unfold same_for, add_mem, set_rev. split; [intros k; intuition congruence|]. destruct b; [|reflexivity]. destruct (N.eqb_spec x id); congruence. }
  assert (DEL : forall id b s', id < two32 -> delete fail c id s = (b, s') -> exists mem' rev', KInv c (k_map s') mem' rev' /\
    (forall id bs, rev' id = Some bs -> exists ks, de_keys bs = DOk ks /\ (forall k, In k ks -> akey k)) /\
    forall x, x <> id -> same_for x mem mem' rev rev').
  { clear - L K R. intros id b s' I H.
    assert (Q : exists ks, rev_is id rev ks). { unfold rev_is. destruct (rev id) as [bs|] eqn:E; [|eauto]. destruct (R id bs E) as (ks & ? & ?). exists ks. right. exists bs. auto. }
    destruct Q as (ks & Q). eapply delete_inv in H; eauto. destruct H as (pre & post & H1 & H2 & H3). eexists _, _. split; [exact H3|]. split.
    - intros x bs E. destruct b; [|eauto]. unfold set_rev in E. destruct (N.eqb_spec x id); [discriminate|eauto].
    - intros x N. unfold same_for, del_mem, set_rev. split; [intros k; intuition congruence|]. destruct b; [|reflexivity]. destruct (N.eqb_spec x id); congruence. }
  destruct o as [id a|id a|id]; cbn [istep op_id] in *.
  - exact (INS id a s mem rev b s' I (A id a (or_introl eq_refl)) K R H).
  - unfold update in H. destruct (delete fail c id s) as (b1, s1) eqn:E1. apply DEL in E1; [|assumption]. destruct E1 as (mem1 & rev1 & K1 & R1 & S1). destruct b1.
    + destruct (INS id a s1 mem1 rev1 b s' I (A id a (or_intror eq_refl)) K1 R1 H) as (mem2 & rev2 & K2 & R2 & S2). exists mem2, rev2. split; [assumption|]. split; [assumption|].
      intros x N. destruct (S1 x N) as (X1 & X2), (S2 x N) as (Y1 & Y2). split; [intros k; now rewrite X1, Y1|congruence].
    + injection H as <- <-. exists mem1, rev1. auto.
  - apply DEL in H; auto.
Qed.
Lemma any_inv c s : lawful c -> any_index c s -> AInv c s.
Proof.
  intros L H. induction H as [|s fail o b s' H (mem & rev & K & R) I A E].
  - exists (fun _ _ => False), (fun _ => None). split; [apply kinv_new|discriminate].
  - eapply any_step in E; eauto. destruct E as (mem' & rev' & K' & R' & _). exists mem', rev'. auto.
Qed.
Lemma step_ok c o d s : lawful c -> DInv c s d -> op_ok d o -> fst (istep no_failure c o s) = true.
Proof.
  intros L (K & D) O.
  assert (INS : forall id a s mem rev, id < two32 -> attrs_ok a -> KInv c (k_map s) mem rev -> fst (insert no_failure c id a s) = true).
  { intros id a s0 mem rev I A K0. destruct (attrs_keys a A) as (A1 & b & A2 & _). eapply insert_loop_ok; eauto. cbn [app]. congruence. }
  assert (DEL : forall id, fst (delete no_failure c id s) = true).
  { intros id. unfold delete, k_get. cbn [no_failure]. rewrite (kv_rev _ _ _ _ K). destruct (drev_is d id D) as [(-> & _)|(bs & -> & -> & A & I)]; [reflexivity|].
    eapply delete_loop_ok; eauto. }
  destruct o as [id a|id a|id]; cbn [istep].
  - destruct O as (I & A & _). eapply INS; eauto.
  - destruct O as (I & A). unfold update. specialize (DEL id). destruct (delete no_failure c id s) as (b1, s1) eqn:E. cbn [fst] in DEL. subst b1.
    pose proof (delete_inv _ _ _ _ _ _ _ _ _ L K (drev_is d id D) E) as (pre & post & _ & _ & K1). eapply INS; eauto.
  - apply DEL.
Qed.
