From Verif.Lib Require Import Base Lists F32.
From Verif.Adjacency Require Import Model Spec.

(** ** contains *)

Definition mem (l : list nat) (t : nat) : bool := existsb (Nat.eqb t) l.

Lemma mem_spec l t : mem l t = true <-> In t l.
Proof.
  unfold mem. rewrite existsb_exists. split.
  - intros (x & Hx & E). apply Nat.eqb_eq in E. now subst.
  - intros H. exists t. now rewrite Nat.eqb_refl.
Qed.
Lemma mem_false l t : mem l t = false <-> ~ In t l.
Proof. rewrite <- mem_spec. destruct (mem l t); split; congruence. Qed.

Lemma mem_app a b t : mem (a ++ b) t = mem a t || mem b t.
Proof. apply existsb_app. Qed.

(** [f] tests the first [w] elements, provided they exist. *)
Definition lanes_ok (w : nat) (f : list nat -> nat -> option bool) : Prop :=
  forall c t, w <= length c -> f c t = Some (mem (firstn w c) t).

Lemma lanes_base w : lanes_ok w (compare_lanes w).
Proof.
  intros c t H. unfold compare_lanes. destruct (Nat.leb_spec w (length c)); [reflexivity|lia].
Qed.

Lemma lanes_twice w f : lanes_ok w f -> lanes_ok (w + w) (compare_twice f w).
Proof.
  intros Hf c t H. unfold compare_twice.
  rewrite Hf by lia.
  assert (E : firstn (w + w) c = firstn w c ++ firstn w (skipn w c)).
  { rewrite <- (firstn_skipn w c) at 1. rewrite firstn_app.
    rewrite firstn_firstn, firstn_length.
    replace (Nat.min (w + w) w) with w by lia.
    f_equal. f_equal. lia. }
  rewrite E, mem_app. destruct (mem (firstn w c) t); [reflexivity|].
  rewrite Hf by (rewrite skipn_length; lia). reflexivity.
Qed.

Lemma loop_ok f : lanes_ok 32 f -> forall fuel v t, length v <= fuel ->
  exists b r, contains_loop f fuel v t = Some (b, r) /\
    mem v t = (b || mem r t).
Proof.
  intros Hf. induction fuel as [|fuel IH]; intros v t H.
  - cbn [contains_loop]. destruct (Nat.leb_spec 32 (length v)); [lia|].
    exists false, v. auto.
  - cbn [contains_loop]. destruct (Nat.leb_spec 32 (length v)) as [L|L].
    2:{ exists false, v. auto. }
    rewrite Hf by assumption.
    assert (M0 : mem v t = (mem (firstn 32 v) t || mem (skipn 32 v) t)).
    { rewrite <- mem_app. now rewrite firstn_skipn. }
    rewrite M0. clear M0. destruct (mem (firstn 32 v) t).
    + exists true, v. auto.
    + destruct (IH (skipn 32 v) t) as (b & r & E & M).
      { rewrite skipn_length. lia. }
      exists b, r. rewrite E. auto.
Qed.

Lemma block_ok f w v t s : lanes_ok w f ->
  (exists b r, s = Some (b, r) /\ mem v t = (b || mem r t)) ->
  exists b r, contains_block f w t s = Some (b, r) /\ mem v t = (b || mem r t).
Proof.
  intros Hf (b & r & -> & M). unfold contains_block. destruct b.
  - exists true, r. auto.
  - destruct (Nat.leb_spec w (length r)) as [L|L].
    2:{ exists false, r. auto. }
    rewrite Hf by assumption.
    rewrite <- (firstn_skipn w r) in M. rewrite mem_app in M.
    destruct (mem (firstn w r) t).
    + exists true, r. auto.
    + exists false, (skipn w r). auto.
Qed.

Lemma rest_ok v t s :
  (exists b r, s = Some (b, r) /\ mem v t = (b || mem r t)) ->
  contains_rest t s = Some (mem v t).
Proof.
  intros (b & r & -> & ->). unfold contains_rest. destruct b; [reflexivity|].
  f_equal. cbn [orb]. unfold mem. induction r as [|x r IH]; [reflexivity|].
  cbn [existsb]. rewrite IH, Nat.eqb_sym. reflexivity.
Qed.

Lemma contains_mem k v t : contains_simd k v t = Some (mem v t).
Proof.
  destruct k; cbn [contains_simd]; [| |reflexivity].
  - apply rest_ok. apply block_ok; [apply lanes_base|].
    apply block_ok; [apply lanes_base|].
    apply block_ok; [apply (lanes_twice 8), lanes_base|].
    apply loop_ok; [|lia]. apply (lanes_twice 16), (lanes_twice 8), lanes_base.
  - apply rest_ok. apply block_ok; [apply lanes_base|].
    apply block_ok; [apply lanes_base|].
    apply block_ok; [apply (lanes_twice 4), lanes_base|].
    apply block_ok; [apply (lanes_twice 8), (lanes_twice 4), lanes_base|].
    apply loop_ok; [|lia].
    apply (lanes_twice 16), (lanes_twice 8), (lanes_twice 4), lanes_base.
Qed.

Lemma contains_exact_lemma : forall k v t,
  exists b, contains_simd k v t = Some b /\ (b = true <-> In t v).
Proof. intros. exists (mem v t). split; [apply contains_mem|apply mem_spec]. Qed.

(** ** push and extend *)

Lemma push_mem k a i : adj_push k a i =
  Some (if mem a i then (a, false) else (a ++ [i], true)).
Proof. unfold adj_push, adj_contains. rewrite contains_mem. now destruct (mem a i). Qed.

Lemma push_lemma : forall k a i, exists a' b, adj_push k a i = Some (a', b) /\
  (In i a -> b = false /\ a' = a) /\ (~ In i a -> b = true /\ a' = a ++ [i]).
Proof.
  intros k a i. rewrite push_mem. destruct (mem a i) eqn:E.
  - apply mem_spec in E. exists a, false. split; [reflexivity|]. split; [auto|tauto].
  - apply mem_false in E. exists (a ++ [i]), true. split; [reflexivity|]. split; [tauto|auto].
Qed.

Lemma offer_mem a x xs :
  offer a (x :: xs) = if mem a x then offer a xs else offer (a ++ [x]) xs.
Proof.
  cbn [offer]. destruct (in_dec Nat.eq_dec x a) as [H|H].
  - apply mem_spec in H. now rewrite H.
  - apply mem_false in H. now rewrite H.
Qed.

Lemma offer_len xs : forall a, length a <= length (offer a xs).
Proof.
  induction xs as [|x xs IH]; intros a; [auto|].
  rewrite offer_mem. destruct (mem a x); [auto|].
  specialize (IH (a ++ [x])). rewrite app_length in IH. lia.
Qed.

Lemma extend_lemma : forall k is a,
  adj_extend k a is = Some (offer a is, length (offer a is) - length a).
Proof.
  intros k. induction is as [|i is IH]; intros a.
  - cbn. now rewrite Nat.sub_diag.
  - rewrite offer_mem. cbn [adj_extend]. rewrite push_mem.
    destruct (mem a i).
    + now rewrite IH.
    + rewrite IH. f_equal. f_equal. pose proof (offer_len is (a ++ [i])) as L.
      rewrite app_length in *. cbn [length] in *. lia.
Qed.

Lemma NoDup_snoc (a : list nat) i : NoDup a -> ~ In i a -> NoDup (a ++ [i]).
Proof.
  intros H H'. apply NoDup_app_intro; auto.
  - constructor; [auto|constructor].
  - intros x Hx [->|[]]. auto.
Qed.

Lemma offer_spec xs : forall a, NoDup a ->
  NoDup (offer a xs) /\ (forall x, In x (offer a xs) <-> In x a \/ In x xs) /\
  exists e, offer a xs = a ++ e.
Proof.
  induction xs as [|x xs IH]; intros a Ha.
  - cbn. split; [auto|]. split; [tauto|]. exists []. now rewrite app_nil_r.
  - rewrite offer_mem. destruct (mem a x) eqn:E.
    + apply mem_spec in E. destruct (IH a Ha) as (H1 & H2 & H3).
      split; [auto|]. split; [|auto]. intros y. rewrite H2. cbn [In].
      split; [tauto|]. intros [?|[->|?]]; auto.
    + apply mem_false in E. destruct (IH (a ++ [x])) as (H1 & H2 & e & H3).
      { now apply NoDup_snoc. }
      split; [auto|]. split.
      * intros y. rewrite H2, in_app_iff. cbn [In]. tauto.
      * exists (x :: e). rewrite H3. now rewrite <- app_assoc.
Qed.

Lemma NoDup_app_l (a b : list nat) : NoDup (a ++ b) -> NoDup a.
Proof. intros H. now apply NoDup_app_inv in H. Qed.

(** [offer [] l] has the length of [l] exactly if [l] has no duplicates. *)
Lemma offer_len_le xs : forall a, length (offer a xs) <= length a + length xs.
Proof.
  induction xs as [|x xs IH]; intros a; [cbn; lia|].
  rewrite offer_mem. cbn [length]. destruct (mem a x).
  - specialize (IH a). lia.
  - specialize (IH (a ++ [x])). rewrite app_length in IH. cbn [length] in IH. lia.
Qed.

Lemma offer_full xs : forall a, NoDup a ->
  (length (offer a xs) = length a + length xs <-> NoDup (a ++ xs)).
Proof.
  induction xs as [|x xs IH]; intros a Ha.
  - cbn. rewrite app_nil_r, Nat.add_0_r. tauto.
  - rewrite offer_mem. destruct (mem a x) eqn:E.
    + apply mem_spec in E. pose proof (offer_len_le xs a) as L. cbn [length].
      split; [lia|]. intros N. exfalso. apply NoDup_remove_2 in N. apply N.
      apply in_or_app. auto.
    + apply mem_false in E. cbn [length].
      specialize (IH (a ++ [x]) (NoDup_snoc _ _ Ha E)).
      rewrite app_length in IH. cbn [length] in IH. rewrite <- app_assoc in IH.
      cbn [app] in IH. rewrite <- IH. lia.
Qed.

Lemma all_unique_lemma : forall k a, exists b, all_unique k a = Some b /\
  (b = true <-> NoDup a).
Proof.
  intros k a. unfold all_unique. rewrite extend_lemma. eexists. split; [reflexivity|].
  rewrite Nat.eqb_eq. cbn [length]. rewrite Nat.sub_0_r.
  pose proof (offer_full a [] (NoDup_nil _)) as H. cbn [length app] in H.
  rewrite Nat.add_0_l in H. exact H.
Qed.

Lemma debug_check_spec debug k a a' : debug_check debug k a = Some a' ->
  a' = a /\ (debug = true -> NoDup a).
Proof.
  unfold debug_check. destruct debug.
  - destruct (all_unique_lemma k a) as (b & -> & Hb). destruct b; [|discriminate].
    intros [= <-]. split; auto. intros _. now apply Hb.
  - intros [= <-]. split; [auto|discriminate].
Qed.
Lemma debug_check_ok debug k a : NoDup a -> debug_check debug k a = Some a.
Proof.
  intros H. unfold debug_check. destruct debug; auto.
  destruct (all_unique_lemma k a) as (b & -> & Hb). destruct Hb as [_ Hb].
  now rewrite (Hb H).
Qed.

Lemma extend_full_lemma : forall k is a, NoDup a -> exists new,
  adj_extend k a is = Some (a ++ new, length new) /\
  adj_last (a ++ new) (length new) = Some new /\
  NoDup (a ++ new) /\ (forall x, In x (a ++ new) <-> In x a \/ In x is) /\
  a ++ new = offer a is.
Proof.
  intros k is a H. destruct (offer_spec is a H) as (N & I & new & E). exists new.
  rewrite <- E. split; [|split; [|auto]].
  - rewrite extend_lemma. rewrite E, app_length. do 2 f_equal. lia.
  - unfold adj_last. rewrite E, app_length. destruct (Nat.leb_spec (length new) (length a + length new)); [|lia].
    f_equal. replace (length a + length new - length new) with (length a) by lia.
    rewrite skipn_app, skipn_all, Nat.sub_diag. reflexivity.
Qed.

(** ** sort and dedup *)

Lemma insert_perm x l : Permutation (x :: l) (insert_sorted x l).
Proof.
  induction l as [|y l IH]; [auto|]. cbn [insert_sorted]. destruct (x <=? y); [auto|].
  rewrite perm_swap. now constructor.
Qed.
Lemma sort_perm l : Permutation l (sort_unstable l).
Proof.
  induction l as [|x l IH]; [auto|]. cbn [sort_unstable]. rewrite <- insert_perm.
  now constructor.
Qed.
Lemma insert_sorted_sorted x l : StronglySorted le l -> StronglySorted le (insert_sorted x l).
Proof.
  induction 1 as [|y l H IH F].
  - constructor; auto. constructor.
  - cbn [insert_sorted]. destruct (Nat.leb_spec x y) as [L|L].
    + constructor; [now constructor|]. constructor; [auto|].
      eapply Forall_impl; [|exact F]. cbn. lia.
    + constructor; auto. apply (Permutation_Forall (insert_perm x l)).
      constructor; [lia|auto].
Qed.
Lemma sort_sorted l : StronglySorted le (sort_unstable l).
Proof. induction l; [constructor|]. now apply insert_sorted_sorted. Qed.

Lemma dedup_from_spec l : forall x, StronglySorted le l -> Forall (le x) l ->
  StronglySorted lt (dedup_from x l) /\ Forall (lt x) (dedup_from x l) /\
  (forall y, In y (dedup_from x l) <-> In y l /\ y <> x).
Proof.
  induction l as [|y l IH]; intros x H F.
  - cbn. repeat split; try constructor; tauto.
  - inv H. inv F. cbn [dedup_from]. destruct (Nat.eqb_spec y x) as [->|N].
    + destruct (IH x) as (A & B & C); auto. split; [auto|]. split; [auto|].
      intros y. rewrite C. cbn [In]. split; [tauto|]. intros [[->|?] ?]; [congruence|auto].
    + destruct (IH y) as (A & B & C); auto. split; [now constructor|]. split.
      { constructor; [lia|]. eapply Forall_impl; [|exact B]. cbn. lia. }
      intros z. cbn [In]. rewrite C. split.
      * intros [->|[H' ?]]; [auto|]. split; [auto|].
        rewrite Forall_forall in H3. specialize (H3 _ H'). lia.
      * intros [[->|?] ?]; [auto|]. destruct (Nat.eq_dec y z); auto.
Qed.

Lemma SSorted_lt_NoDup l : StronglySorted lt l -> NoDup l.
Proof.
  induction 1 as [|x l H IH F]; constructor; auto. intros I.
  rewrite Forall_forall in F. specialize (F _ I). lia.
Qed.

Lemma untrusted_lemma : forall is, StronglySorted lt (adj_from_untrusted is) /\
  (forall x, In x (adj_from_untrusted is) <-> In x is).
Proof.
  intros is. unfold adj_from_untrusted.
  assert (P := sort_perm is). assert (S := sort_sorted is).
  remember (sort_unstable is) as l. destruct l as [|x l].
  - split; [constructor|]. intros x. split; intros H; [contradiction|].
    eapply Permutation_in in H; eauto.
  - inv S. unfold dedup. destruct (dedup_from_spec l x) as (A & B & C); auto.
    split; [now constructor|]. intros y. split.
    + intros [->|H].
      * eapply Permutation_in; [symmetry; eassumption|now left].
      * apply C in H. eapply Permutation_in; [symmetry; eassumption|now right].
    + intros H. eapply Permutation_in in H; [|eassumption].
      destruct H as [->|H]; [now left|].
      destruct (Nat.eq_dec y x) as [->|?]; [now left|]. right. apply C. auto.
Qed.

(** ** histories *)

Lemma retain_in f : forall a n x, In x (retain_from f n a) -> In x a.
Proof.
  induction a as [|y a IH]; intros n x H; [auto|]. cbn [retain_from] in H.
  destruct (f n y); [destruct H as [->|H]|]; cbn; eauto.
Qed.
Lemma retain_NoDup f : forall a n, NoDup a -> NoDup (retain_from f n a).
Proof.
  induction a as [|y a IH]; intros n H; [auto|]. cbn [retain_from]. inv H.
  destruct (f n y); auto. constructor; auto. intros I. apply retain_in in I. auto.
Qed.

Lemma step_nodup debug k a op a' : NoDup a ->
  (debug = true /\ unique_iter_promise op) \/ promise a op ->
  a_step debug k a op = Some a' -> NoDup a'.
Proof.
  intros Ha Hp H. destruct op; cbn [a_step] in H.
  - rewrite push_mem in H. destruct (mem a i) eqn:E; inv H; auto.
    apply mem_false in E. now apply NoDup_snoc.
  - rewrite extend_lemma in H. inv H. now apply offer_spec.
  - inv H. now apply retain_NoDup.
  - inv H. constructor.
  - inv H. now apply NoDup_firstn.
  - inv H. eapply Permutation_NoDup; [apply sort_perm|auto].
  - inv H. apply SSorted_lt_NoDup. apply untrusted_lemma.
  - inv H. destruct Hp as [[_ Hp]|Hp]; exact Hp.
  - inv H. constructor; [auto|constructor].
  - apply debug_check_spec in H as [-> H]. destruct Hp as [[Hp _]|Hp]; auto.
  - apply debug_check_spec in H as [-> H]. destruct Hp as [[Hp _]|Hp]; auto.
  - destruct (guard_writes (adj_resize a cap) ws) eqn:E; [|discriminate].
    apply debug_check_spec in H as [-> H]. destruct Hp as [[Hp _]|Hp]; auto.
    exact (Hp _ E).
  - destruct (guard_writes (adj_resize a cap) ws) eqn:E; [|discriminate].
    inv H. constructor.
Qed.

Lemma history_debug_lemma : forall k ops a, Forall unique_iter_promise ops ->
  a_run true k [] ops = Some a -> NoDup a.
Proof.
  intros k ops a Hp. assert (G : NoDup (@nil nat)) by constructor. revert G.
  generalize (@nil nat). induction Hp as [|op ops Hop Hops IH]; intros b Hb H; cbn in H.
  - now inv H.
  - destruct (a_step true k b op) eqn:E; [|discriminate].
    eapply IH; [|exact H]. eapply step_nodup; eauto.
Qed.

Lemma history_lemma : forall debug k ops a, promises debug k [] ops ->
  a_run debug k [] ops = Some a -> NoDup a.
Proof.
  intros debug k ops a. assert (G : NoDup (@nil nat)) by constructor. revert G.
  generalize (@nil nat). induction ops as [|op ops IH]; intros b Hb Hp H; cbn in H.
  - now inv H.
  - destruct (a_step debug k b op) eqn:E; [|discriminate].
    destruct Hp as [Hp1 Hp2].
    eapply IH; [|apply Hp2; exact E|exact H]. eapply step_nodup; eauto.
Qed.

Lemma resize_length a cap : length (adj_resize a cap) = cap.
Proof. unfold adj_resize. rewrite app_length, firstn_length, repeat_length. lia. Qed.

Lemma writes_ok ws : forall a cap, length a = cap -> Forall (fun w => fst w < cap) ws ->
  exists a', guard_writes a ws = Some a' /\ length a' = cap.
Proof.
  induction ws as [|w ws IH]; intros a cap L F.
  - exists a. auto.
  - inv F. cbn [guard_writes]. unfold guard_write.
    destruct (Nat.ltb_spec (fst w) (length a)) as [_|]; [|lia].
    apply IH; [now rewrite set_nth_length|auto].
Qed.

Lemma step_total debug k a op : NoDup a -> promise a op -> in_bounds op ->
  exists a', a_step debug k a op = Some a'.
Proof.
  intros Ha Hp Hb. destruct op; cbn [a_step]; try (eexists; reflexivity).
  - rewrite push_mem. destruct (mem a i); eauto.
  - rewrite extend_lemma. eauto.
  - exists is. now apply debug_check_ok.
  - eexists. now apply debug_check_ok.
  - destruct (writes_ok ws (adj_resize a cap) cap (resize_length _ _) Hb) as (a' & E & _).
    rewrite E. eexists. apply debug_check_ok. exact (Hp _ E).
  - destruct (writes_ok ws (adj_resize a cap) cap (resize_length _ _) Hb) as (a' & E & _).
    rewrite E. eauto.
Qed.

Lemma history_total_lemma : forall debug k ops, Forall in_bounds ops ->
  promises debug k [] ops -> exists a, a_run debug k [] ops = Some a.
Proof.
  intros debug k ops. assert (G : NoDup (@nil nat)) by constructor. revert G.
  generalize (@nil nat). induction ops as [|op ops IH]; intros b Hb Hi Hp; cbn.
  - eauto.
  - inv Hi. destruct Hp as [Hp1 Hp2].
    destruct (step_total debug k b op) as (b' & E); auto. rewrite E.
    apply IH; auto. eapply step_nodup; eauto.
Qed.

(** ** backedges *)

Lemma b_push_spec debug k b x : NoDup (b_slice b) ->
  exists b', b_push debug k b x = Some (b', negb (mem (b_slice b) x)) /\
    b_slice b' = if mem (b_slice b) x then b_slice b else b_slice b ++ [x].
Proof.
  intros H.
  destruct b as [|v|v0 v1|v0 v1 v2|v0 v1 v2 v3|a]; cbn [b_push b_slice] in *.
  - eexists. split; reflexivity.
  - unfold mem. cbn [existsb]. rewrite orb_false_r, (Nat.eqb_sym x v).
    destruct (v =? x); eexists; split; reflexivity.
  - unfold mem. cbn [existsb]. rewrite orb_false_r, (Nat.eqb_sym x v0), (Nat.eqb_sym x v1).
    destruct (v0 =? x), (v1 =? x); eexists; split; reflexivity.
  - unfold mem. cbn [existsb].
    rewrite orb_false_r, (Nat.eqb_sym x v0), (Nat.eqb_sym x v1), (Nat.eqb_sym x v2).
    destruct (v0 =? x), (v1 =? x), (v2 =? x); eexists; split; reflexivity.
  - unfold mem. cbn [existsb].
    rewrite orb_false_r, (Nat.eqb_sym x v0), (Nat.eqb_sym x v1), (Nat.eqb_sym x v2),
      (Nat.eqb_sym x v3).
    destruct (Nat.eqb_spec v0 x), (Nat.eqb_spec v1 x), (Nat.eqb_spec v2 x),
      (Nat.eqb_spec v3 x);
      cbn [negb andb orb]; try (eexists; split; reflexivity).
    change (guard_writes (adj_resize [] 5) [(0, v0); (1, v1); (2, v2); (3, v3); (4, x)])
      with (Some [v0; v1; v2; v3; x]).
    cbv iota beta. unfold guard_finish.
    change (adj_truncate [v0; v1; v2; v3; x] 5) with ([v0; v1; v2; v3] ++ [x]).
    rewrite debug_check_ok.
    + eexists. split; reflexivity.
    + apply NoDup_snoc; auto. cbn. intuition congruence.
  - rewrite push_mem. destruct (mem a x); eexists; split; reflexivity.
Qed.

(** For every push of the sequence: whether the source was new at that moment. *)
Lemma b_pushes_spec debug k xs : forall b, NoDup (b_slice b) ->
  exists b' rs, b_pushes debug k b xs = Some (b', rs) /\
    b_slice b' = offer (b_slice b) xs /\ length rs = length xs /\
    (forall i x r, nth_error xs i = Some x -> nth_error rs i = Some r ->
       (r = true <-> ~ In x (b_slice b) /\ ~ In x (firstn i xs))).
Proof.
  induction xs as [|x xs IH]; intros b Hb.
  - exists b, []. cbn. repeat split; auto; destruct i; discriminate.
  - destruct (b_push_spec debug k b x Hb) as (b1 & E & S1).
    assert (Hb1 : NoDup (b_slice b1)).
    { rewrite S1. destruct (mem (b_slice b) x) eqn:M; auto.
      apply mem_false in M. now apply NoDup_snoc. }
    destruct (IH b1 Hb1) as (b2 & rs & E2 & S2 & L2 & R2).
    exists b2, (negb (mem (b_slice b) x) :: rs). cbn [b_pushes]. rewrite E, E2.
    split; [reflexivity|]. split.
    + rewrite S2, offer_mem, S1. now destruct (mem (b_slice b) x).
    + split; [cbn; congruence|]. intros [|i] y r Hy Hr; cbn [nth_error firstn] in *.
      * inv Hy. inv Hr. rewrite negb_true_iff, mem_false. cbn. tauto.
      * rewrite (R2 i y r Hy Hr). rewrite S1. destruct (mem (b_slice b) x) eqn:M.
        -- apply mem_spec in M. cbn [In]. split; [|tauto].
           intros [A B]. split; [auto|]. intros [->|?]; auto.
        -- rewrite in_app_iff. cbn [In]. tauto.
Qed.

Lemma buffer_lemma : forall debug k v xs, exists b rs,
  b_pushes debug k (b_new v) xs = Some (b, rs) /\
  NoDup (b_slice b) /\
  (forall x, In x (b_slice b) <-> In x (v :: xs)) /\
  b_slice b = offer [] (v :: xs) /\ length rs = length xs /\
  (forall i x r, nth_error xs i = Some x -> nth_error rs i = Some r ->
     (r = true <-> ~ In x (v :: firstn i xs))).
Proof.
  intros. assert (N : NoDup (b_slice (b_new v))).
  { cbn. constructor; [auto|constructor]. }
  destruct (b_pushes_spec debug k xs (b_new v) N) as (b & rs & E & S & L & R).
  exists b, rs. cbn [b_slice b_new] in *.
  destruct (offer_spec xs [v] N) as (O1 & O2 & _).
  split; [auto|]. split; [now rewrite S|]. split.
  { intros x. rewrite S, O2. cbn. tauto. }
  split; [exact S|]. split; [auto|].
  intros i x r Hx Hr. rewrite (R i x r Hx Hr). cbn. tauto.
Qed.

Definition map_rel (m : bmap) (S : nat -> list nat) : Prop :=
  forall t, match m t with
            | None => S t = []
            | Some b => S t <> [] /\ b_slice b = offer [] (S t)
            end.

Lemma offer_app xs ys : forall a, offer a (xs ++ ys) = offer (offer a xs) ys.
Proof.
  induction xs as [|x xs IH]; intros a; [reflexivity|].
  cbn [app]. rewrite !offer_mem. destruct (mem a x); apply IH.
Qed.

Lemma agg_edge_rel debug k s t m S : map_rel m S ->
  exists m', agg_edge debug k s (Some m) t = Some m' /\
    map_rel m' (fun u => if t =? u then S u ++ [s] else S u).
Proof.
  intros R. cbn [agg_edge]. pose proof (R t) as Rt. destruct (m t) as [b|].
  - destruct Rt as [Ne Eb].
    destruct (b_push_spec debug k b s) as (b' & E & S').
    { rewrite Eb. apply (offer_spec (S t) [] (NoDup_nil _)). }
    rewrite E. eexists. split; [reflexivity|]. intros u. specialize (R u).
    destruct (upd_cases m t (Some b') u) as [[-> ->]|[Nu ->]].
    + rewrite Nat.eqb_refl. split; [now destruct (S t)|].
      rewrite S', offer_app, <- Eb. rewrite offer_mem. now destruct (mem (b_slice b) s).
    + destruct (Nat.eqb_spec t u); [congruence|exact R].
  - eexists. split; [reflexivity|]. intros u. specialize (R u).
    destruct (upd_cases m t (Some (b_new s)) u) as [[-> ->]|[Nu ->]].
    + rewrite Nat.eqb_refl, Rt. cbn. split; [discriminate|reflexivity].
    + destruct (Nat.eqb_spec t u); [congruence|exact R].
Qed.

Lemma map_rel_ext m S S' : (forall t, S t = S' t) -> map_rel m S -> map_rel m S'.
Proof. intros H R t. specialize (R t). now rewrite <- (H t). Qed.

Lemma agg_list_rel debug k s edges : forall m S, map_rel m S ->
  exists m', fold_left (agg_edge debug k s) edges (Some m) = Some m' /\
    map_rel m' (fun u => S u ++ map (fun _ => s) (filter (Nat.eqb u) edges)).
Proof.
  induction edges as [|t edges IH]; intros m S R.
  - exists m. split; [reflexivity|]. eapply map_rel_ext; [|exact R].
    intros u. cbn. now rewrite app_nil_r.
  - cbn [fold_left]. destruct (agg_edge_rel debug k s t m S R) as (m1 & -> & R1).
    destruct (IH m1 _ R1) as (m2 & E & R2). exists m2. split; [exact E|].
    eapply map_rel_ext; [|exact R2]. intros u. cbn [filter].
    rewrite (Nat.eqb_sym u t). destruct (t =? u); [|reflexivity].
    cbn [map]. now rewrite <- app_assoc.
Qed.

Lemma agg_all_rel debug k lists : forall m S, map_rel m S ->
  exists m', fold_left (fun m pe => fold_left (agg_edge debug k (fst pe)) (snd pe) m)
               lists (Some m) = Some m' /\
    map_rel m' (fun u => S u ++ sources_of u lists).
Proof.
  induction lists as [|[s edges] lists IH]; intros m S R.
  - exists m. split; [reflexivity|]. eapply map_rel_ext; [|exact R].
    intros u. cbn. now rewrite app_nil_r.
  - cbn [fold_left fst snd]. destruct (agg_list_rel debug k s edges m S R) as (m1 & -> & R1).
    destruct (IH m1 _ R1) as (m2 & E & R2). exists m2. split; [exact E|].
    eapply map_rel_ext; [|exact R2]. intros u. unfold sources_of. cbn [flat_map fst snd].
    now rewrite <- app_assoc.
Qed.

Lemma aggregate_lemma : forall debug k lists, exists m,
  aggregate_backedges debug k lists = Some m /\
  forall t, match m t with
            | None => forall s edges, In (s, edges) lists -> ~ In t edges
            | Some b => NoDup (b_slice b) /\ b_slice b = offer [] (sources_of t lists) /\
                (forall s, In s (b_slice b) <->
                   exists edges, In (s, edges) lists /\ In t edges)
            end.
Proof.
  intros debug k lists.
  destruct (agg_all_rel debug k lists (fun _ => None) (fun _ => [])) as (m & E & R).
  { intros t. reflexivity. }
  exists m. split; [exact E|]. intros t. specialize (R t). cbn [app] in R.
  assert (Sr : forall s, In s (sources_of t lists) <->
                 exists edges, In (s, edges) lists /\ In t edges).
  { intros s. unfold sources_of. rewrite in_flat_map. split.
    - intros ([s' edges] & H1 & H2). cbn [fst snd] in H2.
      apply in_map_iff in H2 as (y & <- & H2). apply filter_In in H2 as [H2 H3].
      apply Nat.eqb_eq in H3. subst. eauto.
    - intros (edges & H1 & H2). exists (s, edges). split; [auto|]. cbn [fst snd].
      apply in_map_iff. exists t. split; [auto|]. apply filter_In.
      rewrite Nat.eqb_refl. auto. }
  destruct (m t) as [b|].
  - destruct R as [_ R]. destruct (offer_spec (sources_of t lists) [] (NoDup_nil _)) as (O1&O2&_).
    rewrite R. split; [auto|]. split; [auto|]. intros s. rewrite O2, Sr. cbn. tauto.
  - intros s edges H1 H2. assert (H : In s (sources_of t lists)) by (apply Sr; eauto).
    rewrite R in H. exact H.
Qed.

(** ** sorted neighbors *)

Lemma leq_trans x y z : leq_dist x y -> leq_dist y z -> leq_dist x z.
Proof. unfold leq_dist. rewrite !f32_le_spec. intuition lia. Qed.

Lemma SSorted_snoc l (x : nbr) : StronglySorted leq_dist l ->
  Forall (fun y => leq_dist y x) l -> StronglySorted leq_dist (l ++ [x]).
Proof.
  induction 1 as [|y l H IH F]; intros G; cbn.
  - repeat constructor.
  - inv G. constructor; auto. apply Forall_app. split; auto.
Qed.

Lemma no_nan_perm l l' : Permutation l l' -> no_nan l -> no_nan l'.
Proof. intros P. apply (Permutation_Forall P). Qed.

Lemma sorted_lemma : forall select sort l max,
  select_contract select -> sort_contract sort ->
  exists pool rest, sorted_new select sort l max = Some pool /\
    Permutation l (pool ++ rest) /\
    length pool = Nat.min max (length l) /\
    (no_nan l -> StronglySorted leq_dist pool /\
       forall x y, In x pool -> In y rest -> leq_dist x y).
Proof.
  intros select sort l max Hs Ht. unfold sorted_new.
  destruct (Nat.min max (length l)) as [|pos] eqn:E.
  - exists (firstn max l), (skipn max l). rewrite firstn_skipn.
    assert (L : length (firstn max l) = 0) by (rewrite firstn_length; lia).
    split; [auto|]. split; [auto|]. split; [auto|].
    destruct (firstn max l); [|discriminate]. intros _. split; [constructor|].
    intros x y [].
  - destruct (Nat.ltb_spec pos (length l)) as [Lp|]; [|lia].
    destruct (select l pos) as [[p x] s] eqn:Es.
    destruct (Hs l pos Lp p x s Es) as (P & Lp' & O). destruct (Ht p) as (Q & Q').
    assert (Lq : length (sort p) = pos) by (rewrite <- (Permutation_length Q); auto).
    assert (Ll : length l = length (sort p) + S (length s)).
    { rewrite (Permutation_length P), app_length. cbn [length].
      rewrite (Permutation_length Q). reflexivity. }
    assert (Ef : firstn max (sort p ++ x :: s) = sort p ++ [x]).
    { destruct (Nat.le_gt_cases (length l) max) as [M|M].
      - assert (s = []) as -> by (destruct s; [auto|cbn in Ll; lia]).
        apply firstn_all2. rewrite app_length. cbn. lia.
      - rewrite firstn_app. replace (max - length (sort p)) with 1 by lia.
        rewrite firstn_all2 by lia. reflexivity. }
    rewrite Ef. exists (sort p ++ [x]), s. split; [auto|]. split.
    { rewrite P, <- app_assoc. cbn. now apply Permutation_app_tail. }
    split; [rewrite app_length; cbn; lia|].
    intros Nn. destruct (O Nn) as (O1 & O2).
    assert (Nn2 := no_nan_perm _ _ P Nn). apply Forall_app in Nn2 as [Np _].
    assert (O1' : Forall (fun y => leq_dist y x) (sort p)) by (eapply Permutation_Forall; eauto).
    split; [now apply SSorted_snoc; auto|].
    rewrite Forall_forall in O1', O2. intros y z Hy Hz. apply in_app_iff in Hy as [Hy|[<-|[]]].
    + eapply leq_trans; eauto.
    + auto.
Qed.

(** A concrete instance of the std contracts: insertion sort. *)
Fixpoint ins_nbr (x : nbr) (l : list nbr) : list nbr :=
  match l with
  | [] => [x]
  | y :: l' => if f32_le (n_dist x) (n_dist y) then x :: l else y :: ins_nbr x l'
  end.
Fixpoint sort_nbr (l : list nbr) : list nbr :=
  match l with [] => [] | x :: l' => ins_nbr x (sort_nbr l') end.
Definition select_nbr (l : list nbr) (k : nat) : list nbr * nbr * list nbr :=
  let s := sort_nbr l in (firstn k s, nth k s (mkNbr 0 f32_zero), skipn (S k) s).

Lemma ins_nbr_perm x l : Permutation (x :: l) (ins_nbr x l).
Proof.
  induction l as [|y l IH]; [auto|]. cbn [ins_nbr]. destruct (f32_le _ _); [auto|].
  rewrite perm_swap. now constructor.
Qed.
Lemma sort_nbr_contract : sort_contract sort_nbr.
Proof.
  intros l. split.
  - induction l as [|x l IH]; [auto|]. cbn [sort_nbr]. rewrite <- ins_nbr_perm. now constructor.
  - intros N. induction N as [|x l Hx N IH]; [constructor|]. cbn [sort_nbr].
    assert (Ns : no_nan (sort_nbr l)).
    { clear IH. induction N; [constructor|]. cbn [sort_nbr].
      eapply no_nan_perm; [apply ins_nbr_perm|]. constructor; auto. }
    revert Ns IH. generalize (sort_nbr l). intros s Ns. induction 1 as [|y s H IH F].
    + repeat constructor.
    + inv Ns. cbn [ins_nbr]. destruct (f32_le (n_dist x) (n_dist y)) eqn:E.
      * constructor; [now constructor|]. constructor; auto.
        eapply Forall_impl; [|exact F]. intros z Hz. eapply leq_trans; [exact E|exact Hz].
      * constructor; auto. eapply Permutation_Forall; [apply ins_nbr_perm|].
        constructor; [|exact F]. unfold leq_dist. apply f32_le_spec.
        apply f32_le_false in E; auto. intuition lia.
Qed.
Lemma select_nbr_contract : select_contract select_nbr.
Proof.
  intros l k Hk p x s E. unfold select_nbr in E. cbv zeta in E.
  symmetry in E. apply pair_equal_spec in E as [E ->]. apply pair_equal_spec in E as [-> ->].
  destruct (sort_nbr_contract l) as [P S].
  assert (L : length (sort_nbr l) = length l) by (symmetry; now apply Permutation_length).
  assert (D : sort_nbr l = firstn k (sort_nbr l) ++
                nth k (sort_nbr l) (mkNbr 0 f32_zero) :: skipn (1 + k) (sort_nbr l)).
  { rewrite <- (firstn_skipn k (sort_nbr l)) at 1. f_equal.
    assert (Hk' : k < length (sort_nbr l)) by lia. revert Hk'.
    generalize (sort_nbr l). clear. intros l. revert k.
    induction l as [|y l IH]; intros k H; [cbn in H; lia|]. destruct k; [reflexivity|].
    cbn [length] in H. cbn [skipn nth]. rewrite IH by lia. reflexivity. }
  split; [eapply Permutation_trans; [exact P|]; rewrite D at 1; reflexivity|].
  split; [rewrite firstn_length; lia|].
  intros N. specialize (S N). rewrite D in S. clear D P L.
  change (skipn (Datatypes.S k) (sort_nbr l)) with (skipn (1 + k) (sort_nbr l)).
  revert S. generalize (firstn k (sort_nbr l)), (nth k (sort_nbr l) (mkNbr 0 f32_zero)),
    (skipn (1 + k) (sort_nbr l)). intros p x s. induction p as [|y p IH]; cbn; intros S; inv S.
  - split; [apply Forall_nil|assumption].
  - destruct (IH H1) as [A B]. split; [|assumption]. constructor; [|assumption].
    rewrite Forall_app in H2. destruct H2 as [_ H2]. now inv H2.
Qed.
