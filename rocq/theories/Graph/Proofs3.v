From Verif.Lib Require Import Base Lists F32.
From Verif.Adjacency Require Import Spec Proofs.
From Verif.Graph Require Import Model Spec Proofs Proofs2.

(** ** All schedules *)

Section worlds.
Context {V : Type}.
Variable P : gpar V.
Hypothesis C : cfg_ok P.

Lemma happ_unique b max : forall (W : nat -> Prop) v new g g', W v -> gg b max g -> gg b max g' -> agree true W g g' ->
  NoDup (g v ++ new) -> length (g v ++ new) <= max -> (b = true -> ~ In v new) ->
  gl b max v (pv_app (prov_unique max) (g' v) new).
Proof.
  intros W v new g g' _ _ G' _ _ _ S. destruct (G' v) as (A & B & D). cbn.
  destruct (app_unique_spec max new (g' v) A B) as (H1 & H2 & H3).
  split; [auto|]. split; [auto|]. intros E I. apply H3 in I as [I|I]; [now apply (D E)|now apply (S E)].
Qed.
Lemma happ_exact b max pv : appends_exactly pv -> max <= pv_cap pv ->
  forall (W : nat -> Prop) v new g g', W v -> gg b max g -> gg b max g' -> agree false W g g' ->
  NoDup (g v ++ new) -> length (g v ++ new) <= max -> (b = true -> ~ In v new) ->
  gl b max v (pv_app pv (g' v) new).
Proof.
  intros X CP W v new g g' WV G _ A N L S. rewrite (A eq_refl v WV), X; auto; [|lia].
  split; [auto|]. split; [auto|]. intros E I. apply in_app_iff in I as [I|I]; [|now apply (S E)].
  destruct (G v) as (_ & _ & D). now apply (D E).
Qed.

Lemma nth_error_app_single {A} (l : list A) x i y : nth_error (l ++ [x]) i = Some y ->
  nth_error l i = Some y \/ (i = length l /\ y = x).
Proof. intros H. apply nth_error_snoc in H as [[_ H]|H]; auto. Qed.

Lemma overlap_run b max : p_max_degree P = max -> forall sched w w',
  starts (op_ok P) sched -> (b = true -> starts op_sees sched) ->
  gg b max (w_graph w) -> (forall i p, nth_error (w_run w) i = Some p -> ok true b max (prov_unique max) anyw p (w_graph w)) ->
  wrun P (prov_unique max) sched w = Some w' -> gg b max (w_graph w').
Proof.
  intros HM. induction sched as [|a sched IH]; intros w w' SO SS G R E.
  - cbn in E. inv E. auto.
  - cbn [wrun] in E. destruct (wstep P (prov_unique max) a w) as [w1|] eqn:ES; [|discriminate].
    assert (SO' : starts (op_ok P) sched) by (intros o I; apply SO; now right).
    assert (SS' : b = true -> starts op_sees sched) by (intros B o I; apply (SS B); now right).
    destruct a as [o|i path bad]; cbn [wstep] in ES.
    + injection ES as <-. apply (IH _ _ SO' SS') in E; auto. cbn [w_run w_graph]. intros i p EN.
      apply nth_error_app_single in EN as [EN|[_ ->]]; eauto.
      apply op_prog_ok; auto.
      * apply happ_unique.
      * apply SO. now left.
      * intros B. apply (SS B). now left.
    + destruct (nth_error (w_run w) i) as [p|] eqn:EN; [|discriminate].
      destruct (pstep (prov_unique max) path bad p (w_graph w)) as [[p1 g1]|] eqn:EP; [|discriminate].
      injection ES as <-.
      destruct (pstep_ok true b max _ path bad anyw p _ p1 g1 (R i p EN) G EP) as (O & G' & _).
      apply (IH _ _ SO' SS') in E; auto. cbn [w_run w_graph]. intros j q EJ.
      rewrite nth_error_set_nth in EJ. destruct (j =? i).
      * destruct (j <? length (w_run w)); [|discriminate]. injection EJ as <-. auto.
      * apply (ok_stable true b max _ q anyw (w_graph w)); eauto. intros [=].
Qed.

Definition active (p : prog) : Prop := result p = None.

Lemma results_active ps : (exists rs, results ps = Some rs) -> forall p, In p ps -> ~ active p.
Proof.
  induction ps as [|q ps IH]; intros [rs E] p I; [contradiction|]. cbn [results] in E.
  destruct (result q) eqn:R; [|discriminate]. destruct (results ps) eqn:RS; [|discriminate].
  destruct I as [->|I]; [unfold active; congruence|]. eapply IH; eauto.
Qed.
Lemma pstep_active pv path bad p g r : pstep pv path bad p g = Some r -> active p.
Proof. destruct p, path; cbn; intros H; try discriminate; reflexivity. Qed.
Lemma ok_inactive ov b max pv W p g g' : ~ active p -> ok ov b max pv W p g -> ok ov b max pv W p g'.
Proof. unfold active. destruct p; cbn [result]; intros H; try (exfalso; apply H; reflexivity); auto. Qed.

Lemma alone_run b max pv : p_max_degree P = max -> appends_exactly pv -> max <= pv_cap pv -> forall sched w w',
  starts (op_ok P) sched -> (b = true -> starts op_sees sched) -> one_at_a_time P pv sched w ->
  gg b max (w_graph w) -> (forall i p, nth_error (w_run w) i = Some p -> ok false b max pv anyw p (w_graph w)) ->
  (forall i j p q, nth_error (w_run w) i = Some p -> nth_error (w_run w) j = Some q -> active p -> active q -> i = j) ->
  wrun P pv sched w = Some w' -> gg b max (w_graph w').
Proof.
  intros HM HX HC. induction sched as [|a sched IH]; intros w w' SO SS OA G R U E.
  - cbn in E. inv E. auto.
  - cbn [wrun] in E. cbn [one_at_a_time] in OA. destruct OA as [OS OA].
    destruct (wstep P pv a w) as [w1|] eqn:ES; [|discriminate].
    assert (SO' : starts (op_ok P) sched) by (intros o I; apply SO; now right).
    assert (SS' : b = true -> starts op_sees sched) by (intros B o I; apply (SS B); now right).
    destruct a as [o|i path bad]; cbn [wstep] in ES.
    + injection ES as <-.
      assert (NA : forall p, In p (w_run w) -> ~ active p).
      { apply results_active. unfold idle in OS. destruct (results (w_run w)); [eauto|discriminate]. }
      apply (IH _ _ SO' SS' OA) in E; auto; cbn [w_run w_graph].
      * intros i p EN. apply nth_error_app_single in EN as [EN|[_ ->]]; eauto.
        apply op_prog_ok; auto.
        -- now apply happ_exact.
        -- apply SO. now left.
        -- intros B. apply (SS B). now left.
      * intros i j p q E1 E2 A1 A2.
        apply nth_error_app_single in E1 as [E1|[-> _]]; [apply nth_error_In in E1; now apply NA in E1|].
        apply nth_error_app_single in E2 as [E2|[-> _]]; [apply nth_error_In in E2; now apply NA in E2|].
        reflexivity.
    + destruct (nth_error (w_run w) i) as [p|] eqn:EN; [|discriminate].
      destruct (pstep pv path bad p (w_graph w)) as [[p1 g1]|] eqn:EP; [|discriminate].
      injection ES as <-.
      destruct (pstep_ok false b max _ path bad anyw p _ p1 g1 (R i p EN) G EP) as (O & G' & _).
      pose proof (pstep_active _ _ _ _ _ _ EP) as AP.
      apply (IH _ _ SO' SS' OA) in E; auto; cbn [w_run w_graph].
      * intros j q EJ. rewrite nth_error_set_nth in EJ. destruct (Nat.eqb_spec j i) as [->|NE].
        -- destruct (i <? length (w_run w)); [|discriminate]. injection EJ as <-. auto.
        -- apply (ok_inactive _ _ _ _ _ _ (w_graph w)); eauto.
      * intros j1 j2 q1 q2 E1 E2 A1 A2. rewrite nth_error_set_nth in E1, E2.
        destruct (Nat.eqb_spec j1 i) as [->|N1], (Nat.eqb_spec j2 i) as [->|N2]; auto.
        -- exfalso. apply N2. eapply U; eauto.
        -- exfalso. apply N1. eapply U; eauto.
        -- eapply U; eauto.
Qed.

Lemma overlap_lemma : forall g sched w,
  bounded_distinct (p_max_degree P) g -> starts (op_ok P) sched ->
  wrun P (prov_unique (p_max_degree P)) sched (mkW g []) = Some w ->
  bounded_distinct (p_max_degree P) (w_graph w) /\
  (no_self_loops g -> starts op_sees sched -> no_self_loops (w_graph w)).
Proof.
  intros g sched w BD SO E. split.
  - intros v. destruct (overlap_run false (p_max_degree P) eq_refl sched (mkW g []) w SO ltac:(discriminate)
      ltac:(intros u; destruct (BD u); split; [auto|split; [auto|discriminate]])
      ltac:(intros [|i] p H; discriminate) E v) as (A & B & _). auto.
  - intros NS SS v. destruct (overlap_run true (p_max_degree P) eq_refl sched (mkW g []) w SO ltac:(auto)
      ltac:(intros u; destruct (BD u); split; [auto|split; [auto|intros _; apply NS]])
      ltac:(intros [|i] p H; discriminate) E v) as (_ & _ & D). auto.
Qed.
Lemma sequential_lemma : forall pv g sched w,
  appends_exactly pv -> p_max_degree P <= pv_cap pv ->
  bounded_distinct (p_max_degree P) g -> starts (op_ok P) sched ->
  one_at_a_time P pv sched (mkW g []) ->
  wrun P pv sched (mkW g []) = Some w ->
  bounded_distinct (p_max_degree P) (w_graph w) /\
  (no_self_loops g -> starts op_sees sched -> no_self_loops (w_graph w)).
Proof.
  intros pv g sched w HX HC BD SO OA E. split.
  - intros v. destruct (alone_run false (p_max_degree P) pv eq_refl HX HC sched (mkW g []) w SO ltac:(discriminate) OA
      ltac:(intros u; destruct (BD u); split; [auto|split; [auto|discriminate]])
      ltac:(intros [|i] p H; discriminate) ltac:(intros [|i] j p q H; discriminate) E v) as (A & B & _). auto.
  - intros NS SS v. destruct (alone_run true (p_max_degree P) pv eq_refl HX HC sched (mkW g []) w SO ltac:(auto) OA
      ltac:(intros u; destruct (BD u); split; [auto|split; [auto|intros _; apply NS]])
      ltac:(intros [|i] p H; discriminate) ltac:(intros [|i] j p q H; discriminate) E v) as (_ & _ & D). auto.
Qed.
End worlds.

(** ** One operation alone *)

Section alone.
Variable pv : prov.

(** Every execution of [p] alone that returns without error ends in [Q]. *)
Fixpoint alone (Q : graph -> Prop) (p : prog) (g : graph) : Prop :=
  match p with
  | Ret None | Crash => True
  | Ret (Some _) => Q g
  | Get v k => alone Q (k (g v)) g
  | SetN v l k => length l <= pv_cap pv -> alone Q k (upd g v l)
  | App v l k => alone Q k (upd g v (pv_app pv (g v) l))
  | Par _ _ => False
  end.

Lemma alone_step Q path bad p g p' g' : alone Q p g -> pstep pv path bad p g = Some (p', g') -> alone Q p' g'.
Proof.
  destruct p as [[r|]| |v k|v l k|v l k|ps k], path; cbn [alone pstep]; intros H E; try discriminate; try contradiction.
  - destruct bad; inv E; cbn; auto.
  - destruct bad; cbn [orb] in E; [inv E; cbn; auto|].
    destruct (Nat.ltb_spec (pv_cap pv) (length l)); inv E; cbn; auto.
  - destruct bad; inv E; cbn; auto.
Qed.

Lemma alone_finishes {V} (P : gpar V) Q o g g' : alone Q (op_prog P o) g -> finishes P pv o g g' -> Q g'.
Proof.
  intros A (sched & r & GO & E). cbn [wrun wstep w_run w_graph app] in E.
  assert (H : forall sched g p, (forall a : act, In a sched -> exists i path bad, a = Go i path bad) ->
    alone Q p g -> wrun P pv sched (mkW g [p]) = Some (mkW g' [Ret (Some r)]) -> Q g').
  { clear. induction sched as [|a sched IH]; intros g p GO A E.
    - cbn in E. inv E. exact A.
    - destruct (GO a (or_introl eq_refl)) as (i & path & bad & ->). cbn [wrun wstep w_run w_graph] in E.
      destruct i as [|[|i]]; cbn [nth_error] in E; try discriminate.
      destruct (pstep pv path bad p g) as [[p1 g1]|] eqn:EP; [|discriminate]. cbn [set_nth] in E.
      eapply IH; [|eapply alone_step; eauto|exact E]. intros a I. apply GO. now right. }
  eapply H; eauto.
Qed.
End alone.

Section delete.
Variable pv : prov.
Hypothesis HX : appends_exactly pv.
Context {V : Type}.
Variable P : gpar V.
Hypothesis C : cfg_ok P.
Hypothesis HC : p_max_degree P <= pv_cap pv.

Definition bd (g : graph) : Prop := bounded_distinct (p_max_degree P) g.
Lemma bd_upd g v l : bd g -> NoDup l -> length l <= p_max_degree P -> bd (upd g v l).
Proof. intros B N L w. destruct (upd_cases g v l w) as [[-> ->]|[_ ->]]; auto. Qed.

Lemma get_adj_alone Q v k g : bd g -> alone pv Q (k (g v)) g -> alone pv Q (get_adj P v k) g.
Proof.
  intros B H. unfold get_adj. cbn [alone]. unfold adj_overwrite_trusted. now rewrite debug_check_ok by apply B.
Qed.

Lemma aep_alone Q fv targets source scratch del k g :
  bd g -> (forall x, In x del -> ~ In x targets /\ ~ In x scratch) -> NoDup scratch -> length scratch <= degree P ->
  (forall s g', NoDup s -> length s <= degree P -> (forall x, In x del -> ~ In x s /\ ~ In x (g' source)) ->
     bd g' -> (forall v, v <> source -> g' v = g v) -> alone pv Q (k s) g') ->
  alone pv Q (add_edge_and_prune P fv targets source scratch (Some del) k) g.
Proof.
  intros B NT NS LS K. unfold add_edge_and_prune. apply get_adj_alone; auto.
  destruct C as (_ & DG & _).
  destruct (B source) as [N0 L0]. set (l0 := g source) in *.
  set (l1 := adj_retain _ l0). set (did := existsb (memb del) l0).
  assert (E1 : l1 = filter (fun i => negb (memb del i)) l0) by apply (retain_filter (fun i => negb (memb del i))).
  assert (N1 : NoDup l1) by (rewrite E1; now apply filter_NoDup).
  assert (X1 : forall x, In x del -> ~ In x l1).
  { intros x I J. rewrite E1 in J. apply filter_In in J as [_ J]. apply memb_spec in I. rewrite I in J. discriminate. }
  assert (D1 : did = false -> l1 = l0).
  { intros D. rewrite E1. apply filter_all. intros x I. destruct (memb del x) eqn:M; auto.
    assert (did = true) by (apply existsb_exists; eauto). congruence. }
  destruct (extend_full_lemma (p_kind P) targets l1 N1) as (new & -> & AL & N2 & I2 & _).
  assert (X2 : forall x, In x del -> ~ In x (l1 ++ new)).
  { intros x I J. apply I2 in J as [J|J]; [now apply (X1 x)|now apply (proj1 (NT x I))]. }
  assert (FR : forall l v, v <> source -> upd g source l v = g v) by (intros; now apply upd_neq).
  destruct ((length new =? 0) && negb did) eqn:Z.
  { apply andb_true_iff in Z as [_ Z]. apply negb_true_iff in Z. apply K; auto.
    intros x I. split; [now apply NT|]. fold l0. rewrite <- (D1 Z). auto. }
  assert (ST : forall l s, NoDup l -> length l <= p_max_degree P -> (forall x, In x del -> ~ In x l) ->
    NoDup s -> length s <= degree P -> (forall x, In x del -> ~ In x s) -> alone pv Q (k s) (upd g source l)).
  { intros l s A1 A2 A3 A4 A5 A6. apply K; auto.
    - intros x I. rewrite upd_eq. auto.
    - now apply bd_upd. }
  destruct (Nat.leb_spec (length (l1 ++ new)) (p_max_degree P)) as [L|L].
  - destruct did eqn:ED.
    + cbn [alone]. intros _. apply ST; auto. intros x I. now apply NT.
    + rewrite AL. cbn [alone]. fold l0. rewrite (D1 eq_refl) in *. rewrite HX; auto; [|lia].
      apply ST; auto. intros x I. now apply NT.
  - destruct (robust_prune_list P fv source (l1 ++ new) scratch false) as [l| | |] eqn:R; cbn [alone]; auto; try exact I.
    + assert (NE : l1 ++ new <> []). { intros E. rewrite E in L. cbn in L. lia. }
      destruct (robust_prune_list_ok P C _ _ _ _ _ _ N2 NE R) as (A1 & A2 & A3 & A4).
      assert (XL : forall x, In x del -> ~ In x l) by (intros x I J; apply A4 in J; now apply (X2 x)).
      intros _. apply ST; auto. lia.
    + intros _. apply ST; auto; try lia; intros x I; now apply NT.
Qed.

Lemma add_edges_alone Q fills del k : forall work i scratch g,
  bd g -> (forall s ts x, In (s, ts) work -> In x del -> ~ In x ts) ->
  NoDup scratch -> length scratch <= degree P -> (forall x, In x del -> ~ In x scratch) ->
  (forall g', bd g' -> (forall v x, In v (map fst work) -> In x del -> ~ In x (g' v)) ->
     (forall v, ~ In v (map fst work) -> g' v = g v) -> alone pv Q k g') ->
  alone pv Q (add_edges P fills i work scratch (Some del) k) g.
Proof.
  induction work as [|[s ts] work IH]; intros i scratch g B NT NS LS XS K; cbn [add_edges].
  - apply K; auto.
  - apply aep_alone; auto.
    { intros x I. split; auto. apply (NT s ts); auto. now left. }
    intros s' g' A1 A2 A3 B' F. apply IH; auto.
    + intros s1 t1 x I. apply (NT s1 t1). now right.
    + intros x I. now apply A3.
    + intros g2 B2 H1 H2. apply K; auto.
      * cbn. intros v x [<-|I] J; [|eauto].
        destruct (in_dec Nat.eq_dec s (map fst work)) as [I|N]; [eauto|]. rewrite H2 by auto. now apply A3.
      * cbn. intros v N. rewrite H2 by tauto. apply F. intros ->. tauto.
Qed.

Lemma contains_in l p : exists c, adj_contains (p_kind P) l p = Some c /\ (c = true <-> In p l).
Proof. unfold adj_contains. rewrite contains_mem. exists (mem l p). split; auto. apply mem_spec. Qed.

Lemma refs_to_alone Q p k g : bd g -> forall cands acc,
  (forall ins, (forall q, In q ins <-> In q acc \/ (In q cands /\ In p (g q))) -> alone pv Q (k ins) g) ->
  alone pv Q (refs_to P p cands acc k) g.
Proof.
  intros B. induction cands as [|c cands IH]; intros acc K; cbn [refs_to].
  - apply K. intros q. cbn. tauto.
  - apply get_adj_alone; auto. destruct (contains_in (g c) p) as (x & -> & X).
    destruct x; apply IH; intros ins HI; apply K; intros q; rewrite HI; cbn [In].
    + rewrite in_app_iff. cbn [In]. assert (In p (g c)) by now apply X.
      split; [intros [[?|[<-|[]]]|?]; tauto|intros [?|[[<-|?] ?]]; tauto].
    + assert (~ In p (g c)) by (intros I; apply X in I; discriminate).
      split; [tauto|]. intros [?|[[<-|?] ?]]; tauto.
Qed.

Lemma hs_add_in s x y : In y (hs_add s x) <-> In y s \/ y = x.
Proof.
  unfold hs_add. destruct (memb s x) eqn:E.
  - apply memb_spec in E. split; [auto|]. intros [?| ->]; auto.
  - rewrite in_app_iff. cbn. intuition.
Qed.
Lemma hs_add_all_in xs : forall s y, In y (hs_add_all s xs) <-> In y s \/ In y xs.
Proof.
  induction xs as [|x xs IH]; intros s y; cbn [hs_add_all fold_left In]; [tauto|].
  change (fold_left hs_add xs (hs_add s x)) with (hs_add_all (hs_add s x) xs). rewrite IH, hs_add_in. intuition.
Qed.

Lemma two_hop_alone Q k g : bd g -> forall one acc,
  (forall two, (forall q, In q two <-> In q acc \/ exists n, In n one /\ (q = n \/ In q (g n))) -> alone pv Q (k two) g) ->
  alone pv Q (two_hop P one acc k) g.
Proof.
  intros B. induction one as [|c one IH]; intros acc K; cbn [two_hop].
  - apply K. intros q. split; [tauto|]. intros [?|(n & [] & _)]; auto.
  - apply get_adj_alone; auto. apply IH. intros two H. apply K. intros q. rewrite H, hs_add_all_in, hs_add_in. split.
    + intros [[[?|?]|?]|(n & ? & ?)]; auto; right; [exists c|exists c|exists n]; cbn; auto.
    + intros [?|(n & [->|?] & ?)]; [tauto|tauto|]. right. eauto.
Qed.

(** Edge maps: keys and contents. *)
Lemma am_insert_keys m k l q : In q (map fst (am_insert m k l)) <-> q = k \/ In q (map fst m).
Proof.
  induction m as [|[k' l'] m IH]; cbn; [intuition|]. destruct (Nat.eqb_spec k' k) as [->|NE]; cbn; intuition.
Qed.
Lemma am_insert_in m k l s ts : In (s, ts) (am_insert m k l) -> In (s, ts) m \/ ts = l.
Proof.
  induction m as [|[k' l'] m IH]; cbn [am_insert].
  - intros [[= <- <-]|[]]. auto.
  - destruct (k' =? k); intros [[= <- <-]|I]; cbn; auto. apply IH in I as [I|I]; auto.
Qed.
Lemma am_push_keys m k x q : In q (map fst m) -> In q (map fst (am_push m k x)).
Proof.
  induction m as [|[k' l'] m IH]; cbn; [contradiction|]. destruct (Nat.eqb_spec k' k) as [->|NE]; cbn; intuition.
Qed.
Lemma am_push_in m k x s ts y : In (s, ts) (am_push m k x) -> In y ts -> y = x \/ exists ts', In (s, ts') m /\ In y ts'.
Proof.
  induction m as [|[k' l'] m IH]; cbn [am_push].
  - intros [[= <- <-]|[]] [->|[]]. auto.
  - destruct (k' =? k).
    + intros [[= <- <-]|I] J.
      * apply in_app_iff in J as [J|[->|[]]]; auto. right. exists l'. cbn. auto.
      * right. exists ts. cbn. auto.
    + intros [[= <- <-]|I] J.
      * right. exists l'. cbn. auto.
      * destruct (IH I J) as [->|(t & ? & ?)]; auto. right. exists t. cbn. auto.
Qed.

Lemma edges_in_spec view num cands ins :
  (forall q, In q ins -> view q <> None -> In q (map fst (edges_in P view num cands ins))) /\
  (forall s ts x, In (s, ts) (edges_in P view num cands ins) -> In x ts -> In x cands).
Proof.
  unfold edges_in.
  assert (H : forall ins m,
    (forall q, In q ins /\ view q <> None \/ In q (map fst m) ->
       In q (map fst (fold_left (fun m n => match view n with Some v => am_insert m n (best P view num cands n v) | None => m end) ins m))) /\
    ((forall s ts x, In (s, ts) m -> In x ts -> In x cands) ->
     forall s ts x, In (s, ts) (fold_left (fun m n => match view n with Some v => am_insert m n (best P view num cands n v) | None => m end) ins m) ->
       In x ts -> In x cands)).
  { clear ins. induction ins as [|n ins IH]; intros m; cbn [fold_left].
    - split; [intros q [[[] _]|I]; auto|auto].
    - destruct (IH (match view n with Some v => am_insert m n (best P view num cands n v) | None => m end)) as [IH1 IH2]. split.
      + intros q H. apply IH1. destruct H as [[[<-|I] NV]|I]; [|auto|].
        * right. destruct (view n); [|congruence]. apply am_insert_keys. auto.
        * right. destruct (view n); auto. apply am_insert_keys. auto.
      + intros H. apply IH2. intros s ts x I J. destruct (view n) as [v|]; eauto.
        apply am_insert_in in I as [I| ->]; eauto. now apply (best_in P C) in J. }
  destruct (H ins []) as [H1 H2]. split; [auto|]. apply H2. intros s ts x [].
Qed.
Lemma edges_out_spec view num cands out : forall m,
  (forall q, In q (map fst m) -> In q (map fst (edges_out P view num cands m out))) /\
  (forall s ts x, In (s, ts) (edges_out P view num cands m out) -> In x ts ->
     In x out \/ exists ts', In (s, ts') m /\ In x ts').
Proof.
  unfold edges_out. induction out as [|n out IH]; intros m; cbn [fold_left].
  - split; [auto|]. intros s ts x I J. eauto.
  - set (m' := match view n with Some v => fold_left (fun m o => am_push m o n) (best P view num cands n v) m | None => m end).
    assert (H : (forall q, In q (map fst m) -> In q (map fst m')) /\
      (forall s ts x, In (s, ts) m' -> In x ts -> x = n \/ exists ts', In (s, ts') m /\ In x ts')).
    { unfold m'. destruct (view n) as [v|]; [|eauto]. clear IH m'.
      generalize (best P view num cands n v) as os. intros os. revert m.
      induction os as [|o os IHo]; intros m; cbn [fold_left]; [eauto|].
      destruct (IHo (am_push m o n)) as [A1 A2]. split.
      - intros q I. apply A1. now apply am_push_keys.
      - intros s ts x I J. destruct (A2 s ts x I J) as [->|(t & I1 & J1)]; auto. eapply am_push_in; eauto. }
    destruct H as [H1 H2]. destruct (IH m') as [A1 A2]. split; [auto|].
    intros s ts x I J. cbn [In]. destruct (A2 s ts x I J) as [?|(t & I1 & J1)]; auto.
    destruct (H2 s t x I1 J1) as [->|?]; auto.
Qed.

Lemma delete_inner_alone Q p num m e k g : bd g -> ~ In p (g p) ->
  (forall ids, d_post e = Some ids -> ~ In p ids) -> (forall l, Permutation l (d_order e l)) ->
  (forall es, (forall q, processed e m p g q -> In q (map fst es)) -> (forall s ts, In (s, ts) es -> ~ In p ts) ->
     alone pv Q (k es) g) ->
  alone pv Q (delete_inner P p num m e k) g.
Proof.
  intros B NP DP PO K. unfold delete_inner. destruct (d_ok e); [|exact I].
  assert (R : forall cands ins, ~ In p cands ->
    (forall q, examined e m p g q -> In p (g q) -> In q ins) ->
    alone pv Q (on_neighbors P (d_status3 e) p (fun out _ =>
        match d_view e with
        | None => fail
        | Some view => k (edges_out P view num cands (edges_in P view num cands ins) out)
        end)) g).
  { intros cands ins NC HI. unfold on_neighbors. apply get_adj_alone; auto.
    destruct (d_view e) as [view|] eqn:EV; [|exact I].
    destruct (edges_in_spec view num cands ins) as [I1 I2].
    destruct (edges_out_spec view num cands (filter (fun i => negb (d_status3 e i)) (g p)) (edges_in P view num cands ins)) as [O1 O2].
    apply K.
    - intros q (EX & IP & vw & v & E1 & E2). apply O1, I1; [auto|]. assert (vw = view) by congruence. subst vw. congruence.
    - intros s ts IE IT. destruct (O2 s ts p IE IT) as [J|(t & J1 & J2)].
      + apply filter_In in J as [J _]. auto.
      + apply NC. eapply I2; eauto. }
  unfold find_candidates. destruct m.
  - destruct (d_post e) as [ids|] eqn:EP; [|exact I]. apply refs_to_alone; auto. intros ins HI. apply R.
    + intros J. apply in_firstn in J. now apply (DP ids).
    + intros q (ids' & E & J) IP. apply HI. right. split; auto. assert (ids' = ids) by congruence. now subst.
  - unfold on_neighbors. apply get_adj_alone; auto. apply two_hop_alone; auto. intros two HT.
    apply refs_to_alone; auto. intros ins HI. apply R.
    + intros J. apply filter_In in J as [J _]. auto.
    + intros q (S2 & n & In1 & S1 & QN) IP. apply HI. right. split; auto. apply filter_In. split; [|now rewrite S2].
      eapply Permutation_in; [apply PO|]. apply HT. right. exists n. split; auto.
      apply filter_In. split; auto. now rewrite S1.
  - unfold on_neighbors. apply get_adj_alone; auto. apply refs_to_alone; auto. intros ins HI. apply R.
    + intros J. apply filter_In in J as [J _]. auto.
    + intros q [J S1] IP. apply HI. right. split; auto. apply filter_In. split; auto. now rewrite S1.
Qed.

Lemma delete_lemma : forall p num m e g g',
  bounded_distinct (p_max_degree P) g -> ~ In p (g p) ->
  (forall ids, d_post e = Some ids -> ~ In p ids) ->
  (forall l, Permutation l (d_order e l)) -> (forall es, Permutation es (d_iter e es)) ->
  finishes P pv (ODelete p num m e) g g' ->
  g' p = [] /\ (forall q, processed e m p g q -> ~ In p (g' q)) /\
  (forall q, ~ In p (g q) -> ~ In p (g' q)).
Proof.
  intros p num m e g g' B NP DP PO PI F.
  refine (alone_finishes pv P (fun g' => g' p = [] /\ (forall q, processed e m p g q -> ~ In p (g' q)) /\
    (forall q, ~ In p (g q) -> ~ In p (g' q))) _ g g' _ F).
  cbn [op_prog]. unfold inplace_delete. apply delete_inner_alone; auto. intros es K1 K2.
  apply add_edges_alone; auto.
  - intros s ts x I [<-|[]]. eapply Permutation_in in I; [|symmetry; apply PI]. eauto.
  - constructor.
  - cbn. lia.
  - intros g2 B2 H1 H2. cbn [alone done]. intros _.
    assert (Q : forall q, In q (map fst (d_iter e es)) -> ~ In p (upd g2 p [] q)).
    { intros q I. destruct (upd_cases g2 p [] q) as [[-> ->]|[_ ->]]; auto. apply H1; cbn; auto. }
    split; [apply upd_eq|]. split.
    + intros q PQ. apply Q. eapply Permutation_in; [apply Permutation_map, PI|auto].
    + intros q NQ. destruct (in_dec Nat.eq_dec q (map fst (d_iter e es))) as [I|N]; auto.
      destruct (upd_cases g2 p [] q) as [[-> ->]|[_ ->]]; auto. now rewrite H2.
Qed.

(** *** drop_deleted_neighbors *)
Definition nonempty (l : list nat) : bool := match l with [] => false | _ => true end.
Lemma orphans_alone Q k g : bd g -> forall del acc,
  alone pv Q (k (acc ++ filter (fun d => nonempty (g d)) del)) g -> alone pv Q (orphans P del acc k) g.
Proof.
  intros B. induction del as [|d del IH]; intros acc K; cbn [orphans].
  - cbn in K. now rewrite app_nil_r in K.
  - apply get_adj_alone; auto. cbn [filter] in K. destruct (g d); cbn [nonempty] in K; apply IH; auto.
    now rewrite <- app_assoc.
Qed.
Lemma filter_filter {A} (f h : A -> bool) l : filter f (filter h l) = filter (fun x => h x && f x) l.
Proof. induction l as [|x l IH]; cbn; auto. destruct (h x); cbn; [destruct (f x); now rewrite IH|auto]. Qed.

Lemma drop_deleted_lemma : forall v oo status g g', bounded_distinct (p_max_degree P) g ->
  finishes P pv (ODropDeleted v oo false status) g g' ->
  g' v = filter (fun i => negb (status i)) (g v) ++
         (if oo then filter (fun i => status i && nonempty (g i)) (g v) else []) /\
  forall u, u <> v -> g' u = g u.
Proof.
  intros v oo status g g' B F.
  refine (alone_finishes pv P (fun g' => g' v = filter (fun i => negb (status i)) (g v) ++
         (if oo then filter (fun i => status i && nonempty (g i)) (g v) else []) /\
     forall u, u <> v -> g' u = g u) _ g g' _ F). clear F.
  cbn [op_prog]. unfold drop_deleted, on_neighbors. apply get_adj_alone; auto.
  set (pool := filter (fun i => negb (status i)) (g v)). set (del := filter status (g v)).
  set (target := pool ++ (if oo then filter (fun i => status i && nonempty (g i)) (g v) else [])).
  set (Q := fun g' : graph => g' v = target /\ forall u, u <> v -> g' u = g u).
  assert (S : alone pv Q (SetN v target done) g).
  { cbn [alone done]. intros _. split; [apply upd_eq|]. intros u N. now apply upd_neq. }
  assert (Z : del = [] -> target = g v).
  { intros Z. assert (NS : forall x, In x (g v) -> status x = false).
    { intros x I. destruct (status x) eqn:E; auto. assert (In x del) by now apply filter_In. rewrite Z in H. contradiction. }
    unfold target. replace pool with (g v).
    - replace (filter (fun i => status i && nonempty (g i)) (g v)) with (@nil nat); [destruct oo; apply app_nil_r|].
      symmetry. rewrite <- filter_filter. change (filter status (g v)) with del. now rewrite Z.
    - symmetry. apply filter_all. intros x I. now rewrite NS. }
  assert (F : alone pv Q (match del with
        | [] => if length target <=? degree P then done else SetN v target done
        | _ => SetN v target done end) g).
  { destruct del; auto. destruct (length target <=? degree P); auto.
    cbn [alone done]. split; auto. symmetry. now apply Z. }
  destruct oo.
  - assert (EF : pool ++ filter (fun d => nonempty (g d)) del = target) by (unfold del; rewrite filter_filter; reflexivity).
    apply orphans_alone; auto. rewrite EF. exact F.
  - unfold target in F at 1 2 3. rewrite app_nil_r in F. exact F.
Qed.

(** *** consolidate_vector *)
Lemma gather_alone Q e k g : bd g -> forall del i pool, NoDup pool ->
  (forall pool', NoDup pool' -> (forall x, In x pool' <-> In x pool \/
      exists j d, nth_error del j = Some d /\ In x (g d) /\ cv_status e (i + j) x = false) ->
    alone pv Q (k pool') g) ->
  alone pv Q (gather P e i del pool k) g.
Proof.
  intros B. induction del as [|d del IH]; intros i pool N K; cbn [gather].
  - apply K; auto. intros x. split; [auto|]. intros [?|([|j] & d & E & _)]; auto; discriminate.
  - unfold on_neighbors. apply get_adj_alone; auto. apply IH; [now apply hs_add_all_NoDup|]. intros pool' N' H.
    apply K; auto. intros x. rewrite H, hs_add_all_in, filter_In, negb_true_iff. split.
    + intros [[?|[? ?]]|(j & d' & ? & ? & ?)]; auto; right.
      * exists 0, d. rewrite Nat.add_0_r. auto.
      * exists (S j), d'. rewrite Nat.add_succ_r. auto.
    + intros [?|([|j] & d' & E & ? & S)]; auto.
      * cbn in E. inv E. rewrite Nat.add_0_r in S. auto.
      * rewrite Nat.add_succ_r in S. right. exists j, d'. auto.
Qed.

Lemma consolidate_lemma : forall v e g g', bounded_distinct (p_max_degree P) g ->
  (forall l, Permutation l (cv_order e l)) -> cv_gone e = false ->
  finishes P pv (OConsolidate v e) g g' ->
  (forall u, u <> v -> g' u = g u) /\
  ((filter (cv_status e 0) (g v) = [] /\ length (g v) <= degree P /\ g' v = g v) \/
   (NoDup (g' v) /\ length (g' v) < degree P /\ forall x, In x (g' v) <-> consolidated e v g x) \/
   (NoDup (g' v) /\ length (g' v) <= degree P /\ (forall x, In x (g' v) -> consolidated e v g x) /\
      exists view w, cv_fill e = Some view /\ view v = Some w) \/
   (g' v = g v /\ exists view, cv_fill e = Some view /\ view v = None)).
Proof.
  clear HX HC. intros v e g g' B PO NG F.
  refine (alone_finishes pv P (fun g' => (forall u, u <> v -> g' u = g u) /\
  ((filter (cv_status e 0) (g v) = [] /\ length (g v) <= degree P /\ g' v = g v) \/
   (NoDup (g' v) /\ length (g' v) < degree P /\ forall x, In x (g' v) <-> consolidated e v g x) \/
   (NoDup (g' v) /\ length (g' v) <= degree P /\ (forall x, In x (g' v) -> consolidated e v g x) /\
      exists view w, cv_fill e = Some view /\ view v = Some w) \/
   (g' v = g v /\ exists view, cv_fill e = Some view /\ view v = None))) _ g g' _ F). clear F.
  cbn [op_prog]. unfold consolidate. rewrite NG. unfold on_neighbors at 1. apply get_adj_alone; auto.
  set (pool := filter (fun i => negb (cv_status e 0 i)) (g v)). set (del := filter (cv_status e 0) (g v)).
  assert (DL : 1 <= degree P) by apply C.
  destruct ((length del =? 0) && (length pool <=? degree P)) eqn:Z.
  { apply andb_true_iff in Z as [Z1 Z2]. apply Nat.eqb_eq in Z1. apply Nat.leb_le in Z2.
    assert (DE : del = []) by (destruct del; [auto|discriminate]).
    cbn [alone done]. split; [auto|]. left. split; [auto|]. split; [|auto].
    replace (g v) with pool; auto. apply filter_all. intros x I. destruct (cv_status e 0 x) eqn:E; auto.
    assert (J : In x del) by now apply filter_In. rewrite DE in J. contradiction. }
  apply gather_alone; auto. { apply filter_NoDup, B. }
  intros pool' N' H. set (l := cv_order e (filter (fun i => negb (i =? v)) pool')).
  pose proof (PO (filter (fun i => negb (i =? v)) pool')) as PM. fold l in PM.
  assert (IL : forall x, In x l <-> consolidated e v g x).
  { intros x. transitivity (In x (filter (fun i => negb (i =? v)) pool')).
    { split; apply Permutation_in; [symmetry|]; auto. }
    rewrite filter_In, H. unfold consolidated, pool. rewrite filter_In, !negb_true_iff, Nat.eqb_neq. fold del. tauto. }
  assert (NL : NoDup l) by (eapply Permutation_NoDup; [exact PM|now apply filter_NoDup]).
  clearbody l. clear PM.
  destruct (Nat.ltb_spec (length l) (degree P)) as [L|L].
  - cbn [alone done]. intros _. split; [intros u N; now apply upd_neq|]. right. left. now rewrite upd_eq.
  - assert (NE : l <> []) by (destruct l; cbn in *; [lia|discriminate]).
    destruct (robust_prune_list P (cv_fill e) v l [] false) as [l2| | |] eqn:R; cbn [alone done fail]; auto.
    + intros _. split; [intros u N; now apply upd_neq|]. right. right. left. rewrite upd_eq.
      destruct (robust_prune_list_ok P C _ _ _ _ _ _ NL NE R) as (A1 & A2 & _ & A4).
      split; [auto|]. split; [auto|]. split; [intros x I; now apply IL, A4|].
      unfold robust_prune_list in R. destruct l; [congruence|]. destruct (cv_fill e) as [view|]; [|discriminate].
      destruct (view v) as [w|] eqn:EW; [|discriminate]. eauto.
    + split; [auto|]. right. right. right. split; auto.
      unfold robust_prune_list in R. destruct l; [congruence|]. destruct (cv_fill e) as [view|]; [|discriminate].
      destruct (view v) as [w|] eqn:EW; [|eauto].
      destruct (sorted P _); [|discriminate]. unfold occlude in R.
      destruct (occlude_list _ _ _ _ _ _ _ _ _ _ _); discriminate.
Qed.
End delete.
