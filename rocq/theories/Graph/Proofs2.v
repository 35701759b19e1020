From Verif.Lib Require Import Base Lists F32.
From Verif.Adjacency Require Import Spec Proofs.
From Verif.Graph Require Import Model Spec Proofs.
Require Verif.Work.Proofs.

(** ** An invariant for programs *)

Definition prog_ind' (Q : prog -> Prop)
  (HR : forall r, Q (Ret r)) (HC : Q Crash)
  (HG : forall v k, (forall l, Q (k l)) -> Q (Get v k))
  (HS : forall v l k, Q k -> Q (SetN v l k))
  (HA : forall v l k, Q k -> Q (App v l k))
  (HP : forall ps k, Forall Q ps -> (forall rs, Q (k rs)) -> Q (Par ps k)) : forall p, Q p :=
  fix F p :=
    match p with
    | Ret r => HR r
    | Crash => HC
    | Get v k => HG v k (fun l => F (k l))
    | SetN v l k => HS v l k (F k)
    | App v l k => HA v l k (F k)
    | Par ps k =>
      HP ps k ((fix G ps : Forall Q ps :=
                  match ps with [] => Forall_nil _ | p :: ps => Forall_cons _ (F p) (G ps) end) ps)
         (fun rs => F (k rs))
    end.

Definition no_self (m : amap) : Prop := forall s l, In (s, l) m -> ~ In s l.
Definition rok (r : option amap) : Prop := forall m, r = Some m -> no_self m.

Section inv.
Variables (ov b : bool) (max : nat) (pv : prov).

Definition gl (v : nat) (l : list nat) : Prop := NoDup l /\ length l <= max /\ (b = true -> ~ In v l).
Definition gg (g : graph) : Prop := forall v, gl v (g v).
Definition agree (W : nat -> Prop) (g g' : graph) : Prop := ov = false -> forall v, W v -> g' v = g v.
Definition sep (W : nat -> Prop) (Ws : list (nat -> Prop)) : Prop :=
  (forall i Wi v, nth_error Ws i = Some Wi -> Wi v -> W v) /\
  (ov = false -> forall i j Wi Wj v, i <> j -> nth_error Ws i = Some Wi -> nth_error Ws j = Some Wj ->
     Wi v -> Wj v -> False).

(** [W]: what the program may write; while it runs alone ([ov = false]) nobody else does. *)
Fixpoint ok (W : nat -> Prop) (p : prog) (g : graph) {struct p} : Prop :=
  match p with
  | Ret r => rok r
  | Crash => True
  | Get v k => forall g', agree W g g' -> gg g' -> ok W (k (g' v)) g'
  | SetN v l k => W v /\ gl v l /\ forall g', agree W g g' -> gg g' -> ok W k (upd g' v l)
  | App v l k =>
    W v /\ forall g', agree W g g' -> gg g' ->
      gl v (pv_app pv (g' v) l) /\ ok W k (upd g' v (pv_app pv (g' v) l))
  | Par ps k =>
    (exists Ws, sep W Ws /\
      (fix all (ps : list prog) (Ws : list (nat -> Prop)) {struct ps} : Prop :=
         match ps, Ws with
         | [], [] => True
         | p :: ps, Wi :: Ws => ok Wi p g /\ all ps Ws
         | _, _ => False
         end) ps Ws) /\
    forall rs g', Forall rok rs -> gg g' -> ok W (k rs) g'
  end.

Fixpoint all (g : graph) (ps : list prog) (Ws : list (nat -> Prop)) : Prop :=
  match ps, Ws with
  | [], [] => True
  | p :: ps, Wi :: Ws => ok Wi p g /\ all g ps Ws
  | _, _ => False
  end.
Lemma ok_par W ps k g : ok W (Par ps k) g <->
  (exists Ws, sep W Ws /\ all g ps Ws) /\ forall rs g', Forall rok rs -> gg g' -> ok W (k rs) g'.
Proof.
  assert (E : forall ps Ws, (fix all (ps : list prog) (Ws : list (nat -> Prop)) {struct ps} : Prop :=
         match ps, Ws with
         | [], [] => True
         | p :: ps, Wi :: Ws => ok Wi p g /\ all ps Ws
         | _, _ => False
         end) ps Ws <-> all g ps Ws).
  { induction ps0 as [|p ps0 IH]; destruct Ws; cbn; try tauto. rewrite IH. tauto. }
  cbn [ok]. split; intros [(Ws & A & B) H]; split; auto; exists Ws; split; auto; now apply E.
Qed.

Lemma all_nth g : forall ps Ws, all g ps Ws <->
  length ps = length Ws /\ forall i p Wi, nth_error ps i = Some p -> nth_error Ws i = Some Wi -> ok Wi p g.
Proof.
  induction ps as [|p ps IH]; destruct Ws as [|W Ws]; cbn [all length].
  - split; auto. intros _. split; auto. intros [|i] p W H; discriminate.
  - split; [tauto|intros [? _]; discriminate].
  - split; [tauto|intros [? _]; discriminate].
  - rewrite IH. split.
    + intros (A & L & B). split; [lia|]. intros [|i] q Wi E1 E2; cbn in *; [congruence|eauto].
    + intros (L & B). split; [exact (B 0 p W eq_refl eq_refl)|]. split; [lia|].
      intros i q Wi E1 E2. exact (B (S i) q Wi E1 E2).
Qed.

Lemma agree_refl W g : agree W g g.
Proof. intros _ v _. reflexivity. Qed.
Lemma agree_trans W g1 g2 g3 : agree W g1 g2 -> agree W g2 g3 -> agree W g1 g3.
Proof. intros A B H v Wv. rewrite (B H v Wv). now apply A. Qed.
Lemma gg_upd g v l : gg g -> gl v l -> gg (upd g v l).
Proof. intros G L w. destruct (upd_cases g v l w) as [[-> ->]|[_ ->]]; auto. Qed.

Lemma ok_stable p : forall W g g', ok W p g -> agree W g g' -> ok W p g'.
Proof.
  induction p as [r| |v k IH|v l k IH|v l k IH|ps k IHp IHk] using prog_ind'; intros W g g' H A; auto.
  - cbn [ok] in *. intros g'' A' G. apply H; auto. eapply agree_trans; eauto.
  - cbn [ok] in *. destruct H as (H1 & H2 & H3). split; [auto|]. split; [auto|]. intros g'' A' G.
    apply H3; auto. eapply agree_trans; eauto.
  - cbn [ok] in *. destruct H as (H1 & H3). split; [auto|]. intros g'' A' G.
    apply H3; auto. eapply agree_trans; eauto.
  - apply ok_par in H as [(Ws & S & H) HK]. apply ok_par. split; [|auto]. exists Ws. split; auto.
    apply all_nth in H as [L H]. apply all_nth. split; auto. intros i p Wi E1 E2.
    rewrite Forall_forall in IHp. apply (IHp p (nth_error_In _ _ E1) Wi g g'); [now apply (H i)|].
    intros O v WV. apply (A O). eapply (proj1 S); eauto.
Qed.

Lemma result_ok W p g r : ok W p g -> result p = Some r -> rok r.
Proof.
  destruct p; cbn; intros H E; inv E; auto. intros m [=].
Qed.
Lemma results_ok g : forall ps Ws rs, all g ps Ws -> results ps = Some rs -> Forall rok rs.
Proof.
  induction ps as [|p ps IH]; intros [|W Ws] rs H E; cbn [all results] in *; try tauto.
  - inv E. constructor.
  - destruct H as [H1 H2]. destruct (result p) as [r|] eqn:R; [|discriminate].
    destruct (results ps) as [rs'|] eqn:RS; [|discriminate]. inv E.
    constructor; eauto. eapply result_ok; eauto.
Qed.

Lemma pstep_ok : forall path bad W p g p' g', ok W p g -> gg g ->
  pstep pv path bad p g = Some (p', g') ->
  ok W p' g' /\ gg g' /\ forall v, ~ W v -> g' v = g v.
Proof.
  induction path as [|i path IH]; intros bad W p g p' g' H G E.
  - destruct p as [r| |v k|v l k|v l k|ps k]; cbn [pstep] in E; try discriminate.
    + destruct bad; inv E; (split; [|auto]).
      * intros m [=].
      * cbn [ok] in H. apply H; auto. apply agree_refl.
    + cbn [ok] in H. destruct H as (H1 & H2 & H3).
      destruct (bad || (pv_cap pv <? length l)); inv E.
      * split; [intros m [=]|auto].
      * split; [apply H3; auto; apply agree_refl|]. split; [now apply gg_upd|].
        intros w N. apply upd_neq. intros ->. auto.
    + cbn [ok] in H. destruct H as (H1 & H3). destruct (H3 g (agree_refl W g) G) as [H4 H5].
      destruct bad; inv E.
      * split; [intros m [=]|auto].
      * split; [auto|]. split; [now apply gg_upd|]. intros w N. apply upd_neq. intros ->. auto.
    + apply ok_par in H as [(Ws & S & H) HK]. destruct (results ps) as [rs|] eqn:R; [|discriminate].
      inv E. split; [|auto]. apply HK; auto. eapply results_ok; eauto.
  - destruct p as [r| |v k|v l k|v l k|ps k]; cbn [pstep] in E; try discriminate.
    apply ok_par in H as [(Ws & S & H) HK].
    destruct (nth_error ps i) as [q|] eqn:EN; [|discriminate].
    destruct (pstep pv path bad q g) as [[q' g1]|] eqn:EQ; [|discriminate]. inv E.
    apply all_nth in H as [L H]. destruct (nth_error Ws i) as [Wi|] eqn:EW.
    2: { apply nth_error_None in EW. apply nth_error_lt in EN. lia. }
    destruct (IH bad Wi q g q' g' (H i q Wi EN EW) G EQ) as (O & G' & F).
    split; [|split; [auto|]].
    + apply ok_par. split; [|auto]. exists Ws. split; auto. apply all_nth. split; [now rewrite set_nth_length|].
      intros j p Wj E1 E2. rewrite nth_error_set_nth in E1.
      destruct (Nat.eqb_spec j i) as [->|NE].
      * assert (Wj = Wi) by congruence. subst Wj. destruct (i <? length ps); congruence.
      * apply (ok_stable p Wj g g'); [now apply (H j)|]. intros OV v WV. apply F. intros WV'.
        eapply (proj2 S); eauto.
    + intros v N. apply F. intros WV. apply N. eapply (proj1 S); eauto.
Qed.

Hypothesis Happ : forall (W : nat -> Prop) v new g g', W v -> gg g -> gg g' -> agree W g g' ->
  NoDup (g v ++ new) -> length (g v ++ new) <= max -> (b = true -> ~ In v new) ->
  gl v (pv_app pv (g' v) new).

Section ops.
Context {V : Type}.
Variable P : gpar V.
Hypothesis C : cfg_ok P.
Hypothesis Hmax : p_max_degree P = max.

Lemma deg_le : degree P <= max.
Proof. destruct C as (_ & ? & _). lia. Qed.
Lemma ok_fail (W : nat -> Prop) g : ok W fail g.
Proof. intros m [=]. Qed.
Lemma ok_done (W : nat -> Prop) g : ok W done g.
Proof. intros m [= <-] s l []. Qed.
Hint Resolve ok_fail ok_done agree_refl : core.

Lemma get_adj_ok (W : nat -> Prop) v k g : (forall g', agree W g g' -> gg g' -> ok W (k (g' v)) g') -> ok W (get_adj P v k) g.
Proof.
  intros H. unfold get_adj. cbn [ok]. intros g' A G. unfold adj_overwrite_trusted.
  rewrite debug_check_ok by apply G. auto.
Qed.

(** A scratch list. *)
Definition scr (l : list nat) : Prop := NoDup l /\ length l <= degree P.

Lemma scr_nil : scr [].
Proof. split; [constructor|cbn; lia]. Qed.

Lemma aep_ok (W : nat -> Prop) fv targets source scratch remove k g :
  W source -> (b = true -> ~ In source targets) -> scr scratch ->
  (b = true -> (forall view, fv = Some view -> view source <> None) \/ scratch = []) ->
  (forall s g', scr s -> gg g' -> ok W (k s) g') ->
  ok W (add_edge_and_prune P fv targets source scratch remove k) g.
Proof.
  intros WS NT SC VS K. unfold add_edge_and_prune. apply get_adj_ok. intros g' A G.
  pose proof deg_le as DL.
  set (l0 := g' source). destruct (G source) as (N0 & L0 & S0). fold l0 in N0, L0, S0.
  set (l1 := match remove with Some s => adj_retain (fun _ i => negb (memb s i)) l0 | None => l0 end).
  set (did := match remove with Some s => existsb (memb s) l0 | None => false end).
  assert (N1 : NoDup l1). { unfold l1. destruct remove; auto. now apply retain_NoDup. }
  assert (I1 : forall x, In x l1 -> In x l0). { unfold l1. destruct remove; auto. intros x. apply retain_in. }
  assert (D1 : did = false -> l1 = l0).
  { unfold l1, did. destruct remove as [s|]; auto. intros D. unfold adj_retain. rewrite (retain_filter (fun i => negb (memb s i))).
    apply filter_all. intros x I. destruct (memb s x) eqn:M; auto.
    assert (existsb (memb s) l0 = true) by (apply existsb_exists; eauto). congruence. }
  destruct (extend_full_lemma (p_kind P) targets l1 N1) as (new & -> & AL & N2 & I2 & _).
  assert (S2 : b = true -> ~ In source (l1 ++ new)).
  { intros B I. apply I2 in I as [I|I]; [apply (S0 B); auto|now apply (NT B)]. }
  destruct ((length new =? 0) && negb did) eqn:Z; [now apply K|].
  destruct (Nat.leb_spec (length (l1 ++ new)) (p_max_degree P)) as [L|L].
  - destruct did eqn:ED.
    + cbn [ok]. split; [auto|]. split; [split; [auto|split; [lia|auto]]|].
      intros g2 A2 G2. apply K; auto. apply gg_upd; auto. split; [auto|split; [lia|auto]].
    + rewrite AL. cbn [ok]. split; [auto|]. intros g2 A2 G2. rewrite (D1 eq_refl) in *.
      assert (Q : gl source (pv_app pv (g2 source) new)).
      { apply (Happ W source new g' g2); auto. fold l0. lia.
        intros B I. apply (S2 B). apply in_app_iff. auto. }
      split; auto. apply K; auto. now apply gg_upd.
  - destruct (robust_prune_list P fv source (l1 ++ new) scratch false) as [l| | |] eqn:R; auto; try exact I.
    + assert (NE : l1 ++ new <> []). { intros E. rewrite E in L. cbn in L. lia. }
      destruct (robust_prune_list_ok P C _ _ _ _ _ _ N2 NE R) as (A1 & A2 & A3 & A4).
      assert (Q : gl source l) by (split; [auto|split; [lia|auto]]).
      cbn [ok]. split; [auto|]. split; [auto|]. intros g2 AG2 G2. apply K; [split; auto|now apply gg_upd].
    + assert (Q : gl source scratch).
      { destruct SC as [SC1 SC2]. split; [auto|]. split; [lia|]. intros B. destruct (VS B) as [VS'| ->]; [|auto].
        exfalso. unfold robust_prune_list in R. destruct (l1 ++ new); [discriminate|].
        destruct fv as [view|]; [|discriminate]. specialize (VS' view eq_refl).
        destruct (view source) as [v|]; [|congruence].
        destruct (sorted P _); [|discriminate]. unfold occlude in R.
        destruct (occlude_list _ _ _ _ _ _ _ _ _ _ _); discriminate. }
      cbn [ok]. split; [auto|]. split; [auto|]. intros g2 AG2 G2. apply K; [auto|now apply gg_upd].
Qed.

Lemma add_edges_ok (W : nat -> Prop) fills remove k : (forall g, gg g -> ok W k g) ->
  (b = true -> sees fills) ->
  forall work i scratch g, gg g -> (forall s ts, In (s, ts) work -> W s) -> (b = true -> no_self work) ->
  scr scratch -> ok W (add_edges P fills i work scratch remove k) g.
Proof.
  intros K VS. induction work as [|[s ts] work IH]; intros i scratch g G WW NS SC; cbn [add_edges]; [auto|].
  apply aep_ok; auto.
  - apply (WW s ts). now left.
  - intros B. apply (NS B s ts). now left.
  - intros B. left. intros view E. apply (VS B i view s E).
  - intros s' g' SC' G'. apply IH; auto.
    + intros s1 t1 I1. apply (WW s1 t1). now right.
    + intros B s1 t1 I1. apply (NS B s1 t1). now right.
Qed.

Lemma on_neighbors_ok (W : nat -> Prop) status v k g :
  (forall g' l, agree W g g' -> gg g' -> l = g' v ->
     ok W (k (filter (fun i => negb (status i)) l) (filter status l)) g') ->
  ok W (on_neighbors P status v k) g.
Proof. intros H. apply get_adj_ok. intros g' A G. now apply H. Qed.

Lemma refs_to_ok (W : nat -> Prop) p k : forall cands acc g, gg g -> (forall ins g', gg g' -> ok W (k ins) g') ->
  ok W (refs_to P p cands acc k) g.
Proof.
  induction cands as [|c cands IH]; intros acc g G K; cbn [refs_to]; [auto|].
  apply get_adj_ok. intros g' A G'. destruct (adj_contains (p_kind P) (g' c) p) as [[|]|]; auto. exact I.
Qed.

Lemma two_hop_ok (W : nat -> Prop) k : forall one acc g, gg g -> (forall two g', gg g' -> ok W (k two) g') ->
  ok W (two_hop P one acc k) g.
Proof.
  induction one as [|c one IH]; intros acc g G K; cbn [two_hop]; [auto|].
  apply get_adj_ok. intros g' A G'. auto.
Qed.

(** Edge maps without self edges. *)
Lemma am_insert_no_self m k l : no_self m -> ~ In k l -> no_self (am_insert m k l).
Proof.
  intros H N. induction m as [|[k' l'] m IH]; cbn [am_insert].
  - intros s ts [[= <- <-]|[]]. auto.
  - destruct (k' =? k).
    + intros s ts [[= <- <-]|I]; auto. apply H. now right.
    + intros s ts [[= <- <-]|I]; [apply H; now left|]. apply IH; auto. intros a c J. apply H. now right.
Qed.
Lemma am_push_no_self m k x : no_self m -> k <> x -> no_self (am_push m k x).
Proof.
  intros H N. induction m as [|[k' l'] m IH]; cbn [am_push].
  - intros s ts [[= <- <-]|[]] [|[]]. auto.
  - destruct (Nat.eqb_spec k' k) as [->|NE].
    + intros s ts [[= <- <-]|I]; [|apply H; now right]. rewrite in_app_iff. cbn. intros [I|[<-|[]]]; auto.
      revert I. apply H. now left.
    + intros s ts [[= <- <-]|I]; [apply H; now left|]. apply IH; auto. intros a c J. apply H. now right.
Qed.
Lemma best_in view num cands n v o : In o (best P view num cands n v) -> o <> n /\ In o cands.
Proof.
  unfold best. destruct C as (_ & _ & _ & _ & CO). intros I. apply in_map_iff in I as (x & <- & I).
  apply in_firstn in I.
  assert (J : In x (dists P view v (filter (fun o => negb (o =? n)) cands))).
  { destruct (CO (dists P view v (filter (fun o => negb (o =? n)) cands))) as [PM _].
    eapply Permutation_in; [symmetry; exact PM|exact I]. }
  apply (in_map n_id) in J. apply dists_ids in J. apply filter_In in J as [J1 J2].
  split; auto. intros E. rewrite E, Nat.eqb_refl in J2. discriminate.
Qed.
Lemma edges_in_no_self view num cands ins : no_self (edges_in P view num cands ins).
Proof.
  unfold edges_in. assert (H : no_self []) by (intros s l []). revert H. generalize (@nil (nat * list nat)).
  induction ins as [|n ins IH]; intros m H; cbn [fold_left]; auto. apply IH.
  destruct (view n) as [v|]; auto. apply am_insert_no_self; auto. intros I. now apply best_in in I as [I _].
Qed.
Lemma edges_out_no_self view num cands out : forall m, no_self m -> no_self (edges_out P view num cands m out).
Proof.
  unfold edges_out. induction out as [|n out IH]; intros m H; cbn [fold_left]; auto. apply IH.
  destruct (view n) as [v|]; auto.
  assert (B : forall o, In o (best P view num cands n v) -> o <> n) by (intros o I; now apply best_in in I).
  revert B m H. generalize (best P view num cands n v).
  induction l as [|o l IHl]; intros B m H; cbn [fold_left]; auto.
  apply IHl; [intros o' I; apply B; now right|]. apply am_push_no_self; auto. apply B. now left.
Qed.

Lemma delete_inner_ok (W : nat -> Prop) p num m e k g : gg g ->
  (forall es g', no_self es -> gg g' -> ok W (k es) g') -> ok W (delete_inner P p num m e k) g.
Proof.
  intros G K. unfold delete_inner. destruct (d_ok e); auto.
  assert (R : forall cands ins g', gg g' ->
    ok W (on_neighbors P (d_status3 e) p (fun out _ =>
        match d_view e with
        | None => fail
        | Some view => k (edges_out P view num cands (edges_in P view num cands ins) out)
        end)) g').
  { intros cands ins g' G'. apply on_neighbors_ok. intros g2 l A2 G2 _. destruct (d_view e) as [view|]; auto.
    apply K; auto. apply edges_out_no_self, edges_in_no_self. }
  unfold find_candidates. destruct m.
  - destruct (d_post e); auto. apply refs_to_ok; auto.
  - apply on_neighbors_ok. intros g2 l A2 G2 _. apply two_hop_ok; auto. intros two g3 G3. apply refs_to_ok; auto.
  - apply on_neighbors_ok. intros g2 l A2 G2 _. apply refs_to_ok; auto.
Qed.

Definition anyw : nat -> Prop := fun _ => True.

(** *** insert *)
Definition outlist (s : nat) (l : list nat) : Prop := NoDup l /\ length l <= degree P /\ ~ In s l.
Lemma outlist_nil s : outlist s [].
Proof. split; [constructor|]. split; [cbn; lia|auto]. Qed.
Lemma outlist_pruned s pool l : pruned P s pool l -> outlist s l.
Proof. intros (A & B & D & _). now split. Qed.
Lemma outlist_gl s l : outlist s l -> gl s l.
Proof. intros (A & B & D). pose proof deg_le. split; [auto|]. split; [lia|auto]. Qed.
Lemma outlist_gl' s l : outlist s l -> NoDup l /\ length l <= max /\ (b = true -> ~ In s l).
Proof. apply outlist_gl. Qed.

Lemma insert_ok id env fills g : gg g -> search_ok env -> (b = true -> sees fills) ->
  ok anyw (insert P id env fills) g.
Proof.
  intros G SO VS. unfold insert.
  destruct (attempts P _ env (num_attempts P) 0 []) as [l| | |] eqn:E; auto; [|exact I].
  assert (O : outlist id l).
  { revert E. apply (attempts_ok P (outlist id)); [|apply outlist_nil].
    intros n vis old l1 EV T E. unfold robust_prune_pool in E.
    destruct (sorted_ok P C vis) as (sp & ES & L & S & ND). rewrite ES in E.
    destruct sp as [|x sp]; [inv E; auto|]. destruct (a_fill (env n)) as [view|]; [|discriminate].
    eapply outlist_pruned. eapply (occlude_ok P C); eauto. }
  cbn [ok]. split; [exact I|]. split; [now apply outlist_gl|]. intros g' A G'.
  apply add_edges_ok; auto.
  - now apply gg_upd, outlist_gl.
  - intros. exact I.
  - intros B s ts J. apply in_map_iff in J as (x & [= <- <-] & J). apply in_firstn in J.
    intros [->|[]]. now apply O in J.
  - apply scr_nil.
Qed.

(** *** multi-insert *)
Lemma around_nil max' i len : Verif.Work.Model.around max' i len <> [] -> len <> 0.
Proof.
  intros H ->. apply H. unfold Verif.Work.Model.around.
  destruct (Verif.Work.Model.around_new max' i 0) as [[a c] r] eqn:E.
  assert (r = 0).
  { unfold Verif.Work.Model.around_new in E. rewrite Nat.min_0_l in E.
    destruct (max' =? 0); injection E; auto. }
  subst r. reflexivity.
Qed.

Lemma search_and_prune_ok ids e pos id l :
  (forall pos, search_ok (mi_att e pos)) ->
  (p_intra P (length ids) <> 0 -> NoDup ids /\
     forall pos n vis i, a_visited (mi_att e pos n) = Some vis -> In i ids -> ~ In i (map n_id vis)) ->
  nth_error ids pos = Some id -> search_and_prune P ids e pos = ROk l -> outlist id l.
Proof.
  intros SO FR EI E. unfold search_and_prune in E. rewrite EI in E.
  set (ar := Verif.Work.Model.around (length ids) pos (p_intra P (length ids))) in E.
  assert (LP : 0 < length ids) by (apply nth_error_lt in EI; lia).
  assert (PB : pos < length ids) by now apply nth_error_lt in EI.
  destruct (Verif.Work.Proofs.around_all (length ids) pos (p_intra P (length ids)) LP) as (_ & NA & _ & IA).
  fold ar in NA, IA.
  assert (X : map (fun j => nth j ids 0) ar <> [] -> NoDup (map (fun j => nth j ids 0) ar) /\
     forall i, In i (map (fun j => nth j ids 0) ar) -> In i ids).
  { intros NE. assert (NZ : p_intra P (length ids) <> 0).
    { apply (around_nil (length ids) pos). fold ar. intros E0. rewrite E0 in NE. auto. }
    destruct (FR NZ) as [ND _]. split.
    - apply NoDup_map_inj; auto. intros x y IX IY EQ.
      rewrite (NoDup_nth ids 0) in ND. apply ND; auto; now apply IA.
    - intros i I. apply in_map_iff in I as (j & <- & I). apply nth_In. now apply IA. }
  revert E. apply (attempts_ok P (outlist id)); [|apply outlist_nil].
  intros n vis old l1 EV T E. eapply outlist_pruned. eapply (robust_prune_with_ok P C); [| |exact E].
  - eapply SO; eauto.
  - intros NE. destruct (X NE) as [X1 X2]. split; auto. intros i I. apply X2 in I.
    assert (NZ : p_intra P (length ids) <> 0).
    { apply (around_nil (length ids) pos). fold ar. intros E0. rewrite E0 in NE. auto. }
    destruct (FR NZ) as [_ FR']. eapply FR'; eauto.
Qed.

Lemma pending_ok ids f : forall ps, (forall p id l, nth_error ids p = Some id -> f p = ROk l -> outlist id l) ->
  forall s l, In (s, l) (pending ids f ps) -> outlist s l.
Proof.
  induction ps as [|p ps IH]; intros H s l I; cbn [pending] in I; [contradiction|].
  destruct (nth_error ids p) as [id|] eqn:E1; [|auto]. destruct (f p) as [l1| | |] eqn:E2; auto.
  destruct I as [[= <- <-]|I]; eauto.
Qed.

Lemma set_all_ok (W : nat -> Prop) k : forall es g, gg g -> (forall s l, In (s, l) es -> W s /\ outlist s l) ->
  (forall g', gg g' -> ok W k g') -> ok W (set_all es k) g.
Proof.
  induction es as [|[s l] es IH]; intros g G H K; cbn [set_all]; [auto|].
  destruct (H s l (or_introl eq_refl)) as [WS O]. cbn [ok]. split; [auto|]. split; [now apply outlist_gl|].
  intros g' A G'. apply IH; auto. now apply gg_upd, outlist_gl. intros s1 l1 I. apply H. now right.
Qed.

Lemma concat_disjoint (ls : list (list nat)) : NoDup (concat ls) -> forall i j x, i <> j ->
  In x (nth i ls []) -> In x (nth j ls []) -> False.
Proof.
  assert (Q : forall (ls : list (list nat)) i x, In x (nth i ls []) -> In x (concat ls)).
  { clear. intros ls i x I. apply in_concat. exists (nth i ls []). split; auto.
    destruct (Nat.lt_ge_cases i (length ls)) as [L|L]; [now apply nth_In|].
    rewrite nth_overflow in I by auto. contradiction. }
  induction ls as [|l ls IH]; intros N i j x NE I J.
  - destruct i; contradiction.
  - cbn [concat] in N. apply NoDup_app_inv in N as (N1 & N2 & N3).
    destruct i as [|i], j as [|j]; cbn [nth] in *; try lia.
    + eapply N3; eauto.
    + eapply N3; eauto.
    + eapply (IH N2 i j); eauto.
Qed.

Lemma par_tasks_ok (tasks : list (list nat)) (f : nat -> prog) k g :
  NoDup (concat tasks) -> gg g ->
  (forall t (W : nat -> Prop), (forall v, In v (nth t tasks []) -> W v) -> ok W (f t) g) ->
  (forall rs g', Forall rok rs -> gg g' -> ok anyw (k rs) g') ->
  ok anyw (Par (map f (seq 0 (length tasks))) k) g.
Proof.
  intros ND G H K. apply ok_par. split; [|auto].
  exists (map (fun t v => In v (nth t tasks [])) (seq 0 (length tasks))). split.
  - split; [intros; exact I|]. intros _ i j Wi Wj v NE E1 E2 H1 H2.
    assert (Q : forall i Wi, nth_error (map (fun t v => In v (nth t tasks [])) (seq 0 (length tasks))) i = Some Wi ->
      Wi = (fun v => In v (nth i tasks []))).
    { clear. intros i Wi E. rewrite nth_error_map in E.
      destruct (nth_error (seq 0 (length tasks)) i) as [t|] eqn:E1; [|discriminate]. inv E.
      assert (L : i < length tasks) by (apply nth_error_lt in E1; now rewrite seq_length in E1).
      apply nth_error_nth with (d := 0) in E1. rewrite seq_nth in E1 by auto. cbn in E1. now subst. }
    apply Q in E1, E2. subst. eapply concat_disjoint; eauto.
  - apply all_nth. rewrite !map_length. split; auto. intros i p Wi E1 E2.
    rewrite nth_error_map in E1, E2. destruct (nth_error (seq 0 (length tasks)) i) as [t|]; [|discriminate].
    inv E1. inv E2. apply H. auto.
Qed.

Lemma multi_insert_ok ids e g : gg g -> op_ok P (OMultiInsert ids e) -> (b = true -> forall t, sees (mi_fills e t)) ->
  ok anyw (multi_insert P ids e) g.
Proof.
  intros G (SO & FR & ND) VS. unfold multi_insert.
  set (edges0 := pending ids (search_and_prune P ids e) (mi_found e)).
  assert (O0 : forall s l, In (s, l) edges0 -> outlist s l).
  { apply pending_ok. intros p id l E1 E2. eapply search_and_prune_ok; eauto. }
  set (boot := _ && _).
  set (edges := if boot then pending (map fst edges0) (bootstrap_leaf P e edges0) (mi_boot e) else edges0).
  assert (O : forall s l, In (s, l) edges -> outlist s l).
  { unfold edges. destruct boot; auto. apply pending_ok. intros p id l E1 E2.
    unfold bootstrap_leaf in E2. rewrite nth_error_map in E1.
    destruct (nth_error edges0 p) as [[s l0]|]; [|discriminate]. cbn in E1. inv E1.
    set (cands := adj_from_untrusted _) in E2.
    assert (NC : NoDup cands) by (apply SSorted_lt_NoDup, untrusted_lemma).
    destruct cands as [|c cs] eqn:EC; [inv E2; apply outlist_nil|]. rewrite <- EC in *.
    eapply outlist_pruned. eapply (robust_prune_list_ok P C); eauto. congruence. }
  clearbody edges. destruct (aggregate_lemma (p_debug P) (p_kind P) edges) as (m & -> & AG).
  apply set_all_ok; auto.
  - intros s l I. split; [exact Logic.I|auto].
  - intros g' G'. apply par_tasks_ok; auto. intros t W HW. apply add_edges_ok; auto.
    + intros s ts I. apply HW. unfold backedge_work in I. apply in_flat_map in I as (x & I1 & I2).
      destruct (m x); [|contradiction]. destruct I2 as [[= <- <-]|[]]. auto.
    + intros B s ts I. unfold backedge_work in I. apply in_flat_map in I as (x & I1 & I2).
      specialize (AG x). destruct (m x) as [bf|] eqn:EM; [|contradiction]. destruct I2 as [[= <- <-]|[]].
      intros I. destruct AG as (_ & _ & AG).
      assert (I' : In x (b_slice bf)) by (eapply Permutation_in; [symmetry; apply sort_perm|exact I]).
      apply AG in I' as (es & I3 & I4). apply O in I3. now apply I3 in I4.
    + apply scr_nil.
Qed.

(** *** deletes *)
Lemma inplace_delete_ok p num m e g : gg g -> (forall es, Permutation es (d_iter e es)) -> (b = true -> sees (d_fills e)) ->
  ok anyw (inplace_delete P p num m e) g.
Proof.
  intros G IT VS. unfold inplace_delete. apply delete_inner_ok; auto. intros es g' NS G'.
  assert (GN : gl p []) by (split; [constructor|split; [cbn; lia|auto]]).
  apply add_edges_ok; auto.
  - intros g2 G2. cbn [ok]. split; [exact I|]. split; auto.
  - intros; exact I.
  - intros _ s ts I. eapply Permutation_in in I; [|symmetry; apply IT]. eauto.
  - apply scr_nil.
Qed.

Lemma am_get_in m : forall s l, am_get m s = Some l -> In (s, l) m.
Proof.
  induction m as [|[k l0] m IH]; intros s l E; cbn in E; [discriminate|].
  destruct (Nat.eqb_spec k s) as [->|]; [inv E; now left|right; auto].
Qed.
Lemma batch_targets_no_self ms s : Forall rok ms -> ~ In s (batch_targets ms s).
Proof.
  intros H I. unfold batch_targets in I. apply in_flat_map in I as (m & I1 & I2).
  rewrite Forall_forall in H. apply H in I1. destruct m as [m|]; [|contradiction].
  destruct (am_get m s) as [l|] eqn:E; [|contradiction]. apply am_get_in in E. eapply I1; eauto.
Qed.
Lemma batch_worker_ok (W : nat -> Prop) fills ms del : Forall rok ms -> forall sources i g, gg g ->
  (forall s, In s sources -> W s) -> ok W (batch_worker P fills ms del i sources) g.
Proof.
  intros R. induction sources as [|s sources IH]; intros i g G WW; cbn [batch_worker]; auto.
  apply aep_ok.
  - apply WW. now left.
  - intros _. now apply batch_targets_no_self.
  - apply scr_nil.
  - auto.
  - intros _ g' _ G'. apply IH; auto. intros s1 I1. apply WW. now right.
Qed.
Lemma drop_all_ok k ps : (forall g, gg g -> ok anyw k g) -> forall g, gg g -> ok anyw (drop_all ps k) g.
Proof.
  intros K. induction ps as [|p ps IH]; intros g G; cbn; auto.
  assert (GN : gl p []) by (split; [constructor|split; [cbn; lia|auto]]).
  split; [exact I|]. split; auto. intros g' A G'. apply IH. now apply gg_upd.
Qed.

Lemma repeat_sep n : sep anyw (repeat (fun _ => False) n).
Proof.
  split.
  - intros; exact I.
  - intros _ i j Wi Wj v _ E1 _ H. apply nth_error_In, repeat_spec in E1. now subst.
Qed.

Lemma delete_chunk_ok ps num m e k g : gg g -> (forall ms, NoDup (concat (b_tasks e ms))) ->
  (forall g', gg g' -> ok anyw k g') -> ok anyw (delete_chunk P ps num m e k) g.
Proof.
  intros G ND K. unfold delete_chunk. apply ok_par. split.
  - eexists. split; [apply repeat_sep|]. apply all_nth. split; [symmetry; apply repeat_length|].
    intros i p Wi E1 _. rewrite nth_error_map in E1.
    destruct (nth_error (combine _ _) i) as [[j q]|]; [|discriminate]. inv E1.
    apply delete_inner_ok; auto. intros es g' NS G'. intros m' [= <-]. exact NS.
  - intros ms g' R G'. apply par_tasks_ok; auto.
    + intros t W HW. apply batch_worker_ok; auto.
    + intros _ g2 _ G2. now apply drop_all_ok.
Qed.
Lemma multi_delete_ok num m : forall chunks g, gg g ->
  Forall (fun c => forall ms, NoDup (concat (b_tasks (snd c) ms))) chunks ->
  ok anyw (multi_inplace_delete P chunks num m) g.
Proof.
  induction chunks as [|[ps e] chunks IH]; intros g G F; cbn [multi_inplace_delete]; auto. inv F.
  apply delete_chunk_ok; auto.
Qed.

(** *** maintenance *)
Lemma orphans_ok l0 k : NoDup l0 -> forall del acc g, gg g -> NoDup (acc ++ del) -> incl (acc ++ del) l0 ->
  (forall acc' g', NoDup acc' -> incl acc' l0 -> gg g' -> ok anyw (k acc') g') ->
  ok anyw (orphans P del acc k) g.
Proof.
  intros N0. induction del as [|d del IH]; intros acc g G ND IN K; cbn [orphans].
  - rewrite app_nil_r in *. auto.
  - apply get_adj_ok. intros g' A G'.
    assert (ND' : NoDup (acc ++ del)) by (eapply NoDup_remove_1; eauto).
    assert (IN' : incl (acc ++ del) l0).
    { intros x I. apply IN. rewrite in_app_iff in *. cbn. tauto. }
    destruct (g' d); apply IH; auto; rewrite <- app_assoc; auto.
Qed.

Lemma gl_sub v l0 l : gl v l0 -> NoDup l -> incl l l0 -> gl v l.
Proof.
  intros (A & B & D) N I. split; [auto|]. split.
  - pose proof (NoDup_incl_length N I). lia.
  - intros E J. now apply (D E), I.
Qed.

Lemma drop_deleted_ok v oo gone status g : gg g -> ok anyw (drop_deleted P v oo gone status) g.
Proof.
  intros G. unfold drop_deleted. destruct gone; auto. apply on_neighbors_ok. intros g' l A G' E.
  assert (GL : gl v l) by (subst l; auto).
  set (pool := filter (fun i => negb (status i)) l). set (del := filter status l).
  assert (F : forall pl g2, NoDup pl -> incl pl l -> gg g2 ->
    ok anyw (match del with
        | [] => if length pl <=? degree P then done else SetN v pl done
        | _ => SetN v pl done
        end) g2).
  { intros pl g2 N1 I1 G2. assert (GP : gl v pl) by (eapply gl_sub; eauto).
    assert (S : ok anyw (SetN v pl done) g2) by (cbn [ok]; split; [exact I|]; split; auto).
    destruct del; auto. destruct (length pl <=? degree P); auto. }
  assert (NP : NoDup pool) by apply filter_NoDup, GL. assert (NDl : NoDup del) by apply filter_NoDup, GL.
  assert (IP : incl pool l) by (intros x I; now apply filter_In in I).
  assert (ID : incl del l) by (intros x I; now apply filter_In in I).
  destruct oo; [|apply F; auto].
  apply orphans_ok with (l0 := l); auto; [apply GL| |now apply incl_app].
  apply NoDup_app_intro; auto. intros x I J. apply filter_In in I as [_ I]. apply filter_In in J as [_ J].
  rewrite J in I. discriminate.
Qed.

Lemma hs_add_NoDup s x : NoDup s -> NoDup (hs_add s x).
Proof.
  intros N. unfold hs_add. destruct (memb s x) eqn:E; auto. apply NoDup_snoc; auto.
  intros I. apply memb_spec in I. congruence.
Qed.
Lemma hs_add_all_NoDup xs : forall s, NoDup s -> NoDup (hs_add_all s xs).
Proof. induction xs as [|x xs IH]; intros s N; cbn; auto. apply IH. now apply hs_add_NoDup. Qed.

Lemma gather_ok (e : @cenv V) k : forall del i pool g, gg g -> NoDup pool ->
  (forall pool' g', NoDup pool' -> gg g' -> ok anyw (k pool') g') -> ok anyw (gather P e i del pool k) g.
Proof.
  induction del as [|d del IH]; intros i pool g G N K; cbn [gather]; auto.
  apply on_neighbors_ok. intros g' l A G' _. apply IH; auto. now apply hs_add_all_NoDup.
Qed.

Lemma consolidate_ok v e g : gg g -> (forall l, Permutation l (cv_order e l)) -> ok anyw (consolidate P v e) g.
Proof.
  intros G PO. unfold consolidate. destruct (cv_gone e); auto. apply on_neighbors_ok. intros g' l A G' E.
  destruct (_ && _); auto. apply gather_ok; auto.
  { apply filter_NoDup. subst l. apply G'. }
  intros pool g2 N G2. set (l1 := cv_order e (filter (fun i => negb (i =? v)) pool)).
  pose proof (PO (filter (fun i => negb (i =? v)) pool)) as PM. fold l1 in PM.
  assert (N1 : NoDup l1) by (eapply Permutation_NoDup; [exact PM|apply filter_NoDup, N]).
  assert (S1 : ~ In v l1).
  { intros I. eapply Permutation_in in I; [|symmetry; exact PM]. apply filter_In in I as [_ I].
    rewrite Nat.eqb_refl in I. discriminate. }
  clearbody l1. pose proof deg_le as DL.
  assert (W : forall l2, NoDup l2 -> length l2 <= degree P -> ~ In v l2 -> ok anyw (SetN v l2 done) g2).
  { intros l2 H1 H2 H3. cbn [ok]. split; [exact I|]. split; [split; [auto|split; [lia|auto]]|auto]. }
  destruct (Nat.ltb_spec (length l1) (degree P)) as [L|L]; [apply W; auto; lia|].
  destruct (robust_prune_list P (cv_fill e) v l1 [] false) as [l2| | |] eqn:R; auto; [|exact I].
  destruct C as (_ & D1 & _). assert (NE : l1 <> []) by (destruct l1; cbn in *; [lia|discriminate]).
  destruct (robust_prune_list_ok P C _ _ _ _ _ _ N1 NE R) as (A1 & A2 & A3 & _). now apply W.
Qed.

Lemma prune_range_ok fills : forall ids i scratch g, gg g -> ok anyw (prune_range P fills i ids scratch) g.
Proof.
  induction ids as [|id ids IH]; intros i scratch g G; cbn [prune_range]; auto.
  apply get_adj_ok. intros g' A G'. destruct (Nat.leb_spec (length (g' id)) (degree P)) as [L|L]; auto.
  destruct (robust_prune_list P (fills i) id (g' id) scratch false) as [l2| | |] eqn:R; auto; [|exact I].
  assert (NE : g' id <> []) by (destruct (g' id); cbn in *; [lia|discriminate]).
  pose proof (outlist_pruned _ _ _ (robust_prune_list_ok P C _ _ _ _ _ _ (proj1 (G' id)) NE R)) as O.
  cbn [ok]. split; [exact I|]. split; [now apply outlist_gl|]. intros g2 A2 G2. apply IH. now apply gg_upd, outlist_gl.
Qed.

Lemma op_prog_ok o g : gg g -> op_ok P o -> (b = true -> op_sees o) -> ok anyw (op_prog P o) g.
Proof.
  intros G O S. destruct o; cbn [op_prog op_ok op_sees] in *.
  - now apply insert_ok.
  - now apply multi_insert_ok.
  - now apply inplace_delete_ok.
  - now apply multi_delete_ok.
  - now apply drop_deleted_ok.
  - now apply consolidate_ok.
  - now apply prune_range_ok.
  - cbn [ok]. split; [exact I|]. split; auto. split; [constructor|]. split; [cbn; lia|auto].
Qed.
End ops.
End inv.
