(** The property lemmas for C22-C26. *)
From Verif.Lib Require Import Base Lists F32.
From Verif.Search Require Import Model Spec Proofs ProofsKnn ProofsRange ProofsPaged.
From Verif.Queue Require Import Proofs.

Section main.
Variable graph : nat -> option (list nat).
Variable dist : nat -> option f32.

(** Facts about a finished search. *)
Lemma knn_facts fuel l bw stop starts res st rec : 0 < l -> NoDup starts ->
  knn graph dist fuel l bw stop starts = SOk (res, st, rec) ->
  exists E ops rest others, let L := l + length starts in
    KnnRun graph dist L starts st E ops rest rec /\ res = map e_nbr (firstn L E) /\
    ((forall k, stop k = false) -> has_notvisited (s_best st) = false) /\
    Permutation (valid (inserted ops)) (res ++ others) /\ StronglySorted closer res /\
    length res = Nat.min L (length (valid (inserted ops))) /\
    (forall x y, In x res -> In y others -> closer x y) /\
    NoDup (map n_id (res ++ others)).
Proof.
  intros Hl ND H. pose proof (knn_spec graph dist fuel l bw stop starts ltac:(lia) ND) as KS.
  cbv zeta in KS. rewrite H in KS. destruct KS as (E & ops & rest & K & -> & HN).
  assert (HL : 0 < l + length starts) by lia.
  destruct (knn_best _ _ _ _ _ _ _ _ _ HL K) as (others & P & S & L & C).
  exists E, ops, rest, others. cbv zeta. split; [exact K|]. split; [reflexivity|].
  split; [exact HN|]. split; [exact P|]. split; [exact S|]. split; [exact L|]. split; [exact C|].
  eapply NoDup_map_perm_ids; [exact P|]. apply NoDup_valid_ids. apply (k_vis _ _ _ _ _ _ _ _ _ K).
Qed.

Lemma c22_basic fuel l bw stop starts res st rec : 0 < l -> NoDup starts ->
  knn graph dist fuel l bw stop starts = SOk (res, st, rec) ->
  NoDup (map n_id res) /\ StronglySorted closer res /\ length res <= l + length starts /\
  forall x, In x res ->
    reach graph starts (n_id x) /\ dist (n_id x) = Some (n_dist x) /\ is_nan (n_dist x) = false.
Proof.
  intros Hl ND H. destruct (knn_facts _ _ _ _ _ _ _ _ Hl ND H)
    as (E & ops & rest & others & K & -> & HN & P & S & L & C & N).
  cbv zeta in *. split; [|split; [exact S|split; [lia|]]].
  - rewrite map_app in N. now apply NoDup_app_inv in N.
  - intros x Hx. assert (Hv : In x (valid (inserted ops))).
    { eapply Permutation_in; [symmetry; exact P|]. apply in_or_app. now left. }
    destruct (v_new _ _ _ _ _ (k_vis _ _ _ _ _ _ _ _ _ K) x (in_valid _ _ Hv)) as (_ & N2 & N3).
    split; [now apply (k_reach _ _ _ _ _ _ _ _ _ K)|]. split; [exact N3|].
    now apply (in_nbr_valid (inserted ops)).
Qed.

(** Nodes adjacent to results have been scanned. *)
Lemma scanned L starts st E ops rest rec v : KnnRun graph dist L starts st E ops rest rec ->
  has_notvisited (s_best st) = false ->
  (In v starts \/ exists x, In x (map e_nbr (firstn L E)) /\ edge graph (n_id x) v) ->
  In v (s_vis st).
Proof.
  intros K HN [Hv|(x & Hx & He)]; apply (v_mem _ _ _ _ _ (k_vis _ _ _ _ _ _ _ _ _ K)); right.
  - now left.
  - right. exists x. split; [|exact He]. apply in_map_iff in Hx. destruct Hx as (e & <- & Hin).
    pose proof (k_run _ _ _ _ _ _ _ _ _ K) as R. pose proof (qr_wf _ _ _ _ _ _ _ _ R) as W.
    assert (V : e_vis e = true).
    { apply (all_visited graph dist _ _ _ W HN). rewrite (qr_L _ _ _ _ _ _ _ _ R). exact Hin. }
    apply in_firstn in Hin.
    destruct (qr_vis _ _ _ _ _ _ _ _ R e Hin V) as [Ho|(e0 & [] & _)]. exact Ho.
Qed.

Lemma c22_local fuel l bw starts res st rec v d : 0 < l -> NoDup starts ->
  knn graph dist fuel l bw (fun _ => false) starts = SOk (res, st, rec) ->
  (In v starts \/ exists x, In x res /\ edge graph (n_id x) v) ->
  dist v = Some d -> is_nan d = false ->
  In (mkNbr v d) res \/
  (length res = l + length starts /\ forall y, In y res -> f32_le (n_dist y) d = true).
Proof.
  intros Hl ND H Hv Hd Hq. destruct (knn_facts _ _ _ _ _ _ _ _ Hl ND H)
    as (E & ops & rest & others & K & -> & HN & P & S & L & C & N). cbv zeta in *.
  pose proof (scanned _ _ _ _ _ _ _ v K (HN (fun _ => eq_refl)) Hv) as Hs.
  assert (Hin : In (mkNbr v d) (inserted ops)).
  { apply (v_all _ _ _ _ _ (k_vis _ _ _ _ _ _ _ _ _ K)); auto. }
  assert (Hval : In (mkNbr v d) (valid (inserted ops))).
  { apply filter_In. cbn. rewrite Hq. auto. }
  apply (Permutation_in _ P) in Hval. apply in_app_or in Hval. destruct Hval as [Hi|Hi]; [now left|].
  right. split; [|intros y Hy; exact (C y _ Hy Hi)].
  apply Permutation_length in P. rewrite app_length in P. destruct others; [destruct Hi|cbn in P]. clear - P L. lia.
Qed.

Lemma c22_exact fuel l bw starts res st rec univ : 0 < l -> NoDup starts ->
  finite_index graph starts univ -> length univ <= l + length starts ->
  (forall i, reach graph starts i -> exists d, dist i = Some d /\ is_nan d = false) ->
  knn graph dist fuel l bw (fun _ => false) starts = SOk (res, st, rec) ->
  forall i, reach graph starts i <-> In i (map n_id res).
Proof.
  intros Hl ND [F1 F2] HU HD H.
  assert (RU : forall i, reach graph starts i -> In i univ).
  { intros i R. induction R; [now apply F1|eauto]. }
  destruct (knn_facts _ _ _ _ _ _ _ _ Hl ND H)
    as (E & ops & rest & others & K & Er & HN & P & S & L & C & N). cbv zeta in *.
  pose proof (k_vis _ _ _ _ _ _ _ _ _ K) as V.
  assert (O : others = []).
  { assert (LV : length (valid (inserted ops)) <= l + length starts).
    { rewrite (Permutation_length P), <- (map_length n_id).
      etransitivity; [|exact HU]. apply NoDup_incl_length; [exact N|].
      intros i Hi. apply in_map_iff in Hi. destruct Hi as (x & <- & Hx). apply RU.
      apply (k_reach _ _ _ _ _ _ _ _ _ K). apply (v_new _ _ _ _ _ V). apply in_valid.
      eapply Permutation_in; [symmetry; exact P|exact Hx]. }
    apply Permutation_length in P. rewrite app_length in P. destruct others; [reflexivity|cbn in P; clear - P L LV; lia]. }
  subst others. rewrite app_nil_r in *.
  intros i. split.
  - intros R. assert (VV : forall j, reach graph starts j -> In j (s_vis st) -> In j (map n_id res)).
    { intros j Rj Hj. destruct (HD j Rj) as (d & Hd & Hq).
      assert (In (mkNbr j d) (valid (inserted ops))).
      { apply filter_In. cbn. rewrite Hq. split; [|reflexivity]. apply (v_all _ _ _ _ _ V); auto. }
      apply (Permutation_in _ P) in H0. apply (in_map n_id) in H0. exact H0. }
    induction R as [s Hs|u v R IH He].
    + apply VV; [now apply reach_start|]. apply (v_mem _ _ _ _ _ V). right. now left.
    + apply VV; [eapply reach_edge; eauto|].
      eapply scanned; [exact K|apply HN; reflexivity|]. right. rewrite <- Er.
      apply in_map_iff in IH. destruct IH as (x & <- & Hx). eauto.
  - intros Hi. apply in_map_iff in Hi. destruct Hi as (x & <- & Hx).
    apply (k_reach _ _ _ _ _ _ _ _ _ K). apply (v_new _ _ _ _ _ V). apply in_valid.
    eapply Permutation_in; [symmetry; exact P|exact Hx].
Qed.

Lemma scratch_reuse_new st l : scratch_reuse st l = scratch_new l.
Proof.
  unfold scratch_reuse, scratch_new. f_equal. cbn [pq_clear q_auto].
  destruct (q_auto (s_best st)) eqn:A; [reflexivity|].
  unfold pq_reconfigure, pq_new. cbn [pq_clear q_size q_cur q_idv q_dist q_auto]. rewrite A. reflexivity.
Qed.

Lemma filter_ss {A} (R : A -> A -> Prop) f l : StronglySorted R l -> StronglySorted R (filter f l).
Proof.
  induction 1 as [|x l S IH F]; cbn; [constructor|]. destruct (f x); auto. constructor; auto.
  apply Forall_forall. intros y Hy. apply filter_In in Hy. rewrite Forall_forall in F. apply F. tauto.
Qed.
Lemma firstn_ss {A} (R : A -> A -> Prop) l : StronglySorted R l -> forall n, StronglySorted R (firstn n l).
Proof.
  induction 1 as [|x l S IH F]; intros [|n]; cbn; constructor; auto. now apply Forall_firstn'.
Qed.
Lemma filter_nodup_ids f (l : list nbr) : NoDup (map n_id l) -> NoDup (map n_id (filter f l)).
Proof.
  induction l as [|x l IH]; cbn; intros N; [constructor|]. inv N.
  destruct (f x); cbn; auto. constructor; auto.
  intros X. apply H1. apply in_map_iff in X. destruct X as (y & <- & Hy). apply filter_In in Hy.
  apply in_map. tauto.
Qed.
Lemma ss_sep (R : nbr -> nbr -> Prop) (l1 l2 : list nbr) : StronglySorted R (l1 ++ l2) ->
  forall x y, In x l1 -> In y l2 -> R x y.
Proof.
  induction l1 as [|a l1 IH]; intros S x y Hx Hy; [destruct Hx|]. cbn in S. inv S.
  destruct Hx as [<-|Hx]; [|eauto]. rewrite Forall_forall in H2. apply H2. apply in_or_app. now right.
Qed.

Lemma c22_post fuel l bw stop starts k res st rec : 0 < l -> NoDup starts ->
  knn graph dist fuel l bw stop starts = SOk (res, st, rec) ->
  let out := post_process starts k res in
  NoDup (map n_id out) /\ StronglySorted closer out /\ length out <= k /\
  (forall x, In x out -> In x res /\ ~ In (n_id x) starts) /\
  (forall x, In x res -> ~ In (n_id x) starts -> In x out \/
     (length out = k /\ forall y, In y out -> f32_le (n_dist y) (n_dist x) = true)).
Proof.
  intros Hl ND H out. destruct (c22_basic _ _ _ _ _ _ _ _ Hl ND H) as (A & B & C & D).
  unfold out, post_process. set (F := filter (fun x => negb (seen (n_id x) starts)) res).
  assert (SF : StronglySorted closer F) by now apply filter_ss.
  assert (NF : NoDup (map n_id F)) by now apply filter_nodup_ids.
  split; [|split; [|split; [|split]]].
  - rewrite <- (firstn_skipn k F), map_app in NF. now apply NoDup_app_inv in NF.
  - now apply firstn_ss.
  - rewrite firstn_length. lia.
  - intros x Hx. apply in_firstn in Hx. apply filter_In in Hx. destruct Hx as [Hx Hs].
    apply negb_true_iff, seen_false in Hs. auto.
  - intros x Hx Hs. assert (HF : In x F).
    { apply filter_In. split; [exact Hx|]. apply negb_true_iff. now apply seen_false. }
    rewrite <- (firstn_skipn k F) in HF. apply in_app_or in HF. destruct HF as [HF|HF]; [now left|].
    right. split.
    + assert (length (skipn k F) > 0) by (destruct (skipn k F); [destruct HF|cbn; lia]).
      rewrite skipn_length in H0. rewrite firstn_length. lia.
    + intros y Hy. rewrite <- (firstn_skipn k F) in SF. exact (ss_sep _ _ _ SF y x Hy HF).
Qed.

Lemma c23_total fuel l bw stop starts univ : 0 < l -> 0 < bw -> NoDup starts ->
  finite_index graph starts univ -> length univ <= fuel ->
  (forall i, In i starts -> dist i <> None) ->
  (forall i, reach graph starts i -> graph i <> None) ->
  exists out, knn graph dist fuel l bw stop starts = SOk out.
Proof.
  intros Hl Hb ND FI Hf HD HG.
  pose proof (knn_spec graph dist fuel l bw stop starts ltac:(lia) ND) as KS. cbv zeta in KS.
  pose proof (knn_fuel graph dist fuel l bw stop starts univ ltac:(lia) ltac:(lia) ND FI Hf) as KF.
  destruct (knn graph dist fuel l bw stop starts) as [out| | |]; try contradiction; try congruence; [eauto|].
  destruct KS as [(s & Hs & Ds)|(x & Rx & Gx)]; [now apply HD in Hs|now apply HG in Rx].
Qed.

Lemma c23_work fuel l bw stop starts res st rec : 0 < l -> NoDup starts ->
  knn graph dist fuel l bw stop starts = SOk (res, st, rec) ->
  NoDup (map n_id rec) /\ s_hops st = length rec /\
  exists scanned, NoDup scanned /\ s_cmps st = length scanned /\
    (forall i, In i scanned <->
       dist i <> None /\ (In i starts \/ exists x, In x rec /\ edge graph (n_id x) i)).
Proof.
  intros Hl ND H. destruct (knn_facts _ _ _ _ _ _ _ _ Hl ND H)
    as (E & ops & rest & others & K & -> & HN & P & S & L & C & N). cbv zeta in *.
  pose proof (k_vis _ _ _ _ _ _ _ _ _ K) as V.
  split; [|split; [apply (k_hops _ _ _ _ _ _ _ _ _ K)|]].
  - apply (c15_once_lemma (l + length starts) false ops (s_best st) rec); [lia| |apply V|].
    + eapply Forall_impl; [|exact (k_plain _ _ _ _ _ _ _ _ _ K)]. intros [x| | |] Hp; cbn in *; tauto.
    + exact (qr_run _ _ _ _ _ _ _ _ (k_run _ _ _ _ _ _ _ _ _ K)).
  - exists (map n_id (inserted ops)). split; [apply V|].
    split; [rewrite map_length; apply (k_cmps _ _ _ _ _ _ _ _ _ K)|].
    intros i. split.
    + intros Hi. apply in_map_iff in Hi. destruct Hi as (x & <- & Hx).
      destruct (v_new _ _ _ _ _ V x Hx) as (_ & N2 & N3). unfold scored in N3. split; [congruence|].
      apply (v_mem _ _ _ _ _ V) in N2. destruct N2 as [[]|N2]. exact N2.
    + intros [Hd Hi]. destruct (dist i) as [d|] eqn:Di; [|congruence].
      assert (In (mkNbr i d) (inserted ops)).
      { apply (v_all _ _ _ _ _ V); auto. apply (v_mem _ _ _ _ _ V). now right. }
      apply (in_map n_id) in H0. exact H0.
Qed.

Lemma c24_exact fuel starts n : count_reachable_nodes graph fuel starts = SOk n ->
  exists r, NoDup r /\ length r = n /\ forall i, In i r <-> reach graph starts i.
Proof.
  unfold count_reachable_nodes. intros H.
  pose proof (bfs_spec graph starts fuel [] starts) as B. rewrite H in B. apply B.
  - constructor.
  - intros i [].
  - intros i Hi. now apply reach_start.
  - auto.
  - intros u v [].
Qed.

Lemma c24_total starts univ :
  finite_index graph starts univ -> (forall i, reach graph starts i -> graph i <> None) ->
  exists fuel n, forall fuel', fuel <= fuel' -> count_reachable_nodes graph fuel' starts = SOk n.
Proof.
  intros [F1 F2] HG. set (U := nodup Nat.eq_dec univ).
  assert (IU : forall i, In i U <-> In i univ) by (intros i; apply nodup_In).
  set (fuel := degsum graph U [] + length starts).
  assert (T : forall f, fuel <= f -> exists n, count_reachable_nodes graph f starts = SOk n).
  { intros f Hf. unfold count_reachable_nodes.
    pose proof (bfs_fuel graph dist U (NoDup_nodup _ _)) as BF.
    specialize (BF ltac:(intros u v Hu He; apply IU in Hu; apply IU; eauto) f [] starts).
    specialize (BF ltac:(intros i Hi; apply IU; now apply F1) Hf).
    pose proof (bfs_spec graph starts f [] starts) as B.
    specialize (B ltac:(constructor) ltac:(intros i []) ltac:(intros i Hi; now apply reach_start)
                  ltac:(auto) ltac:(intros u v [])).
    destruct (bfs graph f [] starts) as [n| | |]; try contradiction; try congruence; [eauto|].
    destruct B as (i & Ri & Gi). now apply HG in Ri. }
  destruct (T fuel ltac:(lia)) as (n & Hn). exists fuel, n. intros f Hf.
  destruct (T f Hf) as (m & Hm). rewrite Hm. f_equal.
  destruct (c24_exact _ _ _ Hn) as (r & N1 & <- & H1), (c24_exact _ _ _ Hm) as (r' & N2 & <- & H2).
  apply Nat.le_antisymm; apply NoDup_incl_length; auto; intros i Hi; [apply H1, H2|apply H2, H1]; auto.
Qed.

(** ** Range search *)
Lemma accept_spec p d : range_accept p d = true <->
  f32_le d (r_radius p) = true /\ (forall i, r_inner p = Some i -> f32_le d i = false).
Proof.
  unfold range_accept. destruct (r_inner p) as [ir|].
  - destruct (f32_le d ir) eqn:E; split.
    + discriminate.
    + intros [_ H]. specialize (H _ eq_refl). congruence.
    + intros H. split; [exact H|]. intros i [= <-]. exact E.
    + tauto.
  - split; [|tauto]. intros H. split; [exact H|discriminate].
Qed.

Lemma c25_sound fuel fuel2 p stop starts o : range_valid p = true -> NoDup starts ->
  range_search graph dist fuel fuel2 p stop starts = SOk o ->
  NoDup (map n_id (ro_results o)) /\
  (forall m, r_max p = Some m -> length (ro_results o) <= m) /\
  forall x, In x (ro_results o) ->
    dist (n_id x) = Some (n_dist x) /\ reach graph starts (n_id x) /\
    f32_le (n_dist x) (r_radius p) = true /\
    (forall i, r_inner p = Some i -> f32_le (n_dist x) i = false).
Proof.
  intros HV ND H. pose proof (range_spec graph dist fuel fuel2 p stop starts HV ND) as RS.
  rewrite H in RS. destruct RS as (vis & fr & I & E & _). rewrite E. split; [|split].
  - apply filter_nodup_ids, I.
  - intros m Hm. pose proof (ri_max _ _ _ _ _ _ _ _ I m Hm) as M.
    pose proof (filter_le (fun x => range_accept p (n_dist x)) (fun _ => true) (ro_internal o)) as F.
    assert (T : filter (fun _ : nbr => true) (ro_internal o) = ro_internal o).
    { clear. induction (ro_internal o); cbn; congruence. }
    rewrite T in F. specialize (F ltac:(auto)). lia.
  - intros x Hx. apply filter_In in Hx. destruct Hx as [Hx Ha]. apply accept_spec in Ha.
    destruct (ri_vis _ _ _ _ _ _ _ _ I x Hx) as [V S]. split; [exact S|].
    split; [now apply (ri_reach _ _ _ _ _ _ _ _ I)|exact Ha].
Qed.

Lemma c25_complete fuel fuel2 p stop starts o v d : range_valid p = true -> NoDup starts ->
  range_search graph dist fuel fuel2 p stop starts = SOk o ->
  ro_second o = true -> (forall m, r_max p = Some m -> length (ro_internal o) < m) ->
  linked graph dist (r_limit p) (map n_id (ro_first o)) v -> dist v = Some d ->
  f32_le d (r_radius p) = true -> (forall i, r_inner p = Some i -> f32_le d i = false) ->
  In (mkNbr v d) (ro_results o).
Proof.
  intros HV ND H H2 HR HL Hd Hr Hi. pose proof (range_spec graph dist fuel fuel2 p stop starts HV ND) as RS.
  rewrite H in RS. destruct RS as (vis & fr & I & E & HF).
  assert (R : room p (length (ro_internal o)) = true).
  { unfold room. destruct (r_max p) as [m|]; [|reflexivity]. apply Nat.ltb_lt. now apply HR. }
  specialize (HF H2 R). subst fr. destruct I as [I1 I2 I3 I4 I5 I6 I7 I8].
  destruct I1 as (more & Em & Hm).
  assert (IN : forall u, linked graph dist (r_limit p) (map n_id (ro_first o)) u ->
     exists x, In x (ro_internal o) /\ n_id x = u).
  { intros u Hu. induction Hu as [s Hs|u w dw Hu IH He Dw Lw].
    - apply in_map_iff in Hs. destruct Hs as (x & <- & Hx). exists x. split; [|reflexivity].
      rewrite Em. apply in_or_app. now left.
    - destruct IH as (x & Hx & <-). destruct (I5 x w Hx He) as [[]|Hw].
      exists (mkNbr w dw). split; [now apply I7|reflexivity]. }
  destruct (IN v HL) as (x & Hx & Ex). rewrite E. apply filter_In.
  destruct (I3 x Hx) as [_ S]. unfold scored in S. rewrite Ex, Hd in S. injection S as S.
  destruct x as [xi xd]. cbn in *. subst. split; [exact Hx|]. apply accept_spec. auto.
Qed.

Lemma c25_first fuel fuel2 p stop starts o best st rec : range_valid p = true -> NoDup starts ->
  range_search graph dist fuel fuel2 p stop starts = SOk o ->
  knn graph dist fuel (r_l p) (r_bw p) stop starts = SOk (best, st, rec) ->
  forall x, In x (firstn (r_l p) best) -> f32_le (n_dist x) (r_radius p) = true ->
    (forall i, r_inner p = Some i -> f32_le (n_dist x) i = false) -> In x (ro_results o).
Proof.
  intros HV ND H HK x Hx Hr Hi. pose proof (range_spec graph dist fuel fuel2 p stop starts HV ND) as RS.
  rewrite H in RS. destruct RS as (vis & fr & I & E & _).
  destruct (ri_first _ _ _ _ _ _ _ _ I) as (more & Em & _).
  rewrite E. apply filter_In. split; [|apply accept_spec; auto].
  rewrite Em. apply in_or_app. left.
  unfold range_search in H. rewrite HK in H.
  destruct (_ && _).
  - destruct (range_loop _ _ _ _ _ _ _ _ _) as [[[all c] h]| | |]; try discriminate.
    injection H as <-. cbn [ro_first]. apply filter_In. auto.
  - injection H as <-. cbn [ro_first]. apply filter_In. auto.
Qed.

Lemma c25_total fuel fuel2 p stop starts univ : range_valid p = true -> NoDup starts ->
  finite_index graph starts univ -> length univ <= fuel -> length univ <= fuel2 ->
  (forall i, In i starts -> dist i <> None) ->
  (forall i, reach graph starts i -> graph i <> None) ->
  exists o, range_search graph dist fuel fuel2 p stop starts = SOk o.
Proof.
  intros HV ND FI Hf Hf2 HD HG. pose proof (range_spec graph dist fuel fuel2 p stop starts HV ND) as RS.
  pose proof (range_fuel graph dist fuel fuel2 p stop starts univ HV ND FI Hf Hf2) as RF.
  destruct (range_search graph dist fuel fuel2 p stop starts) as [o| | |]; try contradiction; try congruence; [eauto|].
  destruct RS as [(s & Hs & Ds)|(x & Rx & Gx)]; [now apply HD in Hs|now apply HG in Rx].
Qed.

(** ** Paged search *)
Lemma c26_run fuel stop l starts init ks p0 p pgs (nv : Prop) : 0 < l -> NoDup starts ->
  (nv -> forall n, stop n = false) ->
  paged_new graph dist l starts init = SOk p0 ->
  pages graph dist fuel stop starts ks p0 = SOk (p, pgs) ->
  let ini := match init with Some i => i | None => starts end in
  exists E taken, PP graph dist starts ini l nv p E taken /\
    concat pgs = filter (nonstart starts) taken /\
    Forall2 (fun k pg => length pg <= k) ks pgs /\ Forall (StronglySorted closer) pgs.
Proof.
  intros Hl ND HS HN HP ini.
  pose proof (paged_new_spec graph dist starts ini l Hl init eq_refl) as PN. rewrite HN in PN.
  destruct PN as (E0 & P0).
  pose proof (pages_spec graph dist starts ini l Hl ND nv fuel stop HS ks p0 E0 [] (P0 nv)) as PS.
  rewrite HP in PS. destruct PS as (E & taken & A & B & C & D & _). exists E, taken. auto.
Qed.

Lemma c26_pages fuel stop l starts init ks p0 p pgs : 0 < l -> NoDup starts ->
  paged_new graph dist l starts init = SOk p0 ->
  pages graph dist fuel stop starts ks p0 = SOk (p, pgs) ->
  NoDup (map n_id (concat pgs)) /\
  Forall2 (fun k pg => length pg <= k) ks pgs /\
  Forall (StronglySorted closer) pgs /\
  forall x, In x (concat pgs) ->
    dist (n_id x) = Some (n_dist x) /\ ~ In (n_id x) starts /\
    reach graph (match init with Some i => i | None => starts end ++ starts) (n_id x).
Proof.
  intros Hl ND HN HP.
  destruct (c26_run fuel stop l starts init ks p0 p pgs False Hl ND ltac:(tauto) HN HP)
    as (E & taken & [I _ _] & CP & F2 & SS). cbv zeta in *.
  split; [|split; [exact F2|split; [exact SS|]]].
  - rewrite CP. apply filter_nodup_ids. pose proof (pi_nodup _ _ _ _ _ _ _ _ _ I) as N.
    rewrite map_app in N. now apply NoDup_app_inv in N.
  - intros x Hx. rewrite CP in Hx. apply filter_In in Hx. destruct Hx as [Hx Hs].
    apply nonstart_in in Hs.
    destruct (pi_seen _ _ _ _ _ _ _ _ _ I x ltac:(apply in_or_app; now left)) as (V & S & _).
    split; [exact S|]. split; [exact Hs|].
    exact (pi_reach _ _ _ _ _ _ _ _ _ I _ V).
Qed.

Lemma c26_init fuel stop l starts init ks p0 p pgs : 0 < l -> NoDup starts ->
  paged_new graph dist l starts (Some init) = SOk p0 ->
  pages graph dist fuel stop starts ks p0 = SOk (p, pgs) ->
  forall x, In x (concat pgs) -> ~ In (n_id x) init.
Proof.
  intros Hl ND HN HP x Hx.
  destruct (c26_run fuel stop l starts (Some init) ks p0 p pgs False Hl ND ltac:(tauto) HN HP)
    as (E & taken & [I _ _] & CP & F2 & SS). cbv zeta in *.
  rewrite CP in Hx. apply filter_In in Hx. destruct Hx as [Hx _].
  apply (pi_seen _ _ _ _ _ _ _ _ _ I x). apply in_or_app. now left.
Qed.

Lemma pages_app fuel stop starts ks1 : forall ks2 p r, pages graph dist fuel stop starts (ks1 ++ ks2) p = SOk r ->
  exists p1 a b, pages graph dist fuel stop starts ks1 p = SOk (p1, a) /\ length a = length ks1 /\
    pages graph dist fuel stop starts ks2 p1 = SOk (fst r, b) /\ snd r = a ++ b.
Proof.
  induction ks1 as [|k ks1 IH]; intros ks2 p [p' pgs] H; cbn [app pages] in *.
  - exists p, [], pgs. auto.
  - destruct (next_page graph dist fuel stop starts k p) as [[p1 page]| | |]; try discriminate.
    destruct (pages graph dist fuel stop starts (ks1 ++ ks2) p1) as [[p2 rest]| | |] eqn:P; try discriminate.
    injection H as <- <-. destruct (IH _ _ _ P) as (p3 & a & b & A1 & A2 & A3 & A4). cbn in *.
    rewrite A1. exists p3, (page :: a), b. cbn. rewrite A4. auto.
Qed.

Lemma c26_exhausted fuel l starts ks1 k ks2 p0 p pgs1 pg pgs2 : 0 < l -> NoDup starts -> starts <> [] ->
  (forall i, reach graph starts i -> exists d, dist i = Some d /\ is_nan d = false) ->
  paged_new graph dist l starts None = SOk p0 ->
  pages graph dist fuel (fun _ => false) starts (ks1 ++ k :: ks2) p0 = SOk (p, pgs1 ++ pg :: pgs2) ->
  length pgs1 = length ks1 -> length pg < k ->
  (forall i, reach graph starts i -> ~ In i starts -> In i (map n_id (concat pgs1 ++ pg))) /\
  Forall (fun q => q = []) pgs2.
Proof.
  intros Hl ND HS HD HN HP Len Short.
  destruct (pages_app _ _ _ _ _ _ _ HP) as (p1 & a & b & A1 & A2 & A3 & A4). cbn [fst snd] in *.
  assert (a = pgs1 /\ b = pg :: pgs2).
  { clear - A2 A4 Len. revert a ks1 A2 A4 Len. induction pgs1 as [|q pgs1 IH]; intros [|c a] [|k ks1] A2 A4 Len;
      cbn in *; try discriminate; auto.
    injection A4 as <- A4. destruct (IH a ks1) as [-> ->]; auto. }
  destruct H as [-> ->].
  destruct (c26_run fuel _ l starts None ks1 p0 p1 pgs1 True Hl ND (fun _ _ => eq_refl) HN A1)
    as (E1 & taken & P1 & CP & _). cbv zeta in *.
  cbn [pages] in A3.
  pose proof (next_page_spec graph dist starts starts l Hl ND True fuel (fun _ => false) k p1 E1 taken P1 (fun _ _ => eq_refl)) as NP.
  destruct (next_page graph dist fuel (fun _ => false) starts k p1) as [[p2 page]| | |]; try discriminate.
  destruct (pages graph dist fuel (fun _ => false) starts ks2 p2) as [[p3 rest]| | |] eqn:PE; try discriminate.
  injection A3 as <- <- <-.
  destruct NP as (E2 & n & Em & P2 & _ & PG & LK & SS & NN & HE & _ & MO).
  specialize (HE Short). subst E2. split.
  - intros i R NI.
    destruct (exhausted graph dist starts starts l True p2 _ P2 Logic.I (fun x H => H) HD
                (fun s H => reach_start graph starts s H) i R NI) as (d & Hg & Hd).
    rewrite CP, PG, <- filter_app. apply in_map_iff. exists (mkNbr i d). split; [reflexivity|].
    apply filter_In. split; [exact Hg|]. now apply nonstart_in.
  - pose proof (pages_spec graph dist starts starts l Hl ND True fuel (fun _ => false) (fun _ _ => eq_refl) ks2 p2 [] _ P2) as PS.
    rewrite PE in PS. destruct PS as (E3 & tk & _ & _ & _ & _ & HF & _). apply HF; [reflexivity|].
    destruct starts as [|s0 starts']; [congruence|]. intros Hv.
    pose proof (pi_init _ _ _ _ _ _ _ _ _ (pp_inv _ _ _ _ _ _ _ _ _ P2) s0 (or_introl eq_refl)) as Z.
    rewrite Hv in Z. destruct Z.
Qed.

Lemma c26_total fuel stop l starts init ks univ : 0 < l -> NoDup starts ->
  finite_index graph (match init with Some i => i | None => starts end ++ starts) univ ->
  length univ < fuel ->
  (forall k, In k ks -> 0 < k <= l) ->
  (forall i, In i starts -> dist i <> None) ->
  (forall i, reach graph (match init with Some i => i | None => starts end ++ starts) i -> graph i <> None) ->
  exists p0 out, paged_new graph dist l starts init = SOk p0 /\
    pages graph dist fuel stop starts ks p0 = SOk out.
Proof.
  intros Hl ND [F1 F2] Hf Hk HD HG. set (ini := match init with Some i => i | None => starts end) in *.
  pose proof (paged_new_spec graph dist starts ini l Hl init eq_refl) as PN.
  destruct (paged_new graph dist l starts init) as [p0| | |]; try contradiction.
  2:{ exfalso. destruct PN as (x & Hx & Gx). apply (HG x); [|exact Gx]. apply reach_start.
      apply in_or_app. now left. }
  destruct PN as (E0 & P0). exists p0.
  set (U := nodup Nat.eq_dec univ).
  assert (IU : forall i, In i U <-> In i univ) by (intros i; apply nodup_In).
  assert (LU : length U <= length univ).
  { apply NoDup_incl_length; [apply NoDup_nodup|]. intros i. apply IU. }
  pose proof (pages_fuel graph dist starts ini l Hl ND fuel stop U (NoDup_nodup _ _)) as PF.
  specialize (PF ltac:(intros u v Hu He; apply IU in Hu; apply IU; eauto)
                 ltac:(intros i Hi; apply IU; now apply F1) ltac:(lia) ks p0 E0 [] (P0 False)).
  pose proof (pages_spec graph dist starts ini l Hl ND False fuel stop ltac:(tauto) ks p0 E0 [] (P0 False)) as PS.
  destruct (pages graph dist fuel stop starts ks p0) as [out| | |]; try contradiction; try congruence; [eauto|].
  exfalso. destruct PS as [(k & Hin & B)|[(s & Hs & Ds)|(x & Rx & Gx)]].
  - specialize (Hk k Hin). lia.
  - exact (HD s Hs Ds).
  - exact (HG x Rx Gx).
Qed.
End main.

Lemma c25_hops_refuted : exists graph dist p o,
  range_valid p = true /\ finite_index graph [0] [0] /\
  range_search graph dist 5 5 p (fun _ => false) [0] = SOk o /\ ro_hops o = 3.
Proof.
  exists (fun i => match i with 0 => Some [] | _ => None end), (fun _ => Some f32_zero),
         (mkRange None 1 1 f32_zero None 1 f32_zero). eexists.
  split; [reflexivity|]. split; [|split; vm_compute; reflexivity].
  split; [intros i Hi; exact Hi|]. intros u v [<-|[]] (ns & G & Hv). inv G. destruct Hv.
Qed.
