From Verif.Lib Require Import Base Lists F32.
From Verif.Search Require Import Proofs ProofsKnn.
From Verif.Filtered Require Import Proofs Proofs2 Proofs3 Proofs6.
From Verif.Output Require Import Proofs.
From Verif.DiskSearch Require Import Model Spec.

Section disk.
Context {V A : Type} (nodes : nat -> option (node V A)).
Variable full : V -> f32.
Variable pq : nat -> f32.
Variable npts maxv limit medoid : nat.
Variable keepv : bool.
Hypothesis DI : disk_index nodes npts maxv medoid.
Notation graph := (graph_of nodes).
Notation pqd := (pq_of nodes pq).

Definition stored (i : nat) : Prop := nodes i <> None.

Lemma stored_lt i : stored i <-> i < npts.
Proof. symmetry. apply (di_points _ _ _ _ DI). Qed.

(** The outcome of something that reads: a failed read, or the one value [x]. *)
Definition reads {St X} (P : vprov St V A) (inv : St -> Prop) (r : sres X) (Q : X -> Prop) : Prop :=
  (r = SErr /\ ~ reliable nodes P inv) \/ exists x, r = SOk x /\ Q x.

Definition ent (i : nat) : list (nat * (f32 * A * option V)) :=
  match nodes i with
  | Some nd => [(i, (full (nd_vec nd), nd_data nd, if keepv then Some (nd_vec nd) else None))]
  | None => []
  end.
Definition cache_of (ids : list nat) := rev (flat_map ent ids).

Section provider.
Context {St : Type} (P : vprov St V A) (inv : St -> Prop) (SV : serves nodes P inv).

Lemma ensure_ok s ids : inv s -> NoDup ids -> (forall i, In i ids -> stored i) ->
  reads P inv (ensure_vertex_loaded P s ids) (fun s' => inv s' /\ holds nodes P s' ids).
Proof.
  intros I ND Hs. pose proof (sv_load _ _ _ SV s ids I ND Hs) as L.
  destruct (ensure_vertex_loaded P s ids) as [s'| | |] eqn:E; try contradiction.
  - right. eauto.
  - left. split; [reflexivity|]. intros R. exact (R s ids I ND Hs E).
Qed.

Lemma cache_all_ok s ids : (forall i, In i ids -> stored i) -> holds nodes P s ids -> forall c,
  cache_all P full keepv s c ids = Some (rev (flat_map ent ids) ++ c).
Proof.
  induction ids as [|i ids IH]; intros Hs H c; [reflexivity|]. cbn [cache_all flat_map].
  destruct (nodes i) as [nd|] eqn:N; [|exfalso; apply (Hs i); [now left|exact N]].
  destruct (H i nd (or_introl eq_refl) N) as (-> & _ & ->).
  rewrite IH.
  - unfold ent at 2. rewrite N. cbn [app rev]. now rewrite <- app_assoc.
  - intros j Hj. apply Hs. now right.
  - intros j nj Hj. apply H. now right.
Qed.

Definition AccOK (acc : dacc St V A) (loaded : list nat) : Prop :=
  inv (d_vp acc) /\ d_cache acc = cache_of loaded /\ d_io acc = length loaded.

Lemma ensure_loaded_ok acc loaded ids : AccOK acc loaded -> NoDup ids -> (forall i, In i ids -> stored i) ->
  reads P inv (ensure_loaded P full keepv acc ids)
    (fun acc' => AccOK acc' (loaded ++ ids) /\ holds nodes P (d_vp acc') ids).
Proof.
  intros (A1 & A2 & A3) ND Hs. destruct ids as [|i ids].
  - right. exists acc. split; [reflexivity|]. rewrite app_nil_r. split; [now split|]. intros j nj [].
  - set (l := i :: ids) in *. unfold ensure_loaded.
    destruct (ensure_ok (d_vp acc) l A1 ND Hs) as [(E & R)|(s & E & I & H)].
    + left. subst l. rewrite E. auto.
    + right. exists (mkAcc s (cache_of (loaded ++ l)) (length (loaded ++ l))). split.
      * subst l. rewrite E. rewrite (cache_all_ok s _ Hs H), A2, A3. unfold cache_of.
        now rewrite flat_map_app, rev_app_distr, app_length.
      * split; [|exact H]. now split.
Qed.

Lemma fresh_visit ns : (forall j, In j ns -> stored j) -> forall vis,
  let (v', o) := fresh vis ns in
  visit_all pqd vis ns = (v', map (fun i => mkNbr i (pq i)) o) /\ incl o ns /\ length o <= length ns.
Proof.
  induction ns as [|n ns IH]; intros Hs vis; cbn [fresh visit_all].
  - split; [reflexivity|]. split; [intros x []|reflexivity].
  - destruct (seen n vis) eqn:S.
    + specialize (IH (fun j Hj => Hs j (or_intror Hj)) vis). destruct (fresh vis ns) as [v' o].
      destruct IH as (-> & I & L). split; [reflexivity|]. split; [intros x Hx; right; auto|cbn [length]; lia].
    + specialize (IH (fun j Hj => Hs j (or_intror Hj)) (n :: vis)). destruct (fresh (n :: vis) ns) as [v' o].
      destruct IH as (-> & I & L). split.
      * unfold pq_of. destruct (nodes n) eqn:N; [reflexivity|]. exfalso. apply (Hs n); [now left|exact N].
      * split; [intros x [<-|Hx]; [now left|right; auto]|cbn [length]; lia].
Qed.

Lemma pq_distances_ok ids : (forall i, In i ids -> stored i) -> length ids <= maxv ->
  pq_distances pq npts maxv ids = SOk (map (fun i => mkNbr i (pq i)) ids).
Proof.
  intros Hs Hl. unfold pq_distances. destruct (Nat.ltb_spec maxv (length ids)); [lia|].
  replace (forallb (fun i => i <? npts) ids) with true; [reflexivity|]. symmetry. apply forallb_forall.
  intros i Hi. apply Nat.ltb_lt, stored_lt, Hs, Hi.
Qed.

Lemma expand_loaded_ok s ids : (forall i, In i ids -> stored i) -> holds nodes P s ids -> forall vis,
  exists vis' out, expand_beam graph pqd vis ids = Some (vis', out) /\
    expand_loaded P pq npts maxv s vis ids = SOk (vis', out).
Proof.
  induction ids as [|i ids IH]; intros Hs H vis; [exists vis, []; now split|].
  cbn [expand_beam expand_loaded].
  destruct (nodes i) as [nd|] eqn:N; [|exfalso; apply (Hs i); [now left|exact N]].
  destruct (H i nd (or_introl eq_refl) N) as (_ & -> & _). unfold graph_of at 1. rewrite N. cbn [option_map].
  pose proof (fresh_visit (nd_adj nd)
    (fun j Hj => proj2 (stored_lt j) (di_edges _ _ _ _ DI i nd j N Hj)) vis) as F.
  destruct (fresh vis (nd_adj nd)) as [v1 o]. destruct F as (-> & I & L).
  rewrite pq_distances_ok.
  - destruct (IH (fun j Hj => Hs j (or_intror Hj)) (fun j nj Hj => H j nj (or_intror Hj)) v1)
      as (v2 & out & -> & ->). eauto.
  - intros j Hj. apply stored_lt. eapply (di_edges _ _ _ _ DI); eauto.
  - pose proof (di_degree _ _ _ _ DI i nd N). lia.
Qed.

Lemma expand_total ids : (forall i, In i ids -> stored i) -> forall vis,
  exists vis' out, expand_beam graph pqd vis ids = Some (vis', out).
Proof.
  intros Hs vis. destruct (expand_beam graph pqd vis ids) as [[v o]|] eqn:E; [eauto|].
  destruct (expand_fail graph pqd _ _ E) as (i & Hi & G). exfalso. unfold graph_of in G.
  specialize (Hs i Hi). unfold stored in Hs. destruct (nodes i); [discriminate|congruence].
Qed.

Lemma d_expand_ok acc loaded vis ids vis' out : AccOK acc loaded -> length loaded <= limit ->
  NoDup ids -> (forall i, In i ids -> stored i) ->
  expand_beam graph pqd vis (firstn (limit - length loaded) ids) = Some (vis', out) ->
  reads P inv (d_expand P full pq npts maxv limit keepv acc vis ids)
    (fun r => AccOK (fst (fst r)) (loaded ++ firstn (limit - length loaded) ids) /\
       snd (fst r) = vis' /\ snd r = out).
Proof.
  intros AO L ND Hs X. pose proof AO as (A1 & A2 & A3). unfold d_expand. rewrite A3.
  destruct (Nat.ltb_spec limit (length loaded)); [lia|].
  set (li := firstn (limit - length loaded) ids) in *.
  assert (Hl : forall i, In i li -> stored i) by (intros i Hi; apply Hs; eapply in_firstn; eauto).
  assert (NDl : NoDup li) by (apply NoDup_firstn; exact ND).
  destruct (ensure_loaded_ok acc loaded li AO NDl Hl) as [(E & R)|(acc' & E & AO' & H')].
  - left. now rewrite E.
  - right. rewrite E. destruct (expand_loaded_ok (d_vp acc') li Hl H' vis) as (v2 & o2 & X2 & ->).
    rewrite X in X2. injection X2 as <- <-. eauto.
Qed.
End provider.

(** ** The search state *)
Record DInv (L : nat) (p : bool) (c0 : nat) (st : sst) (xs rec : list nbr) : Prop := {
  dn_nav : Nav L p (s_best st) xs rec;
  dn_vis : Visits pqd [] (s_vis st) xs (Grown graph [medoid] (firstn limit rec));
  dn_reach : forall i, In i (s_vis st) -> reach graph [medoid] i;
  dn_hops : s_hops st = length rec;
  dn_cmps : s_cmps st + c0 = length xs
}.

Lemma reach_stored i : reach graph [medoid] i -> stored i.
Proof.
  intros R. induction R as [s [<-|[]]|u v R IH (ns & G & Hv)].
  - apply stored_lt, (di_medoid _ _ _ _ DI).
  - unfold graph_of in G. destruct (nodes u) as [nd|] eqn:N; [|discriminate]. injection G as <-.
    apply stored_lt. eapply (di_edges _ _ _ _ DI); eauto.
Qed.

Lemma dinv_stored L p c0 st xs rec x : DInv L p c0 st xs rec -> In x xs ->
  stored (n_id x) /\ reach graph [medoid] (n_id x) /\ n_dist x = pq (n_id x).
Proof.
  intros D Hx. destruct (v_new _ _ _ _ _ (dn_vis _ _ _ _ _ _ D) x Hx) as (_ & V2 & V3).
  pose proof (dn_reach _ _ _ _ _ _ D _ V2) as R. pose proof (reach_stored _ R) as S.
  split; [exact S|]. split; [exact R|]. unfold scored, pq_of in V3. unfold stored in S.
  destruct (nodes (n_id x)); [congruence|contradiction].
Qed.

Lemma dinv_ids L p c0 st xs rec : 0 < L -> DInv L p c0 st xs rec -> NoDup (map n_id rec).
Proof. intros HL D. apply (nav_nodup L p _ xs _ HL (v_nodup _ _ _ _ _ (dn_vis _ _ _ _ _ _ D)) (dn_nav _ _ _ _ _ _ D)). Qed.

(** One round: what happens does not depend on the provider, unless a read fails. *)
Lemma step_ok L p c0 bw st xs rec q1 beam : 0 < L -> DInv L p c0 st xs rec ->
  take_beam bw (s_best st) = Some (q1, beam) ->
  exists st' ns, DInv L p c0 st' (xs ++ ns) (rec ++ beam) /\
    (limit >= length (rec ++ beam) -> exists vis, expand_beam graph pqd (s_vis st) (map n_id beam) = Some (vis, ns) /\
       exists q2, insert_all q1 ns = Some q2 /\
       st' = mkSst q2 vis (s_cmps st + length ns) (s_hops st + length beam)) /\
    forall St (P : vprov St V A) inv, serves nodes P inv -> forall acc,
    AccOK inv acc (map n_id (firstn limit rec)) ->
    reads P inv (d_step P full pq npts maxv limit keepv acc q1 beam st)
      (fun r => snd (fst r) = st' /\ snd r = ns /\
         AccOK inv (fst (fst r)) (map n_id (firstn limit (rec ++ beam)))).
Proof.
  intros HL D T. pose proof D as [D1 D2 D3 D4 D5].
  destruct (nav_beam _ _ _ _ _ bw D1) as (q1' & beam' & T' & N1 & B1 & NB). rewrite T in T'. injection T' as <- <-.
  assert (Hb : forall i, In i (map n_id beam) -> stored i).
  { intros i Hi. apply in_map_iff in Hi. destruct Hi as (x & <- & Hx). eapply dinv_stored; eauto. }
  assert (NDb : NoDup (map n_id beam)).
  { pose proof (nav_nodup _ _ _ _ _ HL (v_nodup _ _ _ _ _ D2) N1) as H. rewrite map_app in H.
    now destruct (NoDup_app_inv _ _ H) as (_ & ? & _). }
  set (m := limit - length rec).
  assert (Hm : limit - length (map n_id (firstn limit rec)) = m).
  { rewrite map_length, firstn_length. unfold m. lia. }
  destruct (expand_total (firstn m (map n_id beam)) (fun i Hi => Hb i (in_firstn _ _ _ Hi)) (s_vis st))
    as (vis & ns & X).
  destruct (nav_insert _ _ _ _ _ ns N1) as (q2 & I2 & N2).
  exists (mkSst q2 vis (s_cmps st + length ns) (s_hops st + length beam)), ns.
  assert (FN : firstn limit (rec ++ beam) = firstn limit rec ++ firstn m beam) by apply firstn_app.
  split; [|split].
  - destruct (expand_beam_spec _ _ _ _ _ _ X) as [Vi G]. rewrite firstn_map in Vi.
    constructor; cbn [s_best s_vis s_hops s_cmps]; auto.
    + rewrite FN. eapply visits_rec; eauto.
    + intros i Hi. apply (v_mem _ _ _ _ _ Vi) in Hi. destruct Hi as [Hi|(u & Hu & He)]; [auto|].
      apply in_map_iff in Hu. destruct Hu as (x & <- & Hx). eapply reach_edge; [|exact He].
      apply in_firstn in Hx. eapply dinv_stored; eauto.
    + rewrite D4, app_length. reflexivity.
    + rewrite app_length. clear -D5. lia.
  - intros Hlim. exists vis. rewrite app_length in Hlim.
    rewrite firstn_all2 in X by (rewrite map_length; unfold m; lia). split; [exact X|]. eauto.
  - intros St P inv SV acc AO. unfold d_step.
    destruct (d_expand_ok P inv SV acc (map n_id (firstn limit rec)) (s_vis st) (map n_id beam) vis ns AO)
      as [(E & R)|([[acc' v'] o'] & E & AO' & E1 & E2)]; auto.
    + rewrite map_length, firstn_length. lia.
    + rewrite Hm. exact X.
    + left. rewrite E. auto.
    + right. cbn [fst snd] in *. subst v' o'. rewrite E, I2. eexists. split; [reflexivity|].
      cbn [fst snd]. split; [reflexivity|]. split; [reflexivity|].
      rewrite Hm, firstn_map in AO'. now rewrite FN, map_app.
Qed.

Lemma dinv_bound L p c0 st xs rec bw q1 beam : 0 < L -> DInv L p c0 st xs rec ->
  take_beam bw (s_best st) = Some (q1, beam) -> length rec + length beam <= npts.
Proof.
  intros HL D T. pose proof D as [D1 D2 D3 D4 D5].
  destruct (nav_beam _ _ _ _ _ bw D1) as (q1' & beam' & T' & N1 & B1 & NB). rewrite T in T'. injection T' as <- <-.
  rewrite <- app_length, <- (map_length n_id), <- (seq_length npts 0). apply NoDup_incl_length.
  - exact (nav_nodup _ _ _ _ _ HL (v_nodup _ _ _ _ _ D2) N1).
  - intros i Hi. apply in_map_iff in Hi. destruct Hi as (x & <- & Hx). apply in_seq.
    apply (n_rec _ _ _ _ _ N1) in Hx. destruct (dinv_stored _ _ _ _ _ _ _ D Hx) as (S & _).
    apply stored_lt in S. lia.
Qed.

Lemma not_stopped {St} inv (acc : dacc St V A) rec : AccOK inv acc (map n_id (firstn limit rec)) ->
  d_stop limit acc = false.
Proof.
  intros (_ & _ & E). unfold d_stop. rewrite E, map_length, firstn_length.
  destruct (Nat.ltb_spec limit (Nat.min limit (length rec))); [lia|reflexivity].
Qed.

(** ** The loops *)
Lemma d_loop_ok L bw : 0 < L -> bw <> 0 -> forall fuel st xs rec, DInv L true 0 st xs rec ->
  npts <= fuel + length rec ->
  exists st' ys rec', DInv L true 0 st' (xs ++ ys) (rec ++ rec') /\
    has_notvisited (s_best st') = false /\
    (npts <= limit -> forall n, search_loop graph pqd fuel bw (fun _ => false) n st = SOk (st', rec')) /\
    forall St (P : vprov St V A) inv, serves nodes P inv -> forall acc,
    AccOK inv acc (map n_id (firstn limit rec)) ->
    reads P inv (d_loop P full pq npts maxv limit keepv fuel bw acc st)
      (fun r => snd (fst r) = st' /\ snd r = rec' /\
         AccOK inv (fst (fst r)) (map n_id (firstn limit (rec ++ rec')))).
Proof.
  intros HL Hbw. induction fuel as [|fuel IH]; intros st xs rec D Hf.
  - destruct (has_notvisited (s_best st)) eqn:HN.
    + exfalso. destruct (nav_beam _ _ _ _ _ bw (dn_nav _ _ _ _ _ _ D)) as (q1 & beam & T & _ & _ & NB).
      pose proof (dinv_bound _ _ _ _ _ _ _ _ _ HL D T). specialize (NB Hbw HN).
      destruct beam; [congruence|]. cbn [length] in *. lia.
    + exists st, [], []. rewrite !app_nil_r. split; [exact D|]. split; [exact HN|]. split.
      * intros _ n. cbn [search_loop]. now rewrite HN.
      * intros St P inv SV acc AO. right. cbn [d_loop]. rewrite HN. eexists. split; [reflexivity|]. auto.
  - destruct (has_notvisited (s_best st)) eqn:HN.
    + destruct (nav_beam _ _ _ _ _ bw (dn_nav _ _ _ _ _ _ D)) as (q1 & beam & T & _ & _ & NB).
      pose proof (dinv_bound _ _ _ _ _ _ _ _ _ HL D T) as Bd. specialize (NB Hbw HN).
      destruct (step_ok L true 0 bw st xs rec q1 beam HL D T) as (st1 & ns & D1 & S1 & R1).
      destruct (IH st1 (xs ++ ns) (rec ++ beam) D1) as (st2 & ys & rec2 & D2 & HN2 & S2 & R2).
      { rewrite app_length. destruct beam; [congruence|]. cbn [length]. lia. }
      exists st2, (ns ++ ys), (beam ++ rec2). rewrite !app_assoc. split; [exact D2|]. split; [exact HN2|]. split.
      * intros Hlim n. cbn [search_loop]. rewrite HN. cbn [negb andb]. unfold search_round. rewrite T.
        destruct S1 as (vis & X & q2 & I2 & E); [rewrite app_length; lia|]. rewrite X, I2, <- E.
        now rewrite (S2 Hlim (S n)).
      * intros St P inv SV acc AO. cbn [d_loop]. rewrite HN, (not_stopped _ _ _ AO). cbn [negb andb]. rewrite T.
        destruct (R1 St P inv SV acc AO) as [(E & R)|([[acc1 st1'] ns'] & E & E1 & E2 & AO1)].
        { left. rewrite E. auto. }
        cbn [fst snd] in *. subst st1' ns'. rewrite E.
        destruct (R2 St P inv SV acc1 AO1) as [(E' & R)|([[acc2 st2'] rec2'] & E' & E1 & E2 & AO2)].
        { left. rewrite E'. auto. }
        cbn [fst snd] in *. subst st2' rec2'. right. rewrite E'. eexists. split; [reflexivity|]. cbn [fst snd].
        auto.
    + exists st, [], []. rewrite !app_nil_r. split; [exact D|]. split; [exact HN|]. split.
      * intros _ n. cbn [search_loop]. now rewrite HN.
      * intros St P inv SV acc AO. right. cbn [d_loop]. rewrite HN. eexists. split; [reflexivity|]. auto.
Qed.

Lemma d_start : pq_distances pq npts maxv [medoid] = SOk [mkNbr medoid (pq medoid)].
Proof.
  apply (pq_distances_ok [medoid]).
  - intros i [<-|[]]. apply stored_lt, (di_medoid _ _ _ _ DI).
  - pose proof (di_scratch _ _ _ _ DI). cbn [length]. lia.
Qed.

Lemma start_visits : Visits pqd [] [medoid] [mkNbr medoid (pq medoid)] (Grown graph [medoid] []).
Proof.
  assert (S : stored medoid) by (apply stored_lt, (di_medoid _ _ _ _ DI)).
  pose proof (start_dists_spec graph pqd [medoid] ltac:(constructor; [intros []|constructor])) as SD.
  assert (E : start_dists pqd [medoid] = Some [mkNbr medoid (pq medoid)]).
  { cbn [start_dists]. unfold pq_of. unfold stored in S. destruct (nodes medoid); [reflexivity|contradiction]. }
  rewrite E in SD. destruct SD as [Vi _]. eapply visits_ext; [|exact Vi].
  intros i. unfold Grown. split; [tauto|]. intros [X|(x & [] & _)]. exact X.
Qed.

Lemma start_inv L p c0 c q : s_cmps c + c0 = 1 -> s_hops c = 0 ->
  Nav L p q [mkNbr medoid (pq medoid)] [] ->
  DInv L p c0 (mkSst q [medoid] (s_cmps c) (s_hops c)) [mkNbr medoid (pq medoid)] [].
Proof.
  intros E1 E2 N. constructor; cbn [s_best s_vis s_hops s_cmps length]; auto.
  - rewrite firstn_nil. exact start_visits.
  - intros i [<-|[]]. apply reach_start. now left.
Qed.

Lemma scan_inv L p c0 st xs rec : DInv L p c0 st xs rec ->
  scan_of graph pqd [medoid] (firstn limit rec) xs.
Proof.
  intros [D1 Vi D3 D4 D5]. split; [exact (v_nodup _ _ _ _ _ Vi)|]. split.
  - rewrite Forall_forall. intros x Hx. now apply (v_new _ _ _ _ _ Vi).
  - intros i. split.
    + intros Hi. apply in_map_iff in Hi. destruct Hi as (x & <- & Hx).
      destruct (v_new _ _ _ _ _ Vi x Hx) as (_ & V2 & V3). split; [unfold scored in V3; congruence|].
      apply (v_mem _ _ _ _ _ Vi) in V2. destruct V2 as [[]|V2]. exact V2.
    + intros (H1 & H2). destruct (pqd i) as [d|] eqn:E; [|congruence].
      assert (Hi : In i (s_vis st)) by (apply (v_mem _ _ _ _ _ Vi); right; exact H2).
      apply (in_map n_id xs (mkNbr i d)). exact (v_all _ _ _ _ _ Vi i d Hi (fun x => x) E).
Qed.

(** The candidates of a search, whatever the provider: those expanded, those scanned. *)
Record Trav (L : nat) (p : bool) (c0 : nat) (st : sst) (xs rec cands : list nbr) : Prop := {
  tv_inv : DInv L p c0 st xs rec;
  tv_done : has_notvisited (s_best st) = false;
  tv_in : incl cands xs;
  tv_nodup : NoDup (map n_id cands)
}.

Lemma d_knn_ok fuel l bw : 0 < l -> bw <> 0 -> npts <= fuel ->
  exists res st xs rec, Trav (l + 1) true 0 st xs rec res /\ closest (l + 1) (valid xs) res /\
    (npts <= limit -> knn graph pqd fuel l bw (fun _ => false) [medoid] = SOk (res, st, rec)) /\
    forall St (P : vprov St V A) inv, serves nodes P inv -> forall acc, AccOK inv acc [] ->
    reads P inv (d_knn P full pq npts maxv limit medoid keepv fuel l bw acc)
      (fun r => snd r = rec /\ snd (fst r) = st /\ fst (fst (fst r)) = res /\
         AccOK inv (snd (fst (fst r))) (map n_id (firstn limit rec))).
Proof.
  intros Hl Hbw Hf. assert (HL : 0 < l + 1) by lia.
  destruct (nav_insert _ true _ _ _ [mkNbr medoid (pq medoid)] (nav_new _ true HL)) as (q & I & N). cbn [app] in N.
  set (st0 := mkSst q [medoid] 1 0).
  assert (D0 : DInv (l + 1) true 0 st0 [mkNbr medoid (pq medoid)] [])
    by exact (start_inv (l + 1) true 0 (mkSst q [] 1 0) q eq_refl eq_refl N).
  destruct (d_loop_ok (l + 1) bw HL Hbw fuel st0 _ [] D0) as (st & ys & rec & D & HN & S & R); [cbn [length]; lia|].
  cbn [app] in D. set (xs := mkNbr medoid (pq medoid) :: ys) in *.
  destruct (nav_iter _ _ _ _ HL (dn_nav _ _ _ _ _ _ D)) as (res & IT & C).
  exists res, st, xs, rec. split; [|split; [exact C|split]].
  - assert (IN : incl res (valid xs)).
    { destruct C as (_ & _ & oth & PM & _). intros x Hx. eapply Permutation_in; [symmetry; exact PM|].
      apply in_or_app. now left. }
    constructor; auto.
    + intros x Hx. apply in_valid, IN, Hx.
    + destruct C as (_ & _ & oth & PM & _).
      pose proof (NoDup_valid_ids _ (v_nodup _ _ _ _ _ (dn_vis _ _ _ _ _ _ D))) as ND.
      apply (NoDup_map_perm_ids _ _ PM) in ND. rewrite map_app in ND. now destruct (NoDup_app_inv _ _ ND).
  - intros Hlim. unfold knn, search_internal, search_init, scratch_new. cbn [s_vis s_best s_cmps s_hops length].
    assert (E : start_dists pqd [medoid] = Some [mkNbr medoid (pq medoid)]).
    { assert (S' : stored medoid) by (apply stored_lt, (di_medoid _ _ _ _ DI)).
      cbn [start_dists]. unfold pq_of. unfold stored in S'. destruct (nodes medoid); [reflexivity|contradiction]. }
    rewrite E, I. cbn [length rev app Nat.add]. fold st0. now rewrite (S Hlim 0), IT.
  - intros St P inv SV acc AO. unfold d_knn, d_init, scratch_new. rewrite d_start. cbn [s_best s_cmps s_hops].
    rewrite I. cbn [length Nat.add]. fold st0.
    destruct (R St P inv SV acc) as [(E & Rn)|([[acc1 st1] rec1] & E & E1 & E2 & AO1)].
    + rewrite firstn_nil. exact AO.
    + left. rewrite E. auto.
    + right. cbn [fst snd] in *. subst st1 rec1. rewrite E, IT. eexists. split; [reflexivity|]. cbn [fst snd]. auto.
Qed.
End disk.
