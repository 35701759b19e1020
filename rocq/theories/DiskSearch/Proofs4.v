(** The whole search. *)
From Verif.Lib Require Import Base Lists F32.
From Verif.Search Require Import Proofs ProofsKnn.
From Verif.Filtered Require Import Proofs Proofs2 Proofs3 Proofs6.
From Verif.Output Require Import Proofs.
From Verif.DiskSearch Require Import Model Spec Proofs Proofs2 Proofs3.

Section disk.
Context {V A : Type} (nodes : nat -> option (node V A)).
Variable full : V -> f32.
Variable pq : nat -> f32.
Variable npts maxv limit medoid : nat.
Variable keepv : bool.
Variable adef : A.
Hypothesis DI : disk_index nodes npts maxv medoid.
Notation graph := (graph_of nodes).
Notation pqd := (pq_of nodes pq).
Notation items := (items nodes full).
Notation at_ := (at_ keepv adef).
Notation pay := (pay nodes keepv).
Variable sort : list nbr -> option (list nbr).
Hypothesis Hsort : sorts sort.
Variable sort_items : list (item (nat * A)) -> option (list (item (nat * A))).
Hypothesis Hitems : sorts_items sort_items.
Variable fuel : nat.
Hypothesis Hfuel : npts <= fuel.

Notation impl P := (search_impl P full pq npts maxv limit medoid keepv sort sort_items fuel).
Notation chosen := (chosen nodes pq npts limit medoid).
Notation presented := (presented nodes full).
Notation in_memory := (in_memory nodes pq medoid sort fuel).
Notation tame := (tame nodes full pq).

(** The outcome of a search, the same for all providers unless a read fails. *)
Definition outcome (k l : nat) (bw : option nat) (m : @mode V) (R : sres (sout A V * dstats)) : Prop :=
  forall St (P : vprov St V A) inv, serves nodes P inv -> forall s, inv s ->
    (impl P k l bw m adef s = SErr /\ ~ reliable nodes P inv) \/ impl P k l bw m adef s = R.

Lemma acc_start {St} (P : vprov St V A) inv s : serves nodes P inv -> inv s ->
  AccOK nodes full keepv inv (mkAcc (v_clear P s) [] 0) [].
Proof. intros SV I. split; [exact (sv_clear _ _ _ SV s I)|now split]. Qed.

Lemma numeric_items ids : numeric (full_of nodes full) -> Forall (fun x => is_nan (snd x) = false) (items ids).
Proof.
  intros N. rewrite Forall_forall. intros x Hx. apply items_in in Hx. destruct Hx as (i & nd & _ & E & ->). cbn [snd].
  apply (N i). unfold full_of. now rewrite E.
Qed.

Lemma trav_traversed L p c0 st xs rec cands n : 0 < L ->
  Trav nodes pq limit medoid L p c0 st xs rec cands ->
  traversed nodes pq limit medoid rec xs (mkStats (s_cmps st) (s_hops st) n (length (map n_id (firstn limit rec)))).
Proof.
  intros HL [D HN IN ND]. constructor.
  - exact (dinv_ids _ _ _ _ _ _ _ _ _ _ HL D).
  - exact (n_rec _ _ _ _ _ (dn_nav _ _ _ _ _ _ _ _ _ _ D)).
  - intros x Hx. apply (dinv_stored nodes pq npts maxv limit medoid DI _ _ _ _ _ _ _ D Hx).
  - exact (scan_inv _ _ _ _ _ _ _ _ _ _ D).
  - exact (dn_hops _ _ _ _ _ _ _ _ _ _ D).
  - cbn [t_ios]. now rewrite map_length.
Qed.

Lemma trav_stored L p c0 st xs rec cands : Trav nodes pq limit medoid L p c0 st xs rec cands ->
  forall x, In x cands -> stored nodes (n_id x) /\ reach graph [medoid] (n_id x).
Proof.
  intros [D HN IN ND] x Hx. destruct (dinv_stored nodes pq npts maxv limit medoid DI _ _ _ _ _ _ x D (IN x Hx)) as (S & R & _). auto.
Qed.

Lemma filter_passes_none (ids : list nat) : filter (passes None) ids = ids.
Proof. apply filter_all. reflexivity. Qed.

Lemma pick_map {B} (xs : list B) idx : forall r, pick_items xs idx = Some r <-> map (nth_error xs) idx = map Some r.
Proof.
  induction idx as [|i idx IH]; intros r; cbn [pick_items map].
  - split; [intros [= <-]; reflexivity|]. destruct r; [reflexivity|discriminate].
  - destruct (nth_error xs i) as [x|]; [|split; [discriminate|destruct r; discriminate]].
    destruct (pick_items xs idx) as [r'|].
    + split.
      * intros [= <-]. cbn [map]. f_equal. now apply IH.
      * destruct r as [|y r]; [discriminate|]. cbn [map]. intros [= -> E]. apply IH in E. now injection E as ->.
    + split; [discriminate|]. destruct r as [|y r]; [discriminate|]. cbn [map]. intros [= -> E]. now apply IH in E.
Qed.

Lemma vec_items_sel ids : map (fun x : V * item (nat * A) => (fst x, snd (snd x))) (vec_items nodes full ids) =
  flat_map (fun i => match nodes i with Some nd => [(nd_vec nd, full (nd_vec nd))] | None => [] end) ids.
Proof.
  unfold vec_items. induction ids as [|i ids IH]; [reflexivity|]. cbn [flat_map]. rewrite map_app, IH. now destruct (nodes i).
Qed.

Lemma search_ok k l bw m : k <= l -> 0 < l -> bw <> Some 0 ->
  let w := match bw with Some b => b | None => 1 end in
  (exists cands t xs, chosen l m cands t /\ presented m cands xs /\
     (forall x, In x cands -> stored nodes (n_id x)) /\
     t_count t = length (firstn k xs) /\
     (npts <= limit -> in_memory l w m cands t) /\
     outcome k l bw m (SOk (at_ k (firstn k (map pay xs)), t))) \/
  (~ tame m /\ exists R, (R = SErr \/ R = SPanic) /\ outcome k l bw m R).
Proof.
  intros Hk Hl Hbw w.
  assert (Hw : w <> 0) by (unfold w; destruct bw as [[|b]|]; congruence).
  assert (KN : knn_new l bw = Some (l, w)).
  { unfold knn_new, w. destruct (Nat.eqb_spec l 0); [lia|]. destruct bw as [[|b]|]; congruence. }
  assert (PR : forall St (P : vprov St V A) s m, impl P k l bw m adef s =
    let acc := mkAcc (v_clear P s) [] 0 in
        match m with
        | FlatScan f =>
            match d_flat pq npts maxv l f with
            | SOk (best, cmps) =>
                finish cmps 0 acc (rerank_and_filter P full keepv None sort_items acc best (at_ k []))
            | SErr => SErr
            | SPanic => SPanic
            | SFuel => SFuel
            end
        | GraphSearch f =>
                match d_knn P full pq npts maxv limit medoid keepv fuel l w acc with
                | SOk (res, acc', st, _) =>
                    finish (s_cmps st) (s_hops st) acc' (rerank_and_filter P full keepv f sort_items acc' res (at_ k []))
                | SErr => SErr
                | SPanic => SPanic
                | SFuel => SFuel
                end
        | InlineFilter ok ad =>
                match d_inline P full pq npts maxv limit medoid keepv ok sort fuel l w ad acc with
                | SOk (res, acc', st, _) =>
                    finish (s_cmps st) (s_hops st) acc' (rerank_and_filter P full keepv None sort_items acc' res (at_ k []))
                | SErr => SErr
                | SPanic => SPanic
                | SFuel => SFuel
                end
        | DiverseGraph f select =>
                match d_knn P full pq npts maxv limit medoid keepv fuel l w acc with
                | SOk (res, acc', st, _) =>
                    finish (s_cmps st) (s_hops st) acc' (diversity_and_filter P full keepv f select acc' res (at_ k []))
                | SErr => SErr
                | SPanic => SPanic
                | SFuel => SFuel
                end
        end).
  { intros St P s m0. unfold search_impl. destruct (Nat.ltb_spec l k); [lia|].
    rewrite (sout_new_at keepv adef k), KN. now destruct m0. }
  destruct m as [f|f|ok ad|f select].
  - (* flat scan *)
    destruct (d_flat_ok nodes pq npts maxv medoid DI l f Hl) as (best & E & C & IN & ND & ST).
    assert (AL : filter (allowed (@FlatScan V f)) (map n_id best) = filter (passes None) (map n_id best)).
    { rewrite filter_passes_none. apply filter_all. intros i Hi. apply in_map_iff in Hi. destruct Hi as (x & <- & Hx).
      apply IN in Hx. apply (in_map n_id) in Hx. unfold flat_points in Hx. rewrite map_map in Hx. cbn [n_id] in Hx.
      rewrite map_id in Hx. now apply filter_In in Hx. }
    destruct (rerank_ok nodes full keepv adef k None sort_items [] best Hitems ND ST)
      as [(xs & X1 & X2 & X3)|((x & Hx & Nx) & X3)].
    + left. exists best, (mkStats (length (filter (passes f) (seq 0 npts))) 0 (length (firstn k xs)) 0), xs.
      split; [|split; [|split; [|split; [|split]]]]; auto.
      * cbn [Spec.chosen t_cmps t_hops t_ios]. split; [exact C|]. split; [|auto]. unfold flat_points. now rewrite map_length.
      * cbn [Spec.presented]. rewrite AL. split; [exact X1|]. intros N. apply X2, numeric_items, N.
      * cbn [Spec.in_memory]. auto.
      * intros St P inv SV s I. rewrite PR. cbn [Spec.in_memory]. cbv zeta. rewrite E.
        destruct (X3 St P inv SV _ (acc_start P inv s SV I)) as [(E1 & R)|(r & E1 & ->)]; rewrite E1.
        -- left. auto.
        -- right. cbn [finish d_io]. rewrite !firstn_map, map_length. reflexivity.
    + right. split.
      * cbn [Spec.tame]. intros N. pose proof (numeric_items (filter (passes None) (map n_id best)) N) as F.
        rewrite Forall_forall in F. rewrite (F x Hx) in Nx. discriminate.
      * exists SPanic. split; [auto|]. intros St P inv SV s I. rewrite PR. cbv zeta. rewrite E.
        destruct (X3 St P inv SV _ (acc_start P inv s SV I)) as [(E1 & R)|E1]; rewrite E1; auto.
  - (* graph search *)
    destruct (d_knn_ok nodes full pq npts maxv limit medoid keepv DI fuel l w Hl Hw Hfuel)
      as (res & st & sc & rec & T & C & M & K).
    destruct (rerank_ok nodes full keepv adef k f sort_items (map n_id (firstn limit rec)) res Hitems
                (tv_nodup _ _ _ _ _ _ _ _ _ _ _ T) (fun x Hx => proj1 (trav_stored _ _ _ _ _ _ _ T x Hx)))
      as [(xs & X1 & X2 & X3)|((x & Hx & Nx) & X3)].
    + left. exists res, (mkStats (s_cmps st) (s_hops st) (length (firstn k xs)) (length (map n_id (firstn limit rec)))), xs.
      split; [|split; [|split; [|split; [|split]]]]; auto.
      * cbn [Spec.chosen]. exists rec, sc. split; [now apply trav_traversed with (2 := T); lia|]. split; [exact C|].
        cbn [t_cmps]. pose proof (dn_cmps _ _ _ _ _ _ _ _ _ _ (tv_inv _ _ _ _ _ _ _ _ _ _ _ T)). lia.
      * cbn [Spec.presented]. split; [exact X1|]. intros N. apply X2, numeric_items, N.
      * intros x Hx. apply (trav_stored _ _ _ _ _ _ _ T x Hx).
      * intros Hlim. cbn [Spec.in_memory]. exists st, rec. auto.
      * intros St P inv SV s I. rewrite PR. cbv zeta.
        destruct (K St P inv SV _ (acc_start P inv s SV I)) as [(E & R)|([[[res' acc'] st'] rec'] & E & E1 & E2 & E3 & AO)].
        { left. rewrite E. auto. }
        cbn [fst snd] in *. subst res' st' rec'. rewrite E.
        destruct (X3 St P inv SV acc' AO) as [(E1 & R)|(r & E1 & ->)]; rewrite E1.
        -- left. auto.
        -- right. cbn [finish]. destruct AO as (_ & _ & ->). rewrite !firstn_map, !map_length. reflexivity.
    + right. split.
      * cbn [Spec.tame]. intros N. pose proof (numeric_items (filter (passes f) (map n_id res)) N) as F.
        rewrite Forall_forall in F. rewrite (F x Hx) in Nx. discriminate.
      * exists SPanic. split; [auto|]. intros St P inv SV s I. rewrite PR. cbv zeta.
        destruct (K St P inv SV _ (acc_start P inv s SV I)) as [(E & R)|([[[res' acc'] st'] rec'] & E & E1 & E2 & E3 & AO)].
        { left. rewrite E. auto. }
        cbn [fst snd] in *. subst res' st' rec'. rewrite E.
        destruct (X3 St P inv SV acc' AO) as [(E1 & R)|E1]; rewrite E1; auto.
  - (* inline filter *)
    destruct (d_inline_ok nodes full pq npts maxv limit medoid keepv DI ok sort Hsort fuel l w ad Hl Hw Hfuel)
      as [(K & NT)|(res & st & sc & rec & m & T & Em & Pm & C & M & K)].
    { right. split.
      - cbn [Spec.tame]. intros (_ & N & AD). apply NT. split; [exact AD|exact N].
      - exists SPanic. split; [auto|]. intros St P inv SV s I. rewrite PR. cbv zeta.
        destruct (K St P inv SV _ (acc_start P inv s SV I)) as [(E & R)|E]; rewrite E; auto. }
    assert (IN : incl res (filter (accepted ok) sc)).
    { intros x Hx. subst res. apply in_firstn in Hx. now apply (Permutation_in _ Pm). }
    assert (AL : filter (allowed (@InlineFilter V ok ad)) (map n_id res) = filter (passes None) (map n_id res)).
    { rewrite filter_passes_none. apply filter_all. intros i Hi. apply in_map_iff in Hi. destruct Hi as (x & <- & Hx).
      apply IN in Hx. now apply filter_In in Hx. }
    destruct (rerank_ok nodes full keepv adef k None sort_items (map n_id (firstn limit rec)) res Hitems
                (tv_nodup _ _ _ _ _ _ _ _ _ _ _ T) (fun x Hx => proj1 (trav_stored _ _ _ _ _ _ _ T x Hx)))
      as [(xs & X1 & X2 & X3)|((x & Hx & Nx) & X3)].
    + left. exists res, (mkStats (s_cmps st) (s_hops st) (length (firstn k xs)) (length (map n_id (firstn limit rec)))), xs.
      split; [|split; [|split; [|split; [|split]]]]; auto.
      * cbn [Spec.chosen]. exists rec, sc. split; [now apply trav_traversed with (2 := T); lia|]. split; [exact IN|].
        split; [exact (tv_nodup _ _ _ _ _ _ _ _ _ _ _ T)|]. split; [exact C|].
        cbn [t_cmps]. exact (dn_cmps _ _ _ _ _ _ _ _ _ _ (tv_inv _ _ _ _ _ _ _ _ _ _ _ T)).
      * cbn [Spec.presented]. rewrite AL. split; [exact X1|]. intros N. apply X2, numeric_items, N.
      * intros x Hx. apply (trav_stored _ _ _ _ _ _ _ T x Hx).
      * intros Hlim. cbn [Spec.in_memory]. exists st, rec. auto.
      * intros St P inv SV s I. rewrite PR. cbv zeta.
        destruct (K St P inv SV _ (acc_start P inv s SV I)) as [(E & R)|([[[res' acc'] st'] rec'] & E & E1 & E2 & E3 & AO)].
        { left. rewrite E. auto. }
        cbn [fst snd] in *. subst st' rec'. rewrite E, E3.
        destruct (X3 St P inv SV acc' AO) as [(E1 & R)|(r & E1 & ->)]; rewrite E1.
        -- left. auto.
        -- right. cbn [finish]. destruct AO as (_ & _ & ->). rewrite !firstn_map, !map_length. reflexivity.
    + right. split.
      * cbn [Spec.tame]. intros (N & _). pose proof (numeric_items (filter (passes None) (map n_id res)) N) as F.
        rewrite Forall_forall in F. rewrite (F x Hx) in Nx. discriminate.
      * exists SPanic. split; [auto|]. intros St P inv SV s I. rewrite PR. cbv zeta.
        destruct (K St P inv SV _ (acc_start P inv s SV I)) as [(E & R)|([[[res' acc'] st'] rec'] & E & E1 & E2 & E3 & AO)].
        { left. rewrite E. auto. }
        cbn [fst snd] in *. subst st' rec'. rewrite E, E3.
        destruct (X3 St P inv SV acc' AO) as [(E1 & R)|E1]; rewrite E1; auto.
  - (* diverse *)
    destruct (d_knn_ok nodes full pq npts maxv limit medoid keepv DI fuel l w Hl Hw Hfuel)
      as (res & st & sc & rec & T & C & M & K).
    pose proof (diversity_ok nodes full keepv adef k f select (map n_id (firstn limit rec)) res
                (tv_nodup _ _ _ _ _ _ _ _ _ _ _ T) (fun x Hx => proj1 (trav_stored _ _ _ _ _ _ _ T x Hx))) as X.
    assert (SI : forall i, In i (filter (passes f) (map n_id res)) -> stored nodes i).
    { intros i Hi. apply filter_In in Hi. destruct Hi as [Hi _]. apply in_map_iff in Hi. destruct Hi as (x & <- & Hx).
      apply (trav_stored _ _ _ _ _ _ _ T x Hx). }
    assert (RUN : forall R, (forall St (P : vprov St V A) inv acc', serves nodes P inv ->
        AccOK nodes full keepv inv acc' (map n_id (firstn limit rec)) ->
        (finish (s_cmps st) (s_hops st) acc' (diversity_and_filter P full keepv f select acc' res (at_ k [])) = SErr
           /\ ~ reliable nodes P inv) \/
        finish (s_cmps st) (s_hops st) acc' (diversity_and_filter P full keepv f select acc' res (at_ k [])) = R) ->
        outcome k l bw (DiverseGraph f select) R).
    { intros R H St P inv SV s I. rewrite PR. cbv zeta.
      destruct (K St P inv SV _ (acc_start P inv s SV I)) as [(E & Rl)|([[[res' acc'] st'] rec'] & E & E1 & E2 & E3 & AO)].
      { left. rewrite E. auto. }
      cbn [fst snd] in *. subst res' st' rec'. rewrite E. now apply (H St P inv acc' SV). }
    destruct (selection nodes full select (filter (passes f) (map n_id res))) as [xs| | |] eqn:ES.
    + left. exists res, (mkStats (s_cmps st) (s_hops st) (length (firstn k xs)) (length (map n_id (firstn limit rec)))), xs.
      split; [|split; [|split; [|split; [|split]]]]; auto.
      * cbn [Spec.chosen]. exists rec, sc. split; [now apply trav_traversed with (2 := T); lia|]. split; [exact C|].
        cbn [t_cmps]. pose proof (dn_cmps _ _ _ _ _ _ _ _ _ _ (tv_inv _ _ _ _ _ _ _ _ _ _ _ T)). lia.
      * cbn [Spec.presented allowed]. change (filter (allowed (DiverseGraph f select))) with (filter (passes f)).
        unfold selection in ES. destruct (filter (passes f) (map n_id res)) as [|i ids] eqn:EI.
        -- left. split; congruence.
        -- right. rewrite vec_items_sel in ES. rewrite <- EI in *. destruct (select _) as [idx|] eqn:EX; [|discriminate].
           exists idx. split; [reflexivity|]. apply pick_map.
           destruct (pick_items (items (filter (passes f) (map n_id res))) idx); cbn [lift] in ES; congruence.
      * intros x Hx. apply (trav_stored _ _ _ _ _ _ _ T x Hx).
      * intros Hlim. cbn [Spec.in_memory]. exists st, rec. auto.
      * apply RUN. intros St P inv acc' SV AO. destruct (X St P inv SV acc' AO) as [(E & R)|E]; rewrite E.
        -- left. auto.
        -- right. cbn [finish]. destruct AO as (_ & _ & ->). rewrite !firstn_map, !map_length. reflexivity.
    + right. split.
      * cbn [Spec.tame]. intros TM. unfold selection in ES. destruct (filter (passes f) (map n_id res)) as [|i ids]; [discriminate|].
        destruct (TM (map (fun x : V * item (nat * A) => (fst x, snd (snd x))) (vec_items nodes full (i :: ids)))) as (idx & EX & _).
        rewrite EX in ES. destruct (pick_items _ idx); discriminate.
      * exists SErr. split; [auto|]. apply RUN. intros St P inv acc' SV AO.
        destruct (X St P inv SV acc' AO) as [(E & R)|E]; rewrite E; auto.
    + right. split.
      * cbn [Spec.tame]. intros TM. unfold selection in ES. destruct (filter (passes f) (map n_id res)) as [|i ids]; [discriminate|].
        destruct (TM (map (fun x : V * item (nat * A) => (fst x, snd (snd x))) (vec_items nodes full (i :: ids)))) as (idx & EX & FX).
        rewrite EX in ES. destruct (pick_items (items (i :: ids)) idx) as [r|] eqn:EP; [discriminate|].
        rewrite map_length in FX. rewrite <- (map_length snd), vec_items_snd in FX.
        clear - EP FX. induction FX as [|j idx Hj FX IH]; [discriminate|]. cbn [pick_items] in EP.
        destruct (nth_error (items (i :: ids)) j) eqn:NE; [|apply nth_error_None in NE; lia].
        destruct (pick_items (items (i :: ids)) idx); [discriminate|]. now apply IH.
      * exists SPanic. split; [auto|]. apply RUN. intros St P inv acc' SV AO.
        destruct (X St P inv SV acc' AO) as [(E & R)|E]; rewrite E; auto.
    + exfalso. unfold selection in ES. destruct (filter (passes f) (map n_id res)); [discriminate|].
      destruct (select _) as [idx|]; [|discriminate]. destruct (pick_items _ idx); discriminate.
Qed.
End disk.
