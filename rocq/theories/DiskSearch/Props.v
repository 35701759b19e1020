(** Properties of searching a disk index (C70-C73). *)
From Verif.Lib Require Import Base Lists F32 Bytes.
From Verif.Filtered Require Import Proofs6.
From Verif.Filtered Require Proofs3.
From Verif.Disk Require Model Spec ProofsLayout ProofsRead Props.
From Verif.DiskSearch Require Import Model Spec File Proofs Proofs4 Proofs5 Proofs6.
Local Open Scope nat_scope.

(** ** Examples: five points; the vector of a point is its distance *)
Definition ex_nodes (i : nat) : option (node f32 nat) :=
  match i with
  | 0 => Some (mkNode f32_three [1; 2] 100)
  | 1 => Some (mkNode f32_two [0; 3] 101)
  | 2 => Some (mkNode f32_max [4] 102)
  | 3 => Some (mkNode f32_one [1] 103)
  | 4 => Some (mkNode f32_zero [2; 3] 104)
  | _ => None
  end.
Definition ex_pq (i : nat) : f32 := nth i [f32_three; f32_one; f32_two; f32_two; f32_three] f32_zero.
Example ex_ready : ready ex_nodes 5 3 0 isort isort_items 5.
Proof.
  constructor; [|exact isort_sorts|exact isort_items_sorts|lia]. constructor; try lia.
  - intros i. do 5 (destruct i as [|i]; [split; [discriminate|lia]|]). cbn. split; [lia|congruence].
  - intros i nd j E Hj. do 5 (destruct i as [|i]; [injection E as <-; cbn [nd_adj In] in Hj; lia|]). discriminate.
  - intros i nd E. do 5 (destruct i as [|i]; [injection E as <-; cbn [nd_adj length]; lia|]). discriminate.
Qed.
Example ex_query : query_ok 2 3 None.
Proof. split; [lia|]. split; [lia|discriminate]. Qed.
Example ex_tame : tame ex_nodes (fun v => v) ex_pq (GraphSearch (Some (fun i => negb (i =? 3)))).
Proof.
  intros i d E. unfold full_of in E. do 5 (destruct i as [|i]; [injection E as <-; vm_compute; reflexivity|]). discriminate.
Qed.
Notation ex_search P limit k l m s :=
  (d_search P (fun v : f32 => v) ex_pq 5 3 limit 0 isort isort_items 5 k l None m 0 s).

(** ** C70: what a search returns *)

(** C70.  A search with arguments it accepts, over a provider that serves the stored index,
    returns the first k of the results it found: every one of them a stored, allowed point
    with its own data and its full precision distance, reachable from the medoid if the graph
    was walked; no point twice and closest first, except for diverse selection.  It fails only
    if a read fails, and only for NaN distances, an adaptive step that panics or a diversity
    selection that fails it may fail or panic otherwise. *)
Theorem C70_search :
  forall V A St (P : vprov St V A) inv nodes full pq npts maxv limit medoid sort sort_items fuel
    k l bw (m : @mode V) adef s,
  ready nodes npts maxv medoid sort sort_items fuel -> serves nodes P inv -> inv s -> query_ok k l bw ->
  match d_search P full pq npts maxv limit medoid sort sort_items fuel k l bw m adef s with
  | SOk (r, t) => exists cands xs, found nodes full pq npts limit medoid k l m cands t xs /\
      r = firstn k xs ++ repeat ((0, adef), f32_zero) (k - length xs) /\
      (forall x, In x xs -> exists nd, nodes (fst (fst x)) = Some nd /\
         x = ((fst (fst x), nd_data nd), full (nd_vec nd)) /\ allowed m (fst (fst x)) = true /\
         (walks m -> reach (graph_of nodes) [medoid] (fst (fst x)))) /\
      (ranks m -> NoDup (map (fun x => fst (fst x)) xs))
  | SErr => ~ reliable nodes P inv \/ ~ tame nodes full pq m
  | SPanic => ~ tame nodes full pq m
  | SFuel => False
  end.
Proof.
  intros V A St P inv nodes full pq npts maxv limit medoid sort sort_items fuel k l bw m adef s RD SV I Q.
  destruct (search_plain nodes full pq npts maxv limit medoid adef sort sort_items fuel RD k l bw m Q)
    as [(cands & t & xs & FD & ST & _ & O)|(NT & R & HR & O)].
  - destruct (O St P inv SV s I) as [(-> & NR)| ->]; [now left|].
    exists cands, xs. split; [exact FD|]. split; [reflexivity|].
    destruct (found_sound nodes full pq npts limit medoid k l m cands t xs FD ST) as (SO & ND). split; [|exact ND].
    intros x Hx. destruct (SO x Hx) as (nd & N & E & AL & IC). exists nd. split; [exact N|]. split; [exact E|].
    split; [exact AL|]. intros W. apply in_map_iff in IC. destruct IC as (y & <- & Hy).
    exact (found_reach nodes full pq npts limit medoid k l m cands t xs W FD y Hy).
  - destruct (O St P inv SV s I) as [(-> & NR)| ->]; [now left|]. destruct HR as [->| ->]; auto.
Qed.
Print Assumptions C70_search.

(** The entry point that also returns the stored vectors returns just the results. *)
Theorem C70_search_with_vectors :
  forall V A St (P : vprov St V A) inv nodes full pq npts maxv limit medoid sort sort_items fuel
    k l bw (m : @mode V) adef s,
  ready nodes npts maxv medoid sort sort_items fuel -> serves nodes P inv -> inv s -> query_ok k l bw ->
  match d_search_vectors P full pq npts maxv limit medoid sort sort_items fuel k l bw m adef s with
  | SOk (r, t) => exists cands xs, found nodes full pq npts limit medoid k l m cands t xs /\
      Forall2 (carries nodes) (firstn k xs) r /\
      (forall x, In x xs -> exists nd, nodes (fst (fst x)) = Some nd /\
         x = ((fst (fst x), nd_data nd), full (nd_vec nd)) /\ allowed m (fst (fst x)) = true /\
         (walks m -> reach (graph_of nodes) [medoid] (fst (fst x)))) /\
      (ranks m -> NoDup (map (fun x => fst (fst x)) xs))
  | SErr => ~ reliable nodes P inv \/ ~ tame nodes full pq m
  | SPanic => ~ tame nodes full pq m
  | SFuel => False
  end.
Proof.
  intros V A St P inv nodes full pq npts maxv limit medoid sort sort_items fuel k l bw m adef s RD SV I Q.
  destruct (search_vectors nodes full pq npts maxv limit medoid adef sort sort_items fuel RD k l bw m Q)
    as [(cands & t & xs & FD & ST & _ & O)|(NT & R & HR & O)].
  - destruct (O St P inv SV s I) as [(-> & NR)| ->]; [now left|].
    destruct (found_sound nodes full pq npts limit medoid k l m cands t xs FD ST) as (SO & ND).
    exists cands, xs. split; [exact FD|]. split; [|split; [|exact ND]].
    + apply carries_all. intros x Hx. apply in_firstn in Hx. destruct (SO x Hx) as (nd & N & _). unfold stored. congruence.
    + intros x Hx. destruct (SO x Hx) as (nd & N & E & AL & IC). exists nd. split; [exact N|]. split; [exact E|].
      split; [exact AL|]. intros W. apply in_map_iff in IC. destruct IC as (y & <- & Hy).
      exact (found_reach nodes full pq npts limit medoid k l m cands t xs W FD y Hy).
  - destruct (O St P inv SV s I) as [(-> & NR)| ->]; [now left|]. destruct HR as [->| ->]; auto.
Qed.
Print Assumptions C70_search_with_vectors.

(** Other arguments are refused. *)
Theorem C70_bad_arguments :
  forall V A St (P : vprov St V A) full pq npts maxv limit medoid sort sort_items fuel k l bw (m : @mode V) adef s,
  l < k \/ (walks m /\ (l = 0 \/ bw = Some 0)) ->
  d_search P full pq npts maxv limit medoid sort sort_items fuel k l bw m adef s = SErr /\
  d_search_vectors P full pq npts maxv limit medoid sort sort_items fuel k l bw m adef s = SErr.
Proof.
  intros V A St P full pq npts maxv limit medoid sort sort_items fuel k l bw m adef s H.
  unfold d_search, d_search_vectors, search_impl. destruct (Nat.ltb_spec l k) as [L|L]; [auto|].
  destruct H as [H|(W & H)]; [lia|].
  pose proof (Proofs3.sout_new_at (V := V) false adef k) as E. cbn beta iota in E. rewrite E.
  pose proof (Proofs3.sout_new_at (V := V) true adef k) as E'. cbn beta iota in E'. rewrite E'.
  assert (KN : knn_new l bw = None).
  { unfold knn_new. destruct (Nat.eqb_spec l 0); [reflexivity|]. destruct H as [H|H]; [contradiction|]. now rewrite H. }
  destruct m; [destruct W| | |]; rewrite KN; auto.
Qed.
Print Assumptions C70_bad_arguments.

Example C70_case :
  ex_search (ideal ex_nodes) 5 2 3 (GraphSearch (Some (fun i => negb (i =? 3)))) tt =
    SOk ([((4, 104), f32_zero); ((1, 101), f32_two)], mkStats 5 5 2 5).
Proof. vm_compute. reflexivity. Qed.
Example C70_vectors_case :
  d_search_vectors (ideal ex_nodes) (fun v : f32 => v) ex_pq 5 3 5 0 isort isort_items 5 2 3 None
    (InlineFilter (fun i => i <? 3) None) 0 tt =
    SOk ([((1, 101), f32_two, f32_two); ((0, 100), f32_three, f32_three)], mkStats 4 5 2 5).
Proof. vm_compute. reflexivity. Qed.

(** Finding: when fewer than k points are found, the results of [search] are filled up with
    point 0 at distance 0.0, whether or not it is allowed. *)
Theorem C70_refuted_padding :
  ~ (forall V A (nodes : nat -> option (node V A)) full pq npts maxv limit medoid sort sort_items fuel k l bw
       (m : @mode V) adef r t,
     ready nodes npts maxv medoid sort sort_items fuel -> query_ok k l bw -> tame nodes full pq m ->
     d_search (ideal nodes) full pq npts maxv limit medoid sort sort_items fuel k l bw m adef tt = SOk (r, t) ->
     forall x, In x r -> allowed m (fst (fst x)) = true).
Proof.
  intros H.
  assert (T : tame ex_nodes (fun v => v) ex_pq (FlatScan (Some (fun i => i =? 3)))).
  { intros i d E. unfold full_of in E. do 5 (destruct i as [|i]; [injection E as <-; vm_compute; reflexivity|]). discriminate. }
  specialize (H f32 nat ex_nodes (fun v => v) ex_pq 5 3 5 0 isort isort_items 5 2 3 None (FlatScan (Some (fun i => i =? 3))) 0
    [((3, 103), f32_one); ((0, 0), f32_zero)] (mkStats 1 0 1 0) ex_ready ex_query T).
  assert (E : d_search (ideal ex_nodes) (fun v => v) ex_pq 5 3 5 0 isort isort_items 5 2 3 None (FlatScan (Some (fun i => i =? 3))) 0 tt
    = SOk ([((3, 103), f32_one); ((0, 0), f32_zero)], mkStats 1 0 1 0)) by (vm_compute; reflexivity).
  specialize (H E ((0, 0), f32_zero) (or_intror (or_introl eq_refl))). discriminate.
Qed.
Print Assumptions C70_refuted_padding.

(** ** C71: flat scans *)

(** C71.  A flat scan over the points its filter accepts returns, when they fit the candidate
    list, the closest of all of them by full precision distance; otherwise the closest of the
    L closest by PQ distance.  It computes one PQ distance for every accepted point. *)
Theorem C71_flat_scan :
  forall V A St (P : vprov St V A) inv nodes full pq npts maxv limit medoid sort sort_items fuel k l bw f adef s r t,
  ready nodes npts maxv medoid sort sort_items fuel -> serves nodes P inv -> inv s -> query_ok k l bw ->
  numeric (full_of nodes full) ->
  d_search P full pq npts maxv limit medoid sort sort_items fuel k l bw (FlatScan f) adef s = SOk (r, t) ->
  let accepted := filter (passes f) (seq 0 npts) in
  exists cands xs, r = firstn k xs ++ repeat ((0, adef), f32_zero) (k - length xs) /\
    StronglySorted item_closer xs /\
    Permutation xs (items nodes full (map n_id cands)) /\
    closest l (valid (flat_points pq npts f)) cands /\
    ((forall i, i < npts -> is_nan (pq i) = false) -> length accepted <= l ->
       Permutation xs (items nodes full accepted)) /\
    t_cmps t = length accepted /\ t_ios t = 0.
Proof.
  intros V A St P inv nodes full pq npts maxv limit medoid sort sort_items fuel k l bw f adef s r t RD SV I Q N E accepted.
  destruct (search_plain nodes full pq npts maxv limit medoid adef sort sort_items fuel RD k l bw (FlatScan f) Q)
    as [(cands & t' & xs & FD & ST & _ & O)|(NT & R & HR & O)].
  - destruct (O St P inv SV s I) as [(E' & NR)|E']; rewrite E in E'; [discriminate|]. injection E' as -> <-.
    pose proof FD as (C & (PM & SO) & CN). cbn [chosen] in C. destruct C as (C & C1 & C2 & C3).
    exists cands, xs. split; [reflexivity|]. split; [now apply SO|]. split; [|split; [exact C|split; [|split]]].
    + assert (AL : filter (allowed (@FlatScan V f)) (map n_id cands) = map n_id cands).
      { apply Filtered.Proofs3.filter_all. intros i Hi. apply in_map_iff in Hi. destruct Hi as (x & <- & Hx).
        destruct C as (_ & _ & oth & PC & _).
        assert (Hv : In x (valid (flat_points pq npts f)))
          by (eapply Permutation_in; [symmetry; exact PC|]; apply in_or_app; now left).
        apply Search.Proofs.in_valid in Hv. apply (in_map n_id) in Hv. unfold flat_points in Hv.
        rewrite map_map in Hv. cbn [n_id] in Hv. rewrite map_id in Hv. now apply filter_In in Hv. }
      rewrite AL in PM. exact PM.
    + intros NP L. exact (flat_exact nodes full pq npts limit medoid k l f cands t xs NP L FD).
    + rewrite C1. unfold flat_points. apply map_length.
    + exact C3.
  - destruct (O St P inv SV s I) as [(E' & NR)|E']; rewrite E in E'; [discriminate|]. subst R. now destruct HR.
Qed.
Print Assumptions C71_flat_scan.

Example C71_case :
  ex_search (ideal ex_nodes) 0 3 4 (FlatScan (Some Nat.odd)) tt =
    SOk ([((3, 103), f32_one); ((1, 101), f32_two); ((0, 0), f32_zero)], mkStats 2 0 2 0) /\
  numeric (full_of ex_nodes (fun v => v)).
Proof. split; [vm_compute; reflexivity|exact ex_tame]. Qed.

(** Finding: a flat scan with an empty candidate list is not refused, as a graph search is,
    but panics. *)
Theorem C71_refuted_empty_list :
  exists V A (nodes : nat -> option (node V A)) full pq npts maxv limit medoid sort sort_items fuel adef,
  ready nodes npts maxv medoid sort sort_items fuel /\ tame nodes full pq (FlatScan None) /\
  d_search (ideal nodes) full pq npts maxv limit medoid sort sort_items fuel 0 0 None (FlatScan None) adef tt = SPanic /\
  d_search (ideal nodes) full pq npts maxv limit medoid sort sort_items fuel 0 0 None (GraphSearch None) adef tt = SErr.
Proof.
  exists f32, nat, ex_nodes, (fun v => v), ex_pq, 5, 3, 5, 0, isort, isort_items, 5, 0.
  split; [exact ex_ready|]. split; [exact ex_tame|]. split; vm_compute; reflexivity.
Qed.
Print Assumptions C71_refuted_empty_list.

(** ** C72: the read budget *)

(** C72.  Walking the graph, a search reads at most its limit of nodes, each once, and reports
    their number; a flat scan reads none. *)
Theorem C72_io_limit :
  forall V A St (P : vprov St V A) inv nodes full pq npts maxv limit medoid sort sort_items fuel
    k l bw (m : @mode V) adef s r t,
  ready nodes npts maxv medoid sort sort_items fuel -> serves nodes P inv -> inv s -> query_ok k l bw ->
  d_search P full pq npts maxv limit medoid sort sort_items fuel k l bw m adef s = SOk (r, t) ->
  t_ios t <= limit /\ t_ios t = Nat.min limit (t_hops t) /\ t_hops t <= npts.
Proof.
  intros V A St P inv nodes full pq npts maxv limit medoid sort sort_items fuel k l bw m adef s r t RD SV I Q E.
  destruct (search_plain nodes full pq npts maxv limit medoid adef sort sort_items fuel RD k l bw m Q)
    as [(cands & t' & xs & FD & ST & _ & O)|(NT & R & HR & O)].
  2:{ destruct (O St P inv SV s I) as [(E' & NR)|E']; rewrite E in E'; [discriminate|]. subst R. now destruct HR. }
  destruct (O St P inv SV s I) as [(E' & NR)|E']; rewrite E in E'; [discriminate|]. injection E' as -> <-.
  assert (TR : forall rec sc, traversed nodes pq limit medoid rec sc t ->
    t_ios t <= limit /\ t_ios t = Nat.min limit (t_hops t) /\ t_hops t <= npts).
  { intros rec sc [T1 T2 T3 T4 T5 T6]. rewrite T5, T6, firstn_length. split; [lia|]. split; [reflexivity|].
    rewrite <- (map_length n_id), <- (seq_length npts 0). apply NoDup_incl_length; [exact T1|].
    intros i Hi. apply in_map_iff in Hi. destruct Hi as (x & <- & Hx). apply in_seq.
    pose proof (reach_stored nodes npts maxv medoid (rd_index _ _ _ _ _ _ _ RD) _ (T3 x (T2 x Hx))) as SI.
    apply (di_points _ _ _ _ (rd_index _ _ _ _ _ _ _ RD)) in SI. lia. }
  destruct FD as (C & _). destruct m as [f|f|ok ad|f select]; cbn [chosen] in C.
  - destruct C as (_ & _ & -> & ->). lia.
  - destruct C as (rec & sc & T & _). eauto.
  - destruct C as (rec & sc & T & _). eauto.
  - destruct C as (rec & sc & T & _). eauto.
Qed.
Print Assumptions C72_io_limit.

(** With a limit that covers the index, the candidates are those of the same search of the
    same graph in memory, with PQ distances, and so are the hops and comparisons. *)
Theorem C72_as_in_memory :
  forall V A St (P : vprov St V A) inv nodes full pq npts maxv limit medoid sort sort_items fuel
    k l bw (m : @mode V) adef s r t,
  ready nodes npts maxv medoid sort sort_items fuel -> serves nodes P inv -> inv s -> query_ok k l bw ->
  npts <= limit ->
  d_search P full pq npts maxv limit medoid sort sort_items fuel k l bw m adef s = SOk (r, t) ->
  exists cands xs, in_memory nodes pq medoid sort fuel l (beam_of bw) m cands t /\
    presented nodes full m cands xs /\
    r = firstn k xs ++ repeat ((0, adef), f32_zero) (k - length xs).
Proof.
  intros V A St P inv nodes full pq npts maxv limit medoid sort sort_items fuel k l bw m adef s r t RD SV I Q L E.
  destruct (search_plain nodes full pq npts maxv limit medoid adef sort sort_items fuel RD k l bw m Q)
    as [(cands & t' & xs & FD & ST & M & O)|(NT & R & HR & O)].
  2:{ destruct (O St P inv SV s I) as [(E' & NR)|E']; rewrite E in E'; [discriminate|]. subst R. now destruct HR. }
  destruct (O St P inv SV s I) as [(E' & NR)|E']; rewrite E in E'; [discriminate|]. injection E' as -> <-.
  exists cands, xs. split; [now apply M|]. split; [|reflexivity]. now destruct FD as (_ & PR & _).
Qed.
Print Assumptions C72_as_in_memory.

(** A limit of two stops the walk after two reads. *)
Example C72_case :
  ex_search (ideal ex_nodes) 2 2 3 (GraphSearch None) tt =
    SOk ([((3, 103), f32_one); ((1, 101), f32_two)], mkStats 4 4 2 2).
Proof. vm_compute. reflexivity. Qed.

(** Finding: the limit does not cover reranking.  A provider that serves the index, but whose
    reads fail once [limit] nodes have been read, makes a search fail. *)
Definition metered {V A} (nodes : nat -> option (node V A)) (n : nat) : vprov nat V A :=
  mkVprov (fun s ids => if n <? s + length ids then SErr else SOk (s + length ids)) (fun s _ _ => SOk s)
    (fun _ i => option_map nd_vec (nodes i)) (fun _ i => option_map nd_adj (nodes i))
    (fun _ i => option_map nd_data (nodes i)) (fun s => 0).
Theorem C72_refuted_rerank_reads :
  ~ (forall V A (nodes : nat -> option (node V A)) full pq npts maxv limit medoid sort sort_items fuel k l bw
       (m : @mode V) adef,
     ready nodes npts maxv medoid sort sort_items fuel -> query_ok k l bw -> tame nodes full pq m ->
     d_search (metered nodes limit) full pq npts maxv limit medoid sort sort_items fuel k l bw m adef 0 <> SErr).
Proof.
  intros H. apply (H f32 nat ex_nodes (fun v => v) ex_pq 5 3 2 0 isort isort_items 5 2 3 None (GraphSearch None) 0 ex_ready ex_query).
  - exact ex_tame.
  - vm_compute. reflexivity.
Qed.
Print Assumptions C72_refuted_rerank_reads.

(** ** C73: providers *)

(** C73.  What a search returns does not depend on where the nodes come from: two providers
    that serve the same index and whose reads do not fail give the same results and
    statistics, whatever their states. *)
Theorem C73_provider_independent :
  forall V A St St' (P : vprov St V A) (P' : vprov St' V A) inv inv' nodes full pq npts maxv limit medoid
    sort sort_items fuel k l bw (m : @mode V) adef s s',
  ready nodes npts maxv medoid sort sort_items fuel -> query_ok k l bw ->
  serves nodes P inv -> reliable nodes P inv -> inv s ->
  serves nodes P' inv' -> reliable nodes P' inv' -> inv' s' ->
  d_search P full pq npts maxv limit medoid sort sort_items fuel k l bw m adef s =
    d_search P' full pq npts maxv limit medoid sort sort_items fuel k l bw m adef s' /\
  d_search_vectors P full pq npts maxv limit medoid sort sort_items fuel k l bw m adef s =
    d_search_vectors P' full pq npts maxv limit medoid sort sort_items fuel k l bw m adef s'.
Proof.
  intros V A St St' P P' inv inv' nodes full pq npts maxv limit medoid sort sort_items fuel k l bw m adef s s'
    RD Q SV RL I SV' RL' I'. split.
  - destruct (search_plain nodes full pq npts maxv limit medoid adef sort sort_items fuel RD k l bw m Q)
      as [(cands & t & xs & FD & ST & M & O)|(NT & R & HR & O)];
    (destruct (O St P inv SV s I) as [(_ & NR)| ->]; [contradiction|];
     destruct (O St' P' inv' SV' s' I') as [(_ & NR)| ->]; [contradiction|reflexivity]).
  - destruct (search_vectors nodes full pq npts maxv limit medoid adef sort sort_items fuel RD k l bw m Q)
      as [(cands & t & xs & FD & ST & M & O)|(NT & R & HR & O)];
    (destruct (O St P inv SV s I) as [(_ & NR)| ->]; [contradiction|];
     destruct (O St' P' inv' SV' s' I') as [(_ & NR)| ->]; [contradiction|reflexivity]).
Qed.
Print Assumptions C73_provider_independent.

(** A node cache that holds stored nodes, and nothing else, keeps a provider serving the index,
    and adds no failures. *)
Theorem C73_cache_transparent :
  forall V A St (P : vprov St V A) inv nodes cache,
  (forall i nd, cache i = Some nd -> nodes i = Some nd) ->
  (serves nodes P inv -> serves nodes (cached_vprov P cache) (fun s => inv (c_under s))) /\
  (reliable nodes P inv -> reliable nodes (cached_vprov P cache) (fun s => inv (c_under s))).
Proof.
  intros V A St P inv nodes cache HC. split; intros H.
  - exact (cached_serves P nodes inv cache HC H).
  - exact (cached_reliable P nodes inv cache H).
Qed.
Print Assumptions C73_cache_transparent.

(** End to end: the search of a file written from some content is the search of the content,
    with any node cache or none. *)
Theorem C73_file_search :
  forall dbg tsz asz rblk wblk (c : content) bs,
  Disk.Spec.content_ok dbg tsz asz c -> 0 < wblk -> 104 <= bs ->
  u64_ok (N.of_nat (Disk.Spec.node_bytes_len tsz asz c)) ->
  exists f, Disk.Model.create_disk_layout dbg tsz asz rblk wblk bs (Disk.Props.data_file c)
              (Disk.Props.assoc_file c) (Disk.Props.mem_file c) = Some f /\
  forall sector, 104 <= sector <= length f -> u64_ok (N.of_nat (length f)) ->
  exists h, Disk.Model.get_header sector f = Some h /\
    let nodes := nodes_of c in
    let npts := N.to_nat (Disk.Model.m_num_pts (Disk.Model.h_meta h)) in
    let medoid := N.to_nat (Disk.Model.m_medoid (Disk.Model.h_meta h)) in
    npts = length (Disk.Spec.c_vecs c) /\ medoid = N.to_nat (Disk.Spec.c_medoid c) /\
    forall maxb full pq maxv limit sort sort_items fuel k l bw m adef cache,
    ready nodes npts maxv medoid sort sort_items fuel -> query_ok k l bw ->
    (forall i nd, cache i = Some nd -> nodes i = Some nd) ->
    let vp := Disk.Model.vp_new sector tsz maxb h in
    d_search (file_vprov f) full pq npts maxv limit medoid sort sort_items fuel k l bw m adef vp =
      d_search (ideal nodes) full pq npts maxv limit medoid sort sort_items fuel k l bw m adef tt /\
    d_search (cached_vprov (file_vprov f) cache) full pq npts maxv limit medoid sort sort_items fuel k l bw m adef
        (mkCst vp [] 0) =
      d_search (ideal nodes) full pq npts maxv limit medoid sort sort_items fuel k l bw m adef tt /\
    d_search_vectors (file_vprov f) full pq npts maxv limit medoid sort sort_items fuel k l bw m adef vp =
      d_search_vectors (ideal nodes) full pq npts maxv limit medoid sort sort_items fuel k l bw m adef tt /\
    d_search_vectors (cached_vprov (file_vprov f) cache) full pq npts maxv limit medoid sort sort_items fuel k l bw m adef
        (mkCst vp [] 0) =
      d_search_vectors (ideal nodes) full pq npts maxv limit medoid sort sort_items fuel k l bw m adef tt.
Proof.
  intros dbg tsz asz rblk wblk c bs OK HW HB HN.
  pose proof (Disk.ProofsRead.F_length dbg tsz asz c OK bs HB) as HL.
  exists (Disk.ProofsRead.F tsz asz c bs). split.
  { apply Disk.ProofsLayout.create_layout; auto; unfold Disk.Model.meta_size; lia. }
  intros sector [HS1 HS2] H64. exists (Disk.ProofsLayout.final_header tsz asz c bs). split.
  { rewrite (Disk.ProofsRead.get_header_ok dbg); auto.
    - destruct (Nat.leb_spec sector (length (Disk.ProofsRead.F tsz asz c bs))); auto; lia.
    - rewrite <- HL. auto. }
  intros nodes npts medoid. split; [apply Nat2N.id|]. split; [reflexivity|].
  intros maxb full pq maxv limit sort sort_items fuel k l bw m adef cache RD Q HC vp.
  pose proof (file_serves dbg tsz asz c OK bs HB) as SV. pose proof (file_reliable dbg tsz asz c OK bs HB) as RL.
  pose proof (file_new tsz asz c bs HB sector maxb) as I.
  pose proof (ideal_serves nodes) as SI. pose proof (ideal_reliable nodes) as RI.
  pose proof (cached_serves _ _ _ cache HC SV) as SC. pose proof (cached_reliable _ _ _ cache RL) as RC.
  destruct (C73_provider_independent _ _ _ _ (file_vprov (Disk.ProofsRead.F tsz asz c bs)) (ideal nodes) _ _ nodes
    full pq npts maxv limit medoid sort sort_items fuel k l bw m adef vp tt RD Q SV RL I SI RI Logic.I) as (E1 & E2).
  destruct (C73_provider_independent _ _ _ _ (cached_vprov (file_vprov (Disk.ProofsRead.F tsz asz c bs)) cache) (ideal nodes) _ _ nodes
    full pq npts maxv limit medoid sort sort_items fuel k l bw m adef (mkCst vp [] 0) tt RD Q SC RC I SI RI Logic.I) as (E3 & E4).
  auto.
Qed.
Print Assumptions C73_file_search.

(** The small content of [Disk] (whose files are well formed, [Disk.Props.small_ok]) is a
    ready index of three points. *)
Example C73_content_ready : ready (nodes_of Disk.Props.small) 3 2 1 isort isort_items 3.
Proof.
  constructor; [|exact isort_sorts|exact isort_items_sorts|lia]. constructor; try lia.
  - intros i. do 3 (destruct i as [|i]; [split; [discriminate|lia]|]). cbn. split; [lia|].
    intros H. exfalso. apply H. unfold nodes_of, Disk.Spec.vector_of. rewrite Nat2N.id. now destruct i.
  - intros i nd j E Hj. do 3 (destruct i as [|i]; [vm_compute in E; injection E as <-; cbn [nd_adj In] in Hj; lia|]).
    exfalso. unfold nodes_of, Disk.Spec.vector_of in E. rewrite Nat2N.id in E. cbn in E. destruct i; discriminate.
  - intros i nd E. do 3 (destruct i as [|i]; [vm_compute in E; injection E as <-; cbn [nd_adj length]; lia|]).
    exfalso. unfold nodes_of, Disk.Spec.vector_of in E. rewrite Nat2N.id in E. cbn in E. destruct i; discriminate.
Qed.
Example C73_case :
  d_search (cached_vprov (metered ex_nodes 6) (fun i => if i <? 2 then ex_nodes i else None))
    (fun v : f32 => v) ex_pq 5 3 5 0 isort isort_items 5 2 3 (Some 2)
    (DiverseGraph None (fun l => Some (rev (seq 0 (length l))))) 7 (mkCst 3 [(4, 4)] 9) =
  SOk ([((4, 104), f32_zero); ((2, 102), f32_max)], mkStats 5 5 2 5).
Proof. vm_compute. reflexivity. Qed.
