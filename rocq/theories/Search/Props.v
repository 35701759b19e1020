(** Property theorems about graph search (C22-C26). *)
From Verif.Lib Require Import Base Lists F32.
From Verif.Search Require Import Model Spec Proofs ProofsKnn ProofsRange ProofsPaged ProofsMain.

(** A graph of six nodes: a path 0-1-2-3 with chords and a node 5 nobody points to. *)
Definition demo_graph (i : nat) : option (list nat) :=
  nth_error [[1; 2]; [0; 3; 2]; [1; 4]; [3; 1]; [2; 0; 4]; [0]] i.
Definition demo_dist (i : nat) : option f32 :=
  nth_error [100; 90; 80; 10; 20; 1]%N i.
Definition never (_ : nat) : bool := false.
Definition ids {A B} (r : sres (list nbr * A * B)) : list nat :=
  match r with SOk (res, _, _) => map n_id res | _ => [] end.

Example demo_premises :
  NoDup [0] /\ finite_index demo_graph [0] [0; 1; 2; 3; 4; 5] /\
  ids (knn demo_graph demo_dist 6 2 1 never [0]) = [3; 4; 2] /\
  ids (knn demo_graph demo_dist 6 3 2 never [0]) = [3; 4; 2; 1] /\
  post_process [0] 2 (match knn demo_graph demo_dist 6 6 2 never [0] with
                      | SOk (r, _, _) => r | _ => [] end) = [mkNbr 3 10%N; mkNbr 4 20%N].
Proof.
  split; [repeat constructor; intros []|]. split; [|vm_compute; auto].
  split; [intros i [<-|[]]; now left|].
  intros u v Hu (ns & G & Hv).
  do 6 (destruct Hu as [<-|Hu]; [vm_compute in G; inv G; cbn in *; intuition lia|]). destruct Hu.
Qed.

Theorem C22_results_unique_reachable_scored_sorted graph dist fuel l bw stop starts res st rec :
  0 < l -> NoDup starts ->
  knn graph dist fuel l bw stop starts = SOk (res, st, rec) ->
  NoDup (map n_id res) /\ StronglySorted closer res /\ length res <= l + length starts /\
  forall x, In x res ->
    reach graph starts (n_id x) /\ dist (n_id x) = Some (n_dist x) /\ is_nan (n_dist x) = false.
Proof. exact (c22_basic graph dist fuel l bw stop starts res st rec). Qed.
Print Assumptions C22_results_unique_reachable_scored_sorted.

(** If the search was not cut short: no start point and no neighbour of a result is better
    than a result without being one. *)
Theorem C22_results_locally_complete graph dist fuel l bw starts res st rec v d :
  0 < l -> NoDup starts ->
  knn graph dist fuel l bw never starts = SOk (res, st, rec) ->
  (In v starts \/ exists x, In x res /\ edge graph (n_id x) v) ->
  dist v = Some d -> is_nan d = false ->
  In (mkNbr v d) res \/
  (length res = l + length starts /\ forall y, In y res -> f32_le (n_dist y) d = true).
Proof. exact (c22_local graph dist fuel l bw starts res st rec v d). Qed.
Print Assumptions C22_results_locally_complete.

(** If all reachable nodes fit into the list, the search is exact. *)
Theorem C22_exact_when_list_covers_graph graph dist fuel l bw starts res st rec univ :
  0 < l -> NoDup starts -> finite_index graph starts univ -> length univ <= l + length starts ->
  (forall i, reach graph starts i -> exists d, dist i = Some d /\ is_nan d = false) ->
  knn graph dist fuel l bw never starts = SOk (res, st, rec) ->
  forall i, reach graph starts i <-> In i (map n_id res).
Proof. exact (c22_exact graph dist fuel l bw starts res st rec univ). Qed.
Print Assumptions C22_exact_when_list_covers_graph.

(** A scratch object from the pool gives the same search as a new one. *)
Theorem C22_pooled_scratch_is_new st l : scratch_reuse st l = scratch_new l.
Proof. exact (scratch_reuse_new st l). Qed.
Print Assumptions C22_pooled_scratch_is_new.

Theorem C22_filtered_results graph dist fuel l bw stop starts k res st rec :
  0 < l -> NoDup starts ->
  knn graph dist fuel l bw stop starts = SOk (res, st, rec) ->
  let out := post_process starts k res in
  NoDup (map n_id out) /\ StronglySorted closer out /\ length out <= k /\
  (forall x, In x out -> In x res /\ ~ In (n_id x) starts) /\
  (forall x, In x res -> ~ In (n_id x) starts -> In x out \/
     (length out = k /\ forall y, In y out -> f32_le (n_dist y) (n_dist x) = true)).
Proof. exact (c22_post graph dist fuel l bw stop starts k res st rec). Qed.
Print Assumptions C22_filtered_results.

Theorem C23_terminates_without_panic graph dist fuel l bw stop starts univ :
  0 < l -> 0 < bw -> NoDup starts -> finite_index graph starts univ -> length univ <= fuel ->
  (forall i, In i starts -> dist i <> None) ->
  (forall i, reach graph starts i -> graph i <> None) ->
  exists out, knn graph dist fuel l bw stop starts = SOk out.
Proof. exact (c23_total graph dist fuel l bw stop starts univ). Qed.
Print Assumptions C23_terminates_without_panic.

(** [rec] lists the expanded nodes; [hops] counts them, [cmps] counts the distinct nodes
    whose distance was computed. *)
Theorem C23_work_is_bounded graph dist fuel l bw stop starts res st rec :
  0 < l -> NoDup starts ->
  knn graph dist fuel l bw stop starts = SOk (res, st, rec) ->
  NoDup (map n_id rec) /\ s_hops st = length rec /\
  exists scanned, NoDup scanned /\ s_cmps st = length scanned /\
    (forall i, In i scanned <->
       dist i <> None /\ (In i starts \/ exists x, In x rec /\ edge graph (n_id x) i)).
Proof. exact (c23_work graph dist fuel l bw stop starts res st rec). Qed.
Print Assumptions C23_work_is_bounded.

Example demo_work :
  match knn demo_graph demo_dist 6 2 1 never [0] with
  | SOk (_, st, rec) => (s_cmps st, s_hops st, map n_id rec) = (5, 5, [0; 2; 4; 1; 3])
  | _ => False end.
Proof. vm_compute. auto. Qed.

Theorem C24_reachable_count_is_exact graph fuel starts n :
  count_reachable_nodes graph fuel starts = SOk n ->
  exists r, NoDup r /\ length r = n /\ forall i, In i r <-> reach graph starts i.
Proof. exact (c24_exact graph fuel starts n). Qed.
Print Assumptions C24_reachable_count_is_exact.

Theorem C24_count_terminates graph starts univ :
  finite_index graph starts univ -> (forall i, reach graph starts i -> graph i <> None) ->
  exists fuel n, forall fuel', fuel <= fuel' -> count_reachable_nodes graph fuel' starts = SOk n.
Proof. exact (c24_total graph (fun _ => None) starts univ). Qed.
Print Assumptions C24_count_terminates.

Example demo_count : count_reachable_nodes demo_graph 30 [0] = SOk 5 /\
                     count_reachable_nodes demo_graph 30 [5; 5] = SOk 6.
Proof. vm_compute. auto. Qed.

(** ** Range search *)

Definition demo_range : range := mkRange None 2 1 85%N (Some 15%N) 1 95%N.
Example demo_range_run :
  range_valid demo_range = true /\
  match range_search demo_graph demo_dist 6 6 demo_range never [0] with
  | SOk o => map n_id (ro_results o) = [4; 2] /\ ro_second o = true /\
             map n_id (ro_internal o) = [3; 4; 1; 2]
  | _ => False end.
Proof. vm_compute. auto. Qed.

Theorem C25_results_in_range graph dist fuel fuel2 p stop starts o :
  range_valid p = true -> NoDup starts ->
  range_search graph dist fuel fuel2 p stop starts = SOk o ->
  NoDup (map n_id (ro_results o)) /\
  (forall m, r_max p = Some m -> length (ro_results o) <= m) /\
  forall x, In x (ro_results o) ->
    dist (n_id x) = Some (n_dist x) /\ reach graph starts (n_id x) /\
    f32_le (n_dist x) (r_radius p) = true /\
    (forall i, r_inner p = Some i -> f32_le (n_dist x) i = false).
Proof. exact (c25_sound graph dist fuel fuel2 p stop starts o). Qed.
Print Assumptions C25_results_in_range.

(** If the second phase ran and the maximum was not reached, every acceptable node connected
    to a hit of the first phase through nodes within the slack radius is returned. *)
Theorem C25_second_phase_complete graph dist fuel fuel2 p stop starts o v d :
  range_valid p = true -> NoDup starts ->
  range_search graph dist fuel fuel2 p stop starts = SOk o ->
  ro_second o = true -> (forall m, r_max p = Some m -> length (ro_internal o) < m) ->
  linked graph dist (r_limit p) (map n_id (ro_first o)) v -> dist v = Some d ->
  f32_le d (r_radius p) = true -> (forall i, r_inner p = Some i -> f32_le d i = false) ->
  In (mkNbr v d) (ro_results o).
Proof. exact (c25_complete graph dist fuel fuel2 p stop starts o v d). Qed.
Print Assumptions C25_second_phase_complete.

(** Without the second phase: every acceptable hit among the first [starting_l] candidates
    of the graph search is returned. *)
Theorem C25_first_phase_hits graph dist fuel fuel2 p stop starts o best st rec :
  range_valid p = true -> NoDup starts ->
  range_search graph dist fuel fuel2 p stop starts = SOk o ->
  knn graph dist fuel (r_l p) (r_bw p) stop starts = SOk (best, st, rec) ->
  forall x, In x (firstn (r_l p) best) -> f32_le (n_dist x) (r_radius p) = true ->
    (forall i, r_inner p = Some i -> f32_le (n_dist x) i = false) -> In x (ro_results o).
Proof. exact (c25_first graph dist fuel fuel2 p stop starts o best st rec). Qed.
Print Assumptions C25_first_phase_hits.

Theorem C25_terminates_without_panic graph dist fuel fuel2 p stop starts univ :
  range_valid p = true -> NoDup starts -> finite_index graph starts univ ->
  length univ <= fuel -> length univ <= fuel2 ->
  (forall i, In i starts -> dist i <> None) ->
  (forall i, reach graph starts i -> graph i <> None) ->
  exists o, range_search graph dist fuel fuel2 p stop starts = SOk o.
Proof. exact (c25_total graph dist fuel fuel2 p stop starts univ). Qed.
Print Assumptions C25_terminates_without_panic.

(** Finding: the reported hop count is not the number of expansions.  In an index with one
    node at most two expansions can happen (one per phase), three are reported. *)
Theorem C25_hop_count_refuted : exists graph dist p o,
  range_valid p = true /\ finite_index graph [0] [0] /\
  range_search graph dist 5 5 p never [0] = SOk o /\ ro_hops o = 3.
Proof. exact c25_hops_refuted. Qed.
Print Assumptions C25_hop_count_refuted.

(** ** Paged search *)

(** What the search starts from. *)
Definition entry_points (starts : list nat) (init : option (list nat)) : list nat :=
  match init with Some i => i | None => starts end.

Definition page_ids (r : sres (paged * list (list nbr))) : list (list nat) :=
  match r with SOk (_, pgs) => map (map n_id) pgs | _ => [] end.
Example demo_pages :
  match paged_new demo_graph demo_dist 2 [0] None with
  | SOk p => page_ids (pages demo_graph demo_dist 9 never [0] [1; 2; 2; 2] p)
             = [[3]; [4; 2]; [1]; []]
  | _ => False end.
Proof. vm_compute. auto. Qed.

Theorem C26_pages_do_not_overlap graph dist fuel stop l starts init ks p0 p pgs :
  0 < l -> NoDup starts ->
  paged_new graph dist l starts init = SOk p0 ->
  pages graph dist fuel stop starts ks p0 = SOk (p, pgs) ->
  NoDup (map n_id (concat pgs)) /\
  Forall2 (fun k pg => length pg <= k) ks pgs /\
  Forall (StronglySorted closer) pgs /\
  forall x, In x (concat pgs) ->
    dist (n_id x) = Some (n_dist x) /\ ~ In (n_id x) starts /\
    reach graph (entry_points starts init ++ starts) (n_id x).
Proof. exact (c26_pages graph dist fuel stop l starts init ks p0 p pgs). Qed.
Print Assumptions C26_pages_do_not_overlap.

(** A page shorter than requested means that everything has been returned. *)
Theorem C26_short_page_means_exhausted graph dist fuel l starts ks1 k ks2 p0 p pgs1 pg pgs2 :
  0 < l -> NoDup starts -> starts <> [] ->
  (forall i, reach graph starts i -> exists d, dist i = Some d /\ is_nan d = false) ->
  paged_new graph dist l starts None = SOk p0 ->
  pages graph dist fuel never starts (ks1 ++ k :: ks2) p0 = SOk (p, pgs1 ++ pg :: pgs2) ->
  length pgs1 = length ks1 -> length pg < k ->
  (forall i, reach graph starts i -> ~ In i starts -> In i (map n_id (concat pgs1 ++ pg))) /\
  Forall (fun q => q = []) pgs2.
Proof. exact (c26_exhausted graph dist fuel l starts ks1 k ks2 p0 p pgs1 pg pgs2). Qed.
Print Assumptions C26_short_page_means_exhausted.

Theorem C26_terminates_without_panic graph dist fuel stop l starts init ks univ :
  0 < l -> NoDup starts -> finite_index graph (entry_points starts init ++ starts) univ ->
  length univ < fuel ->
  (forall k, In k ks -> 0 < k <= l) ->
  (forall i, In i starts -> dist i <> None) ->
  (forall i, reach graph (entry_points starts init ++ starts) i -> graph i <> None) ->
  exists p0 out, paged_new graph dist l starts init = SOk p0 /\
    pages graph dist fuel stop starts ks p0 = SOk out.
Proof. exact (c26_total graph dist fuel stop l starts init ks univ). Qed.
Print Assumptions C26_terminates_without_panic.

(** Finding: ids given by the caller to start from are never returned, although the code
    says "init_ids are real points, and shouldn't be excluded from candidates". *)
Theorem C26_init_ids_are_returned_refuted graph dist fuel stop l starts init ks p0 p pgs :
  0 < l -> NoDup starts ->
  paged_new graph dist l starts (Some init) = SOk p0 ->
  pages graph dist fuel stop starts ks p0 = SOk (p, pgs) ->
  forall x, In x (concat pgs) -> ~ In (n_id x) init.
Proof. exact (c26_init graph dist fuel stop l starts init ks p0 p pgs). Qed.
Print Assumptions C26_init_ids_are_returned_refuted.

Example demo_init_ids :
  match paged_new demo_graph demo_dist 2 [0] (Some [3]) with
  | SOk p => page_ids (pages demo_graph demo_dist 9 never [0] [2; 2] p) = [[4; 2]; [1]]
  | _ => False end.
Proof. vm_compute. auto. Qed.
