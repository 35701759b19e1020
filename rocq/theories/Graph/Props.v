(** Property theorems for the graph operations (C27, C28).  Throughout: [P] is the
    configuration with the distance and the standard library's sorting functions, [pv] the
    provider, [g] the stored lists at the start, [sched] a schedule: which operation starts
    when, which task moves next, which provider call fails. *)
From Verif.Lib Require Import Base Lists F32.
From Verif.Adjacency Require Import Spec Proofs.
From Verif.Prune Require Import ProofsIeee.
From Verif.Graph Require Import Model Spec Proofs Proofs2 Proofs3.

(** C27.  Any number of inserts, multi-inserts, deletes, batched deletes, consolidations,
    drops and prunes overlapping in any way, with any provider calls failing, on a provider
    that skips ids already present (the providers crate, the B-tree, Garnet): every stored
    list keeps distinct ids and at most [max_degree] of them; and no node lists itself, if
    no vector was missing while back edges were pruned. *)
Theorem C27_overlapping_operations : forall {V} (P : gpar V) g sched w,
  cfg_ok P -> bounded_distinct (p_max_degree P) g -> starts (op_ok P) sched ->
  wrun P (prov_unique (p_max_degree P)) sched (mkW g []) = Some w ->
  bounded_distinct (p_max_degree P) (w_graph w) /\
  (no_self_loops g -> starts op_sees sched -> no_self_loops (w_graph w)).
Proof. intros V P g sched w C. exact (overlap_lemma P C g sched w). Qed.
Print Assumptions C27_overlapping_operations.

(** C27.  With operations one at a time (their own tasks still overlapping) the same holds on
    every provider that appends what is new and fits, whatever else it does. *)
Theorem C27_one_at_a_time : forall {V} (P : gpar V) pv g sched w,
  cfg_ok P -> appends_exactly pv -> p_max_degree P <= pv_cap pv ->
  bounded_distinct (p_max_degree P) g -> starts (op_ok P) sched ->
  one_at_a_time P pv sched (mkW g []) ->
  wrun P pv sched (mkW g []) = Some w ->
  bounded_distinct (p_max_degree P) (w_graph w) /\
  (no_self_loops g -> starts op_sees sched -> no_self_loops (w_graph w)).
Proof. intros V P pv g sched w C. exact (sequential_lemma P C pv g sched w). Qed.
Print Assumptions C27_one_at_a_time.

(** The providers meet the hypothesis. *)
Theorem C27_providers_append_exactly : forall cap,
  appends_exactly (prov_unique cap) /\ appends_exactly (prov_plain cap).
Proof. intros cap. split; [apply prov_unique_exact|apply prov_plain_exact]. Qed.
Print Assumptions C27_providers_append_exactly.

(** Examples: vectors are the ids, at most [maxd] neighbours, two after pruning. *)
Definition away (i j : nat) : f32 :=
  nth (Nat.max i j - Nat.min i j)
    [f32_zero; f32_one; f32_two; 1077936128; 1082130432; 1084227584]%N f32_inf.
Definition toy (dist : nat -> nat -> f32) (kind : prune_kind) (debug : bool) (maxd intra : nat) : gpar nat :=
  mkPar ieee dist debug Idu32 10 select_nbr sort_nbr (mkPcfg f32_1_2 2 kind false)
    maxd 10 2 None (fun _ => intra).
Definition toy3 : gpar nat := toy away TriangleInequality true 3 0.
Definition here : nat -> fview nat := fun _ => Some Some.
Definition found (pool : list nbr) : nat -> @attempt nat := fun _ => mkAtt (Some pool) (Some Some).
Definition del_env (dead : list nat) (view : nat -> option nat) : @denv nat :=
  mkDenv true (memb dead) (memb dead) (memb dead) (Some []) (fun l => l) (Some view) (fun es => es) here.
Definition to_graph (ls : list (list nat)) : graph := fun v => nth v ls [].
Definition go (path : list nat) (i n : nat) : list (@act nat) := repeat (Go i path false) n.
Definition stored (n : nat) (w : option world) : option (list (list nat)) :=
  option_map (fun w => map (w_graph w) (seq 0 n)) w.
Definition finished (w : option world) : option bool :=
  option_map (fun w => forallb (fun p => match p with Ret (Some _) => true | _ => false end) (w_run w)) w.

Definition toy_graph : graph := to_graph [[]; [2; 3; 4]; [1; 3]; [1; 2]; [3; 2]].
(** An insert of 5 and a delete of 1 that overlap. *)
Definition toy_sched : list (@act nat) :=
  Start (OInsert 5 (found [mkNbr 4 f32_one; mkNbr 3 f32_two; mkNbr 1 1082130432%N]) here) ::
  Start (ODelete 1 2 OneHop (del_env [1] Some)) ::
  go [] 0 2 ++ go [] 1 5 ++ go [] 0 1 ++ go [] 1 6.
Lemma toy_ok : cfg_ok toy3.
Proof.
  split; [reflexivity|]. split; [cbn; lia|]. split; [vm_compute; discriminate|].
  split; [apply select_nbr_contract|apply sort_nbr_contract].
Qed.
Lemma toy_graph_ok : bounded_distinct 3 toy_graph /\ no_self_loops toy_graph.
Proof.
  split; intros [|[|[|[|[|v]]]]]; cbn; try lia; try (split; [repeat constructor; cbn; lia|cbn; lia]);
    destruct v; cbn; auto; split; try constructor; lia.
Qed.
Example c27_sample : cfg_ok toy3 /\ bounded_distinct 3 toy_graph /\ no_self_loops toy_graph /\
  starts (op_ok toy3) toy_sched /\ starts op_sees toy_sched /\
  stored 6 (wrun toy3 (prov_unique 3) toy_sched (mkW toy_graph [])) =
    Some [[]; []; [3; 4]; [2; 4]; [3; 2; 5]; [4]] /\
  finished (wrun toy3 (prov_unique 3) toy_sched (mkW toy_graph [])) = Some true.
Proof.
  split; [exact toy_ok|]. destruct toy_graph_ok as [A B]. split; [exact A|]. split; [exact B|]. clear.
  split.
  { intros o [H|[H|H]]; [inv H|inv H|].
    - intros n vis E. cbn in E. inv E. repeat constructor; cbn; lia.
    - intros es. reflexivity.
    - exfalso. repeat (apply in_app_iff in H as [H|H]); apply repeat_spec in H; discriminate. }
  split.
  { intros o [H|[H|H]]; [inv H|inv H|].
    - intros i view v E. cbn in E. inv E. discriminate.
    - intros i view v E. cbn in E. inv E. discriminate.
    - exfalso. repeat (apply in_app_iff in H as [H|H]); apply repeat_spec in H; discriminate. }
  vm_compute. auto.
Qed.
Example c27_sample_one_at_a_time :
  let sched := Start (ODelete 1 2 OneHop (del_env [1] Some)) :: go [] 0 11 ++
               Start (ODropDeleted 4 false false (memb [3])) :: go [] 1 2 in
  one_at_a_time toy3 (prov_plain 3) sched (mkW toy_graph []) /\
  stored 5 (wrun toy3 (prov_plain 3) sched (mkW toy_graph [])) = Some [[]; []; [3; 4]; [2; 4]; [2]].
Proof. vm_compute. repeat split. Qed.

(** C27.  A missing vector does create self loops: node 5 is inserted next to 1 and 3, whose
    lists are full, and the vector of 3 cannot be retrieved when its list is pruned.  The list
    just computed for node 1, which contains 3, is then stored as the list of 3. *)
Theorem C27_missing_vector_self_loop_refuted :
  let P := toy line TriangleInequality true 2 0 in
  let blind i : fview nat := Some (fun v => if (i =? 1) && (v =? 3) then None else Some v) in
  let o := OInsert 5 (found [mkNbr 1 f32_one; mkNbr 3 f32_one]) blind in
  let w := wrun P (prov_unique 2) (Start o :: go [] 0 5)
             (mkW (to_graph [[3; 4]; [3; 0]; []; [1; 0]; []]) []) in
  op_ok P o /\
  stored 6 w = Some [[3; 4]; [3; 0]; []; [3; 0]; []; [1; 3]] /\ finished w = Some true.
Proof.
  cbv zeta. split; [|vm_compute; auto].
  intros n vis E. cbn in E. inv E. repeat constructor; cbn; lia.
Qed.
Print Assumptions C27_missing_vector_self_loop_refuted.

(** C27.  On a provider that does not skip ids already present (the in-memory crate) two
    overlapping deletes store the same edge twice. *)
Theorem C27_overlap_without_check_refuted :
  stored 5 (wrun toy3 (prov_plain 3)
    (Start (ODelete 1 2 OneHop (del_env [1] Some)) :: Start (ODelete 2 2 OneHop (del_env [2] Some)) ::
     go [] 0 5 ++ go [] 1 5 ++ go [] 0 1 ++ go [] 1 1)
    (mkW (to_graph [[]; [3; 4]; [3; 4]; []; []]) [])) =
  Some [[]; [3; 4]; [3; 4]; []; [3; 3]].
Proof. vm_compute. reflexivity. Qed.
Print Assumptions C27_overlap_without_check_refuted.

(** C27.  A batch inserting a node again that the search already finds in the graph stores it
    twice with the inner product rule, in release builds. *)
Theorem C27_reinserted_batch_refuted :
  let P := toy (fun i j => if i =? j then f32_neg_one else 3221225472%N) Occluding false 3 2 in
  let e := mkMenv (fun _ => found [mkNbr 3 3221225472%N]) [0; 1] here [] [] (fun _ => here) in
  stored 4 (wrun P (prov_unique 3) (Start (OMultiInsert [2; 3] e) :: go [] 0 3)
    (mkW (to_graph [[]; [2; 3]; [3]; []]) [])) = Some [[]; [2; 3]; [3; 3]; [2]].
Proof. vm_compute. reflexivity. Qed.
Print Assumptions C27_reinserted_batch_refuted.

(** C28.  An in-place delete of [p] that returns without error leaves [p] without neighbours,
    removes [p] from the list of every in-neighbour it processed, and makes no node refer to
    [p] that did not before.  [p] is not among its own neighbours, nor among the results
    that post-processing left. *)
Theorem C28_delete_unlinks : forall {V} (P : gpar V) pv p num m e g g',
  cfg_ok P -> appends_exactly pv -> p_max_degree P <= pv_cap pv ->
  bounded_distinct (p_max_degree P) g -> ~ In p (g p) ->
  (forall ids, d_post e = Some ids -> ~ In p ids) ->
  (forall l, Permutation l (d_order e l)) -> (forall es, Permutation es (d_iter e es)) ->
  finishes P pv (ODelete p num m e) g g' ->
  g' p = [] /\ (forall q, processed e m p g q -> ~ In p (g' q)) /\
  (forall q, ~ In p (g q) -> ~ In p (g' q)).
Proof.
  intros V P pv p num m e g g' C X H. exact (delete_lemma pv X P C H p num m e g g').
Qed.
Print Assumptions C28_delete_unlinks.

Example c28_sample : let e := del_env [1] Some in
  bounded_distinct 3 toy_graph /\ ~ In 1 (toy_graph 1) /\
  processed e OneHop 1 toy_graph 2 /\ processed e OneHop 1 toy_graph 3 /\
  exists g', finishes toy3 (prov_plain 3) (ODelete 1 2 OneHop e) toy_graph g' /\
    map g' (seq 0 5) = [[]; []; [3; 4]; [2; 4]; [3; 2]].
Proof.
  cbv zeta. split; [apply toy_graph_ok|]. split; [cbn; lia|].
  split; [split; [cbn; auto|split; [cbn; auto|do 2 eexists; split; reflexivity]]|].
  split; [split; [cbn; auto|split; [cbn; auto|do 2 eexists; split; reflexivity]]|].
  eexists. split.
  - exists (go [] 0 11), []. split.
    + intros a I. apply repeat_spec in I. subst a. eauto.
    + vm_compute. reflexivity.
  - vm_compute. reflexivity.
Qed.

(** C28.  An in-neighbour whose vector cannot be retrieved keeps its reference although the
    delete returns without error. *)
Theorem C28_missing_vector_refuted :
  let w := wrun toy3 (prov_unique 3)
    (Start (ODelete 1 2 OneHop (del_env [1] (fun v => if v =? 3 then None else Some v))) :: go [] 0 7)
    (mkW (to_graph [[]; [2; 3]; [1]; [1; 2]]) []) in
  stored 4 w = Some [[]; []; []; [1; 2]] /\ finished w = Some true.
Proof. vm_compute. auto. Qed.
Print Assumptions C28_missing_vector_refuted.

(** C28.  An insert that overlaps the delete and found [p] before links [p] again. *)
Theorem C28_overlapping_insert_refuted :
  let w := wrun toy3 (prov_unique 3)
    (Start (OInsert 4 (found [mkNbr 1 f32_one]) here) :: Start (ODelete 1 2 OneHop (del_env [1] Some)) ::
     go [] 1 9 ++ go [] 0 3)
    (mkW (to_graph [[]; [2; 3]; [1]; [1; 2]; []]) []) in
  stored 5 w = Some [[]; [4]; [3]; [2]; [1]] /\ finished w = Some true.
Proof. vm_compute. auto. Qed.
Print Assumptions C28_overlapping_insert_refuted.

(** C28.  The batched delete filters the batch out of the old lists but not out of the
    replacement edges: deleting 1 and 2 together, where 2 was not yet marked deleted when the
    replacements for 1 were chosen, leaves 3 with an edge to the deleted node 2. *)
Theorem C28_batched_delete_refuted :
  let e := mkBenv (fun i => if i =? 0 then del_env [1] Some else del_env [1; 2] Some)
    (fun ms => [nodup Nat.eq_dec (flat_map (fun m => match m with Some m => map fst m | None => [] end) ms)])
    (fun _ => here) (fun l => l) in
  let w := wrun toy3 (prov_unique 3)
    (Start (OMultiDelete [([1; 2], e)] 3 OneHop) :: go [0] 0 4 ++ go [1] 0 3 ++ go [] 0 1 ++
     go [0] 0 3 ++ go [] 0 3)
    (mkW (to_graph [[]; [2; 3]; [3]; [1; 2]]) []) in
  stored 4 w = Some [[]; []; []; [2]] /\ finished w = Some true.
Proof. vm_compute. auto. Qed.
Print Assumptions C28_batched_delete_refuted.

(** C28.  [drop_deleted_neighbors] keeps exactly the neighbours that are not deleted (in
    their order), and with [only_orphans] also the deleted ones that still have neighbours. *)
Theorem C28_drop_deleted_exact : forall {V} (P : gpar V) pv v oo status g g',
  bounded_distinct (p_max_degree P) g ->
  finishes P pv (ODropDeleted v oo false status) g g' ->
  g' v = filter (fun i => negb (status i)) (g v) ++
         (if oo then filter (fun i => status i && match g i with [] => false | _ => true end) (g v)
          else []) /\
  forall u, u <> v -> g' u = g u.
Proof. intros V P pv v oo status g g'. exact (drop_deleted_lemma pv P v oo status g g'). Qed.
Print Assumptions C28_drop_deleted_exact.

Example c28_drop_sample : exists g',
  finishes toy3 (prov_plain 3) (ODropDeleted 1 true false (memb [3; 2])) (to_graph [[]; [2; 3; 4]; []; [1]]) g' /\
  map g' (seq 0 4) = [[]; [4; 3]; []; [1]].
Proof.
  eexists. split.
  - exists (go [] 0 4), []. split.
    + intros a I. apply repeat_spec in I. subst a. eauto.
    + vm_compute. reflexivity.
  - vm_compute. reflexivity.
Qed.

(** C28.  [consolidate_vector] changes no other list; the list of [v] ends up as exactly its
    undeleted neighbours and the undeleted neighbours of its deleted neighbours, or as a
    pruned selection of them; it is left alone when nothing is deleted and it is short, or
    when the vector of [v] cannot be retrieved. *)
Theorem C28_consolidate_exact : forall {V} (P : gpar V) pv v e g g',
  cfg_ok P -> bounded_distinct (p_max_degree P) g ->
  (forall l, Permutation l (cv_order e l)) -> cv_gone e = false ->
  finishes P pv (OConsolidate v e) g g' ->
  (forall u, u <> v -> g' u = g u) /\
  ((filter (cv_status e 0) (g v) = [] /\ length (g v) <= degree P /\ g' v = g v) \/
   (NoDup (g' v) /\ length (g' v) < degree P /\ forall x, In x (g' v) <-> consolidated e v g x) \/
   (NoDup (g' v) /\ length (g' v) <= degree P /\ (forall x, In x (g' v) -> consolidated e v g x) /\
      exists view w, cv_fill e = Some view /\ view v = Some w) \/
   (g' v = g v /\ exists view, cv_fill e = Some view /\ view v = None)).
Proof. intros V P pv v e g g' C. exact (consolidate_lemma pv P C v e g g'). Qed.
Print Assumptions C28_consolidate_exact.

Example c28_consolidate_sample : exists g',
  finishes toy3 (prov_plain 3) (OConsolidate 1 (mkCenv false (fun _ => memb [2; 3]) (fun l => l) (Some Some)))
    (to_graph [[]; [2; 3]; [1; 4]; [2]]) g' /\
  map g' (seq 0 4) = [[]; [4]; [1; 4]; [2]].
Proof.
  eexists. split.
  - exists (go [] 0 4), []. split.
    + intros a I. apply repeat_spec in I. subst a. eauto.
    + vm_compute. reflexivity.
  - vm_compute. reflexivity.
Qed.
