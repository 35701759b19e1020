(** Property theorems of the priority queue (C14, C15).  [pq_new]/[pq_new_auto] are the
    two constructors, [q_run] executes a client history, [pq_iter] is [iter()]. *)
From Verif.Lib Require Import Base F32.
From Verif.Queue Require Import Model Spec Proofs.

(** C14.  After any history of insertions and expansions the queue did not panic and
    [iter()] yields the [l] closest candidates inserted (fewer if fewer were inserted), in
    ascending order of distance; NaN candidates are ignored.  For both the fixed and the
    auto-resizing queue. *)
Theorem C14_queue_keeps_the_closest :
  forall l (auto : bool) ops, 0 < l -> Forall plain_op ops ->
  exists q outs best rest,
    q_run (if auto then pq_new_auto l else pq_new l) ops = Some (q, outs) /\
    pq_iter q = Some best /\
    StronglySorted closer best /\
    length best = Nat.min l (length (valid (inserted ops))) /\
    Permutation (valid (inserted ops)) (best ++ rest) /\
    (forall x y, In x best -> In y rest -> closer x y).
Proof. exact c14_lemma. Qed.
Print Assumptions C14_queue_keeps_the_closest.

(** The internal SIMD search agrees with "index of the first distance >= target". *)
Theorem C14_simd_lower_bound_is_exact :
  forall q t, q_size q = length (q_dist q) -> lower_bound q t = lb (q_dist q) t.
Proof. exact lower_bound_lb. Qed.
Print Assumptions C14_simd_lower_bound_is_exact.

(** No history of insertions, expansions, reconfigurations (to a positive size) and
    clears makes the queue panic. *)
Theorem C14_queue_never_panics :
  forall l (auto : bool) ops, 0 < l -> Forall positive_op ops ->
  exists q outs, q_run (if auto then pq_new_auto l else pq_new l) ops = Some (q, outs).
Proof. exact q_run_total. Qed.
Print Assumptions C14_queue_never_panics.

(** ... but a zero-capacity queue panics (index underflow) on the first valid insertion. *)
Theorem C14_zero_capacity_insert_refuted :
  exists x, is_nan (n_dist x) = false /\ pq_insert (pq_new 0) x = None.
Proof. exact (ex_intro _ (mkNbr 1 f32_one) (conj eq_refl eq_refl)). Qed.
Print Assumptions C14_zero_capacity_insert_refuted.

(** C15.  In every reachable queue [closest_notvisited] returns the first entry inside the
    search window that was not expanded before; it is the closest such entry; it becomes
    visited and nothing else changes.  It returns nothing exactly if all entries of the
    window were expanded. *)
Theorem C15_next_is_closest_unvisited :
  forall q, q_reachable q ->
  exists q' r, closest_notvisited q = Some (q', r) /\
  match r with
  | Some x => exists i, open_at q i /\ pq_get q i = Some x /\
      (forall j, j < i -> get_visited q j = Some true) /\
      (forall j y, open_at q j -> pq_get q j = Some y -> closer x y) /\
      get_visited q' i = Some true /\
      (forall j, j <> i -> get_visited q' j = get_visited q j) /\
      (forall j, pq_get q' j = pq_get q j)
  | None => q' = q /\ forall i, ~ open_at q i
  end.
Proof. exact c15_next_lemma. Qed.
Print Assumptions C15_next_is_closest_unvisited.

(** C15.  If no id is inserted twice, no id is ever returned twice. *)
Theorem C15_each_candidate_expanded_once :
  forall l (auto : bool) ops q outs, 0 < l -> Forall positive_op ops ->
  NoDup (map n_id (inserted ops)) ->
  q_run (if auto then pq_new_auto l else pq_new l) ops = Some (q, outs) ->
  NoDup (map n_id outs).
Proof. exact c15_once_lemma. Qed.
Print Assumptions C15_each_candidate_expanded_once.

(** Finding: [drain_best] resets the cursor to 0 although the remaining entries may be
    visited, so the next expansion returns an entry that was returned before. *)
Definition three_visited : option (pq * list nbr) :=
  q_run (pq_new 3) [QInsert (mkNbr 1 f32_one); QInsert (mkNbr 2 f32_two);
                    QInsert (mkNbr 3 f32_three); QNext; QNext; QNext].
Theorem C15_expanded_once_with_drain_best_refuted :
  match three_visited with
  | Some (q, outs) =>
      match closest_notvisited (pq_drain_best q 1) with
      | Some (_, Some x) => In x outs
      | _ => False
      end
  | None => False
  end.
Proof. vm_compute. tauto. Qed.
Print Assumptions C15_expanded_once_with_drain_best_refuted.

(** Finding: [remove] of the entry under the cursor can leave the cursor on a visited
    entry, which is then returned a second time. *)
Definition before_remove : option (pq * list nbr) :=
  q_run (pq_new 3) [QInsert (mkNbr 2 f32_two); QInsert (mkNbr 3 f32_three); QNext;
                    QInsert (mkNbr 1 f32_one)].
Theorem C15_expanded_once_with_remove_refuted :
  match before_remove with
  | Some (q, outs) =>
      match pq_remove q (mkNbr 1 f32_one) with
      | Some (q1, true) =>
          match closest_notvisited q1 with
          | Some (_, Some x) => In x outs
          | _ => False
          end
      | _ => False
      end
  | None => False
  end.
Proof. vm_compute. tauto. Qed.
Print Assumptions C15_expanded_once_with_remove_refuted.

(** Non-vacuity: a full queue with an overflow, an expansion and a NaN. *)
Definition demo_ops : list qop :=
  [QInsert (mkNbr 3 f32_three); QInsert (mkNbr 1 f32_one); QNext;
   QInsert (mkNbr 9 f32_nan); QInsert (mkNbr 2 f32_two); QInsert (mkNbr 4 f32_neg_one); QNext].
Example demo_queue :
  match q_run (pq_new 2) demo_ops with
  | Some (q, outs) => pq_iter q = Some [mkNbr 4 f32_neg_one; mkNbr 1 f32_one] /\
                      map n_id outs = [1; 4] /\ has_notvisited q = false
  | None => False
  end.
Proof. vm_compute. auto. Qed.
Example demo_premises : Forall plain_op demo_ops /\ Forall positive_op demo_ops /\
  NoDup (map n_id (inserted demo_ops)).
Proof.
  unfold demo_ops. repeat split; try (repeat constructor; fail).
  cbn. repeat constructor; cbn; intuition discriminate.
Qed.
