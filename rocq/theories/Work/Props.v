(** Property theorems about work splitting (C29, C47).  [M] stands for [usize::MAX]. *)
From Verif.Lib Require Import Base Lists.
From Verif.Work Require Import Model Spec Proofs.

Theorem C29_partition_covers_exactly M nitems ntasks : 0 < ntasks -> nitems < M ->
  exists rs, partition_iter M nitems ntasks ntasks 0 = Some rs /\ length rs = ntasks /\
    consecutive 0 nitems rs /\
    (forall a b, In (a, b) rs -> b - a = nitems / ntasks \/ b - a = nitems / ntasks + 1) /\
    forall task, partition M nitems ntasks task =
      Some (match nth_error rs task with Some r => inr r | None => inl tt end).
Proof. exact (partition_lemma M nitems ntasks). Qed.
Print Assumptions C29_partition_covers_exactly.

Example partition_demo : partition_iter 255 11 4 4 0 = Some [(0, 3); (3, 6); (6, 9); (9, 11)].
Proof. reflexivity. Qed.

(** Finding: the largest possible range in one task overflows. *)
Theorem C29_partition_total_refuted : forall M, partition M M 1 0 = None.
Proof. exact partition_overflow. Qed.
Print Assumptions C29_partition_total_refuted.

Theorem C29_arc_chunks_concat {A} M (data : list A) size : 0 < size -> size <= M ->
  2 * length data <= M ->
  exists cs, arc_chunks M data size = Some cs /\ concat cs = data /\
    length cs = div_ceil (length data) size /\
    forall i c, nth_error cs i = Some c ->
      c <> [] /\ length c <= size /\ (S i < length cs -> length c = size).
Proof. exact (arc_chunks_lemma M data size). Qed.
Print Assumptions C29_arc_chunks_concat.

Example arc_chunks_demo : arc_chunks 255 [1; 2; 3; 4; 5] 2 = Some [[1; 2]; [3; 4]; [5]] /\
  arc_chunks 255 [1; 2] 255 = Some [[1; 2]].
Proof. auto. Qed.

(** The window around a position: its neighbours on both sides in the circular buffer,
    each once, never the position itself, biased to the left. *)
Theorem C29_around_is_a_window max i len : 0 < max ->
  let l := Nat.min len (max - 1) in let j := Nat.min i (max - 1) in
  around max i len = window max j l ((l + 1) / 2) /\
  NoDup (around max i len) /\ length (around max i len) = l /\
  forall p, In p (around max i len) -> p < max /\ p <> j.
Proof. exact (around_all max i len). Qed.
Print Assumptions C29_around_is_a_window.

Example around_demo : around 6 3 3 = [1; 2; 4] /\ around 6 0 4 = [4; 5; 1; 2] /\
  around 3 7 9 = [1; 0] /\ around 0 1 1 = [].
Proof. auto. Qed.

(** Any number of workers calling [next] in any interleaving: no item is handed out twice,
    and once some call returned nothing, every item has been handed out or is held by a
    worker whose call is about to return it. *)
Theorem C29_balancer_hands_out_each_item_once M n workers sched :
  n + workers <= M -> Forall (fun w => w < workers) sched ->
  exists s evs, b_run M n (b_init workers) sched = Some (s, evs) /\
    NoDup (items evs) /\ (forall i, In i (items evs) -> i < n) /\
    ((exists w, In (w, None) evs) -> forall i, i < n ->
       In i (items evs) \/ exists w, nth_error (b_ag s) w = Some (BGot i)).
Proof. exact (balancer_lemma M n workers sched). Qed.
Print Assumptions C29_balancer_hands_out_each_item_once.

Example balancer_demo :
  option_map snd (b_run 255 2 (b_init 3) [0; 1; 2; 0; 0; 2; 1; 1; 0; 1])
  = Some [(0, Some 0); (2, None); (1, Some 1); (0, None); (1, None)].
Proof. reflexivity. Qed.

(** Chunk offsets of product quantization. *)
Theorem C47_offsets_accepted_iff_proper l d :
  offsets_new l = Some d <-> proper_offsets l /\ d = last l 0.
Proof. exact (offsets_new_lemma l d). Qed.
Print Assumptions C47_offsets_accepted_iff_proper.

Theorem C47_partition_is_even dim n : 0 < n ->
  (offsets_partition dim n = None <-> dim < n) /\
  forall l, offsets_partition dim n = Some l ->
    length l = n + 1 /\ proper_offsets l /\ offsets_new l = Some dim /\
    forall i, i < n -> exists a, offsets_at l i
      = Some (a, a + dim / n + (if i <? dim mod n then 1 else 0)).
Proof. exact (offsets_partition_lemma dim n). Qed.
Print Assumptions C47_partition_is_even.

Theorem C47_chunks_cover_the_vector {A} (data : list A) l d :
  offsets_new l = Some d -> length data = d ->
  exists cs, opt_map (chunk_at data l) (seq 0 (length l - 1)) = Some cs /\ concat cs = data.
Proof. exact (chunk_view_lemma data l d). Qed.
Print Assumptions C47_chunks_cover_the_vector.

Example offsets_demo : offsets_partition 10 4 = Some [0; 3; 6; 8; 10] /\
  offsets_new [0; 3; 6; 8; 10] = Some 10 /\ offsets_new [0; 3; 3] = None /\
  chunk_at [1; 2; 3; 4; 5] [0; 2; 5] 1 = Some [3; 4; 5].
Proof. vm_compute. auto. Qed.
