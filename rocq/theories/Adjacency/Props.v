(** Property theorems for adjacency lists (C16), backedge buffers (C17) and candidate
    pools (C18). *)
From Verif.Lib Require Import Base Lists F32.
From Verif.Adjacency Require Import Model Spec Proofs.

(** C16.  Debug builds: whatever is done to a list through the public API, if nothing
    panicked the list holds no id twice.  ([from_iter_unique] only accepts iterators
    declared unique.) *)
Theorem C16_no_duplicates_debug :
  forall k ops a, Forall unique_iter_promise ops ->
  a_run true k [] ops = Some a -> NoDup a.
Proof. exact history_debug_lemma. Qed.
Print Assumptions C16_no_duplicates_debug.

(** C16.  All builds: the same if the callers of the trusted operations keep their word. *)
Theorem C16_no_duplicates :
  forall debug k ops a, promises debug k [] ops ->
  a_run debug k [] ops = Some a -> NoDup a.
Proof. exact history_lemma. Qed.
Print Assumptions C16_no_duplicates.

(** ... and then nothing panics, in debug builds either, as long as writes through a
    resize guard are in bounds. *)
Theorem C16_no_panic :
  forall debug k ops, Forall in_bounds ops -> promises debug k [] ops ->
  exists a, a_run debug k [] ops = Some a.
Proof. exact history_total_lemma. Qed.
Print Assumptions C16_no_panic.

Definition sample_ops : list aop :=
  [APush 3; AExtend [4; 3; 5; 4]; AResizeFinish 4 [(3, 9)] 4; ARemapTrusted (fun _ x => x + 1);
   ARetain (fun _ x => negb (x =? 5)); ASort; ATruncate 2; APush 7].
Example c16_sample : Forall in_bounds sample_ops /\ promises true Idu32 [] sample_ops /\
  a_run true Idu32 [] sample_ops = Some [4; 6; 7].
Proof.
  split; [repeat constructor|]. split; [|vm_compute; reflexivity].
  assert (U : forall l, all_unique Idu32 l = Some true -> NoDup l).
  { intros l E. destruct (all_unique_lemma Idu32 l) as (b & E' & H). rewrite E in E'.
    injection E' as <-. now apply H. }
  repeat (split; [first [exact I | intros ? [= <-]; apply U; vm_compute; reflexivity
                        | apply U; vm_compute; reflexivity]
                 |intros ? E; vm_compute in E; injection E as <-]).
  exact I.
Qed.

(** C16.  [push] adds the id at the end and returns [true] iff the id was not there. *)
Theorem C16_push_reports_novelty :
  forall k a i, exists a' b, adj_push k a i = Some (a', b) /\
  (In i a -> b = false /\ a' = a) /\ (~ In i a -> b = true /\ a' = a ++ [i]).
Proof. exact push_lemma. Qed.
Print Assumptions C16_push_reports_novelty.

(** C16.  [extend_from_slice] leaves what offering the ids one by one leaves, returns the
    number of ids added, and [last(count)] of that number is exactly the added ids. *)
Theorem C16_extend_counts_new_ids :
  forall k is a, NoDup a -> exists new,
  adj_extend k a is = Some (a ++ new, length new) /\
  adj_last (a ++ new) (length new) = Some new /\
  NoDup (a ++ new) /\ (forall x, In x (a ++ new) <-> In x a \/ In x is) /\
  a ++ new = offer a is.
Proof. exact extend_full_lemma. Qed.
Print Assumptions C16_extend_counts_new_ids.

(** C16.  [from_iter_untrusted] holds exactly the ids given, each once, ascending. *)
Theorem C16_untrusted_is_sorted_set :
  forall is, StronglySorted lt (adj_from_untrusted is) /\
  (forall x, In x (adj_from_untrusted is) <-> In x is).
Proof. exact untrusted_lemma. Qed.
Print Assumptions C16_untrusted_is_sorted_set.

(** C16.  [all_unique] decides uniqueness. *)
Theorem C16_all_unique_is_exact :
  forall k a, exists b, all_unique k a = Some b /\ (b = true <-> NoDup a).
Proof. exact all_unique_lemma. Qed.
Print Assumptions C16_all_unique_is_exact.

(** C16.  The vectorised membership test never reads past the slice and is exact, for
    [u32] and [u64] ids and every length. *)
Theorem C16_contains_simd_is_exact :
  forall k v t, exists b, contains_simd k v t = Some b /\ (b = true <-> In t v).
Proof. exact contains_exact_lemma. Qed.
Print Assumptions C16_contains_simd_is_exact.

(** The trusted operations are not checked in release builds: a broken promise leaves a
    duplicate in the list. *)
Theorem C16_release_trusts_callers_refuted :
  a_run false Idu32 [] [AOverwriteTrusted [1; 1]] = Some [1; 1].
Proof. exact eq_refl. Qed.
Print Assumptions C16_release_trusts_callers_refuted.

(** C17.  A buffer created for [v] and pushed [xs] never panics and holds exactly the
    distinct sources, in the order of their first push; every push reports whether its
    source was new. *)
Theorem C17_buffer_holds_distinct_sources :
  forall debug k v xs, exists b rs,
  b_pushes debug k (b_new v) xs = Some (b, rs) /\
  NoDup (b_slice b) /\
  (forall x, In x (b_slice b) <-> In x (v :: xs)) /\
  b_slice b = offer [] (v :: xs) /\ length rs = length xs /\
  (forall i x r, nth_error xs i = Some x -> nth_error rs i = Some r ->
     (r = true <-> ~ In x (v :: firstn i xs))).
Proof. exact buffer_lemma. Qed.
Print Assumptions C17_buffer_holds_distinct_sources.

(** C17.  Aggregating the back edges of a batch yields an entry for [t] exactly if some
    pending list contains [t]; the entry holds the sources of these lists, each once, in
    batch order. *)
Theorem C17_aggregation_is_exact :
  forall debug k lists, exists m,
  aggregate_backedges debug k lists = Some m /\
  forall t, match m t with
            | None => forall s edges, In (s, edges) lists -> ~ In t edges
            | Some b => NoDup (b_slice b) /\ b_slice b = offer [] (sources_of t lists) /\
  (forall s, In s (b_slice b) <->
                   exists edges, In (s, edges) lists /\ In t edges)
            end.
Proof. exact aggregate_lemma. Qed.
Print Assumptions C17_aggregation_is_exact.

Example c17_sample :
  match aggregate_backedges true Idu32
          [(1, [7; 8]); (2, [7]); (3, [7]); (4, [7]); (5, [7]); (2, [7; 9]); (6, [7])] with
  | Some m => option_map b_slice (m 7) = Some [1; 2; 3; 4; 5; 6] /\ m 4 = None
  | None => False
  end.
Proof. vm_compute. auto. Qed.

(** C18.  A candidate pool is made of the [min max len] candidates closest to the node, in
    ascending order: the input is, up to reordering, the pool and the candidates left
    out, and none of the latter is closer than one in the pool.  For every implementation
    of the std selection and sorting routines that honours their contract, and inputs
    without NaN distances (with NaN the contract promises a permutation only). *)
Theorem C18_pool_is_the_closest_prefix :
  forall select sort l max,
  select_contract select -> sort_contract sort ->
  exists pool rest, sorted_new select sort l max = Some pool /\
  Permutation l (pool ++ rest) /\
  length pool = Nat.min max (length l) /\
  (no_nan l -> StronglySorted leq_dist pool /\
  forall x y, In x pool -> In y rest -> leq_dist x y).
Proof. exact sorted_lemma. Qed.
Print Assumptions C18_pool_is_the_closest_prefix.

(** The contracts are satisfiable, and a non-trivial input without NaN exists. *)
Example c18_contracts : select_contract select_nbr /\ sort_contract sort_nbr.
Proof. exact (conj select_nbr_contract sort_nbr_contract). Qed.
Example c18_sample :
  sorted_new select_nbr sort_nbr
    [mkNbr 1 f32_three; mkNbr 2 f32_one; mkNbr 3 f32_inf; mkNbr 4 f32_two] 2
  = Some [mkNbr 2 f32_one; mkNbr 4 f32_two].
Proof. reflexivity. Qed.
