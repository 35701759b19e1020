(** Property theorems for pruning (C19, C20, C21).  Throughout: [dist] is the distance
    between vectors (any function), [mp] the vectors that could be retrieved, [excl] the
    ids the caller excludes (the node itself, deleted nodes), [pool] the candidates sorted
    by distance, [old] the previous content of the output list, [fuel] a bound on the
    number of alpha rounds. *)
From Verif.Lib Require Import Base Lists F32.
From Verif.Prune Require Import Model Spec ProofsIeee.

(** C19.  If [alpha] is below f32::MAX and the pool has distinct ids (and at most 65535
    of them), pruning never panics and returns at most [degree] distinct ids from the
    pool, none of them excluded; without saturation all of them have vectors; with
    saturation the list is filled up to the degree or the pool is exhausted. *)
Theorem C19_bounded_distinct_subset :
  forall {V} ar dist debug k fuel cfg force (mp : nat -> option V) excl pool old,
  sane_alpha (c_alpha cfg) -> (N.of_nat (length pool) <= 65535)%N -> NoDup (map n_id pool) ->
  match occlude_list ar dist debug k fuel cfg force mp excl pool old with
  | Done l => length l <= c_degree cfg /\ NoDup l /\
      (forall id, In id l -> In id (map n_id pool) /\ excl id = false) /\
      (saturating cfg force = false -> forall id, In id l -> exists v, mp id = Some v) /\
      (saturating cfg force = true ->
         length l = Nat.min (c_degree cfg) (length (filter (fun x => negb (excl (n_id x))) pool)))
  | Panic => False
  | OutOfFuel => True
  end.
Proof. exact @occlude_bounds_all. Qed.
Print Assumptions C19_bounded_distinct_subset.

Definition sample_pool : list nbr :=
  [mkNbr 1 f32_one; mkNbr 4 f32_one; mkNbr 2 f32_1_2; mkNbr 3 f32_two].
Definition sample_cfg (sat : bool) := mkPcfg f32_1_2 3 TriangleInequality sat.
Example c19_sample : sane_alpha (c_alpha (sample_cfg true)) /\ NoDup (map n_id sample_pool) /\
  occlude_list ieee line true Idu32 10 (sample_cfg false) false Some (fun i => i =? 4)
    sample_pool [9] = Done [1; 2] /\
  occlude_list ieee line true Idu32 10 (sample_cfg true) false Some (fun i => i =? 4)
    sample_pool [9] = Done [1; 2; 3].
Proof.
  split; [reflexivity|]. split; [|vm_compute; auto].
  repeat constructor; cbn; intuition discriminate.
Qed.

(** C19.  The distinctness of the pool is needed: with an id twice in the pool (which
    [robust_prune_with] does not exclude) the inner product rule returns it twice in
    release builds and panics in debug builds. *)
Theorem C19_duplicate_candidates_refuted :
  let run debug := occlude_list ieee (fun _ _ : nat => f32_neg_one) debug Idu32 10
    (mkPcfg f32_one 3 Occluding false) false Some (fun _ => false)
    [mkNbr 1 3221225472%N; mkNbr 1 3221225472%N] [] in
  run false = Done [1; 1] /\ run true = Panic.
Proof. vm_compute. auto. Qed.
Print Assumptions C19_duplicate_candidates_refuted.

(** C19.  So is the bound on alpha, which the configuration accepts unchecked: with an
    infinite alpha pruning panics when the degree exceeds the pool, and returns a
    candidate twice in release builds. *)
Theorem C19_infinite_alpha_refuted :
  occlude_list ieee (fun _ _ : nat => f32_one) false Idu32 1000
    (mkPcfg f32_inf 2 TriangleInequality false) false Some (fun _ => false)
    [mkNbr 1 f32_two] [] = Panic /\
  occlude_list ieee (fun _ _ : nat => f32_zero) false Idu32 1000
    (mkPcfg f32_inf 2 TriangleInequality false) false Some (fun _ => false)
    [mkNbr 1 f32_two; mkNbr 2 f32_two] [] = Done [1; 1].
Proof. vm_compute. auto. Qed.
Print Assumptions C19_infinite_alpha_refuted.

(** C20.  Every kept candidate was kept at one of the scales of the alpha ladder, and at
    that scale no candidate kept before it and closer than it occludes it. *)
Theorem C20_kept_is_not_occluded :
  forall {V} ar dist debug k fuel cfg force (mp : nat -> option V) excl pool old l,
  sane_alpha (c_alpha cfg) -> (N.of_nat (length pool) <= 65535)%N -> NoDup (map n_id pool) ->
  saturating cfg force = false -> c_kind cfg = TriangleInequality ->
  occlude_list ar dist debug k fuel cfg force mp excl pool old = Done l ->
   exists As, length As = length l /\ Forall (scale ar (c_alpha cfg)) As /\
   forall n m x y v w a, nth_error l n = Some (n_id x) -> nth_error l m = Some (n_id y) ->
     m < n -> nth_error As n = Some a -> before pool y x ->
     mp (n_id x) = Some v -> mp (n_id y) = Some w -> ~ occluded ar dist a (n_dist x) v w.
Proof. exact @kept_clear. Qed.
Print Assumptions C20_kept_is_not_occluded.

(** C20.  A candidate with a vector that is dropped although the degree is not reached is
    occluded at the configured alpha by a kept closer candidate. *)
Theorem C20_dropped_is_occluded :
  forall {V} ar dist debug k fuel cfg force (mp : nat -> option V) excl pool old l,
  sane_alpha (c_alpha cfg) -> (N.of_nat (length pool) <= 65535)%N -> NoDup (map n_id pool) ->
  f32_le f32_zero (c_alpha cfg) = true -> saturating cfg force = false ->
  c_kind cfg = TriangleInequality ->
  occlude_list ar dist debug k fuel cfg force mp excl pool old = Done l ->
  length l < c_degree cfg ->
  forall x v, In x pool -> excl (n_id x) = false -> mp (n_id x) = Some v -> ~ In (n_id x) l ->
  exists y w, In (n_id y) l /\ before pool y x /\ mp (n_id y) = Some w /\
    occluded ar dist (c_alpha cfg) (n_dist x) v w.
Proof. exact @dropped_occluded. Qed.
Print Assumptions C20_dropped_is_occluded.

Example c20_sample : f32_le f32_zero (c_alpha (sample_cfg false)) = true /\
  saturating (sample_cfg false) false = false /\ c_kind (sample_cfg false) = TriangleInequality /\
  length [1; 2] < c_degree (sample_cfg false) /\ ~ In 3 [1; 2].
Proof. vm_compute. repeat split; auto. intuition discriminate. Qed.

(** C20.  With IEEE 754 arithmetic the result is exactly that of the textbook algorithm,
    which recomputes every occlusion from scratch at every scale. *)
Theorem C20_equals_textbook_prune :
  forall {V} (dist : V -> V -> f32) debug k fuel cfg force mp excl pool old,
  sane_alpha (c_alpha cfg) -> (N.of_nat (length pool) <= 65535)%N -> NoDup (map n_id pool) ->
  f32_le f32_zero (c_alpha cfg) = true -> saturating cfg force = false ->
  c_kind cfg = TriangleInequality ->
  occlude_list ieee dist debug k fuel cfg force mp excl pool old =
  match pool with
  | [] => Done []
  | _ => match reference_prune ieee dist (make_cache mp excl pool) fuel (c_alpha cfg) (c_degree cfg) with
         | Some P => Done (ids_at pool P)
         | None => OutOfFuel
         end
  end.
Proof. exact @textbook. Qed.
Print Assumptions C20_equals_textbook_prune.

(** C20, inner product.  A dropped candidate is occluded by a kept closer candidate at a
    scale within 0.01 of the configured alpha ... *)
Theorem C20_inner_product_dropped_is_occluded :
  forall {V} ar dist debug k fuel cfg force (mp : nat -> option V) excl pool old l,
  sane_alpha (c_alpha cfg) -> (N.of_nat (length pool) <= 65535)%N -> NoDup (map n_id pool) ->
  f32_le f32_zero (c_alpha cfg) = true -> saturating cfg force = false ->
  c_kind cfg = Occluding ->
  occlude_list ar dist debug k fuel cfg force mp excl pool old = Done l ->
  length l < c_degree cfg ->
  forall x v, In x pool -> excl (n_id x) = false -> mp (n_id x) = Some v -> ~ In (n_id x) l ->
  exists y w a, In (n_id y) l /\ before pool y x /\ mp (n_id y) = Some w /\
    scale ar (c_alpha cfg) a /\ occluded_ip ar dist a (n_dist x) v w /\
    f32_gt (fadd ar a f32_0_01) (c_alpha cfg) = true.
Proof. exact @dropped_occluded_ip. Qed.
Print Assumptions C20_inner_product_dropped_is_occluded.

Definition neg_ten : f32 := 3240099840%N.
Example c20_ip_sample : sane_alpha f32_one /\
  occlude_list ieee (fun _ _ : nat => neg_ten) true Idu32 10 (mkPcfg f32_one 3 Occluding false)
    false Some (fun _ => false) [mkNbr 1 f32_neg_one; mkNbr 2 f32_neg_one] [] = Done [1].
Proof. vm_compute. auto. Qed.

(** ... but the first half fails for inner products: the documentation says an occluded
    candidate is removed entirely, yet a candidate occluded by its kept predecessor at
    every scale up to alpha = 1.2 is kept, because the scan is not repeated at the next
    scale and the recorded factor is only 1.01. *)
Theorem C20_inner_product_kept_refuted :
  occlude_list ieee (fun _ _ : nat => neg_ten) true Idu32 10
    (mkPcfg f32_1_2 3 Occluding false) false Some (fun _ => false)
    [mkNbr 1 f32_neg_one; mkNbr 2 f32_neg_one] [] = Done [1; 2] /\
  occluded_ip ieee (fun _ _ : nat => neg_ten) f32_one f32_neg_one 2 1 /\
  occluded_ip ieee (fun _ _ : nat => neg_ten) f32_1_2 f32_neg_one 2 1.
Proof. vm_compute. auto. Qed.
Print Assumptions C20_inner_product_kept_refuted.

(** C21.  With IEEE 754 arithmetic pruning ends after finitely many rounds, for every
    alpha below f32::MAX (negative ones and zero included), every pool and distance. *)
Theorem C21_pruning_terminates :
  forall {V} (dist : V -> V -> f32) debug k cfg force mp excl pool old,
  sane_alpha (c_alpha cfg) -> (N.of_nat (length pool) <= 65535)%N -> NoDup (map n_id pool) ->
  exists fuel, forall fuel', fuel <= fuel' -> exists l,
    occlude_list ieee dist debug k fuel' cfg force mp excl pool old = Done l.
Proof. exact @terminates. Qed.
Print Assumptions C21_pruning_terminates.

(** C21.  A NaN alpha, accepted by the configuration, makes pruning loop forever. *)
Theorem C21_nan_alpha_refuted :
  forall debug k fuel,
  occlude_list ieee (fun _ _ : unit => f32_one) debug k fuel
    (mkPcfg f32_nan 1 TriangleInequality false) false (fun _ => None) (fun _ => false)
    [mkNbr 7 f32_one] [] = OutOfFuel.
Proof. exact nan_loops. Qed.
Print Assumptions C21_nan_alpha_refuted.
