(** Property theorems about diversity-aware search (C62, C63). *)
From Verif.Lib Require Import Base Lists F32.
From Verif.Diverse Require Import Model Spec Proofs Proofs5 Proofs6.

(** Eight nodes with two attribute values (node 7 has none) on a ring with chords. *)
Definition demo_graph (i : nat) : option (list nat) :=
  nth_error [[1; 2; 5]; [0; 3; 2]; [1; 4; 6]; [3; 1; 7]; [2; 0; 4]; [0; 6]; [5; 7]; [0]] i.
Definition demo_dist (i : nat) : option f32 :=
  nth_error [100; 90; 80; 10; 20; 30; 40; 1]%N i.
Definition demo_attr (i : nat) : option nat :=
  match nth_error [0; 0; 0; 0; 0; 1; 1] i with Some a => Some a | None => None end.

Example demo_search :
  NoDup [0] /\ finite_index demo_graph [0] [0; 1; 2; 3; 4; 5; 6; 7] /\
  (forall i, In i [0] -> demo_dist i <> None) /\
  match diverse_search demo_attr demo_graph demo_dist 8 6 3 2 1 [0] with
  | SOk (res, st, rec) => (map n_id res, map n_id rec, ds_cmps st, ds_hops st) = ([3; 4; 5; 6], [0; 5; 6; 2; 4; 1; 3], 8, 7)
  | _ => False
  end.
Proof.
  split; [repeat constructor; intros []|]. split; [|split; [|vm_compute; auto]].
  - split; [intros i [<-|[]]; now left|].
    intros u v Hu (ns & G & Hv).
    do 8 (destruct Hu as [<-|Hu]; [vm_compute in G; inv G; cbn in *; intuition lia|]). destruct Hu.
  - intros i [<-|[]]. discriminate.
Qed.

(** ** C62: the search is sound and always ends *)

(** Whatever is inserted and taken out, in whatever order, ids being inserted once: no
    panic; what is taken out is taken out once; the results are distinct, in order of
    distance, at most [l], and all have an attribute value. *)
Theorem C62_queue_histories_are_sound attr l total k ops :
  0 < k -> 0 < total -> total <= l -> NoDup (map n_id (d_inserted ops)) ->
  exists d outs res,
    dq_run attr (dq_new l total k) ops = Some (d, outs) /\ dq_results d = Some res /\
    NoDup (map n_id outs) /\ incl outs (usable attr (d_inserted ops)) /\
    NoDup (map n_id res) /\ StronglySorted closer res /\ length res <= l /\
    incl res (usable attr (d_inserted ops)).
Proof.
  intros Hk Ht Hl ND.
  destruct (c62_queue attr l total k ops Hk Ht Hl ND) as (d & o & r & H1 & H2 & H3 & H4 & H5 & H6 & H7 & H8 & _).
  exists d, o, r. repeat (split; [assumption|]). exact H8.
Qed.
Print Assumptions C62_queue_histories_are_sound.

(** [rec] lists the expanded nodes. *)
Theorem C62_search_results_are_sound attr graph dist fuel l total k bw starts res st rec :
  0 < k -> 0 < total -> total <= l -> NoDup starts ->
  diverse_search attr graph dist fuel l total k bw starts = SOk (res, st, rec) ->
  NoDup (map n_id res) /\ StronglySorted closer res /\ length res <= l /\
  (forall x, In x res ->
     reach graph starts (n_id x) /\ dist (n_id x) = Some (n_dist x) /\
     is_nan (n_dist x) = false /\ attr (n_id x) <> None) /\
  NoDup (map n_id rec) /\ ds_hops st = length rec /\
  exists scanned, NoDup scanned /\ ds_cmps st = length scanned /\
    (forall i, In i scanned <->
       dist i <> None /\ (In i starts \/ exists x, In x rec /\ edge graph (n_id x) i)).
Proof.
  intros Hk Ht Hl ND H.
  destruct (c62_search attr graph dist fuel l total k bw starts res st rec Hk Ht Hl ND H)
    as (sc & S1 & S2 & S3 & S4 & S5 & S6 & S7 & S8 & S9 & S10 & S11 & S12 & _).
  repeat (split; [assumption|]). split; [|repeat (split; [assumption|])].
  - intros x Hx. apply S12 in Hx. unfold usable in Hx. apply filter_In in Hx. destruct Hx as [X1 X2].
    apply andb_prop in X2. destruct X2 as [X2 X3]. rewrite Forall_forall in S2.
    split; [now apply S4|]. split; [now apply S2|].
    split; [now apply negb_true_iff in X2|]. destruct (attr (n_id x)); congruence.
  - exists (map n_id sc). rewrite map_length. auto.
Qed.
Print Assumptions C62_search_results_are_sound.

Theorem C62_search_ends_without_panic attr graph dist fuel l total k bw starts univ :
  diverse_params_ok k total = true -> diverse_ok l total = true -> 0 < bw -> NoDup starts ->
  finite_index graph starts univ -> length univ <= fuel ->
  (forall i, In i starts -> dist i <> None) -> (forall i, reach graph starts i -> graph i <> None) ->
  exists out, diverse_search attr graph dist fuel l total k bw starts = SOk out.
Proof.
  intros P1 P2. unfold diverse_params_ok in P1. unfold diverse_ok in P2.
  apply andb_prop in P1. destruct P1 as [P0 P1].
  apply negb_true_iff, Nat.eqb_neq in P0, P1. apply negb_true_iff, Nat.ltb_ge in P2.
  apply c62_total; lia.
Qed.
Print Assumptions C62_search_ends_without_panic.

(** Findings.  The error for [k] above [total] is never returned, and a queue made directly
    with [l * k < total] panics on its first insertion. *)
Theorem C62_large_k_is_refused_refuted : exists k total, total < k /\ diverse_params_ok k total = true.
Proof. exists 5, 2. vm_compute. auto. Qed.
Print Assumptions C62_large_k_is_refused_refuted.

Theorem C62_every_queue_accepts_insertions_refuted :
  exists attr l total k x, 0 < l /\ 0 < k /\ 0 < total /\ dq_insert attr (dq_new l total k) x = None.
Proof. exists (fun _ => Some 0), 2, 5, 1, (mkNbr 0 1%N). repeat split; lia. Qed.
Print Assumptions C62_every_queue_accepts_insertions_refuted.

(** ** C63: with distinct distances, diversity is exact *)

Definition demo_ops : list dop :=
  [DInsert (mkNbr 1 50%N); DInsert (mkNbr 2 40%N); DNext; DInsert (mkNbr 5 70%N); DInsert (mkNbr 3 30%N);
   DNext; DInsert (mkNbr 7 10%N); DInsert (mkNbr 6 60%N); DInsert (mkNbr 4 20%N)].
Example demo_queue :
  NoDup (map n_id (d_inserted demo_ops)) /\ no_ties (usable demo_attr (d_inserted demo_ops)) /\
  match dq_run demo_attr (dq_new 4 3 2) demo_ops with
  | Some (d, outs) => (map n_id outs, option_map (map n_id) (dq_results d)) = ([2; 3], Some [4; 3; 6; 5])
  | None => False
  end /\
  map n_id (closest_of_each demo_attr 2 [] (map (fun '(i, d) => mkNbr i d)
     [(4, 20%N); (3, 30%N); (2, 40%N); (1, 50%N); (6, 60%N); (5, 70%N)])) = [4; 3; 6; 5].
Proof.
  split; [repeat constructor; cbn; intuition lia|].
  split; [unfold no_ties; vm_compute; repeat constructor; cbn; intuition congruence|].
  vm_compute. auto.
Qed.

(** The results hold at most [k] candidates per attribute value; the first [total] of them are
    the first [total] of the exact answer: rank everything by distance, keep the [k] closest
    of every value. *)
Theorem C63_queue_diversity_is_exact attr l total k ops :
  0 < k -> 0 < total -> total <= l -> NoDup (map n_id (d_inserted ops)) ->
  no_ties (usable attr (d_inserted ops)) ->
  exists d outs res ranked,
    dq_run attr (dq_new l total k) ops = Some (d, outs) /\ dq_results d = Some res /\
    at_most_each attr k res /\ ranking (usable attr (d_inserted ops)) ranked /\
    firstn total res = firstn total (closest_of_each attr k [] ranked).
Proof.
  intros Hk Ht Hl ND NT.
  destruct (c62_queue attr l total k ops Hk Ht Hl ND) as (d & o & r & H1 & H2 & _ & _ & _ & _ & _ & _ & H).
  destruct (H NT) as (A & rk & B & C). exists d, o, r, rk. auto.
Qed.
Print Assumptions C63_queue_diversity_is_exact.

(** The search: the same, for the nodes whose distance was computed. *)
Theorem C63_search_diversity_is_exact attr graph dist fuel l total k bw starts res st rec :
  0 < k -> 0 < total -> total <= l -> NoDup starts ->
  diverse_search attr graph dist fuel l total k bw starts = SOk (res, st, rec) ->
  exists scanned,
    Forall (scored dist) scanned /\ NoDup (map n_id scanned) /\
    (forall i, In i (map n_id scanned) <->
       dist i <> None /\ (In i starts \/ exists x, In x rec /\ edge graph (n_id x) i)) /\
    (no_ties (usable attr scanned) ->
       at_most_each attr k res /\
       exists ranked, ranking (usable attr scanned) ranked /\
         firstn total res = firstn total (closest_of_each attr k [] ranked)).
Proof.
  intros Hk Ht Hl ND H.
  destruct (c62_search attr graph dist fuel l total k bw starts res st rec Hk Ht Hl ND H)
    as (sc & S1 & S2 & S3 & _ & _ & _ & _ & _ & _ & _ & _ & _ & S).
  exists sc. auto.
Qed.
Print Assumptions C63_search_diversity_is_exact.

Example demo_search_exact :
  exists res st rec, diverse_search demo_attr demo_graph demo_dist 8 6 3 2 1 [0] = SOk (res, st, rec) /\
  no_ties (usable demo_attr (map (fun i => mkNbr i (match demo_dist i with Some d => d | None => 0%N end))
                                 [0; 1; 2; 3; 4; 5; 6; 7])) /\
  at_most_each demo_attr 2 res.
Proof.
  do 3 eexists. split; [vm_compute; reflexivity|].
  split; [unfold no_ties; vm_compute; repeat constructor; cbn; intuition congruence|].
  intros x. unfold alike. cbn. destruct (demo_attr (n_id x)) as [[|[|a]]|]; cbn; lia.
Qed.

(** Findings.  With ties, [k] is not respected: evicting a candidate of a full attribute value
    only looks at the first entry at its distance, and leaves it in the list if another
    candidate at the same distance comes first. *)
Definition tie_graph (i : nat) : option (list nat) := nth_error [[2]; []; []] i.
Definition tie_dist (i : nat) : option f32 := nth_error [5; 5; 4]%N i.
Definition tie_attr (i : nat) : option nat := nth_error [0; 1; 0] i.

Theorem C63_diversity_with_ties_refuted :
  exists res st rec,
    diverse_search tie_attr tie_graph tie_dist 9 4 4 1 1 [0; 1] = SOk (res, st, rec) /\
    map n_id res = [2; 1; 0] /\ ~ at_most_each tie_attr 1 res.
Proof.
  do 3 eexists. split; [vm_compute; reflexivity|]. split; [vm_compute; reflexivity|].
  intros H. specialize (H (mkNbr 0 0%N)). vm_compute in H. lia.
Qed.
Print Assumptions C63_diversity_with_ties_refuted.
