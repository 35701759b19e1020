(** * C79-C81: the sharded build of large disk indexes *)
From Coq Require Import List NArith ZArith Bool Permutation Sorting Lia ZifyNat ZifyN ZifyBool.
From Verif.Lib Require Import Base Lists Bytes.
From Verif.Disk Require Import Model Spec.
From Verif.GraphFile Require Import Model Spec Proofs.
From Verif.Shards Require Import Model Spec Proofs Proofs2 Proofs5 Proofs6.
Import ListNotations.

(** ** C79 Every vector goes to its closest shards *)

(** The search for the [k] closest of some centers fails only if there are fewer than [k];
    otherwise it gives [k] different centers and, unless a distance is NaN, no other center is
    closer than one of them. *)
Theorem C79_closest {D} (lt : D -> D -> bool) dmax heap k ds : strict lt -> any_heap lt heap -> 0 < k ->
  (closest lt dmax heap k ds = None <-> length ds < k) /\
  forall sel, closest lt dmax heap k ds = Some sel ->
    length sel = k /\ NoDup sel /\ Forall (fun c => c < length ds) sel /\
    (total_on lt ds -> (k = 1 -> exists d, In d ds /\ lt d dmax = true) ->
     forall c d c' d', In c sel -> nth_error ds c = Some d -> ~ In c' sel -> nth_error ds c' = Some d' -> lt d' d = false).
Proof. exact (closest_ok lt dmax heap k ds). Qed.
Print Assumptions C79_closest.
(** Sorting is such a heap. *)
Fixpoint ins (p : nat * N) (l : list (nat * N)) : list (nat * N) :=
  match l with [] => [p] | q :: l' => if (snd p <=? snd q)%N then p :: l else q :: ins p l' end.
Definition sort_heap (l : list (nat * N)) : list (nat * N) := fold_right ins [] l.
Lemma sort_heap_ok : any_heap N.ltb sort_heap.
Proof.
  intros l. assert (IP : forall p l, Permutation (ins p l) (p :: l)).
  { clear. intros p l. induction l as [|q l IH]; [reflexivity|]. cbn [ins]. destruct (snd p <=? snd q)%N; [reflexivity|]. rewrite IH. apply perm_swap. }
  split.
  - induction l as [|p l IH]; [reflexivity|]. cbn [sort_heap fold_right]. rewrite IP. now constructor.
  - intros _. induction l as [|p l IH]; [constructor|]. cbn [sort_heap fold_right]. fold (sort_heap l).
    induction IH as [|q l' S IH F]; [repeat constructor|]. cbn [ins]. destruct (N.leb_spec (snd p) (snd q)).
    + constructor; [now constructor|]. constructor; [lia|]. eapply Forall_impl; [|exact F]. cbn; intros; lia.
    + constructor; [exact IH|]. eapply Permutation_Forall; [symmetry; apply IP|]. constructor; [lia|exact F].
Qed.
Example sample_closest : strict N.ltb /\ closest N.ltb 1000%N sort_heap 2 [7; 3; 9; 3]%N = Some [1; 3]
  /\ closest N.ltb 1000%N sort_heap 1 [7; 3; 9; 3]%N = Some [1].
Proof. split; [split; intros; lia|]. vm_compute. auto. Qed.

(** The assignment of a dataset to shards: the file of ids of shard [s] lists, in ascending
    order, exactly the vectors that have [s] among their [k] closest shards.  Hence each vector is
    in exactly [k] of the files. *)
Theorem C79_partition {D} (lt : D -> D -> bool) dmax heap k (dists : bytes -> list D) rcs tsz dim parts vecs :
  strict lt -> any_heap lt heap -> 0 < k <= parts -> (forall v, length (dists v) = parts) ->
  u32_ok dim -> vecs <> [] -> (N.of_nat (length vecs) + 10000 <= 2 ^ 32)%N -> Forall (fun v => length v = N.to_nat dim * tsz) vecs ->
  exists sel wss, (forall i v, nth_error vecs i = Some v -> closest lt dmax heap k (dists v) = Some (sel i)) /\
    shard_data (fun _ v => closest lt dmax heap k (dists v)) rcs tsz dim parts (bin_file dim vecs) = LOk wss /\ length wss = parts /\
    forall s ws, nth_error wss s = Some ws -> forall cs, 0 < cs -> saved cs ws = ids_file (members sel (length vecs) s).
Proof.
  intros ST HH K LD HD NE HB HV.
  set (sel := fun i => match closest lt dmax heap k (dists (nth i vecs [])) with Some l => l | None => [] end).
  assert (SE : forall v, exists l, closest lt dmax heap k (dists v) = Some l /\ length l = k /\ NoDup l /\ Forall (fun s => s < parts) l).
  { intros v. destruct (closest_ok lt dmax heap k (dists v) ST HH ltac:(lia)) as [A B].
    destruct (closest lt dmax heap k (dists v)) as [l|]; [|exfalso; rewrite LD in A; destruct A as [A _]; specialize (A eq_refl); lia].
    exists l. split; [reflexivity|]. destruct (B l eq_refl) as (B1 & B2 & B3 & _). rewrite LD in B3. auto. }
  assert (HN : forall i v, nth_error vecs i = Some v -> closest lt dmax heap k (dists v) = Some (sel i)).
  { intros i v E. unfold sel. rewrite (nth_error_nth _ _ [] E). destruct (SE v) as (l & -> & _). reflexivity. }
  destruct (partition_ok (fun _ v => closest lt dmax heap k (dists v)) rcs tsz dim parts vecs sel HD NE HB HV) as (wss & E & L & F).
  { intros i v Ev. specialize (HN i v Ev). split; [exact HN|]. destruct (SE v) as (l & El & _ & N & B). rewrite HN in El. injection El as <-. auto. }
  exists sel, wss. auto.
Qed.
Print Assumptions C79_partition.
(** What [members] is, and that the shards cover the dataset. *)
Theorem C79_members sel n s : StronglySorted N.lt (members sel n s) /\
  forall v, In v (members sel n s) <-> (v < N.of_nat n)%N /\ In s (sel (N.to_nat v)).
Proof. exact (members_ok sel n s). Qed.
Print Assumptions C79_members.
Definition sample_vecs : list bytes := [[0]; [9]; [1]; [5]]%N.
Definition sample_dists (v : bytes) : list N := map (fun c => let x := nth 0 v 0 in N.max x c - N.min x c)%N [0; 5; 9]%N.
Example sample_partition :
  match shard_data (fun _ v => closest N.ltb 1000%N sort_heap 2 (sample_dists v)) 16 1 1 3 (bin_file 1 sample_vecs) with
  | LOk wss => map (saved 8) wss = [ids_file [0; 2]%N; ids_file [0; 1; 2; 3]%N; ids_file [1; 3]%N] /\
               members (fun i => nth i [[0; 1]; [2; 1]; [0; 1]; [1; 2]] []) 4 2 = [1; 3]%N
  | _ => False
  end.
Proof. vm_compute. auto. Qed.

(** The number of shards: at least three and odd at the start; the search gives the first of
    [p], [p + 2], ... that fits the budget, and gives one if there is one. *)
Theorem C79_shard_count over c : 
  ((3 <= initial_parts c)%N /\ (initial_parts c mod 2 = 1)%N /\ (N.max 3 c <= initial_parts c <= N.max 3 c + 1)%N) /\
  (forall fuel q, find_parts fuel over (initial_parts c) = Some q ->
     over q = false /\ (q mod 2 = 1)%N /\ exists i, (q = initial_parts c + 2 * i)%N /\ forall j, (j < i)%N -> over (initial_parts c + 2 * j)%N = true) /\
  (forall i fuel, over (initial_parts c + 2 * N.of_nat i)%N = false -> i < fuel -> find_parts fuel over (initial_parts c) <> None).
Proof.
  pose proof (initial_parts_ok c) as P. split; [exact P|]. split.
  - intros fuel q H. apply find_parts_ok in H. destruct H as (A & i & E & B). split; [exact A|]. split; [|now exists i].
    rewrite E, (N.mul_comm 2 i), N.mod_add by lia. tauto.
  - intros i fuel H F. eapply find_parts_total; eauto.
Qed.
Print Assumptions C79_shard_count.
Example sample_count : initial_parts 4 = 5%N /\ initial_parts 0 = 3%N /\ find_parts 10 (fun p => p <? 8)%N (initial_parts 4) = Some 9%N.
Proof. vm_compute. auto. Qed.

(** Finding: the balance of the shards is not checked.  A shard can be left without vectors, and
    then the build cannot finish, as the merge below needs a start point in every shard. *)
Theorem C79_no_empty_shard_refuted : ~ (forall (dists : bytes -> list N) vecs wss cs,
  (forall v, length (dists v) = 3) -> length vecs = 20 ->
  shard_data (fun _ v => closest N.ltb (2 ^ 60)%N sort_heap 2 (dists v)) 4096 1 1 3 (bin_file 1 vecs) = LOk wss ->
  forall ws, In ws wss -> saved cs ws <> ids_file []).
Proof.
  intros H. set (vecs := repeat [7%N] 20). set (dists := fun _ : bytes => [3; 4; 5]%N).
  destruct (shard_data (fun _ v => closest N.ltb (2 ^ 60)%N sort_heap 2 (dists v)) 4096 1 1 3 (bin_file 1 vecs)) as [wss| | |] eqn:E;
    [|vm_compute in E; discriminate..].
  apply (H dists vecs wss 8 (fun _ => eq_refl) eq_refl E (nth 2 wss [])).
  - apply nth_In. vm_compute in E. injection E as <-. cbn. lia.
  - vm_compute in E. injection E as <-. vm_compute. reflexivity.
Qed.
Print Assumptions C79_no_empty_shard_refuted.

(** ** C80 The vectors of a shard *)

(** Reading chosen vectors of a file gives exactly them, in the order asked, up to the first id
    that does not exist or the first failure of the consumer; so do further calls on the same
    reader, as long as the consumer does not fail. *)
Theorem C80_read_vectors {St} (process : St -> bytes -> St * bool) tsz dim vecs : u32_ok dim -> u32_ok (N.of_nat (length vecs)) ->
  Forall (fun v => length v = N.to_nat dim * tsz) vecs ->
  exists r, vr_new tsz (bin_file dim vecs) = Some r /\
    (forall ids st, let '(_, st', ok) := read_vectors process tsz ids r st in process_ids process vecs ids st = (st', ok)) /\
    ((forall s b, snd (process s b) = true) -> forall calls st,
      read_calls process tsz calls r st = map (fun ids => process_ids process vecs ids st) calls).
Proof.
  intros HD HN HV. destruct (vr_new_at tsz dim vecs HD HN HV) as (r & E & A & _). exists r. split; [exact E|]. split.
  - intros ids st. pose proof (read_vectors_ok process tsz dim vecs HV ids r st A) as R. destruct (read_vectors process tsz ids r st) as [[r' st'] ok]. apply R.
  - intros Q calls st. now apply (read_calls_ok process tsz dim vecs st HV Q).
Qed.
Print Assumptions C80_read_vectors.
Definition collect (st : list bytes) (b : bytes) : list bytes * bool := (st ++ [b], true).
Example sample_read : option_map (fun r => read_calls collect 2 [[2; 0; 2]; [1; 7]; [0]]%N r []) (vr_new 2 (bin_file 1 [[1; 2]; [3; 4]; [5; 6]]%N))
  = Some [([[5; 6]; [1; 2]; [5; 6]], true); ([[3; 4]], false); ([[1; 2]], true)]%N.
Proof. vm_compute. reflexivity. Qed.

(** A file whose size does not match its header is refused. *)
Theorem C80_wrong_size tsz f : (forall n d r, read_metadata f = Some (n, d, r) -> N.of_nat (length f) <> (8 + n * d * N.of_nat tsz)%N) -> vr_new tsz f = None.
Proof.
  intros H. unfold vr_new. destruct (read_metadata f) as [[[n d] r]|] eqn:E; [|reflexivity]. cbn [bind].
  destruct (N.eqb_spec (N.of_nat (length f)) (8 + n * d * N.of_nat tsz)) as [X|_]; [elim (H n d r eq_refl X)|reflexivity].
Qed.
Print Assumptions C80_wrong_size.

(** Finding: after its consumer failed, a reader has moved but does not know it: the next call
    gives the wrong vectors. *)
Definition picky (st : list bytes) (b : bytes) : list bytes * bool := (st ++ [b], negb (nth 0 b 0 =? 3)%N).
Theorem C80_read_after_failure_refuted : ~ (forall St (process : St -> bytes -> St * bool) tsz dim vecs r calls st, u32_ok dim -> u32_ok (N.of_nat (length vecs)) ->
  Forall (fun v => length v = N.to_nat dim * tsz) vecs -> vr_new tsz (bin_file dim vecs) = Some r ->
  read_calls process tsz calls r st = map (fun ids => process_ids process vecs ids st) calls).
Proof.
  intros H. assert (X := H (list bytes) picky 2 1%N [[1; 2]; [3; 4]; [5; 6]]%N (mkvr (bin_file 1 [[1; 2]; [3; 4]; [5; 6]]%N) 8 3 1 0) [[1]; [0]]%N []
    eq_refl eq_refl ltac:(repeat constructor) eq_refl). vm_compute in X. discriminate.
Qed.
Print Assumptions C80_read_after_failure_refuted.

(** The data file of a shard holds the vectors of the shard's ids, in the order of the ids. *)
Theorem C80_shard_vectors M tsz dim vecs ids : u32_ok dim -> u32_ok (N.of_nat (length vecs)) ->
  Forall (fun v => length v = N.to_nat dim * tsz) vecs -> Forall (fun i => (i < N.of_nat (length vecs))%N) ids ->
  u32_ok (N.of_nat (length ids)) -> (4 * N.of_nat (length ids) <= M)%N ->
  exists ops, shard_vectors M tsz (bin_file dim vecs) (ids_file ids) = Some ops /\
    forall cs, 0 < cs -> saved cs ops = bin_file dim (map (fun i => nth (N.to_nat i) vecs []) ids).
Proof. exact (shard_vectors_ok M tsz dim vecs ids). Qed.
Print Assumptions C80_shard_vectors.
Example sample_shard_vectors : option_map (saved 5) (shard_vectors 1000 2 (bin_file 1 [[1; 2]; [3; 4]; [5; 6]]%N) (ids_file [0; 2]%N))
  = Some (bin_file 1 [[1; 2]; [5; 6]]%N).
Proof. vm_compute. reflexivity. Qed.

(** ** C81 The merged graph *)

(** Merging the graphs of shards whose ids cover [0 .. n-1]: it succeeds, whatever the random
    shuffles; the merged file is a graph file of [n] lists whose announced size is its size;
    the list of every node consists of different neighbors of the node in the shards, as many
    of them as the degree bound admits; the start point is that of the last shard; and the
    graph loads. *)
Theorem C81_merge {Rng} (shuffle : Rng -> list N -> Rng * list N) rcs M rng pre last n maxd :
  let ss := pre ++ [last] in
  (forall g l, Permutation (snd (shuffle g l)) l) -> Forall shard_ok ss -> covers ss n -> (N.of_nat n < 2 ^ 32)%N ->
  Forall (fun s => (4 * N.of_nat (length (sh_ids s)) <= M)%N) ss ->
  u32_ok maxd -> (24 + 4 * (N.of_nat n * (1 + maxd)) < 2 ^ 64)%N ->
  exists ops lists start, merge_shards shuffle rcs M rng (map (fun s => ids_file (sh_ids s)) ss) (map shard_file ss) maxd = LOk ops /\
    length lists = n /\ merged ss maxd lists /\ nth_error (sh_ids last) (N.to_nat (sh_start last)) = Some start /\
    forall cs, 0 < cs -> exists size, saved cs ops = graph_file size maxd start 0 lists /\ size = N.of_nat (length (saved cs ops)) /\
      load_graph (saved cs ops) = LOk (mklg n maxd 0 lists).
Proof.
  intros ss SH OK CV HN HM UM HS. destruct (merge_shards_ok shuffle rcs M rng pre last n maxd SH OK CV HN HM) as (ops & lists & E & L & ME & F).
  exists ops, lists, (nth (N.to_nat (sh_start last)) (sh_ids last) 0%N). split; [exact E|]. split; [exact L|]. split; [exact ME|].
  assert (IL : In last ss) by (apply in_or_app; right; now left).
  assert (O : shard_ok last) by (eapply Forall_forall in OK; eauto).
  assert (NE : nth_error (sh_ids last) (N.to_nat (sh_start last)) = Some (nth (N.to_nat (sh_start last)) (sh_ids last) 0%N)).
  { apply nth_error_nth'. pose proof (so_start last O). lia. }
  split; [exact NE|]. intros cs C. destruct (F cs C) as [E1 E2]. exists (isize lists). split; [exact E1|]. rewrite E1. split; [exact E2|].
  assert (EI : forall v w, some_edge ss v w -> u32_ok w).
  { intros v w (s & Is & j & l & i & _ & _ & _ & Ew). assert (Os : shard_ok s) by (eapply Forall_forall in OK; eauto).
    pose proof (so_ids s Os) as U. eapply Forall_forall in U; [exact U|eapply nth_error_In; eauto]. }
  rewrite load_merged; [now rewrite L|exact UM| | |rewrite L; exact HS].
  - pose proof (so_ids last O) as U. eapply Forall_forall in U; [exact U|eapply nth_error_In; eauto].
  - apply Forall_forall. intros l Hl. apply In_nth_error in Hl. destruct Hl as (v & Hv). destruct (ME v l Hv) as (_ & A & all & _ & _ & B).
    split; [lia|]. apply Forall_forall. intros w Hw. eapply EI, A, Hw.
Qed.
Print Assumptions C81_merge.
Definition sh_a := mkshard [0; 1]%N [[1]; []]%N 0 36 1.
Definition sh_b := mkshard [0; 2]%N [[1]; []]%N 0 36 1.
Definition sh_c := mkshard [1; 2]%N [[1]; []]%N 0 36 1.
Lemma sample_shards_ok : Forall shard_ok [sh_a; sh_b; sh_c] /\ covers [sh_a; sh_b; sh_c] 3.
Proof.
  split.
  - repeat constructor; try reflexivity.
  - intros v. split.
    + intros (s & [<-|[<-|[<-|[]]]] & I); cbn in I; intuition lia.
    + intros H. assert (C : (v = 0 \/ v = 1 \/ v = 2)%N) by lia. destruct C as [->|[->| ->]]; [exists sh_a|exists sh_a|exists sh_b]; cbn; tauto.
Qed.
Definition no_shuffle (g : unit) (l : list N) : unit * list N := (g, l).
Example sample_merge : match merge_shards no_shuffle 7 1000 tt (map (fun s => ids_file (sh_ids s)) [sh_a; sh_b; sh_c]) (map shard_file [sh_a; sh_b; sh_c]) 4 with
  | LOk ops => saved 9 ops = graph_file 48 4 1 0 [[1; 2]; [2]; []]%N
  | _ => False
  end.
Proof. vm_compute. reflexivity. Qed.

(** Together: for any dataset and any builder of shard graphs, partitioning and merging give a
    graph over all vectors, provided that no shard is empty. *)
Theorem C81_partition_then_merge {Rng} (shuffle : Rng -> list N -> Rng * list N) rcs M rng {D} (lt : D -> D -> bool) dmax heap k (dists : bytes -> list D)
    tsz dim parts vecs maxd (build : list N -> list (list N) * N * N * N) :
  strict lt -> any_heap lt heap -> 0 < k <= parts -> (forall v, length (dists v) = parts) ->
  u32_ok dim -> vecs <> [] -> (N.of_nat (length vecs) + 10000 <= 2 ^ 32)%N -> Forall (fun v => length v = N.to_nat dim * tsz) vecs ->
  (forall g l, Permutation (snd (shuffle g l)) l) -> (4 * N.of_nat (length vecs) <= M)%N ->
  u32_ok maxd -> (24 + 4 * (N.of_nat (length vecs) * (1 + maxd)) < 2 ^ 64)%N ->
  (forall ids, ids <> [] -> u32_ok (N.of_nat (length ids)) -> let '(lists, start, _, _) := build ids in
     length lists = length ids /\ (start < N.of_nat (length ids))%N /\
     Forall (fun l => u32_ok (N.of_nat (length l)) /\ Forall (fun i => (i < N.of_nat (length ids))%N) l) lists) ->
  exists sel wss, (forall i v, nth_error vecs i = Some v -> closest lt dmax heap k (dists v) = Some (sel i)) /\
    shard_data (fun _ v => closest lt dmax heap k (dists v)) rcs tsz dim parts (bin_file dim vecs) = LOk wss /\
    let ids s := members sel (length vecs) s in
    let sh s := let '(lists, start, size, degree) := build (ids s) in mkshard (ids s) lists start size degree in
    (forall s, s < parts -> ids s <> []) -> forall cs, 0 < cs ->
    exists ops lists start, merge_shards shuffle rcs M rng (map (saved cs) wss) (map (fun s => shard_file (sh s)) (seq 0 parts)) maxd = LOk ops /\
      length lists = length vecs /\ merged (map sh (seq 0 parts)) maxd lists /\
      load_graph (saved cs ops) = LOk (mklg (length vecs) maxd 0 lists) /\
      exists size, saved cs ops = graph_file size maxd start 0 lists /\ (start < N.of_nat (length vecs))%N.
Proof.
  intros ST HH K LD HD NE HB HV SH HM UM HS HBU.
  destruct (C79_partition lt dmax heap k dists rcs tsz dim parts vecs ST HH K LD HD NE HB HV) as (sel & wss & E1 & E2 & LW & E3).
  exists sel, wss. split; [exact E1|]. split; [exact E2|]. intros ids sh NEM cs C.
  assert (SIDS : forall s, sh_ids (sh s) = ids s) by (intros s; unfold sh; destruct (build (ids s)) as [[[? ?] ?] ?]; reflexivity).
  assert (LI : forall s, (N.of_nat (length (ids s)) <= N.of_nat (length vecs))%N).
  { intros s. destruct (members_ok sel (length vecs) s) as [S I]. apply sorted_length; [exact S|]. apply Forall_forall. intros v Hv. now apply I in Hv. }
  assert (UN : u32_ok (N.of_nat (length vecs))) by (unfold u32_ok; change (pow256 4) with (2 ^ 32)%N; lia).
  assert (OK : Forall shard_ok (map sh (seq 0 parts))).
  { apply Forall_map, Forall_forall. intros s Hs. apply in_seq in Hs. destruct (members_ok sel (length vecs) s) as [S I].
    assert (UL : u32_ok (N.of_nat (length (ids s)))) by (specialize (LI s); unfold u32_ok in *; lia).
    assert (B := HBU (ids s) (NEM s ltac:(lia)) UL). unfold sh. destruct (build (ids s)) as [[[lists start] size] degree]. destruct B as (B1 & B2 & B3).
    constructor; cbn [sh_ids sh_lists sh_start]; auto. apply Forall_forall. intros v Hv. apply I in Hv. unfold u32_ok in *. lia. }
  assert (CV : covers (map sh (seq 0 parts)) (length vecs)).
  { intros v. split.
    - intros (s0 & Is & Iv). apply in_map_iff in Is. destruct Is as (s & <- & Is). rewrite SIDS in Iv. now apply members_ok in Iv.
    - intros Hv. destruct (nth_error vecs (N.to_nat v)) as [x|] eqn:Ex; [|apply nth_error_None in Ex; lia].
      pose proof (E1 _ _ Ex) as EC. destruct (closest_ok lt dmax heap k (dists x) ST HH ltac:(lia)) as [_ B]. destruct (B _ EC) as (B1 & _ & B3 & _).
      destruct (sel (N.to_nat v)) as [|s l] eqn:ES; [cbn in B1; lia|]. rewrite LD in B3. inversion B3; subst.
      exists (sh s). split; [apply in_map, in_seq; lia|]. rewrite SIDS. apply members_ok. split; [exact Hv|]. rewrite ES. now left. }
  assert (MF : map (saved cs) wss = map (fun s => ids_file (sh_ids s)) (map sh (seq 0 parts))).
  { rewrite map_map. apply nth_ext with (d := []) (d' := []); [now rewrite !map_length, seq_length, LW|]. intros i Hi. rewrite map_length, LW in Hi.
    destruct (nth_error wss i) as [ws|] eqn:Ew; [|apply nth_error_None in Ew; lia].
    erewrite nth_error_nth; [|apply map_nth_error; exact Ew]. rewrite (E3 i ws Ew cs C).
    erewrite nth_error_nth; [|apply map_nth_error; rewrite nth_error_nth' with (d := 0) by (rewrite seq_length; lia); rewrite seq_nth by exact Hi; reflexivity].
    cbn [Nat.add]. now rewrite SIDS. }
  assert (GF : map (fun s => shard_file (sh s)) (seq 0 parts) = map shard_file (map sh (seq 0 parts))) by now rewrite map_map.
  rewrite MF, GF. destruct parts as [|p]; [lia|]. rewrite seq_S, map_app in *. cbn [map Nat.add] in *.
  destruct (C81_merge shuffle rcs M rng (map sh (seq 0 p)) (sh p) (length vecs) maxd) as (ops & lists & start & M1 & M2 & M3 & M4 & M5); auto; try (clear -HB; lia).
  { change [sh p] with (map sh [p]). rewrite <- map_app. apply Forall_map, Forall_forall. intros s Hs. rewrite SIDS. specialize (LI s). lia. }
  destruct (M5 cs C) as (size & F1 & F2 & F3). exists ops, lists, start. split; [exact M1|]. split; [exact M2|]. split; [exact M3|]. split; [exact F3|].
  exists size. split; [exact F1|]. apply nth_error_In in M4. rewrite SIDS in M4. now apply members_ok in M4.
Qed.
Print Assumptions C81_partition_then_merge.
(** The hypothesis about the builder is met, for example by rings. *)
Definition ring (ids : list N) : list (list N) * N * N * N :=
  (map (fun i => [N.of_nat (S i mod length ids)]) (seq 0 (length ids)), 0%N, 0%N, 1%N).
Example ring_builds ids : ids <> [] -> u32_ok (N.of_nat (length ids)) -> let '(lists, start, _, _) := ring ids in
  length lists = length ids /\ (start < N.of_nat (length ids))%N /\
  Forall (fun l => u32_ok (N.of_nat (length l)) /\ Forall (fun i => (i < N.of_nat (length ids))%N) l) lists.
Proof.
  intros NE U. cbn [ring]. assert (0 < length ids) by (destruct ids; [congruence|cbn; lia]). split; [now rewrite map_length, seq_length|]. split; [lia|].
  apply Forall_map, Forall_forall. intros i Hi. split; [reflexivity|]. constructor; [|constructor]. pose proof (Nat.mod_upper_bound (S i) (length ids) ltac:(lia)). lia.
Qed.

(** A shard without vectors makes the merge fail. *)
Theorem C81_empty_shard_fails {Rng} (shuffle : Rng -> list N -> Rng * list N) rcs M rng maps graphs maxd :
  In (ids_file []) maps -> length graphs = length maps -> forall ops, merge_shards shuffle rcs M rng maps graphs maxd <> LOk ops.
Proof. exact (merge_empty shuffle rcs M rng maps graphs maxd). Qed.
Print Assumptions C81_empty_shard_fails.

(** Finding: nodes that are reachable in the graphs of all their shards, from the start points
    of these, need not be reachable in the merged graph, whose start point is that of the last
    shard. *)
Theorem C81_reachability_refuted : ~ (forall rcs M ss n maxd ops lists size start cs, Forall shard_ok ss -> covers ss n ->
  (forall s v, In s ss -> In v (sh_ids s) -> exists a, nth_error (sh_ids s) (N.to_nat (sh_start s)) = Some a /\ reaches (shard_edge s) a v) ->
  merge_shards no_shuffle rcs M tt (map (fun s => ids_file (sh_ids s)) ss) (map shard_file ss) maxd = LOk ops ->
  saved cs ops = graph_file size maxd start 0 lists ->
  forall v, (v < N.of_nat n)%N -> reaches (list_edge lists) start v).
Proof.
  intros H. destruct sample_shards_ok as [OK CV].
  destruct (merge_shards no_shuffle 7 1000 tt (map (fun s => ids_file (sh_ids s)) [sh_a; sh_b; sh_c]) (map shard_file [sh_a; sh_b; sh_c]) 4) as [ops| | |] eqn:E;
    [|vm_compute in E; discriminate..].
  assert (X : reaches (list_edge [[1; 2]; [2]; []]%N) 1%N 0%N).
  { apply (H 7 1000%N [sh_a; sh_b; sh_c] 3 4%N ops [[1; 2]; [2]; []]%N 48%N 1%N 9); auto; [| |lia].
    - assert (ED : forall s a b, In (s, a, b) [(sh_a, 0, 1); (sh_b, 0, 2); (sh_c, 1, 2)]%N -> shard_edge s a b).
      { intros s a b [[= <- <- <-]|[[= <- <- <-]|[[= <- <- <-]|[]]]]; exists 0, [1%N], 1%N; cbn; auto. }
      intros s v Is Iv. destruct Is as [<-|[<-|[<-|[]]]]; cbn [sh_a sh_b sh_c sh_ids In] in Iv; eexists; (split; [reflexivity|]);
        destruct Iv as [<-|[<-|[]]]; try apply reaches_self; eapply reaches_step; try apply reaches_self; apply ED; cbn; auto.
    - vm_compute in E. injection E as <-. vm_compute. reflexivity. }
  assert (Y : forall v, reaches (list_edge [[1; 2]; [2]; []]%N) 1%N v -> (v = 1 \/ v = 2)%N).
  { induction 1 as [|b c R IH (l & En & I)]; [auto|]. destruct IH as [-> | ->]; cbn in En; injection En as <-; cbn in I; intuition lia. }
  apply Y in X. lia.
Qed.
Print Assumptions C81_reachability_refuted.
