(** C126: searching in parallel gives, query by query, what searching one after the other gives. *)
From Coq Require Import List PeanoNat Bool Lia.
From Verif.Lib Require Import Base Lists.
From Verif.Work Require Model Spec Props.
From Verif.Batch Require Import Model Spec Proofs.
Import ListNotations.

(** [M] is [usize::MAX]; [cap] is the number of ids each query may return, if it is fixed. *)
Theorem C126_search : forall {I O E : Type} (default : I) (search : nat -> prog I O E) (M : nat) (cap : option nat) (nq ntasks : nat),
  0 < ntasks -> nq < M ->
  match one_by_one cap search (seq 0 nq) with
  | inl e => search_all default search M cap nq ntasks = Some (inl e)
  | inr (ls, os) => exists r, search_all default search M cap nq ntasks = Some (inr (r, os)) /\ reads r ls
  end.
Proof.
  intros I O E default search M cap nq ntasks P H. unfold search_all. destruct (Work.Props.C29_partition_covers_exactly M nq ntasks P H) as (rs & -> & _ & C & _ & _).
  destruct (ranges_seq search rs 0 nq C) as (S1 & _). rewrite Nat.sub_0_r in S1. pose proof (await_ok default search cap (map (fun r => seq (fst r) (snd r - fst r)) rs)) as X. rewrite S1, map_map in X.
  destruct (one_by_one cap search (seq 0 nq)) as [e|[ls os]]; [now rewrite X|]. destruct X as (ps & -> & F & R1 & O1).
  assert (A0 : agg_formed (Empty (I := I))) by (split; [constructor|exact Logic.I]). destruct (pushes_ok (map (@p_ids I O) ps) Empty A0 F) as (A & PA).
  assert (FL : forall ps a, fold_left (fun a (p : part (I := I) (O := O)) => agg_push a (p_ids p)) ps a = fold_left agg_push (map (@p_ids I O) ps) a) by (clear; induction ps as [|p ps IH]; intros a; [reflexivity|apply IH]).
  rewrite FL. destruct (finish_ok default _ A) as (r & -> & FR & RR). exists r. rewrite O1. split; [reflexivity|]. rewrite PA in RR. cbn [parts app] in RR. rewrite R1 in RR. rewrite <- RR. apply reads_rows. exact FR.
Qed.
Print Assumptions C126_search.

(** Every query has its own row and its own output, however many tasks there are. *)
Theorem C126_rows : forall {I O E : Type} (default : I) (search : nat -> prog I O E) (M : nat) (cap : option nat) (nq ntasks : nat) r os,
  0 < ntasks -> nq < M -> search_all default search M cap nq ntasks = Some (inr (r, os)) ->
  nrows r = nq /\ length os = nq /\
  forall i, i < nq -> exists l o, alone cap (search i) [] = (l, inr o) /\ row r i = Some l /\ nth_error os i = Some o.
Proof.
  intros I O E default search M cap nq ntasks r os P H S. pose proof (C126_search default search M cap nq ntasks P H) as X.
  destruct (one_by_one cap search (seq 0 nq)) as [e|[ls os']] eqn:Y; [congruence|]. destruct X as (r' & S' & (N & R)). rewrite S' in S. injection S as <- <-.
  assert (G : forall qs ls os, one_by_one cap search qs = inr (ls, os) -> length ls = length qs /\ length os = length qs /\ forall i q, nth_error qs i = Some q -> exists l o, alone cap (search q) [] = (l, inr o) /\ nth_error ls i = Some l /\ nth_error os i = Some o).
  { clear. induction qs as [|q qs IH]; intros ls os; cbn [one_by_one]; [intros [= <- <-]; split; [reflexivity|]; split; [reflexivity|]; intros [|i]; discriminate|].
    destruct (alone cap (search q) []) as (l & [e|o]) eqn:A; [discriminate|]. destruct (one_by_one cap search qs) as [e|[ls' os']]; [discriminate|]. intros [= <- <-]. destruct (IH _ _ eq_refl) as (L1 & L2 & L3). cbn [length]. split; [lia|]. split; [lia|]. intros [|i] q' Q; [injection Q as <-; exists l, o; auto|exact (L3 i q' Q)]. }
  destruct (G _ _ _ Y) as (L1 & L2 & L3). rewrite seq_length in L1, L2. split; [congruence|]. split; [exact L2|]. intros i Li. destruct (L3 i i) as (l & o & A & B & C); [rewrite (nth_error_nth' _ 0) by (rewrite seq_length; exact Li); now rewrite seq_nth by exact Li|].
  exists l, o. rewrite R. auto.
Qed.
Print Assumptions C126_rows.

(** There is an error exactly when a search fails, and it is that of the first query that fails. *)
Theorem C126_error : forall {I O E : Type} (default : I) (search : nat -> prog I O E) (M : nat) (cap : option nat) (nq ntasks : nat) (e : E),
  0 < ntasks -> nq < M ->
  search_all default search M cap nq ntasks <> None /\
  (search_all default search M cap nq ntasks = Some (inl e) <->
   exists i, i < nq /\ snd (alone cap (search i) []) = inl e /\ forall j, j < i -> exists o, snd (alone cap (search j) []) = inr o).
Proof.
  intros I O E default search M cap nq ntasks e P H. pose proof (C126_search default search M cap nq ntasks P H) as X.
  assert (G : forall n s, match one_by_one cap search (seq s n) with
    | inl e => exists i, s <= i < s + n /\ snd (alone cap (search i) []) = inl e /\ forall j, s <= j < i -> exists o, snd (alone cap (search j) []) = inr o
    | inr _ => forall j, s <= j < s + n -> exists o, snd (alone cap (search j) []) = inr o end).
  { clear. induction n as [|n IH]; intros s; cbn [seq one_by_one]; [intros j J; lia|]. destruct (alone cap (search s) []) as (l & [e|o]) eqn:A; [exists s; rewrite A; split; [lia|]; split; [reflexivity|]; intros j J; lia|].
    specialize (IH (S s)). assert (Hs : exists o, snd (alone cap (search s) []) = inr o) by (rewrite A; now exists o). destruct (one_by_one cap search (seq (S s) n)) as [e|[ls os]].
    - destruct IH as (i & B & C & D). exists i. split; [lia|]. split; [exact C|]. intros j J. destruct (Nat.eq_dec j s) as [->|]; [exact Hs|apply D; lia].
    - intros j J. destruct (Nat.eq_dec j s) as [->|]; [exact Hs|apply IH; lia]. }
  specialize (G nq 0). destruct (one_by_one cap search (seq 0 nq)) as [e'|[ls os]].
  - rewrite X. split; [discriminate|]. destruct G as (i & A & B & C). split.
    + intros [= <-]. exists i. split; [lia|]. split; [exact B|]. intros j J. apply C. lia.
    + intros (k & K1 & K2 & K3). destruct (Nat.lt_trichotomy i k) as [L|[->|L]]; [destruct (K3 i L) as (o & Z); congruence|congruence|destruct (C k ltac:(lia)) as (o & Z); congruence].
  - destruct X as (r & -> & _). split; [discriminate|]. split; [discriminate|]. intros (k & K1 & K2 & _). destruct (G k ltac:(lia)) as (o & Z). congruence.
Qed.
Print Assumptions C126_error.

(** Results of any parts, of fixed or of varying size, read as the parts put end to end. *)
Theorem C126_aggregate : forall {I : Type} (default : I) (parts : list (inner (I := I))) (rows : list (list (list I))),
  Forall formed parts -> Forall2 reads parts rows ->
  exists r, finish default (fold_left agg_push parts Empty) = Some r /\ reads r (concat rows).
Proof.
  intros I default ps rows F R. assert (A0 : agg_formed (Empty (I := I))) by (split; [constructor|exact Logic.I]). destruct (pushes_ok ps Empty A0 F) as (A & PA).
  destruct (finish_ok default _ A) as (r & E & FR & RR). exists r. split; [exact E|]. rewrite PA in RR. cbn [parts app] in RR. replace (concat rows) with (rows_of r); [now apply reads_rows|]. rewrite RR. f_equal. clear - F R.
  induction R as [|p q ps rows H _ IH]; [reflexivity|]. inversion F as [|? ? F1 F2]; subst. cbn [map]. f_equal; [|now apply IH]. eapply reads_unique; [apply reads_rows; exact F1|exact H].
Qed.
Print Assumptions C126_aggregate.

(** No query returns more ids than it may, and what it returns comes from its pushes, in order. *)
Theorem C126_bound : forall {I O E : Type} (c : nat) (p : prog I O E), length (fst (alone (Some c) p [])) <= c.
Proof.
  intros I O E c p. assert (G : forall (p : prog I O E) l, length l <= c -> length (fst (alone (Some c) p l)) <= c).
  { clear. induction p as [o|e|x k IH|xs k IH|k IH|k IH]; intros l L; cbn [alone]; cbv zeta; try exact L; try (now apply IH).
    - destruct (c - length l) as [|[|r]] eqn:R; apply IH; rewrite ?app_length; cbn [length]; lia.
    - apply IH. rewrite app_length, firstn_length. lia. }
  apply G. cbn. lia.
Qed.
Print Assumptions C126_bound.

(** Query [i] pushes [i] and then as many zeros as fit; the third fails when [bad]. *)
Example C126_example :
  let s bad i : prog nat nat nat := if bad && (i =? 2) then Abort 7 else Push i (fun full => if full then Done i else Extend (repeat 0 i) (fun n => Done (10 * i + n))) in
  (exists r, search_all 9 (s false) 1000 (Some 3) 5 2 = Some (inr (r, [0; 11; 22; 32; 42])) /\ reads r [[0]; [1; 0]; [2; 0; 0]; [3; 0; 0]; [4; 0; 0]]) /\
  (exists r, search_all 9 (s false) 1000 None 5 3 = Some (inr (r, [0; 11; 22; 33; 44])) /\ reads r [[0]; [1; 0]; [2; 0; 0]; [3; 0; 0; 0]; [4; 0; 0; 0; 0]]) /\
  search_all 9 (s true) 1000 (Some 3) 5 2 = Some (inl 7).
Proof. cbv zeta. split; [|split; [|reflexivity]]; (eexists; split; [reflexivity|]; split; [reflexivity|]; intros i; do 6 (destruct i as [|i]; [reflexivity|]); destruct i; reflexivity). Qed.
