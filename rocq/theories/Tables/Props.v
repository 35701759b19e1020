(** Property theorems about the in-memory tables (C44, C45, C51, C52). *)
From Coq Require Import List NArith PeanoNat Bool Lia ZifyNat ZifyN ZifyBool.
From Verif.Lib Require Import Base Lists.
From Verif.Tables Require Import Model Spec Proofs ProofsRows.
Import ListNotations.

(** ** C44: delete table *)

(** In every interleaving, each step answers as an atomic set of ids would: a query gives the
    effect of the last earlier delete or undelete of the same id; ids out of range panic. *)
Theorem C44_atomic_set max progs sched a k s o b :
  dt_history max progs sched = a ++ EStep k s o :: b ->
  o = match s with
      | SQuery i => if i <? max then Answer (deleted a i) else Panic
      | SDelete i | SUndelete i => if i <? max then Done else Panic
      end.
Proof. intros H. apply history_ok in H. destruct s; exact H. Qed.
Print Assumptions C44_atomic_set.

(** The steps of a call are executed between its start and its end, all and in order. *)
Theorem C44_steps_within_the_call max progs sched a k c b d :
  dt_history max progs sched = a ++ EStart k c :: b ++ EEnd k c :: d -> existsb (is_start k) b = false ->
  steps_by k b = steps_of max c.
Proof. exact (call_interval max progs sched a k c b d). Qed.
Print Assumptions C44_steps_within_the_call.

(** Hence, as seen by callers: when a delete (undelete, clear) returns, the id is (is not)
    deleted unless a concurrent call undeleted (deleted) it meanwhile. *)
Theorem C44_calls_take_effect max progs sched a k b d i : i < max ->
  existsb (is_start k) b = false ->
  (dt_history max progs sched = a ++ EStart k (CDelete i) :: b ++ EEnd k (CDelete i) :: d ->
   existsb (undeletes i) b = false -> deleted (a ++ EStart k (CDelete i) :: b) i = true) /\
  (dt_history max progs sched = a ++ EStart k (CUndelete i) :: b ++ EEnd k (CUndelete i) :: d ->
   existsb (deletes i) b = false -> deleted (a ++ EStart k (CUndelete i) :: b) i = false) /\
  (dt_history max progs sched = a ++ EStart k CClear :: b ++ EEnd k CClear :: d ->
   existsb (deletes i) b = false -> deleted (a ++ EStart k CClear :: b) i = false).
Proof.
  intros L HB. split; [|split]; intros H HD.
  - exact (delete_call max progs sched a k b d i H HB HD).
  - exact (undelete_call max progs sched a k b d i H HB HD).
  - exact (clear_call max progs sched a k b d i H HB HD L).
Qed.
Print Assumptions C44_calls_take_effect.
(** A run of two threads in which a clear overlaps a delete of an id it has already passed. *)
Definition dt_sample : list devent :=
  dt_history 34 [[CDelete 33; CDelete 0; CQuery 0]; [CClear; CQuery 33; CQuery 40]]
    ([0; 0; 0; 1; 1; 0; 0; 0] ++ repeat 1 34 ++ [1; 1; 1; 1; 1; 0; 0; 0]).
Example dt_sample_events : exists m, dt_sample =
  [EStart 0 (CDelete 33); EStep 0 (SDelete 33) Done; EEnd 0 (CDelete 33);
   EStart 1 CClear; EStep 1 (SUndelete 0) Done;
   EStart 0 (CDelete 0); EStep 0 (SDelete 0) Done; EEnd 0 (CDelete 0)] ++ m ++
  [EEnd 1 CClear; EStart 1 (CQuery 33); EStep 1 (SQuery 33) (Answer false); EEnd 1 (CQuery 33);
   EStart 1 (CQuery 40); EStep 1 (SQuery 40) Panic; EStart 0 (CQuery 0); EStep 0 (SQuery 0) (Answer true); EEnd 0 (CQuery 0)].
Proof. exists (map (fun i => EStep 1 (SUndelete i) Done) (seq 1 33)). vm_compute. reflexivity. Qed.

(** ** C51: aligned vector store *)

(** For every element size dividing 64 and every allocation aligned to it, creation succeeds,
    every index below the size gives a slice of the asked length inside the allocation that
    starts on a multiple of 64 bytes, and two slices never overlap. *)
Theorem C51_slices_in_bounds umax addr esz maxv dim :
  (esz <> 0 -> 64 mod esz = 0 -> addr mod esz = 0 ->
   exists s, with_capacity umax addr esz maxv dim = Some s /\
     (forall i, i < maxv -> exists off, av_slice s i = Some (off, dim) /\ off + dim <= av_count s /\
       (addr + esz * off) mod 64 = 0) /\
     (forall i, maxv <= i -> av_slice s i = None) /\
     (forall i j oi oj li lj, i <> j -> av_slice s i = Some (oi, li) -> av_slice s j = Some (oj, lj) ->
       oi + li <= oj \/ oj + lj <= oi))%N.
Proof.
  intros Z M A. destruct (with_capacity_ok umax addr esz maxv dim Z M A) as (s & E & S1 & S2 & _ & S3).
  exists s. split; [exact E|]. split; [|split].
  - intros i Hi. destruct (S3 i Hi) as (off & O1 & O2 & O3 & _). eauto.
  - intros i Hi. unfold av_slice. rewrite S1. destruct (N.ltb_spec i maxv); [lia|reflexivity].
  - intros i j oi oj li lj D Hi Hj. destruct (N.lt_trichotomy i j) as [L|[L|L]]; [|congruence|].
    + left. exact (slices_disjoint umax addr esz maxv dim s E i j oi oj li lj L Hi Hj).
    + right. exact (slices_disjoint umax addr esz maxv dim s E j i oj oi lj li L Hj Hi).
Qed.
Print Assumptions C51_slices_in_bounds.
(** [f32] vectors of dimension 100 in an allocation at address 4 * 1021. *)
Example sample_store : let s := with_capacity (2 ^ 64 - 1) 4084 4 1000 100 in
  option_map av_pad s = Some 112%N /\ (exists v, s = Some v /\ av_slice v 7 = Some (787, 100)%N).
Proof. vm_compute. eauto. Qed.
(** Creation panics only for element sizes that do not divide 64. *)
Theorem C51_creation_total umax addr esz maxv dim :
  (with_capacity umax addr esz maxv dim = None <-> esz = 0 \/ 64 mod esz <> 0)%N.
Proof.
  split; [apply with_capacity_panics|]. unfold with_capacity. intros [->|M]; [reflexivity|].
  destruct (esz =? 0)%N; [reflexivity|]. destruct (N.eqb_spec (64 mod esz) 0); [contradiction|reflexivity].
Qed.
Print Assumptions C51_creation_total.
(** Finding: for an element type whose alignment is below its size (for instance [[u8; 4]]),
    the allocation may start at an address that no number of elements aligns; the offset is
    then [usize::MAX], unchecked, and slices lie outside the allocation. *)
Theorem C51_unaligned_element_refuted : ~ (forall umax addr esz maxv dim s i off len,
  with_capacity umax addr esz maxv dim = Some s -> av_slice s i = Some (off, len) ->
  (off + len <= av_count s)%N).
Proof.
  intros H. specialize (H (2 ^ 64 - 1)%N 2%N 4%N 1%N 16%N _ 0%N _ _ eq_refl eq_refl).
  vm_compute in H. contradiction.
Qed.
Print Assumptions C51_unaligned_element_refuted.

(** ** C45: neighbor provider *)

(** Any sequence of calls on a new provider answers as a map from points to lists does: rows
    never interfere, rejected calls change nothing, wherever the allocation lies. *)
Theorem C45_rows_refine_map addr maxp starts width ops :
  snd (np_run (np_new addr maxp starts width) ops) =
  snd (nspec_run (maxp + starts) width (fun _ => []) ops).
Proof. exact (proj1 (proj2 (np_run_refines _ _ ops _ _ (np_new_rep addr maxp starts width)))). Qed.
Print Assumptions C45_rows_refine_map.
(** What appending means: the old list, then the ids that are new to it, each once and in
    order, cut at the capacity.  Duplicate-free lists stay duplicate free. *)
Theorem C45_append_adds_new_ids cap l new : length l <= cap ->
  offer_upto cap l new = firstn cap (l ++ fresh l new) /\
  (forall x, NoDup l -> In x (fresh l new) <-> In x new /\ ~ In x l) /\
  (NoDup l -> NoDup (offer_upto cap l new)) /\ length (offer_upto cap l new) <= cap.
Proof.
  intros L. rewrite offer_upto_fresh by assumption. split; [reflexivity|]. split; [|split].
  - intros x ND. apply fresh_spec. assumption.
  - intros ND. apply NoDup_firstn. now apply fresh_spec.
  - rewrite firstn_length. lia.
Qed.
Print Assumptions C45_append_adds_new_ids.
(** Hence, if only duplicate-free lists are set, every list read is duplicate free and within
    the configured width. *)
Definition set_nodup (o : nop) : Prop := match o with NSet _ l => NoDup l | _ => True end.
Lemma spec_run_nodup size cap : forall ops m, Forall set_nodup ops ->
  (forall i, NoDup (m i) /\ length (m i) <= cap) ->
  forall l, In (NList l) (snd (nspec_run size cap m ops)) -> NoDup l /\ length l <= cap.
Proof.
  induction ops as [|o ops IH]; intros m F M l; cbn [nspec_run]; [contradiction|].
  inversion F as [|? ? F1 F2]; subst. destruct (nspec_op size cap m o) as [m1 r] eqn:E.
  destruct (nspec_run size cap m1 ops) as [m2 rs] eqn:R. cbn [snd].
  assert (M1 : forall i, NoDup (m1 i) /\ length (m1 i) <= cap).
  { destruct o as [id x|id x|id]; cbn [nspec_op] in E.
    - destruct (_ && _) eqn:G; injection E as <- _; [|exact M]. intros i. destruct (i =? id); [|apply M].
      split; [exact F1|]. apply andb_true_iff in G. destruct G as [_ G]. now apply Nat.leb_le.
    - destruct (_ <? _); injection E as <- _; [|exact M]. intros i. destruct (i =? id); [|apply M].
      destruct (M id) as [A B]. destruct (C45_append_adds_new_ids cap (m id) x B) as (_ & _ & C & D).
      split; [now apply C|exact D].
    - destruct (_ <? _); injection E as <- _; exact M. }
  intros [H|H].
  - destruct o as [id x|id x|id]; cbn [nspec_op] in E.
    + destruct (_ && _); injection E as _ <-; discriminate.
    + destruct (_ <? _); injection E as _ <-; discriminate.
    + destruct (_ <? _); injection E as <- <-; [|discriminate]. injection H as <-. apply M.
  - specialize (IH m1 F2 M1 l). rewrite R in IH. auto.
Qed.
Theorem C45_lists_duplicate_free addr maxp starts width ops l : Forall set_nodup ops ->
  In (NList l) (snd (np_run (np_new addr maxp starts width) ops)) -> NoDup l /\ length l <= width.
Proof.
  intros F H. rewrite C45_rows_refine_map in H. apply (spec_run_nodup _ _ ops _ F) in H; [assumption|].
  intros i. split; [constructor|cbn; lia].
Qed.
Print Assumptions C45_lists_duplicate_free.
Definition np_sample := [NSet 1 [4; 5]; NAppend 1 [5; 6; 6; 7; 8]; NSet 0 [1; 2; 3; 9]; NSet 0 [1; 2; 3; 9; 10];
  NGet 1; NGet 0; NGet 3; NAppend 3 [1]; NGet 2].
Example np_sample_ok : Forall set_nodup np_sample /\
  snd (np_run (np_new 5 2 1 4) np_sample) =
  [NDone; NDone; NDone; NPanic; NList [4; 5; 6; 7]; NList [1; 2; 3; 9]; NPanic; NPanic; NList []].
Proof.
  split; [|vm_compute; reflexivity]. repeat constructor; cbn; intuition lia.
Qed.

(** ** C52: exporting a graph for the disk index *)

(** After any history in which every id given is a point or the start point, the export has
    one list per point, equal to the stored list with the start point replaced, and names
    points only. *)
Definition op_ids (o : nop) : list nat := match o with NSet _ l | NAppend _ l => l | NGet _ => [] end.
Lemma offer_upto_in cap : forall new l x, In x (offer_upto cap l new) -> In x l \/ In x new.
Proof.
  induction new as [|y new IH]; intros l x; cbn [offer_upto]; [auto|].
  destruct (in_dec _ _ _).
  - intros H. apply IH in H. cbn. tauto.
  - destruct (_ <? _); [|auto]. intros H. apply IH in H. rewrite in_app_iff in H. cbn in *. tauto.
Qed.
Lemma spec_run_in size cap P : forall ops m, Forall (fun o => Forall P (op_ids o)) ops ->
  (forall i, Forall P (m i)) -> forall i, Forall P (fst (nspec_run size cap m ops) i).
Proof.
  induction ops as [|o ops IH]; intros m F M; cbn [nspec_run]; [exact M|].
  inversion F as [|? ? F1 F2]; subst. destruct (nspec_op size cap m o) as [m1 r] eqn:E.
  destruct (nspec_run size cap m1 ops) as [m2 rs] eqn:R. cbn [fst].
  specialize (IH m1 F2). rewrite R in IH. apply IH.
  destruct o as [id x|id x|id]; cbn [nspec_op] in E.
  - destruct (_ && _); injection E as <- _; [|exact M]. intros i. destruct (i =? id); [exact F1|apply M].
  - destruct (_ <? _); injection E as <- _; [|exact M]. intros i. destruct (i =? id); [|apply M].
    apply Forall_forall. intros z Hz. apply offer_upto_in in Hz. specialize (M id). cbn [op_ids] in F1.
    rewrite Forall_forall in M, F1. destruct Hz; auto.
  - destruct (_ <? _); injection E as <- _; exact M.
Qed.
Theorem C52_export_names_points addr maxp starts width ops inmem actual :
  Forall (fun o => Forall (fun x => x < maxp \/ x = inmem) (op_ids o)) ops -> actual < maxp ->
  exists lists, da_lists (fst (np_run (np_new addr maxp starts width) ops)) inmem actual = map Some lists /\
    length lists = maxp /\
    (forall i l, nth_error lists i = Some l -> Forall (fun x => x < maxp) l /\ length l <= width /\
       l = map (fun x => if x =? inmem then actual else x)
             (fst (nspec_run (maxp + starts) width (fun _ => []) ops) i)).
Proof.
  intros F A. destruct (np_run_refines _ _ ops _ _ (np_new_rep addr maxp starts width)) as (R & _ & X).
  set (p := fst (np_run (np_new addr maxp starts width) ops)) in *.
  set (m := fst (nspec_run (maxp + starts) width (fun _ => []) ops)) in *.
  assert (X' : np_extra p = starts) by (rewrite X; reflexivity).
  destruct R as (W & Sz & Dm & RR).
  set (f := fun i => map (fun x => if x =? inmem then actual else x) (m i)).
  exists (map f (seq 0 maxp)). split; [|split].
  - unfold da_lists. rewrite Sz, X'. replace (maxp + starts - starts) with maxp by lia.
    rewrite map_map. apply map_ext_in. intros i Hi. apply in_seq in Hi. unfold da_get.
    rewrite (get_row p i (m i)); [reflexivity|assumption|lia|apply RR; lia].
  - now rewrite map_length, seq_length.
  - intros i l H.
    assert (HL : i < maxp). { apply nth_error_lt in H. now rewrite map_length, seq_length in H. }
    rewrite nth_error_map, (nth_error_nth' _ 0) in H by now rewrite seq_length.
    rewrite seq_nth in H by assumption. cbn [option_map plus] in H. injection H as <-. unfold f. split; [|split; [|reflexivity]].
    + pose proof (spec_run_in (maxp + starts) width _ ops (fun _ => []) F (fun _ => Forall_nil _) i) as Q.
      fold m in Q. apply Forall_map. apply Forall_forall. intros x Hx. rewrite Forall_forall in Q.
      destruct (Nat.eqb_spec x inmem); [assumption|]. destruct (Q x Hx); [assumption|contradiction].
    + rewrite map_length. destruct (RR i) as (R1 & _ & _); lia.
Qed.
Print Assumptions C52_export_names_points.
Example export_sample :
  Forall (fun o => Forall (fun x => x < 3 \/ x = 3) (op_ids o)) [NSet 0 [3; 1]; NAppend 1 [3; 2]; NSet 3 [0]] /\
  da_lists (fst (np_run (np_new 0 3 1 4) [NSet 0 [3; 1]; NAppend 1 [3; 2]; NSet 3 [0]])) 3 2 =
  [Some [2; 1]; Some [2; 2]; Some []].
Proof. split; [repeat constructor; cbn; lia|vm_compute; reflexivity]. Qed.
(** Finding: only one start point is replaced.  In a graph with two, the export names an id
    that the disk graph does not have. *)
Theorem C52_two_start_points_refuted : ~ (forall addr maxp starts width ops inmem actual l,
  Forall (fun o => Forall (fun x => x < maxp + starts) (op_ids o)) ops -> actual < maxp ->
  maxp <= inmem < maxp + starts ->
  In (Some l) (da_lists (fst (np_run (np_new addr maxp starts width) ops)) inmem actual) ->
  Forall (fun x => x < maxp) l).
Proof.
  intros H. specialize (H 0 2 2 4 [NSet 0 [1; 2; 3]] 2 1 [1; 1; 3]).
  assert (F : Forall (fun x => x < 2) [1; 1; 3]).
  { apply H; [repeat constructor; cbn; lia|lia|lia|vm_compute; auto]. }
  inversion F as [|? ? _ F1]. inversion F1 as [|? ? _ F2]. inversion F2. lia.
Qed.
Print Assumptions C52_two_start_points_refuted.
(** Finding: the number of start points is reduced to 32 bits before the overflow check, so
    that asking for 2^32 of them gives an empty range. *)
Theorem C52_start_point_count_refuted : ~ (forall valid frozen s e, (0 < frozen)%N ->
  start_points valid frozen = Some (s, e) -> (e - s = frozen)%N).
Proof. intros H. specialize (H 5 (2 ^ 32) 5 5 ltac:(reflexivity) eq_refl)%N. vm_compute in H. discriminate. Qed.
Print Assumptions C52_start_point_count_refuted.
Theorem C52_start_points valid frozen s e : (frozen < 2 ^ 32 -> start_points valid frozen = Some (s, e) ->
  s = valid /\ e = valid + frozen /\ e < 2 ^ 32)%N.
Proof.
  intros L. unfold start_points. rewrite N.mod_small by assumption.
  destruct (N.ltb_spec (valid + frozen) (2 ^ 32)); [|discriminate]. intros [= <- <-]. auto.
Qed.
Print Assumptions C52_start_points.
