(** Property theorems about the object pool (C37). *)
From Coq Require Import List PeanoNat Bool Lia Permutation.
From Verif.Lib Require Import Base Lists.
From Verif.Pool Require Import Model Spec Proofs.
Import ListNotations.

(** Identities of the objects in the pool. *)
Definition pooled {V A} (s : pool V A) : list nat := map fst (p_queue s).

(** In every schedule of gets, failures, writes and drops: an object has at most one holder,
    a held object is neither in the pool nor destroyed, and no object is destroyed twice or
    sits in the pool twice. *)
Lemma c37_one_holder {V A} (create : A -> V) modify a n cap es (s : pool V A) :
  p_run create modify (pool_new create a n cap) es = Some s ->
  (forall h h' i, holds s h i -> holds s h' i -> h = h') /\
  (forall h i, holds s h i -> ~ In i (pooled s) /\ ~ In i (p_dead s)) /\
  (forall i, In i (pooled s) -> ~ In i (p_dead s)) /\ NoDup (pooled s) /\ NoDup (p_dead s).
Proof.
  intros R. apply run_inv in R. unfold pinv, all_ids in R. fold (pooled s) in R.
  assert (ND : NoDup (pooled s ++ flat_map handle_ids (p_handles s) ++ p_dead s)).
  { apply Permutation_NoDup with (l := seq 0 (p_next s)); [now symmetry|apply seq_NoDup]. }
  clear R.
  assert (SPLIT : forall (x y : list nat), NoDup (x ++ y) -> NoDup x /\ NoDup y /\ forall i, In i x -> ~ In i y).
  { clear. induction x as [|a x IH]; intros y H; cbn [app] in H.
    - split; [constructor|]. split; [assumption|]. intros i [].
    - inversion H as [|? ? N H1]; subst. destruct (IH y H1) as (A1 & A2 & A3). rewrite in_app_iff in N. split; [|split; [assumption|]].
      + constructor; tauto.
      + intros i [<-|Hi]; [tauto|auto]. }
  destruct (SPLIT _ _ ND) as (N1 & N23 & D1). destruct (SPLIT _ _ N23) as (N2 & N3 & D2).
  assert (IN : forall h i, holds s h i -> In i (flat_map handle_ids (p_handles s))).
  { intros h i [v Hv]. apply in_flat_map. exists (Held (i, v)). split; [eapply nth_error_In; eauto|now left]. }
  repeat split; auto.
  - intros h h' i [v Hv] [v' Hv']. clear - N2 Hv Hv'. revert h h' Hv Hv' N2.
    induction (p_handles s) as [|x l IH]; intros h h' Hv Hv' N; [destruct h; discriminate|].
    cbn [flat_map] in N. destruct h as [|h], h' as [|h']; cbn [nth_error] in *; auto.
    + injection Hv as ->. cbn [handle_ids fst app] in N. inversion N as [|? ? Ni _]; subst. exfalso. apply Ni.
      apply in_flat_map. exists (Held (i, v')). split; [eapply nth_error_In; eauto|now left].
    + injection Hv' as ->. cbn [handle_ids fst app] in N. inversion N as [|? ? Ni _]; subst. exfalso. apply Ni.
      apply in_flat_map. exists (Held (i, v)). split; [eapply nth_error_In; eauto|now left].
    + f_equal. eapply IH; eauto. clear - N. induction (handle_ids x); cbn [app] in N; auto. inversion N; auto.
  - intros Hi. apply (D1 i Hi). apply in_app_iff. left. eauto.
  - apply D2. eauto.
  - intros i Hi Hd. apply (D1 i Hi). apply in_app_iff. now right.
Qed.
Theorem C37_one_holder {V A} (create : A -> V) modify a n cap es (s : pool V A) :
  p_run create modify (pool_new create a n cap) es = Some s ->
  (forall h h' i, holds s h i -> holds s h' i -> h = h') /\
  (forall h i, holds s h i -> ~ In i (pooled s) /\ ~ In i (p_dead s)) /\
  (forall i, In i (pooled s) -> ~ In i (p_dead s)) /\ NoDup (pooled s) /\ NoDup (p_dead s).
Proof. exact (c37_one_holder create modify a n cap es s). Qed.
Print Assumptions C37_one_holder.

(** No object leaks: each one ever created is in the pool, owned by a call or handle, or
    destroyed. *)
Theorem C37_nothing_lost {V A} (create : A -> V) modify a n cap es (s : pool V A) :
  p_run create modify (pool_new create a n cap) es = Some s ->
  Permutation (pooled s ++ flat_map handle_ids (p_handles s) ++ p_dead s) (seq 0 (p_next s)).
Proof. exact (run_inv create modify a n cap es s). Qed.
Print Assumptions C37_nothing_lost.

(** The pool never holds more than the larger of its initial size and its capacity. *)
Theorem C37_bounded {V A} (create : A -> V) modify a n c es (s : pool V A) :
  p_run create modify (pool_new create a n (Some c)) es = Some s -> length (p_queue s) <= max n c.
Proof.
  intros R.
  assert (B : bound_inv n s /\ p_cap s = Some c).
  { revert R. apply (run_ind create modify (fun s => bound_inv n s /\ p_cap s = Some c)).
    - intros s0 e s1 [B C] H. split; [exact (step_bound create modify n s0 e s1 B H)|].
      now rewrite (step_cap create modify s0 e s1 H).
    - split; [|reflexivity]. unfold bound_inv, pool_new. cbn [p_cap p_queue]. rewrite map_length, seq_length. lia. }
  destruct B as [B C]. unfold bound_inv in B. now rewrite C in B.
Qed.
Print Assumptions C37_bounded.

(** Without a capacity and without failures nothing is destroyed, and objects are created only
    when all are in use: their number stays within the larger of the initial size and the peak
    number of concurrent users. *)
Theorem C37_objects_are_reused {V A} (create : A -> V) modify a n es (s : pool V A) k :
  p_run create modify (pool_new create a n None) es = Some s -> Forall succeeds es ->
  Forall (fun x => users x <= k) (states create modify (pool_new create a n None) es) ->
  p_dead s = [] /\ p_next s <= max n k.
Proof.
  intros R F U. destruct (run_peak create modify n k es _ s (new_inv create a n None) (new_peak create modify a n k) F U R)
    as (_ & D & _ & B). split; [exact D|]. lia.
Qed.
Print Assumptions C37_objects_are_reused.

(** What a get returns: an object out of the pool, modified for the arguments, or a newly
    created one.  If modification makes any object equivalent to a new one, so is the result. *)
Theorem C37_get_result {V A} (create : A -> V) modify (s s' : pool V A) h (eqv : V -> V -> Prop) :
  (forall v, eqv v v) -> (forall v a, eqv (modify v a) (create a)) ->
  p_step create modify s (PReady h true) = Some s' ->
  exists o a i v, nth_error (p_handles s) h = Some (Fetched o a) /\
    nth_error (p_handles s') h = Some (Held (i, v)) /\ eqv v (create a).
Proof.
  intros E1 E2 H. cbn [p_step] in H.
  destruct (nth_error (p_handles s) h) as [[[[i v]|] a| | |]|] eqn:N; try discriminate; injection H as <-.
  - exists (Some (i, v)), a, i, (modify v a). split; [reflexivity|]. unfold p_set. cbn [p_handles].
    rewrite nth_error_set_nth, Nat.eqb_refl. apply nth_error_lt in N. apply Nat.ltb_lt in N. rewrite N. auto.
  - exists None, a, (p_next s), (create a). split; [reflexivity|]. unfold p_set. cbn [p_handles].
    rewrite nth_error_set_nth, Nat.eqb_refl. apply nth_error_lt in N. apply Nat.ltb_lt in N. rewrite N. auto.
Qed.
Print Assumptions C37_get_result.
(** Pooled vectors with unspecified contents have the length asked for. *)
Theorem C37_vector_length {T} (d : T) v len :
  length (undef_create d len) = len /\ length (undef_modify d v len) = len /\
  (length v <= len -> firstn (length v) (undef_modify d v len) = v).
Proof.
  unfold undef_create, undef_modify. rewrite repeat_length, app_length, firstn_length, repeat_length.
  split; [reflexivity|]. split; [lia|]. intros L.
  rewrite (firstn_all2 v) by assumption. rewrite firstn_app, firstn_all, Nat.sub_diag. apply app_nil_r.
Qed.
Print Assumptions C37_vector_length.

(** Two users, one of which overlaps the other's drop; a failing call; an overfull pool. *)
Definition sample_steps : list (pstep nat nat) :=
  [PGet 7; PGet 8; PReady 1 true; PWrite 1 5; PReady 0 true; PDrop 1; PGet 9; PReady 2 true; PDrop 0; PDrop 2].
Example sample_pool :
  match p_run (fun a => a) (fun v a => v + a) (pool_new (fun a => a) 0 1 None) sample_steps with
  | Some s => p_queue s = [(0, 7); (1, 14)] /\ p_next s = 2 /\ p_dead s = []
  | None => False
  end /\ Forall succeeds sample_steps /\
  Forall (fun x => users x <= 2) (states (fun a => a) (fun v a => v + a) (pool_new (fun a => a) 0 1 None) sample_steps).
Proof.
  split; [vm_compute; auto|]. split; [repeat constructor|]. vm_compute. repeat constructor.
Qed.
Example sample_failures :
  match p_run (fun a => a) (fun v a => v + a) (pool_new (fun a => a) 0 1 (Some 1))
    [PGet 7; PGet 8; PReady 1 true; PReady 0 false; PGet 9; PReady 2 true; PDrop 2; PDrop 1; PDestroy 1] with
  | Some s => p_queue s = [(2, 9)] /\ p_next s = 3 /\ p_dead s = [1; 0] /\ pooled s = [2]
  | None => False
  end.
Proof. vm_compute. auto. Qed.
