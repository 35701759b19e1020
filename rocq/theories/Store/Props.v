(** Property theorems about the in-memory vector store (C05-C10). *)
From Verif.Lib Require Import Base Lists.
From Verif.Epoch Require Import Model.
From Verif.Store Require Import Model Spec Proofs ProofsLog ProofsMain ProofsAcquire ProofsSolo ProofsSeq.

(** ** C05 *)

(** What a reader has been handed is still what the slot contains, and nobody can write it. *)
Theorem C05_slices_do_not_change : forall entries bytes_per guards cap ncols rows σ o i v, sreachable entries bytes_per guards cap ncols rows σ -> has_slice σ o i v ->
  s_data σ i = v /\ forall o', ~ has_slot σ o' i.
Proof. intros e b g c n r0 σ o i v HR. destruct (reach_inv _ _ _ _ _ _ _ HR) as (I & _). exact (slice_no_slot _ _ σ o i v I). Qed.
Print Assumptions C05_slices_do_not_change.
(** A slice is at the reader's disposal until it is dropped: only that ends it. *)
Theorem C05_slices_live_until_drop : forall σ x c σ' o i v, has_slice σ o i v -> sstep x c σ = Some σ' ->
  has_slice σ' o i v \/ (x = o /\ c = DropReader).
Proof. exact slice_step_lemma. Qed.
Print Assumptions C05_slices_live_until_drop.
(** A successful read returns the contents last published there, or the frozen point. *)
Theorem C05_reads_return_published : forall entries bytes_per guards cap ncols rows σ p o i v, sreachable entries bytes_per guards cap ncols rows σ -> nth_error (s_log σ) p = Some (SRead o i (Some v)) ->
  (entries <= i < entries + length rows /\ v = nth (i - entries) rows []) \/
  last_published (firstn p (s_log σ)) i None = Some v.
Proof.
  intros e b g c n r0 σ p o i v HR H. destruct (reach_inv _ _ _ _ _ _ _ HR) as (_ & G & <- & <-).
  destruct (g_read _ _ G _ _ _ _ H) as [A|[A _]]; [left; exact A|right; exact A].
Qed.
Print Assumptions C05_reads_return_published.

(** ** C06 *)
Theorem C06_one_writer : forall entries bytes_per guards cap ncols rows σ o o' i, sreachable entries bytes_per guards cap ncols rows σ -> has_slot σ o i -> has_slot σ o' i -> o = o'.
Proof. intros e b g c n r0 σ o o' i HR. destruct (reach_inv _ _ _ _ _ _ _ HR) as (I & _). exact (unique_lemma _ _ σ o o' i I). Qed.
Print Assumptions C06_one_writer.
Theorem C06_no_read_while_written : forall entries bytes_per guards cap ncols rows σ o i o' σ', sreachable entries bytes_per guards cap ncols rows σ -> has_slot σ o i -> sstep o' (CallRead i) σ = Some σ' ->
  s_log σ' = s_log σ ++ [SRead o' i None].
Proof. intros e b g c n r0 σ o i o' σ' HR. destruct (reach_inv _ _ _ _ _ _ _ HR) as (I & _). exact (no_read_lemma _ _ σ o i o' σ' I). Qed.
Print Assumptions C06_no_read_while_written.

(** ** C07 *)

(** No call panics (no assertion fails, no index is out of bounds) before the registry has
    run through all its [u64::MAX] epochs. *)
Theorem C07_no_assertion_fails : forall entries bytes_per guards cap ncols rows σ o, sreachable entries bytes_per guards cap ncols rows σ -> In (SPanic o) (s_log σ) -> r_epoch (s_reg σ) = u64_max.
Proof. intros e b g c n r0 σ o HR. exact (panic_lemma _ _ _ _ _ _ σ HR o). Qed.
Print Assumptions C07_no_assertion_fails.

(** ** C08 *)
Theorem C08_frozen_points : forall entries bytes_per guards cap ncols rows σ i, sreachable entries bytes_per guards cap ncols rows σ -> entries <= i < entries + length rows ->
  let row := nth (i - entries) rows [] in
  s_data σ i = row /\
  (forall o, ~ has_slot σ o i) /\
  (forall o got, s_cl σ o = RHeld got -> exists σ', sstep o (CallRead i) σ = Some σ' /\ s_log σ' = s_log σ ++ [SRead o i (Some row)]) /\
  (forall o σ', sstep o (CallRetire i) σ = Some σ' ->
     s_log σ' = s_log σ ++ [SRetire o i (Some (SlotIsReserved FROZEN))] /\ s_cl σ' o = s_cl σ o) /\
  (forall e, In e (s_log σ) -> match e with
     | SAcquired _ j | SWrite _ j _ | SPublish _ j _ | SPublished _ j | SSlotDrop _ j | SRetire _ j None => j <> i | _ => True end).
Proof.
  intros e b g c n r0 σ i HR H. destruct (reach_inv _ _ _ _ _ _ _ HR) as (I & G & E1 & E2). rewrite <- E1, <- E2 in H.
  exact (frozen_lemma _ _ σ i I G H).
Qed.
Print Assumptions C08_frozen_points.

(** ** C09 *)

(** Every successful retirement has its own publication. *)
Theorem C09_one_retirement_per_publication : forall entries bytes_per guards cap ncols rows σ p o i, sreachable entries bytes_per guards cap ncols rows σ -> nth_error (s_log σ) p = Some (SRetire o i None) ->
  exists q o', q < p /\ nth_error (s_log σ) q = Some (SPublished o' i) /\
    forall m x, q < m < p -> nth_error (s_log σ) m <> Some (SRetire x i None).
Proof. intros e b g c n r0 σ p o i HR. destruct (reach_inv _ _ _ _ _ _ _ HR) as (_ & G & _). exact (retire_once_lemma _ σ p o i G). Qed.
Print Assumptions C09_one_retirement_per_publication.
(** After it, a read succeeds only if the slot has been published again. *)
Theorem C09_retired_is_hidden : forall entries bytes_per guards cap ncols rows σ p o i r x v, sreachable entries bytes_per guards cap ncols rows σ -> nth_error (s_log σ) p = Some (SRetire o i None) -> p < r ->
  nth_error (s_log σ) r = Some (SRead x i (Some v)) ->
  exists m y w, p < m < r /\ nth_error (s_log σ) m = Some (SPublish y i w).
Proof. intros e b g c n r0 σ p o i r x v HR. destruct (reach_inv _ _ _ _ _ _ _ HR) as (_ & G & _). exact (hidden_lemma _ σ p o i r x v G). Qed.
Print Assumptions C09_retired_is_hidden.
(** Retiring a slot a writer owns, or an index out of bounds, fails at once. *)
Theorem C09_retire_fails_at_once : forall entries bytes_per guards cap ncols rows σ o i o' σ', sreachable entries bytes_per guards cap ncols rows σ -> (has_slot σ o' i \/ entries + length rows <= i) ->
  sstep o (CallRetire i) σ = Some σ' ->
  s_cl σ' o = s_cl σ o /\ exists e, s_log σ' = s_log σ ++ [SRetire o i (Some e)].
Proof.
  intros e b g c n r0 σ o i o' σ' HR. destruct (reach_inv _ _ _ _ _ _ _ HR) as (I & _ & <- & _). exact (retire_busy_lemma _ _ σ o i o' σ' I).
Qed.
Print Assumptions C09_retire_fails_at_once.

(** A history with readers, writers, a retirement that a reader delays, and a frozen point:
    two slots, one frozen point, two guards. *)
Definition gos (o k : nat) : list (nat * sact) := repeat (o, Go) k.
Definition sample_sched : list (nat * sact) :=
  [(0, CallAcquire)] ++ gos 0 5 ++ [(0, CallWrite [1; 2]%N); (0, CallPublish)] ++ gos 0 1 ++      (* slot 0 published *)
  [(1, CallReader)] ++ gos 1 4 ++ [(1, CallRead 0); (1, CallRead 2)] ++                             (* reader *)
  [(2, CallRetire 0)] ++ gos 2 9 ++                                                                (* retired *)
  [(3, CallAcquire)] ++ gos 3 5.                                                                    (* slot 1 owned *)
Definition sample : option store :=
  match store_new 2 2 2 2 2 [[9; 9]%N] with Some σ => srun sample_sched σ | None => None end.
Example sample_meets : exists σ, sample = Some σ /\ sreachable 2 2 2 2 2 [[9; 9]%N] σ /\
  has_slice σ 1 0 [1; 2]%N /\ has_slice σ 1 2 [9; 9]%N /\ has_slot σ 3 1 /\
  s_log σ = [SAcquired 0 0; SWrite 0 0 [1; 2]%N; SPublish 0 0 [1; 2]%N; SPublished 0 0; SReader 1; SRead 1 0 (Some [1; 2]%N);
             SRead 1 2 (Some [9; 9]%N); SRetire 2 0 None; SAcquired 3 1].
Proof.
  assert (H : option_map (fun σ => (s_cl σ 1, s_cl σ 3, s_log σ)) sample =
    Some (RHeld [(2, [9; 9]%N); (0, [1; 2]%N)], WHeld 1,
            [SAcquired 0 0; SWrite 0 0 [1; 2]%N; SPublish 0 0 [1; 2]%N; SPublished 0 0; SReader 1; SRead 1 0 (Some [1; 2]%N);
             SRead 1 2 (Some [9; 9]%N); SRetire 2 0 None; SAcquired 3 1])) by (vm_compute; reflexivity).
  revert H. unfold sample. destruct (store_new 2 2 2 2 2 [[9; 9]%N]) as [σ0|] eqn:E0; [|discriminate].
  destruct (srun sample_sched σ0) as [σ|] eqn:E; [|discriminate]. cbn [option_map]. intros H. injection H as H1 H2 H3. exists σ.
  split; [reflexivity|]. split; [exists σ0, sample_sched; repeat split; auto; lia|].
  unfold has_slice, has_slot. rewrite H1, H2. split; [cbn; auto|]. split; [cbn; auto|]. split; [reflexivity|exact H3].
Qed.

(** ** C10 *)

(** With no other call and no reader around, [acquire] returns one of the free slots if there
    is any, and fails if there is none - provided the recycled entries are all available and
    neither the epoch nor the 32-bit scan counter is about to overflow. *)
Theorem C10_acquire_iff_free : forall entries bytes_per guards cap ncols rows σ o, sreachable entries bytes_per guards cap ncols rows σ ->
  no_reader_no_call σ -> s_cl σ o = CIdle ->
  (forall i, In i (fl_rec (s_fl σ)) -> s_tag σ i = AVAILABLE) ->
  (r_epoch (s_reg σ) + 20 <= u64_max)%N -> (fl_scan (s_fl σ) + N.of_nat (20 * scan_budget entries) < two32)%N ->
  exists k σ', srun ((o, CallAcquire) :: repeat (o, Go) k) σ = Some σ' /\
    ((exists i, i < entries /\ free σ i /\ s_cl σ' o = WHeld i /\ s_log σ' = s_log σ ++ [SAcquired o i]) \/
     ((forall i, i < entries -> ~ free σ i) /\ s_cl σ' o = CIdle /\ s_log σ' = s_log σ ++ [SNoSlot o])).
Proof. exact acquire_alone. Qed.
Print Assumptions C10_acquire_iff_free.
(** After any history of calls that did not overlap the condition on the recycled entries holds. *)
Theorem C10_acquire_after_sequential_history : forall entries bytes_per guards cap ncols rows σ o, ssequential entries bytes_per guards cap ncols rows σ ->
  no_reader_no_call σ -> s_cl σ o = CIdle ->
  (r_epoch (s_reg σ) + 20 <= u64_max)%N -> (fl_scan (s_fl σ) + N.of_nat (20 * scan_budget entries) < two32)%N ->
  exists k σ', srun ((o, CallAcquire) :: repeat (o, Go) k) σ = Some σ' /\
    ((exists i, i < entries /\ free σ i /\ s_cl σ' o = WHeld i /\ s_log σ' = s_log σ ++ [SAcquired o i]) \/
     ((forall i, i < entries -> ~ free σ i) /\ s_cl σ' o = CIdle /\ s_log σ' = s_log σ ++ [SNoSlot o])).
Proof.
  intros e b g c n r0 σ o HS NR CI HE HF. apply (acquire_alone e b g c n r0); auto; [now apply seq_reachable|].
  apply (a_av _ (seq_ainv _ _ _ _ _ _ _ HS)).
Qed.
Print Assumptions C10_acquire_after_sequential_history.

(** A little language for histories: a call followed by [n] of its steps, or by all of them. *)
Fixpoint finish (o n : nat) (σ : store) : option store :=
  match s_cl σ o with
  | CIdle | RHeld _ | WHeld _ => Some σ
  | _ => match n with O => None | S n => match sstep o Go σ with Some σ => finish o n σ | None => None end end
  end.
Fixpoint history (l : list (nat * sact * option nat)) (σ : store) : option store :=
  match l with
  | [] => Some σ
  | (o, c, k) :: l =>
    match sstep o c σ with
    | Some σ => match (match k with Some n => srun (repeat (o, Go) n) σ | None => finish o 2000 σ end) with Some σ => history l σ | None => None end
    | None => None
    end
  end.
Lemma finish_runs o n : forall σ σ', finish o n σ = Some σ' -> exists k, srun (repeat (o, Go) k) σ = Some σ'.
Proof.
  induction n as [|n IH]; intros σ σ' H; cbn [finish] in H.
  - exists 0. destruct (s_cl σ o); try discriminate; exact H.
  - destruct (s_cl σ o); try (exists 0; exact H);
      (destruct (sstep o Go σ) as [σ1|] eqn:S; [|discriminate]; destruct (IH _ _ H) as (kk & R); exists (Datatypes.S kk); cbn [repeat srun]; now rewrite S).
Qed.
Lemma history_runs l : forall σ σ', history l σ = Some σ' -> exists sched, srun sched σ = Some σ'.
Proof.
  induction l as [|[[o c] k] l IH]; intros σ σ' H; cbn [history] in H; [exists []; exact H|].
  destruct (sstep o c σ) as [σ1|] eqn:S; [|discriminate].
  destruct (match k with Some n => _ | None => _ end) as [σ2|] eqn:K; [|discriminate].
  assert (R : exists sched, srun sched σ1 = Some σ2) by (destruct k; [exists (repeat (o, Go) n); exact K|apply finish_runs in K; destruct K as (kk & K); eauto]).
  destruct R as (s1 & R1). destruct (IH _ _ H) as (s2 & R2). exists ((o, c) :: s1 ++ s2). cbn [srun]. rewrite S, srun_app, R1. exact R2.
Qed.
Lemma history_sequential o entries bp guards cap ncols rows l : Forall (fun x => fst (fst x) = o) l ->
  forall σ σ', ssequential entries bp guards cap ncols rows σ -> (forall x, x <> o -> at_rest (s_cl σ x)) -> history l σ = Some σ' ->
  ssequential entries bp guards cap ncols rows σ'.
Proof.
  assert (SOLO : forall sched σ σ', Forall (fun x => fst x = o) sched -> ssequential entries bp guards cap ncols rows σ -> (forall x, x <> o -> at_rest (s_cl σ x)) ->
    srun sched σ = Some σ' -> ssequential entries bp guards cap ncols rows σ' /\ (forall x, x <> o -> at_rest (s_cl σ' x))).
  { induction sched as [|[x c] sched IH]; intros σ σ' F HS AR R; cbn [srun] in R; [injection R as <-; auto|].
    inversion F; subst. cbn [fst] in *. destruct (sstep x c σ) as [σ1|] eqn:S; [|discriminate]. eapply (IH σ1); eauto.
    - eapply seq_step; eauto.
    - intros y Hy. rewrite (cl_others _ _ _ _ _ S Hy). auto. }
  induction l as [|[[x c] k] l IH]; intros F σ σ' HS AR H; cbn [history] in H; [injection H as <-; assumption|].
  inversion F; subst. cbn [fst] in *. destruct (sstep x c σ) as [σ1|] eqn:S; [|discriminate].
  destruct (match k with Some n => _ | None => _ end) as [σ2|] eqn:K; [|discriminate].
  assert (R : exists n, srun ((x, c) :: repeat (x, Go) n) σ = Some σ2).
  { destruct k as [n|]; [exists n|apply finish_runs in K; destruct K as (n & K); exists n]; cbn [srun]; now rewrite S. }
  destruct R as (n & R). destruct (SOLO ((x, c) :: repeat (x, Go) n) σ σ2) as (A & B); auto.
  - constructor; [reflexivity|]. clear. induction n; cbn; constructor; auto.
  - eapply IH; eauto.
Qed.
Definition publish_next (o : nat) : list (nat * sact * option nat) := [(o, CallAcquire, None); (o, CallPublish, None)].

(** Three slots; all published; one retired: [acquire] reclaims it. *)
Definition three : list (nat * sact * option nat) := publish_next 0 ++ publish_next 0 ++ publish_next 0 ++ [(0, CallRetire 1, None)].
Example C10_applies : exists σ, ssequential 3 1 1 2 1 [[7]%N] σ /\ no_reader_no_call σ /\ s_cl σ 0 = CIdle /\
  (r_epoch (s_reg σ) + 20 <= u64_max)%N /\ (fl_scan (s_fl σ) + N.of_nat (20 * scan_budget 3) < two32)%N /\ free σ 1 /\ ~ free σ 0.
Proof.
  set (run := match store_new 3 1 1 2 1 [[7]%N] with Some σ => history three σ | None => None end).
  assert (H : option_map (fun σ => (s_cl σ 0, r_epoch (s_reg σ), fl_scan (s_fl σ), live (s_log σ) 0 false, live (s_log σ) 1 false)) run = Some (CIdle, 1%N, 0%N, true, false)) by (vm_compute; reflexivity).
  revert H. unfold run. destruct (store_new 3 1 1 2 1 [[7]%N]) as [σ0|] eqn:E0; [|discriminate].
  destruct (history three σ0) as [σ|] eqn:E; [|discriminate]. cbn [option_map]. intros H. injection H as H1 H2 H3 H4 H5. exists σ.
  assert (C0 : forall x, s_cl σ0 x = CIdle) by (destruct (new_inv _ _ _ _ _ _ _ (Nat.lt_0_1) E0) as (_ & _ & _ & _ & C & _); intros x; now rewrite C).
  assert (HS : ssequential 3 1 1 2 1 [[7]%N] σ).
  { eapply (history_sequential 0); [|apply (seq_new _ _ _ _ _ _ σ0 E0); lia| |exact E]; [repeat constructor|intros x _; rewrite C0; exact I]. }
  assert (CX : forall x, s_cl σ x = CIdle).
  { intros x. destruct (Nat.eq_dec x 0) as [->|N]; [assumption|]. rewrite <- (C0 x).
    clear - E N. revert σ0 E. unfold three. cbn [app publish_next].
    assert (G : forall l, Forall (fun y => fst (fst y) = 0) l -> forall s s', history l s = Some s' -> s_cl s' x = s_cl s x).
    { induction l as [|[[y c] k] l IH]; intros F s s' H; cbn [history] in H; [now injection H as <-|]. inversion F; subst. cbn [fst] in *. subst y.
      destruct (sstep 0 c s) as [s1|] eqn:S; [|discriminate]. destruct (match k with Some n => _ | None => _ end) as [s2|] eqn:K; [|discriminate].
      rewrite (IH ltac:(assumption) _ _ H). rewrite <- (cl_others _ _ _ _ _ S N).
      assert (R : sruns 0 s1 s2) by (destruct k as [n|]; [exists n; exact K|apply finish_runs in K; exact K]). exact (sruns_others _ _ _ _ R N). }
    intros s0 E. eapply G; [|exact E]. repeat constructor. }
  split; [exact HS|]. split; [intros x; rewrite CX; exact I|]. split; [apply CX|]. rewrite H2, H3. split; [vm_compute; discriminate|]. split; [vm_compute; reflexivity|].
  split; [split; [assumption|intros x A; unfold has_slot in A; rewrite CX in A; exact A]|intros (A & _); congruence].
Qed.

(** 22 slots.  A writer holds slot 0 while 1-21 are published, and gives it up.  Client 0's
    [acquire] claims slot 0 in its scan and pauses.  Client 1 retires 1-21 and drains, which
    recycles them.  Client 0 goes on scanning and recycles them once more, takes slot 0 and
    gives it up.  Client 1 acquires and publishes 1-21 again. *)
Definition stale : list (nat * sact * option nat) :=
  [(2, CallAcquire, None)] ++ concat (repeat (publish_next 1) 21) ++ [(2, DropSlot, None)] ++
  [(0, CallAcquire, Some 6)] ++ map (fun i => (1, CallRetire i, None)) (seq 1 21) ++ repeat (1, CallDrain, None) 4.
Definition stale' : list (nat * sact * option nat) := [(0, DropSlot, None)] ++ concat (repeat (publish_next 1) 21).
Definition stale_run : option store :=
  match store_new 22 1 2 42 1 [[7]%N] with
  | Some σ => match history stale σ with
              | Some σ => match finish 0 2000 σ with Some σ => history stale' σ | None => None end
              | None => None end
  | None => None
  end.
Lemma history_others x l : Forall (fun y => fst (fst y) <> x) l -> forall s s', history l s = Some s' -> s_cl s' x = s_cl s x.
Proof.
  induction l as [|[[y c] k] l IH]; intros F s s' H; cbn [history] in H; [now injection H as <-|]. inversion F; subst. cbn [fst] in *.
  destruct (sstep y c s) as [s1|] eqn:S; [|discriminate]. destruct (match k with Some n => _ | None => _ end) as [s2|] eqn:K; [|discriminate].
  rewrite (IH ltac:(assumption) _ _ H). rewrite <- (cl_others _ _ _ _ _ S (not_eq_sym H2)).
  assert (R : sruns y s1 s2) by (destruct k as [n|]; [exists n; exact K|apply finish_runs in K; exact K]). exact (sruns_others _ _ _ _ R (not_eq_sym H2)).
Qed.
Theorem C10_acquire_after_overlapping_calls_refuted : exists σ k σ', sreachable 22 1 2 42 1 [[7]%N] σ /\ squiescent σ /\
  (r_epoch (s_reg σ) + 20 <= u64_max)%N /\ (fl_scan (s_fl σ) + N.of_nat (20 * scan_budget 22) < two32)%N /\
  free σ 0 /\ srun ((0, CallAcquire) :: repeat (0, Go) k) σ = Some σ' /\ s_log σ' = s_log σ ++ [SNoSlot 0].
Proof.
  assert (H : option_map (fun σ => (s_cl σ 0, s_cl σ 1, s_cl σ 2, r_epoch (s_reg σ), fl_scan (s_fl σ), live (s_log σ) 0 false)) stale_run = Some (CIdle, CIdle, CIdle, 5%N, 1%N, false)) by (vm_compute; reflexivity).
  assert (H' : (match stale_run with Some σ => option_map (fun σ' => (firstn (length (s_log σ)) (s_log σ'), skipn (length (s_log σ)) (s_log σ'))) (history [(0, CallAcquire, None)] σ) | None => None end)
     = (match stale_run with Some σ => Some (s_log σ, [SNoSlot 0]) | None => None end)) by (vm_compute; reflexivity).
  revert H H'. unfold stale_run. destruct (store_new 22 1 2 42 1 [[7]%N]) as [σ0|] eqn:E0; [|discriminate].
  destruct (history stale σ0) as [σ1|] eqn:E1; [|discriminate]. destruct (finish 0 2000 σ1) as [σ2|] eqn:E2; [|discriminate].
  destruct (history stale' σ2) as [σ|] eqn:E3; [|discriminate]. cbn [option_map]. intros H. injection H as H1 H2 H3 H4 H5 H6.
  destruct (history [(0, CallAcquire, None)] σ) as [σ'|] eqn:E4; [|discriminate]. cbn [option_map]. intros H. injection H as L1 L2.
  assert (C0 : forall x, s_cl σ0 x = CIdle) by (destruct (new_inv _ _ _ _ _ _ _ (Nat.lt_0_2) E0) as (_ & _ & _ & _ & C & _); intros x; now rewrite C).
  pose proof (finish_runs _ _ _ _ E2) as R2.
  assert (CX : squiescent σ).
  { intros x. destruct (Nat.lt_ge_cases x 3) as [L|L]; [destruct x as [|[|[|x]]]; try assumption; lia|].
    assert (F : forall l, forallb (fun y => fst (fst y) <? 3) l = true -> Forall (fun y : nat * sact * option nat => fst (fst y) <> x) l).
    { intros l A. apply Forall_forall. intros y Hy. rewrite forallb_forall in A. specialize (A y Hy). apply Nat.ltb_lt in A. lia. }
    rewrite (history_others x stale' (F stale' eq_refl) _ _ E3). rewrite (sruns_others 0 _ _ x R2) by lia.
    rewrite (history_others x stale (F stale eq_refl) _ _ E1). apply C0. }
  cbn [history] in E4. destruct (sstep 0 CallAcquire σ) as [σ3|] eqn:S; [|discriminate]. destruct (finish 0 2000 σ3) as [σ4|] eqn:E5; [|discriminate]. injection E4 as ->.
  destruct (finish_runs _ _ _ _ E5) as (k & R5). exists σ, k, σ'. split; [|split; [exact CX|split; [|split; [|split; [|split]]]]].
  - apply history_runs in E1, E3. destruct E1 as (s1 & E1), E3 as (s3 & E3), R2 as (n & R2). exists σ0, (s1 ++ repeat (0, Go) n ++ s3).
    repeat split; auto; try lia. rewrite !srun_app, E1, srun_app, R2. exact E3.
  - rewrite H4. vm_compute. discriminate.
  - rewrite H5. vm_compute. reflexivity.
  - split; [assumption|]. intros x A. unfold has_slot in A. rewrite CX in A. exact A.
  - cbn [srun]. rewrite S. exact R5.
  - rewrite <- (firstn_skipn (length (s_log σ)) (s_log σ')), L1, L2. reflexivity.
Qed.
Print Assumptions C10_acquire_after_overlapping_calls_refuted.
