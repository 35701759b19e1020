(** Property theorems of the epoch registry (C01-C04).  Statements only; the proofs are in
    Proofs.v.  Vocabulary: Model.v (state, events, step) and Spec.v (held_at, retired,
    popped, pending, quiescent, solo, advances). *)
From Verif.Lib Require Import Base.
From Verif.Epoch Require Import Model Spec Proofs.
Local Open Scope N_scope.

(** C01.  In every execution: if at log position [p] a drain hands out the retirement
    recorded at position [k], then [k] is an earlier retirement of that very id, and
    every guard that was held when it was retired was dropped strictly between. *)
Theorem C01_no_reclaim_while_guarded :
  forall n σ, (0 < n)%nat -> reachable n σ ->
  forall p a i k, nth_error (r_log σ) p = Some (EPop a i k) ->
    (k < p)%nat /\ (exists r, nth_error (r_log σ) k = Some (ERetire r i)) /\
    forall g, held_at (r_log σ) k g ->
      exists m, (k < m < p)%nat /\ nth_error (r_log σ) m = Some (EDrop g).
Proof. exact c01_lemma. Qed.
Print Assumptions C01_no_reclaim_while_guarded.

(** C02.  Nothing is handed out twice, nothing is lost. *)
Theorem C02_each_retirement_popped_once :
  forall n σ, (0 < n)%nat -> reachable n σ ->
  forall p p' a a' i i' k,
    nth_error (r_log σ) p = Some (EPop a i k) ->
    nth_error (r_log σ) p' = Some (EPop a' i' k) -> p = p'.
Proof. exact c02_once_lemma. Qed.
Print Assumptions C02_each_retirement_popped_once.

Theorem C02_conservation :
  forall n σ, (0 < n)%nat -> reachable n σ ->
  Permutation (retired (r_log σ)) (popped (r_log σ) ++ pending σ).
Proof. exact c02_perm_lemma. Qed.
Print Assumptions C02_conservation.

(** C02, progress: from any quiescent state a single caller reclaims everything pending
    with four calls of [try_advance]. *)
Theorem C02_four_advances_reclaim_everything :
  forall n a σ, (0 < n)%nat -> reachable n σ -> quiescent σ -> r_epoch σ + 4 <= u64_max ->
  exists sched σ', solo a sched /\ advances sched = 4%nat /\ run sched σ = Some σ' /\
    pending σ' = [] /\ quiescent σ'.
Proof. exact progress_lemma. Qed.
Print Assumptions C02_four_advances_reclaim_everything.

(** C03. *)
Theorem C03_guards_have_distinct_slots :
  forall n σ a b s s' e e', (0 < n)%nat -> reachable n σ ->
  r_ag σ a = GHeld s e -> r_ag σ b = GHeld s' e' -> a <> b -> s <> s'.
Proof. exact guards_excl. Qed.
Print Assumptions C03_guards_have_distinct_slots.

Theorem C03_guard_pins_epoch :
  forall n σ a s e, (0 < n)%nat -> reachable n σ -> r_ag σ a = GHeld s e ->
  (s < n)%nat /\ (r_epoch σ = e \/ r_epoch σ = e + 1).
Proof. exact guards_pin. Qed.
Print Assumptions C03_guard_pins_epoch.

Theorem C03_at_most_capacity_guards :
  forall n σ l, (0 < n)%nat -> reachable n σ -> NoDup l ->
  (forall a, In a l -> exists s e, r_ag σ a = GHeld s e) -> (length l <= n)%nat.
Proof. exact guards_count. Qed.
Print Assumptions C03_at_most_capacity_guards.

(** An undisturbed [guard()] finds a free slot if there is one, as long as the 64-bit
    probe hint is not about to wrap. *)
Theorem C03_guard_succeeds_when_slot_free :
  forall n σ a s, (0 < n)%nat -> reachable n σ ->
  r_ag σ a = AIdle -> (s < n)%nat -> r_guards σ s = 0 -> r_hint σ + N.of_nat n <= two64 ->
  exists k σ' s', run ((a, ActGuard) :: repeat (a, ActGo) k) σ = Some σ' /\
    r_ag σ' a = GHeld s' (r_epoch σ).
Proof. exact guard_available. Qed.
Print Assumptions C03_guard_succeeds_when_slot_free.

(** The premise on the hint is needed: when the hint wraps and the number of slots does
    not divide 2^64, a probe sequence skips a slot, and an undisturbed [guard()] reports
    Unavailable although slot 2 is free. *)
Theorem C03_guard_succeeds_at_hint_wrap_refuted :
  exists σ k σ' log, reachable 3 σ /\ r_ag σ 0 = AIdle /\ r_guards σ 2 = 0 /\
    run ((0%nat, ActGuard) :: repeat (0%nat, ActGo) k) σ = Some σ' /\
    r_log σ' = log ++ [EUnavailable 0].
Proof. exact guard_wrap_unavailable. Qed.
Print Assumptions C03_guard_succeeds_at_hint_wrap_refuted.

(** C04. *)
Theorem C04_drain_is_unique :
  forall n σ a b q q', (0 < n)%nat -> reachable n σ ->
  r_ag σ a = VDrain q -> r_ag σ b = VDrain q' -> a = b.
Proof. exact drain_unique. Qed.
Print Assumptions C04_drain_is_unique.

Theorem C04_drain_is_undisturbed :
  forall n σ σ' a b c q, (0 < n)%nat -> reachable n σ ->
  r_ag σ a = VDrain q -> b <> a -> step b c σ = Some σ' ->
  r_ag σ' a = VDrain q /\ r_q σ' q = r_q σ q /\ r_epoch σ' = r_epoch σ.
Proof. exact drain_stable. Qed.
Print Assumptions C04_drain_is_undisturbed.

Theorem C04_drain_len_is_exact :
  forall σ a q, r_ag σ a = VDrain q ->
  exists σ' log, run (repeat (a, ActPop) (drain_len σ q) ++ [(a, ActPop)]) σ = Some σ' /\
    r_log σ' = r_log σ ++ map (fun it => EPop a (it_id it) (it_stamp it)) log ++ [EPopNone a] /\
    length log = drain_len σ q.
Proof. exact drain_len_exact. Qed.
Print Assumptions C04_drain_len_is_exact.

(** The assertion in [try_advance] cannot fail before the epoch counter is exhausted. *)
Theorem C04_try_advance_does_not_panic :
  forall n σ a σ', (0 < n)%nat -> reachable n σ -> r_epoch σ < u64_max ->
  step a ActGo σ = Some σ' -> r_ag σ a <> APanic -> r_ag σ' a <> APanic.
Proof. exact no_panic. Qed.
Print Assumptions C04_try_advance_does_not_panic.

(** ** Non-vacuity: a concrete execution.  Agents 0 and 1 take guards, agent 0 retires 7
    and 8, both drop, agent 2 advances until the items come out. *)
Definition demo_guard (a : nat) : list (nat * act) :=
  (a, ActGuard) :: repeat (a, ActGo) 4.
Definition demo_adv (a n : nat) : list (nat * act) :=
  (a, ActAdvance) :: repeat (a, ActGo) (n + 3).
Definition demo_sched : list (nat * act) :=
  demo_guard 0 ++ demo_guard 1 ++ [(0%nat, ActRetire 7); (0%nat, ActRetire 8)] ++
  demo_adv 2 2 ++ [(2%nat, ActPop); (2%nat, ActDropDrain)] ++
  [(0%nat, ActDropGuard); (1%nat, ActDropGuard)] ++
  demo_adv 2 2 ++ [(2%nat, ActDropDrain)] ++
  demo_adv 2 2 ++ [(2%nat, ActPop)].

Example demo_reaches_pop :
  match run demo_sched (reg_init 2) with
  | Some σ => popped (r_log σ) = [7] /\ pending σ = [8] /\ r_ag σ 2 = VDrain 1 /\
      drain_len σ 1 = 1%nat /\ held_at (r_log σ) 2 1
  | None => False
  end.
Proof.
  vm_compute. repeat split. exists 1%nat. split; [repeat constructor|].
  split; [reflexivity|]. intros m [H1 H2]. exfalso. lia.
Qed.

(** While guard 1 (which joined before the second advance) is held, the second advance
    after the retirement still works but the third returns None. *)
Example demo_blocked :
  match run (demo_guard 0 ++ [(0%nat, ActRetire 7)] ++
             demo_adv 2 2 ++ [(2%nat, ActDropDrain)] ++
             (2%nat, ActAdvance) :: repeat (2%nat, ActGo) 4) (reg_init 2) with
  | Some σ => last (r_log σ) (EPanic 0) = ENone 2 /\ r_ag σ 0 = GHeld 0 1 /\ r_epoch σ = 2
  | None => False
  end.
Proof. vm_compute. auto. Qed.

Example demo_quiescent :
  match run (demo_guard 0 ++ [(0%nat, ActRetire 7); (0%nat, ActDropGuard)]) (reg_init 2) with
  | Some σ => quiescent σ /\ pending σ = [7] /\ (r_epoch σ + 4 <=? u64_max) = true /\
              (r_hint σ + 2 <=? two64) = true
  | None => False
  end.
Proof.
  vm_compute. repeat split. intros [|a]; reflexivity.
Qed.
