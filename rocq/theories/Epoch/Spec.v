(** Specification vocabulary for the registry, in terms of the event log only. *)
From Verif.Lib Require Import Base.
From Verif.Epoch Require Import Model.

(** The guard of agent [g] was held just before log position [k]: its [guard()] call
    returned earlier and it has not been dropped since. *)
Definition held_at (log : list event) (k : nat) (g : nat) : Prop :=
  exists j, j < k /\ nth_error log j = Some (EGuard g) /\
            forall m, j < m < k -> nth_error log m <> Some (EDrop g).

(** All ids retired / handed out, in order. *)
Fixpoint retired (log : list event) : list N :=
  match log with
  | [] => []
  | ERetire _ i :: l => i :: retired l
  | _ :: l => retired l
  end.

Fixpoint popped (log : list event) : list N :=
  match log with
  | [] => []
  | EPop _ i _ :: l => i :: popped l
  | _ :: l => popped l
  end.

(** Ids retired and not yet handed out. *)
Definition pending (σ : reg) : list N :=
  map it_id (r_q σ 0 ++ r_q σ 1 ++ r_q σ 2 ++ r_q σ 3).

(** Number of successful [try_advance] calls in a log. *)
Fixpoint drains (log : list event) : nat :=
  match log with
  | [] => 0
  | EDrain _ :: l => S (drains l)
  | _ :: l => drains l
  end.

(** No call in progress and no guard or drain held. *)
Definition quiescent (σ : reg) : Prop := forall a, r_ag σ a = AIdle.

(** Only agent [a] acts. *)
Definition solo (a : nat) (sched : list (nat * act)) : Prop :=
  Forall (fun x => fst x = a) sched.

(** Number of [try_advance] calls a schedule starts. *)
Definition advances (sched : list (nat * act)) : nat :=
  length (filter (fun x => match snd x with ActAdvance => true | _ => false end) sched).
