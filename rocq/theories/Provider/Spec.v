(** What users of the provider see. *)
From Verif.Lib Require Import Base.
From Verif.Store Require Import Model Spec.
From Verif.IdMap Require Import Model.
From Verif.Provider Require Import Model.

(** Every state some interleaving of [set_element], [delete] and readers leads to. *)
Definition preachable (sh : nat -> nat) (entries bytes_per guards cap ncols : nat) (rows : list bytes) (p : provider) : Prop :=
  exists p0 sched, p_new entries bytes_per guards cap ncols rows = Some p0 /\ 0 < guards /\ 0 < cap /\ prun sh sched p0 = Some p.

(** The internal id and vector of the last successful [set_element] of [e] not deleted since. *)
Definition papply (f : nat -> option (nat * bytes)) (ev : pevent) : nat -> option (nat * bytes) :=
  match ev with
  | PSetOk _ e i v => upd f e (Some (i, v))
  | PDeleted _ e _ => upd f e None
  | _ => f
  end.
Definition current (log : list pevent) : nat -> option (nat * bytes) := fold_left papply log (fun _ => None).

(** Any reader that asks for slot [i] now gets [v]. *)
Definition readable (st : store) (i : nat) (v : bytes) : Prop :=
  forall o got, s_cl st o = RHeld got -> exists st', sstep o (CallRead i) st = Some st' /\ s_log st' = s_log st ++ [SRead o i (Some v)].
(** A call of [set_element] of [e] has reserved slot [i], written it, and is making or has made
    the mapping to it; it has not returned yet. *)
Definition being_set (p : provider) (e i : nat) : Prop :=
  exists t v, (p_cl p t = PIns e v i \/ p_cl p t = PPub e v i) /\ s_data (p_st p) i = v /\
    (s_cl (p_st p) t = WHeld i \/ s_cl (p_st p) t = WPub i).
(** The last thing thread [t] reported. *)
Definition made_by (t : nat) (ev : pevent) : bool :=
  match ev with PSetOk x _ _ _ | PSetErr x _ | PDeleted x _ _ | PKept x _ _ | PDelOk x _ _ | PDelErr x _ => x =? t end.
Definition last_of (t : nat) (log : list pevent) : option pevent := find (made_by t) (rev log).
