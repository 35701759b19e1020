(** Vocabulary of the pool properties. *)
From Coq Require Import List PeanoNat Bool.
From Verif.Pool Require Import Model.
Import ListNotations.

Section Spec.
Context {V A : Type}.
(** The identity of the object a call or handle is responsible for. *)
Definition handle_ids (x : hstate V A) : list nat :=
  match x with
  | Fetched (Some o) _ | Held o | Dropping o => [fst o]
  | Fetched None _ | Gone => []
  end.
Definition holds (s : pool V A) (h i : nat) : Prop :=
  exists v, nth_error (p_handles s) h = Some (Held (i, v)).
(** Calls in progress and live handles. *)
Definition in_use (x : hstate V A) : bool := match x with Gone => false | _ => true end.
Definition users (s : pool V A) : nat := length (filter in_use (p_handles s)).
(** Every state passed through. *)
Fixpoint states (create : A -> V) (modify : V -> A -> V) (s : pool V A) (es : list (pstep V A)) : list (pool V A) :=
  s :: match es with
       | [] => []
       | e :: es => match p_step create modify s e with Some s' => states create modify s' es | None => [] end
       end.
Definition succeeds (e : pstep V A) : Prop := match e with PReady _ false => False | _ => True end.
End Spec.
