(** What the two vector stores do. *)
From Verif.Lib Require Import Base.
From Verif.BfTree Require Import Model2.
Local Open Scope nat_scope.

Section Spec.
  Context {T C : Type} (compress : list T -> option C) (dim total : nat).
  Definition vectors := nat -> option (list T).
  (** One operation on the full vectors on its own; reads of codes say nothing about them. *)
  Definition acts (m : vectors) (o : vop T) : vectors * option (vout T C) :=
    match o with
    | SetEl id v =>
        if (length v =? dim) && (id <? total) then ((fun i => if i =? id then Some v else m i), Some (match compress v with Some _ => VDone | None => VErr end))
        else (m, Some VErr)
    | Delete id => ((fun i => if i =? id then None else m i), Some VDone)
    | Full id => (m, Some (VFull (m id)))
    | Quant _ => (m, None)
    end.
  Fixpoint acts_all (m : vectors) (os : list (vop T)) : vectors * list (option (vout T C)) :=
    match os with [] => (m, []) | o :: os => let r := acts m o in let q := acts_all (fst r) os in (fst q, snd r :: snd q) end.
  (** An answer is the expected one, if one is. *)
  Definition answers (r : vout T C) (e : option (vout T C)) : Prop := match e with Some e => r = e | None => True end.
  (** The code of a vector is there, or neither is. *)
  Definition agree (v : option (list T)) (c : option C) : Prop := match v with Some v => compress v = c | None => c = None end.
  (** No thread is between taking and giving back the lock for an id. *)
  Definition quiet (s : vstate (T := T) (C := C)) (id : nat) : Prop :=
    forall i, match v_pc (v_thr s i) with VIdle => True | VHeld o | VHalf o => vtarget o <> id | VRelease _ => True end.
  (** The operations of thread [i] in a history. *)
  Definition vops_of (i : nat) (h : list (nat * (vop T * vout T C))) : list (vop T) := map (fun e => fst (snd e)) (filter (fun e => fst e =? i) h).
End Spec.
