(** Model of the two vector stores of the bf-tree provider: full precision and quantized
    (diskann-bftree/src/provider.rs 477-529 and 650-713, vectors.rs 115-225, quant.rs 81-206).
    Trees map ids to slots (C117 has the keys as bytes); single accesses are atomic; inserts succeed. *)
From Verif.Lib Require Import Base.
Local Open Scope nat_scope.

(** What a read of the tree says: [NotFound], [Deleted] or [Found]. *)
Inductive slot (B : Type) := Missing | Dead | Found (b : B).
Arguments Missing {B}. Arguments Dead {B}. Arguments Found {B}.
Inductive vop (T : Type) := SetEl (id : nat) (v : list T) | Delete (id : nat) | Full (id : nat) | Quant (id : nat).
Arguments SetEl {T}. Arguments Delete {T}. Arguments Full {T}. Arguments Quant {T}.
Inductive vout (T C : Type) := VDone | VErr | VFull (v : option (list T)) | VQuant (c : option C).
Arguments VDone {T C}. Arguments VErr {T C}. Arguments VFull {T C}. Arguments VQuant {T C}.
Inductive vpc (T : Type) := VIdle | VHeld (o : vop T) | VHalf (o : vop T) | VRelease (id : nat).
Arguments VIdle {T}. Arguments VHeld {T}. Arguments VHalf {T}. Arguments VRelease {T}.
(** A thread takes a step, or the tree forgets a deleted entry of one of the stores. *)
Inductive move := Thread (i : nat) | ForgetFull (id : nat) | ForgetQuant (id : nat).

Section Vectors.
  (** The quantizer's [compress] may fail; the dimension, the number of ids, the stripes. *)
  Context {T C : Type} (compress : list T -> option C) (dim total : nat) (stripe : nat -> nat).
  Record vthread := mkVT { v_prog : list (vop T); v_pc : vpc T }.
  Record vstate := mkV { v_full : nat -> slot (list T); v_quant : nat -> slot C; v_lock : nat -> option nat; v_thr : nat -> vthread; v_hist : list (nat * (vop T * vout T C)) }.
  Definition vupd {B} (f : nat -> B) (i : nat) (b : B) : nat -> B := fun j => if i =? j then b else f j.
  Definition vtarget (o : vop T) : nat := match o with SetEl id _ | Delete id | Full id | Quant id => id end.
  (** [Deleted] and [NotFound] are both transient errors: no vector; vectors.rs 184-211. *)
  Definition found {B} (x : slot B) : option B := match x with Found b => Some b | _ => None end.
  Definition forget {B} (f : nat -> slot B) (id : nat) : nat -> slot B := match f id with Dead => vupd f id Missing | _ => f end.
  Definition vstep (s : vstate) (i : nat) : vstate :=
    let th := v_thr s i in
    let log o r := v_hist s ++ [(i, (o, r))] in
    let go f q l th h := mkV f q l (vupd (v_thr s) i th) h in
    match v_pc th with
    | VIdle =>
        match v_prog th with
        | [] => s
        | Full id :: rest => go (v_full s) (v_quant s) (v_lock s) (mkVT rest VIdle) (log (Full id) (VFull (found (v_full s id))))
        | Quant id :: rest => go (v_full s) (v_quant s) (v_lock s) (mkVT rest VIdle) (log (Quant id) (VQuant (found (v_quant s id))))
        | o :: rest =>
            match v_lock s (stripe (vtarget o)) with
            | Some _ => s
            | None => go (v_full s) (v_quant s) (vupd (v_lock s) (stripe (vtarget o)) (Some i)) (mkVT rest (VHeld o)) (v_hist s)
            end
        end
    | VHeld (SetEl id v) =>
        (** provider.rs 672-675, vectors.rs 122-141: the full vector; the answer is known as [compress] is a function *)
        if (length v =? dim) && (id <? total) then
          go (vupd (v_full s) id (Found v)) (v_quant s) (v_lock s) (mkVT (v_prog th) (VHalf (SetEl id v))) (log (SetEl id v) (match compress v with Some _ => VDone | None => VErr end))
        else go (v_full s) (v_quant s) (v_lock s) (mkVT (v_prog th) (VRelease id)) (log (SetEl id v) VErr)
    | VHeld (Delete id) =>
        (** provider.rs 501 *)
        go (vupd (v_full s) id Dead) (v_quant s) (v_lock s) (mkVT (v_prog th) (VHalf (Delete id))) (log (Delete id) VDone)
    | VHalf (SetEl id v) =>
        (** provider.rs 678-684, quant.rs 177-206 *)
        go (v_full s) (match compress v with Some c => vupd (v_quant s) id (Found c) | None => v_quant s end) (v_lock s) (mkVT (v_prog th) (VRelease id)) (v_hist s)
    | VHalf (Delete id) =>
        (** provider.rs 502 *)
        go (v_full s) (vupd (v_quant s) id Dead) (v_lock s) (mkVT (v_prog th) (VRelease id)) (v_hist s)
    | VHeld o | VHalf o => go (v_full s) (v_quant s) (v_lock s) (mkVT (v_prog th) (VRelease (vtarget o))) (v_hist s)
    | VRelease id => go (v_full s) (v_quant s) (vupd (v_lock s) (stripe id) None) (mkVT (v_prog th) VIdle) (v_hist s)
    end.
  Definition vmove (s : vstate) (m : move) : vstate :=
    match m with
    | Thread i => vstep s i
    | ForgetFull id => mkV (forget (v_full s) id) (v_quant s) (v_lock s) (v_thr s) (v_hist s)
    | ForgetQuant id => mkV (v_full s) (forget (v_quant s) id) (v_lock s) (v_thr s) (v_hist s)
    end.
  Definition vrun (s : vstate) (ms : list move) : vstate := fold_left vmove ms s.
  Definition vinit (progs : list (list (vop T))) : vstate := mkV (fun _ => Missing) (fun _ => Missing) (fun _ => None) (fun i => mkVT (nth i progs []) VIdle) [].
End Vectors.
