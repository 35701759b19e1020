(** What a runbook means: a history of sets of tags. *)
From Coq Require Import String ZArith List PeanoNat Bool.
From Verif.Runbook Require Import Model.
Import ListNotations.
Local Open Scope nat_scope.
Local Open Scope list_scope.

Definition within (r : range) (t : nat) : Prop := lo r <= t < hi r.
(** The tags in the index after the stages, from the tags [L] before. *)
Fixpoint live_from {P} (L : nat -> Prop) (stages : list (stage P)) : nat -> Prop :=
  match stages with
  | [] => L
  | Insert r :: stages => live_from (fun t => L t \/ within r t) stages
  | Delete r :: stages => live_from (fun t => L t /\ ~ within r t) stages
  | _ :: stages => live_from L stages
  end.
Definition live {P} (stages : list (stage P)) : nat -> Prop := live_from (fun _ => False) stages.
(** A stage makes sense for a set of tags: only new tags are inserted, only present ones replaced or deleted. *)
Definition sensible {P} (L : nat -> Prop) (s : stage P) : Prop :=
  match s with
  | Search _ => True
  | Insert r => forall t, within r t -> ~ L t
  | Replace _ r | Delete r => forall t, within r t -> L t
  end.
Definition valid {P} (stages : list (stage P)) : Prop := forall before s after, stages = before ++ s :: after -> sensible (live before) s.
(** The ranges of a stage are not empty. *)
Definition proper {P} (s : stage P) : Prop :=
  match s with
  | Search _ => True
  | Insert r | Delete r => lo r < hi r
  | Replace o r => lo o < hi o /\ lo r < hi r
  end.
(** [n] is the number of tags in [L]. *)
Definition counts (L : nat -> Prop) (n : nat) : Prop := exists l, NoDup l /\ (forall t, In t l <-> L t) /\ length l = n.
Definition inserted {P} (stages : list (stage P)) (t : nat) : Prop := exists r, In (Insert r) stages /\ within r t.
(** The smallest bound on the number of tags at any time that is at least [m]. *)
Definition peak {P} (stages : list (stage P)) (m n : nat) : Prop :=
  m <= n /\ (forall before after k, stages = before ++ after -> counts (live before) k -> k <= n) /\
  (n = m \/ exists before after, stages = before ++ after /\ counts (live before) n).
Definition greatest (L : nat -> Prop) (o : option nat) : Prop :=
  match o with None => forall t, ~ L t | Some t => L t /\ forall u, L u -> u <= t end.

(** ** Files *)
(** The integer keys of a mapping, as the code reads them. *)
Definition int_keys (m : list (value * value)) : list Z := flat_map (fun kv => match fst kv with VInt (Some z) => [usize z] | _ => [] end) m.
(** An index with the operation of an entry of a mapping. *)
Definition entry (m : list (value * value)) (p : Z * operation) : Prop := exists z v, In (VInt (Some z), v) m /\ usize z = fst p /\ handle_stage v = Done (snd p).
(** The stage that an operation becomes. *)
Definition turned {P} (find_groundtruth : Z -> outcome P) (p : Z * operation) (s : stage P) : Prop :=
  match snd p with
  | OSearch => exists g, find_groundtruth (fst p) = Done g /\ s = Search g
  | OInsert r => s = Insert r
  | OReplace o r => s = Replace o r
  | ODelete r => s = Delete r
  end.

(** ** The index behind the tags *)
(** The vector (an offset into the dataset) of each tag after the stages. *)
Definition effect {P} (C : nat -> option nat) (s : stage P) : nat -> option nat :=
  match s with
  | Search _ => C
  | Insert r => fun t => if (lo r <=? t) && (t <? hi r) then Some t else C t
  | Replace o r => fun t => if (lo r <=? t) && (t <? hi r) then Some (lo o + (t - lo r)) else C t
  | Delete r => fun t => if (lo r <=? t) && (t <? hi r) then None else C t
  end.
Definition content {P} (stages : list (stage P)) : nat -> option nat := fold_left effect stages (fun _ => None).
(** A slot of the index is free, holds a vector, or holds one that is deleted but not yet cleaned up. *)
Inductive cell := Free | Held (v : nat) | Dead.
Definition put (c : nat -> cell) (s : nat) (x : cell) : nat -> cell := fun y => if y =? s then x else c y.
(** What a request does to the slots. *)
Definition serve (policy : reclaim) (c : nat -> cell) (q : request) : nat -> cell :=
  match q with
  | QSearch _ => c
  | QInsert data slots | QReplace data slots => fold_left (fun c p => put c (fst p) (Held (snd p))) (combine slots data) c
  | QDelete slots => fold_left (fun c s => put c s (match policy with Immediate => Free | Deferred => Dead end)) slots c
  | QMaintain => fun s => match c s with Dead => Free | x => x end
  end.
Definition holds (c : nat -> cell) (s : nat) : Prop := exists v, c s = Held v.
(** What an index may be asked: insertions into free slots, everything else on slots that hold a vector. *)
Definition legit (c : nat -> cell) (q : request) : Prop :=
  match q with
  | QSearch gt => Forall (Forall (holds c)) gt
  | QInsert data slots => NoDup slots /\ Forall (fun s => c s = Free) slots /\ length data = length slots
  | QReplace data slots => NoDup slots /\ Forall (holds c) slots /\ length data = length slots
  | QDelete slots => NoDup slots /\ Forall (holds c) slots
  | QMaintain => True
  end.
Definition cells (policy : reclaim) (log : list request) : nat -> cell := fold_left (serve policy) log (fun _ => Free).
Definition all_legit (policy : reclaim) (log : list request) : Prop := forall before q after, log = before ++ q :: after -> legit (cells policy before) q.
(** Vectors exist for what is inserted or replaced, one for each tag. *)
Definition supplied {P} (rows : nat) (s : stage P) : Prop :=
  match s with
  | Insert r => hi r <= rows
  | Replace o r => hi o <= rows /\ hi o - lo o = hi r - lo r
  | _ => True
  end.
(** The ground truth of each search mentions only tags that are present. *)
Definition truthful {P} (load_groundtruth : P -> outcome (list (list nat))) (stages : list (stage P)) : Prop :=
  forall before p after, stages = before ++ Search p :: after -> exists gt, load_groundtruth p = Done gt /\ Forall (Forall (live before)) gt.
(** No tag is inserted twice. *)
Definition once {P} (stages : list (stage P)) : Prop := forall before r after, stages = before ++ Insert r :: after -> forall t, within r t -> ~ inserted before t.
(** Enough slots.  If slots are reused at once: one more than the tags present at any time.
    Otherwise, with no tag inserted twice: one more than the tags ever inserted, or one more than the
    tags present at any time and the deleted ones that do not call for maintenance. *)
Definition roomy {P} (policy : reclaim) (over : nat -> nat -> bool) (capacity : nat) (stages : list (stage P)) : Prop :=
  0 < capacity /\
  match policy with
  | Immediate => forall before after k, stages = before ++ after -> counts (live before) k -> k < capacity
  | Deferred => once stages /\
    ((forall k, counts (inserted stages) k -> k < capacity) \/
     exists slack, (forall deleted active, active <= capacity -> over deleted active = false -> deleted <= slack) /\
       forall before after k, stages = before ++ after -> counts (live before) k -> k + slack < capacity)
  end.
