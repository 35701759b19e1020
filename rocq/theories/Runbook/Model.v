(** Model of the streaming runbooks of the benchmarks: their validation, their parsing, and the
    layers that turn tags into slots (diskann-benchmark-core/src/streaming/executors/bigann/,
    diskann-benchmark/src/utils/streaming.rs and index/streaming/managed.rs). *)
From Coq Require Import String ZArith List PeanoNat Bool.
Import ListNotations.
Local Open Scope nat_scope.
Local Open Scope list_scope.

(** A result, an error, or a panic (an assertion, an underflow or an [unwrap]). *)
Inductive outcome (A : Type) := Done (a : A) | Err | Panic.
Arguments Done {A}. Arguments Err {A}. Arguments Panic {A}.
Definition bind {A B} (o : outcome A) (f : A -> outcome B) : outcome B :=
  match o with Done a => f a | Err => Err | Panic => Panic end.
Notation "'let!' x := a 'in' b" := (bind a (fun x => b)) (at level 200, x pattern, right associativity).
Definition guard {A} (b : bool) (x : outcome A) : outcome A := if b then x else Panic.

(** ** validate.rs *)
(** [SimpleRange] and [Range<usize>]; 11-16. *)
Record range := mkRange { lo : nat; hi : nat }.
(** [SimpleRange::new]; 18-23. *)
Definition range_new (a b : nat) : range := mkRange a (Nat.max b a).
(** [len]; 25-27.  The subtraction underflows for a reversed range. *)
Definition range_len (r : range) : outcome nat := if lo r <=? hi r then Done (hi r - lo r) else Panic.
(** [contains]; 73-75. *)
Definition contains (r : range) (i : nat) : bool := (lo r <=? i) && (i <? hi r).
(** [strictly_contains]; 77-79. *)
Definition strictly_contains (r o : range) : bool := (lo r <=? lo o) && (hi o <=? hi r).
(** [overlaps]; 33-35. *)
Definition overlaps (r o : range) : bool := contains r (lo o) || contains o (lo r).
(** [Remaining]; 92-97. *)
Inductive remaining := RNone | ROne (r : range) | RTwo (a b : range).
(** [remove]; 37-71. *)
Definition range_remove (r o : range) : outcome remaining :=
  let! lo_ := range_len o in
  if lo_ =? 0 then (let! ls := range_len r in Done (if ls =? 0 then RNone else ROne r)) else
  if negb (overlaps r o) then Done (ROne r)
  else if strictly_contains o r then Done RNone
  else if lo o <=? lo r then Done (ROne (range_new (hi o) (hi r)))
  else if hi r <=? hi o then Done (ROne (range_new (lo r) (lo o)))
  else guard (strictly_contains r o) (Done (RTwo (range_new (lo r) (lo o)) (range_new (hi o) (hi r)))).

(** [Slot]; 274-286. *)
Inductive slot := Back | Before (i : nat) | At (i : nat).
(** [Validate]; 109-114. *)
Record validator := mkV { v_active : list range; v_max_active : nat; v_current : nat; v_max_tag : option nat }.
(** [Validate::new]; 117-124. *)
Definition v_new : validator := mkV [] 0 0 None.
(** [update_max]; 149-154. *)
Definition update_max (m : option nat) (tag : nat) : option nat := match m with Some x => Some (Nat.max x tag) | None => Some tag end.
(** [compact]; 160-190.  The loop in place with its read and write positions, as a recursion over
    the ranges still to read with the range at the write position in hand. *)
Fixpoint compact_from (w : range) (rest : list range) : outcome (list range) :=
  match rest with
  | [] => Done [w]
  | r :: rest =>
    if hi w =? lo r then compact_from (mkRange (lo w) (hi r)) rest
    else guard (hi w <? lo r) (let! l := compact_from r rest in Done (w :: l))
  end.
Definition compact (l : list range) : outcome (list range) := match l with [] => Done [] | w :: rest => compact_from w rest end.
(** [find]; 192-202. *)
Fixpoint find_from (i : nat) (l : list range) (tags : range) : slot :=
  match l with
  | [] => Back
  | r :: l => if overlaps tags r then At i else if hi tags <=? lo r then Before i else find_from (S i) l tags
  end.
Definition find (l : list range) (tags : range) : slot := find_from 0 l tags.
(** [Vec::insert], [Vec::remove] and [splice] of one element. *)
Definition insert_at {A} (i : nat) (x : list A) (l : list A) : list A := firstn i l ++ x ++ skipn i l.
Definition splice_at {A} (i : nat) (x : list A) (l : list A) : list A := firstn i l ++ x ++ skipn (S i) l.
(** [Validate::insert]; 204-220. *)
Definition v_insert (v : validator) (tags : range) : outcome validator :=
  let! active := (match find (v_active v) tags with
                  | Back => Done (v_active v ++ [tags])
                  | Before i => Done (insert_at i [tags] (v_active v))
                  | At _ => Err
                  end) in
  let! n := range_len tags in
  let current := v_current v + n in
  let max_active := Nat.max (v_max_active v) current in
  let max_tag := match hi tags with 0 => v_max_tag v | S tag => update_max (v_max_tag v) tag end in
  let! active := compact active in
  Done (mkV active max_active current max_tag).
(** [Validate::replace]; 222-239. *)
Definition v_replace (v : validator) (tags : range) : outcome validator :=
  match find (v_active v) tags with
  | Back | Before _ => Err
  | At i =>
    match nth_error (v_active v) i with
    | None => Panic
    | Some r => if strictly_contains r tags then Done v else Err
    end
  end.
(** [Validate::delete]; 241-271. *)
Definition v_delete (v : validator) (tags : range) : outcome validator :=
  match find (v_active v) tags with
  | Back | Before _ => Err
  | At i =>
    match nth_error (v_active v) i with
    | None => Panic
    | Some current =>
      if negb (strictly_contains current tags) then Err else
      let! rem := range_remove current tags in
      let active := splice_at i (match rem with RNone => [] | ROne r => [r] | RTwo a b => [a; b] end) (v_active v) in
      let! n := range_len tags in
      guard (n <=? v_current v) (Done (mkV active (v_max_active v) (v_current v - n) (v_max_tag v)))
    end
  end.

(** ** runbook.rs *)
(** [Stage]; 244-271.  [P] is the type of paths. *)
Inductive stage (P : Type) :=
| Search (groundtruth : P)
| Insert (ids : range)
| Replace (offsets ids : range)
| Delete (ids : range).
Arguments Search {P}. Arguments Insert {P}. Arguments Replace {P}. Arguments Delete {P}.
(** [RunBook]; 23-30. *)
Record runbook (P : Type) := mkB { b_stages : list (stage P); b_max_points : nat; b_max_tag : option nat }.
Arguments mkB {P}. Arguments b_stages {P}. Arguments b_max_points {P}. Arguments b_max_tag {P}.
(** One stage of the validation ([Stream] for [Validate], validate.rs 288-314). *)
Definition v_stage {P} (v : validator) (s : stage P) : outcome validator :=
  match s with
  | Search _ => Done v
  | Insert ids => v_insert v ids
  | Replace _ ids => v_replace v ids
  | Delete ids => v_delete v ids
  end.
(** [RunBook::run_with_internal]; 186-241: any stream over the stages; [needs] and [maintain] come
    before each stage.  The outputs handed to [collect] are left out. *)
Fixpoint run_stages {P St} (needs : St -> bool) (maintain : St -> outcome St) (step : St -> stage P -> outcome St) (s : St) (stages : list (stage P)) : outcome St :=
  match stages with
  | [] => Done s
  | st :: stages =>
    let! s := (if needs s then maintain s else Done s) in
    let! s := step s st in
    run_stages needs maintain step s stages
  end.
(** [RunBook::new]; 143-158. *)
Definition runbook_new {P} (stages : list (stage P)) (max_points : nat) : outcome (runbook P) :=
  let! v := run_stages (fun _ => false) (fun v => Done v) v_stage v_new stages in
  Done (mkB stages (Nat.max max_points (v_max_active v)) (v_max_tag v)).

(** ** parsing.rs *)
(** A YAML value: a number with its i64 if it has one, a string, a mapping, or something else. *)
Inductive value := VInt (i : option Z) | VStr (s : string) | VMap (m : list (value * value)) | VOther.
(** [as usize]. *)
Definition usize (z : Z) : Z := (z mod 2 ^ 64)%Z.
(** [Mapping::get] of a string. *)
Fixpoint get (key : string) (m : list (value * value)) : option value :=
  match m with
  | [] => None
  | (VStr s, v) :: m => if String.eqb s key then Some v else get key m
  | _ :: m => get key m
  end.
(** [try_as] and [get_as]; 223-268. *)
Definition as_usize (v : value) : outcome nat := match v with VInt (Some z) => Done (Z.to_nat (usize z)) | _ => Err end.
Definition get_usize (key : string) (m : list (value * value)) : outcome nat := match get key m with Some v => as_usize v | None => Err end.
(** [Operation]; 163-168. *)
Inductive operation := OSearch | OInsert (r : range) | OReplace (offsets ids : range) | ODelete (r : range).
(** [TryFrom<&Mapping>]; 298-326, 335-355, 363-383: both ends, the first below the second. *)
Definition get_range (a b : string) (m : list (value * value)) : outcome range :=
  let! x := get_usize a m in let! y := get_usize b m in if x <? y then Done (mkRange x y) else Err.
Definition get_replace (m : list (value * value)) : outcome operation :=
  let! i := get_usize "ids_start" m in let! i' := get_usize "ids_end" m in
  let! t := get_usize "tags_start" m in let! t' := get_usize "tags_end" m in
  if negb (i <? i') then Err else if negb (t <? t') then Err else Done (OReplace (mkRange i i') (mkRange t t')).
(** [handle_stage] and [Kind::try_parse]; 137-151, 278-288. *)
Definition handle_stage (v : value) : outcome operation :=
  match v with
  | VMap m =>
    match get "operation" m with
    | Some (VStr kind) =>
      if String.eqb kind "search" then Done OSearch
      else if String.eqb kind "insert" then (let! r := get_range "start" "end" m in Done (OInsert r))
      else if String.eqb kind "replace" then get_replace m
      else if String.eqb kind "delete" then (let! r := get_range "start" "end" m in Done (ODelete r))
      else Err
    | _ => Err
    end
  | _ => Err
  end.
(** [parse_stages]; 100-135. *)
Fixpoint parse_keys (m : list (value * value)) (max_points : option nat) (stages : list (Z * operation)) : outcome (option nat * list (Z * operation)) :=
  match m with
  | [] => Done (max_points, stages)
  | (k, v) :: m =>
    match k with
    | VStr s =>
      if String.eqb s "max_pts" then (let! n := as_usize v in parse_keys m (Some n) stages)
      else if String.eqb s "gt_url" then parse_keys m max_points stages
      else Err
    | VInt (Some z) => let! op := handle_stage v in parse_keys m max_points (stages ++ [(usize z, op)])
    | _ => Err
    end
  end.
(** [sort_by_key] (stable), as an insertion sort. *)
Fixpoint sort_insert {A} (x : Z * A) (l : list (Z * A)) : list (Z * A) :=
  match l with
  | [] => [x]
  | y :: l' => if (fst x <=? fst y)%Z then x :: l else y :: sort_insert x l'
  end.
Definition sort_by_key {A} (l : list (Z * A)) : list (Z * A) := fold_right sort_insert [] l.
(** The stages with their ground truth; 66-88. *)
Fixpoint resolve {P} (find_groundtruth : Z -> outcome P) (l : list (Z * operation)) : outcome (list (stage P)) :=
  match l with
  | [] => Done []
  | (i, op) :: l =>
    let! s := (match op with
               | OSearch => let! p := find_groundtruth i in Done (Search p)
               | OInsert r => Done (Insert r)
               | OReplace o r => Done (Replace o r)
               | ODelete r => Done (Delete r)
               end) in
    let! l := resolve find_groundtruth l in Done (s :: l)
  end.
(** [load_mapping]; 21-91, with the mapping of the file given. *)
Definition load {P} (find_groundtruth : Z -> outcome P) (dataset : string) (file : list (value * value)) : outcome (runbook P) :=
  match get dataset file with
  | Some (VMap m) =>
    let! raw := parse_keys m None [] in
    match fst raw with
    | None => Err
    | Some max_points =>
      let! stages := resolve find_groundtruth (sort_by_key (snd raw)) in
      runbook_new stages max_points
    end
  | _ => Err
  end.

(** ** utils/streaming.rs of diskann-benchmark *)
(** [TagSlotManager]; 11-24.  Hash maps as functions, the hash set as a list without repetition. *)
Record manager := mkT { t_empty : list nat; t_deleted : list nat; t_slot : nat -> option nat; t_tag : nat -> option nat; t_capacity : nat }.
Definition set {A} (f : nat -> option A) (k : nat) (v : option A) : nat -> option A := fun x => if x =? k then v else f x.
(** [new]; 28-36.  [max_capacity - 1] underflows for 0. *)
Definition t_new (capacity : nat) : outcome manager := match capacity with 0 => Panic | S n => Done (mkT (seq 0 n) [] (fun _ => None) (fun _ => None) capacity) end.
(** [get_n_empty_slots]; 42-56. *)
Definition get_empty (t : manager) (n : nat) : outcome (list nat * manager) :=
  if length (t_empty t) <? n then Err
  else Done (firstn n (t_empty t), mkT (skipn n (t_empty t)) (t_deleted t) (t_slot t) (t_tag t) (t_capacity t)).
(** The tags of a [Range]. *)
Definition tags_of (r : range) : list nat := seq (lo r) (hi r - lo r).
(** [find_slots_by_tags]; 77-89. *)
Fixpoint find_slots (t : manager) (tags : list nat) : outcome (list nat) :=
  match tags with
  | [] => Done []
  | x :: tags => match t_slot t x with None => Err | Some s => let! l := find_slots t tags in Done (s :: l) end
  end.
(** [assign_slots_to_tags]; 95-114. *)
Definition assign1 (t : manager) (p : nat * nat) : manager :=
  mkT (t_empty t) (t_deleted t) (set (t_slot t) (fst p) (Some (snd p))) (set (t_tag t) (snd p) (Some (fst p))) (t_capacity t).
Definition assign (t : manager) (r : range) (slots : list nat) : outcome manager :=
  if negb (length (tags_of r) =? length slots) then Err else Done (fold_left assign1 (combine (tags_of r) slots) t).
(** [mark_tags_deleted]; 120-132. *)
Fixpoint mark_deleted (t : manager) (tags : list nat) : outcome manager :=
  match tags with
  | [] => Done t
  | x :: tags =>
    match t_slot t x with
    | None => Err
    | Some s => mark_deleted (mkT (t_empty t) (if existsb (Nat.eqb s) (t_deleted t) then t_deleted t else t_deleted t ++ [s]) (t_slot t) (t_tag t) (t_capacity t)) tags
    end
  end.
(** [recycle_tags]; 139-152. *)
Fixpoint recycle (t : manager) (tags : list nat) : outcome manager :=
  match tags with
  | [] => Done t
  | x :: tags =>
    match t_slot t x with
    | None => Err
    | Some s => recycle (mkT (t_empty t ++ [s]) (t_deleted t) (set (t_slot t) x None) (set (t_tag t) s None) (t_capacity t)) tags
    end
  end.
(** [consolidate]; 162-173.  [drain] is the order in which the hash set yields its elements. *)
Definition consolidate1 (t : manager) (s : nat) : manager :=
  mkT (t_empty t ++ [s]) (t_deleted t) (match t_tag t s with Some x => set (t_slot t) x None | None => t_slot t end) (set (t_tag t) s None) (t_capacity t).
Definition consolidate (drain : list nat -> list nat) (t : manager) : manager :=
  fold_left consolidate1 (drain (t_deleted t)) (mkT (t_empty t) [] (t_slot t) (t_tag t) (t_capacity t)).

(** ** managed.rs and withdata.rs *)
(** What the layers ask of the index: vectors, as offsets into the dataset, into slots. *)
Inductive request := QSearch (groundtruth : list (list nat)) | QInsert (data slots : list nat) | QReplace (data slots : list nat) | QDelete (slots : list nat) | QMaintain.
(** [SlotReclaim]; 21-32. *)
Inductive reclaim := Immediate | Deferred.
(** [Managed] with the requests sent so far, oldest first. *)
Record managed := mkG { g_manager : manager; g_log : list request }.
(** [Matrix::subview] of the dataset of [rows] rows (diskann-utils/src/views.rs 558-573), [unwrap]ped
    (withdata.rs 87 and 92); one or more columns. *)
Definition subview (rows : nat) (r : range) : outcome (list nat) := if (lo r <=? hi r) && (hi r <=? rows) then Done (tags_of r) else Panic.
(** The translation of the ground truth; 106-118. *)
Fixpoint translate (t : manager) (rows : list (list nat)) : outcome (list (list nat)) :=
  match rows with
  | [] => Done []
  | r :: rows => let! r := find_slots t r in let! rows := translate t rows in Done (r :: rows)
  end.
Section Managed.
  (** The number of vectors of the dataset, the loader of ground truths, the policy with the
      test of the threshold (number deleted, number active), the order of the hash set. *)
  Context {P : Type} (rows : nat) (load_groundtruth : P -> outcome (list (list nat))) (policy : reclaim) (over : nat -> nat -> bool) (drain : list nat -> list nat).
  (** Stages through [WithData] (80-108) and [Managed] (102-162); the index accepts every request. *)
  Definition g_stage (g : managed) (s : stage P) : outcome managed :=
    let t := g_manager g in
    match s with
    | Search p =>
      let! gt := load_groundtruth p in
      let! gt := translate t gt in
      Done (mkG t (g_log g ++ [QSearch gt]))
    | Insert ids =>
      let! data := subview rows ids in
      let! st := get_empty t (length (tags_of ids)) in
      let! t := assign (snd st) ids (fst st) in
      Done (mkG t (g_log g ++ [QInsert data (fst st)]))
    | Replace offsets ids =>
      let! data := subview rows offsets in
      let! slots := find_slots t (tags_of ids) in
      Done (mkG t (g_log g ++ [QReplace data slots]))
    | Delete ids =>
      let! slots := find_slots t (tags_of ids) in
      let! t := (match policy with Immediate => recycle t (tags_of ids) | Deferred => mark_deleted t (tags_of ids) end) in
      Done (mkG t (g_log g ++ [QDelete slots]))
    end.
  (** [maintain] and [needs_maintenance]; 158-176.  [num_active] is the capacity minus the empty slots. *)
  Definition g_maintain (g : managed) : outcome managed := Done (mkG (consolidate drain (g_manager g)) (g_log g ++ [QMaintain])).
  Definition g_needs (g : managed) : bool :=
    match policy with
    | Immediate => false
    | Deferred => over (length (t_deleted (g_manager g))) (t_capacity (g_manager g) - length (t_empty (g_manager g)))
    end.
  Definition g_run (capacity : nat) (stages : list (stage P)) : outcome managed :=
    let! t := t_new capacity in
    run_stages g_needs g_maintain g_stage (mkG t []) stages.
End Managed.
