(** Model of diskann-tools/src/utils/compute_bitmap.rs: the bitmap of matching documents for each
    query of a ground truth run.

    A [BitSet] is the list of its members. A [HashMap] or [BTreeMap] is a list of entries; the code
    only looks entries up, filters them by key or merges all of them, so their order does not matter.
    [None] stands for an [Err] and for the panic of flattening a null. The rayon iterators produce
    their results in order, and only the choice between several errors depends on the schedule. *)
From Verif.Lib Require Import Base Bytes F64.
From Verif.Keys Require Import Model.
From Verif.Labels Require Import Model.
Local Open Scope N_scope.

Definition bitset := list N.
Definition mem (x : N) (b : bitset) : bool := existsb (N.eqb x) b.
(** [BitSet::intersection], [union], [difference] *)
Definition inter (a b : bitset) : bitset := filter (fun x => mem x b) a.
Definition join (a b : bitset) : bitset := a ++ b.
Definition diff (a b : bitset) : bitset := filter (fun x => negb (mem x b)) a.

(** [PartialEq for AttributeValue]; attribute.rs 98-111. Doubles are compared as bits; no map of the
    inverted index has a double as its key. *)
Definition value_eqb (a b : value) : bool :=
  match a, b with
  | VBool x, VBool y => Bool.eqb x y | VInt x, VInt y => (x =? y)%Z | VReal x, VReal y => x =? y
  | VStr x, VStr y => beqb x y | VEmpty, VEmpty => true | _, _ => false
  end.
(** [discriminant(value)] *)
Definition kind (v : value) : N := match v with VEmpty => 0 | VBool _ => 1 | VInt _ => 2 | VReal _ => 3 | VStr _ => 4 end.

Definition entries (K : Type) := list (K * bitset).
(** [map.entry(key).or_default().push(id)] *)
Fixpoint upsert {K} (eqb : K -> K -> bool) (k : K) (id : N) (m : entries K) : entries K :=
  match m with
  | [] => [(k, [id])]
  | (k', ids) :: m => if eqb k' k then (k', ids ++ [id]) :: m else (k', ids) :: upsert eqb k id m
  end.
(** [map.get(key)], the empty set when absent *)
Fixpoint get {K} (eqb : K -> K -> bool) (k : K) (m : entries K) : bitset :=
  match m with [] => [] | (k', ids) :: m => if eqb k' k then ids else get eqb k m end.
(** the ids of the entries whose key passes *)
Definition select {K} (p : K -> bool) (m : entries K) : bitset := flat_map snd (filter (fun e => p (fst e)) m).

(** compute_bitmap.rs 70-72 and 110-112 *)
Inductive accel := Inverted (m : entries value) | Tree (m : entries f64).

(** [universe]; compute_bitmap.rs 79-85 and 119-125 *)
Definition universe (a : accel) : bitset :=
  match a with Inverted m => select (fun _ => true) m | Tree m => select (fun _ => true) m end.

(** [OrderedFloat::new]; compute_bitmap.rs 36-43 *)
Definition ordered (x : f64) : option f64 := if f64_nan x then None else Some x.

(** [BTreeMap::range]; compute_bitmap.rs 156-190 *)
Definition in_range (op : range_op) (t k : f64) : bool :=
  match op with Lt => f64_lt k t | Lte => f64_le k t | Gt => f64_lt t k | Gte => f64_le t k end.

(** [eval]; compute_bitmap.rs 87-107 and 127-191 *)
Definition accel_eval (a : accel) (op : cmp) : option bitset :=
  match a, op with
  | Inverted m, CEq v => match value_of_json v with Some v => Some (get value_eqb v m) | None => None end
  | Inverted m, CNe v => match value_of_json v with Some v => Some (select (fun k => negb (value_eqb k v)) m) | None => None end
  | Inverted m, CRange _ _ => None
  | Tree m, CEq v => match as_f64 v with
                     | Some x => match ordered x with Some x => Some (get f64_eq x m) | None => None end
                     | None => None
                     end
  | Tree m, CNe v => match as_f64 v with
                     | Some x => match ordered x with Some x => Some (select (fun k => negb (f64_eq k x)) m) | None => None end
                     | None => None
                     end
  | Tree m, CRange op t => match ordered t with Some t => Some (select (in_range op t) m) | None => None end
  end.

(** compute_bitmap.rs 195-202 *)
Definition prepend_separator (f : bytes) : bytes := match f with c :: _ => if c =? 46 then f else 46 :: f | [] => 46 :: f end.

(** compute_bitmap.rs 205-212 *)
Fixpoint compute_label_set (e : expr) : list bytes :=
  match e with
  | ENot e => compute_label_set e
  | EAnd l => flat_map compute_label_set l
  | EOr l => flat_map compute_label_set l
  | ECmp f _ => [f]
  end.

(** compute_bitmap.rs 215-236 *)
Fixpoint universe_rest (u : bitset) (labels : list bytes) (accs : list (bytes * accel)) : bitset :=
  match labels with
  | [] => u
  | f :: labels => universe_rest (match assoc f accs with Some a => inter u (universe a) | None => u end) labels accs
  end.
Definition compute_universe (labels : list bytes) (accs : list (bytes * accel)) : bitset :=
  match labels with
  | [] => []
  | f :: labels => universe_rest (match assoc f accs with Some a => universe a | None => [] end) labels accs
  end.

(** compute_bitmap.rs 244-294 *)
Definition combine_all (f : expr -> option bitset) (op : bitset -> bitset -> bitset) :=
  fix go (acc : option bitset) (l : list expr) : option bitset :=
    match l with
    | [] => Some (match acc with None => [] | Some b => b end)
    | e :: l => match f e with
                | None => None
                | Some b => go (Some (match acc with None => b | Some a => op a b end)) l
                end
    end.
Fixpoint eval_query (accs : list (bytes * accel)) (e : expr) : option bitset :=
  match e with
  | EAnd l => combine_all (eval_query accs) inter None l
  | EOr l => combine_all (eval_query accs) join None l
  | ENot s => match eval_query accs s with
              | None => None
              | Some b => Some (diff (compute_universe (map prepend_separator (compute_label_set e)) accs) b)
              end
  | ECmp f op => match assoc (prepend_separator f) accs with Some a => accel_eval a op | None => Some [] end
  end.

(** A flattened document as a map. *)
Definition attrs := list (bytes * value).
(** compute_bitmap.rs 296-311 *)
Fixpoint compute_inverted (key : bytes) (ids : list N) (labels : list attrs) (m : entries value) : entries value :=
  match ids, labels with
  | id :: ids, l :: labels =>
    compute_inverted key ids labels (match assoc key l with Some v => upsert value_eqb v id m | None => m end)
  | _, _ => m
  end.
(** compute_bitmap.rs 313-349 *)
Definition tree_key (v : value) : option f64 :=
  match v with
  | VReal x => ordered x
  | VInt z => if (f64_to_i64 (f64_of_Z z) =? z)%Z then ordered (f64_of_Z z) else None
  | _ => None
  end.
Fixpoint compute_tree (key : bytes) (ids : list N) (labels : list attrs) (m : entries f64) : option (entries f64) :=
  match ids, labels with
  | id :: ids, l :: labels =>
    match assoc key l with
    | Some v => match tree_key v with Some x => compute_tree key ids labels (upsert f64_eq x id m) | None => None end
    | None => compute_tree key ids labels m
    end
  | _, _ => Some m
  end.

(** compute_bitmap.rs 353-368: a newer representative hides the older one. *)
Fixpoint global_doc (g l : attrs) : option attrs :=
  match l with
  | [] => Some g
  | (k, v) :: l => match assoc k g with
                   | Some v' => if kind v' =? kind v then global_doc ((k, v) :: g) l else None
                   | None => global_doc ((k, v) :: g) l
                   end
  end.
Fixpoint global_labels (g : attrs) (ls : list attrs) : option attrs :=
  match ls with [] => Some g | l :: ls => match global_doc g l with Some g => global_labels g ls | None => None end end.

(** compute_bitmap.rs 370-387 *)
Definition compute_accelerator (key : bytes) (v : value) (ids : list N) (labels : list attrs) : option accel :=
  match v with
  | VStr _ | VBool _ => Some (Inverted (compute_inverted key ids labels []))
  | VInt _ | VReal _ => match compute_tree key ids labels [] with Some m => Some (Tree m) | None => None end
  | VEmpty => None
  end.

(** [.map(f).collect::<Result<Vec<_>, _>>()] *)
Fixpoint try_map {A B} (f : A -> option B) (l : list A) : option (list B) :=
  match l with
  | [] => Some []
  | a :: l => match f a with None => None | Some b => match try_map f l with None => None | Some bs => Some (b :: bs) end end
  end.

(** compute_bitmap.rs 402-419 *)
Fixpoint to_map (m l : attrs) : option attrs :=
  match l with
  | [] => Some m
  | (k, v) :: l => match assoc k m with Some _ => None | None => to_map ((k, v) :: m) l end
  end.
Definition flat (j : json) : option attrs := match flatten [46] [] j with Some l => to_map [] l | None => None end.

(** compute_bitmap.rs 389-455 *)
Definition compute_query_bitmaps (docs : list (N * json)) (queries : list (N * expr)) : option (list bitset) :=
  match try_map (fun d => flat (snd d)) docs with
  | None => None
  | Some labels =>
    match global_labels [] labels with
    | None => None
    | Some g =>
      match try_map (fun e => match compute_accelerator (fst e) (snd e) (map fst docs) labels with
                              | Some a => Some (fst e, a) | None => None end) g with
      | None => None
      | Some accs => try_map (fun q => eval_query accs (snd q)) queries
      end
    end
  end.
