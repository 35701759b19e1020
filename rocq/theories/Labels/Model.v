(** Model of diskann-label-filter: JSON labels and filters (serde_json values), the filter
    language (parser/ast.rs, parser/query_parser.rs, parser/evaluator.rs), flattening
    (utils/flatten_utils.rs), the inverted index (kv_index/inverted_index_provider_impl.rs,
    generic_index.rs, posting_list_accessor_impl.rs) and its queries
    (kv_index/query_evaluator_impl.rs).

    Strings are UTF-8 bytes.  The key-value store is the map its trait describes
    (traits/kv_store_traits.rs), any operation of which may fail; the posting list is a set of
    u32 with a serialization that is a parameter of the model. *)
From Coq Require Import String Ascii.
From Verif.Lib Require Import Base Bytes F64.
From Verif.Keys Require Import Model.
Local Open Scope N_scope.

Definition str (s : string) : bytes := List.map N_of_ascii (list_ascii_of_string s).
Definition beqb (a b : bytes) : bool := if list_eq_dec N.eq_dec a b then true else false.

(** * serde_json values (default features: numbers u64, negative i64 or finite f64; objects are
    maps sorted by key, here lists without repeated keys) *)
Inductive jnum := JPos (n : N) | JNeg (z : Z) | JFlt (x : f64).
Inductive json := JNull | JBool (b : bool) | JNum (n : jnum) | JStr (s : bytes)
| JArr (l : list json) | JObj (m : list (bytes * json)).
(** [PartialEq for Number], [PartialEq for Value] *)
Definition num_eqb (a b : jnum) : bool :=
  match a, b with
  | JPos x, JPos y => x =? y | JNeg x, JNeg y => (x =? y)%Z | JFlt x, JFlt y => f64_eq x y | _, _ => false
  end.
Fixpoint json_eqb (a b : json) : bool :=
  match a, b with
  | JNull, JNull => true
  | JBool x, JBool y => Bool.eqb x y
  | JNum x, JNum y => num_eqb x y
  | JStr x, JStr y => beqb x y
  | JArr l, JArr m =>
    (fix go l m := match l, m with [], [] => true | x :: l, y :: m => json_eqb x y && go l m | _, _ => false end) l m
  | JObj l, JObj m =>
    (fix go l m := match l, m with [], [] => true | (k, x) :: l, (k', y) :: m => beqb k k' && json_eqb x y && go l m | _, _ => false end) l m
  | _, _ => false
  end.
(** [Value::as_f64] *)
Definition num_f64 (n : jnum) : f64 := match n with JPos n => f64_of_N n | JNeg z => f64_of_Z z | JFlt x => x end.
Definition as_f64 (j : json) : option f64 := match j with JNum n => Some (num_f64 n) | _ => None end.
Fixpoint assoc {A} (k : bytes) (m : list (bytes * A)) : option A :=
  match m with [] => None | (k', v) :: m => if beqb k k' then Some v else assoc k m end.
(** [AttributeValue::try_from(&Value)]; attribute.rs 169-191.  [as_i64], then [as_f64]. *)
Definition value_of_json (j : json) : option value :=
  match j with
  | JBool b => Some (VBool b)
  | JNum (JPos n) => Some (if n <=? 9223372036854775807 then VInt (Z.of_N n) else VReal (f64_of_N n))
  | JNum (JNeg z) => Some (VInt z)
  | JNum (JFlt x) => Some (VReal x)
  | JStr s => Some (VStr s)
  | _ => None
  end.

(** * Filters *)
(** ast.rs 11-38 *)
Inductive cmp := CEq (v : json) | CNe (v : json) | CRange (op : range_op) (t : f64).
Inductive expr := EAnd (l : list expr) | EOr (l : list expr) | ENot (e : expr) | ECmp (field : bytes) (op : cmp).

(** [str::split('.')] *)
Fixpoint split_dot (s : bytes) : list bytes :=
  match s with
  | [] => [[]]
  | c :: s => if c =? 46 then [] :: split_dot s
              else match split_dot s with [] => [[c]] | p :: ps => (c :: p) :: ps end
  end.
(** query_parser.rs 51-62 *)
Fixpoint get_keys (j : json) (ks : list bytes) : option json :=
  match ks with
  | [] => Some j
  | k :: ks => match j with
               | JObj m => match assoc k m with Some j => get_keys j ks | None => None end
               | _ => None
               end
  end.
Definition get_value_by_path (j : json) (path : bytes) : option json := get_keys j (split_dot path).
(** evaluator.rs 15-58 *)
Definition cmp_range (op : range_op) (x t : f64) : bool :=
  match op with Lt => f64_lt x t | Lte => f64_le x t | Gt => f64_lt t x | Gte => f64_le t x end.
Definition eval_cmp (op : cmp) (j : json) : bool :=
  match op with
  | CEq v => json_eqb j v
  | CNe v => negb (json_eqb j v)
  | CRange op t => match as_f64 j with Some x => cmp_range op x t | None => false end
  end.
Fixpoint eval (e : expr) (label : json) : bool :=
  match e with
  | EAnd l => forallb (fun e => eval e label) l
  | EOr l => existsb (fun e => eval e label) l
  | ENot e => negb (eval e label)
  | ECmp f op => match get_value_by_path label f with Some j => eval_cmp op j | None => false end
  end.

(** * The parser; query_parser.rs 67-197.  Errors: 15-26. *)
Inductive perr := NestingTooDeep | UnsupportedLogical (s : bytes) | UnsupportedComparison (s : bytes) | InvalidValue | ParseFailure.
Inductive parsed := POk (e : expr) | PErr (e : perr).
Definition allowed_depth : nat := 2.                                       (* 11 *)
Definition dollar (s : bytes) : bool := match s with c :: _ => c =? 36 | [] => false end.
(** 127-170: one operator of one field. *)
Definition parse_op (op : bytes) (v : json) : cmp + perr :=
  let range r := match as_f64 v with Some t => inl (CRange r t) | None => inr InvalidValue end in
  if beqb op (str "$eq") then inl (CEq v) else
  if beqb op (str "$ne") then inl (CNe v) else
  if beqb op (str "$lt") then range Lt else
  if beqb op (str "$lte") then range Lte else
  if beqb op (str "$gt") then range Gt else
  if beqb op (str "$gte") then range Gte else
  inr (UnsupportedComparison op).
Fixpoint parse_ops (field : bytes) (ops : list (bytes * json)) : list expr + perr :=
  match ops with
  | [] => inl []
  | (op, v) :: ops =>
    match parse_op op v with
    | inr e => inr e
    | inl c => match parse_ops field ops with inl l => inl (ECmp field c :: l) | inr e => inr e end
    end
  end.
(** 121-180: fields whose condition is not an object are skipped. *)
Fixpoint parse_fields (m : list (bytes * json)) : list expr + perr :=
  match m with
  | [] => inl []
  | (f, JObj ops) :: m =>
    match parse_ops f ops with
    | inr e => inr e
    | inl l => match parse_fields m with inl l' => inl (l ++ l')%list | inr e => inr e end
    end
  | _ :: m => parse_fields m
  end.
(** 113-118 *)
Fixpoint first_dollar (m : list (bytes * json)) : option bytes :=
  match m with [] => None | (f, _) :: m => if dollar f then Some f else first_dollar m end.
(** Structural recursion needs the lookups of "$and", "$or" and "$not" to happen inside one
    traversal of the object: [parse_at m k depth] parses the value of key [k] as the
    logical operator would, and the dispatch below is the one of 79-111. *)
Fixpoint parse (filter : json) (depth : nat) {struct filter} : parsed :=
  if (allowed_depth <? depth)%nat then PErr NestingTooDeep else
  match filter with
  | JObj m =>
    let subs := fix subs (l : list json) : list expr + perr :=
      match l with
      | [] => inl []
      | j :: l => match parse j (depth + 1) with
                  | PErr e => inr e
                  | POk e => match subs l with inl es => inl (e :: es) | inr e => inr e end
                  end
      end in
    (* [obj.get(k).and_then(as_array)], parsed element by element *)
    let at_array := fix at_array (k : bytes) (m : list (bytes * json)) : option (list expr + perr) :=
      match m with
      | [] => None
      | (k', v) :: m => if beqb k k' then match v with JArr l => Some (subs l) | _ => None end else at_array k m
      end in
    let at_key := fix at_key (k : bytes) (m : list (bytes * json)) : option parsed :=
      match m with [] => None | (k', v) :: m => if beqb k k' then Some (parse v (depth + 1)) else at_key k m end in
    match at_array (str "$and") m with
    | Some (inr e) => PErr e
    | Some (inl []) => PErr ParseFailure
    | Some (inl l) => POk (EAnd l)
    | None =>
      match at_array (str "$or") m with
      | Some (inr e) => PErr e
      | Some (inl []) => PErr ParseFailure
      | Some (inl l) => POk (EOr l)
      | None =>
        match at_key (str "$not") m with
        | Some (POk e) => POk (ENot e)
        | Some (PErr e) => PErr e
        | None =>
          match first_dollar m with
          | Some f => PErr (UnsupportedLogical f)
          | None =>
            match parse_fields m with
            | inr e => PErr e
            | inl [] => PErr ParseFailure
            | inl [e] => POk e
            | inl l => POk (EAnd l)
            end
          end
        end
      end
    end
  | _ => PErr ParseFailure
  end.
Definition parse_query_filter (filter : json) : parsed := parse filter 0.

(** * Flattening; flatten_utils.rs 130-171.  [None]: the panic on a null leaf. *)
Fixpoint flatten (sp : bytes) (path : bytes) (j : json) : option (list (bytes * value)) :=
  match j with
  | JObj m =>
    (fix go m := match m with
     | [] => Some []
     | (k, v) :: m => match flatten sp (path ++ sp ++ k)%list v with
                      | None => None
                      | Some a => match go m with None => None | Some b => Some (a ++ b)%list end
                      end
     end) m
  | JArr l =>
    (fix go i l := match l with
     | [] => Some []
     | v :: l => match flatten sp (path ++ sp ++ decimal i)%list v with
                 | None => None
                 | Some a => match go (i + 1) l with None => None | Some b => Some (a ++ b)%list end
                 end
     end) 0 l
  | _ => match value_of_json j with Some v => Some [(path, v)] | None => None end
  end.
(** [.collect::<HashMap<_, _>>()]: the last value of a field wins.  The order of the map is
    arbitrary in the code; theorems quantify over the attribute lists instead. *)
Fixpoint collect (l : list (bytes * value)) : list (bytes * value) :=
  match l with
  | [] => []
  | (f, v) :: l => if existsb (fun p => beqb f (fst p)) l then collect l else (f, v) :: collect l
  end.
(** [flatten_json_pointers_map_with_config] with root prefix "" *)
Definition attributes (sp : bytes) (label : json) : option (list (bytes * value)) :=
  option_map collect (flatten sp [] label).

(** * The key-value store *)
Record kv := mkkv { k_map : list (bytes * bytes); k_ops : nat }.
Definition kv_empty : kv := mkkv [] 0.
Definition kmap_del (k : bytes) (m : list (bytes * bytes)) := filter (fun p => negb (beqb k (fst p))) m.
Definition kmap_set (k v : bytes) (m : list (bytes * bytes)) := (k, v) :: kmap_del k m.
Section Store.
(** [fail n]: the [n]-th operation on the store returns an error. *)
Context (fail : nat -> bool).
Definition k_get (k : bytes) (s : kv) : option (option bytes) * kv :=
  (if fail (k_ops s) then None else Some (assoc k (k_map s)), mkkv (k_map s) (k_ops s + 1)).
Definition k_set (k v : bytes) (s : kv) : bool * kv :=
  if fail (k_ops s) then (false, mkkv (k_map s) (k_ops s + 1)) else (true, mkkv (kmap_set k v (k_map s)) (k_ops s + 1)).
Definition k_del (k : bytes) (s : kv) : bool * kv :=
  if fail (k_ops s) then (false, mkkv (k_map s) (k_ops s + 1)) else (true, mkkv (kmap_del k (k_map s)) (k_ops s + 1)).

(** * Posting lists (posting_list_trait.rs 196-259): sets of u32; [pl_ser], [pl_de] are the
    serialization of the roaring crate *)
Definition plist := list N.
Record codec := mkcodec { pl_ser : plist -> bytes; pl_de : bytes -> option plist }.
Context (c : codec).
Definition u32 (id : N) : N := id mod two32.                               (* id as u32 *)
Definition has (x : N) (l : plist) : bool := existsb (N.eqb x) l.
Definition pl_insert (id : N) (l : plist) : plist := if has (u32 id) l then l else u32 id :: l.
Definition pl_remove (id : N) (l : plist) : plist := filter (fun x => negb (x =? u32 id)) l.
Definition pl_union (a b : plist) : plist := (a ++ filter (fun x => negb (has x a)) b)%list.
Definition pl_intersect (a b : plist) : plist := filter (fun x => has x b) a.

(** generic_index.rs 183-194 *)
Definition get_or_empty (k : bytes) (s : kv) : option plist * kv :=
  match k_get k s with
  | (None, s) => (None, s)
  | (Some None, s) => (Some [], s)
  | (Some (Some b), s) => (pl_de c b, s)
  end.
(** * insert, delete, update; inverted_index_provider_impl.rs 28-110.  [false]: an error. *)
Fixpoint insert_loop (id : N) (attrs : list (bytes * value)) (keys : list bytes) (s : kv) : bool * kv :=
  match attrs with
  | [] => match ser_keys keys with None => (false, s) | Some b => k_set (reverse_key id) b s end
  | (f, v) :: attrs =>
    let k := encode_key f v in
    match get_or_empty k s with
    | (None, s) => (false, s)
    | (Some pl, s) =>
      match k_set k (pl_ser c (pl_insert id pl)) s with
      | (false, s) => (false, s)
      | (true, s) => insert_loop id attrs (keys ++ [k])%list s
      end
    end
  end.
Definition insert (id : N) (attrs : list (bytes * value)) (s : kv) : bool * kv := insert_loop id attrs [] s.
Fixpoint delete_loop (id : N) (keys : list bytes) (s : kv) : bool * kv :=
  match keys with
  | [] => k_del (reverse_key id) s
  | k :: keys =>
    match k_get k s with
    | (None, s) => (false, s)
    | (Some None, s) => delete_loop id keys s
    | (Some (Some b), s) =>
      match pl_de c b with
      | None => (false, s)
      | Some pl =>
        match match pl_remove id pl with [] => k_del k s | pl => k_set k (pl_ser c pl) s end with
        | (false, s) => (false, s)
        | (true, s) => delete_loop id keys s
        end
      end
    end
  end.
Definition delete (id : N) (s : kv) : bool * kv :=
  match k_get (reverse_key id) s with
  | (None, s) => (false, s)
  | (Some None, s) => (true, s)
  | (Some (Some b), s) => match de_keys b with DOk keys => delete_loop id keys s | _ => (false, s) end
  end.
Definition update (id : N) (attrs : list (bytes * value)) (s : kv) : bool * kv :=
  match delete id s with (false, s) => (false, s) | (true, s) => insert id attrs s end.
Inductive iop := OInsert (id : N) (attrs : list (bytes * value)) | OUpdate (id : N) (attrs : list (bytes * value)) | ODelete (id : N).
Definition istep (o : iop) (s : kv) : bool * kv :=
  match o with OInsert id a => insert id a s | OUpdate id a => update id a s | ODelete id => delete id s end.
(** batch_insert, batch_delete, batch_update: the same calls one by one until one fails;
    inverted_index_provider_impl.rs 125-170. *)
Fixpoint irun (os : list iop) (s : kv) : bool * kv :=
  match os with
  | [] => (true, s)
  | o :: os => match istep o s with (false, s) => (false, s) | (true, s) => irun os s end
  end.

(** * Queries, on the map of the store (a failing read only adds errors) *)
(** posting_list_accessor_impl.rs 27-48: [None] error, [Some None] no such key. *)
Definition get_posting_list (m : list (bytes * bytes)) (f : bytes) (v : value) : option (option plist) :=
  match assoc (encode_key f v) m with
  | None => Some None
  | Some b => match pl_de c b with Some pl => Some (Some pl) | None => None end
  end.
(** One range scan; query_evaluator_impl.rs 111-137. *)
Definition in_bounds (b : bytes * bytes) (k : bytes) : bool := bleb (fst b) k && bltb k (snd b).
Fixpoint scan_items (items : list (bytes * bytes)) (acc : plist) : option plist :=
  match items with
  | [] => Some acc
  | (_, b) :: items => match pl_de c b with None => None | Some pl => scan_items items (pl_union acc pl) end
  end.
Definition scan (m : list (bytes * bytes)) (b : bytes * bytes) (acc : plist) : option plist :=
  match fst b with [] => Some acc | _ => scan_items (filter (fun p => in_bounds b (fst p)) m) acc end.
(** evaluate_query; query_evaluator_impl.rs 45-172; [norm] is the field normalizer.  [None]:
    an error. *)
Definition and_rest (f : expr -> option plist) :=
  fix go (l : list expr) (acc : plist) : option plist :=
  match l with
  | [] => Some acc
  | e :: l => match f e with
              | None => None
              | Some r => match pl_intersect acc r with [] => Some [] | acc => go l acc end
              end
  end.
Definition or_rest (f : expr -> option plist) :=
  fix go (l : list expr) (acc : plist) : option plist :=
  match l with
  | [] => Some acc
  | e :: l => match f e with None => None | Some r => go l (pl_union acc r) end
  end.
Fixpoint query (norm : bytes -> bytes) (m : list (bytes * bytes)) (e : expr) : option plist :=
  match e with
  | EAnd [] => Some []
  | EAnd (e :: l) => match query norm m e with None => None | Some acc => and_rest (query norm m) l acc end
  | EOr l => or_rest (query norm m) l []
  | ENot _ => None
  | ECmp f (CEq v) =>
    match value_of_json v with
    | None => None
    | Some v => match get_posting_list m (norm f) v with
                | None => None
                | Some None => Some []
                | Some (Some pl) => Some pl
                end
    end
  | ECmp f (CNe _) => None
  | ECmp f (CRange op t) =>
    match scan m (int_bounds (norm f) op t) [] with
    | None => None
    | Some acc => scan m (float_bounds (norm f) op t) acc
    end
  end.
End Store.
