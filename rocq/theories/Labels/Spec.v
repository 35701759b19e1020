(** What filters and indexed documents mean, independently of parser and index. *)
From Coq Require Import String.
From Verif.Lib Require Import Base Bytes F64.
From Verif.Keys Require Import Model Spec.
From Verif.Labels Require Import Model.
Local Open Scope N_scope.

(** * The index (C32) *)
(** What the serialization of posting lists must do: give back the set. *)
Definition lawful (c : codec) : Prop :=
  forall l, NoDup l -> Forall (fun x => x < two32) l ->
  exists l', pl_de c (pl_ser c l) = Some l' /\ NoDup l' /\ forall x, In x l' <-> In x l.
Definition key_sizes (a : list (bytes * value)) : nat := list_sum (map (fun p => 4 + length (encode_key (fst p) (snd p))) a)%nat.
(** Attributes as [Attributes] (a map) holds them, of moderate total size. *)
Definition attrs_ok (a : list (bytes * value)) : Prop :=
  NoDup (map fst a) /\ (forall f v, In (f, v) a -> no_nul f /\ value_ok v /\ N.of_nat (length (encode_key f v)) < two32) /\
  N.of_nat (length a) < two32 /\ N.of_nat (4 + key_sizes a) < two64.
(** The documents: id to attributes. *)
Definition docs := N -> option (list (bytes * value)).
Definition no_docs : docs := fun _ => None.
Definition set_doc (d : docs) (id : N) (a : option (list (bytes * value))) : docs := fun x => if x =? id then a else d x.
Definition apply_op (o : iop) (d : docs) : docs :=
  match o with OInsert id a | OUpdate id a => set_doc d id (Some a) | ODelete id => set_doc d id None end.
Definition op_id (o : iop) : N := match o with OInsert id _ | OUpdate id _ | ODelete id => id end.
(** Inserts are of new documents (changing one is what [update] is for); ids fit u32. *)
Definition op_ok (d : docs) (o : iop) : Prop :=
  match o with
  | OInsert id a => id < two32 /\ attrs_ok a /\ d id = None
  | OUpdate id a => id < two32 /\ attrs_ok a
  | ODelete id => True
  end.
Definition no_failure : nat -> bool := fun _ => false.
(** A call on a store that may fail at any point, repeated until it succeeds. *)
Inductive completed (c : codec) (o : iop) : kv -> kv -> Prop :=
| cp_done s fail s' : istep fail c o s = (true, s') -> completed c o s s'
| cp_retry s fail s1 s' : istep fail c o s = (false, s1) -> completed c o s1 s' -> completed c o s s'.
(** Indexes and documents after any history of completed calls. *)
Inductive indexed (c : codec) : kv -> docs -> Prop :=
| ix_new : indexed c kv_empty no_docs
| ix_op s d o s' : indexed c s d -> op_ok d o -> completed c o s s' -> indexed c s' (apply_op o d).
(** Indexes after any history of calls, on a store that may fail at any point. *)
Inductive any_index (c : codec) : kv -> Prop :=
| ai_new : any_index c kv_empty
| ai_op s fail o b s' : any_index c s -> op_id o < two32 -> (forall id a, o = OInsert id a \/ o = OUpdate id a -> attrs_ok a) ->
    istep fail c o s = (b, s') -> any_index c s'.
(** Having an attribute, up to the one collision of keys (C30). *)
Definition has_attr (a : list (bytes * value)) (f : bytes) (v : value) : Prop :=
  exists v', In (f, v') a /\ (v = v' \/ (v = VEmpty /\ v' = VStr []) \/ (v = VStr [] /\ v' = VEmpty)).
Definition posting (c : codec) (s : kv) (f : bytes) (v : value) : plist :=
  match get_posting_list c (k_map s) f v with Some (Some pl) => pl | _ => [] end.
Definition postings_exact (c : codec) (s : kv) (d : docs) : Prop :=
  forall f v, no_nul f -> value_ok v ->
  get_posting_list c (k_map s) f v <> None /\
  forall id, In id (posting c s f v) <-> exists a, d id = Some a /\ has_attr a f v.

(** * Labels and filters (C31) *)
(** Numbers that mean the same as an attribute: i64, or a finite double other than [-0.0]. *)
Definition tame (n : jnum) : Prop :=
  match n with
  | JPos n => n <= 9223372036854775807
  | JNeg z => (i64_min <= z < 0)%Z
  | JFlt x => f64_ok x /\ f64_finite x = true /\ x <> two63
  end.
(** Labels without nulls and arrays whose keys do not contain the separator. *)
Fixpoint plain (ch : N) (j : json) : Prop :=
  match j with
  | JNull | JArr _ => False
  | JBool _ | JStr _ => True
  | JNum n => tame n
  | JObj m => NoDup (map fst m) /\
      (fix go m := match m with [] => True | (k, v) :: m => ~ In ch k /\ no_nul k /\ plain ch v /\ go m end) m
  end.
Definition field_ok (ch : N) (f : bytes) : Prop := no_nul f /\ (ch = 46 \/ ~ In ch f).
Definition scalar (v : json) : Prop := match v with JBool _ | JStr _ => True | JNum n => tame n | _ => False end.
(** Filters the index can answer at all. *)
Fixpoint answerable (ch : N) (e : expr) : Prop :=
  match e with
  | EAnd l => l <> [] /\ (fix go l := match l with [] => True | e :: l => answerable ch e /\ go l end) l
  | EOr l => (fix go l := match l with [] => True | e :: l => answerable ch e /\ go l end) l
  | ENot _ => False
  | ECmp f (CEq v) => field_ok ch f /\ scalar v
  | ECmp f (CNe _) => False
  | ECmp f (CRange _ t) => field_ok ch f /\ f64_ok t /\ f64_finite t = true /\ t <> two63
  end.
(** Range comparisons the key ranges decide exactly: small integers against a small whole
    number; doubles with [<] or [>=], or against another value. *)
Definition small_int (z : Z) : Prop := (-9007199254740992 <= z <= 9007199254740992)%Z.
Definition whole (t : f64) : Prop := exists z, small_int z /\ f64_val t = (z * f64_unit)%Z.
Definition range_exact (op : range_op) (t : f64) (leaf : json) : Prop :=
  match leaf with
  | JNum (JPos n) => small_int (Z.of_N n) /\ whole t
  | JNum (JNeg z) => small_int z /\ whole t
  | JNum (JFlt x) => op = Lt \/ op = Gte \/ f64_val x <> f64_val t
  | _ => True
  end.
Fixpoint exact_on (e : expr) (label : json) : Prop :=
  match e with
  | EAnd l | EOr l => (fix go l := match l with [] => True | e :: l => exact_on e label /\ go l end) l
  | ENot e => exact_on e label
  | ECmp f (CRange op t) => forall leaf, get_value_by_path label f = Some leaf -> range_exact op t leaf
  | ECmp _ _ => True
  end.
(** The field normalizer that goes with a separator: "a.b" to "/a/b". *)
Definition normalizer (ch : N) (f : bytes) : bytes := flat_map (fun k => ch :: k) (split_dot f).
(** An index of labelled documents. *)
Definition labelled (c : codec) (ch : N) (s : kv) (labels : N -> option json) : Prop :=
  exists d, indexed c s d /\ forall id, d id = match labels id with Some j => attributes [ch] j | None => None end.

(** * Filters as JSON (C33) *)
(** When a label satisfies a condition [op: v] on a field. *)
Definition op_holds (label : json) (f op : bytes) (v : json) : Prop :=
  exists x, get_value_by_path label f = Some x /\
  ((op = str "$eq" /\ json_eqb x v = true) \/ (op = str "$ne" /\ json_eqb x v = false) \/
   exists a b, as_f64 x = Some a /\ as_f64 v = Some b /\
   ((op = str "$lt" /\ f64_lt a b = true) \/ (op = str "$lte" /\ f64_le a b = true) \/
    (op = str "$gt" /\ f64_lt b a = true) \/ (op = str "$gte" /\ f64_le b a = true))).
(** When a label satisfies every entry of a filter object. *)
Fixpoint holds (filter label : json) : Prop :=
  match filter with
  | JObj m =>
    (fix all m := match m with
     | [] => True
     | (k, v) :: m =>
       (if beqb k (str "$and") then
          match v with JArr l => (fix go l := match l with [] => True | j :: l => holds j label /\ go l end) l | _ => False end
        else if beqb k (str "$or") then
          match v with JArr l => (fix go l := match l with [] => False | j :: l => holds j label \/ go l end) l | _ => False end
        else if beqb k (str "$not") then ~ holds v label
        else match v with JObj ops => forall op w, In (op, w) ops -> op_holds label k op w | _ => False end) /\ all m
     end) m
  | _ => False
  end.
(** Filters that keep to one kind of entry per object: one logical operator alone, or fields
    with an object of conditions each. *)
Definition is_object (v : json) : Prop := exists ops, v = JObj ops.
Fixpoint strict (filter : json) : Prop :=
  match filter with
  | JObj [(k, JArr l)] => (k = str "$and" \/ k = str "$or") /\ (fix go l := match l with [] => True | j :: l => strict j /\ go l end) l
  | JObj [(k, v)] => if beqb k (str "$not") then strict v else dollar k = false /\ is_object v
  | JObj m => forall k v, In (k, v) m -> dollar k = false /\ is_object v
  | _ => False
  end.
(** Filters the parser must accept: known operators, numbers where numbers are compared, no
    empty list of conditions, at most two levels of logical operators above the fields. *)
Definition known_op (op : bytes) (v : json) : Prop :=
  op = str "$eq" \/ op = str "$ne" \/
  ((op = str "$lt" \/ op = str "$lte" \/ op = str "$gt" \/ op = str "$gte") /\ as_f64 v <> None).
Definition fields_ok (m : list (bytes * json)) : Prop :=
  (forall k ops op w, In (k, JObj ops) m -> In (op, w) ops -> known_op op w) /\
  (exists k ops op w, In (k, JObj ops) m /\ In (op, w) ops).
Fixpoint well_formed (filter : json) (depth : nat) : Prop :=
  (depth <= 2)%nat /\
  match filter with
  | JObj [(k, JArr l)] => l <> [] /\ (fix go l := match l with [] => True | j :: l => well_formed j (S depth) /\ go l end) l
  | JObj [(k, v)] => if beqb k (str "$not") then well_formed v (S depth) else fields_ok [(k, v)]
  | JObj m => fields_ok m
  | _ => False
  end.

(** A concrete serialization of posting lists, four bytes per id. *)
Definition ser32 (l : plist) : bytes := flat_map (le_enc 4) l.
Fixpoint de32 (b : bytes) : option plist :=
  match b with
  | [] => Some []
  | w :: x :: y :: z :: b => match de32 b with Some l => Some (le_dec [w; x; y; z] :: l) | None => None end
  | _ => None
  end.
Definition codec32 : codec := mkcodec ser32 de32.
(** The index of a single document with id 1. *)
Definition index_one (a : list (bytes * value)) : kv := snd (insert no_failure codec32 1 a kv_empty).
