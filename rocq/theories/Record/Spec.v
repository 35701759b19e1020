(** What saved data, types and exact numbers are, said without the code. *)
From Coq Require Import String.
From Verif.Lib Require Import Base Bytes F32 F64.
From Verif.Record Require Import Model.
Local Open Scope string_scope.
Local Open Scope N_scope.

(** ** Numbers: the exact value in units of [2^-1074] ([None] for NaN) *)
Definition num_val (n : number) : option Z :=
  match n with
  | NU64 v => Some (Z.of_N v * f64_unit)%Z
  | NI64 v => Some (v * f64_unit)%Z
  | NF64 x => if f64_nan x then None else Some (f64_val x)
  end.
Definition f64_value (x : f64) : option Z := if f64_nan x then None else Some (f64_val x).
Definition f32_value (x : f32) : option Z := f64_value (f32_to_f64 x).
(** Values the Rust types can hold. *)
Definition num_ok (n : number) : Prop :=
  match n with NU64 v => v < two64 | NI64 v => (i64_min <= v <= i64_max)%Z | NF64 x => x < two64 end.
Definition ver_ok (v : version) : Prop := major v < 4294967296 /\ minor v < 4294967296.

(** ** Data of a type *)
Fixpoint has_ty (t : ty) (d : dat) {struct t} : Prop :=
  match t, d with
  | TInt i, DInt z => in_range i z = true
  | TNonZero i, DInt z => in_range i z = true /\ z <> 0%Z
  | TF32, DF32 x => x < 4294967296
  | TF64, DF64 x => x < two64
  | TBool, DBool _ => True
  | TStr, DStr _ => True
  | THandle, DHandle _ => True
  | TOpt _, DNone => True
  | TOpt t, DSome d => has_ty t d
  | TVec t, DVec l => Forall (has_ty t) l
  | TRec _ fs, DRec l =>
    (fix go fs l := match fs, l with
     | [], [] => True
     | (_, t) :: fs, d :: l => has_ty t d /\ go fs l
     | _, _ => False
     end) fs l
  | TEnum _ vs, DVar k p =>
    (fix go vs := match vs with
     | [] => False
     | (k', t) :: vs => if beqb k k' then match t, p with Some t, Some d => has_ty t d | None, None => True | _, _ => False end else go vs
     end) vs
  | _, _ => False
  end.
(** Types as Rust declares them: field and variant names are distinct identifiers (so none begins
    with a dollar sign), versions are pairs of u32.  The last condition is a real restriction: no
    [Option] directly inside an [Option]. *)
Definition names_ok (ks : list bytes) : Prop := NoDup ks /\ Forall (fun k => is_reserved k = false) ks.
Definition is_opt (t : ty) : bool := match t with TOpt _ => true | _ => false end.
Fixpoint ty_ok (t : ty) : Prop :=
  match t with
  | TOpt t => is_opt t = false /\ ty_ok t
  | TVec t => ty_ok t
  | TRec v fs => ver_ok v /\ names_ok (map fst fs) /\
    (fix go fs := match fs with [] => True | (_, t) :: fs => ty_ok t /\ go fs end) fs
  | TEnum v vs => ver_ok v /\ names_ok (map fst vs) /\
    (fix go vs := match vs with [] => True | (_, Some t) :: vs => ty_ok t /\ go vs | (_, None) :: vs => go vs end) vs
  | _ => True
  end.
(** The same data, but for which NaN an f32 or f64 NaN is. *)
Fixpoint canon (d : dat) : dat :=
  match d with
  | DF32 x => DF32 (if is_nan x then f32_nan else x)
  | DF64 x => DF64 (if f64_nan x then f64_nan_bits else x)
  | DSome d => DSome (canon d)
  | DVec l => DVec (map canon l)
  | DRec l => DRec (map canon l)
  | DVar k (Some d) => DVar k (Some (canon d))
  | d => d
  end.
Definition same (d d' : dat) : Prop := canon d = canon d'.
(** The strings the manifest keeps for itself. *)
Definition is_sentinel (s : bytes) : Prop := s = str "nan" \/ s = str "inf" \/ s = str "neg_inf".
(** No string in the data is one of them. *)
Fixpoint plain (d : dat) : Prop :=
  match d with
  | DStr s => ~ is_sentinel s
  | DSome d => plain d
  | DVec l => (fix go l := match l with [] => True | d :: l => plain d /\ go l end) l
  | DRec l => (fix go l := match l with [] => True | d :: l => plain d /\ go l end) l
  | DVar _ (Some d) => plain d
  | _ => True
  end.
(** Values in general: keys distinct and unreserved, no reserved string, numbers the types can
    hold. *)
Fixpoint value_ok (v : value) : Prop :=
  match v with
  | VNum n => num_ok n
  | VStr s => ~ is_sentinel s
  | VArr l => (fix go l := match l with [] => True | v :: l => value_ok v /\ go l end) l
  | VObj ver r => ver_ok ver /\ names_ok (map fst r) /\
    (fix go r := match r with [] => True | (_, v) :: r => value_ok v /\ go r end) r
  | _ => True
  end.
(** [p] holds of every number in the value. *)
Fixpoint numbers (p : number -> Prop) (v : value) : Prop :=
  match v with
  | VNum n => p n
  | VArr l => (fix go l := match l with [] => True | v :: l => numbers p v /\ go l end) l
  | VObj _ r => (fix go r := match r with [] => True | (_, v) :: r => numbers p v /\ go r end) r
  | _ => True
  end.
(** Two loads answer alike. *)
Definition same_result (a b : result dat) : Prop :=
  match a, b with Ok d, Ok d' => same d d' | Err e, Err e' => e = e' | _, _ => False end.

(** ** The text of the manifest *)
(** Nesting depth, and what serde_json can print: finite floats, integers in range. *)
Fixpoint jdepth (j : json) : nat :=
  match j with
  | JArr l => S ((fix go l := match l with [] => 0 | j :: l => Nat.max (jdepth j) (go l) end) l)
  | JObj m => S ((fix go m := match m with [] => 0 | (_, j) :: m => Nat.max (jdepth j) (go m) end) m)
  | _ => 0
  end%nat.
Fixpoint printable (j : json) : Prop :=
  match j with
  | JPos n => n < two64
  | JNeg z => (i64_min <= z < 0)%Z
  | JFlt x => f64_mag x < f64_inf_bits
  | JArr l => (fix go l := match l with [] => True | j :: l => printable j /\ go l end) l
  | JObj m => (fix go m := match m with [] => True | (_, j) :: m => printable j /\ go m end) m
  | _ => True
  end.
(** The text layer reads back what it printed, down to the given nesting depth. *)
Definition text_layer {T} (print : json -> T) (parse : T -> option json) (limit : nat) : Prop :=
  forall j, printable j -> (jdepth j <= limit)%nat -> parse (print j) = Some j.
(** How deep a type's data nests. *)
Fixpoint tdepth (t : ty) : nat :=
  match t with
  | THandle => 1
  | TOpt t => tdepth t
  | TVec t => S (tdepth t)
  | TRec _ fs => S ((fix go fs := match fs with [] => 0 | (_, t) :: fs => Nat.max (tdepth t) (go fs) end) fs)
  | TEnum _ vs => S ((fix go vs := match vs with [] => 0 | (_, Some t) :: vs => Nat.max (tdepth t) (go vs) | (_, None) :: vs => go vs end) vs)
  | _ => 0
  end%nat.
