(** Model of diskann-record: numbers (number.rs), versions (version.rs), manifest values
    (value.rs), and the saving and loading of typed data (save/mod.rs, load/mod.rs,
    load/context.rs).

    Strings are bytes.  A [HashMap] is a list of entries with distinct keys, in an order that
    means nothing.  serde_json is represented by the document it writes and reads ([json]);
    its text form is not modelled. *)
From Coq Require Import String Ascii.
From Verif.Lib Require Import Base Bytes F32 F64.
Local Open Scope N_scope.

Definition str (s : string) : bytes := List.map N_of_ascii (list_ascii_of_string s).
Definition beqb (a b : bytes) : bool := if list_eq_dec N.eq_dec a b then true else false.

(** * Numbers *)
(** number.rs 25-29 *)
Inductive number := NU64 (n : N) | NI64 (z : Z) | NF64 (x : f64).

(** The magnitude bits of the f32 nearest to [a * 2^-1074], ties to even: the quantum is [2^q]
    in the same unit, never below the smallest f32.  Past the largest f32 this gives infinity. *)
Definition round32 (a : N) : N :=
  if a =? 0 then 0 else
  let q := N.max (N.log2 a - 23) 925 in
  let d := 2 ^ q in
  let n := a / d in let r := a mod d in
  let up := (d <? 2 * r) || ((2 * r =? d) && N.odd n) in
  N.min ((q - 925) * 8388608 + (if up then n + 1 else n)) f32_inf_bits.
(** [x as f32] for an f64: NaN stays NaN (sign and leading payload bits kept, quieted). *)
Definition f64_to_f32 (x : f64) : f32 :=
  (if f64_neg x then f32_sign_bit else 0) +
  (if f64_nan x then N.lor f32_nan (f64_mag x mod two52 / 536870912) else round32 (f64_abs (f64_mag x))).
(** [x as f64] and [f64::from(x)] for an f32: exact. *)
Definition f32_to_f64 (x : f32) : f64 :=
  let m := x mod f32_sign_bit in
  let e := m / 8388608 in let f := m mod 8388608 in
  (if f32_sign_bit <=? x then two63 else 0) +
  (if e =? 255 then f64_inf_bits + f * 536870912
   else if e =? 0 then (if f =? 0 then 0 else (N.log2 f + 874) * two52 + (f * 2 ^ (52 - N.log2 f) - two52))
   else (e + 896) * two52 + f * 536870912).
(** [n as f32] *)
Definition f32_of_N (n : N) : f32 := round32 (n * 2 ^ 1074).
Definition f32_of_Z (z : Z) : f32 := if (z <? 0)%Z then f32_sign_bit + f32_of_N (Z.to_N (Z.opp z)) else f32_of_N (Z.to_N z).
(** A float [as] an integer type with the range [lo, hi]: towards zero, saturating, NaN to 0. *)
Definition trunc_sat (lo hi : Z) (x : f64) : Z :=
  if f64_nan x then 0%Z else Z.max lo (Z.min hi (Z.quot (f64_val x) f64_unit)).

(** The integer types of [int!] (number.rs 142-153); usize and isize are 64 bits wide
    (lib.rs 107-110). *)
Inductive ity := U8 | U16 | U32 | U64 | Usize | I8 | I16 | I32 | I64 | Isize.
Definition irange (t : ity) : Z * Z :=
  match t with
  | U8 => (0, 255) | U16 => (0, 65535) | U32 => (0, 4294967295) | U64 | Usize => (0, 18446744073709551615)
  | I8 => (-128, 127) | I16 => (-32768, 32767) | I32 => (-2147483648, 2147483647)
  | I64 | Isize => (-9223372036854775808, 9223372036854775807)
  end%Z.
Definition in_range (t : ity) (z : Z) : bool := ((fst (irange t) <=? z) && (z <=? snd (irange t)))%Z.
(** number.rs 108-125 ([try_cast!], [int!]) *)
Definition as_int (t : ity) (n : number) : option Z :=
  match n with
  | NU64 v => if in_range t (Z.of_N v) then Some (Z.of_N v) else None
  | NI64 v => if in_range t v then Some v else None
  | NF64 x => let c := trunc_sat (fst (irange t)) (snd (irange t)) x in
              if f64_eq (f64_of_Z c) x then Some c else None
  end.
(** number.rs 127-140 ([float!]) at f64 *)
Definition as_f64 (n : number) : option f64 :=
  match n with
  | NU64 v => let c := f64_of_N v in if (trunc_sat 0 18446744073709551615 c =? Z.of_N v)%Z then Some c else None
  | NI64 v => let c := f64_of_Z v in if (trunc_sat i64_min i64_max c =? v)%Z then Some c else None
  | NF64 x => if f64_nan x then Some x else if f64_eq x x then Some x else None
  end.
(** number.rs 127-140 ([float!]) at f32 *)
Definition as_f32 (n : number) : option f32 :=
  match n with
  | NU64 v => let c := f32_of_N v in if (trunc_sat 0 18446744073709551615 (f32_to_f64 c) =? Z.of_N v)%Z then Some c else None
  | NI64 v => let c := f32_of_Z v in if (trunc_sat i64_min i64_max (f32_to_f64 c) =? v)%Z then Some c else None
  | NF64 x => if f64_nan x then Some (f64_to_f32 x)
              else let c := f64_to_f32 x in if f64_eq (f32_to_f64 c) x then Some c else None
  end.
(** number.rs 38-45 *)
Definition f64_neg_inf : f64 := two63 + f64_inf_bits.
Definition sentinel (n : number) : option bytes :=
  match n with
  | NF64 x => if f64_nan x then Some (str "nan") else if f64_eq x f64_inf_bits then Some (str "inf")
              else if f64_eq x f64_neg_inf then Some (str "neg_inf") else None
  | _ => None
  end.
(** number.rs 49-56; [f64::NAN] is 0x7ff8000000000000. *)
Definition f64_nan_bits : f64 := 9221120237041090560.
Definition from_sentinel (s : bytes) : option number :=
  if beqb s (str "nan") then Some (NF64 f64_nan_bits)
  else if beqb s (str "inf") then Some (NF64 f64_inf_bits)
  else if beqb s (str "neg_inf") then Some (NF64 f64_neg_inf)
  else None.

(** * Versions *)
(** version.rs 27-31 *)
Record version := mkver { major : N; minor : N }.
Definition version_eqb (a b : version) : bool := (major a =? major b) && (minor a =? minor b).
(** Decimal digits ([Display for u32]). *)
Fixpoint digits (fuel : nat) (x : N) : bytes :=
  match fuel with
  | O => []
  | S fuel => (if x <? 10 then [] else digits fuel (x / 10)) ++ [48 + x mod 10]
  end.
Definition decimal (x : N) : bytes := digits (S (N.to_nat (N.log2 x))) x.
(** version.rs 40-44 *)
Definition show_version (v : version) : bytes := decimal (major v) ++ [46] ++ decimal (minor v).
(** [str::split] at one character. *)
Fixpoint split_at (c : N) (s : bytes) : list bytes :=
  match s with
  | [] => [[]]
  | x :: s => if x =? c then [] :: split_at c s
              else match split_at c s with [] => [[x]] | p :: ps => (x :: p) :: ps end
  end.
(** [str::parse::<u32>]: an optional [+], then digits only, the value below 2^32. *)
Fixpoint parse_digits (acc : N) (s : bytes) : option N :=
  match s with
  | [] => Some acc
  | d :: s => if (48 <=? d) && (d <=? 57)
              then let acc := acc * 10 + (d - 48) in if acc <? 4294967296 then parse_digits acc s else None
              else None
  end.
Definition parse_u32 (s : bytes) : option N :=
  let s := match s with c :: s' => if c =? 43 then s' else s | [] => s end in
  match s with [] => None | _ => parse_digits 0 s end.
(** version.rs 46-58 *)
Definition parse_version (s : bytes) : option version :=
  match split_at 46 s with
  | [a; b] => match parse_u32 a, parse_u32 b with Some a, Some b => Some (mkver a b) | _, _ => None end
  | _ => None
  end.

(** * Manifest values *)
(** value.rs 45-53, 343-349, 377: an object is a version and a record. *)
Inductive value :=
| VNull | VBool (b : bool) | VNum (n : number) | VStr (s : bytes) | VArr (l : list value)
| VObj (ver : version) (r : list (bytes * value)) | VHandle (h : bytes).
Fixpoint lookup {A} (k : bytes) (m : list (bytes * A)) : option A :=
  match m with [] => None | (k', v) :: m => if beqb k k' then Some v else lookup k m end.
(** [HashMap::insert] *)
Fixpoint put_key {A} (k : bytes) (v : A) (m : list (bytes * A)) : list (bytes * A) :=
  match m with
  | [] => [(k, v)]
  | (k', v') :: m => if beqb k k' then (k', v) :: m else (k', v') :: put_key k v m
  end.
(** lib.rs 116-124 *)
Definition is_reserved (k : bytes) : bool := match k with c :: _ => c =? 36 | [] => false end.
(** value.rs 274-290: [None] is the error. *)
Definition rec_insert (k : bytes) (v : value) (r : list (bytes * value)) : option (list (bytes * value)) :=
  if is_reserved k then None else Some (put_key k v r).
(** value.rs 330-336 ([FromIterator]): no check. *)
Definition rec_from_iter (l : list (bytes * value)) : list (bytes * value) :=
  fold_left (fun r kv => put_key (fst kv) (snd kv) r) l [].

(** * The manifest document *)
(** What serde_json writes and reads: integers are [JPos] or (negative) [JNeg], every other
    number a float, an object its entries in order. *)
Inductive json :=
| JNull | JBool (b : bool) | JPos (n : N) | JNeg (z : Z) | JFlt (x : f64) | JStr (s : bytes)
| JArr (l : list json) | JObj (m : list (bytes * json)).
Definition k_version : bytes := str "$version".
Definition k_handle : bytes := str "$handle".
(** number.rs 59-71.  A non-negative i64 and the same u64 have the same text. *)
Definition ser_number (n : number) : json :=
  match sentinel n with
  | Some s => JStr s
  | None => match n with
            | NU64 v => JPos v
            | NI64 v => if (v <? 0)%Z then JNeg v else JPos (Z.to_N v)
            | NF64 x => JFlt x
            end
  end.
Section Ser.
  (** The order in which a [HashMap] lists its entries. *)
  Variable ord : list (bytes * json) -> list (bytes * json).
  (** value.rs 55-68, 341-349 (the flattened record, then [$version]), 391-397; version.rs 76-80 *)
  Fixpoint ser (v : value) : json :=
    match v with
    | VNull => JNull
    | VBool b => JBool b
    | VNum n => ser_number n
    | VStr s => JStr s
    | VArr l => JArr (List.map ser l)
    | VObj ver r => JObj (ord (List.map (fun kv => (fst kv, ser (snd kv))) r) ++ [(k_version, JStr (show_version ver))])
    | VHandle h => JObj [(k_handle, JStr h)]
    end.
End Ser.
(** value.rs 70-190 and version.rs 82-101.  [None] is an error.  The end of [visit_map]
    (value.rs 163-183): *)
Definition close_map (ver : option version) (h : option bytes) (fs : list (bytes * value)) : option value :=
  match h with
  | Some name => match ver, fs with None, [] => Some (VHandle name) | _, _ => None end
  | None => match ver with Some v => Some (VObj v fs) | None => None end
  end.
Fixpoint de (j : json) : option value :=
  match j with
  | JNull => Some VNull
  | JBool b => Some (VBool b)
  | JPos n => Some (VNum (NU64 n))
  | JNeg z => Some (VNum (NI64 z))
  | JFlt x => Some (VNum (NF64 x))
  | JStr s => match from_sentinel s with Some n => Some (VNum n) | None => Some (VStr s) end
  | JArr l =>
    match (fix go l := match l with
           | [] => Some []
           | x :: l => match de x with Some v => match go l with Some vs => Some (v :: vs) | None => None end | None => None end
           end) l with Some vs => Some (VArr vs) | None => None end
  | JObj m =>
    (fix go m ver h fs := match m with
     | [] => close_map ver h fs
     | (k, x) :: m =>
       if beqb k k_version then
         match x with
         | JStr s => match parse_version s with Some v => go m (Some v) h fs | None => None end
         | _ => None
         end
       else if beqb k k_handle then
         match x with JStr s => go m ver (Some s) fs | _ => None end
       else match de x with Some v => go m ver h (put_key k v fs) | None => None end
     end) m None None []
  end.

(** * Typed data *)
(** The types that can be saved and loaded (save/mod.rs 126-230, load/mod.rs 118-266): integers,
    floats, [NonZero*], booleans, strings, handles, [Option], [Vec], structs whose [Save] and
    [Load] use [save_fields!] and [load_fields!], and enums in the documented form of one key
    naming the variant (save/mod.rs 87-91; lib.rs 307-350).  ([isize] can only be loaded and
    [NonZero*] exists for three types; the model allows all.) *)
Inductive ty :=
| TInt (t : ity) | TNonZero (t : ity) | TF32 | TF64 | TBool | TStr | THandle
| TOpt (t : ty) | TVec (t : ty)
| TRec (ver : version) (fs : list (bytes * ty))
| TEnum (ver : version) (vs : list (bytes * option ty)).
Inductive dat :=
| DInt (z : Z) | DF32 (x : f32) | DF64 (x : f64) | DBool (b : bool) | DStr (s : bytes) | DHandle (h : bytes)
| DNone | DSome (d : dat) | DVec (l : list dat) | DRec (l : list dat) | DVar (k : bytes) (p : option dat).
(** [From<T> for Number]; number.rs 159-195 *)
Definition signed (t : ity) : bool := match t with I8 | I16 | I32 | I64 | Isize => true | _ => false end.
Definition num_of_int (t : ity) (z : Z) : number := if signed t then NI64 z else NU64 (Z.to_N z).
(** [Saveable::save]; data of another type is represented by null. *)
Fixpoint save (t : ty) (d : dat) : value :=
  match t, d with
  | TInt i, DInt z => VNum (num_of_int i z)
  | TNonZero i, DInt z => VNum (num_of_int i z)
  | TF32, DF32 x => VNum (NF64 (f32_to_f64 x))
  | TF64, DF64 x => VNum (NF64 x)
  | TBool, DBool b => VBool b
  | TStr, DStr s => VStr s
  | THandle, DHandle h => VHandle h
  | TOpt _, DNone => VNull
  | TOpt t, DSome d => save t d
  | TVec t, DVec l => VArr (List.map (save t) l)
  | TRec ver fs, DRec l =>
    VObj ver (rec_from_iter ((fix go fs l := match fs, l with
                              | (k, t) :: fs, d :: l => (k, save t d) :: go fs l
                              | _, _ => []
                              end) fs l))
  | TEnum ver vs, DVar k p =>
    VObj ver (put_key k ((fix go vs := match vs with
                          | [] => VNull
                          | (k', t) :: vs => if beqb k k' then match t, p with Some t, Some d => save t d | _, _ => VNull end else go vs
                          end) vs) [])
  | _, _ => VNull
  end.

(** load/error.rs 125-152 *)
Inductive kind := MissingField | TypeMismatch | UnknownVersion | UnknownVariant | NumberOutOfRange | MissingFile.
Inductive result (A : Type) := Ok (a : A) | Err (e : kind).
Arguments Ok {A}. Arguments Err {A}.
(** load/error.rs 178-189 *)
Definition is_recoverable (k : kind) : bool := match k with MissingField | TypeMismatch => true | _ => false end.
Definition or_err {A} (o : option A) (e : kind) : result A := match o with Some a => Ok a | None => Err e end.
Definition rmap {A B} (f : A -> B) (r : result A) : result B := match r with Ok a => Ok (f a) | Err e => Err e end.
(** [load_number!]; load/mod.rs 239-249 *)
Definition load_num {A} (f : number -> option A) (v : value) : result A :=
  match v with VNum n => or_err (f n) NumberOutOfRange | _ => Err TypeMismatch end.
(** [Loadable::load]; load/mod.rs 124-139, 178-266.  [load_legacy] refuses ([UnknownVersion]);
    a variant's payload is loaded only if the variant has one; an enum needs exactly one key
    (load/context.rs 258-272). *)
Fixpoint load (t : ty) (v : value) : result dat :=
  match t with
  | TInt i => rmap DInt (load_num (as_int i) v)
  | TNonZero i => match load_num (as_int i) v with Ok z => if (z =? 0)%Z then Err NumberOutOfRange else Ok (DInt z) | Err e => Err e end
  | TF32 => rmap DF32 (load_num as_f32 v)
  | TF64 => rmap DF64 (load_num as_f64 v)
  | TBool => match v with VBool b => Ok (DBool b) | _ => Err TypeMismatch end
  | TStr => match v with VStr s => Ok (DStr s) | _ => Err TypeMismatch end
  | THandle => match v with VHandle h => Ok (DHandle h) | _ => Err TypeMismatch end
  | TOpt t => match v with VNull => Ok DNone | _ => rmap DSome (load t v) end
  | TVec t =>
    match v with
    | VArr l => rmap DVec ((fix go l := match l with
                            | [] => Ok []
                            | x :: l => match load t x with Ok d => rmap (cons d) (go l) | Err e => Err e end
                            end) l)
    | _ => Err TypeMismatch
    end
  | TRec ver fs =>
    match v with
    | VObj ver' r =>
      if version_eqb ver' ver then
        rmap DRec ((fix go fs := match fs with
                    | [] => Ok []
                    | (k, t) :: fs => match lookup k r with
                                      | Some x => match load t x with Ok d => rmap (cons d) (go fs) | Err e => Err e end
                                      | None => Err MissingField
                                      end
                    end) fs)
      else Err UnknownVersion
    | _ => Err TypeMismatch
    end
  | TEnum ver vs =>
    match v with
    | VObj ver' r =>
      if version_eqb ver' ver then
        match r with
        | [(k, x)] =>
          (fix go vs := match vs with
           | [] => Err UnknownVariant
           | (k', t) :: vs => if beqb k k' then match t with Some t => rmap (fun d => DVar k (Some d)) (load t x) | None => Ok (DVar k None) end
                              else go vs
           end) vs
        | _ => Err TypeMismatch
        end
      else Err UnknownVersion
    | _ => Err TypeMismatch
    end
  end.

Example record_model_sanity :
  f64_to_f32 f64_one = f32_one /\ f32_to_f64 f32_one = f64_one /\ f64_to_f32 f64_inf_bits = f32_inf /\
  f32_to_f64 f32_inf = f64_inf_bits /\ f64_to_f32 f64_nan_bits = f32_nan /\ f32_to_f64 1 = 3936146074321813504 /\
  f64_to_f32 3936146074321813504 = 1 /\ f32_of_N 16777217 = f32_of_N 16777216 /\ f64_to_f32 (f32_to_f64 f32_max) = f32_max /\
  f64_to_f32 9218868437227405311 = f32_inf /\ f32_of_Z (-1) = f32_neg_one /\
  show_version (mkver 10 3) = str "10.3" /\ parse_version (str "10.3") = Some (mkver 10 3) /\ parse_version (str "1.2.3") = None.
Proof. vm_compute. repeat split. Qed.
