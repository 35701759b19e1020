(** Model of diskann-label-filter/src/traits/key_codec.rs (DefaultKeyCodec), of the range bounds
    and key lists of kv_index/generic_index.rs, and of the attribute values of attribute.rs.

    Strings are their UTF-8 bytes.  [i64] is [Z] (values in range), [f64] a bit pattern. *)
From Verif.Lib Require Import Base Bytes F64.
Local Open Scope N_scope.

(** attribute.rs 26-33 *)
Inductive value := VEmpty | VBool (b : bool) | VInt (z : Z) | VReal (x : f64) | VStr (s : bytes).

(** key_codec.rs 66-69: [(n as u64) ^ 0x8000000000000000]. *)
Definition encode_i64 (z : Z) : N := N.lxor (Z.to_N (z mod 18446744073709551616)) two63.
(** key_codec.rs 74-82 *)
Definition encode_f64 (x : f64) : N :=
  if N.shiftr x 63 =? 0 then N.lxor x two63 else N.lxor x (two64 - 1).
(** [{:016x}] of a u64. *)
Definition hex_digit (d : N) : N := if d <? 10 then 48 + d else 87 + d.
Fixpoint hex (n : nat) (x : N) : bytes :=
  match n with O => [] | S n => hex n (x / 16) ++ [hex_digit (x mod 16)] end.
Definition hex16 (x : N) : bytes := hex 16 x.
(** key_codec.rs 43-50 *)
Definition sep : N := 0.
Definition pI : N := 73. Definition pF : N := 70. Definition pS : N := 83. Definition pB : N := 66.
(** key_codec.rs 87-131, 139-151 *)
Definition encode_key (field : bytes) (v : value) : bytes :=
  match v with
  | VInt z => field ++ sep :: pI :: hex16 (encode_i64 z)
  | VReal x => field ++ sep :: pF :: hex16 (encode_f64 x)
  | VStr s => field ++ sep :: pS :: s
  | VBool b => field ++ sep :: pB :: [if b then 49 else 48]
  | VEmpty => field ++ sep :: pS :: []
  end.

(** Range bounds; generic_index.rs 224-267 and 282-315.  The comparison value is an [f64];
    [Eq] and [Ne] have no range.  [val + 1] panics on overflow in debug builds and wraps in
    release builds; here it wraps. *)
Inductive range_op := Lt | Lte | Gt | Gte.
Definition top : bytes := [244; 143; 191; 191].                 (* "\u{10FFFF}" *)
Definition wrap_i64 (z : Z) : Z := ((z + 9223372036854775808) mod 18446744073709551616 - 9223372036854775808)%Z.
Definition int_bounds (field : bytes) (op : range_op) (t : f64) : bytes * bytes :=
  let v := f64_to_i64 t in
  match op with
  | Gt => (encode_key field (VInt (wrap_i64 (v + 1))), field ++ sep :: pI :: top)
  | Gte => (encode_key field (VInt v), field ++ sep :: pI :: top)
  | Lte => (field ++ sep :: [pI], encode_key field (VInt (wrap_i64 (v + 1))))
  | Lt => (field ++ sep :: [pI], encode_key field (VInt v))
  end.
(** [serde_json::Number::from_f64] refuses NaN and infinities. *)
Definition f64_finite (x : f64) : bool := f64_mag x <? f64_inf_bits.
Definition float_bounds (field : bytes) (op : range_op) (t : f64) : bytes * bytes :=
  if f64_finite t
  then match op with
       | Gt | Gte => (encode_key field (VReal t), field ++ sep :: pF :: top)
       | Lte | Lt => (field ++ sep :: [pF], encode_key field (VReal t))
       end
  else ([], []).

(** Byte strings compare like [Ord for [u8]]. *)
Fixpoint bltb (a b : bytes) : bool :=
  match a, b with
  | _, [] => false
  | [], _ :: _ => true
  | x :: a, y :: b => if x <? y then true else if x =? y then bltb a b else false
  end.
Definition bleb (a b : bytes) : bool := negb (bltb b a).

(** Decimal digits of a document id and the reverse key "@R:{doc_id}"; generic_index.rs 106-108. *)
Fixpoint dec_digits (fuel : nat) (x : N) : bytes :=
  match fuel with
  | O => []
  | S fuel => (if x <? 10 then [] else dec_digits fuel (x / 10)) ++ [48 + x mod 10]
  end.
Definition decimal (x : N) : bytes := dec_digits (S (N.to_nat (N.log2 x))) x.
Definition reverse_key (id : N) : bytes := [64; 82; 58] ++ decimal id.

(** Key lists; generic_index.rs 111-131.  [None]: the size calculation overflows.  Counts and
    lengths are cast with [as u32]. *)
Definition two32 : N := 4294967296.
Fixpoint total_size (acc : N) (keys : list bytes) : option N :=
  match keys with
  | [] => Some acc
  | k :: keys => let acc := acc + 4 + N.of_nat (length k) in if acc <? two64 then total_size acc keys else None
  end.
Definition ser_keys (keys : list bytes) : option bytes :=
  match total_size 4 keys with
  | None => None
  | Some _ => Some (le_enc 4 (N.of_nat (length keys) mod two32) ++
      flat_map (fun k => le_enc 4 (N.of_nat (length k) mod two32) ++ k) keys)
  end.
(** Deserialization; generic_index.rs 134-180.  [DPanic] is an out-of-bounds slice. *)
Inductive decoded := DOk (keys : list bytes) | DErr | DPanic.
Definition index_range (b : bytes) (lo hi : nat) : option bytes :=
  if (lo <=? hi)%nat && (hi <=? length b)%nat then Some (slice lo (hi - lo) b) else None.
(** The loop [for i in 0..count], [fuel = count - i]. *)
Fixpoint de_loop (fuel : nat) (b : bytes) (pos : nat) (keys : list bytes) : decoded :=
  match fuel with
  | O => DOk keys
  | S fuel =>
    if (length b <? pos + 4)%nat then DErr else
    match index_range b pos (pos + 4) with
    | None => DPanic
    | Some lb =>
      let len := N.to_nat (le_dec lb) in
      let pos := (pos + 4)%nat in
      if (length b <? pos + len)%nat then DErr else
      match index_range b pos (pos + len) with
      | None => DPanic
      | Some k => de_loop fuel b (pos + len) (keys ++ [k])
      end
    end
  end.
Definition de_keys (b : bytes) : decoded :=
  if (length b <? 4)%nat then DErr else
  match index_range b 0 4 with
  | None => DPanic
  | Some cb => de_loop (N.to_nat (le_dec cb)) b 4 []
  end.
