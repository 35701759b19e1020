(** Model of the Hadamard transform and of the transforms built on it:
    diskann-quantization/src/algorithms/hadamard.rs and
    diskann-quantization/src/algorithms/transforms/{mod,utils,null,padding_hadamard,double_hadamard}.rs.

    The arithmetic is an argument: [f32] operations are one instance, exact real numbers another.
    Lengths are [nat]: a slice has fewer than 2^63 elements.  Allocation failure is not modelled.
    The [RandomRotation] transform (feature "linalg", a matrix product) is not modelled. *)
From Verif.Lib Require Import Base Lists.
Local Open Scope nat_scope.

Record ops (F : Type) := mkOps {
  zero : F; one : F;
  add : F -> F -> F; sub : F -> F -> F; mul : F -> F -> F; div : F -> F -> F;
  neg : F -> F;
  fma : F -> F -> F -> F;               (* fma x y z = x * y + z, [mul_add] *)
  root : F -> F;                        (* square root *)
  of_nat : nat -> F;                    (* [as f32] of a length *)
  xor_bits : F -> N -> F                (* [f32::from_bits(x.to_bits() ^ s)] *)
}.
Arguments mkOps {F}. Arguments zero {F}. Arguments one {F}. Arguments add {F}. Arguments sub {F}.
Arguments mul {F}. Arguments div {F}. Arguments neg {F}. Arguments fma {F}. Arguments root {F}.
Arguments of_nat {F}. Arguments xor_bits {F}.

Inductive arch := Scalar | V3.
(** hadamard.rs 70-82, 84-100: V4 is retargeted to V3 and Neon to Scalar, so two cases remain. *)

(** usize::is_power_of_two. *)
Definition is_pow2 (n : nat) : bool := Nat.eqb (2 ^ Nat.log2 n) n.

Section rotate.
Context {F : Type} (o : ops F).

(** Element-wise combination of two lanes vectors or halves ([std::iter::zip]). *)
Definition map2 (f : F -> F -> F) (l r : list F) : list F :=
  map (fun p => f (fst p) (snd p)) (combine l r).

(** hadamard.rs 169-174, 217-222: the halves become sums and differences. *)
Definition butterfly (l r : list F) : list F := map2 (add o) l r ++ map2 (sub o) l r.

(** hadamard.rs 232-241 [HADAMARD_8]: [true] stands for 1.0 and [false] for -1.0. *)
Definition HADAMARD_8 : list (list bool) :=
  [[true; true; true; true; true; true; true; true];
   [true; false; true; false; true; false; true; false];
   [true; true; false; false; true; true; false; false];
   [true; false; false; true; true; false; false; true];
   [true; true; true; true; false; false; false; false];
   [true; false; true; false; false; true; false; true];
   [true; true; false; false; false; false; true; true];
   [true; false; false; true; false; true; true; false]].
Definition h8_row (i : nat) : list F :=
  map (fun b : bool => if b then one o else neg o (one o)) (nth i HADAMARD_8 []).

(** [r.mul_add_simd(c, d)] with [r] a splat. *)
Definition fma_row (r : F) (c d : list F) : list F := map2 (fun c d => fma o r c d) c d.

(** hadamard.rs 264-319: one call of [process_patch] on register [d_k].  The eight registers do not
    interact, so the interleaving of their updates is dropped. *)
Definition process_patch (x : list F) (k offset : nat) (d : list F) : list F :=
  let c0 := h8_row offset in
  let c1 := h8_row (offset + 1) in
  let d := fma_row (nth (offset + 8 * k) x (zero o)) c0 d in
  fma_row (nth (offset + 8 * k + 1) x (zero o)) c1 d.

(** hadamard.rs 321-325: the register [d_k] after the four patches. *)
Definition register (x : list F) (k : nat) : list F :=
  fold_left (fun d i => process_patch x k (2 * i) d) [0; 1; 2; 3] (repeat (zero o) 8).

(** hadamard.rs 244-371 [micro_kernel_64]. *)
Definition micro_kernel_64 (x : list F) : list F :=
  let p := map2 (add o) in
  let m := map2 (sub o) in
  let d0 := register x 0 in let d1 := register x 1 in
  let d2 := register x 2 in let d3 := register x 3 in
  let d4 := register x 4 in let d5 := register x 5 in
  let d6 := register x 6 in let d7 := register x 7 in
  let e0 := p d0 d1 in let e1 := m d0 d1 in
  let e2 := p d2 d3 in let e3 := m d2 d3 in
  let e4 := p d4 d5 in let e5 := m d4 d5 in
  let e6 := p d6 d7 in let e7 := m d6 d7 in
  let f0 := p e0 e2 in let f1 := p e1 e3 in
  let f2 := m e0 e2 in let f3 := m e1 e3 in
  let f4 := p e4 e6 in let f5 := p e5 e7 in
  let f6 := m e4 e6 in let f7 := m e5 e7 in
  p f0 f4 ++ p f1 f5 ++ p f2 f6 ++ p f3 f7 ++
  m f0 f4 ++ m f1 f5 ++ m f2 f6 ++ m f3 f7.

(** hadamard.rs 142-178 (Scalar) and 181-226 (V3) [HadamardTransformRecursive].  The recursion is on
    the length; [fuel] bounds its depth. *)
Fixpoint had (ar : arch) (fuel : nat) (x : list F) : list F :=
  match fuel with
  | 0 => x
  | S fuel' =>
      let len := length x in
      if (match ar with V3 => len =? 64 | Scalar => false end) then micro_kernel_64 x
      else if len =? 2 then
        let l := nth 0 x (zero o) in
        let r := nth 1 x (zero o) in
        [add o l r; sub o l r]
      else
        let left := had ar fuel' (firstn (len / 2) x) in
        let right := had ar fuel' (skipn (len / 2) x) in
        butterfly left right
  end.

(** hadamard.rs 109-135 [HadamardTransformOuter]; [None] is [NotPowerOfTwo]. *)
Definition hadamard_transform (ar : arch) (x : list F) : option (list F) :=
  let len := length x in
  if negb (is_pow2 len) then None
  else if len =? 1 then Some x
  else
    let y := had ar len x in
    let m := div o (one o) (root o (of_nat o len)) in
    Some (map (fun i => mul o i m) y).

(** utils.rs 46-48 [is_sign]. *)
Definition SIGN : N := 2147483648.
Definition is_sign (x : N) : bool := N.eqb x 0 || N.eqb x SIGN.
(** utils.rs 51-58 [sign_to_bool], [bool_to_sign]. *)
Definition sign_to_bool (x : N) : bool := N.eqb x SIGN.
Definition bool_to_sign (b : bool) : N := if b then SIGN else 0%N.

(** utils.rs 60-80 [subsample_indices]: [sample] is the random choice of distinct indices; the
    result is cast to u32 and sorted. *)
Fixpoint insert_sorted (x : N) (l : list N) : list N :=
  match l with
  | [] => [x]
  | y :: l' => if N.leb x y then x :: l else y :: insert_sorted x l'
  end.
Definition subsample_indices (sample : nat -> nat -> list nat) (len amount : nat) : list N :=
  fold_right insert_sorted [] (map (fun i => (N.of_nat i mod 2 ^ 32)%N) (sample len amount)).

Inductive target_dim := Same | Natural | Override (n : nat).

(** padding_hadamard.rs 44-69 [PaddingHadamard]. *)
Record padding := mkPad { p_signs : list N; p_dim : nat; p_sub : option (list N) }.
(** double_hadamard.rs 56-74 [DoubleHadamard]. *)
Record double := mkDbl { d_signs0 : list N; d_signs1 : list N; d_target : nat; d_sub : option (list N) }.

Inductive transform := TPadding (p : padding) | TDouble (d : double) | TNull (dim : nat).

(** usize::next_power_of_two. *)
Definition next_pow2 (n : nat) : nat := 2 ^ Nat.log2_up n.

(** padding_hadamard.rs 94-135 [PaddingHadamard::new].  [bits i] is the i-th random boolean. *)
Definition padding_new (dim : nat) (t : target_dim) (bits : nat -> bool) (sample : nat -> nat -> list nat) : padding :=
  let signs := map (fun i => bool_to_sign (bits i)) (seq 0 dim) in
  let '(padded, target) :=
    match t with
    | Same => (next_pow2 dim, dim)
    | Natural => (next_pow2 dim, next_pow2 dim)
    | Override n => (next_pow2 (Nat.max n dim), n)
    end in
  mkPad signs padded
    (if target <? padded then Some (subsample_indices sample padded target) else None).

(** double_hadamard.rs 98-145 [DoubleHadamard::new]. *)
Definition double_new (dim : nat) (t : target_dim) (bits : nat -> bool) (sample : nat -> nat -> list nat) : double :=
  let target := match t with Override n => n | Same => dim | Natural => dim end in
  let inter := Nat.max dim target in
  let signs0 := map (fun i => bool_to_sign (bits i)) (seq 0 dim) in
  let signs1 := map (fun i => bool_to_sign (bits i)) (seq dim inter) in
  mkDbl signs0 signs1 target
    (if target <? dim then Some (subsample_indices sample dim target) else None).

(** mod.rs 61-105 [TransformKind], 143-171 [Transform::new] with a generator supplied. *)
Inductive kind := KPadding (t : target_dim) | KDouble (t : target_dim) | KNull.
Definition transform_new (k : kind) (dim : nat) (bits : nat -> bool) (sample : nat -> nat -> list nat) : transform :=
  match k with
  | KPadding t => TPadding (padding_new dim t bits sample)
  | KDouble t => TDouble (double_new dim t bits sample)
  | KNull => TNull dim
  end.

(** padding_hadamard.rs 176-187, double_hadamard.rs 209-216, null.rs 29-31, mod.rs 173-190. *)
Definition input_dim (t : transform) : nat :=
  match t with
  | TPadding p => length (p_signs p)
  | TDouble d => length (d_signs0 d)
  | TNull n => n
  end.
Definition output_dim (t : transform) : nat :=
  match t with
  | TPadding p => match p_sub p with None => p_dim p | Some v => length v end
  | TDouble d => d_target d
  | TNull n => n
  end.
(** padding_hadamard.rs 192-194, double_hadamard.rs 222-224, null.rs 34-36, mod.rs 192-200. *)
Definition preserves_norms (t : transform) : bool :=
  match t with
  | TPadding p => match p_sub p with None => true | Some _ => false end
  | TDouble d => match d_sub d with None => true | Some _ => false end
  | TNull _ => true
  end.

(** padding_hadamard.rs 204-221, double_hadamard.rs 253-255: zip of destination, source and signs;
    the destination beyond the shortest is left as it was. *)
Fixpoint flip_zip (dst src : list F) (signs : list N) : list F :=
  match dst, src, signs with
  | _ :: dst', s :: src', g :: signs' => xor_bits o s g :: flip_zip dst' src' signs'
  | _, _, _ => dst
  end.
(** double_hadamard.rs 270-272: signs flipped in place. *)
Fixpoint flip_self (dst : list F) (signs : list N) : list F :=
  match dst, signs with
  | d :: dst', g :: signs' => xor_bits o d g :: flip_self dst' signs'
  | _, _ => dst
  end.
(** padding_hadamard.rs 204-221 [copy_and_flip_signs]. *)
Definition copy_and_flip (p : padding) (dst src : list F) : list F :=
  let dst := flip_zip dst src (p_signs p) in
  firstn (length (p_signs p)) dst ++ repeat (zero o) (length dst - length (p_signs p)).

Inductive outcome := SourceMismatch | DestinationMismatch | Panicked | Done (dst : list F).

(** padding_hadamard.rs 227-273, double_hadamard.rs 238-288: the subsampled coordinates, rescaled;
    an index out of bounds panics. *)
Fixpoint gather (tmp : list F) (rescale : F) (idx : list N) : option (list F) :=
  match idx with
  | [] => Some []
  | i :: idx' =>
      match nth_error tmp (N.to_nat i), gather tmp rescale idx' with
      | Some v, Some r => Some (mul o v rescale :: r)
      | _, _ => None
      end
  end.
Definition subsampled (tmp : list F) (idx : list N) : outcome :=
  match gather tmp (root o (div o (of_nat o (length tmp)) (of_nat o (length idx)))) idx with
  | Some r => Done r
  | None => Panicked
  end.

(** padding_hadamard.rs 227-273 [PaddingHadamard::transform_into] after the length checks; [dst] is
    the caller's buffer. *)
Definition padding_into (ar : arch) (p : padding) (dst src : list F) : outcome :=
  match p_sub p with
  | None =>
      match hadamard_transform ar (copy_and_flip p dst src) with
      | Some y => Done y
      | None => Panicked
      end
  | Some idx =>
      match hadamard_transform ar (copy_and_flip p (repeat (zero o) (p_dim p)) src) with
      | Some tmp => subsampled tmp idx
      | None => Panicked
      end
  end.

(** double_hadamard.rs 238-288 [DoubleHadamard::transform_into] after the length checks.  The shift
    at 257 panics (debug) for an intermediate dimension of zero. *)
Definition double_into (ar : arch) (d : double) (dst src : list F) : outcome :=
  let inter := Nat.max (length (d_signs0 d)) (d_target d) in
  let tmp := flip_zip (repeat (zero o) inter) src (d_signs0 d) in
  if inter =? 0 then Panicked
  else
    let split := 2 ^ Nat.log2 inter in
    match hadamard_transform ar (firstn split tmp) with
    | None => Panicked
    | Some head =>
        let tmp := flip_self (head ++ skipn split tmp) (d_signs1 d) in
        match hadamard_transform ar (skipn (inter - split) tmp) with
        | None => Panicked
        | Some tail =>
            let tmp := firstn (inter - split) tmp ++ tail in
            match d_sub d with
            | None => Done tmp
            | Some idx => subsampled tmp idx
            end
        end
    end.

(** utils.rs 24-43 [check_dims]; mod.rs 202-215, null.rs 38-46. *)
Definition transform_into (ar : arch) (t : transform) (dst src : list F) : outcome :=
  if negb (length src =? input_dim t) then SourceMismatch
  else if negb (length dst =? output_dim t) then DestinationMismatch
  else match t with
       | TPadding p => padding_into ar p dst src
       | TDouble d => double_into ar d dst src
       | TNull _ => Done src
       end.

End rotate.
Arguments SourceMismatch {F}. Arguments DestinationMismatch {F}. Arguments Panicked {F}. Arguments Done {F}.

(** src/utils.rs 81-101 [is_strictly_monotonic]. *)
Fixpoint monotonic_from (x : N) (l : list N) : bool :=
  match l with [] => true | y :: l' => if N.leb y x then false else monotonic_from y l' end.
Definition is_strictly_monotonic (l : list N) : bool :=
  match l with [] => true | x :: l' => monotonic_from x l' end.

(** padding_hadamard.rs 137-174 [PaddingHadamard::try_from_parts]. *)
Inductive pad_error := InvalidSignRepresentation | SignsTooLong | DimNotPowerOfTwo
  | PSubsampleNotMonotonic | PLastSubsampleTooLarge | SubsampleEmpty.
Definition padding_from_parts (signs : list N) (padded : nat) (sub : option (list N)) : padding + pad_error :=
  if negb (forallb is_sign signs) then inr InvalidSignRepresentation
  else if padded <? length signs then inr SignsTooLong
  else if negb (is_pow2 padded) then inr DimNotPowerOfTwo
  else match sub with
       | None => inl (mkPad signs padded None)
       | Some s =>
           if negb (is_strictly_monotonic s) then inr PSubsampleNotMonotonic
           else match rev s with
                | last :: _ => if N.of_nat padded <=? last then inr PLastSubsampleTooLarge
                               else inl (mkPad signs padded (Some s))
                | [] => inr SubsampleEmpty
                end
       end%N.

(** double_hadamard.rs 146-207 [DoubleHadamard::try_from_parts], release build. *)
Inductive dbl_error := Signs0Empty | Signs1TooSmall | Signs0Invalid | Signs1Invalid
  | DSubsampleNotMonotonic | DLastSubsampleTooLarge | InvalidSubsampleLength.
Definition double_from_parts (signs0 signs1 : list N) (sub : option (list N)) : double + dbl_error :=
  if length signs0 =? 0 then inr Signs0Empty
  else if length signs1 <? length signs0 then inr Signs1TooSmall
  else if negb (forallb is_sign signs0) then inr Signs0Invalid
  else if negb (forallb is_sign signs1) then inr Signs1Invalid
  else match sub with
       | None => inl (mkDbl signs0 signs1 (length signs1) None)
       | Some s =>
           if negb (is_strictly_monotonic s) then inr DSubsampleNotMonotonic
           else match rev s with
                | last :: _ => if (N.of_nat (length signs1) <=? last)%N then inr DLastSubsampleTooLarge
                               else inl (mkDbl signs0 signs1 (length s) (Some s))
                | [] => inr InvalidSubsampleLength
                end
       end.
(** double_hadamard.rs 189-194: the assertion of debug builds on the way to acceptance. *)
Definition double_debug_assert (signs1 : list N) (sub : option (list N)) : bool :=
  match sub with None => true | Some s => length s <? length signs1 end.

(** The tables written to a flatbuffer: padding_hadamard.rs 315-340, double_hadamard.rs 336-361,
    null.rs 59-72, mod.rs 258-292. *)
Inductive proto :=
  | PPadding (signs : list bool) (padded : N) (sub : option (list N))
  | PDouble (signs0 signs1 : list bool) (sub : option (list N))
  | PNull (dim : N).
Definition pack (t : transform) : proto :=
  match t with
  | TPadding p => PPadding (map sign_to_bool (p_signs p)) (N.of_nat (p_dim p) mod 2 ^ 32) (p_sub p)
  | TDouble d => PDouble (map sign_to_bool (d_signs0 d)) (map sign_to_bool (d_signs1 d)) (d_sub d)
  | TNull n => PNull (N.of_nat n mod 2 ^ 32)
  end.
(** padding_hadamard.rs 344-357, double_hadamard.rs 365-378, null.rs 76-86, mod.rs 296-325. *)
Inductive unpack_error := UPadding (e : pad_error) | UDouble (e : dbl_error) | DimCannotBeZero.
Definition unpack (p : proto) : transform + unpack_error :=
  match p with
  | PPadding signs padded sub =>
      match padding_from_parts (map bool_to_sign signs) (N.to_nat padded) sub with
      | inl t => inl (TPadding t) | inr e => inr (UPadding e)
      end
  | PDouble s0 s1 sub =>
      match double_from_parts (map bool_to_sign s0) (map bool_to_sign s1) sub with
      | inl t => inl (TDouble t) | inr e => inr (UDouble e)
      end
  | PNull n => if N.eqb n 0 then inr DimCannotBeZero else inl (TNull (N.to_nat n))
  end.
