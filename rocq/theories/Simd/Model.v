(** Model of the SIMD distance kernels, diskann-vector/src/distance/simd.rs.

    A SIMD register is the list of its lanes.  Floating-point arithmetic is an argument ([fops]);
    integer lanes are [Z] with explicit wrapping.  [None] is a panic or a read outside the slices
    (the debug assertion of [Loader::load]). *)
From Coq Require Import List ZArith PeanoNat Bool.
Import ListNotations.

Definition bind {A B} (x : option A) (f : A -> option B) : option B :=
  match x with Some a => f a | None => None end.
Notation "'do' x <- e ; f" := (bind e (fun x => f)) (at level 200, x pattern, e at level 100, f at level 200).

(** ** The driver *)

(** [Strategy1x1] ... [Strategy2x4] and their [BLOCK_SIZE]; 245-264, 289, 322, 366, 425. *)
Inductive strategy := S1x1 | S2x1 | S4x1 | S4x2 | S2x4.
Definition block_size (st : strategy) : nat :=
  match st with S1x1 => 1 | S2x1 => 2 | S4x1 | S4x2 | S2x4 => 4 end.

(** [SIMDSchema]; 492-600.  [epilogue] is given the elements that are left. *)
Record schema (L R A T : Type) := mkSchema {
  width : nat;
  main_loop : strategy;
  init : A;
  accumulate : list L -> list R -> A -> A;
  combine : A -> A -> A;
  epilogue : list L -> list R -> A -> A;
  reduce : A -> T
}.
Arguments mkSchema {L R A T}. Arguments width {L R A T}. Arguments main_loop {L R A T}. Arguments init {L R A T}.
Arguments accumulate {L R A T}. Arguments combine {L R A T}. Arguments epilogue {L R A T}. Arguments reduce {L R A T}.

Section Driver.
  Context {L R A T : Type} (s : schema L R A T) (x : list L) (y : list R).

  (** [Loader::load], 161-184, followed by [accumulate_tuple], 593-599. *)
  Definition feed (acc : A) (block off : nat) : option A :=
    let stride := width s in
    let block_stride := stride * block_size (main_loop s) in
    let offset := block_stride * block + stride * off in
    if offset + stride <=? length x
    then Some (accumulate s (firstn stride (skipn offset x)) (firstn stride (skipn offset y)) acc)
    else None.

  (** A [for i in 0..n] loop. *)
  Definition for_range {S} (n : nat) (body : nat -> S -> option S) (st : S) : option S :=
    fold_left (fun st i => bind st (body i)) (seq 0 n) (Some st).

  (** [Strategy1x1::main]; 263-286. *)
  Definition main1x1 (trip epi : nat) : option A :=
    for_range trip (fun i s0 => feed s0 i 0) (init s).
  (** [Strategy2x1::main]; 288-319. *)
  Definition main2x1 (trip epi : nat) : option A :=
    do st <- for_range trip (fun i '(s0, s1) =>
      do s0 <- feed s0 i 0; do s1 <- feed s1 i 1; Some (s0, s1)) (init s, init s);
    let '(s0, s1) := st in
    let s' := combine s s0 s1 in
    if negb (epi =? 0) then feed s' trip 0 else Some s'.
  (** The three peeled loads at the end of the strategies with four vectors per block;
      350-360, 409-419. *)
  Definition tail4 (trip epi : nat) (s0 s1 s2 s3 : A) : option (A * A * A * A) :=
    do s0 <- (if 1 <=? epi then feed s0 trip 0 else Some s0);
    do s1 <- (if 2 <=? epi then feed s1 trip 1 else Some s1);
    do s2 <- (if 3 <=? epi then feed s2 trip 2 else Some s2);
    Some (s0, s1, s2, s3).
  (** [Strategy4x1::main]; 321-363. *)
  Definition main4x1 (trip epi : nat) : option A :=
    do st <- for_range trip (fun i '(s0, s1, s2, s3) =>
      do s0 <- feed s0 i 0; do s1 <- feed s1 i 1; do s2 <- feed s2 i 2; do s3 <- feed s3 i 3;
      Some (s0, s1, s2, s3)) (init s, init s, init s, init s);
    let '(s0, s1, s2, s3) := st in
    do st <- tail4 trip epi s0 s1 s2 s3;
    let '(s0, s1, s2, s3) := st in
    Some (combine s (combine s s0 s1) (combine s s2 s3)).
  (** [Strategy4x2::main]; 365-422. *)
  Definition main4x2 (trip epi : nat) : option A :=
    do st <- for_range (trip / 2) (fun i '(s0, s1, s2, s3) =>
      let j := 2 * i in
      do s0 <- feed s0 j 0; do s1 <- feed s1 j 1; do s2 <- feed s2 j 2; do s3 <- feed s3 j 3;
      do s0 <- feed s0 j 4; do s1 <- feed s1 j 5; do s2 <- feed s2 j 6; do s3 <- feed s3 j 7;
      Some (s0, s1, s2, s3)) (init s, init s, init s, init s);
    let '(s0, s1, s2, s3) := st in
    do st <- (if negb (trip mod 2 =? 0) then
      let j := trip - 1 in
      do s0 <- feed s0 j 0; do s1 <- feed s1 j 1; do s2 <- feed s2 j 2; do s3 <- feed s3 j 3;
      Some (s0, s1, s2, s3) else Some (s0, s1, s2, s3));
    let '(s0, s1, s2, s3) := st in
    do st <- tail4 trip epi s0 s1 s2 s3;
    let '(s0, s1, s2, s3) := st in
    Some (combine s (combine s s0 s1) (combine s s2 s3)).
  (** [Strategy2x4::main]; 424-483. *)
  Definition main2x4 (trip epi : nat) : option A :=
    do st <- for_range (trip / 2) (fun i '(s0, s1) =>
      let j := 2 * i in
      do s0 <- feed s0 j 0; do s1 <- feed s1 j 1; do s0 <- feed s0 j 2; do s1 <- feed s1 j 3;
      do s0 <- feed s0 j 4; do s1 <- feed s1 j 5; do s0 <- feed s0 j 6; do s1 <- feed s1 j 7;
      Some (s0, s1)) (init s, init s);
    let '(s0, s1) := st in
    do st <- (if negb (trip mod 2 =? 0) then
      let j := trip - 1 in
      do s0 <- feed s0 j 0; do s1 <- feed s1 j 1; do s0 <- feed s0 j 2; do s1 <- feed s1 j 3;
      Some (s0, s1) else Some (s0, s1));
    let '(s0, s1) := st in
    do s0 <- (if 1 <=? epi then feed s0 trip 0 else Some s0);
    do s1 <- (if 2 <=? epi then feed s1 trip 1 else Some s1);
    do s0 <- (if 3 <=? epi then feed s0 trip 2 else Some s0);
    Some (combine s s0 s1).
  Definition main_run (trip epi : nat) : option A :=
    match main_loop s with
    | S1x1 => main1x1 trip epi | S2x1 => main2x1 trip epi | S4x1 => main4x1 trip epi
    | S4x2 => main4x2 trip epi | S2x4 => main2x4 trip epi
    end.
  (** [simd_op] before the reduction; 686-743. *)
  Definition simd_acc : option A :=
    let len := length x in
    if negb (len =? length y) then None else
    let simd_width := width s in
    let unroll := block_size (main_loop s) in
    let trip_count := len / (simd_width * unroll) in
    let epilogues := (len - simd_width * unroll * trip_count) / simd_width in
    do s0 <- main_run trip_count epilogues;
    let remainder := len mod simd_width in
    if negb (remainder =? 0) then
      let i := len - remainder in Some (epilogue s (skipn i x) (skipn i y) s0)
    else Some s0.
  (** [simd_op]; 744. *)
  Definition simd_op : option T := do a <- simd_acc; Some (reduce s a).
End Driver.

(** ** Registers *)

Fixpoint map3 {X Y Z W} (f : X -> Y -> Z -> W) (a : list X) (b : list Y) (c : list Z) : list W :=
  match a, b, c with
  | x :: a, y :: b, z :: c => f x y z :: map3 f a b c
  | _, _, _ => []
  end.
Fixpoint map2 {X Y Z} (f : X -> Y -> Z) (a : list X) (b : list Y) : list Z :=
  match a, b with
  | x :: a, y :: b => f x y :: map2 f a b
  | _, _ => []
  end.
(** [load_simd_first]: the lanes that are not loaded are zero. *)
Definition pad {X} (zero : X) (n : nat) (l : list X) : list X := firstn n l ++ repeat zero (n - length l).
(** [sum_tree], diskann-wide: add the upper half of the register to the lower half until one lane
    is left.  [fuel] is the number of halvings. *)
Fixpoint sum_tree_ {X} (add : X -> X -> X) (zero : X) (fuel : nat) (l : list X) : X :=
  match fuel with
  | O => hd zero l
  | S fuel => let h := length l / 2 in sum_tree_ add zero fuel (map2 add (firstn h l) (skipn h l))
  end.
Definition sum_tree {X} (add : X -> X -> X) (zero : X) (l : list X) : X :=
  sum_tree_ add zero (Nat.log2 (length l)) l.

(** ** Floating-point kernels *)

Record fops (F : Type) := mkF {
  zero : F; one : F; min_positive : F;
  add : F -> F -> F; sub : F -> F -> F; mul : F -> F -> F; neg : F -> F; div : F -> F -> F;
  fma : F -> F -> F -> F;              (* fma x y z = x * y + z, one rounding *)
  abs : F -> F; sqrt : F -> F;
  fmin : F -> F -> F; fmax : F -> F -> F; (* f32::min, f32::max: the other argument if one is NaN *)
  lt : F -> F -> bool
}.
Arguments mkF {F}. Arguments zero {F}. Arguments one {F}. Arguments min_positive {F}. Arguments add {F}.
Arguments sub {F}. Arguments mul {F}. Arguments neg {F}. Arguments div {F}. Arguments fma {F}. Arguments abs {F}.
Arguments sqrt {F}. Arguments fmin {F}. Arguments fmax {F}. Arguments lt {F}.

Inductive arch := V4 | V3 | Neon | Scalar.
(** The element types of the two vectors: f32/f32, f16/f16, f32/f16. *)
Inductive felem := F32 | F16 | F32F16.
Inductive kind := L2 | IP | L1.
(** How a product is added to an accumulator: [mul_add], [(x * y) + acc], [acc + (x * y)]. *)
Inductive style := Fused | MulAdd | AddMul.
(** The three epilogues: masked load (539-565), a scalar loop whose sum goes into lane 0
    ([from_array] of [[s, 0, ...]]), and a loop over registers [[x, 0, ...]]. *)
Inductive epi := Masked | ScalarLoop (st : style) (cap : bool) | LaneLoop (cap : bool).
Record cfg := mkCfg { c_width : nat; c_main : strategy; c_style : style; c_epi : epi }.

(** [cap]: the loop runs to [len.min(SIMDWidth - 1)] rather than to [len].

    The implementations of L2: 786-1150. *)
Definition l2_cfg (a : arch) (e : felem) : cfg :=
  match e, a with
  | F32, (V4 | V3) => mkCfg 8 S4x1 Fused Masked
  | F32, Neon => mkCfg 4 S4x1 Fused (ScalarLoop Fused true)
  | F32, Scalar => mkCfg 4 S2x1 MulAdd (ScalarLoop AddMul false)
  | F16, (V4 | V3) => mkCfg 8 S2x4 Fused Masked
  | F16, Neon => mkCfg 4 S4x1 Fused (LaneLoop true)
  | F16, Scalar => mkCfg 1 S1x1 AddMul Masked
  | F32F16, _ => mkCfg 8 S4x2 Fused Masked
  end.
(** The implementations of IP: 1558-1911. *)
Definition ip_cfg (a : arch) (e : felem) : cfg :=
  match e, a with
  | F32, (V4 | V3) => mkCfg 8 S4x1 Fused Masked
  | F32, Neon => mkCfg 4 S4x1 Fused (ScalarLoop Fused true)
  | F32, Scalar => mkCfg 4 S2x1 MulAdd (ScalarLoop AddMul false)
  | F16, V4 => mkCfg 8 S4x1 Fused Masked
  | F16, V3 => mkCfg 8 S2x4 Fused Masked
  | F16, Neon => mkCfg 4 S4x1 Fused (LaneLoop true)
  | F16, Scalar => mkCfg 1 S1x1 MulAdd Masked
  | F32F16, _ => mkCfg 8 S4x2 Fused Masked
  end.
(** The implementations of L1Norm: 3215-3540 (there is none for f32/f16: the entry is not used). *)
Definition l1_cfg (a : arch) (e : felem) : cfg :=
  match e, a with
  | F32, V4 => mkCfg 16 S4x1 MulAdd Masked
  | F32, V3 => mkCfg 8 S4x1 MulAdd Masked
  | F32, Neon => mkCfg 4 S4x1 MulAdd (ScalarLoop AddMul true)
  | F32, Scalar => mkCfg 4 S2x1 MulAdd (ScalarLoop AddMul false)
  | F16, (V4 | V3) => mkCfg 8 S2x4 MulAdd Masked
  | F16, Neon => mkCfg 4 S2x4 MulAdd (LaneLoop true)
  | F16, Scalar => mkCfg 1 S1x1 MulAdd Masked
  | F32F16, _ => mkCfg 8 S2x4 MulAdd Masked
  end.
(** The implementations of CosineStateless: 2396-2748. *)
Definition cos_cfg (a : arch) (e : felem) : cfg :=
  match e, a with
  | F32, V4 => mkCfg 16 S2x4 Fused Masked
  | F32, V3 => mkCfg 8 S2x4 Fused Masked
  | F32, Neon => mkCfg 4 S2x4 Fused (ScalarLoop Fused true)
  | F32, Scalar => mkCfg 4 S2x1 MulAdd Masked
  | F16, V4 => mkCfg 16 S2x4 Fused Masked
  | F16, V3 => mkCfg 8 S2x4 Fused Masked
  | F16, Neon => mkCfg 4 S2x4 Fused (LaneLoop true)
  | F16, Scalar => mkCfg 1 S1x1 MulAdd Masked
  | F32F16, _ => mkCfg 8 S2x4 Fused Masked
  end.
Definition kind_cfg (k : kind) : arch -> felem -> cfg :=
  match k with L2 => l2_cfg | IP => ip_cfg | L1 => l1_cfg end.

Definition capped {X} (cap : bool) (w : nat) (l : list X) : list X := if cap then firstn (w - 1) l else l.
Section Float.
  Context {F L R : Type} (o : fops F) (cl : L -> F) (cr : R -> F) (zl : L) (zr : R).
  (** [cl], [cr] convert an element to f32 ([into]); [zl], [zr] are the zeros of the element types. *)

  Definition mac (st : style) (x y acc : F) : F :=
    match st with
    | Fused => fma o x y acc
    | MulAdd => add o (mul o x y) acc
    | AddMul => add o acc (mul o x y)
    end.
  (** One lane of [accumulate]: L2 807-808, 920-922, 1111-1112; IP 1580, 1685; L1 3234. *)
  Definition lane (k : kind) (st : style) (x : L) (y : R) (acc : F) : F :=
    match k with
    | L2 => let c := sub o (cl x) (cr y) in mac st c c acc
    | IP => mac st (cl x) (cr y) acc
    | L1 => match st with AddMul => add o acc (abs o (cl x)) | _ => add o (abs o (cl x)) acc end
    end.
  Definition lane0 (w : nat) (v : F) : list F := v :: repeat (zero o) (w - 1).
  Definition scalar_loop {S} (f : L -> R -> S -> S) (xs : list L) (ys : list R) (s : S) : S :=
    fold_left (fun s p => f (fst p) (snd p) s) (List.combine xs ys) s.
  Definition f_schema (k : kind) (c : cfg) : schema L R (list F) F :=
    let w := c_width c in
    let acc := map3 (lane k (c_style c)) in
    let comb := map2 (add o) in
    {| width := w; main_loop := c_main c; init := repeat (zero o) w; accumulate := acc; combine := comb;
       epilogue := fun xs ys a =>
         match c_epi c with
         | Masked => acc (pad zl w xs) (pad zr w ys) a
         | ScalarLoop st cap =>
           comb a (lane0 w (scalar_loop (lane k st) (capped cap w xs) (capped cap w ys) (zero o)))
         | LaneLoop cap =>
           comb a (scalar_loop (fun x y r => acc (x :: repeat zl (w - 1)) (y :: repeat zr (w - 1)) r)
                     (capped cap w xs) (capped cap w ys) (repeat (zero o) w))
         end;
       reduce := sum_tree (add o) (zero o) |}.
  (** [simd_op] with [L2], [IP], [L1Norm]. *)
  Definition f_distance (k : kind) (a : arch) (e : felem) (x : list L) (y : list R) : option F :=
    simd_op (f_schema k (kind_cfg k a e)) x y.

  (** [FullCosineAccumulator]; 2280-2314, 2369-2382. *)
  Definition cacc := (list F * list F * list F)%type.
  Definition cos_add (st : style) (xs : list L) (ys : list R) (a : cacc) : cacc :=
    let '(nx, ny, xy) := a in
    (map3 (fun x x' => mac st (cl x) (cl x')) xs xs nx,
     map3 (fun y y' => mac st (cr y) (cr y')) ys ys ny,
     map3 (fun x y => mac st (cl x) (cr y)) xs ys xy).
  Definition cos_combine (a b : cacc) : cacc :=
    let '(nx, ny, xy) := a in let '(nx', ny', xy') := b in
    (map2 (add o) nx nx', map2 (add o) ny ny', map2 (add o) xy xy').
  (** [FullCosineAccumulator::sum]; 2316-2357. *)
  Definition cos_final (normx normy prod : F) : F :=
    let denominator := mul o (sqrt o normx) (sqrt o normy) in
    if lt o normx (min_positive o) || lt o normy (min_positive o) then zero o
    else fmax o (neg o (one o)) (fmin o (one o) (div o prod denominator)).
  Definition cos_parts (a : cacc) : F * F * F :=
    let '(nx, ny, xy) := a in
    let t := sum_tree (add o) (zero o) in (t nx, t ny, t xy).
  Definition cos_schema (c : cfg) : schema L R cacc (F * F * F) :=
    let w := c_width c in
    let z := repeat (zero o) w in
    {| width := w; main_loop := c_main c; init := (z, z, z); accumulate := cos_add (c_style c);
       combine := cos_combine;
       epilogue := fun xs ys a =>
         match c_epi c with
         | Masked => cos_add (c_style c) (pad zl w xs) (pad zr w ys) a
         | ScalarLoop st cap =>
           let '(xx, yy, xy) := scalar_loop (fun x y '(xx, yy, xy) =>
               (mac st (cl x) (cl x) xx, mac st (cr y) (cr y) yy, mac st (cl x) (cr y) xy))
             (capped cap w xs) (capped cap w ys) (zero o, zero o, zero o) in
           cos_combine a (lane0 w xx, lane0 w yy, lane0 w xy)
         | LaneLoop cap =>
           cos_combine a (scalar_loop (fun x y r =>
               cos_add (c_style c) (x :: repeat zl (w - 1)) (y :: repeat zr (w - 1)) r)
             (capped cap w xs) (capped cap w ys) (z, z, z))
         end;
       reduce := cos_parts |}.
  (** The three sums of a cosine computation and the similarity. *)
  Definition cos_sums (a : arch) (e : felem) (x : list L) (y : list R) : option (F * F * F) :=
    simd_op (cos_schema (cos_cfg a e)) x y.
  Definition cosine (a : arch) (e : felem) (x : list L) (y : list R) : option F :=
    do p <- cos_sums a e x y;
    let '(normx, normy, prod) := p in Some (cos_final normx normy prod).
  (** [sum_as_l2]; 2359-2366. *)
  Definition cos_as_l2 (a : arch) (e : felem) (x : list L) (y : list R) : option F :=
    do p <- cos_sums a e x y;
    let '(normx, normy, xy) := p in Some (sub o (add o normx normy) (add o xy xy)).

  (** [Resumable], 610-668, with [ResumableL2], [ResumableIP], 1515-1551, 2240-2270: the accumulator is
      kept between calls of [simd_op]; [sum] at the end. *)
  Definition resumable (k : kind) (c : cfg) (acc : list F) (x : list L) (y : list R) : option (list F) :=
    do a <- simd_acc (f_schema k c) x y; Some (map2 (add o) acc a).
  Fixpoint resume (k : kind) (c : cfg) (acc : list F) (parts : list (list L * list R)) : option (list F) :=
    match parts with
    | [] => Some acc
    | (x, y) :: parts => do acc <- resumable k c acc x y; resume k c acc parts
    end.
  Definition resumable_distance (k : kind) (a : arch) (e : felem) (parts : list (list L * list R)) : option F :=
    let c := kind_cfg k a e in
    do acc <- resume k c (repeat (zero o) (c_width c)) parts; Some (reduce (f_schema k c) acc).
End Float.

(** ** Integer kernels *)

Open Scope Z_scope.
Definition wrap_i32 (z : Z) : Z := (z + 2 ^ 31) mod 2 ^ 32 - 2 ^ 31.
Definition wrap_u32 (z : Z) : Z := z mod 2 ^ 32.
Definition wrap_i16 (z : Z) : Z := (z + 2 ^ 15) mod 2 ^ 16 - 2 ^ 15.
Close Scope Z_scope.
(** [as_f32_lossy], 20-41: an integer converted to f32 is rounded to 24 significant bits, ties to
    even.  The value of the result, not its bits. *)
Definition lossy_pos (z : Z) : Z :=
  if (z <? 2 ^ 24)%Z then z else
  let e := (Z.log2 z - 23)%Z in
  let u := (2 ^ e)%Z in
  let q := (z / u)%Z in let r := (z mod u)%Z in
  let up := if (2 * r <? u)%Z then false else if (u <? 2 * r)%Z then true else negb (Z.even q) in
  (u * (if up then q + 1 else q))%Z.
Definition lossy (z : Z) : Z := if (z <? 0)%Z then (- lossy_pos (- z))%Z else lossy_pos z.

Inductive ielem := I8 | U8.
(** [lanes]: number of 32-bit lanes of the accumulator; [wide]: the elements are first widened to
    i16 and the difference is taken there; [unsigned]: the lanes are u32; the scalar epilogue stops
    at [SIMDWidth - 1] if [cap]. *)
Record icfg := mkI { i_width : nat; i_main : strategy; i_lanes : nat; i_wide : bool; i_unsigned : bool;
                     i_masked : bool; i_cap : bool }.
(** L2: 1157-1505; IP: 1913-2238; Cosine: 2750-3160.  The order in which the Neon L2 kernel pairs
    elements within a register (diskann-wide/src/arch/aarch64/algorithms.rs 22-83) is replaced by
    consecutive pairs. *)
Definition int_cfg (k : kind) (a : arch) (e : ielem) : icfg :=
  match a with
  | V4 => mkI 32 S4x1 16 true false true false
  | V3 => mkI 16 S4x1 8 true false true false
  | Neon => mkI 16 S2x1 (match k with L2 => 8 | _ => 4 end) (match k with L2 => true | _ => false end)
              (match e with U8 => true | I8 => false end) false true
  | Scalar => match k with IP => mkI 1 S1x1 1 false false false false | _ => mkI 4 S1x1 4 false false false false end
  end.
Definition icos_cfg (a : arch) (e : ielem) : icfg :=
  match a with
  | V4 => mkI 32 S4x1 16 true false true false
  | V3 => mkI 16 S4x1 8 true false true false
  | Neon => mkI 16 S2x1 4 false (match e with U8 => true | I8 => false end) false true
  | Scalar => mkI 4 S1x1 4 false false false false
  end.
Definition i_wrap (c : icfg) : Z -> Z := if i_unsigned c then wrap_u32 else wrap_i32.
(** The contribution of one pair of elements. *)
Definition i_term (k : kind) (wide : bool) (x y : Z) : Z :=
  match k with
  | L2 => let d := (if wide then wrap_i16 else wrap_i32) (x - y)%Z in (d * d)%Z
  | IP => (x * y)%Z
  | L1 => Z.abs x
  end.
Definition zsum (l : list Z) : Z := fold_right Z.add 0%Z l.
(** [dot_simd] (diskann-wide): each lane takes the next [g] elements. *)
Fixpoint dot_lanes (wrap : Z -> Z) (term : Z -> Z -> Z) (g : nat) (acc xs ys : list Z) : list Z :=
  match acc with
  | [] => []
  | a :: acc => wrap (a + wrap (zsum (map2 term (firstn g xs) (firstn g ys))))%Z
                  :: dot_lanes wrap term g acc (skipn g xs) (skipn g ys)
  end.
Definition i_schema (term : bool -> Z -> Z -> Z) (c : icfg) : schema Z Z (list Z) Z :=
  let w := i_width c in
  let wr := i_wrap c in
  let wadd := fun a b => wr (a + b)%Z in
  let acc := fun xs ys a => dot_lanes wr (term (i_wide c)) (w / i_lanes c) a xs ys in
  {| width := w; main_loop := i_main c; init := repeat 0%Z (i_lanes c); accumulate := acc;
     combine := map2 wadd;
     epilogue := fun xs ys a =>
       if i_masked c then acc (pad 0%Z w xs) (pad 0%Z w ys) a
       else map2 wadd a (scalar_loop (fun x y s => wr (s + term false x y)%Z)
                           (capped (i_cap c) w xs) (capped (i_cap c) w ys) 0%Z :: repeat 0%Z (i_lanes c - 1));
     reduce := sum_tree wadd 0%Z |}.
(** The value of the f32 returned by [simd_op] with [L2] or [IP] on i8 or u8. *)
Definition int_total (k : kind) (a : arch) (e : ielem) (x y : list Z) : option Z :=
  simd_op (i_schema (i_term k) (int_cfg k a e)) x y.
Definition int_distance (k : kind) (a : arch) (e : ielem) (x y : list Z) : option Z :=
  do t <- int_total k a e x y; Some (lossy t).
(** The three sums of the cosine kernels on i8 and u8: each field of the accumulator goes through
    the same loop. *)
Definition int_cos_sums (a : arch) (e : ielem) (x y : list Z) : option (Z * Z * Z) :=
  let c := icos_cfg a e in
  do nx <- simd_op (i_schema (fun _ x _ => x * x)%Z c) x y;
  do ny <- simd_op (i_schema (fun _ _ y => y * y)%Z c) x y;
  do xy <- simd_op (i_schema (fun _ x y => x * y)%Z c) x y;
  Some (nx, ny, xy).
