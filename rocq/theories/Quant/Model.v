(** Model of scalar and min-max quantization: diskann-quantization/src/scalar/{mod,quantizer,vectors,train}.rs,
    src/utils.rs 109-198 and src/minmax/{quantizer,vectors,recompress}.rs.

    The arithmetic is an argument: [f32]/[f64] operations are one instance, exact arithmetic with the
    IEEE special values another.  Packed vectors of n-bit codes are lists of codes (their layout is
    the area [Bits]); the integer kernels on them (bits/distances.rs) are arguments.  The conversion
    [Into<f32>] of the elements has been done.  Lengths are [nat]. *)
From Verif.Lib Require Import Base Lists.
Local Open Scope nat_scope.

Record ops (F : Type) := mkOps {
  of_N : N -> F;                          (* [as f32] of an unsigned integer, and literals *)
  half : F;                               (* 0.5 *)
  tiny : F;                               (* 1e-8 *)
  nan : F;
  add : F -> F -> F; sub : F -> F -> F; mul : F -> F -> F; div : F -> F -> F;
  neg : F -> F;
  fma : F -> F -> F -> F;                 (* fma x y z = x * y + z, [mul_add] *)
  root : F -> F;
  fmin : F -> F -> F; fmax : F -> F -> F; (* f32::min, f32::max: the other argument if one is NaN *)
  round : F -> F;                         (* f32::round: ties away from zero *)
  round_even : F -> F;                    (* f32::round_ties_even *)
  lt : F -> F -> bool; feq : F -> F -> bool;
  is_nan : F -> bool;
  to_u8 : F -> N;                         (* [as u8]: saturating, 0 for NaN *)
  ipf : list F -> list F -> F;            (* diskann_vector InnerProduct of two f32 slices *)
  cast : F -> F                           (* [as f32] of an f64 *)
}.
Arguments mkOps {F}. Arguments of_N {F}. Arguments half {F}. Arguments tiny {F}. Arguments nan {F}.
Arguments add {F}. Arguments sub {F}. Arguments mul {F}. Arguments div {F}. Arguments neg {F}.
Arguments fma {F}. Arguments root {F}. Arguments fmin {F}. Arguments fmax {F}. Arguments round {F}.
Arguments round_even {F}. Arguments lt {F}. Arguments feq {F}. Arguments is_nan {F}. Arguments to_u8 {F}.
Arguments ipf {F}. Arguments cast {F}.

Definition map2 {A B C} (f : A -> B -> C) (x : list A) (y : list B) : list C :=
  map (fun p => f (fst p) (snd p)) (combine x y).

Section quant.
Context {F : Type} (o : ops F).

Definition zero : F := of_N o 0.
Definition one : F := of_N o 1.
Definition two : F := of_N o 2.
(** [iter().sum()]. *)
Definition sum (xs : list F) : F := fold_left (add o) xs zero.
(** [f32::clamp]. *)
Definition clamp (x lo hi : F) : F :=
  let x := if lt o x lo then lo else x in
  if lt o hi x then hi else x.

(** scalar/mod.rs 129-135 [bit_scale], [inverse_bit_scale].  The same number is the end of the
    domain, bits/slice.rs 88-90 [Unsigned::domain_const]. *)
Definition bit_scale (n : N) : F := of_N o (2 ^ n - 1).
Definition inverse_bit_scale (n : N) : F := div o one (bit_scale n).

(** ** Scalar quantization *)

(** scalar/quantizer.rs 86-112 [ScalarQuantizer]. *)
Record scalar_q := mkSQ { sq_scale : F; sq_shift : list F; sq_shift_square_norm : F; sq_mean_norm : option F }.
(** scalar/quantizer.rs 116-126 [ScalarQuantizer::new]. *)
Definition sq_new (scale : F) (shift : list F) (mean_norm : option F) : scalar_q :=
  mkSQ scale shift (ipf o shift shift) mean_norm.

(** scalar/quantizer.rs 300-310 [rescale]. *)
Definition rescale (x : list F) (to_norm : F) : list F :=
  let norm := root o (ipf o x x) in
  if feq o norm zero then x
  else let scale := div o to_norm norm in map (fun i => mul o i scale) x.
(** scalar/quantizer.rs 165-173 [ScalarQuantizer::rescale]; [None] is [MeanNormMissing]. *)
Definition sq_rescale (q : scalar_q) (x : list F) : option (list F) :=
  match sq_mean_norm q with Some m => Some (rescale x m) | None => None end.

(** scalar/quantizer.rs 220: the code of one component, as a float. *)
Definition sq_code (n : N) (q : scalar_q) (f s : F) : F :=
  let inverse_scale := div o (bit_scale n) (sq_scale q) in
  round o (clamp (mul o (sub o f s) inverse_scale) zero (bit_scale n)).

Inductive sq_result :=
| SPanic                                      (* an assertion on the lengths failed *)
| SNaN (codes : list N) (comp : F)            (* [InputContainsNaN]; the destination was written *)
| SOk (codes : list N) (comp : F).
(** scalar/quantizer.rs 190-238 [compress] and 401-424 [compress_into] of a compensated vector, whose
    length is [into].  [compress_into] of a plain bit slice, 366-376, leaves out the compensation. *)
Definition sq_compress (n : N) (q : scalar_q) (from : list F) (into : nat) : sq_result :=
  if negb (length from =? length (sq_shift q)) || negb (into =? length (sq_shift q)) then SPanic
  else
    let codes := map2 (sq_code n q) from (sq_shift q) in
    let dot := fold_left (fun d p => fma o (fst p) (snd p) d) (combine codes (sq_shift q)) zero in
    let comp := mul o (mul o (sq_scale q) (inverse_bit_scale n)) dot in
    let stored := map (to_u8 o) codes in
    if existsb (is_nan o) from then SNaN stored comp else SOk stored comp.

(** A compensated vector: codes and compensation, scalar/vectors.rs 148-168. *)
Definition cvec := (list N * F)%type.
(** scalar/quantizer.rs 316-335 [as_functor]. *)
Definition sq_scale_squared (q : scalar_q) : F := mul o (sq_scale q) (sq_scale q).

(** scalar/vectors.rs 218-235 [CompensatedSquaredL2]; [None] is [UnequalLengths].  [l2k] is the
    integer kernel.  The score, 265-272, is the same number. *)
Definition sq_l2 (l2k : list N -> list N -> N) (n : N) (q : scalar_q) (x y : cvec) : option F :=
  if negb (length (fst x) =? length (fst y)) then None
  else
    let bs := mul o (inverse_bit_scale n) (inverse_bit_scale n) in
    Some (mul o (mul o bs (sq_scale_squared q)) (of_N o (l2k (fst x) (fst y)))).
(** scalar/vectors.rs 325-340 [CompensatedIP]. *)
Definition sq_ip (ipk : list N -> list N -> N) (n : N) (q : scalar_q) (x y : cvec) : option F :=
  if negb (length (fst x) =? length (fst y)) then None
  else
    let bs := mul o (inverse_bit_scale n) (inverse_bit_scale n) in
    Some (add o (fma o (mul o bs (sq_scale_squared q)) (of_N o (ipk (fst x) (fst y))) (sq_shift_square_norm q))
                (add o (snd y) (snd x))).
(** scalar/vectors.rs 370-377: the similarity score. *)
Definition sq_ip_score (ipk : list N -> list N -> N) (n : N) (q : scalar_q) (x y : cvec) : option F :=
  option_map (neg o) (sq_ip ipk n q x y).
(** scalar/vectors.rs 424-438 [CompensatedCosineNormalized]. *)
Definition sq_cos (l2k : list N -> list N -> N) (n : N) (q : scalar_q) (x y : cvec) : option F :=
  option_map (fun l2 => sub o one (div o l2 two)) (sq_l2 l2k n q x y).
(** scalar/vectors.rs 454-461: the similarity score. *)
Definition sq_cos_score (l2k : list N -> list N -> N) (n : N) (q : scalar_q) (x y : cvec) : option F :=
  option_map (fun v => sub o one v) (sq_cos l2k n q x y).

(** utils.rs 109-141 [compute_means_and_average_norm]: the matrix is its rows and the number of
    columns.  The loop over the rows accumulates both; they are separate folds here. *)
Definition col_means (ncols : nat) (rows : list (list F)) : list F :=
  map (fun m => div o m (of_N o (N.of_nat (length rows))))
    (fold_left (fun ms row => map2 (add o) ms row) rows (repeat zero ncols)).
Definition average_norm (rows : list (list F)) : F :=
  div o (fold_left (fun acc row => add o acc (root o (sum (map (fun x => mul o x x) row)))) rows zero)
        (of_N o (N.of_nat (length rows))).
(** utils.rs 180-198 [compute_variances]. *)
Definition variances (ncols : nat) (rows : list (list F)) (means : list F) : list F :=
  map (fun v => div o v (of_N o (N.of_nat (length rows))))
    (fold_left (fun vs row => map2 (fun v p => let d := sub o (fst p) (snd p) in add o v (mul o d d)) vs (combine row means))
       rows (repeat zero ncols)).
(** scalar/train.rs 73-89 [ScalarQuantizationParameters::train]; [sd] is the positive number of standard
    deviations. *)
Definition sq_train (sd : F) (ncols : nat) (rows : list (list F)) : scalar_q :=
  let means := col_means ncols rows in
  let max_std := root o (fold_left (fmax o) (variances ncols rows means) zero) in
  let p := mul o max_std sd in
  let scale := mul o two p in
  sq_new (cast o scale) (map (fun i => cast o (sub o i p)) means) (Some (cast o (average_norm rows))).

(** ** Min-max quantization *)

(** minmax/quantizer.rs 117-151 [MinMaxQuantizer::get_range]; [g] is the grid scale. *)
Definition get_range (n : N) (g : F) (vec : list F) : F * F :=
  let '(mn, mx) :=
    if (n =? 1)%N then
      let mean := div o (sum vec) (of_N o (N.of_nat (length vec))) in
      let '(mn, mnc, mx, mxc) :=
        fold_left (fun acc x =>
          let '(mn, mnc, mx, mxc) := acc in
          let m := if lt o x mean then one else zero in
          (add o mn (mul o m x), add o mnc m, add o mx (mul o (sub o one m) x), add o mxc (sub o one m)))
          vec (zero, zero, zero, zero) in
      (fmin o (div o mn mnc) mean, fmax o (div o mx mxc) mean)
    else fold_left (fun acc e => (fmin o (fst acc) e, fmax o (snd acc) e)) vec (nan o, nan o) in
  let width := div o (sub o mx mn) two in
  let mid := add o mn width in
  (sub o mid (mul o width g), add o mid (mul o width g)).

(** minmax/vectors.rs 43-51 [MinMaxCompensation]. *)
Record mm_meta := mkMeta { m_dim : N; m_b : F; m_n : F; m_a : F; m_norm : F }.
Definition mvec := (list N * mm_meta)%type.

Inductive mm_result :=
| MPanic
| MNaN (v : mvec)                             (* [InputContainsNaN]; the destination was written *)
| MOk (v : mvec) (loss : F).
(** minmax/quantizer.rs 153-231 [compress]; [tr] is the transform, from [idim] to [odim] dimensions
    (see [Rotate]); [powi(2)] is a product; the loss is [L2Loss::as_f32], 330-338: 0 unless positive. *)
Definition mm_code (n : N) (mn inverse_scale v : F) : F :=
  round o (clamp (div o (sub o v mn) inverse_scale) zero (bit_scale n)).
Definition mm_compress (tr : list F -> list F) (idim odim : nat) (n : N) (g : F) (from : list F) (into : nat) : mm_result :=
  if negb (length from =? idim) || negb (odim =? into) then MPanic
  else
    let vec := tr from in
    let '(mn, mx) := get_range n g vec in
    let inverse_scale := div o (fmax o (sub o mx mn) (tiny o)) (bit_scale n) in
    let codes := map (mm_code n mn inverse_scale) vec in
    let norm := fold_left (fun s c => let v_r := add o (mul o c inverse_scale) mn in add o s (mul o v_r v_r)) codes zero in
    let code_sum := fold_left (add o) codes zero in
    let loss := fold_left (fun s p => let d := sub o (add o (mul o (fst p) inverse_scale) mn) (snd p) in add o s (mul o d d))
                  (combine codes vec) zero in
    let v := (map (to_u8 o) codes, mkMeta (N.of_nat odim mod 2 ^ 32) mn (mul o inverse_scale code_sum) inverse_scale norm) in
    if existsb (is_nan o) vec then MNaN v
    else MOk v (if lt o zero loss then loss else zero).

(** minmax/vectors.rs 136-150 [decompress_into]; [None] is [LengthMismatch]. *)
Definition mm_decompress (v : mvec) (dst : nat) : option (list F) :=
  if negb (dst =? length (fst v)) then None
  else Some (map (fun c => add o (mul o (of_N o c) (m_a (snd v))) (m_b (snd v))) (fst v)).

(** minmax/vectors.rs 178-186 [FullQueryMeta]. *)
Record fq := mkFQ { f_vec : list F; f_sum : F; f_norm : F }.
Inductive fq_result := FPanic | FNaN | FOk (q : fq).
(** minmax/quantizer.rs 393-415: a full-precision query. *)
Definition fq_compress (tr : list F -> list F) (idim odim : nat) (from : list F) (into : nat) : fq_result :=
  if negb (length from =? idim) || negb (odim =? into) then FPanic
  else if existsb (is_nan o) from then FNaN
  else let v := tr from in FOk (mkFQ v (sum v) (sum (map (fun x => mul o x x) v))).

(** minmax/vectors.rs 205-229 [kernel] with the first continuation: [MinMaxIP], 245-250. *)
Definition mm_ip (ipk : list N -> list N -> N) (x y : mvec) : option F :=
  if negb (length (fst x) =? length (fst y)) then None
  else
    let xm := snd x in let ym := snd y in
    let term0 := mul o (mul o (m_a xm) (m_a ym)) (of_N o (ipk (fst x) (fst y))) in
    let term1_x := mul o (m_n xm) (m_b ym) in
    let term1_y := mul o (m_n ym) (m_b xm) in
    let term2 := mul o (mul o (m_b xm) (m_b ym)) (of_N o (N.of_nat (length (fst x)))) in
    Some (add o (add o (add o term0 term1_x) term1_y) term2).
(** minmax/vectors.rs 265-268. *)
Definition mm_ip_score ipk (x y : mvec) : option F := option_map (neg o) (mm_ip ipk x y).
(** minmax/vectors.rs 322-329 [MinMaxL2Squared]; the score is the same number. *)
Definition mm_l2 ipk (x y : mvec) : option F :=
  option_map (fun v => add o (add o (mul o (neg o two) v) (m_norm (snd x))) (m_norm (snd y))) (mm_ip ipk x y).
(** minmax/vectors.rs 410-414 [MinMaxCosine]. *)
Definition mm_cos ipk (x y : mvec) : option F :=
  option_map (fun ip => sub o one (div o ip (mul o (root o (m_norm (snd x))) (root o (m_norm (snd y)))))) (mm_ip ipk x y).
(** minmax/vectors.rs 451-454 [MinMaxCosineNormalized]. *)
Definition mm_cosn ipk (x y : mvec) : option F := option_map (fun ip => sub o one ip) (mm_ip ipk x y).

(** minmax/vectors.rs 283-288 [MinMaxIP] of a full-precision query; [fk] is the kernel on floats and
    codes. *)
Definition fq_ip (fk : list F -> list N -> F) (x : fq) (y : mvec) : option F :=
  if negb (length (f_vec x) =? length (fst y)) then None
  else Some (add o (mul o (fk (f_vec x) (fst y)) (m_a (snd y))) (mul o (f_sum x) (m_b (snd y)))).
(** minmax/vectors.rs 302-305. *)
Definition fq_ip_score fk (x : fq) (y : mvec) : option F := option_map (neg o) (fq_ip fk x y).
(** minmax/vectors.rs 362-371. *)
Definition fq_l2 fk (x : fq) (y : mvec) : option F :=
  option_map (fun ip => sub o (add o (f_norm x) (m_norm (snd y))) (mul o two ip)) (fq_ip fk x y).
(** minmax/vectors.rs 429-434. *)
Definition fq_cos fk (x : fq) (y : mvec) : option F :=
  option_map (fun ip => sub o one (div o ip (mul o (root o (f_norm x)) (root o (m_norm (snd y)))))) (fq_ip fk x y).
(** minmax/vectors.rs 469-472. *)
Definition fq_cosn fk (x : fq) (y : mvec) : option F := option_map (fun ip => sub o one ip) (fq_ip fk x y).

(** minmax/recompress.rs 149-226 [recompress_kernel] from [n] to [m] bits; [None] is
    [DimensionMismatch]. *)
Definition recompress (n m : N) (g : F) (from : mvec) (into : nat) : option mvec :=
  let dim := length (fst from) in
  if negb (dim =? into) then None
  else
    let offset := mul o (mul o (bit_scale n) (sub o one g)) (half o) in
    let code_scale := div o (bit_scale m) (mul o (bit_scale n) g) in
    let new_a := div o (m_a (snd from)) code_scale in
    let new_b := add o (m_b (snd from)) (mul o (m_a (snd from)) offset) in
    let codes := map (fun c => to_u8 o (clamp (round_even o (mul o (sub o (of_N o c) offset) code_scale)) zero (bit_scale m))) (fst from) in
    let code_sum := fold_left (fun s c => add o s (of_N o c)) codes zero in
    let norm := fold_left (fun s c => let v := add o (mul o (of_N o c) new_a) new_b in add o s (mul o v v)) codes zero in
    Some (codes, mkMeta (N.of_nat dim mod 2 ^ 32) new_b (mul o new_a code_sum) new_a norm).
End quant.
