(** Model of compressing and comparing in the spherical quantizer
    (diskann-quantization/src/spherical/quantizer.rs and vectors.rs), over the real numbers:
    rounding of [f32] and [f16] and their overflow are not modelled. *)
From Coq Require Import Reals ZArith List.
Import ListNotations.
Local Open Scope R_scope.

(** vectors.rs 88-: [SupportedMetric]. *)
Inductive metric := L2 | IP | Cosine.
(** quantizer.rs 60-90: the fields that matter. The transform is an argument, and so is
    [maximize_cosine_similarity], which [Model2] models. *)
Record quantizer := mkQ { shift : list R; kind : metric; pre_scale : R; transform : list R -> list R; output_dim : nat; preserves_norms : bool; best_scale : list R -> R }.

(** [InnerProduct::evaluate], [FastL2Norm], [FastL2NormSquared]. *)
Fixpoint dotp (x y : list R) : R := match x, y with a :: x, b :: y => a * b + dotp x y | _, _ => 0 end.
Definition norm (x : list R) : R := sqrt (dotp x x).
Fixpoint rsum (x : list R) : R := match x with [] => 0 | a :: x => a + rsum x end.

(** quantizer.rs 338-382: [preprocess], in three parts. *)
Definition multiplier (q : quantizer) (data : list R) : R :=
  match kind q with Cosine => if Req_EM_T (norm data) 0 then 1 else 1 / norm data | _ => pre_scale q end.
Definition shifted (q : quantizer) (data : list R) : list R :=
  map (fun p => multiplier q data * fst p - snd p) (combine data (shift q)).
(** quantizer.rs 500-510: [metric_specific]. *)
Definition metric_specific (q : quantizer) (s : list R) : R := match kind q with L2 => norm s * norm s | _ => dotp s (shift q) end.
(** quantizer.rs 749-752, 826-829, 1146-1149, then [transform_into]. *)
Definition transformed (q : quantizer) (s : list R) : list R := transform q (map (fun v => v / norm s) s).
(** quantizer.rs 564-579: [check_dims]. *)
Definition check_dims (q : quantizer) (from into : nat) : bool := Nat.eqb from (length (shift q)) && Nat.eqb into (output_dim q).

(** Stored vectors: the codes, [DataMeta::{inner_product_correction, metric_specific, bit_sum}]. *)
Record data := mkD { d_codes : list Z; d_ipc : R; d_ms : R; d_sum : Z }.
Definition zsum (l : list Z) : Z := fold_right Z.add 0%Z l.
(** vectors.rs 265-293: [DataMeta::new]; only the size of the sum is checked here. *)
Definition new_data (codes : list Z) (ipc ms : R) : option data := if (zsum codes <=? 65535)%Z then Some (mkD codes ipc ms (zsum codes)) else None.
(** vectors.rs 312-314: [offset_term]. *)
Definition offset_term (bits : nat) : R := (2 ^ bits - 1) / 2.
(** [f32::round] of what is not negative. *)
Definition round (x : R) : Z := Int_part (x + 1 / 2).
Definition clamp (x lo hi : R) : R := Rmin (Rmax x lo) hi.
(** quantizer.rs 596-645: one bit. Division by zero is not finite and makes [DataMeta::new] fail. *)
Definition finish1 (q : quantizer) (s t : list R) (tnorm : R) : option data :=
  let raw := rsum (map Rabs t) in
  let codes := map (fun r => if Rlt_dec 0 r then 1%Z else 0%Z) t in
  if Req_EM_T raw 0 then None else new_data codes (2 * tnorm * norm s / raw) (metric_specific q s).
(** quantizer.rs 871-916: more bits. *)
Definition finish (q : quantizer) (bits : nat) (s t : list R) (tnorm : R) : option data :=
  let hi := 2 ^ bits - 1 in
  let offset := hi / 2 in
  let codes := map (fun r => round (clamp (r * best_scale q t + offset) 0 hi)) t in
  let self := dotp (map (fun c => IZR c - offset) codes) t in
  if Req_EM_T self 0 then None else new_data codes (tnorm * norm s / self) (metric_specific q s).
(** quantizer.rs 801-860: compressing a stored vector over [old], the codes that were there. *)
Definition compress_data (q : quantizer) (bits : nat) (old : list Z) (from : list R) : option data :=
  if check_dims q (length from) (length old) then
    let s := shifted q from in
    if Req_EM_T (norm s) 0 then Some (mkD old 0 0 0)
    else let t := transformed q s in
         let tnorm := if preserves_norms q then 1 else norm t in
         if Nat.eqb bits 1 then finish1 q s t tnorm else finish q bits s t tnorm
  else None.

(** vectors.rs 418-432, quantizer.rs 725-782: full precision queries. *)
Record full := mkF { f_vec : list R; f_sum : R; f_norm : R; f_ms : R }.
Definition compress_full (q : quantizer) (from : list R) : option full :=
  if check_dims q (length from) (output_dim q) then
    let s := shifted q from in
    if Req_EM_T (norm s) 0 then Some (mkF (repeat 0 (output_dim q)) 0 0 0)
    else let t := transformed q s in Some (mkF t (rsum t) (norm s) (metric_specific q s))
  else None.

(** [QueryMeta]; [None] when a division by zero has made it NaN or infinite. *)
Record qmeta := mkM { m_ipc : R; m_sum : R; m_offset : R; m_ms : R }.
Record query := mkY { y_codes : list Z; y_meta : option qmeta }.
Definition minimum (t : list R) : R := match t with [] => 0 | a :: t => fold_left (fun m i => Rmin i m) t a end.
Definition maximum (t : list R) : R := match t with [] => 0 | a :: t => fold_left (fun m i => Rmax i m) t a end.
Definition zclamp (c lo hi : Z) : Z := Z.min (Z.max c lo) hi.
(** quantizer.rs 1130-1210: quantized queries. With a scale of zero every code is that of NaN, zero. *)
Definition compress_query (q : quantizer) (bits : nat) (old : list Z) (from : list R) : option query :=
  if check_dims q (length from) (length old) then
    let s := shifted q from in
    if Req_EM_T (norm s) 0 then Some (mkY old (Some (mkM 0 0 0 0)))
    else
      let t := transformed q s in
      let hi := (2 ^ Z.of_nat bits - 1)%Z in
      let scale := (maximum t - minimum t) / IZR hi in
      if Req_EM_T scale 0 then Some (mkY (map (fun _ => 0%Z) t) None)
      else
        let codes := map (fun v => zclamp (round ((v - minimum t) / scale)) 0 hi) t in
        Some (mkY codes (Some (mkM (norm s * scale) (IZR (zsum codes)) (minimum t / scale) (metric_specific q s))))
  else None.

(** Inner products of codes. *)
Fixpoint zdot (x y : list Z) : Z := match x, y with a :: x, b :: y => (a * b + zdot x y)%Z | _, _ => 0%Z end.
Fixpoint fdot (x : list R) (y : list Z) : R := match x, y with a :: x, b :: y => a * IZR b + fdot x y | _, _ => 0 end.
(** vectors.rs 494-527: [kernel]. *)
Definition kernel (q : quantizer) (bits : nat) (x y : data) : R :=
  let offset := offset_term bits in
  d_ipc x * d_ipc y * (IZR (zdot (d_codes x) (d_codes y)) - offset * (IZR (d_sum x) + IZR (d_sum y)) + offset * offset * INR (output_dim q)).
(** vectors.rs 590-628, 783-812: the corrected inner product with a quantized query. *)
Definition corrected (q : quantizer) (bits : nat) (codes : list Z) (x : qmeta) (y : data) : R :=
  let y_offset := offset_term bits in
  d_ipc y * m_ipc x * (IZR (zdot codes (d_codes y)) - y_offset * m_sum x + m_offset x * IZR (d_sum y) - y_offset * m_offset x * INR (output_dim q)).
(** vectors.rs 657-683, 822-846: with a full precision query. *)
Definition full_ip (bits : nat) (x : full) (y : data) : R := f_norm x * d_ipc y * (fdot (f_vec x) (d_codes y) - f_sum x * offset_term bits).
(** The three functors as distances: vectors.rs 556-575 and on for squared L2, 714-716 and on for inner
    products (negated), 889-892 for cosines. *)
Definition assemble (q : quantizer) (ip msx msy : R) : R :=
  match kind q with
  | L2 => msx + msy - 2 * ip
  | IP => - (msx + msy + ip + dotp (shift q) (shift q))
  | Cosine => 1 - (msx + msy + ip + dotp (shift q) (shift q))
  end.
Definition distance_data (q : quantizer) (bits : nat) (x y : data) : R := assemble q (kernel q bits x y) (d_ms x) (d_ms y).
Definition distance_full (q : quantizer) (bits : nat) (x : full) (y : data) : R := assemble q (full_ip bits x y) (f_ms x) (d_ms y).
(** [None] is NaN. *)
Definition distance_query (q : quantizer) (bits : nat) (x : query) (y : data) : option R :=
  match y_meta x with Some m => Some (assemble q (corrected q bits (y_codes x) m y) (m_ms m) (d_ms y)) | None => None end.
