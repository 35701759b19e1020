(** Specification vocabulary for pruning. *)
From Verif.Lib Require Import Base Lists F32.
From Verif.Prune Require Import Model.

(** The occlusion factor of candidate [k] with respect to the kept neighbour [j]: the ratio
    of the distances source-k and j-k; "infinite" (the largest float) if [j] and [k] are at
    distance zero. *)
Definition factor (ar : farith) (ik jk : f32) : f32 :=
  if f32_eq jk f32_zero then f32_max else fdiv ar ik jk.

(** [k] (at source distance [ik], with vector [v]) is occluded at scale [a] by [w]. *)
Definition occluded {V} (ar : farith) (dist : V -> V -> f32) (a ik : f32) (v w : V) : Prop :=
  f32_gt (factor ar ik (dist v w)) a = true.

(** The inner-product rule: the similarity between [v] and [w] is more than [a] times
    better than the similarity between the source and [v]. *)
Definition occluded_ip {V} (ar : farith) (dist : V -> V -> f32) (a ik : f32) (v w : V) : Prop :=
  f32_lt (dist v w) (fmul ar a ik) = true.

(** The scales tried for a configured [alpha]: 1.0 first, then repeatedly multiplied by
    min(alpha, 1.2) and capped at [alpha], until [alpha] is reached. *)
Inductive scale (ar : farith) (alpha : f32) : f32 -> Prop :=
| scale_one : scale ar alpha f32_one
| scale_next c : scale ar alpha c -> f32_eq c alpha = false ->
    scale ar alpha (f32_fmin (fmul ar c (f32_fmin alpha f32_1_2)) alpha).

(** The positions kept by [robust_prune], in the order they were kept. *)
Definition kept (r : list pstate * nat) : list nat := map s_nb (firstn (snd r) (fst r)).

(** [alpha] is a number below the largest float. *)
Definition sane_alpha (alpha : f32) : Prop := f32_lt alpha f32_max = true.

(** The properties of single precision multiplication the alpha ladder relies on:
    multiplying by one is the identity, multiplying a number in [1, alpha) by 1.2 makes it
    larger. *)
Definition mul_grows (ar : farith) (alpha : f32) : Prop :=
  (is_nan alpha = false -> f32_eq (fmul ar f32_one alpha) alpha = true) /\
  (f32_lt f32_1_2 alpha = true ->
   forall c, f32_le f32_one c = true -> f32_lt c alpha = true ->
     f32_lt c (fmul ar c f32_1_2) = true).

(** In [pool], [y] comes before [x]. *)
Definition before (pool : list nbr) (y x : nbr) : Prop :=
  exists i j, i < j /\ nth_error pool i = Some y /\ nth_error pool j = Some x.

(** Products of non-negative numbers are not negative. *)
Definition mul_nonneg (ar : farith) : Prop :=
  forall x y, f32_le f32_zero x = true -> f32_le f32_zero y = true ->
    f32_gt f32_zero (fmul ar x y) = false.

(** The textbook RobustPrune over a sorted candidate list: for each scale in turn, walk
    the candidates from near to far and keep every candidate that has a vector, is not
    kept yet and is not occluded at this scale by a kept candidate before it; stop as soon
    as [degree] candidates are kept.  Everything is recomputed from scratch. *)
Section reference.
Context {V : Type}.
Variable ar : farith.
Variable dist : V -> V -> f32.
Variable cache : list (f32 * option V).

Definition blocked (a : f32) (i : nat) (kept : list nat) : bool :=
  match nth_error cache i with
  | Some (ik, Some v) =>
      existsb (fun p => (p <? i) &&
        match nth_error cache p with
        | Some (_, Some w) => f32_gt (factor ar ik (dist v w)) a
        | _ => false
        end) kept
  | _ => true
  end.

Fixpoint ref_pass (a : f32) (degree : nat) (todo : list nat) (kept : list nat) : list nat :=
  match todo with
  | [] => kept
  | i :: todo' =>
      if degree <=? length kept then kept
      else if existsb (Nat.eqb i) kept || blocked a i kept
           then ref_pass a degree todo' kept
           else ref_pass a degree todo' (kept ++ [i])
  end.

Fixpoint ref_rounds (fuel : nat) (alpha a : f32) (degree : nat) (kept : list nat)
  : option (list nat) :=
  if length kept <? degree then
    match fuel with
    | 0 => None
    | S fuel' =>
        let kept' := ref_pass a degree (seq 0 (length cache)) kept in
        if f32_eq a alpha then Some kept'
        else ref_rounds fuel' alpha
               (f32_fmin (fmul ar a (f32_fmin alpha f32_1_2)) alpha) degree kept'
    end
  else Some kept.

Definition reference_prune (fuel : nat) (alpha : f32) (degree : nat) : option (list nat) :=
  ref_rounds fuel alpha f32_one degree [].
End reference.

(** Saturation applies: forced by the caller, or configured with alpha above one. *)
Definition saturating (cfg : prune_cfg) (force : bool) : bool :=
  force || (c_saturate cfg && f32_gt (c_alpha cfg) f32_one).

(** The ids at given pool positions. *)
Definition ids_at (pool : list nbr) (P : list nat) : list nat :=
  map (fun p => n_id (nth p pool (mkNbr 0 0%N))) P.
