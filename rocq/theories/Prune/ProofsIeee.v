(** Pruning with real single precision arithmetic, and concrete runs. *)
From Verif.Lib Require Import Base Lists F32 Ieee.
From Verif.Prune Require Import Model Spec Proofs ProofsList.

(** IEEE 754 binary32 multiplication, division and addition. *)
Definition ieee : farith := mkFarith ieee_mul ieee_div ieee_add.

Lemma ieee_grows alpha : mul_grows ieee alpha.
Proof.
  split; [apply one_mul_ieee|]. intros L c H1 H2. apply grow_ieee; auto.
  apply f32_lt_spec in H2 as (_ & N & K). pose proof (key_range alpha N). lia.
Qed.

Lemma ieee_nonneg : mul_nonneg ieee.
Proof. exact nonneg_ieee. Qed.

Lemma occlude_bounds_all {V} ar dist debug k fuel cfg force (mp : nat -> option V) excl pool old :
  sane_alpha (c_alpha cfg) -> (N.of_nat (length pool) <= 65535)%N -> NoDup (map n_id pool) ->
  match occlude_list ar dist debug k fuel cfg force mp excl pool old with
  | Done l => length l <= c_degree cfg /\ NoDup l /\
      (forall id, In id l -> In id (map n_id pool) /\ excl id = false) /\
      (saturating cfg force = false -> forall id, In id l -> exists v, mp id = Some v) /\
      (saturating cfg force = true ->
         length l = Nat.min (c_degree cfg) (length (filter (fun x => negb (excl (n_id x))) pool)))
  | Panic => False
  | OutOfFuel => True
  end.
Proof. intros A B C. exact (occlude_bounds ar dist debug k cfg mp excl pool A B C fuel force old). Qed.

Lemma kept_clear {V} ar dist debug k fuel cfg force (mp : nat -> option V) excl pool old l :
  sane_alpha (c_alpha cfg) -> (N.of_nat (length pool) <= 65535)%N -> NoDup (map n_id pool) ->
  saturating cfg force = false -> c_kind cfg = TriangleInequality ->
  occlude_list ar dist debug k fuel cfg force mp excl pool old = Done l ->
   exists As, length As = length l /\ Forall (scale ar (c_alpha cfg)) As /\
   forall n m x y v w a, nth_error l n = Some (n_id x) -> nth_error l m = Some (n_id y) ->
     m < n -> nth_error As n = Some a -> before pool y x ->
     mp (n_id x) = Some v -> mp (n_id y) = Some w -> ~ occluded ar dist a (n_dist x) v w.
Proof.
  intros A B C S K E.
  exact (proj1 (occlude_alpha ar dist debug k cfg mp excl pool A B C fuel force old l S E) K).
Qed.

Lemma dropped_occluded {V} ar dist debug k fuel cfg force (mp : nat -> option V) excl pool old l :
  sane_alpha (c_alpha cfg) -> (N.of_nat (length pool) <= 65535)%N -> NoDup (map n_id pool) ->
  f32_le f32_zero (c_alpha cfg) = true -> saturating cfg force = false ->
  c_kind cfg = TriangleInequality ->
  occlude_list ar dist debug k fuel cfg force mp excl pool old = Done l ->
  length l < c_degree cfg ->
  forall x v, In x pool -> excl (n_id x) = false -> mp (n_id x) = Some v -> ~ In (n_id x) l ->
  exists y w, In (n_id y) l /\ before pool y x /\ mp (n_id y) = Some w /\
    occluded ar dist (c_alpha cfg) (n_dist x) v w.
Proof.
  intros A B C A0 S K E L x v Hx X M NI.
  pose proof (proj2 (occlude_alpha ar dist debug k cfg mp excl pool A B C fuel force old l S E) A0 L x v Hx X M NI) as H.
  now rewrite K in H.
Qed.

Lemma dropped_occluded_ip {V} ar dist debug k fuel cfg force (mp : nat -> option V) excl pool old l :
  sane_alpha (c_alpha cfg) -> (N.of_nat (length pool) <= 65535)%N -> NoDup (map n_id pool) ->
  f32_le f32_zero (c_alpha cfg) = true -> saturating cfg force = false ->
  c_kind cfg = Occluding ->
  occlude_list ar dist debug k fuel cfg force mp excl pool old = Done l ->
  length l < c_degree cfg ->
  forall x v, In x pool -> excl (n_id x) = false -> mp (n_id x) = Some v -> ~ In (n_id x) l ->
  exists y w a, In (n_id y) l /\ before pool y x /\ mp (n_id y) = Some w /\
    scale ar (c_alpha cfg) a /\ occluded_ip ar dist a (n_dist x) v w /\
    f32_gt (fadd ar a f32_0_01) (c_alpha cfg) = true.
Proof.
  intros A B C A0 S K E L x v Hx X M NI.
  pose proof (proj2 (occlude_alpha ar dist debug k cfg mp excl pool A B C fuel force old l S E) A0 L x v Hx X M NI) as H.
  rewrite K in H. destruct H as (y & w & H1 & H2 & H3 & a & H4 & H5 & H6). exists y, w, a. auto 8.
Qed.

Lemma textbook {V} (dist : V -> V -> f32) debug k fuel cfg force mp excl pool old :
  sane_alpha (c_alpha cfg) -> (N.of_nat (length pool) <= 65535)%N -> NoDup (map n_id pool) ->
  f32_le f32_zero (c_alpha cfg) = true -> saturating cfg force = false ->
  c_kind cfg = TriangleInequality ->
  occlude_list ieee dist debug k fuel cfg force mp excl pool old =
  match pool with
  | [] => Done []
  | _ => match reference_prune ieee dist (make_cache mp excl pool) fuel (c_alpha cfg) (c_degree cfg) with
         | Some P => Done (ids_at pool P)
         | None => OutOfFuel
         end
  end.
Proof.
  intros A B C A0 S K. destruct pool as [|x pool']; [reflexivity|].
  apply (occlude_ref ieee dist debug k cfg mp excl (x :: pool') A B C fuel force old S K ieee_nonneg A0).
  discriminate.
Qed.

Lemma terminates {V} (dist : V -> V -> f32) debug k cfg force mp excl pool old :
  sane_alpha (c_alpha cfg) -> (N.of_nat (length pool) <= 65535)%N -> NoDup (map n_id pool) ->
  exists fuel, forall fuel', fuel <= fuel' -> exists l,
    occlude_list ieee dist debug k fuel' cfg force mp excl pool old = Done l.
Proof.
  intros A B C. exact (occlude_terminates ieee dist debug k cfg mp excl pool A B C force old (ieee_grows _)).
Qed.

Lemma nan_loops debug k fuel :
  occlude_list ieee (fun _ _ : unit => f32_one) debug k fuel
    (mkPcfg f32_nan 1 TriangleInequality false) false (fun _ => None) (fun _ => false)
    [mkNbr 7 f32_one] [] = OutOfFuel.
Proof.
  unfold occlude_list. change (65535 <? N.of_nat (length [mkNbr 7 f32_one]))%N with false. cbv iota.
  unfold robust_prune. cbn [make_cache map n_dist n_id c_kind c_alpha c_degree length repeat].
  rewrite nan_alpha_loops; reflexivity.
Qed.

(** Points on a line (as floats), distance one unless equal. *)
Definition line : nat -> nat -> f32 := fun i j => if i =? j then f32_zero else f32_one.
