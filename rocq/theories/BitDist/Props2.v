(** C97: the inner product of an f32 vector with a bit-packed vector. *)
From Coq Require Import List NArith ZArith PeanoNat Bool Lia Ring_theory.
From Coq Require Import Floats.SpecFloat.
From Flocq Require Import IEEE754.BinarySingleNaN.
From Verif.Lib Require Import Base Lists.
From Verif.Bits Require Import Model Spec Proofs.
From Verif.Simd Require Import Model Spec Proofs Proofs2 Ieee.
From Verif.Simd Require Props.
From Verif.BitDist Require Import Model Spec Proofs Full Proofs6 Proofs7.
From Verif.BitDist Require Props.
Import ListNotations.

(** Zero times a code, added to a sum, does not depend on the code. *)
Definition zero_absorbs {F} (o : fops F) (of_Z : Z -> F) : Prop := forall v v' s,
  (0 <= v < 16)%Z -> (0 <= v' < 16)%Z -> fma o (zero o) (of_Z v) s = fma o (zero o) (of_Z v') s.

Definition scalar_ref {F} (o : fops F) (of_Z : Z -> F) (x : list F) (els : list Z) : F :=
  fold_left (fun s p => add o s (mul o (fst p) (of_Z (snd p)))) (List.combine x els) (zero o).
Lemma full_scalar_ok {F} (o : fops F) of_Z nb x y : 1 <= nb <= 8 -> valid (unsigned nb) y -> length x = bs_len y ->
  full_scalar o of_Z nb x y = Some (scalar_ref o of_Z x (elements (unsigned nb) y)).
Proof.
  intros NB V L. unfold full_scalar, scalar_ref, elements. rewrite <- L.
  assert (forall n, n + length x <= bs_len y -> forall s,
    fold_left (fun s '(i, v) => do s <- s; do iy <- getz Dense nb y i; Some (add o s (mul o v (of_Z iy)))) (List.combine (seq n (length x)) x) (Some s) =
    Some (fold_left (fun s p => add o s (mul o (fst p) (of_Z (snd p)))) (List.combine x (map (element (unsigned nb) (bs_data y)) (seq n (length x)))) s)) as Q.
  { clear L. induction x as [|a x IH]; intros n H s; [reflexivity|]. cbn [length] in H. cbn [length seq List.combine map fold_left bind].
    rewrite getz_ok; [|split; [exact NB|split; discriminate]|exact V|lia]. cbn [bind]. rewrite IH by lia. reflexivity. }
  apply Q. lia.
Qed.
Lemma scalar_sum {F} (o : fops F) (ex : exact o) (of_Z : Z -> F) x : forall els s, length els = length x ->
  fold_left (fun s p => add o s (mul o (fst p) (of_Z (snd p)))) (List.combine x els) s = add o s (total o (fun a b => mul o a (of_Z b)) x els).
Proof.
  pose proof (ex_ring o ex) as rt. induction x as [|a x IH]; intros [|b els] s H; try discriminate; cbn [List.combine fold_left total].
  - rewrite (Radd_comm rt). symmetry. apply (Radd_0_l rt).
  - rewrite IH by now injection H. cbn [fst snd]. symmetry. apply (Radd_assoc rt).
Qed.
Lemma total_map_r {F A B C} (o : fops F) (f : A -> C -> F) (g : B -> C) x : forall y, total o f x (map g y) = total o (fun a b => f a (g b)) x y.
Proof. induction x as [|a x IH]; intros [|b y]; cbn [map total]; try reflexivity. now rewrite IH. Qed.
Definition ip_ref {F} (o : fops F) (of_Z : Z -> F) (a : arch) (nb : nat) (x : list F) (els : list Z) : F :=
  match a, nb with (V3 | V4), (1 | 2 | 4) => kernel_ref o of_Z nb x els | _, _ => scalar_ref o of_Z x els end.
Lemma full_ip_ok {F} (o : fops F) of_Z a nb x y : zero_absorbs o of_Z -> 1 <= nb <= 8 -> valid (unsigned nb) y -> length x = bs_len y ->
  full_ip o of_Z a nb x y = Some (Value (ip_ref o of_Z a nb x (elements (unsigned nb) y))).
Proof.
  intros law NB V L. unfold full_ip, ip_ref. rewrite (proj2 (Nat.eqb_eq _ _) L).
  assert (small nb -> full_kernel o of_Z nb x y = Some (kernel_ref o of_Z nb x (elements (unsigned nb) y))) as K.
  { intros sm. apply full_kernel_ok; [exact sm| |exact V|exact L]. intros v v' s H H'. apply law.
    - destruct sm as [->|[->| ->]]; cbn in H; lia.
    - destruct sm as [->|[->| ->]]; cbn in H'; lia. }
  pose proof (full_scalar_ok o of_Z nb x y NB V L) as SC.
  destruct a; try (rewrite SC; reflexivity);
    destruct nb as [|[|[|[|[|nb]]]]]; try (rewrite SC; reflexivity); rewrite K by (unfold small; lia); reflexivity.
Qed.

(** With exact arithmetic the result is the sum of products over all elements, on every architecture
    and for every width and length; vectors of different lengths are an error. *)
Theorem C97_inner_product {F} (o : fops F) (of_Z : Z -> F) : exact o ->
  forall (a : arch) (nb : nat) (x : list F) (y : bitslice), 1 <= nb <= 8 -> valid (unsigned nb) y ->
  (length x <> bs_len y -> full_ip o of_Z a nb x y = Some Unequal) /\
  (length x = bs_len y ->
   full_ip o of_Z a nb x y = Some (Value (total o (fun u v => mul o u (of_Z v)) x (elements (unsigned nb) y)))).
Proof.
  intros ex a nb x y NB V. split; intros H.
  - unfold full_ip. now rewrite (proj2 (Nat.eqb_neq _ _) H).
  - pose proof (ex_ring o ex) as rt.
    assert (forall u, mul o (zero o) u = zero o) as M0.
    { intros u. exact (ARmul_0_l (Rth_ARth (Eqsth F) (Eq_ext (add o) (mul o) (neg o)) rt) u). }
    assert (zero_absorbs o of_Z) as law by (intros v v' s _ _; now rewrite !(ex_fma o ex), !M0).
    rewrite (full_ip_ok o of_Z a nb x y law NB V H). do 2 f_equal.
    assert (length (elements (unsigned nb) y) = length x) as LE by (unfold elements; now rewrite map_length, seq_length).
    assert (scalar_ref o of_Z x (elements (unsigned nb) y) = total o (fun u v => mul o u (of_Z v)) x (elements (unsigned nb) y)) as SC.
    { unfold scalar_ref. rewrite scalar_sum by assumption. apply (Radd_0_l rt). }
    assert (small nb -> kernel_ref o of_Z nb x (elements (unsigned nb) y) = total o (fun u v => mul o u (of_Z v)) x (elements (unsigned nb) y)) as K.
    { intros sm. rewrite kernel_sum by assumption. apply total_map_r. }
    unfold ip_ref. destruct a; try exact SC; destruct nb as [|[|[|[|[|nb]]]]]; try exact SC; apply K; unfold small; lia.
Qed.
Print Assumptions C97_inner_product.

(** With any arithmetic in which zero absorbs the codes, the result depends on the elements alone:
    bits of the last byte beyond the length do not matter.  A result is always returned: nothing
    outside the vectors is read. *)
Theorem C97_depends_on_elements {F} (o : fops F) (of_Z : Z -> F) : zero_absorbs o of_Z ->
  forall (a : arch) (nb : nat) (x : list F) (y y' : bitslice), 1 <= nb <= 8 ->
  valid (unsigned nb) y -> valid (unsigned nb) y' -> elements (unsigned nb) y = elements (unsigned nb) y' ->
  length x = bs_len y ->
  exists v, full_ip o of_Z a nb x y = Some (Value v) /\ full_ip o of_Z a nb x y' = Some (Value v).
Proof.
  intros law a nb x y y' NB V V' E L.
  assert (bs_len y = bs_len y') as LL by (rewrite <- (elements_length (unsigned nb) y), E; apply elements_length).
  eexists. split; [now apply full_ip_ok|]. rewrite E. apply full_ip_ok; try assumption. congruence.
Qed.
Print Assumptions C97_depends_on_elements.

(** IEEE arithmetic is one such: zero absorbs the codes there, infinite and NaN sums included. *)
Definition f32_of_Z (v : Z) : f32 := binary_normalize 24 128 eq_refl eq_refl mode_NE v 0 false.
Lemma f32_absorbs : zero_absorbs f32_ops f32_of_Z.
Proof.
  assert (forall v s, (0 <= v < 16)%Z -> fma f32_ops (zero f32_ops) (f32_of_Z v) s = fma f32_ops (zero f32_ops) (zero f32_ops) s) as H.
  { intros v s B.
    assert (match B2SF (f32_of_Z v) with S754_zero false | S754_finite false _ _ => true | _ => false end = true) as C.
    { assert (v = 0 \/ v = 1 \/ v = 2 \/ v = 3 \/ v = 4 \/ v = 5 \/ v = 6 \/ v = 7 \/ v = 8 \/ v = 9 \/ v = 10 \/ v = 11 \/ v = 12 \/ v = 13 \/ v = 14 \/ v = 15)%Z as C by lia.
      clear B. repeat (destruct C as [->|C]); try subst v; vm_compute; reflexivity. }
    destruct (f32_of_Z v) as [[|]|[|]| |[|] m e p]; try discriminate; [reflexivity|]. destruct s; reflexivity. }
  intros v v' s B B'. now rewrite (H v), (H v').
Qed.
Theorem C97_ieee (a : arch) (nb : nat) (x : list f32) (y y' : bitslice) : 1 <= nb <= 8 ->
  valid (unsigned nb) y -> valid (unsigned nb) y' -> elements (unsigned nb) y = elements (unsigned nb) y' ->
  length x = bs_len y ->
  exists v, full_ip f32_ops f32_of_Z a nb x y = Some (Value v) /\ full_ip f32_ops f32_of_Z a nb x y' = Some (Value v).
Proof. apply C97_depends_on_elements. exact f32_absorbs. Qed.
Print Assumptions C97_ieee.

Example C97_example :
  valid (unsigned 1) (Props.junk 1 45 3) /\ valid (unsigned 2) (Props.junk 2 45 3) /\ valid (unsigned 4) (Props.junk 4 45 3) /\
  map (fun nb => full_ip Simd.Props.z_ops (fun v => v) V3 nb (Simd.Props.ramp 45) (Props.junk nb 45 3)) [1; 2; 3; 4] =
  map (fun nb => full_ip Simd.Props.z_ops (fun v => v) Neon nb (Simd.Props.ramp 45) (Props.junk nb 45 3)) [1; 2; 3; 4] /\
  full_ip Simd.Props.z_ops (fun v => v) V3 4 (Simd.Props.ramp 45) (Props.junk 4 46 3) = Some Unequal.
Proof.
  repeat split; try reflexivity; apply Forall_forall; intros b I;
    (apply N.ltb_lt; revert b I; apply forallb_forall; vm_compute; reflexivity).
Qed.
