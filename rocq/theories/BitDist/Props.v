(** C94-C96: distances between bit-packed vectors. *)
From Coq Require Import List NArith ZArith PeanoNat Bool Lia.
From Verif.Bits Require Import Model Spec Proofs.
From Verif.Simd Require Spec.
From Verif.Simd Require Import Model Proofs3.
From Verif.BitDist Require Import Model Spec Proofs Proofs2 Proofs3 Proofs4 Proofs5.
Import ListNotations.

(** ** C94: squared L2 and inner product are the integer sums, on every architecture *)

Theorem C94_squared_l2 (a : arch) (nb : nat) (x y : bitslice) : 1 <= nb <= 8 ->
  valid (unsigned nb) x -> valid (unsigned nb) y ->
  let exact := exact_l2 (elements (unsigned nb) x) (elements (unsigned nb) y) in
  (bs_len x <> bs_len y -> squared_l2 a nb x y = Some UnequalLengths) /\
  (bs_len x = bs_len y -> (exact <= limit nb nb)%Z -> squared_l2 a nb x y = Some (Distance exact)).
Proof.
  intros NB vx vy exact. unfold squared_l2, checked. split; intros H.
  - apply Nat.eqb_neq in H. now rewrite H.
  - intros B. rewrite (proj2 (Nat.eqb_eq _ _) H). rewrite same_width_ok by assumption. reflexivity.
Qed.
Print Assumptions C94_squared_l2.

Theorem C94_inner_product (a : arch) (nx ny : nat) (x y : bitslice) : ip_widths nx ny ->
  valid (unsigned nx) x -> valid (unsigned ny) y ->
  let exact := exact_ip (elements (unsigned nx) x) (elements (unsigned ny) y) in
  (bs_len x <> bs_len y -> inner_product a nx ny x y = Some UnequalLengths) /\
  (bs_len x = bs_len y -> (exact <= limit nx ny)%Z -> inner_product a nx ny x y = Some (Distance exact)).
Proof.
  intros W vx vy exact. unfold inner_product, checked. split; intros H.
  - apply Nat.eqb_neq in H. now rewrite H.
  - intros B. rewrite (proj2 (Nat.eqb_eq _ _) H). destruct W as [[<- NX]|[-> NY]].
    + rewrite Nat.eqb_refl. rewrite same_width_ok by assumption. reflexivity.
    + assert (exact < 2 ^ 31)%Z as B' by (unfold limit in B; destruct NY as [->|[->| ->]]; cbn in B; lia).
      assert (1 <= ny <= 8) by (destruct NY as [->|[->| ->]]; lia).
      assert ((8 =? ny) = false) as -> by (destruct NY as [->|[->| ->]]; reflexivity).
      assert (match ny with 4 => het_8x4 x y | 2 => het_8x2 x y | _ => het_8x1 x y end = Some exact) as HET.
      { destruct NY as [NY|[NY|NY]]; subst ny; [apply (het_8x4_ok 4)|apply (het_8x2_ok 2)|apply (het_8x1_ok 1)]; auto. }
      assert (scalar_dist false 8 ny x y = Some exact) as SC by (apply scalar_ok; auto; lia).
      destruct a; rewrite ?HET, ?SC; reflexivity.
Qed.
Print Assumptions C94_inner_product.

(** Only the elements matter: neither the architecture nor the bits of the last byte after the last
    element change a result. *)
Theorem C94_depends_on_elements (a a' : arch) (nx ny : nat) (x y x' y' : bitslice) : ip_widths nx ny ->
  valid (unsigned nx) x -> valid (unsigned ny) y -> valid (unsigned nx) x' -> valid (unsigned ny) y' ->
  elements (unsigned nx) x = elements (unsigned nx) x' -> elements (unsigned ny) y = elements (unsigned ny) y' ->
  ((exact_ip (elements (unsigned nx) x) (elements (unsigned ny) y) <= limit nx ny)%Z ->
   inner_product a nx ny x y = inner_product a' nx ny x' y') /\
  (nx = ny -> (exact_l2 (elements (unsigned nx) x) (elements (unsigned ny) y) <= limit nx ny)%Z ->
   squared_l2 a nx x y = squared_l2 a' nx x' y').
Proof.
  intros W vx vy vx' vy' EX EY.
  assert (bs_len x = bs_len x') as LX by (rewrite <- (elements_length (unsigned nx) x), EX; apply elements_length).
  assert (bs_len y = bs_len y') as LY by (rewrite <- (elements_length (unsigned ny) y), EY; apply elements_length).
  split.
  - intros B. destruct (C94_inner_product a nx ny x y W vx vy) as [P1 P2]. destruct (C94_inner_product a' nx ny x' y' W vx' vy') as [Q1 Q2].
    destruct (Nat.eq_dec (bs_len x) (bs_len y)) as [E|E].
    + rewrite P2 by assumption. rewrite Q2 by (congruence || (rewrite <- EX, <- EY; assumption)). now rewrite EX, EY.
    + rewrite P1, Q1 by congruence. reflexivity.
  - intros <- B. assert (1 <= nx <= 8) as NX by (destruct W as [[_ W]|[-> _]]; lia).
    destruct (C94_squared_l2 a nx x y NX vx vy) as [P1 P2]. destruct (C94_squared_l2 a' nx x' y' NX vx' vy') as [Q1 Q2].
    destruct (Nat.eq_dec (bs_len x) (bs_len y)) as [E|E].
    + rewrite P2 by assumption. rewrite Q2 by (congruence || (rewrite <- EX, <- EY; assumption)). now rewrite EX, EY.
    + rewrite P1, Q1 by congruence. reflexivity.
Qed.
Print Assumptions C94_depends_on_elements.

(** 137 elements: two blocks, a shorter load and a scalar remainder; junk after the last element. *)
Definition junk (nb n seed : nat) : bitslice :=
  mkbs (map (fun i => N.of_nat ((i * 37 + seed * 11 + i / 3) mod 256)) (seq 0 (bytes_for Dense nb n))) n.
Example C94_example : forall nb, In nb [1; 2; 3; 4; 5; 6; 7; 8] -> forall a,
  valid (unsigned nb) (junk nb 137 3) /\ valid (unsigned nb) (junk nb 137 5) /\
  (let exact := exact_l2 (elements (unsigned nb) (junk nb 137 3)) (elements (unsigned nb) (junk nb 137 5)) in
   0 < exact <= limit nb nb /\ squared_l2 a nb (junk nb 137 3) (junk nb 137 5) = Some (Distance exact))%Z.
Proof.
  intros nb H a.
  assert (forall s, valid (unsigned nb) (junk nb 137 s)) as V.
  { intros s. split; [|unfold junk; cbn [bs_data bs_len unsigned c_perm c_bits]; now rewrite map_length, seq_length].
    apply Forall_map, Forall_forall. intros i _. unfold byte_ok.
    assert (256 <> 0) as NZ by discriminate. pose proof (Nat.mod_upper_bound (i * 37 + s * 11 + i / 3) 256 NZ). lia. }
  split; [apply V|]. split; [apply V|].
  assert (0 < exact_l2 (elements (unsigned nb) (junk nb 137 3)) (elements (unsigned nb) (junk nb 137 5)) <= limit nb nb)%Z as B
    by (repeat (destruct H as [<-|H]; [vm_compute; split; [reflexivity|discriminate]|]); contradiction).
  split; [exact B|].
  apply (C94_squared_l2 a nb); [|apply V|apply V|reflexivity|apply B].
  repeat (destruct H as [<-|H]; [lia|]). contradiction.
Qed.
Example C94_example_run :
  map (fun a => inner_product a 8 4 (junk 8 200 3) (junk 4 200 5)) [V4; Scalar] =
  repeat (Some (Distance (exact_ip (elements (unsigned 8) (junk 8 200 3)) (elements (unsigned 4) (junk 4 200 5))))) 2.
Proof. vm_compute. reflexivity. Qed.

(** ** C95: Hamming distance and the transposed inner product *)

Theorem C95_hamming (x y : bitslice) : valid binary x -> valid binary y ->
  (bs_len x <> bs_len y -> hamming x y = Some UnequalLengths) /\
  (bs_len x = bs_len y -> (Z.of_nat (bs_len x) < 2 ^ 32)%Z ->
   hamming x y = Some (Distance (differing (elements binary x) (elements binary y)))).
Proof.
  intros vx vy. unfold hamming, checked. split; intros H.
  - apply Nat.eqb_neq in H. now rewrite H.
  - intros B. rewrite (proj2 (Nat.eqb_eq _ _) H).
    assert (forall s, elements binary s = map (fun v => if (v =? 0)%Z then -1 else 1)%Z (elements (unsigned 1) s)) as EB
      by (intros s; unfold elements; rewrite map_map; reflexivity).
    assert (forall s v, In v (elements (unsigned 1) s) -> (v = 0 \/ v = 1)%Z) as BIT.
    { intros s v I. apply in_map_iff in I as (i & <- & _). unfold element. cbn [unsigned c_repr c_bits number].
      destruct (bit_of (bs_data s) _); [right|left]; reflexivity. }
    assert (forall l m, (forall v, In v l -> v = 0 \/ v = 1)%Z -> (forall v, In v m -> v = 0 \/ v = 1)%Z ->
      (Simd.Spec.ztotal (term true) l m = differing (map (fun v => if (v =? 0)%Z then -1 else 1)%Z l) (map (fun v => if (v =? 0)%Z then -1 else 1)%Z m)
       /\ Simd.Spec.ztotal (term true) l m <= Z.of_nat (length l))%Z) as EQ.
    { unfold differing. induction l as [|u l IH]; intros [|v m] HL HM; cbn [map Simd.Spec.ztotal length]; try lia.
      destruct (IH m) as [I1 I2]; [intros; apply HL; now right|intros; apply HM; now right|]. rewrite <- I1.
      set (T := Simd.Spec.ztotal (term true) l m) in *. clearbody T. rewrite Nat2Z.inj_succ.
      destruct (HL u (or_introl eq_refl)) as [->| ->], (HM v (or_introl eq_refl)) as [->| ->]; change (term true 0 0) with 0%Z || change (term true 0 1) with 1%Z || change (term true 1 0) with 1%Z || change (term true 1 1) with 0%Z; cbn [Z.eqb Pos.eqb]; lia. }
    destruct (EQ (elements (unsigned 1) x) (elements (unsigned 1) y) (BIT x) (BIT y)) as [E1 E2].
    rewrite !EB, <- E1. rewrite elements_length in E2.
    rewrite (bitvector_ok true x y vx vy H) by lia. reflexivity.
Qed.
Print Assumptions C95_hamming.

Theorem C95_transposed (x y : bitslice) : valid transposed4 x -> valid (unsigned 1) y ->
  let exact := exact_ip (elements transposed4 x) (elements (unsigned 1) y) in
  (bs_len x <> bs_len y -> transposed x y = Some UnequalLengths) /\
  (bs_len x = bs_len y -> (exact < 2 ^ 31)%Z -> transposed x y = Some (Distance exact)).
Proof.
  intros vx vy exact. unfold transposed, checked. split; intros H.
  - apply Nat.eqb_neq in H. now rewrite H.
  - intros B. rewrite (proj2 (Nat.eqb_eq _ _) H). rewrite (transposed_ok x y vx vy H B). reflexivity.
Qed.
Print Assumptions C95_transposed.

Definition tjunk (n seed : nat) : bitslice :=
  mkbs (map (fun i => N.of_nat ((i * 37 + seed * 11 + i / 3) mod 256)) (seq 0 (bytes_for BitTranspose 4 n))) n.
Example C95_example : valid transposed4 (tjunk 90 3) /\
  transposed (tjunk 90 3) (junk 1 90 5) = Some (Distance 334) /\ hamming (junk 1 90 5) (junk 1 90 9) = Some (Distance 40) /\
  transposed (tjunk 90 3) (junk 1 91 5) = Some UnequalLengths.
Proof.
  split; [|vm_compute; auto].
  split; [|reflexivity]. apply Forall_map, Forall_forall. intros i _. unfold byte_ok.
  assert (256 <> 0) as NZ by discriminate. pose proof (Nat.mod_upper_bound (i * 37 + 3 * 11 + i / 3) 256 NZ). lia.
Qed.

(** ** C96: 8-bit against 8-bit goes through f32 *)

(** The answer is the f32 nearest to the sum. *)
Theorem C96_bytes_nearest (a : arch) (l2 : bool) (x y : bitslice) :
  valid (unsigned 8) x -> valid (unsigned 8) y -> bs_len x = bs_len y ->
  let exact := (if l2 then exact_l2 else exact_ip) (elements (unsigned 8) x) (elements (unsigned 8) y) in
  (exact < 2 ^ 31)%Z ->
  exists v, (if l2 then squared_l2 a 8 x y else inner_product a 8 8 x y) = Some (Distance v) /\
    Simd.Spec.nearest_f32 exact v.
Proof.
  intros vx vy E exact B.
  assert (exact = Simd.Spec.ztotal (term l2) (elements (unsigned 8) x) (elements (unsigned 8) y)) as EX by (unfold exact; destruct l2; reflexivity).
  assert (0 <= exact)%Z as NN.
  { rewrite EX. apply ztotal_nonneg. intros u v U V. apply term_nonneg; eapply elements_nonneg; eassumption. }
  pose proof (lossy_nearest exact) as NE. exists (lossy exact). split; [|exact NE].
  assert (same_width l2 a 8 x y = Some (lossy exact)) as SW.
  { cbn [same_width]. rewrite byte_dist_ok by (try assumption; rewrite <- EX; assumption). rewrite <- EX. f_equal. unfold as_u32.
    assert (0 <= lossy exact)%Z by (unfold lossy; destruct (Z.ltb_spec exact 0); [lia|now apply lossy_pos_nearest]).
    destruct NE as [_ NE]. specialize (NE (2 ^ 31)%Z). assert (Simd.Spec.f32_int (2 ^ 31)) as F by (exists 1%Z, 31%Z; lia).
    specialize (NE F). lia. }
  destruct l2; [unfold squared_l2|unfold inner_product]; unfold checked; rewrite (proj2 (Nat.eqb_eq _ _) E); cbn [Nat.eqb]; rewrite SW; reflexivity.
Qed.
Print Assumptions C96_bytes_nearest.

(** It is not the sum itself: 260 elements at opposite ends of the range are enough, on every
    architecture, although the result type is an integer. *)
Theorem C96_bytes_exact_refuted : exists x y, valid (unsigned 8) x /\ valid (unsigned 8) y /\ bs_len x = 260 /\ bs_len y = 260 /\
  forall a, squared_l2 a 8 x y <> Some (Distance (exact_l2 (elements (unsigned 8) x) (elements (unsigned 8) y))).
Proof.
  exists (mkbs (254%N :: repeat 255%N 259) 260), (mkbs (repeat 0%N 260) 260).
  assert (forall d, forallb (fun b => b <? 256)%N d = true -> length d = 260 -> valid (unsigned 8) (mkbs d 260)) as V.
  { intros d H L. split; [|cbn [bs_data bs_len unsigned c_perm c_bits]; rewrite L; reflexivity]. cbn [bs_data].
    apply Forall_forall. rewrite forallb_forall in H. intros b I. apply N.ltb_lt, H, I. }
  assert (valid (unsigned 8) (mkbs (254%N :: repeat 255%N 259) 260)) as vx by (apply V; vm_compute; reflexivity).
  assert (valid (unsigned 8) (mkbs (repeat 0%N 260) 260)) as vy by (apply V; vm_compute; reflexivity).
  split; [exact vx|]. split; [exact vy|]. split; [reflexivity|]. split; [reflexivity|].
  assert (exact_l2 (elements (unsigned 8) (mkbs (254%N :: repeat 255%N 259) 260)) (elements (unsigned 8) (mkbs (repeat 0%N 260) 260)) = 16905991%Z) as EX
    by (vm_compute; reflexivity).
  revert vx vy EX. generalize (mkbs (254%N :: repeat 255%N 259) 260) as x, (mkbs (repeat 0%N 260) 260) as y. intros x y vx vy EX.
  intros a. rewrite EX. unfold squared_l2, checked. destruct (Nat.eqb_spec (bs_len x) (bs_len y)) as [L|L]; [|discriminate].
  cbn [same_width]. rewrite byte_dist_ok; [|exact vx|exact vy|exact L|change (exact_l2 (elements (unsigned 8) x) (elements (unsigned 8) y) < 2 ^ 31)%Z; rewrite EX; reflexivity].
  change (Simd.Spec.ztotal (term true) (elements (unsigned 8) x) (elements (unsigned 8) y)) with (exact_l2 (elements (unsigned 8) x) (elements (unsigned 8) y)).
  rewrite EX. vm_compute. discriminate.
Qed.
Print Assumptions C96_bytes_exact_refuted.
