(** C46: bit-packed vectors store values exactly. *)
From Coq Require Import List NArith ZArith PeanoNat Bool Lia.
From Verif.Lib Require Import Base Lists.
From Verif.Bits Require Import Model Spec Proofs.
Import ListNotations.

(** Over data of the right length, a packed vector answers every sequence of gets and sets as
    the plain list of its elements does, and ends up holding that list; it never panics or
    leaves its data. *)
Theorem C46_refines_a_list (c : conf) (data : list N) (count : nat) (ops : list bop) s0 s rs :
  conf_ok c -> Forall byte_ok data ->
  bs_new c data count = Some s0 -> bs_run c s0 ops = (s, rs) ->
  list_run c (elements c s0) ops = (elements c s, rs) /\ ~ In BPanic rs /\
  bs_len s = count /\ length (bs_data s) = length data /\ Forall byte_ok (bs_data s).
Proof.
  intros C D N R. pose proof (new_spec c data count) as NS. rewrite N in NS. destruct NS as [-> L].
  assert (WF : wf c (mkbs data count)) by (split; assumption).
  pose proof (run_refines c ops C _ WF) as H. rewrite R in H. destruct H as ((D' & L') & LN & E & O).
  split; [exact E|]. split.
  - clear - E. revert s rs E. generalize (elements c (mkbs data count)) as l.
    induction ops as [|o ops IH]; intros l s rs E; cbn [list_run] in E; [injection E as _ <-; auto|].
    destruct (list_op c l o) as [l1 r] eqn:Eo. destruct (list_run c l1 ops) as [l2 rs2] eqn:Er. injection E as E1 <-.
    intros [H|H].
    + subst r. destruct o; cbn [list_op] in Eo; [destruct (nth_error l i); discriminate|].
      destruct (length l <=? i); [discriminate|]. destruct (storable c v); discriminate.
    + rewrite E1 in Er. eapply IH; eauto.
  - cbn [bs_len] in LN. rewrite LN, L', L, LN. auto.
Qed.
Print Assumptions C46_refines_a_list.

(** Any such vector: setting element [i] succeeds for the values that can be stored, get
    returns it afterwards, and every other element is unchanged. *)
Theorem C46_set_then_get (c : conf) (s : bitslice) (i j : nat) (v : Z) :
  conf_ok c -> Forall byte_ok (bs_data s) -> length (bs_data s) = bytes_for (c_perm c) (c_bits c) (bs_len s) ->
  i < bs_len s -> storable c v = true ->
  exists s', bs_op c s (BSet i v) = (s', BDone) /\ bs_op c s' (BGet i) = (s', BValue v) /\
    (j <> i -> snd (bs_op c s' (BGet j)) = snd (bs_op c s (BGet j))).
Proof.
  intros C D L Hi HS. assert (WF : wf c s) by (split; assumption).
  pose proof (op_refines c s (BSet i v) C WF) as H. destruct (bs_op c s (BSet i v)) as [s' r].
  destruct H as (WF' & LN & E & _). cbn [list_op] in E. rewrite elements_length, HS in E.
  destruct (Nat.leb_spec (bs_len s) i); [lia|]. injection E as E1 <-. exists s'. split; [reflexivity|].
  assert (G : forall s k, wf c s -> bs_op c s (BGet k) = (s, match nth_error (elements c s) k with Some v => BValue v | None => BIndexError end)).
  { clear - C. intros s k WF. pose proof (op_refines c s (BGet k) C WF) as H. destruct (bs_op c s (BGet k)) as [s1 r] eqn:EO.
    destruct H as (_ & _ & H & _). cbn [list_op] in H.
    assert (s1 = s). { cbn [bs_op] in EO. destruct (bs_len s <=? k); [congruence|]. destruct (unpack _ _ _ _) as [raw|]; [destruct (decode _ _ raw)|]; congruence. }
    subst s1. destruct (nth_error (elements c s) k); injection H as <-; reflexivity. }
  rewrite !(G s'), (G s) by assumption. rewrite <- E1. rewrite nth_error_set_nth, Nat.eqb_refl, elements_length.
  destruct (Nat.ltb_spec i (bs_len s)); [|lia]. split; [reflexivity|]. intros Hj. cbn [snd]. rewrite nth_error_set_nth.
  destruct (Nat.eqb_spec j i); [lia|reflexivity].
Qed.
Print Assumptions C46_set_then_get.

(** The bits no element owns (padding) keep their value. *)
Theorem C46_padding_untouched (c : conf) (data : list N) (count : nat) (ops : list bop) s0 k :
  conf_ok c -> Forall byte_ok data -> bs_new c data count = Some s0 ->
  (forall i j, i < count -> j < c_bits c -> k <> place c i j) ->
  bit_of (bs_data (fst (bs_run c s0 ops))) k = bit_of data k.
Proof.
  intros C D N Hk. pose proof (new_spec c data count) as NS. rewrite N in NS. destruct NS as [-> L].
  pose proof (run_refines c ops C (mkbs data count) (conj D L)) as H. destruct (bs_run c (mkbs data count) ops) as [s rs].
  apply H. exact Hk.
Qed.
Print Assumptions C46_padding_untouched.

(** A vector is accepted over a byte slice exactly when the slice has the size computed for
    it; that size holds every bit of every element, and no two elements share a bit. *)
Theorem C46_layout (c : conf) (data : list N) (count : nat) : conf_ok c ->
  (bs_new c data count <> None <-> length data = bytes_for (c_perm c) (c_bits c) count) /\
  (forall i j, i < count -> j < c_bits c -> place c i j < 8 * bytes_for (c_perm c) (c_bits c) count) /\
  (forall i j i' j', j < c_bits c -> j' < c_bits c -> place c i j = place c i' j' -> i = i' /\ j = j').
Proof.
  intros C. split; [|split].
  - pose proof (new_spec c data count) as NS. destruct (bs_new c data count) as [s|].
    + split; [intros _; apply NS|discriminate].
    + split; [congruence|]. intros. contradiction.
  - intros. now apply place_bound.
  - intros. eapply place_inj; eauto.
Qed.
Print Assumptions C46_layout.

(** A fresh vector holds zeros, or minus ones in the binary representation. *)
Theorem C46_fresh (c : conf) (count : nat) :
  elements c (bs_boxed c count) = repeat (match c_repr c with Unsigned => 0 | Binary => -1 end)%Z count /\
  bs_new c (bs_data (bs_boxed c count)) count = Some (bs_boxed c count).
Proof.
  split; [apply boxed_elements|]. unfold bs_new, bs_boxed. cbn [bs_data]. now rewrite repeat_length, Nat.eqb_refl.
Qed.
Print Assumptions C46_fresh.

(** An 8-bit vector viewed as bytes is the list of its elements. *)
Theorem C46_byte_view (s : bitslice) :
  let c := mkconf 8 Unsigned Dense in
  Forall byte_ok (bs_data s) -> length (bs_data s) = bytes_for Dense 8 (bs_len s) ->
  bs_as_bytes s = Some (map Z.to_N (elements c s)).
Proof. intros c D L. apply dense8_bytes. split; assumption. Qed.
Print Assumptions C46_byte_view.

(** A 3-bit vector: element 2 straddles two bytes. *)
Example C46_ex_dense : let c := mkconf 3 Unsigned Dense in
  conf_ok c /\ Forall byte_ok [255; 255]%N /\ bs_new c [255; 255]%N 5 = Some (mkbs [255; 255]%N 5) /\
  bs_run c (mkbs [255; 255]%N 5) [BSet 2 2; BGet 2; BGet 1; BSet 1 9; BGet 5] =
    (mkbs [191; 254]%N 5, [BDone; BValue 2; BValue 7; BEncodingError; BIndexError]).
Proof.
  cbn. split; [|split; [|split]]; try reflexivity.
  - unfold conf_ok; cbn [c_bits c_repr c_perm]. split; [lia|]. split; discriminate.
  - repeat constructor; unfold byte_ok; lia.
Qed.
Example C46_ex_transposed : let c := mkconf 4 Unsigned BitTranspose in
  conf_ok c /\ snd (bs_run c (bs_boxed c 70) [BSet 69 13; BGet 69; BGet 5; BGet 68]) = [BDone; BValue 13; BValue 0; BValue 0].
Proof. split; [|vm_compute; reflexivity]. unfold conf_ok; cbn [c_bits c_repr c_perm]. split; [lia|]. split; [discriminate|reflexivity]. Qed.
Example C46_ex_binary : let c := mkconf 1 Binary Dense in
  conf_ok c /\ storable c (-1) = true /\ snd (bs_run c (bs_boxed c 3) [BSet 1 1; BGet 1; BGet 0; BSet 2 0]) = [BDone; BValue 1; BValue (-1); BEncodingError].
Proof. split; [|split; vm_compute; reflexivity]. unfold conf_ok; cbn [c_bits c_repr c_perm]. split; [lia|]. split; [reflexivity|discriminate]. Qed.
Example C46_ex_padding : forall i j, i < 5 -> j < 3 -> 15 <> place (mkconf 3 Unsigned Dense) i j.
Proof. intros. unfold place. cbn [c_perm c_bits]. lia. Qed.
