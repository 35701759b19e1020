(** Bits, blocks and scans. *)
From Verif.Lib Require Import Base Lists.
From Verif.Fsm Require Import Model.
Local Open Scope N_scope.
Ltac Zify.zify_post_hook ::= Z.div_mod_to_equations.

Definition bitat (b : block) (k : N) : bool :=
  match nth_error b (N.to_nat (k / 8)) with Some x => bit_used x (k mod 8) | None => false end.
Definition sized (s : store) : Prop := forall k b, s k = Some b -> N.of_nat (length b) = block_bytes.

Lemma bit_used_testbit byte k : bit_used byte k = N.testbit byte (7 - k).
Proof.
  unfold bit_used. rewrite <- (N.add_0_l (7 - k)) at 2. rewrite <- N.shiftr_spec by lia.
  rewrite N.bit0_odd. set (x := N.shiftr byte (7 - k)). clearbody x.
  change 1 with (N.ones 1) at 1. rewrite N.land_ones. change (2 ^ 1) with 2.
  rewrite <- N.bit0_odd. rewrite <- N.bit0_mod. now destruct (N.testbit x 0).
Qed.
Lemma bit_used_0 k : bit_used 0 k = false.
Proof. rewrite bit_used_testbit. apply N.bits_0. Qed.
Lemma bit_used_255 k : k < 8 -> bit_used 255 k = true.
Proof. intros H. rewrite bit_used_testbit. change 255 with (N.ones 8). apply N.ones_spec_low. lia. Qed.
Lemma land_pow2_0 x k : (N.land x (2 ^ k) =? 0) = negb (N.testbit x k).
Proof.
  destruct (N.testbit x k) eqn:E; cbn [negb].
  - apply N.eqb_neq. intros H. assert (N.testbit (N.land x (2 ^ k)) k = false) as X by (rewrite H; apply N.bits_0).
    rewrite N.land_spec, E, N.pow2_bits_true in X. discriminate.
  - apply N.eqb_eq. apply N.bits_inj_0. intros j. rewrite N.land_spec, N.pow2_bits_eqb.
    destruct (k =? j) eqn:J; [apply N.eqb_eq in J; subst; now rewrite E|apply Bool.andb_false_r].
Qed.
Lemma update_status_spec u byte k : k < 8 ->
  fst (update_status u byte k) = xorb (bit_used byte k) u /\
  forall j, j < 8 -> bit_used (snd (update_status u byte k)) j = if j =? k then u else bit_used byte j.
Proof.
  intros K. unfold update_status. rewrite N.shiftl_1_l, !land_pow2_0. cbn [fst snd]. split.
  - rewrite bit_used_testbit. destruct (N.testbit byte (7 - k)), u; reflexivity.
  - intros j J. rewrite !bit_used_testbit, N.lor_spec, N.ldiff_spec, N.pow2_bits_eqb.
    assert (N.shiftl (if u then 1 else 0) (7 - k) = if u then 2 ^ (7 - k) else 0) as -> by (destruct u; [apply N.shiftl_1_l|apply N.shiftl_0_l]).
    destruct (j =? k) eqn:E.
    + apply N.eqb_eq in E. subst. rewrite N.eqb_refl. cbn. rewrite Bool.andb_false_r. destruct u; [apply N.pow2_bits_true|apply N.bits_0].
    + apply N.eqb_neq in E. assert (7 - k <> 7 - j) as E7 by lia. rewrite (proj2 (N.eqb_neq _ _) E7). cbn.
      rewrite Bool.andb_true_r. destruct u; [rewrite N.pow2_bits_false by exact E7|rewrite N.bits_0]; now rewrite Bool.orb_false_r.
Qed.

Lemma used_bitat s id : used s id = match s (block_of id) with Some b => bitat b (id mod block_ids) | None => false end.
Proof. reflexivity. Qed.
Lemma id_parts id : id = block_of id * block_ids + byte_of id * 8 + bit_of id /\ byte_of id < block_bytes /\ bit_of id < 8.
Proof. unfold block_of, byte_of, bit_of, block_ids, block_bytes. lia. Qed.
Lemma zeros_length : N.of_nat (length zeros) = block_bytes.
Proof. unfold zeros. rewrite repeat_length. apply N2Nat.id. Qed.
Lemma nth_error_zeros i x : nth_error zeros i = Some x -> x = 0.
Proof. intros H. apply nth_error_In in H. now apply repeat_spec in H. Qed.
Lemma bitat_zeros k : bitat zeros k = false.
Proof. unfold bitat. destruct (nth_error zeros _) eqn:E; [|reflexivity]. apply nth_error_zeros in E. subst. apply bit_used_0. Qed.
Lemma put_eq s k b : put s k b k = Some b.
Proof. unfold put. now rewrite N.eqb_refl. Qed.
Lemma put_neq s k b j : j <> k -> put s k b j = s j.
Proof. intros. unfold put. destruct (j =? k) eqn:E; [apply N.eqb_eq in E; congruence|reflexivity]. Qed.
Lemma sized_put s k b : sized s -> N.of_nat (length b) = block_bytes -> sized (put s k b).
Proof. intros H L j c. unfold put. destruct (j =? k); [intros E; injection E as <-; exact L|apply H]. Qed.

Lemma nth_error_set_nth_same {A} (x : A) l i : (i < length l)%nat -> nth_error (set_nth i x l) i = Some x.
Proof. intros H. rewrite nth_error_set_nth, Nat.eqb_refl. now apply Nat.ltb_lt in H as ->. Qed.
Lemma nth_error_set_nth_other {A} (x : A) l i j : i <> j -> nth_error (set_nth i x l) j = nth_error l j.
Proof. intros H. rewrite nth_error_set_nth. destruct (Nat.eqb_spec i j); [congruence|]. destruct (Nat.eqb_spec j i); congruence. Qed.
Lemma rmw_spec s id u : sized s ->
  exists s', rmw s id u = Some (xorb (used s id) u, s') /\ sized s' /\
    (forall j, used s' j = if j =? id then u else used s j) /\
    (forall k, s' k = None <-> k <> block_of id /\ s k = None).
Proof.
  intros SZ. unfold rmw. set (b := match s (block_of id) with Some b => b | None => zeros end).
  assert (N.of_nat (length b) = block_bytes) as L.
  { unfold b. destruct (s (block_of id)) eqn:E; [now apply SZ in E|apply zeros_length]. }
  destruct (id_parts id) as (P & P1 & P2).
  destruct (nth_error b (N.to_nat (byte_of id))) as [x|] eqn:E.
  2: { apply nth_error_None in E. lia. }
  assert (used s id = bit_used x (bit_of id)) as U.
  { unfold used. unfold b in E. destruct (s (block_of id)) eqn:F; [now rewrite E|].
    apply nth_error_zeros in E. subst. now rewrite bit_used_0. }
  destruct (update_status_spec u x (bit_of id) P2) as (C & V).
  destruct (update_status u x (bit_of id)) as [ch y] eqn:F. cbn [fst snd] in *.
  eexists. split; [rewrite U, C; reflexivity|]. split; [|split].
  - apply sized_put; [assumption|now rewrite set_nth_length].
  - intros j. destruct (id_parts j) as (Q & Q1 & Q2). unfold used.
    destruct (N.eq_dec (block_of j) (block_of id)) as [BE|BN].
    + rewrite BE, put_eq. destruct (N.eq_dec (byte_of j) (byte_of id)) as [YE|YN].
      * rewrite YE. rewrite nth_error_set_nth_same by lia. rewrite V by assumption.
        destruct (j =? id) eqn:G.
        -- apply N.eqb_eq in G. subst. now rewrite N.eqb_refl.
        -- apply N.eqb_neq in G. assert (bit_of j =? bit_of id = false) as -> by (apply N.eqb_neq; congruence).
           unfold b in E. destruct (s (block_of id)); [now rewrite E|]. apply nth_error_zeros in E. subst. apply bit_used_0.
      * assert (j =? id = false) as -> by (apply N.eqb_neq; congruence).
        rewrite nth_error_set_nth_other by lia. unfold b. destruct (s (block_of id)); [reflexivity|].
        destruct (nth_error zeros _) eqn:Z; [apply nth_error_zeros in Z; subst; apply bit_used_0|reflexivity].
    + rewrite put_neq by assumption. assert (j =? id = false) as -> by (apply N.eqb_neq; congruence). reflexivity.
  - intros k. unfold put. destruct (k =? block_of id) eqn:K; [apply N.eqb_eq in K; split; [discriminate|tauto]|apply N.eqb_neq in K; tauto].
Qed.

(** Writing a zero block over one in which nothing is used changes no answer. *)
Lemma put_zeros_used s k : (forall id, block_of id = k -> used s id = false) -> forall id, used (put s k zeros) id = used s id.
Proof.
  intros H id. rewrite !used_bitat. destruct (N.eq_dec (block_of id) k) as [E|E].
  - subst k. rewrite put_eq, bitat_zeros. symmetry. rewrite <- used_bitat. now apply H.
  - now rewrite put_neq.
Qed.

(** * Scans *)
Lemma bitat_cons_low x b k : k < 8 -> bitat (x :: b) k = bit_used x k.
Proof. intros. unfold bitat. replace (k / 8) with 0 by lia. cbn. now replace (k mod 8) with k by lia. Qed.
Lemma bitat_cons_high x b k : 8 <= k -> bitat (x :: b) k = bitat b (k - 8).
Proof.
  intros. unfold bitat. replace (N.to_nat (k / 8)) with (S (N.to_nat ((k - 8) / 8))) by lia.
  cbn [nth_error]. now replace ((k - 8) mod 8) with (k mod 8) by lia.
Qed.
Definition len8 (b : block) : N := 8 * N.of_nat (length b).

Lemma scan_bits_spec n : forall k byte id nid l id' stop,
  scan_bits n k byte id nid = (l, id', stop) ->
  (forall x, In x l <-> id <= x < id + N.of_nat n /\ x < nid /\ bit_used byte (k + (x - id)) = false) /\
  (stop = false -> id' = id + N.of_nat n) /\ (stop = true -> nid < id + N.of_nat n).
Proof.
  induction n as [|n IH]; intros k byte id nid l id' stop H; cbn [scan_bits] in H.
  - inv H. split; [|split; [lia|discriminate]]. intros x. cbn. lia.
  - destruct (nid <=? id) eqn:E.
    + inv H. split; [|split; [discriminate|lia]]. intros x. cbn. lia.
    + destruct (scan_bits n (k + 1) byte (id + 1) nid) as [[l0 i0] s0] eqn:F. destruct (IH _ _ _ _ _ _ _ F) as (A & B & C).
      injection H as <- <- <-. split; [|split; [intros ->; rewrite B by reflexivity; lia|intros ->; specialize (C eq_refl); lia]].
      intros x. assert (In x l0 <-> id + 1 <= x < id + N.of_nat (S n) /\ x < nid /\ bit_used byte (k + (x - id)) = false) as A'.
      { rewrite A. split; intros (X & Y & Z); (split; [lia|split; [lia|]]);
        (replace (k + (x - id)) with (k + 1 + (x - (id + 1))) in * by lia; exact Z). }
      assert (bit_used byte (k + (id - id)) = bit_used byte k) as K by (f_equal; lia).
      destruct (bit_used byte k) eqn:U.
      * rewrite A'. split; intros (X & Y & Z); (split; [|split; assumption]); [lia|].
        assert (x <> id) by (intros ->; congruence). lia.
      * cbn [In]. rewrite A'. split.
        -- intros [<- | (X & Y & Z)]; [|split; [lia|tauto]]. split; [lia|]. split; [lia|]. congruence.
        -- intros (X & Y & Z). destruct (N.eq_dec id x) as [->|]; [now left|right]. split; [lia|tauto].
Qed.
Lemma scan_block_spec b : forall id nid l id' stop,
  scan_block b id nid = (l, id', stop) ->
  (forall x, In x l <-> id <= x < id + len8 b /\ x < nid /\ bitat b (x - id) = false) /\
  (stop = false -> id' = id + len8 b) /\ (stop = true -> nid < id + len8 b).
Proof.
  unfold len8. induction b as [|y b IH]; intros id nid l id' stop H; cbn [scan_block length] in *.
  - inv H. split; [|split; [lia|discriminate]]. intros x. cbn. lia.
  - destruct (nid <=? id) eqn:E.
    { inv H. split; [|split; [discriminate|lia]]. intros x. cbn. lia. }
    destruct (y =? 255) eqn:F.
    + apply N.eqb_eq in F. subst y. destruct (IH _ _ _ _ _ H) as (A & B & C). split; [|split; [intros S; rewrite (B S); lia|intros S; specialize (C S); lia]].
      intros x. rewrite A. split; intros (X & Y & Z).
      * split; [lia|]. split; [lia|]. rewrite bitat_cons_high by lia. now replace (x - id - 8) with (x - (id + 8)) by lia.
      * assert (~ x - id < 8). { intros L. rewrite bitat_cons_low, bit_used_255 in Z by assumption. discriminate. }
        split; [lia|]. split; [lia|]. rewrite bitat_cons_high in Z by lia. now replace (x - (id + 8)) with (x - id - 8) by lia.
    + destruct (scan_bits 8 0 y id nid) as [[l0 i0] s0] eqn:G. destruct (scan_bits_spec _ _ _ _ _ _ _ _ G) as (A & B & C).
      change (N.of_nat 8) with 8 in *. destruct s0.
      * inv H. specialize (C eq_refl). split; [|split; [discriminate|lia]]. intros x. rewrite A. split; intros (X & Y & Z); (split; [lia|]); (split; [lia|]).
        -- rewrite bitat_cons_low by lia. exact Z.
        -- rewrite bitat_cons_low in Z by lia. exact Z.
      * specialize (B eq_refl). subst i0. destruct (scan_block b (id + 8) nid) as [[l2 i2] s2] eqn:K.
        destruct (IH _ _ _ _ _ K) as (A2 & B2 & C2). injection H as <- <- <-.
        split; [|split; [intros S; rewrite (B2 S); lia|intros S; specialize (C2 S); lia]].
        intros x. rewrite in_app_iff, A, A2. split.
        -- intros [(X & Y & Z)|(X & Y & Z)]; (split; [lia|]); (split; [lia|]).
           ++ rewrite bitat_cons_low by lia. exact Z.
           ++ rewrite bitat_cons_high by lia. now replace (x - id - 8) with (x - (id + 8)) by lia.
        -- intros (X & Y & Z). destruct (N.ltb_spec (x - id) 8).
           ++ left. split; [lia|]. split; [lia|]. rewrite bitat_cons_low in Z by lia. exact Z.
           ++ right. split; [lia|]. split; [lia|]. rewrite bitat_cons_high in Z by lia. now replace (x - (id + 8)) with (x - id - 8) by lia.
Qed.

(** visit_used lists the used ids in ascending order *)
Definition ascending (l : list N) : Prop := forall i j x y, (i < j)%nat -> nth_error l i = Some x -> nth_error l j = Some y -> x < y.
Lemma ascending_app l1 l2 : ascending l1 -> ascending l2 -> (forall x y, In x l1 -> In y l2 -> x < y) -> ascending (l1 ++ l2).
Proof.
  intros A B C i j x y L X Y. destruct (Nat.ltb_spec j (length l1)).
  - rewrite nth_error_app1 in X, Y by lia. exact (A i j x y L X Y).
  - rewrite nth_error_app2 in Y by lia. destruct (Nat.ltb_spec i (length l1)).
    + rewrite nth_error_app1 in X by lia. apply C; eauto using nth_error_In.
    + rewrite nth_error_app2 in X by lia. refine (B (i - length l1)%nat (j - length l1)%nat x y _ X Y). lia.
Qed.
Lemma ascending_NoDup l : ascending l -> NoDup l.
Proof.
  intros A. apply NoDup_nth_error. intros i j L E. destruct (nth_error l i) as [x|] eqn:X; [|apply nth_error_None in X; lia].
  symmetry in E. destruct (Nat.lt_trichotomy i j) as [T|[T|T]]; [|assumption|].
  - pose proof (A i j x x T X E). lia.
  - pose proof (A j i x x T E X). lia.
Qed.
Lemma ascending_nil : ascending [].
Proof. intros i j x y _ H. now destruct i. Qed.
Lemma ascending_one x : ascending [x].
Proof. intros i j a b L X Y. destruct i, j; cbn in *; try lia; try destruct j; try discriminate; destruct i; discriminate. Qed.
Lemma visit_bits_spec n : forall k byte id,
  ascending (visit_bits n k byte id) /\
  forall x, In x (visit_bits n k byte id) <-> id <= x < id + N.of_nat n /\ bit_used byte (k + (x - id)) = true.
Proof.
  induction n as [|n IH]; intros k byte id; cbn [visit_bits].
  - split; [apply ascending_nil|]. intros x. cbn. lia.
  - destruct (IH (k + 1) byte (id + 1)) as (A & B).
    assert (bit_used byte (k + (id - id)) = bit_used byte k) as K by (f_equal; lia).
    assert (forall x, In x (visit_bits n (k + 1) byte (id + 1)) <-> id + 1 <= x < id + N.of_nat (S n) /\ bit_used byte (k + (x - id)) = true) as B'.
    { intros x. rewrite B. split; intros (X & Y); (split; [lia|]); (replace (k + (x - id)) with (k + 1 + (x - (id + 1))) in * by lia; exact Y). }
    split.
    + apply ascending_app; [destruct (bit_used byte k); [apply ascending_one|apply ascending_nil]|assumption|].
      intros x y X Y. apply B' in Y. destruct (bit_used byte k); [destruct X as [<-|[]]; lia|destruct X].
    + intros x. rewrite in_app_iff, B'. destruct (bit_used byte k) eqn:U; cbn [In].
      * split; [intros [[<-|[]]|X]; [split; [lia|congruence]|split; [lia|tauto]]|].
        intros (X & Y). destruct (N.eq_dec id x) as [->|]; [left; now left|right; split; [lia|assumption]].
      * split; [intros [[]|X]; split; [lia|tauto]|]. intros (X & Y). right. split; [|assumption].
        assert (x <> id) by (intros ->; congruence). lia.
Qed.
Lemma visit_block_spec b : forall id,
  ascending (visit_block b id) /\
  forall x, In x (visit_block b id) <-> id <= x < id + len8 b /\ bitat b (x - id) = true.
Proof.
  unfold len8. induction b as [|y b IH]; intros id; cbn [visit_block length].
  - split; [apply ascending_nil|]. intros x. cbn. lia.
  - destruct (IH (id + 8)) as (A & B). destruct (visit_bits_spec 8 0 y id) as (A1 & B1). change (N.of_nat 8) with 8 in *.
    assert (forall x, In x (if y =? 0 then [] else visit_bits 8 0 y id) <-> id <= x < id + 8 /\ bit_used y (x - id) = true) as C.
    { destruct (y =? 0) eqn:Y; [|exact B1]. apply N.eqb_eq in Y. subst. intros x. rewrite bit_used_0. cbn. intuition discriminate. }
    split.
    + apply ascending_app; [destruct (y =? 0); [apply ascending_nil|assumption]|assumption|].
      intros x z X Z. apply C in X. apply B in Z. lia.
    + intros x. rewrite in_app_iff, C, B. split.
      * intros [(X & Y)|(X & Y)]; (split; [lia|]).
        -- now rewrite bitat_cons_low by lia.
        -- rewrite bitat_cons_high by lia. now replace (x - id - 8) with (x - (id + 8)) by lia.
      * intros (X & Y). destruct (N.ltb_spec (x - id) 8).
        -- left. rewrite bitat_cons_low in Y by lia. split; [lia|assumption].
        -- right. rewrite bitat_cons_high in Y by lia. replace (x - id - 8) with (x - (id + 8)) in Y by lia. split; [lia|assumption].
Qed.
Lemma visit_blocks_spec s n : forall b, sized s -> (forall k, b <= k < b + N.of_nat n -> s k <> None) ->
  ascending (visit_blocks s n b) /\
  forall x, In x (visit_blocks s n b) <-> b * block_ids <= x < (b + N.of_nat n) * block_ids /\ used s x = true.
Proof.
  induction n as [|n IH]; intros b SZ EX; cbn [visit_blocks].
  - split; [apply ascending_nil|]. intros x. cbn. lia.
  - destruct (s b) as [bs|] eqn:E; [|exfalso; apply (EX b); [lia|assumption]].
    destruct (IH (b + 1) SZ) as (A & B); [intros k K; apply EX; lia|].
    destruct (visit_block_spec bs (b * block_ids)) as (A1 & B1). pose proof (SZ _ _ E) as L.
    assert (len8 bs = block_ids) as L8 by (unfold len8; rewrite L; reflexivity). rewrite L8 in B1.
    assert (forall x, b * block_ids <= x < b * block_ids + block_ids -> used s x = bitat bs (x - b * block_ids)) as U.
    { intros x X. rewrite used_bitat. unfold block_of, block_ids in *. replace (x / 65536) with b by lia. rewrite E. f_equal. lia. }
    split.
    + apply ascending_app; [assumption..|]. intros x y X Y. apply B1 in X. apply B in Y. unfold block_ids in *. lia.
    + intros x. rewrite in_app_iff, B1, B. unfold block_ids in *. split.
      * intros [(X & Y)|(X & Y)]; (split; [lia|]); [now rewrite U|assumption].
      * intros (X & Y). destruct (N.ltb_spec x (b * 65536 + 65536)); [left|right]; (split; [lia|]); [rewrite <- U by lia|]; assumption.
Qed.
