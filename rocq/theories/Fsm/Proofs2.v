(** Loading finds the last used id, the count and only free ids. *)
From Verif.Lib Require Import Base Lists.
From Verif.Fsm Require Import Model Proofs.
Local Open Scope N_scope.
Ltac Zify.zify_post_hook ::= Z.div_mod_to_equations.

Definition load_one (u : bool) (id : N) (x : ld) : ld :=
  if u then mkld (Z.max (l_last x) (Z.of_N id)) (l_total x + 1) (l_free x)
  else if (Z.of_N id <? l_last x)%Z
       then mkld (l_last x) (l_total x) (if N.of_nat (length (l_free x)) <? fast_size then l_free x ++ [id] else l_free x)
       else x.
Fixpoint foldd (f : N -> ld -> ld) (base : N) (n : nat) (x : ld) : ld :=
  match n with O => x | S n => foldd f base n (f (base + N.of_nat n) x) end.
Lemma foldd_ext f g base n : (forall id x, base <= id < base + N.of_nat n -> f id x = g id x) -> forall x, foldd f base n x = foldd g base n x.
Proof.
  induction n as [|n IH]; intros H x; cbn [foldd]; [reflexivity|].
  rewrite IH; [|intros; apply H; lia]. f_equal. apply H. lia.
Qed.
Lemma foldd_add f base n m : forall x, foldd f base (n + m) x = foldd f base n (foldd f (base + N.of_nat n) m x).
Proof.
  induction m as [|m IH]; intros x; cbn [foldd].
  - now rewrite Nat.add_0_r.
  - rewrite Nat.add_succ_r. cbn [foldd]. rewrite IH. do 3 f_equal. lia.
Qed.
Lemma load_bits_fold byte base n : (n <= 8)%nat -> forall x id, (n = 0%nat \/ id = base + N.of_nat n - 1) ->
  snd (load_bits n byte id x) = foldd (fun id x => load_bit byte (id - base) id x) base n x /\
  (n <> 0%nat -> fst (load_bits n byte id x) = base - 1).
Proof.
  induction n as [|n IH]; intros L x id E; cbn [load_bits foldd].
  - split; [reflexivity|congruence].
  - destruct E as [E|E]; [discriminate|].
    destruct (IH ltac:(lia) (load_bit byte (N.of_nat n) id x) (id - 1)) as (A & B); [lia|]. split.
    + rewrite A. f_equal. replace id with (base + N.of_nat n) by lia. f_equal. lia.
    + intros _. destruct n; [cbn; lia|]. apply B. discriminate.
Qed.
Lemma bitat_snoc b x k : bitat (b ++ [x]) k = if k <? len8 b then bitat b k else if k <? len8 b + 8 then bit_used x (k - len8 b) else false.
Proof.
  unfold bitat, len8. destruct (k <? _) eqn:E; [|destruct (k <? _ + 8) eqn:F].
  - rewrite nth_error_app1 by lia. reflexivity.
  - rewrite nth_error_app2 by lia. replace (N.to_nat (k / 8) - length b)%nat with 0%nat by lia. cbn [nth_error]. f_equal. lia.
  - rewrite nth_error_app2 by lia. destruct (N.to_nat (k / 8) - length b)%nat as [|d] eqn:G; [lia|]. cbn [nth_error]. now destruct d.
Qed.
Lemma load_bytes_fold rb base : forall x id, (rb = [] \/ id = base + 8 * N.of_nat (length rb) - 1) ->
  load_bytes rb id x = foldd (fun id x => load_one (bitat (rev rb) (id - base)) id x) base (8 * length rb) x.
Proof.
  induction rb as [|y rb IH]; intros x id E; [reflexivity|]. destruct E as [E|E]; [discriminate|].
  cbn [load_bytes length rev] in *. remember (load_bits 8 y id x) as p eqn:P. destruct p as [i z].
  destruct (load_bits_fold y (base + N.of_nat (8 * length rb)) 8 ltac:(lia) x id ltac:(lia)) as (A & B).
  rewrite <- P in A, B. cbn [fst snd] in A, B. rewrite IH by (right; rewrite B; lia).
  replace (8 * S (length rb))%nat with (8 * length rb + 8)%nat by lia. rewrite foldd_add, A.
  assert (len8 (rev rb) = 8 * N.of_nat (length rb)) as L by (unfold len8; now rewrite rev_length).
  erewrite (foldd_ext _ _ (base + _)); [apply foldd_ext|].
  - intros j w J. f_equal. rewrite bitat_snoc, L. now destruct (N.ltb_spec (j - base) (8 * N.of_nat (length rb))); [|lia].
  - intros j w J. cbn beta. rewrite bitat_snoc, L. destruct (N.ltb_spec (j - base) (8 * N.of_nat (length rb))); [lia|].
    destruct (N.ltb_spec (j - base) (8 * N.of_nat (length rb) + 8)); [|lia].
    unfold load_bit, load_one. replace (j - (base + N.of_nat (8 * length rb))) with (j - base - 8 * N.of_nat (length rb)) by lia. reflexivity.
Qed.
Lemma load_blocks_fold s n : sized s -> (forall k, k < N.of_nat n -> s k <> None) -> forall x,
  load_blocks (fun _ => true) s n x = foldd (fun id x => load_one (used s id) id x) 0 (n * N.to_nat block_ids) x.
Proof.
  intros SZ. induction n as [|n IH]; intros EX x; cbn [load_blocks]; [reflexivity|].
  destruct (s (N.of_nat n)) as [bs|] eqn:E; [|exfalso; apply (EX (N.of_nat n)); [lia|assumption]].
  rewrite IH by (intros; apply EX; lia). pose proof (SZ _ _ E) as L.
  assert (8 * length bs = N.to_nat block_ids)%nat as L8. { unfold block_bytes, block_ids in *. lia. }
  rewrite (load_bytes_fold (rev bs) (N.of_nat n * block_ids)).
  2: { right. rewrite rev_length, L. unfold block_bytes, block_ids. lia. }
  rewrite rev_involutive, rev_length, L8.
  replace (S n * N.to_nat block_ids)%nat with (n * N.to_nat block_ids + N.to_nat block_ids)%nat by lia.
  rewrite foldd_add. f_equal.
  replace (0 + N.of_nat (n * N.to_nat block_ids)) with (N.of_nat n * block_ids) by lia.
  apply foldd_ext. intros id y J. f_equal. rewrite N2Nat.id in J.
  rewrite used_bitat. unfold block_of, block_ids in *. replace (id / 65536) with (N.of_nat n) by lia. rewrite E. f_equal. lia.
Qed.
Lemma load_blocks_rd rd s n : (forall b, rd b = true) -> forall x, load_blocks rd s n x = load_blocks (fun _ => true) s n x.
Proof. intros H. induction n as [|n IH]; intros x; cbn [load_blocks]; [reflexivity|]. rewrite H. destruct (s _); [apply IH|reflexivity]. Qed.

(** What a fold over the ids [lo, hi) from above computes. *)
Definition ld_ok (s : store) (lo hi : N) (x : ld) : Prop :=
  (-1 <= l_last x)%Z /\
  (forall id, lo <= id < hi -> used s id = true -> (Z.of_N id <= l_last x)%Z) /\
  (l_last x = (-1)%Z \/ exists id, lo <= id < hi /\ used s id = true /\ l_last x = Z.of_N id) /\
  (exists l, NoDup l /\ (forall id, In id l <-> lo <= id < hi /\ used s id = true) /\ l_total x = N.of_nat (length l)) /\
  (forall id, In id (l_free x) -> lo <= id < hi /\ used s id = false /\ (Z.of_N id < l_last x)%Z) /\
  ((exists id, lo <= id < hi /\ used s id = false /\ (Z.of_N id < l_last x)%Z) -> l_free x <> []).
Lemma ld_ok_step s lo hi x : ld_ok s (lo + 1) hi x -> lo < hi -> ld_ok s lo hi (load_one (used s lo) lo x).
Proof.
  intros (M & A & B & C & D & F) L. unfold load_one. destruct (used s lo) eqn:U; cbn [l_last l_total l_free].
  - assert (l_last x = -1 \/ Z.of_N lo < l_last x)%Z as BB. { destruct B as [B|(id & B1 & B2 & B3)]; [now left|right; lia]. }
    repeat apply conj; cbn [l_last l_total l_free]; [lia|..].
    + intros id I V. destruct (N.eq_dec id lo) as [->|]; [lia|]. assert (Z.of_N id <= l_last x)%Z by (apply A; [lia|assumption]). lia.
    + right. destruct B as [B|(id & B1 & B2 & B3)].
      * exists lo. split; [lia|]. split; [assumption|]. lia.
      * exists id. split; [lia|]. split; [assumption|]. lia.
    + destruct C as (l & C1 & C2 & C3). exists (lo :: l). split; [constructor; [rewrite C2; lia|assumption]|]. split.
      * intros id. cbn [In]. rewrite C2. split; [intros [<-|X]; [split; [lia|assumption]|split; [lia|tauto]]|].
        intros (X & Y). destruct (N.eq_dec lo id) as [->|]; [now left|right; split; [lia|assumption]].
      * cbn [length]. lia.
    + intros id I. destruct (D id I) as (D1 & D2 & D3). split; [lia|]. split; [assumption|lia].
    + intros (id & I1 & I2 & I3). apply F. exists id. assert (id <> lo) by (intros ->; congruence).
      split; [lia|]. split; [assumption|]. destruct BB; lia.
  - assert (forall id, In id (if (Z.of_N lo <? l_last x)%Z then (if N.of_nat (length (l_free x)) <? fast_size then l_free x ++ [lo] else l_free x) else l_free x)
              -> lo <= id < hi /\ used s id = false /\ (Z.of_N id < l_last x)%Z) as DD.
    { intros id. assert (In id (l_free x) -> lo <= id < hi /\ used s id = false /\ (Z.of_N id < l_last x)%Z) as D'
        by (intros I; destruct (D id I) as (D1 & D2 & D3); split; [lia|tauto]).
      destruct (Z.of_N lo <? l_last x)%Z eqn:E; [|exact D']. destruct (_ <? fast_size); [|exact D'].
      rewrite in_app_iff. intros [I|[<-|[]]]; [now apply D'|]. split; [lia|]. split; [assumption|lia]. }
    assert (exists l, NoDup l /\ (forall id, In id l <-> lo <= id < hi /\ used s id = true) /\ l_total x = N.of_nat (length l)) as CC.
    { destruct C as (l & C1 & C2 & C3). exists l. split; [assumption|]. split; [|assumption]. intros id. rewrite C2.
      split; intros (X & Y); (split; [|assumption]); [lia|]. assert (id <> lo) by (intros ->; congruence). lia. }
    destruct (Z.of_N lo <? l_last x)%Z eqn:E.
    + repeat apply conj; [assumption|..]; cbn [l_last l_total l_free].
      * intros id I V. assert (id <> lo) by (intros ->; congruence). apply A; [lia|assumption].
      * destruct B as [B|(id & B1 & B2 & B3)]; [now left|right; exists id; split; [lia|tauto]].
      * exact CC.
      * exact DD.
      * intros _. destruct (_ <? fast_size) eqn:G; [now destruct (l_free x)|]. intros Z. rewrite Z in G. discriminate.
    + repeat apply conj; [assumption|..]; cbn [l_last l_total l_free].
      * intros id I V. assert (id <> lo) by (intros ->; congruence). apply A; [lia|assumption].
      * destruct B as [B|(id & B1 & B2 & B3)]; [now left|right; exists id; split; [lia|tauto]].
      * exact CC.
      * exact DD.
      * intros (id & I1 & I2 & I3). apply F. exists id. assert (id <> lo) by (intros ->; lia). split; [lia|tauto].
Qed.
Lemma foldd_ok s hi n : forall m, ld_ok s (N.of_nat n) hi m -> N.of_nat n <= hi ->
  ld_ok s 0 hi (foldd (fun id x => load_one (used s id) id x) 0 n m).
Proof.
  induction n as [|n IH]; intros m H L; cbn [foldd]; [exact H|]. apply IH; [|lia].
  replace (0 + N.of_nat n) with (N.of_nat n) by lia. apply ld_ok_step; [|lia]. now replace (N.of_nat n + 1) with (N.of_nat (S n)) by lia.
Qed.
Lemma load_ok s n rd : sized s -> (forall k, k < N.of_nat n -> s k <> None) -> (forall b, rd b = true) ->
  ld_ok s 0 (N.of_nat n * block_ids) (load_blocks rd s n (mkld (-1) 0 [])).
Proof.
  intros SZ EX RD. rewrite load_blocks_rd, load_blocks_fold by assumption.
  replace (N.of_nat n * block_ids) with (N.of_nat (n * N.to_nat block_ids)) by lia.
  apply foldd_ok; [|lia]. repeat apply conj; cbn [l_last l_total l_free].
  - lia.
  - intros; lia.
  - now left.
  - exists []. split; [constructor|]. split; [|reflexivity]. intros id. cbn. lia.
  - intros id [].
  - intros (id & I & _). lia.
Qed.
Lemma count_blocks_spec fuel s : forall b,
  (forall k, b <= k < b + N.of_nat (count_blocks fuel s b) -> s k <> None) /\
  (count_blocks fuel s b <= fuel)%nat /\
  ((count_blocks fuel s b < fuel)%nat -> s (b + N.of_nat (count_blocks fuel s b)) = None).
Proof.
  induction fuel as [|f IH]; intros b; cbn [count_blocks]; [split; [intros; lia|]; split; [lia|intros; lia]|].
  destruct (s b) as [bs|] eqn:E.
  - destruct (IH (b + 1)) as (A & B & C). split; [|split; [lia|]].
    + intros k K. destruct (N.eq_dec k b) as [->|]; [congruence|]. apply A. lia.
    + intros L. replace (b + N.of_nat (S (count_blocks f s (b + 1)))) with (b + 1 + N.of_nat (count_blocks f s (b + 1))) by lia. apply C. lia.
  - split; [intros; lia|]. split; [lia|]. intros _. replace (b + N.of_nat 0) with b by lia. assumption.
Qed.
