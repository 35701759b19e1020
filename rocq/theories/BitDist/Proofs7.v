(** The inner product of an f32 vector with a bit-packed one, in exact arithmetic. *)
From Coq Require Import List NArith ZArith PeanoNat Bool Lia Ring_theory.
From Verif.Lib Require Import Base Lists.
From Verif.Bits Require Import Model Spec Proofs.
From Verif.Simd Require Import Model Spec Proofs Proofs2.
From Verif.BitDist Require Import Model Spec Proofs Full Proofs6.
Import ListNotations.

Lemma firstn_add' {X} p m : forall (l : list X), firstn (p + m) l = firstn p l ++ firstn m (skipn p l).
Proof. induction p as [|p IH]; intros [|a l]; cbn [firstn skipn Nat.add app]; [reflexivity|reflexivity|now rewrite firstn_nil|]. now rewrite IH. Qed.
Lemma map_repeat' {X Y} (f : X -> Y) a n : map f (repeat a n) = repeat (f a) n.
Proof. induction n as [|n IH]; cbn [repeat map]; [reflexivity|]. now rewrite IH. Qed.

Section Exact.
  Context {F : Type} (o : fops F) (of_Z : Z -> F) (nb : nat) (sm : small nb) (ex : exact o).
  Let rt := ex_ring o ex.
  Add Ring FR : rt.
  Notation lsum := (lsum o).
  Context (x : list F) (els : list Z) (HL : length els = length x).
  Let z := map of_Z els.
  Definition pre (n : nat) : F := total o (mul o) (firstn n x) (firstn n z).
  Lemma z_length : length z = length x.
  Proof. unfold z. now rewrite map_length. Qed.
  Lemma pre_step p m : p + m <= length x -> pre (p + m) = add o (pre p) (total o (mul o) (firstn m (skipn p x)) (firstn m (skipn p z))).
  Proof.
    intros H. unfold pre. rewrite <- (total_app o ex) by (rewrite !firstn_length, z_length; lia).
    f_equal; apply firstn_add'.
  Qed.
  Lemma feed_sum p m acc : length acc = 8 -> m <= 8 -> p + m <= length x ->
    length (feedref o of_Z x els p m acc) = 8 /\
    lsum (feedref o of_Z x els p m acc) = add o (lsum acc) (total o (mul o) (firstn m (skipn p x)) (firstn m (skipn p z))).
  Proof.
    intros A M H. unfold feedref.
    assert (length (firstn m (skipn p x)) = m) as LX by (rewrite firstn_length, skipn_length; lia).
    assert (length (firstn m (skipn p els)) = m) as LE by (rewrite firstn_length, skipn_length; lia).
    assert (map of_Z (pad 0%Z 8 (firstn m (skipn p els))) = pad (of_Z 0%Z) 8 (firstn m (skipn p z))) as ->.
    { unfold pad, z. rewrite skipn_map, firstn_map, firstn_map, map_app, map_length. f_equal. now rewrite map_repeat'. }
    assert (length (firstn m (skipn p z)) = m) as LZ by (unfold z; rewrite skipn_map, firstn_map, map_length; exact LE).
    split.
    - apply map3_length; rewrite ?pad_length; lia.
    - rewrite (lsum_map3 o ex (mul o)); [|intros a b c; rewrite (ex_fma o ex); ring|rewrite pad_length; lia|rewrite pad_length; lia].
      f_equal. rewrite (tot_pad o ex (zero o) (of_Z 0%Z)); [|ring|lia|lia]. symmetry. apply total_tot.
  Qed.
  Let rep (st : list F * list F) (n : nat) : Prop :=
    length (fst st) = 8 /\ length (snd st) = 8 /\ add o (lsum (fst st)) (lsum (snd st)) = pre n /\ (nb = 4 -> snd st = repeat (zero o) 8).
  Lemma block_sum i st : per nb * (i + 1) <= length x -> rep st (per nb * i) -> rep (block_ref o of_Z nb x els i st) (per nb * (i + 1)).
  Proof.
    destruct st as [s0 s1]. intros H (L0 & L1 & E & Z). cbn [fst snd] in *.
    assert (forall j acc, length acc = 8 -> j + 8 <= per nb -> length (feedref o of_Z x els (per nb * i + j) 8 acc) = 8 /\
      add o (pre (per nb * i + j)) (lsum (feedref o of_Z x els (per nb * i + j) 8 acc)) = add o (pre (per nb * i + j + 8)) (lsum acc)) as FS.
    { intros j acc A J. assert (per nb * i + j + 8 <= length x) as B by (clear -J H; nia).
      destruct (feed_sum (per nb * i + j) 8 acc A (le_n _) B) as [Q1 Q2].
      split; [exact Q1|]. rewrite Q2, (pre_step (per nb * i + j) 8) by exact B. ring. }
    assert (forall a b c : F, add o a c = add o b c -> a = b) as cancel.
    { intros a b c Q. assert (Simd.Model.sub o (add o a c) c = Simd.Model.sub o (add o b c) c) as W by now rewrite Q. 
      replace (Simd.Model.sub o (add o a c) c) with a in W by ring. replace (Simd.Model.sub o (add o b c) c) with b in W by ring. exact W. }
    unfold rep, block_ref. clear H.
    destruct sm as [N|[N|N]]; rewrite N in FS, E |- *; cbn [groups fold_left fst snd per] in *.
    - destruct (FS 0 s0 L0 ltac:(lia)) as [A0 B0]. destruct (FS 8 s1 L1 ltac:(lia)) as [A1 B1].
      destruct (FS 16 _ A0 ltac:(lia)) as [A2 B2]. destruct (FS 24 _ A1 ltac:(lia)) as [A3 B3].
      split; [exact A2|]. split; [exact A3|]. split; [|discriminate].
      replace (32 * (i + 1)) with (32 * i + 24 + 8) by lia.
      replace (32 * i + 16 + 8) with (32 * i + 24) in B2 by lia. replace (32 * i + 8 + 8) with (32 * i + 16) in B1 by lia.
      replace (32 * i + 0 + 8) with (32 * i + 8) in B0 by lia. rewrite Nat.add_0_r in *.
      revert B0 B1 B2 B3. generalize (lsum (feedref o of_Z x els (32 * i) 8 s0)), (lsum (feedref o of_Z x els (32 * i + 8) 8 s1)),
        (lsum (feedref o of_Z x els (32 * i + 16) 8 (feedref o of_Z x els (32 * i) 8 s0))),
        (lsum (feedref o of_Z x els (32 * i + 24) 8 (feedref o of_Z x els (32 * i + 8) 8 s1))).
      intros u v w t B0 B1 B2 B3.
      apply (cancel _ _ (add o (pre (32 * i)) (add o (pre (32 * i + 8)) (add o (pre (32 * i + 16)) (pre (32 * i + 24)))))).
      transitivity (add o (add o (add o (pre (32 * i + 16)) w) (add o (pre (32 * i + 24)) t)) (add o (pre (32 * i)) (pre (32 * i + 8)))); [ring|].
      rewrite B2, B3. transitivity (add o (add o (add o (pre (32 * i)) u) (add o (pre (32 * i + 8)) v)) (add o (pre (32 * i + 24)) (pre (32 * i + 24 + 8)))); [ring|].
      rewrite B0, B1. rewrite <- E. ring.
    - destruct (FS 0 s0 L0 ltac:(lia)) as [A0 B0]. destruct (FS 8 s1 L1 ltac:(lia)) as [A1 B1].
      split; [exact A0|]. split; [exact A1|]. split; [|discriminate].
      replace (16 * (i + 1)) with (16 * i + 8 + 8) by lia. replace (16 * i + 0 + 8) with (16 * i + 8) in B0 by lia. rewrite Nat.add_0_r in *.
      apply (cancel _ _ (add o (pre (16 * i)) (pre (16 * i + 8)))).
      match goal with |- add o (add o ?u ?v) _ = _ => transitivity (add o (add o (pre (16 * i)) u) (add o (pre (16 * i + 8)) v)); [ring|] end.
      rewrite B0, B1. rewrite <- E. ring.
    - destruct (FS 0 s0 L0 ltac:(lia)) as [A0 B0].
      split; [exact A0|]. split; [exact L1|]. split; [|intros _; exact (Z N)].
      replace (8 * (i + 1)) with (8 * i + 0 + 8) by lia. rewrite Nat.add_0_r in *.
      apply (cancel _ _ (pre (8 * i))).
      match goal with |- add o (add o ?u ?v) ?w = _ => transitivity (add o (add o w u) v); [ring|] end.
      rewrite B0. rewrite <- E. ring.
  Qed.
  Lemma blocks_sum n st : per nb * n <= length x -> rep st 0 -> rep (fold_left (fun st i => block_ref o of_Z nb x els i st) (seq 0 n) st) (per nb * n).
  Proof.
    intros H R. induction n as [|n IH]; [now rewrite Nat.mul_0_r|].
    rewrite seq_S, fold_left_app. cbn [fold_left Nat.add]. replace (S n) with (n + 1) in * by lia. apply block_sum; [exact H|]. apply IH. clear -H. nia.
  Qed.
  Lemma tail_sum blocks s : let r := length x mod per nb in blocks = length x / per nb -> length s = 8 -> lsum s = pre (per nb * blocks) ->
    length (tail_ref o of_Z nb x els blocks r s) = 8 /\ lsum (tail_ref o of_Z nb x els blocks r s) = pre (length x).
  Proof.
    intros r B L E. pose proof (Nat.div_mod_eq (length x) (per nb)) as DM. rewrite <- B in DM. fold r in DM.
    assert (forall n, n <= (r + 7) / 8 -> let t := fold_left (fun s k => feedref o of_Z x els (per nb * blocks + 8 * k) (min 8 (r - 8 * k)) s) (seq 0 n) s in
      length t = 8 /\ lsum t = pre (per nb * blocks + min r (8 * n))) as Q.
    { induction n as [|n IH]; intros H; [cbn [seq fold_left]; rewrite Nat.mul_0_r, Nat.min_0_r, Nat.add_0_r; now split|].
      destruct IH as [I1 I2]; [lia|]. cbv zeta. rewrite seq_S, fold_left_app. cbn [fold_left Nat.add].
      assert (8 * n < r) as HN by (pose proof (Nat.mul_div_le (r + 7) 8); lia).
      destruct (feed_sum (per nb * blocks + 8 * n) (min 8 (r - 8 * n)) _ I1) as [Q1 Q2]; [lia|lia|].
      split; [exact Q1|]. rewrite Q2, I2. rewrite Nat.min_r by lia. rewrite <- pre_step by lia. f_equal. lia. }
    destruct (Q ((r + 7) / 8) (le_n _)) as [Q1 Q2]. split; [exact Q1|]. unfold tail_ref. rewrite Q2. f_equal.
    pose proof (Nat.div_mod_eq (r + 7) 8). pose proof (Nat.mod_upper_bound (r + 7) 8). lia.
  Qed.
  Lemma kernel_sum : kernel_ref o of_Z nb x els = total o (mul o) x z.
  Proof.
    unfold kernel_ref. cbv zeta.
    assert (per nb * (length x / per nb) <= length x) as BL by (apply Nat.mul_div_le; destruct sm as [->|[->| ->]]; cbn; lia).
    pose proof (blocks_sum (length x / per nb) (repeat (zero o) 8, repeat (zero o) 8) BL) as R.
    assert (rep (repeat (zero o) 8, repeat (zero o) 8) 0) as R0.
    { unfold rep. cbn [fst snd]. rewrite repeat_length. split; [reflexivity|]. split; [reflexivity|]. split; [|reflexivity].
      rewrite (lsum_zero o ex). unfold pre. cbn [firstn total]. ring. }
    specialize (R R0). destruct (fold_left _ _ _) as [s0 s1]. destruct R as (L0 & L1 & E & Z). cbn [fst snd] in *.
    set (s := if 0 <? length x / per nb then match nb with 4 => s0 | _ => map2 (add o) s0 s1 end else repeat (zero o) 8).
    assert (length s = 8 /\ lsum s = pre (per nb * (length x / per nb))) as [S1 S2].
    { unfold s. destruct (Nat.ltb_spec 0 (length x / per nb)) as [P|P].
      - assert (length (map2 (add o) s0 s1) = 8 /\ lsum (map2 (add o) s0 s1) = add o (lsum s0) (lsum s1)) as [M1 M2].
        { split; [now apply map2_length|]. apply (lsum_map2 o ex). congruence. }
        destruct sm as [N|[N|N]]; [rewrite N in *; cbn beta iota; rewrite <- E; now split..|].
        rewrite <- E, (Z N), N. split; [exact L0|]. rewrite (lsum_zero o ex). ring.
      - apply Nat.le_0_r in P. rewrite P. rewrite repeat_length. split; [reflexivity|]. rewrite Nat.mul_0_r, (lsum_zero o ex). reflexivity. }
    destruct (tail_sum (length x / per nb) s eq_refl S1 S2) as [T1 T2].
    rewrite (sum_tree_ok o ex _ 3) by exact T1. rewrite T2. unfold pre. rewrite !firstn_all2 by (rewrite ?z_length; lia). reflexivity.
  Qed.
End Exact.
