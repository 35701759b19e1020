(** Predicates kept by every step of a kernel, in any arithmetic. *)
From Coq Require Import List ZArith PeanoNat Bool Lia Ring Ring_theory.
From Verif.Lib Require Import Lists.
From Verif.Simd Require Import Model Spec Proofs Proofs2.
Import ListNotations.

Lemma unit_ring : ring_theory tt tt (fun _ _ => tt) (fun _ _ => tt) (fun _ _ => tt) (fun _ => tt) eq.
Proof. split; intros; repeat match goal with u : unit |- _ => destruct u end; reflexivity. Qed.
Lemma Forall_map2 {A} (P : A -> Prop) f a : (forall x y, P x -> P y -> P (f x y)) -> forall b, Forall P a -> Forall P b -> Forall P (map2 f a b).
Proof.
  intros H. induction a as [|x a IH]; intros [|y b] HA HB; cbn [map2]; constructor; inversion HA; inversion HB; subst; auto.
Qed.
Lemma Forall_tree {A} (P : A -> Prop) f z n : (forall x y, P x -> P y -> P (f x y)) -> forall l, length l = 2 ^ n -> Forall P l -> P (sum_tree_ f z n l).
Proof.
  intros H. induction n as [|n IH]; intros l E HL; cbn [sum_tree_].
  - destruct l; [discriminate|]. now inversion HL.
  - rewrite E. replace (2 ^ S n / 2) with (2 ^ n)%nat by (rewrite Nat.pow_succ_r', Nat.mul_comm, Nat.div_mul; lia).
    rewrite Nat.pow_succ_r' in E. apply IH.
    + apply map2_length; [rewrite firstn_length|rewrite skipn_length]; lia.
    + apply Forall_map2; [assumption|now apply Forall_firstn'|now apply Forall_skipn'].
Qed.

Section Inv.
  Context {F L R : Type} (o : fops F) (cl : L -> F) (cr : R -> F) (zl : L) (zr : R) (k : kind).
  Context (good : F -> Prop) (rel : L -> R -> Prop).
  Context (g0 : good (zero o)) (gadd : forall a b, good a -> good b -> good (add o a b)).
  Context (glane : forall st x y a, rel x y -> good a -> good (lane o cl cr k st x y a)) (rz : rel zl zr).

  Lemma Forall_map3 st xs ys : Forall2 rel xs ys -> forall acc, Forall good acc -> Forall good (map3 (lane o cl cr k st) xs ys acc).
  Proof.
    induction 1 as [|x y xs ys Hr _ IH]; intros [|a acc] HA; cbn [map3]; constructor; inversion HA; subst; auto.
  Qed.
  Lemma zero_rel n : Forall2 rel (repeat zl n) (repeat zr n).
  Proof. induction n; cbn [repeat]; constructor; auto. Qed.
  Lemma zeros n : Forall good (repeat (zero o) n).
  Proof. apply Forall_forall. intros v V. apply repeat_spec in V. now subst. Qed.
  Lemma schema_good c x y : 0 < c_width c -> length x = length y -> Forall2 rel x y ->
    exists a, simd_acc (f_schema o cl cr zl zr k c) x y = Some a /\ length a = c_width c /\ Forall good a.
  Proof.
    intros W HL HR.
    apply (simd_acc_ok tt tt _ (fun _ _ => tt) (fun _ _ => tt) _ unit_ring (f_schema o cl cr zl zr k c) (fun _ _ => tt)
      (fun a _ => length a = c_width c /\ Forall good a) rel); try assumption.
    - cbn [init f_schema]. split; [apply repeat_length|apply zeros].
    - intros a b _ _ [A1 A2] [B1 B2]. cbn [Model.combine f_schema]. split; [now apply map2_length|now apply Forall_map2].
    - intros xs ys a _ X Y Hr [A1 A2]. cbn [accumulate f_schema width] in *. split; [now apply map3_length|now apply Forall_map3].
    - intros xs ys a _ X Y Hr [A1 A2]. cbn [epilogue f_schema width] in *. destruct (c_epi c) as [|st cap|cap].
      + split; [apply map3_length; [apply pad_length|apply pad_length|]; lia|]. apply Forall_map3; [|assumption].
        unfold pad. rewrite Y. apply Forall2_app; [now apply Forall2_firstn'|apply zero_rel].
      + rewrite !capped_id by lia. split; [apply map2_length; [assumption|]; unfold lane0; cbn [length]; rewrite repeat_length; lia|].
        apply Forall_map2; [assumption|assumption|]. unfold lane0. constructor; [|apply zeros].
        unfold scalar_loop. generalize g0. generalize (zero o) as t. clear - Hr glane. induction Hr; intros t G; cbn [List.combine fold_left fst snd]; auto.
      + rewrite !capped_id by lia.
        assert (Q : forall t, length t = c_width c -> Forall good t ->
          let r := scalar_loop (fun x y r => map3 (lane o cl cr k (c_style c)) (x :: repeat zl (c_width c - 1)) (y :: repeat zr (c_width c - 1)) r) xs ys t in
          length r = c_width c /\ Forall good r).
        { unfold scalar_loop. clear - Hr glane rz W. induction Hr as [|u v us vs Huv _ IH]; intros t T1 T2; cbn [List.combine fold_left fst snd]; auto.
          apply IH; [apply map3_length; cbn [length]; rewrite ?repeat_length; lia|]. apply Forall_map3; [|assumption].
          constructor; [assumption|apply zero_rel]. }
        destruct (Q (repeat (zero o) (c_width c)) (repeat_length _ _) (zeros _)) as [Q1 Q2].
        split; [now apply map2_length|now apply Forall_map2].
  Qed.
  Lemma distance_good a e x y : length x = length y -> Forall2 rel x y ->
    exists d, f_distance o cl cr zl zr k a e x y = Some d /\ good d.
  Proof.
    intros HL HR. destruct (kind_width k a e) as [n W]. unfold f_distance, simd_op.
    destruct (schema_good (kind_cfg k a e) x y) as (acc & -> & A1 & A2);
      [rewrite W; apply Nat.neq_0_lt_0, Nat.pow_nonzero; lia|assumption..|].
    cbn [bind reduce f_schema]. eexists. split; [reflexivity|]. unfold sum_tree. rewrite A1, W, Nat.log2_pow2 by lia.
    apply Forall_tree; [assumption|congruence|assumption].
  Qed.
End Inv.

(** The kernels neither panic nor read out of bounds on vectors of one length; they panic on others. *)
Lemma cos_total {F L R} (o : fops F) (cl : L -> F) (cr : R -> F) zl zr a e x y : length x = length y ->
  exists p, cos_sums o cl cr zl zr a e x y = Some p.
Proof.
  intros HL. destruct (cos_width a e) as [n W]. unfold cos_sums, simd_op.
  edestruct (simd_acc_ok tt tt _ (fun _ _ => tt) (fun _ _ => tt) _ unit_ring (cos_schema o cl cr zl zr (cos_cfg a e)) (fun _ _ => tt)
    (fun _ _ => True) (fun _ _ => True)) as (acc & -> & _); auto.
  - cbn [width cos_schema]. rewrite W. apply Nat.neq_0_lt_0, Nat.pow_nonzero. lia.
  - now apply Forall2_true.
  - cbn [bind]. eauto.
Qed.
Lemma unequal {L R A T} (s : schema L R A T) x y : length x <> length y -> simd_op s x y = None.
Proof. intros H. unfold simd_op, simd_acc. apply Nat.eqb_neq in H. rewrite H. reflexivity. Qed.
