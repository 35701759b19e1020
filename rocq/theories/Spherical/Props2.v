(** C120: the spherical quantizer picks the scale whose codes point most like the vector. *)
From Coq Require Import QArith Qabs Lqa Permutation.
From Verif.Lib Require Import Base Lists.
From Verif.Spherical Require Import Model Proofs Model2 Spec2 Proofs2 Proofs3 Proofs4 Proofs5.
Local Open Scope nat_scope.

(** The state the search begins with. *)
Lemma begin_ok v stop : 1 < stop -> (exists x, In x v /\ ~ (x == 0)%Q) -> exists h, heap_new pair_leb (firsts 0 v) = Some (Some h) /\
  ok v stop (mkS h (repeat 1 (length v)) ((1 # 2) * qsum (map Qabs v)) ((1 # 4) * qn (length v)) None (Fin 0)).
Proof.
  intros HS HN. assert (NE : v <> []) by (destruct HN as (x & I & _); intros ->; exact I).
  destruct (heapify_ok pair_leb pair_total pair_trans (firsts 0 v)) as (h & E & L & P & B). exists h. split; [unfold heap_new; destruct v; [congruence|]; cbn [firsts] in *; now rewrite E|].
  constructor; cbn [s_heap s_rounded s_ip s_sq].
  - apply repeat_length.
  - intros i x k V K. fold (start v) in K. rewrite (start_at v stop HS i x V) in K. injection K as <-. split; [lia|reflexivity].
  - rewrite <- (firsts_pairs stop v HS). now symmetry.
  - exact B.
  - symmetry. apply dot_init.
  - symmetry. apply norm2_init.
Qed.
Lemma begin_work (v : list Q) stop : 1 < stop -> work stop (repeat 1 (length v)) < S (length v * stop).
Proof.
  intros H. assert (G : forall n, list_sum (map (fun k => stop - k) (repeat 1 n)) = n * (stop - 1)). { induction n as [|n IH]; [reflexivity|]. change (repeat 1 (S n)) with (1 :: repeat 1 n). cbn [map list_sum fold_right]. unfold list_sum in IH. rewrite IH. lia. }
  unfold work. rewrite G. assert (length v * (stop - 1) <= length v * stop) by (apply Nat.mul_le_mono_l; lia). lia.
Qed.

(** For every vector that is not zero the search ends, without a bad access. *)
Theorem C120_ends v bits : 2 <= bits -> (exists x, In x v /\ ~ (x == 0)%Q) -> exists c, maximize v bits = Some c.
Proof.
  intros HB HN. unfold maximize. cbv zeta. set (stop := 2 ^ (bits - 1)). assert (HS : 1 < stop) by (unfold stop; apply (Nat.pow_gt_1 2 (bits - 1)); lia).
  destruct (begin_ok v stop HS HN) as (h & -> & O). destruct (ends v stop HS HN _ _ O (begin_work v stop HS)) as (c & b & -> & _). now exists c.
Qed.
Print Assumptions C120_ends.

(** The returned scale reaches a lattice point at least as close in direction as that of any scale. *)
Theorem C120_best v bits : 2 <= bits -> (exists x, In x v /\ ~ (x == 0)%Q) -> no_ties (2 ^ (bits - 1)) v ->
  exists t, maximize v bits = Some (Fin t) /\ (0 < t)%Q /\ forall s, (match2 v (levels (2 ^ (bits - 1)) s v) <= match2 v (levels (2 ^ (bits - 1)) t v))%Q.
Proof.
  intros HB HN HT. unfold maximize. cbv zeta. set (stop := 2 ^ (bits - 1)) in *. assert (HS : 1 < stop) by (unfold stop; apply (Nat.pow_gt_1 2 (bits - 1)); lia).
  destruct (begin_ok v stop HS HN) as (h & -> & O). pose proof (begin_work v stop HS) as W. set (s0 := mkS h (repeat 1 (length v)) _ _ None (Fin 0)) in *.
  assert (U0 : exists t, upto v stop (s_rounded s0) t).
  { exists 0%Q. split; [intros i x k [V K]; left; cbn in K; fold (start v) in K; rewrite (start_at v stop HS i x V) in K; congruence|]. intros i x k _ KR _. pose proof (qn_pos k). unfold eps. lra. }
  destruct (good_end v stop HS HN HT _ s0 O U0 eq_refl W) as (t & b & E & TP & C).
  exists t. rewrite E. split; [reflexivity|]. split; [exact TP|].
  assert (VIS : forall s, levels stop s v <> start v -> (match2 v (levels stop s v) <= b)%Q).
  { intros s NE. destruct (visits v stop HS HN s _ s0 O W) as (c & b' & E' & L).
    - intros i x y A B. cbn in A. fold (start v) in A. destruct (both v (start v) i (start_len v)) as [_ V]. destruct (V x A) as (q & VQ). rewrite (start_at v stop HS i q VQ) in A. injection A as <-. rewrite (levels_at v stop s i q VQ) in B. injection B as <-. pose proof (level_range stop s (Qabs q) ltac:(lia)). lia.
    - intros EQ. elim NE. symmetry. exact EQ.
    - rewrite E in E'. injection E' as _ <-. exact L. }
  assert (ST : (match2 v (start v) <= b)%Q).
  { destruct (reach_top v stop HS) as (s & TS). pose proof (top_beats_start v stop HS HN) as TB. specialize (VIS s). rewrite TS in VIS. assert (top v stop <> start v).
    { destruct HN as (x & I & NX). apply In_nth_error in I as (i & V). intros EQ. pose proof (top_at v stop i x V) as A. rewrite EQ, (start_at v stop HS i x V) in A. destruct (Qeq_bool x 0) eqn:Q; [now apply Qeq_bool_iff in Q|]. injection A as A. lia. }
    specialize (VIS H). lra. }
  intros s. assert (B : (match2 v (levels stop s v) <= b)%Q) by (destruct (list_eq_dec Nat.eq_dec (levels stop s v) (start v)) as [->|D]; [exact ST|now apply VIS]).
  destruct C as [C|C]; lra.
Qed.
Print Assumptions C120_best.

(** The code of a component stands for its level, in its direction; all codes fit. *)
Theorem C120_code bits s t : 1 <= bits -> (0 < s)%Q -> clear_of (2 ^ (bits - 1)) s (Qabs t) ->
  decoded bits (code bits s t) = ((if Qle_bool 0 t then 1 else -1) * (2 * Z.of_nat (level (2 ^ (bits - 1)) s (Qabs t)) - 1))%Z /\ (0 <= code bits s t < 2 ^ Z.of_nat bits)%Z.
Proof.
  intros HB HS HC. pose proof (code_level bits s t HB HS HC) as E. split; [exact E|]. unfold decoded in E.
  assert (S1 : 1 <= 2 ^ (bits - 1)) by (pose proof (Nat.pow_nonzero 2 (bits - 1)); lia).
  pose proof (level_range (2 ^ (bits - 1)) s (Qabs t) S1) as LR. assert (P : 2 ^ bits = 2 * 2 ^ (bits - 1)) by (replace bits with (S (bits - 1)) at 1 by lia; reflexivity).
  assert (PZ : (2 ^ Z.of_nat bits = Z.of_nat (2 ^ bits))%Z) by now rewrite Nat2Z.inj_pow. rewrite PZ. destruct (Qle_bool 0 t); lia.
Qed.
Print Assumptions C120_code.

(** So the codes that compressing stores point at least as much like the vector as those of every
    other scale, as long as no scaled component is just past a whole number. *)
Theorem C120_compress v bits : 2 <= bits -> (exists x, In x v /\ ~ (x == 0)%Q) -> no_ties (2 ^ (bits - 1)) v ->
  exists t, maximize v bits = Some (Fin t) /\ (0 < t)%Q /\
    ((forall x, In x v -> clear_of (2 ^ (bits - 1)) t (Qabs x)) ->
     forall s, (0 < s)%Q -> (forall x, In x v -> clear_of (2 ^ (bits - 1)) s (Qabs x)) -> (cosine2 bits s v <= cosine2 bits t v)%Q).
Proof.
  intros HB HN HT. destruct (C120_best v bits HB HN HT) as (t & E & P & B). exists t. split; [exact E|]. split; [exact P|]. intros HC s PS HC'.
  assert (NE : v <> []) by (destruct HN as (x & I & _); intros ->; exact I). rewrite !cosine_level by (assumption || lia). apply B.
Qed.
Print Assumptions C120_compress.

(** A vector with equal sizes, a zero and both signs; the codes of its best scale. *)
Example C120_example :
  let v := [1 # 1; - (3 # 1); 0; 7 # 10; 1 # 1]%Q in
  maximize v 3 = Some (Fin (10001 # 10000)) /\ levels 4 (10001 # 10000) v = [2; 4; 1; 1; 2] /\ map (code 3 (10001 # 10000)) v = [5; 0; 4; 4; 5]%Z.
Proof. vm_compute. repeat split. Qed.
Print Assumptions C120_example.
Example C120_meets :
  let v := [2 # 1; - (2 # 1); 0; 1 # 2]%Q in (exists x, In x v /\ ~ (x == 0)%Q) /\ no_ties 2 v /\ forall x, In x v -> clear_of 2 (10001 # 20000) (Qabs x).
Proof.
  split; [exists (2 # 1)%Q; split; [now left|discriminate]|]. split.
  - intros x y k j X Y _ _ K J. assert (k = 1) as -> by lia. assert (j = 1) as -> by lia. intros E. unfold eps in E. change (qn 1) with 1%Q in E. lra.
  - intros x X k K. assert (k = 1) as -> by lia. change (qn 1) with 1%Q. unfold eps. cbn [In] in X. destruct X as [<-|[<-|[<-|[<-|[]]]]]; intros [A B]; revert A B; vm_compute; intros; first [discriminate|congruence].
Qed.
Print Assumptions C120_meets.
