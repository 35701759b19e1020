(** The kernels of one chunk of pivots. *)
From Coq Require Import List PeanoNat Bool Lia Arith.
From Verif.Lib Require Import Lists.
From Verif.Simd Require Import Model Proofs2.
From Verif.Pq Require Import Model Spec Proofs.
Import ListNotations.

Lemma load8_lanes {F} (l : list F) off g : (forall i, i < 8 -> nth_error l (off + i) = Some (g i)) -> load8 l off = Some (lanes g).
Proof.
  intros H. apply slice_map; [|assumption]. specialize (H 7 ltac:(lia)). apply nth_error_lt' in H. lia.
Qed.
Lemma load8_first_lanes {F} (x : xops F) (l : list F) off n g : n < 8 -> off + n <= length l -> (forall i, i < n -> nth_error l (off + i) = Some (g i)) ->
  load8_first x l off n = Some (lanes (fun i => if i <? n then g i else zero (fo x))).
Proof.
  intros Hn HL H. unfold load8_first. rewrite (slice_map off n l g) by assumption. cbn [bind]. f_equal.
  unfold pad. rewrite firstn_all2 by (rewrite map_length, seq_length; lia). rewrite map_length, seq_length.
  do 8 (destruct n as [|n]; [reflexivity|]). lia.
Qed.
Lemma keep_first_lanes {F} n (f g : nat -> F) : keep_first n (lanes f) (lanes g) = lanes (fun i => if i <? n then f i else g i).
Proof.
  do 9 (destruct n as [|n]; [reflexivity|]). reflexivity.
Qed.
Lemma with_index_lanes {F} base (f : nat -> F) : with_index base (lanes f) = lanes (fun i => (f i, Some (base + i))).
Proof. reflexivity. Qed.

Lemma blocks_eq {F} (c : chunk (F := F)) : c_rows c = 16 * full_blocks c + remainder c /\ remainder c < 16 /\
  num_blocks c = full_blocks c + (if remainder c =? 0 then 0 else 1).
Proof.
  unfold full_blocks, remainder, num_blocks, div_ceil.
  pose proof (Nat.div_mod (c_rows c) 16 ltac:(lia)) as E. pose proof (Nat.mod_upper_bound (c_rows c) 16 ltac:(lia)) as B.
  split; [lia|]. split; [lia|]. destruct (Nat.eqb_spec (c_rows c mod 16) 0) as [Z|N].
  - rewrite Nat.add_0_r. symmetry. apply (Nat.div_unique _ _ _ 15); lia.
  - symmetry. apply (Nat.div_unique _ _ _ (c_rows c mod 16 - 1)); lia.
Qed.

Section Chunk.
  Context {F : Type} (x : xops F).
  Notation o := (fo x).
  Context (c : chunk (F := F)) (y : nat -> nat -> F) (norm : nat -> F).
  Context (Hrows : 0 < c_rows c) (Hcols : 0 < c_cols c).
  Context (Hdata : forall b i l, b < num_blocks c -> i < c_cols c -> l < 16 ->
    nth_error (c_data c) (16 * c_cols c * b + 16 * i + l) = Some (y (16 * b + l) i)).
  Context (Hnorm : forall j, j < c_rows c -> nth_error (c_norms c) j = Some (norm j)) (Hnlen : length (c_norms c) = c_rows c).

  Definition yrow (j : nat) : list F := map (y j) (seq 0 (c_cols c)).
  Lemma kstep_lanes k q f g : kstep x k q (lanes f) (lanes g) = lanes (fun l => kone o k q (f l) (g l)).
  Proof. destruct k; reflexivity. Qed.
  Lemma block_fold k b : b < num_blocks c -> forall q s f g, s + length q <= c_cols c ->
    fold_left (fun acc (p : nat * F) =>
      let '(i, qi) := p in
      do a <- acc;
      do a0 <- load8 (c_data c) (16 * c_cols c * b + 16 * i);
      do a1 <- load8 (c_data c) (16 * c_cols c * b + (16 * i + 8));
      Some (kstep x k qi a0 (fst a), kstep x k qi a1 (snd a))) (enumerate_ s q) (Some (lanes f, lanes g)) =
    Some (lanes (fun l => fold_left (fun acc p => kone o k (fst p) (snd p) acc) (List.combine q (map (y (16 * b + l)) (seq s (length q)))) (f l)),
          lanes (fun l => fold_left (fun acc p => kone o k (fst p) (snd p) acc) (List.combine q (map (y (16 * b + 8 + l)) (seq s (length q)))) (g l))).
  Proof.
    intros Hb. induction q as [|qi q IH]; intros s f g HS; [reflexivity|]. cbn [enumerate_ fold_left length seq map List.combine].
    cbn [length] in HS. cbn [bind].
    rewrite (load8_lanes _ _ (fun l => y (16 * b + l) s)); [cbn [bind]|intros l Hl; apply Hdata; lia].
    rewrite (load8_lanes _ _ (fun l => y (16 * b + 8 + l) s)); [cbn [bind]|].
    2:{ intros l Hl. replace (16 * c_cols c * b + (16 * s + 8) + l) with (16 * c_cols c * b + 16 * s + (8 + l)) by lia.
        rewrite Hdata by lia. do 2 f_equal. lia. }
    cbn [fst snd]. rewrite !kstep_lanes. rewrite IH by lia. reflexivity.
  Qed.
  Lemma block_ok k q b : length q = c_cols c -> b < num_blocks c ->
    compute_in_block x c k q b = Some (lanes (fun l => along o k q (yrow (16 * b + l))), lanes (fun l => along o k q (yrow (16 * b + 8 + l)))).
  Proof.
    intros HQ Hb. unfold compute_in_block. rewrite (proj2 (Nat.eqb_eq _ _) HQ). apply Nat.ltb_lt in Hb. rewrite Hb. apply Nat.ltb_lt in Hb. cbn [negb].
    cbv zeta. change (splat (zero o)) with (lanes (fun _ => zero o)). unfold enumerate. rewrite block_fold by (assumption || lia).
    unfold along, yrow. rewrite HQ. reflexivity.
  Qed.

  (** The distances of the sixteen pivots of a block, in the way of [find_closest] and of the
      batched version. *)
  Context (q : list F) (HQ : length q = c_cols c).
  Definition dot (j : nat) : F := along o KMath q (yrow j).
  Definition val (dbl : F -> F) (j : nat) : F :=
    if j <? c_rows c then sub o (norm j) (dbl (dot j)) else sub o (zero o) (dbl (ninf x)).

  Lemma norms_full b : b < full_blocks c -> load_norms c b = Some (lanes (fun l => norm (16 * b + l)), lanes (fun l => norm (16 * b + 8 + l))).
  Proof.
    intros Hb. destruct (blocks_eq c) as (E & _ & _). unfold load_norms.
    rewrite (load8_lanes _ _ (fun l => norm (16 * b + l))); [cbn [bind]|intros l Hl; apply Hnorm; lia].
    rewrite (load8_lanes _ _ (fun l => norm (16 * b + 8 + l))); [reflexivity|intros l Hl; apply Hnorm; lia].
  Qed.
  Lemma norms_rem : remainder c <> 0 -> load_remainder_norms x c =
    Some (lanes (fun l => if 16 * full_blocks c + l <? c_rows c then norm (16 * full_blocks c + l) else zero o),
          lanes (fun l => if 16 * full_blocks c + 8 + l <? c_rows c then norm (16 * full_blocks c + 8 + l) else zero o)).
  Proof.
    intros HR. destruct (blocks_eq c) as (E & B & _). unfold load_remainder_norms. cbv zeta.
    destruct (Nat.ltb_spec (remainder c) 8) as [L|G].
    - rewrite Nat.mod_small by assumption.
      rewrite (load8_first_lanes x _ _ _ (fun l => norm (16 * full_blocks c + l))); [cbn [bind]|assumption|lia|intros; apply Hnorm; lia].
      f_equal. f_equal; [apply lanes_ext|change (splat (zero o)) with (lanes (fun _ : nat => zero o)); apply lanes_ext]; intros l Hl.
      + destruct (Nat.ltb_spec l (remainder c)), (Nat.ltb_spec (16 * full_blocks c + l) (c_rows c)); try lia; reflexivity.
      + destruct (Nat.ltb_spec (16 * full_blocks c + 8 + l) (c_rows c)); [lia|reflexivity].
    - replace (remainder c mod 8) with (remainder c - 8) by (apply (Nat.mod_unique _ _ 1); lia).
      rewrite (load8_lanes _ _ (fun l => norm (16 * full_blocks c + l))); [cbn [bind]|intros l Hl; apply Hnorm; lia].
      rewrite (load8_first_lanes x _ _ _ (fun l => norm (16 * full_blocks c + 8 + l))); [cbn [bind]|lia|lia|intros; apply Hnorm; lia].
      f_equal. f_equal; apply lanes_ext; intros l Hl.
      + destruct (Nat.ltb_spec (16 * full_blocks c + l) (c_rows c)); [reflexivity|lia].
      + destruct (Nat.ltb_spec l (remainder c - 8)), (Nat.ltb_spec (16 * full_blocks c + 8 + l) (c_rows c)); try lia; reflexivity.
  Qed.
  Lemma rem_ok : remainder c <> 0 -> compute_in_remainder x c q =
    Some (lanes (fun l => if 16 * full_blocks c + l <? c_rows c then dot (16 * full_blocks c + l) else ninf x),
          lanes (fun l => if 16 * full_blocks c + 8 + l <? c_rows c then dot (16 * full_blocks c + 8 + l) else ninf x)).
  Proof.
    intros HR. destruct (blocks_eq c) as (E & B & NB). unfold compute_in_remainder.
    rewrite block_ok; [cbn [bind]|exact HQ|rewrite NB; destruct (Nat.eqb_spec (remainder c) 0); lia]. cbv zeta.
    change (splat (ninf x)) with (lanes (fun _ : nat => ninf x)). cbn [fst snd]. rewrite !keep_first_lanes.
    destruct (Nat.ltb_spec (remainder c) 8) as [L|G].
    - rewrite Nat.mod_small by assumption. f_equal. f_equal; apply lanes_ext; intros l Hl.
      + destruct (Nat.ltb_spec l (remainder c)), (Nat.ltb_spec (16 * full_blocks c + l) (c_rows c)); try lia; reflexivity.
      + destruct (Nat.ltb_spec (16 * full_blocks c + 8 + l) (c_rows c)); [lia|reflexivity].
    - replace (remainder c mod 8) with (remainder c - 8) by (apply (Nat.mod_unique _ _ 1); lia).
      f_equal. f_equal; apply lanes_ext; intros l Hl.
      + destruct (Nat.ltb_spec (16 * full_blocks c + l) (c_rows c)); [reflexivity|lia].
      + destruct (Nat.ltb_spec l (remainder c - 8)), (Nat.ltb_spec (16 * full_blocks c + 8 + l) (c_rows c)); try lia; reflexivity.
  Qed.

  (** ** Tracking *)
  Definition better (a b : F * option nat) : F * option nat := if lt o (fst b) (fst a) then b else a.
  Definition cand (dbl : F -> F) (j : nat) : F * option nat := (val dbl j, Some j).
  Lemma tracking_lanes f g : update_tracking x (lanes f) (lanes g) = lanes (fun l => better (f l) (g l)).
  Proof. reflexivity. Qed.
  Definition twice (v : F) : F := add o v v.
  Definition best (l n : nat) : F * option nat :=
    fold_left (fun m b => better (better m (cand twice (16 * b + l))) (cand twice (16 * b + 8 + l))) (seq 0 n) (inf x, None).
  Lemma best_S l n : best l (S n) = better (better (best l n) (cand twice (16 * n + l))) (cand twice (16 * n + 8 + l)).
  Proof. unfold best. rewrite seq_S, fold_left_app. reflexivity. Qed.
  Lemma find_closest_eq : find_closest x c q = Some (finish x (fbig x) (lanes (fun l => best l (num_blocks c)))).
  Proof.
    destruct (blocks_eq c) as (E & B & NB). unfold find_closest. rewrite (proj2 (Nat.eqb_eq _ _) HQ). cbn [negb].
    change (track0 x) with (lanes (fun l => best l 0)).
    rewrite (for_range_run _ _ (fun b => lanes (fun l => best l b))).
    2:{ intros b Hb. rewrite block_ok by (assumption || lia). cbn [bind]. rewrite norms_full by assumption. cbn [bind fst snd]. cbv zeta.
        unfold vsub, vadd. rewrite !map2_lanes, !with_index_lanes, !tracking_lanes. f_equal. apply lanes_ext. intros l Hl.
        rewrite best_S. unfold cand, val, dot, twice.
        destruct (Nat.ltb_spec (16 * b + l) (c_rows c)); [|lia]. destruct (Nat.ltb_spec (16 * b + 8 + l) (c_rows c)); [reflexivity|lia]. }
    cbn [bind]. destruct (Nat.eqb_spec (remainder c) 0) as [Z|N]; cbn [negb bind].
    - now rewrite NB, Nat.add_0_r.
    - rewrite rem_ok by assumption. cbn [bind]. rewrite norms_rem by assumption. cbn [bind fst snd]. cbv zeta.
      unfold vsub, vadd. rewrite !map2_lanes, !with_index_lanes, !tracking_lanes. cbn [bind]. do 2 f_equal.
      replace (num_blocks c) with (S (full_blocks c)) by lia. apply lanes_ext. intros l Hl. rewrite best_S. unfold cand, val, dot, twice.
      destruct (_ <? _), (_ <? _); reflexivity.
  Qed.
  Definition times2 (v : F) : F := mul o (two x) v.
  Definition bbest (l n : nat) : F * option nat :=
    fold_left (fun m b => better m (better (cand times2 (16 * b + l)) (cand times2 (16 * b + 8 + l)))) (seq 0 n) (inf x, None).
  Lemma bbest_S l n : bbest l (S n) = better (bbest l n) (better (cand times2 (16 * n + l)) (cand times2 (16 * n + 8 + l))).
  Proof. unfold bbest. rewrite seq_S, fold_left_app. reflexivity. Qed.
  Definition upto (j n : nat) : F :=
    fold_left (fun acc p => kone o KMath (fst p) (snd p) acc) (List.combine (firstn n q) (firstn n (yrow j))) (zero o).
  Lemma upto_S j n qn : nth_error q n = Some qn -> n < c_cols c -> upto j (S n) = fma o qn (y j n) (upto j n).
  Proof.
    intros Hq Hn. unfold upto.
    assert (E : forall l : list F, forall a, nth_error l n = Some a -> firstn (S n) l = firstn n l ++ [a]).
    { clear. intros l. revert n. induction l as [|b l IH]; intros [|n] a H; try discriminate; cbn [firstn nth_error] in *.
      - injection H as ->. reflexivity.
      - change (b :: firstn (S n) l = b :: (firstn n l ++ [a])). f_equal. now apply IH. }
    rewrite (E q qn Hq), (E (yrow j) (y j n)) by (unfold yrow; now apply nth_map_seq).
    assert (L : length (firstn n q) = length (firstn n (yrow j))) by (rewrite !firstn_length; unfold yrow; rewrite map_length, seq_length; lia).
    assert (CA : forall (a b : list F) u v, length a = length b -> List.combine (a ++ [u]) (b ++ [v]) = List.combine a b ++ [(u, v)]).
    { clear. induction a as [|s a IH]; intros [|t b] u v H; try discriminate; cbn; [reflexivity|]. now rewrite IH by (injection H; auto). }
    rewrite CA by assumption. rewrite fold_left_app. reflexivity.
  Qed.
  Lemma upto_all j : upto j (c_cols c) = dot j.
  Proof. unfold upto, dot, along. rewrite !firstn_all2; [reflexivity|unfold yrow; rewrite map_length, seq_length; lia|lia]. Qed.
  Lemma batch_row_eq : batch_row x c q = Some (finish x (inf x) (lanes (fun l => bbest l (num_blocks c)))).
  Proof.
    destruct (blocks_eq c) as (E & B & NB). unfold batch_row. cbv zeta. rewrite (proj2 (Nat.eqb_eq _ _) HQ). cbn [negb].
    change (track0 x) with (lanes (fun l => bbest l 0)).
    rewrite (for_range_run _ _ (fun b => lanes (fun l => bbest l b))); [reflexivity|].
    intros b Hb.
    set (D := fun n => (lanes (fun l => upto (16 * b + l) n), lanes (fun l => upto (16 * b + 8 + l) n))).
    set (step := fun j (a : list F * list F) =>
      do qj <- nth_error q j;
      do b0 <- load8 (c_data c) (16 * (b * c_cols c + j));
      do b1 <- load8 (c_data c) (16 * (b * c_cols c + j) + 8);
      Some (vfma x (splat qj) b0 (fst a), vfma x (splat qj) b1 (snd a))).
    assert (ST : forall j, j < c_cols c -> step j (D j) = Some (D (S j))).
    { intros j Hj. unfold step. destruct (nth_error q j) as [qj|] eqn:Eq; [|apply nth_error_None in Eq; lia]. cbn [bind].
      rewrite (load8_lanes _ _ (fun l => y (16 * b + l) j)); [cbn [bind]|].
      2:{ intros l Hl. replace (16 * (b * c_cols c + j) + l) with (16 * c_cols c * b + 16 * j + l) by lia. apply Hdata; lia. }
      rewrite (load8_lanes _ _ (fun l => y (16 * b + 8 + l) j)); [cbn [bind]|].
      2:{ intros l Hl. replace (16 * (b * c_cols c + j) + 8 + l) with (16 * c_cols c * b + 16 * j + (8 + l)) by lia.
          rewrite Hdata by lia. do 2 f_equal. lia. }
      unfold D. cbn [fst snd]. f_equal. change (splat qj) with (lanes (fun _ : nat => qj)). unfold vfma. rewrite !map3_lanes.
      f_equal; apply lanes_ext; intros l Hl; now rewrite (upto_S _ _ qj). }
    pose proof (Nat.div_mod (c_cols c) 2 ltac:(lia)) as DM. pose proof (Nat.mod_upper_bound (c_cols c) 2 ltac:(lia)) as DB.
    change (splat (zero o), splat (zero o)) with (D 0).
    change (bind (for_range (c_cols c / 2) (fun j a => do a0 <- step (2 * j) a; step (2 * j + 1) a0) (D 0)) (fun d =>
      do d <- (if negb (2 * (c_cols c / 2) =? c_cols c) then step (2 * (c_cols c / 2)) d else Some d);
      do dn <- (if negb (remainder c =? 0) && (b + 1 =? num_blocks c) then
        do n <- load_remainder_norms x c;
        Some (keep_first (Nat.min (remainder c) 8) (fst d) (splat (ninf x)), keep_first (remainder c - Nat.min (remainder c) 8) (snd d) (splat (ninf x)), n)
        else do n <- load_norms c b; Some (d, n));
      let '(d, n) := dn in
      Some (update_tracking x (lanes (fun l => bbest l b)) (update_tracking x
        (with_index (16 * b) (vsub x (fst n) (vmul x (splat (two x)) (fst d))))
        (with_index (16 * b + 8) (vsub x (snd n) (vmul x (splat (two x)) (snd d))))))) = Some (lanes (fun l => bbest l (S b)))).
    rewrite (for_range_run _ (fun j a => do a0 <- step (2 * j) a; step (2 * j + 1) a0) (fun j => D (2 * j)))
      by (intros j Hj; rewrite ST by lia; cbn [bind]; replace (2 * j + 1) with (S (2 * j)) by lia; rewrite ST by lia; do 2 f_equal; lia).
    cbn [bind].
    assert (DE : (if negb (2 * (c_cols c / 2) =? c_cols c) then step (2 * (c_cols c / 2)) (D (2 * (c_cols c / 2))) else Some (D (2 * (c_cols c / 2)))) = Some (D (c_cols c))).
    { destruct (Nat.eqb_spec (2 * (c_cols c / 2)) (c_cols c)) as [e|n]; cbn [negb]; [now rewrite e|]. rewrite ST by lia. do 2 f_equal. lia. }
    rewrite DE. cbn [bind]. unfold D. clear DE ST D step.
    assert (UA : forall f : nat -> nat, lanes (fun l => upto (f l) (c_cols c)) = lanes (fun l => dot (f l))) by (intros; apply lanes_ext; intros; apply upto_all).
    rewrite (UA (fun l => 16 * b + l)), (UA (fun l => 16 * b + 8 + l)). cbn [fst snd].
    match goal with |- bind ?M ?K = _ => assert (MM : M = Some
      ((lanes (fun l => if 16 * b + l <? c_rows c then dot (16 * b + l) else ninf x), lanes (fun l => if 16 * b + 8 + l <? c_rows c then dot (16 * b + 8 + l) else ninf x)),
       (lanes (fun l => if 16 * b + l <? c_rows c then norm (16 * b + l) else zero o), lanes (fun l => if 16 * b + 8 + l <? c_rows c then norm (16 * b + 8 + l) else zero o)))) end.
    { destruct (Nat.eqb_spec (remainder c) 0) as [Z|N]; cbn [negb andb]; [|destruct (Nat.eqb_spec (b + 1) (num_blocks c)) as [Eb|Nb]].
      - rewrite norms_full by lia. cbn [bind]. f_equal.
        assert (forall l, l < 8 -> (16 * b + l <? c_rows c) = true /\ (16 * b + 8 + l <? c_rows c) = true) as T by (intros; split; apply Nat.ltb_lt; lia).
        f_equal; f_equal; apply lanes_ext; intros l Hl; destruct (T l Hl) as [T1 T2]; rewrite ?T1, ?T2; reflexivity.
      - assert (b = full_blocks c) by lia. subst b. rewrite norms_rem by assumption. cbn [bind].
        change (splat (ninf x)) with (lanes (fun _ : nat => ninf x)). rewrite !keep_first_lanes. f_equal. f_equal. f_equal; apply lanes_ext; intros l Hl.
        + destruct (Nat.ltb_spec l (Nat.min (remainder c) 8)), (Nat.ltb_spec (16 * full_blocks c + l) (c_rows c)); try lia; reflexivity.
        + destruct (Nat.ltb_spec l (remainder c - Nat.min (remainder c) 8)), (Nat.ltb_spec (16 * full_blocks c + 8 + l) (c_rows c)); try lia; reflexivity.
      - assert (b < full_blocks c) by lia. rewrite norms_full by lia. cbn [bind]. f_equal.
        assert (forall l, l < 8 -> (16 * b + l <? c_rows c) = true /\ (16 * b + 8 + l <? c_rows c) = true) as T by (intros; split; apply Nat.ltb_lt; lia).
        f_equal; f_equal; apply lanes_ext; intros l Hl; destruct (T l Hl) as [T1 T2]; rewrite ?T1, ?T2; reflexivity. }
    rewrite MM. cbn [bind fst snd]. change (splat (two x)) with (lanes (fun _ : nat => two x)). unfold vsub, vmul.
    rewrite !map2_lanes, !with_index_lanes, !tracking_lanes. f_equal. apply lanes_ext. intros l Hl. rewrite bbest_S. unfold cand, val, dot, times2.
    destruct (16 * b + l <? c_rows c), (16 * b + 8 + l <? c_rows c); reflexivity.
  Qed.
End Chunk.
