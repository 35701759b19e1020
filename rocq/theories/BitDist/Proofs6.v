(** The inner product of an f32 vector with a bit-packed one. *)
From Coq Require Import List NArith ZArith PeanoNat Bool Lia Ring_theory.
From Verif.Lib Require Import Base Lists.
From Verif.Bits Require Import Model Spec Proofs.
From Verif.Simd Require Import Model.
From Verif.Simd Require Spec Proofs Proofs2.
From Verif.BitDist Require Import Model Spec Proofs Full.
Import ListNotations.

Definition small (nb : nat) : Prop := nb = 1 \/ nb = 2 \/ nb = 4.
Lemma small_divides nb : small nb -> divides8 nb.
Proof. intros [->|[->| ->]]; unfold divides8; auto. Qed.

(** ** Lanes are codes *)
Lemma code_shift nb w s k : code nb (N.shiftr w (N.of_nat (nb * s))) k = code nb w (s + k).
Proof.
  unfold code. f_equal. apply number_ext. intros t T. rewrite N.shiftr_spec by lia. f_equal. lia.
Qed.
Lemma to_f32_code {F} (of_Z : Z -> F) nb v : small nb -> to_f32 of_Z nb v = of_Z (code nb v 0).
Proof.
  intros [->|[->| ->]]; cbn [to_f32]; f_equal.
  - destruct v as [|[[p|p|]|[p|p|]|]]; reflexivity.
  - destruct v as [|[[p|p|]|[p|p|]|]]; reflexivity.
  - destruct v as [|[[[[p|p|]|[p|p|]|]|[[p|p|]|[p|p|]|]|]|[[[p|p|]|[p|p|]|]|[[p|p|]|[p|p|]|]|]|]]; reflexivity.
Qed.
Lemma lanes_codes {F} (of_Z : Z -> F) nb w j : small nb ->
  lanes of_Z nb w (nb * j) = map (fun k => of_Z (code nb w (j + k))) (seq 0 8).
Proof.
  intros H. unfold lanes. apply map_ext. intros k. rewrite to_f32_code by assumption. f_equal.
  rewrite code_shift, code_shift. f_equal. lia.
Qed.
(** The codes of a loaded word are elements. *)
Lemma read_code nb data off n j : divides8 nb -> Forall byte_ok data -> off + n <= length data -> j < n * (8 / nb) ->
  code nb (word (firstn n (skipn off data))) j = element (unsigned nb) data (off * (8 / nb) + j).
Proof.
  intros D B L J. destruct (divides8_eq nb D) as (E & P & _).
  assert (length (firstn n (skipn off data)) = n) as LN by (rewrite firstn_length, skipn_length; lia).
  assert (nth_error (codes nb (firstn n (skipn off data))) j = Some (code nb (word (firstn n (skipn off data))) j)) as N1.
  { rewrite codes_word; [|assumption|].
    - rewrite LN. erewrite map_nth_error; [reflexivity|]. rewrite (nth_error_nth' _ 0) by (rewrite seq_length; lia). now rewrite seq_nth by lia.
    - apply Forall_firstn', Forall_skipn'. assumption. }
  pose proof (elements_codes nb (mkbs data (length data * (8 / nb))) D) as EC. cbn [bs_len bs_data] in EC. specialize (EC (le_n _)).
  rewrite firstn_all2 in EC by (rewrite codes_length; lia).
  rewrite <- codes_firstn, <- codes_skipn in N1. rewrite nth_error_firstn' in N1 by assumption. rewrite nth_error_skipn' in N1.
  rewrite <- EC, elements_nth in N1. cbn [bs_len bs_data] in N1.
  destruct (Nat.ltb_spec (off * (8 / nb) + j) (length data * (8 / nb))) as [I|I]; [now injection N1|].
  exfalso. nia.
Qed.

(** ** The kernels as functions of the elements *)
Section Ref.
  Context {F : Type} (o : fops F) (of_Z : Z -> F) (nb : nat) (sm : small nb).
  Context (x : list F) (els : list Z).
  Definition feedref (p m : nat) (acc : list F) : list F :=
    map3 (fma o) (pad (zero o) 8 (firstn m (skipn p x))) (map of_Z (pad 0%Z 8 (firstn m (skipn p els)))) acc.
  Definition block_ref (i : nat) (st : list F * list F) : list F * list F :=
    fold_left (fun st '(off, _, second) =>
      let '(s0, s1) := st in
      if second : bool then (s0, feedref (per nb * i + off) 8 s1) else (feedref (per nb * i + off) 8 s0, s1)) (groups nb) st.
  Definition tail_ref (blocks r : nat) (s : list F) : list F :=
    fold_left (fun s k => feedref (per nb * blocks + 8 * k) (min 8 (r - 8 * k)) s) (seq 0 ((r + 7) / 8)) s.
  Definition kernel_ref : F :=
    let len := length x in
    let zeros := repeat (zero o) 8 in
    let blocks := len / per nb in
    let '(s0, s1) := fold_left (fun st i => block_ref i st) (seq 0 blocks) (zeros, zeros) in
    let s := if 0 <? blocks then (match nb with 4 => s0 | _ => map2 (add o) s0 s1 end) else zeros in
    sum_tree (add o) (zero o) (tail_ref blocks (len mod per nb) s).
End Ref.
Lemma per_bytes nb : small nb -> per nb = 4 * (8 / nb).
Proof. intros [->|[->| ->]]; reflexivity. Qed.
Lemma map3_masked {F} (f : F -> F -> F -> F) z (good : F -> Prop) : (forall v v' s, good v -> good v' -> f z v s = f z v' s) ->
  forall xs n ys ys' acc, Forall good ys -> Forall good ys' -> length ys = length ys' ->
  firstn (length xs) ys = firstn (length xs) ys' ->
  map3 f (xs ++ repeat z n) ys acc = map3 f (xs ++ repeat z n) ys' acc.
Proof.
  intros law. induction xs as [|a xs IH]; intros n ys ys' acc G G' L E.
  - cbn [app length firstn] in *. clear E. revert ys' acc G' L. revert n. induction G as [|b ys Gb G IHy]; intros n ys' acc G' L.
    + destruct ys'; [reflexivity|discriminate].
    + destruct G' as [|b' ys' Gb' G']; [discriminate|]. destruct n as [|n]; [reflexivity|]. destruct acc as [|c acc]; [reflexivity|].
      cbn [repeat map3]. f_equal; [now apply law|]. apply IHy; [assumption|now injection L].
  - destruct G as [|b ys Gb G], G' as [|b' ys' Gb' G']; try discriminate; [reflexivity|]. destruct acc as [|c acc]; [reflexivity|].
    cbn [app map3 length firstn] in *. injection E as -> E. injection L as L. f_equal. now apply IH.
Qed.

Lemma firstn_In' {X} n (l : list X) a : In a (firstn n l) -> In a l.
Proof. intros H. rewrite <- (firstn_skipn n l). apply in_app_iff. now left. Qed.
Lemma firstn_seq' n m : n <= m -> firstn n (seq 0 m) = seq 0 n.
Proof. intros H. replace m with (n + (m - n)) by lia. rewrite seq_app, firstn_app, seq_length, Nat.sub_diag, firstn_O, app_nil_r. apply firstn_all2. rewrite seq_length. lia. Qed.

Section Kernel.
  Context {F : Type} (o : fops F) (of_Z : Z -> F) (nb : nat) (sm : small nb).
  Let D := small_divides nb sm.
  Context (law : forall v v' s, (0 <= v < 2 ^ Z.of_nat nb)%Z -> (0 <= v' < 2 ^ Z.of_nat nb)%Z -> fma o (zero o) (of_Z v) s = fma o (zero o) (of_Z v') s).
  Context (x : list F) (y : bitslice) (vy : valid (unsigned nb) y) (HL : length x = bs_len y).
  Let els := elements (unsigned nb) y.
  Notation fr := (feedref o of_Z x els).

  Lemma els_window p m : p + m <= bs_len y -> firstn m (skipn p els) = map (fun k => element (unsigned nb) (bs_data y) (p + k)) (seq 0 m).
  Proof.
    intros H. apply nth_error_ext. intros i. unfold els.
    destruct (Nat.ltb_spec i m) as [I|I].
    - rewrite nth_error_firstn' by assumption. rewrite nth_error_skipn', elements_nth.
      destruct (Nat.ltb_spec (p + i) (bs_len y)); [|lia]. symmetry. erewrite map_nth_error; [reflexivity|].
      rewrite (nth_error_nth' _ 0) by (rewrite seq_length; lia). now rewrite seq_nth by lia.
    - rewrite !(proj2 (nth_error_None _ _)); [reflexivity|rewrite map_length, seq_length; lia|rewrite firstn_length; lia].
  Qed.
  Lemma element_range i : (0 <= element (unsigned nb) (bs_data y) i < 2 ^ Z.of_nat nb)%Z.
  Proof.
    destruct (divides8_eq nb D) as (E & P & _).
    pose proof (Nat.div_mod_eq i (8 / nb)) as DM. pose proof (Nat.mod_upper_bound i (8 / nb)) as MB.
    rewrite DM. rewrite element_code by (try exact D; lia). apply code_bound.
  Qed.
  Lemma accf_ok off n j p m acc : off + n <= length (bs_data y) -> p = off * (8 / nb) + j -> m <= 8 -> p + m <= length x ->
    j + m <= n * (8 / nb) ->
    accf o of_Z nb x p m (word (firstn n (skipn off (bs_data y)))) (nb * j) acc = Some (fr p m acc).
  Proof.
    intros L -> M PM J. unfold accf, loadf. rewrite Nat.min_l by assumption. rewrite (proj2 (Nat.leb_le _ _)) by lia. cbn [bind]. f_equal.
    unfold feedref. rewrite lanes_codes by exact sm.
    assert (length (firstn m (skipn (off * (8 / nb) + j) x)) = m) as LX by (rewrite firstn_length, skipn_length; lia).
    unfold pad at 1 2. rewrite (firstn_all2 (firstn m (skipn _ x))) by lia.
    apply (map3_masked (fma o) (zero o) (fun v => exists c, (0 <= c < 2 ^ Z.of_nat nb)%Z /\ v = of_Z c)).
    - intros v v' s (c & C & ->) (c' & C' & ->). now apply law.
    - apply Forall_map, Forall_forall. intros k _. eexists. split; [|reflexivity]. apply code_bound.
    - apply Forall_map, Forall_forall. intros c I. exists c. split; [|reflexivity]. unfold pad in I. apply in_app_iff in I.
      rewrite els_window in I by lia. destruct I as [I|I].
      + apply firstn_In' in I. apply in_map_iff in I. destruct I as (k & <- & _). apply element_range.
      + apply repeat_spec in I. subst c. split; [lia|]. apply Z.pow_pos_nonneg; lia.
    - rewrite !map_length, seq_length. unfold pad. rewrite els_window by lia. rewrite app_length, firstn_length, repeat_length, map_length, seq_length. lia.
    - rewrite LX, els_window by lia. rewrite !firstn_map. unfold pad. rewrite (firstn_all2 (map _ (seq 0 m))) by (rewrite map_length, seq_length; lia).
      rewrite firstn_app, map_length, seq_length, Nat.sub_diag, firstn_O, app_nil_r. rewrite (firstn_all2 (map _ (seq 0 m))) by (rewrite map_length, seq_length; lia).
      rewrite map_map. rewrite firstn_seq' by assumption.
      apply map_ext_in. intros k I. apply in_seq in I. f_equal. destruct vy as [B _].
      rewrite read_code; [f_equal; lia|exact D|exact B|lia|lia].
  Qed.
  Lemma read_ok off n : off + n <= length (bs_data y) -> read (bs_data y) off n = Some (word (firstn n (skipn off (bs_data y)))).
  Proof.
    intros H. unfold read, load. rewrite Nat.min_id, (proj2 (Nat.leb_le _ _)) by assumption. cbn [bind]. unfold pad.
    rewrite firstn_all2 by (rewrite firstn_length, skipn_length; lia).
    replace (n - length (firstn n (skipn off (bs_data y)))) with 0 by (rewrite firstn_length, skipn_length; lia).
    cbn [repeat]. now rewrite app_nil_r.
  Qed.
  Lemma room k : k <= length x -> k * nb <= 8 * length (bs_data y).
  Proof.
    intros H. destruct (valid_room nb y D vy) as [R _]. destruct (divides8_eq nb D) as (E & P & _).
    assert (k <= length (bs_data y) * (8 / nb)) as K by lia. clear -K E. nia.
  Qed.
  Lemma full_block_ok i st : per nb * (i + 1) <= length x ->
    full_block o of_Z nb x y i st = Some (block_ref o of_Z nb x els i st).
  Proof.
    intros H. pose proof (room _ H) as R. destruct st as [s0 s1]. unfold full_block, block_ref.
    assert (4 * i + 4 <= length (bs_data y)) as RD by (clear -R sm; destruct sm as [->|[->| ->]]; cbn [per] in *; lia).
    rewrite (read_ok (4 * i) 4 RD). cbn [bind].
    set (w := word (firstn 4 (skipn (4 * i) (bs_data y)))).
    assert (forall j s acc, s = nb * j -> j + 8 <= per nb -> accf o of_Z nb x (per nb * i + j) 8 w s acc = Some (fr (per nb * i + j) 8 acc)) as A.
    { intros j s acc -> J. apply accf_ok; [exact RD|rewrite (per_bytes nb sm); lia|lia| |rewrite <- (per_bytes nb sm); exact J].
      clear -J H. nia. }
    clear R RD. destruct sm as [N|[N|N]]; rewrite N in A |- *; cbn [groups fold_left bind].
    - rewrite (A 0) by (cbn [per]; lia); cbn [bind]; rewrite (A 8) by (cbn [per]; lia); cbn [bind]; rewrite (A 16) by (cbn [per]; lia); cbn [bind]; rewrite (A 24) by (cbn [per]; lia); cbn [bind]; reflexivity.
    - rewrite (A 0) by (cbn [per]; lia); cbn [bind]; rewrite (A 8) by (cbn [per]; lia); cbn [bind]; reflexivity.
    - rewrite (A 0) by (cbn [per]; lia); cbn [bind]; reflexivity.
  Qed.
  Let blocks := length x / per nb.
  Lemma per_pos : 0 < per nb.
  Proof. destruct sm as [->|[->| ->]]; cbn [per]; lia. Qed.
  Lemma blocks_le i : i < blocks -> per nb * (i + 1) <= length x.
  Proof. intros H. pose proof (Nat.mul_div_le (length x) (per nb)). pose proof per_pos. fold blocks in H0. nia. Qed.
  Lemma run_blocks l st : Forall (fun i => i < blocks) l ->
    fold_left (fun st j => do st <- st; full_block o of_Z nb x y j st) l (Some st) = Some (fold_left (fun st j => block_ref o of_Z nb x els j st) l st).
  Proof.
    intros H. revert st. induction H as [|i l I _ IH]; intros st; [reflexivity|]. cbn [fold_left bind].
    rewrite full_block_ok by now apply blocks_le. apply IH.
  Qed.
  Lemma full_loop_ok fuel : forall i st, i <= blocks -> blocks - i < fuel -> exists i', i <= i' <= blocks /\ blocks < i' + unroll nb /\
    full_loop o of_Z fuel nb x y blocks i st = Some (i', fold_left (fun st j => block_ref o of_Z nb x els j st) (seq i (i' - i)) st).
  Proof.
    assert (0 < unroll nb) as U by (destruct sm as [->|[->| ->]]; cbn [unroll]; lia).
    induction fuel as [|fuel IH]; intros i st I B; [lia|]. cbn [full_loop].
    destruct (Nat.leb_spec (i + unroll nb) blocks) as [LE|GT].
    - rewrite run_blocks by (apply Forall_forall; intros k K; apply in_seq in K; lia). cbn [bind].
      destruct (IH (i + unroll nb) (fold_left (fun st j => block_ref o of_Z nb x els j st) (seq i (unroll nb)) st)) as (i' & I1 & I2 & E); [lia|lia|].
      exists i'. split; [lia|]. split; [exact I2|]. rewrite E. rewrite <- fold_left_app, <- seq_app.
      replace (unroll nb + (i' - (i + unroll nb))) with (i' - i) by lia. reflexivity.
    - exists i. rewrite Nat.sub_diag. cbn [seq fold_left]. split; [lia|]. split; [lia|reflexivity].
  Qed.
  Lemma full_tail_ok s : full_tail o of_Z nb x y blocks (length x) s = Some (tail_ref o of_Z nb x els blocks (length x mod per nb) s).
  Proof.
    unfold full_tail, tail_ref. set (r := length x mod per nb).
    pose proof (Nat.div_mod_eq (length x) (per nb)) as DM. fold blocks r in DM.
    pose proof (Nat.mod_upper_bound (length x) (per nb)) as MB. fold r in MB. pose proof per_pos as PP.
    destruct (Nat.eqb_spec r 0) as [R0|R0]; [rewrite R0; reflexivity|].
    assert (length x * nb <= 8 * length (bs_data y)) as RM by (apply room; lia).
    assert (per nb * nb = 32) as P32 by (destruct sm as [->|[->| ->]]; reflexivity).
    assert (32 * blocks + r * nb <= 8 * length (bs_data y)) as RB by (rewrite DM in RM; clear -RM P32; nia).
    assert (forall n j s0 m acc, n <= 4 -> 8 * n < r * nb + 8 -> s0 = nb * j -> m <= 8 -> j + m <= r -> (j + m) * nb <= 8 * n ->
      accf o of_Z nb x (per nb * blocks + j) m (word (firstn n (skipn (4 * blocks) (bs_data y)))) s0 acc = Some (fr (per nb * blocks + j) m acc)) as A.
    { intros n j s0 m acc N4 N8 -> M J JN. apply accf_ok; [lia|rewrite (per_bytes nb sm); lia|exact M|lia|].
      destruct (divides8_eq nb D) as (E & P & _). clear -JN E. nia. }
    assert (length x mod 8 = r mod 8) as M8.
    { rewrite DM. assert (exists q, per nb = 8 * q) as (q & ->) by (destruct sm as [->|[->| ->]]; cbn [per]; [exists 4|exists 2|exists 1]; lia).
      replace (8 * q * blocks + r) with (r + q * blocks * 8) by lia. apply Nat.mod_add. lia. }
    rewrite M8. clear M8 RM DM.
    assert (forall n, 8 * n < r * nb + 8 -> 4 * blocks + n <= length (bs_data y)) as RD by (intros n Hn; lia).
    clear RB. revert A RD R0 MB. generalize r. clear r. intros r A RD R0 MB.
    destruct sm as [N|[N|N]]; rewrite N in A, RD, MB |- *; cbn [per] in MB; specialize (MB ltac:(lia));
      do 32 (destruct r as [|r]; [try (exfalso; lia);
        match goal with |- context [tail_plan ?a ?b] => let v := eval vm_compute in (tail_plan a b) in change (tail_plan a b) with v end; cbv beta iota;
        match goal with |- context [(?b + 7) / 8] => let v := eval vm_compute in ((b + 7) / 8) in change ((b + 7) / 8) with v end;
        match goal with |- context [read _ _ ?n] => rewrite (read_ok (4 * blocks) n) by (apply RD; lia) end;
        cbn [bind seq fold_left nth groups];
        repeat match goal with |- context [accf _ _ _ _ (_ + ?j) ?m (word (firstn ?n _)) _ ?acc] =>
          let m' := eval vm_compute in m in change m with m'; rewrite (A n j) by (cbn; lia); cbn [bind] end; reflexivity|]); exfalso; lia.
  Qed.
  Lemma full_kernel_ok : full_kernel o of_Z nb x y = Some (kernel_ref o of_Z nb x els).
  Proof.
    unfold full_kernel, kernel_ref. cbv zeta. fold blocks.
    destruct (full_loop_ok (S blocks) 0 (repeat (zero o) 8, repeat (zero o) 8)) as (i & I1 & I2 & E); [lia|lia|].
    rewrite E. cbn [bind]. rewrite Nat.sub_0_r.
    assert ((if i <? blocks then full_block o of_Z nb x y i (fold_left (fun st j => block_ref o of_Z nb x els j st) (seq 0 i) (repeat (zero o) 8, repeat (zero o) 8))
      else Some (fold_left (fun st j => block_ref o of_Z nb x els j st) (seq 0 i) (repeat (zero o) 8, repeat (zero o) 8))) =
      Some (fold_left (fun st j => block_ref o of_Z nb x els j st) (seq 0 blocks) (repeat (zero o) 8, repeat (zero o) 8))) as ->.
    { destruct (Nat.ltb_spec i blocks) as [LT|GE].
      - rewrite full_block_ok by now apply blocks_le. f_equal.
        assert (blocks = i + 1) as -> by (clear -LT I2 sm; destruct sm as [->|[->| ->]]; cbn [unroll] in I2; lia).
        rewrite seq_app, fold_left_app. reflexivity.
      - do 3 f_equal. lia. }
    clear E. cbn [bind]. destruct (fold_left _ _ _) as [s0 s1]. cbv zeta. rewrite full_tail_ok. reflexivity.
  Qed.
End Kernel.
