(** The scan of one step of Lloyd's algorithm. *)
From Coq Require Import List PeanoNat Bool Lia Arith.
From Verif.Lib Require Import Lists.
From Verif.Simd Require Import Model Proofs2.
From Verif.Pq Require Import Model Spec Proofs Proofs2 Proofs3 Proofs4.
From Verif.Kmeans Require Import Model.
Import ListNotations.

Lemma store_ok {F} (f g h : nat -> F) n off m : n <= 8 -> off + n <= m -> (forall j, off <= j < off + n -> g j = f (j - off)) ->
  (forall j, j < m -> j < off \/ off + n <= j -> g j = h j) ->
  store8 off n (lanes f) (map h (seq 0 m)) = Some (map g (seq 0 m)).
Proof.
  intros Hn Hm HI HO. unfold store8. rewrite map_length, seq_length. destruct (Nat.leb_spec (off + n) m); [|lia]. f_equal.
  apply list_map_seq.
  - rewrite !app_length, !firstn_length, skipn_length, map_length, seq_length. unfold lanes. rewrite map_length, seq_length. lia.
  - intros j J. destruct (Nat.lt_ge_cases j off) as [L|G].
    + rewrite nth_error_app1 by (rewrite firstn_length, map_length, seq_length; lia).
      rewrite nth_error_firstn' by assumption. rewrite nth_map_seq by assumption. f_equal. symmetry. apply HO; lia.
    + rewrite nth_error_app2 by (rewrite firstn_length, map_length, seq_length; lia).
      rewrite firstn_length, map_length, seq_length. replace (j - Nat.min off m) with (j - off) by lia.
      destruct (Nat.lt_ge_cases j (off + n)) as [L|G'].
      * rewrite nth_error_app1 by (rewrite firstn_length; unfold lanes; rewrite map_length, seq_length; lia).
        rewrite nth_error_firstn' by lia. unfold lanes. rewrite nth_map_seq by lia. f_equal. symmetry. apply HI. lia.
      * rewrite nth_error_app2 by (rewrite firstn_length; unfold lanes; rewrite map_length, seq_length; lia).
        rewrite firstn_length. unfold lanes. rewrite map_length, seq_length. rewrite nth_error_skipn'.
        replace (off + n + (j - off - Nat.min n 8)) with j by lia. rewrite nth_map_seq by assumption. f_equal. symmetry. apply HO; lia.
Qed.
Lemma map_lanes {A B} (h : A -> B) f : map h (lanes f) = lanes (fun l => h (f l)).
Proof. reflexivity. Qed.
Lemma load_first {F} (x : xops F) (l : list F) off n g : n <= 8 -> off + n <= length l -> (forall i, i < n -> nth_error l (off + i) = Some (g i)) ->
  load8_first x l off n = Some (lanes (fun i => if i <? n then g i else zero (fo x))).
Proof.
  intros Hn HL H. unfold load8_first. rewrite (slice_map off n l g) by assumption. cbn [bind]. f_equal.
  unfold pad. rewrite firstn_all2 by (rewrite map_length, seq_length; lia). rewrite map_length, seq_length.
  do 9 (destruct n as [|n]; [reflexivity|]). lia.
Qed.
Lemma row_nth {A} (m : matrix A) i j : length (m_data m) = m_rows m * m_cols m -> i < m_rows m -> j < m_cols m ->
  nth_error (row m i) j = nth_error (m_data m) (i * m_cols m + j).
Proof. intros H I J. unfold row. rewrite nth_error_firstn' by assumption. now rewrite nth_error_skipn'. Qed.
Lemma get_row {A} (m : matrix A) i j : length (m_data m) = m_rows m * m_cols m -> i < m_rows m -> j < m_cols m ->
  exists a, m_get m i j = Some a /\ nth_error (row m i) j = Some a.
Proof.
  intros H I J. unfold m_get. rewrite (proj2 (Nat.ltb_lt i _) I), (proj2 (Nat.ltb_lt j _) J). cbn [andb].
  rewrite (row_nth m i j) by assumption. destruct (nth_error (m_data m) (i * m_cols m + j)) as [a|] eqn:N; [eauto|].
  apply nth_error_None in N. nia.
Qed.
Lemma view_ok_of {A} (m : matrix A) : length (m_data m) = m_rows m * m_cols m -> s_ok (view_of m).
Proof. intros H. split; cbn [view_of s_cols s_stride s_data s_rows]; [lia|]. rewrite H. unfold linear_length. destruct (m_rows m) as [|n]; cbn; nia. Qed.
Lemma s_row_view {A} (m : matrix A) i : length (m_data m) = m_rows m * m_cols m -> i < m_rows m -> s_row (view_of m) i = Some (row m i).
Proof. intros H I. destruct (s_row_in (view_of m) i (view_ok_of m H) I) as [-> _]. reflexivity. Qed.
Lemma m_row_row {A} (m : matrix A) i : length (m_data m) = m_rows m * m_cols m -> i < m_rows m -> m_row m i = Some (row m i).
Proof. intros H I. unfold m_row. rewrite (proj2 (Nat.ltb_lt i _) I). rewrite slice_eq by nia. unfold row. do 2 f_equal. lia. Qed.

Lemma firstn_S_nth {A} (l : list A) : forall n a, nth_error l n = Some a -> firstn (S n) l = firstn n l ++ [a].
Proof.
  induction l as [|b l IH]; intros [|n] a H; try discriminate; cbn [firstn nth_error] in *; [now injection H as ->|].
  change (b :: firstn (S n) l = b :: (firstn n l ++ [a])). f_equal. now apply IH.
Qed.
Lemma combine_app' {A B} (a : list A) : forall (b : list B) c d, length a = length b -> List.combine (a ++ c) (b ++ d) = List.combine a b ++ List.combine c d.
Proof. induction a as [|s a IH]; intros [|t b] c d H; try discriminate; cbn; [reflexivity|]. now rewrite IH by (injection H; auto). Qed.

(** ** The transposed data *)

Definition holds_t {F} (b : btref (F := F)) (y : nat -> nat -> F) : Prop :=
  forall blk i l, blk < bt_blocks b -> i < b_cols b -> l < 16 ->
    nth_error (b_data b) (16 * b_cols b * blk + 16 * i + l) = Some (y (16 * blk + l) i).
Lemma transpose_ok {F} (x : xops F) v : s_ok v -> exists b, transpose_of x v = Some b /\ b_rows b = s_rows v /\ b_cols b = s_cols v /\
  holds_t b (cell (zero (fo x)) v).
Proof.
  intros Hv. unfold transpose_of. rewrite bt_from_eq by (assumption || lia). cbn [bind]. eexists. split; [reflexivity|]. cbn [b_rows b_cols].
  split; [reflexivity|]. split; [reflexivity|]. intros blk i l Hb Hi Hl. unfold bt_blocks in Hb. cbn [b_rows b_cols b_data] in *.
  assert (P1 : forall m, padded_ncols 1 m = m) by (intros; unfold padded_ncols, div_ceil; rewrite Nat.add_sub, Nat.div_1_r; lia).
  pose proof (cells_nth (zero (fo x)) 16 1 v blk i l 0) as C. rewrite P1 in C.
  replace (16 * s_cols v * blk + 16 * i + l) with (blk * 16 * s_cols v + i * 16 * 1 + l * 1 + 0) by lia.
  rewrite C; [do 2 f_equal; lia|assumption|unfold div_ceil; rewrite Nat.add_sub, Nat.div_1_r; lia|assumption|lia].
Qed.
(** The rows of the transposed data are the rows of the view. *)
Lemma cell_row {F} (z : F) v j r : s_ok v -> j < s_rows v -> s_row v j = Some r -> map (cell z v j) (seq 0 (s_cols v)) = r.
Proof.
  intros Hv J E. symmetry. destruct (s_row_in v j Hv J) as [E' B].
  apply list_map_seq.
  - rewrite E' in E. injection E as <-. rewrite firstn_length, skipn_length. lia.
  - intros i I. unfold cell. rewrite (proj2 (Nat.ltb_lt j _) J), (proj2 (Nat.ltb_lt i _) I). cbn [andb]. unfold s_get. rewrite E. cbn [bind].
    destruct (nth_error r i) eqn:N; [reflexivity|]. apply nth_error_None in N. rewrite E' in E. injection E as <-.
    rewrite firstn_length, skipn_length in N. lia.
Qed.
Lemma bt_eq {F} (b : btref (F := F)) : b_rows b = 16 * bt_full b + bt_rest b /\ bt_rest b < 16 /\
  bt_blocks b = bt_full b + (if bt_rest b =? 0 then 0 else 1).
Proof. exact (blocks_eq (mkC (b_data b) (b_rows b) (b_cols b) [])). Qed.

Section Scan.
  Context {F : Type} (x : xops F).
  Notation o := (fo x).
  Context (b : btref (F := F)) (y : nat -> nat -> F) (Hb : holds_t b y).
  Context (centers : matrix F) (cn norm : nat -> F).
  Context (Hm : length (m_data centers) = m_rows centers * m_cols centers) (Hc : m_cols centers = b_cols b).
  Context (cnorms : list F) (Hcl : length cnorms = m_rows centers) (Hcn : forall r, r < m_rows centers -> nth_error cnorms r = Some (cn r)).

  Definition trow (j : nat) : list F := map (y j) (seq 0 (b_cols b)).
  Definition part (r j n : nat) : F :=
    fold_left (fun acc p => kone o KMath (fst p) (snd p) acc) (List.combine (firstn n (row centers r)) (map (y j) (seq 0 n))) (zero o).
  Definition dotp (r j : nat) : F := along o KMath (row centers r) (trow j).
  Lemma part_S r j n a : nth_error (row centers r) n = Some a -> part r j (S n) = fma o a (y j n) (part r j n).
  Proof.
    intros H. unfold part. rewrite (firstn_S_nth _ _ _ H), seq_S, map_app, combine_app'.
    - rewrite fold_left_app. reflexivity.
    - rewrite firstn_length, map_length, seq_length. apply nth_error_lt' in H. lia.
  Qed.
  Lemma part_all r j : r < m_rows centers -> part r j (b_cols b) = dotp r j.
  Proof.
    intros R'. unfold part, dotp, along, trow. rewrite firstn_all2; [reflexivity|]. rewrite row_length by assumption. lia.
  Qed.
  Lemma loads blk d : blk < bt_blocks b -> d < b_cols b ->
    load8 (b_data b) (16 * b_cols b * blk + 16 * d) = Some (lanes (fun l => y (16 * blk + l) d)) /\
    load8 (b_data b) (16 * b_cols b * blk + (16 * d + 8)) = Some (lanes (fun l => y (16 * blk + 8 + l) d)).
  Proof.
    intros HB HD. split; apply load8_lanes; intros l Hl; [apply Hb; lia|].
    replace (16 * b_cols b * blk + (16 * d + 8) + l) with (16 * b_cols b * blk + 16 * d + (8 + l)) by lia.
    rewrite Hb by lia. do 2 f_equal. lia.
  Qed.
  Lemma block_1_ok blk r : blk < bt_blocks b -> r + 1 = m_rows centers ->
    block_1 x b centers blk r = Some (lanes (fun l => dotp r (16 * blk + l)), lanes (fun l => dotp r (16 * blk + 8 + l))).
  Proof.
    intros HB HR. unfold block_1. rewrite (proj2 (Nat.ltb_lt blk _) HB), (proj2 (Nat.eqb_eq (r + 1) _) HR). cbn [negb]. cbv zeta.
    pose (g := fun n => (lanes (fun l => part r (16 * blk + l) n), lanes (fun l => part r (16 * blk + 8 + l) n))).
    change (splat (zero o), splat (zero o)) with (g 0). rewrite (for_range_run _ _ g).
    - unfold g. f_equal. f_equal; apply lanes_ext; intros l Hl; apply part_all; lia.
    - intros d HD. unfold g at 1. destruct (loads blk d HB HD) as [-> ->]. cbn [bind].
      destruct (get_row centers r d Hm ltac:(lia) ltac:(lia)) as (a & -> & N). cbn [bind]. f_equal.
      unfold g, vfma. change (splat a) with (lanes (fun _ => a)). rewrite !map3_lanes.
      f_equal; apply lanes_ext; intros l Hl; symmetry; now apply part_S.
  Qed.
  Lemma block_2_ok blk r : blk < bt_blocks b -> r + 1 < m_rows centers ->
    block_2 x b centers blk r = Some (lanes (fun l => dotp r (16 * blk + l)), lanes (fun l => dotp r (16 * blk + 8 + l)),
      (lanes (fun l => dotp (r + 1) (16 * blk + l)), lanes (fun l => dotp (r + 1) (16 * blk + 8 + l)))).
  Proof.
    intros HB HR. unfold block_2. rewrite (proj2 (Nat.ltb_lt blk _) HB), (proj2 (Nat.ltb_lt (r + 1) _) HR). cbn [negb]. cbv zeta.
    pose (g := fun n => (lanes (fun l => part r (16 * blk + l) n), lanes (fun l => part r (16 * blk + 8 + l) n),
      (lanes (fun l => part (r + 1) (16 * blk + l) n), lanes (fun l => part (r + 1) (16 * blk + 8 + l) n)))).
    change (splat (zero o), splat (zero o), (splat (zero o), splat (zero o))) with (g 0). rewrite (for_range_run _ _ g).
    - unfold g. f_equal. f_equal; [f_equal|f_equal]; apply lanes_ext; intros l Hl; apply part_all; lia.
    - intros d HD. unfold g at 1. destruct (loads blk d HB HD) as [-> ->]. cbn [bind].
      destruct (get_row centers r d Hm ltac:(lia) ltac:(lia)) as (a & -> & N). cbn [bind].
      destruct (get_row centers (r + 1) d Hm ltac:(lia) ltac:(lia)) as (a' & -> & N'). cbn [bind]. f_equal.
      unfold g, vfma. change (splat a) with (lanes (fun _ => a)). change (splat a') with (lanes (fun _ => a')). rewrite !map3_lanes.
      f_equal; [f_equal|f_equal]; apply lanes_ext; intros l Hl; symmetry; now apply part_S.
  Qed.

  (** The computed distance of row [j], whose norm is [d], from center [r]; the best of the first
      [n] centers. *)
  Definition dist (d : F) (j r : nat) : F := add o (sub o (sub o (cn r) (dotp r j)) (dotp r j)) d.
  Definition cands (d : F) (j n : nat) : list (F * option nat) := map (fun r => (dist d j r, Some r)) (seq 0 n).
  Definition top (d : F) (j n : nat) : F * option nat := fold_left (better x) (cands d j n) (inf x, None).
  Lemma top_S d j n : top d j (S n) = better x (top d j n) (dist d j n, Some n).
  Proof. unfold top, cands. rewrite seq_S, map_app, fold_left_app. reflexivity. Qed.
  Lemma tracking f g : update_tracking x (lanes f) (lanes g) = lanes (fun l => better x (f l) (g l)).
  Proof. unfold update_tracking. rewrite map2_lanes. reflexivity. Qed.
  Lemma one_center_lanes r n f d : one_center r (apart x n (lanes f) (lanes d)) = lanes (fun l => (add o (sub o (sub o n (f l)) (f l)) (d l), Some r)).
  Proof. reflexivity. Qed.
  Lemma scan_ok blk d0 d1 : blk < bt_blocks b ->
    scan x b centers cnorms blk (lanes d0) (lanes d1) =
    Some (lanes (fun l => top (d0 l) (16 * blk + l) (m_rows centers)), lanes (fun l => top (d1 l) (16 * blk + 8 + l) (m_rows centers))).
  Proof.
    intros HB. unfold scan. cbv zeta. set (k := m_rows centers) in *.
    pose proof (Nat.div_mod k 2 ltac:(lia)) as DM. pose proof (Nat.mod_upper_bound k 2 ltac:(lia)) as MB.
    assert (LP : (if k mod 2 =? 0 then k else k - 1) = 2 * (k / 2)) by (destruct (Nat.eqb_spec (k mod 2) 0); lia).
    rewrite LP. replace (2 * (k / 2) / 2) with (k / 2) by (rewrite Nat.mul_comm, Nat.div_mul by lia; reflexivity).
    pose (g := fun n => (lanes (fun l => top (d0 l) (16 * blk + l) (2 * n)), lanes (fun l => top (d1 l) (16 * blk + 8 + l) (2 * n)))).
    change (track0 x, track0 x) with (g 0). rewrite (for_range_run _ _ g).
    - cbn [bind]. unfold g. destruct (Nat.eqb_spec (k mod 2) 0) as [E|E]; cbn [negb].
      + f_equal. f_equal; apply lanes_ext; intros l Hl; f_equal; lia.
      + rewrite block_1_ok by (fold k; lia). cbn [bind]. rewrite Hcn by (fold k; lia). cbn [bind]. rewrite !one_center_lanes, !tracking.
        assert (KE : k = S (2 * (k / 2))) by lia.
        f_equal. f_equal; apply lanes_ext; intros l Hl;
          [rewrite (f_equal (top (d0 l) (16 * blk + l)) KE)|rewrite (f_equal (top (d1 l) (16 * blk + 8 + l)) KE)]; now rewrite top_S.
    - intros p HP. unfold g at 1. rewrite block_2_ok by (fold k; lia). cbn [bind]. rewrite !Hcn by (fold k; lia). cbn [bind].
      rewrite !one_center_lanes, !tracking. unfold g. f_equal.
      replace (2 * S p) with (S (S (2 * p))) by lia. replace (2 * p + 1) with (S (2 * p)) by lia.
      f_equal; apply lanes_ext; intros l Hl; now rewrite !top_S.
  Qed.

  Context (norms : list F) (Hnl : length norms = b_rows b) (Hn : forall j, j < b_rows b -> nth_error norms j = Some (norm j)).
  Definition best_of (j : nat) : F * option nat := top (norm j) j (m_rows centers).
  (** The partial residuals of the eight lanes after [i] full blocks, and at the end. *)
  Fixpoint resid (l i : nat) : F :=
    match i with
    | 0 => zero o
    | S i => add o (add o (resid l i) (fst (best_of (16 * i + l)))) (fst (best_of (16 * i + 8 + l)))
    end.
  Definition lo_rest : nat := Nat.min (bt_rest b) 8.
  Definition resid_end (l : nat) : F :=
    let r := resid l (bt_full b) in
    let r := if l <? lo_rest then add o r (fst (best_of (16 * bt_full b + l))) else r in
    if l <? bt_rest b - lo_rest then add o r (fst (best_of (16 * bt_full b + 8 + l))) else r.
  Lemma distances_ok nearest : length nearest = b_rows b ->
    distances_in_place x b norms centers cnorms nearest =
    Some (map (fun j => snd (best_of j)) (seq 0 (b_rows b)), sum_tree (add o) (zero o) (lanes resid_end)).
  Proof.
    intros HN. destruct (bt_eq b) as (E & B & NB). unfold distances_in_place.
    rewrite (proj2 (Nat.eqb_eq (b_rows b) _) (eq_sym Hnl)), (proj2 (Nat.eqb_eq (m_cols centers) _) Hc),
      (proj2 (Nat.eqb_eq (m_rows centers) _) (eq_sym Hcl)), (proj2 (Nat.eqb_eq (length nearest) _) HN). cbn [negb].
    set (g := fun n j => if j <? n then snd (best_of j) else nth j nearest None).
    assert (I0 : nearest = map (g 0) (seq 0 (b_rows b))).
    { apply list_map_seq; [assumption|]. intros i Hi. unfold g. cbn. apply nth_error_nth'. lia. }
    rewrite I0.
    pose (st := fun n => (map (g (16 * n)) (seq 0 (b_rows b)), lanes (fun l => resid l n))).
    change (map (g 0) (seq 0 (b_rows b)), splat (zero o)) with (st 0). rewrite (for_range_run _ _ st).
    - cbn [bind]. unfold st. destruct (Nat.eqb_spec (bt_rest b) 0) as [Z|N]; cbn [negb].
      + cbn [bind]. f_equal. f_equal.
        * apply map_ext_in. intros j J. apply in_seq in J. unfold g. destruct (Nat.ltb_spec j (16 * bt_full b)); [reflexivity|lia].
        * f_equal. apply lanes_ext. intros l Hl. unfold resid_end, lo_rest. rewrite Z. reflexivity.
      + cbv zeta. change (Nat.min (bt_rest b) 8) with lo_rest. assert (LR : lo_rest <= 8 /\ lo_rest <= bt_rest b /\ (bt_rest b < 8 -> lo_rest = bt_rest b) /\ (8 <= bt_rest b -> lo_rest = 8)) by (unfold lo_rest; lia).
        rewrite (load_first x norms _ _ (fun l => norm (16 * bt_full b + l))) by first [lia|intros; apply Hn; lia]. cbn [bind].
        assert (D1 : (if bt_rest b - lo_rest =? 0 then Some (splat (zero o)) else load8_first x norms (16 * bt_full b + 8) (bt_rest b - lo_rest)) =
          Some (lanes (fun l => if l <? bt_rest b - lo_rest then norm (16 * bt_full b + 8 + l) else zero o))).
        { destruct (Nat.eqb_spec (bt_rest b - lo_rest) 0) as [->|NZ]; [reflexivity|]. apply load_first; first [lia|intros; apply Hn; lia]. }
        rewrite D1. cbn [bind]. rewrite scan_ok by (rewrite NB; destruct (Nat.eqb_spec (bt_rest b) 0); lia). cbn [bind].
        rewrite !map_lanes.
        rewrite (store_ok _ (g (16 * bt_full b + lo_rest))); [cbn [bind]|lia|lia|..].
        2:{ intros j J. unfold g. destruct (Nat.ltb_spec j (16 * bt_full b + lo_rest)); [|lia].
            destruct (Nat.ltb_spec (j - 16 * bt_full b) lo_rest); [|lia]. unfold best_of. now replace (16 * bt_full b + (j - 16 * bt_full b)) with j by lia. }
        2:{ intros j J J'. unfold g. destruct (Nat.ltb_spec j (16 * bt_full b)), (Nat.ltb_spec j (16 * bt_full b + lo_rest)); try lia; reflexivity. }
        assert (ST : (if negb (bt_rest b - lo_rest =? 0) then store8 (16 * bt_full b + 8) (bt_rest b - lo_rest)
            (lanes (fun i => snd (top (if i <? bt_rest b - lo_rest then norm (16 * bt_full b + 8 + i) else zero o) (16 * bt_full b + 8 + i) (m_rows centers))))
            (map (g (16 * bt_full b + lo_rest)) (seq 0 (b_rows b))) else Some (map (g (16 * bt_full b + lo_rest)) (seq 0 (b_rows b)))) =
          Some (map (fun j => snd (best_of j)) (seq 0 (b_rows b)))).
        { destruct (Nat.eqb_spec (bt_rest b - lo_rest) 0) as [Z'|NZ]; cbn [negb].
          - f_equal. apply map_ext_in. intros j J. apply in_seq in J. unfold g. destruct (Nat.ltb_spec j (16 * bt_full b + lo_rest)); [reflexivity|lia].
          - apply (store_ok _ (fun j => snd (best_of j))); [lia|lia|..].
            + intros j J. destruct (Nat.ltb_spec (j - (16 * bt_full b + 8)) (bt_rest b - lo_rest)); [|lia]. unfold best_of. now replace (16 * bt_full b + 8 + (j - (16 * bt_full b + 8))) with j by lia.
            + intros j J J'. unfold g. destruct (Nat.ltb_spec j (16 * bt_full b + lo_rest)); [reflexivity|lia]. }
        rewrite ST. cbn [bind]. f_equal. f_equal. f_equal.
        unfold vadd. rewrite map2_lanes, keep_first_lanes, map2_lanes, keep_first_lanes.
        apply lanes_ext. intros l Hl. unfold resid_end. cbv zeta. unfold best_of.
        destruct (l <? lo_rest), (l <? bt_rest b - lo_rest); reflexivity.
    - intros i Hi. unfold st at 1.
      rewrite (load8_lanes norms (16 * i) (fun l => norm (16 * i + l))) by (intros; apply Hn; lia). cbn [bind].
      rewrite (load8_lanes norms (16 * i + 8) (fun l => norm (16 * i + 8 + l))) by (intros; apply Hn; lia). cbn [bind].
      rewrite scan_ok by lia. cbn [bind]. rewrite !map_lanes.
      rewrite (store_ok _ (g (16 * i + 8))); [cbn [bind]|lia|lia|..].
      2:{ intros j J. unfold g. destruct (Nat.ltb_spec j (16 * i + 8)); [|lia]. unfold best_of. now replace (16 * i + (j - 16 * i)) with j by lia. }
      2:{ intros j J J'. unfold g. destruct (Nat.ltb_spec j (16 * i)), (Nat.ltb_spec j (16 * i + 8)); try lia; reflexivity. }
      rewrite (store_ok _ (g (16 * S i))); [cbn [bind]|lia|lia|..].
      2:{ intros j J. unfold g. destruct (Nat.ltb_spec j (16 * S i)); [|lia]. unfold best_of. now replace (16 * i + 8 + (j - (16 * i + 8))) with j by lia. }
      2:{ intros j J J'. unfold g. destruct (Nat.ltb_spec j (16 * i + 8)), (Nat.ltb_spec j (16 * S i)); try lia; reflexivity. }
      unfold st, vadd. rewrite !map2_lanes. reflexivity.
  Qed.

  (** The first center whose distance is least. *)
  Context (ord : ordered x).
  Lemma top_spec d j n : let m := top d j n in
    (m = (inf x, None) /\ forall r, r < n -> lt o (dist d j r) (inf x) = false) \/
    (exists c, c < n /\ m = (dist d j c, Some c) /\ lt o (dist d j c) (inf x) = true /\ (forall r, r < n -> lt o (dist d j r) (dist d j c) = false) /\
       forall r, r < c -> number x (dist d j r) -> lt o (dist d j c) (dist d j r) = true).
  Proof.
    cbv zeta. induction n as [|k IH]; [left; split; [reflexivity|lia]|]. rewrite top_S. set (D := dist d j) in *. clearbody D.
    destruct IH as [[-> Q]|(v & V & -> & V1 & V2 & V3)]; unfold better; cbn [fst].
    + destruct (lt o (D k) (inf x)) eqn:L.
      * right. exists k. split; [lia|]. split; [reflexivity|]. split; [exact L|]. split.
        -- intros r R'. destruct (Nat.eq_dec r k) as [->|NE]; [apply (o_irr x ord)|].
           destruct (lt o (D r) (D k)) eqn:LJ; [|reflexivity]. exfalso.
           specialize (Q r ltac:(lia)). rewrite (o_trans x ord _ _ _ LJ L) in Q. discriminate.
        -- intros r R' N. destruct (N _ _ L) as [N1|N1]; [exact N1|]. rewrite Q in N1 by assumption. discriminate.
      * left. split; [reflexivity|]. intros r R'. destruct (Nat.eq_dec r k) as [->|NE]; [exact L|apply Q; lia].
    + destruct (lt o (D k) (D v)) eqn:L.
      * right. exists k. split; [lia|]. split; [reflexivity|]. split; [exact (o_trans x ord _ _ _ L V1)|]. split.
        -- intros r R'. destruct (Nat.eq_dec r k) as [->|NE]; [apply (o_irr x ord)|].
           destruct (lt o (D r) (D k)) eqn:LJ; [|reflexivity]. rewrite <- (V2 r) by lia. symmetry. exact (o_trans x ord _ _ _ LJ L).
        -- intros r R' N. destruct (N _ _ L) as [N1|N1]; [exact N1|]. rewrite V2 in N1 by lia. discriminate.
      * right. exists v. split; [lia|]. split; [reflexivity|]. split; [exact V1|]. split; [|exact V3].
        intros r R'. destruct (Nat.eq_dec r k) as [->|NE]; [exact L|apply V2; lia].
  Qed.
End Scan.
