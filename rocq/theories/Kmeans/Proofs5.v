(** The distances kept by k-means++. *)
From Coq Require Import List PeanoNat Bool Lia Arith.
From Verif.Lib Require Import Lists.
From Verif.Simd Require Import Model Proofs2.
From Verif.Pq Require Import Model Spec Proofs Proofs2 Proofs3 Proofs4 Proofs6.
From Verif.Kmeans Require Import Model Spec Proofs Proofs2.
Import ListNotations.
Local Open Scope nat_scope.

Lemma fold_enum {A X} (l : list A) (f : option X -> nat * A -> option X) (g : nat -> X) :
  (forall i a, nth_error l i = Some a -> f (Some (g i)) (i, a) = Some (g (S i))) -> fold_left f (enumerate l) (Some (g 0)) = Some (g (length l)).
Proof.
  intros H. unfold enumerate. assert (Q : forall l k, (forall i a, nth_error l i = Some a -> f (Some (g (k + i))) (k + i, a) = Some (g (S (k + i)))) ->
    fold_left f (enumerate_ k l) (Some (g k)) = Some (g (k + length l))).
  { clear. induction l as [|a l IH]; intros k H; cbn [enumerate_ fold_left length]; [f_equal; f_equal; lia|].
    specialize (H 0 a eq_refl) as H0. rewrite Nat.add_0_r in H0. rewrite H0, IH; [f_equal; f_equal; lia|].
    intros i u N. specialize (H (S i) u N). now replace (S k + i) with (k + S i) by lia. }
  apply (Q l 0). exact H.
Qed.
Lemma slice_seq {A} (f : nat -> A) a k n : a + k <= n -> slice a (a + k) (map f (seq 0 n)) = Some (map (fun i => f (a + i)) (seq 0 k)).
Proof.
  intros H. apply slice_map; [rewrite map_length, seq_length; exact H|]. intros i I. now rewrite nth_map_seq by lia.
Qed.
Lemma splice {A} (m g : nat -> A) a k n : a + k <= n ->
  firstn a (map m (seq 0 n)) ++ map (fun i => g (a + i)) (seq 0 k) ++ skipn (a + k) (map m (seq 0 n)) =
  map (fun j => if (a <=? j) && (j <? a + k) then g j else m j) (seq 0 n).
Proof.
  intros H. apply list_map_seq.
  - rewrite !app_length, firstn_length, skipn_length, !map_length, !seq_length. lia.
  - intros j J. destruct (Nat.leb_spec a j) as [L|G]; cbn [andb].
    + rewrite nth_error_app2 by (rewrite firstn_length, map_length, seq_length; lia). rewrite firstn_length, map_length, seq_length.
      replace (j - Nat.min a n) with (j - a) by lia. destruct (Nat.ltb_spec j (a + k)) as [L'|G'].
      * rewrite nth_error_app1 by (rewrite map_length, seq_length; lia). rewrite nth_map_seq by lia. f_equal. f_equal. lia.
      * rewrite nth_error_app2 by (rewrite map_length, seq_length; lia). rewrite map_length, seq_length, nth_error_skipn'.
        replace (a + k + (j - a - k)) with j by lia. now apply nth_map_seq.
    + rewrite nth_error_app1 by (rewrite firstn_length, map_length, seq_length; lia). rewrite nth_error_firstn' by assumption. now apply nth_map_seq.
Qed.

Section Distances.
  Context {F D : Type} (x : xops F) (dd : dops F D).
  Notation o := (fo x).
  Notation z0 := (zero o).
  Context (b : btref (F := F)) (y : nat -> nat -> F) (Hb : holds_t b y).
  Context (this : list F) (sn : F) (Ht : length this = b_cols b).
  Context (nf m : nat -> F).
  Notation n := (b_rows b).
  Notation norms := (map nf (seq 0 n)).

  Definition dot (j : nat) : F := along o KMath (trow b y j) this.
  Definition step_dist (nj : F) (j : nat) : F := add o (add o nj sn) (mul o (dot j) (neg o (two x))).
  (** The kept distance of row [j]; beyond the rows the lanes hold zeros. *)
  Definition kept (j : nat) : F :=
    let d := step_dist (if j <? n then nf j else z0) j in
    let c := if j <? n then m j else z0 in
    if lt o d c then d else c.
  Fixpoint tot (i : nat) : D :=
    match i with
    | 0 => dzero dd
    | S i => dadd dd (tot i) (pair_sum dd (lanes (fun l => kept (16 * i + l))) (lanes (fun l => kept (16 * i + 8 + l))))
    end.
  Lemma loads' blk d : blk < bt_blocks b -> d < b_cols b ->
    load8 (b_data b) (16 * b_cols b * blk + 16 * d) = Some (lanes (fun l => y (16 * blk + l) d)) /\
    load8 (b_data b) (16 * b_cols b * blk + (16 * d + 8)) = Some (lanes (fun l => y (16 * blk + 8 + l) d)).
  Proof.
    intros HB HD. split; apply load8_lanes; intros l Hl; [apply Hb; lia|].
    replace (16 * b_cols b * blk + (16 * d + 8) + l) with (16 * b_cols b * blk + 16 * d + (8 + l)) by lia.
    rewrite Hb by lia. do 2 f_equal. lia.
  Qed.
  Lemma accum_ok blk : blk < bt_blocks b -> accum_full x b blk this =
    Some (lanes (fun l => mul o (dot (16 * blk + l)) (neg o (two x))), lanes (fun l => mul o (dot (16 * blk + 8 + l)) (neg o (two x)))).
  Proof.
    intros HB. unfold accum_full. rewrite (proj2 (Nat.ltb_lt blk _) HB). cbn [negb]. cbv zeta.
    set (pd := fun j k => fold_left (fun acc p => kone o KMath (fst p) (snd p) acc) (List.combine (map (y j) (seq 0 k)) (firstn k this)) z0).
    assert (PS : forall j k a, nth_error this k = Some a -> pd j (S k) = fma o (y j k) a (pd j k)).
    { intros j k a N. unfold pd. rewrite (firstn_S_nth _ _ _ N), seq_S, map_app, combine_app'.
      - rewrite fold_left_app. reflexivity.
      - rewrite firstn_length, map_length, seq_length. apply nth_error_lt' in N. lia. }
    assert (PA : forall j, pd j (length this) = dot j) by (intros j; unfold pd, dot, along, trow; rewrite firstn_all, Ht; reflexivity).
    pose (g := fun k => (lanes (fun l => pd (16 * blk + l) k), lanes (fun l => pd (16 * blk + 8 + l) k))).
    change (splat z0, splat z0) with (g 0). rewrite (fold_enum this _ g).
    - cbn [bind]. unfold g, vmul. cbn [fst snd]. change (splat (neg o (two x))) with (lanes (fun _ : nat => neg o (two x))). rewrite !map2_lanes.
      f_equal. f_equal; apply lanes_ext; intros l L; now rewrite PA.
    - intros i a N. assert (I : i < b_cols b) by (apply nth_error_lt' in N; lia). cbn [bind].
      destruct (loads' blk i HB I) as [-> ->]. cbn [bind]. unfold g, vfma. cbn [fst snd]. change (splat a) with (lanes (fun _ : nat => a)). rewrite !map3_lanes.
      f_equal. f_equal; apply lanes_ext; intros l L; symmetry; now apply PS.
  Qed.
  Lemma load8_seq {A} (f : nat -> A) off k : off + 8 <= k -> load8 (map f (seq 0 k)) off = Some (lanes (fun l => f (off + l))).
  Proof. intros H. apply load8_lanes. intros l L. now rewrite nth_map_seq by lia. Qed.
  Lemma lower_lanes f g : lower x (lanes f) (lanes g) = lanes (fun l => if lt o (f l) (g l) then f l else g l).
  Proof. unfold lower. now rewrite map2_lanes. Qed.
  Lemma finish_ok blk rolling mm : 16 * blk + 16 <= n -> (forall j, 16 * blk <= j < 16 * blk + 16 -> mm j = m j) ->
    pp_finish x dd (lanes (fun l => mul o (dot (16 * blk + l)) (neg o (two x))), lanes (fun l => mul o (dot (16 * blk + 8 + l)) (neg o (two x)))) sn rolling
      (map (fun i => nf (16 * blk + i)) (seq 0 16)) (map (fun i => mm (16 * blk + i)) (seq 0 16)) =
    Some (dadd dd rolling (pair_sum dd (lanes (fun l => kept (16 * blk + l))) (lanes (fun l => kept (16 * blk + 8 + l)))), map (fun i => kept (16 * blk + i)) (seq 0 16)).
  Proof.
    intros HN HM. unfold pp_finish. rewrite !map_length, !seq_length. cbn [Nat.eqb negb].
    rewrite !load8_seq by lia. cbn [bind]. cbv zeta. unfold vadd. cbn [fst snd].
    change (splat sn) with (lanes (fun _ : nat => sn)). rewrite !map2_lanes, !lower_lanes.
    assert (E0 : forall l, l < 8 -> kept (16 * blk + l) = (let d := add o (add o (nf (16 * blk + (0 + l))) sn) (mul o (dot (16 * blk + l)) (neg o (two x))) in if lt o d (mm (16 * blk + (0 + l))) then d else mm (16 * blk + (0 + l)))).
    { intros l L. unfold kept, step_dist. rewrite HM by lia. destruct (Nat.ltb_spec (16 * blk + l) n); [|lia]. reflexivity. }
    assert (E1 : forall l, l < 8 -> kept (16 * blk + 8 + l) = (let d := add o (add o (nf (16 * blk + (8 + l))) sn) (mul o (dot (16 * blk + 8 + l)) (neg o (two x))) in if lt o d (mm (16 * blk + (8 + l))) then d else mm (16 * blk + (8 + l)))).
    { intros l L. unfold kept, step_dist. rewrite HM by lia. destruct (Nat.ltb_spec (16 * blk + 8 + l) n); [|lia]. now rewrite Nat.add_assoc. }
    cbv zeta in E0, E1. erewrite (lanes_ext _ _ (fun l L => eq_sym (E0 l L))), (lanes_ext _ _ (fun l L => eq_sym (E1 l L))).
    rewrite (store_ok _ (fun i => if i <? 8 then kept (16 * blk + i) else mm (16 * blk + i))); [cbn [bind]|lia|lia|..].
    2:{ intros j J. rewrite Nat.sub_0_r. destruct (Nat.ltb_spec j 8); [reflexivity|lia]. }
    2:{ intros j J J'. destruct (Nat.ltb_spec j 8); [lia|reflexivity]. }
    rewrite (store_ok _ (fun i => kept (16 * blk + i))); [reflexivity|lia|lia|..].
    - intros j J. f_equal. lia.
    - intros j J J'. destruct (Nat.ltb_spec j 8); [reflexivity|lia].
  Qed.
  Lemma finish_last_ok blk rolling mm rest : n = 16 * blk + rest -> 0 < rest < 16 -> (forall j, 16 * blk <= j < n -> mm j = m j) ->
    pp_finish_last x dd (lanes (fun l => mul o (dot (16 * blk + l)) (neg o (two x))), lanes (fun l => mul o (dot (16 * blk + 8 + l)) (neg o (two x)))) sn rolling
      (map (fun i => nf (16 * blk + i)) (seq 0 rest)) (map (fun i => mm (16 * blk + i)) (seq 0 rest)) rest =
    Some (dadd dd rolling (pair_sum dd (lanes (fun l => kept (16 * blk + l))) (lanes (fun l => kept (16 * blk + 8 + l)))), map (fun i => kept (16 * blk + i)) (seq 0 rest)).
  Proof.
    intros HN HR HM. unfold pp_finish_last. rewrite !map_length, !seq_length, Nat.eqb_refl. cbn [negb]. cbv zeta.
    set (lo := Nat.min rest 8). assert (LO : lo <= 8 /\ lo <= rest /\ (rest < 8 -> lo = rest) /\ (8 <= rest -> lo = 8)) by (unfold lo; lia).
    assert (LF : forall f : nat -> F, load8_first x (map f (seq 0 rest)) 0 lo = Some (lanes (fun l => if l <? lo then f l else z0))).
    { intros f. apply (load_first x); [lia|rewrite map_length, seq_length; lia|]. intros i I. now rewrite nth_map_seq by lia. }
    assert (LH : forall f : nat -> F, (if rest - lo =? 0 then Some (splat z0) else load8_first x (map f (seq 0 rest)) 8 (rest - lo)) = Some (lanes (fun l => if l <? rest - lo then f (8 + l) else z0))).
    { intros f. destruct (Nat.eqb_spec (rest - lo) 0) as [->|NZ]; [reflexivity|]. apply (load_first x (map f (seq 0 rest)) 8 (rest - lo) (fun l => f (8 + l))); [lia|rewrite map_length, seq_length; lia|]. intros i I. now rewrite nth_map_seq by lia. }
    rewrite !LF. cbn [bind]. rewrite !LH. cbn [bind]. unfold vadd. cbn [fst snd]. change (splat sn) with (lanes (fun _ : nat => sn)). rewrite !map2_lanes, !lower_lanes.
    assert (E0 : forall l, l < 8 -> kept (16 * blk + l) = (let d := add o (add o (if l <? lo then nf (16 * blk + l) else z0) sn) (mul o (dot (16 * blk + l)) (neg o (two x))) in
       let c := if l <? lo then mm (16 * blk + l) else z0 in if lt o d c then d else c)).
    { intros l L. unfold kept, step_dist. destruct (Nat.ltb_spec (16 * blk + l) n), (Nat.ltb_spec l lo); try lia; [now rewrite HM by lia|reflexivity]. }
    assert (E1 : forall l, l < 8 -> kept (16 * blk + 8 + l) = (let d := add o (add o (if l <? rest - lo then nf (16 * blk + (8 + l)) else z0) sn) (mul o (dot (16 * blk + 8 + l)) (neg o (two x))) in
       let c := if l <? rest - lo then mm (16 * blk + (8 + l)) else z0 in if lt o d c then d else c)).
    { intros l L. unfold kept, step_dist. rewrite !Nat.add_assoc. destruct (Nat.ltb_spec (16 * blk + 8 + l) n), (Nat.ltb_spec l (rest - lo)); try lia; [now rewrite HM by lia|reflexivity]. }
    cbv zeta in E0, E1. erewrite (lanes_ext _ _ (fun l L => eq_sym (E0 l L))), (lanes_ext _ _ (fun l L => eq_sym (E1 l L))).
    rewrite (store_ok _ (fun i => if i <? lo then kept (16 * blk + i) else mm (16 * blk + i))); [cbn [bind]|lia|lia|..].
    2:{ intros j J. rewrite Nat.sub_0_r. destruct (Nat.ltb_spec j lo); [reflexivity|lia]. }
    2:{ intros j J J'. destruct (Nat.ltb_spec j lo); [lia|reflexivity]. }
    destruct (Nat.eqb_spec (rest - lo) 0) as [Z'|NZ]; cbn [negb].
    - cbn [bind]. f_equal. f_equal. apply map_ext_in. intros j J. apply in_seq in J. destruct (Nat.ltb_spec j lo); [reflexivity|lia].
    - rewrite (store_ok _ (fun i => kept (16 * blk + i))); [reflexivity|lia|lia|..].
      + intros j J. f_equal. lia.
      + intros j J J'. destruct (Nat.ltb_spec j lo); [reflexivity|lia].
  Qed.
  Lemma update_ok : update_distances x dd (map m (seq 0 n)) b norms this sn = Some (tot (bt_blocks b), map kept (seq 0 n)).
  Proof.
    destruct (bt_eq b) as (E & B & NB). unfold update_distances. rewrite (proj2 (Nat.eqb_eq (length this) _) Ht). rewrite !map_length, !seq_length, Nat.eqb_refl. cbn [negb].
    rewrite Nat.min_id. assert (FB : n / 16 = bt_full b) by reflexivity. rewrite FB.
    pose (g := fun i => (tot i, map (fun j => if j <? 16 * i then kept j else m j) (seq 0 n))).
    assert (G0 : (dzero dd, map m (seq 0 n)) = g 0) by reflexivity. rewrite G0, (for_range_run _ _ g).
    - unfold g at 1. cbn [bind]. rewrite map_length, seq_length. destruct (Nat.eqb_spec (bt_rest b) 0) as [Z'|NZ]; cbn [negb].
      + f_equal. f_equal; [f_equal; destruct (Nat.eqb_spec (bt_rest b) 0); lia|]. apply map_ext_in. intros j J. apply in_seq in J. destruct (Nat.ltb_spec j (16 * bt_full b)); [reflexivity|lia].
      + assert (NB' : bt_blocks b = bt_full b + 1) by (destruct (Nat.eqb_spec (bt_rest b) 0); lia). clear NB. rename NB' into NB. rewrite accum_ok by lia. cbn [bind].
        assert (EN : n = 16 * bt_full b + bt_rest b) by exact E. rewrite EN at 1 2. rewrite slice_seq by lia. cbn [bind]. rewrite EN at 1 2. rewrite slice_seq by lia. cbn [bind].
        rewrite (finish_last_ok (bt_full b) _ (fun j => if j <? 16 * bt_full b then kept j else m j)); [|lia|lia|intros j J; destruct (Nat.ltb_spec j (16 * bt_full b)); [lia|reflexivity]].
        cbn [bind fst snd]. f_equal. f_equal.
        * rewrite NB, Nat.add_1_r. reflexivity.
        * pose proof (splice (fun j => if j <? 16 * bt_full b then kept j else m j) kept (16 * bt_full b) (bt_rest b) n ltac:(lia)) as SP.
          rewrite skipn_all2 in SP by (rewrite map_length, seq_length; lia). rewrite app_nil_r in SP. rewrite SP. apply map_ext_in. intros j J. apply in_seq in J.
          destruct (Nat.leb_spec (16 * bt_full b) j), (Nat.ltb_spec j (16 * bt_full b + bt_rest b)), (Nat.ltb_spec j (16 * bt_full b)); cbn [andb]; try lia; reflexivity.
    - intros i I. unfold g at 1. assert (BL : i < bt_blocks b) by (rewrite NB; destruct (bt_rest b =? 0); lia). rewrite accum_ok by assumption. cbn [bind].
      rewrite !slice_seq by lia. cbn [bind].
      rewrite (finish_ok i _ (fun j => if j <? 16 * i then kept j else m j)); [|lia|intros j J; destruct (Nat.ltb_spec j (16 * i)); [lia|reflexivity]].
      cbn [bind fst snd]. unfold g. f_equal. f_equal. rewrite splice by lia. apply map_ext_in. intros j J. apply in_seq in J.
      destruct (Nat.leb_spec (16 * i) j), (Nat.ltb_spec j (16 * i + 16)), (Nat.ltb_spec j (16 * i)), (Nat.ltb_spec j (16 * S i)); cbn [andb]; try lia; reflexivity.
  Qed.
End Distances.
