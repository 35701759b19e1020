(** Flattening the pivots of the chunks. *)
From Coq Require Import List PeanoNat Bool Lia Arith QArith Qcanon.
From Verif.Lib Require Import Lists.
From Verif.Simd Require Import Model Proofs2.
From Verif.Pq Require Import Model Spec Proofs Proofs2 Proofs3 Proofs4 Proofs6.
From Verif.Kmeans Require Import Model Spec Proofs Proofs2 Proofs3 Proofs4 Proofs5 Proofs6 Proofs8.
From Verif.Work Require Model.
Import ListNotations.
Local Open Scope nat_scope.

Lemma m_row_ok {A} (m : matrix A) i : shaped m -> i < m_rows m -> m_row m i = Some (row m i).
Proof. intros H I. unfold m_row. rewrite (proj2 (Nat.ltb_lt _ _) I), slice_eq by (unfold shaped in H; nia). unfold row. do 2 f_equal. lia. Qed.
Lemma each_m_row {A} (m : matrix A) : shaped m -> each (m_row m) (seq 0 (m_rows m)) = Some (points m).
Proof. intros H. unfold points. apply each_map. intros i I. apply in_seq in I. apply m_row_ok; [exact H|lia]. Qed.

Lemma skipn_nth_cons {A} (l : list A) : forall i a, nth_error l i = Some a -> skipn i l = a :: skipn (S i) l.
Proof. induction l as [|b l IH]; intros [|i] a; cbn [nth_error]; try discriminate; [now intros [= ->]|]. intros N. cbn [skipn] in *. now apply IH. Qed.
Definition put {A} (col : nat) (r p : list A) : list A := firstn col p ++ r ++ skipn (col + length r) p.
Lemma put_len {A} col (r p : list A) : col + length r <= length p -> length (put col r p) = length p.
Proof. intros H. unfold put. rewrite !app_length, firstn_length, skipn_length. lia. Qed.
Section Flat.
  Context {F : Type}.
  Lemma flatten_rows_ok k dim col (rs : list (list F)) : forall pre post, length post = length rs -> length pre + length rs = k ->
    Forall (fun p => length p = dim) pre -> Forall (fun p => length p = dim) post -> Forall (fun r => col + length r <= dim) rs ->
    flatten_rows (length pre) col rs (mkM (concat (pre ++ post)) k dim) = Some (mkM (concat (pre ++ map2 (put col) rs post)) k dim).
  Proof.
    induction rs as [|r rs IH]; intros pre [|p post] L K P1 P2 C; try discriminate; cbn [flatten_rows map2]; [reflexivity|].
    cbn [m_rows m_cols m_data length] in *. inversion C as [|? ? C1 C2]; subst. inversion P2 as [|? ? Q1 Q2]; subst.
    destruct (Nat.ltb_spec (length pre) (length pre + S (length rs))); [|lia]. cbn [negb].
    destruct (Nat.leb_spec (col + length r) (length p)); [|lia]. cbn [negb].
    pose proof (concat_same pre (length p) P1) as LC.
    replace (firstn (length pre * length p + col) (concat (pre ++ p :: post)) ++ r ++ skipn (length pre * length p + col + length r) (concat (pre ++ p :: post)))
      with (concat ((pre ++ [put col r p]) ++ post)).
    - replace (S (length pre)) with (length (pre ++ [put col r p])) by (rewrite app_length; cbn; lia).
      rewrite IH.
      + do 3 f_equal. now rewrite <- app_assoc.
      + congruence.
      + rewrite app_length. cbn [length]. lia.
      + apply Forall_app. split; [exact P1|]. constructor; [|constructor]. now apply put_len.
      + exact Q2.
      + exact C2.
    - rewrite <- app_assoc. cbn [app]. rewrite !concat_app. cbn [concat]. rewrite <- LC, firstn_app_2, skipn_app, skipn_all2 by lia.
      rewrite <- !app_assoc. f_equal. cbn [app]. unfold put. rewrite <- !app_assoc.
      replace (length (concat pre) + col + length r - length (concat pre)) with (col + length r) by lia.
      rewrite firstn_app, skipn_app. replace (col - length p) with 0 by lia. replace (col + length r - length p) with 0 by lia. cbn [firstn skipn]. now rewrite app_nil_r.
  Qed.
  Lemma map2_same {A B C E} (f : A -> B -> C) (g : E -> A) (h : E -> B) l : map2 f (map g l) (map h l) = map (fun e => f (g e) (h e)) l.
  Proof. induction l as [|e l IH]; cbn [map map2]; [reflexivity|]. now rewrite IH. Qed.
  Definition widths (ms : list (matrix F)) : nat := list_sum (map m_cols ms).
  Definition joined (ms : list (matrix F)) (j : nat) : list F := concat (map (fun m => row m j) ms).
  Lemma joined_len k ms j : Forall (fun m => shaped m /\ m_rows m = k) ms -> j < k -> length (joined ms j) = widths ms.
  Proof.
    unfold joined, widths. induction 1 as [|m ms [H1 H2] _ IH]; intros J; cbn [map concat list_sum fold_right]; [reflexivity|]. rewrite app_length, row_length by (assumption || lia).
    now rewrite IH.
  Qed.
  Lemma flatten_ok z k dim (ms : list (matrix F)) : Forall (fun m => shaped m /\ m_rows m = k) ms -> forall done, Forall (fun m => shaped m /\ m_rows m = k) done ->
    widths done + widths ms = dim ->
    flatten_from (widths done) ms (mkM (concat (map (fun j => joined done j ++ repeat z (dim - widths done)) (seq 0 k))) k dim) =
    Some (mkM (concat (map (joined (done ++ ms)) (seq 0 k))) k dim).
  Proof.
    induction 1 as [|m ms [H1 H2] H3 IH]; intros done HD W; cbn [flatten_from].
    - do 2 f_equal. rewrite app_nil_r. f_equal. apply map_ext. intros j. unfold widths in W at 2. cbn in W. replace (dim - widths done) with 0 by lia. cbn [repeat]. apply app_nil_r.
    - cbn [m_rows]. rewrite (proj2 (Nat.eqb_eq (m_rows m) k) H2). cbn [negb]. rewrite each_m_row by exact H1. cbn [bind].
      assert (WS : widths (m :: ms) = m_cols m + widths ms) by reflexivity.
      pose proof (flatten_rows_ok k dim (widths done) (points m) [] (map (fun j => joined done j ++ repeat z (dim - widths done)) (seq 0 k))) as FR.
      cbn [app length] in FR. rewrite FR.
      + cbn [bind]. unfold points. rewrite H2, map2_same. replace (widths done + m_cols m) with (widths (done ++ [m])) by (unfold widths; rewrite map_app, list_sum_app; cbn; lia).
        rewrite (map_ext_in _ (fun j => joined (done ++ [m]) j ++ repeat z (dim - widths (done ++ [m])))).
        * rewrite IH; [now rewrite <- app_assoc| |].
          { apply Forall_app. split; [exact HD|]. constructor; [now split|constructor]. }
          { unfold widths in *. rewrite map_app, list_sum_app. cbn. rewrite WS in W. lia. }
        * intros j J. apply in_seq in J. pose proof (joined_len k done j HD ltac:(lia)) as JL. pose proof (row_length m j H1 ltac:(lia)) as RL. unfold put.
          rewrite <- JL at 1. rewrite firstn_app, Nat.sub_diag, firstn_all. cbn [firstn]. rewrite app_nil_r.
          rewrite skipn_app, JL, RL. rewrite skipn_all2 by lia. cbn [app]. rewrite repeat_skip.
          unfold joined. rewrite map_app, concat_app. cbn [map concat]. rewrite app_nil_r, <- app_assoc. do 3 f_equal.
          unfold widths. rewrite map_app, list_sum_app. cbn. lia.
      + unfold points. now rewrite !map_length, !seq_length.
      + unfold points. now rewrite map_length, seq_length.
      + constructor.
      + apply Forall_forall. intros p P. apply in_map_iff in P as (j & <- & J). apply in_seq in J. rewrite app_length, repeat_length, (joined_len k) by (assumption || lia). lia.
      + apply Forall_forall. intros p P. unfold points in P. apply in_map_iff in P as (j & <- & J). apply in_seq in J. rewrite row_length by (assumption || lia). lia.
  Qed.
  Lemma flatten_all z k dim (ms : list (matrix F)) : Forall (fun m => shaped m /\ m_rows m = k) ms -> widths ms = dim ->
    flatten_from 0 ms (mkM (repeat z (k * dim)) k dim) = Some (mkM (concat (map (joined ms) (seq 0 k))) k dim).
  Proof.
    intros H W. pose proof (flatten_ok z k dim ms H [] (Forall_nil _) W) as Q. cbn [app] in Q. rewrite <- Q. change (widths []) with 0. rewrite Nat.sub_0_r. do 2 f_equal.
    unfold joined. cbn [map concat app]. clear. generalize 0. induction k as [|k IH]; intros s; cbn [seq map concat]; [reflexivity|]. rewrite <- (IH (S s)). cbn [Nat.mul]. apply repeat_app.
  Qed.
End Flat.

(** The pieces of the flattened rows. *)
Lemma piece_concat {A} (offsets : list nat) dim : Work.Model.offsets_new offsets = Some dim -> forall (l : list (list A)), length l = length offsets - 1 ->
  (forall i p, nth_error l i = Some p -> length p = nth (S i) offsets 0 - nth i offsets 0) ->
  forall i p, nth_error l i = Some p -> piece offsets i (concat l) = p.
Proof.
  intros Ho l L W i p N. assert (I : i < length l) by (now apply nth_error_lt' in N).
  assert (Q : forall k, k <= length l -> length (concat (firstn k l)) = nth k offsets 0).
  { induction k as [|k IH]; intros K; [cbn; now rewrite (off_0 offsets dim Ho)|]. destruct (nth_error_ex l k ltac:(lia)) as (q & NQ).
    rewrite (firstn_S_nth l k q NQ), concat_app, app_length, IH by lia. cbn [concat]. rewrite app_nil_r, (W _ _ NQ). pose proof (off_lt offsets dim Ho k ltac:(lia)). lia. }
  unfold piece. rewrite <- (firstn_skipn i l) at 1. rewrite concat_app, skipn_app, Q, Nat.sub_diag by lia. rewrite skipn_all2 by (rewrite Q; lia). cbn [skipn app].
  rewrite (skipn_nth_cons l i p N). cbn [concat]. rewrite <- (W _ _ N). rewrite firstn_app, Nat.sub_diag, firstn_all. cbn [firstn]. apply app_nil_r.
Qed.

(** ** Exact arithmetic *)
Lemma columns_fin (data : matrix Qc) offsets i : columns (fin data) offsets i = fin (columns data offsets i).
Proof.
  unfold columns, fin. cbn [m_rows m_cols m_data]. f_equal. rewrite concat_map. f_equal. change {| m_data := map Fin (m_data data); m_rows := m_rows data; m_cols := m_cols data |} with (fin data).
  rewrite points_fin, !map_map. apply map_ext. intros p. unfold piece. now rewrite skipn_map, firstn_map.
Qed.
Lemma data_rows {A} (m : matrix A) : shaped m -> m_data m = concat (points m).
Proof.
  unfold shaped, points. destruct m as [d r c]. unfold row. cbn [m_data m_rows m_cols]. revert d. induction r as [|r IH]; intros d H.
  - destruct d; [reflexivity|discriminate].
  - rewrite seq_S, map_app, concat_app. cbn [map concat Nat.add]. rewrite app_nil_r. rewrite <- (firstn_skipn (r * c) d) at 1. f_equal.
    + rewrite (IH (firstn (r * c) d)) by (rewrite firstn_length; cbn in H; lia). f_equal. apply map_ext_in. intros j J. apply in_seq in J.
      rewrite skipn_firstn_comm, firstn_firstn. f_equal. nia.
    + rewrite firstn_all2; [reflexivity|]. rewrite skipn_length. cbn in H. lia.
Qed.
Lemma fin_of (m : matrix ext) : shaped m -> (forall i, i < m_rows m -> exists r, row m i = map Fin r) -> exists m0, m = fin m0 /\ shaped m0.
Proof.
  intros H R. assert (exists d, m_data m = map Fin d) as (d & E).
  { rewrite (data_rows m H). unfold points. assert (Q : forall l, (forall i, In i l -> i < m_rows m) -> exists d, concat (map (row m) l) = map Fin d).
    { induction l as [|i l IH]; intros HI; [exists []; reflexivity|]. destruct (R i (HI i (or_introl eq_refl))) as (r & ER). destruct IH as (d & ED); [intros; apply HI; now right|].
      exists (r ++ d). cbn [map concat]. now rewrite ER, ED, map_app. }
    apply Q. intros i I. apply in_seq in I. lia. }
  exists (mkM d (m_rows m) (m_cols m)). split; [unfold fin; cbn [m_data m_rows m_cols]; rewrite <- E; now destruct m|]. unfold shaped in *. cbn [m_data m_rows m_cols]. rewrite <- H, E. now rewrite map_length.
Qed.
