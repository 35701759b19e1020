(** Training on a chunk of the columns. *)
From Coq Require Import List PeanoNat Bool Lia Arith.
From Verif.Lib Require Import Lists.
From Verif.Simd Require Import Model Proofs2.
From Verif.Pq Require Import Model Spec Proofs Proofs2 Proofs3 Proofs4 Proofs6.
From Verif.Kmeans Require Import Model Spec Proofs Proofs2 Proofs5 Proofs6.
From Verif.Work Require Model.
Import ListNotations.
Local Open Scope nat_scope.

(** Two views of the same rows. *)
Definition agree {A} (v w : strided A) : Prop := s_rows v = s_rows w /\ s_cols v = s_cols w /\ forall i, s_row v i = s_row w i.

Lemma bind_eq {A B} (a b : option A) (f : A -> option B) : a = b -> bind a f = bind b f.
Proof. now intros ->. Qed.
Section Agree.
  Context {F D : Type} (x : xops F) (dd : dops F D) (v w : strided F) (H : agree v w).
  Lemma agree_transpose : transpose_of x v = transpose_of x w.
  Proof.
    destruct H as (H1 & H2 & H3). unfold transpose_of, bt_from. rewrite H1, H2. cbv zeta.
    apply bind_eq. apply bind_eq. apply each_ext. intros b _. apply bind_eq. apply each_ext. intros c _. apply bind_eq. apply each_ext. intros r _.
    destruct (b * 16 + r <? s_rows w); [|reflexivity]. apply each_ext. intros p _. destruct (c * 1 + p <? s_cols w); [|reflexivity]. unfold s_get. now rewrite H3.
  Qed.
  Lemma agree_norms : row_norms x v = row_norms x w.
  Proof. destruct H as (H1 & H2 & H3). unfold row_norms. rewrite H1. apply each_ext. intros i _. now rewrite H3. Qed.
  Lemma agree_update c a : update_centroids dd c v a = update_centroids dd c w a.
  Proof. destruct H as (H1 & H2 & H3). unfold update_centroids. cbv zeta. rewrite H1. rewrite (each_ext (s_row v) (s_row w)) by (intros; apply H3). reflexivity. Qed.
  Lemma agree_lloyds norms b c reps : lloyds_inner x dd v norms b c reps = lloyds_inner x dd w norms b c reps.
  Proof.
    pose proof H as (H1 & H2 & H3). unfold lloyds_inner. cbv zeta. rewrite H1, H2.
    destruct (negb _); [reflexivity|]. destruct (negb _); [reflexivity|]. destruct (negb _); [reflexivity|]. destruct (negb _); [reflexivity|].
    destruct (row_norms x (view_of c)) as [cn|]; [|reflexivity]. cbn [bind]. apply bind_eq. apply for_range_ext. intros i [[[a r] m] nn] _.
    destruct (distances_in_place x b norms m nn a) as [[a' r']|]; [|reflexivity]. cbn [bind]. now rewrite agree_update.
  Qed.
  Lemma agree_round b norms draw e c st : pp_round x dd v b norms draw e c st = pp_round x dd w b norms draw e c st.
  Proof.
    destruct H as (H1 & H2 & H3). unfold pp_round. destruct st as [[[p m] k] sn]. destruct (m_row p (c - 1)); [|reflexivity]. cbn [bind].
    destruct (update_distances x dd m b norms l sn) as [[s m']|]; [|reflexivity]. cbn [bind]. destruct (uniform_of _ _ _); try reflexivity.
    destruct (winner _ _ _ _ _ _ _); [|reflexivity]. now rewrite H3.
  Qed.
  Lemma agree_rounds b norms draw e k : forall c st, pp_rounds x dd v b norms draw e k c st = pp_rounds x dd w b norms draw e k c st.
  Proof.
    induction k as [|k IH]; intros c st; cbn [pp_rounds]; [reflexivity|]. rewrite agree_round. destruct (pp_round x dd w b norms draw e c st) as [[s|s]|]; cbn [bind]; try reflexivity. apply IH.
  Qed.
  Lemma agree_plusplus c b norms first draw : kmeans_plusplus_inner x dd c v b norms first draw = kmeans_plusplus_inner x dd c w b norms first draw.
  Proof.
    pose proof H as (H1 & H2 & H3). unfold kmeans_plusplus_inner. rewrite H1, H2, H3. cbv zeta.
    destruct (negb _); [reflexivity|]. destruct (negb _); [reflexivity|]. destruct (negb _); [reflexivity|]. destruct (negb _); [reflexivity|]. destruct (_ =? 0); [reflexivity|].
    destruct (s_row w first); [|reflexivity]. cbn [bind]. destruct (set_row _ _ _); [|reflexivity]. cbn [bind]. destruct (nth_error _ _); [|reflexivity]. cbn [bind].
    now rewrite agree_rounds.
  Qed.
End Agree.

Lemma s_row_out {A} (v : strided A) i : s_ok v -> 0 < s_cols v -> 0 < s_rows v -> s_rows v <= i -> s_row v i = None.
Proof.
  intros [S1 S2] C R I. unfold s_row, slice. rewrite S2. unfold linear_length. destruct (Nat.leb_spec (i * s_stride v) (i * s_stride v + s_cols v)); [|lia].
  destruct (Nat.leb_spec (i * s_stride v + s_cols v) ((Nat.max (s_rows v) 1 - 1) * s_stride v + Nat.min (s_rows v) 1 * s_cols v)); [nia|reflexivity].
Qed.
Lemma views_agree {A} (v w : strided A) pts : views v pts -> views w pts -> s_cols v = s_cols w -> 0 < s_cols v -> 0 < length pts -> agree v w.
Proof.
  intros (V1 & V2 & V3) (W1 & W2 & W3) C C0 P0. split; [congruence|]. split; [exact C|]. intros i. destruct (Nat.lt_ge_cases i (length pts)) as [I|I].
  - destruct (nth_error_ex pts i I) as (p & N). destruct (V3 _ _ N) as [-> _]. destruct (W3 _ _ N) as [-> _]. reflexivity.
  - rewrite !s_row_out; try assumption; lia || reflexivity.
Qed.

(** ** The columns of a chunk *)
Lemma concat_same {A} (l : list (list A)) c : Forall (fun p => length p = c) l -> length (concat l) = length l * c.
Proof. induction 1 as [|p l P _ IH]; cbn [concat length]; [reflexivity|]. rewrite app_length, IH, P. reflexivity. Qed.
Lemma concat_at {A} (l : list (list A)) c : Forall (fun p => length p = c) l -> forall i p, nth_error l i = Some p -> firstn c (skipn (i * c) (concat l)) = p.
Proof.
  induction 1 as [|q l Q _ IH]; intros [|i] p N; cbn [nth_error concat] in *; try discriminate.
  - injection N as <-. cbn [Nat.mul skipn]. rewrite firstn_app, Q, Nat.sub_diag. cbn [firstn]. rewrite app_nil_r, <- Q. apply firstn_all.
  - rewrite <- (IH i p N). f_equal. rewrite skipn_app, Q. rewrite (skipn_all2 q) by nia. cbn [app]. f_equal. cbn [Nat.mul]. lia.
Qed.
Section Shape.
  Context {F D : Type} (x : xops F) (dd : dops F D).
  Definition like (p m : matrix F) : Prop := m_rows m = m_rows p /\ m_cols m = m_cols p.
  Lemma set_row_like (p m : matrix F) i r : set_row p i r = Some m -> like p m.
  Proof. unfold set_row. destruct (negb _); [discriminate|]. destruct (negb _); [discriminate|]. intros [= <-]. split; reflexivity. Qed.
  Lemma round_like v b norms draw e c p m k sn r : pp_round x dd v b norms draw e c (p, m, k, sn) = Some r ->
    match r with inl (p', _, _, _) => like p p' | inr (_, p') => like p p' end.
  Proof.
    unfold pp_round. destruct (m_row p (c - 1)); [|discriminate]. cbn [bind]. destruct (update_distances _ _ _ _ _ _ _) as [[s m']|]; [|discriminate]. cbn [bind].
    destruct (uniform_of _ _ _); try (intros [= <-]; split; reflexivity). destruct (winner _ _ _ _ _ _ _); [|intros [= <-]; split; reflexivity].
    destruct (s_row v n); [|discriminate]. cbn [bind]. destruct (set_row p c l0) eqn:E; [|discriminate]. cbn [bind]. destruct (nth_error norms n); [|discriminate]. cbn [bind].
    intros [= <-]. now apply set_row_like in E.
  Qed.
  Lemma rounds_like v b norms draw e k : forall c p m l sn r, pp_rounds x dd v b norms draw e k c (p, m, l, sn) = Some r ->
    match r with inl (p', _, _, _) => like p p' | inr (_, p') => like p p' end.
  Proof.
    induction k as [|k IH]; intros c p m l sn r; cbn [pp_rounds]; [intros [= <-]; split; reflexivity|].
    destruct (pp_round _ _ _ _ _ _ _ _ _) as [q|] eqn:E; [|discriminate]. apply round_like in E. cbn [bind]. destruct q as [[[[p' m'] l'] sn']|[e' p']].
    - intros R. apply IH in R. unfold like in *. destruct r as [[[[p2 ?] ?] ?]|[? p2]]; intuition congruence.
    - intros [= <-]. exact E.
  Qed.
  Lemma plusplus_like c v b norms first draw err m : kmeans_plusplus_inner x dd c v b norms first draw = Some (err, m) -> like c m.
  Proof.
    unfold kmeans_plusplus_inner. destruct (negb _); [discriminate|]. destruct (negb _); [discriminate|]. destruct (negb _); [discriminate|]. destruct (negb _); [discriminate|]. cbv zeta.
    destruct (_ =? 0); [intros E; injection E as _ <-; split; reflexivity|]. destruct (s_row v first); [|discriminate]. cbn [bind].
    destruct (set_row _ _ _) as [p|] eqn:E; [|discriminate]. apply set_row_like in E. cbn [bind]. destruct (nth_error _ _); [|discriminate]. cbn [bind].
    destruct (pp_rounds _ _ _ _ _ _ _ _ _ _) as [r|] eqn:R; [|discriminate]. apply rounds_like in R. cbn [bind]. unfold like in *. cbn [m_rows m_cols] in *.
    destruct r as [[[[p2 ?] ?] ?]|[? p2]]; intros Q; injection Q as _ <-; intuition congruence.
  Qed.
End Shape.
Section Chunk.
  Context {F D : Type} (x : xops F) (dd : dops F D) (data : matrix F) (offsets : list nat) (dim : nat).
  Context (Ho : Work.Model.offsets_new offsets = Some dim) (Hd : shaped data) (Hc : m_cols data = dim).
  Notation cd i := (columns data offsets i).
  Notation width i := (nth (S i) offsets 0 - nth i offsets 0).
  Lemma piece_len i j : i < length offsets - 1 -> j < m_rows data -> length (piece offsets i (row data j)) = width i.
  Proof. intros I J. apply (piece_slice offsets dim Ho (row data j) i I). now rewrite row_length. Qed.
  Lemma columns_all i : i < length offsets - 1 -> Forall (fun p => length p = width i) (map (piece offsets i) (points data)).
  Proof.
    intros I. apply Forall_forall. intros p P. apply in_map_iff in P as (q & <- & P). unfold points in P. apply in_map_iff in P as (j & <- & J). apply in_seq in J. apply piece_len; [exact I|lia].
  Qed.
  Lemma columns_shaped i : i < length offsets - 1 -> shaped (cd i).
  Proof. intros I. unfold shaped, columns. cbn [m_data m_rows m_cols]. rewrite (concat_same _ (width i)) by (now apply columns_all). unfold points. now rewrite !map_length, seq_length. Qed.
  Lemma columns_row i j : i < length offsets - 1 -> j < m_rows data -> row (cd i) j = piece offsets i (row data j).
  Proof. intros I J. unfold row at 1, columns. cbn [m_data m_cols]. apply concat_at; [now apply columns_all|]. unfold points. rewrite map_map. now apply (nth_map_seq (fun j => piece offsets i (row data j))). Qed.
  Lemma columns_points i : i < length offsets - 1 -> points (cd i) = map (piece offsets i) (points data).
  Proof. intros I. unfold points. rewrite map_map. cbn [columns m_rows]. apply map_ext_in. intros j J. apply in_seq in J. apply columns_row; [exact I|lia]. Qed.
  Lemma chunk_eq ncenters reps rng cancel i : i < length offsets - 1 -> 0 < m_rows data ->
    train_chunk x dd ncenters reps data offsets dim rng cancel i =
    if cancel i 0 then Some (inr (Canceled i)) else
    do r <- kmeans_plusplus x dd (mkM (repeat (zero (fo x)) (ncenters * width i)) ncenters (width i)) (cd i) (fst (rng i)) (snd (rng i));
    let '(err, start) := r in
    match err with
    | Some e => if negb (recoverable e) then Some (inr (Initialization i e)) else
        if cancel i 1 then Some (inr (Canceled i)) else do l <- lloyds x dd (cd i) start reps; Some (inl (snd l))
    | None => if cancel i 1 then Some (inr (Canceled i)) else do l <- lloyds x dd (cd i) start reps; Some (inl (snd l))
    end.
  Proof.
    intros I N. destruct (view_ok data offsets dim Ho Hd Hc i I N) as (rest & v & E1 & E2 & SO & R & C & RR).
    pose proof (off_lt offsets dim Ho i ltac:(lia)) as L1.
    assert (VV : views v (points (cd i))).
    { split; [exact SO|]. rewrite columns_points by assumption. unfold points. rewrite !map_length, seq_length. split; [exact R|].
      intros j p P. rewrite map_map in P. assert (J : j < m_rows data) by (apply nth_error_lt' in P; now rewrite map_length, seq_length in P).
      rewrite nth_map_seq in P by assumption. injection P as <-. split; [now apply RR|]. rewrite C. now apply piece_len. }
    pose proof (views_matrix (cd i) (columns_shaped i I)) as VW.
    assert (AG : agree v (view_of (cd i))).
    { apply (views_agree v (view_of (cd i)) (points (cd i)) VV VW); [exact C|lia|]. rewrite columns_points by assumption. unfold points. rewrite !map_length, seq_length. exact N. }
    unfold train_chunk. rewrite (off_at offsets i I). cbn [bind]. destruct (cancel i 0); [reflexivity|]. rewrite E1. cbn [bind]. rewrite E2.
    rewrite (agree_norms x _ _ AG), (agree_transpose x _ _ AG).
    unfold kmeans_plusplus. cbn [m_cols columns]. rewrite Nat.eqb_refl. cbn [negb].
    destruct (row_norms x (view_of (cd i))) as [norms|] eqn:EN; [|reflexivity]. cbn [bind]. destruct (transpose_of x (view_of (cd i))) as [b|] eqn:ET; [|reflexivity]. cbn [bind].
    cbv zeta. rewrite (agree_plusplus x dd _ _ AG). destruct (kmeans_plusplus_inner _ _ _ _ _ _ _ _) as [[err start]|] eqn:EK; [|reflexivity]. cbn [bind].
    assert (SC : m_cols start = width i).
    { apply plusplus_like in EK as [_ EK]. exact EK. }
    assert (LL : lloyds x dd (cd i) start reps = lloyds_inner x dd v norms b start reps).
    { unfold lloyds. cbn [columns m_cols]. rewrite SC, Nat.eqb_refl. cbn [negb]. rewrite ET. cbn [bind]. rewrite EN. cbn [bind]. symmetry. apply (agree_lloyds x dd _ _ AG). }
    rewrite LL. reflexivity.
  Qed.
End Chunk.
