(** The transposed table. *)
From Coq Require Import List PeanoNat Bool Lia Arith.
From Verif.Lib Require Import Lists.
From Verif.Simd Require Import Model Proofs2.
From Verif.Pq Require Import Model Spec Proofs Proofs2 Proofs3.
Require Verif.Work.Model Verif.Work.Spec Verif.Work.Proofs.
Import ListNotations.

(** ** The norms are computed for every vector *)
Lemma load8_some {F} (l : list F) off : off + 8 <= length l -> exists v, load8 l off = Some v.
Proof. intros H. unfold load8. rewrite slice_eq by lia. eauto. Qed.
Lemma for_range_some {X} (P : X -> Prop) n (f : nat -> X -> option X) st : P st -> (forall i s, i < n -> P s -> exists s', f i s = Some s' /\ P s') ->
  exists s', for_range n f st = Some s' /\ P s'.
Proof.
  intros P0 H. induction n as [|n IH]; [exists st; now split|]. destruct IH as (s & E & Ps); [intros; apply H; [lia|assumption]|].
  rewrite for_range_S, E. cbn [bind]. apply H; [lia|assumption].
Qed.
Lemma square_norm_some {F} (x : xops F) v : exists n, square_norm x v = Some n.
Proof.
  unfold square_norm. cbv zeta. set (len := length v).
  pose proof (Nat.div_mod len 32 ltac:(lia)) as D1. pose proof (Nat.mod_upper_bound len 32 ltac:(lia)) as B1.
  pose proof (Nat.div_mod (len - 32 * (len / 32)) 8 ltac:(lia)) as D2. pose proof (Nat.mod_upper_bound (len - 32 * (len / 32)) 8 ltac:(lia)) as B2.
  edestruct (@for_range_some (list F * list F * list F * list F) (fun _ => True)) as ([[[s0 s1] s2] s3] & -> & _); [exact I| |cbn [bind]].
  { intros i [[[s0 s1] s2] s3] Hi _. destruct (load8_some v (32 * i)) as [? ->]; [fold len; lia|].
    destruct (load8_some v (32 * i + 8)) as [? ->]; [fold len; lia|]. destruct (load8_some v (32 * i + 16)) as [? ->]; [fold len; lia|].
    destruct (load8_some v (32 * i + 24)) as [? ->]; [fold len; lia|]. cbn [bind]. eauto. }
  edestruct (@for_range_some (list F) (fun _ => True)) as (s & -> & _); [exact I| |cbn [bind]].
  { intros i s Hi _. destruct (load8_some v (32 * (len / 32) + 8 * i)) as [? ->]; [fold len; lia|]. cbn [bind]. eauto. }
  set (r := len - (32 * (len / 32) + 8 * ((len - 32 * (len / 32)) / 8))).
  destruct (negb (r =? 0)); cbn [bind]; [|eauto].
  unfold load8_first. rewrite slice_eq by (unfold r; fold len; lia). cbn [bind]. eauto.
Qed.

(** ** Offsets *)
Section Offsets.
  Context (offsets : list nat) (dim : nat) (Ho : Work.Model.offsets_new offsets = Some dim).
  Lemma off_len : 2 <= length offsets.
  Proof. apply Work.Proofs.offsets_new_lemma in Ho as [[H _] _]. exact H. Qed.
  Lemma off_nth i : i < length offsets -> nth_error offsets i = Some (nth i offsets 0).
  Proof. intros H. now apply nth_error_nth'. Qed.
  Lemma off_lt i : S i < length offsets -> nth i offsets 0 < nth (S i) offsets 0.
  Proof.
    intros H. apply Work.Proofs.offsets_new_lemma in Ho as [(_ & _ & G) _]. apply (G i); apply off_nth; lia.
  Qed.
  Lemma off_le i : i < length offsets -> nth i offsets 0 <= dim.
  Proof.
    intros H. pose proof Ho as Q. apply Work.Proofs.offsets_new_lemma in Q as [P ->].
    apply (Work.Proofs.offsets_sorted offsets P i (length offsets - 1)); [lia|now apply off_nth|].
    apply Work.Proofs.nth_error_last. lia.
  Qed.
  Lemma off_0 : nth 0 offsets 0 = 0.
  Proof. apply Work.Proofs.offsets_new_lemma in Ho as [(_ & G & _) _]. destruct offsets; [discriminate|]. now injection G. Qed.
  Lemma off_last : nth (length offsets - 1) offsets 0 = dim.
  Proof.
    pose proof off_len. pose proof Ho as Q. apply Work.Proofs.offsets_new_lemma in Q as [_ ->].
    pose proof (Work.Proofs.nth_error_last offsets ltac:(lia)) as N. now apply nth_error_nth with (d := 0) in N.
  Qed.
  Lemma off_at i : i < length offsets - 1 -> Work.Model.offsets_at offsets i = Some (nth i offsets 0, nth (S i) offsets 0).
  Proof.
    intros H. unfold Work.Model.offsets_at. apply Nat.ltb_lt in H. rewrite H. apply Nat.ltb_lt in H.
    rewrite !off_nth by lia. now rewrite Nat.add_1_r.
  Qed.
  Lemma piece_slice {A} (v : list A) i : i < length offsets - 1 -> length v = dim ->
    slice (nth i offsets 0) (nth (S i) offsets 0) v = Some (piece offsets i v) /\ length (piece offsets i v) = nth (S i) offsets 0 - nth i offsets 0.
  Proof.
    intros Hi Hv. pose proof (off_lt i ltac:(lia)). pose proof (off_le (S i) ltac:(lia)). split; [unfold piece; apply slice_eq; lia|].
    unfold piece. rewrite firstn_length, skipn_length. lia.
  Qed.
End Offsets.

Lemma row_length {A} (m : matrix A) j : length (m_data m) = m_rows m * m_cols m -> j < m_rows m -> length (row m j) = m_cols m.
Proof. intros H J. unfold row. rewrite firstn_length, skipn_length. nia. Qed.

Section Build.
  Context {F : Type} (x : xops F) (pivots : matrix F) (offsets : list nat) (dim : nat).
  Context (Ho : Work.Model.offsets_new offsets = Some dim) (Hm : length (m_data pivots) = m_rows pivots * m_cols pivots).
  Context (Hd : m_cols pivots = dim).
  Lemma view_ok i : i < length offsets - 1 -> 0 < m_rows pivots ->
    exists data v, slice (nth i offsets 0) (length (m_data pivots)) (m_data pivots) = Some data /\
      shrink_from data (m_rows pivots) (nth (S i) offsets 0 - nth i offsets 0) dim = Some v /\ s_ok v /\
      s_rows v = m_rows pivots /\ s_cols v = nth (S i) offsets 0 - nth i offsets 0 /\
      (forall j, j < m_rows pivots -> s_row v j = Some (piece offsets i (row pivots j))).
  Proof.
    intros Hi HR. pose proof (off_lt offsets dim Ho i ltac:(lia)) as L1. pose proof (off_le offsets dim Ho (S i) ltac:(lia)) as L2.
    set (a := nth i offsets 0) in *. set (b := nth (S i) offsets 0) in *.
    assert (A : a <= length (m_data pivots)) by nia.
    exists (firstn (length (m_data pivots) - a) (skipn a (m_data pivots))).
    eexists. split; [now rewrite slice_eq by lia|].
    assert (LL : linear_length (m_rows pivots) (b - a) dim <= length (m_data pivots) - a) by (unfold linear_length; nia).
    unfold shrink_from. destruct (Nat.leb_spec (b - a) dim); [|lia]. cbn [negb].
    rewrite firstn_length, skipn_length. destruct (Nat.leb_spec (linear_length (m_rows pivots) (b - a) dim) (Nat.min (length (m_data pivots) - a) (length (m_data pivots) - a))); [|lia].
    split; [reflexivity|].
    assert (SO : s_ok (mkS (firstn (linear_length (m_rows pivots) (b - a) dim) (firstn (length (m_data pivots) - a) (skipn a (m_data pivots)))) (m_rows pivots) (b - a) dim)).
    { split; cbn [s_cols s_stride s_data s_rows]; [lia|]. rewrite !firstn_length, skipn_length. lia. }
    split; [exact SO|]. cbn [s_rows s_cols]. split; [reflexivity|]. split; [reflexivity|].
    intros j J. destruct (s_row_in _ j SO J) as [-> B]. cbn [s_cols s_stride s_data] in *. f_equal. unfold piece, row. fold a b.
    rewrite Hd. rewrite firstn_firstn in *. rewrite firstn_length, skipn_length in B.
    apply nth_error_ext. intros k. destruct (Nat.lt_ge_cases k (b - a)) as [K|K].
    - rewrite !nth_error_firstn' by assumption. rewrite !nth_error_skipn'. rewrite !nth_error_firstn' by lia. rewrite !nth_error_skipn'. f_equal. lia.
    - rewrite !(proj2 (nth_error_None _ _)); [reflexivity|rewrite firstn_length; lia..].
  Qed.
  Lemma chunk_of i : i < length offsets - 1 -> 0 < m_rows pivots ->
    exists data v c, slice (nth i offsets 0) (length (m_data pivots)) (m_data pivots) = Some data /\
      shrink_from data (m_rows pivots) (nth (S i) offsets 0 - nth i offsets 0) dim = Some v /\ chunk_new x v = Some (Some c) /\
      exists y norm, chunk_holds x pivots offsets i c y norm.
  Proof.
    intros Hi HR. destruct (view_ok i Hi HR) as (data & v & E1 & E2 & SO & R & C & RR). exists data, v.
    pose proof (off_lt offsets dim Ho i ltac:(lia)) as L1.
    assert (exists c, chunk_new x v = Some (Some c)) as [c EC].
    { unfold chunk_new. rewrite R, C. destruct (Nat.eqb_spec (nth (S i) offsets 0 - nth i offsets 0) 0); [lia|].
      destruct (Nat.eqb_spec (m_rows pivots) 0); [lia|]. cbn [orb].
      rewrite (each_map _ (fun j => match square_norm x (piece offsets i (row pivots j)) with Some n => n | None => zero (fo x) end)).
      2:{ intros j J. apply in_seq in J. rewrite RR by lia. cbn [bind]. destruct (square_norm_some x (piece offsets i (row pivots j))) as [nn ->]. reflexivity. }
      cbn [bind]. rewrite bt_from_eq by (assumption || lia). cbn [bind]. eauto. }
    exists c. split; [assumption|]. split; [assumption|]. split; [assumption|].
    destruct (chunk_new_ok x v c SO EC) as (A1 & A2 & A3 & A4 & A5 & A6 & A7).
    exists (cell (zero (fo x)) v), (fun j => nth j (c_norms c) (zero (fo x))).
    rewrite R in A1. rewrite C in A2.
    assert (NN : forall j, j < c_rows c -> nth_error (c_norms c) j = Some (nth j (c_norms c) (zero (fo x)))) by (intros; apply nth_error_nth'; lia).
    repeat (split; [assumption|]). split.
    - intros j J. assert (J' : j < m_rows pivots) by lia. pose proof (RR j J') as RJ. symmetry. apply list_map_seq.
      + destruct (piece_slice offsets dim Ho (row pivots j) i Hi) as [_ ->]; [rewrite row_length by assumption; exact Hd|]. now rewrite A2.
      + intros k K. unfold cell. rewrite R, C. destruct (Nat.ltb_spec j (m_rows pivots)); [|lia].
        destruct (Nat.ltb_spec k (nth (S i) offsets 0 - nth i offsets 0)); [|lia]. cbn [andb].
        unfold s_get. rewrite RJ. cbn [bind]. destruct (nth_error (piece offsets i (row pivots j)) k) eqn:EE; [reflexivity|].
        apply nth_error_None in EE. destruct (piece_slice offsets dim Ho (row pivots j) i Hi) as [_ PL]; [rewrite row_length by assumption; exact Hd|]. lia.
    - intros j J. destruct (A7 j J) as (r & n & R1 & R2 & R3). rewrite RR in R1 by lia. injection R1 as <-. rewrite R2. f_equal.
      rewrite NN in R3 by assumption. now injection R3.
  Qed.
  Lemma from_parts_ok : 0 < m_rows pivots -> exists t, from_parts x pivots offsets dim = Some (Ok t) /\ holds x pivots offsets t.
  Proof.
    intros HR. unfold from_parts. rewrite (proj2 (Nat.eqb_eq _ _) Hd). cbn [negb].
    match goal with |- context[bind (?G (seq 0 _)) _] => set (go := G) end.
    assert (Q : forall k n, k + n = length offsets - 1 -> exists cs largest, go (seq k n) = Some (Ok (cs, largest)) /\ length cs = n /\
      forall i c, nth_error cs i = Some c -> c_cols c <= largest /\ exists y norm, chunk_holds x pivots offsets (k + i) c y norm).
    { intros k n. revert k. induction n as [|n IH]; intros k K.
      - exists [], 0. split; [reflexivity|]. split; [reflexivity|]. intros [|i] c E; discriminate.
      - destruct (IH (S k)) as (cs & largest & E & L & H); [lia|]. destruct (chunk_of k ltac:(lia) HR) as (data & v & c & E1 & E2 & E3 & y & norm & CH).
        exists (c :: cs), (Nat.max (nth (S k) offsets 0 - nth k offsets 0) largest). cbn [seq].
        unfold go; fold go. rewrite (off_at offsets) by lia. cbn [bind]. rewrite E1. cbn [bind]. rewrite E2. cbn [bind]. rewrite E3. cbn [bind].
        rewrite E. cbn [bind]. split; [reflexivity|]. split; [cbn; now rewrite L|].
        intros [|i] c' N; cbn [nth_error] in N.
        + injection N as <-. rewrite Nat.add_0_r. split; [destruct CH as (_ & -> & _); lia|eauto].
        + destruct (H i c' N) as [B Y]. rewrite <- Nat.add_succ_comm. split; [lia|exact Y]. }
    destruct (Q 0 (length offsets - 1) eq_refl) as (cs & largest & E & L & H). rewrite E. cbn [bind]. eexists. split; [reflexivity|].
    repeat split; try assumption; try (symmetry; exact Hd).
    - cbn [t_pivots t_largest] in *. now destruct (H i c H0).
    - now destruct (H i c H0).
  Qed.
  Lemma from_parts_empty : m_rows pivots = 0 -> from_parts x pivots offsets dim = Some (Err (PivotError 0)).
  Proof.
    intros HR. unfold from_parts. rewrite (proj2 (Nat.eqb_eq _ _) Hd). cbn [negb]. pose proof (off_len offsets dim Ho) as L.
    destruct (length offsets - 1) as [|n] eqn:En; [lia|]. cbn [seq]. rewrite (off_at offsets) by lia. cbn [bind].
    rewrite (off_0 offsets dim Ho). pose proof (off_le offsets dim Ho 1 ltac:(lia)).
    assert (D : m_data pivots = []) by (apply length_zero_iff_nil; lia). rewrite D, HR. unfold slice. cbn [length Nat.leb andb bind Nat.sub firstn skipn].
    unfold shrink_from. cbn [linear_length]. destruct (Nat.leb_spec (nth 1 offsets 0 - 0) dim); [|lia]. cbn [negb].
    unfold linear_length. cbn [Nat.max Nat.min Nat.sub Nat.mul Nat.add Nat.leb length bind].
    unfold chunk_new. cbn [s_rows s_cols]. rewrite orb_true_r. reflexivity.
  Qed.
End Build.
