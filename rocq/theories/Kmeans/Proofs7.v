(** k-means++ in exact arithmetic. *)
From Coq Require Import List PeanoNat Bool Lia Arith QArith Qcanon Field.
From Verif.Lib Require Import Lists.
From Verif.Simd Require Import Model Spec Proofs2.
From Verif.Pq Require Import Model Spec Proofs Proofs2 Proofs3 Proofs4 Proofs6.
From Verif.Kmeans Require Import Model Spec Proofs Proofs2 Proofs3 Proofs4 Proofs5 Proofs6.
Import ListNotations.
Local Open Scope nat_scope.

Lemma map_add_seq a k : forall s, map (fun l => a + l) (seq s k) = seq (a + s) k.
Proof. induction k as [|k IH]; intros s; cbn [seq map]; [reflexivity|]. rewrite IH. do 2 f_equal. lia. Qed.
Lemma dist2_zero a : forall c, length a = length c -> dist2 a c = q0 -> a = c.
Proof.
  induction a as [|u a IH]; intros [|w c] L E; try discriminate; [reflexivity|]. cbn [dist2] in E.
  assert (P1 := qsq_pos (u - w)). assert (P2 := dist2_pos a c).
  assert (E1 : ((u - w) * (u - w))%Qc = q0).
  { apply Qcle_antisym; [|exact P1]. rewrite <- E. apply qle_add, P2. }
  assert (E2 : dist2 a c = q0) by (rewrite E1 in E; rewrite <- E; ring).
  f_equal; [|apply IH; [now injection L|exact E2]].
  apply Qcmult_integral in E1. assert (U : (u - w)%Qc = q0) by tauto. replace u with ((u - w) + w)%Qc by ring. rewrite U. ring.
Qed.
Lemma dist2_self a : dist2 a a = q0.
Proof. induction a as [|u a IH]; cbn [dist2]; [reflexivity|]. rewrite IH. ring. Qed.
Lemma qmin_spec a b : (qmin a b = a \/ qmin a b = b) /\ (qmin a b <= a)%Qc /\ (qmin a b <= b)%Qc.
Proof.
  unfold qmin. destruct (qlt b a) eqn:E.
  - apply qlt_lt in E. split; [now right|]. split; [now apply Qclt_le_weak|apply Qcle_refl].
  - apply qlt_ge in E. split; [now left|]. split; [apply Qcle_refl|exact E].
Qed.
Lemma qsum_pos l : (forall a, In a l -> q0 <= a)%Qc -> (q0 <= qsum l)%Qc.
Proof.
  induction l as [|a l IH]; intros H; cbn [qsum]; [apply Qcle_refl|]. replace q0 with (q0 + q0)%Qc by ring.
  apply Qcplus_le_compat; [apply H; now left|apply IH; intros; apply H; now right].
Qed.
Lemma qsum_none l : (forall a, In a l -> q0 <= a)%Qc -> qsum l = q0 -> forall a, In a l -> a = q0.
Proof.
  induction l as [|u l IH]; intros H E a; [intros []|]. cbn [qsum] in E.
  assert (P1 : (q0 <= u)%Qc) by (apply H; now left). assert (P2 : (q0 <= qsum l)%Qc) by (apply qsum_pos; intros; apply H; now right).
  assert (U : u = q0) by (apply Qcle_antisym; [rewrite <- E; now apply qle_add|exact P1]).
  assert (E' : qsum l = q0) by (rewrite U in E; rewrite <- E; ring).
  intros [<-|I]; [exact U|]. apply IH; try assumption. intros. apply H. now right.
Qed.

Section Exact.
  Context (data : matrix Qc) (Hd : shaped data).
  Notation pts := (points data).
  Notation v := (view_of (fin data)).
  Notation epts := (map (map Fin) pts).
  Notation n := (m_rows data).
  Context (b : btref (F := ext)) (Hbr : b_rows b = n) (Hbc : b_cols b = m_cols data) (Hb : holds_t b (cell (Fin q0) v)).

  Lemma epts_len : length epts = n.
  Proof. unfold points. now rewrite !map_length, seq_length. Qed.
  Lemma ept_row j : j < n -> pt epts j = map Fin (row data j).
  Proof.
    intros J. unfold pt. change (@nil ext) with (map Fin []). rewrite map_nth. f_equal. apply nth_error_nth. unfold points. now apply nth_map_seq.
  Qed.
  Lemma pdist_fin p j : p < n -> j < n -> pdist ext_x epts p j = Fin (dist2 (row data p) (row data j)).
  Proof.
    intros P J. unfold pdist. rewrite !ept_row, !nrm_fin by assumption. rewrite (along_h q_ops ext_x Fin ext_embeds), (along_exact q_ops q_exact). cbn. f_equal.
    rewrite dist2_l2, (expand q_ops q_exact) by (rewrite !row_length by assumption; reflexivity). cbn. unfold sq. cbn.
    replace (qnat 2) with (Q2Qc 1 + Q2Qc 1)%Qc by (apply Qc_is_canon; reflexivity).
    assert (C : true_ip q_ops (row data j) (row data p) = true_ip q_ops (row data p) (row data j)).
    { generalize (row data j) (row data p). clear. intros a. induction a as [|u a IH]; intros [|w c]; try reflexivity.
      unfold true_ip, total in *. cbn in *. rewrite IH. f_equal. ring. }
    rewrite C. ring.
  Qed.
  Lemma keptd_fin picks j : picks <> [] -> (forall p, In p picks -> p < n) -> j < n -> keptd ext_x epts picks j = Fin (weight data picks j).
  Proof.
    intros N P J. destruct picks as [|p ps]; [congruence|]. unfold keptd, weight. cbn [fold_left]. rewrite pdist_fin by (try assumption; apply P; now left). cbn [lt fo ext_x ext_ops e_less inf].
    assert (P' : forall q, In q ps -> q < n) by (intros; apply P; now right). clear P N. generalize (dist2 (row data p) (row data j)) as w.
    induction ps as [|q ps IH]; intros w; cbn [fold_left]; [reflexivity|]. rewrite pdist_fin by (try assumption; apply P'; now left). cbn [lt fo ext_x ext_ops e_less].
    rewrite <- IH by (intros; apply P'; now right). unfold qmin. destruct (qlt _ w); reflexivity.
  Qed.
  Lemma weight_spec picks j : picks <> [] -> (exists p, In p picks /\ weight data picks j = dist2 (row data p) (row data j)) /\
    forall p, In p picks -> (weight data picks j <= dist2 (row data p) (row data j))%Qc.
  Proof.
    intros N. destruct picks as [|p ps]; [congruence|]. unfold weight.
    assert (Q : forall ps w, (fold_left (fun w p => qmin w (dist2 (row data p) (row data j))) ps w <= w)%Qc /\
      (fold_left (fun w p => qmin w (dist2 (row data p) (row data j))) ps w = w \/ exists p, In p ps /\ fold_left (fun w p => qmin w (dist2 (row data p) (row data j))) ps w = dist2 (row data p) (row data j)) /\
      forall p, In p ps -> (fold_left (fun w p => qmin w (dist2 (row data p) (row data j))) ps w <= dist2 (row data p) (row data j))%Qc).
    { clear. induction ps as [|q ps IH]; intros w; cbn [fold_left]; [split; [apply Qcle_refl|]; split; [now left|intros ? []]|].
      destruct (qmin_spec w (dist2 (row data q) (row data j))) as (M1 & M2 & M3). destruct (IH (qmin w (dist2 (row data q) (row data j)))) as (I1 & I2 & I3).
      split; [now apply Qcle_trans with (qmin w (dist2 (row data q) (row data j)))|]. split.
      - destruct I2 as [->|(p & P1 & P2)]; [|right; exists p; split; [now right|exact P2]]. destruct M1 as [->| ->]; [now left|right; exists q; split; [now left|reflexivity]].
      - intros p [<-|P]; [now apply Qcle_trans with (qmin w (dist2 (row data q) (row data j)))|now apply I3]. }
    destruct (Q ps (dist2 (row data p) (row data j))) as (Q1 & Q2 & Q3). split.
    - destruct Q2 as [->|(q & P1 & P2)]; [exists p; split; [now left|reflexivity]|exists q; split; [now right|exact P2]].
    - intros q [<-|I]; [exact Q1|now apply Q3].
  Qed.
  Lemma weight_pos picks j : (q0 <= weight data picks j)%Qc.
  Proof.
    destruct picks as [|p ps]; [apply Qcle_refl|]. destruct (weight_spec (p :: ps) j) as [(q & _ & ->) _]; [discriminate|]. apply dist2_pos.
  Qed.
  Lemma weight_picked picks p : In p picks -> weight data picks p = q0.
  Proof.
    intros I. apply Qcle_antisym; [|apply weight_pos]. destruct (weight_spec picks p) as [_ W]; [now destruct picks|]. specialize (W p I). now rewrite dist2_self in W.
  Qed.

  (** *** The sum *)
  Lemma zeros_ip k : forall c, true_ip q_ops (repeat q0 k) c = q0.
  Proof.
    induction k as [|k IH]; intros [|u c]; try reflexivity. cbn [repeat]. specialize (IH c). unfold true_ip, total in *. cbn in *. rewrite IH. ring.
  Qed.
  Lemma sq_pos c : (q0 <= sq q_ops c)%Qc.
  Proof.
    induction c as [|u c IH]; [apply Qcle_refl|]. unfold sq, true_ip, total in *. cbn in *. replace q0 with (q0 + q0)%Qc by ring. apply Qcplus_le_compat; [apply qsq_pos|exact IH].
  Qed.
  Definition kq (picks : list nat) (j : nat) : Qc := if j <? n then weight data picks j else q0.
  Lemma kept_fin picks j : picks <> [] -> (forall p, In p picks -> p < n) ->
    kept ext_x b (cell (Fin q0) v) (this_of epts picks) (sn_of ext_x epts picks) (fun j => nrm ext_x (pt epts j)) (keptd ext_x epts (removelast picks)) j = Fin (kq picks j).
  Proof.
    intros N P. unfold kq. destruct (Nat.ltb_spec j n) as [J|J].
    - pose proof (views_matrix _ (shaped_fin data Hd)) as Hv. rewrite points_fin in Hv.
      rewrite <- keptd_fin by assumption. apply (kept_next ext_x v epts Hv b Hbr Hbc picks j N); [rewrite epts_len; exact P|rewrite epts_len; exact J].
    - unfold kept. cbv zeta. rewrite (proj2 (Nat.ltb_ge j (b_rows b))) by lia. unfold step_dist, dot, sn_of, this_of.
      assert (L : last picks 0 < n) by (apply P; now apply last_In). rewrite ept_row, nrm_fin by exact L.
      assert (T : trow b (cell (Fin q0) v) j = map Fin (repeat q0 (m_cols data))).
      { unfold trow. rewrite Hbc. apply nth_error_ext. intros i. rewrite !nth_error_map. destruct (Nat.lt_ge_cases i (m_cols data)) as [I|I].
        - rewrite (repeat_nth q0 _ i I). assert (NS : nth_error (seq 0 (m_cols data)) i = Some i) by (rewrite (nth_error_nth' _ 0) by (rewrite seq_length; exact I); now rewrite seq_nth).
          rewrite NS. cbn [option_map]. f_equal. unfold cell. cbn [view_of s_rows s_cols fin m_rows]. rewrite (proj2 (Nat.ltb_ge j n) J). reflexivity.
        - rewrite (proj2 (nth_error_None (seq 0 (m_cols data)) i)) by (rewrite seq_length; exact I). now rewrite (proj2 (nth_error_None (repeat q0 (m_cols data)) i)) by (rewrite repeat_length; exact I). }
      rewrite T, (along_h q_ops ext_x Fin ext_embeds), (along_exact q_ops q_exact), zeros_ip. cbn [fo ext_x ext_ops add mul neg two zero lt e_plus e_times e_opp e_less].
      set (s := sq q_ops (row data (last picks 0))). assert (SP : (q0 <= s)%Qc) by apply sq_pos. clearbody s.
      assert (E : (q0 + s + q0 * - qnat 2)%Qc = s) by ring. cbn. cbn in E. rewrite E.
      rewrite (proj2 (qlt_ge _ _) SP). reflexivity.
  Qed.
  Lemma pair_fin f g : pair_sum ext_d (lanes (fun l => Fin (f l))) (lanes (fun l => Fin (g l))) = Fin (qsum (map f (seq 0 8)) + qsum (map g (seq 0 8))).
  Proof. unfold pair_sum, lanes. cbn. f_equal. ring. Qed.
  Lemma ptot_fin picks : picks <> [] -> (forall p, In p picks -> p < n) -> ptot ext_x ext_d v epts b picks = Fin (weights data picks n).
  Proof.
    intros N P. unfold ptot.
    assert (T : forall i, tot ext_x ext_d b (cell (zero (fo ext_x)) v) (this_of epts picks) (sn_of ext_x epts picks) (fun j => nrm ext_x (pt epts j)) (keptd ext_x epts (removelast picks)) i = Fin (qsum (map (kq picks) (seq 0 (16 * i))))).
    { induction i as [|i IH]; [reflexivity|]. cbn [tot]. rewrite IH.
      change (zero (fo ext_x)) with (Fin q0).
      rewrite (lanes_ext _ _ (fun l (_ : l < 8) => kept_fin picks (16 * i + l) N P)), (lanes_ext _ _ (fun l (_ : l < 8) => kept_fin picks (16 * i + 8 + l) N P)).
      rewrite pair_fin. cbn [ext_d dadd e_plus]. f_equal. replace (16 * S i) with (16 * i + (8 + 8)) by lia. rewrite seq_app, map_app, qsum_app. f_equal.
      rewrite seq_app, map_app, qsum_app. cbn [plus]. 
      assert (SH : forall a k, map (kq picks) (seq a k) = map (fun l => kq picks (a + l)) (seq 0 k)) by (intros a k; rewrite <- (map_map (fun l => a + l) (kq picks)), map_add_seq, Nat.add_0_r; reflexivity).
      now rewrite !SH. }
    rewrite T. f_equal. destruct (bt_eq b) as (E & B & NB). assert (LE : n <= 16 * bt_blocks b) by (rewrite NB; destruct (Nat.eqb_spec (bt_rest b) 0); lia).
    replace (16 * bt_blocks b) with (n + (16 * bt_blocks b - n)) by lia. rewrite seq_app, map_app, qsum_app. unfold weights.
    rewrite (qsum_ext (kq picks) (weight data picks) (seq 0 n)) by (intros j J; apply in_seq in J; unfold kq; now rewrite (proj2 (Nat.ltb_lt j n)) by lia).
    rewrite (qsum_ext (kq picks) (fun _ => q0) (seq (0 + n) _)) by (intros j J; apply in_seq in J; unfold kq; now rewrite (proj2 (Nat.ltb_ge j n)) by lia).
    rewrite qsum_zero. ring.
  Qed.

  (** *** The pick *)
  Lemma qlt_total_ge t r : (e_less (Fin t) (Fin r) || Qc_eq_bool r t) = negb (qlt r t).
  Proof.
    cbn [e_less]. destruct (qlt r t) eqn:E; cbn [negb].
    - apply qlt_lt in E. destruct (qlt t r) eqn:E2; cbn [orb].
      + apply qlt_lt in E2. exfalso. apply (Qclt_not_le _ _ E). now apply Qclt_le_weak.
      + destruct (Qc_eq_bool r t) eqn:E3; [|reflexivity]. apply Qc_eq_bool_correct in E3. subst. exfalso. now apply (Qclt_not_eq _ _ E).
    - apply qlt_ge in E. destruct (qlt t r) eqn:E2; [reflexivity|]. apply qlt_ge in E2. cbn [orb]. assert (r = t) as -> by now apply Qcle_antisym.
      unfold Qc_eq_bool. destruct (Qc_eq_dec t t); [reflexivity|congruence].
  Qed.
  Lemma winner_exact t picked ws : forall i r, (forall a, In a ws -> q0 <= a)%Qc -> (forall j w, nth_error ws j = Some w -> In (i + j) picked -> w = q0) ->
    (q0 <= t)%Qc -> (r = q0 \/ (r < t)%Qc) -> (t < r + qsum ws)%Qc ->
    exists k w, winner ext_x ext_d (Fin t) picked i (Fin r) (map Fin ws) = Some (i + k) /\ nth_error ws k = Some w /\ (q0 < w)%Qc /\
      (t <= r + qsum (firstn (S k) ws))%Qc /\ forall j w', j < k -> nth_error ws j = Some w' -> (q0 < w')%Qc -> (r + qsum (firstn (S j) ws) < t)%Qc.
  Proof.
    induction ws as [|d ws IH]; intros i r NN PK T0 R0 TS.
    - cbn [qsum] in TS. replace (r + q0)%Qc with r in TS by ring. exfalso. destruct R0 as [->|R0]; [exact (Qclt_not_le _ _ TS T0)|exact (Qclt_not_le _ _ TS (Qclt_le_weak _ _ R0))].
    - cbn [map winner]. cbn [ext_d dadd widen dge e_plus fo ext_x ext_ops lt zero]. rewrite qlt_total_ge. cbn [e_less].
      assert (D0 : (q0 <= d)%Qc) by (apply NN; now left).
      assert (PI : In i picked -> d = q0) by (intros I; apply (PK 0 d eq_refl); now rewrite Nat.add_0_r).
      assert (NEXT : (d = q0 \/ (r + d < t)%Qc) -> exists k w, winner ext_x ext_d (Fin t) picked (S i) (Fin (r + d)) (map Fin ws) = Some (S i + k) /\ nth_error ws k = Some w /\ (q0 < w)%Qc /\
        (t <= (r + d) + qsum (firstn (S k) ws))%Qc /\ forall j w', j < k -> nth_error ws j = Some w' -> (q0 < w')%Qc -> ((r + d) + qsum (firstn (S j) ws) < t)%Qc).
      { intros C. apply IH.
        - intros a A. apply NN. now right.
        - intros j w N I. apply (PK (S j) w N). now replace (i + S j) with (S i + j) by lia.
        - exact T0.
        - destruct C as [->|C]; [|now right]. replace (r + q0)%Qc with r by ring. exact R0.
        - cbn [qsum] in TS. now replace (r + d + qsum ws)%Qc with (r + (d + qsum ws))%Qc by ring. }
      assert (GO : (d = q0 \/ (r + d < t)%Qc) -> (negb (qlt (r + d) t) && qlt q0 d && negb (existsb (Nat.eqb i) picked)) = false ->
        exists k w, (if negb (qlt (r + d) t) && qlt q0 d && negb (existsb (Nat.eqb i) picked) then Some i else winner ext_x ext_d (Fin t) picked (S i) (Fin (r + d)) (map Fin ws)) = Some (i + k) /\ nth_error (d :: ws) k = Some w /\ (q0 < w)%Qc /\
        (t <= r + qsum (firstn (S k) (d :: ws)))%Qc /\ forall j w', j < k -> nth_error (d :: ws) j = Some w' -> (q0 < w')%Qc -> (r + qsum (firstn (S j) (d :: ws)) < t)%Qc).
      { intros C E. rewrite E. destruct (NEXT C) as (k & w & K1 & K2 & K3 & K4 & K5). exists (S k), w. split; [rewrite K1; f_equal; lia|]. split; [exact K2|]. split; [exact K3|]. split.
        - cbn [firstn qsum]. cbn [firstn] in K4. now replace (r + (d + qsum match ws with [] => [] | a :: l => a :: firstn k l end))%Qc with (r + d + qsum match ws with [] => [] | a :: l => a :: firstn k l end)%Qc by ring.
        - intros [|j] w' J N W.
          + cbn [nth_error] in N. injection N as <-. cbn [firstn qsum]. replace (r + (d + q0))%Qc with (r + d)%Qc by ring. destruct C as [->|C]; [|exact C]. exfalso. now apply (Qclt_not_eq _ _ W).
          + cbn [nth_error] in N. specialize (K5 j w' ltac:(lia) N W). change (firstn (S (S j)) (d :: ws)) with (d :: firstn (S j) ws). cbn [qsum].
            now replace (r + (d + qsum (firstn (S j) ws)))%Qc with (r + d + qsum (firstn (S j) ws))%Qc by ring. }
      destruct (qlt q0 d) eqn:DP.
      + assert (NP : existsb (Nat.eqb i) picked = false).
        { destruct (existsb (Nat.eqb i) picked) eqn:X; [|reflexivity]. apply existsb_exists in X as (a & A & E). apply Nat.eqb_eq in E. subst a. specialize (PI A). apply qlt_lt in DP. subst d. exfalso. now apply (Qclt_not_eq _ _ DP). }
        rewrite NP in *. cbn [negb] in *. rewrite !andb_true_r in *. destruct (qlt (r + d) t) eqn:RT; cbn [negb] in *.
        * apply qlt_lt in RT. apply GO; [now right|reflexivity].
        * clear GO NEXT. apply qlt_ge in RT. apply qlt_lt in DP. exists 0, d. rewrite Nat.add_0_r. split; [reflexivity|]. split; [reflexivity|]. split; [exact DP|]. split; [|intros; lia].
          cbn [firstn qsum]. now replace (r + (d + q0))%Qc with (r + d)%Qc by ring.
      + apply qlt_ge in DP. assert (d = q0) as DZ by now apply Qcle_antisym. apply GO; [now left|]. rewrite andb_false_r. reflexivity.
  Qed.

  Context (draw : nat -> ext -> ext) (Hs : samples draw).
  Notation prun := (prun ext_x ext_d v epts b draw).
  Lemma qsum_firstn picks k : k <= n -> qsum (firstn k (map (weight data picks) (seq 0 n))) = weights data picks k.
  Proof.
    intros K. unfold weights. rewrite firstn_map. do 2 f_equal. replace n with (k + (n - k)) by lia. rewrite seq_app, firstn_app, seq_length, Nat.sub_diag. cbn [firstn]. rewrite app_nil_r. apply firstn_all2. now rewrite seq_length.
  Qed.
  Lemma row_len j : j < n -> length (row data j) = m_cols data.
  Proof. intros J. now apply row_length. Qed.
  Lemma prun_exact k : forall picks, picks <> [] -> Forall (fun p => p < n) picks -> NoDup (map (row data) picks) -> sampled data draw picks ->
    let '(q, e) := prun k picks in
    exists more, q = picks ++ more /\ Forall (fun p => p < n) q /\ NoDup (map (row data) q) /\ sampled data draw q /\
    ((e = None /\ length more = k) \/ (e = Some InsufficientDiversity /\ length more < k /\ forall j, j < n -> In (row data j) (map (row data) q))).
  Proof.
    induction k as [|k IH]; intros picks N P ND SA; cbn [Proofs6.prun].
    - exists []. rewrite app_nil_r. split; [reflexivity|]. split; [assumption|]. split; [assumption|]. split; [assumption|]. left. now split.
    - pose proof (proj1 (Forall_forall _ _) P) as P'. cbn beta in P'. rewrite ptot_fin by assumption. unfold uniform_of. cbn [ext_d dfin dlt dzero e_finite e_less negb].
      destruct (qlt q0 (weights data picks n)) eqn:W; cbn [negb].
      + apply qlt_lt in W. destruct (Hs (length picks) _ W) as (t & DT & T0 & T1). rewrite DT. rewrite epts_len.
        rewrite (map_ext_in (keptd ext_x epts picks) (fun j => Fin (weight data picks j))) by (intros j J; apply in_seq in J; apply keptd_fin; [assumption|assumption|lia]).
        rewrite <- (map_map (weight data picks) Fin).
        destruct (winner_exact t (rev picks) (map (weight data picks) (seq 0 n)) 0 q0) as (i & w & W1 & W2 & W3 & W4 & W5).
        * intros a A. apply in_map_iff in A as (j & <- & _). apply weight_pos.
        * intros j w NJ I. assert (J : j < n) by (apply nth_error_lt' in NJ; now rewrite map_length, seq_length in NJ). rewrite nth_map_seq in NJ by exact J. injection NJ as <-. apply weight_picked. now apply in_rev.
        * exact T0.
        * now left.
        * replace (q0 + qsum (map (weight data picks) (seq 0 n)))%Qc with (weights data picks n) by (unfold weights; ring). exact T1.
        * rewrite W1. cbn [plus]. assert (I : i < n) by (apply nth_error_lt' in W2; now rewrite map_length, seq_length in W2). rewrite nth_map_seq in W2 by exact I. injection W2 as <-.
          rewrite qsum_firstn in W4 by lia. replace (q0 + weights data picks (S i))%Qc with (weights data picks (S i)) in W4 by ring.
          assert (FR : ~ In (row data i) (map (row data) picks)).
          { intros X. apply in_map_iff in X as (p & E & X). destruct (weight_spec picks i N) as [_ LE]. specialize (LE p X). rewrite E, dist2_self in LE. exact (Qclt_not_le _ _ W3 LE). }
          specialize (IH (picks ++ [i])). destruct (prun k (picks ++ [i])) as [q e].
          destruct IH as (more & -> & I2 & I3 & I4 & I5).
          -- now destruct picks.
          -- apply Forall_app. split; [assumption|]. constructor; [exact I|constructor].
          -- rewrite map_app. cbn [map]. apply NoDup_rev in ND. rewrite <- (rev_involutive (map (row data) picks ++ [row data i])). apply NoDup_rev. rewrite rev_unit. constructor; [|exact ND]. intros X. apply FR. now apply in_rev.
          -- intros c p C NC. cbv zeta. destruct (Nat.lt_trichotomy c (length picks)) as [L|[->|G]].
             ++ rewrite nth_error_app1 in NC by exact L. specialize (SA c p C NC). cbv zeta in SA. rewrite firstn_app. replace (c - length picks) with 0 by lia. cbn [firstn]. rewrite app_nil_r. exact SA.
             ++ rewrite nth_error_app2, Nat.sub_diag in NC by lia. injection NC as <-. rewrite firstn_app, Nat.sub_diag, firstn_all. cbn [firstn]. rewrite app_nil_r. exists t. split; [exact DT|]. split; [exact W3|]. split; [exact W4|].
                intros j J WJ. specialize (W5 j (weight data picks j) J). rewrite nth_map_seq in W5 by lia. specialize (W5 eq_refl WJ). rewrite qsum_firstn in W5 by lia. now replace (q0 + weights data picks (S j))%Qc with (weights data picks (S j)) in W5 by ring.
             ++ exfalso. apply nth_error_lt' in NC. rewrite app_length in NC. cbn [length] in NC. lia.
          -- exists (i :: more). rewrite <- app_assoc in *. cbn [app] in *. split; [reflexivity|]. split; [exact I2|]. split; [exact I3|]. split; [exact I4|]. cbn [length].
             destruct I5 as [[-> I5]|(-> & I5 & I6)]; [left; split; [reflexivity|lia]|right; split; [reflexivity|]; split; [lia|exact I6]].
      + apply qlt_ge in W. exists []. rewrite app_nil_r. split; [reflexivity|]. split; [assumption|]. split; [assumption|]. split; [assumption|]. right. split; [reflexivity|]. split; [cbn; lia|].
        assert (WP : forall a, In a (map (weight data picks) (seq 0 n)) -> (q0 <= a)%Qc) by (intros a A; apply in_map_iff in A as (j & <- & _); apply weight_pos).
        assert (Z0 : weights data picks n = q0) by (apply Qcle_antisym; [exact W|now apply qsum_pos]).
        intros j J. assert (WJ : weight data picks j = q0) by (apply (qsum_none _ WP Z0), in_map, in_seq; lia).
        destruct (weight_spec picks j N) as [(p & PI & E) _]. rewrite WJ in E. symmetry in E. apply dist2_zero in E; [|rewrite !row_len by auto; reflexivity]. rewrite <- E. now apply in_map.
  Qed.
End Exact.
