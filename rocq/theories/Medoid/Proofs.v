(** The scan finds the first of the nearest rows; nearest to the mean is least in total. *)
From Coq Require Import List PeanoNat Bool Lia QArith Qcanon.
From Verif.Lib Require Import Base Lists.
From Verif.Medoid Require Import Model Spec.
Import ListNotations.
Local Open Scope nat_scope.

Section Scan.
  Context {T D F : Type} (o : ops T D F) (c : list F).
  Context (trans : forall a b d, flt o a b = true -> flt o b d = true -> flt o a d = true).
  Definition step (st : F * option (nat * list T)) (p : nat * list T) := let d := dist o c (snd p) in if flt o d (fst st) then (d, Some p) else st.
  Definition good (st : F * option (nat * list T)) (rows : list (list T)) : Prop :=
    (forall j r, nth_error rows j = Some r -> flt o (dist o c r) (fst st) = true -> False) /\
    (snd st = None -> fst st = fmax o) /\
    forall i r, snd st = Some (i, r) -> nth_error rows i = Some r /\ fst st = dist o c r /\ flt o (dist o c r) (fmax o) = true.
  Context (irrefl : forall a, flt o a a = false).
  Lemma scan_snoc rows r : scan o c (rows ++ [r]) = step (scan o c rows) (length rows, r).
  Proof.
    unfold scan. rewrite app_length. cbn [length]. rewrite Nat.add_1_r, seq_S.
    assert (E : forall s, combine (seq s (length rows) ++ [s + length rows]) (rows ++ [r]) = combine (seq s (length rows)) rows ++ [(s + length rows, r)]).
    { clear. induction rows as [|x rows IH]; intros s; cbn [length seq app combine]; [reflexivity|]. f_equal. rewrite <- Nat.add_succ_comm. apply IH. }
    rewrite E. cbn [Nat.add].
    rewrite fold_left_app. reflexivity.
  Qed.
  Lemma scan_good rows : good (scan o c rows) rows.
  Proof.
    induction rows as [|r rows (H1 & H2 & H3)] using rev_ind.
    - split; [intros [|j]; discriminate|]. split; [reflexivity|discriminate].
    - rewrite scan_snoc. unfold step. cbn [snd]. destruct (flt o (dist o c r) (fst (scan o c rows))) eqn:E.
      + split; [|split; [discriminate|]].
        * intros j q N L. cbn [fst] in L. destruct (Nat.lt_ge_cases j (length rows)) as [J|J].
          -- rewrite nth_error_app1 in N by exact J. apply (H1 j q N). eapply trans; eassumption.
          -- rewrite nth_error_app2 in N by exact J. destruct (j - length rows) as [|k]; [|destruct k; discriminate]. injection N as <-. rewrite irrefl in L. discriminate.
        * intros i q X. cbn [snd] in X. injection X as <- <-. cbn [fst]. split; [rewrite nth_error_app2, Nat.sub_diag by lia; reflexivity|]. split; [reflexivity|].
          destruct (scan o c rows) as [m [(i & q)|]]; cbn [fst snd] in *; [destruct (H3 i q eq_refl) as (_ & -> & X); eapply trans; eassumption|rewrite (H2 eq_refl) in E; exact E].
      + split; [|split; [exact H2|]].
        * intros j q N L. destruct (Nat.lt_ge_cases j (length rows)) as [J|J].
          -- rewrite nth_error_app1 in N by exact J. exact (H1 j q N L).
          -- rewrite nth_error_app2 in N by exact J. destruct (j - length rows) as [|k]; [|destruct k; discriminate]. injection N as <-. congruence.
        * intros i q X. destruct (H3 i q X) as (N & A & B). split; [|auto]. rewrite nth_error_app1; [exact N|]. apply nth_error_Some. congruence.
  Qed.
  (** Rows before the one that was found are farther, unless they cannot be compared. *)
  Context (ok : F -> Prop) (cotrans : forall a b d, ok d -> flt o a b = true -> flt o a d = true \/ flt o d b = true).
  Lemma scan_first rows i r : snd (scan o c rows) = Some (i, r) -> forall j q, j < i -> nth_error rows j = Some q -> ok (dist o c q) -> flt o (dist o c r) (dist o c q) = true.
  Proof.
    revert i r. induction rows as [|r' rows IH] using rev_ind; [discriminate|]. intros i r. rewrite scan_snoc. unfold step. cbn [snd]. destruct (scan_good rows) as (H1 & _ & H3).
    destruct (flt o (dist o c r') (fst (scan o c rows))) eqn:E.
    - cbn [snd]. intros X j q J N K. injection X as <- <-. rewrite nth_error_app1 in N by exact J. destruct (cotrans _ _ (dist o c q) K E) as [A|A]; [exact A|]. exfalso. exact (H1 j q N A).
    - intros X j q J N K. destruct (H3 i r X) as (N' & _ & _). assert (i < length rows) by (apply nth_error_Some; congruence). rewrite nth_error_app1 in N by lia. exact (IH i r X j q J N K).
  Qed.
End Scan.

(** ** Exact numbers *)
Local Open Scope Qc_scope.
Fixpoint dot (x y : list Qc) : Qc := match x, y with a :: x, b :: y => a * b + dot x y | _, _ => 0 end.
Fixpoint sub (x y : list Qc) : list Qc := match x, y with a :: x, b :: y => (a - b) :: sub x y | _, _ => [] end.
Lemma qdist_split : forall x c y, length x = length c -> length y = length c -> qdist x y = qdist c x + (1 + 1) * dot (sub x c) (sub c y) + qdist c y.
Proof. induction x as [|a x IH]; intros [|b c] [|d y] H G; try discriminate; cbn; [ring|]. rewrite (IH c y) by (cbn in H, G; lia). ring. Qed.
Lemma total_split rows x c : length x = length c -> Forall (fun y => length y = length c) rows ->
  total rows x = qn (length rows) * qdist c x + (1 + 1) * fold_right (fun y s => dot (sub x c) (sub c y) + s) 0 rows + total rows c.
Proof.
  intros H. induction 1 as [|y rows L _ IH]; cbn [total fold_right length]; [unfold qn; change (Q2Qc (inject_Z (Z.of_nat 0))) with 0; ring|].
  unfold total in IH. rewrite IH, (qdist_split x c y H L).
  assert (E : qn (S (length rows)) = 1 + qn (length rows)).
  { unfold qn. apply Qc_is_canon. cbn [this Q2Qc Qcplus]. rewrite !Qred_correct. rewrite Nat2Z.inj_succ, <- Z.add_1_l. rewrite inject_Z_plus. reflexivity. }
  rewrite E. ring.
Qed.
Lemma add_row_len bound s r : length (add_row (exact bound) s r) = length s.
Proof. revert r. induction s as [|x s IH]; intros [|y r]; cbn; congruence. Qed.
Lemma dot_add bound u : forall s r, length u = length s -> length r = length s -> dot u (add_row (exact bound) s r) = dot u s + dot u r.
Proof. induction u as [|a u IH]; intros [|b s] [|d r] H G; try discriminate; cbn; [ring|]. rewrite IH by (cbn in H, G; lia). ring. Qed.
Lemma dot_sum bound u : forall rows s, length u = length s -> Forall (fun y => length y = length s) rows ->
  dot u (fold_left (add_row (exact bound)) rows s) = dot u s + fold_right (fun y t => dot u y + t) 0 rows.
Proof.
  induction rows as [|y rows IH]; intros s H G; cbn [fold_left fold_right]; [ring|]. inversion G as [|? ? G1 G2]; subst. rewrite IH, dot_add by (rewrite ?add_row_len; assumption). ring.
Qed.
Lemma sums_len bound dim rows : length (sums (exact bound) dim rows) = dim.
Proof.
  unfold sums. rewrite <- (repeat_length 0 dim) at 2. change (d0 (exact bound)) with (Q2Qc 0). generalize (repeat (Q2Qc 0) dim) as s. induction rows as [|r rows IH]; intros s; cbn [fold_left]; [reflexivity|]. rewrite IH. apply add_row_len.
Qed.
Lemma dot_repeat u : forall n, dot u (repeat 0 n) = 0.
Proof. induction u as [|a u IH]; intros [|n]; cbn; try reflexivity. rewrite IH. ring. Qed.
Lemma dot_scale u q : forall s, dot u (map (fun v => v * q) s) = dot u s * q.
Proof. induction u as [|a u IH]; intros [|b s]; cbn; try ring. rewrite IH. ring. Qed.
Lemma dot_sub u : forall c y, length u = length c -> length y = length c -> dot u (sub c y) = dot u c - dot u y.
Proof. induction u as [|a u IH]; intros [|b c] [|d y] H G; try discriminate; cbn; [ring|]. rewrite IH by (cbn in H, G; lia). ring. Qed.
Lemma sub_len : forall x c, length x = length c -> length (sub x c) = length c.
Proof. induction x as [|a x IH]; intros [|b c] H; try discriminate; cbn; [reflexivity|]. rewrite IH by (cbn in H; lia). reflexivity. Qed.
Lemma qn_pos n : (0 < n)%nat -> 0 < qn n.
Proof. intros H. unfold qn, Qclt. cbn [this Q2Qc]. rewrite !Qred_correct. unfold Qlt, inject_Z. cbn [Qnum Qden]. lia. Qed.
Lemma balance_sum u c rows : length u = length c -> Forall (fun y => length y = length c) rows ->
  fold_right (fun y t => dot u (sub c y) + t) 0 rows = qn (length rows) * dot u c - fold_right (fun y t => dot u y + t) 0 rows.
Proof.
  intros HU. induction 1 as [|y rows L _ IH]; cbn [fold_right length]; [unfold qn; change (Q2Qc (inject_Z (Z.of_nat 0))) with 0; ring|]. rewrite IH, dot_sub by congruence.
  assert (E : qn (S (length rows)) = 1 + qn (length rows)).
  { unfold qn. apply Qc_is_canon. cbn [this Q2Qc Qcplus]. rewrite !Qred_correct. rewrite Nat2Z.inj_succ, <- Z.add_1_l. rewrite inject_Z_plus. reflexivity. }
  rewrite E. ring.
Qed.
(** The mixed terms vanish at the mean. *)
Lemma mean_balance bound dim rows u : length u = dim -> Forall (fun y => length y = dim) rows -> rows <> [] ->
  fold_right (fun y t => dot u (sub (mean (exact bound) dim rows (length rows)) y) + t) 0 rows = 0.
Proof.
  intros HU HR NE. set (n := length rows). set (c := mean (exact bound) dim rows n). assert (LC : length c = dim) by (unfold c, mean; rewrite map_length; apply sums_len).
  assert (P : 0 < qn n) by (apply qn_pos; unfold n; destruct rows; [congruence|cbn; lia]). assert (NZ : qn n <> 0) by (intros E; rewrite E in P; exact (Qclt_not_eq _ _ P eq_refl)).
  assert (S1 : fold_right (fun y t => dot u (sub c y) + t) 0 rows = qn n * dot u c - fold_right (fun y t => dot u y + t) 0 rows).
  { apply balance_sum; [congruence|]. rewrite LC. exact HR. }
  rewrite S1. assert (S2 : dot u c = dot u (sums (exact bound) dim rows) * / qn n).
  { unfold c, mean. rewrite <- dot_scale. reflexivity. }
  assert (S3 : dot u (sums (exact bound) dim rows) = fold_right (fun y t => dot u y + t) 0 rows).
  { unfold sums. rewrite dot_sum; [|rewrite repeat_length; exact HU|rewrite repeat_length; exact HR]. change (d0 (exact bound)) with (Q2Qc 0). change (Q2Qc 0) with 0. rewrite dot_repeat. ring. }
  rewrite S2, S3. field. exact NZ.
Qed.
(** Nearer to the mean is less in total. *)
Lemma nearest_total bound dim rows x y : Forall (fun y => length y = dim) rows -> rows <> [] -> length x = dim -> length y = dim ->
  qdist (mean (exact bound) dim rows (length rows)) x <= qdist (mean (exact bound) dim rows (length rows)) y -> total rows x <= total rows y.
Proof.
  intros HR NE HX HY H. set (c := mean (exact bound) dim rows (length rows)) in *. assert (LC : length c = dim) by (unfold c, mean; rewrite map_length; apply sums_len).
  assert (HR' : Forall (fun y => length y = length c) rows) by (rewrite LC; exact HR).
  rewrite (total_split rows x c), (total_split rows y c) by (congruence || exact HR').
  assert (Bx : fold_right (fun z s => dot (sub x c) (sub c z) + s) 0 rows = 0) by (apply mean_balance; [rewrite sub_len; congruence|exact HR|exact NE]).
  assert (By : fold_right (fun z s => dot (sub y c) (sub c z) + s) 0 rows = 0) by (apply mean_balance; [rewrite sub_len; congruence|exact HR|exact NE]).
  rewrite Bx, By. apply Qcplus_le_compat; [|apply Qcle_refl]. apply Qcplus_le_compat; [|apply Qcle_refl]. rewrite !(Qcmult_comm (qn (length rows))).
  apply Qcmult_le_compat_r; [exact H|]. apply Qclt_le_weak, qn_pos. destruct rows; [congruence|cbn; lia].
Qed.
Lemma nearer_total bound dim rows x y : Forall (fun y => length y = dim) rows -> rows <> [] -> length x = dim -> length y = dim ->
  qdist (mean (exact bound) dim rows (length rows)) x < qdist (mean (exact bound) dim rows (length rows)) y -> total rows x < total rows y.
Proof.
  intros HR NE HX HY H. destruct (Qclt_le_dec (total rows x) (total rows y)) as [G|G]; [exact G|]. exfalso. set (c := mean (exact bound) dim rows (length rows)) in *. assert (LC : length c = dim) by (unfold c, mean; rewrite map_length; apply sums_len).
  assert (HR' : Forall (fun y => length y = length c) rows) by (rewrite LC; exact HR).
  rewrite (total_split rows x c), (total_split rows y c) in G by (congruence || exact HR').
  assert (Bx : fold_right (fun z s => dot (sub x c) (sub c z) + s) 0 rows = 0) by (apply mean_balance; [rewrite sub_len; congruence|exact HR|exact NE]).
  assert (By : fold_right (fun z s => dot (sub y c) (sub c z) + s) 0 rows = 0) by (apply mean_balance; [rewrite sub_len; congruence|exact HR|exact NE]).
  rewrite Bx, By in G. assert (P : 0 < qn (length rows)) by (apply qn_pos; destruct rows; [congruence|cbn; lia]).
  apply (Qcmult_lt_compat_r _ _ _ P) in H. apply (Qclt_not_le _ _ H). rewrite !(Qcmult_comm _ (qn (length rows))).
  apply (Qcplus_le_compat _ _ (- ((1 + 1) * 0 + total rows c)) (- ((1 + 1) * 0 + total rows c))) in G; [|apply Qcle_refl]. ring_simplify in G. ring_simplify. exact G.
Qed.
