(** Lloyd's algorithm in exact arithmetic. *)
From Coq Require Import List PeanoNat Bool Lia Arith QArith Qcanon Field.
From Verif.Lib Require Import Lists.
From Verif.Simd Require Import Model Spec Proofs2.
From Verif.Pq Require Import Model Spec Proofs Proofs2 Proofs3 Proofs4 Proofs6.
From Verif.Kmeans Require Import Model Spec Proofs Proofs2.
Import ListNotations.
Local Open Scope nat_scope.

(** ** The rational numbers *)

Notation q0 := (Q2Qc 0).
Lemma qlt_lt a b : qlt a b = true <-> (a < b)%Qc.
Proof. unfold qlt, Qclt, Qccompare. rewrite Qlt_alt. destruct (this a ?= this b)%Q; split; congruence. Qed.
Lemma qlt_ge a b : qlt a b = false <-> (b <= a)%Qc.
Proof.
  split; intros H.
  - destruct (Qclt_le_dec a b) as [L|G]; [|assumption]. apply qlt_lt in L. congruence.
  - destruct (qlt a b) eqn:E; [|reflexivity]. apply qlt_lt in E. exfalso. exact (Qclt_not_le _ _ E H).
Qed.
Lemma qsq_pos a : (q0 <= a * a)%Qc.
Proof.
  destruct (Qclt_le_dec a q0) as [L|G].
  - assert (P : (q0 <= - a)%Qc).
    { replace (- a)%Qc with (q0 - a)%Qc by ring. apply Qcle_minus_iff in L || idtac. apply Qclt_le_weak in L. apply (Qcplus_le_compat _ _ (- a) (- a) L) in L || idtac.
      pose proof (Qcplus_le_compat a q0 (- a) (- a) L (Qcle_refl _)) as L'. now replace (a + - a)%Qc with q0 in L' by ring. }
    replace (a * a)%Qc with ((- a) * (- a))%Qc by ring. replace q0 with (q0 * - a)%Qc by ring. now apply Qcmult_le_compat_r.
  - replace q0 with (q0 * a)%Qc by ring. now apply Qcmult_le_compat_r.
Qed.
Lemma qle_add a b : (q0 <= b)%Qc -> (a <= a + b)%Qc.
Proof. intros H. pose proof (Qcplus_le_compat a a q0 b (Qcle_refl _) H) as L. now replace (a + q0)%Qc with a in L by ring. Qed.
Lemma q_exact : exact q_ops.
Proof. split; [exact Qcrt|reflexivity..]. Qed.
Lemma qlt_shift a b c : qlt (c + a)%Qc (c + b)%Qc = qlt a b.
Proof.
  destruct (qlt a b) eqn:E.
  - apply qlt_lt in E. apply qlt_lt. destruct (Qclt_le_dec (c + a) (c + b)) as [L|G]; [assumption|]. exfalso. apply (Qclt_not_le _ _ E).
    pose proof (Qcplus_le_compat _ _ (- c) (- c) G (Qcle_refl _)) as L.
    replace (c + b + - c)%Qc with b in L by ring. now replace (c + a + - c)%Qc with a in L by ring.
  - apply qlt_ge in E. apply qlt_ge. apply Qcplus_le_compat; [apply Qcle_refl|assumption].
Qed.
Lemma ext_ordered : ordered ext_x.
Proof.
  split; cbn [fo ext_x ext_ops lt inf ninf zero add sub].
  - intros [v| | |]; cbn; try reflexivity. apply qlt_ge, Qcle_refl.
  - intros [u| | |] [v| | |] [w| | |]; cbn; try reflexivity; try discriminate. intros H1 H2. apply qlt_lt in H1, H2. apply qlt_lt. now apply Qclt_trans with v.
  - intros [u| | |] [v| | |] [w| | |] [z| | |]; cbn; intros H1 H2; try discriminate; try (now left); try (now right).
    all: apply qlt_lt in H2; destruct (qlt u v) eqn:E; [now left|right; apply qlt_ge in E; apply qlt_lt; now apply Qcle_lt_trans with u].
  - now intros [v| | |].
  - intros [u| | |] [v| | |]; cbn; congruence.
  - reflexivity.
Qed.
Lemma ext_embeds : embeds q_ops ext_x Fin.
Proof.
  split; try reflexivity.
  - apply q_exact.
  - intros a b c. apply qlt_shift.
  - intros [v| | |]; try reflexivity. cbn. f_equal. change (qnat 2) with (Q2Qc 2). replace (Q2Qc 2) with (Q2Qc 1 + Q2Qc 1)%Qc by (apply Qc_is_canon; reflexivity). ring.
Qed.
Lemma qnat_S n : qnat (S n) = (qnat n + Q2Qc 1)%Qc.
Proof.
  unfold qnat. apply Qc_is_canon. cbn [this Qcplus Q2Qc]. rewrite !Qred_correct. rewrite Nat2Z.inj_succ. unfold Z.succ. rewrite inject_Z_plus. reflexivity.
Qed.
Lemma qnat_pos n : (q0 <= qnat n)%Qc.
Proof. unfold qnat, Qcle. cbn [this Q2Qc]. rewrite !Qred_correct. unfold Qle. cbn. lia. Qed.
Lemma qnat_nz n : qnat (S n) <> q0.
Proof. unfold qnat. intros H. apply (f_equal this) in H. cbn [this Q2Qc] in H. assert (E : (inject_Z (Z.of_nat (S n)) == 0)%Q) by (rewrite <- (Qred_correct (inject_Z _)), H; apply Qred_correct). unfold Qeq in E. cbn in E. lia. Qed.

(** ** Sums *)

Lemma qsum_app a b : qsum (a ++ b) = (qsum a + qsum b)%Qc.
Proof. induction a as [|u a IH]; cbn [app qsum]; [ring|]. rewrite IH. ring. Qed.
Lemma qsum_le {A} (f g : A -> Qc) l : (forall a, In a l -> f a <= g a)%Qc -> (qsum (map f l) <= qsum (map g l))%Qc.
Proof.
  induction l as [|a l IH]; intros H; cbn [map qsum]; [apply Qcle_refl|]. apply Qcplus_le_compat; [apply H; now left|apply IH; intros; apply H; now right].
Qed.
Lemma qsum_ext {A} (f g : A -> Qc) l : (forall a, In a l -> f a = g a) -> qsum (map f l) = qsum (map g l).
Proof. intros H. f_equal. now apply map_ext_in. Qed.
Lemma qsum_plus {A} (f g : A -> Qc) l : qsum (map (fun a => f a + g a)%Qc l) = (qsum (map f l) + qsum (map g l))%Qc.
Proof. induction l as [|a l IH]; cbn [map qsum]; [ring|]. rewrite IH. ring. Qed.
Lemma qsum_zero {A} (l : list A) : qsum (map (fun _ => q0) l) = q0.
Proof. induction l as [|a l IH]; cbn [map qsum]; [reflexivity|]. rewrite IH. ring. Qed.
Lemma qsum_swap {A B} (f : A -> B -> Qc) la lb :
  qsum (map (fun a => qsum (map (f a) lb)) la) = qsum (map (fun b => qsum (map (fun a => f a b) la)) lb).
Proof.
  induction la as [|a la IH]; cbn [map qsum]; [now rewrite qsum_zero|]. rewrite IH, <- qsum_plus. apply qsum_ext. intros. reflexivity.
Qed.

(** ** Distances *)

Lemma dist2_l2 c : forall p, dist2 c p = true_l2 q_ops c p.
Proof. induction c as [|a c IH]; intros [|b p]; cbn [dist2]; try reflexivity. rewrite IH. reflexivity. Qed.
Lemma dist2_coord c : forall p cols, length c = cols -> length p = cols ->
  dist2 c p = qsum (map (fun i => let d := nth i c q0 - nth i p q0 in d * d)%Qc (seq 0 cols)).
Proof.
  induction c as [|a c IH]; intros [|b p] cols H1 H2; cbn [length] in *; subst cols; try discriminate; [reflexivity|].
  cbn [seq map qsum dist2 nth]. cbv zeta. rewrite (IH p (length c)) by (auto; now injection H2). rewrite <- seq_shift, map_map. reflexivity.
Qed.
Lemma dist2_pos c : forall p, (q0 <= dist2 c p)%Qc.
Proof.
  induction c as [|a c IH]; intros [|b p]; cbn [dist2]; try apply Qcle_refl. replace q0 with (q0 + q0)%Qc by ring.
  apply Qcplus_le_compat; [apply qsq_pos|apply IH].
Qed.
(** The mean of some numbers is the point with the least sum of squares. *)
Lemma squares c (xs : list Qc) : qsum (map (fun a => (c - a) * (c - a))%Qc xs) =
  (qnat (length xs) * (c * c) - (c + c) * qsum xs + qsum (map (fun a => a * a) xs))%Qc.
Proof.
  induction xs as [|a xs IH]; cbn [map qsum length]; [change (qnat 0) with q0; ring|]. rewrite IH, qnat_S. ring.
Qed.
Lemma mean_best c (xs : list Qc) : let m := (qsum xs / qnat (Nat.max (length xs) 1))%Qc in
  (qsum (map (fun a => (m - a) * (m - a))%Qc xs) <= qsum (map (fun a => (c - a) * (c - a))%Qc xs))%Qc.
Proof.
  cbv zeta. destruct xs as [|a xs]; [apply Qcle_refl|]. remember (a :: xs) as l. assert (LN : Nat.max (length l) 1 = S (length xs)) by (subst l; cbn [length]; lia).
  rewrite LN. assert (LL : length l = S (length xs)) by (subst l; reflexivity). clear Heql a LN.
  set (k := qnat (S (length xs))) in *. assert (K : k <> q0) by apply qnat_nz. set (t := qsum l).
  assert (E : qsum (map (fun a => (c - a) * (c - a))%Qc l) = (qsum (map (fun a => (t / k - a) * (t / k - a))%Qc l) + k * ((c - t / k) * (c - t / k)))%Qc).
  { rewrite !squares, LL. fold k t. field. exact K. }
  rewrite E. apply qle_add. replace q0 with (k * q0)%Qc by ring. rewrite (Qcmult_comm k q0), (Qcmult_comm k). apply Qcmult_le_compat_r; [apply qsq_pos|apply qnat_pos].
Qed.
Lemma centroid_best cols ps c : length c = cols -> Forall (fun p => length p = cols) ps ->
  (qsum (map (dist2 (mean cols ps)) ps) <= qsum (map (dist2 c) ps))%Qc.
Proof.
  intros HC HP. assert (E : forall u, length u = cols -> qsum (map (dist2 u) ps) =
    qsum (map (fun i => qsum (map (fun a => (nth i u q0 - a) * (nth i u q0 - a))%Qc (map (fun p => nth i p q0) ps))) (seq 0 cols))).
  { intros u HU. rewrite (qsum_ext (dist2 u) (fun p => qsum (map (fun i => (nth i u q0 - nth i p q0) * (nth i u q0 - nth i p q0))%Qc (seq 0 cols)))).
    - rewrite qsum_swap. apply qsum_ext. intros i _. now rewrite map_map.
    - intros p P. rewrite Forall_forall in HP. now apply dist2_coord; [|apply HP]. }
  rewrite E by (unfold mean; now rewrite map_length, seq_length). rewrite (E c HC). apply qsum_le. intros i I. apply in_seq in I.
  assert (N : nth i (mean cols ps) q0 = (qsum (map (fun p => nth i p q0) ps) / qnat (Nat.max (length (map (fun p => nth i p q0) ps)) 1))%Qc).
  { apply nth_error_nth. unfold mean. rewrite nth_map_seq by lia. now rewrite map_length. }
  rewrite N. apply mean_best.
Qed.

(** ** Embedded data *)

Lemma row_fin m r : row (fin m) r = map Fin (row m r).
Proof. unfold row. cbn [fin m_data m_cols]. now rewrite skipn_map', firstn_map. Qed.
Lemma points_fin m : points (fin m) = map (map Fin) (points m).
Proof. unfold points. cbn [fin m_rows]. rewrite map_map. apply map_ext. intros. apply row_fin. Qed.
Lemma shaped_fin m : shaped m -> shaped (fin m).
Proof. unfold shaped. cbn [fin m_data m_rows m_cols]. now rewrite map_length. Qed.
Lemma nrm_fin c : nrm ext_x (map Fin c) = Fin (sq q_ops c).
Proof. unfold nrm. now rewrite (norm_embedded q_ops ext_x Fin ext_embeds). Qed.
Lemma cdist_fin c p : length c = length p -> cdist ext_x (map Fin c) (map Fin p) = Fin (dist2 c p).
Proof.
  intros H. unfold cdist. cbv zeta. rewrite !nrm_fin. rewrite (along_h q_ops ext_x Fin ext_embeds), (along_exact q_ops q_exact). cbn. f_equal.
  rewrite dist2_l2, (expand q_ops q_exact) by assumption. cbn. unfold sq. cbn. ring.
Qed.
Lemma number_fin a : number ext_x (Fin a).
Proof. apply (number_h q_ops ext_x Fin ext_embeds ext_ordered). Qed.
Lemma assigned_fin centers p r : shaped centers -> length p = m_cols centers -> 0 < m_rows centers -> assigned ext_x (fin centers) (map Fin p) r ->
  exists c, r = Some c /\ nearest centers p c.
Proof.
  intros HS HP HK (d & HD & HR). cbn [fin m_rows] in *.
  assert (E : forall c, c < m_rows centers -> d c = Fin (dist2 (row centers c) p)).
  { intros c C. rewrite (computed_fun ext_x _ _ _ (HD c C)), row_fin. apply cdist_fin. rewrite row_length by assumption. congruence. }
  destruct r as [c|].
  - exists c. split; [reflexivity|]. destruct HR as (R1 & R2 & R3 & R4). split; [assumption|]. split.
    + intros r R'. specialize (R3 r R'). rewrite (E r R'), (E c R1) in R3. now apply qlt_ge.
    + intros r R'. specialize (R4 r R'). rewrite (E r ltac:(lia)), (E c R1) in R4. apply qlt_lt, R4, number_fin.
  - exfalso. specialize (HR 0 HK). rewrite E in HR by assumption. discriminate.
Qed.
Lemma sum_fin (f : list ext -> ext) (g : list Qc -> Qc) (ps : list (list Qc)) : (forall p, f (map Fin p) = Fin (g p)) -> forall s,
  fold_left (fun s p => e_plus s (f p)) (map (map Fin) ps) (Fin s) = Fin (s + qsum (map g ps)).
Proof.
  intros H. induction ps as [|p ps IH]; intros s; cbn [map fold_left qsum]; [f_equal; ring|]. rewrite H. cbn [e_plus]. rewrite IH. f_equal. ring.
Qed.
Lemma centroid_fin cols ps : centroid ext_x ext_d cols (map (map Fin) ps) = map Fin (mean cols ps).
Proof.
  unfold centroid, mean. rewrite map_map. apply map_ext. intros i. unfold coordinate. cbn [ext_d narrow dover widen dadd dzero ext_x fo ext_ops zero].
  rewrite (sum_fin (fun p => nth i p (Fin q0)) (fun p => nth i p q0)) by (intros; apply (map_nth Fin)). cbn [e_over]. f_equal. rewrite map_length. f_equal. ring.
Qed.
Definition group (pts : list (list Qc)) (a : list nat) (r : nat) : list (list Qc) :=
  map fst (filter (fun q => snd q =? r) (List.combine pts a)).
Lemma members_fin pts : forall a r, members (map (map Fin) pts) (map Some a) r = map (map Fin) (group pts a r).
Proof.
  unfold members, group. induction pts as [|p pts IH]; intros [|c a] r; cbn [map List.combine filter snd]; try reflexivity.
  destruct (c =? r); cbn [map fst]; now rewrite IH.
Qed.
