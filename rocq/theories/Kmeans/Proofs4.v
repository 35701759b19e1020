(** The residual is the cost, and it never grows. *)
From Coq Require Import List PeanoNat Bool Lia Arith QArith Qcanon Field.
From Verif.Lib Require Import Lists.
From Verif.Simd Require Import Model Spec Proofs2.
From Verif.Pq Require Import Model Spec Proofs Proofs2 Proofs3 Proofs4 Proofs6.
From Verif.Kmeans Require Import Model Spec Proofs Proofs2 Proofs3.
Import ListNotations.
Local Open Scope nat_scope.

(** ** The steps from outside *)

Lemma lloyds_steps {F D} (x : xops F) (dd : dops F D) (data centers : matrix F) : ordered x -> shaped data -> shaped centers -> m_cols data = m_cols centers ->
  exists b, b_rows b = m_rows data /\ b_cols b = m_cols data /\ holds_t b (cell (zero (fo x)) (view_of data)) /\
  forall k, lloyds x dd data centers k = iter x dd (view_of data) (points data) b centers k.
Proof.
  intros ord HD HC E. pose proof (views_matrix data HD) as Hv. pose proof Hv as (V1 & V2 & V3).
  destruct (transpose_ok x (view_of data) V1) as (b & T & Hr & Hcc & Hb). exists b. split; [exact Hr|]. split; [exact Hcc|]. split; [exact Hb|]. intros k.
  unfold lloyds. rewrite (proj2 (Nat.eqb_eq (m_cols data) _) E). cbn [negb]. rewrite T. cbn [bind]. rewrite (row_norms_ok x _ b Hr Hcc _ _ Hv). cbn [bind].
  apply lloyds_iter; try assumption. symmetry. exact E.
Qed.
Lemma lloyds_next {F D} (x : xops F) (dd : dops F D) (data centers : matrix F) : ordered x -> shaped data -> shaped centers -> m_cols data = m_cols centers ->
  forall k a r prev, lloyds x dd data centers k = Some (a, r, prev) ->
  shaped prev /\ m_rows prev = m_rows centers /\ m_cols prev = m_cols centers /\
  ((exists p, In p (points data) /\ assigned x prev p None /\ lloyds x dd data centers (S k) = None) \/
   exists a' r' next, lloyds x dd data centers (S k) = Some (a', r', next) /\
     Forall2 (fun p c => assigned x prev p c /\ c <> None) (points data) a' /\
     shaped next /\ m_rows next = m_rows centers /\ m_cols next = m_cols centers /\
     forall c, c < m_rows centers -> row next c = centroid x dd (m_cols data) (members (points data) a' c)).
Proof.
  intros ord HD HC E k a r prev. pose proof (views_matrix data HD) as Hv.
  destruct (lloyds_steps x dd data centers ord HD HC E) as (b & B1 & B2 & _ & L). rewrite !L. intros I.
  assert (HCC : m_cols centers = s_cols (view_of data)) by (symmetry; exact E).
  destruct (iter_shape x dd ord _ _ Hv b B1 B2 centers k a r prev HC HCC I) as (I1 & I2 & I3 & I4).
  split; [exact I2|]. split; [exact I4|]. split; [now rewrite HCC|]. cbn [iter]. rewrite I. cbn [bind snd].
  destruct (update_centroids dd prev (view_of data) (assign x (points data) prev)) as [next|] eqn:U.
  - right. cbn [bind]. destruct (update_moved x dd ord _ _ Hv b B1 B2 prev next I2 I3 U) as [-> A]. do 3 eexists. split; [reflexivity|].
    split.
    { unfold assign. assert (Q : forall l, (forall p, In p l -> In p (points data)) -> Forall2 (fun p c => assigned x prev p c /\ c <> None) l (map (fun p => snd (cand_of x prev p)) l)).
      { induction l as [|p l IH]; intros H; cbn [map]; constructor.
        - destruct (cand_spec x ord prev p) as [A' _]. split; [exact A'|]. destruct (A p (H p (or_introl eq_refl))) as [c C].
          rewrite (assigned_fun x ord _ _ _ _ A' C). discriminate.
        - apply IH. intros q Q. apply H. now right. }
      apply Q. auto. }
    split; [apply moved_shaped|]. split; [exact I4|]. split; [cbn [moved m_cols]; now rewrite I3, HCC|]. intros c C.
    rewrite moved_row by (now rewrite I4). rewrite I3. reflexivity.
  - left. cbn [bind]. clear L I.
    assert (Q : exists p, In p (points data) /\ assigned x prev p None).
    { assert (DEC : forall l, (exists p, In p l /\ assigned x prev p None) \/ forall p, In p l -> exists c, assigned x prev p (Some c)).
      { induction l as [|p l [(q & Q1 & Q2)|IH]]; [right; intros ? []|left; exists q; split; [now right|assumption]|].
        destruct (cand_spec x ord prev p) as [A' _]. destruct (snd (cand_of x prev p)) as [c|].
        - right. intros q [<-|Q]; eauto.
        - left. exists p. split; [now left|assumption]. }
      destruct (DEC (points data)) as [Q|Q]; [exact Q|]. exfalso. rewrite (update_step x dd ord _ _ Hv b B1 B2 prev I2 I3 Q) in U. discriminate. }
    destruct Q as (p & P1 & P2). exists p. now repeat split.
Qed.

(** ** The sum over the lanes *)

Fixpoint rq (g : nat -> Qc) (l i : nat) : Qc :=
  match i with 0 => q0 | S i => (rq g l i + g (16 * i + l)%nat + g (16 * i + 8 + l)%nat)%Qc end.
Definition rend (g : nat -> Qc) (full rest l : nat) : Qc :=
  let r := rq g l full in
  let r := if l <? Nat.min rest 8 then (r + g (16 * full + l)%nat)%Qc else r in
  if l <? rest - Nat.min rest 8 then (r + g (16 * full + 8 + l)%nat)%Qc else r.
Lemma sum8 g full rest : rest < 16 -> qsum (map (rend g full rest) (seq 0 8)) = qsum (map g (seq 0 (16 * full + rest))).
Proof.
  intros H. assert (E : qsum (map (fun l => rq g l full) (seq 0 8)) = qsum (map g (seq 0 (16 * full)))).
  { induction full as [|i IH]; [reflexivity|]. replace (16 * S i) with (16 * i + 16) by lia. rewrite seq_app, map_app, qsum_app, <- IH.
    remember (16 * i) as q. cbn [seq map qsum rq plus]. rewrite <- Heqq. rewrite <- !Nat.add_assoc. cbn [Nat.add].
    replace (S q) with (q + 1) by lia. replace (S (q + 1)) with (q + 2) by lia.
    repeat match goal with |- context [S (q + ?n)] => let m := eval cbv in (S n) in replace (S (q + n)) with (q + m) by lia end.
    rewrite ?Nat.add_0_r. ring. }
  rewrite seq_app, map_app, qsum_app, <- E. unfold rend. cbn [Nat.add]. remember (16 * full) as q.
  do 16 (destruct rest as [|rest]; [cbn [seq map qsum Nat.min Nat.sub Nat.ltb Nat.leb]; rewrite <- ?Nat.add_assoc; cbn [Nat.add];
    replace (S q) with (q + 1) by lia;
    repeat match goal with |- context [S (q + ?n)] => let m := eval cbv in (S n) in replace (S (q + n)) with (q + m) by lia end;
    rewrite ?Nat.add_0_r; ring|]). lia.
Qed.
Lemma tree_fin f : sum_tree e_plus (Fin q0) (lanes (fun l => Fin (f l))) = Fin (qsum (map f (seq 0 8))).
Proof. cbv [sum_tree lanes]. cbn. f_equal. ring. Qed.

(** ** One step in exact arithmetic *)

Section Exact.
  Context (data : matrix Qc) (Hd : shaped data).
  Notation pts := (points data).
  Notation v := (view_of (fin data)).
  Notation epts := (map (map Fin) pts).
  Definition na (centers : matrix Qc) (p : list Qc) : nat := match snd (cand_of ext_x (fin centers) (map Fin p)) with Some c => c | None => 0 end.
  Lemma na_ok centers p : shaped centers -> 0 < m_rows centers -> length p = m_cols centers ->
    cand_of ext_x (fin centers) (map Fin p) = (Fin (dist2 (row centers (na centers p)) p), Some (na centers p)) /\ nearest centers p (na centers p).
  Proof.
    intros HS HK HP. destruct (cand_spec ext_x ext_ordered (fin centers) (map Fin p)) as (A & _ & B).
    destruct (assigned_fin centers p _ HS HP HK A) as (c & E & N). specialize (B c E). unfold na. destruct (cand_of _ _ _) as [d r]. cbn [fst snd] in *. subst r.
    split; [|exact N]. rewrite B, row_fin, cdist_fin; [reflexivity|]. rewrite row_length; [congruence|exact HS|apply N].
  Qed.
  Lemma len_pts p : In p pts -> length p = m_cols data.
  Proof. unfold points. rewrite in_map_iff. intros (r & <- & I). apply in_seq in I. apply row_length; [exact Hd|lia]. Qed.
  Definition qa (centers : matrix Qc) : list nat := map (na centers) pts.
  Definition qmoved (centers : matrix Qc) : matrix Qc :=
    mkM (concat (map (fun r => mean (m_cols centers) (group pts (qa centers) r)) (seq 0 (m_rows centers)))) (m_rows centers) (m_cols centers).
  Context (centers : matrix Qc) (Hc : shaped centers) (Hk : 0 < m_rows centers) (Hcc : m_cols centers = m_cols data).
  Lemma assign_fin : assign ext_x epts (fin centers) = map Some (qa centers).
  Proof.
    unfold assign, qa. rewrite !map_map. apply map_ext_in. intros p P. destruct (na_ok centers p Hc Hk) as [-> _]; [|reflexivity]. rewrite Hcc. now apply len_pts.
  Qed.
  Lemma cost_fin (c : matrix Qc) f : cost c pts (map f pts) = qsum (map (fun p => dist2 (row c (f p)) p) pts).
  Proof.
    unfold cost. f_equal. generalize pts. induction l as [|p l IH]; cbn [map List.combine fst snd]; [reflexivity|]. now rewrite IH.
  Qed.
  Lemma moved_fin : moved ext_x ext_d epts (fin centers) = fin (qmoved centers).
  Proof.
    unfold moved, qmoved. rewrite assign_fin. change (m_rows (fin centers)) with (m_rows centers). change (m_cols (fin centers)) with (m_cols centers).
    match goal with |- _ = fin (mkM ?d ?r ?c) => change (fin (mkM d r c)) with (mkM (map Fin d) r c) end. f_equal. rewrite concat_map, map_map. f_equal. apply map_ext. intros r.
    rewrite members_fin. apply centroid_fin.
  Qed.
  Lemma qmoved_shaped : shaped (qmoved centers).
  Proof. unfold shaped, qmoved. cbn [m_data m_rows m_cols]. apply concat_length. intros. unfold mean. now rewrite map_length, seq_length. Qed.
  Lemma qmoved_row r : r < m_rows centers -> row (qmoved centers) r = mean (m_cols centers) (group pts (qa centers) r).
  Proof.
    intros R'. assert (INJ : forall l l', map Fin l = map Fin l' -> l = l') by (induction l as [|u l IH]; intros [|w l'] E; try discriminate; [reflexivity|]; injection E as <- E; f_equal; now apply IH).
    apply INJ. rewrite <- row_fin, <- moved_fin, moved_row by exact R'. rewrite assign_fin, members_fin. apply centroid_fin.
  Qed.
  Context (b : btref (F := ext)) (Hbr : b_rows b = m_rows data) (Hbc : b_cols b = m_cols data).
  Context (Hb : holds_t b (cell (Fin q0) v)).

  Lemma residual_fin : residual_of ext_x v epts b (fin centers) = Fin (cost centers pts (qa centers)).
  Proof.
    unfold residual_of. set (g := fun j => dist2 (row centers (na centers (nth j pts []))) (nth j pts [])).
    destruct (bt_eq b) as (EB & BR & _).
    assert (G : forall j, j < m_rows data -> fst (best_of ext_x b (cell (zero (fo ext_x)) v) (fin centers) (fun r => nrm ext_x (row (fin centers) r)) (fun j => nrm ext_x (pt epts j)) j) = Fin (g j)).
    { intros j J. assert (LJ : j < length pts) by (unfold points; now rewrite map_length, seq_length).
      assert (P : pt epts j = map Fin (nth j pts [])).
      { unfold pt. change (@nil ext) with (map Fin []). apply map_nth. }
      rewrite (best_cand ext_x v epts).
      - rewrite P. destruct (na_ok centers (nth j pts []) Hc Hk) as [-> _]; [|reflexivity]. rewrite Hcc. apply len_pts. now apply nth_In.
      - rewrite <- points_fin. apply views_matrix. now apply shaped_fin.
      - exact Hbr.
      - exact Hbc.
      - now rewrite map_length. }
    assert (RS : forall l i, l < 8 -> 16 * i <= m_rows data -> resid ext_x b (cell (zero (fo ext_x)) v) (fin centers) (fun r => nrm ext_x (row (fin centers) r)) (fun j => nrm ext_x (pt epts j)) l i = Fin (rq g l i)).
    { intros l i L. induction i as [|i IH]; intros I; [reflexivity|]. cbn [resid rq]. rewrite IH, !G by lia. reflexivity. }
    assert (RE : forall l, l < 8 -> resid_end ext_x b (cell (zero (fo ext_x)) v) (fin centers) (fun r => nrm ext_x (row (fin centers) r)) (fun j => nrm ext_x (pt epts j)) l = Fin (rend g (bt_full b) (bt_rest b) l)).
    { intros l L. unfold resid_end, rend, lo_rest. cbv zeta. rewrite RS by lia.
      destruct (Nat.ltb_spec l (Nat.min (bt_rest b) 8)), (Nat.ltb_spec l (bt_rest b - Nat.min (bt_rest b) 8)); rewrite ?G by lia; reflexivity. }
    change (add (fo ext_x)) with e_plus. change (zero (fo ext_x)) with (Fin q0) at 1.
    rewrite (lanes_ext _ (fun l => Fin (rend g (bt_full b) (bt_rest b) l)) RE), tree_fin. f_equal. rewrite sum8 by assumption.
    rewrite <- EB, Hbr. unfold qa. rewrite cost_fin. unfold g. rewrite <- (map_map (fun j => nth j pts []) (fun p => dist2 (row centers (na centers p)) p)).
    f_equal. f_equal. unfold points at 2. symmetry. unfold points. apply map_ext_in. intros j J. apply in_seq in J. symmetry.
    apply nth_error_nth. now apply nth_map_seq.
  Qed.
End Exact.

Lemma group_members (pts : list (list Qc)) : forall a r, group pts a r = members pts (map Some a) r.
Proof.
  unfold group, members. induction pts as [|p pts IH]; intros [|c a] r; cbn [map List.combine filter snd]; try reflexivity.
  destruct (c =? r); cbn [map fst]; now rewrite IH.
Qed.

(** ** All steps in exact arithmetic *)

Section Descent.
  Context (data : matrix Qc) (Hd : shaped data) (centers : matrix Qc) (Hc : shaped centers) (Hk : 0 < m_rows centers) (Hcc : m_cols centers = m_cols data).
  Notation pts := (points data).
  Fixpoint qiter (k : nat) : matrix Qc := match k with 0 => centers | S k => qmoved data (qiter k) end.
  Lemma qiter_ok k : shaped (qiter k) /\ m_rows (qiter k) = m_rows centers /\ m_cols (qiter k) = m_cols data.
  Proof. induction k as [|k (I1 & I2 & I3)]; [now repeat split|]. cbn [qiter]. split; [apply qmoved_shaped|]. now split. Qed.
  Definition qres (k : nat) : Qc := cost (qiter k) pts (qa data (qiter k)).
  Lemma exact_steps k : lloyds ext_x ext_d (fin data) (fin centers) k =
    Some (match k with 0 => repeat (Some 0) (m_rows data) | S k => map Some (qa data (qiter k)) end, match k with 0 => Fin q0 | S k => Fin (qres k) end, fin (qiter k)).
  Proof.
    destruct (lloyds_steps ext_x ext_d (fin data) (fin centers) ext_ordered (shaped_fin _ Hd) (shaped_fin _ Hc) (eq_sym Hcc)) as (b & B1 & B2 & B3 & L).
    rewrite L. pose proof (views_matrix _ (shaped_fin data Hd)) as Hv. rewrite points_fin in *.
    induction k as [|k IH]; cbn [iter].
    - rewrite map_length. unfold points. rewrite map_length, seq_length. reflexivity.
    - rewrite IH. cbn [bind snd]. destruct (qiter_ok k) as (I1 & I2 & I3).
      rewrite (update_step ext_x ext_d ext_ordered _ _ Hv b B1 B2 (fin (qiter k)) (shaped_fin _ I1) I3).
      + cbn [bind]. rewrite moved_fin by (try assumption; lia). rewrite assign_fin by (try assumption; lia). rewrite residual_fin by (try assumption; lia). reflexivity.
      + intros p P. apply in_map_iff in P as (q & <- & Q). destruct (na_ok (qiter k) q I1 ltac:(lia)) as [E _]; [rewrite I3; now apply len_pts|].
        destruct (cand_spec ext_x ext_ordered (fin (qiter k)) (map Fin q)) as [A _]. rewrite E in A. cbn [snd] in A. eauto.
  Qed.
  Lemma qa_nearest k : Forall2 (nearest (qiter k)) pts (qa data (qiter k)).
  Proof.
    destruct (qiter_ok k) as (I1 & I2 & I3). unfold qa.
    assert (Q : forall l, (forall p, In p l -> In p pts) -> Forall2 (nearest (qiter k)) l (map (na (qiter k)) l)).
    { induction l as [|p l IH]; intros H; cbn [map]; constructor; [|apply IH; intros; apply H; now right].
      apply na_ok; [assumption|lia|]. rewrite I3. apply len_pts; [assumption|apply H; now left]. }
    now apply Q.
  Qed.
  (** The points by center. *)
  Lemma by_center (d : nat -> list Qc -> Qc) f k l : (forall p, In p l -> f p < k) ->
    qsum (map (fun p => d (f p) p) l) = qsum (map (fun r => qsum (map (d r) (group l (map f l) r))) (seq 0 k)).
  Proof.
    induction l as [|p l IH]; intros H; [cbn; now rewrite qsum_zero|]. cbn [map qsum]. rewrite IH by (intros; apply H; now right).
    specialize (H p (or_introl eq_refl)).
    assert (E : forall r, qsum (map (d r) (group (p :: l) (f p :: map f l) r)) = ((if f p =? r then d r p else q0) + qsum (map (d r) (group l (map f l) r)))%Qc).
    { intros r. unfold group. cbn [List.combine filter snd]. destruct (f p =? r); cbn [map fst qsum]; [reflexivity|ring]. }
    rewrite (qsum_ext _ _ (seq 0 k) (fun r _ => E r)), qsum_plus. f_equal.
    clear - H. remember (f p) as c. clear Heqc. replace k with (c + S (k - S c)) by lia. rewrite seq_app, map_app, qsum_app. cbn [seq map qsum plus].
    rewrite Nat.eqb_refl. rewrite (qsum_ext _ (fun _ => q0) (seq 0 c)) by (intros a A; apply in_seq in A; destruct (Nat.eqb_spec c a); [lia|reflexivity]).
    rewrite (qsum_ext _ (fun _ => q0) (seq (S c) _)) by (intros a A; apply in_seq in A; destruct (Nat.eqb_spec c a); [lia|reflexivity]).
    rewrite !qsum_zero. ring.
  Qed.
  Lemma group_In pts' a r p : In p (group pts' a r) -> In p pts'.
  Proof. unfold group. rewrite in_map_iff. intros ([q c] & <- & H). apply filter_In in H as [H _]. now apply in_combine_l in H. Qed.
  Lemma descend k : (cost (qiter (S k)) pts (qa data (qiter k)) <= qres k)%Qc.
  Proof.
    destruct (qiter_ok k) as (I1 & I2 & I3). unfold qres, qa. rewrite !cost_fin.
    assert (LK : forall p, In p pts -> na (qiter k) p < m_rows (qiter k)).
    { intros p P. apply na_ok; [assumption|lia|rewrite I3; now apply len_pts]. }
    rewrite (by_center (fun r p => dist2 (row (qiter (S k)) r) p) (na (qiter k)) (m_rows (qiter k)) pts LK).
    rewrite (by_center (fun r p => dist2 (row (qiter k) r) p) (na (qiter k)) (m_rows (qiter k)) pts LK).
    apply qsum_le. intros r R'. apply in_seq in R'. cbn [qiter]. rewrite qmoved_row by (try assumption; lia). apply centroid_best.
    - apply row_length; [assumption|lia].
    - apply Forall_forall. intros p P. rewrite I3. apply len_pts; [assumption|]. now apply group_In in P.
  Qed.
  Lemma nearest_cost (c : matrix Qc) l : forall a b, Forall2 (nearest c) l a -> length b = length l -> Forall (fun r => r < m_rows c) b -> (cost c l a <= cost c l b)%Qc.
  Proof.
    unfold cost. induction l as [|p l IH]; intros a b' N LB FB; inversion N as [|? r ? a' N1 N2]; subst; [apply Qcle_refl|].
    destruct b' as [|s b']; [discriminate|]. cbn [List.combine map qsum fst snd]. inversion FB as [|? ? F1 F2]; subst.
    apply Qcplus_le_compat; [apply N1; assumption|apply IH; [assumption|now injection LB|assumption]].
  Qed.
  Lemma after k a : Forall2 (nearest (qiter (S k))) pts a -> (cost (qiter (S k)) pts a <= qres k)%Qc.
  Proof.
    intros N. eapply Qcle_trans; [|apply descend]. apply nearest_cost; [assumption|unfold qa; apply map_length|].
    destruct (qiter_ok k) as (I1 & I2 & I3). destruct (qiter_ok (S k)) as (_ & I2' & _). unfold qa. apply Forall_map, Forall_forall. intros p P. rewrite I2', <- I2.
    apply na_ok; [assumption|lia|rewrite I3; now apply len_pts].
  Qed.
  Lemma qres_S k : (qres (S k) <= qres k)%Qc.
  Proof. apply after, qa_nearest. Qed.
  Lemma qres_le i j : i <= j -> (qres j <= qres i)%Qc.
  Proof. induction 1; [apply Qcle_refl|]. eapply Qcle_trans; [apply qres_S|assumption]. Qed.
End Descent.
Lemma fin_inj a b : fin a = fin b -> a = b.
Proof.
  destruct a as [d1 r1 c1], b as [d2 r2 c2]. unfold fin. cbn [m_data m_rows m_cols]. intros [= E -> ->]. f_equal.
  revert d2 E. induction d1 as [|u l IH]; destruct d2 as [|w l']; intros E; try discriminate; [reflexivity|]. cbn [map] in E. injection E as <- E. f_equal. now apply IH.
Qed.
