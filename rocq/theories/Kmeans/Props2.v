(** C108: k-means++. *)
From Coq Require Import List PeanoNat Bool Lia Arith QArith Qcanon.
From Flocq Require Import IEEE754.BinarySingleNaN.
From Verif.Lib Require Import Lists.
From Verif.Simd Require Import Model Spec Ieee.
From Verif.Pq Require Import Model Spec Proofs Ieee.
From Verif.Kmeans Require Import Model Spec Proofs Proofs2 Proofs3 Proofs4 Proofs5 Proofs6 Proofs7.
From Verif.Kmeans Require Props.
Import ListNotations.
Local Open Scope nat_scope.

(** ** C108: the picks, in any arithmetic *)
Lemma keptd_least {F} (x : xops F) pts picks j p : ordered x -> In p picks -> lt (fo x) (pdist x pts p j) (keptd x pts picks j) = false.
Proof.
  intros ord. unfold keptd. assert (Q : forall l c, let r := fold_left (fun c p => if lt (fo x) (pdist x pts p j) c then pdist x pts p j else c) l c in
    (r = c \/ lt (fo x) r c = true) /\ forall p, In p l -> lt (fo x) (pdist x pts p j) r = false).
  { clear p picks. induction l as [|q l IH]; intros c; cbn [fold_left]; [split; [now left|intros ? []]|]. cbv zeta.
    destruct (IH (if lt (fo x) (pdist x pts q j) c then pdist x pts q j else c)) as [I1 I2]. cbv zeta in I1, I2.
    destruct (lt (fo x) (pdist x pts q j) c) eqn:E; (split; [|intros p [<-|P]; [|now apply I2]]).
    - right. destruct I1 as [->|I1]; [exact E|exact (o_trans x ord _ _ _ I1 E)].
    - destruct I1 as [->|I1]; [apply (o_irr x ord)|]. apply not_true_is_false. intros E2. pose proof (o_trans x ord _ _ _ E2 I1) as E3. rewrite (o_irr x ord) in E3. discriminate.
    - exact I1.
    - destruct I1 as [->|I1]; [exact E|]. apply not_true_is_false. intros E2. pose proof (o_trans x ord _ _ _ E2 I1) as E3. rewrite E in E3. discriminate. }
  intros P. now apply (Q picks (inf x)).
Qed.
Lemma pdist_fun {F} (x : xops F) pts p j d : computed_pp x (pt pts p) (pt pts j) d -> d = pdist x pts p j.
Proof. intros (cn & n & E1 & E2 & ->). rewrite nrm_ok in E1, E2. injection E1 as <-. injection E2 as <-. reflexivity. Qed.
Lemma points_len {A} (m : matrix A) : length (points m) = m_rows m.
Proof. unfold points. now rewrite map_length, seq_length. Qed.
Lemma points_pt {A} (m : matrix A) j : j < m_rows m -> pt (points m) j = row m j.
Proof. intros J. unfold pt. apply nth_error_nth. unfold points. now apply nth_map_seq. Qed.
Lemma plusplus_ok {F D} (x : xops F) (dd : dops F D) (centers data : matrix F) first draw :
  shaped centers -> shaped data -> m_cols centers = m_cols data -> first < m_rows data -> 0 < m_rows centers ->
  exists b, b_rows b = m_rows data /\ b_cols b = m_cols data /\ holds_t b (cell (zero (fo x)) (view_of data)) /\
  let '(q, e) := prun x dd (view_of data) (points data) b draw (Nat.min (m_rows centers) (m_rows data) - 1) [first] in
  kmeans_plusplus x dd centers data first draw =
    Some (match e with Some r => Some (mkK (length q) (m_rows centers) r)
          | None => if Nat.min (m_rows centers) (m_rows data) =? m_rows centers then None else Some (mkK (Nat.min (m_rows centers) (m_rows data)) (m_rows centers) DatasetTooSmall) end,
          layout x (view_of data) (points data) (m_rows centers) q).
Proof.
  intros HC HD E HF HE. pose proof (views_matrix data HD) as Hv. pose proof Hv as (V1 & V2 & V3).
  destruct (transpose_ok x (view_of data) V1) as (b & T & Hr & Hcc & Hb). exists b. split; [exact Hr|]. split; [exact Hcc|]. split; [exact Hb|].
  unfold kmeans_plusplus. rewrite (proj2 (Nat.eqb_eq (m_cols centers) _) E). cbn [negb]. rewrite (row_norms_ok x _ b Hr Hcc _ _ Hv). cbn [bind]. rewrite T. cbn [bind].
  rewrite (inner_ok x dd (view_of data) (points data) Hv b Hr Hcc Hb draw (m_rows centers) centers first eq_refl HC E) by (rewrite ?points_len; assumption).
  rewrite points_len. destruct (prun _ _ _ _ _ _ _ _) as [q e]. reflexivity.
Qed.
Theorem C108_picks : forall {F D} (x : xops F) (dd : dops F D) (centers data : matrix F) first draw, ordered x ->
  shaped centers -> shaped data -> m_cols centers = m_cols data -> first < m_rows data -> 0 < m_rows centers ->
  exists err m picks, kmeans_plusplus x dd centers data first draw = Some (err, m) /\
  nth_error picks 0 = Some first /\ NoDup picks /\ Forall (fun p => p < m_rows data) picks /\
  shaped m /\ m_rows m = m_rows centers /\ m_cols m = m_cols data /\
  (forall i p, nth_error picks i = Some p -> row m i = row data p) /\
  (forall i, length picks <= i < m_rows centers -> row m i = repeat (zero (fo x)) (m_cols data)) /\
  (forall i j p q d, i < j -> nth_error picks i = Some p -> nth_error picks j = Some q ->
     computed_pp x (row data p) (row data q) d -> number x d -> lt (fo x) (zero (fo x)) d = true) /\
  match err with
  | None => length picks = m_rows centers
  | Some e => k_selected e = length picks /\ k_expected e = m_rows centers /\ length picks < m_rows centers /\
              (k_reason e = DatasetTooSmall <-> length picks = m_rows data)
  end.
Proof.
  intros F D x dd centers data first draw ord HC HD E HF HE. pose proof (views_matrix data HD) as Hv.
  destruct (plusplus_ok x dd centers data first draw HC HD E HF HE) as (b & Hr & Hcc & Hb & PP).
  pose proof (prun_picks x dd (view_of data) (points data) b Hr Hcc draw (Nat.min (m_rows centers) (m_rows data) - 1) [first]) as PR.
  destruct (prun _ _ _ _ _ _ _ _) as [q e]. rewrite points_len in PR.
  destruct PR as ((more & -> & M1 & M2) & P2 & P3 & P4 & P5); [discriminate|constructor; [assumption|constructor]|constructor; [intros []|constructor]|].
  cbn [app length] in *. remember (first :: more) as q eqn:EQ. assert (LQ : length q = S (length more)) by (subst q; reflexivity).
  assert (P2' : Forall (fun p => p < length (points data)) q) by (rewrite points_len; exact P2).
  assert (LE : length q <= m_rows centers) by lia.
  assert (LQN : length q = Nat.min (m_rows centers) (m_rows data) <-> e = None) by (rewrite <- M2; lia).
  do 2 eexists. exists q. split; [exact PP|]. split; [subst q; reflexivity|]. split; [exact P3|]. split; [exact P2|].
  split; [apply (layout_shaped x (view_of data) (points data) Hv b Hr Hcc draw); assumption|]. split; [reflexivity|]. split; [reflexivity|].
  split. { intros i p N. rewrite (layout_row x (view_of data) (points data) Hv b Hr Hcc draw (m_rows centers) q i p P2' LE N). apply points_pt. eapply Forall_forall in P2; [exact P2|]. eapply nth_error_In. eassumption. }
  split. { intros i I. apply (layout_rest x (view_of data) (points data) Hv b Hr Hcc draw); assumption. }
  split.
  { intros i j p r d IJ NI NJ CD ND. assert (JL : j < length q) by (now apply nth_error_lt' in NJ). destruct (P5 j ltac:(lia) ltac:(lia)) as (r' & NR & KL). rewrite NJ in NR. injection NR as <-.
    assert (PL : p < m_rows data) by (eapply Forall_forall in P2; [exact P2|]; eapply nth_error_In; eassumption).
    assert (RL : r < m_rows data) by (eapply Forall_forall in P2; [exact P2|]; eapply nth_error_In; eassumption).
    rewrite <- (points_pt data p PL), <- (points_pt data r RL) in CD. apply pdist_fun in CD. subst d.
    destruct (ND _ _ KL) as [K|K]; [exact K|]. rewrite keptd_least in K; [discriminate|exact ord|]. apply (nth_error_In _ i). now rewrite nth_error_firstn'. }
  destruct e as [r|].
  - cbn [k_selected k_expected k_reason]. split; [lia|]. split; [reflexivity|]. assert (length more <> Nat.min (m_rows centers) (m_rows data) - 1) by (intros X; apply M2 in X; discriminate).
    split; [lia|]. split; [|lia]. intros ->. destruct P4 as [P4|[P4|P4]]; discriminate.
  - pose proof (proj2 LQN eq_refl) as LN. destruct (Nat.eqb_spec (Nat.min (m_rows centers) (m_rows data)) (m_rows centers)); [lia|]. cbn [k_selected k_expected k_reason].
    split; [lia|]. split; [reflexivity|]. split; [lia|]. split; [lia|reflexivity].
Qed.
Print Assumptions C108_picks.
(** Without data nothing is picked. *)
Theorem C108_empty : forall {F D} (x : xops F) (dd : dops F D) (centers data : matrix F) first draw, ordered x ->
  shaped centers -> shaped data -> m_cols centers = m_cols data -> m_rows data = 0 ->
  kmeans_plusplus x dd centers data first draw =
    Some (if m_rows centers =? 0 then None else Some (mkK 0 (m_rows centers) DatasetTooSmall), mkM (repeat (zero (fo x)) (m_rows centers * m_cols centers)) (m_rows centers) (m_cols centers)).
Proof.
  intros F D x dd centers data first draw ord HC HD E N. pose proof (views_matrix data HD) as Hv. pose proof Hv as (V1 & V2 & V3).
  destruct (transpose_ok x (view_of data) V1) as (b & T & Hr & Hcc & Hb).
  unfold kmeans_plusplus. rewrite (proj2 (Nat.eqb_eq (m_cols centers) _) E). cbn [negb]. rewrite (row_norms_ok x _ b Hr Hcc _ _ Hv). cbn [bind]. rewrite T. cbn [bind].
  unfold kmeans_plusplus_inner. rewrite map_length, points_len. cbn [view_of s_rows s_cols] in *. rewrite Nat.eqb_refl, (proj2 (Nat.eqb_eq _ _) Hr), (proj2 (Nat.eqb_eq _ _) Hcc), (proj2 (Nat.eqb_eq (m_cols centers) _) E). cbn [negb]. cbv zeta.
  rewrite (proj2 (Nat.eqb_eq (m_rows data) 0) N). cbn [m_rows]. unfold shaped in HC. rewrite HC. reflexivity.
Qed.
Print Assumptions C108_empty.

(** ** In exact arithmetic *)
Theorem C108_exact : forall (centers data : matrix Qc) first draw k,
  shaped centers -> shaped data -> m_cols centers = m_cols data -> first < m_rows data -> 0 < m_rows centers ->
  samples draw -> distinct (points data) k ->
  exists m picks,
  kmeans_plusplus ext_x ext_d (fin centers) (fin data) first draw =
    Some (if m_rows centers <=? k then None
          else Some (mkK k (m_rows centers) (if k =? m_rows data then DatasetTooSmall else InsufficientDiversity)), m) /\
  length picks = Nat.min (m_rows centers) k /\ nth_error picks 0 = Some first /\ sampled data draw picks /\
  NoDup (map (row data) picks) /\ Forall (fun p => p < m_rows data) picks /\
  shaped m /\ m_rows m = m_rows centers /\ m_cols m = m_cols data /\
  (forall i p, nth_error picks i = Some p -> row m i = map Fin (row data p)) /\
  (forall i, length picks <= i < m_rows centers -> row m i = map Fin (repeat (Q2Qc 0) (m_cols data))).
Proof.
  intros centers data first draw k HC HD E HF HE HS (l & L1 & L2 & L3). pose proof (views_matrix _ (shaped_fin data HD)) as Hv.
  destruct (plusplus_ok ext_x ext_d (fin centers) (fin data) first draw (shaped_fin _ HC) (shaped_fin _ HD) E HF HE) as (b & Hr & Hcc & Hb & PP).
  rewrite points_fin in *. cbn [fin m_rows m_cols] in Hr, Hcc.
  assert (MR : m_rows (fin centers) = m_rows centers) by reflexivity. assert (MD : m_rows (fin data) = m_rows data) by reflexivity. rewrite MR, MD in PP. clear MR MD.
  pose proof (prun_exact data HD b Hr Hcc draw HS (Nat.min (m_rows centers) (m_rows data) - 1) [first]) as PR.
  destruct (prun _ _ _ _ _ _ _ _) as [q e].
  destruct PR as (more & -> & P2 & P3 & P4 & P5).
  { discriminate. } { constructor; [exact HF|constructor]. } { constructor; [intros []|constructor]. }
  { intros c p C N. destruct c as [|[|c]]; [lia|discriminate|discriminate]. }
  remember ([first] ++ more) as q eqn:EQ. assert (LQ : length q = S (length more)) by (subst q; reflexivity).
  assert (IN1 : incl (map (row data) q) l).
  { intros a A. apply L3. apply in_map_iff in A as (p & <- & A). unfold points. apply in_map. eapply Forall_forall in P2; [|exact A]. apply in_seq. lia. }
  pose proof (NoDup_incl_length P3 IN1) as LE1. rewrite map_length in LE1.
  assert (IN2 : length l <= m_rows data).
  { rewrite <- (points_len data). apply NoDup_incl_length; [exact L1|]. intros a A. now apply L3. }
  assert (LE : length q <= m_rows centers) by (destruct P5 as [[_ P5]|(_ & P5 & _)]; lia).
  exists (layout ext_x (view_of (fin data)) (map (map Fin) (points data)) (m_rows centers) q), q.
  assert (RES : length q = Nat.min (m_rows centers) k /\ match e with Some r => Some (mkK (length q) (m_rows centers) r)
          | None => if Nat.min (m_rows centers) (m_rows data) =? m_rows centers then None else Some (mkK (Nat.min (m_rows centers) (m_rows data)) (m_rows centers) DatasetTooSmall) end =
       (if m_rows centers <=? k then None else Some (mkK k (m_rows centers) (if k =? m_rows data then DatasetTooSmall else InsufficientDiversity)))).
  { destruct P5 as [[-> P5]|(-> & P5 & P6)].
    - destruct (Nat.eqb_spec (Nat.min (m_rows centers) (m_rows data)) (m_rows centers)) as [M|M].
      + split; [lia|]. destruct (Nat.leb_spec (m_rows centers) k); [reflexivity|lia].
      + split; [lia|]. destruct (Nat.leb_spec (m_rows centers) k); [lia|]. destruct (Nat.eqb_spec k (m_rows data)); [|lia]. do 2 f_equal. lia.
    - assert (IN3 : incl l (map (row data) q)).
      { intros a A. apply L3 in A. unfold points in A. apply in_map_iff in A as (j & <- & J). apply P6. apply in_seq in J. lia. }
      pose proof (NoDup_incl_length L1 IN3) as LE2. rewrite map_length in LE2.
      split; [lia|]. destruct (Nat.leb_spec (m_rows centers) k); [lia|]. destruct (Nat.eqb_spec k (m_rows data)); [lia|]. do 2 f_equal. lia. }
  destruct RES as [RES1 RES2]. rewrite <- RES2. split; [exact PP|]. split; [exact RES1|]. split; [subst q; reflexivity|]. split; [exact P4|]. split; [exact P3|]. split; [exact P2|].
  assert (P2' : Forall (fun p => p < length (map (map Fin) (points data))) q) by (rewrite map_length, points_len; exact P2).
  split; [now apply (layout_shaped ext_x (view_of (fin data)) (map (map Fin) (points data)) Hv b Hr Hcc draw)|]. split; [reflexivity|]. split; [reflexivity|]. split.
  - intros i p N. assert (PL : p < m_rows data) by (eapply Forall_forall in P2; [exact P2|]; eapply nth_error_In; eassumption).
    rewrite <- (ept_row data p PL). now apply (layout_row ext_x (view_of (fin data)) (map (map Fin) (points data)) Hv b Hr Hcc draw).
  - intros i I. rewrite (layout_rest ext_x (view_of (fin data)) (map (map Fin) (points data)) Hv b Hr Hcc draw) by assumption. cbn [view_of s_cols fin m_cols]. clear. induction (m_cols data) as [|c IH]; cbn [repeat map]; [reflexivity|]. now rewrite <- IH.
Qed.
Print Assumptions C108_exact.
(** Four rows, three of them different; samples at a third of the range. *)
Definition third (k : nat) (s : ext) : ext := e_over s 3.
Lemma third_samples : samples third.
Proof.
  intros k s S. exists (s / qnat 3)%Qc. split; [reflexivity|]. assert (P : (Q2Qc 0 < / qnat 3)%Qc) by (vm_compute; reflexivity). unfold Qcdiv. split.
  - apply Qclt_le_weak. rewrite <- (Qcmult_comm (/ qnat 3)), <- (Qcmult_0_r (/ qnat 3)), !(Qcmult_comm (/ qnat 3)). now apply Qcmult_lt_compat_r.
  - assert (L : (/ qnat 3 < Q2Qc 1)%Qc) by (vm_compute; reflexivity). apply (Qcmult_lt_compat_r _ _ s S) in L. rewrite Qcmult_1_l in L. now rewrite Qcmult_comm.
Qed.
Example C108_example : samples third /\ distinct (points (Props.line [5; 1; 5; 9]%Z)) 3 /\
  (forall k, 0 < k <= 5 -> option_map (fun r => (fst r, map (fun e => match e with Fin v => Some (this v) | _ => None end) (m_data (snd r))))
     (kmeans_plusplus ext_x ext_d (fin (mkM (repeat (Q2Qc 0) k) k 1)) (fin (Props.line [5; 1; 5; 9]%Z)) 2 third) =
   nth_error [(None, []); (None, [Some (5#1)]); (None, [Some (5#1); Some (1#1)]); (None, [Some (5#1); Some (1#1); Some (9#1)]);
     (Some (mkK 3 4 InsufficientDiversity), [Some (5#1); Some (1#1); Some (9#1); Some (0#1)]);
     (Some (mkK 3 5 InsufficientDiversity), [Some (5#1); Some (1#1); Some (9#1); Some (0#1); Some (0#1)])]%Q k).
Proof.
  split; [apply third_samples|]. split.
  - exists [[Props.zq 5]; [Props.zq 1]; [Props.zq 9]]. split; [|split; [reflexivity|]].
    + repeat constructor; cbn [In]; intros H; repeat (destruct H as [H|H]; [apply (f_equal (fun l => this (hd (Q2Qc 0) l))) in H; vm_compute in H; discriminate|]); exact H.
    + intros p. cbn. tauto.
  - intros k K. do 6 (destruct k as [|k]; [try lia; vm_compute; reflexivity|]). lia.
Qed.
(** The claim that it returns for every number of centers is false. *)
Theorem C108_no_centers_refuted : forall {F D} (x : xops F) (dd : dops F D) (data : matrix F) first draw, shaped data -> first < m_rows data ->
  kmeans_plusplus x dd (mkM [] 0 (m_cols data)) data first draw = None.
Proof.
  intros F D x dd data first draw HD HF. pose proof (views_matrix data HD) as Hv. pose proof Hv as (V1 & V2 & V3).
  destruct (transpose_ok x (view_of data) V1) as (b & T & Hr & Hcc & Hb).
  unfold kmeans_plusplus. cbn [m_cols]. rewrite Nat.eqb_refl. cbn [negb]. rewrite (row_norms_ok x _ b Hr Hcc _ _ Hv). cbn [bind]. rewrite T. cbn [bind].
  unfold kmeans_plusplus_inner. cbv zeta. rewrite map_length, points_len. cbn [view_of s_rows s_cols m_cols m_rows m_data length repeat] in *. rewrite !Nat.eqb_refl, (proj2 (Nat.eqb_eq _ _) Hr), (proj2 (Nat.eqb_eq _ _) Hcc). cbn [negb].
  rewrite (proj2 (Nat.eqb_neq (m_rows data) 0)) by lia. rewrite (s_row_view data first HD HF). reflexivity.
Qed.
Print Assumptions C108_no_centers_refuted.
