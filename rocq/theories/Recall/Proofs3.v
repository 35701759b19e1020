(** Proofs about the mean. *)
From Coq Require Import List PeanoNat Bool Lia Arith QArith Qcanon.
From Verif.Recall Require Import Model Spec Proofs Proofs2.
Import ListNotations.
Local Open Scope nat_scope.

Notation flat qs := (flat_map (fun q : option (nat * nat) => match q with Some p => [p] | None => [] end) qs).
Lemma queries_flat (min : nat -> nat) (P : nat -> nat * nat -> Prop) is qs :
  Forall2 (fun i q => match q with None => min i = 0 | Some (k', r) => 0 < min i /\ P i (k', r) end) is qs ->
  Forall2 P (filter (fun i => 0 <? min i) is) (flat qs).
Proof.
  induction 1 as [|i q is qs Q _ IH]; [constructor|]. cbn [filter flat_map]. destruct q as [[k r]|].
  - destruct Q as [L Q]. rewrite (proj2 (Nat.ltb_lt 0 (min i)) L). now constructor.
  - rewrite Q. exact IH.
Qed.
Lemma fold_flat qs : forall m, fold_left (fun m (q : option (nat * nat)) => match q with Some (k, r) => bump k r m | None => m end) qs m = fold_left (fun m p => bump (fst p) (snd p) m) (flat qs) m.
Proof. induction qs as [|[[k r]|] qs IH]; intros m; cbn [fold_left flat_map app fst snd]; [reflexivity|apply IH|apply IH]. Qed.
Section Mean.
  Context {A F D : Type} (eqb : A -> A -> bool) (Heq : decides eqb) (deq : F -> F -> bool) (dzero dstart : D) (dadd : D -> D -> D) (ratio : nat -> nat -> D).
  Lemma knn_recalls (gt : list (list A)) (dists : option (list (list F))) results k n md : accepted gt dists results k n md ->
    exists rs, recalls deq gt dists results k n rs /\
    knn eqb deq dzero dstart dadd ratio gt dists results k n md = Some (inl (mkR k n (length results) (average_of dzero dstart dadd ratio (fold_left (fun m p => bump (fst p) (snd p) m) rs []) (length rs)))).
  Proof.
    intros Acc. destruct (knn_accepted eqb Heq deq dzero dstart dadd ratio gt dists results k n md Acc) as (qs & Q & E). exists (flat qs). split.
    - unfold recalls, counted. destruct Acc as (_ & <- & _). refine (queries_flat (fun i => Nat.min (length (nth i gt [])) k) _ _ _ _). eapply Forall2_weaken; [|exact Q]. intros i [[k' r]|] H; exact H.
    - rewrite E, filter_flat. rewrite fold_flat. reflexivity.
  Qed.
End Mean.
Lemma worth_rs rs : forall m, worth (fold_left (fun m p => bump (fst p) (snd p) m) rs m) = (worth m + worth rs)%Qc.
Proof. induction rs as [|[k r] rs IH]; intros m; cbn [fold_left fst snd]; [unfold worth; cbn; ring|]. rewrite IH, worth_bump. unfold worth. cbn [map qsum fold_right fst snd]. unfold qsum. ring. Qed.
Lemma average_mean rs : average_of (Q2Qc 0) (Q2Qc 0) Qcplus quotient (fold_left (fun m p => bump (fst p) (snd p) m) rs []) (length rs) = mean_or_0 rs.
Proof.
  unfold average_of. destruct rs as [|p rs]; [reflexivity|]. cbn [length Nat.eqb]. rewrite average_exact by discriminate. rewrite worth_rs. unfold mean_or_0, mean_recall. change (S (length rs)) with (length (p :: rs)).
  f_equal. unfold worth. cbn [map]. cbn [qsum fold_right]. ring.
Qed.
(** One denominator. *)
Lemma bump_same k rs : Forall (fun p => fst p = k) rs -> forall h, fold_left (fun m p => bump (fst p) (snd p) m) rs [(k, h)] = [(k, h + list_sum (map snd rs))].
Proof.
  induction 1 as [|[k' r] rs E _ IH]; intros h; cbn [fold_left map list_sum fold_right]; [now rewrite Nat.add_0_r|]. cbn [fst] in E. subst k'. cbn [fst snd bump]. rewrite Nat.ltb_irrefl, Nat.eqb_refl, IH. unfold list_sum. now rewrite <- Nat.add_assoc.
Qed.
(** ** Rational means *)
Lemma qnat_lt a b : a < b -> (qnat a < qnat b)%Qc.
Proof. intros H. unfold qnat, Qclt. cbn [this Q2Qc]. rewrite !Qred_correct. rewrite <- Zlt_Qlt. lia. Qed.
Lemma inv_pos n : n <> 0 -> (Q2Qc 0 < / qnat n)%Qc.
Proof.
  intros N. pose proof (qnat_lt 0 n ltac:(lia)) as P. rewrite qnat_0 in P. destruct (Qclt_le_dec (Q2Qc 0) (/ qnat n)) as [L|L]; [exact L|]. exfalso.
  pose proof (Qcmult_inv_r (qnat n) (qnat_nz n N)) as E. pose proof (Qcmult_le_compat_r _ _ (qnat n) L (Qclt_le_weak _ _ P)) as M. rewrite Qcmult_comm, E in M.
  replace (Q2Qc 0 * qnat n)%Qc with (Q2Qc 0) in M by ring. apply (Qcle_not_lt _ _ M). reflexivity.
Qed.
Lemma quotient_le a b k : k <> 0 -> a <= b -> (quotient a k <= quotient b k)%Qc.
Proof. intros K H. unfold quotient, Qcdiv. apply Qcmult_le_compat_r; [now apply qnat_le|]. apply Qclt_le_weak. now apply inv_pos. Qed.
Lemma quotient_lt a b k : k <> 0 -> a < b -> (quotient a k < quotient b k)%Qc.
Proof. intros K H. unfold quotient, Qcdiv. apply Qcmult_lt_compat_r; [now apply inv_pos|now apply qnat_lt]. Qed.
Lemma quotient_same k : k <> 0 -> quotient k k = Q2Qc 1.
Proof. intros K. unfold quotient, Qcdiv. now apply Qcmult_inv_r, qnat_nz. Qed.
Lemma quotient_0 k : quotient 0 k = Q2Qc 0.
Proof. unfold quotient, Qcdiv. rewrite qnat_0. ring. Qed.
Lemma qsum_le l m : Forall2 Qcle l m -> (qsum l <= qsum m)%Qc.
Proof. induction 1; cbn [qsum fold_right]; [apply Qcle_refl|]. now apply Qcplus_le_compat. Qed.
Lemma qsum_lt l m : Forall2 Qcle l m -> Exists (fun p => (fst p < snd p)%Qc) (combine l m) -> (qsum l < qsum m)%Qc.
Proof.
  induction 1 as [|a b l m H HF IH]; cbn [combine]; intros E; [inversion E|]. cbn [qsum fold_right]. apply Exists_cons in E as [E|E]; cbn [fst snd] in *.
  - apply Qcle_lt_trans with (a + qsum m)%Qc; [apply Qcplus_le_compat; [apply Qcle_refl|now apply qsum_le]|]. rewrite (Qcplus_comm a), (Qcplus_comm b). unfold Qclt, Qcplus in *. cbn [this Q2Qc] in *. rewrite !Qred_correct. apply Qplus_lt_r. exact E.
  - specialize (IH E). apply Qcle_lt_trans with (b + qsum l)%Qc; [apply Qcplus_le_compat; [exact H|apply Qcle_refl]|]. unfold Qclt, Qcplus in *. cbn [this Q2Qc] in *. rewrite !Qred_correct. apply Qplus_lt_r. exact IH.
Qed.
Lemma Forall2_same {A B} (P : A -> B -> Prop) l m : Forall2 P l m -> length l = length m.
Proof. induction 1; cbn; congruence. Qed.
(** Queries as they come: a positive denominator and no more hits than it. *)
Definition fair (p : nat * nat) : Prop := 0 < fst p /\ snd p <= fst p.
Lemma mean_le rs rs' : Forall fair rs -> Forall2 (fun p p' => fst p = fst p' /\ snd p <= snd p') rs rs' -> (mean_recall rs <= mean_recall rs')%Qc.
Proof.
  intros FR H. unfold mean_recall. assert (L : length rs = length rs') by (now apply Forall2_same in H). rewrite <- L. destruct (Nat.eq_dec (length rs) 0) as [Z|Z].
  { destruct rs; [|discriminate]. inversion H. apply Qcle_refl. }
  unfold Qcdiv. apply Qcmult_le_compat_r; [|now apply Qclt_le_weak, inv_pos]. clear L Z. apply qsum_le. revert FR. induction H as [|[k r] [k' r'] rs rs' [E1 E2] _ IH]; intros FR; [constructor|].
  apply Forall_cons_iff in FR as [[F1 F2] FR]. cbn [fst snd] in *. subst k'. cbn [map]. constructor; [|now apply IH]. cbn [fst snd]. apply quotient_le; lia.
Qed.
Lemma mean_all (f : nat * nat -> nat) rs c : rs <> [] -> Forall (fun p => quotient (f p) (fst p) = c) rs -> mean_recall (map (fun p => (fst p, f p)) rs) = c.
Proof.
  intros N H. unfold mean_recall. rewrite map_length, map_map. cbn [fst snd]. assert (E : qsum (map (fun p => quotient (f p) (fst p)) rs) = (c * qnat (length rs))%Qc).
  { clear N. induction H as [|p rs E _ IH]; cbn [map qsum fold_right length]; [rewrite qnat_0; ring|]. unfold qsum in IH. rewrite IH, E. change (S (length rs)) with (1 + length rs). rewrite qnat_plus. change (qnat 1) with (Q2Qc 1). ring. }
  rewrite E. apply Qcdiv_mult_l. apply qnat_nz. destruct rs; [now elim N|discriminate].
Qed.
Lemma mean_bounds rs : Forall fair rs -> (Q2Qc 0 <= mean_or_0 rs <= Q2Qc 1)%Qc.
Proof.
  intros H. destruct rs as [|p rs]; [split; cbn; discriminate|]. unfold mean_or_0. remember (p :: rs) as l. assert (N : l <> []) by (subst; discriminate). clear p rs Heql. split.
  - rewrite <- (mean_all (fun _ => 0) l (Q2Qc 0) N) by (apply Forall_forall; intros; apply quotient_0). apply mean_le.
    + apply Forall_map. eapply Forall_impl; [|exact H]. intros p [P1 P2]. split; cbn [fst snd]; lia.
    + clear N. induction H; cbn [map]; constructor; [|assumption]. cbn [fst snd]. split; [reflexivity|lia].
  - rewrite <- (mean_all fst l (Q2Qc 1) N). 2: { eapply Forall_impl; [|exact H]. intros p [P1 P2]. apply quotient_same. lia. }
    apply mean_le; [exact H|]. clear N. induction H as [|p l [P1 P2] _ IH]; cbn [map]; constructor; [|assumption]. cbn [fst snd]. split; [reflexivity|lia].
Qed.
Lemma mean_one rs : rs <> [] -> Forall fair rs -> mean_recall rs = Q2Qc 1 <-> Forall (fun p => snd p = fst p) rs.
Proof.
  intros N H. split.
  - intros E. apply Forall_forall. intros p P. destruct (Nat.eq_dec (snd p) (fst p)) as [|Q]; [assumption|exfalso].
    assert (L : (qsum (map (fun p => quotient (snd p) (fst p)) rs) < qsum (map (fun p => quotient (fst p) (fst p)) rs))%Qc).
    { apply qsum_lt.
      - clear -H. induction H as [|p rs [P1 P2] _ IH]; cbn [map]; constructor; [apply quotient_le; lia|assumption].
      - apply Exists_exists. exists (quotient (snd p) (fst p), quotient (fst p) (fst p)). rewrite Forall_forall in H. specialize (H p P) as [P1 P2]. split; [|cbn [fst snd]; apply quotient_lt; lia].
        clear -P. induction rs as [|q rs IH]; [elim P|]. cbn [map combine]. destruct P as [->|P]; [now left|right; now apply IH]. }
    assert (L0 : length rs <> 0) by (destruct rs; [now elim N|discriminate]).
    pose proof (Qcmult_lt_compat_r _ _ (/ qnat (length rs)) (inv_pos _ L0) L) as M. unfold mean_recall, Qcdiv in E. rewrite E in M.
    pose proof (mean_all fst rs (Q2Qc 1) N) as X. rewrite Forall_forall in H. unfold mean_recall, Qcdiv in X. rewrite map_length, map_map in X. cbn [fst snd] in X. rewrite X in M; [exact (Qclt_not_eq _ _ M eq_refl)|].
    apply Forall_forall. intros q Q'. apply quotient_same. destruct (H q Q'). lia.
  - intros E. pose proof (mean_all fst rs (Q2Qc 1) N) as X. assert (M : map (fun p : nat * nat => (fst p, fst p)) rs = rs).
    { clear -E. induction E as [|[a b] rs E _ IH]; [reflexivity|]. cbn [map fst snd] in *. now rewrite IH, E. }
    rewrite M in X. apply X. eapply Forall_impl; [|exact H]. intros p [P1 P2]. apply quotient_same. lia.
Qed.
Section Recalls.
  Context {A F : Type} (deq : F -> F -> bool).
  Lemma recalls_fair (gt : list (list A)) (dists : option (list (list F))) results k n rs : recalls deq gt dists results k n rs -> Forall fair rs.
  Proof.
    unfold recalls, counted. intros H. assert (G : Forall (fun i => 0 < Nat.min (length (nth i gt [])) k) (filter (fun i => 0 <? Nat.min (length (nth i gt [])) k) (seq 0 (length gt)))).
    { apply Forall_forall. intros i I. apply filter_In in I as [_ I]. now apply Nat.ltb_lt. }
    induction H as [|i p is rs [E (l & _ & Q)] _ IH]; [constructor|]. apply Forall_cons_iff in G as [G1 G2]. constructor; [|now apply IH]. split; lia.
  Qed.
  Lemma scored_more (gt : list A) (dist : option (list F)) result result' k n n' k1 r1 k2 r2 : incl (firstn n result) (firstn n' result') ->
    scored deq gt dist result k n k1 r1 -> scored deq gt dist result' k n' k2 r2 -> k1 = k2 /\ r1 <= r2.
  Proof.
    intros HI [-> (l1 & [N1 I1] & ->)] [-> (l2 & [N2 I2] & ->)]. split; [reflexivity|]. assert (L : length l1 <= length l2); [|lia]. apply NoDup_incl_length; [exact N1|]. intros a I. apply I2. apply I1 in I as [W I]. split; [exact W|now apply HI].
  Qed.
  Lemma recalls_more (gt : list (list A)) (dists : option (list (list F))) results results' k n n' rs rs' :
    (forall i, incl (firstn n (nth i results [])) (firstn n' (nth i results' []))) -> recalls deq gt dists results k n rs -> recalls deq gt dists results' k n' rs' ->
    Forall2 (fun p p' => fst p = fst p' /\ snd p <= snd p') rs rs'.
  Proof.
    unfold recalls. intros HI H. revert rs'. induction H as [|i p is rs P _ IH]; intros rs' H'; inversion H' as [|i' p' is' rs'' P' H'']; subst; constructor; [|now apply IH]. eapply scored_more; [apply HI|exact P|exact P'].
  Qed.
  (** All of the first [k'] are found. *)
  Lemma scored_all (gt : list A) (dist : option (list F)) result k n k' r : NoDup (firstn k gt) -> incl (firstn k gt) (firstn n result) -> scored deq gt dist result k n k' r -> r = k'.
  Proof.
    intros N HI [-> (l & [N1 I1] & ->)]. assert (E : length (firstn k gt) <= length l).
    { apply NoDup_incl_length; [exact N|]. intros a I. apply I1. split; [|now apply HI]. apply In_firstn in I as (j & J & E). exists j. split; [exact E|]. left. assert (j < length gt) by (apply nth_error_Some; congruence). lia. }
    rewrite firstn_length in E. lia.
  Qed.
End Recalls.
(** ** Average precision *)
Section Precision.
  Context {A D : Type} (eqb : A -> A -> bool) (Heq : decides eqb) (ratio : nat -> nat -> D).
  Notation found := (found eqb).
  Lemma mem_extend a r : mem eqb a (extend eqb [] r) = existsb (eqb a) r.
  Proof.
    destruct (extend_ok eqb Heq r [] (NoDup_nil A)) as [_ E]. destruct (existsb (eqb a) r) eqn:X.
    - apply (mem_In eqb Heq). apply E. right. now apply (mem_In eqb Heq).
    - apply (mem_not eqb Heq). rewrite E. cbn. intros [[]|I]. apply (mem_In eqb Heq) in I. unfold mem in I. congruence.
  Qed.
  Lemma precision_fold results groundtruth is : forall c, (forall i, In i is -> i < length results /\ i < length groundtruth) ->
    fold_left (fun acc i =>
      match acc with Some c => match row results i with Some r => match row groundtruth i with Some g =>
      let scratch := extend eqb [] r in
      Some (fst c + length (filter (fun i => mem eqb i scratch) g), snd c + length g) | None => None end | None => None end | None => None end) is (Some c) =
    Some (fst c + list_sum (map (fun i => found (nth i groundtruth []) (nth i results [])) is), snd c + list_sum (map (fun i => length (nth i groundtruth [])) is)).
  Proof.
    induction is as [|i is IH]; intros c H; cbn [fold_left map list_sum fold_right]; [rewrite !Nat.add_0_r; now destruct c|]. destruct (H i (or_introl eq_refl)) as [L1 L2]. rewrite (row_some results), (row_some groundtruth) by assumption. cbv zeta.
    rewrite IH by (intros j J; apply H; now right). cbn [fst snd]. unfold list_sum. rewrite <- !Nat.add_assoc. do 4 f_equal. unfold Spec.found. f_equal. apply filter_ext. intros a. apply mem_extend.
  Qed.
  Lemma precision_ok results groundtruth : average_precision eqb ratio results groundtruth =
    if length results =? length groundtruth then Some (inl (length results, ratio (list_sum (map (fun i => found (nth i groundtruth []) (nth i results [])) (seq 0 (length results)))) (list_sum (map (@length A) groundtruth))))
    else Some (inr (length results, length groundtruth)).
  Proof.
    unfold average_precision. cbv zeta. destruct (Nat.eqb_spec (length results) (length groundtruth)) as [L|L]; cbn [negb]; [|reflexivity].
    rewrite precision_fold by (intros i I; apply in_seq in I; lia). cbn [fst snd]. rewrite !Nat.add_0_l, L. do 5 f_equal. rewrite <- (map_map (fun i => nth i groundtruth []) (@length A)). f_equal.
    apply nth_ext with (d := []) (d' := []); rewrite ?map_length, ?seq_length; [reflexivity|]. intros i I. rewrite (nth_indep _ [] (nth 0 groundtruth [])) by (now rewrite map_length, seq_length). rewrite (map_nth (fun i => nth i groundtruth []) _ 0). now rewrite seq_nth.
  Qed.
  Lemma found_le g r : found g r <= length g.
  Proof. unfold Spec.found. induction g as [|a g IH]; cbn; [lia|]. destruct (existsb _ r); cbn; lia. Qed.
  Lemma found_all g r : found g r = length g <-> incl g r.
  Proof.
    unfold Spec.found. induction g as [|a g IH]; [split; [intros _ a []|reflexivity]|]. cbn [filter]. pose proof (mem_In eqb Heq a r) as M. unfold mem in M. pose proof (found_le g r) as L. unfold Spec.found in L. destruct (existsb (eqb a) r).
    - cbn [length]. rewrite Nat.succ_inj_wd, IH. split; [intros H b [<-|B]; [now apply M|now apply H]|intros H b B; apply H; now right].
    - split; [cbn [length]; lia|]. intros H. specialize (H a (or_introl eq_refl)). apply M in H. discriminate.
  Qed.
End Precision.
