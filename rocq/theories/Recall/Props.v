(** C110: the recall that is reported.  C111: the average precision. *)
From Coq Require Import List PeanoNat Bool Lia Arith QArith Qcanon.
From Verif.Recall Require Import Model Spec Proofs Proofs2 Proofs3.
Import ListNotations.
Local Open Scope nat_scope.

(** ** C110 *)
(** Whatever the arithmetic: a call ends with metrics if and only if the input is acceptable, and
    otherwise with an error that is true of the input. *)
Theorem C110_errors {A F D} (eqb : A -> A -> bool) (deq : F -> F -> bool) (dzero dstart : D) dadd ratio (gt : list (list A)) (dists : option (list (list F))) results k n md :
  decides eqb ->
  match knn eqb deq dzero dstart dadd ratio gt dists results k n md with
  | Some (inl m) => accepted gt dists results k n md /\ r_k m = k /\ r_n m = n /\ r_queries m = length gt
  | Some (inr e) => ~ accepted gt dists results k n md /\ reason gt dists results k n md e
  | None => False
  end.
Proof.
  intros Heq. destruct (knn_rejected eqb deq dzero dstart dadd ratio gt dists results k n md) as [Acc|(e & E & Rs)].
  - destruct (knn_recalls eqb Heq deq dzero dstart dadd ratio gt dists results k n md Acc) as (rs & _ & E). rewrite E. cbn [r_k r_n r_queries]. split; [exact Acc|]. destruct Acc as (_ & L & _). now repeat split.
  - rewrite E. split; [|exact Rs]. intros (K & L & LF & LD). destruct e as [a b|a b|a b|a b|a b]; cbn in Rs.
    + destruct Rs as (-> & -> & N). now apply N.
    + destruct Rs as (ds & -> & -> & -> & N). apply N. apply (f_equal (@length nat)) in LD. now rewrite !map_length in LD.
    + lia.
    + destruct Rs as (-> & -> & N & g & G & E'). specialize (LF eq_refl). rewrite Forall_forall in LF. specialize (LF g G). lia.
    + destruct Rs as (ds & i & d & g & -> & E1 & E2 & -> & -> & N). apply N. apply (map_nth_error (@length F)) in E1. apply (map_nth_error (@length A)) in E2. rewrite LD in E1. congruence.
Qed.
Print Assumptions C110_errors.

(** In exact arithmetic the average is the mean, over the queries with ground truth, of the hits
    over the denominators, where the hits are the distinct wanted ids among the first results. *)
Theorem C110_mean {A F} (eqb : A -> A -> bool) (deq : F -> F -> bool) (gt : list (list A)) (dists : option (list (list F))) results k n md :
  decides eqb -> accepted gt dists results k n md ->
  exists rs, recalls deq gt dists results k n rs /\ knn_exact eqb deq gt dists results k n md = Some (inl (mkR k n (length gt) (mean_or_0 rs))).
Proof.
  intros Heq Acc. destruct (knn_recalls eqb Heq deq (Q2Qc 0) (Q2Qc 0) Qcplus quotient gt dists results k n md Acc) as (rs & R1 & E). exists rs. split; [exact R1|]. unfold knn_exact. rewrite E, average_mean. destruct Acc as (_ & -> & _). reflexivity.
Qed.
Print Assumptions C110_mean.

(** Those hits and denominators are determined by the input. *)
Theorem C110_unique {A F} (deq : F -> F -> bool) (gt : list (list A)) (dists : option (list (list F))) results k n rs rs' :
  recalls deq gt dists results k n rs -> recalls deq gt dists results k n rs' -> rs = rs'.
Proof.
  unfold recalls. intros H. revert rs'. induction H as [|i [k1 r1] is rs P _ IH]; intros rs' H'; inversion H' as [|i' [k2 r2] is' rs'' P' H'']; subst; [reflexivity|]. f_equal; [|now apply IH].
  destruct (scored_fun deq _ _ _ _ _ _ _ _ _ P P') as [E1 E2]. cbn [fst snd] in E1, E2. congruence.
Qed.
Print Assumptions C110_unique.

(** With a fixed size of ground truth the only roundings are those of one quotient and of its
    addition to the start of the sum: the sum of the hits over [k] times the number of queries. *)
Theorem C110_one_division {A F D} (eqb : A -> A -> bool) (deq : F -> F -> bool) (dzero dstart : D) dadd ratio (gt : list (list A)) (dists : option (list (list F))) results k n :
  decides eqb -> accepted gt dists results k n Fixed -> 0 < k -> gt <> [] ->
  exists rs, recalls deq gt dists results k n rs /\ length rs = length gt /\
  knn eqb deq dzero dstart dadd ratio gt dists results k n Fixed = Some (inl (mkR k n (length gt) (dadd dstart (ratio (list_sum (map snd rs)) (k * length gt))))).
Proof.
  intros Heq Acc K N. destruct (knn_recalls eqb Heq deq dzero dstart dadd ratio gt dists results k n Fixed Acc) as (rs & R1 & E). exists rs. split; [exact R1|].
  destruct Acc as (_ & LR & LF & _). specialize (LF eq_refl). rewrite Forall_forall in LF.
  assert (LG : forall i, i < length gt -> Nat.min (length (nth i gt [])) k = k) by (intros i I; pose proof (LF _ (nth_In gt [] I)); cbv beta in *; lia).
  assert (C : counted gt k = seq 0 (length gt)).
  { unfold counted. assert (X : forall is, (forall i, In i is -> i < length gt) -> filter (fun i => 0 <? Nat.min (length (nth i gt [])) k) is = is).
    { induction is as [|i is IH]; intros H; [reflexivity|]. cbn [filter]. rewrite LG by (apply H; now left). rewrite (proj2 (Nat.ltb_lt 0 k) K). f_equal. apply IH. intros j J. apply H. now right. }
    apply X. intros i I. apply in_seq in I. lia. }
  pose proof R1 as R2. unfold recalls in R2. rewrite C in R2. pose proof (Forall2_same _ _ _ R2) as L. rewrite seq_length in L. split; [congruence|].
  assert (FK : Forall (fun p => fst p = k) rs).
  { assert (X : forall is, (forall i, In i is -> i < length gt) -> forall rs, Forall2 (fun i p => scored deq (nth i gt []) (at_query dists i) (nth i results []) k n (fst p) (snd p)) is rs -> Forall (fun p => fst p = k) rs).
    { intros is H rs' H'. induction H' as [|i p is rs' [P _] _ IH]; constructor; [rewrite P; apply LG, H; now left|]. apply IH. intros j J. apply H. now right. }
    eapply X; [|exact R2]. intros i I. apply in_seq in I. lia. }
  rewrite E. do 3 f_equal; [exact LR|]. unfold average_of. rewrite <- L. assert (NZ : (length gt =? 0) = false) by (destruct gt; [now elim N|reflexivity]). rewrite NZ. clear NZ. destruct rs as [|[k' r] rs]; [destruct gt; [now elim N|discriminate]|]. cbn [length Nat.eqb fold_left fst snd bump].
  apply Forall_cons_iff in FK as [F1 F2]. cbn [fst] in F1. subst k'. rewrite (bump_same k rs F2 r). cbn [map fold_left fst snd list_sum fold_right]. reflexivity.
Qed.
Print Assumptions C110_one_division.

(** The average is between 0 and 1; it is 1 exactly if every query with ground truth has as many
    hits as it can, provided there is one. *)
Theorem C110_range {A F} (eqb : A -> A -> bool) (deq : F -> F -> bool) (gt : list (list A)) (dists : option (list (list F))) results k n md m :
  decides eqb -> knn_exact eqb deq gt dists results k n md = Some (inl m) ->
  (Q2Qc 0 <= r_average m <= Q2Qc 1)%Qc /\
  (r_average m = Q2Qc 1 <-> counted gt k <> [] /\ forall i, In i (counted gt k) -> exists k', scored deq (nth i gt []) (at_query dists i) (nth i results []) k n k' k').
Proof.
  intros Heq E. pose proof (C110_errors eqb deq (Q2Qc 0) (Q2Qc 0) Qcplus quotient gt dists results k n md Heq) as H. unfold knn_exact in E. rewrite E in H. destruct H as [Acc _].
  destruct (C110_mean eqb deq gt dists results k n md Heq Acc) as (rs & R1 & E'). unfold knn_exact in E'. rewrite E in E'. injection E' as ->. cbn [r_average]. pose proof (recalls_fair deq _ _ _ _ _ _ R1) as FR. split; [now apply mean_bounds|].
  unfold recalls in R1. destruct rs as [|p rs].
  - inversion R1 as [Z|]. cbn [mean_or_0]. split; [discriminate|]. intros [Q _]. now elim Q.
  - change (mean_or_0 (p :: rs)) with (mean_recall (p :: rs)). rewrite mean_one by (assumption || discriminate). split.
    + intros Q. split; [intros Z; rewrite Z in R1; inversion R1|]. clear -R1 Q. induction R1 as [|i q is rs' P _ IH]; [intros i []|]. apply Forall_cons_iff in Q as [Q1 Q2]. intros j [<-|J]; [|now apply IH]. rewrite Q1 in P. now exists (fst q).
    + intros [_ Q]. clear -R1 Q. induction R1 as [|i q is rs' P _ IH]; constructor; [|apply IH; intros j J; apply Q; now right]. destruct (Q i (or_introl eq_refl)) as (k' & S). destruct (scored_fun deq _ _ _ _ _ _ _ _ _ P S) as [-> ->]. reflexivity.
Qed.
Print Assumptions C110_range.

(** More results never lower the average: what counts is the set of the first [n] results of each
    query, not their order or repetitions. *)
Theorem C110_monotone {A F} (eqb : A -> A -> bool) (deq : F -> F -> bool) (gt : list (list A)) (dists : option (list (list F))) results results' k n n' md md' m m' :
  decides eqb -> knn_exact eqb deq gt dists results k n md = Some (inl m) -> knn_exact eqb deq gt dists results' k n' md' = Some (inl m') ->
  (forall i, incl (firstn n (nth i results [])) (firstn n' (nth i results' []))) -> (r_average m <= r_average m')%Qc.
Proof.
  intros Heq E E' HI. pose proof (C110_errors eqb deq (Q2Qc 0) (Q2Qc 0) Qcplus quotient gt dists results k n md Heq) as H. unfold knn_exact in E. rewrite E in H. destruct H as [Acc _].
  pose proof (C110_errors eqb deq (Q2Qc 0) (Q2Qc 0) Qcplus quotient gt dists results' k n' md' Heq) as H. unfold knn_exact in E'. rewrite E' in H. destruct H as [Acc' _].
  destruct (C110_mean eqb deq gt dists results k n md Heq Acc) as (rs & R1 & X). unfold knn_exact in X. rewrite E in X. injection X as ->.
  destruct (C110_mean eqb deq gt dists results' k n' md' Heq Acc') as (rs' & R1' & X). unfold knn_exact in X. rewrite E' in X. injection X as ->. cbn [r_average].
  pose proof (recalls_more deq gt dists results results' k n n' rs rs' HI R1 R1') as RM. pose proof (mean_le rs rs' (recalls_fair deq _ _ _ _ _ _ R1) RM) as ML.
  destruct RM; [apply Qcle_refl|exact ML].
Qed.
Print Assumptions C110_monotone.

(** Finding the first [k] of the ground truth, where they are distinct, is a recall of 1. *)
Theorem C110_perfect {A F} (eqb : A -> A -> bool) (deq : F -> F -> bool) (gt : list (list A)) (dists : option (list (list F))) results k n md m :
  decides eqb -> knn_exact eqb deq gt dists results k n md = Some (inl m) -> counted gt k <> [] ->
  (forall i, NoDup (firstn k (nth i gt [])) /\ incl (firstn k (nth i gt [])) (firstn n (nth i results []))) -> r_average m = Q2Qc 1.
Proof.
  intros Heq E N H. pose proof (C110_errors eqb deq (Q2Qc 0) (Q2Qc 0) Qcplus quotient gt dists results k n md Heq) as HE. unfold knn_exact in E. rewrite E in HE. destruct HE as [Acc _].
  destruct (C110_mean eqb deq gt dists results k n md Heq Acc) as (rs & R1 & X). unfold knn_exact in X. rewrite E in X. injection X as ->. cbn [r_average]. pose proof (recalls_fair deq _ _ _ _ _ _ R1) as FR.
  unfold recalls in R1. assert (NR : rs <> []) by (intros ->; inversion R1; congruence). assert (M : mean_or_0 rs = mean_recall rs) by (destruct rs; [now elim NR|reflexivity]). rewrite M. apply mean_one; [exact NR|exact FR|].
  clear -R1 H. induction R1 as [|i q is rs' P _ IH]; constructor; [|exact IH]. destruct (H i) as [H1 H2]. exact (scored_all deq _ _ _ _ _ _ _ H1 H2 P).
Qed.
Print Assumptions C110_perfect.

(** Without distinctness it is not: results equal to a ground truth with a repeated id do not reach 1. *)
Theorem C110_perfect_refuted : exists gt m,
  knn_exact Nat.eqb Nat.eqb gt None gt 2 2 Fixed = Some (inl m) /\ counted gt 2 <> [] /\ r_average m <> Q2Qc 1.
Proof.
  exists [[7; 7]]. eexists. split; [reflexivity|]. split; [discriminate|]. intros E. apply (f_equal this) in E. vm_compute in E. discriminate.
Qed.
Print Assumptions C110_perfect_refuted.

(** A run without any ground truth reports 0, as one that finds nothing. *)
Theorem C110_no_truth_refuted {A F} (eqb : A -> A -> bool) (deq : F -> F -> bool) (results : list (list A)) k n :
  decides eqb -> k <= n -> knn_exact eqb deq (map (fun _ => []) results) None results k n Flexible = Some (inl (mkR k n (length results) (Q2Qc 0))).
Proof.
  intros Heq K. set (gt := map (fun _ => []) results). assert (Acc : accepted gt (@None (list (list F))) results k n Flexible).
  { split; [exact K|]. split; [unfold gt; now rewrite map_length|]. split; [discriminate|exact I]. }
  destruct (C110_mean eqb deq gt None results k n Flexible Heq Acc) as (rs & R1 & E). unfold gt in *. rewrite map_length in E. rewrite E. unfold recalls in R1.
  assert (C : counted (map (fun _ : list A => @nil A) results) k = []).
  { unfold counted. generalize (seq 0 (length (map (fun _ : list A => @nil A) results))). induction l as [|i l IH]; [reflexivity|]. cbn [filter]. rewrite IH. assert (X : nth i (map (fun _ : list A => @nil A) results) [] = []). { clear. revert i. induction results as [|r rs' IH]; intros [|i]; cbn; auto. } rewrite X. reflexivity. }
  rewrite C in R1. inversion R1. reflexivity.
Qed.
Print Assumptions C110_no_truth_refuted.

Example C110_example :
  let gt := [[1; 2; 3; 4]; [5; 6; 7; 8]] in let ds := [[10; 20; 20; 30]; [10; 20; 30; 30]] in let res := [[3; 9; 1]; [6; 6; 7; 5]] in
  accepted gt (Some ds) res 2 3 Fixed /\ counted gt 2 = [0; 1] /\
  knn Nat.eqb Nat.eqb 0 0 (fun a b => a + b) (fun a b => 100 * a / b) gt (Some ds) res 2 3 Fixed = Some (inl (mkR 2 3 2 75)) /\
  knn Nat.eqb Nat.eqb 0 0 (fun a b => a + b) (fun a b => 100 * a / b) gt (Some ds) res 2 4 Fixed = Some (inl (mkR 2 4 2 100)) /\
  knn Nat.eqb Nat.eqb 0 0 (fun a b => a + b) (fun a b => 100 * a / b) gt (Some [[1]; [2]]) res 2 4 Fixed = Some (inr (GroundTruthDistanceMismatch 1 4)) /\
  knn Nat.eqb Nat.eqb 0 0 (fun a b => a + b) (fun a b => 100 * a / b) [[1]; []; [2; 3]] None [[1]; [5]; [2; 2]] 2 2 Flexible = Some (inl (mkR 2 2 3 75)).
Proof. cbv zeta. split; [|vm_compute; repeat split]. split; [lia|]. split; [reflexivity|]. split; [intros _; repeat constructor|reflexivity]. Qed.

(** ** C111 *)
(** The result is the number of ground truth entries found over the number of ground truth entries. *)
Theorem C111_value {A D} (eqb : A -> A -> bool) (ratio : nat -> nat -> D) (results groundtruth : list (list A)) :
  decides eqb -> average_precision eqb ratio results groundtruth =
    if length results =? length groundtruth
    then Some (inl (length results, ratio (list_sum (map (fun i => found eqb (nth i groundtruth []) (nth i results [])) (seq 0 (length results)))) (list_sum (map (@length A) groundtruth))))
    else Some (inr (length results, length groundtruth)).
Proof. intros Heq. now apply precision_ok. Qed.
Print Assumptions C111_value.

Lemma sums_le (f g : nat -> nat) is : (forall i, f i <= g i) -> list_sum (map f is) <= list_sum (map g is) /\ (list_sum (map f is) = list_sum (map g is) <-> forall i, In i is -> f i = g i).
Proof.
  intros H. induction is as [|i is [IH1 IH2]]; cbn [map list_sum fold_right]; [split; [lia|]; split; [intros _ i []|reflexivity]|]. fold (list_sum (map f is)) (list_sum (map g is)). pose proof (H i) as Hi. split; [lia|]. split.
  - intros E j [<-|J]; [lia|]. apply IH2; [lia|exact J].
  - intros E. rewrite (E i (or_introl eq_refl)). f_equal. apply IH2. intros j J. apply E. now right.
Qed.
Lemma lengths_at {A} (g : list (list A)) : list_sum (map (@length A) g) = list_sum (map (fun i => length (nth i g [])) (seq 0 (length g))).
Proof.
  f_equal. rewrite <- (map_map (fun i => nth i g []) (@length A)). f_equal. apply nth_ext with (d := []) (d' := []); rewrite ?map_length, ?seq_length; [reflexivity|]. intros i I.
  rewrite (nth_indep (map _ _) [] (nth 0 g [])) by (now rewrite map_length, seq_length). rewrite (map_nth (fun i => nth i g []) _ 0). now rewrite seq_nth.
Qed.

(** In exact arithmetic: between 0 and 1, and 1 exactly if all of the ground truth is found, if there is any. *)
Theorem C111_range {A} (eqb : A -> A -> bool) (results groundtruth : list (list A)) q v :
  decides eqb -> precision_exact eqb results groundtruth = Some (inl (q, v)) -> list_sum (map (@length A) groundtruth) <> 0 ->
  q = length groundtruth /\ (Q2Qc 0 <= v <= Q2Qc 1)%Qc /\ (v = Q2Qc 1 <-> forall i, i < length groundtruth -> incl (nth i groundtruth []) (nth i results [])).
Proof.
  intros Heq E N. unfold precision_exact in E. rewrite (C111_value eqb _ _ _ Heq) in E. destruct (Nat.eqb_spec (length results) (length groundtruth)) as [L|L]; [|congruence]. assert (Eq : q = length results /\ v = quotient (list_sum (map (fun i => found eqb (nth i groundtruth []) (nth i results [])) (seq 0 (length results)))) (list_sum (map (@length A) groundtruth))) by (split; congruence).
  destruct Eq as [-> ->]. clear E. rewrite L. split; [reflexivity|]. set (T := list_sum (map (@length A) groundtruth)) in *.
  destruct (sums_le (fun i => found eqb (nth i groundtruth []) (nth i results [])) (fun i => length (nth i groundtruth [])) (seq 0 (length groundtruth)) ltac:(intros i; apply found_le)) as [S1 S2].
  assert (ET : T = list_sum (map (fun i => length (nth i groundtruth [])) (seq 0 (length groundtruth)))) by apply lengths_at. rewrite <- ET in S1, S2.
  set (H := list_sum (map (fun i => found eqb (nth i groundtruth []) (nth i results [])) (seq 0 (length groundtruth)))) in *. split.
  - split; [rewrite <- (quotient_0 T)|rewrite <- (quotient_same T N)]; apply quotient_le; lia.
  - split.
    + intros E i I. apply (found_all eqb Heq). apply S2; [|apply in_seq; lia]. destruct (Nat.eq_dec H T) as [|Q]; [assumption|]. pose proof (quotient_lt H T T N ltac:(lia)) as X. rewrite E, (quotient_same T N) in X. now elim (Qclt_not_eq _ _ X).
    + intros HI. rewrite (proj2 S2); [now apply quotient_same|]. intros i I. apply in_seq in I. apply (found_all eqb Heq). apply HI. lia.
Qed.
Print Assumptions C111_range.

(** It is not a precision: results that are not in the ground truth, however many, change nothing. *)
Theorem C111_precision_refuted {A D} (eqb : A -> A -> bool) (ratio : nat -> nat -> D) (results extra groundtruth : list (list A)) :
  decides eqb -> length extra = length results ->
  (forall i a, In a (nth i extra []) -> ~ In a (nth i groundtruth [])) ->
  average_precision eqb ratio (map (fun p => fst p ++ snd p) (combine results extra)) groundtruth = average_precision eqb ratio results groundtruth.
Proof.
  intros Heq L H. rewrite !(C111_value eqb _ _ _ Heq). rewrite map_length, combine_length, L, Nat.min_id. destruct (length results =? length groundtruth); [|reflexivity]. do 5 f_equal. apply map_ext_in. intros i I. apply in_seq in I. unfold found. f_equal.
  assert (X : nth i (map (fun p : list A * list A => fst p ++ snd p) (combine results extra)) [] = nth i results [] ++ nth i extra []).
  { change (@nil A) with ((fun p : list A * list A => fst p ++ snd p) ([], [])) at 1. rewrite map_nth, combine_nth by (symmetry; exact L). reflexivity. }
  rewrite X. specialize (H i). clear -H Heq. induction (nth i groundtruth []) as [|a g IH]; [reflexivity|]. cbn [filter]. rewrite existsb_app. assert (Z : existsb (eqb a) (nth i extra []) = false).
  { destruct (existsb (eqb a) (nth i extra [])) eqn:Z; [|reflexivity]. apply existsb_exists in Z as (b & B & E). apply Heq in E. subst b. elim (H a B). now left. }
  rewrite Z, orb_false_r, IH; [reflexivity|]. intros b B C. apply (H b B). now right.
Qed.
Print Assumptions C111_precision_refuted.

(** Without ground truth the result is the quotient of 0 and 0 (NaN in f64). *)
Theorem C111_empty_refuted {A D} (eqb : A -> A -> bool) (ratio : nat -> nat -> D) (results : list (list A)) :
  decides eqb -> average_precision eqb ratio results (map (fun _ => []) results) = Some (inl (length results, ratio 0 0)).
Proof.
  intros Heq. rewrite (C111_value eqb _ _ _ Heq), map_length, Nat.eqb_refl. do 3 f_equal.
  assert (Z : list_sum (map (@length A) (map (fun _ : list A => []) results)) = 0) by (clear; induction results; cbn; auto). rewrite Z. f_equal.
  assert (X : forall i, nth i (map (fun _ : list A => @nil A) results) [] = []) by (clear; induction results as [|r rs' IH]; intros [|i]; cbn; auto).
  generalize (seq 0 (length results)). induction l as [|i l IH]; cbn [map list_sum fold_right]; [reflexivity|]. rewrite X. exact IH.
Qed.
Print Assumptions C111_empty_refuted.

Example C111_example :
  average_precision Nat.eqb (fun a b => (a, b)) [[1; 2]; [3]; []] [[2; 2; 4]; [3]; [9]] = Some (inl (3, (3, 5))) /\
  average_precision Nat.eqb (fun a b => (a, b)) [[1; 2; 50; 60; 70]; [3; 80]; []] [[2; 2; 4]; [3]; [9]] = Some (inl (3, (3, 5))).
Proof. split; reflexivity. Qed.
