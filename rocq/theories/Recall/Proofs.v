(** Proofs about recall. *)
From Coq Require Import List PeanoNat Bool Lia Arith QArith Qcanon.
From Verif.Recall Require Import Model Spec.
Import ListNotations.
Local Open Scope nat_scope.

Section Sets.
  Context {A : Type} (eqb : A -> A -> bool) (Heq : decides eqb).
  Lemma mem_In a s : mem eqb a s = true <-> In a s.
  Proof. unfold mem. rewrite existsb_exists. split; [intros (b & B & E); apply Heq in E; now subst|]. intros I. exists a. split; [exact I|now apply Heq]. Qed.
  Lemma mem_not a s : mem eqb a s = false <-> ~ In a s.
  Proof. rewrite <- mem_In. destruct (mem eqb a s); intuition congruence. Qed.
  Lemma insert_ok s a : NoDup s -> NoDup (insert eqb s a) /\ forall b, In b (insert eqb s a) <-> In b s \/ b = a.
  Proof.
    intros N. unfold insert. destruct (mem eqb a s) eqn:E.
    - apply mem_In in E. split; [exact N|]. intros b. split; [now left|]. intros [H| ->]; assumption.
    - apply mem_not in E. split.
      + apply NoDup_rev in N. rewrite <- (rev_involutive (s ++ [a])). apply NoDup_rev. rewrite rev_app_distr. cbn. constructor; [|exact N]. now rewrite <- in_rev.
      + intros b. rewrite in_app_iff. cbn. intuition congruence.
  Qed.
  Lemma extend_ok l : forall s, NoDup s -> NoDup (extend eqb s l) /\ forall b, In b (extend eqb s l) <-> In b s \/ In b l.
  Proof.
    unfold extend. induction l as [|a l IH]; intros s N; cbn [fold_left]; [split; [exact N|]; cbn; tauto|].
    destruct (insert_ok s a N) as [N1 I1]. destruct (IH _ N1) as [N2 I2]. split; [exact N2|]. intros b. rewrite I2, I1. cbn. intuition congruence.
  Qed.
  Context {F : Type} (deq : F -> F -> bool).
  (** The run of ties at the head of a list. *)
  Lemma ties_ok last l : forall s, NoDup s -> NoDup (ties eqb deq last l s) /\
    forall b, In b (ties eqb deq last l s) <-> In b s \/ exists j, (exists d, nth_error l j = Some (d, b)) /\ forall i, i <= j -> exists d g, nth_error l i = Some (d, g) /\ deq d last = true.
  Proof.
    induction l as [|[d g] l IH]; intros s N; cbn [ties].
    - split; [exact N|]. intros b. split; [now left|]. intros [H|([|j] & (d & E) & _)]; [exact H|discriminate..].
    - destruct (deq d last) eqn:E.
      + destruct (insert_ok s g N) as [N1 I1]. destruct (IH _ N1) as [N2 I2]. split; [exact N2|]. intros b. rewrite I2, I1. split.
        * intros [[H| ->]|(j & (d' & J) & P)]; [now left| |].
          { right. exists 0. split; [now exists d|]. intros i I. assert (i = 0) as -> by lia. now exists d, g. }
          { right. exists (S j). split; [now exists d'|]. intros [|i] I; [now exists d, g|]. apply P. lia. }
        * intros [H|([|j] & (d' & J) & P)]; [now left; left| |].
          { cbn in J. injection J as _ <-. left. now right. }
          { right. exists j. split; [now exists d'|]. intros i I. apply (P (S i)). lia. }
      + split; [exact N|]. intros b. split; [now left|]. intros [H|(j & _ & P)]; [exact H|]. destruct (P 0 ltac:(lia)) as (d' & g' & J & Q). cbn in J. injection J as <- <-. congruence.
  Qed.
End Sets.

Lemma nth_firstn {A} (l : list A) : forall n i, i < n -> nth_error (firstn n l) i = nth_error l i.
Proof. induction l as [|a l IH]; intros [|n] [|i] H; cbn; try reflexivity; try lia. apply IH. lia. Qed.
Lemma nth_skipn {A} (l : list A) : forall n i, nth_error (skipn n l) i = nth_error l (n + i).
Proof. induction l as [|a l IH]; intros [|n] i; cbn; try reflexivity; [now destruct i|apply IH]. Qed.
Lemma In_firstn {A} (l : list A) n a : In a (firstn n l) <-> exists j, j < n /\ nth_error l j = Some a.
Proof.
  split.
  - intros I. apply In_nth_error in I as (j & J). assert (L : j < length (firstn n l)) by (apply nth_error_Some; congruence). rewrite firstn_length in L. exists j. split; [lia|]. now rewrite <- (nth_firstn l n j) by lia.
  - intros (j & L & J). apply (nth_error_In _ j). now rewrite nth_firstn.
Qed.
Lemma nth_combine {A B} (l : list A) : forall (m : list B) i, nth_error (combine l m) i = match nth_error l i, nth_error m i with Some a, Some b => Some (a, b) | _, _ => None end.
Proof. induction l as [|a l IH]; intros [|b m] [|i]; cbn; try reflexivity; [now destruct (nth_error l i)|apply IH]. Qed.

Section Query.
  Context {A F : Type} (eqb : A -> A -> bool) (Heq : decides eqb) (deq : F -> F -> bool).
  Lemma hits_ok gt (dist : option (list F)) result k n : match dist with Some ds => length ds = length gt | None => True end ->
    (Nat.min (length gt) k = 0 /\ hits eqb deq gt dist result k n = Some None) \/
    (0 < Nat.min (length gt) k /\ exists k' r, hits eqb deq gt dist result k n = Some (Some (k', r)) /\ scored deq gt dist result k n k' r).
  Proof.
    intros HD. unfold hits. cbv zeta. set (k' := Nat.min (length gt) k). destruct (Nat.eqb_spec k' 0) as [E|E]; [left; now split|]. right. split; [lia|].
    destruct (extend_ok eqb Heq (firstn k' gt) [] (NoDup_nil A)) as [G1 G2]. destruct (extend_ok eqb Heq (firstn n result) [] (NoDup_nil A)) as [R1 R2].
    assert (Q : forall g, NoDup g -> (forall b, In b g <-> wanted deq gt dist k' b) ->
      exists k0 r, Some (Some (k', Nat.min (length (filter (fun i => mem eqb i (extend eqb [] (firstn n result))) g)) k')) = Some (Some (k0, r)) /\ scored deq gt dist result k n k0 r).
    { intros g N I. do 2 eexists. split; [reflexivity|]. split; [reflexivity|]. eexists. split; [|reflexivity]. split; [now apply NoDup_filter|].
      intros a. rewrite filter_In, I, (mem_In eqb Heq), R2. cbn. tauto. }
    destruct dist as [ds|].
    - destruct (nth_error ds (k' - 1)) as [last|] eqn:EL; [|apply nth_error_None in EL; lia].
      destruct (ties_ok eqb Heq deq last (skipn k' (combine ds gt)) _ G1) as [T1 T2]. apply Q; [exact T1|]. intros b. rewrite T2, G2, In_firstn. unfold wanted, tie. cbn [In]. split.
      + intros [[[]|(j & J & N)]|(j & (d & J) & P)]; [exists j; split; [exact N|now left]|].
        rewrite nth_skipn, nth_combine in J. destruct (nth_error ds (k' + j)) eqn:E1, (nth_error gt (k' + j)) eqn:E2; try discriminate. injection J as -> ->.
        exists (k' + j). split; [exact E2|]. right. exists ds. split; [reflexivity|]. split; [lia|]. intros i I. destruct (P (i - k') ltac:(lia)) as (d' & g' & J & Q').
        rewrite nth_skipn, nth_combine in J. replace (k' + (i - k')) with i in J by lia. destruct (nth_error ds i) eqn:E3, (nth_error gt i); try discriminate. injection J as -> ->. now exists d', last.
      + intros (j & N & [J|(ds' & D & J & P)]); [left; right; now exists j|]. injection D as <-. right. exists (j - k').
        assert (LJ : j < length gt) by (apply nth_error_Some; congruence). split.
        * rewrite nth_skipn, nth_combine. replace (k' + (j - k')) with j by lia. rewrite N. destruct (nth_error ds j) eqn:E1; [eauto|]. apply nth_error_None in E1. lia.
        * intros i I. destruct (P (k' + i) ltac:(lia)) as (d & last' & E1 & E2 & E3). rewrite nth_skipn, nth_combine, E1.
          destruct (nth_error gt (k' + i)) as [g|] eqn:E4; [|apply nth_error_None in E4; lia]. exists d, g. split; [reflexivity|]. congruence.
    - apply Q; [exact G1|]. intros b. rewrite G2, In_firstn. unfold wanted. cbn [In]. split.
      + intros [[]|(j & J & N)]. exists j. split; [exact N|now left].
      + intros (j & N & [J|(ds & D & _)]); [right; now exists j|discriminate].
  Qed.
  Lemma scored_fun (gt : list A) (dist : option (list F)) result k n k1 r1 k2 r2 : scored deq gt dist result k n k1 r1 -> scored deq gt dist result k n k2 r2 -> k1 = k2 /\ r1 = r2.
  Proof.
    intros [-> (l1 & [N1 I1] & ->)] [-> (l2 & [N2 I2] & ->)]. split; [reflexivity|]. f_equal. apply Nat.le_antisymm; apply NoDup_incl_length; try assumption; intros a I; [apply I2, I1|apply I1, I2]; exact I.
  Qed.
End Query.

(** ** The map of hits by denominator *)
Definition worth (m : list (nat * nat)) : Qc := qsum (map (fun p => quotient (snd p) (fst p)) m).
Lemma qnat_plus a b : qnat (a + b) = (qnat a + qnat b)%Qc.
Proof. unfold qnat. apply Qc_is_canon. cbn [this Qcplus Q2Qc]. rewrite !Qred_correct, Nat2Z.inj_add, inject_Z_plus. reflexivity. Qed.
Lemma qnat_mult a b : qnat (a * b) = (qnat a * qnat b)%Qc.
Proof. unfold qnat. apply Qc_is_canon. cbn [this Qcmult Q2Qc]. rewrite !Qred_correct, Nat2Z.inj_mul, inject_Z_mult. reflexivity. Qed.
Lemma qnat_0 : qnat 0 = Q2Qc 0.
Proof. reflexivity. Qed.
Lemma qnat_nz n : n <> 0 -> qnat n <> Q2Qc 0.
Proof.
  intros N E. apply (f_equal this) in E. unfold qnat in E. cbn [this Q2Qc] in E. pose proof (Qred_correct (inject_Z (Z.of_nat n))) as R. rewrite E in R. change (Qred 0) with 0%Q in R.
  symmetry in R. unfold Qeq, inject_Z in R. cbn in R. lia.
Qed.
Lemma qnat_le a b : a <= b -> (qnat a <= qnat b)%Qc.
Proof. intros H. unfold qnat, Qcle. cbn [this Q2Qc]. rewrite !Qred_correct. rewrite <- Zle_Qle. lia. Qed.
Lemma worth_bump k r m : worth (bump k r m) = (worth m + quotient r k)%Qc.
Proof.
  unfold worth. induction m as [|[k' h] m IH]; cbn [bump]; [cbn; ring|]. destruct (k <? k'); [cbn [map qsum fold_right fst snd]; ring|].
  destruct (Nat.eqb_spec k k') as [->|]; cbn [map qsum fold_right fst snd]; [|unfold qsum in IH; rewrite IH; ring]. unfold quotient, Qcdiv. rewrite qnat_plus. ring.
Qed.
Lemma score_ok query : forall is m c qs, Forall2 (fun i q => query i = Some q) is qs ->
  score query is m c = Some (fold_left (fun m q => match q with Some (k, r) => bump k r m | None => m end) qs m,
                             c + length (filter (fun q => match q with Some _ => true | None => false end) qs)).
Proof.
  intros is m c qs H. revert m c. induction H as [|i q is qs Q _ IH]; intros m c; cbn [score fold_left filter]; [now rewrite Nat.add_0_r|]. rewrite Q.
  destruct q as [[k r]|]; rewrite IH; [|reflexivity]. cbn [length]. rewrite Nat.add_succ_r. reflexivity.
Qed.
Lemma worth_fold qs : forall m, worth (fold_left (fun m q => match q with Some (k, r) => bump k r m | None => m end) qs m) =
  (worth m + qsum (map (fun p => quotient (snd p) (fst p)) (flat_map (fun q : option (nat * nat) => match q with Some p => [p] | None => [] end) qs)))%Qc.
Proof.
  induction qs as [|[[k r]|] qs IH]; intros m; cbn [fold_left flat_map app map qsum fold_right]; [ring| |apply IH].
  rewrite IH, worth_bump. cbn [fst snd]. unfold qsum. ring.
Qed.
Lemma filter_flat (qs : list (option (nat * nat))) : length (filter (fun q => match q with Some _ => true | None => false end) qs) =
  length (flat_map (fun q : option (nat * nat) => match q with Some p => [p] | None => [] end) qs).
Proof. induction qs as [|[p|] qs IH]; cbn; congruence. Qed.
Lemma qsum_start l : forall s, fold_left Qcplus l s = (s + qsum l)%Qc.
Proof. induction l as [|a l IH]; intros s; cbn [fold_left qsum fold_right]; [ring|]. rewrite IH. unfold qsum. ring. Qed.
Lemma average_exact m c : c <> 0 -> fold_left Qcplus (map (fun e : nat * nat => quotient (snd e) (fst e * c)) m) (Q2Qc 0) = (worth m / qnat c)%Qc.
Proof.
  intros C. rewrite qsum_start. assert (Z : (Q2Qc 0 + qsum (map (fun e : nat * nat => quotient (snd e) (fst e * c)) m))%Qc = qsum (map (fun e : nat * nat => quotient (snd e) (fst e * c)) m)) by ring. rewrite Z. clear Z.
  unfold worth. induction m as [|[k h] m IH]; cbn [map qsum fold_right fst snd]; [unfold Qcdiv; ring|]. unfold qsum in IH. rewrite IH. unfold quotient, Qcdiv. rewrite qnat_mult, Qcinv_mult_distr. ring.
Qed.
