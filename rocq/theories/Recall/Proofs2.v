(** Proofs about whole calls. *)
From Coq Require Import List PeanoNat Bool Lia Arith QArith Qcanon.
From Verif.Recall Require Import Model Spec Proofs.
Import ListNotations.
Local Open Scope nat_scope.

Lemma validate_ok test : forall is, (forall i, In i is -> exists r, test i = Some r) ->
  (validate test is = Some None /\ forall i, In i is -> test i = Some None) \/ (exists i e, In i is /\ test i = Some (Some e) /\ validate test is = Some (Some e)).
Proof.
  induction is as [|i is IH]; intros H; [left; split; [reflexivity|intros i []]|]. cbn [validate]. destruct (H i (or_introl eq_refl)) as [[e|] E]; rewrite E.
  - right. exists i, e. split; [now left|]. now split.
  - destruct IH as [[V1 V2]|(j & e & J1 & J2 & J3)]; [intros j J; apply H; now right| |].
    + left. split; [exact V1|]. intros j [<-|J]; [exact E|now apply V2].
    + right. exists j, e. split; [now right|]. now split.
Qed.
Lemma row_some {B} (m : list (list B)) i : i < length m -> row m i = Some (nth i m []).
Proof. intros L. unfold row. now apply nth_error_nth'. Qed.

Lemma Forall2_weaken {A B} (P Q : A -> B -> Prop) l m : (forall a b, P a b -> Q a b) -> Forall2 P l m -> Forall2 Q l m.
Proof. intros H. induction 1; constructor; auto. Qed.

Section Calls.
  Context {A F D : Type} (eqb : A -> A -> bool) (Heq : decides eqb) (deq : F -> F -> bool) (dzero dstart : D) (dadd : D -> D -> D) (ratio : nat -> nat -> D).
  Notation call := (knn eqb deq dzero dstart dadd ratio).
  (** The result of a query by its index. *)
  Lemma queries_ok (gt : list (list A)) (dists : option (list (list F))) results k n md : accepted gt dists results k n md ->
    exists qs, Forall2 (fun i q => (match row results i with Some r => match row gt i with Some g =>
        match dists with None => hits eqb deq g None r k n | Some ds => match row ds i with Some d => hits eqb deq g (Some d) r k n | None => None end end | None => None end | None => None end) = Some q /\
      match q with
      | None => Nat.min (length (nth i gt [])) k = 0
      | Some (k', r) => 0 < Nat.min (length (nth i gt [])) k /\ scored deq (nth i gt []) (at_query dists i) (nth i results []) k n k' r
      end) (seq 0 (length results)) qs.
  Proof.
    intros (K & LR & _ & LD).
    assert (LD' : match dists with Some ds => length ds = length gt | None => True end) by (destruct dists; [apply (f_equal (@length nat)) in LD; rewrite !map_length in LD; exact LD|exact I]).
    assert (H : forall is, (forall i, In i is -> i < length results) -> exists qs, Forall2 (fun i q => (match row results i with Some r => match row gt i with Some g =>
        match dists with None => hits eqb deq g None r k n | Some ds => match row ds i with Some d => hits eqb deq g (Some d) r k n | None => None end end | None => None end | None => None end) = Some q /\
      match q with
      | None => Nat.min (length (nth i gt [])) k = 0
      | Some (k', r) => 0 < Nat.min (length (nth i gt [])) k /\ scored deq (nth i gt []) (at_query dists i) (nth i results []) k n k' r
      end) is qs).
    { induction is as [|i is IH]; intros HI; [now exists []|]. destruct IH as (qs & Q); [intros j J; apply HI; now right|]. pose proof (HI i (or_introl eq_refl)) as LI.
      assert (Q0 : exists q, (match row results i with Some r => match row gt i with Some g =>
        match dists with None => hits eqb deq g None r k n | Some ds => match row ds i with Some d => hits eqb deq g (Some d) r k n | None => None end end | None => None end | None => None end) = Some q /\
      match q with
      | None => Nat.min (length (nth i gt [])) k = 0
      | Some (k', r) => 0 < Nat.min (length (nth i gt [])) k /\ scored deq (nth i gt []) (at_query dists i) (nth i results []) k n k' r
      end); [|destruct Q0 as (q & Q0); exists (q :: qs); now constructor].
      rewrite (row_some results) by exact LI. rewrite (row_some gt) by lia.
      assert (E : (match dists with None => hits eqb deq (nth i gt []) None (nth i results []) k n | Some ds => match row ds i with Some d => hits eqb deq (nth i gt []) (Some d) (nth i results []) k n | None => None end end)
              = hits eqb deq (nth i gt []) (at_query dists i) (nth i results []) k n).
      { destruct dists as [ds|]; [|reflexivity]. rewrite (row_some ds) by lia. reflexivity. }
      rewrite E. destruct (hits_ok eqb Heq deq (nth i gt []) (at_query dists i) (nth i results []) k n) as [[Z HQ]|(P & k' & r & HQ & S)].
      - destruct dists as [ds|]; [|exact I]. cbn [at_query]. rewrite <- (map_nth (@length F)), <- (map_nth (@length A)), LD. reflexivity.
      - exists None. now split.
      - exists (Some (k', r)). now split. }
    apply H. intros i I. apply in_seq in I. lia.
  Qed.
  Lemma knn_accepted (gt : list (list A)) (dists : option (list (list F))) results k n md : accepted gt dists results k n md ->
    exists qs, Forall2 (fun i q => match q with
      | None => Nat.min (length (nth i gt [])) k = 0
      | Some (k', r) => 0 < Nat.min (length (nth i gt [])) k /\ scored deq (nth i gt []) (at_query dists i) (nth i results []) k n k' r
      end) (seq 0 (length results)) qs /\
    call gt dists results k n md = Some (inl (mkR k n (length results)
      (average_of dzero dstart dadd ratio (fold_left (fun m q => match q with Some (k, r) => bump k r m | None => m end) qs []) (length (filter (fun q => match q with Some _ => true | None => false end) qs))))).
  Proof.
    intros Acc. destruct (queries_ok gt dists results k n md Acc) as (qs & Q). exists qs. split; [eapply Forall2_weaken; [|exact Q]; intros i q [_ H]; exact H|].
    destruct Acc as (K & LR & LF & LD). unfold knn. destruct (Nat.ltb_spec n k) as [L|_]; [lia|]. cbv zeta. rewrite LR, Nat.eqb_refl. cbn [negb].
    assert (V1 : (match md with Flexible => Some None | Fixed => validate (fun i => match row gt i with Some g => Some (if length g <? k then Some (NotEnoughGroundTruth (length g) k) else None) | None => None end) (seq 0 (length gt)) end) = Some None).
    { destruct md; [|reflexivity]. specialize (LF eq_refl). rewrite Forall_forall in LF.
      assert (T : forall i, In i (seq 0 (length gt)) -> match row gt i with Some g => Some (if length g <? k then Some (NotEnoughGroundTruth (length g) k) else None) | None => None end = Some None).
      { intros i I. apply in_seq in I. rewrite row_some by lia. destruct (Nat.ltb_spec (length (nth i gt [])) k) as [L|_]; [|reflexivity]. assert (HI : i < length gt) by lia. pose proof (LF _ (nth_In gt [] HI)) as LF'. cbv beta in LF'. lia. }
      edestruct (validate_ok (fun i => match row gt i with Some g => Some (if length g <? k then Some (NotEnoughGroundTruth (length g) k) else None) | None => None end) (seq 0 (length gt))) as [[V _]|(i & e & I & E & _)]; [intros i I; eexists; now apply T|exact V|]. specialize (T i I). cbv beta in E. congruence. }
    rewrite V1.
    assert (V2 : (match dists with None => Some None | Some ds => if negb (length gt =? length ds) then Some (Some (DistanceRowsMismatch (length ds) (length gt))) else
               validate (fun i => match row gt i with Some g => match row ds i with Some d =>
                 Some (if negb (length g =? length d) then Some (GroundTruthDistanceMismatch (length d) (length g)) else None) | None => None end | None => None end) (seq 0 (length gt)) end) = Some None).
    { destruct dists as [ds|]; [|reflexivity]. assert (LL : length ds = length gt) by (apply (f_equal (@length nat)) in LD; rewrite !map_length in LD; exact LD). rewrite LL, Nat.eqb_refl. cbn [negb].
      assert (T : forall i, In i (seq 0 (length gt)) -> match row gt i with Some g => match row ds i with Some d =>
                 Some (if negb (length g =? length d) then Some (GroundTruthDistanceMismatch (length d) (length g)) else None) | None => None end | None => None end = Some None).
      { intros i I. apply in_seq in I. rewrite (row_some gt), (row_some ds) by lia. assert (E : length (nth i gt []) = length (nth i ds [])) by (rewrite <- (map_nth (@length F)), <- (map_nth (@length A)), LD; reflexivity). rewrite E, Nat.eqb_refl. reflexivity. }
      edestruct (validate_ok (fun i => match row gt i with Some g => match row ds i with Some d =>
                 Some (if negb (length g =? length d) then Some (GroundTruthDistanceMismatch (length d) (length g)) else None) | None => None end | None => None end) (seq 0 (length gt))) as [[V _]|(i & e & I & E & _)]; [intros i I; eexists; now apply T|exact V|]. specialize (T i I). cbv beta in E. congruence. }
    rewrite V2. erewrite score_ok by (eapply Forall2_weaken; [|rewrite <- LR; exact Q]; intros i q [H _]; exact H). reflexivity.
  Qed.
  Lemma knn_rejected (gt : list (list A)) (dists : option (list (list F))) results k n md :
    accepted gt dists results k n md \/ exists e, call gt dists results k n md = Some (inr e) /\ reason gt dists results k n md e.
  Proof.
    unfold knn. destruct (Nat.ltb_spec n k) as [L|L]; [right; eexists; split; [reflexivity|now repeat split]|]. cbv zeta.
    destruct (Nat.eqb_spec (length results) (length gt)) as [LR|LR]; cbn [negb]; [|right; eexists; split; [reflexivity|now repeat split]]. rewrite LR.
    assert (V1 : ((md = Fixed -> Forall (fun g => k <= length g) gt) /\ (match md with Flexible => Some None | Fixed => validate (fun i => match row gt i with Some g => Some (if length g <? k then Some (NotEnoughGroundTruth (length g) k) else None) | None => None end) (seq 0 (length gt)) end) = Some None) \/
      exists e, (match md with Flexible => Some None | Fixed => validate (fun i => match row gt i with Some g => Some (if length g <? k then Some (NotEnoughGroundTruth (length g) k) else None) | None => None end) (seq 0 (length gt)) end) = Some (Some e) /\ reason gt dists results k n md e).
    { destruct md; [|left; now split].
      destruct (validate_ok (fun i => match row gt i with Some g => Some (if length g <? k then Some (NotEnoughGroundTruth (length g) k) else None) | None => None end) (seq 0 (length gt))) as [[V T]|(i & e & I & E & V)].
      - intros i I. apply in_seq in I. rewrite row_some by lia. eauto.
      - left. split; [|exact V]. intros _. apply Forall_forall. intros g G. apply (In_nth _ _ []) in G as (i & I & <-). specialize (T i ltac:(apply in_seq; lia)). cbv beta in T. rewrite row_some in T by exact I.
        destruct (Nat.ltb_spec (length (nth i gt [])) k); [congruence|assumption].
      - right. exists e. split; [exact V|]. apply in_seq in I. cbv beta in E. rewrite row_some in E by lia. destruct (Nat.ltb_spec (length (nth i gt [])) k) as [Q|]; [|congruence]. injection E as <-. repeat split; [exact Q|]. exists (nth i gt []). split; [apply nth_In; lia|reflexivity]. }
    destruct V1 as [[LF V1]|(e & V1 & Rs)]; rewrite V1; [|right; exists e; now split].
    destruct dists as [ds|]; [|left; now repeat split].
    destruct (Nat.eqb_spec (length gt) (length ds)) as [LL|LL]; cbn [negb]; [|right; eexists; split; [reflexivity|]; exists ds; repeat split; lia].
    destruct (validate_ok (fun i => match row gt i with Some g => match row ds i with Some d =>
                 Some (if negb (length g =? length d) then Some (GroundTruthDistanceMismatch (length d) (length g)) else None) | None => None end | None => None end) (seq 0 (length gt))) as [[V T]|(i & e & I & E & V)].
    - intros i I. apply in_seq in I. rewrite (row_some gt), (row_some ds) by lia. eauto.
    - left. split; [exact L|]. split; [exact LR|]. split; [exact LF|]. apply nth_ext with (d := length (@nil F)) (d' := length (@nil A)); [now rewrite !map_length|]. intros i I. rewrite map_length in I. rewrite !map_nth.
      specialize (T i ltac:(apply in_seq; lia)). cbv beta in T. rewrite (row_some gt), (row_some ds) in T by lia. destruct (Nat.eqb_spec (length (nth i gt [])) (length (nth i ds []))); cbn in T; [lia|congruence].
    - right. exists e. rewrite V. split; [reflexivity|]. apply in_seq in I. cbv beta in E. rewrite (row_some gt), (row_some ds) in E by lia. destruct (Nat.eqb_spec (length (nth i gt [])) (length (nth i ds []))) as [|Q]; cbn [negb] in E; [congruence|]. injection E as <-.
      exists ds, i, (nth i ds []), (nth i gt []). split; [reflexivity|]. split; [apply nth_error_nth'; lia|]. split; [apply nth_error_nth'; lia|]. repeat split. lia.
  Qed.
End Calls.
