(** Means, samples and picked rows. *)
From Coq Require Import List PeanoNat Bool Lia QArith Qcanon Sorted.
From Verif.Lib Require Import Base Lists.
From Verif.Medoid Require Import Model Spec Proofs.
Import ListNotations.
Local Open Scope nat_scope.

Section P.
  Context {T D F : Type} (o : ops T D F).
  Lemma add_len : forall s r, length (add_row o s r) = length s.
  Proof. induction s as [|x s IH]; intros [|y r]; cbn; congruence. Qed.
  Lemma add_nth : forall s r k x, length r = length s -> nth_error s k = Some x -> nth_error (add_row o s r) k = Some (dadd o x (into o (nth k r (tzero o)))).
  Proof. induction s as [|x s IH]; intros [|y r] [|k] z L H; try discriminate; cbn in *; [congruence|]. apply IH; [lia|exact H]. Qed.
  Lemma sums_nth : forall rows s k x, Forall (fun r => length r = length s) rows -> nth_error s k = Some x ->
    nth_error (fold_left (add_row o) rows s) k = Some (fold_left (fun s r => dadd o s (into o (nth k r (tzero o)))) rows x).
  Proof.
    induction rows as [|r rows IH]; intros s k x H N; cbn [fold_left]; [exact N|]. inversion H as [|? ? H1 H2]; subst. apply IH; [rewrite add_len; exact H2|]. apply add_nth; assumption.
  Qed.
  Lemma sums_length : forall rows s, length (fold_left (add_row o) rows s) = length s.
  Proof. induction rows as [|r rows IH]; intros s; cbn [fold_left]; [reflexivity|]. rewrite IH. apply add_len. Qed.
  Lemma mean_ok dim rows : Forall (fun r => length r = dim) rows -> is_mean o dim rows (mean o dim rows (length rows)).
  Proof.
    intros H. split; [unfold mean, sums; now rewrite map_length, sums_length, repeat_length|]. intros k K. unfold mean, sums. rewrite nth_error_map.
    rewrite (sums_nth rows _ k (d0 o)); [reflexivity| |]; [rewrite repeat_length; exact H|]. apply nth_error_repeat. exact K.
  Qed.
  Lemma is_mean_unique dim rows c c' : is_mean o dim rows c -> is_mean o dim rows c' -> c = c'.
  Proof.
    intros (L & H) (L' & H'). apply nth_error_ext. intros k. destruct (Nat.lt_ge_cases k dim) as [K|K]; [now rewrite H, H'|].
    rewrite (proj2 (nth_error_None c k)), (proj2 (nth_error_None c' k)) by lia. reflexivity.
  Qed.
  Lemma scan_spec ok c rows : ordered o ok -> match snd (scan o c rows) with Some (i, r) => nearest o ok c rows i r | None => out_of_range o c rows end.
  Proof.
    intros [I Tr Co]. destruct (scan_good o c Tr I rows) as (H1 & H2 & H3). destruct (snd (scan o c rows)) as [[i r]|] eqn:E.
    - destruct (H3 i r eq_refl) as (A & B & C). split; [exact A|]. split; [exact C|]. split.
      + intros q Q. apply In_nth_error in Q. destruct Q as (j & Q). destruct (flt o (dist o c q) (dist o c r)) eqn:X; [|reflexivity]. exfalso. apply (H1 j q Q). rewrite B. exact X.
      + exact (scan_first o c Tr I ok Co rows i r E).
    - intros r R. apply In_nth_error in R. destruct R as (j & R). destruct (flt o (dist o c r) (fmax o)) eqn:X; [|reflexivity]. exfalso. apply (H1 j r R). rewrite (H2 eq_refl). exact X.
  Qed.
  Lemma sample_ok chosen : forall (rows : list (list T)) s, let f := filter (fun p => chosen (fst p)) (combine (seq s (length rows)) rows) in
    (forall i, In i (map fst f) <-> s <= i < s + length rows /\ chosen i = true) /\ StronglySorted lt (map fst f) /\ Forall2 (fun i r => s <= i /\ nth_error rows (i - s) = Some r) (map fst f) (map snd f).
  Proof.
    induction rows as [|r rows IH]; intros s; cbn [length seq combine filter].
    - cbn. split; [intros i; split; [tauto|lia]|]. split; constructor.
    - destruct (IH (S s)) as (A & B & C). set (f := filter _ _) in *. cbn [fst].
      assert (C' : Forall2 (fun i q => s <= i /\ nth_error (r :: rows) (i - s) = Some q) (map fst f) (map snd f)).
      { clear - C. induction C as [|i q l l' (H1 & H2) _ IH]; constructor; [|exact IH]. split; [lia|]. replace (i - s) with (S (i - S s)) by lia. exact H2. }
      destruct (chosen s) eqn:E; cbn [map fst snd].
      + split; [|split].
        * intros i. cbn [In]. rewrite A. split.
          -- intros [->|(X & Y)]; (split; [lia|assumption]).
          -- intros (X & Y). destruct (Nat.eq_dec s i) as [->|N]; [now left|right]. split; [lia|exact Y].
        * constructor; [exact B|]. apply Forall_forall. intros i X. apply A in X. lia.
        * constructor; [split; [lia|now rewrite Nat.sub_diag]|exact C'].
      + split; [|split; [exact B|exact C']]. intros i. rewrite A. split; [intros (X & Y); split; [lia|exact Y]|]. intros (X & Y). split; [|exact Y]. assert (i <> s) by congruence. lia.
  Qed.
  Lemma sorted_nth : forall l, StronglySorted lt l -> forall a b x y, a < b -> nth_error l a = Some x -> nth_error l b = Some y -> x < y.
  Proof.
    induction 1 as [|z l _ IH H]; intros a b x y L A B; [now destruct a|]. destruct a as [|a], b as [|b]; try lia; cbn in A, B.
    - injection A as <-. apply nth_error_In in B. rewrite Forall_forall in H. exact (H y B).
    - apply (IH a b x y); [lia|exact A|exact B].
  Qed.
  Lemma sample_is chosen (rows : list (list T)) : sample_of chosen rows (map snd (filter (fun p => chosen (fst p)) (combine (seq 0 (length rows)) rows))).
  Proof.
    destruct (sample_ok chosen rows 0) as (A & B & C). set (f := filter _ _) in *. exists (map fst f). split; [intros i; rewrite A; cbn; split; intros (X & Y); (split; [lia|exact Y])|]. split; [exact (sorted_nth _ B)|].
    clear - C. induction C as [|i q l l' (_ & H) _ IH]; constructor; [|exact IH]. rewrite Nat.sub_0_r in H. exact H.
  Qed.
  Lemma sorted_unique : forall l l', StronglySorted lt l -> StronglySorted lt l' -> (forall i, In i l <-> In i l') -> l = l'.
  Proof.
    induction l as [|x l IH]; intros [|y l'] A B E.
    - reflexivity.
    - destruct (proj2 (E y)); now left.
    - destruct (proj1 (E x)); now left.
    - inversion A as [|? ? A1 A2]; inversion B as [|? ? B1 B2]; subst. rewrite Forall_forall in A2, B2.
      assert (x = y). { destruct (proj1 (E x) (or_introl eq_refl)) as [X|X]; [auto|]. destruct (proj2 (E y) (or_introl eq_refl)) as [Y|Y]; [auto|]. apply B2 in X. apply A2 in Y. lia. }
      subst y. f_equal. apply IH; [assumption|assumption|]. intros i. split; intros X.
      + destruct (proj1 (E i) (or_intror X)) as [Y|Y]; [|exact Y]. subst. apply A2 in X. lia.
      + destruct (proj2 (E i) (or_intror X)) as [Y|Y]; [|exact Y]. subst. apply B2 in X. lia.
  Qed.
  Lemma nth_sorted : forall l, (forall a b x y, a < b -> nth_error l a = Some x -> nth_error l b = Some y -> x < y) -> StronglySorted lt l.
  Proof.
    induction l as [|z l IH]; intros H; constructor.
    - apply IH. intros a b x y L A B. apply (H (S a) (S b) x y); [lia|exact A|exact B].
    - apply Forall_forall. intros y Y. apply In_nth_error in Y. destruct Y as (b & Y). apply (H 0 (S b) z y); [lia|reflexivity|exact Y].
  Qed.
  Lemma sample_unique chosen (rows a b : list (list T)) : sample_of chosen rows a -> sample_of chosen rows b -> a = b.
  Proof.
    intros (l & A1 & A2 & A3) (l' & B1 & B2 & B3). assert (l = l'). { apply sorted_unique; [now apply nth_sorted|now apply nth_sorted|]. intros i. now rewrite A1, B1. }
    subst l'. clear - A3 B3. revert b B3. induction A3 as [|i q l a H _ IH]; intros b B3; inversion B3; subst; [reflexivity|]. f_equal; [congruence|]. now apply IH.
  Qed.
  Lemma pick_ok (rows : list (list T)) : forall is, Forall (fun i => i < length rows) is -> exists l, pick rows is = Some l /\ Forall2 (fun i r => nth_error rows i = Some r) is l.
  Proof.
    induction 1 as [|i is H _ (l & E & P)]; cbn [pick]; [exists []; split; [reflexivity|constructor]|]. destruct (nth_error rows i) as [r|] eqn:N; [|apply nth_error_None in N; lia]. rewrite E. exists (r :: l). split; [reflexivity|]. constructor; assumption.
  Qed.
  Lemma sample_all chosen (rows : list (list T)) : (forall i, i < length rows -> chosen i = true) -> map snd (filter (fun p => chosen (fst p)) (combine (seq 0 (length rows)) rows)) = rows.
  Proof.
    assert (X : forall rows s, (forall i, s <= i < s + length rows -> chosen i = true) -> map (@snd nat (list T)) (filter (fun p => chosen (fst p)) (combine (seq s (length rows)) rows)) = rows).
    { clear. induction rows as [|r rows IH]; intros s H; [reflexivity|]. cbn [length seq combine filter fst]. rewrite H by (cbn; lia). cbn [map snd]. f_equal. apply IH. intros i I. apply H. cbn. lia. }
    intros H. apply X. intros i I. apply H. lia.
  Qed.
End P.

Lemma sampled_all draws max n i : (forall i, draws i < 1)%Qc -> max = 0 \/ n <= max -> sampled draws max n i = true.
Proof.
  intros D H. unfold sampled, rate. replace ((max =? 0) || (n <=? max)) with true; [|symmetry; apply orb_true_iff; destruct H as [->|H]; [now left|right; now apply Nat.leb_le]].
  destruct (Qclt_le_dec (draws i) 1) as [_|X]; [reflexivity|]. exfalso. exact (Qclt_not_le _ _ (D i) X).
Qed.
Lemma exact_ordered bound : ordered (exact bound) (fun _ => True).
Proof.
  split; cbn [exact flt]; unfold qlt.
  - intros a. destruct (Qclt_le_dec a a) as [X|_]; [|reflexivity]. exfalso. exact (Qclt_not_eq _ _ X eq_refl).
  - intros a b d. destruct (Qclt_le_dec a b) as [X|]; [|discriminate]. destruct (Qclt_le_dec b d) as [Y|]; [|discriminate]. intros _ _. destruct (Qclt_le_dec a d) as [|V]; [reflexivity|]. exfalso. exact (Qclt_not_le _ _ (Qclt_trans _ _ _ X Y) V).
  - intros a b d _. destruct (Qclt_le_dec a b) as [X|]; [|discriminate]. intros _. destruct (Qclt_le_dec a d) as [|U]; [now left|]. right. destruct (Qclt_le_dec d b) as [|V]; [reflexivity|]. exfalso. exact (Qclt_not_le _ _ X (Qcle_trans _ _ _ V U)).
Qed.
