(** Names: padding, distinctness, and where they lead. *)
From Coq Require Import String Lia ZifyN ZifyBool ZifyNat.
From Verif.Lib Require Import Base Bytes.
From Verif.Record Require Import Model Proofs2.
From Verif.RecordDisk Require Import Model Spec.
Local Open Scope N_scope.

Lemma pad3_dig n c : In c (pad3 n) -> isdig c.
Proof.
  unfold pad3. intros H. apply in_app_or in H. destruct H as [H|H]; [apply repeat_spec in H; subst; unfold isdig; lia|]. eapply decimal_dig; eauto.
Qed.
Lemma dval_zeros k l : dval 0 (repeat 48 k ++ l) = dval 0 l.
Proof. induction k as [|k IH]; [reflexivity|]. exact IH. Qed.
Lemma pad3_val n : dval 0 (pad3 n) = n.
Proof. unfold pad3. rewrite dval_zeros. apply decimal_val. Qed.
Lemma pad3_inj m n : pad3 m = pad3 n -> m = n.
Proof. intros H. rewrite <- (pad3_val m), <- (pad3_val n). now rewrite H. Qed.
Lemma digits_ne fuel x : digits (S fuel) x <> [].
Proof. cbn [digits]. intros H. apply app_eq_nil in H. destruct H; discriminate. Qed.
Lemma pad3_cons n : exists c r, pad3 n = c :: r.
Proof. destruct (pad3 n) as [|c r] eqn:E; [|eauto]. unfold pad3 in E. apply app_eq_nil in E. destruct E as (_ & E). now apply digits_ne in E. Qed.
Lemma pad3_len n : (3 <= length (pad3 n))%nat.
Proof. unfold pad3. rewrite app_length, repeat_length. lia. Qed.
Definition digb (c : N) : bool := (48 <=? c) && (c <=? 57).
Fixpoint prefix_digits (l : bytes) : bytes := match l with c :: l => if digb c then c :: prefix_digits l else [] | [] => [] end.
Lemma prefix_digits_app a b : (forall c, In c a -> isdig c) -> (match b with c :: _ => digb c = false | [] => True end) -> prefix_digits (a ++ b) = a.
Proof.
  intros H B. induction a as [|c a IH]; cbn [app prefix_digits].
  - destruct b as [|c b]; [reflexivity|]. cbn. now rewrite B.
  - assert (D : digb c = true) by (specialize (H c (or_introl eq_refl)); unfold isdig, digb in *; lia). rewrite D. f_equal. apply IH. intros x Hx. apply H. now right.
Qed.
Lemma prefix_digits_art n key : prefix_digits (art_name n key) = pad3 n.
Proof.
  unfold art_name. destruct key as [k|]; [destruct (simple k)|].
  - rewrite prefix_digits_app; [reflexivity|apply pad3_dig|reflexivity].
  - rewrite <- (app_nil_r (pad3 n)) at 1. apply prefix_digits_app; [apply pad3_dig|exact I].
  - rewrite <- (app_nil_r (pad3 n)) at 1. apply prefix_digits_app; [apply pad3_dig|exact I].
Qed.
Lemma art_name_inj m n k k' : art_name m k = art_name n k' -> m = n.
Proof. intros H. apply pad3_inj. rewrite <- (prefix_digits_art m k), <- (prefix_digits_art n k'). now rewrite H. Qed.
Lemma art_name_digit n k : digit_first (art_name n k).
Proof.
  destruct (pad3_cons n) as (c & r & E). assert (D : isdig c) by (apply (pad3_dig n); rewrite E; now left). unfold isdig in D.
  unfold art_name. destruct k as [k|]; [destruct (simple k)|]; rewrite E; cbn [app]; unfold digit_first; eexists _, _; (split; [reflexivity|lia]).
Qed.

(** ** Splitting *)
Lemma split_at_ne c s : split_at c s <> [].
Proof. destruct s as [|x s]; cbn; [discriminate|]. destruct (x =? c); [discriminate|]. destruct (split_at c s); discriminate. Qed.
Lemma split_at_no c s : ~ In c s -> split_at c s = [s].
Proof.
  induction s as [|x s IH]; intros H; [reflexivity|]. cbn. destruct (N.eqb_spec x c) as [->|N]; [exfalso; apply H; now left|]. rewrite IH; [reflexivity|]. intros K. apply H. now right.
Qed.
Lemma split_at_pre c p s : ~ In c p -> split_at c (p ++ s) = (p ++ hd [] (split_at c s)) :: tl (split_at c s).
Proof.
  induction p as [|x p IH]; intros H; cbn [app].
  - pose proof (split_at_ne c s). destruct (split_at c s); [contradiction|reflexivity].
  - cbn [split_at]. destruct (N.eqb_spec x c) as [->|N]; [exfalso; apply H; now left|]. rewrite IH; [reflexivity|]. intros K. apply H. now right.
Qed.
Lemma beqb_eq a b : beqb a b = true <-> a = b.
Proof. destruct (beqb_spec a b); split; congruence. Qed.
Lemma is_dots_spec p : is_dots p = true <-> p = [] \/ p = [46] \/ p = [46; 46].
Proof. unfold is_dots, is_nil_or_dot. rewrite !orb_true_iff, !beqb_eq. change (str ".") with [46]. change (str "..") with [46; 46]. tauto. Qed.
Lemma nil_or_dot_dots p : is_nil_or_dot p = true -> is_dots p = true.
Proof. unfold is_dots. now intros ->. Qed.
(** A simple name leads to an entry of the directory, under its own name, or to nothing. *)
Lemma resolve_simple dir n p : simple n = true -> resolve dir n = Some p -> ~ In slash n /\ p = dir ++ [n].
Proof.
  unfold simple, resolve. destruct (split_at slash n) as [|q qs] eqn:E; [discriminate|]. intros H. apply andb_true_iff in H. destruct H as (Q & QS). apply negb_true_iff in Q.
  destruct qs as [|q' qs].
  - assert (K : ~ In slash n /\ q = n).
    { revert q E Q. clear. induction n as [|x n IH]; cbn; intros q E Q; [injection E as <-; now split|].
      destruct (N.eqb_spec x slash) as [->|N]; [exfalso; injection E as _ E; now apply split_at_ne in E|].
      destruct (split_at slash n) as [|p ps] eqn:E2; [now apply split_at_ne in E2|]. injection E as <- ->.
      assert (K : forall n, split_at slash n = [p] -> ~ In slash n /\ p = n).
      { clear. intros n. revert p. induction n as [|x n IH]; cbn; intros p E; [injection E as <-; now split|].
        destruct (N.eqb_spec x slash) as [->|N]; [exfalso; injection E as _ E; now apply split_at_ne in E|].
        destruct (split_at slash n) as [|p' ps] eqn:E2; [now apply split_at_ne in E2|]. injection E as <- ->. destruct (IH _ eq_refl) as (A & B). split; [intros [C|C]; [congruence|contradiction]|congruence]. }
      destruct (K n E2) as (A & B). split; [intros [C|C]; [congruence|contradiction]|congruence]. }
    destruct K as (NS & ->). cbn [last]. rewrite Q. intros [= <-]. split; [assumption|]. cbn [fold_left].
    assert (X : match n with c :: _ => if c =? slash then [] else dir | [] => dir end = dir).
    { destruct n as [|c n]; [reflexivity|]. destruct (N.eqb_spec c slash) as [->|]; [exfalso; apply NS; now left|reflexivity]. }
    rewrite X. unfold walk1. unfold is_dots in Q. apply orb_false_iff in Q. destruct Q as (-> & ->). reflexivity.
  - assert (L : is_dots (last (q :: q' :: qs) []) = true).
    { apply nil_or_dot_dots. clear E Q. revert q' QS. induction qs as [|z qs IH]; intros q' QS.
      - cbn in *. now rewrite andb_true_r in QS.
      - cbn [forallb] in QS. apply andb_true_iff in QS. destruct QS as (_ & QS). change (last (q :: q' :: z :: qs) []) with (last (q :: z :: qs) []). now apply IH. }
    rewrite L. discriminate.
Qed.
Lemma simple_name n : ~ In slash n -> is_dots n = false -> simple n = true.
Proof. intros H D. unfold simple. rewrite split_at_no by assumption. now rewrite D. Qed.
Lemma dig_not_slash l : (forall c, In c l -> isdig c) -> ~ In slash l.
Proof. intros H K. apply H in K. unfold isdig, slash in K. lia. Qed.
Lemma art_simple n k : simple (art_name n k) = true.
Proof.
  pose proof (pad3_len n) as L. assert (PS : ~ In slash (pad3 n)) by (apply dig_not_slash, pad3_dig).
  assert (PD : simple (pad3 n) = true).
  { apply simple_name; [assumption|]. apply not_true_is_false. rewrite is_dots_spec. intros [E|[E|E]]; rewrite E in L; cbn in L; lia. }
  unfold art_name. destruct k as [k|]; [|exact PD]. destruct (simple k) eqn:S; [|exact PD].
  unfold simple in *. rewrite app_assoc, split_at_pre.
  - destruct (split_at slash k) as [|q qs] eqn:E; [discriminate|]. cbn [hd tl]. apply andb_true_iff in S. destruct S as (_ & S). rewrite S, andb_true_r. apply negb_true_iff, not_true_is_false. rewrite is_dots_spec.
    intros [E2|[E2|E2]]; apply (f_equal (@length N)) in E2; rewrite !app_length in E2; cbn [length] in E2; lia.
  - intros H. apply in_app_or in H. destruct H as [H|H]; [contradiction|]. cbn in H. destruct H as [H|[]]. discriminate.
Qed.
Lemma art_resolve dir n k p : resolve dir (art_name n k) = Some p -> ~ In slash (art_name n k) /\ p = dir ++ [art_name n k].
Proof. apply resolve_simple, art_simple. Qed.
Lemma resolve_plain dir n : ~ In slash n -> is_dots n = false -> resolve dir n = Some (dir ++ [n]).
Proof.
  intros H D. unfold resolve. rewrite split_at_no by assumption. cbn [last fold_left]. rewrite D. f_equal.
  assert (X : match n with c :: _ => if c =? slash then [] else dir | [] => dir end = dir).
  { destruct n as [|c n]; [reflexivity|]. destruct (N.eqb_spec c slash) as [->|]; [exfalso; apply H; now left|reflexivity]. }
  rewrite X. unfold walk1. unfold is_dots in D. apply orb_false_iff in D. now destruct D as (-> & ->).
Qed.
Lemma component_plain n : ~ In slash n -> component n = n.
Proof. intros H. unfold component. now rewrite split_at_no. Qed.
