(** Proofs about the delete table. *)
From Coq Require Import List NArith PeanoNat Bool Lia ZifyNat ZifyN ZifyBool.
From Verif.Lib Require Import Base Lists.
From Verif.Tables Require Import Model Spec.
Import ListNotations.

Definition dt_wf (t : dtab) : Prop := length (dt_words t) = (dt_max t + 31) / 32.
Definition bit (t : dtab) (i : nat) : bool :=
  N.testbit (nth (i / 32) (dt_words t) 0%N) (N.of_nat (i mod 32)).

Lemma slot_lt max i : i < max -> i / 32 < (max + 31) / 32.
Proof.
  intros H. pose proof (Nat.div_mod_eq i 32). pose proof (Nat.mod_upper_bound i 32).
  pose proof (Nat.div_mod_eq (max + 31) 32). pose proof (Nat.mod_upper_bound (max + 31) 32). lia.
Qed.
Lemma slot_word t i : dt_wf t -> i < dt_max t ->
  nth_error (dt_words t) (i / 32) = Some (nth (i / 32) (dt_words t) 0%N).
Proof.
  intros W H. apply nth_error_nth'. rewrite W. now apply slot_lt.
Qed.
Lemma mask_pow i : dt_mask i = (2 ^ N.of_nat (i mod 32))%N.
Proof. unfold dt_mask. now rewrite N.shiftl_1_l. Qed.
Lemma land_mask w i : negb (N.land w (dt_mask i) =? 0)%N = N.testbit w (N.of_nat (i mod 32)).
Proof.
  rewrite mask_pow. set (k := N.of_nat (i mod 32)).
  destruct (N.testbit w k) eqn:E.
  - apply negb_true_iff. apply N.eqb_neq. intros H.
    assert (N.testbit (N.land w (2 ^ k)) k = true) by (rewrite N.land_spec, E, N.pow2_bits_true; reflexivity).
    rewrite H, N.bits_0 in H0. discriminate.
  - apply negb_false_iff. apply N.eqb_eq. apply N.bits_inj_0. intros n. rewrite N.land_spec.
    destruct (N.eq_dec n k) as [->|D]; [rewrite E; reflexivity|].
    rewrite N.pow2_bits_false by congruence. now rewrite andb_false_r.
Qed.
Lemma lor_mask w i b : N.testbit (N.lor w (dt_mask i)) b = (N.testbit w b || (b =? N.of_nat (i mod 32))%N).
Proof.
  rewrite mask_pow, N.lor_spec. f_equal. destruct (N.eqb_spec b (N.of_nat (i mod 32))) as [->|D].
  - apply N.pow2_bits_true.
  - apply N.pow2_bits_false. congruence.
Qed.
Lemma land_not_mask w i b : (b < 32)%N ->
  N.testbit (N.land w (N.lxor (dt_mask i) 4294967295)) b = (N.testbit w b && negb (b =? N.of_nat (i mod 32))%N).
Proof.
  intros H. rewrite mask_pow, N.land_spec, N.lxor_spec. f_equal.
  change 4294967295%N with (N.ones 32). rewrite N.ones_spec_low by assumption. rewrite xorb_true_r. f_equal.
  destruct (N.eqb_spec b (N.of_nat (i mod 32))) as [->|D].
  - apply N.pow2_bits_true.
  - apply N.pow2_bits_false. congruence.
Qed.
Lemma same_slot_bit i j : i / 32 = j / 32 -> i mod 32 = j mod 32 -> i = j.
Proof. intros. rewrite (Nat.div_mod_eq i 32), (Nat.div_mod_eq j 32). congruence. Qed.
Lemma nth_set_nth {A} (l : list A) k x j d : k < length l ->
  nth j (set_nth k x l) d = if j =? k then x else nth j l d.
Proof.
  intros H. destruct (Nat.lt_ge_cases j (length l)) as [L|L].
  - apply nth_error_nth. rewrite nth_error_set_nth.
    destruct (Nat.eqb_spec j k) as [->|D].
    + apply Nat.ltb_lt in H. now rewrite H.
    + now apply nth_error_nth'.
  - rewrite !nth_overflow by (rewrite ?set_nth_length; lia).
    destruct (Nat.eqb_spec j k); [lia|reflexivity].
Qed.

(** ** Single operations *)
Lemma dt_new_wf max : dt_wf (dt_new max).
Proof. unfold dt_wf, dt_new. cbn [dt_words dt_max]. apply repeat_length. Qed.
Lemma dt_new_bit max i : bit (dt_new max) i = false.
Proof.
  unfold bit, dt_new. cbn [dt_words]. rewrite nth_repeat. apply N.bits_0.
Qed.
Lemma query_bit t i : dt_wf t -> dt_is_deleted t i = if i <? dt_max t then Some (bit t i) else None.
Proof.
  intros W. unfold dt_is_deleted. destruct (Nat.ltb_spec i (dt_max t)) as [L|L]; [|reflexivity].
  rewrite slot_word by assumption. now rewrite land_mask.
Qed.
Lemma delete_bit t i : dt_wf t ->
  (i < dt_max t -> exists t', dt_delete t i = Some t' /\ dt_wf t' /\ dt_max t' = dt_max t /\
     forall j, bit t' j = if i =? j then true else bit t j) /\
  (dt_max t <= i -> dt_delete t i = None).
Proof.
  intros W. unfold dt_delete. split; intros L.
  - pose proof (Nat.ltb_lt i (dt_max t)) as [_ ->]; [|assumption].
    rewrite slot_word by assumption. eexists; split; [reflexivity|].
    split; [unfold dt_wf; cbn [dt_words dt_max]; now rewrite set_nth_length|]. split; [reflexivity|].
    intros j. unfold bit at 1. cbn [dt_words].
    rewrite nth_set_nth by (rewrite W; now apply slot_lt).
    destruct (Nat.eqb_spec (j / 32) (i / 32)) as [E|E].
    + rewrite lor_mask. destruct (Nat.eqb_spec i j) as [->|D].
      * rewrite N.eqb_refl. apply orb_true_r.
      * rewrite <- E. fold (bit t j). destruct (N.eqb_spec (N.of_nat (j mod 32)) (N.of_nat (i mod 32))) as [Q|Q].
        -- exfalso. apply D. apply same_slot_bit; [congruence|lia].
        -- apply orb_false_r.
    + destruct (Nat.eqb_spec i j) as [->|D]; [congruence|reflexivity].
  - destruct (Nat.ltb_spec i (dt_max t)); [lia|reflexivity].
Qed.
Lemma undelete_bit t i : dt_wf t ->
  (i < dt_max t -> exists t', dt_undelete t i = Some t' /\ dt_wf t' /\ dt_max t' = dt_max t /\
     forall j, bit t' j = if i =? j then false else bit t j) /\
  (dt_max t <= i -> dt_undelete t i = None).
Proof.
  intros W. unfold dt_undelete. split; intros L.
  - pose proof (Nat.ltb_lt i (dt_max t)) as [_ ->]; [|assumption].
    rewrite slot_word by assumption. eexists; split; [reflexivity|].
    split; [unfold dt_wf; cbn [dt_words dt_max]; now rewrite set_nth_length|]. split; [reflexivity|].
    intros j. unfold bit at 1. cbn [dt_words].
    rewrite nth_set_nth by (rewrite W; now apply slot_lt).
    destruct (Nat.eqb_spec (j / 32) (i / 32)) as [E|E].
    + rewrite land_not_mask by (pose proof (Nat.mod_upper_bound j 32); lia).
      destruct (Nat.eqb_spec i j) as [->|D].
      * rewrite N.eqb_refl. apply andb_false_r.
      * rewrite <- E. fold (bit t j). destruct (N.eqb_spec (N.of_nat (j mod 32)) (N.of_nat (i mod 32))) as [Q|Q].
        -- exfalso. apply D. apply same_slot_bit; [congruence|lia].
        -- apply andb_true_r.
    + destruct (Nat.eqb_spec i j) as [->|D]; [congruence|reflexivity].
  - destruct (Nat.ltb_spec i (dt_max t)); [lia|reflexivity].
Qed.

(** ** Histories *)
Definition tinv (h : list devent) (max : nat) (t : dtab) : Prop :=
  dt_wf t /\ dt_max t = max /\ forall i, i < max -> bit t i = deleted h i.
Lemma deleted_snoc h e i : deleted (h ++ [e]) i = apply_ev i (deleted h i) e.
Proof. unfold deleted. now rewrite fold_left_app. Qed.
Lemma do_step_inv h max t k s t' o : tinv h max t -> do_step t s = (t', o) ->
  tinv (h ++ [EStep k s o]) max t' /\
  match s with
  | SQuery i => o = if i <? max then Answer (deleted h i) else Panic
  | SDelete i | SUndelete i => o = if i <? max then Done else Panic
  end.
Proof.
  intros (W & M & B) H. unfold tinv. destruct s as [i|i|i]; cbn [do_step] in H.
  - destruct (delete_bit t i W) as [D1 D2]. rewrite M in *. destruct (Nat.ltb_spec i max) as [L|L].
    + destruct (D1 L) as (u & E & Wu & Mu & Bu). rewrite E in H. injection H as <- <-.
      repeat split; auto; try congruence. intros j Hj. rewrite deleted_snoc, Bu. cbn [apply_ev].
      destruct (i =? j); auto.
    + rewrite (D2 L) in H. injection H as <- <-. repeat split; auto.
      intros j Hj. rewrite deleted_snoc. cbn [apply_ev]. destruct (Nat.eqb_spec i j); [lia|auto].
  - destruct (undelete_bit t i W) as [D1 D2]. rewrite M in *. destruct (Nat.ltb_spec i max) as [L|L].
    + destruct (D1 L) as (u & E & Wu & Mu & Bu). rewrite E in H. injection H as <- <-.
      repeat split; auto; try congruence. intros j Hj. rewrite deleted_snoc, Bu. cbn [apply_ev].
      destruct (i =? j); auto.
    + rewrite (D2 L) in H. injection H as <- <-. repeat split; auto.
      intros j Hj. rewrite deleted_snoc. cbn [apply_ev]. destruct (Nat.eqb_spec i j); [lia|auto].
  - rewrite query_bit in H by assumption. rewrite M in H. destruct (Nat.ltb_spec i max) as [L|L];
      injection H as <- <-; repeat split; auto; try (now rewrite B);
      intros j Hj; rewrite deleted_snoc; cbn [apply_ev]; auto.
Qed.

(** Thread [k] with state [th] after history [h]. *)
Definition thread_ok (max : nat) (h : list devent) (k : nat) (th : dthread) : Prop :=
  match fst th with
  | None => True
  | Some (c, ss) => exists a b, h = a ++ EStart k c :: b /\ existsb (is_start k) b = false /\
                    steps_by k b ++ ss = steps_of max c
  end.
Lemma steps_by_app k h1 h2 : steps_by k (h1 ++ h2) = steps_by k h1 ++ steps_by k h2.
Proof.
  induction h1 as [|[? ?|j ? ?|? ?] h1 IH]; cbn [app steps_by]; auto. destruct (j =? k); [|assumption].
  cbn [app]. now f_equal.
Qed.
(** What each event of a history says about the history before it. *)
Definition ev_ok (max : nat) (h : list devent) (e : devent) : Prop :=
  match e with
  | EStart _ _ => True
  | EStep _ (SQuery i) o => o = if i <? max then Answer (deleted h i) else Panic
  | EStep _ (SDelete i) o | EStep _ (SUndelete i) o => o = if i <? max then Done else Panic
  | EEnd k c => exists a b, h = a ++ EStart k c :: b /\ existsb (is_start k) b = false /\
                steps_by k b = steps_of max c
  end.
Lemma thread_ok_other max h k th e : thread_ok max h k th ->
  match e with EStart j _ | EStep j _ _ | EEnd j _ => j <> k end -> thread_ok max (h ++ [e]) k th.
Proof.
  unfold thread_ok. destruct (fst th) as [[c ss]|]; [|auto]. intros (a & b & -> & HS & E) D.
  exists a, (b ++ [e]). rewrite <- app_assoc. split; [reflexivity|].
  rewrite existsb_app, HS, steps_by_app. destruct e as [j ?|j ? ?|j ?]; cbn;
    (destruct (Nat.eqb_spec j k); [congruence|]); rewrite ?app_nil_r; auto.
Qed.
Lemma sched_inv h max t ths k t' ths' ev : tinv h max t ->
  (forall j th, nth_error ths j = Some th -> thread_ok max h j th) ->
  dt_sched t ths k = (t', ths', ev) ->
  tinv (h ++ ev) max t' /\ (forall j th, nth_error ths' j = Some th -> thread_ok max (h ++ ev) j th) /\
  match ev with [] => True | [e] => ev_ok max h e | _ => False end.
Proof.
  intros T TH H. unfold dt_sched in H.
  destruct (nth_error ths k) as [[cur rest]|] eqn:E.
  2:{ injection H as <- <- <-. rewrite app_nil_r. auto. }
  pose proof (TH _ _ E) as OK.
  assert (SET : forall x j th, nth_error (set_nth k x ths) j = Some th ->
                (j = k /\ th = x) \/ (j <> k /\ nth_error ths j = Some th)).
  { intros x j th Hj. rewrite nth_error_set_nth in Hj. destruct (Nat.eqb_spec j k).
    - destruct (j <? length ths); [|discriminate]. left. split; congruence.
    - auto. }
  destruct cur as [[c [|s ss]]|]; [| |destruct rest as [|c rest]].
  - injection H as <- <- <-. unfold thread_ok in OK. cbn in OK. split; [|split].
    + destruct T as (W & M & B). repeat split; auto. intros i Hi. rewrite deleted_snoc. now apply B.
    + intros j th Hj. apply SET in Hj. destruct Hj as [[-> ->]|[D Hj]]; [exact I|].
      apply thread_ok_other; auto.
    + cbn [ev_ok]. destruct OK as (a & b & Hh & HS & EQ). rewrite app_nil_r in EQ. eauto.
  - destruct (do_step t s) as [t1 o] eqn:DS. injection H as <- <- <-.
    destruct (do_step_inv h max t k s t1 o T DS) as [T1 O]. split; [assumption|]. split.
    + intros j th Hj. apply SET in Hj. destruct Hj as [[-> ->]|[D Hj]].
      * unfold thread_ok in OK |- *. cbn [fst] in OK |- *. destruct OK as (a & b & -> & HS & EQ).
        exists a, (b ++ [EStep k s o]). rewrite <- app_assoc. split; [reflexivity|].
        rewrite existsb_app, HS, steps_by_app. split; [reflexivity|]. cbn [steps_by].
        rewrite Nat.eqb_refl, <- app_assoc. exact EQ.
      * apply thread_ok_other; auto.
    + destruct s; exact O.
  - injection H as <- <- <-. rewrite app_nil_r. auto.
  - injection H as <- <- <-. split; [|split; [|exact I]].
    + destruct T as (W & M & B). repeat split; auto. intros i Hi. rewrite deleted_snoc. now apply B.
    + intros j th Hj. apply SET in Hj. destruct Hj as [[-> ->]|[D Hj]].
      * exists h, []. cbn. destruct T as (_ & -> & _). auto.
      * apply thread_ok_other; auto.
Qed.
Lemma run_inv max sched : forall h t ths, tinv h max t ->
  (forall j th, nth_error ths j = Some th -> thread_ok max h j th) ->
  forall a e b, dt_run t ths sched = a ++ e :: b -> ev_ok max (h ++ a) e.
Proof.
  induction sched as [|k sched IH]; intros h t ths T TH a e b H; cbn [dt_run] in H.
  - destruct a; discriminate.
  - destruct (dt_sched t ths k) as [[t1 ths1] ev] eqn:E.
    destruct (sched_inv h max t ths k t1 ths1 ev T TH E) as (T1 & TH1 & EV).
    destruct ev as [|x [|? ?]]; [| |contradiction].
    + rewrite app_nil_r in *. cbn [app] in H. eapply IH; eauto.
    + cbn [app] in H. destruct a as [|y a].
      * cbn [app] in H. injection H as <- _. now rewrite app_nil_r.
      * cbn [app] in H. injection H as <- H.
        replace (h ++ x :: a) with ((h ++ [x]) ++ a) by now rewrite <- app_assoc. eapply IH; eauto.
Qed.
Lemma history_ok max progs sched a e b : dt_history max progs sched = a ++ e :: b -> ev_ok max a e.
Proof.
  intros H. apply (run_inv max sched [] (dt_new max) (map (fun p => (None, p)) progs)) with (b := b); auto.
  - split; [apply dt_new_wf|]. split; [reflexivity|]. intros i _. apply dt_new_bit.
  - intros j th Hj. apply nth_error_In, in_map_iff in Hj. destruct Hj as (p & <- & _). exact I.
Qed.

(** ** Clear and delete, as calls *)
Definition undeletes (i : nat) (e : devent) : bool :=
  match e with EStep _ (SUndelete j) _ => j =? i | _ => false end.
Definition deletes (i : nat) (e : devent) : bool :=
  match e with EStep _ (SDelete j) _ => j =? i | _ => false end.
Lemma deleted_app a b i : deleted (a ++ b) i = fold_left (apply_ev i) b (deleted a i).
Proof. unfold deleted. apply fold_left_app. Qed.
Lemma fold_no_delete b i : existsb (deletes i) b = false -> fold_left (apply_ev i) b false = false.
Proof.
  induction b as [|e b IH]; intros H; [reflexivity|]. cbn [existsb] in H. apply orb_false_iff in H.
  destruct H as [H1 H2]. cbn [fold_left]. destruct e as [? ?|? [j|j|j] ?|? ?]; cbn [apply_ev]; auto.
  - cbn [deletes] in H1. rewrite H1. auto.
  - destruct (j =? i); auto.
Qed.
Lemma fold_no_undelete b i : existsb (undeletes i) b = false -> fold_left (apply_ev i) b true = true.
Proof.
  induction b as [|e b IH]; intros H; [reflexivity|]. cbn [existsb] in H. apply orb_false_iff in H.
  destruct H as [H1 H2]. cbn [fold_left]. destruct e as [? ?|? [j|j|j] ?|? ?]; cbn [apply_ev]; auto.
  - destruct (j =? i); auto.
  - cbn [undeletes] in H1. rewrite H1. auto.
Qed.
Lemma steps_by_in k s b : In s (steps_by k b) -> exists o, In (EStep k s o) b.
Proof.
  induction b as [|[? ?|j s' o|? ?] b IH]; cbn [steps_by]; intros H.
  - contradiction.
  - destruct (IH H) as [o HO]. exists o. now right.
  - destruct (Nat.eqb_spec j k) as [->|D].
    + destruct H as [<-|H]; [exists o; now left|]. destruct (IH H) as [o' HO]. exists o'. now right.
    + destruct (IH H) as [o' HO]. exists o'. now right.
  - destruct (IH H) as [o HO]. exists o. now right.
Qed.
Lemma undeleted_after b i x0 : (exists k o, In (EStep k (SUndelete i) o) b) -> existsb (deletes i) b = false ->
  fold_left (apply_ev i) b x0 = false.
Proof.
  intros (k & o & HI) HD. apply in_split in HI. destruct HI as (b1 & b2 & ->).
  rewrite existsb_app in HD. apply orb_false_iff in HD. destruct HD as [_ HD].
  cbn [existsb] in HD. apply orb_false_iff in HD. destruct HD as [_ HD].
  rewrite fold_left_app. cbn [fold_left apply_ev]. rewrite Nat.eqb_refl. now apply fold_no_delete.
Qed.
Lemma deleted_by b i x0 : (exists k o, In (EStep k (SDelete i) o) b) -> existsb (undeletes i) b = false ->
  fold_left (apply_ev i) b x0 = true.
Proof.
  intros (k & o & HI) HD. apply in_split in HI. destruct HI as (b1 & b2 & ->).
  rewrite existsb_app in HD. apply orb_false_iff in HD. destruct HD as [_ HD].
  cbn [existsb] in HD. apply orb_false_iff in HD. destruct HD as [_ HD].
  rewrite fold_left_app. cbn [fold_left apply_ev]. rewrite Nat.eqb_refl. now apply fold_no_undelete.
Qed.
(** The interval of a call is determined by its end. *)
Lemma split_last_start k c a b a' b' : a ++ EStart k c :: b = a' ++ EStart k c :: b' ->
  existsb (is_start k) b = false -> existsb (is_start k) b' = false -> a = a' /\ b = b'.
Proof.
  revert a'. induction a as [|x a IH]; intros [|y a'] H HB HB'.
  - cbn in H. injection H as <-. auto.
  - cbn [app] in H. injection H as <- ->. rewrite existsb_app in HB. cbn [existsb is_start] in HB.
    rewrite Nat.eqb_refl in HB. rewrite orb_true_r in HB. discriminate.
  - cbn [app] in H. injection H as -> H. subst b'. rewrite existsb_app in HB'. cbn [existsb is_start] in HB'.
    rewrite Nat.eqb_refl in HB'. rewrite orb_true_r in HB'. discriminate.
  - cbn [app] in H. injection H as <- H. destruct (IH _ H HB HB') as [-> ->]. auto.
Qed.
Lemma call_interval max progs sched a k c b d :
  dt_history max progs sched = a ++ EStart k c :: b ++ EEnd k c :: d -> existsb (is_start k) b = false ->
  steps_by k b = steps_of max c.
Proof.
  intros H HB. change (a ++ EStart k c :: b ++ EEnd k c :: d) with (a ++ (EStart k c :: b) ++ EEnd k c :: d) in H.
  rewrite app_assoc in H. apply history_ok in H. cbn [ev_ok] in H. destruct H as (a' & b' & E & HB' & ST).
  destruct (split_last_start _ _ _ _ _ _ E HB HB') as [-> ->]. exact ST.
Qed.
Lemma clear_call max progs sched a k b d i :
  dt_history max progs sched = a ++ EStart k CClear :: b ++ EEnd k CClear :: d ->
  existsb (is_start k) b = false -> existsb (deletes i) b = false -> i < max ->
  deleted (a ++ EStart k CClear :: b) i = false.
Proof.
  intros H HB HD L. pose proof (call_interval _ _ _ _ _ _ _ _ H HB) as ST.
  rewrite deleted_app. cbn [fold_left apply_ev]. apply undeleted_after; [|assumption].
  exists k. apply steps_by_in. rewrite ST. cbn [steps_of]. apply in_map. apply in_seq. lia.
Qed.
Lemma delete_call max progs sched a k b d i :
  dt_history max progs sched = a ++ EStart k (CDelete i) :: b ++ EEnd k (CDelete i) :: d ->
  existsb (is_start k) b = false -> existsb (undeletes i) b = false ->
  deleted (a ++ EStart k (CDelete i) :: b) i = true.
Proof.
  intros H HB HD. pose proof (call_interval _ _ _ _ _ _ _ _ H HB) as ST.
  rewrite deleted_app. cbn [fold_left apply_ev]. apply deleted_by; [|assumption].
  exists k. apply steps_by_in. rewrite ST. now left.
Qed.
Lemma undelete_call max progs sched a k b d i :
  dt_history max progs sched = a ++ EStart k (CUndelete i) :: b ++ EEnd k (CUndelete i) :: d ->
  existsb (is_start k) b = false -> existsb (deletes i) b = false ->
  deleted (a ++ EStart k (CUndelete i) :: b) i = false.
Proof.
  intros H HB HD. pose proof (call_interval _ _ _ _ _ _ _ _ H HB) as ST.
  rewrite deleted_app. cbn [fold_left apply_ev]. apply undeleted_after; [|assumption].
  exists k. apply steps_by_in. rewrite ST. now left.
Qed.
