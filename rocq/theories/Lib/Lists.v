(** List lemmas missing from the 8.16 standard library. *)
From Verif.Lib Require Import Base.

Lemma skipn_skipn' {A} : forall n m (l : list A), skipn n (skipn m l) = skipn (m + n) l.
Proof.
  intros n m. induction m as [|m IH]; intros [|x l]; cbn; auto using skipn_nil.
Qed.

Lemma skipn_map' {A B} (f : A -> B) : forall n l, skipn n (map f l) = map f (skipn n l).
Proof. induction n; intros [|x l]; cbn; auto. Qed.

Lemma nth_error_firstn' {A} : forall (l : list A) n i, i < n ->
  nth_error (firstn n l) i = nth_error l i.
Proof.
  induction l as [|x l IH]; intros [|n] [|i] H; cbn; auto; try lia. apply IH. lia.
Qed.

Lemma nth_error_skipn' {A} : forall n (l : list A) i,
  nth_error (skipn n l) i = nth_error l (n + i).
Proof.
  induction n; intros [|x l] i; cbn; auto. now destruct i.
Qed.

Lemma in_firstn {A} (l : list A) : forall n x, In x (firstn n l) -> In x l.
Proof.
  induction l as [|y l IH]; intros [|n] x H; cbn in *; auto; [contradiction|].
  destruct H; [now left|right; eauto].
Qed.
Lemma in_skipn {A} (l : list A) : forall n x, In x (skipn n l) -> In x l.
Proof.
  induction l as [|y l IH]; intros [|n] x H; cbn in *; auto; try contradiction; eauto.
Qed.
Lemma Forall_firstn' {A} (P : A -> Prop) l n : Forall P l -> Forall P (firstn n l).
Proof. rewrite !Forall_forall. intros H x Hx. apply H. eapply in_firstn; eauto. Qed.
Lemma Forall_skipn' {A} (P : A -> Prop) l n : Forall P l -> Forall P (skipn n l).
Proof. rewrite !Forall_forall. intros H x Hx. apply H. eapply in_skipn; eauto. Qed.

Lemma NoDup_firstn {A} n (l : list A) : NoDup l -> NoDup (firstn n l).
Proof.
  intros H. rewrite <- (firstn_skipn n l) in H. now apply NoDup_app_inv in H.
Qed.
Lemma NoDup_skipn {A} n (l : list A) : NoDup l -> NoDup (skipn n l).
Proof.
  intros H. rewrite <- (firstn_skipn n l) in H. now apply NoDup_app_inv in H.
Qed.

Lemma nth_error_ext {A} : forall (l l' : list A),
  (forall i, nth_error l i = nth_error l' i) -> l = l'.
Proof.
  induction l as [|x l IH]; intros [|y l'] H; auto.
  - specialize (H 0). discriminate.
  - specialize (H 0). discriminate.
  - f_equal; [specialize (H 0); cbn in H; congruence|].
    apply IH. intros i. exact (H (S i)).
Qed.

(** Replace position [i] (unchanged if out of range). *)
Fixpoint set_nth {A} (i : nat) (x : A) (l : list A) : list A :=
  match l, i with
  | [], _ => []
  | _ :: l', 0 => x :: l'
  | y :: l', S i' => y :: set_nth i' x l'
  end.
Lemma set_nth_length {A} i (x : A) : forall l, length (set_nth i x l) = length l.
Proof. revert i. intros i l. revert i. induction l; intros [|i]; cbn; auto. Qed.
Lemma nth_error_set_nth {A} (x : A) : forall l i j,
  nth_error (set_nth i x l) j =
    if j =? i then (if j <? length l then Some x else None) else nth_error l j.
Proof.
  induction l as [|y l IH]; intros [|i] [|j]; try reflexivity.
  - cbn. destruct (j =? i); reflexivity.
  - cbn [set_nth nth_error length]. rewrite IH. reflexivity.
Qed.
