(** Small shared library: function update, tactics, list facts.
    Nothing here models code of the repository. *)
From Coq Require Export List Arith NArith ZArith Lia Bool Permutation.
From Coq Require Export ZifyBool ZifyNat ZifyN.
Export ListNotations.

(** Pointwise update of a total map from [nat]. *)
Definition upd {A} (f : nat -> A) (k : nat) (v : A) : nat -> A :=
  fun x => if Nat.eqb x k then v else f x.

Lemma upd_eq {A} (f : nat -> A) k v : upd f k v k = v.
Proof. unfold upd. now rewrite Nat.eqb_refl. Qed.

Lemma upd_neq {A} (f : nat -> A) k v x : x <> k -> upd f k v x = f x.
Proof. intros H. unfold upd. destruct (Nat.eqb_spec x k); congruence. Qed.

Lemma upd_cases {A} (f : nat -> A) k v x :
  (x = k /\ upd f k v x = v) \/ (x <> k /\ upd f k v x = f x).
Proof.
  destruct (Nat.eq_dec x k) as [->|n].
  - left; split; [reflexivity|apply upd_eq].
  - right; split; [assumption|now apply upd_neq].
Qed.

Ltac inv H := inversion H; subst; clear H.

(** Break a match in a hypothesis or the goal. *)
Ltac brk :=
  match goal with
  | H : context [match ?x with _ => _ end] |- _ => destruct x eqn:?
  | |- context [match ?x with _ => _ end] => destruct x eqn:?
  end.

Lemma nth_error_snoc {A} (l : list A) x k y :
  nth_error (l ++ [x]) k = Some y ->
  (k < length l /\ nth_error l k = Some y) \/ (k = length l /\ y = x).
Proof.
  intros H. destruct (Nat.lt_ge_cases k (length l)) as [L|L].
  - left. split; [assumption|]. now rewrite nth_error_app1 in H.
  - right. rewrite nth_error_app2 in H by assumption.
    destruct (k - length l) as [|d] eqn:E.
    + cbn in H. inv H. split; [lia|reflexivity].
    + cbn in H. destruct d; discriminate.
Qed.

Lemma nth_error_snoc_old {A} (l : list A) x k :
  k < length l -> nth_error (l ++ [x]) k = nth_error l k.
Proof. intros. now apply nth_error_app1. Qed.

Lemma nth_error_snoc_new {A} (l : list A) x :
  nth_error (l ++ [x]) (length l) = Some x.
Proof. rewrite nth_error_app2 by lia. now rewrite Nat.sub_diag. Qed.

Lemma nth_error_lt {A} (l : list A) k x : nth_error l k = Some x -> k < length l.
Proof. intros H. apply nth_error_Some. congruence. Qed.

Lemma NoDup_map_inj {A B} (f : A -> B) l :
  (forall x y, In x l -> In y l -> f x = f y -> x = y) -> NoDup l -> NoDup (map f l).
Proof.
  intros Hf ND. induction ND as [|x l Hx ND IH]; cbn; constructor.
  - intros H. apply in_map_iff in H. destruct H as (y & E & Hy).
    assert (y = x) by (apply Hf; cbn; auto). now subst.
  - apply IH. intros. apply Hf; cbn; auto.
Qed.

Lemma NoDup_app_inv {A} (l l' : list A) : NoDup (l ++ l') ->
  NoDup l /\ NoDup l' /\ forall x, In x l -> ~ In x l'.
Proof.
  induction l as [|x l IH]; cbn; intros H; [repeat split; [constructor|exact H|tauto]|].
  inversion H as [|? ? Hx ND]; subst. destruct (IH ND) as (A1 & A2 & A3).
  repeat split; auto.
  - constructor; [|exact A1]. intros Hi. apply Hx. apply in_or_app. now left.
  - intros y [->|Hy]; [|now apply A3]. intros Hi. apply Hx. apply in_or_app. now right.
Qed.

Lemma NoDup_app_intro {A} (l l' : list A) : NoDup l -> NoDup l' ->
  (forall x, In x l -> ~ In x l') -> NoDup (l ++ l').
Proof.
  induction l as [|x l IH]; cbn; intros H H' D; [exact H'|].
  inversion H as [|? ? Hx ND]; subst. constructor.
  - intros Hi. apply in_app_or in Hi. destruct Hi as [Hi|Hi]; [now apply Hx|].
    apply (D x); auto.
  - apply IH; auto.
Qed.
