(** Proofs about the determinant-diversity selection. *)
From Coq Require Import Reals Lra.
From Verif.Lib Require Import Base Lists.
From Verif.DetDiv Require Import Model Spec.

(** ** Any arithmetic: distinct valid indices *)
Section any.
Context {F : Type} (a : arith F).
Local Open Scope nat_scope.

Lemma best_of_in norms xs : forall b, best_of a norms b xs = b \/ In (best_of a norms b xs) xs.
Proof.
  induction xs as [|j xs IH]; intros b; cbn [best_of]; [now left|].
  destruct (f_cmp a (nth b norms (f_zero a)) (nth j norms (f_zero a))).
  - destruct (IH j) as [->|H]; right; [now left|now right].
  - destruct (IH j) as [->|H]; right; [now left|now right].
  - destruct (IH b) as [->|H]; [now left|right; now right].
Qed.

Definition free (avail : list bool) : list nat := filter (fun i => nth i avail false) (seq 0 (length avail)).

Lemma free_in avail i : In i (free avail) <-> nth i avail false = true.
Proof.
  unfold free. rewrite filter_In, in_seq. split; [tauto|]. intros H. split; [|exact H].
  destruct (Nat.lt_ge_cases i (length avail)); [lia|]. rewrite nth_overflow in H by lia. discriminate.
Qed.
Lemma free_nodup avail : NoDup (free avail).
Proof. apply NoDup_filter, seq_NoDup. Qed.

Lemma pivot_in norms avail i : pivot a norms avail = Some i -> In i (free avail).
Proof.
  unfold pivot. fold (free avail). destruct (free avail) as [|j xs]; [discriminate|]. intros [= <-].
  destruct (best_of_in norms xs j) as [->|H]; [now left|now right].
Qed.
Lemma pivot_none norms avail : pivot a norms avail = None <-> free avail = [].
Proof. unfold pivot. fold (free avail). destruct (free avail); split; congruence. Qed.

Lemma nth_set_nth {A} i j (x d : A) l : i < length l ->
  nth j (set_nth i x l) d = if j =? i then x else nth j l d.
Proof.
  revert i j. induction l as [|y l IH]; intros [|i] [|j] H; cbn [length] in H; try lia; cbn [set_nth nth Nat.eqb]; auto.
  - apply IH. lia.
Qed.

Lemma free_set avail i j : In i (free avail) -> (In j (free (set_nth i false avail)) <-> In j (free avail) /\ j <> i).
Proof.
  intros Hi. rewrite !free_in in *. assert (L : i < length avail).
  { destruct (Nat.lt_ge_cases i (length avail)); [auto|]. rewrite nth_overflow in Hi by lia. discriminate. }
  rewrite nth_set_nth by exact L. destruct (Nat.eqb_spec j i); [subst|tauto]. split; [discriminate|]. tauto.
Qed.

Lemma free_set_length avail i : In i (free avail) -> length (free avail) = S (length (free (set_nth i false avail))).
Proof.
  intros Hi. change (S (length (free (set_nth i false avail)))) with (length (i :: free (set_nth i false avail))).
  apply Permutation_length. apply NoDup_Permutation.
  - apply free_nodup.
  - constructor; [|apply free_nodup]. rewrite free_set by exact Hi. tauto.
  - intros j. cbn [In]. rewrite free_set by exact Hi. destruct (Nat.eq_dec i j) as [<-|]; [tauto|].
    split; [intros; right; split; congruence|]. intros [?|[? ?]]; [congruence|auto].
Qed.

Lemma select_loop_ok k : forall rows norms avail,
  let r := select_loop a k rows norms avail in
  NoDup r /\ (forall i, In i r -> In i (free avail)) /\ length r = Nat.min k (length (free avail)).
Proof.
  induction k as [|k IH]; intros rows norms avail; cbn zeta; cbn [select_loop].
  - split; [constructor|]. split; [intros i []|reflexivity].
  - destruct (pivot a norms avail) as [i|] eqn:E.
    + apply pivot_in in E. set (tl := match k with 0 => [] | _ => _ end).
      assert (H : NoDup tl /\ (forall j, In j tl -> In j (free (set_nth i false avail))) /\
                  length tl = Nat.min k (length (free (set_nth i false avail)))).
      { unfold tl. destruct k as [|k'].
        - split; [constructor|]. split; [intros j []|reflexivity].
        - destruct (f_le a _ _); [apply IH|]. destruct (deflate _ _ _ _ _ _). apply IH. }
      destruct H as (H1 & H2 & H3). split; [|split].
      * constructor; [|exact H1]. intros Hi. apply H2, free_set in Hi; [|exact E]. tauto.
      * intros j [<-|Hj]; [exact E|]. apply H2, free_set in Hj; [|exact E]. tauto.
      * cbn [length]. rewrite H3, (free_set_length _ _ E). lia.
    + apply pivot_none in E. rewrite E. split; [constructor|]. split; [intros i []|]. cbn [length]. lia.
Qed.

Lemma free_repeat n : free (repeat true n) = seq 0 n.
Proof.
  unfold free. rewrite repeat_length. induction n as [|n IH]; [reflexivity|].
  rewrite seq_S, filter_app. cbn [Nat.add filter].
  assert (E : nth n (repeat true (S n)) false = true) by (apply (free_in); unfold free; rewrite repeat_length; apply filter_In; split;
    [apply in_seq; lia|]; clear; induction n as [|n IH]; [reflexivity|exact IH]).
  rewrite E. f_equal. rewrite <- IH at 2. apply filter_ext_in. intros i Hi. apply in_seq in Hi.
  rewrite !(nth_indep _ false true) by (rewrite repeat_length; lia). now rewrite !nth_repeat.
Qed.

Lemma greedy_select_ok rows ds k power inv dmin dmax :
  let r := greedy_select a rows ds k power inv dmin dmax in
  NoDup r /\ (forall i, In i r -> i < length rows) /\ length r = Nat.min k (length rows).
Proof.
  cbn zeta. unfold greedy_select. destruct (Nat.eqb_spec (Nat.min k (length rows)) 0) as [E|E].
  - split; [constructor|]. split; [intros i []|]. cbn [length]. congruence.
  - destruct (select_loop_ok (Nat.min k (length rows)) (scaled a power inv dmin dmax rows ds)
      (map (fun r => f_dot a r r) (scaled a power inv dmin dmax rows ds)) (repeat true (length rows))) as (H1 & H2 & H3).
    rewrite free_repeat in *. split; [exact H1|]. split.
    + intros i Hi. apply H2, in_seq in Hi. lia.
    + rewrite H3, seq_length. lia.
Qed.
End any.

(** ** Exact arithmetic *)
Local Open Scope R_scope.

Lemma total_ext xs f g : (forall i, In i xs -> f i = g i) -> total xs f = total xs g.
Proof. induction xs as [|i xs IH]; intros H; [reflexivity|]. cbn [total]. rewrite (H i), IH; [reflexivity| |now left]. intros; apply H; now right. Qed.
Lemma total_plus xs f g : total xs (fun i => f i + g i) = total xs f + total xs g.
Proof. induction xs as [|i xs IH]; cbn [total]; [ring|]. rewrite IH. ring. Qed.
Lemma total_scal xs c f : total xs (fun i => c * f i) = c * total xs f.
Proof. induction xs as [|i xs IH]; cbn [total]; [ring|]. rewrite IH. ring. Qed.
Lemma total_zero xs : total xs (fun _ => 0) = 0.
Proof. induction xs as [|i xs IH]; cbn [total]; [ring|]. rewrite IH. ring. Qed.
Lemma total_nonneg xs f : (forall i, 0 <= f i) -> 0 <= total xs f.
Proof. intros H. induction xs as [|i xs IH]; cbn [total]; [lra|]. specialize (H i). lra. Qed.
Lemma total_app xs ys f : total (xs ++ ys) f = total xs f + total ys f.
Proof. induction xs as [|i xs IH]; cbn [total app]; [ring|]. rewrite IH. ring. Qed.
Lemma total_swap xs ys (f : nat -> nat -> R) : total xs (fun i => total ys (fun j => f i j)) = total ys (fun j => total xs (fun i => f i j)).
Proof.
  induction xs as [|i xs IH]; cbn [total]; [now rewrite total_zero|]. rewrite IH, <- total_plus. reflexivity.
Qed.
Lemma squares_zero xs f : total xs (fun i => f i * f i) <= 0 -> forall i, In i xs -> f i = 0.
Proof.
  induction xs as [|j xs IH]; intros H i Hi; [destruct Hi|]. cbn [total] in H.
  assert (N : 0 <= total xs (fun i => f i * f i)) by (apply total_nonneg; intros; nra).
  assert (Q : 0 <= f j * f j) by nra. destruct Hi as [<-|Hi]; [nra|]. apply IH; [lra|exact Hi].
Qed.

Section exact.
Variable dim : nat.
(** Inner product of two vectors given by their coordinates. *)
Definition ip (f g : nat -> R) : R := total (seq 0 dim) (fun i => f i * g i).
Lemma ip_ext f f' g g' : (forall i, (i < dim)%nat -> f i = f' i) -> (forall i, (i < dim)%nat -> g i = g' i) -> ip f g = ip f' g'.
Proof. intros H H'. apply total_ext. intros i Hi. apply in_seq in Hi. rewrite H, H' by lia. reflexivity. Qed.
Lemma ip_comm f g : ip f g = ip g f.
Proof. apply total_ext. intros. ring. Qed.
Lemma ip_sub f c g h : ip (fun i => f i - c * g i) h = ip f h - c * ip g h.
Proof.
  unfold ip. replace (total (seq 0 dim) (fun i => f i * h i) - c * total (seq 0 dim) (fun i => g i * h i))
    with (total (seq 0 dim) (fun i => f i * h i) + (- c) * total (seq 0 dim) (fun i => g i * h i)) by ring.
  rewrite <- total_scal, <- total_plus. apply total_ext. intros. ring.
Qed.
Lemma ip_nonneg f : 0 <= ip f f.
Proof. apply total_nonneg. intros. nra. Qed.

Variable xs : list (list R).
Notation x j := (coord (nth j xs [])).
Definition comb (sel : list nat) (c : nat -> R) (i : nat) : R := total sel (fun s => c s * x s i).

Lemma ip_comb f sel c : ip f (comb sel c) = total sel (fun s => c s * ip f (x s)).
Proof.
  unfold ip, comb. rewrite (total_ext (seq 0 dim) _ (fun i => total sel (fun s => c s * (f i * x s i)))).
  - rewrite total_swap. apply total_ext. intros s _. now rewrite total_scal.
  - intros i _. rewrite <- total_scal. apply total_ext. intros. ring.
Qed.
Lemma ip_orth f sel c : (forall s, In s sel -> ip f (x s) = 0) -> ip f (comb sel c) = 0.
Proof.
  intros H. rewrite ip_comb, (total_ext _ _ (fun _ => 0)); [apply total_zero|]. intros s Hs. rewrite H by exact Hs. ring.
Qed.
Lemma comb_sub sel c p c' i : comb sel c i + p * comb sel c' i = comb sel (fun s => c s + p * c' s) i.
Proof. unfold comb. rewrite <- total_scal, <- total_plus. apply total_ext. intros. ring. Qed.

(** [r] is what remains of candidate [j] outside the span of [sel]. *)
Definition remains (sel : list nat) (j : nat) (r : nat -> R) : Prop :=
  (exists c, forall i, (i < dim)%nat -> x j i = comb sel c i + r i) /\ forall s, In s sel -> ip r (x s) = 0.

Lemma remains_distance sel j r : remains sel j r -> sq_distance dim xs sel j (ip r r).
Proof.
  intros ((c & E) & O). unfold sq_distance, residue. cbn zeta. split.
  - exists c. apply total_ext. intros i Hi. apply in_seq in Hi. fold (comb sel c i). rewrite E by lia. ring.
  - intros c'. set (g := comb sel (fun s => c s + -1 * c' s)).
    assert (EQ : total (seq 0 dim) (fun i => (x j i - total sel (fun s => c' s * x s i)) * (x j i - total sel (fun s => c' s * x s i)))
                 = ip r r + 2 * ip r g + ip g g).
    { unfold ip. rewrite <- total_scal, <- !total_plus. apply total_ext. intros i Hi. apply in_seq in Hi.
      fold (comb sel c' i). rewrite E by lia. unfold g. rewrite <- comb_sub. ring. }
    rewrite EQ. unfold g at 1. rewrite ip_orth by exact O. pose proof (ip_nonneg g). lra.
Qed.

Lemma remains_ext sel j r r' : (forall i, (i < dim)%nat -> r i = r' i) -> remains sel j r -> remains sel j r'.
Proof.
  intros H ((c & E) & O). split.
  - exists c. intros i Hi. rewrite <- H by exact Hi. now apply E.
  - intros s Hs. rewrite <- (O s Hs). symmetry. now apply ip_ext.
Qed.

(** After taking up candidate [q]. *)
Lemma extend_comb sel q c p : ~ In q sel -> exists c', forall i, comb (sel ++ [q]) c' i = comb sel c i + p * x q i.
Proof.
  intros N. exists (fun s => if Nat.eqb s q then p else c s). intros i. unfold comb. rewrite total_app. cbn [total].
  rewrite Nat.eqb_refl. rewrite (total_ext sel _ (fun s => c s * x s i)); [ring|].
  intros s Hs. destruct (Nat.eqb_spec s q); [congruence|reflexivity].
Qed.

Lemma remains_zero sel q j r rq : ~ In q sel -> remains sel q rq -> ip rq rq <= 0 -> remains sel j r ->
  remains (sel ++ [q]) j r.
Proof.
  intros N ((cq & Eq) & Oq) Z ((c & E) & O). split.
  - destruct (extend_comb sel q c 0 N) as (c' & H). exists c'. intros i Hi. rewrite H, (E i Hi). ring.
  - intros s Hs. apply in_app_or in Hs. destruct Hs as [Hs|[<-|[]]]; [auto|].
    pose proof (squares_zero _ _ Z) as ZE.
    rewrite (ip_ext r r (x q) (comb sel cq)); [now apply ip_orth|reflexivity|].
    intros i Hi. rewrite Eq by exact Hi. rewrite (ZE i) by (apply in_seq; lia). ring.
Qed.

Lemma remains_deflate sel q j r rq : ~ In q sel -> remains sel q rq -> 0 < ip rq rq -> remains sel j r ->
  let p := ip r rq / ip rq rq in
  remains (sel ++ [q]) j (fun i => r i - p * rq i) /\
  ip (fun i => r i - p * rq i) (fun i => r i - p * rq i) = ip r r - p * p * ip rq rq.
Proof.
  intros N ((cq & Eq) & Oq) Z ((c & E) & O) p.
  assert (PQ : ip r rq = p * ip rq rq) by (unfold p; field; lra).
  assert (OQ : ip (fun i => r i - p * rq i) rq = 0) by (rewrite ip_sub, PQ; ring).
  assert (OS : forall s, In s sel -> ip (fun i => r i - p * rq i) (x s) = 0).
  { intros s Hs. rewrite ip_sub, O, Oq by exact Hs. ring. }
  split.
  - split.
    + destruct (extend_comb sel q (fun s => c s + - p * cq s) p N) as (c' & H). exists c'. intros i Hi.
      rewrite H, <- comb_sub, (E i Hi), (Eq i Hi). ring.
    + intros s Hs. apply in_app_or in Hs. destruct Hs as [Hs|[<-|[]]]; [auto|].
      rewrite (ip_ext _ (fun i => r i - p * rq i) (x q) (fun i => rq i - -1 * comb sel cq i)); [|reflexivity|].
      * rewrite ip_comm, ip_sub, (ip_comm rq), OQ, (ip_comm (comb sel cq)), ip_orth by exact OS. ring.
      * intros i Hi. rewrite Eq by exact Hi. ring.
  - rewrite ip_sub, (ip_comm r), (ip_comm rq), OQ, ip_sub, (ip_comm rq r), PQ. ring.
Qed.
End exact.
