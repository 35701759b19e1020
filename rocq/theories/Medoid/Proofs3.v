(** Swapping cells of a column permutes the column and leaves the others. *)
From Coq Require Import List PeanoNat Bool Lia Permutation.
From Verif.Lib Require Import Base Lists.
From Verif.Medoid Require Import Model2 Spec2.
Import ListNotations.

Lemma all_spec {A} : forall (l : list (option A)) r, all l = Some r <-> l = map Some r.
Proof.
  induction l as [|x l IH]; intros r; cbn [all].
  - split; [intros [= <-]; reflexivity|]. destruct r; [reflexivity|discriminate].
  - destruct x as [a|].
    + destruct (all l) as [r'|] eqn:E.
      * split; [intros [= <-]; cbn; f_equal; now apply IH|]. destruct r as [|b r]; [discriminate|]. intros [= -> H]. apply IH in H. congruence.
      * split; [discriminate|]. destruct r as [|b r]; [discriminate|]. intros [= -> H]. apply IH in H. congruence.
    + split; [discriminate|]. destruct r; discriminate.
Qed.
Lemma all_total {A B} (f : A -> option B) l : (forall x, In x l -> exists y, f x = Some y) -> exists r, all (map f l) = Some r /\ Forall2 (fun x y => f x = Some y) l r.
Proof.
  induction l as [|x l IH]; intros H; cbn [map all]; [exists []; split; [reflexivity|constructor]|].
  destruct (H x (or_introl eq_refl)) as (y & E). destruct IH as (r & -> & F); [intros z Z; apply H; now right|]. rewrite E. exists (y :: r). split; [reflexivity|now constructor].
Qed.
Lemma Forall2_nth {A B} (P : A -> B -> Prop) l r i y : Forall2 P l r -> nth_error r i = Some y -> exists x, nth_error l i = Some x /\ P x y.
Proof. intros F. revert i. induction F as [|x z l r H _ IH]; intros [|i] N; try discriminate; cbn in *; [injection N as <-; eauto|]. now apply IH. Qed.
Lemma Forall2_len {A B} (P : A -> B -> Prop) l r : Forall2 P l r -> length r = length l.
Proof. induction 1; cbn; congruence. Qed.
Lemma swap_perm {A} (d : list A) a b x y : nth_error d a = Some x -> nth_error d b = Some y -> Permutation d (set_nth b x (set_nth a y d)).
Proof.
  intros A' B. assert (La : a < length d) by (apply nth_error_Some; congruence). assert (Lb : b < length d) by (apply nth_error_Some; congruence).
  apply Permutation_nth_error. split; [now rewrite !set_nth_length|]. exists (fun k => if k =? a then b else if k =? b then a else k). split.
  - intros u v. destruct (Nat.eqb_spec u a), (Nat.eqb_spec u b), (Nat.eqb_spec v a), (Nat.eqb_spec v b); lia.
  - intros k. rewrite !nth_error_set_nth, !set_nth_length. destruct (Nat.eqb_spec k b) as [Kb|Kb], (Nat.eqb_spec k a) as [Ka|Ka]; subst; try reflexivity.
    + destruct (Nat.ltb_spec a (length d)); [congruence|lia].
    + destruct (Nat.ltb_spec b (length d)); [congruence|lia].
    + destruct (Nat.ltb_spec a (length d)); [congruence|lia].
Qed.
Lemma map_set {A B} (f : A -> B) : forall l i x, map f (set_nth i x l) = set_nth i (f x) (map f l).
Proof. induction l as [|y l IH]; intros [|i] x; cbn; try reflexivity. now rewrite IH. Qed.
Lemma set_same {A} : forall (l : list A) i x, nth_error l i = Some x -> set_nth i x l = l.
Proof. induction l as [|y l IH]; intros [|i] x H; cbn in *; try discriminate; [congruence|]. now rewrite IH. Qed.

Section H.
  Context {T : Type}.
  Lemma column_nth (m : list (list T)) k a r : nth_error m a = Some r -> nth_error (column m k) a = Some (nth_error r k).
  Proof. intros H. unfold column. now rewrite nth_error_map, H. Qed.
  Lemma swap_cells_ok ncols (m : list (list T)) a b c : Forall (fun r => length r = ncols) m -> a < length m -> b < length m -> c < ncols ->
    exists m', swap_cells m a b c = Some m' /\ length m' = length m /\ Forall (fun r => length r = ncols) m' /\ forall k, Permutation (column m k) (column m' k).
  Proof.
    intros F A B C. pose proof (proj1 (Forall_forall _ _) F) as F'.
    destruct (nth_error m a) as [ra|] eqn:EA; [|apply nth_error_None in EA; lia]. destruct (nth_error m b) as [rb|] eqn:EB; [|apply nth_error_None in EB; lia].
    pose proof (F' ra (nth_error_In _ _ EA)) as La. pose proof (F' rb (nth_error_In _ _ EB)) as Lb. cbv beta in La, Lb.
    destruct (nth_error ra c) as [x|] eqn:EX; [|apply nth_error_None in EX; lia]. destruct (nth_error rb c) as [y|] eqn:EY; [|apply nth_error_None in EY; lia].
    unfold swap_cells. rewrite EA, EB, EX, EY. cbv zeta. set (m1 := set_nth a (set_nth c y ra) m).
    assert (EB' : exists rb', nth_error m1 b = Some rb' /\ length rb' = ncols /\ forall k, k <> c -> nth_error rb' k = nth_error rb k).
    { unfold m1. rewrite nth_error_set_nth. destruct (Nat.eqb_spec b a) as [->|N].
      - replace (a <? length m) with true by (symmetry; now apply Nat.ltb_lt). eexists. split; [reflexivity|]. rewrite set_nth_length. split; [exact La|]. intros k K. rewrite nth_error_set_nth. replace (k =? c) with false by (symmetry; now apply Nat.eqb_neq). congruence.
      - exists rb. auto. }
    destruct EB' as (rb' & EB' & Lb' & Kb). rewrite EB'. eexists. split; [reflexivity|]. split; [unfold m1; now rewrite !set_nth_length|].
    assert (SF : forall l i r, Forall (fun r => length r = ncols) l -> length r = ncols -> Forall (fun r : list T => length r = ncols) (set_nth i r l)).
    { clear. intros l i r H L. revert i. induction H as [|z l Z H IH]; intros [|i]; cbn; constructor; auto. }
    split; [apply SF; [apply SF; [exact F|]|]; now rewrite set_nth_length|].
    intros k. unfold m1, column. rewrite !map_set. change (map (fun r => nth_error r k) m) with (column m k). pose proof (column_nth m k a ra EA) as CA. pose proof (column_nth m k b rb EB) as CB.
    destruct (Nat.eq_dec k c) as [->|K].
    - rewrite !nth_error_set_nth, !Nat.eqb_refl, La, Lb'. replace (c <? ncols) with true by (symmetry; now apply Nat.ltb_lt). rewrite EX in CA. rewrite EY in CB. now apply swap_perm.
    - rewrite !nth_error_set_nth. replace (k =? c) with false by (symmetry; now apply Nat.eqb_neq). rewrite (Kb k K). rewrite (set_same (column m k) a _ CA). rewrite (set_same (column m k) b _ CB). reflexivity.
  Qed.
  Lemma shuffle_ok d ncols n (m : list (list T)) : in_range d -> 0 < n -> length m = n -> Forall (fun r => length r = ncols) m ->
    exists m', shuffle d ncols n m = Some m' /\ length m' = n /\ Forall (fun r => length r = ncols) m' /\ forall k, Permutation (column m k) (column m' k).
  Proof.
    intros D P. unfold shuffle. assert (G : forall p, In p (list_prod (seq 0 n) (seq 0 ncols)) -> fst p < n /\ snd p < ncols).
    { intros [a c] I. apply in_prod_iff in I. destruct I as (I & J). apply in_seq in I. apply in_seq in J. cbn. lia. }
    revert m. induction (list_prod (seq 0 n) (seq 0 ncols)) as [|[a c] l IH]; intros m L F; cbn [fold_left].
    - exists m. auto.
    - destruct (G (a, c) (or_introl eq_refl)) as (A & C). cbn [fst snd] in A, C. unfold shuffle_step at 2. unfold random_range. cbn [fst snd]. replace (0 <? n) with true by (symmetry; now apply Nat.ltb_lt). pose proof (D a c 0 n P) as W.
      destruct (swap_cells_ok ncols m a (d a c 0 n) c F ltac:(lia) ltac:(lia) C) as (m1 & -> & L1 & F1 & P1).
      destruct (IH (fun p I => G p (or_intror I)) m1 ltac:(lia) F1) as (m' & E & L' & F2 & P2). exists m'. split; [exact E|]. split; [exact L'|]. split; [exact F2|]. intros k. now rewrite P1.
  Qed.
  Lemma cell_ok (d : nat -> nat -> nat) (data : list (list T)) ncols n s idx : (forall lo hi, lo < hi -> lo <= d lo hi < hi) -> Forall (fun r => length r = ncols) data -> 0 < n -> n <= length data -> s < n -> idx < ncols ->
    exists v, cell d data n s idx = Some v /\ in_stratum data (length data / n) idx s v.
  Proof.
    intros D F P N HS I. unfold cell, random_range. cbv zeta. set (w := length data / n). assert (W : 0 < w) by (apply Nat.div_str_pos; lia). assert (U : n * w <= length data) by (apply Nat.mul_div_le; lia).
    replace (s * w <? (s + 1) * w) with true by (symmetry; apply Nat.ltb_lt; nia). specialize (D (s * w) ((s + 1) * w) ltac:(nia)). set (i := d (s * w) ((s + 1) * w)) in *.
    assert (X : i < length data) by (clear - D U HS; assert ((s + 1) * w <= n * w) by (apply Nat.mul_le_mono_r; lia); lia).
    destruct (nth_error data i) as [row|] eqn:E; [|apply nth_error_None in E; lia]. assert (L : length row = ncols) by (rewrite Forall_forall in F; apply F; eapply nth_error_In; exact E).
    destruct (nth_error row idx) as [v|] eqn:V; [|apply nth_error_None in V; lia]. exists v. split; [reflexivity|]. exists i, row. auto.
  Qed.
  Lemma diagonal_ok d (data : list (list T)) ncols n : in_range d -> Forall (fun r => length r = ncols) data -> 0 < n -> n <= length data ->
    exists m, diagonal d data ncols n = Some m /\ length m = n /\ Forall (fun r => length r = ncols) m /\
      forall s r k v, nth_error m s = Some r -> nth_error r k = Some v -> in_stratum data (length data / n) k s v.
  Proof.
    intros D F P N. unfold diagonal.
    assert (R : forall s, In s (seq 0 n) -> exists r, all (map (fun idx => cell (d s idx) data n s idx) (seq 0 ncols)) = Some r).
    { intros s I. apply in_seq in I. destruct (all_total (fun idx => cell (d s idx) data n s idx) (seq 0 ncols)) as (r & E & _); [|now exists r]. intros idx J. apply in_seq in J. destruct (cell_ok (d s idx) data ncols n s idx (D s idx) F P N ltac:(lia) ltac:(lia)) as (v & V & _). now exists v. }
    destruct (all_total _ _ R) as (m & E & F2). exists m. split; [exact E|]. split; [rewrite (Forall2_len _ _ _ F2); apply seq_length|].
    assert (Q : forall s r, nth_error m s = Some r -> s < n /\ length r = ncols /\ forall k v, nth_error r k = Some v -> cell (d s k) data n s k = Some v /\ k < ncols).
    { intros s r M. destruct (Forall2_nth _ _ _ _ _ F2 M) as (s' & HS & A). assert (s < n) by (rewrite <- (seq_length n 0); apply nth_error_Some; congruence).
      assert (s' = s) as -> by (apply (nth_error_nth _ _ 0) in HS; rewrite seq_nth in HS by assumption; cbn in HS; lia). split; [assumption|]. apply all_spec in A.
      assert (L : length r = ncols) by (apply (f_equal (@length _)) in A; rewrite !map_length, seq_length in A; lia). split; [exact L|]. intros k v V. assert (K : k < ncols) by (rewrite <- L; apply nth_error_Some; congruence). split; [|exact K].
      apply (f_equal (fun l => nth_error l k)) in A. rewrite !nth_error_map, V in A. rewrite (nth_error_nth' _ 0) in A by (rewrite seq_length; exact K). rewrite seq_nth in A by exact K. cbn in A. congruence. }
    split; [apply Forall_forall; intros r I; apply In_nth_error in I; destruct I as (s & I); now apply (Q s r I)|].
    intros s r k v M V. destruct (Q s r M) as (S1 & _ & S2). destruct (S2 k v V) as (S3 & K). destruct (cell_ok (d s k) data ncols n s k (D s k) F P N S1 K) as (v' & V' & I). congruence.
  Qed.
  Lemma column_vs (m : list (list T)) ncols k : Forall (fun r => length r = ncols) m -> k < ncols -> exists vs, map Some vs = column m k /\ length vs = length m.
  Proof.
    intros F K. induction F as [|r m L _ (vs & E & G)]; [exists []; auto|]. cbv beta in L. destruct (nth_error r k) as [v|] eqn:V; [|apply nth_error_None in V; lia]. exists (v :: vs). unfold column in *. cbn. rewrite V, E, G. auto.
  Qed.
End H.
