(** Two runs of the driver side by side, and symmetry of the distances in any arithmetic. *)
From Coq Require Import List ZArith PeanoNat Bool Lia.
From Verif.Lib Require Import Lists.
From Verif.Simd Require Import Model Spec Proofs Proofs2.
Import ListNotations.

Definition ro {A B} (Q : A -> B -> Prop) (a : option A) (b : option B) : Prop :=
  match a, b with Some a, Some b => Q a b | None, None => True | _, _ => False end.
Lemma bind_ro {A B C D} (Q : A -> B -> Prop) (K : C -> D -> Prop) a b f g :
  ro Q a b -> (forall a b, Q a b -> ro K (f a) (g b)) -> ro K (bind a f) (bind b g).
Proof. destruct a, b; cbn; intros H G; try contradiction; auto. Qed.

Section Two.
  Context {L R A T L' R' A' T' : Type} (s : schema L R A T) (s' : schema L' R' A' T').
  Context (x : list L) (y : list R) (x' : list L') (y' : list R') (Q : A -> A' -> Prop).
  Context (Hw : width s = width s') (Hm : main_loop s = main_loop s') (Hi : Q (init s) (init s')).
  Context (Hc : forall a b a' b', Q a a' -> Q b b' -> Q (combine s a b) (combine s' a' b')).
  Context (Hx : length x = length x') (Hy : length y = length y').
  Context (Ha : forall k a a', Q a a' -> Q (accumulate s (firstn (width s) (skipn k x)) (firstn (width s) (skipn k y)) a)
                                     (accumulate s' (firstn (width s) (skipn k x')) (firstn (width s) (skipn k y')) a')).
  Context (He : forall k a a', Q a a' -> length x - k < width s -> length x = length y ->
                  Q (epilogue s (skipn k x) (skipn k y) a) (epilogue s' (skipn k x') (skipn k y') a')).
  Context (Hpos : 0 < width s).

  Lemma feed_ro a a' b o : Q a a' -> ro Q (feed s x y a b o) (feed s' x' y' a' b o).
  Proof.
    intros H. unfold feed. rewrite <- Hw, <- Hm, <- Hx. destruct (_ <=? _); cbn; [now apply Ha|exact I].
  Qed.
  Lemma range_ro {X Y} (K : X -> Y -> Prop) n f g a b : K a b ->
    (forall i a b, K a b -> ro K (f i a) (g i b)) -> ro K (for_range n f a) (for_range n g b).
  Proof.
    intros H0 H. unfold for_range.
    enough (E : forall l o o', ro K o o' -> ro K (fold_left (fun st i => bind st (f i)) l o) (fold_left (fun st i => bind st (g i)) l o'))
      by (apply E; exact H0).
    induction l as [|i l IH]; intros o o' HO; cbn [fold_left]; [assumption|]. apply IH. eapply bind_ro; [exact HO|]. intros; auto.
  Qed.
  Definition Q2 (a : A * A) (b : A' * A') : Prop := Q (fst a) (fst b) /\ Q (snd a) (snd b).
  Definition Q4 (a : A * A * A * A) (b : A' * A' * A' * A') : Prop :=
    Q (fst (fst (fst a))) (fst (fst (fst b))) /\ Q (snd (fst (fst a))) (snd (fst (fst b))) /\
    Q (snd (fst a)) (snd (fst b)) /\ Q (snd a) (snd b).
  Ltac go := repeat first
    [ exact Hi | assumption | progress cbn [ro Q2 Q4 fst snd] | apply feed_ro | apply Hc
    | match goal with
      | |- Q2 _ _ => split | |- Q4 _ _ => repeat split
      | H : Q2 ?a ?b |- _ => destruct a, b; destruct H as [? ?]; cbn [fst snd] in *
      | H : Q4 ?a ?b |- _ => destruct a as [[[? ?] ?] ?], b as [[[? ?] ?] ?]; destruct H as (? & ? & ? & ?); cbn [fst snd] in *
      | |- ro _ (if ?b then _ else _) (if ?b then _ else _) => destruct b
      | |- ro Q (bind (feed _ _ _ _ _ _) _) _ => apply (bind_ro Q Q); [|intros ? ? ?]
      | |- ro Q2 (bind (feed _ _ _ _ _ _) _) _ => apply (bind_ro Q Q2); [|intros ? ? ?]
      | |- ro Q4 (bind (feed _ _ _ _ _ _) _) _ => apply (bind_ro Q Q4); [|intros ? ? ?]
      | |- ro ?K (bind (if _ then feed _ _ _ _ _ _ else _) _) _ => apply (bind_ro Q K); [|intros ? ? ?]
      | |- ro ?K (bind (for_range _ _ (_, _)) _) _ => first [apply (bind_ro Q2 K)|apply (bind_ro Q4 K)]; [apply range_ro; [|intros ? ? ? ?]|intros ? ? ?]
      end ].
  Lemma tail_ro t e a b c d a' b' c' d' : Q a a' -> Q b b' -> Q c c' -> Q d d' ->
    ro Q4 (tail4 s x y t e a b c d) (tail4 s' x' y' t e a' b' c' d').
  Proof. intros. unfold tail4. go. Qed.
  Lemma main_ro t e : ro Q (main_run s x y t e) (main_run s' x' y' t e).
  Proof.
    unfold main_run. rewrite <- Hm. case (main_loop s).
    - unfold main1x1. apply range_ro; [exact Hi|]. intros. now apply feed_ro.
    - unfold main2x1. go.
    - unfold main4x1. go. apply (bind_ro Q4 Q); [now apply tail_ro|]. intros ? ? ?. go.
    - unfold main4x2. apply (bind_ro Q4 Q); [apply range_ro; [go|intros ? ? ? ?; go]|]. intros ? ? ?. go.
      apply (bind_ro Q4 Q); [go|]. intros ? ? ?. go. apply (bind_ro Q4 Q); [now apply tail_ro|]. intros ? ? ?. go.
    - unfold main2x4. apply (bind_ro Q2 Q); [apply range_ro; [go|intros ? ? ? ?; go]|]. intros ? ? ?. go.
      apply (bind_ro Q2 Q); [go|]. intros ? ? ?. go.
  Qed.
  Lemma acc_ro : ro Q (simd_acc s x y) (simd_acc s' x' y').
  Proof.
    unfold simd_acc. cbv zeta. rewrite <- Hx, <- Hy. destruct (length x =? length y) eqn:E; cbn [negb]; [|exact I].
    rewrite <- Hw, <- Hm. apply (bind_ro Q Q); [apply main_ro|]. intros a a' H.
    destruct (negb _); cbn [ro]; [|assumption]. apply Nat.eqb_eq in E. apply He; [assumption| |assumption].
    pose proof (Nat.mod_upper_bound (length x) (width s)). pose proof (Nat.mod_le (length x) (width s)). lia.
  Qed.
End Two.

(** Exchanging the arguments. *)
Lemma map3_swap {X Y Z W} (f : X -> Y -> Z -> W) (g : Y -> X -> Z -> W) a : (forall x y z, f x y z = g y x z) ->
  forall b c, map3 f a b c = map3 g b a c.
Proof. intros H. induction a as [|x a IH]; intros [|y b] [|z c]; cbn [map3]; try reflexivity. now rewrite H, IH. Qed.
Lemma scalar_swap {X Y S} (f : X -> Y -> S -> S) (g : Y -> X -> S -> S) a : (forall x y z, f x y z = g y x z) ->
  forall b s, scalar_loop f a b s = scalar_loop g b a s.
Proof.
  intros H. unfold scalar_loop. induction a as [|x a IH]; intros [|y b] s; cbn [List.combine fold_left]; try reflexivity.
  cbn [fst snd]. now rewrite H, IH.
Qed.
Section Swap.
  Context {F E : Type} (o : fops F) (c : E -> F) (z : E).
  Context (mulc : forall a b, mul o a b = mul o b a) (fmac : forall a b t, fma o a b t = fma o b a t).
  Lemma mac_swap st a b t : mac o st a b t = mac o st b a t.
  Proof. destruct st; cbn [mac]; [apply fmac|rewrite (mulc a b); reflexivity..]. Qed.
  Section Kind.
    Context (k : kind) (Hk : forall st x y t, lane o c c k st x y t = lane o c c k st y x t).
    Lemma f_swap cf x y : 0 < c_width cf ->
      simd_op (f_schema o c c z z k cf) x y = simd_op (f_schema o c c z z k cf) y x.
    Proof.
      intros W. unfold simd_op. set (s := f_schema o c c z z k cf).
      destruct (length x =? length y) eqn:E1.
      2:{ unfold simd_acc. cbv zeta. rewrite (Nat.eqb_sym (length y)), E1. reflexivity. }
      apply Nat.eqb_eq in E1.
      assert (H : ro eq (simd_acc s x y) (simd_acc s y x)).
      { apply acc_ro; try reflexivity; try congruence.
        - intros j a a' ->. cbn [accumulate s f_schema]. apply map3_swap. intros. apply Hk.
        - intros j a a' -> _ _. cbn [epilogue s f_schema]. destruct (c_epi cf).
          + apply map3_swap. intros. apply Hk.
          + f_equal. f_equal. apply scalar_swap. intros. apply Hk.
          + f_equal. apply scalar_swap. intros. apply map3_swap. intros. apply Hk.
        - exact W. }
      destruct (simd_acc s x y), (simd_acc s y x); cbn in H; try contradiction; [now subst|reflexivity].
    Qed.
  End Kind.
  Definition flip (a b : @cacc F) : Prop := let '(p, q, r) := a in b = (q, p, r).
  Lemma cos_swap cf x y : 0 < c_width cf ->
    ro (fun a b => let '(p, q, r) := a in b = (q, p, r))
      (simd_op (cos_schema o c c z z cf) x y) (simd_op (cos_schema o c c z z cf) y x).
  Proof.
    intros W. unfold simd_op. set (s := cos_schema o c c z z cf).
    destruct (length x =? length y) eqn:E1.
    2:{ unfold simd_acc. cbv zeta. rewrite (Nat.eqb_sym (length y)), E1. exact I. }
    apply Nat.eqb_eq in E1.
    assert (CA : forall st xs ys a a', flip a a' -> flip (cos_add o c c st xs ys a) (cos_add o c c st ys xs a')).
    { intros st xs ys [[p q] r] a' ->. cbn [cos_add flip]. f_equal. apply map3_swap. intros. apply mac_swap. }
    assert (CC : forall a b a' b', flip a a' -> flip b b' -> flip (cos_combine o a b) (cos_combine o a' b')).
    { intros [[p q] r] [[p' q'] r'] a' b' -> ->. reflexivity. }
    eapply (bind_ro flip); [apply acc_ro; try reflexivity; try congruence|].
    - exact CC.
    - intros j a a' H. cbn [accumulate s cos_schema]. now apply CA.
    - intros j a a' H _ _. cbn [epilogue s cos_schema]. destruct (c_epi cf) as [|st cap|cap].
      + now apply CA.
      + set (xs := capped cap _ (skipn j x)). set (ys := capped cap _ (skipn j y)).
        assert (SL : forall xs ys p q r, exists p' q' r',
          scalar_loop (fun x y '(xx, yy, xy) => (mac o st (c x) (c x) xx, mac o st (c y) (c y) yy, mac o st (c x) (c y) xy)) xs ys (p, q, r) = (p', q', r') /\
          scalar_loop (fun x y '(xx, yy, xy) => (mac o st (c x) (c x) xx, mac o st (c y) (c y) yy, mac o st (c x) (c y) xy)) ys xs (q, p, r) = (q', p', r')).
        { clear - fmac mulc. unfold scalar_loop. induction xs as [|u xs IH]; intros [|v ys] p q r; cbn [List.combine fold_left fst snd]; eauto.
          destruct (IH ys (mac o st (c u) (c u) p) (mac o st (c v) (c v) q) (mac o st (c u) (c v) r)) as (p' & q' & r' & A & B).
          exists p', q', r'. split; [exact A|]. rewrite (mac_swap st (c v) (c u)). exact B. }
        destruct (SL xs ys (zero o) (zero o) (zero o)) as (p' & q' & r' & -> & ->). apply CC; [assumption|reflexivity].
      + apply CC; [assumption|]. set (xs := capped cap _ (skipn j x)). set (ys := capped cap _ (skipn j y)).
        unfold scalar_loop. match goal with |- flip (fold_left _ _ ?i) _ => assert (H0 : flip i i) by reflexivity; revert H0; generalize i at 1 3 as i1; generalize i as i2 end.
        clearbody xs ys. revert ys. induction xs as [|u xs IH]; intros [|v ys] i1 i2 H0; cbn [List.combine fold_left fst snd]; try assumption.
        apply IH. now apply CA.
    - exact W.
    - intros [[p q] r] b ->. cbn. reflexivity.
  Qed.
End Swap.
