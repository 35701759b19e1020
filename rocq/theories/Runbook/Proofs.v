(** The validator keeps the set of tags as separated ranges. *)
From Coq Require Import String ZArith List PeanoNat Bool Lia Arith.
From Verif.Runbook Require Import Model Spec.
Import ListNotations.
Local Open Scope nat_scope.
Local Open Scope list_scope.

Definition member (l : list range) (t : nat) : Prop := exists r, In r l /\ within r t.
Fixpoint dis (a : nat) (l : list range) : Prop := match l with [] => True | r :: l => a <= lo r /\ lo r < hi r /\ dis (hi r) l end.
Fixpoint sep (a : nat) (l : list range) : Prop := match l with [] => True | r :: l => a <= lo r /\ lo r < hi r /\ sep (S (hi r)) l end.
Definition total (l : list range) : nat := list_sum (map (fun r => hi r - lo r) l).

Lemma member_cons r l t : member (r :: l) t <-> within r t \/ member l t.
Proof. unfold member. cbn. split; [intros (x & [<-|I] & W); [now left|right; now exists x]|intros [W|(x & I & W)]; [exists r|exists x]; auto]. Qed.
Lemma member_app l m t : member (l ++ m) t <-> member l t \/ member m t.
Proof. unfold member. split; [intros (x & I & W); apply in_app_iff in I as [I|I]; [left|right]; now exists x|intros [(x & I & W)|(x & I & W)]; exists x; (split; [apply in_app_iff; auto|exact W])]. Qed.
Lemma member_nil t : member [] t <-> False.
Proof. split; [intros (x & [] & _)|tauto]. Qed.
Lemma total_cons r l : total (r :: l) = (hi r - lo r) + total l.
Proof. reflexivity. Qed.
Lemma total_app l m : total (l ++ m) = total l + total m.
Proof. unfold total. rewrite map_app. apply list_sum_app. Qed.
Lemma sep_le a b l : b <= a -> sep a l -> sep b l.
Proof. destruct l; cbn; [tauto|]. intros H (A & B & C). repeat split; [lia|assumption..]. Qed.
Lemma sep_dis a l : sep a l -> dis a l.
Proof.
  revert a. induction l as [|r l IH]; intros a; cbn; [tauto|]. intros (A & B & C). repeat split; [assumption..|]. apply IH. eapply sep_le; [|exact C]. lia.
Qed.
Lemma dis_ge a l r : dis a l -> In r l -> a <= lo r /\ lo r < hi r.
Proof.
  revert a. induction l as [|x l IH]; intros a D []; cbn in D; destruct D as (A & B & C); [subst; lia|]. specialize (IH _ C H). lia.
Qed.
(** The tags of disjoint ranges, counted. *)
Lemma tags_in r t : In t (tags_of r) <-> within r t.
Proof. unfold tags_of, within. rewrite in_seq. lia. Qed.
Lemma dis_nodup l : forall a, dis a l -> NoDup (flat_map tags_of l) /\ (forall t, In t (flat_map tags_of l) -> a <= t).
Proof.
  induction l as [|r l IH]; intros a D; [split; [constructor|intros t []]|]. cbn in D. destruct D as (A & B & C). destruct (IH _ C) as [N G]. cbn [flat_map]. split.
  - assert (X : forall m, NoDup m -> (forall t, In t m -> hi r <= t) -> NoDup (tags_of r ++ m)).
    { intros m Nm Gm. unfold tags_of. assert (K : forall n s, (forall t, In t m -> s + n <= t) -> NoDup (seq s n ++ m)).
      { induction n as [|n IHn]; intros s Hs; [exact Nm|]. cbn [seq app]. constructor; [|apply IHn; intros t T; specialize (Hs t T); lia].
        intros I. apply in_app_iff in I as [I|I]; [apply in_seq in I; lia|]. specialize (Hs _ I). lia. }
      apply K. intros t T. specialize (Gm t T). lia. }
    apply X; assumption.
  - intros t I. apply in_app_iff in I as [I|I]; [apply tags_in in I; unfold within in I; lia|]. specialize (G t I). lia.
Qed.
Lemma flat_member l t : In t (flat_map tags_of l) <-> member l t.
Proof. rewrite in_flat_map. unfold member. split; intros (x & I & W); exists x; (split; [exact I|now apply tags_in]). Qed.
Lemma flat_total l : length (flat_map tags_of l) = total l.
Proof. induction l as [|r l IH]; [reflexivity|]. cbn [flat_map]. rewrite app_length, IH, total_cons. unfold tags_of. now rewrite seq_length. Qed.
Lemma counts_dis a l L : dis a l -> (forall t, member l t <-> L t) -> counts L (total l).
Proof. intros D M. exists (flat_map tags_of l). split; [apply (dis_nodup l a D)|]. split; [intros t; rewrite flat_member; apply M|apply flat_total]. Qed.
Lemma counts_fun L a b : counts L a -> counts L b -> a = b.
Proof. intros (l & N & I & <-) (m & N' & I' & <-). apply Nat.le_antisymm; apply NoDup_incl_length; try assumption; intros t T; [apply I', I|apply I, I']; exact T. Qed.

(** ** compact *)
Lemma compact_ok rest : forall w, lo w < hi w -> dis (hi w) rest -> exists l, compact_from w rest = Done l /\ sep (lo w) l /\ (forall t, member l t <-> member (w :: rest) t) /\ total l = total (w :: rest).
Proof.
  induction rest as [|r rest IH]; intros w W D; cbn [compact_from].
  - exists [w]. split; [reflexivity|]. split; [cbn; auto|]. split; [tauto|reflexivity].
  - cbn in D. destruct D as (A & B & C). destruct (Nat.eqb_spec (hi w) (lo r)) as [E|E].
    + destruct (IH (mkRange (lo w) (hi r))) as (l & E1 & E2 & E3 & E4); [cbn; lia|exact C|]. exists l. split; [exact E1|]. split; [exact E2|]. split.
      * intros t. rewrite E3, !member_cons. unfold within. cbn [lo hi]. split; [intros [H|H]; [|now right; right]|intros [H|[H|H]]; [left; lia|left; lia|now right]]. destruct (Nat.lt_ge_cases t (hi w)); [left; lia|right; left; lia].
      * rewrite E4, !total_cons. cbn [lo hi]. lia.
    + destruct (Nat.ltb_spec (hi w) (lo r)) as [L|L]; [|lia]. cbn [guard]. destruct (IH r B C) as (l & E1 & E2 & E3 & E4). rewrite E1. cbn [bind]. exists (w :: l). split; [reflexivity|]. split; [cbn; repeat split; [lia..|]; eapply sep_le; [|exact E2]; lia|]. split.
      * intros t. rewrite !(member_cons w), E3. reflexivity.
      * rewrite total_cons, E4. now rewrite !total_cons.
Qed.
Lemma compact_dis a l : dis a l -> exists m, compact l = Done m /\ sep a m /\ (forall t, member m t <-> member l t) /\ total m = total l.
Proof.
  destruct l as [|w rest]; intros D; [exists []; repeat split; tauto|]. cbn in D. destruct D as (A & B & C). destruct (compact_ok rest w B C) as (m & E1 & E2 & E3 & E4). exists m. repeat split; try assumption; try apply E3. eapply sep_le; [|exact E2]. exact A.
Qed.
(** ** find *)
Lemma overlaps_iff a b : lo a < hi a -> lo b < hi b -> overlaps a b = true <-> exists t, within a t /\ within b t.
Proof.
  intros HA HB. unfold overlaps, contains, within. rewrite orb_true_iff, !andb_true_iff, !Nat.leb_le, !Nat.ltb_lt. split; [intros [H|H]; [exists (lo b)|exists (lo a)]; lia|]. intros (t & H1 & H2). lia.
Qed.
Lemma find_ok l : forall a i tags, dis a l -> lo tags < hi tags ->
  match find_from i l tags with
  | At j => exists p r s, l = p ++ r :: s /\ j = i + length p /\ exists t, within tags t /\ within r t
  | Before j => exists p s, l = p ++ s /\ j = i + length p /\ (forall r, In r p -> hi r <= lo tags) /\ (forall r, In r s -> hi tags <= lo r)
  | Back => forall r, In r l -> hi r <= lo tags
  end.
Proof.
  induction l as [|r l IH]; intros a i tags D T; cbn [find_from]; [intros r []|]. cbn in D. destruct D as (A & B & C). destruct (overlaps tags r) eqn:O.
  - apply overlaps_iff in O; [|assumption..]. exists [], r, l. split; [reflexivity|]. split; [cbn; lia|exact O].
  - destruct (Nat.leb_spec (hi tags) (lo r)) as [L|L].
    + exists [], (r :: l). split; [reflexivity|]. split; [cbn; lia|]. split; [intros x []|]. intros x [<-|X]; [exact L|]. destruct (dis_ge _ _ _ C X). lia.
    + assert (H : hi r <= lo tags).
      { destruct (Nat.le_gt_cases (hi r) (lo tags)) as [|G]; [assumption|exfalso]. assert (overlaps tags r = true); [|congruence]. apply overlaps_iff; [assumption..|]. exists (Nat.max (lo tags) (lo r)). unfold within. lia. }
      specialize (IH (hi r) (S i) tags C T). destruct (find_from (S i) l tags) as [|j|j].
      * intros x [<-|X]; [exact H|now apply IH].
      * destruct IH as (p & s & -> & -> & P1 & P2). exists (r :: p), s. split; [reflexivity|]. split; [cbn; lia|]. split; [|exact P2]. intros x [<-|X]; [exact H|now apply P1].
      * destruct IH as (p & x & s & -> & -> & P1). exists (r :: p), x, s. split; [reflexivity|]. split; [cbn; lia|exact P1].
Qed.
Lemma dis_insert tags s : forall p a, lo tags < hi tags -> dis a (p ++ s) -> a <= lo tags -> (forall r, In r p -> hi r <= lo tags) -> (forall r, In r s -> hi tags <= lo r) -> dis a (p ++ tags :: s).
Proof.
  induction p as [|r p IH]; intros a T D A HP HS; cbn [app] in *.
  - cbn. repeat split; [assumption..|]. destruct s as [|x s]; [exact I|]. cbn in D |- *. destruct D as (_ & D1 & D2). repeat split; [apply HS; now left|assumption..].
  - cbn in D |- *. destruct D as (D0 & D1 & D2). repeat split; [assumption..|]. apply IH; try assumption; [apply HP; now left|intros x X; apply HP; now right].
Qed.
(** ** separated ranges *)
Lemma sep_gap l : forall a r, sep a l -> In r l -> ~ member l (hi r).
Proof.
  induction l as [|x l IH]; intros a r D H M; [elim H|]. cbn in D. destruct D as (A & B & C). pose proof (sep_dis _ _ C) as CD. apply member_cons in M. destruct H as [->|H].
  - destruct M as [M|(y & Y & M)]; [unfold within in M; lia|]. destruct (dis_ge _ _ _ CD Y). unfold within in M. lia.
  - destruct (dis_ge _ _ _ CD H). destruct M as [M|M]; [unfold within in M; lia|]. exact (IH _ r C H M).
Qed.
Lemma sep_cover a l r x b : sep a l -> In r l -> within r x -> (forall t, x <= t < b -> member l t) -> b <= hi r.
Proof. intros D H W M. destruct (Nat.le_gt_cases b (hi r)) as [|G]; [assumption|exfalso]. apply (sep_gap l a r D H). apply M. unfold within in W. lia. Qed.
Lemma dis_one l : forall a r r' t, dis a l -> In r l -> In r' l -> within r t -> within r' t -> r = r'.
Proof.
  induction l as [|x l IH]; intros a r r' t D H H' W W'; [elim H|]. cbn in D. destruct D as (A & B & C). destruct H as [->|H], H' as [->|H']; [reflexivity| | |eapply IH; eassumption].
  - destruct (dis_ge _ _ _ C H'). unfold within in *. lia.
  - destruct (dis_ge _ _ _ C H). unfold within in *. lia.
Qed.
Lemma sep_splice cur s x : forall p a, sep a (p ++ cur :: s) -> (forall b, b <= lo cur -> sep (S (hi cur)) s -> sep b (x ++ s)) -> sep a (p ++ x ++ s).
Proof.
  induction p as [|r p IH]; intros a D H; cbn [app] in *; cbn in D.
  - destruct D as (A & B & C). now apply H.
  - destruct D as (A & B & C). cbn. repeat split; [assumption..|]. now apply IH.
Qed.

(** ** the stages *)
Definition Inv (v : validator) (L : nat -> Prop) : Prop :=
  sep 0 (v_active v) /\ (forall t, member (v_active v) t <-> L t) /\ v_current v = total (v_active v) /\ v_current v <= v_max_active v.
Lemma Inv_counts v L : Inv v L -> counts L (v_current v).
Proof. intros (D & M & -> & _). eapply counts_dis; [apply sep_dis; exact D|exact M]. Qed.
Lemma range_len_ok r : lo r < hi r -> range_len r = Done (hi r - lo r).
Proof. intros H. unfold range_len. destruct (Nat.leb_spec (lo r) (hi r)); [reflexivity|lia]. Qed.

Lemma v_insert_ok v L r : Inv v L -> lo r < hi r ->
  (v_insert v r = Err /\ exists t, within r t /\ L t) \/
  (exists v', v_insert v r = Done v' /\ (forall t, within r t -> ~ L t) /\ Inv v' (fun t => L t \/ within r t) /\ v_max_active v' = Nat.max (v_max_active v) (v_current v') /\ v_max_tag v' = update_max (v_max_tag v) (hi r - 1)).
Proof.
  intros (D & M & TC & MX) H. pose proof (sep_dis _ _ D) as DD. pose proof (find_ok (v_active v) 0 0 r DD H) as F. unfold v_insert, find.
  assert (OK : forall p s, v_active v = p ++ s -> (forall x, In x p -> hi x <= lo r) -> (forall x, In x s -> hi r <= lo x) ->
    exists v', (let! n := range_len r in let! active := compact (p ++ r :: s) in Done (mkV active (Nat.max (v_max_active v) (v_current v + n)) (v_current v + n) (match hi r with 0 => v_max_tag v | S tag => update_max (v_max_tag v) tag end))) = Done v' /\
     (forall t, within r t -> ~ L t) /\ Inv v' (fun t => L t \/ within r t) /\ v_max_active v' = Nat.max (v_max_active v) (v_current v') /\ v_max_tag v' = update_max (v_max_tag v) (hi r - 1)).
  { intros p s E P1 P2. rewrite E in DD. pose proof (dis_insert r s p 0 H DD ltac:(lia) P1 P2) as D'. destruct (compact_dis 0 _ D') as (m & E1 & E2 & E3 & E4). rewrite (range_len_ok r H). cbn [bind]. rewrite E1. cbn [bind]. eexists. split; [reflexivity|]. split; [|split; [|split; [reflexivity|]]].
    - intros t W Lt. apply M in Lt. rewrite E in Lt. apply member_app in Lt as [(x & X & W')|(x & X & W')]; [specialize (P1 x X)|specialize (P2 x X)]; unfold within in *; lia.
    - split; [exact E2|]. cbn [v_active v_current v_max_active]. split; [|split; [|lia]].
      + intros t. rewrite E3, member_app, member_cons, <- M, E, member_app. tauto.
      + rewrite E4, TC, E, !total_app, total_cons. lia.
    - cbn [v_max_tag]. destruct (hi r) as [|k]; [lia|]. now rewrite Nat.sub_1_r. }
  destruct (find_from 0 (v_active v) r) as [|j|j].
  - right. cbn [bind]. apply (OK (v_active v) []); [now rewrite app_nil_r|exact F|intros x []].
  - right. destruct F as (p & s & E & -> & P1 & P2). cbn [bind]. unfold insert_at. rewrite E. cbn [Nat.add]. rewrite firstn_app, Nat.sub_diag, firstn_all, firstn_O, app_nil_r, skipn_app, skipn_all, Nat.sub_diag. cbn [app]. change (skipn 0 s) with s. now apply OK.
  - left. split; [reflexivity|]. destruct F as (p & x & s & E & _ & t & W & W'). exists t. split; [exact W|]. apply M. rewrite E. apply member_app. right. apply member_cons. now left.
Qed.
(** Tags that are all present lie in the one range that [find] returns. *)
Lemma find_present v L r : Inv v L -> lo r < hi r ->
  ((exists t, within r t /\ ~ L t) /\ match find (v_active v) r with At i => exists c, nth_error (v_active v) i = Some c /\ strictly_contains c r = false | _ => True end) \/
  ((forall t, within r t -> L t) /\ exists p c s, v_active v = p ++ c :: s /\ find (v_active v) r = At (length p) /\ lo c <= lo r /\ hi r <= hi c).
Proof.
  intros (D & M & TC & MX) H. pose proof (sep_dis _ _ D) as DD. pose proof (find_ok (v_active v) 0 0 r DD H) as F. unfold find.
  assert (Z : forall p s, v_active v = p ++ s -> (forall x, In x p -> hi x <= lo r) -> (forall x, In x s -> hi r <= lo x) -> exists t, within r t /\ ~ L t).
  { intros p s E P1 P2. exists (lo r). split; [unfold within; lia|]. intros Lt. apply M in Lt. rewrite E in Lt. apply member_app in Lt as [(x & X & W')|(x & X & W')]; [specialize (P1 x X)|specialize (P2 x X)]; unfold within in *; lia. }
  destruct (find_from 0 (v_active v) r) as [|j|j].
  - left. split; [|exact I]. apply (Z (v_active v) []); [now rewrite app_nil_r|exact F|intros x []].
  - left. split; [|exact I]. destruct F as (p & s & E & _ & P1 & P2). now apply (Z p s).
  - destruct F as (p & c & s & E & -> & t & W & W'). cbn [Nat.add]. destruct (strictly_contains c r) eqn:SC.
    + right. unfold strictly_contains in SC. apply andb_true_iff in SC as [S1 S2]. apply Nat.leb_le in S1, S2. split.
      * intros u U. apply M. rewrite E. apply member_app. right. apply member_cons. left. unfold within in *. lia.
      * exists p, c, s. repeat split; assumption.
    + left. split; [|exists c; split; [rewrite E, nth_error_app2, Nat.sub_diag by lia; reflexivity|exact SC]].
      (* some tag is missing *)
      destruct (Nat.le_gt_cases (lo c) (lo r)) as [A|A].
      * (* the gap after c *) exists (hi c). assert (B : hi c < hi r). { unfold strictly_contains in SC. apply andb_false_iff in SC as [SC|SC]; apply Nat.leb_gt in SC; lia. }
        split; [unfold within in *; lia|]. rewrite <- M. apply (sep_gap _ 0); [exact D|]. rewrite E. apply in_elt.
      * (* the gap before c *) exists (lo c - 1). split; [unfold within in *; lia|]. rewrite <- M. intros (x & X & Wx).
        assert (K : hi x <> lo c). { intros EQ. apply (sep_gap _ 0 x D X). rewrite EQ. rewrite E. apply member_app. right. apply member_cons. left. unfold within in *. lia. }
        assert (x = c). { apply (dis_one _ 0 x c (lo c) DD X); [rewrite E; apply in_elt|unfold within in *; lia|unfold within in *; lia]. } subst x. unfold within in Wx. lia.
Qed.
Lemma remove_ok c r : lo r < hi r -> lo c <= lo r -> hi r <= hi c -> exists rem, range_remove c r = Done rem /\
  let x := match rem with RNone => [] | ROne r => [r] | RTwo a b => [a; b] end in
  (forall t, member x t <-> within c t /\ ~ within r t) /\ total x + (hi r - lo r) = hi c - lo c /\ forall s b, b <= lo c -> sep (S (hi c)) s -> sep b (x ++ s).
Proof.
  intros H A B. unfold range_remove. rewrite (range_len_ok r H). cbn [bind]. destruct (Nat.eqb_spec (hi r - lo r) 0) as [Z|_]; [lia|].
  assert (O : overlaps c r = true) by (apply overlaps_iff; [lia..|]; exists (lo r); unfold within; lia). rewrite O. cbn [negb].
  destruct (strictly_contains r c) eqn:S1.
  { unfold strictly_contains in S1. apply andb_true_iff in S1 as [S1 S2]. apply Nat.leb_le in S1, S2. eexists. split; [reflexivity|]. cbv zeta. split; [intros t; rewrite member_nil; unfold within; lia|]. split; [cbn; lia|]. intros s b Hb S. cbn [app]. eapply sep_le; [|exact S]. lia. }
  assert (N : lo r <= lo c -> hi r < hi c) by (intros X; unfold strictly_contains in S1; apply andb_false_iff in S1 as [S1|S1]; apply Nat.leb_gt in S1; lia).
  destruct (Nat.leb_spec (lo r) (lo c)) as [L|L].
  { specialize (N L). eexists. split; [reflexivity|]. cbv zeta. unfold range_new. rewrite Nat.max_l by lia. split; [intros t; rewrite member_cons, member_nil; unfold within; cbn [lo hi]; lia|]. split; [rewrite total_cons; cbn; lia|]. intros s b Hb S. cbn. repeat split; [lia..|exact S]. }
  destruct (Nat.leb_spec (hi c) (hi r)) as [L2|L2].
  { eexists. split; [reflexivity|]. cbv zeta. unfold range_new. rewrite Nat.max_l by lia. split; [intros t; rewrite member_cons, member_nil; unfold within; cbn [lo hi]; lia|]. split; [rewrite total_cons; cbn; lia|]. intros s b Hb S. cbn. repeat split; [lia..|]. eapply sep_le; [|exact S]. lia. }
  assert (S2 : strictly_contains c r = true) by (unfold strictly_contains; apply andb_true_iff; split; apply Nat.leb_le; lia). rewrite S2. cbn [guard]. eexists. split; [reflexivity|]. cbv zeta. unfold range_new. rewrite !Nat.max_l by lia.
  split; [intros t; rewrite !member_cons, member_nil; unfold within; cbn [lo hi]; lia|]. split; [rewrite !total_cons; cbn; lia|]. intros s b Hb S. cbn. repeat split; [lia..|exact S].
Qed.
Lemma v_delete_ok v L r : Inv v L -> lo r < hi r ->
  (v_delete v r = Err /\ exists t, within r t /\ ~ L t) \/
  (exists v', v_delete v r = Done v' /\ (forall t, within r t -> L t) /\ Inv v' (fun t => L t /\ ~ within r t) /\ v_max_active v' = v_max_active v /\ v_max_tag v' = v_max_tag v /\ v_current v' <= v_current v).
Proof.
  intros HI H. unfold v_delete. destruct (find_present v L r HI H) as [[X F]|(Y & p & c & s & E & F & A & B)].
  - left. split; [|exact X]. destruct (find (v_active v) r); [reflexivity..|]. destruct F as (c & -> & ->). reflexivity.
  - right. rewrite F, E, nth_error_app2, Nat.sub_diag by lia. cbn [nth_error].
    assert (SC : strictly_contains c r = true) by (unfold strictly_contains; apply andb_true_iff; split; apply Nat.leb_le; lia). rewrite SC. cbn [negb].
    destruct (remove_ok c r H A B) as (rem & R1 & R2 & R3 & R4). rewrite R1. cbn [bind]. rewrite (range_len_ok r H). cbn [bind]. set (x := match rem with RNone => [] | ROne r => [r] | RTwo a b => [a; b] end) in *.
    destruct HI as (D & M & TC & MX). assert (T : total (p ++ c :: s) = total p + (hi c - lo c) + total s) by (rewrite total_app, total_cons; lia).
    destruct (Nat.leb_spec (hi r - lo r) (v_current v)) as [_|LL]; [|rewrite TC, E, T in LL; lia]. cbn [guard].
    assert (SP : splice_at (length p) x (p ++ c :: s) = p ++ x ++ s).
    { unfold splice_at. rewrite firstn_app, Nat.sub_diag, firstn_all, firstn_O, app_nil_r. do 2 f_equal. rewrite skipn_app. replace (S (length p) - length p) with 1 by lia. rewrite skipn_all2 by lia. reflexivity. }
    rewrite SP. eexists. split; [reflexivity|]. split; [exact Y|]. split; [|cbn [v_max_active v_max_tag v_current]; repeat split; lia]. rewrite E in D, M. split; [|split; [|split]]; cbn [v_active v_current v_max_active].
    + eapply sep_splice; [exact D|]. intros b Hb. now apply R4.
    + intros t. rewrite !member_app, R2, <- M, !member_app, member_cons. split; [|tauto]. intros [K|[K|K]]; [|tauto|].
      * split; [now left|]. intros W. pose proof (Y t W) as _. assert (c = c) by reflexivity. destruct K as (y & Y1 & Y2). assert (y = c). { apply (dis_one _ 0 y c t (sep_dis _ _ D)); [apply in_app_iff; now left|apply in_elt|exact Y2|unfold within in *; lia]. } subst y. 
        clear -D Y1. revert D. generalize 0. induction p as [|z p IH]; intros a D; [elim Y1|]. cbn in D. destruct D as (D1 & D2 & D3). destruct Y1 as [->|Y1]; [|exact (IH Y1 _ D3)]. pose proof (dis_ge _ _ c (sep_dis _ _ D3) (in_elt _ _ _)). lia.
      * split; [tauto|]. intros W. destruct K as (y & Y1 & Y2). assert (y = c). { apply (dis_one _ 0 y c t (sep_dis _ _ D)); [apply in_app_iff; right; now right|apply in_elt|exact Y2|unfold within in *; lia]. } subst y.
        clear -D Y1. revert D. generalize 0. induction p as [|z p IH]; intros a D; cbn in D; destruct D as (D1 & D2 & D3); [|exact (IH _ D3)]. pose proof (dis_ge _ _ c (sep_dis _ _ D3) Y1). lia.
    + rewrite TC, E, T, !total_app. lia.
    + lia.
Qed.
Lemma v_replace_ok v L r : Inv v L -> lo r < hi r -> (v_replace v r = Err /\ exists t, within r t /\ ~ L t) \/ (v_replace v r = Done v /\ forall t, within r t -> L t).
Proof.
  intros HI H. unfold v_replace. destruct (find_present v L r HI H) as [[X F]|(Y & p & c & s & E & F & A & B)].
  - left. split; [|exact X]. destruct (find (v_active v) r); [reflexivity..|]. destruct F as (c & -> & ->). reflexivity.
  - right. split; [|exact Y]. rewrite F, E, nth_error_app2, Nat.sub_diag by lia. cbn [nth_error].
    assert (SC : strictly_contains c r = true) by (unfold strictly_contains; apply andb_true_iff; split; apply Nat.leb_le; lia). rewrite SC. reflexivity.
Qed.
