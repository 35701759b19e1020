(** Lists of candidates: keeping the closest of every attribute value. *)
From Verif.Lib Require Import Base Lists F32.
From Verif.Diverse Require Import Model Spec.

Section lists.
Variable attr : nat -> option nat.
Notation alike := (alike attr).
Notation coe := (closest_of_each attr).
Notation cnt x l := (length (filter (alike x) l)).

Lemma alike_sym x y : alike x y = alike y x.
Proof.
  unfold Spec.alike. destruct (attr (n_id x)), (attr (n_id y)); auto. apply Nat.eqb_sym.
Qed.
Lemma alike_trans x y z : alike x y = true -> alike y z = alike x z.
Proof.
  unfold Spec.alike. destruct (attr (n_id x)) as [a|], (attr (n_id y)) as [b|]; try discriminate.
  intros E. apply Nat.eqb_eq in E. now subst.
Qed.
Lemma alike_filter x y l : alike x y = true -> filter (alike x) l = filter (alike y) l.
Proof.
  intros E. apply filter_ext. intros z. symmetry. now apply alike_trans.
Qed.

Lemma coe_app c A : forall P B, coe c P (A ++ B) = coe c P A ++ coe c (rev A ++ P) B.
Proof.
  induction A as [|x A IH]; intros P B; [reflexivity|].
  cbn [app closest_of_each rev]. rewrite !IH. rewrite <- !app_assoc. cbn [app].
  destruct (cnt x P <? c); reflexivity.
Qed.

Lemma coe_ext c l : forall P P',
  (forall x, Nat.min c (cnt x P) = Nat.min c (cnt x P')) -> coe c P l = coe c P' l.
Proof.
  induction l as [|y l IH]; intros P P' H; [reflexivity|]. cbn [closest_of_each].
  assert (E : (cnt y P <? c) = (cnt y P' <? c)).
  { specialize (H y). destruct (Nat.ltb_spec (cnt y P) c), (Nat.ltb_spec (cnt y P') c); auto; lia. }
  assert (X : coe c (y :: P) l = coe c (y :: P') l).
  { apply IH. intros x. cbn [filter]. specialize (H x). destruct (alike x y); cbn [length]; lia. }
  rewrite E, X. reflexivity.
Qed.

Lemma cnt_rev x l : cnt x (rev l) = cnt x l.
Proof.
  induction l as [|y l IH]; [reflexivity|]. cbn [rev filter]. rewrite filter_app, app_length, IH.
  cbn [filter]. destruct (alike x y); cbn [length]; lia.
Qed.

Lemma coe_full c x P Q : c <= cnt x P -> coe c (x :: P) Q = coe c P Q.
Proof.
  intros H. apply coe_ext. intros y. cbn [filter]. destruct (alike y x) eqn:E; [|reflexivity].
  cbn [length]. rewrite (alike_filter y x) by auto. lia.
Qed.

Lemma coe_cnt c x Q : forall P, cnt x (coe c P Q) = Nat.min (cnt x Q) (c - cnt x P).
Proof.
  induction Q as [|y Q IH]; intros P; [reflexivity|]. cbn [closest_of_each filter].
  destruct (Nat.ltb_spec (cnt y P) c) as [H|H]; cbn [filter];
    destruct (alike x y) eqn:E; cbn [length]; rewrite IH; cbn [filter]; rewrite E; cbn [length];
    try reflexivity; pose proof (alike_filter x y P E) as F; rewrite F; lia.
Qed.

Lemma coe_insert c x Q : forall P, cnt x P < c ->
  (coe c (x :: P) Q = coe c P Q /\ cnt x (coe c P Q) + cnt x P < c) \/
  exists A w B, coe c P Q = A ++ w :: B /\ coe c (x :: P) Q = A ++ B /\ alike x w = true /\
    cnt x A + cnt x P + 1 = c /\ filter (alike x) B = [].
Proof.
  induction Q as [|y Q IH]; intros P H.
  { left. cbn. auto. }
  cbn [closest_of_each].
  assert (SW : forall Q', coe c (y :: x :: P) Q' = coe c (x :: y :: P) Q').
  { intros Q'. apply coe_ext. intros z. cbn [filter]. destruct (alike z x), (alike z y); cbn; auto. }
  destruct (alike x y) eqn:E.
  - assert (Ey : cnt y (x :: P) = S (cnt x P)).
    { cbn [filter]. rewrite (alike_sym y x), E. cbn [length]. now rewrite (alike_filter x y) by auto. }
    rewrite Ey. rewrite <- (alike_filter x y P E). destruct (Nat.ltb_spec (cnt x P) c); [|lia].
    destruct (Nat.ltb_spec (S (cnt x P)) c) as [H1|H1].
    + assert (H2 : cnt x (y :: P) < c) by (cbn [filter]; rewrite E; cbn [length]; lia).
      destruct (IH (y :: P) H2) as [(E1 & C1)|(A & w & B & E1 & E2 & Hw & HA & HB)].
      * left. rewrite SW, E1. split; [reflexivity|].
        cbn [filter] in *. rewrite E in *. cbn [length] in *. lia.
      * right. exists (y :: A), w, B. rewrite SW, E2, E1. repeat split; auto.
        cbn [filter] in *. rewrite E in *. cbn [length] in *. lia.
    + right. exists [], y, (coe c (y :: P) Q). rewrite SW.
      assert (Hx : cnt x (y :: P) = c) by (cbn [filter]; rewrite E; cbn [length]; lia).
      rewrite (coe_full c x (y :: P)) by lia. repeat split; auto; [cbn; lia|].
      apply length_zero_iff_nil. rewrite coe_cnt. lia.
  - assert (Ey : cnt y (x :: P) = cnt y P) by (cbn [filter]; now rewrite (alike_sym y x), E).
    assert (Hx : cnt x (y :: P) = cnt x P) by (cbn [filter]; now rewrite E).
    rewrite Ey, SW. specialize (IH (y :: P)). rewrite Hx in IH. specialize (IH H).
    destruct (cnt y P <? c); [|exact IH].
    destruct IH as [(E1 & C1)|(A & w & B & E1 & E2 & Hw & HA & HB)].
    + left. rewrite E1. split; [reflexivity|]. cbn [filter]. now rewrite E.
    + right. exists (y :: A), w, B. rewrite E1, E2. repeat split; auto.
      cbn [filter]. rewrite E. lia.
Qed.

Lemma coe_in c l : forall P x, In x (coe c P l) -> In x l.
Proof.
  induction l as [|y l IH]; intros P x H; [destruct H|]. cbn [closest_of_each] in H.
  destruct (cnt y P <? c); [destruct H as [->|H]; [now left|]|]; right; eauto.
Qed.

Lemma coe_sorted {R : nbr -> nbr -> Prop} c l : forall P, StronglySorted R l -> StronglySorted R (coe c P l).
Proof.
  induction l as [|y l IH]; intros P H; [constructor|]. inv H. cbn [closest_of_each].
  destruct (cnt y P <? c); auto. constructor; auto.
  rewrite Forall_forall in *. intros z Hz. apply coe_in in Hz. auto.
Qed.

Lemma coe_nodup {B} (f : nbr -> B) c l : forall P, NoDup (map f l) -> NoDup (map f (coe c P l)).
Proof.
  induction l as [|y l IH]; intros P H; [constructor|]. cbn [map] in H. inv H. cbn [closest_of_each].
  destruct (cnt y P <? c); auto. cbn [map]. constructor; auto.
  intros Hx. apply H2. apply in_map_iff in Hx. destruct Hx as (z & E & Hz). rewrite <- E.
  apply in_map. eapply coe_in; eauto.
Qed.

Lemma coe_at_most c l : at_most_each attr c (coe c [] l).
Proof. intros x. rewrite coe_cnt. cbn. lia. Qed.

(** Keeping [k] of each, after keeping [c >= k] of each, is keeping [k] of each. *)
Lemma coe_coe k c l : k <= c -> forall P P',
  (forall x, cnt x P' = Nat.min c (cnt x P)) -> coe k P' (coe c P l) = coe k P l.
Proof.
  intros Hk. induction l as [|y l IH]; intros P P' H; [reflexivity|]. cbn [closest_of_each].
  destruct (Nat.ltb_spec (cnt y P) c) as [Hy|Hy].
  - cbn [closest_of_each]. rewrite (H y).
    assert (X : coe k (y :: P') (coe c (y :: P) l) = coe k (y :: P) l).
    { apply IH. intros x. specialize (H x). cbn [filter]. destruct (alike x y) eqn:E; cbn [length].
      - pose proof (alike_filter x y P E) as F. rewrite F in *. lia.
      - exact H. }
    rewrite X. destruct (Nat.ltb_spec (Nat.min c (cnt y P)) k), (Nat.ltb_spec (cnt y P) k); auto; lia.
  - destruct (Nat.ltb_spec (cnt y P) k); [lia|].
    apply IH. intros x. specialize (H x). cbn [filter]. destruct (alike x y) eqn:E; cbn [length]; auto.
    pose proof (alike_filter x y P E) as F. rewrite F in *. lia.
Qed.

(** Splitting off a whole attribute value. *)
Definition others (x : nbr) (l : list nbr) : list nbr := filter (fun y => negb (alike x y)) l.

Lemma others_length x l : length l = cnt x l + length (others x l).
Proof.
  unfold others. induction l as [|y l IH]; [reflexivity|]. cbn [filter].
  destruct (alike x y); cbn [negb length]; lia.
Qed.

Lemma others_coe k x l : forall P, others x (coe k P l) = coe k (others x P) (others x l).
Proof.
  assert (F : forall y P, alike x y = false -> filter (alike y) (others x P) = filter (alike y) P).
  { intros y P E. unfold others. induction P as [|z P IH]; [reflexivity|]. cbn [filter].
    destruct (alike x z) eqn:Ez; cbn [negb filter]; rewrite IH; [|reflexivity].
    destruct (alike y z) eqn:Eyz; [|reflexivity].
    rewrite alike_sym in Eyz. rewrite alike_sym, (alike_trans z y x), alike_sym in E by auto. congruence. }
  induction l as [|y l IH]; intros P; [reflexivity|].
  cbn [closest_of_each]. unfold others at 3. cbn [filter].
  destruct (alike x y) eqn:E; cbn [negb].
  - change (filter (fun y0 => negb (alike x y0)) l) with (others x l).
    assert (Z : others x (y :: P) = others x P) by (unfold others; cbn [filter]; now rewrite E).
    rewrite <- Z, <- IH. destruct (cnt y P <? k); [|reflexivity].
    unfold others at 1. cbn [filter]. now rewrite E.
  - cbn [closest_of_each]. change (filter (fun y0 => negb (alike x y0)) l) with (others x l).
    assert (Z : others x (y :: P) = y :: others x P) by (unfold others; cbn [filter]; now rewrite E).
    rewrite (F y P E), <- Z, <- IH. destruct (cnt y P <? k); [|reflexivity].
    unfold others at 1. cbn [filter]. rewrite E. reflexivity.
Qed.

Lemma cnt_others x y l : cnt x (others y l) <= cnt x l.
Proof.
  unfold others. induction l as [|z l IH]; [reflexivity|]. cbn [filter].
  destruct (alike y z), (alike x z) eqn:E; cbn [negb filter]; try rewrite E; cbn [length]; lia.
Qed.

(** If no attribute value occurs more than [c] times, keeping [k] of each keeps at least
    the fraction [k / c]. *)
Lemma coe_fraction k c : k <= c -> forall n l, length l <= n ->
  (forall x, In x l -> alike x x = true) -> at_most_each attr c l ->
  k * length l <= c * length (coe k [] l).
Proof.
  intros Hk. induction n as [|n IH]; intros l Hn Ha Hc.
  { destruct l; cbn in *; lia. }
  destruct l as [|x l0]; [cbn; lia|]. set (l := x :: l0) in *.
  assert (Hx : 0 < cnt x l).
  { unfold l. cbn [filter]. rewrite (Ha x) by now left. cbn. lia. }
  pose proof (others_length x l) as O1. pose proof (others_length x (coe k [] l)) as O2.
  rewrite others_coe in O2. cbn [others filter] in O2. rewrite coe_cnt in O2. cbn [filter length] in O2.
  assert (I : k * length (others x l) <= c * length (coe k [] (others x l))).
  { apply IH; [lia| |].
    - intros y Hy. apply Ha. unfold others in Hy. apply filter_In in Hy. tauto.
    - intros y. etransitivity; [apply cnt_others|apply Hc]. }
  change (others x []) with (@nil nbr) in O2.
  rewrite O1, O2, Nat.sub_0_r.
  assert (k * cnt x l <= c * Nat.min (cnt x l) k).
  { specialize (Hc x). destruct (Nat.le_gt_cases (cnt x l) k).
    - rewrite Nat.min_l by lia. apply Nat.mul_le_mono_r. lia.
    - rewrite Nat.min_r by lia. rewrite Nat.mul_comm. apply Nat.mul_le_mono_r. apply Hc. }
  rewrite !Nat.mul_add_distr_l. lia.
Qed.

Lemma at_most_firstn c l n : at_most_each attr c l -> at_most_each attr c (firstn n l).
Proof.
  intros H x. specialize (H x). rewrite <- (firstn_skipn n l), filter_app, app_length in H. lia.
Qed.

(** The results: the first [total] of the [k] closest of each are not affected by the two
    size limits of the queues. *)
Lemma coe_results total l k S : 0 < k -> 0 < total -> total <= l ->
  (forall x, In x S -> alike x x = true) ->
  firstn total (coe k [] (firstn l (coe (k * l / total) [] S))) = firstn total (coe k [] S).
Proof.
  intros Hk Ht Hl Ha. set (c := k * l / total).
  assert (Hc : k <= c).
  { unfold c. apply Nat.div_le_lower_bound; [lia|]. rewrite Nat.mul_comm. now apply Nat.mul_le_mono_l. }
  set (T := coe c [] S).
  assert (X : coe k [] T = coe k [] S).
  { unfold T. apply coe_coe; auto. intros x. cbn. lia. }
  rewrite <- X. destruct (Nat.le_gt_cases (length T) l) as [H|H].
  { now rewrite (firstn_all2 T) by lia. }
  rewrite <- (firstn_skipn l T) at 2. rewrite coe_app, firstn_app.
  assert (G : total <= length (coe k [] (firstn l T))).
  { assert (F : k * length (firstn l T) <= c * length (coe k [] (firstn l T))).
    { eapply coe_fraction; [exact Hc|reflexivity| |].
      - intros x Hx. apply Ha. apply in_firstn in Hx. unfold T in Hx. now apply coe_in in Hx.
      - apply at_most_firstn. apply coe_at_most. }
    rewrite firstn_length, Nat.min_l in F by lia.
    assert (D : total * c <= k * l) by (unfold c; apply Nat.mul_div_le; lia).
    apply (Nat.mul_le_mono_pos_l _ _ c); [lia|]. rewrite (Nat.mul_comm c total). lia. }
  rewrite (proj2 (Nat.sub_0_le _ _) G). cbn [firstn]. now rewrite app_nil_r.
Qed.
End lists.
