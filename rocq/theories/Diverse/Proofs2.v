(** Inserting one candidate into the ranked list of all candidates: the effect on the
    first [L] of the [c] closest of each. *)
From Verif.Lib Require Import Base Lists F32.
From Verif.Diverse Require Import Model Spec Proofs.

Definition key (x : nbr) : Z := f32_key (n_dist x).
Definition klt (x y : nbr) : Prop := (key x < key y)%Z.

Lemma klt_app (A B : list nbr) : StronglySorted klt (A ++ B) ->
  StronglySorted klt A /\ StronglySorted klt B /\ forall x y, In x A -> In y B -> klt x y.
Proof.
  induction A as [|z A IH]; cbn [app]; intros H.
  - repeat split; auto; [constructor|intros x y []].
  - inv H. destruct (IH H2) as (S1 & S2 & S3). rewrite Forall_app in H3. destruct H3 as [F1 F2].
    repeat split; auto; [now constructor|].
    intros x y [<-|Hx] Hy; [|auto]. rewrite Forall_forall in F2. auto.
Qed.
Lemma klt_app_intro (A B : list nbr) : StronglySorted klt A -> StronglySorted klt B ->
  (forall x y, In x A -> In y B -> klt x y) -> StronglySorted klt (A ++ B).
Proof.
  intros HA HB H. induction HA as [|z A HA IH HF]; cbn [app]; auto. constructor.
  - apply IH. intros x y Hx Hy. apply H; [now right|auto].
  - rewrite Forall_app. split; auto. rewrite Forall_forall. intros y Hy. apply H; [now left|auto].
Qed.

Lemma klt_split x (S : list nbr) : StronglySorted klt S -> ~ In (key x) (map key S) ->
  exists P Q, S = P ++ Q /\ (forall y, In y P -> klt y x) /\ (forall y, In y Q -> klt x y).
Proof.
  induction 1 as [|z S HS IH HF]; intros Hn.
  - exists [], []. repeat split; intros y [].
  - cbn [map] in Hn. destruct (Z.lt_trichotomy (key z) (key x)) as [H|[H|H]].
    + destruct IH as (P & Q & -> & H1 & H2); [intros X; apply Hn; now right|].
      exists (z :: P), Q. repeat split; auto. intros y [<-|Hy]; auto.
    + exfalso. apply Hn. left. exact H.
    + exists [], (z :: S). split; [reflexivity|]. split; [intros y []|].
      intros y [<-|Hy]; [exact H|]. rewrite Forall_forall in HF. specialize (HF y Hy).
      unfold klt in *. lia.
Qed.

Lemma firstn_S_nth {A} (l : list A) : forall m g, nth_error l m = Some g ->
  firstn (S m) l = firstn m l ++ [g].
Proof.
  induction l as [|y r IH]; intros [|m] g Ng; try discriminate.
  - cbn in *. inv Ng. now destruct r.
  - change (y :: firstn (S m) r = y :: firstn m r ++ [g]). cbn in Ng. f_equal. now apply IH.
Qed.

Section step.
Variable attr : nat -> option nat.
Notation alike := (alike attr).
Notation coe := (closest_of_each attr).
Notation cnt x l := (length (filter (alike x) l)).

Variables (c L : nat) (P Q : list nbr) (x : nbr).
Hypothesis HP : forall y, In y P -> klt y x.
Hypothesis HQ : forall y, In y Q -> klt x y.
Hypothesis Hx : alike x x = true.

Let K1 := coe c [] P.
Let K2 := coe c (rev P) Q.
Let T := coe c [] (P ++ Q).
Let T' := coe c [] (P ++ x :: Q).
Let G := firstn L T.
Let G' := firstn L T'.

Lemma T_eq : T = K1 ++ K2.
Proof. unfold T. rewrite coe_app, app_nil_r. reflexivity. Qed.
Lemma T'_eq : T' = K1 ++ (if cnt x P <? c then x :: coe c (x :: rev P) Q else coe c (x :: rev P) Q).
Proof.
  unfold T'. rewrite coe_app, app_nil_r. cbn [closest_of_each]. rewrite cnt_rev.
  destruct (cnt x P <? c); reflexivity.
Qed.
Lemma T'_full : c <= cnt x P -> T' = T.
Proof.
  intros H. rewrite T'_eq, T_eq. destruct (Nat.ltb_spec (cnt x P) c); [lia|].
  rewrite coe_full by (rewrite cnt_rev; lia). reflexivity.
Qed.
Lemma K1_lt y : In y K1 -> klt y x.
Proof. intros H. apply coe_in in H. auto. Qed.
Lemma K2_gt y : In y K2 -> klt x y.
Proof. intros H. apply coe_in in H. auto. Qed.
Lemma K1_cnt : cnt x K1 = Nat.min (cnt x P) c.
Proof. unfold K1. rewrite coe_cnt. cbn. lia. Qed.
Lemma T_cnt : cnt x T <= c.
Proof. apply coe_at_most. Qed.

Lemma cnt_app y A B : cnt y (A ++ B) = cnt y A + cnt y B.
Proof. now rewrite filter_app, app_length. Qed.

Lemma G_split : T = G ++ skipn L T.
Proof. unfold G. now rewrite firstn_skipn. Qed.

(** An alike element of [G] beyond [x] means that fewer than [c] are closer. *)
Lemma cnt_small w : cnt x K1 < c \/ (In w G -> alike x w = true -> klt w x).
Proof.
  destruct (Nat.lt_ge_cases (cnt x K1) c) as [H|H]; [now left|right]. intros Hw Ew.
  pose proof T_cnt as C. rewrite T_eq, cnt_app in C.
  assert (I : In w T) by (rewrite G_split; apply in_or_app; now left).
  rewrite T_eq in I. apply in_app_or in I. destruct I as [I|I]; [now apply K1_lt|].
  exfalso. assert (Z : In w (filter (alike x) K2)) by (apply filter_In; auto).
  destruct (filter (alike x) K2); [destruct Z|]. cbn [length] in C. lia.
Qed.

Lemma astep_far_local : cnt x G = c ->
  (forall y, In y G -> alike x y = true -> klt y x) -> G' = G.
Proof.
  intros Hc Hlt. unfold G'. rewrite T'_full; [reflexivity|].
  assert (Z : cnt x K1 = c); [|rewrite K1_cnt in Z; lia].
  pose proof T_cnt as C. pose proof C as C'. rewrite G_split, cnt_app in C. rewrite T_eq, cnt_app in C'.
  assert (N : filter (alike x) K2 = []).
  { destruct (filter (alike x) K2) as [|y r] eqn:E; [reflexivity|exfalso].
    assert (Hy : In y (filter (alike x) K2)) by (rewrite E; now left).
    apply filter_In in Hy. destruct Hy as [Hy Ey].
    assert (I : In y T) by (rewrite T_eq; apply in_or_app; now right).
    rewrite G_split in I. apply in_app_or in I. destruct I as [I|I].
    - specialize (Hlt y I Ey). specialize (K2_gt y Hy). unfold klt in *. lia.
    - assert (W : In y (filter (alike x) (skipn L T))) by (apply filter_In; auto).
      destruct (filter (alike x) (skipn L T)); [destruct W|]. cbn [length] in C. lia. }
  assert (X : cnt x T = c) by (rewrite G_split, cnt_app; lia).
  rewrite T_eq, cnt_app, N in X. cbn in X. lia.
Qed.

Lemma astep_near_local w F : cnt x G = c -> filter (alike x) G = F ++ [w] -> klt x w ->
  exists U M V, G = U ++ M ++ w :: V /\ G' = U ++ x :: M ++ V /\ filter (alike x) V = [] /\
    (forall y, In y U -> klt y x) /\ (forall y, In y (M ++ w :: V) -> klt x y).
Proof.
  intros Hc Hw Hlt.
  assert (Iw : In w (filter (alike x) G)) by (rewrite Hw; apply in_or_app; right; now left).
  apply filter_In in Iw. destruct Iw as [Iw Ew].
  destruct (cnt_small w) as [C|C].
  2:{ specialize (C Iw Ew). unfold klt in *. lia. }
  rewrite K1_cnt in C. pose proof T_cnt as CT.
  assert (N : filter (alike x) (skipn L T) = []).
  { apply length_zero_iff_nil. rewrite G_split, cnt_app in CT. lia. }
  assert (XT : cnt x T = c) by (rewrite G_split, cnt_app, N; cbn; lia).
  assert (HcP : cnt x (rev P) < c) by (rewrite cnt_rev; lia).
  destruct (coe_insert attr c x Q (rev P) HcP) as [(E1 & C1)|(A & w' & B & E1 & E2 & Hw' & HA & HB)].
  { exfalso. fold K2 in C1. rewrite T_eq, cnt_app, K1_cnt in XT. rewrite cnt_rev in C1. lia. }
  fold K2 in E1. rewrite cnt_rev in HA.
  assert (FT : filter (alike x) T = F ++ [w]).
  { rewrite G_split, filter_app, N, app_nil_r. exact Hw. }
  assert (w' = w /\ F = filter (alike x) (K1 ++ A)) as [-> HF].
  { rewrite T_eq, E1, app_assoc, filter_app in FT. cbn [filter] in FT. rewrite Hw', HB in FT.
    apply app_inj_tail in FT. destruct FT; auto. }
  assert (LA : length (K1 ++ A) < L).
  { destruct (Nat.lt_ge_cases (length (K1 ++ A)) L) as [|H]; [assumption|exfalso].
    assert (G = firstn L (K1 ++ A)) as EG.
    { unfold G. rewrite T_eq, E1, app_assoc, firstn_app.
      rewrite (proj2 (Nat.sub_0_le _ _) H). cbn [firstn]. now rewrite app_nil_r. }
    assert (X : cnt x G <= cnt x (K1 ++ A)).
    { rewrite EG. rewrite <- (firstn_skipn L (K1 ++ A)) at 2. rewrite cnt_app. lia. }
    rewrite cnt_app, K1_cnt in X. lia. }
  exists K1, A, (firstn (L - length (K1 ++ A) - 1) B). repeat split.
  - unfold G. rewrite T_eq, E1, app_assoc, firstn_app, firstn_all2, <- app_assoc by lia.
    do 2 f_equal. destruct (L - length (K1 ++ A)) as [|m] eqn:Z; [lia|]. cbn [firstn].
    do 2 f_equal. lia.
  - unfold G'. rewrite T'_eq. destruct (Nat.ltb_spec (cnt x P) c); [|lia]. rewrite E2.
    change (K1 ++ x :: A ++ B) with (K1 ++ (x :: A) ++ B). rewrite app_assoc, firstn_app, firstn_all2.
    2:{ rewrite app_length in *. cbn [length]. lia. }
    rewrite <- app_assoc. cbn [app]. do 4 f_equal. rewrite !app_length in *. cbn [length]. lia.
  - apply length_zero_iff_nil. apply (f_equal (@length nbr)) in HB. cbn in HB.
    rewrite <- (firstn_skipn (L - length (K1 ++ A) - 1) B), cnt_app in HB. lia.
  - apply K1_lt.
  - intros y Hy. apply K2_gt. rewrite E1. apply in_app_or in Hy. apply in_or_app.
    destruct Hy as [Hy|[Hy|Hy]]; [now left|right; now left|right; right].
    now apply in_firstn in Hy.
Qed.

Lemma astep_room : cnt x G < c -> length G < L ->
  exists U V, G = U ++ V /\ G' = U ++ x :: V /\
    (forall y, In y U -> klt y x) /\ (forall y, In y V -> klt x y).
Proof.
  intros Hc HL.
  assert (GT : G = T).
  { unfold G in *. rewrite firstn_length in HL. apply firstn_all2. lia. }
  exists K1, K2. rewrite GT in *.
  assert (X : cnt x K1 + cnt x K2 < c) by (rewrite T_eq, cnt_app in Hc; exact Hc).
  rewrite K1_cnt in X.
  assert (HcP : cnt x (rev P) < c) by (rewrite cnt_rev; lia).
  assert (E : T' = K1 ++ x :: K2).
  { rewrite T'_eq. destruct (Nat.ltb_spec (cnt x P) c); [|lia].
    destruct (coe_insert attr c x Q (rev P) HcP) as [(E1 & C1)|(A & w & B & E1 & E2 & Hw & HA & HB)].
    - now rewrite E1.
    - exfalso. fold K2 in E1. rewrite E1, cnt_app in X. cbn [filter] in X. rewrite Hw in X.
      cbn [length] in X. rewrite cnt_rev in HA. lia. }
  repeat split; auto using K1_lt, K2_gt.
  - exact T_eq.
  - unfold G'. rewrite E. apply firstn_all2. rewrite T_eq, app_length in HL.
    rewrite app_length. cbn [length]. lia.
Qed.

Lemma astep_far_global : length G = L -> (forall y, In y G -> klt y x) -> G' = G.
Proof.
  intros HL Hlt.
  assert (H : L <= length K1).
  { destruct (Nat.le_gt_cases L (length K1)) as [|H]; [assumption|exfalso].
    assert (E : G = K1 ++ firstn (L - length K1) K2).
    { unfold G. rewrite T_eq, firstn_app, firstn_all2 by lia. reflexivity. }
    destruct K2 as [|y r] eqn:E2.
    - rewrite firstn_nil, app_nil_r in E. rewrite E in HL. lia.
    - assert (Hy : In y G).
      { rewrite E. apply in_or_app. right. destruct (L - length K1) eqn:Z; [lia|]. now left. }
      specialize (Hlt y Hy). assert (klt x y) by (apply K2_gt; rewrite E2; now left).
      unfold klt in *. lia. }
  unfold G', G. rewrite T'_eq, T_eq, !firstn_app, (proj2 (Nat.sub_0_le _ _) H). cbn [firstn].
  reflexivity.
Qed.

Lemma astep_near_global g G0 : cnt x G < c -> length G = L -> G = G0 ++ [g] -> klt x g ->
  exists U M, G = U ++ M ++ [g] /\ G' = U ++ x :: M /\
    (forall y, In y U -> klt y x) /\ (forall y, In y (M ++ [g]) -> klt x y).
Proof.
  intros Hc HL Hg Hlt.
  assert (H : length K1 < L).
  { destruct (Nat.lt_ge_cases (length K1) L) as [|H]; [assumption|exfalso].
    assert (E : G = firstn L K1).
    { unfold G. rewrite T_eq, firstn_app, (proj2 (Nat.sub_0_le _ _) H). cbn [firstn].
      now rewrite app_nil_r. }
    assert (In g K1). { apply in_firstn with L. rewrite <- E, Hg. apply in_or_app. right. now left. }
    pose proof (K1_lt g H0). unfold klt in *. lia. }
  set (m := L - length K1 - 1).
  assert (E : G = K1 ++ firstn (S m) K2).
  { unfold G. rewrite T_eq, firstn_app, firstn_all2 by lia. do 2 f_equal. unfold m. lia. }
  assert (LK2 : S m <= length K2).
  { rewrite E, app_length, firstn_length in HL. unfold m in *. lia. }
  assert (X : cnt x K1 < c) by (rewrite E, cnt_app in Hc; lia).
  rewrite K1_cnt in X.
  assert (HcP : cnt x (rev P) < c) by (rewrite cnt_rev; lia).
  assert (EM : firstn (S m) K2 = firstn m K2 ++ [g]).
  { assert (Z : exists g', firstn (S m) K2 = firstn m K2 ++ [g']).
    { destruct (nth_error K2 m) as [g'|] eqn:Ng; [|apply nth_error_None in Ng; lia].
      exists g'. now apply firstn_S_nth. }
    destruct Z as (g' & Z). rewrite Z. do 2 f_equal.
    rewrite E, Z, app_assoc in Hg. apply app_inj_tail in Hg. tauto. }
  exists K1, (firstn m K2). repeat split.
  - now rewrite E, EM.
  - unfold G'. rewrite T'_eq. destruct (Nat.ltb_spec (cnt x P) c); [|lia].
    rewrite firstn_app, firstn_all2 by lia. f_equal.
    replace (L - length K1) with (S m) by (unfold m; lia). cbn [firstn]. f_equal.
    destruct (coe_insert attr c x Q (rev P) HcP) as [(E1 & C1)|(A & w & B & E1 & E2 & Hw & HA & HB)].
    + now rewrite E1.
    + fold K2 in E1. rewrite E2, E1.
      assert (S m <= length A).
      { destruct (Nat.le_gt_cases (S m) (length A)) as [|HmA]; [assumption|exfalso].
        rewrite E, E1, cnt_app, K1_cnt, firstn_app, (firstn_all2 A), cnt_app in Hc by lia.
        destruct (S m - length A) eqn:Z; [lia|]. cbn [firstn filter] in Hc. rewrite Hw in Hc.
        cbn [length] in Hc. rewrite cnt_rev in HA. lia. }
      rewrite !firstn_app. replace (m - length A) with 0 by lia. reflexivity.
  - apply K1_lt.
  - intros y Hy. apply K2_gt. rewrite <- EM in Hy. now apply in_firstn in Hy.
Qed.
End step.
