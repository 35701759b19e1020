(** Navigation shared by the filtered searches, and inline filtered search. *)
From Verif.Lib Require Import Base Lists F32.
From Verif.Queue Require Import Proofs.
From Verif.Search Require Import Proofs ProofsKnn.
From Verif.Filtered Require Import Model Spec.

(** ** The queue during a search *)
Record Nav (L : nat) (plain : bool) (q : pq) (xs rec : list nbr) : Prop := {
  n_ops : exists ops, q_run (pq_new L) ops = Some (q, rec) /\ inserted ops = xs /\
      Forall positive_op ops /\ (plain = true -> Forall plain_op ops);
  n_wf : exists E, WF q E /\ forall e, In e E -> In (e_nbr e) xs;
  n_rec : incl rec xs
}.

Lemma plain_positive ops : Forall plain_op ops -> Forall positive_op ops.
Proof. intros H. eapply Forall_impl; [|exact H]. intros [x| | |] Hp; cbn in *; tauto. Qed.

Lemma plain_inserts xs : Forall plain_op (map QInsert xs).
Proof. apply Forall_forall. intros o Ho. apply in_map_iff in Ho. destruct Ho as (x & <- & _). exact Logic.I. Qed.

Lemma nav_new L p : 0 < L -> Nav L p (pq_new L) [] [].
Proof.
  intros HL. constructor.
  - exists []. repeat split; constructor.
  - exists []. split; [exact (new_wf L false HL)|intros e []].
  - intros x [].
Qed.

Lemma nav_insert L p q xs rec ys : Nav L p q xs rec ->
  exists q', insert_all q ys = Some q' /\ Nav L p q' (xs ++ ys) rec.
Proof.
  intros [(ops & O1 & O2 & O3 & O4) (E & W & HE) R].
  destruct (insert_all_run true ys q E W) as (q' & E' & rest & I & Q). exists q'. split; [exact I|].
  constructor.
  - exists (ops ++ map QInsert ys). split; [|split; [|split]].
    + pose proof (q_run_app _ _ _ _ _ _ _ O1 (qr_run _ _ _ _ _ _ _ _ Q)) as X. now rewrite app_nil_r in X.
    + now rewrite inserted_app, inserted_map, O2.
    + apply Forall_app. split; [exact O3|]. apply plain_positive, plain_inserts.
    + intros Hp. apply Forall_app. split; [auto|apply plain_inserts].
  - exists E'. split; [exact (qr_wf _ _ _ _ _ _ _ _ Q)|]. intros e He.
    apply in_or_app. destruct (qrun_in_e Q e He) as [H|H].
    + left. apply in_map_iff in H. destruct H as (e0 & Eq & H0). rewrite <- Eq. auto.
    + right. now rewrite inserted_map in H.
  - intros x Hx. apply in_or_app. left. auto.
Qed.

Lemma take_beam_nil n q q' : n <> 0 -> take_beam n q = Some (q', []) -> q' = q /\ has_notvisited q = false.
Proof.
  intros Hn. destruct n as [|n]; [congruence|]. cbn [take_beam]. unfold closest_notvisited.
  destruct (has_notvisited q); cbn [negb].
  - destruct (set_visited q (q_cur q) true) as [p|]; [|discriminate].
    destruct (skip_visited (q_size p) p (S (q_cur q))); [|discriminate].
    destruct (get_unchecked p (q_cur q)); [|discriminate].
    destruct (take_beam n _) as [[a b]|]; discriminate.
  - intros H. split; [congruence|reflexivity].
Qed.

Lemma nav_beam L p q xs rec n : Nav L p q xs rec ->
  exists q' beam, take_beam n q = Some (q', beam) /\ Nav L p q' xs (rec ++ beam) /\ incl beam xs /\
    (n <> 0 -> has_notvisited q = true -> beam <> []).
Proof.
  intros [(ops & O1 & O2 & O3 & O4) (E & W & HE) R].
  destruct (take_beam_run true n q E W) as (q' & beam & E' & ops' & T & Q & P & I & S1 & S2).
  exists q', beam. split; [exact T|].
  assert (B : incl beam xs).
  { intros x Hx. destruct (qr_outs _ _ _ _ _ _ _ _ Q x Hx) as [H|H].
    - apply in_map_iff in H. destruct H as (e & <- & He). auto.
    - rewrite I in H. destruct H. }
  split; [|split; [exact B|exact S2]]. constructor.
  - exists (ops ++ ops'). split; [|split; [|split]].
    + exact (q_run_app _ _ _ _ _ _ _ O1 (qr_run _ _ _ _ _ _ _ _ Q)).
    + now rewrite inserted_app, I, app_nil_r.
    + apply Forall_app. split; [exact O3|now apply plain_positive].
    + intros Hp. apply Forall_app. auto.
  - exists E'. split; [exact (qr_wf _ _ _ _ _ _ _ _ Q)|]. intros e He.
    destruct (qrun_in_e Q e He) as [H|H].
    + apply in_map_iff in H. destruct H as (e0 & Eq & H0). rewrite <- Eq. auto.
    + rewrite I in H. destruct H.
  - intros x Hx. apply in_app_or in Hx. destruct Hx; auto.
Qed.

Lemma nav_reconf L p q xs rec l : 0 < l -> Nav L p q xs rec -> Nav L false (pq_reconfigure q l) xs rec.
Proof.
  intros Hl [(ops & O1 & O2 & O3 & O4) (E & W & HE) R]. constructor; [| |exact R].
  - exists (ops ++ [QReconfigure l]). split; [|split; [|split; [|discriminate]]].
    + rewrite <- (app_nil_r rec). eapply q_run_app; [exact O1|reflexivity].
    + now rewrite inserted_app, O2, app_nil_r.
    + apply Forall_app. split; [exact O3|]. constructor; [exact Hl|constructor].
  - destruct (reconfigure_spec q E l W Hl) as (W' & _). exists (firstn l E). split; [exact W'|].
    intros e He. apply HE. eapply in_firstn; eauto.
Qed.

Lemma nav_weaken L p q xs rec : Nav L p q xs rec -> Nav L false q xs rec.
Proof.
  intros [(ops & O1 & O2 & O3 & O4) W R]. constructor; auto. exists ops. repeat split; auto. discriminate.
Qed.

Lemma nav_nodup L p q xs rec : 0 < L -> NoDup (map n_id xs) -> Nav L p q xs rec -> NoDup (map n_id rec).
Proof.
  intros HL ND [(ops & O1 & O2 & O3 & O4) W R]. subst xs.
  exact (c15_once_lemma L false ops q rec HL O3 ND O1).
Qed.

Lemma nav_iter L q xs rec : 0 < L -> Nav L true q xs rec ->
  exists best, pq_iter q = Some best /\ closest L (valid xs) best.
Proof.
  intros HL [(ops & O1 & O2 & O3 & O4) W R]. subst xs.
  destruct (c14_lemma L false ops HL (O4 eq_refl)) as (q' & outs & best & others & A1 & A2 & A3 & A4 & A5 & A6).
  rewrite O1 in A1. injection A1 as <- <-. exists best. split; [exact A2|].
  split; [exact A3|]. split; [exact A4|]. eauto.
Qed.

(** ** The start points *)
Definition Grown (graph : nat -> option (list nat)) (starts : list nat) (rec : list nbr) (i : nat) : Prop :=
  In i starts \/ Exp graph rec i.

Section inline.
Variable graph : nat -> option (list nat).
Variable dist : nat -> option f32.
Variable acc : nat -> bool.
Notation accepted := (accepted acc).

Record IInv (L : nat) (p : bool) (starts : list nat) (s : ist) (xs rec : list nbr) : Prop := {
  ii_nav : Nav L p (s_best (i_st s)) xs rec;
  ii_vis : Visits dist [] (s_vis (i_st s)) xs (Grown graph starts rec);
  ii_reach : forall i, In i (s_vis (i_st s)) -> reach graph starts i;
  ii_match : i_matched s = filter accepted xs;
  ii_hops : s_hops (i_st s) = length rec;
  ii_cmps : s_cmps (i_st s) + length starts = length xs
}.

Lemma expand_fail ids : forall v, expand_beam graph dist v ids = None ->
  exists i, In i ids /\ graph i = None.
Proof.
  induction ids as [|i l IH]; intros v X; [discriminate|].
  cbn [expand_beam] in X. destruct (graph i) as [ns|] eqn:G; [|exists i; split; [now left|exact G]].
  destruct (visit_all dist v ns) as [v1 o1]. destruct (expand_beam graph dist v1 l) as [[a b]|] eqn:E; [discriminate|].
  destruct (IH _ E) as (j & Hj & Gj). exists j. split; [now right|exact Gj].
Qed.

Lemma visits_rec v v' out starts rec beam xs (w : list nat) :
  Visits dist [] v xs (Grown graph starts rec) ->
  Visits dist v v' out (fun i => exists u, In u (map n_id beam) /\ edge graph u i) ->
  Visits dist [] v' (xs ++ out) (Grown graph starts (rec ++ beam)).
Proof.
  intros Dv V. eapply visits_ext; [|exact (visits_app _ _ _ _ _ _ _ _ Dv V)].
  intros i. cbn. unfold Grown, Exp. split.
  - intros [[H|(x & Hx & He)]|(u & Hu & He)]; [now left| |].
    + right. exists x. split; [apply in_or_app; auto|exact He].
    + apply in_map_iff in Hu. destruct Hu as (x & <- & Hx). right. exists x.
      split; [apply in_or_app; auto|exact He].
  - intros [H|(x & Hx & He)]; [auto|]. apply in_app_or in Hx. destruct Hx as [Hx|Hx].
    + left. right. eauto.
    + right. exists (n_id x). split; [now apply in_map|exact He].
Qed.

Lemma inline_init_inv l starts : 0 < l -> NoDup starts ->
  match inline_init dist acc starts (scratch_new (l + length starts)) with
  | SOk s => exists xs, IInv (l + length starts) true starts s xs [] /\ i_adj s = false
  | SErr => exists s, In s starts /\ dist s = None
  | _ => False
  end.
Proof.
  intros Hl ND. unfold inline_init, scratch_new. cbn [s_best s_cmps s_hops].
  pose proof (start_dists_spec graph dist starts ND) as SD.
  destruct (start_dists dist starts) as [xs|]; [|exact SD]. destruct SD as [V MX].
  assert (HL : 0 < l + length starts) by lia.
  destruct (nav_insert _ true _ _ _ xs (nav_new _ true HL)) as (q & I & N). rewrite I. cbn [app] in N.
  exists xs. split; [|reflexivity]. constructor; cbn [i_st s_best s_vis s_hops s_cmps i_matched]; auto.
  - eapply visits_ext; [|exact V]. intros i. unfold Grown. split; [tauto|]. intros [X|(x & [] & _)]. exact X.
  - intros i Hi. apply reach_start. now apply in_rev in Hi.
  - cbn [Nat.add]. now rewrite <- MX, map_length.
Qed.

Lemma adapt_inv L p starts ad l s xs rec s' : IInv L p starts s xs rec ->
  adapt_l ad l s = Some s' ->
  IInv L (match ad with None => p | Some _ => false end) starts s' xs rec.
Proof.
  intros I. unfold adapt_l. destruct ad as [[count f]|].
  - destruct (negb (i_adj s) && (count <=? i_sv s)).
    + destruct (f (i_sv s) (i_sm s)) as [nl|]; [|discriminate]. intros [= <-].
      destruct I as [I1 I2 I3 I4 I5 I6]. destruct (Nat.ltb_spec l nl);
        constructor; cbn [i_st s_best s_vis s_hops s_cmps i_matched]; auto.
      * apply nav_reconf with p; [lia|exact I1].
      * now apply nav_weaken with p.
    + intros [= <-]. destruct I as [I1 I2 I3 I4 I5 I6]. constructor; auto. now apply nav_weaken with p.
  - now intros [= <-].
Qed.

(** The adaptive step does not panic. *)
Definition ad_total (ad : adaptive) : Prop :=
  match ad with Some (_, f) => forall v m, f v m <> None | None => True end.

Lemma adapt_total ad l s : ad_total ad -> adapt_l ad l s <> None.
Proof.
  unfold ad_total, adapt_l. destruct ad as [[count f]|]; [|discriminate]. intros H.
  destruct (negb (i_adj s) && (count <=? i_sv s)); [|discriminate].
  specialize (H (i_sv s) (i_sm s)). destruct (f (i_sv s) (i_sm s)); [discriminate|congruence].
Qed.

Lemma inline_loop_inv L starts bw stop ad l : forall fuel n p s xs rec,
  (ad = None \/ p = false) -> IInv L p starts s xs rec ->
  match inline_loop graph dist acc fuel bw stop ad l n s with
  | SOk (s', rec') => exists ys, IInv L p starts s' (xs ++ ys) (rec ++ rec') /\
      (bw <> 0 -> (forall k, stop k = false) -> has_notvisited (s_best (i_st s')) = false)
  | SErr => exists x, reach graph starts x /\ graph x = None
  | SPanic => ~ ad_total ad
  | SFuel => True
  end.
Proof.
  induction fuel as [|fuel IH]; intros n p s xs rec Hp I; cbn [inline_loop];
    (destruct (stop n) eqn:St;
      [exists []; rewrite !app_nil_r; split; [exact I|intros _ H; rewrite H in St; discriminate]|]);
    pose proof I as [I1 I2 I3 I4 I5 I6];
    destruct (nav_beam _ _ _ _ _ bw I1) as (q1 & beam & T & N1 & B1 & NB); rewrite T;
    (destruct beam as [|b beam];
      [exists []; rewrite !app_nil_r in *; split;
        [constructor; cbn [i_st s_best s_vis s_hops s_cmps i_matched]; auto
        |intros Hb _; cbn [i_st s_best]; destruct (take_beam_nil _ _ _ Hb T) as (-> & X); exact X]|]).
  - exact Logic.I.
  - set (bm := b :: beam) in *.
    destruct (expand_beam graph dist (s_vis (i_st s)) (map n_id bm)) as [[vis ns]|] eqn:X.
    + destruct (expand_beam_spec _ _ _ _ _ _ X) as [V G].
      destruct (nav_insert _ _ _ _ _ ns N1) as (q2 & I2' & N2). rewrite I2'.
      set (s1 := mkIst _ _ _ _ _).
      assert (J : IInv L p starts s1 (xs ++ ns) (rec ++ bm)).
      { constructor; subst s1; cbn [i_st s_best s_vis s_hops s_cmps i_matched]; auto.
        - eapply visits_rec; eauto.
        - intros i Hi. apply (v_mem _ _ _ _ _ V) in Hi. destruct Hi as [Hi|(u & Hu & He)]; [auto|].
          apply in_map_iff in Hu. destruct Hu as (x & <- & Hx). eapply reach_edge; [|exact He].
          apply I3. now apply (v_new _ _ _ _ _ I2 x (B1 x Hx)).
        - now rewrite I4, filter_app.
        - rewrite I5, app_length. reflexivity.
        - rewrite app_length. clear -I6. lia. }
      destruct (adapt_l ad l s1) as [s2|] eqn:A.
      2:{ intros H. exact (adapt_total ad l s1 H A). }
      pose proof (adapt_inv _ _ _ _ _ _ _ _ _ J A) as J2.
      assert (PP : (match ad with None => p | Some _ => false end) = p).
      { destruct Hp as [->| ->]; [reflexivity|destruct ad; reflexivity]. }
      rewrite PP in J2. specialize (IH (S n) p s2 _ _ Hp J2).
      destruct (inline_loop graph dist acc fuel bw stop ad l (S n) s2) as [[s3 rec3]| | |]; auto.
      destruct IH as (ys & J3 & HN). exists (ns ++ ys). rewrite !app_assoc. auto.
    + destruct (expand_fail _ _ X) as (i & Hi & Gi). exists i. split; [|exact Gi].
      apply in_map_iff in Hi. destruct Hi as (x & <- & Hx). apply I3.
      now apply (v_new _ _ _ _ _ I2 x (B1 x Hx)).
Qed.

Lemma iinv_bound L p starts U s xs rec bw : 0 < L -> (forall i, reach graph starts i -> In i U) ->
  IInv L p starts s xs rec ->
  match take_beam bw (s_best (i_st s)) with
  | Some (_, beam) => length rec + length beam <= length U
  | None => False
  end.
Proof.
  intros HL HU [I1 I2 I3 I4 I5 I6].
  destruct (nav_beam _ _ _ _ _ bw I1) as (q1 & beam & T & N1 & B1 & NB). rewrite T.
  rewrite <- app_length, <- (map_length n_id). apply NoDup_incl_length.
  - apply (nav_nodup _ _ _ _ _ HL (v_nodup _ _ _ _ _ I2) N1).
  - intros i Hi. apply in_map_iff in Hi. destruct Hi as (x & <- & Hx). apply HU, I3.
    apply (v_new _ _ _ _ _ I2). now apply (n_rec _ _ _ _ _ N1).
Qed.

Lemma inline_loop_fuel L starts bw stop ad l U : 0 < L -> (forall i, reach graph starts i -> In i U) ->
  forall fuel n p s xs rec, (ad = None \/ p = false) -> IInv L p starts s xs rec ->
  length U <= fuel + length rec ->
  inline_loop graph dist acc fuel bw stop ad l n s <> SFuel.
Proof.
  intros HL HU. induction fuel as [|fuel IH]; intros n p s xs rec Hp I Hf; cbn [inline_loop];
    (destruct (stop n); [discriminate|]);
    pose proof (iinv_bound L p starts U s xs rec bw HL HU I) as B;
    pose proof I as [I1 I2 I3 I4 I5 I6];
    destruct (nav_beam _ _ _ _ _ bw I1) as (q1 & beam & T & N1 & B1 & NB); rewrite T in *;
    (destruct beam as [|b beam]; [discriminate|]).
  - cbn [length] in B. clear -B Hf. lia.
  - set (bm := b :: beam) in *.
    destruct (expand_beam graph dist (s_vis (i_st s)) (map n_id bm)) as [[vis ns]|] eqn:X; [|discriminate].
    destruct (expand_beam_spec _ _ _ _ _ _ X) as [V G].
    destruct (nav_insert _ _ _ _ _ ns N1) as (q2 & I2' & N2). rewrite I2'.
    set (s1 := mkIst _ _ _ _ _).
    assert (J : IInv L p starts s1 (xs ++ ns) (rec ++ bm)).
    { constructor; subst s1; cbn [i_st s_best s_vis s_hops s_cmps i_matched]; auto.
      - eapply visits_rec; eauto.
      - intros i Hi. apply (v_mem _ _ _ _ _ V) in Hi. destruct Hi as [Hi|(u & Hu & He)]; [auto|].
        apply in_map_iff in Hu. destruct Hu as (x & <- & Hx). eapply reach_edge; [|exact He].
        apply I3. now apply (v_new _ _ _ _ _ I2 x (B1 x Hx)).
      - now rewrite I4, filter_app.
      - rewrite I5, app_length. reflexivity.
      - rewrite app_length. clear -I6. lia. }
    destruct (adapt_l ad l s1) as [s2|] eqn:A; [|discriminate].
    pose proof (adapt_inv _ _ _ _ _ _ _ _ _ J A) as J2.
    assert (PP : (match ad with None => p | Some _ => false end) = p).
    { destruct Hp as [->| ->]; [reflexivity|destruct ad; reflexivity]. }
    rewrite PP in J2.
    assert (F : length U <= fuel + length (rec ++ bm)).
    { rewrite app_length. subst bm. cbn [length]. clear -Hf. lia. }
    specialize (IH (S n) p s2 _ _ Hp J2 F).
    destruct (inline_loop graph dist acc fuel bw stop ad l (S n) s2) as [[s3 rec3]| | |]; congruence.
Qed.

(** ** The whole search *)
Variable sort : list nbr -> option (list nbr).
Hypothesis Hsort : sorts sort.

Lemma iinv_scan L p starts s xs rec : IInv L p starts s xs rec -> scan_of graph dist starts rec xs.
Proof.
  intros [I1 V I3 I4 I5 I6]. split; [exact (v_nodup _ _ _ _ _ V)|]. split.
  - rewrite Forall_forall. intros x Hx. now apply (v_new _ _ _ _ _ V).
  - intros i. split.
    + intros Hi. apply in_map_iff in Hi. destruct Hi as (x & <- & Hx).
      destruct (v_new _ _ _ _ _ V x Hx) as (_ & V2 & V3). split; [unfold scored in V3; congruence|].
      apply (v_mem _ _ _ _ _ V) in V2. destruct V2 as [[]|V2]. exact V2.
    + intros (H1 & H2). destruct (dist i) as [d|] eqn:E; [|congruence].
      assert (Hi : In i (s_vis (i_st s))) by (apply (v_mem _ _ _ _ _ V); right; exact H2).
      apply (in_map n_id xs (mkNbr i d)). exact (v_all _ _ _ _ _ V i d Hi (fun x => x) E).
Qed.

Lemma inline_spec fuel l bw stop ad starts : 0 < l -> NoDup starts ->
  match inline_internal graph dist acc sort fuel l bw stop ad starts with
  | SOk (m, st, rec) => exists s xs, st = i_st s /\
      IInv (l + length starts) (match ad with None => true | Some _ => false end) starts s xs rec /\
      Permutation m (filter accepted xs) /\
      (Forall (fun x => is_nan (n_dist x) = false) (filter accepted xs) -> StronglySorted closer m) /\
      (bw <> 0 -> (forall k, stop k = false) -> has_notvisited (s_best st) = false)
  | SErr => (exists s, In s starts /\ dist s = None) \/ (exists x, reach graph starts x /\ graph x = None)
  | SPanic => ~ (ad_total ad /\ numeric dist)
  | SFuel => True
  end.
Proof.
  intros Hl ND. unfold inline_internal.
  pose proof (inline_init_inv l starts Hl ND) as I0.
  destruct (inline_init dist acc starts (scratch_new (l + length starts))) as [s0| | |]; try contradiction; [|now left].
  destruct I0 as (xs0 & I0 & _).
  assert (HP : ad = None \/ (match ad with None => true | Some _ => false end) = false)
    by (destruct ad; [now right|now left]).
  assert (I0' : IInv (l + length starts) (match ad with None => true | Some _ => false end) starts s0 xs0 []).
  { destruct ad; [|exact I0]. destruct I0 as [A B C D E F]. constructor; auto. now apply nav_weaken with true. }
  pose proof (inline_loop_inv _ starts bw stop ad l fuel 0 _ s0 xs0 []
    HP I0') as LI.
  destruct (inline_loop graph dist acc fuel bw stop ad l 0 s0) as [[s rec]| | |]; auto.
  - destruct LI as (ys & I & HN). cbn [app] in I. pose proof (Hsort (i_matched s)) as SM.
    rewrite (ii_match _ _ _ _ _ _ I) in *.
    destruct (sort (filter accepted (xs0 ++ ys))) as [m|].
    + destruct SM as (SM1 & SM2). exists s, (xs0 ++ ys). auto.
    + intros (_ & HN'). destruct SM as (x & Hx & Nx). apply filter_In in Hx. destruct Hx as [Hx _].
      destruct (v_new _ _ _ _ _ (ii_vis _ _ _ _ _ _ I) x Hx) as (_ & _ & Sc).
      rewrite (HN' _ _ Sc) in Nx. discriminate.
  - intros (H & _). contradiction.
Qed.

Lemma inline_fuel fuel l bw stop ad starts univ : 0 < l -> NoDup starts ->
  finite_index graph starts univ -> length univ <= fuel ->
  inline_internal graph dist acc sort fuel l bw stop ad starts <> SFuel.
Proof.
  intros Hl ND [FI1 FI2] Hf. unfold inline_internal.
  pose proof (inline_init_inv l starts Hl ND) as I0.
  destruct (inline_init dist acc starts (scratch_new (l + length starts))) as [s0| | |]; try discriminate; [|contradiction].
  destruct I0 as (xs0 & I0 & _).
  assert (HP : ad = None \/ (match ad with None => true | Some _ => false end) = false)
    by (destruct ad; [now right|now left]).
  assert (I0' : IInv (l + length starts) (match ad with None => true | Some _ => false end) starts s0 xs0 []).
  { destruct ad; [|exact I0]. destruct I0 as [A B C D E F]. constructor; auto. now apply nav_weaken with true. }
  assert (RU : forall i, reach graph starts i -> In i univ).
  { intros i Ri. induction Ri; [now apply FI1|eauto]. }
  pose proof (inline_loop_fuel (l + length starts) starts bw stop ad l univ ltac:(lia) RU fuel 0 _ s0 xs0 []
    HP I0' ltac:(cbn [length]; lia)) as LF.
  destruct (inline_loop graph dist acc fuel bw stop ad l 0 s0) as [[s rec]| | |]; try congruence.
  destruct (sort (i_matched s)); congruence.
Qed.

End inline.

(** The [l] first of a sorted permutation. *)
Lemma sorted_app_inv (R : nbr -> nbr -> Prop) l1 l2 : StronglySorted R (l1 ++ l2) ->
  StronglySorted R l1 /\ forall x y, In x l1 -> In y l2 -> R x y.
Proof.
  induction l1 as [|z l1 IH]; cbn [app]; intros H; [split; [constructor|intros x y []]|].
  inversion H as [|? ? H1 H2]; subst. destruct (IH H1) as (S & X). rewrite Forall_forall in H2. split.
  - constructor; [exact S|]. rewrite Forall_forall. intros x Hx. apply H2, in_or_app. now left.
  - intros x y [<-|Hx] Hy; [apply H2, in_or_app; now right|auto].
Qed.

Lemma closest_firstn l xs ys : Permutation ys xs -> StronglySorted closer ys -> closest l xs (firstn l ys).
Proof.
  intros P S. rewrite <- (firstn_skipn l ys) in S. destruct (sorted_app_inv _ _ _ S) as (S1 & S2).
  split; [exact S1|split].
  - rewrite firstn_length. now rewrite (Permutation_length P).
  - exists (skipn l ys). rewrite firstn_skipn. split; [now symmetry|exact S2].
Qed.
