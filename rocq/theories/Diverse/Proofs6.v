(** The diverse search loop. *)
From Verif.Lib Require Import Base Lists F32.
From Verif.Queue Require Import Proofs.
From Verif.Search Require Import Proofs ProofsKnn.
From Verif.Diverse Require Import Model Spec Proofs Proofs2 Proofs3 Proofs4 Proofs5.

Section search.
Variable attr : nat -> option nat.
Variable graph : nat -> option (list nat).
Variable dist : nat -> option f32.
Variables c L k : nat.
Hypothesis Hc : 0 < c.
Hypothesis HL : 0 < L.
Variable starts : list nat.
Notation usable := (usable attr).
Notation Inv := (Inv attr c L).

Lemma d_insert_all_inv ys : forall d xs EG sn, Inv d xs EG -> Marked EG sn -> incl sn (map n_id xs) ->
  NoDup (map n_id (xs ++ ys)) ->
  exists d' EG', d_insert_all attr d ys = Some d' /\ Inv d' (xs ++ ys) EG' /\ d_k d' = d_k d /\
    Marked EG' sn.
Proof.
  induction ys as [|y ys IH]; intros d xs EG sn I M Hs ND; cbn [d_insert_all].
  - exists d, EG. rewrite app_nil_r. sp; auto.
  - pose proof (snoc_fresh _ _ _ _ ND) as Hn.
    destruct (dq_insert_marked attr c L Hc HL d xs EG sn y I M Hs Hn) as (d1 & EG1 & H1 & I1 & K1 & M1).
    rewrite H1. destruct (IH d1 (xs ++ [y]) EG1 sn I1 M1) as (d' & EG' & H2 & I2 & K2 & M2).
    { intros i Hi. rewrite map_app. apply in_or_app. left. auto. }
    { now rewrite <- app_assoc. }
    exists d', EG'. rewrite <- app_assoc in I2. sp; auto. congruence.
Qed.

Lemma d_take_beam_inv n : forall d xs EG sn, Inv d xs EG -> Marked EG sn ->
  exists d' beam EG', d_take_beam n d = Some (d', beam) /\ Inv d' xs EG' /\ d_k d' = d_k d /\
    Marked EG' (rev (map n_id beam) ++ sn) /\ incl beam (usable xs) /\
    (0 < n -> dq_has_notvisited d = true -> beam <> []).
Proof.
  induction n as [|n IH]; intros d xs EG sn I M; cbn [d_take_beam].
  - exists d, [], EG. sp; auto; [now intros x []|lia].
  - destruct (dq_next_inv attr c L Hc HL d xs EG sn I M) as (d1 & r & EG1 & H1 & I1 & K1 & Hr). rewrite H1.
    destruct r as [x|].
    + destruct Hr as (R1 & R2 & R3).
      destruct (IH d1 xs EG1 _ I1 R3) as (d' & beam & EG' & H2 & I2 & K2 & M2 & B & _). rewrite H2.
      exists d', (x :: beam), EG'. sp; auto; try congruence.
      * cbn [map rev]. rewrite <- app_assoc. exact M2.
      * intros y [<-|Hy]; auto.
    + destruct Hr as (R1 & ->). exists d1, [], EG. sp; auto; [now intros x []|congruence].
Qed.

Record DS (st : dst) (xs rec : list nbr) : Prop := {
  ds_inv : exists EG, Inv (ds_best st) xs EG /\ Marked EG (rev (map n_id rec));
  ds_k : d_k (ds_best st) = k;
  ds_seen : Visits dist [] (ds_vis st) xs (fun i => In i starts \/ Exp graph rec i);
  ds_rec : incl rec (usable xs);
  ds_reach : forall i, In i (ds_vis st) -> reach graph starts i;
  ds_c : ds_cmps st = length xs;
  ds_h : ds_hops st = length rec
}.

Lemma ds_rec_ids st xs rec : DS st xs rec -> incl (rev (map n_id rec)) (map n_id xs).
Proof.
  intros D i Hi. apply in_rev in Hi. apply in_map_iff in Hi. destruct Hi as (x & <- & Hx).
  apply in_map. apply (ds_rec _ _ _ D) in Hx. apply usable_in in Hx. tauto.
Qed.

Lemma d_round_inv bw st xs rec : DS st xs rec ->
  match d_round attr graph dist bw st with
  | SOk (st', beam) => exists ns, DS st' (xs ++ ns) (rec ++ beam) /\
      (0 < bw -> dq_has_notvisited (ds_best st) = true -> beam <> [])
  | SErr => exists i, reach graph starts i /\ graph i = None
  | SPanic | SFuel => False
  end.
Proof.
  intros D. pose proof D as [(EG & I & M) Dk Dv Dr Dre Dc Dh]. unfold d_round.
  destruct (d_take_beam_inv bw _ _ _ _ I M) as (d1 & beam & EG1 & T & I1 & K1 & M1 & B1 & NB). rewrite T.
  assert (BR : forall x, In x beam -> reach graph starts (n_id x)).
  { intros x Hx. apply Dre. apply B1 in Hx. apply usable_in in Hx. now apply (v_new _ _ _ _ _ Dv). }
  destruct (expand_beam graph dist (ds_vis st) (map n_id beam)) as [[vis ns]|] eqn:X.
  - destruct (expand_beam_spec _ _ _ _ _ _ X) as [V VG].
    assert (VV : Visits dist [] vis (xs ++ ns) (fun i => In i starts \/ Exp graph (rec ++ beam) i)).
    { eapply visits_ext; [|exact (visits_app _ _ _ _ _ _ _ _ Dv V)]. intros i. cbn. unfold Exp. split.
      - intros [[H|(x & Hx & He)]|(u & Hu & He)]; [now left| |].
        + right. exists x. split; [apply in_or_app; auto|exact He].
        + apply in_map_iff in Hu. destruct Hu as (x & <- & Hx). right. exists x.
          split; [apply in_or_app; auto|exact He].
      - intros [H|(x & Hx & He)]; [auto|]. apply in_app_or in Hx. destruct Hx as [Hx|Hx].
        + left. right. eauto.
        + right. exists (n_id x). split; [now apply in_map|exact He]. }
    destruct (d_insert_all_inv ns d1 xs EG1 _ I1 M1) as (d2 & EG2 & H2 & I2 & K2 & M2).
    { intros i Hi. apply in_app_or in Hi. destruct Hi as [Hi|Hi]; [|now apply (ds_rec_ids _ _ _ D)].
      apply in_rev in Hi. apply in_map_iff in Hi. destruct Hi as (x & <- & Hx). apply B1 in Hx.
      apply usable_in in Hx. apply in_map. tauto. }
    { exact (v_nodup _ _ _ _ _ VV). }
    rewrite H2. exists ns. split; [|exact NB]. constructor; cbn [ds_best ds_vis ds_cmps ds_hops].
    + exists EG2. split; [exact I2|]. now rewrite map_app, rev_app_distr.
    + congruence.
    + exact VV.
    + intros x Hx. assert (HU : In x (usable xs)).
      { apply in_app_or in Hx. destruct Hx; auto. }
      apply usable_in in HU. apply usable_in. destruct HU as (HU & HU'). split; [|exact HU'].
      apply in_or_app. now left.
    + intros i Hi. apply (v_mem _ _ _ _ _ V) in Hi. destruct Hi as [Hi|(u & Hu & He)]; [auto|].
      apply in_map_iff in Hu. destruct Hu as (x & <- & Hx). eapply reach_edge; [exact (BR x Hx)|exact He].
    + rewrite Dc, app_length. reflexivity.
    + rewrite Dh, app_length. reflexivity.
  - assert (G : exists i, In i (map n_id beam) /\ graph i = None).
    { clear -X. revert X. generalize (ds_vis st). induction (map n_id beam) as [|i l IH]; intros v X; [discriminate|].
      cbn [expand_beam] in X. destruct (graph i) as [ns|] eqn:G; [|exists i; split; [now left|exact G]].
      destruct (visit_all dist v ns) as [v1 o1]. destruct (expand_beam graph dist v1 l) as [[a b]|] eqn:E; [discriminate|].
      destruct (IH _ E) as (j & Hj & Gj). exists j. split; [now right|exact Gj]. }
    destruct G as (i & Hi & Gi). exists i. split; [|exact Gi].
    apply in_map_iff in Hi. destruct Hi as (x & <- & Hx). auto.
Qed.

Lemma d_loop_inv bw fuel : forall st xs rec, DS st xs rec ->
  match d_loop attr graph dist fuel bw st with
  | SOk (st', rec') => exists ns, DS st' (xs ++ ns) (rec ++ rec') /\ dq_has_notvisited (ds_best st') = false
  | SErr => exists i, reach graph starts i /\ graph i = None
  | SPanic => False
  | SFuel => True
  end.
Proof.
  induction fuel as [|fuel IH]; intros st xs rec D; cbn [d_loop];
    (destruct (dq_has_notvisited (ds_best st)) eqn:N;
      [|exists []; rewrite !app_nil_r; split; [exact D|exact N]]).
  - exact Logic.I.
  - pose proof (d_round_inv bw st xs rec D) as R.
    destruct (d_round attr graph dist bw st) as [[st1 beam]| | |]; try contradiction; [|exact R].
    destruct R as (ns & D1 & _). specialize (IH st1 _ _ D1).
    destruct (d_loop attr graph dist fuel bw st1) as [[st2 rec2]| | |]; try exact IH.
    destruct IH as (ns2 & D2 & N2). exists (ns ++ ns2). rewrite !app_assoc. auto.
Qed.

Lemma ds_bound U st xs rec : (forall i, reach graph starts i -> In i U) -> DS st xs rec ->
  length rec + (if dq_has_notvisited (ds_best st) then 1 else 0) <= length U.
Proof.
  intros HU D. pose proof D as [(EG & I & M) Dk Dv Dr Dre Dc Dh].
  destruct (d_take_beam_inv 1 _ _ _ _ I M) as (d1 & beam & EG1 & T & I1 & K1 & M1 & B1 & NB).
  assert (X : length (rev (map n_id beam) ++ rev (map n_id rec)) <= length U).
  { apply NoDup_incl_length; [apply M1|]. intros i Hi. apply HU, Dre.
    assert (H : exists x, In x (usable xs) /\ i = n_id x).
    { apply in_app_or in Hi. destruct Hi as [Hi|Hi]; apply in_rev in Hi; apply in_map_iff in Hi;
        destruct Hi as (x & <- & Hx); exists x; auto. }
    destruct H as (x & Hx & ->). apply usable_in in Hx. now apply (v_new _ _ _ _ _ Dv). }
  rewrite app_length, !rev_length, !map_length in X.
  destruct (dq_has_notvisited (ds_best st)); [|lia].
  destruct beam; [exfalso; apply NB; auto|cbn [length] in X; lia].
Qed.

Lemma d_loop_fuel bw U : 0 < bw -> (forall i, reach graph starts i -> In i U) ->
  forall fuel st xs rec, DS st xs rec -> length U <= fuel + length rec ->
  d_loop attr graph dist fuel bw st <> SFuel.
Proof.
  intros Hb HU. induction fuel as [|fuel IH]; intros st xs rec D Hf; cbn [d_loop];
    pose proof (ds_bound U st xs rec HU D) as B;
    (destruct (dq_has_notvisited (ds_best st)) eqn:N; [|discriminate]).
  - lia.
  - pose proof (d_round_inv bw st xs rec D) as R.
    destruct (d_round attr graph dist bw st) as [[st1 beam]| | |]; try contradiction; [|discriminate].
    destruct R as (ns & D1 & NB). specialize (NB Hb N).
    assert (F : length U <= fuel + length (rec ++ beam)).
    { rewrite app_length. destruct beam; [congruence|cbn [length]; lia]. }
    specialize (IH st1 _ _ D1 F). destruct (d_loop attr graph dist fuel bw st1) as [[st2 rec2]| | |]; congruence.
Qed.

Lemma d_init_inv total : k * L / total = c -> NoDup starts ->
  match d_init attr dist starts (dq_new L total k) with
  | SOk st => exists xs, DS st xs []
  | SErr => exists s, In s starts /\ dist s = None
  | SPanic | SFuel => False
  end.
Proof.
  intros Ec ND. unfold d_init. pose proof (start_dists_spec graph dist starts ND) as SD.
  destruct (start_dists dist starts) as [xs|]; [|exact SD]. destruct SD as [V MX].
  pose proof (new_inv attr c L HL k total L Ec eq_refl) as I0.
  assert (M0 : Marked [] []) by (split; [constructor|intros e []]).
  destruct (d_insert_all_inv xs _ [] [] [] I0 M0) as (d' & EG & H & I & K & M).
  { intros i []. }
  { exact (v_nodup _ _ _ _ _ V). }
  rewrite H. exists xs. constructor; cbn [ds_best ds_vis ds_cmps ds_hops]; auto.
  - exists EG. auto.
  - eapply visits_ext; [|exact V]. intros i. split; [tauto|]. intros [X|(x & [] & _)]. exact X.
  - intros x [].
  - intros i Hi. apply reach_start. now apply in_rev in Hi.
Qed.
End search.

Section main.
Variable attr : nat -> option nat.
Variable graph : nat -> option (list nat).
Variable dist : nat -> option f32.

Lemma diverse_spec fuel l total k bw starts : 0 < k -> 0 < total -> total <= l -> NoDup starts ->
  match diverse_search attr graph dist fuel l total k bw starts with
  | SOk (res, st, rec) => exists c EG xs, 0 < c /\ c = k * l / total /\
      DS attr graph dist c l k starts st xs rec /\
      Inv attr c l (ds_best st) xs EG /\ dq_results (ds_best st) = Some res /\
      dq_has_notvisited (ds_best st) = false
  | SErr => (exists s, In s starts /\ dist s = None) \/ (exists i, reach graph starts i /\ graph i = None)
  | SPanic => False
  | SFuel => True
  end.
Proof.
  intros Hk Ht Hl ND. pose proof (div_pos k l total Hk Ht Hl) as Hc. assert (HL : 0 < l) by lia.
  unfold diverse_search.
  pose proof (d_init_inv attr graph dist _ l k Hc HL starts total eq_refl ND) as D0.
  destruct (d_init attr dist starts (dq_new l total k)) as [st0| | |]; try contradiction; [|now left].
  destruct D0 as (xs0 & D0).
  pose proof (d_loop_inv attr graph dist _ l k Hc HL starts bw fuel st0 xs0 [] D0) as LI.
  destruct (d_loop attr graph dist fuel bw st0) as [[st rec]| | |]; try contradiction; auto.
  destruct LI as (ns & D & N). cbn [app] in D. pose proof D as [(EG & I & M) Dk Dv Dr Dre Dc Dh].
  destruct (results_facts attr _ l Hc HL (ds_best st) _ EG total I (v_nodup _ _ _ _ _ Dv))
    as (res & F1 & F2 & F3 & F4 & F5 & F6); auto; try congruence.
  rewrite F1. rewrite firstn_all2 by exact F4.
  exists (k * l / total), EG, (xs0 ++ ns). sp; auto.
Qed.

(** The candidates a search has scored: [scanned] in the statements. *)
Lemma c62_search fuel l total k bw starts res st rec : 0 < k -> 0 < total -> total <= l -> NoDup starts ->
  diverse_search attr graph dist fuel l total k bw starts = SOk (res, st, rec) ->
  exists scanned,
    NoDup (map n_id scanned) /\ Forall (scored dist) scanned /\
    (forall i, In i (map n_id scanned) <->
       dist i <> None /\ (In i starts \/ exists x, In x rec /\ edge graph (n_id x) i)) /\
    (forall x, In x scanned -> reach graph starts (n_id x)) /\
    NoDup (map n_id rec) /\ incl rec (usable attr scanned) /\
    ds_cmps st = length scanned /\ ds_hops st = length rec /\
    NoDup (map n_id res) /\ StronglySorted closer res /\ length res <= l /\
    incl res (usable attr scanned) /\
    (no_ties (usable attr scanned) ->
       at_most_each attr k res /\
       exists ranked, ranking (usable attr scanned) ranked /\
         firstn total res = firstn total (closest_of_each attr k [] ranked)).
Proof.
  intros Hk Ht Hl ND H. pose proof (diverse_spec fuel l total k bw starts Hk Ht Hl ND) as S. rewrite H in S.
  destruct S as (c & EG & xs & Hc & Ec & D & I & R & N). assert (HL : 0 < l) by lia.
  pose proof D as [(EG1 & I1 & M1) Dk Dv Dr Dre Dc Dh].
  destruct (results_facts attr c l Hc HL (ds_best st) xs EG total I (v_nodup _ _ _ _ _ Dv))
    as (res' & F1 & F2 & F3 & F4 & F5 & F6); auto; try congruence.
  rewrite Dk in F6. assert (res' = res) by congruence. subst res'.
  exists xs. sp; auto.
  - exact (v_nodup _ _ _ _ _ Dv).
  - rewrite Forall_forall. intros x Hx. now apply (v_new _ _ _ _ _ Dv).
  - intros i. split.
    + intros Hi. apply in_map_iff in Hi. destruct Hi as (x & <- & Hx).
      destruct (v_new _ _ _ _ _ Dv x Hx) as (_ & V2 & V3). split; [unfold scored in V3; congruence|].
      apply (v_mem _ _ _ _ _ Dv) in V2. destruct V2 as [[]|V2]. exact V2.
    + intros (H1 & H2). destruct (dist i) as [d|] eqn:E; [|congruence].
      assert (Hi : In i (ds_vis st)) by (apply (v_mem _ _ _ _ _ Dv); right; exact H2).
      apply (in_map n_id xs (mkNbr i d)). exact (v_all _ _ _ _ _ Dv i d Hi (fun x => x) E).
  - intros x Hx. apply Dre. now apply (v_new _ _ _ _ _ Dv).
  - destruct M1 as [M1 _]. apply NoDup_rev in M1. now rewrite rev_involutive in M1.
Qed.

Lemma c62_total fuel l total k bw starts univ : 0 < k -> 0 < total -> total <= l -> 0 < bw -> NoDup starts ->
  finite_index graph starts univ -> length univ <= fuel ->
  (forall i, In i starts -> dist i <> None) -> (forall i, reach graph starts i -> graph i <> None) ->
  exists out, diverse_search attr graph dist fuel l total k bw starts = SOk out.
Proof.
  intros Hk Ht Hl Hb ND [FI1 FI2] Hf HD HG.
  pose proof (diverse_spec fuel l total k bw starts Hk Ht Hl ND) as S.
  assert (N : diverse_search attr graph dist fuel l total k bw starts <> SFuel).
  { pose proof (div_pos k l total Hk Ht Hl) as Hc. assert (HL : 0 < l) by lia. unfold diverse_search.
    pose proof (d_init_inv attr graph dist _ l k Hc HL starts total eq_refl ND) as D0.
    destruct (d_init attr dist starts (dq_new l total k)) as [st0| | |]; try discriminate; [|contradiction].
    destruct D0 as (xs0 & D0).
    assert (RU : forall i, reach graph starts i -> In i univ).
    { intros i Ri. induction Ri; [now apply FI1|eauto]. }
    pose proof (d_loop_fuel attr graph dist _ l k Hc HL starts bw univ Hb RU fuel st0 xs0 [] D0) as LF.
    assert (LF' : d_loop attr graph dist fuel bw st0 <> SFuel) by (apply LF; cbn [length]; lia).
    destruct (d_loop attr graph dist fuel bw st0) as [[st rec]| | |]; try congruence.
    destruct (dq_results (ds_best st)); congruence. }
  destruct (diverse_search attr graph dist fuel l total k bw starts) as [out| | |]; [eauto| |contradiction|congruence].
  exfalso. destruct S as [(s & Hs & Ds)|(i & Ri & Gi)]; [exact (HD s Hs Ds)|exact (HG i Ri Gi)].
Qed.
End main.
