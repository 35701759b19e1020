(** Multi-hop filtered search. *)
From Verif.Lib Require Import Base Lists F32.
From Verif.Queue Require Import Proofs.
From Verif.Search Require Import Proofs ProofsKnn.
From Verif.Filtered Require Import Model Spec Proofs Proofs2.

Lemma filter_nodup_ids (f : nbr -> bool) xs : NoDup (map n_id xs) -> NoDup (map n_id (filter f xs)).
Proof.
  induction xs as [|x xs IH]; cbn [map filter]; intros H; [constructor|]. inversion H as [|? ? H1 H2]; subst.
  destruct (f x); cbn [map]; auto. constructor; auto. intros X. apply H1.
  apply in_map_iff in X. destruct X as (y & <- & Hy). apply filter_In in Hy. apply in_map. tauto.
Qed.

Lemma firstn_nodup_ids n xs : NoDup (map n_id xs) -> NoDup (map n_id (firstn n xs)).
Proof. intros H. rewrite <- (firstn_skipn n xs), map_app in H. now apply NoDup_app_inv in H. Qed.

Lemma filter_filter {A} (f g : A -> bool) xs : filter f (filter g xs) = filter g (filter f xs).
Proof.
  induction xs as [|x xs IH]; [reflexivity|]. cbn [filter].
  destruct (f x) eqn:F, (g x) eqn:G; cbn [filter]; rewrite ?F, ?G, IH; reflexivity.
Qed.

Lemma filter_all {A} (f : A -> bool) xs : (forall x, In x xs -> f x = true) -> filter f xs = xs.
Proof.
  induction xs as [|x xs IH]; intros H; [reflexivity|]. cbn [filter].
  rewrite (H x) by now left. f_equal. apply IH. intros y Hy. apply H. now right.
Qed.

Lemma filter_ext_in' {A} (f g : A -> bool) xs : (forall x, In x xs -> f x = g x) -> filter f xs = filter g xs.
Proof. intros H. now apply filter_ext_in. Qed.

Lemma sorted_filter {A} (R : A -> A -> Prop) (f : A -> bool) xs : StronglySorted R xs -> StronglySorted R (filter f xs).
Proof.
  induction 1 as [|x xs S IH F]; cbn [filter]; [constructor|]. destruct (f x); auto.
  constructor; auto. rewrite Forall_forall in *. intros y Hy. apply filter_In in Hy. apply F. tauto.
Qed.

Lemma filter_perm {A} (f : A -> bool) xs ys : Permutation xs ys -> Permutation (filter f xs) (filter f ys).
Proof.
  induction 1; cbn [filter]; auto.
  - destruct (f x); auto.
  - destruct (f x), (f y); auto. apply perm_swap.
  - etransitivity; eauto.
Qed.

Lemma filter_split_len {A} (f : A -> bool) xs :
  length (filter f xs) + length (filter (fun x => negb (f x)) xs) = length xs.
Proof. induction xs as [|x xs IH]; [reflexivity|]. cbn [filter]. destruct (f x); cbn [negb length]; lia. Qed.

(** The closest accepted ones, if at most [k] of the closest [l + k] are rejected. *)
Lemma closest_filter (f : nbr -> bool) l k xs best : closest (l + k) xs best ->
  length (filter (fun x => negb (f x)) best) <= k ->
  closest l (filter f xs) (firstn l (filter f best)).
Proof.
  intros (S & L & others & P & C) HK.
  pose proof (filter_perm f _ _ P) as PF. rewrite filter_app in PF.
  pose proof (filter_split_len f best) as SL.
  pose proof (sorted_filter closer f best S) as SF.
  rewrite <- (firstn_skipn l (filter f best)) in SF. destruct (sorted_app_inv _ _ _ SF) as (S1 & S2).
  split; [exact S1|]. split.
  - rewrite firstn_length, (Permutation_length PF), app_length.
    destruct others as [|o others].
    + cbn [filter length]. f_equal. clear; lia.
    + rewrite (Permutation_length P), app_length in L. cbn [length] in L. clear -L SL HK. lia.
  - destruct others as [|o others].
    + exists (skipn l (filter f best)). rewrite firstn_skipn. cbn [filter] in PF. rewrite app_nil_r in PF.
      auto.
    + exists (skipn l (filter f best) ++ filter f (o :: others)).
      rewrite app_assoc, firstn_skipn. split; [exact PF|].
      intros x y Hx Hy. apply in_app_or in Hy. destruct Hy as [Hy|Hy]; [auto|].
      apply filter_In in Hy. apply in_firstn in Hx. apply filter_In in Hx. apply C; tauto.
Qed.

Section multihop.
Variable graph : nat -> option (list nat).
Variable dist : nat -> option f32.
Variable acc : nat -> bool.
Variable sort : list nbr -> option (list nbr).
Hypothesis Hsort : sorts sort.
Notation accepted := (accepted acc).
Notation rejected := (fun x => negb (Model.accepted acc x)).

Lemma visit_accepted_spec ns : forall v v' out, visit_accepted dist acc v ns = (v', out) ->
  Visits dist v v' out (fun i => acc i = true /\ In i ns).
Proof.
  induction ns as [|n ns IH]; intros v v' out H; cbn [visit_accepted] in H.
  - injection H as <- <-. eapply visits_ext; [|exact (visits_nil dist v)]. cbn. tauto.
  - destruct (seen n v || negb (acc n)) eqn:B.
    + destruct (IH _ _ _ H) as [A B' C D]. constructor; auto. intros i. rewrite A. cbn [In].
      apply orb_prop in B. destruct B as [Sn|Ac].
      * apply seen_spec in Sn. intuition (subst; auto).
      * apply negb_true_iff in Ac. intuition (subst; auto). congruence.
    + apply orb_false_elim in B. destruct B as [Sn Ac]. apply seen_false in Sn. apply negb_false_iff in Ac.
      destruct (visit_accepted dist acc (n :: v) ns) as [v1 o1] eqn:E. specialize (IH _ _ _ E).
      assert (V1 : Visits dist v (n :: v) (match dist n with Some d => [mkNbr n d] | None => [] end)
                     (fun i => i = n)).
      { constructor.
        - intros i. cbn. intuition.
        - destruct (dist n); cbn; repeat constructor. intros [].
        - intros x Hx. destruct (dist n) as [d|] eqn:Dn; [|destruct Hx].
          destruct Hx as [<-|[]]. cbn. split; [exact Sn|]. split; [now left|exact Dn].
        - intros i d [<-|Hi] Hn Hd; [|contradiction]. rewrite Hd. now left. }
      assert (o_eq : out = (match dist n with Some d => [mkNbr n d] | None => [] end) ++ o1)
        by (injection H as <- <-; destruct (dist n); reflexivity).
      assert (v' = v1) by congruence. subst v' out.
      eapply visits_ext; [|exact (visits_app _ _ _ _ _ _ _ _ V1 IH)].
      intros i. cbn. intuition (subst; auto).
Qed.

Lemma expand_accepted_spec ids : forall v v' out,
  expand_accepted graph dist acc v ids = Some (v', out) ->
  Visits dist v v' out (fun i => acc i = true /\ exists u, In u ids /\ edge graph u i).
Proof.
  induction ids as [|i ids IH]; intros v v' out H; cbn [expand_accepted] in H.
  - injection H as <- <-. eapply visits_ext; [|exact (visits_nil dist v)]. intros i. cbn. split; [tauto|].
    intros (_ & u & [] & _).
  - destruct (graph i) as [ns|] eqn:G; [|discriminate].
    destruct (visit_accepted dist acc v ns) as [v1 o1] eqn:V.
    destruct (expand_accepted graph dist acc v1 ids) as [[v2 o2]|] eqn:X; [|discriminate].
    injection H as <- <-. specialize (IH _ _ _ X).
    eapply visits_ext; [|exact (visits_app _ _ _ _ _ _ _ _ (visit_accepted_spec _ _ _ _ V) IH)].
    intros j. cbn. split.
    + intros [[Aj Hj]|(Aj & u & Hu & Hj)]; (split; [exact Aj|]); [exists i|exists u]; split; auto. exists ns. auto.
    + intros (Aj & u & [->|Hu] & (ns' & G' & Hj)); [left; split; congruence|].
      right. split; [exact Aj|]. exists u. split; [exact Hu|]. exists ns'. auto.
Qed.

Lemma expand_accepted_fail ids : forall v, expand_accepted graph dist acc v ids = None ->
  exists i, In i ids /\ graph i = None.
Proof.
  induction ids as [|i l IH]; intros v X; [discriminate|].
  cbn [expand_accepted] in X. destruct (graph i) as [ns|] eqn:G; [|exists i; split; [now left|exact G]].
  destruct (visit_accepted dist acc v ns) as [v1 o1].
  destruct (expand_accepted graph dist acc v1 l) as [[a b]|] eqn:E; [discriminate|].
  destruct (IH _ E) as (j & Hj & Gj). exists j. split; [now right|exact Gj].
Qed.

(** What is marked as visited. *)
Definition Hop (starts : list nat) (beams hops : list nbr) (i : nat) : Prop :=
  In i starts \/ Exp graph beams i \/ (acc i = true /\ Exp graph hops i).

Record MInv (L degree : nat) (starts : list nat) (xs0 : list nbr) (st : sst) (sc beams hops : list nbr) : Prop := {
  mi_nav : Nav L true (s_best st) (xs0 ++ filter accepted sc) beams;
  mi_vis : Visits dist [] (s_vis st) (xs0 ++ sc) (Hop starts beams hops);
  mi_reach : forall i, In i (s_vis st) -> reach graph starts i;
  mi_hops : forall x, In x hops -> accepted x = false /\ In x sc;
  mi_nodup : NoDup (map n_id hops);
  mi_num : s_hops st = length beams + length hops;
  mi_cmps : s_cmps st = length sc;
  mi_deg : length hops <= degree / 2 * length beams
}.

Lemma exp_app rec rec' i : Exp graph (rec ++ rec') i <-> Exp graph rec i \/ Exp graph rec' i.
Proof.
  unfold Exp. split.
  - intros (x & Hx & He). apply in_app_or in Hx. destruct Hx; [left|right]; eauto.
  - intros [(x & Hx & He)|(x & Hx & He)]; exists x; (split; [apply in_or_app; auto|exact He]).
Qed.

Lemma exp_ids rec i : (exists u, In u (map n_id rec) /\ edge graph u i) <-> Exp graph rec i.
Proof.
  unfold Exp. split.
  - intros (u & Hu & He). apply in_map_iff in Hu. destruct Hu as (x & <- & Hx). eauto.
  - intros (x & Hx & He). exists (n_id x). split; [now apply in_map|exact He].
Qed.

Lemma multihop_round_inv L degree starts xs0 bw st sc beams hops :
  MInv L degree starts xs0 st sc beams hops -> bw <> 0 -> has_notvisited (s_best st) = true ->
  match multihop_round graph dist acc sort degree bw st with
  | SOk (st', beam, hop) => beam <> [] /\ exists ns, MInv L degree starts xs0 st' (sc ++ ns) (beams ++ beam) (hops ++ hop)
  | SErr => exists x, reach graph starts x /\ graph x = None
  | SPanic => ~ numeric dist
  | SFuel => False
  end.
Proof.
  intros [I1 I2 I3 I4 I5 I6 I7 I8] Hb HN. unfold multihop_round.
  destruct (nav_beam _ _ _ _ _ bw I1) as (q1 & beam & T & N1 & B1 & NB). rewrite T.
  specialize (NB Hb HN).
  assert (BV : forall x, In x beam -> reach graph starts (n_id x)).
  { intros x Hx. apply I3. apply (v_new _ _ _ _ _ I2). specialize (B1 x Hx).
    apply in_or_app. apply in_app_or in B1. destruct B1 as [|B1]; [now left|right].
    apply filter_In in B1. tauto. }
  destruct (expand_beam graph dist (s_vis st) (map n_id beam)) as [[vis ns]|] eqn:X.
  2:{ destruct (expand_fail _ _ _ _ X) as (i & Hi & Gi). exists i. split; [|exact Gi].
      apply in_map_iff in Hi. destruct Hi as (x & <- & Hx). auto. }
  destruct (expand_beam_spec _ _ _ _ _ _ X) as [V _].
  destruct (nav_insert _ _ _ _ _ (filter accepted ns) N1) as (q2 & Q2 & N2). rewrite Q2.
  pose proof (Hsort (filter rejected ns)) as SR.
  destruct (sort (filter rejected ns)) as [rej|].
  2:{ intros HNum. destruct SR as (x & Hx & Nx). apply filter_In in Hx. destruct Hx as [Hx _].
      destruct (v_new _ _ _ _ _ V x Hx) as (_ & _ & Sc). rewrite (HNum _ _ Sc) in Nx. discriminate. }
  destruct SR as [SP _]. set (hop := firstn (degree / 2) rej).
  assert (HR : forall x, In x hop -> accepted x = false /\ In x ns).
  { intros x Hx. apply in_firstn in Hx. apply (Permutation_in _ SP) in Hx. apply filter_In in Hx.
    destruct Hx as [Hx Rx]. apply negb_true_iff in Rx. auto. }
  assert (R1 : forall i, In i vis -> reach graph starts i).
  { intros i Hi. apply (v_mem _ _ _ _ _ V) in Hi. destruct Hi as [Hi|(u & Hu & He)]; [auto|].
    apply in_map_iff in Hu. destruct Hu as (x & <- & Hx). eapply reach_edge; [|exact He]. auto. }
  assert (HV : forall x, In x hop -> reach graph starts (n_id x)).
  { intros x Hx. apply R1. apply (v_new _ _ _ _ _ V). now apply HR. }
  destruct (expand_accepted graph dist acc vis (map n_id hop)) as [[vis2 ns2]|] eqn:X2.
  2:{ destruct (expand_accepted_fail _ _ X2) as (i & Hi & Gi). exists i. split; [|exact Gi].
      apply in_map_iff in Hi. destruct Hi as (x & <- & Hx). auto. }
  pose proof (expand_accepted_spec _ _ _ _ X2) as V2.
  destruct (nav_insert _ _ _ _ _ ns2 N2) as (q3 & Q3 & N3). rewrite Q3.
  split; [exact NB|]. exists (ns ++ ns2).
  assert (F2 : filter accepted ns2 = ns2).
  { apply filter_all. intros x Hx. destruct (v_new _ _ _ _ _ V2 x Hx) as (H1 & H2 & _).
    apply (v_mem _ _ _ _ _ V2) in H2. destruct H2 as [H2|[H2 _]]; [contradiction|exact H2]. }
  constructor; cbn [s_best s_vis s_hops s_cmps].
  - rewrite !filter_app, F2, !app_assoc. exact N3.
  - rewrite !app_assoc. eapply visits_ext; [|exact (visits_app _ _ _ _ _ _ _ _ (visits_app _ _ _ _ _ _ _ _ I2 V) V2)].
    intros i. cbn beta. unfold Hop. rewrite !exp_app, !exp_ids. tauto.
  - intros i Hi. apply (v_mem _ _ _ _ _ V2) in Hi. destruct Hi as [Hi|(_ & u & Hu & He)]; [auto|].
    apply in_map_iff in Hu. destruct Hu as (x & <- & Hx). eapply reach_edge; [|exact He]. auto.
  - intros x Hx. apply in_app_or in Hx. destruct Hx as [Hx|Hx].
    + destruct (I4 x Hx). split; [assumption|]. apply in_or_app. now left.
    + destruct (HR x Hx). split; [assumption|]. apply in_or_app. right. apply in_or_app. now left.
  - rewrite map_app. apply NoDup_app_intro; [exact I5| |].
    + apply firstn_nodup_ids. apply (NoDup_map_perm_ids _ _ (Permutation_sym SP)).
      apply filter_nodup_ids. apply V.
    + intros i H1 H2. apply in_map_iff in H1, H2. destruct H1 as (x & <- & Hx), H2 as (y & Ey & Hy).
      destruct (v_new _ _ _ _ _ V y (proj2 (HR y Hy))) as (Nv & _). apply Nv. rewrite Ey.
      apply (v_new _ _ _ _ _ I2). apply in_or_app. right. now apply I4.
  - rewrite !app_length, I6. clear; lia.
  - rewrite !app_length, I7. clear; lia.
  - rewrite !app_length. assert (HL : length hop <= degree / 2) by (apply firstn_le_length).
    destruct beam as [|b beam]; [congruence|]. cbn [length].
    clear -HL I8. generalize dependent (degree / 2). intros d HL I8. nia.
Qed.

Lemma multihop_loop_inv L degree starts xs0 bw stop : bw <> 0 -> forall fuel n st sc beams hops,
  MInv L degree starts xs0 st sc beams hops ->
  match multihop_loop graph dist acc sort fuel degree bw stop n st with
  | SOk (st', bs, hs) => exists ns, MInv L degree starts xs0 st' (sc ++ ns) (beams ++ bs) (hops ++ hs) /\
      ((forall k, stop k = false) -> has_notvisited (s_best st') = false)
  | SErr => exists x, reach graph starts x /\ graph x = None
  | SPanic => ~ numeric dist
  | SFuel => True
  end.
Proof.
  intros Hb. induction fuel as [|fuel IH]; intros n st sc beams hops I; cbn [multihop_loop];
    (destruct (has_notvisited (s_best st) && negb (stop n)) eqn:B;
      [|exists []; rewrite !app_nil_r; split; [exact I|]; intros HS; rewrite HS in B; cbn [negb] in B;
        now rewrite andb_true_r in B]).
  - exact Logic.I.
  - apply andb_prop in B. destruct B as [B _].
    pose proof (multihop_round_inv _ _ _ _ bw _ _ _ _ I Hb B) as RI.
    destruct (multihop_round graph dist acc sort degree bw st) as [[[st1 beam] hop]| | |]; auto.
    destruct RI as (_ & ns & RI). specialize (IH (S n) st1 _ _ _ RI).
    destruct (multihop_loop graph dist acc sort fuel degree bw stop (S n) st1) as [[[st2 bs] hs]| | |]; auto.
    destruct IH as (ns' & J & HN). exists (ns ++ ns'). rewrite !app_assoc. auto.
Qed.

Lemma minv_bound L degree starts xs0 st sc beams hops U : 0 < L -> (forall i, reach graph starts i -> In i U) ->
  MInv L degree starts xs0 st sc beams hops -> NoDup (map n_id beams) /\ length beams <= length U.
Proof.
  intros HL HU [I1 I2 I3 I4 I5 I6 I7 I8].
  assert (NX : NoDup (map n_id (xs0 ++ filter accepted sc))).
  { pose proof (v_nodup _ _ _ _ _ I2) as N. rewrite map_app in *. apply NoDup_app_inv in N.
    destruct N as (N1 & N2 & N3). apply NoDup_app_intro; [exact N1|now apply filter_nodup_ids|].
    intros i H1 H2. apply in_map_iff in H2. destruct H2 as (x & <- & Hx). apply filter_In in Hx.
    apply (N3 (n_id x) H1). apply in_map. tauto. }
  pose proof (nav_nodup _ _ _ _ _ HL NX I1) as NB. split; [exact NB|].
  rewrite <- (map_length n_id). apply NoDup_incl_length; [exact NB|].
  intros i Hi. apply in_map_iff in Hi. destruct Hi as (x & <- & Hx). apply HU, I3, (v_new _ _ _ _ _ I2).
  pose proof (n_rec _ _ _ _ _ I1 x Hx) as Hin. apply in_or_app. apply in_app_or in Hin.
  destruct Hin as [|Hin]; [now left|right]. apply filter_In in Hin. tauto.
Qed.

Lemma multihop_loop_fuel L degree starts xs0 bw stop U : 0 < L -> bw <> 0 ->
  (forall i, reach graph starts i -> In i U) -> forall fuel n st sc beams hops,
  MInv L degree starts xs0 st sc beams hops -> length U <= fuel + length beams ->
  multihop_loop graph dist acc sort fuel degree bw stop n st <> SFuel.
Proof.
  intros HL Hb HU. induction fuel as [|fuel IH]; intros n st sc beams hops I Hf; cbn [multihop_loop];
    (destruct (has_notvisited (s_best st) && negb (stop n)) eqn:B; [|discriminate]);
    apply andb_prop in B; destruct B as [B _].
  - exfalso. pose proof I as [I1 I2 I3 I4 I5 I6 I7 I8].
    destruct (nav_beam _ _ _ _ _ bw I1) as (q1 & beam & T & N1 & B1 & NB). specialize (NB Hb B).
    assert (NX : NoDup (map n_id (xs0 ++ filter accepted sc))).
    { pose proof (v_nodup _ _ _ _ _ I2) as N. rewrite map_app in *. apply NoDup_app_inv in N.
      destruct N as (Na & Nb & Nc). apply NoDup_app_intro; [exact Na|now apply filter_nodup_ids|].
      intros i H1 H2. apply in_map_iff in H2. destruct H2 as (x & <- & Hx). apply filter_In in Hx.
      apply (Nc (n_id x) H1). apply in_map. tauto. }
    pose proof (nav_nodup _ _ _ _ _ HL NX N1) as NBB.
    assert (LB : length (map n_id (beams ++ beam)) <= length U).
    { apply NoDup_incl_length; [exact NBB|]. intros i Hi. apply in_map_iff in Hi. destruct Hi as (x & <- & Hx).
      apply HU, I3, (v_new _ _ _ _ _ I2). pose proof (n_rec _ _ _ _ _ N1 x Hx) as Hin.
      apply in_or_app. apply in_app_or in Hin. destruct Hin as [|Hin]; [now left|right].
      apply filter_In in Hin. tauto. }
    rewrite map_length, app_length in LB. destruct beam; [congruence|]. cbn [length] in LB. clear -Hf LB. lia.
  - pose proof (multihop_round_inv _ _ _ _ bw _ _ _ _ I Hb B) as RI.
    destruct (multihop_round graph dist acc sort degree bw st) as [[[st1 beam] hop]| | |]; try discriminate; [|contradiction].
    destruct RI as (NB & ns & RI).
    assert (HF : length U <= fuel + length (beams ++ beam)).
    { rewrite app_length. destruct beam; [congruence|]. cbn [length]. clear -Hf. lia. }
    specialize (IH (S n) st1 _ _ _ RI HF).
    destruct (multihop_loop graph dist acc sort fuel degree bw stop (S n) st1) as [[[st2 bs] hs]| | |]; congruence.
Qed.

Lemma multihop_init l degree starts xs : 0 < l -> NoDup starts -> start_dists dist starts = Some xs ->
  exists q, insert_all (pq_new (l + length starts)) xs = Some q /\ map n_id xs = starts /\
    MInv (l + length starts) degree starts xs (mkSst q (rev starts) 0 0) [] [] [].
Proof.
  intros Hl ND SD. pose proof (start_dists_spec graph dist starts ND) as SP. rewrite SD in SP.
  destruct SP as [V MX]. assert (HL : 0 < l + length starts) by lia.
  destruct (nav_insert _ true _ _ _ xs (nav_new _ true HL)) as (q & I & N). exists q. split; [exact I|].
  split; [exact MX|].
  constructor; cbn [s_best s_vis s_hops s_cmps filter length]; rewrite ?app_nil_r; auto.
  - eapply visits_ext; [|exact V]. intros i. unfold Hop, Exp. split; [tauto|].
    intros [X|[(x & [] & _)|(_ & x & [] & _)]]. exact X.
  - intros i Hi. apply reach_start. now apply in_rev in Hi.
  - intros x [].
  - constructor.
  - lia.
Qed.

Lemma valid_filter f xs : valid (filter f xs) = filter f (valid xs).
Proof. apply filter_filter. Qed.

Lemma multihop_spec fuel degree l bw stop starts : 0 < l -> bw <> 0 -> NoDup starts ->
  match multihop_search graph dist acc sort fuel degree l bw stop starts with
  | SOk (res, st, (beams, hops)) => exists xs0 sc, map n_id xs0 = starts /\
      MInv (l + length starts) degree starts xs0 st sc beams hops /\
      closest l (valid (filter accepted (xs0 ++ sc))) res /\
      ((forall k, stop k = false) -> has_notvisited (s_best st) = false)
  | SErr => (exists s, In s starts /\ dist s = None) \/ (exists x, reach graph starts x /\ graph x = None)
  | SPanic => ~ numeric dist
  | SFuel => True
  end.
Proof.
  intros Hl Hb ND. unfold multihop_search.
  destruct (start_dists dist starts) as [xs|] eqn:SD.
  2:{ left. pose proof (start_dists_spec graph dist starts ND) as SP. now rewrite SD in SP. }
  destruct (multihop_init l degree starts xs Hl ND SD) as (q & Q & MX & I). rewrite Q.
  pose proof (multihop_loop_inv _ _ _ _ bw stop Hb fuel 0 _ _ _ _ I) as LI.
  destruct (multihop_loop graph dist acc sort fuel degree bw stop 0 _) as [[[st beams] hops]| | |]; auto.
  destruct LI as (sc & J & HN). cbn [app] in J.
  assert (HL : 0 < l + length starts) by (clear -Hl; lia).
  destruct (nav_iter _ _ _ _ HL (mi_nav _ _ _ _ _ _ _ _ J)) as (best & IT & CB). rewrite IT.
  exists xs, sc. split; [exact MX|]. split; [exact J|]. split; [|exact HN].
  assert (BIN : forall x, In x best -> In x xs \/ accepted x = true).
  { intros x Hx. destruct CB as (_ & _ & o & P & _).
    assert (Hv : In x (valid (xs ++ filter accepted sc))).
    { eapply Permutation_in; [symmetry; exact P|]. apply in_or_app. now left. }
    apply in_valid in Hv. apply in_app_or in Hv. destruct Hv as [|Hv]; [now left|right].
    apply filter_In in Hv. tauto. }
  assert (FE : filter (fun x => negb (seen (n_id x) (filter (fun i => negb (acc i)) starts))) best = filter accepted best).
  { apply filter_ext_in'. intros x Hx. destruct (accepted x) eqn:A.
    - apply negb_true_iff, seen_false. intros X. apply filter_In in X. destruct X as [_ X].
      unfold Model.accepted in A. rewrite A in X. discriminate.
    - apply negb_false_iff, seen_spec, filter_In. destruct (BIN x Hx) as [Hin|]; [|congruence].
      split; [rewrite <- MX; now apply in_map|]. unfold Model.accepted in A. now rewrite A. }
  rewrite FE. assert (EQ : valid (filter accepted (xs ++ sc)) = filter accepted (valid (xs ++ filter accepted sc))).
  { rewrite <- valid_filter. f_equal. rewrite !filter_app. f_equal. symmetry. apply filter_all.
    intros x Hx. apply filter_In in Hx. tauto. }
  rewrite EQ. apply (closest_filter _ _ (length starts)); [exact CB|].
  rewrite <- (map_length n_id). apply NoDup_incl_length.
  - apply filter_nodup_ids. destruct CB as (_ & _ & o & P & _).
    assert (N : NoDup (map n_id (best ++ o))).
    { eapply NoDup_map_perm_ids; [exact P|]. apply NoDup_valid_ids.
      pose proof (v_nodup _ _ _ _ _ (mi_vis _ _ _ _ _ _ _ _ J)) as N. rewrite map_app in *.
      apply NoDup_app_inv in N. destruct N as (N1 & N2 & N3).
      apply NoDup_app_intro; [exact N1|now apply filter_nodup_ids|].
      intros i H1 H2. apply in_map_iff in H2. destruct H2 as (x & <- & Hx). apply filter_In in Hx.
      apply (N3 (n_id x) H1). apply in_map. tauto. }
    rewrite map_app in N. now apply NoDup_app_inv in N.
  - intros i Hi. apply in_map_iff in Hi. destruct Hi as (x & <- & Hx). apply filter_In in Hx.
    destruct Hx as [Hx Rx]. apply negb_true_iff in Rx. destruct (BIN x Hx) as [Hin|]; [|congruence].
    rewrite <- MX. now apply in_map.
Qed.

Lemma multihop_fuel fuel degree l bw stop starts univ : 0 < l -> bw <> 0 -> NoDup starts ->
  finite_index graph starts univ -> length univ <= fuel ->
  multihop_search graph dist acc sort fuel degree l bw stop starts <> SFuel.
Proof.
  intros Hl Hb ND [FI1 FI2] Hf. unfold multihop_search.
  destruct (start_dists dist starts) as [xs|] eqn:SD; [|discriminate].
  destruct (multihop_init l degree starts xs Hl ND SD) as (q & Q & MX & I). rewrite Q.
  assert (RU : forall i, reach graph starts i -> In i univ).
  { intros i Ri. induction Ri; [now apply FI1|eauto]. }
  pose proof (multihop_loop_fuel (l + length starts) degree starts xs bw stop univ ltac:(lia) Hb RU fuel 0 _ _ _ _ I
    ltac:(cbn [length]; lia)) as LF.
  destruct (multihop_loop graph dist acc sort fuel degree bw stop 0 _) as [[[st beams] hops]| | |]; try congruence.
  destruct (pq_iter (s_best st)); congruence.
Qed.
End multihop.
