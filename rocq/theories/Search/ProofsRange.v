(** Range search. *)
From Verif.Lib Require Import Base Lists F32.
From Verif.Search Require Import Model Spec Proofs ProofsKnn.
From Verif.Queue Require Import Proofs.

Section range.
Variable graph : nat -> option (list nat).
Variable dist : nat -> option f32.
Variable p : range.

Lemma room_mono n m : n <= m -> room p m = true -> room p n = true.
Proof.
  unfold room. destruct (r_max p) as [k|]; [|auto]. intros H H1. apply Nat.ltb_lt in H1.
  apply Nat.ltb_lt. lia.
Qed.

Lemma absorb_spec ns : forall ir fr ir' fr', absorb p ir fr ns = (ir', fr') ->
  exists added, ir' = ir ++ added /\ fr' = fr ++ map n_id added /\ incl added ns /\
    (NoDup (map n_id ns) -> NoDup (map n_id added)) /\
    (forall x, In x added -> f32_le (n_dist x) (r_limit p) = true) /\
    (room p (length ir') = true -> forall x, In x ns -> f32_le (n_dist x) (r_limit p) = true ->
       In x added) /\
    (forall m, r_max p = Some m -> length ir <= m -> length ir' <= m) /\
    length added <= length ns.
Proof.
  induction ns as [|x ns IH]; intros ir fr ir' fr' H; cbn [absorb] in H.
  - injection H as <- <-. exists []. rewrite !app_nil_r. cbn. repeat split; auto.
    all: try (intros y []).
    all: intros _ y [].
  - destruct (f32_le (n_dist x) (r_limit p) && room p (length ir)) eqn:B.
    + apply andb_prop in B. destruct B as [B1 B2].
      destruct (IH _ _ _ _ H) as (added & A1 & A2 & A3 & A4 & A5 & A6 & A7 & A8).
      exists (x :: added). rewrite A1, A2, <- !app_assoc. cbn [app map].
      split; [reflexivity|]. split; [reflexivity|].
      split; [intros y [<-|Hy]; [now left|right; auto]|].
      split; [intros ND; inv ND; constructor; auto; intros X; apply in_map_iff in X;
              destruct X as (y & Ey & Hy); apply H2; rewrite <- Ey; apply in_map; auto|].
      split; [intros y [<-|Hy]; auto|].
      split; [intros R y [<-|Hy] Hl; [now left|right; apply A6; auto; rewrite A1, <- app_assoc; exact R]|].
      split; [|cbn; lia].
      intros m Hm Hl. specialize (A7 m Hm). rewrite A1, <- app_assoc in A7. apply A7.
      unfold room in B2. rewrite Hm in B2. apply Nat.ltb_lt in B2. rewrite app_length. cbn. lia.
    + destruct (IH _ _ _ _ H) as (added & A1 & A2 & A3 & A4 & A5 & A6 & A7 & A8).
      exists added. split; [exact A1|]. split; [exact A2|].
      split; [intros y Hy; right; auto|].
      split; [intros ND; inv ND; auto|]. split; [exact A5|].
      split; [|split; [exact A7|cbn; lia]].
      intros R y [<-|Hy] Hl; [|auto]. rewrite Hl in B. cbn in B.
      rewrite (room_mono (length ir) (length ir')) in B; [discriminate| |exact R].
      rewrite A1, app_length. lia.
Qed.

Record RInv (starts : list nat) (first : list nbr) (vis : list nat) (ir : list nbr) (fr : list nat)
  : Prop := {
  ri_first : exists more, ir = first ++ more /\
      forall x, In x more -> f32_le (n_dist x) (r_limit p) = true;
  ri_nodup : NoDup (map n_id ir);
  ri_vis : forall x, In x ir -> In (n_id x) vis /\ scored dist x;
  ri_fr : forall i, In i fr -> In i (map n_id ir);
  ri_exp : forall x j, In x ir -> edge graph (n_id x) j -> In (n_id x) fr \/ In j vis;
  ri_reach : forall i, In i vis -> reach graph starts i;
  ri_in : room p (length ir) = true -> forall i d, In i vis -> dist i = Some d ->
      f32_le d (r_limit p) = true -> In (mkNbr i d) ir;
  ri_max : forall m, r_max p = Some m -> length ir <= m
}.

Lemma range_loop_spec starts first : forall fuel vis ir fr cmps hops,
  RInv starts first vis ir fr -> r_bw p <> 0 ->
  match range_loop graph dist fuel p vis ir fr cmps hops with
  | SOk (all, _, _) => exists vis' fr', RInv starts first vis' all fr' /\
      (room p (length all) = true -> fr' = [])
  | SErr => exists x, reach graph starts x /\ graph x = None
  | SPanic => False
  | SFuel => True
  end.
Proof.
  induction fuel as [|fuel IH]; intros vis ir fr cmps hops I Hb; cbn [range_loop];
    (destruct fr as [|f fr]; [exists vis, []; split; [exact I|reflexivity]|]).
  - destruct (room p (length ir)) eqn:R; [exact Logic.I|].
    exists vis, (f :: fr). split; [exact I|congruence].
  - destruct (room p (length ir)) eqn:R.
    2:{ exists vis, (f :: fr). split; [exact I|congruence]. }
    cbv zeta. set (F := f :: fr) in *. clearbody F.
    set (beam := firstn (r_bw p) F). set (fr0 := skipn (r_bw p) F).
    assert (SPL : F = beam ++ fr0) by (symmetry; apply firstn_skipn).
    clearbody beam fr0.
    destruct (expand_beam graph dist vis beam) as [[vis1 ns]|] eqn:X.
    + destruct (expand_beam_spec _ _ _ _ _ _ X) as [V G].
      destruct (absorb p ir fr0 ns) as [ir1 fr1] eqn:A.
      destruct (absorb_spec _ _ _ _ _ A) as (added & A1 & A2 & A3 & A4 & A5 & A6 & A7 & A8).
      apply IH; [|exact Hb]. destruct I as [I1 I2 I3 I4 I5 I6 I7 I8].
      constructor.
      * destruct I1 as (more & E & Hm). exists (more ++ added). rewrite A1, E, <- app_assoc.
        split; [reflexivity|]. intros x Hx. apply in_app_or in Hx. destruct Hx; auto.
      * rewrite A1, map_app. apply NoDup_app_intro; [exact I2|apply A4, V|].
        intros i H1 H2. apply in_map_iff in H1, H2. destruct H1 as (x & <- & Hx), H2 as (y & E & Hy).
        apply (proj1 (v_new _ _ _ _ _ V y (A3 y Hy))). rewrite E. now apply I3.
      * intros x Hx. rewrite A1 in Hx. apply in_app_or in Hx. destruct Hx as [Hx|Hx].
        -- destruct (I3 x Hx). split; [|assumption]. apply (v_mem _ _ _ _ _ V). now left.
        -- destruct (v_new _ _ _ _ _ V x (A3 x Hx)) as (_ & N2 & N3). auto.
      * intros i Hi. rewrite A2 in Hi. rewrite A1, map_app. apply in_or_app.
        apply in_app_or in Hi. destruct Hi as [Hi|Hi]; [left|now right].
        apply I4. rewrite SPL. apply in_or_app. now right.
      * intros x j Hx He. rewrite A1 in Hx. rewrite A2. apply in_app_or in Hx. destruct Hx as [Hx|Hx].
        -- destruct (I5 x j Hx He) as [Hf|Hv].
           ++ rewrite SPL in Hf. apply in_app_or in Hf. destruct Hf as [Hf|Hf].
              ** right. apply (v_mem _ _ _ _ _ V). right. eauto.
              ** left. apply in_or_app. now left.
           ++ right. apply (v_mem _ _ _ _ _ V). now left.
        -- left. apply in_or_app. right. now apply in_map.
      * intros i Hi. apply (v_mem _ _ _ _ _ V) in Hi. destruct Hi as [Hi|(u & Hu & He)]; [auto|].
        eapply reach_edge; [|exact He]. apply I6.
        assert (In u (map n_id ir)) by (apply I4; rewrite SPL; apply in_or_app; now left).
        apply in_map_iff in H. destruct H as (x & <- & Hx). now apply I3.
      * intros R1 i d Hi Hd Hl. rewrite A1. apply in_or_app.
        destruct (in_dec Nat.eq_dec i vis) as [Hv|Hv]; [left; now apply I7|right].
        apply A6; auto. now apply (v_all _ _ _ _ _ V).
      * intros m Hm. apply (A7 m Hm). now apply I8.
    + assert (Q : exists u, In u beam /\ graph u = None).
      { clear - X. revert vis X. induction beam as [|b beam IH]; intros vis X; cbn [expand_beam] in X;
          [discriminate|].
        destruct (graph b) as [ns|] eqn:G; [|exists b; split; [now left|exact G]].
        destruct (visit_all dist vis ns) as [v1 o1].
        destruct (expand_beam graph dist v1 beam) as [[v2 o2]|] eqn:Y; [discriminate|].
        destruct (IH _ Y) as (u & Hu & Gu). exists u. split; [now right|exact Gu]. }
      destruct Q as (u & Hu & Gu). exists u. split; [|exact Gu].
      destruct I as [I1 I2 I3 I4 I5 I6 I7 I8]. apply I6.
      assert (In u (map n_id ir)) by (apply I4; rewrite SPL; apply in_or_app; now left).
      apply in_map_iff in H. destruct H as (x & <- & Hx). now apply I3.
Qed.

Lemma range_loop_fuel univ : NoDup univ ->
  (forall u v, In u univ -> edge graph u v -> In v univ) -> r_bw p <> 0 ->
  forall fuel vis ir fr cmps hops, incl fr univ -> fresh univ vis + length fr <= fuel ->
  range_loop graph dist fuel p vis ir fr cmps hops <> SFuel.
Proof.
  intros ND HC Hb. induction fuel as [|fuel IH]; intros vis ir fr cmps hops HF Hm;
    cbn [range_loop]; (destruct fr as [|f fr]; [discriminate|]).
  - cbn in Hm. lia.
  - destruct (room p (length ir)); [|discriminate]. cbv zeta.
    assert (LB : length (skipn (r_bw p) (f :: fr)) < length (f :: fr)) by (rewrite skipn_length; cbn [length]; lia).
    set (F := f :: fr) in *. clearbody F.
    assert (SB : incl (firstn (r_bw p) F) univ) by (intros i Hi; apply HF; eapply in_firstn; eauto).
    assert (SF : incl (skipn (r_bw p) F) univ) by (intros i Hi; apply HF; eapply in_skipn; eauto).
    destruct (expand_beam graph dist vis (firstn (r_bw p) F)) as [[vis1 ns]|] eqn:X; [|discriminate].
    destruct (expand_beam_spec _ _ _ _ _ _ X) as [V G].
    destruct (absorb p ir (skipn (r_bw p) F) ns) as [ir1 fr1] eqn:A.
    destruct (absorb_spec _ _ _ _ _ A) as (added & A1 & A2 & A3 & A4 & A5 & A6 & A7 & A8).
    assert (NU : forall x, In x ns -> In (n_id x) univ).
    { intros x Hx. destruct (v_new _ _ _ _ _ V x Hx) as (N1 & N2 & _).
      apply (v_mem _ _ _ _ _ V) in N2. destruct N2 as [|(u & Hu & He)]; [contradiction|].
      eapply HC; [|exact He]. now apply SB. }
    pose proof (fresh_drop dist univ vis vis1 ns _ ND V NU) as FD.
    apply IH.
    + rewrite A2. intros i Hi. apply in_app_or in Hi. destruct Hi as [Hi|Hi]; [auto|].
      apply in_map_iff in Hi. destruct Hi as (x & <- & Hx). auto.
    + rewrite A2, app_length, map_length. lia.
Qed.
End range.

Section main.
Variable graph : nat -> option (list nat).
Variable dist : nat -> option f32.

Lemma first_spec fuel p stop starts best st rec : 0 < r_l p -> NoDup starts ->
  knn graph dist fuel (r_l p) (r_bw p) stop starts = SOk (best, st, rec) ->
  let first := filter (fun x => f32_le (n_dist x) (r_radius p)) (firstn (r_l p) best) in
  NoDup (map n_id first) /\ length first <= r_l p /\
  (forall x, In x first -> scored dist x /\ reach graph starts (n_id x) /\
     f32_le (n_dist x) (r_radius p) = true).
Proof.
  intros Hl ND H first. assert (HL : 0 < r_l p + length starts) by lia.
  pose proof (knn_spec graph dist fuel (r_l p) (r_bw p) stop starts HL ND) as KS.
  cbv zeta in KS. rewrite H in KS. destruct KS as (E & ops & rest & K & -> & _).
  destruct (knn_best _ _ _ _ _ _ _ _ _ HL K) as (others & P & _).
  set (res := map e_nbr (firstn (r_l p + length starts) E)) in *.
  assert (IN : forall x, In x res -> In x (inserted ops)).
  { intros x Hx. apply in_valid. eapply Permutation_in; [symmetry; exact P|]. apply in_or_app. now left. }
  assert (ND1 : NoDup (map n_id res)).
  { assert (N : NoDup (map n_id (res ++ others))).
    { eapply NoDup_map_perm_ids; [exact P|]. apply NoDup_valid_ids. apply (k_vis _ _ _ _ _ _ _ _ _ K). }
    rewrite map_app in N. now apply NoDup_app_inv in N. }
  split; [|split].
  - unfold first. rewrite <- (firstn_skipn (r_l p) res), map_app in ND1.
    apply NoDup_app_inv in ND1. destruct ND1 as (ND1 & _).
    clear - ND1. induction (firstn (r_l p) res) as [|x l IH]; cbn; [constructor|].
    inv ND1. destruct (f32_le (n_dist x) (r_radius p)); cbn; auto. constructor; auto.
    intros X. apply H1. apply in_map_iff in X. destruct X as (y & <- & Hy). apply filter_In in Hy.
    apply in_map. tauto.
  - unfold first. pose proof (filter_le (fun x => f32_le (n_dist x) (r_radius p)) (fun _ => true)
      (firstn (r_l p) res)) as F.
    assert (T : filter (fun _ : nbr => true) (firstn (r_l p) res) = firstn (r_l p) res).
    { clear. induction (firstn (r_l p) res); cbn; congruence. }
    rewrite T, firstn_length in F. specialize (F ltac:(auto)). lia.
  - intros x Hx. apply filter_In in Hx. destruct Hx as [Hx Hr]. apply in_firstn in Hx.
    destruct (v_new _ _ _ _ _ (k_vis _ _ _ _ _ _ _ _ _ K) x (IN x Hx)) as (_ & N2 & N3).
    split; [exact N3|]. split; [|exact Hr]. now apply (k_reach _ _ _ _ _ _ _ _ _ K).
Qed.

Lemma first_inv p starts first : range_valid p = true ->
  NoDup (map n_id first) -> length first <= r_l p ->
  (forall x, In x first -> scored dist x /\ reach graph starts (n_id x) /\
     f32_le (n_dist x) (r_radius p) = true) ->
  RInv graph dist p starts first (map n_id first) first (map n_id first).
Proof.
  intros HV ND HL HF. constructor.
  - exists []. rewrite app_nil_r. split; [reflexivity|]. intros x [].
  - exact ND.
  - intros x Hx. split; [now apply in_map|]. now apply HF.
  - auto.
  - intros x j Hx _. left. now apply in_map.
  - intros i Hi. apply in_map_iff in Hi. destruct Hi as (x & <- & Hx). now apply HF.
  - intros _ i d Hi Hd _. apply in_map_iff in Hi. destruct Hi as (x & <- & Hx).
    destruct (HF x Hx) as (S & _). unfold scored in S. rewrite S in Hd. inv Hd. now destruct x.
  - intros m Hm. unfold range_valid in HV. rewrite Hm in HV.
    apply andb_prop in HV. destruct HV as [HV _]. apply andb_prop in HV. destruct HV as [_ HV].
    apply Nat.leb_le in HV. lia.
Qed.

Lemma range_valid_pos p : range_valid p = true -> 0 < r_l p /\ r_bw p <> 0.
Proof.
  unfold range_valid. intros H. repeat (apply andb_prop in H; destruct H as [H ?]).
  apply Nat.ltb_lt in H, H2. lia.
Qed.

Lemma range_spec fuel fuel2 p stop starts : range_valid p = true -> NoDup starts ->
  match range_search graph dist fuel fuel2 p stop starts with
  | SOk o => exists vis fr, RInv graph dist p starts (ro_first o) vis (ro_internal o) fr /\
      ro_results o = filter (fun x => range_accept p (n_dist x)) (ro_internal o) /\
      (ro_second o = true -> room p (length (ro_internal o)) = true -> fr = [])
  | SErr => (exists s, In s starts /\ dist s = None) \/
            (exists x, reach graph starts x /\ graph x = None)
  | SPanic => False
  | SFuel => True
  end.
Proof.
  intros HV ND. destruct (range_valid_pos p HV) as [Hl Hb]. unfold range_search.
  pose proof (knn_spec graph dist fuel (r_l p) (r_bw p) stop starts ltac:(lia) ND) as KS.
  cbv zeta in KS.
  destruct (knn graph dist fuel (r_l p) (r_bw p) stop starts) as [[[best st] rec]| | |] eqn:KE; auto.
  destruct (first_spec fuel p stop starts best st rec Hl ND KE) as (F1 & F2 & F3).
  set (first := filter (fun x => f32_le (n_dist x) (r_radius p)) (firstn (r_l p) best)) in *.
  clearbody first. pose proof (first_inv p starts first HV F1 F2 F3) as I.
  destruct ((r_enough p <=? length first) && room p (length first)) eqn:B.
  - pose proof (range_loop_spec graph dist p starts first fuel2 _ _ _ (s_cmps st) (s_hops st) I Hb) as RL.
    destruct (range_loop graph dist fuel2 p (map n_id first) first (map n_id first) (s_cmps st) (s_hops st))
      as [[[all c] h]| | |]; auto.
    destruct RL as (vis & fr & RI & HR). exists vis, fr. cbn. auto.
  - exists (map n_id first), (map n_id first). cbn. split; [exact I|]. split; [reflexivity|discriminate].
Qed.

Lemma range_fuel fuel fuel2 p stop starts univ : range_valid p = true -> NoDup starts ->
  finite_index graph starts univ -> length univ <= fuel -> length univ <= fuel2 ->
  range_search graph dist fuel fuel2 p stop starts <> SFuel.
Proof.
  intros HV ND FI Hf Hf2. destruct (range_valid_pos p HV) as [Hl Hb]. unfold range_search.
  pose proof (knn_fuel graph dist fuel (r_l p) (r_bw p) stop starts univ ltac:(lia) Hb ND FI Hf) as KF.
  destruct (knn graph dist fuel (r_l p) (r_bw p) stop starts) as [[[best st] rec]| | |] eqn:KE;
    try discriminate; [|congruence].
  destruct (first_spec fuel p stop starts best st rec Hl ND KE) as (F1 & F2 & F3).
  set (first := filter (fun x => f32_le (n_dist x) (r_radius p)) (firstn (r_l p) best)) in *.
  clearbody first. destruct ((r_enough p <=? length first) && room p (length first)); [|discriminate].
  destruct FI as [FI1 FI2].
  set (U := nodup Nat.eq_dec univ).
  assert (HU : NoDup U) by apply NoDup_nodup.
  assert (IU : forall i, In i U <-> In i univ) by (intros i; apply nodup_In).
  assert (LU : length U <= length univ).
  { apply NoDup_incl_length; [exact HU|]. intros i. apply IU. }
  assert (RU : incl (map n_id first) U).
  { intros i Hi. apply in_map_iff in Hi. destruct Hi as (x & <- & Hx).
    destruct (F3 x Hx) as (_ & R & _). apply IU. induction R; [now apply FI1|eauto]. }
  assert (N : range_loop graph dist fuel2 p (map n_id first) first (map n_id first) (s_cmps st) (s_hops st) <> SFuel).
  { apply (range_loop_fuel graph dist p U HU); auto.
    - intros u v Hu He. apply IU in Hu. apply IU. eauto.
    - assert (F : fresh U (map n_id first) + length (map n_id first) <= length U); [|lia].
      unfold fresh. rewrite <- app_length. apply NoDup_incl_length.
      + apply NoDup_app_intro; [now apply NoDup_filter|exact F1|].
        intros i H1 H2. apply filter_In in H1. destruct H1 as [_ H1].
        apply negb_true_iff, seen_false in H1. contradiction.
      + intros i Hi. apply in_app_or in Hi. destruct Hi as [Hi|Hi]; [apply filter_In in Hi; tauto|auto]. }
  destruct (range_loop graph dist fuel2 p (map n_id first) first (map n_id first) (s_cmps st) (s_hops st))
    as [[[all c] h]| | |]; congruence.
Qed.
End main.
