(** Paged search. *)
From Verif.Lib Require Import Base Lists F32.
From Verif.Search Require Import Model Spec Proofs ProofsKnn.
From Verif.Queue Require Import Proofs.

Lemma drain_wf s q E c : WFg s q E -> WFg false (pq_drain_best q c) (skipn c E).
Proof.
  intros [[Ri Rd Rs] Wc Wn Ws Wb Wv Wu Wp WL]. unfold pq_drain_best.
  assert (SK : forall A (l : list A), length l = length E ->
    skipn (Nat.min c (length E)) l = skipn c l).
  { intros A l Hl. destruct (Nat.le_gt_cases c (length E)); [f_equal; lia|].
    rewrite !skipn_all2 by lia. reflexivity. }
  constructor; cbn [q_cap q_cur q_auto q_L q_size].
  - constructor; cbn [q_idv q_dist q_size]; rewrite Rs.
    + rewrite Ri, SK by (now rewrite map_length). now rewrite skipn_map'.
    + rewrite Rd, SK by (now rewrite map_length). now rewrite skipn_map'.
    + rewrite skipn_length. lia.
  - rewrite skipn_length. lia.
  - apply Forall_forall. intros e He. rewrite Forall_forall in Wn. apply Wn. eapply in_skipn; eauto.
  - now apply ss_skipn.
  - lia.
  - lia.
  - discriminate.
  - exact Wp.
  - exact WL.
Qed.

Lemma drain_auto q c : q_auto (pq_drain_best q c) = q_auto q /\ q_L (pq_drain_best q c) = q_L q.
Proof. split; reflexivity. Qed.

(** The candidates of a page are the first [total] entries without the start points. *)
Definition nonstart (starts : list nat) (x : nbr) : bool := negb (seen (n_id x) starts).

Lemma filter_candidates_spec starts page best : forall total cands cands' total',
  length cands < page ->
  filter_candidates starts page total cands best = (cands', total') ->
  exists n, total' = total + n /\ n <= length best /\
    cands' = cands ++ filter (nonstart starts) (firstn n best) /\ length cands' <= page /\
    (n < length best -> length cands' = page).
Proof.
  induction best as [|b best IH]; intros total cands cands' total' Hl H; cbn [filter_candidates] in H.
  - injection H as <- <-. exists 0. cbn. rewrite app_nil_r. repeat split; lia.
  - destruct (seen (n_id b) starts) eqn:Sb.
    + destruct (IH _ _ _ _ Hl H) as (n & A1 & A2 & A3 & A4 & A5).
      exists (S n). cbn [firstn filter length]. unfold nonstart at 1. rewrite Sb. cbn [negb].
      split; [lia|]. split; [lia|]. split; [exact A3|]. split; [exact A4|]. intros. apply A5. lia.
    + cbv zeta in H. destruct (Nat.leb_spec page (length (cands ++ [b]))) as [P|P].
      * injection H as <- <-. exists 1. cbn [firstn filter length]. unfold nonstart. rewrite Sb.
        cbn [negb firstn filter]. rewrite app_length in *. cbn in *.
        split; [lia|]. split; [lia|]. split; [reflexivity|]. split; lia.
      * destruct (IH _ _ _ _ P H) as (n & A1 & A2 & A3 & A4 & A5).
        exists (S n). cbn [firstn filter length]. unfold nonstart at 1. rewrite Sb. cbn [negb].
        rewrite <- app_assoc in A3. split; [lia|]. split; [lia|]. split; [exact A3|].
        split; [exact A4|]. intros. apply A5. lia.
Qed.

Section paged.
Variable graph : nat -> option (list nat).
Variable dist : nat -> option f32.
Variables starts init : list nat.
Variable l : nat.
Hypothesis Hl : 0 < l.
Hypothesis ND : NoDup starts.

Definition roots : list nat := init ++ starts.

(** [never]: no accessor asked for early termination. *)
Record PI (never : Prop) (st : sst) (E : list ent) (gone : list nbr) : Prop := {
  pi_wf : WFg false (s_best st) E;
  pi_auto : q_auto (s_best st) = true;
  pi_L : q_L (s_best st) = l + length starts;
  pi_nodup : NoDup (map n_id (gone ++ map e_nbr E));
  pi_seen : forall x, In x (gone ++ map e_nbr E) ->
      In (n_id x) (s_vis st) /\ scored dist x /\ ~ In (n_id x) init;
  pi_all : forall i d, In i (s_vis st) -> ~ In i init -> dist i = Some d -> is_nan d = false ->
      In (mkNbr i d) (gone ++ map e_nbr E);
  pi_init : incl init (s_vis st);
  pi_initx : forall i j, In i init -> edge graph i j -> In j (s_vis st);
  pi_reach : forall i, In i (s_vis st) -> reach graph roots i;
  pi_gone : never -> forall x j, In x gone -> edge graph (n_id x) j -> In j (s_vis st);
  pi_vis : forall e j, In e E -> e_vis e = true -> edge graph (e_id e) j -> In j (s_vis st)
}.

Lemma pi_step never st E gone st' E' ops rest rec : PI never st E gone ->
  QRun false (s_best st) E ops (s_best st') E' rest rec ->
  Visits dist (s_vis st) (s_vis st') (inserted ops) (fun i => In i (s_vis st')) ->
  (forall i, In i (s_vis st') -> reach graph roots i) ->
  (forall x j, In x rec -> edge graph (n_id x) j -> In j (s_vis st')) ->
  PI never st' E' gone.
Proof.
  intros [A B C D F G H0 H I J K] R V HR HX.
  pose proof (qr_auto _ _ _ _ _ _ _ _ R B) as RE. subst rest.
  pose proof (qr_perm _ _ _ _ _ _ _ _ R) as P. rewrite app_nil_r in P.
  assert (SUB : forall i, In i (s_vis st) -> In i (s_vis st')).
  { intros i Hi. apply (v_mem _ _ _ _ _ V). now left. }
  assert (PG : Permutation ((gone ++ map e_nbr E) ++ valid (inserted ops)) (gone ++ map e_nbr E')).
  { rewrite <- app_assoc. now rewrite P. }
  constructor.
  - exact (qr_wf _ _ _ _ _ _ _ _ R).
  - now rewrite (qr_a _ _ _ _ _ _ _ _ R).
  - now rewrite (qr_L _ _ _ _ _ _ _ _ R).
  - eapply NoDup_map_perm_ids; [exact PG|]. rewrite map_app. apply NoDup_app_intro; [exact D| |].
    + apply NoDup_valid_ids, V.
    + intros i H1 H2. apply in_map_iff in H1, H2. destruct H1 as (x & <- & Hx), H2 as (y & Ey & Hy).
      apply in_valid in Hy. apply (proj1 (v_new _ _ _ _ _ V y Hy)). rewrite Ey. now apply F.
  - intros x Hx. apply (Permutation_in _ (Permutation_sym PG)) in Hx. apply in_app_or in Hx.
    destruct Hx as [Hx|Hx].
    + destruct (F x Hx) as (F1 & F2 & F3). auto.
    + apply in_valid in Hx. destruct (v_new _ _ _ _ _ V x Hx) as (N1 & N2 & N3).
      split; [exact N2|]. split; [exact N3|]. intros Hi. apply N1. now apply H0.
  - intros i d Hi Hn Hd Hq. apply (Permutation_in _ PG). apply in_or_app.
    destruct (in_dec Nat.eq_dec i (s_vis st)) as [Hv|Hv]; [left; now apply G|right].
    apply filter_In. cbn. rewrite Hq. split; [|reflexivity]. now apply (v_all _ _ _ _ _ V).
  - intros i Hi. apply SUB. now apply H0.
  - intros i j Hi He. apply SUB. eauto.
  - exact HR.
  - intros HN x j Hx He. apply SUB. eauto.
  - intros e j He Hv Hj. destruct (qr_vis _ _ _ _ _ _ _ _ R e He Hv) as [Ho|(e0 & He0 & Eq & Hv0)].
    + eapply HX; [exact Ho|exact Hj].
    + apply SUB. apply (K e0); auto. assert (e_id e0 = e_id e) by now injection Eq. congruence.
Qed.

Lemma pi_internal never fuel stop st E gone : PI never st E gone ->
  match search_internal graph dist fuel 1 stop starts st with
  | SOk (st', rec) => exists E', PI never st' E' gone /\
      ((forall k, stop k = false) -> has_notvisited (s_best st') = false) /\
      (E = [] -> s_vis st <> [] -> E' = [])
  | SErr => (exists s, In s starts /\ dist s = None) \/
            (exists x, reach graph roots x /\ graph x = None)
  | SPanic => False
  | SFuel => True
  end.
Proof.
  intros I. unfold search_internal.
  assert (S0 : match search_init dist starts st with
    | SOk st1 => exists E1, PI never st1 E1 gone /\ (E = [] -> s_vis st <> [] -> E1 = [])
    | SErr => exists s, In s starts /\ dist s = None | _ => False end).
  { unfold search_init. destruct (s_vis st) as [|v vs] eqn:Ev.
    - pose proof (start_dists_spec graph dist starts ND) as SD.
      destruct (start_dists dist starts) as [xs|]; [|exact SD]. destruct SD as [V MX].
      destruct (insert_all_run false xs (s_best st) E (pi_wf _ _ _ _ I)) as (q & E1 & rest & Ia & R).
      rewrite Ia. exists E1. split; [|intros _ Hc; congruence].
      eapply (pi_step never st E gone (mkSst q (rev starts) _ _) E1); [exact I|exact R| | |].
      + cbn [s_vis]. rewrite inserted_map, Ev. eapply visits_ext; [|exact V].
        intros i. now rewrite <- in_rev.
      + cbn [s_vis]. intros i Hi. apply reach_start. apply in_or_app. right. now apply in_rev.
      + intros x j [].
    - exists E. split; [exact I|auto]. }
  destruct (search_init dist starts st) as [st1| | |]; try contradiction; [|now left].
  destruct S0 as (E1 & I1 & HE1).
  pose proof (loop_trace graph dist false 1 stop fuel 0 st1 E1 (pi_wf _ _ _ _ I1)) as LT.
  assert (RE : forall e, In e E1 -> reach graph roots (e_id e)).
  { intros e He. apply (pi_reach _ _ _ _ I1).
    apply (pi_seen _ _ _ _ I1 (e_nbr e)). apply in_or_app. right. now apply in_map. }
  destruct (search_loop graph dist fuel 1 stop 0 st1) as [[st' rec]| | |] eqn:SL; auto.
  - destruct LT as (E' & ops & rest & T & HN). exists E'. split; [|split; [exact HN|]].
    + destruct (t_closed _ _ _ _ _ _ _ _ _ _ T (reach graph roots) (reach_closed graph roots) RE) as (K1 & K2 & K3).
      pose proof (t_vis _ _ _ _ _ _ _ _ _ _ T) as V.
      eapply (pi_step never st1 E1 gone st' E'); [exact I1|exact (t_run _ _ _ _ _ _ _ _ _ _ T)| | |].
      * destruct V as [V1 V2 V3 V4]. constructor; auto. intros i. rewrite V1. tauto.
      * intros i Hi. destruct (K1 i Hi) as [Hi'|]; [|assumption]. now apply (pi_reach _ _ _ _ I1).
      * intros x j Hx He. apply (v_mem _ _ _ _ _ V). right. exists x. auto.
    + intros He Hv. specialize (HE1 He Hv). subst E1.
      (* an empty queue: the loop does nothing *)
      assert (HV : has_notvisited (s_best st1) = false).
      { unfold has_notvisited. rewrite (r_size _ _ (w_rel _ _ (pi_wf _ _ _ _ I1))). cbn.
        rewrite Nat.min_0_r. reflexivity. }
      assert (st' = st1).
      { destruct fuel; cbn [search_loop] in SL; rewrite HV in SL; cbn in SL; congruence. }
      subst st'. pose proof (w_rel _ _ (qr_wf _ _ _ _ _ _ _ _ (t_run _ _ _ _ _ _ _ _ _ _ T))) as Rl.
      pose proof (r_size _ _ Rl) as L1.
      rewrite (r_size _ _ (w_rel _ _ (pi_wf _ _ _ _ I1))) in L1. cbn in L1.
      destruct E'; [reflexivity|discriminate].
  - right. destruct LT as (x & Gx & Hx). exists x. split; [|exact Gx].
    apply Hx; [apply reach_closed|exact RE].
Qed.

Lemma pi_drain never st E gone n : PI never st E gone ->
  (never -> forall e, In e (firstn n E) -> e_vis e = true) ->
  PI never (mkSst (pq_drain_best (s_best st) n) (s_vis st) (s_cmps st) (s_hops st))
     (skipn n E) (gone ++ map e_nbr (firstn n E)).
Proof.
  intros [A B C D F G H0 H I J K] HV.
  assert (EQ : (gone ++ map e_nbr (firstn n E)) ++ map e_nbr (skipn n E) = gone ++ map e_nbr E)
    by (now rewrite <- app_assoc, <- map_app, firstn_skipn).
  constructor; cbn [s_best s_vis]; auto; try (rewrite EQ; auto).
  - eapply drain_wf; eauto.
  - intros Hn x j Hx He. apply in_app_or in Hx. destruct Hx as [Hx|Hx]; [eauto|].
    apply in_map_iff in Hx. destruct Hx as (e & <- & Hin). apply (K e); auto.
    eapply in_firstn; eauto.
  - intros e j Hin. apply K. eapply in_skipn; eauto.
Qed.

(** The state between pages. *)
Record PP (never : Prop) (p : paged) (E : list ent) (gone : list nbr) : Prop := {
  pp_inv : PI never (p_st p) E gone;
  pp_l : p_l p = l;
  pp_cache : p_next p = length (p_computed p)
}.

Lemma filter_starts_bound (xs : list nbr) : NoDup (map n_id xs) ->
  length xs <= length (filter (nonstart starts) xs) + length starts.
Proof.
  intros N.
  assert (X : length xs = length (filter (nonstart starts) xs) +
                          length (filter (fun x => negb (nonstart starts x)) xs)).
  { clear N. induction xs as [|x xs IH]; cbn; [reflexivity|].
    destruct (nonstart starts x); cbn; lia. }
  assert (Y : length (filter (fun x => negb (nonstart starts x)) xs) <= length starts); [|lia].
  rewrite <- (map_length n_id). apply NoDup_incl_length.
  - clear - N. induction xs as [|x xs IH]; cbn; [constructor|]. inv N.
    destruct (negb (nonstart starts x)); cbn; auto. constructor; auto.
    intros X. apply H1. apply in_map_iff in X. destruct X as (y & <- & Hy). apply filter_In in Hy.
    apply in_map. tauto.
  - intros i Hi. apply in_map_iff in Hi. destruct Hi as (x & <- & Hx). apply filter_In in Hx.
    destruct Hx as [_ Hx]. unfold nonstart in Hx. rewrite negb_involutive in Hx. now apply seen_spec.
Qed.

Lemma next_page_spec never fuel stop k p E gone : PP never p E gone ->
  (never -> forall n, stop n = false) ->
  match next_page graph dist fuel stop starts k p with
  | SOk (p', page) => exists E' n Em, PP never p' E' (gone ++ map e_nbr (firstn n Em)) /\
      PI never (mkSst (s_best (p_st p)) (s_vis (p_st p)) (s_cmps (p_st p)) (s_hops (p_st p))) E gone /\
      page = filter (nonstart starts) (map e_nbr (firstn n Em)) /\
      length page <= k /\ StronglySorted ele Em /\
      Forall (fun e => is_nan (e_d e) = false) Em /\
      (length page < k -> E' = []) /\
      (E = [] -> s_vis (p_st p) <> [] -> page = [] /\ E' = []) /\
      incl (s_vis (p_st p)) (s_vis (p_st p'))
  | SErr => k = 0 \/ l < k \/ (exists s, In s starts /\ dist s = None) \/
            (exists x, reach graph roots x /\ graph x = None)
  | SPanic => False
  | SFuel => True
  end.
Proof.
  intros [I PL PC] HS. unfold next_page. rewrite PL.
  destruct (Nat.ltb_spec l k); [auto|]. destruct (Nat.eqb_spec k 0); [auto|].
  rewrite PC, Nat.sub_diag, Nat.min_0_r. cbn [firstn Nat.ltb Nat.leb andb length app].
  pose proof (pi_internal never fuel stop (p_st p) E gone I) as SI.
  assert (MONO : forall st' rec, search_internal graph dist fuel 1 stop starts (p_st p) = SOk (st', rec) ->
     incl (s_vis (p_st p)) (s_vis st')).
  { intros st' rec HH. unfold search_internal in HH.
    destruct (s_vis (p_st p)) as [|v vs] eqn:Ev; [intros i []|].
    assert (IN : search_init dist starts (p_st p) = SOk (p_st p)) by (unfold search_init; now rewrite Ev).
    rewrite IN in HH.
    pose proof (loop_trace graph dist false 1 stop fuel 0 (p_st p) E (pi_wf _ _ _ _ I)) as LT.
    rewrite HH in LT. destruct LT as (E' & ops & rest & T & _).
    intros i Hi. apply (v_mem _ _ _ _ _ (t_vis _ _ _ _ _ _ _ _ _ _ T)). left. now rewrite Ev. }
  destruct (search_internal graph dist fuel 1 stop starts (p_st p)) as [[st' rec]| | |] eqn:SE; auto.
  destruct SI as (E1 & I1 & HN & HE). specialize (MONO _ _ eq_refl).
  pose proof (pi_wf _ _ _ _ I1) as W1.
  rewrite (iter_spec _ E1 (w_rel _ _ W1)), (pi_L _ _ _ _ I1).
  set (L := l + length starts) in *.
  destruct (filter_candidates starts k 0 [] (map e_nbr (firstn L E1))) as [cands total] eqn:FC.
  destruct (filter_candidates_spec starts k _ 0 [] cands total ltac:(cbn; lia) FC) as (n' & A1 & A2 & A3 & A4 & A5).
  cbn [app plus] in A1, A3. subst n'. rewrite map_length, firstn_length in A2, A5.
  assert (F2 : firstn total (map e_nbr (firstn L E1)) = map e_nbr (firstn total E1)).
  { rewrite firstn_map, firstn_firstn. do 2 f_equal. lia. }
  rewrite F2 in A3.
  assert (PG : firstn (Nat.min (k - 0) (length cands)) cands = cands).
  { apply firstn_all2. rewrite Nat.sub_0_r. lia. }
  rewrite PG.
  assert (VIS : never -> forall e, In e (firstn total E1) -> e_vis e = true).
  { intros Hn e He. specialize (HN (HS Hn)). unfold has_notvisited in HN. apply Nat.ltb_ge in HN.
    rewrite (r_size _ _ (w_rel _ _ W1)), (pi_L _ _ _ _ I1) in HN. fold L in HN.
    apply In_nth_error in He. destruct He as (i & Hi).
    pose proof (nth_error_lt _ _ _ Hi) as Lt. rewrite firstn_length in Lt.
    rewrite nth_error_firstn' in Hi by lia. apply (w_vis _ _ W1 i e); [lia|exact Hi]. }
  exists (skipn total E1), total, E1.
  split; [|split; [|split; [|split; [|split; [|split; [|split; [|split]]]]]]].
  - constructor; cbn [p_st p_l p_next p_computed]; auto.
    + now apply pi_drain.
    + rewrite Nat.sub_0_r. lia.
  - destruct (p_st p); exact I.
  - exact A3.
  - exact A4.
  - exact (w_sort _ _ W1).
  - exact (w_nan _ _ W1).
  - intros Hlt.
    assert (Hfull : total = Nat.min L (length E1)) by lia.
    destruct (Nat.le_gt_cases (length E1) L) as [Hle|Hgt].
    + apply skipn_all2. lia.
    + exfalso.
      assert (NDF : NoDup (map n_id (map e_nbr (firstn total E1)))).
      { pose proof (pi_nodup _ _ _ _ I1) as N. rewrite map_app in N. apply NoDup_app_inv in N.
        destruct N as (_ & N & _). rewrite <- (firstn_skipn total E1), !map_app in N.
        now apply NoDup_app_inv in N. }
      pose proof (filter_starts_bound _ NDF) as FB. rewrite <- A3, map_length, firstn_length in FB.
      unfold L in *. lia.
  - intros He Hv. specialize (HE He Hv). subst E1. rewrite firstn_nil, skipn_nil in *.
    rewrite A3. auto.
  - exact MONO.
Qed.
End paged.

Lemma nonstart_in starts x : nonstart starts x = true <-> ~ In (n_id x) starts.
Proof. unfold nonstart. rewrite negb_true_iff. apply seen_false. Qed.

Section all_pages.
Variable graph : nat -> option (list nat).
Variable dist : nat -> option f32.
Variables starts init : list nat.
Variable l : nat.
Hypothesis Hl : 0 < l.
Hypothesis ND : NoDup starts.
Notation PP := (PP graph dist starts init l).

Lemma pages_spec (never : Prop) fuel stop : (never -> forall n, stop n = false) ->
  forall ks p E gone, PP never p E gone ->
  match pages graph dist fuel stop starts ks p with
  | SOk (p', pgs) => exists E' taken, PP never p' E' (gone ++ taken) /\
      concat pgs = filter (nonstart starts) taken /\
      Forall2 (fun k pg => length pg <= k) ks pgs /\
      Forall (StronglySorted closer) pgs /\
      (E = [] -> s_vis (p_st p) <> [] -> Forall (fun pg => pg = []) pgs) /\
      incl (s_vis (p_st p)) (s_vis (p_st p'))
  | SErr => (exists k, In k ks /\ (k = 0 \/ l < k)) \/ (exists s, In s starts /\ dist s = None) \/
            (exists x, reach graph (roots starts init) x /\ graph x = None)
  | SPanic => False
  | SFuel => True
  end.
Proof.
  intros HS. induction ks as [|k ks IH]; intros p E gone PI; cbn [pages].
  - exists E, []. rewrite app_nil_r. split; [exact PI|]. split; [reflexivity|].
    split; [constructor|]. split; [constructor|]. split; [intros; constructor|]. intros i Hi. exact Hi.
  - pose proof (next_page_spec graph dist starts init l Hl ND never fuel stop k p E gone PI HS) as NP.
    destruct (next_page graph dist fuel stop starts k p) as [[p1 page]| | |]; auto.
    + destruct NP as (E1 & n & Em & P1 & _ & PG & LK & SS & NN & _ & HE & MO).
      specialize (IH p1 E1 _ P1).
      destruct (pages graph dist fuel stop starts ks p1) as [[p2 rest]| | |]; auto.
      * destruct IH as (E2 & taken & P2 & C2 & F2 & S2 & H2 & M2).
        exists E2, (map e_nbr (firstn n Em) ++ taken). rewrite app_assoc. split; [exact P2|].
        split; [cbn [concat]; rewrite filter_app, C2, PG; reflexivity|].
        split; [constructor; auto|].
        split; [|split].
        -- constructor; auto. rewrite PG. rewrite <- firstn_map.
           assert (SM : StronglySorted closer (map e_nbr Em)) by now apply map_nbr_sorted.
           assert (SF : StronglySorted closer (firstn n (map e_nbr Em))).
           { clear - SM. revert n. induction SM as [|x l0 S IH F]; intros [|n]; cbn; constructor; auto.
             apply Forall_firstn'. exact F. }
           clear - SF. induction SF as [|x l0 S IH F]; cbn; [constructor|].
           destruct (nonstart starts x); auto. constructor; auto.
           apply Forall_forall. intros y Hy. apply filter_In in Hy. rewrite Forall_forall in F.
           apply F. tauto.
        -- intros He Hv. destruct (HE He Hv) as [-> He1]. constructor; [reflexivity|].
           apply H2; [exact He1|]. intros Hn. apply Hv. destruct (s_vis (p_st p)) as [|v vs]; [reflexivity|].
           exfalso. specialize (MO v (or_introl eq_refl)). rewrite Hn in MO. destruct MO.
        -- intros i Hi. auto.
      * destruct IH as [(k' & Hk & B)|[IH|IH]]; auto. left. exists k'. split; [now right|exact B].
    + destruct NP as [->|[B|[B|B]]]; auto.
      * left. exists 0. split; [now left|auto].
      * left. exists k. split; [now left|auto].
Qed.

Lemma paged_new_spec init0 : init = match init0 with Some i => i | None => starts end ->
  match paged_new graph dist l starts init0 with
  | SOk p => exists E, forall never, PP never p E []
  | SErr => exists x, In x init /\ graph x = None
  | SPanic => False
  | SFuel => False
  end.
Proof.
  intros Hi. unfold paged_new. rewrite <- Hi. clear Hi init0. cbv zeta.
  destruct (expand_beam graph dist (rev init) init) as [[vis ns]|] eqn:X.
  - destruct (expand_beam_spec _ _ _ _ _ _ X) as [V G].
    pose proof (new_wf (l + length starts) true ltac:(lia)) as W0. cbn [new_wf] in W0.
    destruct (insert_all_run false ns (pq_new_auto (l + length starts)) []
                (wf_weaken false _ _ W0)) as (q & E & rest & I & R).
    rewrite I. exists E. intros never.
    pose proof (qr_auto _ _ _ _ _ _ _ _ R eq_refl) as RE. subst rest.
    pose proof (qr_perm _ _ _ _ _ _ _ _ R) as P. rewrite app_nil_r, inserted_map in P. cbn [map app] in P.
    constructor; cbn [p_st p_l p_next p_computed]; [|reflexivity|now rewrite repeat_length].
    constructor; cbn [s_best s_vis app].
    + exact (qr_wf _ _ _ _ _ _ _ _ R).
    + now rewrite (qr_a _ _ _ _ _ _ _ _ R).
    + now rewrite (qr_L _ _ _ _ _ _ _ _ R).
    + eapply NoDup_map_perm_ids; [exact P|]. apply NoDup_valid_ids, V.
    + intros x Hx. apply (Permutation_in _ (Permutation_sym P)), in_valid in Hx.
      destruct (v_new _ _ _ _ _ V x Hx) as (N1 & N2 & N3). split; [exact N2|]. split; [exact N3|].
      now rewrite <- in_rev in N1.
    + intros i d Hi Hn Hd Hq. apply (Permutation_in _ P). apply filter_In. cbn. rewrite Hq.
      split; [|reflexivity]. apply (v_all _ _ _ _ _ V); auto. now rewrite <- in_rev.
    + intros i Hi. apply (v_mem _ _ _ _ _ V). left. now rewrite <- in_rev.
    + intros i j Hi He. apply (v_mem _ _ _ _ _ V). right. eauto.
    + intros i Hi. apply (v_mem _ _ _ _ _ V) in Hi. destruct Hi as [Hi|(u & Hu & He)].
      * apply reach_start. apply in_or_app. left. now apply in_rev.
      * eapply reach_edge; [|exact He]. apply reach_start. apply in_or_app. now left.
    + intros _ x j [].
    + intros e j He Hv _. destruct (qr_vis _ _ _ _ _ _ _ _ R e He Hv) as [[]|(e0 & [] & _)].
  - assert (Q : forall v, expand_beam graph dist v init = None -> exists u, In u init /\ graph u = None).
    { clear. induction init as [|b bs IH]; intros v X; cbn [expand_beam] in X; [discriminate|].
      destruct (graph b) as [ns|] eqn:G; [|exists b; split; [now left|exact G]].
      destruct (visit_all dist v ns) as [v1 o1].
      destruct (expand_beam graph dist v1 bs) as [[v2 o2]|] eqn:Y; [discriminate|].
      destruct (IH _ Y) as (u & Hu & Gu). exists u. split; [now right|exact Gu]. }
    exact (Q _ X).
Qed.

Lemma exhausted never p gone : PP never p [] gone -> never -> incl starts init ->
  (forall i, reach graph starts i -> exists d, dist i = Some d /\ is_nan d = false) ->
  (forall s, In s init -> reach graph starts s) ->
  forall i, reach graph starts i -> ~ In i init -> exists d, In (mkNbr i d) gone /\ dist i = Some d.
Proof.
  intros [I _ _] HN SI HD HI i R NI.
  assert (V : forall j, reach graph starts j -> In j (s_vis (p_st p))).
  { intros j Rj. induction Rj as [s Hs|u v Ru IHu He].
    - apply (pi_init _ _ _ _ _ _ _ _ _ I). now apply SI.
    - destruct (in_dec Nat.eq_dec u init) as [Hu|Hu].
      + eapply (pi_initx _ _ _ _ _ _ _ _ _ I); eauto.
      + destruct (HD u Ru) as (d & Hd & Hq).
        pose proof (pi_all _ _ _ _ _ _ _ _ _ I u d IHu Hu Hd Hq) as G. cbn in G. rewrite app_nil_r in G.
        exact (pi_gone _ _ _ _ _ _ _ _ _ I HN _ v G He). }
  destruct (HD i R) as (d & Hd & Hq). exists d. split; [|exact Hd].
  pose proof (pi_all _ _ _ _ _ _ _ _ _ I i d (V i R) NI Hd Hq) as G. cbn in G. now rewrite app_nil_r in G.
Qed.
End all_pages.

(** ** Termination *)
Section fuel.
Variable graph : nat -> option (list nat).
Variable dist : nat -> option f32.

Lemma loop_fuel_weak s bw stop univ : bw <> 0 -> NoDup univ ->
  (forall u v, In u univ -> edge graph u v -> In v univ) ->
  forall fuel n st E, WFg s (s_best st) E -> (forall e, In e E -> In (e_id e) univ) ->
  length E + fresh univ (s_vis st) < fuel ->
  search_loop graph dist fuel bw stop n st <> SFuel.
Proof.
  intros Hb NU HC fuel n st E W HE Hm. destruct fuel as [|fuel]; [lia|]. cbn [search_loop].
  destruct (has_notvisited (s_best st) && negb (stop n)) eqn:B; [|discriminate].
  apply andb_prop in B. destruct B as [B _].
  pose proof (round_trace graph dist s bw st E W) as RT.
  destruct (search_round graph dist bw st) as [[st1 beam]| | |]; try discriminate; [|contradiction].
  destruct RT as (E1 & ops & rest & T & HW & HN). specialize (HW (HN Hb B)).
  destruct (t_closed _ _ _ _ _ _ _ _ _ _ T (fun i => In i univ) HC HE) as (K1 & K2 & K3).
  assert (N : search_loop graph dist fuel bw stop (S n) st1 <> SFuel).
  { apply (loop_fuel graph dist bw stop univ Hb NU HC fuel (S n) st1 E1 HW K3).
    assert (F : fresh univ (s_vis st1) + length (inserted ops) <= fresh univ (s_vis st)).
    { eapply fresh_drop; [exact NU|exact (t_vis _ _ _ _ _ _ _ _ _ _ T)|].
      intros x Hx. destruct (v_new _ _ _ _ _ (t_vis _ _ _ _ _ _ _ _ _ _ T) x Hx) as (N1 & N2 & _).
      destruct (K1 _ N2); [contradiction|assumption]. }
    pose proof (Permutation_length (qr_perm _ _ _ _ _ _ _ _ (t_run _ _ _ _ _ _ _ _ _ _ T))) as PL.
    rewrite !app_length, !map_length in PL.
    assert (VL : length (valid (inserted ops)) <= length (inserted ops)).
    { unfold valid. clear. induction (inserted ops) as [|x xs IH]; cbn; [lia|].
      destruct (negb (is_nan (n_dist x))); cbn; lia. }
    assert (UL : unvis E1 <= length E1).
    { unfold unvis. clear. induction E1 as [|x xs IH]; cbn; [lia|].
      destruct (negb (e_vis x)); cbn; lia. }
    lia. }
  destruct (search_loop graph dist fuel bw stop (S n) st1) as [[? ?]| | |]; congruence.
Qed.

Variables starts init : list nat.
Variable l : nat.
Hypothesis Hl : 0 < l.
Hypothesis ND : NoDup starts.

Lemma pi_size never st E gone univ : PI graph dist starts init l never st E gone ->
  NoDup univ -> (forall i, reach graph (roots starts init) i -> In i univ) ->
  length E + fresh univ (s_vis st) <= length univ.
Proof.
  intros I NU HU. rewrite <- (map_length e_id E). unfold fresh. rewrite <- app_length.
  assert (SE : forall e, In e E -> In (e_id e) (s_vis st)).
  { intros e He. apply (pi_seen _ _ _ _ _ _ _ _ _ I (e_nbr e)). apply in_or_app. right. now apply in_map. }
  apply NoDup_incl_length.
  - apply NoDup_app_intro.
    + pose proof (pi_nodup _ _ _ _ _ _ _ _ _ I) as N. rewrite map_app, map_map in N.
      now apply NoDup_app_inv in N.
    + now apply NoDup_filter.
    + intros i H1 H2. apply in_map_iff in H1. destruct H1 as (e & <- & He).
      apply filter_In in H2. destruct H2 as [_ H2]. apply negb_true_iff, seen_false in H2.
      apply H2. now apply SE.
  - intros i Hi. apply in_app_or in Hi. destruct Hi as [Hi|Hi].
    + apply in_map_iff in Hi. destruct Hi as (e & <- & He). apply HU.
      apply (pi_reach _ _ _ _ _ _ _ _ _ I). now apply SE.
    + apply filter_In in Hi. tauto.
Qed.

Lemma internal_fuel never fuel stop st E gone univ : PI graph dist starts init l never st E gone ->
  NoDup univ -> (forall u v, In u univ -> edge graph u v -> In v univ) ->
  (forall i, reach graph (roots starts init) i -> In i univ) -> length univ < fuel ->
  search_internal graph dist fuel 1 stop starts st <> SFuel.
Proof.
  intros I NU HC HU Hf. unfold search_internal.
  assert (S0 : match search_init dist starts st with
    | SOk st1 => exists E1, PI graph dist starts init l never st1 E1 gone | SFuel => False | _ => True end).
  { pose proof (pi_internal graph dist starts init l ND never 0 (fun _ => true) st E gone I) as Q.
    unfold search_internal in Q. destruct (search_init dist starts st) as [st1| | |] eqn:SI; auto.
    - destruct (search_loop graph dist 0 1 (fun _ => true) 0 st1) as [[st2 r]| | |] eqn:SL;
        cbn [search_loop negb] in SL; rewrite andb_false_r in SL; try discriminate.
      injection SL as <- <-. destruct Q as (E1 & I1 & _). eauto.
    - unfold search_init in SI. destruct (s_vis st); [|discriminate].
      destruct (start_dists dist starts); [|discriminate].
      destruct (insert_all (s_best st) l0); discriminate. }
  destruct (search_init dist starts st) as [st1| | |]; try discriminate; [|contradiction].
  destruct S0 as (E1 & I1).
  apply (loop_fuel_weak false 1 stop univ) with (E := E1); auto.
  - exact (pi_wf _ _ _ _ _ _ _ _ _ I1).
  - intros e He. apply HU. apply (pi_reach _ _ _ _ _ _ _ _ _ I1).
    apply (pi_seen _ _ _ _ _ _ _ _ _ I1 (e_nbr e)). apply in_or_app. right. now apply in_map.
  - pose proof (pi_size never st1 E1 gone univ I1 NU HU). lia.
Qed.

Lemma pages_fuel fuel stop univ : NoDup univ ->
  (forall u v, In u univ -> edge graph u v -> In v univ) -> incl (roots starts init) univ ->
  length univ < fuel ->
  forall ks p E gone, PP graph dist starts init l False p E gone ->
  pages graph dist fuel stop starts ks p <> SFuel.
Proof.
  intros NU HC HR Hf.
  assert (HU : forall i, reach graph (roots starts init) i -> In i univ).
  { intros i R. induction R; [now apply HR|eauto]. }
  induction ks as [|k ks IH]; intros p E gone P; cbn [pages]; [discriminate|].
  pose proof (next_page_spec graph dist starts init l Hl ND False fuel stop k p E gone P ltac:(tauto)) as NP.
  assert (NF : next_page graph dist fuel stop starts k p <> SFuel).
  { unfold next_page. destruct (p_l p <? k); [discriminate|]. destruct (k =? 0); [discriminate|].
    destruct (_ && _); [discriminate|].
    pose proof (internal_fuel False fuel stop (p_st p) E gone univ (pp_inv _ _ _ _ _ _ _ _ _ P) NU HC HU Hf) as IF.
    destruct (search_internal graph dist fuel 1 stop starts (p_st p)) as [[st r]| | |]; try discriminate; [|congruence].
    destruct (pq_iter (s_best st)); [|discriminate].
    destruct (filter_candidates starts k 0 [] l0). discriminate. }
  destruct (next_page graph dist fuel stop starts k p) as [[p1 page]| | |]; try discriminate; [|congruence].
  destruct NP as (E1 & n & Em & P1 & _). specialize (IH p1 E1 _ P1).
  destruct (pages graph dist fuel stop starts ks p1) as [[p2 r]| | |]; congruence.
Qed.
End fuel.
