(** Histories of the diverse queue, and its results. *)
From Verif.Lib Require Import Base Lists F32.
From Verif.Queue Require Import Proofs.
From Verif.Search Require Import Proofs.
From Verif.Diverse Require Import Model Spec Proofs Proofs2 Proofs3 Proofs4.

Lemma nodup_map_inj {A B} (f : A -> B) l x y : NoDup (map f l) -> In x l -> In y l -> f x = f y -> x = y.
Proof.
  induction l as [|z l IH]; cbn [map]; intros ND Hx Hy E; [destruct Hx|]. inv ND.
  destruct Hx as [->|Hx], Hy as [->|Hy]; auto.
  - exfalso. apply H1. rewrite E. now apply in_map.
  - exfalso. apply H1. rewrite <- E. now apply in_map.
Qed.

Lemma snoc_fresh {A B} (f : A -> B) xs x ys : NoDup (map f (xs ++ x :: ys)) ->
  ~ In (f x) (map f xs).
Proof.
  rewrite map_app. cbn [map]. intros H. apply NoDup_remove_2 in H. rewrite in_app_iff in H. tauto.
Qed.

Ltac sp := repeat match goal with |- _ /\ _ => split end.

Section run.
Variable attr : nat -> option nat.
Notation alike := (alike attr).
Notation coe := (closest_of_each attr).
Notation usable := (usable attr).
Notation has := (has attr).
Notation cnt x l := (length (filter (alike x) l)).
Variables c L : nat.
Hypothesis Hc : 0 < c.
Hypothesis HL : 0 < L.
Notation Inv := (Inv attr c L).

(** Everything taken out so far ([sn]) is marked. *)
Definition Marked (EG : list ent) (sn : list nat) : Prop :=
  NoDup sn /\ forall e, In e EG -> In (e_id e) sn -> e_vis e = true.

Lemma new_inv k total l : k * l / total = c -> l = L -> Inv (dq_new l total k) [] [].
Proof.
  intros E ->. constructor; cbn [dq_new d_glob d_loc d_l pq_new q_auto q_cap q_L]; auto.
  - exact (new_wf L false HL).
  - intros b q. discriminate.
  - constructor.
  - constructor.
  - intros _. exists []. split; [constructor|]. split; [constructor|].
    split; [cbn [map closest_of_each]; now rewrite firstn_nil|]. intros b. reflexivity.
Qed.

Lemma dq_next_inv d xs EG sn : Inv d xs EG -> Marked EG sn ->
  exists d' r EG', dq_next d = Some (d', r) /\ Inv d' xs EG' /\ d_k d' = d_k d /\
    match r with
    | None => dq_has_notvisited d = false /\ EG' = EG
    | Some x => In x (usable xs) /\ ~ In (n_id x) sn /\ Marked EG' (n_id x :: sn)
    end.
Proof.
  intros I M. pose proof I as [IG IA IC IL Ic Iloc Iky Iin Ind Iex].
  unfold dq_next. destruct (closest_spec (d_glob d) EG IG) as (g & r & C & A1 & A2 & A3 & D).
  rewrite C. destruct D as [(D1 & -> & ->)|(D1 & e & D2 & D3 & -> & W1)].
  - exists (mkDq (d_glob d) (d_loc d) (d_l d) (d_k d)), None, EG. split; [reflexivity|].
    split; [destruct d; exact I|]. split; [reflexivity|]. split; [|reflexivity].
    unfold dq_has_notvisited, has_notvisited. rewrite (r_size _ _ (w_rel _ _ IG)).
    apply Nat.ltb_ge. exact D1.
  - exists (mkDq g (d_loc d) (d_l d) (d_k d)), (Some (e_nbr e)), (set_nth (q_cur (d_glob d)) (visit e) EG).
    split; [reflexivity|].
    assert (E1 : map e_nbr (set_nth (q_cur (d_glob d)) (visit e) EG) = map e_nbr EG)
      by (eapply map_set_nth_id; eauto).
    assert (E2 : map e_id (set_nth (q_cur (d_glob d)) (visit e) EG) = map e_id EG)
      by (eapply map_set_nth_id; eauto).
    assert (Ie : In e EG) by (eapply nth_error_In; eauto).
    split; [|split; [reflexivity|split; [now apply Iin|split]]].
    + constructor; cbn [d_glob d_loc d_l d_k]; auto; try congruence.
      * intros f Hf. apply in_set_nth in Hf. destruct Hf as [->|Hf]; [|now apply Iin].
        exact (Iin e Ie).
      * intros NT. rewrite E1. auto.
    + intros Hs. destruct M as [_ M]. specialize (M e Ie Hs). congruence.
    + split.
      * constructor; [|apply M]. intros Hs. destruct M as [_ M]. specialize (M e Ie Hs). congruence.
      * intros f Hf Hs. pose proof Hf as Hf0. apply in_set_nth in Hf. destruct Hf as [->|Hf]; [reflexivity|].
        destruct Hs as [Hs|Hs]; [|destruct M as [_ M]; auto].
        assert (f = visit e); [|now subst].
        assert (Iv : In (visit e) (set_nth (q_cur (d_glob d)) (visit e) EG)).
        { apply nth_error_In with (q_cur (d_glob d)). rewrite nth_error_set_nth.
          pose proof (nth_error_lt _ _ _ D2). rewrite Nat.eqb_refl.
          destruct (Nat.ltb_spec (q_cur (d_glob d)) (length EG)); [reflexivity|lia]. }
        eapply nodup_map_inj; [rewrite E2; exact Ind|exact Hf0|exact Iv|]. now cbn in *.
Qed.

Lemma dq_insert_marked d xs EG sn x : Inv d xs EG -> Marked EG sn -> incl sn (map n_id xs) ->
  ~ In (n_id x) (map n_id xs) ->
  exists d' EG', dq_insert attr d x = Some d' /\ Inv d' (xs ++ [x]) EG' /\ d_k d' = d_k d /\
    Marked EG' sn.
Proof.
  intros I M Hs Hn. destruct (dq_insert_inv attr c L Hc HL d xs EG x I Hn) as (d' & EG' & H1 & H2 & H3 & H4).
  exists d', EG'. sp; auto. split; [apply M|].
  intros e He Hi. destruct (H4 e He) as [H| ->]; [destruct M as [_ M]; auto|].
  exfalso. apply Hn. now apply Hs.
Qed.

Lemma dq_run_inv ops : forall d xs EG sn, Inv d xs EG -> Marked EG sn -> incl sn (map n_id xs) ->
  NoDup (map n_id (xs ++ d_inserted ops)) ->
  exists d' outs EG', dq_run attr d ops = Some (d', outs) /\ Inv d' (xs ++ d_inserted ops) EG' /\
    d_k d' = d_k d /\ NoDup (map n_id outs) /\ (forall x, In x outs -> ~ In (n_id x) sn) /\
    (forall x, In x outs -> In x (usable (xs ++ d_inserted ops))).
Proof.
  induction ops as [|o ops IH]; intros d xs EG sn I M Hs ND; cbn [dq_run d_inserted].
  - exists d, [], EG. rewrite app_nil_r. sp; auto; try (now intros x []); cbn [map]; constructor.
  - destruct o as [x|]; cbn [dq_step d_inserted] in *.
    + pose proof (snoc_fresh _ _ _ _ ND) as Hn.
      destruct (dq_insert_marked d xs EG sn x I M Hs Hn) as (d1 & EG1 & H1 & I1 & K1 & M1).
      rewrite H1. cbn [option_map].
      destruct (IH d1 (xs ++ [x]) EG1 sn I1 M1) as (d' & outs & EG' & R & I' & K' & O1 & O2 & O3).
      { intros i Hi. rewrite map_app. apply in_or_app. left. auto. }
      { now rewrite <- app_assoc. }
      rewrite R. exists d', outs, EG'. rewrite <- app_assoc in I', O3. cbn [app] in I', O3.
      sp; auto; try congruence.
    + destruct (dq_next_inv d xs EG sn I M) as (d1 & r & EG1 & H1 & I1 & K1 & Hr). rewrite H1.
      destruct r as [x|].
      * destruct Hr as (R1 & R2 & R3).
        assert (Hs1 : incl (n_id x :: sn) (map n_id xs)).
        { intros i [<-|Hi]; [|auto]. apply in_map. apply usable_in in R1. tauto. }
        destruct (IH d1 xs EG1 (n_id x :: sn) I1 R3 Hs1 ND) as (d' & outs & EG' & R & I' & K' & O1 & O2 & O3).
        rewrite R. exists d', (x :: outs), EG'. sp; auto; try congruence.
        -- cbn [map]. constructor; auto. intros Hx. apply in_map_iff in Hx. destruct Hx as (y & E & Hy).
           apply (O2 y Hy). left. now symmetry.
        -- intros y [<-|Hy]; auto. intros Hi. apply (O2 y Hy). now right.
        -- intros y [<-|Hy]; auto. apply usable_in in R1. apply usable_in. destruct R1 as (R1 & R1').
           split; auto. apply in_or_app. now left.
      * destruct Hr as (_ & ->).
        destruct (IH d1 xs EG sn I1 M Hs ND) as (d' & outs & EG' & R & I' & K' & O1 & O2 & O3).
        rewrite R. exists d', outs, EG'. sp; auto; try congruence.
Qed.

(** ** The results *)
Lemma in_loc_get m b q : NoDup (map fst m) -> In (b, q) m -> loc_get m b = Some q.
Proof.
  induction m as [|[z p] m IH]; cbn [map fst loc_get]; intros ND H; [destruct H|]. inv ND.
  destruct H as [H|H].
  - inv H. now rewrite Nat.eqb_refl.
  - destruct (Nat.eqb_spec z b) as [->|]; [|auto].
    exfalso. apply H2. apply in_map_iff. exists (b, q). auto.
Qed.
Lemma loc_get_in m b q : loc_get m b = Some q -> In (b, q) m.
Proof.
  induction m as [|[z p] m IH]; cbn [loc_get]; [discriminate|].
  destruct (Nat.eqb_spec z b) as [->|]; [intros [= <-]; now left|right; auto].
Qed.

Lemma overfull_spec k m : (forall b q, In (b, q) m -> loc_ok c q) ->
  exists ids m', overfull k m = Some (ids, m') /\
    forall i, In i ids <-> exists b q E, In (b, q) m /\ Rel q E /\ In i (map n_id (skipn k (map e_nbr E))).
Proof.
  induction m as [|[b q] m IH]; cbn [overfull]; intros H.
  - exists [], []. split; [reflexivity|]. intros i. split; [intros []|]. intros (b & q & E & [] & _).
  - destruct IH as (ids & m' & E & HI); [intros b' q' H'; apply (H b' q'); now right|]. rewrite E.
    destruct (H b q (or_introl eq_refl)) as (QA & QC & QL & Eq & W). pose proof (w_rel _ _ W) as R.
    assert (IT : pq_iter q = Some (map e_nbr Eq)).
    { rewrite (iter_spec q Eq R). rewrite firstn_all2; [reflexivity|].
      rewrite QL. pose proof (w_cap _ _ W). lia. }
    assert (X : forall i, In i (map n_id (skipn k (map e_nbr Eq)) ++ ids) <->
      exists b' q' E', In (b', q') ((b, q) :: m) /\ Rel q' E' /\ In i (map n_id (skipn k (map e_nbr E')))).
    { intros i. rewrite in_app_iff, HI. split.
      - intros [H1|(b' & q' & E' & H1 & H2 & H3)].
        + exists b, q, Eq. sp; auto; now left.
        + exists b', q', E'. sp; auto; now right.
      - intros (b' & q' & E' & [H1|H1] & H2 & H3).
        + inv H1. left. now rewrite (rel_fun q' Eq E' R H2).
        + right. exists b', q', E'. auto. }
    destruct (Nat.ltb_spec k (q_size q)) as [Hk|Hk].
    + rewrite IT. eexists. eexists. split; [reflexivity|]. exact X.
    + exists ids. eexists. split; [reflexivity|]. intros i. rewrite <- X.
      rewrite skipn_all2; [reflexivity|]. rewrite map_length, <- (r_size _ _ R). exact Hk.
Qed.

Lemma retain_entries_spec f E :
  retain_entries f (map e_iv E) (map e_d E) =
    (map (fun e => (e_id e, false)) (filter (fun e => f (e_nbr e)) E),
     map e_d (filter (fun e => f (e_nbr e)) E)).
Proof.
  induction E as [|e E IH]; [reflexivity|].
  change (map e_iv (e :: E)) with ((e_id e, e_vis e) :: map e_iv E).
  change (map e_d (e :: E)) with (e_d e :: map e_d E).
  cbn [retain_entries filter]. rewrite IH. change (mkNbr (e_id e) (e_d e)) with (e_nbr e).
  destruct (f (e_nbr e)); reflexivity.
Qed.

Lemma retain_spec q E f : Rel q E ->
  exists E', Rel (pq_retain q f) E' /\ q_L (pq_retain q f) = q_L q /\
    map e_nbr E' = filter f (map e_nbr E).
Proof.
  intros R. pose proof R as [Ri Rd Rs]. unfold pq_retain.
  assert (FM : map e_nbr (map (fun e => mkEnt (e_id e) false (e_d e)) (filter (fun e => f (e_nbr e)) E))
               = filter f (map e_nbr E)).
  { clear. induction E as [|e E IH]; [reflexivity|]. cbn [map filter].
    destruct (f (e_nbr e)); cbn [map]; rewrite IH; reflexivity. }
  destruct (Nat.eqb_spec (q_size q) 0) as [H0|H0].
  { exists []. rewrite Rs in H0. destruct E; [|discriminate]. auto. }
  rewrite Ri, Rd, retain_entries_spec.
  exists (map (fun e => mkEnt (e_id e) false (e_d e)) (filter (fun e => f (e_nbr e)) E)).
  rewrite map_length.
  destruct (Nat.ltb_spec (length (filter (fun e => f (e_nbr e)) E)) (q_size q)) as [H|H];
    cbn [q_L]; (split; [|split; [reflexivity|exact FM]]); constructor;
    cbn [q_idv q_dist q_size]; rewrite ?map_map, ?map_length; auto.
  assert (length (filter (fun e => f (e_nbr e)) E) <= length E).
  { clear. induction E as [|e E IH]; cbn; [lia|]. destruct (f (e_nbr e)); cbn; lia. }
  lia.
Qed.

Lemma filter_true {A} (f : A -> bool) l : (forall x, In x l -> f x = true) -> filter f l = l.
Proof.
  induction l as [|x l IH]; intros H; [reflexivity|]. cbn [filter].
  rewrite (H x) by now left. f_equal. apply IH. intros y Hy. apply H. now right.
Qed.

(** Dropping, per attribute value, everything beyond the first [k]. *)
Lemma coe_filter k (f : nbr -> bool) G : forall B A, G = A ++ B ->
  (forall A' y B', G = A' ++ y :: B' -> f y = (cnt y A' <? k)) -> filter f B = coe k (rev A) B.
Proof.
  induction B as [|y B IH]; intros A HG Hf; [reflexivity|]. cbn [filter closest_of_each].
  rewrite (Hf A y B HG), cnt_rev.
  assert (X : filter f B = coe k (y :: rev A) B).
  { replace (y :: rev A) with (rev (A ++ [y])) by (rewrite rev_app_distr; reflexivity).
    apply IH; auto. rewrite <- app_assoc. exact HG. }
  rewrite X. reflexivity.
Qed.

Lemma skipn_mid {A} (P : list A) y Q k : In y (skipn k (P ++ y :: Q)) \/ length P < k.
Proof.
  destruct (Nat.lt_ge_cases (length P) k) as [H|H]; [now right|left].
  rewrite skipn_app. replace (k - length P) with 0 by lia. cbn [skipn]. apply in_or_app. right. now left.
Qed.

Lemma results_spec d xs EG : Inv d xs EG -> NoDup (map n_id xs) ->
  exists res f, dq_results d = Some res /\ res = filter f (map e_nbr EG) /\
    (no_ties (usable xs) -> res = coe (d_k d) [] (map e_nbr EG)).
Proof.
  intros I ND. pose proof I as [IG IA IC IL Ic Iloc Iky Iin Ind Iex].
  unfold dq_results, dq_post_process, dq_iter.
  destruct (overfull_spec (d_k d) (d_loc d)) as (ids & m' & E & HI).
  { intros b q H. apply (Iloc b q). now apply in_loc_get. }
  rewrite E. set (f := fun x : nbr => negb (seen (n_id x) ids)).
  set (G := map e_nbr EG).
  exists (filter f G), f. cbn [d_glob].
  assert (LG : length EG <= L) by (pose proof (w_cap _ _ IG); lia).
  split; [|split; [reflexivity|]].
  - destruct ids as [|i0 ids0].
    + rewrite (iter_spec _ EG (w_rel _ _ IG)), IL, firstn_all2 by lia.
      fold G. now rewrite filter_true.
    + destruct (retain_spec (d_glob d) EG f (w_rel _ _ IG)) as (E' & R' & L' & M').
      fold f. rewrite (iter_spec _ E' R'), L', IL.
      fold G in M'. rewrite <- M'. rewrite firstn_all2; [reflexivity|].
      rewrite <- (map_length e_nbr E'), M'. transitivity (length G).
      * clear. induction G as [|y G IH]; cbn; [lia|]. destruct (f y); cbn; lia.
      * unfold G. now rewrite map_length.
  - intros NT. destruct (Iex NT) as (S & S1 & S2 & S3 & S4).
    apply (coe_filter (d_k d) f G G []); [reflexivity|].
    intros A y B HG. unfold f.
    assert (Hy : In y G) by (rewrite HG; apply in_or_app; right; now left).
    assert (exists a, attr (n_id y) = Some a) as (a & Ha).
    { unfold G in Hy. apply in_map_iff in Hy. destruct Hy as (e & <- & He).
      specialize (Iin e He). apply usable_in in Iin. tauto. }
    assert (FA : filter (has a) G = filter (has a) A ++ y :: filter (has a) B).
    { rewrite HG. now apply filter_own. }
    assert (GI : NoDup (map n_id G)).
    { unfold G. rewrite map_map. exact Ind. }
    rewrite (filter_has attr y a) by auto.
    destruct (seen (n_id y) ids) eqn:Sy; cbn [negb]; symmetry.
    + apply Nat.ltb_ge. apply seen_spec in Sy. apply HI in Sy.
      destruct Sy as (b & q & Eb & Hb & Rb & Hi).
      pose proof (S4 b) as Sb. rewrite (in_loc_get _ b q Iky Hb) in Sb.
      destruct Sb as (E' & R' & M'). rewrite <- (rel_fun q Eb E' Rb R') in M'. rewrite M' in Hi.
      apply in_map_iff in Hi. destruct Hi as (z & Ez & Hz).
      assert (Hz0 := in_skipn _ _ _ Hz). apply filter_In in Hz0. destruct Hz0 as [Hz0 Hz1].
      assert (z = y) as -> by (eapply nodup_map_inj; [exact GI|exact Hz0|exact Hy|exact Ez]).
      assert (b = a) as ->.
      { unfold Proofs4.has in Hz1. rewrite Ha in Hz1. apply Nat.eqb_eq in Hz1. congruence. }
      fold G in Hz. rewrite FA in Hz.
      destruct (Nat.le_gt_cases (d_k d) (length (filter (has a) A))) as [|Hlt]; [assumption|exfalso].
      rewrite skipn_app in Hz. apply in_app_or in Hz.
      assert (ND2 : NoDup (map n_id (filter (has a) A ++ y :: filter (has a) B))).
      { rewrite <- FA. clear -GI. induction G as [|z G IH]; [constructor|]. cbn [map filter] in *. inv GI.
        destruct (has a z); auto. cbn [map]. constructor; auto. intros H. apply H1.
        apply in_map_iff in H. destruct H as (w & Ew & Hw). apply filter_In in Hw. rewrite <- Ew. apply in_map. tauto. }
      rewrite map_app in ND2. cbn [map] in ND2. apply NoDup_remove_2 in ND2. apply ND2. apply in_or_app.
      destruct Hz as [Hz|Hz].
      * left. apply in_map. eapply in_skipn; eauto.
      * right. destruct (d_k d - length (filter (has a) A)) eqn:Z; [lia|]. cbn [skipn] in Hz.
        apply in_map. eapply in_skipn; eauto.
    + apply seen_false in Sy. apply Nat.ltb_lt.
      destruct (skipn_mid (filter (has a) A) y (filter (has a) B) (d_k d)) as [H|H]; [|exact H].
      exfalso. apply Sy. apply HI. pose proof (S4 a) as Sa.
      destruct (loc_get (d_loc d) a) as [q|] eqn:Lq.
      * destruct Sa as (E' & R' & M'). exists a, q, E'. split; [now apply loc_get_in|]. split; [exact R'|].
        rewrite M'. fold G. rewrite FA. now apply in_map.
      * fold G in Sa. rewrite FA in Sa. destruct (filter (has a) A); discriminate.
Qed.

Lemma filter_sub_nodup {A B} (f : A -> bool) (g : A -> B) l : NoDup (map g l) -> NoDup (map g (filter f l)).
Proof.
  induction l as [|x l IH]; cbn [map filter]; intros H; [constructor|]. inv H. destruct (f x); auto.
  cbn [map]. constructor; auto. intros X. apply H2. apply in_map_iff in X. destruct X as (y & <- & Hy).
  apply filter_In in Hy. apply in_map. tauto.
Qed.
Lemma filter_sub_sorted {A} (R : A -> A -> Prop) (f : A -> bool) l : StronglySorted R l -> StronglySorted R (filter f l).
Proof.
  induction 1 as [|x l H IH F]; cbn [filter]; [constructor|]. destruct (f x); auto. constructor; auto.
  rewrite Forall_forall in *. intros y Hy. apply filter_In in Hy. apply F. tauto.
Qed.

Lemma klt_closer S : StronglySorted klt S -> Forall (fun x => is_nan (n_dist x) = false) S ->
  StronglySorted closer S.
Proof.
  induction 1 as [|x l H IH F]; intros N; constructor; inv N; auto.
  rewrite Forall_forall in *. intros y Hy. unfold closer. apply f32_le_spec. repeat split; auto.
  specialize (F y Hy). unfold klt, key in F. lia.
Qed.

(** Everything about the results of a state. *)
Lemma results_facts d xs EG total : Inv d xs EG -> NoDup (map n_id xs) ->
  0 < d_k d -> 0 < total -> total <= L -> c = d_k d * L / total ->
  exists res, dq_results d = Some res /\
    NoDup (map n_id res) /\ StronglySorted closer res /\ length res <= L /\
    (forall x, In x res -> In x (usable xs)) /\
    (no_ties (usable xs) ->
       at_most_each attr (d_k d) res /\
       exists ranked, ranking (usable xs) ranked /\
         firstn total res = firstn total (coe (d_k d) [] ranked)).
Proof.
  intros I ND Hk Ht HtL Ec. destruct (results_spec d xs EG I ND) as (res & f & R & RF & RX).
  pose proof I as [IG IA IC IL Ic Iloc Iky Iin Ind Iex].
  exists res. split; [exact R|]. split; [|split; [|split; [|split]]].
  - rewrite RF. apply filter_sub_nodup. rewrite map_map. exact Ind.
  - rewrite RF. apply filter_sub_sorted. apply map_nbr_sorted; [apply (w_nan _ _ IG)|apply (w_sort _ _ IG)].
  - rewrite RF. transitivity (length (map e_nbr EG)).
    + generalize (map e_nbr EG). intros G. induction G as [|y G IH]; cbn; [lia|]. destruct (f y); cbn; lia.
    + rewrite map_length. pose proof (w_cap _ _ IG). lia.
  - intros x Hx. rewrite RF in Hx. apply filter_In in Hx. destruct Hx as [Hx _].
    apply in_map_iff in Hx. destruct Hx as (e & <- & He). auto.
  - intros NT. rewrite (RX NT). split; [apply coe_at_most|].
    destruct (Iex NT) as (S & S1 & S2 & S3 & S4). exists S. split.
    + split; [exact S2|]. apply klt_closer; auto. rewrite Forall_forall. intros x Hx.
      eapply Permutation_in in Hx; [|exact S2]. apply usable_in in Hx. tauto.
    + rewrite S3, Ec. apply coe_results; auto. intros x Hx.
      eapply Permutation_in in Hx; [|exact S2]. apply usable_in in Hx. destruct Hx as (_ & _ & a & Ha).
      unfold Spec.alike. rewrite Ha. apply Nat.eqb_refl.
Qed.
End run.

Lemma div_pos k l total : 0 < k -> 0 < total -> total <= l -> 0 < k * l / total.
Proof.
  intros Hk Ht Hl. apply Nat.div_str_pos. split; [exact Ht|]. nia.
Qed.

Lemma c62_queue attr l total k ops : 0 < k -> 0 < total -> total <= l ->
  NoDup (map n_id (d_inserted ops)) ->
  exists d outs res, dq_run attr (dq_new l total k) ops = Some (d, outs) /\ dq_results d = Some res /\
    NoDup (map n_id outs) /\ incl outs (usable attr (d_inserted ops)) /\
    NoDup (map n_id res) /\ StronglySorted closer res /\ length res <= l /\
    (forall x, In x res -> In x (usable attr (d_inserted ops))) /\
    (no_ties (usable attr (d_inserted ops)) ->
       at_most_each attr k res /\
       exists ranked, ranking (usable attr (d_inserted ops)) ranked /\
         firstn total res = firstn total (closest_of_each attr k [] ranked)).
Proof.
  intros Hk Ht Hl ND. pose proof (div_pos k l total Hk Ht Hl) as Hc.
  assert (HL : 0 < l) by lia.
  pose proof (new_inv attr _ l HL k total l eq_refl eq_refl) as I0.
  destruct (dq_run_inv attr _ l Hc HL ops _ [] [] [] I0) as (d & outs & EG & R & I & K & O1 & _ & O3).
  { split; [constructor|intros e []]. }
  { intros i []. }
  { exact ND. }
  cbn [app dq_new d_k] in *.
  destruct (results_facts attr _ l Hc HL d _ EG total I ND) as (res & F1 & F2 & F3 & F4 & F5 & F6); auto; try congruence.
  rewrite K in F6. exists d, outs, res. sp; auto.
Qed.
