(** k-NN search and the reachability count. *)
From Verif.Lib Require Import Base Lists F32.
From Verif.Search Require Import Model Spec Proofs.
From Verif.Queue Require Import Proofs.

Section knn.
Variable graph : nat -> option (list nat).
Variable dist : nat -> option f32.

Lemma start_dists_spec starts : NoDup starts ->
  match start_dists dist starts with
  | Some xs => Visits dist [] (rev starts) xs (fun i => In i starts) /\ map n_id xs = starts
  | None => exists s, In s starts /\ dist s = None
  end.
Proof.
  intros ND.
  assert (G : match start_dists dist starts with
    | Some xs => map n_id xs = starts /\ Forall (scored dist) xs
    | None => exists s, In s starts /\ dist s = None end).
  { clear ND. induction starts as [|i starts IH]; cbn [start_dists].
    - split; [reflexivity|constructor].
    - destruct (dist i) as [d|] eqn:D.
      + destruct (start_dists dist starts) as [xs|].
        * destruct IH as [IH1 IH2]. split; [cbn; congruence|]. constructor; [exact D|exact IH2].
        * destruct IH as (s & Hs & Ds). exists s. split; [now right|exact Ds].
      + exists i. split; [now left|exact D]. }
  destruct (start_dists dist starts) as [xs|]; [|exact G]. destruct G as [G1 G2].
  split; [|exact G1]. constructor.
  - intros i. rewrite <- in_rev. cbn. tauto.
  - now rewrite G1.
  - intros x Hx. split; [intros []|]. split; [|rewrite Forall_forall in G2; now apply G2].
    rewrite <- in_rev, <- G1. now apply in_map.
  - intros i d Hi _ Hd. rewrite <- in_rev, <- G1 in Hi. apply in_map_iff in Hi.
    destruct Hi as (x & <- & Hx). rewrite Forall_forall in G2. specialize (G2 x Hx).
    unfold scored in G2. rewrite G2 in Hd. inv Hd. now destruct x.
Qed.

(** The whole search, from a new queue. *)
Record KnnRun (L : nat) (starts : list nat) (st : sst) (E : list ent) (ops : list qop)
    (rest rec : list nbr) : Prop := {
  k_run : QRun true (pq_new L) [] ops (s_best st) E rest rec;
  k_plain : Forall plain_op ops;
  k_vis : Visits dist [] (s_vis st) (inserted ops) (fun i => In i starts \/ Exp graph rec i);
  k_cmps : s_cmps st = length (inserted ops);
  k_hops : s_hops st = length rec;
  k_reach : forall i, In i (s_vis st) -> reach graph starts i;
  k_rec : forall x, In x rec -> reach graph starts (n_id x);
  k_ent : forall e, In e E -> reach graph starts (e_id e)
}.

Lemma init_run L starts : 0 < L -> NoDup starts ->
  match search_init dist starts (scratch_new L) with
  | SOk st => exists E ops rest, KnnRun L starts st E ops rest [] /\
      unvis E <= length starts /\ s_vis st = rev starts /\ s_best st = s_best st
  | SErr => exists s, In s starts /\ dist s = None
  | _ => False
  end.
Proof.
  intros HL ND. unfold search_init, scratch_new. cbn [s_vis].
  pose proof (start_dists_spec starts ND) as SD.
  destruct (start_dists dist starts) as [xs|]; [|exact SD]. destruct SD as [V MX].
  cbn [s_best s_cmps s_hops].
  destruct (insert_all_run true xs (pq_new L) [] (new_wf L false HL)) as (q & E & rest & I & R).
  rewrite I. exists E, (map QInsert xs), rest. split; [|cbn [s_vis]; split; [|auto]].
  - constructor; cbn [s_best s_vis s_cmps s_hops].
    + exact R.
    + apply Forall_forall. intros o Ho. apply in_map_iff in Ho. destruct Ho as (x & <- & _).
      exact Logic.I.
    + rewrite inserted_map. eapply visits_ext; [|exact V]. intros i. split; [tauto|].
      intros [H|(x & [] & _)]. exact H.
    + now rewrite inserted_map.
    + reflexivity.
    + intros i Hi. apply reach_start. now apply in_rev.
    + intros x [].
    + intros e He. apply reach_start.
      destruct (qrun_in_e R e He) as [H|H]; [destruct H|].
      rewrite inserted_map in H. rewrite <- MX. apply (in_map n_id) in H. exact H.
  - pose proof (qr_mu _ _ _ _ _ _ _ _ R eq_refl) as M. rewrite inserted_map in M.
    rewrite <- MX, map_length. cbn in M. lia.
Qed.

Lemma reach_closed starts u v : reach graph starts u -> edge graph u v -> reach graph starts v.
Proof. intros. eapply reach_edge; eauto. Qed.

Lemma knn_extend L starts st E ops rest rec st' E' ops' rest' rec' :
  KnnRun L starts st E ops rest rec -> Trace graph dist true st E st' E' ops' rest' rec' ->
  KnnRun L starts st' E' (ops ++ ops') (rest' ++ rest) (rec ++ rec').
Proof.
  intros [A B C D F G H I] T.
  destruct (t_closed _ _ _ _ _ _ _ _ _ _ T (reach graph starts) (reach_closed starts) I) as (K1 & K2 & K3).
  destruct T as [TA TB TC TD TF TG _]. constructor.
  - eapply qrun_app; eauto.
  - apply Forall_app. auto.
  - rewrite inserted_app. eapply visits_ext; [|eapply visits_app; eauto].
    intros i. cbn. unfold Exp. split.
    + intros [[H1|(x & Hx & He)]|(x & Hx & He)]; [now left| |]; right; exists x;
        (split; [apply in_or_app; auto|exact He]).
    + intros [H1|(x & Hx & He)]; [auto|]. apply in_app_or in Hx. destruct Hx; eauto 6.
  - rewrite TD, D, inserted_app, app_length. lia.
  - rewrite TF, F, app_length. lia.
  - intros i Hi. destruct (K1 i Hi); auto.
  - intros x Hx. apply in_app_or in Hx. destruct Hx; auto.
  - exact K3.
Qed.

Lemma knn_spec fuel l bw stop starts : 0 < l + length starts -> NoDup starts ->
  let L := l + length starts in
  match knn graph dist fuel l bw stop starts with
  | SOk (res, st, rec) => exists E ops rest, KnnRun L starts st E ops rest rec /\
      res = map e_nbr (firstn L E) /\
      ((forall k, stop k = false) -> has_notvisited (s_best st) = false)
  | SErr => (exists s, In s starts /\ dist s = None) \/
            (exists x, reach graph starts x /\ graph x = None)
  | SPanic => False
  | SFuel => True
  end.
Proof.
  intros HL ND L. unfold knn, search_internal. fold L.
  pose proof (init_run L starts HL ND) as IR.
  destruct (search_init dist starts (scratch_new L)) as [st0| | |]; try contradiction.
  2:{ now left. }
  destruct IR as (E0 & ops0 & r0 & K0 & _).
  pose proof (loop_trace graph dist true bw stop fuel 0 st0 E0
                (qr_wf _ _ _ _ _ _ _ _ (k_run _ _ _ _ _ _ _ K0))) as LT.
  destruct (search_loop graph dist fuel bw stop 0 st0) as [[st rec]| | |]; try contradiction.
  - destruct LT as (E & ops & rest & T & HN).
    pose proof (knn_extend _ _ _ _ _ _ _ _ _ _ _ _ K0 T) as K.
    pose proof (qr_wf _ _ _ _ _ _ _ _ (k_run _ _ _ _ _ _ _ K)) as W.
    rewrite (iter_spec _ E (w_rel _ _ W)).
    exists E, (ops0 ++ ops), (rest ++ r0). split; [exact K|]. split; [|exact HN].
    rewrite (qr_L _ _ _ _ _ _ _ _ (k_run _ _ _ _ _ _ _ K)). reflexivity.
  - right. destruct LT as (x & Gx & Hx). exists x. split; [|exact Gx].
    apply Hx; [apply reach_closed|]. apply (k_ent _ _ _ _ _ _ _ K0).
  - exact Logic.I.
Qed.

Lemma knn_fuel fuel l bw stop starts univ : 0 < l + length starts -> bw <> 0 -> NoDup starts ->
  finite_index graph starts univ -> length univ <= fuel ->
  knn graph dist fuel l bw stop starts <> SFuel.
Proof.
  intros HL Hb ND [FI1 FI2] Hf. unfold knn, search_internal.
  pose proof (init_run _ starts HL ND) as IR.
  destruct (search_init dist starts (scratch_new (l + length starts))) as [st0| | |];
    try discriminate; [|contradiction].
  destruct IR as (E0 & ops0 & r0 & K0 & M0 & V0 & _).
  set (U := nodup Nat.eq_dec univ).
  assert (HU : NoDup U) by apply NoDup_nodup.
  assert (IU : forall i, In i U <-> In i univ) by (intros i; apply nodup_In).
  assert (LU : length U <= length univ).
  { apply NoDup_incl_length; [exact HU|]. intros i. apply IU. }
  assert (RU : forall i, reach graph starts i -> In i U).
  { intros i R. apply IU. induction R; [now apply FI1|eauto]. }
  assert (N : search_loop graph dist fuel bw stop 0 st0 <> SFuel).
  { apply (loop_fuel graph dist bw stop U Hb HU) with (E := E0).
    - intros u v Hu He. apply IU in Hu. apply IU. eauto.
    - exact (qr_wf _ _ _ _ _ _ _ _ (k_run _ _ _ _ _ _ _ K0)).
    - intros e He. apply RU. now apply (k_ent _ _ _ _ _ _ _ K0).
    - assert (F : fresh U (s_vis st0) + length starts <= length U); [|lia].
      rewrite V0. unfold fresh. rewrite <- app_length. apply NoDup_incl_length.
      + apply NoDup_app_intro; [now apply NoDup_filter|exact ND|].
        intros i H1 H2. apply filter_In in H1. destruct H1 as [_ H1].
        apply negb_true_iff, seen_false in H1. apply H1. now apply in_rev in H2.
      + intros i Hi. apply in_app_or in Hi. destruct Hi as [Hi|Hi].
        * apply filter_In in Hi. tauto.
        * apply IU. now apply FI1. }
  destruct (search_loop graph dist fuel bw stop 0 st0) as [[st rec]| | |]; try congruence.
  destruct (pq_iter (s_best st)); congruence.
Qed.

Lemma NoDup_map_perm_ids (l l' : list nbr) : Permutation l l' -> NoDup (map n_id l) ->
  NoDup (map n_id l').
Proof. intros P. apply Permutation_NoDup. now apply Permutation_map. Qed.

Lemma NoDup_valid_ids xs : NoDup (map n_id xs) -> NoDup (map n_id (valid xs)).
Proof.
  unfold valid. induction xs as [|x xs IH]; cbn; intros H; [constructor|].
  inv H. destruct (negb (is_nan (n_dist x))); cbn; auto. constructor; auto.
  intros X. apply H2. apply in_map_iff in X. destruct X as (y & <- & Hy). apply filter_In in Hy.
  apply in_map. tauto.
Qed.

(** The result list against everything inserted. *)
Lemma knn_best L starts st E ops rest rec : 0 < L -> KnnRun L starts st E ops rest rec ->
  exists others,
    Permutation (valid (inserted ops)) (map e_nbr (firstn L E) ++ others) /\
    StronglySorted closer (map e_nbr (firstn L E)) /\
    length (map e_nbr (firstn L E)) = Nat.min L (length (valid (inserted ops))) /\
    (forall x y, In x (map e_nbr (firstn L E)) -> In y others -> closer x y).
Proof.
  intros HL K. pose proof (k_run _ _ _ _ _ _ _ K) as R.
  destruct (c14_lemma L false ops HL (k_plain _ _ _ _ _ _ _ K)) as (q & outs & best & others & A1 & A2 & A3 & A4 & A5 & A6).
  rewrite (qr_run _ _ _ _ _ _ _ _ R) in A1. injection A1 as <- <-.
  rewrite (iter_spec _ E (w_rel _ _ (qr_wf _ _ _ _ _ _ _ _ R))) in A2.
  rewrite (qr_L _ _ _ _ _ _ _ _ R) in A2. cbn [pq_new q_L] in A2. injection A2 as <-. eauto.
Qed.

Lemma all_visited q E e : WF q E -> has_notvisited q = false -> In e (firstn (q_L q) E) ->
  e_vis e = true.
Proof.
  intros W H He. unfold has_notvisited in H. apply Nat.ltb_ge in H.
  rewrite (r_size _ _ (w_rel _ _ W)) in H. apply In_nth_error in He. destruct He as (i & Hi).
  pose proof (nth_error_lt _ _ _ Hi) as Lt. rewrite firstn_length in Lt.
  rewrite nth_error_firstn' in Hi by lia. apply (w_vis _ _ W i e); [lia|exact Hi].
Qed.

(** ** Reachability count *)
Lemma bfs_spec starts : forall fuel expanded queue, NoDup expanded ->
  (forall i, In i expanded -> reach graph starts i /\ graph i <> None) ->
  (forall i, In i queue -> reach graph starts i) ->
  (forall s, In s starts -> In s expanded \/ In s queue) ->
  (forall u v, In u expanded -> edge graph u v -> In v expanded \/ In v queue) ->
  match bfs graph fuel expanded queue with
  | SOk n => exists r, NoDup r /\ length r = n /\ forall i, In i r <-> reach graph starts i
  | SErr => exists i, reach graph starts i /\ graph i = None
  | SPanic => False
  | SFuel => True
  end.
Proof.
  induction fuel as [|fuel IH]; intros expanded queue ND HE HQ HS HC; cbn [bfs];
    (destruct queue as [|i queue]; [exists expanded; split; [exact ND|]; split; [reflexivity|];
      intros j; split; [apply HE|];
      intros R; induction R as [s Hs|u v R IHR Ed];
        [destruct (HS s Hs) as [|[]]; assumption|destruct (HC u v IHR Ed) as [|[]]; assumption]|]).
  - exact Logic.I.
  - destruct (seen i expanded) eqn:Si.
    + apply seen_spec in Si. apply IH; auto.
      * intros j Hj. apply HQ. now right.
      * intros s Hs. destruct (HS s Hs) as [|[<-|]]; auto.
      * intros u v Hu He. destruct (HC u v Hu He) as [|[<-|]]; auto.
    + apply seen_false in Si. destruct (graph i) as [ns|] eqn:G.
      2:{ exists i. split; [apply HQ; now left|exact G]. }
      assert (Ri : reach graph starts i) by (apply HQ; now left).
      apply IH.
      * now constructor.
      * intros j [<-|Hj]; [split; [exact Ri|congruence]|auto].
      * intros j Hj. apply in_app_or in Hj. destruct Hj as [Hj|Hj]; [apply HQ; now right|].
        eapply reach_edge; [exact Ri|]. exists ns. auto.
      * intros s Hs. destruct (HS s Hs) as [|[<-|]]; [left; now right|left; now left|right].
        apply in_or_app. now left.
      * intros u v [<-|Hu] He.
        -- right. apply in_or_app. right. destruct He as (ns' & G' & Hv). congruence.
        -- destruct (HC u v Hu He) as [|[<-|]]; [left; now right|left; now left|right].
           apply in_or_app. now left.
Qed.

(** Each step either drops a queue entry or expands a new node, adding its neighbours. *)
Definition degsum (univ expanded : list nat) : nat :=
  list_sum (map (fun i => if seen i expanded then 0
                          else S (match graph i with Some ns => length ns | None => 0 end)) univ).

Lemma degsum_expand univ i expanded : NoDup univ -> In i univ -> ~ In i expanded ->
  degsum univ expanded = degsum univ (i :: expanded) +
    S (match graph i with Some ns => length ns | None => 0 end).
Proof.
  intros ND Hi Hn. unfold degsum. induction univ as [|u univ IH]; [destruct Hi|].
  inv ND. cbn [map list_sum fold_right].
  assert (SE : forall j, seen j (i :: expanded) = (j =? i) || seen j expanded) by reflexivity.
  change (fold_right plus 0) with list_sum in *. rewrite SE.
  destruct Hi as [->|Hi].
  - rewrite Nat.eqb_refl. cbn [orb]. rewrite (proj2 (seen_false i expanded) Hn).
    assert (M : list_sum (map (fun j => if seen j expanded then 0 else S (match graph j with Some ns => length ns | None => 0 end)) univ)
              = list_sum (map (fun j => if seen j (i :: expanded) then 0 else S (match graph j with Some ns => length ns | None => 0 end)) univ)).
    { f_equal. apply map_ext_in. intros j Hj. rewrite SE.
      destruct (Nat.eqb_spec j i) as [->|]; [contradiction|reflexivity]. }
    rewrite M. lia.
  - rewrite (IH H2 Hi). destruct (Nat.eqb_spec u i) as [->|]; [contradiction|]. cbn [orb].
    destruct (seen u expanded); lia.
Qed.

Lemma bfs_fuel univ : NoDup univ -> (forall u v, In u univ -> edge graph u v -> In v univ) ->
  forall fuel expanded queue, incl queue univ -> degsum univ expanded + length queue <= fuel ->
  bfs graph fuel expanded queue <> SFuel.
Proof.
  intros ND HC. induction fuel as [|fuel IH]; intros expanded queue HQ Hm; cbn [bfs];
    (destruct queue as [|i queue]; [discriminate|]).
  - cbn in Hm. lia.
  - cbn [length] in Hm. destruct (seen i expanded) eqn:Si.
    + apply IH; [|lia]. intros j Hj. apply HQ. now right.
    + apply seen_false in Si. destruct (graph i) as [ns|] eqn:G; [|discriminate].
      assert (Hi : In i univ) by (apply HQ; now left).
      apply IH.
      * intros j Hj. apply in_app_or in Hj. destruct Hj as [Hj|Hj]; [apply HQ; now right|].
        apply (HC i); [exact Hi|]. exists ns. auto.
      * rewrite (degsum_expand univ i expanded ND Hi Si), G in Hm. rewrite app_length. lia.
Qed.
End knn.
