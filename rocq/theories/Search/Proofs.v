(** Proofs about graph search: the loop as a sequence of queue operations. *)
From Verif.Lib Require Import Base Lists F32.
From Verif.Search Require Import Model Spec.
From Verif.Queue Require Import Proofs.

Lemma seen_spec i l : seen i l = true <-> In i l.
Proof.
  unfold seen. rewrite existsb_exists. split.
  - intros (x & Hx & E). apply Nat.eqb_eq in E. now subst.
  - intros H. exists i. split; [exact H|apply Nat.eqb_refl].
Qed.

Lemma seen_false i l : seen i l = false <-> ~ In i l.
Proof. rewrite <- seen_spec. destruct (seen i l); split; congruence. Qed.

(** ** Visiting *)
Record Visits (dist : nat -> option f32) (v v' : list nat) (out : list nbr) (S : nat -> Prop)
  : Prop := {
  v_mem : forall i, In i v' <-> In i v \/ S i;
  v_nodup : NoDup (map n_id out);
  v_new : forall x, In x out -> ~ In (n_id x) v /\ In (n_id x) v' /\ scored dist x;
  v_all : forall i d, In i v' -> ~ In i v -> dist i = Some d -> In (mkNbr i d) out
}.

Lemma visits_nil dist v : Visits dist v v [] (fun _ => False).
Proof.
  constructor; cbn.
  - tauto.
  - constructor.
  - tauto.
  - contradiction.
Qed.

Lemma visits_ext dist v v' out (S S' : nat -> Prop) : (forall i, S i <-> S' i) ->
  Visits dist v v' out S -> Visits dist v v' out S'.
Proof. intros H [A B C D]. constructor; auto. intros i. rewrite A, H. tauto. Qed.

Lemma visits_app dist v v1 v2 o1 o2 S1 S2 : Visits dist v v1 o1 S1 -> Visits dist v1 v2 o2 S2 ->
  Visits dist v v2 (o1 ++ o2) (fun i => S1 i \/ S2 i).
Proof.
  intros [A B C D] [A' B' C' D']. constructor.
  - intros i. rewrite A', A. tauto.
  - rewrite map_app. apply NoDup_app_intro; auto. intros i H1 H2.
    apply in_map_iff in H1, H2. destruct H1 as (x & <- & Hx), H2 as (y & E & Hy).
    apply (proj1 (C' y Hy)). rewrite E. now apply C.
  - intros x Hx. apply in_app_or in Hx. destruct Hx as [Hx|Hx].
    + destruct (C x Hx) as (C1 & C2 & C3). split; [exact C1|]. split; [|exact C3].
      apply A'. now left.
    + destruct (C' x Hx) as (C1 & C2 & C3). split; [|auto]. intros H. apply C1. apply A. now left.
  - intros i d Hi Hn Hd. apply in_or_app.
    destruct (in_dec Nat.eq_dec i v1) as [H|H]; [left|right]; auto.
Qed.

Lemma visit_all_spec dist ns : forall v v' out, visit_all dist v ns = (v', out) ->
  Visits dist v v' out (fun i => In i ns).
Proof.
  induction ns as [|n ns IH]; intros v v' out H; cbn [visit_all] in H.
  - injection H as <- <-. exact (visits_nil dist v).
  - destruct (seen n v) eqn:Sn.
    + apply seen_spec in Sn. destruct (IH _ _ _ H) as [A B C D]. constructor; auto.
      intros i. rewrite A. cbn. intuition (subst; auto).
    + apply seen_false in Sn. destruct (visit_all dist (n :: v) ns) as [v1 o1] eqn:E.
      specialize (IH _ _ _ E).
      assert (V1 : Visits dist v (n :: v) (match dist n with Some d => [mkNbr n d] | None => [] end)
                     (fun i => i = n)).
      { constructor.
        - intros i. cbn. intuition.
        - destruct (dist n); cbn; repeat constructor. intros [].
        - intros x Hx. destruct (dist n) as [d|] eqn:Dn; [|destruct Hx].
          destruct Hx as [<-|[]]. cbn. split; [exact Sn|]. split; [now left|exact Dn].
        - intros i d [<-|Hi] Hn Hd; [|contradiction]. rewrite Hd. now left. }
      assert (o_eq : out = (match dist n with Some d => [mkNbr n d] | None => [] end) ++ o1)
        by (injection H as <- <-; destruct (dist n); reflexivity).
      assert (v' = v1) by congruence. subst v' out.
      eapply visits_ext; [|exact (visits_app _ _ _ _ _ _ _ _ V1 IH)].
      intros i. cbn. intuition.
Qed.

Lemma expand_beam_spec graph dist ids : forall v v' out,
  expand_beam graph dist v ids = Some (v', out) ->
  Visits dist v v' out (fun i => exists u, In u ids /\ edge graph u i) /\
  forall u, In u ids -> graph u <> None.
Proof.
  induction ids as [|i ids IH]; intros v v' out H; cbn [expand_beam] in H.
  - injection H as <- <-. split.
    + eapply visits_ext; [|exact (visits_nil dist v)]. intros i. cbn. split; [tauto|].
      intros (u & [] & _).
    + intros u [].
  - destruct (graph i) as [ns|] eqn:G; [|discriminate].
    destruct (visit_all dist v ns) as [v1 o1] eqn:V.
    destruct (expand_beam graph dist v1 ids) as [[v2 o2]|] eqn:X; [|discriminate].
    injection H as <- <-. destruct (IH _ _ _ X) as [IH1 IH2]. split.
    + eapply visits_ext; [|exact (visits_app _ _ _ _ _ _ _ _ (visit_all_spec _ _ _ _ _ V) IH1)].
      intros j. cbn. split.
      * intros [Hj|(u & Hu & Hj)]; [exists i|exists u]; split; auto. exists ns. auto.
      * intros (u & [->|Hu] & (ns' & G' & Hj)); [left; congruence|].
        right. exists u. split; [exact Hu|]. exists ns'. auto.
    + intros u [->|Hu]; [congruence|auto].
Qed.

(** ** Queue runs from any well formed queue *)
Lemma wf_weaken s q E : WF q E -> WFg s q E.
Proof. intros [A B C D F G H I J]. constructor; auto. Qed.

Definition unvis (E : list ent) : nat := length (filter (fun e => negb (e_vis e)) E).

Lemma unvis_app a b : unvis (a ++ b) = unvis a + unvis b.
Proof. unfold unvis. now rewrite filter_app, app_length. Qed.

Lemma unvis_firstn n E : unvis (firstn n E) <= unvis E.
Proof. rewrite <- (firstn_skipn n E) at 2. rewrite unvis_app. lia. Qed.

Lemma unvis_perm E E' : Permutation E E' -> unvis E = unvis E'.
Proof.
  intros P. unfold unvis. induction P; cbn; auto.
  - destruct (negb (e_vis x)); cbn; congruence.
  - destruct (negb (e_vis x)), (negb (e_vis y)); reflexivity.
  - congruence.
Qed.

Lemma set_nth_perm {A} (x y : A) : forall l i, nth_error l i = Some y ->
  Permutation (y :: set_nth i x l) (x :: l).
Proof.
  induction l as [|z l IH]; intros [|i] H; cbn in *; try discriminate.
  - inv H. apply perm_swap.
  - rewrite perm_swap, (IH i H). apply perm_swap.
Qed.

Record QRun (s : bool) (q : pq) (E : list ent) (ops : list qop) (q' : pq) (E' : list ent)
    (rest outs : list nbr) : Prop := {
  qr_run : q_run q ops = Some (q', outs);
  qr_wf : WFg s q' E';
  qr_perm : Permutation (map e_nbr E ++ valid (inserted ops)) (map e_nbr E' ++ rest);
  qr_auto : q_auto q = true -> rest = [];
  qr_outs : forall x, In x outs -> In x (map e_nbr E) \/ In x (inserted ops);
  qr_vis : forall e, In e E' -> e_vis e = true ->
      In (e_nbr e) outs \/ exists e0, In e0 E /\ e_nbr e0 = e_nbr e /\ e_vis e0 = true;
  qr_L : q_L q' = q_L q;
  qr_a : q_auto q' = q_auto q;
  qr_mu : s = true -> unvis E' + length outs <= unvis E + length (inserted ops)
}.

Lemma qrun_insert s q E x : WFg s q E ->
  exists q' E' rest, QRun s q E [QInsert x] q' E' rest [] /\ pq_insert q x = Some q'.
Proof.
  intros W. destruct (pq_insert_spec q E x W) as (q1 & E1 & I & W1 & A1 & A2 & A3 & A4 & A5).
  set (rest := if is_nan (n_dist x) then [] else map e_nbr (skipn (q_cap q1) (ins (new_ent x) E))).
  exists q1, E1, rest. split; [|exact I]. constructor; auto.
  - cbn [q_run q_step]. now rewrite I.
  - cbn [inserted valid filter]. unfold rest. destruct (is_nan (n_dist x)); cbn [negb].
    + rewrite A5, !app_nil_r. reflexivity.
    + rewrite A5, <- map_app, firstn_skipn.
      rewrite (Permutation_map e_nbr (ins_perm (new_ent x) E)). cbn [map].
      rewrite <- Permutation_cons_append. destruct x; reflexivity.
  - intros HA. specialize (A4 HA). unfold rest. destruct (is_nan (n_dist x)); [reflexivity|].
    assert (L : length (firstn (q_cap q1) (ins (new_ent x) E)) = length (ins (new_ent x) E))
      by congruence.
    rewrite firstn_length in L. now rewrite skipn_all2 by lia.
  - intros y [].
  - intros e He Hv. right. rewrite A5 in He. destruct (is_nan (n_dist x)); [eauto|].
    apply in_firstn in He. apply (Permutation_in e (ins_perm (new_ent x) E)) in He.
    destruct He as [<-|He]; [discriminate|eauto].
  - intros _. rewrite A5. cbn [inserted length]. destruct (is_nan (n_dist x)); [lia|].
    pose proof (unvis_firstn (q_cap q1) (ins (new_ent x) E)).
    rewrite (unvis_perm _ _ (ins_perm (new_ent x) E)) in H.
    change (new_ent x :: E) with ([new_ent x] ++ E) in H. rewrite unvis_app in H. cbn in H. lia.
Qed.

Lemma qrun_next s q E : WFg s q E ->
  exists q' r E', closest_notvisited q = Some (q', r) /\
    QRun s q E [QNext] q' E' [] (match r with Some x => [x] | None => [] end) /\
    (r = None -> has_notvisited q = false) /\
    (r <> None -> WF q' E').
Proof.
  intros W. destruct (closest_spec_g q E W) as (q1 & r & C & A1 & A2 & A3 & D).
  destruct D as [(D1 & D2 & D3)|(D1 & e & D2 & D3 & D4 & W1)].
  - subst q1 r. exists q, None, E. split; [exact C|]. split; [|split; [|congruence]].
    + constructor; auto.
      * cbn [q_run q_step]. now rewrite C.
      * intros e He Hv. right. eauto.
    + intros _. unfold has_notvisited. rewrite (r_size _ _ (w_rel _ _ W)).
      destruct (Nat.ltb_spec (q_cur q) (Nat.min (q_L q) (length E))); [lia|reflexivity].
  - subst r. exists q1, (Some (e_nbr e)), (set_nth (q_cur q) (visit e) E).
    split; [exact C|]. split; [|split; [discriminate|intros _; exact W1]].
    assert (Hin : In e E) by (eapply nth_error_In; eauto).
    constructor; auto.
    + cbn [q_run q_step]. now rewrite C.
    + now apply wf_weaken.
    + cbn [inserted valid filter]. rewrite !app_nil_r.
      now rewrite (map_set_nth_id e_nbr _ e) by auto.
    + intros x [<-|[]]. left. now apply in_map.
    + intros y Hy Hv. apply In_nth_error in Hy. destruct Hy as (j & Hj).
      rewrite nth_error_set_nth in Hj. destruct (j =? q_cur q).
      * destruct (j <? length E); [|discriminate]. inv Hj. left. now left.
      * right. exists y. split; [eapply nth_error_In; eauto|auto].
    + intros Hs. specialize (D3 Hs). cbn [inserted length].
      pose proof (unvis_perm _ _ (set_nth_perm (visit e) e E (q_cur q) D2)) as P.
      unfold unvis in *. cbn [filter] in P. rewrite D3 in P. cbn in P. lia.
Qed.

Lemma q_run_app ops1 : forall q ops2 q1 o1 q2 o2, q_run q ops1 = Some (q1, o1) ->
  q_run q1 ops2 = Some (q2, o2) -> q_run q (ops1 ++ ops2) = Some (q2, o1 ++ o2).
Proof.
  induction ops1 as [|o ops1 IH]; intros q ops2 q1 o1 q2 o2 H1 H2; cbn [app q_run] in *.
  - inv H1. exact H2.
  - destruct (q_step q o) as [[q3 out]|]; [|discriminate].
    destruct (q_run q3 ops1) as [[q4 outs]|] eqn:R; [|discriminate]. inv H1.
    rewrite (IH _ _ _ _ _ _ R H2). destruct out; reflexivity.
Qed.

Lemma inserted_app a b : inserted (a ++ b) = inserted a ++ inserted b.
Proof. induction a as [|[x| | |] a IH]; cbn; congruence. Qed.

Lemma qrun_nil s q E : WFg s q E -> QRun s q E [] q E [] [].
Proof.
  intros W. constructor; auto.
  intros e He Hv. right. eauto.
Qed.

Lemma in_valid x xs : In x (valid xs) -> In x xs.
Proof. intros H. apply filter_In in H. tauto. Qed.

Lemma qrun_in_e {s q E ops q' E' rest outs} : QRun s q E ops q' E' rest outs ->
  forall e, In e E' -> In (e_nbr e) (map e_nbr E) \/ In (e_nbr e) (inserted ops).
Proof.
  intros H e He.
  assert (X : In (e_nbr e) (map e_nbr E ++ valid (inserted ops))).
  { eapply Permutation_in; [symmetry; exact (qr_perm _ _ _ _ _ _ _ _ H)|].
    apply in_or_app. left. now apply in_map. }
  apply in_app_or in X. destruct X as [X|X]; [now left|right]. now apply in_valid.
Qed.

Lemma qrun_app s q E ops1 q1 E1 r1 o1 ops2 q2 E2 r2 o2 :
  QRun s q E ops1 q1 E1 r1 o1 -> QRun s q1 E1 ops2 q2 E2 r2 o2 ->
  QRun s q E (ops1 ++ ops2) q2 E2 (r2 ++ r1) (o1 ++ o2).
Proof.
  intros H1 H2. pose proof (@qrun_in_e _ _ _ _ _ _ _ _ H1) as IE.
  destruct H1 as [A1 B1 C1 D1 F1 G1 I1 J1 K1], H2 as [A2 B2 C2 D2 F2 G2 I2 J2 K2].
  constructor; auto; try congruence.
  - eapply q_run_app; eauto.
  - rewrite inserted_app, valid_app, app_assoc, C1.
    rewrite <- app_assoc, (Permutation_app_comm r1), app_assoc, C2.
    now rewrite <- app_assoc.
  - intros HA. rewrite D1, D2 by congruence. reflexivity.
  - intros x Hx. rewrite inserted_app. apply in_app_or in Hx. destruct Hx as [Hx|Hx].
    + destruct (F1 x Hx); [now left|right]. apply in_or_app. now left.
    + destruct (F2 x Hx) as [Hy|Hy]; [|right; apply in_or_app; now right].
      apply in_map_iff in Hy. destruct Hy as (e & <- & He).
      destruct (IE e He); [now left|right]. apply in_or_app. now left.
  - intros e He Hv. destruct (G2 e He Hv) as [Hy|(e0 & He0 & Eq & Hv0)].
    + left. apply in_or_app. now right.
    + destruct (G1 e0 He0 Hv0) as [Hy|(e1 & He1 & Eq1 & Hv1)].
      * left. apply in_or_app. left. now rewrite <- Eq.
      * right. exists e1. split; [exact He1|]. split; [congruence|exact Hv1].
  - intros Hs. specialize (K1 Hs). specialize (K2 Hs). rewrite inserted_app, !app_length. lia.
Qed.

Lemma insert_all_run s xs : forall q E, WFg s q E ->
  exists q' E' rest, insert_all q xs = Some q' /\ QRun s q E (map QInsert xs) q' E' rest [].
Proof.
  induction xs as [|x xs IH]; intros q E W; cbn [insert_all map].
  - exists q, E, []. split; [reflexivity|now apply qrun_nil].
  - destruct (qrun_insert s q E x W) as (q1 & E1 & r1 & R1 & I1). rewrite I1.
    destruct (IH q1 E1 (qr_wf _ _ _ _ _ _ _ _ R1)) as (q2 & E2 & r2 & I2 & R2).
    exists q2, E2, (r2 ++ r1). split; [exact I2|].
    exact (qrun_app _ _ _ _ _ _ _ _ _ _ _ _ _ R1 R2).
Qed.

Lemma take_beam_run s n : forall q E, WFg s q E ->
  exists q' beam E' ops, take_beam n q = Some (q', beam) /\ QRun s q E ops q' E' [] beam /\
    Forall plain_op ops /\ inserted ops = [] /\ (beam <> [] -> WF q' E') /\
    (n <> 0 -> has_notvisited q = true -> beam <> []).
Proof.
  induction n as [|n IH]; intros q E W; cbn [take_beam].
  - exists q, [], E, []. split; [reflexivity|]. split; [now apply qrun_nil|].
    repeat split; auto; congruence.
  - destruct (qrun_next s q E W) as (q1 & r & E1 & C & R1 & N1 & N2). rewrite C.
    destruct r as [x|].
    + specialize (N2 ltac:(discriminate)).
      destruct (IH q1 E1 (qr_wf _ _ _ _ _ _ _ _ R1)) as (q2 & beam & E2 & ops & T & R2 & P & I & S1 & S2).
      rewrite T. exists q2, (x :: beam), E2, (QNext :: ops). split; [reflexivity|].
      split; [exact (qrun_app _ _ _ _ _ _ _ _ _ _ _ _ _ R1 R2)|].
      split; [constructor; [exact Logic.I|exact P]|]. split; [exact I|]. split; [|congruence].
      intros _. destruct beam as [|y beam]; [|apply S1; discriminate].
      destruct (IH q1 E1 (qr_wf _ _ _ _ _ _ _ _ R1)) as (q2' & beam' & E2' & ops' & T' & R2' & _).
      (* the beam is empty: nothing changed since [q1] *)
      assert (Q : q2 = q1).
      { clear - T. destruct n; cbn [take_beam] in T; [congruence|].
        destruct (closest_notvisited q1) as [[q3 [y|]]|] eqn:C; try discriminate.
        - destruct (take_beam n q3) as [[q4 ys]|]; discriminate.
        - injection T as <-. unfold closest_notvisited in C.
          destruct (has_notvisited q1); cbn [negb] in C; [|congruence].
          destruct (set_visited q1 (q_cur q1) true) as [p|]; [|discriminate].
          destruct (skip_visited (q_size p) p (S (q_cur q1))); [|discriminate].
          destruct (get_unchecked p (q_cur q1)); discriminate. }
      subst q2. pose proof (qr_wf _ _ _ _ _ _ _ _ R2) as W2.
      assert (EE : E2 = E1).
      { assert (R : forall E E', Rel q1 E -> Rel q1 E' -> E = E').
        { clear. intros E E' [A B C] [A' B' C']. rewrite A in A'. rewrite B in B'.
          clear A B C C'. revert E' A' B'. induction E as [|e E IH]; intros [|e' E'] A B; cbn in *;
            try discriminate; auto.
          injection A as A1 A2 A3. injection B as B1 B2. f_equal; auto.
          destruct e, e'; cbn in *; congruence. }
        exact (R _ _ (w_rel _ _ W2) (w_rel _ _ N2)). }
      now subst E2.
    + exists q1, [], E1, [QNext]. split; [reflexivity|]. split; [exact R1|].
      split; [constructor; [exact Logic.I|constructor]|]. split; [reflexivity|]. split; [congruence|].
      intros _ Hn. rewrite (N1 eq_refl) in Hn. discriminate.
Qed.

Section search.
Variable graph : nat -> option (list nat).
Variable dist : nat -> option f32.

Definition Exp (rec : list nbr) (i : nat) : Prop := exists x, In x rec /\ edge graph (n_id x) i.

(** What a part of a search did, started in [st]. *)
Record Trace (s : bool) (st : sst) (E : list ent) (st' : sst) (E' : list ent)
    (ops : list qop) (rest rec : list nbr) : Prop := {
  t_run : QRun s (s_best st) E ops (s_best st') E' rest rec;
  t_plain : Forall plain_op ops;
  t_vis : Visits dist (s_vis st) (s_vis st') (inserted ops) (Exp rec);
  t_cmps : s_cmps st' = s_cmps st + length (inserted ops);
  t_hops : s_hops st' = s_hops st + length rec;
  t_read : forall x, In x rec -> graph (n_id x) <> None;
  t_closed : forall P : nat -> Prop, (forall u v, P u -> edge graph u v -> P v) ->
    (forall e, In e E -> P (e_id e)) ->
    (forall i, In i (s_vis st') -> In i (s_vis st) \/ P i) /\
    (forall x, In x rec -> P (n_id x)) /\ (forall e, In e E' -> P (e_id e))
}.

Lemma trace_nil s st E : WFg s (s_best st) E -> Trace s st E st E [] [] [].
Proof.
  intros W. constructor; auto.
  - now apply qrun_nil.
  - cbn. eapply visits_ext; [|apply visits_nil]. intros i. split; [tauto|]. intros (x & [] & _).
  - intros P HP HE. split; [auto|]. split; [intros x []|exact HE].
Qed.

Lemma trace_app s st E st1 E1 ops1 r1 rec1 st2 E2 ops2 r2 rec2 :
  Trace s st E st1 E1 ops1 r1 rec1 -> Trace s st1 E1 st2 E2 ops2 r2 rec2 ->
  Trace s st E st2 E2 (ops1 ++ ops2) (r2 ++ r1) (rec1 ++ rec2).
Proof.
  intros [A1 B1 C1 D1 F1 G1 H1] [A2 B2 C2 D2 F2 G2 H2]. constructor.
  - eapply qrun_app; eauto.
  - apply Forall_app. auto.
  - rewrite inserted_app. eapply visits_ext; [|eapply visits_app; eauto].
    intros i. unfold Exp. split.
    + intros [(x & Hx & He)|(x & Hx & He)]; exists x; (split; [apply in_or_app; auto|exact He]).
    + intros (x & Hx & He). apply in_app_or in Hx. destruct Hx; [left|right]; eauto.
  - rewrite D2, D1, inserted_app, app_length. lia.
  - rewrite F2, F1, app_length. lia.
  - intros x Hx. apply in_app_or in Hx. destruct Hx; auto.
  - intros P HP HE. destruct (H1 P HP HE) as (I1 & I2 & I3).
    destruct (H2 P HP I3) as (K1 & K2 & K3). split; [|split; [|exact K3]].
    + intros i Hi. destruct (K1 i Hi); [auto|now right].
    + intros x Hx. apply in_app_or in Hx. destruct Hx; auto.
Qed.

Lemma inserted_map xs : inserted (map QInsert xs) = xs.
Proof. induction xs; cbn; congruence. Qed.

Lemma round_trace s bw st E : WFg s (s_best st) E ->
  match search_round graph dist bw st with
  | SOk (st', beam) => exists E' ops rest, Trace s st E st' E' ops rest beam /\
      (beam <> [] -> WF (s_best st') E') /\
      (bw <> 0 -> has_notvisited (s_best st) = true -> beam <> [])
  | SErr => exists x, graph x = None /\
      forall P : nat -> Prop, (forall e, In e E -> P (e_id e)) -> P x
  | _ => False
  end.
Proof.
  intros W. unfold search_round.
  destruct (take_beam_run s bw (s_best st) E W) as (q1 & beam & E1 & ops & T & R1 & P1 & I1 & S1 & S2).
  rewrite T. destruct (expand_beam graph dist (s_vis st) (map n_id beam)) as [[vis ns]|] eqn:X.
  - destruct (expand_beam_spec _ _ _ _ _ _ X) as [V G].
    destruct (insert_all_run s ns q1 E1 (qr_wf _ _ _ _ _ _ _ _ R1)) as (q2 & E2 & rest & I2 & R2).
    rewrite I2. pose proof (qrun_app _ _ _ _ _ _ _ _ _ _ _ _ _ R1 R2) as R.
    rewrite !app_nil_r in R.
    exists E2, (ops ++ map QInsert ns), rest. split; [|split; [|exact S2]].
    + assert (IN : inserted (ops ++ map QInsert ns) = ns)
        by now rewrite inserted_app, I1, inserted_map.
      constructor; cbn [s_best s_vis s_cmps s_hops]; auto.
      * apply Forall_app. split; [exact P1|]. apply Forall_forall. intros o Ho.
        apply in_map_iff in Ho. destruct Ho as (x & <- & _). exact Logic.I.
      * rewrite IN. eapply visits_ext; [|exact V]. intros i. unfold Exp. split.
        -- intros (u & Hu & He). apply in_map_iff in Hu. destruct Hu as (x & <- & Hx). eauto.
        -- intros (x & Hx & He). exists (n_id x). split; [now apply in_map|exact He].
      * now rewrite IN.
      * intros x Hx. apply G. now apply in_map.
      * intros P HP HE.
        assert (HB : forall x, In x beam -> P (n_id x)).
        { intros x Hx. destruct (qr_outs _ _ _ _ _ _ _ _ R1 x Hx) as [H|H].
          - apply in_map_iff in H. destruct H as (e & <- & He). now apply HE.
          - rewrite I1 in H. destruct H. }
        assert (HV : forall i, In i vis -> In i (s_vis st) \/ P i).
        { intros i Hi. apply (v_mem _ _ _ _ _ V) in Hi. destruct Hi as [Hi|(u & Hu & He)]; [now left|].
          right. apply in_map_iff in Hu. destruct Hu as (x & <- & Hx). eauto. }
        split; [exact HV|]. split; [exact HB|].
        intros e He. destruct (qrun_in_e R e He) as [H|H].
        -- apply in_map_iff in H. destruct H as (e0 & Eq & He0).
           replace (e_id e) with (e_id e0); [now apply HE|]. now injection Eq.
        -- rewrite IN in H. destruct (v_new _ _ _ _ _ V _ H) as (N1 & N2 & _).
           cbn in N1, N2. destruct (HV _ N2); [contradiction|assumption].
    + intros Hb. cbn [s_best]. specialize (S1 Hb).
      destruct (insert_all_run true ns q1 E1 S1) as (q2' & E2' & rest' & I2' & R2').
      rewrite I2 in I2'. injection I2' as <-. pose proof (qr_wf _ _ _ _ _ _ _ _ R2') as W2.
      pose proof (qr_wf _ _ _ _ _ _ _ _ R2) as W2'.
      assert (EE : E2 = E2').
      { destruct W2' as [[A B C] _ _ _ _ _ _ _ _], W2 as [[A' B' C'] _ _ _ _ _ _ _ _].
        rewrite A in A'. rewrite B in B'. clear - A' B'. revert E2' A' B'.
        induction E2 as [|e E IH]; intros [|e' E'] A B; cbn in *; try discriminate; auto.
        injection A as A1 A2 A3. injection B as B1 B2. f_equal; auto.
        destruct e, e'; cbn in *; congruence. }
      now subst.
  - assert (F : exists x, In x beam /\ graph (n_id x) = None).
    { clear - X. revert X. generalize (s_vis st). induction beam as [|b beam IH]; intros v X;
        cbn [map expand_beam] in X; [discriminate|].
      destruct (graph (n_id b)) as [ns|] eqn:G; [|exists b; split; [now left|exact G]].
      destruct (visit_all dist v ns) as [v1 o1].
      destruct (expand_beam graph dist v1 (map n_id beam)) as [[v2 o2]|] eqn:Y; [discriminate|].
      destruct (IH _ Y) as (x & Hx & Gx). exists x. split; [now right|exact Gx]. }
    destruct F as (x & Hx & Gx). exists (n_id x). split; [exact Gx|]. intros P HE.
    destruct (qr_outs _ _ _ _ _ _ _ _ R1 x Hx) as [H|H].
    + apply in_map_iff in H. destruct H as (e & <- & He). now apply HE.
    + rewrite I1 in H. destruct H.
Qed.

Lemma loop_trace s bw stop : forall fuel n st E, WFg s (s_best st) E ->
  match search_loop graph dist fuel bw stop n st with
  | SOk (st', rec) => exists E' ops rest, Trace s st E st' E' ops rest rec /\
      ((forall k, stop k = false) -> has_notvisited (s_best st') = false)
  | SErr => exists x, graph x = None /\
      forall P : nat -> Prop, (forall u v, P u -> edge graph u v -> P v) ->
        (forall e, In e E -> P (e_id e)) -> P x
  | SPanic => False
  | SFuel => True
  end.
Proof.
  induction fuel as [|fuel IH]; intros n st E W; cbn [search_loop];
    destruct (has_notvisited (s_best st) && negb (stop n)) eqn:B.
  - exact Logic.I.
  - exists E, [], []. split; [now apply trace_nil|]. intros Hs. rewrite Hs, andb_true_r in B. exact B.
  - pose proof (round_trace s bw st E W) as RT.
    destruct (search_round graph dist bw st) as [[st1 beam]| | |] eqn:R.
    + destruct RT as (E1 & ops1 & r1 & T1 & _).
      specialize (IH (S n) st1 E1 (qr_wf _ _ _ _ _ _ _ _ (t_run _ _ _ _ _ _ _ _ T1))).
      destruct (search_loop graph dist fuel bw stop (S n) st1) as [[st2 rec2]| | |].
      * destruct IH as (E2 & ops2 & r2 & T2 & HN).
        exists E2, (ops1 ++ ops2), (r2 ++ r1). split; [|exact HN].
        eapply trace_app; eauto.
      * destruct IH as (x & Gx & Hx). exists x. split; [exact Gx|]. intros P HP HE.
        destruct (t_closed _ _ _ _ _ _ _ _ T1 P HP HE) as (_ & _ & K). now apply Hx.
      * exact IH.
      * exact Logic.I.
    + destruct RT as (x & Gx & Hx). exists x. split; [exact Gx|]. intros P HP HE. now apply Hx.
    + contradiction.
    + contradiction.
  - exists E, [], []. split; [now apply trace_nil|]. intros Hs. rewrite Hs, andb_true_r in B. exact B.
Qed.

(** ** Termination measure *)
Definition fresh (univ vis : list nat) : nat :=
  length (filter (fun i => negb (seen i vis)) univ).

Lemma filter_le {A} (f g : A -> bool) l : (forall x, In x l -> f x = true -> g x = true) ->
  length (filter f l) <= length (filter g l).
Proof.
  induction l as [|x l IH]; intros H; cbn; [lia|].
  assert (IH' : length (filter f l) <= length (filter g l)) by (apply IH; intros; apply H; [now right|auto]).
  destruct (f x) eqn:F; [rewrite (H x) by (auto; now left); cbn; lia|].
  destruct (g x); cbn; lia.
Qed.

Lemma fresh_drop univ v v' out S : NoDup univ -> Visits dist v v' out S ->
  (forall x, In x out -> In (n_id x) univ) -> fresh univ v' + length out <= fresh univ v.
Proof.
  intros NU V H. unfold fresh.
  assert (P : incl (filter (fun i => negb (seen i v')) univ ++ map n_id out)
                   (filter (fun i => negb (seen i v)) univ)).
  { intros i Hi. apply in_app_or in Hi. apply filter_In. rewrite negb_true_iff, seen_false.
    destruct Hi as [Hi|Hi].
    - apply filter_In in Hi. destruct Hi as [Hi Hs]. apply negb_true_iff, seen_false in Hs.
      split; [exact Hi|]. intros Hv. apply Hs. apply (v_mem _ _ _ _ _ V). now left.
    - apply in_map_iff in Hi. destruct Hi as (x & <- & Hx). split; [now apply H|].
      now apply (v_new _ _ _ _ _ V). }
  apply NoDup_incl_length in P.
  - rewrite app_length, map_length in P. exact P.
  - apply NoDup_app_intro; [now apply NoDup_filter|apply V|].
    intros i H1 H2. apply filter_In in H1. destruct H1 as [_ H1].
    apply negb_true_iff, seen_false in H1. apply in_map_iff in H2. destruct H2 as (x & <- & Hx).
    apply H1. now apply (v_new _ _ _ _ _ V).
Qed.

Lemma trace_mu univ st E st' E' ops rest rec : NoDup univ ->
  (forall u v, In u univ -> edge graph u v -> In v univ) ->
  (forall e, In e E -> In (e_id e) univ) ->
  Trace true st E st' E' ops rest rec ->
  unvis E' + fresh univ (s_vis st') + length rec <= unvis E + fresh univ (s_vis st) /\
  (forall e, In e E' -> In (e_id e) univ).
Proof.
  intros NU HC HE T. destruct (t_closed _ _ _ _ _ _ _ _ T (fun i => In i univ) HC HE) as (K1 & K2 & K3).
  split; [|exact K3].
  pose proof (qr_mu _ _ _ _ _ _ _ _ (t_run _ _ _ _ _ _ _ _ T) eq_refl).
  pose proof (fresh_drop univ _ _ _ _ NU (t_vis _ _ _ _ _ _ _ _ T)) as F.
  assert (forall x, In x (inserted ops) -> In (n_id x) univ).
  { intros x Hx. destruct (v_new _ _ _ _ _ (t_vis _ _ _ _ _ _ _ _ T) x Hx) as (N1 & N2 & _).
    destruct (K1 _ N2); [contradiction|assumption]. }
  specialize (F H0). lia.
Qed.

Lemma loop_fuel bw stop univ : bw <> 0 -> NoDup univ ->
  (forall u v, In u univ -> edge graph u v -> In v univ) ->
  forall fuel n st E, WF (s_best st) E -> (forall e, In e E -> In (e_id e) univ) ->
  unvis E + fresh univ (s_vis st) <= fuel ->
  search_loop graph dist fuel bw stop n st <> SFuel.
Proof.
  intros Hb NU HC. induction fuel as [|fuel IH]; intros n st E W HE Hm; cbn [search_loop];
    destruct (has_notvisited (s_best st) && negb (stop n)) eqn:B; try discriminate.
  - exfalso. apply andb_prop in B. destruct B as [B _]. unfold has_notvisited in B.
    apply Nat.ltb_lt in B. rewrite (r_size _ _ (w_rel _ _ W)) in B.
    destruct (nth_error E (q_cur (s_best st))) as [e|] eqn:Y.
    2:{ apply nth_error_None in Y. lia. }
    pose proof (w_cur _ _ W eq_refl e Y) as V.
    assert (In e (filter (fun e => negb (e_vis e)) E)).
    { apply filter_In. split; [eapply nth_error_In; eauto|now rewrite V]. }
    unfold unvis in Hm. destruct (filter (fun e => negb (e_vis e)) E); [destruct H|cbn in Hm; lia].
  - apply andb_prop in B. destruct B as [B _].
    pose proof (round_trace true bw st E W) as RT.
    destruct (search_round graph dist bw st) as [[st1 beam]| | |]; try discriminate.
    2:{ contradiction. }
    destruct RT as (E1 & ops & rest & T & _ & HN). specialize (HN Hb B).
    destruct (trace_mu univ _ _ _ _ _ _ _ NU HC HE T) as (M1 & M2).
    assert (search_loop graph dist fuel bw stop (S n) st1 <> SFuel).
    { apply (IH _ st1 E1); [exact (qr_wf _ _ _ _ _ _ _ _ (t_run _ _ _ _ _ _ _ _ T))|exact M2|].
      destruct beam; [congruence|cbn in M1; lia]. }
    destruct (search_loop graph dist fuel bw stop (S n) st1) as [[? ?]| | |]; congruence.
Qed.
End search.
