(** Inline filtered search navigates as the unfiltered search; multi-hop search. *)
From Verif.Lib Require Import Base Lists F32.
From Verif.Queue Require Import Proofs.
From Verif.Search Require Import Proofs ProofsKnn ProofsMain.
From Verif.Filtered Require Import Model Spec Proofs.

Lemma take_beam_done n q : has_notvisited q = false -> take_beam n q = Some (q, []).
Proof. intros H. destruct n; [reflexivity|]. cbn [take_beam]. unfold closest_notvisited. now rewrite H. Qed.

(** ** Simulation *)
Section sim.
Variable graph : nat -> option (list nat).
Variable dist : nat -> option f32.
Variable acc : nat -> bool.

(** The same navigation; the inline search does not count the start points. *)
Definition same_nav (k : nat) (st st' : sst) : Prop :=
  s_best st = s_best st' /\ s_vis st = s_vis st' /\ s_hops st = s_hops st' /\
  s_cmps st + k = s_cmps st'.

Definition sim_out {A} (k : nat) (a : sres (A * list nbr)) (f : A -> sst) (b : sres (sst * list nbr)) : Prop :=
  match a, b with
  | SOk (s, rec), SOk (st, rec') => rec = rec' /\ same_nav k (f s) st
  | SErr, SErr => True
  | SPanic, SPanic => True
  | SFuel, SFuel => True
  | _, _ => False
  end.

Lemma loop_sim L bw stop l k : bw <> 0 -> forall fuel n s st xs rec,
  Nav L true (s_best (i_st s)) xs rec -> same_nav k (i_st s) st ->
  sim_out k (inline_loop graph dist acc fuel bw stop None l n s) i_st (search_loop graph dist fuel bw stop n st).
Proof.
  intros Hb. induction fuel as [|fuel IH]; intros n s st xs rec N (S1 & S2 & S3 & S4);
    cbn [inline_loop search_loop]; rewrite <- S1;
    (destruct (stop n); cbn [negb]; [rewrite andb_false_r; cbn; repeat split; auto|rewrite andb_true_r]);
    (destruct (has_notvisited (s_best (i_st s))) eqn:HV;
      [|rewrite (take_beam_done _ _ HV); cbn; repeat split; auto]).
  - destruct (nav_beam _ _ _ _ _ bw N) as (q1 & beam & T & N1 & B1 & NB). rewrite T.
    destruct beam; [now specialize (NB Hb HV)|]. exact Logic.I.
  - unfold search_round. rewrite <- S1, <- S2.
    destruct (nav_beam _ _ _ _ _ bw N) as (q1 & beam & T & N1 & B1 & NB). rewrite T.
    destruct beam as [|b beam]; [now specialize (NB Hb HV)|].
    set (bm := b :: beam) in *.
    destruct (expand_beam graph dist (s_vis (i_st s)) (map n_id bm)) as [[vis ns]|]; [|exact Logic.I].
    destruct (nav_insert _ _ _ _ _ ns N1) as (q2 & I2 & N2). rewrite I2.
    set (s1 := mkIst _ _ _ _ _). cbn [adapt_l].
    assert (SS : same_nav k (i_st s1) (mkSst q2 vis (s_cmps st + length ns) (s_hops st + length bm))).
    { repeat split; subst s1; cbn [i_st s_best s_vis s_hops s_cmps]; [now rewrite S3|].
      clear -S4. lia. }
    specialize (IH (S n) s1 _ _ _ N2 SS). unfold sim_out in *.
    destruct (inline_loop graph dist acc fuel bw stop None l (S n) s1) as [[s3 r3]| | |],
      (search_loop graph dist fuel bw stop (S n) _) as [[st3 r3']| | |]; try contradiction; auto.
    destruct IH as (-> & IH). auto.
Qed.

Variable sort : list nbr -> option (list nbr).
Hypothesis Hsort : sorts sort.

Lemma inline_sim fuel l bw stop starts : 0 < l -> bw <> 0 -> NoDup starts ->
  match inline_internal graph dist acc sort fuel l bw stop None starts, knn graph dist fuel l bw stop starts with
  | SOk (_, st, rec), SOk (_, st', rec') => rec = rec' /\ same_nav (length starts) st st'
  | SPanic, SOk _ => ~ numeric dist
  | SErr, SErr => True
  | SFuel, SFuel => True
  | _, _ => False
  end.
Proof.
  intros Hl Hb ND. pose proof (inline_spec graph dist acc sort Hsort fuel l bw stop None starts Hl ND) as IS.
  pose proof (knn_spec graph dist fuel l bw stop starts ltac:(lia) ND) as KS. cbv zeta in KS.
  unfold inline_internal, knn, search_internal in *.
  pose proof (inline_init_inv graph dist acc l starts Hl ND) as I0.
  unfold inline_init, search_init in *. unfold scratch_new in *. cbn [s_best s_cmps s_hops s_vis] in *.
  destruct (start_dists dist starts) as [xs|] eqn:SD; [|exact Logic.I].
  pose proof (start_dists_spec graph dist starts ND) as SP. rewrite SD in SP. destruct SP as [_ MX].
  destruct (insert_all (pq_new (l + length starts)) xs) as [q|]; [|contradiction].
  destruct I0 as (xs0 & I0 & _).
  assert (SS : same_nav (length starts) (i_st (mkIst (mkSst q (rev starts) 0 0) (filter (accepted acc) xs) 0 0 false))
     (mkSst q (rev starts ++ []) (0 + length xs) 0)).
  { unfold same_nav. cbn [i_st s_best s_vis s_hops s_cmps]. rewrite app_nil_r. repeat split.
    now rewrite <- MX, map_length. }
  pose proof (loop_sim _ bw stop l (length starts) Hb fuel 0 _ _ _ _ (ii_nav _ _ _ _ _ _ _ _ _ I0) SS) as LS.
  unfold sim_out in LS. rewrite ?app_nil_r in *. 
  destruct (inline_loop graph dist acc fuel bw stop None l 0 _) as [[s rec]| | |],
    (search_loop graph dist fuel bw stop 0 _) as [[st' rec']| | |]; try contradiction; auto.
  - destruct LS as (-> & LS). destruct (pq_iter (s_best st')); [|contradiction].
    destruct (sort (i_matched s)); [auto|]. intros H. apply IS. split; [exact Logic.I|exact H].
Qed.

(** If the queue can hold all reachable nodes, the inline search is exact. *)
Lemma inline_exact fuel l bw starts univ m st rec : 0 < l -> bw <> 0 -> NoDup starts ->
  finite_index graph starts univ -> length univ <= l + length starts ->
  (forall i, reach graph starts i -> exists d, dist i = Some d /\ is_nan d = false) ->
  inline_internal graph dist acc sort fuel l bw (fun _ => false) None starts = SOk (m, st, rec) ->
  forall i, reach graph starts i -> In i (s_vis st).
Proof.
  intros Hl Hb ND FI HU HD H i R.
  pose proof (inline_sim fuel l bw (fun _ => false) starts Hl Hb ND) as S. rewrite H in S.
  destruct (knn graph dist fuel l bw (fun _ => false) starts) as [[[res st'] rec']| | |] eqn:K; try contradiction.
  destruct S as (-> & S1 & S2 & S3 & S4). rewrite S2.
  pose proof (c22_exact graph dist fuel l bw starts res st' rec' univ Hl ND FI HU HD K) as EX.
  destruct (knn_facts graph dist fuel l bw _ starts _ _ _ Hl ND K)
    as (E & ops & rest & others & K1 & Er & HN & _). cbv zeta in *.
  apply (scanned graph dist _ _ _ _ _ _ _ i K1 (HN (fun _ => eq_refl))).
  destruct R as [s Hs|u v Ru He]; [now left|right].
  apply EX in Ru. apply in_map_iff in Ru. destruct Ru as (x & <- & Hx). exists x. split; [|exact He].
  now rewrite <- Er.
Qed.
End sim.
