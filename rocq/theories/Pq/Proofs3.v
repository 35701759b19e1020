(** The closest pivot of a chunk. *)
From Coq Require Import List PeanoNat Bool Lia Arith.
From Verif.Lib Require Import Lists.
From Verif.Simd Require Import Model Proofs2.
From Verif.Pq Require Import Model Spec Proofs Proofs2.
Import ListNotations.

Section Pick.
  Context {F : Type} (x : xops F) (ord : ordered x).
  Notation o := (fo x).
  Notation better := (better x).
  Lemma better_cases a b : (better a b = b /\ lt o (fst b) (fst a) = true) \/ (better a b = a /\ lt o (fst b) (fst a) = false).
  Proof. unfold Proofs2.better. destruct (lt o (fst b) (fst a)) eqn:E; auto. Qed.
  (** A fold of [better] ends in the start or in a candidate, and no candidate is less. *)
  Lemma pick_spec cands : forall s, let m := fold_left better cands s in
    (m = s \/ In m cands /\ lt o (fst m) (fst s) = true) /\ (forall c, In c cands -> lt o (fst c) (fst m) = false).
  Proof.
    induction cands as [|e cands IH] using rev_ind; intros s m; subst m; [cbn; split; [now left|tauto]|].
    rewrite fold_left_app. cbn [fold_left]. destruct (IH s) as [A B]. set (m := fold_left better cands s) in *. clearbody m.
    destruct (better_cases m e) as [[-> L]|[-> L]].
    - split.
      + right. split; [apply in_or_app; right; now left|]. destruct A as [->|[_ A]]; [assumption|]. eapply o_trans; eassumption.
      + intros c C. apply in_app_or in C as [C|[<-|[]]]; [|now apply o_irr].
        destruct (lt o (fst c) (fst e)) eqn:Q; [|reflexivity]. specialize (B c C). rewrite <- B. symmetry. eapply o_trans; eassumption.
    - split.
      + destruct A as [A|[A A']]; [now left|right]. split; [apply in_or_app; now left|assumption].
      + intros c C. apply in_app_or in C as [C|[<-|[]]]; auto.
  Qed.
  (** If the start is the infinity, the result is comparable. *)
  Lemma num_lt m d : lt o m d = true -> number x m.
  Proof. intros H b c BC. destruct (o_cotrans x ord b m c d H BC); auto. Qed.
  Lemma num_inf : number x (inf x).
  Proof. intros b c BC. left. eapply o_below; eassumption. Qed.
  Lemma number_le a b c : number x b -> lt o a b = false -> lt o b c = false -> lt o a c = false.
  Proof.
    intros N A B. destruct (lt o a c) eqn:Q; [|reflexivity]. destruct (N a c Q); congruence.
  Qed.
End Pick.

Section Closest.
  Context {F : Type} (x : xops F) (ord : ordered x).
  Notation o := (fo x).
  Context (c : chunk (F := F)) (y : nat -> nat -> F) (norm : nat -> F).
  Context (Hrows : 0 < c_rows c) (Hcols : 0 < c_cols c).
  Context (Hdata : forall b i l, b < num_blocks c -> i < c_cols c -> l < 16 ->
    nth_error (c_data c) (16 * c_cols c * b + 16 * i + l) = Some (y (16 * b + l) i)).
  Context (Hnorm : forall j, j < c_rows c -> nth_error (c_norms c) j = Some (norm j)) (Hnlen : length (c_norms c) = c_rows c).
  Context (q : list F) (HQ : length q = c_cols c).
  Notation val := (val x c y norm q (twice x)).
  Notation cand := (cand x c y norm q (twice x)).
  Notation best := (best x c y norm q).
  Definition prx (j : nat) : F := proxy o (norm j) q (yrow c y j).
  Lemma val_in j : j < c_rows c -> val j = prx j.
  Proof. intros H. unfold Proofs2.val. apply Nat.ltb_lt in H. rewrite H. reflexivity. Qed.
  Lemma val_out j : c_rows c <= j -> val j = inf x.
  Proof. intros H. unfold Proofs2.val. apply Nat.ltb_ge in H. rewrite H. apply o_pad, ord. Qed.
  Lemma better_inf m j : c_rows c <= j -> better x m (cand j) = m.
  Proof. intros H. unfold better, Proofs2.cand. cbn [fst]. rewrite val_out by assumption. now rewrite o_top. Qed.

  (** The candidates of a lane. *)
  Lemma best_spec l n : l < 8 ->
    (best l n = (inf x, None) \/ exists j, j < c_rows c /\ best l n = (prx j, Some j) /\ lt o (prx j) (inf x) = true) /\
    (forall b, b < n -> (16 * b + l < c_rows c -> lt o (prx (16 * b + l)) (fst (best l n)) = false) /\
                        (16 * b + 8 + l < c_rows c -> lt o (prx (16 * b + 8 + l)) (fst (best l n)) = false)).
  Proof.
    intros Hl.
    assert (E : best l n = fold_left (better x) (map cand (flat_map (fun b => [16 * b + l; 16 * b + 8 + l]) (seq 0 n))) (inf x, None)).
    { induction n as [|n IH]; [reflexivity|]. rewrite best_S, IH, seq_S, flat_map_app, map_app, fold_left_app. reflexivity. }
    rewrite E. destruct (pick_spec x ord (map cand (flat_map (fun b => [16 * b + l; 16 * b + 8 + l]) (seq 0 n))) (inf x, None)) as [A B].
    set (m := fold_left _ _ _) in *. clearbody m. clear E. split.
    - destruct A as [->|[I L]]; [now left|right]. apply in_map_iff in I as (j & <- & _). cbn [fst Proofs2.cand] in L.
      destruct (Nat.lt_ge_cases j (c_rows c)) as [J|J].
      + exists j. rewrite val_in in L by assumption. split; [assumption|]. split; [|assumption]. unfold Proofs2.cand. now rewrite val_in.
      + rewrite val_out in L by assumption. now rewrite o_top in L by assumption.
    - intros b Hb. assert (I : forall j, j = 16 * b + l \/ j = 16 * b + 8 + l -> j < c_rows c -> lt o (prx j) (fst m) = false).
      { intros j J R. rewrite <- val_in by assumption. apply (B (cand j)). apply in_map. apply in_flat_map. exists b.
        split; [apply in_seq; lia|]. destruct J as [->| ->]; cbn; auto. }
      split; intros R; apply I; auto.
  Qed.
  Lemma best_num l n : l < 8 -> number x (fst (best l n)).
  Proof.
    intros Hl. destruct (best_spec l n Hl) as [[->|(j & _ & -> & L)] _]; cbn [fst]; [now apply num_inf|eapply num_lt; eassumption].
  Qed.
  Lemma lane_of j : j < c_rows c -> exists l b, l < 8 /\ b < num_blocks c /\ (j = 16 * b + l \/ j = 16 * b + 8 + l).
  Proof.
    intros J. destruct (blocks_eq c) as (E & B & NB).
    pose proof (Nat.div_mod j 16 ltac:(lia)) as D. pose proof (Nat.mod_upper_bound j 16 ltac:(lia)) as M.
    assert (j / 16 < num_blocks c) by (unfold num_blocks; apply div_lt_ceil; lia).
    destruct (Nat.lt_ge_cases (j mod 16) 8).
    - exists (j mod 16), (j / 16). lia.
    - exists (j mod 16 - 8), (j / 16). lia.
  Qed.
  Lemma lane_le j l : l < 8 -> (exists b, b < num_blocks c /\ (j = 16 * b + l \/ j = 16 * b + 8 + l)) -> j < c_rows c ->
    lt o (prx j) (fst (best l (num_blocks c))) = false.
  Proof.
    intros Hl (b & Hb & [->| ->]) J; destruct (best_spec l (num_blocks c) Hl) as [_ B]; now apply B.
  Qed.

  Lemma closest_spec : exists r, find_closest x c q = Some r /\
    match r with
    | Some i => i < c_rows c /\ is_fin x (prx i) = true /\ lt o (prx i) (fbig x) = true /\
                (forall j, j < c_rows c -> lt o (prx j) (prx i) = false)
    | None => (forall j, j < c_rows c -> lt o (prx j) (fbig x) = false) \/
              (exists i, i < c_rows c /\ is_fin x (prx i) = false /\ lt o (prx i) (fbig x) = true /\
                 forall j, j < c_rows c -> lt o (prx j) (prx i) = false)
    end.
  Proof.
    rewrite (find_closest_eq x c y norm Hrows Hcols Hdata Hnorm Hnlen q HQ). eexists. split; [reflexivity|].
    unfold finish.
    change (fold_left (fun m e : F * option nat => if lt o (fst e) (fst m) then e else m) (lanes (fun l => best l (num_blocks c))) (fbig x, None))
      with (fold_left (better x) (lanes (fun l => best l (num_blocks c))) (fbig x, None)).
    destruct (pick_spec x ord (lanes (fun l => best l (num_blocks c))) (fbig x, None)) as [A B].
    set (m := fold_left _ _ _) in *. clearbody m.
    assert (BL : forall l, l < 8 -> lt o (fst (best l (num_blocks c))) (fst m) = false).
    { intros l Hl. apply B. unfold lanes. apply in_map_iff. exists l. split; [reflexivity|]. apply in_seq. lia. }
    assert (ALL : forall j, j < c_rows c -> lt o (prx j) (fst m) = false).
    { intros j J. destruct (lane_of j J) as (l & b & Hl & Hb & Hj).
      apply (number_le x (prx j) (fst (best l (num_blocks c))) (fst m)); [now apply best_num|apply lane_le; eauto|now apply BL]. }
    destruct A as [->|[I L]].
    - cbn [fst] in ALL. destruct (is_fin x (fbig x)); now left.
    - unfold lanes in I. apply in_map_iff in I as (l & <- & Il). apply in_seq in Il.
      destruct (best_spec l (num_blocks c) ltac:(lia)) as [[Eb|(j & J & Eb & Lj)] _]; rewrite Eb in *; cbn [fst snd] in *.
      + now rewrite o_top in L by assumption.
      + destruct (is_fin x (prx j)) eqn:Fj; [now repeat split|]. right. exists j. auto.
  Qed.

  (** The batched version, when no proxy is NaN and none is [f32::MAX]. *)
  Context (H2 : forall v, mul o (two x) v = add o v v).
  Lemma val_times2 j : Proofs2.val x c y norm q (times2 x) j = val j.
  Proof. unfold Proofs2.val, times2, twice. now rewrite !H2. Qed.
  Lemma bbest_eq l n : (forall j, j < c_rows c -> number x (prx j)) -> bbest x c y norm q l n = best l n.
  Proof.
    intros HN. induction n as [|n IH]; [reflexivity|]. rewrite bbest_S, best_S, IH. unfold Proofs2.cand. rewrite !val_times2.
    set (m := best l n). set (u := 16 * n + l). set (w := 16 * n + 8 + l). unfold better. cbn [fst].
    assert (NV : number x (val u)).
    { destruct (Nat.lt_ge_cases u (c_rows c)) as [J|J]; [rewrite val_in by assumption; auto|rewrite val_out by assumption; now apply num_inf]. }
    destruct (lt o (val w) (val u)) eqn:WU; cbn [fst].
    - destruct (lt o (val u) (fst m)) eqn:UM; cbn [fst].
      + rewrite WU. now rewrite (o_trans x ord _ _ _ WU UM).
      + reflexivity.
    - destruct (lt o (val u) (fst m)) eqn:UM; cbn [fst]; [now rewrite WU|].
      now rewrite (number_le x _ _ _ NV WU UM).
  Qed.
  Lemma finish_start t : (forall e, In e t -> e = (inf x, None) \/ lt o (fst e) (inf x) = true /\ lt o (fst e) (fbig x) = true) ->
    finish x (inf x) t = finish x (fbig x) t.
  Proof.
    unfold finish. intros H.
    change (fun m e : F * option nat => if lt o (fst e) (fst m) then e else m) with (better x).
    assert (G : fold_left (better x) t (inf x, None) = fold_left (better x) t (fbig x, None) \/
       (fold_left (better x) t (inf x, None) = (inf x, None) /\ fold_left (better x) t (fbig x, None) = (fbig x, None))).
    { induction t as [|e t IH]; [right; now split|]. cbn [fold_left]. destruct (H e (or_introl eq_refl)) as [->|[L1 L2]].
      - unfold better at 2 4 6 8. cbn [fst]. rewrite !o_top by assumption. apply IH. intros; apply H; now right.
      - left. unfold better at 2 4. cbn [fst]. now rewrite L1, L2. }
    destruct G as [->|[-> ->]]; [reflexivity|]. destruct (is_fin x (inf x)), (is_fin x (fbig x)); reflexivity.
  Qed.
  Lemma batch_spec : (forall j, j < c_rows c -> number x (prx j) /\ (lt o (prx j) (inf x) = true -> lt o (prx j) (fbig x) = true)) ->
    batch_row x c q = find_closest x c q.
  Proof.
    intros HN. rewrite (find_closest_eq x c y norm Hrows Hcols Hdata Hnorm Hnlen q HQ), (batch_row_eq x c y norm Hrows Hcols Hdata Hnorm Hnlen q HQ). f_equal.
    assert (E : lanes (fun l => bbest x c y norm q l (num_blocks c)) = lanes (fun l => best l (num_blocks c))).
    { apply lanes_ext. intros l Hl. apply bbest_eq. intros j J. now apply HN. }
    rewrite E. apply finish_start. intros e I. unfold lanes in I. apply in_map_iff in I as (l & <- & Il). apply in_seq in Il.
    destruct (best_spec l (num_blocks c) ltac:(lia)) as [[->|(j & J & -> & L)] _]; [now left|right]. cbn [fst]. split; [assumption|]. now apply HN.
  Qed.
End Closest.

(** ** All distances of a chunk *)
Section Process.
  Context {F : Type} (x : xops F).
  Notation o := (fo x).
  Context (c : chunk (F := F)) (y : nat -> nat -> F) (norm : nat -> F).
  Context (Hrows : 0 < c_rows c) (Hcols : 0 < c_cols c).
  Context (Hdata : forall b i l, b < num_blocks c -> i < c_cols c -> l < 16 ->
    nth_error (c_data c) (16 * c_cols c * b + 16 * i + l) = Some (y (16 * b + l) i)).
  Context (Hnorm : forall j, j < c_rows c -> nth_error (c_norms c) j = Some (norm j)) (Hnlen : length (c_norms c) = c_rows c).
  Lemma store8_ok (f g h : nat -> F) n off m : n <= 8 -> off + n <= m -> (forall j, off <= j < off + n -> g j = f (j - off)) ->
    (forall j, j < m -> j < off \/ off + n <= j -> g j = h j) ->
    store8 off n (lanes f) (map h (seq 0 m)) = Some (map g (seq 0 m)).
  Proof.
    intros Hn Hm HI HO. unfold store8. rewrite map_length, seq_length. destruct (Nat.leb_spec (off + n) m); [|lia]. f_equal.
    apply list_map_seq.
    - rewrite !app_length, !firstn_length, skipn_length, map_length, seq_length. unfold lanes. rewrite map_length, seq_length. lia.
    - intros j J. destruct (Nat.lt_ge_cases j off) as [L|G].
      + rewrite nth_error_app1 by (rewrite firstn_length, map_length, seq_length; lia).
        rewrite nth_error_firstn' by assumption. rewrite nth_map_seq by assumption. f_equal. symmetry. apply HO; lia.
      + rewrite nth_error_app2 by (rewrite firstn_length, map_length, seq_length; lia).
        rewrite firstn_length, map_length, seq_length. replace (j - Nat.min off m) with (j - off) by lia.
        destruct (Nat.lt_ge_cases j (off + n)) as [L|G'].
        * rewrite nth_error_app1 by (rewrite firstn_length; unfold lanes; rewrite map_length, seq_length; lia).
          rewrite nth_error_firstn' by lia. unfold lanes. rewrite nth_map_seq by lia. f_equal. symmetry. apply HI. lia.
        * rewrite nth_error_app2 by (rewrite firstn_length; unfold lanes; rewrite map_length, seq_length; lia).
          rewrite firstn_length. unfold lanes. rewrite map_length, seq_length. rewrite nth_error_skipn'.
          replace (off + n + (j - off - Nat.min n 8)) with j by lia. rewrite nth_map_seq by assumption. f_equal. symmetry. apply HO; lia.
  Qed.
  Lemma process_spec k q into : length q = c_cols c -> length into = c_rows c ->
    process_chunk x c k q into = Some (map (fun j => along o k q (yrow c y j)) (seq 0 (c_rows c))).
  Proof.
    intros HQ HI. destruct (blocks_eq c) as (E & B & NB). unfold process_chunk.
    rewrite (proj2 (Nat.eqb_eq _ _) HQ), (proj2 (Nat.eqb_eq _ _) HI). cbn [negb].
    set (g := fun n j => if j <? n then along o k q (yrow c y j) else nth j into (zero o)).
    assert (I0 : into = map (g 0) (seq 0 (c_rows c))).
    { apply list_map_seq; [assumption|]. intros i Hi. unfold g. cbn. apply nth_error_nth'. lia. }
    rewrite I0.
    rewrite (for_range_run _ _ (fun b => map (g (Nat.min (16 * b) (c_rows c))) (seq 0 (c_rows c)))).
    - f_equal. apply map_ext_in. intros j J. apply in_seq in J. unfold g. destruct (Nat.ltb_spec j (Nat.min (16 * num_blocks c) (c_rows c))); [reflexivity|].
      destruct (Nat.eqb_spec (remainder c) 0); lia.
    - intros b Hb. rewrite (block_ok x c y norm Hrows Hcols Hdata Hnorm Hnlen k q b) by assumption. cbn [bind fst snd].
      destruct (Nat.eqb_spec (remainder c) 0) as [Z|N]; cbn [negb andb]; [|destruct (Nat.eqb_spec b (full_blocks c)) as [Eb|Nb]].
      3: assert (b < full_blocks c) by lia.
      2:{ subst b.
        rewrite (store8_ok _ (g (16 * full_blocks c + Nat.min (remainder c) 8))); [cbn [bind]|lia|lia|..].
        - destruct (Nat.eqb_spec (remainder c - Nat.min (remainder c) 8) 0) as [Z|N']; cbn [negb].
          + f_equal. apply map_ext_in. intros j J. f_equal. destruct (Nat.min_spec (remainder c) 8), (Nat.min_spec (16 * S (full_blocks c)) (c_rows c)); lia.
          + apply store8_ok; [lia|lia|..].
            * intros j J. unfold g. destruct (Nat.ltb_spec j (Nat.min (16 * S (full_blocks c)) (c_rows c))); [|lia]. do 2 f_equal. lia.
            * intros j J J'. unfold g. destruct (Nat.ltb_spec j (Nat.min (16 * S (full_blocks c)) (c_rows c))), (Nat.ltb_spec j (16 * full_blocks c + Nat.min (remainder c) 8)); try lia; reflexivity.
        - intros j J. unfold g. destruct (Nat.ltb_spec j (16 * full_blocks c + Nat.min (remainder c) 8)); [|lia]. do 2 f_equal. lia.
        - intros j J J'. unfold g. destruct (Nat.ltb_spec j (Nat.min (16 * full_blocks c) (c_rows c))), (Nat.ltb_spec j (16 * full_blocks c + Nat.min (remainder c) 8)); try lia; reflexivity. }
      all: rewrite (store8_ok _ (g (16 * b + 8))); [cbn [bind]|lia|lia|..];
        [apply store8_ok; [lia|lia|..]| |].
      all: intros j J; try intros J'; unfold g;
        repeat match goal with |- context[?a <? ?b] => destruct (Nat.ltb_spec a b) end; try lia; try reflexivity; do 2 f_equal; lia.
  Qed.
End Process.

(** ** A chunk built from a view *)
Lemma chunk_new_ok {F} (x : xops F) v c : s_ok v -> chunk_new x v = Some (Some c) ->
  c_rows c = s_rows v /\ c_cols c = s_cols v /\ 0 < c_rows c /\ 0 < c_cols c /\
  (forall b i l, b < num_blocks c -> i < c_cols c -> l < 16 ->
    nth_error (c_data c) (16 * c_cols c * b + 16 * i + l) = Some (cell (zero (fo x)) v (16 * b + l) i)) /\
  length (c_norms c) = c_rows c /\
  (forall j, j < c_rows c -> exists r n, s_row v j = Some r /\ square_norm x r = Some n /\ nth_error (c_norms c) j = Some n).
Proof.
  intros Hv E. unfold chunk_new in E.
  destruct (Nat.eqb_spec (s_cols v) 0) as [|NC]; cbn [orb] in E; [discriminate|].
  destruct (Nat.eqb_spec (s_rows v) 0) as [|NR]; [discriminate|].
  destruct (each _ (seq 0 (s_rows v))) as [norms|] eqn:EN; [|discriminate]. cbn [bind] in E.
  rewrite bt_from_eq in E by (assumption || lia). cbn [bind] in E. injection E as <-. cbn [c_rows c_cols c_data c_norms].
  destruct (each_nth _ _ _ EN) as [LN HN]. rewrite seq_length in LN.
  repeat (split; [first [reflexivity|lia]|]). split; [|split].
  - unfold num_blocks. cbn [c_rows]. intros b i l Hb Hi Hl.
    assert (P1 : forall m, padded_ncols 1 m = m) by (intros; unfold padded_ncols, div_ceil; rewrite Nat.add_sub, Nat.div_1_r; lia).
    pose proof (cells_nth (zero (fo x)) 16 1 v b i l 0) as C. rewrite P1 in C.
    replace (16 * s_cols v * b + 16 * i + l) with (b * 16 * s_cols v + i * 16 * 1 + l * 1 + 0) by lia.
    rewrite C; [do 2 f_equal; lia|assumption|unfold div_ceil; rewrite Nat.add_sub, Nat.div_1_r; lia|assumption|lia].
  - assumption.
  - intros j J. destruct (HN j j (nth_seq 0 _ _ J)) as (n & E1 & E2).
    destruct (s_row v j) as [r|]; [|discriminate]. cbn [bind] in E1. eauto.
Qed.
