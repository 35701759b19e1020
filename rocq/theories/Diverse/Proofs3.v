(** The operations of the plain queues as used by the diverse queue. *)
From Verif.Lib Require Import Base Lists F32.
From Verif.Queue Require Import Proofs.
From Verif.Diverse Require Import Model Spec Proofs Proofs2.

Lemma rel_fun q E E' : Rel q E -> Rel q E' -> E = E'.
Proof.
  intros [A1 A2 _] [B1 B2 _]. rewrite A1 in B1. rewrite A2 in B2. clear A1 A2.
  revert E' B1 B2. induction E as [|e E IH]; intros [|e' E'] B1 B2; try discriminate; auto.
  cbn [map] in *. injection B1 as X1 X2 X3. injection B2 as Y1 Y2.
  f_equal; [|now apply IH]. destruct e, e'; cbn in *. congruence.
Qed.

Notation okd := (fun e : ent => is_nan (e_d e) = false).

Lemma lb_at U V t : is_nan t = false -> Forall okd (U ++ V) ->
  (forall e, In e U -> (f32_key (e_d e) < f32_key t)%Z) ->
  (forall e, In e V -> (f32_key t <= f32_key (e_d e))%Z) ->
  lb (map e_d (U ++ V)) t = length U.
Proof.
  intros Ht. induction U as [|e U IH]; cbn [app map lb length]; intros HN HU HV.
  - destruct V as [|e V]; [reflexivity|]. cbn [map lb]. inv HN.
    assert (X : f32_ge (e_d e) t = true).
    { unfold f32_ge. apply f32_le_spec. repeat split; auto. apply HV. now left. }
    now rewrite X.
  - inv HN. assert (X : f32_ge (e_d e) t = false).
    { unfold f32_ge. destruct (f32_le t (e_d e)) eqn:Z; [|reflexivity].
      apply f32_le_spec in Z. specialize (HU e (or_introl eq_refl)). lia. }
    rewrite X. f_equal. apply IH; auto. intros e' He'. apply HU. now right.
Qed.

(** A split of the candidates is a split of the entries. *)
Lemma ent_split (E : list ent) A B : map e_nbr E = A ++ B ->
  exists U V, E = U ++ V /\ map e_nbr U = A /\ map e_nbr V = B.
Proof.
  intros H. exists (firstn (length A) E), (skipn (length A) E). rewrite firstn_skipn. split; auto.
  split.
  - rewrite <- firstn_map, H, firstn_app, firstn_all, Nat.sub_diag. cbn. now rewrite app_nil_r.
  - rewrite <- skipn_map', H, skipn_app, skipn_all, Nat.sub_diag. reflexivity.
Qed.

Lemma ins_split E A B x : map e_nbr E = A ++ B -> Forall okd E -> is_nan (n_dist x) = false ->
  (forall y, In y A -> klt y x) -> (forall y, In y B -> (key x <= key y)%Z) ->
  map e_nbr (ins (new_ent x) E) = A ++ x :: B.
Proof.
  intros HE HN Hx HA HB. destruct (ent_split E A B HE) as (U & V & -> & HU & HV).
  unfold ins. cbn [e_d new_ent].
  rewrite lb_at; auto.
  - rewrite firstn_app, firstn_all, Nat.sub_diag, skipn_app, skipn_all, Nat.sub_diag.
    cbn [firstn skipn app]. rewrite app_nil_r, map_app. cbn [map]. rewrite HU, HV.
    destruct x. reflexivity.
  - intros e He. apply (HA (e_nbr e)). rewrite <- HU. now apply in_map.
  - intros e He. apply (HB (e_nbr e)). rewrite <- HV. now apply in_map.
Qed.

Lemma in_remove_mid {A} (y : A) U e V : In y (U ++ V) -> In y (U ++ e :: V).
Proof. rewrite !in_app_iff. cbn. tauto. Qed.

Lemma ss_mid U e V : StronglySorted ele (U ++ e :: V) -> StronglySorted ele (U ++ V).
Proof.
  induction U as [|z U IH]; cbn [app]; intros H; inv H; auto. constructor; auto.
  rewrite Forall_forall in *. intros y Hy. apply H3. now apply in_remove_mid.
Qed.

Lemma pq_remove_spec {s} q E w : WFg s q E -> is_nan (n_dist w) = false ->
  exists q' b, pq_remove q w = Some (q', b) /\
    q_cap q' = q_cap q /\ q_L q' = q_L q /\ q_auto q' = q_auto q /\
    ((b = false /\ q' = q) \/
     (b = true /\ exists U e V, E = U ++ e :: V /\ length U = lb (map e_d E) (n_dist w) /\
        e_id e = n_id w /\ WFg false q' (U ++ V) /\
        q_cur q' = (if length U <? q_cur q then q_cur q - 1 else q_cur q))).
Proof.
  intros W Hw. pose proof W as W0. destruct W as [R Wc Wn Ws Wb Wv Wu Wp WL].
  pose proof R as R0. destruct R as [Ri Rd Rs].
  unfold pq_remove. rewrite Rs. destruct (Nat.eqb_spec (length E) 0) as [H0|H0].
  { exists q, false. repeat split; auto. }
  rewrite lower_bound_lb by (rewrite Rd, map_length; exact Rs). rewrite Rd.
  set (i := lb (map e_d E) (n_dist w)).
  destruct (Nat.ltb_spec i (length E)) as [Hi|Hi].
  2:{ exists q, false. repeat split; auto. }
  rewrite (rel_get q E) by exact R0.
  destruct (nth_error E i) as [e|] eqn:Ne; [|apply nth_error_None in Ne; lia].
  cbn [option_map e_nbr n_id]. destruct (Nat.eqb_spec (e_id e) (n_id w)) as [Ee|Ee].
  2:{ exists q, false. repeat split; auto. }
  apply nth_error_split in Ne. destruct Ne as (U & V & EE & LU).
  unfold vec_remove. rewrite Ri, !map_length. destruct (Nat.ltb_spec i (length E)); [|lia].
  eexists. exists true. split; [reflexivity|]. cbn [q_cap q_L q_auto].
  repeat split; auto. right. split; [reflexivity|]. exists U, e, V. split; [exact EE|].
  split; [exact LU|]. split; [exact Ee|].
  assert (F : forall {B} (f : ent -> B), firstn i (map f E) ++ skipn (S i) (map f E) = map f (U ++ V)).
  { intros B f. rewrite EE, !map_app. cbn [map]. rewrite <- LU. rewrite <- (map_length f U).
    rewrite firstn_app, firstn_all, Nat.sub_diag. cbn [firstn]. rewrite app_nil_r. f_equal.
    rewrite skipn_app, skipn_all2 by lia.
    replace (S (length (map f U)) - length (map f U)) with 1 by lia. reflexivity. }
  assert (LE : length E = S (length (U ++ V))).
  { rewrite EE, !app_length. cbn [length]. lia. }
  split.
  - constructor; cbn [q_cap q_cur q_auto q_L].
    + constructor; cbn [q_idv q_dist q_size]; auto. lia.
    + lia.
    + rewrite EE in Wn. rewrite Forall_app in *. destruct Wn as [N1 N2]. inv N2. auto.
    + rewrite EE in Ws. now apply ss_mid in Ws.
    + destruct (Nat.ltb_spec i (q_cur q)), (Nat.ltb_spec 0 (q_cur q)); cbn [andb];
        rewrite ?app_length in *; lia.
    + intros j f Hj Nf.
      destruct (Nat.ltb_spec i (q_cur q)) as [Hc|Hc].
      * destruct (Nat.ltb_spec 0 (q_cur q)); [|lia]. cbn [andb] in Hj.
        destruct (Nat.lt_ge_cases j (length U)) as [Hju|Hju].
        -- apply (Wv j); [lia|]. rewrite EE, nth_error_app1 by lia.
           now rewrite nth_error_app1 in Nf by lia.
        -- apply (Wv (S j)); [lia|]. rewrite EE, nth_error_app2 by lia.
           rewrite nth_error_app2 in Nf by lia.
           replace (S j - length U) with (S (j - length U)) by lia. exact Nf.
      * cbn [andb] in Hj. apply (Wv j); [lia|]. rewrite EE, nth_error_app1 by lia.
        now rewrite nth_error_app1 in Nf by lia.
    + discriminate.
    + exact Wp.
    + exact WL.
  - cbn [q_cur]. rewrite LU. destruct (Nat.ltb_spec i (q_cur q)), (Nat.ltb_spec 0 (q_cur q)); cbn [andb]; auto; lia.
Qed.

(** Removing an entry at its place. *)
Lemma pq_remove_exact {s} q E w A B : WFg s q E -> is_nan (n_dist w) = false ->
  map e_nbr E = A ++ w :: B -> (forall y, In y A -> klt y w) ->
  exists q' U V, pq_remove q w = Some (q', true) /\ map e_nbr U = A /\ map e_nbr V = B /\
    WFg false q' (U ++ V).
Proof.
  intros W Hw HE HA. destruct (ent_split E A (w :: B) HE) as (U & V0 & EE & HU & HV0).
  destruct V0 as [|e V]; [discriminate|]. cbn [map] in HV0. injection HV0 as He HV.
  pose proof (w_rel _ _ W) as R. destruct R as [Ri Rd Rs].
  assert (LB : lb (map e_d E) (n_dist w) = length U).
  { rewrite EE. apply lb_at; auto.
    - rewrite <- EE. apply (w_nan _ _ W).
    - intros f Hf. apply (HA (e_nbr f)). rewrite <- HU. now apply in_map.
    - pose proof (w_sort _ _ W) as S. rewrite EE in S. intros f Hf.
      assert (De : e_d e = n_dist w) by (rewrite <- He; reflexivity).
      destruct Hf as [<-|Hf]; [rewrite De; lia|].
      assert (X : StronglySorted ele (e :: V)).
      { clear -S. induction U as [|z U IH]; [exact S|]. cbn [app] in S. inv S. auto. }
      inv X. rewrite Forall_forall in H2. specialize (H2 f Hf). unfold ele in H2. now rewrite De in H2. }
  destruct (pq_remove_spec q E w W Hw) as (q' & b & Rm & _ & _ & _ & [(-> & ->)|(-> & U' & e' & V' & EE' & LU & Id & W' & _)]).
  - exfalso. unfold pq_remove in Rm. rewrite Rs in Rm.
    assert (LE : length E = length U + S (length V)) by (rewrite EE, app_length; reflexivity).
    destruct (Nat.eqb_spec (length E) 0); [lia|].
    rewrite lower_bound_lb in Rm by (rewrite Rd, map_length; exact Rs). rewrite Rd, LB in Rm.
    destruct (Nat.ltb_spec (length U) (length E)); [|lia].
    rewrite (rel_get q E) in Rm by (apply (w_rel _ _ W)).
    rewrite EE, nth_error_app2, Nat.sub_diag in Rm by lia. cbn [nth_error option_map] in Rm.
    rewrite He, Nat.eqb_refl in Rm.
    destruct (vec_remove (length U) (q_idv q)); [|discriminate].
    destruct (vec_remove (length U) (map e_d (U ++ e :: V))); discriminate.
  - exists q', U, V. split; [exact Rm|]. split; [exact HU|]. split; [exact HV|].
    assert (U' = U /\ V' = V) as [-> ->]; [|exact W'].
    rewrite LB in LU. rewrite EE in EE'. clear -LU EE'.
    revert U' LU EE'. induction U as [|z U IH]; intros [|z' U'] LU EE'; try discriminate.
    + cbn in EE'. inv EE'. auto.
    + cbn [app length] in *. injection EE' as -> EE'. destruct (IH U') as [-> ->]; auto.
Qed.

Lemma insert_at_cur q x q' : insert_at q x = Some q' -> q_size q < q_cap q ->
  q_cur q' = let idx := if 0 <? q_size q then lower_bound q (n_dist x) else 0 in
             if idx <? q_cur q then idx else q_cur q.
Proof.
  unfold insert_at. intros H Hs. destruct (Nat.eqb_spec (q_size q) (q_cap q)); [lia|].
  cbn [andb] in H. destruct (vec_insert _ _ _); [|discriminate].
  destruct (vec_insert _ _ _); [|discriminate]. inv H. reflexivity.
Qed.

(** Replacing a removed entry by a closer one: the entry under the cursor is not visited. *)
Lemma remove_insert q E w x q1 b q2 E2 : WF q E -> q_auto q = false ->
  f32_lt (n_dist x) (n_dist w) = true ->
  pq_remove q w = Some (q1, b) -> pq_insert q1 x = Some q2 -> WFg false q2 E2 ->
  WF q2 E2.
Proof.
  intros W Ha Hlt Rm In2 W2. apply f32_lt_spec in Hlt. destruct Hlt as (Nx & Nw & Hlt).
  destruct (pq_remove_spec q E w W Nw) as (q1' & b' & Rm' & Ec & EL & Ea & [(-> & ->)|(-> & U & e & V & EE & LU & Id & W1 & Cu)]).
  - assert (q1 = q) as -> by congruence.
    destruct (pq_insert_spec q E x W) as (q2' & E2' & I & W2' & _).
    assert (q2' = q2) as -> by congruence. rewrite (rel_fun q2 E2 E2'); auto; [apply (w_rel _ _ W2)|apply (w_rel _ _ W2')].
  - assert (q1' = q1) as -> by congruence. subst E.
    destruct (pq_insert_spec q1 (U ++ V) x W1) as (q2' & E2' & I & W2' & _ & _ & Ec2 & _ & Eq).
    assert (q2' = q2) as -> by congruence.
    assert (E2 = E2') as -> by (apply (rel_fun q2); [apply (w_rel _ _ W2)|apply (w_rel _ _ W2')]).
    rewrite Nx in Eq. rewrite Ec2 in Eq by congruence. rewrite Ec in Eq.
    pose proof (w_rel _ _ W1) as [Ri Rd Rs].
    assert (LE : length (U ++ e :: V) = S (length (U ++ V))).
    { rewrite !app_length. cbn [length]. lia. }
    pose proof (w_cap _ _ W) as CE. rewrite LE in CE.
    assert (Sm : q_size q1 < q_cap q1) by (rewrite Rs, Ec; lia).
    assert (IA : insert_at q1 x = Some q2).
    { unfold pq_insert in In2. rewrite Nx in In2. rewrite Ea, Ha in In2.
      destruct (Nat.eqb_spec (q_size q1) (q_cap q1)); [lia|exact In2]. }
    pose proof (insert_at_cur q1 x q2 IA Sm) as Cu2. cbv zeta in Cu2.
    assert (Idx : (if 0 <? q_size q1 then lower_bound q1 (n_dist x) else 0) = lb (map e_d (U ++ V)) (n_dist x)).
    { destruct (Nat.ltb_spec 0 (q_size q1)).
      - rewrite lower_bound_lb by (rewrite Rd, map_length; exact Rs). now rewrite Rd.
      - destruct (U ++ V); [reflexivity|cbn in Rs; lia]. }
    rewrite Idx in Cu2. set (i := lb (map e_d (U ++ V)) (n_dist x)) in *.
    assert (Hi : i <= length U).
    { pose proof (w_nan _ _ W1) as WN. unfold i. rewrite map_app, lb_app, map_length.
      destruct (Nat.ltb_spec (lb (map e_d U) (n_dist x)) (length U)); [lia|].
      destruct V as [|f V]; [cbn; lia|]. cbn [map lb].
      assert (X : f32_ge (e_d f) (n_dist x) = true).
      { unfold f32_ge. apply f32_le_spec. rewrite Forall_app in WN. destruct WN as [_ WN]. inv WN.
        repeat split; auto.
        destruct (lb_split (U ++ e :: f :: V) (new_ent w)) as [_ B2];
          [apply (w_nan _ _ W)|exact Nw|apply (w_sort _ _ W)|].
        cbn [e_d new_ent] in B2. rewrite <- LU in B2.
        rewrite skipn_app, skipn_all, Nat.sub_diag in B2. cbn [skipn app] in B2.
        rewrite Forall_forall in B2. assert (X := B2 f (or_intror (or_introl eq_refl))). lia. }
      rewrite X. lia. }
    assert (Ln : length (ins (new_ent x) (U ++ V)) <= q_cap q).
    { rewrite ins_length. lia. }
    rewrite (firstn_all2 _ Ln) in Eq. subst E2'.
    destruct W2' as [R' Wc' Wn' Ws' Wb' Wv' Wu' Wp' WL']. constructor; auto.
    intros _ f Nf. rewrite nth_ins in Nf. cbn [e_d new_ent] in Nf. fold i in Nf.
    rewrite Cu2 in Nf. destruct (Nat.ltb_spec i (q_cur q1)) as [H1|H1].
    + rewrite Nat.ltb_irrefl, Nat.eqb_refl in Nf. inv Nf. reflexivity.
    + destruct (Nat.ltb_spec (q_cur q1) i) as [H2|H2].
      * rewrite nth_error_app1 in Nf by lia.
        rewrite Cu in *. destruct (Nat.ltb_spec (length U) (q_cur q)); [lia|].
        apply (w_cur _ _ W eq_refl). now rewrite nth_error_app1 by lia.
      * destruct (Nat.eqb_spec (q_cur q1) i); [|lia]. inv Nf. reflexivity.
Qed.
