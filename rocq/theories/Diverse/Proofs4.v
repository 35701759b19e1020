(** The invariant of the diverse queue and its preservation by [insert]. *)
From Verif.Lib Require Import Base Lists F32.
From Verif.Queue Require Import Proofs.
From Verif.Diverse Require Import Model Spec Proofs Proofs2 Proofs3.

Lemma klt_le x y : klt x y -> (key x <= key y)%Z.
Proof. unfold klt. lia. Qed.

Section inv.
Variable attr : nat -> option nat.
Notation alike := (alike attr).
Notation coe := (closest_of_each attr).
Notation usable := (usable attr).

Definition has (b : nat) (y : nbr) : bool :=
  match attr (n_id y) with Some a => a =? b | None => false end.

Lemma alike_has x a : attr (n_id x) = Some a -> forall y, alike x y = has a y.
Proof.
  intros H y. unfold Spec.alike, has. rewrite H. destruct (attr (n_id y)); auto. apply Nat.eqb_sym.
Qed.
Lemma filter_has x a l : attr (n_id x) = Some a -> filter (alike x) l = filter (has a) l.
Proof. intros H. apply filter_ext. now apply alike_has. Qed.

Lemma loc_get_set m a q : forall b, loc_get (loc_set m a q) b = if a =? b then Some q else loc_get m b.
Proof.
  intros b. induction m as [|[z p] m IH]; cbn [loc_set loc_get].
  - reflexivity.
  - destruct (Nat.eqb_spec z a) as [->|Hz]; cbn [loc_get].
    + destruct (Nat.eqb_spec a b); auto.
    + rewrite IH. destruct (Nat.eqb_spec z b) as [->|]; auto.
      destruct (Nat.eqb_spec a b); [congruence|auto].
Qed.

Lemma loc_set_in m a q : forall b, In b (map fst (loc_set m a q)) -> b = a \/ In b (map fst m).
Proof.
  induction m as [|[z p] m IH]; cbn [loc_set map fst]; intros b H.
  - destruct H as [<-|[]]. now left.
  - destruct (z =? a); cbn [map fst] in H; destruct H as [<-|H]; try (right; now left).
    + right. now right.
    + destruct (IH b H); [now left|right; now right].
Qed.
Lemma loc_set_keys m a q : NoDup (map fst m) -> NoDup (map fst (loc_set m a q)).
Proof.
  induction m as [|[z p] m IH]; cbn [loc_set map fst]; intros H.
  - repeat constructor. intros [].
  - inv H. destruct (Nat.eqb_spec z a) as [->|Hz]; cbn [map fst].
    + now constructor.
    + constructor; [|now apply IH]. intros X. destruct (loc_set_in _ _ _ _ X); auto.
Qed.

Variables c L : nat.
Hypothesis Hc : 0 < c.
Hypothesis HL : 0 < L.

Definition loc_ok (q : pq) : Prop :=
  q_auto q = false /\ q_cap q = c /\ q_L q = c /\ exists E, WFg false q E.

Definition locs_exact (m : list (nat * pq)) (G : list nbr) : Prop :=
  forall b, match loc_get m b with
            | Some q => exists E, Rel q E /\ map e_nbr E = filter (has b) G
            | None => filter (has b) G = []
            end.

Record Inv (d : dq) (xs : list nbr) (EG : list ent) : Prop := {
  i_glob : WF (d_glob d) EG;
  i_auto : q_auto (d_glob d) = false;
  i_cap : q_cap (d_glob d) = L;
  i_L : q_L (d_glob d) = L;
  i_c : d_l d = c;
  i_loc : forall b q, loc_get (d_loc d) b = Some q -> loc_ok q;
  i_keys : NoDup (map fst (d_loc d));
  i_in : forall e, In e EG -> In (e_nbr e) (usable xs);
  i_nd : NoDup (map e_id EG);
  i_exact : no_ties (usable xs) ->
    exists S, StronglySorted klt S /\ Permutation S (usable xs) /\
      map e_nbr EG = firstn L (coe c [] S) /\ locs_exact (d_loc d) (map e_nbr EG)
}.

Lemma new_local : loc_ok (pq_new c).
Proof.
  repeat split. exists []. pose proof (new_wf c false Hc) as W. destruct W; constructor; auto.
Qed.

Lemma locs_exact_set m G G' a q E : locs_exact m G ->
  (forall b, b <> a -> filter (has b) G' = filter (has b) G) ->
  Rel q E -> map e_nbr E = filter (has a) G' -> locs_exact (loc_set m a q) G'.
Proof.
  intros H HG R HE b. rewrite loc_get_set. destruct (Nat.eqb_spec a b) as [<-|Hb].
  - exists E. auto.
  - specialize (H b). rewrite HG by auto. exact H.
Qed.

Lemma usable_snoc xs x : usable (xs ++ [x]) =
  usable xs ++ (if negb (is_nan (n_dist x)) && match attr (n_id x) with Some _ => true | None => false end
                then [x] else []).
Proof. unfold Spec.usable. rewrite filter_app. reflexivity. Qed.

Lemma usable_in x xs : In x (usable xs) <-> In x xs /\ is_nan (n_dist x) = false /\ exists a, attr (n_id x) = Some a.
Proof.
  unfold Spec.usable. rewrite filter_In, andb_true_iff, negb_true_iff.
  destruct (attr (n_id x)) as [a|]; split; intros (H1 & H2 & H3); repeat split; auto; try discriminate.
  - eauto.
  - destruct H3; discriminate.
Qed.

Lemma not_full_len q E : Rel q E -> q_auto q = false -> length E <= q_cap q ->
  is_full q = false -> length E < q_cap q.
Proof.
  intros R A Hl F. unfold is_full in F. rewrite A, (r_size _ _ R) in F. cbn in F.
  apply Nat.eqb_neq in F. lia.
Qed.
Lemma full_len q E : Rel q E -> q_auto q = false -> is_full q = true -> length E = q_cap q.
Proof.
  intros R A F. unfold is_full in F. rewrite A, (r_size _ _ R) in F. cbn in F. now apply Nat.eqb_eq in F.
Qed.

Lemma last_split {A} (l : list A) m x : length l = S m -> nth_error l m = Some x ->
  exists l0, l = l0 ++ [x].
Proof.
  intros Hl Hn. exists (firstn m l). rewrite <- (firstn_S_nth l m x Hn).
  symmetry. apply firstn_all2. lia.
Qed.

Lemma no_ties_snoc xs x : no_ties (xs ++ [x]) -> no_ties xs /\ ~ In (key x) (map key xs).
Proof.
  unfold no_ties. rewrite map_app. intros H. apply NoDup_app_inv in H.
  destruct H as (H1 & _ & H2). split; auto. intros Hin. apply (H2 (key x)); auto. now left.
Qed.

Lemma ins_ids_nodup x (E : list ent) n : NoDup (map e_id E) -> ~ In (n_id x) (map e_id E) ->
  NoDup (map e_id (firstn n (ins (new_ent x) E))).
Proof.
  intros H1 H2. rewrite <- firstn_map. apply NoDup_firstn.
  eapply Permutation_NoDup; [apply Permutation_map, Permutation_sym, ins_perm|].
  cbn [map new_ent e_id]. now constructor.
Qed.

Lemma ins_in x E n e : In e (firstn n (ins (new_ent x) E)) -> In e E \/ e = new_ent x.
Proof.
  intros H. apply in_firstn in H. eapply Permutation_in in H; [|apply ins_perm].
  destruct H as [<-|H]; auto.
Qed.

Lemma new_ent_nbr x : e_nbr (new_ent x) = x.
Proof. now destruct x. Qed.

Lemma klt_firstn n (l : list nbr) : StronglySorted klt l -> StronglySorted klt (firstn n l).
Proof.
  intros H. rewrite <- (firstn_skipn n l) in H. now apply klt_app in H.
Qed.

Lemma filter_other b x a (U V : list nbr) : attr (n_id x) = Some a -> b <> a ->
  filter (has b) (U ++ x :: V) = filter (has b) (U ++ V).
Proof.
  intros Hx Hb. rewrite !filter_app. cbn [filter]. unfold has at 2. rewrite Hx.
  destruct (Nat.eqb_spec a b); [congruence|reflexivity].
Qed.
Lemma filter_own x a (U V : list nbr) : attr (n_id x) = Some a ->
  filter (has a) (U ++ x :: V) = filter (has a) U ++ x :: filter (has a) V.
Proof.
  intros Hx. rewrite filter_app. cbn [filter]. unfold has at 2. now rewrite Hx, Nat.eqb_refl.
Qed.

Lemma dq_insert_inv d xs EG x : Inv d xs EG -> ~ In (n_id x) (map n_id xs) ->
  exists d' EG', dq_insert attr d x = Some d' /\ Inv d' (xs ++ [x]) EG' /\ d_k d' = d_k d /\
    forall e, In e EG' -> In e EG \/ e = new_ent x.
Proof.
  intros I Hid. pose proof I as I0. destruct I as [IG IA IC IL Ic Iloc Iky Iin Ind Iex].
  unfold dq_insert. destruct (attr (n_id x)) as [a|] eqn:Ha.
  2:{ exists d, EG. split; [reflexivity|]. split; [|auto].
      assert (U : usable (xs ++ [x]) = usable xs).
      { rewrite usable_snoc, Ha, andb_false_r, app_nil_r. reflexivity. }
      constructor; auto; rewrite U; auto. }
  set (loc := match loc_get (d_loc d) a with Some q => q | None => pq_new (d_l d) end).
  assert (LO : loc_ok loc).
  { unfold loc. destruct (loc_get (d_loc d) a) eqn:E; [eauto|]. rewrite Ic. apply new_local. }
  destruct LO as (LA & LC & LL & Ea & WLo).
  assert (Lex : forall G, locs_exact (d_loc d) G -> map e_nbr Ea = filter (has a) G).
  { intros G H. specialize (H a). unfold loc in *. destruct (loc_get (d_loc d) a) as [q|] eqn:E.
    - destruct H as (E' & R' & <-). rewrite (rel_fun q Ea E'); auto. apply (w_rel _ _ WLo).
    - rewrite H. pose proof (w_rel _ _ WLo) as R. destruct R as [_ _ Rs]. cbn in Rs.
      destruct Ea; [reflexivity|discriminate]. }
  assert (RG := w_rel _ _ IG). assert (RLo := w_rel _ _ WLo).
  pose proof (w_cap _ _ WLo) as CLo. rewrite LC in CLo.
  pose proof (w_cap _ _ IG) as CG. rewrite IC in CG.
  assert (Hide : ~ In (n_id x) (map e_id EG)).
  { intros H. apply Hid. apply in_map_iff in H. destruct H as (e & E & He). specialize (Iin e He).
    apply usable_in in Iin. destruct Iin as [Iin _]. apply in_map_iff. exists (e_nbr e). auto. }
  (* keeping the queues *)
  assert (KEEP : (is_nan (n_dist x) = true \/
                  (is_nan (n_dist x) = false /\
                   forall P Q, (forall y, In y P -> klt y x) -> (forall y, In y Q -> klt x y) ->
                     StronglySorted klt (P ++ Q) -> ~ In (key x) (map key (P ++ Q)) ->
                     map e_nbr EG = firstn L (coe c [] (P ++ Q)) ->
                     map e_nbr Ea = filter (has a) (map e_nbr EG) ->
                     firstn L (coe c [] (P ++ x :: Q)) = map e_nbr EG)) ->
    Inv (mkDq (d_glob d) (loc_set (d_loc d) a loc) (d_l d) (d_k d)) (xs ++ [x]) EG).
  { intros HK. constructor; cbn [d_glob d_loc d_l d_k]; auto.
    - intros b q. rewrite loc_get_set. destruct (a =? b); [|apply Iloc].
      intros [= <-]. repeat split; eauto.
    - now apply loc_set_keys.
    - intros e He. rewrite usable_snoc. apply in_or_app. left. auto.
    - intros NT. destruct HK as [HN|[HN HK]].
      + assert (U : usable (xs ++ [x]) = usable xs).
        { rewrite usable_snoc, HN. cbn. now rewrite app_nil_r. }
        rewrite U in *. destruct (Iex NT) as (S & S1 & S2 & S3 & S4). exists S. repeat split; auto.
        eapply locs_exact_set; eauto.
      + assert (U : usable (xs ++ [x]) = usable xs ++ [x]).
        { rewrite usable_snoc, HN, Ha. reflexivity. }
        rewrite U in *. apply no_ties_snoc in NT. destruct NT as [NT NK].
        destruct (Iex NT) as (S & S1 & S2 & S3 & S4).
        assert (NK' : ~ In (key x) (map key S)).
        { intros H. apply NK. eapply Permutation_in; [apply Permutation_map, S2|exact H]. }
        destruct (klt_split x S S1 NK') as (P & Q & -> & HP & HQ).
        exists (P ++ x :: Q). destruct (klt_app P Q S1) as (SP & SQ & SPQ). repeat split.
        * apply klt_app_intro; auto.
          -- constructor; auto. rewrite Forall_forall. auto.
          -- intros y z Hy [<-|Hz]; auto.
        * rewrite <- Permutation_middle. rewrite <- Permutation_cons_append. now constructor.
        * symmetry. apply HK; auto.
        * eapply locs_exact_set; eauto. }
  destruct (is_nan (n_dist x)) eqn:Nx.
  { (* a distance that is not a number changes nothing *)
    assert (Xl : pq_insert loc x = Some loc) by (unfold pq_insert; now rewrite Nx).
    assert (Xg : pq_insert (d_glob d) x = Some (d_glob d)) by (unfold pq_insert; now rewrite Nx).
    assert (Lt : forall w, f32_lt (n_dist x) w = false) by (intros w; unfold f32_lt; now rewrite Nx).
    exists (mkDq (d_glob d) (loc_set (d_loc d) a loc) (d_l d) (d_k d)), EG.
    split; [|split; [apply KEEP; now left|auto]].
    destruct (negb (is_full loc) && negb (is_full (d_glob d))) eqn:F.
    - now rewrite Xl, Xg.
    - destruct (is_full loc) eqn:F1.
      + rewrite Ic. destruct c as [|m] eqn:Ec; [lia|].
        rewrite (rel_pq_get loc Ea) by exact RLo.
        pose proof (full_len loc Ea RLo LA F1) as FL. rewrite LC in FL.
        destruct (nth_error Ea m) as [e|] eqn:Ne; [|apply nth_error_None in Ne; lia].
        cbn [option_map]. now rewrite Lt.
      + assert (F2 : is_full (d_glob d) = true) by (destruct (is_full (d_glob d)); auto).
        rewrite IL. destruct L as [|m] eqn:EL; [lia|].
        rewrite (rel_pq_get (d_glob d) EG) by exact RG.
        pose proof (full_len _ EG RG IA F2) as FL. rewrite IC in FL.
        destruct (nth_error EG m) as [e|] eqn:Ne; [|apply nth_error_None in Ne; lia].
        cbn [option_map]. now rewrite Lt. }
  (* a proper candidate *)
  assert (Hxx : alike x x = true) by (rewrite (alike_has x a Ha); unfold has; rewrite Ha; apply Nat.eqb_refl).
  assert (U : usable (xs ++ [x]) = usable xs ++ [x]) by (rewrite usable_snoc, Nx, Ha; reflexivity).
  assert (Ux : In x (usable (xs ++ [x]))) by (rewrite U; apply in_or_app; right; now left).
  assert (NEW : forall glob' EG' m',
    WF glob' EG' -> q_auto glob' = false -> q_cap glob' = L -> q_L glob' = L ->
    (forall b q, loc_get m' b = Some q -> loc_ok q) -> NoDup (map fst m') ->
    (forall e, In e EG' -> In e EG \/ e = new_ent x) -> NoDup (map e_id EG') ->
    (forall P Q, (forall y, In y P -> klt y x) -> (forall y, In y Q -> klt x y) ->
       StronglySorted klt (P ++ Q) -> ~ In (key x) (map key (P ++ Q)) ->
       StronglySorted klt (map e_nbr EG) ->
       map e_nbr EG = firstn L (coe c [] (P ++ Q)) ->
       locs_exact (d_loc d) (map e_nbr EG) ->
       map e_nbr EG' = firstn L (coe c [] (P ++ x :: Q)) /\ locs_exact m' (map e_nbr EG')) ->
    exists EG', Some (mkDq glob' m' (d_l d) (d_k d)) =
                Some (mkDq glob' m' (d_l d) (d_k d)) /\
      Inv (mkDq glob' m' (d_l d) (d_k d)) (xs ++ [x]) EG' /\ d_k d = d_k d /\
      forall e, In e EG' -> In e EG \/ e = new_ent x).
  { intros glob' EG' m' W' A' C' L' Lo' Ky' In' Nd' Ex'. exists EG'. split; [reflexivity|].
    split; [|auto]. constructor; cbn [d_glob d_loc d_l d_k]; auto.
    - intros e He. destruct (In' e He) as [H| ->].
      + rewrite U. apply in_or_app. left. auto.
      + rewrite new_ent_nbr. exact Ux.
    - rewrite U. intros NT. apply no_ties_snoc in NT. destruct NT as [NT NK].
      destruct (Iex NT) as (S & S1 & S2 & S3 & S4).
      assert (NK' : ~ In (key x) (map key S)).
      { intros H. apply NK. eapply Permutation_in; [apply Permutation_map, S2|exact H]. }
      destruct (klt_split x S S1 NK') as (P & Q & -> & HP & HQ).
      exists (P ++ x :: Q). destruct (klt_app P Q S1) as (SP & SQ & SPQ). split; [|split].
      + apply klt_app_intro; auto.
        * constructor; auto. rewrite Forall_forall. auto.
        * intros y z Hy [<-|Hz]; auto.
      + rewrite <- Permutation_middle. rewrite <- Permutation_cons_append. now constructor.
      + apply Ex'; auto. rewrite S3. apply klt_firstn. now apply coe_sorted. }
  assert (SETOK : forall q E, WFg false q E -> q_auto q = false -> q_cap q = c -> q_L q = c ->
    forall b p, loc_get (loc_set (d_loc d) a q) b = Some p -> loc_ok p).
  { intros q E WE A1 A2 A3 b p. rewrite loc_get_set. destruct (a =? b); [|apply Iloc].
    intros [= <-]. repeat split; eauto. }
  destruct (negb (is_full loc) && negb (is_full (d_glob d))) eqn:F.
  - (* both have room *)
    apply andb_prop in F. destruct F as [F1 F2]. apply negb_true_iff in F1, F2.
    destruct (pq_insert_spec loc Ea x WLo) as (loc' & Ea' & Pl & Wl & Ll & Al & Cl & _ & El).
    destruct (pq_insert_spec (d_glob d) EG x IG) as (glob' & EG' & Pg & Wg & Lg & Ag & Cg & _ & Eg).
    rewrite Pl, Pg, Nx in *. rewrite Cl in El by auto. rewrite Cg in Eg by auto.
    pose proof (not_full_len loc Ea RLo LA (w_cap _ _ WLo) F1) as N1.
    pose proof (not_full_len (d_glob d) EG RG IA (w_cap _ _ IG) F2) as N2. rewrite LC in *. rewrite IC in *.
    rewrite firstn_all2 in El by (rewrite ins_length; exact N1).
    rewrite firstn_all2 in Eg by (rewrite ins_length; exact N2). subst Ea' EG'.
    destruct (NEW glob' (ins (new_ent x) EG) (loc_set (d_loc d) a loc')) as (EG' & H); auto using loc_set_keys; try congruence.
    + eapply SETOK; eauto; try congruence; try (rewrite Cl; auto).
    + intros e He. eapply Permutation_in in He; [|apply ins_perm]. destruct He as [<-|He]; auto.
    + rewrite <- (firstn_all (ins (new_ent x) EG)). now apply ins_ids_nodup.
    + intros P Q HP HQ SPQ NK SG EqG LE. pose proof (Lex _ LE) as HEa.
      destruct (astep_room attr c L P Q x HP HQ Hxx) as (A & B & EA & EB & HA & HB).
      { rewrite <- EqG, (filter_has x a) by auto. rewrite <- HEa, map_length. exact N1. }
      { rewrite <- EqG, map_length. exact N2. }
      rewrite <- EqG in EA. rewrite EB.
      assert (HG' : map e_nbr (ins (new_ent x) EG) = A ++ x :: B).
      { apply ins_split; auto; [apply (w_nan _ _ IG)|]. intros y Hy. now apply klt_le, HB. }
      split; [exact HG'|]. rewrite HG'. eapply locs_exact_set; [exact LE| |apply (w_rel _ _ Wl)|].
      * intros b Hb. rewrite (filter_other b x a) by auto. now rewrite EA.
      * rewrite filter_own by auto. apply ins_split; auto.
        -- rewrite HEa, EA. apply filter_app.
        -- apply (w_nan _ _ WLo).
        -- intros y Hy. apply filter_In in Hy. now apply HA.
        -- intros y Hy. apply filter_In in Hy. now apply klt_le, HB.
    + exact (ex_intro _ _ (ex_intro _ EG' H)).
  - destruct (is_full loc) eqn:F1.
    + (* the local queue is full *)
      pose proof (full_len loc Ea RLo LA F1) as FL. rewrite LC in FL.
      rewrite Ic. destruct c as [|m] eqn:Ec; [lia|]. rewrite <- Ec in *.
      rewrite (rel_pq_get loc Ea) by exact RLo.
      destruct (nth_error Ea m) as [ew|] eqn:Ne; [|apply nth_error_None in Ne; lia].
      cbn [option_map]. set (w := e_nbr ew).
      assert (Nw : is_nan (n_dist w) = false).
      { pose proof (w_nan _ _ WLo) as WN. rewrite Forall_forall in WN. apply (WN ew).
        eapply nth_error_In; eauto. }
      destruct (last_split Ea m ew ltac:(lia) Ne) as (Ea0 & EEa).
      destruct (f32_lt (n_dist x) (n_dist w)) eqn:Lt.
      * (* closer than the worst of its own *)
        destruct (pq_remove_spec (d_glob d) EG w IG Nw) as (glob1 & b & Rm & Rc & RL & Ra & Rcase).
        rewrite Rm.
        destruct (pq_insert_spec loc Ea x WLo) as (loc' & Ea' & Pl & Wl & Ll & Al & Cl & _ & El).
        rewrite Nx in El. rewrite Cl, LC in El by auto. rewrite Pl.
        assert (G1 : exists E1, WFg false glob1 E1 /\ (forall e, In e E1 -> In e EG) /\ NoDup (map e_id E1)).
        { destruct Rcase as [(_ & ->)|(_ & U1 & e & V1 & EE & _ & _ & W1 & _)].
          - exists EG. split; [|auto]. destruct IG; constructor; auto.
          - exists (U1 ++ V1). split; [exact W1|]. split.
            + intros f Hf. rewrite EE. now apply in_remove_mid.
            + rewrite EE, map_app in Ind. cbn [map] in Ind. apply NoDup_remove_1 in Ind. now rewrite map_app. }
        destruct G1 as (E1 & W1 & In1 & Nd1).
        destruct (pq_insert_spec glob1 E1 x W1) as (glob' & EG' & Pg & Wg0 & Lg & Ag & Cg & _ & Eg).
        rewrite Nx in Eg. rewrite Cg, Rc, IC in Eg by congruence. rewrite Pg.
        pose proof (remove_insert _ _ _ _ _ _ _ _ IG IA Lt Rm Pg Wg0) as Wg.
        rewrite <- Ic.
        destruct (NEW glob' EG' (loc_set (d_loc d) a loc')) as (EG2 & H); auto using loc_set_keys; try congruence.
        -- rewrite Cg by congruence. congruence.
        -- eapply SETOK; eauto; try congruence; try (rewrite Cl; auto).
        -- intros e He. rewrite Eg in He. apply ins_in in He. destruct He as [He| ->]; auto.
        -- rewrite Eg. apply ins_ids_nodup; auto. intros H. apply Hide.
           apply in_map_iff in H. destruct H as (e & Ee & He). rewrite <- Ee. apply in_map. auto.
        -- intros P Q HP HQ SPQ NK SG EqG LE. pose proof (Lex _ LE) as HEa.
           apply f32_lt_spec in Lt. destruct Lt as (_ & _ & Lt).
           assert (Hcnt : length (filter (alike x) (map e_nbr EG)) = c).
           { rewrite (filter_has x a), <- HEa, map_length by auto. exact FL. }
           destruct (astep_near_local attr c L P Q x HP HQ Hxx w (map e_nbr Ea0))
             as (A & M & V & EA & EB & HV & HA & HB).
           { rewrite <- EqG. exact Hcnt. }
           { rewrite <- EqG, (filter_has x a), <- HEa, EEa, map_app by auto. reflexivity. }
           { exact Lt. }
           rewrite <- EqG in EA. rewrite EB. rewrite (filter_has x a) in HV by auto.
           assert (HM : forall y, In y (A ++ M) -> klt y w).
           { rewrite EA, app_assoc in SG. apply klt_app in SG. destruct SG as (_ & _ & SG).
             intros y Hy. apply SG; auto. now left. }
           destruct (pq_remove_exact (d_glob d) EG w (A ++ M) V IG Nw) as (glob1' & U1 & V1 & Rm' & EU & EV & W1').
           { rewrite EA. now rewrite <- app_assoc. }
           { exact HM. }
           assert (glob1' = glob1) as -> by congruence.
           assert (E1 = U1 ++ V1) as ->.
           { apply (rel_fun glob1); [apply (w_rel _ _ W1)|apply (w_rel _ _ W1')]. }
           assert (HG' : map e_nbr EG' = A ++ x :: M ++ V).
           { rewrite Eg. rewrite firstn_all2.
             - apply ins_split; auto.
               + rewrite map_app, EU, EV. now rewrite <- app_assoc.
               + apply (w_nan _ _ W1).
               + intros y Hy. apply klt_le, HB.
                 rewrite in_app_iff in *. cbn. tauto.
             - rewrite ins_length.
               assert (length (map e_nbr EG) = S (length (U1 ++ V1))).
               { rewrite EA. rewrite (app_length U1).
                 rewrite <- (map_length e_nbr U1), EU, <- (map_length e_nbr V1), EV.
                 rewrite !app_length. cbn [length]. clear. lia. }
               rewrite map_length in H. clear -H CG. lia. }
           split; [exact HG'|]. rewrite HG'. eapply locs_exact_set; [exact LE| |apply (w_rel _ _ Wl)|].
           ++ intros b' Hb. rewrite (filter_other b' x a) by auto. rewrite EA.
              assert (Hw : has b' w = false).
              { assert (In w (filter (has a) (map e_nbr EG))).
                { rewrite <- HEa. apply in_map. eapply nth_error_In; eauto. }
                apply filter_In in H. destruct H as [_ H]. unfold has in *.
                destruct (attr (n_id w)) as [z|]; [|reflexivity]. apply Nat.eqb_eq in H. subst z.
                apply Nat.eqb_neq. congruence. }
              rewrite !filter_app. cbn [filter]. now rewrite Hw.
           ++ rewrite filter_own, filter_app, HV, app_nil_r by auto. rewrite El, <- firstn_map.
              assert (Hw : has a w = true).
              { assert (In w (filter (has a) (map e_nbr EG))).
                { rewrite <- HEa. apply in_map. eapply nth_error_In; eauto. }
                apply filter_In in H. tauto. }
              assert (EF : map e_nbr Ea = filter (has a) A ++ filter (has a) M ++ [w]).
              { rewrite HEa, EA, !filter_app. cbn [filter]. rewrite Hw, HV. reflexivity. }
              rewrite (ins_split Ea _ _ x EF); auto.
              ** change (filter (has a) A ++ x :: filter (has a) M ++ [w])
                   with (filter (has a) A ++ (x :: filter (has a) M) ++ [w]).
                 rewrite app_assoc, firstn_app, firstn_all2.
                 --- assert (LF : length (filter (has a) A ++ filter (has a) M ++ [w]) = c)
                       by (rewrite <- EF, map_length; exact FL).
                     rewrite !app_length in LF. cbn [length] in LF.
                     replace (c - length (filter (has a) A ++ x :: filter (has a) M)) with 0
                       by (rewrite app_length; cbn [length]; clear -LF; lia).
                     cbn [firstn]. now rewrite app_nil_r.
                 --- assert (LF : length (filter (has a) A ++ filter (has a) M ++ [w]) = c)
                       by (rewrite <- EF, map_length; exact FL).
                     rewrite !app_length in LF. cbn [length] in LF. rewrite app_length. cbn [length]. clear -LF. lia.
              ** apply (w_nan _ _ WLo).
              ** intros y Hy. apply filter_In in Hy. now apply HA.
              ** intros y Hy. apply klt_le, HB.
                 apply in_app_or in Hy. apply in_or_app. destruct Hy as [Hy|[<-|[]]].
                 --- apply filter_In in Hy. now left.
                 --- right. now left.
        -- exact (ex_intro _ _ (ex_intro _ EG2 H)).
      * (* not closer *)
        rewrite <- Ic.
        exists (mkDq (d_glob d) (loc_set (d_loc d) a loc) (d_l d) (d_k d)), EG.
        split; [reflexivity|]. split; [|auto]. apply KEEP. right. split; [reflexivity|].
        intros P Q HP HQ SPQ NK EqG HEa.
        rewrite EqG. apply (astep_far_local attr c L P Q x HP HQ Hxx).
        { rewrite <- EqG, (filter_has x a), <- HEa, map_length by auto. exact FL. }
        intros y Hy Hyx. rewrite <- EqG in Hy.
        assert (Hw : In w (map e_nbr EG)).
        { assert (In w (filter (has a) (map e_nbr EG))).
          { rewrite <- HEa. apply in_map. eapply nth_error_In; eauto. }
          apply filter_In in H. tauto. }
        assert (Kw : klt w x).
        { apply f32_lt_false in Lt; auto.
          assert (key w <> key x); [|unfold klt, key in *; clear -Lt H; lia].
          intros E. apply NK. rewrite <- E. apply in_map. rewrite EqG in Hw.
          apply in_firstn in Hw. now apply coe_in in Hw. }
        assert (Hy' : In y (map e_nbr Ea)).
        { rewrite HEa. apply filter_In. split; auto. now rewrite <- (alike_has x a Ha). }
        rewrite EEa, map_app in Hy'. apply in_app_or in Hy'. destruct Hy' as [Hy'|[<-|[]]]; [|exact Kw].
        apply in_map_iff in Hy'. destruct Hy' as (ey & <- & Hey).
        pose proof (w_sort _ _ WLo) as SS. rewrite EEa in SS.
        assert (X := ss_split _ _ SS ey ew Hey (or_introl eq_refl)).
        exact (Z.le_lt_trans _ _ _ X Kw).
    + (* the local queue has room, the global one is full *)
      cbn [negb andb] in F. apply negb_false_iff in F.
      pose proof (full_len _ EG RG IA F) as FL. rewrite IC in FL.
      pose proof (not_full_len loc Ea RLo LA (w_cap _ _ WLo) F1) as N1. rewrite LC in N1.
      rewrite IL. destruct L as [|m] eqn:EL; [lia|]. rewrite <- EL in *.
      rewrite (rel_pq_get (d_glob d) EG) by exact RG.
      destruct (nth_error EG m) as [ew|] eqn:Ne; [|apply nth_error_None in Ne; lia].
      cbn [option_map]. set (w := e_nbr ew).
      assert (Iew : In ew EG) by (eapply nth_error_In; eauto).
      assert (Nw : is_nan (n_dist w) = false).
      { pose proof (w_nan _ _ IG) as WN. rewrite Forall_forall in WN. exact (WN ew Iew). }
      destruct (last_split EG m ew ltac:(lia) Ne) as (EG0 & EEG).
      destruct (f32_lt (n_dist x) (n_dist w)) eqn:Lt.
      * destruct (pq_insert_spec loc Ea x WLo) as (loc' & Ea' & Pl & Wl & Ll & Al & Cl & _ & El).
        destruct (pq_insert_spec (d_glob d) EG x IG) as (glob' & EG' & Pg & Wg & Lg & Ag & Cg & _ & Eg).
        rewrite Pl, Pg. rewrite Nx in El, Eg. rewrite Cl, LC in El by auto. rewrite Cg, IC in Eg by auto.
        rewrite firstn_all2 in El by (rewrite ins_length; exact N1). subst Ea'.
        pose proof (Iin ew Iew) as Uw. apply usable_in in Uw. destruct Uw as (_ & _ & b & Hb).
        fold w in Hb. rewrite Hb.
        assert (Lo' : forall b p, loc_get (loc_set (d_loc d) a loc') b = Some p -> loc_ok p).
        { eapply SETOK; eauto; try congruence; try (rewrite Cl; auto). }
        assert (EXACT : forall P Q, (forall y, In y P -> klt y x) -> (forall y, In y Q -> klt x y) ->
           StronglySorted klt (P ++ Q) -> StronglySorted klt (map e_nbr EG) ->
           map e_nbr EG = firstn L (coe c [] (P ++ Q)) -> locs_exact (d_loc d) (map e_nbr EG) ->
           exists A M, map e_nbr EG = A ++ M ++ [w] /\
             map e_nbr EG' = A ++ x :: M /\
             firstn L (coe c [] (P ++ x :: Q)) = A ++ x :: M /\
             map e_nbr (ins (new_ent x) Ea) =
               filter (has a) A ++ x :: filter (has a) M ++ (if b =? a then [w] else []) /\
             (forall y, In y (A ++ x :: M) -> klt y w)).
        { intros P Q HP HQ SPQ SG EqG LE. pose proof (Lex _ LE) as HEa.
          apply f32_lt_spec in Lt. destruct Lt as (_ & _ & Lt).
          destruct (astep_near_global attr c L P Q x HP HQ Hxx w (map e_nbr EG0)) as (A & M & EA & EB & HA & HB).
          { rewrite <- EqG, (filter_has x a), <- HEa, map_length by auto. exact N1. }
          { rewrite <- EqG, map_length. exact FL. }
          { rewrite <- EqG, EEG, map_app. reflexivity. }
          { exact Lt. }
          rewrite <- EqG in EA. exists A, M. split; [exact EA|].
          assert (LA' : length (A ++ M) + 1 = L).
          { apply (f_equal (@length nbr)) in EA. rewrite map_length, !app_length in EA. cbn [length] in EA.
            rewrite app_length. clear -EA FL. lia. }
          split; [|split; [exact EB|split]].
          - rewrite Eg, <- firstn_map, (ins_split EG A (M ++ [w]) x EA); auto.
            + change (A ++ x :: M ++ [w]) with (A ++ (x :: M) ++ [w]). rewrite app_assoc, firstn_app.
              rewrite firstn_all2 by (rewrite !app_length in *; cbn [length]; clear -LA'; lia).
              replace (L - length (A ++ x :: M)) with 0 by (rewrite !app_length in *; cbn [length]; clear -LA'; lia).
              cbn [firstn]. now rewrite app_nil_r.
            + apply (w_nan _ _ IG).
            + intros y Hy. now apply klt_le, HB.
          - apply ins_split; auto.
            + rewrite HEa, EA, !filter_app. cbn [filter]. unfold has at 3. rewrite Hb.
              destruct (b =? a); reflexivity.
            + apply (w_nan _ _ WLo).
            + intros y Hy. apply filter_In in Hy. now apply HA.
            + intros y Hy. apply klt_le, HB.
              apply in_app_or in Hy. apply in_or_app. destruct Hy as [Hy|Hy].
              * apply filter_In in Hy. now left.
              * destruct (b =? a); [|destruct Hy]. now right.
          - rewrite EA, app_assoc in SG. apply klt_app in SG. destruct SG as (_ & _ & SG).
            intros y Hy. apply in_app_or in Hy. destruct Hy as [Hy|[<-|Hy]].
            + apply SG; [apply in_or_app; now left|now left].
            + exact Lt.
            + apply SG; [apply in_or_app; now right|now left]. }
        assert (WG1 : forall e, In e EG' -> In e EG \/ e = new_ent x).
        { intros e He. rewrite Eg in He. now apply ins_in in He. }
        assert (WG2 : NoDup (map e_id EG')) by (rewrite Eg; now apply ins_ids_nodup).
        assert (WG3 : q_cap glob' = L) by (rewrite Cg; auto).
        destruct (loc_get (loc_set (d_loc d) a loc') b) as [other|] eqn:Go.
        -- destruct (Lo' b other Go) as (OA & OC & OL & Eo & WO).
           destruct (pq_remove_spec other Eo w WO Nw) as (other' & bo & Ro & Roc & RoL & RoA & Rcase).
           rewrite Ro.
           assert (WO' : exists E, WFg false other' E).
           { destruct Rcase as [(_ & ->)|(_ & U1 & e & V1 & _ & _ & _ & W1 & _)]; eauto. }
           destruct WO' as (Eo' & WO').
           destruct (NEW glob' EG' (loc_set (loc_set (d_loc d) a loc') b other')) as (EG2 & H);
             auto using loc_set_keys; try congruence.
           ++ intros b' p. rewrite loc_get_set. destruct (b =? b'); [|apply Lo'].
              intros [= <-]. repeat split; try congruence. eauto.
           ++ intros P Q HP HQ SPQ NK SG EqG LE.
              destruct (EXACT P Q HP HQ SPQ SG EqG LE) as (A & M & EA & EG'' & EB & EL' & HM).
              rewrite EB. split; [exact EG''|]. rewrite EG''.
              (* the local queue of the evicted entry before its removal *)
              assert (EO : map e_nbr Eo = filter (has b) (A ++ x :: M) ++ [w]).
              { rewrite loc_get_set in Go. destruct (Nat.eqb_spec a b) as [<-|Hab].
                - injection Go as <-.
                  rewrite (rel_fun loc' Eo (ins (new_ent x) Ea)); [|apply (w_rel _ _ WO)|apply (w_rel _ _ Wl)].
                  rewrite EL', Nat.eqb_refl, filter_own, <- app_assoc by auto. reflexivity.
                - pose proof (LE b) as LEb. rewrite Go in LEb. destruct LEb as (E'' & R'' & Q'').
                  rewrite (rel_fun other Eo E''); [|apply (w_rel _ _ WO)|exact R''].
                  rewrite Q'', EA, (filter_other b x a) by auto. rewrite app_assoc, filter_app.
                  cbn [filter]. unfold has at 2. rewrite Hb, Nat.eqb_refl. reflexivity. }
              destruct (pq_remove_exact other Eo w (filter (has b) (A ++ x :: M)) [] WO Nw EO)
                as (other2 & U1 & V1 & Ro' & EU & EV & W1').
              { intros y Hy. apply filter_In in Hy. now apply HM. }
              assert (other2 = other') as -> by congruence.
              intros b'. rewrite loc_get_set. destruct (Nat.eqb_spec b b') as [<-|Hbb].
              { exists (U1 ++ V1). split; [apply (w_rel _ _ W1')|]. rewrite map_app, EU, EV. apply app_nil_r. }
              rewrite loc_get_set. destruct (Nat.eqb_spec a b') as [<-|Hab].
              { exists (ins (new_ent x) Ea). split; [apply (w_rel _ _ Wl)|].
                rewrite EL', filter_own by auto. destruct (Nat.eqb_spec b a); [congruence|].
                now rewrite app_nil_r. }
              specialize (LE b'). rewrite EA in LE.
              rewrite (filter_other b' x a) by auto.
              rewrite app_assoc, filter_app in LE. cbn [filter] in LE. unfold has at 2 in LE. unfold has at 3 in LE.
              rewrite Hb in LE. destruct (Nat.eqb_spec b b'); [congruence|]. now rewrite app_nil_r in LE.
           ++ exact (ex_intro _ _ (ex_intro _ EG2 H)).
        -- destruct (NEW glob' EG' (loc_set (d_loc d) a loc')) as (EG2 & H); auto using loc_set_keys; try congruence.
           ++ intros P Q HP HQ SPQ NK SG EqG LE. exfalso.
              rewrite loc_get_set in Go. destruct (Nat.eqb_spec a b); [discriminate|].
              specialize (LE b). rewrite Go in LE.
              assert (In w (filter (has b) (map e_nbr EG))).
              { apply filter_In. split; [now apply in_map|]. unfold has. rewrite Hb. apply Nat.eqb_refl. }
              rewrite LE in H. destruct H.
           ++ exact (ex_intro _ _ (ex_intro _ EG2 H)).
      * exists (mkDq (d_glob d) (loc_set (d_loc d) a loc) (d_l d) (d_k d)), EG.
        split; [reflexivity|]. split; [|auto]. apply KEEP. right. split; [reflexivity|].
        intros P Q HP HQ SPQ NK EqG HEa. rewrite EqG.
        apply (astep_far_global attr c L P Q x HP HQ Hxx).
        { rewrite <- EqG, map_length. exact FL. }
        intros y Hy. rewrite <- EqG in Hy.
        assert (Hw : In w (map e_nbr EG)) by (now apply in_map).
        assert (Kw : klt w x).
        { apply f32_lt_false in Lt; auto.
          assert (key w <> key x); [|unfold klt, key in *; clear -Lt H; lia].
          intros E. apply NK. rewrite <- E. apply in_map. rewrite EqG in Hw.
          apply in_firstn in Hw. now apply coe_in in Hw. }
        rewrite EEG, map_app in Hy. apply in_app_or in Hy. destruct Hy as [Hy|[<-|[]]]; [|exact Kw].
        apply in_map_iff in Hy. destruct Hy as (ey & <- & Hey).
        pose proof (w_sort _ _ IG) as SS. rewrite EEG in SS.
        assert (X := ss_split _ _ SS ey ew Hey (or_introl eq_refl)).
        exact (Z.le_lt_trans _ _ _ X Kw).
Qed.
End inv.
