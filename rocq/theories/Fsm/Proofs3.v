(** The invariant of the shared state and the threads. *)
From Verif.Lib Require Import Base Lists.
From Verif.Fsm Require Import Model Spec Proofs Proofs2.
Local Open Scope N_scope.
Ltac Zify.zify_post_hook ::= Z.div_mod_to_equations.

Definition lim (h : sh) : N := match fresh h with Some f => f | None => next h end.
Definition known (L mb id : N) : Prop := id < L /\ block_of id <= mb.
Definition pc_ok (L mb : N) (m : option nat) (f : option N) (hi : list event) (t : nat) (p : pc) : Prop :=
  match p with
  | NCheck _ id | NRmw _ id | FSub id | FPush id => known L mb id
  | NAdd q id | NDone q id => In (Alloc id q) hi
  | RBlock _ b id nid mb0 _ => id = b * block_ids /\ mb0 <= mb /\ nid <= L
  | RPush _ cands stop b id nid mb0 _ => (forall x, In x cands -> known L mb x) /\ (stop = false -> id = (b + 1) * block_ids) /\ mb0 <= mb /\ nid <= L
  | RPush2 _ x cands stop b id nid mb0 => (forall z, In z (x :: cands) -> known L mb z) /\ (stop = false -> id = (b + 1) * block_ids) /\ mb0 <= mb /\ nid <= L
  | MExpand _ id => m = Some t /\ f = Some id
  | MRmw _ id => m = Some t /\ f = Some id /\ block_of id <= mb
  | MAdd q id => m = Some t /\ f = None /\ In (Alloc id q) hi
  | _ => True
  end.
Record Sh (h : sh) (hi : list event) : Prop := {
  s_sized : sized (st h);
  s_maxb : exists mb, maxb h = Some mb /\ mb < block_ids /\ (forall k, k <= mb -> st h k <> None) /\
    (forall id, used (st h) id = true -> known (lim h) mb id) /\ (forall id, In id (freel h) -> known (lim h) mb id);
  s_next : next h <= u32_max;
  s_fresh : forall f, fresh h = Some f -> next h = f + 1 /\ mint h <> None;
  s_hold : forall id, used (st h) id = true <-> in_use hi id;
  s_excl : exclusive hi
}.
Definition mb_of (h : sh) : N := match maxb h with Some mb => mb | None => 0 end.
Record Inv (y : sys) : Prop := {
  v_sh : Sh (shm y) (hist y);
  v_pcs : forall t p, nth_error (pcs y) t = Some p -> pc_ok (lim (shm y)) (mb_of (shm y)) (mint (shm y)) (fresh (shm y)) (hist y) t p
}.
Definition minting (p : pc) : bool := match p with MExpand _ _ | MRmw _ _ | MAdd _ _ => true | _ => false end.

Lemma pc_ok_mono L mb m f hi t p L' mb' m' f' hi' :
  pc_ok L mb m f hi t p -> L <= L' -> mb <= mb' -> incl hi hi' ->
  ((m' = m /\ f' = f) \/ minting p = false) -> pc_ok L' mb' m' f' hi' t p.
Proof.
  intros H A B C D. unfold known in *. assert (forall x, known L mb x -> known L' mb' x) as K by (unfold known; intros; lia).
  destruct p; cbn [pc_ok minting] in *; try exact I; try (apply K; assumption); try (apply C; assumption);
    try (destruct D as [(-> & ->)|D]; [|discriminate]); intuition (try lia; auto).
Qed.
Lemma minting_owner L mb m f hi t p : pc_ok L mb m f hi t p -> minting p = true -> m = Some t.
Proof. destruct p; cbn; try discriminate; tauto. Qed.

Lemma Inv_build y t p' h' es : Inv y -> (t < length (pcs y))%nat ->
  Sh h' (es ++ hist y) -> lim (shm y) <= lim h' -> mb_of (shm y) <= mb_of h' ->
  ((mint h' = mint (shm y) /\ fresh h' = fresh (shm y)) \/ mint (shm y) = None \/ mint (shm y) = Some t) ->
  pc_ok (lim h') (mb_of h') (mint h') (fresh h') (es ++ hist y) t p' ->
  Inv (mksys h' (set_nth t p' (pcs y)) (es ++ hist y)).
Proof.
  intros [SH PC] T SH' LM MB M OK. constructor; cbn [shm pcs hist]; [assumption|].
  intros u p U. rewrite nth_error_set_nth in U. destruct (Nat.eqb_spec u t) as [->|N].
  - apply Nat.ltb_lt in T. rewrite T in U. injection U as <-. exact OK.
  - specialize (PC u p U). eapply pc_ok_mono; [exact PC|assumption|assumption|intros e He; apply in_or_app; now right|].
    destruct (minting p) eqn:G; [|now right]. left. pose proof (minting_owner _ _ _ _ _ _ _ PC G) as O.
    destruct M as [M|[M|M]]; [assumption|congruence|congruence].
Qed.
Lemma Sh_same h hi h' : Sh h hi -> st h' = st h -> next h' = next h -> maxb h' = maxb h -> fresh h' = fresh h ->
  (fresh h' <> None -> mint h' <> None) ->
  (forall id, In id (freel h') -> known (lim h) (mb_of h) id) -> Sh h' hi.
Proof.
  intros [SZ MB NX FR HO EX] E1 E2 E3 E4 E5 E6. assert (lim h' = lim h) as EL by (unfold lim; now rewrite E4, E2).
  constructor; rewrite ?E1, ?E2, ?E3, ?E4, ?EL; try assumption.
  - destruct MB as (mb & A & B & C & D & F). exists mb. unfold mb_of in E6. rewrite A in E6. rewrite A. tauto.
  - intros f Ff. split; [now apply FR|]. apply E5. rewrite E4. congruence.
Qed.
Lemma in_use_alloc hi id q j : in_use (Alloc id q :: hi) j <-> j = id \/ in_use hi j.
Proof.
  unfold in_use. cbn [holder]. destruct (id =? j) eqn:E.
  - apply N.eqb_eq in E. subst. split; [now left|discriminate].
  - apply N.eqb_neq in E. intuition congruence.
Qed.
Lemma in_use_free hi id j : in_use (Free id :: hi) j <-> j <> id /\ in_use hi j.
Proof.
  unfold in_use. cbn [holder]. destruct (id =? j) eqn:E.
  - apply N.eqb_eq in E. subst. split; [congruence|tauto].
  - apply N.eqb_neq in E. intuition congruence.
Qed.

(** Marking an id. *)
Lemma Sh_alloc h hi id q h' s' : Sh h hi -> rmw (st h) id true = Some (true, s') ->
  st h' = s' -> maxb h' = maxb h -> freel h' = freel h -> lim h <= lim h' -> known (lim h') (mb_of h) id ->
  next h' = next h -> (fresh h' = None \/ (fresh h' = fresh h /\ mint h' = mint h)) -> Sh h' (Alloc id q :: hi).
Proof.
  intros [SZ MB NX FR HO EX] R E1 E3 E4 LM KN E2 E5.
  destruct (rmw_spec (st h) id true SZ) as (s2 & R2 & SZ' & U' & X'). rewrite R in R2. injection R2 as C <-. 
  assert (used (st h) id = false) as UF by (destruct (used (st h) id); [discriminate|reflexivity]).
  constructor; rewrite ?E1, ?E2; try assumption.
  - destruct MB as (mb & A & B & D & F & G). unfold mb_of in KN. rewrite A in KN. exists mb. rewrite E3, E4. unfold known in *.
    split; [assumption|]. split; [assumption|]. split; [|split].
    + intros k K Z. apply X' in Z. now apply (D k).
    + intros j. rewrite U'. destruct (j =? id) eqn:J; [apply N.eqb_eq in J; subst; auto|]. intros V. specialize (F j V). lia.
    + intros j J. specialize (G j J). lia.
  - intros f Ff. destruct E5 as [E5|(E5 & E6)]; [congruence|]. rewrite E5 in Ff. rewrite E6. auto.
  - intros j. rewrite U', in_use_alloc. destruct (j =? id) eqn:J.
    + apply N.eqb_eq in J. tauto.
    + apply N.eqb_neq in J. rewrite HO. tauto.
  - cbn [exclusive]. split; [|assumption]. rewrite <- HO. congruence.
Qed.
Lemma Sh_free h hi id s' : Sh h hi -> rmw (st h) id false = Some (true, s') -> Sh (set_st h s') (Free id :: hi).
Proof.
  intros [SZ MB NX FR HO EX] R.
  destruct (rmw_spec (st h) id false SZ) as (s2 & R2 & SZ' & U' & X'). rewrite R in R2. injection R2 as C <-.
  assert (used (st h) id = true) as UF by (destruct (used (st h) id); [reflexivity|discriminate]).
  constructor; cbn; try assumption.
  - destruct MB as (mb & A & B & D & F & G). exists mb. change (lim (set_st h s')) with (lim h).
    split; [assumption|]. split; [assumption|]. split; [|split; [|assumption]].
    + intros k K Z. apply X' in Z. now apply (D k).
    + intros j. rewrite U'. destruct (j =? id) eqn:J; [discriminate|]. apply F.
  - intros j. rewrite U', in_use_free. destruct (j =? id) eqn:J.
    + apply N.eqb_eq in J. intuition congruence.
    + apply N.eqb_neq in J. rewrite HO. tauto.
  - split; [|assumption]. now apply HO.
Qed.
Lemma Sh_unchanged h hi id u s' : Sh h hi -> rmw (st h) id u = Some (false, s') -> Sh (set_st h s') hi.
Proof.
  intros [SZ MB NX FR HO EX] R.
  destruct (rmw_spec (st h) id u SZ) as (s2 & R2 & SZ' & U' & X'). rewrite R in R2. injection R2 as C <-.
  assert (forall j, used s' j = used (st h) j) as UU.
  { intros j. rewrite U'. destruct (j =? id) eqn:J; [|reflexivity]. apply N.eqb_eq in J. subst. destruct (used (st h) id), u; cbn in C; congruence. }
  constructor; cbn; try assumption.
  - destruct MB as (mb & A & B & D & F & G). exists mb. change (lim (set_st h s')) with (lim h).
    split; [assumption|]. split; [assumption|]. split; [|split; [|assumption]].
    + intros k K Z. apply X' in Z. now apply (D k).
    + intros j. rewrite UU. apply F.
  - intros j. rewrite UU. apply HO.
Qed.

Lemma scan_known s L mb mb0 b nid bs l id' stop : sized s -> s b = Some bs -> b <= mb0 -> mb0 <= mb -> nid <= L ->
  scan_block bs (b * block_ids) nid = (l, id', stop) ->
  (forall x, In x l -> known L mb x) /\ (stop = false -> id' = (b + 1) * block_ids).
Proof.
  intros SZ E B1 B2 B3 H. destruct (scan_block_spec _ _ _ _ _ _ H) as (A & B & C).
  assert (len8 bs = block_ids) as L8 by (unfold len8; rewrite (SZ _ _ E); reflexivity). rewrite L8 in *.
  split.
  - intros x X. apply A in X. unfold known, block_of, block_ids in *. split; [lia|]. assert (x / 65536 = b) by lia. lia.
  - intros S. rewrite (B S). lia.
Qed.

Lemma tstep_inv y t ok p p' h' es : Inv y -> room y -> nth_error (pcs y) t = Some p ->
  tstep t ok p (shm y) = Some (p', h', es) -> Inv (mksys h' (set_nth t p' (pcs y)) (es ++ hist y)).
Proof.
  intros I RM T H. pose proof (nth_error_lt _ _ _ T) as TL. pose proof (v_sh _ I) as SH. pose proof (v_pcs _ I t p T) as OK.
  unfold room in RM. set (h := shm y) in *.
  assert (exists mb, maxb h = Some mb) as (mb & MB) by (destruct (s_maxb _ _ SH) as (mb & A & _); eauto).
  assert (mb_of h = mb) as MBO by (unfold mb_of; now rewrite MB).
  assert (forall id, In id (freel h) -> known (lim h) mb id) as FK.
  { destruct (s_maxb _ _ SH) as (mb' & A & _ & _ & _ & B). rewrite MB in A. injection A as <-. exact B. }
  assert (forall p'' hh, st hh = st h -> next hh = next h -> maxb hh = maxb h -> fresh hh = fresh h -> mint hh = mint h ->
            (forall id, In id (freel hh) -> known (lim h) mb id) ->
            pc_ok (lim h) mb (mint h) (fresh h) (hist y) t p'' -> Inv (mksys hh (set_nth t p'' (pcs y)) ([] ++ hist y))) as SAME.
  { intros p'' hh E1 E2 E3 E4 E5 E6 OK''. apply Inv_build; try assumption.
    - refine (Sh_same h _ hh SH E1 E2 E3 E4 _ _); [|rewrite MBO; exact E6].
      rewrite E4, E5. intros F. destruct (fresh h) as [f|] eqn:G; [|congruence]. now apply (s_fresh _ _ SH f).
    - fold h. unfold lim. rewrite E2, E4. lia.
    - fold h. unfold mb_of. rewrite E3. lia.
    - left. now split.
    - unfold lim, mb_of. rewrite E2, E3, E4, E5. rewrite MB. exact OK''. }
  destruct p; cbn [tstep] in H; cbn [pc_ok] in OK; try rewrite MBO in OK.
  - discriminate.
  - injection H as <- <- <-. apply SAME; try reflexivity; try match goal with M : mint _ = None |- _ => exact M end; [exact FK|]. now destruct (reuse h).
  - injection H as <- <- <-. apply SAME; try reflexivity; try match goal with M : mint _ = None |- _ => exact M end; [exact FK|]. now destruct (hasf h).
  - destruct (freel h) as [|id l] eqn:F; injection H as <- <- <-; apply SAME; try reflexivity.
    + rewrite F. exact FK.
    + intros j J. apply FK. now right.
    + apply FK. now left.
  - destruct (freel h) as [|id l] eqn:F; injection H as <- <- <-; apply SAME; try reflexivity.
    + rewrite F. exact FK.
    + intros j J. apply FK. now right.
    + apply FK. now left.
  - destruct (mint h) eqn:M; [discriminate|]. destruct (next h <=? id); injection H as <- <- <-; apply SAME; try reflexivity; try match goal with M : mint _ = None |- _ => exact M end; try exact FK; try exact Logic.I. assumption.
  - destruct ok; cbn [negb] in H; [|injection H as <- <- <-; apply SAME; try reflexivity; try match goal with M : mint _ = None |- _ => exact M end; try exact FK; exact Logic.I].
    destruct (rmw (st h) id true) as [[[|] s]|] eqn:R; [| |discriminate]; injection H as <- <- <-.
    + apply Inv_build; try assumption; cbn [set_st lim mb_of mint fresh maxb].
      * refine (Sh_alloc h _ id q _ s SH R _ _ _ _ _ _ _); try reflexivity; [now rewrite MBO|right; now split].
      * reflexivity.
      * reflexivity.
      * left; now split.
      * cbn [pc_ok app]. now left.
    + apply Inv_build; try assumption; try reflexivity.
      * exact (Sh_unchanged h _ id true s SH R).
      * left; now split.
  - injection H as <- <- <-. apply SAME; try reflexivity; [exact FK|exact OK].
  - destruct (refill h); [discriminate|]. injection H as <- <- <-. apply SAME; try reflexivity; try match goal with M : mint _ = None |- _ => exact M end; try exact FK; exact Logic.I.
  - destruct (freel h) as [|id l] eqn:F; injection H as <- <- <-; apply SAME; try reflexivity; try match goal with M : mint _ = None |- _ => exact M end; cbn [set_refill freel]; try exact Logic.I; rewrite F; exact FK.
  - destruct (mint h) eqn:M; [discriminate|]. rewrite MB in H. injection H as <- <- <-. apply SAME; try reflexivity; try match goal with M : mint _ = None |- _ => exact M end; [exact FK|].
    cbn [pc_ok]. split; [lia|]. split; [lia|]. unfold lim. destruct (fresh h) as [f|] eqn:G; [|lia].
    destruct (s_fresh _ _ SH f G). congruence.
  - destruct (mb0 <? b) eqn:B1; [injection H as <- <- <-; apply SAME; try reflexivity; try match goal with M : mint _ = None |- _ => exact M end; try exact FK; exact Logic.I|].
    destruct (nid <=? id) eqn:B2; [injection H as <- <- <-; apply SAME; try reflexivity; try match goal with M : mint _ = None |- _ => exact M end; try exact FK; exact Logic.I|].
    destruct (if ok then st h b else None) as [bs|] eqn:B3; [|injection H as <- <- <-; apply SAME; try reflexivity; try match goal with M : mint _ = None |- _ => exact M end; try exact FK; exact Logic.I].
    destruct ok; [|discriminate]. destruct (scan_block bs id nid) as [[l id'] stop] eqn:B4. injection H as <- <- <-.
    apply SAME; try reflexivity; try match goal with M : mint _ = None |- _ => exact M end; [exact FK|]. destruct OK as (-> & O2 & O3).
    destruct (scan_known (st h) (lim h) mb mb0 b nid bs l id' stop (s_sized _ _ SH) B3 ltac:(lia) O2 O3 B4) as (K1 & K2).
    cbn [pc_ok]. tauto.
  - destruct OK as (O1 & O2 & O3 & O4). destruct cands as [|x l]; injection H as <- <- <-.
    + apply SAME; try reflexivity; try match goal with M : mint _ = None |- _ => exact M end; [exact FK|]. destruct stop; cbn [pc_ok]; [exact Logic.I|]. rewrite O2 by reflexivity. tauto.
    + apply SAME; try reflexivity; try match goal with M : mint _ = None |- _ => exact M end; [exact FK|]. cbn [pc_ok]. tauto.
  - destruct OK as (O1 & O2 & O3 & O4). destruct (N.of_nat (length (freel h)) <? fast_size); injection H as <- <- <-.
    + apply SAME; try reflexivity; try match goal with M : mint _ = None |- _ => exact M end; cbn [set_freel freel pc_ok].
      * intros j J. apply in_app_iff in J as [J|[<-|[]]]; [now apply FK|]. apply O1. now left.
      * split; [intros z Z; apply O1; now right|tauto].
    + apply SAME; try reflexivity; try match goal with M : mint _ = None |- _ => exact M end; try exact FK; exact Logic.I.
  - destruct found; injection H as <- <- <-; apply SAME; try reflexivity; try match goal with M : mint _ = None |- _ => exact M end; try exact FK; exact Logic.I.
  - injection H as <- <- <-. apply SAME; try reflexivity; try match goal with M : mint _ = None |- _ => exact M end; try exact FK; exact Logic.I.
  - destruct (mint h) eqn:M; [discriminate|]. injection H as <- <- <-.
    assert (fresh h = None) as FN. { destruct (fresh h) as [f|] eqn:G; [|reflexivity]. destruct (s_fresh _ _ SH f G). congruence. }
    assert ((next h + 1) mod two32 = next h + 1) as WR by (apply N.mod_small; unfold two32, u32_max in *; lia).
    apply Inv_build; try assumption; cbn [set_minter lim mb_of mint fresh maxb next].
    + destruct SH as [SZ MB' NX FR HO EX]. constructor; cbn [set_minter st maxb freel mint fresh next app]; try assumption.
      * destruct MB' as (mb' & X). exists mb'. unfold lim in *. cbn [fresh set_minter next]. now rewrite FN in X.
      * rewrite WR. lia.
      * intros f Ff. injection Ff as <-. split; [exact WR|discriminate].
    + fold h. unfold lim. cbn [set_minter fresh]. rewrite FN. lia.
    + reflexivity.
    + right. left. exact M.
    + cbn [pc_ok]. now split.
  - destruct OK as (O1 & O2). rewrite MB in H.
    assert (lim h = id) as LI by (unfold lim; now rewrite O2).
    assert (next h = id + 1) as NI by (now apply (s_fresh _ _ SH)).
    destruct (s_maxb _ _ SH) as (mb' & A & B & D & F & G). rewrite MB in A. injection A as <-.
    assert (forall p'', pc_ok (id + 1) mb None None (hist y) t p'' -> Inv (mksys (set_minter h (next h) None None) (set_nth t p'' (pcs y)) ([] ++ hist y))) as ERR.
    { intros p'' OK''. apply Inv_build; try assumption; fold h.
      - destruct SH as [SZ MB' NX FR HO EX]. constructor; cbn [set_minter st maxb freel mint fresh next app]; try assumption; [|discriminate].
        exists mb. change (lim (set_minter h (next h) None None)) with (next h). unfold known in *. rewrite MB.
        split; [reflexivity|]. split; [assumption|]. split; [assumption|]. split; intros j J; [specialize (F j J)|specialize (G j J)]; lia.
      - rewrite LI. change (lim (set_minter h (next h) None None)) with (next h). lia.
      - reflexivity.
      - now right; right.
      - change (lim (set_minter h (next h) None None)) with (next h). change (mb_of (set_minter h (next h) None None)) with (mb_of h). rewrite NI, MBO. exact OK''. }
    destruct (block_of id =? mb + 1) eqn:B1; [|destruct (mb + 1 <? block_of id) eqn:B2].
    + apply N.eqb_eq in B1. destruct ok; injection H as <- <- <-; [|apply ERR; exact Logic.I].
      assert (block_of id < block_ids) as BL. { pose proof (s_next _ _ SH). unfold block_of, block_ids, u32_max in *. lia. }
      apply Inv_build; try assumption; cbn [mint fresh]; fold h.
      * destruct SH as [SZ MB' NX FR HO EX]. 
        assert (forall j, used (put (st h) (block_of id) zeros) j = used (st h) j) as UU.
        { apply put_zeros_used. intros j J. destruct (used (st h) j) eqn:U; [|reflexivity]. apply F in U. unfold known in U. lia. }
        constructor; cbn [st maxb freel mint fresh next app]; try assumption.
        -- apply sized_put; [assumption|apply zeros_length].
        -- exists (mb + 1). split; [reflexivity|]. unfold lim. cbn [fresh next]. fold (lim h). unfold known in *.
           split; [lia|]. split; [|split].
           ++ intros k K. unfold put. destruct (k =? block_of id) eqn:KE; [discriminate|]. apply N.eqb_neq in KE. apply D. lia.
           ++ intros j. rewrite UU. intros U. specialize (F j U). unfold lim in *. lia.
           ++ intros j J. specialize (G j J). unfold lim in *. lia.
        -- intros j. rewrite UU. apply HO.
      * unfold lim. cbn [fresh next]. lia.
      * rewrite MBO. cbn [mb_of maxb]. lia.
      * left; now split.
      * cbn [pc_ok mb_of maxb]. split; [assumption|]. split; [assumption|]. lia.
    + injection H as <- <- <-. apply ERR. exact Logic.I.
    + injection H as <- <- <-. apply SAME; try reflexivity; try match goal with M : mint _ = None |- _ => exact M end; [exact FK|]. cbn [pc_ok]. split; [assumption|]. split; [assumption|]. apply N.eqb_neq in B1. lia.
  - destruct OK as (O1 & O2 & O3).
    assert (lim h = id) as LI by (unfold lim; now rewrite O2).
    assert (next h = id + 1) as NI by (now apply (s_fresh _ _ SH)).
    destruct (s_maxb _ _ SH) as (mb' & A & B & D & F & G). rewrite MB in A. injection A as <-.
    destruct ok; cbn [negb] in H.
    + assert (used (st h) id = false) as UF. { destruct (used (st h) id) eqn:U; [|reflexivity]. apply F in U. unfold known in U. lia. }
      destruct (rmw (st h) id true) as [[ch s]|] eqn:R; [|discriminate].
      assert (ch = true) as ->. { destruct (rmw_spec (st h) id true (s_sized _ _ SH)) as (s2 & R2 & _). rewrite R in R2. rewrite UF in R2. now injection R2. }
      injection H as <- <- <-. apply Inv_build; try assumption; fold h.
      * refine (Sh_alloc h _ id q _ s SH R _ _ _ _ _ _ _); try reflexivity; [|rewrite MBO|now left].
        -- change (lim (set_minter (set_st h s) (next h) (mint h) None)) with (next h). lia.
        -- change (lim (set_minter (set_st h s) (next h) (mint h) None)) with (next h). unfold known. lia.
      * change (lim (set_minter (set_st h s) (next h) (mint h) None)) with (next h). lia.
      * reflexivity.
      * now right; right.
      * cbn [pc_ok set_minter set_st mint fresh app]. split; [assumption|]. split; [reflexivity|now left].
    + injection H as <- <- <-. apply Inv_build; try assumption; fold h.
      * destruct SH as [SZ MB' NX FR HO EX]. constructor; cbn [set_minter st maxb freel mint fresh next app]; try assumption; [|discriminate].
        exists mb. change (lim (set_minter h (next h) None None)) with (next h). unfold known in *. rewrite MB.
        split; [reflexivity|]. split; [assumption|]. split; [assumption|]. split; intros j J; [specialize (F j J)|specialize (G j J)]; lia.
      * change (lim (set_minter h (next h) None None)) with (next h). lia.
      * reflexivity.
      * now right; right.
      * exact Logic.I.
  - destruct OK as (O1 & O2 & O3). injection H as <- <- <-. apply Inv_build; try assumption; fold h.
    + refine (Sh_same h _ _ SH _ _ _ _ _ _); try reflexivity; [now rewrite O2|intros X; now elim X|rewrite MBO; exact FK].
    + unfold lim. cbn [set_minter fresh next add_total set_total]. rewrite O2. lia.
    + reflexivity.
    + now right; right.
  - injection H as <- <- <-. apply SAME; try reflexivity; try match goal with M : mint _ = None |- _ => exact M end; try exact FK; exact Logic.I.
  - destruct (mint h) eqn:M; [discriminate|]. destruct (next h <=? id); injection H as <- <- <-; apply SAME; try reflexivity; try match goal with M : mint _ = None |- _ => exact M end; try exact FK; exact Logic.I.
  - destruct ok; cbn [negb] in H; [|injection H as <- <- <-; apply SAME; try reflexivity; try match goal with M : mint _ = None |- _ => exact M end; try exact FK; exact Logic.I].
    destruct (rmw (st h) id false) as [[[|] s]|] eqn:R; [| |discriminate]; injection H as <- <- <-.
    + apply Inv_build; try assumption; try reflexivity.
      * exact (Sh_free h _ id s SH R).
      * left; now split.
      * destruct (s_maxb _ _ SH) as (mb' & A & _ & _ & F & _). rewrite MB in A. injection A as <-.
        change (known (lim h) (mb_of h) id). rewrite MBO. apply F.
        destruct (rmw_spec (st h) id false (s_sized _ _ SH)) as (s2 & R2 & _). rewrite R in R2. injection R2 as C _. now destruct (used (st h) id).
    + apply Inv_build; try assumption; try reflexivity.
      * exact (Sh_unchanged h _ id false s SH R).
      * left; now split.
  - injection H as <- <- <-. apply SAME; try reflexivity; [exact FK|exact OK].
  - injection H as <- <- <-. destruct (N.of_nat (length (freel h)) <? fast_size); apply SAME; try reflexivity; try match goal with M : mint _ = None |- _ => exact M end; try exact FK; try exact Logic.I.
    cbn [set_freel freel]. intros j J. apply in_app_iff in J as [J|[<-|[]]]; [now apply FK|exact OK].
  - injection H as <- <- <-. apply SAME; try reflexivity; try match goal with M : mint _ = None |- _ => exact M end; try exact FK; exact Logic.I.
Qed.
