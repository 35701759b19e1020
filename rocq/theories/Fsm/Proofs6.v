(** One caller: freed ids are used up before a new one is minted. *)
From Verif.Lib Require Import Base Lists.
From Verif.Fsm Require Import Model Spec Proofs Proofs2 Proofs3 Proofs4 Proofs5.
Local Open Scope N_scope.
Ltac Zify.zify_post_hook ::= Z.div_mod_to_equations.

Definition full (s : store) (L : N) : Prop := forall j, j < L -> used s j = true.
Definition hole_flag (h : sh) : Prop := hasf h = true \/ full (st h) (lim h).
Definition seq_ok (h : sh) (p : pc) : Prop :=
  match p with
  | Idle | NReuse _ | NHas _ | NAdd _ _ | NDone _ _ | FCheck _ | FRmw _ => hole_flag h
  | NPop _ | NCheck _ _ | NRmw _ _ => hasf h = true
  | NPop2 _ => hasf h = true /\ freel h <> []
  | RLock _ | RCheck _ | RSnap _ => hasf h = true /\ freel h = []
  | RBlock _ b id nid mb found => nid = lim h /\ mb = mb_of h /\ hasf h = true /\ (if found then freel h <> [] else freel h = [] /\ full (st h) (N.min id nid))
  | RPush _ cands stop b id nid mb found => nid = lim h /\ mb = mb_of h /\ hasf h = true /\
      (if found then freel h <> [] else freel h = [] /\ (cands = [] -> full (st h) (if stop then nid else N.min id nid)))
  | RPush2 _ x cands stop b id nid mb => nid = lim h /\ mb = mb_of h /\ hasf h = true
  | REnd _ found => if found then hasf h = true /\ freel h <> [] else full (st h) (lim h)
  | RStore _ | NMint _ | MExpand _ _ | MRmw _ _ | MAdd _ _ => full (st h) (lim h)
  | FSub _ | FPush _ | FFlag _ => True
  end.
Definition seen (hi : list event) (L : N) : Prop := forall j, j < L -> exists q, In (Alloc j q) hi.
Record InvS (y : sys) : Prop := {
  w_one : exists p, pcs y = [p] /\ seq_ok (shm y) p;
  w_reuse : reuse (shm y) = true;
  w_seen : seen (hist y) (lim (shm y));
  w_frugal : frugal (hist y);
  w_lim : lim (shm y) <= (mb_of (shm y) + 1) * block_ids
}.
Lemma full_mono s L L' : full s L -> L' <= L -> full s L'.
Proof. intros H A j J. apply H. lia. Qed.
Lemma rmw_full s id s' c L : sized s -> rmw s id true = Some (c, s') -> full s L -> full s' L.
Proof.
  intros SZ R F j J. destruct (rmw_spec s id true SZ) as (s2 & R2 & _ & U & _). rewrite R in R2. injection R2 as _ <-.
  rewrite U. destruct (j =? id); [reflexivity|now apply F].
Qed.
Lemma full_block s mb L : (forall id, used s id = true -> known L mb id) -> full s L -> L <= u32_max -> block_of L <= mb + 1.
Proof.
  intros US F LU. destruct (N.eq_dec L 0) as [->|]; [apply N.le_0_l|].
  assert (used s (L - 1) = true) as U by (apply F; lia). apply US in U as [_ U]. unfold block_of, block_ids in *. lia.
Qed.
Lemma seen_cons hi L e : seen hi L -> seen (e :: hi) L.
Proof. intros H j J. destruct (H j J) as (q & Q). exists q. now right. Qed.

Lemma tstep_seq y p p' h' es : Inv y -> InvS y -> room y -> pcs y = [p] ->
  tstep 0 true p (shm y) = Some (p', h', es) -> InvS (mksys h' [p'] (es ++ hist y)).
Proof.
  intros I [(p0 & PE & SQ) RE SE FG WL] RM E H. rewrite E in PE. injection PE as <-.
  pose proof (v_sh _ I) as SH. pose proof (v_pcs _ I 0%nat p) as OK. rewrite E in OK. specialize (OK eq_refl).
  pose proof (lim_le_next _ _ SH) as LN. pose proof (s_next _ _ SH) as NU. pose proof (s_sized _ _ SH) as SZ.
  destruct (s_maxb _ _ SH) as (mb & MB & MBL & EXB & USB & FRB). assert (mb_of (shm y) = mb) as MBO by (unfold mb_of; now rewrite MB).
  unfold room in RM. set (h := shm y) in *.
  assert (forall hh q0, st hh = st h -> lim hh = lim h -> maxb hh = maxb h -> seq_ok hh q0 -> reuse hh = reuse h -> InvS (mksys hh [q0] ([] ++ hist y))) as SAME.
  { intros hh q0 E1 E2 E5 E3 E4. constructor; cbn [shm pcs hist app]; [eauto|congruence|rewrite E2; assumption|assumption|].
    unfold mb_of. rewrite E2, E5. exact WL. }
  destruct p; cbn [tstep] in H; cbn [seq_ok] in SQ; cbn [pc_ok] in OK.
  - discriminate.
  - rewrite RE in H. injection H as <- <- <-. now apply SAME.
  - destruct (hasf h) eqn:HF; injection H as <- <- <-; apply SAME; try reflexivity; cbn [seq_ok]; [assumption|].
    destruct SQ; [congruence|assumption].
  - destruct (freel h) as [|id l] eqn:F; injection H as <- <- <-; apply SAME; try reflexivity; cbn [seq_ok]; [now split|assumption].
  - destruct SQ as (S1 & S2). destruct (freel h) as [|id l] eqn:F; [congruence|]. injection H as <- <- <-; apply SAME; try reflexivity. assumption.
  - destruct (mint h) eqn:M; [discriminate|]. destruct (next h <=? id) eqn:NI; injection H as <- <- <-; apply SAME; try reflexivity; cbn [seq_ok]; [now left|assumption].
  - cbn [negb] in H. destruct (rmw (st h) id true) as [[[|] s]|] eqn:R; [| |discriminate]; injection H as <- <- <-.
    + constructor; cbn [shm pcs hist app set_st reuse]; [| assumption| | |exact WL].
      * eexists. split; [reflexivity|]. cbn [seq_ok]. now left.
      * apply seen_cons. exact SE.
      * cbn [frugal]. split; [|assumption]. intros NEW. exfalso. destruct OK as [OK _]. destruct (SE id OK) as (q' & Q). exact (NEW q' Q).
    + constructor; cbn [shm pcs hist app set_st reuse]; [| assumption|exact SE|assumption|exact WL]. eexists. split; [reflexivity|]. exact SQ.
  - injection H as <- <- <-. apply SAME; try reflexivity. exact SQ.
  - destruct (refill h); [discriminate|]. injection H as <- <- <-. apply SAME; try reflexivity. exact SQ.
  - destruct SQ as (S1 & S2). rewrite S2 in H. injection H as <- <- <-. apply SAME; try reflexivity. cbn [seq_ok]. now split.
  - destruct (mint h) eqn:M; [discriminate|]. rewrite MB in H. injection H as <- <- <-. apply SAME; try reflexivity. cbn [seq_ok].
    destruct SQ as (S1 & S2). split; [|rewrite MBO; split; [reflexivity|split; [assumption|split; [assumption|]]]].
    + unfold lim. destruct (fresh h) as [f|] eqn:G; [|reflexivity]. destruct (s_fresh _ _ SH f G). congruence.
    + intros j J. lia.
  - destruct SQ as (-> & -> & S3 & S4). destruct OK as (-> & _ & _). rewrite MBO in H. destruct (N.ltb_spec mb b) as [B1|B1].
    { injection H as <- <- <-. apply SAME; try reflexivity. cbn [seq_ok]. destruct found; [now split|]. destruct S4 as (_ & S4).
      eapply full_mono; [exact S4|]. rewrite MBO in WL. unfold block_ids in *. lia. }
    destruct (N.leb_spec (lim h) (b * block_ids)) as [B2|B2].
    { injection H as <- <- <-. apply SAME; try reflexivity. cbn [seq_ok]. destruct found; [now split|]. destruct S4 as (_ & S4). eapply full_mono; [exact S4|lia]. }
    destruct (st h b) as [bs|] eqn:B3; [|exfalso; apply (EXB b); assumption].
    destruct (scan_block bs (b * block_ids) (lim h)) as [[l id'] stop] eqn:B4. injection H as <- <- <-.
    apply SAME; try reflexivity. cbn [seq_ok]. split; [reflexivity|]. split; [now symmetry|]. split; [assumption|].
    destruct found; [assumption|]. destruct S4 as (S4 & S5). split; [assumption|]. intros ->.
    destruct (scan_block_spec _ _ _ _ _ _ B4) as (A & B & C).
    assert (len8 bs = block_ids) as L8 by (unfold len8; rewrite (SZ _ _ B3); reflexivity). rewrite L8 in *.
    intros j J. destruct (N.ltb_spec j (b * block_ids)) as [J1|J1]; [apply S5; destruct stop; lia|].
    assert (j < b * block_ids + block_ids /\ j < lim h) as (J2 & J3) by (destruct stop; [specialize (C eq_refl); lia|rewrite (B eq_refl) in J; lia]).
    destruct (used (st h) j) eqn:U; [reflexivity|]. exfalso. apply (A j). split; [lia|]. split; [assumption|].
    rewrite used_bitat in U. unfold block_of, block_ids in *. replace (j / 65536) with b in U by lia. rewrite B3 in U.
    now replace (j - b * 65536) with (j mod 65536) by lia.
  - destruct SQ as (-> & -> & S3 & S4). destruct cands as [|x l]; injection H as <- <- <-; apply SAME; try reflexivity.
    + destruct stop; cbn [seq_ok]; [destruct found; [now split|]|]; [now apply S4|]. split; [reflexivity|]. split; [reflexivity|]. split; [assumption|].
      destruct found; [assumption|]. split; [apply S4|]. now apply S4.
    + cbn [seq_ok]. split; [reflexivity|]. split; [reflexivity|]. reflexivity.
  - destruct SQ as (-> & -> & S3). destruct (N.of_nat (length (freel h)) <? fast_size) eqn:FS; injection H as <- <- <-; apply SAME; try reflexivity; cbn [seq_ok].
    + split; [reflexivity|]. split; [reflexivity|]. split; [assumption|]. cbn [set_freel freel]. now destruct (freel h).
    + split; [assumption|]. intros X. rewrite X in FS. discriminate.
  - destruct found; injection H as <- <- <-; apply SAME; try reflexivity; exact SQ.
  - injection H as <- <- <-. apply SAME; try reflexivity. exact SQ.
  - destruct (mint h) eqn:M; [discriminate|]. injection H as <- <- <-.
    assert (fresh h = None) as FN. { destruct (fresh h) as [f|] eqn:G; [|reflexivity]. destruct (s_fresh _ _ SH f G). congruence. }
    assert (lim h = next h) as LE by (unfold lim; now rewrite FN). apply SAME; try reflexivity; [now rewrite LE|].
    cbn [seq_ok]. rewrite LE in SQ. exact SQ.
  - destruct OK as (O1 & O2). rewrite MB in H. assert (lim h = id) as LI by (unfold lim; now rewrite O2).
    assert (block_of id <= mb + 1) as BB. { rewrite <- LI. apply (full_block (st h)); [assumption|assumption|lia]. }
    destruct (block_of id =? mb + 1) eqn:B1; [|destruct (N.ltb_spec (mb + 1) (block_of id)); [lia|]].
    + apply N.eqb_eq in B1. injection H as <- <- <-. constructor; cbn [shm pcs hist app reuse]; [|assumption| |assumption|].
      * eexists. split; [reflexivity|]. cbn [seq_ok]. change (lim _) with (lim h) at 1. intros j J. cbn [st].
        rewrite put_zeros_used; [now apply SQ|]. intros k K. destruct (used (st h) k) eqn:U; [|reflexivity]. apply USB in U as [_ U]. lia.
      * exact SE.
      * rewrite MBO in WL. change (lim h <= (mb + 1 + 1) * block_ids). lia.
    + injection H as <- <- <-. apply SAME; try reflexivity. exact SQ.
  - destruct OK as (O1 & O2 & O3). assert (lim h = id) as LI by (unfold lim; now rewrite O2).
    assert (next h = id + 1) as NI by (now apply (s_fresh _ _ SH)). cbn [negb] in H.
    destruct (rmw (st h) id true) as [[ch s]|] eqn:R; [|discriminate].
    destruct (rmw_spec (st h) id true SZ) as (s2 & R2 & _ & U2 & _). rewrite R in R2. injection R2 as CH <-.
    assert (ch = true) as ->. { rewrite CH. destruct (used (st h) id) eqn:U; [|reflexivity]. apply USB in U as [U _]. lia. }
    injection H as <- <- <-. constructor; cbn [shm pcs hist app reuse set_minter set_st]; [|assumption| | |].
    + eexists. split; [reflexivity|]. cbn [seq_ok]. intros j J. unfold lim in J. cbn [set_minter fresh next st set_st] in *. rewrite U2.
      destruct (j =? id) eqn:JE; [reflexivity|]. apply SQ. rewrite LI. apply N.eqb_neq in JE. lia.
    + intros j J. unfold lim in J. cbn [set_minter fresh next st set_st] in J. destruct (N.eq_dec j id) as [->|]; [exists q; now left|].
      destruct (SE j) as (q' & Q); [lia|]. exists q'. now right.
    + cbn [frugal]. split; [|assumption]. intros _ j J. apply (s_hold _ _ SH). apply SQ. lia.
    + change (next h <= (mb_of h + 1) * block_ids). rewrite MBO in *. unfold block_of, block_ids in *. lia.
  - destruct OK as (O1 & O2 & O3). assert (lim h = next h) as LE by (unfold lim; now rewrite O2).
    injection H as <- <- <-. apply SAME; try reflexivity; [now rewrite LE|]. cbn [seq_ok]. right. unfold lim. cbn [set_minter fresh next st add_total set_total]. now rewrite <- LE.
  - injection H as <- <- <-. apply SAME; try reflexivity. exact SQ.
  - destruct (mint h) eqn:M; [discriminate|]. destruct (next h <=? id) eqn:NI; injection H as <- <- <-; apply SAME; try reflexivity; exact SQ.
  - cbn [negb] in H. destruct (rmw (st h) id false) as [[[|] s]|] eqn:R; [| |discriminate]; injection H as <- <- <-.
    + constructor; cbn [shm pcs hist app set_st reuse]; [eexists; split; [reflexivity|exact Logic.I]|assumption|apply seen_cons; exact SE|cbn [frugal]; assumption|exact WL].
    + constructor; cbn [shm pcs hist app set_st reuse]; [|assumption|exact SE|assumption|exact WL]. eexists. split; [reflexivity|]. cbn [seq_ok].
      destruct SQ as [SQ|SQ]; [now left|right]. change (lim (set_st h s)) with (lim h). cbn [set_st st]. intros j J.
      destruct (rmw_spec (st h) id false SZ) as (s2 & R2 & _ & U & _). rewrite R in R2. injection R2 as CH <-. rewrite U.
      destruct (j =? id) eqn:JE; [|now apply SQ]. apply N.eqb_eq in JE. subst. rewrite (SQ _ J) in CH. discriminate.
  - injection H as <- <- <-. apply SAME; reflexivity || exact Logic.I.
  - injection H as <- <- <-. apply SAME; destruct (N.of_nat (length (freel h)) <? fast_size); reflexivity || exact Logic.I.
  - injection H as <- <- <-. apply SAME; try reflexivity. now left.
Qed.
Lemma act_seq a y y' : Inv y -> InvS y -> room y -> one_caller [a] -> act_step a y = Some y' -> InvS y'.
Proof.
  intros I IS RM OC H. specialize (OC a (or_introl eq_refl)). pose proof IS as [(p & PE & SQ) RE SE FG WL]. destruct a; cbn [act_step] in H.
  - subst ok. rewrite PE in H. destruct t as [|t]; [|destruct t; discriminate]. cbn [nth_error set_nth] in H.
    destruct (tstep 0 true p (shm y)) as [[[p' h'] es]|] eqn:S; [|discriminate]. injection H as <-. eapply tstep_seq; eassumption.
  - rewrite PE in H. destruct t as [|t]; [|destruct t; discriminate]. cbn [nth_error set_nth] in H. destruct p; try discriminate. injection H as <-.
    constructor; cbn [shm pcs hist]; try assumption. eexists. split; [reflexivity|]. exact SQ.
  - rewrite PE in H. destruct t as [|t]; [|destruct t; discriminate]. cbn [nth_error set_nth] in H. destruct p; try discriminate. injection H as <-.
    constructor; cbn [shm pcs hist]; try assumption. eexists. split; [reflexivity|]. exact SQ.
  - destruct (existsb guard_held (pcs y)) eqn:G; [discriminate|]. destruct (mint (shm y)) eqn:M; [discriminate|]. injection H as <-.
    constructor; cbn [shm pcs hist]; try assumption. exists p. split; [assumption|]. destruct p; try exact SQ; rewrite PE in G; cbn in G; discriminate.
  - injection H as <-. constructor; cbn [shm pcs hist]; try assumption; [|reflexivity]. exists p. split; [assumption|]. destruct p; exact SQ.
  - destruct OC as (RD & -> & ->). destruct (fsm_new rd w (st (shm y)) quantization_enabled true) as [h|] eqn:F; [|discriminate]. injection H as <-.
    destruct (restart_new y rd w _ _ h I RD F) as (E1 & E2 & E3 & E4 & E5 & E6 & E7 & E8 & (mb' & M1 & M2 & _) & E10 & E11 & E12 & _).
    assert (lim h = next h) as LE by (unfold lim; now rewrite E2).
    constructor; cbn [shm pcs hist].
    + exists Idle. split; [reflexivity|]. cbn [seq_ok]. destruct (hasf h) eqn:HF; [now left|right]. rewrite LE, E1. intros j J.
      destruct (used (st (shm y)) j) eqn:U; [reflexivity|]. assert (false = true) by (apply E12; eauto). discriminate.
    + assumption.
    + rewrite LE. intros j J. apply SE. lia.
    + assumption.
    + unfold mb_of at 1. rewrite M1, LE. unfold block_ids in *. lia.
Qed.
Lemma run_seq acts : forall y y', Inv y -> InvS y -> always room acts y -> one_caller acts -> run acts y = Some y' -> InvS y'.
Proof.
  induction acts as [|a acts IH]; intros y y' I S AL OC H; cbn [run always] in *.
  - now injection H as <-.
  - destruct AL as (RM & AL). destruct (act_step a y) as [z|] eqn:E; [|discriminate].
    apply (IH z); try assumption.
    + eapply act_inv; try eassumption. intros rd w q r n ->. now apply (OC _ (or_introl eq_refl)).
    + eapply act_seq; try eassumption. intros b [<-|[]]. apply OC. now left.
    + intros b B. apply OC. now right.
Qed.
Lemma init_seq q : InvS (sys_new q true 1).
Proof.
  constructor; cbn [sys_new shm pcs hist reuse].
  - exists Idle. split; [reflexivity|]. right. intros j J. exfalso. unfold lim in J. cbn in J. lia.
  - reflexivity.
  - intros j J. exfalso. unfold lim in J. cbn in J. lia.
  - exact Logic.I.
  - unfold lim, mb_of, block_ids. cbn [fresh next maxb]. lia.
Qed.
Lemma event_dec (a b : event) : {a = b} + {a <> b}.
Proof. decide equality; try apply N.eq_dec; apply Bool.bool_dec. Qed.
(** With [exclusive], an id shows how many ids were once in use together. *)
Lemma frugal_peak hi : exclusive hi -> frugal hi -> forall id q, In (Alloc id q) hi ->
  exists pre l, (exists post, hi = post ++ pre) /\ NoDup l /\ (forall j, In j l -> in_use pre j) /\ N.of_nat (length l) = id + 1.
Proof.
  induction hi as [|e hi IH]; intros EX FR id q H; [destruct H|].
  assert (forall id q, In (Alloc id q) hi -> exists pre l, (exists post, e :: hi = post ++ pre) /\ NoDup l /\ (forall j, In j l -> in_use pre j) /\ N.of_nat (length l) = id + 1) as IH'.
  { intros id' q' I'. destruct (IH ltac:(destruct e; apply EX) ltac:(destruct e; [apply FR|exact FR]) id' q' I') as (pre & l & (post & ->) & X).
    exists pre, l. split; [now exists (e :: post)|exact X]. }
  destruct (in_dec event_dec (Alloc id true) hi) as [I1|N1]; [eauto|].
  destruct (in_dec event_dec (Alloc id false) hi) as [I2|N2]; [eauto|].
  destruct H as [->|H]; [|exfalso; destruct q; auto].
  exists (Alloc id q :: hi), (map N.of_nat (seq 0 (S (N.to_nat id)))). split; [now exists []|]. split; [|split].
  - apply NoDup_map_inj; [intros; lia|apply seq_NoDup].
  - intros j J. apply in_map_iff in J as (k & <- & K). apply in_seq in K. apply in_use_alloc. destruct (N.eq_dec (N.of_nat k) id) as [->|]; [now left|right].
    destruct FR as (FR & _). apply FR; [intros []; assumption|lia].
  - rewrite map_length, seq_length. lia.
Qed.
