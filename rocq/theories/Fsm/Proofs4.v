(** Runs: the invariant, the count of used ids, quantization. *)
From Verif.Lib Require Import Base Lists.
From Verif.Fsm Require Import Model Spec Proofs Proofs2 Proofs3.
Local Open Scope N_scope.
Ltac Zify.zify_post_hook ::= Z.div_mod_to_equations.

(** * Restart *)
Lemma blocks_in_ge s mb : mb < block_ids -> (forall k, k <= mb -> s k <> None) -> mb < N.of_nat (blocks_in s) <= block_ids.
Proof.
  intros L EX. unfold blocks_in. destruct (count_blocks_spec (N.to_nat block_ids) s 0) as (A & B & C).
  set (n := count_blocks (N.to_nat block_ids) s 0) in *. clearbody n. split; [|lia].
  destruct (N.ltb_spec mb (N.of_nat n)) as [|G]; [assumption|]. exfalso.
  apply (EX (N.of_nat n)); [lia|]. replace (N.of_nat n) with (0 + N.of_nat n) by lia. apply C. lia.
Qed.
Lemma blocks_in_exist s k : k < N.of_nat (blocks_in s) -> s k <> None.
Proof.
  unfold blocks_in. destruct (count_blocks_spec (N.to_nat block_ids) s 0) as (A & _). intros K. apply A. lia.
Qed.
Lemma fsm_new_some s b0 rd w q r h : s 0 = Some b0 -> fsm_new rd w s q r = Some h ->
  exists n x, n = blocks_in s /\ x = load_blocks rd s n (mkld (-1) 0 []) /\
    h = mksh s (Z.to_N (l_last x + 1) mod two32) (Some (N.of_nat n - 1)) (l_free x)
      (match l_free x with [] => false | _ => true end) (l_total x) r q u32_max None None None.
Proof. intros E H. unfold fsm_new in H. rewrite E in H. injection H as <-. do 2 eexists. split; [reflexivity|]. split; reflexivity. Qed.
(** What a restart gives: the store is untouched, ids from [next] on are not in use. *)
Lemma fsm_new_spec s mb rd w q r h L : sized s -> mb < block_ids -> (forall k, k <= mb -> s k <> None) ->
  (forall id, used s id = true -> known L mb id) -> L <= u32_max -> (forall b, rd b = true) ->
  fsm_new rd w s q r = Some h ->
  st h = s /\ fresh h = None /\ mint h = None /\ refill h = None /\ quant h = q /\ reuse h = r /\ backfill h = u32_max /\ next h <= L /\
  (exists mb', maxb h = Some mb' /\ mb <= mb' /\ mb' < block_ids /\ (forall k, k <= mb' -> s k <> None)) /\
  (forall id, used s id = true -> id < next h) /\
  (forall id, In id (freel h) -> id < next h /\ used s id = false) /\
  ((exists id, id < next h /\ used s id = false) -> hasf h = true) /\
  (exists l, NoDup l /\ (forall id, In id l <-> used s id = true) /\ total h = N.of_nat (length l)).
Proof.
  intros SZ MB EX US LU RD H. destruct (s 0) as [b0|] eqn:Z0; [|exfalso; apply (EX 0); [lia|assumption]].
  destruct (fsm_new_some _ _ _ _ _ _ _ Z0 H) as (n & x & HN & HX & ->). clear H.
  destruct (blocks_in_ge s mb MB EX) as (N1 & N2). rewrite <- HN in N1, N2.
  assert (forall k, k < N.of_nat n -> s k <> None) as EX2 by (intros k; rewrite HN; apply blocks_in_exist).
  pose proof (load_ok s n rd SZ EX2 RD) as (M & A & B & C & D & F).
  rewrite <- HX in M, A, B, C, D, F. clear HX HN.
  assert (forall id, used s id = true -> id < N.of_nat n * block_ids) as UB.
  { intros id U. apply US in U as [_ U]. unfold block_of, block_ids in *. lia. }
  assert (forall id, used s id = true -> (Z.of_N id <= l_last x)%Z) as UA by (intros id U; apply A; [split; [lia|now apply UB]|assumption]).
  assert (l_last x < Z.of_N L \/ l_last x = -1)%Z as LL. { destruct B as [B|(id & B1 & B2 & B3)]; [now right|left]. apply US in B2 as [B2 _]. lia. }
  assert (Z.to_N (l_last x + 1) mod two32 = Z.to_N (l_last x + 1)) as W by (apply N.mod_small; unfold two32, u32_max in *; lia).
  cbn [st fresh mint refill quant reuse backfill next maxb freel hasf total]. rewrite W.
  do 7 (split; [reflexivity|]). split; [lia|]. split; [|split; [|split; [|split]]].
  - exists (N.of_nat n - 1). split; [reflexivity|]. split; [lia|]. split; [lia|]. intros k K. apply EX2. lia.
  - intros id U. specialize (UA id U). lia.
  - intros id I. destruct (D id I) as (_ & D2 & D3). split; [lia|assumption].
  - intros (id & I1 & I2). destruct (l_free x) eqn:E; [|reflexivity]. exfalso. apply F; [|reflexivity].
    destruct B as [B|(m & B1 & B2 & B3)]; [lia|]. assert (id <> m) by congruence. exists id. split; [lia|]. split; [assumption|lia].
  - destruct C as (l & C1 & C2 & C3). exists l. split; [assumption|]. split; [|assumption]. intros id. rewrite C2. split; [tauto|].
    intros U. split; [split; [lia|now apply UB]|assumption].
Qed.
Lemma lim_le_next h hi : Sh h hi -> lim h <= next h.
Proof. intros SH. unfold lim. destruct (fresh h) as [f|] eqn:E; [destruct (s_fresh _ _ SH f E); lia|lia]. Qed.
Lemma restart_new y rd w q r h : Inv y -> (forall b, rd b = true) -> fsm_new rd w (st (shm y)) q r = Some h ->
  st h = st (shm y) /\ fresh h = None /\ mint h = None /\ refill h = None /\ quant h = q /\ reuse h = r /\ backfill h = u32_max /\ next h <= lim (shm y) /\
  (exists mb', maxb h = Some mb' /\ mb_of (shm y) <= mb' /\ mb' < block_ids /\ (forall k, k <= mb' -> st (shm y) k <> None)) /\
  (forall id, used (st (shm y)) id = true -> id < next h) /\
  (forall id, In id (freel h) -> id < next h /\ used (st (shm y)) id = false) /\
  ((exists id, id < next h /\ used (st (shm y)) id = false) -> hasf h = true) /\
  (exists l, NoDup l /\ (forall id, In id l <-> used (st (shm y)) id = true) /\ total h = N.of_nat (length l)).
Proof.
  intros [SH PC] RD H. pose proof (lim_le_next _ _ SH). pose proof (s_next _ _ SH).
  destruct (s_maxb _ _ SH) as (mb & A & B & C & D & E). unfold mb_of. rewrite A.
  apply (fsm_new_spec (st (shm y)) mb rd w q r h (lim (shm y))); try assumption; [apply SH|lia].
Qed.
Lemma restart_inv y rd w q r n h : Inv y -> (forall b, rd b = true) -> fsm_new rd w (st (shm y)) q r = Some h ->
  Inv (mksys h (repeat Idle n) (hist y)).
Proof.
  intros I RD H. destruct (restart_new y rd w q r h I RD H) as (E1 & E2 & E3 & E4 & E5 & E6 & E7 & E8 & E9 & E10 & E11 & _).
  destruct I as [SH PC]. pose proof (lim_le_next _ _ SH). pose proof (s_next _ _ SH).
  destruct (s_maxb _ _ SH) as (mb & A & B & C & D & E). unfold mb_of in E9. rewrite A in E9.
  destruct E9 as (mb' & A' & B' & C' & D').
  constructor; cbn [shm pcs hist].
  - constructor; rewrite ?E1; try apply SH.
    + exists mb'. unfold lim. rewrite E2. split; [assumption|]. split; [assumption|]. split; [assumption|].
      assert (forall id, id < next h -> (id < lim (shm y))) by (intros; lia).
      split; intros id U.
      * split; [now apply E10|]. destruct (D id U). lia.
      * destruct (E11 id U) as (X & _). split; [assumption|]. 
        (* ids below next lie in blocks up to that of the last used id *)
        destruct (N.leb_spec (block_of id) mb') as [|G]; [assumption|exfalso].
        assert (exists m, used (st (shm y)) m = true /\ id <= m) as (m & M1 & M2).
        { destruct (st (shm y) 0) eqn:Z0; [|exfalso; apply (C 0); [lia|assumption]].
          destruct (fsm_new_some _ _ _ _ _ _ _ Z0 H) as (n0 & x & HN & HX & EH).
          assert (forall k, k < N.of_nat n0 -> st (shm y) k <> None) as EX2 by (intros k; rewrite HN; apply blocks_in_exist).
          pose proof (load_ok _ n0 rd (s_sized _ _ SH) EX2 RD) as (_ & _ & LB & _ & LD & _). rewrite <- HX in LB, LD.
          rewrite EH in U. cbn [freel] in U. destruct (LD id U) as (_ & _ & L3).
          destruct LB as [LB|(m & M1 & M2 & M3)]; [lia|]. exists m. split; [assumption|lia]. }
        apply D in M1 as [_ M1]. unfold block_of, block_ids in *. lia.
    + lia.
    + intros f Ff. congruence.
  - intros t p T. apply nth_error_In, repeat_spec in T. subst. exact Logic.I.
Qed.

Lemma act_inv a y y' : Inv y -> room y -> (forall rd w q r n, a = Restart rd w q r n -> forall b, rd b = true) ->
  act_step a y = Some y' -> Inv y'.
Proof.
  intros I RM RD H. destruct a; cbn [act_step] in H.
  - destruct (nth_error (pcs y) t) as [p|] eqn:T; [|discriminate]. destruct (tstep t ok p (shm y)) as [[[p' h'] es]|] eqn:S; [|discriminate].
    injection H as <-. eapply tstep_inv; eassumption.
  - destruct (nth_error (pcs y) t) as [[]|] eqn:T; try discriminate. injection H as <-. destruct I as [SH PC]. constructor; cbn [shm pcs hist]; [assumption|].
    intros u p U. rewrite nth_error_set_nth in U. destruct (Nat.eqb_spec u t); [|now apply PC]. destruct (u <? length (pcs y))%nat; [|discriminate]. injection U as <-. exact Logic.I.
  - destruct (nth_error (pcs y) t) as [[]|] eqn:T; try discriminate. injection H as <-. destruct I as [SH PC]. constructor; cbn [shm pcs hist]; [assumption|].
    intros u p U. rewrite nth_error_set_nth in U. destruct (Nat.eqb_spec u t); [|now apply PC]. destruct (u <? length (pcs y))%nat; [|discriminate]. injection U as <-. exact Logic.I.
  - destruct (existsb guard_held (pcs y)); [discriminate|]. destruct (mint (shm y)) eqn:M; [discriminate|]. injection H as <-.
    destruct I as [SH PC]. constructor; cbn [shm pcs hist]; [|rewrite M in PC; exact PC].
    destruct SH as [SZ MB NX FR HO EX]. constructor; try assumption. intros f Ff. destruct (FR f Ff). congruence.
  - injection H as <-. destruct I as [SH PC]. constructor; cbn [shm pcs hist]; [|exact PC]. destruct SH as [SZ MB NX FR HO EX]. now constructor.
  - destruct (fsm_new rd w (st (shm y)) quantization_enabled reuse_enabled) eqn:F; [|discriminate]. injection H as <-.
    eapply restart_inv; [eassumption| |eassumption]. eapply RD. reflexivity.
Qed.
Lemma in_repeat {A} (x y : A) n i : nth_error (repeat x n) i = Some y -> y = x.
Proof. intros H. apply nth_error_In in H. now apply repeat_spec in H. Qed.
Lemma inv_init q r n : Inv (sys_new q r n).
Proof.
  constructor; cbn [sys_new shm pcs hist].
  - constructor; cbn [st maxb next fresh mint freel].
    + apply sized_put; [intros k b; discriminate|apply zeros_length].
    + exists 0. split; [reflexivity|]. split; [reflexivity|]. split; [|split].
      * intros k K. replace k with 0 by lia. rewrite put_eq. discriminate.
      * intros id U. rewrite put_zeros_used in U by reflexivity. discriminate.
      * intros id [].
    + unfold u32_max. lia.
    + discriminate.
    + intros id. rewrite put_zeros_used by reflexivity. unfold in_use. cbn. split; [discriminate|congruence].
    + exact Logic.I.
  - intros t p T. apply in_repeat in T. subst. exact Logic.I.
Qed.

(** * Counting *)
Definition weight (p : pc) : Z := match p with NAdd _ _ | MAdd _ _ => 1 | FSub _ => -1 | _ => 0 end.
Fixpoint sumw (l : list pc) : Z := match l with [] => 0 | p :: l => weight p + sumw l end.
Lemma sumw_set_nth l : forall t p p', nth_error l t = Some p -> sumw (set_nth t p' l) = (sumw l - weight p + weight p')%Z.
Proof. induction l as [|x l IH]; intros [|t] p p' H; cbn in *; try discriminate; [injection H as ->; lia|rewrite (IH t p p' H); lia]. Qed.
Lemma sumw_idle l : (forall p, In p l -> p = Idle) -> sumw l = 0%Z.
Proof. induction l as [|x l IH]; intros H; cbn; [reflexivity|]. rewrite IH by (intros; apply H; now right). now rewrite (H x) by now left. Qed.
Lemma sumw_repeat n : sumw (repeat Idle n) = 0%Z.
Proof. apply sumw_idle. intros p P. now apply repeat_spec in P. Qed.
Definition InvT (y : sys) : Prop :=
  total (shm y) < two64 /\
  exists l, lists_used l (hist y) /\ exists k, (Z.of_N (total (shm y)) = Z.of_nat (length l) - sumw (pcs y) + k * Z.of_N two64)%Z.
Lemma lists_used_alloc l hi id q : lists_used l hi -> ~ in_use hi id -> lists_used (id :: l) (Alloc id q :: hi).
Proof.
  intros (A & B) N. split; [constructor; [now rewrite B|assumption]|]. intros j. rewrite in_use_alloc, <- B. cbn [In]. intuition.
Qed.
Lemma lists_used_free l hi id : lists_used l hi -> in_use hi id -> exists l', lists_used l' (Free id :: hi) /\ S (length l') = length l.
Proof.
  intros (A & B) U. apply B in U. apply in_split in U as (l1 & l2 & ->). exists (l1 ++ l2). split; [split|].
  - eapply NoDup_remove_1. eassumption.
  - intros j. rewrite in_use_free, <- B, !in_app_iff. cbn [In]. apply NoDup_remove_2 in A. rewrite in_app_iff in A.
    split; [intros J; split; [intros ->; tauto|tauto]|]. intros (J1 & J2). intuition congruence.
  - rewrite !app_length. cbn. lia.
Qed.
(** The counter follows the marks. *)
Lemma tstep_total t ok p h p' h' es : total h < two64 -> tstep t ok p h = Some (p', h', es) ->
  (forall q id, p = MRmw q id -> forall s, rmw (st h) id true <> Some (false, s)) ->
  total h' < two64 /\
  match es with
  | [] => exists k, (Z.of_N (total h') + weight p' = Z.of_N (total h) + weight p + k * Z.of_N two64)%Z
  | [Alloc _ _] => total h' = total h /\ weight p' = (weight p + 1)%Z
  | [Free _] => total h' = total h /\ weight p' = (weight p - 1)%Z
  | _ => False
  end.
Proof.
  intros TL H NF. assert (forall z : Z, z = (z + 0 * Z.of_N two64)%Z) as Z0 by (intros; lia).
  assert (forall x, x mod two64 < two64) as ML by (intros; apply N.mod_lt; discriminate).
  destruct p; cbn [tstep] in H;
    try (injection H as <- <- <-; split; [exact TL|]; exists 0%Z; try destruct (reuse h); try destruct (hasf h); exact (Z0 _)).
  - discriminate.
  - destruct (freel h); injection H as <- <- <-; (split; [exact TL|]); exists 0%Z; apply Z0.
  - destruct (freel h); injection H as <- <- <-; (split; [exact TL|]); exists 0%Z; apply Z0.
  - destruct (mint h); [discriminate|]. destruct (next h <=? id); injection H as <- <- <-; (split; [exact TL|]); exists 0%Z; apply Z0.
  - destruct ok; cbn [negb] in H; [|injection H as <- <- <-; split; [exact TL|]; exists 0%Z; apply Z0].
    destruct (rmw (st h) id true) as [[[|] s]|]; [| |discriminate]; injection H as <- <- <-; (split; [exact TL|]); [split; reflexivity|exists 0%Z; apply Z0].
  - injection H as <- <- <-. cbn [add_total set_total total weight]. split; [apply ML|].
    exists (- ((Z.of_N (total h) + 1) / Z.of_N two64))%Z. unfold two64. lia.
  - destruct (refill h); [discriminate|]. injection H as <- <- <-. split; [exact TL|]. exists 0%Z; apply Z0.
  - destruct (freel h); injection H as <- <- <-; (split; [exact TL|]); exists 0%Z; apply Z0.
  - destruct (mint h); [discriminate|]. destruct (maxb h); injection H as <- <- <-; (split; [exact TL|]); exists 0%Z; apply Z0.
  - destruct (mb <? b); [injection H as <- <- <-; split; [exact TL|]; exists 0%Z; apply Z0|].
    destruct (nid <=? id); [injection H as <- <- <-; split; [exact TL|]; exists 0%Z; apply Z0|].
    destruct (if ok then st h b else None) as [bs|]; [|injection H as <- <- <-; split; [exact TL|]; exists 0%Z; apply Z0].
    destruct (scan_block bs id nid) as [[l id'] stop]. injection H as <- <- <-. split; [exact TL|]. exists 0%Z; apply Z0.
  - destruct cands; injection H as <- <- <-; (split; [exact TL|]); exists 0%Z; [destruct stop|]; apply Z0.
  - destruct (N.of_nat (length (freel h)) <? fast_size); injection H as <- <- <-; (split; [exact TL|]); exists 0%Z; apply Z0.
  - destruct found; injection H as <- <- <-; (split; [exact TL|]); exists 0%Z; apply Z0.
  - destruct (mint h); [discriminate|]. injection H as <- <- <-. split; [exact TL|]. exists 0%Z; apply Z0.
  - destruct (maxb h) as [mb|].
    + destruct (block_of id =? mb + 1); [|destruct (mb + 1 <? block_of id)].
      * destruct ok; injection H as <- <- <-; (split; [exact TL|]); exists 0%Z; apply Z0.
      * injection H as <- <- <-; (split; [exact TL|]); exists 0%Z; apply Z0.
      * injection H as <- <- <-; (split; [exact TL|]); exists 0%Z; apply Z0.
    + destruct ok; injection H as <- <- <-; (split; [exact TL|]); exists 0%Z; apply Z0.
  - destruct ok; cbn [negb] in H; [|injection H as <- <- <-; split; [exact TL|]; exists 0%Z; apply Z0].
    destruct (rmw (st h) id true) as [[[|] s]|] eqn:R; [| |discriminate].
    + injection H as <- <- <-. split; [exact TL|]. split; reflexivity.
    + exfalso. eapply NF; [reflexivity|eassumption].
  - injection H as <- <- <-. cbn [set_minter add_total set_total total weight]. split; [apply ML|].
    exists (- ((Z.of_N (total h) + 1) / Z.of_N two64))%Z. unfold two64. lia.
  - destruct (mint h); [discriminate|]. destruct (next h <=? id); injection H as <- <- <-; (split; [exact TL|]); exists 0%Z; apply Z0.
  - destruct ok; cbn [negb] in H; [|injection H as <- <- <-; split; [exact TL|]; exists 0%Z; apply Z0].
    destruct (rmw (st h) id false) as [[[|] s]|]; [| |discriminate]; injection H as <- <- <-; (split; [exact TL|]); [split; reflexivity|exists 0%Z; apply Z0].
  - injection H as <- <- <-. cbn [sub_total set_total total weight]. split; [apply ML|].
    exists (1 - ((Z.of_N (total h) + (Z.of_N two64 - 1)) / Z.of_N two64))%Z. unfold two64. lia.
  - destruct (N.of_nat (length (freel h)) <? fast_size); injection H as <- <- <-; (split; [exact TL|]); exists 0%Z; apply Z0.
Qed.
Lemma inv_mrmw y t q id : Inv y -> nth_error (pcs y) t = Some (MRmw q id) -> forall s, rmw (st (shm y)) id true <> Some (false, s).
Proof.
  intros I T s R. pose proof (v_pcs _ I t _ T) as OK. destruct OK as (O1 & O2 & O3). destruct I as [SH PC].
  destruct (s_maxb _ _ SH) as (mb & _ & _ & _ & F & _).
  destruct (rmw_spec (st (shm y)) id true (s_sized _ _ SH)) as (s2 & R2 & _). rewrite R in R2. injection R2 as C _.
  assert (used (st (shm y)) id = true) as U by (now destruct (used (st (shm y)) id)). apply F in U as [U _]. unfold lim in U. rewrite O2 in U. lia.
Qed.
Lemma NoDup_bounded l n : NoDup l -> (forall x, In x l -> x < n) -> N.of_nat (length l) <= n.
Proof.
  intros ND H. assert (length (map N.to_nat l) <= length (seq 0 (N.to_nat n)))%nat as L.
  { apply NoDup_incl_length; [apply NoDup_map_inj; [intros; lia|assumption]|].
    intros x X. apply in_map_iff in X as (z & <- & Z). apply in_seq. specialize (H z Z). lia. }
  rewrite map_length, seq_length in L. lia.
Qed.
Lemma act_total a y y' : Inv y -> InvT y -> room y -> (forall rd w q r n, a = Restart rd w q r n -> forall b, rd b = true) ->
  act_step a y = Some y' -> InvT y'.
Proof.
  intros I (TL & l & LU & k & K) RM RD H. pose proof (act_inv _ _ _ I RM RD H) as I'. destruct a; cbn [act_step] in H.
  - destruct (nth_error (pcs y) t) as [p|] eqn:T; [|discriminate]. destruct (tstep t ok p (shm y)) as [[[p' h'] es]|] eqn:S; [|discriminate].
    injection H as <-. destruct (tstep_total _ _ _ _ _ _ _ TL S) as (TL' & E).
    { intros q id -> s. eapply inv_mrmw; eassumption. }
    split; [exact TL'|]. pose proof (s_excl _ _ (v_sh _ I')) as EX. cbn [shm pcs hist] in *. rewrite (sumw_set_nth _ t p p' T).
    destruct es as [|[id q|id] [|]]; cbn [app exclusive] in *; try contradiction.
    + destruct E as (k' & E). exists l. split; [assumption|]. exists (k + k')%Z. lia.
    + destruct E as (E1 & E2). exists (id :: l). split; [apply lists_used_alloc; tauto|]. exists k. cbn [length]. lia.
    + destruct E as (E1 & E2). destruct (lists_used_free l _ id LU (proj1 EX)) as (l' & L1 & L2). exists l'. split; [assumption|]. exists k. lia.
  - destruct (nth_error (pcs y) t) as [[]|] eqn:T; try discriminate. injection H as <-. split; [exact TL|]. exists l. split; [exact LU|]. exists k. cbn [shm pcs]. rewrite (sumw_set_nth _ t _ _ T). cbn [weight]. lia.
  - destruct (nth_error (pcs y) t) as [[]|] eqn:T; try discriminate. injection H as <-. split; [exact TL|]. exists l. split; [exact LU|]. exists k. cbn [shm pcs]. rewrite (sumw_set_nth _ t _ _ T). cbn [weight]. lia.
  - destruct (existsb guard_held (pcs y)); [discriminate|]. destruct (mint (shm y)) eqn:M; [discriminate|]. injection H as <-. split; [exact TL|]. exists l. split; [exact LU|]. now exists k.
  - injection H as <-. split; [exact TL|]. exists l. split; [exact LU|]. now exists k.
  - destruct (fsm_new rd w (st (shm y)) quantization_enabled reuse_enabled) as [h|] eqn:F; [|discriminate]. injection H as <-.
    assert (forall b, rd b = true) as RD' by (eapply RD; reflexivity).
    destruct (restart_new y rd w _ _ h I RD' F) as (E1 & E2 & E3 & E4 & E5 & E6 & E7 & E8 & E9 & E10 & E11 & E12 & l' & L1 & L2 & L3).
    pose proof (v_sh _ I) as SH. pose proof (lim_le_next _ _ SH). pose proof (s_next _ _ SH).
    split; cbn [shm pcs hist].
    + rewrite L3. assert (N.of_nat (length l') <= next h) by (apply NoDup_bounded; [assumption|intros x X; apply E10; now apply L2]). unfold two64, u32_max in *. lia.
    + exists l'. split; [split; [assumption|]|]. { intros id. rewrite L2. apply SH. } exists 0%Z. rewrite sumw_repeat. lia.
Qed.
