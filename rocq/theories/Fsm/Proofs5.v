(** Quantization, and reuse by one caller. *)
From Verif.Lib Require Import Base Lists.
From Verif.Fsm Require Import Model Spec Proofs Proofs2 Proofs3 Proofs4.
Local Open Scope N_scope.
Ltac Zify.zify_post_hook ::= Z.div_mod_to_equations.

Definition q_of (p : pc) : option bool :=
  match p with
  | Idle | FCheck _ | FRmw _ | FSub _ | FPush _ | FFlag _ => None
  | NReuse q | NHas q | NPop q | NPop2 q | NCheck q _ | NRmw q _ | NAdd q _ | RLock q | RCheck q | RSnap q
  | RBlock q _ _ _ _ _ | RPush q _ _ _ _ _ _ _ | RPush2 q _ _ _ _ _ _ _ | REnd q _ | RStore q | NMint q
  | MExpand q _ | MRmw q _ | MAdd q _ | NDone q _ => Some q
  end.
Lemma q_of_guard p : guard_held p = false -> q_of p = None.
Proof. now destruct p. Qed.
Ltac crush H :=
  repeat (first
    [ discriminate
    | match type of H with Some _ = Some _ => injection H as <- <- <- end
    | match type of H with context [match ?x with _ => _ end] => destruct x eqn:? end ]).
Lemma tstep_q t ok p h p' h' es : tstep t ok p h = Some (p', h', es) ->
  quant h' = quant h /\ backfill h' = backfill h /\ reuse h' = reuse h /\ (q_of p' = q_of p \/ q_of p' = None) /\
  (forall id q, In (Alloc id q) es -> q_of p = Some q).
Proof.
  intros H. destruct p; cbn [tstep] in H; crush H;
    repeat match goal with |- context [if ?b then _ else _] => destruct b end;
    (split; [reflexivity|]); (split; [reflexivity|]); (split; [reflexivity|]);
    (split; [cbn [q_of]; tauto|]); intros i0 q0 I0; cbn [In] in I0; try contradiction; destruct I0 as [I0|I0]; try contradiction; try discriminate; injection I0 as _ <-; reflexivity.
Qed.
Definition InvQ (y : sys) : Prop :=
  quant (shm y) = true ->
  (forall p, In p (pcs y) -> q_of p = Some true \/ q_of p = None) /\
  (forall id, holder (hist y) id = Some false -> id <= backfill (shm y)).
Lemma in_set_nth {A} (x z : A) l t : In z (set_nth t x l) -> z = x \/ In z l.
Proof.
  revert t. induction l as [|a l IH]; intros [|t]; cbn; try tauto.
  - intros [<-|I]; tauto.
  - intros [<-|I]; [tauto|]. destruct (IH t I); tauto.
Qed.
Lemma holder_app_false es hi id : (forall j q, In (Alloc j q) es -> q = true) -> holder (es ++ hi) id = Some false -> holder hi id = Some false.
Proof.
  induction es as [|[j q|j] es IH]; intros H; cbn [app holder]; [auto| |].
  - assert (q = true) as -> by (apply (H j); now left). destruct (j =? id); [discriminate|]. apply IH. intros; eapply H; right; eassumption.
  - destruct (j =? id); [discriminate|]. apply IH. intros; eapply H; right; eassumption.
Qed.
Lemma existsb_false {A} (f : A -> bool) l : existsb f l = false -> forall x, In x l -> f x = false.
Proof. intros H x X. destruct (f x) eqn:E; [|reflexivity]. assert (existsb f l = true) by (apply existsb_exists; eauto). congruence. Qed.
Lemma act_quant a y y' : Inv y -> InvQ y -> (forall rd w q r n, a = Restart rd w q r n -> forall b, rd b = true) -> act_step a y = Some y' -> InvQ y'.
Proof.
  intros I IQ RD H. destruct a; cbn [act_step] in H.
  - destruct (nth_error (pcs y) t) as [p|] eqn:T; [|discriminate]. destruct (tstep t ok p (shm y)) as [[[p' h'] es]|] eqn:S; [|discriminate].
    injection H as <-. destruct (tstep_q _ _ _ _ _ _ _ S) as (E1 & E2 & _ & E3 & E4). intros Q. cbn [shm pcs hist] in *.
    rewrite E1 in Q. destruct (IQ Q) as (A & B). pose proof (A p (nth_error_In _ _ T)) as AP. split.
    + intros z Z. apply in_set_nth in Z as [->|Z]; [|now apply A]. destruct E3 as [-> | ->]; [assumption|now right].
    + rewrite E2. intros id HF. apply B. revert HF. apply holder_app_false. intros j q J. apply E4 in J. destruct AP; congruence.
  - destruct (nth_error (pcs y) t) as [[]|] eqn:T; try discriminate. injection H as <-. intros Q. cbn [shm pcs hist] in *. destruct (IQ Q) as (A & B).
    split; [|assumption]. intros z Z. apply in_set_nth in Z as [->|Z]; [|now apply A]. left. cbn [q_of]. now rewrite Q.
  - destruct (nth_error (pcs y) t) as [[]|] eqn:T; try discriminate. injection H as <-. intros Q. cbn [shm pcs hist] in *. destruct (IQ Q) as (A & B).
    split; [|assumption]. intros z Z. apply in_set_nth in Z as [->|Z]; [|now apply A]. now right.
  - destruct (existsb guard_held (pcs y)) eqn:G; [discriminate|]. destruct (mint (shm y)) eqn:M; [discriminate|]. injection H as <-. intros _. cbn [shm pcs hist backfill]. split.
    + intros p P. right. apply q_of_guard. exact (existsb_false _ _ G p P).
    + intros id HF. destruct I as [SH PC]. assert (in_use (hist y) id) as U by (unfold in_use; congruence). apply (s_hold _ _ SH) in U.
      destruct (s_maxb _ _ SH) as (mb & _ & _ & _ & F & _). destruct (F _ U) as [UL _]. pose proof (lim_le_next _ _ SH). lia.
  - injection H as <-. exact IQ.
  - destruct (fsm_new rd w (st (shm y)) quantization_enabled reuse_enabled) as [h|] eqn:F; [|discriminate]. injection H as <-.
    assert (forall b, rd b = true) as RD' by (eapply RD; reflexivity).
    destruct (restart_new y rd w _ _ h I RD' F) as (E1 & E2 & E3 & E4 & E5 & E6 & E7 & _). intros _. cbn [shm pcs hist]. split.
    + intros p P. apply repeat_spec in P. subst. now right.
    + rewrite E7. intros id HF. destruct I as [SH PC]. assert (in_use (hist y) id) as U by (unfold in_use; congruence). apply (s_hold _ _ SH) in U.
      destruct (s_maxb _ _ SH) as (mb & _ & _ & _ & G & _). destruct (G _ U) as [UL _]. pose proof (lim_le_next _ _ SH). pose proof (s_next _ _ SH). lia.
Qed.

(** * Runs *)
Lemma run_all acts : forall y y', Inv y -> InvT y -> InvQ y -> always room acts y -> readable acts -> run acts y = Some y' ->
  Inv y' /\ InvT y' /\ InvQ y'.
Proof.
  induction acts as [|a acts IH]; intros y y' I T Q AL RD H; cbn [run always] in *.
  - injection H as <-. tauto.
  - destruct AL as (RM & AL). destruct (act_step a y) as [z|] eqn:E; [|discriminate].
    assert (forall rd w q r n, a = Restart rd w q r n -> forall b, rd b = true) as RA by (intros; eapply RD; left; eassumption).
    apply (IH z); try assumption.
    + eapply act_inv; eassumption.
    + exact (act_total a y z I T RM RA E).
    + exact (act_quant a y z I Q RA E).
    + intros rd w q r n X. eapply RD. right. exact X.
Qed.
Lemma init_total q r n : InvT (sys_new q r n).
Proof.
  split; [reflexivity|]. exists []. split; [split; [constructor|]|].
  - intros id. unfold in_use. cbn. intuition congruence.
  - exists 0%Z. cbn [sys_new shm total pcs]. rewrite sumw_repeat. reflexivity.
Qed.
Lemma init_quant q r n : InvQ (sys_new q r n).
Proof. intros _. split; [|discriminate]. intros p P. apply repeat_spec in P. subst. now right. Qed.
Lemma reach_all acts q r n y : run acts (sys_new q r n) = Some y -> always room acts (sys_new q r n) -> readable acts -> Inv y /\ InvT y /\ InvQ y.
Proof. intros H AL RD. eapply run_all; try eassumption; [apply inv_init|apply init_total|apply init_quant]. Qed.
Lemma quiet_total y : Inv y -> InvT y -> quiet y -> exists l, lists_used l (hist y) /\ total (shm y) = N.of_nat (length l).
Proof.
  intros I (TL & l & LU & k & K) QU. exists l. split; [assumption|]. rewrite (sumw_idle _ QU) in K.
  destruct I as [SH PC]. assert (N.of_nat (length l) <= u32_max).
  { destruct LU as (A & B). apply NoDup_bounded; [assumption|]. intros x X. apply B, (s_hold _ _ SH) in X.
    destruct (s_maxb _ _ SH) as (mb & _ & _ & _ & F & _). destruct (F _ X) as [XL _]. pose proof (lim_le_next _ _ SH). pose proof (s_next _ _ SH). lia. }
  unfold two64, u32_max in *. lia.
Qed.
Lemma is_free_spec y id b : Inv y -> is_free (shm y) id = Some b -> b = false <-> in_use (hist y) id.
Proof.
  intros [SH PC] H. rewrite <- (s_hold _ _ SH). unfold is_free in H. destruct (next (shm y) <=? id); [discriminate|].
  destruct (maxb (shm y)) as [mb|]; [|discriminate]. destruct (mb <? block_of id); [discriminate|]. unfold used.
  destruct (st (shm y) (block_of id)) as [bs|]; [|discriminate]. destruct (nth_error bs _) as [x|]; [|discriminate].
  injection H as <-. destruct (bit_used x (bit_of id)); cbn; intuition congruence.
Qed.
(** An id in use always gets an answer when no id is being minted. *)
Lemma is_free_answers y id : Inv y -> in_use (hist y) id -> is_free (shm y) id = Some false.
Proof.
  intros [SH PC] U. pose proof U as U0. apply (s_hold _ _ SH) in U. destruct (s_maxb _ _ SH) as (mb & A & B & C & F & _).
  pose proof (F id U) as [F1 F2]. pose proof (lim_le_next _ _ SH). unfold is_free. rewrite A.
  destruct (N.leb_spec (next (shm y)) id); [lia|]. destruct (N.ltb_spec mb (block_of id)); [lia|].
  unfold used in U. destruct (st (shm y) (block_of id)); [|discriminate]. destruct (nth_error b _); [|discriminate]. now rewrite U.
Qed.
Lemma visit_used_spec y : Inv y -> ascending (visit_used (shm y)) /\ forall id, In id (visit_used (shm y)) <-> in_use (hist y) id.
Proof.
  intros [SH PC]. destruct (s_maxb _ _ SH) as (mb & A & B & C & F & _). unfold visit_used. rewrite A.
  destruct (visit_blocks_spec (st (shm y)) (N.to_nat (mb + 1)) 0 (s_sized _ _ SH)) as (V1 & V2); [intros k K; apply C; lia|].
  split; [assumption|]. intros id. rewrite V2, (s_hold _ _ SH). split; [tauto|]. intros U. split; [|assumption].
  apply (s_hold _ _ SH) in U. apply F in U as [_ U]. unfold block_of, block_ids in *. lia.
Qed.

(** * Backfill ranges *)
Lemma div_ceil_spec a b : b <> 0 -> 0 < a -> a <= b * div_ceil a b /\ b * (div_ceil a b - 1) < a.
Proof. intros B A. unfold div_ceil. destruct (a mod b =? 0) eqn:E; [apply N.eqb_eq in E|apply N.eqb_neq in E]; pose proof (N.div_mod a b B); pose proof (N.mod_lt a b B); nia. Qed.
Lemma backfill_covers max tc id : max < u32_max -> tc <> 0 -> id <= max ->
  exists t, t < tc /\ (exists lo hi, backfill_range max t tc = Some (lo, hi) /\ lo <= id < hi) /\
    (tc <= 65536 -> forall t' lo hi, backfill_range max t' tc = Some (lo, hi) -> lo <= id < hi -> t' = t).
Proof.
  intros MX TC ID. unfold backfill_range. destruct (N.leb_spec u32_max max); [lia|].
  set (c := N.min tc (max + 1)). assert (0 < c <= max + 1 /\ c <= tc) as (C1 & C2) by lia. clearbody c.
  destruct (div_ceil_spec (max + 1) c ltac:(lia) ltac:(lia)) as (D1 & D2). set (w := div_ceil (max + 1) c) in *. clearbody w.
  assert (0 < w) by nia. assert (w <= max + 1) by nia.
  set (t := id / w). assert (w * t <= id < w * t + w) as TT. { unfold t. pose proof (N.div_mod id w ltac:(lia)). pose proof (N.mod_lt id w ltac:(lia)). lia. }
  assert (t < c) as TL by nia. clearbody t.
  assert (forall t', N.min (w * (t' + 1)) (max + 1) mod two32 = N.min (w * (t' + 1)) (max + 1)) as SM.
  { intros t'. apply N.mod_small; unfold two32, u32_max in *; lia. }
  exists t. split; [lia|]. split.
  - destruct (N.leb_spec c t); [lia|]. do 2 eexists. split; [reflexivity|]. rewrite SM.
    rewrite N.mod_small by (unfold two32, u32_max in *; lia). lia.
  - intros TB t' lo hi. destruct (N.leb_spec c t'); [discriminate|]. intros X. injection X as <- <-. rewrite SM.
    assert (w * t' < two32) as L.
    { assert (w * t' <= c * (w - 1) + c - w) as B1 by nia. unfold two32, u32_max in *. destruct (N.leb_spec c w); [nia|]. pose proof (N.mul_le_mono w 65535 t' 65535 ltac:(lia) ltac:(lia)). lia. }
    rewrite (N.mod_small (w * t')) by assumption. intros Y. nia.
Qed.
Lemma backfill_bound max t tc lo hi id : backfill_range max t tc = Some (lo, hi) -> lo <= id < hi -> id <= max.
Proof.
  unfold backfill_range. destruct (u32_max <=? max) eqn:E; [discriminate|]. destruct (_ <=? t); [discriminate|]. intros X. injection X as <- <-. intros [_ Y].
  rewrite N.mod_small in Y by (unfold two32, u32_max in *; lia). lia.
Qed.
