(** Properties C35, C36, C53 and C54: the free space map of diskann-garnet. *)
From Verif.Lib Require Import Base Lists.
From Verif.Fsm Require Import Model Spec Proofs Proofs2 Proofs3 Proofs4 Proofs5 Proofs6.
Local Open Scope N_scope.

(** * C35.  Whatever the schedule, failing store operations and crashes, an id is never handed
    out while it is in use, only ids in use are freed, and an id returned was handed out with
    the quantization answer the guard shows. *)
Theorem C35_ids_exclusive acts q r n y : run acts (sys_new q r n) = Some y ->
  always room acts (sys_new q r n) -> readable acts ->
  exclusive (hist y) /\
  forall t q id, nth_error (pcs y) t = Some (NDone q id) -> In (Alloc id q) (hist y).
Proof.
  intros H AL RD. destruct (reach_all _ _ _ _ _ H AL RD) as ([SH PC] & _). split; [apply SH|].
  intros t q0 id T. exact (PC t _ T).
Qed.
Print Assumptions C35_ids_exclusive.
(** Fifteen steps of one thread: a new id, its release, and its reuse. *)
Definition mint_once (t : nat) : list act := CallNext t :: repeat (Step t true) 7.
Definition mint_plain (t : nat) : list act := CallNext t :: repeat (Step t true) 6.   (* reuse not enabled *)
Definition free_once (t : nat) (id : N) : list act := CallFree t id :: repeat (Step t true) 5.
Definition hist_of (o : option sys) : option (list event) := option_map hist o.
Example C35_reuse : hist_of (run (mint_once 0 ++ free_once 0 0 ++ CallNext 0 :: repeat (Step 0 true) 6) (sys_new false true 1))
  = Some [Alloc 0 false; Free 0; Alloc 0 false].
Proof. vm_compute. reflexivity. Qed.
(** Two callers race for the same freed id: one gets it, the other mints. *)
Example C35_race : hist_of (run (mint_once 0 ++ free_once 1 0 ++ [CallNext 0; CallNext 1; Step 0 true; Step 1 true; Step 0 true; Step 1 true;
    Step 0 true; Step 1 true] ++ repeat (Step 0 true) 3 ++ repeat (Step 1 true) 12) (sys_new false true 2))
  = Some [Alloc 1 false; Alloc 0 false; Free 0; Alloc 0 false].
Proof. vm_compute. reflexivity. Qed.
Fixpoint alwaysb (f : sys -> bool) (acts : list act) (y : sys) : bool :=
  f y && match acts with [] => true | a :: acts => match act_step a y with None => true | Some y => alwaysb f acts y end end.
Lemma alwaysb_room acts : forall y, alwaysb (fun y => next (shm y) <? u32_max) acts y = true -> always room acts y.
Proof.
  induction acts as [|a acts IH]; intros y H; cbn [alwaysb always] in *; apply andb_prop in H as (A & B); (split; [unfold room; lia|]); [exact Logic.I|].
  destruct (act_step a y); [now apply IH|exact Logic.I].
Qed.
Example C35_premises : let acts := mint_plain 0 ++ Restart (fun _ => true) true true true 2 :: mint_once 1 in
  always room acts (sys_new false false 1) /\ readable acts /\ hist_of (run acts (sys_new false false 1)) = Some [Alloc 1 true; Alloc 0 false].
Proof.
  split; [apply alwaysb_room; vm_compute; reflexivity|]. split; [|vm_compute; reflexivity].
  intros rd w q r n I b. repeat (destruct I as [I|I]; [first [discriminate|injection I; intros; subst; reflexivity]|]). destruct I.
Qed.

(** When every id is in use, the map started on that store hands out id 0 a second time
    instead of reporting an error: the next id is computed modulo [2^32]. *)
Theorem C35_refuted_exhausted s q r : sized s -> (forall id, id < two32 -> used s id = true) ->
  exists h, fsm_new (fun _ => true) true s q r = Some h /\
    exists acts y, run acts (mksys h [Idle] []) = Some y /\ used s 0 = true /\ hist y = [Alloc 0 q] /\ pcs y = [NDone q 0].
Proof.
  intros SZ US. assert (forall k, k < block_ids -> s k <> None) as EX.
  { intros k K N. assert (used s (k * block_ids) = true) as U by (apply US; unfold two32, block_ids in *; lia).
    rewrite used_bitat in U. unfold block_of in U. rewrite N.div_mul in U by discriminate. now rewrite N in U. }
  destruct (s 0) as [b0|] eqn:Z0; [|exfalso; apply (EX 0); [reflexivity|assumption]].
  destruct (fsm_new (fun _ => true) true s q r) as [h|] eqn:F; [|unfold fsm_new in F; rewrite Z0 in F; discriminate].
  exists h. split; [reflexivity|].
  destruct (fsm_new_some _ _ _ _ _ _ _ Z0 F) as (n & x & HN & HX & EH).
  destruct (blocks_in_ge s (block_ids - 1) ltac:(reflexivity)) as (N1 & N2); [intros k K; apply EX; unfold block_ids in *; lia|].
  rewrite <- HN in N1, N2.
  assert (N.of_nat n = block_ids) as NB by (unfold block_ids in *; lia).
  pose proof (load_ok s n (fun _ => true) SZ ltac:(intros k K; apply EX; lia) ltac:(reflexivity)) as (M & A & B & C & D & E).
  rewrite <- HX in M, A, B, C, D, E. rewrite NB in *.
  assert (l_last x = Z.of_N u32_max) as LX.
  { assert (Z.of_N u32_max <= l_last x)%Z by (apply A; [unfold u32_max, block_ids; lia|apply US; unfold u32_max, two32; lia]).
    destruct B as [B|(id & B1 & B2 & B3)]; [unfold u32_max in *; lia|]. unfold u32_max, block_ids in *. lia. }
  assert (l_free x = []) as LF.
  { destruct (l_free x) as [|i l]; [reflexivity|]. destruct (D i (or_introl eq_refl)) as (D1 & D2 & _). rewrite US in D2; [discriminate|]. unfold two32, block_ids in *. lia. }
  rewrite LX, LF in EH.
  assert (h = mksh s 0 (Some (block_ids - 1)) [] false (l_total x) r q u32_max None None None) as EH' by exact EH. clear EH.
  destruct (rmw_spec s 0 true SZ) as (s' & R & _). rewrite (US 0 ltac:(reflexivity)) in R. cbn [xorb] in R.
  exists (CallNext 0 :: Step 0 true :: (if r then [Step 0 true] else []) ++ repeat (Step 0 true) 3).
  eexists. split; [|split; [apply US; reflexivity|]].
  - subst h. destruct r; cbn [run app repeat act_step nth_error pcs set_nth tstep shm reuse hasf mint maxb hist quant next negb st set_minter set_st];
      change (block_of 0 =? block_ids - 1 + 1) with false; change (block_ids - 1 + 1 <? block_of 0) with false;
      cbn [run app repeat act_step nth_error pcs set_nth tstep shm reuse hasf mint maxb hist quant next negb st set_minter set_st]; rewrite R; reflexivity.
  - destruct r; split; reflexivity.
Qed.
Print Assumptions C35_refuted_exhausted.
Example C35_full_store : let s : store := fun k => if k <? block_ids then Some (repeat 255 (N.to_nat block_bytes)) else None in
  sized s /\ forall id, id < two32 -> used s id = true.
Proof.
  intros s. split.
  - intros k b. unfold s. destruct (k <? block_ids); [|discriminate]. intros H. assert (b = repeat 255 (N.to_nat block_bytes)) as -> by congruence. rewrite repeat_length. apply N2Nat.id.
  - intros id L. unfold used, s. destruct (N.ltb_spec (block_of id) block_ids) as [B|B].
    + destruct (id_parts id) as (_ & P1 & P2). destruct (nth_error (repeat 255 (N.to_nat block_bytes)) (N.to_nat (byte_of id))) as [x|] eqn:E.
      * apply nth_error_In, repeat_spec in E. subst. now apply bit_used_255.
      * apply nth_error_None in E. rewrite repeat_length in E. lia.
    + exfalso. unfold block_of, block_ids, two32 in *. pose proof (N.div_lt_upper_bound id 65536 65536 ltac:(lia) L). lia.
Qed.
(** A block that cannot be read at startup is taken for the end of the map: ids in use are
    handed out again. *)
Theorem C35_refuted_unreadable : exists acts y, run acts (sys_new false false 1) = Some y /\ always room acts (sys_new false false 1) /\
  hist y = [Alloc 0 false; Alloc 0 false].
Proof.
  exists (mint_plain 0 ++ Restart (fun _ => false) true false false 1 :: CallNext 0 :: repeat (Step 0 true) 5).
  destruct (run (mint_plain 0 ++ Restart (fun _ => false) true false false 1 :: CallNext 0 :: repeat (Step 0 true) 5) (sys_new false false 1)) as [y|] eqn:E.
  - exists y. split; [reflexivity|]. split; [apply alwaysb_room; vm_compute; reflexivity|].
    assert (hist_of (Some y) = Some [Alloc 0 false; Alloc 0 false]) as H by (rewrite <- E; vm_compute; reflexivity). now injection H.
  - assert (hist_of (None : option sys) = Some [Alloc 0 false; Alloc 0 false]) as H by (rewrite <- E; vm_compute; reflexivity). discriminate.
Qed.
Print Assumptions C35_refuted_unreadable.

(** * C36.  The map's answers: is_free, visit_used and, between calls, total_used agree with
    the history, also after a crash at any point followed by a restart. *)
Theorem C36_answers_exact acts q r n y : run acts (sys_new q r n) = Some y ->
  always room acts (sys_new q r n) -> readable acts ->
  (forall id b, is_free (shm y) id = Some b -> (b = false <-> in_use (hist y) id)) /\
  (forall id, in_use (hist y) id -> is_free (shm y) id = Some false) /\
  ascending (visit_used (shm y)) /\ (forall id, In id (visit_used (shm y)) <-> in_use (hist y) id) /\
  (quiet y -> exists l, lists_used l (hist y) /\ total (shm y) = N.of_nat (length l)).
Proof.
  intros H AL RD. destruct (reach_all _ _ _ _ _ H AL RD) as (I & T & _). destruct (visit_used_spec y I) as (V1 & V2).
  split; [intros id b; now apply is_free_spec|]. split; [intros id; now apply is_free_answers|]. split; [assumption|]. split; [assumption|].
  now apply quiet_total.
Qed.
Print Assumptions C36_answers_exact.
(** A restart succeeds, keeps the ids in use, and starts minting above all of them. *)
Theorem C36_restart_keeps_ids acts q r n y rd w q' r' n' : run acts (sys_new q r n) = Some y ->
  always room acts (sys_new q r n) -> readable acts -> (forall b, rd b = true) ->
  exists y', act_step (Restart rd w q' r' n') y = Some y' /\ hist y' = hist y /\
    (forall id, used (st (shm y')) id = true <-> in_use (hist y) id) /\
    (forall id, in_use (hist y) id -> id < next (shm y')) /\
    (forall id, In id (freel (shm y')) -> ~ in_use (hist y) id) /\
    exists l, lists_used l (hist y) /\ total (shm y') = N.of_nat (length l).
Proof.
  intros H AL RD RD'. destruct (reach_all _ _ _ _ _ H AL RD) as (I & _ & _). pose proof (v_sh _ I) as SH.
  destruct (s_maxb _ _ SH) as (mb & _ & _ & EXB & _). cbn [act_step].
  destruct (fsm_new rd w (st (shm y)) q' r') as [h|] eqn:F.
  2: { unfold fsm_new in F. destruct (st (shm y) 0) eqn:Z; [discriminate|]. exfalso. apply (EXB 0); [lia|assumption]. }
  destruct (restart_new y rd w _ _ h I RD' F) as (E1 & E2 & E3 & E4 & E5 & E6 & E7 & E8 & E9 & E10 & E11 & E12 & l & L1 & L2 & L3).
  eexists. split; [reflexivity|]. cbn [hist shm]. rewrite E1. split; [reflexivity|]. split; [apply SH|]. split; [|split].
  - intros id U. apply E10. now apply (s_hold _ _ SH).
  - intros id J U. apply (s_hold _ _ SH) in U. destruct (E11 id J). congruence.
  - exists l. split; [split; [assumption|]|assumption]. intros id. rewrite L2. apply SH.
Qed.
Print Assumptions C36_restart_keeps_ids.
Example C36_example : let acts := mint_plain 0 ++ mint_plain 0 ++ free_once 0 0 ++ [Restart (fun _ => true) true false true 1] in
  option_map (fun y => (total (shm y), visit_used (shm y), freel (shm y), is_free (shm y) 0, is_free (shm y) 1)) (run acts (sys_new false false 1))
  = Some (1, [1], [0], Some true, Some false).
Proof. vm_compute. reflexivity. Qed.

(** * C53.  With one caller, a store that never fails and reuse enabled, an id never handed out
    before is handed out only when all smaller ids are in use; so every id is smaller than the
    number of ids that were once in use together. *)
Theorem C53_freed_ids_first acts q y : run acts (sys_new q true 1) = Some y ->
  always room acts (sys_new q true 1) -> one_caller acts ->
  frugal (hist y) /\
  forall id q, In (Alloc id q) (hist y) ->
    exists pre l, (exists post, hist y = post ++ pre) /\ NoDup l /\ (forall j, In j l -> in_use pre j) /\ N.of_nat (length l) = id + 1.
Proof.
  intros H AL OC. pose proof (run_seq _ _ _ (inv_init q true 1) (init_seq q) AL OC H) as [_ _ _ FG _]. split; [assumption|].
  intros id q' I. apply (frugal_peak (hist y)) with (q := q'); try assumption.
  assert (readable acts) as RD. { intros rd w q0 r0 n0 X. now apply (OC _ X). }
  destruct (reach_all _ _ _ _ _ H AL RD) as ([SH _] & _). apply SH.
Qed.
Print Assumptions C53_freed_ids_first.
Example C53_example : let acts := mint_once 0 ++ mint_once 0 ++ free_once 0 0 ++ (CallNext 0 :: repeat (Step 0 true) 7) ++ (CallNext 0 :: repeat (Step 0 true) 14) in
  one_caller acts /\ always room acts (sys_new false true 1) /\
  hist_of (run acts (sys_new false true 1)) = Some [Alloc 2 false; Alloc 0 false; Free 0; Alloc 1 false; Alloc 0 false].
Proof.
  split; [|split; [apply alwaysb_room|]; vm_compute; reflexivity].
  intros a I. repeat (destruct I as [<-|I]; [first [reflexivity|exact Logic.I]|]). destruct I.
Qed.
(** With two callers the flag that free ids exist can be lost: from a state with no call running
    in which id 0 is free, a call made alone hands out the new id 2. *)
Definition lost_flag : list act :=
  mint_once 0 ++ free_once 1 0 ++ (CallNext 0 :: repeat (Step 0 true) 7) ++    (* id 0 used, freed and used again *)
  (CallNext 0 :: repeat (Step 0 true) 9) ++                                    (* caller 0 found nothing free ... *)
  free_once 1 0 ++                                                             (* ... caller 1 frees id 0 ... *)
  repeat (Step 0 true) 6.                                                      (* ... caller 0 clears the flag and mints 1 *)
Definition no_failures (acts : list act) : bool := forallb (fun a => match a with Step _ false => false | _ => true end) acts.
Definition quietb (y : sys) : bool := forallb (fun p => match p with Idle => true | _ => false end) (pcs y).
Definition then_mint (o : option sys) : option sys := match o with Some y => run (mint_once 0) y | None => None end.
Theorem C53_refuted_two_callers : exists acts y y', run acts (sys_new false true 2) = Some y /\ no_failures acts = true /\
  quiet y /\ hist y = [Alloc 1 false; Free 0; Alloc 0 false; Free 0; Alloc 0 false] /\
  run (mint_once 0) y = Some y' /\ hist y' = Alloc 2 false :: hist y.
Proof.
  exists lost_flag. destruct (run lost_flag (sys_new false true 2)) as [y|] eqn:E.
  2: { assert (hist_of (None : option sys) = Some [Alloc 1 false; Free 0; Alloc 0 false; Free 0; Alloc 0 false]) as H by (rewrite <- E; vm_compute; reflexivity). discriminate. }
  destruct (run (mint_once 0) y) as [y'|] eqn:E'.
  2: { assert (hist_of (then_mint (Some y)) = Some [Alloc 2 false; Alloc 1 false; Free 0; Alloc 0 false; Free 0; Alloc 0 false]) as H by (rewrite <- E; vm_compute; reflexivity).
       cbn [then_mint] in H. rewrite E' in H. discriminate. }
  assert (hist y = [Alloc 1 false; Free 0; Alloc 0 false; Free 0; Alloc 0 false]) as HY.
  { assert (hist_of (Some y) = Some [Alloc 1 false; Free 0; Alloc 0 false; Free 0; Alloc 0 false]) as H by (rewrite <- E; vm_compute; reflexivity). now injection H. }
  exists y, y'. split; [reflexivity|]. split; [reflexivity|]. split; [|split; [assumption|split; [exact E'|]]].
  - assert (option_map quietb (Some y) = Some true) as H by (rewrite <- E; vm_compute; reflexivity). injection H as H.
    intros p P. unfold quietb in H. rewrite forallb_forall in H. specialize (H p P). now destruct p.
  - rewrite HY. assert (hist_of (then_mint (Some y)) = Some [Alloc 2 false; Alloc 1 false; Free 0; Alloc 0 false; Free 0; Alloc 0 false]) as H by (rewrite <- E; vm_compute; reflexivity).
    cbn [then_mint] in H. rewrite E' in H. now injection H.
Qed.
Print Assumptions C53_refuted_two_callers.

(** * C54.  Once quantization is enabled, every id handed out is to be quantized, and every id
    in use that was handed out before lies in the backfill range of some task, and of one only
    when there are at most [2^16] tasks. *)
Theorem C54_backfill_complete acts q r n y : run acts (sys_new q r n) = Some y ->
  always room acts (sys_new q r n) -> readable acts -> quant (shm y) = true ->
  (forall a y' es, act_step a y = Some y' -> hist y' = es ++ hist y -> forall id, ~ In (Alloc id false) es) /\
  forall id, holder (hist y) id = Some false ->
    id <= backfill (shm y) /\
    forall tasks, tasks <> 0 -> backfill (shm y) < u32_max ->
      exists t, t < tasks /\ (exists lo hi, backfill_range (backfill (shm y)) t tasks = Some (lo, hi) /\ lo <= id < hi) /\
        (tasks <= 65536 -> forall t' lo hi, backfill_range (backfill (shm y)) t' tasks = Some (lo, hi) -> lo <= id < hi -> t' = t).
Proof.
  intros H AL RD QU. destruct (reach_all _ _ _ _ _ H AL RD) as (I & _ & IQ). destruct (IQ QU) as (A & B). split.
  - intros a y' es S E id IN. assert (forall e, e :: hist y <> hist y) as NC. { intros e X. apply (f_equal (@length _)) in X. cbn in X. lia. }
    assert (forall es', es' ++ hist y = es ++ hist y -> es' = es) as CA by (intros es'; apply app_inv_tail).
    destruct a; cbn [act_step] in S.
    + destruct (nth_error (pcs y) t) as [p|] eqn:T; [|discriminate]. destruct (tstep t ok p (shm y)) as [[[p' h'] es']|] eqn:TS; [|discriminate].
      injection S as <-. cbn [hist] in E. apply CA in E. subst es'. destruct (tstep_q _ _ _ _ _ _ _ TS) as (_ & _ & _ & _ & Q). apply Q in IN.
      destruct (A p (nth_error_In _ _ T)); congruence.
    + destruct (nth_error (pcs y) t) as [[]|] eqn:T; try discriminate. injection S as <-. apply (CA []) in E. subst. destruct IN.
    + destruct (nth_error (pcs y) t) as [[]|] eqn:T; try discriminate. injection S as <-. apply (CA []) in E. subst. destruct IN.
    + destruct (existsb guard_held (pcs y)); [discriminate|]. destruct (mint (shm y)); [discriminate|]. injection S as <-. apply (CA []) in E. subst. destruct IN.
    + injection S as <-. apply (CA []) in E. subst. destruct IN.
    + destruct (fsm_new rd w (st (shm y)) quantization_enabled reuse_enabled); [|discriminate]. injection S as <-. apply (CA []) in E. subst. destruct IN.
  - intros id HF. split; [now apply B|]. intros tasks TN BL. apply backfill_covers; [assumption|assumption|now apply B].
Qed.
Print Assumptions C54_backfill_complete.
Example C54_example : let acts := mint_plain 0 ++ mint_plain 0 ++ EnableQuantization :: mint_plain 0 in
  always room acts (sys_new false false 1) /\ option_map (fun y => (quant (shm y), backfill (shm y), hist y)) (run acts (sys_new false false 1))
    = Some (true, 1, [Alloc 2 true; Alloc 1 false; Alloc 0 false]) /\ backfill_range 1 0 4 = Some (0, 1) /\ backfill_range 1 1 4 = Some (1, 2) /\ backfill_range 1 2 4 = None.
Proof. split; [apply alwaysb_room|]; vm_compute; [reflexivity|]. repeat split. Qed.
(** With over a million tasks the start of a range is cut to 32 bits and the last task redoes
    the work of all others. *)
Theorem C54_refuted_many_tasks : exists max tasks t, t < tasks /\ t <> 0 /\ backfill_range max t tasks = Some (0, max + 1).
Proof. exists 4294967293, 1048577, 1048576. vm_compute. repeat split; congruence || auto. Qed.
Print Assumptions C54_refuted_many_tasks.
