(** The statements of Props.v about handles, readers and retirement. *)
From Verif.Lib Require Import Base Lists.
From Verif.Epoch Require Import Model Spec Proofs.
From Verif.Store Require Import Model Spec Proofs ProofsLog.

Lemma has_slot_role σ o i : has_slot σ o i -> rl (s_cl σ o) = Some (i, Own).
Proof. unfold has_slot. destruct (s_cl σ o); try contradiction; [destruct acq; [|contradiction]| |]; cbn; intros ->; reflexivity. Qed.
Lemma has_slice_got σ o i v : has_slice σ o i v <-> In (i, v) (got (s_cl σ o)).
Proof. unfold has_slice. destruct (s_cl σ o); cbn; tauto. Qed.
Lemma slice_no_slot ng init σ o i v : SInv ng init σ -> has_slice σ o i v -> s_data σ i = v /\ forall o', ~ has_slot σ o' i.
Proof.
  intros I H. apply has_slice_got in H. destruct (v_got _ _ _ I _ _ _ H) as (Hi & D & C). split; [assumption|].
  intros o' W. apply has_slot_role in W. destruct (v_role _ _ _ I _ _ _ W) as (_ & _ & M). destruct C as [C|[(y & C)|C]].
  - rewrite M in C. discriminate.
  - destruct (v_role _ _ _ I _ _ _ C) as (_ & _ & M'). rewrite M in M'. discriminate.
  - destruct C as (it & A & B & _). destruct (v_pend _ _ _ I (N.of_nat i)) as (j & Ej & _ & _ & _ & NR).
    { rewrite pending_allq, <- B. now apply in_map. }
    assert (j = i) by lia. subst j. eapply NR; eauto.
Qed.
Lemma cl_others x c σ σ' o : sstep x c σ = Some σ' -> o <> x -> s_cl σ' o = s_cl σ o.
Proof.
  intros S N.
  assert (A : forall s k, s_cl (attempt_end s x k) o = s_cl s o) by (intros s [|k]; cbn; apply upd_neq; congruence).
  assert (T : forall s b, s_cl (try_failed s x b) o = s_cl s o) by (intros s [k|k r]; cbn [try_failed]; [apply A|]; cbn; apply upd_neq; congruence).
  assert (D : forall s b r, s_cl (drain_end s x b r) o = s_cl s o) by (intros s [k|] r; cbn [drain_end]; [apply A|]; cbn; apply upd_neq; congruence).
  scases S; rewrite ?T, ?D; try reflexivity; cbn [set_cl set_tag set_mir set_data set_fl set_reg semit panic s_cl]; apply upd_neq; congruence.
Qed.
Lemma slice_step_lemma σ x c σ' o i v : has_slice σ o i v -> sstep x c σ = Some σ' ->
  has_slice σ' o i v \/ (x = o /\ c = DropReader).
Proof.
  intros H S. rewrite !has_slice_got in *. destruct (Nat.eq_dec x o) as [->|N].
  - destruct (s_cl σ o) eqn:P; cbn in H; try contradiction. unfold sstep in S. rewrite P in S.
    destruct c; try discriminate; auto.
    + left. repeat match type of S with context [if ?b then _ else _] => destruct b end; inv S; cbn; rewrite ?P, ?upd_eq; cbn; auto.
    + unfold go in S. rewrite P in S. discriminate.
  - left. now rewrite (cl_others _ _ _ _ _ S) by congruence.
Qed.
Lemma unique_lemma ng init σ o o' i : SInv ng init σ -> has_slot σ o i -> has_slot σ o' i -> o = o'.
Proof. intros I A B. eapply (v_uniq _ _ _ I); eapply has_slot_role; eauto. Qed.
Lemma no_read_lemma ng init σ o i o' σ' : SInv ng init σ -> has_slot σ o i -> sstep o' (CallRead i) σ = Some σ' ->
  s_log σ' = s_log σ ++ [SRead o' i None].
Proof.
  intros I A S. destruct (v_role _ _ _ I _ _ _ (has_slot_role _ _ _ A)) as (L & _ & M).
  unfold sstep in S. destruct (s_cl σ o'); try discriminate. destruct (negb _); [inv S; reflexivity|].
  rewrite M in S. cbn in S. inv S. reflexivity.
Qed.

(** ** Frozen points *)
Lemma frozen_lemma ng init σ i : SInv ng init σ -> GInv init σ -> s_unf σ <= i < s_n σ ->
  s_data σ i = init i /\
  (forall o, ~ has_slot σ o i) /\
  (forall o got, s_cl σ o = RHeld got -> exists σ', sstep o (CallRead i) σ = Some σ' /\ s_log σ' = s_log σ ++ [SRead o i (Some (init i))]) /\
  (forall o σ', sstep o (CallRetire i) σ = Some σ' -> s_log σ' = s_log σ ++ [SRetire o i (Some (SlotIsReserved FROZEN))] /\ s_cl σ' o = s_cl σ o) /\
  (forall e, In e (s_log σ) -> match e with
     | SAcquired _ j | SWrite _ j _ | SPublish _ j _ | SPublished _ j | SSlotDrop _ j | SRetire _ j None => j <> i | _ => True end).
Proof.
  intros I G H. destruct (v_frozen _ _ _ I i H) as (T & M & D). split; [assumption|]. split; [|split; [|split]].
  - intros o W. apply has_slot_role in W. apply (role_unf _ _ _ _ _ _ I) in W. lia.
  - intros o g P. unfold sstep. rewrite P. destruct (Nat.ltb_spec i (s_n σ)); [|lia]. cbn [negb]. rewrite M.
    change (can_read FROZEN) with true. cbn match. eexists. split; [reflexivity|]. cbn. now rewrite D.
  - intros o σ' S. unfold sstep in S. destruct (s_cl σ o) eqn:P; try discriminate. destruct (Nat.ltb_spec i (s_n σ)); [|lia]. cbn [negb] in S.
    rewrite T in S. change (is_reserved FROZEN) with true in S. cbn match in S. inv S. cbn. auto.
  - intros e He. pose proof (g_idx _ _ G) as F. rewrite Forall_forall in F. specialize (F e He). destruct e; auto; cbn in F; try lia.
    destruct r; [exact Logic.I|]. lia.
Qed.

(** ** Retirement *)
Lemma live_inv log i : live log i false = true ->
  exists q o', nth_error log q = Some (SPublished o' i) /\ forall m x, q < m -> nth_error log m <> Some (SRetire x i None).
Proof.
  induction log as [|e log IH] using rev_ind; [discriminate|]. intros H. rewrite live_app in H.
  assert (K : live log i false = true -> (forall x, e <> SRetire x i None) ->
    exists q o', nth_error (log ++ [e]) q = Some (SPublished o' i) /\ forall m x, q < m -> nth_error (log ++ [e]) m <> Some (SRetire x i None)).
  { intros A B. destruct (IH A) as (q & o' & C & D). exists q, o'. split.
    - rewrite nth_error_snoc_old; [assumption|]. now apply nth_error_lt in C.
    - intros m x Hm E. apply nth_error_snoc in E. destruct E as [[_ E]|[_ E]]; [eapply D; eauto|]. now apply (B x). }
  destruct e; cbn [live] in H; try (apply K; [assumption|intros ? E; discriminate]).
  - destruct (Nat.eqb_spec i0 i) as [->|N]; [|apply K; [assumption|intros ? E; discriminate]].
    exists (length log), o. rewrite nth_error_app2, Nat.sub_diag by lia. split; [reflexivity|]. intros m x Hm E. apply nth_error_lt in E. rewrite app_length in E. cbn in E. lia.
  - destruct r; [apply K; [assumption|intros ? E; discriminate]|]. destruct (Nat.eqb_spec i0 i) as [->|N]; [discriminate|].
    apply K; [assumption|]. intros ? E. injection E as <- <-. congruence.
Qed.
Lemma vis_inv log i p o : vis log i false = true -> nth_error log p = Some (SRetire o i None) ->
  exists m x w, p < m /\ nth_error log m = Some (SPublish x i w).
Proof.
  induction log as [|e log IH] using rev_ind; [discriminate|]. intros H E. rewrite vis_app in H.
  assert (L := nth_error_lt _ _ _ E). rewrite app_length in L. cbn in L.
  assert (K : vis log i false = true -> e <> SRetire o i None -> exists m x w, p < m /\ nth_error (log ++ [e]) m = Some (SPublish x i w)).
  { intros A B. apply nth_error_snoc in E. destruct E as [[_ E]|[_ E]]; [|congruence].
    destruct (IH A E) as (m & x & w & C & D). exists m, x, w. split; [assumption|]. rewrite nth_error_snoc_old; [assumption|]. now apply nth_error_lt in D. }
  destruct e; cbn [vis] in H; try (apply K; [assumption|intros E0; discriminate]).
  - destruct (Nat.eqb_spec i0 i) as [->|N]; [|apply K; [assumption|intros E0; discriminate]].
    exists (length log), o0, w. rewrite nth_error_app2, Nat.sub_diag by lia. split; [|reflexivity].
    apply nth_error_snoc in E. destruct E as [[A E]|[_ E]]; [assumption|discriminate].
  - destruct r; [apply K; [assumption|intros E0; discriminate]|]. destruct (Nat.eqb_spec i0 i) as [->|N]; [discriminate|].
    apply K; [assumption|]. intros E0. injection E0 as <- <-. congruence.
Qed.
Lemma nth_error_firstn {A} (l : list A) p m x : nth_error (firstn p l) m = Some x -> m < p /\ nth_error l m = Some x.
Proof.
  revert p m. induction l as [|a l IH]; intros [|p] [|m] H; try discriminate; cbn in *.
  - split; [lia|assumption].
  - apply IH in H. split; [lia|tauto].
Qed.
Lemma firstn_nth {A} (l : list A) p m x : m < p -> nth_error l m = Some x -> nth_error (firstn p l) m = Some x.
Proof.
  revert p m. induction l as [|a l IH]; intros [|p] [|m] L H; try discriminate; try lia; cbn in *; [assumption|]. apply IH; [lia|assumption].
Qed.
Lemma retire_once_lemma init σ p o i : GInv init σ -> nth_error (s_log σ) p = Some (SRetire o i None) ->
  exists q o', q < p /\ nth_error (s_log σ) q = Some (SPublished o' i) /\
    forall m x, q < m < p -> nth_error (s_log σ) m <> Some (SRetire x i None).
Proof.
  intros G H. apply (g_ret _ _ G) in H. apply live_inv in H. destruct H as (q & o' & A & B).
  apply nth_error_firstn in A. exists q, o'. split; [tauto|]. split; [tauto|]. intros m x Hm E. apply (B m x); [lia|]. apply firstn_nth; [lia|assumption].
Qed.
Lemma hidden_lemma init σ p o i r x v : GInv init σ -> nth_error (s_log σ) p = Some (SRetire o i None) -> p < r ->
  nth_error (s_log σ) r = Some (SRead x i (Some v)) -> exists m y w, p < m < r /\ nth_error (s_log σ) m = Some (SPublish y i w).
Proof.
  intros G P L R. destruct (g_read _ _ G _ _ _ _ R) as [[U _]|[_ V]].
  - pose proof (g_idx _ _ G) as F. rewrite Forall_forall in F. apply nth_error_In in P. specialize (F _ P). cbn in F. lia.
  - destruct (vis_inv _ i p o V (firstn_nth _ _ _ _ L P)) as (m & y & w & A & B). apply nth_error_firstn in B. exists m, y, w. split; [lia|tauto].
Qed.
Lemma retire_busy_lemma ng init σ o i o' σ' : SInv ng init σ -> (has_slot σ o' i \/ s_n σ <= i) -> sstep o (CallRetire i) σ = Some σ' ->
  s_cl σ' o = s_cl σ o /\ exists e, s_log σ' = s_log σ ++ [SRetire o i (Some e)].
Proof.
  intros I H S. unfold sstep in S. destruct (s_cl σ o) eqn:P; try discriminate.
  destruct (Nat.ltb_spec i (s_n σ)) as [L|L]; cbn [negb] in S; [|inv S; cbn; split; eauto].
  destruct H as [H|H]; [|lia]. destruct (v_role _ _ _ I _ _ _ (has_slot_role _ _ _ H)) as (_ & T & _).
  rewrite T in S. cbn in S. inv S. cbn. split; eauto.
Qed.

(** ** Panics *)
Definition PInv (r : reg) : Prop := forall a, r_ag r a = APanic -> r_epoch r = u64_max.
Lemma pinv_step ng o c r r' : Inv ng r -> PInv r -> step o c r = Some r' -> PInv r'.
Proof.
  intros I P H a Ha. pose proof (i_epoch _ _ I) as EP.
  assert (NA : r_ag r a = APanic -> r_epoch r = u64_max) by apply P.
  assert (K : forall p, p <> APanic -> upd (r_ag r) o p a = APanic -> r_epoch r = u64_max) by (intros p N H0; ups; [congruence|auto]).
  unfold step in H. destruct (r_ag r o) eqn:Eo; destruct c; try discriminate; unfold guard_go, advance_go in H;
    repeat match type of H with
      | context [match ?x with _ => _ end] => match type of x with bool => destruct x eqn:? end
      end; cbn match in H; repeat match type of H with
      | context [match ?x with _ => _ end] => destruct x eqn:?
      end; inv H; cbn [set_ag set_guard set_hint set_epoch set_lock set_q emit r_ag r_epoch] in Ha |- *; try (eapply K; [|exact Ha]; discriminate); auto.
  - (* the panic *) destruct (i_scan _ _ I _ _ _ _ Eo) as (S1 & S2 & _). apply N.eqb_eq in Heqb0. subst. apply N.le_antisymm; [apply EP|assumption].
  - (* the increment *) pose proof (i_inc _ _ I _ _ Eo) as [C1 C2]. subst cur. exfalso. apply K in Ha; [|discriminate]. rewrite Ha in C2. exact (N.lt_irrefl _ C2).
Qed.
Record QInv (σ : store) : Prop := { q_reg : PInv (s_reg σ); q_log : forall o, In (SPanic o) (s_log σ) -> s_cl σ o = CPanic }.
Lemma log_step x c σ σ' : sstep x c σ = Some σ' ->
  s_log σ' = s_log σ \/ exists e, s_log σ' = s_log σ ++ [e] /\ (e = SPanic x -> s_cl σ' x = CPanic) /\ forall o, e = SPanic o -> o = x.
Proof.
  intros S.
  assert (A : forall s k, s_log s = s_log σ -> s_log (attempt_end s x k) = s_log σ \/ exists e, s_log (attempt_end s x k) = s_log σ ++ [e] /\
      (e = SPanic x -> s_cl (attempt_end s x k) x = CPanic) /\ forall o, e = SPanic o -> o = x).
  { intros s [|k] E; cbn; rewrite E; [right|auto]. eexists. split; [reflexivity|]. split; [discriminate|intros; discriminate]. }
  assert (T : forall s b, s_log s = s_log σ -> s_log (try_failed s x b) = s_log σ \/ exists e, s_log (try_failed s x b) = s_log σ ++ [e] /\
      (e = SPanic x -> s_cl (try_failed s x b) x = CPanic) /\ forall o, e = SPanic o -> o = x).
  { intros s [k|k r] E; cbn [try_failed]; [now apply A|]. cbn. rewrite E. auto. }
  assert (D : forall s b r, s_log s = s_log σ -> s_log (drain_end s x b r) = s_log σ \/ exists e, s_log (drain_end s x b r) = s_log σ ++ [e] /\
      (e = SPanic x -> s_cl (drain_end s x b r) x = CPanic) /\ forall o, e = SPanic o -> o = x).
  { intros s [k|] r E; cbn [drain_end]; [now apply A|]. right. cbn. rewrite E. eexists. split; [reflexivity|]. split; [discriminate|intros; discriminate]. }
  scases S; try unfold panic; match goal with
    | |- context [try_failed] => apply T; reflexivity
    | |- context [drain_end] => apply D; reflexivity
    | |- context [semit ?s ?e] => right; exists e; split; [reflexivity|split; [intros E0; try discriminate E0; apply upd_eq|intros ? E0; try discriminate E0; now injection E0]]
    | |- _ => left; reflexivity
    end.
Qed.
Lemma reg_step x c σ σ' : sstep x c σ = Some σ' -> s_reg σ' = s_reg σ \/ exists a, step x a (s_reg σ) = Some (s_reg σ').
Proof.
  intros S.
  assert (A : forall s k, s_reg (attempt_end s x k) = s_reg s) by (intros s [|k]; reflexivity).
  assert (T : forall s b, s_reg (try_failed s x b) = s_reg s) by (intros s [k|k r]; cbn [try_failed]; [apply A|reflexivity]).
  assert (D : forall s b r, s_reg (drain_end s x b r) = s_reg s) by (intros s [k|] r; cbn [drain_end]; [apply A|reflexivity]).
  scases S; rewrite ?A, ?T, ?D; match goal with
    | E : step _ ?a _ = Some _ |- _ => right; exists a; exact E
    | |- _ => left; reflexivity
    end.
Qed.
Lemma qinv_step ng init x c σ σ' : SInv ng init σ -> QInv σ -> sstep x c σ = Some σ' -> QInv σ'.
Proof.
  intros I [Q1 Q2] S. split.
  - destruct (reg_step _ _ _ _ S) as [->|(a & E)]; [assumption|]. destruct (v_reg _ _ _ I) as (V1 & _). exact (pinv_step _ _ _ _ _ V1 Q1 E).
  - assert (K : forall o, s_cl σ o = CPanic -> s_cl σ' o = CPanic).
    { intros o P. destruct (Nat.eq_dec o x) as [->|N]; [|now rewrite (cl_others _ _ _ _ _ S N)]. exfalso.
      unfold sstep, go in S. rewrite P in S. destruct c; discriminate. }
    intros o H. destruct (log_step _ _ _ _ S) as [E|(e & E & P1 & P2)]; rewrite E in H; [auto|].
    apply in_app_or in H. destruct H as [H|[H|[]]]; [auto|]. pose proof (P2 o H) as ->. auto.
Qed.
Lemma panic_lemma entries bp guards cap ncols rows σ : sreachable entries bp guards cap ncols rows σ ->
  forall o, In (SPanic o) (s_log σ) -> r_epoch (s_reg σ) = u64_max.
Proof.
  intros (σ0 & sched & N & HG & HC & R). destruct (new_inv _ _ _ _ _ _ _ HG N) as (I & E1 & E2 & E3 & E4 & E5 & E6 & E7).
  assert (Q : QInv σ0). { split; [rewrite E6; intros a; discriminate|rewrite E3; intros o []]. }
  clear N E1 E2 E3 E4 E5 E6 E7. revert σ0 I Q R. induction sched as [|[x c] sched IH]; intros σ0 I Q R; cbn [srun] in R.
  - inv R. intros o H. apply (q_log _ Q) in H. pose proof (v_link _ _ _ I o) as L. rewrite H in L. cbn in L.
    destruct (r_ag (s_reg σ) o) eqn:E; try discriminate. eapply (q_reg _ Q); eauto.
  - destruct (sstep x c σ0) as [σ1|] eqn:S1; [|discriminate]. apply (IH σ1); auto; [eapply sinv_step; eauto|eapply qinv_step; eauto].
Qed.
