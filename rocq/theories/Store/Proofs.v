(** Invariants of the store. *)
From Verif.Lib Require Import Base.
From Verif.Epoch Require Import Model Spec Proofs.
From Verif.Store Require Import Model Spec.

(** ** Facts about one registry step *)
Lemma reg_others a c r r' b : step a c r = Some r' -> b <> a -> r_ag r' b = r_ag r b.
Proof.
  intros H Nb. apply step_inv in H.
  destruct H as [H|[H|[H|[H|[H|[H|[H|[H|[H|H]]]]]]]]].
  - destruct H as (_ & _ & ->). cbn. now rewrite upd_neq.
  - destruct H as (_ & _ & _ & ->). cbn. now rewrite upd_neq.
  - destruct H as (_ & _ & _ & ->). reflexivity.
  - destruct H as (i & s & e & _ & _ & ->). reflexivity.
  - destruct H as (s & e & _ & _ & ->). cbn. now rewrite upd_neq.
  - destruct H as (q & _ & _ & _ & ->). reflexivity.
  - destruct H as (q & it & rest & _ & _ & _ & ->). reflexivity.
  - destruct H as (q & _ & _ & ->). cbn. now rewrite upd_neq.
  - destruct H as (_ & H). destruct (r_ag r a); unfold guard_go in H; try discriminate;
      repeat match type of H with context [if ?x then _ else _] => destruct x end; inv H; cbn; now rewrite upd_neq.
  - destruct H as (_ & H). destruct (r_ag r a); unfold advance_go in H; try discriminate;
      repeat match type of H with context [if ?x then _ else _] => destruct x end; inv H; cbn; now rewrite upd_neq.
Qed.
Lemma reg_log a c r r' : step a c r = Some r' ->
  r_log r' = r_log r \/ exists ev, r_log r' = r_log r ++ [ev] /\
    (forall b, ev = EDrop b -> b = a /\ c = ActDropGuard) /\
    (forall b, ev = EGuard b -> b = a).
Proof.
  intros H. apply step_inv in H.
  destruct H as [H|[H|[H|[H|[H|[H|[H|[H|[H|H]]]]]]]]].
  - destruct H as (_ & _ & ->). left. reflexivity.
  - destruct H as (_ & _ & _ & ->). left. reflexivity.
  - destruct H as (_ & _ & _ & ->). right. eexists. split; [reflexivity|]. split; discriminate.
  - destruct H as (i & s & e & _ & _ & ->). right. eexists. split; [reflexivity|]. split; discriminate.
  - destruct H as (s & e & -> & _ & ->). right. eexists. split; [reflexivity|]. split; [intros b E; inv E; auto|discriminate].
  - destruct H as (q & _ & _ & _ & ->). right. eexists. split; [reflexivity|]. split; discriminate.
  - destruct H as (q & it & rest & _ & _ & _ & ->). right. eexists. split; [reflexivity|]. split; discriminate.
  - destruct H as (q & _ & _ & ->). right. eexists. split; [reflexivity|]. split; discriminate.
  - destruct H as (_ & H). destruct (r_ag r a); unfold guard_go in H; try discriminate;
      repeat match type of H with context [if ?x then _ else _] => destruct x end; inv H; cbn;
      try (left; reflexivity); right; eexists; (split; [reflexivity|]); split; intros b E; inv E; auto.
  - destruct H as (_ & H). destruct (r_ag r a); unfold advance_go in H; try discriminate;
      repeat match type of H with context [if ?x then _ else _] => destruct x end; inv H; cbn;
      try (left; reflexivity); right; eexists; (split; [reflexivity|]); split; intros b E; inv E; auto.
Qed.
Lemma reg_queues a c r r' : step a c r = Some r' -> (forall i, c <> ActRetire i) -> c <> ActPop -> r_q r' = r_q r.
Proof.
  intros H N1 N2. apply step_inv in H.
  destruct H as [H|[H|[H|[H|[H|[H|[H|[H|[H|H]]]]]]]]].
  - destruct H as (_ & _ & ->). reflexivity.
  - destruct H as (_ & _ & _ & ->). reflexivity.
  - destruct H as (_ & _ & _ & ->). reflexivity.
  - destruct H as (i & s & e & E & _ & ->). now destruct (N1 i).
  - destruct H as (s & e & -> & _ & ->). reflexivity.
  - destruct H as (q & -> & _ & _ & ->). congruence.
  - destruct H as (q & it & rest & -> & _ & _ & ->). congruence.
  - destruct H as (q & _ & _ & ->). reflexivity.
  - destruct H as (_ & H). destruct (r_ag r a); unfold guard_go in H; try discriminate;
      repeat match type of H with context [if ?x then _ else _] => destruct x end; inv H; reflexivity.
  - destruct H as (_ & H). destruct (r_ag r a); unfold advance_go in H; try discriminate;
      repeat match type of H with context [if ?x then _ else _] => destruct x end; inv H; reflexivity.
Qed.
(** An agent that holds a guard is held according to the log. *)
Definition HInv (r : reg) : Prop := forall a s e, r_ag r a = GHeld s e -> held_at (r_log r) (length (r_log r)) a.
Lemma held_more log ev k g : (k <= length log)%nat -> held_at log k g -> held_at (log ++ [ev]) k g.
Proof.
  intros Hk (j & Hj & Hg & Hm). exists j. split; [assumption|]. split; [now rewrite nth_error_snoc_old by lia|].
  intros m Hmm. rewrite nth_error_snoc_old by lia. now apply Hm.
Qed.
Lemma held_longer log ev g : ev <> EDrop g -> held_at log (length log) g -> held_at (log ++ [ev]) (length (log ++ [ev])) g.
Proof.
  intros Ne (j & Hj & Hg & Hm). rewrite app_length. cbn [length]. exists j. split; [lia|]. split; [now rewrite nth_error_snoc_old by lia|].
  intros m Hmm. destruct (Nat.eq_dec m (length log)) as [->|].
  - rewrite nth_error_snoc_new. congruence.
  - rewrite nth_error_snoc_old by lia. apply Hm. lia.
Qed.
Lemma held_now log g : held_at (log ++ [EGuard g]) (length (log ++ [EGuard g])) g.
Proof.
  exists (length log). rewrite app_length. cbn [length]. split; [lia|]. split; [apply nth_error_snoc_new|]. intros m Hm. lia.
Qed.
Lemma hinv_step a c r r' : HInv r -> step a c r = Some r' -> HInv r'.
Proof.
  intros H S b s e Hb.
  assert (K : forall l, r_ag r b = GHeld s e \/ (exists s' e', r_ag r b = GHeld s' e') -> r_log r' = r_log r ++ l ->
            (forall x, l = [x] -> x <> EDrop b) -> (length l <= 1)%nat -> held_at (r_log r') (length (r_log r')) b).
  { intros l [G|(s' & e' & G)] E N L; rewrite E; (destruct l as [|x [|y l]]; [rewrite app_nil_r; eapply H; eauto| |cbn in L; lia]);
      apply held_longer; eauto. }
  apply step_inv in S.
  destruct S as [S|[S|[S|[S|[S|[S|[S|[S|[S|S]]]]]]]]].
  - destruct S as (_ & A & ->). cbn in *. destruct (Nat.eq_dec b a) as [->|N]; [rewrite upd_eq in Hb; discriminate|].
    rewrite upd_neq in Hb by assumption. eapply H; eauto.
  - destruct S as (_ & _ & _ & ->). cbn in *. destruct (Nat.eq_dec b a) as [->|N]; [rewrite upd_eq in Hb; discriminate|].
    rewrite upd_neq in Hb by assumption. eapply H; eauto.
  - destruct S as (_ & _ & _ & ->). eapply (K [_]); [left; exact Hb|reflexivity|intros x E; inv E; discriminate|cbn; lia].
  - destruct S as (i & s0 & e0 & _ & _ & ->). eapply (K [_]); [left; exact Hb|reflexivity|intros x E; inv E; discriminate|cbn; lia].
  - destruct S as (s0 & e0 & -> & _ & ->). cbn in Hb. destruct (Nat.eq_dec b a) as [->|N]; [rewrite upd_eq in Hb; discriminate|].
    rewrite upd_neq in Hb by assumption. eapply (K [_]); [left; exact Hb|reflexivity|intros x E; inv E; congruence|cbn; lia].
  - destruct S as (q & _ & _ & _ & ->). eapply (K [_]); [left; exact Hb|reflexivity|intros x E; inv E; discriminate|cbn; lia].
  - destruct S as (q & it & rest & _ & _ & _ & ->). eapply (K [_]); [left; exact Hb|reflexivity|intros x E; inv E; discriminate|cbn; lia].
  - destruct S as (q & _ & _ & ->). cbn in Hb. destruct (Nat.eq_dec b a) as [->|N]; [rewrite upd_eq in Hb; discriminate|].
    rewrite upd_neq in Hb by assumption. eapply (K [_]); [left; exact Hb|reflexivity|intros x E; inv E; discriminate|cbn; lia].
  - destruct S as (_ & S). destruct (Nat.eq_dec b a) as [->|N].
    + destruct (r_ag r a) eqn:Ea; unfold guard_go in S; try discriminate;
      repeat match type of S with context [if ?x then _ else _] => destruct x end; inv S; cbn in Hb; rewrite upd_eq in Hb; try discriminate; cbn; apply held_now.
    + destruct (r_ag r a) eqn:Ea; unfold guard_go in S; try discriminate;
      repeat match type of S with context [if ?x then _ else _] => destruct x end; inv S; cbn in Hb; rewrite upd_neq in Hb by assumption;
      try (cbn; eapply H; eassumption); (eapply (K [_]); [left; exact Hb|reflexivity|intros x E; inv E; discriminate|cbn; lia]).
  - destruct S as (_ & S). destruct (Nat.eq_dec b a) as [->|N].
    + destruct (r_ag r a) eqn:Ea; unfold advance_go in S; try discriminate;
      repeat match type of S with context [if ?x then _ else _] => destruct x end; inv S; cbn in Hb; rewrite upd_eq in Hb; discriminate.
    + destruct (r_ag r a) eqn:Ea; unfold advance_go in S; try discriminate;
      repeat match type of S with context [if ?x then _ else _] => destruct x end; inv S; cbn in Hb; rewrite upd_neq in Hb by assumption;
      try (cbn; eapply H; eassumption); (eapply (K [_]); [left; exact Hb|reflexivity|intros x E; inv E; discriminate|cbn; lia]).
Qed.

(** ** The invariant *)
Inductive role := Own | OwnPub | Ret1 | Ret2 | Dr1 | Dr2.
Definition rl (p : pc) : option (nat * role) :=
  match p with
  | AScanAt _ _ _ (Some j) _ _ | AScanPush _ _ _ j _ _ | WHeld j | WDrop j => Some (j, Own)
  | WPub i => Some (i, OwnPub)
  | TMir i => Some (i, Ret1) | TRet i => Some (i, Ret2)
  | DMir _ _ i | DMirSet _ _ i => Some (i, Dr1)
  | DTag _ _ i | DTagSet _ _ i => Some (i, Dr2)
  | _ => None
  end.
Definition tag_of (r : role) : N := match r with Own | OwnPub => OWNED | _ => RETIRING end.
Definition mir_of (r : role) : N :=
  match r with Own => AVAILABLE | OwnPub | Ret1 => PUBLISHED | Ret2 | Dr1 => RETIRING | Dr2 => AVAILABLE end.
Definition ak (a : agent) : nat :=
  match a with
  | AIdle => 0 | GHint _ | GProbe _ _ _ | GCas _ _ _ _ | GRecheck _ _ _ | GStore _ _ => 1
  | GHeld _ _ => 2 | VRead | VScan _ _ _ | VInc _ => 3 | VDrain _ => 4 | APanic => 5
  end.
Definition rk (p : pc) : nat :=
  match p with
  | RGuard | TGuard _ _ => 1
  | RHeld _ | TCas _ _ | TMir _ | TRet _ | TRel _ | TFail _ => 2
  | DAdv _ => 3
  | DPop _ _ | DMir _ _ _ | DMirSet _ _ _ | DTag _ _ _ | DTagSet _ _ _ | DPush _ _ _ | DDone _ _ => 4
  | CPanic => 5
  | _ => 0
  end.
Definition got (p : pc) : list (nat * bytes) := match p with RHeld g => g | _ => [] end.
Definition trel (p : pc) : option nat := match p with TRel i => Some i | _ => None end.
Definition pcw (n unf : nat) (p : pc) : Prop :=
  match p with
  | ATryCas _ i => i < n
  | AScanAt _ _ _ _ _ stop => stop <= unf
  | AScanTry _ _ _ i stop | AScanCas _ _ _ i stop | AScanPush _ _ _ _ i stop => i < n /\ stop <= unf
  | TCall i cur | TGuard i cur | TCas i cur => i < n /\ is_reserved cur = false
  | _ => True
  end.
Definition prot (r : reg) (o i : nat) : Prop :=
  exists it, In it (allq r) /\ it_id it = N.of_nat i /\ held_at (r_log r) (it_stamp it) o /\
    not_dropped_since (r_log r) (it_stamp it) o.
Record SInv (ng : nat) (init : nat -> bytes) (σ : store) : Prop := {
  v_reg : Inv ng (s_reg σ) /\ LInv (s_reg σ) /\ HInv (s_reg σ);
  v_n32 : (N.of_nat (s_n σ) < two32)%N;
  v_unf : s_unf σ <= s_n σ;
  v_fl : fl_max (s_fl σ) = s_unf σ;
  v_link : forall o, ak (r_ag (s_reg σ) o) = rk (s_cl σ o);
  v_pc : forall o, pcw (s_n σ) (s_unf σ) (s_cl σ o);
  v_role : forall o i r, rl (s_cl σ o) = Some (i, r) -> i < s_n σ /\ s_tag σ i = tag_of r /\ s_mir σ i = mir_of r;
  v_uniq : forall o o' i r r', rl (s_cl σ o) = Some (i, r) -> rl (s_cl σ o') = Some (i, r') -> o = o';
  v_pend : forall x, In x (pending (s_reg σ)) -> exists i, x = N.of_nat i /\ i < s_n σ /\
             s_tag σ i = RETIRING /\ s_mir σ i = RETIRING /\ forall o r, rl (s_cl σ o) <> Some (i, r);
  v_nd : NoDup (pending (s_reg σ));
  v_tags : forall i, i < s_n σ ->
             (s_tag σ i = AVAILABLE /\ s_mir σ i = AVAILABLE) \/ (s_tag σ i = PUBLISHED /\ s_mir σ i = PUBLISHED) \/
             (s_tag σ i = FROZEN /\ s_unf σ <= i) \/
             (exists o r, rl (s_cl σ o) = Some (i, r)) \/ In (N.of_nat i) (pending (s_reg σ));
  v_frozen : forall i, s_unf σ <= i < s_n σ -> s_tag σ i = FROZEN /\ s_mir σ i = FROZEN /\ s_data σ i = init i;
  v_got : forall o i v, In (i, v) (got (s_cl σ o)) -> i < s_n σ /\ s_data σ i = v /\
             (can_read (s_mir σ i) = true \/ (exists o', rl (s_cl σ o') = Some (i, Ret2)) \/ prot (s_reg σ) o i);
  v_trel : forall o i, trel (s_cl σ o) = Some i -> i < s_n σ /\
             exists it, In it (allq (s_reg σ)) /\ it_id it = N.of_nat i /\
               held_at (r_log (s_reg σ)) (it_stamp it) o /\ not_dropped_since (r_log (s_reg σ)) (it_stamp it) o /\
               exists x, nth_error (r_log (s_reg σ)) (it_stamp it) = Some (ERetire o x)
}.

Ltac sdes I := destruct I as [Vreg Vn Vunf Vfl Vlink Vpc Vrole Vuniq Vpend Vnd Vtags Vfroz Vgot Vtrel].

Lemma sinv_emit ng init σ e : SInv ng init σ -> SInv ng init (semit σ e).
Proof. intros I. sdes I. constructor; assumption. Qed.
Lemma sinv_fl ng init σ f : SInv ng init σ -> fl_max f = fl_max (s_fl σ) -> SInv ng init (set_fl σ f).
Proof. intros I E. sdes I. constructor; try assumption. cbn. congruence. Qed.

(** A step that changes only the program counter, keeping role, slices and registry kind. *)
Lemma sinv_silent ng init σ o p : SInv ng init σ ->
  rl p = rl (s_cl σ o) -> got p = got (s_cl σ o) -> trel p = trel (s_cl σ o) -> rk p = rk (s_cl σ o) ->
  pcw (s_n σ) (s_unf σ) p -> SInv ng init (set_cl σ o p).
Proof.
  intros I R G T K W. sdes I.
  assert (ER : forall x, rl (upd (s_cl σ) o p x) = rl (s_cl σ x)) by (intros x; ups; auto).
  assert (EG : forall x, got (upd (s_cl σ) o p x) = got (s_cl σ x)) by (intros x; ups; auto).
  assert (ET : forall x, trel (upd (s_cl σ) o p x) = trel (s_cl σ x)) by (intros x; ups; auto).
  constructor; cbn [set_cl s_n s_unf s_tag s_mir s_data s_fl s_reg s_cl]; auto.
  - intros x. rewrite Vlink. ups; auto.
  - intros x. ups; auto.
  - intros x i r. rewrite ER. apply Vrole.
  - intros x y i r r'. rewrite !ER. apply Vuniq.
  - intros x Hx. destruct (Vpend x Hx) as (i & E & L & A & B & C). exists i. repeat split; auto. intros y r. rewrite ER. apply C.
  - intros i Hi. destruct (Vtags i Hi) as [A|[A|[A|[(y & r & A)|A]]]]; auto. do 3 right. left. exists y, r. now rewrite ER.
  - intros x i v. rewrite EG. intros H. destruct (Vgot x i v H) as (A & B & [C|[(y & C)|C]]); repeat split; auto.
    right; left. exists y. now rewrite ER.
  - intros x i. rewrite ET. apply Vtrel.
Qed.

(** ** Registry steps *)
Lemma reg_inv3 ng o c r r' : Inv ng r /\ LInv r /\ HInv r -> step o c r = Some r' -> Inv ng r' /\ LInv r' /\ HInv r'.
Proof.
  intros (A & B & C) H. split; [eapply inv_step; eauto|]. split; [eapply linv_step; eauto|eapply hinv_step; eauto].
Qed.
Lemma stamp_lt r it : LInv r -> In it (allq r) -> exists a, nth_error (r_log r) (it_stamp it) = Some (ERetire a (it_id it)).
Proof. intros L H. apply allq_In in H. destruct H as (q & H). apply (l_q _ L) in H. tauto. Qed.
Lemma nds_more log ev k g : ev <> EDrop g -> not_dropped_since log k g -> not_dropped_since (log ++ [ev]) k g.
Proof. intros Ne H m Hm E. apply nth_error_snoc in E. destruct E as [[L E]|[_ E]]; [now apply (H m Hm)|congruence]. Qed.
Lemma prot_log r o c r' x k : step o c r = Some r' -> (x <> o \/ c <> ActDropGuard) -> (k < length (r_log r)) ->
  held_at (r_log r) k x /\ not_dropped_since (r_log r) k x -> held_at (r_log r') k x /\ not_dropped_since (r_log r') k x.
Proof.
  intros S N L (A & B). destruct (reg_log _ _ _ _ S) as [->|(ev & -> & D & _)]; [auto|]. split.
  - apply held_more; [lia|assumption].
  - apply nds_more; [|assumption]. intros ->. destruct (D x eq_refl) as [-> ->]. destruct N; congruence.
Qed.
Lemma retire_log_more r o c r' k a x : step o c r = Some r' -> nth_error (r_log r) k = Some (ERetire a x) -> nth_error (r_log r') k = Some (ERetire a x).
Proof.
  intros S E. destruct (reg_log _ _ _ _ S) as [->|(ev & -> & _)]; [assumption|]. rewrite nth_error_snoc_old; [assumption|]. now apply nth_error_lt in E.
Qed.
Lemma prot_keep r o c r' x i : LInv r -> step o c r = Some r' -> (x <> o \/ c <> ActDropGuard) ->
  (forall it, In it (allq r) -> it_id it = N.of_nat i -> In it (allq r')) -> prot r x i -> prot r' x i.
Proof.
  intros L S N K (it & A & B & C). destruct (stamp_lt r it L A) as (a & E). apply nth_error_lt in E.
  exists it. split; [now apply K|]. split; [assumption|]. eapply prot_log; eauto.
Qed.
Lemma trel_keep r o c r' x i : LInv r -> step o c r = Some r' -> (x <> o \/ c <> ActDropGuard) ->
  (forall it, In it (allq r) -> it_id it = N.of_nat i -> In it (allq r')) ->
  (exists it, In it (allq r) /\ it_id it = N.of_nat i /\
               held_at (r_log r) (it_stamp it) x /\ not_dropped_since (r_log r) (it_stamp it) x /\
               exists y, nth_error (r_log r) (it_stamp it) = Some (ERetire x y)) ->
  (exists it, In it (allq r') /\ it_id it = N.of_nat i /\
               held_at (r_log r') (it_stamp it) x /\ not_dropped_since (r_log r') (it_stamp it) x /\
               exists y, nth_error (r_log r') (it_stamp it) = Some (ERetire x y)).
Proof.
  intros L S N K (it & A & B & C & D & y & E).
  assert (LT := nth_error_lt _ _ _ E).
  destruct (prot_log r o c r' x (it_stamp it) S N LT (conj C D)) as (C' & D').
  exists it. split; [now apply K|]. split; [assumption|]. split; [assumption|]. split; [assumption|].
  exists y. eapply retire_log_more; eauto.
Qed.
Lemma sinv_reg ng init σ o p c r' : SInv ng init σ -> step o c (s_reg σ) = Some r' ->
  (forall i, c <> ActRetire i) -> c <> ActPop ->
  rl (s_cl σ o) = None -> rl p = None -> got p = [] -> trel p = None ->
  (c = ActDropGuard \/ (got (s_cl σ o) = [] /\ trel (s_cl σ o) = None)) ->
  ak (r_ag r' o) = rk p -> pcw (s_n σ) (s_unf σ) p ->
  SInv ng init (set_cl (set_reg σ r') o p).
Proof.
  intros I S N1 N2 R0 R G T D K W. sdes I. destruct Vreg as (V1 & V2 & V3).
  pose proof (reg_queues _ _ _ _ S N1 N2) as EQ.
  assert (EA : allq r' = allq (s_reg σ)) by (unfold allq; now rewrite EQ).
  assert (EP : pending r' = pending (s_reg σ)) by (now rewrite !pending_allq, EA).
  assert (ER : forall x, rl (upd (s_cl σ) o p x) = rl (s_cl σ x)) by (intros x; ups; congruence).
  constructor; cbn [set_cl set_reg s_n s_unf s_tag s_mir s_data s_fl s_reg s_cl]; auto.
  - eapply reg_inv3; eauto.
  - intros x. ups; auto. rewrite (reg_others _ _ _ _ _ S) by assumption. apply Vlink.
  - intros x. ups; auto.
  - intros x i r. rewrite ER. apply Vrole.
  - intros x y i r r1. rewrite !ER. apply Vuniq.
  - rewrite EP. intros x Hx. destruct (Vpend x Hx) as (i & E & L & A & B & C). exists i. repeat split; auto. intros y r. rewrite ER. apply C.
  - now rewrite EP.
  - rewrite EP. intros i Hi. destruct (Vtags i Hi) as [A|[A|[A|[(y & r & A)|A]]]]; auto. do 3 right. left. exists y, r. now rewrite ER.
  - intros x i v H. assert (Nx : x <> o) by (intros ->; rewrite upd_eq, G in H; exact H). rewrite upd_neq in H by assumption.
    destruct (Vgot x i v H) as (A & B & [C|[(y & C)|C]]); repeat split; auto.
    + right; left. exists y. now rewrite ER.
    + right; right. eapply prot_keep; eauto. now rewrite EA.
  - intros x i H. assert (Nx : x <> o) by (intros ->; rewrite upd_eq, T in H; discriminate). rewrite upd_neq in H by assumption.
    destruct (Vtrel x i H) as (A & B). split; [assumption|]. eapply trel_keep; eauto. now rewrite EA.
Qed.

(** A held guard is not dropped yet: for registry agents in state [GHeld]. *)
Lemma sinv_retire ng init σ o i r' : SInv ng init σ -> s_cl σ o = TRet i ->
  step o (ActRetire (N.of_nat i mod two32)) (s_reg σ) = Some r' -> SInv ng init (set_cl (set_reg σ r') o (TRel i)).
Proof.
  intros I P S. sdes I. destruct Vreg as (V1 & V2 & V3).
  destruct (Vrole o i Ret2) as (Hi & HT & HM); [now rewrite P|].
  assert (M : (N.of_nat i mod two32 = N.of_nat i)%N) by (apply N.mod_small; lia). rewrite M in S.
  pose proof (reg_inv3 ng _ _ _ _ (conj V1 (conj V2 V3)) S) as V'.
  pose proof S as S0. apply step_inv in S0.
  destruct S0 as [H|[H|[H|[H|[H|[H|[H|[H|[H|H]]]]]]]]];
    try (destruct H as (E & _); discriminate);
    try (destruct H as (? & E & _); discriminate);
    try (destruct H as (? & ? & E & _); discriminate);
    try (destruct H as (? & ? & ? & E & _); discriminate).
  destruct H as (i0 & s & e & E & AG & ER'). injection E as E. subst i0.
  set (it := mkItem (N.of_nat i) (length (r_log (s_reg σ))) e).
  assert (PA : Permutation (allq r') (it :: allq (s_reg σ))).
  { rewrite ER'. cbn. apply (allq_push (s_reg σ) (queue e) it). apply queue_lt. }
  assert (PP : Permutation (pending r') (N.of_nat i :: pending (s_reg σ))).
  { rewrite !pending_allq. apply (Permutation_map it_id) in PA. exact PA. }
  assert (INC : forall x, In x (allq (s_reg σ)) -> In x (allq r')).
  { intros x Hx. eapply Permutation_in; [symmetry; exact PA|]. now right. }
  assert (NI : ~ In (N.of_nat i) (pending (s_reg σ))).
  { intros H. destruct (Vpend _ H) as (j & Ej & _ & _ & _ & C). apply (C o Ret2). rewrite P. cbn. repeat f_equal. lia. }
  assert (HLOG : r_log r' = r_log (s_reg σ) ++ [ERetire o (N.of_nat i)]) by (rewrite ER'; reflexivity).
  assert (AGS : r_ag r' = r_ag (s_reg σ)) by (rewrite ER'; reflexivity).
  assert (NEW : forall x s0 e0, r_ag (s_reg σ) x = GHeld s0 e0 -> held_at (r_log r') (it_stamp it) x /\ not_dropped_since (r_log r') (it_stamp it) x).
  { intros x s0 e0 Hx. rewrite HLOG. split.
    - apply held_more; [cbn; lia|]. cbn. eapply V3; eauto.
    - intros m Hm Em. cbn in Hm. apply nth_error_lt in Em. rewrite app_length in Em. cbn in Em. lia. }
  assert (ITIN : In it (allq r')) by (eapply Permutation_in; [symmetry; exact PA|now left]).
  constructor; cbn [set_cl set_reg s_n s_unf s_tag s_mir s_data s_fl s_reg s_cl]; auto.
  - intros x. rewrite AGS, Vlink. ups; [|reflexivity]. now rewrite P.
  - intros x. ups; [exact Logic.I|auto].
  - intros x j r H. ups; [discriminate|eauto].
  - intros x y j r r1 Hx Hy. ups; try discriminate. eauto.
  - intros x Hx. apply (Permutation_in _ PP) in Hx. destruct Hx as [<-|Hx].
    + exists i. repeat split; auto. intros y r Hy. ups; [discriminate|]. apply Nu. symmetry. eapply (Vuniq o y i Ret2 r); [now rewrite P|assumption].
    + destruct (Vpend x Hx) as (j & E & L & A & B & C). exists j. repeat split; auto. intros y r Hy. ups; [discriminate|]. eapply C; eauto.
  - eapply Permutation_NoDup; [symmetry; exact PP|]. constructor; assumption.
  - intros j Hj. destruct (Vtags j Hj) as [A|[A|[A|[(y & r & A)|A]]]]; auto.
    + destruct (Nat.eq_dec y o) as [->|Ny].
      * rewrite P in A. cbn in A. injection A as <- <-. do 4 right. eapply Permutation_in; [symmetry; exact PP|now left].
      * do 3 right. left. exists y, r. now rewrite upd_neq.
    + do 4 right. eapply Permutation_in; [symmetry; exact PP|now right].
  - intros x j v H. ups; [contradiction|].
    destruct (Vgot x j v H) as (A & B & [C|[(y & C)|C]]); repeat split; auto.
    + destruct (Nat.eq_dec y o) as [->|Ny].
      * rewrite P in C. cbn in C. injection C as <-. right; right. exists it. split; [assumption|]. split; [reflexivity|].
        assert (K : ak (r_ag (s_reg σ) x) = 2). { rewrite Vlink. destruct (s_cl σ x); cbn in H; try contradiction. reflexivity. }
        destruct (r_ag (s_reg σ) x) eqn:Ex; try discriminate. eapply NEW; eauto.
      * right; left. exists y. now rewrite upd_neq.
    + right; right. eapply prot_keep; eauto.
  - intros x j H. ups.
    + injection H as <-. split; [assumption|]. exists it. split; [assumption|]. split; [reflexivity|].
      destruct (NEW o s e AG) as (A & B). split; [assumption|]. split; [assumption|]. exists (N.of_nat i). rewrite HLOG. cbn. apply nth_error_snoc_new.
    + destruct (Vtrel x j H) as (A & B). split; [assumption|]. eapply trel_keep; eauto.
Qed.

(** Popping a retired slot. *)
Lemma sinv_pop ng init σ o b items q it rest r' : SInv ng init σ -> s_cl σ o = DPop b items ->
  r_ag (s_reg σ) o = VDrain q -> r_q (s_reg σ) q = it :: rest ->
  step o ActPop (s_reg σ) = Some r' ->
  N.to_nat (it_id it) < s_n σ /\ SInv ng init (set_cl (set_reg σ r') o (DMir b items (N.to_nat (it_id it)))).
Proof.
  intros I P AG Q S. sdes I. destruct Vreg as (V1 & V2 & V3).
  pose proof (reg_inv3 ng _ _ _ _ (conj V1 (conj V2 V3)) S) as V'.
  assert (ER' : r' = emit (set_q (s_reg σ) q rest) (EPop o (it_id it) (it_stamp it))).
  { unfold step in S. rewrite AG, Q in S. now inv S. }
  assert (Hq : q < 4).
  { destruct (l_q _ V2 q it) as (E & _); [rewrite Q; now left|]. rewrite <- E. apply queue_lt. }
  assert (PA : Permutation (allq (s_reg σ)) (it :: allq r')) by (rewrite ER'; now apply (allq_pop (s_reg σ) q it rest)).
  assert (PP : Permutation (pending (s_reg σ)) (it_id it :: pending r')).
  { rewrite !pending_allq. apply (Permutation_map it_id) in PA. exact PA. }
  destruct (Vpend (it_id it)) as (i & Ei & Hi & HT & HM & HN).
  { eapply Permutation_in; [symmetry; exact PP|now left]. }
  rewrite Ei, Nat2N.id. split; [assumption|].
  assert (ND : ~ In (N.of_nat i) (pending r') /\ NoDup (pending r')).
  { apply (Permutation_NoDup PP) in Vnd. inv Vnd. rewrite <- Ei. auto. }
  destruct ND as (NI & ND).
  assert (HLOG : r_log r' = r_log (s_reg σ) ++ [EPop o (it_id it) (it_stamp it)]) by (rewrite ER'; reflexivity).
  assert (AGS : r_ag r' = r_ag (s_reg σ)) by (rewrite ER'; reflexivity).
  assert (INC : forall j x, j <> i -> In x (allq (s_reg σ)) -> it_id x = N.of_nat j -> In x (allq r')).
  { intros j x Nj Hx Ex. apply (Permutation_in _ PA) in Hx. destruct Hx as [<-|Hx]; [|assumption]. exfalso. apply Nj. lia. }
  (* nobody protects [i] *)
  assert (NP : forall x, ~ prot (s_reg σ) x i).
  { intros x (it' & A & B & C & D).
    assert (it' = it).
    { apply (Permutation_in _ PA) in A. destruct A as [A|A]; [now symmetry|]. exfalso. apply NI.
      rewrite pending_allq, <- B. now apply in_map. }
    subst it'. destruct V' as (_ & L' & _). destruct (stamp_lt _ it V2) as (a & Ea).
    { eapply Permutation_in; [symmetry; exact PA|now left]. }
    apply nth_error_lt in Ea.
    destruct (l_safe _ L' (length (r_log (s_reg σ))) o (it_id it) (it_stamp it)) as (_ & _ & W).
    { rewrite HLOG. apply nth_error_snoc_new. }
    destruct (W x) as (d & D1 & D2).
    { rewrite HLOG. apply held_more; [lia|assumption]. }
    rewrite HLOG, nth_error_snoc_old in D2 by lia. now apply (D d). }
  constructor; cbn [set_cl set_reg s_n s_unf s_tag s_mir s_data s_fl s_reg s_cl]; auto.
  - intros x. rewrite AGS, Vlink. ups; [|reflexivity]. now rewrite P.
  - intros x. ups; [exact Logic.I|auto].
  - intros x j r H. ups; [|eauto]. cbn in H. injection H as <- <-. auto.
  - intros x y j r r1 Hx Hy. ups; [reflexivity|..].
    + cbn in Hy. injection Hy as <- <-. exfalso. eapply HN; eauto.
    + cbn in Hx. injection Hx as <- <-. exfalso. eapply HN; eauto.
    + eauto.
  - intros x Hx. assert (Hx0 : In x (pending (s_reg σ))) by (eapply Permutation_in; [symmetry; exact PP|now right]).
    destruct (Vpend x Hx0) as (j & E & L & A & B & C). exists j. repeat split; auto. intros y r Hy. ups; [|eapply C; eauto].
    cbn in Hy. injection Hy as <- <-. apply NI. congruence.
  - intros j Hj. destruct (Vtags j Hj) as [A|[A|[A|[(y & r & A)|A]]]]; auto.
    + do 3 right. left. exists y, r. rewrite upd_neq; [assumption|]. intros ->. rewrite P in A. discriminate.
    + apply (Permutation_in _ PP) in A. destruct A as [A|A]; [|auto].
      do 3 right. left. exists o, Dr1. rewrite upd_eq. cbn. do 2 f_equal. lia.
  - intros x j v H. ups; [contradiction|].
    destruct (Vgot x j v H) as (A & B & [C|[(y & C)|C]]); repeat split; auto.
    + right; left. exists y. rewrite upd_neq; [assumption|]. intros ->. rewrite P in C. discriminate.
    + right; right. destruct (Nat.eq_dec j i) as [->|Nj]; [exfalso; eapply NP; eauto|]. eapply prot_keep; eauto.
  - intros x j H. ups; [discriminate|].
    destruct (Vtrel x j H) as (A & B). split; [assumption|]. destruct (Nat.eq_dec j i) as [->|Nj].
    + exfalso. destruct B as (it' & B1 & B2 & B3 & B4 & _). eapply (NP x). exists it'. auto.
    + eapply trel_keep; eauto.
Qed.

(** A step of client [o] on slot [i], on which nobody else has a role. *)
Definition slot_upd (σ : store) (i : nat) (t m : N) (d : bytes) (o : nat) (p : pc) : store :=
  set_cl (set_data (set_mir (set_tag σ i t) i m) i d) o p.
Lemma sinv_slot ng init σ o i t m d p : SInv ng init σ -> i < s_n σ -> s_tag σ i <> FROZEN ->
  rk p = rk (s_cl σ o) -> got p = got (s_cl σ o) -> trel p = trel (s_cl σ o) -> pcw (s_n σ) (s_unf σ) p ->
  (* before *)
  (match rl (s_cl σ o) with
   | Some (j, r) => j = i /\ r <> Ret2
   | None => s_tag σ i = AVAILABLE \/ s_tag σ i = PUBLISHED
   end) ->
  (* after *)
  (match rl p with
   | Some (j, r) => j = i /\ t = tag_of r /\ m = mir_of r
   | None => (t = AVAILABLE /\ m = AVAILABLE) \/ (t = PUBLISHED /\ m = PUBLISHED)
   end) ->
  (can_read (s_mir σ i) = true -> can_read m = true \/ rl p = Some (i, Ret2)) ->
  (d = s_data σ i \/ can_read (s_mir σ i) = false) ->
  SInv ng init (slot_upd σ i t m d o p).
Proof.
  intros I Hi NF K G T W B A CR DA. sdes I.
  assert (OTH : forall x r, x <> o -> rl (s_cl σ x) <> Some (i, r)).
  { intros x r Nx Hx. destruct (rl (s_cl σ o)) as [[j r0]|] eqn:E.
    - destruct B as [-> _]. apply Nx. eapply Vuniq; eauto.
    - destruct (Vrole x i r Hx) as (_ & HT & _). rewrite HT in B. destruct r; cbn in B; destruct B; discriminate. }
  assert (NPE : ~ In (N.of_nat i) (pending (s_reg σ))).
  { intros H. destruct (Vpend _ H) as (j & E & L & HT & HM & C). assert (j = i) by lia. subst j.
    destruct (rl (s_cl σ o)) as [[j r0]|] eqn:E0.
    - destruct B as [-> _]. eapply C; eauto.
    - rewrite HT in B. destruct B; discriminate. }
  assert (NPR : forall x, ~ prot (s_reg σ) x i).
  { intros x (it & H1 & H2 & _). apply NPE. rewrite pending_allq, <- H2. now apply in_map. }
  assert (RP : forall j r, rl p = Some (j, r) -> j = i /\ t = tag_of r /\ m = mir_of r).
  { intros j r H. rewrite H in A. exact A. }
  assert (RO : forall j r, rl (s_cl σ o) = Some (j, r) -> j = i /\ r <> Ret2).
  { intros j r H. rewrite H in B. exact B. }
  assert (NFR : ~ (s_unf σ <= i)).
  { intros H. destruct (Vfroz i (conj H Hi)) as (HT & _). congruence. }
  unfold slot_upd. constructor; cbn [set_cl set_data set_mir set_tag s_n s_unf s_tag s_mir s_data s_fl s_reg s_cl]; auto.
  - intros x. rewrite Vlink. ups; auto.
  - intros x. ups; auto.
  - intros x j r H. destruct (Nat.eq_dec x o) as [->|Nx].
    + rewrite upd_eq in H. destruct (RP j r H) as (-> & -> & ->). rewrite !upd_eq. auto.
    + rewrite upd_neq in H by assumption. assert (j <> i) by (intros ->; eapply OTH; eauto).
      rewrite !upd_neq by assumption. eauto.
  - intros x y j r r' Hx Hy. destruct (Nat.eq_dec x o) as [->|Nx], (Nat.eq_dec y o) as [->|Ny]; auto;
      rewrite ?upd_eq in *; rewrite ?upd_neq in * by assumption.
    + destruct (RP j r Hx) as (-> & _). exfalso. eapply OTH; eauto.
    + destruct (RP j r' Hy) as (-> & _). exfalso. eapply OTH; eauto.
    + eauto.
  - intros x Hx. destruct (Vpend x Hx) as (j & E & L & HT & HM & C). exists j.
    assert (j <> i) by (intros ->; apply NPE; congruence). rewrite !upd_neq by assumption. repeat split; auto.
    intros y r Hy. ups; [|eapply C; eauto]. destruct (RP j r Hy) as (-> & _). congruence.
  - intros j Hj. destruct (Nat.eq_dec j i) as [->|Nj].
    + rewrite !upd_eq. destruct (rl p) as [[j r]|] eqn:E.
      * destruct (RP j r eq_refl) as (-> & _). do 3 right. left. exists o, r. now rewrite upd_eq.
      * destruct A as [[-> ->]|[-> ->]]; auto.
    + rewrite !upd_neq by assumption. destruct (Vtags j Hj) as [A'|[A'|[A'|[(y & r & A')|A']]]]; auto.
      do 3 right. left. exists y, r. rewrite upd_neq; [assumption|]. intros ->. destruct (RO j r A') as (-> & _). congruence.
  - intros j Hj. assert (j <> i) by (intros ->; tauto). rewrite !upd_neq by assumption. auto.
  - intros x j v H. assert (EG : got (upd (s_cl σ) o p x) = got (s_cl σ x)) by (ups; auto). rewrite EG in H.
    destruct (Vgot x j v H) as (L & D & C). split; [assumption|].
    destruct (Nat.eq_dec j i) as [->|Nj].
    + assert (C' : can_read (s_mir σ i) = true).
      { destruct C as [C|[(y & C)|C]]; [assumption| |exfalso; eapply NPR; eauto].
        destruct (Nat.eq_dec y o) as [->|Ny]; [|exfalso; eapply OTH; eauto]. destruct (RO _ _ C). congruence. }
      rewrite !upd_eq. split; [destruct DA; congruence|]. destruct (CR C') as [Q|Q]; [auto|]. right; left. exists o. now rewrite upd_eq.
    + rewrite !upd_neq by assumption. split; [assumption|]. destruct C as [C|[(y & C)|C]]; auto.
      right; left. exists y. rewrite upd_neq; [assumption|]. intros ->. destruct (RO _ _ C). congruence.
  - intros x j H. assert (ET : trel (upd (s_cl σ) o p x) = trel (s_cl σ x)) by (ups; auto). rewrite ET in H. eauto.
Qed.
Lemma upd_self {A} (f : nat -> A) k x : upd f k (f k) x = f x.
Proof. unfold upd. destruct (Nat.eqb_spec x k); [now subst|reflexivity]. Qed.
(** The invariant looks at the maps pointwise only. *)
Lemma sinv_ext ng init σ σ' : SInv ng init σ ->
  s_n σ' = s_n σ -> s_unf σ' = s_unf σ -> fl_max (s_fl σ') = fl_max (s_fl σ) -> s_reg σ' = s_reg σ ->
  (forall i, s_tag σ' i = s_tag σ i) -> (forall i, s_mir σ' i = s_mir σ i) -> (forall i, s_data σ' i = s_data σ i) ->
  (forall o, s_cl σ' o = s_cl σ o) -> SInv ng init σ'.
Proof.
  intros I E1 E2 E3 E4 E5 E6 E7 E8. sdes I. constructor; rewrite ?E1, ?E2, ?E3, ?E4; auto.
  - intros o. rewrite E8. apply Vlink.
  - intros o. rewrite E8. apply Vpc.
  - intros o i r. rewrite E5, E6, E8. apply Vrole.
  - intros o o' i r r'. rewrite !E8. apply Vuniq.
  - intros x Hx. destruct (Vpend x Hx) as (i & ? & ? & ? & ? & C). exists i. rewrite E5, E6. repeat split; auto. intros o r. rewrite E8. apply C.
  - intros i Hi. rewrite E5, E6. destruct (Vtags i Hi) as [A|[A|[A|[(y & r & A)|A]]]]; auto. do 3 right. left. exists y, r. now rewrite E8.
  - intros i Hi. rewrite E5, E6, E7. auto.
  - intros o i v. rewrite E6, E7, E8. intros H. destruct (Vgot o i v H) as (A & B & [C|[(y & C)|C]]); repeat split; auto. right; left. exists y. now rewrite E8.
  - intros o i. rewrite E8. apply Vtrel.
Qed.
Lemma sinv_tag ng init σ o i t p : SInv ng init σ -> i < s_n σ -> s_tag σ i <> FROZEN ->
  rk p = rk (s_cl σ o) -> got p = got (s_cl σ o) -> trel p = trel (s_cl σ o) -> pcw (s_n σ) (s_unf σ) p ->
  (match rl (s_cl σ o) with Some (j, r) => j = i /\ r <> Ret2 | None => s_tag σ i = AVAILABLE \/ s_tag σ i = PUBLISHED end) ->
  (match rl p with
   | Some (j, r) => j = i /\ t = tag_of r /\ s_mir σ i = mir_of r
   | None => (t = AVAILABLE /\ s_mir σ i = AVAILABLE) \/ (t = PUBLISHED /\ s_mir σ i = PUBLISHED)
   end) ->
  SInv ng init (set_cl (set_tag σ i t) o p).
Proof.
  intros I Hi NF K G T W B A. eapply sinv_ext; [apply (sinv_slot ng init σ o i t (s_mir σ i) (s_data σ i) p); auto|..];
    cbn; auto; intros j; now rewrite ?upd_self.
Qed.
Lemma sinv_mir ng init σ o i m p : SInv ng init σ ->
  rk p = rk (s_cl σ o) -> got p = got (s_cl σ o) -> trel p = trel (s_cl σ o) -> pcw (s_n σ) (s_unf σ) p ->
  (exists r r', rl (s_cl σ o) = Some (i, r) /\ r <> Ret2 /\ rl p = Some (i, r') /\ tag_of r' = tag_of r /\ m = mir_of r' /\
     (can_read (mir_of r) = true -> can_read m = true \/ r' = Ret2)) ->
  SInv ng init (set_cl (set_mir σ i m) o p).
Proof.
  intros I K G T W (r & r' & R & NR & R' & TT & M & C).
  destruct (v_role _ _ _ I _ _ _ R) as (Hi & HT & HM).
  eapply sinv_ext; [apply (sinv_slot ng init σ o i (s_tag σ i) m (s_data σ i) p); auto|..];
    cbn; auto; try (intros j; now rewrite ?upd_self).
  - rewrite HT. destruct r; discriminate.
  - now rewrite R.
  - rewrite R'. split; [reflexivity|]. split; congruence.
  - rewrite HM. intros H. destruct (C H); auto. subst r'. auto.
Qed.
Lemma sinv_data ng init σ o i d : SInv ng init σ -> s_cl σ o = WHeld i -> SInv ng init (set_data σ i d).
Proof.
  intros I P. assert (R : rl (s_cl σ o) = Some (i, Own)) by now rewrite P.
  destruct (v_role _ _ _ I _ _ _ R) as (Hi & HT & HM).
  eapply sinv_ext; [apply (sinv_slot ng init σ o i (s_tag σ i) (s_mir σ i) d (WHeld i)); auto|..];
    cbn; auto; try (intros j; now rewrite ?upd_self); rewrite ?P; cbn; auto.
  - rewrite HT. discriminate.
  - split; [reflexivity|discriminate].
  - right. rewrite HM. reflexivity.
  - intros x. unfold upd. destruct (Nat.eqb_spec x o); congruence.
Qed.
Lemma fl_pop_max f : fl_max (fst (fl_pop f)) = fl_max f.
Proof. unfold fl_pop. now destruct (fl_rec f). Qed.
Lemma fl_push_max f i : fl_max (fl_push f i) = fl_max f.
Proof. unfold fl_push. now destruct (_ && _). Qed.
Lemma fl_chunk_max f : fl_max (fst (fl_scan_chunk f)) = fl_max f.
Proof. unfold fl_scan_chunk. now destruct (fl_max f =? 0). Qed.
Lemma fl_chunk_stop f : snd (snd (fl_scan_chunk f)) <= fl_max f.
Proof. unfold fl_scan_chunk. destruct (fl_max f =? 0); cbn [snd]; lia. Qed.

Lemma sinv_attempt_end ng init σ o k : SInv ng init σ ->
  rl (s_cl σ o) = None -> got (s_cl σ o) = [] -> trel (s_cl σ o) = None -> rk (s_cl σ o) = 0 -> SInv ng init (attempt_end σ o k).
Proof.
  intros I R G T K. unfold attempt_end. destruct k; [apply sinv_emit|]; apply sinv_silent; cbn; auto.
Qed.
Lemma sinv_try_failed ng init σ o b : SInv ng init σ ->
  rl (s_cl σ o) = None -> got (s_cl σ o) = [] -> trel (s_cl σ o) = None -> rk (s_cl σ o) = 0 -> SInv ng init (try_failed σ o b).
Proof.
  intros I R G T K. unfold try_failed. destruct b; [now apply sinv_attempt_end|]. apply sinv_silent; cbn; auto.
Qed.
Lemma sinv_drain_end ng init σ o b x c r' : SInv ng init σ -> step o c (s_reg σ) = Some r' ->
  (forall i, c <> ActRetire i) -> c <> ActPop -> rl (s_cl σ o) = None -> got (s_cl σ o) = [] -> trel (s_cl σ o) = None ->
  r_ag r' o = AIdle -> SInv ng init (drain_end (set_reg σ r') o b x).
Proof.
  intros I S N1 N2 R G T A. unfold drain_end, attempt_end.
  assert (K : forall p, rk p = 0 -> rl p = None -> got p = [] -> trel p = None -> pcw (s_n σ) (s_unf σ) p ->
    SInv ng init (set_cl (set_reg σ r') o p)).
  { intros p H1 H2 H3 H4 H5. eapply sinv_reg; eauto. now rewrite A, H1. }
  destruct b as [[|k]|]; [apply sinv_emit; apply K|apply K|apply sinv_emit; apply K]; auto; exact Logic.I.
Qed.

Lemma link_idle ng init σ o : SInv ng init σ -> rk (s_cl σ o) = 0 -> r_ag (s_reg σ) o = AIdle.
Proof. intros I K. pose proof (v_link _ _ _ I o) as L. rewrite K in L. destruct (r_ag (s_reg σ) o); try discriminate. reflexivity. Qed.
Lemma go_guard_kind o r r' : step o ActGo r = Some r' -> ak (r_ag r o) = 1 -> ak (r_ag r' o) <= 2.
Proof.
  intros S LK. apply step_inv in S.
  destruct S as [S|[S|[S|[S|[S|[S|[S|[S|[S|S]]]]]]]]];
      try (destruct S as (E & _); discriminate); try (destruct S as (? & E & _); discriminate);
      try (destruct S as (? & ? & E & _); discriminate); try (destruct S as (? & ? & ? & E & _); discriminate);
      destruct S as (_ & S); destruct (r_ag r o) eqn:B; cbn in LK; try discriminate; unfold guard_go, advance_go in S; try discriminate;
      repeat match type of S with context [if ?x then _ else _] => destruct x end; inv S; cbn; rewrite upd_eq; cbn; lia.
Qed.
Lemma go_advance_kind o r r' : step o ActGo r = Some r' -> ak (r_ag r o) = 3 -> ak (r_ag r' o) = 0 \/ 3 <= ak (r_ag r' o).
Proof.
  intros S LK. apply step_inv in S.
  destruct S as [S|[S|[S|[S|[S|[S|[S|[S|[S|S]]]]]]]]];
      try (destruct S as (E & _); discriminate); try (destruct S as (? & E & _); discriminate);
      try (destruct S as (? & ? & E & _); discriminate); try (destruct S as (? & ? & ? & E & _); discriminate);
      destruct S as (_ & S); destruct (r_ag r o) eqn:B; cbn in LK; try discriminate; unfold guard_go, advance_go in S; try discriminate;
      repeat match type of S with context [if ?x then _ else _] => destruct x end; inv S; cbn; rewrite upd_eq; cbn; lia.
Qed.
Lemma sinv_same ng init σ o r' c : SInv ng init σ -> step o c (s_reg σ) = Some r' -> c = ActGo ->
  rl (s_cl σ o) = None -> got (s_cl σ o) = [] -> trel (s_cl σ o) = None -> ak (r_ag r' o) = rk (s_cl σ o) ->
  SInv ng init (set_reg σ r').
Proof.
  intros I S -> R G T K. eapply sinv_ext; [eapply (sinv_reg ng init σ o (s_cl σ o)); eauto|..]; cbn; auto; try discriminate.
  - apply (v_pc _ _ _ I).
  - intros x. now rewrite upd_self.
Qed.
Ltac sil P := apply sinv_silent; rewrite ?P; cbn; auto.
Ltac reg P A := eapply sinv_reg; eauto; rewrite ?P, ?A; cbn; auto; try discriminate.
Lemma sinv_go ng init σ o σ' : SInv ng init σ -> go o σ = Some σ' -> SInv ng init σ'.
Proof.
  intros I H. unfold go in H. pose proof (v_pc _ _ _ I o) as W. pose proof (v_link _ _ _ I o) as LK.
  destruct (s_cl σ o) eqn:P; try discriminate; cbn [pcw rk] in W, LK; unfold rstep in H.
  - (* RGuard *)
    destruct (step o ActGo (s_reg σ)) as [r'|] eqn:S; [|discriminate]. cbn [set_reg s_reg] in H.
    pose proof (go_guard_kind _ _ _ S LK) as K2.
    destruct (r_ag r' o) eqn:A; inv H; cbn in K2; try lia; try apply sinv_emit;
      try (reg P A; fail); eapply sinv_same; eauto; rewrite ?P, ?A; reflexivity.
  - (* APop *)
    pose proof (fl_pop_max (s_fl σ)) as M. destruct (fl_pop (s_fl σ)) as [f [i|]]; inv H.
    + apply sinv_silent; [apply sinv_fl; assumption|..]; cbn; rewrite ?P; auto.
    + sil P.
  - (* AMint *) destruct (_ <? _); inv H; sil P.
  - (* AMintCas *) destruct (_ =? _).
    + inv H. apply sinv_silent; [now apply sinv_fl|..]; cbn; rewrite ?P; auto.
    + destruct (_ <? _); inv H; sil P.
  - (* ATry *)
    destruct (Nat.ltb_spec i (s_n σ)); cbn [negb] in H; [|inv H; apply sinv_try_failed; rewrite ?P; auto].
    destruct (_ =? _)%N; inv H; [sil P|apply sinv_try_failed; rewrite ?P; auto].
  - (* ATryCas *)
    destruct (N.eqb_spec (s_tag σ i) AVAILABLE) as [E|E]; inv H; [|apply sinv_try_failed; rewrite ?P; auto].
    apply sinv_emit. apply sinv_tag; rewrite ?P; cbn; auto.
    + rewrite E. discriminate.
    + destruct (v_tags _ _ _ I i W) as [[_ M]|[[T _]|[[T _]|[(y & r & R)|Pe]]]]; try (rewrite E in T; discriminate); auto.
      * destruct (v_role _ _ _ I _ _ _ R) as (_ & T & _). rewrite E in T. destruct r; discriminate.
      * destruct (v_pend _ _ _ I _ Pe) as (j & Ej & _ & T & _). assert (j = i) by lia. subst j. rewrite E in T. discriminate.
  - (* AScan *)
    destruct (rem =? 0); [inv H; sil P|].
    pose proof (fl_chunk_max (s_fl σ)) as M. pose proof (fl_chunk_stop (s_fl σ)) as ST.
    destruct (fl_scan_chunk (s_fl σ)) as [f [a b]]. cbn [fst snd] in *. inv H.
    apply sinv_silent; [now apply sinv_fl|..]; cbn; rewrite ?P; auto. rewrite <- (v_fl _ _ _ I). exact ST.
  - (* AScanAt *)
    destruct (Nat.leb_spec stop i).
    + destruct acq as [j|]; [inv H; apply sinv_emit; sil P|]. destruct (_ =? _); inv H; sil P.
    + pose proof (v_unf _ _ _ I). destruct (Nat.ltb_spec i (s_n σ)); [|lia]. cbn [negb] in H.
      destruct (_ =? _)%N; [|inv H; sil P]. destruct acq as [j|]; inv H; sil P.
  - (* AScanTry *) destruct (_ =? _)%N; inv H; sil P. tauto.
  - (* AScanCas *)
    destruct W as [W W2]. destruct (N.eqb_spec (s_tag σ i) AVAILABLE) as [E|E]; inv H; [|sil P].
    apply sinv_tag; rewrite ?P; cbn; auto.
    + rewrite E. discriminate.
    + destruct (v_tags _ _ _ I i W) as [[_ M]|[[T _]|[[T _]|[(y & r & R)|Pe]]]]; try (rewrite E in T; discriminate); auto.
      * destruct (v_role _ _ _ I _ _ _ R) as (_ & T & _). rewrite E in T. destruct r; discriminate.
      * destruct (v_pend _ _ _ I _ Pe) as (k' & Ej & _ & T & _). assert (k' = i) by lia. subst k'. rewrite E in T. discriminate.
  - (* AScanPush *) inv H. apply sinv_silent; [apply sinv_fl; [assumption|apply fl_push_max]|..]; cbn; rewrite ?P; cbn; auto. tauto.
  - (* AScanPop *)
    pose proof (fl_pop_max (s_fl σ)) as M. destruct (fl_pop (s_fl σ)) as [f [i|]]; inv H.
    + apply sinv_silent; [apply sinv_fl; assumption|..]; cbn; rewrite ?P; auto.
    + sil P.
  - (* DCall *)
    destruct (step o ActAdvance (s_reg σ)) as [r'|] eqn:S; [|discriminate]. cbn [set_reg s_reg] in H.
    assert (AI : r_ag (s_reg σ) o = AIdle) by (eapply link_idle; eauto; now rewrite P).
    assert (KS : r_ag r' o = AIdle \/ r_ag r' o = VRead).
    { unfold step in S. rewrite AI in S. destruct (r_lock (s_reg σ)); inv S; cbn; rewrite ?upd_eq; auto. }
    destruct KS as [A|A]; rewrite A in H; inv H.
    + eapply sinv_drain_end; eauto; rewrite ?P; auto; discriminate.
    + reg P A.
  - (* DAdv *)
    destruct (step o ActGo (s_reg σ)) as [r'|] eqn:S; [|discriminate]. cbn [set_reg s_reg] in H.
    pose proof (go_advance_kind _ _ _ S LK) as K2.
    destruct (r_ag r' o) eqn:A; inv H; cbn in K2; try (exfalso; lia);
      try (eapply sinv_drain_end; eauto; rewrite ?P; auto; discriminate);
      try (eapply sinv_same; eauto; rewrite ?P, ?A; reflexivity).
    + reg P A.
    + unfold panic. apply sinv_emit. reg P A.
  - (* DPop *)
    destruct (r_ag (s_reg σ) o) eqn:A; try discriminate.
    destruct (step o ActPop (s_reg σ)) as [r'|] eqn:S; [|discriminate].
    destruct (r_q (s_reg σ) q) as [|it rest] eqn:Q.
    + inv H. assert (E : r' = emit (s_reg σ) (EPopNone o)) by (unfold step in S; rewrite A, Q in S; now inv S).
      assert (S' : r_q r' = r_q (s_reg σ) /\ r_ag r' = r_ag (s_reg σ)) by (subst; auto). destruct S' as [SQ SA].
      eapply sinv_ext; [apply (sinv_silent ng init (set_reg σ r') o (DDone b items)); cbn; rewrite ?P; auto|..]; cbn; auto.
      pose proof I as I0. sdes I.
      assert (EA : allq r' = allq (s_reg σ)) by (unfold allq; now rewrite SQ).
      assert (EP : pending r' = pending (s_reg σ)) by (now rewrite !pending_allq, EA).
      destruct Vreg as (V1 & V2 & V3).
      constructor; cbn [set_reg s_n s_unf s_tag s_mir s_data s_fl s_reg s_cl]; rewrite ?EP, ?SA; auto.
      * eapply reg_inv3; eauto.
      * intros x i v Hx. destruct (Vgot x i v Hx) as (B1 & B2 & [C|[C|C]]); repeat split; auto.
        right; right. eapply prot_keep; eauto; [right; discriminate|now rewrite EA].
      * intros x i Hx. destruct (Vtrel x i Hx) as (B1 & B2). split; [assumption|]. eapply trel_keep; eauto; [right; discriminate|now rewrite EA].
    + destruct (sinv_pop ng init σ o b items q it rest r' I P A Q S) as (L & J).
      destruct (Nat.ltb_spec (N.to_nat (it_id it)) (s_n σ)); [|lia]. cbn [negb] in H. inv H. exact J.
  - (* DMir *)
    destruct (v_role _ _ _ I o i Dr1) as (Hi & HT & HM); [now rewrite P|]. rewrite HM in H. cbn in H. inv H. sil P.
  - (* DMirSet *)
    inv H. apply sinv_mir; rewrite ?P; cbn; auto. exists Dr1, Dr2. cbn. repeat split; auto; discriminate.
  - (* DTag *)
    destruct (v_role _ _ _ I o i Dr2) as (Hi & HT & HM); [now rewrite P|]. rewrite HT in H. cbn in H. inv H. sil P.
  - (* DTagSet *)
    destruct (v_role _ _ _ I o i Dr2) as (Hi & HT & HM); [now rewrite P|].
    inv H. apply sinv_tag; rewrite ?P; cbn; auto; [rewrite HT; discriminate|split; [reflexivity|discriminate]].
  - (* DPush *) inv H. apply sinv_silent; [apply sinv_fl; [assumption|apply fl_push_max]|..]; cbn; rewrite ?P; auto.
  - (* DDone *)
    destruct (step o ActDropDrain (s_reg σ)) as [r'|] eqn:S; [|discriminate]. inv H.
    eapply sinv_drain_end; eauto; rewrite ?P; auto; try discriminate.
    destruct (r_ag (s_reg σ) o) eqn:A; cbn in LK; try discriminate. unfold step in S. rewrite A in S. inv S. cbn. now rewrite upd_eq.
  - (* WPub *)
    destruct (v_role _ _ _ I o i OwnPub) as (Hi & HT & HM); [now rewrite P|].
    inv H. apply sinv_emit. apply sinv_tag; rewrite ?P; cbn; auto; [rewrite HT; discriminate|split; [reflexivity|discriminate]].
  - (* WDrop *)
    destruct (v_role _ _ _ I o i Own) as (Hi & HT & HM); [now rewrite P|].
    inv H. apply sinv_emit. apply sinv_tag; rewrite ?P; cbn; auto; [rewrite HT; discriminate|split; [reflexivity|discriminate]].
  - (* TCall *)
    destruct (step o ActGuard (s_reg σ)) as [r'|] eqn:S; [|discriminate]. inv H.
    assert (A : r_ag r' o = GHint (r_epoch (s_reg σ))).
    { assert (AI : r_ag (s_reg σ) o = AIdle) by (eapply link_idle; eauto; now rewrite P). unfold step in S. rewrite AI in S. inv S. cbn. now rewrite upd_eq. }
    reg P A.
  - (* TGuard *)
    destruct (step o ActGo (s_reg σ)) as [r'|] eqn:S; [|discriminate]. cbn [set_reg s_reg] in H.
    pose proof (go_guard_kind _ _ _ S LK) as K2.
    destruct (r_ag r' o) eqn:A; inv H; cbn in K2; try lia; try apply sinv_emit;
      try (reg P A; fail); eapply sinv_same; eauto; rewrite ?P, ?A; reflexivity.
  - (* TCas *)
    destruct W as [W W2]. destruct (N.eqb_spec (s_tag σ i) cur) as [E|E]; inv H; [|sil P].
    destruct (v_tags _ _ _ I i W) as [[T _]|[[T M]|[[T _]|[(y & r & R)|Pe]]]].
    + rewrite T in W2. discriminate.
    + apply sinv_tag; rewrite ?P; cbn; auto. rewrite T. discriminate.
    + rewrite T in W2. discriminate.
    + destruct (v_role _ _ _ I _ _ _ R) as (_ & T & _). rewrite T in W2. destruct r; discriminate.
    + destruct (v_pend _ _ _ I _ Pe) as (j & Ej & _ & T & _). assert (j = i) by lia. subst j. rewrite T in W2. discriminate.
  - (* TMir *)
    inv H. apply sinv_mir; rewrite ?P; cbn; auto. exists Ret1, Ret2. cbn. repeat split; auto; discriminate.
  - (* TRet *)
    destruct (step o _ (s_reg σ)) as [r'|] eqn:S; [|discriminate]. inv H. eapply sinv_retire; eauto.
  - (* TRel *)
    destruct (step o ActDropGuard (s_reg σ)) as [r'|] eqn:S; [|discriminate]. inv H. apply sinv_emit.
    assert (A : r_ag r' o = AIdle).
    { destruct (r_ag (s_reg σ) o) eqn:A; cbn in LK; try discriminate. unfold step in S. rewrite A in S. inv S. cbn. now rewrite upd_eq. }
    reg P A.
  - (* TFail *)
    destruct (step o ActDropGuard (s_reg σ)) as [r'|] eqn:S; [|discriminate]. inv H. apply sinv_emit.
    assert (A : r_ag r' o = AIdle).
    { destruct (r_ag (s_reg σ) o) eqn:A; cbn in LK; try discriminate. unfold step in S. rewrite A in S. inv S. cbn. now rewrite upd_eq. }
    reg P A.
Qed.
Lemma sinv_step ng init σ o c σ' : SInv ng init σ -> sstep o c σ = Some σ' -> SInv ng init σ'.
Proof.
  intros I H. destruct c; try (apply (sinv_go ng init σ o σ' I); unfold sstep in H; destruct (s_cl σ o); exact H);
    unfold sstep in H; pose proof (v_link _ _ _ I o) as LK; destruct (s_cl σ o) eqn:P; try discriminate; cbn [rk] in LK; unfold rstep in H.
  - (* CallReader *)
    destruct (step o ActGuard (s_reg σ)) as [r'|] eqn:S; [|discriminate]. inv H.
    assert (A : r_ag r' o = GHint (r_epoch (s_reg σ))).
    { assert (AI : r_ag (s_reg σ) o = AIdle) by (eapply link_idle; eauto; now rewrite P). unfold step in S. rewrite AI in S. inv S. cbn. now rewrite upd_eq. }
    reg P A.
  - (* CallRead *)
    destruct (Nat.ltb_spec i (s_n σ)); cbn [negb] in H; [|inv H; now apply sinv_emit].
    destruct (can_read (s_mir σ i)) eqn:C; inv H; apply sinv_emit; [|assumption].
    sdes I. constructor; cbn [set_cl s_n s_unf s_tag s_mir s_data s_fl s_reg s_cl]; auto.
    + intros x. rewrite Vlink. ups; [now rewrite P|reflexivity].
    + intros x. ups; [exact Logic.I|auto].
    + intros x j r Hx. ups; [discriminate|eauto].
    + intros x y j r r' Hx Hy. ups; try discriminate. eauto.
    + intros x Hx. destruct (Vpend x Hx) as (j & E & L & HT & HM & Q). exists j. repeat split; auto. intros y r Hy. ups; [discriminate|eapply Q; eauto].
    + intros j Hj. destruct (Vtags j Hj) as [A'|[A'|[A'|[(y & r & A')|A']]]]; auto.
      do 3 right. left. exists y, r. rewrite upd_neq; [assumption|]. intros ->. rewrite P in A'. discriminate.
    + assert (OLD : forall x j v, In (j, v) (got (s_cl σ x)) -> j < s_n σ /\ s_data σ j = v /\
        (can_read (s_mir σ j) = true \/ (exists o', rl (upd (s_cl σ) o (RHeld ((i, s_data σ i) :: got0)) o') = Some (j, Ret2)) \/ prot (s_reg σ) x j)).
      { intros x j v Hx. destruct (Vgot x j v Hx) as (B1 & B2 & [B|[(y & B)|B]]); repeat split; auto.
        right; left. exists y. rewrite upd_neq; [assumption|]. intros ->. rewrite P in B. discriminate. }
      intros x j v Hx. destruct (Nat.eq_dec x o) as [->|Nx].
      * rewrite upd_eq in Hx. cbn [got] in Hx. destruct Hx as [Hx|Hx]; [|apply OLD; rewrite P; exact Hx].
        inv Hx. auto.
      * rewrite upd_neq in Hx by assumption. now apply OLD.
    + intros x j Hx. ups; [discriminate|eauto].
  - (* DropReader *)
    destruct (step o ActDropGuard (s_reg σ)) as [r'|] eqn:S; [|discriminate]. inv H. apply sinv_emit.
    assert (A : r_ag r' o = AIdle).
    { destruct (r_ag (s_reg σ) o) eqn:A; cbn in LK; try discriminate. unfold step in S. rewrite A in S. inv S. cbn. now rewrite upd_eq. }
    reg P A.
  - (* CallAcquire *) inv H. sil P.
  - (* CallWrite *) destruct (_ =? _); inv H. apply sinv_emit. eapply sinv_data; eauto.
  - (* CallPublish *)
    inv H. apply sinv_emit. apply sinv_mir; rewrite ?P; cbn; auto. exists Own, OwnPub. cbn. repeat split; auto; discriminate.
  - (* DropSlot *)
    inv H. apply sinv_mir; rewrite ?P; cbn; auto. exists Own, Own. cbn. repeat split; auto; discriminate.
  - (* CallRetire *)
    destruct (Nat.ltb_spec i (s_n σ)); cbn [negb] in H; [|inv H; now apply sinv_emit].
    destruct (is_reserved (s_tag σ i)) eqn:R; inv H; [now apply sinv_emit|]. sil P.
  - (* CallDrain *) inv H. sil P.
Qed.
