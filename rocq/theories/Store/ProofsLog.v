(** The event log of the store. *)
From Verif.Lib Require Import Base Lists.
From Verif.Epoch Require Import Model Spec Proofs.
From Verif.Store Require Import Model Spec Proofs.

(** ** The new store *)
Lemma freeze_frame rows : forall i σ,
  s_n (freeze_rows i rows σ) = s_n σ /\ s_unf (freeze_rows i rows σ) = s_unf σ /\ s_fl (freeze_rows i rows σ) = s_fl σ /\
  s_reg (freeze_rows i rows σ) = s_reg σ /\ s_cl (freeze_rows i rows σ) = s_cl σ /\ s_log (freeze_rows i rows σ) = s_log σ /\
  (forall j, (i <= j < i + length rows -> s_tag (freeze_rows i rows σ) j = FROZEN /\ s_mir (freeze_rows i rows σ) j = FROZEN /\
                s_data (freeze_rows i rows σ) j = nth (j - i) rows []) /\
             (~ (i <= j < i + length rows) -> s_tag (freeze_rows i rows σ) j = s_tag σ j /\ s_mir (freeze_rows i rows σ) j = s_mir σ j)).
Proof.
  induction rows as [|row rows IH]; intros i σ; cbn [freeze_rows length].
  - repeat split; auto; intros; lia.
  - specialize (IH (S i) (set_tag (set_mir (set_data σ i row) i FROZEN) i FROZEN)).
    destruct IH as (A1 & A2 & A3 & A4 & A5 & A6 & A7).
    split; [exact A1|]. split; [exact A2|]. split; [exact A3|]. split; [exact A4|]. split; [exact A5|]. split; [exact A6|].
    intros j. destruct (A7 j) as (B1 & B2). split.
    + intros H. destruct (Nat.eq_dec j i) as [->|N].
      * destruct B2 as (C1 & C2); [lia|]. rewrite C1, C2. cbn. rewrite !upd_eq, Nat.sub_diag. repeat split.
        clear. generalize (set_tag (set_mir (set_data σ i row) i FROZEN) i FROZEN) as σ1, (eq_refl : s_data (set_tag (set_mir (set_data σ i row) i FROZEN) i FROZEN) i = upd (s_data σ) i row i).
        intros σ1. rewrite upd_eq. assert (L : i < S i) by lia. revert L. generalize (S i) as k. revert σ1.
        induction rows as [|r rows IH]; intros σ1 k L E; cbn [freeze_rows nth]; [exact E|].
        apply IH; [lia|]. cbn. rewrite upd_neq by lia. exact E.
      * destruct B1 as (C1 & C2 & C3); [lia|]. rewrite C1, C2, C3. replace (j - i) with (S (j - S i)) by lia. auto.
    + intros H. destruct B2 as (C1 & C2); [lia|]. rewrite C1, C2. cbn. rewrite !upd_neq by lia. auto.
Qed.
Definition initial (entries : nat) (rows : list bytes) (i : nat) : bytes := nth (i - entries) rows [].
Lemma new_inv entries bp guards cap ncols rows σ : 0 < guards -> store_new entries bp guards cap ncols rows = Some σ ->
  SInv guards (initial entries rows) σ /\ s_n σ = entries + length rows /\ s_unf σ = entries /\ s_log σ = [] /\
  (forall o, s_cl σ o = CIdle) /\ s_fl σ = fl_new entries cap /\ s_reg σ = reg_init guards /\
  (forall i, i < entries -> s_tag σ i = AVAILABLE).
Proof.
  intros G H. unfold store_new in H. destruct (negb _); [discriminate|]. destruct (_ =? 0); [discriminate|].
  destruct (negb _); [discriminate|]. destruct (negb _); [discriminate|].
  destruct (N.ltb_spec (N.of_nat (entries + length rows)) two32) as [L|L]; cbn [negb] in H; [|discriminate]. injection H as <-.
  match goal with |- context [freeze_rows entries rows ?s] => set (s0 := s) end.
  destruct (freeze_frame rows entries s0) as (A1 & A2 & A3 & A4 & A5 & A6 & A7).
  set (s1 := freeze_rows entries rows s0) in *.
  assert (CL : forall o, s_cl s1 o = CIdle) by (intros o; rewrite A5; reflexivity).
  assert (TG : forall i, i < entries -> s_tag s1 i = AVAILABLE /\ s_mir s1 i = AVAILABLE).
  { intros i Hi. destruct (A7 i) as (_ & B). destruct B as (B1 & B2); [lia|]. rewrite B1, B2. auto. }
  assert (AQ : allq (s_reg s1) = []) by (rewrite A4; reflexivity).
  split.
  - constructor.
    + rewrite A4. split; [now apply inv_init|]. split; [apply linv_init|]. intros a s e E. discriminate.
    + rewrite A1. exact L.
    + rewrite A1, A2. cbn. lia.
    + rewrite A2, A3. reflexivity.
    + intros o. rewrite CL, A4. reflexivity.
    + intros o. rewrite CL. exact Logic.I.
    + intros o i r. rewrite CL. discriminate.
    + intros o o' i r r'. rewrite CL. discriminate.
    + rewrite pending_allq, AQ. intros x [].
    + rewrite pending_allq, AQ. constructor.
    + rewrite A1, A2. cbn. intros i Hi. destruct (Nat.lt_ge_cases i entries) as [H|H]; [left; now apply TG|].
      do 2 right. left. destruct (A7 i) as (B & _). destruct B as (B1 & _); [lia|]. auto.
    + rewrite A1, A2. cbn. intros i Hi. destruct (A7 i) as (B & _). destruct B as (B1 & B2 & B3); [lia|]. auto.
    + intros o i v. rewrite CL. intros [].
    + intros o i. rewrite CL. discriminate.
  - repeat split; auto. intros i Hi. now apply TG.
Qed.

(** ** Automata over the log *)
(** Publication took effect and no retire returned since. *)
Fixpoint vis (log : list sevent) (i : nat) (b : bool) : bool :=
  match log with
  | [] => b
  | SPublish _ j _ :: log => vis log i (if j =? i then true else b)
  | SRetire _ j None :: log => vis log i (if j =? i then false else b)
  | _ :: log => vis log i b
  end.
Lemma live_app l l' i b : live (l ++ l') i b = live l' i (live l i b).
Proof.
  revert b. induction l as [|e l IH]; intros b; [reflexivity|]. cbn [app live]. destruct e; auto. destruct r; auto.
Qed.
Lemma vis_app l l' i b : vis (l ++ l') i b = vis l' i (vis l i b).
Proof.
  revert b. induction l as [|e l IH]; intros b; [reflexivity|]. cbn [app vis]. destruct e; auto. destruct r; auto.
Qed.
Lemma pub_app l l' i b : last_published (l ++ l') i b = last_published l' i (last_published l i b).
Proof. revert b. induction l as [|e l IH]; intros b; [reflexivity|]. cbn [app last_published]. destruct e; auto. Qed.
Definition plainev (e : sevent) : bool :=
  match e with SRead _ _ (Some _) | SPublish _ _ _ | SPublished _ _ | SRetire _ _ None => false | _ => true end.
Lemma plain_live e i b : plainev e = true -> live [e] i b = b.
Proof. destruct e; cbn; try discriminate; auto; destruct r; auto; discriminate. Qed.
Lemma plain_vis e i b : plainev e = true -> vis [e] i b = b.
Proof. destruct e; cbn; try discriminate; auto; destruct r; auto; discriminate. Qed.
Lemma plain_pub e i b : plainev e = true -> last_published [e] i b = b.
Proof. destruct e; cbn; try discriminate; auto. Qed.
Definition idx_ok (unf : nat) (e : sevent) : Prop :=
  match e with
  | SAcquired _ i | SWrite _ i _ | SPublish _ i _ | SPublished _ i | SSlotDrop _ i | SRetire _ i None => i < unf
  | _ => True
  end.
(** Clients that have won the race to retire [i] and not returned yet. *)
Definition lv (p : pc) : option nat := match p with TMir i | TRet i | TRel i => Some i | _ => None end.

Record GInv (init : nat -> bytes) (σ : store) : Prop := {
  g_pub : forall i, s_mir σ i = PUBLISHED -> last_published (s_log σ) i None = Some (s_data σ i);
  g_live : forall i, s_tag σ i = PUBLISHED -> live (s_log σ) i false = true;
  g_live2 : forall o i, lv (s_cl σ o) = Some i -> live (s_log σ) i false = true;
  g_vis : forall i, i < s_n σ -> can_read (s_mir σ i) = true -> s_unf σ <= i \/ vis (s_log σ) i false = true;
  g_read : forall p o i v, nth_error (s_log σ) p = Some (SRead o i (Some v)) ->
     (s_unf σ <= i < s_n σ /\ v = init i) \/
     (last_published (firstn p (s_log σ)) i None = Some v /\ vis (firstn p (s_log σ)) i false = true);
  g_ret : forall p o i, nth_error (s_log σ) p = Some (SRetire o i None) -> live (firstn p (s_log σ)) i false = true;
  g_idx : Forall (idx_ok (s_unf σ)) (s_log σ)
}.
Lemma firstn_snoc_old {A} (l : list A) e p : p < length l -> firstn p (l ++ [e]) = firstn p l.
Proof. intros H. rewrite firstn_app. replace (p - length l) with 0 by lia. cbn. apply app_nil_r. Qed.
Lemma firstn_snoc_new {A} (l : list A) e : firstn (length l) (l ++ [e]) = l.
Proof. rewrite firstn_app, Nat.sub_diag, firstn_all. cbn. apply app_nil_r. Qed.
(** Steps without a publication, read or completed retirement. *)
Lemma ginv_plain init σ σ' l : GInv init σ -> s_n σ' = s_n σ -> s_unf σ' = s_unf σ -> s_log σ' = s_log σ ++ l ->
  (l = [] \/ exists e, l = [e] /\ plainev e = true /\ idx_ok (s_unf σ) e) ->
  (forall i, s_mir σ' i = PUBLISHED -> s_mir σ i = PUBLISHED /\ s_data σ' i = s_data σ i) ->
  (forall i, s_tag σ' i = PUBLISHED -> s_tag σ i = PUBLISHED) ->
  (forall o i, lv (s_cl σ' o) = Some i -> lv (s_cl σ o) = Some i \/ s_tag σ i = PUBLISHED) ->
  (forall i, can_read (s_mir σ' i) = true -> can_read (s_mir σ i) = true) -> GInv init σ'.
Proof.
  intros [G1 G2 G3 G4 G5 G6 G7] EN EU EL L M T V C.
  assert (LL : forall i b, live l i b = b) by (intros; destruct L as [->|(e & -> & P & _)]; [reflexivity|now apply plain_live]).
  assert (LV : forall i b, vis l i b = b) by (intros; destruct L as [->|(e & -> & P & _)]; [reflexivity|now apply plain_vis]).
  assert (LP : forall i b, last_published l i b = b) by (intros; destruct L as [->|(e & -> & P & _)]; [reflexivity|now apply plain_pub]).
  constructor; rewrite ?EN, ?EU, ?EL.
  - intros i H. rewrite pub_app, LP. destruct (M i H) as (A & ->). auto.
  - intros i H. rewrite live_app, LL. auto.
  - intros o i H. rewrite live_app, LL. destruct (V o i H); eauto.
  - intros i Hi H. rewrite vis_app, LV. auto.
  - intros p o i v H. destruct L as [->|(e & -> & P & _)].
    + rewrite app_nil_r in *. eauto.
    + apply nth_error_snoc in H. destruct H as [[A H]|[_ <-]]; [|discriminate]. rewrite firstn_snoc_old by assumption. eauto.
  - intros p o i H. destruct L as [->|(e & -> & P & _)].
    + rewrite app_nil_r in *. eauto.
    + apply nth_error_snoc in H. destruct H as [[A H]|[_ <-]]; [|discriminate]. rewrite firstn_snoc_old by assumption. eauto.
  - apply Forall_app. split; [assumption|]. destruct L as [->|(e & -> & P & Q)]; [constructor|]. constructor; auto.
Qed.
Lemma role_unf ng init σ o i r : SInv ng init σ -> rl (s_cl σ o) = Some (i, r) -> i < s_unf σ.
Proof.
  intros I R. destruct (v_role _ _ _ I _ _ _ R) as (Hi & T & _). destruct (Nat.lt_ge_cases i (s_unf σ)) as [H|H]; [assumption|].
  destruct (v_frozen _ _ _ I i (conj H Hi)) as (F & _). rewrite F in T. destruct r; discriminate.
Qed.
Lemma upd_lv (cl : nat -> pc) o p x i : lv (upd cl o p x) = Some i -> lv p = None -> lv (cl x) = Some i.
Proof. intros H N. unfold upd in H. destruct (Nat.eqb_spec x o); [congruence|assumption]. Qed.
(** Changes of the program counter to one that is not retiring. *)
Ltac gp l := eapply (ginv_plain _ _ _ l); eauto; cbn; try (rewrite ?app_nil_r; reflexivity);
  try (left; reflexivity); try (right; eexists; split; [reflexivity|split; [reflexivity|exact Logic.I]]);
  try (intros ? ? Hlv; left; eapply upd_lv; [exact Hlv|reflexivity]); auto.
Lemma ginv_cl init σ o p : GInv init σ -> lv p = None -> GInv init (set_cl σ o p).
Proof. intros G N. gp (@nil sevent). intros x i H. left. eapply upd_lv; eauto. Qed.
Lemma ginv_fl init σ f : GInv init σ -> GInv init (set_fl σ f).
Proof. intros G. gp (@nil sevent). Qed.
Lemma ginv_reg init σ r : GInv init σ -> GInv init (set_reg σ r).
Proof. intros G. gp (@nil sevent). Qed.
Lemma ginv_emit init σ e : GInv init σ -> plainev e = true -> idx_ok (s_unf σ) e -> GInv init (semit σ e).
Proof. intros G P Q. eapply (ginv_plain _ _ _ [e]); eauto. Qed.
Lemma ginv_attempt init σ o k : GInv init σ -> GInv init (attempt_end σ o k).
Proof. intros G. unfold attempt_end. destruct k; [apply ginv_emit; [|reflexivity|exact Logic.I]|]; now apply ginv_cl. Qed.
Lemma ginv_try init σ o b : GInv init σ -> GInv init (try_failed σ o b).
Proof. intros G. unfold try_failed. destruct b; [now apply ginv_attempt|now apply ginv_cl]. Qed.
Lemma ginv_drain init σ o b r : GInv init σ -> GInv init (drain_end σ o b r).
Proof. intros G. unfold drain_end. destruct b; [now apply ginv_attempt|]. apply ginv_emit; [now apply ginv_cl|reflexivity|exact Logic.I]. Qed.
Lemma ginv_panic init σ o : GInv init σ -> GInv init (panic σ o).
Proof. intros G. apply ginv_emit; [now apply ginv_cl|reflexivity|exact Logic.I]. Qed.
Lemma ginv_tag init σ o i t p : GInv init σ -> t <> PUBLISHED -> (lv p = None \/ (lv p = Some i /\ s_tag σ i = PUBLISHED)) ->
  GInv init (set_cl (set_tag σ i t) o p).
Proof.
  intros G N L. gp (@nil sevent).
  - intros j H. ups; congruence.
  - intros x j H. ups; [|auto]. destruct L as [L|[L L2]]; [congruence|]. rewrite L in H. inv H. auto.
Qed.
Lemma ginv_mir init σ o i m p : GInv init σ -> can_read m = false -> (lv p = None \/ lv p = lv (s_cl σ o)) ->
  GInv init (set_cl (set_mir σ i m) o p).
Proof.
  intros G N L. gp (@nil sevent).
  - intros j H. ups; [|auto]. subst m. discriminate.
  - intros x j H. ups; [|auto]. destruct L as [L|L]; [congruence|]. left. congruence.
  - intros j H. ups; congruence.
Qed.
Lemma ginv_go ng init σ o σ' : SInv ng init σ -> GInv init σ -> go o σ = Some σ' -> GInv init σ'.
Proof.
  intros I G H. unfold go in H. pose proof (v_pc _ _ _ I o) as W.
  destruct (s_cl σ o) eqn:P; try discriminate; cbn [pcw] in W; unfold rstep in H.
  - destruct (step o ActGo (s_reg σ)) as [r'|]; [|discriminate]. cbn [set_reg s_reg] in H.
    destruct (r_ag r' o); inv H; try (now apply ginv_reg);
      (apply ginv_emit; [|reflexivity|exact Logic.I]); apply ginv_cl; try reflexivity; now apply ginv_reg.
  - destruct (fl_pop (s_fl σ)) as [f [i|]]; inv H; apply ginv_cl; try reflexivity; auto. now apply ginv_fl.
  - destruct (_ <? _); inv H; now apply ginv_cl.
  - destruct (_ =? _); [inv H; apply ginv_cl; [now apply ginv_fl|reflexivity]|]. destruct (_ <? _); inv H; now apply ginv_cl.
  - destruct (negb _); [inv H; now apply ginv_try|]. destruct (_ =? _)%N; inv H; [now apply ginv_cl|now apply ginv_try].
  - destruct (N.eqb_spec (s_tag σ i) AVAILABLE) as [E|E]; inv H; [|now apply ginv_try].
    apply ginv_emit; [apply ginv_tag; auto; discriminate|reflexivity|]. cbn.
    destruct (Nat.lt_ge_cases i (s_unf σ)) as [L|L]; [assumption|]. destruct (v_frozen _ _ _ I i (conj L W)) as (F & _). rewrite F in E. discriminate.
  - destruct (rem =? 0); [inv H; now apply ginv_cl|]. destruct (fl_scan_chunk (s_fl σ)) as [f [a b]]. inv H.
    apply ginv_cl; [now apply ginv_fl|reflexivity].
  - destruct (stop <=? i).
    + destruct acq as [j|]; [|destruct (_ =? _); inv H; now apply ginv_cl]. inv H. apply ginv_emit; [now apply ginv_cl|reflexivity|].
      cbn. eapply (role_unf ng init σ o j Own I). now rewrite P.
    + destruct (negb _); [inv H; now apply ginv_panic|]. destruct (_ =? _)%N; [|inv H; now apply ginv_cl].
      destruct acq; inv H; now apply ginv_cl.
  - destruct (_ =? _)%N; inv H; now apply ginv_cl.
  - destruct (_ =? _)%N; inv H; [apply ginv_tag; auto; discriminate|now apply ginv_cl].
  - inv H. apply ginv_cl; [now apply ginv_fl|reflexivity].
  - destruct (fl_pop (s_fl σ)) as [f [i|]]; inv H; apply ginv_cl; try reflexivity; auto. now apply ginv_fl.
  - destruct (step o ActAdvance (s_reg σ)) as [r'|]; [|discriminate]. cbn [set_reg s_reg] in H.
    destruct (r_ag r' o); inv H; try (apply ginv_drain; now apply ginv_reg); apply ginv_cl; try reflexivity; now apply ginv_reg.
  - destruct (step o ActGo (s_reg σ)) as [r'|]; [|discriminate]. cbn [set_reg s_reg] in H.
    destruct (r_ag r' o); inv H; try (now apply ginv_reg); try (apply ginv_drain; now apply ginv_reg);
      try (apply ginv_panic; now apply ginv_reg); apply ginv_cl; try reflexivity; now apply ginv_reg.
  - destruct (r_ag (s_reg σ) o); try discriminate. destruct (step o ActPop (s_reg σ)) as [r'|]; [|discriminate].
    destruct (r_q (s_reg σ) q) as [|it rest]; [inv H; apply ginv_cl; [now apply ginv_reg|reflexivity]|].
    destruct (negb _); inv H; [apply ginv_panic; now apply ginv_reg|]. apply ginv_cl; [now apply ginv_reg|reflexivity].
  - destruct (_ =? _)%N; inv H; [now apply ginv_cl|now apply ginv_panic].
  - inv H. apply ginv_mir; auto.
  - destruct (_ =? _)%N; inv H; [now apply ginv_cl|now apply ginv_panic].
  - inv H. apply ginv_tag; auto. discriminate.
  - inv H. apply ginv_cl; [now apply ginv_fl|reflexivity].
  - destruct (step o ActDropDrain (s_reg σ)) as [r'|]; [|discriminate]. inv H. apply ginv_drain. now apply ginv_reg.
  - (* WPub *) inv H. assert (R : rl (s_cl σ o) = Some (i, OwnPub)) by now rewrite P.
    destruct (v_role _ _ _ I _ _ _ R) as (Hi & HT & HM). destruct G as [G1 G2 G3 G4 G5 G6 G7].
    constructor; cbn [semit set_cl set_tag s_n s_unf s_tag s_mir s_data s_fl s_reg s_cl s_log].
    + intros j H. rewrite pub_app. cbn. auto.
    + intros j H. rewrite live_app. cbn. destruct (Nat.eqb_spec i j) as [->|N]; [reflexivity|]. rewrite upd_neq in H by congruence. auto.
    + intros x j H. rewrite live_app. cbn. destruct (Nat.eqb_spec i j); [reflexivity|]. ups; [discriminate|eauto].
    + intros j Hj H. rewrite vis_app. cbn. auto.
    + intros p x j v H. apply nth_error_snoc in H. destruct H as [[A H]|[_ H]]; [|discriminate]. rewrite firstn_snoc_old by assumption. eauto.
    + intros p x j H. apply nth_error_snoc in H. destruct H as [[A H]|[_ H]]; [|discriminate]. rewrite firstn_snoc_old by assumption. eauto.
    + apply Forall_app. split; [assumption|]. constructor; [|constructor]. cbn. eapply role_unf; eauto.
  - (* WDrop *) inv H. apply ginv_emit; [apply ginv_tag; auto; discriminate|reflexivity|]. cbn.
    eapply (role_unf ng init σ o i Own I). now rewrite P.
  - destruct (step o ActGuard (s_reg σ)) as [r'|]; [|discriminate]. inv H. apply ginv_cl; [now apply ginv_reg|reflexivity].
  - destruct (step o ActGo (s_reg σ)) as [r'|]; [|discriminate]. cbn [set_reg s_reg] in H.
    destruct (r_ag r' o); inv H; try (now apply ginv_reg); try (apply ginv_cl; [now apply ginv_reg|reflexivity]).
    apply ginv_emit; [|reflexivity|exact Logic.I]. apply ginv_cl; [now apply ginv_reg|reflexivity].
  - (* TCas *) destruct W as [W W2]. destruct (N.eqb_spec (s_tag σ i) cur) as [E|E]; inv H; [|now apply ginv_cl].
    apply ginv_tag; auto; [discriminate|]. right. split; [reflexivity|].
    destruct (v_tags _ _ _ I i W) as [[T _]|[[T M]|[[T _]|[(y & r & R)|Pe]]]]; auto; try (rewrite T in W2; discriminate).
    + destruct (v_role _ _ _ I _ _ _ R) as (_ & T & _). rewrite T in W2. destruct r; discriminate.
    + destruct (v_pend _ _ _ I _ Pe) as (j & Ej & _ & T & _). assert (j = i) by lia. subst j. rewrite T in W2. discriminate.
  - inv H. apply ginv_mir; auto. right. now rewrite P.
  - destruct (step o _ (s_reg σ)) as [r'|]; [|discriminate]. inv H. gp (@nil sevent).
    intros x j H. left. ups; [now rewrite P|assumption].
  - (* TRel *) destruct (step o ActDropGuard (s_reg σ)) as [r'|]; [|discriminate]. inv H.
    destruct (v_trel _ _ _ I o i) as (Hi & it & A & B & C & D & x0 & E); [now rewrite P|].
    destruct (v_pend _ _ _ I (N.of_nat i)) as (i' & Ei & _ & HT & HM & NR).
    { rewrite pending_allq, <- B. now apply in_map. }
    assert (i' = i) by lia. subst i'.
    assert (UN : forall x, x <> o -> lv (s_cl σ x) <> Some i).
    { intros x Nx Hx. destruct (s_cl σ x) eqn:Px; cbn in Hx; inv Hx.
      - apply (NR x Ret1). now rewrite Px.
      - apply (NR x Ret2). now rewrite Px.
      - destruct (v_trel _ _ _ I x i) as (_ & it' & A' & B' & _ & _ & y0 & E'); [now rewrite Px|].
        assert (it' = it).
        { pose proof (v_nd _ _ _ I) as ND. rewrite pending_allq in ND. revert A A' ND. rewrite <- B in B'. revert B'. clear.
          induction (allq (s_reg σ)) as [|z l IH]; [contradiction|]. cbn [map In]. intros B' A A' ND. inversion ND as [|? ? N1 N2]; subst.
          destruct A as [->|A], A' as [->|A']; auto.
          - exfalso. apply N1. rewrite <- B'. now apply in_map.
          - exfalso. apply N1. rewrite B'. now apply in_map. }
        subst it'. rewrite E in E'. inv E'. congruence. }
    assert (LV : live (s_log σ) i false = true) by (eapply (g_live2 _ _ G o); now rewrite P).
    assert (IU : i < s_unf σ).
    { destruct (Nat.lt_ge_cases i (s_unf σ)) as [H|H]; [assumption|]. destruct (v_frozen _ _ _ I i (conj H Hi)) as (F & _). rewrite F in HT. discriminate. }
    destruct G as [G1 G2 G3 G4 G5 G6 G7].
    constructor; cbn [semit set_cl set_reg s_n s_unf s_tag s_mir s_data s_fl s_reg s_cl s_log].
    + intros j H. rewrite pub_app. cbn. auto.
    + intros j H. rewrite live_app. cbn. destruct (Nat.eqb_spec i j) as [->|N]; [|auto]. rewrite HT in H. discriminate.
    + intros x j H. rewrite live_app. cbn. ups; [discriminate|]. destruct (Nat.eqb_spec i j) as [->|N]; [|eauto]. exfalso. eapply UN; eauto.
    + intros j Hj H. rewrite vis_app. cbn. destruct (Nat.eqb_spec i j) as [->|N]; [|auto]. rewrite HM in H. discriminate.
    + intros p x j v H. apply nth_error_snoc in H. destruct H as [[A' H]|[_ H]]; [|discriminate]. rewrite firstn_snoc_old by assumption. eauto.
    + intros p x j H. apply nth_error_snoc in H. destruct H as [[A' H]|[-> H]]; [rewrite firstn_snoc_old by assumption; eauto|].
      inv H. now rewrite firstn_snoc_new.
    + apply Forall_app. split; [assumption|]. constructor; [exact IU|constructor].
  - destruct (step o ActDropGuard (s_reg σ)) as [r'|]; [|discriminate]. inv H. apply ginv_emit; [|reflexivity|exact Logic.I].
    apply ginv_cl; [now apply ginv_reg|reflexivity].
Qed.
Lemma ginv_step ng init σ o c σ' : SInv ng init σ -> GInv init σ -> sstep o c σ = Some σ' -> GInv init σ'.
Proof.
  intros I G H. destruct c; try (apply (ginv_go ng init σ o σ' I G); unfold sstep in H; destruct (s_cl σ o); exact H);
    unfold sstep in H; destruct (s_cl σ o) eqn:P; try discriminate; unfold rstep in H.
  - destruct (step o ActGuard (s_reg σ)) as [r'|]; [|discriminate]. inv H. apply ginv_cl; [now apply ginv_reg|reflexivity].
  - (* CallRead *)
    destruct (Nat.ltb_spec i (s_n σ)) as [L|L]; cbn [negb] in H; [|inv H; apply ginv_emit; auto; exact Logic.I].
    destruct (can_read (s_mir σ i)) eqn:C; inv H; [|apply ginv_emit; auto; exact Logic.I].
    assert (V : (s_unf σ <= i < s_n σ /\ s_data σ i = init i) \/ (last_published (s_log σ) i None = Some (s_data σ i) /\ vis (s_log σ) i false = true)).
    { destruct (Nat.lt_ge_cases i (s_unf σ)) as [U|U].
      - right. destruct (g_vis _ _ G i L C) as [?|V]; [lia|]. split; [|assumption]. apply (g_pub _ _ G).
        destruct (v_tags _ _ _ I i L) as [[_ M]|[[_ M]|[[_ M]|[(y & r & R)|Pe]]]]; auto; try lia.
        + rewrite M in C. discriminate.
        + destruct (v_role _ _ _ I _ _ _ R) as (_ & _ & M). rewrite M in *. destruct r; cbn in *; try discriminate; reflexivity.
        + destruct (v_pend _ _ _ I _ Pe) as (j & Ej & _ & _ & M & _). assert (j = i) by lia. subst j. rewrite M in C. discriminate.
      - left. split; [lia|]. apply (v_frozen _ _ _ I). lia. }
    apply ginv_cl with (o := o) (p := RHeld ((i, s_data σ i) :: got)) in G; [|reflexivity].
    destruct G as [G1 G2 G3 G4 G5 G6 G7].
    constructor; cbn [semit set_cl s_n s_unf s_tag s_mir s_data s_fl s_reg s_cl s_log] in *.
    + intros j H. rewrite pub_app. cbn. auto.
    + intros j H. rewrite live_app. cbn. auto.
    + intros x j H. rewrite live_app. cbn. eauto.
    + intros j Hj H. rewrite vis_app. cbn. auto.
    + intros p x j v H. apply nth_error_snoc in H. destruct H as [[A H]|[-> H]]; [rewrite firstn_snoc_old by assumption; eauto|].
      inv H. rewrite firstn_snoc_new. exact V.
    + intros p x j H. apply nth_error_snoc in H. destruct H as [[A H]|[_ H]]; [|discriminate]. rewrite firstn_snoc_old by assumption. eauto.
    + apply Forall_app. split; [assumption|]. constructor; [exact Logic.I|constructor].
  - destruct (step o ActDropGuard (s_reg σ)) as [r'|]; [|discriminate]. inv H. apply ginv_emit; [|reflexivity|exact Logic.I].
    apply ginv_cl; [now apply ginv_reg|reflexivity].
  - inv H. now apply ginv_cl.
  - (* CallWrite *) destruct (_ =? _); inv H.
    assert (R : rl (s_cl σ o) = Some (i, Own)) by now rewrite P. destruct (v_role _ _ _ I _ _ _ R) as (Hi & HT & HM).
    apply ginv_emit; [|reflexivity|]; [|cbn; eapply role_unf; eauto].
    gp (@nil sevent). intros j H. split; [assumption|]. rewrite upd_neq; [reflexivity|]. intros ->. rewrite HM in H. discriminate.
  - (* CallPublish *) inv H.
    assert (R : rl (s_cl σ o) = Some (i, Own)) by now rewrite P. destruct (v_role _ _ _ I _ _ _ R) as (Hi & HT & HM).
    destruct G as [G1 G2 G3 G4 G5 G6 G7].
    constructor; cbn [semit set_cl set_mir s_n s_unf s_tag s_mir s_data s_fl s_reg s_cl s_log].
    + intros j H. rewrite pub_app. cbn. destruct (Nat.eqb_spec i j) as [->|N]; [reflexivity|]. rewrite upd_neq in H by congruence. auto.
    + intros j H. rewrite live_app. cbn. auto.
    + intros x j H. rewrite live_app. cbn. ups; [discriminate|eauto].
    + intros j Hj H. rewrite vis_app. cbn. destruct (Nat.eqb_spec i j) as [->|N]; [auto|]. rewrite upd_neq in H by congruence. auto.
    + intros p x j v H. apply nth_error_snoc in H. destruct H as [[A H]|[_ H]]; [|discriminate]. rewrite firstn_snoc_old by assumption. eauto.
    + intros p x j H. apply nth_error_snoc in H. destruct H as [[A H]|[_ H]]; [|discriminate]. rewrite firstn_snoc_old by assumption. eauto.
    + apply Forall_app. split; [assumption|]. constructor; [|constructor]. cbn. eapply role_unf; eauto.
  - inv H. apply ginv_mir; auto.
  - destruct (negb _); [inv H; apply ginv_emit; auto; exact Logic.I|].
    destruct (is_reserved (s_tag σ i)); inv H; [apply ginv_emit; auto; exact Logic.I|now apply ginv_cl].
  - inv H. now apply ginv_cl.
Qed.
Definition sameN (σ σ' : store) : Prop := s_n σ' = s_n σ /\ s_unf σ' = s_unf σ.
Lemma sconst_attempt σ o k : sameN σ (attempt_end σ o k).
Proof. unfold attempt_end. destruct k; split; reflexivity. Qed.
Lemma sconst_try σ o b : sameN σ (try_failed σ o b).
Proof. unfold try_failed. destruct b; [apply sconst_attempt|split; reflexivity]. Qed.
Lemma sconst_drain σ o b r : sameN σ (drain_end σ o b r).
Proof. unfold drain_end. destruct b; [apply sconst_attempt|split; reflexivity]. Qed.
Lemma sstep_go o σ : sstep o Go σ = go o σ.
Proof. unfold sstep. destruct (s_cl σ o); reflexivity. Qed.
(** All cases of a step [S : sstep x c σ = Some σ']. *)
Ltac scases S := match type of S with sstep ?x ?c ?s = Some _ =>
  destruct c; [unfold sstep in S..|rewrite sstep_go in S; unfold go in S]; unfold rstep in S;
  destruct (s_cl s x) eqn:?; try discriminate S;
  repeat match type of S with
    | context [step ?o ?a ?r] => destruct (step o a r) eqn:?
    | context [match ?y with _ => _ end] => destruct y eqn:?
    | Some _ = Some _ => injection S as <-
    | None = Some _ => discriminate S
    end end.
Lemma sconst_step ng init σ o c σ' : SInv ng init σ -> sstep o c σ = Some σ' -> s_n σ' = s_n σ /\ s_unf σ' = s_unf σ.
Proof.
  intros _ S. scases S; match goal with
  | |- context [try_failed] => apply (sconst_try σ)
  | |- context [drain_end (set_reg ?s ?r)] => apply (sconst_drain (set_reg s r))
  | |- _ => split; reflexivity end.
Qed.
Lemma srun_inv ng init sched : forall σ σ', SInv ng init σ -> GInv init σ -> srun sched σ = Some σ' ->
  SInv ng init σ' /\ GInv init σ' /\ s_n σ' = s_n σ /\ s_unf σ' = s_unf σ.
Proof.
  induction sched as [|[o c] sched IH]; intros σ σ' I G H; cbn [srun] in H; [inv H; auto|].
  destruct (sstep o c σ) as [σ1|] eqn:S; [|discriminate].
  destruct (IH σ1 σ') as (A & B & C & D); auto; [eapply sinv_step; eauto|eapply ginv_step; eauto|].
  destruct (sconst_step ng init σ o c σ1 I S) as (E & F). split; [exact A|]; split; [exact B|]; split; congruence.
Qed.
Lemma new_oob entries bp guards cap ncols rows σ i : store_new entries bp guards cap ncols rows = Some σ -> entries + length rows <= i ->
  s_tag σ i = AVAILABLE /\ s_mir σ i = AVAILABLE.
Proof.
  intros H L. unfold store_new in H. repeat match type of H with context [if ?x then _ else _] => destruct x; [discriminate|] end.
  injection H as <-.
  match goal with |- context [freeze_rows entries rows ?s] => destruct (freeze_frame rows entries s) as (_ & _ & _ & _ & _ & _ & A) end.
  destruct (A i) as (_ & B). destruct B as (B1 & B2); [lia|]. now rewrite B1, B2.
Qed.
Lemma reach_inv entries bp guards cap ncols rows σ : sreachable entries bp guards cap ncols rows σ ->
  SInv guards (initial entries rows) σ /\ GInv (initial entries rows) σ /\ s_n σ = entries + length rows /\ s_unf σ = entries.
Proof.
  intros (σ0 & sched & N & HG & HC & R). destruct (new_inv _ _ _ _ _ _ _ HG N) as (I & E1 & E2 & E3 & E4 & E5 & E6 & E7).
  assert (G : GInv (initial entries rows) σ0).
  { constructor; rewrite ?E3.
    - intros i H. exfalso. destruct (Nat.lt_ge_cases i (s_n σ0)) as [L|L].
      + destruct (v_tags _ _ _ I i L) as [[_ M]|[[T _]|[[_ U]|[(y & r & A)|A]]]].
        * rewrite M in H; discriminate.
        * destruct (Nat.lt_ge_cases i entries) as [Q|Q]; [rewrite E7 in T by assumption; discriminate|].
          destruct (v_frozen _ _ _ I i) as (F & _); [lia|]. rewrite F in T. discriminate.
        * destruct (v_frozen _ _ _ I i) as (_ & F & _); [lia|]. rewrite F in H. discriminate.
        * rewrite E4 in A. discriminate.
        * rewrite E6 in A. destruct A.
      + destruct (new_oob _ _ _ _ _ _ _ i N) as (_ & M); [lia|]. rewrite M in H. discriminate.
    - intros i H. exfalso. destruct (Nat.lt_ge_cases i (s_n σ0)) as [L|L].
      + destruct (Nat.lt_ge_cases i entries) as [Q|Q]; [rewrite E7 in H by assumption; discriminate|].
        destruct (v_frozen _ _ _ I i) as (F & _); [lia|]. rewrite F in H. discriminate.
      + destruct (new_oob _ _ _ _ _ _ _ i N) as (M & _); [lia|]. rewrite M in H. discriminate.
    - intros o i H. rewrite E4 in H. discriminate.
    - intros i L H. left. destruct (Nat.lt_ge_cases i (s_unf σ0)) as [Q|Q]; [|assumption]. exfalso.
      destruct (v_tags _ _ _ I i L) as [[_ M]|[[T M]|[[_ U]|[(y & r & A)|A]]]]; try lia.
      + rewrite M in H. discriminate.
      + rewrite E7 in T by lia. discriminate.
      + rewrite E4 in A. discriminate.
      + rewrite E6 in A. destruct A.
    - intros p o i v H. destruct p; discriminate.
    - intros p o i H. destruct p; discriminate.
    - constructor. }
  destruct (srun_inv guards (initial entries rows) sched σ0 σ I G R) as (A & B & C & D). split; [exact A|]; split; [exact B|]; split; congruence.
Qed.
