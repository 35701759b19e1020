(** Invariants used by the statements about [acquire]. *)
From Verif.Lib Require Import Base Lists.
From Verif.Epoch Require Import Model Spec Proofs.
From Verif.Store Require Import Model Spec Proofs ProofsLog ProofsMain.

(** ** What the helpers of [go] leave alone *)
Lemma attempt_frame σ o k : s_n (attempt_end σ o k) = s_n σ /\ s_unf (attempt_end σ o k) = s_unf σ /\ s_tag (attempt_end σ o k) = s_tag σ /\
  s_mir (attempt_end σ o k) = s_mir σ /\ s_data (attempt_end σ o k) = s_data σ /\ s_fl (attempt_end σ o k) = s_fl σ /\ s_reg (attempt_end σ o k) = s_reg σ.
Proof. destruct k; repeat split; reflexivity. Qed.
Lemma try_frame σ o b : s_n (try_failed σ o b) = s_n σ /\ s_unf (try_failed σ o b) = s_unf σ /\ s_tag (try_failed σ o b) = s_tag σ /\
  s_mir (try_failed σ o b) = s_mir σ /\ s_data (try_failed σ o b) = s_data σ /\ s_fl (try_failed σ o b) = s_fl σ /\ s_reg (try_failed σ o b) = s_reg σ.
Proof. destruct b; [apply attempt_frame|repeat split; reflexivity]. Qed.
Lemma drain_frame σ o b r : s_n (drain_end σ o b r) = s_n σ /\ s_unf (drain_end σ o b r) = s_unf σ /\ s_tag (drain_end σ o b r) = s_tag σ /\
  s_mir (drain_end σ o b r) = s_mir σ /\ s_data (drain_end σ o b r) = s_data σ /\ s_fl (drain_end σ o b r) = s_fl σ /\ s_reg (drain_end σ o b r) = s_reg σ.
Proof. destruct b; [apply attempt_frame|repeat split; reflexivity]. Qed.
Lemma try_cl σ o b : s_cl (try_failed σ o b) o = CIdle \/ (exists k, s_cl (try_failed σ o b) o = APop k) \/
  exists k rem, b = BScan k rem /\ s_cl (try_failed σ o b) o = AScan k rem 0.
Proof. destruct b as [[|k]|k rem]; cbn; rewrite upd_eq; eauto 6. Qed.
Lemma drain_cl σ o b r : s_cl (drain_end σ o b r) o = CIdle \/ (exists k, s_cl (drain_end σ o b r) o = APop k).
Proof. destruct b as [[|k]|]; cbn; rewrite upd_eq; eauto. Qed.
Lemma try_live σ o b i : live (s_log (try_failed σ o b)) i false = live (s_log σ) i false.
Proof. destruct b as [[|k]|k rem]; cbn; rewrite ?live_app; reflexivity. Qed.
Lemma drain_live σ o b r i : live (s_log (drain_end σ o b r)) i false = live (s_log σ) i false.
Proof. destruct b as [[|k]|]; cbn; rewrite ?live_app; reflexivity. Qed.

(** ** A publication is visible in the tag until somebody wins the race to retire it *)
Definition JInv (σ : store) : Prop := forall i, live (s_log σ) i false = true -> s_tag σ i = PUBLISHED \/ exists o, lv (s_cl σ o) = Some i.
Lemma jinv_frame σ σ' o c : JInv σ -> sstep o c σ = Some σ' ->
  (forall i, live (s_log σ') i false = live (s_log σ) i false) -> (forall i, s_tag σ i = PUBLISHED -> s_tag σ' i = PUBLISHED) ->
  (forall i, lv (s_cl σ o) = Some i -> lv (s_cl σ' o) = Some i) -> JInv σ'.
Proof.
  intros J S L T C i H. rewrite L in H. destruct (J i H) as [A|(x & A)]; [auto|]. right. destruct (Nat.eq_dec x o) as [->|N].
  - exists o. auto.
  - exists x. now rewrite (cl_others _ _ _ _ _ S N).
Qed.
Lemma jinv_step ng init σ o c σ' : SInv ng init σ -> JInv σ -> sstep o c σ = Some σ' -> JInv σ'.
Proof.
  intros I J S0. pose proof S0 as S.
  assert (RT : forall i r, rl (s_cl σ o) = Some (i, r) -> s_tag σ i <> PUBLISHED).
  { intros i r R. destruct (v_role _ _ _ I _ _ _ R) as (_ & T & _). rewrite T. destruct r; discriminate. }
  assert (TT : forall i t j, s_tag σ i <> PUBLISHED -> s_tag σ j = PUBLISHED -> upd (s_tag σ) i t j = PUBLISHED).
  { intros i t j H1 H2. ups; congruence. }
  scases S;
    try (eapply (jinv_frame σ _ o _ J S0);
      [ intros zz; rewrite ?try_live, ?drain_live; cbn [set_cl set_tag set_mir set_data set_fl set_reg semit panic s_log]; rewrite ?live_app; reflexivity
      | intros zz H0; rewrite ?(proj1 (proj2 (proj2 (try_frame _ _ _)))), ?(proj1 (proj2 (proj2 (drain_frame _ _ _ _))));
        cbn [set_cl set_tag set_mir set_data set_fl set_reg semit panic s_tag];
        first [assumption|apply TT; [|assumption]; first [congruence|rewrite (proj1 (N.eqb_eq _ _) ltac:(eassumption)); discriminate|eapply RT; reflexivity]]
      | intros zz H0; rewrite Heqp in H0; cbn [lv] in H0;
        first [discriminate H0|cbn [set_cl set_tag set_mir set_data set_fl set_reg semit panic s_cl]; rewrite upd_eq; exact H0] ]; fail).
  (* WPub, TCas, TRel *)
  - intros j H. cbn [set_cl set_tag semit s_log s_tag s_cl] in *. rewrite live_app in H. cbn [live] in H.
    destruct (Nat.eqb_spec i j) as [->|N]; [left; apply upd_eq|]. rewrite upd_neq by congruence.
    destruct (J j H) as [A|(x & A)]; [auto|]. right. exists x. destruct (Nat.eq_dec x o) as [->|Nx]; [rewrite Heqp in A; discriminate|]. now rewrite upd_neq.
  - intros j H. cbn [set_cl set_tag semit s_log s_tag s_cl] in *. destruct (J j H) as [A|(x & A)].
    + destruct (Nat.eq_dec j i) as [->|N]; [right; exists o; rewrite upd_eq; reflexivity|left; now rewrite upd_neq].
    + right. exists x. destruct (Nat.eq_dec x o) as [->|Nx]; [rewrite Heqp in A; discriminate|]. now rewrite upd_neq.
  - intros j H. cbn [set_cl set_reg semit s_log s_tag s_cl] in *. rewrite live_app in H. cbn [live] in H.
    destruct (Nat.eqb_spec i j) as [->|N]; [discriminate|]. destruct (J j H) as [A|(x & A)]; [auto|]. right. exists x.
    destruct (Nat.eq_dec x o) as [->|Nx]; [rewrite Heqp in A; cbn in A; congruence|]. now rewrite upd_neq.
Qed.

(** ** Slots that were never handed out *)
Definition mpc (next max : nat) (p : pc) : Prop :=
  match p with
  | ATry b i | ATryCas b i => i < next /\ match b with BScan _ _ => max <= next | _ => True end
  | DPush _ _ i => i < next
  | AMintCas _ nx => nx <= next /\ nx < max
  | AScan _ _ _ | AScanAt _ _ _ _ _ _ | AScanTry _ _ _ _ _ | AScanCas _ _ _ _ _ | AScanPush _ _ _ _ _ _ | AScanPop _ _ => max <= next
  | _ => True
  end.
Record MInv (σ : store) : Prop := {
  m_cap : 0 < fl_cap (s_fl σ);
  m_rec : Forall (fun i => i < fl_next (s_fl σ)) (fl_rec (s_fl σ));
  m_max : Forall (fun i => i < fl_max (s_fl σ)) (fl_rec (s_fl σ));
  m_un : forall i, fl_next (s_fl σ) <= i < s_unf σ -> s_tag σ i = AVAILABLE;
  m_pc : forall o, mpc (fl_next (s_fl σ)) (fl_max (s_fl σ)) (s_cl σ o)
}.
Lemma mpc_more n n' m p : n <= n' -> mpc n m p -> mpc n' m p.
Proof. intros L. destruct p; cbn; try (destruct b); intuition lia. Qed.
Lemma minv_frame σ σ' o c : MInv σ -> sstep o c σ = Some σ' -> s_unf σ' = s_unf σ ->
  fl_cap (s_fl σ') = fl_cap (s_fl σ) -> fl_max (s_fl σ') = fl_max (s_fl σ) -> fl_next (s_fl σ) <= fl_next (s_fl σ') ->
  (forall x, In x (fl_rec (s_fl σ')) -> In x (fl_rec (s_fl σ)) \/ (x < fl_next (s_fl σ) /\ x < fl_max (s_fl σ))) ->
  (forall i, fl_next (s_fl σ) <= i < s_unf σ -> s_tag σ i = AVAILABLE -> s_tag σ' i = AVAILABLE) ->
  mpc (fl_next (s_fl σ')) (fl_max (s_fl σ')) (s_cl σ' o) -> MInv σ'.
Proof.
  intros [M0 M1 M2 M3 M4] S EU EC EM EN R T P. rewrite Forall_forall in *.
  constructor; rewrite ?EU, ?EC, ?EM; auto.
  - apply Forall_forall. intros x Hx. destruct (R x Hx) as [A|A]; [specialize (M1 x A)|]; lia.
  - apply Forall_forall. intros x Hx. destruct (R x Hx) as [A|A]; [specialize (M2 x A)|]; lia.
  - intros i Hi. apply T; [lia|]. apply M3. lia.
  - intros x. destruct (Nat.eq_dec x o) as [->|N]; [now rewrite <- EM|]. rewrite (cl_others _ _ _ _ _ S N). eapply mpc_more; eauto.
Qed.
Lemma fl_push_frame f i : fl_cap (fl_push f i) = fl_cap f /\ fl_max (fl_push f i) = fl_max f /\ fl_next (fl_push f i) = fl_next f /\
  forall x, In x (fl_rec (fl_push f i)) -> In x (fl_rec f) \/ (x = i /\ i < fl_max f).
Proof.
  unfold fl_push. destruct (Nat.ltb_spec i (fl_max f)); cbn [andb]; [|auto].
  destruct (_ <? _); cbn; [|auto]. repeat split; auto. intros x Hx. apply in_app_or in Hx. destruct Hx as [Hx|[<-|[]]]; auto.
Qed.
Lemma fl_pop_frame f f' i : fl_pop f = (f', Some i) -> fl_cap f' = fl_cap f /\ fl_max f' = fl_max f /\ fl_next f' = fl_next f /\ fl_rec f = i :: fl_rec f' /\ fl_scan f' = fl_scan f.
Proof. unfold fl_pop. destruct (fl_rec f) as [|j l] eqn:E; intros H; inv H. auto. Qed.
Lemma fl_scan_frame f f' c : fl_scan_chunk f = (f', c) -> fl_cap f' = fl_cap f /\ fl_max f' = fl_max f /\ fl_next f' = fl_next f /\ fl_rec f' = fl_rec f.
Proof. unfold fl_scan_chunk. destruct (_ =? 0); intros H; injection H as <- <-; auto. Qed.
Lemma minv_step ng init σ o c σ' : SInv ng init σ -> MInv σ -> sstep o c σ = Some σ' -> MInv σ'.
Proof.
  intros I M S0. pose proof S0 as S. pose proof (m_pc _ M o) as P. pose proof (v_fl _ _ _ I) as FM.
  destruct (sconst_step _ _ _ _ _ _ I S0) as (_ & EU).
  assert (TT : forall i t j, (s_unf σ <= i \/ s_tag σ i <> AVAILABLE \/ i < fl_next (s_fl σ)) -> fl_next (s_fl σ) <= j < s_unf σ -> s_tag σ j = AVAILABLE ->
     upd (s_tag σ) i t j = AVAILABLE).
  { intros i t j H1 H2 H3. ups; [|assumption]. exfalso. destruct H1 as [?|[?|?]]; [lia|congruence|lia]. }
  assert (RT : forall i r, rl (s_cl σ o) = Some (i, r) -> s_tag σ i <> AVAILABLE /\ i < fl_next (s_fl σ)).
  { intros i r R. destruct (v_role _ _ _ I _ _ _ R) as (_ & T & _).
    assert (A : s_tag σ i <> AVAILABLE) by (rewrite T; destruct r; discriminate). split; [assumption|].
    pose proof (role_unf _ _ _ _ _ _ I R). destruct (Nat.lt_ge_cases i (fl_next (s_fl σ))) as [?|L]; [assumption|]. exfalso. apply A. apply (m_un _ M). lia. }
  assert (SAME : forall p, s_cl σ' = upd (s_cl σ) o p -> s_fl σ' = s_fl σ -> s_tag σ' = s_tag σ -> mpc (fl_next (s_fl σ)) (fl_max (s_fl σ)) p -> MInv σ').
  { intros p E1 E2 E3 E4. eapply (minv_frame _ _ _ _ M S0); rewrite ?E2, ?E3, ?E1, ?upd_eq; auto. }
  assert (TRY : forall s b, s_fl s = s_fl σ -> s_tag s = s_tag σ -> σ' = try_failed s o b -> (forall k rem, b = BScan k rem -> fl_max (s_fl σ) <= fl_next (s_fl σ)) -> MInv σ').
  { intros s b E1 E2 -> B. destruct (try_frame s o b) as (_ & _ & F1 & _ & _ & F2 & _).
    eapply (minv_frame _ _ _ _ M S0); rewrite ?F1, ?F2, ?E1, ?E2; auto.
    destruct (try_cl s o b) as [->|[(k & ->)|(k & rem & Eb & ->)]]; cbn; auto. eauto. }
  assert (DRN : forall s b r, s_fl s = s_fl σ -> s_tag s = s_tag σ -> σ' = drain_end s o b r -> MInv σ').
  { intros s b r E1 E2 ->. destruct (drain_frame s o b r) as (_ & _ & F1 & _ & _ & F2 & _).
    eapply (minv_frame _ _ _ _ M S0); rewrite ?F1, ?F2, ?E1, ?E2; auto.
    destruct (drain_cl s o b r) as [->|(k & ->)]; exact Logic.I. }
  assert (SAME2 : s_cl σ' = s_cl σ -> s_fl σ' = s_fl σ -> s_tag σ' = s_tag σ -> MInv σ').
  { intros E1 E2 E3. eapply (minv_frame _ _ _ _ M S0); rewrite ?E2, ?E3, ?E1; auto. }
  scases S; rewrite ?Heqp in P; cbn [mpc] in P;
    match goal with
    | |- MInv (try_failed ?s _ _) => refine (TRY s _ eq_refl eq_refl eq_refl _); let E := fresh in (intros ? ? E; subst; lia)
    | |- MInv (drain_end ?s _ _ _) => apply (DRN s _ _ eq_refl eq_refl eq_refl)
    | |- MInv (set_cl (set_fl _ _) _ _) => idtac
    | |- MInv (set_cl (set_tag _ _ _) _ _) => idtac
    | |- MInv (semit (set_cl (set_tag _ _ _) _ _) _) => idtac
    | |- _ => first [apply (SAME2 eq_refl eq_refl eq_refl)|eapply SAME; [reflexivity..|cbn [mpc]; auto; try lia]]
    end.
  all: eapply (minv_frame _ _ _ _ M S0); cbn [set_cl set_tag set_mir set_data set_fl set_reg semit panic s_tag s_fl s_cl s_unf]; rewrite ?upd_eq; auto; try exact Logic.I.
  all: try (apply fl_pop_frame in Heqp0; destruct Heqp0 as (Q1 & Q2 & Q3 & Q4 & _)).
  all: try (apply fl_scan_frame in Heqp0; destruct Heqp0 as (Q1 & Q2 & Q3 & Q4)).
  all: try (destruct (fl_push_frame (s_fl σ) i) as (Q1 & Q2 & Q3 & Q4)).
  all: try congruence.
  all: try lia.
  - intros x Hx. left. rewrite Q4. now right.
  - rewrite Q2, Q3. cbn. pose proof (m_rec _ M) as F. rewrite Q4 in F. inversion F; subst. auto.
  - cbn. lia.
  - apply Nat.eqb_eq in Heqb. cbn. split; [lia|exact Logic.I].
  - intros j Hj Ej. apply TT; auto. right; right; tauto.
  - intros x Hx. left. now rewrite <- Q4.
  - rewrite Q2, Q3. exact P.
  - intros x Hx. apply Q4 in Hx. destruct Hx as [Hx|[-> Hx]]; [auto|]. right. split; [|assumption]. lia.
  - rewrite Q2, Q3. exact P.
  - intros x Hx. left. rewrite Q4. now right.
  - rewrite Q2, Q3. cbn. pose proof (m_rec _ M) as F. rewrite Q4 in F. inversion F; subst. auto.
  - intros j Hj Ej. apply TT; auto. right; right. apply (RT i Dr2). reflexivity.
  - cbn. apply (RT i Dr2). reflexivity.
  - intros x Hx. apply Q4 in Hx. destruct Hx as [Hx|[-> Hx]]; auto.
  - intros j Hj Ej. apply TT; auto. right; right. apply (RT i OwnPub). reflexivity.
  - intros j Hj Ej. apply TT; auto. right; right. apply (RT i Own). reflexivity.
  - intros j Hj Ej. apply TT; auto. right; left. pose proof (v_pc _ _ _ I o) as W. rewrite Heqp in W. destruct W as [W1 W2].
    apply N.eqb_eq in Heqb. intros E. rewrite Heqb in E. rewrite E in W2. discriminate.
Qed.
Lemma new_minv entries bp guards cap ncols rows σ : 0 < guards -> 0 < cap -> store_new entries bp guards cap ncols rows = Some σ -> MInv σ /\ JInv σ.
Proof.
  intros HG HC N. destruct (new_inv _ _ _ _ _ _ _ HG N) as (I & E1 & E2 & E3 & E4 & E5 & E6 & E7). split.
  - constructor; rewrite ?E5, ?E2; cbn; auto.
    + intros i Hi. apply E7. lia.
    + intros o. rewrite E4. exact Logic.I.
  - intros i H. rewrite E3 in H. discriminate.
Qed.
Lemma reach_minv entries bp guards cap ncols rows σ : sreachable entries bp guards cap ncols rows σ -> MInv σ /\ JInv σ.
Proof.
  intros (σ0 & sched & N & HG & HC & R). destruct (new_inv _ _ _ _ _ _ _ HG N) as (I & _). destruct (new_minv _ _ _ _ _ _ _ HG HC N) as (M & J).
  clear N. revert σ0 I M J R. induction sched as [|[x c] sched IH]; intros σ0 I M J R; cbn [srun] in R; [inv R; auto|].
  destruct (sstep x c σ0) as [σ1|] eqn:S1; [|discriminate].
  apply (IH σ1); auto; [eapply sinv_step; eauto|eapply minv_step; eauto|eapply jinv_step; eauto].
Qed.
