From Verif.Lib Require Import Base Lists.
From Verif.IdMap Require Import Model Spec.

(** Which locks a client holds. *)
Definition hf (sh : nat -> nat) (p : ipc) : option nat :=
  match p with IBwd e _ | ISet e _ | OBwd e _ | OHeld e _ => Some (sh e) | _ => None end.
Definition hb (p : ipc) : option nat :=
  match p with ISet _ i | OHeld _ i | ODel _ i => Some (bshard i) | IUnl s => Some s | _ => None end.
Definition pok (m : idmap) (p : ipc) : Prop :=
  match p with
  | IFwd _ i => i < m_cap m
  | IBwd e i => m_fwd m e = None /\ i < m_cap m
  | ISet e i => m_fwd m e = None /\ m_bwd m i = Some e /\ i < m_cap m /\ forall e', m_fwd m e' <> Some i
  | OBwd e i | OHeld e i => m_fwd m e = Some i
  | ODel e i => (forall e', m_fwd m e' <> Some i) /\ m_bwd m i <> None
  | _ => True
  end.
Definition inflight (m : idmap) (i : nat) : Prop :=
  exists c, match m_cl m c with ISet _ j | ODel _ j => j = i | _ => False end.

Record IInv (sh : nat -> nat) (m : idmap) : Prop := {
  i_map : m_fwd m = mapping (m_log m);
  i_fb : forall e i, m_fwd m e = Some i -> m_bwd m i = Some e /\ i < m_cap m;
  i_bf : forall i e, m_bwd m i = Some e -> m_fwd m e = Some i \/ inflight m i;
  i_fl : forall s c, m_fl m s = Some c <-> hf sh (m_cl m c) = Some s;
  i_bl : forall s c, m_bl m s = Some c <-> hb (m_cl m c) = Some s;
  i_pc : forall c, pok m (m_cl m c);
  i_log : forall p ev, nth_error (m_log m) p = Some ev -> answer_ok (m_cap m) (mapping (firstn p (m_log m))) ev
}.
Lemma i_inj sh m : IInv sh m -> injective (m_fwd m).
Proof. intros I e e' i A B. apply (i_fb _ _ I) in A, B. destruct A, B. congruence. Qed.
Lemma mapping_snoc l ev : mapping (l ++ [ev]) = apply (mapping l) ev.
Proof. unfold mapping. now rewrite fold_left_app. Qed.
Lemma log_snoc cap l ev : (forall p x, nth_error l p = Some x -> answer_ok cap (mapping (firstn p l)) x) -> answer_ok cap (mapping l) ev ->
  forall p x, nth_error (l ++ [ev]) p = Some x -> answer_ok cap (mapping (firstn p (l ++ [ev]))) x.
Proof.
  intros A B p x H. destruct (Nat.lt_ge_cases p (length l)) as [L|L].
  - rewrite nth_error_app1 in H by assumption. rewrite firstn_app. replace (p - length l) with 0 by lia. cbn. rewrite app_nil_r. auto.
  - rewrite nth_error_app2 in H by assumption. destruct (p - length l) as [|k] eqn:E; cbn in H; [|destruct k; discriminate]. inv H.
    assert (p = length l) by lia. subst p. rewrite firstn_app, Nat.sub_diag, firstn_all. cbn. now rewrite app_nil_r.
Qed.
Lemma iinv_new sh cap : IInv sh (im_new cap).
Proof. constructor; cbn; intros; try discriminate; auto; try (split; discriminate). destruct p; discriminate. Qed.
Ltac ups :=
  repeat match goal with
  | |- context [upd ?f ?k ?v ?x] => destruct (upd_cases f k v x) as [(? & ->)|(? & ->)]; [try subst x|]
  end.
Section Locks.
Context (h : ipc -> option nat) (fl : nat -> option nat) (cl : nat -> ipc) (H : forall s c, fl s = Some c <-> h (cl c) = Some s).
Lemma lock_same c p : h p = h (cl c) -> forall s x, fl s = Some x <-> h (upd cl c p x) = Some s.
Proof. intros E s x. ups; [rewrite E|]; apply H. Qed.
Lemma lock_take c p s0 : fl s0 = None -> h p = Some s0 -> h (cl c) = None -> forall s x, upd fl s0 (Some c) s = Some x <-> h (upd cl c p x) = Some s.
Proof.
  intros F P Q s x. destruct (Nat.eq_dec x c) as [->|Nx], (Nat.eq_dec s s0) as [->|Ns]; rewrite ?upd_eq, ?upd_neq by assumption.
  - rewrite P. tauto.
  - rewrite P. split; intros A; [apply H in A; congruence|congruence].
  - split; intros A; [congruence|apply H in A; congruence].
  - apply H.
Qed.
Lemma lock_drop c p s0 : h (cl c) = Some s0 -> h p = None -> forall s x, upd fl s0 None s = Some x <-> h (upd cl c p x) = Some s.
Proof.
  intros Q P s x. pose proof (proj2 (H s0 c) Q) as F. destruct (Nat.eq_dec x c) as [->|Nx], (Nat.eq_dec s s0) as [->|Ns]; rewrite ?upd_eq, ?upd_neq by assumption.
  - rewrite P. split; discriminate.
  - rewrite P. split; intros A; [apply H in A; congruence|discriminate].
  - split; intros A; [discriminate|apply H in A; congruence].
  - apply H.
Qed.
Lemma lock_excl c c' s : h (cl c) = Some s -> h (cl c') = Some s -> c = c'.
Proof. intros A B. apply H in A, B. congruence. Qed.
End Locks.
Lemma istep_log_plain m ev : match ev with EInserted _ _ _ | EDeleted _ _ _ => False | _ => True end -> mapping (m_log m ++ [ev]) = mapping (m_log m).
Proof. rewrite mapping_snoc. destruct ev; cbn; tauto. Qed.
Lemma iinv_step sh m c a m' : IInv sh m -> istep sh c a m = Some m' -> IInv sh m'.
Proof.
  intros I H0. pose proof (i_inj _ _ I) as INJ. destruct I as [Imap Ifb Ibf Ifl Ibl Ipc Ilog]. pose proof H0 as H. unfold istep in H.
  pose proof (Ipc c) as Pc.
  assert (EXF : forall x, hf sh (m_cl m x) = hf sh (m_cl m c) -> hf sh (m_cl m c) <> None -> x = c).
  { intros x E N. destruct (hf sh (m_cl m c)) as [s|] eqn:F; [|congruence]. eapply (lock_excl _ _ _ Ifl); eauto. }
  assert (EXB : forall x, hb (m_cl m x) = hb (m_cl m c) -> hb (m_cl m c) <> None -> x = c).
  { intros x E N. destruct (hb (m_cl m c)) as [s|] eqn:F; [|congruence]. eapply (lock_excl _ _ _ Ibl); eauto. }
  assert (IFL : forall p i, inflight m i -> (match m_cl m c with ISet _ _ | ODel _ _ => False | _ => True end) ->
     exists x, match upd (m_cl m) c p x with ISet _ j | ODel _ j => j = i | _ => False end).
  { intros p i (x & A) N. exists x. ups; [|assumption]. destruct (m_cl m c); tauto. }
  destruct (m_cl m c) as [|e i|e i|e i|s|e|e i|e i|e i|] eqn:E, a; try discriminate H.
  - (* insert *) destruct (Nat.leb_spec (m_cap m) i); inv H.
    + constructor; cbn [im_emit m_cap m_fwd m_bwd m_fl m_bl m_cl m_log]; auto.
      * now rewrite istep_log_plain.
      * apply log_snoc; [assumption|]. cbn. lia.
    + constructor; cbn [im_cl m_cap m_fwd m_bwd m_fl m_bl m_cl m_log]; auto.
      * intros j x B. destruct (Ibf j x B) as [?|F]; [auto|right; apply (IFL _ _ F); exact Logic.I].
      * apply (lock_same (hf sh)); [assumption|now rewrite E].
      * apply (lock_same hb); [assumption|now rewrite E].
      * intros x. ups; [cbn; lia|apply Ipc].
  - inv H. constructor; cbn [im_cl m_cap m_fwd m_bwd m_fl m_bl m_cl m_log]; auto.
    + intros j x B. destruct (Ibf j x B) as [?|F]; [auto|right; apply (IFL _ _ F); exact Logic.I].
    + apply (lock_same (hf sh)); [assumption|now rewrite E].
    + apply (lock_same hb); [assumption|now rewrite E].
    + intros x. ups; [exact Logic.I|apply Ipc].
  - (* IFwd *) destruct (m_fl m (sh e)) as [?|] eqn:F; [discriminate|]. destruct (m_fwd m e) as [j|] eqn:G; inv H.
    + constructor; cbn [im_emit im_cl m_cap m_fwd m_bwd m_fl m_bl m_cl m_log]; auto.
      * now rewrite istep_log_plain.
      * intros k x B. destruct (Ibf k x B) as [?|D]; [auto|right; apply (IFL _ _ D); exact Logic.I].
      * apply (lock_same (hf sh)); [assumption|now rewrite E].
      * apply (lock_same hb); [assumption|now rewrite E].
      * intros x. ups; [exact Logic.I|apply Ipc].
      * apply log_snoc; [assumption|]. cbn. rewrite <- Imap, G. cbn in Pc. split; [assumption|discriminate].
    + constructor; cbn [im_emit im_cl im_fl m_cap m_fwd m_bwd m_fl m_bl m_cl m_log]; auto.
      * intros k x B. destruct (Ibf k x B) as [?|D]; [auto|right; apply (IFL _ _ D); exact Logic.I].
      * apply (lock_take (hf sh)); auto. now rewrite E.
      * apply (lock_same hb); [assumption|now rewrite E].
      * intros x. ups; [cbn in *; auto|apply Ipc].
  - (* IBwd *) cbn in Pc. destruct Pc as (P1 & P2). destruct (m_bl m (bshard i)) as [?|] eqn:F; [discriminate|].
    assert (NI : forall x, match m_cl m x with ISet _ j | ODel _ j => j <> i | _ => True end).
    { intros x. destruct (m_cl m x) eqn:X; try exact Logic.I; intros ->; (assert (A : m_bl m (bshard i) = Some x) by (apply Ibl; rewrite X; reflexivity); congruence). }
    destruct (m_bwd m i) as [e'|] eqn:G; inv H.
    + constructor; cbn [im_emit im_cl im_fl m_cap m_fwd m_bwd m_fl m_bl m_cl m_log]; auto.
      * now rewrite istep_log_plain.
      * intros k x B. destruct (Ibf k x B) as [?|D]; [auto|right; apply (IFL _ _ D); exact Logic.I].
      * apply (lock_drop (hf sh)); [assumption|now rewrite E|reflexivity].
      * apply (lock_same hb); [assumption|now rewrite E].
      * intros x. ups; [exact Logic.I|apply Ipc].
      * apply log_snoc; [assumption|]. cbn. rewrite <- Imap. split; [assumption|]. split; [assumption|]. exists e'.
        destruct (Ibf i e' G) as [?|(x & A)]; [assumption|]. exfalso. specialize (NI x). destruct (m_cl m x); congruence.
    + assert (NF : forall e', m_fwd m e' <> Some i) by (intros e' A; apply Ifb in A; destruct A; congruence).
      constructor; cbn [im_emit im_cl im_bwd im_bl m_cap m_fwd m_bwd m_fl m_bl m_cl m_log]; auto.
      * intros e' j A. destruct (Ifb _ _ A) as (B & ?). split; [|assumption]. ups; [congruence|assumption].
      * intros k x B. destruct (upd_cases (m_bwd m) i (Some e) k) as [(-> & Q)|(Nk & Q)]; rewrite Q in B.
        -- right. exists c. cbn [im_emit im_cl m_cl]. now rewrite upd_eq.
        -- destruct (Ibf k x B) as [?|D]; [auto|right; apply (IFL _ _ D); exact Logic.I].
      * apply (lock_same (hf sh)); [assumption|now rewrite E].
      * apply (lock_take hb); auto. now rewrite E.
      * intros x. ups; [split; [assumption|split; [apply upd_eq|auto]]|]. specialize (Ipc x). specialize (NI x).
        destruct (m_cl m x); cbn [pok im_emit im_cl im_fwd im_bwd im_fl im_bl m_fwd m_bwd m_cap] in *; auto; rewrite upd_neq by auto; auto.
  - (* ISet *) inv H. cbn in Pc. destruct Pc as (P1 & P2 & P3 & P4).
    assert (NF : forall x, x <> c -> match m_cl m x with IBwd e' _ | ISet e' _ | OBwd e' _ | OHeld e' _ => e' <> e | _ => True end).
    { intros x N. destruct (m_cl m x) eqn:X; try exact Logic.I; intros ->; apply N, EXF; [rewrite X; reflexivity|discriminate| | | | | |]; try (rewrite X; reflexivity); discriminate. }
    assert (NB : forall x, x <> c -> match m_cl m x with ISet _ j | ODel _ j => j <> i | _ => True end).
    { intros x N. destruct (m_cl m x) eqn:X; try exact Logic.I; intros ->; apply N, EXB; try (rewrite X; reflexivity); discriminate. }
    constructor; cbn [im_emit im_cl im_fwd im_fl m_cap m_fwd m_bwd m_fl m_bl m_cl m_log].
    + rewrite mapping_snoc, <- Imap. reflexivity.
    + intros e' j A. destruct (upd_cases (m_fwd m) e (Some i) e') as [(-> & Q)|(Ne & Q)]; rewrite Q in A; [inv A; auto|auto].
    + intros k x B. destruct (Ibf k x B) as [?|(y & D)]; [left; ups; [congruence|assumption]|].
      destruct (Nat.eq_dec y c) as [->|Ny].
      * rewrite E in D. subst k. left. assert (x = e) by congruence. subst x. apply upd_eq.
      * right. exists y. cbn [im_emit im_cl m_cl]. now rewrite upd_neq.
    + apply (lock_drop (hf sh)); [assumption|now rewrite E|reflexivity].
    + apply (lock_same hb); [assumption|now rewrite E].
    + intros x. ups; [exact Logic.I|]. specialize (Ipc x). specialize (NF x ltac:(assumption)). specialize (NB x ltac:(assumption)).
      destruct (m_cl m x); cbn [pok im_emit im_cl im_fwd im_bwd im_fl im_bl m_fwd m_bwd m_cap] in *; auto; rewrite ?upd_neq by auto; auto.
      * destruct Ipc as (Q1 & Q2 & Q3 & Q4). repeat split; auto. intros e'. ups; [congruence|auto].
      * destruct Ipc as (Q1 & Q2). split; [|assumption]. intros e'. ups; [congruence|auto].
    + apply log_snoc; [assumption|]. cbn. rewrite <- Imap. auto.
  - (* IUnl *) inv H. constructor; cbn [im_emit im_cl im_bl m_cap m_fwd m_bwd m_fl m_bl m_cl m_log]; auto.
    + intros k x B. destruct (Ibf k x B) as [?|D]; [auto|right; apply (IFL _ _ D); exact Logic.I].
    + apply (lock_same (hf sh)); [assumption|now rewrite E].
    + apply (lock_drop hb); [assumption|now rewrite E|reflexivity].
    + intros x. ups; [exact Logic.I|apply Ipc].
  - (* OFwd *) destruct (m_fl m (sh e)) as [?|] eqn:F; [discriminate|]. destruct (m_fwd m e) as [j|] eqn:G; inv H.
    + constructor; cbn [im_emit im_cl im_fl m_cap m_fwd m_bwd m_fl m_bl m_cl m_log]; auto.
      * intros k x B. destruct (Ibf k x B) as [?|D]; [auto|right; apply (IFL _ _ D); exact Logic.I].
      * apply (lock_take (hf sh)); auto. now rewrite E.
      * apply (lock_same hb); [assumption|now rewrite E].
      * intros x. ups; [cbn in *; auto|apply Ipc].
    + constructor; cbn [im_emit im_cl m_cap m_fwd m_bwd m_fl m_bl m_cl m_log]; auto.
      * now rewrite istep_log_plain.
      * intros k x B. destruct (Ibf k x B) as [?|D]; [auto|right; apply (IFL _ _ D); exact Logic.I].
      * apply (lock_same (hf sh)); [assumption|now rewrite E].
      * apply (lock_same hb); [assumption|now rewrite E].
      * intros x. ups; [exact Logic.I|apply Ipc].
      * apply log_snoc; [assumption|]. cbn. now rewrite <- Imap.
  - (* OBwd *) cbn in Pc. destruct (m_bl m (bshard i)) as [?|] eqn:F; [discriminate|]. destruct (Ifb e i Pc) as (B0 & _). rewrite B0 in H. inv H.
    constructor; cbn [im_emit im_cl im_bl m_cap m_fwd m_bwd m_fl m_bl m_cl m_log]; auto.
    + now rewrite istep_log_plain.
    + intros k x B. destruct (Ibf k x B) as [?|D]; [auto|right; apply (IFL _ _ D); exact Logic.I].
    + apply (lock_same (hf sh)); [assumption|now rewrite E].
    + apply (lock_take hb); auto. now rewrite E.
    + intros x. ups; [cbn; auto|apply Ipc].
    + apply log_snoc; [assumption|]. cbn. now rewrite <- Imap.
  - (* delete *) inv H. cbn in Pc.
    assert (NF : forall x, x <> c -> match m_cl m x with IBwd e' _ | ISet e' _ | OBwd e' _ | OHeld e' _ => e' <> e | _ => True end).
    { intros x N. destruct (m_cl m x) eqn:X; try exact Logic.I; intros ->; apply N, EXF; try (rewrite X; reflexivity); discriminate. }
    constructor; cbn [im_emit im_cl im_fwd im_fl m_cap m_fwd m_bwd m_fl m_bl m_cl m_log].
    + rewrite mapping_snoc, <- Imap. reflexivity.
    + intros e' j A. destruct (upd_cases (m_fwd m) e None e') as [(-> & Q)|(Ne & Q)]; rewrite Q in A; [discriminate|auto].
    + intros k x B. destruct (Ibf k x B) as [A|D]; [|right; apply (IFL _ _ D); exact Logic.I].
      destruct (Nat.eq_dec x e) as [->|Nx]; [|left; now rewrite upd_neq]. right. exists c. cbn [im_emit im_cl m_cl]. rewrite upd_eq. congruence.
    + apply (lock_drop (hf sh)); [assumption|now rewrite E|reflexivity].
    + apply (lock_same hb); [assumption|now rewrite E].
    + intros x. ups.
      * cbn [pok im_emit im_cl im_fwd im_bwd im_fl im_bl m_fwd m_bwd m_cap]. destruct (Ifb _ _ Pc) as (Q & _). split; [|congruence]. intros e' A. destruct (upd_cases (m_fwd m) e None e') as [(-> & R)|(Ne & R)]; rewrite R in A; [discriminate|].
        apply Ne. apply (INJ _ _ i); assumption.
      * specialize (Ipc x). specialize (NF x ltac:(assumption)).
        destruct (m_cl m x); cbn [pok im_emit im_cl im_fwd im_bwd im_fl im_bl m_fwd m_bwd m_cap] in *; auto; rewrite ?upd_neq by auto; auto.
        -- destruct Ipc as (Q1 & Q2 & Q3 & Q4). repeat split; auto. intros e'. ups; [discriminate|auto].
        -- destruct Ipc as (Q1 & Q2). split; [|assumption]. intros e'. ups; [discriminate|auto].
    + apply log_snoc; [assumption|]. cbn. now rewrite <- Imap.
  - (* drop *) inv H. cbn in Pc. constructor; cbn [im_emit im_cl im_fl m_cap m_fwd m_bwd m_fl m_bl m_cl m_log]; auto.
    + now rewrite istep_log_plain.
    + intros k x B. destruct (Ibf k x B) as [?|D]; [auto|right; apply (IFL _ _ D); exact Logic.I].
    + apply (lock_drop (hf sh)); [assumption|now rewrite E|reflexivity].
    + apply (lock_same hb); [assumption|now rewrite E].
    + intros x. ups; [exact Logic.I|apply Ipc].
    + apply log_snoc; [assumption|]. cbn. now rewrite <- Imap.
  - (* ODel *) inv H. cbn in Pc. destruct Pc as (P1 & P2).
    assert (NB : forall x, x <> c -> match m_cl m x with ISet _ j | ODel _ j => j <> i | _ => True end).
    { intros x N. destruct (m_cl m x) eqn:X; try exact Logic.I; intros ->; apply N, EXB; try (rewrite X; reflexivity); discriminate. }
    constructor; cbn [im_emit im_cl im_bwd im_bl m_cap m_fwd m_bwd m_fl m_bl m_cl m_log]; auto.
    + intros e' j A. destruct (Ifb _ _ A) as (B & ?). split; [|assumption]. ups; [exfalso; eapply P1; eauto|assumption].
    + intros k x B. destruct (upd_cases (m_bwd m) i None k) as [(-> & Q)|(Nk & Q)]; rewrite Q in B; [discriminate|].
      destruct (Ibf k x B) as [?|(y & D)]; [auto|]. right. exists y. cbn [im_emit im_cl m_cl]. ups; [rewrite E in D; congruence|assumption].
    + apply (lock_same (hf sh)); [assumption|now rewrite E].
    + apply (lock_drop hb); [assumption|now rewrite E|reflexivity].
    + intros x. ups; [exact Logic.I|]. specialize (Ipc x). specialize (NB x ltac:(assumption)).
      destruct (m_cl m x); cbn [pok im_emit im_cl im_fwd im_bwd im_fl im_bl m_fwd m_bwd m_cap] in *; auto; rewrite upd_neq by auto; auto.
Qed.
Lemma ireach_inv sh cap m : ireachable sh cap m -> IInv sh m /\ m_cap m = cap.
Proof.
  intros (sched & R). assert (G : forall s m0, IInv sh m0 -> irun sh s m0 = Some m -> IInv sh m /\ m_cap m = m_cap m0).
  { induction s as [|[c a] s IH]; intros m0 I H; cbn [irun] in H; [inv H; auto|]. destruct (istep sh c a m0) as [m1|] eqn:S; [|discriminate].
    destruct (IH m1) as (A & B); auto; [eapply iinv_step; eauto|]. split; [assumption|]. rewrite B. clear - S. unfold istep in S.
    repeat match type of S with context [match ?y with _ => _ end] => destruct y end; try discriminate; inv S; reflexivity. }
  apply (G sched (im_new cap)); [apply iinv_new|exact R].
Qed.
