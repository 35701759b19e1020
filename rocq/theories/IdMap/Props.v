(** Property theorems about the id map (C11). *)
From Verif.Lib Require Import Base Lists.
From Verif.IdMap Require Import Model Spec Proofs.

(** What the lookups return (when they are not waiting for a lock) is the mapping made by the
    successful insertions and deletions, and its inverse: the two never disagree. *)
Theorem C11_lookups_are_inverse : forall sh cap m, ireachable sh cap m ->
  injective (mapping (m_log m)) /\
  (forall e r, to_internal sh m e = Some r -> r = mapping (m_log m) e) /\
  (forall i r e, to_external m i = Some r -> (r = Some e <-> mapping (m_log m) e = Some i)).
Proof.
  intros sh cap m HR. destruct (ireach_inv _ _ _ HR) as (I & _). rewrite <- (i_map _ _ I). split; [exact (i_inj _ _ I)|]. split.
  - intros e r H. unfold to_internal in H. destruct (m_fl m (sh e)); congruence.
  - intros i r e H. unfold to_external in H. destruct (Nat.leb_spec (m_cap m) i) as [L|L].
    + injection H as <-. split; [discriminate|]. intros A. apply (i_fb _ _ I) in A. lia.
    + destruct (m_bl m (bshard i)) as [x|] eqn:B; [discriminate|]. injection H as <-. split; [|intros A; now apply (i_fb _ _ I)].
      intros A. destruct (i_bf _ _ I _ _ A) as [?|(x & X)]; [assumption|]. exfalso.
      assert (m_bl m (bshard i) = Some x); [|congruence]. apply (i_bl _ _ I). destruct (m_cl m x); try contradiction; subst; reflexivity.
Qed.
Print Assumptions C11_lookups_are_inverse.

(** Every answer is right for the mapping at that moment: an insertion succeeds exactly when
    both ids are unused and the internal id is in bounds, and no assertion fails. *)
Theorem C11_answers_are_right : forall sh cap m p ev, ireachable sh cap m -> nth_error (m_log m) p = Some ev ->
  answer_ok cap (mapping (firstn p (m_log m))) ev.
Proof. intros sh cap m p ev HR H. destruct (ireach_inv _ _ _ HR) as (I & <-). exact (i_log _ _ I p ev H). Qed.
Print Assumptions C11_answers_are_right.

(** The two kinds of locks cannot deadlock: as long as some client is inside a call or holds
    an entry, some client can go on. *)
Theorem C11_no_deadlock : forall sh cap m c, ireachable sh cap m -> m_cl m c <> IIdle -> exists c' a m', m_cl m c' <> IIdle /\ istep sh c' a m = Some m'.
Proof.
  intros sh cap m c HR N. destruct (ireach_inv _ _ _ HR) as (I & _).
  assert (B : forall d s, hb (m_cl m d) = Some s -> exists a m', m_cl m d <> IIdle /\ istep sh d a m = Some m').
  { intros d s H. unfold istep. destruct (m_cl m d); try discriminate H; try (exists IGo; eexists; split; [discriminate|reflexivity]).
    exists CDrop. eexists. split; [discriminate|reflexivity]. }
  assert (NP : m_cl m c <> IPanic).
  { intros E. assert (G : forall sched m0, irun sh sched m0 = Some m -> IInv sh m0 -> (forall x, m_cl m0 x <> IPanic) -> False).
    { induction sched as [|[x a] sched IH]; intros m0 R I0 Z; cbn [irun] in R; [inv R; eapply Z; eauto|].
      destruct (istep sh x a m0) as [m1|] eqn:S; [|discriminate]. apply (IH m1 R); [eapply iinv_step; eauto|]. pose proof (iinv_step _ _ _ _ _ I0 S) as I1.
      intros y Y. assert (Ny : y = x).
      { destruct (Nat.eq_dec y x) as [|Ny]; [assumption|]. exfalso. apply (Z y). rewrite <- Y. unfold istep in S.
        repeat match type of S with context [match ?y with _ => _ end] => destruct y end; try discriminate; inv S; cbn [im_emit im_cl m_cl]; now rewrite ?upd_neq by assumption. }
      subst y. unfold istep in S. destruct (m_cl m0 x) eqn:E0, a; try discriminate S;
        repeat match type of S with context [match ?y with _ => _ end] => destruct y eqn:? end; try discriminate; inv S;
        cbn [im_emit im_cl im_fl im_bl im_fwd im_bwd m_cl] in Y; rewrite ?upd_eq in Y; try discriminate; try congruence.
      pose proof (i_pc _ _ I0 x) as P. rewrite E0 in P. cbn in P. apply (i_fb _ _ I0) in P. destruct P. congruence. }
    destruct HR as (sched & R). apply (G sched (im_new cap) R); [apply iinv_new|]. intros x. discriminate. }
  assert (FB : forall d s, hf sh (m_cl m d) = Some s -> exists c' a m', m_cl m c' <> IIdle /\ istep sh c' a m = Some m').
  { intros d s H. destruct (hb (m_cl m d)) as [s'|] eqn:HB; [exists d; eauto|].
    destruct (m_cl m d) eqn:E; try discriminate.
    - destruct (m_bl m (bshard i)) as [x|] eqn:X; [exists x; apply (B x (bshard i)); now apply (i_bl _ _ I)|].
      exists d, IGo. unfold istep. rewrite E, X. destruct (m_bwd m i); eexists; split; try reflexivity; discriminate.
    - destruct (m_bl m (bshard i)) as [x|] eqn:X; [exists x; apply (B x (bshard i)); now apply (i_bl _ _ I)|].
      exists d, IGo. unfold istep. rewrite E, X. destruct (m_bwd m i); eexists; split; try reflexivity; discriminate. }
  destruct (hf sh (m_cl m c)) as [s|] eqn:HF; [eapply FB; eauto|]. destruct (hb (m_cl m c)) as [s|] eqn:HB; [exists c; eauto|].
  destruct (m_cl m c) eqn:E; try discriminate; try congruence.
  - destruct (m_fl m (sh e)) as [x|] eqn:X; [eapply (FB x (sh e)); now apply (i_fl _ _ I)|].
    exists c, IGo. unfold istep. rewrite E, X. destruct (m_fwd m e); eexists; split; try reflexivity; discriminate.
  - destruct (m_fl m (sh e)) as [x|] eqn:X; [eapply (FB x (sh e)); now apply (i_fl _ _ I)|].
    exists c, IGo. unfold istep. rewrite E, X. destruct (m_fwd m e); eexists; split; try reflexivity; discriminate.
Qed.
Print Assumptions C11_no_deadlock.

(** Two clients race for external id 5; one wins, the other is told so; the winner's mapping
    is deleted while a third client maps 5 to another slot. *)
Definition isample : list (nat * iact) :=
  [(0, CInsert 5 3); (1, CInsert 5 4); (0, IGo); (0, IGo); (0, IGo); (1, IGo); (0, IGo);
   (2, COccupied 5); (2, IGo); (2, IGo); (3, CInsert 5 1030); (2, CDelete); (3, IGo); (3, IGo); (3, IGo); (2, IGo); (3, IGo)].
Example C11_meets : exists m, ireachable (fun e => e mod 4) 2000 m /\
  m_log m = [EInserted 0 5 3; EInsertErr 1 5 4 ExternalExists; EOccupied 2 5 3; EDeleted 2 5 3; EInserted 3 5 1030] /\
  to_internal (fun e => e mod 4) m 5 = Some (Some 1030) /\ to_external m 1030 = Some (Some 5) /\ to_external m 3 = Some None.
Proof.
  assert (H : option_map (fun m => (m_log m, to_internal (fun e => e mod 4) m 5, to_external m 1030, to_external m 3)) (irun (fun e => e mod 4) isample (im_new 2000)) =
    Some ([EInserted 0 5 3; EInsertErr 1 5 4 ExternalExists; EOccupied 2 5 3; EDeleted 2 5 3; EInserted 3 5 1030], Some (Some 1030), Some (Some 5), Some None)) by (vm_compute; reflexivity).
  destruct (irun (fun e => e mod 4) isample (im_new 2000)) as [m|] eqn:E; [|discriminate]. cbn [option_map] in H. injection H as H1 H2 H3 H4.
  exists m. split; [exists isample; exact E|auto].
Qed.
