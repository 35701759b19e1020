(** Property theorems about the in-memory provider (C12). *)
From Verif.Lib Require Import Base Lists.
From Verif.Epoch Require Import Model Spec Proofs.
From Verif.Store Require Import Model Spec Proofs ProofsLog ProofsMain ProofsAcquire.
From Verif.IdMap Require Import Model Spec Proofs.
From Verif.Provider Require Import Model Spec Proofs.

(** An external id that can be looked up names the vector it was set to: every reader can read
    exactly that vector from the internal id.  The only other case is a [set_element] of this
    id that is still in progress (see [C12_visible_before_readable_refuted]). *)
Theorem C12_ids_name_live_vectors : forall sh entries bytes_per guards cap ncols rows p e i,
  preachable sh entries bytes_per guards cap ncols rows p -> to_internal sh (p_im p) e = Some (Some i) ->
  (exists v, current (p_log p) e = Some (i, v) /\ readable (p_st p) i v) \/
  (current (p_log p) e = None /\ being_set p e i).
Proof.
  intros sh en bp g c n r p e i HR H. pose proof (preach_inv _ _ _ _ _ _ _ _ HR) as I.
  unfold to_internal in H. destruct (m_fl (p_im p) (sh e)) eqn:L; [discriminate|]. injection H as H.
  destruct (phase_unlocked _ _ _ _ _ _ _ _ _ _ HR H) as [(A & B)|(v & A & _ & B)]; [|auto|left; eauto].
  intros t. left. intros M. assert (m_fl (p_im p) (sh e) = Some t); [|congruence]. apply (i_fl _ _ (p_i _ _ _ _ I)). now rewrite M.
Qed.
Print Assumptions C12_ids_name_live_vectors.

(** Conversely the vector of the last successful [set_element] can be looked up and read until
    a [delete] removes it, whatever else happens; the lookup may have to wait. *)
Theorem C12_set_vectors_stay : forall sh entries bytes_per guards cap ncols rows p e i v r,
  preachable sh entries bytes_per guards cap ncols rows p -> current (p_log p) e = Some (i, v) ->
  to_internal sh (p_im p) e = Some r -> r = Some i /\ readable (p_st p) i v.
Proof.
  intros sh en bp g c n r0 p e i v r HR C H. pose proof (preach_inv _ _ _ _ _ _ _ _ HR) as I.
  pose proof (p_cur _ _ _ _ I _ _ _ C) as F. pose proof H as H'. unfold to_internal in H'. destruct (m_fl _ _); [discriminate|].
  assert (r = Some i) by congruence. subst r. split; [reflexivity|].
  destruct (C12_ids_name_live_vectors _ _ _ _ _ _ _ _ _ _ HR H) as [(v' & A & B)|(A & _)]; [|congruence]. assert (v' = v) by congruence. now subst.
Qed.
Print Assumptions C12_set_vectors_stay.

(** Two external ids never share an internal one. *)
Theorem C12_ids_are_distinct : forall sh entries bytes_per guards cap ncols rows p e e' i v v',
  preachable sh entries bytes_per guards cap ncols rows p ->
  current (p_log p) e = Some (i, v) -> current (p_log p) e' = Some (i, v') -> e = e'.
Proof.
  intros sh en bp g c n r0 p e e' i v v' HR A B. pose proof (preach_inv _ _ _ _ _ _ _ _ HR) as I.
  apply (p_cur _ _ _ _ I) in A, B. eapply (i_inj _ _ (p_i _ _ _ _ I)); eauto.
Qed.
Print Assumptions C12_ids_are_distinct.

Ltac pcases S := unfold pstep in S;
  match type of S with context [p_cl ?p ?t] => destruct (p_cl p t) eqn:?P end;
  match type of S with context [match ?a with ASet _ _ => _ | _ => _ end] => destruct a end; try discriminate S;
  repeat match type of S with
    | context [match s_cl (p_st ?p) ?t with _ => _ end] => destruct (s_cl (p_st p) t) eqn:Ms
    | context [match m_cl (p_im ?p) ?t with _ => _ end] => destruct (m_cl (p_im p) t) eqn:Mi
    | context [sstep ?o ?a ?r] => destruct (sstep o a r) eqn:?
    | context [istep ?s ?o ?a ?r] => destruct (istep s o a r) eqn:?
    | context [match ?y with _ => _ end] => destruct y eqn:?
    | Some _ = Some _ => injection S as <-
    | None = Some _ => discriminate S
    end.
Ltac emitted H := cbn [p_go p_log] in H; apply app_inv_head in H; try discriminate H; injection H; intros; subst.

(** A [set_element] that fails leaves nothing behind: it holds no slot, the one it had reserved
    is free again, and the id map is as it was before.  (By the first theorem no mapping can be
    due to it at that point.) *)
Theorem C12_failed_set_leaves_nothing : forall sh entries bytes_per guards cap ncols rows p t a p' e,
  preachable sh entries bytes_per guards cap ncols rows p -> pstep sh t a p = Some p' ->
  p_log p' = p_log p ++ [PSetErr t e] ->
  p_im p' = p_im p /\ (forall i, ~ has_slot (p_st p') t i) /\
  (forall i, p_cl p t = PDrop e i -> free (p_st p') i) /\
  (forall e' i, to_internal sh (p_im p') e' = Some (Some i) ->
     (exists v, current (p_log p') e' = Some (i, v)) \/ exists t' v, t' <> t /\ (p_cl p' t' = PIns e' v i \/ p_cl p' t' = PPub e' v i)).
Proof.
  intros sh en bp g c n r0 p t a p' e HR S H. pose proof (preach_inv _ _ _ _ _ _ _ _ HR) as I.
  assert (HR' : preachable sh en bp g c n r0 p').
  { destruct HR as (p0 & sched & A & B & C & D). exists p0, (sched ++ [(t, a)]). repeat split; auto. clear A I. revert p0 D.
    induction sched as [|[x y] sched IH]; intros p0 D; cbn [app prun] in *; [inv D; now rewrite S|]. destruct (pstep sh x y p0); [auto|discriminate]. }
  assert (X : p_im p' = p_im p /\ p_cl p' t = PIdle /\ s_cl (p_st p') t = CIdle /\ (forall i, p_cl p t = PDrop e i -> free (p_st p') i)).
  { pose proof (p_pc _ _ _ _ I t) as K. unfold pcok in K. pcases S; emitted H; cbn [p_go p_im p_cl p_st]; rewrite upd_eq;
      try (exfalso; destruct K as (_ & [K|K]); discriminate K).
    - split; [reflexivity|]. split; [reflexivity|]. split; [assumption|discriminate].
    - destruct K as (_ & [K|K]); [discriminate|]. injection K as ->. rename Ms into K. pose proof (p_s _ _ _ _ I) as Is. pose proof (p_j _ _ _ _ I) as Ij.
      assert (R : rl (s_cl (p_st p) t) = Some (i, Own)) by now rewrite K.
      pose proof (held_not_live _ _ _ _ _ Is Ij R) as L.
      match goal with E : sstep t Go (p_st p) = Some ?s |- _ => rename E into E0 end.
      pose proof E0 as E1. rewrite sstep_go in E1. unfold go in E1. rewrite K in E1. injection E1 as E1.
      split; [reflexivity|]. split; [reflexivity|]. split; [subst; cbn; apply upd_eq|]. intros i0 Q. injection Q as ->. split.
      + subst. cbn. rewrite live_app. exact L.
      + intros x W. destruct (Nat.eq_dec x t) as [->|N].
        * revert W. unfold has_slot. subst. cbn. now rewrite upd_eq.
        * apply N. apply has_slot_role in W. rewrite (cl_others _ _ _ _ _ E0 N) in W. eapply (v_uniq _ _ _ Is); eauto. }
  destruct X as (X1 & X2 & X3 & X4). split; [assumption|]. split; [unfold has_slot; rewrite X3; auto|]. split; [assumption|].
  intros e' i T. destruct (C12_ids_name_live_vectors _ _ _ _ _ _ _ _ _ _ HR' T) as [(v & A & _)|(_ & t' & v & A & _)]; [left; eauto|].
  right. exists t', v. split; [|assumption]. intros ->. rewrite X2 in A. destruct A; discriminate.
Qed.
Print Assumptions C12_failed_set_leaves_nothing.

(** A [delete] that succeeds removes the mapping and the vector together... *)
Theorem C12_delete_removes_both : forall sh entries bytes_per guards cap ncols rows p t a p' e i,
  preachable sh entries bytes_per guards cap ncols rows p -> pstep sh t a p = Some p' ->
  p_log p' = p_log p ++ [PDeleted t e i] ->
  (exists v, current (p_log p) e = Some (i, v)) /\ m_fwd (p_im p') e = None /\ live (s_log (p_st p')) i false = false /\
  (forall e', m_fwd (p_im p') e' <> Some i).
Proof.
  intros sh en bp g c n r0 p t a p' e i HR S H. pose proof (preach_inv _ _ _ _ _ _ _ _ HR) as I.
  pose proof (p_pc _ _ _ _ I t) as K. unfold pcok in K. pcases S; emitted H.
  destruct K as (_ & [(K & C & L)|K]); [|discriminate]. injection K as -> ->. rename Mi into K. pose proof (i_pc _ _ (p_i _ _ _ _ I) t) as W. rewrite K in W. cbn in W.
  match goal with E : istep _ _ _ _ = Some _ |- _ => unfold istep in E; rewrite K in E; injection E as <- end.
  cbn. split; [assumption|]. split; [apply upd_eq|]. split; [assumption|].
  intros e' X. destruct (upd_cases (m_fwd (p_im p)) e None e') as [(-> & Y)|(N & Y)]; rewrite Y in X; [discriminate|].
  apply N. eapply (i_inj _ _ (p_i _ _ _ _ I)); eauto.
Qed.
Print Assumptions C12_delete_removes_both.

(** ... and a [delete] that gives up leaves both in place (or a [set_element] of that id is in
    progress, which is why it gave up). *)
Theorem C12_failed_delete_keeps_both : forall sh entries bytes_per guards cap ncols rows p t a p' e i,
  preachable sh entries bytes_per guards cap ncols rows p -> pstep sh t a p = Some p' ->
  p_log p' = p_log p ++ [PKept t e i] ->
  m_fwd (p_im p') e = Some i /\ p_st p' = p_st p /\
  ((exists v, current (p_log p') e = Some (i, v) /\ readable (p_st p') i v) \/ (current (p_log p') e = None /\ being_set p' e i)).
Proof.
  intros sh en bp g c n r0 p t a p' e i HR S H. pose proof (preach_inv _ _ _ _ _ _ _ _ HR) as I.
  pose proof (pinv_step _ _ _ _ _ _ _ I S) as I'.
  pose proof (p_pc _ _ _ _ I t) as K. unfold pcok in K. pose proof S as S0. pcases S; emitted H.
  destruct K as (Ks & [K|(r & K)]); [|discriminate]. injection K as -> ->. rename Mi into K. pose proof (i_pc _ _ (p_i _ _ _ _ I) t) as W. rewrite K in W. cbn in W.
  match goal with E : istep _ _ _ _ = Some _ |- _ => unfold istep in E; rewrite K in E; injection E as <- end.
  split; [exact W|]. split; [reflexivity|].
  destruct (phase_unlocked _ _ _ _ _ _ _ _ e i HR W) as [(A & B)|(v & A & _ & B)].
  - intros x. destruct (Nat.eq_dec x t) as [->|N].
    + right. split; [congruence|]. rewrite Ks. discriminate.
    + left. intros X. apply N. eapply (one_owner _ _ x t _ _ _ (p_i _ _ _ _ I)); eauto.
  - right. cbn [p_go p_log p_st]. rewrite current_snoc. cbn [papply]. split; [assumption|].
    destruct A as (x & v & A1 & A2 & A3). exists x, v. cbn [p_go p_cl p_st]. split; [|auto].
    destruct (Nat.eq_dec x t) as [->|N]; [rewrite P in A1; destruct A1; discriminate|]. now rewrite upd_neq.
  - left. exists v. cbn [p_go p_log p_st]. rewrite current_snoc. auto.
Qed.
Print Assumptions C12_failed_delete_keeps_both.

(** What [delete] returns agrees with what it did: success after a removal, an error after
    giving up or when the id was not mapped. *)
Theorem C12_delete_answers : forall sh entries bytes_per guards cap ncols rows p t a p',
  preachable sh entries bytes_per guards cap ncols rows p -> pstep sh t a p = Some p' ->
  (forall e i, p_log p' = p_log p ++ [PDelOk t e i] -> last_of t (p_log p) = Some (PDeleted t e i)) /\
  (forall e, p_log p' = p_log p ++ [PDelErr t e] ->
     to_internal sh (p_im p) e = Some None \/ exists i, last_of t (p_log p) = Some (PKept t e i)).
Proof.
  intros sh en bp g c n r0 p t a p' HR S. pose proof (preach_inv _ _ _ _ _ _ _ _ HR) as I.
  pose proof (p_pc _ _ _ _ I t) as K. pose proof (preach_lok _ _ _ _ _ _ _ _ HR t) as L. unfold pcok, lok in *. split; intros e.
  - intros i H. pcases S; emitted H; destruct K as (_ & [(K & _)|K]); try discriminate K. auto.
  - intros H. pcases S; emitted H.
    1: left; destruct K as (_ & [K|(i9 & K)]); match goal with E : istep _ _ _ _ = Some ?m, M : m_cl ?m t = IIdle |- _ => unfold istep in E; rewrite K in E; rename E into E0, M into M0 end.
    1: unfold to_internal; destruct (m_fl _ _); [discriminate|]; destruct (m_fwd (p_im p) e) eqn:F; [|reflexivity]; exfalso;
        injection E0 as <-; cbn in M0; rewrite upd_eq in M0; discriminate.
    1: exfalso; destruct (m_bl _ _); [discriminate|]; destruct (m_bwd _ _); injection E0 as <-; cbn in M0; rewrite upd_eq in M0; discriminate.
    all: destruct K as (_ & [K|(r9 & K)]); try discriminate K; right; exists i; eauto.
Qed.
Print Assumptions C12_delete_answers.

(** A run: thread 0 sets id 7, thread 1 reads it, thread 2 deletes it, thread 3 fails to set id 7
    while it is still there and then sets id 8. *)
Definition gos (t k : nat) : list (nat * pact) := repeat (t, AGo) k.
Definition sample_sched : list (nat * pact) :=
  [(0, ASet 7 [1; 2]%N)] ++ gos 0 12 ++                                                     (* set *)
  [(1, ARead CallReader)] ++ repeat (1, ARead Go) 4 ++ [(1, ARead (CallRead 0))] ++             (* read *)
  [(3, ASet 7 [3; 3]%N)] ++ gos 3 9.                                                         (* fails: exists *)
Definition sample2_sched : list (nat * pact) := [(2, ADelete 7)] ++ gos 2 14 ++ [(3, ASet 8 [5; 5]%N)] ++ gos 3 15.
Definition sample (sched : list (nat * pact)) : option provider :=
  match p_new 2 2 2 2 2 [[9; 9]%N] with Some p => prun (fun e => e mod 4) sched p | None => None end.
Lemma sample_reachable sched p : sample sched = Some p -> preachable (fun e => e mod 4) 2 2 2 2 2 [[9; 9]%N] p.
Proof.
  unfold sample. destruct (p_new 2 2 2 2 2 [[9; 9]%N]) as [p0|] eqn:E0; [|discriminate]. intros E. exists p0, sched. split; [exact E0|]. split; [lia|]. split; [lia|exact E].
Qed.
Example C12_meets : exists p, preachable (fun e => e mod 4) 2 2 2 2 2 [[9; 9]%N] p /\
  to_internal (fun e => e mod 4) (p_im p) 7 = Some (Some 0) /\ current (p_log p) 7 = Some (0, [1; 2]%N) /\
  (exists g, s_cl (p_st p) 1 = RHeld g) /\ p_log p = [PSetOk 0 7 0 [1; 2]%N; PSetErr 3 7].
Proof.
  assert (X : option_map (fun p => (to_internal (fun e => e mod 4) (p_im p) 7, current (p_log p) 7, s_cl (p_st p) 1, p_log p)) (sample sample_sched) =
    Some (Some (Some 0), Some (0, [1; 2]%N), RHeld [(0, [1; 2]%N)], [PSetOk 0 7 0 [1; 2]%N; PSetErr 3 7])) by (vm_compute; reflexivity).
  destruct (sample sample_sched) as [p|] eqn:E; [|discriminate X]. apply sample_reachable in E. cbn [option_map] in X. injection X as A B C D.
  exists p. split; [exact E|]. split; [exact A|]. split; [exact B|]. split; [exists [(0, [1; 2]%N)]; exact C|exact D].
Qed.
Example C12_meets_delete : option_map (fun p => p_log p) (sample (sample_sched ++ sample2_sched)) =
  Some [PSetOk 0 7 0 [1; 2]%N; PSetErr 3 7; PDeleted 2 7 0; PDelOk 2 7 0; PSetOk 3 8 1 [5; 5]%N].
Proof. vm_compute. reflexivity. Qed.

(** The full statement would have no exception for a [set_element] in progress.  It fails: the
    mapping is visible before the slot is published, so for a moment a lookup returns an
    internal id that no reader can read. *)
Theorem C12_visible_before_readable_refuted : ~ (forall sh entries bytes_per guards cap ncols rows p e i,
  preachable sh entries bytes_per guards cap ncols rows p -> to_internal sh (p_im p) e = Some (Some i) ->
  exists v, readable (p_st p) i v).
Proof.
  intros H.
  pose (early := [(1, ARead CallReader)] ++ repeat (1, ARead Go) 4 ++ [(0, ASet 7 [1; 2]%N)] ++ gos 0 10).
  assert (X : option_map (fun p => (to_internal (fun e => e mod 4) (p_im p) 7, s_cl (p_st p) 1,
      option_map (fun st => skipn (length (s_log (p_st p))) (s_log st)) (sstep 1 (CallRead 0) (p_st p)))) (sample early) =
    Some (Some (Some 0), RHeld [], Some [SRead 1 0 None])) by (vm_compute; reflexivity).
  destruct (sample early) as [p|] eqn:E; [|discriminate X]. apply sample_reachable in E. cbn [option_map] in X. injection X as A B C.
  destruct (H _ _ _ _ _ _ _ _ _ _ E A) as (v & R). destruct (R _ _ B) as (st & S & L). rewrite S in C. cbn [option_map] in C.
  rewrite L, skipn_app, skipn_all, Nat.sub_diag in C. discriminate C.
Qed.
Print Assumptions C12_visible_before_readable_refuted.
