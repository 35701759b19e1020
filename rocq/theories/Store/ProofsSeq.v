(** Histories whose calls do not overlap: the recycled slots are always available. *)
From Verif.Lib Require Import Base Lists.
From Verif.Epoch Require Import Model Spec Proofs.
From Verif.Store Require Import Model Spec Proofs ProofsLog ProofsMain ProofsAcquire ProofsSolo.

Definition apc (rec : list nat) (tag : nat -> N) (p : pc) : Prop :=
  match p with
  | ATry (BAttempt _) i | ATryCas (BAttempt _) i => ~ In i rec
  | ATry (BScan _ _) _ | ATryCas (BScan _ _) _ => False
  | DPush _ _ i => ~ In i rec /\ tag i = AVAILABLE
  | AMint _ | AMintCas _ _ | AScan _ _ _ | AScanTry _ _ _ _ _ | AScanCas _ _ _ _ _ | AScanAt _ _ _ None _ _ | AScanPop _ _ => rec = []
  | AScanPush _ _ _ j i _ => (forall x, In x rec -> j < x < i) /\ j < i /\ tag i = AVAILABLE
  | AScanAt _ _ _ (Some j) i _ => (forall x, In x rec -> j < x < i) /\ j < i
  | _ => True
  end.
Record AInv (σ : store) : Prop := {
  a_nd : NoDup (fl_rec (s_fl σ));
  a_av : forall i, In i (fl_rec (s_fl σ)) -> s_tag σ i = AVAILABLE;
  a_pc : forall o, apc (fl_rec (s_fl σ)) (s_tag σ) (s_cl σ o)
}.
Lemma apc_rest rec tag p : at_rest p -> apc rec tag p.
Proof. destruct p; cbn; tauto. Qed.
Lemma ainv_frame σ σ' o c : (forall x, x <> o -> at_rest (s_cl σ x)) -> sstep o c σ = Some σ' ->
  NoDup (fl_rec (s_fl σ')) -> (forall i, In i (fl_rec (s_fl σ')) -> s_tag σ' i = AVAILABLE) ->
  apc (fl_rec (s_fl σ')) (s_tag σ') (s_cl σ' o) -> AInv σ'.
Proof.
  intros AR S A B C. constructor; auto. intros x. destruct (Nat.eq_dec x o) as [->|N]; [assumption|].
  rewrite (cl_others _ _ _ _ _ S N). apply apc_rest, AR, N.
Qed.
Lemma push_nd f i : ~ In i (fl_rec f) -> NoDup (fl_rec f) -> NoDup (fl_rec (fl_push f i)).
Proof.
  intros N D. unfold fl_push. destruct (_ && _); cbn; [|assumption].
  eapply Permutation.Permutation_NoDup; [apply Permutation.Permutation_cons_append|]. now constructor.
Qed.
Lemma ainv_step ng init σ o c σ' : SInv ng init σ -> AInv σ -> (forall x, x <> o -> at_rest (s_cl σ x)) -> sstep o c σ = Some σ' -> AInv σ'.
Proof.
  intros I A AR S0. pose proof S0 as S. pose proof (a_pc _ A o) as P. pose proof (a_nd _ A) as ND. pose proof (a_av _ A) as AV.
  assert (RT : forall i r, rl (s_cl σ o) = Some (i, r) -> ~ In i (fl_rec (s_fl σ))).
  { intros i r R Hi. destruct (v_role _ _ _ I _ _ _ R) as (_ & T & _). rewrite (AV i Hi) in T. destruct r; discriminate. }
  assert (SAME : forall p, s_cl σ' = upd (s_cl σ) o p -> s_fl σ' = s_fl σ -> s_tag σ' = s_tag σ -> apc (fl_rec (s_fl σ)) (s_tag σ) p -> AInv σ').
  { intros p E1 E2 E3 E4. eapply (ainv_frame _ _ _ _ AR S0); rewrite ?E2, ?E3, ?E1, ?upd_eq; auto. }
  assert (TAG : forall p i t, s_cl σ' = upd (s_cl σ) o p -> s_fl σ' = s_fl σ -> s_tag σ' = upd (s_tag σ) i t -> ~ In i (fl_rec (s_fl σ)) ->
     apc (fl_rec (s_fl σ)) (s_tag σ') p -> AInv σ').
  { intros p i t E1 E2 E3 N E4. eapply (ainv_frame _ _ _ _ AR S0); rewrite ?E2, ?E1, ?upd_eq; auto. rewrite E3. intros j Hj. ups; [contradiction|auto]. }
  assert (TRY : forall s k, s_fl s = s_fl σ -> s_tag s = s_tag σ -> σ' = try_failed s o (BAttempt k) -> AInv σ').
  { intros s k E1 E2 ->. destruct (try_frame s o (BAttempt k)) as (_ & _ & F1 & _ & _ & F2 & _).
    eapply (ainv_frame _ _ _ _ AR S0); rewrite ?F1, ?F2, ?E1, ?E2; auto.
    destruct (try_cl s o (BAttempt k)) as [->|[(k' & ->)|(k' & rem & Eb & ->)]]; cbn; auto. discriminate. }
  assert (DRN : forall s b r, s_fl s = s_fl σ -> s_tag s = s_tag σ -> σ' = drain_end s o b r -> AInv σ').
  { intros s b r E1 E2 ->. destruct (drain_frame s o b r) as (_ & _ & F1 & _ & _ & F2 & _).
    eapply (ainv_frame _ _ _ _ AR S0); rewrite ?F1, ?F2, ?E1, ?E2; auto.
    destruct (drain_cl s o b r) as [->|(k & ->)]; exact Logic.I. }
  assert (SAME2 : s_cl σ' = s_cl σ -> s_fl σ' = s_fl σ -> s_tag σ' = s_tag σ -> AInv σ').
  { intros E1 E2 E3. eapply (ainv_frame _ _ _ _ AR S0); rewrite ?E2, ?E3, ?E1; auto. }
  scases S; rewrite ?Heqp in P; cbn [apc] in P;
    try match goal with b : back |- _ => destruct b; [|contradiction] end;
    match goal with
    | |- AInv (try_failed ?s _ _) => refine (TRY s _ eq_refl eq_refl eq_refl)
    | |- AInv (drain_end ?s _ _ _) => apply (DRN s _ _ eq_refl eq_refl eq_refl)
    | |- AInv (set_cl (set_fl _ _) _ _) => idtac
    | |- AInv (set_cl (set_tag _ _ _) _ _) => eapply TAG; [reflexivity..| |]
    | |- AInv (semit (set_cl (set_tag _ _ _) _ _) _) => eapply TAG; [reflexivity..| |]
    | |- _ => first [apply (SAME2 eq_refl eq_refl eq_refl)|eapply SAME; [reflexivity..|cbn [apc]; auto]]
    end.
  all: try (unfold fl_pop in Heqp0; destruct (fl_rec (s_fl σ)) eqn:RC; injection Heqp0 as ? ?; subst).
  all: try discriminate.
  all: try assumption.
  all: try (now apply (RT _ _ eq_refl)).
  all: try exact Logic.I.
  - inversion ND; subst. eapply (ainv_frame _ _ _ _ AR S0); cbn [set_cl set_fl s_fl fl_rec s_tag s_cl]; rewrite ?upd_eq; auto.
    intros j Hj. apply AV. now right.
  - unfold fl_pop in Heqp0. destruct (fl_rec (s_fl σ)); [reflexivity|discriminate].
  - eapply (ainv_frame _ _ _ _ AR S0); cbn [set_cl set_fl s_fl fl_mint fl_rec s_tag s_cl]; rewrite ?upd_eq; auto. cbn. rewrite P. auto.
  - apply fl_scan_frame in Heqp0. destruct Heqp0 as (_ & _ & _ & E).
    eapply (ainv_frame _ _ _ _ AR S0); cbn [set_cl set_fl s_fl fl_rec s_tag s_cl]; rewrite ?upd_eq, ?E; auto.
  - destruct P as (P1 & P2). apply N.eqb_eq in Heqb1. auto.
  - destruct acq; [|assumption]. destruct P as (P1 & P2). split; [|lia]. intros x Hx. specialize (P1 x Hx). lia.
  - rewrite P. auto.
  - cbn. rewrite P. split; [intros x []|lia].
  - destruct P as (P1 & P2 & P3). destruct (fl_push_frame (s_fl σ) i) as (_ & _ & _ & E).
    eapply (ainv_frame _ _ _ _ AR S0); cbn [set_cl set_fl s_fl s_tag s_cl]; rewrite ?upd_eq; auto.
    + apply push_nd; [|assumption]. intros H. specialize (P1 i H). lia.
    + intros x Hx. apply E in Hx. destruct Hx as [Hx|[-> _]]; auto.
    + cbn. split; [|lia]. intros x Hx. apply E in Hx. destruct Hx as [Hx|[-> _]]; [specialize (P1 x Hx)|]; lia.
  - cbn. split; [apply (RT _ _ eq_refl)|apply upd_eq].
  - destruct P as (P1 & P2). destruct (fl_push_frame (s_fl σ) i) as (_ & _ & _ & E).
    eapply (ainv_frame _ _ _ _ AR S0); cbn [set_cl set_fl s_fl s_tag s_cl]; rewrite ?upd_eq; auto; try exact Logic.I.
    + apply push_nd; assumption.
    + intros x Hx. apply E in Hx. destruct Hx as [Hx|[-> _]]; auto.
  - pose proof (v_pc _ _ _ I o) as W. rewrite Heqp in W. destruct W as [_ W2]. apply N.eqb_eq in Heqb. intros Hi.
    rewrite <- Heqb, (AV i Hi) in W2. discriminate.
Qed.
Lemma seq_reachable entries bp guards cap ncols rows σ : ssequential entries bp guards cap ncols rows σ -> sreachable entries bp guards cap ncols rows σ.
Proof.
  induction 1 as [σ N G C|σ o c σ' _ (σ0 & sched & N & G & C & R) _ S].
  - exists σ, []. auto.
  - exists σ0, (sched ++ [(o, c)]). repeat split; auto. rewrite srun_app, R. cbn [srun]. now rewrite S.
Qed.
Lemma seq_ainv entries bp guards cap ncols rows σ : ssequential entries bp guards cap ncols rows σ -> AInv σ.
Proof.
  induction 1 as [σ N G C|σ o c σ' HS A AR S].
  - destruct (new_inv _ _ _ _ _ _ _ G N) as (_ & _ & _ & _ & E4 & E5 & _). constructor; rewrite ?E5; cbn; auto.
    + constructor.
    + intros i [].
    + intros o. rewrite E4. exact Logic.I.
  - destruct (reach_inv _ _ _ _ _ _ _ (seq_reachable _ _ _ _ _ _ _ HS)) as (I & _). eapply ainv_step; eauto.
Qed.
