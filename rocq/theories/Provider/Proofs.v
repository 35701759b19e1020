From Verif.Lib Require Import Base Lists.
From Verif.Epoch Require Import Model Spec Proofs.
From Verif.Store Require Import Model Spec Proofs ProofsLog ProofsMain ProofsAcquire.
From Verif.IdMap Require Import Model Spec Proofs.
From Verif.Provider Require Import Model Spec.

(** ** What one step of the store does *)
Ltac sfr := cbn [set_cl set_tag set_mir set_data set_fl set_reg semit panic s_tag s_data s_cl s_log];
  rewrite ?(proj1 (proj2 (proj2 (try_frame _ _ _)))), ?(proj1 (proj2 (proj2 (drain_frame _ _ _ _))));
  cbn [set_cl set_tag set_mir set_data set_fl set_reg semit panic s_tag s_data s_cl s_log].
Lemma pub_keeps ng init σ o c σ' j : SInv ng init σ -> sstep o c σ = Some σ' -> s_tag σ j = PUBLISHED ->
  s_tag σ' j = PUBLISHED \/ (s_cl σ o = TCas j PUBLISHED /\ s_cl σ' o = TMir j).
Proof.
  intros I S H.
  assert (RT : forall i r, rl (s_cl σ o) = Some (i, r) -> s_tag σ i <> PUBLISHED).
  { intros i r R. destruct (v_role _ _ _ I _ _ _ R) as (_ & T & _). rewrite T. destruct r; discriminate. }
  assert (TT : forall i t, s_tag σ i <> PUBLISHED -> upd (s_tag σ) i t j = PUBLISHED).
  { intros i t H1. ups; congruence. }
  scases S; sfr;
    try (left; first [assumption|apply upd_eq|apply TT; first [congruence|rewrite (proj1 (N.eqb_eq _ _) ltac:(eassumption)); discriminate|eapply RT; reflexivity]]; fail).
  - destruct (Nat.eq_dec j i) as [->|N]; [right|left; now rewrite upd_neq]. apply N.eqb_eq in Heqb. subst cur. rewrite H. split; [reflexivity|apply upd_eq].
Qed.
Lemma try_data σ o b : s_data (try_failed σ o b) = s_data σ.
Proof. destruct b as [[|k]|k r]; reflexivity. Qed.
Lemma drain_data σ o b r : s_data (drain_end σ o b r) = s_data σ.
Proof. destruct b as [[|k]|]; reflexivity. Qed.
Lemma data_keeps σ o c σ' j : sstep o c σ = Some σ' -> s_data σ' j = s_data σ j \/ (exists w, c = CallWrite w) /\ s_cl σ o = WHeld j.
Proof.
  intros S. scases S; rewrite ?try_data, ?drain_data; cbn [set_cl set_tag set_mir set_data set_fl set_reg semit panic s_data]; auto.
  ups; eauto.
Qed.
Lemma live_keeps σ o c σ' i : sstep o c σ = Some σ' -> live (s_log σ') i false = true -> live (s_log σ) i false = true \/ s_cl σ o = WPub i.
Proof.
  intros S H. scases S; rewrite ?try_live, ?drain_live in H; cbn [set_cl set_tag set_mir set_data set_fl set_reg semit panic s_log] in H;
    rewrite ?live_app in H; cbn [live] in H; auto.
  - destruct (Nat.eqb_spec i0 i) as [->|N]; auto.
  - destruct (Nat.eqb_spec i0 i) as [->|N]; [discriminate|auto].
Qed.

Definition is_acq (p : pc) : bool :=
  match p with
  | APop _ | AMint _ | AMintCas _ _ | ATry _ _ | ATryCas _ _ | AScan _ _ _ | AScanAt _ _ _ _ _ _ | AScanTry _ _ _ _ _
  | AScanCas _ _ _ _ _ | AScanPush _ _ _ _ _ _ | AScanPop _ _ | CPanic => true
  | DCall b | DAdv b | DPop b _ | DMir b _ _ | DMirSet b _ _ | DTag b _ _ | DTagSet b _ _ | DPush b _ _ | DDone b _ =>
    match b with Some _ => true | None => false end
  | _ => false
  end.
Lemma acq_step σ o σ' : is_acq (s_cl σ o) = true -> sstep o Go σ = Some σ' ->
  is_acq (s_cl σ' o) = true \/ s_cl σ' o = CIdle \/ exists i, s_cl σ' o = WHeld i.
Proof.
  intros A S0. pose proof S0 as S. rewrite sstep_go in S. unfold go in S. unfold rstep in S.
  destruct (s_cl σ o) eqn:P; try discriminate A; cbn [is_acq] in A; try (destruct b as [k|]; [|discriminate A]);
  repeat match type of S with
    | context [step ?o ?a ?r] => destruct (step o a r) eqn:?
    | context [match ?y with _ => _ end] => destruct y eqn:?
    | Some _ = Some _ => injection S as <-
    | None = Some _ => discriminate S
    end;
  try (cbn [set_cl set_tag set_mir set_data set_fl set_reg semit panic s_cl]; rewrite ?upd_eq, ?P; cbn [is_acq]; eauto; fail).
  1-3: destruct b as [[|kk]|kk rr]; cbn; rewrite upd_eq; cbn; auto.
  all: destruct k; cbn; rewrite upd_eq; cbn; auto.
Qed.
(** [retire] of slot [i]. *)
Definition is_ret (i : nat) (p : pc) : Prop :=
  (exists c, p = TCall i c \/ p = TGuard i c \/ p = TCas i c) \/ p = TFail i \/ lv p = Some i.

Lemma ret_step ng init σ o i σ' : SInv ng init σ -> is_ret i (s_cl σ o) -> sstep o Go σ = Some σ' ->
  (is_ret i (s_cl σ' o) /\ (lv (s_cl σ' o) = Some i -> lv (s_cl σ o) = Some i \/ (s_cl σ o = TCas i (s_tag σ i) /\ is_reserved (s_tag σ i) = false)) /\
     (lv (s_cl σ o) = Some i -> lv (s_cl σ' o) = Some i) /\ s_data σ' = s_data σ) \/
  (s_cl σ' o = CIdle /\ exists r, s_log σ' = s_log σ ++ [SRetire o i r] /\ (r = None <-> lv (s_cl σ o) = Some i)).
Proof.
  intros I A S. pose proof (v_pc _ _ _ I o) as W. pose proof (v_link _ _ _ I o) as L. rewrite sstep_go in S. unfold go, rstep in S.
  destruct A as [(c & [P|[P|P]])|[P|P]];
    [| | | |destruct (s_cl σ o) eqn:P'; try discriminate P; cbn in P; injection P as ->; rename P' into P];
    try rewrite P in *; cbn [pcw rk] in *.
  - destruct (step _ _ _); [|discriminate]. inv S. left. cbn. rewrite upd_eq. unfold is_ret. cbn. split; [left; eauto|]. repeat split; intros; discriminate.
  - destruct (step _ _ _) eqn:E; [|discriminate]. cbn [set_reg s_reg] in S. pose proof (go_guard_kind _ _ _ E L) as K.
    destruct (r_ag r o) eqn:Ag; try (exfalso; cbn in K; lia); injection S as <-; cbn; rewrite ?upd_eq, ?P;
      try (left; unfold is_ret; cbn; split; [left; eauto|]; repeat split; intros; discriminate).
    right. split; [reflexivity|]. eexists. split; [reflexivity|]. split; discriminate.
  - destruct (s_tag σ i =? c)%N eqn:E; injection S as <-; left; cbn; rewrite upd_eq; unfold is_ret; cbn.
    + apply N.eqb_eq in E. subst c. split; [auto|]. split; [right; tauto|]. split; [discriminate|reflexivity].
    + split; [auto|]. repeat split; intros; discriminate.
  - destruct (step _ _ _); [|discriminate]. inv S. right. cbn. rewrite upd_eq. split; [reflexivity|]. eexists. split; [reflexivity|]. split; discriminate.
  - injection S as <-. left. cbn. rewrite upd_eq. unfold is_ret. cbn. auto.
  - destruct (step _ _ _); [|discriminate]. inv S. left. cbn. rewrite upd_eq. unfold is_ret. cbn. auto.
  - destruct (step _ _ _); [|discriminate]. inv S. right. cbn. rewrite upd_eq. split; [reflexivity|]. eexists. split; [reflexivity|]. split; reflexivity.
Qed.

Lemma icl_others sh x a m m' o : istep sh x a m = Some m' -> o <> x -> m_cl m' o = m_cl m o.
Proof.
  intros S N. unfold istep in S. destruct (m_cl m x), a; try discriminate S;
  repeat match type of S with context [match ?y with _ => _ end] => destruct y end; try discriminate S; injection S as <-;
  cbn [im_fwd im_bwd im_fl im_bl im_cl im_emit m_cl]; try reflexivity; apply upd_neq; congruence.
Qed.
(** How a step changes the mapping. *)
Lemma ifwd_step sh x a m m' : istep sh x a m = Some m' ->
  (m_fwd m' = m_fwd m) \/ (exists e i, m_cl m x = ISet e i /\ m_fwd m' = upd (m_fwd m) e (Some i)) \/
  (exists e i, m_cl m x = OHeld e i /\ a = CDelete /\ m_fwd m' = upd (m_fwd m) e None).
Proof.
  intros S. unfold istep in S. destruct (m_cl m x) eqn:P, a; try discriminate S;
  repeat match type of S with context [match ?y with _ => _ end] => destruct y end; try discriminate S; injection S as <-;
  cbn [im_fwd im_bwd im_fl im_bl im_cl im_emit m_fwd]; eauto 8.
Qed.

(** ** The invariant *)
Definition rdr (s : pc) : Prop := s = CIdle \/ s = RGuard \/ exists g, s = RHeld g.
Definition pcok (p : provider) (t : nat) : Prop :=
  let s := s_cl (p_st p) t in let m := m_cl (p_im p) t in
  let cur := current (p_log p) in let fwd := m_fwd (p_im p) in
  match p_cl p t with
  | PIdle => m = IIdle /\ rdr s
  | PAcq _ _ => m = IIdle /\ is_acq s = true
  | PWrite _ _ i => m = IIdle /\ s = WHeld i
  | PIns e v i => s = WHeld i /\ s_data (p_st p) i = v /\
      (m = IFwd e i \/ m = IBwd e i \/ m = ISet e i \/ exists r, m = IUnl r /\ fwd e = Some i /\ cur e = None)
  | PPub e v i => m = IIdle /\ (s = WHeld i \/ s = WPub i) /\ s_data (p_st p) i = v /\ fwd e = Some i /\ cur e = None
  | PDrop e i => m = IIdle /\ (s = WHeld i \/ s = WDrop i)
  | POcc e => s = CIdle /\ (m = OFwd e \/ exists i, m = OBwd e i)
  | PRet e i => m = OHeld e i /\ (s = CIdle \/ (is_ret i s /\ (lv s = Some i -> exists v, cur e = Some (i, v))))
  | PDel e i => s = CIdle /\ ((m = OHeld e i /\ (exists v, cur e = Some (i, v)) /\ live (s_log (p_st p)) i false = false) \/ m = ODel e i)
  | PErr e i => s = CIdle /\ (m = OHeld e i \/ exists r, m = IUnl r)
  end.
(** The set that made the mapping is still in progress; it is complete; its deletion is under way. *)
Definition pre (p : provider) (e i : nat) : Prop :=
  current (p_log p) e = None /\ exists t v, p_cl p t = PPub e v i \/ (p_cl p t = PIns e v i /\ exists r, m_cl (p_im p) t = IUnl r).
Definition alive (p : provider) (e i : nat) : Prop :=
  exists v, current (p_log p) e = Some (i, v) /\ s_tag (p_st p) i = PUBLISHED /\ s_data (p_st p) i = v.
Definition gone (p : provider) (e i : nat) : Prop :=
  (exists v, current (p_log p) e = Some (i, v)) /\
  exists t, (p_cl p t = PRet e i /\ lv (s_cl (p_st p) t) = Some i) \/ (p_cl p t = PDel e i /\ m_cl (p_im p) t = OHeld e i).
Definition phase (p : provider) (e i : nat) : Prop := pre p e i \/ alive p e i \/ gone p e i.
Record PInv (sh : nat -> nat) (ng : nat) (init : nat -> bytes) (p : provider) : Prop := {
  p_s : SInv ng init (p_st p);
  p_j : JInv (p_st p);
  p_i : IInv sh (p_im p);
  p_pc : forall t, pcok p t;
  p_map : forall e i, m_fwd (p_im p) e = Some i -> phase p e i;
  p_cur : forall e i v, current (p_log p) e = Some (i, v) -> m_fwd (p_im p) e = Some i
}.
Lemma current_snoc l ev : current (l ++ [ev]) = papply (current l) ev.
Proof. unfold current. now rewrite fold_left_app. Qed.
Lemma one_owner sh m t t' e i i' : IInv sh m -> m_cl m t = OHeld e i -> m_cl m t' = OHeld e i' -> t = t'.
Proof.
  intros I A B. assert (X : m_fl m (sh e) = Some t) by (apply (i_fl _ _ I); now rewrite A).
  assert (Y : m_fl m (sh e) = Some t') by (apply (i_fl _ _ I); now rewrite B). congruence.
Qed.
Lemma one_slot ng init st t t' i : SInv ng init st -> (s_cl st t = WHeld i \/ s_cl st t = WPub i) -> (s_cl st t' = WHeld i \/ s_cl st t' = WPub i) -> t = t'.
Proof.
  intros I A B.
  assert (X : exists r, rl (s_cl st t) = Some (i, r)) by (destruct A as [-> | ->]; cbn; eauto).
  assert (Y : exists r, rl (s_cl st t') = Some (i, r)) by (destruct B as [-> | ->]; cbn; eauto).
  destruct X, Y. eapply (v_uniq _ _ _ I); eauto.
Qed.
Lemma pre_owner sh ng init p e i : PInv sh ng init p -> pre p e i ->
  m_fwd (p_im p) e = Some i /\ being_set p e i /\ exists t, (p_cl p t = PPub e (s_data (p_st p) i) i \/ p_cl p t = PIns e (s_data (p_st p) i) i).
Proof.
  intros I (C & t & v & A). pose proof (p_pc _ _ _ _ I t) as K. unfold pcok in K. destruct A as [A|(A & r & B)]; rewrite A in K.
  - destruct K as (_ & S & D & F & _). split; [assumption|]. split; [exists t, v; auto|]. exists t. rewrite D. auto.
  - destruct K as (S & D & [X|[X|[X|(r' & _ & F & _)]]]); try congruence. split; [assumption|]. split; [exists t, v; auto|]. exists t. rewrite D. auto.
Qed.
(** Steps that leave the log's meaning and the id map alone. *)
Lemma pinv_store sh ng init p t c st' pc l : PInv sh ng init p -> sstep t c (p_st p) = Some st' ->
  current (p_log p ++ l) = current (p_log p) ->
  let p' := p_go p st' (p_im p) t pc l in
  pcok p' t ->
  (forall e i, pre p e i -> pre p' e i) ->
  (forall e i, p_cl p t = PRet e i -> lv (s_cl (p_st p) t) = Some i ->
     (pc = PRet e i /\ lv (s_cl st' t) = Some i) \/ (pc = PDel e i /\ m_cl (p_im p) t = OHeld e i)) ->
  (forall e i, p_cl p t = PDel e i -> m_cl (p_im p) t <> OHeld e i) ->
  (forall i, s_cl (p_st p) t = TCas i PUBLISHED -> s_cl st' t = TMir i -> exists e, p_cl p t = PRet e i /\ pc = PRet e i) ->
  (forall i, s_cl (p_st p) t = WPub i -> exists e v, p_cl p t = PPub e v i) ->
  PInv sh ng init p'.
Proof.
  intros I S EC p' K HP HR HD HT HW. pose proof I as [Is Ij Ii Ip Im Ic].
  assert (OC : forall x, x <> t -> s_cl st' x = s_cl (p_st p) x) by (intros x N; eapply cl_others; eauto).
  assert (PC : forall x, x <> t -> p_cl p' x = p_cl p x) by (intros x N; cbn; now apply upd_neq).
  assert (CU : current (p_log p') = current (p_log p)) by exact EC.
  assert (DK : forall x i, (s_cl (p_st p) x = WHeld i \/ s_cl (p_st p) x = WPub i) -> x <> t -> s_data st' i = s_data (p_st p) i).
  { intros x i H N. destruct (data_keeps _ _ _ _ i S) as [D|(_ & D)]; [exact D|]. exfalso. apply N. eapply one_slot; eauto. }
  constructor.
  - eapply sinv_step; eauto.
  - exact (jinv_step _ _ _ _ _ _ Is Ij S).
  - exact Ii.
  - intros x. destruct (Nat.eq_dec x t) as [->|N]; [exact K|]. specialize (Ip x). unfold pcok in *. rewrite CU, PC by assumption.
    change (p_im p') with (p_im p). change (p_st p') with st'. rewrite OC by assumption.
    destruct (p_cl p x) eqn:P; try exact Ip.
    + destruct Ip as (A & B & C). rewrite (DK x) by auto. auto.
    + destruct Ip as (A & B & C & D). rewrite (DK x) by auto. auto.
    + destruct Ip as (A & [(B & (v & C) & D)|B]); split; auto. left. split; [assumption|]. split; [eauto|].
      destruct (live (s_log st') i false) eqn:L; [|reflexivity]. exfalso. destruct (live_keeps _ _ _ _ _ S L) as [Y|Y]; [congruence|].
      destruct (HW _ Y) as (e' & v' & Q). pose proof (p_pc _ _ _ _ I t) as Z. unfold pcok in Z. rewrite Q in Z. destruct Z as (_ & _ & _ & F & C').
      assert (e' = e); [|congruence]. eapply (i_inj _ _ Ii); eauto.
  - intros e i F. destruct (Im e i F) as [A|[(v & A & B & C)|((v & A) & x & B)]].
    + left. auto.
    + right. destruct (pub_keeps _ _ _ _ _ _ i Is S B) as [T|(T & T')].
      * left. exists v. rewrite CU. split; [assumption|]. split; [assumption|]. cbn [p' p_go p_st].
        destruct (data_keeps _ _ _ _ i S) as [D|((w & ->) & D)]; [congruence|]. exfalso.
        destruct (v_role _ _ _ Is t i Own) as (_ & E & _); [now rewrite D|]. rewrite B in E. discriminate.
      * right. split; [rewrite CU; eauto|]. destruct (HT _ T T') as (e' & Q & ->). exists t. left.
        assert (e' = e) as <-. { pose proof (Ip t) as Z. unfold pcok in Z. rewrite Q in Z. destruct Z as (Z & _).
          pose proof (i_pc _ _ Ii t) as W. rewrite Z in W. cbn in W. eapply (i_inj _ _ Ii); eauto. }
        cbn. rewrite upd_eq, T'. auto.
    + right. right. split; [rewrite CU; eauto|]. exists x. destruct (Nat.eq_dec x t) as [->|N].
      * destruct B as [(B & L)|(B & L)]; [|exfalso; eapply HD; eauto]. cbn. rewrite upd_eq. destruct (HR _ _ B L) as [(-> & H)|(-> & H)]; auto.
      * rewrite PC by assumption. cbn [p' p_go p_st p_im]. now rewrite OC.
  - intros e i v. rewrite CU. apply Ic.
Qed.
Lemma pre_keep p p' t : (forall x, x <> t -> p_cl p' x = p_cl p x /\ m_cl (p_im p') x = m_cl (p_im p) x) ->
  current (p_log p') = current (p_log p) ->
  (forall e v i, p_cl p t = PPub e v i -> p_cl p' t = PPub e v i) ->
  (forall e v i r, p_cl p t = PIns e v i -> m_cl (p_im p) t = IUnl r -> p_cl p' t = PPub e v i \/ (p_cl p' t = PIns e v i /\ exists r, m_cl (p_im p') t = IUnl r)) ->
  forall e i, pre p e i -> pre p' e i.
Proof.
  intros O C A B e i (H & x & v & K). split; [congruence|]. exists x, v. destruct (Nat.eq_dec x t) as [->|N].
  - destruct K as [K|(K & r & M)]; eauto.
  - destruct (O x N) as (-> & ->). exact K.
Qed.
Lemma pinv_map sh ng init p t a im' p' : PInv sh ng init p -> istep sh t a (p_im p) = Some im' ->
  p_st p' = p_st p -> p_im p' = im' -> (forall x, x <> t -> p_cl p' x = p_cl p x) ->
  pcok p' t ->
  (m_fwd im' = m_fwd (p_im p) /\ current (p_log p') = current (p_log p) /\ (forall e i, pre p e i -> pre p' e i) /\
   (forall e i, p_cl p t <> PRet e i) /\ (forall e i, p_cl p t = PDel e i -> m_cl (p_im p) t <> OHeld e i)) \/
  (exists e v i r, p_cl p t = PIns e v i /\ m_cl (p_im p) t = ISet e i /\ p_cl p' t = PIns e v i /\ m_cl im' t = IUnl r /\
     m_fwd im' = upd (m_fwd (p_im p)) e (Some i) /\ current (p_log p') = current (p_log p)) \/
  (exists e i, p_cl p t = PDel e i /\ m_cl (p_im p) t = OHeld e i /\ m_fwd im' = upd (m_fwd (p_im p)) e None /\
     current (p_log p') = upd (current (p_log p)) e None) ->
  PInv sh ng init p'.
Proof.
  intros I S Es Em PC K H. pose proof I as [Is Ij Ii Ip Im Ic].
  assert (OC : forall x, x <> t -> m_cl im' x = m_cl (p_im p) x) by (intros x N; eapply icl_others; eauto).
  assert (OO : forall x, x <> t -> p_cl p' x = p_cl p x /\ m_cl (p_im p') x = m_cl (p_im p) x).
  { intros x N. rewrite Em. split; auto. }
  constructor; rewrite ?Es, ?Em; try assumption.
  - eapply iinv_step; eauto.
  - intros x. destruct (Nat.eq_dec x t) as [->|N]; [exact K|]. specialize (Ip x). unfold pcok in *. rewrite Es, Em, PC, OC by assumption.
    destruct H as [(F & C & _)|[(e & v & i & r & P & M & _ & _ & F & C)|(e & i & P & M & F & C)]]; rewrite F, C.
    + exact Ip.
    + pose proof (i_pc _ _ Ii t) as W. rewrite M in W. destruct W as (W & _).
      destruct (p_cl p x) eqn:Px; try exact Ip.
      * destruct Ip as (A & B & [D|[D|[D|(r' & D & E & G)]]]); repeat split; auto. right. right. right. exists r'. split; [assumption|]. split; [|assumption].
        rewrite upd_neq; [assumption|congruence].
      * destruct Ip as (A & B & D & E & G). repeat split; auto. rewrite upd_neq; [assumption|congruence].
    + pose proof (Ip' := p_pc _ _ _ _ I t). unfold pcok in Ip'. rewrite P in Ip'. destruct Ip' as (_ & [(_ & (v & Cv) & _)|X]); [|congruence].
      pose proof (i_pc _ _ Ii t) as W. rewrite M in W. cbn in W.
      destruct (p_cl p x) eqn:Px; try exact Ip.
      * destruct Ip as (A & B & [D|[D|[D|(r' & D & E & G)]]]); repeat split; auto. right. right. right. exists r'. split; [assumption|].
        rewrite !upd_neq by congruence. auto.
      * destruct Ip as (A & B & D & E & G). repeat split; auto; rewrite upd_neq by congruence; assumption.
      * destruct Ip as (A & [B|(B & D)]); split; auto. right. split; [assumption|]. rewrite upd_neq; [assumption|].
        intros ->. apply N. eapply (one_owner _ _ x t); eauto.
      * destruct Ip as (A & [(B & D & E)|B]); split; auto. left. split; [assumption|]. split; [|assumption]. rewrite upd_neq; [assumption|].
        intros ->. apply N. eapply (one_owner _ _ x t); eauto.
  - intros e' i' F'. destruct H as [(F & C & HP & HR & HD)|[(e & v & i & r & P & M & P' & M' & F & C)|(e & i & P & M & F & C)]]; rewrite F in F'.
    + destruct (Im e' i' F') as [A|[(v & A & B & D)|((v & A) & x & B)]].
      * left. auto.
      * right. left. exists v. rewrite C, Es. auto.
      * right. right. split; [rewrite C; eauto|]. exists x. rewrite Es, Em. destruct (Nat.eq_dec x t) as [->|N].
        -- exfalso. destruct B as [(B & _)|(B & G)]; [eapply HR; eauto|eapply HD; eauto].
        -- destruct (OO x N) as (-> & _). rewrite OC by assumption. exact B.
    + pose proof (i_pc _ _ Ii t) as W. rewrite M in W. destruct W as (W & _).
      destruct (upd_cases (m_fwd (p_im p)) e (Some i) e') as [(-> & X)|(N & X)]; rewrite X in F'.
      * injection F' as <-. left. split.
        -- rewrite C. destruct (current (p_log p) e) as [(i0, v0)|] eqn:Z; [|reflexivity]. apply Ic in Z. congruence.
        -- exists t, v. right. rewrite Em. eauto.
      * destruct (Im e' i' F') as [A|[(v' & A & B & D)|((v' & A) & x & B)]].
        -- left. eapply (pre_keep p p' t); eauto; [intros; congruence|]. intros e2 v2 i2 r2 X1 X2. congruence.
        -- right. left. exists v'. rewrite C, Es. auto.
        -- right. right. split; [rewrite C; eauto|]. exists x. rewrite Es, Em. destruct (Nat.eq_dec x t) as [->|Nx].
           ++ exfalso. destruct B as [(B & _)|(B & G)]; congruence.
           ++ rewrite PC, OC by assumption. exact B.
    + destruct (upd_cases (m_fwd (p_im p)) e None e') as [(-> & X)|(N & X)]; rewrite X in F'; [discriminate|].
      destruct (Im e' i' F') as [(A & x & v & B)|[(v & A & B & D)|((v & A) & x & B)]].
      * left. split; [rewrite C, upd_neq; assumption|]. exists x, v. destruct (Nat.eq_dec x t) as [->|Nx]; [exfalso; destruct B as [B|(B & _)]; congruence|].
        rewrite Em, PC, OC by assumption. exact B.
      * right. left. exists v. rewrite C, Es, upd_neq by assumption. auto.
      * right. right. split; [rewrite C, upd_neq by assumption; eauto|]. exists x. rewrite Es, Em. destruct (Nat.eq_dec x t) as [->|Nx].
        -- exfalso. destruct B as [(B & _)|(B & G)]; congruence.
        -- rewrite PC, OC by assumption. exact B.
  - intros e' i' v' Cu. destruct H as [(F & C & _)|[(e & v & i & r & P & M & P' & M' & F & C)|(e & i & P & M & F & C)]]; rewrite F; rewrite C in Cu.
    + eauto.
    + apply Ic in Cu. pose proof (i_pc _ _ Ii t) as W. rewrite M in W. destruct W as (W & _). rewrite upd_neq; [assumption|congruence].
    + destruct (upd_cases (current (p_log p)) e None e') as [(-> & X)|(N & X)]; rewrite X in Cu; [discriminate|]. rewrite upd_neq by assumption. eauto.
Qed.
Lemma pinv_pub sh ng init p t e v i st' : PInv sh ng init p -> p_cl p t = PPub e v i -> s_cl (p_st p) t = WPub i ->
  sstep t Go (p_st p) = Some st' -> PInv sh ng init (p_go p st' (p_im p) t PIdle [PSetOk t e i v]).
Proof.
  intros I P W S. pose proof I as [Is Ij Ii Ip Im Ic]. set (p' := p_go p st' (p_im p) t PIdle [PSetOk t e i v]).
  pose proof (Ip t) as Kt. unfold pcok in Kt. rewrite P in Kt. destruct Kt as (Mt & _ & Dt & Ft & Ct).
  assert (PC : forall x, x <> t -> p_cl p' x = p_cl p x) by (intros x N; cbn; now apply upd_neq).
  assert (CU : current (p_log p') = upd (current (p_log p)) e (Some (i, v))) by (cbn; apply current_snoc).
  pose proof S as E. rewrite sstep_go in E. unfold go in E. rewrite W in E. injection E as E.
  assert (OC : forall x, x <> t -> s_cl st' x = s_cl (p_st p) x) by (intros x N; subst st'; cbn; now apply upd_neq).
  constructor; try assumption.
  - eapply sinv_step; eauto.
  - exact (jinv_step _ _ _ _ _ _ Is Ij S).
  - intros x. destruct (Nat.eq_dec x t) as [->|N].
    + unfold pcok. cbn. rewrite upd_eq. split; [assumption|]. subst st'. cbn. rewrite upd_eq. now left.
    + specialize (Ip x). unfold pcok in *. rewrite CU, PC by assumption. change (p_im p') with (p_im p). change (p_st p') with st'. rewrite OC by assumption.
      assert (NE : forall e' i', (s_cl (p_st p) x = WHeld i' \/ s_cl (p_st p) x = WPub i') -> m_fwd (p_im p) e' = Some i' -> e' <> e).
      { intros e' i' H1 H2 ->. assert (i' = i) by congruence. subst i'. apply N. eapply one_slot; eauto. }
      assert (DA : s_data st' = s_data (p_st p)) by (subst st'; reflexivity).
      destruct (p_cl p x) eqn:Px; try exact Ip.
      * destruct Ip as (A & B & [D|[D|[D|(r' & D & F & G)]]]); rewrite DA; repeat split; auto. right. right. right. exists r'. split; [assumption|]. split; [assumption|].
        rewrite upd_neq; eauto.
      * destruct Ip as (A & B & D & F & G). rewrite DA. repeat split; auto. rewrite upd_neq; eauto.
      * destruct Ip as (A & [B|(B & D)]); split; auto. right. split; [assumption|]. intros L. rewrite upd_neq; [auto|]. intros ->. destruct (D L). congruence.
      * destruct Ip as (A & [(B & (v0 & D) & L)|B]); split; auto. left. split; [assumption|]. rewrite upd_neq by (intros ->; congruence). split; [eauto|].
        destruct (live (s_log st') i0 false) eqn:L'; [|reflexivity]. exfalso. destruct (live_keeps _ _ _ _ _ S L') as [Y|Y]; [congruence|].
        assert (i0 = i) by congruence. subst i0. pose proof (Ic _ _ _ D). assert (e0 = e) by (eapply (i_inj _ _ Ii); eauto). subst e0. congruence.
  - intros e' i' F. change (p_im p') with (p_im p) in F. destruct (Nat.eq_dec e' e) as [->|N].
    + assert (i' = i) by congruence. subst i'. right. left. exists v. rewrite CU, upd_eq. split; [reflexivity|]. cbn [p' p_go p_st]. subst st'. cbn. rewrite upd_eq. auto.
    + destruct (Im e' i' F) as [(A & x & v0 & B)|[(v0 & A & B & C)|((v0 & A) & x & B)]].
      * left. split; [rewrite CU, upd_neq; assumption|]. exists x, v0. destruct (Nat.eq_dec x t) as [->|Nx]; [exfalso; destruct B as [B|(B & _)]; congruence|].
        rewrite PC by assumption. exact B.
      * right. left. exists v0. rewrite CU, upd_neq by assumption. split; [assumption|]. cbn [p' p_go p_st]. subst st'. cbn. split; [ups; auto|assumption].
      * right. right. split; [rewrite CU, upd_neq by assumption; eauto|]. exists x. destruct (Nat.eq_dec x t) as [->|Nx].
        -- exfalso. destruct B as [(B & _)|(B & _)]; congruence.
        -- rewrite PC by assumption. cbn [p' p_go p_st p_im]. rewrite OC by assumption. exact B.
  - intros e' i' v'. rewrite CU. change (p_im p') with (p_im p). destruct (upd_cases (current (p_log p)) e (Some (i, v)) e') as [(-> & X)|(N & X)]; rewrite X; [|eauto].
    intros H. injection H as <- <-. assumption.
Qed.
Lemma rdr_step st t c st' : rdr (s_cl st t) -> reader_act c = true -> sstep t c st = Some st' -> rdr (s_cl st' t).
Proof.
  intros R A S. unfold rdr in *. scases S; try discriminate A; destruct R as [R|[R|(g & R)]]; try congruence;
  cbn [set_cl set_tag set_mir set_data set_fl set_reg semit panic s_cl]; rewrite ?upd_eq; eauto; rewrite Heqp; eauto.
Qed.
Ltac pcgo := unfold pcok; cbn [p_go p_cl p_st p_im p_log]; rewrite upd_eq.
Ltac prek P := eapply (pre_keep _ _ P); [intros x N; cbn [p_go p_cl p_st p_im p_log]; split; [now apply upd_neq|try reflexivity; eapply icl_others; eauto]
  |cbn [p_go p_log]; first [rewrite app_nil_r; reflexivity|apply current_snoc]|intros; try congruence|intros; try congruence].
Ltac sto P := eapply pinv_store; eauto;
  [first [rewrite app_nil_r; reflexivity|apply current_snoc]
  |pcgo
  |prek P
  |intros; try congruence
  |intros; try congruence
  |intros; try congruence
  |intros; try congruence].
Lemma pinv_step sh ng init p t a p' : PInv sh ng init p -> pstep sh t a p = Some p' -> PInv sh ng init p'.
Proof.
  intros I S. pose proof I as [Is Ij Ii Ip Im Ic]. pose proof (Ip t) as K. unfold pcok in K. unfold pstep in S.
  destruct (p_cl p t) eqn:P, a; try discriminate S.
  - (* ASet *) destruct K as (Km & Ks). destruct (sstep _ _ _) as [st'|] eqn:E; [|discriminate]. injection S as <-.
    pose proof E as E'. unfold sstep in E'. destruct (s_cl (p_st p) t) eqn:Q; try discriminate. injection E' as E'.
    sto t. split; [assumption|]. subst st'. cbn. now rewrite upd_eq.
  - (* ADelete *) destruct K as (Km & Ks). destruct (s_cl (p_st p) t) eqn:Q; try discriminate. destruct (istep _ _ _ _) as [im'|] eqn:E; [|discriminate]. injection S as <-.
    pose proof E as E'. unfold istep in E'. rewrite Km in E'. injection E' as E'.
    eapply pinv_map; eauto; cbn [p_go p_cl p_st p_im p_log]; auto.
    + intros x N. now apply upd_neq.
    + pcgo. split; [assumption|]. left. subst im'. cbn. apply upd_eq.
    + left. split; [subst im'; reflexivity|]. split; [now rewrite app_nil_r|]. split; [prek t|]. split; intros; congruence.
  - (* ARead *) destruct K as (Km & Ks). destruct (reader_act c) eqn:A; [|discriminate]. destruct (sstep _ _ _) as [st'|] eqn:E; [|discriminate]. injection S as <-.
    sto t.
    + split; [assumption|]. eapply rdr_step; eauto.
    + exfalso. unfold rdr in Ks. destruct Ks as [Ks|[Ks|(g & Ks)]]; congruence.
    + exfalso. unfold rdr in Ks. destruct Ks as [Ks|[Ks|(g & Ks)]]; congruence.
  - (* PAcq *) destruct K as (Km & Ks). destruct (sstep _ _ _) as [st'|] eqn:E; [|discriminate].
    assert (N1 : forall i, s_cl (p_st p) t <> TCas i PUBLISHED) by (intros i X; rewrite X in Ks; discriminate).
    assert (N2 : forall i, s_cl (p_st p) t <> WPub i) by (intros i X; rewrite X in Ks; discriminate).
    destruct (acq_step _ _ _ Ks E) as [X|[X|(i & X)]].
    + assert (p' = p_go p st' (p_im p) t (PAcq e v) []) as ->.
      { destruct (s_cl st' t); try discriminate X; congruence. }
      sto t. auto.
    + rewrite X in S. injection S as <-. sto t. split; [assumption|]. left. assumption.
    + rewrite X in S. injection S as <-. sto t. auto.
  - (* PWrite *) destruct K as (Km & Ks). destruct (sstep _ _ _) as [st'|] eqn:E; [|discriminate]. destruct (istep _ _ _ _) as [im'|] eqn:F; [|discriminate].
    pose proof E as E'. unfold sstep in E'. rewrite Ks in E'. destruct (_ =? _); [|discriminate]. injection E' as E'.
    assert (I1 : PInv sh ng init (p_go p st' (p_im p) t (PWrite e v i) [])).
    { sto t. split; [assumption|]. subst st'. cbn. assumption. }
    pose proof F as F'. unfold istep in F'. rewrite Km in F'.
    assert (Hs : s_cl st' t = WHeld i) by (subst st'; cbn; assumption).
    assert (Hd : s_data st' i = v) by (subst st'; cbn; apply upd_eq).
    assert (G : p' = p_go p st' im' t (PDrop e i) [] /\ m_cl im' t = IIdle \/ p' = p_go p st' im' t (PIns e v i) [] /\ m_cl im' t = IFwd e i).
    { destruct (m_cap _ <=? i); injection F' as F'; subst im'; cbn in *; rewrite ?upd_eq, ?Km in *; injection S as <-; auto. }
    assert (Hf : m_fwd im' = m_fwd (p_im p)) by (destruct (m_cap _ <=? i); injection F' as <-; reflexivity).
    destruct G as [(-> & G)|(-> & G)];
    (eapply pinv_map; [exact I1|exact F|reflexivity|reflexivity|intros x N; cbn; rewrite !upd_neq by assumption; reflexivity|pcgo; auto|
      left; split; [assumption|]; split; [cbn; now rewrite !app_nil_r|]; split;
      [eapply (pre_keep _ _ t); [intros x N; cbn; rewrite !upd_neq by assumption; split; [reflexivity|eapply icl_others; eauto]|cbn; now rewrite !app_nil_r|cbn; rewrite upd_eq; intros; congruence|cbn; rewrite upd_eq; intros; congruence]
      |cbn; rewrite upd_eq; split; intros; congruence]]).
  - (* AFail *) destruct K as (Km & Ks). destruct (sstep _ _ _) as [st'|] eqn:E; [|discriminate]. injection S as <-.
    pose proof E as E'. unfold sstep in E'. rewrite Ks in E'. destruct (_ =? _); [|discriminate]. injection E' as E'.
    sto t. split; [assumption|]. left. subst st'. cbn. assumption.
  - (* PIns *) destruct K as (Ks & Kd & Km). destruct (istep _ _ _ _) as [im'|] eqn:E; [|discriminate].
    pose proof E as E'. unfold istep in E'.
    assert (MP : forall pc', p' = p_go p (p_st p) im' t pc' [] -> pcok p' t -> m_fwd im' = m_fwd (p_im p) -> 
      (forall r, m_cl (p_im p) t = IUnl r -> pc' = PPub e v i) -> PInv sh ng init p').
    { intros pc' -> X F Y. eapply pinv_map; eauto; cbn [p_go p_cl p_st p_im p_log].
      - intros x N. now apply upd_neq.
      - left. split; [assumption|]. split; [now rewrite app_nil_r|]. split; [|split; intros; congruence]. prek t.
        left. cbn. rewrite upd_eq, (Y r) by assumption. congruence. }
    destruct Km as [Km|[Km|[Km|(r & Km & Kf & Kc)]]]; rewrite Km in *.
    + destruct (m_fl _ _); [discriminate|]. destruct (m_fwd (p_im p) e) eqn:Fe; injection E' as E'; subst im'; cbn in S; rewrite upd_eq in S; injection S as <-.
      * eapply MP; [reflexivity| |reflexivity|discriminate]. pcgo. cbn. rewrite upd_eq. auto.
      * eapply MP; [reflexivity| |reflexivity|discriminate]. pcgo. cbn. rewrite upd_eq. auto.
    + destruct (m_bl _ _); [discriminate|]. destruct (m_bwd (p_im p) i) eqn:Fe; injection E' as E'; subst im'; cbn in S; rewrite upd_eq in S; injection S as <-.
      * eapply MP; [reflexivity| |reflexivity|discriminate]. pcgo. cbn. rewrite upd_eq. auto.
      * eapply MP; [reflexivity| |reflexivity|discriminate]. pcgo. cbn. rewrite upd_eq. auto 8.
    + injection E' as E'. assert (M' : m_cl im' t = IUnl (bshard i)) by (subst im'; cbn; apply upd_eq). rewrite M' in S. injection S as <-.
      pose proof (i_pc _ _ Ii t) as W. rewrite Km in W. destruct W as (W & _).
      eapply pinv_map; eauto; cbn [p_go p_cl p_st p_im p_log].
      * intros x N. now apply upd_neq.
      * pcgo. split; [assumption|]. split; [assumption|]. right. right. right. exists (bshard i). split; [assumption|]. rewrite app_nil_r. split; [subst im'; cbn; apply upd_eq|].
        destruct (current (p_log p) e) as [(i0, v0)|] eqn:Z; [|reflexivity]. apply Ic in Z. congruence.
      * right. left. exists e, v, i, (bshard i). rewrite upd_eq, app_nil_r. repeat split; auto. subst im'. reflexivity.
    + injection E' as E'. assert (M' : m_cl im' t = IIdle) by (subst im'; cbn; apply upd_eq). rewrite M' in S. injection S as <-.
      eapply MP; [reflexivity| |subst im'; reflexivity|reflexivity]. pcgo. rewrite app_nil_r. subst im'. cbn. rewrite upd_eq. auto 8.
  - (* PPub *) destruct K as (Km & Ks & Kd & Kf & Kc). destruct Ks as [Ks|Ks].
    + rewrite Ks in S. destruct (sstep _ _ _) as [st'|] eqn:E; [|discriminate]. injection S as <-.
      pose proof E as E'. unfold sstep in E'. rewrite Ks in E'. injection E' as E'.
      sto t.
      * rewrite app_nil_r. subst st'. cbn. rewrite upd_eq. auto 8.
      * cbn. rewrite upd_eq. congruence.
    + rewrite Ks in S. destruct (sstep _ _ _) as [st'|] eqn:E; [|discriminate]. injection S as <-. eapply pinv_pub; eauto.
  - (* PDrop *) destruct K as (Km & Ks). destruct Ks as [Ks|Ks]; rewrite Ks in S; destruct (sstep _ _ _) as [st'|] eqn:E; try discriminate; injection S as <-;
    pose proof E as E'; [unfold sstep in E'|rewrite sstep_go in E'; unfold go in E']; rewrite Ks in E'; injection E' as E'; sto t; subst st'; cbn; rewrite upd_eq; unfold rdr; auto.
  - (* POcc *) destruct K as (Ks & Km). destruct (istep _ _ _ _) as [im'|] eqn:E; [|discriminate]. pose proof E as E'. unfold istep in E'.
    assert (MP : forall pc' l, p' = p_go p (p_st p) im' t pc' l -> current (p_log p ++ l) = current (p_log p) -> pcok p' t -> m_fwd im' = m_fwd (p_im p) -> PInv sh ng init p').
    { intros pc' l -> C X F. eapply pinv_map; eauto; cbn [p_go p_cl p_st p_im p_log].
      - intros x N. now apply upd_neq.
      - left. split; [assumption|]. split; [assumption|]. split; [|split; intros; congruence].
        eapply (pre_keep _ _ t); [intros x N; cbn; rewrite !upd_neq by assumption; split; [reflexivity|eapply icl_others; eauto]|exact C|intros; congruence|intros; congruence]. }
    destruct Km as [Km|(i & Km)]; rewrite Km in *.
    + destruct (m_fl _ _); [discriminate|]. destruct (m_fwd (p_im p) e) eqn:Fe; injection E' as E'; subst im'; cbn in S; rewrite upd_eq in S; injection S as <-.
      * eapply MP; [reflexivity|now rewrite app_nil_r| |reflexivity]. pcgo. cbn. rewrite upd_eq. eauto.
      * eapply MP; [reflexivity|apply current_snoc| |reflexivity]. pcgo. cbn. rewrite upd_eq. unfold rdr. auto.
    + destruct (m_bl _ _); [discriminate|]. pose proof (i_pc _ _ Ii t) as W. rewrite Km in W. cbn in W. destruct (i_fb _ _ Ii _ _ W) as (Wb & _). rewrite Wb in E'.
      injection E' as E'; subst im'; cbn in S; rewrite upd_eq in S; injection S as <-.
      eapply MP; [reflexivity|now rewrite app_nil_r| |reflexivity]. pcgo. cbn. rewrite upd_eq. auto.
  - (* PRet *) destruct K as (Km & Ks). pose proof (i_pc _ _ Ii t) as W. rewrite Km in W. cbn in W.
    destruct Ks as [Ks|(Ks & Kl)].
    + rewrite Ks in S. destruct (sstep _ _ _) as [st'|] eqn:E; [|discriminate]. pose proof E as E'. unfold sstep in E'. rewrite Ks in E'.
      assert (G : (s_cl st' t = CIdle /\ retired_ok t i (s_log st') = false) \/ exists c, s_cl st' t = TCall i c).
      { unfold retired_ok. destruct (negb _); [|destruct (is_reserved _)]; injection E' as <-; cbn; rewrite ?upd_eq, ?last_last; eauto. }
      destruct G as [(G & R)|(c & G)]; rewrite G in S; [rewrite R in S|]; injection S as <-; sto t.
      * auto.
      * rewrite Ks in *. discriminate.
      * split; [assumption|]. right. rewrite G. unfold is_ret. split; [left; eauto|discriminate].
      * rewrite Ks in *. discriminate.
    + destruct (sstep _ _ _) as [st'|] eqn:E; [|discriminate].
      assert (E2 : sstep t Go (p_st p) = Some st').
      { destruct (s_cl (p_st p) t); try exact E. exfalso. unfold is_ret in Ks. destruct Ks as [(c & [X|[X|X]])|[X|X]]; discriminate. }
      clear E.
      assert (WN : forall j, s_cl (p_st p) t <> WPub j).
      { intros j X. rewrite X in Ks. unfold is_ret in Ks. destruct Ks as [(c & [Y|[Y|Y]])|[Y|Y]]; discriminate. }
      assert (TC : forall j c, s_cl (p_st p) t = TCas j c -> j = i).
      { intros j c X. rewrite X in Ks. unfold is_ret in Ks. destruct Ks as [(c' & [Y|[Y|Y]])|[Y|Y]]; congruence || discriminate. }
      destruct (ret_step _ _ _ _ _ _ Is Ks E2) as [(R & L & L' & D)|(R & r & Lg & Hr)].
      * assert (p' = p_go p st' (p_im p) t (PRet e i) []) as ->.
        { destruct (s_cl st' t); try congruence. exfalso. unfold is_ret in R. destruct R as [(c & [X|[X|X]])|[X|X]]; discriminate. }
        sto t.
        -- split; [assumption|]. right. split; [assumption|]. rewrite app_nil_r. intros X. destruct (L X) as [Y|(Y & NR)]; [auto|].
           destruct (Im _ _ W) as [Z|[(v & Z & _)|((v & Z) & _)]]; [|eauto..]. exfalso.
           destruct (pre_owner _ _ _ _ _ _ I Z) as (_ & (x & v & _ & _ & H) & _).
           assert (Q : exists r, rl (s_cl (p_st p) x) = Some (i, r) /\ tag_of r = OWNED) by (destruct H as [-> | ->]; cbn; eauto).
           destruct Q as (r & Q1 & Q2). destruct (v_role _ _ _ Is _ _ _ Q1) as (_ & Q3 & _). rewrite Q3, Q2 in NR. discriminate.
        -- left. assert (e0 = e /\ i0 = i) as (-> & ->) by (split; congruence). auto.
        -- exists e. apply TC in H as ->. auto.
      * rewrite R in S. destruct (lv (s_cl (p_st p) t)) as [i1|] eqn:Lv.
        -- assert (i1 = i). { destruct (s_cl (p_st p) t); try discriminate Lv; cbn in Lv; injection Lv as <-; unfold is_ret in Ks; destruct Ks as [(c' & [Y|[Y|Y]])|[Y|Y]]; cbn in Y; congruence || discriminate. }
           subst i1. assert (r = None) by (now apply Hr). subst r.
           assert (RO : retired_ok t i (s_log st') = true) by (unfold retired_ok; rewrite Lg, last_last, !Nat.eqb_refl; reflexivity).
           rewrite RO in S. injection S as <-. sto t.
           ++ split; [assumption|]. left. split; [assumption|]. rewrite app_nil_r. split; [auto|]. rewrite Lg, live_app. cbn [live]. now rewrite Nat.eqb_refl.
           ++ right. assert (e0 = e /\ i0 = i) as (-> & ->) by (split; congruence). auto.
        -- assert (RO : retired_ok t i (s_log st') = false).
           { unfold retired_ok. rewrite Lg, last_last. destruct r; [reflexivity|]. exfalso. assert (X : @None nat = Some i) by (now apply Hr). discriminate. }
           rewrite RO in S. injection S as <-. sto t.
           ++ auto.
  - (* PDel *) destruct K as (Ks & Km). destruct Km as [(Km & Kc & Kl)|Km]; rewrite Km in S; destruct (istep _ _ _ _) as [im'|] eqn:E; try discriminate; injection S as <-;
    pose proof E as E'; unfold istep in E'; rewrite Km in E'; injection E' as E'.
    + eapply pinv_map; eauto; cbn [p_go p_cl p_st p_im p_log].
      * intros x N. now apply upd_neq.
      * pcgo. split; [assumption|]. right. subst im'. cbn. apply upd_eq.
      * right. right. exists e, i. rewrite current_snoc. repeat split; auto. subst im'. reflexivity.
    + eapply pinv_map; eauto; cbn [p_go p_cl p_st p_im p_log].
      * intros x N. now apply upd_neq.
      * pcgo. subst im'. cbn. rewrite upd_eq. unfold rdr. auto.
      * left. split; [subst im'; reflexivity|]. split; [apply current_snoc|]. split; [prek t|]. split; intros; congruence.
  - (* PErr *) destruct K as (Ks & Km). destruct Km as [Km|(r & Km)]; rewrite Km in S; destruct (istep _ _ _ _) as [im'|] eqn:E; try discriminate; injection S as <-;
    pose proof E as E'; unfold istep in E'; rewrite Km in E'; injection E' as E';
    (eapply pinv_map; eauto; cbn [p_go p_cl p_st p_im p_log];
     [intros x N; now apply upd_neq|pcgo; subst im'; cbn; rewrite upd_eq; unfold rdr; eauto
     |left; split; [subst im'; reflexivity|]; split; [apply current_snoc|]; split; [prek t|]; split; intros; congruence]).
Qed.

(** ** Reachable states *)
Lemma pinv_new sh entries bp guards cap ncols rows p : 0 < guards -> 0 < cap -> p_new entries bp guards cap ncols rows = Some p ->
  PInv sh guards (initial entries rows) p.
Proof.
  intros Hg Hc H. unfold p_new in H. destruct (store_new _ _ _ _ _ _) as [st|] eqn:E; [|discriminate]. injection H as <-.
  assert (R : sreachable entries bp guards cap ncols rows st) by (exists st, []; auto).
  destruct (reach_inv _ _ _ _ _ _ _ R) as (Is & _). destruct (reach_minv _ _ _ _ _ _ _ R) as (_ & Ij).
  constructor; cbn [p_st p_im p_cl p_log]; auto.
  - apply iinv_new.
  - intros t. unfold pcok. cbn. split; [reflexivity|]. left. now apply (new_inv _ _ _ _ _ _ _ Hg E).
  - intros e i F. discriminate.
  - intros e i v F. discriminate.
Qed.
Lemma preach_inv sh entries bp guards cap ncols rows p : preachable sh entries bp guards cap ncols rows p -> PInv sh guards (initial entries rows) p.
Proof.
  intros (p0 & sched & N & Hg & Hc & R). assert (I : PInv sh guards (initial entries rows) p0) by (eapply pinv_new; eauto). clear N.
  revert p0 I R. induction sched as [|[t a] sched IH]; intros p0 I R; cbn [prun] in R; [now inv R|].
  destruct (pstep sh t a p0) as [p1|] eqn:S; [|discriminate]. apply (IH p1); [eapply pinv_step; eauto|assumption].
Qed.
Lemma published_readable ng init st i : SInv ng init st -> s_tag st i = PUBLISHED -> i < s_n st -> readable st i (s_data st i).
Proof.
  intros I T L o g P. unfold sstep. rewrite P. destruct (Nat.ltb_spec i (s_n st)); [|lia]. cbn [negb].
  assert (M : s_mir st i = PUBLISHED).
  { destruct (v_tags _ _ _ I i L) as [(A & _)|[(_ & A)|[(A & _)|[(x & r & A)|A]]]]; try assumption; try (rewrite T in A; discriminate).
    - destruct (v_role _ _ _ I _ _ _ A) as (_ & B & _). rewrite T in B. destruct r; discriminate.
    - destruct (v_pend _ _ _ I _ A) as (j & Ej & _ & B & _). assert (j = i) by lia. subst j. rewrite T in B. discriminate. }
  rewrite M. change (can_read PUBLISHED) with true. eexists. split; reflexivity.
Qed.

Lemma icap_step sh t a m m' : istep sh t a m = Some m' -> m_cap m' = m_cap m.
Proof.
  intros S. unfold istep in S. destruct (m_cl m t), a; try discriminate S;
  repeat match type of S with context [match ?y with _ => _ end] => destruct y end; try discriminate S; injection S as <-; reflexivity.
Qed.
Lemma psize_step sh ng init t a p p' : PInv sh ng init p -> pstep sh t a p = Some p' -> m_cap (p_im p') = m_cap (p_im p) /\ s_n (p_st p') = s_n (p_st p).
Proof.
  intros I S. unfold pstep in S.
  destruct (p_cl p t), a; try discriminate S;
  repeat match type of S with
    | context [sstep ?o ?a ?r] => destruct (sstep o a r) eqn:?
    | context [istep ?s ?o ?a ?r] => destruct (istep s o a r) eqn:?
    | context [match ?y with _ => _ end] => destruct y
    | Some _ = Some _ => injection S as <-
    | None = Some _ => discriminate S
    end; cbn [p_go p_st p_im]; (split; [first [reflexivity|eapply icap_step; eauto]|first [reflexivity|eapply sconst_step; eauto; apply (p_s _ _ _ _ I)]]).
Qed.
Lemma preach_size sh entries bp guards cap ncols rows p : preachable sh entries bp guards cap ncols rows p -> m_cap (p_im p) = entries /\ s_n (p_st p) = entries + length rows.
Proof.
  intros (p0 & sched & N & Hg & Hc & R). assert (I : PInv sh guards (initial entries rows) p0) by (eapply pinv_new; eauto).
  assert (Z : m_cap (p_im p0) = entries /\ s_n (p_st p0) = entries + length rows).
  { unfold p_new in N. destruct (store_new _ _ _ _ _ _) as [st|] eqn:E; [|discriminate]. injection N as <-. cbn. split; [reflexivity|]. now apply (new_inv _ _ _ _ _ _ _ Hg E). }
  clear N. revert p0 I Z R. induction sched as [|[t a] sched IH]; intros p0 I Z R; cbn [prun] in R; [now inv R|].
  destruct (pstep sh t a p0) as [p1|] eqn:S; [|discriminate]. destruct (psize_step _ _ _ _ _ _ _ I S) as (A & B). apply (IH p1); [eapply pinv_step; eauto|split; lia|assumption].
Qed.
(** What an unlocked mapping means. *)
Lemma phase_unlocked sh entries bp guards cap ncols rows p e i : preachable sh entries bp guards cap ncols rows p ->
  m_fwd (p_im p) e = Some i -> (forall t, m_cl (p_im p) t <> OHeld e i \/ (forall e' i', p_cl p t <> PDel e' i') /\ lv (s_cl (p_st p) t) <> Some i) ->
  (being_set p e i /\ current (p_log p) e = None) \/ exists v, current (p_log p) e = Some (i, v) /\ s_tag (p_st p) i = PUBLISHED /\ readable (p_st p) i v.
Proof.
  intros HR F H. pose proof (preach_inv _ _ _ _ _ _ _ _ HR) as I. destruct (preach_size _ _ _ _ _ _ _ _ HR) as (Sc & Sn).
  destruct (p_map _ _ _ _ I e i F) as [A|[(v & A & B & C)|((v & A) & t & B)]].
  - left. split; [now apply (pre_owner _ _ _ _ _ _ I)|apply A].
  - right. exists v. split; [assumption|]. split; [assumption|]. rewrite <- C. eapply published_readable; eauto; [apply (p_s _ _ _ _ I)|].
    destruct (i_fb _ _ (p_i _ _ _ _ I) _ _ F) as (_ & X). lia.
  - exfalso. pose proof (p_pc _ _ _ _ I t) as K. unfold pcok in K. destruct B as [(B & L)|(B & L)].
    + rewrite B in K. destruct K as (K & _). destruct (H t) as [X|(X & Y)]; congruence.
    + destruct (H t) as [X|(X & Y)]; congruence.
Qed.
Lemma held_not_live ng init st t i : SInv ng init st -> JInv st -> rl (s_cl st t) = Some (i, Own) -> live (s_log st) i false = false.
Proof.
  intros I J R. destruct (v_role _ _ _ I _ _ _ R) as (_ & T & _). cbn in T. destruct (live _ _ _) eqn:L; [|reflexivity]. exfalso.
  destruct (J i L) as [A|(x & A)]; [rewrite A in T; discriminate|].
  destruct (s_cl st x) eqn:P; try discriminate A; cbn in A; injection A as ->.
  - destruct (v_role _ _ _ I x i Ret1) as (_ & B & _); [now rewrite P|]. rewrite T in B. discriminate.
  - destruct (v_role _ _ _ I x i Ret2) as (_ & B & _); [now rewrite P|]. rewrite T in B. discriminate.
  - destruct (v_trel _ _ _ I x i) as (_ & it & A & B & _); [now rewrite P|].
    destruct (v_pend _ _ _ I (N.of_nat i)) as (j & Ej & _ & C & _); [rewrite pending_allq, <- B; now apply in_map|]. assert (j = i) by lia. subst j. rewrite T in C. discriminate.
Qed.

(** ** What a call reported just before it returned *)
Definition lok (p : provider) (t : nat) : Prop :=
  match p_cl p t with
  | PDel e i => m_cl (p_im p) t = ODel e i -> last_of t (p_log p) = Some (PDeleted t e i)
  | PErr e i => forall r, m_cl (p_im p) t = IUnl r -> last_of t (p_log p) = Some (PKept t e i)
  | _ => True
  end.
Lemma last_snoc t l ev : last_of t (l ++ [ev]) = if made_by t ev then Some ev else last_of t l.
Proof. unfold last_of. rewrite rev_app_distr. reflexivity. Qed.
Lemma pstep_others sh t a p p' x : pstep sh t a p = Some p' -> x <> t ->
  p_cl p' x = p_cl p x /\ m_cl (p_im p') x = m_cl (p_im p) x /\ last_of x (p_log p') = last_of x (p_log p).
Proof.
  intros S N. unfold pstep in S.
  assert (T : (t =? x) = false) by (apply Nat.eqb_neq; congruence).
  destruct (p_cl p t), a; try discriminate S;
  repeat match type of S with
    | context [sstep ?o ?a ?r] => destruct (sstep o a r) eqn:?
    | context [istep ?s ?o ?a ?r] => destruct (istep s o a r) eqn:?
    | context [match ?y with _ => _ end] => destruct y
    | Some _ = Some _ => injection S as <-
    | None = Some _ => discriminate S
    end; cbn [p_go p_cl p_im p_log]; rewrite ?app_nil_r, ?last_snoc; cbn [made_by]; rewrite ?T;
  (split; [now apply upd_neq|split; [first [reflexivity|eapply icl_others; eauto]|reflexivity]]).
Qed.
Lemma lok_step sh ng init t a p p' : PInv sh ng init p -> (forall x, lok p x) -> pstep sh t a p = Some p' -> forall x, lok p' x.
Proof.
  intros I L S x. destruct (Nat.eq_dec x t) as [->|N].
  - pose proof (p_pc _ _ _ _ I t) as K. unfold pcok in K. specialize (L t). unfold lok in *. unfold pstep in S.
    destruct (p_cl p t) eqn:P, a; try discriminate S;
    repeat match type of S with
      | context [sstep ?o ?a ?r] => destruct (sstep o a r) eqn:?
      | context [istep ?s ?o ?a ?r] => destruct (istep s o a r) eqn:?
      | context [match ?y with _ => _ end] => destruct y eqn:?
      | Some _ = Some _ => injection S as <-
      | None = Some _ => discriminate S
      end; cbn [p_go p_cl p_im p_log]; rewrite upd_eq; try exact Logic.I;
    try (destruct K as (K & _); intros; congruence);
    rewrite ?last_snoc; cbn [made_by]; rewrite ?Nat.eqb_refl; auto.
  - specialize (L x). unfold lok in *. destruct (pstep_others _ _ _ _ _ _ S N) as (-> & -> & ->). exact L.
Qed.
Lemma preach_lok sh entries bp guards cap ncols rows p : preachable sh entries bp guards cap ncols rows p -> forall x, lok p x.
Proof.
  intros (p0 & sched & N & Hg & Hc & R). assert (I : PInv sh guards (initial entries rows) p0) by (eapply pinv_new; eauto).
  assert (Z : forall x, lok p0 x).
  { unfold p_new in N. destruct (store_new _ _ _ _ _ _) as [st|] eqn:E; [|discriminate]. injection N as <-. intros x. exact Logic.I. }
  clear N. revert p0 I Z R. induction sched as [|[t a] sched IH]; intros p0 I Z R; cbn [prun] in R; [now inv R|].
  destruct (pstep sh t a p0) as [p1|] eqn:S; [|discriminate]. apply (IH p1); [eapply pinv_step; eauto|eapply lok_step; eauto|assumption].
Qed.
