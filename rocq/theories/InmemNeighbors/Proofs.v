From Verif.Lib Require Import Base Lists.
From Verif.InmemNeighbors Require Import Model Spec.

(** Which locks a client holds. *)
Definition hw (p : npc) : option nat :=
  match p with NHeld i | WCopy i _ _ _ _ | WDone i _ _ => Some (lock_index i) | _ => None end.
Definition hr (p : npc) : option nat := match p with RLen i | RCopy i _ _ _ => Some (lock_index i) | _ => None end.
Definition writing (p : npc) (i : nat) : bool :=
  match p with WCopy j _ _ _ false | WDone j _ _ => i =? j | _ => false end.
Definition addr (mx i k : nat) : nat := i * (mx + 1) + k.
Definition content (mx : nat) (mem : list N) (i : nat) (l : list N) : Prop :=
  length l <= mx /\ nth_error mem (addr mx i 0) = Some (N.of_nat (length l)) /\
  forall j, j < length l -> nth_error mem (addr mx i (1 + j)) = nth_error l j.
Definition npok (en mx : nat) (mem : list N) (L : nat -> list N) (p : npc) : Prop :=
  match p with
  | NIdle => True
  | RWait i | LWait i | RLen i | NHeld i => i < en
  | RCopy i len k acc => i < en /\ len = length (L i) /\ k <= len /\ acc = firstn k (L i)
  | WWait i l => i < en /\ length l <= mx
  | WCopy i off l k app => i < en /\ k <= length l /\ off + length l <= mx /\ off = (if app then length (L i) else 0) /\
      forall j, j < k -> nth_error mem (addr mx i (1 + off + j)) = nth_error l j
  | WDone i l app => i < en /\ content mx mem i (if app then L i ++ l else l)
  | NBad => False
  end.
Record NInv (m : nbrs) : Prop := {
  v_max : (N.of_nat (n_max m) < two32)%N;
  v_mem : length (n_mem m) = n_entries m * (n_max m + 1);
  v_wl : forall g c, n_wr m g = Some c <-> hw (n_cl m c) = Some g;
  v_rl : forall g c, In c (n_rd m g) <-> hr (n_cl m c) = Some g;
  v_ex : forall g c, n_wr m g = Some c -> n_rd m g = [];
  v_pc : forall c, npok (n_entries m) (n_max m) (n_mem m) (lists (n_log m)) (n_cl m c);
  v_rows : forall i, i < n_entries m -> (forall c, writing (n_cl m c) i = false) -> content (n_max m) (n_mem m) i (lists (n_log m) i);
  v_log : forall p ev, nth_error (n_log m) p = Some ev -> nanswer (n_entries m) (n_max m) (lists (firstn p (n_log m))) ev
}.
Lemma lists_snoc l ev : lists (l ++ [ev]) = napply (lists l) ev.
Proof. unfold lists. now rewrite fold_left_app. Qed.
Lemma nlog_snoc en mx l ev : (forall p x, nth_error l p = Some x -> nanswer en mx (lists (firstn p l)) x) -> nanswer en mx (lists l) ev ->
  forall p x, nth_error (l ++ [ev]) p = Some x -> nanswer en mx (lists (firstn p (l ++ [ev]))) x.
Proof.
  intros A B p x H. destruct (Nat.lt_ge_cases p (length l)) as [L|L].
  - rewrite nth_error_app1 in H by assumption. rewrite firstn_app. replace (p - length l) with 0 by lia. cbn. rewrite app_nil_r. auto.
  - rewrite nth_error_app2 in H by assumption. destruct (p - length l) as [|k] eqn:E; cbn in H; [|destruct k; discriminate]. inv H.
    assert (p = length l) by lia. subst p. rewrite firstn_app, Nat.sub_diag, firstn_all. cbn. now rewrite app_nil_r.
Qed.
Lemma addr_inj mx i k i' k' : k <= mx -> k' <= mx -> addr mx i k = addr mx i' k' -> i = i' /\ k = k'.
Proof.
  unfold addr. intros A B H. assert (i = i').
  { destruct (Nat.lt_trichotomy i i') as [L|[L|L]]; [|assumption|]; nia. }
  subst. lia.
Qed.
Lemma addr_lt en mx i k : i < en -> k <= mx -> addr mx i k < en * (mx + 1).
Proof. unfold addr. intros. nia. Qed.
Lemma mem_set en mx (mem : list N) i k w i' k' : length mem = en * (mx + 1) -> i < en -> k <= mx -> k' <= mx ->
  nth_error (set_nth (addr mx i k) w mem) (addr mx i' k') = if (i =? i') && (k =? k') then Some w else nth_error mem (addr mx i' k').
Proof.
  intros L A B C. rewrite nth_error_set_nth. destruct (Nat.eqb_spec (addr mx i' k') (addr mx i k)) as [E|E].
  - symmetry in E. destruct (addr_inj _ _ _ _ _ B C E) as (<- & <-). rewrite !Nat.eqb_refl. cbn [andb]. destruct (Nat.ltb_spec (addr mx i k) (length mem)); [reflexivity|]. pose proof (addr_lt _ _ _ _ A B). lia.
  - destruct (Nat.eqb_spec i i') as [->|]; [|reflexivity]. destruct (Nat.eqb_spec k k') as [->|]; [congruence|reflexivity].
Qed.
Lemma ninv_new en mx : (N.of_nat mx < two32)%N -> NInv (n_new en mx).
Proof.
  intros H. constructor; cbn; auto.
  - apply repeat_length.
  - split; discriminate.
  - split; [contradiction|discriminate].
  - intros i Hi _. unfold content. cbn. split; [lia|]. split; [|lia]. apply (nth_error_repeat 0%N). apply addr_lt; lia.
  - intros p ev E. destruct p; discriminate.
Qed.
Ltac ups :=
  repeat match goal with
  | |- context [upd ?f ?k ?v ?x] => destruct (upd_cases f k v x) as [(? & ->)|(? & ->)]; [try subst x|]
  end.
Section Inv.
Context (m : nbrs) (I : NInv m).
Lemma other_writer c c' i g : hw (n_cl m c) = Some g -> writing (n_cl m c') i = true -> lock_index i = g -> c' = c.
Proof.
  intros A B E. apply (v_wl _ I) in A. assert (X : n_wr m g = Some c'); [|congruence]. apply (v_wl _ I). unfold writing in B.
  destruct (n_cl m c'); try discriminate; [destruct app; [discriminate|]|]; apply Nat.eqb_eq in B; subst; reflexivity.
Qed.
Lemma row_reader c i : hr (n_cl m c) = Some (lock_index i) -> i < n_entries m -> content (n_max m) (n_mem m) i (lists (n_log m) i).
Proof.
  intros A L. apply (v_rows _ I); [assumption|]. intros c'. destruct (writing _ _) eqn:W; [|reflexivity]. exfalso.
  assert (X : n_wr m (lock_index i) = Some c').
  { apply (v_wl _ I). unfold writing in W. destruct (n_cl m c'); try discriminate; [destruct app; [discriminate|]|]; apply Nat.eqb_eq in W; subst; reflexivity. }
  apply (v_rl _ I) in A. rewrite (v_ex _ I _ _ X) in A. destruct A.
Qed.
Lemma row_writer c i : hw (n_cl m c) = Some (lock_index i) -> writing (n_cl m c) i = false -> i < n_entries m -> content (n_max m) (n_mem m) i (lists (n_log m) i).
Proof.
  intros A B L. apply (v_rows _ I); [assumption|]. intros c'. destruct (writing (n_cl m c') i) eqn:W; [|reflexivity]. exfalso.
  assert (c' = c) by (eapply other_writer; eauto). subst. congruence.
Qed.
Lemma len_content i l : content (n_max m) (n_mem m) i l -> read_len m i = Some (length l).
Proof.
  intros (A & B & _). unfold read_len. change (base m i) with (i * (n_max m + 1)). replace (i * (n_max m + 1)) with (addr (n_max m) i 0) by (unfold addr; lia).
  rewrite B, Nat2N.id. f_equal. lia.
Qed.
(** A step of client [c] that leaves the memory and the lists alone. *)
Lemma ninv_quiet c p wr rd l : (forall ev, In ev l -> napply (lists (n_log m)) ev = lists (n_log m) /\ nanswer (n_entries m) (n_max m) (lists (n_log m)) ev) -> length l <= 1 ->
  (forall g x, wr g = Some x <-> hw (upd (n_cl m) c p x) = Some g) -> (forall g x, In x (rd g) <-> hr (upd (n_cl m) c p x) = Some g) ->
  (forall g x, wr g = Some x -> rd g = []) ->
  npok (n_entries m) (n_max m) (n_mem m) (lists (n_log m)) p -> (forall i, writing p i = writing (n_cl m c) i) ->
  NInv (mkn (n_entries m) (n_max m) (n_mem m) wr rd (upd (n_cl m) c p) (n_log m ++ l)).
Proof.
  intros HL LL A B C D E.
  assert (EL : lists (n_log m ++ l) = lists (n_log m)).
  { destruct l as [|ev [|]]; [now rewrite app_nil_r| |cbn in LL; lia]. rewrite lists_snoc. apply HL. now left. }
  constructor; cbn [n_entries n_max n_mem n_wr n_rd n_cl n_log]; try apply I; try assumption.
  - intros x. rewrite EL. ups; [assumption|apply I].
  - intros i Hi H. rewrite EL. apply (v_rows _ I); [assumption|]. intros x. specialize (H x). destruct (upd_cases (n_cl m) c p x) as [(-> & X)|(_ & X)]; rewrite X in H; [rewrite <- E|]; assumption.
  - destruct l as [|ev [|]]; [rewrite app_nil_r; apply I| |cbn in LL; lia]. apply nlog_snoc; [apply I|]. apply HL. now left.
Qed.
End Inv.
Lemma set_frame en mx (mem : list N) i k w j l : length mem = en * (mx + 1) -> i < en -> k <= mx -> j <> i -> content mx mem j l ->
  content mx (set_nth (addr mx i k) w mem) j l.
Proof.
  intros L A B N (X & Y & Z). split; [assumption|].
  assert (E : (i =? j) = false) by (apply Nat.eqb_neq; auto).
  split; [|intros j' H]; rewrite (mem_set en) by (auto; lia); rewrite E; cbn [andb]; auto.
Qed.
(** A client that holds the write lock of [i] stores a word of row [i]. *)
Lemma ninv_store m c i k w p : NInv m -> hw (n_cl m c) = Some (lock_index i) -> hw p = Some (lock_index i) -> hr p = None -> i < n_entries m -> k <= n_max m ->
  npok (n_entries m) (n_max m) (set_nth (addr (n_max m) i k) w (n_mem m)) (lists (n_log m)) p ->
  (forall j, j <> i -> writing p j = writing (n_cl m c) j) ->
  (writing p i = false -> content (n_max m) (set_nth (addr (n_max m) i k) w (n_mem m)) i (lists (n_log m) i)) ->
  NInv (n_cl' (n_mem' m (set_nth (addr (n_max m) i k) w (n_mem m))) c p).
Proof.
  intros I H1 H2 H3 Hi Hk Hp Hw Hc.
  assert (Oth : forall x, x <> c -> hw (n_cl m x) = Some (lock_index i) -> False).
  { intros x N X. apply (v_wl _ I) in X, H1. congruence. }
  constructor; cbn [n_entries n_max n_mem n_wr n_rd n_cl n_log n_cl' n_mem']; try apply I.
  - rewrite set_nth_length. apply I.
  - intros g x. ups; [|apply I]. rewrite H2, <- H1. apply I.
  - intros g x. ups; [|apply I]. rewrite H3. rewrite (v_rl _ I). destruct (n_cl m c); cbn in *; try discriminate; tauto.
  - intros x. ups; [assumption|]. pose proof (v_pc _ I x) as P. destruct (n_cl m x) eqn:E; cbn [npok] in *; try assumption.
    + destruct (Nat.eq_dec i0 i) as [->|N]; [exfalso; apply (Oth x); [assumption|now rewrite E]|].
      destruct P as (P1 & P2 & P3 & P4 & P5). repeat (split; [assumption|]). intros j Hj.
      rewrite (mem_set (n_entries m)); [|apply I|assumption|assumption|lia].
      replace (i =? i0) with false by (symmetry; apply Nat.eqb_neq; auto). cbn [andb]. auto.
    + destruct (Nat.eq_dec i0 i) as [->|N]; [exfalso; apply (Oth x); [assumption|now rewrite E]|].
      destruct P as (P1 & P2). split; [assumption|]. apply (set_frame (n_entries m)); try assumption. apply I.
  - intros j Hj H. destruct (Nat.eq_dec j i) as [->|N].
    + apply Hc. specialize (H c). rewrite upd_eq in H. assumption.
    + apply (set_frame (n_entries m)); try assumption; [apply I|]. apply (v_rows _ I); [assumption|]. intros x. specialize (H x).
      destruct (upd_cases (n_cl m) c p x) as [(-> & X)|(_ & X)]; rewrite X in H; [rewrite <- Hw|]; assumption.
Qed.
Lemma in_remove_reader c x l : In x (remove_reader c l) <-> In x l /\ x <> c.
Proof. unfold remove_reader. rewrite filter_In. destruct (Nat.eqb_spec x c); cbn; split; intros []; split; auto; congruence. Qed.
Ltac nev := let ev := fresh in let X := fresh in intros ev X; cbn in X; destruct X as [X|[]]; rewrite <- X; cbn [napply nanswer]; split; [reflexivity|].
Ltac wlk I E := let g := fresh "g" in let x := fresh "x" in intros g x; destruct (upd_cases (n_cl _) _ _ x) as [(-> & ->)|(? & ->)]; [pose proof (v_wl _ I g) as W; rewrite W, E; reflexivity|apply (v_wl _ I)].
Lemma app_nil_log m : mkn (n_entries m) (n_max m) (n_mem m) (n_wr m) (n_rd m) (n_cl m) (n_log m ++ []) = m.
Proof. rewrite app_nil_r. now destruct m. Qed.
Lemma firstn_S_nth {A} (w : A) : forall l k, nth_error l k = Some w -> firstn (S k) l = firstn k l ++ [w].
Proof. induction l as [|x l IH]; intros [|k] H; try discriminate; cbn in *; [now inv H|]. f_equal. now apply IH. Qed.
Section Steps.
Context (m : nbrs) (I : NInv m) (c : nat).
(** A step that keeps every lock. *)
Lemma ninv_same p l : (forall ev, In ev l -> napply (lists (n_log m)) ev = lists (n_log m) /\ nanswer (n_entries m) (n_max m) (lists (n_log m)) ev) -> length l <= 1 ->
  hw p = hw (n_cl m c) -> hr p = hr (n_cl m c) -> (forall i, writing p i = writing (n_cl m c) i) -> npok (n_entries m) (n_max m) (n_mem m) (lists (n_log m)) p ->
  NInv (mkn (n_entries m) (n_max m) (n_mem m) (n_wr m) (n_rd m) (upd (n_cl m) c p) (n_log m ++ l)).
Proof.
  intros A B C D E F. apply ninv_quiet; auto; try apply I.
  - intros g x. ups; [rewrite C|]; apply I.
  - intros g x. ups; [rewrite D|]; apply I.
Qed.
Lemma ninv_emit ev : napply (lists (n_log m)) ev = lists (n_log m) -> nanswer (n_entries m) (n_max m) (lists (n_log m)) ev -> NInv (n_emit m ev).
Proof.
  intros A B. constructor; cbn [n_entries n_max n_mem n_wr n_rd n_cl n_log n_emit]; try apply I.
  - rewrite lists_snoc, A. apply I.
  - rewrite lists_snoc, A. apply I.
  - apply nlog_snoc; [apply I|assumption].
Qed.
Lemma ninv_move p : hw p = hw (n_cl m c) -> hr p = hr (n_cl m c) -> (forall i, writing p i = writing (n_cl m c) i) ->
  npok (n_entries m) (n_max m) (n_mem m) (lists (n_log m)) p -> NInv (n_cl' m c p).
Proof.
  intros A B C D. unfold n_cl'. replace (n_log m) with (n_log m ++ []) by apply app_nil_r. apply ninv_same; auto. intros ev [].
Qed.
Lemma ninv_rlock i : n_cl m c = RWait i -> n_wr m (lock_index i) = None ->
  NInv (n_cl' (n_rd' m (lock_index i) (c :: n_rd m (lock_index i))) c (RLen i)).
Proof.
  intros E F. pose proof (v_pc _ I c) as P. rewrite E in P. cbn in P.
  unfold n_cl', n_rd'. cbn [n_entries n_max n_mem n_wr n_rd n_cl n_log]. replace (n_log m) with (n_log m ++ []) by apply app_nil_r.
  apply ninv_quiet; auto.
  - intros ev [].
  - intros g x. ups; [|apply I]. rewrite (v_wl _ I), E. reflexivity.
  - intros g x. destruct (upd_cases (n_rd m) (lock_index i) (c :: n_rd m (lock_index i)) g) as [(-> & ->)|(N & ->)].
    + ups; [cbn; tauto|]. cbn [In]. rewrite (v_rl _ I). split; [intros [X|X]; [congruence|assumption]|auto].
    + ups; [|apply I]. rewrite (v_rl _ I), E. cbn [hr hw]. split; [discriminate|intros X; inv X; congruence].
  - intros g x X. destruct (upd_cases (n_rd m) (lock_index i) (c :: n_rd m (lock_index i)) g) as [(-> & ->)|(N & ->)]; [congruence|]. eapply v_ex; eauto.
  - intros j. now rewrite E.
Qed.
Lemma ninv_runlock i ev : hr (n_cl m c) = Some (lock_index i) ->
  napply (lists (n_log m)) ev = lists (n_log m) -> nanswer (n_entries m) (n_max m) (lists (n_log m)) ev ->
  NInv (n_emit (n_cl' (n_rd' m (lock_index i) (remove_reader c (n_rd m (lock_index i)))) c NIdle) ev).
Proof.
  intros E A B. unfold n_emit, n_cl', n_rd'. cbn [n_entries n_max n_mem n_wr n_rd n_cl n_log].
  apply ninv_quiet; auto; try exact Logic.I.
  - intros e [<-|[]]. auto.
  - intros g x. ups; [|apply I]. rewrite (v_wl _ I). destruct (n_cl m c); cbn in *; try discriminate; tauto.
  - intros g x. destruct (upd_cases (n_rd m) (lock_index i) (remove_reader c (n_rd m (lock_index i))) g) as [(-> & ->)|(N & ->)].
    + rewrite in_remove_reader. ups; [cbn; split; [intros []; congruence|discriminate]|]. rewrite (v_rl _ I). tauto.
    + ups; [|apply I]. rewrite (v_rl _ I), E. cbn [hr hw]. split; [intros X; inv X; congruence|discriminate].
  - intros g x X. destruct (upd_cases (n_rd m) (lock_index i) (remove_reader c (n_rd m (lock_index i))) g) as [(-> & ->)|(N & ->)].
    + rewrite (v_ex _ I _ _ X). reflexivity.
    + eapply v_ex; eauto.
  - intros j. destruct (n_cl m c); cbn in *; try discriminate; reflexivity.
Qed.
Lemma ninv_wlock i p : hw (n_cl m c) = None -> hr (n_cl m c) = None -> n_wr m (lock_index i) = None -> n_rd m (lock_index i) = [] ->
  hw p = Some (lock_index i) -> hr p = None ->
  npok (n_entries m) (n_max m) (n_mem m) (lists (n_log m)) p -> (forall j, writing (n_cl m c) j = false) ->
  NInv (n_cl' (n_wr' m (lock_index i) (Some c)) c p).
Proof.
  intros A B C D E F G K. constructor; cbn [n_entries n_max n_mem n_wr n_rd n_cl n_log n_cl' n_wr']; try apply I.
  - intros g x. destruct (upd_cases (n_wr m) (lock_index i) (Some c) g) as [(-> & ->)|(N & ->)].
    + ups; [rewrite E; tauto|]. rewrite <- (v_wl _ I). rewrite C. split; [congruence|discriminate].
    + ups; [|apply I]. rewrite (v_wl _ I), A, E. split; [discriminate|congruence].
  - intros g x. ups; [|apply I]. rewrite (v_rl _ I), B, F. tauto.
  - intros g x X. destruct (upd_cases (n_wr m) (lock_index i) (Some c) g) as [(-> & Y)|(N & Y)]; [assumption|]. rewrite Y in X. eapply v_ex; eauto.
  - intros x. ups; [assumption|apply I].
  - intros j Hj H. apply (v_rows _ I); [assumption|]. intros x. specialize (H x). destruct (upd_cases (n_cl m) c p x) as [(-> & X)|(_ & X)]; rewrite X in H; [apply K|assumption].
Qed.
Lemma ninv_wunlock i l : hw (n_cl m c) = Some (lock_index i) -> i < n_entries m ->
  length l <= 1 -> (forall ev, In ev l -> nanswer (n_entries m) (n_max m) (lists (n_log m)) ev) ->
  (forall j, j <> i -> lists (n_log m ++ l) j = lists (n_log m) j /\ writing (n_cl m c) j = false) ->
  content (n_max m) (n_mem m) i (lists (n_log m ++ l) i) ->
  NInv (mkn (n_entries m) (n_max m) (n_mem m) (upd (n_wr m) (lock_index i) None) (n_rd m) (upd (n_cl m) c NIdle) (n_log m ++ l)).
Proof.
  intros A Hi B C D F.
  assert (Oth : forall x, x <> c -> hw (n_cl m x) = Some (lock_index i) -> False).
  { intros x N X. apply (v_wl _ I) in X, A. congruence. }
  assert (OthR : forall x, hr (n_cl m x) = Some (lock_index i) -> False).
  { intros x X. apply (v_rl _ I) in X. apply (v_wl _ I) in A. rewrite (v_ex _ I _ _ A) in X. destruct X. }
  constructor; cbn [n_entries n_max n_mem n_wr n_rd n_cl n_log]; try apply I.
  - intros g x. destruct (upd_cases (n_wr m) (lock_index i) None g) as [(-> & ->)|(N & ->)].
    + ups; [cbn; split; discriminate|]. split; [discriminate|]. intros X. exfalso. eapply Oth; eauto.
    + ups; [|apply I]. rewrite (v_wl _ I), A. cbn [hr hw]. split; [congruence|discriminate].
  - intros g x. ups; [|apply I]. rewrite (v_rl _ I). destruct (n_cl m c); cbn in *; try discriminate; tauto.
  - intros g x X. destruct (upd_cases (n_wr m) (lock_index i) None g) as [(-> & Y)|(N & Y)]; rewrite Y in X; [discriminate|]. eapply v_ex; eauto.
  - intros x. ups; [exact Logic.I|]. pose proof (v_pc _ I x) as P. destruct (n_cl m x) eqn:E; cbn [npok] in *; try assumption.
    + destruct (Nat.eq_dec i0 i) as [->|N]; [exfalso; apply (OthR x); now rewrite E|]. destruct (D i0 N) as (-> & _). assumption.
    + destruct (Nat.eq_dec i0 i) as [->|N]; [exfalso; apply (Oth x); [assumption|now rewrite E]|]. destruct (D i0 N) as (-> & _). assumption.
    + destruct (Nat.eq_dec i0 i) as [->|N]; [exfalso; apply (Oth x); [assumption|now rewrite E]|]. destruct (D i0 N) as (-> & _). assumption.
  - intros j Hj H. destruct (Nat.eq_dec j i) as [->|N]; [assumption|]. destruct (D j N) as (-> & W). apply (v_rows _ I); [assumption|].
    intros x. specialize (H x). destruct (upd_cases (n_cl m) c NIdle x) as [(-> & X)|(_ & X)]; rewrite X in H; assumption.
  - destruct l as [|ev [|]]; [rewrite app_nil_r; apply I| |cbn in B; lia]. apply nlog_snoc; [apply I|]. apply C. now left.
Qed.
Lemma ninv_append i l : n_cl m c = NHeld i -> NInv (append c i l m).
Proof.
  intros E. pose proof (v_pc _ I c) as P. rewrite E in P. cbn in P.
  assert (Ct : content (n_max m) (n_mem m) i (lists (n_log m) i)) by (apply (row_writer m I c); rewrite ?E; auto).
  unfold append. rewrite (len_content m _ _ Ct). destruct (Nat.ltb_spec (n_max m) (length (lists (n_log m) i) + length l)) as [L|L].
  - unfold n_emit, n_cl', n_wr'. cbn [n_entries n_max n_mem n_wr n_rd n_cl n_log]. apply ninv_wunlock; rewrite ?E; auto.
    + intros ev [<-|[]]. cbn. auto.
    + intros j N. rewrite lists_snoc. auto.
    + rewrite lists_snoc. assumption.
  - apply ninv_move; rewrite ?E; auto. cbn. repeat (split; [auto; lia|]). intros; lia.
Qed.
End Steps.
Lemma store_word_some m i k w : NInv m -> i < n_entries m -> k <= n_max m -> store_word m (addr (n_max m) i k) w = Some (set_nth (addr (n_max m) i k) w (n_mem m)).
Proof.
  intros I A B. unfold store_word. destruct (Nat.ltb_spec (addr (n_max m) i k) (length (n_mem m))) as [|L]; [reflexivity|].
  rewrite (v_mem _ I) in L. pose proof (addr_lt _ _ _ _ A B). lia.
Qed.
Lemma nstep_inv c a m m' : NInv m -> nstep c a m = Some m' -> NInv m'.
Proof.
  intros I H. unfold nstep in H. pose proof (v_pc _ I c) as P. destruct (n_cl m c) eqn:E; cbn [npok] in P; destruct a; try discriminate H.
  - inv H. destruct (Nat.leb_spec (n_entries m) i).
    + apply ninv_emit; cbn; auto.
    + apply ninv_move; rewrite ?E; auto.
  - inv H. destruct ((n_entries m <=? i) || (n_max m <? length l)) eqn:B.
    + apply ninv_emit; cbn; auto. apply orb_true_iff in B. destruct B as [B|B]; [left; now apply Nat.leb_le|right; now apply Nat.ltb_lt].
    + apply orb_false_iff in B. destruct B as (B1 & B2). apply Nat.leb_gt in B1. apply Nat.ltb_ge in B2. apply ninv_move; rewrite ?E; cbn; auto.
  - inv H. destruct (Nat.leb_spec (n_entries m) i).
    + apply ninv_emit; cbn; auto.
    + apply ninv_move; rewrite ?E; auto.
  - destruct (n_wr m (lock_index i)) eqn:F; inv H. now apply ninv_rlock.
  - assert (Ct : content (n_max m) (n_mem m) i (lists (n_log m) i)) by (apply (row_reader m I c); rewrite ?E; auto).
    rewrite (len_content m _ _ Ct) in H. inv H. apply ninv_move; rewrite ?E; auto. cbn. repeat (split; [auto; lia|]). reflexivity.
  - destruct P as (P1 & -> & P3 & ->).
    assert (Ct : content (n_max m) (n_mem m) i (lists (n_log m) i)) by (apply (row_reader m I c); rewrite ?E; auto).
    destruct (Nat.eqb_spec k (length (lists (n_log m) i))) as [->|N].
    + inv H. apply ninv_runlock; rewrite ?E; auto. rewrite firstn_all. cbn. auto.
    + destruct Ct as (C1 & C2 & C3). replace (base m i + 1 + k) with (addr (n_max m) i (1 + k)) in H by (unfold addr, base; lia).
      rewrite C3 in H by lia. destruct (nth_error (lists (n_log m) i) k) as [w|] eqn:F; [|apply nth_error_None in F; lia]. inv H.
      apply ninv_move; rewrite ?E; auto. cbn. repeat (split; [auto; lia|]). rewrite Nat.add_1_r. symmetry. now apply firstn_S_nth.
  - destruct (n_wr m (lock_index i)) eqn:F; [discriminate|]. destruct (n_rd m (lock_index i)) eqn:G; [|discriminate]. inv H.
    apply ninv_wlock; rewrite ?E; auto. cbn. destruct P. repeat (split; [auto; lia|]). intros; lia.
  - destruct (n_wr m (lock_index i)) eqn:F; [discriminate|]. destruct (n_rd m (lock_index i)) eqn:G; [|discriminate]. inv H.
    apply ninv_wlock; rewrite ?E; auto.
  - assert (Ct : content (n_max m) (n_mem m) i (lists (n_log m) i)) by (apply (row_writer m I c); rewrite ?E; auto).
    rewrite (len_content m _ _ Ct) in H. inv H. apply ninv_emit; cbn; auto.
  - inv H. now apply ninv_append.
  - assert (Ct : content (n_max m) (n_mem m) i (lists (n_log m) i)) by (apply (row_writer m I c); rewrite ?E; auto).
    rewrite (len_content m _ _ Ct) in H. inv H. now apply ninv_append.
  - inv H. assert (Ct : content (n_max m) (n_mem m) i (lists (n_log m) i)) by (apply (row_writer m I c); rewrite ?E; auto).
    unfold n_cl', n_wr'. cbn [n_entries n_max n_mem n_wr n_rd n_cl n_log]. replace (n_log m) with (n_log m ++ []) by apply app_nil_r.
    apply ninv_wunlock; rewrite ?E, ?app_nil_r; auto. intros ev [].
  - destruct P as (P1 & P2 & P3 & P4 & P5). destruct (nth_error l k) as [w|] eqn:F.
    + assert (Hk : k < length l) by (apply nth_error_Some; congruence).
      replace (base m i + 1 + off + k) with (addr (n_max m) i (1 + off + k)) in H by (unfold addr, base; lia).
      rewrite (store_word_some m i (1 + off + k) w I) in H by lia. injection H as <-. apply ninv_store; rewrite ?E; auto; try lia.
      * cbn [npok]. repeat (split; [auto; lia|]). intros j Hj. rewrite (mem_set (n_entries m)); [|apply I|assumption|lia|lia]. rewrite Nat.eqb_refl. cbn [andb].
        match goal with |- context [?a =? ?b] => destruct (Nat.eqb_spec a b) end; [replace j with k by lia; auto|]. apply P5. lia.
      * cbn [writing]. destruct app; [|rewrite Nat.eqb_refl; discriminate]. intros _.
        assert (Ct : content (n_max m) (n_mem m) i (lists (n_log m) i)) by (apply (row_writer m I c); rewrite ?E; auto).
        destruct Ct as (C1 & C2 & C3). split; [assumption|]. split; [|intros j Hj]; (rewrite (mem_set (n_entries m)); [|apply I|assumption|lia|lia]); rewrite Nat.eqb_refl; cbn [andb].
        -- match goal with |- context [?a =? ?b] => destruct (Nat.eqb_spec a b) end; [lia|assumption].
        -- match goal with |- context [?a =? ?b] => destruct (Nat.eqb_spec a b) end; [lia|auto].
    + apply nth_error_None in F. assert (k = length l) by lia. subst k.
      replace (base m i) with (addr (n_max m) i 0) in H by (unfold addr, base; lia).
      rewrite (store_word_some m i 0 _ I) in H by lia.
      assert (Hm : (N.of_nat (off + length l) mod two32 = N.of_nat (off + length l))%N) by (apply N.mod_small; pose proof (v_max _ I); lia).
      rewrite Hm in H. injection H as <-. apply ninv_store; rewrite ?E; auto; try lia.
      * cbn [npok]. split; [assumption|].
        assert (R : forall j, j < off + length l -> off <= j -> nth_error (set_nth (addr (n_max m) i 0) (N.of_nat (off + length l)) (n_mem m)) (addr (n_max m) i (1 + j)) = nth_error l (j - off)).
        { intros j A B. rewrite (mem_set (n_entries m)); [|apply I|assumption|lia|lia]. rewrite Nat.eqb_refl. cbn [andb Nat.eqb]. rewrite <- (P5 (j - off)) by lia. replace (1 + off + (j - off)) with (1 + j) by lia. reflexivity. }
        destruct app.
        -- assert (Ct : content (n_max m) (n_mem m) i (lists (n_log m) i)) by (apply (row_writer m I c); rewrite ?E; auto).
           destruct Ct as (C1 & C2 & C3). unfold content. rewrite app_length, <- P4. split; [lia|]. split.
           ++ rewrite (mem_set (n_entries m)); [|apply I|assumption|lia|lia]. rewrite !Nat.eqb_refl. reflexivity.
           ++ intros j Hj. destruct (Nat.lt_ge_cases j off).
              ** rewrite (mem_set (n_entries m)); [|apply I|assumption|lia|lia]. rewrite Nat.eqb_refl. cbn [andb Nat.eqb]. rewrite C3 by lia. now rewrite nth_error_app1 by lia.
              ** rewrite R by lia. rewrite nth_error_app2 by lia. now rewrite P4.
        -- subst off. cbn [Nat.add] in *. split; [lia|]. split.
           ++ rewrite (mem_set (n_entries m)); [|apply I|assumption|lia|lia]. rewrite !Nat.eqb_refl. reflexivity.
           ++ intros j Hj. rewrite R by lia. now rewrite Nat.sub_0_r.
      * cbn [writing]. intros j N. apply Nat.eqb_neq in N. rewrite N. destruct app; [reflexivity|]. reflexivity.
      * cbn [writing]. rewrite Nat.eqb_refl. discriminate.
  - destruct P as (P1 & P2). inv H. unfold n_emit, n_cl', n_wr'. cbn [n_entries n_max n_mem n_wr n_rd n_cl n_log].
    apply ninv_wunlock; rewrite ?E; auto.
    + intros ev [<-|[]]. destruct P2 as (P2 & _). destruct app; cbn; [rewrite app_length in P2|]; auto.
    + intros j N. rewrite lists_snoc. split; [destruct app; cbn [napply]; now apply upd_neq|cbn; now apply Nat.eqb_neq].
    + rewrite lists_snoc. destruct app; cbn [napply]; now rewrite upd_eq.
Qed.
Lemma nstep_cfg c a m m' : nstep c a m = Some m' -> n_entries m' = n_entries m /\ n_max m' = n_max m.
Proof.
  intros E. unfold nstep in E. destruct (n_cl m c) eqn:X; destruct a; try discriminate E; unfold append, bad in E;
  repeat match type of E with
  | match ?x with _ => _ end = _ => destruct x
  | Some (match ?x with _ => _ end) = _ => destruct x
  end; try discriminate E; injection E as <-; split; reflexivity.
Qed.
Lemma nrun_inv : forall sched m m', NInv m -> nrun sched m = Some m' -> NInv m' /\ n_entries m' = n_entries m /\ n_max m' = n_max m.
Proof.
  induction sched as [|(c, a) s IH]; cbn [nrun]; intros m m' I H; [injection H as <-; auto|].
  destruct (nstep c a m) as [m1|] eqn:E; [|discriminate]. destruct (IH _ _ (nstep_inv _ _ _ _ I E) H) as (A & -> & ->). split; [assumption|].
  eapply nstep_cfg; eauto.
Qed.
Lemma reach_ninv en mx m : nreachable en mx m -> NInv m /\ n_entries m = en /\ n_max m = mx.
Proof. intros (A & s & B). exact (nrun_inv _ _ _ (ninv_new en mx A) B). Qed.
