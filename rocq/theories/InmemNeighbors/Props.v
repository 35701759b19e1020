(** Property theorems about the in-memory adjacency lists (C13). *)
From Verif.Lib Require Import Base Lists.
From Verif.InmemNeighbors Require Import Model Spec Proofs.

(** Whatever the interleaving, every answer is the right one for the history before it: [get]
    returns the list last set plus everything appended since, a rejected call had a reason, a
    successful one fitted, and no access leaves the buffer. *)
Theorem C13_answers_are_right : forall entries max m p ev,
  nreachable entries max m -> nth_error (n_log m) p = Some ev ->
  nanswer entries max (lists (firstn p (n_log m))) ev.
Proof. intros en mx m p ev R H. destruct (reach_ninv _ _ _ R) as (I & <- & <-). now apply (v_log _ I). Qed.
Print Assumptions C13_answers_are_right.

(** No list ever outgrows the capacity and ids beyond the table have none. *)
Theorem C13_lists_fit : forall entries max m i,
  nreachable entries max m -> length (lists (n_log m) i) <= max /\ (entries <= i -> lists (n_log m) i = []).
Proof.
  intros en mx m i R. destruct (reach_ninv _ _ _ R) as (I & <- & <-). pose proof (v_log _ I) as V. clear - V.
  induction (n_log m) as [|ev l IH] using rev_ind; [cbn; split; [lia|auto]|].
  assert (V' : forall p x, nth_error l p = Some x -> nanswer (n_entries m) (n_max m) (lists (firstn p l)) x).
  { intros p x H. assert (p < length l) by (apply nth_error_Some; congruence). specialize (V p x). rewrite nth_error_app1 in V by assumption.
    rewrite firstn_app in V. replace (p - length l) with 0 in V by lia. cbn in V. rewrite app_nil_r in V. auto. }
  specialize (IH V'). specialize (V (length l) ev). rewrite nth_error_app2, Nat.sub_diag in V by lia. specialize (V eq_refl).
  rewrite firstn_app, Nat.sub_diag, firstn_all in V. cbn in V. rewrite app_nil_r in V. rewrite lists_snoc.
  destruct ev; cbn [napply nanswer] in *; auto.
  - destruct (upd_cases (lists l) i0 l0 i) as [(-> & ->)|(_ & ->)]; [|assumption]. split; [tauto|intros; lia].
  - destruct (upd_cases (lists l) i0 (lists l i0 ++ l0) i) as [(-> & ->)|(_ & ->)]; [|assumption]. rewrite app_length. split; [tauto|intros; lia].
Qed.
Print Assumptions C13_lists_fit.

Lemma solo_read c i : forall d m len k acc, NInv m -> n_cl m c = RCopy i len k acc -> len - k = d ->
  exists m', nrun (repeat (c, NGo) (S d)) m = Some m' /\ n_cl m' c = NIdle /\ n_log m' = n_log m ++ [NGet c i (lists (n_log m) i)].
Proof.
  induction d as [|d IH]; intros m len k acc I E D; pose proof (v_pc _ I c) as P; rewrite E in P; cbn [npok] in P; destruct P as (P1 & P2 & P3 & P4).
  - assert (k = len) by lia. cbn [repeat nrun]. unfold nstep. rewrite E. rewrite (proj2 (Nat.eqb_eq k len)) by assumption.
    eexists. split; [reflexivity|]. cbn. rewrite upd_eq. split; [reflexivity|]. do 3 f_equal. rewrite P4, H, P2. apply firstn_all.
  - assert (St : exists m1 w, nstep c NGo m = Some m1 /\ n_cl m1 c = RCopy i len (k + 1) (acc ++ [w]) /\ n_log m1 = n_log m).
    { unfold nstep. rewrite E. rewrite (proj2 (Nat.eqb_neq k len)) by lia.
      destruct (row_reader m I c i) as (C1 & C2 & C3); [now rewrite E|assumption|].
      replace (base m i + 1 + k) with (addr (n_max m) i (1 + k)) by (unfold addr, base; lia). rewrite C3 by lia.
      destruct (nth_error (lists (n_log m) i) k) as [w|] eqn:F; [|apply nth_error_None in F; lia].
      exists (n_cl' m c (RCopy i len (k + 1) (acc ++ [w]))), w. split; [reflexivity|]. cbn. now rewrite upd_eq. }
    destruct St as (m1 & w & S1 & S2 & S3). destruct (IH m1 _ _ _ (nstep_inv _ _ _ _ I S1) S2 ltac:(lia)) as (m' & A & B & C).
    exists m'. change (repeat (c, NGo) (S (S d))) with ((c, NGo) :: repeat (c, NGo) (S d)). cbn [nrun]. rewrite S1. rewrite S3 in C. auto.
Qed.

(** A [get] of an id whose lock no writer holds completes and returns the list. *)
Theorem C13_get_completes : forall entries max m c i,
  nreachable entries max m -> n_cl m c = NIdle -> i < entries -> n_wr m (lock_index i) = None ->
  exists k m', nrun ((c, CGet i) :: repeat (c, NGo) k) m = Some m' /\ n_cl m' c = NIdle /\
    n_log m' = n_log m ++ [NGet c i (lists (n_log m) i)].
Proof.
  intros en mx m c i R E Hi W. destruct (reach_ninv _ _ _ R) as (I & <- & <-).
  assert (S1 : nstep c (CGet i) m = Some (n_cl' m c (RWait i))).
  { unfold nstep. rewrite E. replace (n_entries m <=? i) with false by (symmetry; apply Nat.leb_gt; assumption). reflexivity. }
  pose proof (nstep_inv _ _ _ _ I S1) as I1. set (m1 := n_cl' m c (RWait i)) in *.
  assert (S2 : nstep c NGo m1 = Some (n_cl' (n_rd' m1 (lock_index i) (c :: n_rd m1 (lock_index i))) c (RLen i))).
  { unfold nstep, m1. cbn [n_cl n_cl' n_wr]. rewrite upd_eq, W. reflexivity. }
  pose proof (nstep_inv _ _ _ _ I1 S2) as I2. set (m2 := n_cl' (n_rd' m1 (lock_index i) (c :: n_rd m1 (lock_index i))) c (RLen i)) in *.
  assert (E2 : n_cl m2 c = RLen i) by (cbn; apply upd_eq).
  assert (L2 : n_log m2 = n_log m) by reflexivity.
  assert (S3 : nstep c NGo m2 = Some (n_cl' m2 c (RCopy i (length (lists (n_log m2) i)) 0 []))).
  { unfold nstep. rewrite E2. rewrite (len_content m2 i (lists (n_log m2) i)); [reflexivity|]. apply (row_reader m2 I2 c); [now rewrite E2|assumption]. }
  pose proof (nstep_inv _ _ _ _ I2 S3) as I3.
  destruct (solo_read c i _ _ _ _ _ I3 ltac:(cbn; apply upd_eq) eq_refl) as (m' & A & B & C).
  exists (2 + S (length (lists (n_log m2) i) - 0)), m'. split; [|split; [assumption|]].
  - cbn [nrun]. rewrite S1. change (repeat (c, NGo) (2 + S (length (lists (n_log m2) i) - 0))) with ((c, NGo) :: (c, NGo) :: repeat (c, NGo) (S (length (lists (n_log m2) i) - 0))).
    cbn [nrun]. rewrite S2. cbn [nrun]. rewrite S3. exact A.
  - exact C.
Qed.
Print Assumptions C13_get_completes.

Lemma solo_write c i off l app : forall d m k, NInv m -> n_cl m c = WCopy i off l k app -> length l - k = d ->
  exists m', nrun (repeat (c, NGo) (S (S d))) m = Some m' /\ n_cl m' c = NIdle /\ n_log m' = n_log m ++ [if app then NAppend c i l else NSet c i l].
Proof.
  induction d as [|d IH]; intros m k I E D; pose proof (v_pc _ I c) as P; rewrite E in P; cbn [npok] in P; destruct P as (P1 & P2 & P3 & P4 & P5).
  - assert (k = length l) by lia. cbn [repeat nrun]. unfold nstep at 1. rewrite E. rewrite (proj2 (nth_error_None l k)) by lia.
    replace (base m i) with (addr (n_max m) i 0) by (unfold addr, base; lia). rewrite (store_word_some m i 0 _ I P1) by lia.
    unfold nstep. cbn [n_cl n_cl']. rewrite upd_eq. eexists. split; [reflexivity|]. cbn [n_cl n_log n_emit n_cl' n_wr' n_mem']. rewrite upd_eq. auto.
  - assert (St : exists m1, nstep c NGo m = Some m1 /\ n_cl m1 c = WCopy i off l (k + 1) app /\ n_log m1 = n_log m).
    { unfold nstep. rewrite E. destruct (nth_error l k) as [w|] eqn:F; [|apply nth_error_None in F; lia].
      replace (base m i + 1 + off + k) with (addr (n_max m) i (1 + off + k)) by (unfold addr, base; lia). rewrite (store_word_some m i (1 + off + k) _ I P1) by lia.
      eexists. split; [reflexivity|]. cbn. now rewrite upd_eq. }
    destruct St as (m1 & S1 & S2 & S3). destruct (IH m1 _ (nstep_inv _ _ _ _ I S1) S2 ltac:(lia)) as (m' & A & B & C).
    exists m'. change (repeat (c, NGo) (S (S (S d)))) with ((c, NGo) :: repeat (c, NGo) (S (S d))). cbn [nrun]. rewrite S1. rewrite S3 in C. auto.
Qed.

(** [append_vector] never fails: it appends as many of the new neighbours as fit. *)
Theorem C13_append_vector_appends_what_fits : forall entries max m c i l,
  nreachable entries max m -> n_cl m c = NHeld i ->
  exists k m', nrun ((c, CAppendMost l) :: repeat (c, NGo) k) m = Some m' /\ n_cl m' c = NIdle /\
    n_log m' = n_log m ++ [NAppend c i (firstn (max - length (lists (n_log m) i)) l)].
Proof.
  intros en mx m c i l R E. destruct (reach_ninv _ _ _ R) as (I & <- & <-).
  pose proof (v_pc _ I c) as P. rewrite E in P. cbn in P.
  assert (Ct : content (n_max m) (n_mem m) i (lists (n_log m) i)) by (apply (row_writer m I c); rewrite ?E; auto).
  set (L := lists (n_log m) i) in *. set (l' := firstn (n_max m - length L) l).
  assert (S1 : nstep c (CAppendMost l) m = Some (n_cl' m c (WCopy i (length L) l' 0 true))).
  { unfold nstep. rewrite E. rewrite (len_content m _ _ Ct). f_equal. destruct Ct as (C1 & _).
    assert (X : (if n_max m <? length L + length l then firstn (n_max m - length L) l else l) = l').
    { unfold l'. destruct (Nat.ltb_spec (n_max m) (length L + length l)); [reflexivity|]. symmetry. apply firstn_all2. lia. }
    rewrite X. unfold append. rewrite (len_content m i L) by (apply (row_writer m I c); rewrite ?E; auto).
    replace (n_max m <? length L + length l') with false; [reflexivity|]. symmetry. apply Nat.ltb_ge. unfold l'. rewrite firstn_length. lia. }
  destruct (solo_write c i (length L) l' true _ _ 0 (nstep_inv _ _ _ _ I S1) ltac:(cbn; apply upd_eq) eq_refl) as (m' & A & B & C).
  exists (S (S (length l' - 0))), m'. split; [|split; [assumption|]].
  - cbn [nrun]. rewrite S1. exact A.
  - exact C.
Qed.
Print Assumptions C13_append_vector_appends_what_fits.

(** A call in progress is only ever stuck behind another client, and that client either has a
    step of its own or is a caller that keeps the guard [lock] gave it. *)
Theorem C13_no_deadlock : forall entries max m c,
  nreachable entries max m -> n_cl m c <> NIdle ->
  (exists c' m', nstep c' NGo m = Some m') \/ (exists c' i, n_cl m c' = NHeld i).
Proof.
  intros en mx m c R H. destruct (reach_ninv _ _ _ R) as (I & _ & _).
  assert (Go : forall c', hw (n_cl m c') <> None \/ hr (n_cl m c') <> None -> (exists c' m', nstep c' NGo m = Some m') \/ (exists c' i, n_cl m c' = NHeld i)).
  { intros c' X. destruct (n_cl m c') eqn:E; cbn in X; try (destruct X; congruence); eauto; left; exists c'; unfold nstep; rewrite E;
    repeat match goal with |- context [match ?x with _ => _ end] => destruct x end; eauto. }
  destruct (n_cl m c) eqn:E; try congruence; try (apply (Go c); rewrite E; cbn; (left; discriminate) || (right; discriminate)).
  - destruct (n_wr m (lock_index i)) as [c'|] eqn:W; [apply (Go c'); left; apply (v_wl _ I) in W; congruence|].
    left. exists c. unfold nstep. rewrite E, W. eauto.
  - destruct (n_wr m (lock_index i)) as [c'|] eqn:W; [apply (Go c'); left; apply (v_wl _ I) in W; congruence|].
    destruct (n_rd m (lock_index i)) as [|c' r] eqn:F.
    + left. exists c. unfold nstep. rewrite E, W, F. eauto.
    + apply (Go c'). right. assert (X : In c' (n_rd m (lock_index i))) by (rewrite F; now left). apply (v_rl _ I) in X. congruence.
  - destruct (n_wr m (lock_index i)) as [c'|] eqn:W; [apply (Go c'); left; apply (v_wl _ I) in W; congruence|].
    destruct (n_rd m (lock_index i)) as [|c' r] eqn:F.
    + left. exists c. unfold nstep. rewrite E, W, F. eauto.
    + apply (Go c'). right. assert (X : In c' (n_rd m (lock_index i))) by (rewrite F; now left). apply (v_rl _ I) in X. congruence.
  - pose proof (v_pc _ I c) as P. rewrite E in P. destruct P.
Qed.
Print Assumptions C13_no_deadlock.

(** A table of 20 lists of at most 3: client 0 sets list 1 while client 1 waits to append to
    list 2 (same lock) and client 2 reads list 17. *)
Definition nsample : list (nat * nact) :=
  [(0, CSet 1 [7; 8]%N); (0, NGo); (1, CLock 2); (2, CGet 17); (0, NGo); (2, NGo); (0, NGo); (2, NGo); (0, NGo); (0, NGo);
   (1, NGo); (2, NGo); (1, CAppendMost [5; 6; 7; 8]%N); (1, NGo); (1, NGo); (1, NGo); (1, NGo); (1, NGo);
   (1, CLock 1); (1, NGo); (1, CAppend [9; 9]%N); (0, CGet 1); (0, NGo); (0, NGo); (0, NGo); (0, NGo); (0, NGo);
   (2, CSet 20 []); (2, CLock 2); (2, NGo); (2, CLen)].
Example C13_sample : option_map n_log (nrun nsample (n_new 20 3)) =
  Some [NSet 0 1 [7; 8]%N; NGet 2 17 []; NAppend 1 2 [5; 6; 7]%N; NAppendErr 1 1 [9; 9]%N; NGet 0 1 [7; 8]%N; NSetErr 2 20 []; NLen 2 2 3].
Proof. vm_compute. reflexivity. Qed.
Example C13_sample_reachable : forall m, nrun nsample (n_new 20 3) = Some m -> nreachable 20 3 m.
Proof. intros m H. split; [reflexivity|]. now exists nsample. Qed.
