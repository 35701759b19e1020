(** Every step keeps the invariant. *)
From Coq Require Import String Lia ZifyN ZifyBool ZifyNat.
From Verif.Lib Require Import Base Bytes.
From Verif.Record Require Import Model Proofs2.
From Verif.RecordDisk Require Import Model Spec Proofs Proofs2.
Local Open Scope N_scope.

Lemma fs_eta f : f = mkfs (names f) (data f) (fresh f). Proof. now destruct f. Qed.
Lemma mark_nth k (l : list (bytes * (N * bool))) k' n i b : nth_error (mark k l) k' = Some (n, (i, b)) -> exists b', nth_error l k' = Some (n, (i, b')).
Proof.
  unfold mark. destruct (nth_error l k) as [(n0, (i0, b0))|] eqn:E; [|eauto]. intros H.
  assert (L : (k < length l)%nat) by (apply nth_error_Some; congruence).
  destruct (Nat.lt_trichotomy k' k) as [Lt|[->|Gt]].
  - rewrite nth_error_app1 in H by (rewrite firstn_length; lia). exists b. rewrite <- (firstn_skipn k l). rewrite nth_error_app1 by (rewrite firstn_length; lia). exact H.
  - rewrite nth_error_app2 in H by (rewrite firstn_length; lia). rewrite firstn_length_le, Nat.sub_diag in H by lia. cbn in H. injection H as <- <- <-. eauto.
  - rewrite nth_error_app2 in H by (rewrite firstn_length; lia). rewrite firstn_length_le in H by lia. destruct (k' - k)%nat as [|m] eqn:M; [lia|]. cbn [nth_error] in H. exists b.
    rewrite <- (firstn_skipn (S k) l). rewrite nth_error_app2 by (rewrite firstn_length; lia). rewrite firstn_length_le by lia. now replace (k' - S k)%nat with m by lia.
Qed.
Lemma mark_nth' k (l : list (bytes * (N * bool))) k' n i b : nth_error l k' = Some (n, (i, b)) -> exists b', nth_error (mark k l) k' = Some (n, (i, b')) /\ (k' = k -> b' = true) /\ (k' <> k -> b' = b).
Proof.
  intros H. unfold mark. destruct (nth_error l k) as [(n0, (i0, b0))|] eqn:E.
  2:{ exists b. split; [exact H|]. split; [intros ->; congruence|reflexivity]. }
  assert (L : (k < length l)%nat) by (apply nth_error_Some; congruence).
  destruct (Nat.lt_trichotomy k' k) as [Lt|[->|Gt]].
  - exists b. split; [|split; [lia|reflexivity]]. rewrite nth_error_app1 by (rewrite firstn_length; lia). rewrite <- (firstn_skipn k l) in H. rewrite nth_error_app1 in H by (rewrite firstn_length; lia). exact H.
  - exists true. split; [|split; [reflexivity|congruence]]. rewrite nth_error_app2 by (rewrite firstn_length; lia). rewrite firstn_length_le, Nat.sub_diag by lia. pose proof (eq_trans (eq_sym E) H) as K. injection K as -> -> _. reflexivity.
  - exists b. split; [|split; [lia|reflexivity]]. rewrite nth_error_app2 by (rewrite firstn_length; lia). rewrite firstn_length_le by lia. destruct (k' - k)%nat as [|m] eqn:M; [lia|]. cbn [nth_error].
    rewrite <- (firstn_skipn (S k) l) in H. rewrite nth_error_app2 in H by (rewrite firstn_length; lia). rewrite firstn_length_le in H by lia. now replace (k' - S k)%nat with m in H by lia.
Qed.
Lemma mark_length k (l : list (bytes * (N * bool))) : length (mark k l) = length l.
Proof.
  unfold mark. destruct (nth_error l k) as [(n0, (i0, b0))|] eqn:E; [|reflexivity]. apply nth_error_split in E. destruct E as (l1 & l2 & -> & <-).
  rewrite firstn_app, Nat.sub_diag, firstn_all, app_nil_r. rewrite skipn_app, skipn_all2 by lia. replace (S (length l1) - length l1)%nat with 1%nat by lia. cbn. rewrite !app_length. reflexivity.
Qed.
Lemma not_existsb n l : existsb (beqb n) l = false -> ~ In n l.
Proof. intros H K. assert (X : existsb (beqb n) l = true) by (apply existsb_exists; exists n; split; [exact K|apply beqb_refl]). congruence. Qed.
Lemma mark_names k (l : list (bytes * (N * bool))) : map fst (mark k l) = map fst l.
Proof.
  unfold mark. destruct (nth_error l k) as [(n0, (i0, b0))|] eqn:E; [|reflexivity]. apply nth_error_split in E. destruct E as (l1 & l2 & -> & <-).
  assert (E1 : firstn (length l1) (l1 ++ (n0, (i0, b0)) :: l2) = l1) by (rewrite firstn_app, Nat.sub_diag, firstn_all; cbn; apply app_nil_r).
  assert (E2 : skipn (S (length l1)) (l1 ++ (n0, (i0, b0)) :: l2) = l2).
  { rewrite skipn_app. rewrite skipn_all2 by lia. now replace (S (length l1) - length l1)%nat with 1%nat by lia. }
  rewrite E1, E2, !map_app. reflexivity.
Qed.
Lemma remove_at_perm n l x r : remove_at n l = Some (x, r) -> Permutation l (x :: r).
Proof.
  unfold remove_at. destruct (nth_error l n) as [y|] eqn:E.
  - intros H. assert (K : Permutation l (y :: firstn n l ++ skipn (S n) l)).
    { clear H. apply nth_error_split in E. destruct E as (l1 & l2 & -> & <-). rewrite firstn_app, Nat.sub_diag, firstn_all. rewrite skipn_app, skipn_all2 by lia.
      replace (S (length l1) - length l1)%nat with 1%nat by lia. cbn [firstn skipn app]. rewrite app_nil_r. symmetry. apply Permutation_middle. }
    assert (H1 : y = x /\ firstn n l ++ skipn (S n) l = r) by (split; congruence). destruct H1 as (<- & <-). exact K.
  - destruct l; [discriminate|]. intros [= <- <-]. reflexivity.
Qed.
Lemma remove_at_none n l : remove_at n l = None -> l = [].
Proof. unfold remove_at. destruct (nth_error l n); [discriminate|]. destruct l; [reflexivity|discriminate]. Qed.

Ltac fin := first [discriminate | solve [intros (?v & ?H); discriminate] | solve [cbn; intros; discriminate] | solve [cbn; tauto] | solve [cbn; auto] | idtac].

Section Steps.
  Variable V : Type.
  Variable enc : list bytes -> V -> bytes.
  Variable cfg : nat -> config V.
  Variable f0 : fs.
  Hypothesis F0 : fs_ok f0.
  Hypothesis AP : apart cfg.
  Notation INV := (Inv V enc cfg f0).
  Notation TIV := (TI V enc cfg).

  (** Phases in which names of [i] can be dropped or the save abandoned. *)
  Lemma live_not_committed (p : phase V) : live p = true -> ~ committed V p.
  Proof. intros H (v & ->). discriminate. Qed.

  (** A change of phase that forgets. *)
  Lemma TI_goto own f i t p :
    TIV own f i t -> (forall n, In n (fnames t) -> holds V p n -> holds V (ph t) n) ->
    (forall todo c, p = Dropping todo c -> NoDup todo /\ incl todo (fnames t)) ->
    (forall v x r, p <> Writing v x r) -> (forall v, p = Renaming v -> exists x, own x = Some (i, None) /\ names f (temp (cfg i)) = Some x /\ data f x = enc (fnames t) v) ->
    TIV own f i (goto t p).
  Proof.
    intros (T1 & T2 & T3 & T4 & T5) A B C D. split; [|split; [exact T2|split; [exact B|split]]].
    - intros k n x b H. cbn in H. destruct (T1 k n x b H) as (O & Dx & G & R & HN). repeat (split; [assumption|]). intros Hh. apply HN. apply A; [|exact Hh]. apply nth_error_In in H. apply in_map_iff. now exists (n, (x, b)).
    - intros v x r H. now apply C in H.
    - exact D.
  Qed.
  Lemma phase_step own s i p :
    INV own s -> ~ committed V (ph (thr s i)) -> ~ committed V p ->
    (forall n, In n (fnames (thr s i)) -> holds V p n -> holds V (ph (thr s i)) n) ->
    (forall todo c, p = Dropping todo c -> NoDup todo /\ incl todo (fnames (thr s i))) ->
    (forall v x r, p <> Writing v x r) ->
    (forall v, p = Renaming v -> exists x, own x = Some (i, None) /\ names (fsys s) (temp (cfg i)) = Some x /\ data (fsys s) x = enc (fnames (thr s i)) v) ->
    (forall n, In n (fnames (thr s i)) -> lingers V (ph (thr s i)) n -> lingers V p n) ->
    (leftover V (ph (thr s i)) -> leftover V p) ->
    (live p = true -> live (ph (thr s i)) = true \/ (forall j, j <> i -> temp (cfg j) = temp (cfg i) -> live (ph (thr s j)) = false)) ->
    INV own (mkst (fsys s) (upd (thr s) i (goto (thr s i) p)) (commits s)).
  Proof.
    intros I NC NC' H1 H2 H3 H4 H5 H6 H7. rewrite (fs_eta (fsys s)). apply local_step; auto.
    - rewrite <- fs_eta. apply TI_goto; auto. apply (g_thr _ _ _ _ _ _ I).
    - cbn. eauto.
  Qed.
  Lemma drop_step own s i : INV own s -> live (ph (thr s i)) = true -> (forall todo c, ph (thr s i) <> Dropping todo c) ->
    INV own (mkst (fsys s) (upd (thr s) i (drop (thr s i))) (commits s)).
  Proof.
    intros I L ND. pose proof (g_thr _ _ _ _ _ _ I i) as (_ & (T2 & _) & _). apply phase_step; auto.
    - now apply live_not_committed.
    - intros (v & H). discriminate.
    - intros n Hn _. destruct (ph (thr s i)); cbn in *; try exact Logic.I; try discriminate. exfalso. now apply (ND todo clean).
    - intros todo c [= <- <-]. split; [exact T2|apply incl_refl].
    - discriminate.
    - discriminate.
    - intros n Hn _. cbn. now left.
    - cbn. auto.
  Qed.
  (** An event that writes nothing. *)
  Lemma note_step own s i e : INV own s -> live (ph (thr s i)) = true -> (forall k b, wrote k b e = b) ->
    INV own (mkst (fsys s) (upd (thr s) i (note (thr s i) e)) (commits s)).
  Proof.
    intros I L W. rewrite (fs_eta (fsys s)). apply local_step; auto.
    - rewrite <- fs_eta. destruct (g_thr _ _ _ _ _ _ I i) as (T1 & T2 & T3 & T4 & T5). split; [|split; [split; [apply T2|]|split; [exact T3|split; [exact T4|exact T5]]]].
      2:{ intros k Hk. cbn [evs note files] in *. rewrite written_snoc, W. now apply T2. }
      intros k n x b H. cbn in H. destruct (T1 k n x b H) as (O & Dx & R). split; [exact O|]. split; [|exact R]. cbn [evs note]. rewrite written_snoc, W. exact Dx.
    - now apply live_not_committed.
    - now apply live_not_committed.
    - cbn. eauto.
  Qed.
  (** A write to an artifact of [i] that is still held. *)
  Lemma put_step own s i k n x b e y : INV own s -> ph (thr s i) = Running -> nth_error (files (thr s i)) k = Some (n, (x, b)) ->
    wrote k (data (fsys s) x) e = y -> (forall k' z, k' <> k -> wrote k' z e = z) ->
    INV own (mkst (set_data (fsys s) x y) (upd (thr s) i (note (thr s i) e)) (commits s)).
  Proof.
    intros I P E W W'. pose proof (g_thr _ _ _ _ _ _ I i) as (T1 & T2 & T3 & T4 & T5). destruct (T1 _ _ _ _ E) as (Ox & Dx & _).
    unfold set_data. apply local_step; auto.
    - intros z Hz. destruct (N.eqb_spec z x) as [->|]; [exfalso; now apply (Hz (Some k))|reflexivity].
    - split; [|split; [split; [apply T2|]|split; [exact T3|split]]].
      2:{ intros k' Hk. cbn [evs note files] in *. rewrite written_snoc. assert ((k < length (files (thr s i)))%nat) by (apply nth_error_Some; congruence). rewrite W' by lia. now apply T2. }
      + intros k' n' x' b' H. cbn in H. destruct (T1 k' n' x' b' H) as (O & D' & G & R & HN). split; [exact O|]. split; [|now repeat (split; [assumption|])]. cbn [data]. cbn [evs note]. rewrite written_snoc.
        destruct (Nat.eq_dec k' k) as [->|N].
        * assert (x' = x) by congruence. subst x'. rewrite N.eqb_refl. now rewrite <- D'.
        * rewrite W' by assumption. destruct (N.eqb_spec x' x) as [->|]; [congruence|exact D'].
      + cbn. intros v z r H. congruence.
      + cbn. intros v H. congruence.
    - rewrite P. intros (v & H). discriminate.
    - cbn. rewrite P. intros (v & H). discriminate.
    - cbn. eauto.
  Qed.

  Lemma step_inv own s a : INV own s ->
    (match a with
     | Step i _ => ph (thr s i) = Fresh -> forall j, j <> i -> temp (cfg j) = temp (cfg i) -> live (ph (thr s j)) = false
     | Crash _ => True
     end) -> exists own', INV own' (step enc cfg s a).
  Proof.
    intros I OR. destruct a as [i x|i].
    2:{ cbn [step]. destruct (over (ph (thr s i))) eqn:O; [exists own; exact I|]. exists own. apply phase_step; auto; fin. intros (v & H). rewrite H in O. discriminate. }
    cbn [step]. unfold thread_step. destruct (ph (thr s i)) eqn:P.
    - (* Fresh *) exists own. cbn [fst snd]. specialize (OR eq_refl). apply phase_step; auto; rewrite ?P; destruct (ok x); fin.
    - (* Running *) unfold user_step. set (c := cfg i) in *. assert (LV : live (ph (thr s i)) = true) by now rewrite P. destruct (user c (evs (thr s i))) as [key|k g|k|[v|]].
      + set (name := art_name _ key). destruct (existsb _ _) eqn:EX; [exists own; now apply note_step|]. destruct (resolve (cdir c) name) as [p|] eqn:R; [|exists own; now apply note_step].
        destruct (names (fsys s) p) eqn:NP; [exists own; now apply note_step|]. destruct (ok x); [|exists own; now apply note_step].
        destruct (art_resolve _ _ _ _ R) as (NS & ->). fold name in NS, NP, R.
        assert (DF : digit_first name) by apply art_name_digit.
        pose proof (g_thr _ _ _ _ _ _ I i) as (T1 & T2 & T3 & T4 & T5).
        exists (own_new own (fresh (fsys s)) i (Some (length (files (thr s i))))). apply create_step; auto.
        * split; [|split; [|split; [|split]]]; cbn [ph files evs fnames].
          -- intros k n y b H. apply nth_error_snoc in H. destruct H as [(_ & H)|(-> & H)].
             ++ destruct (T1 k n y b H) as (O & Dy & G & R' & HN). split; [rewrite own_new_neq; [exact O|]; intros ->; assert (Q : own (fresh (fsys s)) <> None) by congruence; apply (g_own _ _ _ _ _ _ I) in Q; lia|].
                split.
                { cbn [data create]. destruct (N.eqb_spec y (fresh (fsys s))) as [->|_]; [assert (Q : own (fresh (fsys s)) <> None) by congruence; apply (g_own _ _ _ _ _ _ I) in Q; lia|]. rewrite written_snoc. exact Dy. }
                split; [exact G|]. split; [exact R'|]. intros Hh. specialize (HN Hh). cbn [names create]. destruct (path_dec _ _) as [Q|_]; [|exact HN]. apply snoc_inj in Q. destruct Q as (_ & ->). fold c in HN. fold name in HN. congruence.
             ++ injection H as -> -> ->. split; [apply own_new_eq|]. split.
                { cbn [data create]. rewrite N.eqb_refl, written_snoc. cbn [wrote]. symmetry. apply T2. lia. }
                split; [exact DF|]. split; [exact R|]. intros _. cbn [names create]. destruct (path_dec _ _) as [_|Q]; [reflexivity|contradiction].
          -- split.
             ++ unfold fnames. cbn [files]. rewrite map_app. apply NoDup_app_intro; [apply T2|repeat constructor; intros []|]. intros n Hn [<-|[]]. cbn [fst] in *. now apply not_existsb in EX.
             ++ cbn [files evs]. intros k Hk. rewrite app_length in Hk. cbn [length] in Hk. rewrite written_snoc. cbn [wrote]. apply T2. lia.
          -- rewrite P. discriminate.
          -- rewrite P. discriminate.
          -- rewrite P. discriminate.
        * now apply live_not_committed.
        * now apply live_not_committed.
        * cbn. intros k n y b H. rewrite nth_error_app1; [exact H|]. apply nth_error_Some. congruence.
        * intros j Q. symmetry in Q. destruct AP as (_ & AP2). destruct (AP2 j i name DF) as (X & _). fold c in Q. now apply X.
        * cbn [files ph]. exists name, false. split; [rewrite nth_error_app2, Nat.sub_diag by lia; reflexivity|]. split; [reflexivity|]. now rewrite P.
      + destruct (nth_error (files (thr s i)) k) as [(n, (y, [|]))|] eqn:E; try (exists own; now apply note_step). exists own. destruct (ok x).
        * eapply put_step; eauto; cbn; [now rewrite Nat.eqb_refl|]. intros k' z N. destruct (Nat.eqb_spec k k'); [congruence|reflexivity].
        * eapply put_step; eauto; cbn; [now rewrite Nat.eqb_refl|]. intros k' z N. destruct (Nat.eqb_spec k k'); [congruence|reflexivity].
      + destruct (nth_error (files (thr s i)) k) as [(n, (y, [|]))|] eqn:E; try (exists own; now apply note_step). exists own. destruct (ok x).
        * rewrite (fs_eta (fsys s)). apply local_step; auto.
          -- rewrite <- fs_eta. pose proof (g_thr _ _ _ _ _ _ I i) as (T1 & T2 & T3 & T4 & T5). split; [|split; [|split; [|split]]]; cbn [ph files evs fnames].
             ++ intros k' n' z b H. apply mark_nth in H. destruct H as (b' & H). destruct (T1 _ _ _ _ H) as (O & Dz & R). split; [exact O|]. split; [rewrite written_snoc; exact Dz|exact R].
             ++ split; [unfold fnames in *; cbn [files]; rewrite mark_names; apply T2|]. cbn [files evs]. rewrite mark_length. intros k' Hk. rewrite written_snoc. cbn [wrote]. now apply T2.
             ++ rewrite P. discriminate.
             ++ rewrite P. discriminate.
             ++ rewrite P. discriminate.
          -- now apply live_not_committed.
          -- now apply live_not_committed.
          -- cbn. intros k' n' z b H. destruct (mark_nth' k _ _ _ _ _ H) as (b' & H' & _). eauto.
        * eapply put_step; eauto; cbn; [now rewrite Nat.eqb_refl|]. intros k' z N. destruct (Nat.eqb_spec k k'); [congruence|reflexivity].
      + exists own. destruct (forallb _ _).
        * apply phase_step; auto; rewrite ?P; cbn; auto; try discriminate; intros (v' & H); discriminate.
        * apply drop_step; auto. rewrite P. discriminate.
      + exists own. apply drop_step; auto. rewrite P. discriminate.
    - (* Creating *) assert (LV : live (ph (thr s i)) = true) by now rewrite P. destruct (names (fsys s) (temp (cfg i))) eqn:NP; [exists own; apply drop_step; auto; rewrite P; discriminate|].
      destruct (ok x); [|exists own; apply drop_step; auto; rewrite P; discriminate].
      pose proof (g_thr _ _ _ _ _ _ I i) as (T1 & T2 & T3 & T4 & T5).
      exists (own_new own (fresh (fsys s)) i None). apply create_step; auto.
      + split; [|split; [exact T2|split; [discriminate|split]]]; cbn [ph files evs fnames goto].
        * intros k n y b H. destruct (T1 k n y b H) as (O & Dy & G & R' & HN). split; [rewrite own_new_neq; [exact O|]; intros ->; assert (Q : own (fresh (fsys s)) <> None) by congruence; apply (g_own _ _ _ _ _ _ I) in Q; lia|].
          split; [cbn [data create]; destruct (N.eqb_spec y (fresh (fsys s))) as [->|_]; [assert (Q : own (fresh (fsys s)) <> None) by congruence; apply (g_own _ _ _ _ _ _ I) in Q; lia|exact Dy]|].
          split; [exact G|]. split; [exact R'|]. intros _. rewrite P in HN. specialize (HN Logic.I). cbn [names create]. destruct (path_dec _ _) as [Q|_]; [|exact HN]. congruence.
        * intros v' y r [= <- <- <-]. split; [apply own_new_eq|]. cbn [names data create]. destruct (path_dec _ _) as [_|Q]; [|contradiction]. split; [reflexivity|]. now rewrite N.eqb_refl.
        * discriminate.
      + now apply live_not_committed.
      + intros (v' & H). discriminate.
      + cbn. auto.
      + cbn. auto.
      + intros j Q. symmetry in Q. destruct AP as (AP1 & _). now apply AP1 in Q.
      + cbn. auto.
    - (* Writing *) assert (LV : live (ph (thr s i)) = true) by now rewrite P. pose proof (g_thr _ _ _ _ _ _ I i) as (T1 & T2 & T3 & T4 & T5). destruct (T4 _ _ _ P) as (O & NT & DE).
      destruct rest as [|b rest].
      + exists own. apply phase_step; auto; rewrite ?P; cbn; auto; try discriminate; try (intros (v' & H); discriminate).
        intros v' [= <-]. exists i0. rewrite app_nil_r in DE. auto.
      + set (rest0 := b :: rest) in *.
        assert (W : INV own (mkst (set_data (fsys s) i0 (data (fsys s) i0 ++ firstn (S (num x)) rest0)) (upd (thr s) i (goto (thr s i) (Writing v i0 (skipn (S (num x)) rest0)))) (commits s))).
        { unfold set_data. apply local_step; auto.
          - intros z Hz. destruct (N.eqb_spec z i0) as [->|]; [exfalso; now apply (Hz None)|reflexivity].
          - split; [|split; [exact T2|split; [discriminate|split]]]; cbn [ph files evs fnames goto].
            + intros k n y b' H. destruct (T1 k n y b' H) as (Oy & Dy & G & R' & HN). split; [exact Oy|]. cbn [data]. destruct (N.eqb_spec y i0) as [->|_]; [congruence|]. split; [exact Dy|]. split; [exact G|]. split; [exact R'|]. intros _. apply HN. now rewrite P.
            + intros v' y r H. assert (Q : v' = v /\ y = i0 /\ r = skipn (S (num x)) rest0) by (repeat split; congruence). destruct Q as (-> & -> & ->). split; [exact O|]. split; [exact NT|]. cbn [data]. rewrite N.eqb_refl, <- app_assoc, firstn_skipn. exact DE.
            + discriminate.
          - now apply live_not_committed.
          - intros (v' & H). discriminate.
          - cbn. eauto.
          - cbn. auto.
          - cbn. auto.
        }
        exists own. cbn zeta. destruct (ok x); [exact W|].
        match goal with |- INV _ (mkst ?f (upd ?th i ?t) ?cs) => pose proof (drop_step own (mkst f (upd th i (goto (thr s i) (Writing v i0 (skipn (S (num x)) rest0)))) cs) i W) as K end.
        cbn [fsys thr commits] in K. rewrite upd_eq in K. eapply Inv_ext; [|apply K; [reflexivity|discriminate]].
        intros j. cbn. unfold drop, goto, fnames. cbn [files evs]. destruct (Nat.eq_dec j i) as [->|N]; [now rewrite !upd_eq|now rewrite !upd_neq].
    - (* Renaming *) assert (LV : live (ph (thr s i)) = true) by now rewrite P. destruct (names (fsys s) (temp (cfg i))) eqn:NP; [|exists own; apply drop_step; auto; rewrite P; discriminate].
      destruct (ok x); [|exists own; apply drop_step; auto; rewrite P; discriminate]. exists own. now apply commit_step.
    - (* Dropping *) assert (LV : live (ph (thr s i)) = true) by now rewrite P. pose proof (g_thr _ _ _ _ _ _ I i) as (T1 & T2 & T3 & T4 & T5). destruct (T3 _ _ P) as (ND & IN). destruct AP as (AP1 & AP2).
      exists own. destruct (remove_at (num x) todo) as [(n, todo')|] eqn:RA.
      + apply remove_at_perm in RA. assert (ND' : NoDup (n :: todo')) by (eapply Permutation_NoDup; eauto). inversion ND' as [|? ? NI ND2]; subst. clear ND'.
        assert (IN' : forall m, In m todo <-> m = n \/ In m todo').
        { intros m. split; intros H; [apply (Permutation_in _ RA) in H; destruct H; auto|apply (Permutation_in _ (Permutation_sym RA)); destruct H; [now left|now right]]. }
        assert (Hn : In n (fnames (thr s i))) by (apply IN, IN'; now left). apply in_map_iff in Hn. destruct Hn as ((n0, (y, b)) & E & Hn). cbn in E. subst n0. apply In_nth_error in Hn. destruct Hn as (k & Hn).
        destruct (T1 _ _ _ _ Hn) as (Oy & _ & G & R & HN). rewrite P in HN. assert (HN' := HN ltac:(cbn; apply IN'; now left)). clear HN.
        destruct (ok x).
        * rewrite R. apply remove_step; auto.
          -- split; [|split; [exact T2|split; [|split; discriminate]]]; cbn [ph files evs fnames goto].
             ++ intros k' n' y' b' H. destruct (T1 _ _ _ _ H) as (O' & D' & G' & R' & HN2). repeat (split; [assumption|]). cbn. intros Hm. rewrite P in HN2. cbn in HN2. destruct (path_dec _ _) as [Q|_].
                ** apply snoc_inj in Q. destruct Q as (_ & ->). contradiction.
                ** apply HN2. apply IN'. now right.
             ++ intros td c [= <- <-]. split; [exact ND2|]. intros m Hm. apply IN, IN'. now right.
          -- now apply live_not_committed.
          -- intros (v & H). discriminate.
          -- intros z j k' Nj Hz O'. rewrite HN' in Hz. injection Hz as <-. congruence.
          -- intros j Nj Lj Q. symmetry in Q. destruct (AP2 j i n G) as (_ & X). contradiction.
          -- intros j Q. symmetry in Q. destruct (AP2 j i n G) as (X & _). contradiction.
          -- right. exists y. split; [exact HN'|congruence].
          -- rewrite P. cbn. intros m Hm [L|L]; [|left; right; rewrite L; reflexivity]. apply IN' in L. destruct L as [->|L]; [now right|left; now left].
          -- cbn. auto.
        * apply phase_step; auto; rewrite ?P.
          all: fin.
          -- cbn. intros m Hm H. apply IN'. now right.
          -- intros td c [= <- <-]. split; [exact ND2|]. intros m Hm. apply IN, IN'. now right.
          -- cbn. intros m Hm _. right. apply andb_false_r.
      + apply remove_at_none in RA. subst todo. destruct (ok x).
        * apply remove_step; auto.
          -- split; [|split; [exact T2|split; [discriminate|split; discriminate]]]; cbn [ph files evs fnames goto].
             intros k' n' y' b' H. destruct (T1 _ _ _ _ H) as (O' & D' & G' & R' & HN2). repeat (split; [assumption|]). cbn. tauto.
          -- now apply live_not_committed.
          -- intros (v & H). discriminate.
          -- intros z j k' Nj Hz O'. pose proof (g_class _ _ _ _ _ _ I _ _ Hz) as Cz. unfold class in Cz. rewrite O' in Cz. destruct Cz as (n & b & E & Q & _).
             destruct (g_thr _ _ _ _ _ _ I j) as (U1 & _). destruct (U1 _ _ _ _ E) as (_ & _ & G & _). destruct (AP2 i j n G) as (_ & X). contradiction.
          -- intros j Nj Lj Q. apply Nj. apply (g_live _ _ _ _ _ _ I); auto.
          -- rewrite P. cbn. intros m Hm [[]|L]. left. rewrite L. reflexivity.
        * apply phase_step; auto; rewrite ?P.
          all: fin.
          -- cbn. intros m Hm _. apply andb_false_r.
          -- cbn. intros _. apply andb_false_r.
    - exists own. destruct s as [f th cs]. cbn in *. eapply Inv_ext; [|exact I]. intros j. destruct (Nat.eq_dec j i) as [->|N]; [now rewrite upd_eq|now rewrite upd_neq].
    - exists own. destruct s as [f th cs]. cbn in *. eapply Inv_ext; [|exact I]. intros j. destruct (Nat.eq_dec j i) as [->|N]; [now rewrite upd_eq|now rewrite upd_neq].
    - exists own. destruct s as [f th cs]. cbn in *. eapply Inv_ext; [|exact I]. intros j. destruct (Nat.eq_dec j i) as [->|N]; [now rewrite upd_eq|now rewrite upd_neq].
  Qed.
End Steps.
