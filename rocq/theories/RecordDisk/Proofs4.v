(** The invariant of all runs, and what a save keeps about itself. *)
From Coq Require Import String Lia ZifyN ZifyBool ZifyNat.
From Verif.Lib Require Import Base Bytes.
From Verif.Record Require Import Model Proofs2.
From Verif.RecordDisk Require Import Model Spec Proofs Proofs2 Proofs3.
Local Open Scope N_scope.

Section Runs.
  Variable V : Type.
  Variable enc : list bytes -> V -> bytes.
  Variable cfg : nat -> config V.
  Variable f0 : fs.
  Hypothesis F0 : fs_ok f0.
  Hypothesis AP : apart cfg.
  Notation INV := (Inv V enc cfg f0).

  Lemma init_inv : INV (fun _ => None) (init f0).
  Proof.
    constructor; cbn [fsys thr commits init]; try (intros; congruence).
    - lia.
    - intros p i H. now apply F0 in H.
    - intros j. split; [|split; [|split; [|split]]]; cbn [files ph evs].
      + intros k n i b H. destruct k; discriminate.
      + split; [constructor|reflexivity].
      + discriminate.
      + discriminate.
      + discriminate.
    - intros i j H. discriminate.
    - intros j. split; [intros []|]. intros (v & H). discriminate.
  Qed.
  Lemma run_inv l : forall own s, INV own s -> orderly enc cfg s l -> exists own', INV own' (run enc cfg s l).
  Proof.
    induction l as [|a l IH]; intros own s I O; [now exists own|]. cbn [orderly] in O. destruct O as (O1 & O2).
    destruct (step_inv V enc cfg f0 F0 AP own s a I O1) as (own' & I'). exact (IH _ _ I' O2).
  Qed.
  Lemma reach l : orderly enc cfg (init f0) l -> exists own, INV own (run enc cfg (init f0) l).
  Proof. apply run_inv with (own := fun _ => None). apply init_inv. Qed.

  (** ** What a save keeps about itself *)
  Definition closing (p : phase V) : option V := match p with Creating v | Writing v _ _ | Renaming v | Committed v => Some v | _ => None end.
  Definition LI (c : config V) (t : tstate V) : Prop :=
    fnames t = opened (evs t) /\
    (forall k n, nth_error (fnames t) k = Some n -> exists key, n = art_name (N.of_nat k) key) /\
    (forall k n, In (AFinish k, OHandle n) (evs t) <-> exists i, nth_error (files t) k = Some (n, (i, true))) /\
    (forall v, closing (ph t) = Some v -> user c (evs t) = AReturn (Some v) /\ forall e, In e (files t) -> finished e = true) /\
    (ph t = Fresh -> evs t = []).
  Lemma opened_snoc (l : list (event V)) e : opened (l ++ [e]) = opened l ++ match snd e with OOpened n => [n] | _ => [] end.
  Proof. unfold opened. rewrite flat_map_app. cbn. now rewrite app_nil_r. Qed.
  Lemma LI_goto c t p : LI c t -> (forall v, closing p = Some v -> closing (ph t) = Some v) -> p <> Fresh -> LI c (goto t p).
  Proof. intros (A & B & C & D & E) H N. split; [exact A|]. split; [exact B|]. split; [exact C|]. split; [intros v Hv; apply D; auto|]. intros Q. contradiction. Qed.
  Lemma LI_drop c t : LI c t -> LI c (drop t).
  Proof. intros H. apply LI_goto; [exact H|discriminate|discriminate]. Qed.
  Lemma LI_note c t a o : LI c t -> ph t = Running -> (match o with OOpened _ | OHandle _ => False | _ => True end) -> LI c (note t (a, o)).
  Proof.
    intros (A & B & C & D & E) P H. split; [|split; [exact B|split; [|split]]]; cbn [evs note files ph fnames].
    - rewrite opened_snoc. cbn [snd]. destruct o; try contradiction; rewrite app_nil_r; exact A.
    - intros k n. rewrite in_app_iff, C. cbn [In]. split; [intros [X|[X|[]]]; [exact X|]|auto]. injection X as -> ->. contradiction.
    - rewrite P. discriminate.
    - rewrite P. discriminate.
  Qed.
  Lemma LI_step c x f t : LI c t -> LI c (snd (fst (thread_step enc c x f t))).
  Proof.
    intros H. unfold thread_step. destruct (ph t) eqn:P; cbn [fst snd].
    - apply LI_goto; [exact H| |]; destruct (ok x); discriminate.
    - unfold user_step. destruct (user c (evs t)) as [key|k g|k|[v|]] eqn:U; cbn [snd].
      + set (name := art_name _ key). destruct (existsb _ _); [now apply LI_note|]. destruct (resolve _ _) as [p|]; [|now apply LI_note]. destruct (names f p); [now apply LI_note|].
        destruct (ok x); [|now apply LI_note]. cbn [snd]. destruct H as (A & B & C & D & E). split; [|split; [|split; [|split]]]; cbn [evs files ph].
        * rewrite opened_snoc. unfold fnames in *. cbn [files]. rewrite map_app, A. reflexivity.
        * unfold fnames in *. cbn [files]. rewrite map_app. intros k n Hn. apply nth_error_snoc in Hn. destruct Hn as [(_ & Hn)|(-> & ->)]; [now apply B|]. exists key. now rewrite map_length.
        * intros k n. rewrite in_app_iff, C. cbn [In]. split.
          -- intros [(i & X)|[X|[]]]; [|discriminate]. exists i. rewrite nth_error_app1; [exact X|]. apply nth_error_Some. congruence.
          -- intros (i & X). apply nth_error_snoc in X. destruct X as [(_ & X)|(_ & X)]; [left; now exists i|discriminate].
        * rewrite P. discriminate.
        * rewrite P. discriminate.
      + destruct (nth_error _ _) as [(n, (y, [|]))|]; try now apply LI_note. destruct (ok x); now apply LI_note.
      + destruct (nth_error (files t) k) as [(n, (y, [|]))|] eqn:EK; try now apply LI_note. destruct (ok x); [|now apply LI_note]. cbn [snd].
        destruct H as (A & B & C & D & E). split; [|split; [|split; [|split]]]; cbn [evs files ph].
        * rewrite opened_snoc. cbn [snd]. rewrite app_nil_r. unfold fnames in *. cbn [files]. now rewrite mark_names.
        * unfold fnames in *. cbn [files]. rewrite mark_names. exact B.
        * intros k' n'. rewrite in_app_iff, C. cbn [In]. split.
          -- intros [(i & X)|[X|[]]].
             ++ destruct (mark_nth' k _ _ _ _ _ X) as (b & M & M1 & M2). exists i. rewrite M. destruct (Nat.eq_dec k' k); [now rewrite M1|now rewrite M2].
             ++ injection X as <- <-. destruct (mark_nth' k _ _ _ _ _ EK) as (b & M & M1 & _). exists y. rewrite M, M1; reflexivity.
          -- intros (i & X). destruct (mark_nth _ _ _ _ _ _ X) as (b & M). destruct (mark_nth' k _ _ _ _ _ M) as (b' & M' & _ & M2). rewrite X in M'. injection M' as <-.
             destruct (Nat.eq_dec k' k) as [->|N]; [right; left; congruence|]. left. exists i. now rewrite <- M2 in M.
        * rewrite P. discriminate.
        * rewrite P. discriminate.
      + destruct (forallb finished (files t)) eqn:FF; [|now apply LI_drop]. destruct H as (A & B & C & D & E). split; [exact A|]. split; [exact B|]. split; [exact C|]. split; [|discriminate].
        cbn [ph goto closing evs files]. intros v' [= <-]. split; [exact U|]. now apply forallb_forall.
      + now apply LI_drop.
    - destruct (names f (temp c)); [now apply LI_drop|]. destruct (ok x); [|now apply LI_drop]. cbn [fst snd]. apply LI_goto; [exact H|now rewrite P|discriminate].
    - destruct rest as [|b rest]; [apply LI_goto; [exact H|now rewrite P|discriminate]|]. cbn zeta. destruct (ok x); [|now apply LI_drop]. apply LI_goto; [exact H|now rewrite P|discriminate].
    - destruct (names f (temp c)); [|now apply LI_drop]. destruct (ok x); [|now apply LI_drop]. cbn [fst snd]. apply LI_goto; [exact H|now rewrite P|discriminate].
    - destruct (remove_at _ _) as [(n, td)|]; cbn [fst snd]; (apply LI_goto; [exact H|discriminate|discriminate]).
    - exact H.
    - exact H.
    - exact H.
  Qed.
  Definition LIs (s : state V) : Prop := forall j, LI (cfg j) (thr s j).
  Lemma LIs_init : LIs (init f0).
  Proof.
    intros j. split; [reflexivity|]. split; [intros k n H; destruct k; discriminate|]. split; [|split; [discriminate|reflexivity]].
    intros k n. cbn. split; [intros []|]. intros (i & H). destruct k; discriminate.
  Qed.
  Lemma LIs_step s a : LIs s -> LIs (step enc cfg s a).
  Proof.
    intros H j. destruct a as [i x|i]; cbn [step].
    - pose proof (LI_step (cfg i) x (fsys s) (thr s i) (H i)) as K. destruct (thread_step _ _ _ _ _) as ((f, t), d). cbn [fst snd] in K. cbn [thr].
      destruct (Nat.eq_dec j i) as [->|N]; [now rewrite upd_eq|rewrite upd_neq by assumption; apply H].
    - destruct (over _); [apply H|]. cbn [thr]. destruct (Nat.eq_dec j i) as [->|N]; [rewrite upd_eq|rewrite upd_neq by assumption; apply H]. apply LI_goto; [apply H|discriminate|discriminate].
  Qed.
  Lemma LIs_run l : forall s, LIs s -> LIs (run enc cfg s l).
  Proof. induction l as [|a l IH]; intros s H; [exact H|]. apply (IH (step enc cfg s a)). now apply LIs_step. Qed.

  (** ** A save that is over stays as it is *)
  Lemma over_stays s a i : over (ph (thr s i)) = true -> thr (step enc cfg s a) i = thr s i.
  Proof.
    intros H. destruct a as [j x|j]; cbn [step].
    - destruct (Nat.eq_dec i j) as [<-|N].
      + unfold thread_step. destruct (ph (thr s i)); try discriminate; cbn [thr]; now rewrite upd_eq.
      + destruct (thread_step _ _ _ _ _) as ((f, t), d). cbn [thr]. now rewrite upd_neq.
    - destruct (over (ph (thr s j))) eqn:E; [reflexivity|]. cbn [thr]. rewrite upd_neq; [reflexivity|]. intros ->. congruence.
  Qed.
  Lemma over_stays_run l i : forall s, over (ph (thr s i)) = true -> thr (run enc cfg s l) i = thr s i.
  Proof.
    induction l as [|a l IH]; intros s H; [reflexivity|]. change (thr (run enc cfg (step enc cfg s a) l) i = thr s i). rewrite IH; [now apply over_stays|]. now rewrite over_stays.
  Qed.
  Lemma orderly_app l1 l2 : forall s, orderly enc cfg s (l1 ++ l2) <-> orderly enc cfg s l1 /\ orderly enc cfg (run enc cfg s l1) l2.
  Proof.
    induction l1 as [|a l1 IH]; intros s; cbn [app orderly]; [cbn; tauto|]. rewrite IH. change (run enc cfg s (a :: l1)) with (run enc cfg (step enc cfg s a) l1). tauto.
  Qed.

  (** ** What it means for readers *)
  Lemma committed_reads own s i v : INV own s -> LIs s -> ph (thr s i) = Committed v ->
    user (cfg i) (evs (thr s i)) = AReturn (Some v) /\
    (forall n, In n (opened (evs (thr s i))) -> exists k, In (AFinish k, OHandle n) (evs (thr s i))) /\
    forall k n, In (AFinish k, OHandle n) (evs (thr s i)) ->
      In n (opened (evs (thr s i))) /\ content (fsys s) (cdir (cfg i) ++ [n]) = Some (written (evs (thr s i)) k) /\
      forall fl, In n fl -> disk_read (fsys s) (cdir (cfg i)) fl n = Some (written (evs (thr s i)) k).
  Proof.
    intros I L P. destruct (L i) as (A & B & C & D & _). rewrite P in D. destruct (D v eq_refl) as (D1 & D2). split; [exact D1|]. split.
    - intros n Hn. rewrite <- A in Hn. apply In_nth_error in Hn. destruct Hn as (k & Hn). unfold fnames in Hn. rewrite nth_error_map in Hn. destruct (nth_error (files _) k) as [(n', (y, b))|] eqn:E; [|discriminate]. cbn in Hn. injection Hn as ->.
      exists k. apply C. exists y. rewrite E. pose proof (D2 _ (nth_error_In _ _ E)) as F. cbn in F. now rewrite F.
    - intros k n Hk. apply C in Hk. destruct Hk as (y & E). destruct (g_thr _ _ _ _ _ _ I i) as (T1 & _). destruct (T1 _ _ _ _ E) as (_ & Dy & _ & R & HN). rewrite P in HN. specialize (HN Logic.I).
      assert (CN : content (fsys s) (cdir (cfg i) ++ [n]) = Some (written (evs (thr s i)) k)) by (unfold content; rewrite HN; cbn; now rewrite Dy).
      assert (Hn : nth_error (fnames (thr s i)) k = Some n) by (unfold fnames; rewrite nth_error_map, E; reflexivity). split; [rewrite <- A; eapply nth_error_In; eauto|]. split; [exact CN|].
      intros fl Hf. destruct (B _ _ Hn) as (key & EN). assert (S : simple n = true) by (rewrite EN; apply art_simple). unfold disk_read. rewrite S.
      assert (RG : registered fl n = true) by (apply existsb_exists; exists n; split; [exact Hf|]; rewrite S; cbn; apply beqb_refl). rewrite RG, R. exact CN.
  Qed.
  Lemma manifest_state own s i : INV own s ->
    match last_to cfg (meta (cfg i)) (commits s) with
    | None => content (fsys s) (meta (cfg i)) = content f0 (meta (cfg i))
    | Some u => exists v, ph (thr s u) = Committed v /\ content (fsys s) (meta (cfg i)) = Some (enc (fnames (thr s u)) v)
    end.
  Proof.
    intros I. pose proof (g_meta _ _ _ _ _ _ I i) as M. destruct (last_to _ _ _) as [u|].
    - destruct M as (v & y & P & N & O & D). exists v. split; [exact P|]. unfold content. rewrite N. cbn. now rewrite D.
    - unfold content. rewrite M. destruct (names f0 _) as [y|] eqn:E; [|reflexivity]. cbn. f_equal. apply (g_old _ _ _ _ _ _ I); [|now apply F0 in E]. eapply names_old; eauto.
  Qed.
  Lemma commits_step s a : commits (step enc cfg s a) = commits s \/
    exists i x v, a = Step i x /\ ph (thr s i) = Renaming v /\ ph (thr (step enc cfg s a) i) = Committed v /\ evs (thr (step enc cfg s a) i) = evs (thr s i) /\ fnames (thr (step enc cfg s a) i) = fnames (thr s i) /\ commits (step enc cfg s a) = i :: commits s.
  Proof.
    destruct a as [i x|i]; cbn [step]; [|destruct (over _); now left]. unfold thread_step. destruct (ph (thr s i)) eqn:P; try (left; reflexivity).
    - left. destruct (user_step _ _ _ _). reflexivity.
    - left. destruct (names _ _); [reflexivity|]. destruct (ok x); reflexivity.
    - left. destruct rest; [reflexivity|]. cbn zeta. destruct (ok x); reflexivity.
    - destruct (names _ _); [|left; reflexivity]. destruct (ok x); [|left; reflexivity]. right. exists i, x, v. cbn [thr commits]. rewrite upd_eq. auto 7.
    - left. destruct (remove_at _ _) as [(n, td)|]; reflexivity.
  Qed.
  Lemma fnames_const s a i v : ph (thr s i) = Committed v -> thr (step enc cfg s a) i = thr s i.
  Proof. intros P. apply over_stays. now rewrite P. Qed.
  Lemma manifest_step own own' s a m : INV own s -> INV own' (step enc cfg s a) -> LIs s -> (exists j, meta (cfg j) = m) ->
    content (fsys (step enc cfg s a)) m = content (fsys s) m \/
    exists i x v, a = Step i x /\ meta (cfg i) = m /\ ph (thr s i) <> Committed v /\ ph (thr (step enc cfg s a) i) = Committed v /\
      content (fsys (step enc cfg s a)) m = Some (enc (opened (evs (thr s i))) v).
  Proof.
    intros I I' L (j & <-). pose proof (manifest_state _ _ j I) as M. pose proof (manifest_state _ _ j I') as M'.
    assert (SAME : last_to cfg (meta (cfg j)) (commits (step enc cfg s a)) = last_to cfg (meta (cfg j)) (commits s) -> content (fsys (step enc cfg s a)) (meta (cfg j)) = content (fsys s) (meta (cfg j))).
    { intros E. rewrite E in M'. destruct (last_to cfg (meta (cfg j)) (commits s)) as [u|]; [|congruence]. destruct M as (v & P & C). destruct M' as (v' & P' & C').
      rewrite (fnames_const _ _ _ _ P) in P', C'. rewrite C, C'. congruence. }
    destruct (commits_step s a) as [E|(i & x & v & -> & P & P' & EV & FN & E)].
    - left. apply SAME. now rewrite E.
    - destruct (path_dec (meta (cfg i)) (meta (cfg j))) as [Q|Q].
      + right. exists i, x, v. split; [reflexivity|]. split; [exact Q|]. split; [congruence|]. split; [exact P'|].
        rewrite E in M'. unfold last_to in M'. cbn [find] in M'. destruct (path_dec _ _) as [_|N]; [|contradiction]. destruct M' as (v' & P2 & C). destruct (L i) as (A & _). rewrite C, FN, A. congruence.
      + left. apply SAME. rewrite E. unfold last_to. cbn [find]. destruct (path_dec _ _) as [N|_]; [contradiction|reflexivity].
  Qed.
  Lemma kept own s p b : INV own s -> content f0 p = Some b -> (forall j, p <> meta (cfg j) /\ p <> temp (cfg j)) -> content (fsys s) p = Some b.
  Proof.
    intros I C H. unfold content in *. destruct (names f0 p) as [y|] eqn:E; [|discriminate]. rewrite (g_keep _ _ _ _ _ _ I p y E H). cbn in *. injection C as <-. f_equal.
    apply (g_old _ _ _ _ _ _ I); [|now apply F0 in E]. eapply names_old; eauto.
  Qed.
  Lemma new_paths own s p b : INV own s -> LIs s -> content (fsys s) p = Some b -> content f0 p = None ->
    exists j, ph (thr s j) <> Fresh /\ ph (thr s j) <> Failed true /\
      ((exists n, In n (opened (evs (thr s j))) /\ p = cdir (cfg j) ++ [n]) \/ (exists v, ph (thr s j) = Committed v) /\ p = meta (cfg j) \/ (forall v, ph (thr s j) <> Committed v) /\ p = temp (cfg j)).
  Proof.
    intros I L C N. unfold content in *. destruct (names (fsys s) p) as [y|] eqn:E; [|discriminate]. pose proof (g_class _ _ _ _ _ _ I _ _ E) as K. unfold class in K. destruct (own y) as [(j, [k|])|].
    - destruct K as (n & b' & Hn & -> & Hl). exists j. split; [intros Q; rewrite Q in Hl; exact Hl|]. split; [intros Q; rewrite Q in Hl; discriminate|]. left. exists n. split; [|reflexivity].
      destruct (L j) as (A & _). rewrite <- A. apply nth_error_In in Hn. apply in_map_iff. now exists (n, (y, b')).
    - exists j. destruct K as [((v & P) & ->)|(-> & K)].
      + split; [congruence|]. split; [congruence|]. right. left. split; [now exists v|reflexivity].
      + split; [intros Q; rewrite Q in K; exact K|]. split; [intros Q; rewrite Q in K; discriminate|]. right. right. split; [|reflexivity]. intros v Q. rewrite Q in K. exact K.
    - rewrite K in N. discriminate.
  Qed.
  Lemma opened_names s i : LIs s -> (forall j k n n', nth_error (opened (evs (thr s i))) j = Some n -> nth_error (opened (evs (thr s i))) k = Some n' -> n = n' -> j = k).
  Proof.
    intros L j k n n' H H' ->. destruct (L i) as (A & B & _). rewrite <- A in H, H'. destruct (B _ _ H) as (q & E). destruct (B _ _ H') as (q' & E'). rewrite E in E'. apply art_name_inj in E'. lia.
  Qed.
End Runs.

(** ** Checking that a schedule is orderly, for examples *)
Section Check.
  Variable V : Type.
  Variable enc : list bytes -> V -> bytes.
  Variable cfg : nat -> config V.
  Variable n : nat.
  Fixpoint orderlyb (s : state V) (l : list act) : bool :=
    match l with
    | [] => true
    | a :: l =>
      match a with
      | Step i _ => Nat.ltb i n && match ph (thr s i) with Fresh => forallb (fun j => Nat.eqb j i || negb (live (ph (thr s j)))) (seq 0 n) | _ => true end
      | Crash i => Nat.ltb i n
      end && orderlyb (step enc cfg s a) l
    end.
  Lemma orderlyb_ok l : forall s, (forall j, (n <= j)%nat -> live (ph (thr s j)) = false) -> orderlyb s l = true -> orderly enc cfg s l.
  Proof.
    induction l as [|a l IH]; intros s H C; [exact Logic.I|]. cbn [orderlyb] in C. apply andb_true_iff in C. destruct C as (C1 & C2). cbn [orderly]. split.
    - destruct a as [i x|i]; [|exact Logic.I]. intros F j Nj _. apply andb_true_iff in C1. destruct C1 as (_ & C1). rewrite F in C1. rewrite forallb_forall in C1.
      destruct (Nat.lt_ge_cases j n) as [L|G]; [|now apply H]. specialize (C1 j ltac:(apply in_seq; lia)). destruct (Nat.eqb_spec j i); [contradiction|]. cbn in C1. now apply negb_true_iff in C1.
    - apply IH; [|exact C2]. intros j Hj. destruct a as [i x|i]; cbn [step].
      + apply andb_true_iff in C1. destruct C1 as (C1 & _). apply Nat.ltb_lt in C1. destruct (thread_step _ _ _ _ _) as ((f, t), d). cbn [thr]. rewrite upd_neq by lia. now apply H.
      + apply Nat.ltb_lt in C1. destruct (over _); [now apply H|]. cbn [thr]. rewrite upd_neq by lia. now apply H.
  Qed.
  Lemma orderlyb_init f l : orderlyb (init f) l = true -> orderly enc cfg (init f) l.
  Proof. apply orderlyb_ok. reflexivity. Qed.
End Check.
