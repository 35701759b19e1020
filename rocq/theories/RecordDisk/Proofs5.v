(** The memory backend. *)
From Coq Require Import String Lia ZifyN ZifyBool ZifyNat.
From Verif.Lib Require Import Base Bytes.
From Verif.Record Require Import Model Proofs2.
From Verif.RecordDisk Require Import Model Spec Proofs Proofs2 Proofs3 Proofs4.
Local Open Scope N_scope.

Definition put {A} (k : nat) (x : A) (l : list A) : list A := firstn k l ++ x :: skipn (S k) l.
Lemma put_nth {A} k (x : A) l j : (k < length l)%nat -> nth_error (put k x l) j = if Nat.eqb j k then Some x else nth_error l j.
Proof.
  intros L. unfold put. destruct (Nat.eqb_spec j k) as [->|N].
  - rewrite nth_error_app2 by (rewrite firstn_length; lia). rewrite firstn_length_le, Nat.sub_diag by lia. reflexivity.
  - destruct (Nat.lt_ge_cases j k).
    + rewrite nth_error_app1 by (rewrite firstn_length; lia). rewrite <- (firstn_skipn k l) at 2. rewrite nth_error_app1 by (rewrite firstn_length; lia). reflexivity.
    + rewrite nth_error_app2 by (rewrite firstn_length; lia). rewrite firstn_length_le by lia. destruct (j - k)%nat as [|m] eqn:M; [lia|]. cbn [nth_error].
      rewrite <- (firstn_skipn (S k) l) at 2. rewrite nth_error_app2 by (rewrite firstn_length; lia). rewrite firstn_length_le by lia. now replace (j - S k)%nat with m by lia.
Qed.
Lemma put_length {A} k (x : A) l : (k < length l)%nat -> length (put k x l) = length l.
Proof. intros L. unfold put. rewrite app_length, firstn_length_le by lia. cbn [length]. rewrite skipn_length. lia. Qed.
Lemma nth_error_ext {A} (l l' : list A) : (forall k, nth_error l k = nth_error l' k) -> l = l'.
Proof.
  revert l'. induction l as [|x l IH]; intros [|y l'] H; [reflexivity|specialize (H O); discriminate|specialize (H O); discriminate|].
  pose proof (H O) as H0. cbn in H0. injection H0 as ->. f_equal. apply IH. intros k. exact (H (S k)).
Qed.
Lemma put_names {B} k n (b : B) (l : list (bytes * B)) b0 : nth_error l k = Some (n, b0) -> map fst (put k (n, b) l) = map fst l.
Proof.
  intros H. assert (L : (k < length l)%nat) by (apply nth_error_Some; congruence). apply nth_error_ext. intros j. rewrite !nth_error_map, put_nth by assumption. destruct (Nat.eqb_spec j k) as [->|N]; [now rewrite H|reflexivity].
Qed.
Lemma mark_put k (l : list (bytes * (N * bool))) n i b : nth_error l k = Some (n, (i, b)) -> mark k l = put k (n, (i, true)) l.
Proof. intros H. unfold mark. now rewrite H. Qed.

Section Mem.
  Variable V : Type.
  Variable u : list (event V) -> action V.
  Definition m0 : mem V := mkmem [] [] [].

  Lemma mem_run_S n m : mem_run u (S n) m = match mem_run u n m with More m' => mem_step u m' | r => r end.
  Proof. revert m. induction n as [|n IH]; intros m; [cbn; now destruct (mem_step u m)|]. change (mem_run u (S (S n)) m) with (match mem_step u m with More m => mem_run u (S n) m | r => r end). change (mem_run u (S n) m) with (match mem_step u m with More m => mem_run u n m | r => r end). destruct (mem_step u m); [apply IH|reflexivity|reflexivity]. Qed.

  Definition MI (m : mem V) : Prop :=
    map fst (mfiles m) = opened (mevs m) /\ length (mbufs m) = length (mfiles m) /\
    (forall k n o, nth_error (mfiles m) k = Some (n, o) -> (exists key, n = art_name (N.of_nat k) key) /\ nth_error (mbufs m) k = Some (written (mevs m) k) /\ (forall b, o = Some b -> b = written (mevs m) k)) /\
    (forall k, (length (mfiles m) <= k)%nat -> written (mevs m) k = []) /\
    (forall k n, In (AFinish k, OHandle n) (mevs m) <-> exists b, nth_error (mfiles m) k = Some (n, Some b)) /\
    smooth (mevs m).
  Lemma MI_0 : MI m0.
  Proof.
    split; [reflexivity|]. split; [reflexivity|]. split; [intros k n o H; destruct k; discriminate|]. split; [reflexivity|]. split.
    - intros k n. cbn. split; [intros []|]. intros (b & H). destruct k; discriminate.
    - intros a o [].
  Qed.
  Lemma smooth_snoc (l : list (event V)) a o : smooth l -> (match a, o with AOpen _, ORefused => False | _, OTorn _ => False | _, _ => True end) -> smooth (l ++ [(a, o)]).
  Proof. intros H K a' o' Hi. apply in_app_or in Hi. destruct Hi as [Hi|[Hi|[]]]; [now apply H|]. injection Hi as <- <-. exact K. Qed.
  Lemma MI_refused m a : MI m -> (match a with AOpen _ => False | _ => True end) -> MI (mkmem (mfiles m) (mbufs m) (mevs m ++ [(a, ORefused)])).
  Proof.
    intros (A & B & C & D & E & F) H. assert (W : forall k, written (mevs m ++ [(a, ORefused)]) k = written (mevs m) k) by (intros k; rewrite written_snoc; destruct a; reflexivity).
    split; [|split; [exact B|split; [|split; [|split]]]]; cbn [mfiles mbufs mevs].
    - rewrite opened_snoc. cbn [snd]. now rewrite app_nil_r.
    - intros k n o Hn. rewrite W. now apply C.
    - intros k Hk. rewrite W. now apply D.
    - intros k n. rewrite in_app_iff, E. cbn [In]. split; [intros [X|[X|[]]]; [exact X|discriminate]|auto].
    - apply smooth_snoc; [exact F|]. destruct a; tauto.
  Qed.
  Lemma MI_nodup m : MI m -> NoDup (map fst (mfiles m)).
  Proof.
    intros (A & B & C & _). apply NoDup_nth_error. intros j k Hj E. rewrite map_length in Hj. rewrite !nth_error_map in E.
    destruct (nth_error (mfiles m) j) as [(n, o)|] eqn:Ej; [|apply nth_error_None in Ej; lia]. destruct (nth_error (mfiles m) k) as [(n', o')|] eqn:Ek; [|discriminate]. cbn in E. injection E as ->.
    destruct (C _ _ _ Ej) as ((q & Q) & _). destruct (C _ _ _ Ek) as ((q' & Q') & _). rewrite Q in Q'. apply art_name_inj in Q'. lia.
  Qed.
  Lemma MI_fresh m key : MI m -> existsb (beqb (art_name (N.of_nat (length (mfiles m))) key)) (map fst (mfiles m)) = false.
  Proof.
    intros (A & B & C & _). destruct (existsb _ _) eqn:E; [|reflexivity]. apply existsb_exists in E. destruct E as (n & Hn & Q). apply beqb_eq in Q. subst n.
    apply In_nth_error in Hn. destruct Hn as (k & Hn). rewrite nth_error_map in Hn. destruct (nth_error (mfiles m) k) as [(n', o')|] eqn:Ek; [|discriminate]. cbn in Hn. injection Hn as Hn.
    destruct (C _ _ _ Ek) as ((q & Q) & _). rewrite Hn in Q. apply art_name_inj in Q. assert ((k < length (mfiles m))%nat) by (apply nth_error_Some; congruence). lia.
  Qed.
  Lemma MI_step m m' : MI m -> mem_step u m = More m' -> MI m'.
  Proof.
    intros H. pose proof H as (A & B & C & D & E & F). unfold mem_step. destruct (u (mevs m)) as [key|k g|k|[v|]] eqn:U.
    - rewrite MI_fresh by assumption. intros [= <-]. split; [|split; [|split; [|split; [|split]]]]; cbn [mfiles mbufs mevs].
      + rewrite opened_snoc, map_app, A. reflexivity.
      + rewrite !app_length, B. reflexivity.
      + intros k n o Hn. rewrite written_snoc. cbn [wrote]. apply nth_error_snoc in Hn. destruct Hn as [(L & Hn)|(-> & Hn)].
        * destruct (C _ _ _ Hn) as (C1 & C2 & C3). split; [exact C1|]. split; [|exact C3]. rewrite nth_error_app1 by lia. exact C2.
        * injection Hn as -> ->. split; [now exists key|]. split; [|discriminate]. rewrite nth_error_app2, B, Nat.sub_diag by lia. rewrite D by lia. reflexivity.
      + intros k Hk. rewrite app_length in Hk. cbn [length] in Hk. rewrite written_snoc. cbn [wrote]. apply D. lia.
      + intros k n. rewrite in_app_iff, E. cbn [In]. split.
        * intros [(b & X)|[X|[]]]; [|discriminate]. exists b. rewrite nth_error_app1; [exact X|]. apply nth_error_Some. congruence.
        * intros (b & X). apply nth_error_snoc in X. destruct X as [(_ & X)|(_ & X)]; [left; now exists b|discriminate].
      + now apply smooth_snoc.
    - destruct (nth_error (mfiles m) k) as [(n, [b0|])|] eqn:Ek; try (intros [= <-]; now apply MI_refused). destruct (C _ _ _ Ek) as (_ & Bk & _). rewrite Bk. intros [= <-].
      assert (L : (k < length (mbufs m))%nat) by (apply nth_error_Some; congruence).
      split; [|split; [|split; [|split; [|split]]]]; cbn [mfiles mbufs mevs].
      + rewrite opened_snoc. cbn [snd]. now rewrite app_nil_r.
      + change (length (put k (g (written (mevs m) k)) (mbufs m)) = length (mfiles m)). now rewrite put_length.
      + intros j n' o Hj. rewrite written_snoc. cbn [wrote]. destruct (C _ _ _ Hj) as (C1 & C2 & C3). split; [exact C1|].
        change (nth_error (put k (g (written (mevs m) k)) (mbufs m)) j = Some (if Nat.eqb k j then g (written (mevs m) j) else written (mevs m) j) /\ forall b, o = Some b -> b = if Nat.eqb k j then g (written (mevs m) j) else written (mevs m) j).
        rewrite put_nth by assumption. rewrite (Nat.eqb_sym j k). destruct (Nat.eqb_spec k j) as [->|N]; [split; [reflexivity|]; intros b Hb; congruence|split; [exact C2|exact C3]].
      + intros j Hj. rewrite written_snoc. cbn [wrote]. destruct (Nat.eqb_spec k j) as [->|N]; [lia|now apply D].
      + intros j n'. rewrite in_app_iff, E. cbn [In]. split; [intros [X|[X|[]]]; [exact X|discriminate]|auto].
      + now apply smooth_snoc.
    - destruct (nth_error (mfiles m) k) as [(n, [b0|])|] eqn:Ek; try (intros [= <-]; now apply MI_refused). destruct (C _ _ _ Ek) as (K & Bk & _). rewrite Bk. intros [= <-].
      assert (L : (k < length (mfiles m))%nat) by (apply nth_error_Some; congruence).
      assert (EF : fill k (written (mevs m) k) (mfiles m) = put k (n, Some (written (mevs m) k)) (mfiles m)) by (unfold fill; now rewrite Ek).
      rewrite EF. split; [|split; [|split; [|split; [|split]]]]; cbn [mfiles mbufs mevs].
      + rewrite opened_snoc. cbn [snd]. rewrite app_nil_r. now rewrite (put_names _ _ _ _ _ Ek).
      + now rewrite put_length.
      + intros j n' o. rewrite put_nth by assumption. rewrite written_snoc. cbn [wrote]. destruct (Nat.eqb_spec j k) as [->|N].
        * intros [= <- <-]. split; [exact K|]. split; [exact Bk|]. congruence.
        * apply C.
      + intros j. rewrite put_length by assumption. intros Hj. rewrite written_snoc. cbn [wrote]. now apply D.
      + intros j n'. rewrite in_app_iff, E, put_nth by assumption. cbn [In]. destruct (Nat.eqb_spec j k) as [->|N].
        * split; [intros [(b & X)|[X|[]]]; [congruence|]; injection X as <-; eauto|]. intros (b & X). right. left. congruence.
        * split; [intros [X|[X|[]]]; [exact X|congruence]|auto].
      + now apply smooth_snoc.
    - destruct (collect _); discriminate.
    - discriminate.
  Qed.
  Lemma MI_run n m : mem_run u n m0 = More m -> MI m.
  Proof.
    revert m. induction n as [|n IH]; intros m; [intros [= <-]; apply MI_0|]. rewrite mem_run_S. destruct (mem_run u n m0) as [m1| |]; try discriminate. apply MI_step. now apply IH.
  Qed.
  Lemma collect_spec l fl : collect l = Some fl -> forall k, nth_error l k = option_map (fun e => (fst e, Some (snd e))) (nth_error fl k).
  Proof.
    revert fl. induction l as [|(n, [b|]) l IH]; intros fl; cbn [collect]; [intros [= <-] k; destruct k; reflexivity| |discriminate].
    destruct (collect l) as [r|]; [|discriminate]. intros [= <-] [|k]; [reflexivity|]. cbn. now apply IH.
  Qed.
  Lemma lookup_nodup (fl : list (bytes * bytes)) k n b : NoDup (map fst fl) -> nth_error fl k = Some (n, b) -> lookup n fl = Some b.
  Proof.
    revert k. induction fl as [|(n', b') fl IH]; intros k ND H; [destruct k; discriminate|]. inversion ND as [|? ? NI ND2]; subst. destruct k as [|k]; cbn in H.
    - injection H as -> ->. cbn. now rewrite beqb_refl.
    - cbn [lookup]. destruct (beqb_spec n n') as [->|N]; [|eapply IH; eauto]. exfalso. apply NI. apply nth_error_In in H. apply in_map_iff. now exists (n', b).
  Qed.
  Lemma mem_done m fl v : MI m -> mem_step u m = MDone fl v ->
    u (mevs m) = AReturn (Some v) /\ (forall n, In n (opened (mevs m)) -> exists k, In (AFinish k, OHandle n) (mevs m)) /\
    (forall k n, In (AFinish k, OHandle n) (mevs m) -> In n (opened (mevs m)) /\ mem_read fl n = Some (written (mevs m) k)).
  Proof.
    intros H. pose proof (MI_nodup _ H) as ND. destruct H as (A & B & C & D & E & F). unfold mem_step. destruct (u (mevs m)) as [key|k g|k|[v'|]].
    - destruct (existsb _ _); discriminate.
    - destruct (nth_error (mfiles m) k) as [(n, [b0|])|]; try discriminate. destruct (nth_error (mbufs m) k); discriminate.
    - destruct (nth_error (mfiles m) k) as [(n, [b0|])|]; try discriminate. destruct (nth_error (mbufs m) k); discriminate.
    - destruct (collect (mfiles m)) as [fl'|] eqn:EC; [|discriminate]. intros [= <- <-]. pose proof (collect_spec _ _ EC) as CS. split; [reflexivity|].
      assert (EN : map fst fl' = map fst (mfiles m)).
      { apply nth_error_ext. intros k. rewrite !nth_error_map, CS. destruct (nth_error fl' k); reflexivity. }
      split.
      + intros n Hn. rewrite <- A in Hn. apply In_nth_error in Hn. destruct Hn as (k & Hn). rewrite nth_error_map in Hn. destruct (nth_error (mfiles m) k) as [(n', o)|] eqn:Ek; [|discriminate]. cbn in Hn. injection Hn as ->.
        exists k. apply E. rewrite CS in Ek. destruct (nth_error fl' k) as [(n1, b1)|] eqn:E1; [|discriminate]. cbn in Ek. exists b1. rewrite CS, E1. cbn. congruence.
      + intros k n Hk. apply E in Hk. destruct Hk as (b & Hk). split; [rewrite <- A; apply nth_error_In in Hk; apply in_map_iff; now exists (n, Some b)|].
        destruct (C _ _ _ Hk) as (_ & _ & C3). rewrite (C3 b eq_refl) in Hk. rewrite CS in Hk. destruct (nth_error fl' k) as [(n1, b1)|] eqn:E1; [|discriminate]. cbn in Hk. injection Hk as -> ->.
        unfold mem_read. eapply lookup_nodup; [now rewrite EN|exact E1].
    - discriminate.
  Qed.
End Mem.

(** ** A save to disk in which nothing fails does what the same save in memory does *)
Section Same.
  Variable V : Type.
  Variable enc : list bytes -> V -> bytes.
  Definition follows (c : config V) (t : tstate V) : Prop :=
    smooth (evs t) -> exists m, mem_run (user c) (length (evs t)) (m0 V) = More m /\ mevs m = evs t /\
      forall k, match nth_error (files t) k, nth_error (mfiles m) k with
                | None, None => True
                | Some (n, (_, b)), Some (n', o) => n = n' /\ (b = true <-> o <> None)
                | _, _ => False
                end.
  Lemma follows_goto c t p : follows c t -> follows c (goto t p).
  Proof. auto. Qed.
  Lemma smooth_app (l l' : list (event V)) : smooth (l ++ l') -> smooth l.
  Proof. intros H a o Hi. apply H. apply in_or_app. now left. Qed.
  Lemma follow_step c (t : tstate V) m e r : mem_run (user c) (length (evs t)) (m0 V) = More m -> mem_step (user c) m = r -> mem_run (user c) (length (evs t ++ [e])) (m0 V) = r.
  Proof. intros H K. rewrite app_length. cbn [length]. rewrite Nat.add_1_r, mem_run_S, H. exact K. Qed.
  Lemma follows_user c x f t : LI V c t -> follows c t -> follows c (snd (user_step c x f t)).
  Proof.
    intros L H. unfold user_step. destruct (user c (evs t)) as [key|k g|k|[v|]] eqn:U; cbn [snd].
    - assert (BAD : follows c (note t (AOpen key, ORefused))) by (intros S; exfalso; apply (S (AOpen key) ORefused); cbn; apply in_or_app; right; now left).
      destruct (existsb _ _); [exact BAD|]. destruct (resolve _ _); [|exact BAD]. destruct (names f p); [exact BAD|]. destruct (ok x); [|exact BAD]. cbn [snd].
      intros S. cbn [evs] in S. destruct (H (smooth_app _ _ S)) as (m & R & E & K). pose proof (MI_run _ _ _ _ R) as I.
      assert (LE : length (files t) = length (mfiles m)).
      { destruct (Nat.lt_trichotomy (length (files t)) (length (mfiles m))) as [Q|[Q|Q]]; [|exact Q|].
        - specialize (K (length (files t))). assert (N1 : nth_error (files t) (length (files t)) = None) by (now apply nth_error_None). assert (N2 : nth_error (mfiles m) (length (files t)) <> None) by (now apply nth_error_Some).
          rewrite N1 in K. destruct (nth_error (mfiles m) _) as [(?, ?)|]; [contradiction|congruence].
        - specialize (K (length (mfiles m))). assert (N1 : nth_error (mfiles m) (length (mfiles m)) = None) by (now apply nth_error_None). assert (N2 : nth_error (files t) (length (mfiles m)) <> None) by (now apply nth_error_Some).
          rewrite N1 in K. destruct (nth_error (files t) _) as [(?, (?, ?))|]; [contradiction|congruence]. }
      cbn [evs files]. eexists. split; [eapply follow_step; [exact R|]; unfold mem_step; rewrite E, U, (MI_fresh _ _ _ I); reflexivity|]. cbn [mevs mfiles]. rewrite LE. split; [reflexivity|].
      intros k. specialize (K k). destruct (Nat.lt_trichotomy k (length (files t))) as [Q|[Q|Q]].
      + rewrite !nth_error_app1 by lia. exact K.
      + rewrite !nth_error_app2 by lia. replace (k - length (files t))%nat with O by lia. replace (k - length (mfiles m))%nat with O by lia. cbn. split; [reflexivity|]. split; [discriminate|congruence].
      + replace (nth_error (files t ++ _) k) with (@None (bytes * (N * bool))); [replace (nth_error (mfiles m ++ _) k) with (@None (bytes * option bytes)); [exact Logic.I|]|]; symmetry; apply nth_error_None; rewrite app_length; cbn [length]; lia.
    - assert (REF : (forall n i, nth_error (files t) k <> Some (n, (i, false))) -> follows c (note t (APut k g, ORefused))).
      { intros Q S. destruct (H (smooth_app _ _ S)) as (m & R & E & K). cbn [evs note files]. eexists. split; [eapply follow_step; [exact R|]; unfold mem_step; rewrite E, U|].
        - specialize (K k). destruct (nth_error (files t) k) as [(n, (i, [|]))|] eqn:Ek; [| |]; destruct (nth_error (mfiles m) k) as [(n', [o|])|] eqn:Em; try contradiction; try reflexivity.
          + destruct K as (_ & K). exfalso. now apply K.
          + exfalso. now apply (Q n i).
        - cbn. split; [reflexivity|exact K]. }
      destruct (nth_error (files t) k) as [(n, (i, [|]))|] eqn:Ek; [apply REF; intros; discriminate| |apply REF; intros; discriminate]. destruct (ok x); cbn [snd].
      + intros S. destruct (H (smooth_app _ _ S)) as (m & R & E & K). pose proof (MI_run _ _ _ _ R) as (_ & _ & C & _). cbn [evs note files]. pose proof (K k) as Kk. rewrite Ek in Kk. destruct (nth_error (mfiles m) k) as [(n', o)|] eqn:Em; [|contradiction].
        destruct Kk as (<- & Kk). destruct o as [o|]; [exfalso; assert (false = true) by (apply Kk; discriminate); discriminate|]. destruct (C _ _ _ Em) as (_ & Bk & _).
        eexists. split; [eapply follow_step; [exact R|]; unfold mem_step; rewrite E, U, Em, Bk; reflexivity|]. cbn. split; [reflexivity|exact K].
      + intros S. exfalso. apply (S (APut k g) (OTorn (junk x))). cbn. apply in_or_app. right. now left.
    - assert (REF : (forall n i, nth_error (files t) k <> Some (n, (i, false))) -> follows c (note t (AFinish k, ORefused))).
      { intros Q S. destruct (H (smooth_app _ _ S)) as (m & R & E & K). cbn [evs note files]. eexists. split; [eapply follow_step; [exact R|]; unfold mem_step; rewrite E, U|].
        - specialize (K k). destruct (nth_error (files t) k) as [(n, (i, [|]))|] eqn:Ek; [| |]; destruct (nth_error (mfiles m) k) as [(n', [o|])|] eqn:Em; try contradiction; try reflexivity.
          + destruct K as (_ & K). exfalso. now apply K.
          + exfalso. now apply (Q n i).
        - cbn. split; [reflexivity|exact K]. }
      destruct (nth_error (files t) k) as [(n, (i, [|]))|] eqn:Ek; [apply REF; intros; discriminate| |apply REF; intros; discriminate]. destruct (ok x); cbn [snd].
      + intros S. destruct (H (smooth_app _ _ S)) as (m & R & E & K). pose proof (MI_run _ _ _ _ R) as (_ & _ & C & _). cbn [evs files]. pose proof (K k) as Kk. rewrite Ek in Kk. destruct (nth_error (mfiles m) k) as [(n', o)|] eqn:Em; [|contradiction].
        destruct Kk as (<- & Kk). destruct o as [o|]; [exfalso; assert (false = true) by (apply Kk; discriminate); discriminate|]. destruct (C _ _ _ Em) as (_ & Bk & _).
        eexists. split; [eapply follow_step; [exact R|]; unfold mem_step; rewrite E, U, Em, Bk; reflexivity|]. cbn [mevs mfiles]. split; [reflexivity|].
        intros j. specialize (K j). rewrite (mark_put _ _ _ _ _ Ek). unfold fill. rewrite Em.
        match goal with |- context [firstn k (mfiles m) ++ ?e :: _] => change (firstn k (mfiles m) ++ e :: skipn (Datatypes.S k) (mfiles m)) with (put k e (mfiles m)) end.
        assert (L1 : (k < length (files t))%nat) by (apply nth_error_Some; congruence). assert (L2 : (k < length (mfiles m))%nat) by (apply nth_error_Some; congruence).
        match goal with |- context [put k (n, Some ?b) (mfiles m)] => rewrite (put_nth k (n, Some b)) by assumption end. rewrite put_nth by assumption. destruct (Nat.eqb_spec j k); [|exact K]. split; [reflexivity|]. split; [discriminate|reflexivity].
      + intros S. exfalso. apply (S (AFinish k) (OTorn (junk x))). cbn. apply in_or_app. right. now left.
    - destruct (forallb _ _); exact H.
    - exact H.
  Qed.
  Lemma follows_step c x f t : LI V c t -> follows c t -> follows c (snd (fst (thread_step enc c x f t))).
  Proof.
    intros L H. unfold thread_step. destruct (ph t); cbn [fst snd]; try exact H.
    - now apply follows_user.
    - destruct (names f (temp c)); [exact H|]. destruct (ok x); exact H.
    - destruct rest; [exact H|]. cbn zeta. destruct (ok x); exact H.
    - destruct (names f (temp c)); [|exact H]. destruct (ok x); exact H.
    - destruct (remove_at _ _) as [(n, td)|]; exact H.
  Qed.
  Lemma follows_run cfg l : forall s, LIs V cfg s -> (forall j, follows (cfg j) (thr s j)) -> forall j, follows (cfg j) (thr (run enc cfg s l) j).
  Proof.
    induction l as [|a l IH]; intros s L H; [exact H|]. apply (IH (step enc cfg s a)); [now apply LIs_step|]. intros j. destruct a as [i x|i]; cbn [step].
    - pose proof (follows_step (cfg i) x (fsys s) (thr s i) (L i) (H i)) as K. destruct (thread_step _ _ _ _ _) as ((f, t), d). cbn [fst snd] in K. cbn [thr].
      destruct (Nat.eq_dec j i) as [->|N]; [now rewrite upd_eq|rewrite upd_neq by assumption; apply H].
    - destruct (over _); [apply H|]. cbn [thr]. destruct (Nat.eq_dec j i) as [->|N]; [rewrite upd_eq|rewrite upd_neq by assumption; apply H]. apply follows_goto. apply H.
  Qed.
  Lemma follows_init f (cfg : nat -> config V) j : follows (cfg j) (thr (init f) j).
  Proof. intros _. exists (m0 V). split; [reflexivity|]. split; [reflexivity|]. intros k. destruct k; exact Logic.I. Qed.
  Lemma same_done c t m v : follows c t -> LI V c t -> smooth (evs t) -> ph t = Committed v -> mem_run (user c) (length (evs t)) (m0 V) = More m -> exists fl, mem_step (user c) m = MDone fl v.
  Proof.
    intros H (_ & _ & _ & L & _) S P R. destruct (H S) as (m' & R' & E & K). rewrite R in R'. injection R' as <-. rewrite P in L. destruct (L v eq_refl) as (U & FIN). unfold mem_step. rewrite E, U.
    assert (X : exists fl, collect (mfiles m) = Some fl).
    { assert (Y : forall e, In e (mfiles m) -> snd e <> None).
      { intros (n, o) Hi. apply In_nth_error in Hi. destruct Hi as (k & Hi). specialize (K k). rewrite Hi in K. destruct (nth_error (files t) k) as [(n', (i, b))|] eqn:Ek; [|contradiction]. apply K. exact (FIN _ (nth_error_In _ _ Ek)). }
      clear -Y. induction (mfiles m) as [|(n, o) l IH]; [now exists []|]. destruct IH as (r & IH); [intros e He; apply Y; now right|]. destruct o as [b|]; [|exfalso; apply (Y (n, None)); [now left|reflexivity]]. cbn. rewrite IH. eauto. }
    destruct X as (fl & X). rewrite X. eauto.
  Qed.
End Same.
