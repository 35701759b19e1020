(** Sifting down restores the order of a heap. *)
From Coq Require Import Permutation.
From Verif.Lib Require Import Base Lists.
From Verif.Spherical Require Import Model.
Local Open Scope nat_scope.

Section Heap.
  Context {T : Type} (leb : T -> T -> bool).
  Context (total : forall a b, leb a b = true \/ leb b a = true) (trans : forall a b c, leb a b = true -> leb b c = true -> leb a c = true).
  Definition child (p c : nat) : Prop := c = 2 * p + 1 \/ c = 2 * p + 2.
  (** Parents from [lo] on are at least their children. *)
  Definition below (d : list T) (lo : nat) : Prop :=
    forall p c x y, lo <= p -> child p c -> nth_error d p = Some x -> nth_error d c = Some y -> leb y x = true.
  Lemma at_lt (d : list T) i x : nth_error d i = Some x -> i < length d.
  Proof using. clear total trans leb. intros H. apply nth_error_Some. congruence. Qed.
  Lemma lt_at (d : list T) i : i < length d -> exists x, nth_error d i = Some x.
  Proof using. clear total trans leb. intros H. apply nth_error_Some in H. destruct (nth_error d i) as [x|]; [now exists x|congruence]. Qed.
  Lemma swap_ok (d : list T) a b x y : nth_error d a = Some x -> nth_error d b = Some y ->
    exists d', swap d a b = Some d' /\ length d' = length d /\ Permutation d d' /\ forall k, nth_error d' k = if k =? a then Some y else if k =? b then Some x else nth_error d k.
  Proof using.
    clear total trans leb. intros A B. unfold swap. rewrite A, B. eexists; split; [reflexivity|].
    assert (L : length (set_nth b x (set_nth a y d)) = length d) by now rewrite !set_nth_length. split; [exact L|].
    assert (E : forall k, nth_error (set_nth b x (set_nth a y d)) k = if k =? a then Some y else if k =? b then Some x else nth_error d k).
    { intros k. pose proof (at_lt d a x A) as La. pose proof (at_lt d b y B) as Lb. rewrite !nth_error_set_nth, !set_nth_length.
      destruct (Nat.eqb_spec k b) as [Kb|Kb], (Nat.eqb_spec k a) as [Ka|Ka]; try reflexivity.
      - destruct (Nat.ltb_spec k (length d)); [congruence|lia].
      - destruct (Nat.ltb_spec k (length d)); [congruence|lia].
      - destruct (Nat.ltb_spec k (length d)); [congruence|lia]. }
    split; [|exact E]. apply Permutation_nth_error. split; [now symmetry|]. exists (fun k => if k =? a then b else if k =? b then a else k). split.
    - intros u v. destruct (Nat.eqb_spec u a), (Nat.eqb_spec u b), (Nat.eqb_spec v a), (Nat.eqb_spec v b); lia.
    - intros k. rewrite E. destruct (k =? a); [now rewrite B|]. destruct (k =? b); [now rewrite A|reflexivity].
  Qed.
  Lemma sift_ok lo : forall fuel d pos, lo <= pos -> pos < length d -> length d < fuel + pos ->
    (forall p c x y, lo <= p -> p <> pos -> child p c -> nth_error d p = Some x -> nth_error d c = Some y -> leb y x = true) ->
    (forall p c x y, lo <= p -> child p pos -> child pos c -> nth_error d p = Some x -> nth_error d c = Some y -> leb y x = true) ->
    exists d', sift leb fuel d pos = Some d' /\ length d' = length d /\ Permutation d d' /\ below d' lo.
  Proof using total trans.
    induction fuel as [|fuel IH]; intros d pos HL HP HF H1 H2; [lia|]. cbn [sift]. cbv zeta.
    destruct (lt_at d pos HP) as (p & EP).
    (* stopping where [pos] dominates its children *)
    assert (STOP : (forall c y, child pos c -> nth_error d c = Some y -> leb y p = true) -> exists d', Some d = Some d' /\ length d' = length d /\ Permutation d d' /\ below d' lo).
    { intros H. exists d. split; [reflexivity|]. split; [reflexivity|]. split; [reflexivity|]. intros q c x y Q C X Y. destruct (Nat.eq_dec q pos) as [->|D]; [|now apply (H1 q c x y)]. rewrite EP in X. injection X as <-. now apply (H c). }
    (* swapping with the greatest child *)
    assert (STEP : forall c m, child pos c -> nth_error d c = Some m -> leb p m = true -> (forall c' y, child pos c' -> nth_error d c' = Some y -> leb y m = true) ->
      exists d', swap d pos c = Some d' /\ length d' = length d /\ Permutation d d' /\ (forall q k x y, lo <= q -> q <> c -> child q k -> nth_error d' q = Some x -> nth_error d' k = Some y -> leb y x = true) /\
      (forall q k x y, lo <= q -> child q c -> child c k -> nth_error d' q = Some x -> nth_error d' k = Some y -> leb y x = true)).
    { intros c m C EC PM MX. destruct (swap_ok d pos c p m EP EC) as (d' & E & L & PR & AT). exists d'. split; [exact E|]. split; [exact L|]. split; [exact PR|].
      assert (NC : c <> pos) by (unfold child in C; lia). split.
      - intros q k x y Q NQ K X Y. rewrite AT in X, Y. destruct (Nat.eqb_spec q pos) as [->|NP].
        + injection X as <-. destruct (Nat.eqb_spec k pos); [unfold child in K; lia|]. destruct (Nat.eqb_spec k c); [injection Y as <-; exact PM|now apply (MX k)].
        + destruct (Nat.eqb_spec q c); [congruence|]. destruct (Nat.eqb_spec k pos) as [->|].
          * injection Y as <-. now apply (H2 q c x m).
          * destruct (Nat.eqb_spec k c) as [->|]; [unfold child in *; lia|]. now apply (H1 q k x y).
      - intros q k x y Q QC CK X Y. assert (q = pos) as -> by (unfold child in *; lia). rewrite AT in X, Y. rewrite Nat.eqb_refl in X. injection X as <-.
        destruct (Nat.eqb_spec k pos); [unfold child in *; lia|]. destruct (Nat.eqb_spec k c); [unfold child in *; lia|]. apply (H1 c k m y); [unfold child in *; lia|exact NC|exact CK|exact EC|exact Y]. }
    destruct (Nat.leb_spec (2 * pos + 1) (length d - 2)) as [W|W].
    - destruct (lt_at d (2 * pos + 1)) as (a & EA); [lia|]. destruct (lt_at d (2 * pos + 1 + 1)) as (b & EB); [lia|]. rewrite EA, EB, EP.
      assert (MX : forall c y, child pos c -> nth_error d c = Some y -> leb y (if leb a b then b else a) = true).
      { intros c y [->| ->] Y; [|replace (2 * pos + 2) with (2 * pos + 1 + 1) in Y by lia].
        - rewrite EA in Y. injection Y as <-. destruct (leb a b) eqn:E; [exact E|now destruct (total a a)].
        - rewrite EB in Y. injection Y as <-. destruct (leb a b) eqn:E; [now destruct (total b b)|destruct (total a b); congruence]. }
      destruct (leb (if leb a b then b else a) p) eqn:EM.
      + apply STOP. intros c y C Y. apply (trans _ _ _ (MX c y C Y) EM).
      + destruct (STEP (if leb a b then 2 * pos + 1 + 1 else 2 * pos + 1) (if leb a b then b else a)) as (d' & E & L & PR & X1 & X2).
        * unfold child. destruct (leb a b); lia.
        * now destruct (leb a b).
        * destruct (total (if leb a b then b else a) p); [congruence|assumption].
        * exact MX.
        * rewrite E. destruct (IH d' (if leb a b then 2 * pos + 1 + 1 else 2 * pos + 1)) as (d2 & S1 & S2 & S3 & S4); [destruct (leb a b); lia|rewrite L; destruct (leb a b); lia|rewrite L; destruct (leb a b); lia|exact X1|exact X2|].
          exists d2. split; [exact S1|]. split; [lia|]. split; [now rewrite PR|exact S4].
    - destruct (Nat.eqb_spec (2 * pos + 1) (length d - 1)) as [Z|Z].
      + rewrite EP. destruct (lt_at d (2 * pos + 1)) as (a & EA); [lia|]. rewrite EA.
        assert (MX : forall c y, child pos c -> nth_error d c = Some y -> y = a).
        { intros c y [->| ->] Y; [congruence|]. apply at_lt in Y. lia. }
        destruct (leb a p) eqn:EM; [apply STOP; intros c y C Y; now rewrite (MX c y C Y)|].
        destruct (STEP (2 * pos + 1) a) as (d' & E & L & PR & X1 & X2); [now left|exact EA|destruct (total a p); [congruence|assumption]|intros c y C Y; rewrite (MX c y C Y); now destruct (total a a)|].
        exists d'. split; [exact E|]. split; [exact L|]. split; [exact PR|]. intros q k x y Q K X Y. destruct (Nat.eq_dec q (2 * pos + 1)) as [->|NQ]; [|now apply (X1 q k)]. apply at_lt in Y. unfold child in K. lia.
      + apply STOP. intros c y C Y. apply at_lt in Y. unfold child in C. lia.
  Qed.
  Lemma sift_down_ok d pos : pos < length d -> below d (S pos) -> exists d', sift_down leb d pos = Some d' /\ length d' = length d /\ Permutation d d' /\ below d' pos.
  Proof using total trans.
    intros HP B. unfold sift_down. apply sift_ok; [lia|exact HP|lia| |].
    - intros p c x y L D. apply B. lia.
    - intros p c x y L C. unfold child in C. lia.
  Qed.
  Lemma heapify_from_ok n : forall d, n <= length d -> below d n -> exists d', heapify_from leb n d = Some d' /\ length d' = length d /\ Permutation d d' /\ below d' 0.
  Proof using total trans.
    induction n as [|n IH]; intros d L B; cbn [heapify_from]; [exists d; repeat split; [reflexivity|exact B]|].
    destruct (sift_down_ok d n L B) as (d1 & -> & L1 & P1 & B1). destruct (IH d1) as (d2 & E & L2 & P2 & B2); [lia|exact B1|]. exists d2. split; [exact E|]. split; [lia|]. split; [now rewrite P1|exact B2].
  Qed.
  Lemma heapify_ok d : exists d', heapify leb d = Some d' /\ length d' = length d /\ Permutation d d' /\ below d' 0.
  Proof using total trans.
    unfold heapify. destruct (Nat.leb_spec (length d) 1) as [L|L].
    - exists d. repeat split; [reflexivity|]. intros p c x y _ C _ Y. apply at_lt in Y. unfold child in C. lia.
    - assert (D : (length d - 2) / 2 * 2 <= length d - 2 < (length d - 2) / 2 * 2 + 2).
      { pose proof (Nat.div_mod (length d - 2) 2 ltac:(lia)). pose proof (Nat.mod_upper_bound (length d - 2) 2 ltac:(lia)). lia. }
      apply heapify_from_ok; [lia|]. intros p c x y P C _ Y. apply at_lt in Y. unfold child in C. lia.
  Qed.
  Lemma root_max d : below d 0 -> forall x, hd_error d = Some x -> forall k y, nth_error d k = Some y -> leb y x = true.
  Proof using total trans.
    intros B x HX. assert (X0 : nth_error d 0 = Some x) by (destruct d; exact HX). induction k as [k IH] using lt_wf_ind. intros y Y. destruct k as [|k]; [rewrite X0 in Y; injection Y as <-; now destruct (total x x)|].
    assert (C : child (k / 2) (S k)). { unfold child. pose proof (Nat.div_mod k 2 ltac:(lia)). pose proof (Nat.mod_upper_bound k 2 ltac:(lia)). lia. }
    assert (L : k / 2 < S k) by (pose proof (Nat.div_le_upper_bound k 2 k ltac:(lia)); lia).
    destruct (lt_at d (k / 2)) as (z & EZ); [apply at_lt in Y; lia|]. apply (trans y z x); [now apply (B (k / 2) (S k) z y); [lia|..]|]. now apply (IH (k / 2)).
  Qed.
  Lemma update_root_ok x rest f : below (x :: rest) 0 -> exists d', update_root leb (x :: rest) f = Some d' /\ Permutation (f x :: rest) d' /\ below d' 0.
  Proof using total trans.
    intros B. cbn [update_root]. destruct (sift_down_ok (f x :: rest) 0) as (d' & E & L & P & B'); [cbn; lia| |now exists d'].
    intros p c u v LP C U V. destruct p as [|p]; [lia|]. destruct c as [|c]; [unfold child in C; lia|]. apply (B (S p) (S c) u v); [lia|exact C|exact U|exact V].
  Qed.
End Heap.
