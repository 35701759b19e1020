(** Lemmas about merging the graphs of the shards. *)
From Coq Require Import List NArith ZArith Bool Permutation Sorting Lia ZifyNat ZifyN ZifyBool.
From Verif.Lib Require Import Base Lists Bytes.
From Verif.Disk Require Import Model Spec Proofs ProofsLayout Props.
From Verif.GraphFile Require Import Model Spec Proofs ProofsMain.
From Verif.Shards Require Import Model Spec Proofs Proofs2.
Import ListNotations.
Local Arguments le_enc : simpl never.

(** * Readers *)

(** What the reader will still give. *)
Definition ahead (r : creader) (b : bytes) : Prop := exists f p, cr_at f p r /\ p <= length f /\ skipn p f = b.
Lemma ahead_new rcs f : exists r, cr_new rcs f = Some r /\ ahead r f.
Proof. destruct (cr_new_at rcs f) as (r & E & A). exists r. split; [exact E|]. exists f, 0. split; [exact A|]. split; [lia|reflexivity]. Qed.
Lemma ahead_read r a b n : ahead r (a ++ b) -> length a = n -> exists r', cr_read n r = (Some a, r') /\ ahead r' b.
Proof.
  intros (f & p & A & L & SK) HN. assert (LS : length f - p = length a + length b) by (rewrite <- skipn_length, SK; apply app_length).
  destruct (cr_bytes_at f p r n a A) as (r' & E & A'); [|lia|].
  { unfold slice. rewrite SK. subst n. rewrite firstn_app, Nat.sub_diag, firstn_all. apply app_nil_r. }
  exists r'. split; [exact E|]. exists f, (p + n). split; [exact A'|]. split; [lia|].
  replace (skipn (p + n) f) with (skipn n (skipn p f)) by (rewrite skipn_skipn'; f_equal; lia). rewrite SK. subst n. apply skipn_app_exact. reflexivity.
Qed.
Lemma ahead_u32 r x b : ahead r (le_enc 4 x ++ b) -> u32_ok x -> exists r', cr_read_u32 r = (Some x, r') /\ ahead r' b.
Proof.
  intros A U. destruct (ahead_read _ _ _ 4 A (le_enc_length _ _)) as (r' & E & A'). exists r'. split; [|exact A'].
  unfold cr_read_u32. rewrite E. cbn [option_map]. now rewrite le_dec_enc.
Qed.
Lemma ahead_skip32 r x b : ahead r (le_enc 4 x ++ b) -> exists y r', cr_read_u32 r = (Some y, r') /\ ahead r' b.
Proof.
  intros A. destruct (ahead_read _ _ _ 4 A (le_enc_length _ _)) as (r' & E & A'). exists (le_dec (le_enc 4 x)), r'. split; [|exact A'].
  unfold cr_read_u32. now rewrite E.
Qed.

(** * Sorting the pairs *)

Definition pair_le (a b : N * nat) : Prop := pair_leb a b = true.
Lemma pair_le_iff a b : pair_le a b <-> (fst a < fst b)%N \/ fst a = fst b /\ snd a <= snd b.
Proof. unfold pair_le, pair_leb. rewrite orb_true_iff, andb_true_iff, N.ltb_lt, N.eqb_eq, N.leb_le. lia. Qed.
Lemma pair_le_total a b : pair_leb a b = false -> pair_le b a.
Proof. intros H. apply pair_le_iff. assert (~ pair_le a b) by (unfold pair_le; congruence). rewrite pair_le_iff in H0. lia. Qed.
Lemma pair_le_trans a b c : pair_le a b -> pair_le b c -> pair_le a c.
Proof. rewrite !pair_le_iff. lia. Qed.
Lemma pair_le_antisym a b : pair_le a b -> pair_le b a -> a = b.
Proof. destruct a as [a1 a2], b as [b1 b2]. rewrite !pair_le_iff. cbn [fst snd]. intros. f_equal; lia. Qed.
Lemma insert_pair_perm a l : Permutation (insert_pair a l) (a :: l).
Proof.
  induction l as [|b l IH]; [reflexivity|]. cbn [insert_pair]. destruct (pair_leb a b); [reflexivity|].
  rewrite IH. apply perm_swap.
Qed.
Lemma insert_pair_sorted a l : StronglySorted pair_le l -> StronglySorted pair_le (insert_pair a l).
Proof.
  induction 1 as [|b l S IH F]; [repeat constructor|]. cbn [insert_pair]. destruct (pair_leb a b) eqn:E.
  - constructor; [constructor; assumption|]. constructor; [exact E|]. eapply Forall_impl; [|exact F]. intros c Hc. eapply pair_le_trans; eauto.
  - constructor; [exact IH|]. eapply Permutation_Forall; [symmetry; apply insert_pair_perm|]. constructor; [now apply pair_le_total|exact F].
Qed.
Lemma sort_pairs_ok l : Permutation (sort_pairs l) l /\ StronglySorted pair_le (sort_pairs l).
Proof.
  induction l as [|a l [P S]]; cbn [sort_pairs fold_right]; [split; [reflexivity|constructor]|]. fold (sort_pairs l). split.
  - rewrite insert_pair_perm. now constructor.
  - now apply insert_pair_sorted.
Qed.
Lemma sorted_unique l1 l2 : StronglySorted pair_le l1 -> StronglySorted pair_le l2 -> Permutation l1 l2 -> l1 = l2.
Proof.
  intros S1. revert l2. induction S1 as [|a l1 S1 IH F1]; intros l2 S2 P.
  - apply Permutation_nil in P. now subst.
  - destruct S2 as [|b l2 S2 F2]; [symmetry in P; apply Permutation_nil in P; discriminate|].
    assert (E : a = b).
    { apply pair_le_antisym.
      - assert (I : In b (a :: l1)) by (eapply Permutation_in; [symmetry; exact P|now left]). destruct I as [<-|I]; [apply pair_le_iff; lia|].
        eapply Forall_forall in F1; eauto.
      - assert (I : In a (b :: l2)) by (eapply Permutation_in; [exact P|now left]). destruct I as [<-|I]; [apply pair_le_iff; lia|].
        eapply Forall_forall in F2; eauto. }
    subst b. f_equal. apply IH; [exact S2|]. eapply Permutation_cons_inv; eauto.
Qed.
Lemma StronglySorted_filter {A} (R : A -> A -> Prop) f l : StronglySorted R l -> StronglySorted R (filter f l).
Proof.
  induction 1 as [|a l S IH F]; [constructor|]. cbn [filter]. destruct (f a); [|exact IH]. constructor; [exact IH|].
  apply Forall_forall. intros x Hx. apply filter_In in Hx. eapply Forall_forall in F; [exact F|tauto].
Qed.
Lemma Permutation_filter' {A} (f : A -> bool) l1 l2 : Permutation l1 l2 -> Permutation (filter f l1) (filter f l2).
Proof.
  induction 1; cbn [filter]; auto.
  - destruct (f x); auto.
  - destruct (f x), (f y); auto. apply perm_swap.
  - etransitivity; eauto.
Qed.

Definition pairs_of (s : nat) (ids : list N) : list (N * nat) := map (fun v => (v, s)) ids.
Definition all_pairs (base : nat) (maps : list (list N)) : list (N * nat) :=
  concat (map (fun p => pairs_of (fst p) (snd p)) (combine (seq base (length maps)) maps)).
Lemma filter_all {A} (f : A -> bool) l : (forall x, In x l -> f x = true) -> filter f l = l.
Proof. induction l as [|a l IH]; intros H; [reflexivity|]. cbn [filter]. rewrite (H a) by now left. f_equal. apply IH. intros; apply H; now right. Qed.
Lemma filter_none {A} (f : A -> bool) l : (forall x, In x l -> f x = false) -> filter f l = [].
Proof. induction l as [|a l IH]; intros H; [reflexivity|]. cbn [filter]. rewrite (H a) by now left. apply IH. intros; apply H; now right. Qed.
Lemma all_pairs_filter maps : forall base s ids, nth_error maps s = Some ids ->
  filter (fun p => snd p =? base + s) (all_pairs base maps) = pairs_of (base + s) ids.
Proof.
  induction maps as [|m maps IH]; intros base s ids H; [destruct s; discriminate|].
  unfold all_pairs. cbn [length seq combine map concat fst snd]. fold (all_pairs (S base) maps). rewrite filter_app.
  destruct s as [|s]; cbn [nth_error] in H.
  - injection H as ->. rewrite Nat.add_0_r. rewrite filter_all, filter_none; [apply app_nil_r| |].
    + intros [v s] Hx. apply in_concat in Hx. destruct Hx as (l & Hl & Hx). apply in_map_iff in Hl. destruct Hl as ([b m] & <- & Hl).
      apply in_combine_l in Hl. apply in_seq in Hl. cbn [fst snd] in Hx. apply in_map_iff in Hx. destruct Hx as (w & [= <- <-] & _). cbn. apply Nat.eqb_neq. lia.
    + intros [v s] Hx. apply in_map_iff in Hx. destruct Hx as (w & [= <- <-] & _). cbn. apply Nat.eqb_refl.
  - rewrite filter_none. { cbn [app]. replace (base + S s) with (S base + s) by lia. now apply IH. }
    intros [v s'] Hx. apply in_map_iff in Hx. destruct Hx as (w & [= <- <-] & _). cbn. apply Nat.eqb_neq. lia.
Qed.
Lemma in_all_pairs maps : forall base v s, In (v, s) (all_pairs base maps) <-> exists i ids, s = base + i /\ nth_error maps i = Some ids /\ In v ids.
Proof.
  induction maps as [|m maps IH]; intros base v s; unfold all_pairs; cbn [length seq combine map concat fst snd].
  - split; [intros []|]. intros (i & ids & _ & H & _). destruct i; discriminate.
  - fold (all_pairs (S base) maps). rewrite in_app_iff, IH. split.
    + intros [H|(i & ids & -> & H & I)].
      * apply in_map_iff in H. destruct H as (w & [= <- <-] & I). exists 0, m. split; [lia|]. split; [reflexivity|exact I].
      * exists (S i), ids. split; [lia|]. now split.
    + intros ([|i] & ids & -> & H & I); cbn [nth_error] in H.
      * injection H as ->. left. apply in_map_iff. exists v. split; [now rewrite Nat.add_0_r|exact I].
      * right. exists i, ids. split; [lia|]. now split.
Qed.
Lemma node_shard_ok maps : StronglySorted pair_le (node_shard maps) /\
  (forall v s, In (v, s) (node_shard maps) <-> exists ids, nth_error maps s = Some ids /\ In v ids) /\
  (forall s ids, nth_error maps s = Some ids -> StronglySorted N.lt ids -> filter (fun p => snd p =? s) (node_shard maps) = pairs_of s ids).
Proof.
  unfold node_shard. change (concat _) with (all_pairs 0 maps). destruct (sort_pairs_ok (all_pairs 0 maps)) as [P S]. split; [exact S|]. split.
  - intros v s. split; intros H.
    + eapply Permutation_in in H; [|exact P]. apply in_all_pairs in H. destruct H as (i & ids & -> & H). exists ids. exact H.
    + eapply Permutation_in; [symmetry; exact P|]. apply in_all_pairs. destruct H as (ids & H). exists s, ids. split; [reflexivity|exact H].
  - intros s ids H SI. apply sorted_unique.
    + now apply StronglySorted_filter.
    + clear -SI. induction SI as [|a l SI IH F]; [constructor|]. cbn [pairs_of map]. constructor; [exact IH|].
      apply Forall_map. eapply Forall_impl; [|exact F]. intros b Hb. apply pair_le_iff. cbn. lia.
    + pose proof (all_pairs_filter maps 0 s ids H) as AF. cbn [Nat.add] in AF. rewrite <- AF. now apply Permutation_filter'.
Qed.

(** * Renaming *)

Definition dedup (final xs : list N) : list N := fold_left (fun f x => if existsb (N.eqb x) f then f else f ++ [x]) xs final.
Lemma dedup_ok xs : forall final, NoDup final -> NoDup (dedup final xs) /\ forall w, In w (dedup final xs) <-> In w final \/ In w xs.
Proof.
  induction xs as [|x xs IH]; intros final ND; cbn [dedup fold_left].
  - split; [exact ND|]. intros w. split; [now left|]. intros [H|[]]. exact H.
  - destruct (existsb (N.eqb x) final) eqn:E.
    + apply existsb_exists in E. destruct E as (y & I & Q). apply N.eqb_eq in Q. subst y. destruct (IH final ND) as [A B]. split; [exact A|].
      intros w. fold (dedup final xs). rewrite B. split; [intros [H|H]; [now left|right; now right]|]. intros [H|[<-|H]]; auto.
    + destruct (IH (final ++ [x])) as [A B].
      { apply NoDup_app_intro; [exact ND|repeat constructor; auto|]. intros y Hy [<-|[]].
        assert (existsb (N.eqb x) final = true) by (apply existsb_exists; exists x; split; [exact Hy|apply N.eqb_refl]). congruence. }
      split; [exact A|]. intros w. fold (dedup (final ++ [x]) xs). rewrite B, in_app_iff. cbn [In]. tauto.
Qed.
Definition seen_ok (seen : N -> bool) (final : list N) : Prop := forall x, seen x = existsb (N.eqb x) final.
Lemma rename_ok ids nodes : Forall (fun x => (x < nodes)%N) ids -> forall nbrs seen final, Forall (fun i => (i < N.of_nat (length ids))%N) nbrs -> seen_ok seen final ->
  exists seen', rename ids nodes nbrs seen final = Some (seen', dedup final (map (fun i => nth (N.to_nat i) ids 0%N) nbrs)) /\
    seen_ok seen' (dedup final (map (fun i => nth (N.to_nat i) ids 0%N) nbrs)).
Proof.
  intros HI. induction nbrs as [|i nbrs IH]; intros seen final F SO; cbn [rename map dedup fold_left]; [now exists seen|].
  inversion F as [|? ? Fi F']; subst. destruct (nth_error ids (N.to_nat i)) as [x|] eqn:E; [|apply nth_error_None in E; lia].
  rewrite (nth_error_nth _ _ 0%N E). cbn [bind].
  assert (X : (x < nodes)%N) by (eapply Forall_forall in HI; [exact HI|eapply nth_error_In; eauto]).
  destruct (N.ltb_spec x nodes); [|lia]. cbn [guard bind]. rewrite (SO x). destruct (existsb (N.eqb x) final) eqn:Q.
  - apply IH; assumption.
  - apply IH; [assumption|]. intros y. unfold set_seen. rewrite existsb_app. cbn [existsb]. destruct (N.eqb_spec y x) as [->|NE].
    + rewrite Q. reflexivity.
    + rewrite (SO y). now rewrite !orb_false_r.
Qed.
Lemma unsee_all l seen : seen_ok seen l -> forall l', Permutation l' l -> seen_ok (fold_left (fun seen x => set_seen x false seen) l' seen) [].
Proof.
  intros SO l' P x. cbn [existsb].
  assert (G : forall l seen x, fold_left (fun seen x => set_seen x false seen) l seen x = if existsb (N.eqb x) l then false else seen x).
  { clear. induction l as [|a l IH]; intros seen x; [reflexivity|]. cbn [existsb fold_left]. rewrite IH. unfold set_seen.
    destruct (existsb (N.eqb x) l); [now rewrite orb_true_r|]. now rewrite orb_false_r. }
  rewrite G. destruct (existsb (N.eqb x) l') eqn:E; [reflexivity|]. rewrite SO.
  destruct (existsb (N.eqb x) l) eqn:E2; [|reflexivity]. exfalso. apply existsb_exists in E2. destruct E2 as (y & I & Q).
  assert (existsb (N.eqb x) l' = true) by (apply existsb_exists; exists y; split; [eapply Permutation_in; [symmetry; exact P|exact I]|exact Q]). congruence.
Qed.
