From Verif.Lib Require Import Base Lists F32.
From Verif.Adjacency Require Import Spec Proofs.
From Verif.Prune Require Import Spec ProofsIeee.
From Verif.Graph Require Import Model Spec.

(** ** Small facts *)

Lemma memb_spec l x : memb l x = true <-> In x l.
Proof.
  unfold memb. rewrite existsb_exists. split.
  - intros (y & I & E). apply Nat.eqb_eq in E. now subst.
  - intros I. exists x. split; auto. apply Nat.eqb_refl.
Qed.

Lemma filter_NoDup {A} (f : A -> bool) l : NoDup l -> NoDup (filter f l).
Proof. apply NoDup_filter. Qed.

Lemma retain_filter (f : nat -> bool) : forall l n, retain_from (fun _ i => f i) n l = filter f l.
Proof. induction l as [|x l IH]; intros n; cbn; auto. destruct (f x); now rewrite IH. Qed.

Lemma filter_all {A} (f : A -> bool) l : (forall x, In x l -> f x = true) -> filter f l = l.
Proof.
  induction l as [|x l IH]; intros H; [auto|]. cbn. rewrite (H x) by now left.
  rewrite IH; auto. intros y I. apply H. now right.
Qed.

Section prune_facts.
Context {V : Type}.
Variable P : gpar V.
Hypothesis C : cfg_ok P.

Lemma sorted_ok pool : exists sp, sorted P pool = Some sp /\
  length sp <= p_max_occ P /\ (forall x, In x (map n_id sp) -> In x (map n_id pool)) /\
  (NoDup (map n_id pool) -> NoDup (map n_id sp)).
Proof.
  destruct C as (_ & _ & _ & CS & CO).
  destruct (sorted_lemma (p_select P) (p_sort P) pool (p_max_occ P) CS CO) as (sp & rest & E & Pm & L & _).
  exists sp. unfold sorted. split; auto. split; [lia|].
  apply (Permutation_map n_id) in Pm. rewrite map_app in Pm. split.
  - intros x I. eapply Permutation_in; [symmetry; exact Pm|]. apply in_app_iff. auto.
  - intros N. eapply Permutation_NoDup in N; [|exact Pm]. now apply NoDup_app_inv in N.
Qed.

(** A pruned list. *)
Definition pruned (loc : nat) (pool : list nat) (l : list nat) : Prop :=
  NoDup l /\ length l <= degree P /\ ~ In loc l /\ forall x, In x l -> In x pool.

Lemma occlude_ok view loc sp old force l :
  length sp <= p_max_occ P -> NoDup (map n_id sp) ->
  occlude P view loc sp old force = ROk l -> pruned loc (map n_id sp) l.
Proof.
  intros L N. unfold occlude. destruct C as (CA & _ & CM & _).
  pose proof (@occlude_bounds_all V (p_ar P) (p_dist P) (p_debug P) (p_kind P) (p_fuel P) (p_prune P) force view
    (fun id => id =? loc) sp old CA ltac:(lia) N) as H.
  destruct (occlude_list _ _ _ _ _ _ _ _ _ _ _); try discriminate.
  intros [= <-]. destruct H as (H1 & H2 & H3 & _). split; [auto|]. split; [auto|]. split.
  - intros I. apply H3 in I as [_ I]. rewrite Nat.eqb_refl in I. discriminate.
  - intros x I. now apply H3.
Qed.

Lemma occlude_nil view loc old force : occlude P view loc [] old force = ROk [].
Proof. reflexivity. Qed.

Lemma robust_prune_pool_ok fv loc pool old force l : NoDup (map n_id pool) ->
  pruned loc (map n_id pool) old \/ old = [] ->
  robust_prune_pool P fv loc pool old force = ROk l ->
  l = old \/ pruned loc (map n_id pool) l.
Proof.
  intros N O. unfold robust_prune_pool. destruct (sorted_ok pool) as (sp & -> & L & S & ND).
  destruct sp as [|x sp].
  - intros [= <-]. now left.
  - destruct fv as [view|]; [|discriminate]. intros E. right.
    destruct (occlude_ok view loc (x :: sp) old force l L (ND N) E) as (A & B & D & F).
    repeat split; auto.
Qed.

Lemma dists_ids view v ids : forall x, In x (map n_id (dists P view v ids)) -> In x ids.
Proof.
  induction ids as [|i ids IH]; cbn; [auto|]. intros x I.
  destruct (view i); cbn in I; intuition.
Qed.
Lemma dists_NoDup view v ids : NoDup ids -> NoDup (map n_id (dists P view v ids)).
Proof.
  induction ids as [|i ids IH]; cbn; intros N; [constructor|]. inv N.
  destruct (view i); cbn; auto. constructor; auto. intros I. apply dists_ids in I. auto.
Qed.

Lemma robust_prune_list_ok fv loc ids old force l : NoDup ids -> ids <> [] ->
  robust_prune_list P fv loc ids old force = ROk l -> pruned loc ids l.
Proof.
  intros N NE. unfold robust_prune_list. destruct ids as [|i0 ids0] eqn:EI; [congruence|].
  rewrite <- EI in *. clear NE. destruct fv as [view|]; [|discriminate].
  destruct (view loc) as [v|]; [|discriminate].
  set (pl := dists P view v (filter (fun i => negb (i =? loc)) ids)).
  destruct (sorted_ok pl) as (sp & -> & L & S & ND). intros E.
  assert (NP : NoDup (map n_id pl)) by (apply dists_NoDup, filter_NoDup, N).
  destruct (occlude_ok view loc sp old force l L (ND NP) E) as (A & B & D & F).
  repeat split; auto. intros x I. apply F, S, dists_ids in I. now apply filter_In in I.
Qed.

Lemma robust_prune_with_ok fv id extras vis old force l :
  NoDup (map n_id vis) -> (extras <> [] -> NoDup extras /\ forall i, In i extras -> ~ In i (map n_id vis)) ->
  robust_prune_with P fv id extras vis old force = ROk l ->
  pruned id (map n_id vis ++ extras) l.
Proof.
  intros N X. unfold robust_prune_with. destruct fv as [view|]; [|discriminate].
  assert (HP : forall pool, match extras with
      | [] => Some vis
      | _ => match view id with Some v => Some (vis ++ dists P view v extras) | None => None end
      end = Some pool -> NoDup (map n_id pool) /\ forall x, In x (map n_id pool) -> In x (map n_id vis ++ extras)).
  { intros pool E. destruct extras as [|x0 ex] eqn:EX.
    - inv E. split; auto. intros x I. rewrite app_nil_r. exact I.
    - rewrite <- EX in *. assert (NE : extras <> []) by congruence. destruct (X NE) as [X1 X2].
      destruct (view id) as [v|]; [|discriminate]. injection E as <-. rewrite map_app. split.
      + apply NoDup_app_intro; auto. apply dists_NoDup, X1. intros x I J. apply dists_ids in J. eapply X2; eauto.
      + intros x I. rewrite in_app_iff in *. destruct I as [I|I]; auto. right. now apply dists_ids in I. }
  destruct (match extras with [] => _ | _ => _ end) as [pool|]; [|discriminate].
  destruct (HP pool eq_refl) as [H1 H2]. destruct (sorted_ok pool) as (sp & -> & L & S & ND). intros E.
  destruct (occlude_ok view id sp old force l L (ND H1) E) as (A & B & D & F). repeat split; auto.
Qed.

(** The loop over attempts: what holds for the empty list and for every prune holds. *)
Lemma attempts_ok (T : list nat -> Prop) prune env fuel : forall n old,
  (forall n vis old l, a_visited (env n) = Some vis -> T old ->
     prune (a_fill (env n)) vis old (should_saturate P n) = ROk l -> T l) ->
  T old -> forall l, attempts P prune env fuel n old = ROk l -> T l.
Proof.
  induction fuel as [|fuel IH]; cbn [attempts]; intros n old H TO l E.
  - inv E. auto.
  - destruct (a_visited (env n)) as [vis|] eqn:EV; [|discriminate].
    destruct (prune (a_fill (env n)) vis old (should_saturate P n)) as [l1| | |] eqn:EP; try discriminate.
    specialize (H n vis old l1 EV TO EP) as T1.
    destruct (should_retry P n (length l1)); [|inv E; auto]. eapply IH; eauto.
Qed.
End prune_facts.

(** ** Providers *)
Lemma app_unique_spec cap new : forall l, NoDup l -> length l <= cap ->
  NoDup (app_unique cap l new) /\ length (app_unique cap l new) <= cap /\
  forall x, In x (app_unique cap l new) -> In x l \/ In x new.
Proof.
  induction new as [|x new IH]; intros l N L; cbn [app_unique]; [auto|].
  destruct (existsb (Nat.eqb x) l) eqn:E.
  - destruct (IH l N L) as (A & B & D). split; [auto|split; [auto|]]. intros y I. apply D in I. cbn. tauto.
  - destruct (Nat.ltb_spec (length l) cap); [|repeat split; auto; cbn; tauto].
    assert (NI : ~ In x l). { intros I. apply memb_spec in I. unfold memb in I. congruence. }
    destruct (IH (l ++ [x])) as (A & B & D).
    + now apply NoDup_snoc.
    + rewrite app_length. cbn. lia.
    + split; [auto|split; [auto|]]. intros y I. apply D in I. rewrite in_app_iff in I. cbn in *. tauto.
Qed.
Lemma app_unique_exact cap new : forall l, NoDup (l ++ new) -> length (l ++ new) <= cap ->
  app_unique cap l new = l ++ new.
Proof.
  induction new as [|x new IH]; intros l N L; cbn [app_unique]; [now rewrite app_nil_r|].
  replace (l ++ x :: new) with ((l ++ [x]) ++ new) in * by now rewrite <- app_assoc.
  assert (E : existsb (Nat.eqb x) l = false).
  { destruct (existsb (Nat.eqb x) l) eqn:E; auto. apply (memb_spec l x) in E.
    apply NoDup_app_inv in N as [N _]. apply NoDup_app_inv in N as (_ & _ & N). exfalso. eapply N; eauto. now left. }
  rewrite E. rewrite !app_length in L. cbn in L. destruct (Nat.ltb_spec (length l) cap); [|lia].
  apply IH; auto. rewrite !app_length. cbn. lia.
Qed.
Lemma prov_unique_exact cap : appends_exactly (prov_unique cap).
Proof. intros l new. apply app_unique_exact. Qed.
Lemma prov_plain_exact cap : appends_exactly (prov_plain cap).
Proof.
  intros l new _ L. cbn in *. unfold app_plain. rewrite app_length in L. now rewrite firstn_all2 by lia.
Qed.
Lemma prov_unique_only cap : appends_only (prov_unique cap).
Proof.
  intros l new. revert l. cbn. induction new as [|y new IH]; intros l x I; cbn [app_unique] in I; [auto|].
  destruct (existsb (Nat.eqb y) l); [apply IH in I; cbn; tauto|].
  destruct (length l <? cap); [|auto]. apply IH in I. rewrite in_app_iff in I. cbn in *. tauto.
Qed.
Lemma prov_plain_only cap : appends_only (prov_plain cap).
Proof.
  intros l new x. cbn. unfold app_plain. rewrite in_app_iff. intros [I|I]; auto. right. now apply in_firstn in I.
Qed.
