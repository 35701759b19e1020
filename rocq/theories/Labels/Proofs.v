(** The inverted index: what its entries are after every call. *)
From Coq Require Import String.
From Verif.Lib Require Import Base Lists Bytes F64.
From Verif.Keys Require Import Model Spec Proofs Props.
From Verif.Labels Require Import Model Spec.
Local Open Scope N_scope.

Lemma beqb_spec a b : reflect (a = b) (beqb a b).
Proof. unfold beqb. destruct (list_eq_dec N.eq_dec a b); now constructor. Qed.
Lemma beqb_refl a : beqb a a = true. Proof. destruct (beqb_spec a a); congruence. Qed.
Lemma assoc_in {A} k (m : list (bytes * A)) v : assoc k m = Some v -> In (k, v) m.
Proof. induction m as [|(k', v') m IH]; [discriminate|]. cbn [assoc]. destruct (beqb_spec k k') as [->|]; [intros [= ->]; now left|right; auto]. Qed.
Lemma assoc_none {A} k (m : list (bytes * A)) : assoc k m = None <-> ~ In k (map fst m).
Proof.
  induction m as [|(k', v') m IH]; cbn [assoc map fst]; [tauto|]. destruct (beqb_spec k k') as [->|N].
  - split; [discriminate|intros H; exfalso; apply H; now left].
  - rewrite IH. cbn [In]. split; intros H; [intros [X|X]; [congruence|tauto]|tauto].
Qed.
Lemma in_assoc {A} k (m : list (bytes * A)) v : NoDup (map fst m) -> In (k, v) m -> assoc k m = Some v.
Proof.
  induction m as [|(k', v') m IH]; [contradiction|]. cbn [assoc map fst]. intros D [E|H]; inversion D; subst.
  - injection E as -> ->. now rewrite beqb_refl.
  - destruct (beqb_spec k k') as [->|]; [|auto]. exfalso. apply H2. change k' with (fst (k', v)). now apply in_map.
Qed.
Lemma kdel_in k m p : In p (kmap_del k m) <-> In p m /\ fst p <> k.
Proof. unfold kmap_del. rewrite filter_In. destruct (beqb_spec k (fst p)); cbn; intuition congruence. Qed.
Lemma kdel_nodup k m : NoDup (map fst m) -> NoDup (map fst (kmap_del k m)).
Proof.
  induction m as [|p m IH]; [auto|]. cbn [map kmap_del filter]. intros D; inversion D; subst.
  destruct (negb _); [|now apply IH]. cbn [map]. constructor; [|now apply IH].
  intros X. apply in_map_iff in X. destruct X as (q & E & Q). apply filter_In in Q. apply H1. rewrite <- E. now apply in_map.
Qed.
Lemma kdel_assoc k m k' : assoc k' (kmap_del k m) = if beqb k' k then None else assoc k' m.
Proof.
  induction m as [|(x, v) m IH]; cbn [kmap_del filter assoc fst]; [now destruct (beqb k' k)|].
  fold (kmap_del k m). destruct (beqb_spec k x) as [->|N]; cbn [negb].
  - rewrite IH. now destruct (beqb k' x).
  - cbn [assoc]. rewrite IH. destruct (beqb_spec k' x) as [->|]; [|reflexivity]. destruct (beqb_spec x k); congruence.
Qed.
Lemma kset_assoc k v m k' : assoc k' (kmap_set k v m) = if beqb k' k then Some v else assoc k' m.
Proof. unfold kmap_set. cbn [assoc]. destruct (beqb k' k) eqn:E; [reflexivity|]. now rewrite kdel_assoc, E. Qed.
Lemma kset_nodup k v m : NoDup (map fst m) -> NoDup (map fst (kmap_set k v m)).
Proof.
  intros D. unfold kmap_set. cbn [map fst]. constructor; [|now apply kdel_nodup].
  intros X. apply in_map_iff in X. destruct X as (q & E & Q). apply kdel_in in Q. tauto.
Qed.

(** The posting list operations on sets. *)
Lemma has_in x l : has x l = true <-> In x l.
Proof. unfold has. rewrite existsb_exists. split; [intros (y & H & E); apply N.eqb_eq in E; now subst|intros H; exists x; now rewrite N.eqb_refl]. Qed.
Lemma u32_small id : id < two32 -> u32 id = id. Proof. apply N.mod_small. Qed.
Lemma pl_insert_in id l x : id < two32 -> In x (pl_insert id l) <-> x = id \/ In x l.
Proof.
  intros H. unfold pl_insert. rewrite u32_small by assumption. destruct (has id l) eqn:E.
  - apply has_in in E. intuition congruence.
  - cbn [In]. intuition congruence.
Qed.
Lemma pl_insert_nodup id l : id < two32 -> NoDup l -> NoDup (pl_insert id l).
Proof.
  intros H D. unfold pl_insert. destruct (has (u32 id) l) eqn:E; [assumption|]. constructor; [|assumption].
  intros X. apply has_in in X. congruence.
Qed.
Lemma pl_remove_in id l x : id < two32 -> In x (pl_remove id l) <-> x <> id /\ In x l.
Proof. intros H. unfold pl_remove. rewrite filter_In, u32_small by assumption. destruct (N.eqb_spec x id); cbn; intuition congruence. Qed.
Lemma pl_remove_nodup id l : NoDup l -> NoDup (pl_remove id l). Proof. apply NoDup_filter. Qed.

(** The invariant: [mem id k] says the document is in the posting list of [k], [rev] what the
    reverse entry of a document holds. *)
Definition akey (k : bytes) : Prop := exists f v, no_nul f /\ value_ok v /\ k = encode_key f v.
Record KInv (c : codec) (m : list (bytes * bytes)) (mem : N -> bytes -> Prop) (rev : N -> option bytes) : Prop := mkKInv {
  kv_nodup : NoDup (map fst m);
  kv_keys : forall k b, In (k, b) m -> (exists id, k = reverse_key id) \/ akey k;
  kv_post : forall k, akey k ->
    match assoc k m with
    | None => forall id, ~ mem id k
    | Some b => exists pl, pl_de c b = Some pl /\ pl <> [] /\ NoDup pl /\ Forall (fun x => x < two32) pl /\ forall id, In id pl <-> mem id k
    end;
  kv_rev : forall id, assoc (reverse_key id) m = rev id }.

Lemma rev_akey id k : akey k -> beqb (reverse_key id) k = false /\ beqb k (reverse_key id) = false.
Proof.
  intros (f & v & _ & _ & ->). split.
  - destruct (beqb_spec (reverse_key id) (encode_key f v)) as [E|]; [|reflexivity]. now apply reverse_key_apart in E.
  - destruct (beqb_spec (encode_key f v) (reverse_key id)) as [E|]; [|reflexivity]. symmetry in E. now apply reverse_key_apart in E.
Qed.
Lemma kinv_new c : KInv c [] (fun _ _ => False) (fun _ => None).
Proof. split; cbn; intros; try contradiction; auto using NoDup_nil. Qed.
Lemma kinv_ext c m mem mem' rev rev' : KInv c m mem rev -> (forall id k, akey k -> mem id k <-> mem' id k) -> (forall id, rev id = rev' id) -> KInv c m mem' rev'.
Proof.
  intros [A B C D] E F. split; auto.
  - intros k H. specialize (C k H). destruct (assoc k m) as [bs|].
    + destruct C as (pl & P1 & P2 & P3 & P4 & P5). exists pl. repeat split; auto; intros X; [apply E, P5|apply P5, E]; auto.
    + intros id X. apply (C id). now apply E.
  - intros id. now rewrite D.
Qed.
Lemma kinv_set_post c m mem rev k pl mem' : lawful c -> KInv c m mem rev -> akey k ->
  pl <> [] -> NoDup pl -> Forall (fun x => x < two32) pl -> (forall id, In id pl <-> mem' id k) -> (forall id k', k' <> k -> mem' id k' <-> mem id k') ->
  KInv c (kmap_set k (pl_ser c pl) m) mem' rev.
Proof.
  intros L [A B C D] K N1 N2 N3 N4 N5. split.
  - now apply kset_nodup.
  - intros k' b [E|H]; [injection E as <- <-; auto|]. apply kdel_in in H. apply (B k' b). tauto.
  - intros k' K'. rewrite kset_assoc. destruct (beqb_spec k' k) as [->|N].
    + destruct (L pl N2 N3) as (l & L1 & L2 & L3). exists l. split; [assumption|]. split; [|split; [assumption|split]].
      * intros ->. destruct pl as [|x pl]; [congruence|]. apply (L3 x). now left.
      * apply Forall_forall. intros x X. apply L3 in X. rewrite Forall_forall in N3. auto.
      * intros id. now rewrite L3, N4.
    + specialize (C k' K'). destruct (assoc k' m) as [bs|].
      * destruct C as (l & L1 & L2 & L3 & L4 & L5). exists l. repeat split; auto; intros X; [apply N5, L5|apply L5, N5]; auto.
      * intros id X. apply (C id). now apply N5.
  - intros id. rewrite kset_assoc. rewrite (proj1 (rev_akey id k K)). apply D.
Qed.
Lemma kinv_del_post c m mem rev k mem' : KInv c m mem rev -> akey k ->
  (forall id, ~ mem' id k) -> (forall id k', k' <> k -> mem' id k' <-> mem id k') -> KInv c (kmap_del k m) mem' rev.
Proof.
  intros [A B C D] K N4 N5. split.
  - now apply kdel_nodup.
  - intros k' b H. apply kdel_in in H. apply (B k' b). tauto.
  - intros k' K'. rewrite kdel_assoc. destruct (beqb_spec k' k) as [->|N]; [assumption|].
    specialize (C k' K'). destruct (assoc k' m) as [bs|].
    + destruct C as (l & L1 & L2 & L3 & L4 & L5). exists l. repeat split; auto; intros X; [apply N5, L5|apply L5, N5]; auto.
    + intros id X. apply (C id). now apply N5.
  - intros id. rewrite kdel_assoc. rewrite (proj1 (rev_akey id k K)). apply D.
Qed.
Lemma kinv_set_rev c m mem rev id b : KInv c m mem rev -> KInv c (kmap_set (reverse_key id) b m) mem (fun x => if x =? id then Some b else rev x).
Proof.
  intros [A B C D]. split.
  - now apply kset_nodup.
  - intros k' b' [E|H]; [injection E as <- <-; eauto|]. apply kdel_in in H. apply (B k' b'). tauto.
  - intros k K. rewrite kset_assoc, (proj2 (rev_akey id k K)). now apply C.
  - intros x. rewrite kset_assoc, D. destruct (beqb_spec (reverse_key x) (reverse_key id)) as [E|N].
    + apply reverse_key_inj in E. subst. now rewrite N.eqb_refl.
    + destruct (N.eqb_spec x id); congruence.
Qed.
Lemma kinv_del_rev c m mem rev id : KInv c m mem rev -> KInv c (kmap_del (reverse_key id) m) mem (fun x => if x =? id then None else rev x).
Proof.
  intros [A B C D]. split.
  - now apply kdel_nodup.
  - intros k' b' H. apply kdel_in in H. apply (B k' b'). tauto.
  - intros k K. rewrite kdel_assoc, (proj2 (rev_akey id k K)). now apply C.
  - intros x. rewrite kdel_assoc, D. destruct (beqb_spec (reverse_key x) (reverse_key id)) as [E|N].
    + apply reverse_key_inj in E. subst. now rewrite N.eqb_refl.
    + destruct (N.eqb_spec x id); congruence.
Qed.

(** insert: a prefix of the keys when the store fails, all of them otherwise. *)
Definition keys_of (a : list (bytes * value)) : list bytes := map (fun p => encode_key (fst p) (snd p)) a.
Definition add_mem (id : N) (ks : list bytes) (mem : N -> bytes -> Prop) : N -> bytes -> Prop := fun x k => mem x k \/ (x = id /\ In k ks).
Definition del_mem (id : N) (ks : list bytes) (mem : N -> bytes -> Prop) : N -> bytes -> Prop := fun x k => mem x k /\ ~ (x = id /\ In k ks).
Definition set_rev (id : N) (b : option bytes) (rev : N -> option bytes) : N -> option bytes := fun x => if x =? id then b else rev x.
Lemma insert_loop_inv c fail id : lawful c -> id < two32 -> forall attrs keys s mem rev b s',
  KInv c (k_map s) mem rev -> (forall k, In k (keys_of attrs) -> akey k) -> insert_loop fail c id attrs keys s = (b, s') ->
  exists pre post, keys_of attrs = pre ++ post /\ (b = true -> post = []) /\
  KInv c (k_map s') (add_mem id pre mem) (if b then set_rev id (ser_keys (keys ++ keys_of attrs)) rev else rev) /\
  (b = true -> ser_keys (keys ++ keys_of attrs) <> None).
Proof.
  intros L I. induction attrs as [|(f, v) attrs IH]; intros keys s mem rev b s' K A H; cbn [insert_loop] in H.
  - exists [], []. split; [reflexivity|]. split; [reflexivity|]. cbn [keys_of map]. rewrite app_nil_r. destruct (ser_keys keys) as [bs|] eqn:E.
    + unfold k_set in H. destruct (fail (k_ops s)); injection H as <- <-.
      * split; [|discriminate]. eapply kinv_ext; [exact K| |reflexivity]. unfold add_mem. cbn. tauto.
      * split; [|discriminate]. cbn [k_map]. eapply kinv_ext; [apply kinv_set_rev, K| |reflexivity]. unfold add_mem. cbn. tauto.
    + injection H as <- <-. split; [|discriminate]. eapply kinv_ext; [exact K| |reflexivity]. unfold add_mem. cbn. tauto.
  - cbn [keys_of map fst snd] in *. fold (keys_of attrs) in *. set (k := encode_key f v) in *. assert (Kk : akey k) by (apply A; now left).
    assert (Same : forall s1 : kv, k_map s1 = k_map s -> b = false -> s1 = s' ->
      exists pre post, k :: keys_of attrs = pre ++ post /\ (b = true -> post = []) /\
      KInv c (k_map s') (add_mem id pre mem) (if b then set_rev id (ser_keys (keys ++ k :: keys_of attrs)) rev else rev) /\
      (b = true -> ser_keys (keys ++ k :: keys_of attrs) <> None)).
    { intros s1 E -> <-. exists [], (k :: keys_of attrs). split; [reflexivity|]. split; [discriminate|]. split; [|discriminate]. rewrite E.
      eapply kinv_ext; [exact K| |reflexivity]. unfold add_mem. cbn. tauto. }
    assert (G : exists r s1, get_or_empty fail c k s = (r, s1) /\ k_map s1 = k_map s /\
      (forall pl, r = Some pl -> NoDup pl /\ Forall (fun x => x < two32) pl /\ forall x, In x pl <-> mem x k)).
    { unfold get_or_empty, k_get. destruct (fail (k_ops s)); [eexists _, _; split; [reflexivity|split; [reflexivity|discriminate]]|].
      pose proof (kv_post _ _ _ _ K k Kk) as P. destruct (assoc k (k_map s)) as [bs|].
      - eexists _, _. split; [reflexivity|split; [reflexivity|]]. destruct P as (pl & -> & _ & P2 & P3 & P4). intros ? [= <-]. auto.
      - eexists _, _. split; [reflexivity|split; [reflexivity|]]. intros ? [= <-]. split; [constructor|]. split; [constructor|]. intros x. split; [intros []|]. apply P. }
    destruct G as (r & s1 & G1 & G2 & G3). rewrite G1 in H. destruct r as [pl|]; [|injection H as <- <-; now apply (Same s1)].
    destruct (G3 pl eq_refl) as (P1 & P2 & P3). unfold k_set in H. destruct (fail (k_ops s1)); [injection H as <- <-; now apply (Same (mkkv (k_map s1) (k_ops s1 + 1)))|].
    apply IH with (mem := add_mem id [k] mem) (rev := rev) in H.
    + destruct H as (pre & post & H1 & H2 & H3 & H4). exists (k :: pre), post. rewrite H1. split; [reflexivity|]. split; [assumption|].
      rewrite <- app_assoc in H3, H4. cbn [app] in H3, H4. rewrite H1 in H3, H4. split; [|assumption]. eapply kinv_ext; [exact H3| |reflexivity].
      unfold add_mem. cbn [In]. intros x k' _. intuition congruence.
    + cbn [k_map]. rewrite G2. apply kinv_set_post with (mem := mem); auto.
      * intros E. assert (X : In id []) by (rewrite <- E; apply pl_insert_in; auto). contradiction.
      * now apply pl_insert_nodup.
      * apply Forall_forall. intros x X. apply pl_insert_in in X; [|assumption]. rewrite Forall_forall in P2. destruct X as [->|X]; auto.
      * intros x. rewrite pl_insert_in by assumption. unfold add_mem. cbn [In]. rewrite P3. intuition congruence.
      * intros x k' N. unfold add_mem. cbn [In]. intuition congruence.
    + intros k' H'. apply A. now right.
Qed.
Lemma delete_loop_inv c fail id : lawful c -> id < two32 -> forall keys s mem rev b s',
  KInv c (k_map s) mem rev -> (forall k, In k keys -> akey k) -> delete_loop fail c id keys s = (b, s') ->
  exists pre post, keys = pre ++ post /\ (b = true -> post = []) /\
  KInv c (k_map s') (del_mem id pre mem) (if b then set_rev id None rev else rev).
Proof.
  intros L I. induction keys as [|k keys IH]; intros s mem rev b s' K A H; cbn [delete_loop] in H.
  - exists [], []. split; [reflexivity|]. split; [reflexivity|]. unfold k_del in H. destruct (fail (k_ops s)); injection H as <- <-; cbn [k_map].
    + eapply kinv_ext; [exact K| |reflexivity]. unfold del_mem. cbn. tauto.
    + eapply kinv_ext; [apply kinv_del_rev, K| |reflexivity]. unfold del_mem. cbn. tauto.
  - assert (Kk : akey k) by (apply A; now left).
    assert (Same : forall s1 : kv, k_map s1 = k_map s -> b = false -> s1 = s' ->
      exists pre post, k :: keys = pre ++ post /\ (b = true -> post = []) /\
      KInv c (k_map s') (del_mem id pre mem) (if b then set_rev id None rev else rev)).
    { intros s1 E -> <-. exists [], (k :: keys). split; [reflexivity|]. split; [discriminate|]. rewrite E.
      eapply kinv_ext; [exact K| |reflexivity]. unfold del_mem. cbn. tauto. }
    assert (Next : forall s1, KInv c (k_map s1) (del_mem id [k] mem) rev -> delete_loop fail c id keys s1 = (b, s') ->
      exists pre post, k :: keys = pre ++ post /\ (b = true -> post = []) /\
      KInv c (k_map s') (del_mem id pre mem) (if b then set_rev id None rev else rev)).
    { intros s1 K1 H1. apply IH with (mem := del_mem id [k] mem) (rev := rev) in H1; [|assumption|intros k' H'; apply A; now right].
      destruct H1 as (pre & post & E1 & E2 & E3). exists (k :: pre), post. rewrite E1. split; [reflexivity|]. split; [assumption|].
      eapply kinv_ext; [exact E3| |reflexivity]. unfold del_mem. cbn [In]. intros x k' _. intuition congruence. }
    unfold k_get in H. destruct (fail (k_ops s)); [injection H as <- <-; now apply (Same (mkkv (k_map s) (k_ops s + 1)))|].
    pose proof (kv_post _ _ _ _ K k Kk) as P. destruct (assoc k (k_map s)) as [bs|].
    2: { apply (Next _) in H; [assumption|]. cbn [k_map]. eapply kinv_ext; [exact K| |reflexivity]. unfold del_mem. cbn [In].
         intros x k' _. split; [|tauto]. intros M. split; [assumption|]. intros (-> & [->|[]]). now apply (P id). }
    destruct P as (pl & P0 & P1 & P2 & P3 & P4). rewrite P0 in H.
    assert (R : forall x, In x (pl_remove id pl) <-> del_mem id [k] mem x k).
    { intros x. rewrite pl_remove_in by assumption. rewrite P4. unfold del_mem. cbn [In]. intuition congruence. }
    assert (O : forall x k', k' <> k -> del_mem id [k] mem x k' <-> mem x k').
    { intros x k' N. unfold del_mem. cbn [In]. intuition congruence. }
    destruct (pl_remove id pl) as [|x0 l0] eqn:E.
    + unfold k_del in H. cbn [k_ops k_map] in H. destruct (fail _); [injection H as <- <-; (eapply Same; [|reflexivity|reflexivity]); reflexivity|].
      apply (Next _) in H; [assumption|]. cbn [k_map]. apply kinv_del_post with (mem := mem); auto. intros x X. now apply R in X.
    + unfold k_set in H. cbn [k_ops k_map] in H. destruct (fail _); [injection H as <- <-; (eapply Same; [|reflexivity|reflexivity]); reflexivity|].
      apply (Next _) in H; [assumption|]. cbn [k_map]. apply kinv_set_post with (mem := mem); auto; [discriminate| |].
      * rewrite <- E. now apply pl_remove_nodup.
      * rewrite <- E. apply Forall_forall. intros x X. apply pl_remove_in in X; [|assumption]. rewrite Forall_forall in P3. now apply P3.
Qed.

(** Progress without failures. *)
Lemma insert_loop_ok c id : lawful c -> id < two32 -> forall attrs keys s mem rev,
  KInv c (k_map s) mem rev -> (forall k, In k (keys_of attrs) -> akey k) -> ser_keys (keys ++ keys_of attrs) <> None ->
  fst (insert_loop no_failure c id attrs keys s) = true.
Proof.
  intros L I. induction attrs as [|(f, v) attrs IH]; intros keys s mem rev K A S; cbn [insert_loop].
  - cbn [keys_of map] in S. rewrite app_nil_r in S. destruct (ser_keys keys); [reflexivity|congruence].
  - cbn [keys_of map fst snd] in *. fold (keys_of attrs) in *. set (k := encode_key f v) in *. assert (Kk : akey k) by (apply A; now left).
    assert (G : exists pl, get_or_empty no_failure c k s = (Some pl, mkkv (k_map s) (k_ops s + 1)) /\ NoDup pl /\ Forall (fun x => x < two32) pl /\ forall x, In x pl <-> mem x k).
    { unfold get_or_empty, k_get. cbn [no_failure]. pose proof (kv_post _ _ _ _ K k Kk) as P. destruct (assoc k (k_map s)) as [bs|].
      - destruct P as (pl & -> & _ & P2 & P3 & P4). exists pl. auto.
      - exists []. repeat split; try constructor; try contradiction. apply P. }
    destruct G as (pl & -> & P1 & P2 & P3). unfold k_set. cbn [no_failure k_map k_ops].
    eapply IH with (mem := add_mem id [k] mem) (rev := rev); [|intros k' H'; apply A; now right|].
    + cbn [k_map]. apply kinv_set_post with (mem := mem); auto.
      * intros E. assert (X : In id []) by (rewrite <- E; apply pl_insert_in; auto). contradiction.
      * now apply pl_insert_nodup.
      * apply Forall_forall. intros x X. apply pl_insert_in in X; [|assumption]. rewrite Forall_forall in P2. destruct X as [->|X]; auto.
      * intros x. rewrite pl_insert_in by assumption. unfold add_mem. cbn [In]. rewrite P3. intuition congruence.
      * intros x k' N. unfold add_mem. cbn [In]. intuition congruence.
    + now rewrite <- app_assoc.
Qed.
Lemma delete_loop_ok c id : lawful c -> id < two32 -> forall keys s mem rev,
  KInv c (k_map s) mem rev -> (forall k, In k keys -> akey k) -> fst (delete_loop no_failure c id keys s) = true.
Proof.
  intros L I. induction keys as [|k keys IH]; intros s mem rev K A; cbn [delete_loop]; [reflexivity|].
  assert (Kk : akey k) by (apply A; now left). unfold k_get. cbn [no_failure].
  pose proof (kv_post _ _ _ _ K k Kk) as P. destruct (assoc k (k_map s)) as [bs|].
  2: { apply (IH _ mem rev); [exact K|intros k' H'; apply A; now right]. }
  destruct P as (pl & P0 & P1 & P2 & P3 & P4). rewrite P0.
  assert (R : forall x, In x (pl_remove id pl) <-> del_mem id [k] mem x k).
  { intros x. rewrite pl_remove_in by assumption. rewrite P4. unfold del_mem. cbn [In]. intuition congruence. }
  assert (O : forall x k', k' <> k -> del_mem id [k] mem x k' <-> mem x k').
  { intros x k' N. unfold del_mem. cbn [In]. intuition congruence. }
  destruct (pl_remove id pl) as [|x0 l0] eqn:E; unfold k_del, k_set; cbn [no_failure k_map k_ops].
  - apply (IH _ (del_mem id [k] mem) rev); [|intros k' H'; apply A; now right]. cbn [k_map]. apply kinv_del_post with (mem := mem); auto. intros x X. now apply R in X.
  - apply (IH _ (del_mem id [k] mem) rev); [|intros k' H'; apply A; now right]. cbn [k_map]. apply kinv_set_post with (mem := mem); auto; [discriminate| |].
    + rewrite <- E. now apply pl_remove_nodup.
    + rewrite <- E. apply Forall_forall. intros x X. apply pl_remove_in in X; [|assumption]. rewrite Forall_forall in P3. now apply P3.
Qed.
