(** Proofs about the object pool. *)
From Coq Require Import List PeanoNat Bool Lia Permutation ZifyNat ZifyBool.
From Verif.Lib Require Import Base Lists.
From Verif.Pool Require Import Model Spec.
Import ListNotations.

Section Proofs.
Context {V A : Type} (create : A -> V) (modify : V -> A -> V).
Notation pool := (pool V A).
Notation step := (p_step create modify).
Notation run := (p_run create modify).

Definition all_ids (s : pool) : list nat :=
  map fst (p_queue s) ++ flat_map handle_ids (p_handles s) ++ p_dead s.
Lemma flat_set_nth (f : hstate V A -> list nat) x : forall l h y, nth_error l h = Some y ->
  exists a b, flat_map f l = a ++ f y ++ b /\ flat_map f (set_nth h x l) = a ++ f x ++ b.
Proof.
  induction l as [|z l IH]; intros [|h] y H; try discriminate.
  - injection H as ->. exists [], (flat_map f l). cbn [set_nth flat_map app]. auto.
  - cbn [nth_error] in H. destruct (IH h y H) as (a & b & E1 & E2).
    exists (f z ++ a), b. cbn [set_nth flat_map]. rewrite E1, E2, <- !app_assoc. auto.
Qed.
Lemma perm_move {B} (q a b d : list B) x : Permutation (q ++ (a ++ [x] ++ b) ++ d) (x :: q ++ (a ++ b) ++ d).
Proof.
  rewrite <- !app_assoc. cbn [app]. rewrite (app_assoc q a). symmetry.
  rewrite (app_assoc q a (b ++ d)). apply Permutation_middle.
Qed.
Lemma perm_drop {B} (q l d : list B) x : Permutation (q ++ l ++ x :: d) (x :: q ++ l ++ d).
Proof. rewrite !app_assoc. symmetry. apply Permutation_middle. Qed.

(** One step permutes the identities, and adds the next one when an object is created. *)
Lemma step_ids s e s' : step s e = Some s' ->
  (p_next s' = p_next s /\ Permutation (all_ids s') (all_ids s)) \/
  (p_next s' = S (p_next s) /\ Permutation (all_ids s') (p_next s :: all_ids s)).
Proof.
  intros H. destruct e as [a|h ok|h v|h|h]; cbn [p_step] in H.
  - destruct (p_queue s) as [|o q] eqn:Q; injection H as <-; left; (split; [reflexivity|]);
      unfold all_ids; cbn [p_queue p_handles p_dead]; rewrite Q, flat_map_app; cbn [map flat_map handle_ids app].
    + now rewrite app_nil_r.
    + etransitivity; [apply (perm_move (map fst q) (flat_map handle_ids (p_handles s)) [] (p_dead s))|].
      now rewrite app_nil_r.
  - destruct (nth_error (p_handles s) h) as [[[[i v]|] a| | |]|] eqn:N; try discriminate; injection H as <-.
    + destruct ok; left; (split; [reflexivity|]); unfold all_ids, p_set; cbn [p_queue p_handles p_dead].
      * destruct (flat_set_nth handle_ids (Held (i, modify v a)) _ _ _ N) as (x & y & -> & ->). reflexivity.
      * destruct (flat_set_nth handle_ids Gone _ _ _ N) as (x & y & -> & ->). cbn [handle_ids fst app].
        rewrite perm_drop. symmetry. apply perm_move.
    + destruct ok; [right|left]; (split; [reflexivity|]); unfold all_ids, p_set; cbn [p_queue p_handles p_dead].
      * destruct (flat_set_nth handle_ids (Held (p_next s, create a)) _ _ _ N) as (x & y & -> & ->).
        cbn [handle_ids fst]. apply perm_move.
      * destruct (flat_set_nth handle_ids Gone _ _ _ N) as (x & y & -> & ->). reflexivity.
  - destruct (nth_error (p_handles s) h) as [[|[i w]| |]|] eqn:N; try discriminate; injection H as <-.
    left; (split; [reflexivity|]); unfold all_ids, p_set; cbn [p_queue p_handles p_dead].
    destruct (flat_set_nth handle_ids (Held (i, v)) _ _ _ N) as (x & y & -> & ->). reflexivity.
  - destruct (nth_error (p_handles s) h) as [[|o| |]|] eqn:N; try discriminate.
    destruct (match p_cap s with Some _ => _ | None => _ end); injection H as <-;
      left; (split; [reflexivity|]); unfold all_ids, p_set; cbn [p_queue p_handles p_dead].
    + destruct (flat_set_nth handle_ids Gone _ _ _ N) as (x & y & -> & ->). cbn [handle_ids app].
      rewrite map_app. cbn [map]. rewrite <- app_assoc. etransitivity; [|symmetry; apply perm_move].
      symmetry. apply Permutation_middle.
    + destruct (flat_set_nth handle_ids (Dropping o) _ _ _ N) as (x & y & -> & ->). reflexivity.
  - destruct (nth_error (p_handles s) h) as [[| |o|]|] eqn:N; try discriminate; injection H as <-.
    left; (split; [reflexivity|]); unfold all_ids, p_set; cbn [p_queue p_handles p_dead].
    destruct (flat_set_nth handle_ids Gone _ _ _ N) as (x & y & -> & ->). cbn [handle_ids app].
    rewrite perm_drop. symmetry. apply perm_move.
Qed.
Definition pinv (s : pool) : Prop := Permutation (all_ids s) (seq 0 (p_next s)).
Lemma step_inv s e s' : pinv s -> step s e = Some s' -> pinv s'.
Proof.
  unfold pinv. intros I H. destruct (step_ids s e s' H) as [[-> P]|[-> P]].
  - now rewrite P.
  - rewrite P, I. rewrite seq_S. cbn [plus]. symmetry.
    change (p_next s :: seq 0 (p_next s)) with ([p_next s] ++ seq 0 (p_next s)). apply Permutation_app_comm.
Qed.
Lemma new_inv a n cap : pinv (pool_new create a n cap).
Proof.
  unfold pinv, all_ids, pool_new. cbn [p_queue p_handles p_dead p_next flat_map]. rewrite map_map. cbn [fst].
  rewrite map_id, !app_nil_r. reflexivity.
Qed.
Lemma run_app s a b : run s (a ++ b) = match run s a with Some s' => run s' b | None => None end.
Proof. revert s. induction a as [|e a IH]; intros s; [reflexivity|]. cbn [app p_run]. destruct (step s e); auto. Qed.
Lemma run_ind (P : pool -> Prop) : (forall s e s', P s -> step s e = Some s' -> P s') ->
  forall es s s', P s -> run s es = Some s' -> P s'.
Proof.
  intros H. induction es as [|e es IH]; intros s s' Hs R; cbn [p_run] in R; [congruence|].
  destruct (step s e) as [s1|] eqn:E; [|discriminate]. exact (IH s1 s' (H s e s1 Hs E) R).
Qed.
Lemma run_inv a n cap es s : run (pool_new create a n cap) es = Some s -> pinv s.
Proof. apply run_ind; [exact step_inv|apply new_inv]. Qed.

(** ** Capacity *)
Definition bound_inv (n : nat) (s : pool) : Prop :=
  match p_cap s with Some c => length (p_queue s) <= max n c | None => True end.
Lemma step_cap s e s' : step s e = Some s' -> p_cap s' = p_cap s.
Proof.
  destruct e; cbn [p_step]; repeat match goal with |- context [match ?x with _ => _ end] => destruct x end;
    try discriminate; intros [= <-]; reflexivity.
Qed.
Lemma step_bound n s e s' : bound_inv n s -> step s e = Some s' -> bound_inv n s'.
Proof.
  unfold bound_inv. intros B H. rewrite (step_cap _ _ _ H). destruct (p_cap s) as [c|] eqn:C; [|exact I].
  destruct e as [a|h ok|h v|h|h]; cbn [p_step] in H.
  - destruct (p_queue s); injection H as <-; cbn [p_queue length] in *; lia.
  - destruct (nth_error (p_handles s) h) as [[[[i v]|] a| | |]|] eqn:N; try discriminate; injection H as <-;
      destruct ok; exact B.
  - destruct (nth_error (p_handles s) h) as [[|[i w]| |]|] eqn:N; try discriminate; injection H as <-; exact B.
  - destruct (nth_error (p_handles s) h) as [[|o| |]|] eqn:N; try discriminate. rewrite C in H.
    destruct (Nat.ltb_spec (length (p_queue s)) c); injection H as <-; unfold p_set; cbn [p_queue];
      [rewrite app_length; cbn [length]; lia|exact B].
  - destruct (nth_error (p_handles s) h) as [[| |o|]|] eqn:N; try discriminate; injection H as <-; exact B.
Qed.

(** ** No needless creation *)
Definition pending (x : hstate V A) : bool := match x with Fetched None _ => true | _ => false end.
Definition pendings (s : pool) : nat := length (filter pending (p_handles s)).
Lemma filter_set_nth (f : hstate V A -> bool) x : forall l h y, nth_error l h = Some y ->
  length (filter f (set_nth h x l)) + (if f y then 1 else 0) = length (filter f l) + (if f x then 1 else 0).
Proof.
  induction l as [|z l IH]; intros [|h] y H; try discriminate.
  - injection H as ->. cbn [set_nth filter]. destruct (f x), (f y); cbn [length]; lia.
  - cbn [nth_error] in H. specialize (IH h y H). cbn [set_nth filter]. destruct (f z); cbn [length]; lia.
Qed.
(** Without capacity and failures, nothing dies; objects and pending creations are bounded by
    the peak use. *)
Definition peak_inv (n k : nat) (s : pool) : Prop :=
  p_cap s = None /\ p_dead s = [] /\ (forall o, ~ In (Dropping o) (p_handles s)) /\
  p_next s + pendings s <= max n k.
Lemma users_count s : pinv s -> p_dead s = [] -> (forall o, ~ In (Dropping o) (p_handles s)) ->
  p_next s + pendings s = length (p_queue s) + users s.
Proof.
  intros I D ND. apply Permutation_length in I. rewrite seq_length in I. unfold all_ids in I.
  rewrite D, app_nil_r, app_length, map_length in I. unfold pendings, users.
  assert (G : forall l, (forall o, ~ In (Dropping o) l) ->
    length (flat_map handle_ids l) + length (filter pending l) = length (filter in_use l)).
  { induction l as [|x l IH]; intros NDl; [reflexivity|].
    assert (NDl' : forall o, ~ In (Dropping o) l) by (intros o Ho; apply (NDl o); now right).
    specialize (IH NDl'). cbn [flat_map filter]. rewrite app_length.
    destruct x as [[o|] a|o|o|]; cbn [handle_ids pending in_use length]; try lia.
    all: exfalso; apply (NDl o); now left. }
  specialize (G _ ND). unfold obj in *. lia.
Qed.
Lemma in_set_nth {B} (x y : B) : forall l h, In y (set_nth h x l) -> y = x \/ In y l.
Proof.
  induction l as [|z l IH]; intros [|h]; cbn [set_nth In]; intros H; try tauto.
  - destruct H; auto.
  - destruct H as [H|H]; [auto|]. apply IH in H. tauto.
Qed.
Lemma step_peak n k s e s' : pinv s -> peak_inv n k s -> succeeds e -> users s' <= k ->
  step s e = Some s' -> peak_inv n k s'.
Proof.
  intros PI (C & D & ND & B) SU K H. pose proof (step_cap _ _ _ H) as C'. pose proof (step_inv _ _ _ PI H) as PI'.
  unfold peak_inv. rewrite C', C.
  enough (G : p_dead s' = [] /\ (forall o, ~ In (Dropping o) (p_handles s')) /\ p_next s' + pendings s' <= max n k) by tauto.
  assert (NS : forall (hs : list (hstate V A)) h x, (forall o, ~ In (Dropping o) hs) -> (forall o, x <> Dropping o) -> forall o, ~ In (Dropping o) (set_nth h x hs)).
  { intros hs h x Hhs Hx o Ho. apply in_set_nth in Ho. destruct Ho as [Ho|Ho]; [exact (Hx o (eq_sym Ho))|exact (Hhs o Ho)]. }
  unfold pendings in *.
  destruct e as [a|h ok|h v|h|h]; cbn [p_step] in H.
  - destruct (p_queue s) as [|o q] eqn:Q.
    + assert (HH := H). injection HH as HH.
      assert (D' : p_dead s' = []) by (rewrite <- HH; exact D).
      assert (ND' : forall o, ~ In (Dropping o) (p_handles s')).
      { rewrite <- HH. cbn [p_handles]. intros o Ho. apply in_app_iff in Ho. destruct Ho as [Ho|[Ho|[]]]; [exact (ND o Ho)|discriminate]. }
      split; [assumption|]. split; [assumption|].
      pose proof (users_count s' PI' D' ND') as U. unfold pendings in U.
      assert (Q' : p_queue s' = []) by (rewrite <- HH; reflexivity). rewrite Q' in U. cbn [length] in U. lia.
    + injection H as <-. cbn [p_dead p_handles p_next]. split; [assumption|]. split.
      * intros x Hx. apply in_app_iff in Hx. destruct Hx as [Hx|[Hx|[]]]; [exact (ND x Hx)|discriminate].
      * rewrite filter_app, app_length. cbn [filter pending length]. lia.
  - destruct ok; [|contradiction].
    destruct (nth_error (p_handles s) h) as [[[[i v]|] a| | |]|] eqn:N; try discriminate; injection H as <-;
      unfold p_set; cbn [p_dead p_handles p_next]; (split; [assumption|]); (split; [apply NS; [assumption|discriminate]|]).
    + pose proof (filter_set_nth pending (Held (i, modify v a)) _ _ _ N) as F. cbn [pending] in F. lia.
    + pose proof (filter_set_nth pending (Held (p_next s, create a)) _ _ _ N) as F. cbn [pending] in F. lia.
  - destruct (nth_error (p_handles s) h) as [[|[i w]| |]|] eqn:N; try discriminate; injection H as <-;
      unfold p_set; cbn [p_dead p_handles p_next]; (split; [assumption|]); (split; [apply NS; [assumption|discriminate]|]).
    pose proof (filter_set_nth pending (Held (i, v)) _ _ _ N) as F. cbn [pending] in F. lia.
  - destruct (nth_error (p_handles s) h) as [[|o| |]|] eqn:N; try discriminate. rewrite C in H. injection H as <-;
      unfold p_set; cbn [p_dead p_handles p_next]; (split; [assumption|]); (split; [apply NS; [assumption|discriminate]|]).
    pose proof (filter_set_nth pending Gone _ _ _ N) as F. cbn [pending] in F. lia.
  - destruct (nth_error (p_handles s) h) as [[| |o|]|] eqn:N; try discriminate.
    exfalso. apply (ND o). eapply nth_error_In; eauto.
Qed.
Lemma run_peak n k : forall es s s', pinv s -> peak_inv n k s -> Forall succeeds es ->
  Forall (fun x => users x <= k) (states create modify s es) -> run s es = Some s' -> peak_inv n k s'.
Proof.
  induction es as [|e es IH]; intros s s' PI P F U R; cbn [p_run states] in *; [congruence|].
  destruct (step s e) as [s1|] eqn:E; [|discriminate].
  inversion F; subst. inversion U as [|? ? _ U1]; subst.
  apply (IH s1 s'); auto; [exact (step_inv _ _ _ PI E)|].
  apply (step_peak n k s e s1); auto. destruct es; cbn [states] in U1; inversion U1; auto.
Qed.
Lemma new_peak a n k : peak_inv n k (pool_new create a n None).
Proof.
  unfold peak_inv, pool_new, pendings. cbn [p_cap p_dead p_handles p_next filter length In].
  repeat split; auto. lia.
Qed.
End Proofs.
