(** C122: multi-vector scores are those of the double loop over the vectors. *)
From Coq Require Import List PeanoNat Bool Lia ZArith.
From Verif.Lib Require Import Base Lists.
From Verif.Simd Require Import Model.
From Verif.Pq Require Import Model Proofs.
From Verif.MultiVec Require Import Model Spec Proofs Proofs2.
Import ListNotations.

(** For every panel shape, cache budget, query and document of equal dimension, the tiled kernel
    stays inside its buffers, ends, and gives each query vector the negated greatest inner product. *)
Theorem C122_scores {T F} (o : mops T F) A B bytes l2_a l1_b query doc scores :
  0 < A -> 1 <= B <= 4 -> orderly o -> whole query -> whole doc -> m_cols query = m_cols doc -> length scores = m_rows query -> 0 < m_rows doc ->
  compute_prepared o A B bytes l2_a l1_b query doc scores = Some (Some (map (fun q => mneg o (best o q (vectors doc))) (vectors query))).
Proof. intros HA HB HO HQ HD HC HS HR. now apply prepared_ok. Qed.
Print Assumptions C122_scores.

(** What [best] is when the maximum comes from an order: the inner product of one of the documents,
    and no document has a greater one. *)
Theorem C122_best {T F} (o : mops T F) (le : F -> F -> Prop) q ds :
  (forall a b c, le a b -> le b c -> le a c) -> (forall a b, le a (mmax o a b) /\ le b (mmax o a b) /\ (mmax o a b = a \/ mmax o a b = b)) ->
  ds <> [] -> (forall d, In d ds -> mmax o (lowest o) (inner o q d) = inner o q d) ->
  (exists d, In d ds /\ best o q ds = inner o q d) /\ forall d, In d ds -> le (inner o q d) (best o q ds).
Proof.
  intros TR MX. unfold best.
  assert (K : forall ds z, (fold_left (mmax o) (map (inner o q) ds) z = z \/ exists d, In d ds /\ fold_left (mmax o) (map (inner o q) ds) z = inner o q d) /\
    (le z (fold_left (mmax o) (map (inner o q) ds) z) \/ ds = []) /\ forall d, In d ds -> le (inner o q d) (fold_left (mmax o) (map (inner o q) ds) z)).
  { induction ds0 as [|d ds0 IH]; intros z; cbn [map fold_left]; [split; [now left|split; [now right|intros ? []]]|].
    destruct (IH (mmax o z (inner o q d))) as (H1 & H2 & H3). destruct (MX z (inner o q d)) as (M1 & M2 & M3).
    assert (L : le (mmax o z (inner o q d)) (fold_left (mmax o) (map (inner o q) ds0) (mmax o z (inner o q d)))).
    { destruct H2 as [H2 | ->]; [exact H2|]. cbn [map fold_left]. set (m := mmax o z (inner o q d)) in *. destruct M3 as [M3|M3]; [rewrite M3 in *; exact M1|rewrite M3 in *; exact M2]. }
    split; [|split].
    - destruct H1 as [H1|(e & E1 & E2)]; [|right; exists e; split; [now right|exact E2]]. rewrite H1. destruct M3 as [M3|M3]; [now left|right; exists d; split; [now left|exact M3]].
    - left. eapply TR; [exact M1|exact L].
    - intros e [<-|I]; [eapply TR; [exact M2|exact L]|now apply H3]. }
  intros NE LO. destruct ds as [|d ds]; [congruence|]. cbn [map fold_left]. rewrite (LO d (or_introl eq_refl)).
  destruct (K ds (inner o q d)) as (H1 & H2 & H3). split.
  - destruct H1 as [H1|(e & E1 & E2)]; [exists d; split; [now left|exact H1]|exists e; split; [now right|exact E2]].
  - intros e [<-|I]; [|now apply H3]. destruct H2 as [H2 | ->]; [exact H2|]. cbn [map fold_left]. destruct (MX (inner o q d) (inner o q d)) as (M1 & _ & [M3|M3]); rewrite M3 in M1; exact M1.
Qed.
Print Assumptions C122_best.

(** The other outcomes, for both kernels: a buffer of the wrong length is an error, no documents give
    the greatest distance everywhere, and (tiled kernel) different dimensions panic. *)
Theorem C122_errors {T F} (o : mops T F) ip A B bytes l2_a l1_b query doc scores :
  0 < A -> whole query ->
  (length scores <> m_rows query -> compute_prepared o A B bytes l2_a l1_b query doc scores = Some None /\ compute_reference o ip query doc scores = Some None) /\
  (length scores = m_rows query -> m_rows doc = 0 ->
     compute_prepared o A B bytes l2_a l1_b query doc scores = Some (Some (repeat (highest o) (m_rows query))) /\
     compute_reference o ip query doc scores = Some (Some (repeat (highest o) (m_rows query)))) /\
  (length scores = m_rows query -> m_rows doc <> 0 -> m_cols query <> m_cols doc -> compute_prepared o A B bytes l2_a l1_b query doc scores = None).
Proof.
  intros HA HQ. unfold compute_prepared, compute_reference. rewrite bt_from_eq by (assumption || lia || now apply dense_ok). cbn [bind]. split; [|split].
  - intros L. rewrite (proj2 (Nat.eqb_neq _ _) L). cbn [negb]. auto.
  - intros L R. rewrite L, R, !Nat.eqb_refl. cbn [negb].
    assert (E : map (fun _ : F => highest o) scores = repeat (highest o) (m_rows query)) by (rewrite <- L; clear; induction scores as [|x l IH]; cbn; [|rewrite IH]; reflexivity). rewrite E. auto.
  - intros L R C. rewrite L, Nat.eqb_refl. cbn [negb]. rewrite (proj2 (Nat.eqb_neq _ _) R). unfold max_ip_kernel. cbv zeta. rewrite repeat_length, Nat.eqb_refl, (proj2 (Nat.eqb_neq _ _) C). reflexivity.
Qed.
Print Assumptions C122_errors.

(** The reference kernel and the tiled kernel agree whenever negation turns the maximum into the
    minimum and the distance of two vectors is the negated inner product. *)
Theorem C122_reference {T F} (o : mops T F) ip A B bytes l2_a l1_b query doc scores :
  0 < A -> 1 <= B <= 4 -> orderly o -> whole query -> whole doc -> m_cols query = m_cols doc ->
  (forall a b, mneg o (mmax o a b) = mmin o (mneg o a) (mneg o b)) -> mneg o (lowest o) = highest o ->
  (forall q d, In q (vectors query) -> In d (vectors doc) -> ip q d = mneg o (inner o q d)) ->
  compute_reference o ip query doc scores = compute_prepared o A B bytes l2_a l1_b query doc scores.
Proof.
  intros HA HB HO HQ HD HC DU EN HI. destruct (C122_errors o ip A B bytes l2_a l1_b query doc scores HA HQ) as (E1 & E2 & _).
  destruct (Nat.eq_dec (length scores) (m_rows query)) as [L|L]; [|destruct (E1 L); congruence].
  destruct (Nat.eq_dec (m_rows doc) 0) as [R|R]; [destruct (E2 L R); congruence|].
  rewrite C122_scores by (assumption || lia). unfold compute_reference, max_sim, max_sim_kernel. rewrite L, Nat.eqb_refl. cbn [negb]. rewrite (proj2 (Nat.eqb_neq _ _) R).
  rewrite !rows_vectors by assumption. cbn [bind]. do 2 f_equal. apply map_ext_in. intros q Q. apply min_best; [exact DU|exact EN|]. intros d D. now apply HI.
Qed.
Print Assumptions C122_reference.

(** The Chamfer distance is the sum of the scores, and zero when there are no documents. *)
Theorem C122_chamfer {T F} (o : mops T F) ip query doc : whole query -> whole doc ->
  (m_rows doc = 0 -> chamfer o ip query doc = Some (mzero o)) /\
  (m_rows doc <> 0 -> exists scores, length scores = m_rows query /\ (forall old, length old = m_rows query -> max_sim o ip query doc old = Some (Some scores)) /\
     chamfer o ip query doc = Some (fold_left (msum o) scores (mzero o))).
Proof.
  intros HQ HD. unfold chamfer, max_sim, max_sim_kernel. split; intros R; [now rewrite R|]. rewrite (proj2 (Nat.eqb_neq _ _) R), !rows_vectors by assumption. cbn [bind].
  eexists. split; [|split; [|reflexivity]].
  - unfold vectors. now rewrite !map_length, seq_length.
  - intros old L. now rewrite L, Nat.eqb_refl.
Qed.
Print Assumptions C122_chamfer.

(** Without documents [MaxSim::evaluate] reports success and leaves whatever the buffer held, where
    [compute_max_sim] fills it with the greatest distance. *)
Theorem C122_stale_refuted {T F} (o : mops T F) ip query doc old :
  m_rows doc = 0 -> length old = m_rows query -> max_sim o ip query doc old = Some (Some old).
Proof. intros R L. unfold max_sim, max_sim_kernel. rewrite L, R, !Nat.eqb_refl. reflexivity. Qed.
Print Assumptions C122_stale_refuted.

(** Integers; panels of two rows, blocks of two documents, budgets so small that every tile is one panel. *)
Definition zops : mops Z Z := mkO Z Z (fun x => x) 0%Z 0%Z (fun x y s => x * y + s)%Z Z.max Z.min Z.opp Z.add (-1000)%Z 1000%Z.
Definition zq : matrix Z := mkM [1; 2; 3; -1; 0; 4; 2; -5; 1]%Z 3 3.
Definition zd : matrix Z := mkM [1; 0; 0; 0; 1; 0; -2; -2; 5; 3; 3; -3; 0; -1; 2]%Z 5 3.
Example C122_example :
  compute_prepared zops 2 2 4 1 1 zq zd [0; 0; 0]%Z = Some (Some [-9; -22; -11]%Z) /\
  compute_prepared zops 8 4 4 1000 1000 zq zd [0; 0; 0]%Z = Some (Some [-9; -22; -11]%Z) /\
  compute_reference zops (fun q d => Z.opp (inner zops q d)) zq zd [7; 7; 7]%Z = Some (Some [-9; -22; -11]%Z) /\
  chamfer zops (fun q d => Z.opp (inner zops q d)) zq zd = Some (-42)%Z /\
  max_sim zops (fun q d => Z.opp (inner zops q d)) zq (mkM [] 0 3) [7; 7; 7]%Z = Some (Some [7; 7; 7]%Z) /\
  orderly zops /\ whole zq /\ whole zd.
Proof. repeat (split; [vm_compute; reflexivity|]). split; [|split; reflexivity]. split; [|split; reflexivity]. cbn. intros. symmetry. apply Z.max_assoc. Qed.
