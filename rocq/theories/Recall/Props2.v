(** C116: the recall of the tools and of the disk benchmark. *)
From Coq Require Import List PeanoNat Bool QArith Qcanon Lia.
From Verif.Recall Require Import Model Model2 Spec Spec2 Proofs Proofs2 Proofs3 Proofs4.
Import ListNotations.
Local Open Scope nat_scope.

(** With enough columns in both tables the recall is 100 times the mean over the queries of hits over [k]. *)
Theorem C116_recall {A F} (eqb : A -> A -> bool) (deq : F -> F -> bool) nq gts gds dim ress dimr k n :
  decides eqb -> 0 < nq -> 0 < k -> k <= dim -> n <= dimr -> table nq dim gts -> table nq dimr ress -> match gds with Some ds => table nq dim ds | None => True end ->
  exists hs, Forall2 (fun i h => scored deq (nth i gts []) (at_query gds i) (nth i ress []) k n k h) (seq 0 nq) hs /\
    recall_exact eqb deq nq (concat gts) (option_map (@concat F) gds) dim (concat ress) dimr k n = Some (qnat 100 * mean_recall (map (fun h => (k, h)) hs))%Qc.
Proof.
  intros HE HQ HK HD HN [LG FG] [LR FR] HG. unfold recall_exact, calculate_recall.
  destruct (total_ok (tool_query eqb deq (concat gts) (option_map (@concat F) gds) dim (concat ress) dimr k n) (fun i h => scored deq (nth i gts []) (at_query gds i) (nth i ress []) k n k h) (seq 0 nq)) as (hs & E & F2).
  - intros i I. apply in_seq in I. apply (tool_query_hits eqb HE deq gts gds ress dim dimr k n i (nth i gts []) (nth i ress []) HK HD HN FG FR); [|apply nth_error_nth'; lia..]. destruct gds as [ds|]; [|exact Logic.I]. destruct HG as [H1 H2]. split; [lia|exact H2].
  - exists hs. split; [exact F2|]. rewrite E. f_equal. assert (L : length hs = nq) by (apply Forall2_same in F2; rewrite seq_length in F2; lia). rewrite <- L. apply sum_mean; [intros ->; cbn in L; lia|lia].
Qed.
Print Assumptions C116_recall.
(** The filtered recall is the mean of the queries' percentages. *)
Theorem C116_filtered {A F} (eqb : A -> A -> bool) (deq : F -> F -> bool) nq (gds : option (list (list F))) (gts ress : list (list A)) k :
  decides eqb -> 0 < k -> length gts = nq -> length ress = nq -> match gds with Some ds => map (@length F) ds = map (@length A) gts | None => True end ->
  exists ps, Forall2 (fun i p => share_of deq (nth i gts []) (at_query gds i) (nth i ress []) k p) (seq 0 nq) ps /\
    filtered_exact eqb deq nq gds gts ress k = Some (Some (qsum ps / qnat nq)%Qc).
Proof.
  intros HE HK LG LR HG. unfold filtered_exact, calculate_filtered. destruct (Nat.eqb_spec k 0); [lia|]. rewrite LG, LR, Nat.eqb_refl. cbn [negb orb].
  destruct (filtered_sum_ok (filtered_query eqb deq gds gts ress k) (fun i p => share_of deq (nth i gts []) (at_query gds i) (nth i ress []) k p) (seq 0 nq) (Q2Qc 0)) as (ps & E & F2).
  - intros i I. apply in_seq in I. apply filtered_query_ok; try assumption; apply nth_error_nth'; lia.
  - exists ps. split; [exact F2|]. rewrite E. cbn [option_map]. do 2 f_equal. f_equal. ring.
Qed.
Print Assumptions C116_filtered.
(** Every percentage is at most 100, so the mean is. *)
Theorem C116_share {A F} (deq : F -> F -> bool) (gt : list A) (dist : option (list F)) result k p : share_of deq gt dist result k p -> (Q2Qc 0 <= p /\ p <= qnat 100)%Qc.
Proof.
  intros [[_ ->]|(HK & l & d & [N1 I1] & [N2 I2] & ->)].
  - split; [rewrite <- qnat_0|apply Qcle_refl]. apply qnat_le. lia.
  - set (k' := Nat.min k (length gt)) in *. set (m := Nat.max k' (length d)). assert (LM : length l <= m) by (unfold m; transitivity (length d); [|lia]; apply NoDup_incl_length; [exact N1|]; intros a I; apply I2, I1, I). assert (MN : m <> 0) by lia.
    assert (Q100 : quotient (100 * m) m = qnat 100) by (unfold quotient; rewrite qnat_mult; field; now apply qnat_nz).
    split; [rewrite <- (quotient_0 m)|rewrite <- Q100]; apply quotient_le; lia.
Qed.
Print Assumptions C116_share.
(** What is rejected. *)
Theorem C116_rejected {A F} (eqb : A -> A -> bool) (deq : F -> F -> bool) nq (gds : option (list (list F))) (gts ress : list (list A)) k :
  k = 0 \/ length gts <> nq \/ length ress <> nq -> filtered_exact eqb deq nq gds gts ress k = Some None.
Proof.
  intros H. unfold filtered_exact, calculate_filtered. destruct (Nat.eqb_spec k 0) as [|K]; [reflexivity|]. destruct (Nat.eqb_spec (length gts) nq) as [G|G]; [|reflexivity]. destruct (Nat.eqb_spec (length ress) nq) as [R|R]; [|reflexivity]. tauto.
Qed.
Print Assumptions C116_rejected.
(** The disk benchmark pads short results with id 0, which then counts as found. *)
Theorem C116_padding_refuted : disk_exact (F := unit) Nat.eqb (fun _ _ => true) 0 2 [0; 7; 0; 3] None 2 [[]; []] = Some (qnat 50).
Proof. reflexivity. Qed.
Print Assumptions C116_padding_refuted.
(** With filters it is not: the padding is cut off. *)
Theorem C116_disk_filtered {A} (eqb : A -> A -> bool) recall_at (gts found : list (list A)) :
  decides eqb -> 0 < recall_at -> length gts = length found ->
  exists ps, Forall2 (fun i p => share_of (F := unit) (fun _ _ => true) (nth i gts []) None (firstn recall_at (nth i found [])) recall_at p) (seq 0 (length found)) ps /\
    disk_filtered_exact eqb recall_at gts found = Some (Some (qsum ps / qnat (length found))%Qc).
Proof.
  intros HE HK LG. destruct (C116_filtered (F := unit) eqb (fun _ _ => true) (length found) None gts (map (firstn recall_at) found) recall_at HE HK LG (map_length _ _) Logic.I) as (ps & F2 & E). exists ps. split; [|exact E].
  eapply Forall2_weaken; [|exact F2]. cbn beta. intros i p H. cbn [at_query] in H. rewrite <- (map_nth (firstn recall_at) found [] i). now rewrite firstn_nil.
Qed.
Print Assumptions C116_disk_filtered.
(** Without short results the disk benchmark's recall is that of the results. *)
Theorem C116_disk {A F} (eqb : A -> A -> bool) (deq : F -> F -> bool) zero recall_at gts gds dim (found : list (list A)) :
  decides eqb -> found <> [] -> 0 < recall_at -> recall_at <= dim -> table (length found) dim gts -> Forall (fun r => recall_at <= length r) found -> match gds with Some ds => table (length found) dim ds | None => True end ->
  exists hs, Forall2 (fun i h => scored deq (nth i gts []) (at_query gds i) (nth i found []) recall_at recall_at recall_at h) (seq 0 (length found)) hs /\
    disk_exact eqb deq zero recall_at (concat gts) (option_map (@concat F) gds) dim found = Some (qnat 100 * mean_recall (map (fun h => (recall_at, h)) hs))%Qc.
Proof.
  intros HE HF HK HD TG TF TD. assert (PF : flat_map (padded zero recall_at) found = concat (map (firstn recall_at) found)).
  { clear -TF. induction TF as [|r found H _ IH]; cbn [flat_map map concat]; [reflexivity|]. rewrite IH. f_equal. unfold padded. rewrite Nat.min_r, Nat.sub_diag by exact H. apply app_nil_r. }
  destruct (C116_recall eqb deq (length found) gts gds dim (map (firstn recall_at) found) recall_at recall_at recall_at) as (hs & F2 & E); try assumption.
  - destruct found; [congruence|cbn; lia].
  - lia.
  - split; [apply map_length|]. apply Forall_forall. intros r R. apply in_map_iff in R as (x & <- & X). rewrite firstn_length. rewrite Forall_forall in TF. specialize (TF x X). lia.
  - exists hs. split; [|unfold disk_exact, disk_recall; rewrite PF; exact E]. eapply Forall2_weaken; [|exact F2]. cbn beta. intros i h (H1 & l & [N I] & H2). split; [exact H1|]. exists l. split; [|exact H2]. split; [exact N|]. intros a. rewrite I.
    replace (nth i (map (firstn recall_at) found) []) with (firstn recall_at (nth i found [])) by (rewrite <- (map_nth (firstn recall_at) found [] i), firstn_nil; reflexivity). rewrite firstn_firstn, Nat.min_id. reflexivity.
Qed.
Print Assumptions C116_disk.
(** A table of ground truth with fewer columns than [k] is not rejected: the next query's row counts, and the last query panics. *)
Theorem C116_columns_refuted :
  recall_exact (F := unit) Nat.eqb (fun _ _ => true) 1 [5; 6] None 1 [6; 9] 2 2 2 = Some (qnat 50) /\
  recall_exact (F := unit) Nat.eqb (fun _ _ => true) 2 [5; 6] None 1 [5; 9; 6; 9] 2 2 2 = None.
Proof. split; reflexivity. Qed.
Print Assumptions C116_columns_refuted.

(** Two queries, ties after the second entry, five results; and a filtered pair. *)
Example C116_example :
  recall_exact Nat.eqb Nat.eqb 2 (concat [[1; 2; 3; 4]; [5; 6; 7; 8]]) (Some (concat [[0; 3; 3; 4]; [1; 1; 1; 1]])) 4 (concat [[3; 1; 9]; [9; 9; 8]]) 3 2 3 = Some (qnat 75) /\
  filtered_exact (F := nat) Nat.eqb Nat.eqb 2 None [[5; 6]; []] [[5; 6; 7; 8]; [1]] 10 = Some (Some (qnat 75)).
Proof. split; [vm_compute; f_equal|vm_compute; do 2 f_equal]; apply Qc_is_canon; reflexivity. Qed.
Example C116_meets : table 2 4 [[1; 2; 3; 4]; [5; 6; 7; 8]] /\ table 2 3 [[3; 1; 9]; [9; 9; 8]] /\ table 2 4 [[0; 3; 3; 4]; [1; 1; 1; 1]].
Proof. unfold table. split; [|split]; (split; [reflexivity|repeat constructor]). Qed.
