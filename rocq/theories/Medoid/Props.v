(** C124: the medoid is the row nearest to the mean; start points are what the strategy says. *)
From Coq Require Import List PeanoNat Bool Lia QArith Qcanon.
From Verif.Lib Require Import Base Lists.
From Verif.Medoid Require Import Model Spec Proofs Proofs2.
Import ListNotations.
Local Open Scope nat_scope.

(** In memory: the row nearest to the mean of all, or zeros when every distance is out of range. *)
Theorem C124_memory : forall {T D F : Type} (o : ops T D F) (ok : F -> Prop) (dim : nat) (rows : list (list T)),
  ordered o ok -> 0 < dim -> Forall (fun r => length r = dim) rows ->
  exists c, is_mean o dim rows c /\
    ((exists i, nearest o ok c rows i (compute_medoid o dim rows)) \/
     (out_of_range o c rows /\ compute_medoid o dim rows = repeat (tzero o) dim)).
Proof.
  intros T D F o ok dim rows O P H. exists (mean o dim rows (length rows)). split; [now apply mean_ok|]. unfold compute_medoid. replace (dim =? 0) with false by (symmetry; apply Nat.eqb_neq; lia).
  pose proof (scan_spec o ok (mean o dim rows (length rows)) rows O) as X. destruct (snd (scan o (mean o dim rows (length rows)) rows)) as [[i r]|]; [left; now exists i|right; now split].
Qed.
Print Assumptions C124_memory.

(** From a complete file: the same row with its position, and an error exactly when there is none. *)
Theorem C124_file : forall {T D F : Type} (o : ops T D F) (ok : F -> Prop) (dim : nat) (rows : list (list T)) (c : list F),
  ordered o ok -> Forall (fun r => length r = dim) rows -> is_mean o dim rows c ->
  match find_medoid_from_file o dim (length rows) rows with
  | Some (r, i) => nearest o ok c rows i r
  | None => out_of_range o c rows
  end.
Proof.
  intros T D F o ok dim rows c O H M. assert (c = mean o dim rows (length rows)) as -> by (eapply is_mean_unique; [exact M|now apply mean_ok]).
  unfold find_medoid_from_file. destruct rows as [|r0 rows0]; [intros r []|]. set (rows := r0 :: rows0) in *.
  pose proof (scan_spec o ok (mean o dim rows (length rows)) rows O) as X. destruct (snd (scan o (mean o dim rows (length rows)) rows)) as [[i r]|]; exact X.
Qed.
Print Assumptions C124_file.

(** With sampling: of all rows, the one nearest to the mean of the sample. *)
Theorem C124_sampling : forall {T D F : Type} (o : ops T D F) (ok : F -> Prop) (dim : nat) (rows sample : list (list T)) (chosen : nat -> bool) (c : list F),
  ordered o ok -> Forall (fun r => length r = dim) rows -> sample_of chosen rows sample -> is_mean o dim sample c ->
  match find_medoid_with_sampling o dim rows chosen with
  | Some (r, i) => sample <> [] /\ nearest o ok c rows i r
  | None => sample = [] \/ out_of_range o c rows
  end.
Proof.
  intros T D F o ok dim rows sample chosen c O H Sm M. unfold find_medoid_with_sampling. assert (E : map snd (filter (fun p => chosen (fst p)) (combine (seq 0 (length rows)) rows)) = sample) by (eapply sample_unique; [apply sample_is|exact Sm]). rewrite E. clear E.
  assert (HS : Forall (fun r => length r = dim) sample).
  { destruct Sm as (is & _ & _ & P). clear - H P. induction P as [|i r is l N _ IH]; constructor; [|exact IH]. rewrite Forall_forall in H. apply H. eapply nth_error_In. exact N. }
  assert (c = mean o dim sample (length sample)) as -> by (eapply is_mean_unique; [exact M|now apply mean_ok]).
  destruct sample as [|s0 sample0]; [now left|]. set (sample := s0 :: sample0) in *. pose proof (scan_spec o ok (mean o dim sample (length sample)) rows O) as X.
  destruct (snd (scan o (mean o dim sample (length sample)) rows)) as [[i r]|]; [split; [discriminate|exact X]|right; exact X].
Qed.
Print Assumptions C124_sampling.

(** With a sample size of zero, or no less than the file, sampling changes nothing. *)
Theorem C124_all : forall {T D F : Type} (o : ops T D F) (dim max : nat) (rows : list (list T)) (draws : nat -> Qc),
  (forall i, (0 <= draws i)%Qc /\ (draws i < 1)%Qc) -> max = 0 \/ length rows <= max ->
  find_medoid_with_sampling o dim rows (sampled draws max (length rows)) = find_medoid_from_file o dim (length rows) rows.
Proof.
  intros T D F o dim max rows draws H M. unfold find_medoid_with_sampling, find_medoid_from_file. rewrite sample_all by (intros i _; apply sampled_all; [intros k; apply H|exact M]). destruct rows; reflexivity.
Qed.
Print Assumptions C124_all.

(** In exact numbers the medoid is the first row with the least sum of squared distances to all rows. *)
Theorem C124_medoid : forall (bound : Qc) (dim : nat) (rows : list (list Qc)),
  0 < dim -> rows <> [] -> Forall (fun r => length r = dim) rows ->
  (forall c r, is_mean (exact bound) dim rows c -> In r rows -> (qdist c r < bound)%Qc) ->
  In (compute_medoid (exact bound) dim rows) rows /\
  (forall r, In r rows -> (total rows (compute_medoid (exact bound) dim rows) <= total rows r)%Qc) /\
  exists i, find_medoid_from_file (exact bound) dim (length rows) rows = Some (compute_medoid (exact bound) dim rows, i) /\
    nth_error rows i = Some (compute_medoid (exact bound) dim rows) /\
    forall j r, j < i -> nth_error rows j = Some r -> (total rows (compute_medoid (exact bound) dim rows) < total rows r)%Qc.
Proof.
  intros bound dim rows P NE H B. set (c := mean (exact bound) dim rows (length rows)). assert (M : is_mean (exact bound) dim rows c) by now apply mean_ok.
  assert (LR : forall r, In r rows -> length r = dim) by (apply Forall_forall; exact H).
  pose proof (C124_file (exact bound) _ dim rows c (exact_ordered bound) H M) as X.
  assert (E : match find_medoid_from_file (exact bound) dim (length rows) rows with Some (r, i) => compute_medoid (exact bound) dim rows = r | None => True end).
  { unfold find_medoid_from_file, compute_medoid. replace (dim =? 0) with false by (symmetry; apply Nat.eqb_neq; lia). destruct rows as [|r0 rows0]; [exact Logic.I|]. set (rows := r0 :: rows0) in *. destruct (snd (scan (exact bound) (mean (exact bound) dim rows (length rows)) rows)) as [[i r]|]; [reflexivity|exact Logic.I]. }
  destruct (find_medoid_from_file (exact bound) dim (length rows) rows) as [[m i]|].
  2:{ exfalso. destruct rows as [|r0 rows0]; [congruence|]. specialize (X r0 (or_introl eq_refl)). specialize (B c r0 M (or_introl eq_refl)). cbn [exact flt dist fmax] in X. unfold qlt in X. destruct (Qclt_le_dec (qdist c r0) bound) as [|Y]; [discriminate|]. exact (Qclt_not_le _ _ B Y). }
  rewrite E. destruct X as (N & _ & A & Fi). pose proof (nth_error_In _ _ N) as IM.
  assert (Le : forall r, In r rows -> (total rows m <= total rows r)%Qc).
  { intros r R. specialize (A r R). cbn [exact flt dist] in A. unfold qlt in A. destruct (Qclt_le_dec (qdist c r) (qdist c m)) as [|Y]; [discriminate|]. apply (nearest_total bound dim rows m r H NE (LR m IM) (LR r R)). exact Y. }
  split; [exact IM|]. split; [exact Le|]. exists i. split; [reflexivity|]. split; [exact N|]. intros j r J R. specialize (Fi j r J R Logic.I). cbn [exact flt dist] in Fi. unfold qlt in Fi. destruct (Qclt_le_dec (qdist c m) (qdist c r)) as [Y|]; [|discriminate]. apply (nearer_total bound dim rows m r H NE (LR m IM) (LR r (nth_error_In _ _ R))). exact Y.
Qed.
Print Assumptions C124_medoid.

(** Start points. *)
Theorem C124_start : forall {T D F : Type} (o : ops T D F) sample random hypercube (s : strategy) (ncols : nat) (rows : list (list T)),
  samples sample -> (forall c d n l, hypercube c d n = Some l -> length l = n) ->
  match compute o sample random hypercube s ncols rows with
  | Ok l => length l = count s /\
      match s with
      | RandomSamples _ => exists is, NoDup is /\ Forall2 (fun i r => nth_error rows i = Some r) is l
      | Medoid => l = [compute_medoid o ncols rows]
      | RandomVectors n => forall i, i < n -> nth_error l i = Some (random ncols i)
      | LatinHyperCube n => hypercube ncols rows n = Some l
      | FirstVector => nth_error rows 0 = nth_error l 0
      end
  | Fail (NotEnoughTrainingData n k) =>
      n = count s /\ k = length rows /\ k < n /\ match s with RandomSamples _ | FirstVector => True | _ => False end
  | Panic => exists n, s = LatinHyperCube n /\ hypercube ncols rows n = None
  end.
Proof.
  intros T D F o sample random hypercube s ncols rows Hs Hh. destruct s as [n|n| |n|]; cbn [compute count].
  - split; [now rewrite map_length, seq_length|]. intros i I. rewrite nth_error_map, (nth_error_nth' _ 0) by (rewrite seq_length; exact I). cbn [option_map]. now rewrite seq_nth by exact I.
  - destruct (length rows <? n) eqn:E; [apply Nat.ltb_lt in E; auto|]. apply Nat.ltb_ge in E. destruct (Hs (length rows) n E) as (L & ND & A). rewrite firstn_all2 by lia. destruct (pick_ok rows _ A) as (l & -> & P).
    assert (LL : length l = n) by (rewrite <- L; clear - P; induction P; cbn; congruence). rewrite LL, Nat.sub_diag, app_nil_r. split; [exact LL|]. exists (sample (length rows) n). now split.
  - now split.
  - destruct (hypercube ncols rows n) as [l|] eqn:E; [split; [eapply Hh; exact E|reflexivity]|now exists n].
  - destruct rows as [|r rows]; cbn; auto.
Qed.
Print Assumptions C124_start.

(** The in-memory version gives zeros when no row is in range, though it is said to return a row. *)
Theorem C124_zero_refuted : ~ forall (bound : Qc) (rows : list (list Qc)), rows <> [] -> Forall (fun r => length r = 1) rows -> In (compute_medoid (exact bound) 1 rows) rows.
Proof. intros H. specialize (H (qn 100) [[- qn 20]; [qn 20]]%Qc). assert (X : In [0%Qc] [[- qn 20]; [qn 20]]%Qc) by (apply H; [discriminate|repeat constructor]). cbn in X. destruct X as [X|[X|[]]]; discriminate. Qed.
Print Assumptions C124_zero_refuted.

(** A file shorter than its header says is accepted, and the wrong row is the medoid. *)
Theorem C124_truncated_refuted : exists (rows : list (list Qc)) m, find_medoid_from_file (exact (qn 1000)) 1 30 rows = Some (m, 0) /\ exists r, In r rows /\ (total rows r < total rows m)%Qc.
Proof. exists [[qn 0]; [qn 10]; [qn 10]], [qn 0]. split; [vm_compute; reflexivity|]. exists [qn 10]. split; [right; now left|]. vm_compute. reflexivity. Qed.
Print Assumptions C124_truncated_refuted.

(** The sample may be larger than the maximum that is asked for, and it may be empty, which is an error. *)
Theorem C124_sample_refuted : exists (rows : list (list Qc)) (low high : nat -> Qc), rows <> [] /\ (forall i, (0 <= low i)%Qc /\ (low i < 1)%Qc /\ (0 <= high i)%Qc /\ (high i < 1)%Qc) /\
  sample_of (sampled low 1 (length rows)) rows rows /\ 1 < length rows /\
  find_medoid_with_sampling (exact (qn 1000)) 1 rows (sampled high 1 (length rows)) = None.
Proof.
  exists [[qn 0]; [qn 10]; [qn 10]], (fun _ => 0%Qc), (fun _ => / qn 2)%Qc. split; [discriminate|]. split; [intros _; repeat split; vm_compute; congruence|]. split; [|split; [cbn; lia|vm_compute; reflexivity]].
  pose proof (sample_is (sampled (fun _ => 0%Qc) 1 3) [[qn 0]; [qn 10]; [qn 10]]) as X. exact X.
Qed.
Print Assumptions C124_sample_refuted.

Example C124_example :
  let rows := [[qn 0; qn 0]; [qn 4; qn 0]; [qn 9; qn 3]; [qn 4; qn 0]] in
  compute_medoid (exact (qn 1000)) 2 rows = [qn 4; qn 0] /\ find_medoid_from_file (exact (qn 1000)) 2 4 rows = Some ([qn 4; qn 0], 1) /\
  is_mean (exact (qn 1000)) 2 rows [qn 17 / qn 4; qn 3 / qn 4]%Qc /\ total rows [qn 4; qn 0] = qn 50 /\ total rows [qn 0; qn 0] = qn 122 /\
  compute (exact (qn 1000)) (fun _ n => rev (seq 0 n)) (fun _ _ => []) (fun _ _ n => Some (repeat [] n)) (RandomSamples 2) 2 rows = Ok [[qn 4; qn 0]; [qn 0; qn 0]] /\
  compute (exact (qn 1000)) (fun _ n => rev (seq 0 n)) (fun _ _ => []) (fun _ _ n => Some (repeat [] n)) (RandomSamples 5) 2 rows = Fail (NotEnoughTrainingData 5 4) /\
  samples (fun _ n => rev (seq 0 n)).
Proof.
  cbv zeta. split; [vm_compute; reflexivity|]. split; [vm_compute; reflexivity|]. split.
  { split; [reflexivity|]. intros [|[|k]] K; [vm_compute; reflexivity|vm_compute; reflexivity|lia]. }
  repeat (split; [vm_compute; reflexivity|]). intros len n H. split; [now rewrite rev_length, seq_length|]. split; [apply NoDup_rev, seq_NoDup|]. apply Forall_forall. intros i I. rewrite <- in_rev in I. apply in_seq in I. lia.
Qed.
