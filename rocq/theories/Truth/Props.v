(** C114 and C115: ground truth of the tools. *)
From Verif.Lib Require Import Base F32 Bytes.
From Verif.Queue Require Import Model.
From Verif.Truth Require Import Model Spec Proofs Proofs2.
Require Import Coq.Sorting.Sorted.
Local Open Scope nat_scope.

(** The queue of every query ends up with the [recall_at] closest of all points its filter lets
    pass, for every batch size; the ids are positions in the rest of the base data followed by the
    inserted data. *)
Theorem C114_exact {V A} dist batch (base : list (V * A)) queries k inserts skip bitmaps :
  0 < batch -> 0 < k -> small (length base + length inserts) -> filtered bitmaps queries ->
  exists qs, compute dist batch base queries k inserts skip bitmaps = Some (qs, map snd (skipn skip base)) /\ length qs = length queries /\
    forall qi query, nth_error queries qi = Some query ->
    exists q best, nth_error qs qi = Some q /\ pq_iter q = Some best /\ drain (S (q_size q)) q = Some best /\
      nearest k (filter number (points dist (filter_of bitmaps qi) query (map fst (skipn skip base) ++ map fst inserts))) best.
Proof.
  intros HB HK HS HF. unfold compute. set (data := skipn skip base). assert (LD : length data <= length base) by (unfold data; rewrite skipn_length; lia).
  assert (LQ : match bitmaps with None => True | Some bs => length (map (fun v => (v, pq_new k)) queries) <= length bs end) by (unfold filtered in HF; destruct bitmaps; [now rewrite map_length|exact I]).
  assert (CC : concat (chunks (length data) batch (map fst data)) = map fst data) by (apply chunks_concat; [exact HB|now rewrite map_length]).
  destruct (scan_batches_ok dist bitmaps k HK (chunks (length data) batch (map fst data)) [] (map (fun v => (v, pq_new k)) queries)) as (q1 & E1 & E2 & E3).
  - rewrite CC, map_length. cbn [length]. unfold small in *. lia.
  - exact LQ.
  - generalize 0. clear. induction queries as [|v queries IH]; intros n; cbn [map indexed]; [exact I|]. split; [reflexivity|apply IH].
  - cbn [length app] in E1, E3. rewrite E1, CC. rewrite CC in E3.
    destruct (scan_inserts_ok dist bitmaps k HK (map fst inserts) (map fst data) q1) as (q2 & F1 & F2 & F3).
    + rewrite !map_length. unfold small in *. lia.
    + now rewrite (len_fst _ _ E2).
    + exact E3.
    + rewrite F1. assert (EQ : map fst q2 = queries) by (rewrite F2, E2, map_map; cbn; apply map_id). exists (map snd q2). split; [reflexivity|]. split; [rewrite map_length, <- EQ; now rewrite map_length|].
      intros qi query HQ. rewrite <- EQ, nth_error_map in HQ. destruct (nth_error q2 qi) as [p|] eqn:EP; [|discriminate]. cbn in HQ. injection HQ as <-.
      pose proof (indexed_nth _ q2 0 qi p F3 EP) as U. cbn [Nat.add] in U. unfold upto in U. destruct (ins_all_nearest k _ _ HK U) as (best & B1 & B2). exists (snd p), best. rewrite nth_error_map, EP. split; [reflexivity|]. split; [exact B1|]. split; [exact (drain_iter k _ _ best HK U B1)|exact B2].
Qed.
Print Assumptions C114_exact.

(** The range version returns the points within the radius that the filter lets pass, in order. *)
Theorem C114_range {V A} dist batch (base : list (V * A)) queries radius bitmaps :
  0 < batch -> small (length base) -> filtered bitmaps queries ->
  exists rs, compute_range dist batch base queries radius bitmaps = Some rs /\ length rs = length queries /\
    forall qi query, nth_error queries qi = Some query ->
      nth_error rs qi = Some (filter (fun x => f32_le (n_dist x) radius) (points dist (filter_of bitmaps qi) query (map fst base))).
Proof.
  intros HB HS HF. unfold compute_range.
  assert (LQ : match bitmaps with None => True | Some bs => length (map (fun v => (v, @nil nbr)) queries) <= length bs end) by (unfold filtered in HF; destruct bitmaps; [now rewrite map_length|exact I]).
  assert (CC : concat (chunks (length base) batch (map fst base)) = map fst base) by (apply chunks_concat; [exact HB|now rewrite map_length]).
  destruct (rscan_batches_ok dist bitmaps radius (chunks (length base) batch (map fst base)) [] (map (fun v => (v, [])) queries)) as (q1 & E1 & E2 & E3).
  - rewrite CC, map_length. cbn [length]. exact HS.
  - exact LQ.
  - generalize 0. clear. induction queries as [|v queries IH]; intros n; cbn [map indexed]; [exact I|]. split; [reflexivity|apply IH].
  - cbn [length app] in E1, E3. rewrite E1. rewrite CC in E3. assert (EQ : map fst q1 = queries) by (rewrite E2, map_map; cbn; apply map_id). exists (map snd q1). split; [reflexivity|]. split; [rewrite map_length, <- EQ; now rewrite map_length|].
    intros qi query HQ. rewrite <- EQ, nth_error_map in HQ. destruct (nth_error q1 qi) as [p|] eqn:EP; [|discriminate]. cbn in HQ. injection HQ as <-. pose proof (indexed_nth _ q1 0 qi p E3 EP) as U. cbn [Nat.add] in U. rewrite nth_error_map, EP. cbn [option_map]. now rewrite U.
Qed.
Print Assumptions C114_range.

(** With skipped base points the ids are not the rows of the base file. *)
Theorem C114_skip_refuted : exists (base : list (nat * unit)) qs q best x,
  compute (fun a b => N.of_nat (a + b)) 2 base [0] 1 [] 2 None = Some (qs, [tt; tt]) /\ nth_error qs 0 = Some q /\ pq_iter q = Some best /\ In x best /\
  forall v, nth_error base (n_id x) = Some (v, tt) -> n_dist x <> N.of_nat (v + 0).
Proof.
  exists [(7, tt); (8, tt); (4, tt); (5, tt)]. do 4 eexists. split; [vm_compute; reflexivity|]. split; [reflexivity|]. split; [vm_compute; reflexivity|]. split; [left; reflexivity|]. intros v H. vm_compute in H. injection H as <-. discriminate.
Qed.
Print Assumptions C114_skip_refuted.

(** Five base points of which one is skipped, one inserted point, two queries with filters, batches of two. *)
Definition gap (a b : nat) : N := N.of_nat (if a <? b then b - a else a - b).
Example C114_example :
  option_map (fun r => map pq_iter (fst r)) (compute gap 2 (map (fun n => (n, tt)) [30; 3; 12; 8; 20]) [10; 25] 3 [(11, tt)] 1 (Some [Nat.even; fun i => i <? 10]))
    = Some [Some [mkNbr 4 1%N; mkNbr 2 2%N; mkNbr 0 7%N]; Some [mkNbr 3 5%N; mkNbr 1 13%N; mkNbr 4 14%N]].
Proof. vm_compute. reflexivity. Qed.
Example C114_meets : 0 < 2 /\ 0 < 3 /\ small (length (map (fun n => (n, tt)) [30; 3; 12; 8; 20]) + length [(11, tt)]) /\ filtered (Some [Nat.even; fun i => i <? 10]) [10; 25].
Proof. split; [lia|]. split; [lia|]. split; [reflexivity|cbn; lia]. Qed.

(** ** Files *)
(** Ground truth with [k] entries for every query is written, and both readers get it back. *)
Theorem C115_round_trip {A} (serialize : A -> option bytes) qs bests k :
  small (length qs) -> small k -> Forall2 (fun q best => drain (S (q_size q)) q = Some best) qs bests -> Forall (fun best => length best = k) bests ->
  Forall (fun x => small (n_id x) /\ (n_dist x < 2 ^ 32)%N) (concat bests) ->
  exists file, write_gt serialize (length qs) k qs None = ROk file /\
    load_truthset file = ROk (map (fun x => N.of_nat (n_id x)) (concat bests), Some (map n_dist (concat bests)), length qs, k) /\
    load_groundtruth file None = ROk (map (map (fun x => N.of_nat (n_id x))) bests) /\
    forall j, load_groundtruth file (Some j) = if k <? j then RErr else ROk (map (map (fun x => N.of_nat (n_id x))) bests).
Proof.
  intros H1 H2 H3 H4 H5. destruct (gt_file serialize qs bests k H1 H2 H3 H4) as (b & E1 & E2 & E3).
  - eapply Forall_impl; [|exact H5]. intros x X. exact X.
  - exists b. split; [exact E1|]. split; [exact E2|]. split; [exact (E3 None)|]. intros j. exact (E3 (Some j)).
Qed.
Print Assumptions C115_round_trip.
(** Computed, written and read back: the rows are the ids of the closest points of each query. *)
Theorem C115_end_to_end {V A} dist batch (base : list (V * A)) queries k inserts skip (serialize : A -> option bytes) :
  0 < batch -> 0 < k -> small k -> small (length base + length inserts) -> small (length queries) -> (forall x y, (dist x y < 2 ^ 32)%N) ->
  (forall query, In query queries -> k <= length (filter number (points dist (fun _ => true) query (map fst (skipn skip base) ++ map fst inserts)))) ->
  exists qs assoc file rs, compute dist batch base queries k inserts skip None = Some (qs, assoc) /\ write_gt serialize (length queries) k qs None = ROk file /\ load_groundtruth file (Some k) = ROk rs /\
    Forall2 (fun query row => exists best, row = map (fun x => N.of_nat (n_id x)) best /\ nearest k (filter number (points dist (fun _ => true) query (map fst (skipn skip base) ++ map fst inserts))) best) queries rs.
Proof.
  intros HB HK SK HS SQ HD HP. destruct (C114_exact dist batch base queries k inserts skip None HB HK HS I) as (qs & EC & LQ & H). set (data := map fst (skipn skip base) ++ map fst inserts) in *.
  assert (exists bests, Forall2 (fun q best => drain (S (q_size q)) q = Some best) qs bests /\ Forall2 (fun query best => nearest k (filter number (points dist (fun _ => true) query data)) best) queries bests) as (bests & B1 & B2).
  { clear EC HP SQ. revert qs LQ H. induction queries as [|v queries IH]; intros [|q qs] LQ H; try discriminate; [exists []; split; constructor|]. destruct (IH qs) as (bests & B1 & B2); [cbn in LQ; lia|intros qi query E; exact (H (S qi) query E)|]. destruct (H 0 v eq_refl) as (q' & best & Q1 & _ & Q2 & Q3). cbn in Q1. injection Q1 as <-. exists (best :: bests). split; constructor; assumption. }
  assert (LB : Forall (fun b => length b = k) bests). { clear -B2 HP. induction B2 as [|v b queries bests H _ IH]; constructor; [destruct H as (_ & -> & _); apply Nat.min_l, HP; now left|apply IH; intros u U; apply HP; now right]. }
  assert (FX : Forall (fun x => small (n_id x) /\ (n_dist x < 2 ^ 32)%N) (concat bests)).
  { apply Forall_forall. intros x X. apply in_concat in X as (b & B & X). clear -B2 B X HD HS. induction B2 as [|v b' queries bests H _ IH]; [elim B|]. destruct B as [->|B]; [|now apply IH]. destruct H as (_ & _ & others & P & _).
    assert (IX : In x (filter number (points dist (fun _ => true) v data))) by (apply (Permutation_in x (Permutation_sym P)), in_app_iff; now left). apply filter_In in IX as [IX _]. unfold points in IX. apply in_map_iff in IX as ([i y] & <- & I). cbn [n_id n_dist fst snd]. split; [|apply HD]. apply filter_In in I as [I _]. apply in_combine_l, in_seq in I.
    unfold data in I. rewrite app_length, !map_length, skipn_length in I. unfold small in *. lia. }
  destruct (C115_round_trip serialize qs bests k) as (file & W1 & _ & _ & W3); [unfold small in *; lia|exact SK|exact B1|exact LB|exact FX|].
  exists qs, (map snd (skipn skip base)), file, (map (map (fun x => N.of_nat (n_id x))) bests). split; [exact EC|]. split; [rewrite <- LQ; exact W1|]. split; [rewrite W3, Nat.ltb_irrefl; reflexivity|]. clear -B2. induction B2 as [|v b queries bests H _ IH]; cbn [map]; constructor; [now exists b|exact IH].
Qed.
Print Assumptions C115_end_to_end.
(** Lists of any lengths are written in the range format, and both readers get them back. *)
Theorem C115_range_round_trip (gt : list (list nbr)) :
  small (length gt) -> small (length (concat gt)) -> Forall (Forall (fun x => small (n_id x))) gt ->
  exists file, write_range (length gt) gt = ROk file /\ load_range file = ROk (map (map (fun x => N.of_nat (n_id x))) gt) /\
    load_range_groundtruth file = ROk (map (map (fun x => N.of_nat (n_id x))) gt).
Proof. exact (range_file gt). Qed.
Print Assumptions C115_range_round_trip.
(** Fewer points than neighbours asked for: the tool panics when it writes. *)
Theorem C115_few_refuted : exists (base : list (nat * unit)) qs,
  compute (fun a b => N.of_nat (a + b)) 10 base [0] 3 [] 0 None = Some (qs, [tt; tt]) /\ forall serialize : unit -> option bytes, write_gt serialize 1 3 qs None = RPanic.
Proof. exists [(1, tt); (2, tt)]. eexists. split; [vm_compute; reflexivity|]. intros s. vm_compute. reflexivity. Qed.
Print Assumptions C115_few_refuted.
(** Inserted points have no associated data: the tool panics when one of them is a neighbour. *)
Theorem C115_inserted_refuted : exists (base : list (nat * nat)) qs assoc,
  compute (fun a b => N.of_nat (a + b)) 10 base [0] 1 [(1, 50)] 0 None = Some (qs, assoc) /\ assoc = [40] /\ forall serialize, write_gt serialize 1 1 qs (Some assoc) = RPanic.
Proof. exists [(2, 40)]. do 2 eexists. split; [vm_compute; reflexivity|]. split; [reflexivity|]. intros s. vm_compute. reflexivity. Qed.
Print Assumptions C115_inserted_refuted.
Example C115_example :
  match compute gap 2 (map (fun n => (n, tt)) [30; 3; 12; 8; 20]) [10; 25] 3 [(11, tt)] 1 None with
  | Some (qs, _) => match write_gt (fun _ : unit => None) 2 3 qs None with ROk f => load_groundtruth f (Some 2) | _ => RErr end
  | None => RPanic
  end = ROk [[4%N; 2%N; 1%N]; [3%N; 1%N; 4%N]].
Proof. vm_compute. reflexivity. Qed.
Example C115_meets : forall query, In query [10; 25] ->
  3 <= length (filter number (points gap (fun _ => true) query (map fst (skipn 1 (map (fun n => (n, tt)) [30; 3; 12; 8; 20])) ++ map fst [(11, tt)]))).
Proof. intros q [<-|[<-|[]]]; vm_compute; lia. Qed.
Example C115_range_example :
  match write_range 3 [[mkNbr 7 1%N; mkNbr 300 2%N]; []; [mkNbr 70000 5%N]] with ROk f => load_range f | _ => RErr end = ROk [[7%N; 300%N]; []; [70000%N]].
Proof. reflexivity. Qed.
