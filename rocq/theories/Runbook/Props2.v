(** C113: streaming runs keep tags and slots together. *)
From Coq Require Import String ZArith List PeanoNat Bool Lia Arith Permutation.
From Verif.Runbook Require Import Model Spec Proofs Proofs2 Proofs3 Proofs4 Props.
Import ListNotations.
Local Open Scope nat_scope.
Local Open Scope list_scope.

(** A valid run with enough slots goes through: the index is only asked for insertions into free
    slots and for searches, replacements and deletions of filled ones; at the end the tags in use
    each have a slot of their own, which holds the vector the tag stands for. *)
Theorem C113_run {P} rows (load_groundtruth : P -> outcome (list (list nat))) policy over drain capacity stages :
  (forall l, Permutation l (drain l)) -> valid stages -> Forall proper stages -> Forall (supplied rows) stages -> truthful load_groundtruth stages -> roomy policy over capacity stages ->
  exists g, g_run rows load_groundtruth policy over drain capacity stages = Done g /\ all_legit policy (g_log g) /\
    (forall tag v, content stages tag = Some v <-> exists slot, t_slot (g_manager g) tag = Some slot /\ cells policy (g_log g) slot = Held v) /\
    (forall x y slot, t_slot (g_manager g) x = Some slot -> t_slot (g_manager g) y = Some slot -> x = y) /\
    (forall slot v, cells policy (g_log g) slot = Held v -> exists tag, t_slot (g_manager g) tag = Some slot /\ content stages tag = Some v).
Proof.
  intros HD V FP FS TR RO. destruct capacity as [|n]; [destruct RO; lia|]. unfold g_run. cbn [t_new bind].
  destruct (g_steps rows load_groundtruth policy over drain stages (S n) HD V FP FS TR RO stages [] (mkG (mkT (seq 0 n) [] (fun _ => None) (fun _ => None) (S n)) []) eq_refl) as (g & E & [HJ HN HI HL _]).
  - replace (S n - 1) with n by lia. apply start_ok.
  - exists g. split; [exact E|]. split; [exact HL|]. split; [|split].
    + intros x v. split.
      * intros C. destruct (j_slot _ _ _ _ _ _ _ HJ x v C) as (s & S). exists s. split; [exact S|]. apply (j_both _ _ _ _ _ _ _ HJ) in S. destruct (in_dec Nat.eq_dec s (t_deleted (g_manager g))) as [I|I]; [destruct (j_dead _ _ _ _ _ _ _ HJ s x S I); congruence|]. destruct (j_live _ _ _ _ _ _ _ HJ s x S I) as (w & W1 & W2). congruence.
      * intros (s & S & C). apply (j_both _ _ _ _ _ _ _ HJ) in S. destruct (in_dec Nat.eq_dec s (t_deleted (g_manager g))) as [I|I]; [destruct (j_dead _ _ _ _ _ _ _ HJ s x S I); congruence|]. destruct (j_live _ _ _ _ _ _ _ HJ s x S I) as (w & W1 & W2). congruence.
    + intros x y s A B. apply (j_both _ _ _ _ _ _ _ HJ) in A, B. congruence.
    + intros s v C. destruct (t_tag (g_manager g) s) as [x|] eqn:T; [|rewrite (j_free _ _ _ _ _ _ _ HJ s T) in C; discriminate]. exists x. split; [now apply (j_both _ _ _ _ _ _ _ HJ)|]. destruct (in_dec Nat.eq_dec s (t_deleted (g_manager g))) as [I|I]; [destruct (j_dead _ _ _ _ _ _ _ HJ s x T I); congruence|]. destruct (j_live _ _ _ _ _ _ _ HJ s x T I) as (w & W1 & W2). congruence.
Qed.
Print Assumptions C113_run.

(** A search sees the ground truth of its tags: each id stands for a slot that holds the tag's vector. *)
Theorem C113_search {P} rows (load_groundtruth : P -> outcome (list (list nat))) policy over drain capacity before p gt :
  (forall l, Permutation l (drain l)) -> valid (before ++ [Search p]) -> Forall proper (before ++ [Search p]) -> Forall (supplied rows) (before ++ [Search p]) -> truthful load_groundtruth (before ++ [Search p]) -> roomy policy over capacity (before ++ [Search p]) ->
  load_groundtruth p = Done gt ->
  exists g log gt', g_run rows load_groundtruth policy over drain capacity (before ++ [Search p]) = Done g /\ g_log g = log ++ [QSearch gt'] /\
    Forall2 (Forall2 (fun tag slot => exists v, content before tag = Some v /\ cells policy log slot = Held v)) gt gt'.
Proof.
  intros HD V FP FS TR RO EG. destruct capacity as [|n]; [destruct RO; lia|]. unfold g_run. cbn [t_new bind].
  assert (RS : forall st g0, run_stages (g_needs policy over) (g_maintain drain) (g_stage rows load_groundtruth policy) g0 (st ++ [Search p]) =
    bind (run_stages (g_needs policy over) (g_maintain drain) (g_stage rows load_groundtruth policy) g0 st) (fun g => bind (if g_needs policy over g then g_maintain drain g else Done g) (fun g => g_stage rows load_groundtruth policy g (Search p)))).
  { induction st as [|s st IH]; intros g0; cbn [app run_stages bind].
    - destruct (if g_needs policy over g0 then g_maintain drain g0 else Done g0) as [g1| |]; cbn [bind]; [|reflexivity|reflexivity]. destruct (g_stage rows load_groundtruth policy g1 (Search p)); reflexivity.
    - destruct (if g_needs policy over g0 then g_maintain drain g0 else Done g0) as [g1| |]; cbn [bind]; [|reflexivity|reflexivity]. destruct (g_stage rows load_groundtruth policy g1 s) as [g2| |]; cbn [bind]; [apply IH|reflexivity|reflexivity]. }
  rewrite RS. clear RS.
  assert (ROB : roomy policy over (S n) before).
  { destruct RO as [R0 R]. split; [exact R0|]. destruct policy.
    - intros b a k E. apply (R b (a ++ [Search p])). rewrite E. now rewrite app_assoc.
    - destruct R as [R1 R2]. split; [intros b r a E; apply (R1 b r (a ++ [Search p])); rewrite E; now rewrite <- app_assoc|]. destruct R2 as [R2|(slack & S1 & S2)]; [left|right; exists slack; split; [exact S1|]; intros b a k E; apply (S2 b (a ++ [Search p])); rewrite E; now rewrite app_assoc].
      intros k (l & L1 & L2 & L3). apply R2. exists l. split; [exact L1|]. split; [|exact L3]. intros t. rewrite L2, inserted_app. split; [tauto|]. intros [H|(r & [H|[]] & _)]; [exact H|discriminate]. }
  assert (TRB : truthful load_groundtruth before) by (intros b q a E; apply (TR b q (a ++ [Search p])); rewrite E; now rewrite <- app_assoc).
  destruct (g_steps rows load_groundtruth policy over drain before (S n) HD (valid_prefix _ _ V) (proj1 (proj1 (Forall_app _ _ _) FP)) (proj1 (proj1 (Forall_app _ _ _) FS)) TRB ROB before [] (mkG (mkT (seq 0 n) [] (fun _ => None) (fun _ => None) (S n)) []) eq_refl) as (g & E & HG).
  { replace (S n - 1) with n by lia. apply start_ok. }
  rewrite E. cbn [bind]. destruct (g_step rows load_groundtruth policy over drain before (Search p) [] (before ++ [Search p]) (S n) g HD eq_refl V FP FS TR RO HG) as (g1 & g' & q & -> & _ & R & _ & L & Q). cbn [bind]. rewrite R.
  destruct (Q p gt eq_refl EG) as (gt' & -> & F). exists g', (g_log g1), gt'. now repeat split.
Qed.
Print Assumptions C113_search.

(** One slot more than the points of an accepted runbook is enough when slots are reused at once. *)
Theorem C113_capacity {P} (stages : list (stage P)) over m b :
  Forall proper stages -> runbook_new stages m = Done b -> valid stages /\ roomy Immediate over (b_max_points b + 1) stages.
Proof.
  intros FP E. pose proof (C112_validated stages m FP) as V. rewrite E in V. destruct V as (V & _ & (_ & K & _) & _). split; [exact V|]. split; [lia|]. intros b' a k E' C. specialize (K b' a k E' C). lia.
Qed.
Print Assumptions C113_capacity.
(** The headroom of the benchmark, points times (1 + 2 threshold) with a threshold below a half, is
    enough when slots are reclaimed later and no tag comes back. *)
Theorem C113_headroom {P} (stages : list (stage P)) m b num den capacity :
  Forall proper stages -> runbook_new stages m = Done b -> once stages -> 0 < num -> 2 * num < den -> 0 < b_max_points b -> b_max_points b * (den + 2 * num) <= capacity * den ->
  valid stages /\ roomy Deferred (fun deleted active => active * num / den <? deleted) capacity stages.
Proof.
  intros FP E HO H1 H2 H3 H4. pose proof (C112_validated stages m FP) as V. rewrite E in V. destruct V as (V & _ & (_ & K & _) & _). split; [exact V|]. split; [nia|]. split; [exact HO|]. right. exists (capacity * num / den). split.
  - intros d a A L. apply Nat.ltb_ge in L. transitivity (a * num / den); [exact L|]. apply Nat.div_le_mono; [lia|]. nia.
  - intros b' a k E' C. specialize (K b' a k E' C). pose proof (Nat.mul_div_le (capacity * num) den ltac:(lia)) as HD. set (q := capacity * num / den) in *. nia.
Qed.
Print Assumptions C113_headroom.
(** With a threshold of 1 or more, maintenance never comes, and a valid run fails. *)
Theorem C113_threshold_refuted : exists (stages : list (stage unit)) b,
  Forall proper stages /\ runbook_new stages 0 = Done b /\ once stages /\
  forall load drain, g_run 10 load Deferred (fun deleted active => active * 1 / 1 <? deleted) drain (b_max_points b * 3) stages = Err.
Proof.
  exists [Insert (mkRange 0 1); Delete (mkRange 0 1); Insert (mkRange 1 2); Delete (mkRange 1 2); Insert (mkRange 2 3)]. eexists. split; [repeat constructor; cbn; lia|]. split; [vm_compute; reflexivity|]. split.
  - intros before r after E t W (r' & I & W'). repeat (destruct before as [|? before]; cbn [app] in E; [injection E; intros; subst; try discriminate; cbn [In] in I; unfold within in *; repeat destruct I as [I|I]; try discriminate; try elim I; try (injection I as <-; cbn in *; lia)|injection E as <- E]). destruct before; discriminate.
  - reflexivity.
Qed.
Print Assumptions C113_threshold_refuted.
(** A tag that comes back before the maintenance is lost at the maintenance. *)
Theorem C113_reinsert_refuted : exists (stages : list (stage unit)) b over,
  Forall proper stages /\ runbook_new stages 0 = Done b /\ Forall (supplied 10) stages /\
  forall load, g_run 10 load Deferred over (fun l => l) 100 stages = Err.
Proof.
  exists [Insert (mkRange 0 10); Delete (mkRange 0 1); Insert (mkRange 0 1); Delete (mkRange 1 4); Delete (mkRange 0 1)]. eexists. exists (fun d a => a * 2 / 10 <? d). split; [repeat constructor; cbn; lia|]. split; [vm_compute; reflexivity|]. split; [repeat constructor; cbn; lia|].
  intros load. vm_compute. reflexivity.
Qed.
Print Assumptions C113_reinsert_refuted.

Example C113_example : exists g, g_run 30 (fun _ : unit => Done [[1; 5]; [6]]) Deferred (fun d a => a * 2 / 10 <? d) (@rev nat) 12
    [Insert (mkRange 0 4); Insert (mkRange 5 7); Delete (mkRange 2 4); Insert (mkRange 7 9); Replace (mkRange 21 23) (mkRange 5 7); Search tt] = Done g /\
  g_log g = [QInsert [0; 1; 2; 3] [0; 1; 2; 3]; QInsert [5; 6] [4; 5]; QDelete [2; 3]; QMaintain; QInsert [7; 8] [6; 7]; QReplace [21; 22] [4; 5]; QSearch [[1; 4]; [5]]] /\
  t_empty (g_manager g) = [8; 9; 10; 3; 2] /\ cells Deferred (g_log g) 4 = Held 21.
Proof. eexists. split; [vm_compute; reflexivity|]. vm_compute. repeat split. Qed.
Example C113_example_meets :
  let stages := [Insert (mkRange 0 4); Insert (mkRange 5 7); Delete (mkRange 2 4); Insert (mkRange 7 9); Replace (mkRange 21 23) (mkRange 5 7); Search tt] in
  Forall (@proper unit) stages /\ (exists b, runbook_new stages 0 = Done b /\ b_max_points b = 6) /\ Forall (supplied 30) stages /\
  truthful (fun _ => Done [[1; 5]; [6]]) stages /\ 6 * (10 + 2 * 2) <= 12 * 10.
Proof.
  cbv zeta. split; [repeat constructor; cbn; lia|]. split; [eexists; split; [vm_compute; reflexivity|reflexivity]|]. split; [repeat constructor; cbn; lia|]. split; [|lia].
  intros before p after E. exists [[1; 5]; [6]]. split; [reflexivity|]. repeat (destruct before as [|? before]; cbn [app] in E; [try discriminate; injection E; intros; subst; repeat constructor; cbn; unfold within; cbn; lia|injection E as <- E]). destruct before; discriminate.
Qed.
