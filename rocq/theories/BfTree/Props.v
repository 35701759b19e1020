(** C117: neighbour lists in a bf-tree under concurrent use. *)
From Verif.Lib Require Import Base Bytes.
From Verif.BfTree Require Import Model Spec Proofs.
Local Open Scope nat_scope.

(** Whatever the schedule, the answers of all operations are those of doing them one after the
    other in the order of the history, which contains each thread's operations in its order; and
    the lists read now are the result. *)
Theorem C117_linearizable w max stripe progs schedule :
  4 <= w -> (N.of_nat max < 2 ^ 32)%N -> Forall (Forall (op_fits w)) progs ->
  let s := run w max stripe (init max progs) schedule in
  let r := does_all max (fun _ => []) (map (fun e => fst (snd e)) (s_hist s)) in
  map (fun e => snd (snd e)) (s_hist s) = snd r /\
  (forall id, fits w id -> get w max (s_tree s) id = Some (fst r id)) /\
  forall i, exists begun, length begun <= 1 /\ nth i progs [] = ops_of i (s_hist s) ++ begun ++ t_prog (s_threads s i).
Proof.
  intros Hw Hm HP s r. assert (V : inv w max stripe progs s) by (apply run_inv; [exact Hw|exact Hm|now apply init_inv]).
  split; [apply (v_outs _ _ _ _ s V)|]. split; [apply (v_tree _ _ _ _ s V)|]. intros i. exists (pending (t_pc (s_threads s i))). split; [destruct (t_pc (s_threads s i)); cbn; lia|apply (v_progs _ _ _ _ s V)].
Qed.
Print Assumptions C117_linearizable.
(** What has happened stays before what happens later. *)
Theorem C117_order w max stripe s first later :
  exists more, s_hist (run w max stripe s (first ++ later)) = s_hist (run w max stripe s first) ++ more.
Proof.
  unfold run. rewrite fold_left_app. generalize (fold_left (step w max stripe) first s). clear s first. induction later as [|i later IH]; intros s; [exists []; now rewrite app_nil_r|]. cbn [fold_left]. destruct (IH (step w max stripe s i)) as (m & ->).
  assert (E : exists k, s_hist (step w max stripe s i) = s_hist s ++ k).
  { unfold step. destruct (t_pc (s_threads s i)) as [|[]|id ns l|id].
    - destruct (t_prog (s_threads s i)) as [|[]]; [exists []; now rewrite app_nil_r|eexists; reflexivity|..]; (destruct (s_locks s _); exists []; now rewrite app_nil_r).
    - exists []. now rewrite app_nil_r.
    - destruct (set w max (s_tree s) id ns (t_buf (s_threads s i))) as [[t b] ok]. eexists; reflexivity.
    - destruct (get w max (s_tree s) id); [exists []; now rewrite app_nil_r|eexists; reflexivity].
    - destruct (push_all max l ns false) as [l' a]. destruct (if a then _ else _) as [[t b] ok]. eexists; reflexivity.
    - exists []. now rewrite app_nil_r. }
  destruct E as (k & ->). exists (k ++ m). now rewrite app_assoc.
Qed.
Print Assumptions C117_order.
(** While a thread has work left, some thread can do its next step: there is no deadlock. *)
Theorem C117_progress w max stripe progs schedule :
  4 <= w -> (N.of_nat max < 2 ^ 32)%N -> Forall (Forall (op_fits w)) progs ->
  let s := run w max stripe (init max progs) schedule in
  (exists j, 0 < left_of (s_threads s j)) ->
  exists i, S (left_of (s_threads (step w max stripe s i) i)) = left_of (s_threads s i) /\ forall j, j <> i -> s_threads (step w max stripe s i) j = s_threads s j.
Proof.
  intros Hw Hm HP s (j & HJ). assert (V : inv w max stripe progs s) by (apply run_inv; [exact Hw|exact Hm|now apply init_inv]). generalize dependent s. intros s HJ V.
  assert (BUSY : forall i, t_pc (s_threads s i) <> Idle -> S (left_of (s_threads (step w max stripe s i) i)) = left_of (s_threads s i) /\ forall j, j <> i -> s_threads (step w max stripe s i) j = s_threads s j).
  { intros i NI. pose proof (v_sane _ _ _ _ s V i) as (_ & _ & SC). unfold step. destruct (t_pc (s_threads s i)) as [|[id|id ns|id ns]|id ns l|id] eqn:EP; [congruence|elim SC| | | |].
    - destruct (set w max (s_tree s) id ns (t_buf (s_threads s i))) as [[t b] ok]. cbn [s_threads]. rewrite upd_same. unfold left_of. rewrite EP. cbn [t_pc t_prog cost]. split; [lia|]. intros k K. apply upd_other. congruence.
    - destruct SC as [FI _]. rewrite (v_tree _ _ _ _ s V id FI). cbn [s_threads]. rewrite upd_same. unfold left_of. rewrite EP. cbn [t_pc t_prog cost]. split; [lia|]. intros k K. apply upd_other. congruence.
    - destruct (push_all max l ns false) as [l' a]. destruct (if a then _ else _) as [[t b] ok]. cbn [s_threads]. rewrite upd_same. unfold left_of. rewrite EP. cbn [t_pc t_prog cost]. split; [lia|]. intros k K. apply upd_other. congruence.
    - cbn [s_threads]. rewrite upd_same. unfold left_of. rewrite EP. cbn [t_pc t_prog cost]. split; [lia|]. intros k K. apply upd_other. congruence. }
  destruct (t_pc (s_threads s j)) as [|o|id ns l|id] eqn:EP; [|exists j; apply BUSY; congruence..].
  destruct (t_prog (s_threads s j)) as [|o rest] eqn:EO; [unfold left_of in HJ; rewrite EP, EO in HJ; cbn in HJ; lia|].
  destruct o as [id|id ns|id ns].
  - exists j. unfold step. rewrite EP, EO. cbn [s_threads]. rewrite upd_same. unfold left_of. rewrite EP, EO. cbn. split; [lia|]. intros k K. apply upd_other. congruence.
  - destruct (s_locks s (stripe id)) as [i|] eqn:EL.
    + exists i. apply BUSY. apply (v_locks _ _ _ _ s V) in EL as (id' & H & _). intros X. rewrite X in H. discriminate.
    + exists j. unfold step. rewrite EP, EO. cbn [target]. rewrite EL. cbn [s_threads]. rewrite upd_same. unfold left_of. rewrite EP, EO. cbn. split; [lia|]. intros k K. apply upd_other. congruence.
  - destruct (s_locks s (stripe id)) as [i|] eqn:EL.
    + exists i. apply BUSY. apply (v_locks _ _ _ _ s V) in EL as (id' & H & _). intros X. rewrite X in H. discriminate.
    + exists j. unfold step. rewrite EP, EO. cbn [target]. rewrite EL. cbn [s_threads]. rewrite upd_same. unfold left_of. rewrite EP, EO. cbn. split; [lia|]. intros k K. apply upd_other. congruence.
Qed.
Print Assumptions C117_progress.
(** Appending adds no duplicates, loses nothing and keeps the bound. *)
Theorem C117_append max l new : length l <= max -> NoDup l ->
  NoDup (add_new max l new) /\ length (add_new max l new) <= max /\ (exists k, add_new max l new = l ++ k /\ incl k new) /\ (length (add_new max l new) < max -> incl new (add_new max l new)).
Proof.
  unfold add_new. revert l. induction new as [|x new IH]; intros l HL HN; cbn [fold_left].
  - split; [exact HN|]. split; [exact HL|]. split; [exists []; rewrite app_nil_r; split; [reflexivity|intros a []]|intros _ a []].
  - destruct (Nat.ltb_spec (length l) max) as [L|L]; cbn [andb].
    + destruct (existsb (N.eqb x) l) eqn:E; cbn [negb].
      * destruct (IH l HL HN) as (A & B & (k & C & D) & F). split; [exact A|]. split; [exact B|]. split; [exists k; split; [exact C|intros a I; right; now apply D]|]. intros H a [<-|I]; [|now apply F]. rewrite C. apply in_or_app. left. apply existsb_exists in E as (y & Y & E). apply N.eqb_eq in E. now subst.
      * assert (NI : ~ In x l) by (intros I; apply Bool.not_true_iff_false in E; apply E, existsb_exists; exists x; split; [exact I|apply N.eqb_refl]).
        assert (ND : NoDup (l ++ [x])) by (apply NoDup_rev in HN; rewrite <- (rev_involutive (l ++ [x])); apply NoDup_rev; rewrite rev_app_distr; cbn; constructor; [now rewrite <- in_rev|exact HN]).
        destruct (IH (l ++ [x])) as (A & B & (k & C & D) & F); [rewrite app_length; cbn; lia|exact ND|]. split; [exact A|]. split; [exact B|]. split; [exists (x :: k); split; [rewrite C, <- app_assoc; reflexivity|intros a [<-|I]; [now left|right; now apply D]]|].
        intros H a [<-|I]; [|now apply F]. rewrite C. apply in_or_app. left. apply in_or_app. right. now left.
    + destruct (IH l HL HN) as (A & B & (k & C & D) & F). split; [exact A|]. split; [exact B|]. split; [exists k; split; [exact C|intros a I; right; now apply D]|]. intros H. exfalso. rewrite C, app_length in H. lia.
Qed.
Print Assumptions C117_append.
(** The stripe of an id is one of the 2^k stripes. *)
Theorem C117_stripe k id : (0 < k <= 64)%N -> (stripe_index k id < 2 ^ k)%N.
Proof.
  intros H. unfold stripe_index. rewrite N.shiftr_div_pow2. apply N.div_lt_upper_bound; [apply N.pow_nonzero; lia|]. rewrite <- N.pow_add_r. replace (64 - k + k)%N with 64%N by lia. apply N.mod_lt. discriminate.
Qed.
Print Assumptions C117_stripe.

(** Three threads on one list of at most three ids, with one stripe; the appends interleave. *)
Definition C117_progs : list (list op) := [[Append 7 [1; 2]%N; Get 7]; [Append 7 [2; 3; 4]%N; Get 9]; [Set_ 9 [5]%N; Set_ 9 [1; 2; 3; 4]%N]]%N.
Example C117_example :
  let s := run 4 3 (fun _ => 0) (init 3 C117_progs) [0; 1; 0; 2; 0; 0; 1; 2; 1; 0; 1; 1; 2; 2; 2; 1; 2; 2; 2] in
  s_hist s = [(0%nat, (Append 7 [1; 2], ODone)); (0%nat, (Get 7, OList [1; 2])); (1%nat, (Append 7 [2; 3; 4], ODone)); (2%nat, (Set_ 9 [5], ODone)); (1%nat, (Get 9, OList [5])); (2%nat, (Set_ 9 [1; 2; 3; 4], OErr))]%N /\
  get 4 3 (s_tree s) 7 = Some [1; 2; 3]%N /\ get 4 3 (s_tree s) 9 = Some [5]%N.
Proof. vm_compute. repeat split. Qed.
Example C117_meets : Forall (Forall (op_fits 4)) C117_progs.
Proof. unfold C117_progs, op_fits, fits. repeat constructor. Qed.
