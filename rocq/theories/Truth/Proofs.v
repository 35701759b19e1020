From Verif.Lib Require Import Base F32 Bytes Lists.
From Verif.Queue Require Import Model Spec Proofs.
From Verif.Truth Require Import Model.
From Verif.Truth Require Spec.
Require Import Coq.Sorting.Sorted.
Local Open Scope nat_scope.

Lemma u32_small n : Spec.small n -> u32 n = n.
Proof. intros H. unfold u32. rewrite N.mod_small; [apply Nat2N.id|exact H]. Qed.
Section one.
Context {V : Type} (dist : V -> V -> f32).
(** The points of a list whose first one has number [base]. *)
Definition pts (allow : nat -> bool) (query : V) (base : nat) (data : list V) : list nbr :=
  map (fun p => mkNbr (fst p) (dist (snd p) query)) (filter (fun p => allow (fst p)) (combine (seq base (length data)) data)).
Lemma pts_cons allow query base x data : pts allow query base (x :: data) = (if allow base then [mkNbr base (dist x query)] else []) ++ pts allow query (S base) data.
Proof. unfold pts. cbn [length seq combine filter fst]. destruct (allow base); reflexivity. Qed.
Lemma pts_app allow query a : forall base b, pts allow query base (a ++ b) = pts allow query base a ++ pts allow query (base + length a) b.
Proof.
  induction a as [|x a IH]; intros base b; cbn [app length]; [now rewrite Nat.add_0_r|]. rewrite !pts_cons, IH, <- app_assoc. do 3 f_equal. lia.
Qed.
Fixpoint ins_all (q : pq) (xs : list nbr) : option pq := match xs with [] => Some q | x :: xs => match pq_insert q x with Some q => ins_all q xs | None => None end end.
Lemma ins_all_app a : forall q b, ins_all q (a ++ b) = match ins_all q a with Some q => ins_all q b | None => None end.
Proof. induction a as [|x a IH]; intros q b; cbn [app ins_all]; [reflexivity|]. destruct (pq_insert q x); [apply IH|reflexivity]. Qed.
Lemma allowed_ok bitmaps qi i : (match bitmaps with None => True | Some bs => qi < length bs end) -> allowed bitmaps qi i = Some (Spec.filter_of bitmaps qi i).
Proof.
  unfold allowed, Spec.filter_of. destruct bitmaps as [bs|]; [|reflexivity]. intros H. destruct (nth_error bs qi) eqn:E; [reflexivity|]. apply nth_error_None in E. lia.
Qed.
Lemma scan_ok bitmaps qi query : (match bitmaps with None => True | Some bs => qi < length bs end) -> forall batch base q, Spec.small (base + length batch) ->
  scan dist bitmaps qi query base batch q = ins_all q (pts (Spec.filter_of bitmaps qi) query base batch).
Proof.
  intros HB. induction batch as [|x batch IH]; intros base q HS; cbn [scan]; [reflexivity|]. cbn [length] in HS. assert (SB : Spec.small base) by (unfold Spec.small in *; lia).
  assert (SN : Spec.small (S base + length batch)) by (unfold Spec.small in *; lia).
  rewrite (u32_small base SB), allowed_ok, pts_cons, ins_all_app by exact HB. destruct (Spec.filter_of bitmaps qi base); cbn [ins_all]; [destruct (pq_insert q (mkNbr base (dist x query))); [|reflexivity]|]; now apply IH.
Qed.
(** A queue that holds what came of the points so far. *)
Definition upto (bitmaps : option (list (nat -> bool))) (k : nat) (data : list V) (qi : nat) (p : V * pq) : Prop :=
  ins_all (pq_new k) (pts (Spec.filter_of bitmaps qi) (fst p) 0 data) = Some (snd p).
Fixpoint indexed {T} (R : nat -> T -> Prop) (i : nat) (l : list T) : Prop := match l with [] => True | x :: l => R i x /\ indexed R (S i) l end.
Lemma indexed_nth {T} (R : nat -> T -> Prop) : forall l i j x, indexed R i l -> nth_error l j = Some x -> R (i + j) x.
Proof. induction l as [|y l IH]; intros i [|j] x H E; cbn in E; try discriminate; destruct H as [H1 H2]; [injection E as <-; now rewrite Nat.add_0_r|]. replace (i + S j) with (S i + j) by lia. now apply IH. Qed.
Lemma insert_total k q x : 0 < k -> (exists xs, ins_all (pq_new k) xs = Some q) -> exists q', pq_insert q x = Some q'.
Proof.
  intros HK (xs & E). assert (forall xs q0 E0, WF q0 E0 -> ins_all q0 xs = Some q -> exists E1, WF q E1) as G.
  { clear xs E. induction xs as [|y xs IH]; intros q0 E0 W; cbn [ins_all]; [intros [= ->]; now exists E0|]. destruct (pq_insert_spec q0 E0 y W) as (q' & E' & I & W' & _). rewrite I. now apply IH with E'. }
  destruct (G xs _ _ (new_wf k false HK) E) as (E1 & W). destruct (pq_insert_spec q E1 x W) as (q' & _ & I & _). now exists q'.
Qed.
Lemma ins_all_total k xs : 0 < k -> exists q, ins_all (pq_new k) xs = Some q.
Proof.
  intros HK. induction xs as [|x xs IH] using rev_ind; [now exists (pq_new k)|]. destruct IH as (q & E). rewrite ins_all_app, E. cbn [ins_all]. destruct (insert_total k q x HK (ex_intro _ xs E)) as (q' & ->). now exists q'.
Qed.
Lemma scan_all_ok bitmaps k batch data : 0 < k -> Spec.small (length data + length batch) -> forall qs qi, (match bitmaps with None => True | Some bs => qi + length qs <= length bs end) ->
  indexed (upto bitmaps k data) qi qs -> exists qs', scan_all dist bitmaps qi (length data) batch qs = Some qs' /\ map fst qs' = map fst qs /\ indexed (upto bitmaps k (data ++ batch)) qi qs'.
Proof.
  intros HK HS. induction qs as [|[query q] qs IH]; intros qi HB HI; cbn [scan_all]; [exists []; now repeat split|]. destruct HI as [H1 H2]. cbn [length] in HB.
  assert (B1 : match bitmaps with None => True | Some bs => qi < length bs end) by (destruct bitmaps; [lia|exact I]). assert (B2 : match bitmaps with None => True | Some bs => S qi + length qs <= length bs end) by (destruct bitmaps; [lia|exact I]).
  destruct (IH (S qi) B2 H2) as (qs' & E1 & E2 & E3). rewrite E1, scan_ok by assumption. unfold upto in H1. cbn [fst snd] in H1.
  destruct (ins_all_total k (pts (Spec.filter_of bitmaps qi) query 0 (data ++ batch)) HK) as (q' & Q). rewrite pts_app, ins_all_app, H1 in Q. cbn [Nat.add] in Q. rewrite Q. exists ((query, q') :: qs'). split; [reflexivity|]. cbn [map fst]. split; [now rewrite E2|]. split; [|exact E3]. unfold upto. cbn [fst snd]. rewrite pts_app, ins_all_app, H1. exact Q.
Qed.
Lemma len_fst {X Y} (a b : list (X * Y)) : map fst a = map fst b -> length a = length b.
Proof. intros H. rewrite <- (map_length fst a), H. apply map_length. Qed.
Lemma scan_batches_ok bitmaps k : 0 < k -> forall batches data qs, Spec.small (length data + length (concat batches)) -> (match bitmaps with None => True | Some bs => length qs <= length bs end) -> indexed (upto bitmaps k data) 0 qs ->
  exists qs', scan_batches dist bitmaps (length data) batches qs = Some (length (data ++ concat batches), qs') /\ map fst qs' = map fst qs /\ indexed (upto bitmaps k (data ++ concat batches)) 0 qs'.
Proof.
  intros HK. induction batches as [|b batches IH]; intros data qs HS HB HI; cbn [scan_batches concat]; [rewrite app_nil_r; exists qs; now repeat split|]. cbn [concat] in HS. rewrite app_length in HS.
  destruct (scan_all_ok bitmaps k b data HK ltac:(unfold Spec.small in *; lia) qs 0 HB HI) as (qs1 & -> & E2 & E3). rewrite <- app_length.
  destruct (IH (data ++ b) qs1) as (qs' & F1 & F2 & F3); [rewrite app_length; unfold Spec.small in *; lia| |exact E3|]; [now rewrite (len_fst _ _ E2)|]. rewrite F1. exists qs'. rewrite <- app_assoc in *. split; [reflexivity|]. split; [congruence|exact F3].
Qed.
Lemma scan_inserts_ok bitmaps k : 0 < k -> forall ins data qs, Spec.small (length data + length ins) -> (match bitmaps with None => True | Some bs => length qs <= length bs end) -> indexed (upto bitmaps k data) 0 qs ->
  exists qs', scan_inserts dist bitmaps (length data) ins qs = Some qs' /\ map fst qs' = map fst qs /\ indexed (upto bitmaps k (data ++ ins)) 0 qs'.
Proof.
  intros HK. induction ins as [|x ins IH]; intros data qs HS HB HI; cbn [scan_inserts]; [rewrite app_nil_r; exists qs; now repeat split|]. cbn [length] in HS.
  destruct (scan_all_ok bitmaps k [x] data HK ltac:(cbn; unfold Spec.small in *; lia) qs 0 HB HI) as (qs1 & -> & E2 & E3).
  replace (S (length data)) with (length (data ++ [x])) by (rewrite app_length; cbn; lia).
  destruct (IH (data ++ [x]) qs1) as (qs' & F1 & F2 & F3); [rewrite app_length; cbn; unfold Spec.small in *; lia| |exact E3|]; [now rewrite (len_fst _ _ E2)|]. rewrite F1. exists qs'. rewrite <- app_assoc in F3. split; [reflexivity|]. split; [congruence|exact F3].
Qed.
(** ** Range *)
Definition inside (radius : f32) (x : nbr) : bool := f32_le (n_dist x) radius.
Lemma rscan_ok bitmaps radius qi query : (match bitmaps with None => True | Some bs => qi < length bs end) -> forall batch base r, Spec.small (base + length batch) ->
  rscan dist bitmaps radius qi query base batch r = Some (r ++ filter (inside radius) (pts (Spec.filter_of bitmaps qi) query base batch)).
Proof.
  intros HB. induction batch as [|x batch IH]; intros base r HS; cbn [rscan]; [cbn; now rewrite app_nil_r|]. cbn [length] in HS. assert (SB : Spec.small base) by (unfold Spec.small in *; lia).
  assert (SN : Spec.small (S base + length batch)) by (unfold Spec.small in *; lia). rewrite (u32_small base SB), allowed_ok, pts_cons by exact HB. destruct (Spec.filter_of bitmaps qi base); cbn [app]; [|now apply IH].
  rewrite IH by exact SN. cbn [filter]. unfold inside at 2. cbn [n_dist]. destruct (f32_le (dist x query) radius); [now rewrite <- app_assoc|reflexivity].
Qed.
Definition rupto bitmaps radius (data : list V) (qi : nat) (p : V * list nbr) : Prop := snd p = filter (inside radius) (pts (Spec.filter_of bitmaps qi) (fst p) 0 data).
Lemma rscan_all_ok bitmaps radius batch data : Spec.small (length data + length batch) -> forall qs qi, (match bitmaps with None => True | Some bs => qi + length qs <= length bs end) ->
  indexed (rupto bitmaps radius data) qi qs -> exists qs', rscan_all dist bitmaps radius qi (length data) batch qs = Some qs' /\ map fst qs' = map fst qs /\ indexed (rupto bitmaps radius (data ++ batch)) qi qs'.
Proof.
  intros HS. induction qs as [|[query r] qs IH]; intros qi HB HI; cbn [rscan_all]; [exists []; now repeat split|]. destruct HI as [H1 H2]. cbn [length] in HB.
  assert (B1 : match bitmaps with None => True | Some bs => qi < length bs end) by (destruct bitmaps; [lia|exact I]). assert (B2 : match bitmaps with None => True | Some bs => S qi + length qs <= length bs end) by (destruct bitmaps; [lia|exact I]).
  destruct (IH (S qi) B2 H2) as (qs' & E1 & E2 & E3). rewrite E1, rscan_ok by assumption. unfold rupto in H1. cbn [fst snd] in H1.
  eexists. split; [reflexivity|]. cbn [map fst]. split; [now rewrite E2|]. split; [|exact E3]. unfold rupto. cbn [fst snd]. now rewrite pts_app, filter_app, H1.
Qed.
Lemma rscan_batches_ok bitmaps radius : forall batches data qs, Spec.small (length data + length (concat batches)) -> (match bitmaps with None => True | Some bs => length qs <= length bs end) -> indexed (rupto bitmaps radius data) 0 qs ->
  exists qs', rscan_batches dist bitmaps radius (length data) batches qs = Some qs' /\ map fst qs' = map fst qs /\ indexed (rupto bitmaps radius (data ++ concat batches)) 0 qs'.
Proof.
  induction batches as [|b batches IH]; intros data qs HS HB HI; cbn [rscan_batches concat]; [rewrite app_nil_r; exists qs; now repeat split|]. cbn [concat] in HS. rewrite app_length in HS.
  destruct (rscan_all_ok bitmaps radius b data ltac:(unfold Spec.small in *; lia) qs 0 HB HI) as (qs1 & -> & E2 & E3). rewrite <- app_length.
  destruct (IH (data ++ b) qs1) as (qs' & F1 & F2 & F3); [rewrite app_length; unfold Spec.small in *; lia| |exact E3|]; [now rewrite (len_fst _ _ E2)|]. rewrite F1. exists qs'. rewrite <- app_assoc in *. split; [reflexivity|]. split; [congruence|exact F3].
Qed.
End one.
Lemma chunks_concat {A} n : 0 < n -> forall fuel (l : list A), length l <= fuel -> concat (chunks fuel n l) = l.
Proof.
  intros HN. induction fuel as [|fuel IH]; intros l HL; [destruct l; [reflexivity|cbn in HL; lia]|]. cbn [chunks]. destruct l as [|x l]; [reflexivity|]. cbn [concat]. rewrite IH, firstn_skipn; [reflexivity|]. rewrite skipn_length. cbn [length] in *. lia.
Qed.
(** ** What the queue holds, and in which order it is drained *)
Lemma ins_all_run xs : forall q, ins_all q xs = option_map fst (q_run q (map QInsert xs)).
Proof.
  induction xs as [|x xs IH]; intros q; cbn [ins_all map q_run q_step]; [reflexivity|]. destruct (pq_insert q x) as [q'|]; cbn [option_map]; [|reflexivity]. rewrite IH. destruct (q_run q' (map QInsert xs)) as [[q'' outs]|]; reflexivity.
Qed.
Lemma ins_all_nearest k xs q : 0 < k -> ins_all (pq_new k) xs = Some q -> exists best, pq_iter q = Some best /\ Spec.nearest k (filter Spec.number xs) best.
Proof.
  intros HK E. rewrite ins_all_run in E. assert (FP : Forall plain_op (map QInsert xs)) by (apply Forall_forall; intros o O; apply in_map_iff in O as (x & <- & _); exact I).
  destruct (c14_lemma k false (map QInsert xs) HK FP) as (q' & outs & best & rest & R & IT & SS & LN & PM & CL). cbn in R. rewrite R in E. cbn in E. injection E as <-.
  assert (EI : inserted (map QInsert xs) = xs) by (clear; induction xs as [|x xs IH]; cbn; [reflexivity|now rewrite IH]). rewrite EI in *. exists best. split; [exact IT|]. split; [exact SS|]. split; [exact LN|]. exists rest. now split.
Qed.
Definition fresh (E : list ent) : Prop := forall i e, nth_error E i = Some e -> e_vis e = false.
Lemma ins_fresh x E : fresh E -> e_vis x = false -> fresh (ins x E).
Proof. intros F V i e H. apply nth_error_In in H. apply (Permutation_in e (ins_perm x E)) in H. destruct H as [<-|H]; [exact V|]. apply In_nth_error in H as (j & J). exact (F j e J). Qed.
Lemma ins_all_fresh k xs q : 0 < k -> ins_all (pq_new k) xs = Some q -> exists E, WF q E /\ fresh E.
Proof.
  intros HK. assert (forall xs q0 E0, WF q0 E0 -> fresh E0 -> ins_all q0 xs = Some q -> exists E1, WF q E1 /\ fresh E1) as G.
  { clear xs. induction xs as [|y xs IH]; intros q0 E0 W F; cbn [ins_all]; [intros [= ->]; now exists E0|]. destruct (pq_insert_spec q0 E0 y W) as (q' & E' & I & W' & _ & _ & _ & _ & EE). rewrite I. apply IH with E'; [exact W'|]. rewrite EE. destruct (is_nan (n_dist y)); [exact F|]. intros i e H. assert (IN : In e (ins (new_ent y) E0)) by (apply nth_error_In in H; rewrite <- (firstn_skipn (q_cap q') (ins (new_ent y) E0)); apply in_app_iff; now left). apply In_nth_error in IN as (j & J). exact (ins_fresh (new_ent y) E0 F eq_refl j e J). }
  apply (G xs _ [] (new_wf k false HK)). intros i e H. destruct i; discriminate.
Qed.
Lemma drain_from : forall n fuel q E c, WF q E -> q_cur q = c -> (forall i e, c <= i -> nth_error E i = Some e -> e_vis e = false) -> n = Nat.min (q_L q) (length E) - c -> n < fuel ->
  drain fuel q = Some (map e_nbr (firstn n (skipn c E))).
Proof.
  induction n as [|n IH]; intros fuel q E c W C F HN HF; (destruct fuel as [|fuel]; [lia|]); cbn [drain]; destruct (closest_spec q E W) as (q' & r & K & L1 & L2 & L3 & [(D1 & -> & ->)|(D1 & e & D2 & D3 & -> & W')]); rewrite K.
  - reflexivity.
  - exfalso. lia.
  - exfalso. lia.
  - set (E' := set_nth (q_cur q) (visit e) E) in *. assert (LE : length E' = length E) by apply set_nth_length.
    assert (NE : forall i, nth_error E' i = if i =? q_cur q then (if i <? length E then Some (visit e) else None) else nth_error E i) by (intros i; apply nth_error_set_nth).
    assert (CL : q_cur q < length E) by lia.
    assert (C' : q_cur q' = S c).
    { pose proof (w_curb _ _ W') as B. rewrite LE in B. destruct (Nat.lt_trichotomy (q_cur q') (S c)) as [L|[L|L]]; [|exact L|].
      - exfalso. destruct (nth_error E' (q_cur q')) as [e'|] eqn:Y; [|apply nth_error_None in Y; lia]. pose proof (w_cur _ _ W' eq_refl _ Y) as V. rewrite NE in Y. destruct (Nat.eqb_spec (q_cur q') (q_cur q)) as [Q|Q].
        + destruct (Nat.ltb_spec (q_cur q') (length E)); [|lia]. injection Y as <-. discriminate.
        + pose proof (w_vis _ _ W (q_cur q') e' ltac:(lia) Y). congruence.
      - exfalso. destruct (nth_error E' (S c)) as [e'|] eqn:Y; [|apply nth_error_None in Y; lia]. pose proof (w_vis _ _ W' (S c) e' L Y) as V. rewrite NE in Y. destruct (Nat.eqb_spec (S c) (q_cur q)); [lia|]. rewrite (F (S c) e' ltac:(lia) Y) in V. discriminate. }
    rewrite (IH fuel q' E' (S c) W' C').
    + cbn [option_map]. f_equal. assert (SK : skipn c E = e :: skipn (S c) E). { rewrite C in D2. clear -D2. revert c D2. induction E as [|x E IH]; intros [|c] H; cbn in *; try discriminate; [now injection H as ->|now apply IH]. }
      assert (SK' : skipn (S c) E' = skipn (S c) E). { unfold E'. rewrite C. clear. revert c. induction E as [|x E IH]; intros [|c]; try reflexivity. cbn [set_nth]. apply (IH c). }
      rewrite SK, SK'. reflexivity.
    + intros i e' HI Y. rewrite NE in Y. destruct (Nat.eqb_spec i (q_cur q)); [lia|]. apply (F i e'); [lia|exact Y].
    + rewrite L2, LE. lia.
    + lia.
Qed.
Lemma drain_iter k xs q best : 0 < k -> ins_all (pq_new k) xs = Some q -> pq_iter q = Some best -> drain (S (q_size q)) q = Some best.
Proof.
  intros HK E I. destruct (ins_all_fresh k xs q HK E) as (En & W & F). rewrite (iter_spec q En (w_rel _ _ W)) in I. injection I as <-.
  assert (C : q_cur q = 0). { destruct (q_cur q) as [|c] eqn:C; [reflexivity|]. pose proof (w_curb _ _ W) as B. destruct (nth_error En 0) as [e|] eqn:Y; [|apply nth_error_None in Y; lia]. pose proof (w_vis _ _ W 0 e ltac:(lia) Y) as V. rewrite (F 0 e Y) in V. discriminate. }
  rewrite (drain_from _ _ q En 0 W C (fun i e _ => F i e) eq_refl) by (rewrite (r_size _ _ (w_rel _ _ W)); lia). cbn [skipn]. do 2 f_equal. rewrite Nat.sub_0_r. destruct (Nat.le_gt_cases (q_L q) (length En)); [now rewrite Nat.min_l|]. rewrite Nat.min_r by lia. rewrite firstn_all. symmetry. apply firstn_all2. lia.
Qed.
