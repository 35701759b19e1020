(** Proofs about the priority queue: refinement to a sorted list of entries. *)
From Verif.Lib Require Import Base Lists F32.
From Verif.Queue Require Import Model Spec.
Local Open Scope nat_scope.

Record ent := mkEnt { e_id : nat; e_vis : bool; e_d : f32 }.
Definition e_nbr (e : ent) : nbr := mkNbr (e_id e) (e_d e).
Definition e_iv (e : ent) : nat * bool := (e_id e, e_vis e).

(** ** Lower bound *)
Fixpoint lb (ds : list f32) (t : f32) : nat :=
  match ds with
  | [] => 0
  | d :: ds' => if f32_ge d t then 0 else S (lb ds' t)
  end.

Lemma lb_le ds t : lb ds t <= length ds.
Proof. induction ds; cbn; [lia|]. destruct (f32_ge a t); lia. Qed.

Lemma ge_first_lb v t :
  match ge_first v t with Some o => o = lb v t /\ o < length v | None => lb v t = length v end.
Proof.
  unfold ge_first. induction v as [|d v IH]; cbn; [reflexivity|].
  destruct (f32_ge d t); cbn; [lia|].
  destruct (first_lane _); cbn; lia.
Qed.

Lemma lb_app v w t : lb (v ++ w) t = if lb v t <? length v then lb v t else length v + lb w t.
Proof.
  induction v as [|d v IH]; [reflexivity|]. cbn [lb app length].
  destruct (f32_ge d t); [destruct (Nat.ltb_spec 0 (S (length v))); lia|]. rewrite IH.
  destruct (Nat.ltb_spec (lb v t) (length v)), (Nat.ltb_spec (S (lb v t)) (S (length v))); lia.
Qed.

Lemma lb_skip ds t i k : i + k <= length ds ->
  (forall j, j = lb (firstn i ds) t -> j = i) ->
  lb ds t = match ge_first (firstn k (skipn i ds)) t with
            | Some o => i + o
            | None => i + k + lb (skipn (i + k) ds) t
            end /\
  (ge_first (firstn k (skipn i ds)) t = None -> lb (firstn (i + k) ds) t = i + k).
Proof.
  intros Hl H0. specialize (H0 _ eq_refl).
  pose proof (ge_first_lb (firstn k (skipn i ds)) t) as G.
  assert (L1 : length (firstn i ds) = i) by (rewrite firstn_length; lia).
  assert (L2 : length (firstn k (skipn i ds)) = k)
    by (rewrite firstn_length, skipn_length; lia).
  assert (E : ds = firstn i ds ++ firstn k (skipn i ds) ++ skipn (i + k) ds).
  { rewrite <- (firstn_skipn i ds) at 1. f_equal.
    rewrite <- (firstn_skipn k (skipn i ds)) at 1. f_equal.
    rewrite skipn_skipn'. reflexivity. }
  assert (E2 : firstn (i + k) ds = firstn i ds ++ firstn k (skipn i ds)).
  { rewrite E at 1. rewrite app_assoc, firstn_app, app_length, L1, L2, Nat.sub_diag.
    cbn. rewrite app_nil_r. apply firstn_all2. rewrite app_length. lia. }
  split.
  - rewrite E at 1. rewrite lb_app, H0, L1, Nat.ltb_irrefl, lb_app, L2.
    destruct (ge_first _ t) as [o|].
    + destruct G as [-> G]. destruct (Nat.ltb_spec (lb (firstn k (skipn i ds)) t) k); lia.
    + rewrite G, L2, Nat.ltb_irrefl. lia.
  - intros N. rewrite N in G. rewrite E2, lb_app, H0, L1, Nat.ltb_irrefl, G, L2. reflexivity.
Qed.

Lemma lb_loop_spec ds t : forall fuel i, length ds <= i + 16 * fuel ->
  lb (firstn i ds) t = i -> i <= length ds ->
  match lb_loop fuel ds (length ds) t i with
  | inl r => r = lb ds t
  | inr j => lb (firstn j ds) t = j /\ j <= length ds /\ length ds < j + 16
  end.
Proof.
  induction fuel as [|fuel IH]; intros i Hf Hi Hl; cbn [lb_loop];
    destruct (Nat.leb_spec (i + 16) (length ds)); try (repeat split; auto; lia).
  destruct (lb_skip ds t i 8) as [A A']; [lia|intros; congruence|].
  unfold load8. destruct (ge_first (firstn 8 (skipn i ds)) t) as [o|] eqn:G1.
  - now rewrite A.
  - specialize (A' eq_refl).
    destruct (lb_skip ds t (i + 8) 8) as [B B']; [lia|intros; congruence|].
    destruct (ge_first (firstn 8 (skipn (i + 8) ds)) t) as [o|] eqn:G2.
    + now rewrite B.
    + specialize (B' eq_refl). replace (i + 8 + 8) with (i + 16) in B' by lia.
      apply IH; [lia|exact B'|lia].
Qed.

Lemma lb_repeat d n t : lb (repeat d n) t = if f32_ge d t then 0 else n.
Proof.
  induction n; cbn; [now destruct (f32_ge d t)|].
  rewrite IHn. now destruct (f32_ge d t).
Qed.

Lemma lb_zero_pad v n t : lb v t = length v ->
  match ge_first (v ++ repeat f32_zero n) t with
  | Some o => o = length v
  | None => True
  end.
Proof.
  intros H. pose proof (ge_first_lb (v ++ repeat f32_zero n) t) as G.
  destruct (ge_first _ _) as [o|]; [|exact I].
  destruct G as [E G]. rewrite lb_app, H, Nat.ltb_irrefl, lb_repeat in E.
  rewrite app_length, repeat_length in G. destruct (f32_ge f32_zero t); lia.
Qed.

Lemma ge_first_pad v w t o : ge_first v t = Some o -> ge_first (v ++ w) t = Some o.
Proof.
  intros H. pose proof (ge_first_lb v t) as G. rewrite H in G. destruct G as [-> G].
  pose proof (ge_first_lb (v ++ w) t) as G'. rewrite lb_app in G'.
  destruct (Nat.ltb_spec (lb v t) (length v)); [|lia].
  destruct (ge_first (v ++ w) t); [f_equal; lia|]. rewrite app_length in G'. lia.
Qed.

Lemma lb_rest ds t i : lb (firstn i ds) t = i -> i <= length ds -> length ds < i + 8 ->
  (if i <? length ds then
     match ge_first (load8_first ds i (length ds - i)) t with
     | Some o => i + o
     | None => length ds
     end
   else length ds) = lb ds t.
Proof.
  intros H Hl Hl8. destruct (Nat.ltb_spec i (length ds)) as [L|L].
  2:{ assert (i = length ds) by lia. subst i. rewrite firstn_all in H. now rewrite H. }
  destruct (lb_skip ds t i (length ds - i)) as [A A']; [lia|intros; congruence|].
  unfold load8_first. rewrite Nat.min_r by lia.
  set (v := firstn (length ds - i) (skipn i ds)) in *.
  assert (Lv : length v = length ds - i).
  { unfold v. rewrite firstn_length, skipn_length. lia. }
  destruct (ge_first v t) as [o|] eqn:G.
  - rewrite (ge_first_pad _ _ _ _ G). now rewrite A.
  - pose proof (ge_first_lb v t) as GL. rewrite G in GL.
    pose proof (lb_zero_pad v (8 - length v) t GL) as P.
    specialize (A' eq_refl). replace (i + (length ds - i)) with (length ds) in A' by lia.
    rewrite firstn_all in A'.
    destruct (ge_first (v ++ _) t) as [o|]; lia.
Qed.

Lemma lower_bound_lb q t : q_size q = length (q_dist q) ->
  lower_bound q t = lb (q_dist q) t.
Proof.
  intros E. unfold lower_bound. rewrite E. set (ds := q_dist q).
  pose proof (lb_loop_spec ds t (length ds) 0) as S. cbn [firstn lb] in S.
  specialize (S ltac:(lia) eq_refl ltac:(lia)).
  destruct (lb_loop _ ds _ t 0) as [i|i]; [exact S|].
  destruct S as (S1 & S2 & S3). unfold lb_tail, load8.
  destruct (Nat.leb_spec (i + 8) (length ds)).
  - destruct (lb_skip ds t i 8) as [A A']; [lia|intros; congruence|].
    destruct (ge_first (firstn 8 (skipn i ds)) t) as [o|] eqn:G.
    + now rewrite A.
    + apply lb_rest; [auto|lia|lia].
  - apply lb_rest; [auto|lia|lia].
Qed.

(** ** Refinement relation *)
Record Rel (q : pq) (E : list ent) : Prop := {
  r_idv : q_idv q = map e_iv E;
  r_dist : q_dist q = map e_d E;
  r_size : q_size q = length E
}.

Definition ele (x y : ent) : Prop := (f32_key (e_d x) <= f32_key (e_d y))%Z.

(** [strict]: the entry under the cursor has not been visited.  Only [drain_best] breaks
    this. *)
Record WFg (strict : bool) (q : pq) (E : list ent) : Prop := {
  w_rel : Rel q E;
  w_cap : length E <= q_cap q;
  w_nan : Forall (fun e => is_nan (e_d e) = false) E;
  w_sort : StronglySorted ele E;
  w_curb : q_cur q <= length E;
  w_vis : forall i e, i < q_cur q -> nth_error E i = Some e -> e_vis e = true;
  w_cur : strict = true -> forall e, nth_error E (q_cur q) = Some e -> e_vis e = false;
  w_pos : 0 < q_cap q;
  w_L : q_auto q = false -> q_L q = q_cap q
}.
Arguments w_rel {strict} q E _.
Arguments w_cap {strict} q E _.
Arguments w_nan {strict} q E _.
Arguments w_sort {strict} q E _.
Arguments w_curb {strict} q E _.
Arguments w_vis {strict} q E _.
Arguments w_cur {strict} q E _.
Arguments w_pos {strict} q E _.
Arguments w_L {strict} q E _.
Notation WF := (WFg true).

Definition ins (x : ent) (E : list ent) : list ent :=
  let i := lb (map e_d E) (e_d x) in firstn i E ++ x :: skipn i E.

Lemma lb_split E x : Forall (fun e => is_nan (e_d e) = false) E -> is_nan (e_d x) = false ->
  StronglySorted ele E ->
  let i := lb (map e_d E) (e_d x) in
  Forall (fun e => (f32_key (e_d e) < f32_key (e_d x))%Z) (firstn i E) /\
  Forall (fun e => (f32_key (e_d x) <= f32_key (e_d e))%Z) (skipn i E).
Proof.
  intros HN Hx HS. induction HS as [|e E HS IH HF]; cbn; [split; constructor|].
  inv HN. destruct (f32_ge (e_d e) (e_d x)) eqn:G; cbn.
  - split; [constructor|]. apply f32_le_spec in G. constructor; [lia|].
    eapply Forall_impl; [|exact HF]. unfold ele. intros. lia.
  - apply f32_le_false in G; auto. destruct (IH H2) as [A B]. split; [|exact B].
    constructor; [lia|exact A].
Qed.

Lemma ss_app l1 l2 : StronglySorted ele l1 -> StronglySorted ele l2 ->
  (forall x y, In x l1 -> In y l2 -> ele x y) -> StronglySorted ele (l1 ++ l2).
Proof.
  intros H1 H2 H. induction H1 as [|x l1 H1 IH HF]; cbn; [exact H2|].
  constructor.
  - apply IH. intros. apply H; cbn; auto.
  - apply Forall_app. split; [exact HF|]. apply Forall_forall. intros. apply H; cbn; auto.
Qed.

Lemma ss_firstn E : StronglySorted ele E -> forall n, StronglySorted ele (firstn n E).
Proof.
  induction 1 as [|x E HS IH HF]; intros [|n]; cbn; try constructor; auto.
  rewrite Forall_forall in *. intros y Hy. apply HF. eapply in_firstn; eauto.
Qed.
Lemma ss_skipn E : StronglySorted ele E -> forall n, StronglySorted ele (skipn n E).
Proof.
  induction 1 as [|x E HS IH HF]; intros [|n]; cbn; try constructor; auto.
Qed.
Lemma ins_sorted E x : Forall (fun e => is_nan (e_d e) = false) E ->
  is_nan (e_d x) = false -> StronglySorted ele E -> StronglySorted ele (ins x E).
Proof.
  intros HN Hx HS. destruct (lb_split E x HN Hx HS) as [A B]. unfold ins.
  rewrite Forall_forall in A, B. apply ss_app.
  - now apply ss_firstn.
  - constructor; [now apply ss_skipn|]. apply Forall_forall. exact B.
  - intros a b Ha [<-|Hb]; unfold ele; specialize (A _ Ha); [lia|].
    specialize (B _ Hb). lia.
Qed.

Lemma ins_length x E : length (ins x E) = S (length E).
Proof.
  unfold ins. rewrite app_length. cbn. rewrite firstn_length, skipn_length.
  pose proof (lb_le (map e_d E) (e_d x)). rewrite map_length in *. lia.
Qed.

Lemma ins_perm x E : Permutation (ins x E) (x :: E).
Proof.
  unfold ins. rewrite <- Permutation_middle. now rewrite firstn_skipn.
Qed.

Lemma firstn_snoc_split {A} (l : list A) i k : i <= k -> k <= length l -> forall x,
  firstn (S k) (firstn i l ++ x :: skipn i l) = firstn i (firstn k l) ++ x :: skipn i (firstn k l).
Proof.
  intros Hi Hk x. rewrite firstn_app, firstn_length, Nat.min_l by lia.
  rewrite firstn_firstn, Nat.min_r by lia. rewrite firstn_firstn, Nat.min_l by lia.
  f_equal. replace (S k - i) with (S (k - i)) by lia. cbn. f_equal.
  rewrite skipn_firstn_comm. reflexivity.
Qed.

Lemma nth_ins x E i : let k := lb (map e_d E) (e_d x) in
  nth_error (ins x E) i =
    if i <? k then nth_error E i else if i =? k then Some x else nth_error E (i - 1).
Proof.
  cbv zeta. unfold ins. set (k := lb _ _).
  assert (Hk : k <= length E).
  { unfold k. pose proof (lb_le (map e_d E) (e_d x)). now rewrite map_length in *. }
  assert (L : length (firstn k E) = k) by (rewrite firstn_length; lia).
  destruct (Nat.ltb_spec i k).
  - rewrite nth_error_app1 by lia. now apply nth_error_firstn'.
  - rewrite nth_error_app2 by lia. rewrite L. destruct (Nat.eqb_spec i k) as [->|N].
    + rewrite Nat.sub_diag. reflexivity.
    + replace (i - k) with (S (i - 1 - k)) by lia. cbn.
      rewrite <- (firstn_skipn k E) at 2.
      rewrite nth_error_app2 by lia. now rewrite L.
Qed.

Lemma insert_at_spec {s} q E x : WFg s q E -> is_nan (n_dist x) = false ->
  (length E = q_cap q ->
     q_auto q = false /\ forall e, nth_error E (length E - 1) = Some e ->
       (f32_key (n_dist x) <= f32_key (e_d e))%Z) ->
  exists q', insert_at q x = Some q' /\
    WFg s q' (firstn (q_cap q) (ins (mkEnt (n_id x) false (n_dist x)) E)) /\
    q_cap q' = q_cap q /\ q_L q' = q_L q /\ q_auto q' = q_auto q.
Proof.
  intros W Hx Hfull. destruct W as [[Ri Rd Rs] Wc Wn Ws Wb Wv Wu Wp WL].
  set (e := mkEnt (n_id x) false (n_dist x)).
  assert (LB : (if 0 <? q_size q then lower_bound q (n_dist x) else 0) = lb (map e_d E) (e_d e)).
  { destruct (Nat.ltb_spec 0 (q_size q)).
    - rewrite lower_bound_lb; [now rewrite Rd|]. rewrite Rd, map_length. exact Rs.
    - destruct E; [reflexivity|cbn in Rs; lia]. }
  pose proof (lb_le (map e_d E) (e_d e)) as LE. rewrite map_length in LE.
  pose proof (ins_sorted E e Wn Hx Ws) as SS.
  pose proof (nth_ins e E) as NI. cbn zeta in NI.
  assert (NN : Forall (fun e => is_nan (e_d e) = false) (ins e E)).
  { unfold ins. apply Forall_app. split; [now apply Forall_firstn'|].
    constructor; [exact Hx|now apply Forall_skipn']. }
  unfold insert_at. rewrite LB. set (k := lb (map e_d E) (e_d e)) in *.
  destruct (Nat.eqb_spec (q_size q) (q_cap q)) as [F|F].
  - destruct (Hfull ltac:(lia)) as [HA Hlast]. 
    assert (k <= length E - 1).
    { destruct (nth_error E (length E - 1)) as [y|] eqn:Y.
      2:{ apply nth_error_None in Y. lia. }
      specialize (Hlast _ eq_refl).
      destruct (lb_split E e Wn Hx Ws) as [A _]. fold k in A.
      destruct (Nat.le_gt_cases k (length E - 1)); [assumption|].
      assert (In y (firstn k E)).
      { rewrite firstn_all2 by lia. eapply nth_error_In; eauto. }
      rewrite Forall_forall in A. specialize (A _ H0). cbn in A. lia. }
    destruct (Nat.eqb_spec (q_size q) 0); [lia|]. cbn [andb].
    unfold vec_insert. cbn [q_idv q_dist q_size q_cap q_cur q_auto q_L].
    rewrite Ri, Rd, !firstn_map, !map_length, !firstn_length.
    rewrite (proj2 (Nat.leb_le k _)) by lia.
    eexists. split; [reflexivity|]. cbn [q_cap q_L q_auto].
    assert (FE : firstn (q_cap q) (ins e E) =
       firstn k (firstn (q_size q - 1) E) ++ e :: skipn k (firstn (q_size q - 1) E)).
    { unfold ins. fold k. replace (q_cap q) with (S (q_size q - 1)) by lia.
      apply firstn_snoc_split; lia. }
    split; [|auto]. rewrite FE. constructor; cbn [q_cap q_L q_auto q_cur q_size].
    + constructor; cbn.
      * rewrite map_app, ?firstn_map. cbn [map]. rewrite ?skipn_map', ?firstn_map. reflexivity.
      * rewrite map_app, ?firstn_map. cbn [map]. rewrite ?skipn_map', ?firstn_map. reflexivity.
      * rewrite app_length. cbn. rewrite firstn_length, skipn_length, firstn_length. lia.
    + rewrite <- FE, firstn_length. lia.
    + rewrite <- FE. now apply Forall_firstn'.
    + rewrite <- FE. now apply ss_firstn.
    + rewrite <- FE, firstn_length, ins_length. destruct (Nat.ltb_spec k (q_cur q)); lia.
    + rewrite <- FE. intros i y Hi Hy.
      rewrite nth_error_firstn' in Hy by (destruct (Nat.ltb_spec k (q_cur q)); lia).
      rewrite NI in Hy. fold k in Hy.
      destruct (Nat.ltb_spec k (q_cur q)).
      * destruct (Nat.ltb_spec i k); [|lia]. eapply Wv; [|exact Hy]. lia.
      * destruct (Nat.ltb_spec i k); [|lia]. eapply Wv; [|exact Hy]. lia.
    + rewrite <- FE. intros Hs y Hy.
      destruct (Nat.ltb_spec k (q_cur q)).
      * rewrite nth_error_firstn' in Hy by lia. rewrite NI in Hy. fold k in Hy.
        rewrite Nat.ltb_irrefl, Nat.eqb_refl in Hy. inv Hy. reflexivity.
      * destruct (Nat.le_gt_cases (q_cap q) (q_cur q)).
        { exfalso. assert (nth_error (firstn (q_cap q) (ins e E)) (q_cur q) = None).
          { apply nth_error_None. rewrite firstn_length. lia. }
          congruence. }
        rewrite nth_error_firstn' in Hy by lia. rewrite NI in Hy. fold k in Hy.
        destruct (Nat.ltb_spec (q_cur q) k); [now apply (Wu Hs)|].
        destruct (Nat.eqb_spec (q_cur q) k); [now inv Hy|lia].
    + exact Wp.
    + exact WL.
  - cbn [andb]. unfold vec_insert.
    rewrite Ri, Rd, !map_length.
    rewrite (proj2 (Nat.leb_le k _)) by lia.
    eexists. split; [reflexivity|]. cbn [q_cap q_L q_auto].
    split; [|auto]. rewrite (firstn_all2 (ins e E)) by (rewrite ins_length; lia).
    constructor; cbn [q_cap q_L q_auto q_cur q_size]; auto.
    + constructor; cbn; unfold ins; fold k.
      * rewrite map_app, firstn_map. cbn. now rewrite skipn_map'.
      * rewrite map_app, firstn_map. cbn. now rewrite skipn_map'.
      * fold (ins e E). change (firstn k E ++ e :: skipn k E) with (ins e E).
        rewrite ins_length. lia.
    + rewrite ins_length. lia.
    + rewrite ins_length. destruct (Nat.ltb_spec k (q_cur q)); lia.
    + intros i y Hi Hy. rewrite NI in Hy. fold k in Hy.
      destruct (Nat.ltb_spec k (q_cur q)).
      * destruct (Nat.ltb_spec i k); [|lia]. eapply Wv; [|exact Hy]. lia.
      * destruct (Nat.ltb_spec i k); [|lia]. eapply Wv; [|exact Hy]. lia.
    + intros Hs y Hy. rewrite NI in Hy. fold k in Hy.
      destruct (Nat.ltb_spec k (q_cur q)).
      * rewrite Nat.ltb_irrefl, Nat.eqb_refl in Hy. inv Hy. reflexivity.
      * destruct (Nat.ltb_spec (q_cur q) k); [now apply (Wu Hs)|].
        destruct (Nat.eqb_spec (q_cur q) k); [now inv Hy|lia].
Qed.

Lemma nth_iv E i : nth_error (map e_iv E) i = option_map e_iv (nth_error E i).
Proof. apply nth_error_map. Qed.

Lemma rel_get q E i : Rel q E -> get_unchecked q i = option_map e_nbr (nth_error E i).
Proof.
  intros [Ri Rd Rs]. unfold get_unchecked. rewrite Ri, Rd, !nth_error_map.
  destruct (nth_error E i) as [e|]; reflexivity.
Qed.

Lemma rel_pq_get q E i : Rel q E -> pq_get q i = option_map e_nbr (nth_error E i).
Proof.
  intros R. unfold pq_get. rewrite (rel_get q E) by exact R. destruct R as [Ri Rd Rs].
  destruct (Nat.ltb_spec i (q_size q)); [reflexivity|].
  rewrite (proj2 (nth_error_None E i)) by lia. reflexivity.
Qed.

Lemma rel_visited q E i : Rel q E -> get_visited q i = option_map e_vis (nth_error E i).
Proof.
  intros [Ri Rd Rs]. unfold get_visited. rewrite Ri, nth_error_map.
  destruct (Nat.ltb_spec i (q_size q)).
  - destruct (nth_error E i) as [e|]; reflexivity.
  - rewrite (proj2 (nth_error_None E i)) by lia. reflexivity.
Qed.

Definition new_ent (x : nbr) : ent := mkEnt (n_id x) false (n_dist x).

Lemma pq_insert_spec {s} q E x : WFg s q E ->
  exists q' E', pq_insert q x = Some q' /\ WFg s q' E' /\
    q_L q' = q_L q /\ q_auto q' = q_auto q /\
    (q_auto q = false -> q_cap q' = q_cap q) /\
    (q_auto q = true -> E' = if is_nan (n_dist x) then E else ins (new_ent x) E) /\
    E' = if is_nan (n_dist x) then E else firstn (q_cap q') (ins (new_ent x) E).
Proof.
  intros W. unfold pq_insert. destruct (is_nan (n_dist x)) eqn:Hx.
  { exists q, E. repeat split; auto; apply W. }
  destruct (q_auto q) eqn:HA.
  - set (q1 := if q_size q =? q_cap q then reserve q (Nat.max 1 (Nat.div2 (q_cap q))) else q).
    assert (W1 : WFg s q1 E /\ length E < q_cap q1 /\ q_L q1 = q_L q /\ q_auto q1 = q_auto q).
    { unfold q1. destruct W as [[Ri Rd Rs] Wc Wn Ws Wb Wv Wu Wp WL].
      destruct (Nat.eqb_spec (q_size q) (q_cap q)); (split; [|cbn [reserve q_cap q_L q_auto]; repeat split; auto; lia]).
      all: constructor; cbn [reserve q_cap q_cur q_auto q_L]; auto; try lia; try congruence; constructor; auto. }
    destruct W1 as (W1 & L1 & E1 & E2).
    destruct (insert_at_spec q1 E x W1 Hx) as (q' & I & W' & C1 & C2 & C3); [lia|].
    exists q', (firstn (q_cap q1) (ins (new_ent x) E)). split; [exact I|].
    rewrite C1. repeat split; auto; try congruence; try apply W'.
    intros _. apply firstn_all2. rewrite ins_length. lia.
  - destruct (Nat.eqb_spec (q_size q) (q_cap q)) as [F|F].
    + pose proof W as W0. destruct W as [R Wc Wn Ws Wb Wv Wu Wp WL].
      pose proof (r_size _ _ R) as Rs.
      destruct (q_size q) as [|k] eqn:Sz; [lia|].
      rewrite (rel_get q E) by exact R.
      destruct (nth_error E k) as [y|] eqn:Y.
      2:{ apply nth_error_None in Y. lia. }
      cbn [option_map e_nbr n_dist].
      assert (Ny : is_nan (e_d y) = false).
      { rewrite Forall_forall in Wn. apply Wn. eapply nth_error_In; eauto. }
      destruct (f32_lt (e_d y) (n_dist x)) eqn:Lt.
      * exists q, E. repeat split; auto; try apply R; try congruence.
        assert (LB : lb (map e_d E) (n_dist x) = length E).
        { pose proof (lb_le (map e_d E) (n_dist x)) as LE. rewrite map_length in LE.
          destruct (Nat.eq_dec (lb (map e_d E) (n_dist x)) (length E)); [assumption|].
          exfalso. destruct (lb_split E (new_ent x) Wn Hx Ws) as [_ B].
          cbn [new_ent e_d] in B. apply f32_lt_spec in Lt.
          rewrite Forall_forall in B. specialize (B y).
          assert (In y (skipn (lb (map e_d E) (n_dist x)) E)).
          { apply (nth_error_In _ (k - lb (map e_d E) (n_dist x))).
            rewrite nth_error_skipn'. rewrite <- Y. f_equal. lia. }
          specialize (B H). lia. }
        unfold ins. cbn [new_ent e_d]. rewrite LB, firstn_all, firstn_app.
        rewrite firstn_all2 by lia. replace (q_cap q - length E) with 0 by lia.
        cbn. now rewrite app_nil_r.
      * destruct (insert_at_spec q E x W0 Hx) as (q' & I & W' & C1 & C2 & C3).
        { intros _. split; [exact HA|]. intros z Hz.
          replace (length E - 1) with k in Hz by lia. rewrite Hz in Y. inv Y.
          now apply f32_lt_false. }
        exists q', (firstn (q_cap q) (ins (new_ent x) E)). split; [exact I|].
        rewrite C1. repeat split; auto; try apply W'; try congruence.
    + destruct (insert_at_spec q E x W Hx) as (q' & I & W' & C1 & C2 & C3).
      { intros E1. rewrite <- (r_size _ _ (w_rel _ _ W)) in E1. lia. }
      exists q', (firstn (q_cap q) (ins (new_ent x) E)). split; [exact I|].
      rewrite C1. repeat split; auto; try apply W'; try congruence.
Qed.

Lemma skip_visited_spec q E : Rel q E -> forall fuel c, length E <= c + fuel -> c <= length E ->
  exists c', skip_visited fuel q c = Some c' /\ c <= c' <= length E /\
    (forall i e, c <= i < c' -> nth_error E i = Some e -> e_vis e = true) /\
    (forall e, nth_error E c' = Some e -> e_vis e = false).
Proof.
  intros R. induction fuel as [|fuel IH]; intros c Hf Hc.
  - cbn [skip_visited]. rewrite (r_size _ _ R). destruct (Nat.ltb_spec c (length E)); [lia|].
    exists c. repeat split; try lia.
    intros e He. exfalso. apply nth_error_lt in He. lia.
  - cbn [skip_visited]. rewrite (r_size _ _ R). destruct (Nat.ltb_spec c (length E)).
    + rewrite (rel_visited q E) by exact R.
      destruct (nth_error E c) as [e|] eqn:Y.
      2:{ apply nth_error_None in Y. lia. }
      cbn [option_map]. destruct (e_vis e) eqn:V.
      * destruct (IH (S c)) as (c' & H1 & H2 & H3 & H4); [lia|lia|].
        exists c'. split; [exact H1|]. split; [lia|]. split; [|exact H4].
        intros i e' Hi Hn. destruct (Nat.eq_dec i c) as [->|N]; [congruence|].
        eapply H3; [|exact Hn]. lia.
      * exists c. repeat split; try lia. intros e' He. congruence.
    + exists c. repeat split; try lia.
      intros e He. exfalso. apply nth_error_lt in He. lia.
Qed.

Definition visit (e : ent) : ent := mkEnt (e_id e) true (e_d e).

Lemma set_nth_split {A} (x : A) : forall l i, i < length l ->
  set_nth i x l = firstn i l ++ x :: skipn (S i) l.
Proof.
  induction l as [|y l IH]; intros [|i] H; cbn in *; auto; try lia.
  f_equal. apply IH. lia.
Qed.

Lemma map_set_nth {A B} (f : A -> B) x : forall l i,
  map f (set_nth i x l) = set_nth i (f x) (map f l).
Proof. induction l as [|y l IH]; intros [|i]; cbn; auto. now rewrite IH. Qed.

Lemma map_set_nth_id {A B} (f : A -> B) x y : forall l i, nth_error l i = Some y ->
  f x = f y -> map f (set_nth i x l) = map f l.
Proof.
  induction l as [|z l IH]; intros [|i] H E; cbn in *; auto; try discriminate.
  - inv H. now rewrite E.
  - f_equal. eauto.
Qed.

Lemma closest_spec_g {s} q E : WFg s q E ->
  exists q' r, closest_notvisited q = Some (q', r) /\
    q_cap q' = q_cap q /\ q_L q' = q_L q /\ q_auto q' = q_auto q /\
    ((Nat.min (q_L q) (length E) <= q_cur q /\ q' = q /\ r = None) \/
     (q_cur q < Nat.min (q_L q) (length E) /\
      exists e, nth_error E (q_cur q) = Some e /\ (s = true -> e_vis e = false) /\ r = Some (e_nbr e) /\
        WF q' (set_nth (q_cur q) (visit e) E))).
Proof.
  intros W. pose proof W as W0. destruct W as [R Wc Wn Ws Wb Wv Wu Wp WL].
  unfold closest_notvisited, has_notvisited. rewrite (r_size _ _ R).
  destruct (Nat.ltb_spec (q_cur q) (Nat.min (q_L q) (length E))) as [H|H]; cbn [negb].
  2:{ exists q, None. repeat split; auto. }
  destruct (nth_error E (q_cur q)) as [e|] eqn:Y.
  2:{ apply nth_error_None in Y. lia. }
  assert (Ve : s = true -> e_vis e = false) by (intros Hs; exact (Wu Hs _ eq_refl)).
  set (E' := set_nth (q_cur q) (visit e) E).
  assert (S1 : set_visited q (q_cur q) true =
    Some (mkPq (q_size q) (q_cap q) (q_cur q) (map e_iv E') (map e_d E') (q_auto q) (q_L q))).
  { unfold set_visited. rewrite (r_size _ _ R).
    destruct (Nat.ltb_spec (q_cur q) (length E)); [|lia].
    destruct (Nat.leb_spec (length E) (q_cap q)); [|lia]. cbn [andb].
    rewrite (r_idv _ _ R), nth_error_map, Y. cbn [option_map e_iv].
    f_equal. f_equal.
    - unfold E'. rewrite map_set_nth, set_nth_split by (rewrite map_length; lia). reflexivity.
    - unfold E'. rewrite (map_set_nth_id e_d _ e) by (auto; reflexivity). apply R. }
  rewrite S1. set (q1 := mkPq _ _ _ _ _ _ _).
  assert (L' : length E' = length E) by apply set_nth_length.
  assert (R1 : Rel q1 E') by (constructor; cbn; auto; rewrite L'; apply R).
  destruct (skip_visited_spec q1 E' R1 (q_size q1) (S (q_cur q))) as (c & K1 & K2 & K3 & K4).
  { cbn. rewrite L', (r_size _ _ R). lia. }
  { lia. }
  rewrite K1. rewrite (rel_get q1 E') by exact R1.
  assert (Y' : nth_error E' (q_cur q) = Some (visit e)).
  { unfold E'. rewrite nth_error_set_nth, Nat.eqb_refl.
    destruct (Nat.ltb_spec (q_cur q) (length E)); [reflexivity|lia]. }
  rewrite Y'. cbn [option_map]. eexists _, _. split; [reflexivity|].
  cbn [q1 q_cap q_L q_auto q_size q_idv q_dist]. split; [reflexivity|].
  split; [reflexivity|]. split; [reflexivity|]. right. split; [exact H|].
  exists e. split; [reflexivity|]. split; [exact Ve|]. split; [reflexivity|]. fold E'.
  constructor; cbn [q_cap q_cur q_auto q_L]; auto; try lia.
  - constructor; cbn; auto. rewrite L'. apply R.
  - apply Forall_forall. intros z Hz. apply In_nth_error in Hz. destruct Hz as (i & Hz).
    unfold E' in Hz. rewrite nth_error_set_nth in Hz. rewrite Forall_forall in Wn.
    destruct (i =? q_cur q).
    + destruct (i <? length E); inv Hz. cbn. apply Wn. eapply nth_error_In; eauto.
    + apply Wn. eapply nth_error_In; eauto.
  - assert (M : map e_d E' = map e_d E).
    { unfold E'. now rewrite (map_set_nth_id e_d _ e) by (auto; reflexivity). }
    clearbody E'. clear - Ws M. revert E' M. induction Ws as [|x E Ws IH HF]; intros [|x' E'] M;
      cbn in M; try discriminate; constructor.
    + apply IH. now injection M.
    + injection M as M1 M2. apply Forall_forall. intros y Hy.
      assert (In (e_d y) (map e_d E)) by (rewrite <- M2; now apply in_map).
      apply in_map_iff in H. destruct H as (z & Z1 & Z2). rewrite Forall_forall in HF.
      specialize (HF z Z2). unfold ele in *. now rewrite M1, <- Z1.
  - intros i z Hi Hz. destruct (Nat.eq_dec i (q_cur q)) as [->|N].
    + rewrite Y' in Hz. now inv Hz.
    + destruct (Nat.le_gt_cases (S (q_cur q)) i).
      * eapply K3; [|exact Hz]. lia.
      * eapply Wv with (i := i); [lia|]. rewrite <- Hz. unfold E'.
        rewrite nth_error_set_nth. destruct (Nat.eqb_spec i (q_cur q)); [lia|reflexivity].
Qed.

Lemma closest_spec q E : WF q E ->
  exists q' r, closest_notvisited q = Some (q', r) /\
    q_cap q' = q_cap q /\ q_L q' = q_L q /\ q_auto q' = q_auto q /\
    ((Nat.min (q_L q) (length E) <= q_cur q /\ q' = q /\ r = None) \/
     (q_cur q < Nat.min (q_L q) (length E) /\
      exists e, nth_error E (q_cur q) = Some e /\ e_vis e = false /\ r = Some (e_nbr e) /\
        WF q' (set_nth (q_cur q) (visit e) E))).
Proof.
  intros W. destruct (closest_spec_g q E W) as (q' & r & C & A1 & A2 & A3 & D).
  exists q', r. split; [exact C|]. split; [exact A1|]. split; [exact A2|]. split; [exact A3|].
  destruct D as [D|(D1 & e & D2 & D3 & D4 & D5)]; [now left|]. right. split; [exact D1|].
  exists e. auto.
Qed.

Lemma reconfigure_spec q E l : WF q E -> 0 < l ->
  WF (pq_reconfigure q l) (firstn l E) /\ q_cap (pq_reconfigure q l) = l /\
  q_L (pq_reconfigure q l) = l /\ q_auto (pq_reconfigure q l) = q_auto q.
Proof.
  intros [R Wc Wn Ws Wb Wv Wu Wp WL] Hl. unfold pq_reconfigure. rewrite (r_size _ _ R).
  destruct (Nat.ltb_spec l (length E)) as [H|H]; (split; [|auto]).
  - constructor; cbn [q_cap q_L q_auto q_cur q_size]; auto.
    + destruct R as [Ri Rd Rs]. constructor; cbn.
      * now rewrite Ri, firstn_map.
      * now rewrite Rd, firstn_map.
      * rewrite firstn_length. lia.
    + rewrite firstn_length. lia.
    + now apply Forall_firstn'.
    + now apply ss_firstn.
    + rewrite firstn_length. lia.
    + intros i e Hi He. rewrite nth_error_firstn' in He by lia. eapply Wv; [|exact He]. lia.
    + intros Hs e He. pose proof (nth_error_lt _ _ _ He) as Hlt. rewrite firstn_length in Hlt.
      rewrite nth_error_firstn' in He by lia. replace (Nat.min (q_cur q) l) with (q_cur q) in He by lia.
      auto.
  - rewrite firstn_all2 by lia. constructor; cbn [q_cap q_L q_auto q_cur q_size]; auto.
    destruct R as [Ri Rd Rs]. constructor; auto.
Qed.

Lemma clear_spec q E : WF q E -> WF (pq_clear q) [].
Proof.
  intros [R Wc Wn Ws Wb Wv Wu Wp WL].
  constructor; cbn [pq_clear q_cap q_cur q_auto q_L length]; auto; try lia; try constructor; auto;
    intros; try lia; discriminate.
Qed.

Lemma new_wf l (auto : bool) : 0 < l -> WF (if auto then pq_new_auto l else pq_new l) [].
Proof.
  intros Hl. destruct auto; constructor;
    cbn [pq_new pq_new_auto q_cap q_cur q_auto q_L length]; auto; try lia; try constructor; auto;
    intros; try lia; discriminate.
Qed.

Lemma q_step_wf q E o : WF q E -> positive_op o ->
  exists q' out, q_step q o = Some (q', out) /\ exists E', WF q' E'.
Proof.
  intros W P. destruct o as [x| |l|]; cbn.
  - destruct (pq_insert_spec q E x W) as (q' & E' & I & W' & _). rewrite I. cbn. eauto.
  - destruct (closest_spec q E W) as (q' & r & C & _ & _ & _ & [(_ & -> & _)|(_ & e & _ & _ & _ & W')]);
      eauto.
  - destruct (reconfigure_spec q E l W P) as [W' _]. eauto.
  - pose proof (clear_spec q E W). eauto.
Qed.

Lemma q_run_wf ops : forall q E, WF q E -> Forall positive_op ops ->
  exists q' outs E', q_run q ops = Some (q', outs) /\ WF q' E'.
Proof.
  induction ops as [|o ops IH]; intros q E W P; cbn.
  - eauto.
  - inv P. destruct (q_step_wf q E o W H1) as (q1 & out & S & E1 & W1). rewrite S.
    destruct (IH q1 E1 W1 H2) as (q' & outs & E' & R & W'). rewrite R. eauto.
Qed.

Lemma q_run_total l (auto : bool) ops : 0 < l -> Forall positive_op ops ->
  exists q outs, q_run (if auto then pq_new_auto l else pq_new l) ops = Some (q, outs).
Proof.
  intros Hl P. destruct (q_run_wf ops _ _ (new_wf l auto Hl) P) as (q & outs & E & R & _). eauto.
Qed.

Lemma q_reachable_wf q : q_reachable q -> exists E, WF q E.
Proof.
  intros (l & auto & ops & outs & Hl & P & R).
  destruct (q_run_wf ops _ _ (new_wf l auto Hl) P) as (q' & outs' & E & R' & W).
  rewrite R in R'. inv R'. eauto.
Qed.

(** ** Iteration *)
Lemma iter_from_spec q E : Rel q E -> forall n i, i + n <= length E ->
  iter_from q i n = Some (map e_nbr (firstn n (skipn i E))).
Proof.
  intros R. induction n as [|n IH]; intros i Hi; [reflexivity|].
  cbn [iter_from]. rewrite (rel_pq_get q E) by exact R.
  destruct (nth_error E i) as [e|] eqn:Y; [|apply nth_error_None in Y; lia].
  cbn [option_map]. rewrite IH by lia.
  assert (S : skipn i E = e :: skipn (S i) E).
  { clear - Y. revert i Y. induction E as [|x E IH]; intros [|i] Y; cbn in *; try discriminate.
    - now inv Y.
    - now apply IH. }
  now rewrite S.
Qed.

Lemma iter_spec q E : Rel q E -> pq_iter q = Some (map e_nbr (firstn (q_L q) E)).
Proof.
  intros R. unfold pq_iter. rewrite (iter_from_spec q E) by (auto; rewrite (r_size _ _ R); lia).
  cbn [skipn]. rewrite (r_size _ _ R). do 2 f_equal.
  destruct (Nat.le_gt_cases (q_L q) (length E)).
  - now rewrite Nat.min_l.
  - rewrite Nat.min_r by lia. rewrite firstn_all. symmetry. apply firstn_all2. lia.
Qed.

(** ** C14 *)
Definition zle (x y : nbr) : Prop := (f32_key (n_dist x) <= f32_key (n_dist y))%Z.

(** [E] are the best candidates among [xs] and [rest] the ones that fell out. *)
Record Best (q : pq) (E : list ent) (xs rest : list nbr) : Prop := {
  b_perm : Permutation (valid xs) (map e_nbr E ++ rest);
  b_le : forall e r, In e E -> In r rest -> zle (e_nbr e) r;
  b_full : rest <> [] -> q_auto q = false /\ length E = q_cap q
}.

Lemma valid_app l l' : valid (l ++ l') = valid l ++ valid l'.
Proof. apply filter_app. Qed.

Lemma ss_split (l1 l2 : list ent) : StronglySorted ele (l1 ++ l2) ->
  forall x y, In x l1 -> In y l2 -> ele x y.
Proof.
  induction l1 as [|z l1 IH]; cbn; intros H x y Hx Hy; [contradiction|].
  inv H. destruct Hx as [<-|Hx]; [|now apply IH].
  rewrite Forall_forall in H3. apply H3. apply in_or_app. now right.
Qed.

Lemma best_insert q E xs rest x q' E' : WF q E -> Best q E xs rest ->
  pq_insert q x = Some q' -> WF q' E' ->
  q_auto q' = q_auto q -> (q_auto q = false -> q_cap q' = q_cap q) ->
  (q_auto q = true -> E' = if is_nan (n_dist x) then E else ins (new_ent x) E) ->
  E' = (if is_nan (n_dist x) then E else firstn (q_cap q') (ins (new_ent x) E)) ->
  exists rest', Best q' E' (xs ++ [x]) rest'.
Proof.
  intros W [Bp Bl Bf] I W' HA HC HAuto HE.
  assert (V : valid (xs ++ [x]) = valid xs ++ if is_nan (n_dist x) then [] else [x]).
  { rewrite valid_app. f_equal. unfold valid. cbn. destruct (is_nan (n_dist x)); reflexivity. }
  destruct (is_nan (n_dist x)) eqn:Hx.
  { subst E'. exists rest. constructor; auto.
    - now rewrite V, app_nil_r.
    - intros Hr. destruct (Bf Hr) as [B1 B2]. split; [congruence|]. rewrite HC by exact B1. exact B2. }
  set (I2 := ins (new_ent x) E) in *.
  pose proof (ins_sorted E (new_ent x) (w_nan _ _ W) Hx (w_sort _ _ W)) as SS. fold I2 in SS.
  pose proof (ins_perm (new_ent x) E) as P. fold I2 in P.
  exists (map e_nbr (skipn (q_cap q') I2) ++ rest). constructor.
  - rewrite V. rewrite app_assoc. subst E'. rewrite <- map_app, firstn_skipn.
    rewrite (Permutation_map e_nbr P), Bp. cbn [map app].
    replace (e_nbr (new_ent x)) with x by (destruct x; reflexivity).
    symmetry. apply Permutation_cons_append.
  - intros e r He Hr. apply in_app_or in Hr. destruct Hr as [Hr|Hr].
    + apply in_map_iff in Hr. destruct Hr as (y & <- & Hy). subst E'.
      rewrite <- (firstn_skipn (q_cap q') I2) in SS. exact (ss_split _ _ SS e y He Hy).
    + destruct (Bf ltac:(intros ->; contradiction)) as [B1 B2].
      rewrite HC in HE by exact B1.
      assert (HeI : In e I2) by (rewrite HE in He; eapply in_firstn; eauto).
      apply (Permutation_in e P) in HeI. destruct HeI as [<-|HeI]; [|now apply Bl].
      (* the new element is kept although the queue was full: it is not farther than the
         last old one *)
      destruct (nth_error E (length E - 1)) as [z|] eqn:Z.
      2:{ apply nth_error_None in Z. pose proof (w_pos _ _ W). lia. }
      assert (In z E) by (eapply nth_error_In; eauto).
      pose proof (Bl z r H Hr) as ZR. unfold zle in *. cbn [e_nbr n_dist] in *.
      assert (K : In z (skipn (q_cap q) I2) \/ (f32_key (n_dist x) <= f32_key (e_d z))%Z).
      { destruct (Z.le_gt_cases (f32_key (n_dist x)) (f32_key (e_d z))); [now right|].
        exfalso. assert (LB : lb (map e_d E) (n_dist x) = length E).
        { pose proof (lb_le (map e_d E) (n_dist x)) as LE. rewrite map_length in LE.
          destruct (Nat.eq_dec (lb (map e_d E) (n_dist x)) (length E)); [assumption|].
          exfalso. destruct (lb_split E (new_ent x) (w_nan _ _ W) Hx (w_sort _ _ W)) as [_ B].
          cbn [new_ent e_d] in B. rewrite Forall_forall in B. specialize (B z).
          assert (In z (skipn (lb (map e_d E) (n_dist x)) E)).
          { apply (nth_error_In _ (length E - 1 - lb (map e_d E) (n_dist x))).
            rewrite nth_error_skipn'. rewrite <- Z. f_equal. lia. }
          specialize (B H1). lia. }
        assert (E' = E).
        { rewrite HE. unfold I2, ins. cbn [new_ent e_d]. rewrite LB, firstn_all, firstn_app.
          rewrite firstn_all2 by lia. replace (q_cap q - length E) with 0 by lia.
          cbn. now rewrite app_nil_r. }
        subst E'. rewrite H1 in He. 
        pose proof (ss_split (firstn (length E - 1) E) (skipn (length E - 1) E)) as SP.
        rewrite firstn_skipn in SP. specialize (SP (w_sort _ _ W)).
        assert (Sz : skipn (length E - 1) E = [z]).
        { assert (LS : length (skipn (length E - 1) E) = 1).
          { rewrite skipn_length. pose proof (w_pos _ _ W). lia. }
          pose proof (nth_error_skipn' (length E - 1) E 0) as N0. rewrite Nat.add_0_r, Z in N0.
          destruct (skipn (length E - 1) E) as [|a [|b l]]; cbn in *; try lia. congruence. }
        rewrite <- (firstn_skipn (length E - 1) E) in He. rewrite Sz in He.
        apply in_app_or in He. destruct He as [He|[He|[]]].
        - specialize (SP _ z He). rewrite Sz in SP. specialize (SP (or_introl eq_refl)).
          unfold ele in SP. cbn in SP. lia.
        - rewrite He in H0. cbn in H0. lia. }
      destruct K as [K|K]; [|cbn; lia].
      rewrite HE in He. rewrite <- (firstn_skipn (q_cap q) I2) in SS.
      pose proof (ss_split _ _ SS _ z He K) as EL. unfold ele in EL. cbn in EL |- *. lia.
  - intros Hne.
    assert (Hf : q_auto q = false).
    { destruct (q_auto q) eqn:A; [|reflexivity]. exfalso. apply Hne.
      destruct rest as [|r rest]; [|destruct (Bf ltac:(discriminate)) as [? _]; discriminate].
      rewrite app_nil_r. rewrite HAuto in HE by reflexivity.
      assert (L : length (firstn (q_cap q') I2) = length I2) by now rewrite <- HE.
      rewrite firstn_length in L. rewrite skipn_all2 by lia. reflexivity. }
    split; [congruence|]. rewrite HC by exact Hf.
    rewrite HE, firstn_length, HC by exact Hf. unfold I2. rewrite ins_length.
    destruct rest as [|r rest].
    + rewrite app_nil_r in Hne. 
      destruct (Nat.le_gt_cases (q_cap q') (length E)).
      * rewrite HC in H by exact Hf. lia.
      * exfalso. apply Hne. rewrite skipn_all2; [reflexivity|].
        unfold I2. rewrite ins_length. lia.
    + destruct (Bf ltac:(discriminate)) as [_ B2]. lia.
Qed.

Lemma best_next q E xs rest q' r E' : WF q E -> Best q E xs rest ->
  q_cap q' = q_cap q -> q_auto q' = q_auto q ->
  (E' = E \/ exists e, nth_error E (q_cur q) = Some e /\ E' = set_nth (q_cur q) (visit e) E) ->
  closest_notvisited q = Some (q', r) -> Best q' E' xs rest.
Proof.
  intros W [Bp Bl Bf] HC HA HE _.
  assert (M : map e_nbr E' = map e_nbr E /\ length E' = length E).
  { destruct HE as [->|(e & He & ->)]; [auto|]. split; [|apply set_nth_length].
    apply (map_set_nth_id e_nbr _ e); auto. }
  destruct M as [M1 M2]. constructor.
  - now rewrite M1.
  - intros e x He Hx. assert (In (e_nbr e) (map e_nbr E)) by (rewrite <- M1; now apply in_map).
    apply in_map_iff in H. destruct H as (y & <- & Hy). now apply Bl.
  - intros Hr. destruct (Bf Hr). rewrite HA, HC, M2. auto.
Qed.

Lemma q_run_best ops : forall q E xs rest, WF q E -> Best q E xs rest -> Forall plain_op ops ->
  exists q' outs E' rest', q_run q ops = Some (q', outs) /\ WF q' E' /\
    Best q' E' (xs ++ inserted ops) rest' /\ q_L q' = q_L q /\ q_auto q' = q_auto q.
Proof.
  induction ops as [|o ops IH]; intros q E xs rest W B P; cbn.
  - rewrite app_nil_r. exists q, [], E, rest. split; [reflexivity|]. split; [exact W|].
    split; [exact B|]. auto.
  - inv P. destruct o as [x| | |]; cbn in H1; try contradiction; cbn [q_step].
    + destruct (pq_insert_spec q E x W) as (q1 & E1 & I & W1 & A1 & A2 & A3 & A4 & A5).
      rewrite I. cbn [option_map].
      destruct (best_insert q E xs rest x q1 E1) as (rest1 & B1); auto.
      destruct (IH q1 E1 (xs ++ [x]) rest1 W1 B1 H2) as (q' & outs & E' & rest' & R & W' & B' & C1 & C2).
      rewrite R. do 4 eexists. split; [reflexivity|]. split; [exact W'|].
      rewrite <- app_assoc in B'. cbn in B'. split; [exact B'|]. split; congruence.
    + destruct (closest_spec q E W) as (q1 & r & C & A1 & A2 & A3 & D).
      rewrite C.
      destruct D as [(D1 & D2 & D3)|(D1 & e & D2 & D3 & D4 & W1)].
      * assert (B1 : Best q1 E xs rest) by (now subst q1).
        destruct (IH q1 E xs rest) as (q' & outs & E' & rest' & R & W' & B' & C1 & C2); auto;
          [now subst q1|].
        rewrite R. do 4 eexists. split; [reflexivity|]. split; [exact W'|].
        split; [exact B'|]. split; congruence.
      * assert (B1 : Best q1 (set_nth (q_cur q) (visit e) E) xs rest).
        { eapply best_next; [exact W|exact B|exact A1|exact A3| |exact C]. eauto. }
        destruct (IH q1 _ xs rest W1 B1) as (q' & outs & E' & rest' & R & W' & B' & C1 & C2); auto.
        rewrite R. do 4 eexists. split; [reflexivity|]. split; [exact W'|].
        split; [exact B'|]. split; congruence.
Qed.

Lemma in_nbr_valid xs x : In x (valid xs) -> is_nan (n_dist x) = false.
Proof.
  unfold valid. intros H. apply filter_In in H. destruct H as [_ H].
  now apply negb_true_iff in H.
Qed.

Lemma map_nbr_sorted E : Forall (fun e => is_nan (e_d e) = false) E -> StronglySorted ele E ->
  StronglySorted closer (map e_nbr E).
Proof.
  intros HN HS. induction HS as [|x E HS IH HF]; cbn; constructor.
  - inv HN. auto.
  - inv HN. apply Forall_forall. intros y Hy. apply in_map_iff in Hy.
    destruct Hy as (z & <- & Hz). rewrite Forall_forall in HF, H2.
    apply f32_le_spec. split; [exact H1|]. split; [exact (H2 z Hz)|exact (HF z Hz)].
Qed.

Lemma c14_lemma l (auto : bool) ops : 0 < l -> Forall plain_op ops ->
  exists q outs best rest,
    q_run (if auto then pq_new_auto l else pq_new l) ops = Some (q, outs) /\
    pq_iter q = Some best /\
    StronglySorted closer best /\
    length best = Nat.min l (length (valid (inserted ops))) /\
    Permutation (valid (inserted ops)) (best ++ rest) /\
    (forall x y, In x best -> In y rest -> closer x y).
Proof.
  intros Hl P. set (q0 := if auto then pq_new_auto l else pq_new l).
  assert (B0 : Best q0 [] [] []) by (constructor; cbn; auto; contradiction).
  destruct (q_run_best ops q0 [] [] [] (new_wf l auto Hl) B0 P)
    as (q & outs & E & rest & R & W & B & C1 & C2). cbn [app] in B.
  exists q, outs, (map e_nbr (firstn (q_L q) E)), (map e_nbr (skipn (q_L q) E) ++ rest).
  split; [exact R|]. split; [apply iter_spec, W|].
  assert (HL : q_L q = l) by (rewrite C1; unfold q0; destruct auto; reflexivity).
  assert (PM : Permutation (valid (inserted ops)) ((map e_nbr (firstn (q_L q) E)) ++ map e_nbr (skipn (q_L q) E) ++ rest)).
  { rewrite app_assoc, <- map_app, firstn_skipn. apply B. }
  split; [|split; [|split]].
  - apply map_nbr_sorted; [apply Forall_firstn', W|apply ss_firstn, W].
  - rewrite map_length, firstn_length, HL. rewrite (Permutation_length (b_perm _ _ _ _ B)).
    rewrite app_length, map_length. destruct rest as [|r rest]; [cbn; lia|].
    destruct (b_full _ _ _ _ B ltac:(discriminate)) as [F1 F2].
    pose proof (w_L _ _ W F1). lia.
  - exact PM.
  - intros x y Hx Hy.
    assert (is_nan (n_dist x) = false).
    { apply (in_nbr_valid (inserted ops)). eapply Permutation_in; [symmetry; exact PM|].
      apply in_or_app. now left. }
    assert (is_nan (n_dist y) = false).
    { apply (in_nbr_valid (inserted ops)). eapply Permutation_in; [symmetry; exact PM|].
      apply in_or_app. now right. }
    apply f32_le_spec. repeat split; auto.
    apply in_map_iff in Hx. destruct Hx as (e & <- & He).
    apply in_app_or in Hy. destruct Hy as [Hy|Hy].
    + apply in_map_iff in Hy. destruct Hy as (f & <- & Hf).
      pose proof (w_sort _ _ W) as SS. rewrite <- (firstn_skipn (q_L q) E) in SS.
      exact (ss_split _ _ SS e f He Hf).
    + apply (b_le _ _ _ _ B); [eapply in_firstn; eauto|exact Hy].
Qed.

(** ** C15 *)
Lemma c15_next_lemma q : q_reachable q ->
  exists q' r, closest_notvisited q = Some (q', r) /\
  match r with
  | Some x => exists i, open_at q i /\ pq_get q i = Some x /\
      (forall j, j < i -> get_visited q j = Some true) /\
      (forall j y, open_at q j -> pq_get q j = Some y -> closer x y) /\
      get_visited q' i = Some true /\
      (forall j, j <> i -> get_visited q' j = get_visited q j) /\
      (forall j, pq_get q' j = pq_get q j)
  | None => q' = q /\ forall i, ~ open_at q i
  end.
Proof.
  intros Rq. destruct (q_reachable_wf q Rq) as (E & W). pose proof (w_rel _ _ W) as R.
  destruct (closest_spec q E W) as (q' & r & C & A1 & A2 & A3 & D). exists q', r.
  split; [exact C|]. destruct D as [(D1 & D2 & D3)|(D1 & e & D2 & D3 & D4 & W1)].
  - subst q' r. split; [reflexivity|]. intros i [O1 O2].
    rewrite (r_size _ _ R) in O1. rewrite (rel_visited q E) in O2 by exact R.
    destruct (nth_error E i) as [e|] eqn:Y; [|discriminate]. cbn in O2.
    assert (e_vis e = true) by (eapply (w_vis _ _ W) with (i := i); [lia|exact Y]). congruence.
  - subst r. exists (q_cur q). pose proof (w_rel _ _ W1) as R1.
    assert (Lt : q_cur q < length E) by lia.
    repeat split.
    + now rewrite (r_size _ _ R).
    + rewrite (rel_visited q E) by exact R. rewrite D2. cbn. now rewrite D3.
    + rewrite (rel_pq_get q E) by exact R. now rewrite D2.
    + intros j Hj. rewrite (rel_visited q E) by exact R.
      destruct (nth_error E j) as [y|] eqn:Y; [|apply nth_error_None in Y; lia].
      cbn. f_equal. exact (w_vis _ _ W j y Hj Y).
    + intros j y [O1 O2] Hy. rewrite (rel_visited q E) in O2 by exact R.
      rewrite (rel_pq_get q E) in Hy by exact R.
      destruct (nth_error E j) as [z|] eqn:Y; [|discriminate]. cbn in O2, Hy. inv Hy.
      pose proof (w_nan _ _ W) as HN. rewrite Forall_forall in HN.
      apply f32_le_spec. repeat split.
      * apply HN. eapply nth_error_In; eauto.
      * apply HN. eapply nth_error_In; eauto.
      * destruct (Nat.lt_trichotomy j (q_cur q)) as [L|[L|L]].
        -- assert (e_vis z = true) by (eapply (w_vis _ _ W); eauto). congruence.
        -- subst j. cbn. replace z with e by congruence. lia.
        -- pose proof (ss_split (firstn j E) (skipn j E)) as SP. rewrite firstn_skipn in SP.
           apply (SP (w_sort _ _ W)).
           ++ apply (nth_error_In _ (q_cur q)). rewrite nth_error_firstn' by lia. exact D2.
           ++ apply (nth_error_In _ 0). rewrite nth_error_skipn', Nat.add_0_r. exact Y.
    + rewrite (rel_visited q' _ _ R1), nth_error_set_nth, Nat.eqb_refl.
      destruct (Nat.ltb_spec (q_cur q) (length E)); [reflexivity|lia].
    + intros j Hj. rewrite (rel_visited q' _ _ R1), (rel_visited q E) by exact R.
      rewrite nth_error_set_nth. destruct (Nat.eqb_spec j (q_cur q)); [contradiction|reflexivity].
    + intros j. rewrite (rel_pq_get q' _ _ R1), (rel_pq_get q E) by exact R.
      rewrite nth_error_set_nth. destruct (Nat.eqb_spec j (q_cur q)) as [->|]; [|reflexivity].
      destruct (Nat.ltb_spec (q_cur q) (length E)); [now rewrite D2|lia].
Qed.

(** Returned ids: [seen] have been returned, [fut] are ids still to be inserted. *)
Lemma in_set_nth {A} (x y : A) l i : In y (set_nth i x l) -> y = x \/ In y l.
Proof.
  revert i. induction l as [|z l IH]; intros [|i] H; cbn in *; auto.
  - destruct H; auto.
  - destruct H as [->|H]; auto. apply IH in H. tauto.
Qed.

Lemma q_run_nodup ops : forall q E seen, WF q E -> Forall positive_op ops ->
  NoDup (map e_id E ++ map n_id (inserted ops)) ->
  (forall e, In e E -> In (e_id e) seen -> e_vis e = true) ->
  (forall i, In i seen -> ~ In i (map n_id (inserted ops))) ->
  NoDup seen ->
  forall q' outs, q_run q ops = Some (q', outs) -> NoDup (seen ++ map n_id outs).
Proof.
  induction ops as [|o ops IH]; intros q E seen W P ND HV HF NS q' outs H; cbn in H.
  - inv H. cbn. now rewrite app_nil_r.
  - inv P. destruct o as [x| |l|]; cbn [q_step] in H.
    + destruct (pq_insert_spec q E x W) as (q1 & E1 & I & W1 & A1 & A2 & A3 & A4 & A5).
      rewrite I in H. cbn [option_map] in H.
      destruct (q_run q1 ops) as [[q2 outs2]|] eqn:R; [|discriminate]. inv H.
      cbn [inserted map] in *.
      assert (Sub : forall e, In e (ins (new_ent x) E) -> e = new_ent x \/ In e E).
      { intros e He. apply (Permutation_in e (ins_perm (new_ent x) E)) in He.
        destruct He; auto. }
      assert (NDI : NoDup (map e_id (ins (new_ent x) E) ++ map n_id (inserted ops))).
      { eapply Permutation_NoDup; [|exact ND].
        rewrite (Permutation_map e_id (ins_perm (new_ent x) E)). cbn.
        symmetry. apply Permutation_middle. }
      assert (NDE : NoDup (map e_id E ++ map n_id (inserted ops))).
      { apply NoDup_remove_1 in ND. exact ND. }
      eapply IH with (E := if is_nan (n_dist x) then E else firstn (q_cap q1) (ins (new_ent x) E));
        [exact W1|exact H3| | | |exact NS|exact R].
      * destruct (is_nan (n_dist x)); [exact NDE|].
        rewrite <- (firstn_skipn (q_cap q1) (ins (new_ent x) E)) in NDI.
        rewrite map_app, <- app_assoc in NDI. apply NoDup_app_inv in NDI.
        destruct NDI as (N1 & N2 & N3). apply NoDup_app_inv in N2. destruct N2 as (_ & N4 & _).
        apply NoDup_app_intro; auto. intros i Hi Hj. apply (N3 i Hi). apply in_or_app. now right.
      * intros e He Hs. destruct (is_nan (n_dist x)); [now apply HV|].
        apply in_firstn in He. destruct (Sub e He) as [->|He']; [|now apply HV].
        cbn in Hs. exfalso. apply (HF _ Hs). now left.
      * intros i Hi Hj. apply (HF i Hi). now right.
    + destruct (closest_spec q E W) as (q1 & r & C & A1 & A2 & A3 & D).
      rewrite C in H. destruct (q_run q1 ops) as [[q2 outs2]|] eqn:R; [|discriminate].
      destruct D as [(D1 & D2 & D3)|(D1 & e & D2 & D3 & D4 & W1)].
      * subst r q1. inv H. eapply IH; eauto.
      * subst r. inv H. cbn [map e_nbr n_id].
        assert (Hin : In e E) by (eapply nth_error_In; eauto).
        assert (Hns : ~ In (e_id e) seen) by (intros Hs; specialize (HV e Hin Hs); congruence).
        cbn [inserted] in *.
        replace (seen ++ e_id e :: map n_id outs2) with ((seen ++ [e_id e]) ++ map n_id outs2)
          by now rewrite <- app_assoc.
        assert (ME : map e_id (set_nth (q_cur q) (visit e) E) = map e_id E)
          by (apply (map_set_nth_id e_id _ e); auto).
        eapply IH; [exact W1|exact H3| | | | |exact R].
        -- now rewrite ME.
        -- intros y Hy Hs. apply In_nth_error in Hy. destruct Hy as (j & Hj).
           rewrite nth_error_set_nth in Hj.
           destruct (Nat.eqb_spec j (q_cur q)) as [Ej|Nj].
           ++ destruct (j <? length E); inv Hj. reflexivity.
           ++ apply in_app_or in Hs. destruct Hs as [Hs|[Hs|[]]].
              ** apply HV; auto. eapply nth_error_In; eauto.
              ** exfalso. apply NoDup_app_inv in ND. destruct ND as (ND & _).
                 apply Nj. eapply (proj1 (NoDup_nth_error (map e_id E))); [exact ND| |].
                 --- rewrite map_length. apply nth_error_lt in Hj. exact Hj.
                 --- rewrite !nth_error_map, Hj, D2. cbn. now rewrite Hs.
        -- intros i Hi Hj. apply in_app_or in Hi. destruct Hi as [Hi|[<-|[]]].
           ++ exact (HF i Hi Hj).
           ++ apply NoDup_app_inv in ND. destruct ND as (_ & _ & ND).
              apply (ND (e_id e)); [now apply in_map|exact Hj].
        -- apply NoDup_app_intro; auto.
           ++ repeat constructor. intros [].
           ++ intros i Hi [<-|[]]. contradiction.
    + destruct (q_run _ ops) as [[q2 outs2]|] eqn:R; [|discriminate]. inv H.
      destruct (reconfigure_spec q E l W H2) as (W1 & _). cbn [inserted] in *.
      eapply IH; [exact W1|exact H3| | |exact HF|exact NS|exact R].
      * rewrite <- (firstn_skipn l E) in ND. rewrite map_app, <- app_assoc in ND.
        apply NoDup_app_inv in ND. destruct ND as (N1 & N2 & N3).
        apply NoDup_app_inv in N2. destruct N2 as (_ & N4 & _).
        apply NoDup_app_intro; auto. intros i Hi Hj. apply (N3 i Hi). apply in_or_app. now right.
      * intros e He Hs. apply HV; auto. eapply in_firstn; eauto.
    + destruct (q_run _ ops) as [[q2 outs2]|] eqn:R; [|discriminate]. inv H.
      pose proof (clear_spec q E W) as W1. cbn [inserted] in *.
      eapply IH; [exact W1|exact H3| | |exact HF|exact NS|exact R].
      * cbn. now apply NoDup_app_inv in ND.
      * intros e [].
Qed.

Lemma c15_once_lemma l (auto : bool) ops q outs : 0 < l -> Forall positive_op ops ->
  NoDup (map n_id (inserted ops)) ->
  q_run (if auto then pq_new_auto l else pq_new l) ops = Some (q, outs) ->
  NoDup (map n_id outs).
Proof.
  intros Hl P ND R.
  refine (q_run_nodup ops _ [] [] (new_wf l auto Hl) P ND _ _ _ q outs R);
    [intros e []|intros i []|constructor].
Qed.

Lemma insert_zero_cap x : is_nan (n_dist x) = false -> pq_insert (pq_new 0) x = None.
Proof. intros H. unfold pq_insert. now rewrite H. Qed.
