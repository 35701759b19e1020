(** C67-C69: flat search, output buffers and post processors. *)
From Verif.Lib Require Import Base Lists F32.
From Verif.Search Require Import ProofsKnn.
From Verif.Filtered Require Import Proofs.
From Verif.Output Require Import Model Spec Proofs.

(** ** C67: brute force search *)

(** C67.  For every scan, every number of results [k] and every output buffer, the brute
    force search writes the [k] closest of the scanned vectors, closest first, as many as fit,
    and reports how many it wrote and how many it compared. *)
Theorem C67_flat_search_exact :
  forall S (B : buf S nat) cap at_ k scan xs, log_buffer B cap at_ -> 0 < k -> take_cap cap xs = xs ->
  exists best,
    closest k (valid scan) best /\
    (NoDup (map n_id scan) -> NoDup (map n_id best)) /\
    (length (valid scan) <= k -> Permutation best (valid scan)) /\
    flat_search k (pp_copy B) scan false (at_ xs) =
      SOk (at_ (take_cap cap (xs ++ map to_item best)), length scan,
           length (take_cap cap (xs ++ map to_item best)) - length xs).
Proof.
  intros S B cap at_ k scan xs L Hk F. destruct (flat_best k scan Hk) as (q & best & E1 & E2 & C).
  exists best. split; [exact C|]. split; [|split].
  - intros ND. destruct C as (_ & _ & others & P & _).
    apply (NoDup_valid_ids scan) in ND. eapply NoDup_map_perm_ids in ND; [|exact P].
    rewrite map_app in ND. clear - ND. induction (map n_id best) as [|x l IH]; [constructor|].
    cbn [app] in ND. inversion ND as [|? ? N1 N2]; subst. constructor; [|auto]. intros H. apply N1, in_or_app. now left.
  - intros Hl. destruct C as (_ & EL & others & P & _).
    assert (O : length others = 0) by (apply Permutation_length in P; rewrite app_length in P; lia).
    destruct others; [|discriminate O]. rewrite app_nil_r in P. now symmetry.
  - unfold flat_search. rewrite E1, E2. rewrite firstn_all2 by (eapply closest_length; eauto).
    unfold pp_copy. now rewrite (extend_wrote B cap at_ L) by exact F.
Qed.
Print Assumptions C67_flat_search_exact.

(** ... and with any other post processor, that one is given exactly those results. *)
Theorem C67_flat_search_any_processor :
  forall S (process : list nbr -> S -> sres (S * nat)) k scan b, 0 < k ->
  exists best, closest k (valid scan) best /\
    match process best b with
    | SOk (b', n) => flat_search k process scan false b = SOk (b', length scan, n)
    | SErr => flat_search k process scan false b = SErr
    | SPanic => flat_search k process scan false b = SPanic
    | SFuel => flat_search k process scan false b = SFuel
    end.
Proof.
  intros S process k scan b Hk. destruct (flat_best k scan Hk) as (q & best & E1 & E2 & C).
  exists best. split; [exact C|]. unfold flat_search. rewrite E1, E2.
  rewrite firstn_all2 by (eapply closest_length; eauto). now destruct (process best b) as [[b' n]| | |].
Qed.
Print Assumptions C67_flat_search_any_processor.

(** A scan that ends with an error never produces results. *)
Theorem C67_flat_search_error :
  forall S (process : list nbr -> S -> sres (S * nat)) k scan b, 0 < k ->
  flat_search k process scan true b = SErr.
Proof.
  intros S process k scan b Hk. destruct (flat_best k scan Hk) as (q & best & E1 & E2 & C).
  unfold flat_search. now rewrite E1.
Qed.
Print Assumptions C67_flat_search_error.

Example C67_case :
  flat_search 2 (pp_copy (idd_buf nat)) [mkNbr 4 f32_three; mkNbr 9 f32_one; mkNbr 6 f32_nan; mkNbr 5 f32_two] false
    (idd_at [0; 0; 7] [f32_zero; f32_zero; f32_inf] []) =
  SOk (idd_at [0; 0; 7] [f32_zero; f32_zero; f32_inf] [(9, f32_one); (5, f32_two)], 4, 2).
Proof. vm_compute. reflexivity. Qed.

(** ** C68: output buffers *)

(** C68.  Whatever is pushed to or extended into a buffer, in whatever order, it never panics;
    it stores what it was offered, in order, until it is full, leaves the other positions as
    they were, and its answers tell exactly whether it is full, how many items an extension
    stored, how many it holds and how many more it takes. *)
Theorem C68_id_distance :
  forall I (ids : list I) ds, length ids = length ds ->
  exists b, idd_new ids ds = Some b /\
  forall ops, let kept := firstn (length ids) (flat_map offers ops) in
  exists b', bsession (idd_buf I) b ops = Some (b', answers (Some (length ids)) 0 ops) /\
    i_ids b' = overlay (map fst kept) ids /\ i_dists b' = overlay (map snd kept) ds /\
    b_len (idd_buf I) b' = length kept /\ b_hint (idd_buf I) b' = Some (length ids - length kept).
Proof.
  intros I ids ds L. exists (idd_at ids ds []). split.
  { unfold idd_new. now rewrite L, Nat.eqb_refl. }
  intros ops kept. pose proof (idd_log ids ds L) as G.
  assert (F : take_cap (Some (length ids)) kept = kept) by (apply take_cap_fits; unfold kept; rewrite firstn_length; lia).
  exists (idd_at ids ds kept). split; [|split; [reflexivity|split; [reflexivity|split]]].
  - apply (session_spec _ _ _ G ops [] (@firstn_nil _ _)).
  - exact (lg_len _ _ _ G kept F).
  - exact (lg_hint _ _ _ G kept F).
Qed.
Print Assumptions C68_id_distance.

Theorem C68_id_distance_data :
  forall I A (ids : list I) ds (das : list A), length ids = length ds -> length ids = length das ->
  exists b, ida_new ids ds das = Some b /\
  forall ops, let kept := firstn (length ids) (flat_map offers ops) in
  exists b', bsession (ida_buf I A) b ops = Some (b', answers (Some (length ids)) 0 ops) /\
    a_ids b' = overlay (map (fun x => fst (fst x)) kept) ids /\ a_dists b' = overlay (map snd kept) ds /\
    a_data b' = overlay (map (fun x => snd (fst x)) kept) das /\
    b_len (ida_buf I A) b' = length kept /\ b_hint (ida_buf I A) b' = Some (length ids - length kept).
Proof.
  intros I A ids ds das L L'. exists (ida_at ids ds das []). split.
  { unfold ida_new. rewrite <- L, <- L', Nat.eqb_refl. reflexivity. }
  intros ops kept. pose proof (ida_log ids ds das L L') as G.
  assert (F : take_cap (Some (length ids)) kept = kept) by (apply take_cap_fits; unfold kept; rewrite firstn_length; lia).
  exists (ida_at ids ds das kept). split; [|split; [reflexivity|split; [reflexivity|split; [reflexivity|split]]]].
  - apply (session_spec _ _ _ G ops [] (@firstn_nil _ _)).
  - exact (lg_len _ _ _ G kept F).
  - exact (lg_hint _ _ _ G kept F).
Qed.
Print Assumptions C68_id_distance_data.

Theorem C68_back_inserter :
  forall I (l : list (item I)) ops, let kept := firstn (length l) (flat_map offers ops) in
  exists b', bsession (back_buf I) (back_new l) ops = Some (b', answers (Some (length l)) 0 ops) /\
    k_buf b' = overlay kept l /\
    b_len (back_buf I) b' = length kept /\ b_hint (back_buf I) b' = Some (length l - length kept).
Proof.
  intros I l ops kept. pose proof (back_log l) as G.
  assert (F : take_cap (Some (length l)) kept = kept) by (apply take_cap_fits; unfold kept; rewrite firstn_length; lia).
  exists (back_at l kept). split; [|split; [reflexivity|split]].
  - apply (session_spec _ _ _ G ops [] (@firstn_nil _ _)).
  - exact (lg_len _ _ _ G kept F).
  - exact (lg_hint _ _ _ G kept F).
Qed.
Print Assumptions C68_back_inserter.

Theorem C68_vector :
  forall I (l : list (item I)) ops,
  bsession (vec_buf I) l ops = Some (l ++ flat_map offers ops, answers None (length l) ops).
Proof. intros I l ops. exact (session_spec _ _ _ vec_log ops l eq_refl). Qed.
Print Assumptions C68_vector.

Theorem C68_disk_output :
  forall A V (ids : list nat) ds (das : list A) (vecs : option (list (option V))),
  length ids = length ds -> length ids = length das ->
  (forall v, vecs = Some v -> length ids = length v) ->
  exists b, sout_new ids ds das vecs = SOk b /\
  forall ops, let kept := firstn (length ids) (flat_map offers ops) in
  exists b', bsession (sout_buf A V) b ops = Some (b', answers (Some (length ids)) 0 ops) /\
    a_ids (o_out b') = overlay (map (fun x => fst (fst (fst x))) kept) ids /\
    a_dists (o_out b') = overlay (map snd kept) ds /\
    a_data (o_out b') = overlay (map (fun x => snd (fst (fst x))) kept) das /\
    o_vecs b' = option_map (overlay (map (fun x => snd (fst x)) kept)) vecs /\
    b_len (sout_buf A V) b' = length kept /\ b_hint (sout_buf A V) b' = Some (length ids - length kept).
Proof.
  intros A V ids ds das vecs L L' Lv. exists (sout_at ids ds das vecs []). split.
  { unfold sout_new, ida_new. rewrite <- L, <- L', Nat.eqb_refl. cbn [andb].
    destruct vecs as [v|]; [|reflexivity]. rewrite (Lv v eq_refl), Nat.eqb_refl. reflexivity. }
  intros ops kept. pose proof (sout_log ids ds das vecs L L' Lv) as G.
  assert (F : take_cap (Some (length ids)) kept = kept) by (apply take_cap_fits; unfold kept; rewrite firstn_length; lia).
  exists (sout_at ids ds das vecs kept). split; [|split; [|split; [|split; [|split; [reflexivity|split]]]]].
  - apply (session_spec _ _ _ G ops [] (@firstn_nil _ _)).
  - cbn [sout_at o_out ida_at a_ids]. now rewrite map_map.
  - cbn [sout_at o_out ida_at a_dists]. now rewrite map_map.
  - cbn [sout_at o_out ida_at a_data]. now rewrite map_map.
  - exact (lg_len _ _ _ G kept F).
  - exact (lg_hint _ _ _ G kept F).
Qed.
Print Assumptions C68_disk_output.

(** Slices of different lengths are rejected before anything is written. *)
Theorem C68_lengths_checked :
  (forall I (ids : list I) ds, idd_new ids ds <> None <-> length ids = length ds) /\
  (forall I A (ids : list I) ds (das : list A),
     ida_new ids ds das <> None <-> length ids = length ds /\ length ids = length das) /\
  (forall A V ids ds (das : list A) (vecs : option (list (option V))),
     (exists b, sout_new ids ds das vecs = SOk b) <->
     length ids = length ds /\ length ids = length das /\ (forall v, vecs = Some v -> length ids = length v)).
Proof.
  assert (H : forall I A (ids : list I) ds (das : list A),
     ida_new ids ds das <> None <-> length ids = length ds /\ length ids = length das).
  { intros I A ids ds das. unfold ida_new.
    destruct (Nat.eqb_spec (length ids) (length ds)); destruct (Nat.eqb_spec (length ids) (length das)); cbn [andb];
      split; intuition congruence. }
  split; [|split; [exact H|]].
  - intros I ids ds. unfold idd_new. destruct (Nat.eqb_spec (length ids) (length ds)); split; intuition congruence.
  - intros A V ids ds das vecs. unfold sout_new. specialize (H _ _ ids ds das). split.
    + intros (b & E). destruct vecs as [v|].
      * destruct (Nat.eqb_spec (length ids) (length v)); cbn [negb] in E; [|discriminate E].
        destruct (ida_new ids ds das) eqn:E2; [|discriminate E]. destruct (proj1 H ltac:(discriminate)) as (H1 & H2).
        repeat split; auto. intros w W. congruence.
      * destruct (ida_new ids ds das) eqn:E2; [|discriminate E]. destruct (proj1 H ltac:(discriminate)) as (H1 & H2).
        repeat split; auto. intros w W. discriminate W.
    + intros (H1 & H2 & H3). assert (N : ida_new ids ds das <> None) by tauto.
      destruct (ida_new ids ds das) as [b|]; [|congruence]. destruct vecs as [v|]; [|eauto].
      rewrite (H3 v eq_refl), Nat.eqb_refl. cbn [negb]. eauto.
Qed.
Print Assumptions C68_lengths_checked.

Example C68_case :
  bsession (idd_buf nat) (idd_at [0; 0; 0] [f32_zero; f32_zero; f32_zero] [])
    [BPush (5, f32_one); BExtend [(6, f32_two); (7, f32_three); (8, f32_one)]; BPush (9, f32_one); BExtend [(1, f32_one)]] =
  Some (mkIdd [5; 6; 7] [f32_one; f32_two; f32_three] 3, [AFull false; ACount 2; AFull true; ACount 0]).
Proof. vm_compute. reflexivity. Qed.

(** ** C69: post processors *)

(** C69.  Copying: all candidates in their order, as many as fit; the number written is
    reported.  Start points and deleted ids are never written. *)
Theorem C69_copy_ids :
  forall S (B : buf S nat) cap at_ cands xs, log_buffer B cap at_ -> take_cap cap xs = xs ->
  pp_copy B cands (at_ xs) = wrote cap at_ xs (map to_item cands).
Proof. intros S B cap at_ cands xs L F. exact (extend_wrote B cap at_ L _ _ F). Qed.
Print Assumptions C69_copy_ids.

Theorem C69_start_points_left_out :
  forall S (B : buf S nat) cap at_ starts cands xs, log_buffer B cap at_ -> take_cap cap xs = xs ->
  exists ys, step_start_points starts (pp_copy B) cands (at_ xs) = wrote cap at_ xs (map to_item ys) /\
    ys = filter (fun x => if in_dec Nat.eq_dec (n_id x) starts then false else true) cands.
Proof.
  intros S B cap at_ starts cands xs L F. eexists. split; [|reflexivity].
  unfold step_start_points, pp_copy. rewrite (extend_wrote B cap at_ L _ _ F). do 2 f_equal.
  apply filter_ext. intros x. destruct (in_dec Nat.eq_dec (n_id x) starts) as [H|H].
  - now rewrite (proj2 (Verif.Search.Proofs.seen_spec _ _) H).
  - now rewrite (proj2 (Verif.Search.Proofs.seen_false _ _) H).
Qed.
Print Assumptions C69_start_points_left_out.

Theorem C69_deleted_left_out :
  forall S (B : buf S nat) cap at_ deleted cands xs, log_buffer B cap at_ -> take_cap cap xs = xs ->
  pp_remove_deleted B deleted cands (at_ xs) =
    wrote cap at_ xs (map to_item (filter (fun x => negb (deleted (n_id x))) cands)).
Proof. intros S B cap at_ deleted cands xs L F. exact (extend_wrote B cap at_ L _ _ F). Qed.
Print Assumptions C69_deleted_left_out.

(** Reranking writes the candidates that are not deleted with their full precision
    distances, closest first. *)
Theorem C69_rerank :
  forall S (B : buf S nat) cap at_ deleted full sort cands xs,
  log_buffer B cap at_ -> take_cap cap xs = xs -> sorts sort ->
  (forall c, In c cands -> deleted (n_id c) = false -> is_nan (full (n_id c)) = false) ->
  exists r, pp_rerank B deleted full sort cands (at_ xs) = wrote cap at_ xs (map to_item r) /\
    ranked (map (fun x => mkNbr (n_id x) (full (n_id x)))
                (filter (fun x => negb (deleted (n_id x))) cands)) r.
Proof. intros S B cap at_ deleted full sort cands xs L F. exact (rerank_wrote B cap at_ L deleted full sort cands xs F). Qed.
Print Assumptions C69_rerank.

(** A fresh pair of slices of length [c] thus receives the [c] closest live candidates. *)
Theorem C69_rerank_writes_the_closest :
  forall deleted full sort cands (ids : list nat) ds, length ids = length ds -> sorts sort ->
  (forall c, In c cands -> deleted (n_id c) = false -> is_nan (full (n_id c)) = false) ->
  exists b res, pp_rerank (idd_buf nat) deleted full sort cands (mkIdd ids ds 0) = SOk (b, length res) /\
    closest (length ids) (map (fun x => mkNbr (n_id x) (full (n_id x)))
                (filter (fun x => negb (deleted (n_id x))) cands)) res /\
    i_ids b = map n_id res ++ skipn (length res) ids /\ i_dists b = map n_dist res ++ skipn (length res) ds.
Proof.
  intros deleted full sort cands ids ds L Hs N. pose proof (idd_log ids ds L) as G.
  destruct (rerank_wrote _ _ _ G deleted full sort cands [] (@firstn_nil _ _) Hs N) as (r & E & R).
  unfold wrote in E. cbn [take_cap app length] in E. rewrite firstn_map in E. rewrite map_length, Nat.sub_0_r in E.
  change (idd_at ids ds []) with (mkIdd ids ds 0) in E.
  exists (idd_at ids ds (map to_item (firstn (length ids) r))), (firstn (length ids) r).
  split; [exact E|]. split; [now apply ranked_closest|]. unfold idd_at, overlay. cbn [i_ids i_dists].
  rewrite !map_map, !map_length. split; reflexivity.
Qed.
Print Assumptions C69_rerank_writes_the_closest.

(** Reranking over the tree-backed store: missing vectors are skipped, a failing read fails
    the search. *)
Theorem C69_tree_rerank :
  forall S (B : buf S nat) cap at_ full get sort cands xs,
  log_buffer B cap at_ -> take_cap cap xs = xs -> sorts sort ->
  (forall c, In c cands -> full (n_id c) = SOk (get (n_id c))) ->
  (forall c d, In c cands -> get (n_id c) = Some d -> is_nan d = false) ->
  exists r, pp_bf_rerank B full sort cands (at_ xs) = wrote cap at_ xs (map to_item r) /\
    ranked (rescored get cands) r.
Proof. intros S B cap at_ full get sort cands xs L F. exact (bf_rerank_wrote B cap at_ L full get sort cands xs F). Qed.
Print Assumptions C69_tree_rerank.

Theorem C69_tree_rerank_error :
  forall S (B : buf S nat) full sort cands b,
  (forall c, In c cands -> full (n_id c) = SErr \/ exists r, full (n_id c) = SOk r) ->
  (exists c, In c cands /\ full (n_id c) = SErr) ->
  pp_bf_rerank B full sort cands b = SErr.
Proof. intros S B full sort cands b H E. unfold pp_bf_rerank. now rewrite bf_fetch_err. Qed.
Print Assumptions C69_tree_rerank_error.

(** Garnet: the candidates whose vector (when reranking) and external id can be read are
    written under their external ids. *)
Theorem C69_garnet :
  forall S I (B : buf S I) cap at_ (quantized : bool) full sort external cands xs,
  log_buffer B cap at_ -> take_cap cap xs = xs -> sorts sort ->
  (forall c d, In c cands -> full (n_id c) = Some d -> is_nan d = false) ->
  exists r, step_garnet_rerank quantized full sort (pp_copy_external B external) cands (at_ xs) =
      wrote cap at_ xs (externals external r) /\
    if quantized then ranked (rescored full cands) r else r = cands.
Proof.
  intros S I B cap at_ quantized full sort external cands xs L F Hs N. unfold step_garnet_rerank. destruct quantized.
  - rewrite present_rescored. destruct (sorts_ranked sort _ Hs (rescored_numeric full cands N)) as (r & E & R).
    exists r. rewrite E. split; [now apply copy_external_wrote|exact R].
  - exists cands. split; [now apply copy_external_wrote|reflexivity].
Qed.
Print Assumptions C69_garnet.

(** Filtering by attributes: only the matching candidates reach the next step; if a
    candidate cannot be judged the search fails. *)
Theorem C69_filter_results :
  forall S (B : buf S nat) cap at_ accept ok cands xs, log_buffer B cap at_ -> take_cap cap xs = xs ->
  (forall c, In c cands -> accept (n_id c) = Some (ok (n_id c))) ->
  step_filter_results accept (pp_copy B) cands (at_ xs) =
    wrote cap at_ xs (map to_item (filter (fun c => ok (n_id c)) cands)).
Proof.
  intros S B cap at_ accept ok cands xs L F H. unfold step_filter_results.
  rewrite (keep_spec accept ok) by exact H. exact (extend_wrote B cap at_ L _ _ F).
Qed.
Print Assumptions C69_filter_results.

Theorem C69_filter_results_error :
  forall S (next : list nbr -> S -> sres (S * nat)) accept cands b,
  (exists c, In c cands /\ accept (n_id c) = None) -> step_filter_results accept next cands b = SErr.
Proof. intros S next accept cands b H. unfold step_filter_results. now rewrite keep_none. Qed.
Print Assumptions C69_filter_results_error.

(** Translation of the in-memory index writes the right items, and reports their number as
    long as the buffer is not full afterwards ... *)
Theorem C69_translate :
  forall S I (B : buf S I) cap at_ external cands xs, log_buffer B cap at_ -> take_cap cap xs = xs ->
  let written := take_cap cap (xs ++ externals external cands) in
  exists n, pp_translate B external cands (at_ xs) = SOk (at_ written, n) /\
    (full_at cap written = false -> n = length written - length xs).
Proof.
  intros S I B cap at_ external cands xs L F written. unfold pp_translate.
  rewrite (translate_loop B cap at_ L) by exact F. cbn [lift]. eexists. split; [reflexivity|].
  fold written. intros NF. unfold uncounted. destruct cap as [c|]; [|lia]. cbn [full_at] in NF. apply Nat.leb_gt in NF.
  unfold written in NF. cbn [take_cap] in NF. rewrite firstn_length, app_length in NF.
  destruct (Nat.leb_spec c (length xs + length (externals external cands))); [lia|]. cbn [andb]. lia.
Qed.
Print Assumptions C69_translate.

(** ... but whenever it fills the buffer it reports one result too few. *)
Theorem C69_translate_count_refuted :
  forall S I (B : buf S I) c at_ external cands, log_buffer B (Some c) at_ -> 0 < c ->
  c <= length (externals external cands) ->
  pp_translate B external cands (at_ []) = SOk (at_ (firstn c (externals external cands)), c - 1) /\
  length (firstn c (externals external cands)) = c.
Proof.
  intros S I B c at_ external cands L Hc Hl. unfold pp_translate.
  rewrite (translate_loop B (Some c) at_ L) by apply firstn_nil. cbn [lift take_cap app length uncounted].
  rewrite firstn_length, Nat.min_l by lia. split; [|reflexivity]. do 2 f_equal.
  destruct (Nat.leb_spec c (0 + length (externals external cands))); [|lia]. destruct (Nat.ltb_spec 0 c); [|lia].
  destruct (Nat.eqb_spec (length (externals external cands)) 0); [lia|]. cbn [andb negb]. lia.
Qed.
Print Assumptions C69_translate_count_refuted.

Example C69_translate_case :
  pp_translate (idd_buf nat) (fun i => Some (100 + i)) [mkNbr 1 f32_one; mkNbr 2 f32_two; mkNbr 3 f32_three]
    (mkIdd [0; 0] [f32_zero; f32_zero] 0) = SOk (mkIdd [101; 102] [f32_one; f32_two] 2, 1).
Proof. vm_compute. reflexivity. Qed.

(** The diversity reranker of the in-memory index writes deleted ids: whichever indices are
    selected, the candidates at them are written, deleted or not. *)
Theorem C69_diversity_drops_deleted_refuted :
  forall S (B : buf S nat) at_ select cands idx (deleted : nat -> bool),
  log_buffer B None at_ -> select cands = Some idx -> Forall (fun i => i < length cands) idx ->
  exists ys, pp_diversity B select cands (at_ []) = SOk (at_ (map to_item ys), length ys) /\
    forall i c, In i idx -> nth_error cands i = Some c -> deleted (n_id c) = true -> In c ys.
Proof.
  intros S B at_ select cands idx deleted L E H. unfold pp_diversity. rewrite E.
  assert (P : exists ys, pick cands idx = Some ys /\
     forall i c, In i idx -> nth_error cands i = Some c -> deleted (n_id c) = true -> In c ys).
  { clear E. induction idx as [|i idx IH]; [exists []; split; [reflexivity|intros i c []]|].
    inversion H as [|? ? H1 H2]; subst. destruct (IH H2) as (ys & E & I). cbn [pick].
    destruct (nth_error cands i) as [x|] eqn:X; [|apply nth_error_None in X; lia]. rewrite E.
    exists (x :: ys). split; [reflexivity|]. intros j c [<-|Hj] Hn D; [left; congruence|right; eauto]. }
  destruct P as (ys & P & Q). exists ys. rewrite P. split; [|exact Q].
  rewrite (extend_wrote B None at_ L) by reflexivity. unfold wrote. cbn [take_cap app length].
  now rewrite map_length, Nat.sub_0_r.
Qed.
Print Assumptions C69_diversity_drops_deleted_refuted.

Example C69_rerank_case :
  pp_rerank (idd_buf nat) (Nat.eqb 2) (fun i => if i =? 1 then f32_three else f32_one)
    (fun l => Some (rev l)) [mkNbr 1 f32_one; mkNbr 2 f32_one; mkNbr 3 f32_two]
    (mkIdd [0; 0; 0] [f32_zero; f32_zero; f32_zero] 0) =
  SOk (mkIdd [3; 1; 0] [f32_one; f32_three; f32_zero] 2, 2).
Proof. vm_compute. reflexivity. Qed.
