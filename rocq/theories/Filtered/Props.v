(** Property theorems about filtered search (C64-C66). *)
From Verif.Lib Require Import Base Lists F32 F64.
From Verif.Search Require Import Model Props.
From Verif.Filtered Require Import Model Spec Proofs Proofs2 Proofs6.

(** The graph of [Search.Props], where the even nodes are accepted, and an insertion sort. *)
Definition even_only (i : nat) : bool := Nat.even i.
Definition res_of (r : sres (list nbr * sst * list nbr)) : list nat * list nat * (nat * nat) :=
  match r with
  | SOk (res, st, rec) => (map n_id res, map n_id rec, (s_cmps st, s_hops st))
  | _ => ([], [], (0, 0))
  end.

Example filtered_premises :
  sorts isort /\ sorts_total isort_total /\ numeric demo_dist /\
  res_of (inline_search demo_graph demo_dist even_only isort 6 2 1 never None [0])
    = ([4; 2], [0; 2; 4; 1; 3], (4, 5)) /\
  res_of (inline_search demo_graph demo_dist even_only isort 6 3 2 never (Some (2, fun v m => Some 5)) [0])
    = ([4; 2; 0], [0; 2; 1; 3; 4], (4, 5)) /\
  (match multihop_search demo_graph demo_dist even_only isort 6 4 2 1 never [1] with
   | SOk (res, _, (beams, hops)) => (map n_id res, map n_id beams, map n_id hops)
   | _ => ([], [], []) end) = ([4; 2], [1; 2; 4], [3]).
Proof.
  split; [exact isort_sorts|]. split; [exact isort_total_sorts|]. split.
  - intros i d H. unfold demo_dist in H.
    do 6 (destruct i as [|i]; [injection H as <-; reflexivity|]). destruct i; discriminate.
  - vm_compute. auto.
Qed.

(** ** C64: inline filtered search *)

(** The results are the [l] closest accepted nodes of everything that was scanned. *)
Theorem C64_inline_returns_closest_accepted graph dist acc sort fuel l bw stop ad starts res st rec :
  sorts sort -> 0 < l -> NoDup starts ->
  inline_search graph dist acc sort fuel l bw stop ad starts = SOk (res, st, rec) ->
  exists scanned, scan_of graph dist starts rec scanned /\
    NoDup (map n_id rec) /\ incl rec scanned /\
    NoDup (map n_id res) /\ length res = Nat.min l (length (filter (accepted acc) scanned)) /\
    (forall x, In x res -> acc (n_id x) = true /\ In x scanned /\ reach graph starts (n_id x)) /\
    (numeric dist -> closest l (filter (accepted acc) scanned) res) /\
    s_hops st = length rec /\ s_cmps st + length starts = length scanned.
Proof. intros Hs. exact (c64_results graph dist acc sort Hs fuel l bw stop ad starts res st rec). Qed.
Print Assumptions C64_inline_returns_closest_accepted.

(** If the list can hold every reachable node: the [l] closest accepted reachable nodes. *)
Theorem C64_inline_exact_when_list_covers_graph graph dist acc sort fuel l bw starts univ res st rec :
  sorts sort -> 0 < l -> 0 < bw -> NoDup starts ->
  finite_index graph starts univ -> length univ <= l + length starts ->
  (forall i, reach graph starts i -> exists d, dist i = Some d /\ is_nan d = false) ->
  inline_search graph dist acc sort fuel l bw never None starts = SOk (res, st, rec) ->
  exists all, NoDup (map n_id all) /\ Forall (scored dist) all /\
    (forall i, In i (map n_id all) <-> reach graph starts i /\ acc i = true) /\ closest l all res.
Proof.
  intros Hs Hl Hb. exact (c64_exact graph dist acc sort Hs fuel l bw starts univ res st rec Hl (Nat.neq_sym _ _ (Nat.lt_neq _ _ Hb))).
Qed.
Print Assumptions C64_inline_exact_when_list_covers_graph.

Theorem C64_inline_terminates_without_panic graph dist acc sort fuel l bw stop ad starts univ :
  sorts sort -> 0 < l -> NoDup starts ->
  finite_index graph starts univ -> length univ <= fuel ->
  (forall i, In i starts -> dist i <> None) ->
  (forall i, reach graph starts i -> graph i <> None) ->
  numeric dist ->
  (forall count new_l, ad = Some (count, new_l) -> forall visited matched, new_l visited matched <> None) ->
  exists out, inline_search graph dist acc sort fuel l bw stop ad starts = SOk out.
Proof.
  intros Hs Hl ND FI Hf HD HG HN HA. apply (c64_total graph dist acc sort Hs fuel l bw stop ad starts univ); auto.
  destruct ad as [[count f]|]; [|exact I]. intros v m. now apply (HA count f).
Qed.
Print Assumptions C64_inline_terminates_without_panic.

(** Without adaptive L the filter does not influence the navigation: the same nodes are
    expanded, and the same errors met, as by the unfiltered search. *)
Theorem C64_inline_navigates_as_unfiltered graph dist acc sort fuel l bw stop starts :
  sorts sort -> 0 < l -> 0 < bw -> NoDup starts ->
  match inline_search graph dist acc sort fuel l bw stop None starts, knn graph dist fuel l bw stop starts with
  | SOk (_, st, rec), SOk (_, st', rec') => rec = rec' /\ s_best st = s_best st' /\
      s_hops st = s_hops st' /\ s_cmps st + length starts = s_cmps st'
  | SPanic, SOk _ => ~ numeric dist
  | SErr, SErr => True
  | SFuel, SFuel => True
  | _, _ => False
  end.
Proof.
  intros Hs Hl Hb. exact (c64_nav graph dist acc sort Hs fuel l bw stop starts Hl (Nat.neq_sym _ _ (Nat.lt_neq _ _ Hb))).
Qed.
Print Assumptions C64_inline_navigates_as_unfiltered.

(** The unfiltered search never returns a NaN distance (C22); the inline search can. *)
Theorem C64_results_are_numbers_refuted :
  exists graph dist acc sort res st rec x, sorts sort /\
    inline_search graph dist acc sort 6 2 1 never None [0] = SOk (res, st, rec) /\
    In x res /\ is_nan (n_dist x) = true.
Proof.
  eexists demo_graph, (fun i => if i =? 1 then Some f32_nan else demo_dist i), (fun i => i =? 1), isort, _, _, _, _.
  split; [exact isort_sorts|]. split; [vm_compute; reflexivity|]. split; [now left|reflexivity].
Qed.
Print Assumptions C64_results_are_numbers_refuted.

(** The new L is the old one times a factor between 1 and the configured maximum. *)
Theorem C64_adaptive_l_is_bounded ratio grow times base visited matched scale count :
  adaptive_ok count scale = true -> f64_nan scale = false ->
  (forall s, f64_nan (grow s) = false) ->
  exists m, f64_le f64_one m = true /\ f64_le m scale = true /\
    compute_adaptive_l ratio grow times base visited matched scale = Some (times base m).
Proof. exact (adaptive_bounds ratio grow times base visited matched scale count). Qed.
Print Assumptions C64_adaptive_l_is_bounded.

Example adaptive_premises : adaptive_ok 10 f64_two = true /\ f64_nan f64_two = false.
Proof. vm_compute. auto. Qed.

(** A NaN maximum is accepted by the constructor, and every search that finds a match among
    its samples then panics, whatever the arithmetic. *)
Theorem C64_accepted_adaptive_l_never_panics_refuted :
  exists count scale, adaptive_ok count scale = true /\
    forall ratio grow times base visited matched, 0 < visited -> 0 < matched ->
      compute_adaptive_l ratio grow times base visited matched scale = None.
Proof.
  exists 10, 9221120237041090560%N. split; [reflexivity|].
  intros ratio grow times base [|v] [|m] Hv Hm; try (now inversion Hv || now inversion Hm).
Qed.
Print Assumptions C64_accepted_adaptive_l_never_panics_refuted.

(** Raising L can make the list shorter: the queue has room for the start points besides L,
    the resized one has not. *)
Theorem C64_raising_l_enlarges_the_list_refuted :
  exists graph dist acc starts l nl s0 s1, l < nl /\ NoDup starts /\
    inline_init dist acc starts (scratch_new (l + length starts)) = SOk s0 /\
    inline_loop graph dist acc 1 1 (fun n => 1 <=? n) (Some (1, fun _ _ => Some nl)) l 0 s0 = SOk s1 /\
    q_L (s_best (i_st (fst s1))) < q_L (s_best (i_st s0)).
Proof.
  eexists demo_graph, demo_dist, even_only, [0; 1], 1, 2, _, _.
  split; [repeat constructor|]. split; [repeat constructor; cbn; intuition discriminate|].
  split; [vm_compute; reflexivity|]. split; [vm_compute; reflexivity|]. cbn. repeat constructor.
Qed.
Print Assumptions C64_raising_l_enlarges_the_list_refuted.

(** ** C65: multi-hop filtered search *)

(** [beams] are the nodes expanded from the list, [hops] the rejected ones expanded to reach
    accepted nodes behind them.  The results are the [l] closest accepted nodes of everything
    that was scanned. *)
Theorem C65_multihop_returns_closest_accepted graph dist acc sort fuel degree l bw stop starts res st beams hops :
  sorts sort -> 0 < l -> 0 < bw -> NoDup starts ->
  multihop_search graph dist acc sort fuel degree l bw stop starts = SOk (res, st, (beams, hops)) ->
  exists scanned,
    (NoDup (map n_id scanned) /\ Forall (scored dist) scanned /\
     forall i, In i (map n_id scanned) <-> dist i <> None /\
       (In i starts \/ (exists x, In x beams /\ edge graph (n_id x) i) \/
        (acc i = true /\ exists x, In x hops /\ edge graph (n_id x) i))) /\
    (forall i, In i (map n_id scanned) -> reach graph starts i) /\
    closest l (valid (filter (accepted acc) scanned)) res /\
    NoDup (map n_id (beams ++ hops)) /\ incl (beams ++ hops) scanned /\
    (forall x, In x beams -> In (n_id x) starts \/ acc (n_id x) = true) /\
    (forall x, In x hops -> ~ In (n_id x) starts /\ acc (n_id x) = false) /\
    length hops <= degree / 2 * length beams /\
    s_hops st = length (beams ++ hops) /\ s_cmps st + length starts = length scanned.
Proof.
  intros Hs Hl Hb. exact (c65_results graph dist acc sort Hs fuel degree l bw stop starts res st beams hops Hl (Nat.neq_sym _ _ (Nat.lt_neq _ _ Hb))).
Qed.
Print Assumptions C65_multihop_returns_closest_accepted.

Theorem C65_multihop_terminates_without_panic graph dist acc sort fuel degree l bw stop starts univ :
  sorts sort -> 0 < l -> 0 < bw -> NoDup starts ->
  finite_index graph starts univ -> length univ <= fuel ->
  (forall i, In i starts -> dist i <> None) ->
  (forall i, reach graph starts i -> graph i <> None) -> numeric dist ->
  exists out, multihop_search graph dist acc sort fuel degree l bw stop starts = SOk out.
Proof.
  intros Hs Hl Hb. exact (c65_total graph dist acc sort Hs fuel degree l bw stop starts univ Hl (Nat.neq_sym _ _ (Nat.lt_neq _ _ Hb))).
Qed.
Print Assumptions C65_multihop_terminates_without_panic.

(** ** C66: filtered range search *)

(** [20, 100] around the query, slack such that nodes up to 110 are followed. *)
Definition demo_frange : range := mkRange (Some 5) 2 1 100%N (Some 20%N) 1 110%N.
Example frange_premises :
  range_valid demo_frange = true /\
  (match filtered_range demo_graph demo_dist even_only isort isort_total 6 6 demo_frange never [0] with
   | SOk o => (map n_id (fo_results o), map n_id (fo_seeds o), fo_second o)
   | _ => ([], [], false) end) = ([2; 0], [3; 4; 2; 0], true).
Proof. vm_compute. auto. Qed.

Theorem C66_results_are_accepted_and_in_range graph dist acc sort sort_total fuel fuel2 p stop starts o :
  sorts sort -> sorts_total sort_total -> range_valid p = true -> NoDup starts ->
  filtered_range graph dist acc sort sort_total fuel fuel2 p stop starts = SOk o ->
  NoDup (map n_id (fo_results o)) /\
  (forall k, r_max p = Some k -> length (fo_results o) <= k) /\
  forall x, In x (fo_results o) ->
    acc (n_id x) = true /\ reach graph starts (n_id x) /\ scored dist x /\
    f32_le (n_dist x) (r_radius p) = true /\
    (forall ir, r_inner p = Some ir -> f32_le (n_dist x) ir = false).
Proof.
  intros Hs Ht HV ND H.
  destruct (c66_all graph dist acc sort Hs sort_total Ht fuel fuel2 p stop starts o HV ND H) as ((A & B & C) & _).
  split; [exact A|]. split; [exact B|]. intros x Hx. destruct (C x Hx) as (C1 & C2 & C3 & C4 & C5).
  split; [exact C1|]. split; [exact C2|]. split; [exact C3|]. split; [exact C4|].
  intros ir E. unfold outside_inner in C5. rewrite E in C5. now apply negb_true_iff.
Qed.
Print Assumptions C66_results_are_accepted_and_in_range.

(** Unless the maximum number of matches is reached: every accepted node in range that the
    first phase scanned is returned, and so is, if the second phase ran, every accepted node
    in range that is linked to a seed through nodes within the slack limit.  The seeds are
    the nodes in range among the [l] closest scanned ones and all accepted ones. *)
Theorem C66_results_are_complete graph dist acc sort sort_total fuel fuel2 p stop starts o :
  sorts sort -> sorts_total sort_total -> range_valid p = true -> NoDup starts ->
  filtered_range graph dist acc sort sort_total fuel fuel2 p stop starts = SOk o ->
  exists m st rec scanned best,
    inline_internal graph dist acc sort fuel (r_l p) (r_bw p) stop None starts = SOk (m, st, rec) /\
    scan_of graph dist starts rec scanned /\ closest (r_l p) (valid scanned) best /\
    NoDup (map n_id (fo_seeds o)) /\
    (forall x, In x (fo_seeds o) <-> (In x best \/ (In x scanned /\ acc (n_id x) = true)) /\
       f32_le (n_dist x) (r_radius p) = true) /\
    (forall x, In x scanned -> acc (n_id x) = true -> f32_le (n_dist x) (r_radius p) = true ->
       outside_inner p x = true ->
       In x (fo_results o) \/ exists k, r_max p = Some k /\ k < length (fo_matched o)) /\
    (fo_second o = true -> forall i d, linked graph dist (r_limit p) (map n_id (fo_seeds o)) i ->
       dist i = Some d -> acc i = true -> f32_le d (r_radius p) = true -> outside_inner p (mkNbr i d) = true ->
       In (mkNbr i d) (fo_results o) \/ exists k, r_max p = Some k /\ k <= length (fo_matched o)).
Proof.
  intros Hs Ht HV ND H.
  exact (proj2 (c66_all graph dist acc sort Hs sort_total Ht fuel fuel2 p stop starts o HV ND H)).
Qed.
Print Assumptions C66_results_are_complete.

Theorem C66_terminates_without_panic graph dist acc sort sort_total fuel fuel2 p stop starts univ :
  sorts sort -> sorts_total sort_total -> range_valid p = true -> NoDup starts ->
  finite_index graph starts univ -> length univ <= fuel -> length univ <= fuel2 ->
  (forall i, In i starts -> dist i <> None) ->
  (forall i, reach graph starts i -> graph i <> None) -> numeric dist ->
  exists out, filtered_range graph dist acc sort sort_total fuel fuel2 p stop starts = SOk out.
Proof. intros Hs Ht. exact (c66_total graph dist acc sort Hs sort_total Ht fuel fuel2 p stop starts univ). Qed.
Print Assumptions C66_terminates_without_panic.

(** Matches inside the inner radius take up places: fewer results than allowed are returned
    although a scanned match is in range. *)
Theorem C66_inner_radius_keeps_places_refuted :
  exists graph dist acc sort sort_total p starts o m st rec x k,
    sorts sort /\ sorts_total sort_total /\ range_valid p = true /\ NoDup starts /\ r_max p = Some k /\
    filtered_range graph dist acc sort sort_total 6 6 p never starts = SOk o /\
    inline_internal graph dist acc sort 6 (r_l p) (r_bw p) never None starts = SOk (m, st, rec) /\
    In x m /\ acc (n_id x) = true /\ f32_le (n_dist x) (r_radius p) = true /\ outside_inner p x = true /\
    ~ In x (fo_results o) /\ length (fo_results o) < k.
Proof.
  eexists demo_graph, demo_dist, even_only, isort, isort_total,
    (mkRange (Some 1) 1 1 100%N (Some 20%N) 1 110%N), [0], _, _, _, _, (mkNbr 2 80%N), 1.
  split; [exact isort_sorts|]. split; [exact isort_total_sorts|]. split; [reflexivity|].
  split; [repeat constructor; intros []|]. split; [reflexivity|].
  split; [vm_compute; reflexivity|]. split; [vm_compute; reflexivity|].
  split; [vm_compute; auto|]. split; [reflexivity|]. split; [reflexivity|]. split; [reflexivity|].
  split; [intros []|]. repeat constructor.
Qed.
Print Assumptions C66_inner_radius_keeps_places_refuted.
