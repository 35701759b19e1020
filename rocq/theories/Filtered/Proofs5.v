(** Filtered range search: the whole search. *)
From Verif.Lib Require Import Base Lists F32.
From Verif.Queue Require Import Proofs.
From Verif.Search Require Import Proofs ProofsKnn ProofsRange.
From Verif.Filtered Require Import Model Spec Proofs Proofs2 Proofs3 Proofs4.

Section main.
Variable graph : nat -> option (list nat).
Variable dist : nat -> option f32.
Variable acc : nat -> bool.
Variable sort : list nbr -> option (list nbr).
Hypothesis Hsort : sorts sort.
Variable sort_total : list nbr -> list nbr.
Hypothesis Htotal : sorts_total sort_total.
Notation accepted := (accepted acc).

Definition within (p : range) (x : nbr) : bool := f32_le (n_dist x) (r_radius p).

(** The first phase: what was scanned, the matches and the seeds. *)
Record Phase1 (p : range) (starts : list nat) (st : sst) (xs m best seeds rec : list nbr) : Prop := {
  p_scan : scan_of graph dist starts rec xs;
  p_nav : forall x, In x xs -> reach graph starts (n_id x) /\ scored dist x;
  p_m : Permutation m (filter accepted xs);
  p_best : closest (r_l p + length starts) (valid xs) best;
  p_seeds : forall x, In x seeds <-> (In x (firstn (r_l p) best) \/ In x m) /\ within p x = true;
  p_nodup : NoDup (map n_id seeds);
  p_found : NoDup (map n_id (filter (within p) m))
}.

Lemma phase1 p starts s xs m best rec : 0 < r_l p ->
  IInv graph dist acc (r_l p + length starts) true starts s xs rec ->
  Permutation m (filter accepted xs) -> pq_iter (s_best (i_st s)) = Some best ->
  Phase1 p starts (i_st s) xs m best
    (dedup_ids (sort_total (filter (within p) (firstn (r_l p) best ++ m)))) rec.
Proof.
  intros Hl I P IT. pose proof (ii_vis _ _ _ _ _ _ _ _ _ I) as V.
  assert (HL : 0 < r_l p + length starts) by (clear -Hl; lia).
  destruct (nav_iter _ _ _ _ HL (ii_nav _ _ _ _ _ _ _ _ _ I)) as (best' & IT' & CB).
  rewrite IT in IT'. injection IT' as <-.
  assert (BX : forall x, In x best -> In x xs).
  { intros x Hx. destruct CB as (_ & _ & o & PB & _). apply in_valid.
    eapply Permutation_in; [symmetry; exact PB|]. apply in_or_app. now left. }
  assert (MX : forall x, In x m -> In x xs).
  { intros x Hx. apply (Permutation_in _ P) in Hx. apply filter_In in Hx. tauto. }
  set (cand := firstn (r_l p) best ++ m).
  assert (CX : forall x, In x (filter (within p) cand) -> In x xs).
  { intros x Hx. apply filter_In in Hx. destruct Hx as [Hx _]. apply in_app_or in Hx.
    destruct Hx as [Hx|Hx]; [apply BX; eapply in_firstn; eauto|auto]. }
  destruct (Htotal (filter (within p) cand)) as [TP TS].
  assert (NN : Forall (fun x => is_nan (n_dist x) = false) (filter (within p) cand)).
  { rewrite Forall_forall. intros x Hx. apply filter_In in Hx. destruct Hx as [_ Hx].
    unfold within in Hx. apply f32_le_spec in Hx. tauto. }
  assert (UQ : forall x y, In x (sort_total (filter (within p) cand)) ->
     In y (sort_total (filter (within p) cand)) -> n_id x = n_id y -> x = y).
  { intros x y Hx Hy E. apply (Permutation_in _ TP) in Hx, Hy.
    destruct (v_new _ _ _ _ _ V x (CX x Hx)) as (_ & _ & S1).
    destruct (v_new _ _ _ _ _ V y (CX y Hy)) as (_ & _ & S2).
    unfold scored in *. rewrite E in S1. destruct x, y; cbn in *. congruence. }
  destruct (dedup_spec _ (TS NN) UQ) as [D1 D2].
  constructor; auto.
  - exact (iinv_scan _ _ _ _ _ _ _ _ _ I).
  - intros x Hx. destruct (v_new _ _ _ _ _ V x Hx) as (_ & H2 & H3). split; [|exact H3].
    exact (ii_reach _ _ _ _ _ _ _ _ _ I _ H2).
  - intros x. rewrite D1. split.
    + intros H. apply (Permutation_in _ TP) in H. apply filter_In in H. destruct H as [H HW].
      apply in_app_or in H. auto.
    + intros [H HW]. eapply Permutation_in; [symmetry; exact TP|]. apply filter_In. split; [|exact HW].
      apply in_or_app. exact H.
  - apply filter_nodup_ids. apply (NoDup_map_perm_ids _ _ (Permutation_sym P)).
    apply filter_nodup_ids. apply V.
Qed.

Lemma in_scanned p starts st xs m best seeds rec : Phase1 p starts st xs m best seeds rec ->
  forall x, In x m -> In x xs /\ accepted x = true.
Proof.
  intros P x Hx. apply (Permutation_in _ (p_m _ _ _ _ _ _ _ _ P)) in Hx. apply filter_In in Hx. tauto.
Qed.

Lemma seed_scanned p starts st xs m best seeds rec : Phase1 p starts st xs m best seeds rec ->
  forall x, In x seeds -> In x xs.
Proof.
  intros P x Hx. apply (p_seeds _ _ _ _ _ _ _ _ P) in Hx. destruct Hx as [[Hx|Hx] _].
  - destruct (p_best _ _ _ _ _ _ _ _ P) as (_ & _ & o & PB & _). apply in_valid.
    eapply Permutation_in; [symmetry; exact PB|]. apply in_or_app. left. eapply in_firstn; eauto.
  - eapply in_scanned in Hx; eauto. tauto.
Qed.

Lemma second_inv p starts st xs m best seeds rec : Phase1 p starts st xs m best seeds rec ->
  room p (length (filter (within p) m)) = true ->
  FInv graph dist acc p starts (map n_id seeds) (filter (within p) m) (map n_id seeds)
    (filter (within p) m) (map n_id seeds).
Proof.
  intros P R.
  assert (FS : forall x, In x (filter (within p) m) -> In x seeds /\ scored dist x).
  { intros x Hx. apply filter_In in Hx. destruct Hx as [Hx HW]. split.
    - apply (p_seeds _ _ _ _ _ _ _ _ P). auto.
    - apply (p_nav _ _ _ _ _ _ _ _ P). eapply in_scanned; eauto. }
  constructor.
  - exists []. rewrite app_nil_r. split; [reflexivity|]. intros x [].
  - exact (p_found _ _ _ _ _ _ _ _ P).
  - intros x Hx. destruct (FS x Hx) as [H1 H2]. split; [now apply in_map|exact H2].
  - apply incl_refl.
  - apply incl_refl.
  - intros i j Hi _ _. now left.
  - intros i Hi. apply in_map_iff in Hi. destruct Hi as (x & <- & Hx).
    apply (p_nav _ _ _ _ _ _ _ _ P). eapply seed_scanned; eauto.
  - intros _ i d Hi Hd (_ & G2 & G3). apply in_map_iff in Hi. destruct Hi as (x & Ei & Hx).
    pose proof (seed_scanned _ _ _ _ _ _ _ _ P x Hx) as HX.
    assert (x = mkNbr i d).
    { destruct (p_nav _ _ _ _ _ _ _ _ P x HX) as [_ S]. unfold scored in S. subst i.
      rewrite S in Hd. injection Hd as <-. now destruct x. }
    subst x. apply filter_In. split; [|exact G2].
    eapply Permutation_in; [symmetry; exact (p_m _ _ _ _ _ _ _ _ P)|]. apply filter_In. auto.
  - intros k Hk. unfold room in R. rewrite Hk in R. apply Nat.ltb_lt in R. lia.
Qed.

Lemma filtered_range_spec fuel fuel2 p stop starts : range_valid p = true -> NoDup starts ->
  match filtered_range graph dist acc sort sort_total fuel fuel2 p stop starts with
  | SOk o => exists st xs m best rec,
      inline_internal graph dist acc sort fuel (r_l p) (r_bw p) stop None starts = SOk (m, st, rec) /\
      Phase1 p starts st xs m best (fo_seeds o) rec /\
      fo_results o = filter (outside_inner p)
         (match r_max p with Some k => firstn k (fo_matched o) | None => fo_matched o end) /\
      fo_second o = ((r_enough p <=? length (fo_seeds o)) && room p (length (filter (within p) m))) /\
      (if fo_second o
       then exists vis fr, FInv graph dist acc p starts (map n_id (fo_seeds o)) (filter (within p) m) vis (fo_matched o) fr /\
         (room p (length (fo_matched o)) = true -> fr = [])
       else fo_matched o = filter (within p) m)
  | SErr => (exists s, In s starts /\ dist s = None) \/ (exists x, reach graph starts x /\ graph x = None)
  | SPanic => ~ numeric dist
  | SFuel => True
  end.
Proof.
  intros HV ND. destruct (range_valid_pos p HV) as [Hl Hb]. unfold filtered_range.
  pose proof (inline_spec graph dist acc sort Hsort fuel (r_l p) (r_bw p) stop None starts Hl ND) as IS.
  destruct (inline_internal graph dist acc sort fuel (r_l p) (r_bw p) stop None starts) as [[[m st] rec]| | |] eqn:IE; auto.
  2:{ intros H. apply IS. split; [exact Logic.I|exact H]. }
  destruct IS as (s & xs & -> & I & P & _ & _).
  assert (HL : 0 < r_l p + length starts) by (clear -Hl; lia).
  destruct (nav_iter _ _ _ _ HL (ii_nav _ _ _ _ _ _ _ _ _ I)) as (best & IT & _). rewrite IT.
  pose proof (phase1 p starts s xs m best rec Hl I P IT) as P1.
  fold (within p). set (seeds := dedup_ids _) in *.
  change (filter (fun x => f32_le (n_dist x) (r_radius p)) m) with (filter (within p) m).
  destruct ((r_enough p <=? length seeds) && room p (length (filter (within p) m))) eqn:B.
  - apply andb_prop in B. destruct B as [B1 B2].
    pose proof (f_range_loop_spec graph dist acc p starts _ _ fuel2 _ _ _ (second_inv _ _ _ _ _ _ _ _ P1 B2)) as RL.
    destruct (f_range_loop graph dist acc fuel2 p (map n_id seeds) (filter (within p) m) (map n_id seeds)) as [all| | |]; auto.
    exists (i_st s), xs, m, best, rec. cbn [fo_seeds fo_results fo_second fo_matched].
    rewrite B1, B2. auto.
  - exists (i_st s), xs, m, best, rec. cbn [fo_seeds fo_results fo_second fo_matched]. auto.
Qed.

Lemma filtered_range_fuel fuel fuel2 p stop starts univ : range_valid p = true -> NoDup starts ->
  finite_index graph starts univ -> length univ <= fuel -> length univ <= fuel2 ->
  filtered_range graph dist acc sort sort_total fuel fuel2 p stop starts <> SFuel.
Proof.
  intros HV ND FI Hf Hf2. destruct (range_valid_pos p HV) as [Hl Hb]. unfold filtered_range.
  pose proof (inline_spec graph dist acc sort Hsort fuel (r_l p) (r_bw p) stop None starts Hl ND) as IS.
  pose proof (inline_fuel graph dist acc sort fuel (r_l p) (r_bw p) stop None starts univ Hl ND FI Hf) as IF.
  destruct (inline_internal graph dist acc sort fuel (r_l p) (r_bw p) stop None starts) as [[[m st] rec]| | |] eqn:IE;
    try discriminate; [|congruence].
  destruct IS as (s & xs & -> & I & P & _ & _).
  assert (HL : 0 < r_l p + length starts) by (clear -Hl; lia).
  destruct (nav_iter _ _ _ _ HL (ii_nav _ _ _ _ _ _ _ _ _ I)) as (best & IT & _). rewrite IT.
  pose proof (phase1 p starts s xs m best rec Hl I P IT) as P1.
  fold (within p). set (seeds := dedup_ids _) in *.
  change (filter (fun x => f32_le (n_dist x) (r_radius p)) m) with (filter (within p) m).
  destruct ((r_enough p <=? length seeds) && room p (length (filter (within p) m))); [|discriminate].
  destruct FI as [FI1 FI2].
  set (U := nodup Nat.eq_dec univ).
  assert (HU : NoDup U) by apply NoDup_nodup.
  assert (IU : forall i, In i U <-> In i univ) by (intros i; apply nodup_In).
  assert (LU : length U <= length univ).
  { apply NoDup_incl_length; [exact HU|]. intros i. apply IU. }
  assert (RU : incl (map n_id seeds) U).
  { intros i Hi. apply in_map_iff in Hi. destruct Hi as (x & <- & Hx).
    destruct (p_nav _ _ _ _ _ _ _ _ P1 x (seed_scanned _ _ _ _ _ _ _ _ P1 x Hx)) as [R _].
    apply IU. induction R; [now apply FI1|eauto]. }
  assert (N : f_range_loop graph dist acc fuel2 p (map n_id seeds) (filter (within p) m) (map n_id seeds) <> SFuel).
  { apply (f_range_loop_fuel graph dist acc p U HU); auto.
    - intros u v Hu He. apply IU in Hu. apply IU. eauto.
    - assert (F : fresh U (map n_id seeds) + length (map n_id seeds) <= length U); [|clear -F LU Hf2; lia].
      unfold fresh. rewrite <- app_length. apply NoDup_incl_length.
      + apply NoDup_app_intro; [now apply NoDup_filter|exact (p_nodup _ _ _ _ _ _ _ _ P1)|].
        intros i H1 H2. apply filter_In in H1. destruct H1 as [_ H1].
        apply negb_true_iff, seen_false in H1. contradiction.
      + intros i Hi. apply in_app_or in Hi. destruct Hi as [Hi|Hi]; [apply filter_In in Hi; tauto|auto]. }
  destruct (f_range_loop graph dist acc fuel2 p (map n_id seeds) (filter (within p) m) (map n_id seeds)); congruence.
Qed.

(** The second phase follows every link within the limit. *)
Lemma linked_visited p starts seeds found vis m :
  FInv graph dist acc p starts seeds found vis m [] ->
  forall i, linked graph dist (r_limit p) seeds i -> In i vis /\ front dist p seeds i.
Proof.
  intros I i L. induction L as [s Hs|u v d Lu [IH1 IH2] He Hd Hl].
  - split; [now apply (fi_seeds _ _ _ _ _ _ _ _ _ _ I)|now left].
  - split.
    + destruct (fi_exp _ _ _ _ _ _ _ _ _ _ I u v IH1 IH2 He) as [[]|Hv]. exact Hv.
    + right. eauto.
Qed.
End main.
