(** Assembly of the theorems about filtered search, and concrete sorts. *)
From Verif.Lib Require Import Base Lists F32 F64.
From Verif.Queue Require Import Proofs.
From Verif.Search Require Import Proofs ProofsKnn ProofsRange.
From Verif.Filtered Require Import Model Spec Proofs Proofs2 Proofs3 Proofs4 Proofs5.

Ltac sp := repeat match goal with |- _ /\ _ => split end.

Lemma closest_prefix l k xs best : closest (l + k) xs best -> closest l xs (firstn l best).
Proof.
  intros (S & L & others & P & C).
  rewrite <- (firstn_skipn l best) in S. destruct (sorted_app_inv _ _ _ S) as (S1 & S2).
  split; [exact S1|]. split.
  - rewrite firstn_length, L. clear; lia.
  - exists (skipn l best ++ others). rewrite app_assoc, firstn_skipn. split; [exact P|].
    intros x y Hx Hy. apply in_app_or in Hy. destruct Hy as [Hy|Hy]; [auto|].
    apply in_firstn in Hx. auto.
Qed.

(** ** Insertion sorts *)
Fixpoint insert_by (before : nbr -> nbr -> bool) (x : nbr) (xs : list nbr) : list nbr :=
  match xs with
  | [] => [x]
  | y :: ys => if before x y then x :: xs else y :: insert_by before x ys
  end.
Definition isort_by (before : nbr -> nbr -> bool) (xs : list nbr) : list nbr :=
  fold_right (insert_by before) [] xs.

Lemma insert_by_perm b x xs : Permutation (insert_by b x xs) (x :: xs).
Proof.
  induction xs as [|y ys IH]; cbn [insert_by]; [reflexivity|]. destruct (b x y); [reflexivity|].
  rewrite IH. apply perm_swap.
Qed.
Lemma isort_by_perm b xs : Permutation (isort_by b xs) xs.
Proof.
  induction xs as [|x xs IH]; [reflexivity|]. cbn [isort_by fold_right].
  etransitivity; [apply insert_by_perm|]. now constructor.
Qed.

Lemma insert_by_sorted b (R : nbr -> nbr -> Prop) (D : nbr -> Prop) x xs :
  (forall a c, D a -> D c -> b a c = true -> R a c) -> (forall a c, D a -> D c -> b a c = false -> R c a) ->
  (forall a c e, R a c -> R c e -> R a e) -> D x -> Forall D xs ->
  StronglySorted R xs -> StronglySorted R (insert_by b x xs).
Proof.
  intros H1 H2 HT Dx DX S. induction S as [|y ys S IH F]; cbn [insert_by]; [repeat constructor|].
  inversion DX as [|? ? Dy DY]; subst. destruct (b x y) eqn:B.
  - constructor; [constructor; auto|]. constructor; [auto|]. eapply Forall_impl; [|exact F].
    intros z Hz. cbn beta in *. eauto.
  - constructor; [auto|]. rewrite Forall_forall. intros z Hz.
    apply (Permutation_in _ (insert_by_perm b x ys)) in Hz. destruct Hz as [<-|Hz]; [auto|].
    rewrite Forall_forall in F. auto.
Qed.

Lemma isort_by_sorted b (R : nbr -> nbr -> Prop) (D : nbr -> Prop) xs :
  (forall a c, D a -> D c -> b a c = true -> R a c) -> (forall a c, D a -> D c -> b a c = false -> R c a) ->
  (forall a c e, R a c -> R c e -> R a e) -> Forall D xs -> StronglySorted R (isort_by b xs).
Proof.
  intros H1 H2 HT. induction 1 as [|x xs Dx DX IH]; [constructor|]. cbn [isort_by fold_right].
  apply (insert_by_sorted b R D); auto. rewrite Forall_forall in *. intros y Hy. apply DX.
  now apply (Permutation_in _ (isort_by_perm b xs)).
Qed.

Definition dist_le (x y : nbr) : bool := f32_le (n_dist x) (n_dist y).
Definition isort (xs : list nbr) : option (list nbr) := Some (isort_by dist_le xs).

Lemma isort_sorts : sorts isort.
Proof.
  intros xs. cbn. split; [apply isort_by_perm|]. intros F.
  apply (isort_by_sorted dist_le closer (fun x => is_nan (n_dist x) = false)); auto.
  - intros a c Ha Hc H. unfold closer, dist_le in *. apply f32_le_spec.
    apply f32_le_false in H; auto. lia.
  - intros a c e H H'. unfold closer in *. apply f32_le_spec in H, H'. apply f32_le_spec. lia.
Qed.

Definition beforeb (x y : nbr) : bool :=
  f32_lt (n_dist x) (n_dist y) || (negb (f32_lt (n_dist y) (n_dist x)) && (n_id x <=? n_id y)).
Definition isort_total (xs : list nbr) : list nbr := isort_by beforeb xs.

Lemma isort_total_sorts : sorts_total isort_total.
Proof.
  intros xs. split; [apply isort_by_perm|]. intros F.
  set (R := fun x y => (is_nan (n_dist x) = false /\ is_nan (n_dist y) = false) /\ before x y).
  assert (S : StronglySorted R (isort_total xs)).
  { apply (isort_by_sorted beforeb R (fun x => is_nan (n_dist x) = false)); auto; unfold R, before, beforeb, nearer.
    - intros a c Ha Hc H. split; [auto|]. apply orb_prop in H. destruct H as [H|H]; [now left|right].
      apply andb_prop in H. destruct H as [H1 H2]. apply negb_true_iff in H1. apply Nat.leb_le in H2.
      split; [congruence|exact H2].
    - intros a c Ha Hc H. split; [auto|]. apply orb_false_elim in H. destruct H as [H1 H2].
      destruct (f32_lt (n_dist c) (n_dist a)) eqn:E; [now left|right]. cbn [negb andb] in H2.
      apply Nat.leb_gt in H2. split; [congruence|lia].
    - intros a c e ((Na & Nc) & H) ((_ & Ne) & H'). split; [auto|].
      assert (G : forall u v, is_nan (n_dist u) = false -> is_nan (n_dist v) = false ->
        (f32_lt (n_dist u) (n_dist v) = true <-> (f32_key (n_dist u) < f32_key (n_dist v))%Z)).
      { intros u v Hu Hv. rewrite f32_lt_spec. tauto. }
      rewrite !G in * by auto. lia. }
  clear F. induction S as [|x ys S IH F]; constructor; auto. eapply Forall_impl; [|exact F].
  intros y (_ & H). exact H.
Qed.

Section thms.
Variable graph : nat -> option (list nat).
Variable dist : nat -> option f32.
Variable acc : nat -> bool.
Variable sort : list nbr -> option (list nbr).
Hypothesis Hsort : sorts sort.
Notation accepted := (accepted acc).

Lemma c64_results fuel l bw stop ad starts res st rec : 0 < l -> NoDup starts ->
  inline_search graph dist acc sort fuel l bw stop ad starts = SOk (res, st, rec) ->
  exists scanned, scan_of graph dist starts rec scanned /\
    NoDup (map n_id rec) /\ incl rec scanned /\
    NoDup (map n_id res) /\ length res = Nat.min l (length (filter accepted scanned)) /\
    (forall x, In x res -> acc (n_id x) = true /\ In x scanned /\ reach graph starts (n_id x)) /\
    (numeric dist -> closest l (filter accepted scanned) res) /\
    s_hops st = length rec /\ s_cmps st + length starts = length scanned.
Proof.
  intros Hl ND H. unfold inline_search in H.
  pose proof (inline_spec graph dist acc sort Hsort fuel l bw stop ad starts Hl ND) as IS.
  destruct (inline_internal graph dist acc sort fuel l bw stop ad starts) as [[[m st'] rec']| | |]; try discriminate.
  injection H as <- <- <-. destruct IS as (s & xs & -> & I & P & S & _).
  pose proof (ii_vis _ _ _ _ _ _ _ _ _ I) as V.
  assert (HL : 0 < l + length starts) by (clear -Hl; lia).
  exists xs. sp.
  - exact (iinv_scan _ _ _ _ _ _ _ _ _ I).
  - exact (nav_nodup _ _ _ _ _ HL (v_nodup _ _ _ _ _ V) (ii_nav _ _ _ _ _ _ _ _ _ I)).
  - exact (n_rec _ _ _ _ _ (ii_nav _ _ _ _ _ _ _ _ _ I)).
  - apply firstn_nodup_ids. apply (NoDup_map_perm_ids _ _ (Permutation_sym P)). apply filter_nodup_ids, V.
  - now rewrite firstn_length, (Permutation_length P).
  - intros x Hx. apply in_firstn in Hx. apply (Permutation_in _ P) in Hx. apply filter_In in Hx.
    destruct Hx as [Hx Ax]. split; [exact Ax|]. split; [exact Hx|].
    apply (ii_reach _ _ _ _ _ _ _ _ _ I). now apply (v_new _ _ _ _ _ V).
  - intros HN. apply closest_firstn; [exact P|]. apply S. rewrite Forall_forall. intros x Hx.
    apply filter_In in Hx. destruct Hx as [Hx _]. destruct (v_new _ _ _ _ _ V x Hx) as (_ & _ & Sc).
    exact (HN _ _ Sc).
  - exact (ii_hops _ _ _ _ _ _ _ _ _ I).
  - exact (ii_cmps _ _ _ _ _ _ _ _ _ I).
Qed.

Lemma c64_total fuel l bw stop ad starts univ : 0 < l -> NoDup starts ->
  finite_index graph starts univ -> length univ <= fuel ->
  (forall i, In i starts -> dist i <> None) ->
  (forall i, reach graph starts i -> graph i <> None) ->
  numeric dist -> ad_total ad ->
  exists out, inline_search graph dist acc sort fuel l bw stop ad starts = SOk out.
Proof.
  intros Hl ND FI Hf HD HG HN HA. unfold inline_search.
  pose proof (inline_spec graph dist acc sort Hsort fuel l bw stop ad starts Hl ND) as IS.
  pose proof (inline_fuel graph dist acc sort fuel l bw stop ad starts univ Hl ND FI Hf) as IF.
  destruct (inline_internal graph dist acc sort fuel l bw stop ad starts) as [[[m st'] rec']| | |].
  - eauto.
  - destruct IS as [(i & Hi & Di)|(i & Hi & Gi)]; exfalso; [exact (HD i Hi Di)|exact (HG i Hi Gi)].
  - exfalso. apply IS. auto.
  - congruence.
Qed.

Lemma c64_exact fuel l bw starts univ res st rec : 0 < l -> bw <> 0 -> NoDup starts ->
  finite_index graph starts univ -> length univ <= l + length starts ->
  (forall i, reach graph starts i -> exists d, dist i = Some d /\ is_nan d = false) ->
  inline_search graph dist acc sort fuel l bw (fun _ => false) None starts = SOk (res, st, rec) ->
  exists all, NoDup (map n_id all) /\ Forall (scored dist) all /\
    (forall i, In i (map n_id all) <-> reach graph starts i /\ acc i = true) /\ closest l all res.
Proof.
  intros Hl Hb ND FI HU HD H. unfold inline_search in H.
  pose proof (inline_spec graph dist acc sort Hsort fuel l bw (fun _ => false) None starts Hl ND) as IS.
  pose proof (inline_exact graph dist acc sort Hsort fuel l bw starts univ) as IX.
  destruct (inline_internal graph dist acc sort fuel l bw (fun _ => false) None starts) as [[[m st'] rec']| | |]; try discriminate.
  specialize (IX m st' rec' Hl Hb ND FI HU HD eq_refl).
  injection H as <- <- <-. destruct IS as (s & xs & -> & I & P & S & _).
  pose proof (ii_vis _ _ _ _ _ _ _ _ _ I) as V.
  exists (filter accepted xs). sp.
  - apply filter_nodup_ids, V.
  - rewrite Forall_forall. intros x Hx. apply filter_In in Hx. apply (v_new _ _ _ _ _ V). tauto.
  - intros i. split.
    + intros Hi. apply in_map_iff in Hi. destruct Hi as (x & <- & Hx). apply filter_In in Hx.
      destruct Hx as [Hx Ax]. split; [|exact Ax]. apply (ii_reach _ _ _ _ _ _ _ _ _ I).
      now apply (v_new _ _ _ _ _ V).
    + intros [R A]. destruct (HD i R) as (d & Hd & _).
      apply (in_map n_id _ (mkNbr i d)). apply filter_In. split; [|exact A].
      apply (v_all _ _ _ _ _ V); auto.
  - apply closest_firstn; [exact P|]. apply S. rewrite Forall_forall. intros x Hx. apply filter_In in Hx.
    destruct Hx as [Hx _]. destruct (v_new _ _ _ _ _ V x Hx) as (_ & Hv & Sc).
    destruct (HD _ (ii_reach _ _ _ _ _ _ _ _ _ I _ Hv)) as (d & Hd & Nd). unfold scored in Sc. congruence.
Qed.

Lemma c64_nav fuel l bw stop starts : 0 < l -> bw <> 0 -> NoDup starts ->
  match inline_search graph dist acc sort fuel l bw stop None starts, knn graph dist fuel l bw stop starts with
  | SOk (_, st, rec), SOk (_, st', rec') => rec = rec' /\ s_best st = s_best st' /\
      s_hops st = s_hops st' /\ s_cmps st + length starts = s_cmps st'
  | SPanic, SOk _ => ~ numeric dist
  | SErr, SErr => True
  | SFuel, SFuel => True
  | _, _ => False
  end.
Proof.
  intros Hl Hb ND. unfold inline_search.
  pose proof (inline_sim graph dist acc sort Hsort fuel l bw stop starts Hl Hb ND) as S.
  destruct (inline_internal graph dist acc sort fuel l bw stop None starts) as [[[m st] rec]| | |];
    destruct (knn graph dist fuel l bw stop starts) as [[[res st'] rec']| | |]; auto.
  destruct S as (-> & S1 & S2 & S3 & S4). auto.
Qed.

Lemma c65_results fuel degree l bw stop starts res st beams hops : 0 < l -> bw <> 0 -> NoDup starts ->
  multihop_search graph dist acc sort fuel degree l bw stop starts = SOk (res, st, (beams, hops)) ->
  exists scanned,
    (NoDup (map n_id scanned) /\ Forall (scored dist) scanned /\
     forall i, In i (map n_id scanned) <-> dist i <> None /\
       (In i starts \/ (exists x, In x beams /\ edge graph (n_id x) i) \/
        (acc i = true /\ exists x, In x hops /\ edge graph (n_id x) i))) /\
    (forall i, In i (map n_id scanned) -> reach graph starts i) /\
    closest l (valid (filter accepted scanned)) res /\
    NoDup (map n_id (beams ++ hops)) /\ incl (beams ++ hops) scanned /\
    (forall x, In x beams -> In (n_id x) starts \/ acc (n_id x) = true) /\
    (forall x, In x hops -> ~ In (n_id x) starts /\ acc (n_id x) = false) /\
    length hops <= degree / 2 * length beams /\
    s_hops st = length (beams ++ hops) /\ s_cmps st + length starts = length scanned.
Proof.
  intros Hl Hb ND H. pose proof (multihop_spec graph dist acc sort Hsort fuel degree l bw stop starts Hl Hb ND) as MS.
  rewrite H in MS. destruct MS as (xs0 & sc & MX & [I1 I2 I3 I4 I5 I6 I7 I8] & C & _).
  assert (HL : 0 < l + length starts) by (clear -Hl; lia).
  pose proof (v_nodup _ _ _ _ _ I2) as N.
  assert (NX : NoDup (map n_id (xs0 ++ filter accepted sc))).
  { rewrite map_app in *. apply NoDup_app_inv in N. destruct N as (Na & Nb & Nc).
    apply NoDup_app_intro; [exact Na|now apply filter_nodup_ids|].
    intros i H1 H2. apply in_map_iff in H2. destruct H2 as (x & <- & Hx). apply filter_In in Hx.
    apply (Nc (n_id x) H1). apply in_map. tauto. }
  pose proof (n_rec _ _ _ _ _ I1) as NR.
  assert (BI : forall x, In x beams -> In x xs0 \/ (In x sc /\ accepted x = true)).
  { intros x Hx. apply NR in Hx. apply in_app_or in Hx. destruct Hx as [|Hx]; [now left|right].
    now apply filter_In in Hx. }
  assert (DJ : forall x, In x sc -> ~ In (n_id x) starts).
  { intros x Hx Hs. rewrite <- MX in Hs. rewrite map_app in N. apply NoDup_app_inv in N.
    destruct N as (_ & _ & N). apply (N (n_id x) Hs). now apply in_map. }
  exists (xs0 ++ sc). sp.
  - exact N.
  - rewrite Forall_forall. intros x Hx. now apply (v_new _ _ _ _ _ I2).
  - intros i. split.
    + intros Hi. apply in_map_iff in Hi. destruct Hi as (x & <- & Hx).
      destruct (v_new _ _ _ _ _ I2 x Hx) as (_ & V2 & V3). split; [unfold scored in V3; congruence|].
      apply (v_mem _ _ _ _ _ I2) in V2. destruct V2 as [[]|V2]. exact V2.
    + intros (H1 & H2). destruct (dist i) as [d|] eqn:E; [|congruence].
      assert (Hi : In i (s_vis st)) by (apply (v_mem _ _ _ _ _ I2); right; exact H2).
      apply (in_map n_id _ (mkNbr i d)). exact (v_all _ _ _ _ _ I2 i d Hi (fun x => x) E).
  - intros i Hi. apply in_map_iff in Hi. destruct Hi as (x & <- & Hx). apply I3. now apply (v_new _ _ _ _ _ I2).
  - exact C.
  - rewrite map_app. apply NoDup_app_intro; [exact (nav_nodup _ _ _ _ _ HL NX I1)|exact I5|].
    intros i H1 H2. apply in_map_iff in H1, H2. destruct H1 as (x & <- & Hx), H2 as (y & E & Hy).
    destruct (I4 y Hy) as [Ay Sy]. destruct (BI x Hx) as [Hx'|[_ Ax]].
    + apply (DJ y Sy). rewrite E, <- MX. now apply in_map.
    + unfold Model.accepted in *. congruence.
  - intros x Hx. apply in_or_app. apply in_app_or in Hx. destruct Hx as [Hx|Hx].
    + destruct (BI x Hx) as [|[? _]]; auto.
    + right. now apply I4.
  - intros x Hx. destruct (BI x Hx) as [Hx'|[_ Ax]]; [left; rewrite <- MX; now apply in_map|now right].
  - intros x Hx. destruct (I4 x Hx) as [Ax Sx]. split; [now apply DJ|exact Ax].
  - exact I8.
  - now rewrite app_length.
  - rewrite I7, app_length, <- MX, map_length. clear; lia.
Qed.

Lemma c65_total fuel degree l bw stop starts univ : 0 < l -> bw <> 0 -> NoDup starts ->
  finite_index graph starts univ -> length univ <= fuel ->
  (forall i, In i starts -> dist i <> None) ->
  (forall i, reach graph starts i -> graph i <> None) -> numeric dist ->
  exists out, multihop_search graph dist acc sort fuel degree l bw stop starts = SOk out.
Proof.
  intros Hl Hb ND FI Hf HD HG HN.
  pose proof (multihop_spec graph dist acc sort Hsort fuel degree l bw stop starts Hl Hb ND) as IS.
  pose proof (multihop_fuel graph dist acc sort Hsort fuel degree l bw stop starts univ Hl Hb ND FI Hf) as IF.
  destruct (multihop_search graph dist acc sort fuel degree l bw stop starts) as [[[m st'] [b h]]| | |].
  - eauto.
  - destruct IS as [(i & Hi & Di)|(i & Hi & Gi)]; exfalso; [exact (HD i Hi Di)|exact (HG i Hi Gi)].
  - contradiction.
  - congruence.
Qed.

Variable sort_total : list nbr -> list nbr.
Hypothesis Htotal : sorts_total sort_total.

Lemma in_results p o x : fo_results o = filter (outside_inner p)
    (match r_max p with Some k => firstn k (fo_matched o) | None => fo_matched o end) ->
  In x (fo_matched o) -> outside_inner p x = true ->
  In x (fo_results o) \/ exists k, r_max p = Some k /\ k < length (fo_matched o).
Proof.
  intros -> Hx Ho. destruct (r_max p) as [k|].
  - destruct (Nat.lt_ge_cases k (length (fo_matched o))); [right; eauto|left].
    apply filter_In. split; [|exact Ho]. now rewrite firstn_all2.
  - left. apply filter_In. auto.
Qed.

Lemma c66_all fuel fuel2 p stop starts o : range_valid p = true -> NoDup starts ->
  filtered_range graph dist acc sort sort_total fuel fuel2 p stop starts = SOk o ->
  (* sound *)
  (NoDup (map n_id (fo_results o)) /\
   (forall k, r_max p = Some k -> length (fo_results o) <= k) /\
   forall x, In x (fo_results o) -> acc (n_id x) = true /\ reach graph starts (n_id x) /\ scored dist x /\
     f32_le (n_dist x) (r_radius p) = true /\ outside_inner p x = true) /\
  (* complete *)
  exists m st rec scanned best,
    inline_internal graph dist acc sort fuel (r_l p) (r_bw p) stop None starts = SOk (m, st, rec) /\
    scan_of graph dist starts rec scanned /\ closest (r_l p) (valid scanned) best /\
    NoDup (map n_id (fo_seeds o)) /\
    (forall x, In x (fo_seeds o) <-> (In x best \/ (In x scanned /\ acc (n_id x) = true)) /\
       f32_le (n_dist x) (r_radius p) = true) /\
    (forall x, In x scanned -> acc (n_id x) = true -> f32_le (n_dist x) (r_radius p) = true ->
       outside_inner p x = true ->
       In x (fo_results o) \/ exists k, r_max p = Some k /\ k < length (fo_matched o)) /\
    (fo_second o = true -> forall i d, linked graph dist (r_limit p) (map n_id (fo_seeds o)) i ->
       dist i = Some d -> acc i = true -> f32_le d (r_radius p) = true -> outside_inner p (mkNbr i d) = true ->
       In (mkNbr i d) (fo_results o) \/ exists k, r_max p = Some k /\ k <= length (fo_matched o)).
Proof.
  intros HV ND H. pose proof (filtered_range_spec graph dist acc sort Hsort sort_total Htotal fuel fuel2 p stop starts HV ND) as FS.
  rewrite H in FS. destruct FS as (st & xs & m & best & rec & IE & P & ER & E2 & S2).
  assert (MF : exists more, fo_matched o = filter (within p) m ++ more /\ forall x, In x more -> good acc p x).
  { destruct (fo_second o).
    - destruct S2 as (vis & fr & I & _). exact (fi_found _ _ _ _ _ _ _ _ _ _ I).
    - exists []. rewrite app_nil_r. split; [exact S2|]. intros x []. }
  assert (MS : NoDup (map n_id (fo_matched o)) /\ forall x, In x (fo_matched o) ->
     acc (n_id x) = true /\ reach graph starts (n_id x) /\ scored dist x /\ f32_le (n_dist x) (r_radius p) = true).
  { assert (F : forall x, In x (filter (within p) m) ->
      acc (n_id x) = true /\ reach graph starts (n_id x) /\ scored dist x /\ f32_le (n_dist x) (r_radius p) = true).
    { intros x Hx. apply filter_In in Hx. destruct Hx as [Hx HW].
      destruct (in_scanned graph dist acc _ _ _ _ _ _ _ _ P x Hx) as [Hs Ha].
      destruct (p_nav _ _ _ _ _ _ _ _ _ _ _ P x Hs) as [R Sc]. auto. }
    destruct (fo_second o).
    - destruct S2 as (vis & fr & I & _). split; [exact (fi_nodup _ _ _ _ _ _ _ _ _ _ I)|].
      intros x Hx. destruct (fi_vis _ _ _ _ _ _ _ _ _ _ I x Hx) as [Hv Sc].
      pose proof (fi_reach _ _ _ _ _ _ _ _ _ _ I _ Hv) as R.
      destruct MF as (more & EM & Hg). rewrite EM in Hx. apply in_app_or in Hx. destruct Hx as [Hx|Hx]; [auto|].
      destruct (Hg x Hx) as (_ & G2 & G3). auto.
    - rewrite S2. split; [exact (p_found _ _ _ _ _ _ _ _ _ _ _ P)|exact F]. }
  destruct MS as [MN MG]. split.
  - split; [|split].
    + rewrite ER. apply filter_nodup_ids. destruct (r_max p); [now apply firstn_nodup_ids|exact MN].
    + intros k Hk. rewrite ER, Hk.
      pose proof (filter_le (outside_inner p) (fun _ => true) (firstn k (fo_matched o)) ltac:(auto)) as FL.
      rewrite (filter_all (fun _ : nbr => true) _ ltac:(auto)), firstn_length in FL. clear -FL. lia.
    + intros x Hx. rewrite ER in Hx. apply filter_In in Hx. destruct Hx as [Hx Ho].
      assert (Hm : In x (fo_matched o)) by (destruct (r_max p); [eapply in_firstn; eauto|exact Hx]).
      destruct (MG x Hm) as (A & B & C & D). auto.
  - exists m, st, rec, xs, (firstn (r_l p) best).
    assert (MI : forall x, In x m <-> In x xs /\ acc (n_id x) = true).
    { intros x. split; [exact (in_scanned graph dist acc _ _ _ _ _ _ _ _ P x)|].
      intros [H1 H2]. eapply Permutation_in; [symmetry; exact (p_m _ _ _ _ _ _ _ _ _ _ _ P)|].
      apply filter_In. auto. }
    split; [exact IE|]. split; [exact (p_scan _ _ _ _ _ _ _ _ _ _ _ P)|].
    split; [exact (closest_prefix _ _ _ _ (p_best _ _ _ _ _ _ _ _ _ _ _ P))|].
    split; [exact (p_nodup _ _ _ _ _ _ _ _ _ _ _ P)|].
    split; [intros x; rewrite (p_seeds _ _ _ _ _ _ _ _ _ _ _ P x), MI; reflexivity|].
    split.
    + intros x Hx Ax Wx Ox. apply (in_results p o x ER); auto. destruct MF as (more & EM & _). rewrite EM.
      apply in_or_app. left. apply filter_In. split; [now apply MI|exact Wx].
    + intros HS2 i d L Hd Ai Wi Oi. rewrite HS2 in S2. destruct S2 as (vis & fr & I & HF).
      destruct (room p (length (fo_matched o))) eqn:R.
      2:{ right. unfold room in R. destruct (r_max p) as [k|]; [|discriminate]. exists k.
          apply Nat.ltb_ge in R. auto. }
      specialize (HF eq_refl). subst fr.
      destruct (linked_visited graph dist acc _ _ _ _ _ _ I i L) as [Hv Fr].
      assert (Hm : In (mkNbr i d) (fo_matched o)).
      { destruct Fr as [Fr|(d' & Hd' & Hl)].
        - destruct MF as (more & EM & _). rewrite EM. apply in_or_app. left.
          apply in_map_iff in Fr. destruct Fr as (x & Ei & Hx).
          pose proof (seed_scanned graph dist acc _ _ _ _ _ _ _ _ P x Hx) as Hs.
          destruct (p_nav _ _ _ _ _ _ _ _ _ _ _ P x Hs) as [_ Sc]. unfold scored in Sc. subst i.
          rewrite Sc in Hd. injection Hd as <-. destruct x as [xi xd]. cbn [n_id n_dist] in *.
          apply filter_In. split; [apply MI; auto|exact Wi].
        - apply (fi_in _ _ _ _ _ _ _ _ _ _ I R i d Hv Hd). rewrite Hd in Hd'. injection Hd' as <-.
          repeat split; auto. }
      destruct (in_results p o _ ER Hm Oi) as [Q|(k & Hk & Lk)]; [now left|right].
      exists k. split; [exact Hk|]. clear -Lk. lia.
Qed.

Lemma c66_total fuel fuel2 p stop starts univ : range_valid p = true -> NoDup starts ->
  finite_index graph starts univ -> length univ <= fuel -> length univ <= fuel2 ->
  (forall i, In i starts -> dist i <> None) ->
  (forall i, reach graph starts i -> graph i <> None) -> numeric dist ->
  exists out, filtered_range graph dist acc sort sort_total fuel fuel2 p stop starts = SOk out.
Proof.
  intros HV ND FI Hf Hf2 HD HG HN.
  pose proof (filtered_range_spec graph dist acc sort Hsort sort_total Htotal fuel fuel2 p stop starts HV ND) as IS.
  pose proof (filtered_range_fuel graph dist acc sort Hsort sort_total Htotal fuel fuel2 p stop starts univ HV ND FI Hf Hf2) as IF.
  destruct (filtered_range graph dist acc sort sort_total fuel fuel2 p stop starts) as [o| | |].
  - eauto.
  - destruct IS as [(i & Hi & Di)|(i & Hi & Gi)]; exfalso; [exact (HD i Hi Di)|exact (HG i Hi Gi)].
  - contradiction.
  - congruence.
Qed.
End thms.

(** ** Adaptive L *)
Lemma adaptive_bounds ratio grow times base visited matched scale count :
  adaptive_ok count scale = true -> f64_nan scale = false ->
  (forall s, f64_nan (grow s) = false) ->
  exists m, f64_le f64_one m = true /\ f64_le m scale = true /\
    compute_adaptive_l ratio grow times base visited matched scale = Some (times base m).
Proof.
  intros OK NS NG. unfold adaptive_ok in OK. apply andb_prop in OK. destruct OK as [OK _].
  apply negb_true_iff in OK.
  assert (LE : forall x y, f64_nan x = false -> f64_nan y = false -> f64_lt y x = false -> f64_le x y = true).
  { intros x y Hx Hy H. unfold f64_lt, f64_le in *. rewrite Hx, Hy in *. cbn [negb andb] in *.
    apply Z.ltb_ge in H. now apply Z.leb_le. }
  assert (N1 : f64_nan f64_one = false) by reflexivity.
  pose proof (LE _ _ N1 NS OK) as S1.
  assert (RF : forall x, f64_nan x = false -> f64_le x x = true).
  { intros x Hx. apply LE; auto. unfold f64_lt. rewrite Hx. cbn [negb andb]. apply Z.ltb_irrefl. }
  unfold compute_adaptive_l. destruct ((matched =? 0) || (visited =? 0)).
  { exists scale. auto. }
  set (m := if f64_le f64_half _ then _ else _).
  assert (NM : f64_nan m = false).
  { subst m. destruct (f64_le f64_half _); [reflexivity|]. destruct (f64_le f64_tenth _); [reflexivity|auto]. }
  clearbody m. unfold f64_clamp. rewrite S1.
  destruct (f64_lt m f64_one) eqn:B1.
  - destruct (f64_lt scale f64_one) eqn:B2; [congruence|]. exists f64_one. auto.
  - destruct (f64_lt scale m) eqn:B2; [exists scale; auto|]. exists m. auto.
Qed.
