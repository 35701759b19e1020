(** Inline filtered search and flat scan on disk. *)
From Verif.Lib Require Import Base Lists F32.
From Verif.Search Require Import Proofs ProofsKnn.
From Verif.Filtered Require Import Proofs Proofs2 Proofs3 Proofs6.
From Verif.Output Require Import Proofs.
From Verif.DiskSearch Require Import Model Spec Proofs.

Section disk.
Context {V A : Type} (nodes : nat -> option (node V A)).
Variable full : V -> f32.
Variable pq : nat -> f32.
Variable npts maxv limit medoid : nat.
Variable keepv : bool.
Hypothesis DI : disk_index nodes npts maxv medoid.
Notation graph := (graph_of nodes).
Notation pqd := (pq_of nodes pq).
Notation DInv := (DInv nodes pq limit medoid).
Notation Trav := (Trav nodes pq limit medoid).
Notation AccOK := (AccOK nodes full keepv).

Section inline.
Variable ok : nat -> bool.
Variable sort : list nbr -> option (list nbr).
Hypothesis Hsort : sorts sort.
Notation accepted := (accepted ok).

Lemma adapt_dinv L p ad l s xs rec s' : DInv L p 1 (i_st s) xs rec ->
  adapt_l ad l s = Some s' ->
  DInv L (match ad with None => p | Some _ => false end) 1 (i_st s') xs rec /\ i_matched s' = i_matched s.
Proof.
  intros D. unfold adapt_l. destruct ad as [[count f]|].
  - destruct (negb (i_adj s) && (count <=? i_sv s)).
    + destruct (f (i_sv s) (i_sm s)) as [nl|]; [|discriminate]. intros [= <-].
      destruct D as [D1 D2 D3 D4 D5]. split; [|reflexivity]. destruct (Nat.ltb_spec l nl);
        constructor; cbn [i_st s_best s_vis s_hops s_cmps]; auto.
      * apply nav_reconf with p; [lia|exact D1].
      * now apply nav_weaken with p.
    + intros [= <-]. destruct D as [D1 D2 D3 D4 D5]. split; [|reflexivity].
      constructor; auto. now apply nav_weaken with p.
  - now intros [= <-].
Qed.

Lemma inline_loop_ok L p bw ad l : 0 < L -> bw <> 0 -> (ad = None \/ p = false) ->
  forall fuel s xs rec, DInv L p 1 (i_st s) xs rec -> i_matched s = filter accepted xs ->
  npts <= fuel + length rec ->
  (~ ad_total ad /\ forall St (P : vprov St V A) inv, serves nodes P inv -> forall acc,
    AccOK inv acc (map n_id (firstn limit rec)) ->
    (d_inline_loop P full pq npts maxv limit keepv ok fuel bw ad l acc s = SErr /\ ~ reliable nodes P inv) \/
    d_inline_loop P full pq npts maxv limit keepv ok fuel bw ad l acc s = SPanic) \/
  exists s' ys rec', DInv L p 1 (i_st s') (xs ++ ys) (rec ++ rec') /\
    i_matched s' = filter accepted (xs ++ ys) /\
    has_notvisited (s_best (i_st s')) = false /\
    (npts <= limit -> forall n, inline_loop graph pqd ok fuel bw (fun _ => false) ad l n s = SOk (s', rec')) /\
    forall St (P : vprov St V A) inv, serves nodes P inv -> forall acc,
    AccOK inv acc (map n_id (firstn limit rec)) ->
    reads nodes P inv (d_inline_loop P full pq npts maxv limit keepv ok fuel bw ad l acc s)
      (fun r => snd (fst r) = s' /\ snd r = rec' /\
         AccOK inv (fst (fst r)) (map n_id (firstn limit (rec ++ rec')))).
Proof.
  intros HL Hbw Hp. induction fuel as [|fuel IH]; intros s xs rec D HM Hf;
    destruct (nav_beam _ _ _ _ _ bw (dn_nav _ _ _ _ _ _ _ _ _ _ D)) as (q1 & beam & T & N1 & _ & _);
    pose proof (dinv_bound nodes pq npts maxv limit medoid DI _ _ _ _ _ _ _ _ _ HL D T) as Bd;
    (destruct beam as [|b beam];
     [right; destruct (take_beam_nil _ _ _ Hbw T) as (-> & HN);
      exists (mkIst (mkSst (s_best (i_st s)) (s_vis (i_st s)) (s_cmps (i_st s)) (s_hops (i_st s)))
                    (i_matched s) (i_sv s) (i_sm s) (i_adj s)), [], []; rewrite !app_nil_r;
      split; [destruct D; constructor; auto|]; split; [exact HM|]; split; [exact HN|]; split;
      [intros _ n; cbn [inline_loop]; now rewrite T
      |intros St P inv SV acc AO; right; cbn [d_inline_loop]; rewrite (not_stopped nodes full pq limit medoid keepv _ _ _ AO), T;
       eexists; split; [reflexivity|]; auto]|]).
  - exfalso. cbn [length] in Bd. lia.
  - set (bm := b :: beam) in *.
    destruct (step_ok nodes full pq npts maxv limit medoid keepv DI L p 1 bw (i_st s) xs rec q1 bm HL D T)
      as (st1 & ns & D1 & S1 & R1).
    set (s1 := mkIst st1 (i_matched s ++ filter accepted ns) (i_sv s + length ns)
                     (i_sm s + length (filter accepted ns)) (i_adj s)).
    destruct (adapt_l ad l s1) as [s2|] eqn:AD.
    2:{ left. split; [intros H; exact (adapt_total ad l s1 H AD)|]. intros St P inv SV acc AO.
        cbn [d_inline_loop]. rewrite (not_stopped nodes full pq limit medoid keepv _ _ _ AO), T. unfold bm at 1 3.
        destruct (R1 St P inv SV acc AO) as [(E & R)|([[acc1 st1'] ns'] & E & E1 & E2 & AO1)]; fold bm.
        { left. rewrite E. auto. }
        cbn [fst snd] in *. subst st1' ns'. right. rewrite E. fold s1. now rewrite AD. }
    destruct (adapt_dinv L p ad l s1 (xs ++ ns) (rec ++ bm) s2 D1 AD) as (D2 & M2).
    assert (PP : (match ad with None => p | Some _ => false end) = p).
    { destruct Hp as [->| ->]; [reflexivity|destruct ad; reflexivity]. }
    rewrite PP in D2.
    assert (HM2 : i_matched s2 = filter accepted (xs ++ ns)).
    { rewrite M2. cbn [i_matched s1]. now rewrite HM, filter_app. }
    destruct (IH s2 (xs ++ ns) (rec ++ bm) D2 HM2) as [(NT & R2)|(s3 & ys & rec3 & D3 & HM3 & HN3 & S3 & R3)].
    + rewrite app_length. cbn [length bm]. lia.
    + left. split; [exact NT|]. intros St P inv SV acc AO.
      cbn [d_inline_loop]. rewrite (not_stopped nodes full pq limit medoid keepv _ _ _ AO), T. unfold bm at 1 3.
      destruct (R1 St P inv SV acc AO) as [(E & R)|([[acc1 st1'] ns'] & E & E1 & E2 & AO1)]; fold bm.
      { left. rewrite E. auto. }
      cbn [fst snd] in *. subst st1' ns'. rewrite E. fold s1. rewrite AD.
      destruct (R2 St P inv SV acc1 AO1) as [(E' & R)|E']; rewrite E'; auto.
    + right. exists s3, (ns ++ ys), (bm ++ rec3). rewrite !app_assoc. split; [exact D3|]. split; [exact HM3|].
      split; [exact HN3|]. split.
      * intros Hlim n. cbn [inline_loop]. rewrite T. unfold bm at 1.
        destruct S1 as (vis & X & q2 & I2 & E); [rewrite app_length; lia|]. fold bm. rewrite X, I2, <- E.
        fold s1. rewrite AD. now rewrite (S3 Hlim (S n)).
      * intros St P inv SV acc AO. cbn [d_inline_loop]. rewrite (not_stopped nodes full pq limit medoid keepv _ _ _ AO), T. unfold bm at 1 3.
        destruct (R1 St P inv SV acc AO) as [(E & R)|([[acc1 st1'] ns'] & E & E1 & E2 & AO1)]; fold bm.
        { left. rewrite E. auto. }
        cbn [fst snd] in *. subst st1' ns'. rewrite E. fold s1. rewrite AD.
        destruct (R3 St P inv SV acc1 AO1) as [(E' & R)|([[acc2 st2'] rec2'] & E' & E1 & E2 & AO2)].
        { left. rewrite E'. auto. }
        cbn [fst snd] in *. subst st2' rec2'. right. rewrite E'. eexists. split; [reflexivity|]. cbn [fst snd]. auto.
Qed.

(** The candidates of inline filtered search. *)
Lemma d_inline_ok fuel l bw ad : 0 < l -> bw <> 0 -> npts <= fuel ->
  let p := match ad with None => true | Some _ => false end in
  (forall St (P : vprov St V A) inv, serves nodes P inv -> forall acc, AccOK inv acc [] ->
    (d_inline P full pq npts maxv limit medoid keepv ok sort fuel l bw ad acc = SErr /\ ~ reliable nodes P inv) \/
    d_inline P full pq npts maxv limit medoid keepv ok sort fuel l bw ad acc = SPanic) /\
    ~ (ad_total ad /\ numeric pqd) \/
  exists res st xs rec m, Trav (l + 1) p 1 st xs rec res /\ res = firstn l m /\
    Permutation m (filter accepted xs) /\ (numeric pqd -> closest l (filter accepted xs) res) /\
    (npts <= limit -> inline_search graph pqd ok sort fuel l bw (fun _ => false) ad [medoid] = SOk (res, st, rec)) /\
    forall St (P : vprov St V A) inv, serves nodes P inv -> forall acc, AccOK inv acc [] ->
    reads nodes P inv (d_inline P full pq npts maxv limit medoid keepv ok sort fuel l bw ad acc)
      (fun r => snd r = rec /\ snd (fst r) = st /\ fst (fst (fst r)) = res /\
         AccOK inv (snd (fst (fst r))) (map n_id (firstn limit rec))).
Proof.
  intros Hl Hbw Hf p. assert (HL : 0 < l + 1) by lia.
  destruct (nav_insert _ p _ _ _ [mkNbr medoid (pq medoid)] (nav_new _ p HL)) as (q & I & N). cbn [app] in N.
  set (s0 := mkIst (mkSst q [medoid] 0 0) (filter accepted [mkNbr medoid (pq medoid)]) 0 0 false).
  assert (D0 : DInv (l + 1) p 1 (i_st s0) [mkNbr medoid (pq medoid)] [])
    by exact (start_inv nodes pq npts maxv limit medoid DI (l + 1) p 1 (mkSst q [] 0 0) q eq_refl eq_refl N).
  assert (Hp : ad = None \/ p = false) by (unfold p; destruct ad; auto).
  destruct (inline_loop_ok (l + 1) p bw ad l HL Hbw Hp fuel s0 _ [] D0 eq_refl)
    as [(NT & R)|(s & ys & rec & D & HM & HN & S & R)]; [cbn [length]; lia| |].
  - left. split; [|tauto]. intros St P inv SV acc AO. unfold d_inline, d_inline_init, scratch_new.
    rewrite (d_start nodes pq npts maxv medoid DI). cbn [s_best s_cmps s_hops]. rewrite I. fold s0.
    destruct (R St P inv SV acc) as [(E & Rn)|E].
    + rewrite firstn_nil. exact AO.
    + left. rewrite E. auto.
    + right. now rewrite E.
  - cbn [app] in D, HM. set (xs := mkNbr medoid (pq medoid) :: ys) in *.
    pose proof (Hsort (i_matched s)) as SM. destruct (sort (i_matched s)) as [m|] eqn:ES.
    2:{ left. split.
        - intros St P inv SV acc AO. unfold d_inline, d_inline_init, scratch_new.
          rewrite (d_start nodes pq npts maxv medoid DI). cbn [s_best s_cmps s_hops]. rewrite I. fold s0.
          destruct (R St P inv SV acc) as [(E & Rn)|([[acc1 st1] rec1] & E & E1 & E2 & AO1)].
          + rewrite firstn_nil. exact AO.
          + left. rewrite E. auto.
          + right. cbn [fst snd] in *. subst st1 rec1. now rewrite E, ES.
        - intros (_ & NU). destruct SM as (x & Hx & Nx). rewrite HM in Hx. apply filter_In in Hx.
          destruct (v_new _ _ _ _ _ (dn_vis _ _ _ _ _ _ _ _ _ _ D) x (proj1 Hx)) as (_ & _ & Sc).
          rewrite (NU _ _ Sc) in Nx. discriminate. }
    destruct SM as (SM1 & SM2). rewrite HM in SM1, SM2.
    right. exists (firstn l m), (i_st s), xs, rec, m.
    assert (IN : incl (firstn l m) xs).
    { intros x Hx. apply in_firstn in Hx. apply (Permutation_in _ SM1) in Hx. now apply filter_In in Hx. }
    split; [|split; [reflexivity|split; [exact SM1|split; [|split]]]].
    + constructor; auto. apply firstn_nodup_ids. apply (NoDup_map_perm_ids _ _ (Permutation_sym SM1)).
      apply filter_nodup_ids. exact (v_nodup _ _ _ _ _ (dn_vis _ _ _ _ _ _ _ _ _ _ D)).
    + intros NU. apply closest_firstn; [exact SM1|]. apply SM2. rewrite Forall_forall. intros x Hx.
      apply filter_In in Hx. destruct Hx as [Hx _].
      destruct (v_new _ _ _ _ _ (dn_vis _ _ _ _ _ _ _ _ _ _ D) x Hx) as (_ & _ & Sc). exact (NU _ _ Sc).
    + intros Hlim. unfold inline_search, inline_internal, inline_init, scratch_new. cbn [s_best s_cmps s_hops length].
      assert (E : start_dists pqd [medoid] = Some [mkNbr medoid (pq medoid)]).
      { assert (S' : stored nodes medoid) by (apply (stored_lt nodes npts maxv medoid DI), (di_medoid _ _ _ _ DI)).
        cbn [start_dists]. unfold pq_of. unfold stored in S'. destruct (nodes medoid); [reflexivity|contradiction]. }
      rewrite E, I. cbn [rev app]. fold s0. now rewrite (S Hlim 0), ES.
    + intros St P inv SV acc AO. unfold d_inline, d_inline_init, scratch_new.
      rewrite (d_start nodes pq npts maxv medoid DI). cbn [s_best s_cmps s_hops]. rewrite I. fold s0.
      destruct (R St P inv SV acc) as [(E & Rn)|([[acc1 st1] rec1] & E & E1 & E2 & AO1)].
      * rewrite firstn_nil. exact AO.
      * left. rewrite E. auto.
      * right. cbn [fst snd] in *. subst st1 rec1. rewrite E, ES. eexists. split; [reflexivity|]. cbn [fst snd]. auto.
Qed.
End inline.

(** ** Flat scan *)
Lemma filter_le_length {B} (f : B -> bool) xs : length (filter f xs) <= length xs.
Proof. induction xs as [|x xs IH]; cbn [filter length]; [lia|]. destruct (f x); cbn [length]; lia. Qed.

Lemma flat_batches_ok fuel : forall q ids cmps, (forall i, In i ids -> stored nodes i) -> length ids <= fuel ->
  flat_batches pq npts maxv fuel q ids cmps =
  match insert_all q (map (fun i => mkNbr i (pq i)) ids) with
  | Some q' => SOk (q', cmps + length ids)
  | None => SPanic
  end.
Proof.
  induction fuel as [|fuel IH]; intros q ids cmps Hs Hf; destruct ids as [|i ids];
    cbn [flat_batches]; try (cbn [map insert_all length]; now rewrite Nat.add_0_r).
  - cbn [length] in Hf. lia.
  - set (l := i :: ids) in *. assert (Hv : 0 < maxv) by apply (di_scratch _ _ _ _ DI).
    rewrite (pq_distances_ok nodes pq npts maxv medoid DI).
    2:{ intros j Hj. apply Hs. eapply in_firstn; eauto. }
    2:{ rewrite firstn_length. lia. }
    assert (IA : forall xs ys q0, insert_all q0 (xs ++ ys) =
              match insert_all q0 xs with Some q' => insert_all q' ys | None => None end).
    { induction xs as [|x xs IHx]; intros ys q0; [reflexivity|]. cbn [app insert_all].
      destruct (pq_insert q0 x); [apply IHx|reflexivity]. }
    assert (EM : map (fun i0 => mkNbr i0 (pq i0)) l =
      map (fun i0 => mkNbr i0 (pq i0)) (firstn maxv l) ++ map (fun i0 => mkNbr i0 (pq i0)) (skipn maxv l)).
    { now rewrite <- map_app, firstn_skipn. }
    rewrite EM, IA. fold l.
    destruct (insert_all q (map (fun i0 => mkNbr i0 (pq i0)) (firstn maxv l))) as [q'|]; [|reflexivity].
    rewrite IH.
    + destruct (insert_all q' _); [|reflexivity]. do 2 f_equal.
      rewrite firstn_length, skipn_length. lia.
    + intros j Hj. apply Hs. rewrite <- (firstn_skipn maxv l). apply in_or_app. now right.
    + rewrite skipn_length. clear -Hf Hv. subst l. cbn [length] in *. lia.
Qed.

Notation flat_points := (flat_points pq npts).

Lemma flat_points_ids f : map n_id (flat_points f) = filter (passes f) (seq 0 npts).
Proof. unfold Spec.flat_points. rewrite map_map. cbn [n_id]. apply map_id. Qed.

Lemma d_flat_ok l f : 0 < l -> exists best,
  d_flat pq npts maxv l f = SOk (best, length (filter (passes f) (seq 0 npts))) /\
  closest l (valid (flat_points f)) best /\ incl best (flat_points f) /\ NoDup (map n_id best) /\
  forall x, In x best -> stored nodes (n_id x).
Proof.
  intros Hl. unfold d_flat. destruct (Nat.eqb_spec maxv 0) as [E|_].
  { pose proof (di_scratch _ _ _ _ DI). lia. }
  assert (Hs : forall i, In i (filter (passes f) (seq 0 npts)) -> stored nodes i).
  { intros i Hi. apply filter_In in Hi. destruct Hi as [Hi _]. apply in_seq in Hi.
    apply (stored_lt nodes npts maxv medoid DI). lia. }
  rewrite flat_batches_ok; [|exact Hs|].
  2:{ rewrite <- (seq_length npts 0) at 2. apply filter_le_length. }
  fold (flat_points f). destruct (flat_best l (flat_points f) Hl) as (q & best & -> & -> & C).
  exists best. split; [reflexivity|]. split; [exact C|].
  assert (IN : incl best (flat_points f)).
  { destruct C as (_ & _ & oth & PM & _). intros x Hx. apply in_valid.
    eapply Permutation_in; [symmetry; exact PM|]. apply in_or_app. now left. }
  split; [exact IN|]. split.
  - destruct C as (_ & _ & oth & PM & _).
    assert (ND : NoDup (map n_id (flat_points f))).
    { rewrite flat_points_ids. apply NoDup_filter, seq_NoDup. }
    apply NoDup_valid_ids in ND. apply (NoDup_map_perm_ids _ _ PM) in ND. rewrite map_app in ND.
    now destruct (NoDup_app_inv _ _ ND).
  - intros x Hx. apply Hs. rewrite <- flat_points_ids. apply in_map, IN, Hx.
Qed.
End disk.
