(** The recall of the tools. *)
From Coq Require Import List PeanoNat Bool QArith Qcanon Lia.
From Verif.Recall Require Import Model Model2 Spec Spec2 Proofs Proofs2 Proofs3.
Import ListNotations.
Local Open Scope nat_scope.

Lemma from_concat {B} dim (t : list (list B)) i r : Forall (fun r => length r = dim) t -> nth_error t i = Some r -> exists rest, from (dim * i) (concat t) = Some (r ++ rest).
Proof.
  intros HF. revert i. induction HF as [|x t H _ IH]; intros [|i] E; try discriminate.
  - injection E as ->. rewrite Nat.mul_0_r. exists (concat t). reflexivity.
  - cbn in E. destruct (IH i E) as (rest & R). exists rest. unfold from in *. cbn [concat]. rewrite app_length. destruct (Nat.leb_spec (dim * i) (length (concat t))) as [L|L]; [|discriminate].
    rewrite (proj2 (Nat.leb_le (dim * S i) (length x + length (concat t)))) by lia. replace (dim * S i) with (length x + dim * i) by lia. rewrite skipn_app, skipn_all2 by lia. replace (length x + dim * i - length x) with (dim * i) by lia. exact R.
Qed.
Lemma put_prefix {B} n (a b : list B) : n <= length a -> put n (a ++ b) = Some (firstn n a).
Proof. intros H. unfold put. rewrite app_length, (proj2 (Nat.leb_le n (length a + length b))) by lia. rewrite firstn_app. replace (n - length a) with 0 by lia. now rewrite firstn_O, app_nil_r. Qed.

Section Tool.
  Context {A F : Type} (eqb : A -> A -> bool) (Heq : decides eqb) (deq : F -> F -> bool).
  Lemma extend_app (s l m : list A) : extend eqb s (l ++ m) = extend eqb (extend eqb s l) m.
  Proof. apply fold_left_app. Qed.
  Lemma run_ok (d rest : list F) (row : list A) k last : length d = length row -> nth_error d (k - 1) = Some last ->
    forall fuel tb s, length row - tb <= fuel -> tb <= length row -> exists tb', run_of_ties deq fuel (d ++ rest) (length row) k tb = Some tb' /\ tb <= tb' <= length row /\
      ties eqb deq last (skipn tb (combine d row)) s = extend eqb s (firstn (tb' - tb) (skipn tb row)).
  Proof.
    intros LD EL. assert (EL' : nth_error (d ++ rest) (k - 1) = Some last) by (rewrite nth_error_app1; [exact EL|apply nth_error_Some; congruence]).
    induction fuel as [|fuel IH]; intros tb s HF HT; cbn [run_of_ties].
    - assert (tb = length row) as -> by lia. exists (length row). split; [reflexivity|]. split; [lia|]. rewrite Nat.sub_diag, firstn_O, skipn_all2; [reflexivity|]. rewrite combine_length. lia.
    - destruct (Nat.ltb_spec tb (length row)) as [L|L].
      + destruct (nth_error row tb) as [g|] eqn:EG; [|apply nth_error_None in EG; lia]. destruct (nth_error d tb) as [x|] eqn:EX; [|apply nth_error_None in EX; lia].
        rewrite nth_error_app1, EX, EL' by (apply nth_error_Some; congruence).
        assert (SK : forall {T} (l : list T) i y, nth_error l i = Some y -> skipn i l = y :: skipn (S i) l) by (clear; intros T; induction l as [|z l IHl]; intros [|i] y H; try discriminate; [cbn in *; congruence|exact (IHl i y H)]).
        rewrite (SK _ (combine d row) tb (x, g)) by (rewrite nth_combine, EX, EG; reflexivity). cbn [ties]. destruct (deq x last).
        * destruct (IH (S tb) (insert eqb s g)) as (tb' & R1 & R2 & R3); [lia..|]. exists tb'. split; [exact R1|]. split; [lia|]. rewrite R3, (SK _ row tb g EG). replace (tb' - tb) with (S (tb' - S tb)) by lia. reflexivity.
        * exists tb. split; [reflexivity|]. split; [lia|]. now rewrite Nat.sub_diag.
      + exists tb. split; [reflexivity|]. split; [lia|]. assert (tb = length row) as -> by lia. rewrite Nat.sub_diag, firstn_O, skipn_all2; [reflexivity|]. rewrite combine_length. lia.
  Qed.
  Lemma firstn_more {B} (l : list B) a b : a <= b -> firstn a l ++ firstn (b - a) (skipn a l) = firstn b l.
  Proof. intros H. rewrite <- (firstn_skipn a l) at 3. destruct (Nat.le_gt_cases a (length l)). - rewrite firstn_app, firstn_firstn, firstn_length. rewrite Nat.min_r, Nat.min_l by lia. reflexivity. - rewrite (firstn_all2 (n := a)) by lia. rewrite (skipn_all2 (n := a)) by lia. rewrite firstn_nil, !app_nil_r, firstn_all2 by lia. reflexivity. Qed.
  Lemma tool_query_hits (gts : list (list A)) (gds : option (list (list F))) ress dim dimr k n i g r :
    0 < k -> k <= dim -> n <= dimr -> Forall (fun r => length r = dim) gts -> Forall (fun r => length r = dimr) ress ->
    match gds with Some ds => length ds = length gts /\ Forall (fun r => length r = dim) ds | None => True end ->
    nth_error gts i = Some g -> nth_error ress i = Some r ->
    exists h, tool_query eqb deq (concat gts) (option_map (@concat F) gds) dim (concat ress) dimr k n i = Some h /\ scored deq g (at_query gds i) r k n k h.
  Proof.
    intros HK HD HN FG FR HG EG ER. assert (LG : length g = dim) by (rewrite Forall_forall in FG; apply FG, (nth_error_In _ i EG)). assert (LR : length r = dimr) by (rewrite Forall_forall in FR; apply FR, (nth_error_In _ i ER)).
    unfold tool_query. destruct (from_concat dim gts i g FG EG) as (rg & ->). destruct (from_concat dimr ress i r FR ER) as (rr & ->). rewrite (put_prefix n r rr) by lia. cbv zeta.
    assert (MK : Nat.min (length g) k = k) by lia.
    assert (DL : match at_query gds i with Some ds => length ds = length g | None => True end).
    { unfold at_query. destruct gds as [ds|]; [|exact I]. destruct HG as [H1 H2]. assert (HI : i < length ds) by (rewrite H1; apply nth_error_Some; congruence). rewrite Forall_forall in H2. rewrite LG. apply H2, nth_In, HI. }
    destruct (hits_ok eqb Heq deq g (at_query gds i) r k n DL) as [[E _]|[_ (k' & h & E1 & E2)]]; [lia|]. pose proof E2 as E2'. destruct E2 as [EK _]. rewrite MK in EK. subst k'. exists h. split; [|exact E2'].
    unfold hits in E1. rewrite MK in E1. cbv zeta in E1. destruct (Nat.eqb_spec k 0) as [|_]; [lia|]. destruct gds as [ds|]; cbn [at_query option_map] in *.
    - destruct HG as [H1 H2]. assert (HI : i < length ds) by (rewrite H1; apply nth_error_Some; congruence). destruct (from_concat dim ds i (nth i ds []) H2 (nth_error_nth' ds [] HI)) as (rd & ->).
      destruct (nth_error (nth i ds []) (k - 1)) as [last|] eqn:EL; [|discriminate]. rewrite <- LG. destruct (run_ok (nth i ds []) rd g k last DL EL (length g) k (extend eqb [] (firstn k g))) as (tb & R1 & R2 & R3); [lia..|]. rewrite R1. rewrite put_prefix by lia.
      rewrite R3, <- extend_app, firstn_more in E1 by lia. congruence.
    - rewrite put_prefix by lia. congruence.
  Qed.
  Lemma total_ok (one : nat -> option nat) (P : nat -> nat -> Prop) is : (forall i, In i is -> exists h, one i = Some h /\ P i h) -> exists hs, total one is = Some (list_sum hs) /\ Forall2 P is hs.
  Proof.
    induction is as [|i is IH]; intros H; [exists []; split; [reflexivity|constructor]|]. destruct (H i (or_introl eq_refl)) as (h & E & HP). destruct IH as (hs & E' & HP'); [intros j J; apply H; now right|]. exists (h :: hs). cbn [total]. rewrite E, E'. split; [reflexivity|now constructor].
  Qed.
  Lemma sum_mean k hs : hs <> [] -> k <> 0 -> (quotient (list_sum hs) (length hs) * quotient 100 k)%Qc = (qnat 100 * mean_recall (map (fun h => (k, h)) hs))%Qc.
  Proof.
    intros HN HK. unfold mean_recall. rewrite map_map, map_length. cbn [fst snd].
    assert (E : qsum (map (fun h => quotient h k) hs) = (qnat (list_sum hs) / qnat k)%Qc).
    { clear HN. induction hs as [|h hs IH]; cbn [map]; [change (Q2Qc 0 = (qnat 0 / qnat k)%Qc); rewrite qnat_0; field; now apply qnat_nz|]. change (quotient h k + qsum (map (fun h => quotient h k) hs) = qnat (list_sum (h :: hs)) / qnat k)%Qc. rewrite IH. change (list_sum (h :: hs)) with (h + list_sum hs). rewrite qnat_plus. unfold quotient. field. now apply qnat_nz. }
    rewrite E. unfold quotient. field. split; [now apply qnat_nz|]. apply qnat_nz. destruct hs; [congruence|discriminate].
  Qed.
  Lemma filtered_query_ok (gts ress : list (list A)) gds k i g r : 0 < k -> match gds with Some ds => map (@length F) ds = map (@length A) gts | None => True end ->
    nth_error gts i = Some g -> nth_error ress i = Some r ->
    exists q, filtered_query eqb deq gds gts ress k i = Some q /\
      share_of deq g (at_query gds i) r k (match q with inl _ => qnat 100 | inr (Some (c, m)) => quotient (100 * c) m | inr None => qnat 0 end) /\ q <> inr None.
  Proof.
    intros HK HG EG ER. unfold filtered_query, share_of. rewrite EG, ER. cbv zeta. set (k' := Nat.min k (length g)). destruct (Nat.ltb_spec 0 k') as [L|L].
    - assert (MK : Nat.min (length g) k' = k') by lia.
      assert (DL : match at_query gds i with Some ds => length ds = length g /\ nth_error (match gds with Some d => d | None => [] end) i = Some ds | None => True end).
      { unfold at_query. destruct gds as [ds|]; [|exact I]. assert (HI : i < length ds) by (rewrite <- (map_length (@length F)), HG, map_length; apply nth_error_Some; congruence).
        assert (E : nth_error (map (@length F) ds) i = Some (length g)) by (rewrite HG, nth_error_map, EG; reflexivity). rewrite nth_error_map in E. destruct (nth_error ds i) as [d|] eqn:ED; [|discriminate]. cbn in E. rewrite (nth_error_nth ds i [] ED). split; congruence. }
      assert (DL' : match at_query gds i with Some ds => length ds = length g | None => True end) by (destruct (at_query gds i); tauto).
      destruct (extend_ok eqb Heq (firstn k' g) [] (NoDup_nil A)) as [G1 G2]. destruct (extend_ok eqb Heq r [] (NoDup_nil A)) as [R1 R2].
      assert (W : exists gs, NoDup gs /\ (forall b, In b gs <-> wanted deq g (at_query gds i) k' b) /\ (match gds with None => Some (Some (extend eqb [] (firstn k' g))) | Some gd => match nth_error gd i with Some d => if length d =? length g then match nth_error d (k' - 1) with Some last => Some (Some (ties eqb deq last (skipn k' (combine d g)) (extend eqb [] (firstn k' g)))) | None => None end else Some None | None => None end end) = Some (Some gs)).
      { destruct gds as [ds|]; cbn [at_query] in *.
        - destruct DL as [LD ED]. rewrite ED, LD, Nat.eqb_refl. set (d := nth i ds []) in *. destruct (nth_error d (k' - 1)) as [last|] eqn:EL; [|apply nth_error_None in EL; lia].
          eexists. split; [|split; [|reflexivity]]; destruct (ties_ok eqb Heq deq last (skipn k' (combine d g)) _ G1) as [T1 T2]; [exact T1|]. intros b. rewrite T2, G2, In_firstn. unfold wanted, tie. cbn [In]. split.
          + intros [[[]|(j & J & N)]|(j & (d' & J) & P)]; [exists j; split; [exact N|now left]|].
            rewrite nth_skipn, nth_combine in J. destruct (nth_error d (k' + j)) eqn:E1, (nth_error g (k' + j)) eqn:E2; try discriminate. injection J as -> ->.
            exists (k' + j). split; [exact E2|]. right. exists d. split; [reflexivity|]. split; [lia|]. intros i' I. destruct (P (i' - k') ltac:(lia)) as (d'' & g' & J & Q').
            rewrite nth_skipn, nth_combine in J. replace (k' + (i' - k')) with i' in J by lia. destruct (nth_error d i') eqn:E3, (nth_error g i'); try discriminate. injection J as -> ->. now exists d'', last.
          + intros (j & N & [J|(ds' & D & J & P)]); [left; right; now exists j|]. injection D as <-. right. exists (j - k').
            assert (LJ : j < length g) by (apply nth_error_Some; congruence). split.
            * rewrite nth_skipn, nth_combine. replace (k' + (j - k')) with j by lia. rewrite N. destruct (nth_error d j) eqn:E1; [eauto|]. apply nth_error_None in E1. lia.
            * intros i' I. destruct (P (k' + i') ltac:(lia)) as (d' & last' & E1 & E2 & E3). rewrite nth_skipn, nth_combine, E1.
              destruct (nth_error g (k' + i')) as [g'|] eqn:E4; [|apply nth_error_None in E4; lia]. exists d', g'. split; [reflexivity|]. congruence.
        - eexists. split; [exact G1|]. split; [|reflexivity]. intros b. rewrite G2, In_firstn. unfold wanted. cbn [In]. split.
          + intros [[]|(j & J & N)]. exists j. split; [exact N|now left].
          + intros (j & N & [J|(ds & D & _)]); [right; now exists j|discriminate]. }
      destruct W as (gs & W1 & W2 & W3). rewrite W3. eexists. split; [reflexivity|]. split; [|discriminate]. right. split; [exact L|].
      exists (filter (fun v => mem eqb v (extend eqb [] r)) gs), (extend eqb [] r). split; [|split; [|reflexivity]].
      + split; [now apply NoDup_filter|]. intros a. rewrite filter_In, W2, (mem_In eqb Heq), R2. cbn. tauto.
      + split; [exact R1|]. intros a. rewrite R2. cbn. tauto.
    - eexists. split; [reflexivity|]. split; [|discriminate]. left. split; [lia|reflexivity].
  Qed.
  Lemma filtered_sum_ok (one : nat -> option (unit + option (nat * nat))) (P : nat -> Qc -> Prop) is : forall acc,
    (forall i, In i is -> exists q, one i = Some q /\ P i (match q with inl _ => qnat 100 | inr (Some (c, m)) => quotient (100 * c) m | inr None => qnat 0 end) /\ q <> inr None) ->
    exists ps, filtered_sum Qcplus (fun c m => quotient (100 * c) m) (qnat 100) one is acc = Some (Some (acc + qsum ps)%Qc) /\ Forall2 P is ps.
  Proof.
    induction is as [|i is IH]; intros acc H; [exists []; split; [cbn; do 2 f_equal; ring|constructor]|]. destruct (H i (or_introl eq_refl)) as (q & E & HP & HN). cbn [filtered_sum]. rewrite E.
    assert (H' : forall j, In j is -> exists q, one j = Some q /\ P j (match q with inl _ => qnat 100 | inr (Some (c, m)) => quotient (100 * c) m | inr None => qnat 0 end) /\ q <> inr None) by (intros j J; apply H; now right).
    assert (QS : forall x ps, (acc + x + qsum ps = acc + qsum (x :: ps))%Qc) by (intros x ps; symmetry; apply Qcplus_assoc).
    destruct q as [u|[[c m]|]]; [| |congruence].
    - destruct (IH (acc + qnat 100)%Qc H') as (ps & E' & HP'). rewrite E'. exists (qnat 100 :: ps). split; [now rewrite QS|now constructor].
    - destruct (IH (acc + quotient (100 * c) m)%Qc H') as (ps & E' & HP'). rewrite E'. exists (quotient (100 * c) m :: ps). split; [now rewrite QS|now constructor].
  Qed.
End Tool.
