(** The selection in exact arithmetic is greedy. *)
From Coq Require Import Reals Lra.
From Verif.Lib Require Import Base Lists.
From Verif.DetDiv Require Import Model Spec Proofs.
Local Open Scope R_scope.

Section loop.
Variable a : arith R.
Hypothesis X : exact a.
Variable dim : nat.
Variable xs : list (list R).

Lemma best_of_max norms ys : forall b,
  nth b norms 0 <= nth (best_of a norms b ys) norms 0 /\
  forall j, In j ys -> nth j norms 0 <= nth (best_of a norms b ys) norms 0.
Proof.
  induction ys as [|y ys IH]; intros b; cbn [best_of]; [split; [lra|intros j []]|].
  rewrite (ex_zero a X). set (b' := match f_cmp a _ _ with Gt => b | _ => y end).
  assert (H : nth b norms 0 <= nth b' norms 0 /\ nth y norms 0 <= nth b' norms 0).
  { unfold b'. pose proof (ex_cmp a X (nth b norms 0) (nth y norms 0)) as C.
    destruct (f_cmp a (nth b norms 0) (nth y norms 0)) eqn:E.
    - split; [|lra]. destruct (Rle_or_lt (nth b norms 0) (nth y norms 0)) as [|L]; [auto|]. apply C in L. discriminate.
    - split; [|lra]. destruct (Rle_or_lt (nth b norms 0) (nth y norms 0)) as [|L]; [auto|]. apply C in L. discriminate.
    - split; [lra|]. apply Rlt_le. now apply C. }
  destruct (IH b') as (H1 & H2). split; [lra|]. intros j [<-|Hj]; [lra|auto].
Qed.

Lemma pivot_max norms avail i : pivot a norms avail = Some i ->
  In i (free avail) /\ forall j, In j (free avail) -> nth j norms 0 <= nth i norms 0.
Proof.
  intros E. split; [eapply pivot_in; exact E|]. unfold pivot in E. fold (free avail) in E.
  destruct (free avail) as [|b ys]; [discriminate|]. injection E as <-.
  destruct (best_of_max norms ys b) as (H1 & H2). intros j [<-|Hj]; auto.
Qed.

Record inv (sel : list nat) (rows : list (list R)) (norms : list R) (avail : list bool) : Prop := {
  iv_rows : length rows = length xs;
  iv_norms : length norms = length xs;
  iv_avail : length avail = length xs;
  iv_free : forall j, (j < length xs)%nat -> (In j (free avail) <-> ~ In j sel);
  iv_row : forall j, (j < length xs)%nat -> ~ In j sel ->
    length (nth j rows []) = dim /\ remains dim xs sel j (coord (nth j rows [])) /\
    nth j norms 0 = ip dim (coord (nth j rows [])) (coord (nth j rows []))
}.

Lemma free_lt avail j : In j (free avail) -> (j < length avail)%nat.
Proof. unfold free. rewrite filter_In, in_seq. lia. Qed.

Lemma set_free sel avail i : length avail = length xs -> In i (free avail) ->
  (forall j, (j < length xs)%nat -> (In j (free avail) <-> ~ In j sel)) ->
  forall j, (j < length xs)%nat -> (In j (free (set_nth i false avail)) <-> ~ In j (sel ++ [i])).
Proof.
  intros L Hi H j Hj. rewrite free_set by exact Hi. rewrite H by exact Hj. rewrite in_app_iff. cbn [In].
  split; [intros (N & D) [?|[?|[]]]; congruence|]. intros N. split; [tauto|]. intros ->. tauto.
Qed.

Lemma coord_deflate star p r i : length r = length star -> (i < length r)%nat ->
  coord (deflate_row a star p r) i = coord r i - p * coord star i.
Proof.
  intros L Hi. unfold coord, deflate_row.
  rewrite (nth_indep _ 0 (f_sub a (fst (0, 0)) (f_mul a p (snd (0, 0))))) by (rewrite map_length, combine_length; lia).
  rewrite (map_nth (fun rs => f_sub a (fst rs) (f_mul a p (snd rs)))), combine_nth by exact L. cbn [fst snd].
  now rewrite (ex_sub a X), (ex_mul a X).
Qed.

Lemma nth_deflate star nstar avail rows norms j : length avail = length rows -> length norms = length rows -> (j < length rows)%nat ->
  let r := nth j rows [] in let n := nth j norms 0 in
  let p := f_mul a (f_dot a r star) (f_div a (f_one a) nstar) in
  nth j (fst (deflate a star nstar avail rows norms)) [] = (if nth j avail false then deflate_row a star p r else r) /\
  nth j (snd (deflate a star nstar avail rows norms)) 0 =
    (if nth j avail false then f_max a (f_sub a n (f_mul a (f_mul a p p) nstar)) (f_zero a) else n).
Proof.
  intros L1 L2 Hj r n p. unfold deflate. cbn [fst snd]. set (f := fun arn : bool * (list R * R) => _).
  assert (E : nth j (map f (combine avail (combine rows norms))) ([], 0) = f (nth j avail false, (r, n))).
  { rewrite (nth_indep _ ([], 0) (f (false, ([], 0)))) by (rewrite map_length, !combine_length; lia).
    rewrite map_nth, !combine_nth by (rewrite ?combine_length; lia). reflexivity. }
  change (@nil R) with (fst (@nil R, 0)) at 1. rewrite (map_nth fst).
  change (nth j (map snd (map f (combine avail (combine rows norms)))) 0)
    with (nth j (map snd (map f (combine avail (combine rows norms)))) (snd (@nil R, 0))).
  rewrite (map_nth snd), E. unfold f. destruct (nth j avail false); split; reflexivity.
Qed.

Lemma deflate_lengths star nstar avail rows norms : length avail = length rows -> length norms = length rows ->
  length (fst (deflate a star nstar avail rows norms)) = length rows /\
  length (snd (deflate a star nstar avail rows norms)) = length rows.
Proof. intros. unfold deflate. cbn [fst snd]. rewrite !map_length, !combine_length. lia. Qed.

Lemma ip_self_dot u v : length u = dim -> f_dot a u v = ip dim (coord u) (coord v).
Proof. intros L. rewrite (ex_dot a X), L. reflexivity. Qed.

Lemma inv_step sel rows norms avail i : inv sel rows norms avail -> In i (free avail) ->
  let avail' := set_nth i false avail in
  let nstar := nth i norms 0 in
  if f_le a nstar (f_zero a) then inv (sel ++ [i]) rows norms avail'
  else let (rows', norms') := deflate a (nth i rows []) nstar avail' rows norms in inv (sel ++ [i]) rows' norms' avail'.
Proof.
  intros [I1 I2 I3 I4 I5] Hi avail' nstar. pose proof (free_lt _ _ Hi) as Li. rewrite I3 in Li.
  assert (Ni : ~ In i sel) by now apply I4.
  destruct (I5 i Li Ni) as (D & Rm & Nm). fold nstar in Nm.
  assert (LA : length avail' = length xs) by (unfold avail'; now rewrite set_nth_length).
  assert (FR : forall j, (j < length xs)%nat -> (In j (free avail') <-> ~ In j (sel ++ [i]))) by now apply set_free.
  rewrite (ex_zero a X). pose proof (ex_le a X nstar 0) as LE. destruct (f_le a nstar 0).
  - assert (Z : nstar <= 0) by now apply LE. constructor; auto.
    intros j Hj N. rewrite in_app_iff in N. destruct (I5 j Hj) as (D' & Rm' & Nm'); [tauto|].
    split; [exact D'|]. split; [|exact Nm']. apply remains_zero with (rq := coord (nth i rows [])); auto. lra.
  - assert (P : 0 < nstar) by (apply Rnot_le_lt; intros Z; apply LE in Z; discriminate).
    pose proof (deflate_lengths (nth i rows []) nstar avail' rows norms) as DL.
    pose proof (nth_deflate (nth i rows []) nstar avail' rows norms) as ND.
    destruct (deflate a (nth i rows []) nstar avail' rows norms) as [rows' norms']. cbn [fst snd] in *.
    destruct DL as (DL1 & DL2); [lia|lia|]. constructor; auto; try lia.
    intros j Hj N. destruct (ND j) as (E1 & E2); [lia|lia|lia|]. rewrite E1, E2. clear E1 E2.
    assert (AV : nth j avail' false = true) by (apply free_in; now apply FR). rewrite AV.
    rewrite in_app_iff in N. destruct (I5 j Hj) as (D' & Rm' & Nm'); [tauto|].
    rewrite (ex_one a X), (ex_div a X), (ex_zero a X), (ex_max a X), (ex_sub a X), !(ex_mul a X), (ip_self_dot _ _ D').
    set (rj := nth j rows []) in *. set (rq := nth i rows []) in *.
    set (p := ip dim (coord rj) (coord rq) * (1 / nstar)).
    assert (Pp : p = ip dim (coord rj) (coord rq) / ip dim (coord rq) (coord rq)) by (unfold p; rewrite <- Nm; field; lra).
    destruct (remains_deflate dim xs sel i j (coord rj) (coord rq)) as (R1 & R2); auto; [lra|]. rewrite <- Pp in R1, R2.
    assert (CE : forall k, (k < dim)%nat -> coord rj k - p * coord rq k = coord (deflate_row a rq p rj) k)
      by (intros k Hk; rewrite coord_deflate; [reflexivity|congruence|lia]).
    split; [unfold deflate_row; rewrite map_length, combine_length; lia|].
    split; [eapply remains_ext; [exact CE|exact R1]|].
    rewrite <- (ip_ext dim _ _ _ _ CE CE), R2, Nm', <- Nm. apply Rmax_left.
    pose proof (ip_nonneg dim (fun k => coord rj k - p * coord rq k)) as NN. rewrite R2, <- Nm in NN. lra.
Qed.

Lemma select_greedy k : forall sel rows norms avail, inv sel rows norms avail ->
  forall pre i post, select_loop a k rows norms avail = pre ++ i :: post ->
  forall j, (j < length xs)%nat -> ~ In j (sel ++ pre) ->
  exists di dj, sq_distance dim xs (sel ++ pre) i di /\ sq_distance dim xs (sel ++ pre) j dj /\ dj <= di.
Proof.
  induction k as [|k IH]; intros sel rows norms avail I pre i post E j Hj N; cbn [select_loop] in E.
  - destruct pre; discriminate.
  - destruct (pivot a norms avail) as [q|] eqn:P; [|destruct pre; discriminate].
    destruct (pivot_max _ _ _ P) as (Hq & M). destruct pre as [|q' pre]; cbn [app] in E.
    + injection E as <- _. rewrite app_nil_r in *. pose proof I as [I1 I2 I3 I4 I5].
      pose proof (free_lt _ _ Hq) as Lq. rewrite I3 in Lq. assert (Nq : ~ In q sel) by now apply I4.
      destruct (I5 q Lq Nq) as (_ & R1 & N1). destruct (I5 j Hj N) as (_ & R2 & N2).
      exists (nth q norms 0), (nth j norms 0). split; [rewrite N1; now apply remains_distance|].
      split; [rewrite N2; now apply remains_distance|]. apply M. now apply I4.
    + pose proof (f_equal (hd O) E) as E0. cbn [hd] in E0. apply (f_equal (@tl nat)) in E. cbn [tl] in E. subst q'.
      replace (sel ++ q :: pre) with ((sel ++ [q]) ++ pre) in * by (rewrite <- app_assoc; reflexivity).
      destruct k as [|k']; [destruct pre; discriminate|]. pose proof (inv_step _ _ _ _ _ I Hq) as S. cbn zeta in S.
      rewrite !(ex_zero a X) in S, E. destruct (f_le a (nth q norms 0) 0).
      * exact (IH _ _ _ _ S _ _ _ E j Hj N).
      * destruct (deflate _ _ _ _ _ _) as [rows' norms']. exact (IH _ _ _ _ S _ _ _ E j Hj N).
Qed.
End loop.

Lemma scaled_weighted a (X : exact a) power inv dmin dmax rows ds :
  scaled a power inv dmin dmax rows ds = weighted a power inv dmin dmax rows ds.
Proof.
  unfold scaled, weighted. apply map_ext. intros [r d]. cbn [fst snd]. apply map_ext. intros v. now rewrite !(ex_mul a X).
Qed.

Lemma greedy_select_greedy a dim rows ds k power inv dmin dmax : exact a -> length ds = length rows ->
  Forall (fun r => length r = dim) rows ->
  greedy dim (weighted a power inv dmin dmax rows ds) (greedy_select a rows ds k power inv dmin dmax).
Proof.
  intros X L D pre i post E j Hj N. unfold greedy_select in E. rewrite (scaled_weighted a X) in E.
  set (xs := weighted a power inv dmin dmax rows ds) in *.
  assert (LX : length xs = length rows) by (unfold xs, weighted; rewrite map_length, combine_length; lia).
  destruct (Nat.min k (length rows) =? 0)%nat; [destruct pre; discriminate|].
  refine (select_greedy a X dim xs (Nat.min k (length rows)) [] xs _ _ _ pre i post E j Hj N).
  constructor.
  - reflexivity.
  - now rewrite map_length.
  - now rewrite repeat_length.
  - intros q Hq. rewrite free_repeat, in_seq. split; [intros _ []|]. lia.
  - intros q Hq _. assert (DQ : length (nth q xs []) = dim).
    { unfold xs, weighted. set (g := fun rd : list R * R => _). rewrite (nth_indep _ [] (g ([], 0))) by (fold xs; exact Hq).
      rewrite map_nth, combine_nth by congruence. unfold g. cbn [fst]. rewrite map_length.
      rewrite Forall_forall in D. apply D, nth_In. lia. }
    split; [exact DQ|]. split.
    + split; [|intros s []]. exists (fun _ => 0). intros i' Hi'. unfold comb. cbn [total]. ring.
    + rewrite (nth_indep _ 0 ((fun r => f_dot a r r) [])) by (rewrite map_length; exact Hq).
      rewrite (map_nth (fun r => f_dot a r r)). now apply ip_self_dot.
Qed.
