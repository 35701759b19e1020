(** Theorems about the determinant-diversity selection.
    Modelled code: diskann-providers/src/model/graph/provider/determinant_diversity.rs and the
    two post processors that use it. *)
From Coq Require Import Reals Lra.
From Verif.Lib Require Import Base Lists F32.
From Verif.Queue Require Import Model Spec.
From Verif.Search Require Import Model Spec.
From Verif.DiskSearch Require Import Model Spec.
From Verif.DiskSearch Require Props.
From Verif.DetDiv Require Import Model Spec Proofs Proofs2.

(** ** C74: the selection returns distinct candidates, as many as asked for

    For any arithmetic, NaNs and rounding included.  Every index returned is a candidate's and
    none is returned twice; as many are returned as asked for or as there are.  The only
    errors are a query of another dimension and a number of distances that is not that of the
    candidates.  Asked for at least as many as there are, it returns a reordering of all of
    them. *)
Theorem C74_selection :
  forall F (a : arith F) dim rows ds query k power eta,
  match determinant_diversity a dim rows ds query k power eta with
  | QueryMismatch => dim <> length query
  | CountMismatch => length ds <> length rows
  | Selected idx => dim = length query /\ length ds = length rows /\
      NoDup idx /\ (forall i, In i idx -> i < length rows) /\
      (dim <> 0 -> length idx = Nat.min k (length rows) /\
         (length rows <= k -> Permutation idx (seq 0 (length rows))))
  end.
Proof.
  intros F a dim rows ds query k power eta. unfold determinant_diversity.
  destruct (Nat.eqb_spec dim (length query)) as [D|D]; cbn [negb]; [|exact D].
  destruct (Nat.eqb_spec (length ds) (length rows)) as [L|L]; cbn [negb]; [|exact L].
  destruct (Nat.eqb_spec (Nat.min k (length rows)) 0) as [K|K]; cbn [orb].
  - split; [exact D|]. split; [exact L|]. split; [constructor|]. split; [intros i []|]. intros _. split; [now rewrite K|]. intros H.
    replace (length rows) with 0 by lia. constructor.
  - destruct (Nat.eqb_spec dim 0) as [D0|D0].
    + split; [exact D|]. split; [exact L|]. split; [constructor|]. split; [intros i []|]. intros H. now elim H.
    + cbn zeta. split; [exact D|]. split; [exact L|]. set (r := greedy_select _ _ _ _ _ _ _ _).
      destruct (greedy_select_ok a rows ds (Nat.min k (length rows)) power
        (if f_lt a (f_zero a) eta then f_div a (f_one a) (f_sqrt a eta) else f_one a)
        (fold_left (f_min a) ds (f_pinf a)) (fold_left (f_max a) ds (f_ninf a))) as (H1 & H2 & H3).
      fold r in H1, H2, H3. split; [exact H1|]. split; [exact H2|]. intros _. split; [rewrite H3; lia|]. intros KR.
      apply NoDup_Permutation_bis.
      * exact H1.
      * rewrite seq_length, H3. lia.
      * intros i Hi. apply in_seq. specialize (H2 i Hi). lia.
Qed.
Print Assumptions C74_selection.

(** Parameters are accepted exactly if the power is finite and not (comparably) at most zero
    and eta is finite and not below zero. *)
Theorem C74_parameters :
  forall F (a : arith F) power eta,
  (params_new a power eta = Params power eta <->
   f_finite a power = true /\ f_le a power (f_zero a) = false /\ f_finite a eta = true /\ f_lt a eta (f_zero a) = false) /\
  (params_new a power eta = BadPower <-> f_finite a power = false \/ f_le a power (f_zero a) = true).
Proof.
  intros F a power eta. unfold params_new.
  destruct (f_finite a power), (f_le a power (f_zero a)), (f_finite a eta), (f_lt a eta (f_zero a)); cbn;
    (split; split; intros H; [try congruence; auto| | |]); intuition congruence.
Qed.
Print Assumptions C74_parameters.

(** ** C75: each choice is a candidate farthest from the space spanned by those before it

    In exact arithmetic, for every candidate set: the selection is greedy for the volume
    (Gram determinant) of the candidates weighted by their relevance. *)
Theorem C75_greedy :
  forall a dim rows ds query k power eta, exact a -> Forall (fun r => length r = dim) rows ->
  forall idx, determinant_diversity a dim rows ds query k power eta = Selected idx -> dim <> 0 ->
  let inv := if f_lt a 0%R eta then (1 / f_sqrt a eta)%R else 1%R in
  greedy dim (weighted a power inv (fold_left (f_min a) ds (f_pinf a)) (fold_left (f_max a) ds (f_ninf a)) rows ds) idx.
Proof.
  intros a dim rows ds query k power eta X D idx E D0 inv. unfold determinant_diversity in E.
  destruct (Nat.eqb_spec dim (length query)); cbn [negb] in E; [|discriminate].
  destruct (Nat.eqb_spec (length ds) (length rows)) as [L|]; cbn [negb] in E; [|discriminate].
  destruct (Nat.eqb_spec (Nat.min k (length rows)) 0); cbn [orb] in E.
  - injection E as <-. intros pre i post H. destruct pre; discriminate.
  - destruct (Nat.eqb_spec dim 0); [congruence|]. rewrite (ex_zero a X), (ex_one a X), (ex_div a X) in E. injection E as <-.
    apply greedy_select_greedy; auto.
Qed.
Print Assumptions C75_greedy.

(** Weights fall with distance: of two candidates the closer has the greater relevance. *)
Theorem C75_relevance :
  forall a d d' dmin dmax, exact a -> (0 < f_eps a)%R -> (d <= d')%R ->
  (0 < similarity a d' dmin dmax <= similarity a d dmin dmax)%R.
Proof.
  intros a d d' dmin dmax X P H. unfold similarity.
  rewrite !(ex_add a X), !(ex_max a X), !(ex_sub a X), !(ex_div a X), (ex_zero a X).
  set (sp := Rmax (dmax - dmin) (f_eps a)). assert (S : (0 < sp)%R) by (unfold sp; eapply Rlt_le_trans; [exact P|apply Rmax_r]).
  assert (Q : ((dmax - d') / sp <= (dmax - d) / sp)%R).
  { unfold Rdiv. apply Rmult_le_compat_r; [apply Rlt_le, Rinv_0_lt_compat, S|lra]. }
  split.
  - pose proof (Rmax_r ((dmax - d') / sp) 0). lra.
  - apply Rplus_le_compat_r. apply Rle_max_compat_r. exact Q.
Qed.
Print Assumptions C75_relevance.

(** The claim with NaNs fails: the comment in the code says that the maximum is then taken
    over the numbers, but a NaN norm hides those before it.  Of the norms 3, NaN and 1 the
    last is chosen. *)
Theorem C75_refuted_nan :
  ~ (forall (a : arith f32) norms avail i, f_cmp a = f32_partial_cmp_or_eq -> pivot a norms avail = Some i ->
     forall j, nth j avail false = true -> is_nan (nth j norms (f_zero a)) = false ->
     f32_lt (nth i norms (f_zero a)) (nth j norms (f_zero a)) = false).
Proof.
  intros H. set (op := fun x _ : f32 => x).
  set (a := mkArith 0%N 0%N 0%N 0%N 0%N op op op op op op op (fun x => x) (fun _ _ => 0%N) (fun _ => true)
              (fun _ _ => true) (fun _ _ => true) f32_partial_cmp_or_eq).
  specialize (H a [f32_three; f32_nan; f32_one] [true; true; true] 2 eq_refl eq_refl 0 eq_refl eq_refl).
  vm_compute in H. discriminate.
Qed.
Print Assumptions C75_refuted_nan.

(** ** C76: diversity post processing reorders the candidates and loses none *)

(** In memory. *)
Theorem C76_in_memory :
  forall F (a : arith F) vector query power eta cands,
  query <> [] -> (forall i, length (vector i) = length query) ->
  exists out, inmem_post a vector query power eta cands = Some out /\ Permutation out cands.
Proof.
  intros F a vector query power eta cands Q D. unfold inmem_post.
  assert (E : forallb (fun r => length r =? length query) (map (fun c => vector (fst c)) cands) = true).
  { apply forallb_forall. intros r Hr. apply in_map_iff in Hr. destruct Hr as (c & <- & _). apply Nat.eqb_eq. apply D. }
  rewrite E. pose proof (C74_selection F a (length query) (map (fun c => vector (fst c)) cands) (map snd cands) query
    (length cands) power eta) as S. destruct (determinant_diversity _ _ _ _ _ _ _ _) as [| |idx].
  - now elim S.
  - rewrite !map_length in S. now elim S.
  - destruct S as (_ & _ & _ & _ & S). destruct S as (_ & S); [destruct query; [congruence|discriminate]|].
    rewrite map_length in S. eexists. split; [reflexivity|].
    rewrite (S (le_n _)). clear.
    assert (G : forall (l : list (nat * F)) d, map (fun i => nth i l d) (seq 0 (length l)) = l).
    { intros l d. induction l as [|x l IH]; [reflexivity|]. cbn [length seq map nth]. f_equal.
      rewrite <- seq_shift, map_map. exact IH. }
    rewrite G. apply Permutation_refl.
Qed.
Print Assumptions C76_in_memory.

(** So the in-memory post processor also returns what the other ones filter out: the start
    points and deleted points among the candidates. *)
Theorem C76_refuted_deleted :
  ~ (forall F (a : arith F) vector query power eta cands out (deleted : nat -> bool),
     inmem_post a vector query power eta cands = Some out ->
     forall x, In x out -> deleted (fst x) = false).
Proof.
  intros H. set (op := fun x _ : nat => x).
  set (a := mkArith 0 1 0 0 0 op op op op op op op (fun x => x) (fun _ _ => 0) (fun _ => true)
              (fun _ _ => true) (fun _ _ => true) Nat.compare).
  specialize (H nat a (fun i => [i]) [1] 1 0 [(3, 5)] [(3, 5)] (fun _ => true) eq_refl (3, 5) (or_introl eq_refl)).
  discriminate.
Qed.
Print Assumptions C76_refuted_deleted.

(** On disk: searching in the diverse mode never fails, and what it finds is all the
    candidates the filter lets pass, each once, reordered. *)
Theorem C76_disk :
  forall V A St (P : vprov St V A) inv nodes full pq npts maxv limit medoid sort sort_items fuel
    k l bw f adef s (a : arith f32) tof query power eta,
  let m := DiverseGraph f (disk_select a tof query power eta) in
  ready nodes npts maxv medoid sort sort_items fuel -> serves nodes P inv -> reliable nodes P inv -> inv s ->
  query_ok k l bw -> query <> [] -> (forall v, length (tof v) = length query) ->
  exists cands xs t,
    d_search P full pq npts maxv limit medoid sort sort_items fuel k l bw m adef s =
      SOk (firstn k xs ++ repeat ((0, adef), f32_zero) (k - length xs), t) /\
    chosen nodes pq npts limit medoid l m cands t /\
    Permutation xs (items nodes full (filter (passes f) (map n_id cands))).
Proof.
  intros V A St P inv nodes full pq npts maxv limit medoid sort sort_items fuel k l bw f adef s a tof query power eta m
    RD SV RL I QO Q D.
  assert (SEL : forall vs, exists idx, disk_select a tof query power eta vs = Some idx /\ Permutation idx (seq 0 (length vs))).
  { intros vs. unfold disk_select.
    assert (E : forallb (fun r => length r =? length query) (map (fun vd => tof (fst vd)) vs) = true).
    { apply forallb_forall. intros r Hr. apply in_map_iff in Hr. destruct Hr as (c & <- & _). apply Nat.eqb_eq. apply D. }
    rewrite E. pose proof (C74_selection f32 a (length query) (map (fun vd => tof (fst vd)) vs) (map snd vs) query
      (length vs) power eta) as S. destruct (determinant_diversity _ _ _ _ _ _ _ _) as [| |idx].
    - now elim S.
    - rewrite !map_length in S. now elim S.
    - destruct S as (_ & _ & _ & _ & S). destruct S as (_ & S); [destruct query; [congruence|discriminate]|].
      rewrite map_length in S. exists idx. split; [reflexivity|]. now apply S. }
  assert (TM : tame nodes full pq m).
  { cbn. intros vs. destruct (SEL vs) as (idx & E & PM). exists idx. split; [exact E|].
    apply Forall_forall. intros i Hi. eapply Permutation_in in Hi; [|exact PM]. apply in_seq in Hi. lia. }
  pose proof (Props.C70_search V A St P inv nodes full pq npts maxv limit medoid sort sort_items fuel k l bw m adef s RD SV I QO) as S.
  destruct (d_search _ _ _ _ _ _ _ _ _ _ _ _ _ _ _ _) as [[r t]| | |]; [|tauto|tauto|tauto].
  destruct S as (cands & xs & FD & -> & _). exists cands, xs, t. split; [reflexivity|]. destruct FD as (FD1 & FD2 & _). split; [exact FD1|].
  unfold presented in FD2. cbn zeta in FD2. change (filter (allowed m) (map n_id cands)) with (filter (passes f) (map n_id cands)) in FD2. unfold m in FD2.
  set (ids := filter (passes f) (map n_id cands)) in *.
  destruct FD2 as [(-> & ->)|(idx & E & M)]; [constructor|].
  set (vs := flat_map _ ids) in E. destruct (SEL vs) as (idx' & E' & PM). rewrite E in E'. injection E' as <-.
  assert (LL : length vs = length (items nodes full ids)).
  { unfold vs, items. clear. induction ids as [|i ids IH]; [reflexivity|]. cbn [flat_map]. rewrite !app_length, IH. destruct (nodes i); reflexivity. }
  rewrite LL in PM. apply Permutation_map with (f := nth_error (items nodes full ids)) in PM. rewrite M in PM.
  assert (G : forall (B : Type) (l : list B), map (nth_error l) (seq 0 (length l)) = map Some l).
  { intros B. clear. intros l. induction l as [|x l IH]; [reflexivity|]. cbn [length seq map nth_error]. f_equal.
    rewrite <- seq_shift, map_map. exact IH. }
  rewrite G in PM. clear -PM. apply (Permutation_flat_map (fun o => match o with Some x => [x] | None => [] end)) in PM.
  assert (H : forall (B : Type) (l : list B), flat_map (fun o => match o with Some x => [x] | None => [] end) (map Some l) = l).
  { intros B l. induction l as [|x l IH]; [reflexivity|]. cbn. now rewrite IH. }
  now rewrite !H in PM.
Qed.
Print Assumptions C76_disk.

(** ** The hypotheses are met *)

(** Exact arithmetic exists. *)
Definition real_arith : arith R :=
  mkArith 0%R 1%R (1/1000)%R 0%R 0%R Rplus Rminus Rmult Rdiv Rmin Rmax (fun x _ => x) sqrt
    (fun x y => total (seq 0 (length x)) (fun i => coord x i * coord y i)%R) (fun _ => true)
    (fun x y => if Rle_dec x y then true else false) (fun x y => if Rlt_dec x y then true else false)
    (fun x y => if Rlt_dec y x then Gt else Lt).
Example C75_met : exact real_arith /\ (0 < f_eps real_arith)%R.
Proof.
  split; [|cbn; lra]. constructor; cbn; try reflexivity; intros x y.
  - destruct (Rle_dec x y); split; congruence || tauto.
  - destruct (Rlt_dec y x); split; congruence || tauto.
Qed.

(** Integer arithmetic: of three candidates the last two are equal; after one of them the
    orthogonal one is chosen. *)
Definition int_arith : arith Z :=
  mkArith 0%Z 1%Z 1%Z 1000%Z (-1000)%Z Z.add Z.sub Z.mul Z.div Z.min Z.max (fun x _ => x) Z.sqrt
    (fun x y => fold_right Z.add 0%Z (map (fun p => fst p * snd p)%Z (combine x y))) (fun _ => true) Z.leb Z.ltb Z.compare.
Example C74_met :
  determinant_diversity int_arith 2 [[0; 1]; [1; 0]; [1; 0]]%Z [5; 5; 5]%Z [1; 1]%Z 2 1%Z 0%Z = Selected [2; 0] /\
  determinant_diversity int_arith 2 [[0; 1]; [1; 0]; [1; 0]]%Z [5; 5; 5]%Z [1; 1]%Z 9 1%Z 0%Z = Selected [2; 0; 1] /\
  params_new int_arith 1%Z 0%Z = Params 1%Z 0%Z /\
  inmem_post int_arith (fun i => [Z.of_nat i; 1]%Z) [1; 1]%Z 1%Z 0%Z [(2, 5%Z); (7, 5%Z)] = Some [(7, 5%Z); (2, 5%Z)].
Proof. vm_compute. repeat split. Qed.
