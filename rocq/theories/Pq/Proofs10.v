(** Sums of looked-up distances; distances of many points at once. *)
From Coq Require Import List PeanoNat Bool Lia Arith Ring Ring_theory.
From Verif.Lib Require Import Lists.
From Verif.Simd Require Import Model Spec Proofs2.
From Verif.Pq Require Import Model Spec Proofs Proofs2 Proofs4 Proofs5 Proofs6 Proofs7 Proofs8.
Require Verif.Work.Model.
Import ListNotations.

Lemma nth_skip {A} k : forall n (l : list A) d, nth n (skipn k l) d = nth (k + n) l d.
Proof. induction k as [|k IH]; intros n [|b l] d; cbn [skipn Nat.add nth]; try reflexivity; [now destruct n|apply IH]. Qed.
Lemma In_cut {A} (a b : nat) (l : list A) v : In v (firstn a (skipn b l)) -> In v l.
Proof. intros H. rewrite <- (firstn_skipn b l). apply in_or_app. right. rewrite <- (firstn_skipn a (skipn b l)). apply in_or_app. now left. Qed.
Lemma fold_ext_in {A B} (f g : A -> B -> A) l : (forall s v, In v l -> f s v = g s v) -> forall a, fold_left f l a = fold_left g l a.
Proof. induction l as [|b l IH]; intros H a; cbn [fold_left]; [reflexivity|]. rewrite H by now left. apply IH. intros. apply H. now right. Qed.
Lemma nth_cut {A} n : forall i (l : list A) d, i < n -> nth i (firstn n l) d = nth i l d.
Proof. induction n as [|n IH]; intros i [|b l] d H; try lia; cbn [firstn]; [reflexivity|]. destruct i; cbn [nth]; [reflexivity|]. apply IH. lia. Qed.
Section Sums.
  Context {F : Type} (x : xops F) (ex : exact (fo x)).
  Notation o := (fo x).
  Let rt := ex_ring o ex.
  Add Ring FR3 : rt.
  Lemma walk_exact (d : nat -> nat -> F) (f : F -> F -> F) (p q : nat -> list F) : forall code s acc,
    (forall i c, nth_error code i = Some c -> length (p (s + i)) = length (q (s + i)) /\ d (s + i) c = total o f (p (s + i)) (q (s + i))) ->
    walk x d s code acc = add o acc (total o f (concat (map p (seq s (length code)))) (concat (map q (seq s (length code))))).
  Proof.
    induction code as [|c code IH]; intros s acc H; unfold walk; cbn [length seq List.combine fold_left map concat fst snd].
    - cbn [total]. ring.
    - change (fold_left _ (List.combine (seq (S s) (length code)) code) ?a) with (walk x d (S s) code a). rewrite IH.
      + destruct (H 0 c eq_refl) as [H1 H2]. rewrite Nat.add_0_r in *. rewrite H2, (Proofs6.total_app o ex) by assumption. ring.
      + intros i c' N. rewrite Nat.add_succ_comm. now apply (H (S i)).
  Qed.
  Lemma total_neg f : forall u v : list F, total o (fun a b => neg o (f a b)) u v = neg o (total o f u v).
  Proof. induction u as [|a u IH]; intros [|b v]; cbn [total]; try ring. rewrite IH. ring. Qed.
  Lemma l2_sym : forall u v : list F, true_l2 o u v = true_l2 o v u.
  Proof. unfold true_l2. induction u as [|a u IH]; intros [|b v]; cbn [total]; try reflexivity. rewrite IH. ring. Qed.
  Lemma ip_sym : forall u v : list F, true_ip o u v = true_ip o v u.
  Proof. unfold true_ip. induction u as [|a u IH]; intros [|b v]; cbn [total]; try reflexivity. rewrite IH. ring. Qed.
  Lemma distance_sym m u v : true_distance o m u v = true_distance o m v u.
  Proof.
    assert (C : true_cosine o u v = true_cosine o v u).
    { unfold true_cosine. cbv zeta. rewrite orb_comm, (ip_sym u v). destruct (_ || _); [reflexivity|]. do 3 f_equal. ring. }
    destruct m; cbn [true_distance]; rewrite ?C; [apply l2_sym|now rewrite ip_sym|reflexivity|reflexivity].
  Qed.
End Sums.

(** ** Many points *)
Section Points.
  Context {F : Type} (x : xops F) (W : nat) (Wp : 0 < W).
  Notation o := (fo x).
  (** The sum of the first [k] looked-up distances of a code. *)
  Definition run (table : list F) (code : list nat) (k : nat) : F :=
    fold_left (fun acc i => add o acc (nth (i * W + nth i code 0) table (zero o))) (seq 0 k) (zero o).
  Lemma run_S table code k : run table code (S k) = add o (run table code k) (nth (k * W + nth k code 0) table (zero o)).
  Proof. unfold run. rewrite seq_S, fold_left_app. reflexivity. Qed.
  Lemma lookup_gen : forall code dists acc, Forall (fun c => c < W) code -> length code * W <= length dists ->
    lookup_from x code dists W acc = Some (fold_left (fun acc i => add o acc (nth (i * W + nth i code 0) dists (zero o))) (seq 0 (length code)) acc).
  Proof.
    induction code as [|c code IH]; intros dists acc HC HL; [reflexivity|]. inversion HC as [|? ? C HC']; subst. cbn [length] in HL.
    destruct dists as [|a0 r]; [cbn in HL; lia|]. cbn [lookup_from].
    rewrite nth_error_firstn' by assumption. rewrite (nth_error_nth' (a0 :: r) (zero o)) by nia. cbn [bind].
    rewrite IH; [|assumption|rewrite skipn_length; nia]. f_equal. remember (a0 :: r) as D eqn:ED. clear ED. cbn [length seq fold_left].
    rewrite <- seq_shift. cbn [Nat.mul Nat.add nth]. generalize (add o acc (nth c D (zero o))). generalize (seq 0 (length code)).
    induction l as [|i l IHl]; intros acc'; cbn [map fold_left]; [reflexivity|]. rewrite IHl. f_equal. f_equal. cbn [nth].
    rewrite nth_skip. f_equal. lia.
  Qed.
  Lemma lookup_run code table : Forall (fun c => c < W) code -> length code * W <= length table ->
    lookup_single x code table W = Some (run table code (length code)).
  Proof. intros HC HL. unfold lookup_single. destruct (Nat.eqb_spec W 0); [lia|]. now apply lookup_gen. Qed.

  Context (coords : list nat) (n_pts nchunks : nat) (s : list F).
  Context (Hc : length coords = n_pts * nchunks) (Hb : Forall (fun c => c < W) coords) (Hs : length s = nchunks * W).
  Notation codeof p := (firstn nchunks (skipn (p * nchunks) coords)).
  Lemma codeof_nth p i : p < n_pts -> i < nchunks -> nth_error coords (p * nchunks + i) = Some (nth i (codeof p) 0) /\ nth i (codeof p) 0 < W.
  Proof.
    intros P I. assert (E : nth_error coords (p * nchunks + i) = nth_error (codeof p) i) by (now rewrite nth_error_firstn', nth_error_skipn' by assumption).
    assert (L : p * nchunks + i < length coords) by (rewrite Hc; nia).
    destruct (nth_error coords (p * nchunks + i)) as [c|] eqn:N; [|apply nth_error_None in N; lia].
    symmetry in E. pose proof (nth_error_nth _ _ 0 E) as ->. split; [reflexivity|]. rewrite Forall_forall in Hb. apply Hb. eapply nth_error_In; eassumption.
  Qed.
  Lemma tile_ok t cur : 16 * t + cur <= nchunks ->
    tile x (mkM coords n_pts nchunks) (mkM s nchunks W) t cur (map (fun p => run s (codeof p) (16 * t)) (seq 0 n_pts)) =
    Some (map (fun p => run s (codeof p) (16 * t + cur)) (seq 0 n_pts)).
  Proof.
    intros HT. unfold tile. cbn [m_data m_cols].
    assert (EN : enumerate (map (fun p => run s (codeof p) (16 * t)) (seq 0 n_pts)) = map (fun p => (p, run s (codeof p) (16 * t))) (seq 0 n_pts)).
    { apply nth_error_ext. intros i. rewrite enumerate_nth, !nth_error_map. destruct (nth_error (seq 0 n_pts) i) as [v|] eqn:N; [|reflexivity]. cbn [option_map].
      assert (i < n_pts) by (apply nth_error_lt' in N; now rewrite seq_length in N). rewrite nth_seq in N by assumption. injection N as <-. reflexivity. }
    rewrite EN. rewrite (each_map _ (fun q => run s (codeof (fst q)) (16 * t + cur))).
    - rewrite map_map. reflexivity.
    - intros q Q. apply in_map_iff in Q as (p & <- & P). apply in_seq in P. cbn [fst].
      rewrite <- (Nat.add_0_r (16 * t)) at 1.
      apply (for_range_run cur _ (fun k => run s (codeof p) (16 * t + k))). intros k K.
      rewrite (Nat.mul_comm t 16). destruct (codeof_nth p (16 * t + k) ltac:(lia) ltac:(lia)) as [-> B]. cbn [bind].
      rewrite slice_eq by (rewrite ?Hs; nia). cbn [bind]. rewrite Nat.add_comm with (m := W), Nat.add_sub.
      rewrite nth_error_firstn' by assumption. rewrite nth_error_skipn'.
      rewrite (nth_error_nth' s (zero o)) by (rewrite Hs; nia). cbn [bind]. rewrite Nat.add_succ_r, run_S. reflexivity.
  Qed.
End Points.
Lemma pq_lookup_ok {F} (x : xops F) coords n_pts nchunks table out :
  length coords = n_pts * nchunks -> Forall (fun c => c < 256) coords -> 256 * nchunks <= length table -> n_pts <= length out ->
  pq_dist_lookup x coords n_pts nchunks table out =
    Some (Some (map (fun p => run x 256 (firstn (256 * nchunks) table) (firstn nchunks (skipn (p * nchunks) coords)) nchunks) (seq 0 n_pts) ++ skipn n_pts out)).
Proof.
  intros HC HB HT HO. unfold pq_dist_lookup. unfold matrix_try. rewrite (proj2 (Nat.eqb_eq _ _) HC).
  rewrite slice_eq by lia. cbn [bind]. rewrite Nat.sub_0_r. cbn [skipn]. set (s := firstn (256 * nchunks) table).
  assert (Hs : length s = nchunks * 256) by (unfold s; rewrite firstn_length; lia). rewrite (proj2 (Nat.eqb_eq _ _) Hs). cbn [m_rows].
  rewrite (proj2 (Nat.ltb_ge _ _) HO). cbv zeta.
  set (G := fun k => map (fun p => run x 256 s (firstn nchunks (skipn (p * nchunks) coords)) k) (seq 0 n_pts)).
  assert (G0 : repeat (zero (fo x)) n_pts = G (16 * 0)).
  { rewrite Nat.mul_0_r. transitivity (map (fun _ : nat => zero (fo x)) (seq 0 n_pts)); [|reflexivity].
    rewrite <- (seq_length n_pts 0) at 1. generalize (seq 0 n_pts). induction l as [|b l IH]; cbn [length repeat map]; [reflexivity|now rewrite IH]. }
  rewrite G0. pose proof (Nat.mul_div_le nchunks 16 ltac:(lia)) as DL.
  rewrite (for_range_run (nchunks / 16) _ (fun t => G (16 * t))).
  - cbn [bind]. destruct (Nat.eqb_spec (nchunks - 16 * (nchunks / 16)) 0) as [Z0|NZ]; cbn [negb bind].
    + replace (16 * (nchunks / 16)) with nchunks by lia. reflexivity.
    + unfold G at 1. rewrite (tile_ok x 256 ltac:(lia) coords n_pts nchunks s HC HB Hs) by lia. cbn [bind].
      replace (16 * (nchunks / 16) + (nchunks - 16 * (nchunks / 16))) with nchunks by lia. reflexivity.
  - intros t Ht. unfold G. rewrite (tile_ok x 256 ltac:(lia) coords n_pts nchunks s HC HB Hs).
    + now replace (16 * S t) with (16 * t + 16) by lia.
    + assert (16 * S t <= 16 * (nchunks / 16)) by (apply Nat.mul_le_mono_l; lia). lia.
Qed.
Lemma aggregate_ok ids all nchunks npts scratch : 0 < nchunks -> length all = npts * nchunks -> Forall (fun id => id < npts) ids ->
  length ids * nchunks <= length scratch ->
  aggregate ids all nchunks scratch = Some (Some (concat (map (fun id => firstn nchunks (skipn (id * nchunks) all)) ids) ++ skipn (length ids * nchunks) scratch)).
Proof.
  intros P L HI HS. unfold aggregate. rewrite (proj2 (Nat.ltb_ge _ _) HS). destruct (Nat.eqb_spec nchunks 0); [lia|].
  rewrite (each_map _ (fun id => firstn nchunks (skipn (id * nchunks) all))); [reflexivity|]. intros id I. rewrite Forall_forall in HI. specialize (HI id I).
  rewrite slice_eq by nia. do 2 f_equal. lia.
Qed.
Lemma rows_length {A} (all : list A) nchunks npts ids : length all = npts * nchunks -> Forall (fun id => id < npts) ids ->
  length (concat (map (fun id => firstn nchunks (skipn (id * nchunks) all)) ids)) = length ids * nchunks.
Proof.
  intros L H. induction H as [|id ids I _ IH]; [reflexivity|]. cbn [map concat length]. rewrite app_length, IH, firstn_length, skipn_length. nia.
Qed.
Lemma rows_nth {A} (all : list A) nchunks npts ids k id : length all = npts * nchunks -> Forall (fun id => id < npts) ids -> nth_error ids k = Some id ->
  firstn nchunks (skipn (k * nchunks) (concat (map (fun id => firstn nchunks (skipn (id * nchunks) all)) ids))) = firstn nchunks (skipn (id * nchunks) all).
Proof.
  intros L H. revert k. induction H as [|id0 ids I H IH]; intros k N; [now destruct k|]. cbn [map concat].
  assert (LF : length (firstn nchunks (skipn (id0 * nchunks) all)) = nchunks) by (rewrite firstn_length, skipn_length; nia). destruct k as [|k].
  - injection N as <-. cbn [Nat.mul skipn]. rewrite <- LF at 1. rewrite firstn_app, Nat.sub_diag, firstn_all. cbn [firstn]. apply app_nil_r.
  - rewrite skipn_app, LF. replace (S k * nchunks - nchunks) with (k * nchunks) by lia. rewrite skipn_all2 by (rewrite LF; lia). cbn [app]. now apply IH.
Qed.
