(** The tiled loop shows every row of the query every document row, once and in order. *)
From Coq Require Import List PeanoNat Bool Lia.
From Verif.Lib Require Import Base Lists.
From Verif.Simd Require Import Model.
From Verif.Pq Require Import Model Proofs.
From Verif.MultiVec Require Import Model Spec.
Import ListNotations.

Lemma le_mul n c : 0 < c -> n < S (n * c).
Proof. nia. Qed.
Lemma le_k x y k : x <= y -> x * k <= y * k.
Proof. nia. Qed.
Lemma add_k x y m k : x + y <= m -> x * k + y * k <= m * k.
Proof. nia. Qed.

Section Tiled.
  Context {T F : Type} (o : mops T F) (A B k NB M : nat) (a b : list T).
  Context (HA : 0 < A) (HB : 1 <= B <= 4) (HK : 0 < k) (La : length a = NB * (A * k)) (Lb : length b = M * k).
  Context (assoc : forall x y z, mmax o (mmax o x y) z = mmax o x (mmax o y z)).
  Notation N := (NB * A).

  Definition ea (i c : nat) : F := nth (i / A * (A * k) + (A * c + i mod A)) (map (cvt o) a) (mzero o).
  Definition eb (j c : nat) : F := nth (j * k + c) (map (cvt o) b) (mzero o).
  Definition D (i j : nat) : F := fold_left (fun s c => madd o (ea i c) (eb j c) s) (seq 0 k) (mzero o).
  Definition acc (i m : nat) : F := fold_left (mmax o) (map (D i) (seq 0 m)) (lowest o).
  (** Row [i] has seen the first [g i] documents. *)
  Definition seen (r : list F) (g : nat -> nat) : Prop := length r = N /\ forall i, i < N -> nth_error r i = Some (acc i (g i)).

  Lemma seen_ext r g h : seen r g -> (forall i, i < N -> g i = h i) -> seen r h.
  Proof. intros [L S] E. split; [exact L|]. intros i I. rewrite <- E by exact I. now apply S. Qed.
  Lemma acc_add i m n : acc i (m + n) = fold_left (mmax o) (map (D i) (seq m n)) (acc i m).
  Proof. unfold acc. rewrite seq_app, map_app, fold_left_app. reflexivity. Qed.
  Lemma fold_out l : forall x y, fold_left (mmax o) l (mmax o x y) = mmax o x (fold_left (mmax o) l y).
  Proof. induction l as [|z l IH]; intros x y; cbn; [reflexivity|]. now rewrite assoc, IH. Qed.
  Lemma reduce_ok l : 1 <= length l <= 4 -> exists p, reduce o l = Some p /\ forall r, mmax o r p = fold_left (mmax o) l r.
  Proof.
    intros H. destruct l as [|x [|y [|z [|w [|v l]]]]]; cbn in H; try lia; cbn [reduce]; eexists; (split; [reflexivity|]); intros r; cbn; now rewrite <- ?assoc.
  Qed.
  Lemma lane_ok av pa l i bv pb j jj : (forall c, c < k -> nth_error av (pa + (A * c + l)) = Some (ea i c)) -> (forall c, c < k -> nth_error bv (pb + (c + k * j)) = Some (eb jj c)) ->
    lane_dot o A k av pa l bv pb j = Some (D i jj).
  Proof.
    intros HA' HB'. unfold lane_dot, D.
    assert (K : forall n, n <= k -> fold_left (fun acc i0 => do s <- acc; do x <- nth_error av (pa + (A * i0 + l)); do y <- nth_error bv (pb + (i0 + k * j)); Some (madd o x y s)) (seq 0 n) (Some (mzero o)) = Some (fold_left (fun s c => madd o (ea i c) (eb jj c) s) (seq 0 n) (mzero o))).
    { induction n as [|n IH]; intros L; [reflexivity|]. rewrite seq_S, !fold_left_app, IH by lia. cbn [fold_left bind Nat.add]. rewrite HA', HB' by lia. reflexivity. }
    apply K. lia.
  Qed.
  Lemma shift j0 n : forall s, map (fun j => j0 + j) (seq s n) = seq (j0 + s) n.
  Proof. clear. induction n as [|n IH]; intros s; cbn; [reflexivity|]. rewrite IH. f_equal. f_equal. lia. Qed.
  Lemma micro_ok U av pa bv pb r R j0 g : 1 <= U <= 4 -> R + A <= N -> seen r g -> (forall i, R <= i < R + A -> g i = j0) ->
    (forall l c, l < A -> c < k -> nth_error av (pa + (A * c + l)) = Some (ea (R + l) c)) ->
    (forall j c, j < U -> c < k -> nth_error bv (pb + (c + k * j)) = Some (eb (j0 + j) c)) ->
    exists r', microkernel o A U k av pa bv pb r R = Some r' /\ seen r' (fun i => if (R <=? i) && (i <? R + A) then j0 + U else g i).
  Proof.
    intros HU HR [LR SR] G RA RB. unfold microkernel.
    assert (E : each (fun l => do p <- each (fun j => lane_dot o A k av pa l bv pb j) (seq 0 U); do m <- reduce o p; do r0 <- nth_error r (R + l); Some (mmax o r0 m)) (seq 0 A)
      = Some (map (fun l => acc (R + l) (j0 + U)) (seq 0 A))).
    { apply each_seq. intros l HL. rewrite (each_seq _ (fun j => D (R + l) (j0 + j))) by (intros j HJ; apply lane_ok; [intros; now apply RA|intros; now apply RB]). cbn [bind].
      destruct (reduce_ok (map (fun j => D (R + l) (j0 + j)) (seq 0 U))) as (p & -> & P); [rewrite map_length, seq_length; exact HU|]. cbn [bind].
      rewrite SR by lia. cbn [bind]. rewrite P, (G (R + l)) by lia. f_equal. rewrite acc_add. f_equal. rewrite <- (map_map (fun j => j0 + j) (D (R + l))). f_equal.
      rewrite shift, Nat.add_0_r. reflexivity. }
    rewrite E. cbn [bind]. eexists. split; [reflexivity|]. split.
    - rewrite !app_length, firstn_length, map_length, seq_length, skipn_length. lia.
    - intros i I. destruct (Nat.leb_spec R i) as [L|L]; cbn [andb].
      + rewrite nth_error_app2 by (rewrite firstn_length; lia). rewrite firstn_length, Nat.min_l by lia. destruct (Nat.ltb_spec i (R + A)) as [L'|L'].
        * rewrite nth_error_app1 by (rewrite map_length, seq_length; lia). rewrite nth_map_seq by lia. do 2 f_equal. lia.
        * rewrite nth_error_app2 by (rewrite map_length, seq_length; lia). rewrite map_length, seq_length, nth_error_skipn'. rewrite <- SR by exact I. f_equal. lia.
      + rewrite nth_error_app1 by (rewrite firstn_length; lia). rewrite nth_error_firstn' by lia. now apply SR.
  Qed.

  (** Tiles: copies of blocks of rows of [a] and of rows of [b]. *)
  Definition atile (av : list F) (t0 nb : nat) : Prop := t0 + nb <= NB /\ length av = nb * (A * k) /\ forall x, x < nb * (A * k) -> nth_error av x = nth_error (map (cvt o) a) (t0 * (A * k) + x).
  Definition btile (bv : list F) (j0 n : nat) : Prop := j0 + n <= M /\ length bv = n * k /\ forall x, x < n * k -> nth_error bv x = nth_error (map (cvt o) b) (j0 * k + x).
  Lemma in_panel n p c l : p < n -> c < k -> l < A -> p * (A * k) + (A * c + l) < n * (A * k).
  Proof. intros. assert (A * c + l < A * k) by nia. nia. Qed.
  Lemma atile_at av t0 nb p l c : atile av t0 nb -> p < nb -> l < A -> c < k -> nth_error av (p * (A * k) + (A * c + l)) = Some (ea ((t0 + p) * A + l) c).
  Proof.
    intros (H1 & H2 & H3) Hp Hl Hc. rewrite H3 by now apply in_panel. unfold ea.
    replace (((t0 + p) * A + l) / A) with (t0 + p) by (rewrite Nat.div_add_l, Nat.div_small by lia; lia).
    replace (((t0 + p) * A + l) mod A) with l by (rewrite Nat.add_comm, Nat.mod_add, Nat.mod_small by lia; lia).
    replace (t0 * (A * k) + (p * (A * k) + (A * c + l))) with ((t0 + p) * (A * k) + (A * c + l)) by ring.
    apply nth_error_nth'. rewrite map_length, La. apply in_panel; lia.
  Qed.
  Lemma btile_at bv j0 n j c : btile bv j0 n -> j < n -> c < k -> nth_error bv (c + k * j) = Some (eb (j0 + j) c).
  Proof.
    intros (H1 & H2 & H3) Hj Hc. assert (X : c + k * j < n * k) by nia. rewrite H3 by exact X. unfold eb. replace ((j0 + j) * k + c) with (j0 * k + (c + k * j)) by ring.
    apply nth_error_nth'. rewrite map_length, Lb. nia.
  Qed.
  Lemma convert_ok (src : list T) cap p rows : rows * k <= cap -> p + rows * k <= length src ->
    exists v, convert o cap src p rows k = Some v /\ length v = rows * k /\ forall x, x < rows * k -> nth_error v x = nth_error (map (cvt o) src) (p + x).
  Proof.
    intros C L. unfold convert. destruct (Nat.leb_spec (rows * k) cap); [|lia]. unfold slice. rewrite (proj2 (Nat.leb_le p (p + rows * k)) ltac:(lia)), (proj2 (Nat.leb_le (p + rows * k) (length src)) L). cbn [andb option_map].
    eexists. split; [reflexivity|]. replace (p + rows * k - p) with (rows * k) by lia. split.
    - rewrite map_length, firstn_length, skipn_length. lia.
    - intros x X. rewrite !nth_error_map, nth_error_firstn', nth_error_skipn' by exact X. reflexivity.
  Qed.

  Definition bump (R n j : nat) (g : nat -> nat) (i : nat) : nat := if (R <=? i) && (i <? R + n) then j else g i.
  Lemma bump_in R n j g i : R <= i < R + n -> bump R n j g i = j.
  Proof. intros H. unfold bump. rewrite (proj2 (Nat.leb_le R i)), (proj2 (Nat.ltb_lt i (R + n))) by lia. reflexivity. Qed.
  Lemma bump_out R n j g i : i < R \/ R + n <= i -> bump R n j g i = g i.
  Proof. intros H. unfold bump. destruct (Nat.leb_spec R i); [|reflexivity]. destruct (Nat.ltb_spec i (R + n)); [lia|reflexivity]. Qed.
  Lemma bump2 R n j j' g i : bump R n j' (bump R n j g) i = bump R n j' g i.
  Proof. unfold bump. destruct ((R <=? i) && (i <? R + n)); reflexivity. Qed.

  Lemma loop4_ok av t0 nb p bv j0 n m : atile av t0 nb -> p < nb -> btile bv j0 n -> m * B <= n -> forall e q fuel r g, q + e = m -> e < fuel ->
    seen r g -> (forall i, (t0 + p) * A <= i < (t0 + p) * A + A -> g i = j0 + q * B) ->
    exists r', loop4 o fuel A B k av (p * (A * k)) bv (q * (B * k)) (m * (B * k)) r ((t0 + p) * A) = Some (m * (B * k), r') /\ seen r' (bump ((t0 + p) * A) A (j0 + m * B) g).
  Proof.
    intros AT HP BT HM. induction e as [|e IH]; intros q fuel r g Q HF SR G; (destruct fuel as [|fuel]; [lia|]); cbn [loop4].
    - replace q with m by lia. rewrite Nat.ltb_irrefl. eexists. split; [reflexivity|]. eapply seen_ext; [exact SR|]. intros i I. unfold bump.
      destruct ((_ <=? i) && (i <? _)) eqn:E; [|reflexivity]. apply andb_true_iff in E as [E1 E2]. apply Nat.leb_le in E1. apply Nat.ltb_lt in E2. rewrite G by lia. f_equal. nia.
    - assert (BK : 0 < B * k) by nia. rewrite (proj2 (Nat.ltb_lt (q * (B * k)) (m * (B * k)))) by nia.
      destruct (micro_ok B av (p * (A * k)) bv (q * (B * k)) r ((t0 + p) * A) (j0 + q * B) g) as (r1 & E1 & S1).
      + exact HB.
      + destruct AT as (AT1 & _). nia.
      + exact SR.
      + exact G.
      + intros l c Hl Hc. apply (atile_at av t0 nb); assumption.
      + intros j c Hj Hc. replace (q * (B * k) + (c + k * j)) with (c + k * (q * B + j)) by ring. rewrite (btile_at bv j0 n) by (assumption || nia). do 2 f_equal. lia.
      + unfold full_panel. rewrite E1. cbn [bind]. replace (q * (B * k) + B * k) with (S q * (B * k)) by ring.
        destruct (IH (S q) fuel r1 (bump ((t0 + p) * A) A (j0 + S q * B) g) ltac:(lia) ltac:(lia)) as (r2 & E2 & S2).
        * eapply seen_ext; [exact S1|]. intros i I. unfold bump. destruct (_ && _); [lia|reflexivity].
        * intros i I. rewrite bump_in by exact I. reflexivity.
        * exists r2. split; [exact E2|]. eapply seen_ext; [exact S2|]. intros i I. apply bump2.
  Qed.
  Lemma loop3_ok av t0 nb bv j0 n m rem : atile av t0 nb -> btile bv j0 n -> n = m * B + rem -> rem < B -> forall e p fuel r g, p + e = nb -> e < fuel ->
    seen r g -> (forall i, (t0 + p) * A <= i < (t0 + nb) * A -> g i = j0) ->
    exists r', loop3 o fuel A B k av (p * (A * k)) (nb * (A * k)) bv (m * (B * k)) rem r ((t0 + p) * A) = Some r' /\ seen r' (bump ((t0 + p) * A) (e * A) (j0 + n) g).
  Proof.
    intros AT BT HN HR. induction e as [|e IH]; intros p fuel r g P HF SR G; (destruct fuel as [|fuel]; [lia|]); cbn [loop3].
    - replace p with nb by lia. rewrite Nat.ltb_irrefl. eexists. split; [reflexivity|]. eapply seen_ext; [exact SR|]. intros i I. symmetry. apply bump_out. lia.
    - assert (AK : 0 < A * k) by nia. rewrite (proj2 (Nat.ltb_lt (p * (A * k)) (nb * (A * k)))) by nia.
      assert (LB : length bv = n * k) by apply BT. assert (G0 : forall i, (t0 + p) * A <= i < (t0 + p) * A + A -> g i = j0) by (intros i I; apply G; nia).
      destruct (loop4_ok av t0 nb p bv j0 n m AT ltac:(lia) BT ltac:(lia) m 0 (S (length bv)) r g ltac:(lia)) as (r1 & E1 & S1).
      { rewrite LB. nia. } { exact SR. } { intros i I. rewrite G0 by exact I. lia. }
      change (0 * (B * k)) with 0 in E1. rewrite E1. cbn [bind].
      assert (X : exists r2, (if 0 <? rem then partial_panel o A B rem k av (p * (A * k)) bv (m * (B * k)) r1 ((t0 + p) * A) else Some r1) = Some r2 /\ seen r2 (bump ((t0 + p) * A) A (j0 + n) g)).
      { destruct (Nat.ltb_spec 0 rem) as [L|L].
        - unfold partial_panel. rewrite (proj2 (Nat.leb_le 1 rem) L), (proj2 (Nat.ltb_lt rem B) HR). cbn [andb].
          destruct (micro_ok rem av (p * (A * k)) bv (m * (B * k)) r1 ((t0 + p) * A) (j0 + m * B) (bump ((t0 + p) * A) A (j0 + m * B) g)) as (r2 & E2 & S2).
          + lia.
          + destruct AT as (AT1 & _). nia.
          + exact S1.
          + intros i I. now apply bump_in.
          + intros l c Hl Hc. apply (atile_at av t0 nb); assumption || lia.
          + intros j c Hj Hc. replace (m * (B * k) + (c + k * j)) with (c + k * (m * B + j)) by ring. rewrite (btile_at bv j0 n) by (assumption || lia). do 2 f_equal. lia.
          + exists r2. split; [exact E2|]. eapply seen_ext; [exact S2|]. intros i I. unfold bump. destruct (_ && _); [lia|reflexivity].
        - exists r1. split; [reflexivity|]. eapply seen_ext; [exact S1|]. intros i I. unfold bump. destruct (_ && _); [lia|reflexivity]. }
      destruct X as (r2 & E2 & S2). rewrite E2. cbn [bind]. replace (p * (A * k) + A * k) with (S p * (A * k)) by ring. replace ((t0 + p) * A + A) with ((t0 + S p) * A) by ring.
      destruct (IH (S p) fuel r2 (bump ((t0 + p) * A) A (j0 + n) g) ltac:(lia) ltac:(lia) S2) as (r3 & E3 & S3).
      + intros i I. rewrite bump_out by nia. apply G. nia.
      + exists r3. split; [exact E3|]. eapply seen_ext; [exact S3|]. intros i I. unfold bump.
        destruct (Nat.leb_spec ((t0 + S p) * A) i), (Nat.leb_spec ((t0 + p) * A) i), (Nat.ltb_spec i ((t0 + S p) * A + e * A)), (Nat.ltb_spec i ((t0 + p) * A + A)), (Nat.ltb_spec i ((t0 + p) * A + S e * A)); cbn [andb]; try reflexivity; nia.
  Qed.
  Lemma loop2_ok av t0 nb bp cap : atile av t0 nb -> 0 < bp -> Nat.min (B * bp) M * k <= cap -> forall fuel s r g, s * (B * bp) <= M -> M * k < fuel + s * (B * bp) * k ->
    seen r g -> (forall i, t0 * A <= i < t0 * A + nb * A -> g i = s * (B * bp)) ->
    exists s' r', loop2 o fuel A B k (B * bp) cap av (nb * A) b (s * (B * bp) * k) (M * k - M mod B * k) r (t0 * A) = Some (s' * (B * bp) * k, r') /\
      s' * (B * bp) <= M /\ M < s' * (B * bp) + B * bp /\ seen r' (bump (t0 * A) (nb * A) (s' * (B * bp)) g).
  Proof.
    intros AT HP HC. assert (W : 0 < B * bp) by nia. set (w := B * bp) in *. pose proof (Nat.div_mod M B ltac:(lia)) as DM. pose proof (Nat.mod_upper_bound M B ltac:(lia)) as MB.
    assert (FE : M * k - M mod B * k = M / B * B * k).
    { rewrite <- Nat.mul_sub_distr_r. apply (f_equal (fun x => x * k)). rewrite (Nat.mul_comm (M / B) B).
      rewrite DM at 1. apply Nat.add_sub. }
    rewrite FE.
    induction fuel as [|fuel IH]; intros s r g HS HF SR G; [pose proof (Nat.mul_le_mono_r _ _ k HS); lia|]. cbn [loop2].
    destruct (Nat.leb_spec (s * w * k + w * k) (M / B * B * k)) as [L|L].
    - assert (L1 : s * w + w <= M / B * B) by (apply (Nat.mul_le_mono_pos_r _ _ k); lia). assert (L2 : s * w + w <= M) by lia.
      destruct (convert_ok b cap (s * w * k) w) as (bv & EB & LB & XB); [rewrite Nat.min_l in HC by lia; exact HC|rewrite Lb; apply add_k; exact L2|]. rewrite EB. cbn [bind].
      assert (BT : btile bv (s * w) w) by (split; [lia|split; [exact LB|exact XB]]).
      destruct (loop3_ok av t0 nb bv (s * w) w bp 0 AT BT ltac:(unfold w; lia) ltac:(lia) nb 0 (S (length av)) r g ltac:(lia)) as (r1 & E1 & S1).
      { destruct AT as (_ & -> & _). apply le_mul. clear - HA HK. nia. } { exact SR. } { intros i I. apply G. rewrite Nat.add_0_r, Nat.mul_add_distr_r in I. exact I. }
      replace (nb * A * k) with (nb * (A * k)) by ring. replace (w * k) with (bp * (B * k)) by (unfold w; ring). change (0 * (A * k)) with 0 in E1. rewrite Nat.add_0_r in E1. rewrite E1. cbn [bind].
      replace (s * w * k + bp * (B * k)) with (S s * w * k) by (unfold w; ring). replace (nb * (A * k)) with (nb * A * k) in * by ring.
      rewrite Nat.add_0_r in S1.
      destruct (IH (S s) r1 (bump (t0 * A) (nb * A) (s * w + w) g)) as (s' & r' & E' & H1 & H2 & S'); [clear - L2; lia|clear - HF HK W; nia|exact S1|intros i I; rewrite bump_in by exact I; clear; lia|].
      exists s', r'. replace (nb * A * k) with (nb * (A * k)) in E' by ring. split; [exact E'|]. split; [exact H1|]. split; [exact H2|]. eapply seen_ext; [exact S'|]. intros i I. apply bump2.
    - exists s, r. split; [reflexivity|]. split; [exact HS|]. split.
      + assert (L1 : M / B * B < s * w + w) by (apply (Nat.mul_lt_mono_pos_r k); [exact HK|lia]).
        assert (L2 : M / B < s * bp + bp) by (apply (Nat.mul_lt_mono_pos_r B); [clear - HB; lia|unfold w in L1; clear - L1; nia]). unfold w. clear - L2 DM MB. nia.
      + eapply seen_ext; [exact SR|]. intros i I. unfold bump. destruct (_ && _) eqn:E; [|reflexivity]. apply andb_true_iff in E as [E1 E2]. apply Nat.leb_le in E1. apply Nat.ltb_lt in E2. now apply G.
  Qed.
  Lemma loop1_ok ap bp : 0 < ap -> 0 < bp -> forall fuel d r, d <= NB -> NB < fuel + d -> seen r (fun i => if i <? d * A then M else 0) ->
    exists r', loop1 o fuel A B k (A * ap) (B * bp) a N b M (d * A) r = Some r' /\ seen r' (fun _ => M).
  Proof.
    intros HAP HBP. induction fuel as [|fuel IH]; intros d r HD HF SR; [lia|]. cbn [loop1].
    destruct (Nat.ltb_spec (d * A) N) as [L|L].
    2:{ exists r. split; [reflexivity|]. eapply seen_ext; [exact SR|]. intros i I. cbv beta. destruct (Nat.ltb_spec i (d * A)); [reflexivity|lia]. }
    assert (DN : d < NB) by nia. cbv zeta. set (nb := Nat.min ap (NB - d)). assert (HN : 0 < nb) by (unfold nb; lia).
    assert (ET : Nat.min (A * ap) (N - d * A) = nb * A). { unfold nb. replace (A * ap) with (ap * A) by ring. replace (N - d * A) with ((NB - d) * A) by (rewrite Nat.mul_sub_distr_r; lia). now rewrite Nat.mul_min_distr_r. }
    rewrite ET. destruct (convert_ok a (Nat.min (A * ap) N * k) (d * A * k) (nb * A)) as (av & EA & LA & XA).
    { apply le_k. rewrite <- ET. clear. lia. } { rewrite La, Nat.mul_assoc. apply add_k. unfold nb. clear - DN. nia. }
    rewrite EA. cbn [bind]. assert (AT : atile av d nb).
    { split; [unfold nb; lia|]. split; [rewrite LA; ring|]. intros x X. rewrite XA by (replace (nb * A * k) with (nb * (A * k)) by ring; exact X). f_equal. ring. }
    destruct (loop2_ok av d nb bp (Nat.min (B * bp) M * k) AT HBP ltac:(lia) (S (M * k)) 0 r (fun i => if i <? d * A then M else 0)) as (s & r1 & E1 & H1 & H2 & S1).
    { lia. } { lia. } { exact SR. } { intros i I. cbv beta. destruct (Nat.ltb_spec i (d * A)); lia. }
    change (0 * (B * bp) * k) with 0 in E1. rewrite E1. cbn [bind].
    assert (X : exists r2, (if s * (B * bp) * k <? M * k then
        do pb <- convert o (Nat.min (B * bp) M * k) b (s * (B * bp) * k) (M - s * (B * bp) * k / k) k;
        loop3 o (S (length av)) A B k av 0 (nb * A * k) pb ((M - s * (B * bp) * k / k) / B * (B * k)) (M mod B) r1 (d * A) else Some r1) = Some r2 /\
      seen r2 (bump (d * A) (nb * A) M (fun i => if i <? d * A then M else 0))).
    { destruct (Nat.ltb_spec (s * (B * bp) * k) (M * k)) as [L'|L'].
      - assert (SL : s * (B * bp) < M) by nia. rewrite Nat.div_mul by lia. set (rest := M - s * (B * bp)).
        destruct (convert_ok b (Nat.min (B * bp) M * k) (s * (B * bp) * k) rest) as (bv & EB & LB & XB).
        { apply le_k. unfold rest. clear - H1 H2. lia. } { rewrite Lb. apply add_k. unfold rest. clear - H1. lia. }
        rewrite EB. cbn [bind]. assert (BT : btile bv (s * (B * bp)) rest) by (split; [unfold rest; lia|split; [exact LB|exact XB]]).
        assert (RM : rest mod B = M mod B). { replace M with (rest + s * bp * B) by (unfold rest; clear - H1; nia). now rewrite Nat.mod_add by lia. }
        pose proof (Nat.div_mod rest B ltac:(lia)) as DR. pose proof (Nat.mod_upper_bound rest B ltac:(lia)) as MR.
        destruct (loop3_ok av d nb bv (s * (B * bp)) rest (rest / B) (M mod B) AT BT ltac:(lia) ltac:(lia) nb 0 (S (length av)) r1 (bump (d * A) (nb * A) (s * (B * bp)) (fun i => if i <? d * A then M else 0)) ltac:(lia)) as (r2 & E2 & S2).
        { rewrite LA, <- Nat.mul_assoc. apply le_mul. clear - HA HK. nia. } { exact S1. } { intros i I. rewrite bump_in; [reflexivity|]. rewrite Nat.add_0_r, Nat.mul_add_distr_r in I. exact I. }
        change (0 * (A * k)) with 0 in E2. rewrite Nat.add_0_r in E2, S2. replace (nb * A * k) with (nb * (A * k)) by ring. exists r2. split; [exact E2|].
        eapply seen_ext; [exact S2|]. intros i I. rewrite bump2. unfold bump. destruct (_ && _); [unfold rest; lia|reflexivity].
      - exists r1. split; [reflexivity|]. eapply seen_ext; [exact S1|]. intros i I. unfold bump. destruct (_ && _); [|reflexivity]. clear - H1 L' HK. nia. }
    destruct X as (r2 & E2 & S2). rewrite E2. cbn [bind]. replace (d * A + nb * A) with ((d + nb) * A) by ring.
    apply IH; [unfold nb; lia|lia|]. eapply seen_ext; [exact S2|]. intros i I. unfold bump.
    destruct (Nat.leb_spec (d * A) i), (Nat.ltb_spec i (d * A + nb * A)), (Nat.ltb_spec i (d * A)), (Nat.ltb_spec i ((d + nb) * A)); cbn [andb]; try reflexivity; nia.
  Qed.
  (** The whole loop. *)
  Lemma tiled_ok bytes l2 l1 : exists r, tiled_reduce o A B bytes l2 l1 a N b M k (repeat (lowest o) N) = Some r /\ length r = N /\ forall i, i < N -> nth_error r i = Some (acc i M).
  Proof.
    unfold tiled_reduce. cbv zeta. rewrite Nat.mod_mul by lia. cbn [Nat.eqb negb]. rewrite (proj2 (Nat.eqb_neq k 0)) by lia.
    destruct (loop1_ok (a_panels (full_reduce (k * bytes) (k * bytes) A B l2 l1)) (b_panels (full_reduce (k * bytes) (k * bytes) A B l2 l1)) ltac:(unfold full_reduce; cbn [a_panels]; lia) ltac:(unfold full_reduce; cbn [b_panels]; lia) (S N) 0 (repeat (lowest o) N)) as (r & E & S1).
    - lia.
    - nia.
    - split; [apply repeat_length|]. intros i I. cbn [Nat.mul Nat.ltb Nat.leb]. unfold acc. cbn [seq map fold_left]. apply nth_error_repeat. exact I.
    - exists r. change (0 * A) with 0 in E. split; [exact E|]. exact S1.
  Qed.
End Tiled.
