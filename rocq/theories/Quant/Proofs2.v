(** Scalar quantization in exact arithmetic. *)
From Coq Require Import Reals ZArith Lra Lia.
From Flocq Require Import Core.Core.
From Verif.Lib Require Import Base Lists.
From Verif.Quant Require Import Model Spec Proofs.
Local Open Scope R_scope.

Lemma rsum_scale k (l : list R) : rsum (map (fun x => k * x) l) = k * rsum l.
Proof. induction l as [|a l IH]; cbn [map rsum]; [ring|]. rewrite IH. ring. Qed.
Lemma rsum_nonneg (l : list R) : (forall x, In x l -> 0 <= x) -> 0 <= rsum l.
Proof. induction l as [|a l IH]; cbn [rsum]; intros H; [lra|]. pose proof (H a (or_introl eq_refl)). assert (0 <= rsum l) by (apply IH; intros; apply H; now right). lra. Qed.
Lemma rdot_cons a x b y : rdot (a :: x) (b :: y) = a * b + rdot x y.
Proof. reflexivity. Qed.
Lemma rl2_cons a x b y : rl2 (a :: x) (b :: y) = (a - b) * (a - b) + rl2 x y.
Proof. reflexivity. Qed.
Lemma map2_cons {A B C} (f : A -> B -> C) a x b y : map2 f (a :: x) (b :: y) = f a b :: map2 f x y.
Proof. reflexivity. Qed.
Lemma rdot_self_nonneg x : 0 <= rdot x x.
Proof. induction x as [|a x IH]; [cbn; unfold rdot; cbn; lra|]. rewrite rdot_cons. pose proof (Rle_0_sqr a). unfold Rsqr in *. lra. Qed.

Lemma int_ip_val x y : val (int_ip x y) = rdot (map val x) (map val y).
Proof.
  unfold int_ip, rdot. rewrite map2_map. unfold map2. induction (combine x y) as [|[a b] l IH]; [reflexivity|].
  cbn [map fold_right rsum fst snd]. now rewrite val_add, val_mul, IH.
Qed.
Lemma int_l2_val x y : val (int_l2 x y) = rl2 (map val x) (map val y).
Proof.
  unfold int_l2, rl2. rewrite map2_map. unfold map2. induction (combine x y) as [|[a b] l IH]; [reflexivity|].
  cbn [map fold_right rsum fst snd]. rewrite val_add, IH. f_equal. unfold val. rewrite Z2N.id by apply Z.square_nonneg.
  now rewrite mult_IZR, minus_IZR.
Qed.

Lemma scalar_l2 n scale shift x y : length x = length shift -> length y = length shift ->
  rl2 (scalar_vector n scale shift x) (scalar_vector n scale shift y) =
  (scale / top n) * (scale / top n) * rl2 (map val x) (map val y).
Proof.
  unfold scalar_vector. revert x y. induction shift as [|s shift IH]; intros [|a x] [|b y] LX LY; try discriminate.
  - unfold rl2, map2. cbn. ring.
  - rewrite !map2_cons. cbn [map]. rewrite !rl2_cons, IH by (cbn in *; lia). unfold scalar_point. ring.
Qed.
Lemma scalar_ip n scale shift x y : length x = length shift -> length y = length shift ->
  rdot (scalar_vector n scale shift x) (scalar_vector n scale shift y) =
  (scale / top n) * (scale / top n) * rdot (map val x) (map val y) +
  compensation n scale shift x + compensation n scale shift y + rdot shift shift.
Proof.
  unfold scalar_vector, compensation. revert x y. induction shift as [|s shift IH]; intros [|a x] [|b y] LX LY; try discriminate.
  - unfold rdot, map2. cbn. ring.
  - rewrite !map2_cons. cbn [map]. rewrite !rdot_cons, IH by (cbn in *; lia). unfold scalar_point. ring.
Qed.

Definition zcode (n : N) (a b x : R) : Z := ZnearestA (rclamp ((x - b) / a) 0 (top n)).

Section exact.
Context {F : Type} (o : ops F) (fin : R -> F) (E : exact o fin).

Lemma sq_code_fin n q scale x s : width n -> 0 < scale -> sq_scale q = fin scale ->
  sq_code o n q (fin x) (fin s) = fin (IZR (zcode n (scale / top n) s x)).
Proof.
  intros W S Q. pose proof (top_pos n W). unfold sq_code. rewrite Q, (bs_fin o fin E), (zero_fin o fin E), (ex_div o fin E), (ex_sub o fin E), (ex_mul o fin E) by lra.
  rewrite (clamp_fin o fin E) by lra. rewrite (ex_round o fin E). unfold zcode. do 4 f_equal. field. split; lra.
Qed.

Lemma sq_compress_fin n scale shift mn xs : width n -> 0 < scale -> length xs = length shift ->
  let codes := map2 (fun x s => Z.to_N (zcode n (scale / top n) s x)) xs shift in
  sq_compress o n (sq_new o (fin scale) (map fin shift) mn) (map fin xs) (length shift) =
    SOk codes (fin (compensation n scale shift codes)).
Proof.
  intros W S L codes. pose proof (top_pos n W) as T. unfold sq_compress. cbn [sq_new sq_shift sq_scale].
  rewrite !map_length, L, Nat.eqb_refl. cbn [negb orb].
  assert (Z : forall x s, (0 <= zcode n (scale / top n) s x < 256)%Z).
  { intros x s. destruct (nearest_grid (Z.leb 0) n (scale / top n) s x W) as (B & _); [apply Rdiv_lt_0_compat; lra|].
    pose proof (pow_ge n W). unfold zcode. lia. }
  assert (K : map2 (sq_code o n (mkSQ (fin scale) (map fin shift) (ipf o (map fin shift) (map fin shift)) mn)) (map fin xs) (map fin shift) =
              map (fun c => fin (val c)) codes).
  { unfold codes. rewrite map_map2, map2_map. apply map2_ext. intros x s _ _. rewrite (sq_code_fin n _ scale) by auto.
    unfold val. rewrite Z2N.id; [reflexivity|]. apply Z. }
  unfold sq_new. rewrite K. rewrite map_map.
  assert (NN : existsb (is_nan o) (map fin xs) = false).
  { clear - E. induction xs as [|x xs IH]; [reflexivity|]. cbn [map existsb]. now rewrite (ex_nan o fin E), IH. }
  rewrite NN.
  assert (C1 : map (fun x => to_u8 o (fin (val x))) codes = codes).
  { rewrite <- (map_id codes) at 2. apply map_ext_in. intros c I. unfold val. rewrite (ex_u8 o fin E), N2Z.id; [reflexivity|].
    unfold codes, map2 in I. apply in_map_iff in I as ([x s] & <- & _). cbn. specialize (Z x s). lia. }
  rewrite C1. f_equal. rewrite (zero_fin o fin E).
  assert (LC : length codes = length shift) by (unfold codes; rewrite map2_length; lia).
  replace (fold_left (fun d p => fma o (fst p) (snd p) d) (combine (map (fun c => fin (val c)) codes) (map fin shift)) (fin 0))
    with (fin (rdot (map val codes) shift)).
  { rewrite (ibs_fin o fin E n W), !(ex_mul o fin E). reflexivity. }
  clear - E LC. clearbody codes. replace (rdot (map val codes) shift) with (0 + rdot (map val codes) shift) by ring.
  generalize 0. revert codes LC. induction shift as [|s shift IH]; intros [|c codes] LC a; try discriminate.
  - unfold rdot, map2. cbn. f_equal. ring.
  - cbn [map combine fold_left fst snd]. rewrite (ex_fma o fin E), <- IH by (cbn in LC; lia). f_equal. rewrite rdot_cons. ring.
Qed.

(** Distances. *)
Context (n : N) (scale : R) (shift : list R) (mn : option F) (W : width n).
Let q := sq_new o (fin scale) (map fin shift) mn.

Lemma sq_l2_fin l2k x y cx cy : length x = length shift -> length y = length shift -> l2k x y = int_l2 x y ->
  sq_l2 o l2k n q (x, cx) (y, cy) = Some (fin (rl2 (scalar_vector n scale shift x) (scalar_vector n scale shift y))).
Proof.
  intros LX LY K. pose proof (top_pos n W). unfold sq_l2. cbn [fst]. rewrite LX, LY, Nat.eqb_refl, K. cbn [negb]. f_equal.
  unfold sq_scale_squared, q. cbn [sq_new sq_scale]. rewrite (ibs_fin o fin E n W), !(ex_mul o fin E), (ex_N o fin E), (ex_mul o fin E).
  f_equal. rewrite int_l2_val, scalar_l2 by assumption. field. lra.
Qed.
Lemma sq_ip_fin ipk x y : length x = length shift -> length y = length shift -> ipk x y = int_ip x y ->
  sq_ip o ipk n q (x, fin (compensation n scale shift x)) (y, fin (compensation n scale shift y)) =
  Some (fin (rdot (scalar_vector n scale shift x) (scalar_vector n scale shift y))).
Proof.
  intros LX LY K. pose proof (top_pos n W). unfold sq_ip. cbn [fst snd]. rewrite LX, LY, Nat.eqb_refl, K. cbn [negb]. f_equal.
  unfold sq_scale_squared, q. cbn [sq_new sq_scale sq_shift_square_norm].
  rewrite (ex_ip o fin E) by reflexivity. rewrite (ibs_fin o fin E n W), !(ex_mul o fin E), (ex_N o fin E), (ex_fma o fin E), !(ex_add o fin E).
  f_equal. rewrite int_ip_val, scalar_ip by assumption. field. lra.
Qed.
End exact.

(** ** Training *)
Section train.
Context {F : Type} (o : ops F) (fin : R -> F) (E : exact o fin).

Lemma rmean_len x : x <> [] -> rlen x <> 0.
Proof. intros H. unfold rlen. destruct x; [contradiction|]. apply not_0_INR. cbn. lia. Qed.

Lemma fold_cols (h : R -> nat -> R) (g : F -> F * nat -> F) (ncols : nat) (rows : list (list R)) :
  (forall a x j, g (fin a) (fin x, j) = fin (a + h x j)) ->
  Forall (fun r => length r = ncols) rows ->
  forall f : nat -> R,
  fold_left (fun ms row => map2 g ms (combine row (seq 0 ncols))) (map (map fin) rows) (map (fun j => fin (f j)) (seq 0 ncols)) =
  map (fun j => fin (f j + rsum (map (fun v => h v j) (column rows j)))) (seq 0 ncols).
Proof.
  intros G. induction rows as [|r rows IH]; intros TB f; cbn [map fold_left column].
  - apply map_ext. intros j. cbn. f_equal. ring.
  - inversion TB as [|? ? LR TB' EQ]. clear EQ H. subst ncols. clear TB.
    assert (S1 : map2 g (map (fun j => fin (f j)) (seq 0 (length r))) (combine (map fin r) (seq 0 (length r))) =
                 map (fun j => fin (f j + h (nth j r 0) j)) (seq 0 (length r))).
    { clear - G. unfold map2.
      assert (K : forall k, map (fun p => g (fst p) (snd p)) (combine (map (fun j => fin (f j)) (seq k (length r))) (combine (map fin r) (seq k (length r)))) =
                            map (fun j => fin (f j + h (nth (j - k) r 0) j)) (seq k (length r))).
      { induction r as [|x r IH]; intros k; cbn [length seq map combine]; [reflexivity|]. cbn [fst snd]. rewrite G, Nat.sub_diag. cbn [nth]. f_equal.
        rewrite IH. apply map_ext_in. intros j I. apply in_seq in I. replace (j - k)%nat with (S (j - S k)) by lia. reflexivity. }
      rewrite K. apply map_ext. intros j. now rewrite Nat.sub_0_r. }
    rewrite S1, (IH TB' (fun j => f j + h (nth j r 0) j)). apply map_ext. intros j. f_equal. cbn [map column rsum]. unfold column. ring.
Qed.

Lemma map2_seq (g : F -> F -> F) ms row k : length row = k -> map2 g ms row = map2 (fun a p => g a (fst p)) ms (combine row (seq 0 k)).
Proof.
  intros <-. unfold map2. generalize 0%nat. revert ms. induction row as [|x row IH]; intros ms k; destruct ms as [|m ms]; cbn; try reflexivity.
  f_equal. apply IH.
Qed.
Lemma repeat_seq (x : F) k : repeat x k = map (fun _ => x) (seq 0 k).
Proof. induction k as [|k IH] in |- *; [reflexivity|]. cbn [repeat seq map]. rewrite <- seq_shift, map_map, <- IH. reflexivity. Qed.

Lemma fold_left_ext_in {A B} (f g : A -> B -> A) l a : (forall s x, In x l -> f s x = g s x) -> fold_left f l a = fold_left g l a.
Proof. revert a. induction l as [|x l IH]; intros a H; [reflexivity|]. cbn. rewrite H by (now left). apply IH. intros; apply H; now right. Qed.

Lemma column_len rows j : rlen (column rows j) = INR (length rows).
Proof. unfold rlen, column. now rewrite map_length. Qed.

Lemma col_means_fin ncols rows : table ncols rows ->
  col_means o ncols (map (map fin) rows) = map fin (map (fun j => rmean (column rows j)) (seq 0 ncols)).
Proof.
  intros [NE TB]. unfold col_means. rewrite map_length, (ex_N o fin E), val_nat.
  rewrite (fold_left_ext_in _ (fun ms row => map2 (fun a p => add o a (fst p)) ms (combine row (seq 0 ncols)))).
  2:{ intros s x I. apply in_map_iff in I as (r & <- & I). rewrite Forall_forall in TB. apply map2_seq. rewrite map_length. auto. }
  rewrite repeat_seq, (zero_fin o fin E).
  rewrite (fold_cols (fun v _ => v) (fun a p => add o a (fst p)) ncols rows) with (f := fun _ => 0); [|intros; cbn; apply (ex_add o fin E)|exact TB].
  rewrite !map_map. apply map_ext. intros j. rewrite (ex_div o fin E) by (rewrite <- (column_len rows j); apply rmean_len; destruct rows; [contradiction|discriminate]).
  unfold rmean. rewrite column_len, map_id. f_equal. now rewrite Rplus_0_l.
Qed.

Lemma variances_fin ncols rows : table ncols rows ->
  variances o ncols (map (map fin) rows) (map fin (map (fun j => rmean (column rows j)) (seq 0 ncols))) =
  map fin (map (fun j => rvar (column rows j)) (seq 0 ncols)).
Proof.
  intros [NE TB]. unfold variances. rewrite map_length, (ex_N o fin E), val_nat.
  set (m := fun j => rmean (column rows j)).
  rewrite (fold_left_ext_in _ (fun ms row => map2 (fun v p => let d := sub o (fst p) (fin (m (snd p))) in add o v (mul o d d)) ms (combine row (seq 0 ncols)))).
  2:{ intros s x I. clear. unfold map2. rewrite map_map.
      assert (C : combine x (map (fun j => fin (m j)) (seq 0 ncols)) = map (fun p => (fst p, fin (m (snd p)))) (combine x (seq 0 ncols))).
      { generalize (seq 0 ncols). induction x as [|a x IH]; intros [|j l]; cbn; [reflexivity..|]. now rewrite IH. }
      rewrite C. generalize (combine x (seq 0 ncols)). induction s as [|a s IH]; intros [|p l]; cbn; [reflexivity..|]. f_equal. apply IH. }
  rewrite repeat_seq, (zero_fin o fin E).
  rewrite (fold_cols (fun v j => (v - m j) * (v - m j)) _ ncols rows) with (f := fun _ => 0).
  2:{ intros a x j. cbn. now rewrite (ex_sub o fin E), (ex_mul o fin E), (ex_add o fin E). }
  2:{ exact TB. }
  rewrite !map_map. apply map_ext. intros j.
  rewrite (ex_div o fin E) by (rewrite <- (column_len rows j); apply rmean_len; destruct rows; [contradiction|discriminate]).
  f_equal. unfold rvar, rmean at 1. unfold rlen at 1. rewrite map_length. change (INR (length (column rows j))) with (rlen (column rows j)).
  rewrite column_len. f_equal. now rewrite Rplus_0_l.
Qed.

Lemma average_norm_fin rows : rows <> [] ->
  average_norm o (map (map fin) rows) = fin (rmean (map (fun r => sqrt (rdot r r)) rows)).
Proof.
  intros NE. unfold average_norm. rewrite map_length, (ex_N o fin E), val_nat, (zero_fin o fin E).
  assert (K : forall a, fold_left (fun acc row => add o acc (root o (sum o (map (fun x => mul o x x) row)))) (map (map fin) rows) (fin a) =
             fin (a + rsum (map (fun r => sqrt (rdot r r)) rows))).
  { clear NE. induction rows as [|r rows IH]; intros a; cbn [map fold_left rsum]; [f_equal; ring|].
    assert (S1 : sum o (map (fun x => mul o x x) (map fin r)) = fin (rdot r r)).
    { rewrite map_map, (map_ext _ (fun x => fin (x * x))) by (intros; apply (ex_mul o fin E)). rewrite <- (map_map (fun x => x * x) fin), (sum_fin o fin E).
      f_equal. unfold rdot, map2. clear. induction r as [|a r IH]; cbn; [reflexivity|]. now rewrite IH. }
    rewrite S1, (ex_root o fin E) by apply rdot_self_nonneg. rewrite (ex_add o fin E), IH. f_equal. ring. }
  rewrite K, (ex_div o fin E).
  - f_equal. unfold rmean, rlen. rewrite map_length. f_equal. ring.
  - destruct rows; [contradiction|]. apply not_0_INR. cbn. lia.
Qed.

Lemma rvar_nonneg x : x <> [] -> 0 <= rvar x.
Proof.
  intros NE. unfold rvar, rmean at 1. apply Rmult_le_pos.
  - apply rsum_nonneg. intros v I. apply in_map_iff in I as (w & <- & _). apply Rle_0_sqr.
  - left. apply Rinv_0_lt_compat. unfold rlen. rewrite map_length. destruct x; [contradiction|]. apply lt_0_INR. cbn. lia.
Qed.

Lemma fold_max (l : list R) (a : R) : 0 <= a -> (forall x, In x l -> 0 <= x) ->
  exists m, fold_left (fmax o) (map fin l) (fin a) = fin m /\ (m = a \/ In m l) /\ a <= m /\ forall x, In x l -> x <= m.
Proof.
  revert a. induction l as [|x l IH]; intros a A H.
  - exists a. cbn. split; [reflexivity|]. split; [now left|]. split; [lra|easy].
  - cbn [map fold_left]. rewrite (ex_max o fin E). pose proof (H x (or_introl eq_refl)) as X.
    destruct (IH (Rmax a x)) as (m & FM & WH & LA & UB).
    { pose proof (Rmax_l a x). lra. } { intros; apply H; now right. }
    exists m. split; [exact FM|]. pose proof (Rmax_l a x). pose proof (Rmax_r a x). split; [|split; [lra|]].
    + destruct WH as [->|I]; [|right; now right]. destruct (Rle_dec a x); [rewrite Rmax_right by lra; right; now left|rewrite Rmax_left by lra; now left].
    + intros y [<-|I]; [lra|auto].
Qed.

Lemma sq_train_fin sd ncols rows : (0 < ncols)%nat -> table ncols rows ->
  exists s, max_std ncols rows s /\
  sq_train o (fin sd) ncols (map (map fin) rows) =
    sq_new o (fin (2 * (sd * s))) (map fin (map (fun j => rmean (column rows j) - sd * s) (seq 0 ncols)))
      (Some (fin (rmean (map (fun r => sqrt (rdot r r)) rows)))).
Proof.
  intros NC TB. unfold sq_train. rewrite (col_means_fin ncols rows TB), (variances_fin ncols rows TB), (average_norm_fin rows (proj1 TB)).
  set (vs := map (fun j => rvar (column rows j)) (seq 0 ncols)).
  assert (V0 : forall x, In x vs -> 0 <= x).
  { intros x I. apply in_map_iff in I as (j & <- & _). apply rvar_nonneg. destruct TB as [NE _]. destruct rows; [contradiction|discriminate]. }
  destruct (fold_max vs 0 (Rle_refl 0) V0) as (m & FM & WH & LA & UB).
  assert (IM : In m vs).
  { destruct WH as [->|I]; [|exact I]. assert (I0 : In (rvar (column rows 0)) vs) by (apply in_map_iff; exists 0%nat; split; [reflexivity|apply in_seq; lia]).
    replace 0 with (rvar (column rows 0)); [exact I0|]. pose proof (UB _ I0). pose proof (V0 _ I0). lra. }
  exists (sqrt m). split.
  - apply in_map_iff in IM as (j & J & I). apply in_seq in I. split; [exists j; split; [lia|now rewrite J]|].
    intros i HI. apply sqrt_le_1; [apply V0| |apply UB]; try (apply in_map_iff; exists i; split; [reflexivity|apply in_seq; lia]). exact LA.
  - rewrite (zero_fin o fin E), FM, (ex_root o fin E) by exact LA. rewrite (two_fin o fin E), !(ex_mul o fin E), !(ex_cast o fin E).
    replace (sqrt m * sd) with (sd * sqrt m) by ring. f_equal. rewrite !map_map. apply map_ext. intros j.
    now rewrite (ex_sub o fin E), (ex_cast o fin E).
Qed.

Lemma rescale_fin x m : rescale o (map fin x) (fin m) =
  map fin (if Req_EM_T (rdot x x) 0 then x else map (fun v => v * (m / sqrt (rdot x x))) x).
Proof.
  unfold rescale. rewrite (ex_ip o fin E) by reflexivity. pose proof (rdot_self_nonneg x) as P. rewrite (ex_root o fin E) by exact P.
  rewrite (zero_fin o fin E). destruct (feq o (fin (sqrt (rdot x x))) (fin 0)) eqn:Q.
  - apply (ex_eq o fin E) in Q. apply sqrt_eq_0 in Q; [|exact P]. destruct (Req_EM_T (rdot x x) 0); [reflexivity|contradiction].
  - assert (N0 : sqrt (rdot x x) <> 0). { intros Z. apply (ex_eq o fin E) in Z. congruence. }
    destruct (Req_EM_T (rdot x x) 0) as [Z|_]; [rewrite Z, sqrt_0 in N0; contradiction|].
    rewrite (ex_div o fin E) by exact N0. rewrite !map_map. apply map_ext. intros v. apply (ex_mul o fin E).
Qed.
End train.
