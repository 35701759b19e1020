(** Min-max quantization in exact arithmetic. *)
From Coq Require Import Reals ZArith Lra Lia.
From Flocq Require Import Core.Core.
From Verif.Lib Require Import Base Lists.
From Verif.Quant Require Import Model Spec Proofs Proofs2.
Local Open Scope R_scope.

Lemma rsum_split m x : rsum (below m x) + rsum (not_below m x) = rsum x.
Proof. unfold below, not_below. induction x as [|a x IH]; cbn [filter rsum]; [ring|]. destruct (rltb a m); cbn [negb rsum]; lra. Qed.
Lemma len_split m x : (length (below m x) + length (not_below m x) = length x)%nat.
Proof. unfold below, not_below. induction x as [|a x IH]; cbn [filter length]; [reflexivity|]. destruct (rltb a m); cbn [negb length]; lia. Qed.
Lemma below_lt m x : below m x <> [] -> rsum (below m x) < m * rlen (below m x).
Proof.
  unfold below, rlen. induction x as [|a x IH]; intros NE; [contradiction|]. cbn [filter] in *. unfold rltb in *.
  destruct (Rlt_dec a m) as [L|L]; [|auto]. cbn [rsum length]. rewrite S_INR.
  destruct (filter (fun v => if Rlt_dec v m then true else false) x) eqn:Fx; [cbn; lra|]. specialize (IH ltac:(discriminate)). cbn [rsum] in *. lra.
Qed.
Lemma not_below_ge m x : m * rlen (not_below m x) <= rsum (not_below m x).
Proof.
  unfold not_below, rlen. induction x as [|a x IH]; [cbn; lra|]. cbn [filter]. unfold rltb in *.
  destruct (Rlt_dec a m) as [L|L]; cbn [negb]; [auto|]. cbn [rsum length]. rewrite S_INR. lra.
Qed.
Lemma rlen_pos x : x <> [] -> 0 < rlen x.
Proof. intros H. unfold rlen. destruct x; [contradiction|]. apply lt_0_INR. cbn. lia. Qed.
Lemma above_nonempty x : x <> [] -> not_below (rmean x) x <> [].
Proof.
  intros NE E0. pose proof (rsum_split (rmean x) x) as S. pose proof (len_split (rmean x) x) as L. rewrite E0 in S, L. cbn [rsum length] in S, L.
  assert (BN : below (rmean x) x <> []). { intros B. rewrite B in L. destruct x; [contradiction|]. cbn in L. lia. }
  pose proof (below_lt _ _ BN) as LT. unfold rlen in LT. replace (length (below (rmean x) x)) with (length x) in LT by lia.
  assert (M : rmean x * INR (length x) = rsum x). { unfold rmean, rlen. field. apply Rgt_not_eq. now apply (rlen_pos x). }
  lra.
Qed.
Lemma mean_le x m : x <> [] -> rsum x < m * rlen x -> rmean x <= m.
Proof. intros NE H. pose proof (rlen_pos x NE). unfold rmean. apply Rmult_le_reg_r with (rlen x); [lra|]. unfold Rdiv. rewrite Rmult_assoc, Rinv_l by lra. lra. Qed.
Lemma mean_ge x m : x <> [] -> m * rlen x <= rsum x -> m <= rmean x.
Proof. intros NE H. pose proof (rlen_pos x NE). unfold rmean. apply Rmult_le_reg_r with (rlen x); [lra|]. unfold Rdiv. rewrite Rmult_assoc, Rinv_l by lra. lra. Qed.

(** The ends are in order. *)
Lemma ends_order n vec lo hi : vec <> [] -> ends n vec lo hi -> lo <= hi.
Proof.
  intros NE. unfold ends. destruct (n =? 1)%N.
  - intros (L & NB & H). pose proof (mean_ge _ _ NB (not_below_ge (rmean vec) vec)) as G. rewrite <- H in G.
    destruct (below (rmean vec) vec) eqn:B; [lra|]. pose proof (mean_le (below (rmean vec) vec) (rmean vec)) as K. rewrite B in K.
    specialize (K ltac:(discriminate)). pose proof (below_lt (rmean vec) vec) as K2. rewrite B in K2. specialize (K (K2 ltac:(discriminate))). lra.
  - intros (I & _ & A). apply A in I. lra.
Qed.

Section exact.
Context {F : Type} (o : ops F) (fin : R -> F) (E : exact o fin).

Lemma range_fold (x : R) (xs : list R) : exists lo hi,
  fold_left (fun acc e => (fmin o (fst acc) e, fmax o (snd acc) e)) (map fin (x :: xs)) (nan o, nan o) = (fin lo, fin hi) /\
  In lo (x :: xs) /\ In hi (x :: xs) /\ forall v, In v (x :: xs) -> lo <= v <= hi.
Proof.
  cbn [map fold_left fst snd]. rewrite (ex_min_nan o fin E), (ex_max_nan o fin E).
  assert (K : forall lo hi, exists lo' hi',
    fold_left (fun acc e => (fmin o (fst acc) e, fmax o (snd acc) e)) (map fin xs) (fin lo, fin hi) = (fin lo', fin hi') /\
    (lo' = lo \/ In lo' xs) /\ (hi' = hi \/ In hi' xs) /\ lo' <= lo /\ hi <= hi' /\ forall v, In v xs -> lo' <= v <= hi').
  { induction xs as [|y xs IH]; intros lo hi.
    - exists lo, hi. cbn. repeat split; auto; lra || easy.
    - cbn [map fold_left fst snd]. rewrite (ex_min o fin E), (ex_max o fin E).
      destruct (IH (Rmin lo y) (Rmax hi y)) as (lo' & hi' & FO & L1 & H1 & L2 & H2 & A). exists lo', hi'. split; [exact FO|].
      pose proof (Rmin_l lo y). pose proof (Rmin_r lo y). pose proof (Rmax_l hi y). pose proof (Rmax_r hi y).
      split. { destruct L1 as [->|I]; [|right; now right]. unfold Rmin. destruct (Rle_dec lo y); [now left|right; now left]. }
      split. { destruct H1 as [->|I]; [|right; now right]. unfold Rmax. destruct (Rle_dec hi y); [right; now left|now left]. }
      split; [lra|]. split; [lra|]. intros v [<-|I]; [lra|auto]. }
  destruct (K x x) as (lo & hi & FO & L1 & H1 & L2 & H2 & A). exists lo, hi. split; [exact FO|].
  split. { destruct L1 as [->|I]; [now left|now right]. } split. { destruct H1 as [->|I]; [now left|now right]. }
  intros v [<-|I]; [lra|auto].
Qed.

Definition one_bit_step (mean : F) (acc : F * F * F * F) (x : F) : F * F * F * F :=
  let '(mn, mnc, mx, mxc) := acc in
  let m := if lt o x mean then one o else zero o in
  (add o mn (mul o m x), add o mnc m, add o mx (mul o (sub o (one o) m) x), add o mxc (sub o (one o) m)).
Lemma one_bit_fold (m : R) (vec : list R) : forall a b c d,
  fold_left (one_bit_step (fin m)) (map fin vec) (fin a, fin b, fin c, fin d) =
  (fin (a + rsum (below m vec)), fin (b + rlen (below m vec)), fin (c + rsum (not_below m vec)), fin (d + rlen (not_below m vec))).
Proof.
  induction vec as [|x vec IH]; intros a b c d.
  - cbn. unfold rlen. cbn. do 3 f_equal; f_equal; ring.
  - assert (ST : one_bit_step (fin m) (fin a, fin b, fin c, fin d) (fin x) =
      let t := if rltb x m then 1 else 0 in (fin (a + t * x), fin (b + t), fin (c + (1 - t) * x), fin (d + (1 - t)))).
    { unfold one_bit_step, rltb. rewrite (lt_spec o fin E), (one_fin o fin E), (zero_fin o fin E).
      destruct (Rlt_dec x m); rewrite !(ex_sub o fin E), !(ex_mul o fin E), !(ex_add o fin E); reflexivity. }
    cbn [map fold_left]. rewrite ST. cbn zeta. rewrite IH. unfold below, not_below, rlen. cbn [filter].
    destruct (rltb x m); cbn [negb rsum length]; rewrite S_INR; (f_equal; [f_equal; [f_equal|]|]); f_equal; ring.
Qed.

Lemma get_range_fin n g vec : vec <> [] -> exists lo hi, ends n vec lo hi /\
  get_range o n (fin g) (map fin vec) = (fin ((lo + hi) / 2 - g * ((hi - lo) / 2)), fin ((lo + hi) / 2 + g * ((hi - lo) / 2))).
Proof.
  intros NE. unfold get_range, ends. cbv zeta. rewrite (two_fin o fin E).
  assert (FIN : forall lo hi, let width := div o (sub o (fin hi) (fin lo)) (fin 2) in let mid := add o (fin lo) width in
     (sub o mid (mul o width (fin g)), add o mid (mul o width (fin g))) =
     (fin ((lo + hi) / 2 - g * ((hi - lo) / 2)), fin ((lo + hi) / 2 + g * ((hi - lo) / 2)))).
  { intros lo hi. cbn zeta. rewrite (ex_sub o fin E), (ex_div o fin E) by lra. rewrite (ex_add o fin E), (ex_mul o fin E), (ex_sub o fin E), (ex_add o fin E).
    f_equal; f_equal; field. }
  destruct (n =? 1)%N.
  - rewrite (sum_fin o fin E), map_length, (ex_N o fin E), val_nat. change (INR (length vec)) with (rlen vec).
    pose proof (rlen_pos vec NE) as LP. rewrite (ex_div o fin E) by lra. change (rsum vec / rlen vec) with (rmean vec).
    change (fold_left _ (map fin vec) (zero o, zero o, zero o, zero o)) with
      (fold_left (one_bit_step (fin (rmean vec))) (map fin vec) (zero o, zero o, zero o, zero o)).
    rewrite (zero_fin o fin E). rewrite one_bit_fold. rewrite !Rplus_0_l.
    pose proof (above_nonempty vec NE) as AN. pose proof (rlen_pos _ AN) as AP.
    rewrite (ex_div o fin E) with (y := rlen (not_below (rmean vec) vec)) by lra.
    fold (rmean (not_below (rmean vec) vec)). rewrite (ex_max o fin E), Rmax_left by (apply mean_ge; [exact AN|apply not_below_ge]).
    destruct (below (rmean vec) vec) eqn:B.
    + exists (rmean vec), (rmean (not_below (rmean vec) vec)). split; [auto|]. cbn [rsum]. change (rlen []) with 0.
      rewrite (ex_div0 o fin E), (ex_min_nan o fin E). apply FIN.
    + assert (BN : below (rmean vec) vec <> []) by (rewrite B; discriminate). rewrite <- B in *. pose proof (rlen_pos _ BN) as BP.
      exists (rmean (below (rmean vec) vec)), (rmean (not_below (rmean vec) vec)). split; [auto|].
      rewrite (ex_div o fin E) by lra. fold (rmean (below (rmean vec) vec)). rewrite (ex_min o fin E), Rmin_left by (apply mean_le; [exact BN|now apply below_lt]).
      apply FIN.
  - destruct vec as [|x xs]; [contradiction|]. destruct (range_fold x xs) as (lo & hi & FO & K). exists lo, hi. split; [exact K|]. rewrite FO. apply FIN.
Qed.

Lemma minmax_nth a b codes : minmax_vector a b codes = map (fun c => b + a * val c) codes.
Proof. reflexivity. Qed.

Lemma fold_fin_val (g : F -> N -> F) (h : N -> R) codes :
  (forall s c, g (fin s) c = fin (s + h c)) -> fold_left g codes (fin 0) = fin (rsum (map h codes)).
Proof. intros H. rewrite (fold_fin fin g h) by (intros; apply H). f_equal. ring. Qed.
Lemma fold_left_map_l {A B C} (f : A -> B -> A) (g : C -> B) l a : fold_left f (map g l) a = fold_left (fun s x => f s (g x)) l a.
Proof. revert a. induction l as [|x l IH]; intros a; [reflexivity|]. cbn. apply IH. Qed.
Lemma rdot_map {A} (h : A -> R) (l : list A) : rdot (map h l) (map h l) = rsum (map (fun c => h c * h c) l).
Proof. unfold rdot, map2. induction l as [|a l IH]; cbn; [reflexivity|]. now rewrite IH. Qed.

Lemma mm_compress_fin tr idim odim n g from vec : width n -> 0 < g -> vec <> [] ->
  length from = idim -> tr from = map fin vec -> length vec = odim ->
  exists lo hi, ends n vec lo hi /\
  let b := (lo + hi) / 2 - g * ((hi - lo) / 2) in
  let a := Rmax (g * (hi - lo)) (/ 100000000) / top n in
  let codes := map (fun v => Z.to_N (zcode n a b v)) vec in
  mm_compress o tr idim odim n (fin g) from odim = MOk (codes, meta_of fin a b codes) (fin (rl2 (minmax_vector a b codes) vec)).
Proof.
  intros W G NE LF TR LV. destruct (get_range_fin n g vec NE) as (lo & hi & EN & GR). exists lo, hi. split; [exact EN|].
  intros b a codes. pose proof (top_pos n W) as T. pose proof (ends_order n vec lo hi NE EN) as OR.
  unfold mm_compress. rewrite LF, !Nat.eqb_refl. cbn [negb orb]. rewrite TR, GR. fold b.
  assert (IS : div o (fmax o (sub o (fin ((lo + hi) / 2 + g * ((hi - lo) / 2))) (fin b)) (tiny o)) (bit_scale o n) = fin a).
  { rewrite (ex_sub o fin E), (ex_tiny o fin E), (ex_max o fin E), (bs_fin o fin E), (ex_div o fin E) by lra. f_equal. unfold a. do 2 f_equal. unfold b. field. }
  rewrite IS. assert (A : 0 < a). { unfold a. apply Rdiv_lt_0_compat; [|lra]. pose proof (Rmax_r (g * (hi - lo)) (/ 100000000)). lra. }
  assert (Z : forall v, (0 <= zcode n a b v < 256)%Z).
  { intros v. destruct (nearest_grid (Z.leb 0) n a b v W A) as (B & _). pose proof (pow_ge n W). unfold zcode. lia. }
  assert (K : map (mm_code o n (fin b) (fin a)) (map fin vec) = map (fun c => fin (val c)) codes).
  { unfold codes. rewrite !map_map. apply map_ext. intros v. unfold mm_code.
    rewrite (ex_sub o fin E), (ex_div o fin E), (zero_fin o fin E), (bs_fin o fin E), (clamp_fin o fin E), (ex_round o fin E) by lra.
    unfold val. rewrite Z2N.id by apply Z. reflexivity. }
  rewrite K.
  assert (NN : existsb (is_nan o) (map fin vec) = false).
  { clear - E. induction vec as [|x xs IH]; [reflexivity|]. cbn [map existsb]. now rewrite (ex_nan o fin E), IH. }
  rewrite NN. rewrite map_map.
  assert (C1 : map (fun x => to_u8 o (fin (val x))) codes = codes).
  { rewrite <- (map_id codes) at 2. apply map_ext_in. intros c I. unfold val. rewrite (ex_u8 o fin E), N2Z.id; [reflexivity|].
    unfold codes in I. apply in_map_iff in I as (v & <- & _). specialize (Z v). lia. }
  rewrite C1. rewrite !(zero_fin o fin E).
  assert (S1 : fold_left (add o) (map (fun c => fin (val c)) codes) (fin 0) = fin (rsum (map val codes))).
  { rewrite fold_left_map_l. apply fold_fin_val. intros. apply (ex_add o fin E). }
  assert (S2 : fold_left (fun s c => let v_r := add o (mul o c (fin a)) (fin b) in add o s (mul o v_r v_r)) (map (fun c => fin (val c)) codes) (fin 0) =
               fin (rdot (minmax_vector a b codes) (minmax_vector a b codes))).
  { rewrite fold_left_map_l, minmax_nth, rdot_map. apply fold_fin_val. intros s c. cbn zeta.
    rewrite (ex_mul o fin E), (ex_add o fin E), (ex_mul o fin E), (ex_add o fin E). f_equal. ring. }
  assert (S3 : fold_left (fun s p => let d := sub o (add o (mul o (fst p) (fin a)) (fin b)) (snd p) in add o s (mul o d d))
                 (combine (map (fun c => fin (val c)) codes) (map fin vec)) (fin 0) = fin (rl2 (minmax_vector a b codes) vec)).
  { assert (LC : length codes = length vec) by (unfold codes; now rewrite map_length). clear - E LC. clearbody codes.
    replace (rl2 (minmax_vector a b codes) vec) with (0 + rl2 (minmax_vector a b codes) vec) by ring. generalize 0. revert vec LC.
    induction codes as [|c codes IH]; intros [|v vec] LC s; try discriminate; [unfold rl2, map2; cbn; f_equal; ring|].
    cbn [map combine fold_left fst snd]. rewrite (ex_mul o fin E), (ex_add o fin E), (ex_sub o fin E), (ex_mul o fin E), (ex_add o fin E).
    rewrite IH by (cbn in LC; lia). f_equal. cbn [minmax_vector map]. unfold minmax_vector. cbn [map]. rewrite rl2_cons. ring. }
  cbv zeta in S2, S3 |- *. rewrite S1, S2, S3, (ex_mul o fin E), (lt_spec o fin E).
  assert (L0 : 0 <= rl2 (minmax_vector a b codes) vec).
  { unfold rl2. apply rsum_nonneg. intros x I. unfold map2 in I. apply in_map_iff in I as ([u v] & <- & _). apply Rle_0_sqr. }
  f_equal.
  - f_equal. unfold meta_of. f_equal. unfold codes. rewrite map_length, LV. reflexivity.
  - destruct (Rlt_dec 0 (rl2 (minmax_vector a b codes) vec)); [reflexivity|]. f_equal. lra.
Qed.

(** Distances. *)
Lemma minmax_ip a b a' b' x y : length x = length y ->
  rdot (minmax_vector a b x) (minmax_vector a' b' y) =
  a * a' * rdot (map val x) (map val y) + a * rsum (map val x) * b' + a' * rsum (map val y) * b + b * b' * INR (length x).
Proof.
  unfold minmax_vector. revert y. induction x as [|c x IH]; intros [|d y] L; try discriminate; [unfold rdot, map2; cbn; ring|].
  cbn [map length rsum]. rewrite !rdot_cons, S_INR, IH by (cbn in L; lia). ring.
Qed.
Lemma rl2_dot x y : length x = length y -> rl2 x y = rdot x x + rdot y y - 2 * rdot x y.
Proof.
  revert y. induction x as [|c x IH]; intros [|d y] L; try discriminate; [unfold rl2, rdot, map2; cbn; ring|].
  rewrite rl2_cons, !rdot_cons, IH by (cbn in L; lia). ring.
Qed.
Lemma minmax_length a b x : length (minmax_vector a b x) = length x.
Proof. apply map_length. Qed.

Lemma mm_ip_fin ipk a b a' b' x y : length x = length y -> ipk x y = int_ip x y ->
  mm_ip o ipk (x, meta_of fin a b x) (y, meta_of fin a' b' y) = Some (fin (rdot (minmax_vector a b x) (minmax_vector a' b' y))).
Proof.
  intros L K. unfold mm_ip. cbn [fst snd meta_of m_a m_b m_n]. rewrite L, Nat.eqb_refl, K. cbn [negb]. f_equal.
  rewrite !(ex_N o fin E), !(ex_mul o fin E), !(ex_add o fin E). f_equal. rewrite int_ip_val, val_nat, minmax_ip, L by exact L. reflexivity.
Qed.
Lemma query_ip a b f y : length f = length y ->
  rdot f (minmax_vector a b y) = rdot f (map val y) * a + rsum f * b.
Proof.
  unfold minmax_vector. revert y. induction f as [|v f IH]; intros [|d y] L; try discriminate; [unfold rdot, map2; cbn; ring|].
  cbn [map rsum]. rewrite !rdot_cons, IH by (cbn in L; lia). ring.
Qed.
Lemma fq_ip_fin fk a b f y : length f = length y -> fk (map fin f) y = fin (rdot f (map val y)) ->
  fq_ip o fk (query_of fin f) (y, meta_of fin a b y) = Some (fin (rdot f (minmax_vector a b y))).
Proof.
  intros L K. unfold fq_ip. cbn [fst snd meta_of query_of m_a m_b f_vec f_sum]. rewrite map_length, L, Nat.eqb_refl, K. cbn [negb]. f_equal.
  rewrite !(ex_mul o fin E), (ex_add o fin E). f_equal. now rewrite query_ip.
Qed.
Lemma fq_compress_fin tr idim odim from vec : existsb (is_nan o) from = false -> length from = idim -> tr from = map fin vec ->
  fq_compress o tr idim odim from odim = FOk (query_of fin vec).
Proof.
  intros NN L TR. unfold fq_compress. rewrite L, !Nat.eqb_refl, NN, TR. cbn [negb orb]. 
  assert (SQ : map (fun x => mul o x x) (map fin vec) = map fin (map (fun x => x * x) vec)).
  { rewrite !map_map. apply map_ext. intros x. apply (ex_mul o fin E). }
  rewrite SQ, !(sum_fin o fin E).
  unfold query_of. do 3 f_equal. pose proof (rdot_map (fun x : R => x) vec) as K. rewrite map_id in K. now rewrite K.
Qed.

(** Recompression. *)
Definition recode (n m : N) (g : R) (c : N) : N :=
  Z.to_N (ZnearestE (rclamp ((val c - top n * (1 - g) / 2) * (top m / (top n * g))) 0 (top m))).
Lemma recompress_fin n m g a b codes : width n -> width m -> 0 < g -> 0 < a ->
  let a' := a * (g * top n) / top m in
  let b' := b + a * (top n * (1 - g) / 2) in
  let codes' := map (recode n m g) codes in
  recompress o n m (fin g) (codes, meta_of fin a b codes) (length codes) = Some (codes', meta_of fin a' b' codes') /\
  forall c, nearest m (fun c' => b' + a' * val c') (b + a * val c) (recode n m g c).
Proof.
  intros WN WM G A a' b' codes'. pose proof (top_pos n WN) as TN. pose proof (top_pos m WM) as TM.
  assert (GN : 0 < top n * g) by (apply Rmult_lt_0_compat; lra).
  assert (A' : 0 < a'). { unfold a'. apply Rdiv_lt_0_compat; [|lra]. apply Rmult_lt_0_compat; [exact A|lra]. }
  assert (Y : forall c, (val c - top n * (1 - g) / 2) * (top m / (top n * g)) = (b + a * val c - b') / a').
  { intros c. unfold a', b'. field. repeat split; lra. }
  assert (NG : forall c, let z := ZnearestE (rclamp ((val c - top n * (1 - g) / 2) * (top m / (top n * g))) 0 (top m)) in
     (0 <= z < Z.of_N (2 ^ m))%Z /\ nearest m (fun c' => b' + a' * val c') (b + a * val c) (Z.to_N z)).
  { intros c. rewrite Y. apply (nearest_grid (fun x => negb (Z.even x)) m a' b'); assumption. }
  split; [|intros c; apply (NG c)].
  unfold recompress. cbn [fst snd meta_of m_a m_b]. rewrite Nat.eqb_refl. cbn [negb].
  rewrite !(bs_fin o fin E), (one_fin o fin E), (ex_half o fin E), (ex_sub o fin E), !(ex_mul o fin E), !(ex_div o fin E) by (try lra; apply Rgt_not_eq, Rdiv_lt_0_compat; lra).
  rewrite (ex_add o fin E), !(zero_fin o fin E).
  assert (C : map (fun c => to_u8 o (clamp o (round_even o (mul o (sub o (of_N o c) (fin (top n * (1 - g) * / 2))) (fin (top m / (top n * g))))) (fin 0) (fin (top m)))) codes = codes').
  { unfold codes'. apply map_ext. intros c. rewrite (ex_N o fin E), (ex_sub o fin E), (ex_mul o fin E), (ex_even o fin E), (clamp_fin o fin E) by lra.
    change (top n * (1 - g) * / 2) with (top n * (1 - g) / 2).
    destruct (NG c) as (B & _). pose proof (pow_ge m WM). revert B. unfold recode. rewrite (top_z m WM). intros B. rewrite (clamp_round (fun x => negb (Z.even x))) by lia.
    apply (ex_u8 o fin E). lia. }
  rewrite C. replace (a / (top m / (top n * g))) with a' by (unfold a'; field; repeat split; lra).
  replace (b + a * (top n * (1 - g) * / 2)) with b' by reflexivity.
  assert (S1 : fold_left (fun s c => add o s (of_N o c)) codes' (fin 0) = fin (rsum (map val codes'))).
  { apply fold_fin_val. intros. rewrite (ex_N o fin E). apply (ex_add o fin E). }
  assert (S2 : fold_left (fun s c => let v := add o (mul o (of_N o c) (fin a')) (fin b') in add o s (mul o v v)) codes' (fin 0) =
               fin (rdot (minmax_vector a' b' codes') (minmax_vector a' b' codes'))).
  { rewrite minmax_nth, rdot_map. apply fold_fin_val. intros s c. cbn zeta. rewrite (ex_N o fin E), (ex_mul o fin E), (ex_add o fin E), (ex_mul o fin E), (ex_add o fin E). f_equal. ring. }
  cbv zeta in S2 |- *. rewrite S1, S2, (ex_mul o fin E). unfold meta_of. do 3 f_equal. unfold codes'. now rewrite map_length.
Qed.
End exact.
