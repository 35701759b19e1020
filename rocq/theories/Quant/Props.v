(** Properties of scalar and min-max quantization: C85, C86, C87, C88, C89. *)
From Coq Require Import Reals ZArith Lra Lia.
From Flocq Require Import Core.Core.
From Verif.Lib Require Import Base Lists.
From Verif.Quant Require Import Model Spec Proofs Proofs2 Proofs3.
Local Open Scope R_scope.

Lemma map2_nth_d {A B C} (f : A -> B -> C) x y i dx dy d : (i < length x)%nat -> (i < length y)%nat ->
  nth i (map2 f x y) d = f (nth i x dx) (nth i y dy).
Proof.
  revert x y. induction i as [|i IH]; intros [|a x] [|b y] LX LY; cbn in LX, LY; try lia; [reflexivity|].
  rewrite map2_cons. cbn [nth]. apply IH; lia.
Qed.

(** ** C85: scalar compression.
    In exact arithmetic every stored code is a nearest one, the compensation is the one of the stored
    codes, and a coordinate inside the range of the quantizer is off by at most half a step. *)
Theorem C85_compress :
  forall F (o : ops F) fin n scale shift mn xs, exact o fin -> width n -> 0 < scale -> length xs = length shift ->
  exists codes, sq_compress o n (sq_new o (fin scale) (map fin shift) mn) (map fin xs) (length shift) =
                  SOk codes (fin (compensation n scale shift codes)) /\
  length codes = length xs /\
  forall i, (i < length xs)%nat ->
    let x := nth i xs 0 in let s := nth i shift 0 in let c := nth i codes 0%N in
    nearest n (scalar_point n scale s) x c /\
    (s <= x <= s + scale -> Rabs (x - scalar_point n scale s c) <= scale / top n / 2).
Proof.
  intros F o fin n scale shift mn xs E W S L. eexists. split; [now apply (sq_compress_fin o fin E)|].
  split; [rewrite map2_length by lia; lia|]. intros i I x s c. pose proof (top_pos n W) as T.
  assert (A : 0 < scale / top n) by (apply Rdiv_lt_0_compat; lra).
  assert (C : c = Z.to_N (zcode n (scale / top n) s x)).
  { unfold c. rewrite (map2_nth_d _ _ _ i 0 0 0%N) by lia. reflexivity. }
  destruct (nearest_grid (Z.leb 0) n (scale / top n) s x W A) as (B & NO & NB). fold (zcode n (scale / top n) s x) in B, NO, NB. rewrite <- C in NO, NB.
  split.
  - split; [exact NO|]. intros c' C'. specialize (NB c' C'). unfold scalar_point. rewrite !(Rmult_comm (val _)). exact NB.
  - intros RG. pose proof (grid_error (Z.leb 0) n (scale / top n) s x W A) as G. fold (zcode n (scale / top n) s x) in G.
    replace (scale / top n * top n) with scale in G by (field; lra). specialize (G RG). unfold scalar_point. rewrite C. unfold val.
    rewrite Z2N.id by lia. rewrite (Rmult_comm (IZR _)). exact G.
Qed.
Print Assumptions C85_compress.

(** Compressing the vector that some codes stand for gives those codes back. *)
Theorem C85_round_trip :
  forall F (o : ops F) fin n scale shift mn codes, exact o fin -> width n -> 0 < scale -> length codes = length shift ->
  Forall (code_ok n) codes ->
  sq_compress o n (sq_new o (fin scale) (map fin shift) mn) (map fin (scalar_vector n scale shift codes)) (length shift) =
    SOk codes (fin (compensation n scale shift codes)).
Proof.
  intros F o fin n scale shift mn codes E W S L OK. pose proof (top_pos n W) as T.
  assert (LV : length (scalar_vector n scale shift codes) = length shift) by (unfold scalar_vector; rewrite map2_length by lia; lia).
  pose proof (sq_compress_fin o fin E n scale shift mn (scalar_vector n scale shift codes) W S LV) as K. cbn zeta in K. rewrite K. clear K.
  assert (C : map2 (fun x s => Z.to_N (zcode n (scale / top n) s x)) (scalar_vector n scale shift codes) shift = codes).
  { clear LV. revert codes L OK. induction shift as [|s shift IH]; intros [|c codes] L OK; try discriminate; [reflexivity|].
    inversion_clear OK as [|? ? C OK']. unfold scalar_vector in *. rewrite !map2_cons. f_equal; [|apply IH; [cbn in L; lia|exact OK']].
    unfold zcode, scalar_point. replace ((s + val c * (scale / top n) - s) / (scale / top n)) with (val c) by (field; lra).
    assert (V : 0 <= val c <= top n). { unfold code_ok in C. unfold top, val. split; [apply (IZR_le 0); lia|apply IZR_le; lia]. }
    unfold rclamp. rewrite Rmax_left, Rmin_right by lra. unfold val.
    rewrite (Znearest_imp _ _ (Z.of_N c)) by (rewrite Rminus_diag_eq, Rabs_R0 by reflexivity; lra). apply N2Z.id. }
  now rewrite C.
Qed.
Print Assumptions C85_round_trip.

(** In any arithmetic: compression refuses exactly the wrong lengths, reports exactly the inputs
    with a NaN, and otherwise succeeds. *)
Theorem C85_rejects : forall F (o : ops F) n q from into,
  (sq_compress o n q from into = SPanic <-> length from <> length (sq_shift q) \/ into <> length (sq_shift q)) /\
  ((exists codes comp, sq_compress o n q from into = SNaN codes comp) <->
     (length from = length (sq_shift q) /\ into = length (sq_shift q) /\ exists x, In x from /\ is_nan o x = true)) /\
  forall codes comp, sq_compress o n q from into = SNaN codes comp \/ sq_compress o n q from into = SOk codes comp -> length codes = into.
Proof.
  intros F o n q from into. unfold sq_compress.
  destruct (Nat.eqb_spec (length from) (length (sq_shift q))) as [L|L]; cbn [negb orb].
  2:{ split; [split; auto|]. split; [|intros ? ? [H|H]; discriminate]. split; [intros (? & ? & H); discriminate|intros (? & _); contradiction]. }
  destruct (Nat.eqb_spec into (length (sq_shift q))) as [I|I]; cbn [negb orb].
  2:{ split; [split; auto|]. split; [|intros ? ? [H|H]; discriminate]. split; [intros (? & ? & H); discriminate|intros (_ & ? & _); contradiction]. }
  destruct (existsb (is_nan o) from) eqn:X.
  - split; [split; [discriminate|intros [H|H]; contradiction]|]. split.
    + apply existsb_exists in X. split; [intros _; repeat split; assumption|intros _; eexists _, _; reflexivity].
    + intros codes comp [H|H]; [|discriminate]. injection H as <- _. rewrite map_length, map2_length by lia. lia.
  - split; [split; [discriminate|intros [H|H]; contradiction]|]. split.
    + split; [intros (? & ? & H); discriminate|]. intros (_ & _ & x & IX & NX). assert (existsb (is_nan o) from = true) by (apply existsb_exists; eauto). congruence.
    + intros codes comp [H|H]; [discriminate|]. injection H as <- _. rewrite map_length, map2_length by lia. lia.
Qed.
Print Assumptions C85_rejects.

Lemma ext_code_fits n (x : ext) : width n -> (eu8 (emap (fun x => IZR (ZnearestA x)) (clamp ext_ops x (zero ext_ops) (bit_scale ext_ops n))) < 2 ^ n)%N.
Proof.
  intros W. pose proof (top_pos n W) as T. pose proof (pow_ge n W) as P.
  assert (B : forall y, 0 <= y <= top n -> (eu8 (Fin (IZR (ZnearestA y))) < 2 ^ n)%N).
  { intros y Y. cbn [eu8]. rewrite Ztrunc_IZR. rewrite (top_z n W) in Y.
    pose proof (nearest_int (Z.leb 0) y (Z.of_N (2 ^ n) - 1) 0) as K. specialize (K ltac:(lia) ltac:(lia)).
    unfold rclamp in K. rewrite Rmax_left, Rmin_right in K by lra. destruct K as (K & _). lia. }
  rewrite (bs_fin ext_ops Fin ext_exact), (zero_fin ext_ops Fin ext_exact).
  destruct x as [x| | |].
  - rewrite (clamp_fin ext_ops Fin ext_exact) by lra. cbn [emap]. apply B. unfold rclamp.
    split; [apply Rmin_glb; [lra|apply Rmax_r]|apply Rmin_l].
  - unfold clamp. cbn [lt ext_ops elt emap]. apply B. lra.
  - unfold clamp. cbn [lt ext_ops elt emap]. unfold rltb. destruct (Rlt_dec (top n) 0); [lra|]. apply B. lra.
  - unfold clamp. cbn [lt ext_ops elt emap eu8]. lia.
Qed.

(** With the IEEE special values: whatever the parameters of the quantizer and the input, infinities
    and NaN included, every code written fits its bits. *)
Theorem C85_codes_fit : forall n (q : scalar_q) from into codes comp, width n ->
  sq_compress ext_ops n q from into = SNaN codes comp \/ sq_compress ext_ops n q from into = SOk codes comp -> Forall (code_ok n) codes.
Proof.
  intros n q from into codes comp W H. unfold sq_compress in H. destruct (_ || _)%bool; [destruct H; discriminate|].
  assert (K : codes = map (to_u8 ext_ops) (map2 (sq_code ext_ops n q) from (sq_shift q))).
  { destruct (existsb _ _); destruct H as [H|H]; try discriminate; injection H as <- _; reflexivity. }
  subst codes. clear H. apply Forall_forall. intros c I. apply in_map_iff in I as (v & <- & I). unfold map2 in I. apply in_map_iff in I as ([x s] & <- & _).
  now apply ext_code_fits.
Qed.
Print Assumptions C85_codes_fit.

Example C85_satisfiable : exact ext_ops Fin /\ width 8 /\ 0 < 2 /\ length [1; 2] = length [0; 1] /\ Forall (code_ok 8) [3; 255]%N.
Proof. split; [apply ext_exact|]. unfold width. repeat split; try lia; try lra. repeat constructor. Qed.

(** ** C86: distances between scalar codes, training and rescaling.
    In exact arithmetic, with integer kernels that are right on the two code vectors: the compensated
    distances are those of the vectors that the codes stand for. *)
Theorem C86_distances :
  forall F (o : ops F) fin n scale shift mn x y l2k ipk, exact o fin -> width n ->
  length x = length shift -> length y = length shift -> l2k x y = int_l2 x y -> ipk x y = int_ip x y ->
  let q := sq_new o (fin scale) (map fin shift) mn in
  let u := scalar_vector n scale shift x in let v := scalar_vector n scale shift y in
  let cx := (x, fin (compensation n scale shift x)) in let cy := (y, fin (compensation n scale shift y)) in
  sq_l2 o l2k n q cx cy = Some (fin (rl2 u v)) /\
  sq_ip o ipk n q cx cy = Some (fin (rdot u v)) /\
  sq_ip_score o ipk n q cx cy = Some (fin (- rdot u v)) /\
  sq_cos o l2k n q cx cy = Some (fin (1 - rl2 u v / 2)) /\
  sq_cos_score o l2k n q cx cy = Some (fin (rl2 u v / 2)) /\
  (rdot u u = 1 -> rdot v v = 1 -> sq_cos o l2k n q cx cy = Some (fin (rdot u v))).
Proof.
  intros F o fin n scale shift mn x y l2k ipk E W LX LY K1 K2 q u v cx cy.
  assert (H1 : sq_l2 o l2k n q cx cy = Some (fin (rl2 u v))) by (now apply sq_l2_fin).
  assert (H2 : sq_ip o ipk n q cx cy = Some (fin (rdot u v))) by (now apply sq_ip_fin).
  assert (H3 : sq_cos o l2k n q cx cy = Some (fin (1 - rl2 u v / 2))).
  { unfold sq_cos. rewrite H1. cbn [option_map]. rewrite (one_fin o fin E), (two_fin o fin E), (ex_div o fin E), (ex_sub o fin E) by lra. reflexivity. }
  split; [exact H1|]. split; [exact H2|]. split. { unfold sq_ip_score. rewrite H2. cbn [option_map]. now rewrite (ex_neg o fin E). }
  split; [exact H3|]. split.
  - unfold sq_cos_score. rewrite H3. cbn [option_map]. rewrite (one_fin o fin E), (ex_sub o fin E). do 2 f_equal. ring.
  - intros U V. rewrite H3. do 2 f_equal. rewrite rl2_dot, U, V; [field|]. unfold u, v, scalar_vector. rewrite !map2_length by lia. lia.
Qed.
Print Assumptions C86_distances.

(** In any arithmetic: the distances refuse exactly vectors of unequal lengths. *)
Theorem C86_lengths : forall F (o : ops F) k n q x y,
  (sq_l2 o k n q x y = None <-> length (fst x) <> length (fst y)) /\
  (sq_ip o k n q x y = None <-> length (fst x) <> length (fst y)) /\
  (sq_cos o k n q x y = None <-> length (fst x) <> length (fst y)).
Proof.
  intros F o k n q x y. unfold sq_cos, sq_l2, sq_ip. destruct (Nat.eqb_spec (length (fst x)) (length (fst y))); cbn [negb option_map]; repeat split; intros; try discriminate; try contradiction; reflexivity || assumption.
Qed.
Print Assumptions C86_lengths.

(** Training: the scale spans [2 sd s] for the largest standard deviation [s] of a column, centred on
    the mean of each column; the mean norm is the average length of the rows.  If [s] is not zero, a
    vector within [sd s] of the means is compressed with an error of at most half a step. *)
Theorem C86_train :
  forall F (o : ops F) fin sd ncols rows, exact o fin -> (0 < ncols)%nat -> table ncols rows -> 0 < sd ->
  exists s, max_std ncols rows s /\
  let means := map (fun j => rmean (column rows j)) (seq 0 ncols) in
  let shift := map (fun m => m - sd * s) means in
  let q := sq_train o (fin sd) ncols (map (map fin) rows) in
  q = sq_new o (fin (2 * (sd * s))) (map fin shift) (Some (fin (rmean (map (fun r => sqrt (rdot r r)) rows)))) /\
  forall n xs, width n -> 0 < s -> length xs = ncols -> (forall j, (j < ncols)%nat -> Rabs (nth j xs 0 - nth j means 0) <= sd * s) ->
  exists codes comp, sq_compress o n q (map fin xs) ncols = SOk codes comp /\
  forall j, (j < ncols)%nat -> Rabs (nth j xs 0 - nth j (scalar_vector n (2 * (sd * s)) shift codes) 0) <= sd * s / top n.
Proof.
  intros F o fin sd ncols rows E NC TB SD. destruct (sq_train_fin o fin E sd ncols rows NC TB) as (s & MS & Q).
  exists s. split; [exact MS|]. intros means shift q.
  assert (SH : shift = map (fun j => rmean (column rows j) - sd * s) (seq 0 ncols)) by (unfold shift, means; now rewrite map_map).
  unfold q. rewrite Q, SH. split; [reflexivity|]. rewrite <- SH. clear Q. intros n xs W S LX NE. pose proof (top_pos n W) as T.
  assert (LS : length shift = ncols) by (unfold shift, means; now rewrite !map_length, seq_length).
  assert (SC : 0 < 2 * (sd * s)). { pose proof (Rmult_lt_0_compat _ _ SD S). lra. }
  destruct (C85_compress F o fin n (2 * (sd * s)) shift (Some (fin (rmean (map (fun r => sqrt (rdot r r)) rows)))) xs E W SC ltac:(lia)) as (codes & C & LC & K).
  exists codes, (fin (compensation n (2 * (sd * s)) shift codes)). rewrite LS in C. split; [exact C|]. intros j J.
  destruct (K j ltac:(lia)) as (_ & G).
  assert (NS : nth j shift 0 = nth j means 0 - sd * s).
  { unfold shift. transitivity (nth j (map (fun m => m - sd * s) means) (0 - sd * s)); [apply nth_indep; fold shift; lia|]. now rewrite (map_nth (fun m => m - sd * s)). }
  specialize (NE j J). apply Rabs_le_inv in NE. specialize (G ltac:(rewrite NS; lra)).
  unfold scalar_vector. rewrite (map2_nth_d _ _ _ j 0 0%N 0) by lia.
  replace (sd * s / top n) with (2 * (sd * s) / top n / 2) by (field; lra). exact G.
Qed.
Print Assumptions C86_train.

(** Rescaling a query gives it the mean norm and keeps its direction; the zero vector stays. *)
Theorem C86_rescale :
  forall F (o : ops F) fin scale shift m x, exact o fin ->
  sq_rescale o (sq_new o scale shift None) (map fin x) = None /\
  (rdot x x = 0 -> sq_rescale o (sq_new o scale shift (Some (fin m))) (map fin x) = Some (map fin x)) /\
  (rdot x x <> 0 -> exists k, sq_rescale o (sq_new o scale shift (Some (fin m))) (map fin x) = Some (map fin (map (fun v => v * k) x)) /\
     rdot (map (fun v => v * k) x) (map (fun v => v * k) x) = m * m /\ (0 <= m -> 0 <= k)).
Proof.
  intros F o fin scale shift m x E. split; [reflexivity|]. unfold sq_rescale. cbn [sq_new sq_mean_norm]. rewrite (rescale_fin o fin E).
  pose proof (rdot_self_nonneg x) as P.
  split; intros Z; destruct (Req_EM_T (rdot x x) 0) as [Z'|Z']; try contradiction; [reflexivity|].
  assert (R : 0 < sqrt (rdot x x)) by (apply sqrt_lt_R0; lra).
  exists (m / sqrt (rdot x x)). split; [reflexivity|]. split.
  - assert (SC : forall k y, rdot (map (fun v => v * k) y) (map (fun v => v * k) y) = k * k * rdot y y).
    { intros k. induction y as [|a y IH]; [unfold rdot, map2; cbn; ring|]. cbn [map]. rewrite !rdot_cons, IH. ring. }
    rewrite SC. rewrite <- (sqrt_sqrt (rdot x x) P) at 3. field. lra.
  - intros M. apply Rmult_le_pos; [exact M|]. left. now apply Rinv_0_lt_compat.
Qed.
Print Assumptions C86_rescale.

(** Not guaranteed: data whose columns are constant trains without an error, to a quantizer whose
    scale is zero; compressing one of its own rows then succeeds with a compensation that is not a
    number, and the inner product of the row with itself is not a number. *)
Theorem C86_constant_data_refuted : exists rows q codes comp,
  table 1 rows /\
  sq_train ext_ops (Fin 2) 1 (map (map Fin) rows) = q /\ sq_scale q = Fin 0 /\
  sq_compress ext_ops 8 q [Fin 1] 1 = SOk codes comp /\ comp = NaN /\
  sq_ip ext_ops int_ip 8 q (codes, comp) (codes, comp) = Some NaN.
Proof.
  exists [[1]; [1]]. destruct (sq_train_fin ext_ops Fin ext_exact 2 1 [[1]; [1]] ltac:(lia)) as (s & MS & Q).
  { split; [discriminate|]. repeat constructor. }
  assert (M1 : rmean [1; 1] = 1) by (unfold rmean, rlen; cbn; field).
  assert (S0 : s = 0).
  { destruct MS as ((j & J & ->) & _). replace j with 0%nat by lia. cbn [column map nth]. replace (rvar [1; 1]) with 0; [apply sqrt_0|].
    unfold rvar. rewrite M1. unfold rmean, rlen. cbn. field. }
  subst s. cbn [seq map] in Q. cbn [column map nth] in Q. rewrite M1 in Q.
  replace (2 * (2 * 0)) with 0 in Q by ring. replace (1 - 2 * 0) with 1 in Q by ring.
  assert (T : top 8 = 255) by reflexivity.
  eexists _, [0%N], NaN. split; [split; [discriminate|repeat constructor]|]. split; [exact Q|]. split; [reflexivity|].
  split; [|split; [reflexivity|]].
  - unfold sq_compress. cbn [sq_new sq_shift length Nat.eqb negb orb].
    assert (C : sq_code ext_ops 8 (sq_new ext_ops (Fin 0) [Fin 1] (Some (Fin (rmean [sqrt (rdot [1] [1]); sqrt (rdot [1] [1])])))) (Fin 1) (Fin 1) = NaN).
    { unfold sq_code. cbn [sq_new sq_scale]. unfold bit_scale. cbn [of_N ext_ops div mul sub ediv]. destruct (Req_EM_T 0 0) as [_|]; [|contradiction].
      cbn [eneg eadd]. change (val (2 ^ 8 - 1)) with 255. unfold sgn at 1. destruct (Rlt_dec 0 255); [|lra]. cbn [inf emul esgn].
      unfold sgn. destruct (Rlt_dec 0 (1 + - (1))); [lra|]. destruct (Rlt_dec (1 + - (1)) 0); [lra|]. reflexivity. }
    unfold map2. cbn [combine map fst snd]. rewrite C. cbn [to_u8 ext_ops eu8 existsb is_nan orb combine fold_left fst snd fma eadd emul esgn mul].
    do 2 f_equal. unfold inverse_bit_scale, one, bit_scale. cbn [sq_scale sq_new of_N ext_ops div ediv mul]. change (val (2 ^ 8 - 1)) with 255.
    destruct (Req_EM_T 255 0); [lra|]. cbn [emul esgn]. reflexivity.
  - assert (EN : forall x, eadd x NaN = NaN) by (intros []; reflexivity).
    unfold sq_ip. cbn [fst snd length Nat.eqb negb]. f_equal. cbn [add ext_ops]. change (eadd NaN NaN) with NaN. apply EN.
Qed.
Print Assumptions C86_constant_data_refuted.

Example C86_satisfiable : table 2 [[0; 1]; [2; 5]] /\ max_std 2 [[0; 1]; [2; 5]] 2 /\ rdot [3; 4] [3; 4] <> 0.
Proof.
  split; [split; [discriminate|repeat constructor]|].
  assert (V0 : rvar (column [[0; 1]; [2; 5]] 0) = 1) by (unfold rvar, rmean, rlen; cbn; field).
  assert (V1 : rvar (column [[0; 1]; [2; 5]] 1) = 2 * 2) by (unfold rvar, rmean, rlen; cbn; field).
  split; [|unfold rdot, map2; cbn; lra]. split.
  - exists 1%nat. split; [lia|]. rewrite V1. symmetry. apply sqrt_square. lra.
  - intros [|[|j]] J; [rewrite V0, sqrt_1; lra|rewrite V1, sqrt_square by lra; lra|lia].
Qed.

(** ** C87: min-max compression.
    In exact arithmetic: the codes are nearest ones on the grid spanned by the documented range, the
    metadata belongs to the codes, and the loss is the squared error. *)
Theorem C87_compress :
  forall F (o : ops F) fin tr idim n g from vec, exact o fin -> width n -> 0 < g -> vec <> [] ->
  length from = idim -> tr from = map fin vec ->
  exists lo hi codes, ends n vec lo hi /\
  let b := (lo + hi) / 2 - g * ((hi - lo) / 2) in
  let a := Rmax (g * (hi - lo)) (/ 100000000) / top n in
  0 < a /\
  mm_compress o tr idim (length vec) n (fin g) from (length vec) =
    MOk (codes, meta_of fin a b codes) (fin (rl2 (minmax_vector a b codes) vec)) /\
  length codes = length vec /\
  (forall i, (i < length vec)%nat -> nearest n (fun c => b + a * val c) (nth i vec 0) (nth i codes 0%N)) /\
  mm_decompress o (codes, meta_of fin a b codes) (length vec) = Some (map fin (minmax_vector a b codes)).
Proof.
  intros F o fin tr idim n g from vec E W G NE LF TR.
  destruct (mm_compress_fin o fin E tr idim (length vec) n g from vec W G NE LF TR eq_refl) as (lo & hi & EN & C). cbn zeta in C.
  do 3 eexists. split; [exact EN|]. pose proof (top_pos n W) as T. intros b a.
  assert (A : 0 < a). { unfold a. apply Rdiv_lt_0_compat; [|lra]. pose proof (Rmax_r (g * (hi - lo)) (/ 100000000)). lra. }
  split; [exact A|]. split; [exact C|]. fold b a. rewrite map_length. split; [reflexivity|]. split.
  - intros i I. destruct (nearest_grid (Z.leb 0) n a b (nth i vec 0) W A) as (_ & NO). fold (zcode n a b (nth i vec 0)) in NO.
    replace (nth i (map (fun v => Z.to_N (zcode n a b v)) vec) 0%N) with (Z.to_N (zcode n a b (nth i vec 0))); [exact NO|].
    rewrite <- (map_nth (fun v => Z.to_N (zcode n a b v)) vec 0 i). apply nth_indep. now rewrite map_length.
  - unfold mm_decompress. cbn [fst snd meta_of m_a m_b]. rewrite map_length, Nat.eqb_refl. cbn [negb]. f_equal. unfold minmax_vector. rewrite !map_map.
    apply map_ext. intros v. rewrite (ex_N o fin E), (ex_mul o fin E), (ex_add o fin E). f_equal. ring.
Qed.
Print Assumptions C87_compress.

(** With a grid scale of at least 1 and more than one bit, every coordinate is off by at most half a
    step, and the loss by a quarter of a squared step for each coordinate. *)
Theorem C87_error :
  forall F (o : ops F) fin tr idim n g from vec codes m loss, exact o fin -> width n -> n <> 1%N -> 1 <= g -> vec <> [] ->
  length from = idim -> tr from = map fin vec ->
  mm_compress o tr idim (length vec) n (fin g) from (length vec) = MOk (codes, m) loss ->
  exists a b lo hi l, m_a m = fin a /\ m_b m = fin b /\ loss = fin l /\ In lo vec /\ In hi vec /\
  a = Rmax (g * (hi - lo)) (/ 100000000) / top n /\
  (forall i, (i < length vec)%nat -> Rabs (nth i vec 0 - nth i (minmax_vector a b codes) 0) <= a / 2) /\
  0 <= l <= INR (length vec) * (a / 2 * (a / 2)).
Proof.
  intros F o fin tr idim n g from vec codes m loss E W N1 G NE LF TR H.
  destruct (mm_compress_fin o fin E tr idim (length vec) n g from vec W ltac:(lra) NE LF TR eq_refl) as (lo & hi & EN & C). cbn zeta in C.
  set (b := (lo + hi) / 2 - g * ((hi - lo) / 2)) in *. set (a := Rmax (g * (hi - lo)) (/ 100000000) / top n) in *.
  rewrite C in H. injection H as Q1 Q2 Q3. subst codes m loss.
  pose proof (ends_order n vec lo hi NE EN) as OR. unfold ends in EN. apply N.eqb_neq in N1. rewrite N1 in EN. destruct EN as (IL & IH & A).
  pose proof (top_pos n W) as T. pose proof (Rmax_l (g * (hi - lo)) (/ 100000000)) as ML. pose proof (Rmax_r (g * (hi - lo)) (/ 100000000)) as MR.
  assert (AP : 0 < a) by (unfold a; apply Rdiv_lt_0_compat; lra).
  assert (AT : a * top n = Rmax (g * (hi - lo)) (/ 100000000)) by (unfold a; field; lra).
  assert (GE : hi - lo <= g * (hi - lo)). { rewrite <- (Rmult_1_l (hi - lo)) at 1. apply Rmult_le_compat_r; lra. }
  assert (RG : forall v, In v vec -> Rabs (v - (b + a * IZR (zcode n a b v))) <= a / 2).
  { intros v I. apply (grid_error (Z.leb 0) n a b v W AP). specialize (A v I). rewrite AT. unfold b. lra. }
  exists a, b, lo, hi, (rl2 (minmax_vector a b (map (fun v => Z.to_N (zcode n a b v)) vec)) vec).
  repeat (split; [reflexivity || assumption|]).
  assert (ZP : forall v, (0 <= zcode n a b v)%Z) by (intros v; destruct (nearest_grid (Z.leb 0) n a b v W AP) as (B & _); unfold zcode; lia).
  split.
  - intros i I. specialize (RG (nth i vec 0) (nth_In _ _ I)). unfold minmax_vector. rewrite map_map.
    replace (nth i (map (fun x => b + a * val (Z.to_N (zcode n a b x))) vec) 0) with (b + a * IZR (zcode n a b (nth i vec 0))); [exact RG|].
    transitivity (nth i (map (fun x => b + a * val (Z.to_N (zcode n a b x))) vec) (b + a * val (Z.to_N (zcode n a b 0)))).
    + rewrite (map_nth (fun x => b + a * val (Z.to_N (zcode n a b x)))). unfold val. now rewrite Z2N.id by apply ZP.
    + apply nth_indep. now rewrite map_length.
  - clear - RG ZP. induction vec as [|v vec IH]; [unfold rl2, map2; cbn; lra|].
    unfold minmax_vector in *. cbn [map length]. rewrite rl2_cons, S_INR. specialize (IH (fun u I => RG u (or_intror I))).
    specialize (RG v (or_introl eq_refl)). unfold val at 1 2 4 5. rewrite Z2N.id by apply ZP.
    set (d := b + a * IZR (zcode n a b v) - v). assert (D : Rabs d <= a / 2). { unfold d. now rewrite Rabs_minus_sym. }
    assert (D2 : d * d <= a / 2 * (a / 2)). { rewrite <- (Rabs_mult_self d) || idtac. pose proof (Rabs_pos d). assert (d * d = Rabs d * Rabs d) as -> by (rewrite <- Rabs_mult, Rabs_right; [reflexivity|apply Rle_ge, Rle_0_sqr]). apply Rmult_le_compat; lra. }
    pose proof (Rle_0_sqr d) as D0. unfold Rsqr in D0. lra.
Qed.
Print Assumptions C87_error.

(** In any arithmetic: compression refuses exactly the wrong lengths, reports a NaN exactly if the
    transformed vector contains one; decompression refuses exactly the wrong lengths. *)
Theorem C87_rejects : forall F (o : ops F) tr idim odim n g from into,
  (mm_compress o tr idim odim n g from into = MPanic <-> length from <> idim \/ into <> odim) /\
  ((exists v, mm_compress o tr idim odim n g from into = MNaN v) <->
     length from = idim /\ into = odim /\ exists x, In x (tr from) /\ is_nan o x = true) /\
  forall v dst, mm_decompress o v dst = None <-> dst <> length (fst v).
Proof.
  intros F o tr idim odim n g from into. split; [|split].
  - unfold mm_compress. destruct (get_range o n g (tr from)) as [mn mx].
    destruct (Nat.eqb_spec (length from) idim); destruct (Nat.eqb_spec odim into); cbn [negb orb]; try destruct (existsb _ _); split; intros H; try discriminate; try reflexivity; auto; destruct H; congruence.
  - unfold mm_compress. destruct (get_range o n g (tr from)) as [mn mx].
    destruct (Nat.eqb_spec (length from) idim) as [L|L]; [|cbn [negb orb]; split; [intros (v & H); discriminate|intros (K & _); contradiction]].
    destruct (Nat.eqb_spec odim into) as [L2|L2]; [|cbn [negb orb]; split; [intros (v & H); discriminate|intros (_ & K & _); congruence]].
    cbn [negb orb]. cbv zeta. destruct (existsb (is_nan o) (tr from)) eqn:X.
    + split; [|eauto]. intros _. apply existsb_exists in X. auto.
    + split; [intros (v & H); discriminate|]. intros (_ & _ & x & I & N). assert (existsb (is_nan o) (tr from) = true) by (apply existsb_exists; eauto). congruence.
  - intros v dst. unfold mm_decompress. destruct (Nat.eqb_spec dst (length (fst v))); cbn [negb]; split; intros; try discriminate; try contradiction; reflexivity || assumption.
Qed.
Print Assumptions C87_rejects.

(** With the IEEE special values, every code written fits its bits. *)
Theorem C87_codes_fit : forall tr idim odim n g from into v, width n ->
  (mm_compress ext_ops tr idim odim n g from into = MNaN v \/ exists l, mm_compress ext_ops tr idim odim n g from into = MOk v l) ->
  Forall (code_ok n) (fst v).
Proof.
  intros tr idim odim n g from into v W H. unfold mm_compress in H. destruct (_ || _)%bool; [destruct H as [H|(? & H)]; discriminate|].
  destruct (get_range ext_ops n g (tr from)) as [mn mx]. cbv zeta in H.
  assert (K : fst v = map (to_u8 ext_ops) (map (mm_code ext_ops n mn (div ext_ops (fmax ext_ops (sub ext_ops mx mn) (tiny ext_ops)) (bit_scale ext_ops n))) (tr from))).
  { destruct (existsb _ _); destruct H as [H|(l & H)]; try discriminate; injection H as <-; reflexivity. }
  rewrite K. apply Forall_forall. intros c I. apply in_map_iff in I as (u & <- & I). apply in_map_iff in I as (x & <- & _). now apply ext_code_fits.
Qed.
Print Assumptions C87_codes_fit.

(** Not guaranteed: with the null transform a vector that contains an infinity is accepted, although
    what is stored decompresses to NaN; the loss reported is zero. *)
Theorem C87_infinite_input_refuted : exists v,
  mm_compress ext_ops (fun x => x) 2 2 8 (Fin 1) [PInf; Fin 0] 2 = MOk v (Fin 0) /\
  mm_decompress ext_ops v 2 = Some [NaN; NaN].
Proof.
  eexists. assert (GR : get_range ext_ops 8 (Fin 1) [PInf; Fin 0] = (NaN, PInf)).
  { unfold get_range. change (fold_left _ [PInf; Fin 0] (nan ext_ops, nan ext_ops)) with (Fin 0, PInf). cbn [N.eqb Pos.eqb].
    cbv zeta. unfold two. change (sub ext_ops PInf (Fin 0)) with PInf. cbn [of_N ext_ops div ediv esgn].
    destruct (Req_EM_T (val 2) 0) as [Z|Z]; [unfold val in Z; cbn in Z; lra|]. unfold sgn. destruct (Rlt_dec 0 (val 2)) as [_|Z']; [|unfold val in Z'; cbn in Z'; lra].
    cbn [smul inf]. change (mul ext_ops PInf (Fin 1)) with (inf (smul Gt (sgn 1))). unfold sgn. destruct (Rlt_dec 0 1); [|lra]. reflexivity. }
  split.
  - unfold mm_compress. rewrite GR. cbn [length Nat.eqb negb orb existsb is_nan ext_ops]. cbv zeta.
    assert (C : forall i v, mm_code ext_ops 8 NaN i v = NaN).
    { intros i v. unfold mm_code. cbn [sub ext_ops eneg]. replace (eadd v NaN) with NaN by (destruct v; reflexivity). destruct i; reflexivity. }
    cbn [map combine]. rewrite !C. cbn [fold_left fst snd]. unfold zero. cbn [ext_ops add mul of_N sub lt emul esgn eadd eneg elt].
    change (val 0) with 0. cbn [elt]. f_equal.
  - assert (EN : forall x, eadd x NaN = NaN) by (intros []; reflexivity).
    unfold mm_decompress. cbn [fst snd m_a m_b map length Nat.eqb negb]. cbn [add ext_ops]. now rewrite !EN.
Qed.
Print Assumptions C87_infinite_input_refuted.

Example C87_satisfiable : exists a b codes, ends 2 [1; 4; 2] 1 4 /\ ends 1 [1; 4; 1] 1 4 /\ 0 < a /\
  exists l, mm_compress ext_ops (fun x => x) 3 3 2 (Fin 1) (map Fin [1; 4; 2]) 3 = MOk (codes, meta_of Fin a b codes) l.
Proof.
  destruct (C87_compress ext ext_ops Fin (fun x => x) 3 2 1 (map Fin [1; 4; 2]) [1; 4; 2] ext_exact ltac:(unfold width; lia) ltac:(lra) ltac:(discriminate) eq_refl eq_refl)
    as (lo & hi & codes & EN & A & C & _). do 3 eexists. split.
  { cbn. repeat split; auto; destruct H as [<-|[<-|[<-|[]]]]; lra. }
  split; [|split; [exact A|eexists; exact C]].
  assert (M : rmean [1; 4; 1] = 2) by (unfold rmean, rlen; cbn; field).
  unfold ends. rewrite M. cbn [N.eqb Pos.eqb]. unfold below, not_below. cbn [filter]. unfold rltb.
  destruct (Rlt_dec 1 2); [|lra]. destruct (Rlt_dec 4 2); [lra|]. cbn [negb]. unfold rmean, rlen. cbn. repeat split; try discriminate; field.
Qed.

(** ** C88: min-max distances.
    In exact arithmetic, for two code vectors of any widths with their metadata, and an integer kernel
    right on them, the distances are those of the vectors the codes stand for. *)
Theorem C88_distances :
  forall F (o : ops F) fin a b a' b' x y ipk, exact o fin -> length x = length y -> ipk x y = int_ip x y ->
  let u := minmax_vector a b x in let v := minmax_vector a' b' y in
  let X := (x, meta_of fin a b x) in let Y := (y, meta_of fin a' b' y) in
  mm_ip o ipk X Y = Some (fin (rdot u v)) /\
  mm_ip_score o ipk X Y = Some (fin (- rdot u v)) /\
  mm_l2 o ipk X Y = Some (fin (rl2 u v)) /\
  (rdot u u <> 0 -> rdot v v <> 0 -> mm_cos o ipk X Y = Some (fin (1 - rdot u v / (sqrt (rdot u u) * sqrt (rdot v v))))) /\
  mm_cosn o ipk X Y = Some (fin (1 - rdot u v)).
Proof.
  intros F o fin a b a' b' x y ipk E L K u v X Y.
  assert (H : mm_ip o ipk X Y = Some (fin (rdot u v))) by now apply mm_ip_fin.
  split; [exact H|]. split. { unfold mm_ip_score. rewrite H. cbn [option_map]. now rewrite (ex_neg o fin E). }
  split.
  { unfold mm_l2. rewrite H. cbn [option_map]. cbn [X Y snd meta_of m_norm]. rewrite (two_fin o fin E), (ex_neg o fin E), (ex_mul o fin E), !(ex_add o fin E).
    do 2 f_equal. rewrite rl2_dot by (unfold u, v; rewrite !minmax_length; exact L). fold u v. ring. }
  split.
  - intros U V. unfold mm_cos. rewrite H. cbn [option_map X Y snd meta_of m_norm]. fold u v.
    pose proof (rdot_self_nonneg u). pose proof (rdot_self_nonneg v).
    rewrite (one_fin o fin E), !(ex_root o fin E), (ex_mul o fin E), (ex_div o fin E), (ex_sub o fin E) by (assumption || (apply Rgt_not_eq, Rmult_lt_0_compat; apply sqrt_lt_R0; lra)).
    reflexivity.
  - unfold mm_cosn. rewrite H. cbn [option_map]. now rewrite (one_fin o fin E), (ex_sub o fin E).
Qed.
Print Assumptions C88_distances.

(** A full-precision query: the distances are those between the transformed query and the vector the
    codes stand for, for a kernel right on them. *)
Theorem C88_query_distances :
  forall F (o : ops F) fin tr idim from f a b y fk, exact o fin ->
  existsb (is_nan o) from = false -> length from = idim -> tr from = map fin f -> length f = length y ->
  fk (map fin f) y = fin (rdot f (map val y)) ->
  exists q, fq_compress o tr idim (length f) from (length f) = FOk q /\
  let v := minmax_vector a b y in let Y := (y, meta_of fin a b y) in
  fq_ip o fk q Y = Some (fin (rdot f v)) /\
  fq_ip_score o fk q Y = Some (fin (- rdot f v)) /\
  fq_l2 o fk q Y = Some (fin (rl2 f v)) /\
  (rdot f f <> 0 -> rdot v v <> 0 -> fq_cos o fk q Y = Some (fin (1 - rdot f v / (sqrt (rdot f f) * sqrt (rdot v v))))) /\
  fq_cosn o fk q Y = Some (fin (1 - rdot f v)).
Proof.
  intros F o fin tr idim from f a b y fk E NN LF TR L K. exists (query_of fin f). split; [now apply (fq_compress_fin o fin E)|]. intros v Y.
  assert (H : fq_ip o fk (query_of fin f) Y = Some (fin (rdot f v))) by now apply fq_ip_fin.
  split; [exact H|]. split. { unfold fq_ip_score. rewrite H. cbn [option_map]. now rewrite (ex_neg o fin E). }
  split.
  { unfold fq_l2. rewrite H. cbn [option_map Y snd meta_of m_norm query_of f_norm]. rewrite (two_fin o fin E), (ex_mul o fin E), (ex_add o fin E), (ex_sub o fin E).
    do 2 f_equal. rewrite rl2_dot by (unfold v; rewrite minmax_length; exact L). fold v. ring. }
  split.
  - intros U V. unfold fq_cos. rewrite H. cbn [option_map Y snd meta_of m_norm query_of f_norm]. fold v.
    pose proof (rdot_self_nonneg f). pose proof (rdot_self_nonneg v).
    rewrite (one_fin o fin E), !(ex_root o fin E), (ex_mul o fin E), (ex_div o fin E), (ex_sub o fin E) by (assumption || (apply Rgt_not_eq, Rmult_lt_0_compat; apply sqrt_lt_R0; lra)).
    reflexivity.
  - unfold fq_cosn. rewrite H. cbn [option_map]. now rewrite (one_fin o fin E), (ex_sub o fin E).
Qed.
Print Assumptions C88_query_distances.

(** In any arithmetic: the distances refuse exactly vectors of unequal lengths; a query is refused
    exactly for wrong lengths or a NaN in the input. *)
Theorem C88_rejects : forall F (o : ops F) ipk fk (x y : mvec) (q : fq) tr idim odim from into,
  (mm_ip o ipk x y = None <-> length (fst x) <> length (fst y)) /\
  (fq_ip o fk q y = None <-> length (f_vec q) <> length (fst y)) /\
  (fq_compress o tr idim odim from into = FPanic <-> length from <> idim \/ into <> odim) /\
  (fq_compress o tr idim odim from into = FNaN <-> length from = idim /\ into = odim /\ exists x, In x from /\ is_nan o x = true).
Proof.
  intros F o ipk fk x y q tr idim odim from into. split; [|split; [|split]].
  - unfold mm_ip. destruct (Nat.eqb_spec (length (fst x)) (length (fst y))); cbn [negb]; split; intros; try discriminate; try contradiction; reflexivity || assumption.
  - unfold fq_ip. destruct (Nat.eqb_spec (length (f_vec q)) (length (fst y))); cbn [negb]; split; intros; try discriminate; try contradiction; reflexivity || assumption.
  - unfold fq_compress. destruct (Nat.eqb_spec (length from) idim); destruct (Nat.eqb_spec odim into); cbn [negb orb]; try destruct (existsb _ _); split; intros H; try discriminate; try reflexivity; auto; destruct H; congruence.
  - unfold fq_compress. destruct (Nat.eqb_spec (length from) idim) as [L|L]; [|cbn [negb orb]; split; [intros H; discriminate|intros (K & _); contradiction]].
    destruct (Nat.eqb_spec odim into) as [L2|L2]; [|cbn [negb orb]; split; [intros H; discriminate|intros (_ & K & _); congruence]].
    cbn [negb orb]. destruct (existsb (is_nan o) from) eqn:X.
    + split; [|reflexivity]. intros _. apply existsb_exists in X. auto.
    + split; [intros H; discriminate|]. intros (_ & _ & v & I & N). assert (existsb (is_nan o) from = true) by (apply existsb_exists; eauto). congruence.
Qed.
Print Assumptions C88_rejects.

Example C88_satisfiable : length [3; 7]%N = length [200; 1]%N /\ int_ip [3; 7]%N [200; 1]%N = 607%N /\
  rdot (minmax_vector 1 2 [3; 7]%N) (minmax_vector 1 2 [3; 7]%N) <> 0 /\ existsb (is_nan ext_ops) (map Fin [1; 2]) = false.
Proof. repeat split. unfold minmax_vector, rdot, map2, val. cbn. lra. Qed.

(** ** C89: recompression to fewer bits.
    In exact arithmetic: the new codes are the nearest ones to the values of the old codes on the
    documented grid, and the new metadata belongs to the new codes. *)
Theorem C89_recompress :
  forall F (o : ops F) fin n m g a b codes, exact o fin -> width n -> width m -> 0 < g -> 0 < a ->
  let mid := b + a * top n / 2 in let w := a * top n / 2 in
  let b' := mid - w * g in let a' := 2 * w * g / top m in
  exists codes', recompress o n m (fin g) (codes, meta_of fin a b codes) (length codes) = Some (codes', meta_of fin a' b' codes') /\
  length codes' = length codes /\
  forall i, (i < length codes)%nat ->
    nearest m (fun c => b' + a' * val c) (nth i (minmax_vector a b codes) 0) (nth i codes' 0%N).
Proof.
  intros F o fin n m g a b codes E WN WM G A mid w b' a'. pose proof (top_pos m WM) as TM.
  destruct (recompress_fin o fin E n m g a b codes WN WM G A) as (R & NR).
  replace (a * (g * top n) / top m) with a' in R, NR by (unfold a', w; field; lra).
  replace (b + a * (top n * (1 - g) / 2)) with b' in R, NR by (unfold b', mid, w; field).
  eexists. split; [exact R|]. split; [apply map_length|]. intros i I.
  replace (nth i (map (recode n m g) codes) 0%N) with (recode n m g (nth i codes 0%N)).
  - replace (nth i (minmax_vector a b codes) 0) with (b + a * val (nth i codes 0%N)); [apply NR|].
    unfold minmax_vector. rewrite <- (map_nth (fun c => b + a * val c) codes 0%N i). apply nth_indep. now rewrite map_length.
  - rewrite <- (map_nth (recode n m g) codes 0%N i). apply nth_indep. now rewrite map_length.
Qed.
Print Assumptions C89_recompress.

(** With a grid scale of 1 the range is kept and no coordinate moves by more than half a new step. *)
Theorem C89_same_range :
  forall F (o : ops F) fin n m a b codes, exact o fin -> width n -> width m -> 0 < a -> Forall (code_ok n) codes ->
  exists codes' a', recompress o n m (fin 1) (codes, meta_of fin a b codes) (length codes) = Some (codes', meta_of fin a' b codes') /\
  b + a' * top m = b + a * top n /\
  forall i, (i < length codes)%nat ->
    Rabs (nth i (minmax_vector a b codes) 0 - nth i (minmax_vector a' b codes') 0) <= a' / 2.
Proof.
  intros F o fin n m a b codes E WN WM A OK. pose proof (top_pos m WM) as TM. pose proof (top_pos n WN) as TN.
  destruct (recompress_fin o fin E n m 1 a b codes WN WM ltac:(lra) A) as (R & NR).
  replace (b + a * (top n * (1 - 1) / 2)) with b in R, NR by field. set (a' := a * (1 * top n) / top m) in *.
  exists (map (recode n m 1) codes), a'. split; [exact R|]. split; [unfold a'; field; lra|]. intros i I.
  assert (A' : 0 < a'). { unfold a'. apply Rdiv_lt_0_compat; [|lra]. apply Rmult_lt_0_compat; lra. }
  unfold minmax_vector. rewrite map_map.
  replace (nth i (map (fun x => b + a' * val (recode n m 1 x)) codes) 0) with (b + a' * val (recode n m 1 (nth i codes 0%N))).
  2:{ rewrite <- (map_nth (fun x => b + a' * val (recode n m 1 x)) codes 0%N i). apply nth_indep. now rewrite map_length. }
  replace (nth i (map (fun c => b + a * val c) codes) 0) with (b + a * val (nth i codes 0%N)).
  2:{ rewrite <- (map_nth (fun c => b + a * val c) codes 0%N i). apply nth_indep. now rewrite map_length. }
  assert (C : code_ok n (nth i codes 0%N)) by (eapply Forall_forall; [exact OK|now apply nth_In]).
  set (c := nth i codes 0%N) in *. assert (V : 0 <= val c <= top n). { unfold code_ok in C. unfold top, val. split; [apply (IZR_le 0); lia|apply IZR_le; lia]. }
  pose proof (grid_error (fun x => negb (Z.even x)) m a' b (b + a * val c) WM A') as GE.
  pose proof (nearest_grid (fun x => negb (Z.even x)) m a' b (b + a * val c) WM A') as (B & _).
  assert (AT : a' * top m = a * top n) by (unfold a'; field; lra).
  assert (RG : b <= b + a * val c <= b + a' * top m).
  { rewrite AT. split; [|apply Rplus_le_compat_l, Rmult_le_compat_l; lra]. pose proof (Rmult_le_pos a (val c) ltac:(lra) ltac:(lra)). lra. }
  specialize (GE RG).
  assert (Y : (val c - top n * (1 - 1) / 2) * (top m / (top n * 1)) = (b + a * val c - b) / a') by (unfold a'; field; repeat split; lra).
  unfold recode. rewrite Y. unfold val at 2. rewrite Z2N.id by lia. exact GE.
Qed.
Print Assumptions C89_same_range.

(** In any arithmetic: recompression refuses exactly a destination of another dimension. *)
Theorem C89_rejects : forall F (o : ops F) n m g from into, recompress o n m g from into = None <-> length (fst from) <> into.
Proof.
  intros F o n m g from into. unfold recompress. destruct (Nat.eqb_spec (length (fst from)) into); cbn [negb]; split; intros; try discriminate; try contradiction; reflexivity || assumption.
Qed.
Print Assumptions C89_rejects.

Example C89_satisfiable : width 8 /\ width 4 /\ 0 < 1 / 2 /\ Forall (code_ok 8) [17; 255; 0]%N.
Proof. unfold width. repeat split; try lia; try lra. repeat constructor. Qed.
