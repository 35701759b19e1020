(** C90-C93: the distance kernels of diskann-vector. *)
From Coq Require Import List ZArith PeanoNat Bool Lia Ring_theory ZArithRing InitialRing Reals Lra.
From Flocq Require Import IEEE754.BinarySingleNaN.
From Verif.Simd Require Import Model Spec Proofs Proofs2 Proofs3 Proofs4 Proofs5 Ieee.
Import ListNotations.

(** ** C90: with exact arithmetic every kernel of every architecture computes its distance *)

Theorem C90_distances : forall {F L R} (o : fops F) (cl : L -> F) (cr : R -> F) zl zr,
  exact o -> cl zl = zero o -> cr zr = zero o ->
  forall (k : kind) (a : arch) (e : felem) x y, length x = length y ->
  f_distance o cl cr zl zr k a e x y = Some (total o (term o cl cr k) x y).
Proof. intros F L R o cl cr zl zr ex hl hr k a e x y HL. now apply f_distance_ok. Qed.
Print Assumptions C90_distances.

Theorem C90_cosine : forall {F L R} (o : fops F) (cl : L -> F) (cr : R -> F) zl zr,
  exact o -> cl zl = zero o -> cr zr = zero o ->
  forall (a : arch) (e : felem) x y, length x = length y ->
  let xx := total o (fun u _ => mul o (cl u) (cl u)) x y in
  let yy := total o (fun _ v => mul o (cr v) (cr v)) x y in
  let xy := total o (fun u v => mul o (cl u) (cr v)) x y in
  cos_sums o cl cr zl zr a e x y = Some (xx, yy, xy) /\
  cosine o cl cr zl zr a e x y =
    Some (if lt o xx (min_positive o) || lt o yy (min_positive o) then zero o
          else fmax o (neg o (one o)) (fmin o (one o) (div o xy (mul o (sqrt o xx) (sqrt o yy))))) /\
  cos_as_l2 o cl cr zl zr a e x y = Some (total o (term o cl cr L2) x y).
Proof.
  intros F L R o cl cr zl zr ex hl hr a e x y HL xx yy xy.
  pose proof (cos_sums_ok o ex cl cr zl zr hl hr a e x y HL) as E. split; [exact E|]. split.
  - unfold cosine. rewrite E. reflexivity.
  - now apply cos_as_l2_ok.
Qed.
Print Assumptions C90_cosine.

(** In any arithmetic a kernel answers on vectors of one length (no load is out of bounds) and
    panics on others. *)
Theorem C90_total : forall {F L R} (o : fops F) (cl : L -> F) (cr : R -> F) zl zr (k : kind) (a : arch) (e : felem) x y,
  (length x = length y -> (exists d, f_distance o cl cr zl zr k a e x y = Some d) /\
                          (exists d, cosine o cl cr zl zr a e x y = Some d)) /\
  (length x <> length y -> f_distance o cl cr zl zr k a e x y = None /\ cosine o cl cr zl zr a e x y = None).
Proof.
  intros F L R o cl cr zl zr k a e x y. split; intros H.
  - split.
    + destruct (distance_good o cl cr zl zr k (fun _ => True) (fun _ _ => True) I (fun _ _ _ _ => I) (fun _ _ _ _ _ _ => I) I a e x y H)
        as (d & E & _); [now apply Forall2_true|eauto].
    + destruct (cos_total o cl cr zl zr a e x y H) as [[[p q] r] E]. unfold cosine. rewrite E. cbn [bind]. eauto.
  - split; [now apply unequal|]. unfold cosine, cos_sums. now rewrite unequal.
Qed.
Print Assumptions C90_total.

(** The integers are such an arithmetic. *)
Definition z_ops : fops Z :=
  mkF 0%Z 1%Z 1%Z Z.add Z.sub Z.mul Z.opp Z.div (fun x y z => x * y + z)%Z Z.abs Z.sqrt Z.min Z.max Z.ltb.
Example z_exact : exact z_ops.
Proof. split; [exact Zth|reflexivity..]. Qed.
Definition ramp (n : nat) : list Z := map Z.of_nat (seq 0 n).
Example C90_example :
  f_distance z_ops (fun v => v) (fun v => v) 0%Z 0%Z L2 V3 F32 (ramp 77) (map (fun v => v + 2)%Z (ramp 77)) = Some 308%Z /\
  f_distance z_ops (fun v => v) (fun v => v) 0%Z 0%Z IP V4 F16 (ramp 77) (repeat 1%Z 77) = Some 2926%Z /\
  f_distance z_ops (fun v => v) (fun v => v) 0%Z 0%Z L1 Neon F32 (ramp 77) (ramp 77) = Some 2926%Z /\
  cosine z_ops (fun v => v) (fun v => v) 0%Z 0%Z Scalar F32 (ramp 77) (ramp 77) = Some 1%Z.
Proof. vm_compute. repeat split. Qed.

(** ** C91: a resumable distance fed piece by piece is the distance of the concatenations *)

Theorem C91_resumable : forall {F L R} (o : fops F) (cl : L -> F) (cr : R -> F) zl zr,
  exact o -> cl zl = zero o -> cr zr = zero o ->
  forall (k : kind) (a : arch) (e : felem) (parts : list (list L * list R)),
  Forall (fun p => length (fst p) = length (snd p)) parts ->
  resumable_distance o cl cr zl zr k a e parts =
    Some (total o (term o cl cr k) (concat (map fst parts)) (concat (map snd parts))) /\
  resumable_distance o cl cr zl zr k a e parts =
    f_distance o cl cr zl zr k a e (concat (map fst parts)) (concat (map snd parts)).
Proof.
  intros F L R o cl cr zl zr ex hl hr k a e parts H.
  assert (E : resumable_distance o cl cr zl zr k a e parts =
    Some (total o (term o cl cr k) (concat (map fst parts)) (concat (map snd parts)))).
  { unfold resumable_distance. destruct (kind_width k a e) as [n W].
    destruct (resume_ok o ex cl cr zl zr hl hr k (kind_cfg k a e) parts) with (acc := repeat (zero o) (c_width (kind_cfg k a e)))
      as (r & -> & R1 & R2); [rewrite W; apply Nat.neq_0_lt_0, Nat.pow_nonzero; lia|assumption|apply repeat_length|].
    cbn [bind reduce f_schema]. f_equal. rewrite (sum_tree_ok o ex r n) by congruence. rewrite R2, lsum_zero by assumption.
    rewrite parts_total_concat by assumption. apply (Radd_0_l (ex_ring o ex)). }
  split; [exact E|]. rewrite E. symmetry. apply f_distance_ok; try assumption.
  clear - H. induction H as [|[x y] parts HL _ IH]; [reflexivity|]. cbn [map concat fst snd] in *. rewrite !app_length. congruence.
Qed.
Print Assumptions C91_resumable.
Example C91_example :
  resumable_distance z_ops (fun v => v) (fun v => v) 0%Z 0%Z IP V3 F32 [(ramp 9, ramp 9); ([], []); (ramp 70, repeat 1%Z 70)] = Some (204 + 2415)%Z.
Proof. vm_compute. reflexivity. Qed.

(** ** C92: the 8-bit kernels compute the integer distance, rounded to the nearest f32 *)

Theorem C92_distances : forall k a e x y, length x = length y ->
  Forall (in_range e) x -> Forall (in_range e) y -> acc_range a e (ztotal (zterm k) x y) ->
  exists v, int_distance k a e x y = Some v /\ nearest_f32 (ztotal (zterm k) x y) v /\
    ((Z.abs (ztotal (zterm k) x y) <= 2 ^ 24)%Z -> v = ztotal (zterm k) x y).
Proof.
  intros k a e x y HL HX HY HA. unfold int_distance. rewrite int_total_ok by assumption.
  rewrite wr_id by now apply acc_range_rng. cbn [bind]. eexists. split; [reflexivity|].
  split; [apply lossy_nearest|]. intros B. apply lossy_exact. lia.
Qed.
Print Assumptions C92_distances.

(** Up to 33025 dimensions the accumulators cannot overflow. *)
Lemma ztotal_bound f lo hi x : (lo <= 0 <= hi)%Z -> forall y, (forall a b, In a x -> In b y -> (lo <= f a b <= hi)%Z) ->
  (lo * Z.of_nat (length x) <= ztotal f x y <= hi * Z.of_nat (length x))%Z.
Proof.
  intros Z0. induction x as [|a x IH]; intros [|b y] H; cbn [ztotal length]; try nia.
  pose proof (H a b (or_introl eq_refl) (or_introl eq_refl)).
  specialize (IH y (fun a b A B => H a b (or_intror A) (or_intror B))). nia.
Qed.
Theorem C92_dimensions : forall k a e x y, k <> L1 -> length x = length y -> (length x <= N.to_nat 33025)%nat ->
  Forall (in_range e) x -> Forall (in_range e) y -> acc_range a e (ztotal (zterm k) x y).
Proof.
  intros k a e x y HK HL HN HX HY. rewrite Forall_forall in HX, HY.
  assert (B : (Z.of_nat (length x) <= 33025)%Z) by lia.
  assert (Q : forall lo hi, (lo <= 0 <= hi)%Z -> (forall u v, in_range e u -> in_range e v -> (lo <= zterm k u v <= hi)%Z) ->
     (lo * Z.of_nat (length x) <= ztotal (zterm k) x y <= hi * Z.of_nat (length x))%Z).
  { intros lo hi Z0 H. apply ztotal_bound; [assumption|]. intros u v U V. apply H; auto. }
  assert (SQ : forall d, (-255 <= d <= 255 -> 0 <= d * d <= 65025)%Z) by (intros; nia).
  assert (P : (-65025 * Z.of_nat (length x) <= ztotal (zterm k) x y <= 65025 * Z.of_nat (length x))%Z).
  { apply (Q (-65025) 65025)%Z; [lia|]. intros u v U V. destruct k; [| |now elim HK]; cbn [zterm].
    - specialize (SQ (u - v)%Z). destruct e; cbn [in_range] in *; lia.
    - destruct e; cbn [in_range] in *; nia. }
  assert (N : (e = U8 -> 0 <= ztotal (zterm k) x y)%Z).
  { intros ->. apply (Q 0 65025)%Z; [lia|]. intros u v U V. destruct k; [| |now elim HK]; cbn [zterm].
    - specialize (SQ (u - v)%Z). cbn [in_range] in *; lia.
    - cbn [in_range] in *; nia. }
  destruct a, e; cbn [acc_range]; try (specialize (N eq_refl)); lia.
Qed.
Print Assumptions C92_dimensions.

Theorem C92_cosine : forall a e x y, length x = length y ->
  let xx := ztotal (fun u _ => u * u)%Z x y in
  let yy := ztotal (fun _ v => v * v)%Z x y in
  let xy := ztotal (fun u v => u * v)%Z x y in
  acc_range a e xx -> acc_range a e yy -> acc_range a e xy ->
  int_cos_sums a e x y = Some (xx, yy, xy).
Proof.
  intros a e x y HL xx yy xy A B C. unfold int_cos_sums. cbv zeta.
  rewrite (icos_ok (fun u _ => u * u)%Z), (icos_ok (fun _ v => v * v)%Z), (icos_ok (fun u v => u * v)%Z) by (assumption || reflexivity).
  cbn [bind]. rewrite !wr_id by now apply acc_range_rng. reflexivity.
Qed.
Print Assumptions C92_cosine.
Example C92_example :
  int_distance L2 V3 U8 (map (fun v => v mod 256)%Z (ramp 300)) (repeat 255%Z 300) = Some 7965754%Z /\
  int_distance IP Neon I8 (repeat (-128)%Z 50) (repeat 127%Z 50) = Some (-812800)%Z /\
  int_cos_sums V4 I8 (repeat (-3)%Z 50) (repeat 4%Z 50) = Some (450, 800, -600)%Z.
Proof. vm_compute. repeat split. Qed.

(** One dimension more and the squared distance of two u8 vectors is reported negative. *)
Theorem C92_overflow_refuted : exists x y v, length x = length y /\ Forall (in_range U8) x /\ Forall (in_range U8) y /\
  int_distance L2 V3 U8 x y = Some v /\ (v < 0)%Z /\ (0 < ztotal (zterm L2) x y)%Z.
Proof.
  set (n := N.to_nat 33026).
  assert (E : ztotal (zterm L2) (repeat 0%Z n) (repeat 255%Z n) = 2147515650%Z).
  { rewrite ztotal_repeat. cbn [zterm]. unfold n. rewrite N_nat_Z. reflexivity. }
  assert (R0 : forall v, in_range U8 v -> Forall (in_range U8) (repeat v n)).
  { intros v V. apply Forall_forall. intros w W. apply repeat_spec in W. now subst. }
  exists (repeat 0%Z n), (repeat 255%Z n), (lossy (wr false 2147515650)).
  split; [now rewrite !repeat_length|]. split; [apply R0; cbn; lia|]. split; [apply R0; cbn; lia|].
  split; [|split; [vm_compute; reflexivity|rewrite E; lia]].
  unfold int_distance. rewrite int_total_ok; [cbn [bind sgnd]; now rewrite E|now rewrite !repeat_length|apply R0; cbn; lia..].
Qed.
Print Assumptions C92_overflow_refuted.
(** Above 2^24 the reported distance of integer vectors is not exact: different distances tie. *)
Theorem C92_exact_refuted : exists x y y', Forall (in_range U8) x /\ Forall (in_range U8) y /\ Forall (in_range U8) y' /\
  length x = length y /\ length x = length y' /\
  (ztotal (zterm L2) x y < ztotal (zterm L2) x y')%Z /\
  int_distance L2 V3 U8 x y = int_distance L2 V3 U8 x y'.
Proof.
  exists (repeat 0%Z 260), (0%Z :: repeat 255%Z 259), (1%Z :: repeat 255%Z 259).
  assert (R0 : forall v n, in_range U8 v -> Forall (in_range U8) (repeat v n)).
  { intros v n V. apply Forall_forall. intros w W. apply repeat_spec in W. now subst. }
  split; [apply R0; cbn; lia|]. split; [constructor; [|apply R0]; cbn; lia|]. split; [constructor; [|apply R0]; cbn; lia|].
  split; [reflexivity|]. split; [reflexivity|]. split; [vm_compute; reflexivity|].
  vm_compute. reflexivity.
Qed.
Print Assumptions C92_exact_refuted.

(** ** C93: what survives rounding, for IEEE arithmetic *)

(** Exchanging the arguments gives the same value, to the bit (NaNs identified), for all inputs. *)
Theorem C93_symmetric : forall {E} (c : E -> f32) (z : E) (a : arch) (e : felem) x y,
  f_distance f32_ops c c z z L2 a e x y = f_distance f32_ops c c z z L2 a e y x /\
  f_distance f32_ops c c z z IP a e x y = f_distance f32_ops c c z z IP a e y x /\
  cosine f32_ops c c z z a e x y = cosine f32_ops c c z z a e y x.
Proof.
  intros E c z a e x y.
  assert (W : forall k, 0 < c_width (kind_cfg k a e)).
  { intros k. destruct (kind_width k a e) as [n ->]. apply Nat.neq_0_lt_0, Nat.pow_nonzero. lia. }
  split; [|split].
  - unfold f_distance. apply f_swap; [|apply W]. intros st u v t. cbn [lane]. pose proof (sub_anti (c u) (c v)) as An.
    destruct st; cbn [mac f32_ops fma mul add sub]; [now apply fma_anti|f_equal; now apply sq_anti..].
  - unfold f_distance. apply f_swap; [|apply W]. intros st u v t. cbn [lane].
    apply (mac_swap f32_ops mul_comm fma_comm).
  - unfold cosine, cos_sums. destruct (cos_width a e) as [n Wn].
    pose proof (cos_swap f32_ops c z mul_comm fma_comm (cos_cfg a e) x y) as H.
    assert (0 < c_width (cos_cfg a e)) as W0 by (rewrite Wn; apply Nat.neq_0_lt_0, Nat.pow_nonzero; lia). specialize (H W0).
    destruct (simd_op _ x y) as [[[p q] r]|], (simd_op _ y x) as [b|]; cbn [ro bind] in *; try contradiction; [|reflexivity].
    subst b. f_equal. unfold cos_final. rewrite orb_comm. cbn [mul f32_ops]. now rewrite mul_comm.
Qed.
Print Assumptions C93_symmetric.

(** The squared distance of finite vectors is not NaN and not negative; that of a vector to itself
    is zero. *)
Theorem C93_nonnegative : forall {L R} (cl : L -> f32) (cr : R -> f32) zl zr,
  cl zl = B754_zero false -> cr zr = B754_zero false ->
  forall (a : arch) (e : felem) x y, length x = length y ->
  Forall (fun u => is_finite (cl u) = true) x -> Forall (fun v => is_finite (cr v) = true) y ->
  exists d, f_distance f32_ops cl cr zl zr L2 a e x y = Some d /\ is_nan d = false /\ Bsign d = false.
Proof.
  intros L R cl cr zl zr hl hr a e x y HL HX HY.
  apply (distance_good f32_ops cl cr zl zr L2 pos (fun u v => is_nan (sub f32_ops (cl u) (cr v)) = false)).
  - now split.
  - intros; now apply pos_plus.
  - intros st u v t N P. cbn [lane]. destruct st; cbn [mac f32_ops fma mul add sub].
    + now apply pos_fma.
    + apply pos_plus; [now apply pos_sq|assumption].
    + apply pos_plus; [assumption|now apply pos_sq].
  - rewrite hl, hr. reflexivity.
  - assumption.
  - clear hl hr. revert y HL HY. induction HX as [|u x U _ IH]; intros [|v y] HL HY; try discriminate; constructor; inversion HY; subst.
    + now apply sub_not_nan.
    + apply IH; [injection HL; auto|assumption].
Qed.
Print Assumptions C93_nonnegative.

Theorem C93_self : forall {E} (c : E -> f32) (z : E), c z = B754_zero false ->
  forall (a : arch) (e : felem) x, Forall (fun u => is_finite (c u) = true) x ->
  f_distance f32_ops c c z z L2 a e x x = Some (B754_zero false).
Proof.
  intros E c z hz a e x HX.
  destruct (distance_good f32_ops c c z z L2 (fun v => v = B754_zero false) (fun u v => sub f32_ops (c u) (c v) = B754_zero false))
    with (a := a) (e := e) (x := x) (y := x) as (d & -> & ->); try reflexivity.
  - intros ? ? -> ->. reflexivity.
  - intros st u v t N ->. cbn [lane]. rewrite N. destruct st; reflexivity.
  - rewrite hz. reflexivity.
  - induction HX; constructor; [now apply sub_self|assumption].
Qed.
Print Assumptions C93_self.

(** A cosine similarity is a number between -1 and 1, whatever the inputs. *)
Theorem C93_cosine_range : forall {L R} (cl : L -> f32) (cr : R -> f32) zl zr (a : arch) (e : felem) x y, length x = length y ->
  exists s, cosine f32_ops cl cr zl zr a e x y = Some s /\ is_finite s = true /\ (-1 <= B2R s <= 1)%R.
Proof.
  intros L R cl cr zl zr a e x y HL. destruct (cos_total f32_ops cl cr zl zr a e x y HL) as [[[p q] r] E].
  unfold cosine. rewrite E. cbn [bind]. eexists. split; [reflexivity|]. unfold cos_final.
  destruct (_ || _); [|apply clamp_ok].
  cbn. split; [reflexivity|lra].
Qed.
Print Assumptions C93_cosine_range.

Definition f_of (m e : Z) : f32 := binary_normalize 24 128 eq_refl eq_refl mode_NE m e false.
Example C93_example :
  let x := [f_of 1 0; f_of 3 (-1); f_of (-7) 20] in let y := [f_of 5 (-3); f_of 0 0; f_of 7 20] in
  let id := fun v : f32 => v in let z := B754_zero false in
  forallb (fun v => is_finite v) (x ++ y) = true /\
  option_map B2SF (f_distance f32_ops id id z z L2 V3 F32 x y) = Some (B2SF (f_of 49 42)) /\
  option_map B2SF (f_distance f32_ops id id z z L2 V4 F32 x x) = Some (B2SF z) /\
  option_map B2SF (cosine f32_ops id id z z V3 F32 x y) = Some (B2SF (f_of (-1) 0)).
Proof. vm_compute. repeat split. Qed.

(** Opposite finite vectors are reported as identical in direction once their norms overflow, and a
    NaN component makes the similarity one. *)
Theorem C93_cosine_refuted :
  (exists x y, is_finite x = true /\ is_finite y = true /\ y = Bopp x /\
     cosine f32_ops (fun v => v) (fun v => v) (B754_zero false) (B754_zero false) Scalar F32 [x] [y] = Some f32_one) /\
  (exists x y, is_nan x = true /\
     cosine f32_ops (fun v => v) (fun v => v) (B754_zero false) (B754_zero false) Scalar F32 [x] [y] = Some f32_one).
Proof.
  split.
  - exists (f_of 1 64), (Bopp (f_of 1 64)). repeat split.
  - exists B754_nan, f32_one. split; reflexivity.
Qed.
Print Assumptions C93_cosine_refuted.
