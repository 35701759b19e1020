(** Properties of the Hadamard transforms: C82, C83, C84. *)
From Coq Require Import Reals Lra Sorted.
From Verif.Lib Require Import Base Lists.
From Verif.Rotate Require Import Model Spec Proofs Proofs2 Proofs3.
Local Open Scope nat_scope.

(** Exact real arithmetic, for the examples. *)
Definition real_ops : ops R :=
  mkOps 0%R 1%R Rplus Rminus Rmult Rdiv Ropp (fun x y z => x * y + z)%R sqrt INR
    (fun x s => if N.eqb s SIGN then (- x)%R else x).
Lemma real_exact : exact real_ops.
Proof. constructor; intros; reflexivity. Qed.

(** ** C82: the Hadamard transform.
    In exact arithmetic, for every length that is a power of two, on every architecture: coordinate
    [i] of the result is row [i] of Sylvester's matrix times the input, divided by the square root
    of the length. *)
Theorem C82_hadamard :
  forall o ar k x, exact o -> length x = 2 ^ k ->
  exists y, hadamard_transform o ar x = Some y /\ length y = 2 ^ k /\
  forall i, i < 2 ^ k ->
    coord y i = (total (seq 0 (2 ^ k)) (fun j => sylvester k i j * coord x j) / sqrt (INR (2 ^ k)))%R.
Proof.
  intros o ar k x E L. eexists. split; [apply (transform_wht o E ar k x L)|].
  split; [rewrite map_length; now apply wht_length|]. intros i I.
  transitivity (coord (wht k x) i * (1 / sqrt (INR (2 ^ k))))%R.
  - unfold coord. rewrite <- (map_nth (fun v => v * (1 / sqrt (INR (2 ^ k)))) (wht k x) 0 i)%R. cbn beta.
    apply nth_indep. rewrite map_length, wht_length by exact L. exact I.
  - rewrite (wht_sylvester k x L i I). unfold Rdiv. ring.
Qed.
Print Assumptions C82_hadamard.

(** The transform is refused exactly for the lengths that are not a power of two, in any
    arithmetic. *)
Theorem C82_rejects : forall F (o : ops F) ar x,
  hadamard_transform o ar x = None <-> forall k, length x <> 2 ^ k.
Proof.
  intros F o ar x. split.
  - intros H k K. destruct (transform_some o ar x k K) as (y & Y & _). congruence.
  - intros H. unfold hadamard_transform. destruct (is_pow2 (length x)) eqn:P; [|reflexivity].
    apply is_pow2_spec in P as (k & K). now elim (H k).
Qed.
Print Assumptions C82_rejects.

(** Inner products are preserved. *)
Theorem C82_isometry : forall o ar k x y x' y', exact o -> length x = 2 ^ k -> length y = 2 ^ k ->
  hadamard_transform o ar x = Some x' -> hadamard_transform o ar y = Some y' ->
  dot (2 ^ k) x' y' = dot (2 ^ k) x y.
Proof.
  intros o ar k x y x' y' E X Y HX HY. rewrite (transform_wht o E ar k x X) in HX. rewrite (transform_wht o E ar k y Y) in HY.
  injection HX as <-. injection HY as <-. fold (scaled k x). fold (scaled k y).
  rewrite !dot_ldot' by (assumption || now apply scaled_length). now apply scaled_isometry.
Qed.
Print Assumptions C82_isometry.

(** The transform is its own inverse. *)
Theorem C82_involution : forall o ar ar' x y, exact o ->
  hadamard_transform o ar x = Some y -> hadamard_transform o ar' y = Some x.
Proof.
  intros o ar ar' x y E H. assert (P : exists k, length x = 2 ^ k).
  { apply is_pow2_spec. unfold hadamard_transform in H. destruct (is_pow2 (length x)); [reflexivity|discriminate]. }
  destruct P as (k & K). rewrite (transform_wht o E ar k x K) in H. injection H as <-. fold (scaled k x).
  rewrite (transform_wht o E ar' k) by (now apply scaled_length). f_equal. exact (scaled_involution k x K).
Qed.
Print Assumptions C82_involution.

(** The architectures agree. *)
Theorem C82_implementations_agree : forall o x, exact o -> hadamard_transform o Scalar x = hadamard_transform o V3 x.
Proof.
  intros o x E. destruct (is_pow2 (length x)) eqn:P.
  - apply is_pow2_spec in P as (k & K). now rewrite !(transform_wht o E _ k x K).
  - unfold hadamard_transform. now rewrite P.
Qed.
Print Assumptions C82_implementations_agree.

Example C82_met : exact real_ops /\ length (map INR (seq 0 128)) = 2 ^ 7 /\
  hadamard_transform real_ops Scalar [3; 5; 7; 2]%R = Some [17 / 2; 3 / 2; - (1 / 2); - (7 / 2)]%R /\
  sylvester 2 3 2 = (-1)%R.
Proof.
  split; [exact real_exact|]. split; [now rewrite map_length, seq_length|]. split.
  - rewrite (transform_wht real_ops real_exact Scalar 2) by reflexivity.
    assert (S : sqrt (INR (2 ^ 2)) = 2%R).
    { change (2 ^ 2) with 4. replace (INR 4) with (2 * 2)%R by (cbn; ring). apply sqrt_square. lra. }
    rewrite S. unfold wht, map2. cbn [Nat.pow Nat.mul Nat.add firstn skipn combine map fst snd app].
    f_equal. repeat (f_equal; [lra|]). f_equal; lra.
  - cbn. lra.
Qed.

(** ** C83: transforms are isometries of the documented dimensions.
    For every kind of transform, dimension, source of randomness: the constructed transform takes
    vectors of the given dimension and returns vectors of the documented one, and reports that it
    preserves norms exactly in the documented cases. *)
Theorem C83_dimensions : forall k dim bits sample, 0 < dim -> valid_target k -> samples sample -> small k dim ->
  let t := transform_new k dim bits sample in
  input_dim t = dim /\ documented_output k dim (output_dim t) /\
  (preserves_norms t = true <-> documented_preserves k dim (output_dim t)).
Proof.
  intros k dim bits sample D V SA B. cbn zeta. destruct k as [t|t|]; cbn [transform_new input_dim].
  - destruct (padding_new_ok dim t bits sample D V SA B) as (L & _ & _ & O & P). cbn zeta in *.
    split; [exact L|]. split; [exact O|]. etransitivity; [|exact P]. cbn [preserves_norms].
    destruct (p_sub _); split; congruence.
  - destruct (double_new_ok dim t bits sample D V SA B) as (L & _ & _ & _ & O & P). cbn zeta in *.
    split; [exact L|]. cbn [output_dim]. split; [exact O|]. etransitivity; [|exact P]. cbn [preserves_norms].
    destruct (d_sub _); split; congruence.
  - cbn. tauto.
Qed.
Print Assumptions C83_dimensions.

(** In any arithmetic, for constructed and for accepted transforms: the source is refused exactly if
    its length is wrong, then the destination; otherwise the transform does not panic and fills the
    destination.  (For an accepted double transform with a choice of coordinates this needs the
    indices to lie within the intermediate dimension; see [C84_accepted_panics_refuted].) *)
Theorem C83_total : forall F (o : ops F) ar t dst src,
  accepted t \/ (exists k dim bits sample, 0 < dim /\ valid_target k /\ samples sample /\ small k dim /\ t = transform_new k dim bits sample) ->
  match t with
  | TDouble d => accepted t -> forall idx, d_sub d = Some idx ->
                 Forall (fun i => N.to_nat i < Nat.max (length (d_signs0 d)) (length idx)) idx
  | _ => True
  end ->
  match transform_into o ar t dst src with
  | SourceMismatch => length src <> input_dim t
  | DestinationMismatch => length src = input_dim t /\ length dst <> output_dim t
  | Panicked => False
  | Done y => length src = input_dim t /\ length dst = output_dim t /\ length y = output_dim t
  end.
Proof.
  intros F o ar t dst src A IDX. unfold transform_into.
  destruct (Nat.eqb_spec (length src) (input_dim t)) as [S|S]; cbn [negb]; [|exact S].
  destruct (Nat.eqb_spec (length dst) (output_dim t)) as [D|D]; cbn [negb]; [|now split].
  assert (AC : accepted t).
  { destruct A as [A|(k & dim & bits & sample & D0 & V & SA & B & ->)]; [exact A|].
    destruct k as [tt|tt|]; cbn [transform_new accepted].
    - destruct (padding_new_ok dim tt bits sample D0 V SA B) as (_ & _ & P & _). cbn zeta in P. eauto.
    - destruct (double_new_ok dim tt bits sample D0 V SA B) as (_ & _ & _ & P & _). cbn zeta in P. eauto.
    - exact D0. }
  clear A. destruct t as [p|d|n].
  - destruct AC as (s & n & u & AC). apply padding_accept in AC as (-> & _ & L & P & I).
    destruct (padding_some o ar (mkPad s n u) dst src L P S D) as (y & Y & YL).
    { cbn [p_sub p_dim]. intros idx Ei. destruct (I idx Ei) as (_ & _ & FA). exact FA. }
    rewrite Y. auto.
  - specialize (IDX AC). destruct AC as (s0 & s1 & u & AC). apply double_accept in AC as (-> & NE & L & _ & _ & I).
    cbn [d_sub d_signs0 d_signs1 d_target input_dim output_dim] in *.
    destruct (double_some o ar (mkDbl s0 s1 (match u with None => length s1 | Some idx => length idx end) u) dst src) as (y & Y & YL); cbn [d_sub d_signs0 d_target].
    { destruct s0; [contradiction|cbn; lia]. }
    { exact S. }
    { intros idx ->. exact (IDX idx eq_refl). }
    rewrite Y. split; [exact S|]. split; [exact D|]. rewrite YL. cbn [d_sub d_signs0 d_target]. destruct u; lia.
  - cbn [output_dim input_dim] in *. auto.
Qed.
Print Assumptions C83_total.

(** In exact arithmetic, a transform that reports preserving norms preserves inner products and
    squared distances, and hence norms, whatever the destinations held before. *)
Theorem C83_isometry : forall o ar t x y dx dy, exact o -> accepted t -> preserves_norms t = true ->
  length x = input_dim t -> length y = input_dim t -> length dx = output_dim t -> length dy = output_dim t ->
  exists x' y', transform_into o ar t dx x = Done x' /\ transform_into o ar t dy y = Done y' /\
    dot (output_dim t) x' y' = dot (input_dim t) x y /\
    dot (output_dim t) x' x' = dot (input_dim t) x x /\
    sqdist (output_dim t) x' y' = sqdist (input_dim t) x y.
Proof.
  intros o ar t x y dx dy E AC PN X Y DX DY. unfold transform_into. rewrite X, Y, DX, DY, !Nat.eqb_refl. cbn [negb].
  assert (K : forall (f : list R -> list R),
    (forall a b, length a = input_dim t -> length b = input_dim t -> length (f a) = output_dim t /\ ldot (f a) (f b) = ldot a b) ->
    dot (output_dim t) (f x) (f y) = dot (input_dim t) x y /\
    dot (output_dim t) (f x) (f x) = dot (input_dim t) x x /\
    sqdist (output_dim t) (f x) (f y) = sqdist (input_dim t) x y).
  { intros f H. destruct (H x y X Y) as (LX & XY). destruct (H y x Y X) as (LY & _). destruct (H x x X X) as (_ & XX). destruct (H y y Y Y) as (_ & YY).
    rewrite !sqdist_dot, !dot_ldot' by assumption. rewrite XY, XX, YY. auto. }
  destruct t as [p|d|n].
  - cbn [preserves_norms] in PN. destruct (p_sub p) eqn:S; [discriminate|].
    destruct AC as (s & n & u & AC). apply padding_accept in AC as (-> & SG & L & P & _). cbn [p_sub] in S. subst u.
    cbn [input_dim output_dim p_signs p_sub p_dim] in *.
    exists (image_p o (mkPad s n None) x), (image_p o (mkPad s n None) y).
    split; [now apply padding_image|]. split; [now apply padding_image|].
    apply K. intros a b LA LB. exact (padding_image_ldot o E (mkPad s n None) a b SG L P LA LB).
  - cbn [preserves_norms] in PN. destruct (d_sub d) eqn:S; [discriminate|].
    destruct AC as (s0 & s1 & u & AC). apply double_accept in AC as (-> & NE & L & S0 & S1 & _). cbn [d_sub] in S. subst u.
    cbn [input_dim output_dim d_signs0 d_target] in *.
    assert (N0 : 0 < length s0) by (destruct s0; [contradiction|cbn; lia]).
    exists (image_d o (mkDbl s0 s1 (length s1) None) x), (image_d o (mkDbl s0 s1 (length s1) None) y).
    split; [now apply double_image|]. split; [now apply double_image|].
    apply K. intros a b LA LB. destruct (double_image_ldot o E (mkDbl s0 s1 (length s1) None) a b S0 S1 N0 LA LB) as (A1 & A2).
    split; [|exact A2]. rewrite A1. cbn [d_signs0 d_target]. lia.
  - exists x, y. split; [reflexivity|]. split; [reflexivity|]. cbn [output_dim input_dim] in *. auto.
Qed.
Print Assumptions C83_isometry.

(** A constructed transform with a choice of coordinates returns the chosen coordinates, in
    increasing order, of the transform without that choice, which preserves norms; each is scaled by
    the square root of the ratio of the dimensions. *)
Theorem C83_subsampled : forall o ar k dim bits sample idx x dst, exact o ->
  0 < dim -> valid_target k -> samples sample -> small k dim ->
  let t := transform_new k dim bits sample in
  chosen t = Some idx -> length x = dim -> length dst = output_dim t ->
  accepted (full t) /\ preserves_norms (full t) = true /\ input_dim (full t) = dim /\
  StronglySorted N.lt idx /\ length idx = output_dim t /\ Forall (fun i => N.to_nat i < output_dim (full t)) idx /\
  forall full_dst, length full_dst = output_dim (full t) ->
  exists y z, transform_into o ar t dst x = Done y /\ transform_into o ar (full t) full_dst x = Done z /\
  forall j i, nth_error idx j = Some i ->
    coord y j = (sqrt (INR (output_dim (full t)) / INR (output_dim t)) * coord z (N.to_nat i))%R.
Proof.
  intros o ar k dim bits sample idx x dst E D V SA B t CH X DL.
  assert (G : forall z (idx : list N), Forall (fun i => N.to_nat i < length z) idx ->
    exists y, subsampled o z idx = Done y /\
    forall j i, nth_error idx j = Some i -> coord y j = (sqrt (INR (length z) / INR (length idx)) * coord z (N.to_nat i))%R).
  { intros z ix FA. unfold subsampled.
    destruct (gather_some o z (root o (div o (of_nat o (length z)) (of_nat o (length ix)))) ix FA) as (r & -> & _ & K).
    exists r. split; [reflexivity|]. intros j i J. destruct (K j i J) as (v & V1 & V2).
    unfold coord. rewrite (nth_error_nth _ _ _ V2), (nth_error_nth _ _ _ V1).
    rewrite (ex_mul o E), (ex_root o E), (ex_div o E), !(ex_nat o E). ring. }
  destruct k as [tt|tt|]; [| |discriminate].
  - destruct (padding_new_ok dim tt bits sample D V SA B) as (L & _ & AC & _). cbn zeta in *.
    unfold t in *. cbn [transform_new chosen] in *. clear t. set (p := padding_new dim tt bits sample) in *. clearbody p.
    pose proof (proj1 (padding_accept _ _ _ _) AC) as (_ & SG & LE & P & I). destruct (I idx CH) as (_ & SS & FA).
    unfold full. cbn [accepted preserves_norms input_dim output_dim p_signs p_dim p_sub] in *. rewrite CH in *.
    split. { exists (p_signs p), (p_dim p), None. apply padding_accept. split; [reflexivity|]. repeat (split; [assumption|]). discriminate. }
    split; [reflexivity|]. split; [exact L|]. split; [exact SS|]. split; [reflexivity|]. split; [exact FA|].
    intros fd FD. set (q := mkPad (p_signs p) (p_dim p) None).
    assert (IL : length (image_p o q x) = p_dim p).
    { unfold image_p. rewrite scaled_length; unfold q; cbn [p_dim p_signs]; rewrite log2_pow2' by exact P; [reflexivity|]. apply padded_length. lia. }
    assert (QI : forall d', length d' = p_dim p -> padding_into o ar q d' x = Done (image_p o q x)).
    { intros d' L'. apply padding_image; auto; unfold q; cbn [p_signs p_dim]; lia. }
    assert (TR : padding_into o ar p dst x = subsampled o (image_p o q x) idx).
    { unfold padding_into. rewrite CH. specialize (QI (repeat (zero o) (p_dim p)) (repeat_length _ _)).
      unfold padding_into in QI. cbn [p_sub] in QI. change (p_sub q) with (@None (list N)) in QI. cbn iota in QI.
      change (copy_and_flip o p (repeat (zero o) (p_dim p)) x) with (copy_and_flip o q (repeat (zero o) (p_dim p)) x).
      destruct (hadamard_transform o ar (copy_and_flip o q (repeat (zero o) (p_dim p)) x)); [injection QI as ->; reflexivity|discriminate]. }
    rewrite <- IL in FA. destruct (G (image_p o q x) idx FA) as (y & Gy & K). exists y, (image_p o q x).
    unfold transform_into. fold q. change (input_dim (TPadding q)) with (input_dim (TPadding p)). change (output_dim (TPadding q)) with (p_dim p).
    cbn [input_dim output_dim]. rewrite CH, X, L, DL, FD, !Nat.eqb_refl. cbn [negb].
    split; [now rewrite TR|]. split; [exact (QI fd FD)|]. rewrite IL in K. exact K.
  - destruct (double_new_ok dim tt bits sample D V SA B) as (L & _ & L1 & AC & _). cbn zeta in *.
    unfold t in *. cbn [transform_new chosen] in *. clear t. set (p := double_new dim tt bits sample) in *. clearbody p.
    specialize (L1 idx CH).
    pose proof (proj1 (double_accept _ _ _ _) AC) as (EQ & NE & LE & SG0 & SG1 & I). destruct (I idx CH) as (NI & SS & FA).
    assert (TG : d_target p = length idx).
    { rewrite EQ. cbn [d_target]. rewrite CH. reflexivity. }
    assert (LI : length idx <= length (d_signs1 p)).
    { clear - SS FA. assert (ND : NoDup (map N.to_nat idx)).
      { apply NoDup_map_inj; [intros; lia|]. clear FA. induction SS as [|a l S IH F]; constructor; auto.
        intros HI. rewrite Forall_forall in F. specialize (F a HI). lia. }
      assert (IN : incl (map N.to_nat idx) (seq 0 (length (d_signs1 p)))).
      { intros z Hz. apply in_map_iff in Hz as (i & <- & Hi). rewrite Forall_forall in FA. specialize (FA i Hi). apply in_seq. cbn in *. lia. }
      pose proof (NoDup_incl_length ND IN) as Q. rewrite map_length, seq_length in Q. exact Q. }
    assert (MX : Nat.max (length (d_signs0 p)) (d_target p) = dim) by lia.
    unfold full. cbn [accepted preserves_norms input_dim output_dim d_signs0 d_signs1 d_target d_sub]. rewrite MX.
    split. { exists (d_signs0 p), (d_signs1 p), None. apply double_accept. split; [now rewrite L1|]. repeat (split; [assumption|]). discriminate. }
    split; [reflexivity|]. split; [exact L|]. split; [exact SS|]. split; [lia|].
    rewrite L1 in FA. split; [exact FA|].
    intros fd FD. set (q := mkDbl (d_signs0 p) (d_signs1 p) dim None).
    assert (N0 : 0 < length (d_signs0 p)) by lia.
    assert (IL : length (image_d o q x) = dim).
    { destruct (double_image_ldot o E q x x SG0 SG1 N0 ltac:(unfold q; cbn [d_signs0]; lia) ltac:(unfold q; cbn [d_signs0]; lia)) as (A1 & _).
      rewrite A1. unfold q. cbn [d_signs0 d_target]. lia. }
    assert (QI : double_into o ar q fd x = Done (image_d o q x)).
    { apply double_image; auto. unfold q. cbn [d_signs0]. lia. }
    assert (TR : double_into o ar p dst x = subsampled o (image_d o q x) idx).
    { assert (M2 : Nat.max (length (d_signs0 q)) (d_target q) = dim) by (unfold q; cbn [d_signs0 d_target]; lia).
      unfold double_into in QI |- *. rewrite M2 in QI. rewrite MX. unfold q in QI. cbn [d_signs0 d_signs1 d_sub] in QI. fold q in QI.
      rewrite CH. destruct (dim =? 0); [discriminate|].
      destruct (hadamard_transform o ar _); [|discriminate]. destruct (hadamard_transform o ar _); [|discriminate].
      injection QI as ->. reflexivity. }
    rewrite <- IL in FA. destruct (G (image_d o q x) idx FA) as (y & Gy & K). exists y, (image_d o q x).
    unfold transform_into. fold q. change (input_dim (TDouble q)) with (input_dim (TDouble p)).
    change (output_dim (TDouble q)) with dim. cbn [input_dim output_dim].
    rewrite X, L, FD, !Nat.eqb_refl. cbn [output_dim] in DL. rewrite DL, Nat.eqb_refl. cbn [negb].
    split; [now rewrite TR|]. split; [exact QI|]. rewrite IL in K. rewrite TG. exact K.
Qed.
Print Assumptions C83_subsampled.

Definition first_indices (len amount : nat) : list nat := seq 0 amount.
Example C83_met : samples first_indices /\
  (let t := transform_new (KDouble (Override 5)) 6 Nat.even first_indices in
   chosen t = Some [0; 1; 2; 3; 4]%N /\ output_dim t = 5 /\ output_dim (full t) = 6) /\
  (let t := transform_new (KPadding Same) 6 Nat.even first_indices in
   chosen t = Some [0; 1; 2; 3; 4; 5]%N /\ output_dim t = 6 /\ output_dim (full t) = 8) /\
  (let t := transform_new (KDouble Same) 6 Nat.even first_indices in
   preserves_norms t = true /\ accepted t /\ input_dim t = 6 /\ output_dim t = 6).
Proof.
  split. { intros len amount L. unfold first_indices. rewrite seq_length. split; [reflexivity|]. split; [apply seq_NoDup|].
    apply Forall_forall. intros i Hi. apply in_seq in Hi. lia. }
  split; [vm_compute; auto|]. split; [vm_compute; auto|]. split; [reflexivity|]. split; [|vm_compute; auto].
  exists (d_signs0 (double_new 6 Same Nat.even first_indices)), (d_signs1 (double_new 6 Same Nat.even first_indices)), None. reflexivity.
Qed.

(** ** C84: stored transforms.
    A constructed transform that is stored and read back is the same transform. *)
Theorem C84_round_trip : forall k dim bits sample, 0 < dim -> valid_target k -> samples sample -> small k dim ->
  unpack (pack (transform_new k dim bits sample)) = inl (transform_new k dim bits sample).
Proof. exact pack_unpack. Qed.
Print Assumptions C84_round_trip.

(** Parts are accepted exactly if they are valid. *)
Theorem C84_padding_accepted : forall signs n u p, padding_from_parts signs n u = inl p <->
  p = mkPad signs n u /\ Forall (fun s => s = 0%N \/ s = SIGN) signs /\ length signs <= n /\ (exists k, n = 2 ^ k) /\
  (forall idx, u = Some idx -> idx <> [] /\ StronglySorted N.lt idx /\ Forall (fun i => N.to_nat i < n) idx).
Proof.
  intros. rewrite padding_accept, is_pow2_spec, forallb_forall, Forall_forall.
  assert (A : (forall x, In x signs -> is_sign x = true) <-> (forall x, In x signs -> x = 0%N \/ x = SIGN)).
  { unfold is_sign. split; intros H x Hx; specialize (H x Hx); rewrite orb_true_iff, !N.eqb_eq in *; tauto. }
  rewrite A. reflexivity.
Qed.
Print Assumptions C84_padding_accepted.
Theorem C84_double_accepted : forall s0 s1 u d, double_from_parts s0 s1 u = inl d <->
  d = mkDbl s0 s1 (match u with None => length s1 | Some idx => length idx end) u /\
  s0 <> [] /\ length s0 <= length s1 /\
  Forall (fun s => s = 0%N \/ s = SIGN) s0 /\ Forall (fun s => s = 0%N \/ s = SIGN) s1 /\
  (forall idx, u = Some idx -> idx <> [] /\ StronglySorted N.lt idx /\ Forall (fun i => N.to_nat i < length s1) idx).
Proof.
  intros. rewrite double_accept, !forallb_forall, !Forall_forall.
  assert (A : forall s, (forall x, In x s -> is_sign x = true) <-> (forall x, In x s -> x = 0%N \/ x = SIGN)).
  { intros s. unfold is_sign. split; intros H x Hx; specialize (H x Hx); rewrite orb_true_iff, !N.eqb_eq in *; tauto. }
  rewrite !A. reflexivity.
Qed.
Print Assumptions C84_double_accepted.

(** Finding: the validation of a double transform accepts parts that make every transform panic. *)
Theorem C84_accepted_panics_refuted :
  exists s0 s1 u d, double_from_parts s0 s1 u = inl d /\
  forall F (o : ops F) ar dst src, length src = input_dim (TDouble d) -> length dst = output_dim (TDouble d) ->
  transform_into o ar (TDouble d) dst src = Panicked.
Proof.
  exists [0; 0]%N, [0; 0; 0; 0]%N, (Some [3]%N), (mkDbl [0; 0]%N [0; 0; 0; 0]%N 1 (Some [3]%N)). split; [reflexivity|].
  intros F o ar dst src S D. cbn [input_dim output_dim d_signs0 d_target length] in S, D.
  unfold transform_into. cbn [input_dim output_dim d_signs0 d_target length]. rewrite S, D. cbn [Nat.eqb negb].
  destruct src as [|a [|b [|? ?]]]; try discriminate. destruct ar; reflexivity.
Qed.
Print Assumptions C84_accepted_panics_refuted.

(** Finding: the assertion made in debug builds before accepting, said to be implied by the checks,
    is not: a choice of all the coordinates fails it. *)
Theorem C84_debug_assert_refuted :
  exists s0 s1 u d, double_from_parts s0 s1 u = inl d /\ double_debug_assert s1 u = false.
Proof. exists [0; 0]%N, [0; 0]%N, (Some [0; 1]%N). eexists. split; reflexivity. Qed.
Print Assumptions C84_debug_assert_refuted.

Example C84_met :
  unpack (pack (transform_new (KDouble (Override 5)) 6 Nat.even first_indices)) =
    inl (TDouble (mkDbl [SIGN; 0; SIGN; 0; SIGN; 0] [SIGN; 0; SIGN; 0; SIGN; 0] 5 (Some [0; 1; 2; 3; 4])))%N /\
  small (KPadding (Override 5)) 6 /\ valid_target (KPadding (Override 5)).
Proof. split; [reflexivity|]. split; [split; vm_compute; discriminate|]. cbn [valid_target]. lia. Qed.
