(** C121: distances between vectors compressed by the spherical quantizer. *)
From Coq Require Import Reals ZArith List Lra Lia.
Import ListNotations.
From Verif.Spherical Require Import Model3 Spec3 Proofs6 Proofs7.
Local Open Scope R_scope.

(** Between two stored vectors the distance is off by the error of one inner product, that of the
    vectors the codes stand for, and by nothing else. *)
Theorem C121_data q bits oldx oldy x y dx dy : sound q -> compress_data q bits oldx x = Some dx -> compress_data q bits oldy y = Some dy ->
  distance_data q bits dx dy = exact q x y - weight q * (dotp (rebuilt bits dx) (rebuilt bits dy) - dotp (centred q x) (centred q y)).
Proof.
  intros SQ X%(compressed _ _ _ _ _ SQ) Y%(compressed _ _ _ _ _ SQ). unfold distance_data.
  rewrite (ft_ms _ _ _ _ X), (ft_ms _ _ _ _ Y), (kernel_is _ _ _ _ _ _ X Y). apply assembled; [apply (ft_len _ _ _ _ X)|apply (ft_len _ _ _ _ Y)].
Qed.
Print Assumptions C121_data.

(** So it is with a query that is kept in full. *)
Theorem C121_full q bits old x y f d : sound q -> compress_full q x = Some f -> compress_data q bits old y = Some d ->
  distance_full q bits f d = exact q x y - weight q * (dotp (rebuilt_full f) (rebuilt bits d) - dotp (centred q x) (centred q y)).
Proof.
  intros SQ X%(compressed_full _ _ _ SQ) Y%(compressed _ _ _ _ _ SQ). unfold distance_full.
  rewrite (ff_ms _ _ _ X), (ft_ms _ _ _ _ Y), (full_is _ _ _ _ _ _ X Y). apply assembled; [apply (ff_len _ _ _ X)|apply (ft_len _ _ _ _ Y)].
Qed.
Print Assumptions C121_full.

(** And with a quantized query, *)
Theorem C121_query q qbits bits oldx oldy x y qx m d : sound q -> compress_query q qbits oldx x = Some qx -> y_meta qx = Some m -> compress_data q bits oldy y = Some d ->
  distance_query q bits qx d = Some (exact q x y - weight q * (dotp (rebuilt_query (y_codes qx) m) (rebuilt bits d) - dotp (centred q x) (centred q y))).
Proof.
  intros SQ X M Y%(compressed _ _ _ _ _ SQ). pose proof (compressed_query _ _ _ _ _ _ SQ X M) as F. unfold distance_query. rewrite M.
  rewrite (fq_ms _ _ _ _ _ F), (ft_ms _ _ _ _ Y), (query_is _ _ _ _ _ _ _ _ F Y). f_equal. apply assembled; [apply (fq_len _ _ _ _ _ F)|apply (ft_len _ _ _ _ Y)].
Qed.
Print Assumptions C121_query.

(** each component of which is as near to the full one as half a step of the range allows; *)
Theorem C121_query_error q bits old x qx f m : sound q -> (1 <= bits)%nat -> compress_query q bits old x = Some qx -> compress_full q x = Some f -> y_meta qx = Some m ->
  forall w, (forall a b, In a (f_vec f) -> In b (f_vec f) -> a - b <= w) ->
  Forall2 (fun a b => Rabs (a - b) <= f_norm f * w / (2 * (2 ^ bits - 1))) (rebuilt_query (y_codes qx) m) (rebuilt_full f).
Proof. apply query_near. Qed.
Print Assumptions C121_query_error.

(** unless all its components are the same, and then no distance is a number. *)
Theorem C121_query_nan q qbits bits old x qx f d : sound q -> (1 <= qbits)%nat -> (1 <= output_dim q)%nat -> compress_query q qbits old x = Some qx -> compress_full q x = Some f ->
  (distance_query q bits qx d = None <-> f_norm f <> 0 /\ flat (f_vec f)).
Proof.
  intros SQ HB HO X F. rewrite <- (query_nan _ _ _ _ _ _ SQ HB HO X F). unfold distance_query. destruct (y_meta qx); split; congruence.
Qed.
Print Assumptions C121_query_nan.

(** In the direction of a stored vector, its distance to a full query is exact. *)
Theorem C121_own_direction q bits old x y f d l : sound q -> preserves_norms q = true -> compress_data q bits old x = Some d -> compress_full q y = Some f ->
  0 < l -> centred q y = map (Rmult l) (centred q x) -> distance_full q bits f d = exact q y x.
Proof.
  intros SQ PN X Y L E. rewrite (C121_full q bits old y x f d SQ Y X).
  rewrite (own _ _ _ _ _ _ l (compressed _ _ _ _ _ SQ X) (compressed_full _ _ _ SQ Y) L E). unfold factor. rewrite PN.
  destruct (Req_EM_T _ 0); lra.
Qed.
Print Assumptions C121_own_direction.

(** With a transform that does not keep norms it is off by what the transform has done to the norm. *)
Theorem C121_sampled q bits old x y f d l : sound q -> preserves_norms q = false -> compress_data q bits old x = Some d -> compress_full q y = Some f ->
  0 < l -> centred q y = map (Rmult l) (centred q x) -> dotp (centred q x) (centred q x) <> 0 ->
  distance_full q bits f d = exact q y x - weight q * (norm (f_vec f) - 1) * dotp (centred q y) (centred q x).
Proof.
  intros SQ PN X Y L E NZ. rewrite (C121_full q bits old y x f d SQ Y X). pose proof (compressed_full _ _ _ SQ Y) as G.
  rewrite (own _ _ _ _ _ _ l (compressed _ _ _ _ _ SQ X) G L E). unfold factor. rewrite PN.
  destruct (Req_EM_T (norm (shifted q x)) 0) as [Z0|N]; [rewrite <- shifted_centred, (norm_zero _ Z0) in NZ; lra|].
  rewrite <- !shifted_centred in E. assert (NY : norm (shifted q y) = l * norm (shifted q x)) by (rewrite E; apply norm_scale; lra).
  rewrite (ff_trans _ _ _ G) by (rewrite NY; apply Rmult_integral_contrapositive_currified; lra).
  assert (T : transformed q (shifted q y) = transformed q (shifted q x)) by (unfold transformed; now rewrite (same_unit l (shifted q x) (shifted q y))).
  rewrite T. lra.
Qed.
Print Assumptions C121_sampled.

(** Between a stored vector and itself the distance is never too large. *)
Theorem C121_self q bits old x d : sound q -> compress_data q bits old x = Some d -> distance_data q bits d d <= exact q x x.
Proof.
  intros SQ X. rewrite (C121_data q bits old old x x d d SQ X X). pose proof (longer _ _ _ _ SQ (compressed _ _ _ _ _ SQ X)).
  unfold weight. destruct (kind q); lra.
Qed.
Print Assumptions C121_self.

(** The distances of a vector at the centre are exact, whatever was stored in its place before. *)
Theorem C121_centre q bits oldx x dx : sound q -> compress_data q bits oldx x = Some dx -> (forall a, In a (centred q x) -> a = 0) ->
  (forall oldy y dy, compress_data q bits oldy y = Some dy -> distance_data q bits dx dy = exact q x y) /\
  (forall y f, compress_full q y = Some f -> distance_full q bits f dx = exact q y x) /\
  (forall qbits oldy y qy m, compress_query q qbits oldy y = Some qy -> y_meta qy = Some m -> distance_query q bits qy dx = Some (exact q y x)).
Proof.
  intros SQ X Z0. pose proof (compressed _ _ _ _ _ SQ X) as F.
  assert (N0 : norm (shifted q x) = 0) by (unfold norm; rewrite shifted_centred, (dotp_all0 _ Z0); apply sqrt_0).
  assert (R0 : forall v, dotp (rebuilt bits dx) v = 0).
  { intros v. rewrite rebuilt_lattice, dotp_scale. destruct (ft_point _ _ _ _ F) as [[-> _]|(_ & K & _)]; [lra|contradiction]. }
  split; [|split].
  - intros oldy y dy Y. rewrite (C121_data q bits oldx oldy x y dx dy SQ X Y), R0, (dotp_all0 _ Z0). lra.
  - intros y f Y. rewrite (C121_full q bits oldx y x f dx SQ Y X), dotp_comm, R0, (dotp_comm (centred q y)), (dotp_all0 _ Z0). lra.
  - intros qbits oldy y qy m Y M. rewrite (C121_query q qbits bits oldy oldx y x qy m dx SQ Y M X), dotp_comm, R0, (dotp_comm (centred q y)), (dotp_all0 _ Z0). f_equal. lra.
Qed.
Print Assumptions C121_centre.

(** Every vector can be compressed, into codes of the given bits, when the codes cannot add up to
    more than sixteen bits hold and norms are kept. *)
Theorem C121_compress q bits old x : sound q -> (1 <= bits)%nat -> length x = length (shift q) -> length old = output_dim q ->
  (Z.of_nat (output_dim q) * (2 ^ Z.of_nat bits - 1) <= 65535)%Z -> preserves_norms q = true ->
  exists d, compress_data q bits old x = Some d /\ ((exists a, In a (centred q x) /\ a <> 0) -> forall z, In z (d_codes d) -> (0 <= z <= 2 ^ Z.of_nat bits - 1)%Z).
Proof.
  intros SQ HB LX LO W PN. destruct (succeeds q bits old x SQ HB LX LO W PN) as (d & E & H). exists d. split; [exact E|].
  intros (a & I & NA). destruct H as [H|H]; [|exact H]. elim NA. apply (dotp_zero (centred q x)); [|exact I]. rewrite <- shifted_centred. now apply norm_zero.
Qed.
Print Assumptions C121_compress.

(** Of two vectors on opposite sides of the centre one cannot be compressed when there are too many
    components: from 515 on with eight bits, although the vectors may be as small as one likes. *)
Theorem C121_wide_refuted q bits oldx oldy x y dx dy : sound q -> (2 <= bits)%nat -> (131070 < Z.of_nat (output_dim q) * (2 ^ Z.of_nat bits - 1))%Z ->
  (forall v, transform q (map Ropp v) = map Ropp (transform q v)) -> (forall t, best_scale q (map Ropp t) = best_scale q t) ->
  (exists a, In a (centred q x) /\ a <> 0) -> centred q y = map Ropp (centred q x) ->
  compress_data q bits oldx x = Some dx -> compress_data q bits oldy y = Some dy -> False.
Proof.
  intros SQ HB W TO BE (a & IA & NA) OPP. unfold compress_data.
  destruct (check_dims q (length x) (length oldx)) eqn:CX; [|discriminate]. destruct (check_dims q (length y) (length oldy)) eqn:CY; [|discriminate].
  apply dims in CX as [LX _]. apply dims in CY as [LY _]. cbv zeta. rewrite <- !shifted_centred in OPP.
  assert (MO : forall v, map Ropp v = map (Rmult (-1)) v) by (intros v; apply map_ext; intros; ring).
  assert (NN : norm (shifted q y) = norm (shifted q x)).
  { rewrite OPP. unfold norm. f_equal. rewrite MO, dotp_scale, (dotp_comm _ (map _ _)), dotp_scale. ring. }
  destruct (Req_EM_T (norm (shifted q x)) 0) as [E|N].
  { elim NA. apply (dotp_zero (centred q x)); [|exact IA]. rewrite <- shifted_centred. now apply norm_zero. }
  destruct (Req_EM_T (norm (shifted q y)) 0) as [E|_]; [congruence|]. replace (Nat.eqb bits 1) with false by (symmetry; apply Nat.eqb_neq; lia).
  assert (T : transformed q (shifted q y) = map Ropp (transformed q (shifted q x))).
  { unfold transformed. rewrite <- TO, NN, OPP, !map_map. f_equal. apply map_ext. intros. unfold Rdiv. ring. }
  rewrite T. pose proof (trans_len q x SQ LX) as LT. set (t := transformed q (shifted q x)) in *. unfold finish. cbv zeta. rewrite BE. set (s := best_scale q t). set (o := (2 ^ bits - 1) / 2).
  set (cx := map (fun r => round (clamp (r * s + o) 0 (2 ^ bits - 1))) t). set (cy := map (fun r => round (clamp (r * s + o) 0 (2 ^ bits - 1))) (map Ropp t)).
  destruct (Req_EM_T (dotp _ _) 0) as [|_]; [discriminate|]. intros [_ SX]%new_data_in. destruct (Req_EM_T (dotp _ _) 0) as [|_]; [discriminate|]. intros [_ SY]%new_data_in.
  assert (K : (Z.of_nat (length t) * (2 ^ Z.of_nat bits - 1) <= zsum cx + zsum cy)%Z).
  { unfold cx, cy. rewrite map_map. clearbody s t. clear - HB. induction t as [|a t IH]; [cbn; lia|]. cbn [map length].
    match goal with |- (_ <= zsum (?u :: ?l) + zsum (?v :: ?m))%Z => change (zsum (u :: l)) with (u + zsum l)%Z; change (zsum (v :: m)) with (v + zsum m)%Z end.
    assert (P : (2 ^ Z.of_nat bits - 1 <= round (clamp (a * s + o) 0 (2 ^ bits - 1)) + round (clamp (- a * s + o) 0 (2 ^ bits - 1)))%Z); [|lia].
    assert (HI : 0 <= 2 ^ bits - 1) by (rewrite <- top_real; apply (IZR_le 0); pose proof (top_pos bits); lia).
    assert (M : clamp (- a * s + o) 0 (2 ^ bits - 1) = (2 ^ bits - 1) - clamp (a * s + o) 0 (2 ^ bits - 1)).
    { unfold clamp, o, Rmin, Rmax. repeat destruct (Rle_dec _ _); lra. }
    rewrite M. set (c := clamp (a * s + o) 0 (2 ^ bits - 1)). destruct (int_part_bounds (c + 1 / 2)) as [_ I1]. destruct (int_part_bounds (2 ^ bits - 1 - c + 1 / 2)) as [_ I2].
    fold (round c) in I1. fold (round (2 ^ bits - 1 - c)) in I2. assert (L : IZR (2 ^ Z.of_nat bits - 1 - 1) < IZR (round c + round (2 ^ bits - 1 - c))) by (rewrite minus_IZR, top_real, plus_IZR; lra).
    apply lt_IZR in L. lia. }
  rewrite LT in K. lia.
Qed.
Print Assumptions C121_wide_refuted.

(** A quantizer of two components that changes nothing. *)
Definition plain (k : metric) (c : list R) : quantizer := mkQ c k 1 (fun v => v) (length c) true (fun _ => 1).
Lemma plain_sound k c : sound (plain k c).
Proof. split; [|split]; cbn; auto. intros _. lra. Qed.

(** A query that differs from the centre by the same amount everywhere is compressed without an
    error, and is at no distance from anything. *)
Theorem C121_flat_refuted : exists q x qx, sound q /\ compress_query q 4 [0; 0]%Z x = Some qx /\ forall bits d, distance_query q bits qx d = None.
Proof.
  exists (plain L2 [0; 0]), [1; 1].
  assert (E : exists f, compress_full (plain L2 [0; 0]) [1; 1] = Some f /\ f_norm f <> 0 /\ flat (f_vec f)).
  { unfold compress_full. cbn [check_dims plain length shift output_dim Nat.eqb andb]. cbv zeta.
    assert (N : norm (shifted (plain L2 [0; 0]) [1; 1]) <> 0). { intros K%norm_zero. cbn in K. lra. }
    destruct (Req_EM_T _ 0) as [|_]; [contradiction|]. eexists. split; [reflexivity|]. split; [exact N|]. intros a b. cbn [f_vec transformed plain transform shifted multiplier kind pre_scale combine map fst snd shift In].
    intros [<-|[<-|[]]] [<-|[<-|[]]]; reflexivity. }
  destruct E as (f & E & N & F).
  assert (X : exists qx, compress_query (plain L2 [0; 0]) 4 [0; 0]%Z [1; 1] = Some qx).
  { unfold compress_query. cbn [check_dims plain length shift output_dim Nat.eqb andb]. cbv zeta. destruct (Req_EM_T _ 0); [eexists; reflexivity|]. destruct (Req_EM_T _ 0); eexists; reflexivity. }
  destruct X as (qx & X). exists qx. split; [apply plain_sound|]. split; [exact X|]. intros bits d.
  apply (C121_query_nan (plain L2 [0; 0]) 4 bits [0; 0]%Z [1; 1] qx f d); auto using plain_sound; cbn; lia.
Qed.
Print Assumptions C121_flat_refuted.

(** One bit each for three and four from the origin: the codes, the correction, and the distance to
    itself, less than nothing between codes and nothing from a full query. *)
Example C121_example :
  let q := plain L2 [0; 0] in
  exists d f, compress_data q 1 [0; 0]%Z [3; 4] = Some d /\ compress_full q [3; 4] = Some f /\ d_codes d = [1; 1]%Z /\ d_ipc d = 50 / 7 /\
    distance_data q 1 d d = 50 - 2 * (1250 / 49) /\ distance_full q 1 f d = 0.
Proof.
  cbv zeta. set (q := plain L2 [0; 0]).
  assert (S5 : shifted q [3; 4] = [3; 4]). { unfold shifted, q. cbn [plain multiplier kind pre_scale shift combine map fst snd]. repeat f_equal; lra. }
  assert (N5 : norm [3; 4] = 5). { unfold norm. cbn [dotp]. replace (3 * 3 + (4 * 4 + 0)) with (5 * 5) by lra. apply sqrt_square. lra. }
  assert (T5 : transformed q [3; 4] = [3 / 5; 4 / 5]). { unfold transformed. rewrite N5. reflexivity. }
  assert (R5 : rsum (map Rabs [3 / 5; 4 / 5]) = 7 / 5). { cbn [map rsum]. rewrite !Rabs_right by lra. lra. }
  assert (D : compress_data q 1 [0; 0]%Z [3; 4] = Some (mkD [1; 1]%Z (50 / 7) 25 2)).
  { unfold compress_data. cbn [check_dims q plain length shift output_dim Nat.eqb andb]. cbv zeta. fold q. rewrite S5, N5, T5. destruct (Req_EM_T 5 0); [lra|].
    cbn [preserves_norms q plain]. fold q. unfold finish1. cbv zeta. rewrite R5, N5. destruct (Req_EM_T (7 / 5) 0); [lra|]. cbn [map].
    destruct (Rlt_dec 0 (3 / 5)); [|lra]. destruct (Rlt_dec 0 (4 / 5)); [|lra]. unfold new_data. cbn [zsum fold_right Z.add Z.leb Z.compare Pos.compare Pos.compare_cont Pos.add].
    unfold metric_specific. cbn [q plain kind]. rewrite N5. change (zsum [1; 1]%Z <=? 65535)%Z with true. cbn iota. f_equal. unfold zsum. cbn. f_equal; lra. }
  assert (G : exists f, compress_full q [3; 4] = Some f). { unfold compress_full. cbn [check_dims q plain length shift output_dim Nat.eqb andb]. cbv zeta. destruct (Req_EM_T _ 0); eexists; reflexivity. }
  destruct G as (f & G). exists (mkD [1; 1]%Z (50 / 7) 25 2), f. split; [exact D|]. split; [exact G|]. split; [reflexivity|]. split; [reflexivity|]. split.
  - unfold distance_data, assemble, kernel, offset_term. cbn. lra.
  - rewrite (C121_own_direction q 1 [0; 0]%Z [3; 4] [3; 4] f _ 1 (plain_sound _ _) eq_refl D G); [unfold exact; cbn; lra|lra|]. symmetry. rewrite <- (map_id (centred q [3; 4])) at 2. apply map_ext. intros; ring.
Qed.

(** No quantizer of eight bits that changes nothing, has its centre at the origin and has 515
    components compresses both the vector of ones and its opposite. *)
Example C121_wide_example : let q := plain L2 (repeat 0 515) in
  compress_data q 8 (repeat 0%Z 515) (repeat 1 515) = None \/ compress_data q 8 (repeat 0%Z 515) (repeat (-1) 515) = None.
Proof.
  cbv zeta. set (q := plain L2 (repeat 0 515)). destruct (compress_data q 8 (repeat 0%Z 515) (repeat 1 515)) as [dx|] eqn:X; [|now left]. right.
  destruct (compress_data q 8 (repeat 0%Z 515) (repeat (-1) 515)) as [dy|] eqn:Y; [|reflexivity]. exfalso.
  assert (C : forall a n, minus (map (Rmult 1) (repeat a n)) (repeat 0 n) = repeat a n).
  { intros a n. induction n as [|n IH]; [reflexivity|]. unfold minus in *. cbn [repeat map combine fst snd]. rewrite IH. f_equal. lra. }
  refine (C121_wide_refuted q 8 _ _ _ _ dx dy (plain_sound _ _) ltac:(lia) _ (fun _ => eq_refl) (fun _ => eq_refl) _ _ X Y).
  - unfold q, plain, output_dim. rewrite repeat_length. reflexivity.
  - exists 1. split; [|lra]. unfold q; fold q; change (centred q (repeat 1 515)) with (minus (map (Rmult 1) (repeat 1 515)) (repeat 0 515)). rewrite C. now left.
  - unfold q; fold q; change (centred q (repeat 1 515)) with (minus (map (Rmult 1) (repeat 1 515)) (repeat 0 515)). change (centred q (repeat (-1) 515)) with (minus (map (Rmult 1) (repeat (-1) 515)) (repeat 0 515)). rewrite !C.
    generalize 515%nat as n. clear. induction n as [|n IH]; [reflexivity|]. cbn [repeat map]. f_equal; exact IH.
Qed.
