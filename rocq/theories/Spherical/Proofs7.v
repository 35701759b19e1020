(** Vectors against themselves, quantized queries, and when compressing succeeds. *)
From Coq Require Import Reals ZArith List Lra Lia Bool.
Import ListNotations.
From Verif.Spherical Require Import Model3 Spec3 Proofs6.
Local Open Scope R_scope.

(** Multiples of a vector. *)
Lemma norm_scale l x : 0 <= l -> norm (map (Rmult l) x) = l * norm x.
Proof.
  intros P. unfold norm. rewrite dotp_scale, dotp_comm, dotp_scale. replace (l * (l * dotp x x)) with ((l * l) * dotp x x) by ring.
  rewrite sqrt_mult_alt by (pose proof (Rle_0_sqr l) as U; unfold Rsqr in U; exact U). now rewrite sqrt_square.
Qed.
Lemma same_unit l s x : 0 < l -> norm s <> 0 -> x = map (Rmult l) s -> map (fun v => v / norm x) x = map (fun v => v / norm s) s.
Proof. intros P N ->. rewrite norm_scale by lra. rewrite map_map. apply map_ext. intros a. field. split; lra. Qed.
Lemma unit_one s : norm s <> 0 -> dotp (map (fun v => v / norm s) s) (map (fun v => v / norm s) s) = 1.
Proof.
  intros N. assert (E : map (fun v => v / norm s) s = map (Rmult (/ norm s)) s) by (apply map_ext; intros a; unfold Rdiv; ring).
  rewrite E, dotp_scale, dotp_comm, dotp_scale, <- norm_sq. field. exact N.
Qed.
Lemma own q bits x y d f l : fits q bits x d -> fits_full q y f -> 0 < l -> centred q y = map (Rmult l) (centred q x) ->
  dotp (rebuilt_full f) (rebuilt bits d) = (if Req_EM_T (norm (shifted q x)) 0 then 1 else factor q (transformed q (shifted q x))) * dotp (centred q y) (centred q x).
Proof.
  intros F G L E. rewrite rebuilt_lattice. unfold rebuilt_full. rewrite dotp_scale, (dotp_comm _ (map _ _)), dotp_scale. rewrite E, dotp_scale, <- norm_sq, <- shifted_centred.
  destruct (Req_EM_T (norm (shifted q x)) 0) as [Z0|N].
  - destruct (ft_point _ _ _ _ F) as [[-> _]|(_ & K & _)]; [|contradiction]. rewrite Z0. ring.
  - destruct (ft_point _ _ _ _ F) as [[_ K]|(_ & _ & _ & P)]; [contradiction|].
    rewrite <- !shifted_centred in E. assert (NY : norm (shifted q y) = l * norm (shifted q x)) by (rewrite E; apply norm_scale; lra).
    rewrite (ff_trans _ _ _ G) by (rewrite NY; apply Rmult_integral_contrapositive_currified; lra).
    assert (T : transformed q (shifted q y) = transformed q (shifted q x)) by (unfold transformed; now rewrite (same_unit l (shifted q x) (shifted q y))).
    rewrite T, P, (ff_norm _ _ _ G), NY. ring.
Qed.
Lemma longer q bits x d : sound q -> fits q bits x d -> dotp (centred q x) (centred q x) <= dotp (rebuilt bits d) (rebuilt bits d).
Proof.
  intros SQ F. rewrite rebuilt_lattice, dotp_scale, (dotp_comm _ (map _ _)), dotp_scale, <- shifted_centred, <- norm_sq.
  destruct (ft_point _ _ _ _ F) as [[-> ->]|(_ & N & NZ & P)]; [lra|].
  set (t := transformed q (shifted q x)) in *. set (r := lattice bits (d_codes d)) in *. set (n := norm (shifted q x)) in *.
  pose proof (cauchy r t) as C.
  assert (TT : factor q t * factor q t = dotp t t).
  { unfold factor. destruct (preserves_norms q) eqn:PN; [|apply norm_sq]. destruct SQ as (_ & _ & S3). unfold t, transformed.
    rewrite (S3 PN) by (apply unit_len, (ft_len _ _ _ _ F)). rewrite unit_one by exact N. ring. }
  assert (TP : 0 < dotp t t).
  { pose proof (dotp_pos t). destruct (Req_dec (dotp t t) 0) as [Z0|]; [|lra]. elim NZ. rewrite dotp_comm. apply dotp_all0, dotp_zero, Z0. }
  apply Rmult_le_reg_r with (dotp t t); [exact TP|]. rewrite <- TT at 1.
  replace (n * n * (factor q t * factor q t)) with ((factor q t * n) * (factor q t * n)) by ring. rewrite <- P.
  replace (d_ipc d * dotp r t * (d_ipc d * dotp r t)) with ((d_ipc d * d_ipc d) * (dotp r t * dotp r t)) by ring.
  replace (d_ipc d * (d_ipc d * dotp r r) * dotp t t) with ((d_ipc d * d_ipc d) * (dotp r r * dotp t t)) by ring.
  apply Rmult_le_compat_l; [pose proof (Rle_0_sqr (d_ipc d)) as U; unfold Rsqr in U; exact U|exact C].
Qed.

(** Smallest and largest components. *)
Lemma min_fold t : forall a, (fold_left (fun m i => Rmin i m) t a = a \/ In (fold_left (fun m i => Rmin i m) t a) t) /\ fold_left (fun m i => Rmin i m) t a <= a /\ forall b, In b t -> fold_left (fun m i => Rmin i m) t a <= b.
Proof.
  induction t as [|c t IH]; intros a; cbn; [split; [auto|split; [lra|easy]]|]. destruct (IH (Rmin c a)) as (A & B & C). split; [|split].
  - destruct A as [A|A]; [|auto]. rewrite A. unfold Rmin. destruct (Rle_dec c a); auto.
  - pose proof (Rmin_r c a). lra.
  - intros b [<-|I]; [pose proof (Rmin_l c a); lra|auto].
Qed.
Lemma max_fold t : forall a, (fold_left (fun m i => Rmax i m) t a = a \/ In (fold_left (fun m i => Rmax i m) t a) t) /\ a <= fold_left (fun m i => Rmax i m) t a /\ forall b, In b t -> b <= fold_left (fun m i => Rmax i m) t a.
Proof.
  induction t as [|c t IH]; intros a; cbn; [split; [auto|split; [lra|easy]]|]. destruct (IH (Rmax c a)) as (A & B & C). split; [|split].
  - destruct A as [A|A]; [|auto]. rewrite A. unfold Rmax. destruct (Rle_dec c a); auto.
  - pose proof (Rmax_r c a). lra.
  - intros b [<-|I]; [pose proof (Rmax_l c a); lra|auto].
Qed.
Lemma min_in t : t <> [] -> In (minimum t) t.
Proof. destruct t as [|a t]; [easy|]. intros _. destruct (min_fold t a) as ([A|A] & _); unfold minimum; [rewrite A; now left|now right]. Qed.
Lemma max_in t : t <> [] -> In (maximum t) t.
Proof. destruct t as [|a t]; [easy|]. intros _. destruct (max_fold t a) as ([A|A] & _); unfold maximum; [rewrite A; now left|now right]. Qed.
Lemma min_le t a : In a t -> minimum t <= a.
Proof. destruct t as [|b t]; [easy|]. destruct (min_fold t b) as (_ & B & C). unfold minimum. intros [<-|I]; auto. Qed.
Lemma max_ge t a : In a t -> a <= maximum t.
Proof. destruct t as [|b t]; [easy|]. destruct (max_fold t b) as (_ & B & C). unfold maximum. intros [<-|I]; auto. Qed.
Lemma flat_iff t : t <> [] -> (flat t <-> maximum t - minimum t = 0).
Proof.
  intros N. split.
  - intros F. rewrite (F _ _ (max_in t N) (min_in t N)). lra.
  - intros E a b A B. pose proof (min_le t a A). pose proof (min_le t b B). pose proof (max_ge t a A). pose proof (max_ge t b B). lra.
Qed.
Lemma top_pos bits : (1 <= bits)%nat -> (1 <= 2 ^ Z.of_nat bits - 1)%Z.
Proof. intros H. pose proof (Z.pow_le_mono_r 2 1 (Z.of_nat bits) ltac:(lia) ltac:(lia)). lia. Qed.
Lemma top_real bits : IZR (2 ^ Z.of_nat bits - 1) = 2 ^ bits - 1.
Proof. rewrite minus_IZR. f_equal. rewrite <- pow_IZR. reflexivity. Qed.

(** A component and the code it gets in a query. *)
Lemma near bits lo w v : (1 <= bits)%nat -> 0 < w -> 0 <= v - lo <= w * (2 ^ bits - 1) ->
  Rabs (w * (IZR (zclamp (round ((v - lo) / w)) 0 (2 ^ Z.of_nat bits - 1)) + lo / w) - v) <= w / 2.
Proof.
  intros HB W [V1 V2]. set (z := (v - lo) / w). assert (Z1 : 0 <= z) by (apply Rmult_le_pos; [lra|left; now apply Rinv_0_lt_compat]).
  assert (Z2 : z <= IZR (2 ^ Z.of_nat bits - 1)).
  { rewrite top_real. apply Rmult_le_reg_l with w; [exact W|]. replace (w * z) with (v - lo) by (unfold z; field; lra). lra. }
  pose proof (top_pos bits HB) as TP. destruct (int_part_bounds (z + 1 / 2)) as [I1 I2]. fold (round z) in I1, I2.
  assert (R1 : (0 <= round z)%Z). { assert (IZR (-1) < IZR (round z)) by (cbn; lra). apply lt_IZR in H. lia. }
  assert (R2 : (round z <= 2 ^ Z.of_nat bits - 1)%Z). { assert (IZR (round z) < IZR (2 ^ Z.of_nat bits - 1 + 1)) by (rewrite plus_IZR; lra). apply lt_IZR in H. lia. }
  unfold zclamp. rewrite Z.max_l, Z.min_l by lia.
  replace (w * (IZR (round z) + lo / w) - v) with (w * (IZR (round z) - z)) by (unfold z; field; lra).
  rewrite Rabs_mult, (Rabs_right w) by lra. assert (A : Rabs (IZR (round z) - z) <= 1 / 2) by (apply Rabs_le; lra).
  apply Rle_trans with (w * (1 / 2)); [apply Rmult_le_compat_l; lra|lra].
Qed.

Lemma each B (f g : R -> R) t : (forall v, In v t -> Rabs (f v - g v) <= B) -> Forall2 (fun a b => Rabs (a - b) <= B) (map f t) (map g t).
Proof. induction t as [|v t IH]; intros H; cbn; constructor; [apply H; now left|apply IH; intros; apply H; now right]. Qed.

(** Quantized queries. *)
Record fits_query (q : quantizer) (bits : nat) (x : list R) (c : list Z) (m : qmeta) : Prop := {
  fq_len : length x = length (shift q);
  fq_codes : length c = output_dim q;
  fq_ms : m_ms m = metric_specific q (shifted q x);
  fq_sum : m_sum m = IZR (zsum c) \/ (m_ipc m = 0) }.
Lemma compressed_query q bits old x y m : sound q -> compress_query q bits old x = Some y -> y_meta y = Some m -> fits_query q bits x (y_codes y) m.
Proof.
  intros SQ. unfold compress_query. destruct (check_dims q (length x) (length old)) eqn:C; [|discriminate]. apply dims in C as [LX LO]. cbv zeta.
  destruct (Req_EM_T (norm (shifted q x)) 0) as [E|N].
  - intros [= <-] [= <-]. split; cbn; auto. symmetry. now apply no_ms.
  - destruct (Req_EM_T _ 0); intros [= <-]; cbn [y_meta y_codes]; [discriminate|]. intros [= <-]. split; cbn [m_ms m_sum m_ipc]; auto. rewrite map_length. now apply trans_len.
Qed.
Lemma query_is q bits qb x y c m d : fits_query q qb x c m -> fits q bits y d -> corrected q bits c m d = dotp (rebuilt_query c m) (rebuilt bits d).
Proof.
  intros FX FY. unfold rebuilt_query. rewrite rebuilt_alt, fused by (rewrite (fq_codes _ _ _ _ _ FX), (ft_codes _ _ _ _ FY); reflexivity).
  unfold corrected. cbv zeta. rewrite (fq_codes _ _ _ _ _ FX).
  destruct (fq_sum _ _ _ _ _ FX) as [-> | ->], (ft_point _ _ _ _ FY) as [[-> _]|[-> _]]; ring.
Qed.
Lemma query_near q bits old x y f m : sound q -> (1 <= bits)%nat -> compress_query q bits old x = Some y -> compress_full q x = Some f -> y_meta y = Some m ->
  forall w, (forall a b, In a (f_vec f) -> In b (f_vec f) -> a - b <= w) ->
  Forall2 (fun a b => Rabs (a - b) <= f_norm f * w / (2 * (2 ^ bits - 1))) (rebuilt_query (y_codes y) m) (rebuilt_full f).
Proof.
  intros SQ HB. unfold compress_query, compress_full. destruct (check_dims q (length x) (length old)) eqn:C; [|discriminate]. apply dims in C as [LX LO].
  destruct (check_dims q (length x) (output_dim q)) eqn:C'; [|discriminate]. cbv zeta. destruct (Req_EM_T (norm (shifted q x)) 0) as [E|N].
  - intros [= <-] [= <-] [= <-] w _. unfold rebuilt_query, rebuilt_full. cbn [y_codes m_ipc m_offset f_norm f_vec]. rewrite <- LO. clear LO. induction old as [|c old IH]; cbn; constructor; [|exact IH].
    rewrite !Rmult_0_l, Rminus_0_r, Rabs_R0. unfold Rdiv. lra.
  - set (t := transformed q (shifted q x)) in *. set (hi := (2 ^ Z.of_nat bits - 1)%Z). set (sc := (maximum t - minimum t) / IZR hi).
    destruct (Req_EM_T sc 0) as [|NS]; intros [= <-] [= <-] Y w; [discriminate Y|]. injection Y as <-. cbn [y_codes m_ipc m_offset f_norm f_vec]. intros W.
    unfold rebuilt_query, rebuilt_full. cbn [y_codes m_ipc m_offset f_norm f_vec]. rewrite map_map.
    assert (HP : 0 < IZR hi) by (pose proof (top_pos bits HB); apply IZR_lt; unfold hi; lia). assert (HR : IZR hi = 2 ^ bits - 1) by apply top_real.
    assert (TN : t <> []) by (intros E; elim NS; unfold sc; rewrite E; cbn; field; lra).
    assert (MM : minimum t <= maximum t) by (apply max_ge, min_in, TN). assert (SP : 0 < sc).
    { assert (0 <= sc) by (apply Rmult_le_pos; [lra|left; now apply Rinv_0_lt_compat]). lra. }
    assert (SW : sc * (2 ^ bits - 1) <= w). { rewrite <- HR. unfold sc. unfold Rdiv. rewrite Rmult_assoc, Rinv_l by lra. pose proof (W _ _ (max_in t TN) (min_in t TN)). lra. }
    pose proof (norm_pos (shifted q x)) as NP.
    assert (EACH : forall v, In v t -> Rabs (norm (shifted q x) * sc * (IZR (zclamp (round ((v - minimum t) / sc)) 0 hi) + minimum t / sc) - norm (shifted q x) * v) <= norm (shifted q x) * w / (2 * (2 ^ bits - 1))).
    { intros v IV. pose proof (min_le t v IV). pose proof (max_ge t v IV).
      assert (NR := near bits (minimum t) sc v HB SP). fold hi in NR. assert (KK : 0 <= v - minimum t <= sc * (2 ^ bits - 1)) by (rewrite <- HR; unfold sc; unfold Rdiv; rewrite Rmult_assoc, Rinv_l by lra; lra).
      specialize (NR KK). rewrite Rmult_assoc, <- Rmult_minus_distr_l, Rabs_mult, (Rabs_right (norm _)) by lra.
      replace (norm (shifted q x) * w / (2 * (2 ^ bits - 1))) with (norm (shifted q x) * (w / (2 * (2 ^ bits - 1)))) by (unfold Rdiv; ring). apply Rmult_le_compat_l; [lra|]. eapply Rle_trans; [exact NR|]. rewrite <- HR in *.
      apply Rmult_le_reg_r with (2 * IZR hi); [lra|]. replace (w / (2 * IZR hi) * (2 * IZR hi)) with w by (field; lra). lra. }
    now apply each.
Qed.
Lemma query_nan q bits old x y f : sound q -> (1 <= bits)%nat -> (1 <= output_dim q)%nat -> compress_query q bits old x = Some y -> compress_full q x = Some f ->
  (y_meta y = None <-> f_norm f <> 0 /\ flat (f_vec f)).
Proof.
  intros SQ HB HO. unfold compress_query, compress_full. destruct (check_dims q (length x) (length old)) eqn:C; [|discriminate]. apply dims in C as [LX LO].
  destruct (check_dims q (length x) (output_dim q)) eqn:C'; [|discriminate]. cbv zeta. destruct (Req_EM_T (norm (shifted q x)) 0) as [E|N].
  - intros [= <-] [= <-]. cbn. split; [discriminate|]. intros [K _]. now elim K.
  - pose proof (trans_len q x SQ LX) as LT. set (t := transformed q (shifted q x)) in *. assert (TN : t <> []) by (intros E; rewrite E in LT; cbn in LT; lia).
    assert (HP : 0 < IZR (2 ^ Z.of_nat bits - 1)) by (pose proof (top_pos bits HB); apply IZR_lt; lia).
    destruct (Req_EM_T _ 0) as [S0|S1]; intros [= <-] [= <-]; cbn [y_meta f_norm f_vec].
    + split; [|reflexivity]. intros _. split; [exact N|]. apply flat_iff; [exact TN|]. apply Rmult_integral in S0 as [|S0]; [assumption|]. apply Rinv_neq_0_compat in S0; [easy|lra].
    + split; [discriminate|]. intros [_ F]. apply flat_iff in F; [|exact TN]. elim S1. rewrite F. unfold Rdiv. ring.
Qed.

(** Codes of more bits. *)
Lemma half bits : (1 <= bits)%nat -> exists h : Z, offset_term bits = IZR h - 1 / 2 /\ 2 ^ bits - 1 = IZR (2 * h - 1) /\ (1 <= h)%Z.
Proof.
  intros HB. exists (2 ^ Z.of_nat (bits - 1))%Z. assert (P : 2 ^ bits = 2 * IZR (2 ^ Z.of_nat (bits - 1))).
  { replace bits with (S (bits - 1)) at 1 by lia. rewrite <- tech_pow_Rmult, <- pow_IZR. reflexivity. }
  unfold offset_term. rewrite P. split; [lra|]. split; [rewrite minus_IZR, mult_IZR; reflexivity|]. pose proof (Z.pow_pos_nonneg 2 (Z.of_nat (bits - 1))). lia.
Qed.
Lemma code_side bits s t : (1 <= bits)%nat -> 0 < s ->
  (0 <= round (clamp (t * s + offset_term bits) 0 (2 ^ bits - 1)) <= 2 ^ Z.of_nat bits - 1)%Z /\
  Rabs t / 2 <= (IZR (round (clamp (t * s + offset_term bits) 0 (2 ^ bits - 1))) - offset_term bits) * t.
Proof.
  intros HB SP. destruct (half bits HB) as (h & O & T & H1). assert (HR : 1 <= IZR h) by (now apply IZR_le in H1). set (a := clamp (t * s + offset_term bits) 0 (2 ^ bits - 1)).
  assert (TZ : (2 ^ Z.of_nat bits - 1 = 2 * h - 1)%Z) by (apply eq_IZR; rewrite top_real; exact T). rewrite TZ. rewrite minus_IZR, mult_IZR in T.
  assert (A : 0 <= a <= 2 * IZR h - 1) by (unfold a, clamp; rewrite T; split; [apply Rmin_glb; [apply Rmax_r|lra]|apply Rmin_r]).
  destruct (int_part_bounds (a + 1 / 2)) as [I1 I2]. fold (round a) in I1, I2.
  split.
  - split; [assert (K : IZR (-1) < IZR (round a)) by (cbn; lra)|assert (K : IZR (round a) < IZR (2 * h - 1 + 1)) by (rewrite plus_IZR, minus_IZR, mult_IZR; lra)]; apply lt_IZR in K; lia.
  - destruct (Rtotal_order t 0) as [L|[->|G]].
    + assert (AL : a < IZR h - 1 / 2). { apply Rle_lt_trans with (Rmax (t * s + offset_term bits) 0); [apply Rmin_l|]. apply Rmax_lub_lt; [|lra]. rewrite O. pose proof (Rmult_lt_compat_r s t 0 SP L). lra. }
      assert (K : IZR (round a) < IZR h) by lra. apply lt_IZR in K. assert (K2 : IZR (round a) <= IZR (h - 1)) by (apply IZR_le; lia). rewrite minus_IZR in K2.
      rewrite Rabs_left by lra. rewrite O. assert (- (1 / 2) * t <= (IZR (round a) - (IZR h - 1 / 2)) * t) by (rewrite !(Rmult_comm _ t); apply Rmult_le_compat_neg_l; lra). lra.
    + rewrite Rabs_R0. lra.
    + assert (AG : IZR h - 1 / 2 <= a). { unfold a, clamp. rewrite T. apply Rmin_glb; [|lra]. eapply Rle_trans; [|apply Rmax_l]. rewrite O. pose proof (Rmult_lt_compat_r s 0 t SP G). lra. }
      assert (K : IZR (h - 1) < IZR (round a)) by (rewrite minus_IZR; lra). apply lt_IZR in K. assert (K2 : IZR h <= IZR (round a)) by (apply IZR_le; lia).
      rewrite Rabs_right by lra. rewrite O. assert ((IZR (round a) - (IZR h - 1 / 2)) * t >= (1 / 2) * t) by (apply Rle_ge, Rmult_le_compat_r; lra). lra.
Qed.
Lemma along bits s t : (1 <= bits)%nat -> 0 < s ->
  rsum (map Rabs t) / 2 <= dotp (lattice bits (map (fun r => round (clamp (r * s + (2 ^ bits - 1) / 2) 0 (2 ^ bits - 1))) t)) t.
Proof.
  intros HB SP. unfold lattice. rewrite map_map. induction t as [|a t IH]; [cbn; lra|]. cbn [map rsum dotp].
  destruct (code_side bits s a HB SP) as [_ K]. unfold offset_term in *. lra.
Qed.
Lemma sum_bound hi c : (forall z, In z c -> (0 <= z <= hi)%Z) -> (zsum c <= Z.of_nat (length c) * hi)%Z.
Proof. induction c as [|z c IH]; intros H; [cbn; lia|]. change (zsum (z :: c)) with (z + zsum c)%Z. specialize (IH ltac:(intros; apply H; now right)). pose proof (H z (or_introl eq_refl)). cbn [length]. lia. Qed.
Lemma succeeds q bits old x : sound q -> (1 <= bits)%nat -> length x = length (shift q) -> length old = output_dim q ->
  (Z.of_nat (output_dim q) * (2 ^ Z.of_nat bits - 1) <= 65535)%Z -> preserves_norms q = true -> exists d, compress_data q bits old x = Some d /\ (norm (shifted q x) = 0 \/ forall z, In z (d_codes d) -> (0 <= z <= 2 ^ Z.of_nat bits - 1)%Z).
Proof.
  intros SQ HB LX LO W PN. unfold compress_data, check_dims. rewrite LX, LO, !Nat.eqb_refl. cbn [andb]. cbv zeta.
  destruct (Req_EM_T (norm (shifted q x)) 0) as [E|N]; [eexists; split; [reflexivity|now left]|]. rewrite PN.
  pose proof (trans_len q x SQ LX) as LT. pose proof SQ as (S1 & S2 & S3).
  assert (TT : dotp (transformed q (shifted q x)) (transformed q (shifted q x)) = 1) by (unfold transformed; rewrite (S3 PN _ (unit_len q x LX)); now apply unit_one).
  set (t := transformed q (shifted q x)) in *. assert (RA : rsum (map Rabs t) <> 0) by (intros K; rewrite (dotp_all0 t (proj1 (rabs_zero t) K)) in TT; lra).
  destruct (Nat.eqb bits 1) eqn:B.
  - apply Nat.eqb_eq in B. subst bits. unfold finish1, new_data. cbv zeta. destruct (Req_EM_T (rsum (map Rabs t)) 0) as [|_]; [contradiction|].
    set (c := map _ t). assert (CB : forall z, In z c -> (0 <= z <= 1)%Z) by (intros z I; apply in_map_iff in I as (a & <- & _); destruct (Rlt_dec 0 a); lia).
    pose proof (sum_bound 1 c CB) as SB. assert (LC : length c = output_dim q) by (unfold c; now rewrite map_length). rewrite LC in SB. change (2 ^ Z.of_nat 1 - 1)%Z with 1%Z in *.
    destruct (zsum c <=? 65535)%Z eqn:K; [|apply Z.leb_gt in K; lia]. eexists. split; [reflexivity|]. right. exact CB.
  - unfold finish, new_data. cbv zeta. set (c := map _ t). change (map (fun c0 => IZR c0 - (2 ^ bits - 1) / 2) c) with (lattice bits c).
    assert (DP : rsum (map Rabs t) / 2 <= dotp (lattice bits c) t).
    { unfold c. apply along; [exact HB|apply S2]. }
    assert (RP : 0 < rsum (map Rabs t)). { assert (P : forall u, 0 <= rsum (map Rabs u)) by (intros u; induction u as [|a u IH]; cbn; [lra|pose proof (Rabs_pos a); lra]). specialize (P t). lra. }
    destruct (Req_EM_T (dotp (lattice bits c) t) 0) as [|_]; [lra|].
    assert (CB : forall z, In z c -> (0 <= z <= 2 ^ Z.of_nat bits - 1)%Z) by (intros z I; apply in_map_iff in I as (a & <- & _); destruct (code_side bits (best_scale q t) a HB (S2 t)) as [K _]; unfold offset_term in K; exact K).
    pose proof (sum_bound _ c CB) as SB. assert (LC : length c = output_dim q) by (unfold c; now rewrite map_length). rewrite LC in SB.
    destruct (zsum c <=? 65535)%Z eqn:K; [|apply Z.leb_gt in K; lia]. eexists. split; [reflexivity|]. right. exact CB.
Qed.
