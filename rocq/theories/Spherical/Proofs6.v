(** Inner products of lists of reals, and what the compensated forms add up to. *)
From Coq Require Import Reals ZArith List Lra Lia Bool.
Import ListNotations.
From Verif.Spherical Require Import Model3 Spec3.
Local Open Scope R_scope.

Lemma dotp_comm x : forall y, dotp x y = dotp y x.
Proof. induction x as [|a x IH]; intros [|b y]; cbn; try reflexivity. rewrite IH. lra. Qed.
Lemma dotp_pos x : 0 <= dotp x x.
Proof. induction x as [|a x IH]; cbn; [lra|]. pose proof (Rle_0_sqr a). unfold Rsqr in *. lra. Qed.
Lemma dotp_scale a x : forall y, dotp (map (Rmult a) x) y = a * dotp x y.
Proof. induction x as [|b x IH]; intros [|c y]; cbn; try lra. rewrite IH. lra. Qed.
Lemma dotp_zero x : dotp x x = 0 -> forall a, In a x -> a = 0.
Proof.
  induction x as [|b x IH]; cbn; [easy|]. intros H a. pose proof (dotp_pos x). pose proof (Rle_0_sqr b). unfold Rsqr in *.
  intros [<-|I]; [|apply IH; [lra|exact I]]. assert (b * b = 0) by lra. destruct (Rmult_integral _ _ H2); assumption.
Qed.
Lemma dotp_all0 x : (forall a, In a x -> a = 0) -> forall y, dotp x y = 0.
Proof. induction x as [|b x IH]; intros H [|c y]; cbn; try reflexivity. rewrite IH by (intros; apply H; now right). rewrite (H b) by now left. lra. Qed.
Lemma norm_sq x : norm x * norm x = dotp x x.
Proof. unfold norm. apply sqrt_sqrt, dotp_pos. Qed.
Lemma norm_pos x : 0 <= norm x.
Proof. apply sqrt_pos. Qed.
Lemma norm_zero x : norm x = 0 -> dotp x x = 0.
Proof. intros H. rewrite <- norm_sq, H. lra. Qed.
Lemma cauchy x y : dotp x y * dotp x y <= dotp x x * dotp y y.
Proof.
  assert (Q : forall u, 0 <= dotp x x + 2 * u * dotp x y + u * u * dotp y y).
  { intros u. revert y. induction x as [|a x IH]; intros [|b y]; cbn.
    - lra.
    - pose proof (dotp_pos (b :: y)) as P. cbn in P. pose proof (Rle_0_sqr u) as U. unfold Rsqr in U. pose proof (Rmult_le_pos _ _ U P). lra.
    - pose proof (dotp_pos (a :: x)) as P. cbn in P. lra.
    - specialize (IH y). pose proof (Rle_0_sqr (a + u * b)) as P. unfold Rsqr in P. lra. }
  destruct (Req_dec (dotp y y) 0) as [E|N].
  - rewrite dotp_comm, (dotp_all0 y (dotp_zero y E)). pose proof (dotp_pos x). rewrite E. lra.
  - pose proof (dotp_pos y). assert (P : 0 < dotp y y) by lra. specialize (Q (- dotp x y / dotp y y)).
    assert (K : dotp x x + 2 * (- dotp x y / dotp y y) * dotp x y + - dotp x y / dotp y y * (- dotp x y / dotp y y) * dotp y y = (dotp x x * dotp y y - dotp x y * dotp x y) / dotp y y) by (field; lra).
    rewrite K in Q. apply (Rmult_le_compat_r (dotp y y)) in Q; [|lra]. unfold Rdiv in Q. rewrite Rmult_assoc, Rinv_l in Q by lra. lra.
Qed.

(** The fused sums. *)
Lemma fused a p b r x : forall y, length x = length y ->
  dotp (map (fun c => a * (IZR c + p)) x) (map (fun c => b * (IZR c + r)) y) = a * b * (IZR (zdot x y) + p * IZR (zsum y) + r * IZR (zsum x) + p * r * INR (length x)).
Proof.
  induction x as [|c x IH]; intros [|d y] L; try discriminate L; [cbn; ring|].
  change (zsum (c :: x)) with (c + zsum x)%Z. change (zsum (d :: y)) with (d + zsum y)%Z. cbn [map dotp zdot]. rewrite IH by (injection L; auto).
  change (length (c :: x)) with (S (length x)). rewrite S_INR, !plus_IZR, mult_IZR. ring.
Qed.
Lemma fused_full a b o x : forall y, length x = length y ->
  dotp (map (Rmult a) x) (map (fun c => b * (IZR c - o)) y) = a * b * (fdot x y - rsum x * o).
Proof. induction x as [|c x IH]; intros [|d y] L; try discriminate L; [cbn; ring|]. cbn [map dotp fdot rsum]. rewrite IH by (injection L; auto). ring. Qed.

(** The vector and its centre. *)
Lemma meant_eq q x : meant q x = map (Rmult (multiplier q x)) x.
Proof.
  unfold meant, multiplier. destruct (kind q); [reflexivity|reflexivity|]. destruct (Req_EM_T (norm x) 0) as [_|N].
  - rewrite <- (map_id x) at 1. apply map_ext. intros v. lra.
  - apply map_ext. intros v. field. exact N.
Qed.
Lemma shifted_centred q x : shifted q x = centred q x.
Proof.
  unfold shifted, centred. rewrite meant_eq. unfold minus. generalize (multiplier q x) as m. generalize (shift q) as s. intros s m. revert s.
  induction x as [|a x IH]; intros [|b s]; cbn; try reflexivity. f_equal. apply IH.
Qed.
Lemma minus_len x y : length (minus x y) = Nat.min (length x) (length y).
Proof. unfold minus. now rewrite map_length, combine_length. Qed.
Lemma centred_len q x : length x = length (shift q) -> length (centred q x) = length (shift q).
Proof. intros H. unfold centred. rewrite meant_eq, minus_len, map_length. lia. Qed.
Lemma apart a : forall b c, length a = length c -> length b = length c ->
  dotp (minus a b) (minus a b) = dotp (minus a c) (minus a c) + dotp (minus b c) (minus b c) - 2 * dotp (minus a c) (minus b c).
Proof.
  induction a as [|x a IH]; intros [|y b] [|z c] HA HB; try discriminate; [cbn; ring|]. injection HA as HA. injection HB as HB.
  unfold minus in *. cbn [combine map fst snd dotp]. rewrite (IH b c HA HB). ring.
Qed.
Lemma together a : forall b c, length a = length c -> length b = length c ->
  dotp a b = dotp (minus a c) c + dotp (minus b c) c + dotp (minus a c) (minus b c) + dotp c c.
Proof.
  induction a as [|x a IH]; intros [|y b] [|z c] HA HB; try discriminate; [cbn; ring|]. injection HA as HA. injection HB as HB.
  unfold minus in *. cbn [combine map fst snd dotp]. rewrite (IH b c HA HB). ring.
Qed.
(** A distance is right up to the error of the inner product. *)
Lemma assembled q ip x y : length x = length (shift q) -> length y = length (shift q) ->
  assemble q ip (metric_specific q (shifted q x)) (metric_specific q (shifted q y)) = exact q x y - weight q * (ip - dotp (centred q x) (centred q y)).
Proof.
  intros LX LY. rewrite !shifted_centred. unfold assemble, metric_specific, exact, weight. rewrite !norm_sq.
  assert (MX : length (meant q x) = length (shift q)) by (rewrite meant_eq; now rewrite map_length). assert (MY : length (meant q y) = length (shift q)) by (rewrite meant_eq; now rewrite map_length).
  pose proof (apart _ _ _ MX MY) as A. pose proof (together _ _ _ MX MY) as B. fold (centred q x) in A, B. fold (centred q y) in A, B.
  destruct (kind q); lra.
Qed.
Lemma no_ms q s : norm s = 0 -> metric_specific q s = 0.
Proof. intros H. unfold metric_specific. pose proof (dotp_all0 s (dotp_zero s (norm_zero s H))) as Z0. destruct (kind q); [rewrite H; ring|apply Z0|apply Z0]. Qed.

(** What is stored. *)
Lemma int_part_bounds x : IZR (Int_part x) <= x /\ x < IZR (Int_part x) + 1.
Proof. destruct (base_Int_part x). lra. Qed.
Lemma new_data_in c i m d : new_data c i m = Some d -> d = mkD c i m (zsum c) /\ (zsum c <= 65535)%Z.
Proof. unfold new_data. destruct (zsum c <=? 65535)%Z eqn:E; [|discriminate]. intros [= <-]. apply Z.leb_le in E. auto. Qed.

Definition lattice (bits : nat) (c : list Z) : list R := map (fun c => IZR c - offset_term bits) c.
Lemma one_bit t : dotp (lattice 1 (map (fun r => if Rlt_dec 0 r then 1%Z else 0%Z) t)) t = rsum (map Rabs t) / 2.
Proof.
  induction t as [|a t IH]; [cbn; lra|]. unfold lattice in *. cbn [map dotp rsum]. rewrite IH. unfold offset_term. destruct (Rlt_dec 0 a).
  - rewrite Rabs_right by lra. cbn. lra.
  - rewrite Rabs_left1 by lra. cbn. lra.
Qed.
Lemma rabs_zero t : rsum (map Rabs t) = 0 <-> forall a, In a t -> a = 0.
Proof.
  assert (P : forall t, 0 <= rsum (map Rabs t)) by (intros u; induction u as [|a u IH]; cbn; [lra|pose proof (Rabs_pos a); lra]).
  induction t as [|a t IH]; cbn; [split; [easy|reflexivity]|]. pose proof (P t). pose proof (Rabs_pos a). split.
  - intros E b [<-|I]; [|apply IH; [lra|exact I]]. destruct (Req_dec a 0); [assumption|]. pose proof (Rabs_pos_lt a H1). lra.
  - intros A. rewrite (A a) by now left. rewrite Rabs_R0. rewrite (proj2 IH) by (intros; apply A; now right). lra.
Qed.

(** A compressed vector either has a zero correction, or its point has the right inner product with
    the transformed vector. *)
Definition factor (q : quantizer) (t : list R) : R := if preserves_norms q then 1 else norm t.
Record fits (q : quantizer) (bits : nat) (x : list R) (d : data) : Prop := {
  ft_len : length x = length (shift q);
  ft_codes : length (d_codes d) = output_dim q;
  ft_ms : d_ms d = metric_specific q (shifted q x);
  ft_point : (d_ipc d = 0 /\ norm (shifted q x) = 0) \/
    (d_sum d = zsum (d_codes d) /\ norm (shifted q x) <> 0 /\ dotp (lattice bits (d_codes d)) (transformed q (shifted q x)) <> 0 /\
     d_ipc d * dotp (lattice bits (d_codes d)) (transformed q (shifted q x)) = factor q (transformed q (shifted q x)) * norm (shifted q x)) }.
Lemma dims q a b : check_dims q a b = true -> a = length (shift q) /\ b = output_dim q.
Proof. unfold check_dims. rewrite andb_true_iff, !Nat.eqb_eq. auto. Qed.
Lemma unit_len q x : length x = length (shift q) -> length (map (fun v => v / norm (shifted q x)) (shifted q x)) = length (shift q).
Proof. intros H. rewrite map_length, shifted_centred. now apply centred_len. Qed.
Lemma trans_len q x : sound q -> length x = length (shift q) -> length (transformed q (shifted q x)) = output_dim q.
Proof. intros [A _] H. unfold transformed. apply A. now apply unit_len. Qed.
Lemma compressed q bits old x d : sound q -> compress_data q bits old x = Some d -> fits q bits x d.
Proof.
  intros SQ. unfold compress_data. destruct (check_dims q (length x) (length old)) eqn:C; [|discriminate]. apply dims in C as [LX LO]. cbv zeta.
  destruct (Req_EM_T (norm (shifted q x)) 0) as [E|N].
  - intros [= <-]. split; cbn; auto. symmetry. now apply no_ms.
  - pose proof (trans_len q x SQ LX) as LT. fold (factor q (transformed q (shifted q x))). set (t := transformed q (shifted q x)) in *.
    destruct (Nat.eqb bits 1) eqn:B.
    + apply Nat.eqb_eq in B. subst bits. unfold finish1. cbv zeta. destruct (Req_EM_T (rsum (map Rabs t)) 0) as [|NZ]; [discriminate|]. intros [-> _]%new_data_in.
      split; cbn [d_codes d_ipc d_ms d_sum]; [assumption|now rewrite map_length|reflexivity|]. right. rewrite one_bit. fold t.
      split; [reflexivity|]. split; [assumption|]. split; [lra|]. field. exact NZ.
    + unfold finish. cbv zeta. set (c := map _ t). change (map (fun c0 => IZR c0 - (2 ^ bits - 1) / 2) c) with (lattice bits c).
      destruct (Req_EM_T (dotp (lattice bits c) t) 0) as [|NZ]; [discriminate|]. intros [-> _]%new_data_in.
      split; cbn [d_codes d_ipc d_ms d_sum]; [assumption|unfold c; now rewrite map_length|reflexivity|]. right. fold t.
      split; [reflexivity|]. split; [assumption|]. split; [exact NZ|]. field. exact NZ.
Qed.
Lemma rebuilt_alt bits d : rebuilt bits d = map (fun c => d_ipc d * (IZR c + - offset_term bits)) (d_codes d).
Proof. unfold rebuilt. apply map_ext. intros c. unfold offset_term. ring. Qed.
Lemma rebuilt_lattice bits d : rebuilt bits d = map (Rmult (d_ipc d)) (lattice bits (d_codes d)).
Proof. unfold rebuilt, lattice. rewrite map_map. reflexivity. Qed.

Lemma kernel_is q bits x y dx dy : fits q bits x dx -> fits q bits y dy -> kernel q bits dx dy = dotp (rebuilt bits dx) (rebuilt bits dy).
Proof.
  intros FX FY. rewrite !rebuilt_alt, fused by (rewrite (ft_codes _ _ _ _ FX), (ft_codes _ _ _ _ FY); reflexivity).
  unfold kernel. cbv zeta. rewrite (ft_codes _ _ _ _ FX).
  destruct (ft_point _ _ _ _ FX) as [[-> _]|[-> _]], (ft_point _ _ _ _ FY) as [[-> _]|[-> _]]; ring.
Qed.

(** Full precision queries. *)
Record fits_full (q : quantizer) (x : list R) (f : full) : Prop := {
  ff_len : length x = length (shift q);
  ff_vec : length (f_vec f) = output_dim q;
  ff_sum : f_sum f = rsum (f_vec f);
  ff_norm : f_norm f = norm (shifted q x);
  ff_ms : f_ms f = metric_specific q (shifted q x);
  ff_trans : norm (shifted q x) <> 0 -> f_vec f = transformed q (shifted q x) }.
Lemma rsum_repeat n : rsum (repeat 0 n) = 0.
Proof. induction n as [|n IH]; cbn; [reflexivity|]. rewrite IH. lra. Qed.
Lemma compressed_full q x f : sound q -> compress_full q x = Some f -> fits_full q x f.
Proof.
  intros SQ. unfold compress_full. destruct (check_dims q (length x) (output_dim q)) eqn:C; [|discriminate]. apply dims in C as [LX _]. cbv zeta.
  destruct (Req_EM_T (norm (shifted q x)) 0) as [E|N]; intros [= <-]; split; cbn [f_vec f_sum f_norm f_ms]; auto.
  - apply repeat_length.
  - symmetry. apply rsum_repeat.
  - symmetry. now apply no_ms.
  - easy.
  - now apply trans_len.
Qed.
Lemma full_is q bits x y f d : fits_full q x f -> fits q bits y d -> full_ip bits f d = dotp (rebuilt_full f) (rebuilt bits d).
Proof.
  intros FX FY. unfold rebuilt_full, rebuilt. rewrite fused_full by (rewrite (ff_vec _ _ _ FX), (ft_codes _ _ _ _ FY); reflexivity).
  unfold full_ip. rewrite (ff_sum _ _ _ FX). reflexivity.
Qed.
