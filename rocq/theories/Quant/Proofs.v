(** Exact arithmetic: the instance, sums, clamping, rounding to the nearest code. *)
From Coq Require Import Reals ZArith Lra Lia.
From Flocq Require Import Core.Core.
From Verif.Lib Require Import Base Lists.
From Verif.Quant Require Import Model Spec.
Local Open Scope R_scope.

Lemma fold_eadd (x y : list R) : length x = length y ->
  fold_right eadd (Fin 0) (map2 emul (map Fin x) (map Fin y)) = Fin (rdot x y).
Proof.
  revert y. induction x as [|a x IH]; intros [|b y] L; try discriminate; [reflexivity|].
  unfold rdot, map2 in *. cbn [map combine fst snd fold_right rsum]. rewrite IH by (cbn in L; lia). reflexivity.
Qed.

Theorem ext_exact : exact ext_ops Fin.
Proof.
  constructor; cbn; try reflexivity.
  - intros x y H. now injection H.
  - intros x y H. destruct (Req_EM_T y 0); [contradiction|reflexivity].
  - destruct (Req_EM_T 0 0) as [_|H]; [|lra]. unfold sgn. destruct (Rlt_dec 0 0); [lra|]. reflexivity.
  - intros x H. destruct (Rlt_dec x 0); [lra|reflexivity].
  - intros x y. unfold rltb. destruct (Rlt_dec x y); split; congruence || auto.
  - intros x y. unfold reqb. destruct (Req_EM_T x y); split; congruence || auto.
  - intros z Z. rewrite Ztrunc_IZR. f_equal. lia.
  - exact fold_eadd.
Qed.

Lemma val_add a b : val (a + b) = val a + val b.
Proof. unfold val. now rewrite N2Z.inj_add, plus_IZR. Qed.
Lemma val_mul a b : val (a * b) = val a * val b.
Proof. unfold val. now rewrite N2Z.inj_mul, mult_IZR. Qed.
Lemma val_nonneg c : 0 <= val c.
Proof. apply (IZR_le 0). lia. Qed.
Lemma val_le a b : (a <= b)%N -> val a <= val b.
Proof. intros H. apply IZR_le. lia. Qed.
Lemma val_nat n : val (N.of_nat n) = INR n.
Proof. unfold val. now rewrite nat_N_Z, INR_IZR_INZ. Qed.
Lemma pow_ge n : width n -> (2 <= 2 ^ n <= 256)%N.
Proof.
  intros [A B]. split.
  - change 2%N with (2 ^ 1)%N at 1. now apply N.pow_le_mono_r.
  - change 256%N with (2 ^ 8)%N. now apply N.pow_le_mono_r.
Qed.
Lemma top_pos n : width n -> 1 <= top n.
Proof. intros W. apply pow_ge in W. unfold top. apply (val_le 1). lia. Qed.
Lemma top_z n : width n -> top n = IZR (Z.of_N (2 ^ n) - 1).
Proof. intros W. apply pow_ge in W. unfold top, val. f_equal. lia. Qed.

(** Nearest integers. *)
Definition rclamp (x lo hi : R) : R := Rmin hi (Rmax x lo).
Lemma nearest_int (choice : Z -> bool) (y : R) (T c' : Z) : (0 <= T)%Z -> (0 <= c' <= T)%Z ->
  let c := Znearest choice (rclamp y 0 (IZR T)) in
  (0 <= c <= T)%Z /\ Rabs (y - IZR c) <= Rabs (y - IZR c').
Proof.
  intros T0 C c. assert (TR : 0 <= IZR T) by (apply (IZR_le 0); lia).
  assert (C0 : 0 <= IZR c') by (apply (IZR_le 0); lia). assert (C1 : IZR c' <= IZR T) by (apply IZR_le; lia).
  assert (Z0 : forall z : Z, Znearest choice (IZR z) = z).
  { intros z. apply Znearest_imp. rewrite Rminus_diag_eq by reflexivity. rewrite Rabs_R0. lra. }
  destruct (Rle_dec y 0) as [Y|Y].
  { assert (E : c = 0%Z). { unfold c, rclamp. rewrite Rmax_right, Rmin_right by lra. exact (Z0 0%Z). }
    rewrite E. split; [lia|]. rewrite !Rabs_left1 by (rewrite ?Rminus_0_r; lra). lra. }
  destruct (Rle_dec (IZR T) y) as [Y'|Y'].
  { assert (E : c = T). { unfold c, rclamp. rewrite Rmax_left, Rmin_left by lra. exact (Z0 T). }
    rewrite E. split; [lia|]. rewrite !Rabs_pos_eq by lra. lra. }
  assert (E : c = Znearest choice y). { unfold c, rclamp. rewrite Rmax_left, Rmin_right by lra. reflexivity. }
  pose proof (Znearest_half choice y) as H. rewrite <- E in H. split.
  - destruct (Znearest_DN_or_UP choice y) as [D|D]; rewrite <- E in D; rewrite D.
    + split; [apply Zfloor_lub; cbn; lra|]. apply le_IZR. pose proof (Zfloor_lb y). lra.
    + split; [apply le_IZR; pose proof (Zceil_ub y); lra|]. apply Zceil_glb. lra.
  - destruct (Z.eq_dec c' c) as [->|N]; [lra|].
    assert (D : 1 <= Rabs (IZR c - IZR c')). { rewrite <- minus_IZR, <- abs_IZR. apply IZR_le. lia. }
    pose proof (Rabs_triang (IZR c - y) (y - IZR c')) as TI.
    replace (IZR c - y + (y - IZR c')) with (IZR c - IZR c') in TI by ring.
    rewrite (Rabs_minus_sym (IZR c) y) in TI. change (bpow radix2 (-1)) with (/ 2) in H. lra.
Qed.

(** Clamping after rounding is rounding after clamping. *)
Lemma clamp_round (choice : Z -> bool) (y : R) (T : Z) : (0 <= T)%Z ->
  rclamp (IZR (Znearest choice y)) 0 (IZR T) = IZR (Znearest choice (rclamp y 0 (IZR T))).
Proof.
  intros T0. assert (TR : 0 <= IZR T) by (apply (IZR_le 0); lia).
  assert (Z0 : forall z : Z, Znearest choice (IZR z) = z).
  { intros z. apply Znearest_imp. rewrite Rminus_diag_eq by reflexivity. rewrite Rabs_R0. lra. }
  assert (LE : forall a b, a <= b -> (Znearest choice a <= Znearest choice b)%Z).
  { intros a b. exact (@Zrnd_le _ (valid_rnd_N choice) a b). }
  destruct (Rle_dec y 0) as [Y|Y].
  { pose proof (LE y 0 Y) as L. rewrite (Z0 0%Z) in L. apply IZR_le in L.
    unfold rclamp. rewrite (Rmax_right y 0 Y), (Rmax_right _ 0 L), !Rmin_right by lra. now rewrite (Z0 0%Z). }
  destruct (Rle_dec (IZR T) y) as [Y'|Y'].
  { pose proof (LE _ y Y') as L. rewrite Z0 in L. apply IZR_le in L.
    unfold rclamp. rewrite !Rmax_left by lra. rewrite (Rmin_left (IZR T) y), (Rmin_left (IZR T) _ L) by lra. now rewrite Z0. }
  pose proof (LE 0 y ltac:(lra)) as L0. pose proof (LE y (IZR T) ltac:(lra)) as L1. rewrite (Z0 0%Z) in L0. rewrite Z0 in L1.
  apply IZR_le in L0, L1. unfold rclamp. rewrite !Rmax_left by lra. now rewrite !Rmin_right by lra.
Qed.

(** Rounding on an affine grid. *)
Lemma nearest_grid (choice : Z -> bool) (n : N) (a b x : R) : width n -> 0 < a ->
  let c := Znearest choice (rclamp ((x - b) / a) 0 (top n)) in
  (0 <= c < Z.of_N (2 ^ n))%Z /\ nearest n (fun c => b + a * val c) x (Z.to_N c).
Proof.
  intros W A c. pose proof (pow_ge n W) as P. unfold c. rewrite (top_z n W). clear c.
  set (T := (Z.of_N (2 ^ n) - 1)%Z).
  assert (B : (0 <= Znearest choice (rclamp ((x - b) / a) 0 (IZR T)) <= T)%Z).
  { apply (nearest_int choice ((x - b) / a) T 0); unfold T; lia. }
  split; [unfold T in B |- *; lia|]. split; [unfold code_ok; unfold T in B |- *; lia|]. intros c' C'. unfold code_ok in C'.
  assert (K : forall z, Rabs (x - (b + a * z)) = a * Rabs ((x - b) / a - z)).
  { intros z. rewrite <- (Rabs_pos_eq a) at 2 by lra. rewrite <- Rabs_mult. f_equal. field. lra. }
  cbn beta. rewrite !K. apply Rmult_le_compat_l; [lra|].
  unfold val at 1. rewrite Z2N.id by lia.
  apply (nearest_int choice ((x - b) / a) T (Z.of_N c')); unfold T; lia.
Qed.

(** Within the grid the error is at most half a step. *)
Lemma grid_error (choice : Z -> bool) (n : N) (a b x : R) : width n -> 0 < a -> b <= x <= b + a * top n ->
  Rabs (x - (b + a * IZR (Znearest choice (rclamp ((x - b) / a) 0 (top n))))) <= a / 2.
Proof.
  intros W A [L H]. assert (Y0 : 0 <= (x - b) / a). { apply Rmult_le_pos; [lra|]. left. now apply Rinv_0_lt_compat. }
  assert (Y1 : (x - b) / a <= top n). { apply Rmult_le_reg_r with a; [exact A|]. unfold Rdiv. rewrite Rmult_assoc, Rinv_l by lra. lra. }
  unfold rclamp. rewrite Rmax_left, Rmin_right by lra.
  pose proof (Znearest_half choice ((x - b) / a)) as K. change (bpow radix2 (-1)) with (/ 2) in K.
  replace (x - (b + a * IZR (Znearest choice ((x - b) / a)))) with (a * ((x - b) / a - IZR (Znearest choice ((x - b) / a)))) by (field; lra).
  rewrite Rabs_mult, (Rabs_pos_eq a) by lra. unfold Rdiv at 3. apply Rmult_le_compat_l; lra.
Qed.

Section exact.
Context {F : Type} (o : ops F) (fin : R -> F) (E : exact o fin).

Lemma lt_spec x y : lt o (fin x) (fin y) = if Rlt_dec x y then true else false.
Proof. destruct (lt o (fin x) (fin y)) eqn:H, (Rlt_dec x y) as [L|L]; auto; [apply (ex_lt o fin E) in H; contradiction|]. apply (ex_lt o fin E) in L. congruence. Qed.
Lemma clamp_fin x lo hi : lo <= hi -> clamp o (fin x) (fin lo) (fin hi) = fin (rclamp x lo hi).
Proof.
  intros L. unfold clamp, rclamp. rewrite lt_spec. destruct (Rlt_dec x lo) as [A|A]; rewrite lt_spec.
  - rewrite Rmax_right, Rmin_right by lra. destruct (Rlt_dec hi lo); [lra|reflexivity].
  - rewrite Rmax_left by lra. destruct (Rlt_dec hi x); [now rewrite Rmin_left by lra|now rewrite Rmin_right by lra].
Qed.
Lemma zero_fin : zero o = fin 0. Proof. exact (ex_N o fin E 0). Qed.
Lemma one_fin : one o = fin 1. Proof. exact (ex_N o fin E 1). Qed.
Lemma two_fin : two o = fin 2. Proof. exact (ex_N o fin E 2). Qed.
Lemma bs_fin n : bit_scale o n = fin (top n). Proof. exact (ex_N o fin E _). Qed.
Lemma ibs_fin n : width n -> inverse_bit_scale o n = fin (/ top n).
Proof.
  intros W. pose proof (top_pos n W). unfold inverse_bit_scale. rewrite one_fin, bs_fin, (ex_div o fin E) by lra. f_equal. field. lra.
Qed.

Lemma fold_fin {A} (g : F -> A -> F) (h : A -> R) (l : list A) (a : R) :
  (forall s x, In x l -> g (fin s) x = fin (s + h x)) -> fold_left g l (fin a) = fin (a + rsum (map h l)).
Proof.
  revert a. induction l as [|x l IH]; intros a H; cbn [fold_left map rsum]; [now rewrite Rplus_0_r|].
  rewrite H by (now left). rewrite IH by (intros; apply H; now right). f_equal. ring.
Qed.
Lemma sum_fin xs : sum o (map fin xs) = fin (rsum xs).
Proof.
  unfold sum. rewrite zero_fin. rewrite fold_left_map || idtac.
  replace (rsum xs) with (0 + rsum xs) by ring. generalize 0. induction xs as [|x xs IH]; intros a; cbn [map fold_left rsum]; [now rewrite Rplus_0_r|].
  rewrite (ex_add o fin E), IH. f_equal. ring.
Qed.
End exact.

Lemma map2_length {A B C} (f : A -> B -> C) x y : length x = length y -> length (map2 f x y) = length x.
Proof. intros L. unfold map2. rewrite map_length, combine_length. lia. Qed.
Lemma map2_nth {A B C} (f : A -> B -> C) x y i c : nth_error (map2 f x y) i = Some c <->
  exists a b, nth_error x i = Some a /\ nth_error y i = Some b /\ c = f a b.
Proof.
  unfold map2. revert y i. induction x as [|a x IH]; intros y i.
  - split; [destruct i; discriminate|intros (a & b & H & _); destruct i; discriminate].
  - destruct y as [|b y]; [split; [destruct i; discriminate|intros (a' & b' & _ & H & _); destruct i; discriminate]|].
    destruct i as [|i]; cbn [combine map nth_error fst snd].
    + split; [intros H; injection H as <-; eauto|intros (a' & b' & HA & HB & ->); congruence].
    + apply IH.
Qed.
Lemma map2_map {A B C A' B'} (f : A' -> B' -> C) (g : A -> A') (h : B -> B') x y :
  map2 f (map g x) (map h y) = map2 (fun a b => f (g a) (h b)) x y.
Proof. unfold map2. revert y. induction x as [|a x IH]; intros [|b y]; cbn; [reflexivity..|]. now rewrite IH. Qed.
Lemma map_map2 {A B C D} (g : C -> D) (f : A -> B -> C) x y : map g (map2 f x y) = map2 (fun a b => g (f a b)) x y.
Proof. unfold map2. now rewrite map_map. Qed.
Lemma map2_ext {A B C} (f g : A -> B -> C) x y : (forall a b, In a x -> In b y -> f a b = g a b) -> map2 f x y = map2 g x y.
Proof. intros H. unfold map2. apply map_ext_in. intros [a b] I. cbn. apply H; [eapply in_combine_l|eapply in_combine_r]; eauto. Qed.
