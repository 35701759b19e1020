(** The transforms built on the Hadamard transform. *)
From Coq Require Import Reals Lra Sorted.
From Verif.Lib Require Import Base Lists.
From Verif.Rotate Require Import Model Spec Proofs.
Local Open Scope nat_scope.

(** * Any arithmetic: lengths, and no panic *)
Section generic.
Context {F : Type} (o : ops F).

Lemma h8_row_length i : i < 8 -> length (h8_row o i) = 8.
Proof. intros H. unfold h8_row. rewrite map_length. do 8 (destruct i as [|i]; [reflexivity|]). lia. Qed.
Lemma register_length x k : length (register o x k) = 8.
Proof.
  unfold register. cbn [fold_left]. unfold process_patch, fma_row.
  rewrite !map2_length, !h8_row_length by lia. reflexivity.
Qed.
Lemma micro_length x : length (micro_kernel_64 o x) = 64.
Proof.
  unfold micro_kernel_64. rewrite !app_length, !map2_length, !register_length. reflexivity.
Qed.
Lemma had_length ar : forall fuel k x, k < fuel -> length x = 2 ^ S k -> length (had o ar fuel x) = 2 ^ S k.
Proof.
  induction fuel as [|fuel IH]; intros k x Lt L; [lia|]. cbn [had].
  destruct (match ar with Scalar => false | V3 => length x =? 64 end)%nat eqn:M.
  { destruct ar; [discriminate|]. apply Nat.eqb_eq in M. rewrite micro_length. lia. }
  destruct (Nat.eqb_spec (length x) 2); [cbn [length]; lia|].
  destruct k as [|k]; [cbn in L; lia|].
  assert (P : length x = 2 ^ S k + 2 ^ S k) by (now rewrite <- pow2_S).
  assert (HL : length x / 2 = 2 ^ S k).
  { rewrite P. replace (2 ^ S k + 2 ^ S k) with (2 ^ S k * 2) by lia. apply Nat.div_mul. lia. }
  rewrite HL. unfold butterfly. rewrite app_length, !map2_length.
  rewrite !(IH k) by (rewrite ?firstn_length, ?skipn_length; lia). rewrite (pow2_S (S k)). lia.
Qed.
Lemma transform_some ar x k : length x = 2 ^ k ->
  exists y, hadamard_transform o ar x = Some y /\ length y = 2 ^ k.
Proof.
  intros L. unfold hadamard_transform. rewrite L.
  assert (P : is_pow2 (2 ^ k) = true) by (apply is_pow2_spec; now exists k). rewrite P. cbn [negb].
  destruct (Nat.eqb_spec (2 ^ k) 1) as [K|K]; [now exists x|].
  destruct k as [|k]; [now elim K|]. eexists. split; [reflexivity|]. rewrite map_length.
  apply had_length; [|exact L]. rewrite pow2_S. pose proof (Nat.pow_gt_lin_r 2 k). lia.
Qed.

Lemma flip_zip_app : forall src signs dst, length src = length signs -> length src <= length dst ->
  flip_zip o dst src signs = flip_self o src signs ++ skipn (length src) dst.
Proof.
  induction src as [|s src IH]; intros [|g signs] [|d dst] L L'; cbn [length] in L, L'; try lia; try reflexivity.
  cbn [flip_zip flip_self app length skipn]. f_equal. apply IH; lia.
Qed.
Lemma flip_self_length : forall x s, length (flip_self o x s) = length x.
Proof. induction x as [|a x IH]; intros [|g s]; cbn [flip_self length]; auto. Qed.

(** The padded, flipped input. *)
Definition padded (src : list F) (signs : list N) (n : nat) : list F :=
  flip_self o src signs ++ repeat (zero o) (n - length src).
Lemma padded_length src signs n : length src <= n -> length (padded src signs n) = n.
Proof. intros L. unfold padded. rewrite app_length, flip_self_length, repeat_length. lia. Qed.
Lemma copy_and_flip_padded p dst src : length src = length (p_signs p) -> length src <= length dst ->
  copy_and_flip o p dst src = padded src (p_signs p) (length dst).
Proof.
  intros L L'. unfold copy_and_flip, padded. rewrite flip_zip_app by assumption. rewrite <- L.
  rewrite firstn_app, flip_self_length, Nat.sub_diag. cbn [firstn]. rewrite app_nil_r.
  rewrite firstn_all2 by (rewrite flip_self_length; lia). f_equal. f_equal.
  rewrite app_length, flip_self_length, skipn_length. lia.
Qed.
Lemma skipn_repeat (a : F) n m : skipn n (repeat a m) = repeat a (m - n).
Proof. revert n. induction m as [|m IH]; intros [|n]; cbn; auto. Qed.
Lemma flip_zip_padded src signs n : length src = length signs -> length src <= n ->
  flip_zip o (repeat (zero o) n) src signs = padded src signs n.
Proof.
  intros L L'. rewrite flip_zip_app by (rewrite ?repeat_length; assumption). now rewrite skipn_repeat.
Qed.

Lemma gather_some tmp c : forall idx, Forall (fun i => N.to_nat i < length tmp) idx ->
  exists r, gather o tmp c idx = Some r /\ length r = length idx /\
  forall j i, nth_error idx j = Some i -> exists v, nth_error tmp (N.to_nat i) = Some v /\ nth_error r j = Some (mul o v c).
Proof.
  induction idx as [|i idx IH]; intros H.
  { exists []. repeat split. intros [|j] ? D; discriminate D. }
  inversion H as [|? ? A B]; subst. destruct (IH B) as (r & E & L & K).
  cbn [gather]. destruct (nth_error tmp (N.to_nat i)) as [v|] eqn:V; [|apply nth_error_None in V; lia].
  rewrite E. eexists. split; [reflexivity|]. split; [cbn; lia|].
  intros [|j] i' D; cbn [nth_error] in D |- *; [injection D as <-; eauto|]. exact (K j i' D).
Qed.

(** A log-based split is the largest power of two. *)
Lemma split_le n : 0 < n -> 2 ^ Nat.log2 n <= n.
Proof. intros H. exact (proj1 (Nat.log2_spec n H)). Qed.

Lemma double_some ar d dst src : 0 < length (d_signs0 d) -> length src = length (d_signs0 d) ->
  (forall idx, d_sub d = Some idx -> Forall (fun i => N.to_nat i < Nat.max (length (d_signs0 d)) (d_target d)) idx) ->
  exists y, double_into o ar d dst src = Done y /\
    length y = match d_sub d with None => Nat.max (length (d_signs0 d)) (d_target d) | Some idx => length idx end.
Proof.
  intros N0 L S. unfold double_into. set (inter := Nat.max _ _) in *.
  assert (I : 0 < inter) by lia. destruct (Nat.eqb_spec inter 0); [lia|].
  rewrite flip_zip_padded by lia.
  assert (PL : length (padded src (d_signs0 d) inter) = inter) by (apply padded_length; lia).
  pose proof (split_le inter I) as SP. set (k := Nat.log2 inter) in *.
  destruct (transform_some ar (firstn (2 ^ k) (padded src (d_signs0 d) inter)) k) as (h & H & HL);
    [rewrite firstn_length; lia|]. rewrite H.
  set (tmp := flip_self o _ _).
  assert (TL : length tmp = inter).
  { unfold tmp. rewrite flip_self_length, app_length, skipn_length. lia. }
  destruct (transform_some ar (skipn (inter - 2 ^ k) tmp) k) as (t & T & TTL); [rewrite skipn_length; lia|]. rewrite T.
  assert (FL : length (firstn (inter - 2 ^ k) tmp ++ t) = inter) by (rewrite app_length, firstn_length; lia).
  destruct (d_sub d) as [idx|] eqn:SU.
  - unfold subsampled. edestruct (gather_some (firstn (inter - 2 ^ k) tmp ++ t)) as (r & G & GL & _); [|rewrite G; eauto].
    rewrite FL. now apply S.
  - eauto.
Qed.

Lemma padding_some ar p dst src : length (p_signs p) <= p_dim p -> is_pow2 (p_dim p) = true -> length src = length (p_signs p) ->
  length dst = output_dim (TPadding p) ->
  (forall idx, p_sub p = Some idx -> Forall (fun i => N.to_nat i < p_dim p) idx) ->
  exists y, padding_into o ar p dst src = Done y /\ length y = output_dim (TPadding p).
Proof.
  intros LE P L D S. apply is_pow2_spec in P as (k & K). unfold padding_into. cbn [output_dim] in *.
  destruct (p_sub p) as [idx|] eqn:SU.
  - rewrite copy_and_flip_padded by (rewrite ?repeat_length; lia). rewrite repeat_length.
    destruct (transform_some ar (padded src (p_signs p) (p_dim p)) k) as (y & Y & YL); [rewrite padded_length; lia|]. rewrite Y.
    unfold subsampled. edestruct (gather_some y) as (r & G & GL & _); [|rewrite G; eauto].
    rewrite YL, <- K. now apply S.
  - rewrite copy_and_flip_padded by lia. rewrite D.
    destruct (transform_some ar (padded src (p_signs p) (p_dim p)) k) as (y & Y & YL); [rewrite padded_length; lia|]. rewrite Y.
    exists y. split; [reflexivity|]. lia.
Qed.
End generic.

(** * Exact arithmetic *)
Local Open Scope R_scope.
Definition scaled (k : nat) (x : list R) : list R := map (fun v => v * (1 / sqrt (INR (2 ^ k)))) (wht k x).
Lemma ldot_scale c : forall x y, ldot (map (fun v => v * c) x) (map (fun v => v * c) y) = c * c * ldot x y.
Proof. induction x as [|a x IH]; intros [|b y]; cbn [map ldot]; try ring. rewrite IH. ring. Qed.
Lemma INR_pow2_pos k : 0 < INR (2 ^ k).
Proof. change 0 with (INR 0). apply lt_INR. apply pow2_pos. Qed.
Lemma scaled_length k x : length x = (2 ^ k)%nat -> length (scaled k x) = (2 ^ k)%nat.
Proof. intros L. unfold scaled. rewrite map_length. now apply wht_length. Qed.
Lemma scaled_isometry k x y : length x = (2 ^ k)%nat -> length y = (2 ^ k)%nat ->
  ldot (scaled k x) (scaled k y) = ldot x y.
Proof.
  intros X Y. unfold scaled. rewrite ldot_scale, wht_isometry by assumption.
  pose proof (INR_pow2_pos k) as P. pose proof (sqrt_lt_R0 _ P) as Q.
  assert (S : sqrt (INR (2 ^ k)) * sqrt (INR (2 ^ k)) = INR (2 ^ k)) by (apply sqrt_sqrt; lra).
  set (s := sqrt (INR (2 ^ k))) in *. rewrite <- S. field. lra.
Qed.
Lemma scaled_involution k x : length x = (2 ^ k)%nat -> scaled k (scaled k x) = x.
Proof.
  intros X. unfold scaled. set (c := 1 / sqrt (INR (2 ^ k))).
  assert (M : forall l, map (fun v => v * c) l = map (Rmult c) l) by (intros; apply map_ext; intros; ring).
  rewrite !M, wht_scale by (now apply wht_length). rewrite wht_involution by exact X.
  rewrite !map_map. rewrite <- (map_id x) at 2. apply map_ext. intros a.
  pose proof (INR_pow2_pos k) as P. pose proof (sqrt_lt_R0 _ P) as Q.
  assert (S : sqrt (INR (2 ^ k)) * sqrt (INR (2 ^ k)) = INR (2 ^ k)) by (apply sqrt_sqrt; lra).
  unfold c. set (s := sqrt (INR (2 ^ k))) in *. rewrite <- S. field. lra.
Qed.

Section exact2.
Context (o : ops R) (E : exact o).

Lemma xor_mul g x y : is_sign g = true -> xor_bits o x g * xor_bits o y g = x * y.
Proof.
  unfold is_sign. rewrite orb_true_iff, !N.eqb_eq. intros [->| ->];
    rewrite ?(ex_xor0 o E), ?(ex_xor1 o E); ring.
Qed.
Lemma flip_ldot : forall s x y, forallb is_sign s = true -> length x = length y ->
  ldot (flip_self o x s) (flip_self o y s) = ldot x y.
Proof.
  induction s as [|g s IH]; intros [|a x] [|b y] H L; cbn [length] in L; try discriminate; try reflexivity.
  cbn [forallb] in H. apply andb_true_iff in H as [G H]. cbn [flip_self ldot]. rewrite xor_mul, IH by (auto; lia). reflexivity.
Qed.
Lemma ldot_zeros n : ldot (repeat 0 n) (repeat 0 n) = 0.
Proof. induction n as [|n IH]; cbn [repeat ldot]; [reflexivity|rewrite IH; ring]. Qed.
Lemma padded_ldot s x y n : forallb is_sign s = true -> length x = length y ->
  ldot (padded o x s n) (padded o y s n) = ldot x y.
Proof.
  intros H L. unfold padded. rewrite ldot_app by (rewrite !flip_self_length; exact L).
  rewrite flip_ldot by assumption. rewrite <- L, (ex_zero o E), ldot_zeros. ring.
Qed.

Definition image_p (p : padding) (x : list R) : list R :=
  scaled (Nat.log2 (p_dim p)) (padded o x (p_signs p) (p_dim p)).
Definition image_d (d : double) (x : list R) : list R :=
  let inter := Nat.max (length (d_signs0 d)) (d_target d) in
  let k := Nat.log2 inter in
  let tmp := padded o x (d_signs0 d) inter in
  let tmp := flip_self o (scaled k (firstn (2 ^ k) tmp) ++ skipn (2 ^ k) tmp) (d_signs1 d) in
  firstn (inter - 2 ^ k) tmp ++ scaled k (skipn (inter - 2 ^ k) tmp).

Lemma log2_pow2' n : is_pow2 n = true -> (2 ^ Nat.log2 n = n)%nat.
Proof. unfold is_pow2. apply Nat.eqb_eq. Qed.

Lemma padding_image ar p dst x : p_sub p = None -> (length (p_signs p) <= p_dim p)%nat -> is_pow2 (p_dim p) = true ->
  length x = length (p_signs p) -> length dst = p_dim p -> padding_into o ar p dst x = Done (image_p p x).
Proof.
  intros S LE P L D. unfold padding_into. rewrite S. rewrite copy_and_flip_padded by lia. rewrite D.
  rewrite (transform_wht o E ar (Nat.log2 (p_dim p))); [reflexivity|]. rewrite log2_pow2' by exact P. apply padded_length. lia.
Qed.
Lemma padding_image_ldot p x y : forallb is_sign (p_signs p) = true -> (length (p_signs p) <= p_dim p)%nat -> is_pow2 (p_dim p) = true ->
  length x = length (p_signs p) -> length y = length (p_signs p) ->
  length (image_p p x) = p_dim p /\ ldot (image_p p x) (image_p p y) = ldot x y.
Proof.
  intros S LE P X Y. unfold image_p.
  assert (A : length (padded o x (p_signs p) (p_dim p)) = (2 ^ Nat.log2 (p_dim p))%nat) by (rewrite log2_pow2' by exact P; apply padded_length; lia).
  assert (B : length (padded o y (p_signs p) (p_dim p)) = (2 ^ Nat.log2 (p_dim p))%nat) by (rewrite log2_pow2' by exact P; apply padded_length; lia).
  split; [rewrite scaled_length by exact A; now apply log2_pow2'|].
  rewrite scaled_isometry by assumption. apply padded_ldot; [exact S|congruence].
Qed.

Lemma double_image ar d dst x : d_sub d = None -> (0 < length (d_signs0 d))%nat -> length x = length (d_signs0 d) ->
  double_into o ar d dst x = Done (image_d d x).
Proof.
  intros S N0 L. unfold double_into, image_d. set (inter := Nat.max _ _) in *.
  assert (I : (0 < inter)%nat) by lia. destruct (Nat.eqb_spec inter 0); [lia|].
  rewrite flip_zip_padded by lia.
  assert (PL : length (padded o x (d_signs0 d) inter) = inter) by (apply padded_length; lia).
  pose proof (split_le inter I) as SP. set (k := Nat.log2 inter) in *.
  assert (FL : length (firstn (2 ^ k) (padded o x (d_signs0 d) inter)) = (2 ^ k)%nat) by (rewrite firstn_length; lia).
  rewrite (transform_wht o E ar k) by exact FL. fold (scaled k (firstn (2 ^ k) (padded o x (d_signs0 d) inter))).
  rewrite (transform_wht o E ar k); [rewrite S; reflexivity|].
  rewrite skipn_length, flip_self_length, app_length, skipn_length, scaled_length by exact FL. lia.
Qed.
Lemma double_image_ldot d x y : forallb is_sign (d_signs0 d) = true -> forallb is_sign (d_signs1 d) = true ->
  (0 < length (d_signs0 d))%nat -> length x = length (d_signs0 d) -> length y = length (d_signs0 d) ->
  length (image_d d x) = Nat.max (length (d_signs0 d)) (d_target d) /\ ldot (image_d d x) (image_d d y) = ldot x y.
Proof.
  intros S0 S1 N0 X Y. unfold image_d. set (inter := Nat.max _ _) in *.
  assert (I : (0 < inter)%nat) by lia.
  assert (PX : length (padded o x (d_signs0 d) inter) = inter) by (apply padded_length; lia).
  assert (PY : length (padded o y (d_signs0 d) inter) = inter) by (apply padded_length; lia).
  assert (PD : ldot (padded o x (d_signs0 d) inter) (padded o y (d_signs0 d) inter) = ldot x y) by (apply padded_ldot; [exact S0|congruence]).
  pose proof (split_le inter I) as SP. set (k := Nat.log2 inter) in *.
  set (px := padded o x (d_signs0 d) inter) in *. set (py := padded o y (d_signs0 d) inter) in *. clearbody px py.
  assert (FX : length (firstn (2 ^ k) px) = (2 ^ k)%nat) by (rewrite firstn_length; lia).
  assert (FY : length (firstn (2 ^ k) py) = (2 ^ k)%nat) by (rewrite firstn_length; lia).
  set (tx := flip_self o (scaled k (firstn (2 ^ k) px) ++ skipn (2 ^ k) px) (d_signs1 d)).
  set (ty := flip_self o (scaled k (firstn (2 ^ k) py) ++ skipn (2 ^ k) py) (d_signs1 d)).
  assert (TX : length tx = inter) by (unfold tx; rewrite flip_self_length, app_length, skipn_length, scaled_length by exact FX; lia).
  assert (TY : length ty = inter) by (unfold ty; rewrite flip_self_length, app_length, skipn_length, scaled_length by exact FY; lia).
  assert (TD : ldot tx ty = ldot x y).
  { unfold tx, ty. rewrite flip_ldot; [|exact S1|rewrite !app_length, !skipn_length, !scaled_length by assumption; lia].
    rewrite ldot_app by (rewrite !scaled_length by assumption; reflexivity). rewrite scaled_isometry by assumption.
    rewrite <- ldot_app by congruence. rewrite !firstn_skipn. exact PD. }
  clearbody tx ty.
  assert (KX : length (skipn (inter - 2 ^ k) tx) = (2 ^ k)%nat) by (rewrite skipn_length; lia).
  assert (KY : length (skipn (inter - 2 ^ k) ty) = (2 ^ k)%nat) by (rewrite skipn_length; lia).
  split; [rewrite app_length, firstn_length, scaled_length by exact KX; lia|].
  rewrite ldot_app by (rewrite !firstn_length; lia). rewrite scaled_isometry by assumption.
  rewrite <- ldot_app by (rewrite !firstn_length; lia). rewrite !firstn_skipn. exact TD.
Qed.
End exact2.

(** Squared distances follow from inner products. *)
Lemma sqdist_dot n x y : sqdist n x y = dot n x x + dot n y y - 2 * dot n x y.
Proof.
  unfold sqdist, dot. generalize (seq 0 n). induction l as [|i l IH]; cbn [total]; [ring|].
  rewrite IH. ring.
Qed.
