(** The recursive Hadamard transform is Sylvester's matrix, an isometry and an involution. *)
From Coq Require Import Reals Lra.
From Verif.Lib Require Import Base Lists.
From Verif.Rotate Require Import Model Spec.
Local Open Scope R_scope.

(** * Sums *)
Lemma total_ext xs f g : (forall i, In i xs -> f i = g i) -> total xs f = total xs g.
Proof.
  induction xs as [|x xs IH]; cbn [total]; intros H; [reflexivity|].
  rewrite (H x (or_introl eq_refl)), IH; [reflexivity|]. intros i Hi. apply H. now right.
Qed.
Lemma total_app xs ys f : total (xs ++ ys) f = total xs f + total ys f.
Proof. induction xs as [|x xs IH]; cbn [app total]; [ring|rewrite IH; ring]. Qed.
Lemma total_plus xs f g : total xs (fun i => f i + g i) = total xs f + total xs g.
Proof. induction xs as [|x xs IH]; cbn [total]; [ring|rewrite IH; ring]. Qed.
Lemma total_opp xs f : total xs (fun i => - f i) = - total xs f.
Proof. induction xs as [|x xs IH]; cbn [total]; [ring|rewrite IH; ring]. Qed.
Lemma total_scale c xs f : total xs (fun i => c * f i) = c * total xs f.
Proof. induction xs as [|x xs IH]; cbn [total]; [ring|rewrite IH; ring]. Qed.
Lemma total_map g xs f : total (map g xs) f = total xs (fun i => f (g i)).
Proof. induction xs as [|x xs IH]; cbn [map total]; [reflexivity|now rewrite IH]. Qed.
Lemma seq_add_map n : forall s m, seq (s + n) m = map (fun i => (i + n)%nat) (seq s m).
Proof.
  intros s m. revert s. induction m as [|m IH]; intros s; cbn [seq map]; [reflexivity|].
  f_equal. exact (IH (S s)).
Qed.
Lemma total_double h f :
  total (seq 0 (h + h)) f = total (seq 0 h) f + total (seq 0 h) (fun i => f (i + h)%nat).
Proof.
  rewrite seq_app, total_app. f_equal. rewrite (seq_add_map h 0 h). now rewrite total_map.
Qed.

(** * Inner products of lists *)
Fixpoint ldot (x y : list R) : R :=
  match x, y with a :: x', b :: y' => a * b + ldot x' y' | _, _ => 0 end.
Lemma dot_ldot : forall x y, length x = length y -> dot (length x) x y = ldot x y.
Proof.
  unfold dot. induction x as [|a x IH]; intros [|b y] L; cbn [length] in L; try discriminate; [reflexivity|].
  cbn [length seq total ldot]. rewrite <- seq_shift, total_map. cbn [coord nth].
  rewrite <- IH by lia. reflexivity.
Qed.
Lemma dot_ldot' n x y : length x = n -> length y = n -> dot n x y = ldot x y.
Proof. intros <- L. now apply dot_ldot. Qed.
Lemma ldot_app : forall a b c d, length a = length c -> ldot (a ++ b) (c ++ d) = ldot a c + ldot b d.
Proof.
  induction a as [|x a IH]; intros b [|y c] d L; cbn [length] in L; try discriminate; cbn [app ldot]; [ring|].
  rewrite IH by lia. ring.
Qed.

(** * Element-wise maps *)
Lemma map2_length {F} (f : F -> F -> F) l r : length (map2 f l r) = Nat.min (length l) (length r).
Proof. unfold map2. now rewrite map_length, combine_length. Qed.
Lemma map2_cons {F} (f : F -> F -> F) a l b r : map2 f (a :: l) (b :: r) = f a b :: map2 f l r.
Proof. reflexivity. Qed.
Lemma map2_app {F} (f : F -> F -> F) : forall a b c d, length a = length c ->
  map2 f (a ++ b) (c ++ d) = map2 f a c ++ map2 f b d.
Proof.
  induction a as [|x a IH]; intros b [|y c] d L; cbn [length] in L; try discriminate; [reflexivity|].
  cbn [app]. rewrite !map2_cons. cbn [app]. f_equal. apply IH. lia.
Qed.
Lemma map2_ext {F} (f g : F -> F -> F) l r : (forall x y, f x y = g x y) -> map2 f l r = map2 g l r.
Proof. intros H. unfold map2. apply map_ext. intros. apply H. Qed.
Lemma map2_nth (f : R -> R -> R) : forall l r i, (i < length l)%nat -> (i < length r)%nat ->
  coord (map2 f l r) i = f (coord l i) (coord r i).
Proof.
  induction l as [|a l IH]; intros [|b r] i A B; cbn [length] in A, B; try lia.
  rewrite map2_cons. destruct i as [|i]; [reflexivity|]. cbn [coord nth]. apply IH; lia.
Qed.

(** * The transform, on exponents *)
Fixpoint wht (k : nat) (x : list R) : list R :=
  match k with
  | O => x
  | S k' =>
      let l := wht k' (firstn (2 ^ k') x) in
      let r := wht k' (skipn (2 ^ k') x) in
      map2 Rplus l r ++ map2 Rminus l r
  end.
Lemma pow2_S k : (2 ^ S k = 2 ^ k + 2 ^ k)%nat.
Proof. rewrite Nat.pow_succ_r'. lia. Qed.
Lemma pow2_pos k : (0 < 2 ^ k)%nat.
Proof. pose proof (Nat.pow_nonzero 2 k). lia. Qed.
Lemma wht_app k l r : length l = (2 ^ k)%nat ->
  wht (S k) (l ++ r) = map2 Rplus (wht k l) (wht k r) ++ map2 Rminus (wht k l) (wht k r).
Proof.
  intros L. cbn [wht]. rewrite firstn_app, skipn_app, L, Nat.sub_diag.
  cbn [firstn skipn]. rewrite app_nil_r, firstn_all2 by lia. rewrite skipn_all2 by lia. reflexivity.
Qed.
Lemma half_split {A} n m (x : list A) : length x = (n + m)%nat -> exists l r, x = l ++ r /\ length l = n /\ length r = m.
Proof.
  intros L. exists (firstn n x), (skipn n x). rewrite firstn_skipn, firstn_length, skipn_length.
  repeat split; lia.
Qed.
Lemma wht_length : forall k x, length x = (2 ^ k)%nat -> length (wht k x) = (2 ^ k)%nat.
Proof.
  induction k as [|k IH]; intros x L; [exact L|]. rewrite pow2_S in L.
  destruct (half_split _ _ _ L) as (l & r & -> & Ll & Lr). rewrite wht_app by exact Ll.
  rewrite app_length, !map2_length, !IH by assumption. rewrite pow2_S. lia.
Qed.

(** Coordinate [i] of the transform is row [i] of Sylvester's matrix times the vector. *)
Lemma wht_sylvester : forall k x, length x = (2 ^ k)%nat -> forall i, (i < 2 ^ k)%nat ->
  coord (wht k x) i = total (seq 0 (2 ^ k)) (fun j => sylvester k i j * coord x j).
Proof.
  induction k as [|k IH]; intros x L i I.
  { cbn in L, I. assert (i = 0)%nat by lia. subst i. destruct x as [|a [|? ?]]; try discriminate.
    cbn. ring. }
  pose proof L as L0. rewrite pow2_S in L0. destruct (half_split _ _ _ L0) as (l & r & -> & Ll & Lr).
  rewrite wht_app by exact Ll. rewrite pow2_S, total_double.
  set (h := (2 ^ k)%nat) in *. pose proof (pow2_pos k) as HP. fold h in HP.
  pose proof (wht_length k l Ll) as Wl. pose proof (wht_length k r Lr) as Wr. fold h in Wl, Wr.
  assert (SL : forall j, (j < h)%nat -> coord (l ++ r) j = coord l j).
  { intros j J. unfold coord. apply app_nth1. lia. }
  assert (SR : forall j, (j < h)%nat -> coord (l ++ r) (j + h) = coord r j).
  { intros j J. unfold coord. rewrite app_nth2 by lia. f_equal. lia. }
  assert (T1 : total (seq 0 h) (fun j => sylvester (S k) i j * coord (l ++ r) j) =
               total (seq 0 h) (fun j => sylvester k (i mod h) j * coord l j)).
  { apply total_ext. intros j J. apply in_seq in J. rewrite SL by lia. f_equal. cbn [sylvester]. fold h.
    rewrite (Nat.mod_small j) by lia. destruct (Nat.leb_spec h j); [lia|]. now rewrite andb_false_r. }
  assert (T2 : total (seq 0 h) (fun j => sylvester (S k) i (j + h) * coord (l ++ r) (j + h)) =
               (if (h <=? i)%nat then -1 else 1) * total (seq 0 h) (fun j => sylvester k (i mod h) j * coord r j)).
  { rewrite <- total_scale. apply total_ext. intros j J. apply in_seq in J. rewrite SR by lia. cbn [sylvester]. fold h.
    replace (j + h)%nat with (j + 1 * h)%nat by lia. rewrite Nat.mod_add by lia. rewrite (Nat.mod_small j) by lia.
    destruct (Nat.leb_spec h (j + 1 * h)); [|lia]. rewrite andb_true_r. destruct (h <=? i)%nat; ring. }
  rewrite T1, T2. clear T1 T2. destruct (Nat.lt_ge_cases i h) as [Lt|Ge].
  - transitivity (coord (map2 Rplus (wht k l) (wht k r)) i).
    { unfold coord. apply app_nth1. rewrite map2_length. lia. }
    rewrite map2_nth by lia. rewrite (IH l Ll i Lt), (IH r Lr i Lt). fold h.
    rewrite (Nat.mod_small i) by lia. destruct (Nat.leb_spec h i); [lia|]. ring.
  - transitivity (coord (map2 Rminus (wht k l) (wht k r)) (i - h)).
    { unfold coord. rewrite app_nth2; rewrite map2_length; [f_equal|]; lia. }
    rewrite pow2_S in I. fold h in I.
    rewrite map2_nth by lia. rewrite (IH l Ll (i - h)%nat) by (fold h; lia). rewrite (IH r Lr (i - h)%nat) by (fold h; lia). fold h.
    assert (E : (i mod h = i - h)%nat).
    { replace i with ((i - h) + 1 * h)%nat at 1 by lia. rewrite Nat.mod_add by lia. apply Nat.mod_small. lia. }
    rewrite E. destruct (Nat.leb_spec h i); [|lia]. ring.
Qed.

(** * Isometry *)
Lemma parallelogram : forall l r l' r', length l = length r -> length l' = length r' -> length l = length l' ->
  ldot (map2 Rplus l r) (map2 Rplus l' r') + ldot (map2 Rminus l r) (map2 Rminus l' r') =
  2 * ldot l l' + 2 * ldot r r'.
Proof.
  induction l as [|a l IH]; intros [|b r] [|c l'] [|d r'] A B C; cbn [length] in A, B, C; try discriminate.
  - cbn. ring.
  - rewrite !map2_cons. cbn [ldot]. specialize (IH r l' r' ltac:(lia) ltac:(lia) ltac:(lia)). lra.
Qed.
Lemma wht_isometry : forall k x y, length x = (2 ^ k)%nat -> length y = (2 ^ k)%nat ->
  ldot (wht k x) (wht k y) = INR (2 ^ k) * ldot x y.
Proof.
  induction k as [|k IH]; intros x y X Y.
  { cbn [wht Nat.pow INR]. ring. }
  rewrite pow2_S in X, Y.
  destruct (half_split _ _ _ X) as (l & r & -> & Ll & Lr).
  destruct (half_split _ _ _ Y) as (l' & r' & -> & Ll' & Lr').
  rewrite !wht_app by assumption.
  rewrite ldot_app by (rewrite !map2_length, !wht_length by assumption; reflexivity).
  rewrite parallelogram by (rewrite !wht_length by assumption; reflexivity).
  rewrite !IH by assumption. rewrite ldot_app by congruence. rewrite pow2_S, plus_INR. ring.
Qed.

(** * Involution *)
Lemma map2_lin : forall (f g : R -> R -> R), (forall a b c d, f (g a b) (g c d) = g (f a c) (f b d)) ->
  forall a b c d, length a = length b -> length c = length d -> length a = length c ->
  map2 f (map2 g a b) (map2 g c d) = map2 g (map2 f a c) (map2 f b d).
Proof.
  intros f g H. induction a as [|w a IH]; intros [|x b] [|y c] [|z d] A B C; cbn [length] in A, B, C; try discriminate; [reflexivity|].
  rewrite !map2_cons. f_equal; [apply H|]. apply IH; lia.
Qed.
Lemma wht_add : forall k x y, length x = (2 ^ k)%nat -> length y = (2 ^ k)%nat ->
  wht k (map2 Rplus x y) = map2 Rplus (wht k x) (wht k y).
Proof.
  induction k as [|k IH]; intros x y X Y; [reflexivity|]. rewrite pow2_S in X, Y.
  destruct (half_split _ _ _ X) as (l & r & -> & Ll & Lr).
  destruct (half_split _ _ _ Y) as (l' & r' & -> & Ll' & Lr').
  rewrite map2_app by congruence. rewrite !wht_app by (rewrite ?map2_length; lia).
  rewrite !IH by assumption. rewrite map2_app by (rewrite !map2_length, !wht_length by assumption; reflexivity).
  f_equal; apply map2_lin; rewrite ?wht_length by assumption; auto; intros; ring.
Qed.
Lemma wht_sub : forall k x y, length x = (2 ^ k)%nat -> length y = (2 ^ k)%nat ->
  wht k (map2 Rminus x y) = map2 Rminus (wht k x) (wht k y).
Proof.
  induction k as [|k IH]; intros x y X Y; [reflexivity|]. rewrite pow2_S in X, Y.
  destruct (half_split _ _ _ X) as (l & r & -> & Ll & Lr).
  destruct (half_split _ _ _ Y) as (l' & r' & -> & Ll' & Lr').
  rewrite map2_app by congruence. rewrite !wht_app by (rewrite ?map2_length; lia).
  rewrite !IH by assumption. rewrite map2_app by (rewrite !map2_length, !wht_length by assumption; reflexivity).
  f_equal; apply map2_lin; rewrite ?wht_length by assumption; auto; intros; ring.
Qed.
Lemma map2_scale_sum c : forall l r, length l = length r ->
  map2 Rplus (map2 Rplus (map (Rmult c) l) (map (Rmult c) r)) (map2 Rminus (map (Rmult c) l) (map (Rmult c) r)) =
  map (Rmult (c + c)) l.
Proof.
  induction l as [|a l IH]; intros [|b r] L; cbn [length] in L; try discriminate; [reflexivity|].
  cbn [map]. rewrite !map2_cons. f_equal; [ring|]. apply IH. lia.
Qed.
Lemma map2_scale_diff c : forall l r, length l = length r ->
  map2 Rminus (map2 Rplus (map (Rmult c) l) (map (Rmult c) r)) (map2 Rminus (map (Rmult c) l) (map (Rmult c) r)) =
  map (Rmult (c + c)) r.
Proof.
  induction l as [|a l IH]; intros [|b r] L; cbn [length] in L; try discriminate; [reflexivity|].
  cbn [map]. rewrite !map2_cons. f_equal; [ring|]. apply IH. lia.
Qed.
Lemma wht_involution : forall k x, length x = (2 ^ k)%nat -> wht k (wht k x) = map (Rmult (INR (2 ^ k))) x.
Proof.
  induction k as [|k IH]; intros x X.
  { cbn [wht Nat.pow INR]. rewrite <- (map_id x) at 1. apply map_ext. intros. ring. }
  rewrite pow2_S in X. destruct (half_split _ _ _ X) as (l & r & -> & Ll & Lr).
  rewrite (wht_app k l r Ll). rewrite wht_app by (rewrite map2_length, !wht_length by assumption; lia).
  rewrite wht_add, wht_sub by (now apply wht_length). rewrite !IH by assumption.
  rewrite map2_scale_sum, map2_scale_diff by congruence. rewrite pow2_S, plus_INR, map_app. reflexivity.
Qed.
Lemma wht_scale c : forall k x, length x = (2 ^ k)%nat -> wht k (map (Rmult c) x) = map (Rmult c) (wht k x).
Proof.
  induction k as [|k IH]; intros x X; [reflexivity|]. rewrite pow2_S in X.
  destruct (half_split _ _ _ X) as (l & r & -> & Ll & Lr).
  rewrite map_app, !wht_app by (rewrite ?map_length; assumption). rewrite !IH by assumption. rewrite map_app.
  assert (M : forall (f : R -> R -> R) (H : forall a b, f (c * a) (c * b) = c * f a b) a b,
    map2 f (map (Rmult c) a) (map (Rmult c) b) = map (Rmult c) (map2 f a b)).
  { intros f H. induction a as [|u a IHa]; intros [|v b]; try reflexivity. cbn [map]. rewrite !map2_cons. cbn [map].
    f_equal; [apply H|apply IHa]. }
  f_equal; apply M; intros; ring.
Qed.

(** * The code computes it *)
Section exact.
Context (o : ops R) (E : exact o).

Lemma add_plus l r : map2 (add o) l r = map2 Rplus l r.
Proof. apply map2_ext. intros. apply (ex_add o E). Qed.
Lemma sub_minus l r : map2 (sub o) l r = map2 Rminus l r.
Proof. apply map2_ext. intros. apply (ex_sub o E). Qed.

Lemma register_wht x k c : length c = 8%nat ->
  (forall j, (j < 8)%nat -> nth (j + 8 * k) x 0 = nth j c 0) -> register o x k = wht 3 c.
Proof.
  intros L H. unfold register. cbn [fold_left]. unfold process_patch. rewrite (ex_zero o E).
  change (2 * 0)%nat with 0%nat. change (2 * 1)%nat with 2%nat. change (2 * 2)%nat with 4%nat. change (2 * 3)%nat with 6%nat.
  assert (H' : forall j, (S j < 8)%nat -> nth (j + 8 * k + 1) x 0 = nth (S j) c 0).
  { intros j J. rewrite <- (H (S j) J). f_equal. lia. }
  rewrite !H, !H' by lia. clear H H'.
  destruct c as [|a0 [|a1 [|a2 [|a3 [|a4 [|a5 [|a6 [|a7 [|? ?]]]]]]]]]; try discriminate. clear L.
  unfold fma_row, h8_row, HADAMARD_8.
  cbn [nth repeat map Nat.add combine fst snd firstn skipn app wht Nat.pow Nat.mul map2].
  unfold map2. cbn [combine map fst snd app].
  rewrite ?(ex_fma o E), ?(ex_one o E), ?(ex_neg o E), ?(ex_zero o E).
  repeat (f_equal; [ring|]). f_equal; ring.
Qed.

Lemma nth_chunk {A} (d : A) n pre c post k j : length pre = (n * k)%nat -> length c = n -> (j < n)%nat ->
  nth (j + n * k) (pre ++ c ++ post) d = nth j c d.
Proof.
  intros P C J. rewrite app_nth2 by lia. replace (j + n * k - length pre)%nat with j by lia.
  apply app_nth1. lia.
Qed.
Lemma micro_wht x : length x = 64%nat -> micro_kernel_64 o x = wht 6 x.
Proof.
  intros L.
  destruct (half_split 32 32 x L) as (xl & xr & -> & L0 & L1).
  destruct (half_split 16 16 xl L0) as (xa & xb & -> & La & Lb).
  destruct (half_split 16 16 xr L1) as (xc & xd & -> & Lc & Ld).
  destruct (half_split 8 8 xa La) as (c0 & c1 & -> & A0 & A1).
  destruct (half_split 8 8 xb Lb) as (c2 & c3 & -> & A2 & A3).
  destruct (half_split 8 8 xc Lc) as (c4 & c5 & -> & A4 & A5).
  destruct (half_split 8 8 xd Ld) as (c6 & c7 & -> & A6 & A7).
  set (x := ((c0 ++ c1) ++ c2 ++ c3) ++ (c4 ++ c5) ++ c6 ++ c7) in *.
  assert (R0 : register o x 0 = wht 3 c0).
  { apply register_wht; [exact A0|]. intros j J.
    replace x with ([] ++ c0 ++ (c1 ++ (c2 ++ c3) ++ (c4 ++ c5) ++ c6 ++ c7)) by (unfold x; now rewrite <- !app_assoc).
    apply nth_chunk; auto. }
  assert (R1 : register o x 1 = wht 3 c1).
  { apply register_wht; [exact A1|]. intros j J.
    replace x with (c0 ++ c1 ++ ((c2 ++ c3) ++ (c4 ++ c5) ++ c6 ++ c7)) by (unfold x; now rewrite <- !app_assoc).
    apply nth_chunk; auto. }
  assert (R2 : register o x 2 = wht 3 c2).
  { apply register_wht; [exact A2|]. intros j J.
    replace x with ((c0 ++ c1) ++ c2 ++ (c3 ++ (c4 ++ c5) ++ c6 ++ c7)) by (unfold x; now rewrite <- !app_assoc).
    apply nth_chunk; auto. }
  assert (R3 : register o x 3 = wht 3 c3).
  { apply register_wht; [exact A3|]. intros j J.
    replace x with ((c0 ++ c1 ++ c2) ++ c3 ++ ((c4 ++ c5) ++ c6 ++ c7)) by (unfold x; now rewrite <- !app_assoc).
    apply nth_chunk; auto. rewrite !app_length. lia. }
  assert (R4 : register o x 4 = wht 3 c4).
  { apply register_wht; [exact A4|]. intros j J.
    replace x with ((c0 ++ c1 ++ c2 ++ c3) ++ c4 ++ (c5 ++ c6 ++ c7)) by (unfold x; now rewrite <- !app_assoc).
    apply nth_chunk; auto. rewrite !app_length. lia. }
  assert (R5 : register o x 5 = wht 3 c5).
  { apply register_wht; [exact A5|]. intros j J.
    replace x with ((c0 ++ c1 ++ c2 ++ c3 ++ c4) ++ c5 ++ (c6 ++ c7)) by (unfold x; now rewrite <- !app_assoc).
    apply nth_chunk; auto. rewrite !app_length. lia. }
  assert (R6 : register o x 6 = wht 3 c6).
  { apply register_wht; [exact A6|]. intros j J.
    replace x with ((c0 ++ c1 ++ c2 ++ c3 ++ c4 ++ c5) ++ c6 ++ c7) by (unfold x; now rewrite <- !app_assoc).
    apply nth_chunk; auto. rewrite !app_length. lia. }
  assert (R7 : register o x 7 = wht 3 c7).
  { apply register_wht; [exact A7|]. intros j J.
    replace x with ((c0 ++ c1 ++ c2 ++ c3 ++ c4 ++ c5 ++ c6) ++ c7 ++ []) by (unfold x; rewrite app_nil_r; now rewrite <- !app_assoc).
    apply nth_chunk; auto. rewrite !app_length. lia. }
  unfold micro_kernel_64. rewrite R0, R1, R2, R3, R4, R5, R6, R7. cbv zeta.
  unfold x. rewrite wht_app by exact L0. rewrite (wht_app 4 (c0 ++ c1)), (wht_app 4 (c4 ++ c5)) by assumption.
  rewrite !(wht_app 3) by assumption.
  assert (W : forall c, length c = 8%nat -> length (wht 3 c) = 8%nat) by (intros c; exact (wht_length 3 c)).
  apply W in A0, A1, A2, A3, A4, A5, A6, A7.
  clear R0 R1 R2 R3 R4 R5 R6 R7.
  generalize dependent (wht 3 c0). generalize dependent (wht 3 c1). generalize dependent (wht 3 c2).
  generalize dependent (wht 3 c3). generalize dependent (wht 3 c4). generalize dependent (wht 3 c5).
  generalize dependent (wht 3 c6). generalize dependent (wht 3 c7).
  clear - E. intros d7 A7 d6 A6 d5 A5 d4 A4 d3 A3 d2 A2 d1 A1 d0 A0.
  rewrite !add_plus, !sub_minus.
  assert (Lf : forall f (a b : list R), length a = 8%nat -> length b = 8%nat -> length (map2 f a b) = 8%nat).
  { intros f a b U V. rewrite map2_length. lia. }
  repeat (rewrite map2_app by (repeat progress (rewrite ?app_length, ?map2_length); lia)).
  rewrite <- ?app_assoc. reflexivity.
Qed.

Lemma had_wht ar : forall k fuel x, (k < fuel)%nat -> length x = (2 ^ S k)%nat -> had o ar fuel x = wht (S k) x.
Proof.
  induction k as [|k IH]; intros [|fuel] x Lt L; try lia.
  { cbn [had]. change (2 ^ 1)%nat with 2%nat in L. rewrite L.
    replace (match ar with Scalar => false | V3 => (2 =? 64)%nat end) with false by (now destruct ar).
    cbv iota. rewrite Nat.eqb_refl. destruct x as [|a [|b [|? ?]]]; try discriminate.
    cbn [nth]. rewrite (ex_add o E), (ex_sub o E). reflexivity. }
  cbn [had].
  destruct (match ar with Scalar => false | V3 => length x =? 64 end)%nat eqn:M.
  { destruct ar; [discriminate|]. apply Nat.eqb_eq in M. rewrite micro_wht by exact M.
    rewrite M in L. change 64%nat with (2 ^ 6)%nat in L. apply Nat.pow_inj_r in L; [|lia]. now rewrite <- L. }
  assert (P : length x = (2 ^ S k + 2 ^ S k)%nat) by (now rewrite <- pow2_S).
  pose proof (pow2_pos k). assert (2 <= 2 ^ S k)%nat by (rewrite pow2_S; lia).
  destruct (Nat.eqb_spec (length x) 2); [lia|].
  assert (HL : (length x / 2 = 2 ^ S k)%nat).
  { rewrite P. replace (2 ^ S k + 2 ^ S k)%nat with (2 ^ S k * 2)%nat by lia. apply Nat.div_mul. lia. }
  rewrite HL. destruct (half_split _ _ _ P) as (l & r & -> & Ll & Lr).
  rewrite firstn_app, skipn_app, Ll, Nat.sub_diag. cbn [firstn skipn].
  rewrite app_nil_r, firstn_all2, skipn_all2 by lia. cbn [app].
  rewrite !IH by (assumption || lia). unfold butterfly. rewrite add_plus, sub_minus.
  now rewrite wht_app.
Qed.

Lemma is_pow2_spec n : is_pow2 n = true <-> exists k, n = (2 ^ k)%nat.
Proof.
  unfold is_pow2. rewrite Nat.eqb_eq. split.
  - intros H. now exists (Nat.log2 n).
  - intros (k & ->). now rewrite Nat.log2_pow2 by lia.
Qed.

(** The public transform. *)
Lemma transform_wht ar k x : length x = (2 ^ k)%nat ->
  hadamard_transform o ar x = Some (map (fun v => v * (1 / sqrt (INR (2 ^ k)))) (wht k x)).
Proof.
  intros L. unfold hadamard_transform. rewrite L.
  assert (P : is_pow2 (2 ^ k) = true) by (apply is_pow2_spec; now exists k). rewrite P. cbn [negb].
  destruct (Nat.eqb_spec (2 ^ k) 1) as [K|K].
  { f_equal. assert (k = 0)%nat by (destruct k; [reflexivity|rewrite pow2_S in K; pose proof (pow2_pos k); lia]). subst k.
    cbn [wht Nat.pow INR]. rewrite sqrt_1. rewrite <- (map_id x) at 1. apply map_ext. intros. lra. }
  destruct k as [|k]; [now elim K|].
  rewrite (had_wht ar k) by (try exact L; rewrite pow2_S; pose proof (Nat.pow_gt_lin_r 2 k); lia).
  rewrite (ex_one o E), (ex_nat o E), (ex_root o E), (ex_div o E). f_equal.
  apply map_ext. intros. apply (ex_mul o E).
Qed.
Lemma transform_none ar x : hadamard_transform o ar x = None <-> forall k, length x <> (2 ^ k)%nat.
Proof.
  split.
  - intros H k K. rewrite (transform_wht ar k x K) in H. discriminate.
  - intros H. unfold hadamard_transform. destruct (is_pow2 (length x)) eqn:P; [|reflexivity].
    apply is_pow2_spec in P as (k & K). now elim (H k).
Qed.
End exact.
