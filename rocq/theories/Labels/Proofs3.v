(** Answering filters from the index. *)
From Coq Require Import String.
From Verif.Lib Require Import Base Lists Bytes F64.
From Verif.Keys Require Import Model Spec Proofs Props.
From Verif.Labels Require Import Model Spec Proofs Proofs2.
Local Open Scope N_scope.

(** * Doubles *)
Lemma finite_nan x : f64_finite x = true -> f64_nan x = false.
Proof. unfold f64_finite, f64_nan. intros H. apply N.ltb_lt in H. apply N.ltb_ge. lia. Qed.
Lemma val_eq x y : f64_ok x -> f64_ok y -> x <> two63 -> y <> two63 -> f64_val x = f64_val y -> x = y.
Proof.
  intros A B C D H. destruct (f64_split x A) as (Ex & Lx), (f64_split y B) as (Ey & Ly).
  assert (I : f64_abs (f64_mag x) = f64_abs (f64_mag y) -> f64_mag x = f64_mag y).
  { intros E. destruct (N.lt_trichotomy (f64_mag x) (f64_mag y)) as [L|[L|L]]; [apply f64_abs_lt in L; lia|assumption|apply f64_abs_lt in L; lia]. }
  assert (P : forall z, 0 < z -> 0 < f64_abs z) by (intros z Hz; apply f64_abs_lt in Hz; rewrite f64_abs_0 in Hz; assumption).
  unfold f64_val in H. destruct (f64_neg x), (f64_neg y).
  - rewrite Ex, Ey, I; [reflexivity|lia].
  - destruct (N.eq_dec (f64_mag x) 0) as [Z|Z]; [rewrite Z in Ex; unfold two63 in *; lia|]. specialize (P (f64_mag x)). lia.
  - destruct (N.eq_dec (f64_mag y) 0) as [Z|Z]; [rewrite Z in Ey; unfold two63 in *; lia|]. specialize (P (f64_mag y)). lia.
  - rewrite Ex, Ey, I; [reflexivity|lia].
Qed.
Lemma enc_lt x y : f64_ok x -> f64_ok y -> x <> two63 -> y <> two63 -> (encode_f64 x <? encode_f64 y) = (f64_val x <? f64_val y)%Z.
Proof.
  intros A B C D. apply eq_true_iff_eq. rewrite N.ltb_lt, Z.ltb_lt. split; [|now apply encode_f64_val_lt].
  intros H. pose proof (encode_f64_lt x y A B H). destruct (Z.eq_dec (f64_val x) (f64_val y)) as [E|]; [|lia].
  apply val_eq in E; try assumption. subst. lia.
Qed.
Lemma f64_of_small z : small_int z -> f64_val (f64_of_Z z) = (z * f64_unit)%Z /\ f64_nan (f64_of_Z z) = false.
Proof.
  unfold small_int. intros H. unfold f64_of_Z. destruct (Z.ltb_spec z 0) as [L|L].
  - destruct (f64_abs_of_N (Z.to_N (- z))) as (A & B); [unfold two53; lia|]. set (x := f64_of_N _) in *.
    assert (M : f64_mag (two63 + x) = x). { unfold f64_mag. symmetry. apply (N.mod_unique _ _ 1); unfold f64_inf_bits, two63 in *; lia. }
    assert (Ng : f64_neg (two63 + x) = true) by (unfold f64_neg; apply N.leb_le; lia).
    unfold f64_val, f64_nan. rewrite Ng, M, A. rewrite Z2N.id by lia. split; [ring|apply N.ltb_ge; lia].
  - destruct (f64_abs_of_N (Z.to_N z)) as (A & B); [unfold two53; lia|]. set (x := f64_of_N _) in *.
    assert (M : f64_mag x = x). { unfold f64_mag. apply N.mod_small. unfold f64_inf_bits, two63 in *; lia. }
    assert (Ng : f64_neg x = false) by (unfold f64_neg; apply N.leb_gt; unfold f64_inf_bits, two63 in *; lia).
    unfold f64_val, f64_nan. rewrite Ng, M, A. rewrite Z2N.id by lia. split; [ring|apply N.ltb_ge; lia].
Qed.
Lemma whole_i64 t z : f64_nan t = false -> small_int z -> f64_val t = (z * f64_unit)%Z -> f64_to_i64 t = z.
Proof.
  intros A B H. unfold f64_to_i64. rewrite A, H. assert (U : f64_unit <> 0%Z) by (vm_compute; discriminate). rewrite Z.quot_mul by assumption.
  unfold small_int, i64_min, i64_max in *. lia.
Qed.
(** * Key ranges *)
Definition cmp_Z (op : range_op) (a b : Z) : bool := match op with Lt => (a <? b)%Z | Lte => (a <=? b)%Z | Gt => (b <? a)%Z | Gte => (b <=? a)%Z end.
Lemma cmp_range_val op x t : f64_nan x = false -> f64_nan t = false -> cmp_range op x t = cmp_Z op (f64_val x) (f64_val t).
Proof. intros A B. unfold cmp_range, f64_lt, f64_le. rewrite A, B. destruct op; reflexivity. Qed.
Lemma wrap_small z : small_int z -> wrap_i64 (z + 1) = (z + 1)%Z.
Proof. unfold small_int, wrap_i64. intros H. rewrite Z.mod_small; lia. Qed.
Lemma small_ok z : small_int z -> i64_ok z /\ i64_ok (z + 1).
Proof. unfold small_int, i64_ok, i64_min, i64_max. lia. Qed.
Definition int_sides (op : range_op) (v : Z) : bytes * bytes :=
  match op with
  | Gt => (hex16 (encode_i64 (v + 1)), top) | Gte => (hex16 (encode_i64 v), top)
  | Lte => ([], hex16 (encode_i64 (v + 1))) | Lt => ([], hex16 (encode_i64 v))
  end.
Lemma int_bounds_sides f op t z : f64_to_i64 t = z -> small_int z ->
  int_bounds f op t = (f ++ sep :: pI :: fst (int_sides op z), f ++ sep :: pI :: snd (int_sides op z)).
Proof. intros E S. unfold int_bounds. rewrite E, wrap_small by assumption. destruct op; reflexivity. Qed.
Definition float_sides (op : range_op) (t : f64) : bytes * bytes :=
  match op with Gt | Gte => (hex16 (encode_f64 t), top) | Lte | Lt => ([], hex16 (encode_f64 t)) end.
Lemma float_bounds_sides f op t : f64_finite t = true ->
  float_bounds f op t = (f ++ sep :: pF :: fst (float_sides op t), f ++ sep :: pF :: snd (float_sides op t)).
Proof. intros H. unfold float_bounds. rewrite H. destruct op; reflexivity. Qed.
Lemma hex16_top x : bltb (hex16 x) top = true. Proof. apply hex_top. lia. Qed.
Lemma bleb_nil l : bleb [] l = true. Proof. unfold bleb. destruct l; reflexivity. Qed.
(** Whatever the threshold, the bounds have the shape of one field and type. *)
Lemma int_bounds_shape f op t : exists s e, int_bounds f op t = (f ++ sep :: pI :: s, f ++ sep :: pI :: e).
Proof. unfold int_bounds. cbn zeta. destruct op; eexists _, _; reflexivity. Qed.
Lemma int_in f op t z v : f64_to_i64 t = z -> small_int z -> small_int v -> in_range (int_bounds f op t) (encode_key f (VInt v)) = cmp_Z op v z.
Proof.
  intros E S V. rewrite (int_bounds_sides f op t z E S). rewrite encode_key_payload. cbn [payload]. rewrite in_range_same.
  destruct (small_ok z S) as (A & B), (small_ok v V) as (C & D).
  destruct op; cbn [int_sides fst snd cmp_Z]; rewrite ?bleb_nil, ?hex16_top; unfold bleb; rewrite ?hex16_lt by now apply encode_i64_bound.
  - now rewrite encode_i64_lt by assumption.
  - rewrite encode_i64_lt by assumption. cbn [andb]. apply eq_true_iff_eq. rewrite Z.ltb_lt, Z.leb_le. lia.
  - rewrite encode_i64_lt by assumption. rewrite andb_true_r. apply eq_true_iff_eq. rewrite negb_true_iff, Z.ltb_ge, Z.ltb_lt. lia.
  - rewrite encode_i64_lt by assumption. rewrite andb_true_r. apply eq_true_iff_eq. rewrite negb_true_iff, Z.ltb_ge, Z.leb_le. lia.
Qed.
Lemma float_in f op t x : f64_ok t -> f64_finite t = true -> t <> two63 -> f64_ok x -> x <> two63 ->
  op = Lt \/ op = Gte \/ f64_val x <> f64_val t -> in_range (float_bounds f op t) (encode_key f (VReal x)) = cmp_Z op (f64_val x) (f64_val t).
Proof.
  intros A B C D E O. rewrite (float_bounds_sides f op t B), encode_key_payload. cbn [payload]. rewrite in_range_same.
  destruct op; cbn [float_sides fst snd cmp_Z]; rewrite ?bleb_nil, ?hex16_top; unfold bleb; rewrite ?hex16_lt by (apply encode_f64_bound; assumption); rewrite enc_lt by assumption; cbn [andb]; rewrite ?andb_true_r.
  - reflexivity.
  - apply eq_true_iff_eq. rewrite Z.ltb_lt, Z.leb_le. intuition (try discriminate; lia).
  - apply eq_true_iff_eq. rewrite negb_true_iff, Z.ltb_ge, Z.ltb_lt. intuition (try discriminate; lia).
  - apply eq_true_iff_eq. rewrite negb_true_iff, Z.ltb_ge, Z.leb_le. lia.
Qed.

(** * Reading ranges *)
Lemma union_in a b x : In x (pl_union a b) <-> In x a \/ In x b.
Proof.
  unfold pl_union. rewrite in_app_iff, filter_In. destruct (has x a) eqn:E; cbn [negb].
  - apply has_in in E. intuition congruence.
  - intuition.
Qed.
Lemma intersect_in a b x : In x (pl_intersect a b) <-> In x a /\ In x b.
Proof. unfold pl_intersect. rewrite filter_In, has_in. reflexivity. Qed.
Lemma scan_items_in c : forall items acc, (forall k b, In (k, b) items -> pl_de c b <> None) ->
  exists r, scan_items c items acc = Some r /\ forall x, In x r <-> In x acc \/ exists k b pl, In (k, b) items /\ pl_de c b = Some pl /\ In x pl.
Proof.
  induction items as [|(k, b) items IH]; intros acc H; cbn [scan_items].
  - exists acc. split; [reflexivity|]. intros x. split; [auto|]. intros [X|(k & b & pl & [] & _)]; assumption.
  - destruct (pl_de c b) as [pl|] eqn:E; [|exfalso; apply (H k b); [now left|assumption]].
    destruct (IH (pl_union acc pl)) as (r & R1 & R2). { intros k' b' I. apply (H k' b'). now right. }
    exists r. split; [assumption|]. intros x. rewrite R2, union_in. split.
    + intros [[X|X]|(k' & b' & pl' & I & J & X)]; [auto|right|right].
      * exists k, b, pl. split; [now left|auto].
      * exists k', b', pl'. split; [now right|auto].
    + intros [X|(k' & b' & pl' & [I|I] & J & X)]; [auto| |right; exists k', b', pl'; auto].
      injection I as <- <-. left. right. congruence.
Qed.
Lemma rev_no_prefix id f p r : reverse_key id <> f ++ sep :: p :: r.
Proof.
  intros H. assert (I : In sep (reverse_key id)) by (rewrite H; apply in_or_app; right; now left).
  unfold reverse_key in I. apply in_app_or in I. destruct I as [I|I].
  - destruct I as [I|[I|[I|[]]]]; discriminate.
  - apply dec_digits_range in I. unfold sep in I. lia.
Qed.
(** A scan of bounds of one field and type: the documents of the keys in it. *)
Lemma scan_in c m mem rev f p s e acc : KInv c m mem rev -> no_nul f ->
  exists r, scan c m (f ++ sep :: p :: s, f ++ sep :: p :: e) acc = Some r /\
  forall x, In x r <-> In x acc \/ exists v, value_ok v /\ (exists r, payload v = p :: r) /\ in_range (f ++ sep :: p :: s, f ++ sep :: p :: e) (encode_key f v) = true /\ mem x (encode_key f v).
Proof.
  intros K Nf. unfold scan. cbn [fst]. destruct (f ++ sep :: p :: s) as [|b0 bl] eqn:E0; [destruct f; discriminate|]. rewrite <- E0. clear E0 b0 bl.
  set (B := (f ++ sep :: p :: s, f ++ sep :: p :: e)).
  assert (Keys : forall k b, In (k, b) (filter (fun q => in_bounds B (fst q)) m) ->
    assoc k m = Some b /\ in_range B k = true /\ exists v, value_ok v /\ (exists r, payload v = p :: r) /\ k = encode_key f v).
  { intros k b H. apply filter_In in H. destruct H as (H & R). cbn [fst] in R. change (in_bounds B k) with (in_range B k) in R.
    split; [apply in_assoc; [apply (kv_nodup _ _ _ _ K)|assumption]|]. split; [assumption|].
    destruct (kv_keys _ _ _ _ K k b H) as [(id & ->)|(g & v & Ng & V & ->)].
    - exfalso. unfold in_range, bleb, B in R. cbn [fst snd] in R. apply andb_true_iff in R. destruct R as (R1 & R2). apply negb_true_iff in R1.
      rewrite (snoc_cons f sep p s) in R1. rewrite (snoc_cons f sep p e) in R2. destruct (between_prefix _ _ _ _ R1 R2) as (r & E).
      rewrite <- snoc_cons in E. now apply rev_no_prefix in E.
    - destruct (in_range_prefix f p s e g v Nf Ng R) as (-> & P). eauto. }
  destruct (scan_items_in c (filter (fun q => in_bounds B (fst q)) m) acc) as (r & R1 & R2).
  { intros k b H. destruct (Keys k b H) as (A & _ & v & V & _ & ->). pose proof (kv_post _ _ _ _ K (encode_key f v)) as P. rewrite A in P.
    destruct P as (pl & -> & _); [exists f, v; auto|discriminate]. }
  exists r. split; [exact R1|]. intros x. rewrite R2. apply or_iff_compat_l. split.
  - intros (k & b & pl & I & D & X). destruct (Keys k b I) as (A & R & v & V & P & ->). exists v. split; [assumption|]. split; [assumption|]. split; [assumption|].
    pose proof (kv_post _ _ _ _ K (encode_key f v)) as Q. rewrite A in Q. destruct Q as (pl' & Q1 & _ & _ & _ & Q2); [exists f, v; auto|]. apply Q2. congruence.
  - intros (v & V & P & R & X). pose proof (kv_post _ _ _ _ K (encode_key f v)) as Q. destruct (assoc (encode_key f v) m) as [b|] eqn:A.
    + destruct Q as (pl & Q1 & _ & _ & _ & Q2); [exists f, v; auto|]. exists (encode_key f v), b, pl. split; [|split; [assumption|now apply Q2]].
      apply filter_In. split; [now apply assoc_in|exact R].
    + exfalso. apply (Q ltac:(exists f, v; auto) x X).
Qed.
