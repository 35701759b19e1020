From Verif.Lib Require Import Base Bytes F64.
From Verif.Keys Require Import Model Spec.
Local Open Scope N_scope.

(** Byte string order. *)
Lemma bltb_cons x y a b : bltb (x :: a) (y :: b) = if x <? y then true else if x =? y then bltb a b else false.
Proof. reflexivity. Qed.
Lemma bltb_spec : forall a b, bltb a b = true <-> lex_lt a b.
Proof.
  induction a as [|x a IH]; destruct b as [|y b].
  - split; [discriminate|]. intros [(c & d & E)|(p & x & y & a' & b' & E & _)]; [discriminate|]. destruct p; discriminate.
  - split; [|reflexivity]. intros _. left. now exists y, b.
  - split; [discriminate|]. intros [(c & d & E)|(p & x' & y & a' & b' & _ & E & _)]; [discriminate|]. destruct p; discriminate.
  - rewrite bltb_cons. destruct (N.ltb_spec x y) as [L|L].
    + split; [|reflexivity]. intros _. right. exists [], x, y, a, b. auto.
    + destruct (N.eqb_spec x y) as [->|N].
      * rewrite IH. split.
        -- intros [(c & d & ->)|(p & u & v & a' & b' & -> & -> & H)]; [left; now exists c, d|right]. now exists (y :: p), u, v, a', b'.
        -- intros [(c & d & E)|(p & u & v & a' & b' & E1 & E2 & H)].
           ++ injection E as ->. left. now exists c, d.
           ++ destruct p as [|z p]; cbn in E1, E2; [injection E1 as -> ->; injection E2 as -> ->; lia|]. injection E1 as -> ->. injection E2 as ->. right. now exists p, u, v, a', b'.
      * split; [discriminate|]. intros [(c & d & E)|(p & u & v & a' & b' & E1 & E2 & H)]; [injection E as -> _; congruence|].
        destruct p as [|z p]; cbn in E1, E2; [injection E1 as -> ->; injection E2 as -> ->; lia|]. injection E1 as -> _. injection E2 as -> _. congruence.
Qed.
Lemma bltb_irrefl a : bltb a a = false.
Proof. induction a as [|x a IH]; [reflexivity|]. rewrite bltb_cons. rewrite N.ltb_irrefl, N.eqb_refl. assumption. Qed.
Lemma bltb_app p a b : bltb (p ++ a) (p ++ b) = bltb a b.
Proof. induction p as [|x p IH]; [reflexivity|]. cbn [app]. rewrite bltb_cons. rewrite N.ltb_irrefl, N.eqb_refl. assumption. Qed.
Lemma bltb_trans : forall a b c, bltb a b = true -> bltb b c = true -> bltb a c = true.
Proof.
  induction a as [|x a IH]; intros [|y b] [|z c] H1 H2; try discriminate; [reflexivity|]. rewrite bltb_cons in *.
  destruct (N.ltb_spec x y), (N.ltb_spec y z), (N.ltb_spec x z); try reflexivity;
  destruct (N.eqb_spec x y), (N.eqb_spec y z), (N.eqb_spec x z); try discriminate; try lia. eapply IH; eauto.
Qed.
Lemma bltb_total : forall a b, bltb a b = false -> bltb b a = false -> a = b.
Proof.
  induction a as [|x a IH]; intros [|y b] H1 H2; try discriminate; [reflexivity|]. rewrite bltb_cons in *.
  destruct (N.ltb_spec x y), (N.ltb_spec y x); try discriminate. assert (x = y) by lia. subst. rewrite N.eqb_refl in *. f_equal. auto.
Qed.
Lemma bltb_asym a b : bltb a b = true -> bltb b a = false.
Proof. intros H. destruct (bltb b a) eqn:E; [|reflexivity]. pose proof (bltb_trans _ _ _ H E) as X. now rewrite bltb_irrefl in X. Qed.
(** Fixed-length strings, last byte. *)
Lemma bltb_snoc : forall a b x y, length a = length b -> bltb (a ++ [x]) (b ++ [y]) = bltb a b || (if list_eq_dec N.eq_dec a b then x <? y else false).
Proof.
  induction a as [|u a IH]; intros [|v b] x y H; try discriminate.
  - cbn [app]. rewrite bltb_cons. destruct (list_eq_dec N.eq_dec [] []); [|congruence]. cbn. destruct (x <? y); [reflexivity|]. now destruct (x =? y).
  - cbn [app]. rewrite !bltb_cons. injection H as H. destruct (u <? v) eqn:L; [reflexivity|]. destruct (N.eqb_spec u v) as [->|N].
    + rewrite IH by assumption. destruct (bltb a b) eqn:E; [reflexivity|]. cbn [orb]. destruct (list_eq_dec N.eq_dec a b), (list_eq_dec N.eq_dec (v :: a) (v :: b)); try reflexivity; congruence.
    + cbn [orb]. destruct (list_eq_dec N.eq_dec (u :: a) (v :: b)); congruence.
Qed.
(** A key between two keys that share a prefix has that prefix. *)
Lemma between_prefix : forall p s e k, bltb k (p ++ s) = false -> bltb k (p ++ e) = true -> exists r, k = p ++ r.
Proof.
  induction p as [|x p IH]; intros s e k H1 H2; [now exists k|]. cbn [app] in *. destruct k as [|y k]; [discriminate|]. rewrite bltb_cons in *.
  destruct (N.ltb_spec y x); [discriminate|]. destruct (N.eqb_spec y x) as [->|]; [|discriminate]. destruct (IH _ _ _ H1 H2) as (r & ->). now exists r.
Qed.
(** Hexadecimal digits. *)
Lemma hex_length n : forall x, length (hex n x) = n.
Proof. induction n as [|n IH]; intros x; [reflexivity|]. cbn [hex]. rewrite app_length, IH. cbn. lia. Qed.
Lemma hex_digit_lt a b : a < 16 -> b < 16 -> (hex_digit a <? hex_digit b) = (a <? b).
Proof. unfold hex_digit. intros. destruct (N.ltb_spec a 10), (N.ltb_spec b 10), (N.ltb_spec a b); [apply N.ltb_lt|apply N.ltb_ge|apply N.ltb_lt|apply N.ltb_ge|apply N.ltb_lt|apply N.ltb_ge|apply N.ltb_lt|apply N.ltb_ge]; lia. Qed.
Lemma hex_digit_range a : a < 16 -> 48 <= hex_digit a < 128.
Proof. unfold hex_digit. intros. destruct (N.ltb_spec a 10); lia. Qed.
Lemma hex_bytes n : forall x c, In c (hex n x) -> 48 <= c < 128.
Proof.
  induction n as [|n IH]; intros x c H; [destruct H|]. cbn [hex] in H. apply in_app_or in H. destruct H as [H|[<-|[]]]; [eauto|]. apply hex_digit_range. apply N.mod_lt. discriminate.
Qed.
Lemma hex_lt_inj n : forall x y, x < 16 ^ N.of_nat n -> y < 16 ^ N.of_nat n -> bltb (hex n x) (hex n y) = (x <? y) /\ (hex n x = hex n y -> x = y).
Proof.
  induction n as [|n IH]; intros x y Hx Hy.
  - cbn in *. assert (x = 0) by lia. assert (y = 0) by lia. subst. auto.
  - rewrite Nat2N.inj_succ, N.pow_succ_r' in *. cbn [hex].
    pose proof (N.div_mod x 16 ltac:(discriminate)) as Dx. pose proof (N.div_mod y 16 ltac:(discriminate)) as Dy.
    assert (Mx : x mod 16 < 16) by (apply N.mod_lt; discriminate). assert (My : y mod 16 < 16) by (apply N.mod_lt; discriminate).
    destruct (IH (x / 16) (y / 16)) as (A & B); [lia|lia|]. split.
    + rewrite bltb_snoc by now rewrite !hex_length. rewrite A, hex_digit_lt by assumption.
      destruct (list_eq_dec N.eq_dec (hex n (x / 16)) (hex n (y / 16))) as [E|E].
      * apply B in E. rewrite E in *. rewrite N.ltb_irrefl. cbn [orb]. destruct (N.ltb_spec (x mod 16) (y mod 16)), (N.ltb_spec x y); lia.
      * assert (x / 16 <> y / 16) by congruence. rewrite orb_false_r. destruct (N.ltb_spec (x / 16) (y / 16)), (N.ltb_spec x y); lia.
    + intros E. apply app_inj_tail in E. destruct E as (E1 & E2). apply B in E1.
      assert (x mod 16 = y mod 16); [|lia]. pose proof (hex_digit_lt _ _ Mx My) as L1. pose proof (hex_digit_lt _ _ My Mx) as L2. rewrite E2, N.ltb_irrefl in L1, L2.
      symmetry in L1, L2. apply N.ltb_ge in L1, L2. lia.
Qed.
Lemma hex16_lt x y : x < two64 -> y < two64 -> bltb (hex16 x) (hex16 y) = (x <? y).
Proof. intros. apply hex_lt_inj; assumption. Qed.
Lemma hex16_inj x y : x < two64 -> y < two64 -> hex16 x = hex16 y -> x = y.
Proof. intros A B. apply hex_lt_inj; assumption. Qed.
(** Encoded numbers. *)
Lemma lxor_top x : x < two63 -> N.lxor x two63 = x + two63.
Proof.
  intros H. symmetry. apply N.add_nocarry_lxor. apply N.bits_inj. intros i. rewrite N.land_spec, N.bits_0. change two63 with (2 ^ 63).
  rewrite N.pow2_bits_eqb. destruct (N.eqb_spec 63 i) as [<-|]; [|apply andb_false_r]. rewrite andb_true_r.
  destruct (N.eq_dec x 0) as [->|]; [reflexivity|]. apply N.bits_above_log2. apply N.log2_lt_pow2; [lia|assumption].
Qed.
Lemma encode_i64_val z : i64_ok z -> encode_i64 z = Z.to_N (z + 9223372036854775808).
Proof.
  intros H. unfold encode_i64, i64_ok, i64_min, i64_max in *. destruct (Z.lt_ge_cases z 0) as [L|L].
  - rewrite <- (Z.mod_unique_pos z 18446744073709551616 (-1) (z + 18446744073709551616)) by lia.
    replace (Z.to_N (z + 18446744073709551616)) with (N.lxor (Z.to_N (z + 9223372036854775808)) two63).
    + rewrite N.lxor_assoc, N.lxor_nilpotent, N.lxor_0_r. reflexivity.
    + rewrite lxor_top by (unfold two63; lia). unfold two63. lia.
  - rewrite Z.mod_small by lia. rewrite lxor_top by (unfold two63; lia). unfold two63. lia.
Qed.
Lemma encode_f64_val x : f64_ok x -> encode_f64 x = if f64_neg x then two64 - 1 - x else x + two63.
Proof.
  unfold f64_ok, encode_f64, f64_neg. intros H. rewrite N.shiftr_div_pow2. change (2 ^ 63) with two63.
  destruct (N.leb_spec two63 x) as [L|L].
  - replace (x / two63) with 1 by (apply (N.div_unique _ _ _ (x - two63)); unfold two63, two64 in *; lia). cbn [N.eqb].
    change (two64 - 1) with (N.ones 64). change (N.lxor x (N.ones 64)) with (N.lnot x 64). apply N.lnot_sub_low.
    destruct (N.eq_dec x 0) as [->|]; [reflexivity|]. apply N.log2_lt_pow2; [lia|assumption].
  - rewrite N.div_small by assumption. cbn [N.eqb]. now apply lxor_top.
Qed.
Lemma encode_i64_bound z : i64_ok z -> encode_i64 z < two64.
Proof. intros H. rewrite encode_i64_val by assumption. unfold i64_ok, i64_min, i64_max, two64 in *. lia. Qed.
Lemma encode_f64_bound x : f64_ok x -> encode_f64 x < two64.
Proof. intros H. rewrite encode_f64_val by assumption. unfold f64_ok, f64_neg in *. destruct (N.leb_spec two63 x); unfold two63, two64 in *; lia. Qed.
Lemma encode_i64_lt a b : i64_ok a -> i64_ok b -> (encode_i64 a <? encode_i64 b) = (a <? b)%Z.
Proof. intros A B. rewrite !encode_i64_val by assumption. unfold i64_ok, i64_min, i64_max in *. destruct (Z.ltb_spec a b), (N.ltb_spec (Z.to_N (a + 9223372036854775808)) (Z.to_N (b + 9223372036854775808))); lia. Qed.
Lemma encode_f64_inj x y : f64_ok x -> f64_ok y -> encode_f64 x = encode_f64 y -> x = y.
Proof.
  intros A B. rewrite !encode_f64_val by assumption. unfold f64_ok, f64_neg in *.
  destruct (N.leb_spec two63 x), (N.leb_spec two63 y); unfold two63, two64 in *; lia.
Qed.
(** Total order of the encodings: by value, [-0.0] before [0.0]. *)
Lemma encode_f64_lt x y : f64_ok x -> f64_ok y -> encode_f64 x < encode_f64 y -> (f64_val x <= f64_val y)%Z.
Proof.
  intros A B. rewrite !encode_f64_val by assumption. destruct (f64_split x A) as (Ex & Lx). destruct (f64_split y B) as (Ey & Ly). unfold f64_val.
  unfold f64_ok in *. destruct (f64_neg x), (f64_neg y); intros H.
  - assert (f64_mag y < f64_mag x) as L by (unfold two63, two64 in *; lia). apply f64_abs_lt in L. lia.
  - lia.
  - unfold two63, two64 in *. lia.
  - assert (f64_mag x < f64_mag y) as L by lia. apply f64_abs_lt in L. lia.
Qed.
Lemma encode_f64_val_lt x y : f64_ok x -> f64_ok y -> (f64_val x < f64_val y)%Z -> encode_f64 x < encode_f64 y.
Proof.
  intros A B H. destruct (N.lt_trichotomy (encode_f64 x) (encode_f64 y)) as [L|[L|L]]; [assumption| |].
  - apply encode_f64_inj in L; [|assumption..]. subst. lia.
  - apply encode_f64_lt in L; [|assumption..]. lia.
Qed.
(** Keys. *)
Definition payload (v : value) : bytes :=
  match v with
  | VInt z => pI :: hex16 (encode_i64 z) | VReal x => pF :: hex16 (encode_f64 x)
  | VStr s => pS :: s | VBool b => pB :: [if b then 49 else 48] | VEmpty => pS :: []
  end.
Lemma encode_key_payload f v : encode_key f v = f ++ sep :: payload v.
Proof. now destruct v. Qed.
Lemma nul_split : forall f g a b, no_nul f -> no_nul g -> f ++ sep :: a = g ++ sep :: b -> f = g /\ a = b.
Proof.
  induction f as [|x f IH]; intros [|y g] a b A B H; cbn in H.
  - injection H as ->. auto.
  - injection H as E H. exfalso. apply B. now left.
  - injection H as E H. exfalso. apply A. now left.
  - injection H as -> H. destruct (IH g a b) as (-> & ->); auto; intros X; [apply A|apply B]; now right.
Qed.
Definition same_value (v w : value) : Prop :=
  v = w \/ (v = VEmpty /\ w = VStr []) \/ (v = VStr [] /\ w = VEmpty).
Lemma payload_inj v w : value_ok v -> value_ok w -> payload v = payload w -> same_value v w.
Proof.
  unfold same_value. intros A B H. destruct v, w; cbn [payload] in H; try discriminate H; auto.
  - injection H as <-. auto.
  - injection H as H. left. destruct b, b0; auto; discriminate.
  - apply (f_equal (@tl N)) in H. cbn [tl] in H. apply hex16_inj in H; [|now apply encode_i64_bound..]. cbn in A, B. rewrite !encode_i64_val in H by assumption. left. f_equal. unfold i64_ok, i64_min, i64_max in *. lia.
  - apply (f_equal (@tl N)) in H. cbn [tl] in H. apply hex16_inj in H; [|now apply encode_f64_bound..]. left. f_equal. now apply encode_f64_inj.
  - injection H as ->. auto.
  - injection H as ->. auto.
Qed.
Lemma key_same f v w : same_value v w -> encode_key f v = encode_key f w.
Proof. intros [->|[(-> & ->)|(-> & ->)]]; reflexivity. Qed.
(** Which keys lie in a range of keys of one type. *)
Lemma key_prefix f g p v r : no_nul f -> no_nul g -> encode_key g v = (f ++ sep :: [p]) ++ r -> g = f /\ payload v = p :: r.
Proof.
  intros A B H. rewrite encode_key_payload in H. rewrite <- app_assoc in H. cbn [app] in H. destruct (nul_split _ _ _ _ B A H) as (-> & ->). auto.
Qed.
Lemma bleb_false a b : bleb a b = negb (bltb b a). Proof. reflexivity. Qed.
Lemma hex_top n x : (0 < n)%nat -> bltb (hex n x) top = true.
Proof.
  intros H. destruct (hex n x) as [|c l] eqn:E; [reflexivity|]. assert (48 <= c < 128) by (apply (hex_bytes n x); rewrite E; now left).
  unfold top. rewrite bltb_cons. destruct (N.ltb_spec c 244); [reflexivity|lia].
Qed.
Definition in_range (b : bytes * bytes) (k : bytes) : bool := bleb (fst b) k && bltb k (snd b).
Lemma snoc_cons {A} (f : list A) a p l : f ++ a :: p :: l = (f ++ a :: [p]) ++ l.
Proof. now rewrite <- app_assoc. Qed.
(** A range whose bounds both start with [f, NUL, p] holds only keys of field [f] and type [p]. *)
Lemma in_range_prefix f p s e g v : no_nul f -> no_nul g -> in_range (f ++ sep :: p :: s, f ++ sep :: p :: e) (encode_key g v) = true ->
  g = f /\ exists r, payload v = p :: r.
Proof.
  unfold in_range, bleb. cbn [fst snd]. intros A B H. apply andb_true_iff in H. destruct H as (H1 & H2). apply negb_true_iff in H1.
  rewrite (snoc_cons f sep p s) in H1. rewrite (snoc_cons f sep p e) in H2. destruct (between_prefix _ _ _ _ H1 H2) as (r & E).
  destruct (key_prefix _ _ _ _ _ A B E) as (-> & P). split; [reflexivity|]. now exists r.
Qed.
Lemma in_range_same f p s e r : in_range (f ++ sep :: p :: s, f ++ sep :: p :: e) (f ++ sep :: p :: r) = bleb s r && bltb r e.
Proof.
  unfold in_range, bleb. cbn [fst snd]. rewrite !bltb_app. rewrite !bltb_cons. rewrite !N.ltb_irrefl, !N.eqb_refl. reflexivity.
Qed.
(** Key lists. *)
Lemma total_size_ge : forall keys acc n, total_size acc keys = Some n -> acc <= n.
Proof. induction keys as [|k keys IH]; cbn; intros acc n H; [injection H as ->; lia|]. destruct (_ <? _); [|discriminate]. apply IH in H. lia. Qed.
Lemma index_range_spec b lo hi : (lo <= hi)%nat -> (hi <= length b)%nat -> index_range b lo hi = Some (slice lo (hi - lo) b).
Proof. intros A B. unfold index_range. rewrite (proj2 (Nat.leb_le _ _) A), (proj2 (Nat.leb_le _ _) B). reflexivity. Qed.
Definition enc_keys (keys : list bytes) : bytes := flat_map (fun k => le_enc 4 (N.of_nat (length k) mod two32) ++ k) keys.
Lemma slice_mid (a b c : bytes) : slice (length a) (length b) (a ++ b ++ c) = b.
Proof. rewrite slice_app_r by lia. rewrite Nat.sub_diag. now apply slice_0_exact. Qed.
Lemma de_loop_enc : forall keys pre post acc, (forall k, In k keys -> N.of_nat (length k) < two32) ->
  de_loop (length keys) (pre ++ enc_keys keys ++ post) (length pre) acc = DOk (acc ++ keys).
Proof.
  induction keys as [|k keys IH]; intros pre post acc H; [cbn; now rewrite app_nil_r|].
  cbn [length]. set (l := le_enc 4 (N.of_nat (length k) mod two32)).
  assert (Ll : length l = 4%nat) by apply le_enc_length.
  assert (E : pre ++ enc_keys (k :: keys) ++ post = pre ++ l ++ k ++ enc_keys keys ++ post) by (unfold enc_keys; cbn [flat_map]; now rewrite <- !app_assoc).
  rewrite E. cbn [de_loop].
  assert (L1 : (length (pre ++ l ++ k ++ enc_keys keys ++ post) <? length pre + 4)%nat = false) by (apply Nat.ltb_ge; rewrite !app_length; lia).
  rewrite L1, index_range_spec; [|lia|rewrite !app_length; lia].
  replace (length pre + 4 - length pre)%nat with (length l) by lia. rewrite slice_mid.
  assert (D : N.to_nat (le_dec l) = length k).
  { unfold l. specialize (H k (or_introl eq_refl)). rewrite N.mod_small by assumption. rewrite le_dec_enc by assumption. lia. }
  rewrite D. replace (length pre + 4)%nat with (length (pre ++ l)) by (rewrite app_length; lia).
  assert (L2 : (length (pre ++ l ++ k ++ enc_keys keys ++ post) <? length (pre ++ l) + length k)%nat = false) by (apply Nat.ltb_ge; rewrite !app_length; lia).
  rewrite L2, index_range_spec; [|lia|rewrite !app_length; lia].
  replace (length (pre ++ l) + length k - length (pre ++ l))%nat with (length k) by lia.
  replace (slice (length (pre ++ l)) (length k) (pre ++ l ++ k ++ enc_keys keys ++ post)) with k.
  2: { rewrite (app_assoc pre l). symmetry. apply slice_mid. }
  replace (length (pre ++ l) + length k)%nat with (length (pre ++ l ++ k)) by (rewrite !app_length; lia).
  replace (pre ++ l ++ k ++ enc_keys keys ++ post) with ((pre ++ l ++ k) ++ enc_keys keys ++ post) by now rewrite <- !app_assoc.
  rewrite IH by (intros; apply H; now right). now rewrite <- app_assoc.
Qed.
Lemma de_loop_no_panic : forall n b pos acc, de_loop n b pos acc <> DPanic.
Proof.
  induction n as [|n IH]; intros b pos acc; cbn [de_loop]; [discriminate|].
  destruct (Nat.ltb_spec (length b) (pos + 4)); [discriminate|]. rewrite index_range_spec by lia.
  match goal with |- context [(?a <? ?c)%nat] => destruct (Nat.ltb_spec a c) end; [discriminate|]. rewrite index_range_spec by lia. apply IH.
Qed.
Lemma slice_split (b : bytes) i j : (i <= j)%nat -> (j <= length b)%nat -> firstn j b = firstn i b ++ slice i (j - i) b.
Proof.
  intros A B. unfold slice. rewrite <- (firstn_skipn i b) at 1. rewrite firstn_app, firstn_firstn.
  replace (Nat.min j i) with i by lia. rewrite firstn_length. replace (Nat.min i (length b)) with i by lia. reflexivity.
Qed.
Lemma is_bytes_slice b i n : is_bytes b -> is_bytes (slice i n b).
Proof.
  unfold is_bytes, slice. rewrite !Forall_forall. intros H x X. apply H. apply Lists.in_firstn in X. now apply Lists.in_skipn in X.
Qed.
(** Whatever is decoded is what the consumed bytes encode. *)
Lemma de_loop_sound : forall n b pos acc keys, is_bytes b -> (pos <= length b)%nat -> de_loop n b pos acc = DOk keys ->
  exists ks pos', keys = acc ++ ks /\ length ks = n /\ (pos' <= length b)%nat /\ firstn pos' b = firstn pos b ++ enc_keys ks /\
    (forall k, In k ks -> N.of_nat (length k) < two32).
Proof.
  induction n as [|n IH]; intros b pos acc keys Hb Hp H; cbn [de_loop] in H.
  - injection H as <-. exists [], pos. rewrite !app_nil_r. repeat (split; [auto|]). intros k [].
  - destruct (Nat.ltb_spec (length b) (pos + 4)); [discriminate|]. rewrite index_range_spec in H by lia.
    replace (pos + 4 - pos)%nat with 4%nat in H by lia. set (lb := slice pos 4 b) in *.
    assert (Lb : length lb = 4%nat) by (unfold lb; apply slice_length; lia).
    assert (Bb : is_bytes lb) by now apply is_bytes_slice.
    pose proof (le_dec_bound _ Bb) as Bd. rewrite Lb in Bd. change (pow256 4) with two32 in Bd.
    set (len := N.to_nat (le_dec lb)) in *.
    destruct (Nat.ltb_spec (length b) (pos + 4 + len)); [discriminate|]. rewrite index_range_spec in H by lia.
    replace (pos + 4 + len - (pos + 4))%nat with len in H by lia. set (k := slice (pos + 4) len b) in *.
    assert (Lk : length k = len) by (unfold k; apply slice_length; lia).
    destruct (IH b (pos + 4 + len)%nat _ _ Hb ltac:(lia) H) as (ks & pos' & -> & L & P & E & S).
    exists (k :: ks), pos'. rewrite <- app_assoc. split; [reflexivity|]. split; [cbn; lia|]. split; [assumption|]. split.
    + rewrite E. unfold enc_keys. cbn [flat_map]. rewrite Lk. replace (N.of_nat len) with (le_dec lb) by (unfold len; now rewrite N2Nat.id). rewrite N.mod_small by assumption.
      assert (X : le_enc 4 (le_dec lb) = lb) by (rewrite <- Lb; now apply le_enc_dec). rewrite X.
      rewrite (slice_split b (pos + 4) (pos + 4 + len)) by lia. rewrite (slice_split b pos (pos + 4)) by lia.
      replace (pos + 4 + len - (pos + 4))%nat with len by lia. replace (pos + 4 - pos)%nat with 4%nat by lia. fold lb k.
      now rewrite <- !app_assoc.
    + intros x [<-|X]; [rewrite Lk; unfold len; rewrite N2Nat.id; assumption|auto].
Qed.
(** Document ids in decimal. *)
Definition dval (l : bytes) : N := fold_left (fun acc d => acc * 10 + (d - 48)) l 0.
Lemma dval_snoc l d : dval (l ++ [d]) = dval l * 10 + (d - 48).
Proof. unfold dval. now rewrite fold_left_app. Qed.
Lemma dec_digits_val : forall fuel x, x < 2 ^ N.of_nat fuel -> dval (dec_digits fuel x) = x.
Proof.
  induction fuel as [|fuel IH]; intros x H; [cbn in H; cbn; lia|]. rewrite Nat2N.inj_succ, N.pow_succ_r' in H. cbn [dec_digits].
  rewrite dval_snoc. pose proof (N.div_mod x 10 ltac:(discriminate)) as D. pose proof (N.mod_lt x 10 ltac:(discriminate)) as M.
  destruct (N.ltb_spec x 10) as [L|L].
  - rewrite N.mod_small by assumption. change (dval []) with 0. lia.
  - rewrite IH by lia. lia.
Qed.
Lemma dec_digits_range : forall fuel x c, In c (dec_digits fuel x) -> 48 <= c < 58.
Proof.
  induction fuel as [|fuel IH]; intros x c H; [destruct H|]. cbn [dec_digits] in H. apply in_app_or in H. destruct H as [H|[<-|[]]].
  - destruct (x <? 10); [destruct H|eauto].
  - pose proof (N.mod_lt x 10 ltac:(discriminate)). lia.
Qed.
Lemma decimal_inj x y : decimal x = decimal y -> x = y.
Proof.
  intros H. assert (V : forall z, dval (decimal z) = z).
  { intros z. apply dec_digits_val. rewrite Nat2N.inj_succ, N2Nat.id. destruct (N.eq_dec z 0) as [->|]; [reflexivity|]. apply N.log2_spec. lia. }
  rewrite <- (V x), <- (V y). congruence.
Qed.
Lemma reverse_key_inj x y : reverse_key x = reverse_key y -> x = y.
Proof. intros H. apply decimal_inj. now apply app_inv_head in H. Qed.
Lemma reverse_key_apart x f v : reverse_key x <> encode_key f v.
Proof.
  intros H. assert (I : In sep (reverse_key x)) by (rewrite H, encode_key_payload; apply in_or_app; right; now left).
  unfold reverse_key in I. apply in_app_or in I. destruct I as [I|I].
  - destruct I as [I|[I|[I|[]]]]; discriminate.
  - apply dec_digits_range in I. unfold sep in I. lia.
Qed.
