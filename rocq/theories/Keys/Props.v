(** Property theorems about index keys (C30) and key lists (C34). *)
From Verif.Lib Require Import Base Bytes F64.
From Verif.Keys Require Import Model Spec Proofs.
Local Open Scope N_scope.

(** Keys of one field order integers numerically, *)
Theorem C30_integers_ordered : forall f a b, i64_ok a -> i64_ok b ->
  lex_lt (encode_key f (VInt a)) (encode_key f (VInt b)) <-> (a < b)%Z.
Proof.
  intros f a b A B. rewrite <- bltb_spec. cbn [encode_key]. rewrite bltb_app. change (sep :: pI :: hex16 (encode_i64 a)) with ([sep; pI] ++ hex16 (encode_i64 a)).
  change (sep :: pI :: hex16 (encode_i64 b)) with ([sep; pI] ++ hex16 (encode_i64 b)). rewrite bltb_app, hex16_lt by now apply encode_i64_bound.
  rewrite encode_i64_lt by assumption. apply Z.ltb_lt.
Qed.
Print Assumptions C30_integers_ordered.
Example C30_integers_ordered_case : i64_ok i64_min /\ i64_ok (-1) /\ i64_ok i64_max /\
  lex_lt (encode_key [97; 103; 101] (VInt i64_min)) (encode_key [97; 103; 101] (VInt (-1))).
Proof. repeat split; try discriminate. apply bltb_spec. vm_compute. reflexivity. Qed.

(** floats numerically (equal values are the two zeros, see below), *)
Theorem C30_floats_ordered : forall f x y, f64_ok x -> f64_ok y -> f64_nan x = false -> f64_nan y = false ->
  ((f64_val x < f64_val y)%Z -> lex_lt (encode_key f (VReal x)) (encode_key f (VReal y))) /\
  (lex_lt (encode_key f (VReal x)) (encode_key f (VReal y)) -> (f64_val x <= f64_val y)%Z).
Proof.
  intros f x y A B _ _. rewrite <- bltb_spec. cbn [encode_key]. rewrite bltb_app. change (sep :: pF :: hex16 (encode_f64 x)) with ([sep; pF] ++ hex16 (encode_f64 x)).
  change (sep :: pF :: hex16 (encode_f64 y)) with ([sep; pF] ++ hex16 (encode_f64 y)). rewrite bltb_app, hex16_lt by now apply encode_f64_bound.
  rewrite N.ltb_lt. split; [now apply encode_f64_val_lt|now apply encode_f64_lt].
Qed.
Print Assumptions C30_floats_ordered.
Example C30_floats_ordered_case : f64_ok (two63 + f64_1_5) /\ f64_ok f64_one /\ f64_nan (two63 + f64_1_5) = false /\
  (f64_val (two63 + f64_1_5)%N < f64_val f64_one)%Z.
Proof. vm_compute. repeat split. Qed.

(** and strings bytewise. *)
Theorem C30_strings_ordered : forall f s t,
  lex_lt (encode_key f (VStr s)) (encode_key f (VStr t)) <-> lex_lt s t.
Proof.
  intros f s t. rewrite <- !bltb_spec. cbn [encode_key]. rewrite bltb_app. change (sep :: pS :: s) with ([sep; pS] ++ s). change (sep :: pS :: t) with ([sep; pS] ++ t).
  now rewrite bltb_app.
Qed.
Print Assumptions C30_strings_ordered.

(** Numerically equal floats can have different keys: [-0.0] and [0.0]. *)
Theorem C30_equal_floats_equal_keys_refuted : exists x y, f64_ok x /\ f64_ok y /\ f64_eq x y = true /\
  forall f, encode_key f (VReal x) <> encode_key f (VReal y).
Proof.
  exists 0, two63. split; [reflexivity|]. split; [reflexivity|]. split; [vm_compute; reflexivity|]. intros f H.
  cbn [encode_key] in H. apply app_inv_head in H. vm_compute in H. discriminate H.
Qed.
Print Assumptions C30_equal_floats_equal_keys_refuted.

(** Distinct pairs get distinct keys; the one exception is a field without value against the
    empty string. *)
Theorem C30_keys_distinct : forall f g v w, no_nul f -> no_nul g -> value_ok v -> value_ok w ->
  encode_key f v = encode_key g w ->
  f = g /\ (v = w \/ (v = VEmpty /\ w = VStr []) \/ (v = VStr [] /\ w = VEmpty)).
Proof.
  intros f g v w A B C D H. rewrite !encode_key_payload in H. destruct (nul_split _ _ _ _ A B H) as (-> & E). split; [reflexivity|]. now apply payload_inj.
Qed.
Print Assumptions C30_keys_distinct.
Example C30_keys_distinct_case : no_nul [97] /\ value_ok (VInt (-5)) /\ value_ok (VReal f64_1_5).
Proof. split; [intros [H|[]]; discriminate|]. split; [split; discriminate|reflexivity]. Qed.
Theorem C30_empty_collides_refuted : forall f, encode_key f VEmpty = encode_key f (VStr []) /\ VEmpty <> VStr [].
Proof. intros f. split; [reflexivity|discriminate]. Qed.
Print Assumptions C30_empty_collides_refuted.
(** A field name with a NUL can collide with another field. *)
Theorem C30_nul_collides_refuted : exists f g s t, f <> g /\ encode_key f (VStr s) = encode_key g (VStr t).
Proof. exists [97], [97; 0; 83], [0; 83], []. split; [discriminate|reflexivity]. Qed.
Print Assumptions C30_nul_collides_refuted.

(** A range of keys between two keys of one field and type holds nothing else: no other field,
    no other type. *)
Definition type_of (v : value) : nat := match v with VInt _ => 0 | VReal _ => 1 | VBool _ => 2 | VEmpty | VStr _ => 3 end.
Theorem C30_ranges_do_not_mix : forall f g lo hi v, no_nul f -> no_nul g -> type_of lo = type_of hi ->
  ~ lex_lt (encode_key g v) (encode_key f lo) -> lex_lt (encode_key g v) (encode_key f hi) ->
  g = f /\ type_of v = type_of lo.
Proof.
  intros f g lo hi v A B T H1 H2. rewrite <- bltb_spec in *. apply not_true_iff_false in H1.
  assert (P : exists p s e, payload lo = p :: s /\ payload hi = p :: e).
  { destruct lo, hi; try discriminate T; cbn [payload]; eexists; eexists; eexists; split; reflexivity. }
  destruct P as (p & s & e & E1 & E2). rewrite (encode_key_payload f lo), E1 in H1. rewrite (encode_key_payload f hi), E2 in H2.
  destruct (in_range_prefix f p s e g v A B) as (-> & r & E).
  { unfold in_range, bleb. cbn [fst snd]. now rewrite H1, H2. }
  split; [reflexivity|]. destruct lo, v; cbn [payload] in E1, E; injection E1 as <- _; injection E; intros; try discriminate; reflexivity.
Qed.
Print Assumptions C30_ranges_do_not_mix.

(** The keys of the reverse mapping are distinct from each other and from every attribute key. *)
Theorem C30_reverse_keys : forall i j, (reverse_key i = reverse_key j -> i = j) /\ forall f v, reverse_key i <> encode_key f v.
Proof. intros i j. split; [apply reverse_key_inj|intros; apply reverse_key_apart]. Qed.
Print Assumptions C30_reverse_keys.

(** Key lists survive, even with bytes behind them, *)
Theorem C34_round_trip : forall keys b rest,
  ser_keys keys = Some b -> N.of_nat (length keys) < two32 -> (forall k, In k keys -> N.of_nat (length k) < two32) ->
  de_keys (b ++ rest) = DOk keys.
Proof.
  intros keys b rest S A B. unfold ser_keys in S. destruct (total_size 4 keys); [|discriminate].
  set (l := le_enc 4 (N.of_nat (length keys) mod two32)) in *. assert (Ll : length l = 4%nat) by apply le_enc_length.
  fold (enc_keys keys) in S. assert (b = l ++ enc_keys keys) by congruence. subst b. rewrite <- app_assoc. unfold de_keys.
  assert (L : (length (l ++ enc_keys keys ++ rest) <? 4)%nat = false) by (apply Nat.ltb_ge; rewrite app_length; lia). rewrite L.
  rewrite index_range_spec by (try rewrite app_length; lia). change (4 - 0)%nat with 4%nat. rewrite slice_0_exact by assumption.
  assert (D : N.to_nat (le_dec l) = length keys) by (unfold l; rewrite N.mod_small by assumption; rewrite le_dec_enc by assumption; lia).
  rewrite D. rewrite <- Ll. now rewrite de_loop_enc.
Qed.
Print Assumptions C34_round_trip.
Example C34_round_trip_case : exists b, ser_keys [[1; 2; 3]; []; [255]] = Some b /\ length b = 20%nat /\ de_keys b = DOk [[1; 2; 3]; []; [255]].
Proof. eexists. split; [reflexivity|]. split; reflexivity. Qed.

(** no byte string makes the decoder read out of bounds, *)
Theorem C34_decoding_never_panics : forall b, de_keys b <> DPanic.
Proof.
  intros b. unfold de_keys. destruct (Nat.ltb_spec (length b) 4); [discriminate|]. rewrite index_range_spec by lia. apply de_loop_no_panic.
Qed.
Print Assumptions C34_decoding_never_panics.

(** and what it accepts is the encoding of what it returns, followed by ignored bytes. *)
Theorem C34_decoding_is_sound : forall b keys, is_bytes b -> (N.of_nat (length b) < two63) -> de_keys b = DOk keys ->
  exists enc rest, ser_keys keys = Some enc /\ b = enc ++ rest.
Proof.
  intros b keys Hb Lb H. unfold de_keys in H. destruct (Nat.ltb_spec (length b) 4); [discriminate|]. rewrite index_range_spec in H by lia.
  change (4 - 0)%nat with 4%nat in H. set (cb := slice 0 4 b) in *. assert (Lc : length cb = 4%nat) by (unfold cb; apply slice_length; lia).
  assert (Bc : is_bytes cb) by now apply is_bytes_slice.
  destruct (de_loop_sound _ b 4 _ _ Hb ltac:(lia) H) as (ks & pos & -> & L & P & E & S). cbn [app] in *.
  pose proof (le_dec_bound _ Bc) as Bd. rewrite Lc in Bd. change (pow256 4) with two32 in Bd.
  assert (F4 : firstn 4 b = cb) by (unfold cb, slice; reflexivity).
  assert (C : le_enc 4 (N.of_nat (length ks) mod two32) = cb).
  { rewrite L, N2Nat.id, N.mod_small by assumption. rewrite <- Lc. now apply le_enc_dec. }
  assert (T : forall ks' acc, acc + N.of_nat (length (enc_keys ks')) < two64 -> total_size acc ks' <> None).
  { induction ks' as [|k ks' IH]; cbn; intros acc X; [discriminate|]. unfold enc_keys in X. cbn [flat_map] in X. rewrite !app_length, le_enc_length in X.
    destruct (N.ltb_spec (acc + 4 + N.of_nat (length k)) two64); [apply IH; fold (enc_keys ks') in X; lia|lia]. }
  unfold ser_keys. destruct (total_size 4 ks) eqn:TS.
  - eexists. exists (skipn pos b). split; [reflexivity|]. rewrite C. fold (enc_keys ks). rewrite <- F4, <- E. symmetry. apply firstn_skipn.
  - exfalso. apply (T ks 4); [|assumption]. apply (f_equal (@length N)) in E. rewrite app_length, !firstn_length in E. unfold two63, two64 in *. lia.
Qed.
Print Assumptions C34_decoding_is_sound.
