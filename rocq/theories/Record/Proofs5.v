(** What a load answers: data of the type asked for, from the version and the names it names. *)
From Coq Require Import String Lia ZifyN ZifyBool.
From Verif.Lib Require Import Base Bytes F32 F64.
From Verif.Record Require Import Model Spec Proofs Proofs2 Proofs3 Proofs4.
Local Open Scope string_scope.
Local Open Scope N_scope.

Lemma rmap_ok {A B} (f : A -> B) r b : rmap f r = Ok b -> exists a, r = Ok a /\ b = f a.
Proof. destruct r; cbn; intros H; [injection H as <-; eauto|discriminate]. Qed.
Lemma round32_le a : round32 a <= f32_inf_bits.
Proof. unfold round32. destruct (a =? 0); [discriminate|]. apply N.le_min_r. Qed.
Lemma f64_to_f32_lt x : f64_to_f32 x < 4294967296.
Proof.
  unfold f64_to_f32. assert (A : (if f64_neg x then f32_sign_bit else 0) <= 2147483648) by (destruct (f64_neg x); discriminate).
  assert (B : (if f64_nan x then N.lor f32_nan (f64_mag x mod two52 / 536870912) else round32 (f64_abs (f64_mag x))) < 2147483648).
  { destruct (f64_nan x).
    - assert (M : f64_mag x mod two52 / 536870912 < 8388608) by (apply N.div_lt_upper_bound; [discriminate|]; apply N.mod_lt; discriminate).
      set (y := f64_mag x mod two52 / 536870912) in *. clearbody y. clear - M.
      assert (L : N.log2 (N.lor f32_nan y) < 31).
      { rewrite N.log2_lor. assert (N.log2 y <= 22) by (change 22 with (N.log2 8388607); apply N.log2_le_mono; lia). change (N.log2 f32_nan) with 30. lia. }
      destruct (N.eq_dec (N.lor f32_nan y) 0) as [->|Z]; [reflexivity|]. change 2147483648 with (2 ^ 31). apply N.log2_lt_pow2; lia.
    - eapply N.le_lt_trans; [apply round32_le|reflexivity]. }
  lia.
Qed.
Lemma f32_of_Z_lt z : f32_of_Z z < 4294967296.
Proof.
  unfold f32_of_Z, f32_of_N. pose proof (round32_le (Z.to_N (- z) * 2 ^ 1074)). pose proof (round32_le (Z.to_N z * 2 ^ 1074)).
  set (a := round32 (Z.to_N (- z) * 2 ^ 1074)) in *. set (b := round32 (Z.to_N z * 2 ^ 1074)) in *. clearbody a b. assert (f32_inf_bits = 2139095040) by reflexivity. assert (f32_sign_bit = 2147483648) by reflexivity. destruct (z <? 0)%Z; lia.
Qed.
Lemma as_f32_lt n y : as_f32 n = Some y -> y < 4294967296.
Proof.
  destruct (is_flt n) eqn:F.
  - destruct n as [|?|x]; try discriminate. unfold as_f32. cbn zeta. destruct (f64_nan x); [intros [= <-]; apply f64_to_f32_lt|]. destruct (f64_eq _ x); [intros [= <-]; apply f64_to_f32_lt|discriminate].
  - rewrite as_f32_int by assumption. cbn zeta. destruct (_ =? _)%Z; [intros [= <-]; apply f32_of_Z_lt|discriminate].
Qed.
Lemma as_f64_lt n y : num_ok n -> as_f64 n = Some y -> y < two64.
Proof.
  intros W. destruct (is_flt n) eqn:F.
  - destruct n as [|?|x]; try discriminate. unfold as_f64. destruct (f64_nan x); [intros [= <-]; exact W|]. destruct (f64_eq x x); [intros [= <-]; exact W|discriminate].
  - rewrite as_f64_int by assumption. cbn zeta. destruct (_ =? _)%Z; [intros [= <-]|discriminate].
    assert (B : (- Z.of_N two64 < int_of n < Z.of_N two64)%Z) by (destruct n; cbn in *; unfold two64, i64_min, i64_max in *; lia || discriminate).
    unfold f64_of_Z. assert (I : f64_inf_bits < two63) by reflexivity. assert (T : two64 = two63 + two63) by reflexivity. destruct (Z.ltb_spec (int_of n) 0).
    + destruct (f64_abs_of_N_gen (Z.to_N (- int_of n)) ltac:(lia)) as (_ & J). lia.
    + destruct (f64_abs_of_N_gen (Z.to_N (int_of n)) ltac:(lia)) as (_ & J). lia.
Qed.
Lemma as_int_in i n z : as_int i n = Some z -> in_range i z = true.
Proof. intros H. apply as_int_sound in H. apply H. Qed.

Lemma lookup_numbers p k r x : Forall (fun kv => numbers p (snd kv)) r -> lookup k r = Some x -> numbers p x.
Proof. intros H L. apply lookup_in in L. rewrite Forall_forall in H. exact (H _ L). Qed.
Lemma load_typed : forall t v d, numbers num_ok v -> load t v = Ok d -> has_ty t d.
Proof.
  induction t as [i|i| | | | | |t IHt|t IHt|ver fs IHf|ver vs IHv] using ty_ind'; intros v d W H.
  - cbn [load] in H. apply rmap_ok in H. destruct H as (z & H & ->). destruct v; try discriminate. cbn [load_num] in H. destruct (as_int i n) eqn:E; [|discriminate]. injection H as <-. now apply as_int_in in E.
  - cbn [load] in H. destruct (load_num (as_int i) v) as [z|] eqn:E; [|discriminate]. destruct (Z.eqb_spec z 0) as [->|Z]; [discriminate|]. injection H as <-. destruct v; try discriminate. cbn [load_num] in E. destruct (as_int i n) eqn:E2; [|discriminate]. injection E as ->. apply as_int_in in E2. now split.
  - cbn [load] in H. apply rmap_ok in H. destruct H as (z & H & ->). destruct v; try discriminate. cbn [load_num] in H. destruct (as_f32 n) eqn:E; [|discriminate]. injection H as <-. now apply as_f32_lt in E.
  - cbn [load] in H. apply rmap_ok in H. destruct H as (z & H & ->). destruct v; try discriminate. cbn [load_num] in H. destruct (as_f64 n) eqn:E; [|discriminate]. injection H as <-. now apply as_f64_lt in E.
  - destruct v; try discriminate. injection H as <-. exact I.
  - destruct v; try discriminate. injection H as <-. exact I.
  - destruct v; try discriminate. injection H as <-. exact I.
  - cbn [load] in H. assert (K : d = DNone \/ exists d', load t v = Ok d' /\ d = DSome d').
    { destruct v; try (right; apply rmap_ok in H; exact H). left. congruence. }
    destruct K as [->|(d' & K & ->)]; [exact I|]. cbn [has_ty]. eapply IHt; eauto.
  - destruct v as [| | | |l| |]; try discriminate. apply numbers_arr in W. rewrite load_vec in H. apply rmap_ok in H. destruct H as (ds & H & ->). cbn [has_ty]. revert ds H. induction W as [|v l Wv W IH]; intros ds H.
    + injection H as <-. constructor.
    + rewrite load_list_cons in H. destruct (load t v) as [d|] eqn:E; [|discriminate]. apply rmap_ok in H. destruct H as (ds' & H & ->). constructor; [eapply IHt; eauto|now apply IH].
  - destruct v as [| | | | |ver' r|]; try discriminate. apply numbers_obj in W. rewrite load_rec in H. destruct (version_eqb ver' ver); [|discriminate]. apply rmap_ok in H. destruct H as (ds & H & ->). rewrite has_ty_rec.
    revert ds H. induction fs as [|(k, t) fs IH]; intros ds H.
    + injection H as <-. exact I.
    + inversion IHf as [|? ? I1 I2]; subst. rewrite load_fields_cons in H. destruct (lookup k r) as [x|] eqn:L; [|discriminate]. destruct (load t x) as [d|] eqn:E; [|discriminate]. apply rmap_ok in H. destruct H as (ds' & H & ->).
      split; [eapply I1; [eapply lookup_numbers; eassumption|exact E]|now apply IH].
  - destruct v as [| | | | |ver' r|]; try discriminate. apply numbers_obj in W. rewrite load_enum in H. destruct (version_eqb ver' ver); [|discriminate]. destruct r as [|(k, x) [|]]; try discriminate. inversion W as [|? ? Wx _]; subst. cbn [snd] in Wx.
    assert (K : exists p, d = DVar k p /\ var_ty k p vs).
    { induction vs as [|(k', o) vs IH]; [discriminate|]. inversion IHv as [|? ? I1 I2]; subst. rewrite load_var_cons in H. cbn [snd] in *. destruct (beqb k k') eqn:B.
      - destruct o as [t|].
        + apply rmap_ok in H. destruct H as (d' & H & ->). exists (Some d'). split; [reflexivity|]. rewrite var_ty_cons, B. eapply I1; eauto.
        + injection H as <-. exists None. split; [reflexivity|]. rewrite var_ty_cons, B. exact I.
      - destruct (IH I2 H) as (p & -> & K). exists p. split; [reflexivity|]. now rewrite var_ty_cons, B. }
    destruct K as (p & -> & K). now rewrite has_ty_enum.
Qed.
Lemma load_fields_forall r fs ds : load_fields r fs = Ok ds ->
  Forall2 (fun kt d => exists x, lookup (fst kt) r = Some x /\ load (snd kt) x = Ok d) fs ds.
Proof.
  revert ds. induction fs as [|(k, t) fs IH]; intros ds H; [injection H as <-; constructor|].
  rewrite load_fields_cons in H. destruct (lookup k r) as [x|] eqn:L; [|discriminate]. destruct (load t x) as [d|] eqn:E; [|discriminate]. apply rmap_ok in H. destruct H as (ds' & H & ->).
  constructor; [cbn; eauto|now apply IH].
Qed.
Lemma load_var_in k x vs d : load_var k x vs = Ok d ->
  exists o, In (k, o) vs /\ match o with Some t => exists d', load t x = Ok d' /\ d = DVar k (Some d') | None => d = DVar k None end.
Proof.
  induction vs as [|(k', o) vs IH]; [discriminate|]. rewrite load_var_cons. destruct (beqb_spec k k') as [->|N]; intros H.
  - destruct o as [t|]; [apply rmap_ok in H; destruct H as (d' & H & ->); exists (Some t); split; [now left|eauto]|]. injection H as <-. exists None. split; [now left|reflexivity].
  - destruct (IH H) as (o' & A & B). exists o'. split; [now right|assumption].
Qed.
