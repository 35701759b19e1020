(** The 8-bit integer kernels. *)
From Coq Require Import List ZArith PeanoNat Bool Lia Ring Ring_theory ZArithRing InitialRing.
From Verif.Lib Require Import Lists.
From Verif.Simd Require Import Model Spec Proofs Proofs2.
Import ListNotations.

Definition cg (a b : Z) : Prop := exists k, (a = b + k * 2 ^ 32)%Z.
Lemma cg_refl a : cg a a.
Proof. exists 0%Z. lia. Qed.
Lemma cg_add a b c d : cg a b -> cg c d -> cg (a + c) (b + d).
Proof. intros [k ->] [l ->]. exists (k + l)%Z. ring. Qed.
Lemma cg_trans a b c : cg a b -> cg b c -> cg a c.
Proof. intros [k ->] [l ->]. exists (k + l)%Z. ring. Qed.
Definition rng (u : bool) (v : Z) : Prop := if u then (0 <= v < 2 ^ 32)%Z else (- 2 ^ 31 <= v < 2 ^ 31)%Z.
Definition wr (u : bool) : Z -> Z := if u then wrap_u32 else wrap_i32.
Lemma wr_cg u z : cg (wr u z) z.
Proof.
  destruct u; cbn [wr]; unfold wrap_u32, wrap_i32.
  - exists (- (z / 2 ^ 32))%Z. pose proof (Z.div_mod z (2 ^ 32)). lia.
  - exists (- ((z + 2 ^ 31) / 2 ^ 32))%Z. pose proof (Z.div_mod (z + 2 ^ 31) (2 ^ 32)). lia.
Qed.
Lemma wr_rng u z : rng u (wr u z).
Proof.
  destruct u; cbn [wr rng]; unfold wrap_u32, wrap_i32.
  - apply Z.mod_pos_bound. lia.
  - pose proof (Z.mod_pos_bound (z + 2 ^ 31) (2 ^ 32)). lia.
Qed.
Lemma cg_wr u a b : cg a b -> rng u a -> a = wr u b.
Proof.
  intros [k ->]. destruct u; cbn [wr rng]; unfold wrap_u32, wrap_i32; intros H.
  - rewrite <- (Z.mod_small (b + k * 2 ^ 32) (2 ^ 32)) by assumption. apply Z.mod_add. lia.
  - replace ((b + 2 ^ 31) mod 2 ^ 32)%Z with (b + k * 2 ^ 32 + 2 ^ 31)%Z; [lia|].
    rewrite <- (Z.mod_add (b + 2 ^ 31) k) by lia. symmetry. rewrite Z.mod_small by lia. lia.
Qed.
Lemma wr_id u b : rng u b -> wr u b = b.
Proof. intros H. symmetry. apply cg_wr; [apply cg_refl|assumption]. Qed.
Lemma rng0 u : rng u 0.
Proof. destruct u; cbn; lia. Qed.

Notation zt f := (@tot Z 0%Z Z.add Z Z f).
Lemma zsum_app a b : zsum (a ++ b) = (zsum a + zsum b)%Z.
Proof. induction a as [|x a IH]; cbn [app zsum fold_right]; [reflexivity|]. fold (zsum (a ++ b)) (zsum a). rewrite IH. ring. Qed.
Lemma zsum_map2_tot (f : Z -> Z -> Z) a : forall b, zsum (map2 f a b) = zt f a b.
Proof. induction a as [|x a IH]; intros [|y b]; cbn [map2 zsum fold_right tot]; try reflexivity. fold (zsum (map2 f a b)). now rewrite IH. Qed.
Lemma zt_app f a b c d : length a = length c -> zt f (a ++ b) (c ++ d) = (zt f a c + zt f b d)%Z.
Proof. apply (tot_app 0%Z 1%Z Z.add Z.mul Z.sub Z.opp Zth f). Qed.
Lemma dot_lanes_ok u f g : forall acc xs ys, length xs = length acc * g -> length ys = length acc * g ->
  let r := dot_lanes (wr u) f g acc xs ys in
  length r = length acc /\ Forall (rng u) r /\ cg (zsum r) (zsum acc + zt f xs ys).
Proof.
  induction acc as [|a acc IH]; intros xs ys X Y; cbn [dot_lanes].
  - destruct xs; [|cbn in X; lia]. destruct ys; [|cbn in Y; lia]. cbn. repeat split; [constructor|apply cg_refl].
  - cbn [length] in X, Y. destruct (IH (skipn g xs) (skipn g ys)) as (I1 & I2 & I3); [rewrite skipn_length; lia..|].
    cbn [length zsum fold_right]. fold (zsum (dot_lanes (wr u) f g acc (skipn g xs) (skipn g ys))) (zsum acc).
    repeat split; [lia|constructor; [apply wr_rng|assumption]|].
    rewrite <- (firstn_skipn g xs) at 3. rewrite <- (firstn_skipn g ys) at 3. rewrite zt_app by (rewrite !firstn_length; lia).
    replace (a + zsum acc + (zt f (firstn g xs) (firstn g ys) + zt f (skipn g xs) (skipn g ys)))%Z
      with ((a + zt f (firstn g xs) (firstn g ys)) + (zsum acc + zt f (skipn g xs) (skipn g ys)))%Z by ring.
    apply cg_add; [|assumption]. eapply cg_trans; [apply wr_cg|]. apply cg_add; [apply cg_refl|].
    rewrite zsum_map2_tot. apply wr_cg.
Qed.
Lemma wadd_ok u a : forall b, length a = length b -> let r := map2 (fun a b => wr u (a + b)) a b in
  length r = length a /\ Forall (rng u) r /\ cg (zsum r) (zsum a + zsum b).
Proof.
  induction a as [|x a IH]; intros [|y b] H; try discriminate; cbn [map2].
  - cbn. repeat split; [constructor|apply cg_refl].
  - destruct (IH b ltac:(injection H; auto)) as (I1 & I2 & I3). cbn [length zsum fold_right].
    fold (zsum (map2 (fun a b => wr u (a + b)) a b)) (zsum a) (zsum b).
    repeat split; [lia|constructor; [apply wr_rng|assumption]|].
    replace (x + zsum a + (y + zsum b))%Z with ((x + y) + (zsum a + zsum b))%Z by ring. apply cg_add; [apply wr_cg|assumption].
Qed.
Lemma wtree_ok u n : forall l, length l = 2 ^ n -> Forall (rng u) l ->
  let r := sum_tree_ (fun a b => wr u (a + b)%Z) 0%Z n l in rng u r /\ cg r (zsum l).
Proof.
  induction n as [|n IH]; intros l H HR; cbn [sum_tree_].
  - destruct l as [|a [|b l]]; cbn in *; try lia. inversion HR; subst. split; [assumption|]. exists 0%Z. lia.
  - rewrite H. replace (2 ^ S n / 2) with (2 ^ n)%nat by (rewrite Nat.pow_succ_r', Nat.mul_comm, Nat.div_mul; lia).
    rewrite Nat.pow_succ_r' in H.
    destruct (wadd_ok u (firstn (2 ^ n) l) (skipn (2 ^ n) l)) as (A & B & C); [rewrite firstn_length, skipn_length; lia|].
    destruct (IH (map2 (fun a b => wr u (a + b)) (firstn (2 ^ n) l) (skipn (2 ^ n) l))) as (I1 & I2);
      [rewrite A, firstn_length; lia|assumption|].
    split; [exact I1|]. eapply cg_trans; [exact I2|]. eapply cg_trans; [exact C|].
    rewrite <- zsum_app, firstn_skipn. apply cg_refl.
Qed.
Lemma zsum_zero n : zsum (repeat 0%Z n) = 0%Z.
Proof. induction n; cbn [repeat zsum fold_right]; auto. Qed.

Section Ints.
  Context (c : icfg) (n : nat) (g : nat) (HL : i_lanes c = 2 ^ n) (HG : i_width c = i_lanes c * g) (g0 : 0 < g).
  Context (term : bool -> Z -> Z -> Z) (f : Z -> Z -> Z) (rel : Z -> Z -> Prop).
  Context (Hf : forall b x y, rel x y -> term b x y = f x y) (Hz : rel 0%Z 0%Z) (Hf0 : f 0%Z 0%Z = 0%Z).
  Notation u := (i_unsigned c).
  Definition irep (a : list Z) (p : Z) : Prop := length a = i_lanes c /\ Forall (rng u) a /\ cg (zsum a) p.

  Lemma zt_rel b xs ys : Forall2 rel xs ys -> zt (term b) xs ys = zt f xs ys.
  Proof. induction 1; cbn [tot]; [reflexivity|]. rewrite Hf by assumption. now rewrite IHForall2. Qed.
  Lemma lanes_pos : 0 < i_lanes c.
  Proof. rewrite HL. apply Nat.neq_0_lt_0, Nat.pow_nonzero. lia. Qed.
  Lemma div_g : i_width c / i_lanes c = g.
  Proof. rewrite HG. rewrite Nat.mul_comm. apply Nat.div_mul. pose proof lanes_pos. lia. Qed.
  Lemma pad_rel w xs ys : length xs = length ys -> Forall2 rel xs ys -> Forall2 rel (pad 0%Z w xs) (pad 0%Z w ys).
  Proof.
    intros E H. unfold pad. apply Forall2_app; [now apply Forall2_firstn'|]. rewrite E.
    induction (w - length ys); cbn [repeat]; constructor; auto.
  Qed.
  Lemma pad_tot w xs ys : length xs = length ys -> length xs <= w -> zt f (pad 0%Z w xs) (pad 0%Z w ys) = zt f xs ys.
  Proof.
    intros E B. unfold pad. rewrite !firstn_all2 by lia. rewrite zt_app by assumption. rewrite E.
    replace (zt f (repeat 0%Z (w - length ys)) (repeat 0%Z (w - length ys))) with 0%Z; [ring|].
    induction (w - length ys); cbn [repeat tot]; [reflexivity|]. rewrite Hf0. lia.
  Qed.
  Lemma iscalar_ok xs ys : Forall2 rel xs ys -> forall s, rng u s ->
    let r := scalar_loop (fun x y s => wr u (s + term false x y)%Z) xs ys s in rng u r /\ cg r (s + zt f xs ys).
  Proof.
    unfold scalar_loop. induction 1 as [|x y xs ys Hr _ IH]; intros s Hs; cbn [List.combine fold_left tot].
    - split; [assumption|]. exists 0%Z. lia.
    - cbn [fst snd]. destruct (IH (wr u (s + term false x y)) (wr_rng _ _)) as [I1 I2]. split; [exact I1|].
      eapply cg_trans; [exact I2|]. rewrite Z.add_assoc. apply cg_add; [|apply cg_refl].
      rewrite <- (Hf false) by assumption. apply wr_cg.
  Qed.
  Lemma acc_ok xs ys a p : length xs = i_width c -> length ys = i_width c -> Forall2 rel xs ys -> irep a p ->
    irep (dot_lanes (wr u) (term (i_wide c)) (i_width c / i_lanes c) a xs ys) (p + zt f xs ys).
  Proof.
    intros X Y HR (A1 & A2 & A3). rewrite div_g.
    destruct (dot_lanes_ok u (term (i_wide c)) g a xs ys) as (D1 & D2 & D3); [rewrite A1; congruence..|].
    split; [congruence|]. split; [assumption|]. eapply cg_trans; [exact D3|]. rewrite zt_rel by assumption.
    apply cg_add; [assumption|apply cg_refl].
  Qed.
  Lemma i_schema_ok x y : length x = length y -> Forall2 rel x y ->
    simd_op (i_schema term c) x y = Some (wr u (zt f x y)).
  Proof.
    intros HLn HR. unfold simd_op. pose proof lanes_pos as LP.
    destruct (simd_acc_ok 0%Z 1%Z Z.add Z.mul Z.sub Z.opp Zth (i_schema term c) f irep rel) with (x := x) (y := y) as (a & E & A1 & A2 & A3).
    - cbn [width i_schema]. rewrite HG. apply Nat.mul_pos_pos; assumption.
    - cbn [init i_schema]. split; [apply repeat_length|]. split; [|rewrite zsum_zero; apply cg_refl].
      apply Forall_forall. intros v V. apply repeat_spec in V. subst v. apply rng0.
    - intros a b p q (A1 & A2 & A3) (B1 & B2 & B3). cbn [Model.combine i_schema].
      destruct (wadd_ok u a b) as (W1 & W2 & W3); [congruence|].
      split; [etransitivity; [exact W1|assumption]|]. split; [exact W2|]. eapply cg_trans; [exact W3|]. now apply cg_add.
    - intros xs ys a p X Y Hr A. cbn [accumulate i_schema width] in *. now apply acc_ok.
    - intros xs ys a p X Y Hr A. cbn [epilogue i_schema width] in *. destruct (i_masked c).
      + rewrite <- (pad_tot (i_width c) xs ys) by lia. apply acc_ok; [apply pad_length; lia..|apply pad_rel; [lia|assumption]|assumption].
      + rewrite !capped_id by lia. destruct A as (A1 & A2 & A3).
        destruct (iscalar_ok xs ys Hr 0%Z (rng0 _)) as [I1 I2].
        match goal with |- irep (map2 ?h a (?v :: ?t)) _ => set (s := v) in *; destruct (wadd_ok u a (s :: t)) as (W1 & W2 & W3) end;
          [cbn [length]; rewrite repeat_length; lia|].
        split; [etransitivity; [exact W1|assumption]|]. split; [exact W2|]. eapply cg_trans; [exact W3|].
        apply cg_add; [assumption|]. cbn [zsum fold_right]. fold (zsum (repeat 0%Z (i_lanes c - 1))).
        rewrite zsum_zero, Z.add_0_r. rewrite Z.add_0_l in I2. exact I2.
    - assumption.
    - assumption.
    - rewrite E. cbn [bind reduce i_schema]. f_equal. unfold sum_tree. rewrite A1, HL, Nat.log2_pow2 by lia.
      destruct (wtree_ok u n a) as [T1 T2]; [congruence|assumption|].
      apply cg_wr; [|exact T1]. eapply cg_trans; [exact T2|exact A3].
  Qed.
End Ints.

Lemma int_shape k a e : exists n g, i_lanes (int_cfg k a e) = 2 ^ n /\ i_width (int_cfg k a e) = i_lanes (int_cfg k a e) * g /\ 0 < g.
Proof.
  assert (forall l w, (l, w) = (1, 1) \/ (l, w) = (4, 4) \/ (l, w) = (4, 16) \/ (l, w) = (8, 16) \/ (l, w) = (16, 32) ->
    exists n g, l = 2 ^ n /\ w = l * g /\ 0 < g) as Q.
  { intros l w [E|[E|[E|[E|E]]]]; injection E as -> ->; [exists 0, 1|exists 2, 1|exists 2, 4|exists 3, 2|exists 4, 2]; cbn; lia. }
  destruct k, a, e; apply Q; cbn; auto 6.
Qed.
Lemma icos_shape a e : exists n g, i_lanes (icos_cfg a e) = 2 ^ n /\ i_width (icos_cfg a e) = i_lanes (icos_cfg a e) * g /\ 0 < g.
Proof.
  assert (forall l w, (l, w) = (1, 1) \/ (l, w) = (4, 4) \/ (l, w) = (4, 16) \/ (l, w) = (8, 16) \/ (l, w) = (16, 32) ->
    exists n g, l = 2 ^ n /\ w = l * g /\ 0 < g) as Q.
  { intros l w [E|[E|[E|[E|E]]]]; injection E as -> ->; [exists 0, 1|exists 2, 1|exists 2, 4|exists 3, 2|exists 4, 2]; cbn; lia. }
  destruct a, e; apply Q; cbn; auto 6.
Qed.
Lemma ztotal_tot f x : forall y, ztotal f x y = zt f x y.
Proof. induction x as [|a x IH]; intros [|b y]; cbn [ztotal tot]; congruence. Qed.
Lemma Forall2_both {X} (P : X -> Prop) x : forall y, length x = length y -> Forall P x -> Forall P y -> Forall2 (fun a b => P a /\ P b) x y.
Proof.
  induction x as [|a x IH]; intros [|b y] E HX HY; try discriminate; inversion HX; inversion HY; subst; constructor; auto.
Qed.
Lemma i_term_ok e k b x y : in_range e x /\ in_range e y -> i_term k b x y = zterm k x y.
Proof.
  intros [HX HY]. destruct k; cbn [i_term zterm]; try reflexivity.
  assert (-255 <= x - y <= 255)%Z by (destruct e; cbn [in_range] in *; lia).
  replace ((if b then wrap_i16 else wrap_i32) (x - y)%Z) with (x - y)%Z; [reflexivity|].
  destruct b; unfold wrap_i16, wrap_i32; rewrite Z.mod_small; lia.
Qed.
Definition sgnd (a : arch) (e : ielem) : bool := match a, e with Neon, U8 => true | _, _ => false end.
Lemma int_total_ok k a e x y : length x = length y -> Forall (in_range e) x -> Forall (in_range e) y ->
  int_total k a e x y = Some (wr (sgnd a e) (ztotal (zterm k) x y)).
Proof.
  intros HL HX HY. destruct (int_shape k a e) as (n & g & H1 & H2 & H3). unfold int_total.
  rewrite (i_schema_ok (int_cfg k a e) n g H1 H2 H3 (i_term k) (zterm k) (fun x y => in_range e x /\ in_range e y)).
  - rewrite ztotal_tot. f_equal. f_equal. now destruct k, a, e.
  - intros b v w. apply i_term_ok.
  - destruct e; cbn; lia.
  - now destruct k.
  - assumption.
  - now apply Forall2_both.
Qed.
Lemma icos_ok (f : Z -> Z -> Z) a e x y : f 0%Z 0%Z = 0%Z -> length x = length y ->
  simd_op (i_schema (fun _ => f) (icos_cfg a e)) x y = Some (wr (sgnd a e) (ztotal f x y)).
Proof.
  intros F0 HL. destruct (icos_shape a e) as (n & g & H1 & H2 & H3).
  rewrite (i_schema_ok (icos_cfg a e) n g H1 H2 H3 (fun _ => f) f (fun _ _ => True)); auto.
  - rewrite ztotal_tot. f_equal. f_equal. now destruct a, e.
  - now apply Forall2_true.
Qed.
Lemma acc_range_rng a e v : acc_range a e v -> rng (sgnd a e) v.
Proof. now destruct a, e. Qed.

(** Conversion to f32. *)
Open Scope Z_scope.
Lemma lossy_pos_nearest z : 0 <= z -> nearest_f32 z (lossy_pos z) /\ 0 <= lossy_pos z.
Proof.
  intros Hz. unfold lossy_pos. destruct (Z.ltb_spec z (2 ^ 24)) as [B|B].
  { split; [|assumption]. split; [exists z, 0; rewrite Z.pow_0_r; lia|]. intros u _. lia. }
  set (e := Z.log2 z - 23). set (u := 2 ^ e). set (q := z / u). set (r := z mod u).
  assert (L24 : 24 <= Z.log2 z) by (rewrite <- (Z.log2_pow2 24) by lia; now apply Z.log2_le_mono).
  assert (e1 : 1 <= e) by (unfold e; lia).
  assert (u1 : 1 < u) by (apply Z.pow_gt_1; lia).
  assert (D : z = u * q + r) by (apply Z.div_mod; lia).
  assert (RB : 0 <= r < u) by (apply Z.mod_pos_bound; lia).
  destruct (Z.log2_spec z ltac:(lia)) as [LL LU].
  assert (E1 : 2 ^ Z.log2 z = u * 2 ^ 23) by (unfold u, e; rewrite <- Z.pow_add_r by lia; f_equal; lia).
  assert (E2 : 2 ^ Z.succ (Z.log2 z) = u * 2 ^ 24) by (unfold u, e; rewrite <- Z.pow_add_r by lia; f_equal; lia).
  assert (Q1 : 2 ^ 23 <= q) by (rewrite E1 in LL; clear - LL D RB u1; nia).
  assert (Q2 : q < 2 ^ 24) by (rewrite E2 in LU; clear - LU D RB u1; nia).
  set (up := if 2 * r <? u then false else if u <? 2 * r then true else negb (Z.even q)).
  assert (UP : (up = true -> u <= 2 * r) /\ (up = false -> 2 * r <= u)).
  { unfold up. destruct (Z.ltb_spec (2 * r) u); [split; [discriminate|lia]|].
    destruct (Z.ltb_spec u (2 * r)); [split; [lia|discriminate]|]. split; intros _; lia. }
  assert (FAR : forall w, f32_int w -> w <= u * q \/ u * (q + 1) <= w).
  { intros w (m & e' & M & P & ->). destruct (Z.le_gt_cases e e') as [C|C].
    - assert (E : 2 ^ e' = u * 2 ^ (e' - e)) by (unfold u; rewrite <- Z.pow_add_r by lia; f_equal; lia).
      rewrite E. set (t := 2 ^ (e' - e)). clearbody t. replace (m * (u * t)) with (u * (m * t)) by ring.
      set (v := m * t). clearbody v. destruct (Z.le_gt_cases v q); [left|right]; apply Z.mul_le_mono_nonneg_l; lia.
    - left. assert (E : 2 * 2 ^ e' <= u).
      { unfold u. rewrite <- Z.pow_succ_r by lia. apply Z.pow_le_mono_r; lia. }
      assert (0 < 2 ^ e') by (apply Z.pow_pos_nonneg; lia).
      assert (m * 2 ^ e' <= 2 ^ 24 * 2 ^ e') by (apply Z.mul_le_mono_nonneg_r; lia).
      assert (u * 2 ^ 23 <= u * q) by (apply Z.mul_le_mono_nonneg_l; lia). lia. }
  split.
  - split.
    + exists (if up then q + 1 else q), e. fold u. repeat split; [destruct up; lia|lia|ring].
    + intros w W. specialize (FAR w W). destruct UP as [U1 U2]. destruct up.
      * specialize (U1 eq_refl). replace (u * (q + 1) - z) with (u - r) by lia. lia.
      * specialize (U2 eq_refl). replace (u * q - z) with (- r) by lia. lia.
  - destruct up; nia.
Qed.
Lemma f32_int_opp v : f32_int v -> f32_int (- v).
Proof. intros (m & e & M & P & ->). exists (- m), e. repeat split; [lia|assumption|ring]. Qed.
Lemma lossy_nearest z : nearest_f32 z (lossy z).
Proof.
  unfold lossy. destruct (Z.ltb_spec z 0).
  - destruct (lossy_pos_nearest (- z)) as [[N1 N2] _]; [lia|]. split; [now apply f32_int_opp|].
    intros u U. specialize (N2 (- u) (f32_int_opp _ U)). lia.
  - now apply lossy_pos_nearest.
Qed.
Lemma lossy_exact z : - 2 ^ 24 <= z <= 2 ^ 24 -> lossy z = z.
Proof.
  intros H. destruct (lossy_nearest z) as [_ N]. specialize (N z). assert (f32_int z) as F by (exists z, 0; rewrite Z.pow_0_r; lia).
  specialize (N F). lia.
Qed.
Lemma ztotal_repeat f a b n : ztotal f (repeat a n) (repeat b n) = Z.of_nat n * f a b.
Proof. induction n as [|n IH]; [reflexivity|]. cbn [repeat ztotal]. rewrite IH. lia. Qed.
Close Scope Z_scope.
