(** The shift-and-mask kernels are exact. *)
From Coq Require Import List NArith ZArith PeanoNat Bool Lia Setoid.
From Verif.Lib Require Import Base Lists.
From Verif.Bits Require Import Model Spec Proofs.
From Verif.Simd Require Import Model Proofs3.
From Verif.BitDist Require Import Model Spec Proofs Proofs2.
Import ListNotations.

(** ** Reduction *)
Lemma wadd_wr : wadd = fun a b => wr false (a + b)%Z.
Proof. reflexivity. Qed.
Lemma merge_ok a b : length a = length b -> length (map2 wadd a b) = length a /\ Forall (rng false) (map2 wadd a b) /\ cg (zsum (map2 wadd a b)) (zsum a + zsum b).
Proof. intros H. rewrite wadd_wr. exact (wadd_ok false a b H). Qed.
Lemma cg_sym a b : cg a b -> cg b a.
Proof. intros [k ->]. exists (- k)%Z. ring. Qed.
Lemma reduce_ok n acc v : length acc = 2 ^ n -> Forall (rng false) acc -> cg (zsum acc) v -> (0 <= v < 2 ^ 32)%Z -> reduce_u32 acc = v.
Proof.
  intros L R C V. unfold reduce_u32, sum_tree. rewrite L, Nat.log2_pow2 by lia. rewrite wadd_wr.
  destruct (wtree_ok false n acc L R) as [_ G]. change (wrap_u32 ?z) with (wr true z).
  rewrite <- (wr_id true v) by exact V. symmetry. apply cg_wr; [|apply wr_rng].
  eapply cg_trans; [apply wr_cg|]. apply cg_sym. eapply cg_trans; eassumption.
Qed.
Lemma lanes_pow n : n = 8 \/ n = 16 -> exists k, n = 2 ^ k.
Proof. intros [->| ->]; [now exists 3|now exists 4]. Qed.

Lemma u32s_S n l : u32s (S n) l = word (firstn 4 l) :: u32s n (skipn 4 l).
Proof.
  unfold u32s. cbn [seq map]. f_equal. rewrite <- seq_shift, map_map. apply map_ext. intros k.
  rewrite skipn_skipn'. do 2 f_equal. f_equal. lia.
Qed.
Lemma u32s_length n l : length (u32s n l) = n.
Proof. unfold u32s. now rewrite map_length, seq_length. Qed.
Lemma per_eq nb : divides8 nb -> 32 / nb = 4 * (8 / nb).
Proof. now intros [->|[->|[->| ->]]]. Qed.
Lemma u32s_sum nb f n : divides8 nb -> forall a b, length a = 4 * n -> length b = 4 * n -> Forall byte_ok a -> Forall byte_ok b ->
  zsum (map2 (fun wx wy => sumn (fun k => f (code nb wx k) (code nb wy k)) (seq 0 (32 / nb))) (u32s n a) (u32s n b)) = ztotal f (codes nb a) (codes nb b).
Proof.
  intros D. induction n as [|n IH]; intros a b LA LB HA HB.
  - destruct a; [|discriminate]. destruct b; [|discriminate]. reflexivity.
  - rewrite !u32s_S. cbn [map2]. rewrite zsum_cons.
    rewrite IH; [|rewrite skipn_length; lia|rewrite skipn_length; lia|now apply Forall_skipn'|now apply Forall_skipn'].
    replace (codes nb a) with (codes nb (firstn 4 a) ++ codes nb (skipn 4 a)) by (rewrite <- codes_app, firstn_skipn; reflexivity).
    replace (codes nb b) with (codes nb (firstn 4 b) ++ codes nb (skipn 4 b)) by (rewrite <- codes_app, firstn_skipn; reflexivity).
    assert (length (firstn 4 a) = 4) as L1 by (rewrite firstn_length; lia).
    assert (length (firstn 4 b) = 4) as L2 by (rewrite firstn_length; lia).
    rewrite ztotal_app by (rewrite !codes_length, L1, L2; reflexivity). f_equal.
    rewrite !codes_word by (try assumption; now apply Forall_firstn'). rewrite L1, L2, ztotal_map. now rewrite per_eq.
Qed.

Section Kernel.
  Context (c : smc) (l2 : bool) (ok : smc_ok c).
  Let nb := m_bits c.
  Lemma nb_div : divides8 nb.
  Proof. unfold nb. destruct ok as (_ & _ & [->| ->] & _); unfold divides8; auto. Qed.
  Lemma nb_conf : conf_ok (unsigned nb).
  Proof. unfold conf_ok, nb. cbn [unsigned c_bits c_repr c_perm]. destruct ok as (_ & _ & [->| ->] & _); repeat split; try lia; discriminate. Qed.

  Definition good (accs : list (list Z)) : Prop :=
    length accs = m_accs c /\ Forall (fun acc => length acc = m_lanes c /\ Forall (rng false) acc) accs.
  Definition all (accs : list (list Z)) : Z := zsum (map zsum accs).

  Lemma dot_ok s : forall wx wy acc, length wx = length acc -> length wy = length acc ->
    let r := map3 (dot_lane c l2 s) wx wy acc in
    length r = length acc /\ Forall (rng false) r /\ cg (zsum r) (zsum acc + zsum (map2 (lane_sum c l2 s) wx wy)).
  Proof.
    induction wx as [|a wx IH]; intros [|b wy] [|v acc] LX LY; try discriminate; cbn [map3 map2].
    { repeat split; [constructor|apply cg_refl]. }
    cbn [length] in *. destruct (IH wy acc) as (A & B & C); [lia|lia|]. repeat split.
    - cbn [length]. now f_equal.
    - constructor; [apply (wr_rng false)|assumption].
    - rewrite !zsum_cons. unfold dot_lane at 1. fold (lane_sum c l2 s a b).
      replace (v + zsum acc + (lane_sum c l2 s a b + zsum (map2 (lane_sum c l2 s) wx wy)))%Z
        with ((v + lane_sum c l2 s a b) + (zsum acc + zsum (map2 (lane_sum c l2 s) wx wy)))%Z by ring.
      apply cg_add; [apply (wr_cg false)|exact C].
  Qed.
  Lemma upd_ok k (f : list Z -> list Z) v : forall accs, k < length accs ->
    Forall (fun acc => length acc = m_lanes c /\ Forall (rng false) acc) accs ->
    (forall acc, length acc = m_lanes c -> length (f acc) = m_lanes c /\ Forall (rng false) (f acc) /\ cg (zsum (f acc)) (zsum acc + v)) ->
    length (upd k f accs) = length accs /\ Forall (fun acc => length acc = m_lanes c /\ Forall (rng false) acc) (upd k f accs) /\
    cg (all (upd k f accs)) (all accs + v).
  Proof.
    unfold all. revert k. intros k accs. revert k. induction accs as [|a accs IH]; intros [|k] K F H; cbn [length] in K; try lia; inversion F as [|? ? [A1 A2] F']; subst.
    - cbn [upd map]. destruct (H a A1) as (B1 & B2 & B3). repeat split; [constructor; auto|]. rewrite !zsum_cons.
      replace (zsum a + zsum (map zsum accs) + v)%Z with ((zsum a + v) + zsum (map zsum accs))%Z by ring. apply cg_add; [assumption|apply cg_refl].
    - cbn [upd map]. destruct (IH k) as (B1 & B2 & B3); [lia|assumption|assumption|]. repeat split; [cbn [length]; lia|constructor; auto|]. rewrite !zsum_cons.
      rewrite <- Z.add_assoc. apply cg_add; [apply cg_refl|assumption].
  Qed.
  Lemma map2_add (f g : N -> N -> Z) : forall a b, zsum (map2 (fun u v => f u v + g u v)%Z a b) = (zsum (map2 f a b) + zsum (map2 g a b))%Z.
  Proof. induction a as [|u a IH]; intros [|v b]; cbn [map2]; try reflexivity. rewrite !zsum_cons, IH. ring. Qed.
  Lemma map2_zero : forall a b : list N, zsum (map2 (fun _ _ => 0%Z) a b) = 0%Z.
  Proof. induction a as [|u a IH]; intros [|v b]; cbn [map2]; try reflexivity. now rewrite zsum_cons, IH. Qed.
  Lemma map2_ext {A B C} (f g : A -> B -> C) : (forall u v, f u v = g u v) -> forall a b, map2 f a b = map2 g a b.
  Proof. intros H. induction a as [|u a IH]; intros [|v b]; cbn [map2]; try reflexivity. now rewrite H, IH. Qed.
  Lemma step_ok wx wy accs : length wx = m_lanes c -> length wy = m_lanes c -> good accs ->
    good (sm_step c l2 wx wy accs) /\ cg (all (sm_step c l2 wx wy accs)) (all accs + zsum (map2 (word_sum c l2) wx wy)).
  Proof.
    intros LX LY. unfold sm_step, word_sum. destruct ok as (_ & _ & _ & _ & _ & _ & F & _). revert accs.
    induction (m_shifts c) as [|[s k] l IH]; intros accs G.
    - cbn [fold_left map]. split; [assumption|]. rewrite map2_zero, Z.add_0_r. apply cg_refl.
    - inversion F as [|? ? K F']; subst. cbn [fold_left]. destruct G as [G1 G2].
      destruct (upd_ok k (fun acc => map3 (dot_lane c l2 s) wx wy acc) (zsum (map2 (lane_sum c l2 s) wx wy)) accs) as (B1 & B2 & B3);
        [lia|assumption| |].
      { intros acc L. destruct (dot_ok s wx wy acc) as (Q1 & Q2 & Q3); [lia|lia|]. repeat split; [lia|assumption|assumption]. }
      destruct (IH F' (upd k (fun acc => map3 (dot_lane c l2 s) wx wy acc) accs)) as [C1 C2]; [split; [lia|assumption]|].
      split; [assumption|]. eapply cg_trans; [exact C2|].
      rewrite (map2_ext (fun u v => zsum (map (fun '(s, _) => lane_sum c l2 s u v) ((s, k) :: l))) (fun u v => lane_sum c l2 s u v + zsum (map (fun '(s, _) => lane_sum c l2 s u v) l))%Z)
        by (intros; cbn [map]; apply zsum_cons).
      rewrite map2_add, Z.add_assoc. apply cg_add; [assumption|apply cg_refl].
  Qed.
  Lemma sm_merge_ok accs : good accs -> length (sm_merge accs) = m_lanes c /\ Forall (rng false) (sm_merge accs) /\ cg (zsum (sm_merge accs)) (all accs).
  Proof.
    intros [L F]. destruct ok as (_ & _ & _ & _ & _ & A & _). unfold all. destruct A as [A|A]; rewrite A in L.
    - destruct accs as [|s0 [|s1 [|? ?]]]; try discriminate. inversion F as [|? ? [A0 _] F1]; subst. inversion F1 as [|? ? [A1 _] _]; subst.
      cbn [sm_merge map]. destruct (merge_ok s0 s1) as (B1 & B2 & B3); [lia|]. repeat split; [lia|assumption|].
      rewrite !zsum_cons. change (zsum []) with 0%Z. rewrite Z.add_0_r. exact B3.
    - destruct accs as [|s0 [|s1 [|s2 [|s3 [|? ?]]]]]; try discriminate. inversion F as [|? ? [A0 _] F1]; subst. inversion F1 as [|? ? [A1 _] F2]; subst.
      inversion F2 as [|? ? [A2 _] F3]; subst. inversion F3 as [|? ? [A3 _] _]; subst. cbn [sm_merge map].
      destruct (merge_ok s0 s1) as (B1 & B2 & B3); [lia|]. destruct (merge_ok s2 s3) as (C1 & C2 & C3); [lia|].
      destruct (merge_ok (map2 wadd s0 s1) (map2 wadd s2 s3)) as (D1 & D2 & D3); [lia|]. repeat split; [lia|assumption|].
      eapply cg_trans; [exact D3|]. rewrite !zsum_cons. change (zsum []) with 0%Z.
      replace (zsum s0 + (zsum s1 + (zsum s2 + (zsum s3 + 0))))%Z with ((zsum s0 + zsum s1) + (zsum s2 + zsum s3))%Z by ring.
      now apply cg_add.
  Qed.

  Context (x y : bitslice) (vx : valid (unsigned nb) x) (vy : valid (unsigned nb) y) (E : bs_len x = bs_len y).
  Let X := elements (unsigned nb) x.
  Let Y := elements (unsigned nb) y.
  Let P := prefix (term l2) X Y.
  Let q := 8 / nb.
  Lemma term00 : term l2 0 0 = 0%Z. Proof. now destruct l2. Qed.
  Lemma q_pos : 0 < q. Proof. apply (divides8_eq nb nb_div). Qed.
  Lemma per_q : 32 / m_bits c = 4 * q. Proof. apply per_eq. exact nb_div. Qed.
  Lemma sm_load_ok off n accs : (off + n) * q <= bs_len x -> n <= 4 * m_lanes c -> good accs -> cg (all accs) (P (off * q)) ->
    exists accs', sm_load c l2 x y off n accs = Some accs' /\ good accs' /\ cg (all accs') (P ((off + n) * q)).
  Proof.
    intros H HN G C.
    destruct (window nb x off n nb_div vx H) as [WX1 WX2].
    destruct (window nb y off n nb_div vy) as [WY1 WY2]; [rewrite <- E; exact H|].
    fold X in WX2. fold Y in WY2. fold q in WX2, WY2.
    unfold sm_load. cbv zeta. rewrite !load_ok by lia. cbn [bind].
    set (bx := firstn n (skipn off (bs_data x))) in *. set (by_ := firstn n (skipn off (bs_data y))) in *.
    assert (length bx = n) as LX by (unfold bx; rewrite firstn_length, skipn_length; lia).
    assert (length by_ = n) as LY by (unfold by_; rewrite firstn_length, skipn_length; lia).
    assert (Forall byte_ok bx) as FX by (apply bytes_window; apply vx).
    assert (Forall byte_ok by_) as FY by (apply bytes_window; apply vy).
    eexists. split; [reflexivity|].
    destruct (step_ok (u32s (m_lanes c) (bx ++ repeat 0%N (4 * m_lanes c - n))) (u32s (m_lanes c) (by_ ++ repeat 0%N (4 * m_lanes c - n))) accs)
      as [G' C']; [apply u32s_length|apply u32s_length|assumption|].
    split; [assumption|]. eapply cg_trans; [exact C'|].
    destruct ok as (M & PL & NB & PR & _).
    rewrite (map2_ext _ (fun wx wy => sumn (fun k => term l2 (code nb wx k) (code nb wy k)) (seq 0 (32 / nb)))).
    2: { intros u v. rewrite word_places; [apply PR|assumption|assumption|lia]. }
    rewrite u32s_sum; [|exact nb_div|rewrite app_length, repeat_length; lia|rewrite app_length, repeat_length; lia
                       |apply Forall_app; split; [assumption|apply zeros_ok]|apply Forall_app; split; [assumption|apply zeros_ok]].
    rewrite codes_padded; [|apply term00|rewrite !codes_length; congruence].
    rewrite <- WX2, <- WY2. unfold P. rewrite Nat.mul_add_distr_r.
    rewrite prefix_step; [apply cg_add; [exact C|apply cg_refl]| |].
    - unfold X, Y. rewrite !elements_length. exact E.
    - unfold X. rewrite elements_length. lia.
  Qed.

  Lemma sm_loop_ok blocks : blocks * (4 * q) < bs_len x + 4 * q -> forall fuel i accs, blocks <= fuel + i -> 1 <= fuel -> i < blocks ->
    good accs -> cg (all accs) (P (4 * i * q)) ->
    exists i' accs', sm_loop c l2 fuel x y blocks i accs = Some (i', accs') /\ good accs' /\ cg (all accs') (P (4 * i' * q)) /\
      i' < blocks /\ blocks <= i' + m_lanes c.
  Proof.
    intros HB. pose proof q_pos as QP. assert (8 <= m_lanes c) as HL by (destruct ok as (_ & _ & _ & _ & [->| ->] & _); lia).
    induction fuel as [|fuel IH]; intros i accs F1 F2 I G C; [lia|]. cbn [sm_loop].
    destruct (Nat.ltb_spec (i + m_lanes c) blocks) as [L|L].
    - destruct (sm_load_ok (4 * i) (4 * m_lanes c) accs) as (accs' & -> & G' & C'); [nia|lia|assumption|assumption|]. cbn [bind].
      apply IH; [lia|lia|lia|assumption|]. replace (4 * (i + m_lanes c)) with (4 * i + 4 * m_lanes c) by lia. exact C'.
    - exists i, accs. repeat split; try assumption; lia || apply G.
  Qed.
  Lemma good0 : good (repeat (repeat 0%Z (m_lanes c)) (m_accs c)) /\ all (repeat (repeat 0%Z (m_lanes c)) (m_accs c)) = 0%Z.
  Proof.
    split.
    - split; [apply repeat_length|]. apply Forall_forall. intros a H. apply repeat_spec in H as ->. split; [apply repeat_length|].
      apply Forall_forall. intros v H. apply repeat_spec in H as ->. apply rng0.
    - unfold all. induction (m_accs c) as [|n IH]; [reflexivity|]. cbn [repeat map]. now rewrite zsum_cons, IH, zsum_zero.
  Qed.
  Context (B : (ztotal (term l2) X Y < 2 ^ 31)%Z).
  Lemma P_all : P (bs_len x) = ztotal (term l2) X Y.
  Proof. unfold P. rewrite <- (prefix_all (term l2) X Y) by (unfold X, Y; rewrite !elements_length; exact E). unfold X at 3. now rewrite elements_length. Qed.
  Lemma P_le n m : n <= m <= bs_len x -> (0 <= P n <= P m)%Z.
  Proof. exact (pre_le Dense nb nb x y E l2 n m). Qed.
  Lemma P_rng n : n <= bs_len x -> (0 <= P n < 2 ^ 32)%Z.
  Proof. intros H. pose proof (P_le n (bs_len x)). rewrite P_all in *. lia. Qed.
  Lemma sm_main_ok : exists i, sm_main c l2 x y (bs_len x) = Some (i, P i) /\ i <= bs_len x /\ (m_bytes c = true -> bs_len x - i <= m_cap c).
  Proof.
    pose proof q_pos as QP. unfold sm_main. cbv zeta. rewrite per_q. fold nb q. set (len := bs_len x) in *.
    set (blocks := if m_bytes c then div_round_up len (4 * q) else len / (4 * q)).
    assert (blocks * (4 * q) < len + 4 * q /\ (m_bytes c = true -> len <= blocks * (4 * q)) /\ (m_bytes c = false -> blocks * (4 * q) <= len)) as (B1 & B2 & B3).
    { unfold blocks, div_round_up. pose proof (Nat.div_mod_eq len (4 * q)) as DM. pose proof (Nat.mod_upper_bound len (4 * q)) as MB.
      destruct (m_bytes c); [destruct (Nat.eqb_spec (len mod (4 * q)) 0)|]; repeat split; intros; try discriminate; nia. }
    assert (P 0 = 0%Z) as P0 by reflexivity.
    destruct (Nat.ltb_spec 0 blocks) as [BP|BP].
    - destruct good0 as [G0 A0].
      destruct (sm_loop_ok blocks B1 (S blocks) 0 _ ltac:(lia) ltac:(lia) BP G0) as (i & accs & -> & G & C & I1 & I2).
      { rewrite A0. apply cg_refl. }
      cbn [bind].
      assert (forall accs' n, good accs' -> cg (all accs') (P n) -> n <= len -> reduce_u32 (sm_merge accs') = P n) as RED.
      { intros accs' n G' C' N. destruct (sm_merge_ok accs' G') as (M1 & M2 & M3).
        destruct (lanes_pow (m_lanes c)) as [k HK]; [apply ok|]. apply (reduce_ok k); [congruence|assumption| |now apply P_rng].
        eapply cg_trans; eassumption. }
      destruct (m_bytes c) eqn:MB.
      + specialize (B2 eq_refl). pose proof (Nat.div_mod_eq len q) as DM. pose proof (Nat.mod_upper_bound len q) as UB.
        assert (4 * i <= len / q) as LI by nia.
        destruct (Nat.ltb_spec (len / q) (4 * i)); [lia|].
        destruct (sm_load_ok (4 * i) (len / q - 4 * i) accs) as (accs' & -> & G' & C'); [fold len; nia|nia|assumption|assumption|]. cbn [bind].
        exists ((4 * i + (len / q - 4 * i)) * q). rewrite (RED _ _ G' C') by nia. split; [reflexivity|]. split; [nia|].
        intros _. assert (q - 1 <= m_cap c) by (unfold q, nb; apply ok; exact MB). nia.
      + specialize (B3 eq_refl).
        destruct (sm_load_ok (4 * i) (4 * (blocks - i)) accs) as (accs' & -> & G' & C'); [fold len; nia|lia|assumption|assumption|]. cbn [bind].
        replace ((4 * i + 4 * (blocks - i)) * q) with ((i + (blocks - i)) * (4 * q)) in C' by nia.
        exists ((i + (blocks - i)) * (4 * q)). rewrite (RED _ _ G' C') by nia. split; [reflexivity|]. split; [nia|discriminate].
    - exists 0. rewrite P0. split; [reflexivity|]. split; [lia|]. intros MB. specialize (B2 MB). nia.
  Qed.
  Lemma sm_dist_ok : sm_dist c l2 x y = Some (ztotal (term l2) X Y).
  Proof.
    unfold sm_dist. cbv zeta. destruct sm_main_ok as (i & -> & I & CAP). cbn [bind]. rewrite <- P_all.
    destruct (Nat.eqb_spec i (bs_len x)) as [->|NE]; [reflexivity|].
    destruct (m_bytes c).
    - destruct (Nat.ltb_spec (bs_len x) i); [lia|]. rewrite Nat.min_l by auto.
      pose proof (scalar_fold Dense nb nb x y nb_conf nb_conf vx vy E l2 (2 ^ 32) i (bs_len x - i) (P i)) as Q.
      unfold add_u32. fold nb. rewrite Q.
      + replace (i + (bs_len x - i)) with (bs_len x) by lia. fold (unsigned nb). fold X Y. unfold P. f_equal. ring.
      + lia.
      + replace (i + (bs_len x - i)) with (bs_len x) by lia. fold (unsigned nb). fold X Y. fold P. pose proof (P_rng (bs_len x)). lia.
    - fold nb. pose proof (P_le i (bs_len x)). rewrite P_all in *.
      rewrite (scalar_from_ok l2 nb nb x y i nb_conf nb_conf vx vy E I) by (fold X Y; fold P; lia).
      cbn [bind]. fold X Y. fold P. unfold add_u32. destruct (Z.ltb_spec (P i + (ztotal (term l2) X Y - P i)) (2 ^ 32)); [f_equal; ring|lia].
  Qed.
End Kernel.
