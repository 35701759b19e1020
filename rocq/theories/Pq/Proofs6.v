(** Product quantization in exact arithmetic. *)
From Coq Require Import List PeanoNat Bool Lia Arith Ring Ring_theory.
From Verif.Lib Require Import Lists.
From Verif.Simd Require Import Model Spec Proofs Proofs2.
From Verif.Pq Require Import Model Spec Proofs Proofs2 Proofs3 Proofs4 Proofs5.
Import ListNotations.

Lemma for_range_inv {X} (P : nat -> X -> Prop) n (f : nat -> X -> option X) st : P 0 st ->
  (forall i s, i < n -> P i s -> exists s', f i s = Some s' /\ P (S i) s') -> exists s, for_range n f st = Some s /\ P n s.
Proof.
  intros P0 H. induction n as [|n IH]; [exists st; now split|]. destruct IH as (s & E & Ps); [intros; apply H; [lia|assumption]|].
  rewrite for_range_S, E. cbn [bind]. apply H; [lia|assumption].
Qed.
(** An exact arithmetic with arbitrary special values. *)
Definition bare {T} (e : fops T) : xops T := mkX e (zero e) (zero e) (zero e) (zero e) (fun _ => true) (fun _ => false).

Section Exact.
  Context {T : Type} (e : fops T) (ex : exact e).
  Let rt := ex_ring e ex.
  Add Ring TR : rt.
  Notation "0" := (zero e). Notation "a + b" := (add e a b). Notation "a * b" := (mul e a b). Notation "a - b" := (sub e a b).
  Definition sq (l : list T) : T := total e (mul e) l l.
  Lemma total_app f (a b c d : list T) : length a = length c -> total e f (a ++ b) (c ++ d) = total e f a c + total e f b d.
  Proof. revert c. induction a as [|u a IH]; intros [|w c] H; try discriminate; cbn [app total]; [ring|]. rewrite IH by (injection H; auto). ring. Qed.
  Lemma sq_app a b : sq (a ++ b) = sq a + sq b.
  Proof. now apply total_app. Qed.
  Lemma sq_step v off w : load8 v off = Some w -> length w = 8 /\ sq (firstn (off + 8) v) = sq (firstn off v) + sq w.
  Proof.
    intros H. apply slice_inv in H as (A & B & ->). replace (off + 8 - off)%nat with 8 by lia. split; [rewrite firstn_length, skipn_length; lia|].
    rewrite <- sq_app. f_equal. rewrite <- (firstn_skipn off (firstn (off + 8) v)). f_equal; [now rewrite firstn_firstn, Nat.min_l by lia|].
    rewrite skipn_firstn_comm. f_equal. lia.
  Qed.
  Lemma vfma_sum w s : length w = 8 -> length s = 8 -> length (vfma (bare e) w w s) = 8 /\ lsum e (vfma (bare e) w w s) = lsum e s + sq w.
  Proof.
    intros L1 L2. unfold vfma, sq. cbn [fo bare]. split; [now apply map3_length|].
    rewrite (lsum_map3 e ex (mul e)); [now rewrite <- total_tot|intros; rewrite (ex_fma e ex); ring|lia..].
  Qed.
  Lemma vadd_sum a b : length a = 8 -> length b = 8 -> length (vadd (bare e) a b) = 8 /\ lsum e (vadd (bare e) a b) = lsum e a + lsum e b.
  Proof. intros L1 L2. unfold vadd. cbn [fo bare]. split; [now apply map2_length|apply lsum_map2; [assumption|lia]]. Qed.
  Lemma square_norm_exact v : square_norm (bare e) v = Some (sq v).
  Proof.
    unfold square_norm. cbn [fo bare]. cbv zeta. set (len := length v).
    pose proof (Nat.div_mod len 32 ltac:(lia)) as D1. pose proof (Nat.mod_upper_bound len 32 ltac:(lia)) as B1.
    pose proof (Nat.div_mod (len - 32 * (len / 32)) 8 ltac:(lia)) as D2. pose proof (Nat.mod_upper_bound (len - 32 * (len / 32)) 8 ltac:(lia)) as B2.
    set (n32 := len / 32) in *. set (n8 := (len - 32 * n32) / 8) in *.
    assert (Z8 : length (splat 0) = 8 /\ lsum e (splat 0) = 0) by (split; [reflexivity|apply (lsum_zero e ex 8)]).
    destruct (for_range_inv (fun i '(s0, s1, s2, s3) => length s0 = 8 /\ length s1 = 8 /\ length s2 = 8 /\ length s3 = 8 /\
      (lsum e s0 + lsum e s1) + (lsum e s2 + lsum e s3) = sq (firstn (32 * i) v)) n32 (fun i '(s0, s1, s2, s3) =>
      do v0 <- load8 v (32 * i); do v1 <- load8 v (32 * i + 8);
      do v2 <- load8 v (32 * i + 16); do v3 <- load8 v (32 * i + 24);
      Some (vfma (bare e) v0 v0 s0, vfma (bare e) v1 v1 s1, vfma (bare e) v2 v2 s2, vfma (bare e) v3 v3 s3)) (splat 0, splat 0, splat 0, splat 0))
      as ([[[s0 s1] s2] s3] & -> & I1 & I2 & I3 & I4 & I5).
    { destruct Z8 as [Z1 Z2]. rewrite !Z2. repeat split. unfold sq. cbn. ring. }
    { intros i [[[s0 s1] s2] s3] Hi (I1 & I2 & I3 & I4 & I5).
      destruct (load8_some v (32 * i)) as [w0 E0]; [fold len; lia|]. destruct (load8_some v (32 * i + 8)) as [w1 E1]; [fold len; lia|].
      destruct (load8_some v (32 * i + 16)) as [w2 E2]; [fold len; lia|]. destruct (load8_some v (32 * i + 24)) as [w3 E3]; [fold len; lia|].
      rewrite E0, E1, E2, E3. cbn [bind]. eexists. split; [reflexivity|].
      apply sq_step in E0 as [F0 G0], E1 as [F1 G1], E2 as [F2 G2], E3 as [F3 G3].
      destruct (vfma_sum w0 s0 F0 I1) as [H0 ->], (vfma_sum w1 s1 F1 I2) as [H1 ->], (vfma_sum w2 s2 F2 I3) as [H2 ->], (vfma_sum w3 s3 F3 I4) as [H3 ->].
      repeat (split; [assumption|]). replace (32 * S i)%nat with (32 * i + 24 + 8)%nat by lia. rewrite G3.
      replace (32 * i + 24)%nat with (32 * i + 16 + 8)%nat by lia. rewrite G2.
      replace (32 * i + 16)%nat with (32 * i + 8 + 8)%nat by lia. rewrite G1, G0, <- I5. ring. }
    cbn [bind].
    set (s := if n32 =? 0 then splat 0 else vadd (bare e) (vadd (bare e) s0 s1) (vadd (bare e) s2 s3)).
    assert (Ps : length s = 8 /\ lsum e s = sq (firstn (32 * n32) v)).
    { unfold s. destruct (Nat.eqb_spec n32 0) as [->|]; [exact Z8|].
      destruct (vadd_sum s0 s1 I1 I2) as [J1 K1], (vadd_sum s2 s3 I3 I4) as [J2 K2]. destruct (vadd_sum _ _ J1 J2) as [J3 K3].
      split; [exact J3|]. now rewrite K3, K1, K2. }
    destruct (for_range_inv (fun i s => length s = 8 /\ lsum e s = sq (firstn (32 * n32 + 8 * i) v)) n8
      (fun i s => do w <- load8 v (32 * n32 + 8 * i); Some (vfma (bare e) w w s)) s) as (s' & -> & L' & S').
    { now rewrite Nat.mul_0_r, Nat.add_0_r. }
    { intros i u Hi (J1 & J2). destruct (load8_some v (32 * n32 + 8 * i)) as [w E]; [fold len; lia|]. rewrite E. cbn [bind]. eexists. split; [reflexivity|].
      apply sq_step in E as [E1 E2]. destruct (vfma_sum w u E1 J1) as [-> ->]. split; [reflexivity|].
      replace (32 * n32 + 8 * S i)%nat with (32 * n32 + 8 * i + 8)%nat by lia. now rewrite E2, J2. }
    cbn [bind]. set (i := (32 * n32 + 8 * n8)%nat) in *.
    assert (i <= len /\ len - i < 8)%nat as [I6 I7] by (unfold i; lia).
    destruct (Nat.eqb_spec (len - i) 0) as [Z|NZ]; cbn [negb bind].
    - rewrite (sum_tree_ok e ex s' 3) by exact L'. rewrite S'. do 2 f_equal. apply firstn_all2. fold len. lia.
    - unfold load8_first. rewrite slice_eq by (fold len; lia). cbn [bind]. replace (i + (len - i) - i)%nat with (len - i)%nat by lia.
      rewrite firstn_all2 by (rewrite skipn_length; fold len; lia). cbn [fo bare].
      assert (LP : length (skipn i v) = (len - i)%nat) by apply skipn_length.
      assert (P8 : length (pad 0 8 (skipn i v)) = 8) by (apply pad_length; lia).
      destruct (vfma_sum (pad 0 8 (skipn i v)) s' P8 L') as [K1 K2].
      rewrite (sum_tree_ok e ex _ 3) by exact K1. rewrite K2, S'. f_equal.
      assert (SP : sq (pad 0 8 (skipn i v)) = sq (skipn i v)).
      { unfold sq. rewrite !total_tot. apply (tot_pad e ex 0 0); [ring|lia|reflexivity]. }
      rewrite SP, <- sq_app. now rewrite firstn_skipn.
  Qed.
  Lemma along_from k (q : list T) : forall y acc, fold_left (fun acc p => kone e k (fst p) (snd p) acc) (List.combine q y) acc =
    acc + match k with KL2 => true_l2 e q y | KIP => neg e (true_ip e q y) | KMath => true_ip e q y end.
  Proof.
    induction q as [|a q IH]; intros [|b y] acc; cbn [List.combine fold_left fst snd]; unfold true_l2, true_ip; cbn [total];
      try (destruct k; ring). rewrite IH. destruct k; cbn [kone]; rewrite (ex_fma e ex); unfold true_l2, true_ip; ring.
  Qed.
  Lemma along_exact k q y : along e k q y = match k with KL2 => true_l2 e q y | KIP => neg e (true_ip e q y) | KMath => true_ip e q y end.
  Proof. unfold along. rewrite along_from. destruct k; ring. Qed.
  Lemma expand q : forall y, length q = length y -> true_l2 e q y = sq q + (sq y - (true_ip e q y + true_ip e q y)).
  Proof.
    unfold true_l2, true_ip, sq. induction q as [|a q IH]; intros [|b y] H; try discriminate; cbn [total]; [ring|].
    rewrite IH by (injection H; auto). ring.
  Qed.
End Exact.

(** ** The embedding *)
Lemma map_repeat {A B} (f : A -> B) a n : map f (repeat a n) = repeat (f a) n.
Proof. induction n as [|n IH]; cbn; [reflexivity|now rewrite IH]. Qed.
Section Embed.
  Context {T F : Type} (e : fops T) (x : xops F) (h : T -> F) (em : embeds e x h).
  Lemma map3_h f g a : (forall u v w, h (f u v w) = g (h u) (h v) (h w)) -> forall b c, map3 g (map h a) (map h b) (map h c) = map h (map3 f a b c).
  Proof. intros G. induction a as [|u a IH]; intros [|v b] [|w c]; cbn [map map3]; try reflexivity. now rewrite G, IH. Qed.
  Lemma map2_h f g a : (forall u v, h (f u v) = g (h u) (h v)) -> forall b, map2 g (map h a) (map h b) = map h (map2 f a b).
  Proof. intros G. induction a as [|u a IH]; intros [|v b]; cbn [map map2]; try reflexivity. now rewrite G, IH. Qed.
  Lemma slice_h a b l : slice a b (map h l) = option_map (map h) (slice a b l).
  Proof. unfold slice. rewrite map_length. destruct (_ && _); [|reflexivity]. cbn. now rewrite skipn_map', firstn_map. Qed.
  Lemma tree_h n : forall l, sum_tree_ (add (fo x)) (zero (fo x)) n (map h l) = h (sum_tree_ (add e) (zero e) n l).
  Proof.
    induction n as [|n IH]; intros l; cbn [sum_tree_].
    - destruct l; cbn; [symmetry; apply (e_zero _ _ _ em)|reflexivity].
    - rewrite map_length, skipn_map', firstn_map, (map2_h (add e)) by apply (e_add _ _ _ em). apply IH.
  Qed.
  Lemma vfma_h a b c : vfma x (map h a) (map h b) (map h c) = map h (vfma (bare e) a b c).
  Proof. apply map3_h, (e_fma _ _ _ em). Qed.
  Lemma vadd_h a b : vadd x (map h a) (map h b) = map h (vadd (bare e) a b).
  Proof. apply map2_h, (e_add _ _ _ em). Qed.
  Lemma range_h {X Y} (k : X -> Y) n f g : (forall i s, g i (k s) = option_map k (f i s)) -> forall s, for_range n g (k s) = option_map k (for_range n f s).
  Proof.
    intros G s. induction n as [|n IH]; [reflexivity|]. rewrite !for_range_S, IH. destruct (for_range n f s); cbn [option_map bind]; [apply G|reflexivity].
  Qed.
  Lemma square_norm_h v : square_norm x (map h v) = option_map h (square_norm (bare e) v).
  Proof.
    unfold square_norm. cbv zeta. rewrite map_length. set (n32 := length v / 32). set (n8 := (length v - 32 * n32) / 8).
    assert (SP : splat (zero (fo x)) = map h (splat (zero e))) by (unfold splat; rewrite map_repeat; now rewrite (e_zero _ _ _ em)).
    rewrite SP. cbn [fo bare].
    set (k4 := fun s : list T * list T * list T * list T => let '(a, b, c, d) := s in (map h a, map h b, map h c, map h d)).
    change (map h (splat (zero e)), map h (splat (zero e)), map h (splat (zero e)), map h (splat (zero e))) with (k4 (splat (zero e), splat (zero e), splat (zero e), splat (zero e))).
    erewrite (range_h k4).
    2:{ intros i [[[s0 s1] s2] s3]. unfold k4. unfold load8. rewrite !slice_h.
        instantiate (1 := fun i '(s0, s1, s2, s3) => do v0 <- load8 v (32 * i); do v1 <- load8 v (32 * i + 8);
          do v2 <- load8 v (32 * i + 16); do v3 <- load8 v (32 * i + 24);
          Some (vfma (bare e) v0 v0 s0, vfma (bare e) v1 v1 s1, vfma (bare e) v2 v2 s2, vfma (bare e) v3 v3 s3)). unfold load8.
        destruct (slice (32 * i) _ v); cbn [option_map bind]; [|reflexivity]. destruct (slice (32 * i + 8) _ v); cbn [option_map bind]; [|reflexivity].
        destruct (slice (32 * i + 16) _ v); cbn [option_map bind]; [|reflexivity]. destruct (slice (32 * i + 24) _ v); cbn [option_map bind]; [|reflexivity].
        now rewrite !vfma_h. }
    match goal with |- context [option_map k4 ?r] => destruct r as [[[[s0 s1] s2] s3]|] end; cbn [option_map bind k4]; [|reflexivity].
    assert (SE : (if n32 =? 0 then map h (splat (zero e)) else vadd x (vadd x (map h s0) (map h s1)) (vadd x (map h s2) (map h s3))) =
      map h (if n32 =? 0 then splat (zero e) else vadd (bare e) (vadd (bare e) s0 s1) (vadd (bare e) s2 s3))) by (destruct (n32 =? 0); [reflexivity|now rewrite !vadd_h]).
    rewrite SE. set (s := if n32 =? 0 then _ else vadd (bare e) _ _).
    erewrite (range_h (map h)).
    2:{ intros i u. unfold load8. rewrite slice_h.
        instantiate (1 := fun i u => do w <- load8 v (32 * n32 + 8 * i); Some (vfma (bare e) w w u)). unfold load8.
        destruct (slice _ _ v); cbn [option_map bind]; [|reflexivity]. now rewrite vfma_h. }
    match goal with |- context [option_map (map h) ?r] => destruct r as [u|] end; cbn [option_map bind]; [|reflexivity].
    set (i := 32 * n32 + 8 * n8). destruct (negb (length v - i =? 0)); cbn [bind].
    - unfold load8_first. rewrite slice_h. destruct (slice i _ v) as [w|]; cbn [option_map bind]; [|reflexivity]. f_equal. cbn [fo bare].
      assert (PD : pad (zero (fo x)) 8 (map h w) = map h (pad (zero e) 8 w)) by (unfold pad; now rewrite firstn_map, map_length, map_app, map_repeat, (e_zero _ _ _ em)).
      rewrite PD, vfma_h. unfold sum_tree. rewrite map_length. apply tree_h.
    - cbn [option_map]. f_equal. unfold sum_tree. rewrite map_length. apply tree_h.
  Qed.
  Lemma along_h k q y : along (fo x) k (map h q) (map h y) = h (along e k q y).
  Proof.
    unfold along. rewrite <- (e_zero _ _ _ em). generalize (zero e). revert y.
    induction q as [|a q IH]; intros [|b y] acc; cbn [map List.combine fold_left fst snd]; try reflexivity.
    rewrite <- IH. f_equal. destruct k; cbn [kone]; now rewrite (e_fma _ _ _ em), ?(e_sub _ _ _ em), ?(e_neg _ _ _ em).
  Qed.
  (** The norm and the proxy of embedded vectors. *)
  Lemma norm_embedded y : square_norm x (map h y) = Some (h (sq e y)).
  Proof. rewrite square_norm_h, (square_norm_exact e (e_exact _ _ _ em)). reflexivity. Qed.
  Lemma proxy_embedded q y : proxy (fo x) (h (sq e y)) (map h q) (map h y) = h (sub e (sq e y) (add e (true_ip e q y) (true_ip e q y))).
  Proof. unfold proxy. cbv zeta. now rewrite along_h, (along_exact e (e_exact _ _ _ em)), <- (e_add _ _ _ em), <- (e_sub _ _ _ em). Qed.
  Lemma proxy_order q y z : length q = length y -> length q = length z ->
    lt (fo x) (proxy (fo x) (h (sq e y)) (map h q) (map h y)) (proxy (fo x) (h (sq e z)) (map h q) (map h z)) = lt e (true_l2 e q y) (true_l2 e q z).
  Proof.
    intros H1 H2. rewrite !proxy_embedded, (e_lt _ _ _ em), !(expand e (e_exact _ _ _ em)) by assumption. symmetry. apply (e_shift _ _ _ em).
  Qed.
  Lemma number_h (ord : ordered x) a : number x (h a).
  Proof. intros b c H. apply (o_cotrans x ord b (h a) c (fbig x)); [apply (e_big _ _ _ em)|exact H]. Qed.
End Embed.
