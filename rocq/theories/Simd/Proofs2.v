(** The floating-point kernels in exact arithmetic. *)
From Coq Require Import List ZArith PeanoNat Bool Lia Ring Ring_theory.
From Verif.Lib Require Import Lists.
From Verif.Simd Require Import Model Spec Proofs.
Import ListNotations.

Lemma map3_length {X Y Z W} (f : X -> Y -> Z -> W) a : forall b c n,
  length a = n -> length b = n -> length c = n -> length (map3 f a b c) = n.
Proof.
  induction a as [|x a IH]; intros [|y b] [|z c] n; cbn [map3 length]; try lia. intros. 
  destruct n; [lia|]. f_equal. apply IH; lia.
Qed.
Lemma map2_length {X Y Z} (f : X -> Y -> Z) a : forall b n,
  length a = n -> length b = n -> length (map2 f a b) = n.
Proof.
  induction a as [|x a IH]; intros [|y b] n; cbn [map2 length]; try lia. intros. destruct n; [lia|]. f_equal. apply IH; lia.
Qed.
Lemma pad_length {X} (z : X) n l : length l <= n -> length (pad z n l) = n.
Proof. intros H. unfold pad. rewrite app_length, firstn_length, repeat_length. lia. Qed.
Lemma capped_id {X} cap w (l : list X) : length l < w -> capped cap w l = l.
Proof. intros H. unfold capped. destruct cap; [apply firstn_all2; lia|reflexivity]. Qed.

Section Exact.
  Context {F : Type} (o : fops F) (ex : exact o).
  Let rt := ex_ring o ex.
  Add Ring FR : rt.
  Notation "0" := (zero o). Notation "a + b" := (add o a b). Notation "a * b" := (mul o a b).

  Definition lsum (l : list F) : F := fold_right (add o) 0 l.
  Lemma lsum_zero n : lsum (repeat 0 n) = 0.
  Proof. induction n as [|n IH]; cbn [repeat lsum fold_right]; [reflexivity|]. fold (lsum (repeat 0 n)). rewrite IH. ring. Qed.
  Lemma lsum_map2 a : forall b, length a = length b -> lsum (map2 (add o) a b) = lsum a + lsum b.
  Proof.
    induction a as [|x a IH]; intros [|y b] H; try discriminate; cbn [map2 lsum fold_right]; [ring|].
    fold (lsum (map2 (add o) a b)) (lsum a) (lsum b). rewrite IH by (injection H; auto). ring.
  Qed.
  Lemma lsum_app a b : lsum (a ++ b) = lsum a + lsum b.
  Proof.
    induction a as [|x a IH]; cbn [app lsum fold_right]; [unfold lsum; cbn; ring|].
    fold (lsum (a ++ b)) (lsum a). rewrite IH. ring.
  Qed.
  Lemma sum_tree_lsum n : forall l, length l = 2 ^ n -> sum_tree_ (add o) 0 n l = lsum l.
  Proof.
    induction n as [|n IH]; intros l H; cbn [sum_tree_].
    - destruct l as [|a [|b l]]; cbn in *; try lia. ring.
    - rewrite H. replace (2 ^ S n / 2) with (2 ^ n)%nat
        by (rewrite Nat.pow_succ_r', Nat.mul_comm, Nat.div_mul; lia).
      rewrite Nat.pow_succ_r' in H.
      rewrite IH by (apply map2_length; [rewrite firstn_length|rewrite skipn_length]; lia).
      rewrite lsum_map2 by (rewrite firstn_length, skipn_length; lia). rewrite <- lsum_app. now rewrite firstn_skipn.
  Qed.
  Lemma sum_tree_ok l n : length l = 2 ^ n -> sum_tree (add o) 0 l = lsum l.
  Proof. intros H. unfold sum_tree. rewrite H, Nat.log2_pow2 by lia. now apply sum_tree_lsum. Qed.
  Lemma lane0_sum w v : lsum (lane0 o w v) = v.
  Proof. unfold lane0. cbn [lsum fold_right]. fold (lsum (repeat 0 (w - 1))). rewrite lsum_zero. ring. Qed.
  Lemma lane0_length w v : (0 < w)%nat -> length (lane0 o w v) = w.
  Proof. intros H. unfold lane0. cbn [length]. rewrite repeat_length. lia. Qed.
  Lemma mac_ok st x y a : mac o st x y a = a + x * y.
  Proof. destruct st; cbn [mac]; rewrite ?(ex_fma o ex); ring. Qed.

  Section Elements.
    Context {L R : Type} (cl : L -> F) (cr : R -> F) (zl : L) (zr : R).
    Context (hl : cl zl = 0) (hr : cr zr = 0).
    Notation gtot f := (tot (zero o) (add o) f).

    Lemma total_tot f (x : list L) : forall (y : list R), total o f x y = gtot f x y.
    Proof. induction x as [|a x IH]; intros [|b y]; cbn; congruence. Qed.
    Lemma lsum_map3 (f : L -> R -> F) g xs : (forall a b c, g a b c = c + f a b) -> forall ys acc,
      length xs = length acc -> length ys = length acc -> lsum (map3 g xs ys acc) = lsum acc + gtot f xs ys.
    Proof.
      intros G. induction xs as [|x xs IH]; intros [|y ys] [|a acc] H1 H2; try discriminate; cbn [map3 lsum fold_right tot]; [ring|].
      fold (lsum (map3 g xs ys acc)) (lsum acc). rewrite IH by (injection H1; injection H2; auto). rewrite G. ring.
    Qed.
    Lemma tot_zero f n m : f zl zr = 0 -> gtot f (repeat zl n) (repeat zr m) = 0.
    Proof.
      intros H. revert m. induction n as [|n IH]; intros [|m]; cbn [repeat tot]; try reflexivity. rewrite H, IH. ring.
    Qed.
    Lemma tot_pad f w xs ys : f zl zr = 0 -> length xs <= w -> length ys = length xs ->
      gtot f (pad zl w xs) (pad zr w ys) = gtot f xs ys.
    Proof.
      intros H B E. unfold pad. rewrite !firstn_all2 by lia.
      rewrite (tot_app (zero o) (one o) (add o) (mul o) (sub o) (neg o) rt) by lia.
      rewrite tot_zero by assumption. ring.
    Qed.
    Lemma scalar_loop_ok (f : L -> R -> F) g xs : (forall a b c, g a b c = c + f a b) -> forall ys s, length xs = length ys ->
      scalar_loop g xs ys s = s + gtot f xs ys.
    Proof.
      intros G. unfold scalar_loop. induction xs as [|x xs IH]; intros [|y ys] s H; try discriminate; cbn [List.combine fold_left tot]; [ring|].
      rewrite IH by (injection H; auto). cbn [fst snd]. rewrite G. ring.
    Qed.
    Lemma lane_loop_ok (f : L -> R -> F) g w xs : (0 < w)%nat -> f zl zr = 0 -> (forall a b c, g a b c = c + f a b) -> forall ys acc, length xs = length ys ->
      length acc = w ->
      let r := scalar_loop (fun x y r => map3 g (x :: repeat zl (w - 1)) (y :: repeat zr (w - 1)) r) xs ys acc in
      length r = w /\ lsum r = lsum acc + gtot f xs ys.
    Proof.
      intros W H0 G. unfold scalar_loop.
      induction xs as [|x xs IH]; intros [|y ys] acc H B; try discriminate; cbn [List.combine fold_left tot]; [split; [assumption|ring]|].
      cbn [fst snd].
      destruct (IH ys (map3 g (x :: repeat zl (w - 1)) (y :: repeat zr (w - 1)) acc)) as [I1 I2];
        [injection H; auto|apply map3_length; cbn [length]; rewrite ?repeat_length; lia|].
      split; [exact I1|]. rewrite I2. rewrite (lsum_map3 f) by (assumption || (cbn [length]; rewrite repeat_length; lia)).
      cbn [tot]. rewrite tot_zero by assumption. ring.
    Qed.

    Definition lrep (w : nat) (a : list F) (p : F) : Prop := length a = w /\ lsum a = p.
    Lemma lane_ok k st a b c : lane o cl cr k st a b c = c + term o cl cr k a b.
    Proof. destruct k; cbn [lane term]; rewrite ?mac_ok; try reflexivity. destruct st; ring. Qed.
    Lemma term_zero k : term o cl cr k zl zr = 0.
    Proof. destruct k; cbn [term]; rewrite ?hl, ?hr; [ring|ring|apply (ex_abs o ex)]. Qed.
    Lemma f_schema_ok k c x y : (0 < c_width c)%nat -> length x = length y ->
      exists a, simd_acc (f_schema o cl cr zl zr k c) x y = Some a /\
        lrep (c_width c) a (total o (term o cl cr k) x y).
    Proof.
      intros W HL. rewrite total_tot. set (f := term o cl cr k).
      eapply (simd_acc_ok (zero o) (one o) (add o) (mul o) (sub o) (neg o) rt
        (f_schema o cl cr zl zr k c) f (lrep (c_width c)) (fun _ _ => True)); try assumption.
      - split; [apply repeat_length|apply lsum_zero].
      - intros a b p q [A1 A2] [B1 B2]. cbn [Model.combine f_schema]. split; [now apply map2_length|].
        rewrite lsum_map2 by congruence. congruence.
      - intros xs ys a p X Y _ [A1 A2]. cbn [accumulate f_schema width] in *. split; [now apply map3_length|].
        rewrite (lsum_map3 f) by (try (intros; apply lane_ok); congruence). congruence.
      - intros xs ys a p X Y _ [A1 A2]. cbn [epilogue f_schema width] in *. destruct (c_epi c) as [|st cap|cap].
        + split; [apply map3_length; [apply pad_length|apply pad_length|]; lia|].
          rewrite (lsum_map3 f) by (try (intros; apply lane_ok); rewrite ?pad_length; lia).
          rewrite tot_pad by (try apply term_zero; lia). congruence.
        + rewrite !capped_id by lia. split; [apply map2_length; [assumption|now apply lane0_length]|].
          rewrite lsum_map2 by (rewrite lane0_length; lia). rewrite lane0_sum.
          rewrite (scalar_loop_ok f) by (try (intros; apply lane_ok); lia). rewrite A2. ring.
        + rewrite !capped_id by lia.
          destruct (lane_loop_ok f (lane o cl cr k (c_style c)) (c_width c) xs W (term_zero k) (fun a b c' => lane_ok k _ a b c') ys (repeat 0 (c_width c)) ltac:(lia) (repeat_length _ _)) as [I1 I2].
          split; [now apply map2_length|]. rewrite lsum_map2 by lia. rewrite I2, lsum_zero, A2. ring.
      - now apply Forall2_true.
    Qed.
    Lemma kind_width k a e : exists n, c_width (kind_cfg k a e) = 2 ^ n.
    Proof. destruct k, a, e; cbn [kind_cfg c_width l2_cfg ip_cfg l1_cfg]; (now exists 0%nat) || (now exists 2%nat) || (now exists 3%nat) || (now exists 4%nat). Qed.
    Lemma f_distance_ok k a e x y : length x = length y ->
      f_distance o cl cr zl zr k a e x y = Some (total o (term o cl cr k) x y).
    Proof.
      intros HL. destruct (kind_width k a e) as [n W]. unfold f_distance, simd_op.
      destruct (f_schema_ok k (kind_cfg k a e) x y) as (acc & -> & A1 & A2); [rewrite W; apply Nat.neq_0_lt_0, Nat.pow_nonzero; lia|assumption|].
      cbn [bind reduce f_schema]. rewrite (sum_tree_ok acc n) by congruence. now rewrite A2.
    Qed.

    (** Resumable. *)
    Definition parts_total f (parts : list (list L * list R)) : F :=
      fold_right (fun p t => total o f (fst p) (snd p) + t) 0 parts.
    Lemma resume_ok k c parts : (0 < c_width c)%nat -> Forall (fun p => length (fst p) = length (snd p)) parts -> forall acc,
      length acc = c_width c ->
      exists a, resume o cl cr zl zr k c acc parts = Some a /\
        lrep (c_width c) a (lsum acc + parts_total (term o cl cr k) parts).
    Proof.
      intros W H. induction H as [|[x y] parts HL HP IH]; intros acc HA; cbn [resume].
      - exists acc. split; [reflexivity|]. split; [assumption|]. cbn. ring.
      - unfold resumable. destruct (f_schema_ok k c x y W HL) as (a & -> & A1 & A2). cbn [bind].
        destruct (IH (map2 (add o) acc a)) as (r & -> & R1 & R2); [now apply map2_length|].
        exists r. split; [reflexivity|]. split; [assumption|]. rewrite R2, lsum_map2 by congruence.
        rewrite A2. cbn [parts_total fold_right fst snd]. fold (parts_total (term o cl cr k) parts). ring.
    Qed.
    Lemma total_app (f : L -> R -> F) x1 y1 x2 y2 : length x1 = length y1 ->
      total o f (x1 ++ x2) (y1 ++ y2) = total o f x1 y1 + total o f x2 y2.
    Proof. intros H. rewrite !total_tot. now apply (tot_app (zero o) (one o) (add o) (mul o) (sub o) (neg o) rt). Qed.
    Lemma parts_total_concat f parts : Forall (fun p => length (fst p) = length (snd p)) parts ->
      parts_total f parts = total o f (concat (map fst parts)) (concat (map snd parts)).
    Proof.
      intros H. induction H as [|[x y] parts HL HP IH]; cbn [parts_total fold_right map concat fst snd]; [reflexivity|].
      fold (parts_total f parts). rewrite total_app by assumption. now rewrite IH.
    Qed.

    (** Cosine: the accumulator stands for a triple of sums. *)
    Definition F3 := (F * F * F)%type.
    Definition t_op (f : F -> F -> F) (p q : F3) : F3 :=
      let '(a, b, c) := p in let '(a', b', c') := q in (f a a', f b b', f c c').
    Definition t_neg (p : F3) : F3 := let '(a, b, c) := p in (neg o a, neg o b, neg o c).
    Ltac tri := repeat match goal with |- (_, _) = (_, _) => apply pair_equal_spec; split end; ring.
    Lemma t_ring : ring_theory (0, 0, 0) (one o, one o, one o) (t_op (add o)) (t_op (mul o)) (t_op (sub o)) t_neg eq.
    Proof. split; repeat (intros [[? ?] ?]); cbn [t_op t_neg]; tri. Qed.
    Definition cterm (a : L) (b : R) : F3 := (cl a * cl a, cr b * cr b, cl a * cr b).
    Definition csum (a : @cacc F) : F3 := let '(nx, ny, xy) := a in (lsum nx, lsum ny, lsum xy).
    Definition cw (w : nat) (a : @cacc F) : Prop :=
      let '(nx, ny, xy) := a in length nx = w /\ length ny = w /\ length xy = w.
    Notation ttot := (tot (0, 0, 0) (t_op (add o)) cterm).
    Lemma ttot_parts x : forall y, length x = length y ->
      ttot x y = (total o (fun a b => cl a * cl a) x y, total o (fun a b => cr b * cr b) x y,
                  total o (fun a b => cl a * cr b) x y).
    Proof.
      induction x as [|a x IH]; intros [|b y] H; try discriminate; cbn [tot total]; [reflexivity|].
      rewrite IH by (injection H; auto). reflexivity.
    Qed.
    Lemma cos_add_ok st w xs ys a : length xs = w -> length ys = w -> cw w a ->
      cw w (cos_add o cl cr st xs ys a) /\ csum (cos_add o cl cr st xs ys a) = t_op (add o) (csum a) (ttot xs ys).
    Proof.
      destruct a as [[nx ny] xy]. intros X Y (A & B & C). rewrite ttot_parts by congruence.
      cbn [cos_add cw csum t_op]. split; [repeat split; now apply map3_length|].
      assert (XX : forall acc X' (c : X' -> F) (l' : list X'), length l' = length acc ->
        lsum (map3 (fun x x' => mac o st (c x) (c x')) l' l' acc) = lsum acc + fold_right (fun a t => c a * c a + t) 0 l').
      { clear - rt. intros acc X' c l'. revert acc. induction l' as [|v l' IH]; intros [|u acc] H; try discriminate;
          cbn [map3 lsum fold_right]; [ring|]. fold (lsum (map3 (fun x x' => mac o st (c x) (c x')) l' l' acc)) (lsum acc).
        rewrite IH by (injection H; auto). rewrite mac_ok. ring. }
      rewrite (XX nx _ cl xs) by congruence. rewrite (XX ny _ cr ys) by congruence.
      rewrite (lsum_map3 (fun a b => cl a * cr b)) by (try (intros; apply mac_ok); congruence).
      f_equal; [f_equal|].
      - f_equal. assert (E : length xs = length ys) by congruence. clear - E. revert ys E.
        induction xs as [|x xs IH]; intros [|y ys] E; try discriminate; cbn [fold_right total]; [reflexivity|].
        f_equal. apply IH. now injection E.
      - f_equal. assert (E : length xs = length ys) by congruence. clear - E. revert ys E.
        induction xs as [|x xs IH]; intros [|y ys] E; try discriminate; cbn [fold_right total]; [reflexivity|].
        f_equal. apply IH. now injection E.
      - f_equal. symmetry. apply total_tot.
    Qed.
    Lemma cos_combine_ok w a b : cw w a -> cw w b ->
      cw w (cos_combine o a b) /\ csum (cos_combine o a b) = t_op (add o) (csum a) (csum b).
    Proof.
      destruct a as [[nx ny] xy], b as [[nx' ny'] xy']. intros (A1 & A2 & A3) (B1 & B2 & B3).
      cbn [cos_combine cw csum t_op]. split; [repeat split; now apply map2_length|]. rewrite !lsum_map2 by congruence. reflexivity.
    Qed.
    Lemma t_zero_l p : t_op (add o) (0, 0, 0) p = p.
    Proof. destruct p as [[a b] c]. cbn. tri. Qed.
    Lemma t_zero_r p : t_op (add o) p (0, 0, 0) = p.
    Proof. destruct p as [[a b] c]. cbn. tri. Qed.
    Lemma t_assoc p q r : t_op (add o) (t_op (add o) p q) r = t_op (add o) p (t_op (add o) q r).
    Proof. destruct p as [[a b] c], q as [[a' b'] c'], r as [[? ?] ?]. cbn. tri. Qed.
    Lemma ttot_zero n : forall m, ttot (repeat zl n) (repeat zr m) = (0, 0, 0).
    Proof.
      induction n as [|n IH]; intros [|m]; cbn [repeat tot]; try reflexivity. rewrite IH, t_zero_r.
      unfold cterm. rewrite hl, hr. tri.
    Qed.
    Lemma ttot_pad w xs ys : length xs <= w -> length ys = length xs ->
      ttot (pad zl w xs) (pad zr w ys) = ttot xs ys.
    Proof.
      intros B E. unfold pad. rewrite !firstn_all2 by lia.
      rewrite (tot_app _ _ _ _ _ _ t_ring) by lia. rewrite ttot_zero. apply t_zero_r.
    Qed.
    Lemma cos_scalar_ok st xs : forall ys s, length xs = length ys ->
      scalar_loop (fun x y '(xx, yy, xy) => (mac o st (cl x) (cl x) xx, mac o st (cr y) (cr y) yy, mac o st (cl x) (cr y) xy)) xs ys s
        = t_op (add o) s (ttot xs ys).
    Proof.
      unfold scalar_loop. induction xs as [|x xs IH]; intros [|y ys] s H; try discriminate; cbn [List.combine fold_left tot];
        [now rewrite t_zero_r|]. rewrite IH by (injection H; auto). rewrite <- t_assoc. f_equal.
      destruct s as [[a b] c]. cbn [fst snd t_op cterm]. rewrite !mac_ok. reflexivity.
    Qed.
    Lemma cos_lane_ok st w xs : (0 < w)%nat -> forall ys acc, length xs = length ys -> cw w acc ->
      let r := scalar_loop (fun x y r => cos_add o cl cr st (x :: repeat zl (w - 1)) (y :: repeat zr (w - 1)) r) xs ys acc in
      cw w r /\ csum r = t_op (add o) (csum acc) (ttot xs ys).
    Proof.
      intros W. unfold scalar_loop. induction xs as [|x xs IH]; intros [|y ys] acc H B; try discriminate;
        cbn [List.combine fold_left tot]; [split; [assumption|now rewrite t_zero_r]|].
      cbn [fst snd].
      destruct (cos_add_ok st w (x :: repeat zl (w - 1)) (y :: repeat zr (w - 1)) acc) as [J1 J2];
        [cbn [length]; rewrite repeat_length; lia..|assumption|].
      destruct (IH ys _ ltac:(injection H; auto) J1) as [I1 I2]. split; [exact I1|]. rewrite I2, J2. cbn [tot].
      rewrite ttot_zero, t_zero_r. apply t_assoc.
    Qed.
    Lemma cos_schema_ok c x y : (0 < c_width c)%nat -> length x = length y ->
      exists a, simd_acc (cos_schema o cl cr zl zr c) x y = Some a /\ cw (c_width c) a /\ csum a = ttot x y.
    Proof.
      intros W HL.
      apply (simd_acc_ok _ _ _ _ _ _ t_ring (cos_schema o cl cr zl zr c) cterm
        (fun a p => cw (c_width c) a /\ csum a = p) (fun _ _ => True)); try assumption.
      - cbn [init cos_schema cw csum]. rewrite repeat_length, lsum_zero. auto.
      - intros a b p q [A1 A2] [B1 B2]. cbn [Model.combine cos_schema]. subst p q. now apply cos_combine_ok.
      - intros xs ys a p X Y _ [A1 A2]. cbn [accumulate cos_schema width] in *. subst p. now apply cos_add_ok.
      - intros xs ys a p X Y _ [A1 A2]. cbn [epilogue cos_schema width] in *. subst p. destruct (c_epi c) as [|st cap|cap].
        + rewrite <- (ttot_pad (c_width c) xs ys) by lia. apply cos_add_ok; [apply pad_length; lia..|assumption].
        + rewrite !capped_id by lia. rewrite cos_scalar_ok by lia. rewrite t_zero_l.
          destruct (ttot xs ys) as [[xx yy] xy].
          replace (xx, yy, xy) with (csum (lane0 o (c_width c) xx, lane0 o (c_width c) yy, lane0 o (c_width c) xy))
            by (cbn [csum]; now rewrite !lane0_sum).
          apply cos_combine_ok; [assumption|]. cbn [cw]. now rewrite !lane0_length.
        + rewrite !capped_id by lia.
          destruct (cos_lane_ok (c_style c) (c_width c) xs W ys (repeat 0 (c_width c), repeat 0 (c_width c), repeat 0 (c_width c)))
            as [I1 I2]; [lia|cbn [cw]; now rewrite repeat_length|].
          cbn [csum] in I2. rewrite lsum_zero, t_zero_l in I2. rewrite <- I2. now apply cos_combine_ok.
      - now apply Forall2_true.
    Qed.
    Lemma cos_width a e : exists n, c_width (cos_cfg a e) = 2 ^ n.
    Proof. destruct a, e; cbn [cos_cfg c_width]; (now exists 0%nat) || (now exists 2%nat) || (now exists 3%nat) || (now exists 4%nat). Qed.
    Lemma cos_sums_ok a e x y : length x = length y ->
      cos_sums o cl cr zl zr a e x y =
        Some (total o (fun a b => cl a * cl a) x y, total o (fun a b => cr b * cr b) x y, total o (fun a b => cl a * cr b) x y).
    Proof.
      intros HL. destruct (cos_width a e) as [n W]. unfold cos_sums, simd_op.
      destruct (cos_schema_ok (cos_cfg a e) x y) as (acc & -> & A1 & A2); [rewrite W; apply Nat.neq_0_lt_0, Nat.pow_nonzero; lia|assumption|].
      cbn [bind reduce cos_schema]. rewrite ttot_parts in A2 by assumption. rewrite <- A2.
      destruct acc as [[nx ny] xy]. cbn [cw] in A1. destruct A1 as (B1 & B2 & B3). cbn [cos_parts csum].
      rewrite !(sum_tree_ok _ n) by congruence. reflexivity.
    Qed.
    Lemma cos_as_l2_ok a e x y : length x = length y ->
      cos_as_l2 o cl cr zl zr a e x y = Some (total o (term o cl cr L2) x y).
    Proof.
      intros HL. unfold cos_as_l2. rewrite cos_sums_ok by assumption. cbn [bind]. f_equal.
      revert y HL. induction x as [|u x IH]; intros [|v y] HL; try discriminate; cbn [total term]; [ring|].
      rewrite <- IH by (injection HL; auto). ring.
    Qed.
  End Elements.
End Exact.
