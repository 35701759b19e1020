(** Kernels commute with a map of the elements; sums of looked-up distances; distances of many
    points at once. *)
From Coq Require Import List PeanoNat Bool Lia Arith Ring Ring_theory.
From Verif.Lib Require Import Lists.
From Verif.Simd Require Import Model Spec Proofs Proofs2 Proofs5.
From Verif.Simd Require Props.
From Verif.Pq Require Import Model Spec Proofs Proofs2 Proofs4 Proofs5 Proofs6 Proofs7 Proofs8.
Require Verif.Work.Model.
Import ListNotations.

Lemma range_nat {X Y} (k : X -> Y) n f g : (forall i s, g i (k s) = option_map k (f i s)) -> forall s, for_range n g (k s) = option_map k (for_range n f s).
Proof.
  intros G s. induction n as [|n IH]; [reflexivity|]. rewrite !for_range_S, IH. destruct (for_range n f s); cbn [option_map bind]; [apply G|reflexivity].
Qed.

(** ** The driver *)
Section Natural.
  Context {L R A T L' R' A' T' : Type} (s : schema L R A T) (s' : schema L' R' A' T').
  Context (fl : L -> L') (fr : R -> R') (fa : A -> A').
  Context (Hw : width s' = width s) (Hl : main_loop s' = main_loop s) (Hi : init s' = fa (init s)).
  Context (Ha : forall xs ys a, accumulate s' (map fl xs) (map fr ys) (fa a) = fa (accumulate s xs ys a)).
  Context (Hc : forall a b, combine s' (fa a) (fa b) = fa (combine s a b)).
  Context (He : forall xs ys a, epilogue s' (map fl xs) (map fr ys) (fa a) = fa (epilogue s xs ys a)).
  Context (x : list L) (y : list R).
  Notation fd := (feed s x y).
  Notation fd' := (feed s' (map fl x) (map fr y)).
  Lemma feed_nat a b off : fd' (fa a) b off = option_map fa (fd a b off).
  Proof.
    unfold feed. rewrite Hw, Hl, map_length. destruct (_ <=? length x); [|reflexivity]. cbn [option_map]. f_equal.
    rewrite !skipn_map', !firstn_map. apply Ha.
  Qed.
  Definition two_ (p : A * A) : A' * A' := let '(a, b) := p in (fa a, fa b).
  Definition four (p : A * A * A * A) : A' * A' * A' * A' := let '(a, b, c, d) := p in (fa a, fa b, fa c, fa d).
  Ltac step := match goal with |- context [fd' (fa ?a) ?b ?k] => rewrite (feed_nat a b k); destruct (fd a b k); cbn [option_map bind]; [|reflexivity] end.
  Lemma main_nat trip epi : main_run s' (map fl x) (map fr y) trip epi = option_map fa (main_run s x y trip epi).
  Proof.
    unfold main_run. rewrite Hl. case (main_loop s).
    - unfold main1x1. rewrite Hi. apply range_nat. intros i a. apply feed_nat.
    - unfold main2x1. rewrite Hi. change (fa (init s), fa (init s)) with (two_ (init s, init s)).
      rewrite (range_nat two_ trip (fun i '(s0, s1) => do s0 <- fd s0 i 0; do s1 <- fd s1 i 1; Some (s0, s1))).
      2:{ intros i [a b]. cbn [two_]. repeat step. reflexivity. }
      destruct (for_range trip _ _) as [[a b]|]; cbn [option_map bind two_]; [|reflexivity]. rewrite Hc.
      destruct (negb (epi =? 0)); [apply feed_nat|reflexivity].
    - unfold main4x1. rewrite Hi. change (fa (init s), fa (init s), fa (init s), fa (init s)) with (four (init s, init s, init s, init s)).
      rewrite (range_nat four trip (fun i '(s0, s1, s2, s3) => do s0 <- fd s0 i 0; do s1 <- fd s1 i 1; do s2 <- fd s2 i 2; do s3 <- fd s3 i 3; Some (s0, s1, s2, s3))).
      2:{ intros i [[[a b] c] d]. cbn [four]. repeat step. reflexivity. }
      destruct (for_range trip _ _) as [[[[a b] c] d]|]; cbn [option_map bind four]; [|reflexivity]. unfold tail4.
      destruct (1 <=? epi); [step|]; cbn [bind]; (destruct (2 <=? epi); [step|]; cbn [bind]); (destruct (3 <=? epi); [step|]; cbn [bind]); now rewrite !Hc.
    - unfold main4x2. rewrite Hi. change (fa (init s), fa (init s), fa (init s), fa (init s)) with (four (init s, init s, init s, init s)).
      rewrite (range_nat four (trip / 2) (fun i '(s0, s1, s2, s3) => let j := 2 * i in
        do s0 <- fd s0 j 0; do s1 <- fd s1 j 1; do s2 <- fd s2 j 2; do s3 <- fd s3 j 3;
        do s0 <- fd s0 j 4; do s1 <- fd s1 j 5; do s2 <- fd s2 j 6; do s3 <- fd s3 j 7; Some (s0, s1, s2, s3))).
      2:{ intros i [[[a b] c] d]. cbn [four]. cbv zeta. repeat step. reflexivity. }
      destruct (for_range (trip / 2) _ _) as [[[[a b] c] d]|]; cbn [option_map bind four]; [|reflexivity]. unfold tail4. cbv zeta.
      destruct (negb (trip mod 2 =? 0)); [repeat step|]; cbn [bind];
      (destruct (1 <=? epi); [step|]; cbn [bind]); (destruct (2 <=? epi); [step|]; cbn [bind]); (destruct (3 <=? epi); [step|]; cbn [bind]); now rewrite !Hc.
    - unfold main2x4. rewrite Hi. change (fa (init s), fa (init s)) with (two_ (init s, init s)).
      rewrite (range_nat two_ (trip / 2) (fun i '(s0, s1) => let j := 2 * i in
        do s0 <- fd s0 j 0; do s1 <- fd s1 j 1; do s0 <- fd s0 j 2; do s1 <- fd s1 j 3;
        do s0 <- fd s0 j 4; do s1 <- fd s1 j 5; do s0 <- fd s0 j 6; do s1 <- fd s1 j 7; Some (s0, s1))).
      2:{ intros i [a b]. cbn [two_]. cbv zeta. repeat step. reflexivity. }
      destruct (for_range (trip / 2) _ _) as [[a b]|]; cbn [option_map bind two_]; [|reflexivity]. cbv zeta.
      destruct (negb (trip mod 2 =? 0)); [repeat step|]; cbn [bind];
      (destruct (1 <=? epi); [step|]; cbn [bind]); (destruct (2 <=? epi); [step|]; cbn [bind]); (destruct (3 <=? epi); [step|]; cbn [bind]); now rewrite !Hc.
  Qed.
  Lemma simd_nat : simd_acc s' (map fl x) (map fr y) = option_map fa (simd_acc s x y).
  Proof.
    unfold simd_acc. cbv zeta. rewrite Hw, Hl, !map_length. destruct (negb (length x =? length y)); [reflexivity|]. rewrite main_nat.
    destruct (main_run s x y _ _) as [a|]; cbn [option_map bind]; [|reflexivity].
    destruct (negb (length x mod width s =? 0)); [|reflexivity]. now rewrite !skipn_map', He.
  Qed.
End Natural.

(** ** The squared distance of embedded vectors *)
Section EmbedL2.
  Context {T F : Type} (e : fops T) (x : xops F) (h : T -> F) (em : embeds e x h) (a : arch).
  Lemma lane_h st u v c : lane (fo x) (fun e => e) (fun e => e) L2 st (h u) (h v) (h c) = h (lane e (fun e => e) (fun e => e) L2 st u v c).
  Proof. cbn [lane]. cbv zeta. rewrite <- (e_sub _ _ _ em). destruct st; cbn [mac]; now rewrite ?(e_fma _ _ _ em), ?(e_add _ _ _ em), ?(e_mul _ _ _ em). Qed.
  Lemma lanes_h st us vs c : map3 (lane (fo x) (fun e => e) (fun e => e) L2 st) (map h us) (map h vs) (map h c) = map h (map3 (lane e (fun e => e) (fun e => e) L2 st) us vs c).
  Proof. revert vs c. induction us as [|u us IH]; intros [|v vs] [|w c]; cbn [map map3]; try reflexivity. now rewrite lane_h, IH. Qed.
  Lemma pad_h n l : pad (zero (fo x)) n (map h l) = map h (pad (zero e) n l).
  Proof. unfold pad. now rewrite firstn_map, map_length, map_app, map_repeat, (e_zero _ _ _ em). Qed.
  Lemma capped_h cap w l : capped cap w (map h l) = map h (capped cap w l).
  Proof. unfold capped. destruct cap; [apply firstn_map|reflexivity]. Qed.
  Lemma scalar_h {X Y} (k : X -> Y) f g us vs st : (forall u v c, g (h u) (h v) (k c) = k (f u v c)) ->
    scalar_loop g (map h us) (map h vs) (k st) = k (scalar_loop f us vs st).
  Proof.
    intros G. unfold scalar_loop. revert vs st. induction us as [|u us IH]; intros [|v vs] st; cbn [map List.combine fold_left fst snd]; try reflexivity.
    rewrite G. apply IH.
  Qed.
  Lemma l2_embedded u v : length u = length v -> l2 x a (map h u) (map h v) = Some (h (true_l2 e u v)).
  Proof.
    intros HL. set (E := f_distance e (fun e => e) (fun e => e) (zero e) (zero e) L2 a F32 u v).
    assert (Q : l2 x a (map h u) (map h v) = option_map h E).
    { unfold E, l2, f_distance, simd_op. set (c := kind_cfg L2 a F32).
      rewrite (simd_nat (f_schema e (fun e => e) (fun e => e) (zero e) (zero e) L2 c) (f_schema (fo x) (fun e => e) (fun e => e) (zero (fo x)) (zero (fo x)) L2 c) h h (map h)).
      - destruct (simd_acc _ u v) as [acc|]; cbn [option_map bind reduce f_schema]; [|reflexivity]. f_equal. unfold sum_tree. rewrite map_length. apply tree_h. exact em.
      - reflexivity.
      - reflexivity.
      - cbn [init f_schema]. now rewrite map_repeat, (e_zero _ _ _ em).
      - intros. cbn [accumulate f_schema]. apply lanes_h.
      - intros. cbn [Model.combine f_schema]. apply (map2_h h); apply (e_add _ _ _ em).
      - intros xs ys b. cbn [epilogue f_schema]. destruct (c_epi c) as [|st cap|cap].
        + rewrite !pad_h. apply lanes_h.
        + rewrite !capped_h, <- (e_zero _ _ _ em), (scalar_h h (lane e (fun e => e) (fun e => e) L2 st)) by (intros; apply lane_h).
          rewrite <- (map2_h h (add e) (add (fo x))) by apply (e_add _ _ _ em). f_equal. unfold lane0. cbn [map]. now rewrite map_repeat, (e_zero _ _ _ em).
        + rewrite !capped_h. replace (repeat (zero (fo x)) (c_width c)) with (map h (repeat (zero e) (c_width c))) by now rewrite map_repeat, (e_zero _ _ _ em).
          rewrite (scalar_h (map h) (fun x y r => map3 (lane e (fun e => e) (fun e => e) L2 (c_style c)) (x :: repeat (zero e) (c_width c - 1)) (y :: repeat (zero e) (c_width c - 1)) r)).
          * now rewrite <- (map2_h h (add e) (add (fo x))) by apply (e_add _ _ _ em).
          * intros p q r. rewrite <- lanes_h. cbn [map]. now rewrite map_repeat, (e_zero _ _ _ em). }
    rewrite Q. unfold E. rewrite (Props.C90_distances e (fun e => e) (fun e => e) (zero e) (zero e) (e_exact _ _ _ em) eq_refl eq_refl L2 a F32 u v HL). reflexivity.
  Qed.
End EmbedL2.
