(** The driver feeds every element to the accumulators exactly once. *)
From Coq Require Import List ZArith PeanoNat Bool Lia Ring Ring_theory.
From Verif.Lib Require Import Lists.
From Verif.Simd Require Import Model Spec.
Import ListNotations.

Lemma Forall2_firstn' {X Y} (P : X -> Y -> Prop) n l m : Forall2 P l m -> Forall2 P (firstn n l) (firstn n m).
Proof.
  intros H. revert n. induction H; intros [|n]; cbn [firstn]; constructor; auto.
Qed.
Lemma Forall2_skipn' {X Y} (P : X -> Y -> Prop) n l m : Forall2 P l m -> Forall2 P (skipn n l) (skipn n m).
Proof.
  intros H. revert n. induction H; intros [|n]; cbn [skipn]; auto.
Qed.
Lemma Forall2_true {X Y} (l : list X) : forall (m : list Y), length l = length m -> Forall2 (fun _ _ => True) l m.
Proof. induction l; intros [|b m] H; try discriminate; constructor; auto. Qed.
Section Generic.
  Context {M : Type} (mz mo : M) (ma mm ms : M -> M -> M) (mn : M -> M).
  Context (rt : ring_theory mz mo ma mm ms mn eq).
  Add Ring MR : rt.
  Context {L R A T : Type} (s : schema L R A T) (f : L -> R -> M) (rep : A -> M -> Prop).
  Context (rel : L -> R -> Prop).

  Fixpoint tot (x : list L) (y : list R) : M :=
    match x, y with a :: x, b :: y => ma (f a b) (tot x y) | _, _ => mz end.
  Lemma tot_app a b c d : length a = length c -> tot (a ++ b) (c ++ d) = ma (tot a c) (tot b d).
  Proof.
    revert c. induction a as [|x a IH]; intros [|y c] H; try discriminate; cbn [tot app]; [ring|].
    rewrite IH by (injection H; auto). ring.
  Qed.
  Lemma tot_split n x y : length x = length y -> tot x y = ma (tot (firstn n x) (firstn n y)) (tot (skipn n x) (skipn n y)).
  Proof.
    intros H. rewrite <- tot_app by (rewrite !firstn_length; lia). now rewrite !firstn_skipn.
  Qed.

  Context (Hw : 0 < width s).
  Context (Hinit : rep (init s) mz).
  Context (Hcomb : forall a b p q, rep a p -> rep b q -> rep (combine s a b) (ma p q)).
  Context (Hacc : forall xs ys a p, length xs = width s -> length ys = width s -> Forall2 rel xs ys -> rep a p ->
    rep (accumulate s xs ys a) (ma p (tot xs ys))).
  Context (Hepi : forall xs ys a p, 0 < length xs < width s -> length ys = length xs -> Forall2 rel xs ys -> rep a p ->
    rep (epilogue s xs ys a) (ma p (tot xs ys))).
  Context (x : list L) (y : list R) (Hlen : length x = length y).
  Context (Hrel : Forall2 rel x y).

  Notation w := (width s).
  Notation u := (block_size (main_loop s)).
  (** The sum over chunk number [k]. *)
  Definition chunk (k : nat) : M := tot (firstn w (skipn (w * k) x)) (firstn w (skipn (w * k) y)).
  Fixpoint chunks (n : nat) : M := match n with O => mz | S n => ma (chunks n) (chunk n) end.
  Lemma chunks_tot n : w * n <= length x -> chunks n = tot (firstn (w * n) x) (firstn (w * n) y).
  Proof.
    induction n as [|n IH]; intros H; cbn [chunks].
    - replace (w * 0) with 0 by lia. reflexivity.
    - rewrite IH by lia. unfold chunk.
      replace (w * S n) with (w * n + w) by lia.
      rewrite (tot_split (w * n) (firstn (w * n + w) x) (firstn (w * n + w) y)) by (rewrite !firstn_length; lia).
      rewrite !firstn_firstn, !skipn_firstn_comm.
      replace (Nat.min (w * n) (w * n + w)) with (w * n) by lia. now replace (w * n + w - w * n) with w by lia.
  Qed.
  Lemma feed_ok a p block off : rep a p -> w * (u * block + off + 1) <= length x ->
    exists a', feed s x y a block off = Some a' /\ rep a' (ma p (chunk (u * block + off))).
  Proof.
    intros Ha H. unfold feed. replace (w * u * block + w * off) with (w * (u * block + off)) by lia.
    destruct (Nat.leb_spec (w * (u * block + off) + w) (length x)) as [B|B]; [|lia].
    eexists. split; [reflexivity|]. unfold chunk. apply Hacc; [rewrite firstn_length, skipn_length; lia..|now apply Forall2_firstn', Forall2_skipn'|assumption].
  Qed.

  Lemma for_range_inv {S} (P : nat -> S -> Prop) n body (st : S) :
    P 0 st -> (forall i st, i < n -> P i st -> exists st', body i st = Some st' /\ P (i + 1) st') ->
    exists st', for_range n body st = Some st' /\ P n st'.
  Proof.
    intros H0 HS. unfold for_range.
    enough (G : forall m k st, k + m = n -> P k st ->
      exists st', fold_left (fun st i => bind st (body i)) (seq k m) (Some st) = Some st' /\ P n st')
      by (apply (G n 0 st); auto with arith).
    induction m as [|m IH]; intros k st' E HP; cbn [seq fold_left].
    - exists st'. split; [reflexivity|]. now replace n with k by lia.
    - cbn [bind]. destruct (HS k st' ltac:(lia) HP) as (st2 & -> & H2). apply IH; [lia|].
      now replace (Datatypes.S k) with (k + 1) by lia.
  Qed.

  Ltac step F := let a := fresh "a" in let E := fresh "E" in let K := fresh "K" in
    match goal with |- context [feed s x y ?acc ?b ?o] =>
      match goal with H : rep acc ?p |- _ =>
        destruct (feed_ok acc p b o H ltac:(F)) as (a & E & K); rewrite E; cbn [bind] end end.

  Definition reps2 (n : nat) (st : A * A) : Prop :=
    exists p q, rep (fst st) p /\ rep (snd st) q /\ ma p q = chunks n.
  Definition reps4 (n : nat) (st : A * A * A * A) : Prop :=
    let '(a, b, c, d) := st in
    exists p q r t, rep a p /\ rep b q /\ rep c r /\ rep d t /\ ma (ma p q) (ma r t) = chunks n.

  Lemma tail4_ok trip epi a b c d : u = 4 -> epi < 4 -> w * (4 * trip + epi) <= length x ->
    reps4 (4 * trip) (a, b, c, d) ->
    exists st, tail4 s x y trip epi a b c d = Some st /\ reps4 (4 * trip + epi) st.
  Proof.
    intros U He B (p & q & r & t & Ra & Rb & Rc & Rd & E). unfold tail4.
    destruct epi as [|[|[|[|epi]]]]; try lia; cbn [Nat.leb bind].
    - exists (a, b, c, d). split; [reflexivity|]. exists p, q, r, t. rewrite Nat.add_0_r. auto.
    - step ltac:(rewrite U; lia). eexists. split; [reflexivity|].
      eexists _, q, r, t. repeat split; try eassumption. rewrite U. rewrite !Nat.add_0_r.
      replace (4 * trip + 1) with (S (4 * trip)) by lia. cbn [chunks]. rewrite <- E. ring.
    - step ltac:(rewrite U; lia). step ltac:(rewrite U; lia). eexists. split; [reflexivity|].
      eexists _, _, r, t. repeat split; try eassumption. rewrite U. rewrite !Nat.add_0_r.
      replace (4 * trip + 2) with (S (S (4 * trip))) by lia. cbn [chunks]. rewrite <- E.
      replace (4 * trip + 1) with (S (4 * trip)) by lia. ring.
    - step ltac:(rewrite U; lia). step ltac:(rewrite U; lia). step ltac:(rewrite U; lia). eexists. split; [reflexivity|].
      eexists _, _, _, t. repeat split; try eassumption. rewrite U. rewrite !Nat.add_0_r.
      replace (4 * trip + 3) with (S (S (S (4 * trip)))) by lia. cbn [chunks]. rewrite <- E.
      replace (4 * trip + 1) with (S (4 * trip)) by lia. replace (4 * trip + 2) with (S (S (4 * trip))) by lia. ring.
  Qed.

  Lemma main_ok trip epi : epi < u -> w * (u * trip + epi) <= length x ->
    exists a, main_run s x y trip epi = Some a /\ rep a (chunks (u * trip + epi)).
  Proof.
    intros He B. unfold main_run. destruct (main_loop s) eqn:ML; cbn [block_size] in He, B |- *.
    - (* 1x1 *) assert (U : u = 1) by now rewrite ML.
      unfold main1x1. replace epi with 0 in * by lia.
      destruct (for_range_inv (fun i a => rep a (chunks i)) trip (fun i s0 => feed s x y s0 i 0) (init s) Hinit) as (a & E & J).
      + intros i a Hi Ha. step ltac:(rewrite U; nia). eexists. split; [reflexivity|]. rewrite U in K.
        replace (i + 1) with (S i) by lia. cbn [chunks]. now replace (1 * i + 0) with i in K by lia.
      + exists a. split; [assumption|]. now replace (1 * trip + 0) with trip by lia.
    - (* 2x1 *) assert (U : u = 2) by now rewrite ML.
      unfold main2x1.
      match goal with |- context [for_range trip ?body ?s00] =>
        destruct (for_range_inv (fun i st => reps2 (2 * i) st) trip body s00) as ((a, b) & E & J) end.
      + exists mz, mz. repeat split; try assumption. cbn. ring.
      + intros i (a, b) Hi (p & q & Ra & Rb & E). cbn [fst snd] in Ra, Rb.
        step ltac:(rewrite U; nia). step ltac:(rewrite U; nia). eexists. split; [reflexivity|].
        eexists _, _. repeat split; try eassumption. rewrite U.
        replace (2 * (i + 1)) with (S (S (2 * i))) by lia. cbn [chunks]. rewrite <- E.
        replace (2 * i + 0) with (2 * i) by lia. replace (2 * i + 1) with (S (2 * i)) by lia. ring.
      + rewrite E. cbn [bind]. destruct J as (p & q & Ra & Rb & E'). cbn [fst snd] in Ra, Rb.
        pose proof (Hcomb _ _ _ _ Ra Rb) as RC. rewrite E' in RC.
        destruct epi as [|[|epi]]; try lia; cbn [Nat.eqb negb].
        * eexists. split; [reflexivity|]. now replace (2 * trip + 0) with (2 * trip) by lia.
        * step ltac:(rewrite U; nia). eexists. split; [reflexivity|]. rewrite U in K. rewrite Nat.add_0_r in K.
          replace (2 * trip + 1) with (S (2 * trip)) by lia. cbn [chunks]. assumption.
    - (* 4x1 *) assert (U : u = 4) by now rewrite ML.
      unfold main4x1.
      match goal with |- context [for_range trip ?body ?s00] =>
        destruct (for_range_inv (fun i st => reps4 (4 * i) st) trip body s00) as ((((a, b), c), d) & E & J) end.
      + exists mz, mz, mz, mz. repeat split; try assumption. cbn. ring.
      + intros i (((a, b), c), d) Hi (p & q & r & t & Ra & Rb & Rc & Rd & E).
        step ltac:(rewrite U; nia). step ltac:(rewrite U; nia). step ltac:(rewrite U; nia). step ltac:(rewrite U; nia).
        eexists. split; [reflexivity|].
        eexists _, _, _, _. repeat split; try eassumption. rewrite U.
        replace (4 * (i + 1)) with (S (S (S (S (4 * i))))) by lia. cbn [chunks]. rewrite <- E.
        replace (4 * i + 0) with (4 * i) by lia. replace (4 * i + 1) with (S (4 * i)) by lia.
        replace (4 * i + 2) with (S (S (4 * i))) by lia. replace (4 * i + 3) with (S (S (S (4 * i)))) by lia. ring.
      + rewrite E. cbn [bind].
        destruct (tail4_ok trip epi a b c d U He ltac:(lia) J) as ((((a', b'), c'), d') & -> & R'). cbn [bind].
        destruct R' as (p & q & r & t & Ra & Rb & Rc & Rd & E'). eexists. split; [reflexivity|]. rewrite <- E'. auto.
    - (* 4x2 *) assert (U : u = 4) by now rewrite ML.
      unfold main4x2. pose proof (Nat.div_mod trip 2 ltac:(lia)) as DM.
      assert (MB : trip mod 2 < 2) by (apply Nat.mod_upper_bound; lia).
      match goal with |- context [for_range (trip / 2) ?body ?s00] =>
        destruct (for_range_inv (fun i st => reps4 (8 * i) st) (trip / 2) body s00) as ((((a, b), c), d) & E & J) end.
      + exists mz, mz, mz, mz. repeat split; try assumption. cbn. ring.
      + intros i (((a, b), c), d) Hi (p & q & r & t & Ra & Rb & Rc & Rd & E). cbv zeta.
        do 8 step ltac:(rewrite U; nia).
        eexists. split; [reflexivity|].
        eexists _, _, _, _. repeat split; try eassumption. rewrite U.
        replace (8 * (i + 1)) with (S (S (S (S (S (S (S (S (8 * i))))))))) by lia. cbn [chunks]. rewrite <- E.
        replace (4 * (2 * i) + 0) with (8 * i) by lia. replace (4 * (2 * i) + 1) with (S (8 * i)) by lia.
        replace (4 * (2 * i) + 2) with (S (S (8 * i))) by lia. replace (4 * (2 * i) + 3) with (S (S (S (8 * i)))) by lia.
        replace (4 * (2 * i) + 4) with (S (S (S (S (8 * i))))) by lia.
        replace (4 * (2 * i) + 5) with (S (S (S (S (S (8 * i)))))) by lia.
        replace (4 * (2 * i) + 6) with (S (S (S (S (S (S (8 * i))))))) by lia.
        replace (4 * (2 * i) + 7) with (S (S (S (S (S (S (S (8 * i)))))))) by lia. ring.
      + rewrite E. cbn [bind].
        assert (MID : exists st, (if negb (trip mod 2 =? 0) then
            do s0 <- feed s x y a (trip - 1) 0; do s1 <- feed s x y b (trip - 1) 1; do s2 <- feed s x y c (trip - 1) 2; do s3 <- feed s x y d (trip - 1) 3;
            Some (s0, s1, s2, s3) else Some (a, b, c, d)) = Some st /\ reps4 (4 * trip) st).
        { destruct (Nat.eqb_spec (trip mod 2) 0) as [Z|Z]; cbn [negb].
          - eexists. split; [reflexivity|]. now replace (4 * trip) with (8 * (trip / 2)) by lia.
          - destruct J as (p & q & r & t & Ra & Rb & Rc & Rd & E').
            do 4 step ltac:(rewrite U; apply Nat.le_trans with (w * (4 * trip + epi)); [apply Nat.mul_le_mono_l; lia|lia]). eexists. split; [reflexivity|].
            eexists _, _, _, _. repeat split; try eassumption. rewrite U.
            replace (4 * trip) with (S (S (S (S (8 * (trip / 2)))))) by lia. cbn [chunks]. rewrite <- E'.
            replace (4 * (trip - 1) + 0) with (8 * (trip / 2)) by lia.
            replace (4 * (trip - 1) + 1) with (S (8 * (trip / 2))) by lia.
            replace (4 * (trip - 1) + 2) with (S (S (8 * (trip / 2)))) by lia.
            replace (4 * (trip - 1) + 3) with (S (S (S (8 * (trip / 2))))) by lia. ring. }
        destruct MID as ((((a1, b1), c1), d1) & -> & R1). cbn [bind].
        destruct (tail4_ok trip epi a1 b1 c1 d1 U He ltac:(lia) R1) as ((((a', b'), c'), d') & -> & R'). cbn [bind].
        destruct R' as (p & q & r & t & Ra & Rb & Rc & Rd & E'). eexists. split; [reflexivity|]. rewrite <- E'. auto.
    - (* 2x4 *) assert (U : u = 4) by now rewrite ML.
      unfold main2x4. pose proof (Nat.div_mod trip 2 ltac:(lia)) as DM.
      assert (MB : trip mod 2 < 2) by (apply Nat.mod_upper_bound; lia).
      match goal with |- context [for_range (trip / 2) ?body ?s00] =>
        destruct (for_range_inv (fun i st => reps2 (8 * i) st) (trip / 2) body s00) as ((a, b) & E & J) end.
      + exists mz, mz. repeat split; try assumption. cbn. ring.
      + intros i (a, b) Hi (p & q & Ra & Rb & E). cbn [fst snd] in Ra, Rb. cbv zeta.
        do 8 step ltac:(rewrite U; apply Nat.le_trans with (w * (4 * trip + epi)); [apply Nat.mul_le_mono_l; lia|lia]).
        eexists. split; [reflexivity|].
        eexists _, _. repeat split; try eassumption. rewrite U.
        replace (8 * (i + 1)) with (S (S (S (S (S (S (S (S (8 * i))))))))) by lia. cbn [chunks]. rewrite <- E.
        replace (4 * (2 * i) + 0) with (8 * i) by lia. replace (4 * (2 * i) + 1) with (S (8 * i)) by lia.
        replace (4 * (2 * i) + 2) with (S (S (8 * i))) by lia. replace (4 * (2 * i) + 3) with (S (S (S (8 * i)))) by lia.
        replace (4 * (2 * i) + 4) with (S (S (S (S (8 * i))))) by lia.
        replace (4 * (2 * i) + 5) with (S (S (S (S (S (8 * i)))))) by lia.
        replace (4 * (2 * i) + 6) with (S (S (S (S (S (S (8 * i))))))) by lia.
        replace (4 * (2 * i) + 7) with (S (S (S (S (S (S (S (8 * i)))))))) by lia. ring.
      + rewrite E. cbn [bind].
        assert (MID : exists st, (if negb (trip mod 2 =? 0) then
            do s0 <- feed s x y a (trip - 1) 0; do s1 <- feed s x y b (trip - 1) 1; do s0 <- feed s x y s0 (trip - 1) 2; do s1 <- feed s x y s1 (trip - 1) 3;
            Some (s0, s1) else Some (a, b)) = Some st /\ reps2 (4 * trip) st).
        { destruct J as (p & q & Ra & Rb & E'). cbn [fst snd] in Ra, Rb.
          destruct (Nat.eqb_spec (trip mod 2) 0) as [Z|Z]; cbn [negb].
          - eexists. split; [reflexivity|]. exists p, q. replace (4 * trip) with (8 * (trip / 2)) by lia. auto.
          - do 4 step ltac:(rewrite U; apply Nat.le_trans with (w * (4 * trip + epi)); [apply Nat.mul_le_mono_l; lia|lia]). eexists. split; [reflexivity|].
            eexists _, _. repeat split; try eassumption. rewrite U.
            replace (4 * trip) with (S (S (S (S (8 * (trip / 2)))))) by lia. cbn [chunks]. rewrite <- E'.
            replace (4 * (trip - 1) + 0) with (8 * (trip / 2)) by lia.
            replace (4 * (trip - 1) + 1) with (S (8 * (trip / 2))) by lia.
            replace (4 * (trip - 1) + 2) with (S (S (8 * (trip / 2)))) by lia.
            replace (4 * (trip - 1) + 3) with (S (S (S (8 * (trip / 2))))) by lia. ring. }
        destruct MID as ((a1, b1) & -> & R1). cbn [bind]. destruct R1 as (p & q & Ra & Rb & E'). cbn [fst snd] in Ra, Rb.
        destruct epi as [|[|[|[|epi]]]]; try lia; cbn [Nat.leb bind].
        * eexists. split; [reflexivity|]. replace (4 * trip + 0) with (4 * trip) by lia. rewrite <- E'. auto.
        * step ltac:(rewrite U; lia). eexists. split; [reflexivity|]. rewrite U, Nat.add_0_r in K.
          replace (4 * trip + 1) with (S (4 * trip)) by lia. cbn [chunks]. rewrite <- E'.
          replace (ma (ma p q) (chunk (4 * trip))) with (ma (ma p (chunk (4 * trip))) q) by ring. auto.
        * step ltac:(rewrite U; lia). step ltac:(rewrite U; lia). eexists. split; [reflexivity|].
          rewrite U in K, K0. rewrite Nat.add_0_r in K. replace (4 * trip + 1) with (S (4 * trip)) in K0 by lia.
          replace (4 * trip + 2) with (S (S (4 * trip))) by lia. cbn [chunks]. rewrite <- E'.
          match goal with |- rep _ ?g => replace g with (ma (ma p (chunk (4 * trip))) (ma q (chunk (S (4 * trip))))) by ring end. auto.
        * step ltac:(rewrite U; lia). step ltac:(rewrite U; lia). step ltac:(rewrite U; lia). eexists. split; [reflexivity|].
          rewrite U in K, K0, K1. rewrite Nat.add_0_r in K, K1. replace (4 * trip + 1) with (S (4 * trip)) in K0 by lia.
          replace (4 * trip + 2) with (S (S (4 * trip))) in K1 by lia.
          replace (4 * trip + 3) with (S (S (S (4 * trip)))) by lia. cbn [chunks]. rewrite <- E'.
          match goal with |- rep _ ?g => replace g with
            (ma (ma (ma p (chunk (4 * trip))) (chunk (S (S (4 * trip))))) (ma q (chunk (S (4 * trip))))) by ring end. auto.
  Qed.

  Theorem simd_acc_ok : exists a, simd_acc s x y = Some a /\ rep a (tot x y).
  Proof.
    unfold simd_acc. rewrite Hlen, Nat.eqb_refl. cbn [negb]. rewrite <- Hlen. set (len := length x).
    assert (HU : 0 < u) by (destruct (main_loop s); cbn; lia).
    set (trip := len / (w * u)). set (epi := (len - w * u * trip) / w).
    pose proof (Nat.div_mod len (w * u) ltac:(nia)) as D1. fold trip in D1.
    pose proof (Nat.mod_upper_bound len (w * u) ltac:(nia)) as D2.
    set (rest := len mod (w * u)) in *.
    assert (E1 : len - w * u * trip = rest) by lia.
    assert (E2 : epi = rest / w) by (unfold epi; now rewrite E1).
    pose proof (Nat.div_mod rest w ltac:(lia)) as D3. pose proof (Nat.mod_upper_bound rest w ltac:(lia)) as D4.
    assert (EM : len mod w = rest mod w).
    { rewrite D1. replace (w * u * trip + rest) with (rest + (u * trip) * w) by lia. apply Nat.mod_add. lia. }
    rewrite EM. set (r := rest mod w) in *. rewrite <- E2 in D3.
    assert (HE : epi < u) by (rewrite E2; apply Nat.div_lt_upper_bound; lia).
    assert (LEN : len = w * (u * trip + epi) + r) by lia.
    destruct (main_ok trip epi HE) as (a & -> & J); [fold len; lia|]. cbn [bind].
    rewrite chunks_tot in J by (fold len; lia).
    rewrite (tot_split (w * (u * trip + epi)) x y Hlen).
    destruct (Nat.eqb_spec r 0) as [Z|Z]; cbn [negb].
    - eexists. split; [reflexivity|].
      rewrite (skipn_all2 x) by (fold len; lia). cbn [tot].
      match goal with |- rep _ ?g => replace g with (tot (firstn (w * (u * trip + epi)) x) (firstn (w * (u * trip + epi)) y)) by ring end.
      assumption.
    - eexists. split; [reflexivity|]. replace (len - r) with (w * (u * trip + epi)) by lia.
      apply Hepi; [rewrite skipn_length; fold len; lia|rewrite !skipn_length; lia|now apply Forall2_skipn'|assumption].
  Qed.
End Generic.
