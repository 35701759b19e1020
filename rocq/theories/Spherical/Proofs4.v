(** The scale that is returned reaches the best point; what a scale is rounded to. *)
From Coq Require Import QArith Qabs Qround Lqa Permutation.
From Verif.Lib Require Import Base Lists.
From Verif.Spherical Require Import Model Proofs Model2 Spec2 Proofs2 Proofs3.
Local Open Scope nat_scope.

(** Three points with equal steps: the middle one is not the best of them. *)
Lemma middle (I N a b r : Q) : (0 < N -> 0 < r -> 0 < a -> (I + a) * (I + a) / (N + 2 * r) == b -> (I + a + a) * (I + a + a) / (N + 2 * r + 2 * r) <= b -> b < I * I / N)%Q.
Proof.
  intros HN HR HA E L. apply Qnot_le_lt. intros G. apply div_le in G; [|exact HN]. apply div_le in L; [|lra].
  assert (E' : ((I + a) * (I + a) == b * (N + 2 * r))%Q) by (rewrite <- E; field; lra). nra.
Qed.

Section Loop.
  Context (v : list Q) (stop : nat) (Hstop : 1 < stop) (Hnz : exists x, In x v /\ ~ (x == 0)%Q) (Hties : no_ties stop v).
  Notation ok := (ok v stop). Notation start := (start v). Notation top := (top v stop).
  Definition at_ (r : list nat) (i : nat) (x : Q) (k : nat) : Prop := nth_error v i = Some x /\ nth_error r i = Some k.
  (** Passed thresholds are below [t], the others are not. *)
  Definition upto (r : list nat) (t : Q) : Prop :=
    (forall i x k, at_ r i x k -> k = 1 \/ exists j, k = S j /\ 1 <= j /\ (qn j + eps <= t * Qabs x)%Q) /\
    (forall i x k, at_ r i x k -> 1 <= k < stop -> ~ (x == 0)%Q -> (t * Qabs x <= qn k + eps)%Q).
  Definition pending (r : list nat) (t : Q) : Prop := exists i x k, at_ r i x k /\ 1 <= k < stop /\ ~ (x == 0)%Q /\ (t * Qabs x == qn k + eps)%Q.
  Lemma settled s t : ok s -> upto (s_rounded s) t -> s_rounded s = levels stop t v \/ pending (s_rounded s) t.
  Proof.
    clear Hties. intros O [U1 U2].
    destruct (existsb (fun i => match nth_error v i, nth_error (s_rounded s) i with Some x, Some k => (1 <=? k) && (k <? stop) && negb (Qeq_bool x 0) && Qeq_bool (t * Qabs x) (qn k + eps) | _, _ => false end) (seq 0 (length v))) eqn:EX.
    - right. apply existsb_exists in EX as (i & _ & X). destruct (nth_error v i) as [x|] eqn:V; [|discriminate]. destruct (nth_error (s_rounded s) i) as [k|] eqn:K; [|discriminate].
      apply andb_true_iff in X as [X E]. apply andb_true_iff in X as [X NZ]. apply andb_true_iff in X as [X1 X2]. apply Nat.leb_le in X1. apply Nat.ltb_lt in X2. apply Qeq_bool_iff in E. apply Bool.negb_true_iff in NZ. apply Qeq_bool_neq in NZ. exists i, x, k. split; [split; assumption|]. split; [lia|]. split; [exact NZ|exact E].
    - left. apply (lists_eq v); [apply (o_len _ _ s O)|apply levels_len|]. intros i x a b V A T. rewrite (levels_at v stop t i x V) in T. injection T as <-. destruct (o_range _ _ s O i x a V A) as [AR AZ].
      pose proof (level_range stop t (Qabs x) ltac:(lia)) as LR. destruct (Qeq_dec x 0) as [Z|NZ]; [rewrite (AZ Z); symmetry; apply level_zero; rewrite Z; reflexivity|].
      assert (GE : a <= level stop t (Qabs x)). { destruct (U1 i x a (conj V A)) as [->|(j & -> & J1 & J2)]; [lia|]. apply (level_spec stop t (Qabs x) j) in J2; lia. }
      destruct (Nat.eq_dec a (level stop t (Qabs x))) as [D|D]; [exact D|]. exfalso. assert (LT : a < level stop t (Qabs x)) by lia. apply level_spec in LT; [|lia]. pose proof (U2 i x a (conj V A) ltac:(lia) NZ) as L2.
      apply Bool.not_true_iff_false in EX. apply EX, existsb_exists. exists i. split; [apply in_seq; split; [lia|]; apply (at_lt v i x V)|]. rewrite V, A. rewrite !andb_true_iff. repeat split; [apply Nat.leb_le; lia|apply Nat.ltb_lt; lia|apply Bool.negb_true_iff; apply not_true_is_false; intros Q; now apply Qeq_bool_iff in Q|apply Qeq_bool_iff; lra].
  Qed.
  (** The best point so far is the one just reached, and others are still to be raised at its scale. *)
  Definition fresh (r : list nat) (t b : Q) : Prop :=
    exists r0 p x k, at_ r0 p x k /\ 1 <= k < stop /\ ~ (x == 0)%Q /\ r = set_nth p (S k) r0 /\ (0 < norm2 r0)%Q /\ (t * Qabs x == qn k + eps)%Q /\ (match2 v r == b)%Q /\ (r0 = start \/ (match2 v r0 < b)%Q) /\
      pending r t /\ forall i y j, at_ r i y j -> 1 <= j < stop -> ~ (y == 0)%Q -> (t * Qabs y <= qn j + eps)%Q.
  Definition good (s : search) : Prop :=
    match s_best s with
    | None => s_rounded s = start
    | Some b => (match2 v (s_rounded s) <= b)%Q /\ exists t, s_scale s = Fin t /\ (0 < t)%Q /\ ((b <= match2 v (levels stop t v))%Q \/ fresh (s_rounded s) t b \/ (b < match2 v start)%Q)
    end.
  Lemma good_end : forall fuel s, ok s -> (exists t, upto (s_rounded s) t) -> good s -> work stop (s_rounded s) < fuel ->
    exists t b, improve fuel v stop s = Some (Fin t, Some b) /\ (0 < t)%Q /\ ((b <= match2 v (levels stop t v))%Q \/ (b < match2 v start)%Q).
  Proof.
    induction fuel as [|fuel IH]; intros s O (t0 & U) G W; [lia|].
    destruct (step_ok v stop Hstop Hnz s O) as [[E ET]|(p & x & k & t & s' & V & K & KR & NX & TX & MIN & E & O' & ER & BE)].
    - rewrite E. unfold good in G. destruct (s_best s) as [b|] eqn:EB.
      + destruct G as (_ & t & ES & TP & [A|[(r0 & p & x & k & _ & _ & _ & _ & _ & _ & _ & _ & (i & y & j & (VY & J) & JR & NY & _) & _)|C]]).
        * exists t, b. rewrite ES. tauto.
        * exfalso. rewrite ET, (top_at v stop i y VY) in J. destruct (Qeq_bool y 0) eqn:Q; [now apply Qeq_bool_iff in Q|]. injection J as <-. lia.
        * exists t, b. rewrite ES. tauto.
      + exfalso. destruct Hnz as (y & I & NY). apply In_nth_error in I as (i & VY). pose proof (start_at v stop Hstop i y VY) as S1. rewrite <- G, ET, (top_at v stop i y VY) in S1. destruct (Qeq_bool y 0) eqn:Q; [now apply Qeq_bool_iff in Q|]. injection S1 as S1. lia.
    - rewrite E. destruct (crit_fin stop x k KR NX) as [_ PX].
      assert (TP : (0 < t)%Q). { pose proof (qn_pos k). unfold eps in TX. destruct (Qlt_le_dec 0 t) as [P|N]; [exact P|]. exfalso. assert (t * Qabs x <= 0)%Q by nra. lra. }
      assert (T0 : (t0 <= t)%Q). { destruct U as [_ U2]. pose proof (U2 p x k (conj V K) KR NX) as L. apply (Qmult_lt_0_le_reg_r _ _ (Qabs x) PX). lra. }
      assert (AT : forall i y j, at_ (s_rounded s') i y j -> (i = p /\ y = x /\ j = S k) \/ at_ (s_rounded s) i y j).
      { intros i y j [VY J]. rewrite ER, nth_error_set_nth in J. destruct (Nat.eqb_spec i p) as [->|D]; [left|right; split; assumption]. destruct (p <? length (s_rounded s)); [|discriminate]. split; [reflexivity|]. split; congruence. }
      assert (U' : upto (s_rounded s') t).
      { split.
        - intros i y j A. destruct (AT i y j A) as [(-> & -> & ->)|A']; [right; exists k; split; [reflexivity|]; split; [lia|]; rewrite TX; apply Qle_refl|]. destruct (proj1 U i y j A') as [->|(m & -> & M1 & M2)]; [now left|]. right. exists m. split; [reflexivity|]. split; [exact M1|]. pose proof (Qabs_nonneg y). nra.
        - intros i y j A JR NY. destruct (AT i y j A) as [(-> & -> & ->)|A']; [rewrite qn_S; lra|]. destruct A' as [A1 A2]. now apply (MIN i y j). }
      apply IH; [exact O'|now exists t| |rewrite ER; pose proof (work_set stop Hstop (s_rounded s) p k K ltac:(lia)); lia].
      unfold good. destruct BE as [(b & B1 & B2 & B3 & B4)|(B1 & b & B2 & B3 & B4)].
      + rewrite B3. split; [exact B2|]. unfold good in G. rewrite B1 in G. destruct G as (_ & t1 & ES & T1P & CASES). exists t1. rewrite B4. split; [exact ES|]. split; [exact T1P|]. destruct CASES as [A|[F|C]]; [now left| |right; now right]. right. right.
        destruct F as (r0 & p0 & x0 & k0 & (V0 & K0) & KR0 & NX0 & ER0 & N0 & TX0 & M0 & ST & (i & y & j & (VY & J) & JR & NY & TY) & REM).
        destruct (crit_fin stop y j JR NY) as [_ PY].
        assert (TT : (t == t1)%Q).
        { pose proof (MIN i y j VY J JR NY) as L1. pose proof (REM p x k (conj V K) KR NX) as L2. assert (t <= t1)%Q by (apply (Qmult_lt_0_le_reg_r _ _ (Qabs y) PY); lra). assert (t1 <= t)%Q by (apply (Qmult_lt_0_le_reg_r _ _ (Qabs x) PX); lra). lra. }
        destruct (crit_fin stop x0 k0 KR0 NX0) as [_ PX0].
        assert (XX : (Qabs x == Qabs x0)%Q).
        { apply (Hties x x0 k k0); [now apply (nth_error_In v p)|now apply (nth_error_In v p0)|exact NX|exact NX0|exact KR|exact KR0|]. rewrite <- TX, <- TX0, TT. ring. }
        assert (KK : k = k0) by (apply qn_inj; rewrite TT, XX, TX0 in TX; lra). subst k0.
        assert (D1 : (dot v (s_rounded s) == dot v r0 + Qabs x)%Q) by (rewrite ER0, (dot_set v p0 r0 x0 k V0 K0), XX; reflexivity).
        assert (D2 : (norm2 (s_rounded s) == norm2 r0 + 2 * qn k)%Q) by (rewrite ER0; now apply norm2_set).
        assert (D3 : (dot v (s_rounded s') == dot v r0 + Qabs x + Qabs x)%Q) by (rewrite ER, (dot_set v p _ x k V K), D1; reflexivity).
        assert (D4 : (norm2 (s_rounded s') == norm2 r0 + 2 * qn k + 2 * qn k)%Q) by (rewrite ER, (norm2_set _ p k K), D2; reflexivity).
        assert (Q1 : (1 <= qn k)%Q) by (apply (qn_le 1); lia).
        assert (LT : (b < match2 v r0)%Q). { unfold match2 in *. rewrite D1, D2 in M0. rewrite D3, D4 in B2. apply (middle _ _ (Qabs x) b (qn k)); try assumption; lra. }
        destruct ST as [->|ST]; [exact LT|]. exfalso. lra.
      + rewrite B2. split; [lra|]. exists t. split; [exact B4|]. split; [exact TP|]. destruct (settled s' t O' U') as [EQ|P]; [left; rewrite <- EQ; lra|]. right. left.
        exists (s_rounded s), p, x, k. split; [split; assumption|]. split; [exact KR|]. split; [exact NX|]. split; [exact ER|]. split; [now apply (rounded_norm v stop Hnz)|]. split; [exact TX|]. split; [symmetry; exact B3|]. split.
        { unfold good in G. destruct (s_best s) as [b0|] eqn:EB; [|now left]. right. destruct G as [G _]. specialize (B1 b0 eq_refl). lra. }
        split; [exact P|]. apply U'.
  Qed.
  (** A large scale reaches the top, which is no worse than the start. *)
  Lemma reach_top : exists sc, levels stop sc v = top.
  Proof.
    clear Hnz Hties. assert (G : forall w, exists sc, (0 <= sc)%Q /\ forall x, In x w -> ~ (x == 0)%Q -> (qn stop + eps <= sc * Qabs x)%Q).
    { induction w as [|y w (sc & P & H)]; [exists 0%Q; split; [lra|intros x []]|]. pose proof (qn_pos stop) as QS. destruct (Qeq_dec y 0) as [Z|NZ].
      - exists sc. split; [exact P|]. intros x [<-|I] NX; [now elim NX|now apply H].
      - destruct (crit_fin 2 y 1 ltac:(lia) NZ) as [_ PY]. assert (P2 : (0 <= (qn stop + eps) / Qabs y)%Q) by (apply Qle_shift_div_l; [exact PY|unfold eps; lra]).
        exists (sc + (qn stop + eps) / Qabs y)%Q. split; [lra|]. intros x [<-|I] NX.
        + assert (E : ((sc + (qn stop + eps) / Qabs y) * Qabs y == sc * Qabs y + (qn stop + eps))%Q) by (field; lra). rewrite E. nra.
        + pose proof (H x I NX). pose proof (Qabs_nonneg x). nra. }
    destruct (G v) as (sc & _ & H). exists sc. apply (lists_eq v); [apply levels_len|apply top_len|]. intros i x a b V A B. rewrite (levels_at v stop sc i x V) in A. rewrite (top_at v stop i x V) in B. injection A as <-. injection B as <-.
    destruct (Qeq_bool x 0) eqn:EX; [apply Qeq_bool_iff in EX; apply level_zero; rewrite EX; reflexivity|]. apply Qeq_bool_neq in EX. pose proof (level_range stop sc (Qabs x) ltac:(lia)) as LR.
    assert (L : stop - 1 < level stop sc (Qabs x)). { apply level_spec; [lia|]. pose proof (H x (nth_error_In v i V) EX) as HX. pose proof (qn_le (stop - 1) stop ltac:(lia)). lra. } lia.
  Qed.
  Lemma top_beats_start : (match2 v start <= match2 v top)%Q.
  Proof.
    clear Hties. set (c := (qn stop - (1 # 2))%Q). assert (C : (1 <= c)%Q) by (unfold c; pose proof (qn_le 2 stop ltac:(lia)) as Q; change (qn 2) with 2%Q in Q; lra).
    assert (G : forall w, exists A n z, (0 <= A)%Q /\ (0 <= n)%Q /\ (0 <= z)%Q /\ ((exists x, In x w /\ ~ (x == 0)%Q) -> (0 < n)%Q) /\ (dot w (repeat 1%nat (length w)) == (1 # 2) * A)%Q /\ (norm2 (repeat 1%nat (length w)) == (1 # 4) * (n + z))%Q /\
      (dot w (map (fun x => if Qeq_bool x 0 then 1%nat else stop) w) == c * A)%Q /\ (norm2 (map (fun x => if Qeq_bool x 0 then 1%nat else stop) w) == c * c * n + (1 # 4) * z)%Q).
    { induction w as [|x w (A & n & z & PA & Pn & Pz & PN & E1 & E2 & E3 & E4)]; cbn [map repeat length dot norm2].
      - exists 0%Q, 0%Q, 0%Q. repeat split; try lra. intros (x & [] & _).
      - change (qn 1) with 1%Q. destruct (Qeq_bool x 0) eqn:EX.
        + apply Qeq_bool_iff in EX. assert (XA : (Qabs x == 0)%Q) by (rewrite EX; reflexivity). change (qn 1) with 1%Q. exists A, n, (z + 1)%Q. split; [lra|]. split; [lra|]. split; [lra|]. split; [intros (y & [<-|I] & NY); [now elim NY|apply PN; now exists y]|].
          split; [rewrite XA, E1; ring|]. split; [rewrite E2; ring|]. split; [rewrite XA, E3; ring|rewrite E4; ring].
        + pose proof (Qabs_nonneg x). exists (A + Qabs x)%Q, (n + 1)%Q, z. fold c. split; [lra|]. split; [lra|]. split; [lra|]. split; [intros _; lra|]. split; [rewrite E1; ring|]. split; [rewrite E2; ring|]. split; [rewrite E3; ring|rewrite E4; ring]. }
    destruct (G v) as (A & n & z & PA & Pn & Pz & PN & E1 & E2 & E3 & E4). specialize (PN Hnz). unfold match2. fold start in E1, E2. unfold Proofs3.start, Proofs3.top. rewrite E1, E2, E3, E4.
    assert (CC : (1 <= c * c)%Q) by nra. assert (P1 : (0 < (1 # 4) * (n + z))%Q) by lra. assert (P2 : (0 < c * c * n + (1 # 4) * z)%Q) by nra.
    apply Qle_shift_div_l; [exact P2|]. assert (EQ : ((1 # 2) * A * ((1 # 2) * A) / ((1 # 4) * (n + z)) * (c * c * n + (1 # 4) * z) == A * A * (c * c * n + (1 # 4) * z) / (n + z))%Q) by (field; lra). rewrite EQ. apply Qle_shift_div_r; [lra|].
    assert (AA : (0 <= A * A)%Q) by nra. assert (X : (c * c * n + (1 # 4) * z <= c * c * (n + z))%Q) by nra. nra.
  Qed.
End Loop.
