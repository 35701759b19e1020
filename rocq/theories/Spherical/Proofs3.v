(** The search for the best scale visits every point of the lattice that a scale can reach. *)
From Coq Require Import QArith Qabs Lqa Permutation.
From Verif.Lib Require Import Base Lists.
From Verif.Spherical Require Import Model Proofs Model2 Spec2 Proofs2.
Local Open Scope nat_scope.

Section Loop.
  Context (v : list Q) (stop : nat) (Hstop : 1 < stop) (Hnz : exists x, In x v /\ ~ (x == 0)%Q).
  Definition start : list nat := repeat 1 (length v).
  Definition top : list nat := map (fun x => if Qeq_bool x 0 then 1 else stop) v.
  Record ok (s : search) : Prop := {
    o_len : length (s_rounded s) = length v;
    o_range : forall i x k, nth_error v i = Some x -> nth_error (s_rounded s) i = Some k -> 1 <= k <= stop /\ ((x == 0)%Q -> k = 1);
    o_heap : Permutation (s_heap s) (pairs stop 0 v (s_rounded s));
    o_below : below pair_leb (s_heap s) 0;
    o_ip : (s_ip s == dot v (s_rounded s))%Q;
    o_sq : (s_sq s == norm2 (s_rounded s))%Q }.
  Lemma both (r : list nat) i : length r = length v -> (forall x, nth_error v i = Some x -> exists k, nth_error r i = Some k) /\ (forall k, nth_error r i = Some k -> exists x, nth_error v i = Some x).
  Proof.
    clear Hstop Hnz. intros L. split.
    - intros x V. apply lt_at. rewrite L. now apply (at_lt v i x).
    - intros k V. apply lt_at. rewrite <- L. now apply (at_lt r i k).
  Qed.
  Lemma lists_eq (r t : list nat) : length r = length v -> length t = length v -> (forall i x a b, nth_error v i = Some x -> nth_error r i = Some a -> nth_error t i = Some b -> a = b) -> r = t.
  Proof.
    clear Hstop Hnz. intros L1 L2 H. apply nth_error_ext. intros i. destruct (nth_error r i) as [a|] eqn:EA.
    - destruct (both r i L1) as [_ B]. destruct (B a EA) as (x & V). destruct (both t i L2) as [A _]. destruct (A x V) as (b & EB). rewrite EB. f_equal. now apply (H i x).
    - destruct (nth_error t i) as [b|] eqn:EB; [|reflexivity]. destruct (both t i L2) as [_ B]. destruct (B b EB) as (x & V). destruct (both r i L1) as [A _]. destruct (A x V). congruence.
  Qed.
  Lemma top_at i x : nth_error v i = Some x -> nth_error top i = Some (if Qeq_bool x 0 then 1 else stop).
  Proof. intros V. unfold top. now rewrite nth_error_map, V. Qed.
  Lemma levels_at sc i x : nth_error v i = Some x -> nth_error (levels stop sc v) i = Some (level stop sc (Qabs x)).
  Proof. intros V. unfold levels. now rewrite nth_error_map, V. Qed.
  Lemma start_at i x : nth_error v i = Some x -> nth_error start i = Some 1.
  Proof. intros V. unfold start. assert (L : i < length v) by now apply (at_lt v i x). clear V. revert i L. induction (length v) as [|n IH]; intros i L; [lia|]. destruct i as [|i]; [reflexivity|]. cbn. apply IH. lia. Qed.
  Lemma start_len : length start = length v. Proof. apply repeat_length. Qed.
  Lemma top_len : length top = length v. Proof. apply map_length. Qed.
  Lemma levels_len sc : length (levels stop sc v) = length v. Proof. apply map_length. Qed.
  Lemma v_ne : v <> []. Proof. destruct Hnz as (x & I & _). intros ->. exact I. Qed.
  Lemma in_range s : ok s -> forall k, In k (s_rounded s) -> 1 <= k.
  Proof. intros O k I. apply In_nth_error in I as (i & K). destruct (both _ i (o_len s O)) as [_ B]. destruct (B k K) as (x & V). now apply (o_range s O i x k V). Qed.
  Lemma rounded_norm s : ok s -> (0 < norm2 (s_rounded s))%Q.
  Proof. intros O. apply norm2_pos; [|now apply in_range]. intros E. pose proof (o_len s O) as L. rewrite E in L. apply v_ne. now destruct v. Qed.
  Lemma root s : ok s -> exists c p rest x k, s_heap s = (c, p) :: rest /\ nth_error v p = Some x /\ nth_error (s_rounded s) p = Some k /\ c = crit_of stop x k /\
    forall q y j, nth_error v q = Some y -> nth_error (s_rounded s) q = Some j -> crit_leb c (crit_of stop y j) = true.
  Proof.
    intros O. pose proof (o_heap s O) as P. pose proof (o_below s O) as B. destruct (s_heap s) as [|[c p] rest] eqn:E.
    - apply Permutation_nil in P. exfalso. pose proof (o_len s O). pose proof v_ne. destruct v as [|x v']; [congruence|]. destruct (s_rounded s); [discriminate|]. discriminate.
    - assert (I : In (c, p) (pairs stop 0 v (s_rounded s))) by (apply (Permutation_in _ P); now left). apply pairs_in in I as (q & x & k & -> & V & K & C). exists c, (0 + q), rest, x, k. split; [reflexivity|]. split; [exact V|]. split; [exact K|]. split; [exact C|].
      intros q' y j V' J. assert (I' : In (crit_of stop y j, q') ((c, 0 + q) :: rest)). { apply (Permutation_in _ (Permutation_sym P)). apply pairs_in. exists q', y, j. tauto. }
      apply In_nth_error in I' as (m & M). now apply (root_max pair_leb pair_total pair_trans _ B (c, 0 + q) eq_refl m (crit_of stop y j, q')).
  Qed.
  Definition better_of (s s' : search) (t : Q) : Prop :=
    (exists b, s_best s = Some b /\ (match2 v (s_rounded s') <= b)%Q /\ s_best s' = Some b /\ s_scale s' = s_scale s) \/
    ((forall b, s_best s = Some b -> (b < match2 v (s_rounded s'))%Q) /\ exists b, s_best s' = Some b /\ (b == match2 v (s_rounded s'))%Q /\ s_scale s' = Fin t).
  Lemma step_ok s : ok s -> (forall fuel, improve (S fuel) v stop s = Some (s_scale s, s_best s)) /\ s_rounded s = top \/
    exists p x k t s', nth_error v p = Some x /\ nth_error (s_rounded s) p = Some k /\ 1 <= k < stop /\ ~ (x == 0)%Q /\ (t * Qabs x == qn k + eps)%Q /\
      (forall q y j, nth_error v q = Some y -> nth_error (s_rounded s) q = Some j -> 1 <= j < stop -> ~ (y == 0)%Q -> (t * Qabs y <= qn j + eps)%Q) /\
      (forall fuel, improve (S fuel) v stop s = improve fuel v stop s') /\ ok s' /\ s_rounded s' = set_nth p (S k) (s_rounded s) /\ better_of s s' t.
  Proof.
    intros O. destruct (root s O) as (c & p & rest & x & k & EH & V & K & C & MIN). destruct (o_range s O p x k V K) as [KR KZ].
    assert (FIN : forall q y j, nth_error v q = Some y -> nth_error (s_rounded s) q = Some j -> 1 <= j < stop -> ~ (y == 0)%Q -> crit_leb c (Fin ((qn j + eps) / Qabs y)) = true /\ (0 < Qabs y)%Q).
    { intros q y j VY J JR Y. destruct (crit_fin stop y j JR Y) as [E P]. rewrite <- E. split; [now apply (MIN q)|exact P]. }
    destruct (is_max c) eqn:EM.
    - left. split; [intros fuel; cbn [improve]; rewrite EH, EM; reflexivity|]. destruct c; try discriminate.
      apply lists_eq; [apply (o_len s O)|apply top_len|]. intros i y a b VY A T. rewrite (top_at i y VY) in T. injection T as <-. destruct (o_range s O i y a VY A) as [AR AZ].
      destruct (Qeq_bool y 0) eqn:EY; [apply AZ; now apply Qeq_bool_iff|]. destruct (Nat.eq_dec a stop) as [D|D]; [exact D|]. exfalso.
      destruct (FIN i y a VY A ltac:(lia)) as [F _]; [intros Z; apply Qeq_bool_iff in Z; congruence|discriminate].
    - right. assert (KS : k < stop). { unfold crit_of in C. destruct (Nat.ltb_spec k stop); [assumption|]. subst c. discriminate. }
      assert (NZ : ~ (x == 0)%Q).
      { intros Z. destruct Hnz as (y & IY & NY). apply In_nth_error in IY as (q & VY). destruct (both _ q (o_len s O)) as [A _]. destruct (A y VY) as (j & J). pose proof (MIN q y j VY J) as M. subst c. unfold crit_of at 1 in M. destruct (Nat.ltb_spec k stop); [|lia]. unfold critical in M. destruct (Qeq_bool (Qabs x) 0) eqn:E; [|apply Qeq_bool_neq in E; apply E; rewrite Z; reflexivity].
        destruct (o_range s O q y j VY J) as [JR _]. destruct (Nat.eq_dec j stop) as [->|D]; [unfold crit_of in M; destruct (Nat.ltb_spec stop stop); [lia|discriminate]|]. destruct (crit_fin stop y j ltac:(lia) NY) as [F _]. rewrite F in M. discriminate. }
      destruct (crit_fin stop x k ltac:(lia) NZ) as [CF PX]. rewrite CF in C. subst c.
      set (t := ((qn k + eps) / Qabs x)%Q) in *. assert (TX : (t * Qabs x == qn k + eps)%Q) by (unfold t; field; lra).
      destruct (update_root_ok pair_leb pair_total pair_trans (Fin t, p) rest (fun _ => (crit_of stop x (S k), p))) as (h & EU & PU & BU); [rewrite <- EH; apply (o_below s O)|].
      set (ip := (s_ip s + Qabs x)%Q). set (sq := (s_sq s + qn (2 * k))%Q). set (sim := (ip * ip / sq)%Q). set (better := match s_best s with None => true | Some b => negb (Qle_bool sim b) end).
      set (s' := mkS h (set_nth p (S k) (s_rounded s)) ip sq (if better then Some sim else s_best s) (if better then Fin t else s_scale s)).
      assert (OK' : ok s').
      { constructor; cbn [s' s_heap s_rounded s_ip s_sq].
        - rewrite set_nth_length. apply (o_len s O).
        - intros i y j VY J. rewrite nth_error_set_nth in J. destruct (Nat.eqb_spec i p) as [->|D]; [|now apply (o_range s O i y j)]. destruct (p <? length (s_rounded s)); [|discriminate]. injection J as <-. rewrite V in VY. injection VY as <-. split; [lia|]. intros Z. now elim NZ.
        - destruct (pairs_set stop v (s_rounded s) 0 p x k (S k) V K) as (l1 & l2 & E1 & E2). cbn [Nat.add] in E1, E2. rewrite E2. rewrite <- PU. pose proof (o_heap s O) as P. rewrite EH, E1, CF in P. fold t in P. apply Permutation_cons_app. apply (Permutation_cons_app_inv _ _ P).
        - exact BU.
        - unfold ip. rewrite (o_ip s O). symmetry. now apply dot_set.
        - unfold sq. rewrite (o_sq s O), qn_double. symmetry. now apply norm2_set. }
      assert (SIM : (sim == match2 v (s_rounded s'))%Q). { unfold sim, match2. pose proof (o_ip s' OK') as E1. pose proof (o_sq s' OK') as E2. cbn [s' s_ip s_sq] in E1, E2. rewrite E1, E2. reflexivity. }
      exists p, x, k, t, s'. split; [exact V|]. split; [exact K|]. split; [lia|]. split; [exact NZ|]. split; [exact TX|]. split.
      { intros q y j VY J JR Y. destruct (FIN q y j VY J JR Y) as [F P]. cbn [crit_leb] in F. apply Qle_bool_iff in F. assert (E : (qn j + eps == (qn j + eps) / Qabs y * Qabs y)%Q) by (field; lra). rewrite E. apply Qmult_le_compat_r; [exact F|lra]. }
      split; [|split; [exact OK'|split; [reflexivity|]]].
      + intros fuel. cbn [improve]. rewrite EH. cbn [is_max]. rewrite K, V. cbv zeta. change (if S k <? stop then critical (S k) (Qabs x) else Max) with (crit_of stop x (S k)). rewrite EU. reflexivity.
      + unfold better_of, better. cbn [s' s_best s_scale]. unfold better. destruct (s_best s) as [b|] eqn:EB.
        * destruct (Qle_bool sim b) eqn:E; cbn [negb].
          -- left. exists b. apply Qle_bool_iff in E. split; [reflexivity|]. split; [now rewrite <- SIM|]. split; reflexivity.
          -- right. split; [intros b' [= <-]; rewrite <- SIM; apply Qnot_le_lt; intros L; apply Qle_bool_iff in L; congruence|]. exists sim. split; [reflexivity|]. split; [exact SIM|reflexivity].
        * right. split; [discriminate|]. exists sim. split; [reflexivity|]. split; [exact SIM|reflexivity].
  Qed.
  Definition work (r : list nat) : nat := list_sum (map (fun k => stop - k) r).
  Lemma work_set r : forall p k, nth_error r p = Some k -> k < stop -> S (work (set_nth p (S k) r)) = work r.
  Proof. unfold work. induction r as [|j r IH]; intros [|p] k; cbn [nth_error set_nth map list_sum fold_right]; try discriminate; [intros [= ->] L; unfold list_sum; cbn; lia|]. intros K L. specialize (IH p k K L). unfold list_sum in *. cbn [fold_right]. lia. Qed.
  (** It ends, and what is best only gets better. *)
  Lemma ends : forall fuel s, ok s -> work (s_rounded s) < fuel -> exists c b, improve fuel v stop s = Some (c, b) /\ forall b0, s_best s = Some b0 -> exists b1, b = Some b1 /\ (b0 <= b1)%Q.
  Proof.
    induction fuel as [|fuel IH]; intros s O W; [lia|]. destruct (step_ok s O) as [[E _]|(p & x & k & t & s' & V & K & KR & NX & TX & MIN & E & O' & ER & BE)].
    - rewrite E. eexists; eexists; split; [reflexivity|]. intros b0 H. exists b0. split; [exact H|lra].
    - rewrite E. destruct (IH s' O') as (c & b & E' & M); [rewrite ER; pose proof (work_set _ p k K ltac:(lia)); lia|]. exists c, b. split; [exact E'|]. intros b0 H0.
      destruct BE as [(b' & B1 & B2 & B3 & B4)|(B1 & b' & B2 & B3 & B4)].
      + destruct (M b' B3) as (b1 & M1 & M2). exists b1. split; [exact M1|]. congruence.
      + destruct (M b' B2) as (b1 & M1 & M2). exists b1. split; [exact M1|]. specialize (B1 b0 H0). lra.
  Qed.
  (** Every point that a scale reaches is compared with the best one. *)
  Lemma visits sc : forall fuel s, ok s -> work (s_rounded s) < fuel ->
    (forall i a b, nth_error (s_rounded s) i = Some a -> nth_error (levels stop sc v) i = Some b -> a <= b) ->
    (s_rounded s = levels stop sc v -> exists b, s_best s = Some b /\ (match2 v (s_rounded s) <= b)%Q) ->
    exists c b, improve fuel v stop s = Some (c, Some b) /\ (match2 v (levels stop sc v) <= b)%Q.
  Proof.
    induction fuel as [|fuel IH]; intros s O W LE VI; [lia|].
    destruct (list_eq_dec Nat.eq_dec (s_rounded s) (levels stop sc v)) as [EQ|NE].
    { destruct (VI EQ) as (b & B1 & B2). destruct (ends (S fuel) s O W) as (c & b' & E & M). destruct (M b B1) as (b1 & -> & L). exists c, b1. split; [exact E|]. rewrite <- EQ. lra. }
    (* a component that is behind *)
    assert (BEHIND : exists q y j, nth_error v q = Some y /\ nth_error (s_rounded s) q = Some j /\ j < level stop sc (Qabs y)).
    { destruct (existsb (fun i => match nth_error v i, nth_error (s_rounded s) i with Some y, Some j => j <? level stop sc (Qabs y) | _, _ => false end) (seq 0 (length v))) eqn:EX.
      - apply existsb_exists in EX as (i & _ & X). destruct (nth_error v i) as [y|] eqn:VY; [|discriminate]. destruct (nth_error (s_rounded s) i) as [j|] eqn:J; [|discriminate]. exists i, y, j. split; [exact VY|]. split; [exact J|]. now apply Nat.ltb_lt.
      - exfalso. apply NE. apply lists_eq; [apply (o_len s O)|apply levels_len|]. intros i y a b VY A T. pose proof (LE i a b A T) as L. rewrite (levels_at sc i y VY) in T. injection T as <-.
        destruct (Nat.eq_dec a (level stop sc (Qabs y))) as [D|D]; [exact D|]. exfalso. apply Bool.not_true_iff_false in EX. apply EX, existsb_exists. exists i. split; [apply in_seq; split; [lia|]; apply (at_lt v i y VY)|]. rewrite VY, A. apply Nat.ltb_lt. lia. }
    destruct BEHIND as (q & y & j & VY & J & JL). destruct (o_range s O q y j VY J) as [JR JZ]. pose proof (level_range stop sc (Qabs y) ltac:(lia)) as LR.
    assert (NY : ~ (y == 0)%Q). { intros Z. assert (A0 : (Qabs y == 0)%Q) by (rewrite Z; reflexivity). rewrite (level_zero stop sc _ A0) in JL. lia. }
    assert (JT : (qn j + eps <= sc * Qabs y)%Q) by (apply (level_spec stop); [lia|exact JL]). destruct (crit_fin stop y j ltac:(lia) NY) as [_ PY].
    destruct (step_ok s O) as [[_ E]|(p & x & k & t & s' & V & K & KR & NX & TX & MIN & E & O' & ER & BE)].
    { exfalso. rewrite E in J. rewrite (top_at q y VY) in J. destruct (Qeq_bool y 0) eqn:EY; [apply Qeq_bool_iff in EY; congruence|]. injection J as <-. lia. }
    rewrite E. apply IH; [exact O'|rewrite ER; pose proof (work_set _ p k K ltac:(lia)); lia| |].
    - intros i a b A T. rewrite ER in A. rewrite nth_error_set_nth in A. destruct (Nat.eqb_spec i p) as [->|D]; [|now apply (LE i)]. destruct (p <? length (s_rounded s)); [|discriminate]. injection A as <-. rewrite (levels_at sc p x V) in T. injection T as <-.
      apply level_spec; [lia|]. destruct (crit_fin stop x k ltac:(lia) NX) as [_ PX]. pose proof (MIN q y j VY J ltac:(lia) NY) as M. rewrite <- TX. assert (t <= sc)%Q by (apply (Qmult_lt_0_le_reg_r _ _ (Qabs y) PY); lra). apply Qmult_le_compat_r; lra.
    - intros _. destruct BE as [(b' & B1 & B2 & B3 & B4)|(B1 & b' & B2 & B3 & B4)]; exists b'; (split; [assumption|lra]).
  Qed.
End Loop.
