From Verif.Lib Require Import Base Lists F32.
From Verif.Adjacency Require Import Proofs.
From Verif.Prune Require Import Model Spec.

Lemma wrap16_id i : (N.of_nat i <= 65535)%N -> wrap16 i = i.
Proof. intros H. unfold wrap16. rewrite N.mod_small by lia. lia. Qed.

Lemma f32_gt_false x y : is_nan x = false -> is_nan y = false ->
  f32_gt x y = false -> (f32_key x <= f32_key y)%Z.
Proof. intros. apply f32_lt_false; auto. Qed.
Lemma f32_gt_nan_l x y : is_nan x = true -> f32_gt x y = false.
Proof. intros H. unfold f32_gt, f32_lt. rewrite H. cbn. now rewrite andb_false_r. Qed.
Lemma f32_gt_intro_false x y : (is_nan x = false -> is_nan y = false -> (f32_key x <= f32_key y)%Z) ->
  f32_gt x y = false.
Proof.
  intros H. destruct (f32_gt x y) eqn:E; auto. apply f32_lt_spec in E.
  destruct E as (A & B & C). specialize (H B A). lia.
Qed.
Lemma f32_eq_spec x y : f32_eq x y = true <->
  is_nan x = false /\ is_nan y = false /\ f32_key x = f32_key y.
Proof.
  unfold f32_eq. rewrite !andb_true_iff, !negb_true_iff, Z.eqb_eq. tauto.
Qed.

Section prune.
Context {V : Type}.
Variable ar : farith.
Variable dist : V -> V -> f32.
Variable kind : prune_kind.
Variable cache : list (f32 * option V).
Variable alpha : f32.
Hypothesis Halpha : sane_alpha alpha.
Hypothesis Hlen : (N.of_nat (length cache) <= 65535)%N.

Notation scale := (scale ar alpha).
Notation update := (update_occlude_factor ar).

(** Scales are numbers below [f32::MAX]. *)
Lemma scale_small a : scale a -> f32_lt a f32_max = true.
Proof.
  intros H. destruct H as [|c H E]; [reflexivity|].
  unfold f32_fmin at 1. set (m := fmul _ _ _). clearbody m.
  destruct (is_nan m) eqn:Em; [exact Halpha|].
  unfold sane_alpha in Halpha. pose proof Halpha as Ha. apply f32_lt_spec in Ha as (Na & _ & Ka).
  rewrite Na. destruct (f32_lt alpha m) eqn:L; [exact Halpha|].
  apply f32_lt_false in L; auto. apply f32_lt_spec. split; [auto|]. split; [reflexivity|]. lia.
Qed.

Lemma upd_tri a ik jk occ : scale a -> is_nan occ = false -> f32_gt occ a = false ->
  let occ' := update TriangleInequality ik jk occ a in
  is_nan occ' = false /\ (occ' = occ \/ occ' = factor ar ik jk) /\
  f32_gt (factor ar ik jk) occ' = false /\ (f32_key occ <= f32_key occ')%Z.
Proof.
  intros Sa No Go. apply scale_small in Sa. apply f32_lt_spec in Sa as (Na & _ & Ka).
  apply f32_gt_false in Go; auto. cbv zeta. unfold update_occlude_factor, factor.
  destruct (f32_eq jk f32_zero).
  - split; [reflexivity|]. split; [now right|]. split; [|lia].
    apply f32_gt_intro_false. intros. lia.
  - set (q := fdiv ar ik jk). clearbody q. unfold f32_fmax. rewrite No.
    destruct (is_nan q) eqn:Nq.
    + split; [auto|]. split; [auto|]. split; [|lia]. now apply f32_gt_nan_l.
    + destruct (f32_lt occ q) eqn:L.
      * split; [auto|]. split; [auto|]. apply f32_lt_spec in L as (_ & _ & L).
        split; [|lia]. apply f32_gt_intro_false. lia.
      * split; [auto|]. split; [auto|]. split; [exact L|lia].
Qed.

(** Why candidate [(ik, v)] carries occlude factor [occ], blamed on [w]. *)
Definition cause (ik : f32) (v w : V) (occ : f32) : Prop :=
  match kind with
  | TriangleInequality => occ = factor ar ik (dist v w)
  | Occluding => exists a, scale a /\ occluded_ip ar dist a ik v w /\ occ = fadd ar a f32_0_01
  end.

Definition cand_ok (P : list nat) (i : nat) (ik : f32) (v : V) (occ : f32) (last : nat) : Prop :=
  (occ = f32_zero \/
   exists n p d w, n < last /\ nth_error P n = Some p /\ p < i /\
     nth_error cache p = Some (d, Some w) /\ cause ik v w occ) /\
  (kind = TriangleInequality -> is_nan occ = false /\
   forall n p d w, n < last -> nth_error P n = Some p -> p < i ->
     nth_error cache p = Some (d, Some w) -> f32_gt (factor ar ik (dist v w)) occ = false).

Definition good_pos (p : nat) : Prop := exists d w, nth_error cache p = Some (d, Some w).

Lemma nth_firstn_map states found n p :
  nth_error (map s_nb (firstn found states)) n = Some p ->
  exists st, nth_error states n = Some st /\ s_nb st = p /\ n < found.
Proof.
  intros H. assert (L : n < length (map s_nb (firstn found states))).
  { apply nth_error_lt in H. exact H. }
  rewrite map_length, firstn_length in L.
  rewrite nth_error_map in H. rewrite nth_error_firstn' in H by lia.
  destruct (nth_error states n) as [st|]; [|discriminate]. inv H. exists st. repeat split; auto. lia.
Qed.

Lemma scan_spec states found i ik v a :
  scale a -> found <= length cache -> found <= length states ->
  Forall good_pos (map s_nb (firstn found states)) ->
  forall n last occ, n = found - last -> last <= found ->
  f32_gt occ a = false ->
  cand_ok (map s_nb (firstn found states)) i ik v occ last ->
  exists last' occ',
    scan ar dist kind cache states found i ik v a n last occ = Some (last', occ') /\
    last' <= found /\
    cand_ok (map s_nb (firstn found states)) i ik v occ' last' /\
    (f32_gt occ' a = false -> last' = found).
Proof.
  intros Sa Lf Ls Gp. set (P := map s_nb (firstn found states)) in *.
  induction n as [|n IH]; intros last occ En Ll Go C.
  - cbn [scan]. assert (last = found) by lia. subst last. rewrite Nat.eqb_refl.
    exists found, occ. auto.
  - cbn [scan].
    destruct (nth_error states last) as [st|] eqn:Es.
    2:{ apply nth_error_None in Es. lia. }
    cbv zeta. rewrite wrap16_id by lia.
    assert (EP : nth_error P last = Some (s_nb st)).
    { unfold P. rewrite nth_error_map, nth_error_firstn' by lia. now rewrite Es. }
    destruct C as [C1 C2].
    destruct (Nat.leb_spec i (s_nb st)) as [Le|Lt].
    + apply IH; auto; try lia. split.
      * destruct C1 as [C1|(m & p & d & w & Hm & R)]; [now left|]. right.
        exists m, p, d, w. split; [lia|exact R].
      * intros K. destruct (C2 K) as [N F]. split; [auto|]. intros m p d w Hm Hp Hpi.
        destruct (Nat.eq_dec m last) as [->|]; [|apply F with (n := m) (d := d); auto; lia].
        exfalso. rewrite EP in Hp. inv Hp. lia.
    + assert (G : good_pos (s_nb st)).
      { rewrite Forall_forall in Gp. apply Gp. eapply nth_error_In; eauto. }
      destruct G as (d & w & Ew). rewrite Ew.
      set (occ' := update kind ik (dist v w) occ a).
      assert (C' : cand_ok P i ik v occ' (S last)).
      { assert (Keep : occ' = occ \/ cause ik v w occ').
        { unfold occ', cause. destruct kind eqn:K.
          - destruct (C2 eq_refl) as [N _].
            destruct (upd_tri a ik (dist v w) occ Sa N Go) as (_ & E & _). exact E.
          - cbn [update_occlude_factor].
            destruct (f32_lt (dist v w) (fmul ar a ik)) eqn:L; [|now left].
            right. exists a. auto. }
        split.
        - destruct Keep as [E|E].
          + rewrite E. destruct C1 as [C1|(m & p & d' & w' & Hm & R)]; [now left|]. right.
            exists m, p, d', w'. split; [lia|exact R].
          + right. exists last, (s_nb st), d, w. repeat split; auto.
        - intros K. destruct (C2 K) as [N F]. unfold occ'. rewrite K.
          destruct (upd_tri a ik (dist v w) occ Sa N Go) as (N' & _ & G' & Mo).
          split; [exact N'|]. intros m p d' w' Hm Hp Hpi Hw.
          destruct (Nat.eq_dec m last) as [->|].
          + rewrite EP in Hp. inv Hp. rewrite Ew in Hw. inv Hw. exact G'.
          + apply f32_gt_intro_false. intros N1 N2.
            assert (X : f32_gt (factor ar ik (dist v w')) occ = false)
              by (apply F with (n := m) (p := p) (d := d'); auto; lia).
            apply f32_gt_false in X; auto. lia. }
      destruct (f32_gt occ' a) eqn:G'.
      * exists (S last), occ'. split; [auto|]. split; [lia|]. split; [auto|]. congruence.
      * apply IH; auto; lia.
Qed.

(** The invariant of the candidate loop. [As]: the scale at which each kept candidate was
    kept. *)
Definition kept_ok (P : list nat) (As : list f32) : Prop :=
  length As = length P /\ Forall scale As /\
  (kind = TriangleInequality ->
   forall n m p q a d v d' w, nth_error P n = Some p -> nth_error As n = Some a ->
     m < n -> nth_error P m = Some q -> q < p ->
     nth_error cache p = Some (d, Some v) -> nth_error cache q = Some (d', Some w) ->
     f32_gt (factor ar d (dist v w)) a = false).

Record PInv (states : list pstate) (found : nat) (As : list f32) : Prop := {
  pi_len : length states = length cache;
  pi_found : found <= length states;
  pi_nodup : NoDup (map s_nb (firstn found states));
  pi_good : Forall good_pos (map s_nb (firstn found states));
  pi_cand : forall i st d v, nth_error states i = Some st ->
     nth_error cache i = Some (d, Some v) ->
     (In i (map s_nb (firstn found states)) /\ s_occ st = f32_max) \/
     (~ In i (map s_nb (firstn found states)) /\ s_last st <= found /\
      cand_ok (map s_nb (firstn found states)) i d v (s_occ st) (s_last st));
  pi_kept : kept_ok (map s_nb (firstn found states)) As;
}.

Lemma firstn_set_cand states i st occ last found : nth_error states i = Some st ->
  map s_nb (firstn found (set_nth i (set_cand st occ last) states)) =
  map s_nb (firstn found states).
Proof.
  intros E. rewrite <- !firstn_map. f_equal. apply nth_error_ext. intros j.
  rewrite !nth_error_map, nth_error_set_nth. destruct (Nat.eqb_spec j i) as [->|]; [|auto].
  rewrite E. destruct (Nat.ltb_spec i (length states)) as [|L]; [reflexivity|].
  apply nth_error_None in L. congruence.
Qed.

Lemma firstn_set_nb states sf found i : nth_error states found = Some sf ->
  (N.of_nat i <= 65535)%N ->
  map s_nb (firstn (S found) (set_nth found (set_nb sf i) states)) =
  map s_nb (firstn found states) ++ [i].
Proof.
  intros E Li. apply nth_error_ext. intros j.
  assert (Lf : found < length states) by (eapply nth_error_lt; eauto).
  assert (Lm : length (map s_nb (firstn found states)) = found).
  { rewrite map_length, firstn_length. lia. }
  destruct (Nat.lt_trichotomy j found) as [H|[->|H]].
  - rewrite nth_error_app1 by lia. rewrite !nth_error_map, !nth_error_firstn' by lia.
    rewrite nth_error_set_nth. destruct (Nat.eqb_spec j found); [lia|reflexivity].
  - rewrite nth_error_app2 by lia. rewrite Lm, Nat.sub_diag.
    rewrite nth_error_map, nth_error_firstn' by lia. rewrite nth_error_set_nth, Nat.eqb_refl.
    destruct (Nat.ltb_spec found (length states)); [|lia]. cbn [option_map set_nb s_nb nth_error].
    now rewrite wrap16_id.
  - transitivity (@None nat); [|symmetry]; apply nth_error_None.
    + rewrite map_length, firstn_length. lia.
    + rewrite app_length. cbn. lia.
Qed.

Lemma cand_ok_grow P x i ik v occ last : last <= length P ->
  cand_ok P i ik v occ last -> cand_ok (P ++ [x]) i ik v occ last.
Proof.
  intros L [C1 C2]. split.
  - destruct C1 as [C1|(n & p & d & w & Hn & Hp & R)]; [now left|]. right.
    exists n, p, d, w. rewrite nth_error_app1 by lia. auto.
  - intros K. destruct (C2 K) as [N F]. split; [auto|]. intros n p d w Hn Hp.
    rewrite nth_error_app1 in Hp by lia. apply F with (n := n); auto.
Qed.

Lemma consider_spec a i c states found As : scale a -> PInv states found As ->
  nth_error cache i = Some c ->
  exists states' found' As',
    consider ar dist kind cache a i c states found = Some (states', found') /\
    PInv states' found' As' /\
    ((found' = found /\ As' = As) \/ (found' = S found /\ As' = As ++ [a])) /\
    (exists x, kept (states', found') = kept (states, found) ++ x) /\
    (forall d v, c = (d, Some v) -> f32_eq a alpha = true ->
       ~ In i (kept (states', found')) ->
       exists st, nth_error states' i = Some st /\ f32_gt (s_occ st) alpha = true) /\
    (forall j, j <> i -> option_map s_occ (nth_error states' j) = option_map s_occ (nth_error states j)).
Proof.
  intros Sa I Ec. destruct I as [I1 I2 I3 I4 I5 I6].
  pose proof (nth_error_lt _ _ _ Ec) as Li.
  unfold consider. destruct (nth_error states i) as [st|] eqn:Es.
  2:{ apply nth_error_None in Es. lia. }
  assert (Eqa : f32_eq a alpha = true -> f32_gt (s_occ st) a = true ->
                f32_gt (s_occ st) alpha = true).
  { intros E G. apply f32_eq_spec in E as (? & ? & ?). apply f32_lt_spec in G as (? & ? & ?).
    apply f32_lt_spec. repeat split; auto. lia. }
  destruct (f32_gt (s_occ st) a) eqn:Go.
  { exists states, found, As. split; [auto|]. split; [now constructor|].
    split; [auto|]. split; [exists []; now rewrite app_nil_r|]. split; [|auto].
    intros d v -> E _. exists st. split; auto. }
  destruct c as [d [v|]]; cbn [snd fst].
  2:{ eexists _, found, As. split; [reflexivity|].
      assert (EP := firstn_set_cand states i st f32_max (s_last st) found Es).
      split.
      - constructor; rewrite ?EP, ?set_nth_length; auto. intros j sj dj vj Hj Hc.
        rewrite nth_error_set_nth in Hj. destruct (Nat.eqb_spec j i) as [->|].
        + rewrite Ec in Hc. discriminate.
        + apply (I5 j sj dj vj); auto.
      - split; [auto|]. split; [|split].
        + exists []. unfold kept. cbn [fst snd]. now rewrite EP, app_nil_r.
        + intros ? ? [=].
        + intros j Hj. rewrite nth_error_set_nth. destruct (Nat.eqb_spec j i); [congruence|auto]. }
  destruct (I5 i st d v Es Ec) as [[Hin Hocc]|(Hni & Hlast & Hc)].
  { exfalso. rewrite Hocc in Go. pose proof (scale_small _ Sa) as S. unfold f32_gt in Go.
    congruence. }
  destruct (scan_spec states found i d v a Sa ltac:(lia) I2 I4 _ _ _ eq_refl Hlast Go Hc)
    as (last & occ & Esc & Ll & Hc' & Hend).
  rewrite Esc. destruct (f32_gt occ a) eqn:Gn.
  - eexists _, found, As. split; [reflexivity|].
    assert (EP := firstn_set_cand states i st occ last found Es).
    split.
    + constructor; rewrite ?EP, ?set_nth_length; auto. intros j sj dj vj Hj Hcj.
      rewrite nth_error_set_nth in Hj. destruct (Nat.eqb_spec j i) as [->|].
      * destruct (i <? length states); inv Hj. rewrite Ec in Hcj. inv Hcj. right.
        cbn [set_cand s_occ s_last]. auto.
      * apply (I5 j sj dj vj); auto.
    + split; [auto|]. split; [|split].
      * exists []. unfold kept. cbn [fst snd]. now rewrite EP, app_nil_r.
      * intros ? ? _ E _. exists (set_cand st occ last). rewrite nth_error_set_nth, Nat.eqb_refl.
        destruct (Nat.ltb_spec i (length states)); [|lia]. split; [auto|].
        cbn [set_cand s_occ]. apply f32_eq_spec in E as (? & ? & ?).
        apply f32_lt_spec in Gn as (? & ? & ?). apply f32_lt_spec. repeat split; auto. lia.
      * intros j Hj. rewrite nth_error_set_nth. destruct (Nat.eqb_spec j i); [congruence|auto].
  - specialize (Hend eq_refl). subst last. cbv zeta.
    set (states1 := set_nth i (set_cand st f32_max found) states).
    assert (EP := firstn_set_cand states i st f32_max found found Es). fold states1 in EP.
    assert (L1 : length states1 = length states) by apply set_nth_length.
    assert (Lm : length (map s_nb (firstn found states)) = found).
    { rewrite map_length, firstn_length. lia. }
    assert (Nd' : NoDup (map s_nb (firstn found states) ++ [i])) by now apply NoDup_snoc.
    assert (Gd' : Forall good_pos (map s_nb (firstn found states) ++ [i])).
    { apply Forall_app. split; auto. constructor; [|constructor]. exists d, v. auto. }
    assert (Lf : found < length states).
    { assert (X : length (map s_nb (firstn found states) ++ [i]) <= length (seq 0 (length cache))).
      { apply NoDup_incl_length; auto. intros p Hp. rewrite Forall_forall in Gd'.
        destruct (Gd' _ Hp) as (? & ? & E). apply in_seq. apply nth_error_lt in E. lia. }
      rewrite app_length, seq_length in X. cbn in X. lia. }
    destruct (nth_error states1 found) as [sf|] eqn:Ef.
    2:{ apply nth_error_None in Ef. lia. }
    assert (EP' : map s_nb (firstn (S found) (set_nth found (set_nb sf i) states1)) =
                  map s_nb (firstn found states) ++ [i]).
    { rewrite firstn_set_nb; auto; [now rewrite EP|lia]. }
    assert (Occ : forall j, j <> i ->
       option_map (fun s => (s_occ s, s_last s)) (nth_error (set_nth found (set_nb sf i) states1) j) =
       option_map (fun s => (s_occ s, s_last s)) (nth_error states j)).
    { intros j Hj. rewrite nth_error_set_nth. destruct (Nat.eqb_spec j found) as [->|].
      - destruct (Nat.ltb_spec found (length states1)); [|lia]. cbn [option_map set_nb s_occ s_last].
        assert (E : nth_error states1 found = nth_error states found).
        { unfold states1. rewrite nth_error_set_nth. destruct (Nat.eqb_spec found i); [congruence|auto]. }
        rewrite Ef in E. rewrite <- E. reflexivity.
      - unfold states1. rewrite nth_error_set_nth. destruct (Nat.eqb_spec j i); [congruence|auto]. }
    exists (set_nth found (set_nb sf i) states1), (S found), (As ++ [a]).
    split; [reflexivity|]. split.
    + constructor; rewrite ?EP', ?set_nth_length; auto; try lia.
      * intros j sj dj vj Hj Hcj. destruct (Nat.eq_dec j i) as [->|Nj].
        -- left. split; [apply in_or_app; cbn; auto|].
           assert (E : option_map s_occ (nth_error (set_nth found (set_nb sf i) states1) i) = Some f32_max).
           { rewrite nth_error_set_nth. destruct (Nat.eqb_spec i found) as [->|Ne].
             - destruct (Nat.ltb_spec found (length states1)); [|lia].
               cbn [option_map set_nb s_occ]. unfold states1 in Ef.
               rewrite nth_error_set_nth, Nat.eqb_refl in Ef.
               destruct (Nat.ltb_spec found (length states)); [|lia]. inv Ef. reflexivity.
             - unfold states1. rewrite nth_error_set_nth, Nat.eqb_refl.
               destruct (Nat.ltb_spec i (length states)); [|lia]. reflexivity. }
           rewrite Hj in E. now inv E.
        -- specialize (Occ j Nj). rewrite Hj in Occ. cbn [option_map] in Occ.
           destruct (nth_error states j) as [sj0|] eqn:Ej; [|discriminate]. inv Occ.
           rewrite H0, H1. destruct (I5 j sj0 dj vj Ej Hcj) as [[A B]|(A & B & C)].
           ++ left. split; [apply in_or_app; auto|auto].
           ++ right. split.
              { rewrite in_app_iff. cbn. intros [?|[?|[]]]; [auto|congruence]. }
              split; [lia|]. apply cand_ok_grow; [lia|auto].
      * destruct I6 as (K1 & K2 & K3). split; [rewrite !app_length; cbn; lia|].
        split; [apply Forall_app; auto|]. intros K n m p q a' dp vp dq w Hn Ha Hm Hq Hqp Cp Cq.
        assert (Ln : n < length As + 1).
        { apply nth_error_lt in Ha. rewrite app_length in Ha. exact Ha. }
        destruct (Nat.eq_dec n (length As)) as [->|Nn].
        -- rewrite nth_error_app2 in Ha by lia. rewrite Nat.sub_diag in Ha. inv Ha.
           rewrite nth_error_app2 in Hn by lia. rewrite K1, Nat.sub_diag in Hn. inv Hn.
           rewrite nth_error_app1 in Hq by lia. rewrite Ec in Cp. inv Cp.
           destruct Hc' as [_ Hc']. destruct (Hc' K) as [N F].
           assert (X : f32_gt (factor ar dp (dist vp w)) occ = false)
             by (apply F with (n := m) (p := q) (d := dq); auto; lia).
           pose proof (scale_small _ Sa) as Sm. apply f32_lt_spec in Sm as (Na' & _ & _).
           apply f32_gt_intro_false. intros N1 N2. apply f32_gt_false in X; auto.
           apply f32_gt_false in Gn; auto. lia.
        -- rewrite nth_error_app1 in Ha by lia. rewrite nth_error_app1 in Hn, Hq by lia.
           apply (K3 K n m p q a' dp vp dq w); auto.
    + split; [auto|]. split; [|split].
      * exists [i]. unfold kept. cbn [fst snd]. exact EP'.
      * intros ? ? _ _ Hn. exfalso. apply Hn. unfold kept. cbn [fst snd]. rewrite EP'.
        apply in_or_app. cbn. auto.
      * intros j Hj. specialize (Occ j Hj).
        destruct (nth_error (set_nth found (set_nb sf i) states1) j), (nth_error states j);
          inv Occ; cbn; congruence.
Qed.

Definition all_done (states : list pstate) (found i : nat) : Prop :=
  forall j d v, j < i -> nth_error cache j = Some (d, Some v) ->
    ~ In j (kept (states, found)) ->
    exists st, nth_error states j = Some st /\ f32_gt (s_occ st) alpha = true.

Lemma pass_spec a degree : scale a -> forall rest i states found As,
  skipn i cache = rest -> PInv states found As -> found <= degree ->
  (f32_eq a alpha = true -> all_done states found i) ->
  exists states' found' As',
    pass ar dist kind cache a degree i rest states found = Some (states', found') /\
    PInv states' found' As' /\ found <= found' <= degree /\
    (exists x, kept (states', found') = kept (states, found) ++ x) /\
    (found' < degree -> f32_eq a alpha = true -> all_done states' found' (length cache)).
Proof.
  intros Sa. induction rest as [|c rest IH]; intros i states found As Er I Ld D.
  - cbn [pass]. exists states, found, As. split; [auto|]. split; [auto|]. split; [auto|].
    split; [exists []; now rewrite app_nil_r|]. intros _ E j d v Hj Hc. apply (D E j d v); auto.
    assert (L : length (skipn i cache) = 0) by now rewrite Er. rewrite skipn_length in L. lia.
  - cbn [pass]. destruct (Nat.leb_spec degree found) as [Le|Lt].
    + exists states, found, As. split; [auto|]. split; [auto|]. split; [auto|].
      split; [exists []; now rewrite app_nil_r|]. lia.
    + assert (Ec : nth_error cache i = Some c).
      { rewrite <- (Nat.add_0_r i), <- nth_error_skipn', Er. reflexivity. }
      destruct (consider_spec a i c states found As Sa I Ec)
        as (s1 & f1 & As1 & E1 & I1 & F1 & (x1 & X1) & D1 & O1).
      rewrite E1.
      destruct (IH (S i) s1 f1 As1) as (s2 & f2 & As2 & E2 & I2 & F2 & (x2 & X2) & D2).
      * rewrite <- Nat.add_1_r, <- skipn_skipn', Er. reflexivity.
      * auto.
      * destruct F1 as [[-> _]|[-> _]]; lia.
      * intros E j d v Hj Hc Hn. destruct (Nat.eq_dec j i) as [->|Nj].
        { rewrite Ec in Hc. inv Hc. apply (D1 d v); auto. }
        specialize (O1 j Nj).
        destruct (D E j d v) as (st & Es & G); [lia|auto| |].
        { intros H. apply Hn. rewrite X1. apply in_or_app. auto. }
        rewrite Es in O1. destruct (nth_error s1 j) as [st'|]; [|discriminate].
        cbn in O1. inv O1. exists st'. rewrite H0. auto.
      * exists s2, f2, As2. split; [auto|]. split; [auto|]. split.
        { destruct F1 as [[-> _]|[-> _]]; lia. }
        split; [|auto]. exists (x1 ++ x2). rewrite X2, X1. now rewrite app_assoc.
Qed.

Definition final_ok (degree : nat) (r : list pstate * nat) : Prop :=
  exists As, PInv (fst r) (snd r) As /\ snd r <= degree /\
    (snd r < degree -> all_done (fst r) (snd r) (length cache)).

Lemma rounds_spec degree : forall fuel a states found As,
  scale a -> PInv states found As -> found <= degree ->
  match rounds ar dist kind cache fuel alpha a degree states found with
  | Done r => final_ok degree r
  | Panic => False
  | OutOfFuel => True
  end.
Proof.
  induction fuel as [|fuel IH]; intros a states found As Sa I Ld; cbn [rounds].
  - destruct (Nat.ltb_spec found degree); [exact Logic.I|].
    exists As. cbn [fst snd]. split; [auto|]. split; [auto|]. lia.
  - destruct (Nat.ltb_spec found degree) as [Lt|].
    2:{ exists As. cbn [fst snd]. split; [auto|]. split; [auto|]. lia. }
    destruct (pass_spec a degree Sa cache 0 states found As) as (s1 & f1 & As1 & E1 & I1 & F1 & _ & D1).
    + reflexivity.
    + auto.
    + lia.
    + intros _ j d v Hj. lia.
    + rewrite E1. destruct (f32_eq a alpha) eqn:Ea.
      * exists As1. cbn [fst snd]. split; [auto|]. split; [lia|]. auto.
      * apply (IH _ _ _ As1); auto; [|lia]. now apply scale_next.
Qed.

Lemma init_inv : PInv (repeat ps_default (length cache)) 0 [].
Proof.
  constructor.
  - apply repeat_length.
  - lia.
  - constructor.
  - constructor.
  - intros i st d v Hs Hc. right. split; [auto|]. apply nth_error_In, repeat_spec in Hs. subst st.
    cbn. split; [lia|]. split; [now left|]. intros _. split; [reflexivity|]. intros. lia.
  - split; [reflexivity|]. split; [constructor|]. intros _ n m p q a d v d' w Hn. destruct n; discriminate.
Qed.

Lemma prune_spec fuel degree :
  match robust_prune ar dist kind cache fuel alpha degree (repeat ps_default (length cache)) with
  | Done r => final_ok degree r
  | Panic => False
  | OutOfFuel => True
  end.
Proof.
  apply rounds_spec with (As := []); [constructor|apply init_inv|lia].
Qed.

(** ** Refinement of the textbook algorithm (triangle inequality kind) *)
Hypothesis Hkind : kind = TriangleInequality.
Hypothesis Hnn : mul_nonneg ar.
Hypothesis Ha0 : f32_le f32_zero alpha = true.

Lemma scale_nonneg a : scale a -> f32_le f32_zero a = true.
Proof.
  intros H. induction H as [|c H IH E]; [reflexivity|].
  assert (Hi : f32_le f32_zero (f32_fmin alpha f32_1_2) = true).
  { unfold f32_fmin. apply f32_le_spec in Ha0 as Ha. destruct Ha as (_ & Na & Ka). rewrite Na.
    change (is_nan f32_1_2) with false. cbv iota. destruct (f32_lt f32_1_2 alpha); auto. }
  specialize (Hnn _ _ IH Hi). set (m := fmul _ _ _) in *. clearbody m.
  unfold f32_fmin at 1. destruct (is_nan m) eqn:Em; [exact Ha0|].
  apply f32_le_spec in Ha0 as Ha. destruct Ha as (_ & Na & Ka). rewrite Na.
  destruct (f32_lt alpha m); [exact Ha0|]. apply f32_gt_false in Hnn; auto.
  apply f32_le_spec. auto.
Qed.

Lemma zero_not_gt a : scale a -> f32_gt f32_zero a = false.
Proof.
  intros H. apply scale_nonneg in H. apply f32_le_spec in H as (A & B & C).
  apply f32_gt_intro_false. auto.
Qed.

(** A candidate whose factor exceeds [a] is blocked. *)
Lemma cand_gt_blocked a P i ik v occ last : scale a -> cand_ok P i ik v occ last ->
  nth_error cache i = Some (ik, Some v) -> f32_gt occ a = true ->
  blocked ar dist cache a i P = true.
Proof.
  intros Sa [C1 _] Ec G. destruct C1 as [->|(n & p & d & w & Hn & Hp & Hpi & Ew & Cz)].
  { rewrite zero_not_gt in G by auto. discriminate. }
  unfold blocked. rewrite Ec. apply existsb_exists. exists p.
  split; [eapply nth_error_In; eauto|]. rewrite Ew. unfold cause in Cz. rewrite Hkind in Cz.
  subst occ. rewrite G. destruct (Nat.ltb_spec p i); [reflexivity|lia].
Qed.

Lemma cand_le_free a P i ik v occ : scale a -> cand_ok P i ik v occ (length P) ->
  nth_error cache i = Some (ik, Some v) -> f32_gt occ a = false ->
  blocked ar dist cache a i P = false.
Proof.
  intros Sa [_ C2] Ec G. destruct (C2 Hkind) as [N F]. unfold blocked. rewrite Ec.
  destruct (existsb _ P) eqn:X; [|auto]. exfalso.
  apply existsb_exists in X as (p & Hp & X). apply andb_true_iff in X as [L X].
  apply Nat.ltb_lt in L. destruct (nth_error cache p) as [[d [w|]]|] eqn:Ew; try discriminate.
  apply In_nth_error in Hp as (n & Hn).
  assert (Ln : n < length P) by (eapply nth_error_lt; eauto).
  specialize (F n p d w Ln Hn L Ew). apply scale_small in Sa. apply f32_lt_spec in Sa as (Na & _ & _).
  apply f32_lt_spec in X as (_ & Nf & K). apply f32_gt_false in F; auto.
  apply f32_gt_false in G; auto. lia.
Qed.

Lemma consider_ref a i c states found As states' found' : scale a -> PInv states found As ->
  nth_error cache i = Some c ->
  consider ar dist kind cache a i c states found = Some (states', found') ->
  kept (states', found') =
    if existsb (Nat.eqb i) (kept (states, found)) || blocked ar dist cache a i (kept (states, found))
    then kept (states, found) else kept (states, found) ++ [i].
Proof.
  intros Sa I Ec E. pose proof I as I0. destruct I as [I1 I2 I3 I4 I5 I6].
  pose proof (nth_error_lt _ _ _ Ec) as Li. unfold consider in E.
  destruct (nth_error states i) as [st|] eqn:Es; [|discriminate].
  change (kept (states, found)) with (map s_nb (firstn found states)) in *.
  set (P := map s_nb (firstn found states)) in *.
  assert (Lm : length P = found).
  { unfold P. rewrite map_length, firstn_length. lia. }
  destruct c as [d [v|]]; cbn [fst snd] in E.
  2:{ assert (B : blocked ar dist cache a i P = true) by (unfold blocked; now rewrite Ec).
      rewrite B, orb_true_r. destruct (f32_gt (s_occ st) a); injection E as <- <-; [reflexivity|].
      unfold kept. cbn [fst snd]. now apply firstn_set_cand. }
  destruct (I5 i st d v Es Ec) as [[Hin Hocc]|(Hni & Hlast & Hc)].
  { rewrite Hocc in E. pose proof (scale_small _ Sa) as S. unfold f32_gt in E. rewrite S in E.
    injection E as <- <-. apply mem_spec in Hin. unfold mem in Hin. rewrite Hin. reflexivity. }
  assert (Hm : existsb (Nat.eqb i) P = false) by now apply mem_false.
  rewrite Hm, orb_false_l.
  destruct (f32_gt (s_occ st) a) eqn:Go.
  { injection E as <- <-. rewrite (cand_gt_blocked a P i d v _ _ Sa Hc Ec Go). reflexivity. }
  destruct (scan_spec states found i d v a Sa ltac:(lia) I2 I4 _ _ _ eq_refl Hlast Go Hc)
    as (last & occ & Esc & Ll & Hc' & Hend).
  rewrite Esc in E. destruct (f32_gt occ a) eqn:Gn.
  - injection E as <- <-. rewrite (cand_gt_blocked a P i d v _ _ Sa Hc' Ec Gn).
    unfold kept. cbn [fst snd]. now apply firstn_set_cand.
  - specialize (Hend eq_refl). subst last. cbv zeta in E.
    assert (Hc2 : cand_ok P i d v occ (length P)) by (rewrite Lm; exact Hc').
    rewrite (cand_le_free a P i d v occ Sa Hc2 Ec Gn).
    destruct (nth_error (set_nth i (set_cand st f32_max found) states) found) as [sf|] eqn:Ef;
      [|discriminate]. injection E as <- <-. unfold kept. cbn [fst snd].
    rewrite firstn_set_nb by (auto; lia). f_equal. now apply firstn_set_cand.
Qed.

Lemma pass_ref a degree : scale a -> forall rest i states found As states' found',
  skipn i cache = rest -> PInv states found As ->
  pass ar dist kind cache a degree i rest states found = Some (states', found') ->
  kept (states', found') =
    ref_pass ar dist cache a degree (seq i (length rest)) (kept (states, found)).
Proof.
  intros Sa. induction rest as [|c rest IH]; intros i states found As states' found' Er I E;
    cbn [pass] in E.
  - now inv E.
  - cbn [length seq ref_pass].
    assert (Lk : length (kept (states, found)) = found).
    { unfold kept. cbn [fst snd]. rewrite map_length, firstn_length. destruct I. lia. }
    rewrite Lk. destruct (degree <=? found); [now inv E|].
    assert (Ec : nth_error cache i = Some c).
    { rewrite <- (Nat.add_0_r i), <- nth_error_skipn', Er. reflexivity. }
    destruct (consider_spec a i c states found As Sa I Ec)
      as (s1 & f1 & As1 & E1 & I1 & _). rewrite E1 in E.
    assert (K1 := consider_ref a i c states found As s1 f1 Sa I Ec E1).
    rewrite (IH (S i) s1 f1 As1 states' found'); auto.
    + rewrite K1. destruct (existsb _ _ || _); reflexivity.
    + rewrite <- Nat.add_1_r, <- skipn_skipn', Er. reflexivity.
Qed.

Lemma kept_length states found As : PInv states found As -> length (kept (states, found)) = found.
Proof. intros []. unfold kept. cbn [fst snd]. rewrite map_length, firstn_length. lia. Qed.

Lemma rounds_ref degree : forall fuel a states found As,
  scale a -> PInv states found As -> found <= degree ->
  match rounds ar dist kind cache fuel alpha a degree states found with
  | Done r => ref_rounds ar dist cache fuel alpha a degree (kept (states, found)) = Some (kept r)
  | Panic => False
  | OutOfFuel => ref_rounds ar dist cache fuel alpha a degree (kept (states, found)) = None
  end.
Proof.
  induction fuel as [|fuel IH]; intros a states found As Sa I Ld; cbn [rounds ref_rounds];
    rewrite (kept_length _ _ _ I).
  - destruct (found <? degree); reflexivity.
  - destruct (Nat.ltb_spec found degree) as [Lt|]; [|reflexivity].
    destruct (pass_spec a degree Sa cache 0 states found As) as (s1 & f1 & As1 & E1 & I1 & F1 & _).
    + reflexivity.
    + auto.
    + lia.
    + intros _ j d v Hj. lia.
    + rewrite E1. cbv zeta.
      assert (K := pass_ref a degree Sa cache 0 states found As s1 f1 eq_refl I E1).
      rewrite <- K. destruct (f32_eq a alpha) eqn:Ea; [reflexivity|].
      apply (IH _ _ _ As1); auto; [|lia]. now apply scale_next.
Qed.

Lemma prune_ref fuel degree :
  match robust_prune ar dist kind cache fuel alpha degree (repeat ps_default (length cache)) with
  | Done r => reference_prune ar dist cache fuel alpha degree = Some (kept r)
  | Panic => False
  | OutOfFuel => reference_prune ar dist cache fuel alpha degree = None
  end.
Proof.
  apply rounds_ref with (As := []); [constructor|apply init_inv|lia].
Qed.
End prune.
