(** Construction, validation and storage of the transforms. *)
From Coq Require Import Sorted.
From Verif.Lib Require Import Base Lists.
From Verif.Rotate Require Import Model Spec Proofs Proofs2.
Local Open Scope nat_scope.

(** * Sorting *)
Lemma insert_perm x : forall l, Permutation (insert_sorted x l) (x :: l).
Proof.
  induction l as [|y l IH]; cbn [insert_sorted]; [reflexivity|]. destruct (N.leb x y); [reflexivity|].
  rewrite IH. apply perm_swap.
Qed.
Lemma sort_perm l : Permutation (fold_right insert_sorted [] l) l.
Proof. induction l as [|x l IH]; cbn [fold_right]; [reflexivity|]. rewrite insert_perm. now constructor. Qed.
Lemma insert_sorted_le x : forall l, StronglySorted N.le l -> StronglySorted N.le (insert_sorted x l).
Proof.
  induction l as [|y l IH]; intros H; cbn [insert_sorted]; [repeat constructor|].
  inversion H as [|? ? A B]; subst. destruct (N.leb_spec x y) as [L|L].
  - constructor; [exact H|]. constructor; [exact L|]. eapply Forall_impl; [|exact B]. cbn. intros. lia.
  - constructor; [now apply IH|]. eapply Permutation_Forall; [symmetry; apply insert_perm|]. constructor; [lia|exact B].
Qed.
Lemma sort_sorted l : StronglySorted N.le (fold_right insert_sorted [] l).
Proof. induction l as [|x l IH]; cbn [fold_right]; [constructor|now apply insert_sorted_le]. Qed.
Lemma strict_of_nodup l : StronglySorted N.le l -> NoDup l -> StronglySorted N.lt l.
Proof.
  induction 1 as [|x l S IH F]; intros ND; [constructor|]. inversion ND as [|? ? A B]; subst.
  constructor; [now apply IH|]. rewrite Forall_forall in F |- *. intros y Y. specialize (F y Y).
  assert (x <> y) by (intros ->; contradiction). lia.
Qed.
Lemma mono_from : forall l x, monotonic_from x l = true <-> Sorted N.lt (x :: l).
Proof.
  induction l as [|y l IH]; intros x; cbn [monotonic_from].
  - split; [repeat constructor|reflexivity].
  - destruct (N.leb_spec y x).
    + split; [discriminate|]. intros H'. inversion H' as [|? ? ? B]; subst. inversion B; subst. lia.
    + rewrite IH. split.
      * intros H'. constructor; [exact H'|]. now constructor.
      * intros H'. now inversion H'.
Qed.
Lemma mono_spec l : is_strictly_monotonic l = true <-> StronglySorted N.lt l.
Proof.
  destruct l as [|x l]; cbn [is_strictly_monotonic]; [split; [constructor|reflexivity]|].
  rewrite mono_from. split.
  - apply Sorted_StronglySorted. intros a b c. apply N.lt_trans.
  - apply StronglySorted_Sorted.
Qed.
Lemma last_max : forall l, StronglySorted N.lt l -> forall a r, rev l = a :: r -> Forall (fun x => (x <= a)%N) l.
Proof.
  induction 1 as [|x l S IH F]; intros a r E; [discriminate|]. cbn [rev] in E.
  destruct l as [|y l]; [cbn in E; injection E as <- <-; repeat constructor; lia|].
  destruct (rev (y :: l)) as [|b r'] eqn:R.
  { apply (f_equal (@length N)) in R. rewrite rev_length in R. discriminate. }
  cbn [app] in E. injection E as <- <-. pose proof (IH b r' eq_refl) as K. constructor; [|exact K].
  inversion F; subst. inversion K; subst. lia.
Qed.
Lemma last_in (l : list N) a r : rev l = a :: r -> In a l.
Proof. intros E. apply in_rev. rewrite E. now left. Qed.

(** The indices chosen. *)
Lemma subsample_ok sample len amount : samples sample -> amount <= len -> (N.of_nat len <= 2 ^ 32)%N ->
  let s := subsample_indices sample len amount in
  length s = amount /\ StronglySorted N.lt s /\ Forall (fun i => N.to_nat i < len) s.
Proof.
  intros SA LE B. destruct (SA len amount LE) as (L & ND & FA). cbn zeta. unfold subsample_indices.
  assert (E : map (fun i => (N.of_nat i mod 2 ^ 32)%N) (sample len amount) = map N.of_nat (sample len amount)).
  { apply map_ext_in. intros i Hi. rewrite Forall_forall in FA. specialize (FA i Hi). cbn beta in FA.
    apply N.mod_small. lia. }
  rewrite E. clear E. pose proof (sort_perm (map N.of_nat (sample len amount))) as P. split; [|split].
  - rewrite (Permutation_length P), map_length. exact L.
  - apply strict_of_nodup; [apply sort_sorted|]. eapply Permutation_NoDup; [symmetry; exact P|].
    apply NoDup_map_inj; [|exact ND]. intros x y _ _. lia.
  - eapply Permutation_Forall; [symmetry; exact P|]. apply Forall_map. eapply Forall_impl; [|exact FA]. cbn beta. intros. lia.
Qed.

(** * Signs *)
Lemma bool_sign b : is_sign (bool_to_sign b) = true.
Proof. now destruct b. Qed.
Lemma signs_ok bits l : forallb is_sign (map (fun i : nat => bool_to_sign (bits i)) l) = true.
Proof. apply forallb_forall. intros x H. apply in_map_iff in H as (i & <- & _). apply bool_sign. Qed.
Lemma sign_round s : forallb is_sign s = true -> map bool_to_sign (map sign_to_bool s) = s.
Proof.
  induction s as [|g s IH]; [reflexivity|]. cbn [forallb map]. rewrite andb_true_iff. intros [G H]. rewrite IH by exact H. f_equal.
  unfold is_sign in G. apply orb_true_iff in G as [G|G]; apply N.eqb_eq in G; subst; reflexivity.
Qed.

(** * Powers of two *)
Lemma next_least n : 0 < n -> least_pow2 n (next_pow2 n).
Proof.
  intros H. unfold next_pow2. assert (LE : n <= 2 ^ Nat.log2_up n).
  { destruct (Nat.eq_dec n 1) as [->|]; [cbn; lia|]. apply Nat.log2_log2_up_spec. lia. }
  split; [now exists (Nat.log2_up n)|]. split; [exact LE|]. intros k K.
  apply Nat.pow_le_mono_r; [lia|]. apply Nat.log2_up_le_mono in K. rewrite Nat.log2_up_pow2 in K by lia. exact K.
Qed.
Lemma next_pow2_pow2 n : 0 < n -> is_pow2 (next_pow2 n) = true.
Proof. intros H. apply is_pow2_spec. exact (proj1 (next_least n H)). Qed.
Lemma next_pow2_ge n : 0 < n -> n <= next_pow2 n.
Proof. intros H. exact (proj1 (proj2 (next_least n H))). Qed.
Lemma next_pow2_of k : next_pow2 (2 ^ k) = 2 ^ k.
Proof. unfold next_pow2. rewrite Nat.log2_up_pow2 by lia. reflexivity. Qed.
Lemma of_nat_pow2 j : (N.of_nat (2 ^ j) = 2 ^ N.of_nat j)%N.
Proof.
  induction j as [|j IH]; [reflexivity|]. rewrite Nat.pow_succ_r', Nat2N.inj_mul, IH.
  change (N.of_nat 2) with 2%N. rewrite Nat2N.inj_succ, N.pow_succ_r'. reflexivity.
Qed.
Lemma next_pow2_bound n k : 0 < n -> (N.of_nat n <= 2 ^ N.of_nat k)%N -> (N.of_nat (next_pow2 n) <= 2 ^ N.of_nat k)%N.
Proof.
  intros H B. destruct (next_least n H) as (_ & _ & M). rewrite <- of_nat_pow2 in *. specialize (M k). lia.
Qed.
Lemma next_pow2_small n : 0 < n -> (N.of_nat n <= 2 ^ 31)%N -> (N.of_nat (next_pow2 n) <= 2 ^ 31)%N.
Proof. exact (next_pow2_bound n 31). Qed.

(** * What [try_from_parts] accepts *)
Definition indices_ok (bound : nat) (u : option (list N)) : Prop :=
  forall idx, u = Some idx -> idx <> [] /\ StronglySorted N.lt idx /\ Forall (fun i => N.to_nat i < bound) idx.

Lemma padding_accept s n u p : padding_from_parts s n u = inl p <->
  p = mkPad s n u /\ forallb is_sign s = true /\ length s <= n /\ is_pow2 n = true /\ indices_ok n u.
Proof.
  unfold padding_from_parts. split.
  - destruct (forallb is_sign s) eqn:A; cbn [negb]; [|discriminate].
    destruct (Nat.ltb_spec n (length s)); [discriminate|].
    destruct (is_pow2 n) eqn:B; cbn [negb]; [|discriminate].
    destruct u as [idx|]; [|intros E; injection E as <-; repeat split; auto; discriminate].
    destruct (is_strictly_monotonic idx) eqn:M; cbn [negb]; [|discriminate].
    destruct (rev idx) as [|a r] eqn:RV; [discriminate|]. destruct (N.leb_spec (N.of_nat n) a); [discriminate|].
    intros E; injection E as <-. split; [reflexivity|]. split; [reflexivity|]. split; [exact H|]. split; [reflexivity|].
    intros i E. injection E as <-. split; [intros ->; discriminate|]. apply mono_spec in M. split; [exact M|].
    eapply Forall_impl; [|exact (last_max _ M _ _ RV)]. cbn beta. intros. lia.
  - intros (-> & A & L & B & I). rewrite A. cbn [negb]. destruct (Nat.ltb_spec n (length s)); [lia|]. rewrite B. cbn [negb].
    destruct u as [idx|]; [|reflexivity]. destruct (I idx eq_refl) as (NE & SS & FA). apply mono_spec in SS. rewrite SS. cbn [negb].
    destruct (rev idx) as [|a r] eqn:RV; [apply (f_equal (@rev N)) in RV; rewrite rev_involutive in RV; cbn in RV; contradiction|].
    apply last_in in RV. rewrite Forall_forall in FA. specialize (FA _ RV). cbn beta in FA.
    destruct (N.leb_spec (N.of_nat n) a); [lia|reflexivity].
Qed.
Lemma double_accept s0 s1 u d : double_from_parts s0 s1 u = inl d <->
  d = mkDbl s0 s1 (match u with None => length s1 | Some idx => length idx end) u /\ s0 <> [] /\ length s0 <= length s1 /\
  forallb is_sign s0 = true /\ forallb is_sign s1 = true /\ indices_ok (length s1) u.
Proof.
  unfold double_from_parts. split.
  - destruct (Nat.eqb_spec (length s0) 0); [discriminate|].
    destruct (Nat.ltb_spec (length s1) (length s0)); [discriminate|].
    destruct (forallb is_sign s0) eqn:A; cbn [negb]; [|discriminate].
    destruct (forallb is_sign s1) eqn:B; cbn [negb]; [|discriminate].
    assert (NE : s0 <> []) by (intros ->; now elim n).
    destruct u as [idx|]; [|intros E; injection E as <-; repeat split; auto; discriminate].
    destruct (is_strictly_monotonic idx) eqn:M; cbn [negb]; [|discriminate].
    destruct (rev idx) as [|a r] eqn:RV; [discriminate|]. destruct (N.leb_spec (N.of_nat (length s1)) a); [discriminate|].
    intros E; injection E as <-. repeat (split; [assumption || reflexivity|]).
    intros i E. injection E as <-. split; [intros ->; discriminate|]. apply mono_spec in M. split; [exact M|].
    eapply Forall_impl; [|exact (last_max _ M _ _ RV)]. cbn beta. intros. lia.
  - intros (-> & NE & L & A & B & I). destruct (Nat.eqb_spec (length s0) 0) as [Z|Z]; [apply length_zero_iff_nil in Z; contradiction|].
    destruct (Nat.ltb_spec (length s1) (length s0)); [lia|]. rewrite A, B. cbn [negb].
    destruct u as [idx|]; [|reflexivity]. destruct (I idx eq_refl) as (NI & SS & FA). apply mono_spec in SS. rewrite SS. cbn [negb].
    destruct (rev idx) as [|a r] eqn:RV; [apply (f_equal (@rev N)) in RV; rewrite rev_involutive in RV; cbn in RV; contradiction|].
    apply last_in in RV. rewrite Forall_forall in FA. specialize (FA _ RV). cbn beta in FA.
    destruct (N.leb_spec (N.of_nat (length s1)) a); [lia|reflexivity].
Qed.

(** * Constructed transforms *)
Lemma padding_new_ok dim t bits sample : 0 < dim -> valid_target (KPadding t) -> samples sample -> small (KPadding t) dim ->
  let p := padding_new dim t bits sample in
  length (p_signs p) = dim /\ (N.of_nat (p_dim p) <= 2 ^ 31)%N /\
  padding_from_parts (p_signs p) (p_dim p) (p_sub p) = inl p /\
  documented_output (KPadding t) dim (output_dim (TPadding p)) /\
  (p_sub p = None <-> documented_preserves (KPadding t) dim (output_dim (TPadding p))).
Proof.
  intros D V SA (B1 & B2). cbn zeta.
  set (pt := match t with Same => (next_pow2 dim, dim) | Natural => (next_pow2 dim, next_pow2 dim)
             | Override n => (next_pow2 (Nat.max n dim), n) end).
  assert (E : padding_new dim t bits sample =
    mkPad (map (fun i => bool_to_sign (bits i)) (seq 0 dim)) (fst pt)
      (if snd pt <? fst pt then Some (subsample_indices sample (fst pt) (snd pt)) else None)).
  { unfold padding_new, pt. destruct t; reflexivity. }
  rewrite E. clear E. cbn [p_signs p_dim p_sub output_dim].
  assert (L : length (map (fun i => bool_to_sign (bits i)) (seq 0 dim)) = dim) by (rewrite map_length; apply seq_length).
  assert (Q : is_pow2 (fst pt) = true /\ dim <= fst pt /\ 0 < snd pt /\ snd pt <= fst pt /\ (N.of_nat (fst pt) <= 2 ^ 31)%N).
  { unfold pt. destruct t as [| |n]; cbn [fst snd].
    - pose proof (next_pow2_ge dim D). repeat split; auto using next_pow2_pow2, next_pow2_small.
    - pose proof (next_pow2_ge dim D). repeat split; auto using next_pow2_pow2, next_pow2_small. lia.
    - cbn in V. assert (M : 0 < Nat.max n dim) by lia. pose proof (next_pow2_ge _ M).
      repeat split; try lia; [now apply next_pow2_pow2|]. apply next_pow2_small; [exact M|]. lia. }
  destruct Q as (Q1 & Q2 & Q3 & Q4 & Q5). split; [exact L|]. split; [exact Q5|].
  assert (SO := subsample_ok sample (fst pt) (snd pt) SA Q4 ltac:(lia)). cbn zeta in SO.
  split; [|split].
  - apply padding_accept. split; [reflexivity|]. split; [apply signs_ok|]. split; [rewrite L; exact Q2|]. split; [exact Q1|].
    intros idx I. destruct (Nat.ltb_spec (snd pt) (fst pt)); [|discriminate]. injection I as <-.
    destruct SO as (S1 & S2 & S3). split; [intros N0; rewrite N0 in S1; cbn in S1; lia|]. split; assumption.
  - assert (O : (match (if snd pt <? fst pt then Some (subsample_indices sample (fst pt) (snd pt)) else None) with
        | Some v => length v | None => fst pt end) = snd pt).
    { destruct (Nat.ltb_spec (snd pt) (fst pt)); [apply SO|lia]. }
    rewrite O. unfold pt. destruct t; cbn [documented_output snd]; auto. now apply next_least.
  - assert (O : (match (if snd pt <? fst pt then Some (subsample_indices sample (fst pt) (snd pt)) else None) with
        | Some v => length v | None => fst pt end) = snd pt).
    { destruct (Nat.ltb_spec (snd pt) (fst pt)); [apply SO|lia]. }
    rewrite O. cbn [documented_preserves]. destruct (Nat.ltb_spec (snd pt) (fst pt)) as [Lt|Ge].
    + split; [discriminate|]. intros ((k & K) & LE). exfalso. unfold pt in *. destruct t as [| |n]; cbn [fst snd] in *.
      * rewrite K in Lt. rewrite next_pow2_of in Lt. lia.
      * lia.
      * rewrite Nat.max_l in Lt by exact LE. rewrite K in Lt. rewrite next_pow2_of in Lt. lia.
    + split; [intros _|reflexivity]. assert (EQ : snd pt = fst pt) by lia. rewrite EQ. split; [|exact Q2]. now apply is_pow2_spec.
Qed.

Lemma double_new_ok dim t bits sample : 0 < dim -> valid_target (KDouble t) -> samples sample -> small (KDouble t) dim ->
  let d := double_new dim t bits sample in
  length (d_signs0 d) = dim /\ length (d_signs1 d) = Nat.max dim (d_target d) /\
  (forall idx, d_sub d = Some idx -> length (d_signs1 d) = dim) /\
  double_from_parts (d_signs0 d) (d_signs1 d) (d_sub d) = inl d /\
  documented_output (KDouble t) dim (d_target d) /\
  (d_sub d = None <-> documented_preserves (KDouble t) dim (d_target d)).
Proof.
  intros D V SA (B1 & B2). cbn zeta. unfold double_new.
  set (tg := match t with Override n => n | _ => dim end). cbn [d_signs0 d_signs1 d_target d_sub].
  assert (T0 : 0 < tg) by (unfold tg; destruct t; cbn in V; lia).
  assert (L0 : length (map (fun i => bool_to_sign (bits i)) (seq 0 dim)) = dim) by (rewrite map_length; apply seq_length).
  assert (L1 : length (map (fun i => bool_to_sign (bits i)) (seq dim (Nat.max dim tg))) = Nat.max dim tg) by (rewrite map_length; apply seq_length).
  split; [exact L0|]. split; [exact L1|].
  split. { intros idx. destruct (Nat.ltb_spec tg dim); [|discriminate]. intros _. rewrite L1. lia. }
  split; [|split].
  - apply double_accept. rewrite L0, L1. split.
    { f_equal. destruct (Nat.ltb_spec tg dim) as [Lt|Ge]; [|lia]. symmetry. apply subsample_ok; auto; lia. }
    split; [intros Z; rewrite Z in L0; cbn in L0; lia|]. split; [lia|]. split; [apply signs_ok|]. split; [apply signs_ok|].
    intros idx I. destruct (Nat.ltb_spec tg dim) as [Lt|Ge]; [|discriminate]. injection I as <-.
    destruct (subsample_ok sample dim tg SA ltac:(lia) ltac:(lia)) as (S1 & S2 & S3).
    split; [intros N0; rewrite N0 in S1; cbn in S1; lia|]. split; [exact S2|]. eapply Forall_impl; [|exact S3]. cbn beta. intros. lia.
  - unfold tg. destruct t; reflexivity.
  - cbn [documented_preserves]. destruct (Nat.ltb_spec tg dim); split; try discriminate; auto; lia.
Qed.

(** Storing and reading back. *)
Lemma pack_unpack k dim bits sample : 0 < dim -> valid_target k -> samples sample -> small k dim ->
  unpack (pack (transform_new k dim bits sample)) = inl (transform_new k dim bits sample).
Proof.
  intros D V SA B. destruct k as [t|t|]; cbn [transform_new pack unpack].
  - destruct (padding_new_ok dim t bits sample D V SA B) as (_ & P & A & _). cbn zeta in *.
    pose proof (proj1 (padding_accept _ _ _ _) A) as (_ & S & _).
    rewrite sign_round by exact S. rewrite N.mod_small by lia. rewrite Nat2N.id, A. reflexivity.
  - destruct (double_new_ok dim t bits sample D V SA B) as (_ & _ & _ & A & _). cbn zeta in *.
    pose proof (proj1 (double_accept _ _ _ _) A) as (_ & _ & _ & S0 & S1 & _).
    rewrite !sign_round by assumption. rewrite A. reflexivity.
  - destruct B as (B & _). rewrite N.mod_small by lia. destruct (N.eqb_spec (N.of_nat dim) 0); [lia|]. now rewrite Nat2N.id.
Qed.
