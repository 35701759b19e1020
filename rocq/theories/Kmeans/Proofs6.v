(** The rounds of k-means++. *)
From Coq Require Import List PeanoNat Bool Lia Arith.
From Verif.Lib Require Import Lists.
From Verif.Simd Require Import Model Proofs2.
From Verif.Pq Require Import Model Spec Proofs Proofs2 Proofs3 Proofs4 Proofs6.
From Verif.Kmeans Require Import Model Spec Proofs Proofs2 Proofs5.
Import ListNotations.
Local Open Scope nat_scope.

Lemma repeat_skip {A} (a : A) k m : skipn k (repeat a m) = repeat a (m - k).
Proof. revert k. induction m as [|m IH]; intros [|k]; cbn [repeat skipn Nat.sub]; try reflexivity. apply IH. Qed.
Lemma repeat_first {A} (a : A) k m : k <= m -> firstn k (repeat a m) = repeat a k.
Proof. revert k. induction m as [|m IH]; intros [|k] H; cbn [repeat firstn]; try reflexivity; [lia|]. now rewrite IH by lia. Qed.

Section Rounds.
  Context {F D : Type} (x : xops F) (dd : dops F D).
  Notation o := (fo x).
  Notation z0 := (zero o).
  Context (v : strided F) (pts : list (list F)) (Hv : views v pts).
  Context (b : btref (F := F)) (Hr : b_rows b = s_rows v) (Hcc : b_cols b = s_cols v) (Hb : holds_t b (cell z0 v)).
  Context (draw : nat -> D -> D) (expected : nat).
  Notation n := (length pts).
  Notation cols := (s_cols v).
  Notation pt := (pt pts).
  Notation nrm := (nrm x).
  Notation norms := (map nrm pts).

  (** The computed distance of row [j] from the picked row [p], and the least one over the picks. *)
  Definition pdist (p j : nat) : F := add o (add o (nrm (pt j)) (nrm (pt p))) (mul o (along o KMath (pt j) (pt p)) (neg o (two x))).
  Definition keptd (picks : list nat) (j : nat) : F := fold_left (fun c p => if lt o (pdist p j) c then pdist p j else c) picks (inf x).
  Definition sn_of (picks : list nat) : F := nrm (pt (last picks 0)).
  Definition this_of (picks : list nat) : list F := pt (last picks 0).
  Definition ptot (picks : list nat) : D :=
    tot x dd b (cell z0 v) (this_of picks) (sn_of picks) (fun j => nrm (pt j)) (keptd (removelast picks)) (bt_blocks b).
  Definition layout (picks : list nat) : matrix F := mkM (concat (map pt picks) ++ repeat z0 ((expected - length picks) * cols)) expected cols.
  Fixpoint prun (k : nat) (picks : list nat) : list nat * option failure :=
    match k with
    | 0 => (picks, None)
    | S k =>
      match uniform_of dd (ptot picks) (draw (length picks) (ptot picks)) with
      | NonFinite => (picks, Some SawInfinity)
      | EmptyRange => (picks, Some InsufficientDiversity)
      | Drawn t =>
        match winner x dd t (rev picks) 0 (dzero dd) (map (keptd picks) (seq 0 n)) with
        | None => (picks, Some InsufficientDiversity)
        | Some i => prun k (picks ++ [i])
        end
      end
    end.
  Lemma winner_ok t picked mins : forall i r w, winner x dd t picked i r mins = Some w ->
    i <= w < i + length mins /\ ~ In w picked /\ exists d, nth_error mins (w - i) = Some d /\ lt o z0 d = true.
  Proof.
    induction mins as [|d mins IH]; intros i r w; cbn [winner]; [discriminate|].
    destruct (_ && _) eqn:E.
    - intros [= <-]. apply andb_prop in E as [E E3]. apply andb_prop in E as [E1 E2]. cbn [length]. split; [lia|]. split.
      + intros I. apply negb_true_iff in E3. assert (X : existsb (Nat.eqb i) picked = true) by (apply existsb_exists; exists i; split; [exact I|apply Nat.eqb_refl]). congruence.
      + exists d. rewrite Nat.sub_diag. now split.
    - intros H. apply IH in H as (H1 & H2 & e & H3 & H4). cbn [length]. split; [lia|]. split; [exact H2|]. exists e. split; [|exact H4].
      replace (w - i) with (S (w - S i)) by lia. exact H3.
  Qed.
  Lemma norms_seq : norms = map (fun j => nrm (pt j)) (seq 0 n).
  Proof. apply list_map_seq; [apply map_length|]. intros j J. rewrite nth_error_map, (pt_nth pts j J). reflexivity. Qed.
  Lemma pt_len j : j < n -> length (pt j) = cols.
  Proof. intros J. destruct Hv as (_ & _ & H). now destruct (H j _ (pt_nth pts j J)). Qed.
  Lemma row_at j : j < n -> s_row v j = Some (pt j).
  Proof. intros J. destruct Hv as (_ & _ & H). now destruct (H j _ (pt_nth pts j J)). Qed.
  Lemma concat_len picks : Forall (fun p => p < n) picks -> length (concat (map pt picks)) = length picks * cols.
  Proof. induction 1 as [|p l P _ IH]; [reflexivity|]. cbn [map concat length]. rewrite app_length, IH, pt_len by assumption. lia. Qed.
  Lemma layout_shaped picks : Forall (fun p => p < n) picks -> length picks <= expected -> shaped (layout picks).
  Proof. intros P L. unfold shaped, layout. cbn [m_data m_rows m_cols]. rewrite app_length, repeat_length, concat_len by assumption. nia. Qed.
  Lemma set_next picks i : Forall (fun p => p < n) picks -> length picks < expected -> i < n -> set_row (layout picks) (length picks) (pt i) = Some (layout (picks ++ [i])).
  Proof.
    intros P L I. unfold set_row. cbn [layout m_rows m_cols m_data]. rewrite (proj2 (Nat.ltb_lt (length picks) expected) L), pt_len, Nat.eqb_refl by assumption. cbn [negb]. f_equal.
    unfold layout. f_equal. rewrite <- (concat_len picks P). rewrite firstn_app, Nat.sub_diag, firstn_all. cbn [firstn]. rewrite app_nil_r.
    rewrite skipn_app, skipn_all2 by lia. cbn [app]. rewrite repeat_skip, map_app, concat_app. cbn [map concat]. rewrite app_nil_r, <- app_assoc. do 3 f_equal.
    rewrite concat_len, app_length by assumption. cbn [length]. nia.
  Qed.
  Lemma layout_row picks i p : Forall (fun p => p < n) picks -> length picks <= expected -> nth_error picks i = Some p -> row (layout picks) i = pt p.
  Proof.
    intros P L N. assert (I : i < length picks) by (now apply nth_error_lt' in N).
    pose proof (layout_shaped picks P L) as SH. assert (PN : p < n) by (eapply Forall_forall in P; [exact P|eapply nth_error_In; eassumption]).
    unfold row. cbn [layout m_data m_cols]. apply nth_error_split in N as (l1 & l2 & -> & L1). rewrite map_app, concat_app. cbn [map concat].
    apply Forall_app in P as [P1 P2]. inversion P2 as [|? ? P3 P4]; subst. rewrite <- !app_assoc, skipn_app, (concat_len l1 P1), Nat.sub_diag. cbn [skipn].
    rewrite skipn_all2 by (rewrite concat_len by assumption; lia). cbn [app]. rewrite firstn_app, pt_len, Nat.sub_diag by assumption. cbn [firstn]. rewrite app_nil_r.
    apply firstn_all2. now rewrite pt_len.
  Qed.
  Lemma layout_rest picks i : Forall (fun p => p < n) picks -> length picks <= i < expected -> row (layout picks) i = repeat z0 cols.
  Proof.
    intros P L. unfold row. cbn [layout m_data m_cols]. rewrite skipn_app, skipn_all2 by (rewrite concat_len by assumption; nia). cbn [app].
    rewrite concat_len, repeat_skip by assumption. apply repeat_first. nia.
  Qed.
  Lemma m_row_layout picks : Forall (fun p => p < n) picks -> picks <> [] -> length picks <= expected -> m_row (layout picks) (length picks - 1) = Some (pt (last picks 0)).
  Proof.
    intros P N L. assert (LP : 0 < length picks) by (destruct picks; [congruence|cbn; lia]).
    rewrite m_row_row; [|now apply layout_shaped|cbn [layout m_rows]; lia]. f_equal. apply layout_row; [assumption|assumption|].
    rewrite (nth_error_nth' picks 0) by lia. f_equal. clear - N. destruct (exists_last N) as (l & a & ->). rewrite last_last, app_length. cbn [length].
    replace (length l + 1 - 1) with (length l) by lia. apply nth_middle.
  Qed.
  Lemma last_In (l : list nat) : l <> [] -> In (last l 0) l.
  Proof. intros N. destruct (exists_last N) as (l' & a & ->). rewrite last_last. apply in_or_app. right. now left. Qed.
  Lemma kept_next picks j : picks <> [] -> (forall p, In p picks -> p < n) -> j < n ->
    kept x b (cell z0 v) (this_of picks) (sn_of picks) (fun j => nrm (pt j)) (keptd (removelast picks)) j = keptd picks j.
  Proof.
    clear draw expected. intros N P J. unfold kept. cbv zeta. destruct Hv as (_ & V2 & _). rewrite (proj2 (Nat.ltb_lt j (b_rows b))) by lia.
    assert (K : keptd picks j = if lt o (pdist (last picks 0) j) (keptd (removelast picks) j) then pdist (last picks 0) j else keptd (removelast picks) j).
    { rewrite (app_removelast_last 0 N) at 1. unfold keptd at 1. rewrite fold_left_app. reflexivity. }
    rewrite K.
    assert (E : step_dist x b (cell z0 v) (this_of picks) (sn_of picks) (nrm (pt j)) j = pdist (last picks 0) j).
    { unfold step_dist, pdist, dot. now rewrite (trow_pt x v pts Hv b Hr Hcc j J). }
    now rewrite E.
  Qed.
  Lemma update_round picks : picks <> [] -> (forall p, In p picks -> p < n) ->
    update_distances x dd (map (keptd (removelast picks)) (seq 0 n)) b norms (this_of picks) (sn_of picks) = Some (ptot picks, map (keptd picks) (seq 0 n)).
  Proof.
    intros N P. assert (L : length (this_of picks) = b_cols b) by (unfold this_of; rewrite pt_len, Hcc by (apply P; now apply last_In); reflexivity).
    rewrite norms_seq. assert (BN : n = b_rows b) by (destruct Hv as (_ & V2 & _); congruence). rewrite BN.
    rewrite (update_ok x dd b (cell z0 v) Hb (this_of picks) (sn_of picks) L). f_equal. unfold ptot. f_equal. apply map_ext_in. intros j J. apply in_seq in J. apply kept_next; [assumption..|lia].
  Qed.
  Lemma rounds_ok k : forall picks, picks <> [] -> Forall (fun p => p < n) picks -> length picks + k <= expected ->
    exists mins, pp_rounds x dd v b norms draw expected k (length picks) (layout picks, map (keptd (removelast picks)) (seq 0 n), rev picks, sn_of picks) =
    let '(q, e) := prun k picks in
    Some (match e with None => inl (layout q, mins, rev q, sn_of q) | Some r => inr (mkK (length q) expected r, layout q) end).
  Proof.
    induction k as [|k IH]; intros picks N P L; cbn [pp_rounds prun]; [eexists; reflexivity|].
    unfold pp_round. rewrite m_row_layout by (try assumption; lia). cbn [bind]. fold (this_of picks).
    pose proof (proj1 (Forall_forall _ _) P) as P'. cbn beta in P'.
    rewrite update_round by assumption. cbn [bind].
    destruct (uniform_of dd (ptot picks) (draw (length picks) (ptot picks))) as [| |t]; [exists []; reflexivity..|].
    destruct (winner x dd t (rev picks) 0 (dzero dd) (map (keptd picks) (seq 0 n))) as [i|] eqn:W; [|exists []; reflexivity].
    apply winner_ok in W as (W1 & W2 & _). rewrite map_length, seq_length in W1.
    rewrite row_at by lia. cbn [bind]. rewrite set_next by (try assumption; lia). cbn [bind]. rewrite nth_error_map, (pt_nth pts i) by lia. cbn [option_map bind].
    specialize (IH (picks ++ [i])). rewrite app_length in IH. cbn [length] in IH. rewrite removelast_last, rev_unit, Nat.add_1_r in IH. unfold sn_of at 1 in IH. rewrite last_last in IH.
    apply IH; [now destruct picks|apply Forall_app; split; [assumption|constructor; [lia|constructor]]|lia].
  Qed.
  Lemma inner_ok centers first : m_rows centers = expected -> shaped centers -> m_cols centers = cols -> first < n -> 0 < expected ->
    kmeans_plusplus_inner x dd centers v b norms first draw =
    let '(q, e) := prun (Nat.min expected n - 1) [first] in
    Some (match e with Some r => Some (mkK (length q) expected r)
          | None => if Nat.min expected n =? expected then None else Some (mkK (Nat.min expected n) expected DatasetTooSmall) end, layout q).
  Proof.
    intros HM HS HC HF HE. destruct Hv as (V1 & V2 & V3). unfold kmeans_plusplus_inner. rewrite map_length.
    rewrite (proj2 (Nat.eqb_eq n _) (eq_sym V2)), (proj2 (Nat.eqb_eq (b_rows b) _) Hr), (proj2 (Nat.eqb_eq (b_cols b) _) Hcc), (proj2 (Nat.eqb_eq (m_cols centers) _) HC). cbn [negb].
    cbv zeta. unfold shaped in HS. rewrite HS, HM, HC. cbn [m_rows]. rewrite V2, (proj2 (Nat.eqb_neq n 0)) by lia.
    rewrite row_at by assumption. cbn [bind].
    assert (L0 : mkM (repeat z0 (expected * cols)) expected cols = layout []) by (unfold layout; cbn [map concat app length]; now rewrite Nat.sub_0_r).
    rewrite L0. pose proof (set_next [] first (Forall_nil _) HE HF) as SN. cbn [length app] in SN. rewrite SN. cbn [bind]. rewrite nth_error_map, (pt_nth pts first HF). cbn [option_map bind]. cbv zeta.
    destruct (rounds_ok (Nat.min expected n - 1) [first]) as (mins & RR); [discriminate|constructor; [assumption|constructor]|cbn [length]; lia|].
    assert (I0 : map (keptd (removelast [first])) (seq 0 n) = repeat (inf x) n).
    { cbn [removelast]. unfold keptd. cbn [fold_left]. clear. generalize n as k. intros k. generalize 0 as s. induction k as [|k IHk]; intros s; cbn [seq map repeat]; [reflexivity|]. now rewrite IHk. }
    rewrite I0 in RR. change (layout ([] ++ [first])) with (layout [first]). change (sn_of [first]) with (nrm (pt first)) in RR. cbn [length rev app] in RR. rewrite RR.
    destruct (prun (Nat.min expected n - 1) [first]) as [q [r|]]; cbn [bind]; [reflexivity|].
    replace (1 + (Nat.min expected n - 1)) with (Nat.min expected n) by lia. destruct (Nat.min expected n =? expected); reflexivity.
  Qed.
  (** The picks of a run. *)
  Lemma prun_picks k : forall picks, picks <> [] -> Forall (fun p => p < n) picks -> NoDup picks ->
    let '(q, e) := prun k picks in
    (exists more, q = picks ++ more /\ length more <= k /\ (length more = k <-> e = None)) /\ Forall (fun p => p < n) q /\ NoDup q /\
    (e = None \/ e = Some SawInfinity \/ e = Some InsufficientDiversity) /\
    (forall c, length picks <= c -> c < length q -> exists p, nth_error q c = Some p /\ lt o z0 (keptd (firstn c q) p) = true).
  Proof.
    induction k as [|k IH]; intros picks N P ND; cbn [prun].
    - split; [exists []; rewrite app_nil_r; split; [reflexivity|]; split; [reflexivity|now split]|]. split; [assumption|]. split; [assumption|]. split; [now left|]. lia.
    - assert (STOP : forall r, r = SawInfinity \/ r = InsufficientDiversity -> (exists more, picks = picks ++ more /\ length more <= S k /\ (length more = S k <-> Some r = None)) /\ Forall (fun p => p < n) picks /\ NoDup picks /\
        (Some r = None \/ Some r = Some SawInfinity \/ Some r = Some InsufficientDiversity) /\
        (forall c, length picks <= c -> c < length picks -> exists p, nth_error picks c = Some p /\ lt o z0 (keptd (firstn c picks) p) = true)).
      { intros r R'. split; [exists []; rewrite app_nil_r; split; [reflexivity|]; split; [cbn; lia|cbn; split; [lia|discriminate]]|]. split; [assumption|]. split; [assumption|].
        split; [right; destruct R' as [->| ->]; auto|]. lia. }
      destruct (uniform_of dd (ptot picks) (draw (length picks) (ptot picks))) as [| |t]; [apply STOP; auto..|].
      destruct (winner x dd t (rev picks) 0 (dzero dd) (map (keptd picks) (seq 0 n))) as [i|] eqn:W; [|apply STOP; auto].
      apply winner_ok in W as (W1 & W2 & d & W3 & W4). rewrite map_length, seq_length in W1. rewrite Nat.sub_0_r, nth_map_seq in W3 by lia. injection W3 as <-.
      specialize (IH (picks ++ [i])). destruct (prun k (picks ++ [i])) as [q e].
      destruct IH as ((more & -> & M1 & M2) & I2 & I3 & I4 & I5).
      + now destruct picks.
      + apply Forall_app. split; [assumption|]. constructor; [lia|constructor].
      + apply NoDup_rev in ND. rewrite <- (rev_involutive (picks ++ [i])). apply NoDup_rev. rewrite rev_unit. now constructor.
      + split; [exists (i :: more); rewrite <- app_assoc; split; [reflexivity|]; cbn [length]; split; [lia|rewrite <- M2; lia]|]. split; [assumption|]. split; [assumption|]. split; [assumption|].
        intros c C1 C2. rewrite app_length in I5. cbn [length] in I5. destruct (Nat.eq_dec c (length picks)) as [->|NE]; [|apply I5; lia].
        exists i. rewrite <- app_assoc. rewrite nth_error_app2, Nat.sub_diag by lia. split; [reflexivity|]. rewrite firstn_app, Nat.sub_diag, firstn_all. cbn [firstn app]. rewrite app_nil_r. exact W4.
  Qed.
End Rounds.
