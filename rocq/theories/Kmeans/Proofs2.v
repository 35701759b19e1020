(** One step of Lloyd's algorithm, and all of them. *)
From Coq Require Import List PeanoNat Bool Lia Arith.
From Verif.Lib Require Import Lists.
From Verif.Simd Require Import Model Proofs2.
From Verif.Pq Require Import Model Spec Proofs Proofs2 Proofs3 Proofs4 Proofs6.
From Verif.Kmeans Require Import Model Spec Proofs.
Import ListNotations.
Local Open Scope nat_scope.

(** A view whose rows are [pts]. *)
Definition views {F} (v : strided F) (pts : list (list F)) : Prop :=
  s_ok v /\ s_rows v = length pts /\ forall j p, nth_error pts j = Some p -> s_row v j = Some p /\ length p = s_cols v.
Lemma views_matrix {F} (m : matrix F) : shaped m -> views (view_of m) (points m).
Proof.
  intros H. split; [now apply view_ok_of|]. split; [unfold points; now rewrite map_length, seq_length|].
  intros j p N. assert (J : j < m_rows m) by (apply nth_error_lt' in N; unfold points in N; now rewrite map_length, seq_length in N).
  unfold points in N. rewrite nth_map_seq in N by assumption. injection N as <-. split; [now apply s_row_view|now apply row_length].
Qed.
Lemma nth_error_ex {A} (l : list A) j : j < length l -> exists a, nth_error l j = Some a.
Proof. intros H. destruct (nth_error l j) eqn:E; [eauto|]. apply nth_error_None in E. lia. Qed.

Lemma map2_len {A B C} (f : A -> B -> C) a : forall b, length a = length b -> length (map2 f a b) = length a.
Proof. induction a as [|u a IH]; intros [|w b] H; try discriminate; cbn [map2 length]; [reflexivity|]. rewrite IH; [reflexivity|now injection H]. Qed.
Lemma map2_nth {A B C} (f : A -> B -> C) a : forall b i u w, nth_error a i = Some u -> nth_error b i = Some w -> nth_error (map2 f a b) i = Some (f u w).
Proof. induction a as [|u a IH]; intros [|w b] [|i] u' w' HA HB; try discriminate; cbn [map2 nth_error] in *; [congruence|eauto]. Qed.
Lemma repeat_nth {A} (a : A) k : forall i, i < k -> nth_error (repeat a k) i = Some a.
Proof. induction k as [|k IH]; intros [|i] H; cbn [repeat nth_error]; try lia; [reflexivity|apply IH; lia]. Qed.
Lemma upd_length {A} i (a : A) l : length (upd i a l) = length l.
Proof. revert i. induction l as [|b l IH]; intros [|i]; cbn [upd length]; auto. Qed.
Lemma upd_nth {A} i (a : A) l j : i < length l -> nth_error (upd i a l) j = if j =? i then Some a else nth_error l j.
Proof.
  revert i j. induction l as [|b l IH]; intros i j H; cbn [length] in H; [lia|]. destruct i as [|i], j as [|j]; cbn [upd nth_error]; try reflexivity.
  rewrite IH by lia. reflexivity.
Qed.
Lemma upd_map_seq {A} (f g : nat -> A) k c : c < k -> (forall r, r < k -> r <> c -> g r = f r) -> upd c (g c) (map f (seq 0 k)) = map g (seq 0 k).
Proof.
  intros C H. apply list_map_seq; [rewrite upd_length, map_length; apply seq_length|]. intros i I.
  rewrite upd_nth by (now rewrite map_length, seq_length). rewrite nth_map_seq by assumption. destruct (Nat.eqb_spec i c) as [->|N]; [reflexivity|].
  now rewrite H.
Qed.

Section Update.
  Context {F D : Type} (x : xops F) (dd : dops F D).
  Notation o := (fo x).
  Notation mem l r := (filter (fun p : list F * option nat => match snd p with Some c => c =? r | None => false end) l).
  Definition sumc (l : list (list F * option nat)) (r i : nat) : D :=
    fold_left (fun s p => dadd dd s (widen dd (nth i (fst p) (zero o)))) (mem l r) (dzero dd).
  Lemma count_none l : fold_left (count_row dd) l None = None.
  Proof. induction l; [reflexivity|assumption]. Qed.
  Lemma count_ok k cols l : Forall (fun p => length (fst p) = cols /\ exists c, snd p = Some c /\ c < k) l ->
    fold_left (count_row dd) l (Some (repeat 0 k, repeat (repeat (dzero dd) cols) k)) =
    Some (map (fun r => length (mem l r)) (seq 0 k), map (fun r => map (sumc l r) (seq 0 cols)) (seq 0 k)).
  Proof.
    induction l as [|[p a] l IH] using rev_ind; intros H.
    - assert (RM : forall A (a : A) k, repeat a k = map (fun _ => a) (seq 0 k)).
      { clear. intros A a k. apply list_map_seq; [apply repeat_length|]. intros i I. now apply repeat_nth. }
      cbn [fold_left]. f_equal. f_equal; [apply RM|]. rewrite (RM _ _ k). apply map_ext. intros r. apply RM.
    - apply Forall_app in H as [HA HB]. rewrite fold_left_app, IH by assumption. clear IH. apply Forall_inv in HB as (HL & c & HC & CK).
      cbn [fst snd] in HL, HC. subst a. cbn [fold_left]. unfold count_row. cbn [bind fst snd]. rewrite !nth_map_seq by assumption. cbn [bind].
      assert (ME : forall r, mem (l ++ [(p, Some c)]) r = if c =? r then mem l r ++ [(p, Some c)] else mem l r).
      { intros r. rewrite filter_app. cbn [filter snd]. destruct (c =? r); [reflexivity|apply app_nil_r]. }
      f_equal. f_equal.
      + rewrite <- (upd_map_seq (fun r => length (mem l r)) (fun r => length (mem (l ++ [(p, Some c)]) r)) k c CK).
        * rewrite (ME c), Nat.eqb_refl, app_length. cbn [length]. now rewrite Nat.add_1_r.
        * intros r R' N. rewrite ME. destruct (Nat.eqb_spec c r); [congruence|reflexivity].
      + rewrite <- (upd_map_seq (fun r => map (sumc l r) (seq 0 cols)) (fun r => map (sumc (l ++ [(p, Some c)]) r) (seq 0 cols)) k c CK).
        * f_equal. apply list_map_seq; [rewrite map2_len by (rewrite map_length, seq_length; lia); now rewrite map_length, seq_length|]. intros i I.
          destruct (nth_error_ex p i ltac:(lia)) as [a N].
          rewrite (map2_nth _ _ _ _ (sumc l c i) a); [|now apply nth_map_seq|assumption].
          unfold sumc. rewrite ME, Nat.eqb_refl, fold_left_app. cbn [fold_left fst]. f_equal. f_equal. f_equal. symmetry. now apply nth_error_nth.
        * intros r R' N. apply map_ext. intros i. unfold sumc. rewrite ME. destruct (Nat.eqb_spec c r); [congruence|reflexivity].
  Qed.
  Lemma count_bad l : Exists (fun p => snd p = None) l -> forall st, fold_left (count_row dd) l st = None.
  Proof.
    induction 1 as [[p a] l E|q l E IH]; intros st; cbn [fold_left].
    - cbn [snd] in E. subst a. assert (C0 : count_row dd st (p, None) = None) by (unfold count_row; destruct st as [[? ?]|]; reflexivity).
      rewrite C0. apply count_none.
    - apply IH.
  Qed.
End Update.

Lemma members_map {F} (pts : list (list F)) a r :
  members pts a r = map fst (filter (fun p => match snd p with Some c => c =? r | None => false end) (List.combine pts a)).
Proof. reflexivity. Qed.
Lemma fold_map {A B C} (f : A -> C -> A) (g : B -> C) l : forall a, fold_left f (map g l) a = fold_left (fun a b => f a (g b)) l a.
Proof. induction l as [|b l IH]; intros a; cbn; auto. Qed.

(** The first least of some values. *)
Lemma least_spec {F} (x : xops F) (ord : ordered x) (dc : nat -> F) n :
  let m := fold_left (better x) (map (fun r => (dc r, Some r)) (seq 0 n)) (inf x, None) in
  (m = (inf x, None) /\ forall r, r < n -> lt (fo x) (dc r) (inf x) = false) \/
  (exists c, c < n /\ m = (dc c, Some c) /\ lt (fo x) (dc c) (inf x) = true /\ (forall r, r < n -> lt (fo x) (dc r) (dc c) = false) /\
     forall r, r < c -> number x (dc r) -> lt (fo x) (dc c) (dc r) = true).
Proof.
  cbv zeta.
      induction n as [|k IH]; [left; split; [reflexivity|lia]|]. rewrite seq_S, map_app, fold_left_app. cbn [map fold_left Nat.add].
      destruct IH as [[-> Q]|(c & V & -> & V1 & V2 & V3)]; unfold better; cbn [fst].
      + destruct (lt (fo x) (dc k) (inf x)) eqn:L.
        * right. exists k. split; [lia|]. split; [reflexivity|]. split; [exact L|]. split.
          -- intros r R'. destruct (Nat.eq_dec r k) as [->|NE]; [apply (o_irr x ord)|].
             destruct (lt (fo x) (dc r) (dc k)) eqn:LJ; [|reflexivity]. exfalso.
             specialize (Q r ltac:(lia)). rewrite (o_trans x ord _ _ _ LJ L) in Q. discriminate.
          -- intros r R' N. destruct (N _ _ L) as [N1|N1]; [exact N1|]. rewrite Q in N1 by assumption. discriminate.
        * left. split; [reflexivity|]. intros r R'. destruct (Nat.eq_dec r k) as [->|NE]; [exact L|apply Q; lia].
      + destruct (lt (fo x) (dc k) (dc c)) eqn:L.
        * right. exists k. split; [lia|]. split; [reflexivity|]. split; [exact (o_trans x ord _ _ _ L V1)|]. split.
          -- intros r R'. destruct (Nat.eq_dec r k) as [->|NE]; [apply (o_irr x ord)|].
             destruct (lt (fo x) (dc r) (dc k)) eqn:LJ; [|reflexivity]. rewrite <- (V2 r) by lia. symmetry. exact (o_trans x ord _ _ _ LJ L).
          -- intros r R' N. destruct (N _ _ L) as [N1|N1]; [exact N1|]. rewrite V2 in N1 by lia. discriminate.
        * right. exists c. split; [lia|]. split; [reflexivity|]. split; [exact V1|]. split; [|exact V3].
          intros r R'. destruct (Nat.eq_dec r k) as [->|NE]; [exact L|apply V2; lia].
Qed.

Section Step.
  Context {F D : Type} (x : xops F) (dd : dops F D) (ord : ordered x).
  Notation o := (fo x).
  Context (v : strided F) (pts : list (list F)) (Hv : views v pts).
  Context (b : btref (F := F)) (Hr : b_rows b = s_rows v) (Hcc : b_cols b = s_cols v) (Hb : holds_t b (cell (zero o) v)).
  Definition nrm (c : list F) : F := match square_norm x c with Some n => n | None => zero o end.
  Lemma nrm_ok c : square_norm x c = Some (nrm c).
  Proof. unfold nrm. destruct (square_norm_some x c) as [n ->]. reflexivity. Qed.
  Lemma row_norms_ok w ps : views w ps -> row_norms x w = Some (map nrm ps).
  Proof.
    intros (H1 & H2 & H3). unfold row_norms. erewrite each_seq.
    - instantiate (1 := fun i => nrm (nth i ps [])). f_equal. rewrite H2. symmetry. apply list_map_seq; [apply map_length|].
      intros i I. destruct (nth_error_ex ps i I) as [p N]. rewrite nth_error_map, N. cbn [option_map]. now rewrite (nth_error_nth ps i [] N).
    - intros i I. destruct (nth_error_ex ps i ltac:(lia)) as [p N]. destruct (H3 i p N) as [-> _]. cbn [bind].
      rewrite (nth_error_nth ps i [] N). apply nrm_ok.
  Qed.
  Notation n := (length pts).
  Notation norms := (map nrm pts).
  Definition pt (j : nat) : list F := nth j pts [].
  Lemma pt_nth j : j < n -> nth_error pts j = Some (pt j).
  Proof. intros J. now apply nth_error_nth'. Qed.
  Lemma trow_pt j : j < n -> trow b (cell (zero o) v) j = pt j.
  Proof.
    intros J. destruct Hv as (H1 & H2 & H3). unfold trow. rewrite Hcc. destruct (H3 j _ (pt_nth j J)) as [E _]. apply cell_row; [assumption|lia|assumption].
  Qed.
  Definition cdist (c p : list F) : F := let s := along o KMath c p in add o (sub o (sub o (nrm c) s) s) (nrm p).
  Lemma cdist_computed c p : computed x c p (cdist c p).
  Proof. exists (nrm c), (nrm p). split; [apply nrm_ok|]. split; [apply nrm_ok|reflexivity]. Qed.
  Lemma computed_fun c p d : computed x c p d -> d = cdist c p.
  Proof. intros (cn & m & E1 & E2 & ->). rewrite nrm_ok in E1, E2. injection E1 as <-. injection E2 as <-. reflexivity. Qed.

  (** The best center of a point with its distance. *)
  Definition cand_of (centers : matrix F) (p : list F) : F * option nat :=
    fold_left (better x) (map (fun r => (cdist (row centers r) p, Some r)) (seq 0 (m_rows centers))) (inf x, None).
  Notation cnf centers := (fun r => nrm (row centers r)).
  Notation nf := (fun j => nrm (pt j)).
  Lemma best_cand centers j : j < n -> best_of x b (cell (zero o) v) centers (cnf centers) nf j = cand_of centers (pt j).
  Proof.
    intros J. unfold best_of, top, cand_of, cands. f_equal. apply map_ext. intros r. f_equal. unfold dist, dotp, cdist. now rewrite trow_pt.
  Qed.
  Lemma cand_spec centers p : let m := cand_of centers p in
    assigned x centers p (snd m) /\ (snd m = None -> fst m = inf x) /\ (forall c, snd m = Some c -> fst m = cdist (row centers c) p).
  Proof.
    cbv zeta.
    pose proof (least_spec x ord (fun r => cdist (row centers r) p) (m_rows centers)) as Q. cbv zeta in Q. change (fold_left _ _ _) with (cand_of centers p) in Q.
    destruct Q as [[-> Q]|(c & V & -> & V1 & V2 & V3)]; cbn [fst snd].
    - split; [|split; [reflexivity|discriminate]]. exists (fun r => cdist (row centers r) p). split; [intros; apply cdist_computed|exact Q].
    - split; [|split; [discriminate|now intros ? [= <-]]]. exists (fun r => cdist (row centers r) p). split; [intros; apply cdist_computed|]. now split.
  Qed.
  Lemma assigned_fun centers p r r' : assigned x centers p r -> assigned x centers p r' -> r = r'.
  Proof.
    intros (d & H1 & H2) (d' & H1' & H2').
    assert (E : forall c, c < m_rows centers -> d' c = d c) by (intros c C; rewrite (computed_fun _ _ _ (H1 c C)); apply computed_fun; auto).
    assert (NN : forall c e, c < m_rows centers -> lt o (d c) e = true -> number x (d c)) by (intros; eapply num_lt; eassumption).
    destruct r as [c|], r' as [c'|]; [|exfalso|exfalso|reflexivity].
    - f_equal. destruct H2 as (A1 & A2 & A3 & A4), H2' as (B1 & B2 & B3 & B4). rewrite (E c' B1) in *.
      destruct (Nat.lt_trichotomy c c') as [L|[L|L]]; [exfalso|exact L|exfalso].
      + specialize (B4 c L). rewrite (E c A1) in B4. rewrite (A3 c' B1) in B4. discriminate B4. eauto.
      + specialize (A4 c' L). specialize (B3 c A1). rewrite (E c A1) in B3. rewrite B3 in A4. discriminate A4. eauto.
    - destruct H2 as (A1 & A2 & _). specialize (H2' c A1). rewrite (E c A1) in H2'. congruence.
    - destruct H2' as (A1 & A2 & _). specialize (H2 c' A1). rewrite (E c' A1) in A2. congruence.
  Qed.

  Definition assign (centers : matrix F) : list (option nat) := map (fun p => snd (cand_of centers p)) pts.
  Definition residual_of (centers : matrix F) : F :=
    sum_tree (add o) (zero o) (lanes (resid_end x b (cell (zero o) v) centers (cnf centers) nf)).
  Lemma dist_step centers old : shaped centers -> m_cols centers = s_cols v -> length old = n ->
    (do cn <- row_norms x (view_of centers); distances_in_place x b norms centers cn old) = Some (assign centers, residual_of centers).
  Proof.
    intros HS HC HO. destruct Hv as (H1 & H2 & H3). rewrite (row_norms_ok _ _ (views_matrix centers HS)). cbn [bind].
    rewrite (distances_ok x b (cell (zero o) v) Hb centers (cnf centers) nf HS ltac:(congruence) (map nrm (points centers))).
    - f_equal. f_equal. unfold assign. symmetry. rewrite Hr, H2. apply list_map_seq; [apply map_length|]. intros j J.
      rewrite nth_error_map, (pt_nth j J). cbn [option_map]. now rewrite best_cand.
    - unfold points. now rewrite !map_length, seq_length.
    - intros r R'. unfold points. rewrite map_map. now apply (nth_map_seq (fun r => nrm (row centers r))).
    - rewrite map_length. congruence.
    - intros j J. rewrite nth_error_map, (pt_nth j ltac:(congruence)). reflexivity.
    - congruence.
  Qed.
  Definition moved (centers : matrix F) : matrix F :=
    mkM (concat (map (fun r => centroid x dd (m_cols centers) (members pts (assign centers) r)) (seq 0 (m_rows centers)))) (m_rows centers) (m_cols centers).
  Lemma moved_shaped centers : shaped (moved centers).
  Proof. unfold shaped, moved. cbn [m_data m_rows m_cols]. apply concat_length. intros. unfold centroid. now rewrite map_length, seq_length. Qed.
  Lemma moved_row centers r : r < m_rows centers -> row (moved centers) r = centroid x dd (m_cols centers) (members pts (assign centers) r).
  Proof.
    intros R'. pose proof (moved_shaped centers) as MS. unfold centroid at 1. symmetry.
    assert (LR : length (row (moved centers) r) = m_cols centers) by (apply (row_length (moved centers)); [exact MS|exact R']).
    symmetry. apply list_map_seq; [exact LR|]. intros i I. rewrite (row_nth (moved centers)) by assumption. cbn [moved m_data m_cols].
    rewrite (concat_nth _ (m_rows centers) (m_cols centers)); [|intros; unfold centroid; now rewrite map_length, seq_length|assumption|assumption].
    unfold centroid. now apply nth_map_seq.
  Qed.
  Lemma each_rows : each (s_row v) (seq 0 (s_rows v)) = Some pts.
  Proof.
    destruct Hv as (H1 & H2 & H3). erewrite each_seq.
    - instantiate (1 := pt). f_equal. rewrite H2. symmetry. apply list_map_seq; [reflexivity|]. apply pt_nth.
    - intros i I. apply H3, pt_nth. lia.
  Qed.
  Lemma combine_forall {A B} (P : A * B -> Prop) (l : list A) (f : A -> B) : (forall a, In a l -> P (a, f a)) -> Forall P (List.combine l (map f l)).
  Proof. induction l as [|a l IH]; intros H; cbn [map List.combine]; constructor; [apply H; now left|apply IH; intros; apply H; now right]. Qed.
  Lemma update_step centers : shaped centers -> m_cols centers = s_cols v ->
    (forall p, In p pts -> exists c, assigned x centers p (Some c)) -> update_centroids dd centers v (assign centers) = Some (moved centers).
  Proof.
    intros HS HC HA. unfold update_centroids. cbv zeta. rewrite each_rows. cbn [bind]. rewrite (count_ok x).
    - cbn [bind]. f_equal. unfold moved. f_equal. f_equal.
      apply list_map_seq; [rewrite map2_len; rewrite !map_length, ?seq_length; reflexivity|]. intros r R'.
      erewrite map2_nth; [|now apply nth_map_seq|now apply nth_map_seq]. f_equal. rewrite map_map. unfold centroid. apply map_ext. intros i.
      unfold coordinate, sumc, members. rewrite fold_map, map_length. reflexivity.
    - unfold assign. apply combine_forall. intros p P. cbn [fst snd]. destruct Hv as (H1 & H2 & H3). split.
      + apply In_nth_error in P as [j N]. destruct (H3 j p N). congruence.
      + destruct (HA p P) as [c A]. destruct (cand_spec centers p) as [A' _]. rewrite (assigned_fun _ _ _ _ A' A). exists c. split; [reflexivity|].
        destruct A as (d & _ & A & _). exact A.
  Qed.
  Lemma update_panics centers p : In p pts -> assigned x centers p None -> update_centroids dd centers v (assign centers) = None.
  Proof.
    intros P A. unfold update_centroids. cbv zeta. rewrite each_rows. cbn [bind]. rewrite count_bad; [reflexivity|].
    unfold assign. destruct (cand_spec centers p) as [A' _]. pose proof (assigned_fun _ _ _ _ A' A) as E. clear - P E.
    induction pts as [|q l IH]; [destruct P|]. cbn [map List.combine]. destruct P as [->|P]; [now constructor|]. constructor 2. now apply IH.
  Qed.

  (** The steps without the bookkeeping of the norms. *)
  Fixpoint iter (centers : matrix F) (k : nat) : option (list (option nat) * F * matrix F) :=
    match k with
    | 0 => Some (repeat (Some 0) n, zero o, centers)
    | S k => do st <- iter centers k;
             let c := snd st in
             do next <- update_centroids dd c v (assign c); Some (assign c, residual_of c, next)
    end.
  Lemma update_shape centers next a : update_centroids dd centers v a = Some next -> m_rows next = m_rows centers /\ m_cols next = m_cols centers.
  Proof.
    unfold update_centroids. cbv zeta. rewrite each_rows. cbn [bind]. destruct (fold_left _ _ _) as [[cs ss]|]; [|discriminate]. cbn [bind].
    intros [= <-]. now split.
  Qed.
  Lemma update_moved centers next : shaped centers -> m_cols centers = s_cols v -> update_centroids dd centers v (assign centers) = Some next ->
    next = moved centers /\ forall p, In p pts -> exists c, assigned x centers p (Some c).
  Proof.
    intros HS HC E. assert (A : forall p, In p pts -> exists c, assigned x centers p (Some c)).
    { intros p P. destruct (cand_spec centers p) as [A _]. destruct (snd (cand_of centers p)) as [c|]; [eauto|].
      rewrite (update_panics centers p P A) in E. discriminate. }
    rewrite (update_step centers HS HC A) in E. injection E as <-. now split.
  Qed.
  Lemma iter_shape centers k a r c : shaped centers -> m_cols centers = s_cols v -> iter centers k = Some (a, r, c) ->
    length a = n /\ shaped c /\ m_cols c = s_cols v /\ m_rows c = m_rows centers.
  Proof.
    intros HS HC. revert a r c. induction k as [|k IH]; intros a r c; cbn [iter].
    - intros [= <- <- <-]. rewrite repeat_length. now repeat split.
    - destruct (iter centers k) as [[[a0 r0] c0]|]; cbn [bind snd]; [|discriminate]. destruct (IH _ _ _ eq_refl) as (I1 & I2 & I3 & I4).
      destruct (update_centroids dd c0 v (assign c0)) as [next|] eqn:E; cbn [bind]; [|discriminate]. intros [= <- <- <-].
      destruct (update_moved c0 next I2 I3 E) as [-> _]. unfold assign. rewrite map_length. split; [reflexivity|]. split; [apply moved_shaped|]. now split.
  Qed.
  Lemma lloyds_iter centers k : shaped centers -> m_cols centers = s_cols v ->
    lloyds_inner x dd v norms b centers k = iter centers k.
  Proof.
    intros HS HC. unfold lloyds_inner. cbv zeta. pose proof Hv as (H1 & H2 & H3).
    rewrite map_length, (proj2 (Nat.eqb_eq (s_rows v) _) H2), (proj2 (Nat.eqb_eq (s_rows v) _) (eq_sym Hr)),
      (proj2 (Nat.eqb_eq (s_cols v) _) (eq_sym Hcc)), (proj2 (Nat.eqb_eq (s_cols v) _) (eq_sym HC)). cbn [negb].
    rewrite (row_norms_ok _ _ (views_matrix centers HS)). cbn [bind]. rewrite H2.
    assert (Q : forall i, i <= k -> match for_range i (fun i '(assignments, residual, centers, cnorms) =>
        do r <- distances_in_place x b norms centers cnorms assignments;
        let '(assignments, residual) := r in
        do centers <- update_centroids dd centers v assignments;
        do cnorms <- (if negb (i =? k - 1) then row_norms x (view_of centers) else Some cnorms);
        Some (assignments, residual, centers, cnorms)) (repeat (Some 0) n, zero o, centers, map nrm (points centers)) with
      | Some (a, r, c, cn) => iter centers i = Some (a, r, c) /\ (i < k -> cn = map nrm (points c))
      | None => iter centers i = None end).
    { induction i as [|i IH]; intros I; [cbn; now split|]. rewrite for_range_S. specialize (IH ltac:(lia)). cbn [iter].
      destruct (for_range i _ _) as [[[[a r] c] cn]|]; cbn [bind]; [|now rewrite IH].
      destruct IH as [E CN]. rewrite E. cbn [bind snd]. specialize (CN ltac:(lia)). subst cn.
      destruct (iter_shape centers i a r c HS HC E) as (I1 & I2 & I3 & I4).
      pose proof (dist_step c a I2 I3 I1) as DS. rewrite (row_norms_ok _ _ (views_matrix c I2)) in DS. cbn [bind] in DS. rewrite DS. cbn [bind].
      destruct (update_centroids dd c v (assign c)) as [next|] eqn:U; cbn [bind]; [|reflexivity].
      destruct (update_moved c next I2 I3 U) as [-> _].
      destruct (Nat.eqb_spec i (k - 1)) as [EK|NK]; cbn [negb].
      - cbn [bind]. split; [reflexivity|]. lia.
      - rewrite (row_norms_ok _ _ (views_matrix _ (moved_shaped c))). cbn [bind]. split; [reflexivity|]. reflexivity. }
    specialize (Q k (le_n k)). destruct (for_range k _ _) as [[[[a r] c] cn]|]; cbn [bind]; [|now symmetry]. destruct Q as [-> _]. reflexivity.
  Qed.
End Step.
