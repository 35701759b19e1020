(** C106 and C107: Lloyd's algorithm. *)
From Coq Require Import List PeanoNat Bool Lia Arith QArith Qcanon.
From Flocq Require Import IEEE754.BinarySingleNaN.
From Verif.Lib Require Import Lists.
From Verif.Simd Require Import Model Spec Ieee.
From Verif.Pq Require Import Model Spec Ieee.
From Verif.Kmeans Require Import Model Spec Proofs Proofs2 Proofs3 Proofs4.
Import ListNotations.
Local Open Scope nat_scope.

(** ** C106: one step in floating point *)
Theorem C106_step : forall {F D} (x : xops F) (dd : dops F D) (data centers : matrix F), ordered x ->
  shaped data -> shaped centers -> m_cols data = m_cols centers ->
  forall reps a r prev, lloyds x dd data centers reps = Some (a, r, prev) ->
  shaped prev /\ m_rows prev = m_rows centers /\ m_cols prev = m_cols centers /\
  ((exists p, In p (points data) /\ assigned x prev p None /\ lloyds x dd data centers (S reps) = None) \/
   exists a' r' next, lloyds x dd data centers (S reps) = Some (a', r', next) /\
     Forall2 (fun p c => assigned x prev p c /\ c <> None) (points data) a' /\
     shaped next /\ m_rows next = m_rows centers /\ m_cols next = m_cols centers /\
     forall c, c < m_rows centers -> row next c = centroid x dd (m_cols data) (members (points data) a' c)).
Proof. intros F D x dd data centers ord HD HC E. now apply lloyds_next. Qed.
Print Assumptions C106_step.
(** It starts from the given centers. *)
Theorem C106_start : forall {F D} (x : xops F) (dd : dops F D) (data centers : matrix F), ordered x ->
  shaped data -> shaped centers -> m_cols data = m_cols centers ->
  exists a, lloyds x dd data centers 0 = Some (a, zero (fo x), centers) /\ length a = m_rows data.
Proof.
  intros F D x dd data centers ord HD HC E. destruct (lloyds_steps x dd data centers ord HD HC E) as (b & _ & _ & _ & L). rewrite L. cbn [iter].
  eexists. split; [reflexivity|]. rewrite repeat_length. unfold points. now rewrite map_length, seq_length.
Qed.
Print Assumptions C106_start.
(** A point has one center at most, so the statement above fixes every assignment. *)
Theorem C106_unique : forall {F} (x : xops F) (centers : matrix F) p r r', ordered x ->
  assigned x centers p r -> assigned x centers p r' -> r = r'.
Proof. intros. eapply assigned_fun; eassumption. Qed.
Print Assumptions C106_unique.
(** The comparison of f32 has the order that is asked for. *)
Example C106_f32 : ordered f32_x.
Proof. exact f32_ordered. Qed.
(** Three points on a line and two centers, in f32, with sums kept in f32. *)
Definition f32_d : dops f32 f32 :=
  mkD (fun a => a) (fun a => a) (zero f32_ops) (add f32_ops) (fun a n => div f32_ops a (binary_normalize 24 128 eq_refl eq_refl mode_NE (Z.of_nat n) 0 false))
      (lt f32_ops) (fun a b => negb (lt f32_ops a b)) is_finite.
Definition fz (m : Z) : f32 := binary_normalize 24 128 eq_refl eq_refl mode_NE m 0 false.
Example C106_example : option_map (fun r => (fst (fst r), B2SF (snd (fst r)), map B2SF (m_data (snd r))))
    (lloyds f32_x f32_d (mkM [fz 1; fz 3; fz 10] 3 1) (mkM [fz 0; fz 8] 2 1) 2) =
  Some ([Some 0; Some 0; Some 1], B2SF (fz 2), [B2SF (fz 2); B2SF (fz 10)]).
Proof. vm_compute. reflexivity. Qed.
(** The claim that clustering returns for every dataset of the right shape is false: a point without
    a finite distance indexes the counts with u32::MAX. *)
Theorem C106_total_refuted_nan : forall {D} (dd : dops f32 D),
  lloyds f32_x dd (mkM [B754_nan] 1 1) (mkM [fz 0] 1 1) 1 = None /\
  lloyds f32_x dd (mkM [binary_normalize 24 128 eq_refl eq_refl mode_NE 1 100 false] 1 1) (mkM [fz 0] 1 1) 1 = None.
Proof.
  assert (Q : forall D (dd : dops f32 D) v d, computed f32_x [fz 0] [v] d -> f32_lt d (B754_infinity false) = false -> lloyds f32_x dd (mkM [v] 1 1) (mkM [fz 0] 1 1) 1 = None).
  { intros D dd v d HC HL. destruct (C106_start f32_x dd (mkM [v] 1 1) (mkM [fz 0] 1 1) f32_ordered eq_refl eq_refl eq_refl) as (a & S0 & _).
    destruct (C106_step f32_x dd (mkM [v] 1 1) (mkM [fz 0] 1 1) f32_ordered eq_refl eq_refl eq_refl 0 _ _ _ S0) as (_ & _ & _ & [(p & _ & _ & E)|(a' & r' & n' & _ & F2 & _)]); [exact E|].
    exfalso. inversion F2 as [|? ? ? ? [A N] _]; subst. apply N. eapply (C106_unique f32_x); [exact f32_ordered|exact A|].
    exists (fun _ => d). split; [|intros; exact HL]. intros c C. cbn [m_rows] in C. assert (c = 0) as -> by lia. exact HC. }
  intros D dd. split; eapply Q; try (eexists; eexists; split; [reflexivity|split; [reflexivity|reflexivity]]); vm_compute; reflexivity.
Qed.
Print Assumptions C106_total_refuted_nan.
Theorem C106_total_refuted_no_centers : forall {F D} (x : xops F) (dd : dops F D) (data : matrix F), ordered x -> shaped data -> 0 < m_rows data ->
  lloyds x dd data (mkM [] 0 (m_cols data)) 1 = None.
Proof.
  intros F D x dd data ord HD N. destruct (C106_start x dd data (mkM [] 0 (m_cols data)) ord HD eq_refl eq_refl) as (a & S0 & _).
  destruct (C106_step x dd data (mkM [] 0 (m_cols data)) ord HD eq_refl eq_refl 0 _ _ _ S0) as (_ & _ & _ & [(p & _ & _ & E)|(a' & r' & n' & _ & F2 & _)]); [exact E|].
  exfalso. assert (PN : points data <> []) by (unfold points; destruct (m_rows data); [lia|discriminate]).
  destruct F2 as [|p c l l' [A C] _]; [now apply PN|]. destruct A as (d & _ & A). destruct c as [c|]; [|now apply C]. cbn [m_rows] in A. lia.
Qed.
Print Assumptions C106_total_refuted_no_centers.

(** ** C107: in exact arithmetic *)
Theorem C107_exact : forall (data centers : matrix Qc), shaped data -> shaped centers -> m_cols data = m_cols centers -> 0 < m_rows centers ->
  forall reps, exists a0 r0 prev a next,
  lloyds ext_x ext_d (fin data) (fin centers) reps = Some (a0, r0, fin prev) /\ (reps = 0 -> prev = centers) /\
  lloyds ext_x ext_d (fin data) (fin centers) (S reps) = Some (map Some a, Fin (cost prev (points data) a), fin next) /\
  Forall2 (nearest prev) (points data) a /\
  shaped next /\ m_rows next = m_rows centers /\ m_cols next = m_cols data /\
  forall c, c < m_rows centers -> row next c = mean (m_cols data) (members (points data) (map Some a) c).
Proof.
  intros data centers HD HC E HK reps. symmetry in E.
  do 2 eexists. exists (qiter data centers reps), (qa data (qiter data centers reps)), (qiter data centers (S reps)).
  split; [apply exact_steps; assumption|]. split; [now intros ->|]. split; [rewrite exact_steps by assumption; reflexivity|].
  split; [now apply qa_nearest|]. destruct (qiter_ok data centers HC E (S reps)) as (I1 & I2 & I3). split; [exact I1|]. split; [exact I2|]. split; [exact I3|].
  destruct (qiter_ok data centers HC E reps) as (J1 & J2 & J3). intros c C. cbn [qiter]. rewrite qmoved_row by (try assumption; lia). now rewrite J3, group_members.
Qed.
Print Assumptions C107_exact.
(** More steps never make the residual larger, and the centers that are returned are at least as good
    as the residual says. *)
Theorem C107_descends : forall (data centers : matrix Qc), shaped data -> shaped centers -> m_cols data = m_cols centers -> 0 < m_rows centers ->
  forall i j ai aj ri rj ci cj, 0 < i <= j ->
  lloyds ext_x ext_d (fin data) (fin centers) i = Some (ai, Fin ri, ci) -> lloyds ext_x ext_d (fin data) (fin centers) j = Some (aj, Fin rj, cj) ->
  (rj <= ri)%Qc.
Proof.
  intros data centers HD HC E HK i j ai aj ri rj ci cj IJ. symmetry in E. rewrite !exact_steps by assumption. destruct i as [|i], j as [|j]; try lia.
  intros [= _ <- _] [= _ <- _]. apply qres_le; try assumption. lia.
Qed.
Print Assumptions C107_descends.
Theorem C107_returned : forall (data centers : matrix Qc), shaped data -> shaped centers -> m_cols data = m_cols centers -> 0 < m_rows centers ->
  forall reps a r next b, lloyds ext_x ext_d (fin data) (fin centers) (S reps) = Some (a, Fin r, fin next) ->
  Forall2 (nearest next) (points data) b -> (cost next (points data) b <= r)%Qc.
Proof.
  intros data centers HD HC E HK reps a r next b. symmetry in E. rewrite exact_steps by assumption. intros H.
  assert (EN : fin (qiter data centers (S reps)) = fin next) by congruence. apply fin_inj in EN. assert (ER : qres data centers reps = r) by congruence. subst r.
  rewrite <- EN. intros N. now apply (after data HD centers HC HK E).
Qed.
Print Assumptions C107_returned.
Definition zq (n : Z) : Qc := Q2Qc (inject_Z n).
Definition line (l : list Z) : matrix Qc := mkM (map zq l) (length l) 1.
(** Three points and two centers: the residuals of the steps. *)
Definition seen (r : option (list (option nat) * ext * matrix ext)) :=
  option_map (fun r => (fst (fst r), match snd (fst r) with Fin v => Some (this v) | _ => None end,
                        map (fun e => match e with Fin v => Some (this v) | _ => None end) (m_data (snd r)))) r.
Example C107_example :
  shaped (line [-100; 4; 10]%Z) /\ shaped (line [0; 10]%Z) /\
  seen (lloyds ext_x ext_d (fin (line [-100; 4; 10]%Z)) (fin (line [0; 10]%Z)) 1) = Some ([Some 0; Some 0; Some 1], Some (10016#1)%Q, [Some (-48#1)%Q; Some (10#1)%Q]) /\
  seen (lloyds ext_x ext_d (fin (line [-100; 4; 10]%Z)) (fin (line [0; 10]%Z)) 2) = Some ([Some 0; Some 1; Some 1], Some (2740#1)%Q, [Some (-100#1)%Q; Some (7#1)%Q]) /\
  seen (lloyds ext_x ext_d (fin (line [-100; 4; 10]%Z)) (fin (line [0; 10]%Z)) 3) = Some ([Some 0; Some 1; Some 1], Some (18#1)%Q, [Some (-100#1)%Q; Some (7#1)%Q]).
Proof. split; [reflexivity|]. split; [reflexivity|]. split; [|split]; vm_compute; reflexivity. Qed.
(** The claim that the assignments and the residual are those of the returned centers is false. *)
Theorem C107_assignment_refuted : exists data centers a r next, shaped data /\ shaped centers /\
  lloyds ext_x ext_d (fin data) (fin centers) 1 = Some (map Some a, Fin r, fin next) /\
  ~ Forall2 (nearest next) (points data) a /\ r <> cost next (points data) a.
Proof.
  destruct (C107_exact (line [-100; 4; 10]%Z) (line [0; 10]%Z) eq_refl eq_refl eq_refl (Nat.lt_0_succ 1) 0) as (a0 & r0 & prev & a & next & _ & E0 & E & N & _ & ER & EC & _).
  specialize (E0 eq_refl). subst prev.
  exists (line [-100; 4; 10]%Z), (line [0; 10]%Z), a, (cost (line [0; 10]%Z) (points (line [-100; 4; 10]%Z)) a), next.
  split; [reflexivity|]. split; [reflexivity|]. split; [exact E|].
  assert (W : seen (lloyds ext_x ext_d (fin (line [-100; 4; 10]%Z)) (fin (line [0; 10]%Z)) 1) = Some ([Some 0; Some 0; Some 1], Some (10016#1)%Q, [Some (-48#1)%Q; Some (10#1)%Q])) by (vm_compute; reflexivity).
  rewrite E in W. unfold seen in W. cbn [option_map fst snd fin m_data] in W. injection W as WA WR WN.
  assert (A : a = [0; 0; 1]) by (clear - WA; destruct a as [|? [|? [|? [|? ?]]]]; try discriminate WA; injection WA as -> -> ->; reflexivity). subst a.
  assert (SH : exists u w, m_data next = [u; w] /\ this u = (-48#1)%Q /\ this w = (10#1)%Q).
  { clear - WN. destruct (m_data next) as [|u [|w [|? ?]]]; try discriminate WN. exists u, w. injection WN as -> ->. now repeat split. }
  clear WR WN WA.
  destruct SH as (u & w & MD & U & W'). assert (u = zq (-48)) as -> by (apply Qc_is_canon; rewrite U; reflexivity). assert (w = zq 10) as -> by (apply Qc_is_canon; rewrite W'; reflexivity).
  destruct next as [d nr nc]. cbn [line m_rows m_cols m_data length] in MD, ER, EC. clear E N. subst d nr nc. split.
  - intros F2. inversion F2 as [|? ? ? ? _ F3]; subst. inversion F3 as [|? ? ? ? (L & B & _) _]; subst. specialize (B 1 ltac:(cbn; lia)).
    revert B. apply Qclt_not_le. apply qlt_lt. vm_compute. reflexivity.
  - intros EQ. apply (f_equal this) in EQ. vm_compute in EQ. discriminate EQ.
Qed.
Print Assumptions C107_assignment_refuted.
(** With no step at all every point is said to belong to center 0, with a residual of zero. *)
Theorem C107_no_steps_refuted : exists data centers, shaped data /\ shaped centers /\
  lloyds ext_x ext_d (fin data) (fin centers) 0 = Some (map Some [0; 0], Fin (Q2Qc 0), fin centers) /\
  ~ Forall2 (nearest centers) (points data) [0; 0] /\ cost centers (points data) [0; 0] <> Q2Qc 0.
Proof.
  exists (line [0; 10]%Z), (line [0; 10]%Z). split; [reflexivity|]. split; [reflexivity|].
  split; [rewrite exact_steps by (try reflexivity; apply Nat.lt_0_succ); reflexivity|]. split.
  - intros F2. inversion F2 as [|? ? ? ? _ F3]; subst. inversion F3 as [|? ? ? ? (L & B & _) _]; subst. specialize (B 1 ltac:(cbn; lia)).
    revert B. apply Qclt_not_le. apply qlt_lt. vm_compute. reflexivity.
  - intros EQ. apply (f_equal this) in EQ. vm_compute in EQ. discriminate EQ.
Qed.
Print Assumptions C107_no_steps_refuted.
