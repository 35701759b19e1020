(** C109: training product-quantization pivots. *)
From Coq Require Import List PeanoNat Bool Lia Arith QArith Qcanon.
From Flocq Require Import IEEE754.BinarySingleNaN.
From Verif.Lib Require Import Lists.
From Verif.Simd Require Import Model Spec Ieee.
From Verif.Pq Require Import Model Spec Proofs Proofs4 Ieee.
From Verif.Kmeans Require Import Model Spec Proofs Proofs2 Proofs3 Proofs4 Proofs5 Proofs6 Proofs7 Proofs8 Proofs9.
From Verif.Kmeans Require Props Props2.
From Verif.Work Require Model.
Import ListNotations.
Local Open Scope nat_scope.

(** ** C109: a chunk is trained on its own columns only; it goes on after too few picks unless there were
    none or a distance was infinite *)
Theorem C109_chunk : forall {F D} (x : xops F) (dd : dops F D) ncenters reps (data : matrix F) offsets dim rng cancel i,
  Work.Model.offsets_new offsets = Some dim -> shaped data -> m_cols data = dim -> i < length offsets - 1 -> 0 < m_rows data ->
  let chunk := columns data offsets i in
  let centers := mkM (repeat (zero (fo x)) (ncenters * m_cols chunk)) ncenters (m_cols chunk) in
  train_chunk x dd ncenters reps data offsets dim rng cancel i =
  if cancel i 0 then Some (inr (Canceled i)) else
  match kmeans_plusplus x dd centers chunk (fst (rng i)) (snd (rng i)) with
  | None => None
  | Some (Some e, start) =>
      if match k_reason e with SawInfinity => true | DatasetTooSmall | InsufficientDiversity => k_selected e =? 0 end then Some (inr (Initialization i e)) else
      if cancel i 1 then Some (inr (Canceled i)) else option_map (fun l => inl (snd l)) (lloyds x dd chunk start reps)
  | Some (None, start) =>
      if cancel i 1 then Some (inr (Canceled i)) else option_map (fun l => inl (snd l)) (lloyds x dd chunk start reps)
  end.
Proof.
  intros F D x dd ncenters reps data offsets dim rng cancel i Ho Hd Hc I N chunk centers. rewrite chunk_eq by assumption. destruct (cancel i 0); [reflexivity|].
  subst chunk centers. change (m_cols (columns data offsets i)) with (nth (S i) offsets 0 - nth i offsets 0).
  destruct (kmeans_plusplus _ _ _ _ _ _) as [[[e|] start]|]; cbn [bind]; [|destruct (cancel i 1); [reflexivity|]; destruct (lloyds _ _ _ _ _); reflexivity|reflexivity].
  assert (R : negb (recoverable e) = match k_reason e with SawInfinity => true | DatasetTooSmall | InsufficientDiversity => k_selected e =? 0 end) by (unfold recoverable; destruct (k_reason e), (k_selected e); reflexivity).
  rewrite R. destruct (match k_reason e with SawInfinity => _ | _ => _ end); [reflexivity|]. destruct (cancel i 1); [reflexivity|]. destruct (lloyds _ _ _ _ _); reflexivity.
Qed.
Print Assumptions C109_chunk.
(** The columns of a chunk are what their name says. *)
Theorem C109_columns : forall {A} (data : matrix A) offsets dim i, Work.Model.offsets_new offsets = Some dim -> shaped data -> m_cols data = dim -> i < length offsets - 1 ->
  shaped (columns data offsets i) /\ m_rows (columns data offsets i) = m_rows data /\
  forall j, j < m_rows data -> row (columns data offsets i) j = piece offsets i (row data j).
Proof.
  intros A data offsets dim i Ho Hd Hc I. split; [eapply columns_shaped; eassumption|]. split; [reflexivity|]. intros j J. eapply columns_row; eassumption.
Qed.
Print Assumptions C109_columns.

(** ** The chunks together *)
Lemma seq_ok {F} (work : nat -> option (matrix F + terror)) l : 
  match train_seq work l with
  | Some (inl ms) => Forall2 (fun i m => work i = Some (inl m)) l ms
  | Some (inr e) => exists a i b, l = a ++ i :: b /\ work i = Some (inr e) /\ Forall (fun j => exists m, work j = Some (inl m)) a
  | None => exists a i b, l = a ++ i :: b /\ work i = None /\ Forall (fun j => exists m, work j = Some (inl m)) a
  end.
Proof.
  induction l as [|i l IH]; cbn [train_seq]; [constructor|]. destruct (work i) as [[m|e]|] eqn:E; cbn [bind].
  - destruct (train_seq work l) as [[ms|e]|]; cbn [bind]; [now constructor| |]; destruct IH as (a & j & b & -> & W & P); exists (i :: a), j, b; (split; [reflexivity|]); (split; [exact W|]); constructor; eauto.
  - exists [], i, l. now repeat split.
  - exists [], i, l. now repeat split.
Qed.
Lemma Forall2_len {A B} (P : A -> B -> Prop) l m : Forall2 P l m -> length l = length m.
Proof. induction 1; cbn; congruence. Qed.
Lemma Forall2_at {A B} (P : A -> B -> Prop) l m : Forall2 P l m -> forall k a b, nth_error l k = Some a -> nth_error m k = Some b -> P a b.
Proof. induction 1 as [|a b l m H _ IH]; intros [|k] u w N1 N2; cbn [nth_error] in *; try discriminate; [congruence|]. eapply IH; eassumption. Qed.
Theorem C109_train : forall {F D} (x : xops F) (dd : dops F D) ncenters reps (data : matrix F) offsets dim rng cancel, m_cols data = dim ->
  let work := train_chunk x dd ncenters reps data offsets dim rng cancel in
  match train x dd ncenters reps data offsets dim rng cancel with
  | Some (inl ms) => length ms = length offsets - 1 /\ forall i m, nth_error ms i = Some m -> work i = Some (inl m)
  | Some (inr e) => exists i, i < length offsets - 1 /\ work i = Some (inr e) /\ forall j, j < i -> exists m, work j = Some (inl m)
  | None => exists i, i < length offsets - 1 /\ work i = None /\ forall j, j < i -> exists m, work j = Some (inl m)
  end.
Proof.
  intros F D x dd ncenters reps data offsets dim rng cancel Hc work. unfold train. rewrite (proj2 (Nat.eqb_eq _ _) Hc). cbn [negb]. fold work.
  pose proof (seq_ok work (seq 0 (length offsets - 1))) as Q.
  assert (P : forall a i b (w : nat -> Prop), seq 0 (length offsets - 1) = a ++ i :: b -> Forall w a -> i < length offsets - 1 /\ forall j, j < i -> w j).
  { intros a i b w E W. assert (length a = i) as <-.
    { assert (N : nth_error (seq 0 (length offsets - 1)) (length a) = Some i) by (rewrite E, nth_error_app2, Nat.sub_diag by lia; reflexivity).
      pose proof (nth_error_lt' _ _ _ N) as L. rewrite seq_length in L. rewrite nth_seq in N by exact L. now injection N. }
    assert (L : length a < length offsets - 1) by (apply (f_equal (@length nat)) in E; rewrite seq_length, app_length in E; cbn [length] in E; lia). split; [exact L|].
    intros j J. eapply Forall_forall in W; [exact W|]. assert (N : nth_error (seq 0 (length offsets - 1)) j = Some j) by (apply nth_seq; lia).
    rewrite E, nth_error_app1 in N by exact J. eapply nth_error_In. exact N. }
  destruct (train_seq work _) as [[ms|e]|].
  - split; [apply Forall2_len in Q; rewrite seq_length in Q; congruence|]. intros i m N. assert (I : i < length offsets - 1) by (apply Forall2_len in Q; rewrite seq_length in Q; rewrite Q; now apply nth_error_lt' in N).
    exact (Forall2_at _ _ _ Q i i m (nth_seq _ _ _ I) N).
  - destruct Q as (a & i & b & E & W & A). exists i. destruct (P a i b _ E A) as [I J]. now repeat split.
  - destruct Q as (a & i & b & E & W & A). exists i. destruct (P a i b _ E A) as [I J]. now repeat split.
Qed.
Print Assumptions C109_train.

(** ** The pivots flattened: piece [i] of pivot [j] is center [j] of chunk [i] *)
Lemma lloyds_shape {F D} (x : xops F) (dd : dops F D) (data centers : matrix F) reps a r c : ordered x -> shaped data -> shaped centers -> m_cols data = m_cols centers ->
  lloyds x dd data centers reps = Some (a, r, c) -> shaped c /\ m_rows c = m_rows centers /\ m_cols c = m_cols centers.
Proof. intros ord HD HC E L. destruct (Props.C106_step x dd data centers ord HD HC E reps a r c L) as (H1 & H2 & H3 & _). now repeat split. Qed.
Lemma chunk_shape {F D} (x : xops F) (dd : dops F D) ncenters reps (data : matrix F) offsets dim rng cancel i m : ordered x ->
  Work.Model.offsets_new offsets = Some dim -> shaped data -> m_cols data = dim -> i < length offsets - 1 -> fst (rng i) < m_rows data ->
  train_chunk x dd ncenters reps data offsets dim rng cancel i = Some (inl m) ->
  shaped m /\ m_rows m = ncenters /\ m_cols m = nth (S i) offsets 0 - nth i offsets 0.
Proof.
  intros ord Ho Hd Hc I N. rewrite (C109_chunk x dd ncenters reps data offsets dim rng cancel i Ho Hd Hc I) by lia. destruct (C109_columns data offsets dim i Ho Hd Hc I) as (S1 & S2 & _).
  destruct (cancel i 0); [discriminate|]. set (cd := columns data offsets i) in *. set (cc := mkM (repeat (zero (fo x)) (ncenters * m_cols cd)) ncenters (m_cols cd)).
  assert (SC : shaped cc) by (unfold shaped, cc; cbn [m_data m_rows m_cols]; apply repeat_length).
  destruct (Nat.eq_dec ncenters 0) as [Z|Z].
  { subst ncenters. unfold cc. cbn [Nat.mul repeat]. rewrite (Props2.C108_no_centers_refuted x dd cd) by (try assumption; lia). discriminate. }
  destruct (Props2.C108_picks x dd cc cd (fst (rng i)) (snd (rng i)) ord SC S1 eq_refl ltac:(lia) ltac:(cbn; lia)) as (err & start & picks & -> & _ & _ & _ & T1 & T2 & T3 & _).
  assert (Q : option_map (fun l => @inl (matrix F) terror (snd l)) (lloyds x dd cd start reps) = Some (inl m) -> shaped m /\ m_rows m = ncenters /\ m_cols m = nth (S i) offsets 0 - nth i offsets 0).
  { destruct (lloyds x dd cd start reps) as [[[a r] c]|] eqn:L; [|discriminate]. cbn [option_map snd]. intros E. injection E as <-.
    destruct (lloyds_shape x dd cd start reps a r c ord S1 T1 (eq_sym T3) L) as (U1 & U2 & U3). split; [exact U1|]. rewrite U2, U3, T2, T3. split; reflexivity. }
  destruct err as [e|]; [destruct (match k_reason e with SawInfinity => _ | _ => _ end); [discriminate|]|]; (destruct (cancel i 1); [discriminate|exact Q]).
Qed.
Theorem C109_pivots : forall {F D} (x : xops F) (dd : dops F D) ncenters reps (data : matrix F) offsets dim rng cancel ms, ordered x ->
  Work.Model.offsets_new offsets = Some dim -> shaped data -> m_cols data = dim -> (forall i, fst (rng i) < m_rows data) ->
  train x dd ncenters reps data offsets dim rng cancel = Some (inl ms) ->
  exists flat, flatten x ms ncenters dim = Some flat /\ shaped flat /\ m_rows flat = ncenters /\ m_cols flat = dim /\
  forall i j m, nth_error ms i = Some m -> j < ncenters -> piece offsets i (row flat j) = row m j.
Proof.
  intros F D x dd ncenters reps data offsets dim rng cancel ms ord Ho Hd Hc HR T. pose proof (C109_train x dd ncenters reps data offsets dim rng cancel Hc) as Q. cbv zeta in Q. rewrite T in Q. destruct Q as [L W].
  assert (SH : forall i m, nth_error ms i = Some m -> shaped m /\ m_rows m = ncenters /\ m_cols m = nth (S i) offsets 0 - nth i offsets 0).
  { intros i m N. eapply (chunk_shape x dd ncenters reps data offsets dim rng cancel i m ord Ho Hd Hc); [rewrite <- L; now apply nth_error_lt' in N|apply HR|now apply W]. }
  assert (FA : Forall (fun m => shaped m /\ m_rows m = ncenters) ms).
  { apply Forall_forall. intros m M. apply In_nth_error in M as (i & N). destruct (SH i m N) as (A & B & _). now split. }
  assert (WD : widths ms = dim).
  { rewrite <- (off_last offsets dim Ho), <- L. assert (Q : forall k, k <= length ms -> list_sum (map m_cols (firstn k ms)) = nth k offsets 0).
    { induction k as [|k IH]; intros K; [cbn; now rewrite (off_0 offsets dim Ho)|]. destruct (nth_error_ex ms k ltac:(lia)) as (m & N).
      rewrite (firstn_S_nth ms k m N), map_app, list_sum_app, IH by lia. cbn [map list_sum fold_right]. destruct (SH _ _ N) as (_ & _ & ->). pose proof (off_lt offsets dim Ho k ltac:(lia)). lia. }
    rewrite <- (Q (length ms)) by lia. now rewrite firstn_all. }
  exists (mkM (concat (map (joined ms) (seq 0 ncenters))) ncenters dim). split; [now apply flatten_all|].
  assert (JL : Forall (fun p => length p = dim) (map (joined ms) (seq 0 ncenters))).
  { apply Forall_forall. intros p P. apply in_map_iff in P as (j & <- & J). apply in_seq in J. rewrite (joined_len ncenters) by (assumption || lia). exact WD. }
  split; [unfold shaped; cbn [m_data m_rows m_cols]; rewrite (concat_same _ dim JL), map_length, seq_length; reflexivity|]. split; [reflexivity|]. split; [reflexivity|].
  intros i j m N J. unfold row at 1. cbn [m_data m_cols]. rewrite (concat_at _ dim JL j (joined ms j)) by (now apply nth_map_seq).
  unfold joined. apply (piece_concat offsets dim Ho).
  - rewrite map_length. exact L.
  - intros k p P. rewrite nth_error_map in P. destruct (nth_error ms k) as [mk|] eqn:NK; [|discriminate]. cbn [option_map] in P. injection P as <-. destruct (SH _ _ NK) as (A & B & C). rewrite row_length; [exact C|exact A|lia].
  - rewrite nth_error_map, N. reflexivity.
Qed.
Print Assumptions C109_pivots.

(** ** In exact arithmetic training succeeds, and is never worse than its start *)
Theorem C109_exact : forall ncenters reps (data : matrix Qc) offsets dim rng,
  Work.Model.offsets_new offsets = Some dim -> shaped data -> m_cols data = dim -> (forall i, fst (rng i) < m_rows data /\ samples (snd (rng i))) -> 0 < ncenters ->
  exists ms, train ext_x ext_d ncenters reps (fin data) offsets dim rng (fun _ _ => false) = Some (inl (map fin ms)) /\ length ms = length offsets - 1 /\
  forall i final, nth_error ms i = Some final ->
  let chunk := columns data offsets i in
  exists picks start, nth_error picks 0 = Some (fst (rng i)) /\ sampled chunk (snd (rng i)) picks /\ m_rows start = ncenters /\
  (forall k p, nth_error picks k = Some p -> row start k = row chunk p) /\
  (reps = 0 -> final = start) /\
  (0 < reps -> forall a b, Forall2 (nearest final) (points chunk) a -> Forall2 (nearest start) (points chunk) b ->
     (cost final (points chunk) a <= cost start (points chunk) b)%Qc).
Proof.
  intros ncenters reps data offsets dim rng Ho Hd Hc HR HN.
  assert (CH : forall i, i < length offsets - 1 -> exists final, train_chunk ext_x ext_d ncenters reps (fin data) offsets dim rng (fun _ _ => false) i = Some (inl (fin final)) /\
    let chunk := columns data offsets i in
    exists picks start, nth_error picks 0 = Some (fst (rng i)) /\ sampled chunk (snd (rng i)) picks /\ m_rows start = ncenters /\
    (forall k p, nth_error picks k = Some p -> row start k = row chunk p) /\
    (reps = 0 -> final = start) /\
    (0 < reps -> forall a b, Forall2 (nearest final) (points chunk) a -> Forall2 (nearest start) (points chunk) b ->
       (cost final (points chunk) a <= cost start (points chunk) b)%Qc)).
  { intros i I. destruct (HR i) as [HF HS]. destruct (C109_columns data offsets dim i Ho Hd Hc I) as (S1 & S2 & _). set (cd := columns data offsets i) in *.
    pose proof (C109_chunk ext_x ext_d ncenters reps (fin data) offsets dim rng (fun _ _ => false) i Ho (shaped_fin _ Hd) Hc I) as Q.
    cbn [fin m_rows] in Q. specialize (Q ltac:(lia)). change (mkM (map Fin (m_data data)) (m_rows data) (m_cols data)) with (fin data) in Q. rewrite columns_fin in Q. fold cd in Q. cbv zeta in Q. 
    set (cc := mkM (repeat (Q2Qc 0) (ncenters * m_cols cd)) ncenters (m_cols cd)).
    assert (EC : mkM (repeat (zero (fo ext_x)) (ncenters * m_cols (fin cd))) ncenters (m_cols (fin cd)) = fin cc).
    { unfold fin at 3, cc. cbn [m_data m_rows m_cols fin]. f_equal. generalize (ncenters * m_cols cd). induction n as [|n IH]; cbn [repeat map]; [reflexivity|]. now rewrite <- IH. }
    rewrite EC in Q. clear EC.
    assert (SC : shaped cc) by (unfold shaped, cc; cbn [m_data m_rows m_cols]; apply repeat_length).
    assert (DI : distinct (points cd) (length (nodup (list_eq_dec Qc_eq_dec) (points cd)))).
    { exists (nodup (list_eq_dec Qc_eq_dec) (points cd)). split; [apply NoDup_nodup|]. split; [reflexivity|]. intros p. apply nodup_In. }
    set (k := length (nodup (list_eq_dec Qc_eq_dec) (points cd))) in *.
    assert (KP : 0 < k).
    { destruct DI as (l & _ & LK & L3). destruct l as [|p l]; [|rewrite <- LK; apply Nat.lt_0_succ]. exfalso. apply (L3 (row cd 0)). unfold points. apply in_map. apply in_seq. lia. }
    destruct (Props2.C108_exact cc cd (fst (rng i)) (snd (rng i)) k SC S1 eq_refl ltac:(lia) HN HS DI) as (m & picks & EK & P1 & P2 & P3 & P4 & P5 & P6 & P7 & P8 & P9 & P10).
    rewrite EK in Q. clear EK. cbn [cc m_rows m_cols] in P1, P7, P8, P10.
    destruct (fin_of m P6) as (start & -> & SS).
    { intros j J. rewrite P7 in J. destruct (Nat.lt_ge_cases j (length picks)) as [JP|JP].
      - destruct (nth_error_ex picks j JP) as (p & N). exists (row cd p). now apply P9.
      - eexists. apply P10. lia. }
    cbn [fin m_rows m_cols] in P7, P8.
    assert (EL : exists a r, lloyds ext_x ext_d (fin cd) (fin start) reps = Some (a, r, fin (qiter cd start reps))) by (do 2 eexists; apply exact_steps; (assumption || lia)).
    exists (qiter cd start reps). split.
    { rewrite Q. destruct EL as (a & r & ->). destruct (m_rows cc <=? k); [reflexivity|]. cbn [k_reason k_selected].
      rewrite (proj2 (Nat.eqb_neq k 0)) by lia. destruct (k =? m_rows cd); reflexivity. }
    exists picks, start. split; [exact P2|]. split; [exact P3|]. split; [exact P7|]. split.
    { intros j p N. pose proof (P9 j p N) as E. rewrite row_fin in E. clear - E. revert E. generalize (row start j), (row cd p). intros l. induction l as [|u l IH]; intros [|w l'] E; try discriminate; [reflexivity|]. cbn [map] in E. injection E as -> E. f_equal. now apply IH. }
    split; [now intros ->|]. intros R a b NA NB. destruct reps as [|reps]; [lia|].
    apply Qcle_trans with (qres cd start reps).
    - apply (after cd S1 start SS); (assumption || lia).
    - apply Qcle_trans with (qres cd start 0).
      + apply (qres_le cd S1 start SS); (assumption || lia).
      + unfold qres. cbn [qiter]. apply (nearest_cost start (points cd)).
        * apply (qa_nearest cd S1 start SS) with (k := 0); (assumption || lia).
        * now rewrite <- (Forall2_len _ _ _ NB).
        * apply Forall_forall. intros c C. clear - NB C. induction NB as [|p c' l l' (H & _) _ IH]; [destruct C|]. destruct C as [<-|C]; [exact H|now apply IH]. }
  clear HR HN.
  assert (AL : forall l, (forall i, In i l -> i < length offsets - 1) -> exists ms, train_seq (train_chunk ext_x ext_d ncenters reps (fin data) offsets dim rng (fun _ _ => false)) l = Some (inl (map fin ms)) /\
    Forall2 (fun i final => 
    let chunk := columns data offsets i in
    exists picks start, nth_error picks 0 = Some (fst (rng i)) /\ sampled chunk (snd (rng i)) picks /\ m_rows start = ncenters /\
    (forall k p, nth_error picks k = Some p -> row start k = row chunk p) /\
    (reps = 0 -> final = start) /\
    (0 < reps -> forall a b, Forall2 (nearest final) (points chunk) a -> Forall2 (nearest start) (points chunk) b ->
       (cost final (points chunk) a <= cost start (points chunk) b)%Qc)) l ms).
  { induction l as [|i l IH]; intros HI; [exists []; split; [reflexivity|constructor]|]. destruct (CH i (HI i (or_introl eq_refl))) as (f & E & P). destruct IH as (ms & EM & PM); [intros; apply HI; now right|].
    exists (f :: ms). split; [|constructor; assumption]. cbn [train_seq]. rewrite E. cbn [bind]. rewrite EM. reflexivity. }
  destruct (AL (seq 0 (length offsets - 1))) as (ms & EM & PM); [intros i I; apply in_seq in I; lia|]. exists ms.
  split; [unfold train; cbn [fin m_cols]; rewrite (proj2 (Nat.eqb_eq _ _) Hc); exact EM|]. split; [apply Forall2_len in PM; now rewrite seq_length in PM|].
  intros i final N. assert (L : i < length offsets - 1) by (pose proof (Forall2_len _ _ _ PM) as L; rewrite seq_length in L; rewrite L; now apply nth_error_lt' in N).
  assert (NS : nth_error (seq 0 (length offsets - 1)) i = Some i) by (now apply nth_seq).
  exact (Forall2_at _ _ _ PM _ _ _ NS N).
Qed.
Print Assumptions C109_exact.
(** Five rows of three columns cut into two chunks, with samples at a third of the range: the second
    chunk has one value only, so one of its two centers is left at zero and keeps no points. *)
Definition five : matrix Qc := mkM (map Props.zq [0; 0; 7; 0; 1; 7; 10; 10; 7; 10; 11; 7; 0; 2; 7]%Z) 5 3.
Definition trained (r : option (list (matrix ext) + terror)) : option (list (list (option Q)) + terror) :=
  option_map (fun r => match r with inl ms => inl (map (fun m => map (fun e => match e with Fin v => Some (this v) | _ => None end) (m_data m)) ms) | inr e => inr e end) r.
Example C109_example :
  Work.Model.offsets_new [0; 2; 3] = Some 3 /\ shaped five /\ samples Props2.third /\
  trained (train ext_x ext_d 2 3 (fin five) [0; 2; 3] 3 (fun _ => (1, Props2.third)) (fun _ _ => false)) =
    Some (inl [[Some (0#1); Some (1#1); Some (10#1); Some (21#2)]; [Some (7#1); Some (0#1)]])%Q /\
  trained (train ext_x ext_d 2 3 (fin five) [0; 2; 3] 3 (fun _ => (1, Props2.third)) (fun i j => (i =? 1) && (j =? 1))) = Some (inr (Canceled 1)).
Proof. split; [reflexivity|]. split; [reflexivity|]. split; [apply Props2.third_samples|]. split; vm_compute; reflexivity. Qed.

(** ** What is not so *)

(** The claim that data with NaN are reported as an error is false: one center and one row panic. *)
Theorem C109_nan_refuted : forall {D} (dd : dops f32 D) draw, train f32_x dd 1 1 (mkM [B754_nan] 1 1) [0; 1] 1 (fun _ => (0, draw)) (fun _ _ => false) = None.
Proof.
  intros D dd draw. unfold train. cbn [m_cols Nat.eqb negb length Nat.sub seq train_seq].
  rewrite (C109_chunk f32_x dd 1 1 (mkM [B754_nan] 1 1) [0; 1] 1 (fun _ => (0, draw)) (fun _ _ => false) 0 eq_refl eq_refl eq_refl (Nat.lt_0_succ _) (Nat.lt_0_succ _)).
  change (columns (mkM [B754_nan] 1 1) [0; 1] 0) with (mkM [@B754_nan 24 128] 1 1). cbv zeta. cbn [fst snd m_cols].
  change (kmeans_plusplus f32_x dd _ _ 0 draw) with (Some (@None kerr, mkM [@B754_nan 24 128] 1 1)).
  destruct (lloyds f32_x dd (mkM [B754_nan] 1 1) (mkM [B754_nan] 1 1) 1) eqn:E; [|reflexivity]. exfalso. 
  destruct (Props.C106_start f32_x dd (mkM [B754_nan] 1 1) (mkM [B754_nan] 1 1) f32_ordered eq_refl eq_refl eq_refl) as (a & S0 & _).
  destruct (Props.C106_step f32_x dd (mkM [B754_nan] 1 1) (mkM [B754_nan] 1 1) f32_ordered eq_refl eq_refl eq_refl 0 _ _ _ S0) as (_ & _ & _ & [(q & _ & _ & E')|(a' & r' & n' & _ & F2 & _)]); [congruence|].
  inversion F2 as [|? ? ? ? [A N] _]; subst. apply N. eapply (Props.C106_unique f32_x); [exact f32_ordered|exact A|].
  exists (fun _ => B754_nan). split; [|reflexivity]. intros c C. cbn [m_rows] in C. assert (c = 0) as -> by lia. eexists; eexists; split; [reflexivity|split; [reflexivity|reflexivity]].
Qed.
Print Assumptions C109_nan_refuted.
(** An empty training set is an error for the first chunk and a panic for any other: the order in which
    the chunks are taken decides. *)
Theorem C109_empty_refuted : forall {F D} (x : xops F) (dd : dops F D) ncenters reps offsets dim rng cancel, ordered x ->
  Work.Model.offsets_new offsets = Some dim -> 0 < ncenters -> cancel 0 0 = false -> cancel 1 0 = false -> 2 < length offsets ->
  train x dd ncenters reps (mkM [] 0 dim) offsets dim rng cancel = Some (inr (Initialization 0 (mkK 0 ncenters DatasetTooSmall))) /\
  train_chunk x dd ncenters reps (mkM [] 0 dim) offsets dim rng cancel 1 = None.
Proof.
  intros F D x dd ncenters reps offsets dim rng cancel ord Ho HN C0 C1 L. pose proof (off_0 offsets dim Ho) as O0. pose proof (off_lt offsets dim Ho 0 ltac:(lia)) as O1. pose proof (off_le offsets dim Ho 1 ltac:(lia)) as O2. split.
  - unfold train. cbn [m_cols]. rewrite Nat.eqb_refl. cbn [negb]. replace (length offsets - 1) with (S (length offsets - 2)) by lia. cbn [seq train_seq].
    replace (train_chunk x dd ncenters reps (mkM [] 0 dim) offsets dim rng cancel 0) with (Some (@inr (matrix F) terror (Initialization 0 (mkK 0 ncenters DatasetTooSmall)))); [reflexivity|].
    unfold train_chunk. rewrite (off_at offsets 0) by lia. cbn [bind]. rewrite C0, O0. unfold slice. cbn [m_data m_rows length skipn firstn Nat.leb andb Nat.sub bind]. unfold shrink_from, linear_length. cbn [Nat.max Nat.min Nat.sub Nat.mul Nat.add length Nat.leb firstn].
    destruct (Nat.leb_spec (nth 1 offsets 0 - 0) dim); [|lia]. cbn [negb]. unfold row_norms. cbn [s_rows seq each bind].
    assert (T : transpose_of x (mkS [] 0 (nth 1 offsets 0 - 0) dim) = Some (mkB [] 0 (nth 1 offsets 0 - 0))) by (unfold transpose_of, bt_from; cbn [s_rows s_cols]; change (div_ceil 0 16) with 0; reflexivity).
    rewrite T. cbn [bind]. cbv zeta. unfold kmeans_plusplus_inner. cbn [length s_rows s_cols b_rows b_cols m_cols m_rows Nat.eqb negb]. rewrite Nat.eqb_refl. cbn [negb bind]. cbv zeta. cbn [m_rows].
    rewrite (proj2 (Nat.eqb_neq ncenters 0)) by lia. reflexivity.
  - unfold train_chunk. rewrite (off_at offsets 1) by lia. cbn [bind]. rewrite C1. unfold slice. cbn [m_data length].
    destruct (Nat.leb_spec (nth 1 offsets 0) 0); [lia|]. reflexivity.
Qed.
Print Assumptions C109_empty_refuted.
