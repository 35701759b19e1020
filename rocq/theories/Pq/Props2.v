(** C102-C105: the basic table of product quantization, distances of codes, distances of many points,
    two versions of a table. *)
From Coq Require Import List ZArith PeanoNat Bool Lia.
From Verif.Lib Require Import Lists.
From Verif.Simd Require Import Model Spec.
From Verif.Simd Require Props.
From Verif.Pq Require Import Model Spec Proofs Proofs4 Proofs5 Proofs6 Proofs7 Proofs8 Proofs9 Proofs10 Ieee.
From Verif.Pq Require Props.
Require Verif.Work.Model.
Import ListNotations.

Lemma basic_inv {F} (pivots : matrix F) offsets dim t : basic_new pivots offsets dim = Ok t ->
  m_cols pivots = dim /\ 0 < m_rows pivots /\ t = mkB pivots offsets dim.
Proof.
  unfold basic_new. destruct (Nat.eqb_spec (m_cols pivots) dim); cbn [negb]; [|discriminate].
  destruct (Nat.eqb_spec (m_rows pivots) 0); [discriminate|]. intros [= <-]. repeat split; [assumption|lia].
Qed.

(** ** C102: the basic table gives every piece the code of the nearest pivot *)

Theorem C102_construction : forall {F} (pivots : matrix F) offsets dim,
  (m_cols pivots <> dim -> basic_new pivots offsets dim = Err DimMismatch) /\
  (m_cols pivots = dim -> m_rows pivots = 0 -> basic_new pivots offsets dim = Err PivotsEmpty) /\
  (m_cols pivots = dim -> 0 < m_rows pivots -> exists t, basic_new pivots offsets dim = Ok t).
Proof.
  intros F pivots offsets dim. unfold basic_new. split; [|split].
  - intros N. apply Nat.eqb_neq in N. now rewrite N.
  - intros -> ->. now rewrite Nat.eqb_refl.
  - intros -> P. rewrite Nat.eqb_refl. destruct (Nat.eqb_spec (m_rows pivots) 0); [lia|]. cbn [negb]. eauto.
Qed.
Print Assumptions C102_construction.
(** In any arithmetic with an order like that of f32 every code is the pivot whose computed distance
    is minimal, the first of them; or the call fails at the first piece that has none, and the bytes
    from there on are left. *)
Theorem C102_minimal : forall {F} (x : xops F) a pivots offsets dim t, ordered x -> is_infin x (inf x) = true ->
  Work.Model.offsets_new offsets = Some dim -> length (m_data pivots) = m_rows pivots * m_cols pivots ->
  basic_new pivots offsets dim = Ok t -> forall from to,
  let nchunks := length offsets - 1 in
  (256 < m_rows pivots -> b_compress x a t from to = Some (Err CannotCompressToByte, to)) /\
  (m_rows pivots <= 256 -> length from <> dim -> b_compress x a t from to = Some (Err InvalidInputDim, to)) /\
  (m_rows pivots <= 256 -> length from = dim -> length to <> nchunks -> b_compress x a t from to = Some (Err InvalidOutputDim, to)) /\
  (m_rows pivots <= 256 -> length from = dim -> length to = nchunks ->
     exists codes, length codes = nchunks /\
     ((b_compress x a t from to = Some (Ok tt, codes) /\
         forall i, i < nchunks -> exists v, nth_error codes i = Some v /\ picked x pivots offsets a from i (Some v)) \/
      (exists i, i < nchunks /\ b_compress x a t from to = Some (Err (InfinityOrNaN i 0), codes) /\ picked x pivots offsets a from i None /\
         (forall i', i' < i -> exists v, nth_error codes i' = Some v /\ picked x pivots offsets a from i' (Some v)) /\
         (forall i', i <= i' -> nth_error codes i' = nth_error to i')))).
Proof.
  intros F x a pivots offsets dim t ord infi Ho Hm BN from to nchunks. destruct (basic_inv _ _ _ _ BN) as (Hd & Hr & ->).
  unfold b_compress, b_ncenters, b_nchunks. cbn [b_pivots b_offsets b_dim]. fold nchunks. split; [|split; [|split]].
  - intros L. apply Nat.ltb_lt in L. now rewrite L.
  - intros L N. apply Nat.ltb_ge in L. rewrite L. apply Nat.eqb_neq in N. now rewrite N.
  - intros L -> N. apply Nat.ltb_ge in L. rewrite L, Nat.eqb_refl. apply Nat.eqb_neq in N. now rewrite N.
  - intros L HF HT. rewrite (proj2 (Nat.ltb_ge _ _) L), (proj2 (Nat.eqb_eq _ _) HF), (proj2 (Nat.eqb_eq _ _) HT). cbn [negb].
    set (f := fun i : nat => _).
    pose (g := fun i => match f i with Some (Ok v) => Some v | _ => None end).
    assert (FG : forall i, i < nchunks -> f i = Some (match g i with Some v => Ok v | None => Err (InfinityOrNaN i 0) end) /\ picked x pivots offsets a from i (g i)).
    { intros i I. destruct (pick_ok x pivots offsets dim Ho Hm Hd a ord infi from i I HF) as (r & P & E). change (f i = Some (match r with Some v => Ok v | None => Err (InfinityOrNaN i 0) end)) in E.
      assert (G : g i = r) by (unfold g; rewrite E; now destruct r). rewrite G. now split. }
    assert (BY : forall i, i < nchunks -> g i <> None -> exists v, byte (g i) = v /\ g i = Some v).
    { intros i I N. destruct (FG i I) as [_ (d & _ & P)]. destruct (g i) as [v|]; [|congruence]. exists v. split; [|reflexivity]. cbn [byte]. apply Nat.mod_small. lia. }
    destruct (fill_ok f g (fun i => InfinityOrNaN i 0) to 0) as [[A B]|(i & I & N & M & B)].
    + intros i I. cbn [Nat.add]. apply FG. lia.
    + cbn [Nat.add] in A, B. eexists. split; [|left; split; [exact B|]].
      * rewrite map_length, seq_length. exact HT.
      * intros i I. rewrite nth_map_seq by lia. destruct (BY i I (A i ltac:(lia))) as (v & -> & G). exists v. split; [reflexivity|]. rewrite <- G. now apply FG.
    + cbn [Nat.add] in N, M, B. eexists. split; [|right; exists i; split; [lia|]; split; [exact B|]].
      * rewrite app_length, map_length, seq_length, skipn_length. lia.
      * split; [rewrite <- N; apply FG; lia|]. split.
        { intros i' I'. destruct (BY i' ltac:(lia) (M i' I')) as (v & E & G). exists v.
          rewrite nth_error_app1 by (rewrite map_length, seq_length; lia). rewrite nth_map_seq by assumption. split; [congruence|]. rewrite <- G. apply FG. lia. }
        { intros i' I'. rewrite nth_error_app2 by (rewrite map_length, seq_length; lia). rewrite map_length, seq_length, nth_error_skipn'. f_equal. lia. }
Qed.
Print Assumptions C102_minimal.
(** On values without rounding the code is the first pivot at the least true distance. *)
Theorem C102_nearest : forall {T F} (e : fops T) (x : xops F) (h : T -> F) a data nrows dim offsets t, ordered x -> embeds e x h ->
  is_infin x (inf x) = true -> (forall v, is_infin x (h v) = false) ->
  Work.Model.offsets_new offsets = Some dim -> length data = nrows * dim -> nrows <= 256 ->
  basic_new (mkM (map h data) nrows dim) offsets dim = Ok t ->
  forall from to, length from = dim -> length to = length offsets - 1 ->
  exists codes, b_compress x a t (map h from) to = Some (Ok tt, codes) /\ length codes = length offsets - 1 /\
  forall i, i < length offsets - 1 -> exists v, nth_error codes i = Some v /\ v < nrows /\
    let q := piece offsets i from in
    let y j := piece offsets i (row (mkM data nrows dim) j) in
    (forall j, j < nrows -> lt e (true_l2 e q (y j)) (true_l2 e q (y v)) = false) /\
    (forall j, j < v -> lt e (true_l2 e q (y v)) (true_l2 e q (y j)) = true).
Proof.
  intros T F e x h a data nrows dim offsets t ord em infi fin Ho HD HR BN from to HF HT.
  set (pm := mkM (map h data) nrows dim) in *. destruct (basic_inv _ _ _ _ BN) as (_ & Hr & _). cbn [pm m_rows] in Hr.
  assert (Hm : length (m_data pm) = m_rows pm * m_cols pm) by (cbn [pm m_data m_rows m_cols]; now rewrite map_length).
  destruct (C102_minimal x a pm offsets dim t ord infi Ho Hm BN (map h from) to) as (_ & _ & _ & K).
  destruct (K HR ltac:(now rewrite map_length) HT) as (codes & LC & R). clear K.
  assert (D : forall i, i < length offsets - 1 -> forall j, j < nrows ->
    l2 x a (piece offsets i (map h from)) (piece offsets i (row pm j)) = Some (h (true_l2 e (piece offsets i from) (piece offsets i (row (mkM data nrows dim) j))))).
  { intros i I j J. unfold pm. rewrite Props.row_map, !piece_map. apply (l2_embedded e x h em).
    rewrite !(piece_len offsets dim Ho) by (assumption || (apply row_length; cbn [m_data m_rows m_cols]; lia)). reflexivity. }
  destruct R as [[E R]|(i & I & E & N & _)].
  - exists codes. split; [exact E|]. split; [exact LC|]. intros i I. destruct (R i I) as (v & NC & d & D1 & V1 & V2 & V3 & V4 & V5).
    exists v. split; [exact NC|]. split; [exact V1|]. cbv zeta. cbn [pm m_rows] in D1, V1, V4.
    assert (DE : forall j, j < nrows -> d j = h (true_l2 e (piece offsets i from) (piece offsets i (row (mkM data nrows dim) j)))).
    { intros j J. specialize (D1 j J). rewrite (D i I j J) in D1. now injection D1 as <-. }
    split; intros j J.
    + specialize (V4 j J). rewrite (DE j J), (DE v V1), (e_lt _ _ _ em) in V4. exact V4.
    + specialize (V5 j J). rewrite (DE j ltac:(lia)), (DE v V1), (e_lt _ _ _ em) in V5. apply V5. now apply (number_h e x h em).
  - exfalso. destruct N as (d & D1 & N). cbn [pm m_rows] in D1, N.
    assert (DE : forall j, j < nrows -> d j = h (true_l2 e (piece offsets i from) (piece offsets i (row (mkM data nrows dim) j)))).
    { intros j J. specialize (D1 j J). rewrite (D i I j J) in D1. now injection D1 as <-. }
    destruct N as [N|(v & V & N & _)].
    + specialize (N 0 Hr). rewrite DE in N by assumption. rewrite (o_below x ord _ _ (e_big _ _ _ em _)) in N. discriminate.
    + rewrite DE, fin in N by assumption. discriminate.
Qed.
Print Assumptions C102_nearest.
Definition ext_table : option (btable (F := Props.ext)) :=
  match basic_new (mkM (map Props.Fin [0;0;5; 10;10;0; 3;4;1]%Z) 3 3) [0; 2; 3] 3 with Ok t => Some t | _ => None end.
Example C102_example :
  is_infin Props.ext_x (inf Props.ext_x) = true /\ (forall v, is_infin Props.ext_x (Props.Fin v) = false) /\
  (do t <- ext_table; b_compress Props.ext_x V3 t (map Props.Fin [8; 6; 4]%Z) [7; 7]) = Some (Ok tt, [1; 0]) /\
  (do t <- ext_table; b_compress Props.ext_x V4 t (map Props.Fin [2; 6; 2]%Z) [7; 7]) = Some (Ok tt, [2; 2]) /\
  (do t <- ext_table; b_compress Props.ext_x Scalar t [Props.Fin 2; Props.Fin 6; Props.NaN] [7; 7]) = Some (Err (InfinityOrNaN 1 0), [2; 7]) /\
  (match basic_new Props.tie_pivots [0; 1] 1 with Ok t => b_compress Props.ext_x V3 t [Props.Fin 5] [0] | _ => None end) = Some (Ok tt, [1]).
Proof. split; [reflexivity|]. split; [reflexivity|]. vm_compute. repeat split. Qed.
(** The arithmetic of f32 meets the hypotheses. *)
Example C102_f32 : ordered f32_x /\ is_infin f32_x (inf f32_x) = true.
Proof. split; [apply f32_ordered|reflexivity]. Qed.

(** ** C103: distances computed from codes *)

(** In exact arithmetic: the distances of the vectors the codes stand for. *)
Theorem C103_exact : forall {F} (x : xops F) a m pivots offsets dim t, exact (fo x) ->
  Work.Model.offsets_new offsets = Some dim -> length (m_data pivots) = m_rows pivots * m_cols pivots ->
  basic_new pivots offsets dim = Ok t ->
  (forall q code v, length q = dim -> decodes pivots offsets dim code v -> dc_full x a m t q code = Some (true_distance (fo x) m q v)) /\
  (forall l r u v, decodes pivots offsets dim l u -> decodes pivots offsets dim r v -> dc_codes x a m t l r = Some (true_distance (fo x) m u v)) /\
  (forall q garbage, length q = dim -> (length offsets - 1) * m_rows pivots <= length garbage ->
     exists c, query_computer x a m t garbage q = Some (Some c) /\
     forall code v, decodes pivots offsets dim code v ->
       query_eval x a c t code = Some (match m with MCosNorm => true_l2 (fo x) q v | _ => true_distance (fo x) m q v end)).
Proof.
  intros F x a m pivots offsets dim t ex Ho Hm BN. destruct (basic_inv _ _ _ _ BN) as (Hd & Hr & ->).
  set (t := mkB pivots offsets dim). set (n := length offsets - 1).
  assert (DF : forall m q code v, length q = dim -> decodes pivots offsets dim code v -> distance_fn x a m t q code = Some (true_distance (fo x) m q v)).
  { intros m' q code v HQ D. destruct (decodes_valid _ _ _ Ho Hm Hd _ _ D) as [V ->]. unfold distance_fn. unfold t.
    rewrite (direct_parts_ok pivots offsets dim Ho Hm Hd q code HQ V). cbn [bind].
    assert (LV : length (vec pivots offsets code) = dim) by apply D.
    rewrite (distance_exact x pivots dim Hm Hd a ex) by now apply (parts_equal pivots offsets dim Ho Hm Hd).
    now rewrite (parts_fst offsets dim Ho), (parts_snd offsets dim Ho). }
  split; [|split].
  - intros q code v HQ D. unfold dc_full, b_nchunks. cbn [b_dim b_offsets t]. rewrite (proj2 (Nat.eqb_eq _ _) HQ), (proj2 (Nat.eqb_eq _ _) (proj1 (proj2 D))). cbn [negb].
    now apply DF.
  - intros l r u v D D'. destruct (decodes_valid _ _ _ Ho Hm Hd _ _ D) as [V ->], (decodes_valid _ _ _ Ho Hm Hd _ _ D') as [V' ->].
    unfold dc_codes, b_nchunks. cbn [b_offsets t]. rewrite (proj2 (Nat.eqb_eq _ _) (proj1 V)), (proj2 (Nat.eqb_eq _ _) (proj1 V')). cbn [negb].
    unfold distance_fn_qq, t. rewrite (self_parts_ok pivots offsets dim Ho Hm Hd l r V V'). cbn [bind].
    rewrite (distance_exact x pivots dim Hm Hd a ex) by (apply (parts_equal pivots offsets dim Ho Hm Hd); [apply D|apply D']).
    rewrite (parts_fst offsets dim Ho), (parts_snd offsets dim Ho); [reflexivity|apply D'|apply D].
  - intros q garbage HQ HG. unfold query_computer, b_nchunks, b_ncenters. cbn [b_dim b_offsets b_pivots t]. rewrite (proj2 (Nat.eqb_eq _ _) HQ). cbn [negb]. fold n.
    assert (TAB : forall dist f, (forall u v, length u = length v -> dist u v = Some (total (fo x) f u v)) ->
      exists table, populate dist t q (firstn (n * m_rows pivots) garbage) = Some (Some table) /\
      forall code v, decodes pivots offsets dim code v -> query_eval x a (QTable table) t code = Some (total (fo x) f q v)).
    { intros dist f HF. pose (d := fun i c => total (fo x) f (piece offsets i q) (piece offsets i (row pivots c))).
      exists (blocks pivots offsets d ++ skipn (n * m_rows pivots) (firstn (n * m_rows pivots) garbage)). split.
      - apply (populate_ok pivots offsets dim Ho Hm Hd dist d q); [exact HQ|rewrite firstn_length; fold n; lia|]. intros i c I C. apply HF.
        rewrite !(piece_len offsets dim Ho) by (assumption || now apply (row_len pivots dim Hm Hd)). reflexivity.
      - intros code v D. rewrite skipn_all2 by (rewrite firstn_length; lia). rewrite app_nil_r.
        destruct (decodes_valid _ _ _ Ho Hm Hd _ _ D) as [V EV]. unfold query_eval, b_nchunks, b_ncenters. cbn [b_offsets b_pivots t]. fold n.
        rewrite (proj2 (Nat.eqb_eq (length code) n) (proj1 V)). cbn [negb]. unfold lookup_single. destruct (Nat.eqb_spec (m_rows pivots) 0) as [Z0|_]; [lia|].
        unfold blocks. fold n. replace n with (length code) by apply V. rewrite (lookup_ok x pivots dim Hm Hd d Hr code 0) by apply V. f_equal.
        rewrite (walk_exact x ex d f (fun i => piece offsets i q) (fun i => piece offsets i v)).
        + replace (length code) with n by (symmetry; apply V). unfold n. rewrite (pieces_all offsets dim Ho q HQ), (pieces_all offsets dim Ho v) by apply D.
          rewrite (Ring_theory.Radd_0_l (ex_ring _ ex)). reflexivity.
        + intros i c N. cbn [Nat.add]. assert (I : i < n) by (unfold n; rewrite <- (proj1 V); eapply nth_error_lt'; eassumption).
          destruct D as (LD & _ & D). destruct (D i I) as (c' & N' & C & ->). assert (c' = c) by congruence. subst c'. split; [|reflexivity].
          rewrite !(piece_len offsets dim Ho) by (assumption || now apply (row_len pivots dim Hm Hd)). reflexivity. }
    assert (HL2 : forall u v, length u = length v -> l2 x a u v = Some (total (fo x) (fun a b => mul (fo x) (sub (fo x) a b) (sub (fo x) a b)) u v)).
    { intros u v H. exact (Props.C90_distances (fo x) (fun e => e) (fun e => e) (zero (fo x)) (zero (fo x)) ex eq_refl eq_refl L2 a F32 u v H). }
    assert (HIP : forall u v, length u = length v -> ip x a u v = Some (total (fo x) (fun a b => neg (fo x) (mul (fo x) a b)) u v)).
    { intros u v H. unfold ip. rewrite (Props.C90_distances (fo x) (fun e => e) (fun e => e) (zero (fo x)) (zero (fo x)) ex eq_refl eq_refl IP a F32 u v H).
      cbn [bind]. f_equal. symmetry. apply (total_neg x ex (mul (fo x))). }
    destruct m.
    + destruct (TAB _ _ HL2) as (table & -> & E). cbn [bind option_map]. eexists. split; [reflexivity|]. exact E.
    + destruct (TAB _ _ HIP) as (table & -> & E). cbn [bind option_map]. eexists. split; [reflexivity|]. intros code v D.
      rewrite (E code v D), (total_neg x ex (mul (fo x))). reflexivity.
    + eexists. split; [reflexivity|]. intros code v D. unfold query_eval, b_nchunks. cbn [b_offsets t]. rewrite (proj2 (Nat.eqb_eq _ _) (proj1 (proj2 D))). cbn [negb].
      now apply DF.
    + destruct (TAB _ _ HL2) as (table & -> & E). cbn [bind option_map]. eexists. split; [reflexivity|]. exact E.
Qed.
Print Assumptions C103_exact.
(** In any arithmetic: which calls answer, which panic, and that what a pooled buffer held before is
    of no effect. *)
Theorem C103_total : forall {F} (x : xops F) a m pivots offsets dim t,
  Work.Model.offsets_new offsets = Some dim -> length (m_data pivots) = m_rows pivots * m_cols pivots ->
  basic_new pivots offsets dim = Ok t ->
  (forall q code, (exists d, dc_full x a m t q code = Some d) <-> length q = dim /\ valid_code pivots offsets code) /\
  (forall l r, (exists d, dc_codes x a m t l r = Some d) <-> valid_code pivots offsets l /\ valid_code pivots offsets r) /\
  (forall q garbage, length q <> dim -> query_computer x a m t garbage q = Some None) /\
  (forall q garbage, length q = dim -> (length offsets - 1) * m_rows pivots <= length garbage ->
     exists c, query_computer x a m t garbage q = Some (Some c) /\
     (forall garbage', (length offsets - 1) * m_rows pivots <= length garbage' -> query_computer x a m t garbage' q = Some (Some c)) /\
     (forall code, (exists d, query_eval x a c t code = Some d) <-> valid_code pivots offsets code)).
Proof.
  intros F x a m pivots offsets dim t Ho Hm BN. destruct (basic_inv _ _ _ _ BN) as (Hd & Hr & ->).
  set (t := mkB pivots offsets dim). set (n := length offsets - 1).
  assert (VD : forall c, {valid_code pivots offsets c} + {~ valid_code pivots offsets c}).
  { intros c. destruct (Nat.eq_dec (length c) n) as [L|L]; [|right; intros [V _]; auto].
    destruct (Forall_dec (fun c => c < m_rows pivots) (fun c => lt_dec c (m_rows pivots)) c) as [A|A].
    - left. split; [exact L|]. intros i b N. rewrite Forall_forall in A. apply A. eapply nth_error_In; eassumption.
    - right. intros [_ V]. apply A. apply Forall_forall. intros b I. apply In_nth_error in I as (i & N). eapply V; eassumption. }
  assert (DF : forall m q code, length q = dim -> length code = n -> ((exists d, distance_fn x a m t q code = Some d) <-> valid_code pivots offsets code)).
  { intros m' q code HQ HC. unfold distance_fn, t. destruct (VD code) as [V|NV].
    - split; [auto|]. intros _. rewrite (direct_parts_ok pivots offsets dim Ho Hm Hd q code HQ V). cbn [bind]. apply distance_total.
      apply (parts_equal pivots offsets dim Ho Hm Hd); [exact HQ|]. now apply (vec_decodes pivots offsets dim Ho Hm Hd).
    - split; [|tauto]. rewrite (direct_parts_bad pivots offsets dim Ho Hm Hd q code HC NV). intros [d E]. discriminate. }
  split; [|split; [|split]].
  - intros q code. unfold dc_full, b_nchunks. cbn [b_dim b_offsets t]. fold n. destruct (Nat.eqb_spec (length q) dim) as [HQ|HQ]; cbn [negb].
    2:{ split; [intros [d E]; discriminate|tauto]. }
    destruct (Nat.eqb_spec (length code) n) as [HC|HC]; cbn [negb].
    2:{ split; [intros [d E]; discriminate|]. intros [_ [V _]]. now elim HC. }
    rewrite (DF m q code HQ HC). tauto.
  - intros l r. unfold dc_codes, b_nchunks, distance_fn_qq. cbn [b_offsets t]. fold n.
    destruct (VD l) as [V|NV], (VD r) as [V'|NV'].
    + split; [auto|]. intros _. rewrite (proj2 (Nat.eqb_eq (length l) n) (proj1 V)), (proj2 (Nat.eqb_eq (length r) n) (proj1 V')). cbn [negb]. unfold t.
      rewrite (self_parts_ok pivots offsets dim Ho Hm Hd l r V V'). cbn [bind]. apply distance_total.
      apply (parts_equal pivots offsets dim Ho Hm Hd); now apply (vec_decodes pivots offsets dim Ho Hm Hd).
    + split; [|tauto]. unfold t. rewrite (self_parts_bad pivots offsets dim Ho Hm Hd l r) by tauto. intros [d E]. destruct (negb (length l =? n)), (negb (length r =? n)); discriminate.
    + split; [|tauto]. unfold t. rewrite (self_parts_bad pivots offsets dim Ho Hm Hd l r) by tauto. intros [d E]. destruct (negb (length l =? n)), (negb (length r =? n)); discriminate.
    + split; [|tauto]. unfold t. rewrite (self_parts_bad pivots offsets dim Ho Hm Hd l r) by tauto. intros [d E]. destruct (negb (length l =? n)), (negb (length r =? n)); discriminate.
  - intros q garbage HQ. unfold query_computer. cbn [b_dim t]. apply Nat.eqb_neq in HQ. now rewrite HQ.
  - intros q garbage HQ HG.
    assert (TAB : forall dist, (forall u v, length u = length v -> exists d, dist u v = Some d) -> exists table,
      (forall garbage, n * m_rows pivots <= length garbage -> populate dist t q (firstn (n * m_rows pivots) garbage) = Some (Some table)) /\
      forall code, (exists d, query_eval x a (QTable table) t code = Some d) <-> valid_code pivots offsets code).
    { intros dist HF. pose (d := fun i c => match dist (piece offsets i q) (piece offsets i (row pivots c)) with Some v => v | None => zero (fo x) end).
      exists (blocks pivots offsets d). split.
      - intros g HG'. unfold t. rewrite (populate_ok pivots offsets dim Ho Hm Hd dist d q).
        + fold n. rewrite skipn_all2 by (rewrite firstn_length; lia). now rewrite app_nil_r.
        + exact HQ.
        + rewrite firstn_length. fold n. lia.
        + intros i c I C. unfold d. destruct (HF (piece offsets i q) (piece offsets i (row pivots c))) as [v ->]; [|reflexivity].
          rewrite !(piece_len offsets dim Ho) by (assumption || now apply (row_len pivots dim Hm Hd)). reflexivity.
      - intros code. unfold query_eval, b_nchunks, b_ncenters. cbn [b_offsets b_pivots t]. fold n.
        destruct (Nat.eqb_spec (length code) n) as [HC|HC]; cbn [negb].
        2:{ split; [intros [v E]; discriminate|]. intros [V _]. now elim HC. }
        unfold lookup_single. destruct (Nat.eqb_spec (m_rows pivots) 0) as [Z0|_]; [lia|]. destruct (VD code) as [V|NV].
        + split; [auto|]. intros _. unfold blocks. fold n. rewrite <- HC. rewrite (lookup_ok x pivots dim Hm Hd d Hr code 0) by apply V. eauto.
        + split; [|tauto]. rewrite (lookup_bad x pivots dim Hm Hd); [intros [v E]; discriminate| |rewrite (blocks_length pivots offsets dim Hm Hd); fold n; lia|exact Hr].
          destruct (Forall_Exists_dec (fun c => c < m_rows pivots) (fun c => lt_dec c (m_rows pivots)) code) as [A|E].
          * exfalso. apply NV. split; [exact HC|]. intros i c N. rewrite Forall_forall in A. apply A. eapply nth_error_In; eassumption.
          * apply Exists_exists in E as (c & I & B). apply In_nth_error in I as (i & N). exists i, c. split; [exact N|lia]. }
    unfold query_computer, b_nchunks, b_ncenters. cbn [b_dim b_offsets b_pivots t]. rewrite (proj2 (Nat.eqb_eq _ _) HQ). cbn [negb]. fold n. fold t.
    destruct m.
    + destruct (TAB (l2 x a) (l2_total x a)) as (table & P & E). exists (QTable table). rewrite P by assumption. split; [reflexivity|]. split; [|exact E].
      intros g HG'. now rewrite P.
    + destruct (TAB (ip x a) (ip_total x a)) as (table & P & E). exists (QTable table). rewrite P by assumption. split; [reflexivity|]. split; [|exact E].
      intros g HG'. now rewrite P.
    + exists (QCos q). split; [reflexivity|]. split; [reflexivity|]. intros code. unfold query_eval, b_nchunks. cbn [b_offsets t]. fold n. fold t.
      destruct (Nat.eqb_spec (length code) n) as [HC|HC]; cbn [negb]; [now apply DF|].
      split; [intros [v E]; discriminate|]. intros [V _]. now elim HC.
    + destruct (TAB (l2 x a) (l2_total x a)) as (table & P & E). exists (QTable table). rewrite P by assumption. split; [reflexivity|]. split; [|exact E].
      intros g HG'. now rewrite P.
Qed.
Print Assumptions C103_total.
(** A valid code stands for exactly one vector, and inflating it gives that vector, in any arithmetic. *)
Theorem C103_inflate : forall {F} (x : xops F) pivots offsets dim t,
  Work.Model.offsets_new offsets = Some dim -> length (m_data pivots) = m_rows pivots * m_cols pivots ->
  basic_new pivots offsets dim = Ok t -> forall code,
  (valid_code pivots offsets code -> exists v, inflate x t code = Some v /\ decodes pivots offsets dim code v /\
     forall v', decodes pivots offsets dim code v' -> v' = v) /\
  (~ valid_code pivots offsets code -> inflate x t code = None).
Proof.
  intros F x pivots offsets dim t Ho Hm BN code. destruct (basic_inv _ _ _ _ BN) as (Hd & Hr & ->). split; intros V.
  - exists (vec pivots offsets code). split; [now apply inflate_ok|]. split; [now apply vec_decodes|].
    intros v' D. now destruct (decodes_valid _ _ _ Ho Hm Hd _ _ D).
  - now apply inflate_bad.
Qed.
Print Assumptions C103_inflate.
(** With the normalized cosine metric a query computer and a distance computer do not give the same
    distance, and not the same order: a pivot on the ray of the query is at cosine distance 0. *)
Definition z_x : xops Z := mkX Props.z_ops 1000000%Z (-1000000)%Z 1000000%Z 2%Z (fun _ => true) (fun _ => false).
Definition ray : matrix Z := mkM [3; 30; -3]%Z 3 1.
Definition z_table (p : matrix Z) (offsets : list nat) (dim : nat) : option btable := match basic_new p offsets dim with Ok t => Some t | _ => None end.
Theorem C103_same_order_refuted :
  (do t <- z_table ray [0; 1] 1; dc_full z_x V3 MCosNorm t [3]%Z [1]) = Some 0%Z /\
  (do t <- z_table ray [0; 1] 1; dc_full z_x V3 MCosNorm t [3]%Z [2]) = Some 2%Z /\
  (do t <- z_table ray [0; 1] 1; do c <- query_computer z_x V3 MCosNorm t (repeat 7%Z 3) [3]%Z; do c <- c; query_eval z_x V3 c t [1]) = Some 729%Z /\
  (do t <- z_table ray [0; 1] 1; do c <- query_computer z_x V3 MCosNorm t (repeat 7%Z 3) [3]%Z; do c <- c; query_eval z_x V3 c t [2]) = Some 36%Z.
Proof. vm_compute. repeat split. Qed.
Print Assumptions C103_same_order_refuted.
Definition z_piv : matrix Z := mkM [0;0;5; 10;10;0; 3;4;1]%Z 3 3.
Example C103_example :
  exact (fo z_x) /\ Work.Model.offsets_new [0; 2; 3] = Some 3 /\ decodes z_piv [0; 2; 3] 3 [1; 2] [10; 10; 1]%Z /\
  (do t <- z_table z_piv [0; 2; 3] 3; dc_full z_x V4 ML2 t [1; 2; 3]%Z [1; 2]) = Some 149%Z /\
  (do t <- z_table z_piv [0; 2; 3] 3; dc_codes z_x V3 MIP t [1; 2] [2; 0]) = Some (-75)%Z /\
  (do t <- z_table z_piv [0; 2; 3] 3; dc_full z_x V4 ML2 t [1; 2; 3]%Z [1; 3]) = None /\
  (do t <- z_table z_piv [0; 2; 3] 3; do c <- query_computer z_x Scalar MIP t (repeat 7%Z 6) [1; 2; 3]%Z; do c <- c; query_eval z_x Scalar c t [1; 2]) = Some (-33)%Z.
Proof.
  split; [apply Props.z_exact|]. split; [reflexivity|]. split; [|vm_compute; repeat split].
  split; [reflexivity|]. split; [reflexivity|]. intros [|[|i]] I; [exists 1|exists 2|cbn in I; lia]; repeat split; cbn; lia.
Qed.

(** ** C104: the distances of many points at once *)

(** Bit for bit, in any arithmetic, the distance written for a point is the one the lookup of a
    single code gives; the rest of both buffers is left. *)
Theorem C104_points : forall {F} (x : xops F) ids nchunks npts table pq_data coord_scratch dist_scratch,
  0 < nchunks -> length pq_data = npts * nchunks -> Forall (fun b => b < 256) pq_data -> Forall (fun id => id < npts) ids ->
  256 * nchunks <= length table -> length ids * nchunks <= length coord_scratch -> length ids <= length dist_scratch ->
  exists cs out, compute_pq_distance x ids nchunks table pq_data coord_scratch dist_scratch = Some (Some (cs, out)) /\
  length cs = length coord_scratch /\ length out = length dist_scratch /\
  (forall k id, nth_error ids k = Some id ->
     firstn nchunks (skipn (k * nchunks) cs) = firstn nchunks (skipn (id * nchunks) pq_data) /\
     nth_error out k = lookup_single x (firstn nchunks (skipn (id * nchunks) pq_data)) table 256) /\
  (forall k, length ids <= k -> nth_error out k = nth_error dist_scratch k) /\
  (forall k, length ids * nchunks <= k -> nth_error cs k = nth_error coord_scratch k).
Proof.
  intros F x ids nchunks npts table pq_data coord_scratch dist_scratch P LP HB HI HT HC HO.
  unfold compute_pq_distance. rewrite (aggregate_ok ids pq_data nchunks npts coord_scratch P LP HI HC). cbn [bind].
  set (C := concat (map (fun id => firstn nchunks (skipn (id * nchunks) pq_data)) ids)).
  assert (LC : length C = length ids * nchunks) by now apply (rows_length pq_data nchunks npts).
  rewrite slice_eq by (rewrite ?app_length; lia). cbn [bind]. rewrite Nat.sub_0_r. cbn [skipn].
  rewrite firstn_app, LC, Nat.sub_diag, firstn_all2 by lia. cbn [firstn]. rewrite app_nil_r.
  assert (BC : Forall (fun b => b < 256) C).
  { apply Forall_forall. intros b B. unfold C in B. apply in_concat in B as (l & IL & B). apply in_map_iff in IL as (id & <- & _).
    rewrite Forall_forall in HB. apply HB. eapply In_cut. exact B. }
  rewrite (pq_lookup_ok x C (length ids) nchunks table dist_scratch LC BC HT HO). cbn [bind option_map].
  eexists _, _. split; [reflexivity|]. split; [rewrite app_length, LC, skipn_length; lia|].
  split; [rewrite app_length, map_length, seq_length, skipn_length; lia|]. split; [|split].
  - intros k id N. assert (K : k < length ids) by (eapply nth_error_lt'; eassumption).
    assert (RN : firstn nchunks (skipn (k * nchunks) C) = firstn nchunks (skipn (id * nchunks) pq_data)) by now apply (rows_nth pq_data nchunks npts).
    assert (LR : length (firstn nchunks (skipn (id * nchunks) pq_data)) = nchunks).
    { rewrite Forall_forall in HI. specialize (HI id (nth_error_In _ _ N)). rewrite firstn_length, skipn_length, LP. nia. }
    split.
    + rewrite skipn_app, firstn_app, LC. replace (k * nchunks - length ids * nchunks) with 0 by nia. cbn [skipn]. rewrite RN.
      rewrite skipn_length, LC. replace (nchunks - (length ids * nchunks - k * nchunks)) with 0 by nia. cbn [firstn]. apply app_nil_r.
    + rewrite nth_error_app1 by now rewrite map_length, seq_length. rewrite nth_map_seq by assumption. rewrite RN. symmetry.
      assert (BR : Forall (fun c => c < 256) (firstn nchunks (skipn (id * nchunks) pq_data))).
      { apply Forall_forall. intros b B. rewrite Forall_forall in HB. apply HB. eapply In_cut. exact B. }
      rewrite (lookup_run x 256 ltac:(lia)) by (assumption || rewrite LR; lia). rewrite LR. f_equal. unfold run.
      apply fold_ext_in. intros acc i I. apply in_seq in I. f_equal. symmetry.
      assert (B : nth i (firstn nchunks (skipn (id * nchunks) pq_data)) 0 < 256).
      { rewrite Forall_forall in BR. apply BR. apply nth_In. lia. }
      apply nth_cut. lia.
  - intros k K. rewrite nth_error_app2; rewrite map_length, seq_length; [|assumption]. rewrite nth_error_skipn'. f_equal. lia.
  - intros k K. rewrite nth_error_app2; rewrite LC; [|assumption]. rewrite nth_error_skipn'. f_equal. lia.
Qed.
Print Assumptions C104_points.
(** Buffers that are too short are reported; a point that does not exist and a table that is too
    short are panics. *)
Theorem C104_errors : forall {F} (x : xops F) ids nchunks npts table pq_data coord_scratch dist_scratch,
  0 < nchunks -> length pq_data = npts * nchunks ->
  (length coord_scratch < length ids * nchunks -> compute_pq_distance x ids nchunks table pq_data coord_scratch dist_scratch = Some None) /\
  (length ids * nchunks <= length coord_scratch -> ~ Forall (fun id => id < npts) ids ->
     compute_pq_distance x ids nchunks table pq_data coord_scratch dist_scratch = None) /\
  (length ids * nchunks <= length coord_scratch -> Forall (fun id => id < npts) ids -> length table < 256 * nchunks ->
     compute_pq_distance x ids nchunks table pq_data coord_scratch dist_scratch = None) /\
  (length ids * nchunks <= length coord_scratch -> Forall (fun id => id < npts) ids -> 256 * nchunks <= length table -> length dist_scratch < length ids ->
     compute_pq_distance x ids nchunks table pq_data coord_scratch dist_scratch = Some None).
Proof.
  intros F x ids nchunks npts table pq_data coord_scratch dist_scratch P LP. split; [|split; [|split]].
  - intros H. unfold compute_pq_distance, aggregate. apply Nat.ltb_lt in H. now rewrite H.
  - intros H N. unfold compute_pq_distance, aggregate. apply Nat.ltb_ge in H. rewrite H. destruct (Nat.eqb_spec nchunks 0); [lia|].
    destruct (Forall_Exists_dec (fun id => id < npts) (fun id => lt_dec id npts) ids) as [A|E]; [tauto|].
    apply Exists_exists in E as (id & I & B). rewrite (each_none _ _ id I); [reflexivity|]. unfold slice.
    destruct (Nat.leb_spec (id * nchunks + nchunks) (length pq_data)) as [L|]; [|now rewrite andb_false_r]. exfalso. rewrite LP in L. nia.
  - intros H I L. unfold compute_pq_distance. rewrite (aggregate_ok ids pq_data nchunks npts coord_scratch P LP I H). cbn [bind].
    set (C := concat _). assert (LC : length C = length ids * nchunks) by now apply (rows_length pq_data nchunks npts).
    rewrite slice_eq by (rewrite ?app_length; lia). cbn [bind]. unfold pq_dist_lookup, matrix_try.
    rewrite (proj2 (Nat.eqb_eq _ _)) by (cbn [skipn]; rewrite firstn_length, app_length; lia).
    unfold slice. rewrite (proj2 (Nat.leb_gt _ _) L), andb_false_r. reflexivity.
  - intros H I L D. unfold compute_pq_distance. rewrite (aggregate_ok ids pq_data nchunks npts coord_scratch P LP I H). cbn [bind].
    set (C := concat _). assert (LC : length C = length ids * nchunks) by now apply (rows_length pq_data nchunks npts).
    rewrite slice_eq by (rewrite ?app_length; lia). cbn [bind]. unfold pq_dist_lookup, matrix_try.
    rewrite (proj2 (Nat.eqb_eq _ _)) by (cbn [skipn]; rewrite firstn_length, app_length; lia).
    rewrite (slice_eq 0) by lia. cbn [bind skipn]. rewrite Nat.sub_0_r.
    rewrite (proj2 (Nat.eqb_eq (length (firstn (256 * nchunks) table)) _)) by (rewrite firstn_length; lia). apply Nat.ltb_lt in D. now rewrite D.
Qed.
Print Assumptions C104_errors.
(** The disk search, end to end: with 256 pivots, in exact arithmetic, the distance of every requested
    point is that of the query and the vector its code stands for. *)
Theorem C104_disk : forall {F} (x : xops F) m pivots offsets dim t query ids npts pq_data table_scratch coord_scratch dist_scratch, exact (fo x) ->
  Work.Model.offsets_new offsets = Some dim -> length (m_data pivots) = m_rows pivots * m_cols pivots ->
  from_parts x pivots offsets dim = Some (Ok t) -> m_rows pivots = 256 -> length query = dim ->
  let nchunks := length offsets - 1 in
  length pq_data = npts * nchunks -> Forall (fun b => b < 256) pq_data -> Forall (fun id => id < npts) ids ->
  256 * nchunks <= length table_scratch -> length ids * nchunks <= length coord_scratch -> length ids <= length dist_scratch ->
  exists tb cs out, disk_preprocess x t m query ids pq_data table_scratch coord_scratch dist_scratch = Some (Some (tb, (cs, out))) /\
  forall k id v, nth_error ids k = Some id -> decodes pivots offsets dim (firstn nchunks (skipn (id * nchunks) pq_data)) v ->
    nth_error out k = Some (match m with MIP => neg (fo x) (true_ip (fo x) query v) | _ => true_l2 (fo x) query v end).
Proof.
  intros F x m pivots offsets dim t query ids npts pq_data table_scratch coord_scratch dist_scratch ex Ho Hm FP HR HQ nchunks LP HB HI HT HC HO.
  destruct (Props.table_of x pivots offsets dim t Ho Hm FP) as (Hd & Hr & Ht). pose proof (nchunks_eq x pivots offsets t Ht) as NC.
  pose proof Ht as (T1 & T2 & T3 & T4 & T5). pose proof (off_len offsets dim Ho) as OL. assert (NP : 0 < nchunks) by (unfold nchunks; lia).
  set (k := match m with MIP => KIP | _ => KL2 end).
  set (f := match m with MIP => fun a b => neg (fo x) (mul (fo x) a b) | _ => fun a b => mul (fo x) (sub (fo x) a b) (sub (fo x) a b) end).
  set (d := fun i c => along (fo x) k (piece offsets i query) (piece offsets i (row pivots c))).
  assert (DF : forall i c, d i c = total (fo x) f (piece offsets i query) (piece offsets i (row pivots c))).
  { intros i c. unfold d. rewrite (along_exact (fo x) ex). unfold k, f. destruct m; try reflexivity. symmetry. apply (total_neg x ex (mul (fo x))). }
  assert (TB : disk_table x t m query table_scratch = Some (blocks pivots offsets d ++ skipn (256 * nchunks) table_scratch)).
  { unfold disk_table. rewrite T3, NC, HR. fold nchunks. rewrite slice_eq by lia. cbn [bind skipn]. fold k.
    rewrite (process_eq x pivots offsets dim Ho Hm Hd t Ht k query); try assumption; cbn [m_cols m_rows m_data]; [|congruence|reflexivity|rewrite firstn_length, Nat.sub_0_r; lia].
    cbn [bind]. reflexivity. }
  unfold disk_preprocess. rewrite TB, NC. fold nchunks. cbn [bind]. set (tb := blocks pivots offsets d ++ _).
  assert (LB : length (blocks pivots offsets d) = 256 * nchunks) by (rewrite (blocks_length pivots offsets dim Hm Hd), HR; fold nchunks; lia).
  destruct (C104_points x ids nchunks npts tb pq_data coord_scratch dist_scratch NP LP HB HI ltac:(unfold tb; rewrite app_length; lia) HC HO)
    as (cs & out & E & _ & _ & R & _). rewrite E. cbn [bind option_map]. exists tb, cs, out. split; [reflexivity|].
  intros kk id v N D. destruct (R kk id N) as [_ ->]. set (code := firstn nchunks (skipn (id * nchunks) pq_data)) in *.
  destruct (decodes_valid _ _ _ Ho Hm Hd _ _ D) as [V _]. assert (LC : length code = nchunks) by apply V.
  assert (BC : Forall (fun c => c < 256) code).
  { apply Forall_forall. intros b B. apply In_nth_error in B as (i & B). rewrite <- HR. eapply (proj2 V); eassumption. }
  assert (LK : lookup_single x code tb 256 = lookup_single x code (blocks pivots offsets d) (m_rows pivots)).
  { rewrite HR. rewrite !(lookup_run x 256 ltac:(lia)) by (assumption || unfold tb; rewrite ?app_length, LC; lia). f_equal. unfold run.
    apply fold_ext_in. intros acc i I. apply in_seq in I. f_equal. unfold tb. apply app_nth1. rewrite LB.
    assert (nth i code 0 < 256) by (rewrite Forall_forall in BC; apply BC, nth_In; lia). lia. }
  rewrite LK. unfold lookup_single. destruct (Nat.eqb_spec (m_rows pivots) 0); [lia|]. unfold blocks. fold nchunks. rewrite <- LC at 1.
  rewrite (lookup_ok x pivots dim Hm Hd d Hr code 0) by apply V. f_equal.
  rewrite (walk_exact x ex d f (fun i => piece offsets i query) (fun i => piece offsets i v)).
  - rewrite LC. unfold nchunks. rewrite (pieces_all offsets dim Ho query HQ), (pieces_all offsets dim Ho v) by apply D.
    rewrite (Ring_theory.Radd_0_l (ex_ring _ ex)). unfold f. destruct m; try reflexivity. apply (total_neg x ex (mul (fo x))).
  - intros i c NE. cbn [Nat.add]. assert (I : i < nchunks) by (rewrite <- LC; eapply nth_error_lt'; eassumption).
    destruct D as (LD & _ & D). destruct (D i I) as (c' & N' & C & ->). assert (c' = c) by congruence. subst c'. split; [|apply DF].
    rewrite !(piece_len offsets dim Ho) by (assumption || now apply (row_len pivots dim Hm Hd)). reflexivity.
Qed.
Print Assumptions C104_disk.
(** A table with fewer than 256 pivots, which every constructor accepts, makes the disk search panic:
    the buffer holds [ncenters * nchunks] distances and [256 * nchunks] are read. *)
Theorem C104_disk_refuted_fewer_pivots : forall {F} (x : xops F) m pivots offsets dim t query ids npts pq_data table_scratch coord_scratch dist_scratch,
  Work.Model.offsets_new offsets = Some dim -> length (m_data pivots) = m_rows pivots * m_cols pivots ->
  from_parts x pivots offsets dim = Some (Ok t) -> m_rows pivots < 256 -> length query = dim ->
  let nchunks := length offsets - 1 in
  length pq_data = npts * nchunks -> Forall (fun id => id < npts) ids ->
  length table_scratch = m_rows pivots * nchunks -> length ids * nchunks <= length coord_scratch ->
  disk_preprocess x t m query ids pq_data table_scratch coord_scratch dist_scratch = None.
Proof.
  intros F x m pivots offsets dim t query ids npts pq_data table_scratch coord_scratch dist_scratch Ho Hm FP HR HQ nchunks LP HI HT HC.
  destruct (Props.table_of x pivots offsets dim t Ho Hm FP) as (Hd & Hr & Ht). pose proof (nchunks_eq x pivots offsets t Ht) as NC.
  pose proof Ht as (T1 & T2 & T3 & T4 & T5). pose proof (off_len offsets dim Ho) as OL. assert (NP : 0 < nchunks) by (unfold nchunks; lia).
  unfold disk_preprocess, disk_table. rewrite T3, NC. fold nchunks. rewrite slice_eq by lia. cbn [bind skipn].
  set (k := match m with MIP => KIP | _ => KL2 end).
  rewrite (process_eq x pivots offsets dim Ho Hm Hd t Ht k query); try assumption; cbn [m_cols m_rows m_data]; [|reflexivity|reflexivity|rewrite firstn_length, Nat.sub_0_r; lia].
  cbn [bind]. set (d := fun i c => along (fo x) k (piece offsets i query) (piece offsets i (row pivots c))).
  change (concat _) with (blocks pivots offsets d).
  destruct (C104_errors x ids nchunks npts (blocks pivots offsets d ++ skipn (m_rows pivots * nchunks) table_scratch) pq_data coord_scratch dist_scratch NP LP) as (_ & _ & K & _).
  rewrite K; [reflexivity|assumption|assumption|]. rewrite app_length, (blocks_length pivots offsets dim Hm Hd), skipn_length, HT. fold nchunks. nia.
Qed.
Print Assumptions C104_disk_refuted_fewer_pivots.
Definition wide_piv : matrix Z := mkM (map Z.of_nat (seq 0 512)) 256 2.
Example C104_example :
  (match from_parts z_x wide_piv [0; 1; 2] 2 with
   | Some (Ok t) => disk_preprocess z_x t ML2 [1; 2]%Z [2; 0] [3; 4; 0; 0; 1; 255] (repeat 5%Z 512) (repeat 9 5) (repeat 8%Z 3)
   | _ => None end) = Some (Some (map (fun i => if (i <? 256)%Z then (1 - 2 * i) * (1 - 2 * i) else (2 - (2 * (i - 256) + 1)) * (2 - (2 * (i - 256) + 1)))%Z (map Z.of_nat (seq 0 512)),
      ([1; 255; 3; 4; 9], [1 + 509 * 509; 25 + 49; 8]%Z))) /\
  (match from_parts z_x z_piv [0; 2; 3] 3 with
   | Some (Ok t) => disk_preprocess z_x t ML2 [1; 2; 3]%Z [0] [1; 2] (repeat 5%Z 6) (repeat 9 5) (repeat 8%Z 3)
   | _ => Some None end) = None.
Proof. vm_compute. split; reflexivity. Qed.

(** ** C105: a table with two versions *)

Definition made {F} (mt : multi (F := F)) : Prop :=
  match mt with One _ _ => True | Two new old nv ov => multi_two new old nv ov = Some mt end.
Lemma made_two {F} (new old : btable (F := F)) nv ov : made (Two new old nv ov) <-> nv <> ov.
Proof. unfold made, multi_two. destruct (Nat.eqb_spec nv ov); split; congruence. Qed.
Lemma built_fn {F} (x : xops F) a m dim t q code v : exact (fo x) -> built dim t -> length q = dim -> decodes (b_pivots t) (b_offsets t) dim code v ->
  distance_fn x a m t q code = Some (true_distance (fo x) m q v).
Proof.
  intros ex (Ho & Hm & BN) HQ D. destruct (C103_exact x a m _ _ _ _ ex Ho Hm BN) as (K & _). specialize (K q code v HQ D). unfold dc_full in K.
  destruct (negb _); [discriminate|]. destruct (negb _); [discriminate|]. exact K.
Qed.
Lemma built_qq {F} (x : xops F) a m dim t l r u v : exact (fo x) -> built dim t -> decodes (b_pivots t) (b_offsets t) dim l u -> decodes (b_pivots t) (b_offsets t) dim r v ->
  distance_fn_qq x a m t l r = Some (true_distance (fo x) m u v).
Proof.
  intros ex (Ho & Hm & BN) D D'. destruct (C103_exact x a m _ _ _ _ ex Ho Hm BN) as (_ & K & _). specialize (K l r u v D D'). unfold dc_codes in K.
  destruct (negb _); [discriminate|]. destruct (negb _); [discriminate|]. exact K.
Qed.
Lemma built_inflate {F} (x : xops F) dim t code v : built dim t -> decodes (b_pivots t) (b_offsets t) dim code v -> inflate x t code = Some v.
Proof.
  intros (Ho & Hm & BN) D. destruct (basic_inv _ _ _ _ BN) as (Hd & _ & E). destruct (decodes_valid _ _ _ Ho Hm Hd _ _ D) as [V ->].
  rewrite E. cbn [b_pivots b_offsets]. now apply inflate_ok.
Qed.
(** Vectors of a version that is not known give no answer; the others are compared as the vectors
    they stand for under the tables of their own versions, in either order. *)
Theorem C105_full : forall {F} (x : xops F) a m mt dim q code v, exact (fo x) -> made mt ->
  (forall v t, of_version mt v = Some t -> built dim t) ->
  (of_version mt v = None -> md_full x a m mt q code v = Some None) /\
  (forall t w, of_version mt v = Some t -> length q = dim -> decodes (b_pivots t) (b_offsets t) dim code w ->
     md_full x a m mt q code v = Some (Some (true_distance (fo x) m q w))).
Proof.
  intros F x a m mt dim q code v ex MD HB. destruct mt as [t0 ver|new old nv ov]; cbn [of_version md_full] in *.
  - split.
    + destruct (ver =? v); [discriminate|reflexivity].
    + intros t w E HQ D. specialize (HB v t E). destruct (ver =? v); [|discriminate]. injection E as ->. cbn [negb]. now rewrite (built_fn x a m dim t q code w).
  - apply made_two in MD. split.
    + destruct (nv =? v); [discriminate|]. destruct (ov =? v); [discriminate|reflexivity].
    + intros t w E HQ D. specialize (HB v t E). destruct (Nat.eqb_spec nv v) as [->|N].
      * destruct (Nat.eqb_spec ov v) as [->|]; [congruence|]. injection E as ->. now rewrite (built_fn x a m dim t q code w).
      * destruct (ov =? v); [|discriminate]. injection E as ->. now rewrite (built_fn x a m dim t q code w).
Qed.
Print Assumptions C105_full.
Theorem C105_codes : forall {F} (x : xops F) a m mt dim l lv r rv, exact (fo x) -> made mt ->
  (forall v t, of_version mt v = Some t -> built dim t) ->
  (of_version mt lv = None \/ of_version mt rv = None -> md_codes x a m mt l lv r rv = Some None) /\
  (forall tl tr u w, of_version mt lv = Some tl -> of_version mt rv = Some tr ->
     decodes (b_pivots tl) (b_offsets tl) dim l u -> decodes (b_pivots tr) (b_offsets tr) dim r w ->
     md_codes x a m mt l lv r rv = Some (Some (true_distance (fo x) m u w))).
Proof.
  intros F x a m mt dim l lv r rv ex MD HB. destruct mt as [t0 ver|new old nv ov]; cbn [of_version md_codes] in *.
  - rewrite (Nat.eqb_sym lv ver), (Nat.eqb_sym rv ver). pose proof (fun t => HB lv t) as HB'. destruct (ver =? lv), (ver =? rv); cbn [negb orb].
    + split; [intros [|]; discriminate|]. intros tl tr u w [= <-] [= <-] D D'. now rewrite (built_qq x a m dim t0 l r u w); auto.
    + split; [reflexivity|discriminate].
    + split; [reflexivity|discriminate].
    + split; [reflexivity|discriminate].
  - apply made_two in MD. pose proof (HB lv) as HBl. pose proof (HB rv) as HBr. clear HB.
    rewrite !(Nat.eqb_sym lv), !(Nat.eqb_sym rv).
    destruct (Nat.eqb_spec ov lv) as [E1|N1].
    + destruct (Nat.eqb_spec nv lv) as [E2|N2]; [congruence|]. destruct (Nat.eqb_spec ov rv) as [E3|N3].
      * destruct (Nat.eqb_spec nv rv) as [E4|N4]; [congruence|]. split; [intros [|]; discriminate|]. intros tl tr u w [= <-] [= <-] D D'.
        now rewrite (built_qq x a m dim old l r u w); auto.
      * destruct (Nat.eqb_spec nv rv) as [E4|N4].
        -- split; [intros [|]; discriminate|]. intros tl tr u w [= <-] [= <-] D D'. rewrite (built_inflate x dim old l u); auto. cbn [bind].
           rewrite (built_fn x a m dim new u r w); auto. apply D.
        -- split; [reflexivity|discriminate].
    + destruct (Nat.eqb_spec nv lv) as [E2|N2].
      * destruct (Nat.eqb_spec ov rv) as [E3|N3].
        -- destruct (Nat.eqb_spec nv rv) as [E4|N4]; [congruence|]. split; [intros [|]; discriminate|]. intros tl tr u w [= <-] [= <-] D D'.
           rewrite (built_inflate x dim old r w); auto. cbn [bind]. rewrite (built_fn x a m dim new w l u); auto; [|apply D']. cbn [bind].
           do 2 f_equal. now apply distance_sym.
        -- destruct (Nat.eqb_spec nv rv) as [E4|N4].
           ++ split; [intros [|]; discriminate|]. intros tl tr u w [= <-] [= <-] D D'. now rewrite (built_qq x a m dim new l r u w); auto.
           ++ split; [reflexivity|discriminate].
      * split; [reflexivity|discriminate].
Qed.
Print Assumptions C105_codes.
(** Two versions are refused only if they are the same. *)
Theorem C105_two : forall {F} (new old : btable (F := F)) nv ov,
  (nv = ov -> multi_two new old nv ov = None) /\
  (nv <> ov -> exists mt, multi_two new old nv ov = Some mt /\ of_version mt nv = Some new /\ of_version mt ov = Some old /\
     forall v, v <> nv -> v <> ov -> of_version mt v = None).
Proof.
  intros F new old nv ov. unfold multi_two. destruct (Nat.eqb_spec nv ov) as [E|N]; split; try congruence. intros _. eexists. split; [reflexivity|].
  cbn [of_version]. rewrite !Nat.eqb_refl. rewrite (proj2 (Nat.eqb_neq nv ov) N). split; [reflexivity|]. split; [reflexivity|]. intros v A B.
  rewrite (proj2 (Nat.eqb_neq nv v)), (proj2 (Nat.eqb_neq ov v)) by congruence. reflexivity.
Qed.
Print Assumptions C105_two.
(** The dimensions of the two tables are not compared: codes of a two-dimensional and a
    one-dimensional table are compared without an error, and a coordinate is dropped. *)
Theorem C105_dimensions_refuted :
  (do new <- z_table (mkM [4]%Z 1 1) [0; 1] 1; do old <- z_table (mkM [4; 100]%Z 1 2) [0; 2] 2; do mt <- multi_two new old 1 0;
   md_codes z_x V3 ML2 mt [0] 0 [0] 1) = Some (Some 0%Z).
Proof. vm_compute. reflexivity. Qed.
Print Assumptions C105_dimensions_refuted.
Definition z_piv' : matrix Z := mkM [1;1;1; 2;2;2]%Z 2 3.
Example C105_example :
  (forall t, z_table z_piv [0; 2; 3] 3 = Some t -> built 3 t) /\ (forall t, z_table z_piv' [0; 1; 2; 3] 3 = Some t -> built 3 t) /\
  (do new <- z_table z_piv [0; 2; 3] 3; do old <- z_table z_piv' [0; 1; 2; 3] 3; do mt <- multi_two new old 7 4;
   do a <- md_codes z_x V3 ML2 mt [1; 2] 7 [0; 1; 0] 4; do b <- md_codes z_x V3 MIP mt [0; 1; 0] 4 [1; 2] 7; do c <- md_codes z_x V3 MIP mt [0; 1; 0] 5 [1; 2] 7;
   do d <- md_full z_x V3 ML2 mt [0; 0; 0]%Z [0; 1; 0] 4;
   Some (a, b, c, d)) = Some (Some 145, Some (-31), None, Some 6)%Z.
Proof. split; [intros t [= <-]; repeat split|]. split; [intros t [= <-]; repeat split|]. vm_compute. reflexivity. Qed.
