(** Lemmas about assigning vectors to shards and copying them. *)
From Coq Require Import List NArith ZArith Bool Permutation Sorting Lia ZifyNat ZifyN ZifyBool.
From Verif.Lib Require Import Base Lists Bytes.
From Verif.Disk Require Import Model Spec Proofs ProofsLayout Props.
From Verif.GraphFile Require Import Model Spec Proofs ProofsMain.
From Verif.Shards Require Import Model Spec.
Import ListNotations.

(** * Closest centers *)

Lemma argmin_ok {D} (lt : D -> D -> bool) : strict lt -> forall ds j best min,
  (argmin lt ds j best min = best /\ (forall d, In d ds -> lt d min = false)) \/
  (exists i d, argmin lt ds j best min = j + i /\ nth_error ds i = Some d /\ lt d min = true /\ (forall d', In d' ds -> lt d' d = false)).
Proof.
  intros [I T]. induction ds as [|d ds IH]; intros j best min; cbn [argmin]; [left; split; [reflexivity|intros d []]|].
  destruct (lt d min) eqn:L.
  - right. destruct (IH (S j) j d) as [[-> A]|(i & e & -> & A & B & C)].
    + exists 0, d. split; [lia|]. split; [reflexivity|]. split; [exact L|]. intros d' [<-|Hd]; auto.
    + exists (S i), e. split; [lia|]. split; [exact A|]. split; [eapply T; eauto|]. intros d' [<-|Hd]; [|auto].
      destruct (lt d e) eqn:Q; [|auto]. rewrite <- (I d). symmetry. eapply T; eauto.
  - destruct (IH (S j) best min) as [[-> A]|(i & e & -> & A & B & C)].
    + left. split; [reflexivity|]. intros d' [<-|Hd]; auto.
    + right. exists (S i), e. split; [lia|]. split; [exact A|]. split; [exact B|]. intros d' [<-|Hd]; [|auto].
      destruct (lt d e) eqn:Q; [|auto]. rewrite (T _ _ _ Q B) in L. discriminate.
Qed.

Lemma map_fst_combine_seq {D} (ds : list D) : map fst (combine (seq 0 (length ds)) ds) = seq 0 (length ds).
Proof.
  generalize 0. induction ds as [|d ds IH]; intros n; [reflexivity|]. cbn [length seq combine map fst]. now rewrite IH.
Qed.
Lemma map_snd_combine_seq {D} (ds : list D) : map snd (combine (seq 0 (length ds)) ds) = ds.
Proof.
  generalize 0. induction ds as [|d ds IH]; intros n; [reflexivity|]. cbn [length seq combine map snd]. now rewrite IH.
Qed.
Lemma in_combine_seq {D} (ds : list D) c d : In (c, d) (combine (seq 0 (length ds)) ds) <-> nth_error ds c = Some d.
Proof.
  assert (H : forall n, In (c, d) (combine (seq n (length ds)) ds) <-> n <= c /\ nth_error ds (c - n) = Some d).
  { revert c. induction ds as [|e ds IH]; intros c n; cbn [length seq combine In].
    - split; [intros []|]. intros [_ H]. destruct (c - n); discriminate.
    - rewrite IH. split.
      + intros [[= -> ->]|[A B]]; [split; [lia|now rewrite Nat.sub_diag]|]. split; [lia|].
        replace (c - n) with (S (c - S n)) by lia. exact B.
      + intros [A B]. destruct (Nat.eq_dec c n) as [->|N]; [left; rewrite Nat.sub_diag in B; injection B as ->; reflexivity|].
        right. split; [lia|]. replace (c - n) with (S (c - S n)) in B by lia. exact B. }
  rewrite H, Nat.sub_0_r. split; [tauto|]. intros; split; [lia|auto].
Qed.
Lemma StronglySorted_firstn_skipn {A} (R : A -> A -> Prop) l n x y : StronglySorted R l ->
  In x (firstn n l) -> In y (skipn n l) -> R x y.
Proof.
  intros S. revert n. induction S as [|a l S IH F]; intros [|n] Hx Hy; cbn in Hx, Hy; try contradiction.
  destruct Hx as [<-|Hx]; [|eauto]. eapply Forall_forall; [exact F|]. clear -Hy. revert n Hy.
  induction l as [|b l IH]; intros [|n]; cbn; auto. intros H. right. eauto.
Qed.

Lemma closest_ok {D} (lt : D -> D -> bool) dmax heap k ds : strict lt -> any_heap lt heap -> 0 < k ->
  (closest lt dmax heap k ds = None <-> length ds < k) /\
  forall sel, closest lt dmax heap k ds = Some sel ->
    length sel = k /\ NoDup sel /\ Forall (fun c => c < length ds) sel /\
    (total_on lt ds -> (k = 1 -> exists d, In d ds /\ lt d dmax = true) ->
     forall c d c' d', In c sel -> nth_error ds c = Some d -> ~ In c' sel -> nth_error ds c' = Some d' -> lt d' d = false).
Proof.
  intros T HH K. unfold closest. destruct (Nat.ltb_spec (length ds) k) as [L|L].
  { split; [split; auto|]. discriminate. }
  destruct (Nat.eqb_spec k 1) as [->|K1].
  { split; [split; [discriminate|lia]|]. intros sel [= <-]. split; [reflexivity|]. split; [repeat constructor; auto|].
    destruct (argmin_ok lt T ds 0 0 dmax) as [[E A]|(i & d & E & A & B & C)]; rewrite E; cbn [Nat.add].
    - split; [repeat constructor; lia|]. intros _ X. destruct (X eq_refl) as (d & I & Q). rewrite A in Q by exact I. discriminate.
    - split; [repeat constructor; apply nth_error_Some; congruence|]. intros TO _ c e c' e' [<-|[]] H1 _ H2.
      rewrite A in H1. injection H1 as <-. apply C. eapply nth_error_In; eauto. }
  split; [split; [discriminate|lia]|]. intros sel [= <-]. destruct (HH (combine (seq 0 (length ds)) ds)) as [P S].
  set (h := heap (combine (seq 0 (length ds)) ds)) in *.
  assert (PF : Permutation (map fst h) (seq 0 (length ds))) by (rewrite <- map_fst_combine_seq; now apply Permutation_map).
  assert (ND : NoDup (map fst h)) by (eapply Permutation_NoDup; [symmetry; exact PF|apply seq_NoDup]).
  assert (LH : length h = length ds) by (rewrite <- (map_length fst), (Permutation_length PF); apply seq_length).
  split. { rewrite firstn_length, map_length, LH. lia. }
  assert (SP : map fst h = firstn k (map fst h) ++ skipn k (map fst h)) by (symmetry; apply firstn_skipn).
  split. { rewrite SP in ND. apply NoDup_app_inv in ND. tauto. }
  split. { apply Forall_forall. intros c Hc. assert (I : In c (map fst h)) by (rewrite SP; apply in_or_app; auto).
    eapply Permutation_in in I; [|exact PF]. apply in_seq in I. lia. }
  intros TO _ c d c' d' Hc Nc Hc' Nc'.
  rewrite map_snd_combine_seq in S. specialize (S TO).
  assert (I1 : In (c', d') h) by (eapply Permutation_in; [symmetry; exact P|]; now apply in_combine_seq).
  rewrite firstn_map in Hc, Hc'. apply in_map_iff in Hc. destruct Hc as ([c0 d0] & E & I0). cbn in E. subst c0.
  assert (I2 : In (c, d0) (combine (seq 0 (length ds)) ds)).
  { eapply Permutation_in; [exact P|]. rewrite <- (firstn_skipn k h). apply in_or_app. now left. }
  apply in_combine_seq in I2. rewrite Nc in I2. injection I2 as <-.
  rewrite <- (firstn_skipn k h) in I1. apply in_app_or in I1. destruct I1 as [I1|I1].
  { elim Hc'. apply in_map_iff. now exists (c', d'). }
  exact (StronglySorted_firstn_skipn _ h k _ _ S I0 I1).
Qed.

(** * The buffered writer *)

Lemma saved_plain cs ops : 0 < cs -> saved cs ops = fst (plain_run (map fop_of ops)).
Proof.
  intros H. destruct (C41_writes_the_file cs ops H) as (w0 & w1 & w2 & E0 & E1 & E2 & E3 & _).
  unfold saved. rewrite E0, E1. cbn [snd]. rewrite E2. exact E3.
Qed.
Definition opw (bs : list bytes) : list wop := map WWrite bs.
Lemma opw_app a b : opw (a ++ b) = opw a ++ opw b.
Proof. apply map_app. Qed.
Lemma saved_update cs bs us ops1 ops2 : 0 < cs -> (forall o, In o ops1 -> o = WFlush) -> (forall o, In o ops2 -> o = WFlush) ->
  saved cs (opw bs ++ ops1 ++ WReset :: opw us ++ ops2) = put 0 (concat us) (concat bs).
Proof.
  intros H F1 F2. rewrite saved_plain by exact H. rewrite <- file_of_update. unfold file_of. f_equal. unfold plain_run.
  rewrite !map_app. cbn [map]. rewrite !map_app. rewrite !fold_left_app. cbn [fold_left]. rewrite !fold_left_app.
  assert (FL : forall ops s, (forall o, In o ops -> o = WFlush) -> fold_left (fun s o => plain_op o s) (map fop_of ops) s = s).
  { clear. induction ops as [|o ops IH]; intros s F; [reflexivity|]. cbn [map fold_left]. rewrite (F o) by now left. cbn [fop_of plain_op].
    apply IH. intros; apply F; now right. }
  rewrite (FL ops2 _ F2), (FL ops1 _ F1). unfold opw, writes. rewrite !map_map. cbn [fop_of as_fop]. reflexivity.
Qed.

(** * Assigning vectors *)

(** The state in which shard [s] has received the ids [ids s]. *)
Definition shard_writes (ids : nat -> list N) (s : nat) : list wop :=
  opw (le_enc 4 0 :: le_enc 4 1 :: map (le_enc 4) (ids s)).
Definition astate (parts : nat) (ids : nat -> list N) : list (list wop) * list N :=
  (map (shard_writes ids) (seq 0 parts), map (fun s => N.of_nat (length (ids s))) (seq 0 parts)).
Definition add_id (s : nat) (id : N) (ids : nat -> list N) : nat -> list N := fun s' => if s' =? s then ids s' ++ [id] else ids s'.

Lemma add_op_ok ids s id : forall parts base, s < parts ->
  add_op s (WWrite (le_enc 4 id)) (map (shard_writes ids) (seq base parts)) = Some (map (shard_writes (add_id (base + s) id ids)) (seq base parts)).
Proof.
  induction s as [|s IH]; intros [|parts] base H; try lia; cbn [seq map add_op].
  - f_equal. f_equal.
    + unfold shard_writes, add_id. rewrite Nat.add_0_r, Nat.eqb_refl, map_app. cbn [map]. unfold opw. cbn [map].
      rewrite map_app. reflexivity.
    + apply map_ext_in. intros s' I. apply in_seq in I. unfold shard_writes, add_id. destruct (Nat.eqb_spec s' (base + 0)); [lia|reflexivity].
  - rewrite IH by lia. cbn [option_map]. replace (S base + s) with (base + S s) by lia. f_equal. f_equal.
    unfold shard_writes, add_id. destruct (Nat.eqb_spec base (base + S s)); [lia|reflexivity].
Qed.
Lemma add_count_ok ids s id : forall parts base,
  add_count s (map (fun s => N.of_nat (length (ids s))) (seq base parts)) = map (fun s' => N.of_nat (length (add_id (base + s) id ids s'))) (seq base parts).
Proof.
  induction s as [|s IH]; intros [|parts] base; cbn [seq map add_count]; auto.
  - f_equal.
    + unfold add_id. rewrite Nat.add_0_r, Nat.eqb_refl, app_length. cbn [length]. lia.
    + apply map_ext_in. intros s' I. apply in_seq in I. unfold add_id. destruct (Nat.eqb_spec s' (base + 0)); [lia|reflexivity].
  - rewrite IH. replace (S base + s) with (base + S s) by lia. f_equal. unfold add_id.
    destruct (Nat.eqb_spec base (base + S s)); [lia|reflexivity].
Qed.
Lemma astate_ext parts ids ids' : (forall s, ids s = ids' s) -> astate parts ids = astate parts ids'.
Proof. intros H. unfold astate. f_equal; apply map_ext; intros s; unfold shard_writes; now rewrite H. Qed.

Lemma assign_point_ok parts id ss : Forall (fun s => s < parts) ss -> forall ids,
  assign_point id ss (fst (astate parts ids)) (snd (astate parts ids)) =
  Some (astate parts (fun s => ids s ++ repeat id (count_occ Nat.eq_dec ss s))).
Proof.
  induction 1 as [|s ss Hs F IH]; intros ids; cbn [assign_point count_occ repeat].
  - rewrite <- surjective_pairing. f_equal. apply astate_ext. intros s. now rewrite app_nil_r.
  - unfold astate at 1 2. cbn [fst snd]. rewrite add_op_ok by exact Hs. rewrite (add_count_ok ids s id). cbn [Nat.add].
    change (map (shard_writes (add_id s id ids)) (seq 0 parts)) with (fst (astate parts (add_id s id ids))).
    change (map (fun s' => N.of_nat (length (add_id s id ids s'))) (seq 0 parts)) with (snd (astate parts (add_id s id ids))).
    rewrite IH. f_equal. apply astate_ext. intros s'. unfold add_id. destruct (Nat.eq_dec s s') as [<-|N].
    + rewrite Nat.eqb_refl, <- app_assoc. reflexivity.
    + destruct (Nat.eqb_spec s' s); [congruence|reflexivity].
Qed.

(** The ids of shard [s] if the vectors from [id] on have the closest shards [ss]. *)
Fixpoint of_shard (s id : nat) (ss : list (list nat)) : list N :=
  match ss with
  | [] => []
  | c :: ss' => repeat (N.of_nat id) (count_occ Nat.eq_dec c s) ++ of_shard s (S id) ss'
  end.
Lemma of_shard_app s a : forall id b, of_shard s id (a ++ b) = of_shard s id a ++ of_shard s (id + length a) b.
Proof.
  induction a as [|c a IH]; intros id b; cbn [of_shard app length]; [now rewrite Nat.add_0_r|].
  rewrite IH, <- app_assoc. do 3 f_equal. lia.
Qed.
Lemma of_shard_filter s ss : Forall (@NoDup nat) ss -> forall id,
  of_shard s id ss = map N.of_nat (filter (fun i => existsb (Nat.eqb s) (nth (i - id) ss [])) (seq id (length ss))).
Proof.
  induction 1 as [|c ss Hc F IH]; intros id; [reflexivity|]. cbn [of_shard length seq filter].
  assert (E : filter (fun i => existsb (Nat.eqb s) (nth (i - id) (c :: ss) [])) (seq (S id) (length ss)) =
              filter (fun i => existsb (Nat.eqb s) (nth (i - S id) ss [])) (seq (S id) (length ss))).
  { apply filter_ext_in. intros i Hi. apply in_seq in Hi. replace (i - id) with (S (i - S id)) by lia. reflexivity. }
  rewrite E, IH, Nat.sub_diag. change (nth 0 (c :: ss) []) with c. destruct (existsb (Nat.eqb s) c) eqn:X.
  - apply existsb_exists in X. destruct X as (s' & I & Q). apply Nat.eqb_eq in Q. subst s'.
    rewrite (proj1 (NoDup_count_occ' Nat.eq_dec c) Hc s I). reflexivity.
  - rewrite (proj1 (count_occ_not_In Nat.eq_dec c s)); [reflexivity|]. intros I.
    assert (X' : existsb (Nat.eqb s) c = true) by (apply existsb_exists; exists s; split; [exact I|apply Nat.eqb_refl]). congruence.
Qed.
Lemma assign_block_ok parts ss : Forall (Forall (fun s => s < parts)) ss -> forall id ids,
  assign_block id ss (fst (astate parts ids)) (snd (astate parts ids)) = Some (astate parts (fun s => ids s ++ of_shard s id ss)).
Proof.
  induction 1 as [|c ss Hc F IH]; intros id ids; cbn [assign_block of_shard].
  - rewrite <- surjective_pairing. f_equal. apply astate_ext. intros s. now rewrite app_nil_r.
  - rewrite assign_point_ok by exact Hc. cbn [bind]. rewrite (surjective_pairing (astate parts _)). rewrite IH. f_equal.
    apply astate_ext. intros s. now rewrite app_assoc.
Qed.

Lemma near_block_ok near vs : forall id ss, (forall i v, nth_error vs i = Some v -> near (id + i) v = nth_error ss i) -> length ss = length vs ->
  near_block near id vs = Some ss.
Proof.
  induction vs as [|v vs IH]; intros id [|c ss] H L; try discriminate; [reflexivity|]. cbn [near_block].
  rewrite <- (Nat.add_0_r id) at 1. rewrite (H 0 v eq_refl). cbn [nth_error bind].
  rewrite (IH (S id) ss); [reflexivity| |now injection L]. intros i v' E. replace (S id + i) with (id + S i) by lia. apply (H (S i) v' E).
Qed.
Lemma skipn_concat {A} w (l : list (list A)) : Forall (fun r => length r = w) l -> forall a, skipn (a * w) (concat l) = concat (skipn a l).
Proof.
  induction 1 as [|r l Hr F IH]; intros [|a]; cbn [Nat.mul skipn concat]; auto; [apply skipn_nil|].
  rewrite skipn_app. rewrite skipn_all2 by lia. cbn [app]. rewrite <- IH. f_equal. lia.
Qed.
Lemma firstn_concat {A} w (l : list (list A)) : Forall (fun r => length r = w) l -> forall a, firstn (a * w) (concat l) = concat (firstn a l).
Proof.
  induction 1 as [|r l Hr F IH]; intros [|a]; cbn [Nat.mul firstn concat]; auto; [apply firstn_nil|].
  rewrite firstn_app. rewrite firstn_all2 by lia. rewrite <- IH. do 2 f_equal. lia.
Qed.
Lemma Forall_skipn {A} (P : A -> Prop) l n : Forall P l -> Forall P (skipn n l).
Proof. intros H. rewrite <- (firstn_skipn n l) in H. apply Forall_app in H. tauto. Qed.
Lemma Forall_firstn {A} (P : A -> Prop) l n : Forall P l -> Forall P (firstn n l).
Proof. intros H. rewrite <- (firstn_skipn n l) in H. apply Forall_app in H. tauto. Qed.

Lemma assign_blocks_ok near w dim vecs ss parts b0 : Forall (fun v => length v = w) vecs -> length ss = length vecs ->
  Forall (Forall (fun s => s < parts)) ss -> (forall i v, nth_error vecs i = Some v -> near i v = nth_error ss i) ->
  0 < b0 -> (N.of_nat (length vecs) + N.of_nat b0 <= 2 ^ 32)%N ->
  forall f k r ids, length vecs <= (k + f) * b0 -> (0 < f -> (k + f - 1) * b0 < length vecs) ->
  cr_at (bin_file dim vecs) (8 + k * b0 * w) r \/ f = 0 ->
  (forall s, ids s = of_shard s 0 (firstn (k * b0) ss)) ->
  assign_blocks near f (N.of_nat k) (N.of_nat b0) (N.of_nat (length vecs)) w r (fst (astate parts ids)) (snd (astate parts ids))
    = LOk (astate parts (fun s => of_shard s 0 ss)).
Proof.
  intros HV HL HS HN B0 HB. induction f as [|f IH]; intros k r ids U L AT HI.
  - cbn [assign_blocks]. rewrite <- surjective_pairing. f_equal. apply astate_ext. intros s. rewrite HI. f_equal. apply firstn_all2. rewrite HL. lia.
  - destruct AT as [AT|]; [|discriminate]. cbn [assign_blocks].
    set (n := length vecs) in *. assert (KN : k * b0 < n) by (specialize (L ltac:(lia)); nia).
    destruct (N.leb_spec (2 ^ 32) ((N.of_nat k + 1) * N.of_nat b0)) as [X|X]; [nia|].
    set (cur := Nat.min b0 (n - k * b0)).
    replace (N.to_nat (N.min ((N.of_nat k + 1) * N.of_nat b0) (N.of_nat n) - N.of_nat k * N.of_nat b0)) with cur by (unfold cur; nia).
    replace (N.to_nat (N.of_nat k * N.of_nat b0)) with (k * b0) by lia.
    assert (SL : slice (8 + k * b0 * w) (cur * w) (bin_file dim vecs) = concat (firstn cur (skipn (k * b0) vecs))).
    { unfold bin_file. rewrite slice_app_r by (rewrite le_enc_length; lia). rewrite le_enc_length.
      rewrite slice_app_r by (rewrite le_enc_length; lia). rewrite le_enc_length.
      replace (8 + k * b0 * w - 4 - 4) with (k * b0 * w) by lia. unfold slice. rewrite (skipn_concat w) by exact HV.
      apply (firstn_concat w). now apply Forall_skipn. }
    assert (LB : length (bin_file dim vecs) = 8 + n * w) by (now apply bin_file_length).
    destruct (cr_bytes_at _ _ r (cur * w) _ AT SL) as (r' & -> & AT'). { rewrite LB. assert (CN : k * b0 + cur <= n) by (unfold cur; lia). clear -CN. nia. }
    rewrite <- (app_nil_r (concat _)). set (blk := firstn cur (skipn (k * b0) vecs)).
    assert (LBk : length blk = cur) by (unfold blk; rewrite firstn_length, skipn_length; fold n; unfold cur; lia).
    rewrite <- LBk at 1. rewrite rows_concat by (apply Forall_firstn; now apply Forall_skipn).
    rewrite (near_block_ok near blk (k * b0) (firstn cur (skipn (k * b0) ss))).
    2:{ intros i v E. assert (LI : i < cur) by (rewrite <- LBk; apply nth_error_Some; congruence).
        unfold blk in E. rewrite nth_error_firstn', nth_error_skipn' in E by exact LI. rewrite nth_error_firstn', nth_error_skipn' by exact LI. auto. }
    2:{ rewrite LBk, firstn_length, skipn_length, HL. fold n. unfold cur. lia. }
    rewrite assign_block_ok by (apply Forall_firstn; now apply Forall_skipn).
    rewrite (surjective_pairing (astate parts _)). replace (N.of_nat k + 1)%N with (N.of_nat (S k)) by lia.
    rewrite (IH (S k) r' (fun s => ids s ++ of_shard s (k * b0) (firstn cur (skipn (k * b0) ss)))).
    + reflexivity.
    + rewrite <- Nat.add_succ_comm in U. exact U.
    + intros F. rewrite Nat.add_succ_l. replace (S (k + f) - 1) with (k + S f - 1) by lia. apply L. lia.
    + destruct (Nat.eq_dec f 0) as [->|F]; [now right|left]. specialize (L ltac:(lia)).
      assert (C : cur = b0) by (unfold cur; nia). rewrite C in AT'. replace (8 + S k * b0 * w) with (8 + k * b0 * w + b0 * w) by lia. exact AT'.
    + intros s. rewrite HI. replace (S k * b0) with (k * b0 + b0) by lia. rewrite <- (firstn_skipn (k * b0) ss) at 3.
      rewrite firstn_app. rewrite (firstn_all2 (firstn (k * b0) ss)) by (rewrite firstn_length; lia).
      rewrite firstn_length, HL. fold n. rewrite Nat.min_l by lia. replace (k * b0 + b0 - k * b0) with b0 by lia.
      rewrite of_shard_app, firstn_length, HL. fold n. rewrite Nat.min_l by lia. cbn [Nat.add]. do 2 f_equal.
      unfold cur. destruct (Nat.min_spec b0 (n - k * b0)) as [[_ ->]|[Q ->]]; [reflexivity|].
      rewrite !firstn_all2; auto; rewrite skipn_length, HL; fold n; lia.
Qed.

Lemma combine_maps {A B C} (f : A -> B) (g : A -> C) l : combine (map f l) (map g l) = map (fun a => (f a, g a)) l.
Proof. induction l as [|a l IH]; [reflexivity|]. cbn. now rewrite IH. Qed.
Lemma close_shards_ok parts ids : let (ws, cs) := astate parts ids in
  close_shards ws cs = map (fun s => shard_writes ids s ++ [WReset; WWrite (le_enc 4 (N.of_nat (length (ids s)))); WFlush]) (seq 0 parts).
Proof. unfold astate, close_shards. rewrite combine_maps, map_map. reflexivity. Qed.

Lemma shard_data_ok near rcs tsz dim parts vecs ss : u32_ok dim -> vecs <> [] -> (N.of_nat (length vecs) + 10000 <= 2 ^ 32)%N ->
  Forall (fun v => length v = N.to_nat dim * tsz) vecs -> length ss = length vecs ->
  Forall (Forall (fun s => s < parts)) ss -> (forall i v, nth_error vecs i = Some v -> near i v = nth_error ss i) ->
  shard_data near rcs tsz dim parts (bin_file dim vecs) =
  LOk (map (fun s => shard_writes (fun s => of_shard s 0 ss) s ++ [WReset; WWrite (le_enc 4 (N.of_nat (length (of_shard s 0 ss)))); WFlush]) (seq 0 parts)).
Proof.
  intros HD NE HB HV HL HS HN. unfold shard_data. destruct (cr_new_at rcs (bin_file dim vecs)) as (r & -> & AT).
  assert (LB : length (bin_file dim vecs) = 8 + length vecs * (N.to_nat dim * tsz)) by (now apply bin_file_length).
  assert (UN : u32_ok (N.of_nat (length vecs))) by (unfold u32_ok; change (pow256 4) with (2 ^ 32)%N; lia).
  destruct (cr_u32_at _ 0 r (N.of_nat (length vecs)) AT) as (r1 & -> & AT1); [lia| |exact UN|].
  { unfold bin_file. apply slice_0_exact. apply le_enc_length. }
  destruct (cr_u32_at _ (0 + 4) r1 dim AT1) as (r2 & -> & AT2); [lia| |exact HD|].
  { unfold bin_file. rewrite slice_app_r by (rewrite le_enc_length; lia). rewrite le_enc_length. apply slice_0_exact. apply le_enc_length. }
  rewrite N.mod_small by exact HD. rewrite N.eqb_refl. cbn [negb].
  set (n := length vecs) in *. assert (NP : 0 < n) by (unfold n; destruct vecs; [congruence|cbn; lia]).
  set (b0 := if (n <=? N.to_nat 10000)%nat then n else N.to_nat 10000).
  assert (E0 : (if (N.of_nat n <=? 10000)%N then N.of_nat n else 10000%N) = N.of_nat b0).
  { unfold b0. destruct (N.leb_spec (N.of_nat n) 10000), (Nat.leb_spec n (N.to_nat 10000)); try lia. }
  rewrite E0. assert (B0 : 0 < b0 /\ b0 <= N.to_nat 10000) by (unfold b0; destruct (Nat.leb_spec n (N.to_nat 10000)); lia).
  clearbody b0. clear E0. destruct (N.eqb_spec (N.of_nat b0) 0) as [Z|_]; [lia|].
  set (f := N.to_nat ((N.of_nat n + N.of_nat b0 - 1) / N.of_nat b0)).
  assert (FB : n <= f * b0 /\ (f - 1) * b0 < n /\ 0 < f).
  { unfold f. pose proof (N.div_mod (N.of_nat n + N.of_nat b0 - 1) (N.of_nat b0) ltac:(lia)) as DM.
    pose proof (N.mod_lt (N.of_nat n + N.of_nat b0 - 1) (N.of_nat b0) ltac:(lia)) as ML.
    set (q := ((N.of_nat n + N.of_nat b0 - 1) / N.of_nat b0)%N) in *. clearbody q. set (mm := ((N.of_nat n + N.of_nat b0 - 1) mod N.of_nat b0)%N) in *. clearbody mm.
    repeat split; nia. }
  assert (I0 : (repeat [WWrite (le_enc 4 0); WWrite (le_enc 4 1)] parts, repeat 0%N parts) = astate parts (fun _ => [])).
  { assert (RM : forall T (c : T) p k, repeat c p = map (fun _ => c) (seq k p)).
    { clear. induction p as [|p IH]; intros k; [reflexivity|]. cbn [repeat seq map]. f_equal. apply IH. }
    unfold astate. rewrite (RM _ _ parts 0), (RM _ 0%N parts 0). reflexivity. }
  replace (repeat [WWrite (le_enc 4 0); WWrite (le_enc 4 1)] parts) with (fst (astate parts (fun _ => []))) by (now rewrite <- I0).
  replace (repeat 0%N parts) with (snd (astate parts (fun _ => []))) by (now rewrite <- I0).
  change 0%N with (N.of_nat 0) at 1.
  rewrite (assign_blocks_ok near (N.to_nat dim * tsz) dim vecs ss parts b0) with (k := 0); auto; try lia.
  cbn [lbind]. pose proof (close_shards_ok parts (fun s => of_shard s 0 ss)) as C. unfold astate in *. now rewrite C.
Qed.

Lemma shard_saved cs ids : 0 < cs -> u32_ok (N.of_nat (length ids)) ->
  saved cs (opw (le_enc 4 0 :: le_enc 4 1 :: map (le_enc 4) ids) ++ [WReset; WWrite (le_enc 4 (N.of_nat (length ids))); WFlush]) = ids_file ids.
Proof.
  intros H U. pose proof (saved_update cs (le_enc 4 0 :: le_enc 4 1 :: map (le_enc 4) ids) [le_enc 4 (N.of_nat (length ids))] [] [WFlush] H) as S.
  cbn [app opw map] in S. cbn [app opw map] in *. rewrite S; [|intros o []|intros o [<-|[]]; reflexivity].
  unfold ids_file, bin_file. rewrite map_length. cbn [concat]. rewrite app_nil_r. unfold put. cbn [firstn app Nat.add].
  f_equal.
Qed.
