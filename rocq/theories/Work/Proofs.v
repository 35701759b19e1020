(** Proofs about work splitting. *)
From Verif.Lib Require Import Base Lists.
From Verif.Work Require Import Model Spec.

Lemma ck_ok M x : x <= M -> ck M x = Some x.
Proof. intros H. unfold ck. destruct (Nat.leb_spec x M); [reflexivity|lia]. Qed.

(** ** partition *)
Definition pstart (nitems ntasks t : nat) : nat :=
  t * (nitems / ntasks) + Nat.min t (nitems mod ntasks).

Lemma pstart_end nitems ntasks : 0 < ntasks -> pstart nitems ntasks ntasks = nitems.
Proof.
  intros H. unfold pstart. pose proof (Nat.mod_upper_bound nitems ntasks ltac:(lia)).
  rewrite Nat.min_r by lia. pose proof (Nat.div_mod nitems ntasks ltac:(lia)). lia.
Qed.
Lemma pstart_mono nitems ntasks t t' : t <= t' -> pstart nitems ntasks t <= pstart nitems ntasks t'.
Proof. unfold pstart. intros H. apply Nat.add_le_mono; [now apply Nat.mul_le_mono_r|lia]. Qed.

Lemma partition_impl_eq M nitems ntasks task : 0 < ntasks -> task < ntasks -> nitems < M ->
  partition_impl M nitems ntasks task
  = Some (pstart nitems ntasks task, pstart nitems ntasks (S task)).
Proof.
  intros Hn Ht HM. unfold partition_impl. cbv zeta.
  pose proof (Nat.div_mod nitems ntasks ltac:(lia)) as DM.
  pose proof (Nat.mod_upper_bound nitems ntasks ltac:(lia)) as MB.
  assert (Em : nitems - nitems / ntasks * ntasks = nitems mod ntasks) by lia.
  rewrite Em. pose proof (pstart_mono nitems ntasks (S task) ntasks ltac:(lia)) as PM.
  rewrite pstart_end in PM by lia. unfold pstart in *.
  set (k := nitems / ntasks) in *. set (m := nitems mod ntasks) in *. clearbody k m.
  assert (KN : k + 1 <= M). { nia. }
  destruct (Nat.leb_spec m task).
  - rewrite Nat.min_r in PM by lia. rewrite !Nat.min_r by lia.
    assert (A : (task - m) * k + m * (k + 1) = task * k + m) by nia.
    rewrite (ck_ok M (k + 1)) by lia. rewrite (ck_ok M (m * (k + 1))) by nia.
    rewrite (ck_ok M ((task - m) * k)) by nia. rewrite ck_ok by nia. rewrite ck_ok by nia.
    do 2 f_equal; nia.
  - rewrite Nat.min_l in PM by lia. rewrite !Nat.min_l by lia.
    rewrite (ck_ok M (k + 1)) by lia. rewrite (ck_ok M (task * (k + 1))) by nia.
    rewrite ck_ok by nia. rewrite ck_ok by nia. do 2 f_equal; nia.
Qed.

Lemma partition_iter_eq M nitems ntasks : 0 < ntasks -> nitems < M -> forall n c, c + n = ntasks ->
  partition_iter M nitems ntasks n c
  = Some (map (fun t => (pstart nitems ntasks t, pstart nitems ntasks (S t))) (seq c n)).
Proof.
  intros Hn HM. induction n as [|n IH]; intros c Hc; cbn [partition_iter seq map].
  - destruct (Nat.leb_spec ntasks c); [reflexivity|lia].
  - destruct (Nat.leb_spec ntasks c); [lia|].
    rewrite partition_impl_eq by lia. rewrite IH by lia. reflexivity.
Qed.

Lemma seq_consecutive nitems ntasks : forall n c,
  consecutive (pstart nitems ntasks c) (pstart nitems ntasks (c + n))
    (map (fun t => (pstart nitems ntasks t, pstart nitems ntasks (S t))) (seq c n)).
Proof.
  induction n as [|n IH]; intros c; cbn [seq map].
  - rewrite Nat.add_0_r. constructor.
  - replace (c + S n) with (S c + n) by lia. constructor; [apply pstart_mono; lia|apply IH].
Qed.

Lemma partition_lemma M nitems ntasks : 0 < ntasks -> nitems < M ->
  exists rs, partition_iter M nitems ntasks ntasks 0 = Some rs /\ length rs = ntasks /\
    consecutive 0 nitems rs /\
    (forall a b, In (a, b) rs -> b - a = nitems / ntasks \/ b - a = nitems / ntasks + 1) /\
    forall task, partition M nitems ntasks task =
      Some (match nth_error rs task with Some r => inr r | None => inl tt end).
Proof.
  intros Hn HM. rewrite partition_iter_eq by lia. eexists. split; [reflexivity|].
  split; [now rewrite map_length, seq_length|]. split; [|split].
  - pose proof (seq_consecutive nitems ntasks ntasks 0) as C. cbn [Nat.add] in C.
    rewrite pstart_end in C by lia. exact C.
  - intros a b Hin. apply in_map_iff in Hin. destruct Hin as (t & [= <- <-] & _). unfold pstart.
    cbn [Nat.mul]. generalize (nitems / ntasks) (nitems mod ntasks). intros k m.
    generalize (t * k). lia.
  - intros task. unfold partition. destruct (Nat.leb_spec ntasks task).
    + rewrite (proj2 (nth_error_None _ task)); [reflexivity|]. rewrite map_length, seq_length. lia.
    + rewrite partition_impl_eq by lia.
      rewrite nth_error_map, (nth_error_nth' _ 0) by (rewrite seq_length; lia).
      rewrite seq_nth by lia. reflexivity.
Qed.

(** ** arc_chunks *)
Lemma opt_map_ext {A B} (f : A -> option B) g l :
  (forall x, In x l -> f x = Some (g x)) -> opt_map f l = Some (map g l).
Proof.
  induction l as [|x l IH]; intros H; cbn; [reflexivity|].
  rewrite H by now left. rewrite IH by (intros; apply H; now right). reflexivity.
Qed.

Lemma div_ceil_spec a b : 0 < b -> (div_ceil a b - 1) * b < a + (if a =? 0 then 1 else 0) /\ a <= div_ceil a b * b /\ (a = 0 -> div_ceil a b = 0) /\ (0 < a -> 0 < div_ceil a b).
Proof.
  intros Hb. unfold div_ceil. pose proof (Nat.div_mod a b ltac:(lia)). pose proof (Nat.mod_upper_bound a b ltac:(lia)).
  destruct (Nat.eqb_spec (a mod b) 0), (Nat.eqb_spec a 0); repeat split; nia.
Qed.

Lemma chunks_concat {A} size : 0 < size -> forall n (data : list A), length data <= n * size ->
  concat (map (fun c => firstn size (skipn (size * c) data)) (seq 0 n)) = data.
Proof.
  intros Hs. induction n as [|n IH]; intros data Hl.
  - destruct data; [reflexivity|cbn in Hl; lia].
  - cbn [seq map concat]. rewrite Nat.mul_0_r. cbn [skipn].
    rewrite <- seq_shift, map_map.
    transitivity (firstn size data ++ skipn size data); [|apply firstn_skipn]. f_equal.
    transitivity (concat (map (fun c => firstn size (skipn (size * c) (skipn size data))) (seq 0 n))).
    + f_equal. apply map_ext. intros c. rewrite skipn_skipn'. do 2 f_equal. lia.
    + apply IH. rewrite skipn_length. lia.
Qed.

Lemma arc_chunks_lemma {A} M (data : list A) size : 0 < size -> size <= M ->
  2 * length data <= M ->
  exists cs, arc_chunks M data size = Some cs /\ concat cs = data /\
    length cs = div_ceil (length data) size /\
    forall i c, nth_error cs i = Some c ->
      c <> [] /\ length c <= size /\ (S i < length cs -> length c = size).
Proof.
  intros Hs HM HL. destruct (div_ceil_spec (length data) size Hs) as (D1 & D2 & D3 & D4).
  unfold arc_chunks. set (n := div_ceil (length data) size) in *.
  rewrite (opt_map_ext _ (fun c => firstn size (skipn (size * c) data))).
  - eexists. split; [reflexivity|]. split; [now apply chunks_concat|].
    split; [now rewrite map_length, seq_length|].
    rewrite map_length, seq_length. intros i c Hi.
    assert (Hlt : i < n). { apply nth_error_lt in Hi. now rewrite map_length, seq_length in Hi. }
    rewrite nth_error_map, (nth_error_nth' _ 0) in Hi by (rewrite seq_length; lia).
    rewrite seq_nth in Hi by lia. injection Hi as <-. cbn [Nat.add].
    rewrite firstn_length, skipn_length.
    assert (NE : size * i < length data).
    { destruct (Nat.eqb_spec (length data) 0); [rewrite D3 in Hlt by lia; lia|]. nia. }
    split; [|split; [lia|intros HS]].
    2:{ assert (size * S i <= (n - 1) * size) by (rewrite Nat.mul_comm; apply Nat.mul_le_mono_r; lia).
        destruct (Nat.eqb_spec (length data) 0); lia. }
    intros E. apply (f_equal (@length A)) in E. rewrite firstn_length, skipn_length in E. cbn in E. lia.
  - intros c Hc. apply in_seq in Hc. unfold arc_chunk.
    assert (NE : size * c < length data).
    { destruct (Nat.eqb_spec (length data) 0); [rewrite D3 in Hc by lia; lia|]. nia. }
    rewrite ck_ok by lia.
    assert (B : size * c + size <= M). { destruct c; [lia|]. nia. }
    rewrite ck_ok by exact B.
    destruct (Nat.leb_spec (Nat.min (size * c + size) (length data)) (length data)); [|lia].
    destruct (Nat.leb_spec (size * c) (Nat.min (size * c + size) (length data))); [|lia].
    f_equal. destruct (Nat.le_gt_cases (size * c + size) (length data)).
    + f_equal. lia.
    + rewrite !firstn_all2; auto; rewrite skipn_length; lia.
Qed.

(** ** around *)
Lemma inc_mod max pos : pos < max -> around_inc max pos = (pos + 1) mod max.
Proof.
  intros H. unfold around_inc. destruct (Nat.eqb_spec (pos + 1) max) as [->|N].
  - rewrite Nat.mod_same by lia. reflexivity.
  - rewrite Nat.mod_small by lia. reflexivity.
Qed.
Lemma inc_lt max pos : pos < max -> around_inc max pos < max.
Proof. intros H. rewrite inc_mod by lia. apply Nat.mod_upper_bound. lia. Qed.

Lemma shift_map max p n k : p < max ->
  map (fun o => (around_inc max p + o) mod max) (seq k n)
  = map (fun o => (p + o) mod max) (seq (S k) n).
Proof.
  intros H. rewrite <- seq_shift, map_map. apply map_ext. intros o.
  rewrite inc_mod by lia. rewrite Nat.add_mod_idemp_l by lia. f_equal. lia.
Qed.

Lemma run_free max skip : forall r pos, pos < max ->
  (forall o, o < r -> (pos + o) mod max <> skip) ->
  around_run max skip pos r = map (fun o => (pos + o) mod max) (seq 0 r).
Proof.
  induction r as [|r IH]; intros pos Hp Hf; [reflexivity|]. cbn [around_run].
  destruct (Nat.eqb_spec pos skip) as [->|N].
  - exfalso. apply (Hf 0); [lia|]. rewrite Nat.add_0_r. now apply Nat.mod_small.
  - cbn [seq map]. rewrite Nat.add_0_r, Nat.mod_small by lia. f_equal.
    rewrite IH; [now apply shift_map|now apply inc_lt|].
    intros o Ho. rewrite inc_mod by lia. rewrite Nat.add_mod_idemp_l by lia.
    rewrite <- Nat.add_assoc. apply Hf. lia.
Qed.

Lemma mod_inj max a b : 0 < max -> a <= b -> b < a + max -> a mod max = b mod max -> a = b.
Proof.
  intros H1 H2 H3 E. pose proof (Nat.div_mod a max ltac:(lia)). pose proof (Nat.div_mod b max ltac:(lia)).
  assert (a / max = b / max) by nia. nia.
Qed.

Lemma run_skip max : forall h r pos, pos < max -> h <= r -> r < max ->
  around_run max ((pos + h) mod max) pos r
  = map (fun o => (pos + o) mod max) (seq 0 h) ++ map (fun o => (pos + o) mod max) (seq (S h) (r - h)).
Proof.
  induction h as [|h IH]; intros r pos Hp Hh Hr.
  - rewrite Nat.add_0_r, (Nat.mod_small pos) by lia. cbn [seq map app]. rewrite Nat.sub_0_r.
    destruct r as [|r]; [reflexivity|]. cbn [around_run]. rewrite Nat.eqb_refl.
    cbn [seq map]. rewrite (inc_mod max pos) by lia. f_equal.
    rewrite <- (inc_mod max pos) by lia.
    rewrite run_free; [|now apply inc_lt, inc_lt|].
    + rewrite shift_map by now apply inc_lt. rewrite shift_map by lia. reflexivity.
    + intros o Ho E. rewrite !inc_mod in E by (try apply inc_lt; lia).
      rewrite Nat.add_mod_idemp_l, <- (Nat.add_assoc _ 1 o), Nat.add_mod_idemp_l in E by lia.
      rewrite <- (Nat.mod_small pos max) in E at 2 by lia.
      symmetry in E. apply mod_inj in E; lia.
  - destruct r as [|r]; [lia|]. cbn [around_run].
    destruct (Nat.eqb_spec pos ((pos + S h) mod max)) as [E|N].
    + exfalso. rewrite <- (Nat.mod_small pos max) in E at 1 by lia. apply mod_inj in E; lia.
    + cbn [seq map app]. rewrite Nat.add_0_r, (Nat.mod_small pos) by lia. f_equal.
      replace ((pos + S h) mod max) with ((around_inc max pos + h) mod max).
      2:{ rewrite inc_mod, Nat.add_mod_idemp_l by lia. f_equal. lia. }
      rewrite IH by (try apply inc_lt; lia). rewrite !shift_map by lia. reflexivity.
Qed.

Lemma around_lemma max i len : i < max ->
  let l := Nat.min len (max - 1) in
  around max i len = window max i l (div_ceil l 2).
Proof.
  intros Hi l. unfold around, around_new. destruct (Nat.eqb_spec max 0); [lia|]. fold l.
  rewrite (Nat.min_l i (max - 1)) by lia. set (half := div_ceil l 2).
  assert (Hh : half <= l /\ 2 * half <= l + 1).
  { unfold half, div_ceil. pose proof (Nat.div_mod l 2 ltac:(lia)).
    pose proof (Nat.mod_upper_bound l 2 ltac:(lia)).
    destruct (Nat.eqb_spec (l mod 2) 0); lia. }
  set (pos := if half <=? i then i - half else max - (half - i)).
  assert (Hp : pos < max /\ pos = (i + max - half) mod max /\ (pos + half) mod max = i).
  { unfold pos. destruct (Nat.leb_spec half i).
    - replace (i + max - half) with (i - half + 1 * max) by lia. rewrite Nat.mod_add by lia.
      rewrite Nat.mod_small by lia. replace (i - half + half) with i by lia.
      rewrite Nat.mod_small by lia. lia.
    - replace (max - (half - i)) with (i + max - half) by lia.
      rewrite Nat.mod_small by lia. replace (i + max - half + half) with (i + 1 * max) by lia.
      rewrite Nat.mod_add, Nat.mod_small by lia. lia. }
  destruct Hp as (P1 & P2 & P3). rewrite <- P3 at 1. rewrite run_skip by lia.
  unfold window. f_equal.
  - apply map_ext. intros o. rewrite P2, Nat.add_mod_idemp_l by lia. reflexivity.
  - replace (S half) with (0 + S half) by lia.
    assert (SH : forall w k, map (fun o => (pos + o) mod max) (seq (k + S half) w)
                 = map (fun o => (i + 1 + o) mod max) (seq k w)).
    { induction w as [|w IH]; intros k; cbn [seq map]; [reflexivity|]. f_equal; [|apply (IH (S k))].
      rewrite <- P3 at 1. rewrite <- Nat.add_assoc, Nat.add_mod_idemp_l by lia. f_equal. lia. }
    apply SH.
Qed.

Lemma NoDup_map_inj' {A B} (f : A -> B) l : (forall x y, In x l -> In y l -> f x = f y -> x = y) ->
  NoDup l -> NoDup (map f l).
Proof.
  induction l as [|a l IH]; intros Hf N; cbn; [constructor|]. inv N. constructor.
  - intros X. apply in_map_iff in X. destruct X as (y & E & Hy).
    rewrite (Hf y a) in Hy; auto; [now right|now left].
  - apply IH; auto. intros; apply Hf; auto; now right.
Qed.

Lemma window_facts max i len half : i < max -> half <= len -> len < max ->
  NoDup (window max i len half) /\ length (window max i len half) = len /\
  forall p, In p (window max i len half) -> p < max /\ p <> i.
Proof.
  intros Hi Hh Hl. unfold window.
  assert (Im : i = (i + max) mod max).
  { replace (i + max) with (i + 1 * max) by lia. rewrite Nat.mod_add, Nat.mod_small; lia. }
  assert (NI : forall o, 0 < o -> o < max -> (i + o) mod max <> i).
  { intros o H1 H2 E. rewrite <- (Nat.mod_small i max) in E at 2 by lia. symmetry in E.
    apply mod_inj in E; lia. }
  split; [|split].
  - apply NoDup_app_intro.
    + apply NoDup_map_inj'; [|apply seq_NoDup]. intros x y Hx Hy E. apply in_seq in Hx, Hy.
      destruct (Nat.le_gt_cases x y).
      * apply mod_inj in E; lia.
      * symmetry in E. apply mod_inj in E; lia.
    + apply NoDup_map_inj'; [|apply seq_NoDup]. intros x y Hx Hy E. apply in_seq in Hx, Hy.
      destruct (Nat.le_gt_cases x y).
      * apply mod_inj in E; lia.
      * symmetry in E. apply mod_inj in E; lia.
    + intros p H1 H2. apply in_map_iff in H1, H2. destruct H1 as (x & <- & Hx), H2 as (y & E & Hy).
      apply in_seq in Hx, Hy.
      rewrite <- (Nat.mod_add (i + 1 + y) 1 max) in E by lia.
      symmetry in E. apply mod_inj in E; lia.
  - rewrite app_length, !map_length, !seq_length. lia.
  - intros p Hp. apply in_app_or in Hp. destruct Hp as [Hp|Hp]; apply in_map_iff in Hp;
      destruct Hp as (o & <- & Ho); apply in_seq in Ho; (split; [apply Nat.mod_upper_bound; lia|]).
    + replace (i + max - half + o) with (i + (max - half + o)) by lia. apply NI; lia.
    + replace (i + 1 + o) with (i + (1 + o)) by lia. apply NI; lia.
Qed.

(** ** DynamicBalancer *)
Definition fheld (n : nat) (p : bphase) : list nat :=
  match p with BGot i => if i <? n then [i] else [] | BIdle => [] end.
Definition fpend (n : nat) (p : bphase) : list nat :=
  match p with BGot i => if i <? n then [] else [i] | BIdle => [] end.
Definition fidle (p : bphase) : list nat := match p with BIdle => [0] | _ => [] end.
Definition held (n : nat) (ags : list bphase) : list nat := flat_map (fheld n) ags.
Definition pend (n : nat) (ags : list bphase) : list nat := flat_map (fpend n) ags.
Definition idle (ags : list bphase) : list nat := flat_map fidle ags.

Lemma set_nth_app {A} (x y : A) l1 l2 : set_nth (length l1) x (l1 ++ y :: l2) = l1 ++ x :: l2.
Proof. induction l1; cbn; congruence. Qed.

Lemma b_count n ags : length (pend n ags) + length (idle ags) <= length ags.
Proof.
  unfold pend, idle. induction ags as [|p ags IH]; cbn [flat_map length]; [lia|]. rewrite !app_length.
  destruct p as [|i]; cbn [fpend fidle length]; [lia|]. destruct (i <? n); cbn [length]; lia.
Qed.

Record BInv (M n T : nat) (s : bst) (got : list nat) (none : Prop) (h : nat) : Prop := {
  bi_len : length (b_ag s) = T;
  bi_h : h <= n;
  bi_perm : Permutation (got ++ held n (b_ag s)) (seq 0 h);
  bi_cur : b_cur s = h + length (pend n (b_ag s));
  bi_pend : pend n (b_ag s) <> [] -> h = n;
  bi_none : none -> h = n;
  bi_max : forall i, In i (pend n (b_ag s)) -> i < M }.

Lemma b_init_inv M n T : BInv M n T (b_init T) [] False 0.
Proof.
  assert (H : held n (repeat BIdle T) = [] /\ pend n (repeat BIdle T) = []).
  { induction T; cbn; auto. }
  destruct H as [H1 H2].
  constructor; cbn [b_init b_cur b_ag]; rewrite ?H1, ?H2; cbn; try lia; try tauto.
  - apply repeat_length.
  - constructor.
Qed.

Lemma b_step_inv M n T s got none h a : n + T <= M -> BInv M n T s got none h -> a < T ->
  exists s' ev h', b_step M n s a = Some (s', ev) /\
    BInv M n T s' (got ++ match ev with Some (_, Some i) => [i] | _ => [] end)
      (none \/ exists b, ev = Some (b, None)) h'.
Proof.
  intros HM [L H P C PN NN MX] Ha. unfold b_step.
  destruct (nth_error (b_ag s) a) as [p|] eqn:E; [|apply nth_error_None in E; lia].
  destruct (nth_error_split _ _ E) as (l1 & l2 & EA & EL).
  pose proof (b_count n (b_ag s)) as BC. rewrite EA in *. subst a.
  unfold held, pend, idle in *. rewrite !flat_map_app in *. cbn [flat_map fheld fpend fidle] in *.
  destruct p as [|i].
  - rewrite set_nth_app. cbn [fheld fpend fidle app] in *. rewrite !app_length in *. cbn [length] in *.
    assert (Cb : b_cur s < M) by lia.
    exists (mkB ((b_cur s + 1) mod (M + 1)) (l1 ++ BGot (b_cur s) :: l2)), None.
    rewrite Nat.mod_small by lia.
    destruct (Nat.ltb_spec (b_cur s) n).
    + assert (Z : flat_map (fpend n) l1 = []
            /\ flat_map (fpend n) l2 = []).
      { apply app_eq_nil. destruct (flat_map (fpend n) l1 ++ flat_map (fpend n) l2) eqn:EE; [reflexivity|].
        exfalso. rewrite <- app_length, EE in C. cbn [length] in C. rewrite PN in C by discriminate. lia. }
      destruct Z as [Z1 Z2]. rewrite Z1, Z2 in *. cbn in C.
      exists (S h). split; [reflexivity|]. rewrite app_nil_r.
      constructor; cbn [b_ag b_cur]; unfold held, pend; rewrite ?flat_map_app; cbn [flat_map fheld fpend fidle];
        rewrite ?Z1, ?Z2.
      * rewrite app_length in *. exact L.
      * lia.
      * destruct (Nat.ltb_spec (b_cur s) n); [|lia]. rewrite seq_S. cbn [Nat.add].
        replace (b_cur s) with h by lia. rewrite <- P.
        rewrite <- !app_assoc. apply Permutation_app_head. apply Permutation_app_head.
        apply Permutation_app_comm.
      * destruct (Nat.ltb_spec (b_cur s) n); [|lia]. cbn. lia.
      * destruct (Nat.ltb_spec (b_cur s) n); [|lia]. intros []. reflexivity.
      * intros [X|(b & X)]; [|discriminate]. apply NN in X. lia.
      * destruct (Nat.ltb_spec (b_cur s) n); [|lia]. intros i [].
    + assert (HN : h = n).
      { destruct (flat_map (fpend n) l1 ++ flat_map (fpend n) l2) eqn:EE.
        - rewrite <- app_length, EE in C. cbn in C. lia.
        - apply PN. discriminate. }
      exists h. split; [reflexivity|]. rewrite app_nil_r.
      constructor; cbn [b_ag b_cur]; unfold held, pend; rewrite ?flat_map_app; cbn [flat_map fheld fpend fidle].
      * rewrite app_length in *. exact L.
      * lia.
      * destruct (Nat.ltb_spec (b_cur s) n); [lia|]. exact P.
      * destruct (Nat.ltb_spec (b_cur s) n); [lia|]. rewrite !app_length. cbn [length]. lia.
      * auto.
      * auto.
      * destruct (Nat.ltb_spec (b_cur s) n); [lia|]. intros i Hi.
        apply in_app_or in Hi. destruct Hi as [Hi|[<-|Hi]]; [apply MX, in_or_app; auto|lia|].
        apply MX, in_or_app; auto.
  - rewrite set_nth_app. cbn [fheld fpend fidle app] in *. destruct (Nat.ltb_spec i n).
    + eexists _, _, h. split; [reflexivity|].
      constructor; cbn [b_ag b_cur]; unfold held, pend; rewrite ?flat_map_app; cbn [flat_map fheld fpend fidle];
        cbn [app] in *; auto.
      * now rewrite app_length in *.
      * rewrite <- P. rewrite <- !app_assoc. apply Permutation_app_head. cbn [app].
        apply Permutation_middle.
      * intros [X|(b & X)]; [auto|discriminate].
    + assert (HN : h = n).
      { apply PN. intros X. apply app_eq_nil in X. destruct X as [_ X]. discriminate. }
      destruct (Nat.eqb_spec i M) as [->|NM].
      { exfalso. assert (M < M); [|lia]. apply MX. apply in_or_app. right. now left. }
      eexists _, _, h. split; [reflexivity|]. rewrite app_nil_r. rewrite !app_length in *. cbn [length] in *.
      replace (b_cur s + M) with (b_cur s - 1 + 1 * (M + 1)) by lia. rewrite Nat.mod_add by lia.
      rewrite Nat.mod_small by lia.
      constructor; cbn [b_ag b_cur]; unfold held, pend; rewrite ?flat_map_app; cbn [flat_map fheld fpend fidle];
        cbn [app] in *; auto.
      * rewrite app_length. exact L.
      * rewrite app_length. lia.
      * intros j Hj. apply MX. apply in_app_or in Hj. apply in_or_app. cbn. tauto.
Qed.

Lemma b_run_inv M n T : n + T <= M -> forall sched s got none h, BInv M n T s got none h ->
  Forall (fun a => a < T) sched ->
  exists s' evs h', b_run M n s sched = Some (s', evs) /\
    BInv M n T s' (got ++ items evs) (none \/ exists b, In (b, None) evs) h'.
Proof.
  intros HM. induction sched as [|a sched IH]; intros s got none h I F; cbn [b_run].
  - exists s, [], h. split; [reflexivity|]. rewrite app_nil_r.
    destruct I; constructor; auto. intros [X|(b & [])]. auto.
  - inv F. destruct (b_step_inv _ _ _ _ _ _ _ _ HM I H1) as (s1 & ev & h1 & E & I1). rewrite E.
    destruct (IH _ _ _ _ I1 H2) as (s2 & evs & h2 & E2 & I2). rewrite E2.
    eexists _, _, h2. split; [reflexivity|].
    assert (EI : got ++ items match ev with Some e => e :: evs | None => evs end
      = (got ++ match ev with Some (_, Some i) => [i] | _ => [] end) ++ items evs).
    { rewrite <- app_assoc. f_equal. destruct ev as [[b [i|]]|]; reflexivity. }
    rewrite EI. destruct I2; constructor; auto.
    intros [X|(b & X)]; apply bi_none0; [auto|].
    destruct ev as [[b' o]|]; [|right; eauto]. destruct X as [X|X]; [|right; eauto].
    injection X as -> ->. left. right. eauto.
Qed.

Lemma balancer_lemma M n T sched : n + T <= M -> Forall (fun a => a < T) sched ->
  exists s evs, b_run M n (b_init T) sched = Some (s, evs) /\
    NoDup (items evs) /\ (forall i, In i (items evs) -> i < n) /\
    ((exists w, In (w, None) evs) -> forall i, i < n ->
       In i (items evs) \/ exists w, nth_error (b_ag s) w = Some (BGot i)).
Proof.
  intros HM F. destruct (b_run_inv M n T HM sched _ _ _ _ (b_init_inv M n T) F)
    as (s & evs & h & E & I). exists s, evs. split; [exact E|]. cbn [app] in I.
  destruct I as [L H P C PN NN MX].
  assert (N : NoDup (items evs ++ held n (b_ag s))).
  { eapply Permutation_NoDup; [symmetry; exact P|apply seq_NoDup]. }
  split; [now apply NoDup_app_inv in N|]. split.
  - intros i Hi. assert (In i (seq 0 h)).
    { eapply Permutation_in; [exact P|]. apply in_or_app. now left. }
    apply in_seq in H0. lia.
  - intros Hw i Hi. rewrite (NN (or_intror Hw)) in P.
    assert (In i (items evs ++ held n (b_ag s))).
    { eapply Permutation_in; [symmetry; exact P|]. apply in_seq. lia. }
    apply in_app_or in H0. destruct H0 as [H0|H0]; [now left|right].
    unfold held in H0. apply in_flat_map in H0. destruct H0 as (p & Hp & Hq).
    destruct p as [|j]; [destruct Hq|]. cbn [fheld] in Hq. destruct (j <? n); [|destruct Hq].
    destruct Hq as [<-|[]]. apply In_nth_error in Hp. exact Hp.
Qed.

(** ** Chunk offsets *)
Lemma fill_from_eq dim n : forall todo c off, off = pstart dim n c ->
  fill_from dim n c todo off = map (pstart dim n) (seq (S c) todo).
Proof.
  induction todo as [|t IH]; intros c off Ho; cbn [fill_from seq map]; [reflexivity|].
  assert (E : off + dim / n + (if c <? dim mod n then 1 else 0) = pstart dim n (S c)).
  { rewrite Ho. unfold pstart. cbn [Nat.mul]. destruct (Nat.ltb_spec c (dim mod n)); lia. }
  cbv zeta. rewrite E. f_equal. now apply IH.
Qed.

Lemma fill_eq dim n : fill_chunk_offsets dim n = map (pstart dim n) (seq 0 (S n)).
Proof. unfold fill_chunk_offsets. rewrite fill_from_eq by reflexivity. reflexivity. Qed.

Lemma check_from_spec : forall l prev, 0 < prev -> forall d,
  check_from prev l = Some d <->
  (forall i a b, nth_error (prev :: l) i = Some a -> nth_error (prev :: l) (S i) = Some b -> a < b) /\
  d = last (prev :: l) 0.
Proof.
  induction l as [|x l IH]; intros prev Hp d; cbn [check_from].
  - split.
    + intros [= <-]. split; [|reflexivity]. intros [|[|i]] a b _ Hb; discriminate.
    + intros [_ ->]. reflexivity.
  - destruct (Nat.eqb_spec x 0); [|destruct (Nat.leb_spec x prev)].
    + split; [discriminate|]. intros [Hm _]. specialize (Hm 0 prev x eq_refl eq_refl). lia.
    + split; [discriminate|]. intros [Hm _]. specialize (Hm 0 prev x eq_refl eq_refl). lia.
    + rewrite IH by lia. split; intros [Hm Hd]; (split; [|exact Hd]).
      * intros [|i] a b Ha Hb; [injection Ha as <-; injection Hb as <-; lia|exact (Hm i a b Ha Hb)].
      * intros i a b Ha Hb. exact (Hm (S i) a b Ha Hb).
Qed.

Lemma offsets_new_lemma l d : offsets_new l = Some d <-> proper_offsets l /\ d = last l 0.
Proof.
  unfold proper_offsets. destruct l as [|s [|x l]].
  - cbn. split; [discriminate|intros [[H _] _]; lia].
  - cbn. split; [discriminate|intros [[H _] _]; lia].
  - cbn [offsets_new]. destruct (Nat.eqb_spec s 0) as [->|N]; cbn [negb].
    2:{ split; [discriminate|]. intros [(_ & [= H] & _) _]. contradiction. }
    destruct (Nat.eqb_spec x 0) as [->|N].
    + split; [discriminate|]. intros [(_ & _ & H) _]. specialize (H 0 0 0 eq_refl eq_refl). lia.
    + rewrite check_from_spec by lia. split.
      * intros [Hm Hd]. split; [|exact Hd]. split; [cbn; lia|]. split; [reflexivity|].
        intros [|i] a b Ha Hb; [injection Ha as <-; injection Hb as <-; lia|exact (Hm i a b Ha Hb)].
      * intros [(_ & _ & Hm) Hd]. split; [|exact Hd]. intros i a b Ha Hb. exact (Hm (S i) a b Ha Hb).
Qed.

Lemma offsets_partition_lemma dim n : 0 < n ->
  (offsets_partition dim n = None <-> dim < n) /\
  forall l, offsets_partition dim n = Some l ->
    length l = n + 1 /\ proper_offsets l /\ offsets_new l = Some dim /\
    forall i, i < n -> exists a, offsets_at l i
      = Some (a, a + dim / n + (if i <? dim mod n then 1 else 0)).
Proof.
  intros Hn. unfold offsets_partition. destruct (Nat.ltb_spec dim n) as [Lt|Ge].
  { split; [tauto|discriminate]. }
  split; [split; [discriminate|lia]|]. intros l [= <-]. rewrite fill_eq.
  assert (NE : forall i, i < S n -> nth_error (map (pstart dim n) (seq 0 (S n))) i = Some (pstart dim n i)).
  { intros i Hi. rewrite nth_error_map, (nth_error_nth' _ 0) by (rewrite seq_length; lia).
    rewrite seq_nth by lia. reflexivity. }
  assert (K : 1 <= dim / n). { apply Nat.div_le_lower_bound; lia. }
  assert (PO : proper_offsets (map (pstart dim n) (seq 0 (S n)))).
  { split; [rewrite map_length, seq_length; lia|]. split; [reflexivity|].
    intros i a b Ha Hb. pose proof (nth_error_lt _ _ _ Hb) as HL. rewrite map_length, seq_length in HL.
    rewrite NE in Ha, Hb by lia. injection Ha as <-. injection Hb as <-.
    unfold pstart. cbn [Nat.mul]. lia. }
  split; [rewrite map_length, seq_length; lia|]. split; [exact PO|]. split.
  - apply offsets_new_lemma. split; [exact PO|]. rewrite seq_S, map_app. cbn [map Nat.add].
    rewrite last_last. symmetry. apply pstart_end. lia.
  - intros i Hi. unfold offsets_at. rewrite map_length, seq_length.
    destruct (Nat.ltb_spec i (S n - 1)); [|lia]. rewrite !NE by lia.
    exists (pstart dim n i). do 2 f_equal. unfold pstart.
    destruct (Nat.ltb_spec i (dim mod n)); nia.
Qed.

Lemma offsets_sorted l : proper_offsets l -> forall i j a b, i <= j ->
  nth_error l i = Some a -> nth_error l j = Some b -> a <= b.
Proof.
  intros (_ & _ & H) i j. revert i. induction j as [|j IH]; intros i a b Hij Ha Hb.
  - replace i with 0 in Ha by lia. rewrite Ha in Hb. injection Hb as <-. lia.
  - destruct (Nat.eq_dec i (S j)) as [->|N]; [rewrite Ha in Hb; injection Hb as <-; lia|].
    destruct (nth_error l j) as [c|] eqn:Ec.
    + specialize (IH i a c ltac:(lia) Ha eq_refl). specialize (H j c b Ec Hb). lia.
    + apply nth_error_None in Ec. apply nth_error_lt in Hb. lia.
Qed.

Lemma nth_error_last (l : list nat) : 0 < length l -> nth_error l (length l - 1) = Some (last l 0).
Proof.
  induction l as [|x [|y l] IH]; intros H; [cbn in H; lia|reflexivity|].
  specialize (IH ltac:(cbn; lia)). cbn [length last] in *. rewrite Nat.sub_succ, Nat.sub_0_r in *. exact IH.
Qed.

(** The chunks of a view are consecutive pieces of the data. *)
Lemma chunk_prefix {A} (data : list A) l d : offsets_new l = Some d -> length data = d ->
  forall k, k < length l -> exists cs e, opt_map (chunk_at data l) (seq 0 k) = Some cs /\
    nth_error l k = Some e /\ e <= d /\ concat cs = firstn e data.
Proof.
  intros HN HL. apply offsets_new_lemma in HN. destruct HN as [PO Hd].
  assert (LE : forall k e, nth_error l k = Some e -> e <= d).
  { intros k e He. pose proof (nth_error_lt _ _ _ He).
    assert (HLast : nth_error l (length l - 1) = Some d).
    { rewrite Hd. apply nth_error_last. lia. }
    eapply (offsets_sorted l PO k (length l - 1)); [lia|exact He|exact HLast]. }
  induction k as [|k IH]; intros Hk.
  - destruct PO as (_ & P0 & _). exists [], 0. split; [reflexivity|]. split; [exact P0|].
    split; [lia|reflexivity].
  - destruct (IH ltac:(lia)) as (cs & e & O & E & Le & CC).
    destruct (nth_error l (S k)) as [e'|] eqn:E'; [|apply nth_error_None in E'; lia].
    pose proof (offsets_sorted l PO k (S k) e e' ltac:(lia) E E') as Lee.
    assert (CA : chunk_at data l k = Some (firstn (e' - e) (skipn e data))).
    { unfold chunk_at, offsets_at. destruct (Nat.ltb_spec k (length l - 1)); [|lia].
      rewrite Nat.add_1_r, E, E'. pose proof (LE _ _ E').
      destruct (Nat.leb_spec e e'), (Nat.leb_spec e' (length data)); try lia. reflexivity. }
    exists (cs ++ [firstn (e' - e) (skipn e data)]), e'.
    split; [|split; [reflexivity|split; [eapply LE; eauto|]]].
    + rewrite seq_S. cbn [Nat.add]. clear - O CA.
      revert cs O. induction (seq 0 k) as [|x xs IHx]; intros cs O; cbn [opt_map app] in *.
      * injection O as <-. rewrite CA. reflexivity.
      * destruct (chunk_at data l x); [|discriminate].
        destruct (opt_map (chunk_at data l) xs); [|discriminate]. injection O as <-.
        rewrite (IHx _ eq_refl). reflexivity.
    + rewrite concat_app, CC. cbn [concat]. rewrite app_nil_r.
      replace e' with (e + (e' - e)) at 2 by lia.
      rewrite <- (firstn_skipn e data) at 3. rewrite firstn_app, firstn_firstn, firstn_length.
      rewrite Nat.min_r by lia. f_equal.
      replace (e + (e' - e) - Nat.min e (length data)) with (e' - e) by lia. reflexivity.
Qed.

Lemma chunk_view_lemma {A} (data : list A) l d : offsets_new l = Some d -> length data = d ->
  exists cs, opt_map (chunk_at data l) (seq 0 (length l - 1)) = Some cs /\ concat cs = data.
Proof.
  intros HN HL. pose proof (proj1 (offsets_new_lemma _ _) HN) as [(L2 & _) Hd].
  destruct (chunk_prefix data l d HN HL (length l - 1) ltac:(lia)) as (cs & e & O & E & Le & CC).
  exists cs. split; [exact O|]. rewrite CC.
  assert (e = d); [|subst; now rewrite firstn_all].
  rewrite nth_error_last in E by lia. congruence.
Qed.

Lemma around_all max i len : 0 < max ->
  let l := Nat.min len (max - 1) in let j := Nat.min i (max - 1) in
  around max i len = window max j l ((l + 1) / 2) /\
  NoDup (around max i len) /\ length (around max i len) = l /\
  forall p, In p (around max i len) -> p < max /\ p <> j.
Proof.
  intros H l j.
  assert (E : around max i len = around max j len).
  { unfold around, around_new, j. destruct (Nat.eqb_spec max 0); [reflexivity|].
    rewrite (Nat.min_l (Nat.min i (max - 1))) by lia. reflexivity. }
  assert (D : div_ceil l 2 = (l + 1) / 2).
  { unfold div_ceil. pose proof (Nat.div_mod l 2 ltac:(lia)). pose proof (Nat.mod_upper_bound l 2 ltac:(lia)).
    destruct (Nat.eqb_spec (l mod 2) 0).
    - apply (Nat.div_unique (l + 1) 2 (l / 2) 1); lia.
    - apply (Nat.div_unique (l + 1) 2 (l / 2 + 1) 0); lia. }
  rewrite E, around_lemma by lia. fold l. rewrite D. split; [reflexivity|].
  apply window_facts; lia.
Qed.

Lemma partition_overflow : forall M, partition M M 1 0 = None.
Proof.
  intros M. unfold partition, partition_impl. cbn [Nat.leb]. rewrite Nat.div_1_r, Nat.mul_1_r, Nat.sub_diag.
  cbn [Nat.leb]. unfold ck at 1. destruct (Nat.leb_spec (M + 1) M); [lia|reflexivity].
Qed.
