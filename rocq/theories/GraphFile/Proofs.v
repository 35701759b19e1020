(** Lemmas about the file formats. *)
From Coq Require Import List NArith Bool Lia ZifyNat ZifyN ZifyBool.
From Verif.Lib Require Import Base Lists Bytes.
From Verif.Disk Require Import Model Spec Proofs ProofsLayout.
From Verif.GraphFile Require Import Model Spec.
Import ListNotations.
Local Arguments le_enc : simpl never.
Local Arguments N.mul : simpl never.
Local Arguments N.add : simpl never.
Local Arguments Nat.mul : simpl never.

(** ** Files of write sequences *)

Definition writes (l : list bytes) : list io := map Write l.
Lemma run_writes bs : forall f, fold_left (fun s o => plain_op o s) (map as_fop (writes bs)) (f, length f)
  = (f ++ concat bs, length (f ++ concat bs)).
Proof.
  induction bs as [|b bs IH]; intros f; cbn [writes map fold_left concat].
  - rewrite app_nil_r. reflexivity.
  - cbn [as_fop plain_op fst snd]. rewrite firstn_all, skipn_all2 by lia. rewrite app_nil_r.
    replace (length f + length b) with (length (f ++ b)) by apply app_length.
    fold (writes bs). rewrite IH. rewrite <- app_assoc. reflexivity.
Qed.
Lemma file_of_writes bs : file_of (writes bs) = concat bs.
Proof. unfold file_of, plain_run. change ([], 0) with (@nil N, length (@nil N)). rewrite run_writes. reflexivity. Qed.
Lemma file_of_update bs us : file_of (writes bs ++ Rewind :: writes us) = put 0 (concat us) (concat bs).
Proof.
  unfold file_of, plain_run. rewrite map_app, fold_left_app.
  change ([], 0) with (@nil N, length (@nil N)). rewrite run_writes. cbn [app map fold_left as_fop plain_op fst snd].
  assert (HG : forall us f p, p <= length f ->
    fold_left (fun s o => plain_op o s) (map as_fop (writes us)) (f, p) = (put p (concat us) f, p + length (concat us))).
  { clear. induction us as [|u us IH]; intros f p HP; cbn [writes map fold_left concat].
    - rewrite put_nil by lia. cbn. f_equal. lia.
    - cbn [as_fop plain_op fst snd]. fold (put p u f). fold (writes us).
      rewrite IH by (rewrite put_length; lia). rewrite put_put by lia. rewrite app_length. f_equal. lia. }
  rewrite HG by lia. reflexivity.
Qed.

Lemma cut_writes bs : forall k rest, k <= length (concat bs) ->
  file_of (cut k (writes bs ++ Rewind :: rest)) = firstn k (concat bs) \/ k = length (concat bs).
Proof.
  intros k rest HK.
  destruct (Nat.eq_dec k (length (concat bs))); auto. left.
  assert (HG : forall bs k, k < length (concat bs) -> exists cs, cut k (writes bs ++ Rewind :: rest) = writes cs /\ concat cs = firstn k (concat bs)).
  { clear. induction bs as [|b bs IH]; intros k HK; cbn [concat length writes map app cut] in *; [lia|].
    rewrite app_length in HK. destruct (Nat.leb_spec (length b) k).
    - destruct (IH (k - length b)) as (cs & E1 & E2); [lia|]. exists (b :: cs).
      fold (writes bs). rewrite E1. split; auto. cbn [concat]. rewrite E2, firstn_app, (firstn_all2 b) by lia. reflexivity.
    - exists [firstn k b]. split; auto. cbn [concat]. rewrite app_nil_r, firstn_app.
      replace (k - length b) with 0 by lia. rewrite firstn_O, app_nil_r. auto. }
  destruct (HG bs k) as (cs & E1 & E2); [lia|]. rewrite E1, file_of_writes. auto.
Qed.
Lemma cut_past bs : forall k rest, length (concat bs) <= k ->
  cut k (writes bs ++ rest) = writes bs ++ cut (k - length (concat bs)) rest.
Proof.
  induction bs as [|b bs IH]; intros k rest HK; cbn [concat length writes map app cut] in *.
  - rewrite Nat.sub_0_r. auto.
  - rewrite app_length in HK. destruct (Nat.leb_spec (length b) k); [|lia].
    fold (writes bs). rewrite IH by lia. rewrite app_length. do 3 f_equal. lia.
Qed.
Lemma cut_end us : forall k, exists cs, cut k (writes us) = writes cs /\ concat cs = firstn k (concat us).
Proof.
  induction us as [|b bs IH]; intros k; cbn [concat writes map cut].
  - exists []. rewrite firstn_nil. auto.
  - destruct (Nat.leb_spec (length b) k).
    + destruct (IH (k - length b)) as (cs & E1 & E2). exists (b :: cs). fold (writes bs). rewrite E1. split; auto.
      cbn [concat]. rewrite E2, firstn_app, (firstn_all2 b) by lia. reflexivity.
    + exists [firstn k b]. split; auto. cbn [concat]. rewrite app_nil_r, firstn_app.
      replace (k - length b) with 0 by lia. rewrite firstn_O, app_nil_r. auto.
Qed.
(** The file after a crash of "write [bs], rewind, write [us]". *)
Lemma crash_update bs us k :
  crash_file k (writes bs ++ Rewind :: writes us) =
  if k <=? length (concat bs) then firstn k (concat bs)
  else put 0 (firstn (k - length (concat bs)) (concat us)) (concat bs).
Proof.
  unfold crash_file. destruct (Nat.leb_spec k (length (concat bs))) as [H|H].
  - destruct (cut_writes bs k (writes us) H) as [E| ->]; auto.
    rewrite cut_past by lia. rewrite Nat.sub_diag. cbn [cut].
    destruct (cut_end us 0) as (cs & E & E2). rewrite E, file_of_update, E2, firstn_O, firstn_all.
    apply put_nil. lia.
  - rewrite cut_past by lia. cbn [cut].
    destruct (cut_end us (k - length (concat bs))) as (cs & E & E2). rewrite E, file_of_update, E2. auto.
Qed.
Lemma crash_writes bs k : crash_file k (writes bs) = firstn k (concat bs).
Proof.
  unfold crash_file. destruct (cut_end bs k) as (cs & E & E2). rewrite E, file_of_writes. auto.
Qed.

(** Little-endian prefix of a number over zeros. *)
Lemma le_dec_app_zeros b n : le_dec (b ++ repeat 0%N n) = le_dec b.
Proof.
  induction b as [|x b IH]; cbn [app le_dec].
  - induction n; cbn [repeat le_dec]; auto. rewrite IHn. reflexivity.
  - rewrite IH. reflexivity.
Qed.
Lemma le_dec_firstn_le j b : (le_dec (firstn j b) <= le_dec b)%N.
Proof.
  revert j. induction b as [|x b IH]; intros [|j]; cbn [firstn le_dec]; try lia.
  specialize (IH j). lia.
Qed.

(** ** Graph writer *)

Definition some_lists (lists : list (list N)) := map (@Some (list N)) lists.
Lemma graph_ok_cons s e c l ls : graph_ok s e c (l :: ls) -> graph_ok s e c ls.
Proof.
  intros [A B C D E]. constructor; auto.
  - inversion C; auto.
  - unfold u64_ok in *. cbn [length concat] in D. rewrite app_length in D. lia.
Qed.
Definition list_writes (l : list N) : list bytes := le_enc 4 (N.of_nat (length l)) :: map (le_enc 4) l.
Lemma list_writes_bytes l : concat (list_writes l) = list_bytes l.
Proof. reflexivity. Qed.
Lemma save_lists_ok lists : Forall (fun l => u32_ok (N.of_nat (length l)) /\ Forall u32_ok l) lists ->
  forall o s, save_lists (some_lists lists) o s =
    (writes (concat (map list_writes lists)),
     Some (N.max o (degree_of lists), (s + N.of_nat (4 * (length lists + length (concat lists))))%N)).
Proof.
  induction 1 as [|l ls [HL _] HF IH]; intros o s; cbn [some_lists map save_lists concat].
  - cbn [writes map concat degree_of fold_right length]. do 3 f_equal; lia.
  - fold (some_lists ls). rewrite N.mod_small by (unfold u32_ok in HL; exact HL).
    rewrite IH. cbn [list_writes]. f_equal.
    + unfold list_writes at 2. unfold writes. cbn [map concat app]. rewrite map_app, map_map. reflexivity.
    + f_equal. f_equal.
      * cbn [degree_of fold_right]. fold (degree_of ls). lia.
      * cbn [length concat]. rewrite app_length. lia.
Qed.

Lemma concat_concat_map {A} (f : A -> list bytes) l : concat (concat (map f l)) = concat (map (fun x => concat (f x)) l).
Proof. induction l; cbn [map concat]; auto. rewrite concat_app, IHl. reflexivity. Qed.
Definition lists_bytes (lists : list (list N)) : bytes := concat (map list_bytes lists).
Lemma lists_bytes_length lists : length (lists_bytes lists) = 4 * (length lists + length (concat lists)).
Proof.
  unfold lists_bytes. induction lists as [|l ls IH]; cbn [map concat length]; auto.
  rewrite !app_length, IH, list_bytes_length. lia.
Qed.
Definition isize (lists : list (list N)) : N := N.of_nat (24 + 4 * (length lists + length (concat lists))).
Definition head_writes (start extra : N) : list bytes := [le_enc 8 24; le_enc 4 0; le_enc 4 start; le_enc 8 extra].
Lemma save_graph_ok start extra cfg lists : graph_ok start extra cfg lists ->
  save_graph start extra cfg (some_lists lists) =
  (writes (head_writes start extra ++ concat (map list_writes lists)) ++
   Rewind :: writes [le_enc 8 (isize lists); le_enc 4 (saved_degree cfg lists)], Some (isize lists)).
Proof.
  intros [A B C D E]. unfold save_graph. rewrite save_lists_ok by auto.
  rewrite N.max_0_l. replace (24 + N.of_nat (4 * (length lists + length (concat lists))))%N with (isize lists) by (unfold isize; lia).
  unfold writes. rewrite map_app, <- app_assoc. reflexivity.
Qed.

(** ** Graph reader *)

Definition gfile (size md start extra : N) (payload : bytes) : bytes :=
  le_enc 8 size ++ le_enc 4 md ++ le_enc 4 start ++ le_enc 8 extra ++ payload.

(** Fuel suffices: every iteration consumes four bytes. *)
Lemma count_points_fuel fuel : forall fsize pos rest, length rest < fuel -> count_points fuel fsize pos rest <> LDiverge.
Proof.
  induction fuel as [|fuel IH]; intros fsize pos rest H; [lia|]. cbn [count_points].
  destruct (pos <? fsize)%N; [|discriminate].
  unfold take_le. destruct (take 4 rest) as [[b r]|] eqn:E; [|discriminate]. cbn [lopt lbind].
  apply take_Some in E. destruct E as [-> E2]. rewrite app_length in H.
  specialize (IH fsize (pos + 4 + 4 * le_dec b)%N (skipn (N.to_nat (4 * le_dec b)) r)).
  rewrite skipn_length in IH. specialize (IH ltac:(lia)).
  destruct (count_points _ _ _ _); try discriminate. congruence.
Qed.
Lemma read_lists_fuel fuel : forall fsize md pos rest, length rest < fuel -> read_lists fuel fsize md pos rest <> LDiverge.
Proof.
  induction fuel as [|fuel IH]; intros fsize md pos rest H; [lia|]. cbn [read_lists].
  destruct (pos <? fsize)%N; [|discriminate].
  unfold take_le. destruct (take 4 rest) as [[b r]|] eqn:E; [|discriminate]. cbn [lopt lbind].
  apply take_Some in E. destruct E as [-> E2]. rewrite app_length in H.
  destruct (md <? le_dec b)%N; [discriminate|].
  destruct (take _ r) as [[b2 r2]|] eqn:E3; [|discriminate]. cbn [lopt lbind].
  apply take_Some in E3. destruct E3 as [-> E4]. rewrite app_length in H.
  specialize (IH fsize md (pos + 4 + 4 * le_dec b)%N r2 ltac:(lia)).
  destruct (read_lists _ _ _ _ _); try discriminate. congruence.
Qed.
Lemma dec_u32s_length n b : length (dec_u32s n b) = n.
Proof. revert b. induction n; intros; cbn; auto. Qed.
Lemma read_lists_degree fuel : forall fsize md pos rest ls, read_lists fuel fsize md pos rest = LOk ls ->
  Forall (fun l => N.of_nat (length l) <= md)%N ls.
Proof.
  induction fuel as [|fuel IH]; intros fsize md pos rest ls; cbn [read_lists].
  - destruct (pos <? fsize)%N; [discriminate|]. intros [= <-]. constructor.
  - destruct (pos <? fsize)%N; [|intros [= <-]; constructor].
    destruct (take_le 4 rest) as [[k r]|]; [|discriminate]. cbn [lopt lbind].
    destruct (N.ltb_spec md k); [discriminate|].
    destruct (take _ r) as [[b r2]|]; [|discriminate]. cbn [lopt lbind].
    destruct (read_lists fuel _ _ _ r2) eqn:E; try discriminate. cbn [lbind]. intros [= <-].
    constructor; [rewrite dec_u32s_length; lia|]. eapply IH; eauto.
Qed.
Lemma read_count fuel : forall fsize md pos rest ls, read_lists fuel fsize md pos rest = LOk ls ->
  count_points fuel fsize pos rest = LOk (length ls).
Proof.
  induction fuel as [|fuel IH]; intros fsize md pos rest ls; cbn [read_lists count_points].
  - destruct (pos <? fsize)%N; [discriminate|]. intros [= <-]. reflexivity.
  - destruct (pos <? fsize)%N; [|intros [= <-]; reflexivity].
    destruct (take_le 4 rest) as [[k r]|]; [|discriminate]. cbn [lopt lbind].
    destruct (N.ltb_spec md k); [discriminate|].
    destruct (take _ r) as [[b r2]|] eqn:ET; [|discriminate]. cbn [lopt lbind].
    destruct (read_lists fuel _ _ _ r2) eqn:E; try discriminate. cbn [lbind]. intros [= <-].
    apply take_Some in ET. destruct ET as [-> EL]. rewrite skipn_app_exact by auto.
    rewrite (IH _ _ _ _ _ E). reflexivity.
Qed.

(** On a prefix of a well-formed file the reader yields a prefix of the lists. *)
Lemma take_le_list l rest : u32_ok (N.of_nat (length l)) -> Forall u32_ok l ->
  take_le 4 (list_bytes l ++ rest) = Some (N.of_nat (length l), concat (map (le_enc 4) l) ++ rest).
Proof. intros H _. unfold list_bytes. rewrite <- app_assoc. apply take_le_app. exact H. Qed.
Lemma concat4_length l : length (concat (map (le_enc 4) l)) = 4 * length l.
Proof. induction l; cbn [map concat length]; auto. rewrite app_length, le_enc_length, IHl. lia. Qed.
Lemma count_lists lists : Forall (fun l => u32_ok (N.of_nat (length l)) /\ Forall u32_ok l) lists ->
  forall fuel fsize pos, (pos <= fsize <= pos + N.of_nat (length (lists_bytes lists)))%N -> length (lists_bytes lists) < fuel ->
  exists m, m <= length lists /\ count_points fuel fsize pos (lists_bytes lists) = LOk m /\
    (fsize <= pos + N.of_nat (length (lists_bytes (firstn m lists))))%N /\
    (forall md, read_lists fuel fsize md pos (lists_bytes lists) =
       if forallb (fun l => (N.of_nat (length l) <=? md)%N) (firstn m lists) then LOk (firstn m lists) else LPanic).
Proof.
  induction 1 as [|l ls [HL HU] HF IH]; intros fuel fsize pos HS HFU.
  - cbn [lists_bytes map concat length] in *. exists 0. split; auto.
    destruct fuel; [lia|]. cbn [count_points read_lists]. destruct (N.ltb_spec pos fsize); [lia|].
    split; auto. split; [cbn; lia|]. reflexivity.
  - destruct fuel as [|fuel]; [lia|]. cbn [count_points read_lists].
    destruct (N.ltb_spec pos fsize).
    2:{ exists 0. split; [lia|]. split; auto. split; [cbn; lia|]. reflexivity. }
    change (lists_bytes (l :: ls)) with (list_bytes l ++ lists_bytes ls) in *.
    rewrite app_length, list_bytes_length in HS, HFU.
    rewrite take_le_list by auto. cbn [lopt lbind].
    assert (E4 : N.to_nat (4 * N.of_nat (length l)) = 4 * length l) by lia. rewrite E4.
    rewrite skipn_app_exact by apply concat4_length.
    destruct (N.leb_spec fsize (pos + 4 + 4 * N.of_nat (length l))) as [HE|HE].
    + (* this list is the last one *)
      exists 1. split; [cbn [length]; lia|].
      assert (HC : forall fu r, count_points fu fsize (pos + 4 + 4 * N.of_nat (length l)) r = LOk 0).
      { intros [|fu] r; cbn [count_points]; destruct (N.ltb_spec (pos + 4 + 4 * N.of_nat (length l)) fsize); auto; lia. }
      assert (HR : forall fu md r, read_lists fu fsize md (pos + 4 + 4 * N.of_nat (length l)) r = LOk []).
      { intros [|fu] md r; cbn [read_lists]; destruct (N.ltb_spec (pos + 4 + 4 * N.of_nat (length l)) fsize); auto; lia. }
      rewrite HC. split; auto. split.
      { cbn [firstn]. change (lists_bytes [l]) with (list_bytes l ++ []). rewrite app_length, list_bytes_length. cbn [length]. lia. }
      intros md. cbn [firstn forallb]. rewrite andb_true_r.
      destruct (N.ltb_spec md (N.of_nat (length l))); destruct (N.leb_spec (N.of_nat (length l)) md); try lia; auto.
      rewrite take_app by apply concat4_length. cbn [lopt lbind]. rewrite HR. cbn [lbind].
      rewrite Nat2N.id. rewrite <- (app_nil_r (concat _)), dec_enc_u32s by auto. reflexivity.
    + destruct (IH fuel fsize (pos + 4 + 4 * N.of_nat (length l))%N) as (m & Hm & EC & HB & ER); [lia|lia|].
      exists (S m). split; [cbn [length]; lia|]. rewrite EC. split; auto. split.
      { cbn [firstn]. change (lists_bytes (l :: firstn m ls)) with (list_bytes l ++ lists_bytes (firstn m ls)).
        rewrite app_length, list_bytes_length. lia. }
      intros md. cbn [firstn forallb].
      destruct (N.ltb_spec md (N.of_nat (length l))); destruct (N.leb_spec (N.of_nat (length l)) md); try lia; auto.
      cbn [andb]. rewrite take_app by apply concat4_length. cbn [lopt lbind]. rewrite ER.
      destruct (forallb _ (firstn m ls)); auto. cbn [lbind].
      rewrite Nat2N.id. rewrite <- (app_nil_r (concat _)), dec_enc_u32s by auto. reflexivity.
Qed.

Lemma load_gfile b8 b4 start extra payload :
  length b8 = 8 -> length b4 = 4 -> u32_ok start -> u64_ok extra ->
  load_graph (b8 ++ b4 ++ le_enc 4 start ++ le_enc 8 extra ++ payload) =
  (let fuel := S (24 + length payload) in
   try n <- count_points fuel (le_dec b8) 24 payload;
   try ls <- read_lists fuel (le_dec b8) (le_dec b4) 24 payload;
   LOk (mklg n (le_dec b4) extra ls)).
Proof.
  intros H8 H4 HS HE. unfold load_graph. cbv zeta.
  rewrite !app_length, !le_enc_length, H8, H4.
  replace (8 + (4 + (4 + (8 + length payload)))) with (24 + length payload) by lia.
  unfold take_le at 1. rewrite take_app by auto. cbn [lopt lbind].
  unfold take_le at 1. rewrite take_app by auto. cbn [lopt lbind].
  rewrite take_le_app by exact HS. cbn [lopt lbind]. rewrite take_le_app by exact HE. reflexivity.
Qed.
Lemma load_short f : length f < 24 -> load_graph f = LErr.
Proof.
  intros H. unfold load_graph, take_le.
  destruct (take 8 f) as [[a r]|] eqn:E1; [|reflexivity]. cbn [lopt lbind]. apply take_Some in E1. destruct E1 as [-> E1].
  destruct (take 4 r) as [[a2 r2]|] eqn:E2; [|reflexivity]. cbn [lopt lbind]. apply take_Some in E2. destruct E2 as [-> E2].
  destruct (take 4 r2) as [[a3 r3]|] eqn:E3; [|reflexivity]. cbn [lopt lbind]. apply take_Some in E3. destruct E3 as [-> E3].
  destruct (take 8 r3) as [[a4 r4]|] eqn:E4; [|reflexivity]. cbn [lopt lbind]. apply take_Some in E4. destruct E4 as [-> E4].
  rewrite !app_length in H. lia.
Qed.
Lemma load_graph_total f : load_graph f <> LDiverge /\
  (forall g, load_graph f = LOk g -> lg_points g = length (lg_lists g)
     /\ Forall (fun l => N.of_nat (length l) <= lg_degree g)%N (lg_lists g)).
Proof.
  unfold load_graph, take_le. cbv zeta. generalize (Nat.lt_succ_diag_r (length f)). generalize (S (length f)). intros fuel HFu.
  destruct (take 8 f) as [[a r]|] eqn:E1; [|split; discriminate]. cbn [lopt lbind]. apply take_Some in E1. destruct E1 as [-> E1].
  destruct (take 4 r) as [[a2 r2]|] eqn:E2; [|split; discriminate]. cbn [lopt lbind]. apply take_Some in E2. destruct E2 as [-> E2].
  destruct (take 4 r2) as [[a3 r3]|] eqn:E3; [|split; discriminate]. cbn [lopt lbind]. apply take_Some in E3. destruct E3 as [-> E3].
  destruct (take 8 r3) as [[a4 r4]|] eqn:E4; [|split; discriminate]. cbn [lopt lbind]. apply take_Some in E4. destruct E4 as [-> E4].
  rewrite !app_length in HFu.
  pose proof (count_points_fuel fuel (le_dec a) 24 r4 ltac:(lia)) as HC.
  pose proof (read_lists_fuel fuel (le_dec a) (le_dec a2) 24 r4 ltac:(lia)) as HR.
  destruct (read_lists fuel (le_dec a) (le_dec a2) 24 r4) as [ls| | |] eqn:ER.
  - rewrite (read_count _ _ _ _ _ _ ER). cbn [lbind]. split; [discriminate|]. intros g [= <-]. cbn.
    split; auto. eapply read_lists_degree; eauto.
  - destruct (count_points _ _ _ _); cbn [lbind]; split; try discriminate; congruence.
  - destruct (count_points _ _ _ _); cbn [lbind]; split; try discriminate; congruence.
  - congruence.
Qed.

Lemma degree_bound lists l : In l lists -> (N.of_nat (length l) <= degree_of lists)%N.
Proof.
  induction lists as [|x ls IH]; cbn [In degree_of fold_right]; [tauto|]. intros [->|H].
  - lia.
  - specialize (IH H). unfold degree_of in IH. lia.
Qed.
Lemma degree_of_u32 lists : Forall (fun l => u32_ok (N.of_nat (length l)) /\ Forall u32_ok l) lists -> u32_ok (degree_of lists).
Proof.
  unfold u32_ok. induction 1 as [|l ls [HL _] HF IH]; cbn [degree_of fold_right]; [reflexivity|].
  unfold u32_ok in *. fold (degree_of ls). lia.
Qed.

(** ** The vector files *)

Definition some_vecs (vecs : list bytes) := map (@Some bytes) vecs.
Lemma save_vecs_ok vs vecs : Forall (fun v => length v = vs) vecs -> forall n,
  save_vecs vs (some_vecs vecs) n = (writes vecs, Some (n + N.of_nat (length vecs))%N).
Proof.
  induction 1 as [|v vecs HV HF IH]; intros n; cbn [some_vecs map save_vecs].
  - cbn [length]. repeat f_equal. lia.
  - rewrite HV, Nat.eqb_refl. fold (some_vecs vecs). rewrite IH. cbn [writes map length].
    f_equal. f_equal. lia.
Qed.

Lemma records_app n w vecs : Forall (fun v => length v = w) vecs -> n <= length vecs -> forall rest,
  records n w (concat vecs ++ rest) = firstn n vecs.
Proof.
  intros HF. revert n. induction HF as [|v vecs HV HF IH]; intros n Hn rest; cbn [length] in Hn.
  - replace n with 0 by lia. reflexivity.
  - destruct n; [reflexivity|]. cbn [records concat firstn]. rewrite <- app_assoc, app_length.
    destruct (Nat.leb_spec w (length v + length (concat vecs ++ rest))); [|lia].
    rewrite firstn_app_exact, skipn_app_exact by auto. rewrite IH by lia. reflexivity.
Qed.
Lemma records_prefix n w vecs b : Forall (fun v => length v = w) vecs ->
  (exists t, b ++ t = concat vecs) -> n <= length vecs -> exists m, m <= n /\ records n w b = firstn m vecs /\
   (forall j, j <= n -> j * w <= length b -> j <= m).
Proof.
  intros HF. revert n b. induction HF as [|v vecs HV HF IH]; intros n b [t HT] Hn; cbn [length] in Hn.
  - exists 0. replace n with 0 by lia. split; [auto|]. split; [auto|]. intros; lia.
  - destruct n; [exists 0; split; [auto|split; [auto|intros; lia]]|]. cbn [records concat] in *.
    destruct (Nat.leb_spec w (length b)).
    + assert (HB : b = v ++ skipn w b).
      { rewrite <- (firstn_skipn w b) at 1. f_equal.
        rewrite <- (firstn_app_exact w v (concat vecs)), <- HT by auto.
        rewrite firstn_app. replace (w - length b) with 0 by lia. rewrite firstn_O, app_nil_r. auto. }
      destruct (IH n (skipn w b)) as (m & Hm & E & HJ).
      { exists t. rewrite HB in HT. rewrite <- app_assoc in HT. apply app_inv_head in HT. auto. }
      { lia. }
      exists (S m). split; [lia|]. split.
      * cbn [firstn]. rewrite E. f_equal. rewrite HB. apply firstn_app_exact. auto.
      * intros [|j] Hj HW; [lia|]. rewrite skipn_length in HJ. specialize (HJ j). nia.
    + exists 0. split; [lia|]. split; auto. intros [|j] Hj HW; [lia|]. nia.
Qed.

(** ** The iterator *)

Definition vi_items (it : viter) : list (bytes * bytes) :=
  let k := vi_n it - vi_cur it in
  match vi_assoc it with
  | None => map (fun v => (v, [])) (records k (vi_vs it) (vi_rest it))
  | Some (ar, al) => combine (records k (vi_vs it) (vi_rest it)) (records k al ar)
  end.
Lemma records_nil_pos n w : 0 < w -> records n w [] = [].
Proof. intros. destruct n; cbn [records length]; auto. destruct (Nat.leb_spec w 0); auto; lia. Qed.
Lemma vi_next_items it : forall x it', vi_next it = (x, it') ->
  x = nth_error (vi_items it) 0 /\ vi_items it' = skipn 1 (vi_items it).
Proof.
  intros x it'. unfold vi_next. cbv zeta. destruct (Nat.ltb_spec (vi_n it) (S (vi_cur it))) as [H|H].
  - intros [= <- <-]. unfold vi_items. cbn [vi_n vi_cur vi_assoc vi_vs vi_rest].
    replace (vi_n it - vi_cur it) with 0 by lia. replace (vi_n it - S (vi_cur it)) with 0 by lia.
    cbn [records]. destruct (vi_assoc it) as [[ar al]|]; auto.
  - unfold vi_items. remember (vi_n it - S (vi_cur it)) as k eqn:EK.
    replace (vi_n it - vi_cur it) with (S k) by lia. cbn [records].
    unfold read_vec, take. destruct (Nat.leb_spec (vi_vs it) (length (vi_rest it))) as [HV|HV].
    + destruct (vi_assoc it) as [[ar al]|].
      * destruct (Nat.leb_spec al (length ar)) as [HA|HA].
        -- intros [= <- <-]. cbn [vi_n vi_cur vi_assoc vi_vs vi_rest]. rewrite <- EK.
           cbn. auto.
        -- intros [= <- <-]. cbn [vi_n vi_cur vi_assoc vi_vs vi_rest]. rewrite <- EK.
           cbn [combine]. split; auto. rewrite (records_nil_pos k al) by lia. cbn [skipn].
           destruct (records k (vi_vs it) _); auto.
      * intros [= <- <-]. cbn [vi_n vi_cur vi_assoc vi_vs vi_rest]. rewrite <- EK. cbn. auto.
    + intros [= <- <-]. cbn [vi_n vi_cur vi_assoc vi_vs vi_rest]. rewrite <- EK.
      rewrite (records_nil_pos k) by lia. destruct (vi_assoc it) as [[ar al]|]; auto.
Qed.
Lemma skipn_map' {A B} (f : A -> B) n l : skipn n (map f l) = map f (skipn n l).
Proof. revert n; induction l; intros [|n]; cbn; auto. Qed.
Lemma skipn_combine {A B} n (a : list A) (b : list B) : skipn n (combine a b) = combine (skipn n a) (skipn n b).
Proof. revert a b. induction n; intros [|x a] [|y b]; cbn; auto. rewrite combine_nil. reflexivity. Qed.
Lemma records_skip n : forall m w b, n <= m -> records (m - n) w (skipn (n * w) b) = skipn n (records m w b).
Proof.
  induction n as [|n IH]; intros m w b H.
  - rewrite Nat.sub_0_r. reflexivity.
  - destruct m as [|m]; [lia|]. cbn [Nat.sub records]. destruct (Nat.leb_spec w (length b)).
    + cbn [skipn]. rewrite <- IH by lia. rewrite skipn_skipn'. do 2 f_equal; lia.
    + cbn [skipn]. rewrite skipn_all2 by nia. destruct (m - n); cbn [records length]; auto.
      destruct (Nat.leb_spec w 0); auto; lia.
Qed.
Lemma vi_skip_items n it : forall ok it', vi_skip n it = (ok, it') ->
  (ok = false -> length (vi_items it) < n) /\ vi_items it' = skipn n (vi_items it).
Proof.
  intros ok it'. unfold vi_skip.
  assert (HL : length (vi_items it) <= vi_n it - vi_cur it).
  { assert (HR : forall k w b, length (records k w b) <= k).
    { induction k; intros; cbn [records]; auto. destruct (w <=? length b); cbn [length]; auto with arith. }
    unfold vi_items. destruct (vi_assoc it) as [[ar al]|].
    - rewrite combine_length. pose proof (HR (vi_n it - vi_cur it) (vi_vs it) (vi_rest it)). lia.
    - rewrite map_length. apply HR. }
  destruct (Nat.ltb_spec (vi_n it - vi_cur it) n).
  - intros [= <- <-]. split; [intros; lia|]. rewrite skipn_all2 by lia.
    unfold vi_items. cbn [vi_n vi_cur vi_assoc vi_vs vi_rest]. rewrite Nat.sub_diag. cbn [records].
    destruct (vi_assoc it) as [[ar al]|]; auto.
  - destruct (Nat.eqb_spec n 0) as [->|HN]; intros [= <- <-]; split; try discriminate; auto.
    unfold vi_items. cbn [vi_n vi_cur vi_assoc vi_vs vi_rest].
    replace (vi_n it - (vi_cur it + n)) with (vi_n it - vi_cur it - n) by lia.
    rewrite records_skip by lia. destruct (vi_assoc it) as [[ar al]|].
    + rewrite records_skip by lia. rewrite skipn_combine. reflexivity.
    + rewrite skipn_map'. reflexivity.
Qed.
Lemma vi_next_loop_items n : forall it l it', vi_next_loop n it = (l, it') ->
  l = firstn n (vi_items it) /\ vi_items it' = skipn n (vi_items it).
Proof.
  induction n as [|n IH]; intros it l it'; cbn [vi_next_loop].
  - intros [= <- <-]. auto.
  - destruct (vi_next it) as [x it1] eqn:E. apply vi_next_items in E. destruct E as [EX E1].
    destruct x as [x|].
    + destruct (vi_next_loop n it1) as [l1 it2] eqn:E2. intros [= <- <-]. apply IH in E2. destruct E2 as [-> E2].
      rewrite E1 in *. destruct (vi_items it) as [|y ys]; [discriminate|]. injection EX as ->. cbn in *. auto.
    + intros [= <- <-]. rewrite E1. destruct (vi_items it); [|discriminate]. auto.
Qed.
