(** Main lemmas about the file formats (C42, C43, C49, C50). *)
From Coq Require Import List NArith Bool Lia ZifyNat ZifyN ZifyBool.
From Verif.Lib Require Import Base Lists Bytes.
From Verif.Disk Require Import Model Spec Proofs ProofsLayout.
From Verif.GraphFile Require Import Model Spec Proofs.
Import ListNotations.
Local Arguments le_enc : simpl never.
Local Arguments N.mul : simpl never.
Local Arguments N.add : simpl never.
Local Arguments Nat.mul : simpl never.

Lemma u32_lt x : u32_ok x -> (x < 2 ^ 32)%N.
Proof. exact (fun H => H). Qed.
Lemma put0_over a b c : length a = length b -> put 0 a (b ++ c) = a ++ c.
Proof. intros H. unfold put. cbn [firstn app Nat.add]. f_equal. rewrite H. apply skipn_app_exact. reflexivity. Qed.

Lemma graph_bytes start extra lists :
  concat (head_writes start extra ++ concat (map list_writes lists)) =
  (le_enc 8 24 ++ le_enc 4 0) ++ le_enc 4 start ++ le_enc 8 extra ++ lists_bytes lists.
Proof.
  rewrite concat_app, concat_concat_map. unfold head_writes. cbn [concat]. rewrite app_nil_r, <- !app_assoc.
  reflexivity.
Qed.
Lemma graph_bytes_length start extra lists :
  length (concat (head_writes start extra ++ concat (map list_writes lists))) = 24 + length (lists_bytes lists).
Proof. rewrite graph_bytes, !app_length, !le_enc_length. lia. Qed.

Lemma degree_fits cfg lists : (forall l, In l lists -> (N.of_nat (length l) <= saved_degree cfg lists)%N) ->
  forall m, forallb (fun l => (N.of_nat (length l) <=? saved_degree cfg lists)%N) (firstn m lists) = true.
Proof.
  intros H m. apply forallb_forall. intros l HI. specialize (H l).
  assert (In l lists) by (rewrite <- (firstn_skipn m lists); apply in_or_app; auto). specialize (H H0). lia.
Qed.
Lemma lists_bytes_app a b : lists_bytes (a ++ b) = lists_bytes a ++ lists_bytes b.
Proof. unfold lists_bytes. rewrite map_app, concat_app. reflexivity. Qed.
Lemma list_bytes_pos l : 4 <= length (list_bytes l).
Proof. rewrite list_bytes_length. lia. Qed.

Lemma c42_round start extra cfg lists : graph_ok start extra cfg lists ->
  (forall l, In l lists -> (N.of_nat (length l) <= saved_degree cfg lists)%N) ->
  exists w size, save_graph start extra cfg (map Some lists) = (w, Some size) /\
    size = N.of_nat (length (file_of w)) /\
    file_of w = graph_file size (saved_degree cfg lists) start extra lists /\
    load_graph (file_of w) = LOk (mklg (length lists) (saved_degree cfg lists) extra lists).
Proof.
  intros OK HD. pose proof OK as [A B C D E]. fold (some_lists lists). rewrite save_graph_ok by auto.
  eexists; eexists; split; [reflexivity|].
  rewrite file_of_update, graph_bytes. cbn [concat]. rewrite app_nil_r.
  rewrite put0_over by (rewrite !app_length, !le_enc_length; reflexivity).
  split. { unfold isize. rewrite !app_length, !le_enc_length, lists_bytes_length. f_equal. }
  split. { unfold graph_file. rewrite <- !app_assoc. reflexivity. }
  rewrite <- app_assoc.
  assert (HDU : u32_ok (saved_degree cfg lists)) by (destruct cfg; auto; apply degree_of_u32; auto).
  rewrite load_gfile by (auto using le_enc_length).
  rewrite !le_dec_enc by auto. cbv zeta.
  destruct (count_lists lists C (S (24 + length (lists_bytes lists))) (isize lists) 24%N) as (m & Hm & EC & HB & ER).
  { unfold isize. rewrite lists_bytes_length. lia. }
  { lia. }
  assert (m = length lists).
  { destruct (Nat.eq_dec m (length lists)); auto. exfalso.
    assert (HN : length (lists_bytes (firstn m lists)) < length (lists_bytes lists)).
    { rewrite <- (firstn_skipn m lists) at 2. rewrite lists_bytes_app, app_length.
      destruct (skipn m lists) as [|l r] eqn:ES.
      { apply (f_equal (@length _)) in ES. rewrite skipn_length in ES. cbn in ES. lia. }
      change (lists_bytes (l :: r)) with (list_bytes l ++ lists_bytes r). rewrite app_length.
      pose proof (list_bytes_pos l). lia. }
    unfold isize in HB. rewrite (lists_bytes_length lists) in HN. lia. }
  subst m. rewrite EC, ER, degree_fits by auto. rewrite firstn_all. reflexivity.
Qed.

Lemma save_lists_writes lists : forall o s, exists bs, fst (save_lists lists o s) = writes bs.
Proof.
  induction lists as [|[l|] ls IH]; intros o s; cbn [save_lists].
  - exists []. reflexivity.
  - destruct (IH (N.max o (N.of_nat (length l) mod 2 ^ 32)) (s + 4 * (1 + N.of_nat (length l)))%N) as (bs & E).
    destruct (save_lists _ _ _) as [w r]. cbn [fst] in *. subst.
    exists (le_enc 4 (N.of_nat (length l) mod 2 ^ 32) :: map (le_enc 4) l ++ bs).
    unfold writes. cbn [map]. rewrite map_app, map_map. reflexivity.
  - exists []. reflexivity.
Qed.

Lemma c42_interrupted start extra cfg lists w r k : u64_ok extra ->
  save_graph start extra cfg lists = (w, r) -> r = None \/ k <= length (file_of w) ->
  load_graph (crash_file k w) = if k <? 24 then LErr else LOk (mklg 0 0 extra []).
Proof.
  intros HE HS HK. unfold save_graph in HS.
  destruct (save_lists_writes lists 0%N 24%N) as (bs & EB). destruct (save_lists lists 0%N 24%N) as [lw res]. cbn [fst] in EB. subst lw.
  remember (head_writes start extra ++ bs) as pre eqn:EP.
  assert (HPL : 24 <= length (concat pre)).
  { rewrite EP, concat_app, app_length. unfold head_writes. cbn [concat]. rewrite !app_length, !le_enc_length. lia. }
  assert (HC : crash_file k w = firstn k (concat pre)).
  { destruct res as [[o s]|].
    - injection HS as HS HR. change (writes (head_writes start extra) ++ writes bs ++ Rewind :: writes [le_enc 8 s; le_enc 4 match cfg with Some d => d | None => o end] = w) in HS.
      rewrite app_assoc in HS. unfold writes at 1 2 in HS. rewrite <- map_app, <- EP in HS. fold (writes pre) in HS. subst w.
      rewrite file_of_update in HK. cbn [concat] in HK. rewrite put_length in HK by lia.
      rewrite !app_length, !le_enc_length in HK. cbn [length] in HK.
      rewrite crash_update. destruct HK as [HK|HK]; [subst; discriminate|].
      destruct (Nat.leb_spec k (length (concat pre))); auto. lia.
    - injection HS as HS HR. change (writes (head_writes start extra) ++ writes bs = w) in HS.
      unfold writes in HS. rewrite <- map_app, <- EP in HS. fold (writes pre) in HS. subst w. apply crash_writes. }
  rewrite HC.
  assert (HP : concat pre = (le_enc 8 24 ++ le_enc 4 0 ++ le_enc 4 start ++ le_enc 8 extra) ++ concat bs).
  { rewrite EP, concat_app. unfold head_writes. cbn [concat]. rewrite app_nil_r. reflexivity. }
  rewrite HP. set (h := le_enc 8 24 ++ le_enc 4 0 ++ le_enc 4 start ++ le_enc 8 extra) in *.
  assert (HL : length h = 24) by (unfold h; rewrite !app_length, !le_enc_length; reflexivity).
  destruct (Nat.ltb_spec k 24).
  - apply load_short. rewrite firstn_length. lia.
  - rewrite firstn_app, (firstn_all2 h) by lia. rewrite HL.
    unfold load_graph. cbv zeta. generalize (S (length (h ++ firstn (k - 24) (concat bs)))). intros fuel.
    unfold h. rewrite <- !app_assoc. rewrite take_le_app by reflexivity. cbn [lopt lbind].
    rewrite take_le_app by reflexivity. cbn [lopt lbind].
    unfold take_le at 1. rewrite take_app by apply le_enc_length. cbn [lopt lbind].
    rewrite take_le_app by exact HE. cbn [lopt lbind].
    destruct fuel; cbn [count_points read_lists]; reflexivity.
Qed.

(** Whatever header update the crash leaves behind, the size read is at most the real one. *)
Lemma torn_size size j : (24 <= size)%N -> u64_ok size -> j <= 8 ->
  (24 <= le_dec (firstn j (le_enc 8 size) ++ skipn j (le_enc 8 24)) <= size)%N \/
  (le_dec (firstn j (le_enc 8 size) ++ skipn j (le_enc 8 24)) < 24)%N /\
  (le_dec (firstn j (le_enc 8 size) ++ skipn j (le_enc 8 24)) <= size)%N.
Proof.
  intros H24 HU Hj.
  destruct j as [|j].
  - left. cbn [firstn skipn app]. rewrite le_dec_enc by reflexivity. lia.
  - assert (HZ : skipn (S j) (le_enc 8 24) = repeat 0%N (7 - j)).
    { do 8 (destruct j as [|j]; [reflexivity|]). lia. }
    rewrite HZ, le_dec_app_zeros.
    pose proof (le_dec_firstn_le (S j) (le_enc 8 size)) as HB. rewrite le_dec_enc in HB by exact HU.
    destruct (N.le_gt_cases 24 (le_dec (firstn (S j) (le_enc 8 size)))); [left|right]; lia.
Qed.

Lemma load_torn b8 b4 start extra lists : length b8 = 8 -> length b4 = 4 -> u32_ok start -> u64_ok extra ->
  Forall (fun l => u32_ok (N.of_nat (length l)) /\ Forall u32_ok l) lists ->
  (le_dec b8 <= isize lists)%N ->
  exists m, m <= length lists /\
  load_graph (b8 ++ b4 ++ le_enc 4 start ++ le_enc 8 extra ++ lists_bytes lists) =
  if forallb (fun l => (N.of_nat (length l) <=? le_dec b4)%N) (firstn m lists)
  then LOk (mklg m (le_dec b4) extra (firstn m lists)) else LPanic.
Proof.
  intros H8 H4 HS HE HF HZ. rewrite load_gfile by auto. cbv zeta.
  destruct (N.le_gt_cases 24 (le_dec b8)).
  - destruct (count_lists lists HF (S (24 + length (lists_bytes lists))) (le_dec b8) 24%N) as (m & Hm & EC & HB & ER).
    { unfold isize in HZ. rewrite lists_bytes_length. lia. }
    { lia. }
    exists m. split; auto. rewrite EC, ER. destruct (forallb _ _); reflexivity.
  - exists 0. split; [lia|]. cbn [count_points read_lists]. destruct (N.ltb_spec 24 (le_dec b8)); [lia|]. reflexivity.
Qed.

Lemma c42_crash start extra cfg lists w r k : graph_ok start extra cfg lists ->
  save_graph start extra cfg (map Some lists) = (w, r) ->
  match load_graph (crash_file k w) with
  | LOk g => exists m, m <= length lists /\ lg_lists g = firstn m lists /\ lg_points g = m /\ lg_extra g = extra
  | LErr => k < 24
  | LPanic => length (file_of w) < k < length (file_of w) + 12 \/
              (exists l, In l lists /\ (saved_degree cfg lists < N.of_nat (length l))%N)
  | LDiverge => False
  end.
Proof.
  intros OK HS. pose proof OK as [A B C D E].
  destruct (Nat.leb_spec k (length (file_of w))) as [HK|HK].
  - rewrite (c42_interrupted _ _ _ _ _ _ k B HS) by auto. destruct (Nat.ltb_spec k 24); auto.
    exists 0. cbn. repeat split; auto. lia.
  - fold (some_lists lists) in HS. rewrite save_graph_ok in HS by auto. apply (f_equal fst) in HS. unfold fst in HS. rename HS into HW.
    assert (HL : length (file_of w) = 24 + length (lists_bytes lists)).
    { subst w. rewrite file_of_update, put_length by lia. rewrite graph_bytes_length. cbn [concat]. rewrite !app_length, !le_enc_length. cbn [length]. lia. }
    rewrite HL in *. rewrite <- HW, crash_update, graph_bytes_length.
    destruct (Nat.leb_spec k (24 + length (lists_bytes lists))); [lia|].
    rewrite graph_bytes. cbn [concat]. rewrite app_nil_r.
    set (j := k - (24 + length (lists_bytes lists))).
    set (u := le_enc 8 (isize lists) ++ le_enc 4 (saved_degree cfg lists)).
    set (h := le_enc 8 24 ++ le_enc 4 0).
    assert (HU : length u = 12) by (unfold u; rewrite app_length, !le_enc_length; reflexivity).
    assert (HH : length h = 12) by (unfold h; rewrite app_length, !le_enc_length; reflexivity).
    assert (HP : forall t, put 0 (firstn j u) (h ++ t) = (firstn j u ++ skipn j h) ++ t).
    { intros t. unfold put. cbn [firstn app Nat.add]. rewrite <- app_assoc. f_equal.
      rewrite firstn_length, HU. rewrite skipn_app.
      destruct (Nat.le_gt_cases j 12).
      - rewrite Nat.min_l by lia. replace (j - length h) with 0 by lia. reflexivity.
      - rewrite Nat.min_r by lia. rewrite (@skipn_all2 _ 12 h), (@skipn_all2 _ j h) by lia. replace (12 - length h) with 0 by lia. reflexivity. }
    rewrite HP.
    set (b8 := firstn j (le_enc 8 (isize lists)) ++ skipn j (le_enc 8 24)).
    set (b4 := firstn (j - 8) (le_enc 4 (saved_degree cfg lists)) ++ skipn (j - 8) (le_enc 4 0)).
    assert (HB : firstn j u ++ skipn j h = b8 ++ b4).
    { unfold u, h, b8, b4. rewrite firstn_app, skipn_app, !le_enc_length.
      destruct (Nat.le_gt_cases j 8).
      - replace (j - 8) with 0 by lia. cbn [firstn skipn app]. rewrite app_nil_r, <- app_assoc. reflexivity.
      - rewrite (skipn_all2 (le_enc 8 24)) by (rewrite le_enc_length; lia). cbn [app]. rewrite app_nil_r, <- app_assoc. reflexivity. }
    rewrite HB, <- app_assoc.
    assert (H8 : length b8 = 8) by (unfold b8; rewrite app_length, firstn_length, skipn_length, !le_enc_length; lia).
    assert (H4 : length b4 = 4) by (unfold b4; rewrite app_length, firstn_length, skipn_length, !le_enc_length; lia).
    assert (HI : (24 <= isize lists)%N) by (unfold isize; lia).
    assert (HZ : (le_dec b8 <= isize lists)%N).
    { unfold b8. destruct (Nat.le_gt_cases j 8).
      - destruct (torn_size (isize lists) j) as [HT|HT]; auto; lia.
      - rewrite firstn_all2, skipn_all2 by (rewrite le_enc_length; lia). rewrite app_nil_r, le_dec_enc by exact D. lia. }
    destruct (load_torn b8 b4 start extra lists H8 H4 A B C HZ) as (m & Hm & ->).
    destruct (forallb _ (firstn m lists)) eqn:EF.
    + exists m. cbn. auto.
    + destruct (Nat.le_gt_cases 12 j); [right|left; unfold j in *; lia].
      assert (HX : le_dec b4 = saved_degree cfg lists).
      { unfold b4. rewrite firstn_all2, skipn_all2 by (rewrite le_enc_length; lia). rewrite app_nil_r. apply le_dec_enc.
        destruct cfg; auto. apply degree_of_u32; auto. }
      rewrite HX in EF.
      assert (HE2 : exists l, In l (firstn m lists) /\ (saved_degree cfg lists < N.of_nat (length l))%N).
      { clear - EF. induction (firstn m lists) as [|l ls IH]; cbn [forallb] in EF; [discriminate|].
        destruct (N.leb_spec (N.of_nat (length l)) (saved_degree cfg lists)).
        - destruct IH as (x & H1 & H2); auto. exists x. cbn; auto.
        - exists l. cbn; auto. }
      destruct HE2 as (l & H1 & H2). exists l. split; auto. rewrite <- (firstn_skipn m lists). apply in_or_app; auto.
Qed.

(** ** Vectors *)

Lemma read_metadata_app n d r : u32_ok n -> u32_ok d -> read_metadata (le_enc 4 n ++ le_enc 4 d ++ r) = Some (n, d, r).
Proof. intros H1 H2. unfold read_metadata. rewrite take_le_app by auto. cbn [bind]. rewrite take_le_app by auto. reflexivity. Qed.
Lemma read_metadata_Some f n d r : read_metadata f = Some (n, d, r) ->
  8 <= length f /\ n = le_dec (firstn 4 f) /\ d = le_dec (firstn 4 (skipn 4 f)) /\ r = skipn 8 f.
Proof.
  unfold read_metadata, take_le. destruct (take 4 f) as [[a r1]|] eqn:E1; [|discriminate]. cbn [bind].
  apply take_Some in E1. destruct E1 as [-> E1].
  destruct (take 4 r1) as [[b r2]|] eqn:E2; [|discriminate]. cbn [bind].
  apply take_Some in E2. destruct E2 as [-> E2]. intros [= <- <- <-].
  rewrite !app_length. split; [lia|]. rewrite firstn_app_exact, skipn_app_exact, firstn_app_exact by auto.
  repeat split. rewrite app_assoc, skipn_app_exact; auto. rewrite app_length. lia.
Qed.
Lemma read_metadata_short f : length f < 8 -> read_metadata f = None.
Proof.
  intros H. destruct (read_metadata f) as [[[n d] r]|] eqn:E; auto. apply read_metadata_Some in E. lia.
Qed.
Lemma read_metadata_long f : 8 <= length f ->
  read_metadata f = Some (le_dec (firstn 4 f), le_dec (firstn 4 (skipn 4 f)), skipn 8 f).
Proof.
  intros H. destruct (read_metadata f) as [[[n d] r]|] eqn:E.
  - apply read_metadata_Some in E. destruct E as (_ & -> & -> & ->). reflexivity.
  - exfalso. unfold read_metadata, take_le in E.
    destruct (take 4 f) as [[a r1]|] eqn:E1; [|apply take_None in E1; lia]. cbn [bind] in E.
    apply take_Some in E1. destruct E1 as [-> E1]. rewrite app_length in H.
    destruct (take 4 r1) as [[b r2]|] eqn:E2; [|apply take_None in E2; lia]. discriminate.
Qed.

Lemma load_from_bin_meta tsz f n d r : read_metadata f = Some (n, d, r) ->
  load_from_bin tsz f = LOk (mklv n d (records (N.to_nat n) (N.to_nat d * tsz) r)).
Proof.
  intros E. unfold load_from_bin, vi_new. rewrite E. cbn [lopt lbind bind].
  destruct (vi_next_loop (S (N.to_nat n)) (mkvi r (N.to_nat d * tsz) None (N.to_nat n) 0)) as [l it] eqn:EL.
  apply vi_next_loop_items in EL. destruct EL as [-> _].
  unfold vi_items. cbn [vi_n vi_cur vi_assoc vi_vs vi_rest]. rewrite Nat.sub_0_r.
  rewrite firstn_all2.
  - rewrite map_map. cbn [fst]. rewrite map_id. reflexivity.
  - rewrite map_length. apply le_S.
    clear. generalize (N.to_nat n). intros k. revert r. induction k; intros r; cbn [records]; auto.
    destruct (_ <=? length r); cbn [length]; auto with arith.
Qed.

Lemma c43_load_exact tsz f : load_from_bin tsz f =
  if length f <? 8 then LErr
  else let n := le_dec (firstn 4 f) in let d := le_dec (firstn 4 (skipn 4 f)) in
       LOk (mklv n d (records (N.to_nat n) (N.to_nat d * tsz) (skipn 8 f))).
Proof.
  destruct (Nat.ltb_spec (length f) 8).
  - unfold load_from_bin. rewrite read_metadata_short by auto. reflexivity.
  - apply load_from_bin_meta. apply read_metadata_long. auto.
Qed.

Lemma save_bin_ok tsz dim vecs : u32_ok dim -> Forall (fun v => length v = N.to_nat dim * tsz) vecs ->
  save_to_bin tsz dim (map Some vecs) =
  (writes ((le_enc 4 0 ++ le_enc 4 dim) :: vecs) ++ Rewind :: writes [le_enc 4 (N.of_nat (length vecs))],
   Some (8 + N.of_nat (length vecs) * dim * N.of_nat tsz)%N).
Proof.
  intros HD HF. unfold save_to_bin. destruct (N.ltb_spec dim (2 ^ 32)) as [_|HX]; [|apply u32_lt in HD; lia].
  fold (some_vecs vecs). rewrite save_vecs_ok by auto. reflexivity.
Qed.

Lemma c43_round tsz dim vecs : u32_ok dim -> u32_ok (N.of_nat (length vecs)) ->
  Forall (fun v => length v = N.to_nat dim * tsz) vecs ->
  exists w size, save_to_bin tsz dim (map Some vecs) = (w, Some size) /\
    size = N.of_nat (length (file_of w)) /\ file_of w = bin_file dim vecs /\
    load_from_bin tsz (file_of w) = LOk (mklv (N.of_nat (length vecs)) dim vecs).
Proof.
  intros HD HN HF. rewrite save_bin_ok by auto. eexists; eexists; split; [reflexivity|].
  rewrite file_of_update. cbn [concat]. rewrite app_nil_r, <- app_assoc, put0_over by (rewrite !le_enc_length; auto).
  split.
  { rewrite !app_length, !le_enc_length, (concat_uniform_length (N.to_nat dim * tsz)) by auto.
    rewrite !Nat2N.inj_add, !Nat2N.inj_mul, N2Nat.id. lia. }
  split; [reflexivity|].
  rewrite (load_from_bin_meta tsz _ (N.of_nat (length vecs)) dim (concat vecs)) by (apply read_metadata_app; auto).
  rewrite Nat2N.id. rewrite <- (app_nil_r (concat vecs)), records_app, firstn_all by auto. reflexivity.
Qed.

Lemma save_vecs_writes vs vecs : forall n, exists bs, fst (save_vecs vs vecs n) = writes bs.
Proof.
  induction vecs as [|[v|] vecs IH]; intros n; cbn [save_vecs].
  - exists []. reflexivity.
  - destruct (length v =? vs); [|exists []; reflexivity].
    destruct (IH (n + 1)%N) as (bs & E). destruct (save_vecs vs vecs (n + 1)) as [w r]. cbn [fst] in *. subst.
    exists (v :: bs). reflexivity.
  - exists []. reflexivity.
Qed.
Lemma c43_interrupted tsz dim vecs w r k : u32_ok dim -> save_to_bin tsz dim vecs = (w, r) ->
  r = None \/ k <= length (file_of w) ->
  load_from_bin tsz (crash_file k w) = if k <? 8 then LErr else LOk (mklv 0 dim []).
Proof.
  intros HD HS HK. unfold save_to_bin in HS. destruct (N.ltb_spec dim (2 ^ 32)) as [_|HX]; [|apply u32_lt in HD; lia].
  destruct (save_vecs_writes (N.to_nat dim * tsz) vecs 0%N) as (bs & EB).
  destruct (save_vecs _ vecs 0%N) as [lw res]. cbn [fst] in EB. subst lw.
  set (pre := (le_enc 4 0 ++ le_enc 4 dim) :: bs).
  assert (HPL : length (concat pre) = 8 + length (concat bs)).
  { unfold pre. cbn [concat]. rewrite !app_length, !le_enc_length. lia. }
  assert (HC : crash_file k w = firstn k (concat pre)).
  { destruct res as [n|]; injection HS as HS HR.
    - change (writes pre ++ Rewind :: writes [le_enc 4 n] = w) in HS. subst w.
      rewrite file_of_update in HK. cbn [concat] in HK. rewrite put_length in HK by lia.
      rewrite app_length, le_enc_length in HK. cbn [length] in HK.
      rewrite crash_update. destruct HK as [HK|HK]; [subst; discriminate|].
      destruct (Nat.leb_spec k (length (concat pre))); auto. lia.
    - change (writes pre = w) in HS. subst w. apply crash_writes. }
  rewrite HC. destruct (Nat.ltb_spec k 8).
  - rewrite c43_load_exact. rewrite firstn_length. destruct (Nat.ltb_spec (Nat.min k (length (concat pre))) 8); auto; lia.
  - unfold pre. cbn [concat]. rewrite firstn_app, firstn_all2 by (rewrite app_length, !le_enc_length; lia).
    rewrite <- app_assoc. erewrite load_from_bin_meta by (apply read_metadata_app; auto; reflexivity). reflexivity.
Qed.

Lemma c43_crash tsz dim vecs w r k : u32_ok dim -> u32_ok (N.of_nat (length vecs)) ->
  Forall (fun v => length v = N.to_nat dim * tsz) vecs ->
  save_to_bin tsz dim (map Some vecs) = (w, r) ->
  match load_from_bin tsz (crash_file k w) with
  | LOk g => exists m, m <= length vecs /\ lv_points g = N.of_nat m /\ lv_dim g = dim /\ lv_vecs g = firstn m vecs
  | LErr => k < 8
  | _ => False
  end.
Proof.
  intros HD HN HF HS. destruct (Nat.leb_spec k (length (file_of w))) as [HK|HK].
  - rewrite (c43_interrupted _ _ _ _ _ k HD HS) by auto. destruct (Nat.ltb_spec k 8); auto.
    exists 0. cbn. repeat split; auto. lia.
  - rewrite save_bin_ok in HS by auto. apply (f_equal fst) in HS. unfold fst in HS. rename HS into HW.
    set (pre := (le_enc 4 0 ++ le_enc 4 dim) :: vecs) in *.
    assert (HPL : length (concat pre) = 8 + length (concat vecs)).
    { unfold pre. cbn [concat]. rewrite !app_length, !le_enc_length. lia. }
    assert (HL : length (file_of w) = length (concat pre)).
    { subst w. rewrite file_of_update, put_length by lia. cbn [concat]. rewrite app_nil_r, le_enc_length. lia. }
    rewrite <- HW, crash_update. destruct (Nat.leb_spec k (length (concat pre))); [lia|].
    cbn [concat]. rewrite app_nil_r. set (j := k - length (concat pre)).
    unfold pre at 1. cbn [concat]. rewrite <- app_assoc.
    assert (HP : put 0 (firstn j (le_enc 4 (N.of_nat (length vecs)))) (le_enc 4 0 ++ le_enc 4 dim ++ concat vecs)
       = (firstn j (le_enc 4 (N.of_nat (length vecs))) ++ repeat 0%N (4 - j)) ++ le_enc 4 dim ++ concat vecs).
    { unfold put. cbn [firstn app Nat.add]. rewrite <- app_assoc. f_equal. rewrite firstn_length, le_enc_length.
      rewrite skipn_app, le_enc_length. replace (Nat.min j 4 - 4) with 0 by lia. cbn [skipn]. f_equal.
      destruct (Nat.le_gt_cases j 4).
      - rewrite Nat.min_l by lia. do 5 (destruct j as [|j]; [reflexivity|]). lia.
      - rewrite Nat.min_r by lia. replace (4 - j) with 0 by lia. reflexivity. }
    rewrite HP. set (b := firstn j _ ++ repeat 0%N (4 - j)).
    assert (HB : length b = 4) by (unfold b; rewrite app_length, firstn_length, repeat_length, le_enc_length; lia).
    assert (HM : read_metadata (b ++ le_enc 4 dim ++ concat vecs) = Some (le_dec b, dim, concat vecs)).
    { unfold read_metadata. unfold take_le at 1. rewrite take_app by auto. cbn [bind]. rewrite take_le_app by exact HD. reflexivity. }
    rewrite (load_from_bin_meta _ _ _ _ _ HM).
    assert (HV : (le_dec b <= N.of_nat (length vecs))%N).
    { unfold b. rewrite le_dec_app_zeros. pose proof (le_dec_firstn_le j (le_enc 4 (N.of_nat (length vecs)))) as HX.
      rewrite le_dec_enc in HX by exact HN. lia. }
    exists (N.to_nat (le_dec b)). cbn. split; [lia|]. split; [lia|]. split; auto.
    rewrite <- (app_nil_r (concat vecs)). apply records_app; auto. lia.
Qed.

Lemma c43_accept tsz dim vecs : u32_ok dim ->
  (snd (save_to_bin tsz dim vecs) <> None <-> Forall (fun v => exists b, v = Some b /\ length b = N.to_nat dim * tsz) vecs).
Proof.
  intros HD. unfold save_to_bin. destruct (N.ltb_spec dim (2 ^ 32)) as [_|HX]; [|apply u32_lt in HD; lia].
  assert (HG : forall vs n, snd (save_vecs (N.to_nat dim * tsz) vs n) <> None <->
     Forall (fun v => exists b, v = Some b /\ length b = N.to_nat dim * tsz) vs).
  { induction vs as [|[v|] vs IH]; intros n; cbn [save_vecs].
    - cbn. split; [constructor|discriminate].
    - destruct (Nat.eqb_spec (length v) (N.to_nat dim * tsz)) as [HE|HE].
      + specialize (IH (n + 1)%N). destruct (save_vecs _ vs (n + 1)) as [w r]. cbn [snd] in *. rewrite IH.
        split; intros H; [constructor; eauto|inversion H; auto].
      + cbn. split; [congruence|]. intros H. inversion H as [|x y HX]; subst. destruct HX as (b & HX & E). injection HX as ->. contradiction.
    - cbn. split; [congruence|]. intros H. inversion H as [|x y HX]; subst. destruct HX as (b & HX & _). discriminate. }
  specialize (HG vecs 0%N). destruct (save_vecs _ vecs 0%N) as [w [n|]]; cbn [snd] in *; rewrite <- HG; split; congruence.
Qed.

(** ** Matrices *)
Lemma rows_concat mat w : Forall (fun r => length r = w) mat -> forall rest, rows (length mat) w (concat mat ++ rest) = mat.
Proof.
  induction 1 as [|r mat HR HF IH]; intros rest; cbn [length rows concat]; auto.
  rewrite <- app_assoc, firstn_app_exact, skipn_app_exact by auto. rewrite IH. reflexivity.
Qed.
Lemma rows_spec n w b : n * w <= length b -> length (rows n w b) = n /\ Forall (fun r => length r = w) (rows n w b)
  /\ concat (rows n w b) = firstn (n * w) b.
Proof.
  revert b. induction n as [|n IH]; intros b H; cbn [rows].
  - repeat split. constructor.
  - destruct (IH (skipn w b)) as (H1 & H2 & H3); [rewrite skipn_length; lia|].
    cbn [length]. split; [lia|]. split.
    + constructor; auto. rewrite firstn_length. lia.
    + cbn [concat]. rewrite H3. replace (S n * w) with (w + n * w) by lia.
      rewrite <- (firstn_skipn w (firstn (w + n * w) b)), firstn_firstn, skipn_firstn_comm.
      do 2 f_equal; lia.
Qed.
Lemma c49_round M tsz ncols mat rest : Forall (fun r => length r = N.to_nat ncols * tsz) mat ->
  (N.of_nat (length mat) < 2 ^ 32)%N -> (ncols < 2 ^ 32)%N ->
  (N.of_nat (length mat) * ncols <= M)%N -> (N.of_nat (length mat) * ncols * N.of_nat tsz <= M)%N ->
  exists f, write_bin tsz ncols mat = Some (f, N.of_nat (length f)) /\
    read_bin M tsz (f ++ rest) = Some (N.of_nat (length mat), ncols, mat) /\
    forall k, k < length f -> read_bin M tsz (firstn k f) = None.
Proof.
  intros HF H1 H2 H3 H4. unfold write_bin. cbv zeta.
  destruct (N.ltb_spec (N.of_nat (length mat)) (2 ^ 32)); [|lia]. destruct (N.ltb_spec ncols (2 ^ 32)); [|lia].
  cbn [guard bind].
  assert (HCL : length (concat mat) = length mat * (N.to_nat ncols * tsz)) by (apply concat_uniform_length; auto).
  eexists; split; [|split].
  - do 2 f_equal. rewrite !app_length, !le_enc_length. lia.
  - unfold read_bin. rewrite <- !app_assoc, read_metadata_app by auto. cbn [bind].
    destruct (N.leb_spec (N.of_nat (length mat) * ncols) M); [|lia]. cbn [guard bind].
    destruct (N.leb_spec (N.of_nat (length mat) * ncols * N.of_nat tsz) M); [|lia]. cbn [guard bind].
    rewrite app_length, HCL.
    destruct (N.ltb_spec (N.of_nat (length mat * (N.to_nat ncols * tsz) + length rest)) (N.of_nat (length mat) * ncols * N.of_nat tsz)); [lia|].
    cbn [negb guard bind]. rewrite Nat2N.id, rows_concat by auto. reflexivity.
  - intros k HK. rewrite !app_length, !le_enc_length in HK. unfold read_bin.
    destruct (Nat.ltb_spec k 8).
    { rewrite read_metadata_short; auto. rewrite firstn_length. lia. }
    rewrite app_assoc, firstn_app, firstn_all2 by (rewrite app_length, !le_enc_length; lia).
    rewrite <- app_assoc, read_metadata_app by auto. cbn [bind].
    destruct (N.leb_spec (N.of_nat (length mat) * ncols) M); [|lia]. cbn [guard bind].
    destruct (N.leb_spec (N.of_nat (length mat) * ncols * N.of_nat tsz) M); [|lia]. cbn [guard bind].
    rewrite firstn_length, app_length, !le_enc_length.
    destruct (N.ltb_spec (N.of_nat (Nat.min (k - (4 + 4)) (length (concat mat)))) (N.of_nat (length mat) * ncols * N.of_nat tsz)); auto. lia.
Qed.
Lemma c49_exact M tsz f n d mat : read_bin M tsz f = Some (n, d, mat) <->
  8 <= length f /\ n = le_dec (firstn 4 f) /\ d = le_dec (firstn 4 (skipn 4 f)) /\
  (n * d <= M)%N /\ (n * d * N.of_nat tsz <= M)%N /\ (8 + n * d * N.of_nat tsz <= N.of_nat (length f))%N /\
  N.of_nat (length mat) = n /\ Forall (fun r => length r = N.to_nat d * tsz) mat /\
  concat mat = firstn (N.to_nat (n * d * N.of_nat tsz)) (skipn 8 f).
Proof.
  unfold read_bin. split.
  - destruct (read_metadata f) as [[[n' d'] r]|] eqn:E; [|discriminate]. cbn [bind].
    apply read_metadata_Some in E. destruct E as (HL & E1 & E2 & ->).
    destruct (N.leb_spec (n' * d') M); [|discriminate]. cbn [guard bind].
    destruct (N.leb_spec (n' * d' * N.of_nat tsz) M); [|discriminate]. cbn [guard bind].
    rewrite skipn_length. remember (skipn 8 f) as r eqn:ER. assert (HRL : length r = length f - 8) by (subst r; apply skipn_length).
    destruct (N.ltb_spec (N.of_nat (length f - 8)) (n' * d' * N.of_nat tsz)); [discriminate|]. cbn [negb guard bind].
    assert (HX : N.to_nat n' * (N.to_nat d' * tsz) <= length r) by lia.
    destruct (rows_spec (N.to_nat n') (N.to_nat d' * tsz) r HX) as (R1 & R2 & R3).
    intros HE. injection HE as EA EB EC. rewrite <- EA, <- EB, <- EC.
    split; [lia|]. split; [auto|]. split; [auto|]. split; [auto|]. split; [auto|]. split; [lia|].
    split; [lia|]. split; [auto|]. rewrite R3. f_equal. lia.
  - intros (HL & -> & -> & H1 & H2 & H3 & H4 & H5 & H6). rewrite read_metadata_long by auto. cbn [bind].
    destruct (N.leb_spec (le_dec (firstn 4 f) * le_dec (firstn 4 (skipn 4 f))) M); [|lia]. cbn [guard bind].
    destruct (N.leb_spec (le_dec (firstn 4 f) * le_dec (firstn 4 (skipn 4 f)) * N.of_nat tsz) M); [|lia]. cbn [guard bind].
    rewrite skipn_length. destruct (N.ltb_spec (N.of_nat (length f - 8)) (le_dec (firstn 4 f) * le_dec (firstn 4 (skipn 4 f)) * N.of_nat tsz)); [lia|].
    cbn [negb guard bind]. do 2 f_equal.
    rewrite <- H4, Nat2N.id.
    rewrite <- (firstn_skipn (N.to_nat (le_dec (firstn 4 f) * le_dec (firstn 4 (skipn 4 f)) * N.of_nat tsz)) (skipn 8 f)), <- H6.
    rewrite rows_concat; auto.
Qed.

(** ** Iterator *)
Definition out_of (o : viout) : option (bytes * bytes) + option (list (bytes * bytes)) :=
  match o with OOne x => inl x | OMany x => inr x end.
Lemma vi_op_items o it : list_op o (vi_items it) = (out_of (fst (vi_op o it)), vi_items (snd (vi_op o it))).
Proof.
  destruct o as [|n|n]; cbn [vi_op list_op].
  - destruct (vi_next it) as [x it'] eqn:E. apply vi_next_items in E. destruct E as [-> E]. cbn [fst snd out_of]. rewrite E. reflexivity.
  - unfold vi_nth. destruct (vi_skip n it) as [ok it1] eqn:E. apply vi_skip_items in E. destruct E as [E1 E2].
    destruct ok.
    + destruct (vi_next it1) as [x it2] eqn:E. apply vi_next_items in E. destruct E as [-> E].
      cbn [fst snd out_of]. rewrite E, E2, skipn_skipn'. f_equal; [|f_equal; lia].
      rewrite nth_error_skipn', Nat.add_0_r. reflexivity.
    + specialize (E1 eq_refl). cbn [fst snd out_of]. rewrite E2. f_equal.
      * f_equal. apply nth_error_None. lia.
      * rewrite !skipn_all2; auto; lia.
  - unfold vi_next_n. destruct (vi_next_loop n it) as [l it'] eqn:E. apply vi_next_loop_items in E. destruct E as [-> E].
    cbn [fst snd out_of]. rewrite E. destruct (firstn n (vi_items it)); reflexivity.
Qed.
Lemma vi_run_items ops : forall it, map out_of (vi_run ops it) = list_run ops (vi_items it).
Proof.
  induction ops as [|o ops IH]; intros it; cbn [vi_run list_run map]; auto.
  rewrite vi_op_items. destruct (vi_op o it) as [x it']. cbn [fst snd map]. rewrite IH. reflexivity.
Qed.

(** ** Multi-vector files *)
Definition lens_of (mats : list (list bytes)) : list N := map (fun m => N.of_nat (length m)) mats.
Lemma lens_bytes mats : concat (map (fun m : list bytes => le_enc 4 (N.of_nat (length m))) mats) = concat (map (le_enc 4) (lens_of mats)).
Proof. unfold lens_of. rewrite map_map. reflexivity. Qed.
Lemma sum_lens mats : fold_left N.add (lens_of mats) 0%N = N.of_nat (length (concat mats)).
Proof.
  assert (HG : forall a, fold_left N.add (lens_of mats) a = (a + N.of_nat (length (concat mats)))%N).
  { unfold lens_of. induction mats as [|m ms IH]; intros a; cbn [map fold_left concat]; [cbn; lia|].
    rewrite IH, app_length. lia. }
  rewrite HG. lia.
Qed.
Lemma read_mats_ok mats w rest : Forall (Forall (fun r => length r = w)) mats ->
  read_mats (lens_of mats) w (concat (concat mats) ++ rest) = Some mats.
Proof.
  intros HF. revert rest. induction HF as [|m ms HM HF IH]; intros rest; cbn [lens_of map read_mats concat]; auto.
  rewrite concat_app, <- app_assoc, Nat2N.id, take_app by (apply concat_uniform_length; auto). cbn [bind].
  fold (lens_of ms). rewrite IH. cbn [bind]. rewrite <- (app_nil_r (concat m)), rows_concat by auto. reflexivity.
Qed.
Lemma read_mats_short lens w : forall r, length r < N.to_nat (fold_right N.add 0%N lens) * w -> read_mats lens w r = None.
Proof.
  induction lens as [|l lens IH]; intros r H; cbn [fold_right read_mats] in *; [lia|].
  destruct (take (N.to_nat l * w) r) as [[b r']|] eqn:E; auto. cbn [bind].
  apply take_Some in E. destruct E as [-> E]. rewrite app_length in H. rewrite IH; auto. lia.
Qed.
Lemma sum_lens_r mats : fold_right N.add 0%N (lens_of mats) = N.of_nat (length (concat mats)).
Proof. unfold lens_of. induction mats as [|m ms IH]; cbn [map fold_right concat]; auto. rewrite IH, app_length. lia. Qed.

Lemma c49_multivec tsz dim mats rest : u32_ok (N.of_nat (length mats)) -> u32_ok dim ->
  u32_ok (N.of_nat (length (concat mats))) ->
  Forall (fun m => m <> [] /\ Forall (fun r => length r = N.to_nat dim * tsz) m) mats ->
  load_multivec tsz (multivec_file dim mats ++ rest) =
    Some (N.of_nat (length mats), dim, N.of_nat (length (concat mats)), mats) /\
  forall k, k < length (multivec_file dim mats) -> load_multivec tsz (firstn k (multivec_file dim mats)) = None.
Proof.
  intros HN HD HT HF.
  assert (HU : Forall u32_ok (lens_of mats)).
  { apply Forall_map. apply Forall_forall. intros m HI. apply u32_lt in HT. unfold u32_ok. change (pow256 4) with (2 ^ 32)%N.
    apply in_split in HI. destruct HI as (a & b & ->). rewrite concat_app, app_length in HT. cbn [concat] in HT. rewrite app_length in HT. lia. }
  assert (HZ : existsb (N.eqb 0) (lens_of mats) = false).
  { destruct (existsb (N.eqb 0) (lens_of mats)) eqn:E; auto. apply existsb_exists in E. destruct E as (x & HI & E).
    apply N.eqb_eq in E. subst x. unfold lens_of in HI. apply in_map_iff in HI. destruct HI as (m & E & HI).
    rewrite Forall_forall in HF. specialize (HF m HI). destruct HF as [HF _]. destruct m; cbn in E; [congruence|lia]. }
  assert (HM : Forall (Forall (fun r => length r = N.to_nat dim * tsz)) mats).
  { eapply Forall_impl; [|exact HF]. intros a [_ Ha]; exact Ha. }
  assert (HLL : length (lens_of mats) = length mats) by apply map_length.
  assert (HW : length (concat (concat mats)) = length (concat mats) * (N.to_nat dim * tsz)).
  { apply concat_uniform_length. clear - HM. induction HM; cbn [concat]; auto. apply Forall_app. auto. }
  unfold multivec_file. rewrite lens_bytes. split.
  - unfold load_multivec. rewrite <- !app_assoc.
    rewrite take_le_app by exact HN. cbn [bind]. rewrite take_le_app by exact HD. cbn [bind].
    rewrite take_le_app by exact HT. cbn [bind]. rewrite Nat2N.id, take_app by (rewrite concat4_length; lia). cbn [bind].
    rewrite <- HLL, <- (app_nil_r (concat (map _ _))), dec_enc_u32s by auto.
    rewrite HZ. cbn [negb guard bind]. rewrite sum_lens, N.eqb_refl. cbn [guard bind].
    rewrite read_mats_ok by auto. reflexivity.
  - intros k HK. rewrite !app_length, !le_enc_length, concat4_length, HLL, HW in HK.
    remember (concat (map (le_enc 4) (lens_of mats))) as lb eqn:ELB.
    assert (HLB : length lb = 4 * length mats) by (subst lb; rewrite concat4_length; lia).
    remember (concat (concat mats)) as pay eqn:EP.
    remember (firstn k _) as f eqn:EF.
    assert (HFL : length f = k).
    { subst f. rewrite firstn_length, !app_length, !le_enc_length. rewrite HLB, HW. lia. }
    unfold load_multivec.
    destruct (Nat.ltb_spec k 12) as [H12|H12].
    { unfold take_le. destruct (take 4 f) as [[a r1]|] eqn:E1; auto. cbn [bind]. apply take_Some in E1. destruct E1 as [-> E1].
      destruct (take 4 r1) as [[b r2]|] eqn:E2; auto. cbn [bind]. apply take_Some in E2. destruct E2 as [-> E2].
      destruct (take 4 r2) as [[c r3]|] eqn:E3; auto. exfalso. apply take_Some in E3. destruct E3 as [-> E3].
      rewrite !app_length in HFL. lia. }
    assert (HE : f = le_enc 4 (N.of_nat (length mats)) ++ le_enc 4 dim ++ le_enc 4 (N.of_nat (length (concat mats))) ++ firstn (k - 12) (lb ++ pay)).
    { subst f. generalize (lb ++ pay). intros t.
      pose proof (le_enc_length 4 (N.of_nat (length mats))) as L1. pose proof (le_enc_length 4 dim) as L2.
      pose proof (le_enc_length 4 (N.of_nat (length (concat mats)))) as L3.
      rewrite firstn_app, (firstn_all2 (le_enc 4 (N.of_nat (length mats)))) by lia. f_equal.
      rewrite firstn_app, (firstn_all2 (le_enc 4 dim)) by lia. f_equal.
      rewrite firstn_app, (firstn_all2 (le_enc 4 (N.of_nat (length (concat mats))))) by lia. f_equal. f_equal. lia. }
    rewrite HE. rewrite take_le_app by exact HN. cbn [bind]. rewrite take_le_app by exact HD. cbn [bind].
    rewrite take_le_app by exact HT. cbn [bind]. rewrite Nat2N.id.
    destruct (take (4 * length mats) (firstn (k - 12) (lb ++ pay))) as [[x r]|] eqn:ET; auto. cbn [bind].
    apply take_Some in ET. destruct ET as [ET EL].
    assert (HKK : 4 * length mats <= k - 12).
    { pose proof (f_equal (@length _) ET) as HQ. rewrite app_length, firstn_length in HQ. lia. }
    assert (HX : x = lb /\ r = firstn (k - 12 - length lb) pay).
    { rewrite firstn_app in ET. pose proof (f_equal (@length _) ET) as HQ. rewrite !app_length, !firstn_length in HQ.
      rewrite firstn_all2 in ET by lia.
      split.
      - rewrite <- (firstn_app_exact (length lb) lb (firstn (k - 12 - length lb) pay)) by auto. rewrite ET. symmetry. apply firstn_app_exact. lia.
      - rewrite <- (skipn_app_exact (length lb) lb (firstn (k - 12 - length lb) pay)) by auto. rewrite ET. symmetry. apply skipn_app_exact. lia. }
    destruct HX as [-> ->].
    assert (HDE : dec_u32s (length mats) lb = lens_of mats).
    { rewrite ELB, <- HLL. rewrite <- (app_nil_r (concat (map _ _))). apply dec_enc_u32s. auto. }
    rewrite HDE.
    rewrite HZ. cbn [negb guard bind]. rewrite sum_lens, N.eqb_refl. cbn [guard bind].
    rewrite read_mats_short; auto. rewrite sum_lens_r, Nat2N.id, firstn_length, HLB, HW. lia.
Qed.
