(** Proofs about the disk layout: what the writer writes is what the reader reads. *)
From Coq Require Import List NArith Bool Lia ZifyNat ZifyN ZifyBool.
From Verif.Lib Require Import Base Lists Bytes.
From Verif.Disk Require Import Model Spec Proofs.
Import ListNotations.

Lemma concat_uniform_length {A} w (ls : list (list A)) : Forall (fun l => length l = w) ls ->
  length (concat ls) = length ls * w.
Proof. induction 1; cbn; auto. rewrite app_length. lia. Qed.
Lemma slice_concat w (ls : list bytes) i : Forall (fun l => length l = w) ls -> i < length ls ->
  slice (i * w) w (concat ls) = nth i ls [].
Proof.
  intros H. revert i. induction H as [|l ls HL H IH]; intros i Hi; cbn in Hi; [lia|].
  cbn [concat]. destruct i as [|i].
  - cbn [Nat.mul nth]. apply slice_0_exact; auto.
  - rewrite slice_app_r by (cbn; lia). cbn [nth]. rewrite <- IH by lia. f_equal. cbn; lia.
Qed.
Lemma bin_file_length w k rows : Forall (fun r => length r = w) rows ->
  length (bin_file k rows) = 8 + length rows * w.
Proof.
  intros. unfold bin_file. rewrite !app_length, !le_enc_length, (concat_uniform_length w); auto.
Qed.
Lemma bin_file_row w k rows i : Forall (fun r => length r = w) rows -> i < length rows ->
  slice (8 + i * w) w (bin_file k rows) = nth i rows [].
Proof.
  intros. unfold bin_file.
  rewrite slice_app_r by (rewrite le_enc_length; lia). rewrite le_enc_length.
  rewrite slice_app_r by (rewrite le_enc_length; lia). rewrite le_enc_length.
  rewrite <- (slice_concat w) by auto. f_equal. lia.
Qed.
Lemma cr_u32_at f p r x : cr_at f p r -> p + 4 <= length f -> slice p 4 f = le_enc 4 x -> u32_ok x ->
  exists r', cr_read_u32 r = (Some x, r') /\ cr_at f (p + 4) r'.
Proof.
  intros HA HL HS HX. unfold cr_read_u32. pose proof (cr_read_at f p r 4 HA) as HR.
  destruct (Nat.leb_spec (p + 4) (length f)); [|lia].
  destruct HR as (r' & -> & HA'). exists r'. split; auto. rewrite HS. cbn. rewrite le_dec_enc; auto.
Qed.
Lemma cr_bytes_at f p r n b : cr_at f p r -> slice p n f = b -> p + n <= length f ->
  exists r', cr_read n r = (Some b, r') /\ cr_at f (p + n) r'.
Proof.
  intros HA HS HL. pose proof (cr_read_at f p r n HA) as HR.
  destruct (Nat.leb_spec (p + n) (length f)); [|lia]. subst b. exact HR.
Qed.
Lemma put_zeros a g b k pos : pos = length a + g -> g + length b <= k ->
  put pos b (a ++ repeat 0%N k) = a ++ repeat 0%N g ++ b ++ repeat 0%N (k - g - length b).
Proof.
  intros -> H. apply nth_error_ext. intros i.
  rewrite nth_error_put by (rewrite app_length, repeat_length; lia).
  assert (HZ : forall m j, nth_error (repeat 0%N m) j = if j <? m then Some 0%N else None).
  { induction m; intros [|j]; cbn [repeat nth_error]; auto. rewrite IHm.
    destruct (Nat.ltb_spec j m), (Nat.ltb_spec (S j) (S m)); auto; lia. }
  destruct (Nat.ltb_spec i (length a)) as [Hi|Hi].
  - rewrite nth_error_app1 by lia. rewrite (nth_error_app1 a (_ ++ _)) by lia.
    destruct (Nat.ltb_spec i (length a + g)); auto. lia.
  - rewrite !(nth_error_app2 a) by lia.
    destruct (Nat.ltb_spec i (length a + g)).
    + rewrite nth_error_app1 by (rewrite repeat_length; lia). rewrite !HZ.
      destruct (Nat.ltb_spec (i - length a) k), (Nat.ltb_spec (i - length a) g); auto; lia.
    + rewrite (nth_error_app2 (repeat _ _)) by (rewrite repeat_length; lia). rewrite repeat_length.
      destruct (Nat.ltb_spec i (length a + g + length b)).
      * rewrite nth_error_app1 by lia. f_equal. lia.
      * rewrite nth_error_app2 by lia. rewrite !HZ.
        destruct (Nat.ltb_spec (i - length a) k), (Nat.ltb_spec (i - length a - g - length b) (k - g - length b)); auto; lia.
Qed.
Lemma list_bytes_length l : length (list_bytes l) = 4 + 4 * length l.
Proof.
  unfold list_bytes. rewrite app_length, le_enc_length, (concat_uniform_length 4).
  - rewrite map_length. lia.
  - apply Forall_map, Forall_forall. intros; apply le_enc_length.
Qed.
Lemma dec_enc_u32s l rest : Forall u32_ok l ->
  dec_u32s (length l) (concat (map (le_enc 4) l) ++ rest) = l.
Proof.
  induction 1 as [|x l HX H IH]; cbn [length dec_u32s map concat]; auto.
  rewrite <- app_assoc, firstn_app_exact, skipn_app_exact, le_dec_enc, IH by (auto using le_enc_length).
  auto.
Qed.
Lemma skipn_cons_nth {A} (l : list A) i d : i < length l -> skipn i l = nth i l d :: skipn (S i) l.
Proof. revert i. induction l as [|x l IH]; intros [|i] H; cbn in *; auto; try lia. rewrite IH by lia. auto. Qed.
Lemma nth_Forall {A} (P : A -> Prop) l i d : Forall P l -> i < length l -> P (nth i l d).
Proof. intros H Hi. eapply Forall_forall in H; [exact H|]. apply nth_In; auto. Qed.

Lemma div_ceil_ge a b : 0 < b -> a <= div_ceil a b * b.
Proof.
  intros. unfold div_ceil. pose proof (Nat.div_mod (a + b - 1) b). pose proof (Nat.mod_upper_bound (a + b - 1) b).
  generalize dependent ((a + b - 1) / b). intros q. intros. lia.
Qed.
Lemma div_ceil_bound a b k : 0 < b -> k < div_ceil a b -> k * b < a.
Proof.
  intros Hb Hk. unfold div_ceil in Hk.
  assert (k + 1 <= (a + b - 1) / b) by lia.
  pose proof (Nat.mul_div_le (a + b - 1) b). clear Hk.
  generalize dependent ((a + b - 1) / b). intros q. nia.
Qed.
Lemma div_ceil_cover a b i : 0 < b -> i < a -> i / b < div_ceil a b.
Proof.
  intros Hb Hi. unfold div_ceil.
  assert (i / b + 1 <= (a + b - 1) / b); [|lia].
  replace (i / b + 1) with ((i + 1 * b) / b) by (rewrite Nat.div_add by lia; lia).
  apply Nat.div_le_mono; lia.
Qed.
Lemma guard_true b : b = true -> guard b = Some tt.
Proof. intros ->; auto. Qed.

Section Layout.
Variable dbg : bool.
Variables tsz asz rblk wblk : nat.
Variable c : content.
Hypothesis OK : content_ok dbg tsz asz c.

Let n := length (c_vecs c).
Let vlen := N.to_nat (c_dims c) * tsz.
Let aw := assoc_width asz c.
Let nl := node_bytes_len tsz asz c.
Definition adata (i : nat) : bytes := match c_assoc c with None => [] | Some (_, rows) => nth i rows [] end.
Definition nvec i := nth i (c_vecs c) [].
Definition nlist i := nth i (c_adj c) [].
Definition pad i := nl - vlen - length (list_bytes (nlist i)) - aw.
Definition node i := nvec i ++ list_bytes (nlist i) ++ repeat 0%N (pad i) ++ adata i.

Lemma nvec_len i : i < n -> length (nvec i) = vlen.
Proof. intros. apply (nth_Forall _ _ i [] (co_vecs _ _ _ _ OK)); auto. Qed.
Lemma nlist_ok i : i < n -> (N.of_nat (length (nlist i)) <= c_max_degree c)%N /\ Forall u32_ok (nlist i)
  /\ (dbg = true -> nlist i <> []).
Proof. intros. apply (nth_Forall _ _ i [] (co_adj _ _ _ _ OK)). rewrite (co_adj_n _ _ _ _ OK). auto. Qed.
Lemma adata_len i : i < n -> length (adata i) = aw.
Proof.
  intros. unfold adata, aw, assoc_width. pose proof (co_assoc _ _ _ _ OK) as HA.
  destruct (c_assoc c) as [[k rows]|]; auto. destruct HA as (_ & HL & HF).
  apply (nth_Forall _ _ i [] HF). unfold n in H. lia.
Qed.
Lemma nl_eq : nl = (N.to_nat (c_max_degree c) + 1) * 4 + vlen + aw.
Proof. reflexivity. Qed.
Lemma fits i : i < n -> vlen + length (list_bytes (nlist i)) + pad i + aw = nl.
Proof.
  intros. destruct (nlist_ok i H) as (HD & _). unfold pad. rewrite list_bytes_length.
  pose proof nl_eq as HE. clearbody nl vlen aw. rewrite HE. clear - HD.
  generalize dependent (length (nlist i)). intros. lia.
Qed.
Lemma node_length i : i < n -> length (node i) = nl.
Proof.
  intros. unfold node. rewrite !app_length, repeat_length, nvec_len, adata_len by auto.
  rewrite <- (fits i) by auto. lia.
Qed.

Definition files_data := bin_file (c_dims c) (c_vecs c).
Definition files_assoc := match c_assoc c with None => None | Some (k, rows) => Some (bin_file k rows) end.
Definition files_mem := graph_file (c_gsize c) (c_max_degree c) (c_medoid c) (c_frozen c) (c_adj c).

Record at_node (i : nat) (st : lwstate) : Prop := {
  an_data : cr_at files_data (8 + i * vlen) (lw_data st);
  an_assoc : match c_assoc c, lw_assoc st with
             | None, None => True
             | Some (k, rows), Some ar => cr_at (bin_file k rows) (8 + i * aw) ar
             | _, _ => False
             end;
  an_mem : lw_mem st = concat (map list_bytes (skipn i (c_adj c)));
  an_dims : lw_dims st = c_dims c;
  an_pts : lw_num_pts st = N.of_nat n;
  an_md : lw_max_degree st = c_max_degree c;
  an_medoid : lw_medoid st = c_medoid c;
  an_frozen : lw_frozen st = c_frozen c;
  an_nl : lw_node_len st = nl;
  an_al : lw_assoc_len st * asz = aw }.

Lemma open_at : exists st, open_readers tsz asz rblk files_data files_assoc files_mem = Some st /\ at_node 0 st.
Proof.
  unfold open_readers. pose proof OK as [O1 O2 O3 O4 O5 O6 O7 O8 O9 O10].
  destruct (cr_new_at rblk files_data) as (r0 & -> & HA). cbn [bind].
  assert (HL : length files_data = 8 + n * vlen) by (apply bin_file_length; auto).
  destruct (cr_u32_at _ _ _ (N.of_nat n) HA) as (r1 & -> & HA1).
  { lia. } { unfold files_data, bin_file. apply slice_0_exact, le_enc_length. } { exact O1. }
  cbn [bind]. destruct (cr_u32_at _ _ _ (c_dims c) HA1) as (r2 & -> & HA2).
  { lia. }
  { unfold files_data, bin_file. rewrite slice_app_r by (rewrite le_enc_length; lia).
    rewrite le_enc_length. apply slice_0_exact, le_enc_length. }
  { exact O2. }
  cbn [bind].
  assert (HAs : exists ar al,
    match files_assoc with
    | None => Some (None, 0)
    | Some af =>
      do ar <- cr_new rblk af;
      let (n0, ar) := cr_read_u32 ar in do n0 <- n0;
      let (len, ar) := cr_read_u32 ar in do len <- len;
      do _ <- guard (N.of_nat n =? n0)%N; Some (Some ar, N.to_nat len)
    end = Some (ar, al) /\ al * asz = aw /\
    match c_assoc c, ar with
    | None, None => True
    | Some (k, rows), Some ar => cr_at (bin_file k rows) (8 + 0 * aw) ar
    | _, _ => False
    end).
  { unfold files_assoc, aw, assoc_width. destruct (c_assoc c) as [[k rows]|]; [|exists None, 0; auto].
    destruct O10 as (K1 & K2 & K3).
    assert (HLa : length (bin_file k rows) = 8 + length rows * (N.to_nat k * asz)) by (apply bin_file_length; auto).
    destruct (cr_new_at rblk (bin_file k rows)) as (a0 & -> & HB). cbn [bind].
    destruct (cr_u32_at _ _ _ (N.of_nat n) HB) as (a1 & -> & HB1).
    { lia. } { unfold bin_file. rewrite K2. apply slice_0_exact, le_enc_length. } { exact O1. }
    cbn [bind]. destruct (cr_u32_at _ _ _ k HB1) as (a2 & -> & HB2).
    { lia. }
    { unfold bin_file. rewrite slice_app_r by (rewrite le_enc_length; lia).
      rewrite le_enc_length. apply slice_0_exact, le_enc_length. }
    { exact K1. }
    cbn [bind]. rewrite N.eqb_refl. cbn. exists (Some a2), (N.to_nat k). auto. }
  destruct HAs as (ar & al & -> & HAl & HAr). cbn [bind].
  unfold files_mem, graph_file. rewrite !take_le_app by (auto; reflexivity). cbn [bind].
  rewrite !take_le_app by (auto; reflexivity). cbn [bind].
  rewrite !take_le_app by (auto; reflexivity). cbn [bind].
  rewrite !take_le_app by (auto; reflexivity). cbn [bind].
  eexists; split; [reflexivity|]. constructor; cbn [lw_data lw_assoc lw_mem lw_dims lw_num_pts lw_max_degree lw_medoid lw_frozen lw_node_len lw_assoc_len]; auto.
  rewrite HAl. reflexivity.
Qed.


Lemma read_neighbors_at i st blen : i < n -> at_node i st -> nl <= blen ->
  exists st', read_neighbors dbg tsz asz blen st = Some (node i ++ repeat 0%N (blen - nl), st') /\ at_node (S i) st'.
Proof.
  intros Hi HA HB. pose proof HA as [A1 A2 A3 A4 A5 A6 A7 A8 A9 A10].
  pose proof (fits i Hi) as HFit. pose proof (nvec_len i Hi) as HV. pose proof (adata_len i Hi) as HAd.
  destruct (nlist_ok i Hi) as (HD & HU & HE). pose proof (list_bytes_length (nlist i)) as HLB.
  assert (HLd : length files_data = 8 + n * vlen) by (apply bin_file_length; apply OK).
  unfold read_neighbors. rewrite A4. fold vlen.
  destruct (cr_bytes_at _ _ _ vlen (nvec i) A1) as (dr & -> & HD1).
  { unfold files_data. apply bin_file_row; [apply OK|auto]. }
  { rewrite HLd. clear - Hi. nia. }
  cbn [bind]. rewrite guard_true by (apply Nat.leb_le; lia). cbn [bind].
  rewrite A3.
  rewrite (skipn_cons_nth (c_adj c) i []) by (rewrite (co_adj_n _ _ _ _ OK); auto).
  cbn [map concat]. fold (nlist i). unfold list_bytes at 1. rewrite <- !app_assoc.
  rewrite take_le_app.
  2:{ pose proof (co_md _ _ _ _ OK). unfold u32_ok in *. lia. }
  cbn [bind]. rewrite guard_true.
  2:{ destruct dbg eqn:E; cbn; auto. specialize (HE eq_refl). destruct (nlist i); [congruence|]. rewrite A6. cbn [length] in *. lia. }
  cbn [bind]. rewrite guard_true by (apply Nat.leb_le; lia). cbn [bind].
  rewrite Nat2N.id. rewrite guard_true by (apply Nat.leb_le; lia). cbn [bind].
  rewrite take_app.
  2:{ rewrite (concat_uniform_length 4).
      - rewrite map_length. lia.
      - apply Forall_map, Forall_forall. intros; apply le_enc_length. }
  cbn [bind].
  set (ids := concat (map (le_enc 4) (nlist i))) in *.
  assert (HI : length ids = 4 * length (nlist i)).
  { unfold list_bytes in HLB. fold ids in HLB. rewrite app_length, le_enc_length in HLB. lia. }
  assert (HBuf : put (vlen + 4) ids (put vlen (le_enc 4 (N.of_nat (length (nlist i)))) (put 0 (nvec i) (repeat 0%N blen)))
     = (nvec i ++ list_bytes (nlist i)) ++ repeat 0%N (blen - vlen - length (list_bytes (nlist i)))).
  { change (repeat 0%N blen) with ([] ++ repeat 0%N blen).
    rewrite (put_zeros [] 0) by (cbn; lia). cbn [app repeat].
    rewrite (put_zeros (nvec i) 0) by (rewrite ?le_enc_length; lia). cbn [app repeat].
    rewrite app_assoc. rewrite (put_zeros (nvec i ++ le_enc _ _) 0) by (rewrite ?app_length, ?le_enc_length; lia).
    cbn [app repeat]. unfold list_bytes. fold ids. rewrite <- !app_assoc. do 4 f_equal.
    rewrite !app_length, !le_enc_length. lia. }
  rewrite HBuf.
  unfold files_assoc in *. pose proof (co_assoc _ _ _ _ OK) as HO.
  unfold aw, assoc_width in A10, A2. unfold adata in HAd. 
  destruct (c_assoc c) as [[k rows]|] eqn:EA; destruct (lw_assoc st) as [ar|] eqn:EL; try contradiction.
  - rewrite A9. rewrite guard_true by (apply Nat.leb_le; lia). cbn [bind].
    destruct HO as (K1 & K2 & K3).
    assert (Haw : aw = N.to_nat k * asz) by (unfold aw, assoc_width; rewrite EA; auto).
    rewrite A10.
    destruct (cr_bytes_at _ _ _ (N.to_nat k * asz) (nth i rows []) A2) as (ar' & -> & HB1).
    { apply bin_file_row; auto. rewrite K2. auto. }
    { rewrite (bin_file_length (N.to_nat k * asz)) by auto. rewrite K2. fold n. clear - Hi. nia. }
    cbn [bind]. eexists; split.
    + f_equal. f_equal.
      rewrite (put_zeros _ (pad i)).
      2:{ rewrite app_length. lia. }
      2:{ lia. }
      unfold node, adata. rewrite EA. rewrite <- !app_assoc. do 4 f_equal.
      f_equal. lia.
    + constructor; cbn [lw_data lw_assoc lw_mem lw_dims lw_num_pts lw_max_degree lw_medoid lw_frozen lw_node_len lw_assoc_len]; auto.
      * replace (8 + S i * vlen) with (8 + i * vlen + vlen) by lia. auto.
      * rewrite EA. rewrite Haw. replace (8 + S i * (N.to_nat k * asz)) with (8 + i * (N.to_nat k * asz) + N.to_nat k * asz) by lia. auto.
      * rewrite Haw. auto.
  - assert (Haw : aw = 0) by (unfold aw, assoc_width; rewrite EA; auto).
    eexists; split.
    + f_equal. f_equal. unfold node, adata. rewrite EA. rewrite app_nil_r, <- !app_assoc. do 2 f_equal.
      rewrite <- repeat_app. f_equal. lia.
    + constructor; cbn [lw_data lw_assoc lw_mem lw_dims lw_num_pts lw_max_degree lw_medoid lw_frozen lw_node_len lw_assoc_len]; auto.
      * replace (8 + S i * vlen) with (8 + i * vlen + vlen) by lia. auto.
      * rewrite EA. auto.
      * rewrite A10, Haw. auto.
Qed.

(** ** Several nodes per block *)
Definition nodes (start m : nat) : bytes := concat (map node (seq start m)).
Lemma nodes_length start m : start + m <= n -> length (nodes start m) = m * nl.
Proof.
  intros. unfold nodes. rewrite (concat_uniform_length nl).
  - rewrite map_length, seq_length. auto.
  - apply Forall_map, Forall_forall. intros x Hx. apply in_seq in Hx. apply node_length. lia.
Qed.
Lemma nodes_snoc start m : nodes start (S m) = nodes start m ++ node (start + m).
Proof. unfold nodes. rewrite seq_S, map_app, concat_app. cbn. rewrite app_nil_r. auto. Qed.

Lemma block_nodes_at bs npb start : npb * nl <= bs -> forall k j st, j + k = npb ->
  start + j <= n -> at_node (start + j) st ->
  exists st', block_nodes dbg tsz asz k j (N.of_nat (start + j)) (nodes start j ++ repeat 0%N (bs - j * nl)) st
      = Some (N.of_nat (start + Nat.min npb (n - start)),
              nodes start (Nat.min npb (n - start)) ++ repeat 0%N (bs - Nat.min npb (n - start) * nl), st')
    /\ at_node (start + Nat.min npb (n - start)) st'.
Proof.
  intros HB. induction k as [|k IH]; intros j st Hj Hn HA; cbn [block_nodes].
  - replace (Nat.min npb (n - start)) with j by lia. eauto.
  - rewrite (an_pts _ _ HA).
    destruct (N.leb_spec (N.of_nat n) (N.of_nat (start + j))).
    + replace (Nat.min npb (n - start)) with j by lia. eauto.
    + destruct (read_neighbors_at (start + j) st (lw_node_len st)) as (st' & -> & HA'); auto; try lia.
      { rewrite (an_nl _ _ HA). lia. }
      cbn [bind]. rewrite (an_nl _ _ HA), (an_nl _ _ HA'), Nat.sub_diag. cbn [repeat]. rewrite app_nil_r.
      assert (HM : S j * nl <= bs) by (clear - HB Hj; nia).
      assert (HNl : length (node (start + j)) = nl) by (apply node_length; lia).
      rewrite (put_zeros _ 0).
      2:{ rewrite nodes_length by lia. lia. }
      2:{ rewrite HNl. cbn [Nat.mul] in HM. lia. }
      cbn [repeat app]. rewrite app_assoc, <- nodes_snoc.
      replace (bs - j * nl - 0 - length (node (start + j))) with (bs - S j * nl) by (rewrite HNl; lia).
      replace (N.of_nat (start + j) + 1)%N with (N.of_nat (start + S j)) by lia.
      apply IH; try lia. replace (start + S j) with (S (start + j)) by lia. auto.
Qed.

Definition cnt npb b := Nat.min npb (n - b * npb).
Definition block bs npb (b : nat) : bytes := nodes (b * npb) (cnt npb b) ++ repeat 0%N (bs - cnt npb b * nl).
Lemma block_length bs npb b : npb * nl <= bs -> b * npb <= n -> length (block bs npb b) = bs.
Proof.
  intros H Hb. unfold block. rewrite app_length, repeat_length, nodes_length by (unfold cnt; lia).
  assert (cnt npb b * nl <= bs) by (unfold cnt; clear - H; nia). lia.
Qed.

(** The writer has taken [s] so far. *)
Definition w_has (s : bytes) (w : cwriter) : Prop := cw_at (s, length s) w.
Lemma w_write s b w : w_has s w -> exists w', cw_write no_faults b w = (true, w') /\ w_has (s ++ b) w'.
Proof.
  intros H. destruct (cw_op_at (WWrite b) _ _ H) as (w' & E & HA & _). exists w'. split; auto.
  unfold w_has. cbn in HA. rewrite firstn_all, skipn_all2, app_nil_r in HA by lia.
  rewrite app_length. exact HA.
Qed.

Lemma blocks_at bs npb : 0 < npb -> npb * nl <= bs -> forall k b st w s,
  b * npb <= n -> (k = 0 \/ (b + k - 1) * npb < n) ->
  at_node (b * npb) st -> w_has s w ->
  exists st' w', blocks dbg tsz asz bs npb k (N.of_nat (b * npb)) st w = Some (st', w')
    /\ w_has (s ++ concat (map (block bs npb) (seq b k))) w'
    /\ lw_num_pts st' = N.of_nat n /\ (exists i, at_node i st').
Proof.
  intros H0 HB. induction k as [|k IH]; intros b st w s Hb Hk HA HWs; cbn [blocks].
  - exists st, w. cbn. rewrite app_nil_r. split; auto. split; auto. split; eauto. apply HA.
  - destruct (block_nodes_at bs npb (b * npb) HB npb 0 st) as (st1 & E & HA1); try lia.
    { rewrite Nat.add_0_r. auto. }
    rewrite Nat.add_0_r in E. unfold nodes at 1 in E. cbn [seq map concat app Nat.mul] in E. rewrite Nat.sub_0_r in E.
    rewrite E. cbn [bind]. change (Nat.min npb (n - b * npb)) with (cnt npb b).
    fold (block bs npb b).
    destruct (w_write s (block bs npb b) w HWs) as (w1 & -> & HW1). cbn [guard bind].
    destruct k as [|k].
    + cbn [blocks]. exists st1, w1. cbn. rewrite app_nil_r. split; auto. split; auto. split; eauto. apply HA1.
    + assert (HC : b * npb + cnt npb b = S b * npb).
      { unfold cnt. destruct Hk as [|Hk]; [lia|]. assert (S b * npb < n) by (clear - Hk; nia). lia. }
      change (Nat.min npb (n - b * npb)) with (cnt npb b) in HA1.
      rewrite HC in *. destruct (IH (S b) st1 w1 (s ++ block bs npb b)) as (st2 & w2 & E2 & HW2 & HP & HX); auto.
      { destruct Hk as [|Hk]; [lia|]. clear - Hk. nia. }
      { right. destruct Hk as [|Hk]; [lia|]. replace (S b + S k - 1) with (b + S (S k) - 1) by lia. auto. }
      exists st2, w2. split; auto. split; auto. cbn [seq map concat]. rewrite app_assoc. exact HW2.
Qed.

(** ** Several blocks per node *)
Definition wide bs i := node i ++ repeat 0%N (div_ceil nl bs * bs - nl).
Lemma wide_length bs i : 0 < bs -> i < n -> length (wide bs i) = div_ceil nl bs * bs.
Proof. intros HB Hi. unfold wide. rewrite app_length, repeat_length, node_length by auto. pose proof (div_ceil_ge nl bs HB). lia. Qed.
Lemma multi_at bs : 0 < bs -> forall k i st w s, i + k = n -> at_node i st -> w_has s w ->
  exists st' w', multi_nodes dbg tsz asz (div_ceil nl bs * bs) k st w = Some (st', w')
    /\ w_has (s ++ concat (map (wide bs) (seq i k))) w'
    /\ lw_num_pts st' = N.of_nat n /\ (exists i, at_node i st').
Proof.
  intros HB. induction k as [|k IH]; intros i st w s Hi HA HWs; cbn [multi_nodes].
  - exists st, w. cbn. rewrite app_nil_r. split; auto. split; auto. split; eauto. apply HA.
  - destruct (read_neighbors_at i st (div_ceil nl bs * bs)) as (st1 & -> & HA1); auto; try lia.
    { apply div_ceil_ge; auto. }
    cbn [bind]. fold (wide bs i).
    destruct (w_write s (wide bs i) w HWs) as (w1 & -> & HW1). cbn [guard bind].
    destruct (IH (S i) st1 w1 (s ++ wide bs i)) as (st2 & w2 & E2 & HW2 & HP); auto; try lia.
    exists st2, w2. split; auto. split; auto. cbn [seq map concat]. rewrite app_assoc. exact HW2.
Qed.

Definition npb_of bs := bs / nl.
Definition num_blocks bs := if 0 <? npb_of bs then div_ceil n (npb_of bs) else n * div_ceil nl bs.
Definition payload bs : bytes :=
  if 0 <? npb_of bs then concat (map (block bs (npb_of bs)) (seq 0 (num_blocks bs)))
  else concat (map (wide bs) (seq 0 n)).
Definition final_header bs : gheader :=
  mkgheader
    (mkgmeta (N.of_nat n) (c_dims c) (c_medoid c) (N.of_nat nl) (N.of_nat (npb_of bs))
       (c_frozen c) (if (c_frozen c =? 1)%N then c_medoid c else 0%N) (N.of_nat ((num_blocks bs + 1) * bs))
       (N.of_nat aw)) (N.of_nat bs) (mkversion 1 0).

Lemma nl_pos : 0 < nl.
Proof. rewrite nl_eq. lia. Qed.
Lemma npb_fits bs : npb_of bs * nl <= bs.
Proof. unfold npb_of. pose proof nl_pos. pose proof (Nat.mul_div_le bs nl). lia. Qed.

Hypothesis HW : 0 < wblk.
Lemma create_layout bs : meta_size <= bs ->
  create_disk_layout dbg tsz asz rblk wblk bs files_data files_assoc files_mem
  = Some (put 0 (header_block (final_header bs)) (repeat 0%N bs ++ payload bs)).
Proof.
  intros HB. unfold create_disk_layout, writer_new.
  rewrite guard_true by (apply negb_true_iff, Nat.ltb_ge; auto). cbn [bind].
  destruct open_at as (st & -> & HA). cbn [bind].
  rewrite (an_nl _ _ HA), (an_pts _ _ HA), Nat2N.id. fold (npb_of bs). fold (num_blocks bs).
  destruct (cw_new_at wblk HW) as (w0 & -> & HA0 & _). cbn [bind].
  destruct (w_write [] (repeat 0%N bs) w0 HA0) as (w1 & -> & HW1). cbn [guard bind app] in *.
  assert (HBp : 0 < bs) by (unfold meta_size in HB; lia).
  assert (HLoop : exists st' w',
    (if 0 <? npb_of bs then blocks dbg tsz asz bs (npb_of bs) (num_blocks bs) 0%N st w1
     else multi_nodes dbg tsz asz (div_ceil nl bs * bs) n st w1) = Some (st', w')
    /\ w_has (repeat 0%N bs ++ payload bs) w' /\ (exists i, at_node i st')).
  { unfold payload. destruct (Nat.ltb_spec 0 (npb_of bs)) as [Hp|Hp].
    - destruct (blocks_at bs (npb_of bs) Hp (npb_fits bs) (num_blocks bs) 0 st w1 (repeat 0%N bs)) as (st' & w' & E & HW' & _ & HX); auto; try lia.
      + unfold num_blocks. destruct (Nat.ltb_spec 0 (npb_of bs)); [|lia].
        destruct (div_ceil n (npb_of bs)) as [|q] eqn:E; [auto|right].
        apply div_ceil_bound; auto. lia.
      + cbn [Nat.mul N.of_nat] in E. eauto.
    - destruct (multi_at bs HBp n 0 st w1 (repeat 0%N bs)) as (st' & w' & E & HW' & _ & HX); auto. eauto. }
  destruct HLoop as (st' & w' & -> & HW' & i & HA'). cbn [bind].
  destruct (cw_op_at WFlush _ _ HW') as (w2 & E2 & HA2 & _ & HOff & _). cbn [cw_op] in E2. rewrite E2. cbn [guard bind].
  f_equal. unfold header_of.
  rewrite (an_pts _ _ HA'), (an_dims _ _ HA'), (an_medoid _ _ HA'), (an_nl _ _ HA'), (an_frozen _ _ HA'), (an_al _ _ HA').
  fold (final_header bs). f_equal.
  destruct HA2 as [_ _ _ B4 _ B6]. cbn in B6. rewrite B6, (HOff eq_refl). cbn [firstn]. rewrite put_nil; auto.
Qed.
End Layout.
