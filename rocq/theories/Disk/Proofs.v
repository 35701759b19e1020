(** Proofs about the header, the buffered reader and writer, and the node cache. *)
From Coq Require Import List NArith Bool Lia ZifyNat ZifyN ZifyBool.
From Verif.Lib Require Import Base Lists Bytes.
From Verif.Disk Require Import Model Spec.
Import ListNotations.

(** * Header *)

Record meta_ok (m : gmeta) : Prop := {
  mo1 : u64_ok (m_num_pts m); mo2 : u64_ok (m_dims m); mo3 : u64_ok (m_medoid m);
  mo4 : u64_ok (m_node_len m); mo5 : u64_ok (m_nodes_per_block m); mo6 : u64_ok (m_frozen_num m);
  mo7 : u64_ok (m_frozen_loc m); mo8 : u64_ok (m_file_size m); mo9 : u64_ok (m_assoc_len m) }.

Lemma meta_len m : length (meta_to_bytes m) = meta_size.
Proof. unfold meta_to_bytes. rewrite !app_length, !le_enc_length. reflexivity. Qed.
Lemma meta_round m rest : meta_ok m -> meta_try_from (meta_to_bytes m ++ rest) = Some m.
Proof.
  intros [H1 H2 H3 H4 H5 H6 H7 H8 H9]. unfold meta_try_from.
  rewrite app_length, meta_len.
  destruct (Nat.ltb_spec (meta_size + length rest) meta_size); [lia|].
  unfold meta_to_bytes. rewrite <- !app_assoc.
  repeat (rewrite take_le_app by (auto; reflexivity); cbn [bind]).
  destruct m; reflexivity.
Qed.
Lemma meta_round0 m : meta_ok m -> meta_try_from (meta_to_bytes m) = Some m.
Proof. intros. rewrite <- (app_nil_r (meta_to_bytes m)). apply meta_round; auto. Qed.

Lemma version_len v : length (version_to_bytes v) = 8.
Proof. unfold version_to_bytes. rewrite app_length, !le_enc_length. reflexivity. Qed.
Lemma version_round v rest : u32_ok (v_major v) -> u32_ok (v_minor v) ->
  version_try_from (version_to_bytes v ++ rest) = Some v.
Proof.
  intros H1 H2. unfold version_try_from. rewrite app_length, version_len.
  destruct (Nat.ltb_spec (8 + length rest) 8); [lia|].
  unfold version_to_bytes. rewrite <- !app_assoc.
  repeat (rewrite take_le_app by (auto; reflexivity); cbn [bind]).
  destruct v; reflexivity.
Qed.

Record header_ok (h : gheader) : Prop := {
  ho1 : meta_ok (h_meta h); ho2 : u64_ok (h_block_size h);
  ho3 : u32_ok (v_major (h_version h)); ho4 : u32_ok (v_minor (h_version h)) }.
Lemma header_len h : length (header_to_bytes h) = header_size.
Proof.
  unfold header_to_bytes. rewrite !app_length, meta_len, le_enc_length, version_len. reflexivity.
Qed.
Lemma header_round h rest : header_ok h -> header_try_from (header_to_bytes h ++ rest) = Some h.
Proof.
  intros [H1 H2 H3 H4]. unfold header_try_from.
  rewrite app_length, header_len.
  destruct (Nat.ltb_spec (header_size + length rest) header_size); [lia|].
  unfold header_to_bytes. rewrite <- !app_assoc.
  rewrite firstn_app_exact by apply meta_len. rewrite meta_round0 by auto. cbn [bind].
  rewrite <- skipn_skipn', skipn_app_exact by apply meta_len.
  rewrite take_le_app by auto. cbn [bind].
  rewrite skipn_app_exact by apply le_enc_length.
  rewrite version_round by auto. cbn [bind]. destruct h; reflexivity.
Qed.

Lemma take_le_total n b : n <= length b -> take_le n b = Some (le_dec (firstn n b), skipn n b).
Proof. intros. unfold take_le, take. destruct (Nat.leb_spec n (length b)); [auto|lia]. Qed.

(** The fields found in a byte string, by position. *)
Definition field (off n : nat) (v : bytes) : N := le_dec (slice off n v).
Lemma meta_fields v : meta_size <= length v ->
  meta_try_from v = Some (mkgmeta (field 0 8 v) (field 8 8 v) (field 16 8 v) (field 24 8 v) (field 32 8 v)
                            (field 40 8 v) (field 48 8 v) (field 64 8 v) (field 72 8 v)).
Proof.
  intros H. unfold meta_try_from. destruct (Nat.ltb_spec (length v) meta_size); [lia|].
  unfold meta_size in *.
  repeat (rewrite take_le_total by (rewrite ?skipn_length; lia); cbn [bind]).
  rewrite !skipn_skipn'. reflexivity.
Qed.
Lemma header_fields v : header_size <= length v ->
  header_try_from v = Some (mkgheader
    (mkgmeta (field 0 8 v) (field 8 8 v) (field 16 8 v) (field 24 8 v) (field 32 8 v)
       (field 40 8 v) (field 48 8 v) (field 64 8 v) (field 72 8 v))
    (field 80 8 v) (mkversion (field 88 4 v) (field 92 4 v))).
Proof.
  intros H. unfold header_try_from. destruct (Nat.ltb_spec (length v) header_size); [lia|].
  assert (HL : 96 <= length v) by (unfold header_size, meta_size in H; lia).
  rewrite meta_fields by (rewrite firstn_length; unfold header_size in *; lia).
  cbn [bind]. rewrite take_le_total by (rewrite skipn_length; unfold meta_size; lia). cbn [bind].
  unfold version_try_from.
  destruct (Nat.ltb_spec (length (skipn (meta_size + 8) v)) 8) as [HX|_].
  { rewrite skipn_length in HX. unfold meta_size in HX. lia. }
  rewrite take_le_total by (rewrite skipn_length; unfold meta_size; lia). cbn [bind].
  rewrite take_le_total by (rewrite !skipn_length; unfold meta_size; lia). cbn [bind].
  rewrite skipn_skipn'.
  assert (HF : forall o n, o + n <= 80 -> field o n (firstn meta_size v) = field o n v).
  { intros o n Ho. unfold field. f_equal. change (firstn meta_size v) with (slice 0 80 v).
    rewrite slice_slice by lia. reflexivity. }
  rewrite !HF by lia. reflexivity.
Qed.

Lemma version_cmp_spec a b :
  match version_cmp a b with
  | Eq => a = b
  | Lt => (v_major a < v_major b \/ v_major a = v_major b /\ v_minor a < v_minor b)%N
  | Gt => (v_major b < v_major a \/ v_major a = v_major b /\ v_minor b < v_minor a)%N
  end.
Proof.
  unfold version_cmp. destruct a as [a1 a2], b as [b1 b2]; cbn.
  destruct (N.compare_spec a1 b1), (N.compare_spec a2 b2); subst; auto.
Qed.

Lemma max_degree_exact dbg M tsz h d :
  (v_major (h_version h) <= 1)%N -> v_minor (h_version h) = 0%N ->
  (tsz * m_dims (h_meta h) <= M)%N ->
  m_node_len (h_meta h) = ((d + 1) * 4 + tsz * m_dims (h_meta h) + m_assoc_len (h_meta h))%N ->
  max_degree dbg M tsz h = Degree d.
Proof.
  intros H1 H2 HM HN. unfold max_degree.
  assert (HV : version_eqb (h_version h) (mkversion 0 0) || version_eqb (h_version h) (mkversion 1 0) = true).
  { unfold version_eqb. cbn. lia. }
  rewrite HV. rewrite HN.
  destruct (N.ltb_spec M (tsz * m_dims (h_meta h))); [lia|]. rewrite andb_false_r.
  rewrite N.mod_small by lia.
  set (p := (tsz * m_dims (h_meta h))%N) in *.
  destruct (N.ltb_spec ((d + 1) * 4 + p + m_assoc_len (h_meta h)) p); [lia|].
  destruct (N.ltb_spec ((d + 1) * 4 + p + m_assoc_len (h_meta h) - p) (m_assoc_len (h_meta h))); [lia|].
  replace ((d + 1) * 4 + p + m_assoc_len (h_meta h) - p - m_assoc_len (h_meta h))%N with ((d + 1) * 4)%N by lia.
  rewrite N.div_mul by lia.
  destruct (N.ltb_spec (d + 1) 1); [lia|]. f_equal. lia.
Qed.

(** * Buffered reader *)

(** [r] is reading [f] and the client is at position [p]. *)
Record cr_at (f : bytes) (p : nat) (r : creader) : Prop := {
  ca_file : cr_file r = f;
  ca_size : cr_size r = length f;
  ca_off : cr_off r <= cr_csize r;
  ca_clen : length (cr_cache r) = cr_csize r;
  ca_pos : p + (cr_csize r - cr_off r) = cr_rpos r;
  ca_rpos : cr_rpos r <= length f;
  ca_cache : skipn (cr_off r) (cr_cache r) = slice p (cr_csize r - cr_off r) f }.

Lemma cr_new_at cache f : exists r, cr_new cache f = Some r /\ cr_at f 0 r.
Proof.
  unfold cr_new, read_exact. cbn [Nat.add].
  destruct (Nat.leb_spec (Nat.min cache (length f)) (length f)); [|lia]. cbn [bind].
  eexists; split; [reflexivity|]. constructor; cbn; auto; try lia.
  - apply slice_length. lia.
  - rewrite Nat.sub_0_r. reflexivity.
Qed.

Lemma slice_join p a b f : slice p a f ++ slice (p + a) b f = slice p (a + b) f.
Proof.
  unfold slice. rewrite <- skipn_skipn'. generalize (skipn p f). clear.
  intros l. revert l. induction a; intros [|x l]; cbn; auto.
  - rewrite firstn_nil. auto.
  - f_equal. apply IHa.
Qed.

Lemma cr_read_at f p r n : cr_at f p r ->
  if p + n <=? length f
  then exists r', cr_read n r = (Some (slice p n f), r') /\ cr_at f (p + n) r'
  else cr_read n r = (None, r).
Proof.
  intros [HF HZ HO HC HP HR HX]. unfold cr_read.
  destruct (Nat.leb_spec n (cr_csize r - cr_off r)).
  - destruct (Nat.leb_spec (p + n) (length f)); [|lia].
    eexists; split.
    + f_equal. f_equal. unfold slice at 1. rewrite HX. unfold slice. rewrite firstn_firstn, Nat.min_l by lia. reflexivity.
    + constructor; cbn; auto; try lia.
      rewrite <- skipn_skipn', HX. unfold slice. rewrite skipn_firstn_comm, skipn_skipn'.
      f_equal. lia.
  - rewrite HZ, HF.
    destruct (Nat.ltb_spec (length f - cr_rpos r) (n - (cr_csize r - cr_off r))).
    + destruct (Nat.leb_spec (p + n) (length f)); [lia|]. reflexivity.
    + destruct (Nat.leb_spec (p + n) (length f)); [|lia].
      unfold read_exact at 1. destruct (Nat.leb_spec (cr_rpos r + (n - (cr_csize r - cr_off r))) (length f)); [|lia].
      assert (HOut : skipn (cr_off r) (cr_cache r) ++ slice (cr_rpos r) (n - (cr_csize r - cr_off r)) f = slice p n f).
      { rewrite HX, <- HP, slice_join. f_equal. lia. }
      rewrite HOut.
      destruct (Nat.leb_spec (cr_csize r) (length f - (cr_rpos r + (n - (cr_csize r - cr_off r))))).
      * unfold read_exact. destruct (Nat.leb_spec (cr_rpos r + (n - (cr_csize r - cr_off r)) + cr_csize r) (length f)); [|lia].
        eexists; split; [reflexivity|]. constructor; cbn; auto; try lia.
        -- apply slice_length. lia.
        -- rewrite Nat.sub_0_r. replace (cr_rpos r + (n - (cr_csize r - cr_off r))) with (p + n) by lia. reflexivity.
      * eexists; split; [reflexivity|]. constructor; cbn; auto; try lia.
        rewrite Nat.sub_diag. unfold slice. cbn [firstn]. apply skipn_all2. lia.
Qed.

Lemma cr_reads_plain f ns p r : cr_at f p r -> cr_reads ns r = plain_reads p ns f.
Proof.
  revert p r. induction ns as [|n ns IH]; intros p r H; cbn [cr_reads plain_reads]; auto.
  pose proof (cr_read_at f p r n H) as HR. destruct (Nat.leb_spec (p + n) (length f)).
  - destruct HR as (r' & -> & H'). f_equal. apply IH; auto.
  - rewrite HR. f_equal. apply IH; auto.
Qed.

(** * Buffered writer *)

(** [w] stands for an unbuffered file [s] with the cached bytes already in it. *)
Record cw_at (s : bytes * nat) (w : cwriter) : Prop := {
  wa_csize : 0 < cw_csize w;
  wa_off : cw_off w <= cw_csize w;
  wa_clen : length (cw_cache w) = cw_csize w;
  wa_pos : cw_wpos w <= length (cw_file w);
  wa_spos : snd s = cw_wpos w + cw_off w;
  wa_file : fst s = put (cw_wpos w) (firstn (cw_off w) (cw_cache w)) (cw_file w) }.

Definition fop_of (o : wop) : fop :=
  match o with WWrite b => FWrite b | WFlush => FFlush | WReset => FRewind end.

Lemma cw_new_at cs : 0 < cs -> exists w, cw_new cs = Some w /\ cw_at ([], 0) w /\ cw_fsize w = 0 /\ cw_file w = [] /\ cw_off w = 0.
Proof.
  intros H. unfold cw_new. destruct (Nat.eqb_spec cs 0); [lia|].
  eexists; split; [reflexivity|]. repeat split; cbn; auto; try lia. apply repeat_length.
Qed.

Lemma firstn_put_end off b c : off + length b <= length c ->
  firstn (off + length b) (put off b c) = firstn off c ++ b.
Proof.
  intros. unfold put. rewrite firstn_app, firstn_length, Nat.min_l by lia.
  rewrite firstn_all2 by (rewrite firstn_length; lia).
  replace (off + length b - off) with (length b) by lia. rewrite firstn_app, firstn_all, Nat.sub_diag.
  cbn. rewrite app_nil_r. auto.
Qed.

(** Bytes the client has handed over so far: on disk and in the cache. *)
Lemma cw_op_at o s w : cw_at s w ->
  exists w', cw_op no_faults o w = (true, w') /\ cw_at (plain_op (fop_of o) s) w'
    /\ cw_fsize w' + cw_off w' = cw_fsize w + cw_off w + length (written [fop_of o])
    /\ (o = WFlush -> cw_off w' = 0)
    /\ (o <> WReset -> cw_wpos w = length (cw_file w) -> cw_wpos w' = length (cw_file w')
        /\ fst (plain_op (fop_of o) s) = cw_file w' ++ firstn (cw_off w') (cw_cache w')).
Proof.
  intros [H1 H2 H3 H4 H5 H6].
  assert (HL : length (firstn (cw_off w) (cw_cache w)) = cw_off w) by (rewrite firstn_length; lia).
  assert (HFC : exists w', cw_flush_cache no_faults w = (true, w') /\ cw_at s w' /\ cw_off w' = 0
     /\ cw_fsize w' = cw_fsize w + cw_off w /\ cw_csize w' = cw_csize w
     /\ (cw_wpos w = length (cw_file w) -> cw_wpos w' = length (cw_file w'))).
  { unfold cw_flush_cache, write_all, no_faults. eexists; split; [reflexivity|].
    repeat split; cbn; auto; try lia.
    - apply repeat_length.
    - rewrite put_length by auto. lia.
    - rewrite H6, put_nil; auto. rewrite put_length by auto. lia.
    - intros. rewrite put_length by auto. lia. }
  assert (HEnd : forall w', cw_at s w' -> cw_wpos w' = length (cw_file w') ->
     fst s = cw_file w' ++ firstn (cw_off w') (cw_cache w')).
  { intros w' [] E. rewrite wa_file0, E, put_end. auto. }
  destruct o as [b| |]; cbn [cw_op fop_of plain_op].
  - unfold cw_write. destruct (Nat.leb_spec (length b) (cw_csize w - cw_off w)).
    + eexists; split; [reflexivity|].
      assert (HA : cw_at (firstn (snd s) (fst s) ++ b ++ skipn (snd s + length b) (fst s), snd s + length b)
                (cw_with w (put (cw_off w) b (cw_cache w)) (cw_off w + length b) (cw_fsize w))).
      { constructor; cbn; auto; try lia.
        - rewrite put_length by lia. lia.
        - rewrite firstn_put_end by lia.
          rewrite <- put_put by auto. rewrite HL, H5, H6. reflexivity. }
      split; [exact HA|]. split; [cbn; rewrite app_nil_r; lia|]. split; [discriminate|].
      intros _ HW. split; [exact HW|].
      destruct HA as [_ _ _ _ _ HF]. rewrite HF. cbn. rewrite HW, put_end. auto.
    + unfold write_all, no_faults, cw_with. cbn.
      eexists; split; [reflexivity|].
      assert (HF : firstn (snd s) (fst s) ++ b ++ skipn (snd s + length b) (fst s)
        = put (cw_wpos w + length (firstn (cw_off w) (cw_cache w))) b
            (put (cw_wpos w) (firstn (cw_off w) (cw_cache w)) (cw_file w))).
      { rewrite H5, H6. rewrite HL. reflexivity. }
      split; [|split; [|split; [discriminate|intros _ HW; cbn; split]]].
      * constructor; cbn; auto; try lia.
        -- apply repeat_length.
        -- rewrite put_length by (rewrite put_length by auto; lia). lia.
        -- rewrite HF, put_nil; auto. rewrite put_length by (rewrite put_length by auto; lia). lia.
      * cbn. rewrite app_nil_r. lia.
      * rewrite put_length by (rewrite put_length by auto; lia). rewrite put_length by auto. lia.
      * rewrite app_nil_r. auto.
  - unfold cw_flush. destruct (Nat.ltb_spec 0 (cw_off w)).
    + destruct HFC as (w' & E & HA & H0 & Hs & _ & HE). exists w'. rewrite E.
      split; [reflexivity|]. split; [exact HA|]. split; [cbn; lia|]. split; [auto|].
      intros _ HW. split; auto.
    + exists w. split; [reflexivity|]. split; [constructor; auto|]. split; [cbn; lia|]. split; [lia|].
      intros _ HW. split; [auto|]. rewrite H6, HW, put_end. auto.
  - unfold cw_reset. destruct HFC as (w' & E & HA & H0 & Hs & Hc & HE). rewrite E.
    eexists; split; [reflexivity|]. destruct HA as [A1 A2 A3 A4 A5 A6].
    split; [|split; [cbn; lia|split; [discriminate|congruence]]].
    constructor; cbn; auto; try lia.
    rewrite A6, H0. cbn [firstn]. rewrite !put_nil; auto. lia.
Qed.

Lemma written_app a b : written (a ++ b) = written a ++ written b.
Proof. induction a as [|o a IH]; cbn; auto. destruct o; cbn; auto. now rewrite IH, app_assoc. Qed.

Lemma cw_run_at ops s w : cw_at s w ->
  exists w', cw_run no_faults ops w = (map (fun _ => true) ops, w')
    /\ cw_at (fold_left (fun s o => plain_op o s) (map fop_of ops) s) w'
    /\ cw_fsize w' + cw_off w' = cw_fsize w + cw_off w + length (written (map fop_of ops))
    /\ (existsb is_rewind (map fop_of ops) = false -> cw_wpos w = length (cw_file w) ->
        cw_wpos w' = length (cw_file w')).
Proof.
  revert s w. induction ops as [|o ops IH]; intros s w HA.
  - exists w. cbn. repeat split; auto; try apply HA.
  - destruct (cw_op_at o s w HA) as (w1 & E & HA1 & HS & _ & HE).
    destruct (IH _ _ HA1) as (w2 & E2 & HA2 & HS2 & HE2).
    exists w2. cbn [cw_run map fold_left existsb]. rewrite E, E2. split; [reflexivity|].
    split; [exact HA2|]. split.
    + rewrite HS2, HS. change (fop_of o :: map fop_of ops) with ([fop_of o] ++ map fop_of ops).
      rewrite written_app, app_length. lia.
    + intros HR HW. apply orb_false_iff in HR. destruct HR as [HR1 HR2]. apply HE2; auto.
      apply HE; auto. intros ->. discriminate.
Qed.

Lemma cw_run_app flt a b w :
  cw_run flt (a ++ b) w =
  let (r1, w1) := cw_run flt a w in let (r2, w2) := cw_run flt b w1 in (r1 ++ r2, w2).
Proof.
  revert w. induction a as [|o a IH]; intros w; cbn [app cw_run].
  - destruct (cw_run flt b w); auto.
  - destruct (cw_op flt o w) as [r w1]. rewrite IH.
    destruct (cw_run flt a w1) as [r1 w2]. destruct (cw_run flt b w2). auto.
Qed.

Lemma plain_no_rewind ops s : existsb is_rewind ops = false -> snd s = length (fst s) ->
  fold_left (fun s o => plain_op o s) ops s = (fst s ++ written ops, length (fst s) + length (written ops)).
Proof.
  revert s. induction ops as [|o ops IH]; intros [f p] HR HP; cbn in *.
  - rewrite app_nil_r, HP, Nat.add_0_r. auto.
  - apply orb_false_iff in HR. destruct HR as [HR1 HR2].
    destruct o; cbn in *; try discriminate.
    + rewrite IH; cbn; auto.
      * rewrite HP, firstn_all, skipn_all2 by lia. rewrite app_nil_r, <- app_assoc, !app_length.
        f_equal. lia.
      * rewrite HP, firstn_all, skipn_all2 by lia. rewrite app_nil_r, app_length. auto.
    + apply IH; auto.
Qed.

(** * Node cache *)
Section NC.
Context {V L D : Type}.
Variable vdef : V.
Notation nc := (ncache V L D).
(** The cache holds exactly the entries [es] (latest first), each inserted once. *)
Record nc_holds (es : list (N * (V * L * D))) (c : nc) : Prop := {
  nh_keys : map fst (nc_map c) = map fst es;
  nh_nodup : NoDup (map fst es);
  nh_lists : length (nc_lists c) = length es;
  nh_data : length (nc_data c) = length es;
  nh_vecs : length (nc_vecs c) = nc_cap c;
  nh_cap : length es <= nc_cap c;
  nh_get : forall v i, In (v, i) (nc_map c) -> exists vec l d,
     In (v, (vec, l, d)) es /\ nth_error (nc_vecs c) i = Some vec
     /\ nth_error (nc_lists c) i = Some l /\ nth_error (nc_data c) i = Some d;
  nh_lt : forall v i, In (v, i) (nc_map c) -> i < length es }.

Lemma nc_new_holds cap : nc_holds [] (nc_new vdef cap).
Proof.
  constructor; cbn; auto; try (intros; contradiction); try constructor; try lia.
  apply repeat_length.
Qed.
Lemma nc_find_In v (c : nc) i : nc_find v c = Some i -> In (v, i) (nc_map c).
Proof.
  unfold nc_find. destruct (find _ _) as [[k j]|] eqn:E; cbn; [|discriminate]. intros [= <-].
  apply find_some in E. destruct E as [E1 E2]. cbn in E2. apply N.eqb_eq in E2. now subst.
Qed.
Lemma nc_find_None v (c : nc) : nc_find v c = None <-> ~ In v (map fst (nc_map c)).
Proof.
  unfold nc_find. destruct (find _ _) as [[k j]|] eqn:E; cbn.
  - apply find_some in E. destruct E as [E1 E2]. cbn in E2. apply N.eqb_eq in E2. subst.
    split; [discriminate|]. intros H. exfalso. apply H. apply (in_map fst) in E1. exact E1.
  - split; auto. intros _ H. apply in_map_iff in H. destruct H as ([k j] & <- & HI).
    eapply find_none in E; [|exact HI]. cbn in E. rewrite N.eqb_refl in E. discriminate.
Qed.
Lemma nc_insert_holds es (c : nc) v vec l d : nc_holds es c -> ~ In v (map fst es) ->
  if length es <? nc_cap c
  then exists c', nc_insert v vec l d c = Some c' /\ nc_holds ((v, (vec, l, d)) :: es) c' /\ nc_cap c' = nc_cap c
  else nc_insert v vec l d c = None.
Proof.
  intros H HN. unfold nc_insert.
  rewrite (proj2 (nc_find_None v c)) by (rewrite (nh_keys _ _ H); auto).
  assert (HLm : length (nc_map c) = length es).
  { rewrite <- (map_length fst), (nh_keys _ _ H), map_length. auto. }
  rewrite HLm. destruct (Nat.ltb_spec (length es) (nc_cap c)); destruct (Nat.leb_spec (nc_cap c) (length es)); try lia; auto.
  eexists; split; [reflexivity|]. split; [|reflexivity].
  destruct H as [K1 K2 K3 K4 K5 K6 K7 K8].
  constructor; cbn; auto.
  - now rewrite K1.
  - constructor; auto.
  - rewrite app_length. cbn. lia.
  - rewrite app_length. cbn. lia.
  - rewrite set_nth_length. auto.
  - intros w i [[= <- <-]|HI].
    + exists vec, l, d. repeat split; auto.
      * rewrite nth_error_set_nth. destruct (Nat.eqb_spec (length es) (length es)); [|lia].
        destruct (Nat.ltb_spec (length es) (length (nc_vecs c))); auto; lia.
      * rewrite nth_error_app2 by lia. rewrite K3, Nat.sub_diag. auto.
      * rewrite nth_error_app2 by lia. rewrite K4, Nat.sub_diag. auto.
    + destruct (K7 _ _ HI) as (vec' & l' & d' & A1 & A2 & A3 & A4).
      pose proof (K8 _ _ HI). exists vec', l', d'. repeat split; auto.
      * rewrite nth_error_set_nth. destruct (Nat.eqb_spec i (length es)); [lia|]. auto.
      * rewrite nth_error_app1 by lia. auto.
      * rewrite nth_error_app1 by lia. auto.
  - intros w i [[= <- <-]|HI]; [lia|]. pose proof (K8 _ _ HI). lia.
Qed.
Lemma NoDup_keys_fun {A} (es : list (N * A)) v a b : NoDup (map fst es) -> In (v, a) es -> In (v, b) es -> a = b.
Proof.
  induction es as [|[k x] es IH]; cbn; intros HN HA HB; [contradiction|].
  inversion HN as [|? ? HN1 HN2]; subst.
  destruct HA as [HA|HA], HB as [HB|HB]; try (injection HA as ? ?); try (injection HB as ? ?); subst; auto.
  - exfalso. apply HN1. apply (in_map fst) in HB. exact HB.
  - exfalso. apply HN1. apply (in_map fst) in HA. exact HA.
Qed.
Lemma nc_get_holds es (c : nc) v vec l d : nc_holds es c -> In (v, (vec, l, d)) es ->
  nc_vector v c = Some vec /\ nc_list v c = Some l /\ nc_datum v c = Some d.
Proof.
  intros H HI. unfold nc_vector, nc_list, nc_datum.
  destruct (nc_find v c) as [i|] eqn:E.
  - apply nc_find_In in E. destruct (nh_get _ _ H _ _ E) as (vec' & l' & d' & A1 & A2 & A3 & A4).
    pose proof (NoDup_keys_fun es v _ _ (nh_nodup _ _ H) HI A1) as [= -> -> ->]. cbn. auto.
  - apply nc_find_None in E. exfalso. apply E. rewrite (nh_keys _ _ H). apply (in_map fst) in HI. exact HI.
Qed.
End NC.
