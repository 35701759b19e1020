(** Proofs about reading a disk index back. *)
From Coq Require Import List NArith Bool Lia ZifyNat ZifyN ZifyBool.
From Verif.Lib Require Import Base Lists Bytes.
From Verif.Disk Require Import Model Spec Proofs ProofsLayout.
Import ListNotations.

Lemma read_exact_ok p n f : p + n <= length f -> read_exact p n f = Some (slice p n f).
Proof. intros. unfold read_exact. destruct (Nat.leb_spec (p + n) (length f)); auto; lia. Qed.
Lemma header_block_len h : length (header_block h) = 104.
Proof. unfold header_block. rewrite !app_length, !le_enc_length, header_len. reflexivity. Qed.

Section Read.
Variable dbg : bool.
Variables tsz asz : nat.
Variable c : content.
Hypothesis OK : content_ok dbg tsz asz c.
Variable bs : nat.
Hypothesis HBS : 104 <= bs.

Let n := length (c_vecs c).
Let vlen := N.to_nat (c_dims c) * tsz.
Let aw := assoc_width asz c.
Let nl := node_bytes_len tsz asz c.
Let npb := npb_of tsz asz c bs.
Let nb := num_blocks tsz asz c bs.
Let pay := payload tsz asz c bs.
Let hdr := final_header tsz asz c bs.
Definition F : bytes := put 0 (header_block hdr) (repeat 0%N bs ++ pay).

Lemma npb_pos_nb i : 0 < npb -> i < nb -> i * npb < n.
Proof.
  unfold nb, num_blocks. fold npb. intros Hp Hi. destruct (Nat.ltb_spec 0 npb); [|lia].
  apply div_ceil_bound; auto.
Qed.
Lemma pieces_blocks : 0 < npb -> Forall (fun b => length b = bs) (map (block tsz asz c bs npb) (seq 0 nb)).
Proof.
  intros Hp. apply Forall_map, Forall_forall. intros x Hx. apply in_seq in Hx.
  apply (block_length dbg); auto; [apply npb_fits|].
  pose proof (npb_pos_nb x Hp). unfold n in *. lia.
Qed.
Lemma pieces_wide : Forall (fun b => length b = div_ceil nl bs * bs) (map (wide tsz asz c bs) (seq 0 n)).
Proof.
  apply Forall_map, Forall_forall. intros x Hx. apply in_seq in Hx.
  apply (wide_length dbg); auto; lia.
Qed.
Lemma pay_length : length pay = nb * bs.
Proof.
  unfold pay, payload. fold npb nb. unfold nb, num_blocks. fold npb.
  destruct (Nat.ltb_spec 0 npb) as [Hp|Hp].
  - rewrite (concat_uniform_length bs).
    + rewrite map_length, seq_length. auto.
    + pose proof (pieces_blocks Hp) as H. unfold nb, num_blocks in H. fold npb in H.
      destruct (Nat.ltb_spec 0 npb); [exact H|lia].
  - etransitivity; [exact (concat_uniform_length _ _ pieces_wide)|]. rewrite map_length, seq_length. unfold n, nl. lia.
Qed.
Lemma F_length : length F = (nb + 1) * bs.
Proof.
  unfold F. rewrite put_length by lia. rewrite app_length, repeat_length, pay_length, header_block_len. lia.
Qed.
Lemma F_head : F = header_block hdr ++ skipn 104 (repeat 0%N bs ++ pay).
Proof. unfold F, put. rewrite header_block_len. reflexivity. Qed.
Lemma F_slice o k : bs <= o -> o + k <= (nb + 1) * bs -> slice o k F = slice (o - bs) k pay.
Proof.
  intros Ho Hk. unfold F. rewrite slice_put_disjoint.
  - rewrite slice_app_r by (rewrite repeat_length; lia). rewrite repeat_length. auto.
  - lia.
  - right. rewrite header_block_len. lia.
  - rewrite app_length, repeat_length, pay_length. lia.
Qed.

Let spn := if 0 <? npb then 1 else div_ceil nl bs.
Lemma sector_of i : i < n ->
  let s := 1 + if npb =? 0 then i * spn else i / npb in
  s * bs + spn * bs <= length F /\
  slice s 0 F = [] /\
  slice (s * bs) (spn * bs) F = if npb =? 0 then wide tsz asz c bs i else block tsz asz c bs npb (i / npb).
Proof.
  intros Hi. rewrite F_length. cbv zeta. unfold spn.
  destruct (Nat.eqb_spec npb 0) as [Hz|Hz].
  - assert (HNB : nb = n * div_ceil nl bs).
    { unfold nb, num_blocks. fold npb. rewrite Hz. reflexivity. }
    rewrite Hz. cbn [Nat.ltb Nat.leb]. rewrite HNB.
    assert (HI : i * div_ceil nl bs + div_ceil nl bs <= n * div_ceil nl bs).
    { clear - Hi. generalize (div_ceil nl bs). intros q. nia. }
    set (q := div_ceil nl bs) in *.
    assert (HX : (1 + i * q) * bs + q * bs <= (n * q + 1) * bs).
    { clear - HI. generalize dependent (n * q). intros. nia. }
    split; [exact HX|]. split; [reflexivity|].
    rewrite F_slice; [|clear; nia|rewrite HNB; exact HX].
    unfold pay, payload. fold npb. rewrite Hz. cbn [Nat.ltb Nat.leb].
    replace ((1 + i * q) * bs - bs) with (i * (q * bs)) by (clear; nia).
    rewrite slice_concat; [|exact pieces_wide|rewrite map_length, seq_length; exact Hi].
    rewrite nth_indep with (d' := wide tsz asz c bs 0) by (rewrite map_length, seq_length; exact Hi).
    rewrite map_nth, seq_nth by exact Hi. reflexivity.
  - assert (Hp : 0 < npb) by lia. destruct (Nat.ltb_spec 0 npb); [|lia].
    assert (HI : i / npb < nb).
    { unfold nb, num_blocks. fold npb. destruct (Nat.ltb_spec 0 npb); [|lia]. apply div_ceil_cover; auto. }
    assert (HX : (1 + i / npb) * bs + 1 * bs <= (nb + 1) * bs).
    { clear - HI. generalize dependent (i / npb). intros. nia. }
    split; [exact HX|]. split; [reflexivity|].
    set (q := i / npb) in *.
    rewrite F_slice; [|clear; nia|exact HX].
    unfold pay, payload. fold npb nb. destruct (Nat.ltb_spec 0 npb); [|lia].
    replace ((1 + q) * bs - bs) with (q * bs) by (clear; nia). rewrite Nat.mul_1_l.
    rewrite slice_concat; [|exact (pieces_blocks Hp)|rewrite map_length, seq_length; exact HI].
    rewrite nth_indep with (d' := block tsz asz c bs npb 0) by (rewrite map_length, seq_length; exact HI).
    rewrite map_nth, seq_nth by exact HI. reflexivity.
Qed.

(** The bytes of node [i] inside its sector. *)
Lemma node_in_sector i : i < n ->
  let sec := if npb =? 0 then wide tsz asz c bs i else block tsz asz c bs npb (i / npb) in
  let off := if npb =? 0 then 0 else i mod npb * nl in
  off + nl <= length sec /\ slice off nl sec = node tsz asz c i.
Proof.
  intros Hi. pose proof (node_length dbg tsz asz c OK) as HNL.
  destruct (Nat.eqb_spec npb 0) as [Hz|Hz]; cbv zeta.
  - unfold wide. rewrite app_length, HNL by exact Hi. fold nl. split; [lia|].
    apply slice_0_exact. apply HNL. exact Hi.
  - assert (Hp : 0 < npb) by lia.
    pose proof (Nat.div_mod i npb Hz) as HDM. pose proof (Nat.mod_upper_bound i npb Hz) as HMB.
    assert (HC : i mod npb < cnt c npb (i / npb)).
    { unfold cnt. fold n. clear - HDM HMB Hi. generalize dependent (i / npb). generalize dependent (i mod npb). intros. nia. }
    assert (HS : i / npb * npb + cnt c npb (i / npb) <= n).
    { unfold cnt. fold n. clear - HDM HMB Hi. generalize dependent (i / npb). generalize dependent (i mod npb). intros. nia. }
    unfold block. fold nl.
    set (m := cnt c npb (i / npb)) in *. set (q := i / npb) in *. set (r := i mod npb) in *.
    assert (HNodes : length (nodes tsz asz c (q * npb) m) = m * nl) by (apply (nodes_length dbg); auto).
    assert (HR : r * nl + nl <= m * nl) by (clear - HC; nia).
    rewrite app_length, HNodes. split; [lia|].
    rewrite slice_app_l by (rewrite HNodes; auto). unfold nodes.
    rewrite slice_concat.
    + rewrite nth_indep with (d' := node tsz asz c 0) by (rewrite map_length, seq_length; exact HC).
      rewrite map_nth, seq_nth by exact HC. f_equal. lia.
    + apply Forall_map, Forall_forall. intros x Hx. apply in_seq in Hx. apply HNL. fold n. lia.
    + rewrite map_length, seq_length. exact HC.
Qed.

(** ** The header *)
Hypothesis HNL64 : u64_ok (N.of_nat nl).
Hypothesis HSZ64 : u64_ok (N.of_nat ((nb + 1) * bs)).
Lemma u32_64 x : u32_ok x -> u64_ok x.
Proof. unfold u32_ok, u64_ok. change (pow256 4) with 4294967296%N. change (pow256 8) with 18446744073709551616%N. lia. Qed.
Lemma hdr_ok : header_ok hdr.
Proof.
  pose proof OK as [O1 O2 O3 O4 O5 O6 O7 O8 O9 O10].
  assert (HBS64 : u64_ok (N.of_nat bs)). { unfold u64_ok in *. clear - HSZ64. nia. }
  constructor; cbn [hdr final_header h_block_size h_version v_major v_minor]; auto; try reflexivity.
  constructor; cbn [hdr final_header h_meta m_num_pts m_dims m_medoid m_node_len m_nodes_per_block m_frozen_num m_frozen_loc m_file_size m_assoc_len];
    auto using u32_64.
  - unfold npb_of. unfold u64_ok in *. fold nl. pose proof (Nat.div_le_upper_bound bs nl bs) as HD.
    assert (0 < nl) by (apply (nl_pos tsz asz c)).
    assert (bs / nl <= bs). { apply HD; [lia|]. clear - H. nia. } clear HD. generalize dependent (bs / nl). intros. lia.
  - destruct (c_frozen c =? 1)%N; auto using u32_64. reflexivity.
  - unfold u64_ok in *. assert (aw <= nl); [|fold aw; lia]. unfold nl, node_bytes_len. fold aw. lia.
Qed.
Lemma get_header_ok sector : 104 <= sector ->
  get_header sector F = if sector <=? length F then Some hdr else None.
Proof.
  intros HS. unfold get_header.
  assert (HD : div_ceil header_size sector = 1).
  { unfold div_ceil, header_size, meta_size. symmetry. apply Nat.div_unique with (r := 8 * 10 + 8 + 8 - 1); lia. }
  rewrite HD, Nat.mul_1_l. unfold read_exact. cbn [Nat.add].
  destruct (Nat.leb_spec sector (length F)); cbn [bind]; auto.
  change (slice 0 sector F) with (firstn sector F). rewrite F_head, firstn_app, header_block_len.
  rewrite firstn_all2 by (rewrite header_block_len; auto).
  unfold header_block. rewrite <- !app_assoc.
  rewrite (app_assoc (le_enc 4 _) (le_enc 4 _)).
  rewrite (skipn_app_exact 8) by (rewrite app_length, !le_enc_length; reflexivity).
  apply header_round, hdr_ok.
Qed.

(** ** The provider *)
Variable sector : nat.
Lemma vp_new_fields max :
  let vp := vp_new sector tsz max hdr in
  vp_vlen vp = vlen /\ vp_bs vp = bs /\ vp_npb vp = npb /\ vp_spn vp = spn /\ vp_nlen vp = nl /\ vp_alen vp = aw.
Proof.
  cbn. unfold version_eqb. cbn. rewrite !Nat2N.id. fold npb nl.
  destruct (Nat.eqb_spec bs 0); [lia|]. repeat split.
Qed.

Definition sec_of (v : N) : bytes :=
  if npb =? 0 then wide tsz asz c bs (N.to_nat v) else block tsz asz c bs npb (N.to_nat v / npb).
Record vp_ok (batch done : list N) (vp : vprov) : Prop := {
  vk_f : vp_vlen vp = vlen /\ vp_bs vp = bs /\ vp_npb vp = npb /\ vp_spn vp = spn /\ vp_nlen vp = nl /\ vp_alen vp = aw;
  vk_ids : Forall (fun v => N.to_nat v < n) batch;
  vk_max : length batch <= vp_max vp;
  vk_slots : length (vp_sectors vp) = vp_max vp /\ length (vp_vecs vp) = vp_max vp;
  vk_secs : forall i v, nth_error batch i = Some v -> nth_error (vp_sectors vp) i = Some (sec_of v);
  vk_keys : map fst (vp_loaded vp) = done;
  vk_nodup : NoDup done;
  vk_adj : length (vp_adj vp) = length done;
  vk_ad : length (vp_ad vp) = length done;
  vk_get : forall v i j, In (v, (i, j)) (vp_loaded vp) ->
     nth_error batch j = Some v /\ i < length done /\
     nth_error (vp_vecs vp) j = Some (nvec c (N.to_nat v)) /\
     nth_error (vp_adj vp) i = Some (nlist c (N.to_nat v)) /\
     nth_error (vp_ad vp) i = Some (adata c (N.to_nat v)) }.

Lemma vp_new_ok max : vp_ok [] [] (vp_new sector tsz max hdr).
Proof.
  constructor; cbn [length]; try apply vp_new_fields; try (intros; contradiction); auto.
  - lia.
  - split; apply repeat_length.
  - intros [|i] v; discriminate.
  - constructor.
Qed.

Lemma read_sectors_ok ids : Forall (fun v => N.to_nat v < n) ids -> forall f,
  (forall v, In v ids -> f v = 1 + if npb =? 0 then N.to_nat v * spn else N.to_nat v / npb) ->
  read_sectors bs (spn * bs) F (map f ids) = Some (map sec_of ids).
Proof.
  induction 1 as [|v ids Hv H IH]; intros f Hf; cbn [map read_sectors]; auto.
  destruct (sector_of (N.to_nat v) Hv) as (HL & _ & HS).
  rewrite (Hf v) by (left; auto). rewrite read_exact_ok by exact HL.
  cbn [bind]. rewrite IH by (intros; apply Hf; right; auto). cbn [bind].
  rewrite HS. reflexivity.
Qed.

Lemma vp_load_ok batch done vp ids : vp_ok batch done vp -> Forall (fun v => N.to_nat v < n) ids ->
  exists vp', vp_load F ids vp = Some vp' /\ vp_ok ids [] vp'.
Proof.
  intros [(K1 & K2 & K3 & K4 & K5 & K6) _ _ [K7 K7'] _ _ _ _ _ _] HI. unfold vp_load.
  rewrite K2, K4.
  assert (HB0 : 0 < bs) by (clear - HBS; lia).
  assert (HZ : spn * bs <> 0).
  { unfold spn. destruct (Nat.ltb_spec 0 npb); [clear - HB0; lia|]. pose proof (div_ceil_ge nl bs HB0) as HG.
    assert (HP : 0 < nl) by (apply (nl_pos tsz asz c)). intros HE. rewrite HE in HG. clear - HG HP. lia. }
  rewrite guard_true by (apply negb_true_iff, Nat.eqb_neq; auto).
  set (P := if vp_max vp <? length ids then _ else _).
  assert (HP : exists mx secs vecs, P = (mx, secs, vecs) /\ length ids <= mx /\ length secs = mx /\ length vecs = mx).
  { unfold P. destruct (Nat.ltb_spec (vp_max vp) (length ids)).
    - do 3 eexists; split; [reflexivity|]. rewrite !repeat_length. auto.
    - do 3 eexists; split; [reflexivity|]. auto. }
  destruct HP as (mx & secs & vecs & -> & HM & HS1 & HS2). cbn [bind].
  rewrite read_sectors_ok; auto.
  2:{ intros v Hv. unfold node_sector_index. rewrite K3, K4. auto. }
  cbn [bind]. eexists; split; [reflexivity|].
  constructor; cbn [vp_vlen vp_bs vp_npb vp_spn vp_nlen vp_alen vp_max vp_sectors vp_vecs vp_adj vp_ad vp_loaded map length]; auto.
  - repeat split; auto.
  - rewrite app_length, skipn_length, map_length. split; auto. lia.
  - intros i v Hv. assert (Hl : i < length ids) by (apply nth_error_Some; congruence).
    rewrite nth_error_app1 by (rewrite map_length; auto).
    rewrite nth_error_map, Hv. auto.
  - constructor.
  - intros; contradiction.
Qed.

Lemma node_parts i : i < n ->
  slice 0 vlen (node tsz asz c i) = nvec c i /\
  slice vlen 4 (node tsz asz c i) = le_enc 4 (N.of_nat (length (nlist c i))) /\
  slice (vlen + 4) (length (nlist c i) * 4) (node tsz asz c i) = concat (map (le_enc 4) (nlist c i)) /\
  slice (nl - aw) aw (node tsz asz c i) = adata c i /\
  vlen + 4 + length (nlist c i) * 4 + aw <= nl.
Proof.
  intros Hi. pose proof (nvec_len dbg tsz asz c OK i Hi) as HV. fold vlen in HV.
  pose proof (adata_len dbg tsz asz c OK i Hi) as HAd. fold aw in HAd.
  pose proof (fits dbg tsz asz c OK i Hi) as HF. fold vlen aw nl in HF.
  rewrite list_bytes_length in HF. unfold node.
  assert (HC : length (concat (map (le_enc 4) (nlist c i))) = length (nlist c i) * 4).
  { rewrite (concat_uniform_length 4).
    - rewrite map_length. lia.
    - apply Forall_map, Forall_forall. intros; apply le_enc_length. }
  split; [apply slice_0_exact; auto|]. split; [|split; [|split]].
  - rewrite slice_app_r, HV, Nat.sub_diag by lia. unfold list_bytes. rewrite <- !app_assoc.
    apply slice_0_exact, le_enc_length.
  - rewrite slice_app_r, HV by lia. unfold list_bytes. rewrite <- !app_assoc.
    rewrite slice_app_r, le_enc_length by (rewrite le_enc_length; lia).
    replace (vlen + 4 - vlen - 4) with 0 by lia. apply slice_0_exact. auto.
  - rewrite slice_app_r, HV by lia.
    rewrite slice_app_r, list_bytes_length by (rewrite list_bytes_length; lia).
    rewrite slice_app_r, repeat_length by (rewrite repeat_length; lia).
    replace (nl - aw - vlen - (4 + 4 * length (nlist c i)) - pad tsz asz c i) with 0 by lia.
    rewrite <- HAd. apply slice_all.
  - lia.
Qed.

Lemma vp_process_ok batch done vp v idx : vp_ok batch done vp ->
  nth_error batch idx = Some v -> ~ In v done ->
  exists vp', vp_process v idx vp = Some vp' /\ vp_ok batch (v :: done) vp'.
Proof.
  intros HK HB HN. pose proof HK as [(K1 & K2 & K3 & K4 & K5 & K6) HI KM [K7 K7'] K8 K9 K10 K11 K12 K13].
  assert (Hv : N.to_nat v < n). { eapply Forall_forall in HI; [exact HI|]. eapply nth_error_In; eauto. }
  assert (Hx : idx < length batch) by (apply nth_error_Some; congruence).
  destruct (node_in_sector (N.to_nat v) Hv) as (HL & HSl).
  destruct (node_parts (N.to_nat v) Hv) as (P1 & P2 & P3 & P4 & P5).
  destruct (nlist_ok dbg tsz asz c OK (N.to_nat v) Hv) as (HD & HU & _).
  pose proof (node_length dbg tsz asz c OK (N.to_nat v) Hv) as HNL. fold nl in HNL.
  unfold vp_process. rewrite (K8 _ _ HB). cbn [bind].
  assert (HOff : node_offset vp v = if npb =? 0 then 0 else N.to_nat v mod npb * nl).
  { unfold node_offset. rewrite K3, K5. auto. }
  rewrite HOff, K1, K5, K6. unfold sec_of. rewrite read_exact_ok by exact HL. cbn [bind].
  rewrite HSl. rewrite read_exact_ok by lia. cbn [bind]. rewrite P1.
  rewrite guard_true by (apply Nat.ltb_lt; lia). cbn [bind].
  assert (HSk : forall o k, slice o k (skipn vlen (node tsz asz c (N.to_nat v))) = slice (vlen + o) k (node tsz asz c (N.to_nat v))).
  { intros. unfold slice. rewrite skipn_skipn'. auto. }
  rewrite read_exact_ok by (rewrite skipn_length; lia). cbn [bind].
  rewrite HSk, Nat.add_0_r, P2.
  rewrite le_dec_enc by (pose proof (co_md _ _ _ _ OK); unfold u32_ok in *; lia).
  rewrite Nat2N.id. rewrite read_exact_ok by (rewrite skipn_length; lia). cbn [bind].
  rewrite HSk, P3. rewrite guard_true by (apply Nat.leb_le; lia). cbn [bind].
  rewrite read_exact_ok by (rewrite skipn_length; lia). cbn [bind].
  rewrite HSk. replace (vlen + (nl - vlen - aw)) with (nl - aw) by lia. rewrite P4.
  rewrite <- (app_nil_r (concat _)), dec_enc_u32s by auto.
  assert (HLd : length (vp_loaded vp) = length done) by (rewrite <- K9, map_length; auto).
  rewrite HLd. eexists; split; [reflexivity|].
  assert (HFil : filter (fun e => negb (fst e =? v)%N) (vp_loaded vp) = vp_loaded vp).
  { rewrite <- K9 in HN. clear - HN. induction (vp_loaded vp) as [|[k x] l IH]; cbn in *; auto.
    destruct (N.eqb_spec k v); cbn; [tauto|]. rewrite IH; tauto. }
  rewrite HFil.
  constructor; cbn [vp_vlen vp_bs vp_npb vp_spn vp_nlen vp_alen vp_max vp_sectors vp_vecs vp_adj vp_ad vp_loaded map length fst]; auto.
  - repeat split; auto.
  - rewrite set_nth_length. auto.
  - now rewrite K9.
  - constructor; auto.
  - rewrite app_length. cbn. lia.
  - rewrite app_length. cbn. lia.
  - intros w i j [[= <- <- <-]|HIn].
    + split; auto. split; [lia|]. split; [|split].
      * rewrite nth_error_set_nth, Nat.eqb_refl. destruct (Nat.ltb_spec idx (length (vp_vecs vp))); auto; lia.
      * rewrite nth_error_app2 by lia. rewrite K11, Nat.sub_diag. auto.
      * rewrite nth_error_app2 by lia. rewrite K12, Nat.sub_diag. auto.
    + destruct (K13 _ _ _ HIn) as (A1 & A2 & A3 & A4 & A5).
      split; auto. split; [lia|]. split; [|split].
      * rewrite nth_error_set_nth. destruct (Nat.eqb_spec j idx) as [->|]; auto.
        exfalso. apply HN. rewrite <- K9. assert (w = v) by congruence. subst. apply (in_map fst) in HIn. exact HIn.
      * rewrite nth_error_app1 by lia. auto.
      * rewrite nth_error_app1 by lia. auto.
Qed.

Lemma vp_run_ok ops batch done vp : vp_ok batch done vp -> good_use n batch done ops ->
  exists vp' batch', vp_run F ops vp = Some vp' /\ vp_ok batch' (processed done ops) vp'.
Proof.
  revert batch done vp. induction ops as [|o ops IH]; intros batch done vp HK HG; cbn [vp_run processed] in *.
  - eauto.
  - destruct o as [ids|v idx]; cbn [good_use vp_op processed] in *.
    + destruct HG as (HI & HG). destruct (vp_load_ok _ _ _ _ HK HI) as (vp' & -> & HK'). cbn [bind]. eauto.
    + destruct HG as (HB & HN & HG). destruct (vp_process_ok _ _ _ _ _ HK HB HN) as (vp' & -> & HK'). cbn [bind]. eauto.
Qed.
Lemma vp_get_ok batch done vp v : vp_ok batch done vp ->
  if existsb (N.eqb v) done
  then vp_vector v vp = vector_of c v /\ vp_neighbors v vp = neighbors_of c v /\ vp_data v vp = assoc_of c v
       /\ vector_of c v <> None
  else vp_vector v vp = None /\ vp_neighbors v vp = None /\ vp_data v vp = None.
Proof.
  intros HK. unfold vp_vector, vp_neighbors, vp_data, vp_find.
  destruct (existsb (N.eqb v) done) eqn:E.
  - apply existsb_exists in E. destruct E as (w & HIn & HE). apply N.eqb_eq in HE. subst w.
    destruct (find (fun e => (fst e =? v)%N) (vp_loaded vp)) as [[k [i j]]|] eqn:EF; cbn [option_map snd bind].
    + apply find_some in EF. destruct EF as [EF1 EF2]. cbn in EF2. apply N.eqb_eq in EF2. subst k.
      destruct (vk_get _ _ _ HK _ _ _ EF1) as (A1 & _ & A2 & A3 & A4).
      assert (Hv : N.to_nat v < n).
      { pose proof (vk_ids _ _ _ HK) as HI. eapply Forall_forall in HI; [exact HI|]. eapply nth_error_In; eauto. }
      rewrite A2, A3, A4. unfold vector_of, neighbors_of, assoc_of, nvec, nlist, adata.
      rewrite (nth_error_nth' (c_vecs c) []) by exact Hv.
      rewrite (nth_error_nth' (c_adj c) []) by (rewrite (co_adj_n _ _ _ _ OK); exact Hv).
      pose proof (co_assoc _ _ _ _ OK) as HA.
      destruct (c_assoc c) as [[k rows]|].
      * rewrite (nth_error_nth' rows []) by (destruct HA as (_ & -> & _); exact Hv). repeat split; discriminate.
      * repeat split; discriminate.
    + exfalso. rewrite <- (vk_keys _ _ _ HK) in HIn. apply in_map_iff in HIn. destruct HIn as ([k x] & HE & HI).
      eapply find_none in EF; [|exact HI]. cbn in *. subst. rewrite N.eqb_refl in EF. discriminate.
  - destruct (find _ _) as [[k x]|] eqn:EF; cbn; auto.
    exfalso. apply find_some in EF. destruct EF as [EF1 EF2]. cbn in EF2. apply N.eqb_eq in EF2. subst k.
    assert (HT : existsb (N.eqb v) done = true); [|congruence].
    apply existsb_exists. exists v. split; [|apply N.eqb_refl]. rewrite <- (vk_keys _ _ _ HK). apply (in_map fst) in EF1. exact EF1.
Qed.
End Read.
