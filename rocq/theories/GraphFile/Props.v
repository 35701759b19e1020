(** Property theorems about the graph and vector file formats (C42, C43, C49, C50). *)
From Coq Require Import List NArith Bool Lia ZifyNat ZifyN ZifyBool.
From Verif.Lib Require Import Base Lists Bytes.
From Verif.Disk Require Import Model Spec.
From Verif.GraphFile Require Import Model Spec Proofs ProofsMain.
Import ListNotations.

(** ** C42: graphs *)

(** A graph whose lists respect the degree it declares is saved to the documented layout
    (the one [C38_layout_round_trip] starts from) and loads back. *)
Theorem C42_graph_round_trip start extra cfg lists : graph_ok start extra cfg lists ->
  (forall l, In l lists -> (N.of_nat (length l) <= saved_degree cfg lists)%N) ->
  exists w size, save_graph start extra cfg (map Some lists) = (w, Some size) /\
    size = N.of_nat (length (file_of w)) /\
    file_of w = graph_file size (saved_degree cfg lists) start extra lists /\
    load_graph (file_of w) = LOk (mklg (length lists) (saved_degree cfg lists) extra lists).
Proof. exact (c42_round start extra cfg lists). Qed.
Print Assumptions C42_graph_round_trip.
Example sample_graph_ok : graph_ok 2 1 (Some 4%N) [[1; 2]; []; [0; 1; 2]]%N
  /\ forall l, In l [[1; 2]; []; [0; 1; 2]]%N -> (N.of_nat (length l) <= saved_degree (Some 4%N) [[1; 2]; []; [0; 1; 2]]%N)%N.
Proof.
  split; [split; repeat constructor|]. intros l [<-|[<-|[<-|[]]]]; cbn; lia.
Qed.

(** A save that stops before its final header update (a crash after [k] bytes, or an error
    while fetching a list) leaves a file that is rejected or loads as an empty graph. *)
Theorem C42_interrupted_save_is_empty start extra cfg lists w r k : u64_ok extra ->
  save_graph start extra cfg lists = (w, r) -> r = None \/ k <= length (file_of w) ->
  load_graph (crash_file k w) = if k <? 24 then LErr else LOk (mklg 0 0 extra []).
Proof. exact (c42_interrupted start extra cfg lists w r k). Qed.
Print Assumptions C42_interrupted_save_is_empty.
Example sample_interrupted :
  let w := fst (save_graph 0 0 None [Some [1; 2]; Some [0]; None]%N) in
  snd (save_graph 0 0 None [Some [1; 2]; Some [0]; None]%N) = None /\ length (file_of w) = 44
  /\ load_graph (crash_file 40 w) = LOk (mklg 0 0 0 []).
Proof. vm_compute. auto. Qed.

(** For every crash point, including inside the final header update: the load ends, and what
    it loads without error is a prefix of the saved lists.  It panics only inside the header
    update, or if a list exceeds the declared degree. *)
Theorem C42_crash_loads_a_prefix start extra cfg lists w r k : graph_ok start extra cfg lists ->
  save_graph start extra cfg (map Some lists) = (w, r) ->
  match load_graph (crash_file k w) with
  | LOk g => exists m, m <= length lists /\ lg_lists g = firstn m lists /\ lg_points g = m /\ lg_extra g = extra
  | LErr => k < 24
  | LPanic => length (file_of w) < k < length (file_of w) + 12 \/
              (exists l, In l lists /\ (saved_degree cfg lists < N.of_nat (length l))%N)
  | LDiverge => False
  end.
Proof. exact (c42_crash start extra cfg lists w r k). Qed.
Print Assumptions C42_crash_loads_a_prefix.

(** Loading any byte string ends; if it succeeds, the lists respect the announced degree and
    number of points. *)
Theorem C42_load_total f : load_graph f <> LDiverge /\
  (forall g, load_graph f = LOk g -> lg_points g = length (lg_lists g)
     /\ Forall (fun l => N.of_nat (length l) <= lg_degree g)%N (lg_lists g)).
Proof. exact (load_graph_total f). Qed.
Print Assumptions C42_load_total.

(** Finding: a crash inside the final header update can load as a part of the graph. *)
Lemma empty_lists_ok n : (N.of_nat n < 1000)%N -> graph_ok 0 0 None (repeat [] n).
Proof.
  intros H. split; try reflexivity.
  - apply Forall_forall. intros x Hx. apply repeat_spec in Hx. subst. split; [reflexivity|constructor].
  - assert (HC : concat (repeat (@nil N) n) = []) by (induction n; cbn; auto; apply IHn; lia).
    rewrite HC, repeat_length. unfold u64_ok. change (pow256 8) with (2 ^ 64)%N. cbn [length]. lia.
Qed.
Lemma c42_torn : ~ (forall start extra cfg lists w r k, graph_ok start extra cfg lists ->
  save_graph start extra cfg (map Some lists) = (w, r) ->
  forall g, load_graph (crash_file k w) = LOk g -> lg_lists g = [] \/ lg_lists g = lists).
Proof.
  intros H.
  destruct (save_graph 0 0 None (map Some (repeat [] 100))) as [w r] eqn:E.
  specialize (H 0%N 0%N None (repeat [] 100) w r (length (file_of w) + 1) (empty_lists_ok 100 eq_refl) E).
  vm_compute in E. injection E as E _. rewrite <- E in H.
  specialize (H _ ltac:(vm_compute; reflexivity)). cbn in H. destruct H; discriminate.
Qed.
Theorem C42_torn_header_refuted : ~ (forall start extra cfg lists w r k, graph_ok start extra cfg lists ->
  save_graph start extra cfg (map Some lists) = (w, r) ->
  forall g, load_graph (crash_file k w) = LOk g -> lg_lists g = [] \/ lg_lists g = lists).
Proof. exact c42_torn. Qed.
Print Assumptions C42_torn_header_refuted.

(** Finding: a configured degree below the real one is saved without complaint, and loading
    the file panics. *)
Lemma c42_degree : ~ (forall start extra cfg lists, graph_ok start extra cfg lists ->
  load_graph (file_of (fst (save_graph start extra cfg (map Some lists)))) <> LPanic).
Proof.
  intros H. apply (H 0%N 0%N (Some 1%N) [[0; 0]]%N); [split; repeat constructor|vm_compute; reflexivity].
Qed.
Theorem C42_small_configured_degree_refuted : ~ (forall start extra cfg lists, graph_ok start extra cfg lists ->
  load_graph (file_of (fst (save_graph start extra cfg (map Some lists)))) <> LPanic).
Proof. exact c42_degree. Qed.
Print Assumptions C42_small_configured_degree_refuted.

(** ** C43: vectors *)

Theorem C43_vectors_round_trip tsz dim vecs : u32_ok dim -> u32_ok (N.of_nat (length vecs)) ->
  Forall (fun v => length v = N.to_nat dim * tsz) vecs ->
  exists w size, save_to_bin tsz dim (map Some vecs) = (w, Some size) /\
    size = N.of_nat (length (file_of w)) /\ file_of w = bin_file dim vecs /\
    load_from_bin tsz (file_of w) = LOk (mklv (N.of_nat (length vecs)) dim vecs).
Proof. exact (c43_round tsz dim vecs). Qed.
Print Assumptions C43_vectors_round_trip.
Example sample_vecs_ok : u32_ok 2 /\ u32_ok (N.of_nat (length [[1; 2]; [3; 4]]%N))
  /\ Forall (fun v => length v = N.to_nat 2 * 1) [[1; 2]; [3; 4]]%N.
Proof. repeat constructor. Qed.

(** Saving succeeds exactly when every vector is available and has the advertised dimension. *)
Theorem C43_save_accepts tsz dim vecs : u32_ok dim ->
  (snd (save_to_bin tsz dim vecs) <> None <-> Forall (fun v => exists b, v = Some b /\ length b = N.to_nat dim * tsz) vecs).
Proof. exact (c43_accept tsz dim vecs). Qed.
Print Assumptions C43_save_accepts.

Theorem C43_interrupted_save_is_empty tsz dim vecs w r k : u32_ok dim -> save_to_bin tsz dim vecs = (w, r) ->
  r = None \/ k <= length (file_of w) ->
  load_from_bin tsz (crash_file k w) = if k <? 8 then LErr else LOk (mklv 0 dim []).
Proof. exact (c43_interrupted tsz dim vecs w r k). Qed.
Print Assumptions C43_interrupted_save_is_empty.

Theorem C43_crash_loads_a_prefix tsz dim vecs w r k : u32_ok dim -> u32_ok (N.of_nat (length vecs)) ->
  Forall (fun v => length v = N.to_nat dim * tsz) vecs ->
  save_to_bin tsz dim (map Some vecs) = (w, r) ->
  match load_from_bin tsz (crash_file k w) with
  | LOk g => exists m, m <= length vecs /\ lv_points g = N.of_nat m /\ lv_dim g = dim /\ lv_vecs g = firstn m vecs
  | LErr => k < 8
  | _ => False
  end.
Proof. exact (c43_crash tsz dim vecs w r k). Qed.
Print Assumptions C43_crash_loads_a_prefix.

(** What loading any byte string gives: the complete records among those announced. *)
Theorem C43_load_exact tsz f : load_from_bin tsz f =
  if length f <? 8 then LErr
  else let n := le_dec (firstn 4 f) in let d := le_dec (firstn 4 (skipn 4 f)) in
       LOk (mklv n d (records (N.to_nat n) (N.to_nat d * tsz) (skipn 8 f))).
Proof. exact (c43_load_exact tsz f). Qed.
Print Assumptions C43_load_exact.

(** Finding: a truncated file is loaded without error, with fewer vectors than announced. *)
Lemma c43_truncated : ~ (forall tsz dim vecs k g, u32_ok dim -> Forall (fun v => length v = N.to_nat dim * tsz) vecs ->
  load_from_bin tsz (firstn k (bin_file dim vecs)) = LOk g -> lv_points g = N.of_nat (length (lv_vecs g))).
Proof.
  intros H. specialize (H 1 1%N [[7]; [8]]%N 9 (mklv 2 1 [[7%N]]) eq_refl ltac:(repeat constructor) eq_refl). discriminate.
Qed.
Theorem C43_truncated_file_refuted : ~ (forall tsz dim vecs k g, u32_ok dim ->
  Forall (fun v => length v = N.to_nat dim * tsz) vecs ->
  load_from_bin tsz (firstn k (bin_file dim vecs)) = LOk g -> lv_points g = N.of_nat (length (lv_vecs g))).
Proof. exact c43_truncated. Qed.
Print Assumptions C43_truncated_file_refuted.

(** Finding: a crash inside the final header update can load as a part of the vectors. *)
Lemma c43_torn : ~ (forall tsz dim vecs k g, u32_ok dim -> Forall (fun v => length v = N.to_nat dim * tsz) vecs ->
  load_from_bin tsz (crash_file k (fst (save_to_bin tsz dim (map Some vecs)))) = LOk g ->
  lv_vecs g = [] \/ lv_vecs g = vecs).
Proof.
  intros H. specialize (H 1 1%N (repeat [5%N] 257) 266 (mklv 1 1 [[5%N]]) eq_refl).
  destruct H as [H|H]; [| |discriminate|discriminate].
  - apply Forall_forall. intros x Hx. apply repeat_spec in Hx. subst. reflexivity.
  - vm_compute. reflexivity.
Qed.
Theorem C43_torn_header_refuted : ~ (forall tsz dim vecs k g, u32_ok dim ->
  Forall (fun v => length v = N.to_nat dim * tsz) vecs ->
  load_from_bin tsz (crash_file k (fst (save_to_bin tsz dim (map Some vecs)))) = LOk g ->
  lv_vecs g = [] \/ lv_vecs g = vecs).
Proof. exact c43_torn. Qed.
Print Assumptions C43_torn_header_refuted.

(** ** C49: matrices *)

(** A written matrix reads back (bytes after it are ignored); every truncation is rejected.
    [M] is the largest machine word. *)
Theorem C49_matrix_round_trip M tsz ncols mat rest : Forall (fun r => length r = N.to_nat ncols * tsz) mat ->
  (N.of_nat (length mat) < 2 ^ 32)%N -> (ncols < 2 ^ 32)%N ->
  (N.of_nat (length mat) * ncols <= M)%N -> (N.of_nat (length mat) * ncols * N.of_nat tsz <= M)%N ->
  exists f, write_bin tsz ncols mat = Some (f, N.of_nat (length f)) /\
    read_bin M tsz (f ++ rest) = Some (N.of_nat (length mat), ncols, mat) /\
    forall k, k < length f -> read_bin M tsz (firstn k f) = None.
Proof. exact (c49_round M tsz ncols mat rest). Qed.
Print Assumptions C49_matrix_round_trip.
(** Only a matrix whose shape fits the header is written. *)
Theorem C49_write_exact tsz ncols mat : (exists f n, write_bin tsz ncols mat = Some (f, n)) <->
  (N.of_nat (length mat) < 2 ^ 32)%N /\ (ncols < 2 ^ 32)%N.
Proof.
  unfold write_bin. cbv zeta. destruct (N.ltb_spec (N.of_nat (length mat)) (2 ^ 32)); cbn [guard bind];
    [destruct (N.ltb_spec ncols (2 ^ 32)); cbn [guard bind]|].
  - split; [auto|eauto].
  - split; [intros (? & ? & E); discriminate|lia].
  - split; [intros (? & ? & E); discriminate|lia].
Qed.
Print Assumptions C49_write_exact.
Example sample_write_exact : (exists f n, write_bin 1 3 [[1; 2; 3]; [4; 5; 6]]%N = Some (f, n)) /\ write_bin 1 (2 ^ 32) [] = None.
Proof. split; [do 2 eexists; vm_compute; reflexivity|vm_compute; reflexivity]. Qed.
(** Exactly the well-formed byte strings are accepted. *)
Theorem C49_read_exact M tsz f n d mat : read_bin M tsz f = Some (n, d, mat) <->
  8 <= length f /\ n = le_dec (firstn 4 f) /\ d = le_dec (firstn 4 (skipn 4 f)) /\
  (n * d <= M)%N /\ (n * d * N.of_nat tsz <= M)%N /\ (8 + n * d * N.of_nat tsz <= N.of_nat (length f))%N /\
  N.of_nat (length mat) = n /\ Forall (fun r => length r = N.to_nat d * tsz) mat /\
  concat mat = firstn (N.to_nat (n * d * N.of_nat tsz)) (skipn 8 f).
Proof. exact (c49_exact M tsz f n d mat). Qed.
Print Assumptions C49_read_exact.
Example sample_matrix :
  read_bin (2 ^ 64 - 1) 1 ([2; 0; 0; 0; 3; 0; 0; 0; 1; 2; 3; 4; 5; 6; 9]%N) = Some (2%N, 3%N, [[1; 2; 3]; [4; 5; 6]]%N)
  /\ read_bin (2 ^ 64 - 1) 4 ([255; 255; 255; 255; 255; 255; 255; 255]%N) = None.
Proof. vm_compute. auto. Qed.

(** A multi-vector file loads back; every truncation is rejected. *)
Theorem C49_multivec_round_trip tsz dim mats rest : u32_ok (N.of_nat (length mats)) -> u32_ok dim ->
  u32_ok (N.of_nat (length (concat mats))) ->
  Forall (fun m => m <> [] /\ Forall (fun r => length r = N.to_nat dim * tsz) m) mats ->
  load_multivec tsz (multivec_file dim mats ++ rest) =
    Some (N.of_nat (length mats), dim, N.of_nat (length (concat mats)), mats) /\
  forall k, k < length (multivec_file dim mats) -> load_multivec tsz (firstn k (multivec_file dim mats)) = None.
Proof. exact (c49_multivec tsz dim mats rest). Qed.
Print Assumptions C49_multivec_round_trip.
Example sample_multivec : Forall (fun m => m <> [] /\ Forall (fun r => length r = N.to_nat 1 * 1) m) [[[5]; [6]]; [[7]]]%N
  /\ load_multivec 1 (multivec_file 1 [[[5]; [6]]; [[7]]]%N) = Some (2%N, 1%N, 3%N, [[[5]; [6]]; [[7]]]%N)
  /\ load_multivec 1 (multivec_file 1 [[[5]]; []]%N) = None.
Proof. split; [repeat constructor; discriminate|]. vm_compute. auto. Qed.

(** ** C50: the vector iterator *)

(** The records of a vector file, paired with those of the associated data file. *)
Definition paired (tsz asz : nat) (f : bytes) (assoc : option bytes) : list (bytes * bytes) :=
  let n := N.to_nat (le_dec (firstn 4 f)) in
  let vs := records n (N.to_nat (le_dec (firstn 4 (skipn 4 f))) * tsz) (skipn 8 f) in
  match assoc with
  | None => map (fun v => (v, [])) vs
  | Some af => combine vs (records n (N.to_nat (le_dec (firstn 4 (skipn 4 af))) * asz) (skipn 8 af))
  end.
Lemma c50 tsz asz f assoc it ops : vi_new tsz asz f assoc = Some it ->
  map out_of (vi_run ops it) = list_run ops (paired tsz asz f assoc).
Proof.
  intros E. rewrite vi_run_items. f_equal. unfold vi_new in E.
  destruct (read_metadata f) as [[[n d] r]|] eqn:EM; [|discriminate]. cbn [bind] in E.
  apply read_metadata_Some in EM. destruct EM as (HL & -> & -> & ->).
  destruct assoc as [af|].
  - destruct (read_metadata af) as [[[m l] ar]|] eqn:EA; [|discriminate]. cbn [bind] in E.
    apply read_metadata_Some in EA. destruct EA as (HLA & -> & -> & ->).
    destruct (N.eqb_spec (le_dec (firstn 4 af)) (le_dec (firstn 4 f))); [|discriminate]. injection E as <-.
    unfold vi_items, paired. cbn [vi_n vi_cur vi_assoc vi_vs vi_rest]. rewrite Nat.sub_0_r. reflexivity.
  - injection E as <-. unfold vi_items, paired. cbn [vi_n vi_cur vi_assoc vi_vs vi_rest]. rewrite Nat.sub_0_r. reflexivity.
Qed.
(** Any history of [next], [nth] and [next_n] calls, on any pair of files (truncated ones
    included), sees exactly the list of complete records; skipping equals iterating. *)
Theorem C50_iterator_is_list_iterator tsz asz f assoc it ops : vi_new tsz asz f assoc = Some it ->
  map out_of (vi_run ops it) = list_run ops (paired tsz asz f assoc).
Proof. exact (c50 tsz asz f assoc it ops). Qed.
Print Assumptions C50_iterator_is_list_iterator.
Example c50_sample :
  option_map (vi_run [VNext; VNth 1; VNextN 5; VNext]) (vi_new 1 1 (bin_file 1 [[5]; [6]; [7]; [8]]%N) (Some (bin_file 1 [[1]; [2]; [3]; [4]]%N)))
  = Some [OOne (Some ([5], [1])); OOne (Some ([7], [3])); OMany (Some [([8], [4])]); OOne None]%N.
Proof. vm_compute. reflexivity. Qed.
