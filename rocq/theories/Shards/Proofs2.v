(** Lemmas about reading chosen vectors and copying the vectors of a shard. *)
From Coq Require Import List NArith ZArith Bool Permutation Sorting Lia ZifyNat ZifyN ZifyBool.
From Verif.Lib Require Import Base Lists Bytes.
From Verif.Disk Require Import Model Spec Proofs ProofsLayout Props.
From Verif.GraphFile Require Import Model Spec Proofs ProofsMain.
From Verif.Shards Require Import Model Spec Proofs.
Import ListNotations.

(** The reader reads the file of [vecs] and is at a vector boundary. *)
Record vr_at (tsz : nat) (dim : N) (vecs : list bytes) (r : vreader) : Prop := {
  va_file : vr_file r = bin_file dim vecs;
  va_npts : vr_npts r = N.of_nat (length vecs);
  va_dim : vr_dim r = dim;
  va_pos : vr_pos r = 8 + N.to_nat (vr_cur r) * (N.to_nat dim * tsz) }.

Lemma vr_new_at tsz dim vecs : u32_ok dim -> u32_ok (N.of_nat (length vecs)) -> Forall (fun v => length v = N.to_nat dim * tsz) vecs ->
  exists r, vr_new tsz (bin_file dim vecs) = Some r /\ vr_at tsz dim vecs r /\ vr_cur r = 0%N /\ vr_dim r = dim.
Proof.
  intros HD HN HV. unfold vr_new. unfold bin_file at 1. rewrite read_metadata_app by assumption. cbn [bind].
  rewrite (bin_file_length (N.to_nat dim * tsz)) by exact HV.
  destruct (N.eqb_spec (N.of_nat (8 + length vecs * (N.to_nat dim * tsz))) (8 + N.of_nat (length vecs) * dim * N.of_nat tsz)) as [_|E]; [|exfalso; apply E; lia].
  cbn [guard bind]. eexists. split; [reflexivity|]. repeat split.
Qed.

Lemma read_vectors_ok {St} (process : St -> bytes -> St * bool) tsz dim vecs : Forall (fun v => length v = N.to_nat dim * tsz) vecs ->
  forall ids r st, vr_at tsz dim vecs r ->
  let '(r', st', ok) := read_vectors process tsz ids r st in
  process_ids process vecs ids st = (st', ok) /\
  (ok = true \/ Exists (fun i => (N.of_nat (length vecs) <= i)%N) ids /\ (forall s b, snd (process s b) = true) -> vr_at tsz dim vecs r').
Proof.
  intros HV. set (w := N.to_nat dim * tsz) in *. induction ids as [|i ids IH]; intros r st [F Hn D P]; cbn [read_vectors process_ids].
  { split; [reflexivity|]. intros _. now constructor. }
  rewrite Hn, D, F. fold w in P |- *. destruct (N.leb_spec (N.of_nat (length vecs)) i) as [O|O].
  { destruct (nth_error vecs (N.to_nat i)) eqn:E; [apply nth_error_lt in E; lia|]. split; [reflexivity|]. intros _. now constructor. }
  destruct (nth_error vecs (N.to_nat i)) as [v|] eqn:E; [|apply nth_error_None in E; lia].
  set (pos := (Z.of_nat (vr_pos r) + (Z.of_N i - Z.of_N (vr_cur r)) * Z.of_nat w)%Z).
  assert (PE : pos = Z.of_nat (8 + N.to_nat i * w)). { unfold pos. rewrite P. clear. lia. }
  rewrite PE. destruct (Z.ltb_spec (Z.of_nat (8 + N.to_nat i * w)) 0) as [X|_]; [lia|]. rewrite Nat2Z.id.
  assert (IL : N.to_nat i < length vecs) by lia.
  unfold read_exact. rewrite (bin_file_length w) by exact HV.
  destruct (Nat.leb_spec (8 + N.to_nat i * w + w) (8 + length vecs * w)) as [_|X]; [|clear -X IL; nia].
  rewrite bin_file_row by assumption. rewrite (nth_error_nth _ _ [] E).
  destruct (process st v) as [st1 ok] eqn:PR. destruct ok.
  - specialize (IH (mkvr (bin_file dim vecs) (8 + N.to_nat i * w + w) (N.of_nat (length vecs)) dim (i + 1)%N) st1).
    destruct (read_vectors process tsz ids _ st1) as [[r' st'] ok]. destruct IH as [A B].
    { constructor; cbn; auto. fold w. lia. }
    split; [exact A|]. intros [H|[H Q]]; apply B; [now left|right]. split; [|exact Q]. inversion H; subst; [lia|assumption].
  - split; [reflexivity|]. intros [?|[_ Q]]; [discriminate|]. specialize (Q st v). rewrite PR in Q. discriminate.
Qed.

Lemma read_idmap_ok M ids : Forall u32_ok ids -> u32_ok (N.of_nat (length ids)) -> (4 * N.of_nat (length ids) <= M)%N ->
  read_idmap M (ids_file ids) = Some ids.
Proof.
  intros U L HM. unfold read_idmap, ids_file, read_bin.
  set (rs := map (le_enc 4) ids). assert (LR : length rs = length ids) by apply map_length.
  assert (FR : Forall (fun r => length r = 4) rs) by (apply Forall_map, Forall_forall; intros; apply le_enc_length).
  unfold bin_file. rewrite LR, read_metadata_app by (auto; reflexivity). cbn [bind].
  rewrite N.mul_1_r. destruct (N.leb_spec (N.of_nat (length ids)) M) as [_|]; [|lia]. cbn [guard bind].
  destruct (N.leb_spec (N.of_nat (length ids) * N.of_nat 4) M) as [_|]; [|lia]. cbn [guard bind].
  rewrite (concat_uniform_length 4) by exact FR. rewrite LR.
  destruct (N.ltb_spec (N.of_nat (length ids * 4)) (N.of_nat (length ids) * N.of_nat 4)) as [|_]; [lia|]. cbn [negb guard bind].
  rewrite <- (app_nil_r (concat rs)). rewrite Nat2N.id. change (N.to_nat 1 * 4) with 4. rewrite <- LR at 2. rewrite rows_concat by exact FR.
  unfold rs. f_equal. rewrite <- (app_nil_r (concat _)). rewrite N.mul_1_r, Nat2N.id. now apply dec_enc_u32s.
Qed.

Definition copy_process (st : list wop * N) (b : bytes) : (list wop * N) * bool := ((fst st ++ [WWrite b], (snd st + 1)%N), true).
Lemma copy_ids vecs ids : Forall (fun i => (i < N.of_nat (length vecs))%N) ids -> forall ops n,
  process_ids copy_process vecs ids (ops, n) =
  ((ops ++ opw (map (fun i => nth (N.to_nat i) vecs []) ids), n + N.of_nat (length ids)), true)%N.
Proof.
  induction 1 as [|i ids Hi F IH]; intros ops n; cbn [process_ids map length opw].
  - now rewrite app_nil_r, N.add_0_r.
  - destruct (nth_error vecs (N.to_nat i)) as [v|] eqn:E; [|apply nth_error_None in E; lia].
    cbn [copy_process fst snd]. rewrite IH. rewrite (nth_error_nth _ _ [] E). rewrite <- app_assoc. cbn [app opw map].
    replace (n + 1 + N.of_nat (length ids))%N with (n + N.of_nat (S (length ids)))%N by lia. reflexivity.
Qed.

Lemma shard_vectors_ok M tsz dim vecs ids : u32_ok dim -> u32_ok (N.of_nat (length vecs)) ->
  Forall (fun v => length v = N.to_nat dim * tsz) vecs -> Forall (fun i => (i < N.of_nat (length vecs))%N) ids ->
  u32_ok (N.of_nat (length ids)) -> (4 * N.of_nat (length ids) <= M)%N ->
  exists ops, shard_vectors M tsz (bin_file dim vecs) (ids_file ids) = Some ops /\
    forall cs, 0 < cs -> saved cs ops = bin_file dim (map (fun i => nth (N.to_nat i) vecs []) ids).
Proof.
  intros HD HN HV HI HL HM. unfold shard_vectors.
  rewrite read_idmap_ok; auto. 2:{ eapply Forall_impl; [|exact HI]. intros i Hi. unfold u32_ok in *. lia. }
  cbn [bind]. destruct (vr_new_at tsz dim vecs HD HN HV) as (r & -> & AT & _ & DR). cbn [bind]. rewrite DR.
  pose proof (read_vectors_ok copy_process tsz dim vecs HV ids r ([WWrite (le_enc 4 0); WWrite (le_enc 4 dim)], 0%N) AT) as R.
  unfold copy_process at 1 in R. destruct (read_vectors _ tsz ids r _) as [[r' [ops n]] ok]. destruct R as [R _].
  rewrite copy_ids, N.add_0_l in R by exact HI. injection R as <- <- <-.
  eexists. split; [reflexivity|]. intros cs C.
  set (vs := map (fun i => nth (N.to_nat i) vecs []) ids). assert (LV : length vs = length ids) by apply map_length.
  transitivity (saved cs (opw (le_enc 4 0 :: le_enc 4 dim :: vs) ++ [WFlush] ++ WReset :: opw [le_enc 4 (N.of_nat (length ids))] ++ [])); [reflexivity|].
  rewrite saved_update; [|exact C|intros o [<-|[]]; reflexivity|intros o []].
  unfold bin_file. rewrite LV. cbn [concat]. rewrite app_nil_r. unfold put. cbn [firstn app Nat.add]. f_equal.
Qed.
