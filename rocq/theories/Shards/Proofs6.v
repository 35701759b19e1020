(** The statements of C79-C81. *)
From Coq Require Import List NArith ZArith Bool Permutation Sorting Lia ZifyNat ZifyN ZifyBool.
From Verif.Lib Require Import Base Lists Bytes.
From Verif.Disk Require Import Model Spec Proofs ProofsLayout Props.
From Verif.GraphFile Require Import Model Spec Proofs ProofsMain.
From Verif.Shards Require Import Model Spec Proofs Proofs2 Proofs3 Proofs4 Proofs5.
Import ListNotations.
Local Arguments le_enc : simpl never.

Lemma members_ext sel sel' n s : (forall i, i < n -> sel i = sel' i) -> members sel n s = members sel' n s.
Proof. intros H. unfold members. f_equal. apply filter_ext_in. intros i Hi. apply in_seq in Hi. rewrite H by lia. reflexivity. Qed.
Lemma seq_sorted n : forall a, StronglySorted lt (seq a n).
Proof.
  induction n as [|n IH]; intros a; cbn [seq]; constructor; [apply IH|]. apply Forall_forall. intros x Hx. apply in_seq in Hx. lia.
Qed.
Lemma members_ok sel n s : StronglySorted N.lt (members sel n s) /\ forall v, In v (members sel n s) <-> (v < N.of_nat n)%N /\ In s (sel (N.to_nat v)).
Proof.
  split.
  - unfold members. pose proof (StronglySorted_filter lt (fun i => existsb (Nat.eqb s) (sel i)) _ (seq_sorted n 0)) as H.
    induction H as [|a l S IH F]; [constructor|]. cbn [map]. constructor; [exact IH|]. apply Forall_map. eapply Forall_impl; [|exact F]. intros; cbn; lia.
  - intros v. unfold members. rewrite in_map_iff. split.
    + intros (i & <- & H). apply filter_In in H. destruct H as [H1 H2]. apply in_seq in H1. rewrite Nat2N.id. split; [lia|].
      apply existsb_exists in H2. destruct H2 as (x & I & E). apply Nat.eqb_eq in E. now subst x.
    + intros [L I]. exists (N.to_nat v). split; [lia|]. apply filter_In. split; [apply in_seq; lia|]. apply existsb_exists. exists s. split; [exact I|apply Nat.eqb_refl].
Qed.

Lemma partition_ok near rcs tsz dim parts vecs (sel : nat -> list nat) : u32_ok dim -> vecs <> [] -> (N.of_nat (length vecs) + 10000 <= 2 ^ 32)%N ->
  Forall (fun v => length v = N.to_nat dim * tsz) vecs ->
  (forall i v, nth_error vecs i = Some v -> near i v = Some (sel i) /\ NoDup (sel i) /\ Forall (fun s => s < parts) (sel i)) ->
  exists wss, shard_data near rcs tsz dim parts (bin_file dim vecs) = LOk wss /\ length wss = parts /\
    forall s ws, nth_error wss s = Some ws -> forall cs, 0 < cs -> saved cs ws = ids_file (members sel (length vecs) s).
Proof.
  intros HD NE HB HV HN. set (ss := map sel (seq 0 (length vecs))).
  assert (LS : length ss = length vecs) by (unfold ss; now rewrite map_length, seq_length).
  assert (NS : forall i, i < length vecs -> nth_error ss i = Some (sel i)).
  { intros i Hi. unfold ss. apply map_nth_error. rewrite nth_error_nth' with (d := 0) by (rewrite seq_length; lia). now rewrite seq_nth. }
  assert (IS : forall c, In c ss -> NoDup c /\ Forall (fun s => s < parts) c).
  { intros c Hc. apply in_map_iff in Hc. destruct Hc as (i & <- & Hi). apply in_seq in Hi.
    destruct (nth_error vecs i) as [v|] eqn:E; [|apply nth_error_None in E; lia]. specialize (HN i v E). tauto. }
  eexists. split; [apply (shard_data_ok near rcs tsz dim parts vecs ss); auto|].
  { apply Forall_forall. intros c Hc. now apply IS. }
  { intros i v E. rewrite NS by (now apply nth_error_lt in E). now apply HN in E. }
  split; [now rewrite map_length, seq_length|]. intros s ws H cs C.
  assert (SP : s < parts) by (apply nth_error_lt in H; now rewrite map_length, seq_length in H).
  rewrite (map_nth_error _ s (seq 0 parts) (d := s)) in H by (rewrite nth_error_nth' with (d := 0) by (rewrite seq_length; lia); now rewrite seq_nth).
  injection H as <-.
  assert (OF : of_shard s 0 ss = members sel (length vecs) s).
  { rewrite of_shard_filter by (apply Forall_forall; intros c Hc; now apply IS). rewrite LS. unfold members. f_equal.
    apply filter_ext_in. intros i Hi. apply in_seq in Hi. rewrite Nat.sub_0_r. rewrite (nth_error_nth _ _ [] (NS i ltac:(lia))). reflexivity. }
  unfold shard_writes. cbv beta. rewrite OF. apply shard_saved; [exact C|].
  destruct (members_ok sel (length vecs) s) as [S I].
  assert (L := sorted_length _ (N.of_nat (length vecs)) S). unfold u32_ok. change (pow256 4) with (2 ^ 32)%N.
  enough (N.of_nat (length (members sel (length vecs) s)) <= N.of_nat (length vecs))%N by lia. apply L. apply Forall_forall. intros v Hv. now apply I in Hv.
Qed.

Lemma initial_parts_ok c : (3 <= initial_parts c)%N /\ (initial_parts c mod 2 = 1)%N /\ (N.max 3 c <= initial_parts c <= N.max 3 c + 1)%N.
Proof.
  unfold initial_parts. set (x := N.max 3 c). assert (X : (3 <= x)%N) by (unfold x; lia). clearbody x.
  pose proof (N.mod_lt x 2 ltac:(lia)) as ML. destruct (N.eqb_spec (x mod 2) 0) as [E|E].
  - rewrite N.add_mod by lia. rewrite E. repeat split; try lia. 
  - repeat split; try lia.
Qed.
Lemma find_parts_ok over : forall fuel p q, find_parts fuel over p = Some q ->
  over q = false /\ exists i, (q = p + 2 * i)%N /\ forall j, (j < i)%N -> over (p + 2 * j)%N = true.
Proof.
  induction fuel as [|fuel IH]; intros p q H; [discriminate|]. cbn [find_parts] in H. destruct (over p) eqn:E.
  - apply IH in H. destruct H as (A & i & -> & B). split; [exact A|]. exists (i + 1)%N. split; [lia|]. intros j Hj.
    destruct (N.eq_dec j 0) as [->|NZ]; [now rewrite N.add_0_r|]. replace (p + 2 * j)%N with (p + 2 + 2 * (j - 1))%N by lia. apply B. lia.
  - injection H as <-. split; [exact E|]. exists 0%N. split; [lia|]. intros j Hj. lia.
Qed.
Lemma find_parts_total over : forall i p, over (p + 2 * N.of_nat i)%N = false -> forall fuel, i < fuel -> find_parts fuel over p <> None.
Proof.
  induction i as [|i IH]; intros p H [|fuel] HF; try lia; cbn [find_parts].
  - rewrite N.add_0_r in H. now rewrite H.
  - destruct (over p); [|discriminate]. apply IH; [|lia]. rewrite <- H. f_equal. lia.
Qed.

(** An empty shard cannot be merged. *)
Lemma read_medoids_empty maps : forall rs, In [] maps -> length rs = length maps -> forall x, read_medoids maps rs <> LOk x.
Proof.
  induction maps as [|ids maps IH]; intros [|r rs] I L x; try discriminate; [destruct I|]. cbn [read_medoids].
  destruct (cr_read_u32 r) as [[m|] r1]; [|discriminate]. destruct (cr_read 8 r1) as [[b|] r2]; [|discriminate].
  destruct I as [->|I].
  - destruct (N.to_nat m); discriminate.
  - destruct (nth_error ids (N.to_nat m)); [|discriminate]. injection L as L. destruct (read_medoids maps rs) as [[rs' ops]| | |] eqn:E; try discriminate.
    elim (IH rs I L _ E).
Qed.
Lemma read_idmap_empty M : read_idmap M (ids_file []) = Some [].
Proof. apply read_idmap_ok; [constructor|reflexivity|cbn; lia]. Qed.
Lemma read_idmaps_in M fs : forall maps, read_idmaps M fs = Some maps -> length maps = length fs /\ (In (ids_file []) fs -> In [] maps).
Proof.
  induction fs as [|f fs IH]; intros maps H; cbn [read_idmaps] in H; [injection H as <-; now split|].
  destruct (read_idmap M f) as [m|] eqn:E; [|discriminate]. cbn [bind] in H. destruct (read_idmaps M fs) as [ms|]; [|discriminate]. cbn [bind] in H.
  injection H as <-. destruct (IH ms eq_refl) as [A B]. split; [cbn; lia|]. intros [->|I]; [left|right; auto]. rewrite read_idmap_empty in E. congruence.
Qed.
Lemma open_length rcs fs : forall rs, open_readers rcs fs = Some rs -> length rs = length fs.
Proof.
  induction fs as [|f fs IH]; intros rs H; cbn [open_readers] in H; [now injection H as <-|].
  destruct (cr_new rcs f); [|discriminate]. cbn [bind] in H. destruct (open_readers rcs fs) as [rs'|]; [|discriminate]. cbn [bind] in H. injection H as <-.
  cbn [length]. f_equal. now apply IH.
Qed.
Lemma skip_length : forall rs rs', skip_widths rs = Some rs' -> length rs' = length rs.
Proof.
  induction rs as [|r rs IH]; intros rs' H; cbn [skip_widths] in H; [now injection H as <-|].
  destruct (cr_read 8 r) as [[b|] r1]; [|discriminate]. destruct (cr_read_u32 r1) as [[m|] r2]; [|discriminate].
  destruct (skip_widths rs) as [rs2|]; [|discriminate]. cbn [bind] in H. injection H as <-. cbn [length]. f_equal. now apply IH.
Qed.
Lemma merge_empty {Rng} (shuffle : Rng -> list N -> Rng * list N) rcs M rng maps graphs maxd : In (ids_file []) maps -> length graphs = length maps ->
  forall ops, merge_shards shuffle rcs M rng maps graphs maxd <> LOk ops.
Proof.
  intros I L ops. unfold merge_shards. destruct (read_idmaps M maps) as [ms|] eqn:E; [|discriminate]. cbn [lopt lbind].
  destruct (read_idmaps_in M maps ms E) as [LM IM]. destruct (_ <=? _)%N; [discriminate|].
  destruct (open_readers rcs graphs) as [rs|] eqn:E1; [|discriminate]. cbn [lopt lbind]. destruct (skip_widths rs) as [rs'|] eqn:E2; [|discriminate]. cbn [lopt lbind].
  apply open_length in E1. apply skip_length in E2.
  destruct (read_medoids ms rs') as [[r3 med]| | |] eqn:E3; try discriminate. elim (read_medoids_empty ms rs' (IM I) ltac:(lia) _ E3).
Qed.

Lemma process_ids_exists {St} (process : St -> bytes -> St * bool) vecs ids : (forall s b, snd (process s b) = true) -> forall st st',
  process_ids process vecs ids st = (st', false) -> Exists (fun i => (N.of_nat (length vecs) <= i)%N) ids.
Proof.
  intros Q. induction ids as [|i ids IH]; intros st st' H; cbn [process_ids] in H; [discriminate|].
  destruct (nth_error vecs (N.to_nat i)) as [v|] eqn:E.
  - specialize (Q st v). destruct (process st v) as [st1 ok]. cbn in Q. subst ok. right. eauto.
  - left. apply nth_error_None in E. lia.
Qed.
Lemma read_calls_ok {St} (process : St -> bytes -> St * bool) tsz dim vecs st : Forall (fun v => length v = N.to_nat dim * tsz) vecs ->
  (forall s b, snd (process s b) = true) -> forall calls r, vr_at tsz dim vecs r ->
  read_calls process tsz calls r st = map (fun ids => process_ids process vecs ids st) calls.
Proof.
  intros HV Q. induction calls as [|ids calls IH]; intros r A; [reflexivity|]. cbn [read_calls map].
  pose proof (read_vectors_ok process tsz dim vecs HV ids r st A) as R. destruct (read_vectors process tsz ids r st) as [[r' st'] ok].
  destruct R as [R1 R2]. rewrite R1. f_equal. apply IH, R2. destruct ok; [now left|right]. split; [|exact Q]. eapply process_ids_exists; eauto.
Qed.
