(** Files of ground truth. *)
From Verif.Lib Require Import Base F32 Bytes.
From Verif.Queue Require Import Model.
From Verif.Truth Require Import Model.
Local Open Scope nat_scope.

Definition fit (x : N) : Prop := (x < pow256 4)%N.
Lemma words_len l : length (words l) = 4 * length l.
Proof. unfold words. induction l as [|x l IH]; cbn [flat_map length]; [reflexivity|]. rewrite app_length, IH, le_enc_length. lia. Qed.
Lemma words_app a b : words (a ++ b) = words a ++ words b.
Proof. apply flat_map_app. Qed.
Lemma firstn_exact {A} (a b : list A) n : n = length a -> firstn n (a ++ b) = a.
Proof. intros ->. now rewrite firstn_app, Nat.sub_diag, firstn_all, firstn_O, app_nil_r. Qed.
Lemma skipn_exact {A} (a b : list A) n : n = length a -> skipn n (a ++ b) = b.
Proof. intros ->. now rewrite skipn_app, Nat.sub_diag, skipn_all, skipn_O. Qed.
Lemma unwords_words l : Forall fit l -> forall rest, unwords (length l) (words l ++ rest) = l.
Proof.
  induction 1 as [|x l Hx _ IH]; intros rest; cbn [length unwords]; [reflexivity|]. change (words (x :: l)) with (le_enc 4 x ++ words l). rewrite <- app_assoc, firstn_exact, skipn_exact by now rewrite le_enc_length. rewrite le_dec_enc by exact Hx. f_equal. apply IH.
Qed.
Lemma unwords_words' l n : Forall fit l -> n = length l -> unwords n (words l) = l.
Proof. intros F ->. rewrite <- (app_nil_r (words l)). now apply unwords_words. Qed.
Lemma take_exact a b n : n = length a -> take n (a ++ b) = ROk (a, b).
Proof. intros H. unfold take. rewrite app_length. rewrite (proj2 (Nat.leb_le n (length a + length b))) by lia. now rewrite firstn_exact, skipn_exact. Qed.
Lemma header_read a b h rest : header a b = ROk h -> read_header (h ++ rest) = ROk (a, b, rest) /\ length h = 8.
Proof.
  unfold header. destruct ((N.of_nat a <? pow256 4) && (N.of_nat b <? pow256 4))%N eqn:E; [|discriminate]. intros EH. assert (EH' : h = words [N.of_nat a; N.of_nat b]) by congruence. subst h. clear EH. apply andb_true_iff in E as [E1 E2]. apply N.ltb_lt in E1, E2. split; [|reflexivity]. unfold read_header. rewrite take_exact by reflexivity.
  rewrite unwords_words' by (try reflexivity; repeat constructor; assumption). now rewrite !Nat2N.id.
Qed.
Lemma header_ok a b : (N.of_nat a < 2 ^ 32)%N -> (N.of_nat b < 2 ^ 32)%N -> exists h, header a b = ROk h.
Proof. intros HA HB. unfold header. rewrite (proj2 (N.ltb_lt _ _)) by exact HA. rewrite (proj2 (N.ltb_lt _ _)) by exact HB. now eexists. Qed.
Lemma rows_concat k (l : list (list N)) : Forall (fun r => length r = k) l -> rows (length l) k (concat l) = l.
Proof. induction 1 as [|r l H _ IH]; cbn [length rows concat]; [reflexivity|]. rewrite firstn_exact, skipn_exact by now rewrite H. now rewrite IH. Qed.
Lemma concat_len k {A} (l : list (list A)) : Forall (fun r => length r = k) l -> length (concat l) = length l * k.
Proof. induction 1 as [|r l H _ IH]; cbn [length concat]; [reflexivity|]. rewrite app_length, IH, H. lia. Qed.
Lemma drain_all_ok qs bests : Forall2 (fun q best => drain (S (q_size q)) q = Some best) qs bests -> drain_all qs = Some (concat bests).
Proof. induction 1 as [|q b qs bests H _ IH]; [reflexivity|]. cbn [drain_all concat]. now rewrite H, IH. Qed.
Definition ids_of (l : list nbr) : list N := map (fun x => N.of_nat (n_id x)) l.
Lemma gt_file {A} (ser : A -> option bytes) qs bests k : (N.of_nat (length qs) < 2 ^ 32)%N -> (N.of_nat k < 2 ^ 32)%N -> Forall2 (fun q best => drain (S (q_size q)) q = Some best) qs bests -> Forall (fun b => length b = k) bests ->
  Forall (fun x => fit (N.of_nat (n_id x)) /\ fit (n_dist x)) (concat bests) ->
  exists b, write_gt ser (length qs) k qs None = ROk b /\
    load_truthset b = ROk (ids_of (concat bests), Some (map n_dist (concat bests)), length qs, k) /\
    forall j, load_groundtruth b j = if (match j with Some j => k <? j | None => false end) then RErr else ROk (map ids_of bests).
Proof.
  intros HQ HK HD HL HF. assert (LB : length bests = length qs) by (symmetry; clear -HD; induction HD; cbn; congruence).
  destruct (header_ok _ _ HQ HK) as (h & EH). unfold write_gt. rewrite EH, (drain_all_ok qs bests HD). assert (LC : length (concat bests) = length qs * k) by (rewrite <- LB; now apply concat_len). rewrite LC, Nat.eqb_refl. cbn [negb].
  eexists. split; [reflexivity|].
  assert (F1 : Forall fit (ids_of (concat bests))) by (apply Forall_forall; intros y Y; apply in_map_iff in Y as (x & <- & X); rewrite Forall_forall in HF; apply (HF x X)).
  assert (F2 : Forall fit (map n_dist (concat bests))) by (apply Forall_forall; intros y Y; apply in_map_iff in Y as (x & <- & X); rewrite Forall_forall in HF; apply (HF x X)).
  fold (ids_of (concat bests)). assert (L1 : length (ids_of (concat bests)) = length qs * k) by (unfold ids_of; now rewrite map_length). assert (L2 : @length N (map n_dist (concat bests)) = length qs * k) by (etransitivity; [apply map_length|exact LC]).
  split.
  - unfold load_truthset. destruct (header_read _ _ h (words (ids_of (concat bests)) ++ words (map n_dist (concat bests))) EH) as [-> LH].
    assert (LF : length (h ++ words (ids_of (concat bests)) ++ words (map n_dist (concat bests))) =? 2 * length qs * k * 4 + 8 = true) by (apply Nat.eqb_eq; rewrite !app_length, !words_len, L1, L2, LH; lia). rewrite LF.
    rewrite take_exact by (rewrite words_len, L1; lia). rewrite <- (app_nil_r (words (map n_dist (concat bests)))), take_exact by (rewrite words_len, L2; lia). rewrite !unwords_words' by (try assumption; congruence). reflexivity.
  - intros j. unfold load_groundtruth. destruct (header_read _ _ h (words (ids_of (concat bests)) ++ words (map n_dist (concat bests))) EH) as [-> LH].
    rewrite take_exact by (rewrite words_len, L1; lia). destruct (match j with Some j => k <? j | None => false end); [reflexivity|]. rewrite unwords_words' by (try assumption; congruence). f_equal. unfold ids_of at 1. rewrite concat_map, <- LB.
    rewrite <- (map_length ids_of bests). apply rows_concat. apply Forall_forall. intros r R. apply in_map_iff in R as (b & <- & B). unfold ids_of. rewrite map_length. rewrite Forall_forall in HL. now apply HL.
Qed.
Lemma read_lists_ok (gt : list (list N)) : Forall (Forall fit) gt -> read_lists (map (fun l => N.of_nat (length l)) gt) (words (concat gt)) = ROk gt.
Proof.
  induction 1 as [|l gt H _ IH]; cbn [map read_lists concat]; [reflexivity|]. rewrite Nat2N.id, words_app, take_exact by (rewrite words_len; lia). rewrite IH, unwords_words' by (try assumption; reflexivity). reflexivity.
Qed.
Lemma cut_ok (gt : list (list N)) : cut (map (fun l => N.of_nat (length l)) gt) (concat gt) = ROk gt.
Proof.
  induction gt as [|l gt IH]; cbn [map cut concat]; [reflexivity|]. rewrite Nat2N.id, app_length. destruct (Nat.ltb_spec (length l + length (concat gt)) (length l)); [lia|]. rewrite firstn_exact, skipn_exact by reflexivity. now rewrite IH.
Qed.
Lemma range_file (gt : list (list nbr)) : (N.of_nat (length gt) < 2 ^ 32)%N -> (N.of_nat (length (concat gt)) < 2 ^ 32)%N -> Forall (Forall (fun x => fit (N.of_nat (n_id x)))) gt ->
  exists b, write_range (length gt) gt = ROk b /\ load_range b = ROk (map ids_of gt) /\ load_range_groundtruth b = ROk (map ids_of gt).
Proof.
  intros HQ HT HF. unfold write_range. destruct (N.leb_spec (pow256 4) (N.of_nat (length (concat gt)))) as [H|_]; [change (2 ^ 32)%N with (pow256 4) in HT; lia|]. destruct (header_ok _ _ HQ HT) as (h & EH). rewrite EH. eexists. split; [reflexivity|].
  assert (SZ : map (fun l : list nbr => N.of_nat (length l)) gt = map (fun l => N.of_nat (length l)) (map ids_of gt)) by (rewrite map_map; apply map_ext; intros l; unfold ids_of; now rewrite map_length).
  assert (IDS : map (fun x => N.of_nat (n_id x)) (concat gt) = concat (map ids_of gt)) by (unfold ids_of; now rewrite <- concat_map). rewrite SZ, IDS. clear SZ.
  assert (FI : Forall (Forall fit) (map ids_of gt)) by (apply Forall_forall; intros l L; apply in_map_iff in L as (g & <- & G); rewrite Forall_forall in HF; specialize (HF g G); unfold ids_of; apply Forall_forall; intros y Y; apply in_map_iff in Y as (x & <- & X); rewrite Forall_forall in HF; now apply HF).
  assert (LI : length (concat (map ids_of gt)) = length (concat gt)) by (rewrite <- IDS; apply map_length).
  assert (FS : Forall fit (map (fun l : list N => N.of_nat (length l)) (map ids_of gt))).
  { apply Forall_forall. intros y Y. apply in_map_iff in Y as (l & <- & L). unfold fit. change (pow256 4) with (2 ^ 32)%N. apply N.le_lt_trans with (N.of_nat (length (concat gt))); [|exact HT]. rewrite <- LI. apply in_split in L as (a & b & ->). rewrite concat_app. cbn [concat]. rewrite !app_length. lia. }
  assert (LS : length (map (fun l : list N => N.of_nat (length l)) (map ids_of gt)) = length gt) by now rewrite !map_length.
  split.
  - unfold load_range. destruct (header_read _ _ h (words (map (fun l => N.of_nat (length l)) (map ids_of gt)) ++ words (concat (map ids_of gt))) EH) as [-> LH]. rewrite take_exact by (rewrite words_len, LS; lia). rewrite unwords_words' by (try assumption; congruence). now apply read_lists_ok.
  - unfold load_range_groundtruth. destruct (header_read _ _ h (words (map (fun l => N.of_nat (length l)) (map ids_of gt)) ++ words (concat (map ids_of gt))) EH) as [-> LH]. rewrite <- words_app. rewrite <- (app_nil_r (words _)), take_exact by (rewrite words_len, app_length, LS, LI; lia).
    cbv zeta. rewrite unwords_words'; [|apply Forall_app; split; [exact FS|]|rewrite app_length; congruence].
    + rewrite firstn_exact, skipn_exact by congruence. apply cut_ok.
    + clear -FI. induction FI as [|l g' H _ IH]; cbn [concat]; [constructor|]. apply Forall_app. now split.
Qed.
