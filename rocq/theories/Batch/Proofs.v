(** Buffers hold what a bounded list holds; parts put end to end; tasks in order. *)
From Coq Require Import List PeanoNat Bool Lia.
From Verif.Lib Require Import Base Lists.
From Verif.Work Require Model Spec Props.
From Verif.Batch Require Import Model Spec.
Import ListNotations.

Section B.
  Context {I O E : Type}.
  (** A buffer that holds [l] out of [cap]. *)
  Definition holds (cap : option nat) (b : buffer (I := I)) (l : list I) : Prop :=
    match b, cap with
    | Slice s w, Some c => length s = c /\ w = length l /\ w <= c /\ firstn w s = l
    | Vector v, None => v = l
    | _, _ => False
    end.
  Lemma write_ok : forall (s : list I) w x, w < length s -> exists s', write_at s w x = Some s' /\ length s' = length s /\ firstn (S w) s' = firstn w s ++ [x].
  Proof.
    induction s as [|y s IH]; intros [|w] x L; cbn [length] in L; try lia; cbn [write_at].
    - exists (x :: s). auto.
    - destruct (IH w x ltac:(lia)) as (s' & -> & A & B). exists (y :: s'). split; [reflexivity|]. split; [cbn; congruence|]. rewrite firstn_cons, B. reflexivity.
  Qed.
  Lemma write_full : forall (s : list I) w x, length s <= w -> write_at s w x = None.
  Proof. induction s as [|y s IH]; intros [|w] x L; cbn in *; try lia; try reflexivity. rewrite IH by lia. reflexivity. Qed.
  Lemma overwrite_ok : forall (cells xs : list I), let (l, n) := overwrite cells xs in length l = length cells /\ n = length (firstn (length cells) xs) /\ firstn n l = firstn (length cells) xs.
  Proof.
    induction cells as [|y cells IH]; intros [|x xs]; cbn [overwrite length firstn]; auto. specialize (IH xs). destruct (overwrite cells xs) as (l & n). destruct IH as (A & B & C). cbn [length firstn]. rewrite A, <- B, C. auto.
  Qed.
  Lemma run_ok cap : forall (p : prog I O E) b l, holds cap b l -> exists b', run p b = Some (b', snd (alone cap p l)) /\ holds cap b' (fst (alone cap p l)).
  Proof.
    induction p as [o|e|x k IH|xs k IH|k IH|k IH]; intros b l H; cbn [run alone]; cbv zeta.
    - exists b. auto.
    - exists b. auto.
    - destruct b as [s w|v], cap as [c|]; cbn [holds] in H; try contradiction; cbn [push].
      + destruct H as (L & W & LE & F). destruct (Nat.eq_dec (c - length l) 0) as [Z|Z].
        * rewrite Z, write_full by lia. apply IH. cbn. auto.
        * destruct (write_ok s w x ltac:(lia)) as (s' & -> & L' & F').
          assert (HH : holds (Some c) (Slice s' (w + 1)) (l ++ [x])) by (cbn [holds]; rewrite app_length; cbn [length]; split; [lia|]; split; [lia|]; split; [lia|]; rewrite Nat.add_1_r, F', F; reflexivity).
          destruct (c - length l) as [|[|r]] eqn:R; [congruence| |].
          -- replace (w + 1 =? length s') with true by (symmetry; apply Nat.eqb_eq; lia). now apply IH.
          -- replace (w + 1 =? length s') with false by (symmetry; apply Nat.eqb_neq; lia). now apply IH.
      + subst v. apply IH. reflexivity.
    - destruct b as [s w|v], cap as [c|]; cbn [holds] in H; try contradiction; cbn [extend].
      + destruct H as (L & W & LE & F). replace (w <=? length s) with true by (symmetry; apply Nat.leb_le; lia). pose proof (overwrite_ok (skipn w s) xs) as X. destruct (overwrite (skipn w s) xs) as (m & n). destruct X as (A & B & C). rewrite skipn_length in *. rewrite L, W in *. rewrite <- B. apply IH. cbn [holds].
        assert (FL : length (firstn (length l) s) = length l) by (rewrite firstn_length; lia). assert (N : n <= c - length l) by (rewrite B, firstn_length; lia).
        split; [rewrite app_length, FL; lia|]. split; [rewrite app_length; lia|]. split; [lia|]. rewrite firstn_app, FL, firstn_all2 by lia. replace (length l + n - length l) with n by lia. rewrite C, F. reflexivity.
      + subst v. rewrite app_length. replace (length l + length xs - length l) with (length xs) by lia. apply IH. reflexivity.
    - destruct b as [s w|v], cap as [c|]; cbn [holds] in H; try contradiction; cbn [size_hint].
      + destruct H as (L & W & LE & F). replace (w <=? length s) with true by (symmetry; apply Nat.leb_le; lia). rewrite L, W. apply IH. cbn. rewrite <- W. auto.
      + apply IH. exact H.
    - replace (current_len b) with (length l); [now apply IH|]. destruct b as [s w|v], cap as [c|]; cbn [holds current_len] in *; try contradiction; [symmetry; apply H|now subst].
  Qed.

  (** Rows *)
  Lemma valid_firstn (r : list I) n : valid r n = firstn n r.
  Proof. unfold valid. destruct (Nat.leb_spec n (length r)); [reflexivity|]. now rewrite firstn_all2 by lia. Qed.
  Definition rows_of (r : inner (I := I)) : list (list I) := match r with Fixed b => bounded_iter b | Dynamic rows => rows end.
  Lemma nth_combine {A B} : forall (l : list A) (m : list B) i, length l = length m -> nth_error (combine l m) i = match nth_error l i, nth_error m i with Some a, Some b => Some (a, b) | _, _ => None end.
  Proof. induction l as [|a l IH]; intros [|b m] [|i] L; try discriminate; try reflexivity. cbn. apply IH. cbn in L. lia. Qed.
  Lemma reads_rows r : formed r -> reads r (rows_of r).
  Proof.
    destruct r as [b|rows]; cbn [formed rows_of]; [|split; reflexivity]. intros (L & _). split.
    - cbn [nrows]. unfold bounded_iter. rewrite map_length, combine_length. lia.
    - intros i. cbn [row]. unfold bounded_iter. rewrite nth_error_map, nth_combine by exact L. destruct (nth_error (ids b) i), (nth_error (lengths b) i); reflexivity.
  Qed.
  Lemma reads_unique (r : inner (I := I)) a b : reads r a -> reads r b -> a = b.
  Proof. intros (_ & A) (_ & B). apply nth_error_ext. intros i. now rewrite <- A, <- B. Qed.

  Context (default : I).
  Definition parts (a : aggregator (I := I)) : list (inner (I := I)) := match a with Empty => [] | AllFixed ms _ _ => map Fixed ms | Mixed ps => ps end.
  Definition agg_formed (a : aggregator (I := I)) : Prop :=
    Forall formed (parts a) /\ match a with AllFixed ms len num => Forall (fun b => ncols b = num) ms /\ len = length (concat (map ids ms)) | _ => True end.
  Lemma push_formed a x : agg_formed a -> formed x -> agg_formed (agg_push a x) /\ parts (agg_push a x) = parts a ++ [x].
  Proof.
    intros (F & G) X. assert (FF : Forall formed (parts a ++ [x])) by (apply Forall_app; split; [exact F|constructor; [exact X|constructor]]).
    destruct a as [|ms len num|ps], x as [b|rows]; cbn [agg_push parts] in *.
    - split; [|reflexivity]. split; [exact FF|]. split; [constructor; [reflexivity|constructor]|]. cbn. now rewrite app_nil_r.
    - split; [|reflexivity]. split; [exact FF|exact Logic.I].
    - destruct (Nat.eqb_spec (ncols b) num) as [N|N]; cbn [parts].
      + rewrite map_app. split; [|reflexivity]. split; [cbn [parts]; rewrite map_app; exact FF|]. destruct G as (G1 & G2). split; [apply Forall_app; split; [exact G1|now constructor]|]. rewrite map_app, concat_app, app_length. cbn. rewrite app_nil_r. destruct X as (X & _). lia.
      + split; [|reflexivity]. split; [exact FF|exact Logic.I].
    - split; [|reflexivity]. split; [exact FF|exact Logic.I].
    - split; [|reflexivity]. split; [exact FF|exact Logic.I].
    - split; [|reflexivity]. split; [exact FF|exact Logic.I].
  Qed.
  Lemma copy_rows_ok num : forall (rows dst rest : list (list I)), Forall (fun r => length r = num) rows -> Forall (fun r => length r = num) rest -> length rows <= length rest ->
    copy_rows (dst ++ rest) (length dst) rows = Some ((dst ++ rows) ++ skipn (length rows) rest, length (dst ++ rows)).
  Proof.
    induction rows as [|r rows IH]; intros dst rest F G L; cbn [copy_rows length].
    - now rewrite !app_nil_r.
    - destruct rest as [|d rest]; [cbn in L; lia|]. inversion F as [|? ? F1 F2]; inversion G as [|? ? G1 G2]; subst. rewrite nth_error_app2, Nat.sub_diag by lia. cbn [nth_error]. rewrite G1, Nat.eqb_refl.
      rewrite firstn_app, Nat.sub_diag, firstn_all. cbn [firstn]. rewrite app_nil_r. replace (skipn (S (length dst)) (dst ++ d :: rest)) with rest by (rewrite skipn_app; replace (S (length dst) - length dst) with 1 by lia; rewrite skipn_all2 by lia; reflexivity).
      replace (dst ++ r :: rest) with ((dst ++ [r]) ++ rest) by now rewrite <- app_assoc. replace (S (length dst)) with (length (dst ++ [r])) by (rewrite app_length; cbn; lia). rewrite IH by (assumption || (cbn in L; lia)). rewrite <- !app_assoc. reflexivity.
  Qed.
  Lemma copy_all_ok num : forall ms dst rest ls, Forall (fun b => Forall (fun r => length r = num) (ids b)) ms -> Forall (fun r => length r = num) rest -> length rest = length (concat (map (@ids I) ms)) ->
    copy_all (dst ++ rest) (length dst) ls ms = Some (dst ++ concat (map (@ids I) ms), ls ++ concat (map (@lengths I) ms)).
  Proof.
    induction ms as [|b ms IH]; intros dst rest ls F G L; cbn [copy_all map concat] in *.
    - destruct rest; [|discriminate]. now rewrite !app_nil_r.
    - inversion F as [|? ? F1 F2]; subst. rewrite app_length in L. rewrite (copy_rows_ok num) by (assumption || lia). rewrite (IH (dst ++ ids b) (skipn (length (ids b)) rest)); [now rewrite <- !app_assoc|exact F2|now apply Forall_skipn'|]. rewrite skipn_length. lia.
  Qed.
  Lemma combine_concat {A B} : forall (ls : list (list A)) (ms : list (list B)), Forall2 (fun l m => length l = length m) ls ms -> combine (concat ls) (concat ms) = concat (map (fun p => combine (fst p) (snd p)) (combine ls ms)).
  Proof.
    induction 1 as [|l m ls ms H _ IH]; [reflexivity|]. cbn [concat combine map fst snd]. rewrite <- IH. clear IH. revert m H. induction l as [|a l IH]; intros [|b m] H; try discriminate; [reflexivity|]. cbn. f_equal. apply IH. cbn in H. lia.
  Qed.
  Lemma finish_ok a : agg_formed a -> exists r, finish default a = Some r /\ formed r /\ rows_of r = concat (map rows_of (parts a)).
  Proof.
    intros (F & G). destruct a as [|ms len num|ps]; cbn [finish parts] in *.
    - exists (Dynamic []). auto.
    - destruct G as (G1 & G2). assert (H : Forall (fun b => length (ids b) = length (lengths b) /\ Forall (fun r => length r = num) (ids b)) ms).
      { clear - F G1. induction ms as [|b ms IH]; constructor; inversion F as [|? ? F1 F2]; inversion G1; subst; [exact F1|]. apply IH; assumption. }
      pose proof (copy_all_ok num ms [] (repeat (repeat default num) len) []) as X. cbn [app length] in X. rewrite X; clear X.
      2:{ eapply Forall_impl; [|exact H]. cbv beta. intros b (_ & Y). exact Y. }
      2:{ apply Forall_forall. intros r R. apply repeat_spec in R. subst r. apply repeat_length. }
      2:{ rewrite repeat_length. exact G2. }
      assert (LL : Forall2 (fun l m => length l = length m) (map (@ids I) ms) (map (@lengths I) ms)) by (clear - H; induction H as [|b ms (A & _) _ IH]; constructor; assumption).
      assert (LC : length (concat (map (@ids I) ms)) = length (concat (map (@lengths I) ms))) by (clear - LL; induction LL as [|l m ls mm A _ IH]; cbn; [reflexivity|]; rewrite !app_length; congruence).
      unfold bounded_new. rewrite LC, Nat.eqb_refl. eexists. split; [reflexivity|]. split.
      + cbn [formed ids lengths ncols]. split; [exact LC|]. clear - H. induction H as [|b ms (_ & A) _ IH]; cbn; [constructor|]. apply Forall_app; split; assumption.
      + cbn [rows_of]. unfold bounded_iter. cbn [ids lengths]. rewrite combine_concat by exact LL. rewrite concat_map, !map_map. clear. induction ms as [|b ms IH]; [reflexivity|]. cbn [map combine concat fst snd]. rewrite IH. reflexivity.
    - eexists. split; [reflexivity|]. split; [exact Logic.I|]. reflexivity.
  Qed.
  Lemma pushes_ok : forall xs a, agg_formed a -> Forall formed xs -> agg_formed (fold_left agg_push xs a) /\ parts (fold_left agg_push xs a) = parts a ++ xs.
  Proof.
    induction xs as [|x xs IH]; intros a A F; cbn [fold_left]; [now rewrite app_nil_r|]. inversion F as [|? ? F1 F2]; subst. destruct (push_formed a x A F1) as (B & C). destruct (IH _ B F2) as (D & P). split; [exact D|]. rewrite P, C, <- app_assoc. reflexivity.
  Qed.

  (** Tasks *)
  Context (search : nat -> prog I O E).
  Lemma fixed_ok num : forall range, match one_by_one (Some num) search range with
    | inl e => fixed_loop default search num range = Some (inl e)
    | inr (ls, os) => exists rs ws, fixed_loop default search num range = Some (inr (rs, ws, os)) /\ length rs = length ws /\ Forall (fun r => length r = num) rs /\ map (fun p => valid (fst p) (snd p)) (combine rs ws) = ls
    end.
  Proof.
    induction range as [|q range IH]; cbn [one_by_one fixed_loop]; [exists [], []; auto|].
    assert (H0 : holds (Some num) (Slice (repeat default num) 0) []) by (cbn; rewrite repeat_length; auto with arith).
    destruct (run_ok (Some num) (search q) _ _ H0) as (b & -> & H). destruct (alone (Some num) (search q) []) as (l & [e|o]); cbn [fst snd] in *; [reflexivity|].
    destruct b as [s w|v]; [|contradiction H]. destruct H as (A & B & C & D). destruct (one_by_one (Some num) search range) as [e|[ls os]]; [now rewrite IH|]. destruct IH as (rs & ws & -> & L & F & M). exists (s :: rs), (w :: ws). split; [reflexivity|]. split; [cbn; congruence|]. split; [constructor; assumption|]. cbn. rewrite valid_firstn, D, M. reflexivity.
  Qed.
  Lemma dynamic_ok : forall range, match one_by_one None search range with
    | inl e => dynamic_loop search range = Some (inl e)
    | inr (ls, os) => dynamic_loop search range = Some (inr (ls, os))
    end.
  Proof.
    induction range as [|q range IH]; cbn [one_by_one dynamic_loop]; [reflexivity|].
    destruct (run_ok None (search q) (Vector []) [] eq_refl) as (b & -> & H). destruct (alone None (search q) []) as (l & [e|o]); cbn [fst snd] in *; [reflexivity|].
    destruct b as [s w|v]; [contradiction H|]. cbn in H. subst v. destruct (one_by_one None search range) as [e|[ls os]]; now rewrite IH.
  Qed.
  Lemma batch_ok cap range : match one_by_one cap search range with
    | inl e => search_batch default search cap range = Some (inl e)
    | inr (ls, os) => exists r, search_batch default search cap range = Some (inr (mkP r os)) /\ formed r /\ rows_of r = ls
    end.
  Proof.
    destruct cap as [num|]; cbn [search_batch].
    - pose proof (fixed_ok num range) as X. unfold search_batch_fixed. destruct (one_by_one (Some num) search range) as [e|[ls os]]; [now rewrite X|]. destruct X as (rs & ws & -> & L & F & M). unfold bounded_new. rewrite L, Nat.eqb_refl. eexists. split; [reflexivity|]. split; [split; assumption|]. exact M.
    - pose proof (dynamic_ok range) as X. destruct (one_by_one None search range) as [e|[ls os]]; rewrite X; [reflexivity|]. eexists. split; [reflexivity|]. split; [exact Logic.I|reflexivity].
  Qed.
  Lemma one_app cap : forall a b, one_by_one cap search (a ++ b) = match one_by_one cap search a with inl e => inl e | inr (ls, os) => match one_by_one cap search b with inl e => inl e | inr (ls', os') => inr (ls ++ ls', os ++ os') end end.
  Proof.
    induction a as [|q a IH]; intros b; cbn [app one_by_one]; [destruct (one_by_one cap search b) as [e|[ls os]]; reflexivity|].
    destruct (alone cap (search q) []) as (l & [e|o]); [reflexivity|]. rewrite IH. destruct (one_by_one cap search a) as [e|[ls os]]; [reflexivity|]. destruct (one_by_one cap search b) as [e|[ls' os']]; reflexivity.
  Qed.
  Lemma await_ok cap : forall ranges, match one_by_one cap search (concat ranges) with
    | inl e => await (map (search_batch default search cap) ranges) = Some (inl e)
    | inr (ls, os) => exists ps, await (map (search_batch default search cap) ranges) = Some (inr ps) /\ Forall formed (map (@p_ids I O) ps) /\ concat (map rows_of (map (@p_ids I O) ps)) = ls /\ concat (map (@p_out I O) ps) = os
    end.
  Proof.
    induction ranges as [|r ranges IH]; cbn [concat map await]; [exists []; cbn; auto|]. rewrite one_app. pose proof (batch_ok cap r) as X. destruct (one_by_one cap search r) as [e|[ls os]]; [now rewrite X|]. destruct X as (p & -> & F & R). 
    destruct (one_by_one cap search (concat ranges)) as [e|[ls' os']]; [now rewrite IH|]. destruct IH as (ps & -> & FS & RS & OS). eexists. split; [reflexivity|]. cbn [map p_ids p_out concat]. split; [constructor; assumption|]. rewrite R, RS, OS. auto.
  Qed.
  Lemma ranges_seq : forall rs a b, Work.Spec.consecutive a b rs -> concat (map (fun r => seq (fst r) (snd r - fst r)) rs) = seq a (b - a) /\ a <= b.
  Proof.
    induction 1 as [a|a b c rs L _ (IH & L')]; cbn [map concat fst snd]; [rewrite Nat.sub_diag; auto|]. rewrite IH. split; [|lia]. replace (c - a) with ((b - a) + (c - b)) by lia. rewrite seq_app. f_equal. f_equal. lia.
  Qed.
End B.
