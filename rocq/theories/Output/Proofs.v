From Verif.Lib Require Import Base Lists F32.
From Verif.Filtered Require Import Proofs.
From Verif.Output Require Import Model Spec.

(** ** Slices whose first positions are overwritten *)
Lemma take_cap_fits {A} c (xs : list A) : take_cap (Some c) xs = xs <-> length xs <= c.
Proof.
  cbn [take_cap]. split; intros H; [|now apply firstn_all2]. rewrite <- H, firstn_length. lia.
Qed.

Lemma take_cap_idem {A} cap (xs : list A) : take_cap cap (take_cap cap xs) = take_cap cap xs.
Proof. destruct cap as [c|]; cbn [take_cap]; [|reflexivity]. rewrite firstn_firstn. now rewrite Nat.min_id. Qed.

Lemma take_cap_app {A} c (xs ys : list A) : length xs <= c ->
  take_cap (Some c) (xs ++ ys) = xs ++ firstn (c - length xs) ys.
Proof. intros H. cbn [take_cap]. rewrite firstn_app. now rewrite (firstn_all2 xs) by lia. Qed.

Lemma overlay_length {A} (xs l : list A) : length xs <= length l -> length (overlay xs l) = length l.
Proof. intros H. unfold overlay. rewrite app_length, skipn_length. lia. Qed.

Lemma overlay_firstn {A} (xs l : list A) : firstn (length xs) (overlay xs l) = xs.
Proof. unfold overlay. rewrite firstn_app, firstn_all2, Nat.sub_diag by lia. cbn [firstn]. now rewrite app_nil_r. Qed.

Lemma overlay_skipn {A} (xs l : list A) : skipn (length xs) (overlay xs l) = skipn (length xs) l.
Proof.
  unfold overlay. rewrite skipn_app, (skipn_all2 xs), Nat.sub_diag by lia. reflexivity.
Qed.

Lemma skipn_skipn' {A} (n m : nat) (l : list A) : skipn n (skipn m l) = skipn (m + n) l.
Proof.
  revert l. induction m as [|m IH]; intros l; [reflexivity|]. destruct l as [|x l]; cbn [skipn plus]; [|apply IH].
  now destruct n.
Qed.

Lemma overlay_app {A} (xs ys l : list A) : xs ++ overlay ys (skipn (length xs) l) = overlay (xs ++ ys) l.
Proof. unfold overlay. rewrite app_length, <- app_assoc, skipn_skipn'. reflexivity. Qed.

Lemma set_nth_app_r {A} (xs l : list A) x : set_nth (length xs) x (xs ++ l) = xs ++ set_nth 0 x l.
Proof. induction xs as [|y xs IH]; cbn [length app set_nth]; [reflexivity|]. now rewrite IH. Qed.

Lemma overlay_store {A} (xs l : list A) x : length xs < length l ->
  store (length xs) x (overlay xs l) = Some (overlay (xs ++ [x]) l).
Proof.
  intros H. unfold store. rewrite overlay_length by lia.
  destruct (Nat.ltb_spec (length xs) (length l)); [|lia]. f_equal.
  unfold overlay. rewrite set_nth_app_r, app_length. cbn [length].
  rewrite <- app_assoc. f_equal. rewrite <- skipn_skipn'.
  destruct (skipn (length xs) l) as [|y r] eqn:E.
  - exfalso. assert (L : length (skipn (length xs) l) = 0) by now rewrite E. rewrite skipn_length in L. lia.
  - reflexivity.
Qed.

(** ** The buffers *)
Lemma zip_store_spec {I} (ids : list I) : forall ds xs, length ids = length ds ->
  zip_store ids ds xs =
    (overlay (map fst (firstn (length ids) xs)) ids, overlay (map snd (firstn (length ids) xs)) ds,
     length (firstn (length ids) xs)).
Proof.
  induction ids as [|i ids IH]; intros [|d ds] xs L; try discriminate L; [reflexivity|].
  destruct xs as [|x xs]; [reflexivity|]. cbn [zip_store]. cbn [length] in L. rewrite IH by lia. reflexivity.
Qed.

Lemma full_at_succ c n : n < c -> (S n =? c) = (c <=? n + 1).
Proof. intros H. destruct (Nat.eqb_spec (S n) c); destruct (Nat.leb_spec c (n + 1)); lia. Qed.

Lemma idd_log {I} (ids : list I) ds : length ids = length ds ->
  log_buffer (idd_buf I) (Some (length ids)) (idd_at ids ds).
Proof.
  intros L. constructor; cbn [idd_buf b_push b_extend b_len b_hint option_map].
  - intros xs x F. apply take_cap_fits in F. rewrite take_cap_app by exact F.
    unfold idd_push. set (b := idd_at ids ds xs).
    set (xi := map fst xs). set (xd := map snd xs).
    assert (Li : length xs = length xi) by (unfold xi; now rewrite map_length).
    assert (Ld : length xs = length xd) by (unfold xd; now rewrite map_length).
    replace (i_pos b) with (length xs) by reflexivity.
    replace (i_ids b) with (overlay xi ids) by reflexivity.
    replace (i_dists b) with (overlay xd ds) by reflexivity.
    rewrite overlay_length by lia.
    destruct (Nat.eqb_spec (length xs) (length ids)) as [E|E].
    + rewrite <- E, Nat.sub_diag. cbn [firstn]. rewrite app_nil_r. cbn [full_at]. now rewrite Nat.leb_refl.
    + destruct (length ids - length xs) as [|n] eqn:D; [lia|]. rewrite (firstn_all2 [x]) by (cbn [length]; lia).
      assert (S1 : store (length xs) (fst x) (overlay xi ids) = Some (overlay (xi ++ [fst x]) ids))
        by (rewrite Li; apply overlay_store; lia).
      assert (S2 : store (length xs) (snd x) (overlay xd ds) = Some (overlay (xd ++ [snd x]) ds))
        by (rewrite Ld; apply overlay_store; lia).
      rewrite S1, S2. unfold idd_at. cbn [full_at]. rewrite !map_app, app_length. cbn [map length].
      rewrite full_at_succ by lia. now rewrite Nat.add_1_r.
  - intros xs ys F. apply take_cap_fits in F. rewrite take_cap_app by exact F.
    unfold idd_extend. set (b := idd_at ids ds xs).
    set (xi := map fst xs). set (xd := map snd xs).
    assert (Li : length xs = length xi) by (unfold xi; now rewrite map_length).
    assert (Ld : length xs = length xd) by (unfold xd; now rewrite map_length).
    replace (i_pos b) with (length xs) by reflexivity.
    replace (i_ids b) with (overlay xi ids) by reflexivity.
    replace (i_dists b) with (overlay xd ds) by reflexivity.
    assert (E1 : skipn (length xs) (overlay xi ids) = skipn (length xs) ids) by (rewrite Li; apply overlay_skipn).
    assert (E2 : skipn (length xs) (overlay xd ds) = skipn (length xs) ds) by (rewrite Ld; apply overlay_skipn).
    assert (G1 : firstn (length xs) (overlay xi ids) = xi) by (rewrite Li; apply overlay_firstn).
    assert (G2 : firstn (length xs) (overlay xd ds) = xd) by (rewrite Ld; apply overlay_firstn).
    rewrite E1, E2, G1, G2.
    rewrite zip_store_spec by (rewrite !skipn_length; lia). rewrite skipn_length.
    set (ys' := firstn (length ids - length xs) ys).
    assert (K1 : xi ++ overlay (map fst ys') (skipn (length xs) ids) = overlay (map fst (xs ++ ys')) ids).
    { rewrite map_app. fold xi. rewrite Li. apply overlay_app. }
    assert (K2 : xd ++ overlay (map snd ys') (skipn (length xs) ds) = overlay (map snd (xs ++ ys')) ds).
    { rewrite map_app. fold xd. rewrite Ld. apply overlay_app. }
    rewrite K1, K2. unfold idd_at. rewrite app_length. do 2 f_equal. lia.
  - intros xs F. reflexivity.
  - intros xs F. apply take_cap_fits in F. unfold idd_at. cbn [i_ids i_pos].
    rewrite overlay_length by now rewrite map_length. reflexivity.
Qed.

Lemma zip_store3_spec {I A} (ids : list I) : forall ds (das : list A) xs, length ids = length ds ->
  length ids = length das ->
  zip_store3 ids ds das xs =
    (overlay (map (fun x => fst (fst x)) (firstn (length ids) xs)) ids,
     overlay (map snd (firstn (length ids) xs)) ds,
     overlay (map (fun x => snd (fst x)) (firstn (length ids) xs)) das,
     length (firstn (length ids) xs)).
Proof.
  induction ids as [|i ids IH]; intros [|d ds] [|a das] xs L L'; try discriminate L; try discriminate L'; [reflexivity|].
  destruct xs as [|x xs]; [reflexivity|]. cbn [zip_store3]. cbn [length] in L, L'. rewrite IH by lia. reflexivity.
Qed.

Lemma ida_log {I A} (ids : list I) ds (das : list A) : length ids = length ds -> length ids = length das ->
  log_buffer (ida_buf I A) (Some (length ids)) (ida_at ids ds das).
Proof.
  intros L L'. constructor; cbn [ida_buf b_push b_extend b_len b_hint option_map].
  - intros xs x F. apply take_cap_fits in F. rewrite take_cap_app by exact F.
    unfold ida_push. set (b := ida_at ids ds das xs).
    set (xi := map (fun x => fst (fst x)) xs). set (xd := map snd xs). set (xa := map (fun x => snd (fst x)) xs).
    assert (Li : length xs = length xi) by (unfold xi; now rewrite map_length).
    assert (Ld : length xs = length xd) by (unfold xd; now rewrite map_length).
    assert (La : length xs = length xa) by (unfold xa; now rewrite map_length).
    replace (a_pos b) with (length xs) by reflexivity.
    replace (a_ids b) with (overlay xi ids) by reflexivity.
    replace (a_dists b) with (overlay xd ds) by reflexivity.
    replace (a_data b) with (overlay xa das) by reflexivity.
    rewrite overlay_length by lia.
    destruct (Nat.eqb_spec (length xs) (length ids)) as [E|E].
    + rewrite <- E, Nat.sub_diag. cbn [firstn]. rewrite app_nil_r. cbn [full_at]. now rewrite Nat.leb_refl.
    + destruct (length ids - length xs) as [|n] eqn:D; [lia|]. rewrite (firstn_all2 [x]) by (cbn [length]; lia).
      assert (S1 : store (length xs) (fst (fst x)) (overlay xi ids) = Some (overlay (xi ++ [fst (fst x)]) ids))
        by (rewrite Li; apply overlay_store; lia).
      assert (S2 : store (length xs) (snd x) (overlay xd ds) = Some (overlay (xd ++ [snd x]) ds))
        by (rewrite Ld; apply overlay_store; lia).
      assert (S3 : store (length xs) (snd (fst x)) (overlay xa das) = Some (overlay (xa ++ [snd (fst x)]) das))
        by (rewrite La; apply overlay_store; lia).
      rewrite S1, S2, S3. unfold ida_at. cbn [full_at]. rewrite !map_app, app_length. cbn [map length].
      rewrite full_at_succ by lia. now rewrite Nat.add_1_r.
  - intros xs ys F. apply take_cap_fits in F. rewrite take_cap_app by exact F.
    unfold ida_extend. set (b := ida_at ids ds das xs).
    set (xi := map (fun x => fst (fst x)) xs). set (xd := map snd xs). set (xa := map (fun x => snd (fst x)) xs).
    assert (Li : length xs = length xi) by (unfold xi; now rewrite map_length).
    assert (Ld : length xs = length xd) by (unfold xd; now rewrite map_length).
    assert (La : length xs = length xa) by (unfold xa; now rewrite map_length).
    replace (a_pos b) with (length xs) by reflexivity.
    replace (a_ids b) with (overlay xi ids) by reflexivity.
    replace (a_dists b) with (overlay xd ds) by reflexivity.
    replace (a_data b) with (overlay xa das) by reflexivity.
    assert (E1 : skipn (length xs) (overlay xi ids) = skipn (length xs) ids) by (rewrite Li; apply overlay_skipn).
    assert (E2 : skipn (length xs) (overlay xd ds) = skipn (length xs) ds) by (rewrite Ld; apply overlay_skipn).
    assert (E3 : skipn (length xs) (overlay xa das) = skipn (length xs) das) by (rewrite La; apply overlay_skipn).
    assert (G1 : firstn (length xs) (overlay xi ids) = xi) by (rewrite Li; apply overlay_firstn).
    assert (G2 : firstn (length xs) (overlay xd ds) = xd) by (rewrite Ld; apply overlay_firstn).
    assert (G3 : firstn (length xs) (overlay xa das) = xa) by (rewrite La; apply overlay_firstn).
    rewrite E1, E2, E3, G1, G2, G3.
    rewrite zip_store3_spec by (rewrite !skipn_length; lia). rewrite skipn_length.
    set (ys' := firstn (length ids - length xs) ys).
    assert (K1 : xi ++ overlay (map (fun x => fst (fst x)) ys') (skipn (length xs) ids) =
                 overlay (map (fun x => fst (fst x)) (xs ++ ys')) ids).
    { rewrite map_app. fold xi. rewrite Li. apply overlay_app. }
    assert (K2 : xd ++ overlay (map snd ys') (skipn (length xs) ds) = overlay (map snd (xs ++ ys')) ds).
    { rewrite map_app. fold xd. rewrite Ld. apply overlay_app. }
    assert (K3 : xa ++ overlay (map (fun x => snd (fst x)) ys') (skipn (length xs) das) =
                 overlay (map (fun x => snd (fst x)) (xs ++ ys')) das).
    { rewrite map_app. fold xa. rewrite La. apply overlay_app. }
    rewrite K1, K2, K3. unfold ida_at. rewrite app_length. do 2 f_equal. lia.
  - intros xs F. reflexivity.
  - intros xs F. apply take_cap_fits in F. unfold ida_at. cbn [a_ids a_pos].
    rewrite overlay_length by now rewrite map_length. reflexivity.
Qed.

Lemma zip_store1_spec {I} (l : list (item I)) : forall xs,
  zip_store1 l xs = (overlay (firstn (length l) xs) l, length (firstn (length l) xs)).
Proof.
  induction l as [|i l IH]; intros xs; [reflexivity|].
  destruct xs as [|x xs]; [reflexivity|]. cbn [zip_store1]. rewrite IH. reflexivity.
Qed.

Lemma back_log {I} (l : list (item I)) : log_buffer (back_buf I) (Some (length l)) (back_at l).
Proof.
  constructor; cbn [back_buf b_push b_extend b_len b_hint option_map].
  - intros xs x F. apply take_cap_fits in F. rewrite take_cap_app by exact F.
    unfold back_push. set (b := back_at l xs). replace (k_pos b) with (length xs) by reflexivity.
    replace (k_buf b) with (overlay xs l) by reflexivity. rewrite overlay_length by exact F.
    destruct (Nat.eqb_spec (length xs) (length l)) as [E|E].
    + rewrite E, Nat.sub_diag. cbn [firstn]. rewrite app_nil_r. cbn [full_at]. now rewrite E, Nat.leb_refl.
    + rewrite overlay_store by lia. destruct (length l - length xs) as [|n] eqn:D; [lia|].
      rewrite (firstn_all2 [x]) by (cbn [length]; lia). unfold back_at. rewrite app_length. cbn [length].
      rewrite Nat.add_1_r. f_equal. f_equal. cbn [full_at]. rewrite app_length. cbn [length].
      destruct (Nat.eqb_spec (S (length xs)) (length l)); destruct (Nat.leb_spec (length l) (length xs + 1)); lia.
  - intros xs ys F. apply take_cap_fits in F. rewrite take_cap_app by exact F.
    unfold back_extend. set (b := back_at l xs). replace (k_pos b) with (length xs) by reflexivity.
    replace (k_buf b) with (overlay xs l) by reflexivity.
    rewrite overlay_skipn, overlay_firstn, zip_store1_spec, overlay_app, skipn_length.
    unfold back_at. rewrite app_length. f_equal. f_equal. lia.
  - intros xs F. reflexivity.
  - intros xs F. apply take_cap_fits in F. unfold back_at. cbn [k_buf k_pos]. now rewrite overlay_length.
Qed.

Lemma vec_log {I} : log_buffer (vec_buf I) None vec_at.
Proof. constructor; reflexivity. Qed.

(** ** Pushing until full *)
Lemma firstn_full {A} c (xs : list A) y ys : c <= length xs + 1 ->
  firstn c (xs ++ y :: ys) = firstn c (xs ++ [y]).
Proof.
  intros H. replace (xs ++ y :: ys) with ((xs ++ [y]) ++ ys) by (rewrite <- app_assoc; reflexivity).
  rewrite (firstn_app c (xs ++ [y]) ys). rewrite app_length. cbn [length].
  replace (c - (length xs + 1)) with 0 by lia. cbn [firstn]. now rewrite app_nil_r.
Qed.

Lemma push_loop_spec {S I} (B : buf S I) cap at_ : log_buffer B cap at_ ->
  forall ys xs, take_cap cap xs = xs ->
  push_loop (b_push B) (at_ xs) ys = Some (at_ (take_cap cap (xs ++ ys))).
Proof.
  intros L. induction ys as [|y ys IH]; intros xs F; cbn [push_loop].
  - now rewrite app_nil_r, F.
  - rewrite (lg_push _ _ _ L) by exact F.
    destruct (full_at cap (take_cap cap (xs ++ [y]))) eqn:E.
    + destruct cap as [c|]; [|discriminate E]. cbn [full_at take_cap] in *. apply Nat.leb_le in E.
      rewrite firstn_length, app_length in E. cbn [length] in E. rewrite (firstn_full _ xs y ys) by lia; reflexivity.
    + assert (F' : take_cap cap (xs ++ [y]) = xs ++ [y]).
      { destruct cap as [c|]; [|reflexivity]. apply take_cap_fits. cbn [full_at take_cap] in E. apply Nat.leb_gt in E.
        rewrite firstn_length in E. lia. }
      rewrite F', IH by exact F'. now rewrite <- app_assoc.
Qed.

Lemma sout_push_log {A V} (ids : list nat) ds (das : list A) (vecs : option (list (option V))) :
  length ids = length ds -> length ids = length das ->
  (forall v, vecs = Some v -> length ids = length v) ->
  forall xs x, take_cap (Some (length ids)) xs = xs ->
    sout_push (sout_at ids ds das vecs xs) x =
      Some (sout_at ids ds das vecs (take_cap (Some (length ids)) (xs ++ [x])),
            full_at (Some (length ids)) (take_cap (Some (length ids)) (xs ++ [x]))).
Proof.
  intros L L' Lv xs x F. pose proof (ida_log ids ds das L L') as G.
  unfold sout_push. set (b := sout_at ids ds das vecs xs).
  set (xo := map (fun x : item (payload A V) => (fst (fst x), snd x)) xs).
  assert (Lo : length xo = length xs) by (unfold xo; now rewrite map_length).
  assert (Ep : a_pos (o_out b) = length xs) by (cbn [b sout_at o_out ida_at a_pos]; exact Lo).
  apply take_cap_fits in F.
  assert (Fo : take_cap (Some (length ids)) xo = xo) by (apply take_cap_fits; lia).
  assert (Ec : length (a_ids (o_out b)) = length ids).
  { cbn [b sout_at o_out ida_at a_ids]. apply overlay_length. rewrite !map_length. exact F. }
  rewrite Ep, Ec. rewrite take_cap_app by exact F.
  destruct (Nat.eqb_spec (length xs) (length ids)) as [E|E].
  { rewrite E, Nat.sub_diag. cbn [firstn]. rewrite app_nil_r. cbn [full_at]. now rewrite E, Nat.leb_refl. }
  destruct (length ids - length xs) as [|n] eqn:D; [lia|].
  rewrite (firstn_all2 [x]) by (cbn [length]; lia).
  destruct x as [[[id data] vector] distance].
  change (o_out b) with (ida_at ids ds das xo).
  pose proof (lg_push _ _ _ G xo ((id, data), distance) Fo) as PL. cbn [ida_buf b_push] in PL. rewrite PL.
  match goal with |- context [ida_at ids ds das (take_cap (Some (length ids)) ?z)] =>
    assert (Fo1 : take_cap (Some (length ids)) z = z)
      by (apply take_cap_fits; rewrite app_length; cbn [length]; lia); rewrite Fo1; clear Fo1;
    assert (ES : full_at (Some (length ids)) z =
                 full_at (Some (length ids)) (xs ++ [((id, data, vector), distance)]))
      by (cbn [full_at]; rewrite !app_length, Lo; reflexivity); rewrite ES; clear ES
  end.
  change (o_vecs b) with (option_map (overlay (map (fun x : item (payload A V) => snd (fst x)) xs)) vecs).
  unfold sout_at. rewrite !map_app. cbn [map fst snd]. fold xo.
  destruct vecs as [vs|]; cbn [option_map]; [|reflexivity].
  pose proof (Lv vs eq_refl) as Lvs.
  assert (ST : store (length xs) vector (overlay (map (fun x : item (payload A V) => snd (fst x)) xs) vs) =
               Some (overlay (map (fun x : item (payload A V) => snd (fst x)) xs ++ [vector]) vs)).
  { rewrite <- (map_length (fun x : item (payload A V) => snd (fst x)) xs) at 1. apply overlay_store.
    rewrite map_length. lia. }
  rewrite ST. reflexivity.
Qed.

Lemma sout_log {A V} (ids : list nat) ds (das : list A) (vecs : option (list (option V))) :
  length ids = length ds -> length ids = length das ->
  (forall v, vecs = Some v -> length ids = length v) ->
  log_buffer (sout_buf A V) (Some (length ids)) (sout_at ids ds das vecs).
Proof.
  intros L L' Lv. pose proof (sout_push_log ids ds das vecs L L' Lv) as P.
  assert (PL : forall xs, a_pos (o_out (sout_at ids ds das vecs xs)) = length xs).
  { intros xs. cbn [sout_at o_out ida_at a_pos]. now rewrite map_length. }
  constructor; cbn [sout_buf b_push b_extend b_len b_hint option_map].
  - exact P.
  - intros xs ys F. unfold sout_extend.
    assert (Q : push_loop sout_push (sout_at ids ds das vecs xs) ys =
                Some (sout_at ids ds das vecs (take_cap (Some (length ids)) (xs ++ ys)))).
    { clear - P F. revert xs F. induction ys as [|y ys IH]; intros xs F; cbn [push_loop].
      - now rewrite app_nil_r, F.
      - rewrite P by exact F. destruct (full_at (Some (length ids)) (take_cap (Some (length ids)) (xs ++ [y]))) eqn:E.
        + cbn [full_at take_cap] in *. apply Nat.leb_le in E.
          rewrite firstn_length, app_length in E. cbn [length] in E. rewrite (firstn_full _ xs y ys) by lia; reflexivity.
        + assert (F' : take_cap (Some (length ids)) (xs ++ [y]) = xs ++ [y]).
          { apply take_cap_fits. cbn [full_at take_cap] in E. apply Nat.leb_gt in E.
            rewrite firstn_length in E. lia. }
          rewrite F', IH by exact F'. now rewrite <- app_assoc. }
    rewrite Q, !PL. reflexivity.
  - intros xs F. apply PL.
  - intros xs F. apply take_cap_fits in F. rewrite PL. do 2 f_equal.
    cbn [sout_at o_out ida_at a_ids]. apply overlay_length. rewrite !map_length. exact F.
Qed.

(** ** Sessions *)
Lemma take_cap_app_take {A} cap (xs ys : list A) :
  take_cap cap (take_cap cap xs ++ ys) = take_cap cap (xs ++ ys).
Proof.
  destruct cap as [c|]; cbn [take_cap]; [|reflexivity]. rewrite !firstn_app, firstn_firstn, Nat.min_id.
  f_equal. rewrite firstn_length. destruct (Nat.le_gt_cases c (length xs)).
  - rewrite Nat.min_l by lia. replace (c - length xs) with 0 by lia. now rewrite Nat.sub_diag.
  - now rewrite Nat.min_r by lia.
Qed.

Lemma session_spec {S I} (B : buf S I) cap at_ : log_buffer B cap at_ ->
  forall ops xs, take_cap cap xs = xs ->
  bsession B (at_ xs) ops =
    Some (at_ (take_cap cap (xs ++ flat_map offers ops)), answers cap (length xs) ops).
Proof.
  intros L. induction ops as [|[x|ys] ops IH]; intros xs F; cbn [bsession answers flat_map offers].
  - now rewrite app_nil_r, F.
  - rewrite (lg_push _ _ _ L) by exact F. rewrite IH by apply take_cap_idem.
    rewrite take_cap_app_take, <- app_assoc. do 2 f_equal. f_equal.
    + destruct cap as [c|]; cbn [full_at take_cap]; [|reflexivity]. apply take_cap_fits in F.
      rewrite firstn_length, app_length. cbn [length]. f_equal.
      destruct (Nat.leb_spec c (Nat.min c (length xs + 1))); destruct (Nat.eqb_spec (Nat.min c (length xs + 1)) c); lia.
    + f_equal. destruct cap as [c|]; cbn [take_cap]; [|now rewrite app_length]. now rewrite firstn_length, app_length.
  - rewrite (lg_extend _ _ _ L) by exact F. rewrite IH by apply take_cap_idem.
    rewrite take_cap_app_take, <- app_assoc. do 2 f_equal.
    assert (E : length (take_cap cap (xs ++ ys)) - length xs =
                match cap with Some c => Nat.min (c - length xs) (length ys) | None => length ys end /\
                length (take_cap cap (xs ++ ys)) =
                length xs + match cap with Some c => Nat.min (c - length xs) (length ys) | None => length ys end).
    { destruct cap as [c|]; cbn [take_cap]; [|rewrite app_length; lia]. apply take_cap_fits in F.
      rewrite firstn_length, app_length. lia. }
    destruct E as (E1 & E2). rewrite E1, E2. reflexivity.
Qed.

(** ** Post processors *)
Section post.
Context {S I : Type} (B : buf S I) (cap : option nat) (at_ : list (item I) -> S) (L : log_buffer B cap at_).

Lemma copy_external_loop external cands : forall xs, take_cap cap xs = xs ->
  copy_external B external (at_ xs) cands = Some (at_ (take_cap cap (xs ++ externals external cands))).
Proof.
  intros xs F. rewrite <- (push_loop_spec B cap at_ L _ _ F). revert xs F.
  induction cands as [|c cands IH]; intros xs F; cbn [copy_external externals flat_map]; [reflexivity|].
  fold (externals external cands).
  destruct (external (n_id c)) as [e|]; [|cbn [app]; now apply IH]. cbn [app push_loop].
  rewrite (lg_push _ _ _ L) by exact F.
  destruct (full_at cap (take_cap cap (xs ++ [(e, n_dist c)]))); [reflexivity|]. apply IH, take_cap_idem.
Qed.

Lemma copy_external_wrote external cands xs : take_cap cap xs = xs ->
  pp_copy_external B external cands (at_ xs) = wrote cap at_ xs (externals external cands).
Proof.
  intros F. unfold pp_copy_external, wrote. rewrite copy_external_loop by exact F.
  now rewrite !(lg_len _ _ _ L) by (exact F || apply take_cap_idem).
Qed.

(** [Translate] reports the last item only if the buffer is not full after it. *)
Definition uncounted {A} (cap : option nat) (xs ys : list A) : nat :=
  match cap with
  | Some c => if (c <=? length xs + length ys) && (length xs <? c) && negb (length ys =? 0) then 1 else 0
  | None => 0
  end.

Lemma translate_loop external cands : forall xs n, take_cap cap xs = xs ->
  translate B external (at_ xs) n cands =
    Some (at_ (take_cap cap (xs ++ externals external cands)),
          n + (length (take_cap cap (xs ++ externals external cands)) - length xs) -
              uncounted cap xs (externals external cands)).
Proof.
  induction cands as [|c cands IH]; intros xs n F; cbn [translate externals flat_map].
  - rewrite app_nil_r, F, Nat.sub_diag. do 2 f_equal.
    unfold uncounted. destruct cap; cbn [length Nat.eqb negb]; rewrite ?andb_false_r; lia.
  - fold (externals external cands). destruct (external (n_id c)) as [e|]; [|cbn [app]; now apply IH].
    cbn [app]. rewrite (lg_push _ _ _ L) by exact F. set (ys := externals external cands) in *.
    destruct (full_at cap (take_cap cap (xs ++ [(e, n_dist c)]))) eqn:E.
    + destruct cap as [cp|]; [|discriminate E]. cbn [full_at take_cap] in *. apply Nat.leb_le in E.
      rewrite firstn_length, app_length in E. cbn [length] in E.
      assert (EQ : firstn cp (xs ++ (e, n_dist c) :: ys) = firstn cp (xs ++ [(e, n_dist c)]))
        by (apply firstn_full; lia).
      rewrite EQ. do 2 f_equal.
      apply (take_cap_fits cp xs) in F. rewrite firstn_length, app_length. unfold uncounted. cbn [length Nat.eqb negb].
      destruct (Nat.ltb_spec (length xs) cp); destruct (Nat.leb_spec cp (length xs + Datatypes.S (length ys))); cbn [andb]; lia.
    + assert (F' : take_cap cap (xs ++ [(e, n_dist c)]) = xs ++ [(e, n_dist c)]).
      { destruct cap as [cp|]; [|reflexivity]. apply take_cap_fits. cbn [full_at take_cap] in E. apply Nat.leb_gt in E.
        rewrite firstn_length in E. lia. }
      rewrite F', IH by exact F'. rewrite <- app_assoc. cbn [app]. do 2 f_equal. rewrite app_length. cbn [length].
      destruct cap as [cp|]; cbn [take_cap uncounted full_at] in *.
      * rewrite F' in E. apply Nat.leb_gt in E. rewrite app_length in E. cbn [length] in E.
        rewrite firstn_length, app_length. cbn [length Nat.eqb negb]. rewrite app_length. cbn [length].
        destruct (Nat.ltb_spec (length xs) cp); destruct (Nat.ltb_spec (length xs + 1) cp);
        destruct (Nat.leb_spec cp (length xs + 1 + length ys)); destruct (Nat.leb_spec cp (length xs + Datatypes.S (length ys)));
        destruct (Nat.eqb_spec (length ys) 0); cbn [andb negb]; lia.
      * rewrite app_length. cbn [length]. lia.
Qed.
End post.

Section post_ids.
Context {S : Type} (B : buf S nat) (cap : option nat) (at_ : list (item nat) -> S) (L : log_buffer B cap at_).

Lemma extend_wrote ys xs : take_cap cap xs = xs -> lift (b_extend B (at_ xs) ys) = wrote cap at_ xs ys.
Proof. intros F. now rewrite (lg_extend _ _ _ L) by exact F. Qed.

Lemma sorts_ranked sort xs : sorts sort -> Forall (fun x => is_nan (n_dist x) = false) xs ->
  exists r, sort xs = Some r /\ ranked xs r.
Proof.
  intros Hs H. specialize (Hs xs). destruct (sort xs) as [r|].
  - exists r. split; [reflexivity|]. destruct Hs as (P & St). split; [exact P|auto].
  - destruct Hs as (x & Hx & N). rewrite Forall_forall in H. rewrite (H x Hx) in N. discriminate N.
Qed.

Lemma rerank_wrote deleted full sort cands xs : take_cap cap xs = xs -> sorts sort ->
  (forall c, In c cands -> deleted (n_id c) = false -> is_nan (full (n_id c)) = false) ->
  exists r, pp_rerank B deleted full sort cands (at_ xs) = wrote cap at_ xs (map to_item r) /\
    ranked (map (fun x => mkNbr (n_id x) (full (n_id x))) (filter (fun x => negb (deleted (n_id x))) cands)) r.
Proof.
  intros F Hs N. unfold pp_rerank.
  destruct (sorts_ranked sort (map (fun x => mkNbr (n_id x) (full (n_id x))) (filter (fun x => negb (deleted (n_id x))) cands)) Hs)
    as (r & E & R).
  - apply Forall_forall. intros y Hy. apply in_map_iff in Hy. destruct Hy as (c & <- & Hc). apply filter_In in Hc.
    destruct Hc as (Hc & D). cbn [n_dist]. apply N; [exact Hc|]. now apply negb_true_iff in D.
  - exists r. rewrite E. split; [now apply extend_wrote|exact R].
Qed.

Lemma bf_fetch_ok (full : nat -> sres (option f32)) (get : nat -> option f32) cands :
  (forall c, In c cands -> full (n_id c) = SOk (get (n_id c))) ->
  bf_fetch full cands = SOk (rescored get cands).
Proof.
  induction cands as [|c cands IH]; intros H; cbn [bf_fetch rescored flat_map]; [reflexivity|].
  rewrite (H c) by now left. fold (rescored get cands). rewrite IH by (intros; apply H; now right).
  now destruct (get (n_id c)).
Qed.

Lemma bf_fetch_err full cands : 
  (forall c, In c cands -> full (n_id c) = SErr \/ exists r, full (n_id c) = SOk r) ->
  (exists c, In c cands /\ full (n_id c) = SErr) -> bf_fetch full cands = SErr.
Proof.
  induction cands as [|c cands IH]; intros H (x & Hx & E); [destruct Hx|]. cbn [bf_fetch].
  destruct (H c (or_introl eq_refl)) as [E'|(r & E')]; rewrite E'; [reflexivity|].
  destruct Hx as [<-|Hx]; [congruence|]. rewrite IH; [reflexivity| |eauto]. intros; apply H; now right.
Qed.

Lemma rescored_numeric get cands :
  (forall c d, In c cands -> get (n_id c) = Some d -> is_nan d = false) ->
  Forall (fun x => is_nan (n_dist x) = false) (rescored get cands).
Proof.
  intros H. apply Forall_forall. intros y Hy. unfold rescored in Hy. apply in_flat_map in Hy.
  destruct Hy as (c & Hc & Hy). destruct (get (n_id c)) as [d|] eqn:E; [|destruct Hy].
  destruct Hy as [<-|[]]. cbn [n_dist]. eauto.
Qed.

Lemma bf_rerank_wrote full get sort cands xs : take_cap cap xs = xs -> sorts sort ->
  (forall c, In c cands -> full (n_id c) = SOk (get (n_id c))) ->
  (forall c d, In c cands -> get (n_id c) = Some d -> is_nan d = false) ->
  exists r, pp_bf_rerank B full sort cands (at_ xs) = wrote cap at_ xs (map to_item r) /\
    ranked (rescored get cands) r.
Proof.
  intros F Hs G N. unfold pp_bf_rerank. rewrite (bf_fetch_ok _ get) by exact G.
  destruct (sorts_ranked sort _ Hs (rescored_numeric get cands N)) as (r & E & R).
  exists r. rewrite E. split; [now apply extend_wrote|exact R].
Qed.
End post_ids.

Lemma present_rescored full cands : present full cands = rescored full cands.
Proof.
  induction cands as [|c cands IH]; cbn [present rescored flat_map]; [reflexivity|]. rewrite IH.
  now destruct (full (n_id c)).
Qed.

Lemma keep_spec accept ok cands : (forall c, In c cands -> accept (n_id c) = Some (ok (n_id c))) ->
  keep accept cands = Some (filter (fun c => ok (n_id c)) cands).
Proof.
  induction cands as [|c cands IH]; intros H; cbn [keep filter]; [reflexivity|].
  rewrite (H c) by now left. rewrite IH by (intros; apply H; now right). now destruct (ok (n_id c)).
Qed.

Lemma keep_none accept cands : (exists c, In c cands /\ accept (n_id c) = None) -> keep accept cands = None.
Proof.
  induction cands as [|c cands IH]; intros (x & Hx & E); [destruct Hx|]. cbn [keep].
  destruct Hx as [<-|Hx]; [now rewrite E|]. destruct (accept (n_id c)); [|reflexivity]. now rewrite IH by eauto.
Qed.

(** ** The closest items are kept *)
Lemma ranked_closest xs r c : ranked xs r -> closest c xs (firstn c r).
Proof. intros (P & St). now apply closest_firstn. Qed.

(** ** Flat search *)
Lemma flat_best k scan : 0 < k -> exists q best,
  insert_all (pq_new k) scan = Some q /\ pq_iter q = Some best /\ closest k (valid scan) best.
Proof.
  intros Hk. destruct (nav_insert k true (pq_new k) [] [] scan (nav_new k true Hk)) as (q & E & N).
  cbn [app] in N. destruct (nav_iter k q scan [] Hk N) as (best & I & C). eauto.
Qed.

Lemma closest_length k xs r : closest k xs r -> length r <= k.
Proof. intros (_ & E & _). lia. Qed.

Lemma flat_spec {S} k (process : list nbr -> S -> sres (S * nat)) scan b b' n best' : 0 < k ->
  (forall best, closest k (valid scan) best -> best' best) ->
  (forall best, best' best -> process best b = SOk (b', n)) ->
  flat_search k process scan false b = SOk (b', length scan, n).
Proof.
  intros Hk H P. unfold flat_search. destruct (flat_best k scan Hk) as (q & best & -> & -> & C).
  rewrite firstn_all2 by (eapply closest_length; eauto). now rewrite P by auto.
Qed.
