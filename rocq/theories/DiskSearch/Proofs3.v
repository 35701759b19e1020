(** Post processing on disk. *)
From Verif.Lib Require Import Base Lists F32.
From Verif.Search Require Import Proofs ProofsKnn.
From Verif.Filtered Require Import Proofs Proofs2 Proofs3 Proofs6.
From Verif.Output Require Import Proofs.
From Verif.DiskSearch Require Import Model Spec Proofs Proofs2.

Lemma find_filter_other {B} i j (c : list (nat * B)) : i <> j ->
  find_nat j (filter (fun e => negb (fst e =? i)) c) = find_nat j c.
Proof.
  intros H. unfold find_nat. f_equal. induction c as [|[x b] c IH]; [reflexivity|]. cbn [filter find fst].
  destruct (Nat.eqb_spec x i) as [->|Hx]; cbn [negb find fst].
  - destruct (Nat.eqb_spec i j); [congruence|exact IH].
  - destruct (x =? j); [reflexivity|exact IH].
Qed.

Lemma find_filter_self {B} i (c : list (nat * B)) : find_nat i (filter (fun e => negb (fst e =? i)) c) = None.
Proof.
  unfold find_nat. induction c as [|[x b] c IH]; [reflexivity|]. cbn [filter fst].
  destruct (Nat.eqb_spec x i) as [->|Hx]; cbn [negb]; [exact IH|]. cbn [find fst].
  destruct (Nat.eqb_spec x i); [congruence|exact IH].
Qed.

Section disk.
Context {V A : Type} (nodes : nat -> option (node V A)).
Variable full : V -> f32.
Variable keepv : bool.
Variable adef : A.
Variable k : nat.
Notation AccOK := (AccOK nodes full keepv).
Notation cache_of := (cache_of nodes full keepv).
Notation items := (items nodes full).
Notation stored := (stored nodes).
Notation reads := (reads nodes).

(** The caller's slices, and what is written for an item. *)
Definition at_ : list (item (payload A V)) -> sout A V :=
  sout_at (repeat 0 k) (repeat f32_zero k) (repeat adef k) (if keepv then Some (repeat None k) else None).
Definition pay (x : item (nat * A)) : item (payload A V) :=
  ((fst x, if keepv then option_map nd_vec (nodes (fst (fst x))) else None), snd x).

Lemma at_log : log_buffer (sout_buf A V) (Some k) at_.
Proof.
  unfold at_. rewrite <- (repeat_length 0 k) at 1. apply sout_log.
  - now rewrite !repeat_length.
  - now rewrite !repeat_length.
  - intros v. destruct keepv; [intros [= <-]; now rewrite !repeat_length|discriminate].
Qed.

Lemma sout_new_at : sout_new (repeat 0 k) (repeat f32_zero k) (repeat adef k)
  (if keepv then Some (repeat None k) else None) = SOk (at_ []).
Proof.
  unfold sout_new, ida_new, at_, sout_at, ida_at. rewrite !repeat_length, Nat.eqb_refl. cbn [andb map length overlay app skipn].
  unfold overlay. cbn [length skipn app].
  destruct keepv; [rewrite repeat_length, Nat.eqb_refl|]; reflexivity.
Qed.

(** ** What is in the distance cache *)
Lemma cache_snoc l i : cache_of (l ++ [i]) = ent nodes full keepv i ++ cache_of l.
Proof.
  unfold Proofs.cache_of. rewrite flat_map_app, rev_app_distr. cbn [flat_map]. rewrite app_nil_r. f_equal.
  unfold ent. now destruct (nodes i).
Qed.

Lemma cache_find l i : stored i -> find_nat i (cache_of l) =
  if seen i l then option_map (fun nd => (full (nd_vec nd), nd_data nd, if keepv then Some (nd_vec nd) else None)) (nodes i)
  else None.
Proof.
  intros Hi. induction l as [|j l IH] using rev_ind; [reflexivity|]. rewrite cache_snoc.
  assert (SE : seen i (l ++ [j]) = (i =? j) || seen i l).
  { unfold seen. rewrite existsb_app. cbn [existsb]. rewrite orb_false_r. apply orb_comm. }
  rewrite SE. unfold ent. destruct (Nat.eqb_spec i j) as [<-|Hij]; cbn [orb].
  - unfold stored in Hi. destruct (nodes i) as [nd|]; [|contradiction].
    unfold find_nat. cbn [app find fst]. now rewrite Nat.eqb_refl.
  - rewrite <- IH. destruct (nodes j); [|reflexivity]. unfold find_nat. cbn [app find fst].
    destruct (Nat.eqb_spec j i); [congruence|reflexivity].
Qed.

Lemma split_ok l ids : (forall i, In i ids -> stored i) ->
  split_cached (cache_of l) ids =
    (items (filter (fun i => seen i l) ids), filter (fun i => negb (seen i l)) ids).
Proof.
  induction ids as [|i ids IH]; intros Hs; [reflexivity|]. cbn [split_cached filter].
  rewrite IH by (intros j Hj; apply Hs; now right). rewrite cache_find by (apply Hs; now left).
  assert (Hi := Hs i (or_introl eq_refl)). unfold Proofs.stored in Hi.
  destruct (seen i l); cbn [negb]; [|reflexivity].
  destruct (nodes i) as [nd|] eqn:N; [|contradiction]. cbn [option_map]. unfold Spec.items. cbn [flat_map]. rewrite N. reflexivity.
Qed.

Lemma items_app a b : items (a ++ b) = items a ++ items b.
Proof. apply flat_map_app. Qed.

Lemma split_perm (f : nat -> bool) ids :
  Permutation (items (filter f ids) ++ items (filter (fun i => negb (f i)) ids)) (items ids).
Proof.
  rewrite <- items_app. unfold Spec.items. apply Permutation_flat_map.
  induction ids as [|i ids IH]; [reflexivity|]. cbn [filter]. destruct (f i); cbn [negb app].
  - now apply perm_skip.
  - eapply Permutation_trans; [symmetry; apply Permutation_middle|]. now apply perm_skip.
Qed.

Lemma items_ids ids : (forall i, In i ids -> stored i) -> map (fun x => fst (fst x)) (items ids) = ids.
Proof.
  induction ids as [|i ids IH]; intros Hs; [reflexivity|]. unfold Spec.items. cbn [flat_map].
  assert (Hi := Hs i (or_introl eq_refl)). unfold Proofs.stored in Hi. destruct (nodes i) as [nd|]; [|contradiction].
  cbn [app map fst]. f_equal. apply IH. intros j Hj. apply Hs. now right.
Qed.

Lemma items_in x ids : In x (items ids) <-> exists i nd, In i ids /\ nodes i = Some nd /\ x = ((i, nd_data nd), full (nd_vec nd)).
Proof.
  unfold Spec.items. rewrite in_flat_map. split.
  - intros (i & Hi & Hx). destruct (nodes i) as [nd|] eqn:N; [|destruct Hx]. destruct Hx as [<-|[]]. eauto.
  - intros (i & nd & Hi & N & ->). exists i. split; [exact Hi|]. rewrite N. now left.
Qed.

(** ** Writing the results *)
Section provider.
Context {St : Type} (P : vprov St V A) (inv : St -> Prop) (SV : serves nodes P inv).

Lemma extend_vectors_ok s : keepv = true -> forall xs c ys n,
  Forall (fun x => stored (fst (fst x)) /\
    match find_nat (fst (fst x)) c with Some (_, _, Some v) => Some v | _ => v_vector P s (fst (fst x)) end =
    option_map nd_vec (nodes (fst (fst x)))) xs ->
  (NoDup (map (fun x : item (nat * A) => fst (fst x)) xs) \/
   Forall (fun x => v_vector P s (fst (fst x)) = option_map nd_vec (nodes (fst (fst x)))) xs) ->
  take_cap (Some k) ys = ys ->
  extend_vectors P s c xs (at_ ys) n =
    SOk (at_ (take_cap (Some k) (ys ++ map pay xs)), n + (length (take_cap (Some k) (ys ++ map pay xs)) - length ys)).
Proof.
  intros KV. induction xs as [|[[i a] d] xs IH]; intros c ys n F D T; cbn [extend_vectors map].
  - rewrite app_nil_r, T, Nat.sub_diag, Nat.add_0_r. reflexivity.
  - rewrite (lg_hint _ _ _ at_log) by exact T. cbn [option_map].
    apply take_cap_fits in T.
    destruct (k - length ys) as [|r] eqn:R.
    + rewrite take_cap_app by exact T. rewrite R. cbn [firstn]. now rewrite app_nil_r, Nat.sub_diag, Nat.add_0_r.
    + inversion F as [|? ? [F1 F2] F3]; subst. cbn [fst] in F1, F2. rewrite F2.
      unfold Proofs.stored in F1. destruct (nodes i) as [nd|] eqn:N; [|contradiction]. cbn [option_map].
      assert (EP : ((i, a, Some (nd_vec nd)), d) = pay ((i, a), d)).
      { unfold pay. cbn [fst snd]. now rewrite KV, N. }
      rewrite EP.
      rewrite (lg_push _ _ _ at_log) by (apply take_cap_fits; exact T).
      assert (T1 : take_cap (Some k) (ys ++ [pay ((i, a), d)]) = ys ++ [pay ((i, a), d)]).
      { apply take_cap_fits. rewrite app_length. cbn [length]. lia. }
      rewrite T1. cbn [full_at]. rewrite app_length. cbn [length].
      destruct (Nat.leb_spec k (length ys + 1)) as [Hk|Hk].
      * cbn [take_cap]. rewrite (firstn_full _ ys) by lia. cbn [take_cap] in T1. rewrite T1, app_length. cbn [length].
        do 2 f_equal. lia.
      * rewrite IH.
        -- rewrite <- app_assoc. cbn [app]. rewrite app_length. cbn [length].
           assert (LE : length ys + 1 <= length (take_cap (Some k) (ys ++ pay ((i, a), d) :: map pay xs))).
           { cbn [take_cap]. rewrite firstn_length, app_length. cbn [length]. lia. }
           do 2 f_equal. lia.
        -- rewrite Forall_forall in F3 |- *. intros x Hx. destruct (F3 x Hx) as (G1 & G2). split; [exact G1|].
           destruct (Nat.eq_dec (fst (fst x)) i) as [E|E].
           ++ rewrite E, find_filter_self. destruct D as [D|D].
              ** exfalso. cbn [map fst] in D. inversion D as [|? ? D1 _]; subst. apply D1.
                 now apply (in_map (fun x => fst (fst x))) in Hx.
              ** rewrite Forall_forall in D. rewrite <- E. apply D. now right.
           ++ rewrite find_filter_other by congruence. exact G2.
        -- destruct D as [D|D]; [left; cbn [map] in D; now inversion D|right; now inversion D].
        -- exact T1.
Qed.

Lemma extend_output_ok acc loaded u xs : AccOK inv acc loaded -> holds nodes P (d_vp acc) u ->
  (forall x, In x xs -> stored (fst (fst x)) /\ (In (fst (fst x)) loaded \/ In (fst (fst x)) u)) ->
  (NoDup (map (fun x : item (nat * A) => fst (fst x)) xs) \/ forall x, In x xs -> In (fst (fst x)) u) ->
  extend_output P keepv acc xs (at_ []) =
    SOk (at_ (firstn k (map pay xs)), length (firstn k (map pay xs))).
Proof.
  intros (A1 & A2 & A3) H Hx D. unfold extend_output.
  assert (HV : forall i, stored i -> In i u -> v_vector P (d_vp acc) i = option_map nd_vec (nodes i)).
  { intros i Hi Hu. unfold Proofs.stored in Hi. destruct (nodes i) as [nd|] eqn:N; [|contradiction].
    destruct (H i nd Hu N) as (-> & _). reflexivity. }
  assert (T0 : take_cap (Some k) (@nil (item (payload A V))) = []) by apply (@firstn_nil _ _).
  assert (KV : keepv = true \/ keepv = false) by (destruct keepv; auto).
  destruct KV as [KV|KV]; rewrite KV at 1.
  - rewrite extend_vectors_ok; auto.
    + cbn [app take_cap length]. rewrite Nat.sub_0_r. reflexivity.
    + rewrite Forall_forall. intros x Ix. destruct (Hx x Ix) as (S & U). split; [exact S|].
      rewrite A2, (cache_find loaded _ S), KV.
      destruct (seen (fst (fst x)) loaded) eqn:SE.
      * unfold Proofs.stored in S. destruct (nodes (fst (fst x))); [reflexivity|contradiction].
      * apply HV; [exact S|]. destruct U as [U|U]; [|exact U]. apply seen_false in SE. contradiction.
    + destruct D as [D|D]; [now left|right]. rewrite Forall_forall. intros x Ix. apply HV; [now apply Hx|auto].
  - rewrite (lg_extend _ _ _ at_log) by exact T0. cbn [lift app take_cap length]. rewrite Nat.sub_0_r.
    assert (EM : map (fun x : item (nat * A) => ((fst x, @None V), snd x)) xs = map pay xs).
    { apply map_ext. intros x. unfold pay. now rewrite KV. }
    now rewrite EM.
Qed.

Lemma read_uncached_ok s u : (forall i, In i u -> stored i) -> holds nodes P s u ->
  read_uncached P full s u = Some (items u).
Proof.
  induction u as [|i u IH]; intros Hs H; [reflexivity|]. cbn [read_uncached].
  assert (Hi := Hs i (or_introl eq_refl)). unfold Proofs.stored in Hi.
  destruct (nodes i) as [nd|] eqn:N; [|contradiction].
  destruct (H i nd (or_introl eq_refl) N) as (-> & _ & ->).
  rewrite IH; [|intros j Hj; apply Hs; now right|intros j nj Hj; apply H; now right].
  unfold Spec.items. cbn [flat_map]. now rewrite N.
Qed.
End provider.

(** ** Reranking *)
Lemma rerank_ok f sort loaded cands : sorts_items sort -> NoDup (map n_id cands) ->
  (forall x, In x cands -> stored (n_id x)) ->
  let ids := filter (passes f) (map n_id cands) in
  (exists xs, Permutation xs (items ids) /\
     (Forall (fun x => is_nan (snd x) = false) (items ids) -> StronglySorted item_closer xs) /\
     forall St (P : vprov St V A) inv, serves nodes P inv -> forall acc, AccOK inv acc loaded ->
     reads P inv (rerank_and_filter P full keepv f sort acc cands (at_ []))
       (fun r => r = (at_ (firstn k (map pay xs)), length (firstn k (map pay xs))))) \/
  ((exists x, In x (items ids) /\ is_nan (snd x) = true) /\
   forall St (P : vprov St V A) inv, serves nodes P inv -> forall acc, AccOK inv acc loaded ->
   (rerank_and_filter P full keepv f sort acc cands (at_ []) = SErr /\ ~ reliable nodes P inv) \/
   rerank_and_filter P full keepv f sort acc cands (at_ []) = SPanic).
Proof.
  intros HS ND Hc ids.
  assert (Hi : forall i, In i ids -> stored i).
  { intros i Hi. apply filter_In in Hi. destruct Hi as [Hi _]. apply in_map_iff in Hi.
    destruct Hi as (x & <- & Hx). auto. }
  assert (NDi : NoDup ids) by (apply NoDup_filter; exact ND).
  set (c := filter (fun i => seen i loaded) ids). set (u := filter (fun i => negb (seen i loaded)) ids).
  assert (Hu : forall i, In i u -> stored i) by (intros i H; apply Hi; now apply filter_In in H).
  assert (NDu : NoDup u) by (apply NoDup_filter; exact NDi).
  pose proof (split_perm (fun i => seen i loaded) ids) as SP. fold c u in SP.
  pose proof (HS (items c ++ items u)) as SS.
  (* the load step *)
  assert (LD : forall St (P : vprov St V A) inv, serves nodes P inv -> forall acc, AccOK inv acc loaded ->
    (rerank_and_filter P full keepv f sort acc cands (at_ []) = SErr /\ ~ reliable nodes P inv) \/
    exists acc', AccOK inv acc' loaded /\ holds nodes P (d_vp acc') u /\
      rerank_and_filter P full keepv f sort acc cands (at_ []) =
      match sort (items c ++ items u) with
      | None => SPanic
      | Some xs => extend_output P keepv acc' xs (at_ [])
      end).
  { intros St P inv SV acc AO. pose proof AO as (A1 & A2 & A3). unfold rerank_and_filter. fold ids.
    rewrite A2, (split_ok loaded ids Hi). fold c u.
    destruct u as [|j u'] eqn:EU.
    - right. exists acc. split; [exact AO|]. split; [intros i nd []|]. unfold Spec.items at 3. cbn [flat_map].
      rewrite app_nil_r. reflexivity.
    - rewrite <- EU in *. destruct (ensure_ok nodes P inv SV (d_vp acc) u A1 NDu Hu) as [(E & R)|(s & E & I & H)].
      + left. split; [|exact R]. rewrite EU in E |- *. now rewrite E.
      + right. exists (mkAcc s (d_cache acc) (d_io acc)). split; [now split|]. split; [exact H|].
        rewrite A2. rewrite EU in E |- *. rewrite E. rewrite <- EU. now rewrite (read_uncached_ok P s u Hu H). }
  destruct (sort (items c ++ items u)) as [xs|] eqn:ES.
  - left. destruct SS as (S1 & S2). exists xs. split; [now rewrite S1|]. split.
    + intros F. apply S2. rewrite Forall_forall in *. intros x Hx. apply F. now apply (Permutation_in _ SP).
    + intros St P inv SV acc AO. destruct (LD St P inv SV acc AO) as [(E & R)|(acc' & AO' & H' & E)]; [left; auto|].
      right. rewrite E. eexists. split; [|reflexivity].
      assert (PX : Permutation xs (items ids)) by now rewrite S1.
      apply (extend_output_ok P inv acc' loaded u xs AO' H').
      * intros x Hx. apply (Permutation_in _ PX) in Hx. apply items_in in Hx.
        destruct Hx as (i & nd & Ii & N & ->). cbn [fst]. split; [now apply Hi|].
        destruct (seen i loaded) eqn:SE; [left; now apply seen_spec|right].
        apply filter_In. split; [exact Ii|now rewrite SE].
      * left. eapply Permutation_NoDup; [apply Permutation_map; symmetry; exact PX|]. now rewrite items_ids.
  - right. split.
    + destruct SS as (x & Hx & Nx). exists x. split; [now apply (Permutation_in _ SP)|exact Nx].
    + intros St P inv SV acc AO. destruct (LD St P inv SV acc AO) as [(E & R)|(acc' & _ & _ & E)]; auto.
Qed.

(** ** Diversity *)
Definition vec_items (ids : list nat) : list (V * item (nat * A)) :=
  flat_map (fun i => match nodes i with
                     | Some nd => [(nd_vec nd, ((i, nd_data nd), full (nd_vec nd)))]
                     | None => []
                     end) ids.

Lemma vec_items_snd ids : map snd (vec_items ids) = items ids.
Proof.
  unfold vec_items, Spec.items. induction ids as [|i ids IH]; [reflexivity|]. cbn [flat_map]. rewrite map_app, IH.
  now destruct (nodes i).
Qed.

Lemma read_all_ok {St} (P : vprov St V A) s u : (forall i, In i u -> stored i) -> holds nodes P s u ->
  read_all P full s u = Some (vec_items u).
Proof.
  induction u as [|i u IH]; intros Hs H; [reflexivity|]. cbn [read_all].
  assert (Hi := Hs i (or_introl eq_refl)). unfold Proofs.stored in Hi.
  destruct (nodes i) as [nd|] eqn:N; [|contradiction].
  destruct (H i nd (or_introl eq_refl) N) as (-> & _ & ->).
  rewrite IH; [|intros j Hj; apply Hs; now right|intros j nj Hj; apply H; now right].
  unfold vec_items. cbn [flat_map]. now rewrite N.
Qed.

Lemma pick_in {B} (xs : list B) idx : forall r, pick_items xs idx = Some r -> incl r xs.
Proof.
  induction idx as [|i idx IH]; intros r E; cbn [pick_items] in E; [injection E as <-; intros x []|].
  destruct (nth_error xs i) as [x|] eqn:N; [|discriminate]. destruct (pick_items xs idx) as [r'|]; [|discriminate].
  injection E as <-. intros y [<-|Hy]; [eapply nth_error_In; eauto|]. exact (IH r' eq_refl y Hy).
Qed.

(** The selection for a set of candidates. *)
Definition selection (select : list (V * f32) -> option (list nat)) (ids : list nat) : sres (list (item (nat * A))) :=
  match ids with
  | [] => SOk []
  | _ =>
      match select (map (fun x => (fst x, snd (snd x))) (vec_items ids)) with
      | None => SErr
      | Some idx => lift (pick_items (items ids) idx)
      end
  end.

Lemma diversity_ok f select loaded cands : NoDup (map n_id cands) ->
  (forall x, In x cands -> stored (n_id x)) ->
  forall St (P : vprov St V A) inv, serves nodes P inv -> forall acc, AccOK inv acc loaded ->
  (diversity_and_filter P full keepv f select acc cands (at_ []) = SErr /\ ~ reliable nodes P inv) \/
  diversity_and_filter P full keepv f select acc cands (at_ []) =
    match selection select (filter (passes f) (map n_id cands)) with
    | SOk xs => SOk (at_ (firstn k (map pay xs)), length (firstn k (map pay xs)))
    | SErr => SErr
    | SPanic => SPanic
    | SFuel => SFuel
    end.
Proof.
  intros ND Hc St P inv SV acc AO. unfold diversity_and_filter, selection.
  set (ids := filter (passes f) (map n_id cands)).
  assert (Hi : forall i, In i ids -> stored i).
  { intros i Hi. apply filter_In in Hi. destruct Hi as [Hi _]. apply in_map_iff in Hi.
    destruct Hi as (x & <- & Hx). auto. }
  assert (NDi : NoDup ids) by (apply NoDup_filter; exact ND).
  destruct ids as [|j l] eqn:EI; [right; cbn [map]; now rewrite firstn_nil|].
  rewrite <- EI in *. pose proof AO as (A1 & A2 & A3).
  destruct (ensure_ok nodes P inv SV (d_vp acc) ids A1 NDi Hi) as [(E & R)|(s & E & I & H)].
  - left. rewrite E. auto.
  - right. rewrite E, (read_all_ok P s ids Hi H), vec_items_snd.
    destruct (select _) as [idx|]; [|reflexivity]. destruct (pick_items (items ids) idx) as [r|] eqn:EP; [|reflexivity].
    cbn [lift]. pose proof (pick_in _ _ _ EP) as IN.
    apply (extend_output_ok P inv (mkAcc s (d_cache acc) (d_io acc)) loaded ids r).
    + now split.
    + exact H.
    + intros x Hx. apply IN, items_in in Hx. destruct Hx as (i & nd & Ii & N & ->). cbn [fst]. split; auto.
    + right. intros x Hx. apply IN, items_in in Hx. destruct Hx as (i & nd & Ii & N & ->). exact Ii.
Qed.
End disk.
