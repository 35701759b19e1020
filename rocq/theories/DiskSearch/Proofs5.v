(** Providers that serve an index, and the results the two entry points return. *)
From Verif.Lib Require Import Base Lists F32 Bytes.
From Verif.Disk Require Model Spec ProofsLayout ProofsRead.
From Verif.Output Require Import Proofs.
From Verif.DiskSearch Require Import Model Spec File Proofs Proofs2 Proofs3 Proofs4.

(** ** Everything at hand *)
Lemma ideal_process {V A} (nodes : nat -> option (node V A)) ids : forall s idx, process_all (ideal nodes) s ids idx = SOk s.
Proof. induction ids as [|i ids IH]; intros s idx; [reflexivity|]. cbn [process_all ideal v_process]. apply IH. Qed.

Lemma ideal_serves {V A} (nodes : nat -> option (node V A)) : serves nodes (ideal nodes) (fun _ => True).
Proof.
  constructor; [|auto]. intros s ids _ _ _. unfold ensure_vertex_loaded. cbn [ideal v_load].
  fold (ideal nodes). rewrite ideal_process. split; [auto|].
  intros i nd _ E. cbn [ideal v_vector v_adj v_data]. rewrite E. auto.
Qed.
Lemma ideal_reliable {V A} (nodes : nat -> option (node V A)) : reliable nodes (ideal nodes) (fun _ => True).
Proof.
  intros s ids _ _ _. unfold ensure_vertex_loaded. cbn [ideal v_load]. fold (ideal nodes). now rewrite ideal_process.
Qed.

(** ** With a cache *)
Section cached.
Context {St V A : Type} (P : vprov St V A) (nodes : nat -> option (node V A)) (inv : St -> Prop).
Variable cache : nat -> option (node V A).
Notation CP := (cached_vprov P cache).

Lemma filter_cached_ids ids : forall idx n, snd (filter_cached cache idx n ids) =
  filter (fun i => match cache i with Some _ => false | None => true end) ids.
Proof.
  induction ids as [|i ids IH]; intros idx n; [reflexivity|]. cbn [filter_cached filter].
  destruct (cache i); [apply IH|]. specialize (IH (S idx) (S n)).
  destruct (filter_cached cache (S idx) (S n) ids) as [m u]. cbn [snd] in *. now rewrite IH.
Qed.

Lemma filter_cached_ge ids : forall idx n x, In x (fst (filter_cached cache idx n ids)) -> idx <= fst x.
Proof.
  induction ids as [|i ids IH]; intros idx n x Hx; [destruct Hx|]. cbn [filter_cached] in Hx.
  destruct (cache i); [apply IH in Hx; lia|]. specialize (IH (S idx) (S n) x).
  destruct (filter_cached cache (S idx) (S n) ids) as [m u]. cbn [fst] in *. destruct Hx as [<-|Hx]; cbn [fst]; [lia|].
  apply IH in Hx. lia.
Qed.

Definition lift_cst (m : list (nat * nat)) (n : nat) (r : sres St) : sres (cst St) :=
  match r with SOk s => SOk (mkCst s m n) | SErr => SErr | SPanic => SPanic | SFuel => SFuel end.

Lemma cached_process_all M cnt ids : forall idx n s,
  (forall i, idx <= i -> find_nat i M = find_nat i (fst (filter_cached cache idx n ids))) ->
  process_all CP (mkCst s M cnt) ids idx =
    lift_cst M cnt (process_all P s (snd (filter_cached cache idx n ids)) n).
Proof.
  induction ids as [|i ids IH]; intros idx n s HM; [reflexivity|]. cbn [process_all filter_cached] in *.
  change (v_process CP (mkCst s M cnt) i idx) with (cached_process P cache (mkCst s M cnt) i idx).
  unfold cached_process. cbn [c_map c_under c_count].
  destruct (cache i) as [nd|] eqn:C.
  - apply IH. intros j Hj. apply HM. lia.
  - specialize (IH (S idx) (S n)).
    pose proof (filter_cached_ge ids (S idx) (S n)) as GE.
    destruct (filter_cached cache (S idx) (S n) ids) as [m u]. cbn [fst snd] in *.
    rewrite (HM idx (le_n _)). unfold find_nat at 1. cbn [find fst]. rewrite Nat.eqb_refl. cbn [option_map snd process_all].
    destruct (v_process P s i n) as [s'| | |]; try reflexivity.
    apply IH. intros j Hj. rewrite HM by lia. unfold find_nat. cbn [find fst].
    destruct (Nat.eqb_spec idx j); [lia|reflexivity].
Qed.

Lemma cached_ensure s ids : ensure_vertex_loaded CP s ids =
  let m := fst (filter_cached cache 0 0 ids) in
  match filter (fun i => match cache i with Some _ => false | None => true end) ids with
  | [] => SOk (mkCst (c_under s) m (c_count s + length ids))
  | u => lift_cst m (c_count s + length ids) (ensure_vertex_loaded P (c_under s) u)
  end.
Proof.
  unfold ensure_vertex_loaded. change (v_load CP s ids) with (cached_load P cache s ids). unfold cached_load.
  pose proof (cached_process_all (fst (filter_cached cache 0 0 ids)) (c_count s + length ids) ids 0 0) as PA.
  rewrite <- (filter_cached_ids ids 0 0). destruct (filter_cached cache 0 0 ids) as [m u]. cbn [fst snd] in *.
  destruct u as [|i u].
  - rewrite PA by auto. reflexivity.
  - destruct (v_load P (c_under s) (i :: u)) as [s'| | |]; try reflexivity. rewrite PA by auto. reflexivity.
Qed.

Hypothesis HC : forall i nd, cache i = Some nd -> nodes i = Some nd.
Definition cinv (s : cst St) : Prop := inv (c_under s).

Lemma cached_serves : serves nodes P inv -> serves nodes CP cinv.
Proof.
  intros SV. constructor.
  - intros s ids I ND ST. rewrite cached_ensure. cbv zeta.
    set (u := filter _ ids).
    assert (Hu : forall i, In i ids -> cache i = None -> In i u).
    { intros i Hi C. apply filter_In. split; [exact Hi|]. now rewrite C. }
    assert (HH : forall s' m n, (forall i, In i ids -> cache i = None -> holds nodes P s' [i]) -> holds nodes CP (mkCst s' m n) ids).
    { intros s' m n H i nd Hi E. cbn [cached_vprov v_vector v_adj v_data c_under].
      destruct (cache i) as [nd'|] eqn:C.
      - rewrite (HC _ _ C) in E. injection E as ->. auto.
      - apply (H i Hi C i nd); [now left|exact E]. }
    destruct u as [|j u'] eqn:EU.
    + split; [exact I|]. apply HH. intros i Hi C. now destruct (Hu i Hi C).
    + pose proof (sv_load _ _ _ SV (c_under s) (j :: u') I) as L.
      assert (N1 : NoDup (j :: u')) by (rewrite <- EU; now apply NoDup_filter).
      assert (S1 : forall i, In i (j :: u') -> nodes i <> None).
      { intros i Hi. rewrite <- EU in Hi. apply filter_In in Hi. now apply ST. }
      specialize (L N1 S1). destruct (ensure_vertex_loaded P (c_under s) (j :: u')) as [s'| | |]; cbn [lift_cst]; auto.
      destruct L as (L1 & L2). split; [exact L1|]. apply HH. intros i Hi C i' nd [<-|[]] E.
      apply L2; [now apply Hu|exact E].
  - intros s I. exact (sv_clear _ _ _ SV (c_under s) I).
Qed.

Lemma cached_reliable : reliable nodes P inv -> reliable nodes CP cinv.
Proof.
  intros R s ids I ND ST. rewrite cached_ensure. cbv zeta.
  set (u := filter _ ids). destruct u as [|j u'] eqn:EU; [discriminate|].
  pose proof (R (c_under s) (j :: u') I) as L.
  assert (N1 : NoDup (j :: u')) by (rewrite <- EU; now apply NoDup_filter).
  assert (S1 : forall i, In i (j :: u') -> nodes i <> None).
  { intros i Hi. rewrite <- EU in Hi. apply filter_In in Hi. now apply ST. }
  specialize (L N1 S1). now destruct (ensure_vertex_loaded P (c_under s) (j :: u')).
Qed.
End cached.

(** ** Over a file *)
Section file.
Import Disk.Spec Disk.ProofsLayout Disk.ProofsRead.
Variable dbg : bool.
Variables tsz asz : nat.
Variable c : content.
Hypothesis OK : content_ok dbg tsz asz c.
Variable bs : nat.
Hypothesis HBS : 104 <= bs.
Notation f := (F tsz asz c bs).
Notation vp_ok := (vp_ok tsz asz c bs).
Definition finv (s : file_vp) : Prop := exists batch done, vp_ok batch done s.

Lemma nodes_of_lt i : nodes_of c i <> None -> i < length (c_vecs c).
Proof.
  unfold nodes_of, vector_of. rewrite Nat2N.id. destruct (nth_error (c_vecs c) i) eqn:E; [|congruence].
  intros _. apply nth_error_Some. congruence.
Qed.

Lemma file_process ids : forall pre s,
  vp_ok (map N.of_nat (pre ++ ids)) (rev (map N.of_nat pre)) s -> NoDup (pre ++ ids) ->
  exists s', process_all (file_vprov f) s ids (length pre) = SOk s' /\
    vp_ok (map N.of_nat (pre ++ ids)) (rev (map N.of_nat (pre ++ ids))) s'.
Proof.
  induction ids as [|i ids IH]; intros pre s K ND; cbn [process_all].
  - rewrite app_nil_r in *. eauto.
  - cbn [file_vprov v_process].
    destruct (vp_process_ok dbg tsz asz c OK bs HBS _ _ s (N.of_nat i) (length pre) K) as (s1 & E & K1).
    { rewrite nth_error_map, nth_error_app2, Nat.sub_diag by lia. reflexivity. }
    { rewrite <- in_rev. intros H. apply in_map_iff in H. destruct H as (j & E & Hj). apply Nat2N.inj in E. subst j.
      destruct (NoDup_app_inv _ _ ND) as (_ & _ & D). apply (D i Hj). now left. }
    rewrite E. cbn [or_panic]. fold (file_vprov f).
    destruct (IH (pre ++ [i]) s1) as (s2 & E2 & K2).
    + rewrite <- app_assoc. cbn [app]. rewrite (map_app N.of_nat pre [i]), rev_app_distr. cbn [rev app]. exact K1.
    + rewrite <- app_assoc. exact ND.
    + rewrite app_length in E2. cbn [length] in E2. rewrite Nat.add_1_r in E2. rewrite <- app_assoc in K2.
      exists s2. split; [exact E2|exact K2].
Qed.

Lemma file_ensure s ids : finv s -> NoDup ids -> (forall i, In i ids -> nodes_of c i <> None) ->
  exists s', ensure_vertex_loaded (file_vprov f) s ids = SOk s' /\ finv s' /\ holds (nodes_of c) (file_vprov f) s' ids.
Proof.
  intros (batch & done & K) ND ST. unfold ensure_vertex_loaded. cbn [file_vprov v_load].
  destruct (vp_load_ok dbg tsz asz c OK bs HBS batch done s (map N.of_nat ids) K) as (s1 & E & K1).
  { rewrite Forall_map, Forall_forall. intros i Hi. rewrite Nat2N.id. apply nodes_of_lt, ST, Hi. }
  rewrite E. cbn [or_panic]. fold (file_vprov f).
  destruct (file_process ids [] s1 K1 ND) as (s2 & E2 & K2). cbn [length app] in *. rewrite E2.
  exists s2. split; [reflexivity|]. split; [eexists; eexists; exact K2|].
  intros i nd Hi N. pose proof (vp_get_ok dbg tsz asz c OK bs _ _ s2 (N.of_nat i) K2) as G.
  assert (EX : existsb (N.eqb (N.of_nat i)) (rev (map N.of_nat ids)) = true).
  { apply existsb_exists. exists (N.of_nat i). split; [|apply N.eqb_refl]. rewrite <- in_rev. now apply in_map. }
  rewrite EX in G. destruct G as (G1 & G2 & G3 & _). cbn [file_vprov v_vector v_adj v_data].
  rewrite G1, G2, G3. unfold nodes_of in N.
  destruct (vector_of c (N.of_nat i)), (neighbors_of c (N.of_nat i)), (assoc_of c (N.of_nat i)); try discriminate.
  injection N as <-. auto.
Qed.

Lemma file_clear_ok s : finv s -> finv (file_clear s).
Proof.
  intros (batch & done & [(K1 & K2 & K3 & K4 & K5 & K6) K7 K8 K9 K10 K11 K12 K13 K14 K15]).
  exists [], []. constructor; cbn [file_clear Disk.Model.vp_vlen Disk.Model.vp_bs Disk.Model.vp_npb Disk.Model.vp_spn
    Disk.Model.vp_nlen Disk.Model.vp_alen Disk.Model.vp_max Disk.Model.vp_sectors Disk.Model.vp_vecs Disk.Model.vp_adj
    Disk.Model.vp_ad Disk.Model.vp_loaded map length]; auto.
  - repeat split; auto.
  - lia.
  - intros i v H. now destruct i.
  - constructor.
  - intros v i j [].
Qed.

Lemma file_serves : serves (nodes_of c) (file_vprov f) finv.
Proof.
  constructor; [|exact file_clear_ok]. intros s ids I ND ST.
  destruct (file_ensure s ids I ND ST) as (s' & -> & H). exact H.
Qed.
Lemma file_reliable : reliable (nodes_of c) (file_vprov f) finv.
Proof. intros s ids I ND ST. destruct (file_ensure s ids I ND ST) as (s' & -> & _). discriminate. Qed.
Lemma file_new sector max : finv (Disk.Model.vp_new sector tsz max (final_header tsz asz c bs)).
Proof. exists [], []. apply vp_new_ok. exact HBS. Qed.
End file.

(** ** What the entry points return *)
Section results.
Context {V A : Type} (nodes : nat -> option (node V A)).

Lemma zip_overlay (adef : A) k : forall xs : list (item (nat * A)), length xs <= k ->
  zip_items (overlay (map (fun x => fst (fst x)) xs) (repeat 0 k)) (overlay (map snd xs) (repeat f32_zero k))
    (overlay (map (fun x => snd (fst x)) xs) (repeat adef k)) =
  xs ++ repeat ((0, adef), f32_zero) (k - length xs).
Proof.
  unfold overlay. induction k as [|k IH]; intros xs L.
  - destruct xs; [reflexivity|cbn [length] in L; lia].
  - destruct xs as [|[[i a] d] xs].
    + cbn [map length skipn app repeat zip_items Nat.sub]. f_equal.
      specialize (IH [] (Nat.le_0_l _)). cbn [map length skipn app] in IH. rewrite IH, Nat.sub_0_r. reflexivity.
    + cbn [map length skipn app repeat zip_items Nat.sub fst snd]. f_equal. apply IH. cbn [length] in L. lia.
Qed.

Lemma out_items keepv (adef : A) k xs : zip_items (a_ids (o_out (at_ keepv adef k (firstn k (map (pay nodes keepv) xs)))))
    (a_dists (o_out (at_ keepv adef k (firstn k (map (pay nodes keepv) xs)))))
    (a_data (o_out (at_ keepv adef k (firstn k (map (pay nodes keepv) xs))))) =
  firstn k xs ++ repeat ((0, adef), f32_zero) (k - length (firstn k xs)).
Proof.
  unfold at_, sout_at. cbn [o_out ida_at a_ids a_dists a_data].
  rewrite !firstn_map, map_map. cbn [fst snd pay].
  rewrite !map_map. cbn [fst snd].
  apply zip_overlay. rewrite firstn_length. lia.
Qed.

Definition add_vec (x : item (nat * A)) : list (nat * A * f32 * V) :=
  match nodes (fst (fst x)) with Some nd => [(x, nd_vec nd)] | None => [] end.

Lemma with_vectors_ok : forall (xs : list (item (nat * A))) r, (forall x, In x xs -> stored nodes (fst (fst x))) ->
  with_vectors xs (map (fun x => option_map nd_vec (nodes (fst (fst x)))) xs ++ r) = Some (flat_map add_vec xs).
Proof.
  induction xs as [|x xs IH]; intros r H; cbn [map app with_vectors]; [destruct r; reflexivity|].
  assert (Hx := H x (or_introl eq_refl)). unfold stored in Hx. cbn [flat_map]. unfold add_vec at 1.
  rewrite IH by (intros y Hy; apply H; now right).
  destruct (nodes (fst (fst x))); [reflexivity|contradiction].
Qed.

Lemma out_vectors (adef : A) k xs : (forall x, In x xs -> stored nodes (fst (fst x))) ->
  with_vectors (firstn k xs)
    (match o_vecs (at_ true adef k (firstn k (map (pay nodes true) xs))) with Some v => v | None => [] end) =
  Some (flat_map add_vec (firstn k xs)).
Proof.
  intros H. unfold at_, sout_at. cbn [o_vecs option_map]. unfold overlay.
  rewrite !firstn_map, !map_map. cbn [fst snd pay]. apply with_vectors_ok.
  intros x Hx. apply H. eapply in_firstn; eauto.
Qed.
End results.
