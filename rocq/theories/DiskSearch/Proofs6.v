(** Assembly of the theorems about disk search. *)
From Verif.Lib Require Import Base Lists F32 Bytes.
From Verif.Queue Require Import Proofs.
From Verif.Search Require Import Proofs ProofsKnn.
From Verif.Filtered Require Import Proofs Proofs2 Proofs3 Proofs6.
From Verif.Output Require Import Proofs.
From Verif.DiskSearch Require Import Model Spec File Proofs Proofs2 Proofs3 Proofs4 Proofs5.

Section disk.
Context {V A : Type} (nodes : nat -> option (node V A)).
Variable full : V -> f32.
Variable pq : nat -> f32.
Variable npts maxv limit medoid : nat.
Variable adef : A.
Variable sort : list nbr -> option (list nbr).
Variable sort_items : list (item (nat * A)) -> option (list (item (nat * A))).
Variable fuel : nat.
Hypothesis RD : ready nodes npts maxv medoid sort sort_items fuel.
Notation found := (found nodes full pq npts limit medoid).
Notation ds P := (d_search P full pq npts maxv limit medoid sort sort_items fuel).
Notation dv P := (d_search_vectors P full pq npts maxv limit medoid sort sort_items fuel).

(** ** Results are stored points *)
Lemma found_sound k l m cands t xs : found k l m cands t xs ->
  (forall x, In x cands -> stored nodes (n_id x)) ->
  (forall x, In x xs -> exists nd, nodes (fst (fst x)) = Some nd /\ x = ((fst (fst x), nd_data nd), full (nd_vec nd)) /\
     allowed m (fst (fst x)) = true /\ In (fst (fst x)) (map n_id cands)) /\
  (ranks m -> NoDup (map (fun x => fst (fst x)) xs)).
Proof.
  intros (C & PR & _) ST.
  assert (IT : forall x, In x (items nodes full (filter (allowed m) (map n_id cands))) ->
    exists nd, nodes (fst (fst x)) = Some nd /\ x = ((fst (fst x), nd_data nd), full (nd_vec nd)) /\
     allowed m (fst (fst x)) = true /\ In (fst (fst x)) (map n_id cands)).
  { intros x Hx. apply items_in in Hx. destruct Hx as (i & nd & Hi & N & ->). cbn [fst]. apply filter_In in Hi.
    exists nd. tauto. }
  assert (ND : NoDup (map n_id cands)).
  { destruct m as [f|f|ok ad|f select]; cbn [chosen] in C.
    - destruct C as (C & _). destruct C as (_ & _ & oth & PM & _).
      assert (N : NoDup (map n_id (flat_points pq npts f))).
      { unfold flat_points. rewrite map_map. cbn [n_id]. rewrite map_id. apply NoDup_filter, seq_NoDup. }
      apply NoDup_valid_ids in N. apply (NoDup_map_perm_ids _ _ PM) in N. rewrite map_app in N. now destruct (NoDup_app_inv _ _ N).
    - destruct C as (rec & sc & T & (_ & _ & oth & PM & _) & _). destruct (tr_scan _ _ _ _ _ _ _ T) as (N & _).
      apply NoDup_valid_ids in N. apply (NoDup_map_perm_ids _ _ PM) in N. rewrite map_app in N. now destruct (NoDup_app_inv _ _ N).
    - now destruct C as (rec & sc & T & _ & N & _).
    - destruct C as (rec & sc & T & (_ & _ & oth & PM & _) & _). destruct (tr_scan _ _ _ _ _ _ _ T) as (N & _).
      apply NoDup_valid_ids in N. apply (NoDup_map_perm_ids _ _ PM) in N. rewrite map_app in N. now destruct (NoDup_app_inv _ _ N). }
  assert (RK : Permutation xs (items nodes full (filter (allowed m) (map n_id cands))) ->
    (forall x, In x xs -> exists nd, nodes (fst (fst x)) = Some nd /\ x = ((fst (fst x), nd_data nd), full (nd_vec nd)) /\
     allowed m (fst (fst x)) = true /\ In (fst (fst x)) (map n_id cands)) /\ NoDup (map (fun x => fst (fst x)) xs)).
  { intros PM. split.
    - intros x Hx. apply IT. now apply (Permutation_in _ PM).
    - apply (Permutation_NoDup (Permutation_sym (Permutation_map _ PM))). rewrite items_ids.
      + now apply NoDup_filter.
      + intros i Hi. apply filter_In in Hi. destruct Hi as [Hi _]. apply in_map_iff in Hi. destruct Hi as (x & <- & Hx). auto. }
  destruct m as [f|f|ok ad|f select].
  - destruct PR as (PM & _). specialize (RK PM). tauto.
  - destruct PR as (PM & _). specialize (RK PM). tauto.
  - destruct PR as (PM & _). specialize (RK PM). tauto.
  - split; [|intros []]. destruct PR as [(_ & ->)|(idx & _ & E)]; [intros x []|].
    intros x Hx. apply IT. apply (in_map Some) in Hx. rewrite <- E in Hx. apply in_map_iff in Hx.
    destruct Hx as (j & E1 & _). eapply nth_error_In; eauto.
Qed.

Lemma found_reach k l m cands t xs : walks m -> found k l m cands t xs ->
  forall x, In x cands -> reach (graph_of nodes) [medoid] (n_id x).
Proof.
  intros W (C & _) x Hx. destruct m as [f|f|ok ad|f select]; cbn [chosen] in C; [destruct W| | |];
  [destruct C as (rec & sc & T & (_ & _ & oth & PM & _) & _); apply (tr_reach _ _ _ _ _ _ _ T), in_valid;
     eapply Permutation_in; [symmetry; exact PM|]; apply in_or_app; now left
  |destruct C as (rec & sc & T & IN & _); apply (tr_reach _ _ _ _ _ _ _ T);
     apply IN in Hx; now apply filter_In in Hx
  |destruct C as (rec & sc & T & (_ & _ & oth & PM & _) & _); apply (tr_reach _ _ _ _ _ _ _ T), in_valid;
     eapply Permutation_in; [symmetry; exact PM|]; apply in_or_app; now left].
Qed.

(** ** The two entry points *)
Lemma carries_all xs : (forall x, In x xs -> stored nodes (fst (fst x))) ->
  Forall2 (carries nodes) xs (flat_map (add_vec nodes) xs).
Proof.
  induction xs as [|x xs IH]; intros H; [constructor|]. cbn [flat_map].
  assert (Hx := H x (or_introl eq_refl)). unfold stored in Hx. unfold add_vec at 1.
  destruct (nodes (fst (fst x))) as [nd|] eqn:N; [|contradiction]. cbn [app]. constructor.
  - split; [reflexivity|]. cbn [fst snd]. rewrite N. reflexivity.
  - apply IH. intros y Hy. apply H. now right.
Qed.

Lemma search_plain k l bw m : query_ok k l bw ->
  (exists cands t xs, found k l m cands t xs /\ (forall x, In x cands -> stored nodes (n_id x)) /\
     (npts <= limit -> in_memory nodes pq medoid sort fuel l (beam_of bw) m cands t) /\
     forall St (P : vprov St V A) inv, serves nodes P inv -> forall s, inv s ->
       (ds P k l bw m adef s = SErr /\ ~ reliable nodes P inv) \/
       ds P k l bw m adef s = SOk (firstn k xs ++ repeat ((0, adef), f32_zero) (k - length xs), t)) \/
  (~ tame nodes full pq m /\ exists R, (R = SErr \/ R = SPanic) /\
     forall St (P : vprov St V A) inv, serves nodes P inv -> forall s, inv s ->
       (ds P k l bw m adef s = SErr /\ ~ reliable nodes P inv) \/ ds P k l bw m adef s = R).
Proof.
  intros (Hk & Hl & Hbw). destruct RD as [DI HS HI HF].
  destruct (search_ok nodes full pq npts maxv limit medoid false adef DI sort HS sort_items HI fuel HF k l bw m Hk Hl Hbw)
    as [(cands & t & xs & C & PR & ST & CN & M & O)|(NT & R & HR & O)].
  - left. exists cands, t, xs. split; [|split; [exact ST|split; [exact M|]]].
    + split; [exact C|]. split; [exact PR|]. now rewrite CN, firstn_length.
    + intros St P inv SV s I. unfold d_search. destruct (O St P inv SV s I) as [(-> & NR)| ->]; [now left|right].
      rewrite (out_items nodes false adef k xs), firstn_length. do 4 f_equal. lia.
  - right. split; [exact NT|]. exists (match R with SErr => SErr | _ => SPanic end). split; [destruct HR as [->| ->]; auto|].
    intros St P inv SV s I. unfold d_search. destruct (O St P inv SV s I) as [(-> & NR)| ->]; [now left|right].
    now destruct HR as [->| ->].
Qed.

Lemma search_vectors k l bw m : query_ok k l bw ->
  (exists cands t xs, found k l m cands t xs /\ (forall x, In x cands -> stored nodes (n_id x)) /\
     (npts <= limit -> in_memory nodes pq medoid sort fuel l (beam_of bw) m cands t) /\
     forall St (P : vprov St V A) inv, serves nodes P inv -> forall s, inv s ->
       (dv P k l bw m adef s = SErr /\ ~ reliable nodes P inv) \/
       dv P k l bw m adef s = SOk (flat_map (add_vec nodes) (firstn k xs), t)) \/
  (~ tame nodes full pq m /\ exists R, (R = SErr \/ R = SPanic) /\
     forall St (P : vprov St V A) inv, serves nodes P inv -> forall s, inv s ->
       (dv P k l bw m adef s = SErr /\ ~ reliable nodes P inv) \/ dv P k l bw m adef s = R).
Proof.
  intros (Hk & Hl & Hbw). destruct RD as [DI HS HI HF].
  destruct (search_ok nodes full pq npts maxv limit medoid true adef DI sort HS sort_items HI fuel HF k l bw m Hk Hl Hbw)
    as [(cands & t & xs & C & PR & ST & CN & M & O)|(NT & R & HR & O)].
  - left. exists cands, t, xs.
    assert (FD : found k l m cands t xs).
    { split; [exact C|]. split; [exact PR|]. now rewrite CN, firstn_length. }
    split; [exact FD|]. split; [exact ST|]. split; [exact M|].
    intros St P inv SV s I. unfold d_search_vectors. destruct (O St P inv SV s I) as [(-> & NR)| ->]; [now left|right].
    rewrite (out_items nodes true adef k xs), CN, firstn_app, Nat.sub_diag, firstn_all. cbn [firstn]. rewrite app_nil_r.
    rewrite out_vectors; [reflexivity|].
    intros x Hx. destruct (found_sound _ _ _ _ _ _ FD ST) as (SO & _). destruct (SO x Hx) as (nd & N & _).
    unfold stored. congruence.
  - right. split; [exact NT|]. exists (match R with SErr => SErr | _ => SPanic end). split; [destruct HR as [->| ->]; auto|].
    intros St P inv SV s I. unfold d_search_vectors. destruct (O St P inv SV s I) as [(-> & NR)| ->]; [now left|right].
    now destruct HR as [->| ->].
Qed.
End disk.

(** ** Exhaustive flat scans *)
Lemma valid_numeric xs : Forall (fun x => is_nan (n_dist x) = false) xs -> valid xs = xs.
Proof.
  induction 1 as [|x xs H F IH]; [reflexivity|]. unfold valid in *. cbn [filter]. rewrite H. cbn [negb]. now rewrite IH.
Qed.

Lemma flat_exact {V A} (nodes : nat -> option (node V A)) full pq npts limit medoid k l f cands t xs :
  (forall i, i < npts -> is_nan (pq i) = false) -> length (filter (passes f) (seq 0 npts)) <= l ->
  found nodes full pq npts limit medoid k l (FlatScan f) cands t xs ->
  Permutation xs (items nodes full (filter (passes f) (seq 0 npts))).
Proof.
  intros NN L ((C & _) & (PM & _) & _).
  assert (F : Forall (fun x => is_nan (n_dist x) = false) (flat_points pq npts f)).
  { unfold flat_points. rewrite Forall_map, Forall_forall. intros i Hi. cbn [n_dist]. apply NN. apply filter_In in Hi.
    destruct Hi as [Hi _]. apply in_seq in Hi. lia. }
  rewrite (valid_numeric _ F) in C. destruct C as (_ & LC & oth & PC & _).
  assert (LF : length (flat_points pq npts f) = length (filter (passes f) (seq 0 npts))) by (unfold flat_points; apply map_length).
  assert (EO : oth = []).
  { apply Permutation_length in PC. rewrite app_length in PC. destruct oth; [reflexivity|cbn [length] in PC; lia]. }
  subst oth. rewrite app_nil_r in PC. eapply Permutation_trans; [exact PM|].
  apply Permutation_flat_map. apply Permutation_map with (f := n_id) in PC.
  unfold flat_points in PC. rewrite map_map in PC. cbn [n_id] in PC. rewrite map_id in PC.
  cbn [allowed]. rewrite filter_all.
  - now apply Permutation_sym.
  - intros i Hi. apply (Permutation_in _ (Permutation_sym PC)) in Hi. now apply filter_In in Hi.
Qed.

(** ** A sort for examples *)
Fixpoint insert_item {I} (x : item I) (xs : list (item I)) : list (item I) :=
  match xs with
  | [] => [x]
  | y :: ys => if f32_le (snd x) (snd y) then x :: xs else y :: insert_item x ys
  end.
Definition isort_items {I} (xs : list (item I)) : option (list (item I)) := Some (fold_right insert_item [] xs).

Lemma insert_item_perm {I} (x : item I) xs : Permutation (insert_item x xs) (x :: xs).
Proof.
  induction xs as [|y ys IH]; cbn [insert_item]; [reflexivity|]. destruct (f32_le (snd x) (snd y)); [reflexivity|].
  rewrite IH. apply perm_swap.
Qed.
Lemma isort_items_perm {I} (xs : list (item I)) : Permutation (fold_right insert_item [] xs) xs.
Proof.
  induction xs as [|x xs IH]; [reflexivity|]. cbn [fold_right].
  etransitivity; [apply insert_item_perm|]. now constructor.
Qed.
Lemma insert_item_sorted {I} (x : item I) xs : is_nan (snd x) = false -> Forall (fun y => is_nan (snd y) = false) xs ->
  StronglySorted item_closer xs -> StronglySorted item_closer (insert_item x xs).
Proof.
  intros Nx F S. induction S as [|y ys S IH FY]; cbn [insert_item]; [repeat constructor|].
  inversion F as [|? ? Ny NY]; subst. destruct (f32_le (snd x) (snd y)) eqn:B.
  - constructor; [constructor; auto|]. constructor; [exact B|]. eapply Forall_impl; [|exact FY].
    intros z Hz. cbn beta in *. unfold item_closer in *. apply f32_le_spec in Hz, B. apply f32_le_spec. lia.
  - constructor; [auto|]. rewrite Forall_forall. intros z Hz.
    apply (Permutation_in _ (insert_item_perm x ys)) in Hz. destruct Hz as [<-|Hz].
    + unfold item_closer. apply f32_le_false in B; auto. apply f32_le_spec. lia.
    + rewrite Forall_forall in FY. auto.
Qed.
Lemma isort_items_sorts {I} : sorts_items (@isort_items I).
Proof.
  intros xs. cbn. split; [apply isort_items_perm|]. intros F. induction F as [|x xs Nx F IH]; [constructor|].
  cbn [fold_right]. apply insert_item_sorted; auto. rewrite Forall_forall in F |- *. intros y Hy. apply F.
  now apply (Permutation_in _ (isort_items_perm xs)).
Qed.
