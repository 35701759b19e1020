(** Runs of the managed index. *)
From Coq Require Import String ZArith List PeanoNat Bool Lia Arith Permutation.
From Verif.Runbook Require Import Model Spec Proofs Proofs2 Proofs3.
Import ListNotations.
Local Open Scope nat_scope.
Local Open Scope list_scope.

Record Ginv {P} (policy : reclaim) (N : nat) (before : list (stage P)) (g : managed) : Prop := mkGinv {
  gi_j : J N (t_empty (g_manager g)) (t_deleted (g_manager g)) (t_slot (g_manager g)) (t_tag (g_manager g)) (cells policy (g_log g)) (content before);
  gi_now : policy = Immediate -> t_deleted (g_manager g) = [];
  gi_ins : forall x, t_slot (g_manager g) x <> None -> inserted before x;
  gi_legit : all_legit policy (g_log g);
  gi_cap : t_capacity (g_manager g) = N + 1
}.
Lemma assign_cap l : forall t, t_capacity (fold_left assign1 l t) = t_capacity t.
Proof. induction l as [|p l IH]; intros t; cbn [fold_left]; [reflexivity|]. now rewrite IH. Qed.
Lemma consolidate_cap l : forall t, t_capacity (fold_left consolidate1 l t) = t_capacity t.
Proof. induction l as [|p l IH]; intros t; cbn [fold_left]; [reflexivity|]. now rewrite IH. Qed.
Lemma recycle_cap l : forall t t', recycle t l = Done t' -> t_capacity t' = t_capacity t.
Proof. induction l as [|x l IH]; intros t t'; cbn [recycle]; [congruence|]. destruct (t_slot t x); [|discriminate]. intros H. now rewrite (IH _ _ H). Qed.
Lemma mark_cap l : forall t t', mark_deleted t l = Done t' -> t_capacity t' = t_capacity t.
Proof. induction l as [|x l IH]; intros t t'; cbn [mark_deleted]; [congruence|]. destruct (t_slot t x); [|discriminate]. intros H. now rewrite (IH _ _ H). Qed.
Lemma content_snoc {P} (before : list (stage P)) s : content (before ++ [s]) = effect (content before) s.
Proof. unfold content. now rewrite fold_left_app. Qed.
Lemma cells_snoc policy log q : cells policy (log ++ [q]) = serve policy (cells policy log) q.
Proof. unfold cells. now rewrite fold_left_app. Qed.
Lemma legit_snoc policy log q : all_legit policy log -> legit (cells policy log) q -> all_legit policy (log ++ [q]).
Proof.
  intros H L b x a E. destruct a as [|y a] using rev_ind.
  - apply app_inj_tail in E as [-> ->]. exact L.
  - clear IHa. change (b ++ x :: a ++ [y]) with (b ++ (x :: a) ++ [y]) in E. rewrite app_assoc in E. apply app_inj_tail in E as [-> _]. now apply (H b x a).
Qed.
Lemma live_snoc {P} (a : list (stage P)) s : live (a ++ [s]) = after1 (live a) s.
Proof. unfold live. rewrite live_app, live_cons. reflexivity. Qed.
Lemma inserted_app {P} (a b : list (stage P)) x : inserted (a ++ b) x <-> inserted a x \/ inserted b x.
Proof. unfold inserted. split; [intros (r & I & W); apply in_app_iff in I as [I|I]; [left|right]; now exists r|]. intros [(r & I & W)|(r & I & W)]; exists r; rewrite in_app_iff; tauto. Qed.
Lemma valid_prefix {P} (a b : list (stage P)) : valid (a ++ b) -> valid a.
Proof. intros H x s y ->. apply (H x s (y ++ b)). now rewrite <- app_assoc. Qed.
Lemma within_b r x : (lo r <=? x) && (x <? hi r) = true <-> within r x.
Proof. unfold within. rewrite andb_true_iff, Nat.leb_le, Nat.ltb_lt. tauto. Qed.
Lemma content_live {P} (stages : list (stage P)) : valid stages -> forall x, content stages x <> None <-> live stages x.
Proof.
  induction stages as [|s st IH] using rev_ind; intros V x; [cbn; tauto|]. specialize (IH (valid_prefix _ _ V)). rewrite content_snoc, live_snoc.
  pose proof (V st s [] eq_refl) as HS. destruct s as [p|r|o r|r]; cbn [effect after1 sensible] in *; [apply IH| | |].
  - destruct ((lo r <=? x) && (x <? hi r)) eqn:E; [apply within_b in E; split; [now right|discriminate]|]. rewrite IH. split; [tauto|]. intros [H|H]; [exact H|]. apply within_b in H. congruence.
  - destruct ((lo r <=? x) && (x <? hi r)) eqn:E; [apply within_b in E; split; [intros _; now apply HS|discriminate]|apply IH].
  - destruct ((lo r <=? x) && (x <? hi r)) eqn:E; [apply within_b in E; split; [congruence|tauto]|]. rewrite IH. split; [|tauto]. intros H. split; [exact H|]. intros W. apply within_b in W. congruence.
Qed.
Lemma J_perm N E D D' sl tg c C : Permutation D D' -> J N E D sl tg c C -> J N E D' sl tg c C.
Proof.
  intros HP [A1 A2 A3 A4 A5 A6 A7 [A8 A8'] A9]. assert (I : forall s, In s D' <-> In s D) by (intros s; split; apply Permutation_in; [now apply Permutation_sym|exact HP]). constructor; try assumption.
  - intros s x T H. apply A4; [exact T|]. now rewrite <- I.
  - intros s x T H. apply A5; [exact T|]. now apply I.
  - split; [exact (Permutation_NoDup HP A8)|]. intros s H. apply A8'. now apply I.
Qed.
Lemma maintain_ok {P} policy N drain (before : list (stage P)) g : (forall l, Permutation l (drain l)) -> Ginv policy N before g -> exists g', g_maintain drain g = Done g' /\ Ginv policy N before g' /\ t_deleted (g_manager g') = [].
Proof.
  intros HD [HJ HN HI HL HCap]. eexists. split; [reflexivity|]. set (t := g_manager g) in *. unfold consolidate.
  pose proof (consolidate_all N (drain (t_deleted t)) (mkT (t_empty t) [] (t_slot t) (t_tag t) (t_capacity t)) (cells policy (g_log g)) (content before) eq_refl (J_perm _ _ _ _ _ _ _ _ (HD _) HJ)) as (E1 & E2 & E3).
  cbn [t_slot] in E3. split; [|exact E2]. constructor; cbn [g_manager g_log].
  - rewrite E2, cells_snoc. eapply J_ext; [|reflexivity|exact E1]. intros s. rewrite wipe_in. cbn [serve]. destruct (existsb (Nat.eqb s) (drain (t_deleted t))) eqn:EX.
    + apply in_existsb in EX. apply (Permutation_in s (Permutation_sym (HD _))) in EX. destruct (j_del _ _ _ _ _ _ _ HJ) as [_ K]. destruct (K s EX) as (x & X). destruct (j_dead _ _ _ _ _ _ _ HJ s x X EX) as [-> _]. reflexivity.
    + destruct (t_tag t s) as [x|] eqn:X; [|now rewrite (j_free _ _ _ _ _ _ _ HJ s X)]. destruct (j_live _ _ _ _ _ _ _ HJ s x X) as (v & -> & _); [|reflexivity]. intros I. apply (Permutation_in s (HD _)), in_existsb in I. congruence.
  - now rewrite E2.
  - intros x H. apply HI. exact (E3 x H).
  - apply legit_snoc; [exact HL|exact I].
  - rewrite consolidate_cap. exact HCap.
Qed.
Lemma find_any N E D t c C : J N E D (t_slot t) (t_tag t) c C -> forall tags, (forall x, In x tags -> C x <> None) ->
  exists slots, find_slots t tags = Done slots /\ Forall2 (fun x s => exists v, C x = Some v /\ c s = Held v) tags slots.
Proof.
  intros HJ. induction tags as [|x tags IH]; intros HC; cbn [find_slots]; [exists []; split; constructor|]. destruct IH as (slots & E1 & E2); [intros y Y; apply HC; now right|].
  destruct (find_slots_ok N E D t c C HJ [x]) as (sx & F1 & F2 & _); [repeat constructor; intros []|intros y [<-|[]]; apply HC; now left|]. inversion F2 as [|? s ? ? [S (v & V1 & V2)] F3]; subst. rewrite S, E1. cbn [bind]. exists (s :: slots). split; [reflexivity|]. constructor; [now exists v|exact E2].
Qed.
Lemma translate_ok N E D t c C : J N E D (t_slot t) (t_tag t) c C -> forall gt, Forall (Forall (fun x => C x <> None)) gt ->
  exists gt', translate t gt = Done gt' /\ Forall2 (Forall2 (fun x s => exists v, C x = Some v /\ c s = Held v)) gt gt'.
Proof.
  intros HJ. induction gt as [|r gt IH]; intros HC; cbn [translate]; [exists []; split; constructor|]. apply Forall_cons_iff in HC as [HC1 HC2]. destruct (IH HC2) as (gt' & -> & E2). rewrite Forall_forall in HC1. destruct (find_any N E D t c C HJ r HC1) as (slots & -> & F2). cbn [bind]. exists (slots :: gt'). split; [reflexivity|]. now constructor.
Qed.
Lemma F2_len {A B} (Q : A -> B -> Prop) a b : Forall2 Q a b -> length b = length a.
Proof. induction 1; cbn; congruence. Qed.
Lemma F2_right {A B} (Q : A -> B -> Prop) (T : B -> Prop) a b : (forall x y, Q x y -> T y) -> Forall2 Q a b -> Forall T b.
Proof. intros H. induction 1; constructor; [eapply H; eassumption|assumption]. Qed.
Lemma F2_weak {A B} (Q T : A -> B -> Prop) a b : (forall x y, Q x y -> T x y) -> Forall2 Q a b -> Forall2 T a b.
Proof. intros H. induction 1; constructor; [now apply H|assumption]. Qed.
Lemma tags_nodup r : NoDup (tags_of r).
Proof. apply seq_NoDup. Qed.
Lemma tags_len r : length (tags_of r) = hi r - lo r.
Proof. apply seq_length. Qed.
Lemma setnone_tags r (C : nat -> option nat) x : fold_left (fun C x => set C x None) (tags_of r) C x = if (lo r <=? x) && (x <? hi r) then None else C x.
Proof.
  rewrite setnone_in. destruct (existsb (Nat.eqb x) (tags_of r)) eqn:E.
  - apply in_existsb, tags_in, within_b in E. now rewrite E.
  - destruct ((lo r <=? x) && (x <? hi r)) eqn:E2; [|reflexivity]. apply within_b, tags_in, in_existsb in E2. congruence.
Qed.
Section Step.
  Context {P : Type} (rows : nat) (load_groundtruth : P -> outcome (list (list nat))) (policy : reclaim) (N : nat).
  Lemma step_ok before g (s : stage P) : Ginv policy N before g -> valid (before ++ [s]) -> proper s -> supplied rows s ->
    (forall p, s = Search p -> exists gt, load_groundtruth p = Done gt /\ Forall (Forall (live before)) gt) ->
    (forall r, s = Insert r -> (forall K, NoDup K -> (forall x, In x K <-> t_slot (g_manager g) x <> None) -> length K + (hi r - lo r) <= N) /\ (forall x, within r x -> t_slot (g_manager g) x = None)) ->
    exists g' q, g_stage rows load_groundtruth policy g s = Done g' /\ Ginv policy N (before ++ [s]) g' /\ g_log g' = g_log g ++ [q] /\
      (forall p gt, s = Search p -> load_groundtruth p = Done gt -> exists gt', q = QSearch gt' /\ Forall2 (Forall2 (fun x u => exists v, content before x = Some v /\ cells policy (g_log g) u = Held v)) gt gt').
  Proof.
    intros [HJ HN HI HL HCap] V HP HR HG HF. pose proof (content_live _ (valid_prefix _ _ V)) as CL. pose proof (V before s [] eq_refl) as HS. set (t := g_manager g) in *. destruct s as [p|r|o r|r]; cbn [g_stage sensible proper supplied] in *; fold t.
    - destruct (HG p eq_refl) as (gt & EG & LG). rewrite EG. cbn [bind]. destruct (translate_ok N _ _ t _ _ HJ gt) as (gt' & E1 & E2).
      { eapply Forall_impl; [|exact LG]. intros l H. eapply Forall_impl; [|exact H]. intros x. apply CL. }
      rewrite E1. cbn [bind]. eexists. exists (QSearch gt'). split; [reflexivity|]. cbn [g_log g_manager]. split; [|split; [reflexivity|]].
      + constructor; cbn [g_manager g_log]; [rewrite cells_snoc, content_snoc; exact HJ|exact HN| | |exact HCap].
        * intros x H. apply inserted_app. left. now apply HI.
        * apply legit_snoc; [exact HL|]. cbn [legit]. eapply F2_right; [|exact E2]. cbv beta. intros a b H. eapply F2_right; [|exact H]. cbv beta. intros x u (v & _ & Hv). now exists v.
      + intros p' gt0 [= <-] E0. exists gt'. split; [reflexivity|]. congruence.
    - destruct (HF r eq_refl) as [HK HT]. unfold subview. rewrite (proj2 (Nat.leb_le (lo r) (hi r))) by lia. rewrite (proj2 (Nat.leb_le (hi r) rows)) by lia. cbn [andb bind]. unfold get_empty. rewrite tags_len.
      destruct (j_count _ _ _ _ _ _ _ HJ) as (K & K1 & K2 & K3). pose proof (HK K K1 K2) as HK'. destruct (Nat.ltb_spec (length (t_empty t)) (hi r - lo r)) as [H|H]; [lia|]. cbn [bind fst snd]. unfold assign.
      set (slots := firstn (hi r - lo r) (t_empty t)). set (rest := skipn (hi r - lo r) (t_empty t)). assert (LS : length slots = length (tags_of r)) by (unfold slots; rewrite firstn_length, tags_len; lia).
      rewrite LS, Nat.eqb_refl. cbn [negb bind].
      set (t1 := mkT rest (t_deleted t) (t_slot t) (t_tag t) (t_capacity t)).
      assert (ER : t_empty t = slots ++ rest) by (symmetry; apply firstn_skipn).
      pose proof (insert_all N (tags_of r) slots (tags_of r) rest (t_deleted t) t1 (cells policy (g_log g)) (content before) LS eq_refl (tags_nodup r)) as IA. cbv zeta in IA. destruct IA as (R1 & R2 & R3 & R4).
      { intros x X. cbn [t1 t_slot]. apply HT. now apply tags_in. }
      { cbn [t1 t_slot t_tag]. rewrite <- ER. exact HJ. }
      eexists. exists (QInsert (tags_of r) slots). split; [reflexivity|]. cbn [g_log g_manager]. split; [|split; [reflexivity|discriminate]].
      constructor; cbn [g_manager g_log].
      + rewrite R2, R3, cells_snoc, content_snoc. cbn [t1 t_empty t_deleted serve effect]. eapply J_ext; [reflexivity| |exact R1]. intros x. unfold tags_of at 1 2. rewrite setall_seq. replace (lo r + (hi r - lo r)) with (hi r) by lia.
        destruct ((lo r <=? x) && (x <? hi r)) eqn:E; [|reflexivity]. apply within_b in E. unfold within in E. f_equal. lia.
      + rewrite R3. exact HN.
      + intros x X. apply inserted_app. destruct (R4 x X) as [Y|Y]; [right; exists r; split; [now left|now apply tags_in]|left; now apply HI].
      + apply legit_snoc; [exact HL|]. cbn [legit]. pose proof (j_nodup _ _ _ _ _ _ _ HJ) as ND. rewrite ER in ND. split; [|split; [|symmetry; exact LS]].
        * clear -ND. induction slots as [|a l IH]; [constructor|]. cbn [app] in ND. apply NoDup_cons_iff in ND as [A B]. constructor; [rewrite in_app_iff in A; tauto|now apply IH].
        * apply Forall_forall. intros u U. apply (j_free _ _ _ _ _ _ _ HJ), (j_empty _ _ _ _ _ _ _ HJ). rewrite ER. apply in_app_iff. now left.
      + rewrite assign_cap. exact HCap.
    - destruct HR as [HR1 HR2]. destruct HP as [HP1 HP2]. unfold subview. rewrite (proj2 (Nat.leb_le (lo o) (hi o))) by lia. rewrite (proj2 (Nat.leb_le (hi o) rows)) by lia. cbn [andb bind].
      assert (HC : forall x, In x (tags_of r) -> content before x <> None) by (intros x X; apply CL, HS; now apply tags_in).
      destruct (find_slots_ok N _ _ t _ _ HJ (tags_of r) (tags_nodup r) HC) as (slots & E1 & E2 & E3). rewrite E1. cbn [bind]. eexists. exists (QReplace (tags_of o) slots). split; [reflexivity|]. cbn [g_log g_manager]. split; [|split; [reflexivity|discriminate]].
      assert (LV : length (tags_of o) = length (tags_of r)) by (rewrite !tags_len; exact HR2).
      constructor; cbn [g_manager g_log]; [|exact HN| | |exact HCap].
      + rewrite cells_snoc, content_snoc. cbn [serve effect]. eapply J_ext; [reflexivity| |apply (replace_all N _ _ t (tags_of r) slots (tags_of o) _ _ LV (tags_nodup r) (F2_weak _ _ _ _ (fun x s H => proj1 H) E2) HC HJ)].
        intros x. unfold tags_of. rewrite HR2, setall_seq. replace (lo r + (hi r - lo r)) with (hi r) by lia. reflexivity.
      + intros x X. apply inserted_app. left. now apply HI.
      + apply legit_snoc; [exact HL|]. cbn [legit]. split; [exact E3|]. split; [|rewrite LV; symmetry; exact (F2_len _ _ _ E2)]. eapply F2_right; [|exact E2]. cbv beta. intros x u (_ & v & _ & Hv). now exists v.
    - assert (HC : forall x, In x (tags_of r) -> content before x <> None) by (intros x X; apply CL, HS; now apply tags_in).
      destruct (find_slots_ok N _ _ t _ _ HJ (tags_of r) (tags_nodup r) HC) as (slots & E1 & E2 & E3). rewrite E1. cbn [bind]. pose proof (F2_weak _ _ _ _ (fun x s H => proj1 H) E2) as E2'.
      assert (LG : legit (cells policy (g_log g)) (QDelete slots)) by (split; [exact E3|]; eapply F2_right; [|exact E2]; cbv beta; intros x u (_ & v & _ & Hv); now exists v).
      destruct policy eqn:EP.
      + rewrite (HN eq_refl) in HJ. destruct (recycle_all N (tags_of r) slots t _ _ (tags_nodup r) E2' HJ) as (t' & F1 & F2 & F3 & F4). rewrite F1. cbn [bind]. eexists. exists (QDelete slots). split; [reflexivity|]. cbn [g_log g_manager]. split; [|split; [reflexivity|discriminate]].
        constructor; cbn [g_manager g_log].
        * rewrite F3, (HN eq_refl), cells_snoc, content_snoc. cbn [serve effect]. eapply J_ext; [reflexivity| |exact F2]. intros x. apply setnone_tags.
        * intros _. rewrite F3. now apply HN.
        * intros x X. apply inserted_app. left. apply HI. exact (F4 x X).
        * now apply legit_snoc.
        * rewrite (recycle_cap _ _ _ F1). exact HCap.
      + destruct (mark_all N (tags_of r) slots t _ _ (tags_nodup r) E2' HC HJ) as (t' & F1 & F2 & F4). rewrite F1. cbn [bind]. eexists. exists (QDelete slots). split; [reflexivity|]. cbn [g_log g_manager]. split; [|split; [reflexivity|discriminate]].
        constructor; cbn [g_manager g_log].
        * rewrite cells_snoc, content_snoc. cbn [serve effect]. eapply J_ext; [reflexivity| |exact F2]. intros x. apply setnone_tags.
        * discriminate.
        * intros x X. apply inserted_app. left. apply HI. exact (F4 x X).
        * now apply legit_snoc.
        * rewrite (mark_cap _ _ _ F1). exact HCap.
  Qed.
End Step.
Lemma inserted_counts {P} (stages : list (stage P)) : exists k, counts (inserted stages) k.
Proof.
  exists (length (nodup Nat.eq_dec (flat_map (fun s => match s with Insert r => tags_of r | _ => [] end) stages))). eexists. split; [apply NoDup_nodup|]. split; [|reflexivity]. intros x. rewrite nodup_In, in_flat_map. split.
  - intros (s & I1 & I2). destruct s as [p|r|o r|r]; try elim I2. exists r. split; [exact I1|now apply tags_in].
  - intros (r & I1 & I2). exists (Insert r). split; [exact I1|now apply tags_in].
Qed.
Lemma counts_le L k l : counts L k -> NoDup l -> (forall x, In x l -> L x) -> length l <= k.
Proof. intros (m & M1 & M2 & <-) ND H. apply NoDup_incl_length; [exact ND|]. intros x X. now apply M2, H. Qed.
Lemma nodup_app_disj : forall (a b : list nat), NoDup a -> NoDup b -> (forall x, In x a -> ~ In x b) -> NoDup (a ++ b).
Proof. induction a as [|x a IH]; intros b A B D; [exact B|]. apply NoDup_cons_iff in A as [A1 A2]. cbn [app]. constructor; [rewrite in_app_iff; intros [H|H]; [exact (A1 H)|exact (D x (or_introl eq_refl) H)]|]. apply IH; [exact A2|exact B|]. intros y Y. apply D. now right. Qed.
Lemma live_slot N E D t c C K : J N E D (t_slot t) (t_tag t) c C -> NoDup K -> (forall x, In x K <-> t_slot t x <> None) ->
  exists l, NoDup l /\ (forall x, In x l <-> C x <> None) /\ length K <= length l + length D.
Proof.
  intros HJ K1 K2. set (f x := match C x with Some _ => true | None => false end). exists (filter f K). split; [now apply NoDup_filter|]. split.
  - intros x. rewrite filter_In, K2. unfold f. destruct (C x) as [v|] eqn:EC; [|split; [intros [_ ?]; discriminate|congruence]]. destruct (j_slot _ _ _ _ _ _ _ HJ x v EC) as (s & ->). split; [discriminate|split; [discriminate|reflexivity]].
  - set (h x := match t_slot t x with Some s => s | None => 0 end).
    assert (length K = length (filter f K) + length (filter (fun x => negb (f x)) K)) as ->.
    { clear. induction K as [|x K IH]; [reflexivity|]. cbn [filter]. destruct (f x); cbn [negb length]; lia. }
    enough (length (filter (fun x => negb (f x)) K) <= length D) by lia. rewrite <- (map_length h). apply NoDup_incl_length.
    + pose proof (NoDup_filter (fun x => negb (f x)) K1) as ND. assert (HS : forall x, In x (filter (fun x => negb (f x)) K) -> t_slot t x <> None) by (intros x X; apply filter_In in X as [X _]; now apply K2).
      induction (filter (fun x => negb (f x)) K) as [|x l IH]; cbn [map]; [constructor|]. apply NoDup_cons_iff in ND as [N1 N2]. constructor; [|apply IH; [exact N2|intros y Y; apply HS; now right]].
      intros I. apply in_map_iff in I as (y & Y1 & Y2). pose proof (HS y (or_intror Y2)) as SY. pose proof (HS x (or_introl eq_refl)) as SX. unfold h in Y1. destruct (t_slot t y) as [sy|] eqn:Ey; [|congruence]. destruct (t_slot t x) as [sx|] eqn:Ex; [|congruence]. subst sy. apply (j_both _ _ _ _ _ _ _ HJ) in Ex, Ey. assert (x = y) by congruence. subst y. exact (N1 Y2).
    + intros s I. apply in_map_iff in I as (y & Y1 & Y2). apply filter_In in Y2 as [Y2 Y3]. apply K2 in Y2. unfold h in Y1. destruct (t_slot t y) as [sy|] eqn:Ey; [|congruence]. subst sy. apply (j_both _ _ _ _ _ _ _ HJ) in Ey. destruct (in_dec Nat.eq_dec s D) as [I|I]; [exact I|]. destruct (j_live _ _ _ _ _ _ _ HJ s y Ey I) as (v & _ & V). unfold f in Y3. rewrite V in Y3. discriminate.
Qed.
(** There is room at every insertion. *)
Lemma room_ok {P} policy over capacity (stages before : list (stage P)) r after g : valid stages -> roomy policy over capacity stages -> stages = before ++ Insert r :: after -> Ginv policy (capacity - 1) before g ->
  (policy = Deferred -> t_deleted (g_manager g) = [] \/ over (length (t_deleted (g_manager g))) (t_capacity (g_manager g) - length (t_empty (g_manager g))) = false) ->
  (forall K, NoDup K -> (forall x, In x K <-> t_slot (g_manager g) x <> None) -> length K + (hi r - lo r) <= capacity - 1) /\ (forall x, within r x -> t_slot (g_manager g) x = None).
Proof.
  intros V [C0 HR] E [HJ HN HI HL HCap] HO. pose proof (V before (Insert r) after E) as HS. cbn [sensible] in HS. assert (VB : valid before) by (apply (valid_prefix before (Insert r :: after)); now rewrite <- E). pose proof (content_live before VB) as CL.
  assert (FR : forall x, within r x -> t_slot (g_manager g) x = None).
  { intros x W. destruct (t_slot (g_manager g) x) as [s|] eqn:S; [|reflexivity]. exfalso. destruct policy.
    - apply (HS x W), CL. apply (j_both _ _ _ _ _ _ _ HJ) in S. destruct (j_live _ _ _ _ _ _ _ HJ s x S) as (v & _ & Hv); [rewrite (HN eq_refl); intros []|congruence].
    - destruct HR as [HO' _]. apply (HO' before r after E x W). apply HI. congruence. }
  split; [|exact FR]. intros K K1 K2.
  destruct (live_slot _ _ _ _ _ _ K HJ K1 K2) as (l & L1 & L2 & L3).
  assert (HC : counts (live (before ++ [Insert r])) (length l + (hi r - lo r))).
  { exists (l ++ tags_of r). split; [|split; [|now rewrite app_length, tags_len]].
    - apply nodup_app_disj; [exact L1|apply tags_nodup|]. intros x X Y. apply L2, CL in X. apply tags_in in Y. exact (HS x Y X).
    - intros x. rewrite in_app_iff, L2, tags_in, live_snoc. cbn [after1]. now rewrite CL. }
  assert (EA : stages = (before ++ [Insert r]) ++ after) by (rewrite <- app_assoc; exact E).
  destruct policy.
  - specialize (HR _ after _ EA HC). rewrite (HN eq_refl) in L3. cbn [length] in L3. lia.
  - destruct HR as [_ [HR|(slack & HR1 & HR2)]].
    + destruct (inserted_counts stages) as (k & Hk). specialize (HR k Hk). rewrite <- tags_len, <- app_length.
      assert (ND : NoDup (K ++ tags_of r)). { apply nodup_app_disj; [exact K1|apply tags_nodup|]. intros x X Y. apply K2 in X. apply tags_in, FR in Y. congruence. }
      pose proof (counts_le _ _ _ Hk ND) as HL'. enough (length (K ++ tags_of r) <= k) by lia. apply HL'. intros x X. rewrite E. apply inserted_app. apply in_app_iff in X as [X|X]; [left; apply HI; now apply K2|right; exists r; split; [now left|now apply tags_in]].
    + specialize (HR2 _ after _ EA HC). enough (length (t_deleted (g_manager g)) <= slack) by lia. destruct (HO eq_refl) as [->|HO']; [cbn; lia|]. refine (HR1 _ _ _ HO'). rewrite HCap. lia.
Qed.
Lemma start_ok {P} policy n : @Ginv P policy n [] (mkG (mkT (seq 0 n) [] (fun _ => None) (fun _ => None) (S n)) []).
Proof.
  constructor; cbn [g_manager g_log t_empty t_deleted t_slot t_tag].
  - constructor; try (intros; discriminate).
    + apply seq_NoDup.
    + reflexivity.
    + intros x s. split; discriminate.
    + reflexivity.
    + split; [constructor|intros s []].
    + exists []. split; [constructor|]. split; [intros x; split; [intros []|congruence]|]. now rewrite seq_length.
  - reflexivity.
  - congruence.
  - intros b q a E. destruct b; discriminate.
  - cbn [t_capacity]. lia.
Qed.
Section Run.
  Context {P : Type} (rows : nat) (load_groundtruth : P -> outcome (list (list nat))) (policy : reclaim) (over : nat -> nat -> bool) (drain : list nat -> list nat).
  Lemma g_step before s after stages capacity g : (forall l, Permutation l (drain l)) -> stages = before ++ s :: after -> valid stages -> Forall proper stages -> Forall (supplied rows) stages -> truthful load_groundtruth stages -> roomy policy over capacity stages -> Ginv policy (capacity - 1) before g ->
    exists g1 g' q, (if g_needs policy over g then g_maintain drain g else Done g) = Done g1 /\ Ginv policy (capacity - 1) before g1 /\ g_stage rows load_groundtruth policy g1 s = Done g' /\ Ginv policy (capacity - 1) (before ++ [s]) g' /\ g_log g' = g_log g1 ++ [q] /\
      (forall p gt, s = Search p -> load_groundtruth p = Done gt -> exists gt', q = QSearch gt' /\ Forall2 (Forall2 (fun x u => exists v, content before x = Some v /\ cells policy (g_log g1) u = Held v)) gt gt').
  Proof.
    intros HD E V FP FS TR RO HG.
    assert (exists g1, (if g_needs policy over g then g_maintain drain g else Done g) = Done g1 /\ Ginv policy (capacity - 1) before g1 /\ (policy = Deferred -> t_deleted (g_manager g1) = [] \/ over (length (t_deleted (g_manager g1))) (t_capacity (g_manager g1) - length (t_empty (g_manager g1))) = false)) as (g1 & M1 & M2 & M3).
    { destruct (g_needs policy over g) eqn:EN; [|exists g; split; [reflexivity|]; split; [exact HG|]; intros ->; right; exact EN]. destruct (maintain_ok policy _ drain before g HD HG) as (g1 & A & B & D0). exists g1. split; [exact A|]. split; [exact B|]. intros _. now left. }
    assert (IS : In s stages) by (rewrite E; apply in_app_iff; right; now left). rewrite Forall_forall in FP, FS.
    destruct (step_ok rows load_groundtruth policy (capacity - 1) before g1 s M2) as (g' & q & R).
    - apply (valid_prefix _ after). rewrite <- app_assoc. cbn [app]. now rewrite <- E.
    - now apply FP.
    - now apply FS.
    - intros p ->. exact (TR before p after E).
    - intros r ->. exact (room_ok policy over capacity stages before r after g1 V RO E M2 M3).
    - exists g1, g', q. tauto.
  Qed.
  Lemma g_steps stages capacity : (forall l, Permutation l (drain l)) -> valid stages -> Forall proper stages -> Forall (supplied rows) stages -> truthful load_groundtruth stages -> roomy policy over capacity stages ->
    forall rest before g, stages = before ++ rest -> Ginv policy (capacity - 1) before g ->
    exists g', run_stages (g_needs policy over) (g_maintain drain) (g_stage rows load_groundtruth policy) g rest = Done g' /\ Ginv policy (capacity - 1) stages g'.
  Proof.
    intros HD V FP FS TR RO. induction rest as [|s rest IH]; intros before g E HG; cbn [run_stages]; [rewrite app_nil_r in E; subst; now exists g|].
    destruct (g_step before s rest stages capacity g HD E V FP FS TR RO HG) as (g1 & g' & q & -> & _ & R & G' & _). cbn [bind]. rewrite R. cbn [bind]. apply (IH (before ++ [s])); [rewrite <- app_assoc; exact E|exact G'].
  Qed.
End Run.
