(** [acquire] running alone. *)
From Coq Require Import ZifyNat ZifyN.
From Verif.Lib Require Import Base Lists.
From Verif.Epoch Require Import Model Spec Proofs.
From Verif.Store Require Import Model Spec Proofs ProofsLog ProofsMain ProofsAcquire.
Ltac Zify.zify_post_hook ::= Z.to_euclidean_division_equations.

Definition sruns (o : nat) (σ σ' : store) : Prop := exists k, srun (repeat (o, Go) k) σ = Some σ'.
Lemma sruns_refl o σ : sruns o σ σ.
Proof. exists 0. reflexivity. Qed.
Lemma sruns_step o σ σ1 σ' : sstep o Go σ = Some σ1 -> sruns o σ1 σ' -> sruns o σ σ'.
Proof. intros HS (k & R). exists (S k). cbn [repeat srun]. now rewrite HS. Qed.
Lemma srun_app l l' σ : srun (l ++ l') σ = match srun l σ with Some σ1 => srun l' σ1 | None => None end.
Proof. revert σ. induction l as [|[o c] l IH]; intros σ; [reflexivity|]. cbn [app srun]. destruct (sstep o c σ); auto. Qed.
Lemma sruns_trans o σ σ1 σ2 : sruns o σ σ1 -> sruns o σ1 σ2 -> sruns o σ σ2.
Proof. intros (k & A) (m & B). exists (k + m). rewrite repeat_app, srun_app, A. exact B. Qed.
Lemma sruns_inv ng init o σ σ' : SInv ng init σ -> sruns o σ σ' -> SInv ng init σ'.
Proof.
  intros I (k & R). revert σ I R. induction k as [|k IH]; intros σ I R; cbn [repeat srun] in R; [now inv R|].
  destruct (sstep o Go σ) as [σ1|] eqn:S; [|discriminate]. eapply IH; [|exact R]. eapply sinv_step; eauto.
Qed.
Lemma sruns_others o σ σ' x : sruns o σ σ' -> x <> o -> s_cl σ' x = s_cl σ x.
Proof.
  intros (k & R) N. revert σ R. induction k as [|k IH]; intros σ R; cbn [repeat srun] in R; [now inv R|].
  destruct (sstep o Go σ) as [σ1|] eqn:S; [|discriminate]. rewrite (IH _ R). eapply cl_others; eauto.
Qed.
Lemma sruns_jinv ng init o σ σ' : SInv ng init σ -> JInv σ -> sruns o σ σ' -> JInv σ'.
Proof.
  intros I J (k & R). revert σ I J R. induction k as [|k IH]; intros σ I J R; cbn [repeat srun] in R; [now inv R|].
  destruct (sstep o Go σ) as [σ1|] eqn:S; [|discriminate]. eapply IH; [| |exact R]; [eapply sinv_step; eauto|eapply jinv_step; eauto].
Qed.
Lemma sruns_unf ng init o σ σ' : SInv ng init σ -> sruns o σ σ' -> s_unf σ' = s_unf σ.
Proof.
  intros I (k & R). revert σ I R. induction k as [|k IH]; intros σ I R; cbn [repeat srun] in R; [now inv R|].
  destruct (sstep o Go σ) as [σ1|] eqn:S; [|discriminate]. rewrite (IH σ1); [|eapply sinv_step; eauto|exact R]. apply (sconst_step _ _ _ _ _ _ I S).
Qed.
(** The call returned a slot. *)
Definition success (o : nat) (σ σ' : store) : Prop := sruns o σ σ' /\ exists i, s_cl σ' o = WHeld i /\ s_log σ' = s_log σ ++ [SAcquired o i].
Lemma success_after o σ σ1 σ' : sruns o σ σ1 -> s_log σ1 = s_log σ -> success o σ1 σ' -> success o σ σ'.
Proof. intros R L (R' & i & A & B). split; [eapply sruns_trans; eauto|]. exists i. now rewrite <- L. Qed.
(** States that differ only in the free list, mirrors, contents and program counters. *)
Definition fr (σ σ' : store) : Prop := s_n σ' = s_n σ /\ s_unf σ' = s_unf σ /\ s_tag σ' = s_tag σ /\ s_reg σ' = s_reg σ /\ s_log σ' = s_log σ.
Lemma fr_trans a b c : fr a b -> fr b c -> fr a c.
Proof. unfold fr. intros (A1 & A2 & A3 & A4 & A5) (B1 & B2 & B3 & B4 & B5). repeat split; congruence. Qed.
Ltac sgo := match goal with E : s_cl ?s ?o = _ |- sruns ?o ?s _ => eapply sruns_step; [rewrite sstep_go; unfold go; rewrite E; try reflexivity|] end.
Lemma go_take o σ b i : s_cl σ o = ATry b i -> i < s_n σ -> s_tag σ i = AVAILABLE -> exists σ', success o σ σ'.
Proof.
  intros P L T. set (σ1 := set_cl σ o (ATryCas b i)). set (σ2 := semit (set_cl (set_tag σ1 i OWNED) o (WHeld i)) (SAcquired o i)).
  exists σ2. split.
  - eapply sruns_step with (σ1 := σ1).
    + rewrite sstep_go. unfold go. rewrite P. destruct (Nat.ltb_spec i (s_n σ)); [|lia]. cbn [negb]. rewrite T. reflexivity.
    + eapply sruns_step with (σ1 := σ2); [|apply sruns_refl]. rewrite sstep_go. unfold go, σ1. cbn [set_cl s_cl]. rewrite upd_eq.
      cbn [s_tag set_cl]. rewrite T. reflexivity.
  - exists i. cbn. rewrite upd_eq. auto.
Qed.
Lemma go_claimed o k rem ch j stop m : forall σ i, s_cl σ o = AScanAt k rem ch (Some j) i stop -> stop <= s_n σ -> stop <= i + m ->
  exists σ', success o σ σ'.
Proof.
  induction m as [|m IH]; intros σ i P L K.
  - exists (semit (set_cl σ o (WHeld j)) (SAcquired o j)). split.
    + eapply sruns_step; [|apply sruns_refl]. rewrite sstep_go. unfold go. rewrite P. destruct (Nat.leb_spec stop i); [reflexivity|lia].
    + exists j. cbn. rewrite upd_eq. auto.
  - destruct (Nat.leb_spec stop i) as [Hs|Hs].
    { exists (semit (set_cl σ o (WHeld j)) (SAcquired o j)). split.
      + eapply sruns_step; [|apply sruns_refl]. rewrite sstep_go. unfold go. rewrite P. destruct (Nat.leb_spec stop i); [reflexivity|lia].
      + exists j. cbn. rewrite upd_eq. auto. }
    destruct ((s_tag σ i =? AVAILABLE)%N) eqn:T.
    + set (σ1 := set_cl σ o (AScanPush k rem ch j i stop)). set (σ2 := set_cl (set_fl σ1 (fl_push (s_fl σ1) i)) o (AScanAt k rem ch (Some j) (i + 1) stop)).
      destruct (IH σ2 (i + 1)) as (σ' & S'); [cbn; now rewrite upd_eq|exact L|lia|]. exists σ'. refine (success_after _ _ _ _ _ _ S'); [|reflexivity].
      eapply sruns_step with (σ1 := σ1).
      * rewrite sstep_go. unfold go. rewrite P. destruct (Nat.leb_spec stop i); [lia|]. destruct (Nat.ltb_spec i (s_n σ)); [|lia]. cbn [negb]. now rewrite T.
      * eapply sruns_step with (σ1 := σ2); [|apply sruns_refl]. rewrite sstep_go. unfold go, σ1. cbn [set_cl s_cl]. rewrite upd_eq. reflexivity.
    + set (σ1 := set_cl σ o (AScanAt k rem ch (Some j) (i + 1) stop)).
      destruct (IH σ1 (i + 1)) as (σ' & S'); [cbn; now rewrite upd_eq|exact L|lia|]. exists σ'. refine (success_after _ _ _ _ _ _ S'); [|reflexivity].
      eapply sruns_step with (σ1 := σ1); [|apply sruns_refl].
      rewrite sstep_go. unfold go. rewrite P. destruct (Nat.leb_spec stop i); [lia|]. destruct (Nat.ltb_spec i (s_n σ)); [|lia]. cbn [negb]. now rewrite T.
Qed.
Lemma go_scan_at o k rem ch stop m : forall σ i, s_cl σ o = AScanAt k rem ch None i stop -> stop <= s_n σ -> stop <= i + m ->
  (exists σ', success o σ σ') \/
  ((forall x, i <= x < stop -> s_tag σ x <> AVAILABLE) /\
   exists σ' i', sruns o σ σ' /\ fr σ σ' /\ s_fl σ' = s_fl σ /\ s_cl σ' o = AScanAt k rem ch None i' stop /\ stop <= i').
Proof.
  induction m as [|m IH]; intros σ i P L K.
  - right. split; [intros; lia|]. exists σ, i. repeat split; auto; [apply sruns_refl|lia].
  - destruct (Nat.leb_spec stop i) as [Hs|Hs].
    { right. split; [intros; lia|]. exists σ, i. repeat split; auto. apply sruns_refl. }
    destruct (N.eqb_spec (s_tag σ i) AVAILABLE) as [T|T].
    + left. set (σ1 := set_cl σ o (AScanTry k rem ch i stop)). set (σ2 := set_cl σ1 o (AScanCas k rem ch i stop)).
      set (σ3 := set_cl (set_tag σ2 i OWNED) o (AScanAt k rem ch (Some i) (i + 1) stop)).
      destruct (go_claimed o k rem ch i stop m σ3 (i + 1)) as (σ' & S'); [cbn; now rewrite upd_eq|exact L|lia|]. exists σ'. refine (success_after _ _ _ _ _ _ S'); [|reflexivity].
      eapply sruns_step with (σ1 := σ1).
      * rewrite sstep_go. unfold go. rewrite P. destruct (Nat.leb_spec stop i); [lia|]. destruct (Nat.ltb_spec i (s_n σ)); [|lia]. cbn [negb]. rewrite T. reflexivity.
      * eapply sruns_step with (σ1 := σ2); [rewrite sstep_go; unfold go, σ1; cbn [set_cl s_cl s_tag]; rewrite upd_eq, T; reflexivity|].
        eapply sruns_step with (σ1 := σ3); [|apply sruns_refl]. rewrite sstep_go; unfold go, σ2, σ1; cbn [set_cl s_cl s_tag]. rewrite upd_eq, T. reflexivity.
    + set (σ1 := set_cl σ o (AScanAt k rem ch None (i + 1) stop)).
      assert (R1 : sruns o σ σ1).
      { eapply sruns_step with (σ1 := σ1); [|apply sruns_refl]. rewrite sstep_go. unfold go. rewrite P.
        destruct (Nat.leb_spec stop i); [lia|]. destruct (Nat.ltb_spec i (s_n σ)); [|lia]. cbn [negb]. apply N.eqb_neq in T. now rewrite T. }
      destruct (IH σ1 (i + 1)) as [(σ' & S')|(NA & σ' & i' & R & F & E & P' & Hi')]; [cbn; now rewrite upd_eq|exact L|lia| |].
      * left. exists σ'. eapply success_after; eauto.
      * right. split; [|exists σ', i'; repeat split; auto; try (eapply sruns_trans; eauto); apply F].
        intros x Hx. destruct (Nat.eq_dec x i) as [->|Nx]; [assumption|]. apply NA. lia.
Qed.

(** ** Chunks of the scan *)
Definition lo (max s : nat) : nat := (s mod num_buckets max) * scan_size.
Definition hi (max s : nat) : nat := Nat.min (lo max s + scan_size) max.
Fixpoint total (max s c : nat) : nat := match c with O => 0 | S c => (hi max s - lo max s) + total max (S s) c end.
Lemma total_app max c1 : forall s c2, total max s (c1 + c2) = total max s c1 + total max (s + c1) c2.
Proof.
  induction c1 as [|c1 IH]; intros s c2; cbn [Nat.add total]; [now rewrite Nat.add_0_r|]. rewrite IH. replace (S s + c1) with (s + S c1) by lia. lia.
Qed.
Lemma buckets max : 0 < max -> 0 < num_buckets max /\ (num_buckets max - 1) * scan_size < max /\ max <= num_buckets max * scan_size.
Proof. unfold num_buckets, scan_size. intros H. lia. Qed.
Lemma lo_lt max s : 0 < max -> lo max s < max.
Proof.
  intros H. destruct (buckets max H) as (A & B & _). unfold lo. pose proof (Nat.mod_upper_bound s (num_buckets max)) as U.
  assert (s mod num_buckets max <= num_buckets max - 1) by lia. nia.
Qed.
Lemma mod_S s n : 0 < n -> s mod n + 1 < n -> S s mod n = s mod n + 1.
Proof. intros H L. replace (S s) with (s + 1) by lia. rewrite Nat.add_mod by lia. rewrite (Nat.mod_small 1) by lia. rewrite Nat.mod_small; lia. Qed.
Lemma total_seg max c : 0 < max -> forall s, s mod num_buckets max + c <= num_buckets max ->
  total max s c = Nat.min ((s mod num_buckets max + c) * scan_size) max - Nat.min (s mod num_buckets max * scan_size) max.
Proof.
  intros H. destruct (buckets max H) as (A & B & C). induction c as [|c IH]; intros s L; cbn [total].
  - rewrite Nat.add_0_r. lia.
  - unfold hi, lo. destruct (Nat.eq_dec c 0) as [->|N].
    + cbn [total]. replace (s mod num_buckets max + 1) with (S (s mod num_buckets max)) by lia. cbn [Nat.mul].
      set (z := s mod num_buckets max * scan_size). lia.
    + rewrite IH by (rewrite mod_S by lia; lia). rewrite mod_S by lia.
      set (q := s mod num_buckets max) in *. replace ((q + 1) * scan_size) with (q * scan_size + scan_size) by lia.
      replace (q + 1 + c) with (q + S c) by lia.
      assert (q * scan_size <= (num_buckets max - 1) * scan_size) by (apply Nat.mul_le_mono_r; lia).
      assert (q * scan_size + scan_size <= (q + S c) * scan_size) by nia. lia.
Qed.
Lemma coverage max s c : 0 < max -> max <= total max s c -> forall i, i < max -> exists t, t < c /\ lo max (s + t) <= i < hi max (s + t).
Proof.
  intros H T i Hi. destruct (buckets max H) as (A & B & C). set (nb := num_buckets max) in *. set (q := s mod nb).
  set (b := i / scan_size). assert (SZ : 0 < scan_size) by (unfold scan_size; lia).
  assert (Hb : b * scan_size <= i < b * scan_size + scan_size).
  { pose proof (Nat.div_mod i scan_size). pose proof (Nat.mod_upper_bound i scan_size). unfold b. nia. }
  assert (Lb : b < nb) by nia.
  assert (Lq : q < nb) by (apply Nat.mod_upper_bound; lia).
  assert (HIT : forall t, (s + t) mod nb = b -> lo max (s + t) <= i < hi max (s + t)).
  { intros t E. unfold hi, lo. fold nb. rewrite E. lia. }
  assert (MOD : forall t, q + t < nb -> (s + t) mod nb = q + t).
  { intros t Ht. rewrite Nat.add_mod by lia. fold q. rewrite (Nat.mod_small t) by lia. now rewrite Nat.mod_small. }
  destruct (Nat.le_gt_cases q b) as [Q|Q].
  - set (d := b - q). destruct (Nat.lt_ge_cases d c) as [D|D].
    + exists d. split; [assumption|]. apply HIT. rewrite MOD; unfold d; lia.
    + exfalso. assert (E : total max s c = Nat.min ((q + c) * scan_size) max - Nat.min (q * scan_size) max) by (apply total_seg; [assumption|fold nb q; unfold d in D; lia]).
      assert ((q + c) * scan_size <= b * scan_size) by (apply Nat.mul_le_mono_r; unfold d in D; lia). lia.
  - set (c1 := nb - q). destruct (Nat.lt_ge_cases (c1 + b) c) as [D|D].
    + exists (c1 + b). split; [assumption|]. apply HIT.
      replace (s + (c1 + b)) with (s + c1 + b) by lia. assert (Z : (s + c1) mod nb = 0).
      { rewrite Nat.add_mod by lia. fold q. destruct (Nat.eq_dec q 0) as [E|E].
        - lia.
        - rewrite (Nat.mod_small c1) by (unfold c1; lia). replace (q + c1) with nb by (unfold c1; lia). apply Nat.mod_same. lia. }
      rewrite Nat.add_mod by lia. rewrite Z. cbn [Nat.add]. rewrite !Nat.mod_mod by lia. now apply Nat.mod_small.
    + exfalso. assert (Z : (s + c1) mod nb = 0).
      { rewrite Nat.add_mod by lia. fold q. rewrite (Nat.mod_small c1) by (unfold c1; lia). replace (q + c1) with nb by (unfold c1; lia). apply Nat.mod_same. lia. }
      assert (QM : q * scan_size <= (nb - 1) * scan_size) by (apply Nat.mul_le_mono_r; lia).
      assert (BQ : b * scan_size + scan_size <= q * scan_size) by nia.
      destruct (Nat.le_gt_cases c c1) as [K|K].
      * assert (E : total max s c = Nat.min ((q + c) * scan_size) max - Nat.min (q * scan_size) max) by (apply total_seg; [assumption|fold nb q; unfold c1 in K; lia]). lia.
      * replace c with (c1 + (c - c1)) in T by lia. rewrite total_app in T.
        rewrite (total_seg max c1 H s) in T by (fold nb q; unfold c1; lia). fold nb q in T.
        rewrite (total_seg max (c - c1) H (s + c1)) in T by (fold nb; rewrite Z; lia). fold nb in T. rewrite Z in T. cbn [Nat.add Nat.mul] in T.
        assert ((c - c1) * scan_size <= b * scan_size) by (apply Nat.mul_le_mono_r; lia). lia.
Qed.

(** ** One scan *)
Lemma chunk_eq f : fl_max f <> 0 -> fl_scan_chunk f =
  (mkfl (fl_rec f) (fl_cap f) (fl_max f) (fl_next f) ((fl_scan f + 1) mod two32)%N, (lo (fl_max f) (N.to_nat (fl_scan f)), hi (fl_max f) (N.to_nat (fl_scan f)))).
Proof.
  intros H. unfold fl_scan_chunk. destruct (Nat.eqb_spec (fl_max f) 0); [lia|]. unfold hi, lo.
  destruct (buckets (fl_max f)) as (A & _); [lia|].
  replace (N.to_nat (fl_scan f mod N.of_nat (num_buckets (fl_max f)))) with (N.to_nat (fl_scan f) mod num_buckets (fl_max f)); [reflexivity|].
  rewrite N2Nat.inj_mod. now rewrite Nat2N.id.
Qed.
(** Only the scan counter has moved, by [c]. *)
Definition scanned (f f' : freelist) (c : nat) : Prop :=
  fl_rec f' = fl_rec f /\ fl_cap f' = fl_cap f /\ fl_max f' = fl_max f /\ fl_next f' = fl_next f /\ fl_scan f' = (fl_scan f + N.of_nat c)%N.
Definition barren (σ : store) (s c : nat) : Prop :=
  forall t x, t < c -> lo (s_unf σ) (s + t) <= x < hi (s_unf σ) (s + t) -> s_tag σ x <> AVAILABLE.
Lemma go_scan o k m : forall σ rem ch, rem <= m -> s_cl σ o = AScan k rem ch -> fl_rec (s_fl σ) = [] -> fl_max (s_fl σ) = s_unf σ -> s_unf σ <= s_n σ ->
  rem <= s_unf σ -> (fl_scan (s_fl σ) + N.of_nat rem < two32)%N ->
  (exists σ', success o σ σ') \/
  exists σ' c, sruns o σ σ' /\ fr σ σ' /\ s_cl σ' o = DCall (Some k) /\ scanned (s_fl σ) (s_fl σ') c /\ c <= rem /\
    rem <= total (s_unf σ) (N.to_nat (fl_scan (s_fl σ))) c /\ barren σ (N.to_nat (fl_scan (s_fl σ))) c.
Proof.
  induction m as [|m IH]; intros σ rem ch Lm P R0 FM UN RU W.
  - assert (rem = 0) by lia. subst rem. right. exists (set_cl σ o (DCall (Some k))), 0. split; [|repeat split; auto; cbn; try rewrite upd_eq; auto; try lia].
    + eapply sruns_step; [|apply sruns_refl]. rewrite sstep_go. unfold go. now rewrite P.
    + intros t x Ht. lia.
  - destruct (Nat.eq_dec rem 0) as [->|Nr].
    { right. exists (set_cl σ o (DCall (Some k))), 0. split; [|repeat split; auto; cbn; try rewrite upd_eq; auto; try lia].
      + eapply sruns_step; [|apply sruns_refl]. rewrite sstep_go. unfold go. now rewrite P.
      + intros t x Ht. lia. }
    set (s := N.to_nat (fl_scan (s_fl σ))) in *. set (u := s_unf σ) in *.
    assert (U0 : 0 < u) by lia.
    pose proof (lo_lt u s U0) as LL.
    assert (HL : lo u s < hi u s) by (unfold hi, scan_size; lia).
    assert (HU : hi u s <= u) by (unfold hi; lia).
    set (f1 := mkfl (fl_rec (s_fl σ)) (fl_cap (s_fl σ)) u (fl_next (s_fl σ)) ((fl_scan (s_fl σ) + 1) mod two32)%N).
    set (σ1 := set_cl (set_fl σ f1) o (AScanAt k (rem - (hi u s - lo u s)) ch None (lo u s) (hi u s))).
    assert (R1 : sruns o σ σ1).
    { eapply sruns_step with (σ1 := σ1); [|apply sruns_refl]. rewrite sstep_go. unfold go. rewrite P. destruct (Nat.eqb_spec rem 0); [lia|].
      rewrite chunk_eq by lia. rewrite FM. reflexivity. }
    assert (SC : scanned (s_fl σ) f1 1). { unfold scanned, f1. cbn. repeat split; auto. rewrite N.mod_small; lia. }
    assert (C1 : s_cl σ1 o = AScanAt k (rem - (hi u s - lo u s)) ch None (lo u s) (hi u s)) by (cbn; apply upd_eq).
    destruct (go_scan_at o k (rem - (hi u s - lo u s)) ch (hi u s) (hi u s) σ1 (lo u s) C1) as [(σ' & SS)|(NA & σ2 & i2 & R2 & F2 & L2 & P2 & H2)].
    { change (s_n σ1) with (s_n σ). lia. } { lia. }
    { left. exists σ'. refine (success_after _ _ _ _ R1 _ SS). reflexivity. }
    assert (A3 : exists σ3 ch3, sruns o σ2 σ3 /\ fr σ2 σ3 /\ s_fl σ3 = s_fl σ2 /\ s_cl σ3 o = AScan k (rem - (hi u s - lo u s)) ch3).
    { destruct (Nat.eq_dec (ch + 1) 4) as [E|E].
      - set (σ3 := set_cl σ2 o (AScanPop k (rem - (hi u s - lo u s)))). set (σ4 := set_cl σ3 o (AScan k (rem - (hi u s - lo u s)) 0)).
        exists σ4, 0. split; [|repeat split; auto; cbn; apply upd_eq].
        eapply sruns_step with (σ1 := σ3).
        + rewrite sstep_go. unfold go. rewrite P2. destruct (Nat.leb_spec (hi u s) i2); [|lia]. destruct (Nat.eqb_spec (ch + 1) 4); [reflexivity|lia].
        + eapply sruns_step with (σ1 := σ4); [|apply sruns_refl]. rewrite sstep_go. unfold go, σ3. cbn [set_cl s_cl]. rewrite upd_eq. cbn [set_cl s_fl].
          unfold fl_pop. rewrite L2. cbn [σ1 set_cl set_fl s_fl f1 fl_rec]. rewrite R0. reflexivity.
      - exists (set_cl σ2 o (AScan k (rem - (hi u s - lo u s)) (ch + 1))), (ch + 1). split; [|repeat split; auto; cbn; apply upd_eq].
        eapply sruns_step; [|apply sruns_refl]. rewrite sstep_go. unfold go. rewrite P2. destruct (Nat.leb_spec (hi u s) i2); [|lia]. destruct (Nat.eqb_spec (ch + 1) 4); [lia|reflexivity]. }
    destruct A3 as (σ3 & ch3 & R3 & F3 & L3 & P3).
    assert (F13 : fr σ σ3) by (eapply fr_trans; [|exact F3]; eapply fr_trans; [|exact F2]; repeat split).
    assert (FL3 : s_fl σ3 = f1) by (rewrite L3, L2; reflexivity).
    pose proof F13 as (G1 & G2 & G3 & G4 & G5).
    destruct SC as (S1 & S2 & S3 & S4 & S5).
    destruct (IH σ3 (rem - (hi u s - lo u s)) ch3) as [(σ' & SS)|(σ' & c & R & F & P' & SC & Lc & T & B)]; rewrite ?FL3, ?G1, ?G2; auto; try lia; try congruence.
    + left. exists σ'. refine (success_after _ _ _ _ _ _ SS); [|assumption]. eapply sruns_trans; [exact R1|]. eapply sruns_trans; eauto.
    + right. exists σ', (S c). split; [eapply sruns_trans; [exact R1|]; eapply sruns_trans; [exact R2|]; eapply sruns_trans; eauto|].
      split; [eapply fr_trans; eauto|]. split; [assumption|].
      rewrite FL3 in *. destruct SC as (T1 & T2 & T3 & T4 & T5).
      assert (ES : N.to_nat (fl_scan f1) = S s) by (rewrite S5; unfold s; lia).
      split; [|split; [lia|split]].
      * unfold scanned. repeat split; try congruence. rewrite T5, S5. lia.
      * cbn [total]. rewrite G2, ES in T. fold u in T. lia.
      * intros t x Ht Hx. fold u in Hx. destruct t as [|t].
        -- rewrite Nat.add_0_r in Hx. exact (NA x Hx).
        -- rewrite <- G3. apply (B t x); [lia|]. rewrite G2, ES. fold u. replace (S s + t) with (s + S t) by lia. exact Hx.
Qed.

(** ** One drain *)
Section Drain.
Variables (ng : nat) (init : nat -> bytes) (o : nat).
Lemma go_vscan k E Q m : forall i σ, s_cl σ o = DAdv (Some k) -> view o ng E (Some o) Q (VScan E E i) (s_reg σ) -> i + m = ng ->
  exists σ', sruns o σ σ' /\ s_n σ' = s_n σ /\ s_unf σ' = s_unf σ /\ s_tag σ' = s_tag σ /\ s_log σ' = s_log σ /\ s_fl σ' = s_fl σ /\
    s_cl σ' o = DAdv (Some k) /\ view o ng E (Some o) Q (VScan E E ng) (s_reg σ').
Proof.
  induction m as [|m IH]; intros i σ P V Hi.
  - exists σ. split; [apply sruns_refl|]. replace i with ng in V by lia. auto 10.
  - destruct V as [V1 V2 V3 V4 V5 V6 V7].
    set (r1 := set_ag (s_reg σ) o (VScan E E (S i))). set (σ1 := set_reg σ r1).
    destruct (IH (S i) σ1) as (σ' & R & H); [exact P|unfold σ1, r1; cbn [set_reg s_reg]; vw|lia|].
    exists σ'. split; [|exact H]. eapply sruns_step with (σ1 := σ1); [|exact R]. rewrite sstep_go. unfold go. rewrite P. unfold rstep, step. rewrite V6.
    cbn [guard_go advance_go]. destruct (Nat.ltb_spec i (r_n (s_reg σ))); [|lia]. rewrite V2. cbn [N.eqb]. fold r1. fold σ1. cbn match.
    replace (r_ag (s_reg σ1) o) with (VScan E E (S i)) by (cbn; now rewrite upd_eq). reflexivity.
Qed.
Lemma go_advance k E Q σ : s_cl σ o = DCall (Some k) -> view o ng E None Q AIdle (s_reg σ) -> (E < u64_max)%N ->
  exists σ' items, sruns o σ σ' /\ s_n σ' = s_n σ /\ s_unf σ' = s_unf σ /\ s_tag σ' = s_tag σ /\ s_log σ' = s_log σ /\ s_fl σ' = s_fl σ /\
    s_cl σ' o = DPop (Some k) items /\ view o ng (E + 1) (Some o) Q (VDrain (last_queue E)) (s_reg σ').
Proof.
  intros P V HE. pose proof u64_facts as U. destruct V as [V1 V2 V3 V4 V5 V6 V7].
  set (r1 := set_ag (set_lock (s_reg σ) (Some o)) o VRead). set (σ1 := set_cl (set_reg σ r1) o (DAdv (Some k))).
  set (r2 := set_ag r1 o (VScan E E 0)). set (σ2 := set_reg σ1 r2).
  assert (R1 : sstep o Go σ = Some σ1).
  { rewrite sstep_go. unfold go. rewrite P. unfold rstep, step. rewrite V6, V4. fold r1. cbn match.
    replace (r_ag (s_reg (set_reg σ r1)) o) with VRead by (cbn; now rewrite upd_eq). reflexivity. }
  assert (R2 : sstep o Go σ1 = Some σ2).
  { rewrite sstep_go. unfold go. replace (s_cl σ1 o) with (DAdv (Some k)) by (cbn; now rewrite upd_eq). unfold rstep, step.
    replace (r_ag (s_reg σ1) o) with VRead by (cbn; now rewrite upd_eq). cbn [guard_go advance_go].
    replace (r_epoch (s_reg σ1)) with E by (symmetry; exact V3). change (s_reg σ1) with r1. fold r2. cbn match.
    replace (r_ag (s_reg (set_reg σ1 r2)) o) with (VScan E E 0) by (cbn; now rewrite upd_eq). reflexivity. }
  destruct (go_vscan k E Q ng 0 σ2) as (σ3 & R3 & F1 & F2 & F3 & F4 & F5 & P3 & V3').
  { unfold σ2, σ1. cbn [set_reg set_cl s_cl]. apply upd_eq. } { unfold σ2, σ1, r2, r1. cbn [set_reg set_cl s_reg]. vw. } { lia. }
  set (r4 := set_ag (s_reg σ3) o (VInc E)). set (σ4 := set_reg σ3 r4).
  assert (R4 : sstep o Go σ3 = Some σ4).
  { rewrite sstep_go. unfold go. rewrite P3. unfold rstep, step. rewrite (v_a _ _ _ _ _ _ _ V3'). cbn [guard_go advance_go].
    destruct (Nat.ltb_spec ng (r_n (s_reg σ3))) as [A|_]; [rewrite (v_n _ _ _ _ _ _ _ V3') in A; lia|].
    destruct (N.eqb_spec E u64_max); [lia|]. rewrite N.eqb_refl. fold r4. cbn match.
    replace (r_ag (s_reg (set_reg σ3 r4)) o) with (VInc E) by (cbn; now rewrite upd_eq). reflexivity. }
  set (r5 := emit (set_ag (set_epoch r4 ((r_epoch r4 + 1) mod two64)) o (VDrain (last_queue E))) (EDrain o)).
  set (σ5 := set_cl (set_reg σ4 r5) o (DPop (Some k) (drain_len r5 (last_queue E)))).
  assert (R5 : sstep o Go σ4 = Some σ5).
  { rewrite sstep_go. unfold go. replace (s_cl σ4 o) with (DAdv (Some k)) by (symmetry; exact P3). unfold rstep, step.
    replace (r_ag (s_reg σ4) o) with (VInc E) by (cbn; now rewrite upd_eq). cbn [guard_go advance_go]. change (s_reg σ4) with r4. fold r5. cbn match.
    replace (r_ag (s_reg (set_reg σ4 r5)) o) with (VDrain (last_queue E)) by (cbn; now rewrite upd_eq). reflexivity. }
  exists σ5, (drain_len r5 (last_queue E)). split.
  { eapply sruns_step; [exact R1|]. eapply sruns_step; [exact R2|]. eapply sruns_trans; [exact R3|]. eapply sruns_step; [exact R4|].
    eapply sruns_step; [exact R5|apply sruns_refl]. }
  repeat split; auto; try (cbn [σ5 set_cl s_cl]; apply upd_eq).
  all: destruct V3' as [W1 W2 W3 W4 W5 W6 W7]; unfold σ5, σ4, r5, r4; cbn [set_cl set_reg s_reg emit set_ag set_epoch r_n r_guards r_epoch r_lock r_q r_ag r_log]; auto.
  - rewrite W3. apply N.mod_small. lia.
  - intros b Nb. rewrite !upd_neq by assumption. auto.
Qed.
(** The end of the drain. *)
Lemma go_done k items E q Q σ : s_cl σ o = DDone (Some k) items -> view o ng E (Some o) Q (VDrain q) (s_reg σ) ->
  exists r', sruns o σ (attempt_end (set_reg σ r') o k) /\ view o ng E None Q AIdle r'.
Proof.
  intros P [V1 V2 V3 V4 V5 V6 V7]. exists (emit (set_lock (set_ag (s_reg σ) o AIdle) None) (EDropDrain o)). split.
  - eapply sruns_step; [|apply sruns_refl]. rewrite sstep_go. unfold go. rewrite P. unfold rstep, step. rewrite V6. reflexivity.
  - vw.
Qed.
Lemma go_pop_end k items E q Q σ : s_cl σ o = DPop (Some k) items -> view o ng E (Some o) Q (VDrain q) (s_reg σ) -> Q q = [] ->
  exists σ' r', sruns o σ (attempt_end (set_reg σ' r') o k) /\ view o ng E None Q AIdle r' /\
    s_n σ' = s_n σ /\ s_unf σ' = s_unf σ /\ s_tag σ' = s_tag σ /\ s_log σ' = s_log σ /\ s_fl σ' = s_fl σ.
Proof.
  intros P V HQ. pose proof V as [V1 V2 V3 V4 V5 V6 V7].
  set (r1 := emit (s_reg σ) (EPopNone o)). set (σ1 := set_cl (set_reg σ r1) o (DDone (Some k) items)).
  assert (R1 : sstep o Go σ = Some σ1).
  { rewrite sstep_go. unfold go. rewrite P, V6. unfold rstep, step. rewrite V6, V5, HQ. reflexivity. }
  destruct (go_done k items E q Q σ1) as (r' & R & V'); [cbn; apply upd_eq|unfold σ1, r1; cbn [set_cl set_reg s_reg]; vw|].
  exists σ1, r'. split; [eapply sruns_step; eauto|]. split; [assumption|]. repeat split.
Qed.
(** One retired slot is handed back. *)
Lemma go_item k items E q Q it rest σ : SInv ng init σ -> s_cl σ o = DPop (Some k) items -> view o ng E (Some o) Q (VDrain q) (s_reg σ) -> Q q = it :: rest -> q < 4 ->
  exists σ' i, sruns o σ σ' /\ s_cl σ' o = DPop (Some k) items /\ view o ng E (Some o) (upd Q q rest) (VDrain q) (s_reg σ') /\
    i < s_unf σ /\ s_n σ' = s_n σ /\ s_unf σ' = s_unf σ /\ s_tag σ' = upd (s_tag σ) i AVAILABLE /\ s_log σ' = s_log σ /\ s_fl σ' = fl_push (s_fl σ) i.
Proof.
  intros I P V HQ Hq. pose proof V as [V1 V2 V3 V4 V5 V6 V7]. set (i := N.to_nat (it_id it)).
  assert (IP : In (it_id it) (pending (s_reg σ))).
  { rewrite pending_allq. apply in_map. destruct (allq_split (s_reg σ) q Hq) as (l1 & l2 & -> & _). rewrite V5, HQ. apply in_or_app. right. now left. }
  destruct (v_pend _ _ _ I _ IP) as (i' & Ei & Li & TI & MI & _). assert (i' = i) by (unfold i; lia). subst i'.
  assert (UI : i < s_unf σ).
  { destruct (Nat.lt_ge_cases i (s_unf σ)) as [?|L]; [assumption|]. destruct (v_frozen _ _ _ I i (conj L Li)) as (F & _). rewrite F in TI. discriminate. }
  set (r1 := emit (set_q (s_reg σ) q rest) (EPop o (it_id it) (it_stamp it))).
  set (σ1 := set_cl (set_reg σ r1) o (DMir (Some k) items i)).
  assert (R1 : sstep o Go σ = Some σ1).
  { rewrite sstep_go. unfold go. rewrite P, V6. unfold rstep, step. rewrite V6, V5, HQ. fold r1. cbv zeta. fold i.
    destruct (Nat.ltb_spec i (s_n σ)); [|lia]. reflexivity. }
  set (σ2 := set_cl σ1 o (DMirSet (Some k) items i)). set (σ3 := set_cl (set_mir σ2 i AVAILABLE) o (DTag (Some k) items i)).
  set (σ4 := set_cl σ3 o (DTagSet (Some k) items i)). set (σ5 := set_cl (set_tag σ4 i AVAILABLE) o (DPush (Some k) items i)).
  set (σ6 := set_cl (set_fl σ5 (fl_push (s_fl σ5) i)) o (DPop (Some k) items)).
  assert (R2 : sstep o Go σ1 = Some σ2).
  { rewrite sstep_go. unfold go. replace (s_cl σ1 o) with (DMir (Some k) items i) by (cbn; now rewrite upd_eq).
    change (s_mir σ1 i) with (s_mir σ i). rewrite MI. reflexivity. }
  assert (R3 : sstep o Go σ2 = Some σ3).
  { rewrite sstep_go. unfold go. replace (s_cl σ2 o) with (DMirSet (Some k) items i) by (cbn; now rewrite upd_eq). reflexivity. }
  assert (R4 : sstep o Go σ3 = Some σ4).
  { rewrite sstep_go. unfold go. replace (s_cl σ3 o) with (DTag (Some k) items i) by (cbn; now rewrite upd_eq).
    change (s_tag σ3 i) with (s_tag σ i). rewrite TI. reflexivity. }
  assert (R5 : sstep o Go σ4 = Some σ5).
  { rewrite sstep_go. unfold go. replace (s_cl σ4 o) with (DTagSet (Some k) items i) by (cbn; now rewrite upd_eq). reflexivity. }
  assert (R6 : sstep o Go σ5 = Some σ6).
  { rewrite sstep_go. unfold go. replace (s_cl σ5 o) with (DPush (Some k) items i) by (cbn; now rewrite upd_eq). reflexivity. }
  exists σ6, i. split.
  { eapply sruns_step; [exact R1|]. eapply sruns_step; [exact R2|]. eapply sruns_step; [exact R3|]. eapply sruns_step; [exact R4|].
    eapply sruns_step; [exact R5|]. eapply sruns_step; [exact R6|apply sruns_refl]. }
  split; [cbn; apply upd_eq|]. split; [|repeat split; auto].
  change (s_reg σ6) with r1. unfold r1. vw. now rewrite V5.
Qed.
Lemma fl_push_head f i j l : fl_rec f = j :: l -> exists l', fl_rec (fl_push f i) = j :: l'.
Proof. intros E. unfold fl_push. destruct (_ && _); cbn; rewrite E; cbn; eauto. Qed.
(** The rest of the drain keeps the first recycled slot. *)
Lemma go_items k items E q l : forall Q σ, SInv ng init σ -> s_cl σ o = DPop (Some (S k)) items -> view o ng E (Some o) Q (VDrain q) (s_reg σ) -> Q q = l -> q < 4 ->
  (exists j t, fl_rec (s_fl σ) = j :: t /\ s_tag σ j = AVAILABLE /\ j < s_unf σ) ->
  exists σ', sruns o σ σ' /\ s_cl σ' o = APop k /\ s_log σ' = s_log σ /\ s_n σ' = s_n σ /\
    exists j t, fl_rec (s_fl σ') = j :: t /\ s_tag σ' j = AVAILABLE /\ j < s_unf σ.
Proof.
  induction l as [|it l IH]; intros Q σ I P V HQ Hq (j & t & FJ & TJ & UJ).
  - destruct (go_pop_end (S k) items E q Q σ P V HQ) as (σ1 & r' & R & _ & F1 & F2 & F3 & F4 & F5).
    exists (attempt_end (set_reg σ1 r') o (S k)). split; [assumption|]. cbn [attempt_end set_cl set_reg s_cl s_log s_n s_fl s_tag].
    rewrite upd_eq, F1, F3, F4, F5. repeat split; eauto.
  - destruct (go_item (S k) items E q Q it l σ I P V HQ Hq) as (σ1 & i & R & P1 & V1 & Ui & F1 & F2 & F3 & F4 & F5).
    destruct (fl_push_head (s_fl σ) i j t FJ) as (t' & FJ').
    destruct (IH (upd Q q l) σ1) as (σ2 & R2 & P2 & L2 & N2 & A2); auto.
    + eapply sruns_inv; eauto.
    + apply upd_eq.
    + exists j, t'. rewrite F5, F3, F2. repeat split; auto. ups; auto.
    + exists σ2. split; [eapply sruns_trans; eauto|]. rewrite F2 in A2. repeat split; auto; congruence.
Qed.
Lemma go_drain_some k E Q σ it rest : SInv ng init σ -> s_cl σ o = DCall (Some (S k)) -> view o ng E None Q AIdle (s_reg σ) -> (E < u64_max)%N ->
  Q (last_queue E) = it :: rest -> fl_rec (s_fl σ) = [] -> 0 < fl_cap (s_fl σ) ->
  exists σ', sruns o σ σ' /\ s_cl σ' o = APop k /\ s_log σ' = s_log σ /\ s_n σ' = s_n σ /\
    exists j t, fl_rec (s_fl σ') = j :: t /\ s_tag σ' j = AVAILABLE /\ j < s_unf σ.
Proof.
  intros I P V HE HQ R0 HC. assert (Hq : last_queue E < 4) by apply queue_lt.
  destruct (go_advance (S k) E Q σ P V HE) as (σ1 & items & R1 & F1 & F2 & F3 & F4 & F5 & P1 & V1).
  assert (I1 : SInv ng init σ1) by (eapply sruns_inv; eauto).
  destruct (go_item (S k) items (E + 1) (last_queue E) Q it rest σ1 I1 P1 V1 HQ Hq) as (σ2 & i & R2 & P2 & V2 & Ui & G1 & G2 & G3 & G4 & G5).
  assert (I2 : SInv ng init σ2) by (eapply sruns_inv; eauto).
  destruct (go_items k items (E + 1) (last_queue E) rest (upd Q (last_queue E) rest) σ2 I2 P2 V2) as (σ3 & R3 & P3 & L3 & N3 & A3); auto.
  - apply upd_eq.
  - exists i, []. rewrite G5, G3, G2, upd_eq. repeat split; auto. rewrite F5. unfold fl_push. rewrite R0. cbn [length].
    pose proof (v_fl _ _ _ I) as FM. rewrite F2 in Ui. destruct (Nat.ltb_spec i (fl_max (s_fl σ))); [|lia]. destruct (Nat.ltb_spec 0 (fl_cap (s_fl σ))); [|lia]. reflexivity.
  - exists σ3. split; [eapply sruns_trans; [exact R1|]; eapply sruns_trans; eauto|]. rewrite G2, F2 in A3. repeat split; auto; congruence.
Qed.
Lemma go_drain_none k E Q σ : s_cl σ o = DCall (Some k) -> view o ng E None Q AIdle (s_reg σ) -> (E < u64_max)%N -> Q (last_queue E) = [] ->
  exists σ' r', sruns o σ (attempt_end (set_reg σ' r') o k) /\ view o ng (E + 1) None Q AIdle r' /\
    s_n σ' = s_n σ /\ s_unf σ' = s_unf σ /\ s_tag σ' = s_tag σ /\ s_log σ' = s_log σ /\ s_fl σ' = s_fl σ.
Proof.
  intros P V HE HQ. destruct (go_advance k E Q σ P V HE) as (σ1 & items & R1 & F1 & F2 & F3 & F4 & F5 & P1 & V1).
  destruct (go_pop_end k items (E + 1) (last_queue E) Q σ1 P1 V1 HQ) as (σ2 & r' & R2 & V2 & G1 & G2 & G3 & G4 & G5).
  exists σ2, r'. split; [eapply sruns_trans; eauto|]. split; [assumption|]. repeat split; congruence.
Qed.
Lemma go_drain_last E Q σ : SInv ng init σ -> s_cl σ o = DCall (Some 0) -> view o ng E None Q AIdle (s_reg σ) -> (E < u64_max)%N ->
  exists σ', sruns o σ σ' /\ s_cl σ' o = CIdle /\ s_log σ' = s_log σ ++ [SNoSlot o].
Proof.
  intros I P V HE. assert (Hq : last_queue E < 4) by apply queue_lt.
  destruct (go_advance 0 E Q σ P V HE) as (σ1 & items & R1 & F1 & F2 & F3 & F4 & F5 & P1 & V1).
  assert (I1 : SInv ng init σ1) by (eapply sruns_inv; eauto).
  assert (G : forall l Q σ1, SInv ng init σ1 -> s_cl σ1 o = DPop (Some 0) items -> view o ng (E + 1) (Some o) Q (VDrain (last_queue E)) (s_reg σ1) -> Q (last_queue E) = l ->
    exists σ', sruns o σ1 σ' /\ s_cl σ' o = CIdle /\ s_log σ' = s_log σ1 ++ [SNoSlot o]).
  { clear - Hq. induction l as [|it l IH]; intros Q σ1 I1 P1 V1 HQ.
    - destruct (go_pop_end 0 items (E + 1) (last_queue E) Q σ1 P1 V1 HQ) as (σ2 & r' & R & _ & _ & _ & _ & L & _).
      eexists. split; [exact R|]. cbn. rewrite upd_eq, L. auto.
    - destruct (go_item 0 items (E + 1) (last_queue E) Q it l σ1 I1 P1 V1 HQ Hq) as (σ2 & i & R & P2 & V2 & _ & _ & _ & _ & L & _).
      destruct (IH (upd Q (last_queue E) l) σ2) as (σ3 & R3 & P3 & L3); auto; [eapply sruns_inv; eauto|apply upd_eq|].
      exists σ3. split; [eapply sruns_trans; eauto|]. split; [assumption|congruence]. }
  destruct (G _ Q σ1 I1 P1 V1 eq_refl) as (σ2 & R2 & P2 & L2). exists σ2. split; [eapply sruns_trans; eauto|]. split; [assumption|congruence].
Qed.

(** ** The attempts *)
Lemma go_pop_available k σ j t : s_cl σ o = APop k -> fl_rec (s_fl σ) = j :: t -> s_tag σ j = AVAILABLE -> j < s_n σ -> exists σ', success o σ σ'.
Proof.
  intros P F T L. set (f := mkfl t (fl_cap (s_fl σ)) (fl_max (s_fl σ)) (fl_next (s_fl σ)) (fl_scan (s_fl σ))).
  set (σ1 := set_cl (set_fl σ f) o (ATry (BAttempt k) j)).
  destruct (go_take o σ1 (BAttempt k) j) as (σ' & S'); [cbn; apply upd_eq|exact L|exact T|].
  exists σ'. refine (success_after _ _ _ _ _ _ S'); [|reflexivity]. eapply sruns_step with (σ1 := σ1); [|apply sruns_refl].
  rewrite sstep_go. unfold go. rewrite P. unfold fl_pop. rewrite F. reflexivity.
Qed.
Lemma attempts k : forall σ E Q, SInv ng init σ -> s_cl σ o = APop k -> fl_rec (s_fl σ) = [] -> fl_max (s_fl σ) <= fl_next (s_fl σ) -> 0 < fl_cap (s_fl σ) ->
  view o ng E None Q AIdle (s_reg σ) -> (E + N.of_nat k < u64_max)%N ->
  (fl_scan (s_fl σ) + N.of_nat (S k * scan_budget (s_unf σ)) < two32)%N ->
  (exists σ', success o σ σ') \/
  exists σ' c, sruns o σ σ' /\ s_cl σ' o = CIdle /\ s_log σ' = s_log σ ++ [SNoSlot o] /\
    (forall j, j < k -> Q (last_queue (E + N.of_nat j)) = []) /\
    S k * scan_budget (s_unf σ) <= total (s_unf σ) (N.to_nat (fl_scan (s_fl σ))) c /\ barren σ (N.to_nat (fl_scan (s_fl σ))) c.
Proof.
  induction k as [|k IH]; intros σ E Q I P R0 NM HC V HE HS.
  all: pose proof (v_unf _ _ _ I) as UN; pose proof (v_fl _ _ _ I) as FM.
  all: assert (BU : scan_budget (s_unf σ) <= s_unf σ) by (unfold scan_budget, retry_limit; lia).
  all: match type of P with _ = APop ?kk => set (σ1 := set_cl σ o (AMint kk)); set (σ2 := set_cl σ1 o (AScan kk (scan_budget (s_unf σ)) 0));
    assert (R1 : sruns o σ σ2) end.
  1,3: eapply sruns_step with (σ1 := σ1); [rewrite sstep_go; unfold go; rewrite P; unfold fl_pop; rewrite R0; reflexivity|];
    eapply sruns_step with (σ1 := σ2); [|apply sruns_refl]; rewrite sstep_go; unfold go, σ1; cbn [set_cl s_cl s_fl s_unf]; rewrite upd_eq;
    destruct (Nat.ltb_spec (fl_next (s_fl σ)) (fl_max (s_fl σ))); [lia|reflexivity].
  - destruct (go_scan o 0 (scan_budget (s_unf σ)) σ2 (scan_budget (s_unf σ)) 0) as [(σ' & SS)|(σ3 & c & R & F & P3 & SC & Lc & T & B)]; auto.
    { cbn; apply upd_eq. } { cbn [σ2 σ1 set_cl s_fl]. lia. }
    + left. exists σ'. refine (success_after _ _ _ _ R1 _ SS). reflexivity.
    + assert (I3 : SInv ng init σ3) by (eapply sruns_inv; [exact I|]; eapply sruns_trans; eauto).
      destruct F as (F1 & F2 & F3 & F4 & F5).
      destruct (go_drain_last E Q σ3 I3 P3) as (σ4 & R4 & P4 & L4); [rewrite F4; exact V|lia|].
      right. exists σ4, c. split; [eapply sruns_trans; [exact R1|]; eapply sruns_trans; eauto|]. split; [assumption|].
      split; [rewrite L4, F5; reflexivity|]. split; [intros; lia|]. split; [cbn [Nat.mul]; rewrite Nat.add_0_r; exact T|exact B].
  - destruct (go_scan o (S k) (scan_budget (s_unf σ)) σ2 (scan_budget (s_unf σ)) 0) as [(σ' & SS)|(σ3 & c & R & F & P3 & SC & Lc & T & B)]; auto.
    { cbn; apply upd_eq. } { cbn [σ2 σ1 set_cl s_fl]. lia. }
    + left. exists σ'. refine (success_after _ _ _ _ R1 _ SS). reflexivity.
    + assert (R3 : sruns o σ σ3) by (eapply sruns_trans; eauto).
      assert (I3 : SInv ng init σ3) by (eapply sruns_inv; [exact I|]; eauto).
      destruct F as (F1 & F2 & F3 & F4 & F5). destruct SC as (C1 & C2 & C3 & C4 & C5).
      assert (EQ : s_fl σ2 = s_fl σ) by reflexivity. rewrite EQ in *.
      assert (EU : s_unf σ2 = s_unf σ) by reflexivity. rewrite EU in *.
      assert (ET : s_tag σ2 = s_tag σ) by reflexivity.
      destruct (Q (last_queue E)) as [|it rest] eqn:HQ.
      * destruct (go_drain_none (S k) E Q σ3 P3) as (σ4 & r' & R4 & V4 & G1 & G2 & G3 & G4 & G5); [rewrite F4; exact V|lia|assumption|].
        set (σ5 := attempt_end (set_reg σ4 r') o (S k)) in *.
        assert (I5 : SInv ng init σ5) by (eapply sruns_inv; [exact I3|exact R4]).
        assert (E5 : s_fl σ5 = s_fl σ3 /\ s_unf σ5 = s_unf σ /\ s_tag σ5 = s_tag σ /\ s_log σ5 = s_log σ).
        { cbn [σ5 attempt_end set_cl set_reg s_fl s_unf s_tag s_log]. repeat split; try congruence. rewrite G4, F5. reflexivity. }
        destruct E5 as (E51 & E52 & E53 & E54).
        destruct (IH σ5 (E + 1)%N Q) as [(σ' & SS)|(σ6 & c' & R6 & P6 & L6 & Q6 & T6 & B6)]; rewrite ?E51, ?E52; auto; try congruence; try lia.
        -- cbn; apply upd_eq.
        -- left. exists σ'. refine (success_after _ _ _ _ _ _ SS); [eapply sruns_trans; eauto|assumption].
        -- right. exists σ6, (c + c'). split; [eapply sruns_trans; [exact R3|]; eapply sruns_trans; eauto|]. split; [assumption|]. split; [congruence|].
           assert (ES : N.to_nat (fl_scan (s_fl σ5)) = N.to_nat (fl_scan (s_fl σ)) + c) by (rewrite E51, C5; lia).
           split; [|split].
           ++ intros j Hj. destruct j as [|j]; [rewrite N.add_0_r; assumption|]. specialize (Q6 j ltac:(lia)).
              replace (E + N.of_nat (S j))%N with (E + 1 + N.of_nat j)%N by lia. assumption.
           ++ rewrite total_app, <- ES. rewrite E52 in T6. change (S (S k) * scan_budget (s_unf σ)) with (scan_budget (s_unf σ) + S k * scan_budget (s_unf σ)). lia.
           ++ intros t x Ht Hx. destruct (Nat.lt_ge_cases t c) as [Lt|Ge]; [apply (B t x Lt Hx)|].
              rewrite <- E53. apply (B6 (t - c) x); [lia|]. rewrite E52, ES. replace (N.to_nat (fl_scan (s_fl σ)) + c + (t - c)) with (N.to_nat (fl_scan (s_fl σ)) + t) by lia. exact Hx.
      * destruct (go_drain_some k E Q σ3 it rest I3 P3) as (σ4 & R4 & P4 & L4 & N4 & j & t & FJ & TJ & UJ);
          [rewrite F4; exact V|lia|assumption|congruence|lia|].
        destruct (go_pop_available k σ4 j t P4 FJ TJ) as (σ5 & S5); [rewrite N4, F1; rewrite F2 in UJ; cbn in *; lia|].
        left. exists σ5. refine (success_after _ _ _ _ _ _ S5); [eapply sruns_trans; eauto|]. rewrite L4, F5. reflexivity.
Qed.
End Drain.

(** ** [acquire] from a state without calls and readers *)
Lemma budget_covers u : u <= 20 * scan_budget u.
Proof. unfold scan_budget, retry_limit. lia. Qed.
Lemma acquire_alone entries bp guards cap ncols rows σ o : sreachable entries bp guards cap ncols rows σ ->
  no_reader_no_call σ -> s_cl σ o = CIdle ->
  (forall i, In i (fl_rec (s_fl σ)) -> s_tag σ i = AVAILABLE) ->
  (r_epoch (s_reg σ) + 20 <= u64_max)%N -> (fl_scan (s_fl σ) + N.of_nat (20 * scan_budget entries) < two32)%N ->
  exists k σ', srun ((o, CallAcquire) :: repeat (o, Go) k) σ = Some σ' /\
    ((exists i, i < entries /\ free σ i /\ s_cl σ' o = WHeld i /\ s_log σ' = s_log σ ++ [SAcquired o i]) \/
     ((forall i, i < entries -> ~ free σ i) /\ s_cl σ' o = CIdle /\ s_log σ' = s_log σ ++ [SNoSlot o])).
Proof.
  intros HR NR CI HF HE HS. destruct (reach_inv _ _ _ _ _ _ _ HR) as (I & G & _ & EU). destruct (reach_minv _ _ _ _ _ _ _ HR) as (M & J).
  set (init := initial entries rows) in *. pose proof (v_unf _ _ _ I) as UN. pose proof (v_fl _ _ _ I) as FM.
  set (σ1 := set_cl σ o (APop (retry_limit - 1))).
  assert (S1 : sstep o CallAcquire σ = Some σ1) by (unfold sstep; rewrite CI; reflexivity).
  assert (I1 : SInv guards init σ1) by (eapply sinv_step; eauto).
  assert (J1 : JInv σ1) by exact (jinv_step _ _ _ _ _ _ I J S1).
  assert (QR : quiescent (s_reg σ)).
  { intros a. pose proof (v_link _ _ _ I a) as L. specialize (NR a). destruct (s_cl σ a); try contradiction; cbn in L; destruct (r_ag (s_reg σ) a); cbn in L; congruence. }
  assert (P1 : s_cl σ1 o = APop 19) by (cbn; apply upd_eq).
  (* success *)
  assert (OK : (exists σ', success o σ1 σ') -> exists k σ', srun ((o, CallAcquire) :: repeat (o, Go) k) σ = Some σ' /\
    exists i, i < entries /\ free σ i /\ s_cl σ' o = WHeld i /\ s_log σ' = s_log σ ++ [SAcquired o i]).
  { intros (σ' & R & i & C & L). pose proof R as (k & R'). exists k, σ'. split; [cbn [srun]; rewrite S1; exact R'|].
    assert (I' : SInv guards init σ') by (eapply sruns_inv; eauto). assert (J' : JInv σ') by exact (sruns_jinv _ _ _ _ _ I1 J1 R).
    assert (RL : rl (s_cl σ' o) = Some (i, Own)) by (now rewrite C).
    exists i. split; [|split; [split|split; assumption]].
    - pose proof (role_unf _ _ _ _ _ _ I' RL) as U. rewrite <- EU. rewrite (sruns_unf _ _ _ _ _ I1 R) in U. exact U.
    - destruct (live (s_log σ) i false) eqn:LV; [|reflexivity]. exfalso.
      assert (LV' : live (s_log σ') i false = true) by (rewrite L; change (s_log σ1) with (s_log σ); rewrite live_app; cbn; assumption).
      destruct (J' i LV') as [T|(x & T)].
      + destruct (v_role _ _ _ I' _ _ _ RL) as (_ & T' & _). rewrite T' in T. discriminate.
      + destruct (Nat.eq_dec x o) as [->|N]; [rewrite C in T; discriminate|].
        rewrite (sruns_others _ _ _ _ R N) in T. unfold σ1 in T. cbn [set_cl s_cl] in T. rewrite upd_neq in T by assumption.
        specialize (NR x). destruct (s_cl σ x); try contradiction; discriminate.
    - intros x Hx. assert (N : x <> o) by (intros ->; unfold has_slot in Hx; rewrite CI in Hx; exact Hx).
      assert (Hx' : has_slot σ' x i).
      { unfold has_slot in *. rewrite (sruns_others _ _ _ _ R N). unfold σ1. cbn [set_cl s_cl]. now rewrite upd_neq by assumption. }
      apply N. apply (unique_lemma _ _ σ' x o i I' Hx'). unfold has_slot. rewrite C. reflexivity. }
  assert (W : forall s, success o σ1 s -> exists k σ', srun ((o, CallAcquire) :: repeat (o, Go) k) σ = Some σ' /\
    ((exists i, i < entries /\ free σ i /\ s_cl σ' o = WHeld i /\ s_log σ' = s_log σ ++ [SAcquired o i]) \/
     ((forall i, i < entries -> ~ free σ i) /\ s_cl σ' o = CIdle /\ s_log σ' = s_log σ ++ [SNoSlot o]))).
  { intros s Hs. destruct (OK (ex_intro _ s Hs)) as (k & σ' & A & B). exists k, σ'. auto. }
  clear OK.
  destruct (fl_rec (s_fl σ)) as [|j t] eqn:RC.
  2: { destruct (go_pop_available o 19 σ1 j t P1 RC) as (s & Hs); [apply HF; now left| |eapply W; eauto].
       pose proof (m_max _ M) as F. rewrite RC in F. inversion F; subst. change (s_n σ1) with (s_n σ). lia. }
  destruct (Nat.lt_ge_cases (fl_next (s_fl σ)) (fl_max (s_fl σ))) as [LN|LN].
  { set (nx := fl_next (s_fl σ)) in *. set (σ2 := set_cl σ1 o (AMint 19)). set (σ3 := set_cl σ2 o (AMintCas 19 nx)).
    set (σ4 := set_cl (set_fl σ3 (fl_mint (s_fl σ))) o (ATry (BAttempt 19) nx)).
    destruct (go_take o σ4 (BAttempt 19) nx) as (s & Hs); [cbn; apply upd_eq|change (s_n σ4) with (s_n σ); lia|apply (m_un _ M); lia|].
    apply (W s). refine (success_after _ _ _ _ _ _ Hs); [|reflexivity].
    eapply sruns_step with (σ1 := σ2); [rewrite sstep_go; unfold go; rewrite P1; unfold fl_pop; change (s_fl σ1) with (s_fl σ); rewrite RC; reflexivity|].
    eapply sruns_step with (σ1 := σ3).
    { rewrite sstep_go. unfold go, σ2. cbn [set_cl s_cl]. rewrite upd_eq. change (s_fl _) with (s_fl σ). fold nx. destruct (Nat.ltb_spec nx (fl_max (s_fl σ))); [reflexivity|lia]. }
    eapply sruns_step with (σ1 := σ4); [|apply sruns_refl].
    rewrite sstep_go. unfold go, σ3. cbn [set_cl s_cl]. rewrite upd_eq. change (s_fl _) with (s_fl σ). fold nx. rewrite Nat.eqb_refl. reflexivity. }
  destruct (v_reg _ _ _ I) as (RI & _ & _).
  assert (V : view o guards (r_epoch (s_reg σ1)) None (r_q (s_reg σ1)) AIdle (s_reg σ1)) by (apply quiescent_view; [exact RI|exact QR]).
  set (E := r_epoch (s_reg σ1)) in *. set (Q := r_q (s_reg σ1)) in *.
  destruct (attempts guards init o 19 σ1 E Q I1 P1 RC LN (m_cap _ M) V) as [(s & Hs)|(σ' & c & R & C & L & EQ & T & B)].
  { change E with (r_epoch (s_reg σ)). lia. }
  { change (s_fl σ1) with (s_fl σ). change (s_unf σ1) with (s_unf σ). rewrite EU. exact HS. }
  { eapply W; eauto. }
  destruct R as (k & R'). exists k, σ'. split; [cbn [srun]; rewrite S1; exact R'|]. right. split; [|split; assumption].
  intros i Hi (LV & NS). change (s_unf σ1) with (s_unf σ) in *. rewrite <- EU in Hi.
  pose proof (budget_covers (s_unf σ)) as BC.
  assert (NA : s_tag σ i <> AVAILABLE).
  { destruct (coverage (s_unf σ) (N.to_nat (fl_scan (s_fl σ))) c ltac:(lia)) with (i := i) as (t & Ht & Hx); [|assumption|].
    - change (s_fl σ1) with (s_fl σ) in T. lia.
    - exact (B t i Ht Hx). }
  assert (QE : forall q, q < 4 -> r_q (s_reg σ) q = []).
  { intros q Hq. change (r_q (s_reg σ)) with Q. assert (EL : (E + 3 <= u64_max)%N) by (change E with (r_epoch (s_reg σ)); lia).
    destruct (last_queue_shift E EL q Hq) as [Eq|[Eq|[Eq|Eq]]]; rewrite Eq.
    - specialize (EQ 0 ltac:(lia)). rewrite N.add_0_r in EQ. exact EQ.
    - exact (EQ 1 ltac:(lia)). - exact (EQ 2 ltac:(lia)). - exact (EQ 3 ltac:(lia)). }
  destruct (v_tags _ _ _ I i ltac:(lia)) as [(A & _)|[(A & _)|[(_ & A)|[(x & r & A)|A]]]].
  - contradiction.
  - rewrite (g_live _ _ G i A) in LV. discriminate.
  - lia.
  - specialize (NR x). specialize (NS x). unfold has_slot in NS. destruct (s_cl σ x); try contradiction; cbn in A; [discriminate|]. injection A as -> _. now apply NS.
  - rewrite pending_allq in A. unfold allq in A. rewrite !QE in A by lia. exact A.
Qed.
