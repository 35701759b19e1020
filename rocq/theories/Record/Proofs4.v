(** What is saved is a well-formed value, nests no deeper than its type and can be printed. *)
From Coq Require Import String Lia ZifyN ZifyBool.
From Verif.Lib Require Import Base Bytes F32 F64.
From Verif.Record Require Import Model Spec Proofs Proofs2 Proofs3.
Local Open Scope string_scope.
Local Open Scope N_scope.

Lemma value_ok_arr' l : Forall value_ok l -> value_ok (VArr l).
Proof. intros H. induction H; cbn; auto. Qed.
Lemma value_ok_obj' ver r : ver_ok ver -> names_ok (map fst r) -> Forall (fun kv => value_ok (snd kv)) r -> value_ok (VObj ver r).
Proof.
  intros A B C. split; [assumption|split; [assumption|]]. clear B. induction C as [|(k, v) r H C IH]; [exact I|]. split; assumption.
Qed.
Lemma plain_vec l : plain (DVec l) -> Forall plain l.
Proof. induction l as [|d l IH]; intros H; constructor; [apply H|apply IH, H]. Qed.
Lemma plain_rec l : plain (DRec l) -> Forall plain l.
Proof. induction l as [|d l IH]; intros H; constructor; [apply H|apply IH, H]. Qed.
Lemma num_of_int_ok i z : in_range i z = true -> num_ok (num_of_int i z).
Proof. unfold in_range, num_of_int. intros H. destruct i; cbn in *; unfold two64, i64_min, i64_max in *; lia. Qed.
Lemma f32_to_f64_lt x : f32_to_f64 x < two64.
Proof. rewrite f32_to_f64_eq. pose proof (widen_mag_lt _ (f32_mag_lt x)). destruct (f32_sign_bit <=? x); unfold two63, two64 in *; lia. Qed.
Lemma save_ok : forall t d, ty_ok t -> has_ty t d -> plain d -> value_ok (save t d) /\ calm t (save t d).
Proof.
  induction t as [i|i| | | | | |t IHt|t IHt|v fs IHf|v vs IHv] using ty_ind'; intros d TO H PL; destruct d; try contradiction.
  - split; [now apply num_of_int_ok|exact I].
  - split; [apply num_of_int_ok, H|exact I].
  - split; [apply f32_to_f64_lt|discriminate].
  - split; [exact H|discriminate].
  - split; exact I.
  - split; [exact PL|exact I].
  - split; exact I.
  - cbn [save calm]. split; [exact I|]. clear. induction t as [i|i| | | | | |t IHt|t IHt|v fs IHf|v vs IHv] using ty_ind'; cbn; try exact I; try discriminate. exact IHt.
  - destruct TO as (_ & TO). cbn [save calm]. now apply IHt.
  - apply plain_vec in PL. cbn [has_ty] in H. cbn [ty_ok] in TO. cbn [save calm]. enough (K : Forall (fun v => value_ok v /\ calm t v) (map (save t) l)).
    { split; [apply value_ok_arr'|]; (eapply Forall_impl; [|exact K]); intros a Ha; apply Ha. }
    apply Forall_map. rewrite Forall_forall in *. intros d Hd. apply IHt; auto.
  - apply plain_rec in PL. rewrite has_ty_rec in H. apply ty_ok_rec in TO. destruct TO as (V & NK & TO). rewrite save_rec.
    assert (ND' : NoDup (map fst (zip_save fs l))) by (rewrite zip_keys by assumption; apply NK). rewrite rec_from_iter_nodup by assumption.
    assert (K : forall k t0 x, In (k, t0) fs -> lookup k (zip_save fs l) = Some x -> value_ok x /\ calm t0 x).
    { intros k t0 x Hk L. apply lookup_in in L. destruct NK as (ND & _). clear ND' V. revert l PL H L. induction fs as [|(k', t) fs IH]; intros [|d l] PL H L; cbn [fields_ty zip_save] in *; try contradiction.
      inversion IHf as [|? ? I1 I2]; subst. inversion TO as [|? ? T1 T2]; subst. inversion PL as [|? ? P1 P2]; subst. cbn [map fst] in ND. inversion ND as [|? ? N1 N2]; subst. cbn [snd] in *. destruct H as (H1 & H2). destruct L as [L|L].
      - injection L as -> <-. destruct Hk as [Hk|Hk]; [injection Hk as ->; now apply I1|]. exfalso. apply N1. apply in_map_iff. now exists (k, t0).
      - destruct Hk as [Hk|Hk].
        + injection Hk as -> ->. exfalso. apply N1. rewrite <- (zip_keys fs l H2). apply in_map_iff. now exists (k, x).
        + eapply IH; eauto. }
    split.
    + apply value_ok_obj'; [assumption|rewrite zip_keys by assumption; exact NK|]. apply Forall_forall. intros (k, x) Hx. cbn [snd].
      assert (Hk : In k (map fst fs)) by (rewrite <- (zip_keys fs l H); apply in_map_iff; now exists (k, x)).
      apply in_map_iff in Hk. destruct Hk as ((k2, t0) & E & Hk). cbn in E. subst k2. eapply K; [exact Hk|]. now apply lookup_nodup.
    + change (calm_fields (zip_save fs l) fs). set (r := zip_save fs l) in *. clearbody r. assert (K' : forall k t0 x, In (k, t0) fs -> lookup k r = Some x -> calm t0 x) by (intros; eapply K; eauto).
      clear - K'. induction fs as [|(k, t) fs IH]; [exact I|]. split; [intros x L; eapply K'; [now left|exact L]|]. apply IH. intros k0 t0 x Hk. eapply K'. right. exact Hk.
  - rewrite has_ty_enum in H. apply ty_ok_enum in TO. destruct TO as (V & (ND & NR) & TO). rewrite save_enum.
    assert (K : value_ok (save_var k p vs) /\ calm_var k (save_var k p vs) vs /\ In k (map fst vs)).
    { clear V NR. induction vs as [|(k', o) vs IH]; [contradiction|]. inversion IHv as [|? ? I1 I2]; subst. inversion TO as [|? ? T1 T2]; subst. cbn [map fst] in ND. inversion ND as [|? ? N1 N2]; subst. rewrite var_ty_cons in H. rewrite save_var_cons. cbn [snd map fst] in *.
      destruct (beqb_spec k k') as [->|N].
      - assert (CV : forall x, calm_var k' x vs).
        { intros x. clear - N1. induction vs as [|(k2, [t|]) vs IH]; [exact I| |]; cbn [map fst In] in N1; [split; [|apply IH; tauto]|apply IH; tauto]. intros E. destruct (beqb_spec k' k2) as [->|]; [exfalso; apply N1; now left|discriminate]. }
        destruct o as [t|], p as [d|]; try contradiction.
        + destruct (I1 d T1 H PL) as (A & B). split; [exact A|]. split; [split; [auto|apply CV]|now left].
        + split; [exact I|]. split; [exact (CV VNull)|now left].
      - destruct (IH I2 N2 T2 H) as (A & B & C). split; [exact A|]. split; [|now right].
        destruct o as [t|]; [|exact B]. split; [intros E; destruct (beqb_spec k k'); [contradiction|discriminate]|exact B]. }
    destruct K as (K1 & K2 & K3). split; [|exact K2]. apply value_ok_obj'; [assumption| |constructor; [exact K1|constructor]].
    split; [constructor; [intros []|constructor]|constructor; [|constructor]]. rewrite Forall_forall in NR. now apply NR.
Qed.
Lemma numbers_arr p l : numbers p (VArr l) -> Forall (numbers p) l.
Proof. induction l as [|v l IH]; intros H; constructor; [apply H|apply IH, H]. Qed.
Lemma numbers_obj p ver r : numbers p (VObj ver r) -> Forall (fun kv => numbers p (snd kv)) r.
Proof. induction r as [|(k, v) r IH]; intros H; constructor; [apply H|apply IH, H]. Qed.
Lemma numbers_calm : forall t v, numbers (fun n => n <> NI64 i64_max) v -> calm t v.
Proof.
  induction t as [i|i| | | | | |t IHt|t IHt|ver fs IHf|ver vs IHv] using ty_ind'; intros v H; try exact I.
  - cbn. intros ->. now apply H.
  - cbn. intros ->. now apply H.
  - cbn. auto.
  - destruct v; try exact I. apply numbers_arr in H. cbn. eapply Forall_impl; [|exact H]. auto.
  - destruct v as [| | | | |ver' r|]; try exact I. apply numbers_obj in H. change (calm_fields r fs). induction fs as [|(k, t) fs IH]; [exact I|]. inversion IHf as [|? ? I1 I2]; subst.
    split; [|now apply IH]. intros x L. apply lookup_in in L. rewrite Forall_forall in H. apply I1. exact (H _ L).
  - destruct v as [| | | | |ver' r|]; try exact I. destruct r as [|(k, x) [|]]; try exact I. apply numbers_obj in H. inversion H as [|? ? Hx _]; subst. change (calm_var k x vs).
    induction vs as [|(k', [t|]) vs IH]; [exact I| |]; inversion IHv as [|? ? I1 I2]; subst; [|now apply IH]. split; [intros _; now apply I1|now apply IH].
Qed.

(** ** Depth *)
Lemma jdepth_arr l : jdepth (JArr l) = S (list_max (map jdepth l)).
Proof. cbn [jdepth]. f_equal. induction l as [|j l IH]; [reflexivity|]. cbn [map list_max fold_right]. now rewrite IH. Qed.
Lemma jdepth_obj m : jdepth (JObj m) = S (list_max (map (fun kj => jdepth (snd kj)) m)).
Proof. cbn [jdepth]. f_equal. induction m as [|(k, j) l IH]; [reflexivity|]. cbn [map list_max fold_right snd]. now rewrite IH. Qed.
Definition optd (o : option ty) : nat := match o with Some t => tdepth t | None => 0%nat end.
Lemma tdepth_rec v fs : tdepth (TRec v fs) = S (list_max (map (fun kt => tdepth (snd kt)) fs)).
Proof. cbn [tdepth]. f_equal. induction fs as [|(k, j) l IH]; [reflexivity|]. cbn [map list_max fold_right snd]. now rewrite IH. Qed.
Lemma tdepth_enum v vs : tdepth (TEnum v vs) = S (list_max (map (fun kt => optd (snd kt)) vs)).
Proof. cbn [tdepth]. f_equal. induction vs as [|(k, [t|]) l IH]; [reflexivity| |]; cbn [map list_max fold_right snd optd]; now rewrite IH. Qed.
Lemma jdepth_number n : jdepth (ser_number n) = 0%nat.
Proof. unfold ser_number. destruct (sentinel n); [reflexivity|]. destruct n; try reflexivity. now destruct (z <? 0)%Z. Qed.
Lemma depth_obj ord ver r n : ord_ok ord -> Forall (fun kv => (jdepth (ser ord (snd kv)) <= n)%nat) r -> (jdepth (ser ord (VObj ver r)) <= S n)%nat.
Proof.
  intros O H. cbn [ser]. rewrite jdepth_obj. apply le_n_S. apply list_max_le. apply Forall_map. apply Forall_app. split; [|constructor; [cbn; lia|constructor]].
  apply Forall_forall. intros (k, j) Hj. apply (Permutation_in _ (O _)) in Hj. apply in_map_iff in Hj. destruct Hj as ((k2, v) & [= <- <-] & Hv). rewrite Forall_forall in H. exact (H _ Hv).
Qed.
Lemma save_depth ord : ord_ok ord -> forall t d, ty_ok t -> has_ty t d -> (jdepth (ser ord (save t d)) <= tdepth t)%nat.
Proof.
  intros O. induction t as [i|i| | | | | |t IHt|t IHt|v fs IHf|v vs IHv] using ty_ind'; intros d TO H; destruct d; try contradiction.
  - cbn [save ser]. rewrite jdepth_number. lia.
  - cbn [save ser]. rewrite jdepth_number. lia.
  - cbn [save ser]. rewrite jdepth_number. lia.
  - cbn [save ser]. rewrite jdepth_number. lia.
  - cbn. lia.
  - cbn. lia.
  - cbn. lia.
  - cbn. lia.
  - destruct TO as (_ & TO). cbn [save tdepth]. now apply IHt.
  - cbn [save ser tdepth]. rewrite jdepth_arr. apply le_n_S. apply list_max_le. rewrite !Forall_map. cbn [has_ty ty_ok] in *. rewrite Forall_forall in *. intros x Hx. apply IHt; auto.
  - rewrite has_ty_rec in H. apply ty_ok_rec in TO. destruct TO as (V & (ND & _) & TO). rewrite save_rec, tdepth_rec.
    assert (ND' : NoDup (map fst (zip_save fs l))) by now rewrite zip_keys. rewrite rec_from_iter_nodup by assumption. apply depth_obj; [assumption|].
    clear - IHf TO H. revert l H. induction fs as [|(k, t) fs IH]; intros [|d l] H; cbn [fields_ty zip_save] in *; try contradiction; [constructor|].
    inversion IHf as [|? ? I1 I2]; subst. inversion TO as [|? ? T1 T2]; subst. destruct H as (H1 & H2). cbn [map list_max fold_right snd]. constructor.
    + cbn [snd] in *. specialize (I1 d T1 H1). lia.
    + eapply Forall_impl; [|apply (IH I2 T2 l H2)]. intros a Ha. cbv beta in *. unfold list_max in Ha. eapply Nat.le_trans; [exact Ha|apply Nat.le_max_r].
  - rewrite has_ty_enum in H. apply ty_ok_enum in TO. destruct TO as (V & _ & TO). rewrite save_enum, tdepth_enum. apply depth_obj; [assumption|]. constructor; [|constructor]. cbn [snd].
    induction vs as [|(k', o) vs IH]; [contradiction|]. inversion IHv as [|? ? I1 I2]; subst. inversion TO as [|? ? T1 T2]; subst. rewrite var_ty_cons in H. rewrite save_var_cons. cbn [map list_max fold_right snd] in *.
    fold (list_max (map (fun kt : bytes * option ty => optd (snd kt)) vs)). destruct (beqb k k').
    + destruct o as [t|], p as [d|]; try contradiction; [|cbn; lia]. specialize (I1 d T1 H). cbn [optd]. lia.
    + specialize (IH I2 T2 H). lia.
Qed.
(** ** Printing *)
Lemma printable_arr l : Forall printable l -> printable (JArr l).
Proof. intros H. induction H; cbn; auto. Qed.
Lemma printable_obj (m : list (bytes * json)) : Forall (fun kj => printable (snd kj)) m -> printable (JObj m).
Proof. intros H. induction H as [|(k, j) m Hj H IH]; [exact I|]. split; assumption. Qed.
Lemma f64_eq_mag x y : f64_nan x = false -> f64_nan y = false -> f64_neg x = f64_neg y -> f64_mag x = f64_mag y -> f64_eq x y = true.
Proof. intros A B C D. apply f64_eq_iff. split; [assumption|split; [assumption|]]. unfold f64_val. now rewrite C, D. Qed.
Lemma printable_number n : num_ok n -> printable (ser_number n).
Proof.
  intros W. unfold ser_number. destruct (sentinel n) eqn:S; [exact I|]. destruct n as [v|z|x].
  - exact W.
  - cbn in W. unfold i64_min, i64_max in W. destruct (Z.ltb_spec z 0); cbn; unfold i64_min, two64; lia.
  - cbn [sentinel] in S. cbn. destruct (f64_nan x) eqn:N; [discriminate|]. pose proof N as N'. unfold f64_nan in N'. apply N.ltb_ge in N'. apply N.le_lteq in N'. destruct N' as [L|L]; [assumption|exfalso].
    destruct (f64_neg x) eqn:G.
    + destruct (f64_eq x f64_inf_bits) eqn:E1; [discriminate|]. rewrite (f64_eq_mag x f64_neg_inf) in S; [discriminate|assumption|reflexivity|rewrite G; reflexivity|rewrite L; reflexivity].
    + rewrite (f64_eq_mag x f64_inf_bits) in S; [discriminate|assumption|reflexivity|rewrite G; reflexivity|rewrite L; reflexivity].
Qed.
Lemma ser_printable ord : ord_ok ord -> forall v, value_ok v -> printable (ser ord v).
Proof.
  intros O. induction v as [|b|n|s|l IH|ver r IH|h] using value_ind'; intros W; try exact I.
  - now apply printable_number.
  - apply value_ok_arr in W. cbn [ser]. apply printable_arr. apply Forall_map. rewrite Forall_forall in *. auto.
  - apply value_ok_obj in W. destruct W as (_ & _ & W). cbn [ser]. apply printable_obj. apply Forall_app. split; [|constructor; [exact I|constructor]].
    apply Forall_forall. intros (k, j) Hj. apply (Permutation_in _ (O _)) in Hj. apply in_map_iff in Hj. destruct Hj as ((k2, v) & [= <- <-] & Hv). cbn [snd]. rewrite Forall_forall in *. exact (IH _ Hv (W _ Hv)).
  - repeat split.
Qed.
