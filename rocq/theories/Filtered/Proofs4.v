(** Filtered range search. *)
From Verif.Lib Require Import Base Lists F32.
From Verif.Queue Require Import Proofs.
From Verif.Search Require Import Proofs ProofsKnn ProofsRange.
From Verif.Filtered Require Import Model Spec Proofs Proofs2 Proofs3.

Lemma f32_lt_asym x y : f32_lt x y = true -> f32_lt y x = true -> False.
Proof. intros H1 H2. apply f32_lt_spec in H1, H2. lia. Qed.

(** ** Removing duplicates from a sorted list *)
Lemma dedup_nil xs : dedup_ids xs = [] -> xs = [].
Proof.
  destruct xs as [|x xs]; [reflexivity|]. cbn [dedup_ids]. destruct (dedup_ids xs) as [|y ys]; [discriminate|].
  destruct (n_id x =? n_id y); discriminate.
Qed.

Lemma dedup_cons xs y ys : dedup_ids xs = y :: ys -> exists xs', xs = y :: xs'.
Proof.
  destruct xs as [|x xs]; [discriminate|]. cbn [dedup_ids]. destruct (dedup_ids xs) as [|z zs].
  - intros [= -> _]. eauto.
  - destruct (n_id x =? n_id z); intros [= -> _]; eauto.
Qed.

Lemma dedup_spec xs : StronglySorted before xs ->
  (forall x y, In x xs -> In y xs -> n_id x = n_id y -> x = y) ->
  (forall x, In x (dedup_ids xs) <-> In x xs) /\ NoDup (map n_id (dedup_ids xs)).
Proof.
  induction 1 as [|x xs S IH F]; intros U; cbn [dedup_ids]; [split; [tauto|constructor]|].
  destruct IH as [IH1 IH2]. { intros a b Ha Hb. apply U; now right. }
  destruct (dedup_ids xs) as [|y ys] eqn:D.
  - rewrite (dedup_nil _ D) in *. split; [tauto|]. constructor; [intros []|constructor].
  - destruct (dedup_cons _ _ _ D) as (xs' & ->). destruct (Nat.eqb_spec (n_id x) (n_id y)) as [E|E].
    + assert (x = y) by (apply U; [now left|right; now left|exact E]). subst y. split; [|exact IH2].
      intros w. rewrite IH1. cbn [In]. tauto.
    + split; [intros w; cbn [In] in *; rewrite <- IH1; tauto|].
      cbn [map]. constructor; [|exact IH2]. intros X. cbn [map] in IH2.
      assert (X' : In (n_id x) (map n_id (y :: ys))) by exact X.
      apply in_map_iff in X'. destruct X' as (w & Ew & Hw). apply IH1 in Hw.
      assert (w = x) by (apply U; [now right|now left|exact Ew]). subst w.
      destruct Hw as [<-|Hw]; [congruence|].
      inversion F as [|? ? B1 _]; subst. inversion S as [|? ? S1 S2]; subst. rewrite Forall_forall in S2.
      specialize (S2 x Hw). unfold before, nearer in *.
      destruct B1 as [B1|[B1 L1]], S2 as [S2|[S2 L2]]; try tauto.
      * exact (f32_lt_asym _ _ B1 S2).
      * apply E. lia.
Qed.

Section range.
Variable graph : nat -> option (list nat).
Variable dist : nat -> option f32.
Variable acc : nat -> bool.
Variable p : range.
Notation accepted := (accepted acc).

(** What the second phase may add. *)
Definition good (x : nbr) : Prop := f32_le (n_dist x) (r_limit p) = true /\
  f32_le (n_dist x) (r_radius p) = true /\ accepted x = true.

Lemma f_absorb_spec ns : forall m fr m' fr', f_absorb acc p m fr ns = (m', fr') ->
  exists added, m' = m ++ added /\ incl added ns /\
    fr' = fr ++ map n_id (filter (fun x => f32_le (n_dist x) (r_limit p)) ns) /\
    (NoDup (map n_id ns) -> NoDup (map n_id added)) /\
    (forall x, In x added -> good x) /\
    (room p (length m') = true -> forall x, In x ns -> good x -> In x added) /\
    (forall k, r_max p = Some k -> length m <= k -> length m' <= k).
Proof.
  induction ns as [|x ns IH]; intros m fr m' fr' H; cbn [f_absorb] in H.
  - injection H as <- <-. exists []. rewrite !app_nil_r. cbn. repeat split; auto; try (intros y []).
    all: intros; try contradiction.
  - destruct (f32_le (n_dist x) (r_limit p)) eqn:B1; cbn [filter]; rewrite ?B1.
    + destruct (f32_le (n_dist x) (r_radius p) && accepted x && room p (length m)) eqn:B2.
      * apply andb_prop in B2. destruct B2 as [B2 B4]. apply andb_prop in B2. destruct B2 as [B2 B3].
        destruct (IH _ _ _ _ H) as (added & A1 & A2 & A3 & A4 & A5 & A6 & A7).
        exists (x :: added). rewrite A1, A3, <- !app_assoc. cbn [app map].
        split; [reflexivity|]. split; [intros y [<-|Hy]; [now left|right; auto]|].
        split; [reflexivity|].
        split; [intros ND; inv ND; constructor; auto; intros X; apply in_map_iff in X;
              destruct X as (y & Ey & Hy); apply H2; rewrite <- Ey; apply in_map; auto|].
        split; [intros y [<-|Hy]; [repeat split|]; auto|].
        split; [intros R y [<-|Hy] Hg; [now left|right; apply A6; auto; rewrite A1, <- app_assoc; exact R]|].
        intros k Hk Hl. specialize (A7 k Hk). rewrite A1, <- app_assoc in A7. apply A7.
        unfold room in B4. rewrite Hk in B4. apply Nat.ltb_lt in B4. rewrite app_length. cbn [length]. lia.
      * destruct (IH _ _ _ _ H) as (added & A1 & A2 & A3 & A4 & A5 & A6 & A7).
        exists added. rewrite A3, <- app_assoc. cbn [app map].
        split; [exact A1|]. split; [intros y Hy; right; auto|]. split; [reflexivity|].
        split; [intros ND; inv ND; auto|]. split; [exact A5|]. split; [|exact A7].
        intros R y [<-|Hy] Hg; [|auto]. destruct Hg as (_ & G2 & G3). rewrite G2, G3 in B2. cbn [andb] in B2.
        rewrite (room_mono graph dist p (length m) (length m')) in B2; [discriminate| |exact R].
        rewrite A1, app_length. lia.
    + destruct (IH _ _ _ _ H) as (added & A1 & A2 & A3 & A4 & A5 & A6 & A7).
      exists added. split; [exact A1|]. split; [intros y Hy; right; auto|]. split; [exact A3|].
      split; [intros ND; inv ND; auto|]. split; [exact A5|]. split; [|exact A7].
      intros R y [<-|Hy] Hg; [|auto]. destruct Hg as (G1 & _). congruence.
Qed.

(** A node whose neighbours are looked at. *)
Definition front (seeds : list nat) (i : nat) : Prop :=
  In i seeds \/ exists d, dist i = Some d /\ f32_le d (r_limit p) = true.

Record FInv (starts seeds : list nat) (found : list nbr) (vis : list nat) (m : list nbr) (fr : list nat)
  : Prop := {
  fi_found : exists more, m = found ++ more /\ forall x, In x more -> good x;
  fi_nodup : NoDup (map n_id m);
  fi_vis : forall x, In x m -> In (n_id x) vis /\ scored dist x;
  fi_seeds : incl seeds vis;
  fi_fr : incl fr vis;
  fi_exp : forall i j, In i vis -> front seeds i -> edge graph i j -> In i fr \/ In j vis;
  fi_reach : forall i, In i vis -> reach graph starts i;
  fi_in : room p (length m) = true -> forall i d, In i vis -> dist i = Some d ->
      good (mkNbr i d) -> In (mkNbr i d) m;
  fi_max : forall k, r_max p = Some k -> length m <= k
}.

Lemma f_range_loop_spec starts seeds found : forall fuel vis m fr,
  FInv starts seeds found vis m fr ->
  match f_range_loop graph dist acc fuel p vis m fr with
  | SOk all => exists vis' fr', FInv starts seeds found vis' all fr' /\
      (room p (length all) = true -> fr' = [])
  | SErr => exists x, reach graph starts x /\ graph x = None
  | SPanic => False
  | SFuel => True
  end.
Proof.
  induction fuel as [|fuel IH]; intros vis m fr I; cbn [f_range_loop];
    (destruct fr as [|f fr]; [exists vis, []; split; [exact I|reflexivity]|]).
  - destruct (room p (length m)) eqn:R; [exact Logic.I|].
    exists vis, (f :: fr). split; [exact I|congruence].
  - destruct (room p (length m)) eqn:R.
    2:{ exists vis, (f :: fr). split; [exact I|congruence]. }
    set (F := f :: fr) in *. clearbody F.
    set (beam := firstn (r_bw p) F). set (fr0 := skipn (r_bw p) F).
    assert (SPL : F = beam ++ fr0) by (symmetry; apply firstn_skipn).
    clearbody beam fr0.
    destruct (expand_beam graph dist vis beam) as [[vis1 ns]|] eqn:X.
    + destruct (expand_beam_spec _ _ _ _ _ _ X) as [V G].
      destruct (f_absorb acc p m fr0 ns) as [m1 fr1] eqn:A.
      destruct (f_absorb_spec _ _ _ _ _ A) as (added & A1 & A2 & A3 & A4 & A5 & A6 & A7).
      apply IH. destruct I as [I1 I2 I3 I4 I5 I6 I7 I8 I9].
      assert (VM : incl vis vis1) by (intros i Hi; apply (v_mem _ _ _ _ _ V); now left).
      constructor.
      * destruct I1 as (more & E & Hm). exists (more ++ added). rewrite A1, E, <- app_assoc.
        split; [reflexivity|]. intros x Hx. apply in_app_or in Hx. destruct Hx; auto.
      * rewrite A1, map_app. apply NoDup_app_intro; [exact I2|apply A4, V|].
        intros i H1 H2. apply in_map_iff in H1, H2. destruct H1 as (x & <- & Hx), H2 as (y & E & Hy).
        apply (proj1 (v_new _ _ _ _ _ V y (A2 y Hy))). rewrite E. now apply I3.
      * intros x Hx. rewrite A1 in Hx. apply in_app_or in Hx. destruct Hx as [Hx|Hx].
        -- destruct (I3 x Hx). split; [|assumption]. now apply VM.
        -- destruct (v_new _ _ _ _ _ V x (A2 x Hx)) as (_ & N2 & N3). auto.
      * intros i Hi. apply VM. auto.
      * intros i Hi. rewrite A3 in Hi. apply in_app_or in Hi. destruct Hi as [Hi|Hi].
        -- apply VM, I5. rewrite SPL. apply in_or_app. now right.
        -- apply in_map_iff in Hi. destruct Hi as (x & <- & Hx). apply filter_In in Hx.
           apply (v_new _ _ _ _ _ V). tauto.
      * intros i j Hi Hf He. destruct (in_dec Nat.eq_dec i vis) as [Hv|Hv].
        -- destruct (I6 i j Hv Hf He) as [Hf'|Hv']; [|right; now apply VM].
           rewrite SPL in Hf'. apply in_app_or in Hf'. destruct Hf' as [Hf'|Hf'].
           ++ right. apply (v_mem _ _ _ _ _ V). right. eauto.
           ++ left. rewrite A3. apply in_or_app. now left.
        -- left. rewrite A3. apply in_or_app. right. destruct Hf as [Hf|(d & Hd & Hl)].
           { exfalso. apply Hv. auto. }
           change i with (n_id (mkNbr i d)). apply in_map. apply filter_In. split; [|exact Hl].
           now apply (v_all _ _ _ _ _ V).
      * intros i Hi. apply (v_mem _ _ _ _ _ V) in Hi. destruct Hi as [Hi|(u & Hu & He)]; [auto|].
        eapply reach_edge; [|exact He]. apply I7, I5. rewrite SPL. apply in_or_app. now left.
      * intros R1 i d Hi Hd Hg. rewrite A1. apply in_or_app.
        destruct (in_dec Nat.eq_dec i vis) as [Hv|Hv]; [left; now apply I8|right].
        apply A6; auto. now apply (v_all _ _ _ _ _ V).
      * intros k Hk. apply (A7 k Hk). now apply I9.
    + destruct (expand_fail _ _ _ _ X) as (u & Hu & Gu). exists u. split; [|exact Gu].
      apply (fi_reach _ _ _ _ _ _ I), (fi_fr _ _ _ _ _ _ I). rewrite SPL. apply in_or_app. now left.
Qed.

Lemma f_range_loop_fuel univ : NoDup univ ->
  (forall u v, In u univ -> edge graph u v -> In v univ) -> r_bw p <> 0 ->
  forall fuel vis m fr, incl fr univ -> fresh univ vis + length fr <= fuel ->
  f_range_loop graph dist acc fuel p vis m fr <> SFuel.
Proof.
  intros ND HC Hb. induction fuel as [|fuel IH]; intros vis m fr HF Hm;
    cbn [f_range_loop]; (destruct fr as [|f fr]; [discriminate|]).
  - cbn in Hm. lia.
  - destruct (room p (length m)); [|discriminate].
    assert (LB : length (skipn (r_bw p) (f :: fr)) < length (f :: fr)) by (rewrite skipn_length; cbn [length]; lia).
    set (F := f :: fr) in *. clearbody F.
    assert (SB : incl (firstn (r_bw p) F) univ) by (intros i Hi; apply HF; eapply in_firstn; eauto).
    assert (SF : incl (skipn (r_bw p) F) univ) by (intros i Hi; apply HF; eapply in_skipn; eauto).
    destruct (expand_beam graph dist vis (firstn (r_bw p) F)) as [[vis1 ns]|] eqn:X; [|discriminate].
    destruct (expand_beam_spec _ _ _ _ _ _ X) as [V G].
    destruct (f_absorb acc p m (skipn (r_bw p) F) ns) as [m1 fr1] eqn:A.
    destruct (f_absorb_spec _ _ _ _ _ A) as (added & A1 & A2 & A3 & A4 & A5 & A6 & A7).
    assert (NU : forall x, In x ns -> In (n_id x) univ).
    { intros x Hx. destruct (v_new _ _ _ _ _ V x Hx) as (N1 & N2 & _).
      apply (v_mem _ _ _ _ _ V) in N2. destruct N2 as [|(u & Hu & He)]; [contradiction|].
      eapply HC; [|exact He]. now apply SB. }
    pose proof (fresh_drop dist univ vis vis1 ns _ ND V NU) as FD.
    pose proof (filter_le (fun x => f32_le (n_dist x) (r_limit p)) (fun _ => true) ns ltac:(auto)) as FL.
    rewrite (filter_all (fun _ : nbr => true) ns ltac:(auto)) in FL.
    apply IH.
    + rewrite A3. intros i Hi. apply in_app_or in Hi. destruct Hi as [Hi|Hi]; [auto|].
      apply in_map_iff in Hi. destruct Hi as (x & <- & Hx). apply filter_In in Hx. apply NU. tauto.
    + rewrite A3, app_length, map_length. clear -FL FD LB Hm. lia.
Qed.
End range.
