(** Lemmas about merging the graphs of the shards: the merged file. *)
From Coq Require Import List NArith ZArith Bool Permutation Sorting Lia ZifyNat ZifyN ZifyBool.
From Verif.Lib Require Import Base Lists Bytes.
From Verif.Disk Require Import Model Spec Proofs ProofsLayout Props.
From Verif.GraphFile Require Import Model Spec Proofs ProofsMain.
From Verif.Shards Require Import Model Spec Proofs Proofs2 Proofs3 Proofs4.
Import ListNotations.
Local Arguments le_enc : simpl never.

Lemma Forall2_length {A B} (R : A -> B -> Prop) l l' : Forall2 R l l' -> length l = length l'.
Proof. induction 1; cbn; auto. Qed.
Lemma sorted_length l n : StronglySorted N.lt l -> Forall (fun x => (x < n)%N) l -> (N.of_nat (length l) <= n)%N.
Proof.
  intros S1 U. assert (G : forall l b, StronglySorted N.lt l -> Forall (fun x => (b <= x)%N) l -> Forall (fun x => (x < n)%N) l -> l = [] \/ (b + N.of_nat (length l) <= n)%N).
  { clear. intros l. induction l as [|x l IH]; intros b S1 B U; [now left|right]. inversion S1; subst. inversion B; subst. inversion U; subst.
    destruct (IH (x + 1)%N) as [->|X]; auto.
    - eapply Forall_impl; [|exact H2]. intros; cbn in *; lia.
    - cbn [length]. lia.
    - cbn [length]. lia. }
  destruct (G l 0%N S1) as [->|X]; auto; [apply Forall_forall; intros; lia|cbn; lia].
Qed.

Lemma groups_ok ss n : forall P cur acc, StronglySorted pair_le P -> Forall (fun p => (cur <= fst p < n)%N) P ->
  (forall v, (cur < v < n)%N -> exists s, In (v, s) P) -> (cur < n)%N -> NoDup acc ->
  N.of_nat (length (groups ss cur acc P)) = (n - cur)%N /\
  forall k g, nth_error (groups ss cur acc P) k = Some g -> NoDup g /\
    forall w, In w g <-> (k = 0 /\ In w acc) \/ exists s, In (cur + N.of_nat k, s)%N P /\ In w (renamed ss (cur + N.of_nat k, s)%N).
Proof.
  induction P as [|[v s] P IH]; intros cur acc SP FP CV CN ND; cbn [groups fst].
  { split.
    - destruct (N.eq_dec (cur + 1) n) as [E|E]; [cbn; lia|]. destruct (CV (cur + 1)%N) as (s & []). lia.
    - intros [|k] g H; [|destruct k; discriminate]. injection H as <-. split; [exact ND|]. intros w. split; [now left|]. intros [[_ H]|(s & [] & _)]. exact H. }
  inversion SP as [|? ? SP' FF]; subst. inversion FP as [|? ? FV FP']; subst. cbn [fst] in FV.
  assert (GE : Forall (fun p => (v <= fst p < n)%N) P).
  { apply Forall_forall. intros p Hp. eapply Forall_forall in FF; [|exact Hp]. eapply Forall_forall in FP'; [|exact Hp].
    apply pair_le_iff in FF. cbn [fst] in FF. lia. }
  destruct (dedup_ok (renamed ss (v, s)) [] (NoDup_nil _)) as [D1 D2]. destruct (dedup_ok (renamed ss (v, s)) acc ND) as [D3 D4].
  destruct (N.ltb_spec cur v) as [LT|GEV].
  - assert (EV : v = (cur + 1)%N).
    { destruct (N.eq_dec v (cur + 1)) as [|NE]; [assumption|]. destruct (CV (cur + 1)%N) as (s' & [E|I]); [lia|injection E as -> _; lia|].
      eapply Forall_forall in GE; [|exact I]. cbn in GE. lia. }
    destruct (IH v (dedup [] (renamed ss (v, s))) SP' GE) as [L G]; [|lia|exact D1|].
    { intros v' Hv'. destruct (CV v') as (s' & [E|I]); [lia|injection E as -> _; lia|]. now exists s'. }
    split. { cbn [length]. lia. }
    intros [|k] g H; cbn [nth_error] in H.
    + injection H as <-. split; [exact ND|]. intros w. split; [now left|]. intros [[_ H]|(s' & I & _)]; [exact H|]. exfalso.
      destruct I as [E|I]; [injection E; intros; lia|]. eapply Forall_forall in GE; [|exact I]. cbn [fst] in GE. lia.
    + destruct (G k g H) as [A B]. split; [exact A|]. intros w. rewrite B.
      replace (cur + N.of_nat (S k))%N with (v + N.of_nat k)%N by lia. rewrite D2. split.
      * intros [[-> [[]|H2]]|(s' & I & H2)]; right; [exists s|exists s'; split; [now right|exact H2]].
        rewrite N.add_0_r. split; [now left|exact H2].
      * intros [[? _]|(s' & [E|I] & H2)]; [lia| |right; now exists s'].
        left. injection E as E1 E2. assert (k = 0) by lia. subst k s'. split; [reflexivity|]. right. rewrite N.add_0_r in H2. exact H2.
  - assert (EV : v = cur) by lia. subst v.
    destruct (IH cur (dedup acc (renamed ss (cur, s))) SP' GE) as [L G]; [|lia|exact D3|].
    { intros v' Hv'. destruct (CV v') as (s' & [E|I]); [lia|injection E as -> _; lia|]. now exists s'. }
    split; [exact L|]. intros k g H. destruct (G k g H) as [A B]. split; [exact A|]. intros w. rewrite B, D4. split.
    + intros [[-> [H2|H2]]|(s' & I & H2)]; [now left| |right; exists s'; split; [now right|exact H2]].
      right. exists s. rewrite N.add_0_r. split; [now left|exact H2].
    + intros [[-> H2]|(s' & [E|I] & H2)]; [left; split; [reflexivity|now left]| |right; now exists s'].
      injection E as E1 E2. assert (k = 0) by lia. subst k s'. left. split; [reflexivity|]. right. rewrite N.add_0_r in H2. exact H2.
Qed.

Lemma renamed_edge ss v w : Forall shard_ok ss ->
  some_edge ss v w <-> exists s, In (v, s) (node_shard (map sh_ids ss)) /\ In w (renamed ss (v, s)).
Proof.
  intros OK. destruct (node_shard_ok (map sh_ids ss)) as (_ & IN & _). split.
  - intros (sh & I & j & l & i & E1 & E2 & Hi & E3). apply In_nth_error in I. destruct I as (s & Es). exists s. split.
    + apply IN. exists (sh_ids sh). split; [now apply map_nth_error|eapply nth_error_In; eauto].
    + unfold renamed, local. cbn [fst snd]. rewrite Es.
      assert (O : shard_ok sh) by (eapply Forall_forall in OK; [exact OK|eapply nth_error_In; eauto]).
      destruct (find_list_nth v (sh_ids sh) (so_sorted sh O) (sh_lists sh) (so_length sh O)) as [F _].
      rewrite (F l) by (now exists j). apply in_map_iff. exists i. split; [|exact Hi]. now apply nth_error_nth.
  - intros (s & I & W). apply IN in I. destruct I as (ids & E & Iv). unfold renamed, local in W. cbn [fst snd] in W.
    destruct (nth_error ss s) as [sh|] eqn:Es; [|destruct W].
    rewrite (map_nth_error sh_ids _ _ Es) in E. injection E as <-.
    assert (O : shard_ok sh) by (eapply Forall_forall in OK; [exact OK|eapply nth_error_In; eauto]).
    destruct (find_list_nth v (sh_ids sh) (so_sorted sh O) (sh_lists sh) (so_length sh O)) as [_ F].
    destruct (F Iv) as (j & E1 & E2). apply in_map_iff in W. destruct W as (i & <- & Hi).
    exists sh. split; [eapply nth_error_In; eauto|]. exists j, (find_list v (sh_ids sh) (sh_lists sh)), i.
    split; [exact E1|]. split; [exact E2|]. split; [exact Hi|].
    pose proof (so_lists sh O) as L. eapply Forall_forall in L; [|eapply nth_error_In; exact E2]. destruct L as [_ L].
    eapply Forall_forall in L; [|exact Hi]. apply nth_error_nth'. lia.
Qed.

(** * Headers *)

Lemma read_idmaps_ok M ss : Forall shard_ok ss -> Forall (fun s => u32_ok (N.of_nat (length (sh_ids s))) /\ (4 * N.of_nat (length (sh_ids s)) <= M)%N) ss ->
  read_idmaps M (map (fun s => ids_file (sh_ids s)) ss) = Some (map sh_ids ss).
Proof.
  induction 1 as [|s ss O OK IH]; intros F; [reflexivity|]. inversion F as [|? ? [U HM] F']; subst. cbn [map read_idmaps].
  rewrite read_idmap_ok by (auto; apply (so_ids s O)). cbn [bind]. rewrite (IH F'). reflexivity.
Qed.
Lemma open_ok rcs ss : exists rs, open_readers rcs (map shard_file ss) = Some rs /\ Forall2 (fun r s => ahead r (shard_file s)) rs ss.
Proof.
  induction ss as [|s ss (rs & E & F)]; [exists []; split; [reflexivity|constructor]|]. cbn [map open_readers].
  destruct (ahead_new rcs (shard_file s)) as (r & -> & A). cbn [bind]. rewrite E. cbn [bind]. exists (r :: rs). split; [reflexivity|now constructor].
Qed.
Lemma skip_ok ss rs : Forall2 (fun r s => ahead r (shard_file s)) rs ss -> exists rs', skip_widths rs = Some rs' /\
  Forall2 (fun r s => ahead r (le_enc 4 (sh_start s) ++ le_enc 8 0 ++ concat (map list_bytes (sh_lists s)))) rs' ss.
Proof.
  induction 1 as [|r s rs ss A F (rs' & E & F')]; [exists []; split; [reflexivity|constructor]|]. cbn [skip_widths].
  unfold shard_file, graph_file in A. destruct (ahead_read _ _ _ 8 A (le_enc_length _ _)) as (r1 & -> & A1).
  destruct (ahead_skip32 _ _ _ A1) as (y & r2 & -> & A2). rewrite E. cbn [bind]. exists (r2 :: rs'). split; [reflexivity|now constructor].
Qed.
Lemma medoids_ok ss : Forall shard_ok ss -> Forall (fun s => u32_ok (N.of_nat (length (sh_ids s)))) ss -> forall rs,
  Forall2 (fun r s => ahead r (le_enc 4 (sh_start s) ++ le_enc 8 0 ++ concat (map list_bytes (sh_lists s)))) rs ss ->
  exists rs' ops, read_medoids (map sh_ids ss) rs = LOk (rs', ops) /\ Forall2 (fun r s => ahead r (concat (map list_bytes (sh_lists s)))) rs' ss /\
    (forall pre s, ss = pre ++ [s] -> ops = [WWrite (le_enc 4 (nth (N.to_nat (sh_start s)) (sh_ids s) 0%N))]).
Proof.
  induction 1 as [|s ss O OK IH]; intros U rs F.
  { inversion F; subst. exists [], []. split; [reflexivity|]. split; [constructor|]. intros [|] ? ?; discriminate. }
  inversion U as [|? ? U1 U']; subst. inversion F as [|r ? rs0 ? A F']; subst. cbn [map read_medoids].
  pose proof (so_start s O) as SS.
  destruct (ahead_u32 _ _ _ A) as (r1 & -> & A1). { unfold u32_ok in *. lia. }
  destruct (ahead_read _ _ _ 8 A1 (le_enc_length _ _)) as (r2 & -> & A2).
  destruct (nth_error (sh_ids s) (N.to_nat (sh_start s))) as [v|] eqn:E; [|apply nth_error_None in E; lia].
  destruct (IH U' rs0 F') as (rs' & ops & E2 & F2 & LO). rewrite E2. cbn [lbind]. eexists (r2 :: rs'), _. split; [reflexivity|].
  split; [now constructor|]. intros pre s' EQ. destruct ss as [|s2 ss2].
  - cbn [map]. destruct pre as [|p pre]; [|destruct pre; discriminate]. injection EQ as <-. now rewrite (nth_error_nth _ _ 0%N E).
  - cbn [map]. destruct pre as [|p pre]; [discriminate|]. injection EQ as <- EQ. now apply (LO pre).
Qed.

Lemma fold_max_lt n l : (0 < n)%N -> (forall v, In v l -> (v < n)%N) -> (fold_right N.max 0 l < n)%N.
Proof. intros Hn. induction l as [|a l IH]; intros H; cbn [fold_right]; [exact Hn|]. pose proof (H a (or_introl eq_refl)). specialize (IH (fun v Hv => H v (or_intror Hv))). lia. Qed.
Lemma fold_max_ge v l : In v l -> (v <= fold_right N.max 0 l)%N.
Proof. induction l as [|a l IH]; intros []; cbn [fold_right]; [subst; lia|]. specialize (IH H). lia. Qed.

Lemma out_lists_bytes ls : concat (concat (map out_list ls)) = lists_bytes ls.
Proof.
  unfold lists_bytes. induction ls as [|l ls IH]; [reflexivity|]. cbn [map concat]. rewrite concat_app, IH. f_equal.
  unfold out_list, list_bytes. cbn [concat]. now rewrite app_nil_r.
Qed.
Lemma out_size_ok ls : out_size ls = N.of_nat (4 * (length ls + length (concat ls))).
Proof.
  induction ls as [|l ls IH]; [reflexivity|]. cbn [out_size fold_right]. fold (out_size ls). rewrite IH. cbn [length concat]. rewrite app_length. lia.
Qed.

Lemma chosen_merged ss maxd l g v : chosen maxd l g -> NoDup g -> (forall w, In w g <-> some_edge ss v w) ->
  NoDup l /\ (forall w, In w l -> some_edge ss v w) /\
  exists all, NoDup all /\ (forall w, In w all <-> some_edge ss v w) /\ length l = Nat.min (N.to_nat maxd) (length all).
Proof.
  intros (g' & P & ->) ND H.
  assert (ND' : NoDup g') by (eapply Permutation_NoDup; [symmetry; exact P|exact ND]).
  set (k := N.to_nat (N.min (N.of_nat (length g')) maxd)). split.
  { rewrite <- (firstn_skipn k g') in ND'. apply NoDup_app_inv in ND'. tauto. }
  split.
  { intros w Hw. apply H. eapply Permutation_in; [exact P|]. rewrite <- (firstn_skipn k g'). apply in_or_app. now left. }
  exists g. split; [exact ND|]. split; [exact H|]. rewrite firstn_length, (Permutation_length P). unfold k. rewrite (Permutation_length P). lia.
Qed.

Lemma merge_shards_ok {Rng} (shuffle : Rng -> list N -> Rng * list N) rcs M rng pre last n maxd :
  let ss := pre ++ [last] in
  (forall g l, Permutation (snd (shuffle g l)) l) -> Forall shard_ok ss -> covers ss n -> (N.of_nat n < 2 ^ 32)%N ->
  Forall (fun s => (4 * N.of_nat (length (sh_ids s)) <= M)%N) ss ->
  exists ops lists, merge_shards shuffle rcs M rng (map (fun s => ids_file (sh_ids s)) ss) (map shard_file ss) maxd = LOk ops /\
    length lists = n /\ merged ss maxd lists /\
    forall cs, 0 < cs -> let f := graph_file (isize lists) maxd (nth (N.to_nat (sh_start last)) (sh_ids last) 0%N) 0 lists in
      saved cs ops = f /\ isize lists = N.of_nat (length f).
Proof.
  intros ss SH OK CV HN HM. unfold merge_shards.
  assert (IDS : forall s v, In s ss -> In v (sh_ids s) -> (v < N.of_nat n)%N) by (intros s v Is Iv; apply CV; now exists s).
  assert (UL : Forall (fun s => u32_ok (N.of_nat (length (sh_ids s)))) ss).
  { apply Forall_forall. intros s Hs. assert (O : shard_ok s) by (eapply Forall_forall in OK; eauto).
    assert (L := sorted_length (sh_ids s) (N.of_nat n) (so_sorted s O)). unfold u32_ok. change (pow256 4) with (2 ^ 32)%N.
    enough (N.of_nat (length (sh_ids s)) <= N.of_nat n)%N by lia. apply L. apply Forall_forall. intros v Hv. eapply IDS; eauto. }
  rewrite read_idmaps_ok; [|exact OK|]. 2:{ apply Forall_forall. intros s Hs. split; [eapply Forall_forall in UL|eapply Forall_forall in HM]; eauto. }
  cbn [lopt lbind].
  assert (IC : forall v, In v (concat (map sh_ids ss)) <-> (v < N.of_nat n)%N).
  { intros v. etransitivity; [|apply CV]. rewrite in_concat. split.
    - intros (ids & I & Iv). apply in_map_iff in I. destruct I as (s & <- & I). now exists s.
    - intros (s & I & Iv). exists (sh_ids s). split; [now apply in_map|exact Iv]. }
  assert (NP : (0 < N.of_nat n)%N).
  { assert (O : shard_ok last) by (eapply Forall_forall in OK; [exact OK|apply in_or_app; right; now left]).
    pose proof (so_start last O). destruct (sh_ids last) as [|v ids] eqn:E; [cbn in H; lia|].
    enough (v < N.of_nat n)%N by lia. apply (IDS last); [apply in_or_app; right; now left|rewrite E; now left]. }
  set (top := fold_right N.max 0%N (concat (map sh_ids ss))).
  assert (TOP : (top + 1 = N.of_nat n)%N).
  { assert (top < N.of_nat n)%N by (apply fold_max_lt; [exact NP|intros v Hv; now apply IC]).
    assert (N.of_nat n - 1 <= top)%N by (apply fold_max_ge, IC; lia). lia. }
  rewrite TOP. destruct (N.leb_spec (2 ^ 32) (N.of_nat n)) as [|_]; [lia|].
  destruct (open_ok rcs ss) as (rs0 & -> & F0). cbn [lopt lbind].
  destruct (skip_ok ss rs0 F0) as (rs1 & -> & F1). cbn [lopt lbind].
  destruct (medoids_ok ss OK UL rs1 F1) as (rs2 & med & -> & F2 & LM). cbn [lbind].
  rewrite (LM pre last eq_refl). set (st := nth (N.to_nat (sh_start last)) (sh_ids last) 0%N).
  destruct (node_shard_ok (map sh_ids ss)) as (SP & IN & FI).
  set (m0 := mkms _ _ _ _ _ _ _).
  assert (FP : Forall (fun p => (0 <= fst p < N.of_nat n)%N /\ snd p < length ss) (node_shard (map sh_ids ss))).
  { apply Forall_forall. intros [v s] Hp. apply IN in Hp. destruct Hp as (ids & E & Iv). cbn [fst snd].
    assert (SL : s < length ss) by (apply nth_error_lt in E; now rewrite map_length in E). split; [|exact SL]. split; [lia|].
    destruct (nth_error ss s) as [sh|] eqn:Es; [|apply nth_error_None in Es; lia]. rewrite (map_nth_error sh_ids _ _ Es) in E. injection E as <-.
    eapply IDS; [eapply nth_error_In; eauto|exact Iv]. }
  assert (RA : readers_at ss (ms_readers m0) (node_shard (map sh_ids ss))).
  { cbn [m0 ms_readers]. split; [eapply Forall2_length; eauto|]. intros s r Er.
    destruct (nth_error ss s) as [sh|] eqn:Es.
    - assert (A : ahead r (concat (map list_bytes (sh_lists sh)))).
      { clear -F2 Er Es. revert s Er Es. induction F2 as [|r0 s0 rs ss A F IH]; intros [|s] Er Es; cbn in Er, Es; try discriminate; [congruence|eauto]. }
      assert (O : shard_ok sh) by (eapply Forall_forall in OK; [exact OK|eapply nth_error_In; eauto]).
      unfold to_come. rewrite (FI s (sh_ids sh)) by (auto using map_nth_error, so_sorted).
      unfold pairs_of. rewrite (map_map (fun v => (v, s)) (local ss)).
      replace (map (fun v => local ss (v, s)) (sh_ids sh)) with (sh_lists sh); [exact A|].
      rewrite <- (map_find_list (sh_ids sh) (so_sorted sh O) (sh_lists sh) (so_length sh O)) at 1.
      apply map_ext. intros v. unfold local. cbn [fst snd]. now rewrite Es.
    - apply nth_error_None in Es. apply nth_error_lt in Er. apply Forall2_length in F2. lia. }
  destruct (merge_loop_ok shuffle SH ss (N.of_nat n) maxd OK IDS (node_shard (map sh_ids ss)) m0 SP) as (m' & ls & EL & (rng' & f' & EE) & F).
  { eapply Forall_impl; [|exact FP]. cbn. tauto. } { exact RA. } { intros x. reflexivity. }
  rewrite EL. cbn [lbind]. rewrite EE. cbn [m0 ms_cur ms_final ms_ops ms_size] in *.
  destruct (groups_ok ss (N.of_nat n) (node_shard (map sh_ids ss)) 0 [] SP) as [LG G]; [|  |exact NP|constructor|].
  { eapply Forall_impl; [|exact FP]. cbn. tauto. }
  { intros v Hv. destruct (proj2 (CV v)) as (sh & I & Iv); [lia|]. apply In_nth_error in I. destruct I as (s & Es). exists s. apply IN.
    exists (sh_ids sh). split; [now apply map_nth_error|exact Iv]. }
  pose proof (Forall2_length _ _ _ F) as LF.
  eexists _, ls. split; [reflexivity|]. split; [lia|]. split.
  - intros v l Hl. destruct (nth_error (groups ss 0 [] (node_shard (map sh_ids ss))) v) as [g|] eqn:Eg.
    2:{ apply nth_error_None in Eg. apply nth_error_lt in Hl. lia. }
    destruct (G v g Eg) as [ND GI]. rewrite N.add_0_l in GI. apply (chosen_merged ss maxd l g); [|exact ND|].
    + clear -F Hl Eg. revert v Hl Eg. induction F as [|? ? ? ? C F IH]; intros [|v] Hl Eg; cbn in Hl, Eg; try discriminate; [congruence|eauto].
    + intros w. rewrite renamed_edge by exact OK. rewrite GI. split; [intros [[_ []]|H]; exact H|]. intros H. now right.
  - intros cs C. cbv zeta. set (sz := (24 + out_size ls)%N).
    assert (SZ : sz = isize ls) by (unfold sz, isize; rewrite out_size_ok; lia).
    split.
    + transitivity (saved cs (opw ([le_enc 8 24; le_enc 4 maxd; le_enc 4 st; le_enc 8 0] ++ concat (map out_list ls)) ++ [] ++ WReset :: opw [le_enc 8 sz] ++ [])).
      { rewrite opw_app, <- !app_assoc. reflexivity. }
      rewrite saved_update; [|exact C|intros o []|intros o []]. rewrite concat_app, out_lists_bytes. cbn [concat]. rewrite !app_nil_r, <- !app_assoc.
      rewrite put0_over by now rewrite !le_enc_length. rewrite SZ. unfold graph_file. reflexivity.
    + unfold graph_file. fold (lists_bytes ls). rewrite !app_length, !le_enc_length, lists_bytes_length. unfold isize. lia.
Qed.

Lemma load_merged maxd start lists : u32_ok maxd -> u32_ok start -> Forall (fun l => (N.of_nat (length l) <= maxd)%N /\ Forall u32_ok l) lists ->
  (24 + 4 * (N.of_nat (length lists) * (1 + maxd)) < 2 ^ 64)%N ->
  load_graph (graph_file (isize lists) maxd start 0 lists) = LOk (mklg (length lists) maxd 0 lists).
Proof.
  intros U1 U2 F L.
  assert (CL : (N.of_nat (length (concat lists)) <= N.of_nat (length lists) * maxd)%N).
  { clear -F. induction F as [|l ls [H _] F IH]; [cbn; lia|]. cbn [concat length]. rewrite app_length. nia. }
  assert (OK : graph_ok start 0 (Some maxd) lists).
  { constructor; auto; [reflexivity| |].
    - eapply Forall_impl; [|exact F]. intros l [H1 H2]. split; [unfold u32_ok in *; lia|exact H2].
    - unfold u64_ok. change (pow256 8) with (2 ^ 64)%N. nia. }
  destruct (c42_round start 0 (Some maxd) lists OK) as (w & size & ES & E1 & E2 & E3).
  { intros l Hl. eapply Forall_forall in F; [|exact Hl]. cbn. tauto. }
  cbn [saved_degree] in *. rewrite E2 in E3. replace (isize lists) with size; [exact E3|].
  rewrite E1, E2. unfold graph_file. fold (lists_bytes lists). rewrite !app_length, !le_enc_length, lists_bytes_length. unfold isize. lia.
Qed.
