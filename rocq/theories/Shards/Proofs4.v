(** Lemmas about merging the graphs of the shards: the main loop and the file. *)
From Coq Require Import List NArith ZArith Bool Permutation Sorting Lia ZifyNat ZifyN ZifyBool.
From Verif.Lib Require Import Base Lists Bytes.
From Verif.Disk Require Import Model Spec Proofs ProofsLayout Props.
From Verif.GraphFile Require Import Model Spec Proofs ProofsMain.
From Verif.Shards Require Import Model Spec Proofs Proofs2 Proofs3.
Import ListNotations.
Local Arguments le_enc : simpl never.

(** The list of a node in a shard. *)
Fixpoint find_list (v : N) (ids : list N) (lists : list (list N)) : list N :=
  match ids, lists with
  | i :: ids', l :: lists' => if (i =? v)%N then l else find_list v ids' lists'
  | _, _ => []
  end.
Definition local (ss : list shard) (p : N * nat) : list N :=
  match nth_error ss (snd p) with Some s => find_list (fst p) (sh_ids s) (sh_lists s) | None => [] end.
Definition renamed (ss : list shard) (p : N * nat) : list N :=
  match nth_error ss (snd p) with Some s => map (fun i => nth (N.to_nat i) (sh_ids s) 0%N) (local ss p) | None => [] end.
Lemma find_list_nth v ids : StronglySorted N.lt ids -> forall lists, length lists = length ids ->
  (forall l, (exists j, nth_error ids j = Some v /\ nth_error lists j = Some l) -> find_list v ids lists = l) /\
  (In v ids -> exists j, nth_error ids j = Some v /\ nth_error lists j = Some (find_list v ids lists)).
Proof.
  induction 1 as [|i ids SI IH F]; intros [|l0 lists] L; try discriminate; cbn [find_list].
  - split; [intros l ([|j] & H & _); discriminate|intros []].
  - injection L as L. destruct (IH lists L) as [A B]. destruct (N.eqb_spec i v) as [->|NE].
    + split; [|intros _; now exists 0]. intros l ([|j] & H1 & H2); cbn in H1, H2; [now injection H2|].
      apply nth_error_In in H1. eapply Forall_forall in F; [|exact H1]. lia.
    + split; [intros l ([|j] & H1 & H2); cbn in H1, H2; [congruence|]; apply A; now exists j|].
      intros [|I]; [congruence|]. destruct (B I) as (j & H1 & H2). now exists (S j).
Qed.
Lemma find_list_forall (Q : list N -> Prop) v ids : Q [] -> forall lists, Forall Q lists -> Q (find_list v ids lists).
Proof.
  intros Q0. induction ids as [|i ids IH]; intros [|l lists] F; cbn [find_list]; auto. inversion F; subst. destruct (i =? v)%N; auto.
Qed.
Lemma map_find_list ids : StronglySorted N.lt ids -> forall lists, length lists = length ids ->
  map (fun v => find_list v ids lists) ids = lists.
Proof.
  induction 1 as [|i ids SI IH F]; intros [|l0 lists] L; try discriminate; [reflexivity|]. injection L as L. cbn [map find_list].
  rewrite N.eqb_refl. f_equal. etransitivity; [|apply (IH lists L)]. apply map_ext_in. intros v Hv.
  eapply Forall_forall in F; [|exact Hv]. destruct (N.eqb_spec i v); [lia|reflexivity].
Qed.

(** * One pair *)

Definition to_come (ss : list shard) (s : nat) (P : list (N * nat)) : bytes :=
  concat (map list_bytes (map (local ss) (filter (fun p => snd p =? s) P))).
Definition readers_at (ss : list shard) (rs : list creader) (P : list (N * nat)) : Prop :=
  length rs = length ss /\ forall s r, nth_error rs s = Some r -> ahead r (to_come ss s P).
Lemma set_reader_length r rs : forall s, length (set_reader s r rs) = length rs.
Proof. induction rs as [|r' rs IH]; intros [|s]; cbn; auto. Qed.
Lemma set_reader_nth r rs : forall s s', s < length rs -> nth_error (set_reader s r rs) s' = if s' =? s then Some r else nth_error rs s'.
Proof.
  induction rs as [|r0 rs IH]; intros [|s] [|s'] H; cbn in *; auto; try lia. apply IH. lia.
Qed.
Lemma readers_step ss rs v s P r r' : readers_at ss rs ((v, s) :: P) -> nth_error rs s = Some r ->
  ahead r' (to_come ss s P) -> readers_at ss (set_reader s r' rs) P.
Proof.
  intros [L H] E A. assert (SL : s < length rs) by (now apply nth_error_lt in E). split; [now rewrite set_reader_length|].
  intros s0 r0. rewrite set_reader_nth by exact SL. destruct (Nat.eqb_spec s0 s) as [->|NE]; [intros [= <-]; exact A|].
  intros E0. specialize (H s0 r0 E0). unfold to_come in *. cbn [filter snd] in H. destruct (Nat.eqb_spec s s0); [congruence|exact H].
Qed.

Section merge.
Context {Rng : Type} (shuffle : Rng -> list N -> Rng * list N).
Context (shuffles : forall g l, Permutation (snd (shuffle g l)) l).
Context (ss : list shard) (nodes maxd : N).
Context (OK : Forall shard_ok ss).
Context (IDS : forall s v, In s ss -> In v (sh_ids s) -> (v < nodes)%N).

Lemma local_ok p : u32_ok (N.of_nat (length (local ss p))) /\
  forall s, nth_error ss (snd p) = Some s -> Forall (fun i => (i < N.of_nat (length (sh_ids s)))%N) (local ss p).
Proof.
  unfold local. destruct (nth_error ss (snd p)) as [s|] eqn:E; [|split; [reflexivity|discriminate]].
  assert (O : shard_ok s) by (eapply Forall_forall in OK; [exact OK|eapply nth_error_In; eauto]).
  assert (X := find_list_forall (fun l => u32_ok (N.of_nat (length l)) /\ Forall (fun i => (i < N.of_nat (length (sh_ids s)))%N) l)
    (fst p) (sh_ids s) (conj eq_refl (Forall_nil _)) (sh_lists s) (so_lists s O)).
  split; [apply X|]. intros s' [= <-]. apply X.
Qed.

(** Reading the list of a pair and renaming it. *)
Lemma read_pair v s P m : readers_at ss (ms_readers (Rng := Rng) m) ((v, s) :: P) -> s < length ss -> seen_ok (ms_seen m) (ms_final m) -> (ms_cur m <? v)%N = false ->
  exists seen' rs', merge_step shuffle (map sh_ids ss) nodes maxd (v, s) m =
    LOk (mkms (ms_cur m) seen' (dedup (ms_final m) (renamed ss (v, s))) (ms_rng m) rs' (ms_ops m) (ms_size m)) /\
    seen_ok seen' (dedup (ms_final m) (renamed ss (v, s))) /\ readers_at ss rs' P.
Proof.
  intros RA SL SO CV. unfold merge_step. rewrite CV. pose proof RA as [LR H].
  destruct (nth_error (ms_readers m) s) as [r|] eqn:ER; [|apply nth_error_None in ER; lia].
  destruct (nth_error ss s) as [sh|] eqn:ES; [|apply nth_error_None in ES; lia].
  rewrite (map_nth_error sh_ids _ _ ES). specialize (H s r ER).
  unfold to_come in H. cbn [filter snd] in H. rewrite Nat.eqb_refl in H. cbn [map concat] in H. fold (to_come ss s P) in H.
  destruct (local_ok (v, s)) as [LU LI]. specialize (LI sh ES).
  assert (IO : Forall (fun x => (x < nodes)%N) (sh_ids sh)).
  { apply Forall_forall. intros x Hx. eapply IDS; [eapply nth_error_In; eauto|exact Hx]. }
  unfold list_bytes in H. rewrite <- app_assoc in H. destruct (ahead_u32 _ _ _ H LU) as (r1 & E1 & A1). rewrite E1.
  assert (RN : renamed ss (v, s) = map (fun i => nth (N.to_nat i) (sh_ids sh) 0%N) (local ss (v, s))) by (unfold renamed; cbn [snd]; now rewrite ES).
  destruct (N.eqb_spec (N.of_nat (length (local ss (v, s)))) 0) as [Z|Z].
  - assert (LE : local ss (v, s) = []) by (destruct (local ss (v, s)); [reflexivity|cbn in Z; lia]).
    rewrite RN, LE in *. cbn [map concat app dedup fold_left] in *. eexists _, _. split; [reflexivity|]. split; [exact SO|].
    eapply readers_step; eauto.
  - destruct (ahead_read _ _ _ (N.to_nat (N.of_nat (length (local ss (v, s)))) * 4) A1) as (r2 & E2 & A2).
    { rewrite (concat_uniform_length 4), map_length; [lia|]. apply Forall_map, Forall_forall. intros; apply le_enc_length. }
    rewrite E2. assert (DE : dec_u32s (N.to_nat (N.of_nat (length (local ss (v, s))))) (concat (map (le_enc 4) (local ss (v, s)))) = local ss (v, s)).
    { rewrite Nat2N.id, <- (app_nil_r (concat _)). apply dec_enc_u32s. eapply Forall_impl; [|exact LI]. intros i Hi.
      assert (O : shard_ok sh) by (eapply Forall_forall in OK; [exact OK|eapply nth_error_In; eauto]).
      pose proof (so_sorted sh O) as S1. pose proof (so_ids sh O) as S2. 
      assert (B : u32_ok (N.of_nat (length (sh_ids sh)) - 1)).
      { assert (G : forall l b, StronglySorted N.lt l -> Forall (fun x => (b <= x)%N) l -> Forall u32_ok l -> l = [] \/ u32_ok (b + N.of_nat (length l) - 1)).
        { clear. intros l. induction l as [|x l IH]; intros b S1 B U; [now left|right]. inversion S1; subst. inversion B; subst. inversion U; subst.
          destruct (IH (x + 1)%N) as [->|X]; auto.
          - eapply Forall_impl; [|exact H2]. intros; cbn in *; lia.
          - unfold u32_ok in *. cbn [length]. lia.
          - unfold u32_ok in *. cbn [length]. lia. }
        destruct (G (sh_ids sh) 0%N S1) as [X|X]; auto.
        - apply Forall_forall. intros; lia.
        - rewrite X. reflexivity. }
      unfold u32_ok in *. lia. }
    rewrite DE. destruct (rename_ok (sh_ids sh) nodes IO (local ss (v, s)) (ms_seen m) (ms_final m) LI SO) as (seen' & E3 & SO').
    rewrite E3, <- RN in *. eexists _, _. split; [reflexivity|]. split; [exact SO'|]. eapply readers_step; eauto.
Qed.

(** * The loop *)

Fixpoint groups (cur : N) (acc : list N) (P : list (N * nat)) : list (list N) :=
  match P with
  | [] => [acc]
  | p :: P' => if (cur <? fst p)%N then acc :: groups (fst p) (dedup [] (renamed ss p)) P' else groups cur (dedup acc (renamed ss p)) P'
  end.
Definition chosen (l g : list N) : Prop := exists g', Permutation g' g /\ l = firstn (N.to_nat (N.min (N.of_nat (length g')) maxd)) g'.
Definition out_list (l : list N) : list bytes := [le_enc 4 (N.of_nat (length l)); concat (map (le_enc 4) l)].
Definition out_size (ls : list (list N)) : N := fold_right (fun l n => 4 + N.of_nat (length l) * 4 + n)%N 0%N ls.

Lemma emit_ok rng final ops size : exists rng' final' l, emit shuffle maxd rng final ops size =
  (rng', final', ops ++ opw (out_list l), (size + (4 + N.of_nat (length l) * 4))%N) /\ Permutation final' final /\ chosen l final.
Proof.
  unfold emit. pose proof (shuffles rng final) as P. destruct (shuffle rng final) as [rng' final']. cbn [snd] in P.
  set (l := firstn (N.to_nat (N.min (N.of_nat (length final')) maxd)) final'). exists rng', final', l.
  assert (LL : N.of_nat (length l) = N.min (N.of_nat (length final')) maxd) by (unfold l; rewrite firstn_length; lia).
  split; [|split; [exact P|exists final'; split; [exact P|reflexivity]]]. rewrite <- LL. fold l.
  replace (N.to_nat (N.of_nat (length l))) with (length l) by lia.
  replace (firstn (length l) final') with l by (rewrite <- (Nat2N.id (length l)), LL; reflexivity). reflexivity.
Qed.

Lemma merge_loop_ok : forall P m, StronglySorted pair_le P -> Forall (fun p => (ms_cur m <= fst p)%N /\ snd p < length ss) P ->
  readers_at ss (ms_readers m) P -> seen_ok (ms_seen m) (ms_final m) ->
  exists m' ls, merge_loop shuffle (map sh_ids ss) nodes maxd P m = LOk m' /\
    (exists rng final, emit shuffle maxd (ms_rng m') (ms_final m') (ms_ops m') (ms_size m') =
      (rng, final, ms_ops m ++ opw (concat (map out_list ls)), (ms_size m + out_size ls)%N)) /\
    Forall2 chosen ls (groups (ms_cur m) (ms_final m) P).
Proof.
  induction P as [|[v s] P IH]; intros m SP FP RA SO; cbn [merge_loop groups].
  { destruct (emit_ok (ms_rng m) (ms_final m) (ms_ops m) (ms_size m)) as (rng' & f' & l & E & _ & C).
    exists m, [l]. split; [reflexivity|]. split; [|now repeat constructor]. exists rng', f'. rewrite E. cbn [map concat out_size fold_right].
    rewrite app_nil_r, N.add_0_r. reflexivity. }
  inversion SP as [|? ? SP' FF]; subst. inversion FP as [|? ? [FV FS] FP']; subst. cbn [fst snd] in *.
  assert (GE : Forall (fun p => (v <= fst p)%N /\ snd p < length ss) P).
  { apply Forall_forall. intros p Hp. split; [|eapply Forall_forall in FP'; [|exact Hp]; tauto].
    eapply Forall_forall in FF; [|exact Hp]. apply pair_le_iff in FF. cbn [fst] in FF. lia. }
  destruct (N.ltb_spec (ms_cur m) v) as [LT|GEV].
  - destruct (emit_ok (ms_rng m) (ms_final m) (ms_ops m) (ms_size m)) as (rng' & f' & l & E & PF & C).
    set (m1 := mkms v (fold_left (fun seen x => set_seen x false seen) f' (ms_seen m)) [] rng' (ms_readers m)
      (ms_ops m ++ opw (out_list l)) (ms_size m + (4 + N.of_nat (length l) * 4))%N).
    assert (SO1 : seen_ok (ms_seen m1) (ms_final m1)) by (eapply unsee_all; [exact SO|exact PF]).
    destruct (read_pair v s P m1 RA FS SO1) as (seen' & rs' & E1 & SO' & RA'); [cbn; lia|].
    assert (EM : merge_step shuffle (map sh_ids ss) nodes maxd (v, s) m = merge_step shuffle (map sh_ids ss) nodes maxd (v, s) m1).
    { unfold merge_step at 1 2. replace (ms_cur m1 <? v)%N with false by (cbn; lia).
      destruct (N.ltb_spec (ms_cur m) v) as [_|]; [|lia]. rewrite E. reflexivity. }
    rewrite EM, E1. cbn [lbind].
    destruct (IH (mkms (ms_cur m1) seen' (dedup (ms_final m1) (renamed ss (v, s))) (ms_rng m1) rs' (ms_ops m1) (ms_size m1)) SP' GE RA' SO')
      as (m' & ls & EL & (rng2 & f2 & EE) & F2).
    exists m', (l :: ls). split; [exact EL|]. split.
    + exists rng2, f2. rewrite EE. cbn [map concat out_size fold_right]. f_equal; [|unfold out_size; cbn; lia].
      f_equal. change (ms_ops m1) with (ms_ops m ++ opw (out_list l)). rewrite opw_app, app_assoc. reflexivity.
    + constructor; [exact C|exact F2].
  - destruct (read_pair v s P m RA FS SO) as (seen' & rs' & E1 & SO' & RA'); [lia|]. rewrite E1. cbn [lbind].
    destruct (IH (mkms (ms_cur m) seen' (dedup (ms_final m) (renamed ss (v, s))) (ms_rng m) rs' (ms_ops m) (ms_size m)) SP' FP' RA' SO')
      as (m' & ls & EL & EE & F2).
    exists m', ls. split; [exact EL|]. split; [exact EE|exact F2].
Qed.
End merge.
