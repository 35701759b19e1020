(** C112: validated runbooks. *)
From Coq Require Import String ZArith List PeanoNat Bool Lia Arith Permutation Sorted.
From Verif.Runbook Require Import Model Spec Proofs Proofs2.
Import ListNotations.
Local Open Scope nat_scope.
Local Open Scope list_scope.

(** Stages are accepted exactly if each of them makes sense for the tags present at that time; the
    number of points is then the largest number of tags present at any time (or the one given if
    larger), the tag the largest inserted one.  No assertion fails. *)
Theorem C112_validated {P} (stages : list (stage P)) (m : nat) :
  Forall proper stages ->
  match runbook_new stages m with
  | Done b => valid stages /\ b_stages b = stages /\ peak stages m (b_max_points b) /\ greatest (inserted stages) (b_max_tag b)
  | Err => ~ valid stages
  | Panic => False
  end.
Proof.
  intros HP. unfold runbook_new. assert (HI : Inv v_new (fun _ => False)) by (repeat split; try apply Nat.le_refl; [intros (r & [] & _)|intros []]).
  assert (G0 : greatest (fun _ => False) (v_max_tag v_new)) by (intros t []).
  pose proof (run_ok stages v_new (fun _ => False) (fun _ => False) HI HP G0) as R. destruct (run_stages _ _ _ v_new stages) as [v| |]; cbn [bind]; [|exact R|exact R].
  destruct R as (V & (P1 & P2 & P3) & G). cbn [b_stages b_max_points b_max_tag]. split; [exact V|]. split; [reflexivity|]. split.
  - split; [lia|]. split; [intros b a k E C; specialize (P2 b a k E C); lia|]. destruct (Nat.max_spec m (v_max_active v)) as [[Q1 Q2]|[Q1 Q2]]; [|left; exact Q2]. right. destruct P3 as [P3|(b & a & E & C)]; [cbn in P3; lia|]. exists b, a. split; [exact E|]. rewrite Q2. exact C.
  - destruct (v_max_tag v) as [x|]; cbn [greatest] in *; [destruct G as [[[]|G1] G2]; split; [exact G1|]; intros u U; apply G2; now right|]. intros t T. apply (G t). now right.
Qed.
Print Assumptions C112_validated.

(** A loaded runbook has proper and valid stages, which are the entries with an integer key of the
    dataset's mapping, in the order of the keys; the call does not panic. *)
Theorem C112_load {P} (fg : Z -> outcome P) (dataset : string) (file : list (value * value)) :
  (forall i, fg i <> Panic) ->
  match load fg dataset file with
  | Done b => exists m ops, get dataset file = Some (VMap m) /\ StronglySorted Z.le (map fst ops) /\ Permutation (map fst ops) (int_keys m) /\
      Forall (entry m) ops /\ Forall2 (turned fg) ops (b_stages b) /\ Forall proper (b_stages b) /\ valid (b_stages b)
  | Err => True
  | Panic => False
  end.
Proof.
  intros HF. destruct (load fg dataset file) as [b| |] eqn:E; [|exact I|].
  - unfold load in E. destruct (get dataset file) as [[| |m|]|] eqn:EG; try discriminate. apply bind_done in E as (raw & E1 & E). destruct (fst raw) as [mp|]; [|discriminate]. apply bind_done in E as (st & E2 & E3).
    destruct (parse_ok m None [] raw E1) as (st' & K1 & K2 & K3). cbn [app] in K1. rewrite K1 in E2. exists m, (sort_by_key st'). split; [reflexivity|]. split; [apply sort_sorted|]. split; [rewrite <- K2; apply Permutation_map, sort_perm|].
    assert (FE : Forall (entry m) (sort_by_key st')) by (apply Forall_forall; intros p I1; rewrite Forall_forall in K3; apply K3; apply (Permutation_in p (sort_perm st')); exact I1).
    split; [exact FE|]. pose proof (resolve_ok fg _ _ E2) as RO.
    assert (FP : Forall proper st).
    { clear -FE RO. induction RO as [|p s l st T _ IH]; [constructor|]. apply Forall_cons_iff in FE as [F1 F2]. constructor; [|now apply IH]. eapply turned_proper; [|exact T]. destruct F1 as (z & v & _ & _ & H). exact (handle_proper _ _ H). }
    pose proof (C112_validated st mp FP) as V. rewrite E3 in V. destruct V as (V1 & V2 & _). rewrite V2. now repeat split.
  - unfold load in E. destruct (get dataset file) as [[| |m|]|]; try discriminate. revert E. change (calm (let! raw := parse_keys m None [] in match fst raw with Some max_points => let! stages := resolve fg (sort_by_key (snd raw)) in runbook_new stages max_points | None => Err end)).
    apply calm_bind; [apply calm_keys|]. intros raw E1. destruct (fst raw) as [mp|]; [|discriminate]. apply calm_bind; [now apply calm_resolve|]. intros st E2.
    destruct (parse_ok m None [] raw E1) as (st' & K1 & K2 & K3). cbn [app] in K1. rewrite K1 in E2. pose proof (resolve_ok fg _ _ E2) as RO.
    assert (FE : Forall (entry m) (sort_by_key st')) by (apply Forall_forall; intros p I1; rewrite Forall_forall in K3; apply K3; apply (Permutation_in p (sort_perm st')); exact I1).
    assert (FP : Forall proper st).
    { clear -FE RO. induction RO as [|p s l st T _ IH]; [constructor|]. apply Forall_cons_iff in FE as [F1 F2]. constructor; [|now apply IH]. eapply turned_proper; [|exact T]. destruct F1 as (z & v & _ & _ & H). exact (handle_proper _ _ H). }
    pose proof (C112_validated st mp FP) as V. intros E. rewrite E in V. exact V.
Qed.
Print Assumptions C112_load.

Definition op_map (op : string) (a b : Z) : value := VMap [(VStr "operation", VStr op); (VStr "start", VInt (Some a)); (VStr "end", VInt (Some b))].
(** The documentation asks for stages numbered from 0 without gaps; that is not checked. *)
Theorem C112_gaps_refuted : exists file b,
  load (fun _ => Done tt) "d" file = Done b /\ b_stages b = [Insert (mkRange 0 3); Search tt] /\
  forall m, get "d" file = Some (VMap m) -> ~ In 0%Z (int_keys m) /\ ~ In 1%Z (int_keys m).
Proof.
  exists [(VStr "d", VMap [(VInt (Some 7%Z), VMap [(VStr "operation", VStr "search")]); (VStr "max_pts", VInt (Some 5%Z)); (VInt (Some 3%Z), op_map "insert" 0 3)])]. eexists. split; [vm_compute; reflexivity|]. split; [reflexivity|].
  intros m E. cbn in E. injection E as <-. split; vm_compute; intuition discriminate.
Qed.
Print Assumptions C112_gaps_refuted.
(** A negative number of points is accepted as a huge one. *)
Theorem C112_negative_refuted : exists b,
  load (fun _ => Done tt) "d" [(VStr "d", VMap [(VStr "max_pts", VInt (Some (-1)%Z))])] = Done b /\ Z.of_nat (b_max_points b) = (2 ^ 64 - 1)%Z.
Proof.
  assert (G : forall z, load (fun _ => Done tt) "d" [(VStr "d", VMap [(VStr "max_pts", VInt (Some z))])] = Done (mkB [] (Nat.max (Z.to_nat (usize z)) 0) None)) by reflexivity.
  rewrite G. eexists. split; [reflexivity|]. cbn [b_max_points]. rewrite Nat.max_0_r, Z2Nat.id by (unfold usize; apply Z.mod_pos_bound; reflexivity). reflexivity.
Qed.
Print Assumptions C112_negative_refuted.
(** A replacement of tags by another number of vectors is accepted. *)
Theorem C112_replace_refuted : exists (stages : list (stage unit)) b o r,
  Forall proper stages /\ runbook_new stages 0 = Done b /\ In (Replace o r) (b_stages b) /\ hi o - lo o <> hi r - lo r.
Proof.
  exists [Insert (mkRange 0 5); Replace (mkRange 7 8) (mkRange 1 4)]. eexists. exists (mkRange 7 8), (mkRange 1 4). split; [repeat constructor; cbn; lia|]. split; [vm_compute; reflexivity|]. split; [right; now left|]. cbn. discriminate.
Qed.
Print Assumptions C112_replace_refuted.

Example C112_example :
  runbook_new [Insert (mkRange 0 4); Insert (mkRange 6 9); Delete (mkRange 1 3); Search tt; Insert (mkRange 4 6); Replace (mkRange 20 25) (mkRange 3 8); Delete (mkRange 3 9); Insert (mkRange 1 2)] 3
    = Done (mkB [Insert (mkRange 0 4); Insert (mkRange 6 9); Delete (mkRange 1 3); Search tt; Insert (mkRange 4 6); Replace (mkRange 20 25) (mkRange 3 8); Delete (mkRange 3 9); Insert (mkRange 1 2)] 7 (Some 8)) /\
  @runbook_new unit [Insert (mkRange 0 4); Insert (mkRange 3 9)] 3 = Err /\ @runbook_new unit [Insert (mkRange 0 4); Insert (mkRange 5 9); Delete (mkRange 3 6)] 3 = Err /\
  load (fun i => if (i =? 2)%Z then Done i else Err) "d" [(VStr "d", VMap [(VInt (Some 2%Z), VMap [(VStr "operation", VStr "search")]); (VStr "max_pts", VInt (Some 5%Z)); (VInt (Some 1%Z), op_map "delete" 1 2); (VInt (Some 0%Z), op_map "insert" 0 3)])]
    = Done (mkB [Insert (mkRange 0 3); Delete (mkRange 1 2); Search 2%Z] 5 (Some 2)).
Proof. repeat split. Qed.
