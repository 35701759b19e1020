(** C118: the full and the quantized vectors of a bf-tree index under concurrent use. *)
From Verif.Lib Require Import Base.
From Verif.BfTree Require Import Model2 Spec2 Proofs2.
Local Open Scope nat_scope.

(** Whatever the schedule, and whenever the trees forget deleted entries, the answers of setting,
    deleting and reading full vectors are those of doing these one after the other in the order of
    the history, which keeps each thread's order; and what is stored now is the result. *)
Theorem C118_full {T C} (compress : list T -> option C) dim total stripe progs schedule :
  let s := vrun compress dim total stripe (vinit progs) schedule in
  let r := acts_all compress dim total (fun _ => None) (map (fun e => fst (snd e)) (v_hist s)) in
  Forall2 answers (map (fun e => snd (snd e)) (v_hist s)) (snd r) /\
  (forall id, found (v_full s id) = fst r id) /\
  forall i, exists begun, length begun <= 1 /\ nth i progs [] = vops_of i (v_hist s) ++ begun ++ v_prog (v_thr s i).
Proof.
  intros s r. assert (V : vinv compress dim total stripe s) by (apply vrun_inv, vinit_inv). split; [apply (i_outs _ _ _ _ s V)|]. split; [apply (i_full _ _ _ _ s V)|].
  intros i. exists (vpend (v_pc (v_thr s i))). split; [destruct (v_pc (v_thr s i)); cbn; lia|]. apply (vrun_ordered compress dim total stripe progs schedule); [apply vinit_inv|]. intros j. reflexivity.
Qed.
Print Assumptions C118_full.

(** If compressing never fails, the code of every vector that no thread is changing is the code of
    the vector stored under that id, and there is none if there is no vector. *)
Theorem C118_agree {T C} (compress : list T -> option C) dim total stripe progs schedule id :
  (forall v, compress v <> None) ->
  let s := vrun compress dim total stripe (vinit progs) schedule in
  quiet s id -> agree compress (found (v_full s id)) (found (v_quant s id)).
Proof.
  intros CT s Q. assert (V : vinv compress dim total stripe s) by (apply vrun_inv, vinit_inv). apply (i_agree _ _ _ _ s V id CT). intros i o E. specialize (Q i). rewrite E in Q. exact Q.
Qed.
Print Assumptions C118_agree.

(** A code that is read is the code of a vector that was set for that id, never a mixture. *)
Theorem C118_code {T C} (compress : list T -> option C) dim total stripe progs schedule id c :
  let s := vrun compress dim total stripe (vinit progs) schedule in
  found (v_quant s id) = Some c -> exists v, In (SetEl id v) (map (fun e => fst (snd e)) (v_hist s)) /\ compress v = Some c /\ length v = dim /\ id < total.
Proof.
  intros s E. assert (V : vinv compress dim total stripe s) by (apply vrun_inv, vinit_inv). destruct (i_from _ _ _ _ s V id c E) as (v & A & B & D). apply andb_true_iff in D as [D1 D2]. exists v. split; [exact A|]. split; [exact B|]. split; [now apply Nat.eqb_eq|now apply Nat.ltb_lt].
Qed.
Print Assumptions C118_code.

(** Without deletes a code is never there before its full vector: at no point of any schedule. *)
Theorem C118_no_ghost {T C} (compress : list T -> option C) dim total stripe progs schedule id :
  Forall (Forall (fun o => match o with Delete _ => False | _ => True end)) progs ->
  let s := vrun compress dim total stripe (vinit progs) schedule in
  found (v_quant s id) <> None -> found (v_full s id) <> None.
Proof.
  intros HP s H. assert (V : vinv compress dim total stripe s) by (apply vrun_inv, vinit_inv). destruct (found (v_quant s id)) as [c|] eqn:E; [|congruence]. destruct (i_from _ _ _ _ s V id c E) as (v & A & B & D). rewrite (i_full _ _ _ _ s V). apply (set_stays compress dim total _) with (v := v); [|now left|exact D].
  assert (O : vordered progs s) by (apply (vrun_ordered compress dim total stripe progs schedule); [apply vinit_inv|intros j; reflexivity]).
  intros o I d ->. unfold vops in I. apply in_map_iff in I as ([i e] & EQ & I). specialize (O i).
  assert (X : In (Delete d) (nth i progs [])). { rewrite O. apply in_or_app. left. unfold vops_of. apply in_map_iff. exists (i, e). split; [exact EQ|]. apply filter_In. split; [exact I|apply Nat.eqb_refl]. }
  rewrite Forall_forall in HP. destruct (nth_in_or_default i progs []) as [J|J]; [|rewrite J in X; elim X]. specialize (HP _ J). rewrite Forall_forall in HP. apply (HP _ X).
Qed.
Print Assumptions C118_no_ghost.

(** Deletes do show such a ghost, as the full vector goes first: a reader finds the code only. *)
Theorem C118_ghost_refuted :
  exists progs schedule, let s := vrun (fun v : list nat => Some (length v)) 1 9 (fun id => id) (vinit progs) schedule in
    map snd (v_hist s) = [(SetEl 3 [7], VDone); (Delete 3, VDone); (Full 3, VFull None); (Quant 3, VQuant (Some 1))].
Proof. exists [[SetEl 3 [7]; Delete 3]; [Full 3; Quant 3]], (map Thread [0;0;0;0;0;0;1;1]). vm_compute. reflexivity. Qed.
Print Assumptions C118_ghost_refuted.

(** When a vector cannot be compressed, setting it is an error, but it has replaced the full vector,
    next to the code of the old one; with no thread running. *)
Theorem C118_failed_refuted :
  let compress (v : list nat) := match v with [0] => None | _ => Some (hd 0 v) end in
  exists progs schedule, let s := vrun compress 1 9 (fun id => id) (vinit progs) schedule in
    map snd (v_hist s) = [(SetEl 3 [7], VDone); (SetEl 3 [0], VErr)] /\ (forall i, v_pc (v_thr s i) = VIdle) /\ found (v_full s 3) = Some [0] /\ found (v_quant s 3) = Some 7.
Proof.
  exists [[SetEl 3 [7]; SetEl 3 [0]]], (map Thread (repeat 0 8)). split; [vm_compute; reflexivity|]. split; [|split; vm_compute; reflexivity]. intros [|[|i]]; reflexivity.
Qed.
Print Assumptions C118_failed_refuted.

(** Two threads on one id and one stripe, a purge between them. *)
Example C118_example :
  let s := vrun (fun v : list nat => Some (list_sum v)) 2 9 (fun id => id mod 2) (vinit [[SetEl 3 [1; 2]; Delete 3]; [SetEl 3 [4; 5]; SetEl 11 [1; 1]; Quant 3]]) (map Thread [0;1;0;1;0;0;1;0;1;1;0;1;0;0;0;0] ++ [ForgetQuant 3; ForgetFull 3] ++ map Thread [1;1;1;1;1;1;1]) in
  map snd (v_hist s) = [(SetEl 3 [1; 2], VDone); (SetEl 3 [4; 5], VDone); (Delete 3, VDone); (SetEl 11 [1; 1], VErr); (Quant 3, VQuant None)] /\ v_full s 3 = Missing.
Proof. vm_compute. split; reflexivity. Qed.
Print Assumptions C118_example.
(** The hypotheses of the theorems above hold of it half way: nothing is done to id 3, a vector is there. *)
Example C118_meets :
  let s := vrun (fun v : list nat => Some (list_sum v)) 2 9 (fun id => id mod 2) (vinit [[SetEl 3 [1; 2]]; [SetEl 4 [4; 5]]]) (map Thread [0;1;0;1;0]) in
  quiet s 3 /\ ~ quiet s 4 /\ found (v_full s 3) = Some [1; 2] /\ found (v_quant s 3) = Some 3 /\ found (v_quant s 4) = None.
Proof.
  split; [intros [|[|[|i]]]; vm_compute; trivial; discriminate|]. split; [intros H; specialize (H 1); vm_compute in H; now apply H|]. vm_compute. repeat split; reflexivity.
Qed.
Print Assumptions C118_meets.
