(** Saving to disk and to memory: C58, C59, C60, C61. *)
From Coq Require Import String Lia ZifyN ZifyBool ZifyNat.
From Verif.Lib Require Import Base Bytes.
From Verif.Record Require Import Model.
From Verif.RecordDisk Require Import Model Spec Proofs Proofs2 Proofs3 Proofs4 Proofs5.
Local Open Scope string_scope. Local Open Scope N_scope. Local Open Scope list_scope.

(** * Programs for the examples *)
(** Open an artifact, write to it, finish it, return; give up if refused. *)
Definition prog (key : string) (b v : bytes) (l : list (event bytes)) : action bytes :=
  match l with
  | [] => AOpen (Some (str key))
  | [(_, OOpened _)] => APut 0 (fun old => old ++ b)
  | [_; (_, OWrote)] => AFinish 0
  | [_; _; (_, OHandle _)] => AReturn (Some v)
  | _ => AReturn None
  end.
Definition ex_enc (fl : list bytes) (v : bytes) : bytes := (v ++ [255] ++ List.concat (List.map (fun n => n ++ [254]) fl)).
Definition yes : choice := mkchoice true 0 [].
Definition no : choice := mkchoice false 0 [7].
Definition steps (i n : nat) : list act := List.repeat (Step i yes) n.
(** A file system with one file. *)
Definition one_file (p : path) (b : bytes) : fs := mkfs (fun q => if path_dec q p then Some 0 else None) (fun _ => b) 1.
Definition no_files : fs := mkfs (fun _ => None) (fun _ => []) 0.
(** Saves to one manifest: save [i] puts its artifact in directory [d] under the key [ki]. *)
Definition ex_cfg (i : nat) : config bytes :=
  mkconfig [str "d"] [str "d"] (str "m.json") (prog (if Nat.eqb i 0 then "x" else "y") [1; N.of_nat i] [65 + N.of_nat i]).
Lemma ex_apart : apart ex_cfg.
Proof.
  split; [intros i j; cbn; discriminate|]. intros i j n (d & r & -> & D). cbn. split; intros H; injection H as H _; subst; lia.
Qed.
Lemma no_files_ok : fs_ok no_files. Proof. intros p i H. discriminate. Qed.

(** * C58: a save that succeeded can be loaded, for good *)
Theorem C58_saved_artifacts_read_back : forall V enc (cfg : nat -> config V) f0 l i v,
  fs_ok f0 -> apart cfg -> orderly enc cfg (init f0) l ->
  let s := run enc cfg (init f0) l in
  ph (thr s i) = Committed v ->
  user (cfg i) (evs (thr s i)) = AReturn (Some v) /\
  (forall n, In n (opened (evs (thr s i))) -> exists k, In (AFinish k, OHandle n) (evs (thr s i))) /\
  forall k n, In (AFinish k, OHandle n) (evs (thr s i)) ->
    In n (opened (evs (thr s i))) /\
    content (fsys s) (cdir (cfg i) ++ [n]) = Some (written (evs (thr s i)) k) /\
    forall fl, In n fl -> disk_read (fsys s) (cdir (cfg i)) fl n = Some (written (evs (thr s i)) k).
Proof.
  intros V enc cfg f0 l i v F A O s P. destruct (reach V enc cfg f0 F A l O) as (own & I).
  apply (committed_reads V enc cfg f0 own s i v I); [|exact P]. apply LIs_run, LIs_init.
Qed.
Print Assumptions C58_saved_artifacts_read_back.
(** Whatever is saved, fails or crashes afterwards, it reads the same. *)
Theorem C58_saved_for_good : forall V enc (cfg : nat -> config V) f0 l l' i v k n,
  fs_ok f0 -> apart cfg -> orderly enc cfg (init f0) (l ++ l') ->
  let s := run enc cfg (init f0) l in
  let s' := run enc cfg (init f0) (l ++ l') in
  ph (thr s i) = Committed v -> In (AFinish k, OHandle n) (evs (thr s i)) ->
  ph (thr s' i) = Committed v /\ content (fsys s') (cdir (cfg i) ++ [n]) = Some (written (evs (thr s i)) k).
Proof.
  intros V enc cfg f0 l l' i v k n F A O s s' P H.
  assert (E : thr s' i = thr s i) by (unfold s', run; rewrite fold_left_app; apply over_stays_run; fold (run enc cfg (init f0) l); fold s; now rewrite P).
  assert (P' : ph (thr s' i) = Committed v) by now rewrite E. split; [exact P'|].
  destruct (C58_saved_artifacts_read_back V enc cfg f0 (l ++ l') i v F A O P') as (_ & _ & C). fold s' in C. rewrite E in C. now apply C.
Qed.
Print Assumptions C58_saved_for_good.
(** Save 0 succeeds; save 1, to the same manifest and directory, crashes in the middle of its manifest. *)
Definition ex_run : list act := (steps 0 18 ++ steps 1 7 ++ [Crash 1]).
Example C58_example :
  fs_ok no_files /\ apart ex_cfg /\ orderly ex_enc ex_cfg (init no_files) ex_run /\
  let s := run ex_enc ex_cfg (init no_files) ex_run in
  ph (thr s 0) = Committed [65] /\ opened (evs (thr s 0)) = [str "000-x"] /\ In (AFinish 0%nat, OHandle (str "000-x")) (evs (thr s 0)) /\ written (evs (thr s 0)) 0 = [1; 0] /\
  content (fsys s) [str "d"; str "000-x"] = Some [1; 0] /\ ph (thr s 1) = Dead /\ content (fsys s) [str "d"; str "000-y"] = Some [1; 1] /\
  content (fsys s) [str "d"; str "m.json.temp"] <> None.
Proof.
  split; [apply no_files_ok|]. split; [apply ex_apart|]. split.
  - apply (orderlyb_init _ _ _ 2). vm_compute. reflexivity.
  - vm_compute. repeat (split; [first [reflexivity | tauto]|]). discriminate.
Qed.

(** Without [apart]: the manifest path is the name of an artifact.  The save reports success, and
    the artifact reads back as the manifest. *)
Definition clash_cfg (_ : nat) : config bytes := mkconfig [str "d"] [str "d"] (str "000-x") (prog "x" [1; 2] [65]).
Theorem C58_refuted_manifest_named_as_artifact : exists l,
  orderly ex_enc clash_cfg (init no_files) l /\
  let s := run ex_enc clash_cfg (init no_files) l in
  ph (thr s 0) = Committed [65] /\ In (AFinish 0%nat, OHandle (str "000-x")) (evs (thr s 0)) /\ written (evs (thr s 0)) 0 = [1; 2] /\
  content (fsys s) [str "d"; str "000-x"] = Some (ex_enc [str "000-x"] [65]).
Proof.
  exists (steps 0 18). split; [apply (orderlyb_init _ _ _ 1); vm_compute; reflexivity|]. vm_compute. repeat (split; [first [reflexivity | tauto]|]). reflexivity.
Qed.
Print Assumptions C58_refuted_manifest_named_as_artifact.

(** * C59: a manifest is never torn *)
(** Each step leaves what stands at a manifest path as it was, or puts there, whole, the manifest of
    a save that reports success at that very step. *)
Theorem C59_manifest_atomic : forall V enc (cfg : nat -> config V) f0 l a j,
  fs_ok f0 -> apart cfg -> orderly enc cfg (init f0) (l ++ [a]) ->
  let s := run enc cfg (init f0) l in
  let s' := run enc cfg (init f0) (l ++ [a]) in
  content (fsys s') (meta (cfg j)) = content (fsys s) (meta (cfg j)) \/
  exists i x v, a = Step i x /\ meta (cfg i) = meta (cfg j) /\ ph (thr s i) <> Committed v /\ ph (thr s' i) = Committed v /\
    content (fsys s') (meta (cfg j)) = Some (enc (opened (evs (thr s i))) v).
Proof.
  intros V enc cfg f0 l a j F A O s s'. pose proof O as O1. apply orderly_app in O1. destruct O1 as (O1 & _).
  destruct (reach V enc cfg f0 F A _ O1) as (own & I). destruct (reach V enc cfg f0 F A _ O) as (own' & I').
  assert (E : s' = step enc cfg s a) by (unfold s', run; now rewrite fold_left_app). unfold s' in E. fold s in I. fold s' in I', E. rewrite E in I' |- *.
  eapply manifest_step; eauto. apply LIs_run, LIs_init.
Qed.
Print Assumptions C59_manifest_atomic.
(** So at any moment, and after any crash, it is the old one or that of the last save to it that
    succeeded; and a save that has not succeeded has changed nothing there. *)
Theorem C59_manifest_of_last_save : forall V enc (cfg : nat -> config V) f0 l j,
  fs_ok f0 -> apart cfg -> orderly enc cfg (init f0) l ->
  let s := run enc cfg (init f0) l in
  (forall i, In i (commits s) <-> exists v, ph (thr s i) = Committed v) /\
  match last_to cfg (meta (cfg j)) (commits s) with
  | None => content (fsys s) (meta (cfg j)) = content f0 (meta (cfg j))
  | Some u => exists v, ph (thr s u) = Committed v /\ content (fsys s) (meta (cfg j)) = Some (enc (opened (evs (thr s u))) v)
  end.
Proof.
  intros V enc cfg f0 l j F A O s. destruct (reach V enc cfg f0 F A l O) as (own & I). fold s in I. split; [apply (g_com _ _ _ _ _ _ I)|].
  pose proof (manifest_state V enc cfg f0 F own s j I) as M. destruct (last_to _ _ _) as [u|]; [|exact M]. destruct M as (v & P & C). exists v. split; [exact P|].
  destruct (LIs_run V enc cfg l (init f0) (LIs_init _ _ _) u) as (E & _). fold s in E. now rewrite <- E.
Qed.
Print Assumptions C59_manifest_of_last_save.
(** Loading gives the value that was saved, and every artifact it names as it was written.  The list
    of files is a set: it may come back in any order. *)
Theorem C59_load_after_save : forall V enc dec (cfg : nat -> config V) f0 l i v,
  fs_ok f0 -> apart cfg -> orderly enc cfg (init f0) l ->
  (forall fl v, exists fl', dec (enc fl v) = Some (fl', v) /\ Permutation fl fl') ->
  let s := run enc cfg (init f0) l in
  ph (thr s i) = Committed v -> last_to cfg (meta (cfg i)) (commits s) = Some i ->
  exists fl, manifest dec (fsys s) (meta (cfg i)) = Some (fl, v) /\
    forall k n, In (AFinish k, OHandle n) (evs (thr s i)) -> disk_read (fsys s) (cdir (cfg i)) fl n = Some (written (evs (thr s i)) k).
Proof.
  intros V enc dec cfg f0 l i v F A O DE s P LT. destruct (C58_saved_artifacts_read_back V enc cfg f0 l i v F A O P) as (_ & _ & C).
  destruct (C59_manifest_of_last_save V enc cfg f0 l i F A O) as (_ & M). fold s in M, C. rewrite LT in M. destruct M as (v' & P' & M).
  destruct (DE (opened (evs (thr s i))) v') as (fl & D & PM). exists fl. split.
  - unfold manifest. rewrite M, D. congruence.
  - intros k n H. destruct (C k n H) as (Hn & _ & R). apply R. now apply (Permutation_in _ PM).
Qed.
Print Assumptions C59_load_after_save.
(** A text for manifests that reads back: each piece with its length before it. *)
Definition piece (b : bytes) : bytes := List.repeat 1 (length b) ++ [0] ++ b.
Definition lp_enc (fl : list bytes) (v : bytes) : bytes := piece v ++ List.concat (List.map piece fl).
Fixpoint ones (b : bytes) : nat * bytes := match b with c :: r => if c =? 1 then let (k, r) := ones r in (S k, r) else (O, r) | [] => (O, []) end.
Fixpoint pieces (fuel : nat) (b : bytes) : list bytes :=
  match fuel, b with
  | S fuel, _ :: _ => let (k, r) := ones b in List.firstn k r :: pieces fuel (List.skipn k r)
  | _, _ => []
  end.
Definition lp_dec (b : bytes) : option (list bytes * bytes) := match pieces (length b) b with v :: fl => Some (fl, v) | [] => None end.
Lemma ones_piece k r : ones (List.repeat 1 k ++ 0 :: r) = (k, r).
Proof. induction k as [|k IH]; [reflexivity|]. cbn. now rewrite IH. Qed.
Lemma pieces_concat l : forall fuel, (length l <= fuel)%nat -> pieces fuel (List.concat (List.map piece l)) = l.
Proof.
  induction l as [|b l IH]; intros fuel H; [destruct fuel; reflexivity|]. destruct fuel as [|fuel]; [cbn in H; lia|]. cbn [List.map List.concat]. cbn [length] in H.
  assert (N : exists c r, piece b ++ List.concat (List.map piece l) = c :: r) by (unfold piece; destruct b; cbn; eauto). destruct N as (c & r & N).
  assert (O : ones (piece b ++ List.concat (List.map piece l)) = (length b, b ++ List.concat (List.map piece l))) by (unfold piece; rewrite <- app_assoc; cbn [app]; rewrite ones_piece; reflexivity).
  rewrite N in O |- *. cbn [pieces]. rewrite O. rewrite firstn_app, Nat.sub_diag, firstn_all, app_nil_r. rewrite skipn_app, Nat.sub_diag, skipn_all. cbn [app List.skipn]. rewrite IH by lia. reflexivity.
Qed.
Lemma pieces_len l : (length l <= length (List.concat (List.map piece l)))%nat.
Proof. induction l as [|b l IH]; [cbn; lia|]. cbn [List.map List.concat length]. rewrite app_length. unfold piece at 1. rewrite !app_length. cbn [length]. lia. Qed.
Lemma lp_round fl v : exists fl', lp_dec (lp_enc fl v) = Some (fl', v) /\ Permutation fl fl'.
Proof. exists fl. split; [|reflexivity]. unfold lp_dec. change (lp_enc fl v) with (List.concat (List.map piece (v :: fl))). rewrite pieces_concat; [reflexivity|apply pieces_len]. Qed.
Example C59_load_example :
  let l := steps 0 6 ++ List.repeat (Step 0 (mkchoice true 4 [])) 12 ++ steps 1 3 ++ [Crash 1] in
  let s := run lp_enc ex_cfg (init no_files) l in
  orderly lp_enc ex_cfg (init no_files) l /\ (forall fl v, exists fl', lp_dec (lp_enc fl v) = Some (fl', v) /\ Permutation fl fl') /\
  ph (thr s 0) = Committed [65] /\ last_to ex_cfg (meta (ex_cfg 0)) (commits s) = Some 0%nat /\ manifest lp_dec (fsys s) (meta (ex_cfg 0)) = Some ([str "000-x"], [65]) /\
  disk_read (fsys s) [str "d"] [str "000-x"] (str "000-x") = Some [1; 0].
Proof.
  split; [apply (orderlyb_init _ _ _ 2); vm_compute; reflexivity|]. split; [apply lp_round|]. vm_compute. repeat (split; [reflexivity|]). reflexivity.
Qed.
Example C59_example :
  let s := run ex_enc ex_cfg (init no_files) ex_run in
  let s2 := run ex_enc ex_cfg (init no_files) (ex_run ++ [Step 2 yes]) in
  fs_ok no_files /\ apart ex_cfg /\ orderly ex_enc ex_cfg (init no_files) (ex_run ++ [Step 2 yes]) /\
  commits s2 = [0%nat] /\ last_to ex_cfg (meta (ex_cfg 2)) (commits s2) = Some 0%nat /\ ph (thr s2 2) = Running /\
  content (fsys s2) (meta (ex_cfg 2)) = Some (ex_enc [str "000-x"] [65]) /\ content (fsys s) (meta (ex_cfg 2)) = content (fsys s2) (meta (ex_cfg 2)).
Proof.
  split; [apply no_files_ok|]. split; [apply ex_apart|]. split; [apply (orderlyb_init _ _ _ 3); vm_compute; reflexivity|]. vm_compute. repeat (split; [reflexivity|]). reflexivity.
Qed.
(** Saves to one manifest that overlap: save 1 finds the temporary file of save 0, fails, and deletes
    it; save 2 makes a new one; save 0 puts that one in place.  Save 0 reports success, and the
    manifest is empty. *)
Definition over_cfg (i : nat) : config bytes :=
  mkconfig [str "d"; [97 + N.of_nat i]] [str "d"] (str "m.json") (prog "x" [1; N.of_nat i] [65 + N.of_nat i]).
Definition over_run : list act := steps 0 7 ++ steps 2 5 ++ steps 1 8 ++ steps 2 1 ++ steps 0 12.
Theorem C59_refuted_overlapping_saves :
  let s := run ex_enc over_cfg (init no_files) over_run in
  fs_ok no_files /\ apart over_cfg /\
  ph (thr s 0) = Committed [65] /\ ph (thr s 1) = Failed true /\ ph (thr s 2) = Writing [67] 4 (ex_enc [str "000-x"] [67]) /\
  content (fsys s) (meta (over_cfg 0)) = Some [].
Proof.
  split; [apply no_files_ok|]. split.
  { split; [intros i j; cbn; discriminate|]. intros i j n (d & r & -> & D). cbn. split; discriminate. }
  vm_compute. repeat (split; [reflexivity|]). reflexivity.
Qed.
Print Assumptions C59_refuted_overlapping_saves.

(** * C60: a save touches only what is its own *)
Theorem C60_other_files_untouched : forall V enc (cfg : nat -> config V) f0 l p b,
  fs_ok f0 -> apart cfg -> orderly enc cfg (init f0) l ->
  content f0 p = Some b -> (forall j, p <> meta (cfg j) /\ p <> temp (cfg j)) ->
  content (fsys (run enc cfg (init f0) l)) p = Some b.
Proof. intros V enc cfg f0 l p b F A O C H. destruct (reach V enc cfg f0 F A l O) as (own & I). eapply kept; eauto. Qed.
Print Assumptions C60_other_files_untouched.
(** What is new belongs to a save that was started and has not failed cleanly: one of its artifacts,
    its manifest if it succeeded, or its temporary file if it did not. *)
Theorem C60_nothing_left_behind : forall V enc (cfg : nat -> config V) f0 l p b,
  fs_ok f0 -> apart cfg -> orderly enc cfg (init f0) l ->
  let s := run enc cfg (init f0) l in
  content (fsys s) p = Some b -> content f0 p = None ->
  exists j, ph (thr s j) <> Fresh /\ ph (thr s j) <> Failed true /\
    ((exists n, In n (opened (evs (thr s j))) /\ p = cdir (cfg j) ++ [n]) \/
     (exists v, ph (thr s j) = Committed v) /\ p = meta (cfg j) \/
     (forall v, ph (thr s j) <> Committed v) /\ p = temp (cfg j)).
Proof.
  intros V enc cfg f0 l p b F A O s C N. destruct (reach V enc cfg f0 F A l O) as (own & I). eapply new_paths; eauto. apply LIs_run, LIs_init.
Qed.
Print Assumptions C60_nothing_left_behind.
(** [Failed true] is what a save ends in when it fails and every removal succeeds: here, a failed
    write of the artifact, after which the directory is as before. *)
Example C60_example :
  let f0 := one_file [str "d"; str "z"] [9] in
  let l := steps 0 2 ++ [Step 0 no] ++ steps 0 5 in
  let s := run ex_enc ex_cfg (init f0) l in
  fs_ok f0 /\ apart ex_cfg /\ orderly ex_enc ex_cfg (init f0) l /\ ph (thr s 0) = Failed true /\ opened (evs (thr s 0)) = [str "000-x"] /\
  content (fsys (run ex_enc ex_cfg (init f0) (steps 0 2))) [str "d"; str "000-x"] = Some [] /\
  content (fsys s) [str "d"; str "000-x"] = None /\ content (fsys s) [str "d"; str "z"] = Some [9] /\
  (forall j, [str "d"; str "z"] <> meta (ex_cfg j) /\ [str "d"; str "z"] <> temp (ex_cfg j)).
Proof.
  split; [intros p i; cbn; destruct (path_dec _ _); [|discriminate]; intros [= <-]; reflexivity|]. split; [apply ex_apart|].
  split; [apply (orderlyb_init _ _ _ 1); vm_compute; reflexivity|]. split; [vm_compute; reflexivity|]. do 4 (split; [vm_compute; reflexivity|]). intros j. cbn. split; discriminate.
Qed.
(** A file at [<manifest>.temp] that is not the save's own makes the save fail and is deleted. *)
Theorem C60_refuted_foreign_temporary : exists l,
  let f0 := one_file (temp (ex_cfg 0)) [9] in
  fs_ok f0 /\ apart ex_cfg /\ orderly ex_enc ex_cfg (init f0) l /\ content f0 (temp (ex_cfg 0)) = Some [9] /\
  ph (thr (run ex_enc ex_cfg (init f0) l) 0) = Failed true /\ content (fsys (run ex_enc ex_cfg (init f0) l)) (temp (ex_cfg 0)) = None.
Proof.
  exists (steps 0 9). cbv zeta. split; [intros p i; cbn; destruct (path_dec _ _); [|discriminate]; intros [= <-]; reflexivity|]. split; [apply ex_apart|].
  split; [apply (orderlyb_init _ _ _ 1); vm_compute; reflexivity|]. repeat (split; [vm_compute; reflexivity|]). vm_compute. reflexivity.
Qed.
Print Assumptions C60_refuted_foreign_temporary.
(** A save that crashed leaves its artifacts, and they make the next saves with the same keys fail:
    save 0 crashed, and neither save 1 nor save 2 gets through, although nothing else goes wrong. *)
Definition retry_cfg (i : nat) : config bytes := mkconfig [str "d"] [str "d"] (str "m.json") (prog "x" [1; N.of_nat i] [65]).
Theorem C60_refuted_retry_after_crash : exists l,
  fs_ok no_files /\ apart retry_cfg /\ orderly ex_enc retry_cfg (init no_files) (steps 0 2 ++ [Crash 0] ++ l) /\
  let s := run ex_enc retry_cfg (init no_files) (steps 0 2 ++ [Crash 0] ++ l) in
  ph (thr s 0) = Dead /\ (forall i, (i = 1 \/ i = 2)%nat -> ph (thr s i) = Failed true /\ evs (thr s i) = [(AOpen (Some (str "x")), ORefused)]).
Proof.
  exists (steps 1 5 ++ steps 2 5). split; [apply no_files_ok|]. split.
  { split; [intros i j; cbn; discriminate|]. intros i j n (d & r & -> & D). cbn. split; intros H; injection H as H _; subst; lia. }
  split; [apply (orderlyb_init _ _ _ 3); vm_compute; reflexivity|]. cbv zeta. split; [vm_compute; reflexivity|].
  intros i [-> | ->]; (split; vm_compute; reflexivity).
Qed.
Print Assumptions C60_refuted_retry_after_crash.

(** * C61: names, directories, and the backend in memory *)
(** The artifacts of a save have different names whatever the keys, each an entry of the directory;
    and no key can make a save or a load leave the directory. *)
Theorem C61_names_distinct_and_inside : forall V enc (cfg : nat -> config V) f0 l i,
  let s := run enc cfg (init f0) l in
  NoDup (opened (evs (thr s i))) /\
  (forall n p, In n (opened (evs (thr s i))) -> resolve (cdir (cfg i)) n = Some p -> p = cdir (cfg i) ++ [n]).
Proof.
  intros V enc cfg f0 l i s. assert (L : LIs V cfg s) by (apply LIs_run, LIs_init). split.
  - apply NoDup_nth_error. intros j k Hj E. destruct (nth_error (opened (evs (thr s i))) j) as [n|] eqn:Ej; [|apply nth_error_None in Ej; lia]. eapply opened_names; eauto.
  - intros n p Hn R. destruct (L i) as (A & B & _). rewrite <- A in Hn. apply In_nth_error in Hn. destruct Hn as (k & Hn). destruct (B _ _ Hn) as (key & ->). now apply art_resolve in R.
Qed.
Print Assumptions C61_names_distinct_and_inside.
(** Whatever the manifest and the handle say, a load reads only an entry of the directory that the
    manifest lists. *)
Theorem C61_loads_stay_inside : forall f dir fl key b,
  disk_read f dir fl key = Some b ->
  ~ In slash key /\ key <> [] /\ key <> str "." /\ key <> str ".." /\ content f (dir ++ [key]) = Some b /\
  exists p, In p fl /\ resolve dir key = Some (dir ++ [key]) /\ component p = key.
Proof.
  intros f dir fl key b H. unfold disk_read in H. destruct (simple key) eqn:S; [|discriminate]. destruct (registered fl key) eqn:R; [|discriminate]. cbn [andb] in H.
  destruct (resolve dir key) as [p|] eqn:RS; [|discriminate]. destruct (resolve_simple _ _ _ S RS) as (NS & ->). split; [exact NS|].
  assert (D : is_dots key = false). { unfold simple in S. rewrite (split_at_no _ _ NS) in S. cbn in S. rewrite andb_true_r in S. now apply negb_true_iff in S. }
  assert (ND : key <> [] /\ key <> str "." /\ key <> str ".."). { repeat split; intros ->; vm_compute in D; discriminate. }
  destruct ND as (N1 & N2 & N3). do 3 (split; [assumption|]). split; [exact H|]. unfold registered in R. apply existsb_exists in R. destruct R as (q & Hq & E). apply andb_true_iff in E. destruct E as (_ & E). apply beqb_eq in E.
  exists q. split; [exact Hq|]. split; [reflexivity|]. now rewrite E, component_plain.
Qed.
Print Assumptions C61_loads_stay_inside.
Example C61_loads_example : let f := one_file [str "d"; str "000-x"] [9] in let fl := [str "000-x"; str "../e"] in
  disk_read f [str "d"] fl (str "000-x") = Some [9] /\ disk_read f [str "e"] fl (str "../d/000-x") = None /\ disk_read f [str "d"; str "q"] fl (str "../000-x") = None.
Proof. vm_compute. repeat split. Qed.
(** In memory, no artifact is ever refused, and a save that succeeds reads back exactly. *)
Theorem C61_memory_exact : forall V (u : list (event V) -> action V) n m,
  mem_run u n (mkmem [] [] []) = More m ->
  smooth (mevs m) /\ NoDup (opened (mevs m)) /\
  forall fl v, mem_step u m = MDone fl v ->
    u (mevs m) = AReturn (Some v) /\ (forall x, In x (opened (mevs m)) -> exists k, In (AFinish k, OHandle x) (mevs m)) /\
    forall k x, In (AFinish k, OHandle x) (mevs m) -> mem_read fl x = Some (written (mevs m) k).
Proof.
  intros V u n m R. pose proof (MI_run V u n m R) as I. split; [apply I|]. split; [destruct I as (A & I'); rewrite <- A; apply MI_nodup; split; assumption|].
  intros fl v H. destruct (mem_done V u m fl v I H) as (A & B & C). split; [exact A|]. split; [exact B|]. intros k x Hk. now apply C.
Qed.
Print Assumptions C61_memory_exact.
(** A save to disk in which nothing goes wrong did just what the same program does in memory: the
    same handles, the same answers, and then the same bytes. *)
Theorem C61_disk_and_memory_agree : forall V enc (cfg : nat -> config V) f0 l i v,
  fs_ok f0 -> apart cfg -> orderly enc cfg (init f0) l ->
  let s := run enc cfg (init f0) l in
  ph (thr s i) = Committed v -> smooth (evs (thr s i)) ->
  exists n m fl, mem_run (user (cfg i)) n (mkmem [] [] []) = More m /\ mevs m = evs (thr s i) /\ mem_step (user (cfg i)) m = MDone fl v /\
    forall k x, In (AFinish k, OHandle x) (evs (thr s i)) -> mem_read fl x = content (fsys s) (cdir (cfg i) ++ [x]).
Proof.
  intros V enc cfg f0 l i v F A O s P S. assert (L : LIs V cfg s) by (apply LIs_run, LIs_init).
  assert (FO : follows V (cfg i) (thr s i)) by (apply follows_run; [apply LIs_init|intros j; apply follows_init]).
  destruct (FO S) as (m & R & E & _). destruct (same_done V (cfg i) (thr s i) m v FO (L i) S P R) as (fl & D).
  exists (length (evs (thr s i))), m, fl. split; [exact R|]. split; [exact E|]. split; [exact D|]. intros k x Hk.
  destruct (C61_memory_exact V _ _ _ R) as (_ & _ & M). destruct (M fl v D) as (_ & _ & M3). rewrite E in M3.
  destruct (C58_saved_artifacts_read_back V enc cfg f0 l i v F A O P) as (_ & _ & C). fold s in C. destruct (C k x Hk) as (_ & C2 & _). rewrite C2. now apply M3.
Qed.
Print Assumptions C61_disk_and_memory_agree.
Example C61_agree_example :
  let s := run ex_enc ex_cfg (init no_files) ex_run in
  smooth (evs (thr s 0)) /\ ph (thr s 0) = Committed [65] /\
  match mem_run (user (ex_cfg 0)) 3 (mkmem [] [] []) with
  | More m => opened (mevs m) = [str "000-x"] /\ mem_step (user (ex_cfg 0)) m = MDone [(str "000-x", [1; 0])] [65]
  | _ => False
  end.
Proof.
  split; [|vm_compute; repeat split; reflexivity]. intros a o H. vm_compute in H. repeat (destruct H as [H|H]; [injection H as <- <-; exact Logic.I|]). contradiction.
Qed.
(** A key that ends in a slash is taken in memory and always refused on disk. *)
Theorem C61_refuted_trailing_slash : let u := prog "a/" [1] [65] in
  (match mem_run u 3 (mkmem [] [] []) with More m => mem_step u m = MDone [(str "000-a/", [1])] [65] | _ => False end) /\
  forall dir n, resolve dir (art_name n (Some (str "a/"))) = None.
Proof.
  split; [vm_compute; reflexivity|]. intros dir n. destruct (resolve dir _) as [p|] eqn:E; [|reflexivity]. apply art_resolve in E. destruct E as (E & _). exfalso. apply E.
  unfold art_name. change (simple (str "a/")) with true. cbv iota. apply in_or_app. right. vm_compute. tauto.
Qed.
Print Assumptions C61_refuted_trailing_slash.
