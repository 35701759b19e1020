(** Records of neighbour lists. *)
From Verif.Lib Require Import Base Bytes.
From Verif.BfTree Require Import Model Spec.
Local Open Scope nat_scope.

Lemma pow_mono a b : a <= b -> (pow256 a <= pow256 b)%N.
Proof. induction 1 as [|m _ IH]; [apply N.le_refl|]. change (pow256 (S m)) with (256 * pow256 m)%N. apply (N.le_trans _ _ _ IH). pose proof (pow256_pos m). lia. Qed.
Section Records.
  Context (w max : nat) (Hw : 4 <= w) (Hmax : (N.of_nat max < 2 ^ 32)%N).
  Notation get := (get w max). Notation set_internal := (set_internal w max). Notation set := (set w max). Notation push_all := (push_all max).
  Lemma cells_len l : length (cells w l) = length l * w.
  Proof. clear Hw Hmax. unfold cells. induction l as [|x l IH]; cbn [flat_map length]; [reflexivity|]. rewrite app_length, IH, le_enc_length. lia. Qed.
  Lemma uncells_cells l : Forall (fits w) l -> forall rest, uncells w (length l) (cells w l ++ rest) = l.
  Proof. clear Hw Hmax.
    induction 1 as [|x l H _ IH]; intros rest; cbn [length uncells]; [reflexivity|]. change (cells w (x :: l)) with (le_enc w x ++ cells w l). rewrite <- app_assoc, firstn_app_exact, skipn_app_exact by apply le_enc_length. rewrite le_dec_enc by exact H. f_equal. apply IH.
  Qed.
  Lemma cell_len n : n <= max -> cell_to_len w (len_to_cell n) = n.
  Proof.
    intros H. unfold cell_to_len, len_to_cell. rewrite N.mod_small by (change (pow256 4) with (2 ^ 32)%N; lia). destruct w as [|[|[|[|w']]]]; try lia. replace (firstn 4 (le_enc (S (S (S (S w')))) (N.of_nat n))) with (le_enc 4 (N.of_nat n)) by reflexivity.
    rewrite le_dec_enc; [apply Nat2N.id|]. change (pow256 4) with (2 ^ 32)%N. lia.
  Qed.
  Lemma cell_fits n : n <= max -> fits w (len_to_cell n).
  Proof.
    intros H. unfold len_to_cell, fits. rewrite N.mod_small by (change (pow256 4) with (2 ^ 32)%N; lia). apply N.lt_le_trans with (pow256 4); [change (pow256 4) with (2 ^ 32)%N; lia|].
    now apply pow_mono.
  Qed.
  Definition buffer (b : list N) : Prop := length b = dim max /\ Forall (fits w) b.
  Lemma record_get t id b n : buffer b -> nth_error b max = Some (len_to_cell n) -> n <= max -> t (key w id) = Some (cells w b) -> get t id = Some (firstn n b).
  Proof.
    intros [LB FB] EN HN ET. unfold Model.get. rewrite ET. assert (LC : length (cells w b) = dim max * w) by now rewrite cells_len, LB.
    destruct (cells w b) as [|z zs] eqn:EC; [exfalso; cbn [length] in LC; unfold dim in LC; lia|]. rewrite LC, Nat.eqb_refl. cbn [negb]. cbv zeta. rewrite <- EC.
    assert (EU : uncells w (dim max) (cells w b) = b) by (rewrite <- LB, <- (app_nil_r (cells w b)); now apply uncells_cells). rewrite EU. replace (dim max - 1) with max by (unfold dim; lia). rewrite EN, cell_len by exact HN. destruct (Nat.ltb_spec max n); [lia|reflexivity].
  Qed.
  Lemma get_other t id id' v : fits w id -> fits w id' -> id <> id' -> get (put t (key w id) v) id' = get t id'.
  Proof. clear Hw Hmax. intros H1 H2 HN. unfold Model.get, put. destruct (list_eq_dec N.eq_dec (key w id) (key w id')) as [E|_]; [|reflexivity]. now apply le_enc_inj in E. Qed.
  Lemma set_internal_ok t id ns buf : fits w id -> Forall (fits w) ns -> length ns <= max -> buffer buf ->
    exists t' b', set_internal t id ns buf = (t', b', true) /\ buffer b' /\ forall id', fits w id' -> get t' id' = if N.eqb id' id then Some ns else get t id'.
  Proof.
    intros HI HN HL [LB FB]. unfold Model.set_internal. destruct (Nat.ltb_spec (length buf) (dim max)); [lia|]. cbv zeta. set (b1 := ns ++ skipn (length ns) buf).
    assert (L1 : length b1 = dim max) by (unfold b1; rewrite app_length, skipn_length; unfold dim in *; lia).
    replace (dim max - 1) with max by (unfold dim; lia). rewrite (skipn_all2 (n := dim max) b1) by lia. set (b := firstn max b1 ++ [len_to_cell (length ns)]).
    assert (LF : length (firstn max b1) = max) by (rewrite firstn_length; unfold dim in *; lia).
    assert (L2 : length b = dim max) by (unfold b; rewrite app_length, LF; unfold dim; cbn; lia).
    assert (F1 : Forall (fits w) b1) by (unfold b1; apply Forall_app; split; [exact HN|]; rewrite <- (firstn_skipn (length ns) buf) in FB; apply Forall_app in FB; tauto).
    assert (F2 : Forall (fits w) b). { unfold b. apply Forall_app. split; [|constructor; [now apply cell_fits|constructor]]. rewrite <- (firstn_skipn max b1) in F1. apply Forall_app in F1. tauto. }
    do 2 eexists. split; [reflexivity|]. split; [now split|]. intros id' HI'. destruct (N.eqb_spec id' id) as [->|HD].
    - rewrite (firstn_all2 (n := dim max) b) by lia. rewrite (record_get _ id b (length ns)).
      + f_equal. unfold b. rewrite firstn_app, LF, firstn_firstn, Nat.min_l by exact HL. replace (length ns - max) with 0 by lia. rewrite firstn_O, app_nil_r. unfold b1. rewrite firstn_app, Nat.sub_diag, firstn_all, firstn_O. apply app_nil_r.
      + now split.
      + unfold b. rewrite nth_error_app2, LF, Nat.sub_diag by lia. reflexivity.
      + exact HL.
      + unfold put. destruct (list_eq_dec N.eq_dec (key w id) (key w id)); congruence.
    - apply get_other; congruence || assumption.
  Qed.
  Lemma add_full l : max <= length l -> forall ns, add_new max l ns = l.
  Proof. clear Hw Hmax. intros H ns. unfold add_new. induction ns as [|x ns IH]; cbn [fold_left]; [reflexivity|]. destruct (Nat.ltb_spec (length l) max); [lia|]. exact IH. Qed.
  Lemma push_all_ok ns : forall l a, length l <= max -> exists a', push_all l ns a = (add_new max l ns, a') /\ (a = true -> a' = true) /\ (a' = false -> add_new max l ns = l).
  Proof. clear Hw Hmax.
    induction ns as [|x ns IH]; intros l a HL; cbn [Model.push_all]; [exists a; unfold add_new; cbn; tauto|]. replace (dim max - 1) with max by (unfold dim; lia).
    destruct (Nat.eqb_spec (length l) max) as [E|E]; [exists a; rewrite add_full by lia; tauto|]. unfold add_new. cbn [fold_left]. destruct (Nat.ltb_spec (length l) max); [|lia]. cbn [andb]. fold (add_new max (if negb (existsb (N.eqb x) l) then l ++ [x] else l) ns). destruct (existsb (N.eqb x) l); cbn [negb].
    - apply IH, HL.
    - destruct (IH (l ++ [x]) true) as (a' & E1 & E2 & E3); [rewrite app_length; cbn; lia|]. exists a'. split; [exact E1|]. rewrite (E2 eq_refl). split; [reflexivity|discriminate].
  Qed.
  Lemma add_new_len ns : forall l, length l <= max -> length (add_new max l ns) <= max.
  Proof. clear Hw Hmax.
    unfold add_new. induction ns as [|x ns IH]; intros l HL; cbn [fold_left]; [exact HL|]. apply IH. destruct (Nat.ltb_spec (length l) max); cbn [andb]; [|exact HL]. destruct (existsb (N.eqb x) l); cbn [negb]; [exact HL|]. rewrite app_length. cbn. lia.
  Qed.
  Lemma add_new_fits ns : Forall (fits w) ns -> forall l, Forall (fits w) l -> Forall (fits w) (add_new max l ns).
  Proof. clear Hw Hmax.
    unfold add_new. induction 1 as [|x ns H _ IH]; intros l HL; cbn [fold_left]; [exact HL|]. apply IH. destruct ((length l <? max) && negb (existsb (N.eqb x) l)); [|exact HL]. apply Forall_app. split; [exact HL|now repeat constructor].
  Qed.
  Lemma does_all_app os : forall m o, does_all max m (os ++ [o]) = (fst (does max (fst (does_all max m os)) o), snd (does_all max m os) ++ [snd (does max (fst (does_all max m os)) o)]).
  Proof. clear Hw Hmax. induction os as [|p os IH]; intros m o; cbn [app does_all fst snd]; [reflexivity|]. rewrite IH. reflexivity. Qed.
End Records.

(** ** The invariant *)
Section Inv.
  Context (w max : nat) (Hw : 4 <= w) (Hmax : (N.of_nat max < 2 ^ 32)%N) (stripe : N -> nat) (progs : list (list op)).
  Definition entry_ops (h : list (nat * (op * out))) : list op := map (fun e => fst (snd e)) h.
  Definition entry_outs (h : list (nat * (op * out))) : list out := map (fun e => snd (snd e)) h.
  Definition after (h : list (nat * (op * out))) : store := fst (does_all max (fun _ => []) (entry_ops h)).
  (** The id a thread holds the lock for. *)
  Definition holds (p : pc) : option N := match p with Idle => None | Held o => Some (target o) | Have id _ _ | Release id => Some id end.
  (** The operation of a thread that is not in the history yet. *)
  Definition pending (p : pc) : list op := match p with Idle | Release _ => [] | Held o => [o] | Have id ns _ => [Append id ns] end.
  Definition sane (m : store) (th : thread) : Prop :=
    buffer w max (t_buf th) /\ Forall (op_fits w) (t_prog th) /\
    match t_pc th with
    | Idle | Release _ => True
    | Held (Get _) => False
    | Held o => op_fits w o
    | Have id ns l => op_fits w (Append id ns) /\ l = m id
    end.
  Record inv (s : state) : Prop := {
    v_outs : entry_outs (s_hist s) = snd (does_all max (fun _ => []) (entry_ops (s_hist s)));
    v_tree : forall id, fits w id -> get w max (s_tree s) id = Some (after (s_hist s) id);
    v_lists : forall id, length (after (s_hist s) id) <= max /\ Forall (fits w) (after (s_hist s) id);
    v_locks : forall k i, s_locks s k = Some i <-> exists id, holds (t_pc (s_threads s i)) = Some id /\ stripe id = k;
    v_sane : forall i, sane (after (s_hist s)) (s_threads s i);
    v_progs : forall i, nth i progs [] = ops_of i (s_hist s) ++ pending (t_pc (s_threads s i)) ++ t_prog (s_threads s i) }.
  Lemma upd_same {B} (f : nat -> B) i b : upd f i b i = b.
  Proof. clear Hw Hmax. unfold upd. now rewrite Nat.eqb_refl. Qed.
  Lemma upd_other {B} (f : nat -> B) i j b : i <> j -> upd f i b j = f j.
  Proof. clear Hw Hmax. intros H. unfold upd. now destruct (Nat.eqb_spec i j). Qed.
  Lemma after_app h i o r : after (h ++ [(i, (o, r))]) = fst (does max (after h) o).
  Proof. clear Hw Hmax. unfold after, entry_ops. rewrite map_app. cbn [map fst snd]. now rewrite does_all_app. Qed.
  Lemma outs_app h i o r : entry_outs h = snd (does_all max (fun _ => []) (entry_ops h)) -> r = snd (does max (after h) o) -> entry_outs (h ++ [(i, (o, r))]) = snd (does_all max (fun _ => []) (entry_ops (h ++ [(i, (o, r))]))).
  Proof. clear Hw Hmax. intros H ->. unfold entry_outs, entry_ops in *. rewrite !map_app. cbn [map fst snd]. rewrite does_all_app. cbn [snd]. now rewrite H. Qed.
  Lemma ops_app i h j o r : ops_of i (h ++ [(j, (o, r))]) = ops_of i h ++ (if j =? i then [o] else []).
  Proof. clear Hw Hmax. unfold ops_of. rewrite filter_app, map_app. cbn [filter fst]. now destruct (j =? i). Qed.
  (** A step that neither takes nor gives back a lock. *)
  Lemma keep_locks s t h th i : inv s -> holds (t_pc th) = holds (t_pc (s_threads s i)) ->
    forall k j, s_locks s k = Some j <-> exists id, holds (t_pc (s_threads (mkS t (s_locks s) (upd (s_threads s) i th) h) j)) = Some id /\ stripe id = k.
  Proof. clear Hw Hmax. intros V H k j. cbn [s_threads]. rewrite (v_locks s V k j). destruct (Nat.eq_dec i j) as [<-|D]; [rewrite upd_same, H|rewrite upd_other by exact D]; reflexivity. Qed.
  (** Two threads do not hold the same id. *)
  Lemma alone s i j id : inv s -> holds (t_pc (s_threads s i)) = Some id -> holds (t_pc (s_threads s j)) = Some id -> i = j.
  Proof. clear Hw Hmax. intros V H1 H2. assert (A : s_locks s (stripe id) = Some i) by (apply (v_locks s V); now exists id). assert (B : s_locks s (stripe id) = Some j) by (apply (v_locks s V); now exists id). congruence. Qed.
  (** A write to an id whose lock is held leaves the others' lists alone. *)
  Lemma sane_others s i o : inv s -> holds (t_pc (s_threads s i)) = Some (target o) -> forall j, i <> j -> sane (fst (does max (after (s_hist s)) o)) (s_threads s j).
  Proof. clear Hw Hmax.
    intros V HH j D. pose proof (v_sane s V j) as (B1 & B2 & B3). split; [exact B1|]. split; [exact B2|]. destruct (t_pc (s_threads s j)) as [|[]|id ns l|] eqn:EP; try exact B3. destruct B3 as [F ->]. split; [exact F|].
    assert (NE : id <> target o) by (intros ->; apply D, (alone s i j (target o) V HH); now rewrite EP). destruct o as [id'|id' ns'|id' ns']; cbn [does fst target] in *; [reflexivity| |unfold assign; now destruct (N.eqb_spec id id')]. destruct (length ns' <=? max); cbn [fst]; [|reflexivity]. unfold assign. now destruct (N.eqb_spec id id').
  Qed.
  Lemma lists_after m o : (forall id, length (m id) <= max /\ Forall (fits w) (m id)) -> op_fits w o -> forall id, length (fst (does max m o) id) <= max /\ Forall (fits w) (fst (does max m o) id).
  Proof. clear Hw Hmax.
    intros H F id. destruct o as [id'|id' ns'|id' ns']; cbn [does fst op_fits] in *; [apply H| |].
    - destruct (Nat.leb_spec (length ns') max); cbn [fst]; [|apply H]. unfold assign. destruct (N.eqb id id'); [tauto|apply H].
    - unfold assign. destruct (N.eqb id id'); [|apply H]. destruct (H id'). split; [now apply add_new_len|now apply add_new_fits].
  Qed.
  Lemma init_inv : Forall (Forall (op_fits w)) progs -> inv (init max progs).
  Proof. clear Hmax.
    intros HF. constructor; cbn [init s_hist s_tree s_locks s_threads].
    - reflexivity.
    - intros id _. reflexivity.
    - intros id. cbn. split; [lia|constructor].
    - intros k i. cbn. split; [discriminate|]. intros (id & E & _). discriminate.
    - intros i. split; [|split]; cbn; [|destruct (Nat.lt_ge_cases i (length progs)) as [L|L]; [rewrite Forall_forall in HF; apply HF, nth_In, L|rewrite nth_overflow by exact L; constructor]|exact I].
      unfold buffer. cbn [t_buf]. split; [exact (repeat_length 0%N (dim max))|]. apply Forall_forall. intros x X. apply (repeat_spec (dim max) 0%N x) in X. subst x. apply pow256_pos.
    - intros i. reflexivity.
  Qed.
  Lemma step_inv s i : inv s -> inv (step w max stripe s i).
  Proof.
    intros V. pose proof (v_sane s V i) as (SB & SP & SC). pose proof (v_progs s V i) as PI. unfold step. destruct (s_threads s i) as [prog p buf] eqn:ET. cbn [t_pc t_prog t_buf] in *.
    destruct p as [|o|id ns l|id].
    - destruct prog as [|o rest]; [exact V|]. inversion SP as [|? ? FO FR]; subst.
      assert (LK : (exists id, o = Get id) \/ inv (match s_locks s (stripe (target o)) with Some _ => s | None => mkS (s_tree s) (upd (s_locks s) (stripe (target o)) (Some i)) (upd (s_threads s) i (mkT rest (Held o) buf)) (s_hist s) end)).
      { assert (NG : (exists id, o = Get id) \/ match o with Get _ => False | _ => True end) by (destruct o; [left; now eexists|now right..]). destruct NG as [NG|NG]; [now left|right]. destruct (s_locks s (stripe (target o))) as [k|] eqn:EL; [exact V|]. constructor; cbn [s_hist s_tree s_locks s_threads].
        - apply (v_outs s V).
        - apply (v_tree s V).
        - apply (v_lists s V).
        - intros k j. unfold upd at 1. destruct (Nat.eqb_spec (stripe (target o)) k) as [<-|D].
          + split; [intros [= <-]; exists (target o); rewrite upd_same; cbn; tauto|]. intros (id & E & SI). destruct (Nat.eq_dec i j) as [->|D]; [reflexivity|]. rewrite upd_other in E by exact D. assert (X : s_locks s (stripe (target o)) = Some j) by (apply (v_locks s V); now exists id). congruence.
          + rewrite (v_locks s V k j). destruct (Nat.eq_dec i j) as [<-|D']; [rewrite upd_same, ET; cbn; split; intros (id & E & SI); [discriminate|injection E as <-; congruence]|now rewrite upd_other].
        - intros j. destruct (Nat.eq_dec i j) as [<-|D]; [rewrite upd_same; split; [exact SB|]; split; [exact FR|]; cbn; destruct o; tauto|rewrite upd_other by exact D; apply (v_sane s V)].
        - intros j. destruct (Nat.eq_dec i j) as [<-|D]; [rewrite upd_same; cbn [t_pc t_prog pending app]; exact PI|rewrite upd_other by exact D; apply (v_progs s V)]. }
      destruct o as [id|id ns|id ns]; [|destruct LK as [(? & [=])|LK]; exact LK..]. cbn [op_fits] in FO. rewrite (v_tree s V id FO). constructor; cbn [s_hist s_tree s_locks s_threads]; rewrite ?after_app; cbn [does fst].
      + apply outs_app; [apply (v_outs s V)|reflexivity].
      + apply (v_tree s V).
      + apply (v_lists s V).
      + apply (keep_locks s (s_tree s) [] _ i V). now rewrite ET.
      + intros j. destruct (Nat.eq_dec i j) as [<-|D]; [rewrite upd_same; now split|rewrite upd_other by exact D; apply (v_sane s V)].
      + intros j. rewrite ops_app. destruct (Nat.eqb_spec i j) as [<-|D]; [rewrite upd_same; cbn [t_pc t_prog pending app]; rewrite <- app_assoc; exact PI|rewrite upd_other, app_nil_r by exact D; apply (v_progs s V)].
    - destruct o as [id|id ns|id ns]; [elim SC| |].
      + destruct SC as [FI FN]. assert (HH : holds (t_pc (s_threads s i)) = Some (target (Set_ id ns))) by now rewrite ET.
        assert (ST : exists t b ok, set w max (s_tree s) id ns buf = (t, b, ok) /\ buffer w max b /\ (if ok then ODone else OErr) = snd (does max (after (s_hist s)) (Set_ id ns)) /\ forall id', fits w id' -> get w max t id' = Some (fst (does max (after (s_hist s)) (Set_ id ns)) id')).
        { unfold set. replace (dim max - 1) with max by (unfold dim; lia). cbn [does]. destruct (Nat.ltb_spec max (length ns)) as [L|L].
          - destruct (Nat.leb_spec (length ns) max); [lia|]. do 3 eexists. split; [reflexivity|]. split; [exact SB|]. split; [reflexivity|apply (v_tree s V)].
          - destruct (Nat.leb_spec (length ns) max); [|lia]. destruct (set_internal_ok w max Hw Hmax (s_tree s) id ns buf FI FN L SB) as (t & b & E & B & G). exists t, b, true. split; [exact E|]. split; [exact B|]. split; [reflexivity|]. intros id' F'. rewrite (G id' F'). cbn [fst]. unfold assign. destruct (N.eqb id' id); [reflexivity|now apply (v_tree s V)]. }
        destruct ST as (t & b & ok & -> & B & OK & G). constructor; cbn [s_hist s_tree s_locks s_threads]; rewrite ?after_app.
        * apply outs_app; [apply (v_outs s V)|exact OK].
        * exact G.
        * apply lists_after; [apply (v_lists s V)|now split].
        * apply (keep_locks s t [] _ i V). now rewrite ET.
        * intros j. destruct (Nat.eq_dec i j) as [<-|D]; [rewrite upd_same; now split|rewrite upd_other by exact D; now apply (sane_others s i)].
        * intros j. rewrite ops_app. destruct (Nat.eqb_spec i j) as [<-|D]; [rewrite upd_same; cbn [t_pc t_prog pending app] in *; rewrite <- app_assoc; exact PI|rewrite upd_other, app_nil_r by exact D; apply (v_progs s V)].
      + destruct SC as [FI FN]. rewrite (v_tree s V id FI). constructor; cbn [s_hist s_tree s_locks s_threads].
        * apply (v_outs s V).
        * apply (v_tree s V).
        * apply (v_lists s V).
        * apply (keep_locks s (s_tree s) [] _ i V). now rewrite ET.
        * intros j. destruct (Nat.eq_dec i j) as [<-|D]; [rewrite upd_same; split; [exact SB|]; split; [exact SP|]; cbn; tauto|rewrite upd_other by exact D; apply (v_sane s V)].
        * intros j. destruct (Nat.eq_dec i j) as [<-|D]; [rewrite upd_same; cbn [t_pc t_prog pending app] in *; exact PI|rewrite upd_other by exact D; apply (v_progs s V)].
    - destruct SC as [FA ->]. pose proof FA as FA'. cbn [op_fits] in FA. destruct FA as [FI FN]. assert (HH : holds (t_pc (s_threads s i)) = Some (target (Append id ns))) by now rewrite ET. destruct (v_lists s V id) as [VL VF].
      destruct (push_all_ok max ns (after (s_hist s) id) false VL) as (a & -> & _ & NA).
      assert (ST : exists t b ok, (if a then set_internal w max (s_tree s) id (add_new max (after (s_hist s) id) ns) buf else (s_tree s, buf, true)) = (t, b, ok) /\ buffer w max b /\ (if ok then ODone else OErr) = snd (does max (after (s_hist s)) (Append id ns)) /\ forall id', fits w id' -> get w max t id' = Some (fst (does max (after (s_hist s)) (Append id ns)) id')).
      { cbn [does fst snd]. destruct a.
        - destruct (set_internal_ok w max Hw Hmax (s_tree s) id (add_new max (after (s_hist s) id) ns) buf FI (add_new_fits w max ns FN _ VF) (add_new_len max ns _ VL) SB) as (t & b & E & B & G). exists t, b, true. split; [exact E|]. split; [exact B|]. split; [reflexivity|]. intros id' F'. rewrite (G id' F'). unfold assign. destruct (N.eqb id' id); [reflexivity|now apply (v_tree s V)].
        - do 3 eexists. split; [reflexivity|]. split; [exact SB|]. split; [reflexivity|]. intros id' F'. rewrite (v_tree s V id' F'). unfold assign. destruct (N.eqb_spec id' id) as [->|]; [now rewrite (NA eq_refl)|reflexivity]. }
      destruct ST as (t & b & ok & -> & B & OK & G). constructor; cbn [s_hist s_tree s_locks s_threads]; rewrite ?after_app.
      + apply outs_app; [apply (v_outs s V)|exact OK].
      + exact G.
      + apply lists_after; [apply (v_lists s V)|exact FA'].
      + apply (keep_locks s t [] _ i V). now rewrite ET.
      + intros j. destruct (Nat.eq_dec i j) as [<-|D]; [rewrite upd_same; now split|rewrite upd_other by exact D; now apply (sane_others s i)].
      + intros j. rewrite ops_app. destruct (Nat.eqb_spec i j) as [<-|D]; [rewrite upd_same; cbn [t_pc t_prog pending app] in *; rewrite <- app_assoc; exact PI|rewrite upd_other, app_nil_r by exact D; apply (v_progs s V)].
    - constructor; cbn [s_hist s_tree s_locks s_threads].
      + apply (v_outs s V).
      + apply (v_tree s V).
      + apply (v_lists s V).
      + intros k j. unfold upd at 1. destruct (Nat.eqb_spec (stripe id) k) as [<-|D].
        * split; [discriminate|]. intros (id' & E & SI). destruct (Nat.eq_dec i j) as [->|D]; [rewrite upd_same in E; discriminate|]. rewrite upd_other in E by exact D. exfalso. apply D.
          assert (X : s_locks s (stripe id) = Some j) by (apply (v_locks s V); now exists id'). assert (Y : s_locks s (stripe id) = Some i) by (apply (v_locks s V); exists id; now rewrite ET). congruence.
        * rewrite (v_locks s V k j). destruct (Nat.eq_dec i j) as [<-|D']; [rewrite upd_same, ET; cbn; split; intros (id' & E & SI); [injection E as <-; congruence|discriminate]|now rewrite upd_other].
      + intros j. destruct (Nat.eq_dec i j) as [<-|D]; [rewrite upd_same; now split|rewrite upd_other by exact D; apply (v_sane s V)].
      + intros j. destruct (Nat.eq_dec i j) as [<-|D]; [rewrite upd_same; cbn [t_pc t_prog pending app] in *; exact PI|rewrite upd_other by exact D; apply (v_progs s V)].
  Qed.
  Lemma run_inv sched : forall s, inv s -> inv (run w max stripe s sched).
  Proof. induction sched as [|i sched IH]; intros s V; [exact V|]. cbn. apply IH, step_inv, V. Qed.
End Inv.
