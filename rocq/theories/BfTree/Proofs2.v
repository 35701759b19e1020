(** The invariant of the two vector stores. *)
From Verif.Lib Require Import Base.
From Verif.BfTree Require Import Model2 Spec2.
Local Open Scope nat_scope.

Lemma vupd_same {B} (f : nat -> B) i b : vupd f i b i = b.
Proof. unfold vupd. now rewrite Nat.eqb_refl. Qed.
Lemma vupd_other {B} (f : nat -> B) i j b : i <> j -> vupd f i b j = f j.
Proof. intros H. unfold vupd. now destruct (Nat.eqb_spec i j). Qed.
Lemma forget_found {B} (f : nat -> slot B) id i : found (forget f id i) = found (f i).
Proof. unfold forget. destruct (f id) eqn:E; try reflexivity. unfold vupd. destruct (Nat.eqb_spec id i) as [<-|]; [now rewrite E|reflexivity]. Qed.

Section Inv.
  Context {T C : Type} (compress : list T -> option C) (dim total : nat) (stripe : nat -> nat).
  Notation vstate := (vstate (T := T) (C := C)).
  Definition vops (h : list (nat * (vop T * vout T C))) : list (vop T) := map (fun e => fst (snd e)) h.
  Definition vouts (h : list (nat * (vop T * vout T C))) : list (vout T C) := map (fun e => snd (snd e)) h.
  Definition vafter (h : list (nat * (vop T * vout T C))) : vectors := fst (acts_all compress dim total (fun _ => None) (vops h)).
  Definition vholds (p : vpc T) : option nat := match p with VIdle => None | VHeld o | VHalf o => Some (vtarget o) | VRelease id => Some id end.
  Record vinv (s : vstate) : Prop := {
    i_outs : Forall2 answers (vouts (v_hist s)) (snd (acts_all compress dim total (fun _ => None) (vops (v_hist s))));
    i_full : forall id, found (v_full s id) = vafter (v_hist s) id;
    i_locks : forall k i, v_lock s k = Some i <-> exists id, vholds (v_pc (v_thr s i)) = Some id /\ stripe id = k;
    i_pc : forall i, match v_pc (v_thr s i) with VHeld (Full _) | VHeld (Quant _) | VHalf (Full _) | VHalf (Quant _) => False | VHalf (SetEl id v) => found (v_full s id) = Some v | VHalf (Delete id) => found (v_full s id) = None | _ => True end;
    i_agree : forall id, (forall v, compress v <> None) -> (forall i o, v_pc (v_thr s i) = VHalf o -> vtarget o <> id) -> agree compress (found (v_full s id)) (found (v_quant s id));
    i_from : forall id c, found (v_quant s id) = Some c -> exists v, In (SetEl id v) (vops (v_hist s)) /\ compress v = Some c /\ (length v =? dim) && (id <? total) = true;
    i_half : forall i id v, v_pc (v_thr s i) = VHalf (SetEl id v) -> In (SetEl id v) (vops (v_hist s)) /\ (length v =? dim) && (id <? total) = true }.
  Lemma acts_app os : forall m o, acts_all compress dim total m (os ++ [o]) = (fst (acts compress dim total (fst (acts_all compress dim total m os)) o), snd (acts_all compress dim total m os) ++ [snd (acts compress dim total (fst (acts_all compress dim total m os)) o)]).
  Proof. induction os as [|p os IH]; intros m o; cbn [app acts_all fst snd]; [reflexivity|]. now rewrite IH. Qed.
  Lemma vafter_app h i o r : vafter (h ++ [(i, (o, r))]) = fst (acts compress dim total (vafter h) o).
  Proof. unfold vafter, vops. rewrite map_app. cbn [map fst snd]. now rewrite acts_app. Qed.
  Lemma vops_app h i o r : vops (h ++ [(i, (o, r))]) = vops h ++ [o].
  Proof. unfold vops. now rewrite map_app. Qed.
  Lemma vouts_app h i o r : Forall2 answers (vouts h) (snd (acts_all compress dim total (fun _ => None) (vops h))) -> answers r (snd (acts compress dim total (vafter h) o)) ->
    Forall2 answers (vouts (h ++ [(i, (o, r))])) (snd (acts_all compress dim total (fun _ => None) (vops (h ++ [(i, (o, r))])))).
  Proof. intros H A. rewrite vops_app, acts_app. unfold vouts. rewrite map_app. cbn [snd map]. apply Forall2_app; [exact H|]. constructor; [exact A|constructor]. Qed.
  Lemma vkeep (s : vstate) th i : vinv s -> vholds (v_pc th) = vholds (v_pc (v_thr s i)) -> forall k j, v_lock s k = Some j <-> exists id, vholds (v_pc (vupd (v_thr s) i th j)) = Some id /\ stripe id = k.
  Proof. intros V H k j. rewrite (i_locks s V k j). destruct (Nat.eq_dec i j) as [<-|D]; [rewrite vupd_same, H|rewrite vupd_other by exact D]; reflexivity. Qed.
  Lemma valone (s : vstate) i j id : vinv s -> vholds (v_pc (v_thr s i)) = Some id -> vholds (v_pc (v_thr s j)) = Some id -> i = j.
  Proof. intros V H1 H2. assert (A : v_lock s (stripe id) = Some i) by (apply (i_locks s V); now exists id). assert (B : v_lock s (stripe id) = Some j) by (apply (i_locks s V); now exists id). congruence. Qed.
  Lemma vinit_inv progs : vinv (vinit progs).
  Proof.
    constructor.
    - apply Forall2_nil.
    - reflexivity.
    - intros k i. split; [discriminate|intros (id & E & _); discriminate].
    - intros i. exact I.
    - intros id _ _. reflexivity.
    - discriminate.
    - discriminate.
  Qed.
  (** The other threads' halves do not concern an id that is locked. *)
  Lemma others (s : vstate) i id j o : vinv s -> vholds (v_pc (v_thr s i)) = Some id -> i <> j -> v_pc (v_thr s j) = VHalf o -> vtarget o <> id.
  Proof. intros V H D E <-. apply D, (valone s i j (vtarget o) V H). now rewrite E. Qed.
  Lemma vstep_inv s i : vinv s -> vinv (vstep compress dim total stripe s i).
  Proof.
    intros V. pose proof (i_pc s V i) as PC. unfold vstep. destruct (v_thr s i) as [prog p] eqn:ET. cbn [v_pc v_prog] in *.
    assert (KEEP : forall th j, i <> j -> vupd (v_thr s) i th j = v_thr s j) by (intros; now apply vupd_other).
    (* a step that changes neither store, and logs nothing or a read *)
    assert (SAME : forall th l h, (forall o, v_pc th <> VHalf o) -> (forall k j, l k = Some j <-> exists id, vholds (v_pc (vupd (v_thr s) i th j)) = Some id /\ stripe id = k) ->
      match v_pc th with VHeld (Full _) | VHeld (Quant _) => False | _ => True end -> (forall o, p <> VHalf o) ->
      Forall2 answers (vouts h) (snd (acts_all compress dim total (fun _ => None) (vops h))) -> (forall id, vafter h id = vafter (v_hist s) id) -> incl (vops (v_hist s)) (vops h) ->
      vinv (mkV (v_full s) (v_quant s) l (vupd (v_thr s) i th) h)).
    { intros th l h NH HL HP HI HO HA HS. constructor; cbn [v_full v_quant v_lock v_thr v_hist].
      - exact HO.
      - intros id. rewrite HA. apply (i_full s V).
      - exact HL.
      - intros j. destruct (Nat.eq_dec i j) as [<-|D]; [rewrite vupd_same; destruct (v_pc th) as [|[]|o|] eqn:EP; try exact HP; try exact I; now elim (NH o)|rewrite KEEP by exact D; apply (i_pc s V)].
      - intros id CT H. apply (i_agree s V id CT). intros j o E. destruct (Nat.eq_dec i j) as [<-|D]; [rewrite ET in E; cbn in E; now apply HI in E|]. apply (H j o). now rewrite KEEP.
      - intros id c E. destruct (i_from s V id c E) as (v & I1 & I2). exists v. split; [now apply HS|exact I2].
      - intros j id v E. destruct (Nat.eq_dec i j) as [<-|D]; [rewrite vupd_same in E; now apply NH in E|rewrite KEEP in E by exact D; destruct (i_half s V j id v E) as [A B]; split; [now apply HS|exact B]]. }
    destruct p as [|o|o|id].
    - destruct prog as [|o rest]; [exact V|].
      assert (LK : vinv (match v_lock s (stripe (vtarget o)) with Some _ => s | None => mkV (v_full s) (v_quant s) (vupd (v_lock s) (stripe (vtarget o)) (Some i)) (vupd (v_thr s) i (mkVT rest (VHeld o))) (v_hist s) end) \/ match o with Full _ | Quant _ => True | _ => False end).
      { assert (NG : match o with Full _ | Quant _ => True | _ => False end \/ match o with Full _ | Quant _ => False | _ => True end) by (destruct o; tauto). destruct NG as [NG|NG]; [now right|left]. destruct (v_lock s (stripe (vtarget o))) as [k|] eqn:EL; [exact V|]. apply SAME.
        - discriminate.
        - intros k j. unfold vupd at 1. destruct (Nat.eqb_spec (stripe (vtarget o)) k) as [<-|D].
          + split; [intros [= <-]; exists (vtarget o); rewrite vupd_same; cbn; tauto|]. intros (id & E & SI). destruct (Nat.eq_dec i j) as [->|D]; [reflexivity|]. rewrite KEEP in E by exact D. assert (X : v_lock s (stripe (vtarget o)) = Some j) by (apply (i_locks s V); now exists id). congruence.
          + rewrite (i_locks s V k j). destruct (Nat.eq_dec i j) as [<-|D']; [rewrite vupd_same, ET; cbn; split; intros (id & E & SI); [discriminate|injection E as <-; congruence]|now rewrite KEEP].
        - cbn. destruct o; tauto.
        - discriminate.
        - apply (i_outs s V).
        - reflexivity.
        - apply incl_refl. }
      destruct o as [id v|id|id|id]; [destruct LK as [LK|[]]; exact LK..| |]; clear LK; (apply SAME; [discriminate|intros k j; apply (vkeep s _ i V); now rewrite ET|exact I|discriminate|apply vouts_app; [apply (i_outs s V)|cbn; rewrite ?(i_full s V); exact I || reflexivity]|intros j; rewrite vafter_app; reflexivity|rewrite vops_app; apply incl_appl, incl_refl]).
    - assert (HH : vholds (v_pc (v_thr s i)) = Some (vtarget o)) by now rewrite ET. destruct o as [id v|id|id|id]; [| |elim PC..].
      + destruct ((length v =? dim) && (id <? total)) eqn:EC.
        * constructor; cbn [v_full v_quant v_lock v_thr v_hist].
          -- apply vouts_app; [apply (i_outs s V)|]. cbn [acts]. rewrite EC. reflexivity.
          -- intros j. rewrite vafter_app. cbn [acts]. rewrite EC. cbn [fst]. rewrite (Nat.eqb_sym j id). unfold vupd. destruct (id =? j); [reflexivity|apply (i_full s V)].
          -- intros k j. apply (vkeep s _ i V). now rewrite ET.
          -- intros j. destruct (Nat.eq_dec i j) as [<-|D]; [rewrite vupd_same; cbn; now rewrite vupd_same|]. rewrite KEEP by exact D. pose proof (i_pc s V j) as PJ. destruct (v_pc (v_thr s j)) as [|[]|o|] eqn:EP; try exact PJ. assert (NE : vtarget o <> id) by exact (others s i id j o V HH D EP). destruct o; cbn in NE; try exact PJ; rewrite vupd_other by congruence; exact PJ.
          -- intros j CT H. assert (NJ : id <> j) by (apply (H i (SetEl id v)); now rewrite vupd_same). rewrite vupd_other by exact NJ. apply (i_agree s V j CT). intros k o E. destruct (Nat.eq_dec i k) as [<-|D]; [rewrite ET in E; discriminate|]. apply (H k o). now rewrite KEEP.
          -- intros j c E. destruct (i_from s V j c E) as (v' & I1 & I2). exists v'. split; [rewrite vops_app; apply in_or_app; now left|exact I2].
          -- intros j id' v' E. rewrite vops_app. destruct (Nat.eq_dec i j) as [<-|D]; [rewrite vupd_same in E; cbn in E; injection E as <- <-; split; [apply in_or_app; right; now left|exact EC]|rewrite KEEP in E by exact D; destruct (i_half s V j id' v' E) as [A B]; split; [apply in_or_app; now left|exact B]].
        * apply SAME; [discriminate|intros k j; apply (vkeep s _ i V); now rewrite ET|exact I|discriminate|apply vouts_app; [apply (i_outs s V)|cbn [acts]; rewrite EC; reflexivity]|intros j; rewrite vafter_app; cbn [acts]; rewrite EC; reflexivity|rewrite vops_app; apply incl_appl, incl_refl].
      + constructor; cbn [v_full v_quant v_lock v_thr v_hist].
        * apply vouts_app; [apply (i_outs s V)|reflexivity].
        * intros j. rewrite vafter_app. cbn [acts fst]. rewrite (Nat.eqb_sym j id). unfold vupd. destruct (id =? j); [reflexivity|apply (i_full s V)].
        * intros k j. apply (vkeep s _ i V). now rewrite ET.
        * intros j. destruct (Nat.eq_dec i j) as [<-|D]; [rewrite vupd_same; cbn; now rewrite vupd_same|]. rewrite KEEP by exact D. pose proof (i_pc s V j) as PJ. destruct (v_pc (v_thr s j)) as [|[]|o|] eqn:EP; try exact PJ. assert (NE : vtarget o <> id) by exact (others s i id j o V HH D EP). destruct o; cbn in NE; try exact PJ; rewrite vupd_other by congruence; exact PJ.
        * intros j CT H. assert (NJ : id <> j) by (apply (H i (Delete id)); now rewrite vupd_same). rewrite vupd_other by exact NJ. apply (i_agree s V j CT). intros k o E. destruct (Nat.eq_dec i k) as [<-|D]; [rewrite ET in E; discriminate|]. apply (H k o). now rewrite KEEP.
        * intros j c E. destruct (i_from s V j c E) as (v' & I1 & I2). exists v'. split; [rewrite vops_app; apply in_or_app; now left|exact I2].
        * intros j id' v' E. rewrite vops_app. destruct (Nat.eq_dec i j) as [<-|D]; [rewrite vupd_same in E; discriminate|rewrite KEEP in E by exact D; destruct (i_half s V j id' v' E) as [A B]; split; [apply in_or_app; now left|exact B]].
    - assert (HH : vholds (v_pc (v_thr s i)) = Some (vtarget o)) by now rewrite ET.
      assert (FIN : forall q, (forall j, j <> vtarget o -> found (q j) = found (v_quant s j)) -> ((forall v, compress v <> None) -> agree compress (found (v_full s (vtarget o))) (found (q (vtarget o)))) -> (forall c, found (q (vtarget o)) = Some c -> exists v, In (SetEl (vtarget o) v) (vops (v_hist s)) /\ compress v = Some c /\ (length v =? dim) && (vtarget o <? total) = true) ->
        vinv (mkV (v_full s) q (v_lock s) (vupd (v_thr s) i (mkVT prog (VRelease (vtarget o)))) (v_hist s))).
      { intros q Q1 Q2 Q3. constructor; cbn [v_full v_quant v_lock v_thr v_hist].
        - apply (i_outs s V).
        - apply (i_full s V).
        - intros k j. apply (vkeep s _ i V). now rewrite ET.
        - intros j. destruct (Nat.eq_dec i j) as [<-|D]; [rewrite vupd_same; exact I|rewrite KEEP by exact D; apply (i_pc s V)].
        - intros j CT H. destruct (Nat.eq_dec j (vtarget o)) as [->|NJ]; [now apply Q2|]. rewrite Q1 by exact NJ. apply (i_agree s V j CT). intros k o' E. destruct (Nat.eq_dec i k) as [<-|D]; [rewrite ET in E; cbn in E; congruence|]. apply (H k o'). now rewrite KEEP.
        - intros j c E. destruct (Nat.eq_dec j (vtarget o)) as [->|NJ]; [now apply Q3|]. rewrite Q1 in E by exact NJ. now apply (i_from s V).
        - intros j id' v' E. destruct (Nat.eq_dec i j) as [<-|D]; [rewrite vupd_same in E; discriminate|rewrite KEEP in E by exact D; now apply (i_half s V j)]. }
      destruct o as [id v|id|id|id]; [| |elim PC..]; cbn [vtarget] in *; apply FIN.
      + intros j D. destruct (compress v); [now rewrite vupd_other by congruence|reflexivity].
      + intros CT. rewrite PC. cbn [agree]. destruct (compress v) as [c|] eqn:E; [now rewrite vupd_same|now elim (CT v)].
      + intros c E. destruct (compress v) as [c'|] eqn:EC; [|now apply (i_from s V)]. rewrite vupd_same in E. cbn in E. injection E as <-. exists v. assert (X : In (SetEl id v) (vops (v_hist s)) /\ (length v =? dim) && (id <? total) = true) by (apply (i_half s V i); now rewrite ET). split; [apply X|]. split; [exact EC|apply X].
      + intros j D. now rewrite vupd_other by congruence.
      + intros CT. rewrite PC, vupd_same. reflexivity.
      + intros c E. rewrite vupd_same in E. discriminate.
    - apply SAME.
      + discriminate.
      + intros k j. unfold vupd at 1. destruct (Nat.eqb_spec (stripe id) k) as [<-|D].
        * split; [discriminate|]. intros (id' & E & SI). destruct (Nat.eq_dec i j) as [->|D]; [rewrite vupd_same in E; discriminate|]. rewrite KEEP in E by exact D. exfalso. apply D.
          assert (X : v_lock s (stripe id) = Some j) by (apply (i_locks s V); now exists id'). assert (Y : v_lock s (stripe id) = Some i) by (apply (i_locks s V); exists id; now rewrite ET). congruence.
        * rewrite (i_locks s V k j). destruct (Nat.eq_dec i j) as [<-|D']; [rewrite vupd_same, ET; cbn; split; intros (id' & E & SI); [injection E as <-; congruence|discriminate]|now rewrite KEEP].
      + exact I.
      + discriminate.
      + apply (i_outs s V).
      + reflexivity.
      + apply incl_refl.
  Qed.
  Lemma vmove_inv s m : vinv s -> vinv (vmove compress dim total stripe s m).
  Proof.
    intros V. destruct m as [i|id|id]; [now apply vstep_inv|..]; cbn [vmove]; destruct V as [V1 V2 V3 V4 V5 V6 V7]; constructor; cbn [v_full v_quant v_lock v_thr v_hist]; try assumption.
    - intros j. rewrite forget_found. apply V2.
    - intros j. pose proof (V4 j) as P. destruct (v_pc (v_thr s j)) as [|[]|[]|]; rewrite ?forget_found; exact P.
    - intros j CT H. rewrite forget_found. now apply V5.
    - intros j CT H. rewrite forget_found. now apply V5.
    - intros j c E. rewrite forget_found in E. now apply V6.
  Qed.
  Lemma vrun_inv ms : forall s, vinv s -> vinv (vrun compress dim total stripe s ms).
  Proof. induction ms as [|m ms IH]; intros s V; [exact V|]. cbn. apply IH, vmove_inv, V. Qed.
  (** Each thread's operations are logged in its order. *)
  Definition vpend (p : vpc T) : list (vop T) := match p with VHeld o => [o] | _ => [] end.
  Definition vordered (progs : list (list (vop T))) (s : vstate) : Prop := forall i, nth i progs [] = vops_of i (v_hist s) ++ vpend (v_pc (v_thr s i)) ++ v_prog (v_thr s i).
  Lemma vops_of_app i j (h : list (nat * (vop T * vout T C))) o r : vops_of i (h ++ [(j, (o, r))]) = vops_of i h ++ (if j =? i then [o] else []).
  Proof. unfold vops_of. rewrite filter_app, map_app. cbn [filter fst]. now destruct (j =? i). Qed.
  Lemma vordered_put progs (s : vstate) i th f q l h k : vordered progs s -> (forall j, vops_of j h = vops_of j (v_hist s) ++ (if i =? j then k else [])) ->
    vpend (v_pc (v_thr s i)) ++ v_prog (v_thr s i) = k ++ vpend (v_pc th) ++ v_prog th -> vordered progs (mkV f q l (vupd (v_thr s) i th) h).
  Proof.
    intros O H E j. cbn [v_hist v_thr]. rewrite H, (O j). destruct (Nat.eqb_spec i j) as [<-|D].
    - now rewrite vupd_same, E, <- app_assoc.
    - rewrite vupd_other by exact D. now rewrite app_nil_r.
  Qed.
  Lemma vordered_step progs s i : vinv s -> vordered progs s -> vordered progs (vstep compress dim total stripe s i).
  Proof.
    intros V O. pose proof (i_pc s V i) as PC. unfold vstep. destruct (v_thr s i) as [prog p] eqn:ET. cbn [v_pc v_prog] in *.
    assert (N0 : forall j, vops_of j (v_hist s) = vops_of j (v_hist s) ++ (if i =? j then [] else [])) by (intros j; destruct (i =? j); now rewrite app_nil_r).
    destruct p as [|o|o|id].
    - destruct prog as [|o rest]; [exact O|]. destruct o as [id v|id|id|id]; cbn [vtarget].
      + destruct (v_lock s (stripe id)); [exact O|]. apply (vordered_put progs s i _ _ _ _ _ [] O N0). now rewrite ET.
      + destruct (v_lock s (stripe id)); [exact O|]. apply (vordered_put progs s i _ _ _ _ _ [] O N0). now rewrite ET.
      + apply (vordered_put progs s i _ _ _ _ _ [Full id] O); [intros j; apply vops_of_app|now rewrite ET].
      + apply (vordered_put progs s i _ _ _ _ _ [Quant id] O); [intros j; apply vops_of_app|now rewrite ET].
    - destruct o as [id v|id|id|id]; [| |elim PC..].
      + destruct (_ && _); (apply (vordered_put progs s i _ _ _ _ _ [SetEl id v] O); [intros j; apply vops_of_app|now rewrite ET]).
      + apply (vordered_put progs s i _ _ _ _ _ [Delete id] O); [intros j; apply vops_of_app|now rewrite ET].
    - destruct o as [id v|id|id|id]; [| |elim PC..]; (apply (vordered_put progs s i _ _ _ _ _ [] O N0); now rewrite ET).
    - apply (vordered_put progs s i _ _ _ _ _ [] O N0). now rewrite ET.
  Qed.
  Lemma vrun_ordered progs ms : forall s, vinv s -> vordered progs s -> vordered progs (vrun compress dim total stripe s ms).
  Proof. induction ms as [|m ms IH]; intros s V O; [exact O|]. cbn. apply IH; [now apply vmove_inv|]. destruct m; [now apply vordered_step|exact O..]. Qed.
  Lemma set_stays os : (forall o, In o os -> forall id, o <> Delete id) -> forall m id v, In (SetEl id v) os \/ m id <> None -> (length v =? dim) && (id <? total) = true -> fst (acts_all compress dim total m os) id <> None.
  Proof.
    induction os as [|o os IH]; intros ND m id v H E; cbn [acts_all fst]; [destruct H as [[]|H]; exact H|].
    assert (ND' : forall o, In o os -> forall id, o <> Delete id) by (intros; apply ND; now right).
    destruct H as [[->|H]|H].
    - apply (IH ND' _ id v); [|exact E]. right. cbn [acts]. rewrite E. cbn [fst]. now rewrite Nat.eqb_refl.
    - apply (IH ND' _ id v); [now left|exact E].
    - apply (IH ND' _ id v); [|exact E]. right. destruct o as [i w|i|i|i]; cbn [acts].
      + destruct ((length w =? dim) && (i <? total)); [|exact H]. change (fst _ id) with (if id =? i then Some w else m id). destruct (id =? i); [discriminate|exact H].
      + now elim (ND (Delete i) (or_introl eq_refl) i).
      + exact H.
      + exact H.
  Qed.
End Inv.
