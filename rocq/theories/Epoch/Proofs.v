(** Invariants of the registry model. *)
From Verif.Lib Require Import Base.
From Verif.Epoch Require Import Model Spec.
Local Open Scope N_scope.

Ltac Zify.zify_post_hook ::= Z.div_mod_to_equations.

Lemma u64_facts : two64 = u64_max + 1 /\ 8 < u64_max /\ two64 mod 4 = 0.
Proof. vm_compute. repeat split; reflexivity. Qed.

Opaque two64 u64_max.

Definition owns (p : agent) : option nat :=
  match p with
  | GRecheck s _ _ | GStore s _ | GHeld s _ => Some s
  | _ => None
  end.

Definition fin (p : agent) : option (nat * N) :=
  match p with
  | GStore s e | GHeld s e => Some (s, e)
  | _ => None
  end.

Definition locking (p : agent) : bool :=
  match p with VRead | VScan _ _ _ | VInc _ | VDrain _ => true | _ => false end.

(** The epoch an agent read before registering. *)
Definition early (p : agent) : option N :=
  match p with GHint e | GProbe e _ _ | GCas e _ _ _ => Some e | _ => None end.

Record Inv (n : nat) (σ : reg) : Prop := {
  i_n : r_n σ = n;
  i_pos : (0 < n)%nat;
  i_epoch : 1 <= r_epoch σ <= u64_max;
  i_slot : forall a s, owns (r_ag σ a) = Some s ->
             (s < n)%nat /\ r_guards σ s <> 0 /\ r_guards σ s <= r_epoch σ;
  i_excl : forall a b s, owns (r_ag σ a) = Some s -> owns (r_ag σ b) = Some s -> a = b;
  i_free : forall s, r_guards σ s <> 0 -> exists a, owns (r_ag σ a) = Some s;
  i_early : forall a e, early (r_ag σ a) = Some e -> 1 <= e <= r_epoch σ;
  i_cas : forall a e h i s, r_ag σ a = GCas e h i s -> (s < n)%nat;
  i_recheck : forall a s e b, r_ag σ a = GRecheck s e b -> r_guards σ s <= e <= r_epoch σ;
  i_fin : forall a s e, fin (r_ag σ a) = Some (s, e) ->
             r_guards σ s <= e /\ e <= r_epoch σ /\ r_epoch σ <= e + 1;
  i_lock1 : forall a, locking (r_ag σ a) = true -> r_lock σ = Some a;
  i_lock2 : forall a, r_lock σ = Some a -> locking (r_ag σ a) = true;
  i_scan : forall b cur mn i, r_ag σ b = VScan cur mn i ->
             cur = r_epoch σ /\ mn <= cur /\ (i <= n)%nat;
  i_scan2 : forall b cur mn i a s e, r_ag σ b = VScan cur mn i ->
             fin (r_ag σ a) = Some (s, e) -> e < r_epoch σ -> (s < i)%nat -> mn < cur;
  i_inc : forall b cur, r_ag σ b = VInc cur -> cur = r_epoch σ /\ cur < u64_max;
  i_inc2 : forall b cur a s e, r_ag σ b = VInc cur ->
             fin (r_ag σ a) = Some (s, e) -> e = r_epoch σ;
  i_drain : forall b q, r_ag σ b = VDrain q ->
             q = last_queue (r_epoch σ - 1) /\ 2 <= r_epoch σ
}.

Lemma probe_slot_lt n h i : (0 < n)%nat -> (probe_slot n h i < n)%nat.
Proof.
  intros. unfold probe_slot.
  pose proof (N.mod_lt ((h + N.of_nat i) mod two64) (N.of_nat n)). lia.
Qed.

Lemma inv_init n : (0 < n)%nat -> Inv n (reg_init n).
Proof.
  intros Hn. pose proof u64_facts. constructor; cbn; try (intros; congruence); try lia.
Qed.

(** Unfold a successful step into its transitions. *)
Lemma step_inv a c σ σ' : step a c σ = Some σ' ->
  (c = ActGuard /\ r_ag σ a = AIdle /\ σ' = set_ag σ a (GHint (r_epoch σ))) \/
  (c = ActAdvance /\ r_ag σ a = AIdle /\ r_lock σ = None /\
     σ' = set_ag (set_lock σ (Some a)) a VRead) \/
  (c = ActAdvance /\ r_ag σ a = AIdle /\ r_lock σ <> None /\ σ' = emit σ (ENone a)) \/
  (exists i s e, c = ActRetire i /\ r_ag σ a = GHeld s e /\
     σ' = emit (set_q σ (queue e)
                   (r_q σ (queue e) ++ [mkItem i (length (r_log σ)) e])) (ERetire a i)) \/
  (exists s e, c = ActDropGuard /\ r_ag σ a = GHeld s e /\
     σ' = emit (set_ag (set_guard σ s 0) a AIdle) (EDrop a)) \/
  (exists q, c = ActPop /\ r_ag σ a = VDrain q /\ r_q σ q = [] /\ σ' = emit σ (EPopNone a)) \/
  (exists q it rest, c = ActPop /\ r_ag σ a = VDrain q /\ r_q σ q = it :: rest /\
     σ' = emit (set_q σ q rest) (EPop a (it_id it) (it_stamp it))) \/
  (exists q, c = ActDropDrain /\ r_ag σ a = VDrain q /\
     σ' = emit (set_lock (set_ag σ a AIdle) None) (EDropDrain a)) \/
  (c = ActGo /\ guard_go a σ (r_ag σ a) = Some σ') \/
  (c = ActGo /\ advance_go a σ (r_ag σ a) = Some σ').
Proof.
  unfold step. intros H.
  destruct c.
  1: left. 2: do 1 right. 3: do 8 right. 4: do 3 right; left.
  5: do 4 right; left. 6: do 5 right. 7: do 7 right; left.
  - destruct (r_ag σ a) eqn:Ha; try discriminate. inv H. tauto.
  - destruct (r_ag σ a) eqn:Ha; try discriminate.
    destruct (r_lock σ) eqn:E; inv H; [right; left|left]; repeat split; congruence.
  - destruct (r_ag σ a) eqn:Ha;
      (destruct (guard_go a σ _) eqn:E; [inv H; left; split; [reflexivity|first [exact E|reflexivity]]
        |right; split; [reflexivity|exact H]]).
  - destruct (r_ag σ a) eqn:Ha; try discriminate. inv H. eauto 8.
  - destruct (r_ag σ a) eqn:Ha; try discriminate. inv H. eauto 8.
  - destruct (r_ag σ a) eqn:Ha; try discriminate.
    destruct (r_q σ q) eqn:E; inv H; [left|right; left]; eauto 10.
  - destruct (r_ag σ a) eqn:Ha; try discriminate. inv H. eauto 8.
Qed.

(** Case split on every [upd f k v x] occurring in the context or goal. *)
Ltac ups :=
  repeat match goal with
  | H : context [upd ?f ?k ?v ?x] |- _ =>
      let E := fresh "Eu" in let N := fresh "Nu" in
      destruct (upd_cases f k v x) as [[N E]|[N E]]; rewrite E in *; clear E;
      try subst x
  | |- context [upd ?f ?k ?v ?x] =>
      let E := fresh "Eu" in let N := fresh "Nu" in
      destruct (upd_cases f k v x) as [[N E]|[N E]]; rewrite E in *; clear E;
      try subst x
  end.




Ltac inst :=
  repeat match goal with
  | H : Some _ = Some _ |- _ => inv H
  | H : GHint _ = GHint _ |- _ => inv H
  | H : GCas _ _ _ _ = GCas _ _ _ _ |- _ => inv H
  | H : GRecheck _ _ _ = GRecheck _ _ _ |- _ => inv H
  | H : VScan _ _ _ = VScan _ _ _ |- _ => inv H
  | H : VInc _ = VInc _ |- _ => inv H
  | H : VDrain _ = VDrain _ |- _ => inv H
  end.

Ltac add t :=
  let T := type of t in
  lazymatch goal with
  | _ : T |- _ => fail
  | _ => pose proof t
  end.

(** Saturate with the old invariant for every agent mentioned. *)
Ltac sat :=
  repeat match goal with
  | I : Inv _ ?σ, H : owns (r_ag ?σ ?x) = Some ?s |- _ => add (i_slot _ _ I x s H)
  | I : Inv _ ?σ, H : fin (r_ag ?σ ?x) = Some (?s, ?e) |- _ => add (i_fin _ _ I x s e H)
  | I : Inv _ ?σ, H : early (r_ag ?σ ?x) = Some ?e |- _ => add (i_early _ _ I x e H)
  | I : Inv _ ?σ, H : r_ag ?σ ?x = GRecheck ?s ?e ?r |- _ => add (i_recheck _ _ I x s e r H)
  | I : Inv _ ?σ, H : r_ag ?σ ?x = VScan ?s ?e ?r |- _ => add (i_scan _ _ I x s e r H)
  | I : Inv _ ?σ, H : r_ag ?σ ?x = VInc ?c |- _ => add (i_inc _ _ I x c H)
  | I : Inv _ ?σ, H : r_ag ?σ ?x = VDrain ?c |- _ => add (i_drain _ _ I x c H)
  | I : Inv _ ?σ, H : locking (r_ag ?σ ?x) = true |- _ => add (i_lock1 _ _ I x H)
  | I : Inv _ ?σ, H : r_lock ?σ = Some ?x |- _ => add (i_lock2 _ _ I x H)
  end.

(** An agent that locks has to be the one at hand. *)
Ltac lck :=
  match goal with
  | I : Inv _ ?σ, H : r_ag ?σ ?b = VScan _ _ _ |- _ =>
      add (i_lock1 _ _ I b (eq_trans (f_equal locking H) eq_refl))
  | I : Inv _ ?σ, H : r_ag ?σ ?b = VInc _ |- _ =>
      add (i_lock1 _ _ I b (eq_trans (f_equal locking H) eq_refl))
  | I : Inv _ ?σ, H : r_ag ?σ ?b = VDrain _ |- _ =>
      add (i_lock1 _ _ I b (eq_trans (f_equal locking H) eq_refl))
  end.

Lemma fin_owns p s e : fin p = Some (s, e) -> owns p = Some s.
Proof. destruct p; cbn; congruence. Qed.
Lemma recheck_owns σ a s e b : r_ag σ a = GRecheck s e b -> owns (r_ag σ a) = Some s.
Proof. intros ->. reflexivity. Qed.


Ltac agf a Ha :=
  let O := fresh "O" in pose proof (f_equal owns Ha) as O; cbn in O;
  let F := fresh "F" in pose proof (f_equal fin Ha) as F; cbn in F;
  let L := fresh "Lk" in pose proof (f_equal locking Ha) as L; cbn in L;
  let E := fresh "Ea" in pose proof (f_equal early Ha) as E; cbn in E.

Ltac frz :=
  match goal with
  | I : Inv _ ?σ, H : r_guards ?σ ?s <> 0 |- @ex nat _ =>
      destruct (i_free _ _ I s H) as [bb Hb];
      exists bb; ups; cbn in *; congruence
  end.
Ltac base :=
  match goal with
  | I : Inv _ ?σ |- _ =>
     pose proof (i_n _ _ I); pose proof (i_pos _ _ I); pose proof (i_epoch _ _ I)
  end.
Ltac go := cbn; intros; ups; cbn in *|-; cbn; inst;
   first [congruence | solve [frz] | 
     match goal with I : Inv _ _ |- _ => solve [eauto 3 using (i_excl _ _ I), (i_cas _ _ I), (i_scan2 _ _ I),
        (i_inc2 _ _ I)] end |
     solve [base; sat; repeat lck; cbn in *; first [congruence|lia|eauto 3]] | idtac].
Ltac dbg := match goal with |- ?g => idtac g end.

Lemma inv_step n a c σ σ' : Inv n σ -> step a c σ = Some σ' -> Inv n σ'.
Proof.
  intros I H. pose proof u64_facts as U. apply step_inv in H.
  destruct H as [H|[H|[H|[H|[H|[H|[H|[H|[H|H]]]]]]]]].
  - destruct H as (-> & Ha & ->). agf a Ha. constructor; go.
  - destruct H as (-> & Ha & L & ->).  agf a Ha. constructor; go.
  - destruct H as (-> & Ha & L & ->). destruct I; constructor; assumption.
  - destruct H as (i & s & e & -> & Ha & ->). destruct I; constructor; assumption.
  - destruct H as (s & e & -> & Ha & ->). agf a Ha. constructor; go.
    exfalso. apply Nu. eapply (i_excl _ _ I); eauto.
  - destruct H as (q & -> & Ha & Hq & ->).  destruct I; constructor; assumption.
  - destruct H as (q & it & rest & -> & Ha & Hq & ->).  destruct I; constructor; assumption.
  - destruct H as (q & -> & Ha & ->). agf a Ha. constructor; go.
  - destruct H as (-> & H). destruct (r_ag σ a) eqn:Ha; unfold guard_go in H; try discriminate.
    + inv H. agf a Ha. constructor; go.
    + destruct (Nat.ltb_spec i (r_n σ)) as [Hi|Hi].
      * destruct (r_guards σ _ =? 0) eqn:E; inv H; agf a Ha; constructor; go.
    rewrite (i_n _ _ I). apply probe_slot_lt. apply (i_pos _ _ I).
      * inv H; agf a Ha; constructor; go.
    + destruct (r_guards σ s =? 0) eqn:E; inv H; agf a Ha; constructor; go.
      * pose proof (i_cas _ _ I _ _ _ _ _ Ha). base. sat. lia.
      * exists a. now rewrite upd_eq.
      * exfalso. pose proof (i_slot _ _ I _ _ (recheck_owns _ _ _ _ _ H)). lia.
      * exfalso. pose proof (i_slot _ _ I _ _ (fin_owns _ _ _ H)). lia.
    + destruct (r_epoch σ =? e) eqn:E; [destruct reset|]; inv H; agf a Ha; constructor; go.
    + inv H; agf a Ha; constructor; go.
      * exists a. now rewrite upd_eq.
      * exfalso. apply Nu. eapply (i_excl _ _ I); eauto using recheck_owns.
      * exfalso. apply Nu. eapply (i_excl _ _ I); eauto using fin_owns.
  - destruct H as (-> & H). destruct (r_ag σ a) eqn:Ha; unfold advance_go in H; try discriminate.
    + inv H. agf a Ha. constructor; go.
    + destruct (Nat.ltb_spec i (r_n σ)) as [Hi|Hi];
      [|destruct (min =? u64_max) eqn:E1; [|destruct (min =? cur) eqn:E2]]; inv H;
      agf a Ha; constructor; go.
      * pose proof (i_scan _ _ I _ _ _ _ Ha). base.
        destruct (r_guards σ i =? 0); lia.
      * pose proof (i_scan _ _ I _ _ _ _ Ha). base. sat.
        pose proof (i_slot _ _ I _ _ (fin_owns _ _ _ H0)).
        destruct (Nat.eq_dec s i) as [->|Ns].
        -- destruct (r_guards σ i =? 0) eqn:E; lia.
        -- pose proof (i_scan2 _ _ I _ _ _ _ _ _ _ Ha H0 H1).
           destruct (r_guards σ i =? 0) eqn:E; lia.
      * pose proof (i_scan _ _ I _ _ _ _ Ha). base. sat.
        pose proof (i_slot _ _ I _ _ (fin_owns _ _ _ H0)).
        destruct (N.eq_dec e (r_epoch σ)) as [|Ne]; [assumption|exfalso].
        pose proof (i_scan2 _ _ I _ _ _ _ _ _ _ Ha H0). lia.
    + inv H. agf a Ha. inst. pose proof (i_inc _ _ I _ _ Ha). rewrite (N.mod_small (r_epoch σ + 1)) by lia. constructor; go.
      * pose proof (i_inc2 _ _ I _ _ _ _ _ Ha H0). sat. lia.
      * base. split; [f_equal|]; lia.
Qed.

(** ** The event log *)

Definition not_dropped_since (log : list event) (k : nat) (g : nat) : Prop :=
  forall m, (k < m)%nat -> nth_error log m <> Some (EDrop g).

Lemma drop_dec log k g :
  (exists d, (k < d < length log)%nat /\ nth_error log d = Some (EDrop g)) \/
  not_dropped_since log k g.
Proof.
  induction log as [|ev log IH] using rev_ind.
  - right. intros m _. destruct m; cbn; congruence.
  - destruct IH as [(d & D1 & D2)|IH].
    + left. exists d. rewrite app_length. cbn. split; [lia|].
      rewrite nth_error_app1 by lia. assumption.
    + assert (Hev : ev = EDrop g \/ ev <> EDrop g).
      { destruct ev; try (right; discriminate).
        destruct (Nat.eq_dec a g) as [->|]; [left; reflexivity|right; congruence]. }
      destruct Hev as [->|Hev].
      * destruct (Nat.lt_ge_cases k (length log)) as [L|L].
        -- left. exists (length log). rewrite app_length. cbn. split; [lia|].
           apply nth_error_snoc_new.
        -- right. intros m Hm He. apply nth_error_snoc in He.
           destruct He as [[? He]|[? He]]; [lia|]. lia.
      * right. intros m Hm He. apply nth_error_snoc in He.
        destruct He as [[? He]|[? He]]; [now apply (IH m)|congruence].
Qed.

Lemma held_at_snoc log ev k g : (k <= length log)%nat ->
  held_at (log ++ [ev]) k g -> held_at log k g.
Proof.
  intros Hk (j & Hj & Hg & Hm). exists j. split; [assumption|]. split.
  - now rewrite nth_error_snoc_old in Hg by lia.
  - intros m Hmm. specialize (Hm m Hmm). now rewrite nth_error_snoc_old in Hm by lia.
Qed.

Lemma nds_snoc log ev k g : not_dropped_since (log ++ [ev]) k g -> not_dropped_since log k g.
Proof.
  intros H m Hm He. apply (H m Hm). rewrite nth_error_snoc_old; [assumption|].
  now apply nth_error_lt in He.
Qed.

Lemma nds_snoc_ev log ev k g : (k < length log)%nat ->
  not_dropped_since (log ++ [ev]) k g -> ev <> EDrop g.
Proof.
  intros Hk H ->. apply (H (length log)); [assumption|]. apply nth_error_snoc_new.
Qed.

(** C01 as a property of a log. *)
Definition safe_log (log : list event) : Prop :=
  forall p a i k, nth_error log p = Some (EPop a i k) ->
    (k < p)%nat /\ (exists r, nth_error log k = Some (ERetire r i)) /\
    forall g, held_at log k g ->
      exists d, (k < d < p)%nat /\ nth_error log d = Some (EDrop g).

Lemma safe_log_snoc log ev :
  safe_log log ->
  (forall a i k, ev = EPop a i k ->
     (k < length log)%nat /\ (exists r, nth_error log k = Some (ERetire r i)) /\
     forall g, held_at log k g ->
       exists d, (k < d < length log)%nat /\ nth_error log d = Some (EDrop g)) ->
  safe_log (log ++ [ev]).
Proof.
  intros S N p a i k Hp. apply nth_error_snoc in Hp.
  assert (Q : (k < p <= length log)%nat /\ (exists r, nth_error log k = Some (ERetire r i)) /\
     forall g, held_at log k g ->
       exists d, (k < d < p)%nat /\ nth_error log d = Some (EDrop g)).
  { destruct Hp as [[L Hp]|[-> <-]].
    - destruct (S _ _ _ _ Hp) as (A & B & C). repeat split; auto; lia.
    - destruct (N a i k eq_refl) as (A & B & C). repeat split; auto; lia. }
  clear Hp. destruct Q as (A & (r & B) & C). split; [lia|]. split.
  - exists r. rewrite nth_error_snoc_old by lia. assumption.
  - intros g Hg. apply held_at_snoc in Hg; [|lia].
    destruct (C g Hg) as (d & D1 & D2). exists d. split; [assumption|].
    rewrite nth_error_snoc_old by lia. assumption.
Qed.

Fixpoint pop_stamps (log : list event) : list nat :=
  match log with
  | [] => []
  | EPop _ _ k :: l => k :: pop_stamps l
  | _ :: l => pop_stamps l
  end.

Definition allq (σ : reg) : list item := r_q σ 0 ++ r_q σ 1 ++ r_q σ 2 ++ r_q σ 3.

Record LInv (σ : reg) : Prop := {
  l_held : forall g j, nth_error (r_log σ) j = Some (EGuard g) ->
             not_dropped_since (r_log σ) j g -> exists s e, r_ag σ g = GHeld s e;
  l_q : forall q it, In it (r_q σ q) ->
             queue (it_epoch it) = q /\ it_epoch it <= r_epoch σ /\
             exists r, nth_error (r_log σ) (it_stamp it) = Some (ERetire r (it_id it));
  l_prot : forall q it g, In it (r_q σ q) -> held_at (r_log σ) (it_stamp it) g ->
             not_dropped_since (r_log σ) (it_stamp it) g ->
             exists s e, r_ag σ g = GHeld s e /\ e <= it_epoch it + 1;
  l_safe : safe_log (r_log σ);
  l_nd : NoDup (pop_stamps (r_log σ) ++ map it_stamp (allq σ));
  l_st : forall k, In k (pop_stamps (r_log σ)) -> (k < length (r_log σ))%nat;
  l_perm : Permutation (retired (r_log σ)) (popped (r_log σ) ++ pending σ)
}.

Lemma pop_stamps_app l l' : pop_stamps (l ++ l') = pop_stamps l ++ pop_stamps l'.
Proof. induction l as [|[] l IH]; cbn; rewrite ?IH; reflexivity. Qed.
Lemma retired_app l l' : retired (l ++ l') = retired l ++ retired l'.
Proof. induction l as [|[] l IH]; cbn; rewrite ?IH; reflexivity. Qed.
Lemma popped_app l l' : popped (l ++ l') = popped l ++ popped l'.
Proof. induction l as [|[] l IH]; cbn; rewrite ?IH; reflexivity. Qed.

Lemma linv_init n : LInv (reg_init n).
Proof.
  constructor; cbn; intros; try (destruct j; discriminate); try contradiction.
  - intros p a i k H. destruct p; discriminate.
  - constructor.
  - apply Permutation_refl.
Qed.

Lemma queue_lt e : (queue e < 4)%nat.
Proof. unfold queue. pose proof (N.mod_lt e 4). lia. Qed.

(** Items in the queue about to be drained are at least three epochs old. *)
Lemma last_queue_old E e : 2 <= E <= u64_max -> e <= E ->
  queue e = last_queue (E - 1) -> e + 3 <= E.
Proof.
  intros HE He Hq. pose proof u64_facts as (U1 & U2 & U3).
  unfold last_queue, queue in Hq.
  assert (Hq' : e mod 4 = ((E - 1 + (two64 - 2)) mod two64) mod 4) by lia. clear Hq.
  destruct (N.eq_dec E 2) as [->|N].
  - rewrite (N.mod_small (2 - 1 + (two64 - 2))) in Hq' by lia.
    assert (two64 mod 4 = 0) by assumption. lia.
  - replace (E - 1 + (two64 - 2)) with (E - 3 + 1 * two64) in Hq' by lia.
    rewrite N.mod_add in Hq' by lia. rewrite (N.mod_small (E - 3)) in Hq' by lia. lia.
Qed.

(** Steps that only touch agents, guards, hint, lock or epoch (monotonically) and may
    append an event that is neither a retirement nor a pop. *)
Definition plain (ev : event) : bool :=
  match ev with ERetire _ _ | EPop _ _ _ => false | _ => true end.

Lemma linv_noemit σ σ' :
  LInv σ -> r_log σ' = r_log σ -> r_q σ' = r_q σ -> r_epoch σ <= r_epoch σ' ->
  (forall g s e, r_ag σ g = GHeld s e -> r_ag σ' g = GHeld s e) ->
  LInv σ'.
Proof.
  intros [H1 H2 H3 H4 H5 H6 H7] EL EQ EE HA.
  constructor; unfold allq, pending in *; rewrite ?EL, ?EQ; auto.
  - intros g j A B. destruct (H1 g j A B) as (s & e & ?). eauto.
  - intros q it A. destruct (H2 q it A) as (A1 & A2 & A3). repeat split; auto; lia.
  - intros q it g A B C. destruct (H3 q it g A B C) as (s & e & ? & ?). eauto.
Qed.

Lemma linv_emit σ σ' ev :
  LInv σ -> plain ev = true ->
  r_log σ' = r_log σ ++ [ev] -> r_q σ' = r_q σ -> r_epoch σ <= r_epoch σ' ->
  (forall g s e, r_ag σ g = GHeld s e -> ev = EDrop g \/ r_ag σ' g = GHeld s e) ->
  (forall g, ev = EGuard g -> exists s e, r_ag σ' g = GHeld s e) ->
  LInv σ'.
Proof.
  intros [H1 H2 H3 H4 H5 H6 H7] P EL EQ EE HA HG.
  assert (R : retired [ev] = []) by (destruct ev; cbn in *; congruence).
  assert (Po : popped [ev] = []) by (destruct ev; cbn in *; congruence).
  assert (Ps : pop_stamps [ev] = []) by (destruct ev; cbn in *; congruence).
  constructor; unfold allq, pending in *; rewrite ?EL, ?EQ.
  - intros g j A B. apply nth_error_snoc in A. destruct A as [[L A]|[-> <-]].
    + destruct (H1 g j A (nds_snoc _ _ _ _ B)) as (s & e & E).
      destruct (HA _ _ _ E) as [->|]; [|eauto].
      exfalso. eapply nds_snoc_ev; [exact L|exact B|reflexivity].
    + now apply HG.
  - intros q it A. destruct (H2 q it A) as (A1 & A2 & r & A3).
    repeat split; auto; [lia|]. exists r.
    rewrite nth_error_snoc_old; [assumption|]. now apply nth_error_lt in A3.
  - intros q it g A B C. destruct (H2 q it A) as (A1 & A2 & r & A3).
    apply nth_error_lt in A3.
    apply held_at_snoc in B; [|lia].
    destruct (H3 q it g A B (nds_snoc _ _ _ _ C)) as (s & e & E1 & E2).
    destruct (HA _ _ _ E1) as [->|]; [|eauto].
    exfalso. eapply nds_snoc_ev; [exact A3|exact C|reflexivity].
  - apply safe_log_snoc; [assumption|]. intros a i k ->. discriminate.
  - now rewrite pop_stamps_app, Ps, app_nil_r.
  - rewrite pop_stamps_app, Ps, app_nil_r. intros k Hk. apply H6 in Hk.
    rewrite app_length. lia.
  - now rewrite retired_app, popped_app, R, Po, !app_nil_r.
Qed.

Lemma allq_split σ q : (q < 4)%nat ->
  exists l1 l2, allq σ = l1 ++ r_q σ q ++ l2 /\
    forall l, allq (set_q σ q l) = l1 ++ l ++ l2.
Proof.
  intros H. unfold allq, set_q. cbn.
  destruct q as [|[|[|[|]]]]; try lia.
  - exists [], (r_q σ 1 ++ r_q σ 2 ++ r_q σ 3). split; [reflexivity|intros; reflexivity].
  - exists (r_q σ 0), (r_q σ 2 ++ r_q σ 3). split; [reflexivity|intros; reflexivity].
  - exists (r_q σ 0 ++ r_q σ 1), (r_q σ 3).
    split; [|intros l]; rewrite <- app_assoc; reflexivity.
  - exists (r_q σ 0 ++ r_q σ 1 ++ r_q σ 2), [].
    split; [|intros l]; rewrite <- !app_assoc, app_nil_r; reflexivity.
Qed.

Lemma allq_push σ q x : (q < 4)%nat ->
  Permutation (allq (set_q σ q (r_q σ q ++ [x]))) (x :: allq σ).
Proof.
  intros H. destruct (allq_split σ q H) as (l1 & l2 & E1 & E2). rewrite E2, E1.
  rewrite <- (app_assoc (r_q σ q) [x] l2). symmetry.
  change ([x] ++ l2) with (x :: l2). rewrite !app_assoc. apply Permutation_middle.
Qed.

Lemma allq_pop σ q x rest : (q < 4)%nat -> r_q σ q = x :: rest ->
  Permutation (allq σ) (x :: allq (set_q σ q rest)).
Proof.
  intros H Hq. destruct (allq_split σ q H) as (l1 & l2 & E1 & E2). rewrite E2, E1, Hq.
  cbn. symmetry. apply Permutation_middle.
Qed.

Lemma pending_allq σ : pending σ = map it_id (allq σ).
Proof. reflexivity. Qed.

Lemma allq_In σ it : In it (allq σ) -> exists q, In it (r_q σ q).
Proof.
  unfold allq. intros H. repeat (apply in_app_or in H; destruct H as [H|H]); eauto.
Qed.

Lemma linv_retire n σ a i s e :
  Inv n σ -> LInv σ -> r_ag σ a = GHeld s e ->
  LInv (emit (set_q σ (queue e) (r_q σ (queue e) ++ [mkItem i (length (r_log σ)) e]))
             (ERetire a i)).
Proof.
  intros I [H1 H2 H3 H4 H5 H6 H7] Ha.
  assert (Fa : fin (r_ag σ a) = Some (s, e)) by now rewrite Ha.
  pose proof (i_fin _ _ I _ _ _ Fa) as Fe.
  pose proof (allq_push σ (queue e) (mkItem i (length (r_log σ)) e) (queue_lt e)) as Hp.
  set (x := mkItem i (length (r_log σ)) e) in *.
  constructor; cbn.
  - intros g j A B. apply nth_error_snoc in A. destruct A as [[L A]|[_ A]]; [|discriminate].
    apply (H1 g j A (nds_snoc _ _ _ _ B)).
  - intros q it A.
    assert (A' : In it (r_q σ q) \/ it = x /\ q = queue e).
    { destruct (upd_cases (r_q σ) (queue e) (r_q σ (queue e) ++ [x]) q) as [[-> E]|[_ E]];
        rewrite E in A; [|auto].
      apply in_app_or in A. destruct A as [A|[<-|[]]]; auto. }
    clear A. destruct A' as [A|[-> ->]].
    + destruct (H2 q it A) as (A1 & A2 & r & A3). repeat split; auto. exists r.
      rewrite nth_error_snoc_old; [assumption|]. now apply nth_error_lt in A3.
    + cbn. repeat split; [lia|]. exists a. apply nth_error_snoc_new.
  - intros q it g A B C.
    assert (A' : In it (r_q σ q) \/ it = x /\ q = queue e).
    { destruct (upd_cases (r_q σ) (queue e) (r_q σ (queue e) ++ [x]) q) as [[-> E]|[_ E]];
        rewrite E in A; [|auto].
      apply in_app_or in A. destruct A as [A|[<-|[]]]; auto. }
    clear A. destruct A' as [A|[-> ->]].
    + destruct (H2 q it A) as (A1 & A2 & r & A3).
      apply nth_error_lt in A3. apply held_at_snoc in B; [|lia].
      apply (H3 q it g A B (nds_snoc _ _ _ _ C)).
    + cbn in *. apply held_at_snoc in B; [|lia].
      destruct B as (j & J1 & J2 & J3).
      destruct (H1 g j J2) as (s' & e' & E).
      { intros m Hm He. apply (J3 m); [|assumption]. apply nth_error_lt in He. lia. }
      exists s', e'. split; [assumption|].
      assert (Fg : fin (r_ag σ g) = Some (s', e')) by now rewrite E.
      pose proof (i_fin _ _ I _ _ _ Fg). lia.
  - apply safe_log_snoc; [assumption|]. discriminate.
  - rewrite pop_stamps_app. cbn. rewrite app_nil_r.
    match goal with |- NoDup (_ ++ ?p) =>
      change p with (map it_stamp (allq (set_q σ (queue e) (r_q σ (queue e) ++ [x])))) end.
    eapply Permutation_NoDup.
    { apply Permutation_app_head. apply Permutation_map. symmetry. exact Hp. }
    cbn. eapply Permutation_NoDup; [apply Permutation_middle|]. constructor; [|assumption].
    intros Hin. apply in_app_or in Hin. destruct Hin as [Hin|Hin].
    + apply H6 in Hin. lia.
    + apply in_map_iff in Hin. destruct Hin as (it & Hit1 & Hit2).
      apply allq_In in Hit2. destruct Hit2 as (q & Hq).
      destruct (H2 q it Hq) as (_ & _ & r & Hr). apply nth_error_lt in Hr. lia.
  - rewrite pop_stamps_app. cbn. rewrite app_nil_r. intros k Hk. apply H6 in Hk.
    rewrite app_length. lia.
  - rewrite retired_app, popped_app. cbn [retired popped]. rewrite app_nil_r.
    match goal with |- Permutation _ (_ ++ ?p) =>
      change p with (map it_id (allq (set_q σ (queue e) (r_q σ (queue e) ++ [x])))) end.
    rewrite (Permutation_map it_id Hp). cbn [map]. rewrite H7.
    rewrite <- app_assoc. apply Permutation_app_head.
    rewrite <- pending_allq. symmetry. apply Permutation_cons_append.
Qed.

Lemma linv_pop n σ a q it rest :
  Inv n σ -> LInv σ -> r_ag σ a = VDrain q -> r_q σ q = it :: rest ->
  LInv (emit (set_q σ q rest) (EPop a (it_id it) (it_stamp it))).
Proof.
  intros I [H1 H2 H3 H4 H5 H6 H7] Ha Hq.
  assert (Hin : In it (r_q σ q)) by (rewrite Hq; left; reflexivity).
  pose proof (H2 q it Hin) as (Q1 & Q2 & r & Q3).
  pose proof (i_drain _ _ I _ _ Ha) as (D1 & D2).
  pose proof (i_epoch _ _ I) as Ep.
  assert (Old : it_epoch it + 3 <= r_epoch σ).
  { apply last_queue_old; [lia|lia|congruence]. }
  assert (Hlt : (q < 4)%nat) by (rewrite <- Q1; apply queue_lt).
  pose proof (allq_pop σ q it rest Hlt Hq) as Hp.
  assert (Sub : forall q' x, In x (upd (r_q σ) q rest q') -> In x (r_q σ q')).
  { intros q' x Hx. destruct (upd_cases (r_q σ) q rest q') as [[-> E]|[_ E]];
      rewrite E in Hx; [|assumption]. rewrite Hq. right. assumption. }
  constructor; cbn.
  - intros g j A B. apply nth_error_snoc in A. destruct A as [[L A]|[_ A]]; [|discriminate].
    apply (H1 g j A (nds_snoc _ _ _ _ B)).
  - intros q' x A. apply Sub in A. destruct (H2 q' x A) as (A1 & A2 & r' & A3).
    repeat split; auto. exists r'.
    rewrite nth_error_snoc_old; [assumption|]. now apply nth_error_lt in A3.
  - intros q' x g A B C. apply Sub in A. destruct (H2 q' x A) as (A1 & A2 & r' & A3).
    apply nth_error_lt in A3. apply held_at_snoc in B; [|lia].
    apply (H3 q' x g A B (nds_snoc _ _ _ _ C)).
  - apply safe_log_snoc; [assumption|]. intros a' i' k' E. inv E.
    split; [now apply nth_error_lt in Q3|]. split; [eauto|].
    intros g Hg. destruct (drop_dec (r_log σ) (it_stamp it) g) as [D|D]; [assumption|].
    exfalso. destruct (H3 _ it g Hin Hg D) as (s & e & E1 & E2).
    assert (Fg : fin (r_ag σ g) = Some (s, e)) by now rewrite E1.
    pose proof (i_fin _ _ I _ _ _ Fg). lia.
  - rewrite pop_stamps_app. cbn [pop_stamps].
    match goal with |- NoDup (_ ++ ?p) =>
      change p with (map it_stamp (allq (set_q σ q rest))) end.
    eapply Permutation_NoDup; [|exact H5].
    rewrite (Permutation_map it_stamp Hp). cbn. rewrite <- app_assoc. reflexivity.
  - rewrite pop_stamps_app. cbn [pop_stamps]. intros k Hk. rewrite app_length. cbn.
    apply in_app_or in Hk. destruct Hk as [Hk|[<-|[]]].
    + apply H6 in Hk. lia.
    + apply nth_error_lt in Q3. lia.
  - rewrite retired_app, popped_app. cbn [retired popped]. rewrite app_nil_r.
    match goal with |- Permutation _ (_ ++ ?p) =>
      change p with (map it_id (allq (set_q σ q rest))) end.
    rewrite H7, pending_allq, (Permutation_map it_id Hp). cbn.
    rewrite <- app_assoc. reflexivity.
Qed.

Ltac held_old :=
  intros; cbn in *; ups; first [congruence|now auto].
Ltac noemit L :=
  eapply linv_noemit; [exact L|reflexivity|reflexivity|cbn; lia|held_old].
Ltac emits L :=
  eapply linv_emit; [exact L| |reflexivity|reflexivity|cbn; lia|held_old|];
    [reflexivity|first [discriminate
      |let Hg := fresh in intros ? Hg; inv Hg; do 2 eexists; cbn; apply upd_eq]].

Lemma linv_step n a c σ σ' :
  Inv n σ -> LInv σ -> step a c σ = Some σ' -> LInv σ'.
Proof.
  intros I L H. pose proof u64_facts as U. apply step_inv in H.
  destruct H as [H|[H|[H|[H|[H|[H|[H|[H|[H|H]]]]]]]]].
  - destruct H as (-> & Ha & ->). noemit L.
  - destruct H as (-> & Ha & Lk & ->). noemit L.
  - destruct H as (-> & Ha & Lk & ->). emits L.
  - destruct H as (i & s & e & -> & Ha & ->). eapply linv_retire; eauto.
  - destruct H as (s & e & -> & Ha & ->). emits L.
  - destruct H as (q & -> & Ha & Hq & ->). emits L.
  - destruct H as (q & it & rest & -> & Ha & Hq & ->). eapply linv_pop; eauto.
  - destruct H as (q & -> & Ha & ->). emits L.
  - destruct H as (-> & H). destruct (r_ag σ a) eqn:Ha; unfold guard_go in H; try discriminate.
    + inv H. noemit L.
    + destruct (Nat.ltb_spec i (r_n σ)) as [Hi|Hi].
      * destruct (r_guards σ _ =? 0) eqn:E; inv H; noemit L.
      * inv H. emits L.
    + destruct (r_guards σ s =? 0) eqn:E; inv H; noemit L.
    + destruct (r_epoch σ =? e) eqn:E; [destruct reset|]; inv H; [noemit L|emits L|noemit L].
    + inv H. emits L.
  - destruct H as (-> & H). destruct (r_ag σ a) eqn:Ha; unfold advance_go in H; try discriminate.
    + inv H. noemit L.
    + destruct (Nat.ltb_spec i (r_n σ)) as [Hi|Hi];
      [|destruct (min =? u64_max) eqn:E1; [|destruct (min =? cur) eqn:E2]]; inv H;
      [noemit L|emits L|noemit L|emits L].
    + inv H. pose proof (i_inc _ _ I _ _ Ha).
      rewrite (N.mod_small (r_epoch σ + 1)) by lia. emits L.
Qed.

Lemma run_inv n sched : forall σ σ', Inv n σ -> LInv σ -> run sched σ = Some σ' ->
  Inv n σ' /\ LInv σ'.
Proof.
  induction sched as [|[a c] sched IH]; cbn; intros σ σ' I L H.
  - inv H. auto.
  - destruct (step a c σ) eqn:E; [|discriminate].
    eapply IH; [| |exact H]; [eapply inv_step|eapply linv_step]; eauto.
Qed.

Lemma reachable_inv n σ : (0 < n)%nat -> reachable n σ -> Inv n σ /\ LInv σ.
Proof.
  intros Hn (sched & H). eapply run_inv; eauto using inv_init, linv_init.
Qed.

(** ** Progress of a solo reclaimer from a quiescent state (C02) *)
Lemma run_app s1 : forall s2 σ, run (s1 ++ s2) σ =
  match run s1 σ with Some σ' => run s2 σ' | None => None end.
Proof.
  induction s1 as [|[a c] s1 IH]; cbn; intros; [reflexivity|].
  destruct (step a c σ); auto.
Qed.

Record view (a n : nat) (E : N) (L : option nat) (Q : nat -> list item) (pc : agent)
  (σ : reg) : Prop := {
  v_n : r_n σ = n;
  v_g : forall s, r_guards σ s = 0;
  v_e : r_epoch σ = E;
  v_l : r_lock σ = L;
  v_q : r_q σ = Q;
  v_a : r_ag σ a = pc;
  v_o : forall b, b <> a -> r_ag σ b = AIdle
}.

Ltac vw := constructor; cbn; rewrite ?upd_eq; intros; rewrite ?upd_neq; auto.

Lemma view_run_cons a n E L Q pc c σ σ1 rest :
  view a n E L Q pc σ -> step a c σ = Some σ1 ->
  run ((a, c) :: rest) σ = run rest σ1.
Proof. intros V S. cbn. now rewrite S. Qed.

Lemma view_scan a n E L Q k : forall i σ,
  view a n E L Q (VScan E E i) σ -> (i + k <= n)%nat ->
  exists σ', run (repeat (a, ActGo) k) σ = Some σ' /\
             view a n E L Q (VScan E E (i + k)) σ'.
Proof.
  induction k as [|k IH]; intros i σ V Hi.
  - exists σ. split; [reflexivity|]. now rewrite Nat.add_0_r.
  - destruct V as [V1 V2 V3 V4 V5 V6 V7].
    destruct (IH (S i) (set_ag σ a (VScan E E (S i)))) as (σ' & R & V'); [vw|lia|].
    exists σ'. split.
    + cbn [repeat run]. unfold step. rewrite V6. cbn [guard_go advance_go].
      destruct (Nat.ltb_spec i (r_n σ)); [|lia]. now rewrite V2.
    + now replace (i + S k)%nat with (S i + k)%nat by lia.
Qed.

Lemma view_pops a n E L q l : forall Q σ,
  view a n E L Q (VDrain q) σ -> Q q = l ->
  exists σ' Q', run (repeat (a, ActPop) (length l)) σ = Some σ' /\
    view a n E L Q' (VDrain q) σ' /\ Q' q = [] /\ (forall q', q' <> q -> Q' q' = Q q').
Proof.
  induction l as [|x l IH]; intros Q σ V Hl.
  - exists σ, Q. repeat split; auto; apply V.
  - destruct V as [V1 V2 V3 V4 V5 V6 V7].
    destruct (IH (upd Q q l) (emit (set_q σ q l) (EPop a (it_id x) (it_stamp x))))
      as (σ' & Q' & R & V' & H1 & H2).
    + vw. now rewrite V5.
    + apply upd_eq.
    + exists σ', Q'. split; [|split; [exact V'|split; [exact H1|]]].
      * cbn [length repeat run]. unfold step. rewrite V6, V5, Hl. exact R.
      * intros q' N. rewrite H2 by exact N. now apply upd_neq.
Qed.

(** One call of try_advance that succeeds, draining everything and dropping the drain. *)
Definition round (a n len : nat) : list (nat * act) :=
  (a, ActAdvance) :: (a, ActGo) :: repeat (a, ActGo) n ++
  (a, ActGo) :: (a, ActGo) :: repeat (a, ActPop) len ++ [(a, ActPop); (a, ActDropDrain)].

Lemma view_round a n E Q σ : E < u64_max -> view a n E None Q AIdle σ ->
  exists σ' Q', run (round a n (length (Q (last_queue E)))) σ = Some σ' /\
    view a n (E + 1) None Q' AIdle σ' /\ Q' (last_queue E) = [] /\
    (forall q', q' <> last_queue E -> Q' q' = Q q').
Proof.
  intros HE V. pose proof u64_facts as U. unfold round.
  pose (σ1 := set_ag (set_lock σ (Some a)) a VRead).
  pose (σ2 := set_ag σ1 a (VScan E E 0)).
  assert (V2 : view a n E (Some a) Q (VScan E E 0) σ2).
  { destruct V. unfold σ2, σ1. vw. }
  destruct (view_scan a n E (Some a) Q n 0 σ2 V2 ltac:(lia)) as (σ3 & R3 & V3).
  pose (σ4 := set_ag σ3 a (VInc E)).
  pose (σ5 := emit (set_ag (set_epoch σ4 ((r_epoch σ4 + 1) mod two64)) a
                         (VDrain (last_queue E))) (EDrain a)).
  assert (V5 : view a n (E + 1) (Some a) Q (VDrain (last_queue E)) σ5).
  { destruct V3. unfold σ5, σ4. vw. rewrite v_e0. apply N.mod_small. lia. }
  destruct (view_pops a n (E + 1) (Some a) (last_queue E) _ Q σ5 V5 eq_refl)
    as (σ6 & Q' & R6 & V6 & H1 & H2).
  pose (σ7 := emit σ6 (EPopNone a)).
  exists (emit (set_lock (set_ag σ7 a AIdle) None) (EDropDrain a)), Q'.
  split; [|split; [|split; [exact H1|exact H2]]].
  - cbn [run]. unfold step at 1. rewrite (v_a _ _ _ _ _ _ _ V), (v_l _ _ _ _ _ _ _ V).
    fold σ1. unfold step at 1. replace (r_ag σ1 a) with VRead by (cbn; now rewrite upd_eq).
    cbn [guard_go advance_go]. replace (r_epoch σ1) with E by (symmetry; apply V).
    fold σ2. rewrite run_app, R3. cbn [run].
    unfold step at 1. rewrite (v_a _ _ _ _ _ _ _ V3). cbn [guard_go advance_go].
    destruct (Nat.ltb_spec (0 + n) (r_n σ3)) as [A|_];
      [rewrite (v_n _ _ _ _ _ _ _ V3) in A; lia|].
    destruct (N.eqb_spec E u64_max); [lia|]. rewrite N.eqb_refl. fold σ4.
    unfold step at 1. replace (r_ag σ4 a) with (VInc E) by (cbn; now rewrite upd_eq).
    cbn [guard_go advance_go]. fold σ5. rewrite run_app, R6. cbn [run].
    unfold step at 1. rewrite (v_a _ _ _ _ _ _ _ V6), (v_q _ _ _ _ _ _ _ V6), H1.
    fold σ7. unfold step. replace (r_ag σ7 a) with (VDrain (last_queue E)) by (symmetry; apply V6).
    reflexivity.
  - destruct V6. unfold σ7. vw.
Qed.

Lemma last_queue_shift E : E + 3 <= u64_max -> forall q, (q < 4)%nat ->
  q = last_queue E \/ q = last_queue (E + 1) \/ q = last_queue (E + 2) \/
  q = last_queue (E + 3).
Proof.
  intros HE q Hq. pose proof u64_facts as (U1 & U2 & U3). unfold last_queue, queue.
  assert (M : forall x, x <= u64_max ->
    ((x + (two64 - 2)) mod two64) mod 4 = (x + 2) mod 4).
  { intros x Hx. destruct (N.le_gt_cases 2 x).
    - replace (x + (two64 - 2)) with (x - 2 + 1 * two64) by lia.
      rewrite N.mod_add by lia. rewrite (N.mod_small (x - 2)) by lia. lia.
    - rewrite (N.mod_small (x + (two64 - 2))) by lia. lia. }
  rewrite !M by lia. lia.
Qed.

Lemma quiescent_view n a σ : Inv n σ -> quiescent σ ->
  view a n (r_epoch σ) None (r_q σ) AIdle σ.
Proof.
  intros I Q. constructor; auto.
  - apply I.
  - intros s. destruct (N.eq_dec (r_guards σ s) 0) as [|N]; [assumption|].
    destruct (i_free _ _ I s N) as (b & Hb). rewrite Q in Hb. discriminate.
  - destruct (r_lock σ) as [b|] eqn:E; [|reflexivity].
    apply (i_lock2 _ _ I) in E. rewrite Q in E. discriminate.
Qed.

Lemma round_solo a n l : solo a (round a n l).
Proof.
  unfold solo, round.
  repeat first [apply Forall_cons; [reflexivity|] | apply Forall_app; split
               | apply Forall_nil].
  all: apply Forall_forall; intros x Hx; apply repeat_spec in Hx; now subst.
Qed.

Lemma advances_app l l' : advances (l ++ l') = (advances l + advances l')%nat.
Proof. unfold advances. now rewrite filter_app, app_length. Qed.

Lemma advances_repeat a c k : c <> ActAdvance -> advances (repeat (a, c) k) = 0%nat.
Proof.
  intros N. unfold advances. induction k as [|k IH]; [reflexivity|].
  cbn. destruct c; cbn; auto; congruence.
Qed.

Lemma round_advances a n l : advances (round a n l) = 1%nat.
Proof.
  unfold round.
  change (advances ((a, ActAdvance) :: ?x)) with (S (advances x)).
  change (advances ((a, ActGo) :: ?x)) with (advances x).
  assert (C : forall c x, c <> ActAdvance -> advances ((a, c) :: x) = advances x).
  { intros c x N. destruct c; try reflexivity; congruence. }
  change (S (advances ((a, ActGo) :: repeat (a, ActGo) n ++
    (a, ActGo) :: (a, ActGo) :: repeat (a, ActPop) l ++ [(a, ActPop); (a, ActDropDrain)]))
    = 1%nat).
  rewrite C by discriminate. rewrite advances_app, advances_repeat by discriminate.
  rewrite !C by discriminate. rewrite advances_app, advances_repeat by discriminate.
  reflexivity.
Qed.

Lemma progress_lemma n a σ : (0 < n)%nat -> reachable n σ -> quiescent σ ->
  r_epoch σ + 4 <= u64_max ->
  exists sched σ', solo a sched /\ advances sched = 4%nat /\ run sched σ = Some σ' /\
    pending σ' = [] /\ quiescent σ'.
Proof.
  intros Hn R Q HE. destruct (reachable_inv n σ Hn R) as [I _].
  pose proof (quiescent_view n a σ I Q) as V0. set (E := r_epoch σ) in *.
  destruct (view_round a n E _ σ ltac:(lia) V0) as (σ1 & Q1 & R1 & V1 & Z1 & O1).
  destruct (view_round a n (E+1) _ σ1 ltac:(lia) V1) as (σ2 & Q2 & R2 & V2 & Z2 & O2).
  replace (E + 1 + 1) with (E + 2) in * by lia.
  destruct (view_round a n (E+2) _ σ2 ltac:(lia) V2) as (σ3 & Q3 & R3 & V3 & Z3 & O3).
  replace (E + 2 + 1) with (E + 3) in * by lia.
  destruct (view_round a n (E+3) _ σ3 ltac:(lia) V3) as (σ4 & Q4 & R4 & V4 & Z4 & O4).
  exists (round a n (length (r_q σ (last_queue E))) ++
          round a n (length (Q1 (last_queue (E + 1)))) ++
          round a n (length (Q2 (last_queue (E + 2)))) ++
          round a n (length (Q3 (last_queue (E + 3))))), σ4.
  split; [|split; [|split; [|split]]].
  2:{ rewrite !advances_app, !round_advances. reflexivity. }
  2:{ rewrite run_app, R1, run_app, R2, run_app, R3. exact R4. }
  - repeat (apply Forall_app; split); apply round_solo.
  - unfold pending. rewrite (v_q _ _ _ _ _ _ _ V4).
    assert (Z : forall q, (q < 4)%nat -> Q4 q = []).
    { intros q Hq.
      destruct (Nat.eq_dec q (last_queue (E + 3))) as [->|N4]; [exact Z4|].
      rewrite O4 by exact N4.
      destruct (Nat.eq_dec q (last_queue (E + 2))) as [->|N3]; [exact Z3|].
      rewrite O3 by exact N3.
      destruct (Nat.eq_dec q (last_queue (E + 1))) as [->|N2]; [exact Z2|].
      rewrite O2 by exact N2.
      destruct (Nat.eq_dec q (last_queue E)) as [->|N1]; [exact Z1|].
      exfalso. destruct (last_queue_shift E ltac:(lia) q Hq) as [?|[?|[?|?]]]; contradiction. }
    rewrite !Z by lia. reflexivity.
  - intros b. destruct (Nat.eq_dec b a) as [->|N]; [apply V4|now apply V4].
Qed.

(** ** Guards (C03) *)
Lemma held_fin σ a s e : r_ag σ a = GHeld s e -> fin (r_ag σ a) = Some (s, e).
Proof. now intros ->. Qed.
Lemma held_owns σ a s e : r_ag σ a = GHeld s e -> owns (r_ag σ a) = Some s.
Proof. now intros ->. Qed.

Lemma guards_excl n σ a b s s' e e' : (0 < n)%nat -> reachable n σ ->
  r_ag σ a = GHeld s e -> r_ag σ b = GHeld s' e' -> a <> b -> s <> s'.
Proof.
  intros Hn R Ha Hb N E. subst s'. destruct (reachable_inv n σ Hn R) as [I _].
  apply N. eapply (i_excl _ _ I); [rewrite Ha|rewrite Hb]; reflexivity.
Qed.

Lemma guards_pin n σ a s e : (0 < n)%nat -> reachable n σ -> r_ag σ a = GHeld s e ->
  (s < n)%nat /\ (r_epoch σ = e \/ r_epoch σ = e + 1).
Proof.
  intros Hn R Ha. destruct (reachable_inv n σ Hn R) as [I _].
  pose proof (i_slot _ _ I a s (held_owns _ _ _ _ Ha)).
  pose proof (i_fin _ _ I a s e (held_fin _ _ _ _ Ha)). lia.
Qed.

Lemma guards_count n σ l : (0 < n)%nat -> reachable n σ -> NoDup l ->
  (forall a, In a l -> exists s e, r_ag σ a = GHeld s e) -> (length l <= n)%nat.
Proof.
  intros Hn R ND H. destruct (reachable_inv n σ Hn R) as [I _].
  pose (f := fun a => match r_ag σ a with GHeld s _ => s | _ => 0%nat end).
  rewrite <- (map_length f l), <- (seq_length n 0).
  apply NoDup_incl_length.
  - apply NoDup_map_inj; [|exact ND].
    intros x y Hx Hy E. unfold f in E.
    destruct (H x Hx) as (s & e & Ex), (H y Hy) as (s' & e' & Ey).
    rewrite Ex, Ey in E. subst s'.
    eapply (i_excl _ _ I); [rewrite Ex|rewrite Ey]; reflexivity.
  - intros s Hs. apply in_map_iff in Hs. destruct Hs as (a & <- & Ha).
    destruct (H a Ha) as (s & e & E). unfold f. rewrite E.
    apply in_seq. pose proof (i_slot _ _ I a s (held_owns _ _ _ _ E)). lia.
Qed.

(** The solo behaviour of [guard]. *)
Lemma run_probe a n σ0 i : forall σ e h j,
  r_n σ = n -> r_ag σ a = GProbe e h j -> r_guards σ = r_guards σ0 -> r_epoch σ = r_epoch σ0 ->
  (j + i <= n)%nat ->
  (forall j', (j <= j' < j + i)%nat -> r_guards σ0 (probe_slot n h j') <> 0) ->
  exists σ', run (repeat (a, ActGo) i) σ = Some σ' /\
    r_n σ' = n /\ r_guards σ' = r_guards σ0 /\ r_hint σ' = r_hint σ /\
    r_epoch σ' = r_epoch σ /\ r_lock σ' = r_lock σ /\ r_q σ' = r_q σ /\
    r_ag σ' a = GProbe e h (j + i) /\ (forall b, b <> a -> r_ag σ' b = r_ag σ b).
Proof.
  induction i as [|i IH]; intros σ e h j Hn Ha Hg He Hi Hp.
  - exists σ. rewrite Nat.add_0_r. repeat split; auto.
  - destruct (IH (set_ag σ a (GProbe e h (S j))) e h (S j)) as
      (σ' & R & B1 & B2 & B3 & B4 & B5 & B6 & B7 & B8); cbn; auto using upd_eq; try lia.
    { intros. apply Hp. lia. }
    exists σ'. split.
    + cbn [repeat run]. unfold step. rewrite Ha. cbn [guard_go].
      destruct (Nat.ltb_spec j (r_n σ)); [|lia].
      destruct (N.eqb_spec (r_guards σ (probe_slot (r_n σ) h j)) 0) as [Z|_]; [|exact R].
      exfalso. rewrite Hn, Hg in Z. apply (Hp j); [lia|exact Z].
    + replace (j + S i)%nat with (S j + i)%nat by lia. repeat split; auto.
      intros b N. rewrite B8 by exact N. cbn. now apply upd_neq.
Qed.

Lemma guard_solo a σ i : r_ag σ a = AIdle -> (i < r_n σ)%nat ->
  r_guards σ (probe_slot (r_n σ) (r_hint σ) i) = 0 ->
  (forall j, (j < i)%nat -> r_guards σ (probe_slot (r_n σ) (r_hint σ) j) <> 0) ->
  exists k σ', run ((a, ActGuard) :: repeat (a, ActGo) k) σ = Some σ' /\
    r_n σ' = r_n σ /\ r_hint σ' = (r_hint σ + 1) mod two64 /\ r_epoch σ' = r_epoch σ /\
    r_lock σ' = r_lock σ /\ r_q σ' = r_q σ /\
    r_guards σ' = upd (r_guards σ) (probe_slot (r_n σ) (r_hint σ) i) (r_epoch σ) /\
    r_ag σ' a = GHeld (probe_slot (r_n σ) (r_hint σ) i) (r_epoch σ) /\
    (forall b, b <> a -> r_ag σ' b = r_ag σ b).
Proof.
  intros Ha Hi Hf Hb.
  pose (σ1 := set_ag σ a (GHint (r_epoch σ))).
  pose (σ2 := set_ag (set_hint σ1 ((r_hint σ + 1) mod two64)) a
                (GProbe (r_epoch σ) (r_hint σ) 0)).
  destruct (run_probe a (r_n σ) σ i σ2 (r_epoch σ) (r_hint σ) 0) as
    (σ3 & R & B1 & B2 & B3 & B4 & B5 & B6 & B7 & B8); try reflexivity; try lia.
  { cbn. apply upd_eq. }
  { intros. apply Hb. lia. }
  cbn [Nat.add] in B7. set (s := probe_slot (r_n σ) (r_hint σ) i) in *.
  set (σ4 := set_ag σ3 a (GCas (r_epoch σ) (r_hint σ) i s)).
  set (σ5 := set_ag (set_guard σ4 s (r_epoch σ)) a (GRecheck s (r_epoch σ) false)).
  set (σ6 := emit (set_ag σ5 a (GHeld s (r_epoch σ))) (EGuard a)).
  exists (S (i + 3)), σ6. split; [|cbn; rewrite ?upd_eq; repeat split; auto; try congruence].
  - cbn [repeat run]. unfold step at 1. rewrite Ha. fold σ1. unfold step at 1.
    replace (r_ag σ1 a) with (GHint (r_epoch σ)) by (cbn; now rewrite upd_eq).
    cbn [guard_go]. replace (r_hint σ1) with (r_hint σ) by reflexivity. fold σ2.
    rewrite repeat_app, run_app, R. cbn [repeat run].
    unfold step at 1. rewrite B7. cbn [guard_go].
    destruct (Nat.ltb_spec i (r_n σ3)); [|lia]. rewrite B1, B2. fold s. rewrite Hf. cbn [N.eqb].
    fold σ4. unfold step at 1.
    replace (r_ag σ4 a) with (GCas (r_epoch σ) (r_hint σ) i s) by (cbn; now rewrite upd_eq).
    cbn [guard_go]. replace (r_guards σ4 s) with 0 by (cbn; rewrite B2; congruence).
    cbn [N.eqb]. fold σ5. unfold step at 1.
    replace (r_ag σ5 a) with (GRecheck s (r_epoch σ) false) by (cbn; now rewrite upd_eq).
    cbn [guard_go]. replace (r_epoch σ5) with (r_epoch σ) by (cbn; congruence).
    rewrite N.eqb_refl. reflexivity.
  - intros b N. rewrite !upd_neq by exact N. rewrite B8 by exact N. cbn.
    now rewrite !upd_neq.
Qed.

Lemma guard_solo_unavailable a σ : r_ag σ a = AIdle ->
  (forall j, (j < r_n σ)%nat -> r_guards σ (probe_slot (r_n σ) (r_hint σ) j) <> 0) ->
  exists k σ', run ((a, ActGuard) :: repeat (a, ActGo) k) σ = Some σ' /\
    exists log, r_log σ' = log ++ [EUnavailable a].
Proof.
  intros Ha Hb.
  pose (σ1 := set_ag σ a (GHint (r_epoch σ))).
  pose (σ2 := set_ag (set_hint σ1 ((r_hint σ + 1) mod two64)) a
                (GProbe (r_epoch σ) (r_hint σ) 0)).
  destruct (run_probe a (r_n σ) σ (r_n σ) σ2 (r_epoch σ) (r_hint σ) 0) as
    (σ3 & R & B1 & B2 & B3 & B4 & B5 & B6 & B7 & B8); try reflexivity; try lia.
  { cbn. apply upd_eq. }
  { intros. apply Hb. lia. }
  cbn [Nat.add] in B7.
  exists (S (r_n σ + 1)), (emit (set_ag σ3 a AIdle) (EUnavailable a)).
  split; [|cbn; eauto].
  cbn [repeat run]. unfold step at 1. rewrite Ha. fold σ1. unfold step at 1.
  replace (r_ag σ1 a) with (GHint (r_epoch σ)) by (cbn; now rewrite upd_eq).
  cbn [guard_go]. replace (r_hint σ1) with (r_hint σ) by reflexivity. fold σ2.
  rewrite repeat_app, run_app, R. cbn [repeat run].
  unfold step at 1. rewrite B7. cbn [guard_go].
  destruct (Nat.ltb_spec (r_n σ) (r_n σ3)); [lia|reflexivity].
Qed.

(** Without wrap of the hint, the probes visit every slot. *)
Lemma probe_surj n h s : (s < n)%nat -> h + N.of_nat n <= two64 ->
  exists i, (i < n)%nat /\ probe_slot n h i = s.
Proof.
  intros Hs Hh. unfold probe_slot.
  exists (N.to_nat ((N.of_nat s + N.of_nat n - h mod N.of_nat n) mod N.of_nat n)).
  set (m := N.of_nat n) in *. assert (m <> 0) by lia.
  pose proof (N.mod_lt h m ltac:(lia)) as Hr.
  set (x := N.of_nat s + m - h mod m).
  pose proof (N.mod_lt x m ltac:(lia)) as Hx.
  split; [lia|].
  rewrite N2Nat.id. rewrite (N.mod_small (h + x mod m)) by lia.
  rewrite N.add_mod_idemp_r by lia.
  assert (Hd : h = m * (h / m) + h mod m) by (apply N.div_mod; lia).
  replace (h + x) with (N.of_nat s + (h / m + 1) * m) by (unfold x; nia).
  rewrite N.mod_add by lia. rewrite N.mod_small by lia. lia.
Qed.

Lemma first_free (P : nat -> bool) : forall m, P m = true ->
  exists i, (i <= m)%nat /\ P i = true /\ forall j, (j < i)%nat -> P j = false.
Proof.
  intros m. induction m as [m IH] using lt_wf_ind. intros Hm.
  destruct (existsb P (seq 0 m)) eqn:E.
  - apply existsb_exists in E. destruct E as (j & Hj & Pj). apply in_seq in Hj.
    destruct (IH j ltac:(lia) Pj) as (i & ? & ? & ?). exists i. repeat split; auto; lia.
  - exists m. repeat split; auto. intros j Hj. destruct (P j) eqn:Ej; [|reflexivity].
    assert (existsb P (seq 0 m) = true); [|congruence].
    apply existsb_exists. exists j. split; [apply in_seq; lia|exact Ej].
Qed.

Lemma guard_available n σ a s : (0 < n)%nat -> reachable n σ ->
  r_ag σ a = AIdle -> (s < n)%nat -> r_guards σ s = 0 -> r_hint σ + N.of_nat n <= two64 ->
  exists k σ' s', run ((a, ActGuard) :: repeat (a, ActGo) k) σ = Some σ' /\
    r_ag σ' a = GHeld s' (r_epoch σ).
Proof.
  intros Hn R Ha Hs Hf Hh. destruct (reachable_inv n σ Hn R) as [I _].
  pose proof (i_n _ _ I) as En.
  destruct (probe_surj n (r_hint σ) s Hs Hh) as (m & Hm & Em).
  destruct (first_free (fun j => r_guards σ (probe_slot n (r_hint σ) j) =? 0) m)
    as (i & Hi & Pi & Pj).
  { rewrite Em, Hf. reflexivity. }
  destruct (guard_solo a σ i) as (k & σ' & Rn & B).
  - exact Ha.
  - lia.
  - rewrite En. now apply N.eqb_eq.
  - intros j Hj. rewrite En. apply N.eqb_neq. now apply Pj.
  - exists k, σ', (probe_slot (r_n σ) (r_hint σ) i). split; [exact Rn|]. tauto.
Qed.

(** After 2^64 - 4 guard/drop pairs the hint is about to wrap. *)
Lemma reach_hint h : h < two64 ->
  exists sched σ, run sched (reg_init 3) = Some σ /\ r_n σ = 3%nat /\ r_hint σ = h /\
    r_epoch σ = 1 /\ (forall s, r_guards σ s = 0) /\ (forall a, r_ag σ a = AIdle).
Proof.
  induction h as [|h IH] using N.peano_ind; intros Hh.
  - exists [], (reg_init 3). repeat split; reflexivity.
  - destruct (IH ltac:(lia)) as (sched & σ & R & Bn & Bh & Be & Bg & Ba).
    destruct (guard_solo 0 σ 0) as (k & σ' & R' & C1 & C2 & C3 & C4 & C5 & C6 & C7 & C8).
    + apply Ba.
    + lia.
    + apply Bg.
    + intros; lia.
    + set (s := probe_slot (r_n σ) (r_hint σ) 0) in *.
      exists (sched ++ ((0%nat, ActGuard) :: repeat (0%nat, ActGo) k) ++ [(0%nat, ActDropGuard)]),
        (emit (set_ag (set_guard σ' s 0) 0 AIdle) (EDrop 0)).
      split; [|cbn; repeat split; try congruence].
      * rewrite run_app, R, run_app, R'. cbn [run]. unfold step. now rewrite C7.
      * rewrite C2, Bh, N.mod_small by lia. lia.
      * intros s'. rewrite C6. destruct (upd_cases (upd (r_guards σ) s (r_epoch σ)) s 0 s')
          as [[_ E]|[N E]]; rewrite E; [reflexivity|].
        rewrite upd_neq by exact N. apply Bg.
      * intros b. destruct (upd_cases (r_ag σ') 0 AIdle b) as [[_ E]|[N E]]; rewrite E;
          [reflexivity|]. rewrite C8 by exact N. apply Ba.
Qed.

Lemma guard_wrap_unavailable :
  exists σ k σ' log, reachable 3 σ /\ r_ag σ 0 = AIdle /\ r_guards σ 2 = 0 /\
    run ((0%nat, ActGuard) :: repeat (0%nat, ActGo) k) σ = Some σ' /\
    r_log σ' = log ++ [EUnavailable 0].
Proof.
  pose proof u64_facts as (U1 & U2 & _).
  assert (P0 : probe_slot 3 (two64 - 4) 0 = 0%nat) by (vm_compute; reflexivity).
  assert (P1 : probe_slot 3 (two64 - 3) 0 = 1%nat) by (vm_compute; reflexivity).
  assert (P2 : probe_slot 3 (two64 - 2) 0 = 2%nat) by (vm_compute; reflexivity).
  assert (Q0 : probe_slot 3 (two64 - 1) 0 = 0%nat) by (vm_compute; reflexivity).
  assert (Q1 : probe_slot 3 (two64 - 1) 1 = 0%nat) by (vm_compute; reflexivity).
  assert (Q2 : probe_slot 3 (two64 - 1) 2 = 1%nat) by (vm_compute; reflexivity).
  destruct (reach_hint (two64 - 4)) as (sc & σ & R & Bn & Bh & Be & Bg & Ba); [lia|].
  destruct (guard_solo 1 σ 0) as (k1 & σ1 & R1 & C1 & C2 & C3 & C4 & C5 & C6 & C7 & C8);
    [apply Ba|lia|apply Bg|intros; lia|].
  rewrite Bn, Bh, P0 in *.
  rewrite N.mod_small in C2 by lia. replace (two64 - 4 + 1) with (two64 - 3) in C2 by lia.
  destruct (guard_solo 2 σ1 0) as (k2 & σ2 & R2 & D1 & D2 & D3 & D4 & D5 & D6 & D7 & D8);
    [rewrite C8 by lia; apply Ba|lia| |intros; lia|].
  { rewrite C1, C2, P1, C6. rewrite upd_neq by lia. apply Bg. }
  rewrite C1, C2, P1 in *.
  rewrite N.mod_small in D2 by lia. replace (two64 - 3 + 1) with (two64 - 2) in D2 by lia.
  destruct (guard_solo 3 σ2 0) as (k3 & σ3 & R3 & E1 & E2 & E3 & E4 & E5 & E6 & E7 & E8);
    [rewrite D8, C8 by lia; apply Ba|lia| |intros; lia|].
  { rewrite D1, D2, P2, D6. rewrite upd_neq, C6, upd_neq by lia. apply Bg. }
  rewrite D1, D2, P2 in *.
  rewrite N.mod_small in E2 by lia. replace (two64 - 2 + 1) with (two64 - 1) in E2 by lia.
  pose (σ4 := emit (set_ag (set_guard σ3 2 0) 3 AIdle) (EDrop 3)).
  destruct (guard_solo_unavailable 0 σ4) as (k & σ5 & R5 & log & EL).
  { cbn. rewrite E8, D8, C8 by lia. apply Ba. }
  { cbn [r_n r_guards r_hint σ4 emit set_ag set_guard]. rewrite E1, E2, E6, D6, C6, D3, C3, Be.
    intros [|[|[|]]] Hj; [rewrite Q0|rewrite Q1|rewrite Q2|lia]; cbn; lia. }
  exists σ4, k, σ5, log. split; [|split; [|split; [|split]]].
  - exists (sc ++ ((1%nat, ActGuard) :: repeat (1%nat, ActGo) k1) ++
             ((2%nat, ActGuard) :: repeat (2%nat, ActGo) k2) ++
             ((3%nat, ActGuard) :: repeat (3%nat, ActGo) k3) ++ [(3%nat, ActDropGuard)]).
    rewrite run_app, R, run_app, R1, run_app, R2, run_app, R3. cbn [run]. unfold step.
    now rewrite E7.
  - cbn. rewrite E8, D8, C8 by lia. apply Ba.
  - reflexivity.
  - exact R5.
  - exact EL.
Qed.

(** ** Drains (C04) *)
Lemma drain_unique n σ a b q q' : (0 < n)%nat -> reachable n σ ->
  r_ag σ a = VDrain q -> r_ag σ b = VDrain q' -> a = b.
Proof.
  intros Hn R Ha Hb. destruct (reachable_inv n σ Hn R) as [I _].
  assert (r_lock σ = Some a) by (apply (i_lock1 _ _ I); now rewrite Ha).
  assert (r_lock σ = Some b) by (apply (i_lock1 _ _ I); now rewrite Hb).
  congruence.
Qed.

Lemma drain_stable n σ σ' a b c q : (0 < n)%nat -> reachable n σ ->
  r_ag σ a = VDrain q -> b <> a -> step b c σ = Some σ' ->
  r_ag σ' a = VDrain q /\ r_q σ' q = r_q σ q /\ r_epoch σ' = r_epoch σ.
Proof.
  intros Hn R Ha N H. destruct (reachable_inv n σ Hn R) as [I _].
  assert (Lk : r_lock σ = Some a) by (apply (i_lock1 _ _ I); now rewrite Ha).
  assert (Nl : locking (r_ag σ b) = false).
  { destruct (locking (r_ag σ b)) eqn:E; [|reflexivity].
    apply (i_lock1 _ _ I) in E. congruence. }
  destruct (i_drain _ _ I _ _ Ha) as [Hq HE]. pose proof (i_epoch _ _ I) as HM.
  apply step_inv in H.
  destruct H as [H|[H|[H|[H|[H|[H|[H|[H|[H|H]]]]]]]]].
  - destruct H as (-> & Hb & ->). cbn. rewrite upd_neq; auto.
  - destruct H as (-> & Hb & Lk' & ->). congruence.
  - destruct H as (-> & Hb & Lk' & ->). cbn. auto.
  - destruct H as (i & s & e & -> & Hb & ->). cbn. repeat split; auto.
    apply upd_neq. intros ->.
    pose proof (i_fin _ _ I b s e (held_fin _ _ _ _ Hb)).
    pose proof (last_queue_old (r_epoch σ) e). lia.
  - destruct H as (s & e & -> & Hb & ->). cbn. rewrite upd_neq; auto.
  - destruct H as (q' & -> & Hb & _). rewrite Hb in Nl. discriminate.
  - destruct H as (q' & it & rest & -> & Hb & _). rewrite Hb in Nl. discriminate.
  - destruct H as (q' & -> & Hb & _). rewrite Hb in Nl. discriminate.
  - destruct H as (-> & H). destruct (r_ag σ b) eqn:Hb; unfold guard_go in H;
      try discriminate; repeat match type of H with context [if ?x then _ else _] =>
        destruct x end; inv H; cbn; rewrite ?upd_neq; auto.
  - destruct H as (-> & H). destruct (r_ag σ b) eqn:Hb; cbn in Nl, H; discriminate.
Qed.

Lemma drain_len_exact σ a q : r_ag σ a = VDrain q ->
  exists σ' log, run (repeat (a, ActPop) (drain_len σ q) ++ [(a, ActPop)]) σ = Some σ' /\
    r_log σ' = r_log σ ++ map (fun it => EPop a (it_id it) (it_stamp it)) log ++ [EPopNone a] /\
    length log = drain_len σ q.
Proof.
  unfold drain_len. remember (r_q σ q) as l eqn:El. revert σ El.
  induction l as [|x l IH]; intros σ El Ha.
  - exists (emit σ (EPopNone a)), []. repeat split; auto.
    cbn. unfold step. now rewrite Ha, <- El.
  - destruct (IH (emit (set_q σ q l) (EPop a (it_id x) (it_stamp x)))) as (σ' & log & R & E & L).
    + cbn. now rewrite upd_eq.
    + exact Ha.
    + exists σ', (x :: log). split; [|split].
      * cbn [length repeat app run]. unfold step at 1. rewrite Ha, <- El. exact R.
      * rewrite E. cbn. now rewrite <- app_assoc.
      * cbn. now rewrite L.
Qed.

(** ** Panics *)
Lemma no_panic n σ a σ' : (0 < n)%nat -> reachable n σ -> r_epoch σ < u64_max ->
  step a ActGo σ = Some σ' -> r_ag σ a <> APanic -> r_ag σ' a <> APanic.
Proof.
  intros Hn R HE H Ha. destruct (reachable_inv n σ Hn R) as [I _].
  apply step_inv in H.
  destruct H as [H|[H|[H|[H|[H|[H|[H|[H|[H|H]]]]]]]]];
    try (destruct H as (D & _); discriminate);
    try (destruct H as (? & D & _); discriminate);
    try (destruct H as (? & ? & D & _); discriminate);
    try (destruct H as (? & ? & ? & D & _); discriminate);
    destruct H as (_ & H); destruct (r_ag σ a) eqn:Ea;
    try discriminate; unfold guard_go, advance_go in H.
  all: try (repeat match type of H with context [if ?x then _ else _] =>
         destruct x eqn:? end; inv H; cbn; rewrite upd_eq; discriminate).
  pose proof (i_scan _ _ I _ _ _ _ Ea).
  repeat match type of H with context [if ?x then _ else _] => destruct x eqn:? end;
    inv H; cbn; rewrite upd_eq; try discriminate.
  lia.
Qed.

(** ** The statements of Props.v *)
Lemma c01_lemma n σ : (0 < n)%nat -> reachable n σ ->
  forall p a i k, nth_error (r_log σ) p = Some (EPop a i k) ->
    (k < p)%nat /\ (exists r, nth_error (r_log σ) k = Some (ERetire r i)) /\
    forall g, held_at (r_log σ) k g ->
      exists m, (k < m < p)%nat /\ nth_error (r_log σ) m = Some (EDrop g).
Proof.
  intros Hn R p a i k H. destruct (reachable_inv n σ Hn R) as [_ L].
  exact (l_safe _ L p a i k H).
Qed.

Lemma pop_stamps_at log : forall p p' a a' i i' k, NoDup (pop_stamps log) ->
  nth_error log p = Some (EPop a i k) -> nth_error log p' = Some (EPop a' i' k) -> p = p'.
Proof.
  assert (M : forall log p a i k, nth_error log p = Some (EPop a i k) ->
                In k (pop_stamps log)).
  { induction log0 as [|ev l IH]; intros [|p] a i k H; cbn in H; try discriminate.
    - inv H. now left.
    - destruct ev; cbn; eauto. }
  induction log as [|ev l IH]; intros p p' a a' i i' k ND H H'; [destruct p; discriminate|].
  destruct p as [|p], p' as [|p']; cbn in H, H'; [reflexivity| | |].
  - inv H. cbn in ND. inv ND. exfalso. eauto.
  - inv H'. cbn in ND. inv ND. exfalso. eauto.
  - f_equal. eapply IH; eauto. destruct ev; cbn in ND; auto. now inv ND.
Qed.

Lemma c02_once_lemma n σ : (0 < n)%nat -> reachable n σ ->
  forall p p' a a' i i' k,
    nth_error (r_log σ) p = Some (EPop a i k) ->
    nth_error (r_log σ) p' = Some (EPop a' i' k) -> p = p'.
Proof.
  intros Hn R p p' a a' i i' k H H'. destruct (reachable_inv n σ Hn R) as [_ L].
  eapply pop_stamps_at; eauto. exact (proj1 (NoDup_app_inv _ _ (l_nd _ L))).
Qed.

Lemma c02_perm_lemma n σ : (0 < n)%nat -> reachable n σ ->
  Permutation (retired (r_log σ)) (popped (r_log σ) ++ pending σ).
Proof.
  intros Hn R. destruct (reachable_inv n σ Hn R) as [_ L]. exact (l_perm _ L).
Qed.
