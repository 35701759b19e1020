(** The parser. *)
From Coq Require Import String.
From Verif.Lib Require Import Base Lists Bytes F64.
From Verif.Keys Require Import Model Spec.
From Verif.Labels Require Import Model Spec Proofs Proofs4.
Local Open Scope N_scope.

Definition sub_filters (depth : nat) := fix subs (l : list json) : list expr + perr :=
  match l with
  | [] => inl []
  | j :: l => match parse j (depth + 1) with
              | PErr e => inr e
              | POk e => match subs l with inl es => inl (e :: es) | inr e => inr e end
              end
  end.
Definition at_array (depth : nat) := fix at_array (k : bytes) (m : list (bytes * json)) : option (list expr + perr) :=
  match m with
  | [] => None
  | (k', v) :: m => if beqb k k' then match v with JArr l => Some (sub_filters depth l) | _ => None end else at_array k m
  end.
Definition at_key (depth : nat) := fix at_key (k : bytes) (m : list (bytes * json)) : option parsed :=
  match m with [] => None | (k', v) :: m => if beqb k k' then Some (parse v (depth + 1)) else at_key k m end.
Lemma parse_obj depth m : parse (JObj m) depth =
  if (allowed_depth <? depth)%nat then PErr NestingTooDeep else
  match at_array depth (str "$and") m with
  | Some (inr e) => PErr e
  | Some (inl []) => PErr ParseFailure
  | Some (inl l) => POk (EAnd l)
  | None =>
    match at_array depth (str "$or") m with
    | Some (inr e) => PErr e
    | Some (inl []) => PErr ParseFailure
    | Some (inl l) => POk (EOr l)
    | None =>
      match at_key depth (str "$not") m with
      | Some (POk e) => POk (ENot e)
      | Some (PErr e) => PErr e
      | None =>
        match first_dollar m with
        | Some f => PErr (UnsupportedLogical f)
        | None =>
          match parse_fields m with inr e => PErr e | inl [] => PErr ParseFailure | inl [e] => POk e | inl l => POk (EAnd l) end
        end
      end
    end
  end.
Proof. reflexivity. Qed.
Lemma parse_and depth l : parse (JObj [(str "$and", JArr l)]) depth =
  if (allowed_depth <? depth)%nat then PErr NestingTooDeep else
  match sub_filters depth l with inr e => PErr e | inl [] => PErr ParseFailure | inl l => POk (EAnd l) end.
Proof. reflexivity. Qed.
Lemma parse_or depth l : parse (JObj [(str "$or", JArr l)]) depth =
  if (allowed_depth <? depth)%nat then PErr NestingTooDeep else
  match sub_filters depth l with inr e => PErr e | inl [] => PErr ParseFailure | inl l => POk (EOr l) end.
Proof. reflexivity. Qed.
Lemma parse_not depth v : parse (JObj [(str "$not", v)]) depth =
  if (allowed_depth <? depth)%nat then PErr NestingTooDeep else
  match parse v (depth + 1) with POk e => POk (ENot e) | PErr e => PErr e end.
Proof. reflexivity. Qed.
Definition plain_fields (m : list (bytes * json)) : Prop := forall k v, In (k, v) m -> dollar k = false /\ is_object v.
Lemma parse_plain depth m : plain_fields m -> parse (JObj m) depth =
  if (allowed_depth <? depth)%nat then PErr NestingTooDeep else
  match parse_fields m with inr e => PErr e | inl [] => PErr ParseFailure | inl [e] => POk e | inl l => POk (EAnd l) end.
Proof.
  intros P. rewrite parse_obj. destruct (allowed_depth <? depth)%nat; [reflexivity|].
  assert (N : forall k, dollar k = true -> forall k' v, In (k', v) m -> beqb k k' = false).
  { intros k D k' v I. destruct (beqb_spec k k') as [->|]; [|reflexivity]. destruct (P k' v I). congruence. }
  assert (A : forall k, dollar k = true -> at_array depth k m = None).
  { intros k D. specialize (N k D). clear P. induction m as [|(k', v) m IH]; [reflexivity|]. cbn [at_array]. rewrite (N k' v (or_introl eq_refl)). apply IH. intros; eapply N; right; eassumption. }
  rewrite !A by reflexivity.
  assert (B : forall k, dollar k = true -> at_key depth k m = None).
  { intros k D. specialize (N k D). clear P A. induction m as [|(k', v) m IH]; [reflexivity|]. cbn [at_key]. rewrite (N k' v (or_introl eq_refl)). apply IH. intros; eapply N; right; eassumption. }
  rewrite B by reflexivity.
  assert (F : first_dollar m = None).
  { clear - P. induction m as [|(k', v) m IH]; [reflexivity|]. cbn [first_dollar]. destruct (P k' v (or_introl eq_refl)) as (-> & _). apply IH. intros k0 v0 I. apply (P k0 v0). now right. }
  now rewrite F.
Qed.
(** The three shapes of strict filters. *)
Lemma strict_list l : (fix go l := match l with [] => True | j :: l => strict j /\ go l end) l <-> forall j, In j l -> strict j.
Proof. induction l as [|e l IH]; [split; [intros _ ? []|auto]|]. cbn [In]. rewrite IH. split; [intros (A & B) e' [<-|H]; auto|intros H; split; auto]. Qed.
Definition is_arr (v : json) : bool := match v with JArr _ => true | _ => false end.
Lemma strict_shape f : strict f ->
  (exists k l, f = JObj [(k, JArr l)] /\ (k = str "$and" \/ k = str "$or") /\ forall j, In j l -> strict j) \/
  (exists v, f = JObj [(str "$not", v)] /\ strict v /\ is_arr v = false) \/
  (exists m, f = JObj m /\ plain_fields m).
Proof.
  intros H. destruct f as [|b|n|s|l|m]; try contradiction. destruct m as [|(k, v) [|p m]].
  - right. right. exists []. split; [reflexivity|]. intros k v [].
  - assert (Other : is_arr v = false -> (if beqb k (str "$not") then strict v else dollar k = false /\ is_object v) ->
      (exists v0, JObj [(k, v)] = JObj [(str "$not", v0)] /\ strict v0 /\ is_arr v0 = false) \/ (exists m, JObj [(k, v)] = JObj m /\ plain_fields m)).
    { intros Na X. destruct (beqb_spec k (str "$not")) as [->|N]; [left; exists v; auto|right; exists [(k, v)]; split; [reflexivity|]].
      intros k' v' [E|[]]. injection E as <- <-. exact X. }
    cbn [strict] in H. destruct v as [|b|n|s|l|m]; try (right; apply Other; [reflexivity|exact H]).
    left. exists k, l. split; [reflexivity|]. destruct H as (A & B). split; [assumption|]. now apply strict_list.
  - right. right. exists ((k, v) :: p :: m). split; [reflexivity|]. cbn [strict] in H. destruct v; exact H.
Qed.
(** Meaning and acceptance of one operator. *)
Lemma parse_op_sound op v c : parse_op op v = inl c -> known_op op v /\ forall label f, eval (ECmp f c) label = true <-> op_holds label f op v.
Proof.
  unfold parse_op, known_op.
  assert (R : forall r name, beqb op name = true -> match as_f64 v with Some t => inl (CRange r t) | None => inr InvalidValue end = inl c ->
    (name = str "$lt" /\ r = Lt \/ name = str "$lte" /\ r = Lte \/ name = str "$gt" /\ r = Gt \/ name = str "$gte" /\ r = Gte) ->
    op = name /\ as_f64 v <> None /\ forall label f, eval (ECmp f c) label = true <-> op_holds label f op v).
  { intros r name E H Cases. destruct (beqb_spec op name) as [->|]; [|discriminate]. destruct (as_f64 v) as [t|] eqn:T; [|discriminate]. injection H as <-. clear E.
    split; [reflexivity|]. split; [discriminate|]. intros label f. cbn [eval]. unfold op_holds. rewrite T. destruct (get_value_by_path label f) as [x|].
    - cbn [eval_cmp]. split.
      + intros H. exists x. split; [reflexivity|]. right. right. destruct (as_f64 x) as [a|]; [|discriminate]. exists a, t. split; [reflexivity|]. split; [reflexivity|].
        destruct Cases as [(-> & ->)|[(-> & ->)|[(-> & ->)|(-> & ->)]]]; cbn [cmp_range] in H; auto 6.
      + intros (x' & [= <-] & [(E1 & _)|[(E1 & _)|(a & b & -> & [= <-] & H)]]).
        * destruct Cases as [(-> & ->)|[(-> & ->)|[(-> & ->)|(-> & ->)]]]; discriminate.
        * destruct Cases as [(-> & ->)|[(-> & ->)|[(-> & ->)|(-> & ->)]]]; discriminate.
        * destruct Cases as [(-> & ->)|[(-> & ->)|[(-> & ->)|(-> & ->)]]]; destruct H as [(E1 & H)|[(E1 & H)|[(E1 & H)|(E1 & H)]]]; try discriminate E1; exact H.
    - split; [discriminate|]. intros (x & [=] & _). }
  destruct (beqb_spec op (str "$eq")) as [->|N1].
  { intros [= <-]. split; [auto|]. intros label f. cbn [eval]. unfold op_holds. destruct (get_value_by_path label f) as [x|].
    - cbn [eval_cmp]. split; [intros H; exists x; auto|]. intros (x' & [= <-] & [(_ & H)|[(E & _)|(a & b & _ & _ & [(E & _)|[(E & _)|[(E & _)|(E & _)]]])]]); [assumption|discriminate E..].
    - split; [discriminate|]. intros (x & [=] & _). }
  destruct (beqb_spec op (str "$ne")) as [->|N2].
  { intros [= <-]. split; [auto|]. intros label f. cbn [eval]. unfold op_holds. destruct (get_value_by_path label f) as [x|].
    - cbn [eval_cmp]. rewrite negb_true_iff. split; [intros H; exists x; auto|]. intros (x' & [= <-] & [(E & _)|[(_ & H)|(a & b & _ & _ & [(E & _)|[(E & _)|[(E & _)|(E & _)]]])]]); [discriminate E|assumption|discriminate E..].
    - split; [discriminate|]. intros (x & [=] & _). }
  destruct (beqb op (str "$lt")) eqn:E3; [intros H; destruct (R Lt _ E3 H ltac:(auto)) as (A & B & D); split; [tauto|exact D]|].
  destruct (beqb op (str "$lte")) eqn:E4; [intros H; destruct (R Lte _ E4 H ltac:(auto)) as (A & B & D); split; [tauto|exact D]|].
  destruct (beqb op (str "$gt")) eqn:E5; [intros H; destruct (R Gt _ E5 H ltac:(auto)) as (A & B & D); split; [tauto|exact D]|].
  destruct (beqb op (str "$gte")) eqn:E6; [intros H; destruct (R Gte _ E6 H ltac:(auto 6)) as (A & B & D); split; [tauto|exact D]|discriminate].
Qed.
Lemma parse_op_complete op v : known_op op v -> exists c, parse_op op v = inl c.
Proof.
  unfold parse_op. intros [->|[->|(O & V)]]; [eexists; reflexivity..|]. destruct (as_f64 v) as [t|]; [|congruence].
  destruct O as [->|[->|[->| ->]]]; eexists; reflexivity.
Qed.
Lemma parse_ops_sound f : forall ops l, parse_ops f ops = inl l -> length l = length ops /\ (forall op w, In (op, w) ops -> known_op op w) /\
  forall label, forallb (fun e => eval e label) l = true <-> forall op w, In (op, w) ops -> op_holds label f op w.
Proof.
  induction ops as [|(op, v) ops IH]; intros l H; cbn [parse_ops] in H.
  - injection H as <-. split; [reflexivity|]. split; [intros ? ? []|]. intros label. split; [intros _ ? ? []|reflexivity].
  - destruct (parse_op op v) as [c|] eqn:E; [|discriminate]. destruct (parse_ops f ops) as [l'|]; [|discriminate]. injection H as <-.
    destruct (parse_op_sound _ _ _ E) as (K & S). destruct (IH l' eq_refl) as (L & K' & S'). split; [cbn; congruence|]. split.
    + intros op' w' [X|X]; [injection X as <- <-; assumption|eauto].
    + intros label. cbn [forallb]. rewrite andb_true_iff, S, S'. split.
      * intros (A & B) op' w' [X|X]; [injection X as <- <-; assumption|auto].
      * intros A. split; [apply A; now left|intros; apply A; now right].
Qed.
Lemma parse_ops_complete f : forall ops, (forall op w, In (op, w) ops -> known_op op w) -> exists l, parse_ops f ops = inl l.
Proof.
  induction ops as [|(op, v) ops IH]; intros H; [eexists; reflexivity|]. cbn [parse_ops]. destruct (parse_op_complete op v) as (c & ->); [apply H; now left|].
  destruct IH as (l & ->); [intros; apply H; now right|]. eexists; reflexivity.
Qed.
Lemma parse_fields_sound : forall m l, plain_fields m -> parse_fields m = inl l ->
  (l <> [] <-> exists k ops op w, In (k, JObj ops) m /\ In (op, w) ops) /\
  (forall k ops op w, In (k, JObj ops) m -> In (op, w) ops -> known_op op w) /\
  forall label, forallb (fun e => eval e label) l = true <-> forall k ops op w, In (k, JObj ops) m -> In (op, w) ops -> op_holds label k op w.
Proof.
  induction m as [|(k, v) m IH]; intros l P H; cbn [parse_fields] in H.
  - injection H as <-. split; [split; [congruence|intros (? & ? & ? & ? & [] & _)]|]. split; [intros ? ? ? ? []|]. intros label. split; [intros _ ? ? ? ? []|reflexivity].
  - destruct (P k v (or_introl eq_refl)) as (Dk & ops & ->). destruct (parse_ops k ops) as [l1|] eqn:E1; [|discriminate]. destruct (parse_fields m) as [l2|] eqn:E2; [|discriminate]. injection H as <-.
    destruct (parse_ops_sound _ _ _ E1) as (L1 & K1 & S1). destruct (IH l2) as (N2 & K2 & S2); [intros ? ? ?; apply P; now right|reflexivity|]. split; [|split].
    + split.
      * intros N. destruct l1 as [|e1 l1].
        -- destruct (proj1 N2 N) as (k' & ops' & op & w & A & B). exists k', ops', op, w. split; [now right|assumption].
        -- destruct ops as [|(op, w) ops]; [discriminate|]. exists k, ((op, w) :: ops), op, w. split; now left.
      * intros (k' & ops' & op & w & [A|A] & B).
        -- injection A as <- <-. destruct l1; [destruct ops; [contradiction|discriminate]|discriminate].
        -- intros X. apply app_eq_nil in X. destruct X as (_ & X). revert X. apply N2. eauto 7.
    + intros k' ops' op w [A|A] B; [injection A as <- <-; eauto|eauto].
    + intros label. rewrite forallb_app, andb_true_iff, S1, S2. split.
      * intros (A & B) k' ops' op w [X|X] Y; [injection X as <- <-; auto|eauto].
      * intros A. split; [intros; eapply A; [now left|eassumption]|intros; eapply A; [right; eassumption|eassumption]].
Qed.
Lemma parse_fields_complete : forall m, plain_fields m -> (forall k ops op w, In (k, JObj ops) m -> In (op, w) ops -> known_op op w) -> exists l, parse_fields m = inl l.
Proof.
  induction m as [|(k, v) m IH]; intros P H; [eexists; reflexivity|]. cbn [parse_fields]. destruct (P k v (or_introl eq_refl)) as (Dk & ops & ->).
  destruct (parse_ops_complete k ops) as (l1 & ->); [intros; eapply H; [now left|eassumption]|].
  destruct IH as (l2 & ->); [intros ? ? ?; apply P; now right|intros; eapply H; [right; eassumption|eassumption]|]. eexists; reflexivity.
Qed.
(** The meaning of the shapes. *)
Lemma holds_fields m label : plain_fields m -> holds (JObj m) label <-> forall k ops op w, In (k, JObj ops) m -> In (op, w) ops -> op_holds label k op w.
Proof.
  cbn [holds]. induction m as [|(k, v) m IH]; intros P; [split; [intros _ ? ? ? ? []|auto]|].
  destruct (P k v (or_introl eq_refl)) as (Dk & ops & ->). rewrite IH by (intros ? ? ?; apply P; now right).
  assert (B : forall n, dollar n = true -> beqb k n = false) by (intros n Dn; destruct (beqb_spec k n) as [->|]; [congruence|reflexivity]).
  rewrite !B by reflexivity. split.
  - intros (A & C) k' ops' op w [X|X] Y; [injection X as <- <-; auto|eauto].
  - intros A. split; [intros; eapply A; [now left|eassumption]|intros; eapply A; [right; eassumption|eassumption]].
Qed.
Lemma holds_and l label : holds (JObj [(str "$and", JArr l)]) label <-> forall j, In j l -> holds j label.
Proof.
  change (holds (JObj [(str "$and", JArr l)]) label) with ((fix go l := match l with [] => True | j :: l => holds j label /\ go l end) l /\ True).
  induction l as [|j l IH]; [split; [intros _ ? []|auto]|]. cbn [In]. split.
  - intros ((A & B) & _) j' [<-|H]; [assumption|]. apply IH; auto.
  - intros H. split; [|exact I]. split; [auto|]. apply IH. auto.
Qed.
Lemma holds_or l label : holds (JObj [(str "$or", JArr l)]) label <-> exists j, In j l /\ holds j label.
Proof.
  change (holds (JObj [(str "$or", JArr l)]) label) with ((fix go l := match l with [] => False | j :: l => holds j label \/ go l end) l /\ True).
  induction l as [|j l IH]; [split; [intros ([] & _)|intros (j & [] & _)]|]. cbn [In]. split.
  - intros ([A|B] & _); [exists j; auto|]. destruct (proj1 IH (conj B I)) as (j' & X & Y). exists j'. auto.
  - intros (j' & [<-|H] & X); (split; [|exact I]); [auto|right; apply IH; eauto].
Qed.
Lemma holds_not v label : holds (JObj [(str "$not", v)]) label <-> ~ holds v label.
Proof. change (holds (JObj [(str "$not", v)]) label) with (~ holds v label /\ True). tauto. Qed.
Lemma wf_list d l : (fix go l := match l with [] => True | j :: l => well_formed j (S d) /\ go l end) l <-> forall j, In j l -> well_formed j (S d).
Proof. induction l as [|e l IH]; [split; [intros _ ? []|auto]|]. cbn [In]. rewrite IH. split; [intros (A & B) e' [<-|H]; auto|intros H; split; auto]. Qed.
Lemma wf_fields m d : plain_fields m -> well_formed (JObj m) d <-> (d <= 2)%nat /\ fields_ok m.
Proof.
  intros P. destruct m as [|(k, v) [|p m]]; cbn [well_formed]; try tauto.
  - destruct (P k v (or_introl eq_refl)) as (Dk & ops & ->). destruct (beqb_spec k (str "$not")) as [->|]; [discriminate|tauto].
  - destruct v; tauto.
Qed.
Lemma wf_not v d : is_arr v = false -> well_formed (JObj [(str "$not", v)]) d <-> (d <= 2)%nat /\ well_formed v (S d).
Proof. intros A. destruct v; try discriminate; cbn [well_formed]; rewrite beqb_refl; tauto. Qed.
Lemma deep d : (allowed_depth <? d)%nat = false <-> (d <= 2)%nat.
Proof. unfold allowed_depth. rewrite Nat.ltb_ge. tauto. Qed.
Definition correct (f : json) : Prop := strict f -> forall d,
  ((exists e, parse f d = POk e) <-> well_formed f d) /\ forall e label, parse f d = POk e -> (eval e label = true <-> holds f label).
Lemma sub_filters_correct d : forall l, (forall j, In j l -> correct j) -> (forall j, In j l -> strict j) ->
  ((exists es, sub_filters d l = inl es) <-> forall j, In j l -> well_formed j (S d)) /\
  forall es, sub_filters d l = inl es -> length es = length l /\
    forall label, (forallb (fun e => eval e label) es = true <-> forall j, In j l -> holds j label) /\
                  (existsb (fun e => eval e label) es = true <-> exists j, In j l /\ holds j label).
Proof.
  induction l as [|j l IH]; intros Cs St; cbn [sub_filters].
  - split; [split; [intros _ ? []|intros _; eexists; reflexivity]|]. intros es [= <-]. split; [reflexivity|]. intros label. split; (split; [|]); try discriminate; try (intros _ ? []); try reflexivity. intros (j & [] & _).
  - replace (d + 1)%nat with (S d) by lia. destruct (Cs j (or_introl eq_refl) (St j (or_introl eq_refl)) (S d)) as (W & M).
    destruct IH as (W' & M'); [intros; apply Cs; now right|intros; apply St; now right|]. replace (d + 1)%nat with (S d) in * by lia. split.
    + split.
      * intros (es & H) j' [<-|I]; destruct (parse j (S d)) as [e|] eqn:E; try discriminate; destruct (sub_filters d l) as [es'|] eqn:E'; try discriminate; [apply W; eauto|apply W'; eauto].
      * intros H. destruct (proj2 W (H j (or_introl eq_refl))) as (e & ->). destruct (proj2 W' (fun j' I => H j' (or_intror I))) as (es & ->). eexists; reflexivity.
    + intros es H. destruct (parse j (S d)) as [e|] eqn:E; [|discriminate]. destruct (sub_filters d l) as [es'|] eqn:E'; [|discriminate]. injection H as <-.
      destruct (M' es' eq_refl) as (L & M2). split; [cbn; congruence|]. intros label. destruct (M2 label) as (MA & MO). cbn [forallb existsb]. rewrite andb_true_iff, orb_true_iff, MA, MO, (M e label eq_refl). split.
      * split; [intros (A & B) j' [<-|I]; auto|intros A; split; [apply A; now left|intros; apply A; now right]].
      * split; [intros [A|(j' & A & B)]; [exists j; split; [now left|assumption]|exists j'; split; [now right|assumption]]|intros (j' & [<-|A] & B); eauto].
Qed.
Lemma parse_correct : forall f, correct f.
Proof.
  intros f. cut (correct f /\ forall l, f = JArr l -> forall j, In j l -> correct j); [tauto|]. revert f.
  apply (json_rect' (fun f => correct f /\ forall l, f = JArr l -> forall j, In j l -> correct j)); try (intros; split; [intros []|discriminate]).
  { intros l IH. split; [intros []|]. intros l' [= <-] j I. now apply IH. }
  intros m IH. split; [|discriminate]. intros ST d. destruct (strict_shape _ ST) as [(k & l & E & Kk & Sl)|[(v & E & Sv & Na)|(m' & E & P)]].
  - assert (Em : m = [(k, JArr l)]) by congruence. subst m. clear E. destruct (IH k (JArr l) (or_introl eq_refl)) as (_ & Cl). specialize (Cl l eq_refl). clear IH.
    destruct (sub_filters_correct d l Cl Sl) as (W & M).
    assert (WF : well_formed (JObj [(k, JArr l)]) d <-> (d <= 2)%nat /\ l <> [] /\ forall j, In j l -> well_formed j (S d)) by (cbn [well_formed]; rewrite wf_list; tauto).
    rewrite WF. destruct Kk as [-> | ->].
    + rewrite parse_and. destruct (allowed_depth <? d)%nat eqn:Ed.
      { split; [split; [intros (e & [=])|intros (H & _); apply deep in H; congruence]|discriminate]. }
      apply deep in Ed. destruct (sub_filters d l) as [es|er] eqn:Es.
      * destruct (M es eq_refl) as (L & M2). destruct es as [|e es].
        -- split; [split; [intros (e & [=])|]|discriminate]. intros (_ & H & _). destruct l; [contradiction|discriminate].
        -- split.
           ++ split; [intros _|intros _; eexists; reflexivity]. split; [assumption|]. split; [intros ->; discriminate|]. apply W. eauto.
           ++ intros e' label [= <-]. rewrite holds_and. cbn [eval]. apply M2.
      * split; [split; [intros (e & [=])|]|discriminate]. intros (_ & _ & H). apply W in H. destruct H as (es & [=]).
    + rewrite parse_or. destruct (allowed_depth <? d)%nat eqn:Ed.
      { split; [split; [intros (e & [=])|intros (H & _); apply deep in H; congruence]|discriminate]. }
      apply deep in Ed. destruct (sub_filters d l) as [es|er] eqn:Es.
      * destruct (M es eq_refl) as (L & M2). destruct es as [|e es].
        -- split; [split; [intros (e & [=])|]|discriminate]. intros (_ & H & _). destruct l; [contradiction|discriminate].
        -- split.
           ++ split; [intros _|intros _; eexists; reflexivity]. split; [assumption|]. split; [intros ->; discriminate|]. apply W. eauto.
           ++ intros e' label [= <-]. rewrite holds_or. cbn [eval]. apply M2.
      * split; [split; [intros (e & [=])|]|discriminate]. intros (_ & _ & H). apply W in H. destruct H as (es & [=]).
  - assert (Em : m = [(str "$not", v)]) by congruence. subst m. clear E. destruct (IH _ v (or_introl eq_refl)) as (Cv & _). destruct (Cv Sv (S d)) as (W & M).
    rewrite wf_not by assumption. rewrite parse_not. replace (d + 1)%nat with (S d) by lia. destruct (allowed_depth <? d)%nat eqn:Ed.
    { split; [split; [intros (e & [=])|intros (H & _); apply deep in H; congruence]|discriminate]. }
    apply deep in Ed. destruct (parse v (S d)) as [e|er] eqn:Ep.
    + split; [split; [intros _; split; [assumption|apply W; eauto]|intros _; eexists; reflexivity]|]. intros e' label [= <-]. rewrite holds_not. cbn [eval].
      rewrite <- (M e label eq_refl). destruct (eval e label); cbn; split; congruence.
    + split; [split; [intros (e & [=])|]|discriminate]. intros (_ & H). apply W in H. destruct H as (e & [=]).
  - assert (Em : m = m') by congruence. subst m'. clear E IH. rewrite wf_fields by assumption. rewrite parse_plain by assumption. destruct (allowed_depth <? d)%nat eqn:Ed.
    { split; [split; [intros (e & [=])|intros (H & _); apply deep in H; congruence]|discriminate]. }
    apply deep in Ed. destruct (parse_fields m) as [l|er] eqn:Ef.
    + destruct (parse_fields_sound m l P Ef) as (Ne & Kn & Me). destruct l as [|e [|e2 l]].
      * split; [split; [intros (e & [=])|]|discriminate]. intros (_ & _ & H). apply Ne in H. congruence.
      * split; [split; [intros _|intros _; eexists; reflexivity]|]; [split; [assumption|]; split; [assumption|apply Ne; discriminate]|].
        intros e' label [= <-]. rewrite holds_fields by assumption. rewrite <- Me. cbn [forallb]. now rewrite andb_true_r.
      * split; [split; [intros _|intros _; eexists; reflexivity]|]; [split; [assumption|]; split; [assumption|apply Ne; discriminate]|].
        intros e' label [= <-]. rewrite holds_fields by assumption. rewrite <- Me. reflexivity.
    + split; [split; [intros (e & [=])|]|discriminate]. intros (_ & H & _). destruct (parse_fields_complete m P H) as (l & [=]). congruence.
Qed.
