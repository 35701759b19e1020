(** Whole runbooks. *)
From Coq Require Import String ZArith List PeanoNat Bool Lia Arith Permutation Sorted.
From Verif.Runbook Require Import Model Spec Proofs.
Import ListNotations.
Local Open Scope nat_scope.
Local Open Scope list_scope.

Definition after1 {P} (L : nat -> Prop) (s : stage P) : nat -> Prop :=
  match s with Insert r => fun t => L t \/ within r t | Delete r => fun t => L t /\ ~ within r t | _ => L end.
Lemma live_cons {P} L (s : stage P) stages : live_from L (s :: stages) = live_from (after1 L s) stages.
Proof. destruct s; reflexivity. Qed.
Lemma live_app {P} (a b : list (stage P)) : forall L, live_from L (a ++ b) = live_from (live_from L a) b.
Proof. induction a as [|s a IH]; intros L; [reflexivity|]. cbn [app]. rewrite !live_cons. apply IH. Qed.
Definition valid_from {P} (L : nat -> Prop) (stages : list (stage P)) : Prop := forall before s after, stages = before ++ s :: after -> sensible (live_from L before) s.
Lemma valid_cons {P} L (s : stage P) stages : valid_from L (s :: stages) <-> sensible L s /\ valid_from (after1 L s) stages.
Proof.
  split.
  - intros H. split; [exact (H [] s stages eq_refl)|]. intros b x a E. rewrite <- live_cons. apply (H (s :: b) x a). cbn. now rewrite E.
  - intros [H1 H2] [|y b] x a E; cbn [app] in E; injection E as -> E; [exact H1|]. rewrite live_cons. now apply (H2 b x a).
Qed.
Definition peak_from {P} (L : nat -> Prop) (stages : list (stage P)) (m n : nat) : Prop :=
  m <= n /\ (forall before after k, stages = before ++ after -> counts (live_from L before) k -> k <= n) /\
  (n = m \/ exists before after, stages = before ++ after /\ counts (live_from L before) n).
(** One stage of the validation. *)
Lemma v_stage_ok {P} v L (s : stage P) I : Inv v L -> proper s -> greatest I (v_max_tag v) ->
  (v_stage v s = Err /\ ~ sensible L s) \/
  (exists v', v_stage v s = Done v' /\ sensible L s /\ Inv v' (after1 L s) /\ v_max_active v' = Nat.max (v_max_active v) (v_current v') /\
    greatest (match s with Insert r => fun t => I t \/ within r t | _ => I end) (v_max_tag v')).
Proof.
  intros HI HP G. destruct s as [p|r|o r|r]; cbn [v_stage sensible after1 proper] in *.
  - right. exists v. repeat split; try assumption; try apply HI. destruct HI as (_ & _ & _ & MX). lia.
  - destruct (v_insert_ok v L r HI HP) as [[E (t & W & Lt)]|(v' & E & S & HI' & MX & MT)].
    + left. split; [exact E|]. intros S. exact (S t W Lt).
    + right. exists v'. repeat split; try assumption; try apply HI'. rewrite MT. unfold update_max. destruct (v_max_tag v) as [x|]; cbn [greatest] in G |- *.
      * destruct G as [G1 G2]. split.
        -- destruct (Nat.max_spec x (hi r - 1)) as [[_ ->]|[_ ->]]; [right; unfold within; lia|now left].
        -- intros u [U|U]; [specialize (G2 u U); lia|unfold within in U; lia].
      * split; [right; unfold within; lia|]. intros u [U|U]; [elim (G u U)|unfold within in U; lia].
  - destruct (v_replace_ok v L r HI (proj2 HP)) as [[E (t & W & Lt)]|(E & S)].
    + left. split; [exact E|]. intros S. exact (Lt (S t W)).
    + right. exists v. repeat split; try assumption; try apply HI. destruct HI as (_ & _ & _ & MX). lia.
  - destruct (v_delete_ok v L r HI HP) as [[E (t & W & Lt)]|(v' & E & S & HI' & MX & MT & MC)].
    + left. split; [exact E|]. intros S. exact (Lt (S t W)).
    + right. exists v'. split; [exact E|]. split; [exact S|]. split; [exact HI'|]. split; [destruct HI as (_ & _ & _ & MX'); lia|]. now rewrite MT.
Qed.
Lemma run_ok {P} (stages : list (stage P)) : forall v L I, Inv v L -> Forall proper stages -> greatest I (v_max_tag v) ->
  match run_stages (fun _ => false) (fun v => Done v) v_stage v stages with
  | Done v' => valid_from L stages /\ peak_from L stages (v_max_active v) (v_max_active v') /\ greatest (fun t => I t \/ inserted stages t) (v_max_tag v')
  | Err => ~ valid_from L stages
  | Panic => False
  end.
Proof.
  induction stages as [|s stages IH]; intros v L I HI HP G; cbn [run_stages].
  - split; [intros [|? ?] x a E; discriminate|]. split.
    + split; [lia|]. split; [|now left]. intros [|? ?] a k E C; [|discriminate]. cbn in C. rewrite (counts_fun _ _ _ C (Inv_counts _ _ HI)). destruct HI as (_ & _ & _ & MX). exact MX.
    + destruct (v_max_tag v) as [x|]; cbn [greatest] in *; [split; [now left; apply G|]; intros u [U|(r & [] & _)]; now apply G|]. intros t [U|(r & [] & _)]. exact (G t U).
  - apply Forall_cons_iff in HP as [HP HPs]. cbn [bind]. destruct (v_stage_ok v L s I HI HP G) as [[E S]|(v' & E & S & HI' & MX & G')]; rewrite E; cbn [bind].
    + intros V. apply valid_cons in V as [V _]. exact (S V).
    + specialize (IH v' (after1 L s) _ HI' HPs G'). destruct (run_stages _ _ _ v' stages) as [v''| |]; [|intros V; apply valid_cons in V as [_ V]; exact (IH V)|exact IH].
      destruct IH as (V & (P1 & P2 & P3) & G2). split; [now apply valid_cons|]. split.
      * split; [lia|]. split.
        -- intros [|x b] a k E' C; [|cbn [app] in E'; injection E' as <- E'; rewrite live_cons in C; exact (P2 b a k E' C)]. cbn [live_from] in C. rewrite (counts_fun _ _ _ C (Inv_counts _ _ HI)). destruct HI as (_ & _ & _ & MX'). lia.
        -- destruct P3 as [P3|(b & a & E' & C)]; [|right; exists (s :: b), a; split; [cbn; now rewrite E'|now rewrite live_cons]].
           destruct (Nat.max_spec (v_max_active v) (v_current v')) as [[Q1 Q2]|[Q1 Q2]]; [|left; lia]. right. exists [s], stages. split; [reflexivity|]. rewrite live_cons. cbn [live_from]. rewrite P3, MX, Q2. now apply Inv_counts.
      * assert (EQ : forall t, (match s with Insert r => fun t => I t \/ within r t | _ => I end) t \/ inserted stages t <-> I t \/ inserted (s :: stages) t).
        { intros t. unfold inserted. split.
          - intros [H|(r & R1 & R2)]; [|right; exists r; split; [now right|exact R2]]. destruct s as [p|r|o r|r]; try (now left). destruct H as [H|H]; [now left|right; exists r; split; [now left|exact H]].
          - intros [H|(r & [R1|R1] & R2)]; [left; destruct s; auto| |right; now exists r]. subst s. left. now right. }
        clear -G2 EQ. destruct (v_max_tag v'') as [x|]; cbn [greatest] in *; [split; [apply EQ, G2|intros u U; apply G2, EQ, U]|intros t T; exact (G2 t (proj2 (EQ t) T))].
Qed.
(** ** Parsing *)
Lemma bind_done {A B} (o : outcome A) (f : A -> outcome B) b : bind o f = Done b -> exists a, o = Done a /\ f a = Done b.
Proof. destruct o; cbn; intros H; try discriminate. now exists a. Qed.
Lemma parse_ok m : forall mp st r, parse_keys m mp st = Done r -> exists st', snd r = st ++ st' /\ map fst st' = int_keys m /\ Forall (entry m) st'.
Proof.
  induction m as [|[k v] m IH]; intros mp st r H; cbn [parse_keys] in H.
  - injection H as <-. exists []. rewrite app_nil_r. now repeat split.
  - assert (W : forall mp st, parse_keys m mp st = Done r -> int_keys ((k, v) :: m) = int_keys m -> exists st', snd r = st ++ st' /\ map fst st' = int_keys ((k, v) :: m) /\ Forall (entry ((k, v) :: m)) st').
    { intros mp' st0 H' E. destruct (IH _ _ _ H') as (st' & E1 & E2 & E3). exists st'. split; [exact E1|]. split; [now rewrite E|]. eapply Forall_impl; [|exact E3]. intros p (z & v' & I1 & I2). exists z, v'. split; [now right|exact I2]. }
    destruct k as [[z|]|s| |]; try discriminate.
    + apply bind_done in H as (op & H1 & H2). destruct (IH _ _ _ H2) as (st' & E1 & E2 & E3). exists ((usize z, op) :: st'). split; [now rewrite E1, <- app_assoc|]. split; [cbn [map fst int_keys flat_map app]; f_equal; exact E2|].
      constructor; [exists z, v; split; [now left|now split]|]. eapply Forall_impl; [|exact E3]. intros p (z' & v' & I1 & I2). exists z', v'. split; [now right|exact I2].
    + destruct (String.eqb s "max_pts"); [apply bind_done in H as (n & _ & H); now apply (W (Some n))|]. destruct (String.eqb s "gt_url"); [now apply (W mp)|discriminate].
Qed.
Lemma sort_perm {A} (l : list (Z * A)) : Permutation (sort_by_key l) l.
Proof.
  induction l as [|x l IH]; [constructor|]. cbn [sort_by_key fold_right]. assert (X : forall m, Permutation (sort_insert x m) (x :: m)).
  { induction m as [|y m IHm]; [reflexivity|]. cbn [sort_insert]. destruct (fst x <=? fst y)%Z; [reflexivity|]. rewrite IHm. apply perm_swap. }
  rewrite X. now constructor.
Qed.
Lemma sort_sorted {A} (l : list (Z * A)) : StronglySorted Z.le (map fst (sort_by_key l)).
Proof.
  induction l as [|x l IH]; [constructor|]. cbn [sort_by_key fold_right]. fold (sort_by_key l). revert IH. generalize (sort_by_key l). induction l0 as [|y m IHm]; intros S; cbn [sort_insert map]; [repeat constructor|].
  destruct (Z.leb_spec (fst x) (fst y)) as [L|L]; cbn [map] in *.
  - constructor; [exact S|]. inversion S as [|? ? S1 S2]; subst. constructor; [exact L|]. eapply Forall_impl; [|exact S2]. intros z Hz. cbn in Hz. lia.
  - inversion S as [|? ? S1 S2]; subst. constructor; [now apply IHm|]. clear -S2 L. assert (X : Forall (Z.le (fst y)) (map fst (sort_insert x m))); [|exact X]. induction m as [|w m IHm]; cbn [sort_insert map]; [constructor; [lia|constructor]|].
    cbn [map] in S2. apply Forall_cons_iff in S2 as [S2 S3]. destruct (fst x <=? fst w)%Z; cbn [map]; constructor; try lia; [constructor; assumption|now apply IHm].
Qed.
Lemma resolve_ok {P} (fg : Z -> outcome P) l : forall st, resolve fg l = Done st -> Forall2 (turned fg) l st.
Proof.
  induction l as [|[i op] l IH]; intros st H; cbn [resolve] in H; [injection H as <-; constructor|]. apply bind_done in H as (s & H1 & H2). apply bind_done in H2 as (l' & H2 & H3). injection H3 as <-. constructor; [|now apply IH].
  unfold turned. cbn [fst snd]. destruct op; try (injection H1 as <-; reflexivity). apply bind_done in H1 as (g & G1 & G2). injection G2 as <-. now exists g.
Qed.
Definition proper_op (op : operation) : Prop := match op with OSearch => True | OInsert r | ODelete r => lo r < hi r | OReplace o r => lo o < hi o /\ lo r < hi r end.
Lemma get_range_ok a b m r : get_range a b m = Done r -> lo r < hi r.
Proof. unfold get_range. intros H. apply bind_done in H as (x & _ & H). apply bind_done in H as (y & _ & H). destruct (Nat.ltb_spec x y); [|discriminate]. injection H as <-. exact H0. Qed.
Lemma handle_proper v op : handle_stage v = Done op -> proper_op op.
Proof.
  unfold handle_stage. destruct v as [| |m|]; try discriminate. destruct (get "operation" m) as [[]|]; try discriminate. repeat match goal with |- context [String.eqb ?a ?b] => destruct (String.eqb a b) end; try discriminate.
  - intros H. injection H as <-. exact I.
  - intros H. apply bind_done in H as (r & R1 & H). injection H as <-. exact (get_range_ok _ _ _ _ R1).
  - unfold get_replace. intros H. apply bind_done in H as (i & _ & H). apply bind_done in H as (i' & _ & H). apply bind_done in H as (t & _ & H). apply bind_done in H as (t' & _ & H).
    destruct (Nat.ltb_spec i i'); [|discriminate]. destruct (Nat.ltb_spec t t'); [|discriminate]. injection H as <-. now split.
  - intros H. apply bind_done in H as (r & R1 & H). injection H as <-. exact (get_range_ok _ _ _ _ R1).
Qed.
Lemma turned_proper {P} (fg : Z -> outcome P) p s : proper_op (snd p) -> turned fg p s -> proper s.
Proof. unfold turned. destruct (snd p); cbn; [intros _ (g & _ & ->); exact I|intros H ->; exact H..]. Qed.
(** Nothing in the parsing panics. *)
Definition calm {A} (o : outcome A) : Prop := o <> Panic.
Lemma calm_bind {A B} (o : outcome A) (f : A -> outcome B) : calm o -> (forall a, o = Done a -> calm (f a)) -> calm (bind o f).
Proof. unfold calm. destruct o; cbn; intros H H'; [now apply H'|discriminate|congruence]. Qed.
Lemma calm_usize v : calm (as_usize v).
Proof. destruct v as [[]| | |]; discriminate. Qed.
Lemma calm_get k m : calm (get_usize k m).
Proof. unfold get_usize. destruct (get k m); [apply calm_usize|discriminate]. Qed.
Lemma calm_range a b m : calm (get_range a b m).
Proof. unfold get_range. apply calm_bind; [apply calm_get|]. intros x _. apply calm_bind; [apply calm_get|]. intros y _. destruct (x <? y); discriminate. Qed.
Lemma calm_stage v : calm (handle_stage v).
Proof.
  unfold handle_stage. destruct v as [| |m|]; try discriminate. destruct (get "operation" m) as [[]|]; try discriminate. repeat match goal with |- context [String.eqb ?a ?b] => destruct (String.eqb a b) end; try discriminate.
  - apply calm_bind; [apply calm_range|discriminate].
  - unfold get_replace. repeat (apply calm_bind; [apply calm_get|]; intros ? _). destruct (negb _); [discriminate|]. destruct (negb _); discriminate.
  - apply calm_bind; [apply calm_range|discriminate].
Qed.
Lemma calm_keys m : forall mp st, calm (parse_keys m mp st).
Proof.
  induction m as [|[k v] m IH]; intros mp st; cbn [parse_keys]; [discriminate|]. destruct k as [[z|]|s| |]; try discriminate.
  - apply calm_bind; [apply calm_stage|]. intros; apply IH.
  - destruct (String.eqb s "max_pts"); [apply calm_bind; [apply calm_usize|]; intros; apply IH|]. destruct (String.eqb s "gt_url"); [apply IH|discriminate].
Qed.
Lemma calm_resolve {P} (fg : Z -> outcome P) l : (forall i, calm (fg i)) -> calm (resolve fg l).
Proof.
  intros H. induction l as [|[i op] l IH]; cbn [resolve]; [discriminate|]. apply calm_bind; [destruct op; try discriminate; apply calm_bind; [apply H|discriminate]|]. intros s _. apply calm_bind; [exact IH|discriminate].
Qed.
