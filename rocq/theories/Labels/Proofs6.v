(** Flattening, arrays included. *)
From Coq Require Import String.
From Verif.Lib Require Import Base Lists Bytes F64.
From Verif.Keys Require Import Model Spec Proofs.
From Verif.Labels Require Import Model Spec Proofs Proofs2 Proofs3 Proofs4 Spec2.
Local Open Scope N_scope.

(** Flattening a container is flattening its children. *)
Fixpoint gather (sp path : bytes) (m : list (bytes * json)) : option (list (bytes * value)) :=
  match m with
  | [] => Some []
  | (k, v) :: m => match flatten sp (path ++ sp ++ k) v with None => None | Some a => match gather sp path m with None => None | Some b => Some (a ++ b) end end
  end.
Definition container (j : json) : Prop := match j with JObj _ | JArr _ => True | _ => False end.
Lemma flatten_container sp path j : container j -> flatten sp path j = gather sp path (children j).
Proof.
  destruct j; try contradiction; intros _; cbn [flatten children].
  - generalize 0 as i. induction l as [|v l IH]; intros i; cbn [numbered gather]; [reflexivity|]. destruct (flatten sp _ v); [|reflexivity]. now rewrite IH.
  - induction m as [|(k, v) m IH]; cbn [gather]; [reflexivity|]. destruct (flatten sp _ v); [|reflexivity]. now rewrite IH.
Qed.
Lemma flatten_leaf sp path j : ~ container j -> children j = [] /\ flatten sp path j = match value_of_json j with Some v => Some [(path, v)] | None => None end.
Proof. destruct j; cbn [container]; intros H; try tauto; split; reflexivity. Qed.
Lemma container_dec j : container j \/ ~ container j.
Proof. destruct j; cbn; tauto. Qed.
Lemma numbered_in l : forall i k v, In (k, v) (numbered i l) -> exists n, i <= n /\ k = decimal n.
Proof. induction l as [|x l IH]; intros i k v; cbn [numbered]; [contradiction|]. intros [E|H]; [injection E as <- <-; exists i; split; [lia|reflexivity]|]. destruct (IH _ _ _ H) as (n & N & ->). exists n. split; [lia|reflexivity]. Qed.
Lemma numbered_sub l : forall i k v, In (k, v) (numbered i l) -> In v l.
Proof. induction l as [|x l IH]; intros i k v; cbn [numbered]; [contradiction|]. intros [E|H]; [injection E as <- <-; now left|right; eauto]. Qed.
Lemma numbered_nodup l : forall i, NoDup (map fst (numbered i l)).
Proof.
  induction l as [|x l IH]; intros i; cbn [numbered map fst]; constructor; [|apply IH]. intros H. apply in_map_iff in H. destruct H as ((k & v) & E & I). cbn [fst] in E. subst k.
  destruct (numbered_in _ _ _ _ I) as (n & N & E). apply decimal_inj in E. lia.
Qed.
Lemma child_ind (P : json -> Prop) : (forall j, (forall k c, In (k, c) (children j) -> P c) -> P j) -> forall j, P j.
Proof. intros H. apply json_rect'; intros; apply H; cbn [children]; try contradiction; [intros k c I; apply H0; now apply numbered_sub in I|assumption]. Qed.
Lemma kids_nodup j : distinct_keys j -> NoDup (map fst (children j)).
Proof. intros H. destruct j; try apply NoDup_nil; [apply numbered_nodup|]. exact (H [] m eq_refl). Qed.
Lemma distinct_child j k c : distinct_keys j -> In (k, c) (children j) -> distinct_keys c.
Proof. intros H I ks m E. apply (H (k :: ks) m). cbn [find]. rewrite (in_assoc k _ c (kids_nodup j H) I). exact E. Qed.
Lemma free_child ch j k c : distinct_keys j -> free_of ch j -> In (k, c) (children j) -> free_of ch c.
Proof. intros D H I ks m E. apply (H (k :: ks) m). cbn [find]. rewrite (in_assoc k _ c (kids_nodup j D) I). exact E. Qed.
Lemma free_key ch j k c : not_digit ch -> free_of ch j -> In (k, c) (children j) -> ~ In ch k.
Proof.
  intros ND H I. destruct j; try contradiction; [|exact (H [] m eq_refl k c I)].
  cbn [children] in I. destruct (numbered_in _ _ _ _ I) as (n & _ & ->). intros X. apply dec_digits_range in X. unfold not_digit in ND. lia.
Qed.
Lemma find_free ch : not_digit ch -> forall ks j leaf, distinct_keys j -> free_of ch j -> find j ks = Some leaf -> forall k, In k ks -> ~ In ch k.
Proof.
  intros ND. induction ks as [|k ks IH]; intros j leaf D H E; [contradiction|]. cbn [find] in E. destruct (assoc k (children j)) as [c|] eqn:A; [|discriminate]. apply assoc_in in A.
  intros k' [<-|I]; [eapply free_key; eassumption|]. eapply (IH c leaf); try eassumption; [eapply distinct_child; eassumption|eapply free_child; eassumption].
Qed.

(** When flattening fails. *)
Lemma gather_none sp path m : gather sp path m = None <-> exists k c, In (k, c) m /\ flatten sp (path ++ sp ++ k) c = None.
Proof.
  induction m as [|(k, v) m IH]; cbn [gather]; [split; [discriminate|intros (? & ? & [] & _)]|]. destruct (flatten sp (path ++ sp ++ k) v) as [a|] eqn:E.
  - destruct (gather sp path m) as [b|].
    + split; [discriminate|]. intros (k' & c & [X|I] & F); [injection X as <- <-; congruence|]. destruct IH as [_ IH]. discriminate IH; eauto.
    + split; [|reflexivity]. intros _. destruct IH as [IH _]. destruct (IH eq_refl) as (k' & c & I & F). exists k', c. split; [now right|exact F].
  - split; [|reflexivity]. intros _. exists k, v. split; [now left|exact E].
Qed.
Lemma gather_in sp path m a : gather sp path m = Some a -> forall p v, In (p, v) a <-> exists k c b, In (k, c) m /\ flatten sp (path ++ sp ++ k) c = Some b /\ In (p, v) b.
Proof.
  revert a. induction m as [|(k, j) m IH]; intros a H p v; cbn [gather] in H.
  - injection H as <-. split; [contradiction|intros (? & ? & ? & [] & _)].
  - destruct (flatten sp (path ++ sp ++ k) j) as [a1|] eqn:E1; [|discriminate]. destruct (gather sp path m) as [a2|] eqn:E2; [|discriminate]. injection H as <-.
    rewrite in_app_iff, (IH a2 eq_refl). split.
    + intros [X|(k' & j' & b & I & F & X)]; [exists k, j, a1; split; [now left|auto]|exists k', j', b; split; [now right|auto]].
    + intros (k' & j' & b & [I|I] & F & X); [injection I as <- <-; left; congruence|right; exists k', j', b; auto].
Qed.
Lemma flatten_none sp : forall j path, distinct_keys j -> flatten sp path j = None <-> exists ks, find j ks = Some JNull.
Proof.
  apply (child_ind (fun j => forall path, distinct_keys j -> flatten sp path j = None <-> exists ks, find j ks = Some JNull)). intros j IH path D. destruct (container_dec j) as [C|C].
  - rewrite flatten_container by exact C. rewrite gather_none. split.
    + intros (k & c & I & F). apply (IH k c I) in F; [|eapply distinct_child; eassumption]. destruct F as (ks & F). exists (k :: ks). cbn [find]. now rewrite (in_assoc k _ c (kids_nodup j D) I).
    + intros (ks & F). destruct ks as [|k ks]; [cbn in F; injection F as ->; contradiction|]. cbn [find] in F. destruct (assoc k (children j)) as [c|] eqn:A; [|discriminate]. apply assoc_in in A.
      exists k, c. split; [exact A|]. apply (IH k c A); [eapply distinct_child; eassumption|]. eauto.
  - destruct (flatten_leaf sp path j C) as (K & ->). split.
    + intros E. exists []. cbn [find]. destruct j as [| | n | | |]; try discriminate E; [reflexivity|destruct n; discriminate E| |]; cbn in C; tauto.
    + intros ([|k ks] & F); cbn [find] in F; [injection F as ->; reflexivity|]. rewrite K in F. discriminate F.
Qed.

(** What is listed. *)
Lemma flatten_lists ch : forall j path a, distinct_keys j -> flatten [ch] path j = Some a ->
  forall p v, In (p, v) a <-> exists ks leaf, find j ks = Some leaf /\ value_of_json leaf = Some v /\ p = path ++ path_of ch ks.
Proof.
  apply (child_ind (fun j => forall path a, distinct_keys j -> flatten [ch] path j = Some a -> forall p v, In (p, v) a <-> exists ks leaf, find j ks = Some leaf /\ value_of_json leaf = Some v /\ p = path ++ path_of ch ks)).
  intros j IH path a D F p v. destruct (container_dec j) as [C|C].
  - rewrite flatten_container in F by exact C. rewrite (gather_in _ _ _ _ F). split.
    + intros (k & c & b & I & Fc & X). destruct (proj1 (IH k c I _ _ (distinct_child _ _ _ D I) Fc p v) X) as (ks & leaf & G & V & E).
      exists (k :: ks), leaf. split; [cbn [find]; now rewrite (in_assoc k _ c (kids_nodup j D) I)|]. split; [assumption|]. rewrite E. cbn [path_of flat_map app]. now rewrite <- app_assoc.
    + intros (ks & leaf & G & V & E). destruct ks as [|k ks]; [cbn [find] in G; injection G as <-; destruct j; try contradiction C; discriminate V|]. cbn [find] in G. destruct (assoc k (children j)) as [c|] eqn:A; [|discriminate].
      apply assoc_in in A. destruct (flatten [ch] (path ++ [ch] ++ k) c) as [b|] eqn:Fc.
      * exists k, c, b. split; [exact A|]. split; [exact Fc|]. apply (IH k c A _ _ (distinct_child _ _ _ D A) Fc). exists ks, leaf. split; [exact G|]. split; [exact V|]. rewrite E. cbn [path_of flat_map app]. now rewrite <- app_assoc.
      * assert (X : gather [ch] path (children j) = None) by (apply gather_none; eauto). congruence.
  - destruct (flatten_leaf [ch] path j C) as (K & E). rewrite E in F. destruct (value_of_json j) as [w|] eqn:W; [|discriminate]. injection F as <-. split.
    + intros [X|[]]. injection X as <- <-. exists [], j. split; [reflexivity|]. split; [exact W|]. cbn. now rewrite app_nil_r.
    + intros ([|k ks] & leaf & G & V & ->); cbn [find] in G; [|rewrite K in G; discriminate G]. injection G as <-. rewrite V in W. injection W as <-. left. cbn. now rewrite app_nil_r.
Qed.
Lemma flatten_nodup ch : not_digit ch -> forall j path a, distinct_keys j -> free_of ch j -> flatten [ch] path j = Some a -> NoDup (map fst a).
Proof.
  intros ND. apply (child_ind (fun j => forall path a, distinct_keys j -> free_of ch j -> flatten [ch] path j = Some a -> NoDup (map fst a))).
  intros j IH path a D H F. destruct (container_dec j) as [C|C].
  - rewrite flatten_container in F by exact C. pose proof (kids_nodup j D) as KD.
    assert (KC : forall k c, In (k, c) (children j) -> distinct_keys c /\ free_of ch c /\ ~ In ch k) by (intros k c I; split; [eapply distinct_child; eassumption|split; [eapply free_child; eassumption|eapply free_key; eassumption]]).
    revert a F IH KC KD. generalize (children j) as m. induction m as [|(k, c) m IHm]; intros a F IH KC KD; cbn [gather] in F; [injection F as <-; constructor|].
    destruct (flatten [ch] (path ++ [ch] ++ k) c) as [a1|] eqn:E1; [|discriminate]. destruct (gather [ch] path m) as [a2|] eqn:E2; [|discriminate]. injection F as <-.
    destruct (KC k c (or_introl eq_refl)) as (Dc & Hc & Kc). inversion KD as [|? ? N1 N2]; subst. rewrite map_app.
    apply NoDup_app_intro.
    + eapply (IH k c); [now left|assumption|assumption|exact E1].
    + apply IHm; [reflexivity|intros; eapply IH; [right|..]; eassumption|intros; apply KC; now right|exact N2].
    + intros p I1 I2. apply in_map_iff in I1, I2. destruct I1 as ((p1 & v1) & <- & I1), I2 as ((p2 & v2) & E & I2). cbn [fst] in E. subst p2.
      apply (flatten_lists ch c _ _ Dc E1) in I1. destruct I1 as (ks & l1 & G1 & _ & P1). apply (gather_in _ _ _ _ E2) in I2. destruct I2 as (k' & c' & b & J & Fb & I2).
      destruct (KC k' c' (or_intror J)) as (Dc' & Hc' & Kc'). apply (flatten_lists ch c' _ _ Dc' Fb) in I2. destruct I2 as (ks' & l2 & G2 & _ & P2). cbn [fst] in P1. rewrite P1, <- !app_assoc in P2. apply app_inv_head in P2.
      assert (X : k :: ks = k' :: ks').
      { apply (path_inj ch); [| |exact P2]; intros q [<-|Q]; try assumption; [eapply (find_free ch ND ks c); eassumption|eapply (find_free ch ND ks' c'); eassumption]. }
      injection X as <- _. apply N1. apply in_map_iff. exists (k, c'). auto.
  - destruct (flatten_leaf [ch] path j C) as (_ & E). rewrite E in F. destruct (value_of_json j); [|discriminate]. injection F as <-. constructor; [auto|constructor].
Qed.
Lemma collect_nodup l : NoDup (map fst l) -> collect l = l.
Proof.
  induction l as [|(f, v) l IH]; intros H; [reflexivity|]. inversion H as [|? ? N1 N2]; subst. cbn [collect]. rewrite IH by exact N2.
  destruct (existsb (fun p => beqb f (fst p)) l) eqn:E; [|reflexivity]. apply existsb_exists in E. destruct E as (p & I & E). exfalso. apply N1. apply in_map_iff. exists p. split; [|exact I]. destruct (beqb_spec f (fst p)); [auto|discriminate].
Qed.
