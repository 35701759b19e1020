(** The invariant of many saves over one file system, and the kinds of steps that keep it. *)
From Coq Require Import String Lia ZifyN ZifyBool ZifyNat.
From Verif.Lib Require Import Base Bytes.
From Verif.Record Require Import Model Proofs2.
From Verif.RecordDisk Require Import Model Spec Proofs.
Local Open Scope N_scope.

Lemma written_snoc {V} (l : list (event V)) e k : written (l ++ [e]) k = wrote k (written l k) e.
Proof. unfold written. now rewrite fold_left_app. Qed.
Lemma snoc_inj {A} (p q : list A) a b : p ++ [a] = q ++ [b] -> p = q /\ a = b.
Proof. apply app_inj_tail. Qed.

Section Inv.
  Variable V : Type.
  Variable enc : list bytes -> V -> bytes.
  Variable cfg : nat -> config V.
  Variable f0 : fs.
  Hypothesis F0 : fs_ok f0.
  Hypothesis AP : apart cfg.

  (** Which save made a file: its [k]-th artifact or its manifest. *)
  Definition owner := N -> option (nat * option nat).
  (** The save still counts on this artifact name. *)
  Definition holds (p : phase V) (n : bytes) : Prop :=
    match p with Dropping todo _ => In n todo | Failed _ | Dead => False | _ => True end.
  (** The artifact name may be there. *)
  Definition lingers (p : phase V) (n : bytes) : Prop :=
    match p with Dropping todo c => In n todo \/ c = false | Failed c => c = false | Fresh => False | _ => True end.
  Definition leftover (p : phase V) : Prop :=
    match p with Fresh | Running | Creating _ | Committed _ => False | Failed c => c = false | _ => True end.
  Definition committed (p : phase V) : Prop := exists v, p = Committed v.

  Definition TI (own : owner) (f : fs) (j : nat) (t : tstate V) : Prop :=
    (forall k n i b, nth_error (files t) k = Some (n, (i, b)) ->
       own i = Some (j, Some k) /\ data f i = written (evs t) k /\ digit_first n /\
       resolve (cdir (cfg j)) n = Some (cdir (cfg j) ++ [n]) /\
       (holds (ph t) n -> names f (cdir (cfg j) ++ [n]) = Some i)) /\
    (NoDup (fnames t) /\ forall k, (length (files t) <= k)%nat -> written (evs t) k = []) /\
    (forall todo c, ph t = Dropping todo c -> NoDup todo /\ incl todo (fnames t)) /\
    (forall v i rest, ph t = Writing v i rest -> own i = Some (j, None) /\ names f (temp (cfg j)) = Some i /\ data f i ++ rest = enc (fnames t) v) /\
    (forall v, ph t = Renaming v -> exists i, own i = Some (j, None) /\ names f (temp (cfg j)) = Some i /\ data f i = enc (fnames t) v).
  Definition class (own : owner) (thr : nat -> tstate V) (p : path) (i : N) : Prop :=
    match own i with
    | None => names f0 p = Some i
    | Some (j, Some k) => exists n b, nth_error (files (thr j)) k = Some (n, (i, b)) /\ p = cdir (cfg j) ++ [n] /\ lingers (ph (thr j)) n
    | Some (j, None) => committed (ph (thr j)) /\ p = meta (cfg j) \/ p = temp (cfg j) /\ leftover (ph (thr j))
    end.
  Record Inv (own : owner) (s : state V) : Prop := mkInv {
    g_own : forall i, own i <> None -> fresh f0 <= i < fresh (fsys s);
    g_fresh : fresh f0 <= fresh (fsys s);
    g_named : forall p i, names (fsys s) p = Some i -> i < fresh (fsys s);
    g_old : forall i, own i = None -> i < fresh f0 -> data (fsys s) i = data f0 i;
    g_thr : forall j, TI own (fsys s) j (thr s j);
    g_live : forall i j, live (ph (thr s i)) = true -> live (ph (thr s j)) = true -> temp (cfg i) = temp (cfg j) -> i = j;
    g_com : forall j, In j (commits s) <-> committed (ph (thr s j));
    g_meta : forall j, match last_to cfg (meta (cfg j)) (commits s) with
             | None => names (fsys s) (meta (cfg j)) = names f0 (meta (cfg j))
             | Some u => exists v i, ph (thr s u) = Committed v /\ names (fsys s) (meta (cfg j)) = Some i /\ own i = Some (u, None) /\
                                     data (fsys s) i = enc (fnames (thr s u)) v
             end;
    g_class : forall p i, names (fsys s) p = Some i -> class own (thr s) p i;
    g_keep : forall p i, names f0 p = Some i -> (forall j, p <> meta (cfg j) /\ p <> temp (cfg j)) -> names (fsys s) p = Some i
  }.

  Lemma names_old p i : names f0 p = Some i -> forall own s, Inv own s -> own i = None.
  Proof. intros H own s I. destruct (own i) eqn:E; [|reflexivity]. assert (K : own i <> None) by congruence. apply (g_own _ _ I) in K. apply F0 in H. lia. Qed.

  (** ** Frames *)
  Lemma TI_frame own own' f f' j t :
    (forall i r, own i = Some (j, r) -> own' i = Some (j, r) /\ data f' i = data f i) ->
    (forall p i k, names f p = Some i -> own i = Some (j, Some k) -> names f' p = Some i) ->
    (live (ph t) = true -> forall i, names f (temp (cfg j)) = Some i -> own i = Some (j, None) -> names f' (temp (cfg j)) = Some i) ->
    TI own f j t -> TI own' f' j t.
  Proof.
    intros A B C (T1 & T2 & T3 & T4 & T5). split; [|split; [exact T2|split; [exact T3|split]]].
    - intros k n i b H. destruct (T1 k n i b H) as (O & D & G & R & HN). destruct (A _ _ O) as (O' & D'). split; [exact O'|]. split; [congruence|]. split; [exact G|]. split; [exact R|].
      intros Hh. eapply B; eauto.
    - intros v i rest H. destruct (T4 v i rest H) as (O & N & D). destruct (A _ _ O) as (O' & D'). split; [exact O'|]. split; [apply C; [now rewrite H|exact N|exact O]|]. congruence.
    - intros v H. destruct (T5 v H) as (i & O & N & D). destruct (A _ _ O) as (O' & D'). exists i. split; [exact O'|]. split; [apply C; [now rewrite H|exact N|exact O]|]. congruence.
  Qed.
  Lemma upd_same {A} (f : nat -> A) i x : upd f i x i = x. Proof. apply upd_eq. Qed.

  Lemma Inv_ext own f th th' cs : (forall j, th j = th' j) -> Inv own (mkst f th cs) -> Inv own (mkst f th' cs).
  Proof.
    intros E [A B C D T L K M Cl Ke]. constructor; cbn [fsys thr commits] in *; auto.
    - intros j. rewrite <- E. apply T.
    - intros i j. rewrite <- !E. apply L.
    - intros j. rewrite <- E. apply K.
    - intros j. specialize (M j). destruct (last_to _ _ _); [|assumption]. rewrite <- E. exact M.
    - intros p i H. specialize (Cl p i H). unfold class in *. destruct (own i) as [(j, [k|])|]; rewrite <- ?E; exact Cl.
  Qed.

  (** A step of [i] that changes no name: only bytes of files [i] made. *)
  Lemma local_step own s i t' d' :
    Inv own s ->
    (forall x, (forall r, own x <> Some (i, r)) -> d' x = data (fsys s) x) ->
    TI own (mkfs (names (fsys s)) d' (fresh (fsys s))) i t' ->
    ~ committed (ph (thr s i)) -> ~ committed (ph t') ->
    (forall k n x b, nth_error (files (thr s i)) k = Some (n, (x, b)) -> exists b', nth_error (files t') k = Some (n, (x, b'))) ->
    (forall n, In n (fnames (thr s i)) -> lingers (ph (thr s i)) n -> lingers (ph t') n) ->
    (leftover (ph (thr s i)) -> leftover (ph t')) ->
    (live (ph t') = true -> live (ph (thr s i)) = true \/ (forall j, j <> i -> temp (cfg j) = temp (cfg i) -> live (ph (thr s j)) = false)) ->
    Inv own (mkst (mkfs (names (fsys s)) d' (fresh (fsys s))) (upd (thr s) i t') (commits s)).
  Proof.
    intros [A B C D T L K M Cl Ke] HD HT NC NC' HF HL HO HV. constructor; cbn [fsys thr commits names data fresh] in *; auto.
    - intros x O H. rewrite HD; [now apply D|]. intros r. rewrite O. discriminate.
    - intros j. destruct (Nat.eq_dec j i) as [->|N]; [rewrite upd_eq; exact HT|]. rewrite upd_neq by assumption. eapply TI_frame; [| | |apply T].
      + intros x r O. split; [exact O|]. cbn. apply HD. intros r'. rewrite O. congruence.
      + cbn. auto.
      + cbn. auto.
    - intros a b. destruct (Nat.eq_dec a i) as [->|Na], (Nat.eq_dec b i) as [->|Nb]; rewrite ?upd_eq, ?upd_neq by assumption; auto.
      + intros La Lb E. destruct (HV La) as [La'|X]; [now apply L|]. symmetry in E. rewrite (X b Nb E) in Lb. discriminate.
      + intros La Lb E. destruct (HV Lb) as [Lb'|X]; [now apply L|]. rewrite (X a Na E) in La. discriminate.
    - intros j. destruct (Nat.eq_dec j i) as [->|N]; rewrite ?upd_eq, ?upd_neq by assumption; [|apply K]. rewrite K. tauto.
    - intros j. specialize (M j). destruct (last_to _ _ _) as [u|]; [|exact M]. destruct M as (v & x & P & Nm & O & Dx). exists v, x.
      assert (U : u <> i) by (intros ->; apply NC; now exists v). rewrite upd_neq by assumption. split; [exact P|]. split; [exact Nm|]. split; [exact O|]. rewrite HD; [exact Dx|]. intros r. rewrite O. congruence.
    - intros p x H. specialize (Cl p x H). unfold class in *. destruct (own x) as [(j, [k|])|]; [| |exact Cl].
      + destruct Cl as (n & b & E & P & Li). destruct (Nat.eq_dec j i) as [->|N]; [|rewrite upd_neq by assumption; now exists n, b].
        rewrite upd_eq. destruct (HF _ _ _ _ E) as (b' & E'). exists n, b'. split; [exact E'|]. split; [exact P|]. apply HL; [|exact Li]. apply nth_error_In in E. apply in_map_iff. now exists (n, (x, b)).
      + destruct (Nat.eq_dec j i) as [->|N]; [|rewrite upd_neq by assumption; exact Cl]. rewrite upd_eq. destruct Cl as [(Cm & _)|(P & Lo)]; [contradiction|]. right. auto.
  Qed.

  (** [i] makes a file at a free name. *)
  Definition own_new (own : owner) (x : N) (i : nat) (r : option nat) : owner := fun y => if y =? x then Some (i, r) else own y.
  Lemma own_new_eq own x i r : own_new own x i r x = Some (i, r).
  Proof. unfold own_new. now rewrite N.eqb_refl. Qed.
  Lemma own_new_neq own x i r y : y <> x -> own_new own x i r y = own y.
  Proof. unfold own_new. intros N. destruct (N.eqb_spec y x); [contradiction|reflexivity]. Qed.
  Lemma create_step own s i t' p r :
    let x := fresh (fsys s) in
    Inv own s -> names (fsys s) p = None ->
    TI (own_new own x i r) (create (fsys s) p) i t' ->
    ~ committed (ph (thr s i)) -> ~ committed (ph t') -> live (ph (thr s i)) = true ->
    (forall k n y b, nth_error (files (thr s i)) k = Some (n, (y, b)) -> nth_error (files t') k = Some (n, (y, b))) ->
    (forall n, In n (fnames (thr s i)) -> lingers (ph (thr s i)) n -> lingers (ph t') n) ->
    (leftover (ph (thr s i)) -> leftover (ph t')) ->
    (forall j, p <> meta (cfg j)) ->
    (match r with
     | Some k => exists n b, nth_error (files t') k = Some (n, (x, b)) /\ p = cdir (cfg i) ++ [n] /\ lingers (ph t') n
     | None => p = temp (cfg i) /\ leftover (ph t')
     end) ->
    Inv (own_new own x i r) (mkst (create (fsys s) p) (upd (thr s) i t') (commits s)).
  Proof.
    intros x [A B C D T L K M Cl Ke] NP HT NC NC' LV HF HL HO PM HR.
    assert (OX : own x = None) by (destruct (own x) eqn:E; [|reflexivity]; assert (Q : own x <> None) by congruence; apply A in Q; unfold x in *; lia).
    assert (ON : forall y, own y <> None -> y <> x) by (intros y Hy ->; now rewrite OX in Hy).
    assert (OS : forall y z, own y = Some z -> own_new own x i r y = Some z) by (intros y z Hy; rewrite own_new_neq; [exact Hy|]; apply ON; congruence).
    constructor; cbn [fsys thr commits names data fresh create] in *; auto.
    - intros y. destruct (N.eq_dec y x) as [->|N]; [intros _; unfold x; lia|]. rewrite own_new_neq by assumption. intros Hy. apply A in Hy. lia.
    - lia.
    - intros q y. destruct (path_dec q p) as [->|N]; [intros [= <-]; lia|]. intros H. apply C in H. lia.
    - intros y Oy Hy. destruct (N.eq_dec y x) as [->|N]; [unfold x in Hy; lia|]. rewrite own_new_neq in Oy by assumption. fold x. destruct (N.eqb_spec y x); [contradiction|]. now apply D.
    - intros j. destruct (Nat.eq_dec j i) as [->|N]; [rewrite upd_eq; exact HT|]. rewrite upd_neq by assumption. eapply TI_frame; [| | |apply T].
      + intros y r' O. split; [now apply OS|]. cbn. fold x. destruct (N.eqb_spec y x) as [->|]; [congruence|reflexivity].
      + cbn. intros q y k Hq _. destruct (path_dec q p) as [->|]; [congruence|assumption].
      + cbn. intros _ y Hq _. destruct (path_dec (temp (cfg j)) p) as [Q|]; [rewrite Q in Hq; congruence|assumption].
    - intros a b. destruct (Nat.eq_dec a i) as [->|Na], (Nat.eq_dec b i) as [->|Nb]; rewrite ?upd_eq, ?upd_neq by assumption; auto.
    - intros j. destruct (Nat.eq_dec j i) as [->|N]; rewrite ?upd_eq, ?upd_neq by assumption; [|apply K]. rewrite K. tauto.
    - intros j. specialize (M j). destruct (path_dec (meta (cfg j)) p) as [Q|_]; [exfalso; now apply (PM j)|]. destruct (last_to _ _ _) as [u|]; [|exact M]. destruct M as (v & y & P & Nm & O & Dx). exists v, y.
      assert (U : u <> i) by (intros ->; apply NC; now exists v). rewrite upd_neq by assumption. split; [exact P|]. split; [exact Nm|]. split; [now apply OS|]. fold x. destruct (N.eqb_spec y x) as [->|]; [congruence|exact Dx].
    - intros q y. destruct (path_dec q p) as [->|N].
      + intros [= <-]. fold x. unfold class. rewrite own_new_eq. destruct r as [k|].
        * destruct HR as (n & b & E & P & Li). exists n, b. rewrite upd_eq. now split.
        * right. rewrite upd_eq. exact HR.
      + intros H. pose proof (C _ _ H) as Hlt. specialize (Cl q y H). unfold class in *. rewrite own_new_neq by (unfold x; lia). destruct (own y) as [(j, [k|])|]; [| |exact Cl].
        * destruct Cl as (n & b & E & P & Li). destruct (Nat.eq_dec j i) as [->|Nj]; [|rewrite upd_neq by assumption; now exists n, b].
          rewrite upd_eq. exists n, b. split; [now apply HF|]. split; [exact P|]. apply HL; [|exact Li]. apply nth_error_In in E. apply in_map_iff. now exists (n, (y, b)).
        * destruct (Nat.eq_dec j i) as [->|Nj]; [|rewrite upd_neq by assumption; exact Cl]. rewrite upd_eq. destruct Cl as [(Cm & _)|(P & Lo)]; [contradiction|]. right. auto.
    - intros q y H Hm. destruct (path_dec q p) as [->|N]; [|now apply Ke]. specialize (Ke _ _ H Hm). congruence.
  Qed.

  (** [i] removes a name nobody else counts on. *)
  Lemma remove_step own s i t' p :
    Inv own s ->
    TI own (set_name (fsys s) p None) i t' ->
    ~ committed (ph (thr s i)) -> ~ committed (ph t') -> live (ph (thr s i)) = true ->
    files t' = files (thr s i) ->
    (forall x j k, j <> i -> names (fsys s) p = Some x -> own x <> Some (j, Some k)) ->
    (forall j, j <> i -> live (ph (thr s j)) = true -> p <> temp (cfg j)) ->
    (forall j, p <> meta (cfg j)) ->
    (p = temp (cfg i) \/ exists x, names (fsys s) p = Some x /\ own x <> None) ->
    (forall n, In n (fnames (thr s i)) -> lingers (ph (thr s i)) n -> lingers (ph t') n \/ cdir (cfg i) ++ [n] = p) ->
    (leftover (ph (thr s i)) -> leftover (ph t') \/ p = temp (cfg i)) ->
    Inv own (mkst (set_name (fsys s) p None) (upd (thr s) i t') (commits s)).
  Proof.
    intros [A B C D T L K M Cl Ke] HT NC NC' LV HF H1 H2 H3 H4 HL HO. constructor; cbn [fsys thr commits names data fresh set_name] in *; auto.
    - intros q y. destruct (path_dec q p); [discriminate|apply C].
    - intros j. destruct (Nat.eq_dec j i) as [->|N]; [rewrite upd_eq; exact HT|]. rewrite upd_neq by assumption. eapply TI_frame; [| | |apply T].
      + intros x r O. now split.
      + cbn. intros q y k Hq O. destruct (path_dec q p) as [->|]; [exfalso; now apply (H1 y j k N Hq)|assumption].
      + cbn. intros Lj y Hq _. destruct (path_dec (temp (cfg j)) p) as [Q|]; [exfalso; now apply (H2 j N Lj)|assumption].
    - intros a b. destruct (Nat.eq_dec a i) as [->|Na], (Nat.eq_dec b i) as [->|Nb]; rewrite ?upd_eq, ?upd_neq by assumption; auto.
    - intros j. destruct (Nat.eq_dec j i) as [->|N]; rewrite ?upd_eq, ?upd_neq by assumption; [|apply K]. rewrite K. tauto.
    - intros j. specialize (M j). destruct (path_dec (meta (cfg j)) p) as [Q|_]; [exfalso; now apply (H3 j)|]. destruct (last_to _ _ _) as [u|]; [|exact M]. destruct M as (v & y & P & Nm & O & Dx). exists v, y.
      assert (U : u <> i) by (intros ->; apply NC; now exists v). rewrite upd_neq by assumption. auto.
    - intros q y. destruct (path_dec q p) as [->|N]; [discriminate|]. intros H. specialize (Cl q y H). unfold class in *. destruct (own y) as [(j, [k|])|]; [| |exact Cl].
      + destruct Cl as (n & b & E & P & Li). destruct (Nat.eq_dec j i) as [->|Nj]; [|rewrite upd_neq by assumption; now exists n, b].
        rewrite upd_eq. exists n, b. split; [now rewrite HF|]. split; [exact P|]. destruct (HL n) as [X|X]; [|exact Li|exact X|congruence]. apply nth_error_In in E. apply in_map_iff. now exists (n, (y, b)).
      + destruct (Nat.eq_dec j i) as [->|Nj]; [|rewrite upd_neq by assumption; exact Cl]. rewrite upd_eq. destruct Cl as [(Cm & _)|(P & Lo)]; [contradiction|]. right. destruct (HO Lo); [auto|congruence].
    - intros q y H Hm. destruct (path_dec q p) as [->|N]; [|now apply Ke]. destruct H4 as [->|(x & Nx & Ox)].
      + exfalso. destruct (Hm i) as (_ & X). now apply X.
      + specialize (Ke _ _ H Hm). assert (x = y) by congruence. subst x. exfalso. apply Ox. destruct (own y) eqn:E; [|reflexivity]. apply F0 in H. assert (Q : own y <> None) by congruence. apply A in Q. lia.
  Qed.

  (** [i] puts its manifest in place. *)
  Lemma commit_step own s i v :
    Inv own s -> ph (thr s i) = Renaming v ->
    Inv own (mkst (rename (fsys s) (temp (cfg i)) (meta (cfg i))) (upd (thr s) i (goto (thr s i) (Committed v))) (i :: commits s)).
  Proof.
    intros [A B C D T L K M Cl Ke] P. destruct AP as (AP1 & AP2). pose proof (T i) as TIi. destruct TIi as (T1 & T2 & T3 & T4 & T5). destruct (T5 v P) as (x & Ox & Nx & Dx).
    assert (RN : forall q, names (rename (fsys s) (temp (cfg i)) (meta (cfg i))) q =
                           if path_dec q (temp (cfg i)) then None else if path_dec q (meta (cfg i)) then Some x else names (fsys s) q).
    { intros q. unfold rename, set_name. cbn [names]. now rewrite Nx. }
    assert (NTM : meta (cfg i) <> temp (cfg i)) by apply AP1.
    constructor; cbn [fsys thr commits] in *; auto.
    - intros q y. rewrite RN. destruct (path_dec q _); [discriminate|]. destruct (path_dec q _); [intros [= <-]; eapply C; eauto|apply C].
    - intros j. destruct (Nat.eq_dec j i) as [->|N].
      + rewrite upd_eq. split; [|split; [exact T2|split; [discriminate|split; discriminate]]].
        intros k n y b E. cbn in E. destruct (T1 k n y b E) as (O & Dy & G & R & HN). split; [exact O|]. split; [exact Dy|]. split; [exact G|]. split; [exact R|]. intros _. rewrite RN.
        destruct (AP2 i i n G) as (X & Y). destruct (path_dec _ _) as [Q|_]; [symmetry in Q; contradiction|]. destruct (path_dec _ _) as [Q|_]; [symmetry in Q; contradiction|]. apply HN. now rewrite P.
      + rewrite upd_neq by assumption. eapply TI_frame; [| | |apply T].
        * intros y r O. now split.
        * intros q y k Hq O. rewrite RN. pose proof (Cl q y Hq) as Cq. unfold class in Cq. rewrite O in Cq. destruct Cq as (n & b & E & -> & _). destruct (T j) as (U1 & _). destruct (U1 _ _ _ _ E) as (_ & _ & G & _).
          destruct (AP2 i j n G) as (X & Y). destruct (path_dec _ _) as [Q|_]; [symmetry in Q; contradiction|]. destruct (path_dec _ _) as [Q|_]; [symmetry in Q; contradiction|]. exact Hq.
        * intros Lj y Hq O. rewrite RN. destruct (path_dec _ _) as [Q|_]; [exfalso; apply N; apply L; [exact Lj|now rewrite P|exact Q]|]. destruct (path_dec _ _) as [Q|_]; [exfalso; symmetry in Q; now apply AP1 in Q|]. exact Hq.
    - intros a b. destruct (Nat.eq_dec a i) as [->|Na], (Nat.eq_dec b i) as [->|Nb]; rewrite ?upd_eq, ?upd_neq by assumption; auto; cbn; discriminate.
    - intros j. cbn [In]. destruct (Nat.eq_dec j i) as [->|N]; rewrite ?upd_eq, ?upd_neq by assumption.
      + split; [intros _; now exists v|now left].
      + rewrite <- K. split; [intros [E|E]; [congruence|exact E]|now right].
    - intros j. unfold last_to. cbn [find]. destruct (path_dec (meta (cfg i)) (meta (cfg j))) as [Q|Q].
      + exists v, x. rewrite upd_eq. split; [reflexivity|]. rewrite RN, <- Q. destruct (path_dec _ _) as [Z|_]; [contradiction|]. destruct (path_dec _ _) as [_|Z]; [|contradiction]. split; [reflexivity|]. split; [exact Ox|]. exact Dx.
      + specialize (M j). unfold last_to in M. assert (E : names (rename (fsys s) (temp (cfg i)) (meta (cfg i))) (meta (cfg j)) = names (fsys s) (meta (cfg j))).
        { rewrite RN. destruct (path_dec _ _) as [Z|_]; [now apply AP1 in Z|]. destruct (path_dec _ _) as [Z|_]; [congruence|reflexivity]. }
        rewrite E. destruct (find _ _) as [u|]; [|exact M]. destruct M as (v' & y & P' & Nm & O & Dy). exists v', y. assert (U : u <> i) by (intros ->; congruence). rewrite upd_neq by assumption. auto.
    - intros q y. rewrite RN. destruct (path_dec q (temp (cfg i))) as [|N1]; [discriminate|]. destruct (path_dec q (meta (cfg i))) as [->|N2].
      + intros [= <-]. unfold class. rewrite Ox, upd_eq. left. split; [now exists v|reflexivity].
      + intros H. specialize (Cl q y H). unfold class in *. destruct (own y) as [(j, [k|])|]; [| |exact Cl].
        * destruct Cl as (n & b & E & Pq & Li). destruct (Nat.eq_dec j i) as [->|Nj]; [|rewrite upd_neq by assumption; now exists n, b]. rewrite upd_eq. exists n, b. now split.
        * destruct (Nat.eq_dec j i) as [->|Nj]; [|rewrite upd_neq by assumption; exact Cl]. rewrite upd_eq. destruct Cl as [(Cm & _)|(Pq & Lo)]; [destruct Cm; congruence|contradiction].
    - intros q y H Hm. rewrite RN. destruct (Hm i) as (X & Y). destruct (path_dec _ _); [contradiction|]. destruct (path_dec _ _); [contradiction|]. now apply Ke.
  Qed.
End Inv.
