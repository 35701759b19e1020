(** Proofs about the working set. *)
From Verif.Lib Require Import Base.
From Verif.WorkingSet Require Import Model Spec.

Section proofs.
Context {V : Type}.
Implicit Types (es : list (nat * (N * V))) (m : wset V).

Notation keys_of es := (map fst es).

(** ** The hash map *)
Lemma lookup_in k e es : NoDup (keys_of es) -> (lookup k es = Some e <-> In (k, e) es).
Proof.
  induction es as [|[k' e'] es IH]; intros ND; cbn [lookup map fst] in *; [split; [discriminate|intros []]|].
  apply NoDup_cons_iff in ND. destruct ND as (N & ND). destruct (Nat.eqb_spec k k') as [->|D].
  - split; [intros [= ->]; now left|]. intros [[= ->]|H]; [reflexivity|]. elim N. apply in_map_iff. now exists (k', e).
  - rewrite IH by exact ND. split; [now right|]. intros [[= -> ->]|H]; [congruence|exact H].
Qed.
Lemma lookup_none k es : lookup k es = None <-> ~ In k (keys_of es).
Proof.
  induction es as [|[k' e'] es IH]; cbn [lookup map fst In]; [tauto|].
  destruct (Nat.eqb_spec k k') as [->|D]; [split; [discriminate|]; intros H; elim H; now left|]. rewrite IH.
  split; [intros H [?|?]; congruence|tauto].
Qed.
Lemma lookup_some_in k e es : lookup k es = Some e -> In k (keys_of es).
Proof.
  intros H. destruct (in_dec Nat.eq_dec k (keys_of es)) as [?|N]; [auto|]. apply lookup_none in N. congruence.
Qed.
Lemma lookup_perm k es es' : NoDup (keys_of es) -> Permutation es' es -> lookup k es' = lookup k es.
Proof.
  intros ND P. assert (ND' : NoDup (keys_of es')) by (eapply Permutation_NoDup; [symmetry; apply Permutation_map; exact P|exact ND]).
  destruct (lookup k es') as [e|] eqn:E.
  - apply lookup_in in E; [|exact ND']. symmetry. apply lookup_in; [exact ND|]. eapply Permutation_in; eassumption.
  - apply lookup_none in E. symmetry. apply lookup_none. intros H. apply E. eapply Permutation_in; [symmetry; apply Permutation_map; exact P|exact H].
Qed.

Lemma lookup_put k k' e es : lookup k (put k' e es) = if k =? k' then Some e else lookup k es.
Proof.
  induction es as [|[j x] es IH]; cbn [put lookup]; [reflexivity|].
  destruct (Nat.eqb_spec k' j) as [->|D]; cbn [lookup].
  - destruct (Nat.eqb_spec k j); reflexivity.
  - rewrite IH. destruct (Nat.eqb_spec k j) as [->|]; [|reflexivity]. destruct (Nat.eqb_spec j k'); congruence.
Qed.
Lemma put_keys k e es : keys_of (put k e es) = match lookup k es with Some _ => keys_of es | None => keys_of es ++ [k] end.
Proof.
  induction es as [|[j x] es IH]; cbn [put lookup map app]; [reflexivity|].
  destruct (Nat.eqb_spec k j) as [->|D]; cbn [map fst]; [reflexivity|]. rewrite IH. destruct (lookup k es); reflexivity.
Qed.
Lemma put_nodup k e es : NoDup (keys_of es) -> NoDup (keys_of (put k e es)).
Proof.
  intros ND. rewrite put_keys. destruct (lookup k es) eqn:E; [exact ND|]. apply lookup_none in E.
  eapply Permutation_NoDup; [apply Permutation_cons_append|]. now constructor.
Qed.

Lemma lookup_touch k k' g es : lookup k (touch k' g es) = option_map (fun e => (if k =? k' then g else fst e, snd e)) (lookup k es).
Proof.
  induction es as [|[j [h x]] es IH]; cbn [touch lookup]; [reflexivity|].
  destruct (Nat.eqb_spec k' j) as [->|D]; cbn [lookup snd].
  - destruct (Nat.eqb_spec k j) as [->|D']; [reflexivity|]. destruct (lookup k es) as [[]|]; reflexivity.
  - destruct (Nat.eqb_spec k j) as [->|D']; [|exact IH]. cbn [option_map fst snd].
    destruct (Nat.eqb_spec j k'); [congruence|reflexivity].
Qed.
Lemma touch_keys k g es : keys_of (touch k g es) = keys_of es.
Proof. induction es as [|[j x] es IH]; cbn [touch]; [reflexivity|]. destruct (k =? j); cbn [map fst]; [reflexivity|now rewrite IH]. Qed.

(** ** Promotion *)
Lemma promote_ok g keys : forall es es' n, promote g keys es = (es', n) ->
  keys_of es' = keys_of es /\ n <= length keys /\
  n = length (filter (fun k => existsb (Nat.eqb k) (keys_of es)) keys) /\
  (forall k, lookup k es' = option_map (fun e => (if existsb (Nat.eqb k) keys then g else fst e, snd e)) (lookup k es)).
Proof.
  induction keys as [|k keys IH]; intros es es' n H; cbn [promote] in H.
  - injection H as <- <-. repeat split; auto. intros j. cbn [existsb]. destruct (lookup j es) as [[]|]; reflexivity.
  - destruct (lookup k es) eqn:L.
    + destruct (promote g keys (touch k g es)) as [es1 n1] eqn:P. injection H as <- <-.
      destruct (IH _ _ _ P) as (K & N & C & LK). rewrite touch_keys in K, C. split; [exact K|]. cbn [length filter].
      assert (E : existsb (Nat.eqb k) (keys_of es) = true).
      { apply existsb_exists. exists k. split; [eapply lookup_some_in; exact L|apply Nat.eqb_refl]. }
      rewrite E. cbn [length]. split; [lia|]. split; [lia|].
      intros j. rewrite LK, lookup_touch. destruct (lookup j es) as [[h x]|]; [|reflexivity]. cbn [option_map fst snd existsb].
      destruct (Nat.eqb_spec j k) as [->|D]; [|reflexivity]. cbn [orb]. destruct (existsb (Nat.eqb k) keys); reflexivity.
    + destruct (IH _ _ _ H) as (K & N & C & LK). split; [exact K|]. cbn [length filter].
      assert (E : existsb (Nat.eqb k) (keys_of es) = false).
      { destruct (existsb _ _) eqn:E; [|reflexivity]. apply existsb_exists in E. destruct E as (j & Hj & E). apply Nat.eqb_eq in E. subst j.
        apply lookup_none in L. tauto. }
      rewrite E. split; [lia|]. split; [exact C|]. intros j. rewrite LK. cbn [existsb].
      destruct (Nat.eqb_spec j k) as [->|D]; [|reflexivity]. rewrite L. reflexivity.
Qed.

(** ** Eviction *)
Lemma evict_sub g r es : exists gone, Permutation es (gone ++ evict g r es) /\ length gone <= r /\
  (forall e, In e gone -> fst (snd e) <> g) /\
  (length gone < r -> forall e, In e (evict g r es) -> fst (snd e) = g).
Proof.
  revert r. induction es as [|[k e] es IH]; intros r; cbn [evict].
  - exists []. split; [constructor|]. split; [cbn; lia|]. split; [intros e []|intros _ e []].
  - destruct r as [|r].
    + exists []. split; [reflexivity|]. split; [cbn; lia|]. split; [intros x []|]. cbn. lia.
    + destruct (N.eqb_spec (fst e) g) as [E|E].
      * destruct (IH (S r)) as (gone & P & L & G & K). exists gone. split; [now apply Permutation_cons_app|]. split; [exact L|].
        split; [exact G|]. intros H x [<-|Hx]; [exact E|auto].
      * destruct (IH r) as (gone & P & L & G & K). exists ((k, e) :: gone). split; [cbn [app]; now constructor|].
        cbn [length]. split; [lia|]. split; [intros x [<-|Hx]; [exact E|auto]|]. intros H. apply K. lia.
Qed.

Lemma sub_nodup es gone rest : Permutation es (gone ++ rest) -> NoDup (keys_of es) -> NoDup (keys_of rest).
Proof.
  intros P ND. eapply Permutation_NoDup in ND; [|apply Permutation_map; exact P]. rewrite map_app in ND.
  apply NoDup_app_inv in ND. tauto.
Qed.
Lemma sub_lookup es gone rest k e : Permutation es (gone ++ rest) -> NoDup (keys_of es) ->
  lookup k rest = Some e -> lookup k es = Some e.
Proof.
  intros P ND H. apply lookup_in in H; [|eapply sub_nodup; eassumption]. apply lookup_in; [exact ND|].
  eapply Permutation_in; [symmetry; exact P|]. apply in_or_app. now right.
Qed.
Lemma sub_kept es gone rest k e : Permutation es (gone ++ rest) -> NoDup (keys_of es) ->
  (forall x, In x gone -> x <> (k, e)) -> lookup k es = Some e -> lookup k rest = Some e.
Proof.
  intros P ND G H. apply lookup_in in H; [|exact ND]. apply lookup_in; [eapply sub_nodup; eassumption|].
  eapply Permutation_in in H; [|exact P]. apply in_app_or in H. destruct H as [H|H]; [|exact H]. elim (G _ H eq_refl).
Qed.

(** ** Preparation *)
Record wf m : Prop := { wf_nodup : NoDup (keys_of (ws_map m)); wf_disjoint : forall k, In k (keys_of (ws_map m)) -> ws_overlay m k = None }.

Lemma existsb_in k keys : existsb (Nat.eqb k) keys = true <-> In k keys.
Proof. rewrite existsb_exists. split; [intros (x & H & E); apply Nat.eqb_eq in E; now subst|]. intros H. exists k. split; [exact H|apply Nat.eqb_refl]. Qed.

Lemma get_none m k : get m k = None <-> lookup k (ws_map m) = None.
Proof. unfold get. destruct (lookup k (ws_map m)); cbn; split; congruence. Qed.

Lemma prepare_fields order keys m :
  ws_overlay (prepare order keys m) = ws_overlay m /\ ws_cap (prepare order keys m) = ws_cap m /\
  ws_gen (prepare order keys m) = next_gen (ws_gen m).
Proof.
  unfold prepare. cbn [ws_map ws_cap]. destruct (ws_map m); [auto|]. destruct (ws_cap m) as [[|c]|]; auto.
  destruct (promote _ _ _) as [es n]. destruct (_ <=? _); [destruct (_ - _)|]; auto.
Qed.

Lemma prepare_ok order keys m : any_order order -> wf m ->
  let m' := prepare order keys m in
  wf m' /\
  (forall k, In k keys -> get m' k = cached m k) /\
  (forall k, get m' k = None \/ get m' k = cached m k) /\
  (ws_cap m = None -> forall k, get m' k = get m k) /\
  (ws_cap m = Some 0 -> ws_map m' = []) /\
  (forall c, ws_cap m = Some c -> length (ws_map m) + length keys <= c -> forall k, get m' k = cached m k).
Proof.
  intros OR W. pose proof W as [ND DJ]. unfold prepare. cbn [ws_map ws_cap]. destruct (ws_map m) as [|e0 es0] eqn:EM.
  { assert (G : forall k, get m k = None) by (intros k; unfold get; now rewrite EM).
    assert (C : forall k, cached m k = None) by (intros k; unfold cached; rewrite G; now destruct (ws_cap m) as [[|]|]).
    split; [constructor; cbn; [constructor|intros k []]|].
    split; [intros k _; now rewrite C|]. split; [now left|]. split; [intros _ k; now rewrite G|]. split; [reflexivity|].
    intros c _ _ k. now rewrite C. }
  rewrite <- EM in *. clear e0 es0 EM. destruct (ws_cap m) as [[|c]|] eqn:EC.
  - split; [constructor; cbn; [constructor|intros k []]|]. unfold cached. rewrite EC.
    split; [reflexivity|]. split; [now left|]. split; [discriminate|]. split; [reflexivity|]. reflexivity.
  - destruct (promote (next_gen (ws_gen m)) keys (ws_map m)) as [es n] eqn:P.
    destruct (promote_ok _ _ _ _ _ P) as (K & LE & _ & LK).
    assert (GE : forall k, option_map snd (lookup k es) = get m k).
    { intros k. rewrite LK. unfold get. destruct (lookup k (ws_map m)) as [[]|]; reflexivity. }
    assert (CE : forall k, cached m k = get m k) by (intros k; unfold cached; now rewrite EC).
    assert (NDE : NoDup (keys_of es)) by now rewrite K.
    assert (SAME : let m' := mkWset es (ws_overlay m) (Some (S c)) (next_gen (ws_gen m)) in wf m' /\ forall k, get m' k = cached m k).
    { split; [constructor; cbn; [exact NDE|]; rewrite K; exact DJ|]. intros k. rewrite CE. apply GE. }
    destruct SAME as (SW & SG). cbn [with_map ws_overlay ws_cap ws_gen]. unfold with_map. cbn [ws_overlay ws_cap ws_gen].
    assert (LL : length es = length (ws_map m)) by (rewrite <- (map_length fst es), K; apply map_length).
    destruct (Nat.leb_spec (S c) (length es + (length keys - n))) as [LEQ|LT].
    + destruct (length es + (length keys - n) - S c) as [|x] eqn:EX.
      * split; [exact SW|]. split; [auto|]. split; [auto|]. split; [discriminate|]. split; [discriminate|]. auto.
      * set (es' := evict _ _ _). set (g := next_gen (ws_gen m)) in *.
        destruct (evict_sub g (S x) (order es)) as (gone & PG & LG & GG & _). fold es' in PG.
        assert (PE : Permutation es (gone ++ es')) by (transitivity (order es); [symmetry; apply OR|exact PG]).
        split. { constructor; cbn; [eapply sub_nodup; eassumption|]. intros k Hk. apply DJ. rewrite <- K.
          eapply Permutation_in; [symmetry; apply Permutation_map; exact PE|]. rewrite map_app. apply in_or_app. now right. }
        assert (ANY : forall k, get (mkWset es' (ws_overlay m) (Some (S c)) g) k = None \/
                                get (mkWset es' (ws_overlay m) (Some (S c)) g) k = cached m k).
        { intros k. rewrite CE, <- GE. unfold get. cbn [ws_map]. destruct (lookup k es') as [e|] eqn:E; [|now left]. right.
          now rewrite (sub_lookup _ _ _ _ _ PE NDE E). }
        split; [|split; [exact ANY|]].
        -- intros k Hk. rewrite CE, <- GE. unfold get. cbn [ws_map]. destruct (lookup k es) as [e|] eqn:E.
           ++ rewrite (sub_kept es gone es' k e PE NDE); [reflexivity| |exact E].
              intros y Hy ->. apply (GG _ Hy). cbn [snd]. rewrite LK in E. destruct (lookup k (ws_map m)) as [[h v]|]; [|discriminate].
              cbn [option_map] in E. injection E as <-. cbn [fst]. apply existsb_in in Hk. now rewrite Hk.
           ++ destruct (lookup k es') eqn:E'; [|reflexivity]. apply (sub_lookup _ _ _ _ _ PE NDE) in E'. congruence.
        -- split; [discriminate|]. split; [discriminate|]. intros c' [= <-] H. lia.
    + split; [exact SW|]. split; [auto|]. split; [auto|]. split; [discriminate|]. split; [discriminate|]. auto.
  - unfold cached. rewrite EC. split; [constructor; auto|]. split; [reflexivity|]. split; [now right|]. split; [reflexivity|].
    split; [discriminate|]. discriminate.
Qed.

(** ** Filling *)
Lemma put_wf m k v : wf m -> ws_overlay m k = None -> wf (with_map m (put k (ws_gen m, v) (ws_map m))).
Proof.
  intros [ND DJ] O. constructor; cbn [with_map ws_map ws_overlay].
  - now apply put_nodup.
  - intros j Hj. rewrite put_keys in Hj. destruct (lookup k (ws_map m)); [auto|]. apply in_app_or in Hj.
    destruct Hj as [Hj|[<-|[]]]; auto.
Qed.
Lemma touch_wf m k : wf m -> wf (with_map m (touch k (ws_gen m) (ws_map m))).
Proof. intros [ND DJ]. constructor; cbn [with_map ws_map ws_overlay]; rewrite touch_keys; auto. Qed.

Lemma get_put m k k' v : get (with_map m (put k' (ws_gen m, v) (ws_map m))) k = if k =? k' then Some v else get m k.
Proof. unfold get. cbn [with_map ws_map]. rewrite lookup_put. destruct (k =? k'); reflexivity. Qed.
Lemma get_touch m k k' : get (with_map m (touch k' (ws_gen m) (ws_map m))) k = get m k.
Proof. unfold get. cbn [with_map ws_map]. rewrite lookup_touch. destruct (lookup k (ws_map m)) as [[]|]; reflexivity. Qed.

Lemma fill_loop_ok {St E} (f : St -> nat -> St * (option V + E)) keys : forall m st m' st' r,
  wf m -> fill_loop f keys m st = (m', st', r) ->
  wf m' /\ ws_overlay m' = ws_overlay m /\ ws_cap m' = ws_cap m /\ ws_gen m' = ws_gen m /\
  exists log failed, calls f st log st' failed /\ r = option_map snd failed /\
    (forall k o, In (k, o) log -> In k keys /\ ws_overlay m k = None /\ get m k = None) /\
    (forall k e, failed = Some (k, e) -> In k keys /\ ws_overlay m k = None /\ get m k = None /\ fetched k log = None) /\
    NoDup (successes log) /\
    (forall k, get m' k = or_else (get m k) (fetched k log)) /\
    (r = None -> forall k, In k keys -> ws_overlay m k = None -> get m k = None -> In k (map fst log)).
Proof.
  induction keys as [|k keys IH]; intros m st m' st' r W H; cbn [fill_loop] in H.
  - injection H as <- <- <-. split; [exact W|]. split; [reflexivity|]. split; [reflexivity|]. split; [reflexivity|].
    exists [], None. split; [constructor|]. split; [reflexivity|]. split; [intros ? ? []|]. split; [discriminate|].
    split; [constructor|]. split; [|intros _ k []]. intros k. unfold or_else. now destruct (get m k).
  - destruct (ws_overlay m k) as [v|] eqn:O.
    + destruct (IH _ _ _ _ _ W H) as (W' & A1 & A2 & A3 & log & fd & B1 & B2 & B3 & B4 & B5 & B6 & B7).
      split; [exact W'|]. split; [exact A1|]. split; [exact A2|]. split; [exact A3|]. exists log, fd. split; [exact B1|].
      split; [exact B2|]. split; [intros j o Hj; destruct (B3 j o Hj); split; [now right|auto]|].
      split; [intros j e Hj; destruct (B4 j e Hj); split; [now right|auto]|]. split; [exact B5|]. split; [exact B6|].
      intros R j [<-|Hj]; [congruence|]. now apply B7.
    + destruct (lookup k (ws_map m)) as [e0|] eqn:L.
      * set (m1 := with_map m (touch k (ws_gen m) (ws_map m))) in *.
        assert (G1 : forall j, get m1 j = get m j) by (intros j; apply get_touch).
        destruct (IH _ _ _ _ _ (touch_wf m k W) H) as (W' & A1 & A2 & A3 & log & fd & B1 & B2 & B3 & B4 & B5 & B6 & B7).
        fold m1 in A1, A2, A3, B3, B4, B6, B7. cbn [m1 with_map ws_overlay ws_cap ws_gen] in A1, A2, A3. split; [exact W'|]. split; [exact A1|].
        split; [exact A2|]. split; [exact A3|]. exists log, fd. split; [exact B1|]. split; [exact B2|].
        split; [intros j o Hj; destruct (B3 j o Hj) as (? & ? & ?); rewrite G1 in *; split; [now right|auto]|].
        split; [intros j e Hj; destruct (B4 j e Hj) as (? & ? & ? & ?); rewrite G1 in *; split; [now right|auto]|].
        split; [exact B5|]. split; [intros j; now rewrite B6, G1|].
        intros R j [<-|Hj] Oj Gj; [apply get_none in Gj; congruence|]. apply B7; auto. now rewrite G1.
      * assert (GN : get m k = None) by now apply get_none.
        destruct (f st k) as [st1 [[v|]|er]] eqn:F.
        -- set (m1 := with_map m (put k (ws_gen m, v) (ws_map m))) in *.
           assert (G1 : forall j, get m1 j = if j =? k then Some v else get m j) by (intros j; apply get_put).
           destruct (IH _ _ _ _ _ (put_wf m k v W O) H) as (W' & A1 & A2 & A3 & log & fd & B1 & B2 & B3 & B4 & B5 & B6 & B7).
           fold m1 in A1, A2, A3, B3, B4, B6, B7. cbn [m1 with_map ws_overlay ws_cap ws_gen] in A1, A2, A3. split; [exact W'|]. split; [exact A1|].
           split; [exact A2|]. split; [exact A3|]. exists ((k, Some v) :: log), fd. split; [econstructor; eassumption|]. split; [exact B2|].
           assert (B3' : forall j o, In (j, o) log -> In j keys /\ ws_overlay m j = None /\ get m j = None /\ j <> k).
           { intros j o Hj. destruct (B3 j o Hj) as (? & ? & G). rewrite G1 in G. destruct (Nat.eqb_spec j k); [discriminate|]. auto. }
           split; [intros j o [[= <- <-]|Hj]; [split; [now left|auto]|]; destruct (B3' j o Hj) as (? & ? & ? & ?); split; [now right|auto]|].
           split. { intros j e Hj. destruct (B4 j e Hj) as (? & ? & G & Fj). rewrite G1 in G. cbn [fetched]. destruct (Nat.eqb_spec j k); [discriminate|].
             split; [now right|auto]. }
           split. { change (NoDup (k :: successes log)). constructor; [|exact B5]. intros Hk. unfold successes in Hk. apply in_flat_map in Hk.
             destruct Hk as ([j o] & Hj & Hk). cbn [fst snd] in Hk. destruct o; [|destruct Hk]. destruct Hk as [<-|[]].
             destruct (B3' j (Some v0) Hj) as (_ & _ & _ & N). congruence. }
           split. { intros j. rewrite B6, G1. cbn [fetched]. destruct (Nat.eqb_spec j k) as [->|D]; [now rewrite GN|reflexivity]. }
           intros R j Hj Oj Gj. cbn [map fst]. destruct (Nat.eq_dec k j) as [->|D]; [now left|]. right. destruct Hj as [?|Hj]; [congruence|].
           apply B7; auto. rewrite G1. destruct (Nat.eqb_spec j k); congruence.
        -- destruct (IH _ _ _ _ _ W H) as (W' & A1 & A2 & A3 & log & fd & B1 & B2 & B3 & B4 & B5 & B6 & B7).
           split; [exact W'|]. split; [exact A1|]. split; [exact A2|]. split; [exact A3|]. exists ((k, None) :: log), fd.
           split; [econstructor; eassumption|]. split; [exact B2|].
           split; [intros j o [[= <- <-]|Hj]; [split; [now left|auto]|]; destruct (B3 j o Hj); split; [now right|auto]|].
           split; [intros j e Hj; destruct (B4 j e Hj); split; [now right|auto]|]. split; [exact B5|]. split; [exact B6|].
           intros R j Hj Oj Gj. cbn [map fst]. destruct (Nat.eq_dec k j) as [->|D]; [now left|]. right. destruct Hj as [?|Hj]; [congruence|].
           now apply B7.
        -- injection H as <- <- <-. split; [exact W|]. split; [reflexivity|]. split; [reflexivity|]. split; [reflexivity|].
           exists [], (Some (k, er)). split; [now apply calls_err|]. split; [reflexivity|]. split; [intros ? ? []|].
           split; [intros j e [= <- <-]; split; [now left|auto]|]. split; [constructor|]. split; [|discriminate].
           intros j. unfold or_else. now destruct (get m j).
Qed.
End proofs.
