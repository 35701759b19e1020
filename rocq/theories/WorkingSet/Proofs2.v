(** Capacity of the working set, and histories. *)
From Verif.Lib Require Import Base.
From Verif.WorkingSet Require Import Model Spec Proofs.

Section proofs.
Context {V : Type}.
Implicit Types (es : list (nat * (N * V))) (m : wset V).
Notation keys_of es := (map fst es).
Notation limit := 4294967296%N.

Definition fresh m : Prop := forall e, In e (ws_map m) -> (fst (snd e) <= ws_gen m)%N.

Lemma in_keys_get m k : In k (keys_of (ws_map m)) <-> get m k <> None.
Proof.
  rewrite get_none. destruct (lookup k (ws_map m)) eqn:E.
  - split; [discriminate|]. intros _. eapply lookup_some_in; exact E.
  - apply lookup_none in E. tauto.
Qed.

Definition missing m (keys : list nat) : list nat := filter (fun k => negb (existsb (Nat.eqb k) (keys_of (ws_map m)))) keys.
Lemma filter_split {A} (p : A -> bool) l : length (filter p l) + length (filter (fun x => negb (p x)) l) = length l.
Proof. induction l as [|x l IH]; [reflexivity|]. cbn [filter]. destruct (p x); cbn [negb length]; lia. Qed.

Lemma next_gen_lt g : (g + 1 < limit)%N -> next_gen g = (g + 1)%N.
Proof. intros H. unfold next_gen. now apply N.mod_small. Qed.

Lemma prepare_size order keys m c : any_order order -> wf m -> fresh m -> (ws_gen m + 1 < limit)%N -> ws_cap m = Some c ->
  let m' := prepare order keys m in
  length (ws_map m') + length (missing m keys) <= c \/ (forall k, In k (keys_of (ws_map m')) -> In k keys).
Proof.
  intros OR [ND DJ] FR LT EC. unfold prepare. cbn [ws_map ws_cap]. destruct (ws_map m) as [|e0 es0] eqn:EM; [right; intros k []|].
  rewrite <- EM in *. clear e0 es0 EM. rewrite EC. destruct c as [|c]; [right; intros k []|].
  destruct (promote (next_gen (ws_gen m)) keys (ws_map m)) as [es n] eqn:P.
  destruct (promote_ok _ _ _ _ _ P) as (K & LE & CN & LK).
  assert (LL : length es = length (ws_map m)) by (rewrite <- (map_length fst es), K; apply map_length).
  assert (MS : length keys - n = length (missing m keys)).
  { pose proof (filter_split (fun k => existsb (Nat.eqb k) (keys_of (ws_map m))) keys) as FS. cbv beta in FS. unfold missing. clear -FS CN. lia. }
  assert (NDE : NoDup (keys_of es)) by now rewrite K.
  destruct (Nat.leb_spec (S c) (length es + (length keys - n))) as [LEQ|LTN]; [|left; cbn [with_map ws_map]; lia].
  destruct (length es + (length keys - n) - S c) as [|x] eqn:EX; [left; cbn [with_map ws_map]; lia|].
  cbn [with_map ws_map]. set (g := next_gen (ws_gen m)) in *. set (es' := evict _ _ _).
  destruct (evict_sub g (S x) (order es)) as (gone & PG & LG & GG & AL). fold es' in PG, AL.
  assert (PE : Permutation es (gone ++ es')) by (transitivity (order es); [symmetry; apply OR|exact PG]).
  pose proof (Permutation_length PE) as PL. rewrite app_length in PL.
  destruct (Nat.lt_ge_cases (length gone) (S x)) as [L|L]; [right|left; lia].
  intros k Hk. apply in_map_iff in Hk. destruct Hk as ([k' [h v]] & <- & Hk). cbn [fst].
  pose proof (AL L _ Hk) as G. cbn [fst snd] in G. subst h.
  assert (IE : lookup k' es = Some (g, v)).
  { apply lookup_in; [exact NDE|]. eapply Permutation_in; [symmetry; exact PE|]. apply in_or_app. now right. }
  rewrite LK in IE. destruct (lookup k' (ws_map m)) as [[h w]|] eqn:E; [|discriminate]. cbn [option_map fst snd] in IE.
  destruct (existsb (Nat.eqb k') keys) eqn:EK; [now apply existsb_in|]. injection IE as -> ->.
  apply lookup_in in E; [|exact ND]. apply FR in E. cbn [fst snd] in E. unfold g in E. rewrite next_gen_lt in E by exact LT. lia.
Qed.

Lemma successes_fetched k (log : list (nat * option V)) : In k (successes log) <-> fetched k log <> None.
Proof.
  induction log as [|[j [v|]] log IH]; cbn [successes flat_map fetched fst snd app In]; [tauto| |exact IH].
  fold (successes log). rewrite IH. destruct (Nat.eqb_spec k j) as [->|D]; [split; [discriminate|now left]|].
  split; [intros [?|?]; congruence|auto].
Qed.

Lemma fill_size {St E} order (f : St -> nat -> St * (option V + E)) keys m st m' st' r c :
  any_order order -> wf m -> fresh m -> (ws_gen m + 1 < limit)%N -> ws_cap m = Some c ->
  fill order f keys m st = (m', st', r) ->
  length (ws_map m') <= Nat.max c (length (nodup Nat.eq_dec (filter (fun k => match ws_overlay m k with None => true | _ => false end) keys))).
Proof.
  intros OR W FR LT EC H. unfold fill in H. pose proof (prepare_ok order keys m OR W) as PO. cbn zeta in PO.
  destruct PO as (W1 & GK & _ & _ & CZ & _).
  pose proof (prepare_size order keys m c OR W FR LT EC) as PS. cbn zeta in PS.
  destruct (prepare_fields order keys m) as (PO & PC & PG).
  set (m1 := prepare order keys m) in *. destruct (fill_loop_ok f keys m1 st m' st' r W1 H) as (W2 & O2 & _ & _ & log & fd & _ & _ & LO & _ & ND & GE & _).
  assert (PM : Permutation (keys_of (ws_map m')) (keys_of (ws_map m1) ++ successes log)).
  { apply NoDup_Permutation.
    - apply W2.
    - apply NoDup_app_intro; [apply W1|exact ND|]. intros k Hk Hs. unfold successes in Hs. apply in_flat_map in Hs.
      destruct Hs as ([j o] & Hj & Hs). cbn [fst snd] in Hs. destruct o; [|destruct Hs]. destruct Hs as [<-|[]].
      apply in_keys_get in Hk. destruct (LO _ _ Hj) as (_ & _ & G). congruence.
    - intros k. rewrite in_app_iff, !in_keys_get, successes_fetched, GE. unfold or_else. destruct (get m1 k); [|tauto].
      split; [left; discriminate|discriminate]. }
  assert (LEN : length (ws_map m') = length (ws_map m1) + length (successes log)).
  { rewrite <- (map_length fst (ws_map m')), (Permutation_length PM), app_length, map_length. reflexivity. }
  assert (SK : forall k, In k (successes log) -> In k keys /\ ws_overlay m k = None /\ get m1 k = None).
  { intros k Hs. unfold successes in Hs. apply in_flat_map in Hs.
    destruct Hs as ([j o] & Hj & Hs). cbn [fst snd] in Hs. destruct o; [|destruct Hs]. destruct Hs as [<-|[]]. rewrite <- PO. eapply LO; exact Hj. }
  destruct PS as [PS|PS].
  - destruct c as [|c].
    + (* nothing kept: the map holds requested keys only *)
      rewrite (CZ EC) in *. cbn [length map app] in *.
      apply Nat.le_trans with (length (nodup Nat.eq_dec (filter (fun k => match ws_overlay m k with None => true | _ => false end) keys))); [|lia].
      rewrite LEN. apply NoDup_incl_length; [exact ND|]. intros k Hk. destruct (SK k Hk) as (A & B & _).
      apply nodup_In, filter_In. now rewrite B.
    + assert (LS : length (successes log) <= length (missing m keys)).
      { apply NoDup_incl_length; [exact ND|]. intros k Hk. destruct (SK k Hk) as (A & B & C). unfold missing. apply filter_In. split; [exact A|].
        apply negb_true_iff. destruct (existsb _ _) eqn:EX; [|reflexivity]. apply existsb_in in EX. apply in_keys_get in EX.
        rewrite GK in C by exact A. unfold cached in C. rewrite EC in C. congruence. }
      lia.
  - apply Nat.le_trans with (length (nodup Nat.eq_dec (filter (fun k => match ws_overlay m k with None => true | _ => false end) keys))); [|lia].
    rewrite <- (map_length fst (ws_map m')). apply NoDup_incl_length; [apply W2|]. intros k Hk.
    assert (OK : ws_overlay m k = None) by (rewrite <- PO, <- O2; now apply W2).
    apply nodup_In, filter_In. rewrite OK. split; [|reflexivity]. eapply Permutation_in in Hk; [|exact PM].
    apply in_app_or in Hk. destruct Hk as [Hk|Hk]; [now apply PS|]. now apply SK.
Qed.

(** ** Histories *)
Lemma put_in k e es x : In x (put k e es) -> x = (k, e) \/ In x es.
Proof.
  induction es as [|[j y] es IH]; cbn [put]; [intros [<-|[]]; now left|].
  destruct (k =? j); intros [<-|H]; [now left|right; now right|right; now left|]. destruct (IH H); [now left|right; now right].
Qed.
Lemma touch_in k g es x : In x (touch k g es) -> fst (snd x) = g \/ In x es.
Proof.
  induction es as [|[j y] es IH]; cbn [touch]; [intros []|].
  destruct (k =? j); intros [<-|H]; [now left|right; now right|right; now left|]. destruct (IH H); [now left|right; now right].
Qed.
Lemma promote_in g keys : forall es es' n x, promote g keys es = (es', n) -> In x es' -> fst (snd x) = g \/ In x es.
Proof.
  induction keys as [|k keys IH]; intros es es' n x H Hx; cbn [promote] in H; [injection H as <- <-; now right|].
  destruct (lookup k es).
  - destruct (promote g keys (touch k g es)) as [es1 n1] eqn:P. injection H as <- <-. destruct (IH _ _ _ _ P Hx) as [?|Hx']; [now left|].
    now apply touch_in in Hx'.
  - eapply IH; eassumption.
Qed.
Lemma evict_in g r es x : In x (evict g r es) -> In x es.
Proof.
  revert r. induction es as [|[k e] es IH]; intros r; cbn [evict]; [intros []|]. destruct r; [auto|].
  destruct (fst e =? g)%N; [intros [<-|H]; [now left|right; eapply IH; exact H]|]. intros H. right. eapply IH; exact H.
Qed.

Lemma prepare_fresh order keys m : any_order order -> fresh m -> (ws_gen m + 1 < limit)%N -> fresh (prepare order keys m).
Proof.
  intros OR FR LT e. destruct (prepare_fields order keys m) as (_ & _ & ->). rewrite next_gen_lt by exact LT.
  assert (OLD : In e (ws_map m) -> (fst (snd e) <= ws_gen m + 1)%N) by (intros H; apply FR in H; lia).
  unfold prepare. cbn [ws_map ws_cap]. destruct (ws_map m) as [|e0 es0] eqn:EM; [intros []|]. rewrite <- EM in *. clear e0 es0 EM.
  destruct (ws_cap m) as [[|c]|]; [intros []| |exact OLD].
  destruct (promote _ keys (ws_map m)) as [es n] eqn:P. rewrite next_gen_lt in * by exact LT.
  assert (NEW : In e es -> (fst (snd e) <= ws_gen m + 1)%N).
  { intros H. destruct (promote_in _ _ _ _ _ _ P H) as [->|H']; [lia|auto]. }
  destruct (_ <=? _); [|exact NEW]. destruct (_ - _); [exact NEW|]. cbn [with_map ws_map]. intros H. apply evict_in in H.
  apply NEW. eapply Permutation_in; [apply OR|exact H].
Qed.

Lemma fill_loop_fresh {St E} (f : St -> nat -> St * (option V + E)) keys : forall m st m' st' r,
  fresh m -> fill_loop f keys m st = (m', st', r) -> fresh m'.
Proof.
  induction keys as [|k keys IH]; intros m st m' st' r FR H; cbn [fill_loop] in H; [injection H as <- <- <-; exact FR|].
  destruct (ws_overlay m k); [eapply IH; eassumption|]. destruct (lookup k (ws_map m)).
  - eapply IH; [|exact H]. intros e He. apply touch_in in He. cbn [with_map ws_gen]. destruct He as [->|He]; [lia|auto].
  - destruct (f st k) as [st1 [[v|]|er]].
    + eapply IH; [|exact H]. intros e He. apply put_in in He. cbn [with_map ws_gen]. destruct He as [->|He]; [cbn; lia|auto].
    + eapply IH; eassumption.
    + injection H as <- <- <-. exact FR.
Qed.

Definition bumps (o : op V) : nat := match o with OPrepare _ _ | OFill _ _ _ _ _ _ => 1 | _ => 0 end.
Lemma step_wf m o : op_ok o -> wf m -> wf (step m o) /\ ws_overlay (step m o) = ws_overlay m /\ ws_cap (step m o) = ws_cap m.
Proof.
  intros OK W. destruct o as [k v|k v| |order keys|order keys St E f st]; cbn [step].
  - unfold insert. destruct (ws_overlay m k) eqn:O; [auto|]. split; [now apply put_wf|]. split; reflexivity.
  - unfold set_mut. destruct (lookup k (ws_map m)) as [[h w]|] eqn:L; [|auto]. split; [|split; reflexivity].
    apply put_wf; [exact W|]. apply W. eapply lookup_some_in; exact L.
  - split; [|split; reflexivity]. constructor; cbn; [constructor|intros j []].
  - destruct (prepare_ok order keys m OK W) as (W1 & _). destruct (prepare_fields order keys m) as (? & ? & _). auto.
  - destruct (prepare_ok order keys m OK W) as (W1 & _). destruct (prepare_fields order keys m) as (A & B & _). unfold fill.
    destruct (fill_loop f keys (prepare order keys m) st) as [[m' st'] r] eqn:F. cbn [fst].
    destruct (fill_loop_ok f keys _ st m' st' r W1 F) as (W2 & O2 & C2 & _). split; [exact W2|]. split; congruence.
Qed.
Lemma step_fresh m o : op_ok o -> wf m -> fresh m -> (ws_gen m + 1 < limit)%N ->
  fresh (step m o) /\ ws_gen (step m o) = (ws_gen m + N.of_nat (bumps o))%N.
Proof.
  intros OK W FR LT. destruct o as [k v|k v| |order keys|order keys St E f st]; cbn [step bumps].
  - unfold insert. destruct (ws_overlay m k); [split; [exact FR|lia]|]. split; [|cbn; lia].
    intros e He. apply put_in in He. cbn [with_map ws_gen]. destruct He as [->|He]; [cbn; lia|auto].
  - unfold set_mut. destruct (lookup k (ws_map m)); [|split; [exact FR|lia]]. split; [|cbn; lia].
    intros e He. apply put_in in He. cbn [with_map ws_gen]. destruct He as [->|He]; [cbn; lia|auto].
  - split; [intros e []|cbn; lia].
  - split; [now apply prepare_fresh|]. destruct (prepare_fields order keys m) as (_ & _ & ->). rewrite next_gen_lt by exact LT. lia.
  - unfold fill. destruct (fill_loop f keys (prepare order keys m) st) as [[m' st'] r] eqn:F. cbn [fst].
    split; [eapply fill_loop_fresh; [|exact F]; now apply prepare_fresh|].
    destruct (prepare_ok order keys m OK W) as (W1 & _). destruct (fill_loop_ok f keys _ st m' st' r W1 F) as (_ & _ & _ & -> & _).
    destruct (prepare_fields order keys m) as (_ & _ & ->). rewrite next_gen_lt by exact LT. lia.
Qed.

Lemma run_wf os : forall m, Forall op_ok os -> wf m -> wf (run m os) /\ ws_overlay (run m os) = ws_overlay m /\ ws_cap (run m os) = ws_cap m.
Proof.
  induction os as [|o os IH]; intros m OK W; [auto|]. apply Forall_cons_iff in OK. destruct OK as (O1 & OK).
  destruct (step_wf m o O1 W) as (W1 & A & B). destruct (IH (step m o) OK W1) as (W2 & A2 & B2). cbn [run fold_left] in *.
  fold (run (step m o) os) in *. split; [exact W2|]. split; congruence.
Qed.
Lemma generations_cons o (os : list (op V)) : generations (o :: os) = bumps o + generations os.
Proof. unfold generations. cbn [filter]. destruct o; reflexivity. Qed.
Lemma run_fresh os : forall m, Forall op_ok os -> wf m -> fresh m -> (ws_gen m + N.of_nat (generations os) + 1 < limit)%N ->
  fresh (run m os) /\ ws_gen (run m os) = (ws_gen m + N.of_nat (generations os))%N.
Proof.
  induction os as [|o os IH]; intros m OK W FR LT; [split; [exact FR|cbn; lia]|]. apply Forall_cons_iff in OK. destruct OK as (O1 & OK).
  rewrite generations_cons in *. destruct (step_wf m o O1 W) as (W1 & _). destruct (step_fresh m o O1 W FR) as (F1 & G1); [lia|].
  cbn [run fold_left]. fold (run (step m o) os). destruct (IH (step m o) OK W1 F1) as (F2 & G2); [lia|]. split; [exact F2|]. lia.
Qed.

Lemma build_wf c ov d : wf (@build V c ov d).
Proof. constructor; cbn; [constructor|intros k []]. Qed.
Lemma build_fresh c ov d : fresh (@build V c ov d).
Proof. intros e []. Qed.

(** Values come from the source. *)
Lemma fetched_source {St E} (f : St -> nat -> St * (option V + E)) src : (forall st k st' v, f st k = (st', inl (Some v)) -> src k = Some v) ->
  forall st log st' fd, calls f st log st' fd -> forall k v, fetched k log = Some v -> src k = Some v.
Proof.
  intros HS st log st' fd C. induction C as [st|st k o st1 log st' r F C IH|st k e st1 F]; intros j v H; try discriminate.
  destruct o as [w|]; cbn [fetched] in H; [|auto]. destruct (Nat.eqb_spec j k) as [->|]; [|auto]. injection H as <-. eapply HS; exact F.
Qed.
Lemma step_source src m o : op_ok o -> from_source src o -> wf m -> (forall k v, get m k = Some v -> src k = Some v) ->
  forall k v, get (step m o) k = Some v -> src k = Some v.
Proof.
  intros OK HS W G k v. destruct o as [k' w|k' w| |order keys|order keys St E f st]; cbn [step from_source] in *.
  - unfold insert. destruct (ws_overlay m k'); [apply G|]. rewrite get_put. destruct (Nat.eqb_spec k k'); [|apply G]. congruence.
  - unfold set_mut. destruct (lookup k' (ws_map m)); [|apply G]. rewrite get_put. destruct (Nat.eqb_spec k k'); [|apply G]. congruence.
  - discriminate.
  - destruct (prepare_ok order keys m OK W) as (_ & _ & A & _). destruct (A k) as [->| ->]; [discriminate|].
    unfold cached. destruct (ws_cap m) as [[|]|]; [discriminate|apply G|apply G].
  - destruct (prepare_ok order keys m OK W) as (W1 & _ & A & _). unfold fill.
    destruct (fill_loop f keys (prepare order keys m) st) as [[m' st'] r] eqn:F. cbn [fst].
    destruct (fill_loop_ok f keys _ st m' st' r W1 F) as (_ & _ & _ & _ & log & fd & C & _ & _ & _ & _ & GE & _). rewrite GE.
    unfold or_else. destruct (get (prepare order keys m) k) as [w|] eqn:EG.
    + intros [= <-]. destruct (A k) as [A'|A']; [congruence|]. rewrite A' in EG. unfold cached in EG.
      destruct (ws_cap m) as [[|]|]; [discriminate|now apply G|now apply G].
    + intros H. eapply fetched_source; eassumption.
Qed.
Lemma run_source src os : forall m, Forall op_ok os -> Forall (from_source src) os -> wf m -> (forall k v, get m k = Some v -> src k = Some v) ->
  forall k v, get (run m os) k = Some v -> src k = Some v.
Proof.
  induction os as [|o os IH]; intros m OK HS W G; [exact G|]. apply Forall_cons_iff in OK, HS. destruct OK as (O1 & OK), HS as (S1 & HS).
  cbn [run fold_left]. fold (run (step m o) os). destruct (step_wf m o O1 W) as (W1 & _). apply IH; auto. apply step_source; auto.
Qed.
End proofs.
