(** Theorems about the working set.
    Modelled code: diskann/src/graph/workingset/map.rs. *)
From Verif.Lib Require Import Base.
From Verif.WorkingSet Require Import Model Spec Proofs Proofs2.

(** ** C77: a fill makes available what was asked for

    From any state a history of operations leads to, for any closure and any order of the hash
    map: the closure is called only for keys asked for that are neither in the overlay nor
    cached, and returns at most one value for a key; it is called at least once for each of
    them unless it fails.  Afterwards every key asked for has the overlay's value, or the
    cached one, or the one the closure returned; other keys keep their value or are gone, and
    are never gone from an unbounded map. *)
Theorem C77_fill :
  forall V c ov d (os : list (op V)) order St E (f : St -> nat -> St * (option V + E)) keys st m' st' r,
  Forall op_ok os -> any_order order ->
  let m := run (build c ov d) os in
  fill order f keys m st = (m', st', r) ->
  exists log failed, calls f st log st' failed /\ r = option_map snd failed /\
    (forall k, In k (map fst log) \/ (exists e, failed = Some (k, e)) -> In k keys /\ ov k = None /\ cached m k = None) /\
    NoDup (successes log) /\
    (r = None -> forall k, In k keys -> ov k = None -> cached m k = None -> In k (map fst log)) /\
    (forall k, In k keys -> view m' k = or_else (ov k) (or_else (cached m k) (fetched k log))) /\
    (forall k, ~ In k keys -> view m' k = view m k \/ (ov k = None /\ view m' k = None)) /\
    (resolve c d = None -> forall k, ~ In k keys -> view m' k = view m k) /\
    (resolve c d = Some 0 -> forall k, ~ In k keys -> view m' k = ov k).
Proof.
  intros V c ov d os order St E f keys st m' st' r OK OR m H.
  destruct (run_wf os (build c ov d) OK (build_wf c ov d)) as (W & OV & CP). fold m in W, OV, CP. cbn [build ws_overlay ws_cap] in OV, CP.
  destruct (prepare_ok order keys m OR W) as (W1 & GK & GA & GU & GZ & _). destruct (prepare_fields order keys m) as (PO & PC & _).
  unfold fill in H. destruct (fill_loop_ok f keys _ st m' st' r W1 H) as (W2 & O2 & C2 & _ & log & fd & A1 & A2 & A3 & A4 & A5 & A6 & A7).
  rewrite PO, OV in *. exists log, fd. split; [exact A1|]. split; [exact A2|].
  assert (NF : forall k, ~ In k keys -> fetched k log = None).
  { intros k N. destruct (fetched k log) eqn:F; [|reflexivity]. elim N. assert (S : In k (successes log)) by (apply successes_fetched; congruence).
    unfold successes in S. apply in_flat_map in S. destruct S as ([j o] & Hj & S). cbn [fst snd] in S. destruct o; [|destruct S].
    destruct S as [<-|[]]. eapply A3; exact Hj. }
  assert (VN : forall k, ~ In k keys -> view m' k = or_else (ov k) (get (prepare order keys m) k)).
  { intros k N. unfold view. rewrite O2, A6, (NF k N). destruct (ov k); [reflexivity|]. unfold or_else. now destruct (get _ k). }
  assert (VM : forall k, view m k = or_else (ov k) (get m k)) by (intros k; unfold view; rewrite OV; now destruct (ov k)).
  split.
  { intros k [Hk|(e & Hk)].
    - apply in_map_iff in Hk. destruct Hk as ([j o] & <- & Hj). destruct (A3 _ _ Hj) as (B1 & B2 & B3). cbn [fst].
      rewrite GK in B3 by exact B1. auto.
    - destruct (A4 _ _ Hk) as (B1 & B2 & B3 & _). rewrite GK in B3 by exact B1. auto. }
  split; [exact A5|]. split; [intros R k Hk Ok Ck; apply A7; auto; now rewrite GK|].
  split. { intros k Hk. unfold view. rewrite O2, A6, GK by exact Hk. destruct (ov k); reflexivity. }
  split. { intros k N. rewrite VN, VM by exact N. destruct (ov k) eqn:OK'; [now left|]. cbn [or_else].
    destruct (GA k) as [->|E0]; [right; auto|]. rewrite E0. unfold cached. destruct (ws_cap m) as [[|]|]; auto. }
  split. { intros R k N. rewrite VN, VM by exact N. rewrite GU; [reflexivity|]. congruence. }
  intros R k N. rewrite VN by exact N. destruct (ov k); [reflexivity|]. cbn [or_else]. unfold get. rewrite GZ by congruence. reflexivity.
Qed.
Print Assumptions C77_fill.

(** With one source of values, neither caching, eviction, the order of the hash map nor the
    past can be seen: after a fill every key asked for has the overlay's or the source's
    value, and nothing else is ever visible. *)
Theorem C77_transparent :
  forall V c ov d (os : list (op V)) order src keys E,
  Forall op_ok os -> Forall (from_source src) os -> any_order order ->
  let m := run (build c ov d) os in
  (forall k v, view m k = Some v -> or_else (ov k) (src k) = Some v) /\
  exists m', fill order (fun (_ : unit) k => (tt, @inl (option V) E (src k))) keys m tt = (m', tt, None) /\
    (forall k, In k keys -> view m' k = or_else (ov k) (src k)) /\
    (forall k v, view m' k = Some v -> or_else (ov k) (src k) = Some v).
Proof.
  intros V c ov d os order src keys E OK HS OR m.
  destruct (run_wf os (build c ov d) OK (build_wf c ov d)) as (W & OV & CP). fold m in W, OV, CP. cbn [build ws_overlay ws_cap] in OV, CP.
  pose proof (run_source src os (build c ov d) OK HS (build_wf c ov d)) as SRC. fold m in SRC.
  specialize (SRC ltac:(intros k v; discriminate)).
  assert (VS : forall m0, ws_overlay m0 = ov -> (forall k v, get m0 k = Some v -> src k = Some v) ->
               forall k v, view m0 k = Some v -> or_else (ov k) (src k) = Some v).
  { intros m0 O G k v. unfold view. rewrite O. destruct (ov k); cbn [or_else]; [auto|]. apply G. }
  split; [now apply VS|].
  set (f := fun (_ : unit) (k : nat) => (tt, @inl (option V) E (src k))).
  destruct (fill order f keys m tt) as [[m' u] r] eqn:F. destruct u.
  pose proof (step_source src m (OFill order keys unit E f tt) OR) as SS. cbn [from_source step] in SS. rewrite F in SS. cbn [fst] in SS.
  specialize (SS ltac:(intros ? k ? v [= _ E0]; exact E0) W SRC).
  destruct (C77_fill V c ov d os order unit E f keys tt m' tt r OK OR F) as (log & fd & C & -> & A1 & _ & A3 & A4 & _).
  fold m in A1, A3, A4.
  assert (FN : fd = None). { clear -C. remember fd as q eqn:Q. clear Q. induction C as [| |? ? ? ? F]; auto. unfold f in F. discriminate. }
  subst fd. exists m'. split; [reflexivity|].
  assert (FS : forall k, In k (map fst log) -> fetched k log = src k).
  { clear -C. remember None as q eqn:Q in C. revert Q. induction C as [|st k o st1 log st' r F C IH|]; intros Q; [intros k []| |discriminate].
    unfold f in F. injection F as _ <-. intros j [<-|Hj]; cbn [fst].
    - destruct (src k) as [v|] eqn:S; cbn [fetched]; [now rewrite Nat.eqb_refl|].
      destruct (in_dec Nat.eq_dec k (map fst log)) as [i|n]; [now rewrite (IH Q k i)|].
      destruct (fetched k log) eqn:FE; [|reflexivity]. elim n. assert (S' : In k (successes log)) by (apply successes_fetched; congruence).
      unfold successes in S'. apply in_flat_map in S'. destruct S' as ([j o] & Hj & S'). cbn [fst snd] in S'. destruct o; [|destruct S'].
      destruct S' as [<-|[]]. apply in_map_iff. now exists (j, Some v0).
    - destruct (src k) as [v|] eqn:S; cbn [fetched]; [|exact (IH Q j Hj)]. destruct (Nat.eqb_spec j k) as [->|]; [congruence|exact (IH Q j Hj)]. }
  split.
  - intros k Hk. rewrite A4 by exact Hk. destruct (ov k) eqn:O; cbn [or_else]; [reflexivity|].
    destruct (cached m k) as [v|] eqn:CK; cbn [or_else].
    + symmetry. apply SRC. unfold cached in CK. destruct (ws_cap m) as [[|]|]; [discriminate|exact CK|exact CK].
    + apply FS. now apply A3.
  - apply VS; [|exact SS]. unfold fill in F. destruct (prepare_ok order keys m OR W) as (W1 & _). destruct (prepare_fields order keys m) as (PO & _).
    destruct (fill_loop_ok f keys _ tt m' tt _ W1 F) as (_ & -> & _). congruence.
Qed.
Print Assumptions C77_transparent.

(** The other operations: a key is contained exactly if it has a value; inserting shows the value
    unless the overlay has the key; changing a value in place needs an entry; clearing leaves
    the overlay.  Other keys are not affected. *)
Theorem C77_operations :
  forall V (m : wset V) k v k',
  (contains m k = true <-> view m k <> None) /\
  view (insert k v m) k' = (if Nat.eq_dec k' k then or_else (ws_overlay m k) (Some v) else view m k') /\
  view (set_mut k v m) k' = (if Nat.eq_dec k' k then or_else (ws_overlay m k) (option_map (fun _ => v) (get m k)) else view m k') /\
  view (clear m) k' = ws_overlay m k'.
Proof.
  intros V m k v k'. split; [|split; [|split]].
  - unfold contains, view, get. destruct (ws_overlay m k); [split; [discriminate|auto]|]. destruct (lookup k (ws_map m)); cbn; split; congruence.
  - unfold insert. destruct (ws_overlay m k) eqn:O.
    + destruct (Nat.eq_dec k' k) as [->|]; [|reflexivity]. unfold view. now rewrite O.
    + unfold view, get. cbn [with_map ws_overlay ws_map]. rewrite lookup_put. destruct (Nat.eq_dec k' k) as [->|D].
      * now rewrite O, Nat.eqb_refl.
      * apply Nat.eqb_neq in D. now rewrite D.
  - unfold set_mut, view, get. destruct (lookup k (ws_map m)) as [e|] eqn:L.
    + cbn [with_map ws_overlay ws_map]. rewrite lookup_put. destruct (Nat.eq_dec k' k) as [->|D].
      * rewrite Nat.eqb_refl. destruct (ws_overlay m k); reflexivity.
      * apply Nat.eqb_neq in D. now rewrite D.
    + destruct (Nat.eq_dec k' k) as [->|D]; [|reflexivity]. rewrite L. destruct (ws_overlay m k); reflexivity.
  - unfold view, get, clear. cbn. now destruct (ws_overlay m k').
Qed.
Print Assumptions C77_operations.

(** A batch overlay has, for each of its ids, the element at the last position of that id. *)
Theorem C77_batch_overlay :
  forall V (batch : nat -> V) ids k,
  (from_batch batch ids k = None <-> ~ In k ids) /\
  (forall v, from_batch batch ids k = Some v <->
     exists pre post, ids = pre ++ k :: post /\ ~ In k post /\ v = batch (length pre)).
Proof.
  intros V batch ids k.
  assert (LI : forall ids i, match last_index k ids i with
                             | None => ~ In k ids
                             | Some j => exists pre post, ids = pre ++ k :: post /\ ~ In k post /\ j = i + length pre
                             end).
  { clear. induction ids as [|k' ids IH]; intros i; cbn [last_index]; [tauto|]. specialize (IH (S i)).
    destruct (last_index k ids (S i)) as [j|].
    - destruct IH as (pre & post & -> & N & ->). exists (k' :: pre), post. split; [reflexivity|]. split; [exact N|]. cbn [length]. lia.
    - destruct (Nat.eqb_spec k k') as [->|D].
      + exists [], ids. split; [reflexivity|]. split; [exact IH|]. cbn [length]. lia.
      + intros [?|?]; congruence || tauto. }
  specialize (LI ids 0). unfold from_batch. destruct (last_index k ids 0) as [j|]; cbn [option_map].
  - destruct LI as (pre & post & -> & N & ->). split.
    + split; [discriminate|]. intros H. elim H. apply in_or_app. right. now left.
    + intros v. cbn [Nat.add]. split.
      * intros [= <-]. exists pre, post. auto.
      * intros (pre' & post' & E & N' & ->). do 2 f_equal. clear -E N N'.
        revert pre' E. induction pre as [|a pre IH]; intros [|b pre'] E; cbn [app length] in *; auto.
        -- injection E as E1 E2. subst. elim N. apply in_or_app. right. now left.
        -- injection E as E1 E2. subst. elim N'. apply in_or_app. right. now left.
        -- injection E as E1 E2. f_equal. now apply IH.
  - split; [tauto|]. intros v. split; [discriminate|]. intros (pre & post & -> & _). elim LI. apply in_or_app. right. now left.
Qed.
Print Assumptions C77_batch_overlay.

(** ** C78: a fill leaves the map within its capacity

    For every history with fewer than 2^32 - 1 fills: after a fill the map holds no more
    entries than its capacity, or than the distinct keys asked for (outside the overlay) if
    these are more; and while everything fits nothing is dropped. *)
Theorem C78_capacity :
  forall V c ov d n (os : list (op V)) order St E (f : St -> nat -> St * (option V + E)) keys st,
  Forall op_ok os -> any_order order -> resolve c d = Some n -> (N.of_nat (generations os) + 1 < 4294967296)%N ->
  let m := run (build c ov d) os in
  let m' := fst (fst (fill order f keys m st)) in
  length (ws_map m') <= Nat.max n (length (nodup Nat.eq_dec (filter (fun k => match ov k with None => true | _ => false end) keys))) /\
  (n <> 0 -> length (ws_map m) + length keys <= n -> forall k v, view m k = Some v -> view m' k = Some v).
Proof.
  intros V c ov d n os order St E f keys st OK OR R LT m m'.
  destruct (run_wf os (build c ov d) OK (build_wf c ov d)) as (W & OV & CP). fold m in W, OV, CP. cbn [build ws_overlay ws_cap] in OV, CP.
  destruct (run_fresh os (build c ov d) OK (build_wf c ov d) (build_fresh c ov d)) as (FR & GN); [exact LT|]. fold m in FR, GN.
  cbn [build ws_gen] in GN.
  unfold m'. destruct (fill order f keys m st) as [[m1 st1] r] eqn:F. cbn [fst]. split.
  - rewrite <- OV. eapply fill_size; [exact OR|exact W|exact FR| |congruence|exact F]. rewrite GN. exact LT.
  - intros N0 FIT k v H. destruct (prepare_ok order keys m OR W) as (W1 & _ & _ & _ & _ & KP). destruct (prepare_fields order keys m) as (PO & _).
    unfold fill in F. destruct (fill_loop_ok f keys _ st m1 st1 r W1 F) as (_ & O2 & _ & _ & log & fd & _ & _ & _ & _ & _ & GE & _).
    unfold view in *. rewrite O2, PO. destruct (ws_overlay m k); [exact H|]. rewrite GE, (KP n ltac:(congruence) FIT).
    unfold cached. rewrite CP, R. destruct n; [congruence|]. rewrite H. reflexivity.
Qed.
Print Assumptions C78_capacity.

(** Beyond, generations repeat and an old entry passes for a current one: after 2^32 fills a
    map of capacity 1 holds two entries although one key was asked for. *)
Definition noop_fill : op nat := OFill (fun es => es) [] unit unit (fun u _ => (u, inl None)) tt.
Lemma run_noops n : forall e g, run (mkWset [e] (fun _ => None) (Some 1) g) (repeat noop_fill n) =
  mkWset [e] (fun _ => None) (Some 1) (Nat.iter n next_gen g).
Proof.
  induction n as [|n IH]; intros e g; [reflexivity|]. cbn [repeat run fold_left]. change (fold_left step (repeat noop_fill n)) with (fun m : wset nat => run m (repeat noop_fill n)).
  cbn beta. cbn [step noop_fill fill fill_loop fst]. change (prepare (fun es => es) [] (mkWset [e] (fun _ : nat => None) (Some 1) g)) with (mkWset [e] (fun _ : nat => @None nat) (Some 1) (next_gen g)).
  rewrite IH. f_equal. clear. induction n as [|n IH]; [reflexivity|].
  change (next_gen (Nat.iter n next_gen (next_gen g)) = next_gen (Nat.iter (S n) next_gen g)). now rewrite IH.
Qed.
Lemma iter_next n : forall g, (g < 4294967296)%N -> Nat.iter n next_gen g = ((g + N.of_nat n) mod 4294967296)%N.
Proof.
  induction n as [|n IH]; intros g H; cbn [Nat.iter nat_rect]; [rewrite N.add_0_r; symmetry; now apply N.mod_small|].
  change (nat_rect _ g (fun _ => next_gen) n) with (Nat.iter n next_gen g). rewrite (IH g H). unfold next_gen. rewrite N.add_mod_idemp_l by lia. f_equal. lia.
Qed.
Theorem C78_refuted_wraparound :
  ~ (forall c ov d n (os : list (op nat)) order St E (f : St -> nat -> St * (option nat + E)) keys st,
     Forall op_ok os -> any_order order -> resolve c d = Some n ->
     length (ws_map (fst (fst (fill order f keys (run (build c ov d) os) st)))) <=
       Nat.max n (length (nodup Nat.eq_dec (filter (fun k => match ov k with None => true | _ => false end) keys)))).
Proof.
  assert (K : exists K, N.of_nat K = 4294967295%N) by (exists (N.to_nat 4294967295); apply N2Nat.id). destruct K as (K & HK).
  intros H. specialize (H (CapSome 1) (fun _ => None) 0 1 (OInsert 7 70 :: repeat noop_fill K) (fun es => es)
    unit unit (fun u _ => (u, inl (Some 80))) [8] tt).
  assert (R : run (build (CapSome 1) (fun _ => None) 0) (OInsert 7 70 :: repeat noop_fill K) =
              mkWset [(7, (0%N, 70))] (fun _ => None) (Some 1) 4294967295%N).
  { change (run (mkWset [(7, (0%N, 70))] (fun _ => None) (Some 1) 0%N) (repeat noop_fill K) =
            mkWset [(7, (0%N, 70))] (fun _ => None) (Some 1) 4294967295%N).
    rewrite run_noops, iter_next by reflexivity. rewrite HK. reflexivity. }
  rewrite R in H. clear R. assert (A : 2 <= 1).
  { apply H.
    - constructor; [exact I|]. apply Forall_forall. intros o Ho. apply repeat_spec in Ho. subst o. intros es. apply Permutation_refl.
    - intros es. apply Permutation_refl.
    - reflexivity. }
  lia.
Qed.
Print Assumptions C78_refuted_wraparound.

(** Entries are not evicted only "as needed": keys of the overlay and repeated keys count as
    entries to be added, so an entry is dropped although everything would fit. *)
Theorem C78_refuted_only_as_needed :
  ~ (forall V c ov d n (os : list (op V)) order St E (f : St -> nat -> St * (option V + E)) keys st,
     Forall op_ok os -> any_order order -> resolve c d = Some n -> n <> 0 ->
     let m := run (build c ov d) os in
     length (nodup Nat.eq_dec (map fst (ws_map m) ++ filter (fun k => match ov k with None => true | _ => false end) keys)) <= n ->
     forall k v, view m k = Some v -> view (fst (fst (fill order f keys m st))) k = Some v).
Proof.
  intros H. specialize (H nat (CapSome 2) (fun k => if k =? 5 then Some 50 else None) 0 2 [OInsert 1 10; OInsert 2 20] (fun es => es)
    unit unit (fun u _ => (u, inl None)) [5] tt).
  assert (A : @None nat = Some 10).
  { apply (H ltac:(repeat constructor) ltac:(intros es; apply Permutation_refl) eq_refl ltac:(discriminate) ltac:(vm_compute; lia) 1 10 eq_refl). }
  discriminate.
Qed.
Print Assumptions C78_refuted_only_as_needed.

(** ** The hypotheses are met *)
Example C77_met :
  let os := [OInsert 1 10; OInsert 2 20; OFill (fun es => rev es) [2; 3] unit unit (fun u k => (u, inl (Some (k * 10)))) tt] in
  let ov := fun k => if k =? 5 then Some 50 else None in
  Forall op_ok os /\ Forall (from_source (fun k => Some (k * 10))) os /\
  any_order (fun es : list (nat * (N * nat)) => rev es) /\
  view (run (build (CapSome 2) ov 0) os) 3 = Some 30 /\ view (run (build (CapSome 2) ov 0) os) 1 = None /\
  view (run (build (CapSome 2) ov 0) os) 5 = Some 50 /\ view (run (build CapUnbounded ov 0) os) 1 = Some 10 /\
  resolve (CapSome 2) 0 = Some 2 /\ generations os = 1.
Proof.
  cbn zeta. assert (R : any_order (fun es : list (nat * (N * nat)) => rev es)) by (intros es; symmetry; apply Permutation_rev).
  split; [repeat constructor; exact R|]. split; [repeat constructor; intros ? k ? v [= _ <-]; reflexivity|]. split; [exact R|].
  vm_compute. repeat split.
Qed.
