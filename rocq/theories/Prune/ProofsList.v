(** Termination, and lifting of the pruning lemmas to [occlude_list]. *)
From Verif.Lib Require Import Base Lists F32.
From Verif.Adjacency Require Import Proofs.
From Verif.Prune Require Import Model Spec Proofs.

(** ** Termination *)
Section term.
Context {V : Type}.
Variable ar : farith.
Variable dist : V -> V -> f32.
Variable kind : prune_kind.
Variable cache : list (f32 * option V).
Variable alpha : f32.
Variable degree : nat.
Hypothesis Hn : is_nan alpha = false.
Hypothesis Hg : mul_grows ar alpha.

Lemma rounds_at_alpha fuel c states found : f32_eq c alpha = true ->
  rounds ar dist kind cache (S fuel) alpha c degree states found <> OutOfFuel.
Proof.
  intros E. cbn [rounds]. destruct (found <? degree); [|discriminate].
  destruct (pass _ _ _ _ _ _ _ _ _ _) as [[s f]|]; [|discriminate].
  rewrite E. discriminate.
Qed.

Definition next (c : f32) := f32_fmin (fmul ar c (f32_fmin alpha f32_1_2)) alpha.

Lemma rounds_step fuel c states found :
  (forall s f, rounds ar dist kind cache fuel alpha (next c) degree s f <> OutOfFuel) ->
  rounds ar dist kind cache (S fuel) alpha c degree states found <> OutOfFuel.
Proof.
  intros H. cbn [rounds]. destruct (found <? degree); [|discriminate].
  destruct (pass _ _ _ _ _ _ _ _ _ _) as [[s f]|]; [|discriminate].
  destruct (f32_eq c alpha); [discriminate|]. apply H.
Qed.

Lemma rounds_climb : f32_lt f32_1_2 alpha = true -> forall n fuel c states found,
  f32_le f32_one c = true -> f32_lt c alpha = true ->
  (Z.to_nat (f32_key alpha - f32_key c) <= n)%nat -> n < fuel ->
  rounds ar dist kind cache fuel alpha c degree states found <> OutOfFuel.
Proof.
  intros L12. destruct Hg as [_ G]. specialize (G L12).
  assert (Ei : f32_fmin alpha f32_1_2 = f32_1_2).
  { unfold f32_fmin. rewrite Hn. change (is_nan f32_1_2) with false. cbv iota.
    now rewrite L12. }
  induction n as [|n IH]; intros fuel c states found H1 H2 Hm Lf.
  { apply f32_lt_spec in H2 as (_ & _ & K). lia. }
  destruct fuel as [|fuel]; [lia|]. apply rounds_step. intros s f.
  unfold next. rewrite Ei. specialize (G c H1 H2). set (m := fmul ar c f32_1_2) in *.
  clearbody m. apply f32_lt_spec in G as (Nc & Nm & K). unfold f32_fmin. rewrite Nm, Hn.
  apply f32_lt_spec in H2 as (_ & _ & K2). apply f32_le_spec in H1 as (_ & _ & K1).
  destruct fuel as [|fuel]; [lia|].
  destruct (f32_lt alpha m) eqn:L.
  - apply rounds_at_alpha. apply f32_eq_spec. auto.
  - apply f32_lt_false in L; auto.
    destruct (Z.eq_dec (f32_key m) (f32_key alpha)) as [E|E].
    + apply rounds_at_alpha. apply f32_eq_spec. auto.
    + apply IH; try lia.
      * apply f32_le_spec. split; [reflexivity|]. split; [auto|]. lia.
      * apply f32_lt_spec. split; [auto|]. split; [auto|]. lia.
Qed.

Lemma rounds_terminate : exists fuel, forall fuel' states found, fuel <= fuel' ->
  rounds ar dist kind cache fuel' alpha f32_one degree states found <> OutOfFuel.
Proof.
  destruct (f32_lt f32_1_2 alpha) eqn:L12.
  - exists (S (Z.to_nat (f32_key alpha - f32_key f32_one))). intros fuel' states found Lf.
    apply (rounds_climb L12 (Z.to_nat (f32_key alpha - f32_key f32_one))); auto.
    apply f32_lt_spec in L12 as (_ & _ & K). apply f32_lt_spec. split; [reflexivity|].
    split; [auto|]. change (f32_key f32_one) with 1065353216%Z.
    change (f32_key f32_1_2) with 1067030938%Z in K. lia.
  - exists 2. intros fuel' states found Lf. destruct fuel' as [|[|f]]; try lia.
    apply rounds_step. intros s f'. apply rounds_at_alpha. destruct Hg as [G _].
    specialize (G Hn). unfold next.
    assert (Ei : f32_fmin alpha f32_1_2 = alpha).
    { unfold f32_fmin. rewrite Hn. change (is_nan f32_1_2) with false. cbv iota.
      now rewrite L12. }
    rewrite Ei. unfold f32_fmin. pose proof G as G'. apply f32_eq_spec in G as (Nm & _ & K).
    rewrite Nm, Hn. destruct (f32_lt alpha (fmul ar f32_one alpha)) eqn:X; auto.
    apply f32_eq_spec. auto.
Qed.
End term.

(** With a NaN [alpha] and no retrievable candidate the loop never ends. *)
Lemma nan_alpha_loops {V} (ar : farith) (dist : V -> V -> f32) kind alpha :
  is_nan alpha = true -> forall fuel c states, length states = 1 ->
  rounds ar dist kind [(f32_one, None)] fuel alpha c 1 states 0 = OutOfFuel.
Proof.
  intros Hn. induction fuel as [|fuel IH]; intros c states L; [reflexivity|].
  destruct states as [|st [|]]; try discriminate. cbn [rounds].
  change (0 <? 1) with true. cbv iota. cbn [pass]. change (1 <=? 0) with false. cbv iota.
  unfold consider. cbn [nth_error snd].
  assert (Ne : f32_eq c alpha = false).
  { unfold f32_eq. rewrite Hn. cbn. now rewrite andb_false_r. }
  destruct (f32_gt (s_occ st) c).
  - rewrite Ne. apply IH. reflexivity.
  - rewrite Ne. apply IH. reflexivity.
Qed.

(** ** [occlude_list] *)

Definition ids_of (pool : list nbr) (P : list nat) : list nat :=
  map (fun p => n_id (nth p pool (mkNbr 0 0%N))) P.

Lemma zip_write_spec pool : forall a states, length a <= length states ->
  Forall (fun p => p < length pool) (map s_nb (firstn (length a) states)) ->
  zip_write pool a states = Some (ids_of pool (map s_nb (firstn (length a) states))).
Proof.
  induction a as [|x a IH]; intros [|s states] L F; try reflexivity; [cbn in L; lia|].
  cbn [length firstn map zip_write] in *. inv F.
  destruct (nth_error pool (s_nb s)) as [y|] eqn:E.
  2:{ apply nth_error_None in E. lia. }
  rewrite IH by (auto; lia). unfold ids_of. cbn [map]. do 2 f_equal.
  symmetry. f_equal. now apply nth_error_nth.
Qed.

Lemma make_cache_nth {V} (mp : nat -> option V) excl pool i :
  nth_error (make_cache mp excl pool) i =
  option_map (fun x => (n_dist x, if excl (n_id x) then None else mp (n_id x))) (nth_error pool i).
Proof. unfold make_cache. apply nth_error_map. Qed.

Lemma ids_nth pool P n p : nth_error P n = Some p ->
  nth_error (ids_of pool P) n = Some (n_id (nth p pool (mkNbr 0 0%N))).
Proof. intros H. unfold ids_of. rewrite nth_error_map, H. reflexivity. Qed.

Lemma nodup_pos pool i j x y : NoDup (map n_id pool) ->
  nth_error pool i = Some x -> nth_error pool j = Some y -> n_id x = n_id y -> i = j.
Proof.
  intros N Hi Hj E. rewrite NoDup_nth_error in N. apply N.
  - rewrite map_length. eapply nth_error_lt; eauto.
  - rewrite !nth_error_map, Hi, Hj. cbn. congruence.
Qed.

Lemma nth_of (pool : list nbr) p d : p < length pool -> exists x, nth_error pool p = Some x /\ nth p pool d = x.
Proof.
  intros H. destruct (nth_error pool p) as [x|] eqn:E.
  - exists x. split; [auto|]. now apply nth_error_nth.
  - apply nth_error_None in E. lia.
Qed.

Lemma NoDup_map_filter {A} (f : A -> nat) (g : A -> bool) l :
  NoDup (map f l) -> NoDup (map f (filter g l)).
Proof.
  induction l as [|y l IH]; cbn; intros H; [constructor|]. inv H.
  destruct (g y); cbn; auto. constructor; auto. intros Hi. apply H2.
  apply in_map_iff in Hi as (z & Ez & Hz). apply filter_In in Hz as [Hz _].
  rewrite <- Ez. now apply in_map.
Qed.

Section lists.
Context {V : Type}.
Variable ar : farith.
Variable dist : V -> V -> f32.
Variable debug : bool.
Variable k : idkind.
Variable cfg : prune_cfg.
Variable mp : nat -> option V.
Variable excl : nat -> bool.
Variable pool : list nbr.
Hypothesis Halpha : sane_alpha (c_alpha cfg).
Hypothesis Hlen : (N.of_nat (length pool) <= 65535)%N.
Hypothesis Hids : NoDup (map n_id pool).

Notation cache := (make_cache mp excl pool).
Notation init := (repeat ps_default (length pool)).

Lemma cache_len : length cache = length pool.
Proof. apply map_length. Qed.

Lemma good_pos_spec p : good_pos cache p <->
  exists x v, nth_error pool p = Some x /\ excl (n_id x) = false /\ mp (n_id x) = Some v.
Proof.
  unfold good_pos. rewrite make_cache_nth. split.
  - intros (d & w & E). destruct (nth_error pool p) as [x|]; [|discriminate].
    cbn in E. destruct (excl (n_id x)) eqn:X; [discriminate|]. exists x, w.
    inv E. auto.
  - intros (x & v & E & X & M). rewrite E. cbn. rewrite X, M. eauto.
Qed.

(** The result before saturation. *)
Definition pruned (fuel : nat) : outcome (list nat) :=
  match robust_prune ar dist (c_kind cfg) cache fuel (c_alpha cfg) (c_degree cfg) init with
  | Done r => Done (ids_of pool (kept r))
  | Panic => Panic
  | OutOfFuel => OutOfFuel
  end.

Definition sat_on (force : bool) := force || (c_saturate cfg && f32_gt (c_alpha cfg) f32_one).

Lemma good_ids P : NoDup P -> Forall (good_pos cache) P ->
  NoDup (ids_of pool P) /\
  Forall (fun id => In id (map n_id pool) /\ excl id = false /\ exists v, mp id = Some v)
    (ids_of pool P).
Proof.
  intros N G. split.
  - unfold ids_of. apply NoDup_map_inj; auto.
    intros p q Hp Hq E. rewrite Forall_forall in G.
    apply G, good_pos_spec in Hp as (x & ? & Ex & _ & _).
    apply G, good_pos_spec in Hq as (y & ? & Ey & _ & _).
    rewrite (nth_error_nth _ _ _ Ex), (nth_error_nth _ _ _ Ey) in E.
    eapply nodup_pos; eauto.
  - apply Forall_forall. intros id H. apply in_map_iff in H as (p & <- & Hp).
    rewrite Forall_forall in G. apply G, good_pos_spec in Hp as (x & v & Ex & X & M).
    rewrite (nth_error_nth _ _ _ Ex). split; [|eauto].
    apply in_map. eapply nth_error_In; eauto.
Qed.

Lemma saturate_spec : forall l a, NoDup a -> length a <= c_degree cfg ->
  exists a', saturate k (c_degree cfg) excl l a = Some a' /\
    NoDup a' /\ length a' <= c_degree cfg /\ (exists e, a' = a ++ e) /\
    (forall x, In x a' -> In x a \/ (In x (map n_id l) /\ excl x = false)) /\
    (length a' < c_degree cfg -> forall x, In x l -> excl (n_id x) = false -> In (n_id x) a').
Proof.
  induction l as [|x l IH]; intros a N L; cbn [saturate].
  - exists a. split; [auto|]. split; [auto|]. split; [auto|].
    split; [exists []; now rewrite app_nil_r|]. split; [auto|]. intros _ y [].
  - destruct (Nat.leb_spec (c_degree cfg) (length a)) as [Le|Lt].
    { exists a. split; [auto|]. split; [auto|]. split; [auto|].
      split; [exists []; now rewrite app_nil_r|]. split; [auto|]. lia. }
    destruct (excl (n_id x)) eqn:X; cbn [negb].
    + destruct (IH a N L) as (a' & E & N' & L' & P' & I' & F').
      exists a'. repeat (split; [assumption|]). split.
      * intros y Hy. apply I' in Hy. cbn [map In]. tauto.
      * intros Hl y [<-|Hy] Hx; [congruence|auto].
    + rewrite push_mem. destruct (mem a (n_id x)) eqn:M.
      * destruct (IH a N L) as (a' & E & N' & L' & (e & P') & I' & F').
        exists a'. split; [exact E|]. split; [auto|]. split; [auto|]. split; [eauto|]. split.
        -- intros y Hy. apply I' in Hy. cbn [map In]. tauto.
        -- intros Hl y [<-|Hy] Hx; [|auto]. rewrite P'. apply in_or_app. left. now apply mem_spec.
      * apply mem_false in M. destruct (IH (a ++ [n_id x])) as (a' & E & N' & L' & (e & P') & I' & F').
        { now apply NoDup_snoc. }
        { rewrite app_length. cbn. lia. }
        exists a'. split; [exact E|]. split; [auto|]. split; [auto|].
        split; [exists (n_id x :: e); rewrite P', <- app_assoc; reflexivity|]. split.
        -- intros y Hy. apply I' in Hy. rewrite in_app_iff in Hy. cbn [map In] in *.
           destruct Hy as [[?|[<-|[]]]|[? ?]]; auto.
        -- intros Hl y [<-|Hy] Hx; [|auto]. rewrite P'. apply in_or_app. left.
           apply in_or_app. cbn. auto.
Qed.

(** What [occlude_list] computes, for a non-empty pool. *)
Lemma occlude_eq fuel force old : pool <> [] ->
  match pruned fuel with
  | Done l => length l <= c_degree cfg /\ NoDup l /\
      Forall (fun id => In id (map n_id pool) /\ excl id = false /\ exists v, mp id = Some v) l /\
      occlude_list ar dist debug k fuel cfg force mp excl pool old =
        if sat_on force
        then match saturate k (c_degree cfg) excl pool l with
             | Some r => Done r
             | None => Panic
             end
        else Done l
  | Panic => False
  | OutOfFuel => occlude_list ar dist debug k fuel cfg force mp excl pool old = OutOfFuel
  end.
Proof.
  intros Ne. unfold pruned, occlude_list.
  assert (E65 : (65535 <? N.of_nat (length pool))%N = false) by lia.
  rewrite E65.
  assert (HlenC : (N.of_nat (length cache) <= 65535)%N) by (rewrite cache_len; auto).
  pose proof (prune_spec ar dist (c_kind cfg) cache (c_alpha cfg) Halpha HlenC fuel (c_degree cfg)) as S.
  rewrite cache_len in S.
  destruct (robust_prune ar dist (c_kind cfg) cache fuel (c_alpha cfg) (c_degree cfg) init)
    as [[states found]| |] eqn:E; [|contradiction|].
  2:{ destruct pool; [congruence|reflexivity]. }
  destruct S as (As & I & Ld & _). cbn [fst snd] in *. destruct I as [I1 I2 I3 I4 I5 I6].
  assert (Lr : length (adj_resize old found) = found) by apply resize_length.
  assert (Fp : Forall (fun p => p < length pool) (map s_nb (firstn found states))).
  { eapply Forall_impl; [|exact I4]. intros p Hp. apply good_pos_spec in Hp as (x & v & Ex & _).
    eapply nth_error_lt; eauto. }
  destruct (good_ids (map s_nb (firstn found states)) I3 I4) as [Nd Gd].
  assert (Lk : length (ids_of pool (map s_nb (firstn found states))) = found).
  { unfold ids_of. rewrite !map_length, firstn_length. lia. }
  unfold kept. cbn [fst snd].
  split; [rewrite Lk; auto|]. split; [auto|]. split; [auto|].
  destruct pool as [|x0 pool0] eqn:Ep; [congruence|]. rewrite <- Ep in *.
  rewrite zip_write_spec by (rewrite Lr; auto). rewrite Lr.
  unfold guard_finish, adj_truncate. rewrite firstn_all2 by lia.
  rewrite debug_check_ok by auto. unfold sat_on.
  destruct (force || c_saturate cfg && f32_gt (c_alpha cfg) f32_one); reflexivity.
Qed.

Lemma filter_In_length (P : nat -> bool) (l l' : list nat) : NoDup l -> NoDup l' ->
  (forall x, In x l <-> In x l') -> length l = length l'.
Proof.
  intros N N' H. apply Nat.le_antisymm; apply NoDup_incl_length; auto; intros x; apply H.
Qed.

Lemma occlude_bounds fuel force old :
  match occlude_list ar dist debug k fuel cfg force mp excl pool old with
  | Done l => length l <= c_degree cfg /\ NoDup l /\
      (forall id, In id l -> In id (map n_id pool) /\ excl id = false) /\
      (sat_on force = false -> forall id, In id l -> exists v, mp id = Some v) /\
      (sat_on force = true ->
         length l = Nat.min (c_degree cfg) (length (filter (fun x => negb (excl (n_id x))) pool)))
  | Panic => False
  | OutOfFuel => True
  end.
Proof.
  destruct (list_eq_dec (fun x y : nbr => ltac:(decide equality; [apply N.eq_dec|apply Nat.eq_dec])) pool [])
    as [E|Ne].
  { rewrite E. cbn. split; [lia|]. split; [constructor|]. split; [intros ? []|].
    split; [intros _ ? []|]. intros _. lia. }
  pose proof (occlude_eq fuel force old Ne) as O.
  destruct (pruned fuel) as [l| |]; [|contradiction|now rewrite O].
  destruct O as (Ll & Nl & Gl & ->). rewrite Forall_forall in Gl.
  destruct (sat_on force).
  - destruct (saturate_spec pool l Nl Ll) as (r & E & Nr & Lr & (e & Er) & Ir & Fr). rewrite E.
    assert (Ii : forall id, In id r -> In id (map n_id pool) /\ excl id = false).
    { intros id H. apply Ir in H as [H|H]; auto. apply Gl in H. tauto. }
    split; [auto|]. split; [auto|]. split; [exact Ii|]. split; [discriminate|]. intros _.
    set (F := filter (fun x => negb (excl (n_id x))) pool).
    assert (NF : NoDup (map n_id F)).
    { now apply NoDup_map_filter. }
    assert (Sub : incl r (map n_id F)).
    { intros id H. apply Ii in H as [H1 H2]. apply in_map_iff in H1 as (x & <- & Hx).
      apply in_map. apply filter_In. now rewrite H2. }
    assert (L1 : length r <= length F).
    { rewrite <- (map_length n_id F). now apply NoDup_incl_length. }
    destruct (Nat.eq_dec (length r) (c_degree cfg)) as [|Nq]; [lia|].
    assert (L2 : length F <= length r).
    { rewrite <- (map_length n_id F). apply NoDup_incl_length; auto. intros id H.
      apply in_map_iff in H as (x & <- & Hx). apply filter_In in Hx as [Hx1 Hx2].
      apply Fr; auto; [lia|]. now destruct (excl (n_id x)). }
    lia.
  - split; [auto|]. split; [auto|]. split; [intros id H; apply Gl in H; tauto|].
    split; [|discriminate]. intros _ id H. now apply Gl in H.
Qed.

Lemma occlude_terminates force old : mul_grows ar (c_alpha cfg) ->
  exists fuel, forall fuel', fuel <= fuel' -> exists l,
    occlude_list ar dist debug k fuel' cfg force mp excl pool old = Done l.
Proof.
  intros Hg. assert (Hn : is_nan (c_alpha cfg) = false).
  { unfold sane_alpha in Halpha. now apply f32_lt_spec in Halpha. }
  destruct (rounds_terminate ar dist (c_kind cfg) cache (c_alpha cfg) (c_degree cfg) Hn Hg) as (fuel & H).
  exists fuel. intros fuel' Lf. specialize (H fuel' init 0 Lf).
  pose proof (occlude_bounds fuel' force old) as B.
  destruct (occlude_list ar dist debug k fuel' cfg force mp excl pool old) as [l| |] eqn:E.
  - eauto.
  - contradiction.
  - exfalso. apply H. clear H B. unfold occlude_list in E. 
    destruct (65535 <? N.of_nat (length pool))%N; [discriminate|].
    destruct pool as [|x0 p0] eqn:Ep; [discriminate|]. rewrite <- Ep in *.
    unfold robust_prune in E.
    destruct (rounds ar dist (c_kind cfg) cache fuel' (c_alpha cfg) f32_one (c_degree cfg) init 0)
      as [[st f]| |]; try discriminate; [|reflexivity].
    destruct (zip_write _ _ _); [|discriminate]. destruct (guard_finish _ _ _ _); [|discriminate].
    destruct (_ || _); [|discriminate]. destruct (saturate _ _ _ _ _); discriminate.
Qed.

(** Everything about the order of a non-saturated result. *)
Lemma occlude_alpha fuel force old l : sat_on force = false ->
  occlude_list ar dist debug k fuel cfg force mp excl pool old = Done l ->
  (c_kind cfg = TriangleInequality ->
   exists As, length As = length l /\ Forall (scale ar (c_alpha cfg)) As /\
   forall n m x y v w a, nth_error l n = Some (n_id x) -> nth_error l m = Some (n_id y) ->
     m < n -> nth_error As n = Some a -> before pool y x ->
     mp (n_id x) = Some v -> mp (n_id y) = Some w -> ~ occluded ar dist a (n_dist x) v w) /\
  (f32_le f32_zero (c_alpha cfg) = true -> length l < c_degree cfg ->
   forall x v, In x pool -> excl (n_id x) = false -> mp (n_id x) = Some v -> ~ In (n_id x) l ->
   exists y w, In (n_id y) l /\ before pool y x /\ mp (n_id y) = Some w /\
     match c_kind cfg with
     | TriangleInequality => occluded ar dist (c_alpha cfg) (n_dist x) v w
     | Occluding => exists a, scale ar (c_alpha cfg) a /\ occluded_ip ar dist a (n_dist x) v w /\
                    f32_gt (fadd ar a f32_0_01) (c_alpha cfg) = true
     end).
Proof.
  intros Sf E.
  destruct (list_eq_dec (fun x y : nbr => ltac:(decide equality; [apply N.eq_dec|apply Nat.eq_dec])) pool [])
    as [E0|Ne].
  { rewrite E0 in *. cbn in E. inv E. split.
    - intros _. exists []. split; [reflexivity|]. split; [constructor|]. intros [|n]; discriminate.
    - intros _ _ x v []. }
  pose proof (occlude_eq fuel force old Ne) as O. unfold pruned in O.
  assert (HlenC : (N.of_nat (length cache) <= 65535)%N) by (rewrite cache_len; auto).
  pose proof (prune_spec ar dist (c_kind cfg) cache (c_alpha cfg) Halpha HlenC fuel (c_degree cfg)) as S.
  rewrite cache_len in S.
  destruct (robust_prune ar dist (c_kind cfg) cache fuel (c_alpha cfg) (c_degree cfg) init)
    as [[states found]| |]; [|contradiction|congruence].
  destruct O as (Ll & Nl & Gl & Eq). rewrite Sf in Eq. rewrite Eq in E. inv E. clear Eq.
  destruct S as (As & I & Ld & Dn). cbn [fst snd] in *.
  pose proof I as I0. destruct I as [I1 I2 I3 I4 I5 I6].
  assert (Lk : length (kept (states, found)) = found) by (unfold kept; cbn [fst snd]; rewrite map_length, firstn_length; lia).
  set (P := kept (states, found)) in *. change (map s_nb (firstn found states)) with P in *.
  assert (Dn' : found < c_degree cfg -> forall j d v, j < length cache ->
     nth_error cache j = Some (d, Some v) -> ~ In j P ->
     exists st, nth_error states j = Some st /\ f32_gt (s_occ st) (c_alpha cfg) = true) by exact Dn.
  clear Dn I0. clearbody P.
  assert (Gp : forall p, In p P -> exists x v, nth_error pool p = Some x /\
            excl (n_id x) = false /\ mp (n_id x) = Some v).
  { intros p Hp. apply good_pos_spec. rewrite Forall_forall in I4. auto. }
  assert (Pos : forall n x i, nth_error (ids_of pool P) n = Some (n_id x) ->
            nth_error pool i = Some x -> nth_error P n = Some i).
  { intros n x i Hn Hi. unfold ids_of in Hn. rewrite nth_error_map in Hn.
    destruct (nth_error P n) as [p|] eqn:Ep; [|discriminate]. cbn in Hn.
    destruct (Gp p) as (x' & v' & Ex' & _). { eapply nth_error_In; eauto. }
    rewrite (nth_error_nth _ _ _ Ex') in Hn. inv Hn. f_equal. eapply nodup_pos; eauto. }
  assert (Cn : forall i x v, nth_error pool i = Some x -> excl (n_id x) = false ->
            mp (n_id x) = Some v -> nth_error cache i = Some (n_dist x, Some v)).
  { intros i x v Ei X M. rewrite make_cache_nth, Ei. cbn. now rewrite X, M. }
  split.
  - intros K. destruct I6 as (K1 & K2 & K3). exists As.
    split; [unfold ids_of; now rewrite map_length|]. split; [auto|].
    intros n m x y v w a Hn Hm Lmn Ha (j & i & Lji & Ej & Ei) Mx My Oc.
    assert (Pn := Pos _ _ _ Hn Ei). assert (Pm := Pos _ _ _ Hm Ej).
    destruct (Gp i) as (x' & ? & Ex' & Xx & _). { eapply nth_error_In; eauto. }
    rewrite Ei in Ex'. inv Ex'.
    destruct (Gp j) as (y' & ? & Ey' & Xy & _). { eapply nth_error_In; eauto. }
    rewrite Ej in Ey'. inv Ey'.
    assert (X := K3 K n m i j a _ _ _ _ Pn Ha Lmn Pm Lji (Cn _ _ _ Ei Xx Mx) (Cn _ _ _ Ej Xy My)).
    unfold occluded in Oc. congruence.
  - intros A0 Lt x v Hx X M Nx. apply In_nth_error in Hx as (i & Ei).
    assert (Ec := Cn _ _ _ Ei X M).
    assert (Ni : ~ In i P).
    { intros H. apply Nx. unfold ids_of. apply in_map_iff. exists i. split; [|auto].
      now rewrite (nth_error_nth _ _ _ Ei). }
    assert (Lf : found < c_degree cfg).
    { unfold ids_of in Lt. rewrite map_length, Lk in Lt. exact Lt. }
    destruct (Dn' Lf i (n_dist x) v) as (st & Es & G).
    { rewrite cache_len. eapply nth_error_lt; eauto. }
    { auto. } { auto. }
    destruct (I5 i st _ _ Es Ec) as [[? _]|(_ & _ & C1 & _)]; [contradiction|].
    destruct C1 as [E0|(n & p & d & w & Hn & Hp & Lpi & Ew & Cz)].
    { exfalso. rewrite E0 in G. apply f32_le_spec in A0 as (? & ? & ?).
      apply f32_lt_spec in G as (? & ? & ?). lia. }
    destruct (Gp p) as (y & w' & Ey & Xy & My). { eapply nth_error_In; eauto. }
    rewrite (Cn _ _ _ Ey Xy My) in Ew. inv Ew.
    exists y, w. split.
    { unfold ids_of. apply in_map_iff. exists p. split; [now rewrite (nth_error_nth _ _ _ Ey)|].
      eapply nth_error_In; eauto. }
    split; [exists p, i; auto|]. split; [auto|].
    unfold cause in Cz. destruct (c_kind cfg).
    + unfold occluded. now rewrite <- Cz.
    + destruct Cz as (a & Sa & Oa & Ea). exists a. rewrite <- Ea. auto.
Qed.

(** The non-saturated result is the textbook algorithm's result. *)
Lemma occlude_ref fuel force old : sat_on force = false ->
  c_kind cfg = TriangleInequality -> mul_nonneg ar -> f32_le f32_zero (c_alpha cfg) = true ->
  pool <> [] ->
  occlude_list ar dist debug k fuel cfg force mp excl pool old =
  match reference_prune ar dist cache fuel (c_alpha cfg) (c_degree cfg) with
  | Some P => Done (ids_of pool P)
  | None => OutOfFuel
  end.
Proof.
  intros Sf K Mn A0 Ne. pose proof (occlude_eq fuel force old Ne) as O. unfold pruned in O.
  assert (HlenC : (N.of_nat (length cache) <= 65535)%N) by (rewrite cache_len; auto).
  pose proof (prune_ref ar dist (c_kind cfg) cache (c_alpha cfg) Halpha HlenC K Mn A0 fuel (c_degree cfg)) as S.
  rewrite cache_len in S.
  destruct (robust_prune ar dist (c_kind cfg) cache fuel (c_alpha cfg) (c_degree cfg) init)
    as [r| |]; [|contradiction|].
  - destruct O as (_ & _ & _ & ->). now rewrite Sf, S.
  - now rewrite O, S.
Qed.
End lists.
