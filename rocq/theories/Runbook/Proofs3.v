(** The bookkeeping of slots. *)
From Coq Require Import String ZArith List PeanoNat Bool Lia Arith Permutation.
From Verif.Runbook Require Import Model Spec Proofs Proofs2.
Import ListNotations.
Local Open Scope nat_scope.
Local Open Scope list_scope.

Record J (N : nat) (E D : list nat) (sl tg : nat -> option nat) (c : nat -> cell) (C : nat -> option nat) : Prop := mkJ {
  j_nodup : NoDup E;
  j_empty : forall s, In s E -> tg s = None;
  j_both : forall x s, sl x = Some s <-> tg s = Some x;
  j_live : forall s x, tg s = Some x -> ~ In s D -> exists v, c s = Held v /\ C x = Some v;
  j_dead : forall s x, tg s = Some x -> In s D -> c s = Dead /\ C x = None;
  j_slot : forall x v, C x = Some v -> exists s, sl x = Some s;
  j_free : forall s, tg s = None -> c s = Free;
  j_del : NoDup D /\ forall s, In s D -> exists x, tg s = Some x;
  j_count : exists K, NoDup K /\ (forall x, In x K <-> sl x <> None) /\ length K + length E = N
}.
Lemma J_ext N E D sl tg c C c' C' : (forall s, c s = c' s) -> (forall x, C x = C' x) -> J N E D sl tg c C -> J N E D sl tg c' C'.
Proof.
  intros Hc HC [A1 A2 A3 A4 A5 A6 A7 A8 A9]. constructor; try assumption.
  - intros s x T I. rewrite <- Hc, <- HC. now apply A4.
  - intros s x T I. rewrite <- Hc, <- HC. now apply A5.
  - intros x v. rewrite <- HC. apply A6.
  - intros s. rewrite <- Hc. apply A7.
Qed.
Lemma set_same {A} (f : nat -> option A) k v : set f k v k = v.
Proof. unfold set. now rewrite Nat.eqb_refl. Qed.
Lemma set_other {A} (f : nat -> option A) k v x : x <> k -> set f k v x = f x.
Proof. intros H. unfold set. now apply Nat.eqb_neq in H as ->. Qed.
Lemma put_same c k v : put c k v k = v.
Proof. unfold put. now rewrite Nat.eqb_refl. Qed.
Lemma put_other c k v x : x <> k -> put c k v x = c x.
Proof. intros H. unfold put. now apply Nat.eqb_neq in H as ->. Qed.

Lemma J_insert N s E D sl tg c C x v : J N (s :: E) D sl tg c C -> sl x = None ->
  J N E D (set sl x (Some s)) (set tg s (Some x)) (put c s (Held v)) (set C x (Some v)).
Proof.
  intros [A1 A2 A3 A4 A5 A6 A7 [A8 A8'] (K & K1 & K2 & K3)] HX. assert (TS : tg s = None) by (apply A2; now left). apply NoDup_cons_iff in A1 as [NE A1]. assert (ND : ~ In s D) by (intros I; destruct (A8' s I) as (y & Y); congruence).
  assert (SX : forall y, tg y <> Some x) by (intros y Y; apply A3 in Y; congruence). assert (SS : forall y, sl y <> Some s) by (intros y Y; apply A3 in Y; congruence).
  assert (CX : C x = None). { destruct (C x) as [w|] eqn:EC; [|reflexivity]. destruct (A6 x w EC). congruence. }
  constructor.
  - exact A1.
  - intros y Y. rewrite set_other; [apply A2; now right|]. intros ->. exact (NE Y).
  - intros y u. destruct (Nat.eq_dec y x) as [->|Hy].
    + rewrite set_same. destruct (Nat.eq_dec u s) as [->|Hu]; [rewrite set_same; tauto|]. rewrite (set_other tg) by exact Hu. split; [congruence|]. intros Y. elim (SX u Y).
    + rewrite set_other by exact Hy. destruct (Nat.eq_dec u s) as [->|Hu]; [rewrite set_same; split; [intros Y; elim (SS y Y)|congruence]|]. rewrite set_other by exact Hu. apply A3.
  - intros u y T I. destruct (Nat.eq_dec u s) as [->|Hu].
    + rewrite set_same in T. injection T as <-. exists v. now rewrite put_same, set_same.
    + rewrite set_other in T by exact Hu. rewrite put_other by exact Hu. rewrite set_other; [now apply A4|]. intros ->. exact (SX u T).
  - intros u y T I. assert (Hu : u <> s) by congruence. rewrite set_other in T by exact Hu. rewrite put_other by exact Hu. rewrite set_other; [now apply A5|]. intros ->. exact (SX u T).
  - intros y w EC. destruct (Nat.eq_dec y x) as [->|Hy]; [exists s; apply set_same|]. rewrite set_other in EC by exact Hy. rewrite set_other by exact Hy. now apply (A6 y w).
  - intros u T. destruct (Nat.eq_dec u s) as [->|Hu]; [rewrite set_same in T; discriminate|]. rewrite set_other in T by exact Hu. rewrite put_other by exact Hu. now apply A7.
  - split; [exact A8|]. intros u U. rewrite set_other by congruence. now apply A8'.
  - exists (x :: K). split; [constructor; [rewrite K2; congruence|exact K1]|]. split; [|cbn in K3 |- *; lia]. intros y. cbn [In]. rewrite K2. destruct (Nat.eq_dec y x) as [->|Hy]; [rewrite set_same; intuition congruence|]. rewrite set_other by exact Hy. intuition congruence.
Qed.
Lemma J_replace N E D sl tg c C x s v : J N E D sl tg c C -> sl x = Some s -> C x <> None -> J N E D sl tg (put c s (Held v)) (set C x (Some v)).
Proof.
  intros [A1 A2 A3 A4 A5 A6 A7 [A8 A8'] A9] HX HC. pose proof (proj1 (A3 x s) HX) as TS. assert (ND : ~ In s D) by (intros I; destruct (A5 s x TS I); congruence). constructor; try assumption.
  - intros u y T I. destruct (Nat.eq_dec u s) as [->|Hu]; [rewrite TS in T; injection T as <-; exists v; now rewrite put_same, set_same|]. rewrite put_other by exact Hu. rewrite set_other; [now apply A4|]. intros ->. apply A3 in T. congruence.
  - intros u y T I. assert (Hu : u <> s) by congruence. rewrite put_other by exact Hu. rewrite set_other; [now apply A5|]. intros ->. apply A3 in T. congruence.
  - intros y w EC. destruct (Nat.eq_dec y x) as [->|Hy]; [now exists s|]. rewrite set_other in EC by exact Hy. now apply (A6 y w).
  - intros u T. rewrite put_other by congruence. now apply A7.
  - now split.
Qed.
(** A slot goes back to the free ones. *)
Lemma J_recycle N E D D' sl tg c C x s : J N E D sl tg c C -> sl x = Some s -> (forall y, In y D <-> y = s \/ In y D') \/ (~ In s D /\ forall y, In y D <-> In y D') -> NoDup D' -> ~ In s D' ->
  J N (E ++ [s]) D' (set sl x None) (set tg s None) (put c s Free) (set C x None).
Proof.
  intros [A1 A2 A3 A4 A5 A6 A7 [A8 A8'] (K & K1 & K2 & K3)] HX HD ND NS. pose proof (proj1 (A3 x s) HX) as TS. assert (NE : ~ In s E) by (intros I; specialize (A2 s I); congruence).
  assert (DD : forall y, y <> s -> In y D <-> In y D') by (intros y Y; destruct HD as [HD|[_ HD]]; rewrite HD; tauto).
  constructor.
  - apply (Permutation_NoDup (Permutation_cons_append E s)). now constructor.
  - intros y Y. apply in_app_iff in Y as [Y|[<-|[]]]; [|apply set_same]. rewrite set_other; [now apply A2|]. intros ->. exact (NE Y).
  - intros y u. destruct (Nat.eq_dec y x) as [->|Hy].
    + rewrite set_same. destruct (Nat.eq_dec u s) as [->|Hu]; [rewrite set_same; split; discriminate|]. rewrite set_other by exact Hu. split; [discriminate|]. intros Y. apply A3 in Y. congruence.
    + rewrite set_other by exact Hy. destruct (Nat.eq_dec u s) as [->|Hu]; [rewrite set_same; split; [|discriminate]; intros Y; apply A3 in Y; congruence|]. rewrite set_other by exact Hu. apply A3.
  - intros u y T I. destruct (Nat.eq_dec u s) as [->|Hu]; [rewrite set_same in T; discriminate|]. rewrite set_other in T by exact Hu. rewrite put_other by exact Hu. rewrite set_other; [apply A4; [exact T|now rewrite DD]|]. intros ->. apply A3 in T. congruence.
  - intros u y T I. destruct (Nat.eq_dec u s) as [->|Hu]; [rewrite set_same in T; discriminate|]. rewrite set_other in T by exact Hu. rewrite put_other by exact Hu. rewrite set_other; [apply A5; [exact T|now rewrite DD]|]. intros ->. apply A3 in T. congruence.
  - intros y w EC. destruct (Nat.eq_dec y x) as [->|Hy]; [rewrite set_same in EC; discriminate|]. rewrite set_other in EC by exact Hy. rewrite set_other by exact Hy. now apply (A6 y w).
  - intros u T. destruct (Nat.eq_dec u s) as [->|Hu]; [apply put_same|]. rewrite set_other in T by exact Hu. rewrite put_other by exact Hu. now apply A7.
  - split; [exact ND|]. intros u U. assert (Hu : u <> s) by congruence. rewrite set_other by exact Hu. apply A8'. now apply DD.
  - assert (IX : In x K) by (apply K2; congruence). apply in_split in IX as (K' & K'' & ->). exists (K' ++ K''). split; [now apply NoDup_remove_1 in K1|]. split.
    + intros y. pose proof (NoDup_remove_2 _ _ _ K1) as NX. destruct (Nat.eq_dec y x) as [->|Hy]; [rewrite set_same; split; [intros Y; elim (NX Y)|congruence]|]. rewrite set_other by exact Hy. rewrite <- K2, !in_app_iff. cbn [In]. intuition congruence.
    + rewrite !app_length in *. cbn [length] in *. lia.
Qed.
Lemma J_mark N E D sl tg c C x s : J N E D sl tg c C -> sl x = Some s -> C x <> None -> ~ In s D /\ J N E (D ++ [s]) sl tg (put c s Dead) (set C x None).
Proof.
  intros [A1 A2 A3 A4 A5 A6 A7 [A8 A8'] A9] HX HC. pose proof (proj1 (A3 x s) HX) as TS. assert (ND : ~ In s D) by (intros I; destruct (A5 s x TS I); congruence). split; [exact ND|]. constructor; try assumption.
  - intros u y T I. rewrite in_app_iff in I. cbn in I. assert (Hu : u <> s) by (intros ->; tauto). rewrite put_other by exact Hu. rewrite set_other; [apply A4; tauto|]. intros ->. apply A3 in T. congruence.
  - intros u y T I. destruct (Nat.eq_dec u s) as [->|Hu]; [rewrite TS in T; injection T as <-; now rewrite put_same, set_same|]. apply in_app_iff in I as [I|[I|[]]]; [|congruence]. rewrite put_other by exact Hu. rewrite set_other; [now apply A5|]. intros ->. apply A3 in T. congruence.
  - intros y w EC. destruct (Nat.eq_dec y x) as [->|Hy]; [rewrite set_same in EC; discriminate|]. rewrite set_other in EC by exact Hy. now apply (A6 y w).
  - intros u T. rewrite put_other by congruence. now apply A7.
  - split; [apply (Permutation_NoDup (Permutation_cons_append D s)); now constructor|]. intros u U. apply in_app_iff in U as [U|[<-|[]]]; [now apply A8'|now exists x].
Qed.
(** ** Whole requests *)
Notation fill c slots data := (fold_left (fun c p => put c (fst p) (Held (snd p))) (combine slots data) c).
Notation wipe c slots x := (fold_left (fun c s => put c s x) slots c).
Notation setall C tags vs := (fold_left (fun C p => set C (fst p) (Some (snd p))) (combine tags vs) C).
Notation setnone C tags := (fold_left (fun C x => set C x None) tags C).

Lemma insert_all N : forall tags slots vs E D t c C, length slots = length tags -> length vs = length tags -> NoDup tags -> (forall x, In x tags -> t_slot t x = None) ->
  J N (slots ++ E) D (t_slot t) (t_tag t) c C ->
  let t' := fold_left assign1 (combine tags slots) t in
  J N E D (t_slot t') (t_tag t') (fill c slots vs) (setall C tags vs) /\ t_empty t' = t_empty t /\ t_deleted t' = t_deleted t /\ (forall x, t_slot t' x <> None -> In x tags \/ t_slot t x <> None).
Proof.
  induction tags as [|x tags IH]; intros [|s slots] [|v vs] E D t c C L1 L2 ND HS HJ; try discriminate; cbn [combine fold_left fst snd].
  - cbn [app] in HJ. split; [exact HJ|]. split; [reflexivity|]. split; [reflexivity|]. intros x H. now right.
  - apply NoDup_cons_iff in ND as [NX ND]. cbn [app] in HJ. pose proof (J_insert N s _ D _ _ c C x v HJ (HS x (or_introl eq_refl))) as HJ'.
    destruct (IH slots vs E D (assign1 t (x, s)) (put c s (Held v)) (set C x (Some v))) as (R1 & R2 & R3 & R4).
    + cbn in L1. lia.
    + cbn in L2. lia.
    + exact ND.
    + intros y Y. cbn [assign1 t_slot fst snd]. rewrite set_other; [apply HS; now right|]. intros ->. exact (NX Y).
    + exact HJ'.
    + split; [exact R1|]. split; [exact R2|]. split; [exact R3|]. intros y H. destruct (R4 y H) as [Y|Y]; [left; now right|]. cbn [assign1 t_slot fst] in Y. destruct (Nat.eq_dec y x) as [->|Hy]; [left; now left|]. rewrite set_other in Y by exact Hy. now right.
Qed.
Lemma find_slots_ok N E D t c C : J N E D (t_slot t) (t_tag t) c C -> forall tags, NoDup tags -> (forall x, In x tags -> C x <> None) ->
  exists slots, find_slots t tags = Done slots /\ Forall2 (fun x s => t_slot t x = Some s /\ exists v, C x = Some v /\ c s = Held v) tags slots /\ NoDup slots.
Proof.
  intros HJ. induction tags as [|x tags IH]; intros ND HC; cbn [find_slots]; [exists []; repeat split; constructor|]. apply NoDup_cons_iff in ND as [NX ND]. destruct (IH ND) as (slots & E1 & E2 & E3); [intros y Y; apply HC; now right|].
  destruct (C x) as [v|] eqn:EC; [|elim (HC x (or_introl eq_refl) EC)]. destruct (j_slot _ _ _ _ _ _ _ HJ x v EC) as (s & S). rewrite S, E1. cbn [bind]. exists (s :: slots). split; [reflexivity|]. split.
  - constructor; [|exact E2]. split; [exact S|]. exists v. split; [exact EC|]. apply (j_both _ _ _ _ _ _ _ HJ) in S. destruct (in_dec Nat.eq_dec s D) as [I|I]; [destruct (j_dead _ _ _ _ _ _ _ HJ s x S I); congruence|]. destruct (j_live _ _ _ _ _ _ _ HJ s x S I) as (w & W1 & W2). congruence.
  - constructor; [|exact E3]. intros I. clear -I E2 S NX HJ. induction E2 as [|y u tags slots [Y _] _ IH]; [elim I|]. destruct I as [->|I]; [|apply IH; [intros H; apply NX; now right|exact I]]. apply NX. left. apply (j_both _ _ _ _ _ _ _ HJ) in S, Y. congruence.
Qed.
Lemma replace_all N E D t : forall tags slots vs c C, length vs = length tags -> NoDup tags -> Forall2 (fun x s => t_slot t x = Some s) tags slots -> (forall x, In x tags -> C x <> None) ->
  J N E D (t_slot t) (t_tag t) c C -> J N E D (t_slot t) (t_tag t) (fill c slots vs) (setall C tags vs).
Proof.
  induction tags as [|x tags IH]; intros slots vs c C L ND HS HC HJ; inversion HS as [|? s ? slots' S HS']; subst; destruct vs as [|v vs]; try discriminate; cbn [combine fold_left fst snd]; [exact HJ|].
  apply NoDup_cons_iff in ND as [NX ND]. apply IH; [cbn in L; lia|exact ND|exact HS'| |].
  - intros y Y. rewrite set_other; [apply HC; now right|]. intros ->. exact (NX Y).
  - apply J_replace; [exact HJ|exact S|apply HC; now left].
Qed.
Lemma recycle_all N : forall tags slots t c C, NoDup tags -> Forall2 (fun x s => t_slot t x = Some s) tags slots -> J N (t_empty t) [] (t_slot t) (t_tag t) c C ->
  exists t', recycle t tags = Done t' /\ J N (t_empty t') [] (t_slot t') (t_tag t') (wipe c slots Free) (setnone C tags) /\ t_deleted t' = t_deleted t /\ (forall x, t_slot t' x <> None -> t_slot t x <> None).
Proof.
  induction tags as [|x tags IH]; intros slots t c C ND HS HJ; inversion HS as [|? s ? slots' S HS']; subst; cbn [recycle fold_left]; [exists t; split; [reflexivity|]; split; [exact HJ|]; split; [reflexivity|auto]|].
  apply NoDup_cons_iff in ND as [NX ND]. rewrite S.
  pose proof (J_recycle N _ [] [] _ _ c C x s HJ S (or_intror (conj (in_nil (a := s)) (fun y => iff_refl _))) (NoDup_nil _) (in_nil (a := s))) as HJ'.
  edestruct (IH slots' (mkT (t_empty t ++ [s]) (t_deleted t) (set (t_slot t) x None) (set (t_tag t) s None) (t_capacity t)) (put c s Free) (set C x None)) as (t' & E1 & E2 & E3 & E4); [exact ND| |exact HJ'|].
  - cbn [t_slot]. clear -HS' NX. induction HS' as [|y u tags slots Y _ IH]; constructor; [rewrite set_other; [exact Y|]; intros ->; apply NX; now left|apply IH; intros H; apply NX; now right].
  - exists t'. split; [exact E1|]. split; [exact E2|]. split; [exact E3|]. intros y H. specialize (E4 y H). cbn [t_slot] in E4. unfold set in E4. destruct (y =? x); [congruence|exact E4].
Qed.
Lemma mark_all N : forall tags slots t c C, NoDup tags -> Forall2 (fun x s => t_slot t x = Some s) tags slots -> (forall x, In x tags -> C x <> None) -> J N (t_empty t) (t_deleted t) (t_slot t) (t_tag t) c C ->
  exists t', mark_deleted t tags = Done t' /\ J N (t_empty t') (t_deleted t') (t_slot t') (t_tag t') (wipe c slots Dead) (setnone C tags) /\ (forall x, t_slot t' x <> None -> t_slot t x <> None).
Proof.
  induction tags as [|x tags IH]; intros slots t c C ND HS HC HJ; inversion HS as [|? s ? slots' S HS']; subst; cbn [mark_deleted fold_left]; [exists t; split; [reflexivity|]; split; [exact HJ|auto]|].
  apply NoDup_cons_iff in ND as [NX ND]. rewrite S. destruct (J_mark N _ _ _ _ c C x s HJ S (HC x (or_introl eq_refl))) as [NI HJ'].
  assert (EX : existsb (Nat.eqb s) (t_deleted t) = false). { destruct (existsb (Nat.eqb s) (t_deleted t)) eqn:X; [|reflexivity]. apply existsb_exists in X as (y & Y & Q). apply Nat.eqb_eq in Q. subst y. elim (NI Y). }
  rewrite EX. edestruct (IH slots' (mkT (t_empty t) (t_deleted t ++ [s]) (t_slot t) (t_tag t) (t_capacity t)) (put c s Dead) (set C x None)) as (t' & E1 & E2 & E4); [exact ND|exact HS'| |exact HJ'|].
  - intros y Y. rewrite set_other; [apply HC; now right|]. intros ->. exact (NX Y).
  - exists t'. split; [exact E1|]. split; [exact E2|exact E4].
Qed.
Lemma consolidate_all N : forall D t c C, t_deleted t = [] -> J N (t_empty t) D (t_slot t) (t_tag t) c C ->
  let t' := fold_left consolidate1 D t in J N (t_empty t') [] (t_slot t') (t_tag t') (wipe c D Free) C /\ t_deleted t' = [] /\ (forall x, t_slot t' x <> None -> t_slot t x <> None).
Proof.
  induction D as [|s D IH]; intros t c C TD HJ; cbn [fold_left]; [split; [exact HJ|]; split; [exact TD|auto]|]. destruct (j_del _ _ _ _ _ _ _ HJ) as [ND HD]. destruct (HD s (or_introl eq_refl)) as (x & X). apply NoDup_cons_iff in ND as [NS ND].
  pose proof (proj2 (j_both _ _ _ _ _ _ _ HJ x s) X) as SX. destruct (j_dead _ _ _ _ _ _ _ HJ s x X (or_introl eq_refl)) as [_ CX].
  assert (HD' : forall y, In y (s :: D) <-> y = s \/ In y D) by (intros y; cbn; intuition congruence).
  pose proof (J_recycle N _ (s :: D) D _ _ c C x s HJ SX (or_introl HD') ND NS) as HJ'.
  assert (HJ2 : J N (t_empty (consolidate1 t s)) D (t_slot (consolidate1 t s)) (t_tag (consolidate1 t s)) (put c s Free) C).
  { unfold consolidate1. rewrite X. cbn [t_empty t_slot t_tag]. eapply J_ext; [reflexivity| |exact HJ']. intros y. destruct (Nat.eq_dec y x) as [->|Hy]; [now rewrite set_same|now apply set_other]. }
  destruct (IH (consolidate1 t s) (put c s Free) C) as (E1 & E2 & E3); [exact TD|exact HJ2|]. split; [exact E1|]. split; [exact E2|]. intros y H. specialize (E3 y H). unfold consolidate1 in E3. rewrite X in E3. cbn [t_slot] in E3. unfold set in E3. destruct (y =? x); [congruence|exact E3].
Qed.
(** The folds, pointwise. *)
Lemma setall_seq o : forall n a C x, setall C (seq a n) (seq o n) x = if (a <=? x) && (x <? a + n) then Some (o + (x - a)) else C x.
Proof.
  intros n. revert o. induction n as [|n IH]; intros o a C x; cbn [seq combine fold_left fst snd].
  - destruct (Nat.leb_spec a x), (Nat.ltb_spec x (a + 0)); cbn [andb]; try reflexivity; lia.
  - rewrite IH. destruct (Nat.eq_dec x a) as [->|Hx].
    + destruct (Nat.leb_spec (S a) a); [lia|]. cbn [andb]. rewrite set_same. rewrite Nat.leb_refl. destruct (Nat.ltb_spec a (a + S n)); [|lia]. cbn [andb]. f_equal. lia.
    + rewrite set_other by exact Hx. destruct (Nat.leb_spec (S a) x), (Nat.leb_spec a x), (Nat.ltb_spec x (S a + n)), (Nat.ltb_spec x (a + S n)); cbn [andb]; try reflexivity; try lia. f_equal. lia.
Qed.
Lemma setnone_in : forall tags (C : nat -> option nat) x, setnone C tags x = if existsb (Nat.eqb x) tags then None else C x.
Proof.
  induction tags as [|a tags IH]; intros C x; cbn [fold_left existsb]; [reflexivity|]. rewrite IH. unfold set. destruct (existsb (Nat.eqb x) tags); [now rewrite orb_true_r|]. rewrite orb_false_r. reflexivity.
Qed.
Lemma wipe_in v : forall slots c s, wipe c slots v s = if existsb (Nat.eqb s) slots then v else c s.
Proof.
  induction slots as [|a slots IH]; intros c s; cbn [fold_left existsb]; [reflexivity|]. rewrite IH. unfold put. destruct (existsb (Nat.eqb s) slots); [now rewrite orb_true_r|]. rewrite orb_false_r. reflexivity.
Qed.
Lemma in_existsb s l : existsb (Nat.eqb s) l = true <-> In s l.
Proof. rewrite existsb_exists. split; [intros (y & Y & E); apply Nat.eqb_eq in E; now subst|]. intros I. exists s. split; [exact I|apply Nat.eqb_refl]. Qed.
