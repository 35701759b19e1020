(** What recall means. *)
From Coq Require Import List PeanoNat Bool QArith Qcanon.
From Verif.Recall Require Import Model.
Import ListNotations.
Local Open Scope nat_scope.

(** Equality of ids is decided by [eqb]. *)
Definition decides {A} (eqb : A -> A -> bool) : Prop := forall a b, eqb a b = true <-> a = b.
(** [l] lists each element with property [P] once. *)
Definition lists {A} (P : A -> Prop) (l : list A) : Prop := NoDup l /\ forall a, In a l <-> P a.

(** The places of the ground truth that count for a query when the first [k] are wanted: those
    before [k], and those after it as long as the distance stays the one at [k - 1]. *)
Definition tie {F} (deq : F -> F -> bool) (ds : list F) (k j : nat) : Prop :=
  forall i, k <= i <= j -> exists d last, nth_error ds i = Some d /\ nth_error ds (k - 1) = Some last /\ deq d last = true.
Definition wanted {A F} (deq : F -> F -> bool) (gt : list A) (dist : option (list F)) (k : nat) (a : A) : Prop :=
  exists j, nth_error gt j = Some a /\ (j < k \/ exists ds, dist = Some ds /\ k <= j /\ tie deq ds k j).
(** The denominator [k'] and the hits [r] of a query: the wanted ids found among the first [n]
    results, each counted once, at most [k']. *)
Definition scored {A F} (deq : F -> F -> bool) (gt : list A) (dist : option (list F)) (result : list A) (k n k' r : nat) : Prop :=
  k' = Nat.min (length gt) k /\
  exists l, lists (fun a => wanted deq gt dist k' a /\ In a (firstn n result)) l /\ r = Nat.min (length l) k'.

(** The inputs that are accepted. *)
Definition accepted {A F} (gt : list (list A)) (dists : option (list (list F))) (results : list (list A)) (k n : nat) (md : mode) : Prop :=
  k <= n /\ length results = length gt /\ (md = Fixed -> Forall (fun g => k <= length g) gt) /\
  match dists with Some ds => map (@length F) ds = map (@length A) gt | None => True end.
(** Which error is reported why. *)
Definition reason {A F} (gt : list (list A)) (dists : option (list (list F))) (results : list (list A)) (k n : nat) (md : mode) (e : rerror) : Prop :=
  match e with
  | RecallKAndN a b => a = k /\ b = n /\ n < k
  | RowsMismatch a b => a = length results /\ b = length gt /\ a <> b
  | NotEnoughGroundTruth a b => md = Fixed /\ b = k /\ a < k /\ exists g, In g gt /\ length g = a
  | DistanceRowsMismatch a b => exists ds, dists = Some ds /\ a = length ds /\ b = length gt /\ a <> b
  | GroundTruthDistanceMismatch a b => exists ds i d g, dists = Some ds /\ nth_error ds i = Some d /\ nth_error gt i = Some g /\ a = length d /\ b = length g /\ a <> b
  end.
(** The distances of query [i], if there are any. *)
Definition at_query {F} (dists : option (list (list F))) (i : nat) : option (list F) :=
  match dists with Some ds => Some (nth i ds []) | None => None end.

(** The mean of the recalls of the queries with ground truth, in rational numbers. *)
Definition qnat (n : nat) : Qc := Q2Qc (inject_Z (Z.of_nat n)).
Definition quotient (a b : nat) : Qc := (qnat a / qnat b)%Qc.
Definition qsum (l : list Qc) : Qc := fold_right Qcplus (Q2Qc 0) l.
Definition mean_recall (rs : list (nat * nat)) : Qc := (qsum (map (fun p => quotient (snd p) (fst p)) rs) / qnat (length rs))%Qc.
(** 0 without such queries. *)
Definition mean_or_0 (rs : list (nat * nat)) : Qc := match rs with [] => Q2Qc 0 | _ => mean_recall rs end.
(** The queries that count: those with ground truth to find. *)
Definition counted {A} (gt : list (list A)) (k : nat) : list nat := filter (fun i => 0 <? Nat.min (length (nth i gt [])) k) (seq 0 (length gt)).
(** The denominators and hits of those queries, in order. *)
Definition recalls {A F} (deq : F -> F -> bool) (gt : list (list A)) (dists : option (list (list F))) (results : list (list A)) (k n : nat) (rs : list (nat * nat)) : Prop :=
  Forall2 (fun i p => scored deq (nth i gt []) (at_query dists i) (nth i results []) k n (fst p) (snd p)) (counted gt k) rs.
(** [knn] in rational numbers. *)
Definition knn_exact {A F} (eqb : A -> A -> bool) (deq : F -> F -> bool) := knn eqb deq (Q2Qc 0) (Q2Qc 0) Qcplus quotient.
(** [average_precision] in rational numbers (where [a / 0] is 0). *)
Definition precision_exact {A} (eqb : A -> A -> bool) := average_precision eqb quotient.
(** The entries of [g], with repetitions, that are in [r]. *)
Definition found {A} (eqb : A -> A -> bool) (g r : list A) : nat := length (filter (fun a => existsb (eqb a) r) g).
