(** Specification vocabulary for output buffers and post processing. *)
From Verif.Lib Require Import Base Lists F32.
From Verif.Filtered Require Export Spec.
From Verif.Output Require Import Model.

(** What a buffer of capacity [cap] ([None]: unbounded) keeps of the items offered to it. *)
Definition take_cap {A} (cap : option nat) (xs : list A) : list A :=
  match cap with Some c => firstn c xs | None => xs end.
Definition full_at {A} (cap : option nat) (xs : list A) : bool :=
  match cap with Some c => c <=? length xs | None => false end.

(** A slice whose first positions have been overwritten. *)
Definition overlay {A} (xs l : list A) : list A := xs ++ skipn (length xs) l.

(** [at_ xs] is the buffer after exactly the items [xs] were stored in it.  A buffer of
    capacity [cap] stores what it is offered, in order, until it is full, tells after a push
    whether it is full, after an extension how many items it stored, and how much it holds. *)
Record log_buffer {S I} (B : buf S I) (cap : option nat) (at_ : list (item I) -> S) : Prop := {
  lg_push : forall xs x, take_cap cap xs = xs ->
    b_push B (at_ xs) x =
      Some (at_ (take_cap cap (xs ++ [x])), full_at cap (take_cap cap (xs ++ [x])));
  lg_extend : forall xs ys, take_cap cap xs = xs ->
    b_extend B (at_ xs) ys =
      Some (at_ (take_cap cap (xs ++ ys)), length (take_cap cap (xs ++ ys)) - length xs);
  lg_len : forall xs, take_cap cap xs = xs -> b_len B (at_ xs) = length xs;
  lg_hint : forall xs, take_cap cap xs = xs ->
    b_hint B (at_ xs) = option_map (fun c => c - length xs) cap
}.

(** The buffers around the caller's slices. *)
Definition idd_at {I} (ids : list I) (ds : list f32) (xs : list (item I)) : idd I :=
  mkIdd (overlay (map fst xs) ids) (overlay (map snd xs) ds) (length xs).
Definition ida_at {I A} (ids : list I) (ds : list f32) (das : list A) (xs : list (item (I * A)))
  : ida I A :=
  mkIda (overlay (map (fun x => fst (fst x)) xs) ids) (overlay (map snd xs) ds)
        (overlay (map (fun x => snd (fst x)) xs) das) (length xs).
Definition back_at {I} (l xs : list (item I)) : back I := mkBack (overlay xs l) (length xs).
Definition vec_at {I} (xs : list (item I)) : list (item I) := xs.
Definition sout_at {A V} (ids : list nat) (ds : list f32) (das : list A)
    (vecs : option (list (option V))) (xs : list (item (payload A V))) : sout A V :=
  mkSout (ida_at ids ds das (map (fun x => (fst (fst x), snd x)) xs))
         (option_map (overlay (map (fun x => snd (fst x)) xs)) vecs).

(** A user's session with a buffer: pushes and extensions, and the answers. *)
Inductive bop (I : Type) := BPush (x : item I) | BExtend (xs : list (item I)).
Arguments BPush {I}. Arguments BExtend {I}.
Inductive banswer := AFull (full : bool) | ACount (n : nat).
Fixpoint bsession {S I} (B : buf S I) (b : S) (ops : list (bop I)) : option (S * list banswer) :=
  match ops with
  | [] => Some (b, [])
  | BPush x :: ops' =>
      match b_push B b x with
      | None => None
      | Some (b', f) =>
          match bsession B b' ops' with
          | None => None
          | Some (r, as_) => Some (r, AFull f :: as_)
          end
      end
  | BExtend xs :: ops' =>
      match b_extend B b xs with
      | None => None
      | Some (b', n) =>
          match bsession B b' ops' with
          | None => None
          | Some (r, as_) => Some (r, ACount n :: as_)
          end
      end
  end.
Definition offers {I} (o : bop I) : list (item I) :=
  match o with BPush x => [x] | BExtend xs => xs end.
(** The answers a log of capacity [cap] holding [n] items gives. *)
Fixpoint answers {I} (cap : option nat) (n : nat) (ops : list (bop I)) : list banswer :=
  match ops with
  | [] => []
  | BPush _ :: ops' =>
      let m := match cap with Some c => Nat.min c (n + 1) | None => n + 1 end in
      AFull (match cap with Some c => m =? c | None => false end) :: answers cap m ops'
  | BExtend xs :: ops' =>
      let k := match cap with Some c => Nat.min (c - n) (length xs) | None => length xs end in
      ACount k :: answers cap (n + k) ops'
  end.

(** The outcome of a post processor that writes [ys] to a buffer holding [xs]: as many as fit
    are stored, and their number is reported. *)
Definition wrote {S I} (cap : option nat) (at_ : list (item I) -> S) (xs ys : list (item I))
  : sres (S * nat) :=
  SOk (at_ (take_cap cap (xs ++ ys)), length (take_cap cap (xs ++ ys)) - length xs).

(** The candidates that have an external id, with it. *)
Definition externals {I} (external : nat -> option I) (cands : list nbr) : list (item I) :=
  flat_map (fun c => match external (n_id c) with Some e => [(e, n_dist c)] | None => [] end) cands.

(** The candidates for which a distance can be computed, with it. *)
Definition rescored (full : nat -> option f32) (cands : list nbr) : list nbr :=
  flat_map (fun c => match full (n_id c) with Some d => [mkNbr (n_id c) d] | None => [] end) cands.

(** [r] are the items of [xs] in order of distance. *)
Definition ranked (xs r : list nbr) : Prop := Permutation r xs /\ StronglySorted closer r.
