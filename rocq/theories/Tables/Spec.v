(** What the tables should do. *)
From Coq Require Import List NArith PeanoNat Bool.
From Verif.Tables Require Import Model.
Import ListNotations.

(** ** Delete table: the set of deleted ids according to the atomic steps of a history. *)
Definition apply_ev (i : nat) (b : bool) (e : devent) : bool :=
  match e with
  | EStep _ (SDelete j) _ => if j =? i then true else b
  | EStep _ (SUndelete j) _ => if j =? i then false else b
  | _ => b
  end.
Definition deleted (h : list devent) (i : nat) : bool := fold_left (apply_ev i) h false.
(** What thread [th] executed in a history. *)
Fixpoint steps_by (th : nat) (h : list devent) : list dstep :=
  match h with
  | [] => []
  | EStep k s _ :: h => if k =? th then s :: steps_by th h else steps_by th h
  | _ :: h => steps_by th h
  end.
Definition is_start (th : nat) (e : devent) : bool := match e with EStart k _ => k =? th | _ => false end.

(** ** Neighbor provider: a map from point to list. *)
(** Offering ids one by one to a list of at most [cap] entries; the first id that is new and
    finds the list full ends the call. *)
Fixpoint offer_upto (cap : nat) (l new : list nat) : list nat :=
  match new with
  | [] => l
  | x :: new =>
    if in_dec Nat.eq_dec x l then offer_upto cap l new
    else if length l <? cap then offer_upto cap (l ++ [x]) new else l
  end.
Definition nspec := nat -> list nat.
Definition nspec_op (size cap : nat) (m : nspec) (o : nop) : nspec * nout :=
  match o with
  | NSet id l => if (id <? size) && (length l <=? cap)
                 then (fun k => if k =? id then l else m k, NDone) else (m, NPanic)
  | NAppend id l => if id <? size
                    then (fun k => if k =? id then offer_upto cap (m id) l else m k, NDone) else (m, NPanic)
  | NGet id => if id <? size then (m, NList (m id)) else (m, NPanic)
  end.
Fixpoint nspec_run (size cap : nat) (m : nspec) (ops : list nop) : nspec * list nout :=
  match ops with
  | [] => (m, [])
  | o :: ops => let (m, r) := nspec_op size cap m o in
                let (m, rs) := nspec_run size cap m ops in (m, r :: rs)
  end.
(** The first occurrences in [new] of ids not in [l], in order. *)
Fixpoint fresh (l new : list nat) : list nat :=
  match new with
  | [] => []
  | x :: new => if in_dec Nat.eq_dec x l then fresh l new else x :: fresh (l ++ [x]) new
  end.
