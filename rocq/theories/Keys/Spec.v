(** What the keys must do, without the codec. *)
From Verif.Lib Require Import Base Bytes F64.
From Verif.Keys Require Import Model.

(** Lexicographic order: the first difference decides, a proper prefix is smaller. *)
Definition lex_lt (a b : bytes) : Prop :=
  (exists c d, b = a ++ c :: d) \/
  (exists p x y a' b', a = p ++ x :: a' /\ b = p ++ y :: b' /\ (x < y)%N).

Definition no_nul (f : bytes) : Prop := ~ In 0%N f.
Definition i64_ok (z : Z) : Prop := (i64_min <= z <= i64_max)%Z.
Definition value_ok (v : value) : Prop :=
  match v with VInt z => i64_ok z | VReal x => f64_ok x | _ => True end.
