(** The leaves of a document and their field names. *)
From Verif.Lib Require Import Base Bytes F64.
From Verif.Keys Require Import Model.
From Verif.Labels Require Import Model.
Local Open Scope N_scope.

(** The children of a node under their names: members under their keys, elements under their positions
    in decimal. *)
Fixpoint numbered (i : N) (l : list json) : list (bytes * json) :=
  match l with [] => [] | v :: l => (decimal i, v) :: numbered (i + 1) l end.
Definition children (j : json) : list (bytes * json) := match j with JObj m => m | JArr l => numbered 0 l | _ => [] end.
(** The node at the end of a path of names. *)
Fixpoint find (j : json) (ks : list bytes) : option json :=
  match ks with [] => Some j | k :: ks => match assoc k (children j) with Some c => find c ks | None => None end end.
(** No object has two members of the same name; this holds of every parsed document. *)
Definition distinct_keys (j : json) : Prop := forall ks m, find j ks = Some (JObj m) -> NoDup (map fst m).
(** No member has the separator in its name. *)
Definition free_of (ch : N) (j : json) : Prop := forall ks m, find j ks = Some (JObj m) -> forall k v, In (k, v) m -> ~ In ch k.
(** A separator that is not a decimal digit. *)
Definition not_digit (ch : N) : Prop := ch < 48 \/ 57 < ch.
(** The field name of a path. *)
Definition field (prefix : bytes) (ch : N) (ks : list bytes) : bytes := prefix ++ concat (map (cons ch) ks).
(** The value a leaf stands for: integers as they are, and as the nearest double beyond 64 bits. *)
Inductive stands_for : json -> value -> Prop :=
| of_bool b : stands_for (JBool b) (VBool b)
| of_string s : stands_for (JStr s) (VStr s)
| of_int n : (Z.of_N n <= i64_max)%Z -> stands_for (JNum (JPos n)) (VInt (Z.of_N n))
| of_large n : (i64_max < Z.of_N n)%Z -> stands_for (JNum (JPos n)) (VReal (f64_of_N n))
| of_negative z : stands_for (JNum (JNeg z)) (VInt z)
| of_double x : stands_for (JNum (JFlt x)) (VReal x).
