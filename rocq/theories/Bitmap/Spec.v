(** Which documents a filter of a ground truth run selects. *)
From Verif.Lib Require Import Base Bytes F64.
From Verif.Keys Require Import Model.
From Verif.Labels Require Import Model Spec2.
Local Open Scope N_scope.

(** The document has a scalar [v] at the dotted path [f], which starts with a dot. *)
Definition has_value (j : json) (f : bytes) (v : value) : Prop :=
  exists ks leaf, find j ks = Some leaf /\ stands_for leaf v /\ f = field [] 46 ks.
(** The path a filter's field stands for: a leading dot may be left out. *)
Inductive path_for : bytes -> bytes -> Prop :=
| given f : path_for (46 :: f) (46 :: f)
| added f : (forall g, f <> 46 :: g) -> path_for f (46 :: f).
Definition has_field (j : json) (f : bytes) : Prop := exists p v, path_for f p /\ has_value j p v.

(** A number as a double. *)
Inductive as_double : value -> f64 -> Prop :=
| of_real x : as_double (VReal x) x
| of_integer z : as_double (VInt z) (f64_of_Z z).
Definition number (n : jnum) : f64 := match n with JPos n => f64_of_N n | JNeg z => f64_of_Z z | JFlt x => x end.
(** The value equals the constant of the filter; numbers are compared as doubles. *)
Inductive equals : value -> json -> Prop :=
| eq_string s : equals (VStr s) (JStr s)
| eq_bool b : equals (VBool b) (JBool b)
| eq_number v n x : as_double v x -> f64_val x = f64_val (number n) -> equals v (JNum n).
Definition compares (op : cmp) (v : value) : Prop :=
  match op with
  | CEq w => equals v w
  | CNe w => ~ equals v w
  | CRange Lt t => exists x, as_double v x /\ (f64_val x < f64_val t)%Z
  | CRange Lte t => exists x, as_double v x /\ (f64_val x <= f64_val t)%Z
  | CRange Gt t => exists x, as_double v x /\ (f64_val t < f64_val x)%Z
  | CRange Gte t => exists x, as_double v x /\ (f64_val t <= f64_val x)%Z
  end.

(** The fields an expression mentions, in order. *)
Fixpoint mentioned (e : expr) : list bytes :=
  match e with
  | EAnd l | EOr l => concat (map mentioned l)
  | ENot e => mentioned e
  | ECmp f _ => [f]
  end.
(** What negation ranges over: the documents that have the first field mentioned, and each other field
    mentioned that any document has. *)
Definition in_scope (docs : list (N * json)) (j : json) (e : expr) : Prop :=
  match mentioned e with
  | [] => False
  | f :: fs => has_field j f /\ forall g, In g fs -> (exists d, In d docs /\ has_field (snd d) g) -> has_field j g
  end.
Fixpoint selects (docs : list (N * json)) (j : json) (e : expr) : Prop :=
  match e with
  | EAnd l => l <> [] /\ fold_right (fun e P => selects docs j e /\ P) True l
  | EOr l => fold_right (fun e P => selects docs j e \/ P) False l
  | ENot e => in_scope docs j e /\ ~ selects docs j e
  | ECmp f op => exists p v, path_for f p /\ has_value j p v /\ compares op v
  end.
