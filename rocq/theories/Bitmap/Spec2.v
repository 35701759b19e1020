(** When a filtered ground truth run succeeds. *)
From Verif.Lib Require Import Base Bytes F64.
From Verif.Keys Require Import Model.
From Verif.Labels Require Import Model Spec2.
From Verif.Bitmap Require Import Spec.
Local Open Scope N_scope.

Inductive same_type : value -> value -> Prop :=
| both_bool a b : same_type (VBool a) (VBool b)
| both_int a b : same_type (VInt a) (VInt b)
| both_real a b : same_type (VReal a) (VReal b)
| both_string a b : same_type (VStr a) (VStr b).
(** Numbers must be doubles: not NaN, and integers that come back from the cast to a double. *)
Definition usable (v : value) : Prop :=
  match v with VReal x => f64_nan x = false | VInt z => f64_nan (f64_of_Z z) = false /\ f64_to_i64 (f64_of_Z z) = z | _ => True end.
(** Flattening does not panic and lists no name twice (see C123_null and C123_names for when), a field has
    values of one type in all documents, and numbers are usable. *)
Definition consistent (docs : list (N * json)) : Prop :=
  (forall d, In d docs -> exists l, flatten [46] [] (snd d) = Some l /\ NoDup (map fst l)) /\
  (forall d d' f v v', In d docs -> In d' docs -> has_value (snd d) f v -> has_value (snd d') f v' -> same_type v v') /\
  (forall d f v, In d docs -> has_value (snd d) f v -> usable v).

(** Text and truth values are compared with scalars and only for equality, numbers with numbers. *)
Definition suits (op : cmp) (v : value) : Prop :=
  match op with
  | CEq w | CNe w => match v with
                     | VStr _ | VBool _ => exists u, stands_for w u
                     | _ => exists n, w = JNum n /\ f64_nan (number n) = false
                     end
  | CRange _ t => (exists x, as_double v x) /\ f64_nan t = false
  end.
(** Every condition suits the values its field has; conditions on fields no document has are fine. *)
Fixpoint answerable (docs : list (N * json)) (e : expr) : Prop :=
  match e with
  | EAnd l | EOr l => fold_right (fun e P => answerable docs e /\ P) True l
  | ENot e => answerable docs e
  | ECmp f op => forall d p v, In d docs -> path_for f p -> has_value (snd d) p v -> suits op v
  end.
