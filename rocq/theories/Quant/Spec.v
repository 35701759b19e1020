(** Specification vocabulary for scalar and min-max quantization. *)
From Coq Require Import Reals ZArith.
From Flocq Require Import Core.Core.
From Verif.Lib Require Import Base.
From Verif.Quant Require Import Model.
Local Open Scope R_scope.

(** ** Vectors of real numbers *)
Fixpoint rsum (xs : list R) : R := match xs with [] => 0 | x :: xs' => x + rsum xs' end.
Definition rdot (x y : list R) : R := rsum (map2 Rmult x y).
Definition rl2 (x y : list R) : R := rsum (map2 (fun a b => (a - b) * (a - b)) x y).
Definition rlen (x : list R) : R := INR (length x).
Definition rmean (x : list R) : R := rsum x / rlen x.

(** The value of a code. *)
Definition val (c : N) : R := IZR (Z.of_N c).
(** The largest code of [n] bits. *)
Definition top (n : N) : R := val (2 ^ n - 1).
Definition code_ok (n : N) (c : N) : Prop := (c < 2 ^ n)%N.
(** Widths for which a code fits a byte. *)
Definition width (n : N) : Prop := (1 <= n <= 8)%N.

(** The vectors that scalar and min-max codes stand for. *)
Definition scalar_point (n : N) (scale s : R) (c : N) : R := s + val c * (scale / top n).
Definition scalar_vector (n : N) (scale : R) (shift : list R) (codes : list N) : list R :=
  map2 (scalar_point n scale) shift codes.
Definition minmax_vector (a b : R) (codes : list N) : list R := map (fun c => b + a * val c) codes.

(** [c] is a best [n]-bit code for [x] if code [c'] stands for [point c']. *)
Definition nearest (n : N) (point : N -> R) (x : R) (c : N) : Prop :=
  code_ok n c /\ forall c', code_ok n c' -> Rabs (x - point c) <= Rabs (x - point c').

(** What the integer kernels compute. *)
Definition int_ip (x y : list N) : N := fold_right N.add 0%N (map2 N.mul x y).
Definition int_l2 (x y : list N) : N :=
  fold_right N.add 0%N (map2 (fun a b => Z.to_N ((Z.of_N a - Z.of_N b) * (Z.of_N a - Z.of_N b))) x y).

(** ** Exact arithmetic: [fin x] is the float for the real number [x].  Only what the theorems use is
    fixed, including the IEEE rule 0/0 = NaN and the rules for minimum and maximum with NaN. *)
Record exact {F} (o : ops F) (fin : R -> F) : Prop := {
  ex_inj : forall x y, fin x = fin y -> x = y;
  ex_N : forall n, of_N o n = fin (val n);
  ex_half : half o = fin (/ 2);
  ex_tiny : tiny o = fin (/ 100000000);
  ex_add : forall x y, add o (fin x) (fin y) = fin (x + y);
  ex_sub : forall x y, sub o (fin x) (fin y) = fin (x - y);
  ex_mul : forall x y, mul o (fin x) (fin y) = fin (x * y);
  ex_div : forall x y, y <> 0 -> div o (fin x) (fin y) = fin (x / y);
  ex_div0 : div o (fin 0) (fin 0) = nan o;
  ex_neg : forall x, neg o (fin x) = fin (- x);
  ex_fma : forall x y z, fma o (fin x) (fin y) (fin z) = fin (x * y + z);
  ex_root : forall x, 0 <= x -> root o (fin x) = fin (sqrt x);
  ex_min : forall x y, fmin o (fin x) (fin y) = fin (Rmin x y);
  ex_max : forall x y, fmax o (fin x) (fin y) = fin (Rmax x y);
  ex_min_nan : forall x, fmin o (nan o) x = x;
  ex_max_nan : forall x, fmax o (nan o) x = x;
  ex_round : forall x, round o (fin x) = fin (IZR (ZnearestA x));
  ex_even : forall x, round_even o (fin x) = fin (IZR (ZnearestE x));
  ex_lt : forall x y, lt o (fin x) (fin y) = true <-> x < y;
  ex_eq : forall x y, feq o (fin x) (fin y) = true <-> x = y;
  ex_nan : forall x, is_nan o (fin x) = false;
  ex_u8 : forall z, (0 <= z < 256)%Z -> to_u8 o (fin (IZR z)) = Z.to_N z;
  ex_ip : forall x y, length x = length y -> ipf o (map fin x) (map fin y) = fin (rdot x y);
  ex_cast : forall x, cast o (fin x) = fin x
}.

(** ** Exact arithmetic with all the IEEE special values (signed zeros are one). *)
Inductive ext := Fin (x : R) | PInf | NInf | NaN.
Definition rltb (x y : R) : bool := if Rlt_dec x y then true else false.
Definition reqb (x y : R) : bool := if Req_EM_T x y then true else false.
Definition sgn (x : R) : comparison := if Rlt_dec 0 x then Gt else if Rlt_dec x 0 then Lt else Eq.
Definition esgn (x : ext) : option comparison :=
  match x with Fin x => Some (sgn x) | PInf => Some Gt | NInf => Some Lt | NaN => None end.
Definition inf (s : comparison) : ext := match s with Gt => PInf | Lt => NInf | Eq => NaN end.
Definition smul (a b : comparison) : comparison :=
  match a, b with Eq, _ | _, Eq => Eq | Gt, c => c | Lt, c => CompOpp c end.
Definition eneg (x : ext) : ext := match x with Fin x => Fin (- x) | PInf => NInf | NInf => PInf | NaN => NaN end.
Definition eadd (x y : ext) : ext :=
  match x, y with
  | NaN, _ | _, NaN | PInf, NInf | NInf, PInf => NaN
  | PInf, _ | _, PInf => PInf
  | NInf, _ | _, NInf => NInf
  | Fin x, Fin y => Fin (x + y)
  end.
Definition emul (x y : ext) : ext :=
  match x, y with
  | Fin x, Fin y => Fin (x * y)
  | _, _ => match esgn x, esgn y with Some a, Some b => inf (smul a b) | _, _ => NaN end
  end.
Definition ediv (x y : ext) : ext :=
  match x, y with
  | Fin x, Fin y => if Req_EM_T y 0 then inf (sgn x) else Fin (x / y)
  | Fin _, NaN => NaN
  | Fin _, _ => Fin 0
  | _, Fin y => match esgn x with Some a => if Req_EM_T y 0 then inf a else inf (smul a (sgn y)) | None => NaN end
  | _, _ => NaN
  end.
Definition elt (x y : ext) : bool :=
  match x, y with
  | NaN, _ | _, NaN => false
  | Fin x, Fin y => rltb x y
  | NInf, NInf | PInf, _ => false
  | NInf, _ => true
  | _, PInf => true
  | _, NInf => false
  end.
Definition emin (x y : ext) : ext :=
  match x, y with NaN, y => y | x, NaN => x | Fin x, Fin y => Fin (Rmin x y) | x, y => if elt y x then y else x end.
Definition emax (x y : ext) : ext :=
  match x, y with NaN, y => y | x, NaN => x | Fin x, Fin y => Fin (Rmax x y) | x, y => if elt x y then y else x end.
Definition emap (f : R -> R) (x : ext) : ext := match x with Fin x => Fin (f x) | x => x end.
Definition eu8 (x : ext) : N :=
  match x with Fin x => Z.to_N (Z.min 255 (Ztrunc x)) | PInf => 255%N | NInf | NaN => 0%N end.
Definition eeq (x y : ext) : bool :=
  match x, y with Fin x, Fin y => reqb x y | PInf, PInf | NInf, NInf => true | _, _ => false end.
Definition ext_ops : ops ext :=
  mkOps (fun n => Fin (val n)) (Fin (/ 2)) (Fin (/ 100000000)) NaN
    eadd (fun x y => eadd x (eneg y)) emul ediv eneg (fun x y z => eadd (emul x y) z)
    (fun x => match x with Fin x => if Rlt_dec x 0 then NaN else Fin (sqrt x) | PInf => PInf | _ => NaN end)
    emin emax (emap (fun x => IZR (ZnearestA x))) (emap (fun x => IZR (ZnearestE x))) elt eeq
    (fun x => match x with NaN => true | _ => false end) eu8
    (fun x y => fold_right eadd (Fin 0) (map2 emul x y)) (fun x => x).

(** ** Scalar quantization *)
(** The compensation that belongs to the codes of a vector. *)
Definition compensation (n : N) (scale : R) (shift : list R) (codes : list N) : R :=
  scale / top n * rdot (map val codes) shift.
(** A table of numbers with [ncols] columns. *)
Definition table (ncols : nat) (rows : list (list R)) : Prop := rows <> [] /\ Forall (fun r => length r = ncols) rows.
Definition column (rows : list (list R)) (j : nat) : list R := map (fun r => nth j r 0) rows.
Definition rvar (x : list R) : R := rmean (map (fun v => (v - rmean x) * (v - rmean x)) x).
(** [s] is the largest standard deviation of a column. *)
Definition max_std (ncols : nat) (rows : list (list R)) (s : R) : Prop :=
  (exists j, (j < ncols)%nat /\ s = sqrt (rvar (column rows j))) /\
  forall j, (j < ncols)%nat -> sqrt (rvar (column rows j)) <= s.

(** ** Min-max quantization *)
Definition below (m : R) (x : list R) : list R := filter (fun v => rltb v m) x.
Definition not_below (m : R) (x : list R) : list R := filter (fun v => negb (rltb v m)) x.
(** The documented ends of the range of a vector, minmax/quantizer.rs 100-116: for one bit the means of
    the values below the mean (the mean itself if there are none) and of the others, otherwise the
    least and the greatest value. *)
Definition ends (n : N) (vec : list R) (lo hi : R) : Prop :=
  if (n =? 1)%N then
    lo = (if below (rmean vec) vec then rmean vec else rmean (below (rmean vec) vec)) /\
    not_below (rmean vec) vec <> [] /\ hi = rmean (not_below (rmean vec) vec)
  else In lo vec /\ In hi vec /\ forall v, In v vec -> lo <= v <= hi.
(** The metadata that belongs to codes with scale [a] and offset [b]. *)
Definition meta_of {F} (fin : R -> F) (a b : R) (codes : list N) : mm_meta :=
  mkMeta (N.of_nat (length codes) mod 2 ^ 32) (fin b) (fin (a * rsum (map val codes))) (fin a)
    (fin (rdot (minmax_vector a b codes) (minmax_vector a b codes))).
Definition query_of {F} (fin : R -> F) (v : list R) : fq := mkFQ (map fin v) (fin (rsum v)) (fin (rdot v v)).
