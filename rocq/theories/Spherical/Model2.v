(** Model of the choice of a code in the spherical quantizer (two and more bits):
    [maximize_cosine_similarity] and the rounding in [compress_via_maximum_cosine]
    (diskann-quantization/src/spherical/quantizer.rs 870-1085), in exact arithmetic.
    Similarities, which are not negative, are compared by their squares; no square root is taken. *)
From Coq Require Import QArith Qround Qabs.
From Verif.Lib Require Import Base Lists.
From Verif.Spherical Require Import Model.
Local Open Scope nat_scope.

Definition qn (n : nat) : Q := inject_Z (Z.of_nat n).
(** quantizer.rs 1010: [eps]. *)
Definition eps : Q := (1 # 10000)%Q.
(** Values of critical scales: finite ones, [f32::MAX] and the infinity of a division by zero. *)
Inductive crit := Fin (q : Q) | Max | Inf.
Definition crit_leb (a b : crit) : bool :=
  match a, b with Fin x, Fin y => Qle_bool x y | Fin _, _ => true | Max, Fin _ => false | Max, _ => true | Inf, Inf => true | Inf, _ => false end.
(** [Pair] and its reversed order, quantizer.rs 931-957. *)
Definition pair_leb (a b : crit * nat) : bool := crit_leb (fst b) (fst a).
(** The scale at which a component of absolute value [a] leaves its [k]-th level. *)
Definition critical (k : nat) (a : Q) : crit := if Qeq_bool a 0 then Inf else Fin ((qn k + eps) / a)%Q.
Definition is_max (c : crit) : bool := match c with Max => true | _ => false end.
Record search := mkS { s_heap : list (crit * nat); s_rounded : list nat; s_ip : Q; s_sq : Q; s_best : option Q; s_scale : crit }.
(** The loop, quantizer.rs 1030-1080, on fuel; [None] is a bad access. *)
Fixpoint improve (fuel : nat) (v : list Q) (stop : nat) (s : search) : option (crit * option Q) :=
  match fuel, s_heap s with
  | S fuel, (value, p) :: _ =>
      if is_max value then Some (s_scale s, s_best s)
      else match nth_error (s_rounded s) p, nth_error v p with
      | Some old, Some x =>
          let ip := (s_ip s + Qabs x)%Q in
          let sq := (s_sq s + qn (2 * old))%Q in
          let sim := (ip * ip / sq)%Q in
          let better := match s_best s with None => true | Some b => negb (Qle_bool sim b) end in
          let next := if S old <? stop then critical (S old) (Qabs x) else Max in
          match update_root pair_leb (s_heap s) (fun _ => (next, p)) with
          | Some h => improve fuel v stop (mkS h (set_nth p (S old) (s_rounded s)) ip sq (if better then Some sim else s_best s) (if better then value else s_scale s))
          | None => None
          end
      | _, _ => None
      end
  | _, _ => None
  end.
Fixpoint qsum (l : list Q) : Q := match l with [] => 0%Q | x :: l => (x + qsum l)%Q end.
Fixpoint firsts (i : nat) (v : list Q) : list (crit * nat) := match v with [] => [] | x :: v => (critical 1 (Qabs x), i) :: firsts (S i) v end.
(** Every component can be raised [stop] times at most. *)
Definition maximize (v : list Q) (bits : nat) : option crit :=
  let stop := 2 ^ (bits - 1) in
  match heap_new pair_leb (firsts 0 v) with
  | Some (Some h) => option_map fst (improve (S (length v * stop)) v stop (mkS h (repeat 1 (length v)) ((1 # 2) * qsum (map Qabs v)) ((1 # 4) * qn (length v)) None (Fin 0)))
  | _ => None
  end.
(** The rounding of a component, quantizer.rs 889-899: [round] of what is not negative. *)
Definition clampq (x lo hi : Q) : Q := if Qle_bool lo x then (if Qle_bool x hi then x else hi) else lo.
Definition code (bits : nat) (scale t : Q) : Z :=
  let hi := qn (2 ^ bits - 1) in
  Qfloor (clampq (t * scale + hi / 2) 0 hi + (1 # 2)).
