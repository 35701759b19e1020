(** Model of diskann/src/graph/internal/prune.rs [robust_prune], of
    diskann/src/graph/config/mod.rs [PruneKind::update_occlude_factor] and of
    diskann/src/graph/index.rs [occlude_list].

    Distances are f32 bit patterns.  The three arithmetic operations used are a parameter
    ([farith]); the distance between two candidates is an arbitrary function.  Vectors are
    an arbitrary type [V]. *)
From Verif.Lib Require Import Base Lists F32.
From Verif.Adjacency Require Export Model.

(** Single precision [*], [/] and [+]. *)
Record farith := mkFarith { fmul : f32 -> f32 -> f32; fdiv : f32 -> f32 -> f32;
                            fadd : f32 -> f32 -> f32 }.

(** [f32::max] and [f32::min]: a NaN operand is ignored. *)
Definition f32_fmax (x y : f32) : f32 :=
  if is_nan x then y else if is_nan y then x else if f32_lt x y then y else x.
Definition f32_fmin (x y : f32) : f32 :=
  if is_nan x then y else if is_nan y then x else if f32_lt y x then y else x.

Definition f32_1_2 : f32 := 1067030938%N.            (* 1.2f32  = 0x3F99999A *)
Definition f32_0_01 : f32 := 1008981770%N.           (* 0.01f32 = 0x3C23D70A *)

(** config/mod.rs:36-60 [PruneKind]. *)
Inductive prune_kind := TriangleInequality | Occluding.

(** config/mod.rs:80-103 [update_occlude_factor]; [OCCLUDING_MASK] is line 62. *)
Definition update_occlude_factor (ar : farith) (kind : prune_kind)
    (distance_ik distance_jk current_factor current_alpha : f32) : f32 :=
  match kind with
  | TriangleInequality =>
      if f32_eq distance_jk f32_zero then f32_max
      else f32_fmax current_factor (fdiv ar distance_ik distance_jk)
  | Occluding =>
      if f32_lt distance_jk (fmul ar current_alpha distance_ik)
      then fadd ar current_alpha f32_0_01
      else current_factor
  end.

(** prune.rs:89-96 [State]; the derived default is all zero. *)
Record pstate := mkPs { s_occ : f32; s_last : nat; s_nb : nat }.
Definition ps_default : pstate := mkPs f32_zero 0 0.

(** [i as u16]. *)
Definition wrap16 (i : nat) : nat := N.to_nat (N.of_nat i mod 65536).

(** Outcome of a possibly diverging, possibly panicking computation. *)
Inductive outcome (A : Type) := Done (a : A) | Panic | OutOfFuel.
Arguments Done {A} a.
Arguments Panic {A}.
Arguments OutOfFuel {A}.

Section prune.
Context {V : Type}.
Variable ar : farith.
Variable dist : V -> V -> f32.        (* [compute_distance] *)
Variable kind : prune_kind.
Variable cache : list (f32 * option V).  (* [sorted_cache] *)

(** prune.rs:197-230, the inner [while last_checked != found] for candidate [i] at source
    distance [ik] with vector [v].  Returns the final [last_checked] and occlude factor.
    [n] is [found - last_checked]: if [last_checked] were above [found] the loop would run
    into an out-of-bounds index, an error here.  The store of [last_checked] at line 206 is
    repeated by line 236 and left out. *)
Fixpoint scan (states : list pstate) (found i : nat) (ik : f32) (v : V) (alpha : f32)
    (n : nat) (last : nat) (occ : f32) : option (nat * f32) :=
  match n with
  | 0 => if last =? found then Some (last, occ) else None
  | S n' =>
      match nth_error states last with
      | None => None
      | Some st =>
          let rp := s_nb st in
          let last' := wrap16 (S last) in
          if i <=? rp then scan states found i ik v alpha n' last' occ
          else
            match nth_error cache rp with
            | None => None
            | Some (_, o) =>
                let d := match o with Some w => dist v w | None => f32_max end in
                let occ' := update_occlude_factor ar kind ik d occ alpha in
                if f32_gt occ' alpha then Some (last', occ')
                else scan states found i ik v alpha n' last' occ'
            end
      end
  end.

Definition set_cand (st : pstate) (occ : f32) (last : nat) : pstate := mkPs occ last (s_nb st).
Definition set_nb (st : pstate) (i : nat) : pstate := mkPs (s_occ st) (s_last st) (wrap16 i).

(** prune.rs:162-247, the loop body for candidate [i] (without the check at 163-165). *)
Definition consider (alpha : f32) (i : nat) (c : f32 * option V)
    (states : list pstate) (found : nat) : option (list pstate * nat) :=
  match nth_error states i with
  | None => None                                                (* 168-172: states[i] *)
  | Some st =>
      if f32_gt (s_occ st) alpha then Some (states, found)      (* 175-177 *)
      else
        match snd c with
        | None => Some (set_nth i (set_cand st f32_max (s_last st)) states, found)
        | Some v =>
            match scan states found i (fst c) v alpha (found - s_last st) (s_last st) (s_occ st) with
            | None => None
            | Some (last, occ) =>
                if f32_gt occ alpha then                        (* 236-240 *)
                  Some (set_nth i (set_cand st occ last) states, found)
                else
                  let states1 := set_nth i (set_cand st f32_max last) states in
                  match nth_error states1 found with            (* 246: states[found] *)
                  | None => None
                  | Some sf => Some (set_nth found (set_nb sf i) states1, S found)
                  end
            end
        end
  end.

(** prune.rs:162-248, one pass over the candidates from index [i] on. *)
Fixpoint pass (alpha : f32) (degree : nat) (i : nat) (rest : list (f32 * option V))
    (states : list pstate) (found : nat) : option (list pstate * nat) :=
  match rest with
  | [] => Some (states, found)
  | c :: rest' =>
      if degree <=? found then Some (states, found)             (* 163-165 *)
      else
        match consider alpha i c states found with
        | None => None
        | Some (states', found') => pass alpha degree (S i) rest' states' found'
        end
  end.

(** prune.rs:161-256, the [while found < degree] loop over the alpha ladder. *)
Fixpoint rounds (fuel : nat) (alpha current : f32) (degree : nat)
    (states : list pstate) (found : nat) : outcome (list pstate * nat) :=
  if found <? degree then
    match fuel with
    | 0 => OutOfFuel
    | S fuel' =>
        match pass current degree 0 cache states found with
        | None => Panic
        | Some (states', found') =>
            if f32_eq current alpha then Done (states', found')
            else rounds fuel' alpha
                   (f32_fmin (fmul ar current (f32_fmin alpha f32_1_2)) alpha)
                   degree states' found'
        end
    end
  else Done (states, found).

(** prune.rs:106-259 [robust_prune]. *)
Definition robust_prune (fuel : nat) (alpha : f32) (degree : nat) (states : list pstate)
  : outcome (list pstate * nat) :=
  rounds fuel alpha f32_one degree states 0.
End prune.

(** The parts of the index configuration the pruning reads (config/mod.rs:180-215). *)
Record prune_cfg := mkPcfg { c_alpha : f32; c_degree : nat; c_kind : prune_kind;
                             c_saturate : bool }.

(** index.rs:2629-2631: zip the resized list with the states, [pool[s.neighbor].id()]. *)
Fixpoint zip_write (pool : list nbr) (a : adj) (states : list pstate) : option adj :=
  match a, states with
  | _ :: a', s :: states' =>
      match nth_error pool (s_nb s) with
      | None => None
      | Some x => match zip_write pool a' states' with
                  | Some r => Some (n_id x :: r)
                  | None => None
                  end
      end
  | _, _ => Some a
  end.

(** index.rs:2638-2648: saturation. *)
Fixpoint saturate (k : idkind) (degree : nat) (exclude : nat -> bool) (pool : list nbr) (a : adj)
  : option adj :=
  match pool with
  | [] => Some a
  | x :: pool' =>
      if degree <=? length a then Some a
      else if negb (exclude (n_id x)) then
             match adj_push k a (n_id x) with
             | Some (a', _) => saturate k degree exclude pool' a'
             | None => None
             end
           else saturate k degree exclude pool' a
  end.

(** index.rs:2604-2615: the cache; [map] is the working set view. *)
Definition make_cache {V} (map : nat -> option V) (exclude : nat -> bool) (pool : list nbr)
  : list (f32 * option V) :=
  List.map (fun x => (n_dist x, if exclude (n_id x) then None else map (n_id x))) pool.

(** index.rs:2565-2650 [occlude_list]; [old] is the previous content of the output list.
    The assertion at 2577-2580 is the [Panic] for long pools; the debug assertion at 2634
    is proved separately. *)
Definition occlude_list {V} (ar : farith) (dist : V -> V -> f32) (debug : bool) (k : idkind)
    (fuel : nat) (cfg : prune_cfg) (force_saturate : bool) (map : nat -> option V)
    (exclude : nat -> bool) (pool : list nbr) (old : adj) : outcome adj :=
  if (65535 <? N.of_nat (length pool))%N then Panic
  else
    match pool with
    | [] => Done []
    | _ :: _ =>
        match robust_prune ar dist (c_kind cfg) (make_cache map exclude pool) fuel
                (c_alpha cfg) (c_degree cfg) (repeat ps_default (length pool)) with
        | Panic => Panic
        | OutOfFuel => OutOfFuel
        | Done (states, found) =>
            match zip_write pool (adj_resize old found) states with
            | None => Panic
            | Some a =>
                match guard_finish debug k a found with
                | None => Panic
                | Some a' =>
                    if force_saturate || (c_saturate cfg && f32_gt (c_alpha cfg) f32_one) then
                      match saturate k (c_degree cfg) exclude pool a' with
                      | Some r => Done r
                      | None => Panic
                      end
                    else Done a'
                end
            end
        end
    end.
