(** Model of the determinant-diversity selection:
    diskann-providers/src/model/graph/provider/determinant_diversity.rs.

    The arithmetic is an argument: [f32] operations are one instance, exact real numbers
    another.  [f_dot] is the SIMD inner product, whose order of summation is not modelled.
    The candidate matrix is a list of rows of equal length. *)
From Verif.Lib Require Import Base Lists.
Local Open Scope nat_scope.

Record arith (F : Type) := mkArith {
  f_zero : F; f_one : F; f_eps : F; f_pinf : F; f_ninf : F;
  f_add : F -> F -> F; f_sub : F -> F -> F; f_mul : F -> F -> F; f_div : F -> F -> F;
  f_min : F -> F -> F; f_max : F -> F -> F;
  f_pow : F -> F -> F; f_sqrt : F -> F;
  f_dot : list F -> list F -> F;
  f_finite : F -> bool;
  f_le : F -> F -> bool; f_lt : F -> F -> bool;     (* false on NaN *)
  f_cmp : F -> F -> comparison                      (* partial_cmp, NaN is Equal *)
}.
Arguments mkArith {F}.
Arguments f_zero {F}. Arguments f_one {F}. Arguments f_eps {F}. Arguments f_pinf {F}. Arguments f_ninf {F}.
Arguments f_add {F}. Arguments f_sub {F}. Arguments f_mul {F}. Arguments f_div {F}. Arguments f_min {F}.
Arguments f_max {F}. Arguments f_pow {F}. Arguments f_sqrt {F}. Arguments f_dot {F}. Arguments f_finite {F}.
Arguments f_le {F}. Arguments f_lt {F}. Arguments f_cmp {F}.

Section detdiv.
Context {F : Type} (a : arith F).

(** 95-103 [DeterminantDiversityParams::new]. *)
Inductive params_result := BadPower | BadEta | Params (power eta : F).
Definition params_new (power eta : F) : params_result :=
  if negb (f_finite a power) || f_le a power (f_zero a) then BadPower
  else if negb (f_finite a eta) || f_lt a eta (f_zero a) then BadEta
  else Params power eta.

(** 453-458 [distance_to_similarity]. *)
Definition similarity (d dmin dmax : F) : F :=
  let span := f_max a (f_sub a dmax dmin) (f_eps a) in
  f_add a (f_max a (f_div a (f_sub a dmax d) span) (f_zero a)) (f_eps a).

(** 343-353: the rows are scaled, and their squared norms computed. *)
Definition scaled (power inv dmin dmax : F) (rows : list (list F)) (ds : list F) : list (list F) :=
  map (fun rd => let s := f_mul a (f_pow a (similarity (snd rd) dmin dmax) power) inv in
                 map (fun v => f_mul a v s) (fst rd)) (combine rows ds).

(** 364-377: [max_by] over the available indices; the later of equal elements wins. *)
Fixpoint best_of (norms : list F) (best : nat) (xs : list nat) : nat :=
  match xs with
  | [] => best
  | j :: xs' =>
      let nb := nth best norms (f_zero a) in
      let nj := nth j norms (f_zero a) in
      best_of norms (match f_cmp a nb nj with Gt => best | _ => j end) xs'
  end.
Definition pivot (norms : list F) (avail : list bool) : option nat :=
  match filter (fun i => nth i avail false) (seq 0 (length avail)) with
  | [] => None
  | i :: xs => Some (best_of norms i xs)
  end.

(** 398-431: project and deflate the available rows, and update their norms. *)
Definition deflate_row (star : list F) (p : F) (r : list F) : list F :=
  map (fun rs => f_sub a (fst rs) (f_mul a p (snd rs))) (combine r star).
Definition deflate (star : list F) (nstar : F) (avail : list bool) (rows : list (list F)) (norms : list F)
  : list (list F) * list F :=
  let inv := f_div a (f_one a) nstar in
  let proj r := f_mul a (f_dot a r star) inv in
  let new :=
    map (fun arn : bool * (list F * F) =>
           let '(av, (r, n)) := arn in
           if av then
             let p := proj r in
             (deflate_row star p r, f_max a (f_sub a n (f_mul a (f_mul a p p) nstar)) (f_zero a))
           else (r, n))
        (combine avail (combine rows norms)) in
  (map fst new, map snd new).

(** 363-432: the loop; [k] is the number of pivots still to select. *)
Fixpoint select_loop (k : nat) (rows : list (list F)) (norms : list F) (avail : list bool) : list nat :=
  match k with
  | 0 => []
  | S k' =>
      match pivot norms avail with
      | None => []
      | Some i =>
          let avail' := set_nth i false avail in
          let nstar := nth i norms (f_zero a) in
          i :: match k' with
               | 0 => []
               | _ =>
                   if f_le a nstar (f_zero a) then select_loop k' rows norms avail'
                   else
                     let (rows', norms') := deflate (nth i rows []) nstar avail' rows norms in
                     select_loop k' rows' norms' avail'
               end
      end
  end.

(** 326-435 [greedy_orthogonal_select]. *)
Definition greedy_select (rows : list (list F)) (ds : list F) (k : nat) (power inv dmin dmax : F) : list nat :=
  let n := length rows in
  let k := Nat.min k n in
  if k =? 0 then []
  else
    let rows := scaled power inv dmin dmax rows ds in
    select_loop k rows (map (fun r => f_dot a r r) rows) (repeat true n).

(** 187-246 [determinant_diversity]; [dim] is the number of columns of the matrix. *)
Inductive div_result := QueryMismatch | CountMismatch | Selected (idx : list nat).
Definition determinant_diversity (dim : nat) (rows : list (list F)) (ds query : list F) (k : nat) (power eta : F)
  : div_result :=
  if negb (dim =? length query) then QueryMismatch
  else if negb (length ds =? length rows) then CountMismatch
  else
    let k := Nat.min k (length rows) in
    if (k =? 0) || (dim =? 0) then Selected []
    else
      let dmin := fold_left (f_min a) ds (f_pinf a) in
      let dmax := fold_left (f_max a) ds (f_ninf a) in
      let inv := if f_lt a (f_zero a) eta then f_div a (f_one a) (f_sqrt a eta) else f_one a in
      Selected (greedy_select rows ds k power inv dmin dmax).
End detdiv.

(** ** The two post processors *)
Section users.
Context {F : Type} (a : arith F).

(** diskann-disk/src/search/provider/disk_provider.rs:555-584: the rows are the candidates'
    vectors converted to f32, [usize::MAX] results are asked for (modelled as their number, to
    which it is clamped).  [None]: [copy_from_slice] of a row of another length panics, or the
    selection fails. *)
Definition disk_select {V} (tof : V -> list F) (query : list F) (power eta : F) (vs : list (V * F)) : option (list nat) :=
  let rows := map (fun vd => tof (fst vd)) vs in
  if forallb (fun r => length r =? length query) rows then
    match determinant_diversity a (length query) rows (map snd vs) query (length vs) power eta with
    | Selected idx => Some idx
    | _ => None
    end
  else None.

(** diskann-providers/src/model/graph/provider/async_/inmem/full_precision.rs:424-465
    [DeterminantDiversity::post_process]: what is offered to the output buffer, in order; a
    candidate is an id and its distance.  [None] as above. *)
Definition inmem_post (vector : nat -> list F) (query : list F) (power eta : F) (cands : list (nat * F))
  : option (list (nat * F)) :=
  let rows := map (fun c => vector (fst c)) cands in
  if forallb (fun r => length r =? length query) rows then
    match determinant_diversity a (length query) rows (map snd cands) query (length cands) power eta with
    | Selected idx => Some (map (fun i => nth i cands (0, f_zero a)) idx)
    | _ => None
    end
  else None.
End users.
