(** Model of what happens to the candidates of a search: the output buffers
    (diskann/src/graph/search_output_buffer.rs, neighbor/mod.rs [BackInserter] and
    [Vec<Neighbor>], diskann-disk disk_provider.rs [SearchOutput]), the post processors
    (glue.rs, diskann-providers postprocess.rs and full_precision.rs, diskann-bftree
    provider.rs, diskann-inmem provider.rs, diskann-garnet provider.rs, diskann-label-filter
    inline_beta_filter.rs) and the flat index (diskann/src/flat/index.rs).

    Slices are lists, [None] is a panic (index out of range, failed assertion).  A
    [Neighbor<I>] for an arbitrary [I] is a pair.  Futures are run to completion. *)
From Verif.Lib Require Import Base Lists F32.
From Verif.Search Require Export Model.
Local Open Scope nat_scope.

(** neighbor/mod.rs:67-71 [Neighbor<I>]. *)
Notation item I := (I * f32)%type.
Definition to_item (x : nbr) : item nat := (n_id x, n_dist x).

(** ** The interface *)

(** search_output_buffer.rs:16-39 [SearchOutputBuffer]: [push] answers whether the buffer is
    full ([BufferState::Full]), [extend] the number of positions filled. *)
Record buf (S I : Type) := mkBuf {
  b_push : S -> item I -> option (S * bool);
  b_extend : S -> list (item I) -> option (S * nat);
  b_len : S -> nat;
  b_hint : S -> option nat
}.
Arguments mkBuf {S I}. Arguments b_push {S I}. Arguments b_extend {S I}.
Arguments b_len {S I}. Arguments b_hint {S I}.

(** [v\[i\] = x] for a slice [v]. *)
Definition store {A} (i : nat) (x : A) (l : list A) : option (list A) :=
  if i <? length l then Some (set_nth i x l) else None.

(** ** Ids and distances in two slices *)

(** search_output_buffer.rs:70-74 [IdDistance]. *)
Record idd (I : Type) := mkIdd { i_ids : list I; i_dists : list f32; i_pos : nat }.
Arguments mkIdd {I}. Arguments i_ids {I}. Arguments i_dists {I}. Arguments i_pos {I}.

(** 82-93 [new]. *)
Definition idd_new {I} (ids : list I) (dists : list f32) : option (idd I) :=
  if length ids =? length dists then Some (mkIdd ids dists 0) else None.

(** 107-124 [push]. *)
Definition idd_push {I} (b : idd I) (x : item I) : option (idd I * bool) :=
  if i_pos b =? length (i_ids b) then Some (b, true)
  else
    match store (i_pos b) (fst x) (i_ids b), store (i_pos b) (snd x) (i_dists b) with
    | Some ids, Some ds => Some (mkIdd ids ds (S (i_pos b)), S (i_pos b) =? length (i_ids b))
    | _, _ => None
    end.

(** 135-146: the zipped loop over the free positions. *)
Fixpoint zip_store {I} (ids : list I) (ds : list f32) (xs : list (item I))
  : list I * list f32 * nat :=
  match ids, ds, xs with
  | _ :: ids', _ :: ds', x :: xs' =>
      let '(is, es, n) := zip_store ids' ds' xs' in (fst x :: is, snd x :: es, S n)
  | _, _, _ => (ids, ds, 0)
  end.

(** 130-150 [extend]. *)
Definition idd_extend {I} (b : idd I) (xs : list (item I)) : option (idd I * nat) :=
  let p := i_pos b in
  let '(is, es, n) := zip_store (skipn p (i_ids b)) (skipn p (i_dists b)) xs in
  Some (mkIdd (firstn p (i_ids b) ++ is) (firstn p (i_dists b) ++ es) (p + n), n).

Definition idd_buf (I : Type) : buf (idd I) I :=
  mkBuf idd_push idd_extend i_pos (fun b => Some (length (i_ids b) - i_pos b)).

(** ** Ids, distances and associated data in three slices *)

(** search_output_buffer.rs:153-158 [IdDistanceAssociatedData]. *)
Record ida (I A : Type) := mkIda { a_ids : list I; a_dists : list f32; a_data : list A; a_pos : nat }.
Arguments mkIda {I A}. Arguments a_ids {I A}. Arguments a_dists {I A}.
Arguments a_data {I A}. Arguments a_pos {I A}.

(** 161-178 [new]. *)
Definition ida_new {I A} (ids : list I) (dists : list f32) (data : list A) : option (ida I A) :=
  if (length ids =? length dists) && (length ids =? length data)
  then Some (mkIda ids dists data 0) else None.

(** 192-209 [push]. *)
Definition ida_push {I A} (b : ida I A) (x : item (I * A)) : option (ida I A * bool) :=
  if a_pos b =? length (a_ids b) then Some (b, true)
  else
    match store (a_pos b) (fst (fst x)) (a_ids b), store (a_pos b) (snd x) (a_dists b),
          store (a_pos b) (snd (fst x)) (a_data b) with
    | Some ids, Some ds, Some das =>
        Some (mkIda ids ds das (S (a_pos b)), S (a_pos b) =? length (a_ids b))
    | _, _, _ => None
    end.

(** 222-237: the zipped loop. *)
Fixpoint zip_store3 {I A} (ids : list I) (ds : list f32) (das : list A) (xs : list (item (I * A)))
  : list I * list f32 * list A * nat :=
  match ids, ds, das, xs with
  | _ :: ids', _ :: ds', _ :: das', x :: xs' =>
      let '(is, es, os, n) := zip_store3 ids' ds' das' xs' in
      (fst (fst x) :: is, snd x :: es, snd (fst x) :: os, S n)
  | _, _, _, _ => (ids, ds, das, 0)
  end.

(** 215-240 [extend]. *)
Definition ida_extend {I A} (b : ida I A) (xs : list (item (I * A))) : option (ida I A * nat) :=
  let p := a_pos b in
  let '(is, es, os, n) :=
    zip_store3 (skipn p (a_ids b)) (skipn p (a_dists b)) (skipn p (a_data b)) xs in
  Some (mkIda (firstn p (a_ids b) ++ is) (firstn p (a_dists b) ++ es)
              (firstn p (a_data b) ++ os) (p + n), n).

Definition ida_buf (I A : Type) : buf (ida I A) (I * A) :=
  mkBuf ida_push ida_extend a_pos (fun b => Some (length (a_ids b) - a_pos b)).

(** ** A slice of neighbours, and a vector *)

(** neighbor/mod.rs:215-218 [BackInserter]. *)
Record back (I : Type) := mkBack { k_buf : list (item I); k_pos : nat }.
Arguments mkBack {I}. Arguments k_buf {I}. Arguments k_pos {I}.

(** neighbor/mod.rs:224-229 [BackInserter::new], 244-258 [push], 264-277 [extend]. *)
Definition back_new {I} (l : list (item I)) : back I := mkBack l 0.
Definition back_push {I} (b : back I) (x : item I) : option (back I * bool) :=
  if k_pos b =? length (k_buf b) then Some (b, true)
  else
    match store (k_pos b) x (k_buf b) with
    | Some l => Some (mkBack l (S (k_pos b)), S (k_pos b) =? length (k_buf b))
    | None => None
    end.
Fixpoint zip_store1 {I} (l : list (item I)) (xs : list (item I)) : list (item I) * nat :=
  match l, xs with
  | _ :: l', x :: xs' => let (r, n) := zip_store1 l' xs' in (x :: r, S n)
  | _, _ => (l, 0)
  end.
Definition back_extend {I} (b : back I) (xs : list (item I)) : option (back I * nat) :=
  let (r, n) := zip_store1 (skipn (k_pos b) (k_buf b)) xs in
  Some (mkBack (firstn (k_pos b) (k_buf b) ++ r) (k_pos b + n), n).
Definition back_buf (I : Type) : buf (back I) I :=
  mkBuf back_push back_extend k_pos (fun b => Some (length (k_buf b) - k_pos b)).

(** neighbor/mod.rs:280-305 [SearchOutputBuffer for Vec<Neighbor<I, D>>]. *)
Definition vec_buf (I : Type) : buf (list (item I)) I :=
  mkBuf (fun b x => Some (b ++ [x], false))
        (fun b xs => Some (b ++ xs, length (b ++ xs) - length b))
        (@length _) (fun _ => None).

(** ** The buffer of the disk index *)

(** disk_provider.rs:330-333 [SearchOutput]; a payload is (id, data, optional vector). *)
Record sout (A V : Type) := mkSout { o_out : ida nat A; o_vecs : option (list (option V)) }.
Arguments mkSout {A V}. Arguments o_out {A V}. Arguments o_vecs {A V}.
Definition payload (A V : Type) : Type := (nat * A * option V)%type.

(** 336-355 [SearchOutput::new]; [SErr] for the reported error, [SPanic] for the assertions
    of [IdDistanceAssociatedData::new]. *)
Definition sout_new {A V} (ids : list nat) (dists : list f32) (data : list A)
    (vecs : option (list (option V))) : sres (sout A V) :=
  if match vecs with Some v => negb (length ids =? length v) | None => false end then SErr
  else match ida_new ids dists data with
       | Some b => SOk (mkSout b vecs)
       | None => SPanic
       end.

(** 365-380 [push]. *)
Definition sout_push {A V} (b : sout A V) (x : item (payload A V)) : option (sout A V * bool) :=
  let position := a_pos (o_out b) in
  if position =? length (a_ids (o_out b)) then Some (b, true)
  else
    let '((id, data, vector), distance) := x in
    match ida_push (o_out b) ((id, data), distance) with
    | None => None
    | Some (b1, state) =>
        match o_vecs b with
        | None => Some (mkSout b1 None, state)
        | Some vs =>
            match store position vector vs with
            | None => None
            | Some vs' => Some (mkSout b1 (Some vs'), state)
            end
        end
    end.

(** Pushing until the buffer is full: 386-397 [extend]. *)
Fixpoint push_loop {S I} (push : S -> item I -> option (S * bool)) (b : S) (xs : list (item I))
  : option S :=
  match xs with
  | [] => Some b
  | x :: xs' =>
      match push b x with
      | None => None
      | Some (b', true) => Some b'
      | Some (b', false) => push_loop push b' xs'
      end
  end.
Definition sout_extend {A V} (b : sout A V) (xs : list (item (payload A V)))
  : option (sout A V * nat) :=
  match push_loop sout_push b xs with
  | None => None
  | Some b' => Some (b', a_pos (o_out b') - a_pos (o_out b))
  end.
Definition sout_buf (A V : Type) : buf (sout A V) (payload A V) :=
  mkBuf sout_push sout_extend (fun b => a_pos (o_out b))
        (fun b => Some (length (a_ids (o_out b)) - a_pos (o_out b))).

(** ** Post processors: [SearchPostProcess::post_process], glue.rs:649-667. *)
Section post.
Context {S I : Type} (B : buf S I).

Definition lift {A} (o : option A) : sres A :=
  match o with Some a => SOk a | None => SPanic end.

(** diskann-inmem provider.rs:907-950 [Translate]: ids without an external id are skipped;
    the counter is advanced only if the buffer still has room after the push. *)
Fixpoint translate (external : nat -> option I) (b : S) (count : nat) (cands : list nbr)
  : option (S * nat) :=
  match cands with
  | [] => Some (b, count)
  | c :: cands' =>
      match external (n_id c) with
      | None => translate external b count cands'
      | Some e =>
          match b_push B b (e, n_dist c) with
          | None => None
          | Some (b', false) => translate external b' (Datatypes.S count) cands'
          | Some (b', true) => Some (b', count)
          end
      end
  end.
Definition pp_translate (external : nat -> option I) (cands : list nbr) (b : S) : sres (S * nat) :=
  lift (translate external b 0 cands).

(** diskann-garnet provider.rs:1430-1453 [CopyExternalIds]. *)
Fixpoint copy_external (external : nat -> option I) (b : S) (cands : list nbr) : option S :=
  match cands with
  | [] => Some b
  | c :: cands' =>
      match external (n_id c) with
      | None => copy_external external b cands'
      | Some e =>
          match b_push B b (e, n_dist c) with
          | None => None
          | Some (b', true) => Some b'
          | Some (b', false) => copy_external external b' cands'
          end
      end
  end.
Definition pp_copy_external (external : nat -> option I) (cands : list nbr) (b : S)
  : sres (S * nat) :=
  match copy_external external b cands with
  | None => SPanic
  | Some b' => SOk (b', b_len B b' - b_len B b)
  end.
End post.

Section post_ids.
Context {S : Type} (B : buf S nat).

(** glue.rs:674-692 [CopyIds]. *)
Definition pp_copy (cands : list nbr) (b : S) : sres (S * nat) :=
  lift (b_extend B b (map to_item cands)).

(** diskann-providers postprocess.rs:40-64 [RemoveDeletedIdsAndCopy]. *)
Definition pp_remove_deleted (deleted : nat -> bool) (cands : list nbr) (b : S) : sres (S * nat) :=
  lift (b_extend B b (map to_item (filter (fun x => negb (deleted (n_id x))) cands))).

(** diskann-providers full_precision.rs:356-401 [Rerank]: [full i] is the full precision
    distance of the query to the vector of [i], [sort] is [sort_unstable_by]. *)
Definition pp_rerank (deleted : nat -> bool) (full : nat -> f32)
    (sort : list nbr -> option (list nbr)) (cands : list nbr) (b : S) : sres (S * nat) :=
  let reranked := map (fun x => mkNbr (n_id x) (full (n_id x)))
                      (filter (fun x => negb (deleted (n_id x))) cands) in
  match sort reranked with
  | None => SPanic
  | Some r => lift (b_extend B b (map to_item r))
  end.

(** diskann-providers full_precision.rs:417-475 [DeterminantDiversity]: [select] are the
    indices [determinant_diversity] chooses for these candidates ([None]: it fails). *)
Fixpoint pick (cands : list nbr) (idx : list nat) : option (list nbr) :=
  match idx with
  | [] => Some []
  | i :: idx' =>
      match nth_error cands i, pick cands idx' with
      | Some x, Some xs => Some (x :: xs)
      | _, _ => None
      end
  end.
Definition pp_diversity (select : list nbr -> option (list nat)) (cands : list nbr) (b : S)
  : sres (S * nat) :=
  match select cands with
  | None => SErr
  | Some idx =>
      match pick cands idx with
      | None => SPanic
      | Some xs => lift (b_extend B b (map to_item xs))
      end
  end.

(** diskann-bftree provider.rs:1564-1605 [Rerank]: [SOk None] is a transient error of the
    read, which skips the candidate; another error ends the search. *)
Fixpoint bf_fetch (full : nat -> sres (option f32)) (cands : list nbr) : sres (list nbr) :=
  match cands with
  | [] => SOk []
  | c :: cands' =>
      match full (n_id c) with
      | SOk r =>
          match bf_fetch full cands' with
          | SOk xs => SOk (match r with Some d => mkNbr (n_id c) d :: xs | None => xs end)
          | e => e
          end
      | SErr => SErr
      | SPanic => SPanic
      | SFuel => SFuel
      end
  end.
Definition pp_bf_rerank (full : nat -> sres (option f32)) (sort : list nbr -> option (list nbr))
    (cands : list nbr) (b : S) : sres (S * nat) :=
  match bf_fetch full cands with
  | SOk reranked =>
      match sort reranked with
      | None => SPanic
      | Some r => lift (b_extend B b (map to_item r))
      end
  | SErr => SErr
  | SPanic => SPanic
  | SFuel => SFuel
  end.
End post_ids.

(** ** Steps in front of a post processor: [SearchPostProcessStep], glue.rs:698-725, joined by
    [Pipeline], glue.rs:798-818 (whose [post_process] is the step applied to the tail). *)
Section steps.
Context {S : Type}.
Definition pp : Type := list nbr -> S -> sres (S * nat).

(** glue.rs:731-771 [FilterStartPoints]. *)
Definition step_start_points (starts : list nat) (next : pp) : pp :=
  fun cands b => next (filter (fun x => negb (seen (n_id x) starts)) cands) b.

(** labeled.rs:225-249 [Unfiltered], betafilter.rs:67-93 [Unwrap]. *)
Definition step_unwrap (next : pp) : pp := fun cands b => next cands b.

(** diskann-garnet provider.rs:1461-1526 [Rerank]: [full i] is the distance of the stored
    full precision vector, [None] if Garnet does not have it.  The results of the multi-read
    arrive in the order of the ids. *)
Fixpoint present (full : nat -> option f32) (cands : list nbr) : list nbr :=
  match cands with
  | [] => []
  | c :: cands' =>
      match full (n_id c) with
      | Some d => mkNbr (n_id c) d :: present full cands'
      | None => present full cands'
      end
  end.
Definition step_garnet_rerank (quantized : bool) (full : nat -> option f32)
    (sort : list nbr -> option (list nbr)) (next : pp) : pp :=
  fun cands b =>
    if quantized then
      match sort (present full cands) with
      | None => SPanic
      | Some r => next r b
      end
    else next cands b.

(** diskann-label-filter inline_beta_filter.rs:133-185 [FilterResults]; [accept i] is the
    predicate on the attributes of [i], [None] if they cannot be read or evaluated. *)
Fixpoint keep (accept : nat -> option bool) (cands : list nbr) : option (list nbr) :=
  match cands with
  | [] => Some []
  | c :: cands' =>
      match accept (n_id c) with
      | None => None
      | Some a =>
          match keep accept cands' with
          | None => None
          | Some xs => Some (if a then c :: xs else xs)
          end
      end
  end.
Definition step_filter_results (accept : nat -> option bool) (next : pp) : pp :=
  fun cands b => match keep accept cands with None => SErr | Some xs => next xs b end.
End steps.

(** ** The flat index *)

(** flat/index.rs:58-99 [knn_search].  [scan] are the pairs the visitor delivers, [fails]
    whether the scan ends with an error (every error is escalated).  Returns the buffer, the
    number of comparisons and the number of results; both are u32 in the code, which is not
    modelled. *)
Definition flat_search {S} (k : nat) (process : list nbr -> S -> sres (S * nat))
    (scan : list nbr) (fails : bool) (b : S) : sres (S * nat * nat) :=
  match insert_all (pq_new k) scan with
  | None => SPanic
  | Some q =>
      if fails then SErr
      else
        match pq_iter q with
        | None => SPanic
        | Some best =>
            match process (firstn k best) b with
            | SOk (b', n) => SOk (b', length scan, n)
            | SErr => SErr
            | SPanic => SPanic
            | SFuel => SFuel
            end
        end
  end.
