(** C125: Latin hypercube samples have one value from every stratum in every column. *)
From Coq Require Import List PeanoNat Bool Lia Permutation.
From Verif.Lib Require Import Base Lists.
From Verif.Medoid Require Import Model Model2 Spec2 Proofs3.
Import ListNotations.

Theorem C125_latin : forall {T : Type} (tz : T) d1 d2 (ncols : nat) (data : list (list T)) (n : nat),
  in_range d1 -> in_range d2 -> 0 < ncols -> Forall (fun r => length r = ncols) data -> 0 < n <= length data ->
  exists m, sample_latin_hypercube tz d1 d2 ncols data n = Some m /\ latin data ncols n m.
Proof.
  intros T tz d1 d2 ncols data n D1 D2 C F (P & N). unfold sample_latin_hypercube. replace ((ncols =? 0) || (length data =? 0)) with false by (symmetry; apply orb_false_iff; split; apply Nat.eqb_neq; lia).
  destruct (diagonal_ok d1 data ncols n D1 F P N) as (m & -> & L & G & I). destruct (shuffle_ok d2 ncols n m D2 P L G) as (m' & E & L' & G' & PM). exists m'. split; [exact E|]. split; [exact L'|]. split; [exact G'|].
  intros k K. destruct (column_vs m ncols k G K) as (vs & V & LV). exists vs. split; [congruence|]. split; [|rewrite V; apply PM].
  intros s v X. apply (map_nth_error Some) in X. rewrite V in X. unfold column in X. rewrite nth_error_map in X. destruct (nth_error m s) as [r|] eqn:M; [|discriminate]. cbn in X. injection X as X. now apply (I s r k v).
Qed.
Print Assumptions C125_latin.

(** Asking for more samples than there are rows is a panic; without rows or columns there are defaults. *)
Theorem C125_panics : forall {T : Type} (tz : T) d1 d2 (ncols : nat) (data : list (list T)) (n : nat),
  in_range d1 -> in_range d2 -> Forall (fun r => length r = ncols) data -> 0 < n ->
  (sample_latin_hypercube tz d1 d2 ncols data n = None <-> 0 < ncols /\ 0 < length data < n) /\
  (ncols = 0 \/ data = [] -> sample_latin_hypercube tz d1 d2 ncols data n = Some (repeat (repeat tz ncols) n)).
Proof.
  intros T tz d1 d2 ncols data n D1 D2 F P. split; [split|].
  - intros H. destruct (Nat.eq_dec ncols 0) as [->|C]; [discriminate H|]. destruct data as [|r data]; [unfold sample_latin_hypercube in H; cbn in H; rewrite orb_true_r in H; discriminate|]. set (l := r :: data) in *.
    split; [lia|]. split; [cbn; lia|]. destruct (Nat.lt_ge_cases (length l) n) as [X|X]; [exact X|]. exfalso. destruct (C125_latin tz d1 d2 ncols l n D1 D2 ltac:(lia) F ltac:(lia)) as (m & E & _). congruence.
  - intros (C & L & N). unfold sample_latin_hypercube. replace ((ncols =? 0) || (length data =? 0)) with false by (symmetry; apply orb_false_iff; split; apply Nat.eqb_neq; lia).
    replace (diagonal d1 data ncols n) with (@None (list (list T))); [reflexivity|]. unfold diagonal. destruct n as [|n]; [lia|]. destruct ncols as [|ncols]; [lia|]. cbn [seq map all]. unfold cell at 1. cbv zeta. rewrite Nat.div_small by exact N. reflexivity.
  - intros H. unfold sample_latin_hypercube. replace ((ncols =? 0) || (length data =? 0)) with true; [reflexivity|]. symmetry. apply orb_true_iff. destruct H as [->|H]; [now left|right; now rewrite H].
Qed.
Print Assumptions C125_panics.

(** Start points of this strategy: as many as announced, or a panic when there are fewer rows. *)
Theorem C125_start : forall {T D F : Type} (o : ops T D F) sample random d1 d2 (ncols : nat) (data : list (list T)) (n : nat),
  in_range d1 -> in_range d2 -> Forall (fun r => length r = ncols) data -> 0 < n ->
  match compute o sample random (sample_latin_hypercube (tzero o) d1 d2) (LatinHyperCube n) ncols data with
  | Ok l => length l = count (LatinHyperCube n) /\ (data <> [] -> 0 < ncols -> latin data ncols n l)
  | Fail _ => False
  | Panic => 0 < ncols /\ 0 < length data < n
  end.
Proof.
  intros T D F o sample random d1 d2 ncols data n D1 D2 W P. cbn [compute count]. destruct (C125_panics (tzero o) d1 d2 ncols data n D1 D2 W P) as (A & B). destruct (sample_latin_hypercube (tzero o) d1 d2 ncols data n) as [l|] eqn:E; [|now apply A].
  assert (X : data <> [] -> 0 < ncols -> latin data ncols n l).
  { intros NE C. assert (n <= length data). { destruct (Nat.lt_ge_cases (length data) n) as [X|X]; [|exact X]. assert (Y : Some l = None) by (apply A; split; [exact C|]; split; [destruct data; [congruence|cbn; lia]|exact X]). discriminate. }
    destruct (C125_latin (tzero o) d1 d2 ncols data n D1 D2 C W ltac:(lia)) as (m & E' & L). congruence. }
  split; [|exact X]. destruct data as [|r data]; [specialize (B (or_intror eq_refl)); injection B as ->; apply repeat_length|]. destruct ncols as [|c]; [specialize (B (or_introl eq_refl)); injection B as ->; apply repeat_length|]. apply X; [discriminate|lia].
Qed.
Print Assumptions C125_start.

(** The rows that are left over when the data is split into [n] equal strata are never looked at. *)
Theorem C125_tail : forall {T : Type} (tz : T) d1 d2 (ncols : nat) (data data' : list (list T)) (n : nat),
  in_range d1 -> 0 < n -> length data = length data' -> firstn (n * (length data / n)) data = firstn (n * (length data / n)) data' ->
  sample_latin_hypercube tz d1 d2 ncols data n = sample_latin_hypercube tz d1 d2 ncols data' n.
Proof.
  intros T tz d1 d2 ncols data data' n D P L H. unfold sample_latin_hypercube. rewrite <- L. replace (diagonal d1 data' ncols n) with (diagonal d1 data ncols n); [reflexivity|]. unfold diagonal. f_equal. apply map_ext_in. intros s I. apply in_seq in I. f_equal. apply map_ext. intros k.
  unfold cell. cbv zeta. rewrite <- L. unfold random_range. set (w := length data / n) in *. destruct (Nat.ltb_spec (s * w) ((s + 1) * w)) as [X|X]; [|reflexivity]. pose proof (D s k _ _ X) as Y. set (i := d1 s k (s * w) ((s + 1) * w)) in *.
  assert (G : i < n * w) by (clear - Y I; assert ((s + 1) * w <= n * w) by (apply Nat.mul_le_mono_r; lia); lia).
  apply (f_equal (fun l => nth_error l i)) in H. rewrite !nth_error_firstn' in H by exact G. now rewrite H.
Qed.
Print Assumptions C125_tail.

(** Five rows in two strata, where the fifth is never looked at, or in three, where the last two are not. *)
Example C125_example :
  let data := [[1; 10]; [2; 20]; [3; 30]; [4; 40]; [5; 50]] in
  in_range (fun _ _ lo _ => lo) /\ sample_latin_hypercube 0 (fun _ _ lo _ => lo) (fun a b lo _ => lo) 2 data 2 = Some [[3; 30]; [1; 10]] /\
  sample_latin_hypercube 0 (fun _ _ _ hi => hi - 1) (fun a b lo hi => if b =? 0 then lo else hi - 1) 2 data 2 = Some [[4; 40]; [2; 20]] /\
  sample_latin_hypercube 0 (fun _ _ lo _ => lo) (fun a b lo _ => lo) 2 data 6 = None /\ sample_latin_hypercube 0 (fun _ _ lo _ => lo) (fun a b lo _ => lo) 2 data 3 = Some [[3; 30]; [1; 10]; [2; 20]].
Proof. cbv zeta. split; [intros a b lo hi H; lia|]. repeat split; reflexivity. Qed.
