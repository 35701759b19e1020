(** Proofs about the aligned store and the neighbor provider. *)
From Coq Require Import List NArith PeanoNat Bool Lia ZifyNat ZifyN ZifyBool.
From Verif.Lib Require Import Base Lists.
From Verif.Adjacency Require Import Model Proofs Props.
From Verif.Tables Require Import Model Spec.
Import ListNotations.

(** ** Aligned store *)
Lemma div64 esz : (esz <> 0 -> 64 mod esz = 0 -> exists q, 64 = esz * q /\ 1 <= q)%N.
Proof.
  intros Z M. exists (64 / esz)%N. pose proof (N.div_mod 64 esz Z). split; [lia|].
  destruct (N.eq_dec (64 / esz) 0); [rewrite e in H; lia|lia].
Qed.
Lemma mod_multiple a b q : (b <> 0 -> q <> 0 -> (a mod (b * q)) mod b = a mod b)%N.
Proof.
  intros Hb Hq. rewrite N.mod_mul_r by assumption.
  rewrite (N.mul_comm b ((a / b) mod q)), N.mod_add by assumption. now apply N.mod_mod.
Qed.
Lemma with_capacity_ok umax addr esz maxv dim :
  (esz <> 0 -> 64 mod esz = 0 -> addr mod esz = 0 ->
   exists s, with_capacity umax addr esz maxv dim = Some s /\ av_max s = maxv /\ av_dim s = dim /\
     av_dim s <= av_pad s /\
     forall i, i < maxv -> exists off, av_slice s i = Some (off, dim) /\ off + dim <= av_count s /\
       (addr + esz * off) mod 64 = 0 /\ off = i * av_pad s + av_start s)%N.
Proof.
  intros Z M A. destruct (div64 esz Z M) as (q & Q & Q1).
  assert (EX : forall x, ((x mod 64) mod esz = x mod esz)%N).
  { intros x. rewrite Q. apply mod_multiple; lia. }
  assert (X0 : ((esz * dim mod 64) mod esz = 0)%N) by (rewrite EX, N.mul_comm; now apply N.mod_mul).
  assert (SUB : forall x, (x < 64 -> x mod esz = 0 -> exists k, 64 - x = esz * k)%N).
  { intros x L Hx. exists (q - x / esz)%N. pose proof (N.div_mod x esz Z). rewrite Hx in H.
    rewrite N.mul_sub_distr_l. lia. }
  unfold with_capacity. destruct (N.eqb_spec esz 0); [contradiction|]. rewrite M. cbn [N.eqb negb].
  set (extra := (esz * dim mod 64)%N) in *.
  assert (LX : (extra < 64)%N) by (apply N.mod_lt; lia).
  destruct (SUB extra LX X0) as (k & K).
  assert (MOD : ((64 - extra) mod esz = 0)%N) by (rewrite K, N.mul_comm; now apply N.mod_mul).
  assert (PAD : ((padded_dim esz dim) * esz mod 64 = 0)%N /\ (dim <= padded_dim esz dim)%N).
  { unfold padded_dim. fold extra. destruct (N.eqb_spec extra 0) as [E|E].
    - split; [|lia]. rewrite N.mul_comm. exact E.
    - split; [|apply N.le_add_r]. rewrite K, (N.mul_comm esz k), N.div_mul by assumption.
      rewrite N.mul_add_distr_r, (N.mul_comm k esz), <- K, (N.mul_comm dim esz).
      rewrite N.add_mod by lia. fold extra. rewrite (N.mod_small (64 - extra)) by lia.
      replace (extra + (64 - extra))%N with 64%N by lia. reflexivity. }
  destruct PAD as [P1 P2]. rewrite P1, MOD. cbn [N.eqb negb andb]. rewrite andb_false_r.
  set (p := padded_dim esz dim) in *.
  eexists. split; [reflexivity|]. cbn [av_max av_dim av_pad av_count av_start]. do 3 (split; [auto; lia|]).
  intros i Hi. unfold av_slice. cbn [av_max av_dim av_pad av_count av_start].
  apply N.ltb_lt in Hi. rewrite Hi. apply N.ltb_lt in Hi. eexists. split; [reflexivity|].
  assert (ST : (align_offset umax addr esz <= 64 / esz - 1)%N /\ ((addr + esz * align_offset umax addr esz) mod 64 = 0)%N).
  { unfold align_offset. destruct (N.eqb_spec (addr mod 64) 0) as [E|E].
    - rewrite N.mul_0_r, N.add_0_r. split; [lia|assumption].
    - rewrite A. cbn [N.eqb]. assert (LA : (addr mod 64 < 64)%N) by (apply N.mod_lt; lia).
      assert (A' : ((addr mod 64) mod esz = 0)%N) by (now rewrite EX).
      destruct (SUB _ LA A') as (j & J). rewrite J, (N.mul_comm esz j), N.div_mul by assumption.
      assert (D64 : (64 / esz = q)%N) by (rewrite Q, N.mul_comm; now apply N.div_mul).
      split.
      + rewrite D64. assert (esz * j < esz * q)%N by lia. apply N.mul_lt_mono_pos_l in H; lia.
      + rewrite <- J. rewrite N.add_mod by lia. rewrite (N.mod_small (64 - addr mod 64)) by lia.
        replace (addr mod 64 + (64 - addr mod 64))%N with 64%N by lia. reflexivity. }
  destruct ST as [S1 S2]. split; [|split; [|reflexivity]].
  - assert (i * p + p <= maxv * p)%N by (rewrite <- N.mul_succ_l; apply N.mul_le_mono_r; lia). lia.
  - rewrite N.mul_add_distr_l, N.add_assoc, (N.add_comm addr), <- N.add_assoc.
    rewrite N.add_mod by lia. rewrite S2, N.add_0_r, N.mod_mod by lia.
    replace (esz * (i * p))%N with (p * esz * i)%N by lia. rewrite N.mul_mod by lia. rewrite P1. reflexivity.
Qed.
Lemma slices_disjoint umax addr esz maxv dim s : with_capacity umax addr esz maxv dim = Some s ->
  forall i j oi oj l l', (i < j)%N -> av_slice s i = Some (oi, l) -> av_slice s j = Some (oj, l') -> (oi + l <= oj)%N.
Proof.
  unfold with_capacity. destruct (esz =? 0)%N; [discriminate|]. destruct (negb _); [discriminate|].
  destruct (_ && _); [discriminate|]. destruct (negb _); [discriminate|]. intros [= <-].
  unfold av_slice. cbn [av_max av_dim av_pad av_start]. intros i j oi oj l l' L.
  destruct (i <? maxv)%N; [|discriminate]. destruct (j <? maxv)%N; [|discriminate].
  intros [= <- <-] [= <- <-].
  assert (P : (dim <= padded_dim esz dim)%N) by (unfold padded_dim; destruct (_ =? 0)%N; [lia|apply N.le_add_r]).
  set (p := padded_dim esz dim) in *.
  assert (i * p + p <= j * p)%N by (rewrite <- N.mul_succ_l; apply N.mul_le_mono_r; lia). lia.
Qed.
Lemma with_capacity_panics umax addr esz maxv dim :
  (with_capacity umax addr esz maxv dim = None -> esz = 0 \/ 64 mod esz <> 0)%N.
Proof.
  intros H. destruct (N.eq_dec esz 0) as [|Z]; [now left|]. right. intros M.
  unfold with_capacity in H.
  (* the offsets do not matter for success *)
  destruct (with_capacity_ok umax 0 esz maxv dim Z M) as (s & E & _).
  { apply N.mod_0_l. assumption. }
  unfold with_capacity in E. destruct (esz =? 0)%N; [discriminate|]. destruct (negb (64 mod esz =? 0)%N); [discriminate|].
  destruct (_ && _); [discriminate|]. destruct (negb _); discriminate.
Qed.

(** ** Rows of the neighbor provider *)
Record npwf (p : nprov) : Prop := mkwf {
  w_dim : 1 <= np_dim p; w_pad : np_dim p <= np_pad p; w_start : np_start p <= 15;
  w_len : length (np_mem p) = np_size p * np_pad p + 15 }.
(** The list stored in row [id]. *)
Definition row_is (p : nprov) (id : nat) (l : list nat) : Prop :=
  length l <= np_dim p - 1 /\ firstn (length l) (np_words p id) = l /\
  nth_error (np_words p id) (np_dim p - 1) = Some (length l).

Lemma mem_put_length off l mem : off + length l <= length mem -> length (mem_put off l mem) = length mem.
Proof. intros H. unfold mem_put. rewrite !app_length, firstn_length, skipn_length. lia. Qed.
Lemma mem_put_nth off l mem i : off + length l <= length mem ->
  nth_error (mem_put off l mem) i =
  if (off <=? i) && (i <? off + length l) then nth_error l (i - off) else nth_error mem i.
Proof.
  intros H. unfold mem_put. destruct (Nat.leb_spec off i) as [L|L]; cbn [andb].
  - rewrite nth_error_app2 by (rewrite firstn_length; lia). rewrite firstn_length, Nat.min_l by lia.
    destruct (Nat.ltb_spec i (off + length l)) as [R|R].
    + now rewrite nth_error_app1 by lia.
    + rewrite nth_error_app2 by lia. rewrite nth_error_skipn'. f_equal. lia.
  - rewrite nth_error_app1 by (rewrite firstn_length; lia). now apply nth_error_firstn'.
Qed.
Lemma row_fits p id : npwf p -> id < np_size p -> np_row p id + np_dim p <= length (np_mem p).
Proof.
  intros W H. unfold np_row. rewrite (w_len p W). pose proof (w_start p W). pose proof (w_pad p W).
  assert (id * np_pad p + np_pad p <= np_size p * np_pad p) by (replace (id * np_pad p + np_pad p) with (S id * np_pad p) by lia; apply Nat.mul_le_mono_r; lia). lia.
Qed.
Lemma words_length p id : npwf p -> id < np_size p -> length (np_words p id) = np_dim p.
Proof.
  intros W H. unfold np_words. rewrite firstn_length, skipn_length. pose proof (row_fits p id W H). lia.
Qed.
Lemma words_nth p id i : i < np_dim p -> nth_error (np_words p id) i = nth_error (np_mem p) (np_row p id + i).
Proof. intros H. unfold np_words. rewrite nth_error_firstn' by assumption. apply nth_error_skipn'. Qed.
Lemma store_wf p id raw : npwf p -> id < np_size p -> length raw = np_dim p -> npwf (np_store p id raw).
Proof.
  intros W H L. pose proof (row_fits p id W H). destruct W. constructor; cbn [np_store np_with np_dim np_pad np_start np_size np_mem]; auto.
  rewrite mem_put_length; [assumption|lia].
Qed.
Lemma store_words p id raw j : npwf p -> id < np_size p -> length raw = np_dim p -> j < np_size p ->
  np_words (np_store p id raw) j = if j =? id then raw else np_words p j.
Proof.
  intros W H L J. pose proof (row_fits p id W H) as F. pose proof (row_fits p j W J) as FJ.
  pose proof (w_pad p W) as WP.
  assert (LEN : length (np_words (np_store p id raw) j) = np_dim p).
  { apply (words_length (np_store p id raw) j); [now apply store_wf|assumption]. }
  apply nth_error_ext. intros i.
  destruct (Nat.lt_ge_cases i (np_dim p)) as [I|I].
  - rewrite (words_nth (np_store p id raw)) by assumption.
    change (np_row (np_store p id raw) j) with (np_row p j). cbn [np_store np_with np_mem].
    rewrite mem_put_nth by lia. destruct (Nat.eqb_spec j id) as [->|D].
    + destruct (Nat.leb_spec (np_row p id) (np_row p id + i)); [|lia].
      destruct (Nat.ltb_spec (np_row p id + i) (np_row p id + length raw)); [|lia]. cbn [andb].
      replace (np_row p id + i - np_row p id) with i by lia. reflexivity.
    + rewrite words_nth by assumption.
      assert (HH : np_row p j + i < np_row p id \/ np_row p id + length raw <= np_row p j + i).
      { unfold np_row. destruct (Nat.lt_ge_cases j id).
        - left. assert (j * np_pad p + np_pad p <= id * np_pad p) by (replace (j * np_pad p + np_pad p) with (S j * np_pad p) by lia; apply Nat.mul_le_mono_r; lia). lia.
        - right. assert (id * np_pad p + np_pad p <= j * np_pad p) by (replace (id * np_pad p + np_pad p) with (S id * np_pad p) by lia; apply Nat.mul_le_mono_r; lia). lia. }
      destruct (Nat.leb_spec (np_row p id) (np_row p j + i)); [|reflexivity].
      destruct (Nat.ltb_spec (np_row p j + i) (np_row p id + length raw)); [lia|reflexivity].
  - transitivity (@None nat); [apply nth_error_None; lia|]. symmetry. apply nth_error_None.
    destruct (j =? id); [lia|]. rewrite words_length by assumption. lia.
Qed.
Lemma store_row p id raw j l : npwf p -> id < np_size p -> length raw = np_dim p -> j < np_size p ->
  row_is (np_store p id raw) j l <->
  if j =? id then (length l <= np_dim p - 1 /\ firstn (length l) raw = l /\ nth_error raw (np_dim p - 1) = Some (length l))
  else row_is p j l.
Proof.
  intros W H L J. unfold row_is. rewrite store_words by assumption. cbn [np_store np_with np_dim].
  destruct (j =? id); reflexivity.
Qed.
Lemma firstn_set_nth {A} (x : A) n : forall l k, n <= k -> firstn n (set_nth k x l) = firstn n l.
Proof.
  induction n as [|n IH]; intros l k H; [reflexivity|]. destruct l as [|y l]; [destruct k; reflexivity|].
  destruct k as [|k]; [lia|]. cbn [set_nth firstn]. rewrite IH by lia. reflexivity.
Qed.
Lemma firstn_S_set_nth {A} (x : A) : forall n l, n < length l -> firstn (S n) (set_nth n x l) = firstn n l ++ [x].
Proof.
  induction n as [|n IH]; intros [|y l] H; cbn [length] in H; try lia.
  - reflexivity.
  - cbn [set_nth]. change (y :: firstn (S n) (set_nth n x l) = y :: firstn n l ++ [x]). rewrite IH by lia. reflexivity.
Qed.

Lemma get_row p id l : npwf p -> id < np_size p -> row_is p id l -> np_get p id = Some l.
Proof.
  intros W H (R1 & R2 & R3). unfold np_get. apply Nat.ltb_lt in H. rewrite H. apply Nat.ltb_lt in H.
  rewrite R3, words_length by assumption. destruct (Nat.leb_spec (length l) (np_dim p)); [|lia].
  now rewrite R2.
Qed.
Lemma raw_row dim raw n : length raw = dim -> 1 <= dim -> n <= dim - 1 ->
  length (set_nth (dim - 1) n raw) = dim /\ firstn n (set_nth (dim - 1) n raw) = firstn n raw /\
  nth_error (set_nth (dim - 1) n raw) (dim - 1) = Some n.
Proof.
  intros L D N. rewrite set_nth_length. repeat split; auto.
  - now apply firstn_set_nth.
  - rewrite nth_error_set_nth, Nat.eqb_refl. destruct (Nat.ltb_spec (dim - 1) (length raw)); [reflexivity|lia].
Qed.
Lemma set_row p id l : npwf p -> id < np_size p -> length l <= np_dim p - 1 ->
  exists p', np_set p id l = Some p' /\ npwf p' /\ np_size p' = np_size p /\ np_dim p' = np_dim p /\ np_extra p' = np_extra p /\
    row_is p' id l /\ forall j k, j < np_size p -> j <> id -> row_is p j k -> row_is p' j k.
Proof.
  intros W H L. pose proof (w_dim p W) as D1. unfold np_set.
  destruct (Nat.ltb_spec (length l) (np_dim p)); [|lia]. cbn [negb].
  assert (HH := H). apply Nat.ltb_lt in HH. rewrite HH.
  set (raw := l ++ skipn (length l) (np_words p id)).
  assert (LR : length raw = np_dim p).
  { unfold raw. rewrite app_length, skipn_length, words_length by assumption. lia. }
  destruct (raw_row (np_dim p) raw (length l) LR D1 L) as (Q1 & Q2 & Q3).
  eexists. split; [reflexivity|]. split; [now apply store_wf|]. do 3 (split; [reflexivity|]). split.
  - apply store_row; auto. rewrite Nat.eqb_refl. split; [assumption|]. split; [|assumption]. rewrite Q2.
    unfold raw. rewrite firstn_app, Nat.sub_diag, firstn_O, app_nil_r. apply firstn_all.
  - intros j k J JD R. apply store_row; auto. destruct (Nat.eqb_spec j id); [congruence|assumption].
Qed.
Lemma in_dec_contains l x b : contains_simd Idu32 l x = Some b ->
  b = if in_dec Nat.eq_dec x l then true else false.
Proof.
  intros H. destruct (C16_contains_simd_is_exact Idu32 l x) as (b' & E & I). rewrite E in H. injection H as <-.
  destruct (in_dec Nat.eq_dec x l) as [Y|Y]; [now apply I|]. destruct b'; [|reflexivity]. exfalso. apply Y. now apply I.
Qed.
Lemma append_loop_spec dim : forall new raw n, 1 <= dim -> length raw = dim -> n <= dim - 1 ->
  exists raw' n', append_loop dim raw n new = Some (raw', n') /\ length raw' = dim /\ n' <= dim - 1 /\
    firstn n' raw' = offer_upto (dim - 1) (firstn n raw) new.
Proof.
  induction new as [|x new IH]; intros raw n D L N; cbn [append_loop offer_upto].
  - exists raw, n. auto.
  - destruct (C16_contains_simd_is_exact Idu32 (firstn n raw) x) as (b & E & _). rewrite E.
    apply in_dec_contains in E. subst b. destruct (in_dec Nat.eq_dec x (firstn n raw)) as [Y|Y]; [now apply IH|].
    rewrite firstn_length, L, Nat.min_l by lia. destruct (Nat.ltb_spec n (dim - 1)) as [LL|LL].
    + destruct (IH (set_nth n x raw) (n + 1)) as (raw' & n' & E & A & B & C); auto.
      { now rewrite set_nth_length. } { lia. }
      exists raw', n'. do 3 (split; [assumption|]). rewrite C. f_equal.
      rewrite Nat.add_1_r. apply firstn_S_set_nth. lia.
    + exists raw, n. auto.
Qed.
Lemma append_row p id l new : npwf p -> id < np_size p -> row_is p id l ->
  exists p', np_append p id new = Some p' /\ npwf p' /\ np_size p' = np_size p /\ np_dim p' = np_dim p /\ np_extra p' = np_extra p /\
    row_is p' id (offer_upto (np_dim p - 1) l new) /\ forall j k, j < np_size p -> j <> id -> row_is p j k -> row_is p' j k.
Proof.
  intros W H (R1 & R2 & R3). pose proof (w_dim p W) as D1. unfold np_append.
  assert (HH := H). apply Nat.ltb_lt in HH. rewrite HH, R3.
  pose proof (words_length p id W H) as LW. destruct (Nat.ltb_spec (length (np_words p id)) (length l)); [lia|].
  destruct (append_loop_spec (np_dim p) new (np_words p id) (length l) D1 LW R1) as (raw' & n' & E & A & B & C).
  rewrite E. rewrite R2 in C. destruct (raw_row (np_dim p) raw' n' A D1 B) as (Q1 & Q2 & Q3).
  assert (LN : length (offer_upto (np_dim p - 1) l new) = n').
  { rewrite <- C, firstn_length. lia. }
  eexists. split; [reflexivity|]. split; [now apply store_wf|]. do 3 (split; [reflexivity|]). split.
  - apply store_row; auto. rewrite Nat.eqb_refl, LN. split; [assumption|]. split; [|assumption]. now rewrite Q2.
  - intros j k J JD R. apply store_row; auto. destruct (Nat.eqb_spec j id); [congruence|assumption].
Qed.

(** ** Histories *)
Definition nrep (size cap : nat) (m : nspec) (p : nprov) : Prop :=
  npwf p /\ np_size p = size /\ np_dim p = cap + 1 /\ forall id, id < size -> row_is p id (m id).
Lemma np_op_refines size cap m p o : nrep size cap m p ->
  nrep size cap (fst (nspec_op size cap m o)) (fst (np_op p o)) /\
  snd (np_op p o) = snd (nspec_op size cap m o) /\ np_extra (fst (np_op p o)) = np_extra p.
Proof.
  intros R. pose proof R as (W & S1 & D1 & RR). destruct o as [id l|id l|id]; cbn [np_op nspec_op].
  - destruct (Nat.ltb_spec id size) as [L|L]; destruct (Nat.leb_spec (length l) cap) as [LL|LL]; cbn [andb].
    + destruct (set_row p id l W) as (p' & E & W' & Sz & Dm & Ex & RW & OT); [lia|lia|]. rewrite E. cbn [fst snd].
      split; [|auto]. split; [assumption|]. split; [congruence|]. split; [congruence|].
      intros j Hj. destruct (Nat.eqb_spec j id) as [->|D]; [assumption|]. apply OT; auto; lia.
    + unfold np_set. destruct (Nat.ltb_spec (length l) (np_dim p)); [lia|]. cbn [negb fst snd]. auto.
    + unfold np_set. destruct (negb _); [cbn [fst snd]; auto|]. destruct (Nat.ltb_spec id (np_size p)); [lia|]. cbn [fst snd]. auto.
    + unfold np_set. destruct (negb _); [cbn [fst snd]; auto|]. destruct (Nat.ltb_spec id (np_size p)); [lia|]. cbn [fst snd]. auto.
  - destruct (Nat.ltb_spec id size) as [L|L].
    + destruct (append_row p id (m id) l W) as (p' & E & W' & Sz & Dm & Ex & RW & OT); [lia|auto|]. rewrite E. cbn [fst snd].
      split; [|auto]. split; [assumption|]. split; [congruence|]. split; [congruence|].
      intros j Hj. destruct (Nat.eqb_spec j id) as [->|D].
      * replace cap with (np_dim p - 1) by lia. assumption.
      * apply OT; auto; lia.
    + unfold np_append. destruct (Nat.ltb_spec id (np_size p)); [lia|]. cbn [fst snd]. auto.
  - destruct (Nat.ltb_spec id size) as [L|L].
    + rewrite (get_row p id (m id)) by (auto; lia). cbn [fst snd]. auto.
    + unfold np_get. destruct (Nat.ltb_spec id (np_size p)); [lia|]. cbn [fst snd]. auto.
Qed.
Lemma np_run_refines size cap : forall ops m p, nrep size cap m p ->
  nrep size cap (fst (nspec_run size cap m ops)) (fst (np_run p ops)) /\
  snd (np_run p ops) = snd (nspec_run size cap m ops) /\ np_extra (fst (np_run p ops)) = np_extra p.
Proof.
  induction ops as [|o ops IH]; intros m p R; [auto|]. cbn [np_run nspec_run].
  destruct (np_op_refines size cap m p o R) as (R1 & O1 & X1).
  destruct (np_op p o) as [p1 r1]. destruct (nspec_op size cap m o) as [m1 s1]. cbn [fst snd] in *.
  destruct (IH m1 p1 R1) as (R2 & O2 & X2).
  destruct (np_run p1 ops) as [p2 r2]. destruct (nspec_run size cap m1 ops) as [m2 s2]. cbn [fst snd] in *.
  subst. split; [assumption|]. split; [reflexivity|congruence].
Qed.
Lemma np_new_rep addr maxp starts width :
  nrep (maxp + starts) width (fun _ => []) (np_new addr maxp starts width).
Proof.
  unfold np_new.
  set (dim := width + 1). set (pad := if dim mod 16 =? 0 then dim else dim + (16 - dim mod 16)).
  set (st := if addr mod 16 =? 0 then 0 else 16 - addr mod 16).
  assert (W : npwf (mknp (repeat 0 ((maxp + starts) * pad + 15)) (maxp + starts) st dim pad starts)).
  { constructor; cbn [np_dim np_pad np_start np_mem np_size].
    - unfold dim. lia.
    - unfold pad. destruct (_ =? 0); lia.
    - unfold st. destruct (Nat.eqb_spec (addr mod 16) 0); lia.
    - apply repeat_length. }
  split; [assumption|]. split; [reflexivity|]. split; [reflexivity|]. intros id H.
  split; [cbn [length]; lia|]. split; [reflexivity|]. cbn [np_dim length].
  rewrite words_nth by (cbn [np_dim]; unfold dim; lia).
  pose proof (row_fits _ id W H) as F. cbn [np_mem np_dim] in F |- *.
  rewrite repeat_length in F.
  rewrite (nth_error_nth' _ 0) by (rewrite repeat_length; lia). now rewrite nth_repeat.
Qed.

(** ** The specification of append *)
Lemma offer_upto_fresh cap : forall new l, length l <= cap ->
  offer_upto cap l new = firstn cap (l ++ fresh l new).
Proof.
  induction new as [|x new IH]; intros l L; cbn [offer_upto fresh].
  - rewrite app_nil_r. symmetry. now apply firstn_all2.
  - destruct (in_dec Nat.eq_dec x l); [now apply IH|].
    destruct (Nat.ltb_spec (length l) cap).
    + rewrite IH by (rewrite app_length; cbn [length]; lia). now rewrite <- app_assoc.
    + rewrite firstn_app. rewrite firstn_all2 by lia. replace (cap - length l) with 0 by lia.
      cbn [firstn]. now rewrite app_nil_r.
Qed.
Lemma fresh_spec : forall new l, NoDup l -> NoDup (l ++ fresh l new) /\
  (forall x, In x (fresh l new) <-> In x new /\ ~ In x l).
Proof.
  induction new as [|x new IH]; intros l ND; cbn [fresh].
  - rewrite app_nil_r. split; [assumption|]. cbn. tauto.
  - destruct (in_dec Nat.eq_dec x l) as [I|I].
    + destruct (IH l ND) as [A B]. split; [assumption|]. intros y. rewrite B. cbn [In].
      split; [tauto|]. intros [[<-|H] N]; [contradiction|tauto].
    + destruct (IH (l ++ [x])) as [A B]; [now apply NoDup_snoc|].
      rewrite <- app_assoc in A. split; [exact A|]. intros y. cbn [In]. rewrite B, in_app_iff. cbn [In].
      destruct (Nat.eq_dec x y) as [->|D]; [tauto|]. tauto.
Qed.
