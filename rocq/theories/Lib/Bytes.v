(** Byte strings: little-endian integers, slices, positional writes.  A byte is an [N]
    (below 256 where it matters); a file is a list of bytes. *)
From Coq Require Import List NArith Lia ZifyNat ZifyN ZifyBool.
From Verif.Lib Require Import Base Lists.
Import ListNotations.

Notation bytes := (list N).
Definition is_bytes (b : bytes) : Prop := Forall (fun x => (x < 256)%N) b.

(** [to_le_bytes] of an [n]-byte unsigned integer. *)
Fixpoint le_enc (n : nat) (x : N) : bytes :=
  match n with O => [] | S n' => (x mod 256)%N :: le_enc n' (x / 256)%N end.
(** [from_le_bytes]. *)
Fixpoint le_dec (b : bytes) : N :=
  match b with [] => 0%N | x :: b' => (x + 256 * le_dec b')%N end.

Fixpoint pow256 (n : nat) : N := match n with O => 1%N | S n' => (256 * pow256 n')%N end.
Definition u32_ok (x : N) : Prop := (x < pow256 4)%N.
Definition u64_ok (x : N) : Prop := (x < pow256 8)%N.

Lemma pow256_pos n : (0 < pow256 n)%N.
Proof. induction n; cbn [pow256]; lia. Qed.
Lemma le_enc_length n x : length (le_enc n x) = n.
Proof. revert x. induction n; intros; cbn; auto. Qed.
Lemma le_enc_bytes n x : is_bytes (le_enc n x).
Proof.
  revert x. induction n; intros; cbn; constructor; auto.
  - apply N.mod_lt. lia.
  - apply IHn.
Qed.
Lemma le_dec_enc n x : (x < pow256 n)%N -> le_dec (le_enc n x) = x.
Proof.
  revert x. induction n; intros x H.
  - cbn [pow256] in H. cbn. lia.
  - cbn [pow256] in H. cbn [le_enc le_dec]. rewrite IHn.
    + pose proof (N.div_mod x 256). lia.
    + apply N.div_lt_upper_bound; lia.
Qed.
Lemma le_dec_bound b : is_bytes b -> (le_dec b < pow256 (length b))%N.
Proof.
  intros H; induction H; cbn [length pow256 le_dec]; lia.
Qed.
Lemma le_enc_dec b : is_bytes b -> le_enc (length b) (le_dec b) = b.
Proof.
  intros H; induction H as [|x b Hx H IH]; cbn [length le_enc le_dec]; auto.
  f_equal.
  - replace (x + 256 * le_dec b)%N with (x + le_dec b * 256)%N by lia.
    rewrite N.mod_add by lia. apply N.mod_small; auto.
  - replace ((x + 256 * le_dec b) / 256)%N with (le_dec b); auto.
    replace (x + 256 * le_dec b)%N with (le_dec b * 256 + x)%N by lia.
    rewrite N.div_add_l by lia. rewrite (N.div_small x 256); lia.
Qed.
Lemma le_enc_inj n x y : (x < pow256 n)%N -> (y < pow256 n)%N -> le_enc n x = le_enc n y -> x = y.
Proof. intros Hx Hy H. rewrite <- (le_dec_enc n x), <- (le_dec_enc n y), H; auto. Qed.

(** [&b[off .. off + n]]; the callers check that it is in range. *)
Definition slice (off n : nat) (b : bytes) : bytes := firstn n (skipn off b).
Lemma slice_length off n b : off + n <= length b -> length (slice off n b) = n.
Proof. intros. unfold slice. rewrite firstn_length, skipn_length. lia. Qed.
Lemma slice_app_l off n a b : off + n <= length a -> slice off n (a ++ b) = slice off n a.
Proof.
  intros. unfold slice. rewrite skipn_app, firstn_app, skipn_length.
  replace (n - (length a - off)) with 0 by lia. rewrite firstn_O, app_nil_r. auto.
Qed.
Lemma slice_app_r off n a b : length a <= off -> slice off n (a ++ b) = slice (off - length a) n b.
Proof. intros. unfold slice. rewrite skipn_app, skipn_all2 by lia. auto. Qed.
Lemma slice_0_exact n a b : length a = n -> slice 0 n (a ++ b) = a.
Proof.
  intros <-. unfold slice. cbn [skipn]. rewrite firstn_app, firstn_all.
  replace (length a - length a) with 0 by lia. cbn. apply app_nil_r.
Qed.
Lemma slice_all a : slice 0 (length a) a = a.
Proof. unfold slice. cbn. apply firstn_all. Qed.
Lemma slice_slice o1 n1 o2 n2 b : o2 + n2 <= n1 ->
  slice o2 n2 (slice o1 n1 b) = slice (o1 + o2) n2 b.
Proof.
  intros. unfold slice. rewrite skipn_firstn_comm, firstn_firstn.
  rewrite Nat.min_l by lia. rewrite skipn_skipn'. reflexivity.
Qed.
Lemma slice_nil_n off b : slice off 0 b = [].
Proof. reflexivity. Qed.
Lemma nth_error_slice off n b i : i < n -> nth_error (slice off n b) i = nth_error b (off + i).
Proof.
  intros. unfold slice. rewrite nth_error_firstn' by lia. rewrite nth_error_skipn'. auto.
Qed.

(** [write_all] at position [pos] of a file (positions never pass the end of the file in
    the modelled code): overwrite, then extend. *)
Definition put (pos : nat) (b f : bytes) : bytes :=
  firstn pos f ++ b ++ skipn (pos + length b) f.
Lemma put_nil pos f : pos <= length f -> put pos [] f = f.
Proof. intros. unfold put. cbn. rewrite Nat.add_0_r. apply firstn_skipn. Qed.
Lemma put_length pos b f : pos <= length f -> length (put pos b f) = Nat.max (length f) (pos + length b).
Proof. intros. unfold put. rewrite !app_length, firstn_length, skipn_length. lia. Qed.
Lemma put_end b f : put (length f) b f = f ++ b.
Proof. unfold put. rewrite firstn_all, skipn_all2 by lia. rewrite app_nil_r. auto. Qed.
Lemma slice_put_same pos b f : pos <= length f -> slice pos (length b) (put pos b f) = b.
Proof.
  intros. unfold slice, put. rewrite skipn_app, firstn_length, skipn_all2 by (rewrite firstn_length; lia).
  replace (pos - Nat.min pos (length f)) with 0 by lia. cbn.
  rewrite firstn_app, firstn_all. replace (length b - length b) with 0 by lia. cbn. apply app_nil_r.
Qed.
Lemma nth_error_put pos b f i : pos <= length f ->
  nth_error (put pos b f) i =
  if i <? pos then nth_error f i
  else if i <? pos + length b then nth_error b (i - pos) else nth_error f i.
Proof.
  intros. unfold put.
  destruct (Nat.ltb_spec i pos).
  - rewrite nth_error_app1 by (rewrite firstn_length; lia). apply nth_error_firstn'; lia.
  - rewrite nth_error_app2 by (rewrite firstn_length; lia). rewrite firstn_length, Nat.min_l by lia.
    destruct (Nat.ltb_spec i (pos + length b)).
    + apply nth_error_app1; lia.
    + rewrite nth_error_app2 by lia. rewrite nth_error_skipn'. f_equal. lia.
Qed.
Lemma put_put pos a b f : pos <= length f ->
  put (pos + length a) b (put pos a f) = put pos (a ++ b) f.
Proof.
  intros HP. apply nth_error_ext. intros i.
  rewrite nth_error_put by (rewrite put_length by auto; lia).
  rewrite !nth_error_put by auto. rewrite app_length.
  destruct (Nat.ltb_spec i (pos + length a)), (Nat.ltb_spec i pos),
    (Nat.ltb_spec i (pos + length a + length b)), (Nat.ltb_spec i (pos + (length a + length b)));
    try lia; auto.
  - rewrite nth_error_app1 by lia. auto.
  - rewrite nth_error_app2 by lia. f_equal. lia.
Qed.
Lemma slice_ext f g o n : length f = length g \/ o + n <= length f /\ o + n <= length g ->
  (forall i, o <= i < o + n -> nth_error f i = nth_error g i) -> slice o n f = slice o n g.
Proof.
  intros HL H. apply nth_error_ext. intros i.
  destruct (Nat.ltb_spec i n).
  - rewrite !nth_error_slice by auto. apply H; lia.
  - rewrite !(proj2 (nth_error_None _ _)); auto; unfold slice; rewrite firstn_length; lia.
Qed.
Lemma slice_put_disjoint pos b f o n : pos <= length f ->
  o + n <= pos \/ pos + length b <= o -> o + n <= length f ->
  slice o n (put pos b f) = slice o n f.
Proof.
  intros HP HD HL. apply slice_ext.
  - right. rewrite put_length by auto. lia.
  - intros i Hi. rewrite nth_error_put by auto.
    destruct (Nat.ltb_spec i pos); auto. destruct (Nat.ltb_spec i (pos + length b)); auto. lia.
Qed.

(** Reading [n] bytes from the front of a stream ([read_exact]): what was read and the rest. *)
Definition take (n : nat) (b : bytes) : option (bytes * bytes) :=
  if n <=? length b then Some (firstn n b, skipn n b) else None.
Lemma take_app n a b : length a = n -> take n (a ++ b) = Some (a, b).
Proof.
  intros <-. unfold take. rewrite app_length.
  destruct (Nat.leb_spec (length a) (length a + length b)); [|lia].
  rewrite firstn_app, firstn_all, skipn_app, skipn_all.
  replace (length a - length a) with 0 by lia. cbn. rewrite app_nil_r. auto.
Qed.
(** [read_u32]/[read_u64] from a stream. *)
Definition take_le (n : nat) (b : bytes) : option (N * bytes) :=
  match take n b with Some (x, r) => Some (le_dec x, r) | None => None end.
Lemma take_le_app n x b : (x < pow256 n)%N -> take_le n (le_enc n x ++ b) = Some (x, b).
Proof.
  intros. unfold take_le. rewrite take_app by apply le_enc_length. rewrite le_dec_enc; auto.
Qed.
Lemma take_None n b : take n b = None <-> length b < n.
Proof. unfold take. destruct (Nat.leb_spec n (length b)); split; try discriminate; auto; lia. Qed.
Lemma take_Some n b x r : take n b = Some (x, r) <-> b = x ++ r /\ length x = n.
Proof.
  split.
  - unfold take. destruct (Nat.leb_spec n (length b)); [|discriminate]. intros [= <- <-].
    rewrite firstn_skipn, firstn_length. split; auto. lia.
  - intros [-> HL]. apply take_app; auto.
Qed.
Lemma firstn_app_exact {A} n (a b : list A) : length a = n -> firstn n (a ++ b) = a.
Proof. intros <-. rewrite firstn_app, firstn_all, Nat.sub_diag. cbn. apply app_nil_r. Qed.
Lemma skipn_app_exact {A} n (a b : list A) : length a = n -> skipn n (a ++ b) = b.
Proof. intros <-. rewrite skipn_app, skipn_all, Nat.sub_diag. reflexivity. Qed.
#[global] Arguments put : simpl never.
#[global] Arguments slice : simpl never.
#[global] Arguments le_enc : simpl never.
#[global] Arguments take : simpl never.
#[global] Arguments take_le : simpl never.
