(** C119: a heap in a slice, for any total preorder. *)
From Coq Require Import Permutation.
From Verif.Lib Require Import Base Lists.
From Verif.Spherical Require Import Model Spec Proofs.
Local Open Scope nat_scope.

(** Making a heap of a slice permutes it and puts a greatest element first; an empty slice is an
    error; no access is out of bounds. *)
Theorem C119_new {T} (leb : T -> T -> bool) (d : list T) :
  (forall a b, leb a b = true \/ leb b a = true) -> (forall a b c, leb a b = true -> leb b c = true -> leb a c = true) ->
  match d with
  | [] => heap_new leb d = Some None
  | _ => exists h x, heap_new leb d = Some (Some h) /\ Permutation d h /\ peek h = Some x /\ greatest leb x d
  end.
Proof.
  intros TO TR. destruct d as [|z d]; [reflexivity|]. unfold heap_new. destruct (heapify_ok leb TO TR (z :: d)) as (h & -> & L & P & B).
  destruct h as [|x h]; [cbn in L; lia|]. exists (x :: h), x. split; [reflexivity|]. split; [exact P|]. split; [reflexivity|]. split; [apply (Permutation_in x (Permutation_sym P)); now left|].
  intros y Y. apply (Permutation_in y P) in Y. apply In_nth_error in Y as (k & Y). now apply (root_max leb TO TR (x :: h) B x eq_refl k).
Qed.
Print Assumptions C119_new.

(** Every sequence of updates of the root replaces a greatest element each time, keeps the others
    and leaves a greatest element first. *)
Theorem C119_updates {T} (leb : T -> T -> bool) (d : list T) (fs : list (T -> T)) :
  (forall a b, leb a b = true \/ leb b a = true) -> (forall a b c, leb a b = true -> leb b c = true -> leb a c = true) -> d <> [] ->
  exists h h' x, heap_new leb d = Some (Some h) /\ updates leb h fs = Some h' /\ replaced leb d fs h' /\ length h' = length d /\ peek h' = Some x /\ greatest leb x h'.
Proof.
  intros TO TR NE. destruct d as [|z d]; [congruence|]. unfold heap_new. destruct (heapify_ok leb TO TR (z :: d)) as (h & -> & L & P & B). exists h.
  assert (G : forall fs l h, l <> [] -> Permutation l h -> below leb h 0 -> exists h' x, updates leb h fs = Some h' /\ replaced leb l fs h' /\ length h' = length l /\ peek h' = Some x /\ greatest leb x h').
  { assert (RM : forall x h, below leb (x :: h) 0 -> greatest leb x (x :: h)).
    { intros x k BX. split; [now left|]. intros y Y. apply In_nth_error in Y as (j & Y). now apply (root_max leb TO TR (x :: k) BX x eq_refl j). }
    clear z d NE h L P B fs. induction fs as [|f fs IH]; intros l h NL P B; cbn [updates replaced].
    - destruct h as [|x h]; [apply Permutation_sym, Permutation_nil in P; congruence|]. exists (x :: h), x. split; [reflexivity|]. split; [exact P|]. split; [now rewrite P|]. split; [reflexivity|now apply RM].
    - destruct h as [|x h]; [apply Permutation_sym, Permutation_nil in P; congruence|]. destruct (update_root_ok leb TO TR x h f B) as (h1 & -> & P1 & B1). destruct (IH (f x :: h) h1 ltac:(discriminate) P1 B1) as (h' & y & E & R1 & L1 & K1 & K2).
      exists h', y. split; [exact E|]. split; [|split; [rewrite L1, (Permutation_length P); reflexivity|tauto]]. exists x, h. split; [exact P|]. split; [|exact R1]. destruct (RM x h B) as [G1 G2]. split; [now apply (Permutation_in x (Permutation_sym P))|]. intros w W. apply G2. now apply (Permutation_in w P). }
  destruct (G fs (z :: d) h ltac:(discriminate) P B) as (h' & x & E). exists h', x. tauto.
Qed.
Print Assumptions C119_updates.

Example C119_example : let h := [9; 6; 4; 1; 5; 3; 2; 1] in
  heap_new Nat.leb [3; 1; 4; 1; 5; 9; 2; 6] = Some (Some h) /\ updates Nat.leb h [fun x => x - 9; fun x => x - 5; fun x => x + 1] = Some [6; 1; 4; 1; 0; 3; 2; 1].
Proof. vm_compute. split; reflexivity. Qed.
Print Assumptions C119_example.
Example C119_meets : (forall a b, Nat.leb a b = true \/ Nat.leb b a = true) /\ (forall a b c, Nat.leb a b = true -> Nat.leb b c = true -> Nat.leb a c = true) /\ [3; 1; 4] <> [].
Proof.
  split; [|split; [|discriminate]].
  - intros a b. rewrite !Nat.leb_le. lia.
  - intros a b c. rewrite !Nat.leb_le. lia.
Qed.
Print Assumptions C119_meets.
