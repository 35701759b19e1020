(** What the properties of saving to disk mean, said without the backend. *)
From Verif.Lib Require Import Base Bytes.
From Verif.Record Require Import Model.
From Verif.RecordDisk Require Import Model.
Local Open Scope N_scope.

(** The bytes user code has written to the [k]-th artifact it opened, from what it did and saw. *)
Definition wrote {V} (k : nat) (b : bytes) (e : event V) : bytes :=
  match e with
  | (APut j f, OWrote) => if Nat.eqb j k then f b else b
  | (APut j _, OTorn l) => if Nat.eqb j k then l else b
  | (AFinish j, OTorn l) => if Nat.eqb j k then l else b
  | _ => b
  end.
Definition written {V} (l : list (event V)) (k : nat) : bytes := fold_left (wrote k) l [].

(** The names of the artifacts it has opened, first to last. *)
Definition opened {V} (l : list (event V)) : list bytes :=
  flat_map (fun e => match snd e with OOpened n => [n] | _ => [] end) l.

(** Nothing went wrong: every artifact asked for was opened and no write failed. *)
Definition smooth {V} (l : list (event V)) : Prop :=
  forall a o, In (a, o) l -> match a, o with AOpen _, ORefused => False | _, OTorn _ => False | _, _ => True end.

(** A file system: no file is named before it is made. *)
Definition fs_ok (f : fs) : Prop := forall p i, names f p = Some i -> i < fresh f.
Definition digit_first (n : bytes) : Prop := exists d r, n = d :: r /\ 48 <= d <= 57.
(** Manifests keep apart: none is another's temporary file, and neither kind has a name that begins
    with a digit in a directory where artifacts go. *)
Definition apart {V} (cfg : nat -> config V) : Prop :=
  (forall i j, meta (cfg i) <> temp (cfg j)) /\
  (forall i j n, digit_first n -> meta (cfg i) <> cdir (cfg j) ++ [n] /\ temp (cfg i) <> cdir (cfg j) ++ [n]).
(** A save to a manifest starts only when no other save to the same manifest is going on: it has
    ended or crashed. *)
Fixpoint orderly {V} (enc : list bytes -> V -> bytes) (cfg : nat -> config V) (s : state V) (l : list act) : Prop :=
  match l with
  | [] => True
  | a :: l =>
    (match a with
     | Step i _ => ph (thr s i) = Fresh -> forall j, j <> i -> temp (cfg j) = temp (cfg i) -> live (ph (thr s j)) = false
     | Crash _ => True
     end) /\ orderly enc cfg (step enc cfg s a) l
  end.
(** The latest of these saves that was to the manifest [m]. *)
Definition last_to {V} (cfg : nat -> config V) (m : path) (l : list nat) : option nat :=
  find (fun i => if path_dec (meta (cfg i)) m then true else false) l.
