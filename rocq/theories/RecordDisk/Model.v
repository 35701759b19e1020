(** Model of the disk and memory backends of diskann-record (backend/disk.rs, backend/memory.rs,
    save/context.rs) and of save_to_disk / load_from_disk (save/mod.rs 50-82, load/mod.rs 58-87).

    Any number of saves run at once over one file system.  Each step of a save is one file system
    operation, which may fail; a save may crash between any two steps.  The code that is being
    saved (the user's [Save] implementations) is any function from what has happened so far to
    what it does next, so every program is covered, including one that ignores errors.

    Simplifications: a file is its bytes, and a [Writer] operation is any function on them (writes
    and seeks combined), applied at once: [BufWriter] only delays it until [finish].  Directories
    exist and are not aliased.  Power loss is not covered: nothing is synced to the device. *)
From Coq Require Import String.
From Verif.Lib Require Import Base Bytes.
From Verif.Record Require Import Model.
Local Open Scope N_scope.

(** * Paths and names *)
(** A resolved path: its components from the root. *)
Definition path := list bytes.
Definition path_dec (p q : path) : {p = q} + {p <> q} := list_eq_dec (list_eq_dec N.eq_dec) p q.
Definition slash : N := 47.
Definition is_nil_or_dot (p : bytes) : bool := beqb p [] || beqb p (str ".").
Definition is_dots (p : bytes) : bool := is_nil_or_dot p || beqb p (str "..").
(** How the operating system resolves a name against a directory: one component at a time, [..]
    going up, a leading slash starting at the root.  [None]: the name ends in a slash or dots, so it
    can only name a directory. *)
Definition walk1 (acc : path) (p : bytes) : path :=
  if is_nil_or_dot p then acc else if beqb p (str "..") then removelast acc else acc ++ [p].
Definition resolve (dir : path) (name : bytes) : option path :=
  let ps := split_at slash name in
  if is_dots (last ps []) then None
  else Some (fold_left walk1 ps (match name with c :: _ => if c =? slash then [] else dir | [] => dir end)).
(** [Path::components] gives exactly one [Normal] component (disk.rs 112-116, 281-285;
    memory.rs 55-59): empty and [.] pieces after the first are dropped. *)
Definition simple (key : bytes) : bool :=
  match split_at slash key with
  | [] => false
  | p :: ps => negb (is_dots p) && forallb is_nil_or_dot ps
  end.
(** That component. *)
Definition component (key : bytes) : bytes := List.hd [] (split_at slash key).
(** [format!("{:03}", n)] *)
Definition pad3 (n : N) : bytes := let d := decimal n in List.repeat 48 (3 - List.length d) ++ d.
(** disk.rs 112-128; memory.rs 55-71 *)
Definition art_name (count : N) (key : option bytes) : bytes :=
  match key with
  | Some key => if simple key then pad3 count ++ [45] ++ key else pad3 count
  | None => pad3 count
  end.

(** * File system *)
(** Names lead to files; an open file is reached without its name. *)
Record fs := mkfs { names : path -> option N; data : N -> bytes; fresh : N }.
Definition content (f : fs) (p : path) : option bytes := option_map (data f) (names f p).
Definition set_name (f : fs) (p : path) (o : option N) : fs :=
  mkfs (fun q => if path_dec q p then o else names f q) (data f) (fresh f).
Definition set_data (f : fs) (i : N) (b : bytes) : fs := mkfs (names f) (fun j => if j =? i then b else data f j) (fresh f).
(** [File::create_new] of a name that is free. *)
Definition create (f : fs) (p : path) : fs :=
  mkfs (fun q => if path_dec q p then Some (fresh f) else names f q) (fun j => if j =? fresh f then [] else data f j) (fresh f + 1).
(** [fs::rename] of a name that exists. *)
Definition rename (f : fs) (a b : path) : fs := set_name (set_name f b (names f a)) a None.

(** * Saves *)
Section Saves.
  (** The manifest value, and the text of a manifest ([Final], disk.rs 44-48, 189-191). *)
  Variable V : Type.
  Variable enc : list bytes -> V -> bytes.

  (** What user code does: open an artifact ([Context::write]), write to the [k]-th one opened,
      finish it ([Writer::finish]), or return. *)
  Inductive action := AOpen (key : option bytes) | APut (k : nat) (f : bytes -> bytes) | AFinish (k : nat) | AReturn (v : option V).
  (** What it sees.  [OTorn]: a write or flush failed and left these bytes. *)
  Inductive outcome := OOpened (name : bytes) | OWrote | OTorn (left : bytes) | OHandle (name : bytes) | ORefused.
  (** The directory, the manifest path (its directory and name) and the user code. *)
  Record config := mkconfig { cdir : path; cmdir : path; cmname : bytes; user : list (action * outcome) -> action }.
  Definition meta (c : config) : path := cmdir c ++ [cmname c].
  (** disk.rs 81-86 *)
  Definition temp (c : config) : path := cmdir c ++ [cmname c ++ str ".temp"].

  (** Where a save is.  [Dropping todo clean]: in [Drop], with these names left to remove; [clean]
      while no removal has failed. *)
  Inductive phase :=
  | Fresh | Running | Creating (v : V) | Writing (v : V) (i : N) (rest : bytes) | Renaming (v : V)
  | Dropping (todo : list bytes) (clean : bool) | Committed (v : V) | Failed (clean : bool) | Dead.
  (** [files] of disk.rs 39, in the order of registration: name, file, finished. *)
  Record tstate := mkt { ph : phase; files : list (bytes * (N * bool)); evs : list (action * outcome) }.
  Definition fnames (t : tstate) : list bytes := List.map fst (files t).
  Definition finished (e : bytes * (N * bool)) : bool := snd (snd e).
  Definition goto (t : tstate) (p : phase) : tstate := mkt p (files t) (evs t).
  Definition drop (t : tstate) : tstate := goto t (Dropping (fnames t) true).
  Definition note (t : tstate) (e : action * outcome) : tstate := mkt (ph t) (files t) (evs t ++ [e]).

  (** What the world decides at a step: whether the operation succeeds, how much is written or which
      entry of the map comes next, what a failed write leaves. *)
  Record choice := mkchoice { ok : bool; num : nat; junk : bytes }.
  Definition mark (k : nat) (l : list (bytes * (N * bool))) : list (bytes * (N * bool)) :=
    match nth_error l k with
    | Some (n, (i, _)) => firstn k l ++ (n, (i, true)) :: skipn (S k) l
    | None => l
    end.

  (** User code in [Saveable::save] (save/mod.rs 55).  [write]: disk.rs 108-152; [Writer::finish]:
      save/context.rs 190-197, disk.rs 225-232.  A writer is gone once finished. *)
  Definition user_step (c : config) (x : choice) (f : fs) (t : tstate) : fs * tstate :=
    match user c (evs t) with
    | AOpen key =>
      let name := art_name (N.of_nat (List.length (files t))) key in
      let refused := (f, note t (AOpen key, ORefused)) in
      if existsb (beqb name) (fnames t) then refused
      else match resolve (cdir c) name with
           | None => refused
           | Some p =>
             match names f p with
             | Some _ => refused
             | None => if ok x then (create f p, mkt (ph t) (files t ++ [(name, (fresh f, false))]) (evs t ++ [(AOpen key, OOpened name)]))
                       else refused
             end
           end
    | APut k g =>
      match nth_error (files t) k with
      | Some (_, (i, false)) =>
        if ok x then (set_data f i (g (data f i)), note t (APut k g, OWrote))
        else (set_data f i (junk x), note t (APut k g, OTorn (junk x)))
      | _ => (f, note t (APut k g, ORefused))
      end
    | AFinish k =>
      match nth_error (files t) k with
      | Some (n, (i, false)) =>
        if ok x then (f, mkt (ph t) (mark k (files t)) (evs t ++ [(AFinish k, OHandle n)]))
        else (set_data f i (junk x), note t (AFinish k, OTorn (junk x)))
      | _ => (f, note t (AFinish k, ORefused))
      end
    | AReturn None => (f, drop t)
    | AReturn (Some v) => (f, if forallb finished (files t) then goto t (Creating v) else drop t)
    end.
  Definition remove_at (n : nat) (l : list bytes) : option (bytes * list bytes) :=
    match nth_error l n with
    | Some x => Some (x, firstn n l ++ skipn (S n) l)
    | None => match l with x :: l => Some (x, l) | [] => None end
    end.
  (** One step of a save; the flag says that the manifest was put in place.  [new]: disk.rs 59-78;
      [finish]: disk.rs 164-210; [drop]: disk.rs 90-104. *)
  Definition thread_step (c : config) (x : choice) (f : fs) (t : tstate) : fs * tstate * bool :=
    match ph t with
    | Fresh => (f, goto t (if ok x then Running else Failed true), false)
    | Running => (user_step c x f t, false)
    | Creating v =>
      match names f (temp c) with
      | Some _ => (f, drop t, false)
      | None => if ok x then (create f (temp c), goto t (Writing v (fresh f) (enc (fnames t) v)), false) else (f, drop t, false)
      end
    | Writing v i rest =>
      match rest with
      | [] => (f, goto t (Renaming v), false)
      | _ => let f' := set_data f i (data f i ++ firstn (S (num x)) rest) in
             if ok x then (f', goto t (Writing v i (skipn (S (num x)) rest)), false) else (f', drop t, false)
      end
    | Renaming v =>
      match names f (temp c) with
      | None => (f, drop t, false)
      | Some _ => if ok x then (rename f (temp c) (meta c), goto t (Committed v), true) else (f, drop t, false)
      end
    | Dropping todo clean =>
      match remove_at (num x) todo with
      | Some (n, todo) =>
        (if ok x then match resolve (cdir c) n with Some p => set_name f p None | None => f end else f,
         goto t (Dropping todo (clean && ok x)), false)
      | None => (if ok x then set_name f (temp c) None else f, goto t (Failed (clean && ok x)), false)
      end
    | Committed _ | Failed _ | Dead => (f, t, false)
    end.

  (** * Many saves *)
  Inductive act := Step (i : nat) (x : choice) | Crash (i : nat).
  (** [commits]: the saves that put their manifest in place, latest first. *)
  Record state := mkst { fsys : fs; thr : nat -> tstate; commits : list nat }.
  Definition over (p : phase) : bool := match p with Committed _ | Failed _ | Dead => true | _ => false end.
  Definition live (p : phase) : bool := match p with Fresh => false | p => negb (over p) end.
  Section Run.
    Variable cfg : nat -> config.
    Definition step (s : state) (a : act) : state :=
      match a with
      | Step i x =>
        let '(f, t, done) := thread_step (cfg i) x (fsys s) (thr s i) in
        mkst f (upd (thr s) i t) (if done then i :: commits s else commits s)
      | Crash i => if over (ph (thr s i)) then s else mkst (fsys s) (upd (thr s) i (goto (thr s i) Dead)) (commits s)
      end.
    Definition run (s : state) (l : list act) : state := fold_left step l s.
    Definition init (f : fs) : state := mkst f (fun _ => mkt Fresh [] []) [].
  End Run.

  (** * Loading (disk.rs 254-318) *)
  Variable dec : bytes -> option (list bytes * V).
  Definition manifest (f : fs) (m : path) : option (list bytes * V) :=
    match content f m with Some b => dec b | None => None end.
  (** [PathBuf]s are equal when their components are. *)
  Definition registered (fl : list bytes) (key : bytes) : bool :=
    existsb (fun p => simple p && beqb (component p) (component key)) fl.
  Definition disk_read (f : fs) (dir : path) (fl : list bytes) (key : bytes) : option bytes :=
    if simple key && registered fl key then match resolve dir key with Some p => content f p | None => None end else None.

  (** * Memory (memory.rs 48-165) *)
  (** [None] bytes: reserved, not finished. *)
  Record mem := mkmem { mfiles : list (bytes * option bytes); mbufs : list bytes; mevs : list (action * outcome) }.
  Definition fill (k : nat) (b : bytes) (l : list (bytes * option bytes)) : list (bytes * option bytes) :=
    match nth_error l k with
    | Some (n, _) => firstn k l ++ (n, Some b) :: skipn (S k) l
    | None => l
    end.
  Definition set_buf (k : nat) (b : bytes) (l : list bytes) : list bytes := firstn k l ++ b :: skipn (S k) l.
  (** One step of user code, or the result: an error or the finished context. *)
  Inductive mresult := More (m : mem) | MErr | MDone (fl : list (bytes * bytes)) (v : V).
  Fixpoint collect (l : list (bytes * option bytes)) : option (list (bytes * bytes)) :=
    match l with
    | [] => Some []
    | (n, Some b) :: l => match collect l with Some r => Some ((n, b) :: r) | None => None end
    | (_, None) :: _ => None
    end.
  Definition mem_step (u : list (action * outcome) -> action) (m : mem) : mresult :=
    match u (mevs m) with
    | AOpen key =>
      let name := art_name (N.of_nat (List.length (mfiles m))) key in
      if existsb (beqb name) (List.map fst (mfiles m)) then More (mkmem (mfiles m) (mbufs m) (mevs m ++ [(AOpen key, ORefused)]))
      else More (mkmem (mfiles m ++ [(name, None)]) (mbufs m ++ [[]]) (mevs m ++ [(AOpen key, OOpened name)]))
    | APut k g =>
      match nth_error (mfiles m) k, nth_error (mbufs m) k with
      | Some (_, None), Some b => More (mkmem (mfiles m) (set_buf k (g b) (mbufs m)) (mevs m ++ [(APut k g, OWrote)]))
      | _, _ => More (mkmem (mfiles m) (mbufs m) (mevs m ++ [(APut k g, ORefused)]))
      end
    | AFinish k =>
      match nth_error (mfiles m) k, nth_error (mbufs m) k with
      | Some (n, None), Some b => More (mkmem (fill k b (mfiles m)) (mbufs m) (mevs m ++ [(AFinish k, OHandle n)]))
      | _, _ => More (mkmem (mfiles m) (mbufs m) (mevs m ++ [(AFinish k, ORefused)]))
      end
    | AReturn None => MErr
    | AReturn (Some v) => match collect (mfiles m) with Some fl => MDone fl v | None => MErr end
    end.
  Fixpoint mem_run (u : list (action * outcome) -> action) (fuel : nat) (m : mem) : mresult :=
    match fuel with
    | O => More m
    | S fuel => match mem_step u m with More m => mem_run u fuel m | r => r end
    end.
  Definition mem_read (fl : list (bytes * bytes)) (key : bytes) : option bytes := lookup key fl.
End Saves.
Notation event V := (action V * outcome)%type.
Arguments AOpen {V}. Arguments APut {V}. Arguments AFinish {V}. Arguments AReturn {V}.
Arguments mkconfig {V}. Arguments cdir {V}. Arguments cmdir {V}. Arguments cmname {V}. Arguments user {V}.
Arguments meta {V}. Arguments temp {V}.
Arguments Fresh {V}. Arguments Running {V}. Arguments Creating {V}. Arguments Writing {V}. Arguments Renaming {V}.
Arguments Dropping {V}. Arguments Committed {V}. Arguments Failed {V}. Arguments Dead {V}.
Arguments mkt {V}. Arguments ph {V}. Arguments files {V}. Arguments evs {V}. Arguments fnames {V}.
Arguments goto {V}. Arguments drop {V}. Arguments note {V}. Arguments user_step {V}. Arguments thread_step {V}.
Arguments mkst {V}. Arguments fsys {V}. Arguments thr {V}. Arguments commits {V}. Arguments over {V}. Arguments live {V}.
Arguments step {V}. Arguments run {V}. Arguments init {V}. Arguments manifest {V}.
Arguments mkmem {V}. Arguments mfiles {V}. Arguments mbufs {V}. Arguments mevs {V}. Arguments mem_step {V}. Arguments mem_run {V}.
Arguments More {V}. Arguments MErr {V}. Arguments MDone {V}.

Example disk_names_sanity :
  art_name 7 (Some (str "a.bin")) = str "007-a.bin" /\ art_name 1234 None = str "1234" /\ art_name 0 (Some (str "../x")) = str "000" /\
  art_name 0 (Some (str "a/./")) = str "000-a/./" /\ simple (str "./a") = false /\ simple (str "/a") = false /\ simple (str "") = false /\
  resolve [str "d"] (str "a/../../x") = Some [str "x"] /\ resolve [str "d"] (str "/x") = Some [str "x"] /\ resolve [str "d"] (str "a/") = None.
Proof. vm_compute. repeat split. Qed.
