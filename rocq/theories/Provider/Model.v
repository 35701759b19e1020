(** Model of the data path of diskann-inmem/src/provider.rs: [set_element], [delete], the id
    lookups and readers, composed from the id map ([Verif.IdMap.Model], ids.rs) and the slot
    store ([Verif.Store.Model], store.rs).

    Thread [t] of the provider is client [t] of the store and of the id map.  The conversion
    of a vector to bytes by the layer ([layers::Set::set]) is an arbitrary outcome: the bytes
    written, or an error.  A thread that holds readers while it modifies the provider is
    several threads of this model. *)
From Verif.Lib Require Import Base.
From Verif.Epoch Require Import Model.
From Verif.Store Require Import Model.
From Verif.IdMap Require Import Model.

Inductive ppc :=
| PIdle
(* set_element; 344-374; external id [e], vector [v], slot [i] *)
| PAcq (e : nat) (v : bytes)
| PWrite (e : nat) (v : bytes) (i : nat)
| PIns (e : nat) (v : bytes) (i : nat)
| PPub (e : nat) (v : bytes) (i : nat)
| PDrop (e i : nat)
(* delete; 273-293 *)
| POcc (e : nat)
| PRet (e i : nat)
| PDel (e i : nat)
| PErr (e i : nat).
(** Events.  [PDeleted] and [PKept] mark the moment a [delete] removes the mapping or gives up
    (still holding the lock); [PDelOk] and [PDelErr] its return. *)
Inductive pevent :=
| PSetOk (t e i : nat) (v : bytes) | PSetErr (t e : nat)
| PDeleted (t e i : nat) | PKept (t e i : nat)
| PDelOk (t e i : nat) | PDelErr (t e : nat).
Record provider := mkp { p_st : store; p_im : idmap; p_cl : nat -> ppc; p_log : list pevent }.
Definition p_go (p : provider) (st : store) (im : idmap) (t : nat) (pc : ppc) (l : list pevent) : provider :=
  mkp st im (upd (p_cl p) t pc) (p_log p ++ l).

(** [new]; 96-133: the id map has the capacity of the store, without the start points. *)
Definition p_new (entries bytes_per guards cap ncols : nat) (rows : list bytes) : option provider :=
  match store_new entries bytes_per guards cap ncols rows with
  | Some st => Some (mkp st (im_new entries) (fun _ => PIdle) [])
  | None => None
  end.

Inductive pact :=
| ASet (e : nat) (v : bytes) | ADelete (e : nat)
| ARead (c : sact)                        (* a reader's call, or [Go] inside it *)
| AGo                                     (* the call in progress goes on *)
| AFail (w : bytes).                      (* the layer rejects the vector, leaving [w] in the slot *)
Definition reader_act (c : sact) : bool :=
  match c with CallReader | CallRead _ | DropReader | Go => true | _ => false end.
Definition retired_ok (t i : nat) (log : list sevent) : bool :=
  match last log (SPanic 0) with
  | SRetire t' i' None => (t' =? t) && (i' =? i)
  | _ => false
  end.

Definition pstep (sh : nat -> nat) (t : nat) (a : pact) (p : provider) : option provider :=
  let st := p_st p in let im := p_im p in
  match p_cl p t, a with
  | PIdle, ARead c =>
    if reader_act c then
      match sstep t c st with Some st => Some (p_go p st im t PIdle []) | None => None end
    else None
  | PIdle, ASet e v =>                                              (* 352-354 *)
    match sstep t CallAcquire st with Some st => Some (p_go p st im t (PAcq e v) []) | None => None end
  | PAcq e v, AGo =>
    match sstep t Go st with
    | Some st => match s_cl st t with
                 | WHeld i => Some (p_go p st im t (PWrite e v i) [])
                 | CIdle => Some (p_go p st im t PIdle [PSetErr t e])
                 | _ => Some (p_go p st im t (PAcq e v) [])
                 end
    | None => None
    end
  | PWrite e v i, AGo =>                                            (* 358-359 *)
    match sstep t (CallWrite v) st, istep sh t (CInsert e i) im with
    | Some st, Some im =>
      match m_cl im t with
      | IIdle => Some (p_go p st im t (PDrop e i) [])
      | _ => Some (p_go p st im t (PIns e v i) [])
      end
    | _, _ => None
    end
  | PWrite e v i, AFail w =>                                        (* 358 *)
    match sstep t (CallWrite w) st with Some st => Some (p_go p st im t (PDrop e i) []) | None => None end
  | PIns e v i, AGo =>                                              (* 359 *)
    match istep sh t IGo im with
    | Some im' =>
      match m_cl im' t with
      | IIdle => match m_cl im t with
                 | IUnl _ => Some (p_go p st im' t (PPub e v i) [])
                 | _ => Some (p_go p st im' t (PDrop e i) [])
                 end
      | _ => Some (p_go p st im' t (PIns e v i) [])
      end
    | None => None
    end
  | PPub e v i, AGo =>                                              (* 363 *)
    match s_cl st t with
    | WHeld _ => match sstep t CallPublish st with Some st => Some (p_go p st im t (PPub e v i) []) | None => None end
    | _ => match sstep t Go st with Some st => Some (p_go p st im t PIdle [PSetOk t e i v]) | None => None end
    end
  | PDrop e i, AGo =>                                               (* the slot goes out of scope *)
    match s_cl st t with
    | WHeld _ => match sstep t DropSlot st with Some st => Some (p_go p st im t (PDrop e i) []) | None => None end
    | _ => match sstep t Go st with Some st => Some (p_go p st im t PIdle [PSetErr t e]) | None => None end
    end
  | PIdle, ADelete e =>                                             (* 278 *)
    match s_cl st t with
    | CIdle => match istep sh t (COccupied e) im with Some im => Some (p_go p st im t (POcc e) []) | None => None end
    | _ => None
    end
  | POcc e, AGo =>                                                  (* 278-283 *)
    match istep sh t IGo im with
    | Some im => match m_cl im t with
                 | IIdle => Some (p_go p st im t PIdle [PDelErr t e])
                 | OHeld _ i => Some (p_go p st im t (PRet e i) [])
                 | _ => Some (p_go p st im t (POcc e) [])
                 end
    | None => None
    end
  | PRet e i, AGo =>                                                (* 285-292 *)
    match sstep t (match s_cl st t with CIdle => CallRetire i | _ => Go end) st with
    | Some st => match s_cl st t with
                 | CIdle => Some (p_go p st im t (if retired_ok t i (s_log st) then PDel e i else PErr e i) [])
                 | _ => Some (p_go p st im t (PRet e i) [])
                 end
    | None => None
    end
  | PDel e i, AGo =>                                                (* 288-289 *)
    match m_cl im t with
    | OHeld _ _ => match istep sh t CDelete im with Some im => Some (p_go p st im t (PDel e i) [PDeleted t e i]) | None => None end
    | _ => match istep sh t IGo im with Some im => Some (p_go p st im t PIdle [PDelOk t e i]) | None => None end
    end
  | PErr e i, AGo =>                                                (* 291 *)
    match m_cl im t with
    | OHeld _ _ => match istep sh t CDrop im with Some im => Some (p_go p st im t (PErr e i) [PKept t e i]) | None => None end
    | _ => match istep sh t IGo im with Some im => Some (p_go p st im t PIdle [PDelErr t e]) | None => None end
    end
  | _, _ => None
  end.
Fixpoint prun (sh : nat -> nat) (sched : list (nat * pact)) (p : provider) : option provider :=
  match sched with
  | [] => Some p
  | (t, a) :: sched => match pstep sh t a p with Some p => prun sh sched p | None => None end
  end.
