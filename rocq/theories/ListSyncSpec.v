(** Specification of error recovery inside of lists (doc/programming/parsing.rst:2468-2486): "If one element of the vector fails to parse, Spicy
    will attempt to find the beginning of the next X in the input stream and continue there." *)
From Verif Require Import Base SyncModel SyncSpec ListSyncModel.

(** How a list ends. *)
Inductive ending := Whole | Stopped | Lost | Rejected.

Section Path.
(** An element may be parsed from p to q, and ends the list or not; an element fails from p on, at q; going on at p' is right for a search from p on; the list may end at p; the %synced hook
    accepts, rejects at p. *)
Context (good : bool -> nat -> nat -> Prop) (bad next : nat -> nat -> Prop) (ends accepts rejects : nat -> Prop).
(** What may happen in a list that begins at offset p, oldest event first: elements follow each other without anything in between; if one
    fails, the parser goes on with the next possible beginning of an element, strictly behind the offset of the failure, among the data that is still there. *)
Inductive path : nat -> list lev -> nat -> ending -> Prop :=
| path_end p : ends p -> path p [] p Whole
| path_elem p q tr r e : good false p q -> path q tr r e -> path p (LElem p q :: tr) r e
| path_stop p q : good true p q -> path p [LStop p q] q Stopped
| path_sync p q h p' tr r e : bad p q -> next (Nat.max (S q) h) p' -> accepts p' -> path p' tr r e -> path p (LFailed p q h :: LSynced p' :: tr) r e
| path_lost p q h r : bad p q -> (forall p', ~ next (Nat.max (S q) h) p') -> path p [LFailed p q h; LLost] r Lost
| path_rejected p q h p' r : bad p q -> next (Nat.max (S q) h) p' -> rejects p' -> path p [LFailed p q h; LSynced p'] r Rejected.
End Path.
(** What an element does; what the %synced hook does. *)
Definition parsed (el : elem) (stop : bool) (p q : nat) : Prop := exists s s', el s = EOk s' stop /\ p_pos s = p /\ p_pos s' = q.
Definition failed (el : elem) (p q : nat) : Prop := exists s s', el s = EFail s' /\ p_pos s = p /\ p_pos s' = q.
Definition hook_accepts (synced : pst -> hook) (p : nat) : Prop := exists s, p_pos s = p /\ (synced s = HNone \/ synced s = HConfirm).
Definition hook_rejects (synced : pst -> hook) (p : nat) : Prop := exists s, p_pos s = p /\ synced s = HReject.

(** The outcome of a list that began at offset p. *)
Definition recovered (good : bool -> nat -> nat -> Prop) (bad next : nat -> nat -> Prop) (ends : nat -> Prop) (synced : pst -> hook) (p : nat) (r : lres) : Prop :=
  match r with
  | LDone s tr => exists e, (e = Whole \/ e = Stopped) /\ path good bad next ends (hook_accepts synced) (hook_rejects synced) p (rev tr) (p_pos s) e
  | LFail s tr => exists e, (e = Lost \/ e = Rejected) /\ path good bad next ends (hook_accepts synced) (hook_rejects synced) p (rev tr) (p_pos s) e
  | LFatal => True
  end.
Definition anywhere (p : nat) : Prop := True.

(** In a look-ahead list also: no literal is there, or an element is empty. *)
Definition failed_or_none (el : elem) (p q : nat) : Prop := failed el p q \/ q = p.
Section Look.
Context (D : list (option Z)) (el : elem) (w : wlook) (firsts : list tok).
(** More precisely, for literals: an element is parsed only where one of its literals is; a failure is one of the element at such a place, or none of the literals is there, or the end of the data is and does not
    end the list; a list ends only where one of the literals for the end is next and no longer one (or the end of the data). *)
Definition look_parsed (stop : bool) (p q : nat) : Prop := occurs D firsts p /\ parsed el stop p q.
Definition look_failed (p q : nat) : Prop :=
  (occurs D firsts p /\ failed el p q) \/ (q = p /\ parsed el false p q) \/ (q = p /\ ~ occurs D (w_lits w) p /\ (length D <= p -> w_eod w = false)).
Definition look_ends (p : nat) : Prop :=
  (length D <= p /\ w_eod w = true) \/ exists t, longest D (w_lits w) p t /\ existsb (Nat.eqb (tok_id t)) (w_end w) = true.
End Look.

(** The next place where the regular expressions match, or the end of that match. *)
Definition next_match (D : list (option Z)) (re : bytes -> bool -> rxres) (m : smode) (from p' : nat) : Prop :=
  exists p id n, from <= p < length D /\ re (run (skipn p D)) true = RTok id n /\ (forall q, from <= q < p -> re (run (skipn q D)) true = RNo) /\
    p' = match m with SAfter => p + n | _ => p end.

(** An element that leaves no look-ahead behind. *)
Definition clean (D : list (option Z)) (el : elem) (sp : ssp) : Prop :=
  forall s, entry D (mkF (fun _ => Fatal) (Some sp)) s ->
  match el s with
  | EOk s' _ => settled s'
  | EFail s' => p_lah s' = SNone /\ p_lahe s' <= S (p_pos s')
  | EFatal => True
  end.
(** The look-ahead symbols of a list and its synchronization point are the same literals, each with its own number. *)
Definition consistent (w : wlook) (sp : ssp) : Prop :=
  w_rx w = None /\ NoDup (map tok_word (w_lits w)) /\
  (forall t, In t (w_lits w) -> existsb (Nat.eqb (tok_id t)) (w_elem w) = true <-> In t (s_lits sp)) /\
  (forall t, In t (s_lits sp) -> In t (w_lits w)) /\
  (forall t, In t (w_lits w) -> existsb (Nat.eqb (tok_id t)) (w_end w) = negb (existsb (Nat.eqb (tok_id t)) (w_elem w))).

(** Numbers of elements added and of failures. *)
Fixpoint elements (tr : list lev) : nat := match tr with LElem _ _ :: l => S (elements l) | _ :: l => elements l | [] => 0 end.
Fixpoint failures (tr : list lev) : nat := match tr with LFailed _ _ _ :: l => S (failures l) | _ :: l => failures l | [] => 0 end.
Definition stopped (tr : list lev) : Prop := exists p q, In (LStop p q) tr.

(** Without trimming: an element that goes forward, leaves no look-ahead, and throws nothing but failures. *)
Definition forward_elem (el : elem) : Prop :=
  forall s, p_head s = 0 ->
  match el s with EOk s' _ => p_head s' = 0 /\ p_pos s <= p_pos s' /\ p_lah s' = SNone | EFail s' => p_head s' = 0 /\ p_pos s <= p_pos s' | EFatal => False end.
