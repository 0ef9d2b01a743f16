(** Model of error recovery inside of lists, (X &synchronize)[n] and (X &synchronize)[]: the loops the Spicy compiler generates for lists in
    spicy/toolchain/src/compiler/codegen/parser-builder.cc (operator()(Counter), operator()(While), operator()(ForEach),
    syncProductionNext, parseLookAhead).

    State, search and literals are those of SyncModel.v, with what is not modelled there.  What an element does is a parameter. *)
From Verif Require Import Base SyncModel.

(** Parsing of one element, up to and including the container's foreach hook: done, with the flag that says to stop (`stop`, &until, ...: the element is not added
    then, newContainerItem, parser-builder.cc:2684-2765); a RecoverableFailure; another exception. *)
Inductive eres := EOk (s : pst) (stop : bool) | EFail (s : pst) | EFatal.
Definition elem := pst -> eres.

(** What happens in a list, newest first: an element from p to q has been added to the list; an element from p to q that ends the list and is not
    added; parsing an element (or looking for one) from p on failed at q, while the stream still had the data from h on; the parser goes on at p after a
    search; the search found nothing. *)
Inductive lev := LElem (p q : nat) | LStop (p q : nat) | LFailed (p q h : nat) | LSynced (p : nat) | LLost.
Inductive lres := LDone (s : pst) (tr : list lev) | LFail (s : pst) (tr : list lev) | LFatal.

(** The literals an element may begin with; what %synchronize-at or %synchronize-after says, if the element is a unit with such a property. *)
Record esync := mkE { e_rx : option (bytes -> bool -> rxres); e_lits : list tok; e_prop : option ssp }.
(** parser-builder.cc:1372-1431 syncProduction: the property counts for look-ahead lists (the production is a While); for lists with a count the production is a Counter
    and it does not. *)
Definition while_point (e : esync) : ssp := match e_prop e with Some sp => sp | None => mkS SFirst (e_rx e) (e_lits e) end.
Definition counter_point (e : esync) : ssp := mkS SFirst (e_rx e) (e_lits e).

(** A look-ahead list: the literals to look for in front of an element, those that mean an element and those that mean the end; whether the end of the data is an end of
    the list. *)
Record wlook := mkW { w_rx : option (bytes -> bool -> rxres); w_lits : list tok; w_elem : list nat; w_end : list nat; w_eod : bool }.

Section ListSync.
Context (D : list (option Z)) (TR : bool) (N : nat).
(** The unit's %synced hook; the element. *)
Context (synced : pst -> hook) (el : elem).

(** parser-builder.cc:1448-1482 syncProductionNext: found, and %synced has run; found, but %synced threw a failure (reject); not found; other exceptions.
    [start] is the position at the beginning. *)
Inductive nres := NFound (s : pst) | NRejected (s : pst) | NLost (s : pst) | NFatal.
Fixpoint sync_next (fuel : nat) (sp : ssp) (start : nat) (s : pst) : nres :=
  match fuel with
  | O => NFatal
  | S fuel' =>
      match sync_production D TR N sp (advance D TR s) with
      | Fatal => NFatal
      | Fail s' => NLost s'
      | Done s' =>
          if Nat.eqb start (p_pos s') then sync_next fuel' sp start (advance D TR s')
          else match run_hook (synced s') s' with Done s2 => NFound s2 | Fail s2 => NRejected s2 | Fatal => NFatal end
      end
  end.

(** The catch block: remember the error, search; then [go] on with the loop. *)
Definition recover (sync : option ssp) (s : pst) (tr : list lev) (go : pst -> list lev -> lres) : lres :=
  match sync with
  | None => LFail s tr
  | Some sp =>
      match sync_next N sp (p_pos s) (set_err s true) with
      | NFatal => LFatal
      | NLost s1 => LFail s1 (LLost :: tr)
      | NRejected s1 => LFail s1 (LSynced (p_pos s1) :: tr)
      | NFound s1 => go s1 (LSynced (p_pos s1) :: tr)
      end
  end.

(** parser-builder.cc:1678-1728 operator()(Counter): X[n].  [sync] is None without &synchronize. *)
Fixpoint counter (sync : option ssp) (n : nat) (s : pst) (tr : list lev) : lres :=
  match n with
  | O => LDone s tr
  | S n' =>
      match el s with
      | EFatal => LFatal
      | EOk s' true => LDone s' (LStop (p_pos s) (p_pos s') :: tr)
      | EOk s' false => counter sync n' s' (LElem (p_pos s) (p_pos s') :: tr)
      | EFail s' => recover sync s' (LFailed (p_pos s) (p_pos s') (p_head s') :: tr) (counter sync n')
      end
  end.

(** parser-builder.cc:1254-1302 in mode Try: a gap is a failure (MissingData). *)
Fixpoint lits_try (first : bool) (ts : list tok) (s : pst) : fres :=
  match ts with
  | [] => Done s
  | t :: ts' =>
      if Nat.ltb (p_pos s) (p_head s) then Fatal
      else
        match match_tok D t (p_pos s) with
        | MMissing => Fail s
        | MNo => lits_try false ts' s
        | MYes e =>
            if first then lits_try false ts' (set_lah s (STok (tok_id t)) e)
            else if Nat.leb (p_lahe s) e
                 then if lah_set (p_lah s) && Nat.eqb e (p_lahe s) then Fail s
                      else lits_try false ts' (set_lah s (STok (tok_id t)) e)
                 else lits_try false ts' s
        end
  end.
(** parser-builder.cc:1121-1327 getLookAhead in mode Try, for what comes next in a look-ahead list. *)
Definition peek (w : wlook) (s : pst) : fres :=
  if at_eod D s then Done (set_lah s SEod (p_lahe s))
  else
    match w_rx w with
    | None => lits_try true (w_lits w) s
    | Some re =>
        if Nat.ltb (p_pos s) (p_head s) then Fatal
        else
          let l := skipn (p_pos s) D in
          match re (run l) (run_final l) with
          | RTok id n => lits_try false (w_lits w) (set_lah s (STok id) (p_pos s + n))
          | RNo => lits_try false (w_lits w) (set_lah s SNone (p_pos s))
          | RMore => if run_final l then lits_try false (w_lits w) (set_lah s SEod (p_pos s)) else Fail s
          end
    end.

(** parser-builder.cc:2103-2172 operator()(While), 1945-2008 parseLookAhead: X[].  One round of the loop. *)
Inductive wres := WEnd (s : pst) | WStop (s : pst) | WElem (s : pst) | WFail (s : pst) | WFatal.
Definition one_elem (w : wlook) (sync : bool) (s : pst) : wres :=
  match (if lah_set (p_lah s) then Done s else peek w s) with
  | Fatal => WFatal
  | Fail s1 => WFail s1
  | Done s1 =>
      let other := if sync then WFail s1 else WEnd s1 in
      match p_lah s1 with
      | SNone => other
      | SEod => if w_eod w then WEnd s1 else WFail s1
      | STok id =>
          if existsb (Nat.eqb id) (w_end w) then WEnd s1
          else if existsb (Nat.eqb id) (w_elem w)
          then match el s1 with
               | EFatal => WFatal
               | EFail s2 => WFail s2
               | EOk s2 true => WStop s2
               | EOk s2 false =>
                   (* parser-builder.cc:3115-3121 finishLoopBody *)
                   if Nat.eqb (p_pos s2) (p_pos s1) && negb (at_eod D s2) then WFail s2 else WElem s2
               end
          else other
      end
  end.
Fixpoint look_list (fuel : nat) (w : wlook) (sync : option ssp) (s : pst) (tr : list lev) : lres :=
  match fuel with
  | O => LFatal
  | S fuel' =>
      match one_elem w (match sync with Some _ => true | None => false end) s with
      | WFatal => LFatal
      | WEnd s' => LDone s' tr
      | WStop s' => LDone s' (LStop (p_pos s) (p_pos s') :: tr)
      | WElem s' => look_list fuel' w sync s' (LElem (p_pos s) (p_pos s') :: tr)
      | WFail s' => recover sync s' (LFailed (p_pos s) (p_pos s') (p_head s') :: tr) (look_list fuel' w sync)
      end
  end.

(** parser-builder.cc:1736-1752 operator()(ForEach): lists with &eod, &size, &until, ...: no recovery, with or without &synchronize. *)
Fixpoint for_each (fuel : nat) (s : pst) (tr : list lev) : lres :=
  match fuel with
  | O => LFatal
  | S fuel' =>
      if at_eod D s then LDone s tr
      else
        match el s with
        | EFatal => LFatal
        | EFail s' => LFail s' (LFailed (p_pos s) (p_pos s') (p_head s') :: tr)
        | EOk s' true => LDone s' (LStop (p_pos s) (p_pos s') :: tr)
        | EOk s' false =>
            if Nat.eqb (p_pos s') (p_pos s) && negb (at_eod D s') then LFail s' (LFailed (p_pos s) (p_pos s') (p_head s') :: tr)
            else for_each fuel' s' (LElem (p_pos s) (p_pos s') :: tr)
        end
  end.
End ListSync.

(** An element that never stops the list: a field of SyncModel.v. *)
Definition elem_of (r : pst -> fres) : elem := fun s => match r s with Done s' => EOk s' false | Fail s' => EFail s' | Fatal => EFatal end.
(** A list as a field of a unit. *)
Definition field_of (r : pst -> list lev -> lres) (s : pst) : fres :=
  match r s [] with LDone s' _ => Done s' | LFail s' _ => Fail s' | LFatal => Fatal end.
