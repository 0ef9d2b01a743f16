(** Specification of error recovery, from doc/programming/parsing.rst:2360-2530 ("Error Recovery"). *)
From Verif Require Import Base SyncModel.

Section Spec.
Context (D : list (option Z)).

(** The literal is in the input at offset p, with none of its bytes in a gap. *)
Definition present (t : tok) (p : nat) : Prop :=
  tok_word t <> [] /\ forall i b, nth_error (tok_word t) i = Some b -> nth_error D (p + i) = Some (Some b).
Definition occurs (ts : list tok) (p : nat) : Prop := exists t, In t ts /\ present t p.
(** "search the input for the next occurrence of this literal" *)
Definition first_from (ts : list tok) (from p : nat) : Prop :=
  from <= p /\ occurs ts p /\ forall q, from <= q < p -> ~ occurs ts q.
(** Tests say "we prefer the longest possible match". *)
Definition longest (ts : list tok) (p : nat) (t : tok) : Prop :=
  In t ts /\ present t p /\ forall t', In t' ts -> present t' p -> length (tok_word t') <= length (tok_word t).
Definition no_gaps : Prop := ~ In None D.

(** "the closest synchronization point in the grammar following the error's location" *)
Definition closest (u : unit_) (i k : nat) : Prop :=
  i < k /\ (exists f sp, nth_error (u_fields u) k = Some f /\ f_sync f = Some sp) /\
  forall j f, i < j < k -> nth_error (u_fields u) j = Some f -> f_sync f = None.
Definition none_behind (u : unit_) (i : nat) : Prop :=
  forall j f, i < j -> nth_error (u_fields u) j = Some f -> f_sync f = None.

Inductive dres := DDone (s : pst) | DFail | DFatal.

Definition ran (i : nat) (s s' : pst) (ok : bool) : pst :=
  mkP (p_pos s') (p_head s') (p_lah s') (p_lahe s') (p_err s') (EvField i (p_pos s) ok :: p_tr s).

(** The documented behaviour of a unit.  [doc u k i s r]: parsing the unit from field i on in state s gives r; if an error is pending in s, the
    parser is in trial mode for the synchronization point k.  [sync u k from s r]: searching for the synchronization point k from
    offset [from] on, and going on from there, gives r. *)
Inductive doc (u : unit_) : nat -> nat -> pst -> dres -> Prop :=
| doc_end k i s : nth_error (u_fields u) i = None -> doc u k i s (DDone s)
| doc_ok k i s f s' r :
    nth_error (u_fields u) i = Some f -> f_run f s = Done s' -> doc u k (S i) (ran i s s' true) r -> doc u k i s r
| doc_fatal k i s f :
    nth_error (u_fields u) i = Some f -> f_run f s = Fatal -> doc u k i s DFatal
| doc_fail k i s f s' :
    nth_error (u_fields u) i = Some f -> f_run f s = Fail s' -> p_err s' = false -> none_behind u i -> doc u k i s DFail
| doc_recover k i s f s' k' r :
    nth_error (u_fields u) i = Some f -> f_run f s = Fail s' -> p_err s' = false -> closest u i k' ->
    sync u k' (p_pos s') (set_err (ran i s s' false) true) r -> doc u k i s r
| doc_retry k i s f s' r :
    nth_error (u_fields u) i = Some f -> f_run f s = Fail s' -> p_err s' = true ->
    sync u k (S (p_pos s')) (ran i s s' false) r -> doc u k i s r
with sync (u : unit_) : nat -> nat -> pst -> dres -> Prop :=
| sync_lost k f sp from s :
    nth_error (u_fields u) k = Some f -> f_sync f = Some sp ->
    (forall p, from <= p -> ~ occurs (s_lits sp) p) -> sync u k from s DFail
| sync_found k f sp from s p t h s1 r :
    nth_error (u_fields u) k = Some f -> f_sync f = Some sp ->
    first_from (s_lits sp) from p -> longest (s_lits sp) p t -> p_head s <= h <= p ->
    s1 = mkP p h (STok (tok_id t)) (p + length (tok_word t)) true (EvSynced k p :: p_tr s) ->
    resume u k (mkP p h (STok (tok_id t)) (p + length (tok_word t)) true (p_tr s)) s1 r ->
    sync u k from s r
with resume (u : unit_) : nat -> pst -> pst -> dres -> Prop :=
| resume_trial k s0 s1 r : u_synced u s0 = HNone -> doc u k k s1 r -> resume u k s0 s1 r
| resume_confirm k s0 s1 r : u_synced u s0 = HConfirm -> doc u k k (set_err s1 false) r -> resume u k s0 s1 r
| resume_reject k s0 s1 r : u_synced u s0 = HReject -> sync u k (S (p_pos s1)) s1 r -> resume u k s0 s1 r
| resume_throw k s0 s1 : u_synced u s0 = HThrow -> resume u k s0 s1 DFatal.

(** Nothing pending: no look-ahead, and the position has not been trimmed away. *)
Definition settled (s : pst) : Prop := p_lah s = SNone /\ p_lahe s <= p_pos s /\ p_head s <= p_pos s.
(** A field may begin in such a state, or, if it is a synchronization point, at one of its literals that has just been found. *)
Definition entry (f : ufield) (s : pst) : Prop :=
  settled s \/
  exists sp t, f_sync f = Some sp /\ In t (s_lits sp) /\ present t (p_pos s) /\ p_lah s = STok (tok_id t) /\
               p_lahe s = p_pos s + length (tok_word t) /\ p_head s <= p_pos s.
(** A field that does not go back in the input, leaves nothing pending, done or failed, and brings no pending error of its own. *)
Definition tidy (f : ufield) : Prop :=
  forall s, entry f s ->
  match f_run f s with
  | Done s' | Fail s' => settled s' /\ p_pos s <= p_pos s' /\ (p_err s' = true -> p_err s = true)
  | Fatal => True
  end.
(** A synchronization point given by the literals its parsing begins with; several of them only if there are no gaps. *)
Definition plain (sp : ssp) : Prop :=
  s_mode sp = SFirst /\ s_rx sp = None /\ NoDup (map tok_word (s_lits sp)) /\ (no_gaps \/ length (s_lits sp) <= 1).
Definition plain_unit (u : unit_) : Prop :=
  (forall f, In f (u_fields u) -> tidy f) /\ (forall f sp, In f (u_fields u) -> f_sync f = Some sp -> plain sp).
(** There is at most one field with &synchronize. *)
Definition one_point (u : unit_) : Prop :=
  forall i j f g, nth_error (u_fields u) i = Some f -> nth_error (u_fields u) j = Some g -> f_sync f <> None -> f_sync g <> None -> i = j.

Definition to_doc (r : fres) : dres := match r with Done s => DDone s | Fail _ => DFail | Fatal => DFatal end.
End Spec.

(** Where parsing goes on when the literal t of a synchronization point has been found at p: at the literal, or behind it with
    %synchronize-after; the literal is pending as look-ahead unless a property gave it. *)
Definition resumed (sp : ssp) (p : nat) (t : tok) (s s' : pst) : Prop :=
  p_pos s' = (match s_mode sp with SAfter => p + length (tok_word t) | _ => p end) /\ p_lah s' = (match s_mode sp with SFirst => STok (tok_id t) | _ => SNone end) /\ p_err s' = p_err s /\ p_tr s' = p_tr s.

(** Without trimming (nothing is before what the stream still has): a field that goes forward, done or failed, and throws nothing but failures. *)
Definition forward (f : ufield) : Prop :=
  forall s, p_head s = 0 -> match f_run f s with Done s' | Fail s' => p_head s' = 0 /\ p_pos s <= p_pos s' | Fatal => False end.
Definition forward_unit (u : unit_) : Prop :=
  (forall f, In f (u_fields u) -> forward f) /\ (forall s, u_synced u s <> HThrow) /\
  (forall f sp, In f (u_fields u) -> f_sync f = Some sp -> s_mode sp <> SAfter).

(** What may come next in the sequence of events of any unit, for [e2] right behind [e1]. *)
Definition follows (u : unit_) (e1 e2 : event) : Prop :=
  match e1, e2 with
  | EvField i _ true, EvField j _ _ => j = S i
  | EvField i _ true, EvSynced k _ => k = S i
  | EvField i _ true, EvLost k => k = S i
  | EvField i _ false, EvField j _ _ => False
  | EvField i _ false, EvSynced k _ => closest u i k \/ (none_behind u i /\ k <= i)
  | EvField i _ false, EvLost k => closest u i k \/ (none_behind u i /\ k <= i)
  | EvSynced k p, EvField i q _ => i = k /\ q = p
  | EvSynced k p, EvSynced k' _ => k' < k
  | EvSynced k p, EvLost k' => k' < k
  | EvLost k, EvSynced k' _ => k' < k
  | EvLost k, EvLost k' => k' < k
  | EvLost k, EvField _ _ _ => False
  end.
(** Oldest event first. *)
Fixpoint orderly (u : unit_) (l : list event) : Prop :=
  match l with
  | e1 :: (e2 :: _) as l' => follows u e1 e2 /\ orderly u l'
  | _ => True
  end.
Definition failed_field (e : event) : Prop := match e with EvField _ _ false => True | _ => False end.
