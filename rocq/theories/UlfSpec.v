(** What the manual says about hooks, &convert, &requires and containers (doc/programming/parsing.rst: 449-463 &requires,
    541-610 and 668-674 unit hooks, 1410-1446 and 1465-1486 vectors), in terms of what can be observed: the hooks that run,
    in order, with their arguments and the state they see. *)
From Coq Require Import List Bool Arith.
From Verif Require Import UlfModel.
Import ListNotations.

Definition start (w : world) (i : list nat) : st := {| sw := w; sin := i; str := [] |}.

(** the hooks of the life of a unit *)
Definition life (e : event) : bool :=
  match e with EvInit _ | EvDone _ | EvError _ _ | EvFinally _ => true | _ => false end.
Definition is_field_err (e : event) : bool := match e with EvFieldErr _ _ _ => true | _ => false end.
Definition calm (t : list event) : Prop := forall e, In e t -> life e = false.

(** the hooks in the life of one unit instance: what may be seen, whatever happens *)
Inductive life_shape : list event -> Prop :=
| shape (wi : world) (mid tl : list event) : calm mid ->
    (* still running *) tl = []
    \/ (exists wd wf, tl = [EvDone wd; EvFinally wf])
    \/ (exists e we, tl = [EvError e we]) \/ (exists e we wf, tl = [EvError e we; EvFinally wf])
    \/ (exists wd e we, tl = [EvDone wd; EvError e we]) \/ (exists wd e we wf, tl = [EvDone wd; EvError e we; EvFinally wf]) ->
    life_shape (EvInit wi :: mid ++ tl).
(** ... and of all units inside of it *)
Inductive nice : event -> Prop :=
| nice_leaf (e : event) : (forall t, e <> EvSub t) -> (forall t, e <> EvList t) -> nice e
| nice_sub (t : list event) : life_shape t -> Forall nice t -> nice (EvSub t)
| nice_list (t : list event) : calm t -> Forall nice t -> nice (EvList t).

(** fields of a unit, including those inside of if and switch *)
Inductive declared (f : field) : items -> Prop :=
| dcl_here (i : item) (r : items) : declared1 f i -> declared f (ICons i r)
| dcl_next (i : item) (r : items) : declared f r -> declared f (ICons i r)
with declared1 (f : field) : item -> Prop :=
| dcl_field : declared1 f (IField f)
| dcl_then (c : expr bool) (a b : items) : declared f a -> declared1 f (IBlock c a b)
| dcl_else (c : expr bool) (a b : items) : declared f b -> declared1 f (IBlock c a b)
| dcl_case (e : expr val) (cs : cases) (d : dflt) : declaredc f cs -> declared1 f (ISwitch e cs d)
| dcl_default (e : expr val) (cs : cases) (p : items) : declared f p -> declared1 f (ISwitch e cs (DSome p))
with declaredc (f : field) : cases -> Prop :=
| dcl_this (vs : list (expr val)) (p : items) (r : cases) : declared f p -> declaredc f (CCons vs p r)
| dcl_later (vs : list (expr val)) (p : items) (r : cases) : declaredc f r -> declaredc f (CCons vs p r).

(** the world after the field's value has been stored *)
Definition storing (id : name) (v : val) (w : world) : world := {| self := set (self w) id v; glob := glob w |}.
Definition keeps_value (f : field) : Prop := match f with Field _ anon _ t _ _ _ _ => anon = false /\ t <> TVoid end.
Definition field_id (f : field) : name := match f with Field id _ _ _ _ _ _ _ => id end.
Definition field_conv (f : field) : option (expr val) := match f with Field _ _ _ _ c _ _ _ => c end.
Definition field_reqs (f : field) : list (expr bool) := match f with Field _ _ _ _ _ r _ _ => r end.
Definition field_hook (f : field) : option hookF := match f with Field _ _ _ _ _ _ h _ => h end.
Definition field_ehook (f : field) : option hookE := match f with Field _ _ _ _ _ _ _ h => h end.

(** The hook of [f] rightly runs in state [w] with $$ = [v], [raw] being what has been parsed: *)
Definition rightly (f : field) (raw v : val) (w : world) : Prop :=
  field_hook f <> None
  /\ (exists w0,
        (* the value is the result of &convert, *)
        match field_conv f with None => v = raw | Some c => c w0 raw = Val v end
        (* it has been stored if the field has a name and a value, *)
        /\ (keeps_value f -> w = storing (field_id f) v w0) /\ (~ keeps_value f -> w = w0))
  (* and all requirements are met, with $$ the parsed value and the final value in the field *)
  /\ Forall (fun r => r w raw = Val true) (field_reqs f).

(** the fields whose hooks ran, in order *)
Fixpoint hooked (t : list event) : list name :=
  match t with [] => [] | EvField f _ _ _ :: r => f :: hooked r | _ :: r => hooked r end.

(** the ways through the fields of a unit: names of the fields with hooks, in order. A field with a condition may be left
    out; one branch of if, one case of switch. *)
Inductive way : items -> list name -> Prop :=
| way_nil : way INil []
| way_cons (i : item) (r : items) (a b : list name) : way1 i a -> way r b -> way (ICons i r) (a ++ b)
with way1 : item -> list name -> Prop :=
| way_hook (id : name) (anon : bool) (c : option (expr bool)) t cv rq (h : hookF) eh : way1 (IField (Field id anon c t cv rq (Some h) eh)) [id]
| way_nohook (id : name) (anon : bool) (c : option (expr bool)) t cv rq eh : way1 (IField (Field id anon c t cv rq None eh)) []
| way_skipped (id : name) (anon : bool) (c : expr bool) t cv rq h eh : way1 (IField (Field id anon (Some c) t cv rq h eh)) []
| way_then (c : expr bool) (a b : items) (l : list name) : way a l -> way1 (IBlock c a b) l
| way_else (c : expr bool) (a b : items) (l : list name) : way b l -> way1 (IBlock c a b) l
| way_case (e : expr val) (cs : cases) (d : dflt) (l : list name) : wayc cs l -> way1 (ISwitch e cs d) l
| way_default (e : expr val) (cs : cases) (p : items) (l : list name) : way p l -> way1 (ISwitch e cs (DSome p)) l
with wayc : cases -> list name -> Prop :=
| way_this (vs : list (expr val)) (p : items) (r : cases) (l : list name) : way p l -> wayc (CCons vs p r) l
| way_later (vs : list (expr val)) (p : items) (r : cases) (l : list name) : wayc r l -> wayc (CCons vs p r) l.

(** all names in the order they are written down, and subsequences *)
Fixpoint written (is : items) : list name := match is with INil => [] | ICons i r => written1 i ++ written r end
with written1 (i : item) : list name :=
  match i with
  | IField (Field id _ _ _ _ _ _ _) => [id]
  | IBlock _ a b => written a ++ written b
  | ISwitch _ cs d => writtenc cs ++ writtend d
  end
with writtenc (cs : cases) : list name := match cs with CNil => [] | CCons _ p r => written p ++ writtenc r end
with writtend (d : dflt) : list name := match d with DNone => [] | DSome p => written p end.
Inductive subseq {A} : list A -> list A -> Prop :=
| sub_nil : subseq [] []
| sub_skip (x : A) (a b : list A) : subseq a b -> subseq a (x :: b)
| sub_keep (x : A) (a b : list A) : subseq a b -> subseq (x :: a) (x :: b).

(** ** Containers *)
(** the elements of a container that have been parsed, from the events inside of it *)
Fixpoint parsed (t : list event) : list val :=
  match t with [] => [] | EvItem v _ :: r => v :: parsed r | _ :: r => parsed r end.
(** the hook foreach was run for the last element, and said stop *)
Definition hook_stops (each : option hookS) (v : val) (w : world) : Prop :=
  match each with None => False | Some h => snd (fst (h v w)) = true end.
Definition stopped_by_hook (f : name) (each : option hookS) (t : list event) (x : val) : Prop :=
  exists t0 w, t = t0 ++ [EvEach f x w] /\ hook_stops each x w.
(** every hook foreach in the events ran for an element just parsed, and did not say stop *)
Definition not_stopped (each : option hookS) (t : list event) : Prop :=
  forall f v w, In (EvEach f v w) t -> ~ hook_stops each v w.
(** the values the hook foreach ran for *)
Fixpoint each_vals (t : list event) : list val :=
  match t with [] => [] | EvEach _ v _ :: r => v :: each_vals r | _ :: r => each_vals r end.
(** a condition that looks at $$ only *)
Definition only_dd (c : expr bool) (p : val -> bool) : Prop := forall w v, c w v = Val (p v).
(** the hook foreach leaves the container itself alone *)
Definition leaves (x : name) (each : option hookS) : Prop :=
  match each with None => True | Some h => forall v w, get (self (fst (fst (h v w)))) x = get (self w) x end.
(** an element type that is not a container itself *)
Definition no_nested (el : elem) : Prop := match el with Elem (TList _ _ _) _ _ => False | _ => True end.
(** where the container is kept: not in a field; or in a field that the hook foreach leaves alone *)
Definition kept (d : option name) (each : option hookS) (el : elem) : Prop :=
  match d with None => True | Some x => leaves x each /\ no_nested el end.

(** ** Ending *)
(** the element takes at least one byte, or fails *)
Definition eats (el : elem) : Prop :=
  match el with Elem (TUInt (S _)) _ _ => True | Elem (TLit (_ :: _)) _ _ => True | _ => False end.
Definition mode_ends (m : lmode) (el : elem) : Prop :=
  match m with LCount _ | LEod => True | _ => eats el end.
Fixpoint ends_u (u : unit_) : Prop := match u with Unit _ _ its _ _ _ _ => ends_is its end
with ends_is (is : items) : Prop := match is with INil => True | ICons i r => ends_i i /\ ends_is r end
with ends_i (i : item) : Prop :=
  match i with IField f => ends_f f | IBlock _ a b => ends_is a /\ ends_is b | ISwitch _ cs d => ends_cs cs /\ ends_d d end
with ends_cs (cs : cases) : Prop := match cs with CNil => True | CCons _ p r => ends_is p /\ ends_cs r end
with ends_d (d : dflt) : Prop := match d with DNone => True | DSome p => ends_is p end
with ends_f (f : field) : Prop := match f with Field _ _ _ t _ _ _ _ => ends_t t end
with ends_t (t : ftype) : Prop :=
  match t with TSub u => ends_u u | TList m el _ => mode_ends m el /\ ends_e el | _ => True end
with ends_e (el : elem) : Prop := match el with Elem t _ _ => ends_t t end.

(** ** How the parsing of a container ends *)
(** which conditions on the element just parsed end the parsing: [before] it is added, [after] it has been added *)
Definition conditions (m : lmode) (before after : val -> bool) : Prop :=
  match m with
  | LCount _ | LEod => (forall v, before v = false) /\ (forall v, after v = false)
  | LUntil c => only_dd c before /\ (forall v, after v = false)
  | LUntilIncl c => (forall v, before v = false) /\ only_dd c after
  | LWhile c => only_dd c (fun v => negb (before v)) /\ (forall v, after v = false)
  end.
(** foreach, if there is one, has run for exactly these elements *)
Definition ran_for (each : option hookS) (t : list event) (vs : list val) : Prop :=
  each_vals t = match each with None => [] | Some _ => vs end.
(** [l]: the elements of the container; [t]: the events while it was parsed *)
Inductive ended (f : name) (each : option hookS) (before after : val -> bool) (l : list val) (t : list event) : Prop :=
(* no more elements to parse *)
| end_none : parsed t = l -> ran_for each t l -> not_stopped each t ->
    (forall v, In v l -> before v = false /\ after v = false) -> ended f each before after l t
(* an element was parsed that met the condition, and it has not been added; the hook did not run for it *)
| end_before (x : val) : parsed t = l ++ [x] -> ran_for each t l -> not_stopped each t -> before x = true ->
    (forall v, In v l -> before v = false /\ after v = false) -> ended f each before after l t
(* the last element met the condition *)
| end_after (l0 : list val) (x : val) : l = l0 ++ [x] -> parsed t = l -> ran_for each t l -> not_stopped each t ->
    before x = false -> after x = true -> (forall v, In v l0 -> before v = false /\ after v = false) -> ended f each before after l t
(* the hook said stop, and the element has not been added *)
| end_stop (x : val) : parsed t = l ++ [x] -> ran_for each t (l ++ [x]) -> stopped_by_hook f each t x -> before x = false ->
    (forall v, In v l -> before v = false /\ after v = false) -> ended f each before after l t.
(** whenever foreach runs, the container in field [x] has the elements parsed before, but not yet the current one *)
Definition sees_previous (d : option name) (t : list event) : Prop :=
  forall a f v w b, t = a ++ EvEach f v w :: b ->
    exists p, parsed a = p ++ [v] /\ match d with None => True | Some x => get (self w) x = Some (VList p) end.
