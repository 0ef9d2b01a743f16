(** Model of the life of a unit: what the code generated by
    spicy/toolchain/src/compiler/codegen/parser-builder.cc does with the fields, hooks, conditions, conversions,
    requirements and containers of a unit: 225-300, 440-452, 523-545 (stages, %init/%error/%finally), 583-812
    (_parseProduction), 816-860 (preParseField), 968-1052 (postParseField), 1637-1665 (Block), 1669-1752 (Counter, ForEach),
    1760-1785 (Switch), 1790-1942 (Unit), 2628-2813 (newValueForField, newContainerItem, applyConvertExpression,
    initializeUnit), 2815-2864 (finalizeUnit), 3113-3122 (loop bodies).

    User code (hooks, expressions) is arbitrary: Coq functions on the state of the unit and the global variables, which may
    throw. Generated code is written in a monad with state and exceptions.

    Simplified: the whole input is there (how waiting works: C21, C22); hooks do not move the input position
    (set_input); atomic types are unsigned integers, bytes with &size or &eod, and literals (other types: C25-C36, C59);
    no sinks, filters, unit parameters, contexts, &parse-from, &parse-at, &try (C80), &synchronize (C79, C81), %skip,
    look-ahead lists (C73-C75), &size on fields (C68), offsets and profiling; a hook has one body. *)
From Coq Require Import List Bool Arith.
Import ListNotations.

Definition name := nat.
Definition err := nat.
(** values; a unit is its fields and variables *)
Inductive val := VVoid | VInt (n : nat) | VBytes (b : list nat) | VList (l : list val) | VUnit (fs : list (name * val)).
Definition store := list (name * val).
(** fields and variables of a struct: unset unless in the list *)
Fixpoint get (s : store) (x : name) : option val :=
  match s with [] => None | (y, v) :: r => if Nat.eqb x y then Some v else get r x end.
Definition set (s : store) (x : name) (v : val) : store := (x, v) :: s.

(** what user code can see and change: the unit instance, and the global variables *)
Record world := { self : store; glob : store }.

(** errors of the runtime and of parseError (3093-3103): numbers for their messages *)
Definition e_input : err := 0.       (* not enough input, or literal not found *)
Definition e_requires : err := 1.    (* &requires failed *)
Definition e_loop : err := 2.        (* loop body did not change input position *)
Definition e_nocase : err := 3.      (* no matching case in switch *)
Definition e_size : err := 4.        (* &size amount not consumed *)

(** a computation ends well, throws, or has not finished within the given number of loop iterations *)
Inductive rs (A : Type) := Ok (a : A) | Err (e : err) | Div.
Arguments Ok {A}. Arguments Err {A}. Arguments Div {A}.

(** user expressions: state and value of $$; they give a value or throw *)
Inductive xr (A : Type) := Val (a : A) | Exc (e : err).
Arguments Val {A}. Arguments Exc {A}.
Definition expr (A : Type) := world -> val -> xr A.
(** hooks: [None]: returns, [Some e]: throws *)
Definition hook0 := world -> world * option err.
Definition hookE := err -> world -> world * option err.
Definition hookF := val -> world -> world * option err.
(** codegen.cc:737-742: foreach gets the element, and the flag that the statement [stop] sets *)
Definition hookS := val -> world -> world * bool * option err.

(** what can be observed from outside: the execution of hooks, with arguments and the state they start in; EvItem is the
    message "got container item" of 2698. EvSub and EvList hold what happens inside of a sub-unit or container. *)
Inductive event :=
| EvInit (w : world) | EvDone (w : world) | EvError (e : err) (w : world) | EvFinally (w : world)
| EvField (f : name) (raw v : val) (w : world)
| EvFieldErr (f : name) (e : err) (w : world)
| EvItem (v : val) (w : world)
| EvEach (f : name) (v : val) (w : world)
| EvSub (t : list event) | EvList (t : list event).

(** ** The monad of generated code *)
Record st := { sw : world; sin : list nat; str : list event }.
Definition M (A : Type) := st -> rs A * st.
Definition ret {A} (a : A) : M A := fun s => (Ok a, s).
Definition throw {A} (e : err) : M A := fun s => (Err e, s).
Definition bind {A B} (m : M A) (k : A -> M B) : M B :=
  fun s => match m s with (Ok a, s') => k a s' | (Err e, s') => (Err e, s') | (Div, s') => (Div, s') end.
Notation "'do' x <- m ; k" := (bind m (fun x => k)) (at level 200, x name, m at level 99, k at level 200).
Notation "m ;; k" := (bind m (fun _ => k)) (at level 100, k at level 200, right associativity).
(** try { m } catch ( e ) { h e } *)
Definition try_ {A} (m : M A) (h : err -> M A) : M A :=
  fun s => match m s with (Err e, s') => h e s' | r => r end.
Definition emit (e : event) : M unit := fun s => (Ok tt, {| sw := sw s; sin := sin s; str := str s ++ [e] |}).
Definition eval {A} (e : expr A) (dd : val) : M A := fun s => (match e (sw s) dd with Val a => Ok a | Exc x => Err x end, s).
Definition put (w : world) : M unit := fun s => (Ok tt, {| sw := w; sin := sin s; str := str s |}).
Definition putin (i : list nat) : M unit := fun s => (Ok tt, {| sw := sw s; sin := i; str := str s |}).
Definition gets {A} (f : st -> A) : M A := fun s => (Ok (f s), s).
(** [m], whose events are wrapped up in one *)
Definition wrap {A} (c : list event -> event) (m : M A) : M A :=
  fun s => match m {| sw := sw s; sin := sin s; str := [] |} with
           | (r, s') => (r, {| sw := sw s'; sin := sin s'; str := str s ++ [c (str s')] |})
           end.
(** calling a hook *)
Definition call {A} (ev : world -> event) (h : world -> world * A) : M A :=
  do w <- gets sw; emit (ev w);; (let '(w', r) := h w in put w';; ret r).
Definition check (r : option err) : M unit := match r with None => ret tt | Some e => throw e end.
Definition set_self (x : name) (v : val) : M unit :=
  do w <- gets sw; put {| self := set (self w) x v; glob := glob w |}.

(** ** Units *)

(** how a vector ends: [n], &eod, &until, &until-including, &while *)
Inductive lmode := LCount (n : expr nat) | LEod | LUntil (c : expr bool) | LUntilIncl (c : expr bool) | LWhile (c : expr bool).

Inductive unit_ :=
| Unit (init : hook0) (size : option (expr nat)) (its : items) (reqs : list (expr bool)) (done : hook0) (error : hookE) (finally : hook0)
with items := INil | ICons (i : item) (r : items)
with item :=
| IField (f : field)
| IBlock (c : expr bool) (a b : items)            (* if ( c ) { a } else { b } *)
| ISwitch (e : expr val) (cs : cases) (d : dflt)  (* switch ( e ) { ... } *)
with cases := CNil | CCons (vs : list (expr val)) (p : items) (r : cases)
with dflt := DNone | DSome (p : items)
with field :=
| Field (id : name) (anon : bool) (cond : option (expr bool)) (t : ftype) (conv : option (expr val)) (reqs : list (expr bool))
        (hook : option hookF) (ehook : option hookE)
with ftype :=
| TVoid | TUInt (n : nat) | TBytes (n : expr nat) | TRest | TLit (b : list nat)
| TSub (u : unit_)
| TList (m : lmode) (el : elem) (each : option hookS)
(* the item of a container: a field without name, condition and hooks *)
with elem := Elem (t : ftype) (conv : option (expr val)) (reqs : list (expr bool)).

(** 2628-2643, 2720-2729, 2834-2840: every &requires in turn *)
Fixpoint requires (rs : list (expr bool)) (dd : val) : M unit :=
  match rs with
  | [] => ret tt
  | r :: rest => do b <- eval r dd; if b then requires rest dd else throw e_requires
  end.

(** 2759-2781 *)
Definition convert (c : option (expr val)) (v : val) : M val :=
  match c with None => ret v | Some e => eval e v end.

(** atomic types take bytes from the input *)
Definition take (n : nat) : M (list nat) :=
  do i <- gets sin; if n <=? length i then putin (skipn n i);; ret (firstn n i) else throw e_input.
Definition be (b : list nat) : nat := fold_left (fun a x => a * 256 + x) b 0.
Fixpoint list_nat_eqb (a b : list nat) : bool :=
  match a, b with [], [] => true | x :: a', y :: b' => (x =? y) && list_nat_eqb a' b' | _, _ => false end.

(** where a container or sub-unit is stored while it is parsed (609-643): the field itself, unless it is anonymous or
    converted *)
Definition dest (id : name) (anon : bool) (conv : option (expr val)) : option name :=
  match conv with None => if anon then None else Some id | Some _ => None end.
Definition stored (d : option name) (v : val) : M unit := match d with Some x => set_self x v | None => ret tt end.

(** push_back at the destination; [acc] is a destination that is not a field *)
Definition push (d : option name) (v : val) (acc : list val) : M (list val) :=
  match d with
  | None => ret (acc ++ [v])
  | Some x => do w <- gets sw;
              match get (self w) x with
              | Some (VList l) => set_self x (VList (l ++ [v]));; ret (l ++ [v])
              | _ => throw e_input
              end
  end.

(** 2693-2706 *)
Definition run_each (f : name) (each : option hookS) (v : val) (stop : bool) : M bool :=
  (do w <- gets sw; emit (EvItem v w));;
  if stop then ret stop else
    match each with
    | None => ret stop
    | Some h => do r <- call (EvEach f v) (fun w => let '(w', b, e) := h v w in (w', (b, e)));
                (check (snd r);; ret (fst r))
    end.
(** 2688-2691 *)
Definition push_elem (d : option name) (v : val) (stop : bool) (acc : list val) : M (list val) :=
  if stop then ret acc else push d v acc.

(** 2684-2757: newContainerItem; returns the flag that ends the loop *)
Definition new_item (f : name) (m : lmode) (each : option hookS) (reqs : list (expr bool)) (d : option name) (v : val) (acc : list val)
  : M (bool * list val) :=
  match m with
  | LUntil c =>
      do b <- eval c v; requires reqs v;; (do s <- run_each f each v b; do a <- push_elem d v s acc; ret (s, a))
  | LUntilIncl c =>
      requires reqs v;; (do s <- run_each f each v false; do a <- push_elem d v s acc;
                         if s then ret (s, a) else do b <- eval c v; ret (b, a))
  | LWhile c =>
      do b <- eval c v; requires reqs v;; (do s <- run_each f each v (negb b); do a <- push_elem d v s acc; ret (s, a))
  | _ =>
      requires reqs v;; (do s <- run_each f each v false; do a <- push_elem d v s acc; ret (s, a))
  end.

(** 3115-3122 *)
Definition progress (before : list nat) : M unit :=
  do i <- gets sin; if (length i =? length before) && negb (length i =? 0) then throw e_loop else ret tt.

(** 1669-1728: Counter; [body] parses and adds one element *)
Fixpoint counter (n : nat) (body : list val -> M (bool * list val)) (acc : list val) : M (list val) :=
  match n with
  | O => ret acc
  | S n' => do r <- body acc; if fst r then ret (snd r) else counter n' body (snd r)
  end.
(** 1736-1752: ForEach, at most [fuel] iterations *)
Fixpoint foreach (fuel : nat) (eod_ok : bool) (body : list val -> M (bool * list val)) (acc : list val) : M (list val) :=
  match fuel with
  | O => fun s => (Div, s)
  | S fuel' =>
      do i <- gets sin;
      if eod_ok && (length i =? 0) then ret acc else
        (do r <- body acc; if fst r then ret (snd r) else (progress i;; foreach fuel' eod_ok body (snd r)))
  end.

(** evaluates the alternatives of a case one after the other until one is equal: statement switch *)
Fixpoint matches (veq : val -> val -> bool) (v : val) (es : list (expr val)) : M bool :=
  match es with
  | [] => ret false
  | e :: r => do x <- eval e VVoid; if veq v x then ret true else matches veq v r
  end.
(** the equality of the values one switches over *)
Definition val_eqb (a b : val) : bool :=
  match a, b with
  | VVoid, VVoid => true
  | VInt m, VInt n => m =? n
  | VBytes x, VBytes y => list_nat_eqb x y
  | _, _ => false
  end.

(** 1790-1825, 1925-1938: &size of a unit: [m] sees only so much input, and must use it up *)
Definition limited (size : option (expr nat)) (m : M unit) : M unit :=
  match size with
  | None => m
  | Some e =>
      do n <- eval e VVoid; do i <- gets sin;
      (putin (firstn n i);; (m;; (do r <- gets sin;
        if (length i <? n) || negb (length r =? 0) then throw e_size else putin (skipn n i))))
  end.

(** 278-296, 451, 542: what is around the parsing of the fields *)
Definition stages (error : hookE) (finally : hook0) (m : M unit) : M unit :=
  let run_finally := do r <- call EvFinally finally; check r in
  try_ m (fun e => (do r <- call (EvError e) (error e); check r);; (run_finally;; throw e));; run_finally.

Fixpoint p_unit (fuel : nat) (u : unit_) {struct u} : M unit :=
  match u with
  | Unit init size its reqs done error finally =>
      stages error finally
        ((do r <- call EvInit init; check r);;
         limited size (p_items fuel its;; requires reqs VVoid;; (do r <- call EvDone done; check r)))
  end
with p_items (fuel : nat) (is : items) {struct is} : M unit :=
  match is with
  | INil => ret tt
  | ICons i r => p_item fuel i;; p_items fuel r
  end
with p_item (fuel : nat) (i : item) {struct i} : M unit :=
  match i with
  | IField f => p_field fuel f
  | IBlock c a b => do x <- eval c VVoid; if x then p_items fuel a else p_items fuel b
  | ISwitch e cs d => do v <- eval e VVoid; p_cases fuel cs v (p_dflt fuel d)
  end
with p_cases (fuel : nat) (cs : cases) {struct cs} : val -> M unit -> M unit :=
  match cs with
  | CNil => fun _ d => d
  | CCons vs p r => fun v d => do b <- matches val_eqb v vs; if b then p_items fuel p else p_cases fuel r v d
  end
with p_dflt (fuel : nat) (d : dflt) {struct d} : M unit :=
  match d with DNone => throw e_nocase | DSome p => p_items fuel p end
with p_field (fuel : nat) (f : field) {struct f} : M unit :=
  match f with
  | Field id anon cond t conv reqs hook ehook =>
      let body : M unit :=
        (* 968-1052, 2628-2682 *)
        do raw <- p_type fuel t id (dest id anon conv);
        do v <- convert conv raw;
        (if anon then ret tt else match t with TVoid => ret tt | _ => set_self id v end);;
        (requires reqs raw;;
         match hook with None => ret tt | Some h => do r <- call (EvField id raw v) (h v); check r end) in
      let cbody : M unit := match cond with None => body | Some c => do b <- eval c VVoid; if b then body else ret tt end in
      (* 656-672, 765-778 *)
      match ehook with
      | None => cbody
      | Some h => try_ cbody (fun e => (do r <- call (EvFieldErr id e) (h e); check r);; throw e)
      end
  end
with p_type (fuel : nat) (t : ftype) {struct t} : name -> option name -> M val :=
  match t with
  | TVoid => fun _ _ => ret VVoid
  | TUInt n => fun _ _ => do b <- take n; ret (VInt (be b))
  | TBytes e => fun _ _ => do n <- eval e VVoid; do b <- take n; ret (VBytes b)
  | TRest => fun _ _ => do i <- gets sin; putin [];; ret (VBytes i)
  | TLit l => fun _ _ => do b <- take (length l); if list_nat_eqb b l then ret (VBytes b) else throw e_input
  | TSub u => fun _ d =>
      (* 713-750: the sub-unit is a new instance, at its destination from the beginning *)
      do w <- gets sw;
      put {| self := []; glob := glob w |};;
      (fun s =>
         let '(r, s') := wrap EvSub (p_unit fuel u) s in
         let v := VUnit (self (sw s')) in
         let back := (put {| self := self w; glob := glob (sw s') |};; stored d v) in
         match r with
         | Ok _ => (back;; ret v) s'
         | Err e => (back;; throw e) s'
         | Div => (Div, s')
         end)
  | TList m el each => fun id d =>
      stored d (VList []);;
      wrap EvList
        (let body := fun acc => p_elem fuel el id m each d acc in
         do l <- (match m with
                  | LCount n => do k <- eval n VVoid; counter k body []
                  | LEod => foreach fuel true body []
                  | _ => foreach fuel false body []
                  end);
         (match d with
          | None => ret (VList l)
          | Some x => do w <- gets sw; match get (self w) x with Some v => ret v | None => throw e_input end
          end))
  end
with p_elem (fuel : nat) (el : elem) {struct el} : name -> lmode -> option hookS -> option name -> list val -> M (bool * list val) :=
  match el with
  | Elem t conv reqs => fun id m each d acc =>
      do raw <- p_type fuel t id None;
      do v <- convert conv raw;
      new_item id m each reqs d v acc
  end.
