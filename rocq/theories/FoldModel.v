(** Model of the constant folder, hilti/toolchain/src/compiler/constant-folder.cc, and of what the code generator makes of
    the expressions it folds (hilti/toolchain/src/compiler/codegen/{ctors,expressions,operators}.cc).

    Simplifications: the AST is a tree of resolved, type-checked expressions; a reference to a constant carries the
    constant's initialiser; a coerced ctor is its coerced ctor (constant-folder.cc:96-100); a real is its 64-bit pattern;
    operators that the folder does not know are [EOp] with two operands, everything else it does not know is [EVar].
    Source locations are dropped. The folder's C++ exceptions are [Throw], its undefined behaviour is [UB].

    Trusted: integer::safe<T> (SafeInt, not part of /repo) computes exactly and throws Overflow if the result is no value
    of T. What [-] does on an unsigned SafeInt is left open: the parameter [uneg]. *)
From Verif Require Import Base IntModel TimeModel.
Open Scope Z_scope.

(** Values of constants: hilti/toolchain/include/ast/ctors/{integer,bool,real,interval,time,error,stream}.h. [VOther] is any
    other ctor. *)
Inductive value :=
| VInt (signed : bool) (w : width) (z : Z)
| VBool (b : bool)
| VReal (bits : Z)
| VIval (ns : Z)
| VTime (ns : Z)
| VError (n : nat)
| VStream (n : nat)
| VOther (n : nat).

(** Operand of the interval and time constructors: int, uint (constant-folder.cc:184-206, 267-303) or real (208-212, 305-309) *)
Inductive src := SInt (signed : bool) | SReal.
(** unit of an interval or time constructor's integer argument *)
Inductive tunit := Secs | Nsecs.

Inductive expr :=
| ECtor (v : value)                          (* expression::Ctor *)
| ENeg (signed : bool) (e : expr)            (* signed_integer::SignNeg, unsigned_integer::SignNeg *)
| EGroup (e : expr)                          (* expression::Grouping without local, with one expression *)
| EOr (a b : expr) | EAnd (a b : expr) | ENot (e : expr)
| EConst (feature is_bool : bool) (e : expr) (* expression::Name of a declaration::Constant initialised with e *)
| EVar (n : nat)                             (* any other leaf *)
| ETern (c a b : expr)                       (* expression::Ternary *)
| ERNeg (e : expr)                           (* real::SignNeg *)
| EErr (e : expr) | EStr (e : expr)          (* error::Ctor, stream::Ctor *)
| EConv (from to : bool) (w : width) (e : expr) (* {signed,unsigned}_integer::Ctor{Signed,Unsigned}{8,16,32,64} *)
| EIval (s : src) (u : tunit) (e : expr)     (* interval::Ctor... *)
| ETime (s : src) (u : tunit) (e : expr)     (* time::Ctor... *)
| EOp (n : nat) (a b : expr).                (* any other operator *)

(** constant-folder.h:13-31 Style *)
Record style := mkStyle { fold_ternary : bool; inline_bool : bool; inline_feature : bool; inline_all : bool }.

(** Range of an integer type: util::signedIntegerRange, unsignedIntegerRange (hilti/toolchain/include/base/util.h). *)
Definition in_range (s : bool) (w : width) (z : Z) : bool :=
  if s then (- 2 ^ (bits_of w - 1) <=? z) && (z <? 2 ^ (bits_of w - 1)) else (0 <=? z) && (z <? 2 ^ bits_of w).

(** validator.cc:515-520, 527-532: an integer constant must be in the range of its type. *)
Definition valid (v : value) : bool := match v with VInt s w z => in_range s w z | _ => true end.

(** negation of an IEEE double flips the sign bit (constant-folder.cc:175-178 and operators.cc:502) *)
Definition real_neg (bits : Z) : Z := Z.lxor bits (2 ^ 63).

(** safe-math.cc:15 safe_negate: OutOfRange if -x is not an int64_t *)
Definition safe_negate (x : Z) : res Z := if i64_ok (- x) then Ok (- x) else Throw OutOfRange.
(** constant-folder.cc:79-85 to_int64 *)
Definition to_int64 (x : Z) : res Z := if i64_ok x then Ok x else Throw OutOfRange.
(** constant-folder.cc:88-93 to_uint64 *)
Definition to_uint64 (x : Z) : res Z := if x <? 0 then Throw OutOfRange else Ok x.

Section WithRealSeconds.
(** interval.h:40-50, time.h:40-50: nanoseconds for seconds given as a double. The arithmetic on doubles is left open: these
    functions stand for it, an integer argument being converted to double first. The compiler and the generated code call
    the same constructors. *)
Variables (secs_ival secs_time : src -> Z -> res Z).

(** interval.h:32, 40-50: the two constructors of rt::Interval *)
Definition mk_ival (s : src) (u : tunit) (z : Z) : res value :=
  match u with Secs => rmap VIval (secs_ival s z) | Nsecs => rmap VIval (safe_i64 z) end.
(** time.h:32, 40-50: the two constructors of rt::Time *)
Definition mk_time (s : src) (u : tunit) (z : Z) : res value :=
  match u with Secs => rmap VTime (secs_time s z) | Nsecs => rmap VTime (safe_u64 z) end.

(** The argument of an interval/time constructor must be a constant of the right type: constant-folder.cc:57-66
    tryReplaceCtorExpression with the type arguments of lines 187-215, 267-277, 285-309 *)
Definition num_arg (s : src) (v : value) : option Z :=
  match s, v with
  | SInt s', VInt s'' _ z => if Bool.eqb s' s'' then Some z else None
  | SReal, VReal b => Some b
  | _, _ => None
  end.

(** constant-folder.cc:352-359 foldConstant with the visitor's methods 95-346. [Ok None]: not a foldable expression. *)
Fixpoint fold_const (st : style) (e : expr) : res (option value) :=
  match e with
  | ECtor v => Ok (Some v)
  | ENeg true a =>                                                            (* 102-105: raw negation of an int64_t *)
      let* r := fold_const st a in
      match r with
      | Some (VInt true w z) => rmap (fun x => Some (VInt true w x)) (raw_neg64 z)
      | _ => Ok None
      end
  | ENeg false a =>                                                           (* 168-173 *)
      let* r := fold_const st a in
      match r with
      | Some (VInt false w z) => rmap (fun x => Some (VInt true w x)) (safe_negate z)
      | _ => Ok None
      end
  | EGroup a => fold_const st a                                               (* 107-115 *)
  | EOr a b =>                                                                (* 117-122 *)
      let* x := fold_const st a in
      let* y := fold_const st b in
      match x, y with Some (VBool p), Some (VBool q) => Ok (Some (VBool (p || q))) | _, _ => Ok None end
  | EAnd a b =>                                                               (* 124-129 *)
      let* x := fold_const st a in
      let* y := fold_const st b in
      match x, y with Some (VBool p), Some (VBool q) => Ok (Some (VBool (p && q))) | _, _ => Ok None end
  | ENot a =>                                                                 (* 131-134 *)
      let* x := fold_const st a in
      match x with Some (VBool p) => Ok (Some (VBool (negb p))) | _ => Ok None end
  | EConst feature _ a =>                                                     (* 136-154 *)
      if feature && negb (inline_feature st) then Ok None else fold_const st a
  | EVar _ => Ok None
  | ETern c a b =>                                                            (* 156-166 *)
      if negb (fold_ternary st) then Ok None else
      let* x := fold_const st c in
      match x, a, b with
      | Some (VBool p), ECtor va, ECtor vb => Ok (Some (if p then va else vb))
      | _, _, _ => Ok None
      end
  | ERNeg a =>                                                                (* 175-178 *)
      let* x := fold_const st a in
      match x with Some (VReal b) => Ok (Some (VReal (real_neg b))) | _ => Ok None end
  | EErr a =>                                                                 (* 180-183 *)
      let* x := fold_const st a in
      match x with Some (VError n) => Ok (Some (VError n)) | _ => Ok None end
  | EStr a =>                                                                 (* 279-283 *)
      let* x := fold_const st a in
      match x with Some (VStream n) => Ok (Some (VStream n)) | _ => Ok None end
  | EConv from to w a =>                                                      (* 222-265, 311-346 *)
      let* x := fold_const st a in
      match x with
      | Some (VInt s _ z) =>
          if Bool.eqb s from then
            rmap (fun y => Some (VInt to w y))
              (match from, to with
               | false, true => to_int64 z
               | true, false => to_uint64 z
               | _, _ => Ok z
               end)
          else Ok None
      | _ => Ok None
      end
  | EIval s u a =>                                                            (* 185-215 *)
      let* x := fold_const st a in
      match x with
      | Some v => match num_arg s v with Some z => rmap Some (mk_ival s u z) | None => Ok None end
      | None => Ok None
      end
  | ETime s u a =>                                                            (* 267-277, 285-309 *)
      let* x := fold_const st a in
      match x with
      | Some v => match num_arg s v with Some z => rmap Some (mk_time s u z) | None => Ok None end
      | None => Ok None
      end
  | EOp _ _ _ => Ok None
  end.

(** constant-folder.cc:361-382 foldExpression. [Throw]: it returns a result::Error. *)
Definition fold_expression (st : style) (e : expr) : res (option value) :=
  match e with
  | EConst _ is_bool _ =>
      if negb (inline_all st) && (negb (inline_bool st) || negb is_bool) then Ok None else fold_const st e
  | _ => fold_const st e
  end.

(** constant-folder.cc:391-406: what the AST visitor does with one expression, and whether it records a change and an error *)
Record visit := mkVisit { v_expr : expr; v_mod : bool; v_err : bool }.
Definition visit_node (st : style) (e : expr) : res visit :=
  match e with
  | ECtor _ => Ok (mkVisit e false false)
  | _ => match fold_expression st e with
         | Ok (Some v) => Ok (mkVisit (ECtor v) true false)
         | Ok None => Ok (mkVisit e false false)
         | Throw _ => Ok (mkVisit e false true)
         | UB => UB
         end
  end.

Definition node1 (st : style) (f : expr -> expr) (a : visit) : res visit :=
  let* r := visit_node st (f (v_expr a)) in Ok (mkVisit (v_expr r) (v_mod a || v_mod r) (v_err a || v_err r)).
Definition node2 (st : style) (f : expr -> expr -> expr) (a b : visit) : res visit :=
  let* r := visit_node st (f (v_expr a) (v_expr b)) in
  Ok (mkVisit (v_expr r) (v_mod a || v_mod b || v_mod r) (v_err a || v_err b || v_err r)).
Definition node3 (st : style) (f : expr -> expr -> expr -> expr) (a b c : visit) : res visit :=
  let* r := visit_node st (f (v_expr a) (v_expr b) (v_expr c)) in
  Ok (mkVisit (v_expr r) (v_mod a || v_mod b || v_mod c || v_mod r) (v_err a || v_err b || v_err c || v_err r)).

(** constant-folder.cc:384-407 VisitorConstantFolderAST, a post-order traversal. A constant's initialiser is part of its
    declaration, not of the expression that refers to it. *)
Fixpoint pass (st : style) (e : expr) : res visit :=
  match e with
  | ECtor _ | EVar _ | EConst _ _ _ => visit_node st e
  | ENeg s a => let* x := pass st a in node1 st (ENeg s) x
  | EGroup a => let* x := pass st a in node1 st EGroup x
  | ENot a => let* x := pass st a in node1 st ENot x
  | ERNeg a => let* x := pass st a in node1 st ERNeg x
  | EErr a => let* x := pass st a in node1 st EErr x
  | EStr a => let* x := pass st a in node1 st EStr x
  | EConv f t w a => let* x := pass st a in node1 st (EConv f t w) x
  | EIval s u a => let* x := pass st a in node1 st (EIval s u) x
  | ETime s u a => let* x := pass st a in node1 st (ETime s u) x
  | EOr a b => let* x := pass st a in let* y := pass st b in node2 st EOr x y
  | EAnd a b => let* x := pass st a in let* y := pass st b in node2 st EAnd x y
  | EOp n a b => let* x := pass st a in let* y := pass st b in node2 st (EOp n) x y
  | ETern c a b =>
      let* x := pass st c in let* y := pass st a in let* z := pass st b in node3 st ETern x y z
  end.

(** constant-folder.cc:410-422 fold: passes until one changes nothing. [None]: more than [fuel] passes. The result is the
    expression, and whether an error was added to one of its nodes. *)
Fixpoint fold_loop (fuel : nat) (st : style) (e : expr) (err : bool) : res (option (expr * bool)) :=
  match fuel with
  | O => Ok None
  | S k => let* r := pass st e in
           if v_mod r then fold_loop k st (v_expr r) (err || v_err r) else Ok (Some (v_expr r, err || v_err r))
  end.

(** Run time: the C++ that the code generator emits for the expression. Parameters: the values of the other leaves, the
    meaning of the other operators (which see the results of their operands), and unary minus on an unsigned SafeInt. *)
Variables (env : nat -> value) (op : nat -> value -> value -> res value) (uneg : width -> Z -> res Z).

Fixpoint eval (e : expr) : res value :=
  match e with
  | ECtor v => if valid v then Ok v else Throw Overflow        (* codegen/ctors.cc:274-279, 391-393 safe<T>{value} *)
  | ENeg true a =>                                             (* operators.cc:1039 *)
      let* x := eval a in
      match x with
      | VInt true w z => if in_range true w (- z) then Ok (VInt true w (- z)) else Throw Overflow
      | _ => UB
      end
  | ENeg false a =>                                            (* operators.cc:1205; type: unsigned-integer.cc:145-149 *)
      let* x := eval a in
      match x with VInt false w z => rmap (VInt true w) (uneg w z) | _ => UB end
  | EGroup a => eval a                                         (* expressions.cc:41 *)
  | EOr a b =>                                                 (* expressions.cc:128-136: C++ || *)
      let* x := eval a in
      match x with VBool true => Ok (VBool true) | VBool false => eval b | _ => UB end
  | EAnd a b =>                                                (* C++ && *)
      let* x := eval a in
      match x with VBool false => Ok (VBool false) | VBool true => eval b | _ => UB end
  | ENot a => let* x := eval a in match x with VBool b => Ok (VBool (negb b)) | _ => UB end
  | EConst _ _ a => eval a                                     (* a C++ constant initialised with the expression *)
  | EVar n => Ok (env n)
  | ETern c a b =>                                             (* expressions.cc:238 *)
      let* x := eval c in match x with VBool p => if p then eval a else eval b | _ => UB end
  | ERNeg a => let* x := eval a in match x with VReal b => Ok (VReal (real_neg b)) | _ => UB end (* operators.cc:502 *)
  | EErr a => let* x := eval a in match x with VError n => Ok (VError n) | _ => UB end            (* operators.cc:323-326 *)
  | EStr a => let* x := eval a in match x with VStream n => Ok (VStream n) | _ => UB end          (* operators.cc:774-777 *)
  | EConv from to w a =>                                       (* operators.cc:1059-1097, 1225-1263: cast of a SafeInt *)
      let* x := eval a in
      match x with
      | VInt s _ z => if Bool.eqb s from then if in_range to w z then Ok (VInt to w z) else Throw Overflow else UB
      | _ => UB
      end
  | EIval s u a =>                                             (* operators.cc:388-411 *)
      let* x := eval a in match num_arg s x with Some z => mk_ival s u z | None => UB end
  | ETime s u a =>                                             (* operators.cc:1113-1136 *)
      let* x := eval a in match num_arg s x with Some z => mk_time s u z | None => UB end
  | EOp n a b => let* x := eval a in let* y := eval b in op n x y
  end.
End WithRealSeconds.
