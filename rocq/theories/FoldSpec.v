(** Vocabulary for the claims about constant folding: types of expressions, sub-expressions. *)
From Verif Require Import Base IntModel TimeModel FoldModel.
Open Scope Z_scope.

Inductive kind := KInt (signed : bool) (w : width) | KBool | KReal | KIval | KTime | KError | KStream | KOther.
Definition kind_of (v : value) : kind :=
  match v with
  | VInt s w _ => KInt s w | VBool _ => KBool | VReal _ => KReal | VIval _ => KIval | VTime _ => KTime
  | VError _ => KError | VStream _ => KStream | VOther _ => KOther
  end.

(** [typed G O e k]: e is an expression of type k, G giving the types of the other leaves, O those of the other operators. *)
Section Typing.
Variables (G : nat -> kind) (O : nat -> kind).
Inductive typed : expr -> kind -> Prop :=
| T_ctor v : typed (ECtor v) (kind_of v)
| T_neg s w e : typed e (KInt s w) -> typed (ENeg s e) (KInt true w)
| T_group e k : typed e k -> typed (EGroup e) k
| T_or a b : typed a KBool -> typed b KBool -> typed (EOr a b) KBool
| T_and a b : typed a KBool -> typed b KBool -> typed (EAnd a b) KBool
| T_not a : typed a KBool -> typed (ENot a) KBool
| T_const f b e k : typed e k -> typed (EConst f b e) k
| T_var n : typed (EVar n) (G n)
| T_tern c a b k : typed c KBool -> typed a k -> typed b k -> typed (ETern c a b) k
| T_rneg a : typed a KReal -> typed (ERNeg a) KReal
| T_err a : typed a KError -> typed (EErr a) KError
| T_str a : typed a KStream -> typed (EStr a) KStream
| T_conv f t w w' a : typed a (KInt f w') -> typed (EConv f t w a) (KInt t w)
| T_ival_i s w u a : typed a (KInt s w) -> typed (EIval (SInt s) u a) KIval
| T_ival_r u a : typed a KReal -> typed (EIval SReal u a) KIval
| T_time_i s w u a : typed a (KInt s w) -> typed (ETime (SInt s) u a) KTime
| T_time_r u a : typed a KReal -> typed (ETime SReal u a) KTime
| T_op n a b k1 k2 : typed a k1 -> typed b k2 -> typed (EOp n a b) (O n).
End Typing.

(** the direct operands of an expression *)
Definition operands (e : expr) : list expr :=
  match e with
  | ECtor _ | EVar _ => []
  | ENeg _ a | EGroup a | ENot a | EConst _ _ a | ERNeg a | EErr a | EStr a | EConv _ _ _ a | EIval _ _ a | ETime _ _ a => [a]
  | EOr a b | EAnd a b | EOp _ a b => [a; b]
  | ETern c a b => [c; a; b]
  end.

(** no unsigned integer is negated anywhere in the expression *)
Fixpoint no_uneg (e : expr) : bool :=
  match e with
  | ECtor _ | EVar _ => true
  | ENeg s a => s && no_uneg a
  | EGroup a | ENot a | EConst _ _ a | ERNeg a | EErr a | EStr a | EConv _ _ _ a | EIval _ _ a | ETime _ _ a => no_uneg a
  | EOr a b | EAnd a b | EOp _ a b => no_uneg a && no_uneg b
  | ETern c a b => no_uneg c && no_uneg a && no_uneg b
  end.

(** run-time negation of unsigned integers is what the type of the operator promises: the negative number if the signed type
    of the same width has it, an exception otherwise *)
Definition exact_uneg (uneg : width -> Z -> res Z) : Prop :=
  forall w z, uneg w z = if in_range true w (- z) then Ok (- z) else Throw Overflow.

(** the expression does not depend on the negation of unsigned integers, or that is exact *)
Definition neg_ok (uneg : width -> Z -> res Z) (e : expr) : Prop := no_uneg e = true \/ exact_uneg uneg.

(** an outcome without a value *)
Definition fails {A} (r : res A) : Prop := forall v, r <> Ok v.

(** the number of operators in an expression as the AST visitor sees it *)
Fixpoint nodes (e : expr) : nat :=
  match e with
  | ECtor _ => 0
  | EVar _ | EConst _ _ _ => 1
  | ENeg _ a | EGroup a | ENot a | ERNeg a | EErr a | EStr a | EConv _ _ _ a | EIval _ _ a | ETime _ _ a => S (nodes a)
  | EOr a b | EAnd a b | EOp _ a b => S (nodes a + nodes b)
  | ETern c a b => S (nodes c + nodes a + nodes b)
  end.

(** [sub x e]: x occurs in e at a place the AST visitor reaches *)
Inductive sub : expr -> expr -> Prop :=
| sub_refl e : sub e e
| sub_op x y e : In y (operands e) -> (forall f b a, e <> EConst f b a) -> sub x y -> sub x e.
