(** Common vocabulary of all models: outcomes of C++ code, bytes, list helpers.
    Nothing in this file models a particular piece of the code base except where cited. *)
From Coq Require Export List Arith ZArith NArith Lia Bool.
From Coq Require Export ZifyBool ZifyNat ZifyN.
Export ListNotations.

(** Exceptions of hilti/runtime/include/exception.h:127-230 that the modelled code raises. *)
Inductive exn :=
| InvalidIterator
| InvalidArgument
| IndexError
| MissingData
| WouldBlock
| Frozen
| Overflow
| OutOfRange
| RuntimeError
| ParseError
| LogicError          (* std::logic_error *)
| UnsetOptional
| UnicodeError
| MatchStateReuse
| InvalidMIMEType
| FormattingError
| InvalidValue
| DivisionByZero
| UnsetUnionMember
| NotSupported
| ExpiredReference
| NullReference
| IllegalReference
| PatternError
| StackSizeExceeded
| AssertionFailure
| UsageError
| SinkError           (* spicy/runtime/include/sink.h:31 *)
| StdOutOfRange        (* std::out_of_range *)
| ForeignException.    (* exception of a third-party library that is not a hilti::rt::Exception *)

(** Outcome of running a piece of C++: a value, an exception, or undefined behaviour. *)
Inductive res (A : Type) :=
| Ok (a : A)
| Throw (e : exn)
| UB.
Arguments Ok {A} a.
Arguments Throw {A} e.
Arguments UB {A}.

Definition bind {A B} (x : res A) (f : A -> res B) : res B :=
  match x with Ok a => f a | Throw e => Throw e | UB => UB end.

Definition rmap {A B} (f : A -> B) (x : res A) : res B :=
  match x with Ok a => Ok (f a) | Throw e => Throw e | UB => UB end.

Notation "'let*' x ':=' a 'in' b" := (bind a (fun x => b))
  (at level 200, x pattern, a at level 100, b at level 200, right associativity).

Definition is_ub {A} (x : res A) : bool := match x with UB => true | _ => false end.

(** uint8_t values are represented by the integers 0..255. *)
Definition byte := Z.
Definition is_byte (b : byte) : Prop := (0 <= b < 256)%Z.
Definition bytes := list byte.

(** Generic list facts used by several components. *)
Lemma nth_error_skipn {A} (l : list A) k i :
  nth_error (skipn k l) i = nth_error l (k + i).
Proof.
  revert l; induction k as [|k IH]; intros l; [reflexivity|].
  destruct l as [|a l]; cbn [skipn plus nth_error]; [destruct i; reflexivity|apply IH].
Qed.

Lemma skipn_skipn' {A} (l : list A) a b : skipn a (skipn b l) = skipn (a + b) l.
Proof.
  revert l; induction b as [|b IH]; intros l.
  - rewrite Nat.add_0_r; reflexivity.
  - rewrite Nat.add_succ_r. destruct l as [|x l]; cbn [skipn]; [destruct a; reflexivity|apply IH].
Qed.

Lemma skipn_app_ge {A} (l1 l2 : list A) n :
  length l1 <= n -> skipn n (l1 ++ l2) = skipn (n - length l1) l2.
Proof. intros H. rewrite skipn_app, (skipn_all2 l1) by lia. reflexivity. Qed.

Lemma skipn_app_le {A} (l1 l2 : list A) n :
  n <= length l1 -> skipn n (l1 ++ l2) = skipn n l1 ++ l2.
Proof. intros H. rewrite skipn_app. replace (n - length l1) with 0 by lia. reflexivity. Qed.

Lemma firstn_app_le {A} (l1 l2 : list A) n :
  n <= length l1 -> firstn n (l1 ++ l2) = firstn n l1.
Proof. intros H. rewrite firstn_app. replace (n - length l1) with 0 by lia.
  cbn [firstn]. apply app_nil_r. Qed.

Lemma firstn_app_ge {A} (l1 l2 : list A) n :
  length l1 <= n -> firstn n (l1 ++ l2) = l1 ++ firstn (n - length l1) l2.
Proof. intros H. rewrite firstn_app, (firstn_all2 l1) by lia. reflexivity. Qed.

Lemma nth_error_firstn_lt {A} (l : list A) k i :
  i < k -> nth_error (firstn k l) i = nth_error l i.
Proof.
  revert l i; induction k as [|k IH]; intros l i H; [lia|].
  destruct l as [|a l]; [reflexivity|]. destruct i as [|i]; [reflexivity|].
  cbn [firstn nth_error]. apply IH. lia.
Qed.

Lemma nth_error_firstn_ge {A} (l : list A) k i :
  k <= i -> nth_error (firstn k l) i = None.
Proof. intros H. apply nth_error_None. rewrite firstn_length. lia. Qed.

Lemma list_ext {A} (l1 l2 : list A) :
  (forall i, nth_error l1 i = nth_error l2 i) -> l1 = l2.
Proof.
  revert l2; induction l1 as [|a l1 IH]; intros l2 H.
  - destruct l2 as [|b l2]; [reflexivity|specialize (H 0); discriminate H].
  - destruct l2 as [|b l2]; [specialize (H 0); discriminate H|].
    f_equal; [specialize (H 0); cbn in H; congruence|].
    apply IH. intros i. exact (H (S i)).
Qed.

Lemma NoDup_snoc {A} (l : list A) a : NoDup l -> ~ In a l -> NoDup (l ++ [a]).
Proof.
  induction l as [|x l IH]; intros Hn Hi; cbn [app].
  - constructor; [intros []|constructor].
  - apply NoDup_cons_iff in Hn. destruct Hn as [Hx Hn]. constructor.
    + intros Hin. apply in_app_or in Hin. destruct Hin as [Hin|[->|[]]]; [contradiction|].
      apply Hi. left. reflexivity.
    + apply IH; [exact Hn|]. intros Hin. apply Hi. right. exact Hin.
Qed.

Lemma NoDup_app_r {A} (l1 l2 : list A) : NoDup (l1 ++ l2) -> NoDup l2.
Proof. induction l1 as [|x l1 IH]; intros H; [exact H|]. apply IH. inversion H; assumption. Qed.
