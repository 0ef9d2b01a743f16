(** Model of hilti/runtime/include/util.h:545-558 (pow), instantiated by the code generator with checked integers
    (hilti/toolchain/src/compiler/codegen/operators.cc:1037, 1201): a multiplication whose result is not in the type's
    range throws Overflow. [>>=] is the arithmetic shift. *)
From Verif Require Import Base IntModel.
Open Scope Z_scope.

(** integer::safe<T>::operator*= *)
Definition checked_mul (t : ity) (a b : Z) : res Z :=
  let p := a * b in if wrap t p =? p then Ok p else Throw Overflow.

(** util.h:545-558: the loop; [None] means that it is still running after [fuel] rounds. *)
Fixpoint pow_loop (t : ity) (fuel : nat) (x base exp : Z) : option (res Z) :=
  match fuel with
  | O => None
  | S f =>
      match (if Z.odd exp then checked_mul t x base else Ok x) with
      | Ok x' =>
          let exp' := Z.shiftr exp 1 in
          if exp' =? 0 then Some (Ok x')
          else match checked_mul t base base with
               | Ok base' => pow_loop t f x' base' exp'
               | Throw e => Some (Throw e)
               | UB => Some UB
               end
      | Throw e => Some (Throw e)
      | UB => Some UB
      end
  end.
Definition pow (t : ity) (fuel : nat) (base exp : Z) : option (res Z) := pow_loop t fuel 1 base exp.
