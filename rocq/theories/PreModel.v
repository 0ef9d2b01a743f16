(** Model of conditional compilation: hilti/toolchain/src/base/preprocessor.cc:10-109,
    hilti/toolchain/include/base/preprocessor.h:24-80 and its use by the Spicy compiler,
    spicy/toolchain/src/compiler/parser/driver.cc:139-152 and scanner.ll:275-281,345-354.

    Strings are lists of bytes. The source text is a list of items: pieces of text without directives, and directives with
    the rest of their line. (How the scanner tells them apart is not modelled: it takes every "@" followed by an identifier
    for a directive, inside skipped text even in comments and strings.) *)
From Verif Require Import Base StrModel.
Open Scope Z_scope.

Definition AT_IF : bytes := [64; 105; 102].
Definition AT_ELSE : bytes := [64; 101; 108; 115; 101].
Definition AT_ENDIF : bytes := [64; 101; 110; 100; 105; 102].
Definition BANG : bytes := [33].

(** preprocessor.h:29 ID, Value; 77 _constants: a std::map *)
Definition constants := list (bytes * Z).
Fixpoint find_constant (cs : constants) (id : bytes) : option Z :=
  match cs with
  | [] => None
  | (k, v) :: cs' => if bytes_eqb k id then Some v else find_constant cs' id
  end.

(** util.h:464-540 atoi_n with Result = int, base 10: max_value = 2^31 *)
Definition atoi_int (s : bytes) := atoi_n cast_s32 (2 ^ 31) (2 ^ 31 / 10) s 10.

(** preprocessor.cc:90-107: the comparison; None: unknown operator *)
Definition compare_op (op : bytes) (have want : Z) : option bool :=
  if bytes_eqb op [61; 61] then Some (have =? want)
  else if bytes_eqb op [33; 61] then Some (negb (have =? want))
  else if bytes_eqb op [60] then Some (have <? want)
  else if bytes_eqb op [60; 61] then Some (have <=? want)
  else if bytes_eqb op [62] then Some (want <? have)
  else if bytes_eqb op [62; 61] then Some (want <=? have)
  else None.

(** preprocessor.cc:53-109 _parseIf. None: an error is returned. *)
Definition parse_if (cs : constants) (expression : bytes) : res (option bool) :=
  let* m := split_ws expression in
  let '(negate, m) := match m with w :: m' => if bytes_eqb w BANG then (true, m') else (false, m) | [] => (false, m) end in
  let finish (id op : bytes) (want : Z) :=
    let have := match find_constant cs id with Some v => v | None => 0 end in
    Ok (match compare_op op have want with Some r => Some (if negate then negb r else r) | None => None end) in
  match m with
  | [id] => finish id [33; 61] 0
  | [id; op; value] =>
      let* r := atoi_int value in
      if negb (snd r =? Z.of_nat (length value)) then Ok None
      else finish id op (match fst r with Some v => v | None => 0 end)
  | _ => Ok None
  end.

(** preprocessor.h:65 state(): true stands for Include. The stack is kept with its back first. *)
Definition including (st : list Z) : res bool := match st with x :: _ => Ok (x =? 1) | [] => UB end.

(** preprocessor.cc:10-51 processLine; None: an error is returned (and nothing changed) *)
Definition process_line (cs : constants) (st : list Z) (directive expression : bytes) : res (option (list Z)) :=
  if bytes_eqb directive AT_IF then
    let* inc := including st in
    if inc : bool then
      let* r := parse_if cs expression in
      match r with None => Ok None | Some b => Ok (Some ((if b : bool then 1 else 0) :: st)) end
    else Ok (Some (-1 :: st))
  else if bytes_eqb directive AT_ELSE then
    if negb (length expression =? 0)%nat then Ok None
    else if (length st =? 1)%nat then Ok None
    else match st with
         | x :: st' => Ok (Some (if 0 <=? x then 1 - x :: st' else st))
         | [] => UB
         end
  else if bytes_eqb directive AT_ENDIF then
    if negb (length expression =? 0)%nat then Ok None
    else if (length st =? 1)%nat then Ok None
    else match st with _ :: st' => Ok (Some st') | [] => UB end
  else Ok None.

(** preprocessor.h:71 expectingDirective() *)
Definition expecting_directive (st : list Z) : bool := (1 <? length st)%nat.

Inductive item := Text (t : bytes) | Directive (name rest : bytes).

(** The compiler's view: the preprocessor, whether the scanner ignores its input, the text handed to the parser so far, and
    the number of errors reported. *)
Record drv := mkDrv { d_stack : list Z; d_ignore : bool; d_seen : list bytes; d_errors : nat }.
(** preprocessor.h:78, driver.h:79 *)
Definition drv_init : drv := mkDrv [1] false [] 0.

(** scanner.ll:276 (the rest of the line is trimmed) and driver.cc:139-152 processPreprocessorLine; scanner.ll:279-281 for
    ignored text; 345-354 setIgnoreMode *)
Definition drv_step (cs : constants) (d : drv) (i : item) : res drv :=
  match i with
  | Text t => Ok (if d_ignore d then d else mkDrv (d_stack d) (d_ignore d) (d_seen d ++ [t]) (d_errors d))
  | Directive name rest =>
      let* r := process_line cs (d_stack d) name (trim rest ws) in
      match r with
      | None => Ok (mkDrv (d_stack d) (d_ignore d) (d_seen d) (S (d_errors d)))
      | Some st => let* inc := including st in Ok (mkDrv st (negb inc) (d_seen d) (d_errors d))
      end
  end.
Fixpoint drv_run (cs : constants) (d : drv) (l : list item) : res drv :=
  match l with
  | [] => Ok d
  | i :: l' => let* d' := drv_step cs d i in drv_run cs d' l'
  end.
(** The whole source. As the driver never asks expectingDirective(), all that decides about success are the errors. *)
Definition compile (cs : constants) (l : list item) : res drv := drv_run cs drv_init l.
