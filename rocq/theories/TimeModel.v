(** Model of hilti/runtime/include/types/time.h:71-88 and interval.h:71-80. A time is its uint64_t number of nanoseconds, an
    interval its int64_t number.

    Trusted: integer::safe<T> (SafeInt, not part of /repo) computes +, -, * exactly, also for operands of mixed types, and
    throws Overflow if the result is not a value of T; comparisons are exact; conversions throw Overflow if out of range.
    Construction from and multiplication with double: RealModel.v. *)
From Verif Require Import Base IntModel IntSpec.
Open Scope Z_scope.

Definition u64_ok (z : Z) : bool := (0 <=? z) && (z <? 2 ^ 64).
Definition i64_ok (z : Z) : bool := (- 2 ^ 63 <=? z) && (z <? 2 ^ 63).
Definition safe_u64 (z : Z) : res Z := if u64_ok z then Ok z else Throw Overflow.
Definition safe_i64 (z : Z) : res Z := if i64_ok z then Ok z else Throw Overflow.

(** negation of a raw int64_t (time.h:72): undefined for the smallest value *)
Definition raw_neg64 (z : Z) : res Z := if z =? - 2 ^ 63 then UB else Ok (- z).

(** time.h:71-76 Time + Interval *)
Definition time_add (t i : Z) : res Z :=
  let* neg := if i <? 0 then let* a := safe_i64 t in let* b := raw_neg64 i in Ok (a <? b) else Ok false in
  if neg : bool then Throw RuntimeError else safe_u64 (t + i).

(** time.h:78-83 Time - Interval *)
Definition time_sub (t i : Z) : res Z := if t <? i then Throw RuntimeError else safe_u64 (t - i).

(** time.h:85-88 Time - Time *)
Definition time_diff (t u : Z) : res Z := let* a := safe_i64 t in let* b := safe_i64 u in safe_i64 (a - b).

(** interval.h:71-72 *)
Definition ival_add (i j : Z) : res Z := safe_i64 (i + j).
Definition ival_sub (i j : Z) : res Z := safe_i64 (i - j).
(** interval.h:74-80: both integer overloads *)
Definition ival_mul (i k : Z) : res Z := safe_i64 (i * k).
