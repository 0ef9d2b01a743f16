(** Model of the conversions between doubles and times, intervals and bytes: hilti/runtime/include/types/interval.h:40-84,
    hilti/runtime/include/types/time.h:40-59, hilti/runtime/src/types/time.cc:16-60, hilti/runtime/src/types/real.cc:10-68.

    A double is an IEEE 754 binary64 number, a float a binary32 number, with round-to-nearest-even arithmetic; both are
    taken from the Flocq library (types [binary64] and [binary32] including signed zeros, infinities and NaN payloads).

    Trusted: the hardware computes as IEEE 754 says. integer::safe<T>(double) is SafeInt's (not part of /repo) and
    therefore a parameter [conv]; RealSpec.v states what the theorems ask of it. *)
From Flocq Require Import Core BinarySingleNaN Binary Bits.
From Verif Require Import Base IntModel TimeModel.
Open Scope Z_scope.

(** static_cast<double> of an integer value *)
Definition of_int (z : Z) : binary64 := binary_normalize 53 1024 eq_refl eq_refl mode_NE z 0 false.

(** [<] on doubles; false if an operand is NaN *)
Definition dlt (a b : binary64) : bool := match b64_compare a b with Some Lt => true | _ => false end.

(** the int literal 1'000'000'000 converted to double, as well as the literal 1e9 *)
Definition giga : binary64 := of_int 1000000000.

(** interval.h:41-48 and time.h:41-48; [lo] and [hi] are the limits of the integer type *)
Definition nsecs_of (conv : binary64 -> res Z) (lo hi : Z) (secs : binary64) : res Z :=
  let x := b64_mult mode_NE secs giga in
  if dlt x (of_int lo) || dlt (of_int hi) x then Throw OutOfRange else conv x.

(** interval.h:40-49 Interval(double, SecondTag) *)
Definition interval_of_secs (conv : binary64 -> res Z) (secs : binary64) : res Z :=
  nsecs_of conv (- 2 ^ 63) (2 ^ 63 - 1) secs.

(** time.h:40-49 Time(double, SecondTag) *)
Definition time_of_secs (conv : binary64 -> res Z) (secs : binary64) : res Z :=
  nsecs_of conv 0 (2 ^ 64 - 1) secs.

(** interval.h:59 and time.h:59 seconds() *)
Definition seconds (nsecs : Z) : binary64 := b64_div mode_NE (of_int nsecs) giga.

(** interval.h:82-84 Interval * double *)
Definition ival_mul_double (conv : binary64 -> res Z) (i : Z) (d : binary64) : res Z :=
  conv (b64_mult mode_NE (of_int i) d).

(** time.cc:31-36 current_time(); [sec] and [usec] are what gettimeofday returned. The Windows branch is not modelled. *)
Definition current_time (conv : binary64 -> res Z) (sec usec : Z) : res Z :=
  time_of_secs conv (b64_plus mode_NE (of_int sec) (b64_div mode_NE (of_int usec) (of_int 1000000))).

(** time.cc:40-60 mktime(); [libc] is the libc function, applied to the fields of struct tm (year - 1900, month - 1, day,
    hour, minute, second) with tm_isdst = -1. The casts to int are exact for the values behind the range check, except for
    the year, which is reduced to 32 bits; the subtraction of ints may then overflow, which is undefined. *)
Definition mk_time (conv : binary64 -> res Z) (libc : Z -> Z -> Z -> Z -> Z -> Z -> Z) (y m d H M S : Z) : res Z :=
  if (y <? 1970) || ((m <? 1) || (12 <? m)) || ((d <? 1) || (31 <? d)) || (23 <? H) || (59 <? M) || (59 <? S)
  then Throw InvalidValue
  else
    let y32 := wrap (mkIty true W32) y in
    if y32 - 1900 <? - 2 ^ 31 then UB
    else
      let t := libc (y32 - 1900) (m - 1) d H M S in
      if t <? 0 then Throw InvalidValue else time_of_secs conv (of_int t).

(** static_cast<float>(double), real.cc:13: rounds to nearest even, overflow to infinity; a NaN keeps its sign and the upper
    22 bits of its payload and becomes quiet (x86, ARM). *)
Definition to_single (d : binary64) : binary32 :=
  match d with
  | B754_zero _ _ s => B754_zero _ _ s
  | B754_infinity _ _ s => B754_infinity _ _ s
  | B754_nan _ _ s pl _ =>
      b32_of_bits ((if s then 2 ^ 31 else 0) + Z.lor 2143289344 (Z.shiftr (Zpos pl) 29))   (* 0x7fc00000 *)
  | B754_finite _ _ s m e _ => binary_normalize 24 128 eq_refl eq_refl mode_NE (cond_Zopp s (Zpos m)) e s
  end.

(** static_cast<double>(float), real.cc:38: exact; a NaN becomes quiet *)
Definition to_double (f : binary32) : binary64 :=
  match f with
  | B754_zero _ _ s => B754_zero _ _ s
  | B754_infinity _ _ s => B754_infinity _ _ s
  | B754_nan _ _ s pl _ =>
      b64_of_bits ((if s then 2 ^ 63 else 0) + Z.lor 9221120237041090560 (Z.shiftl (Zpos pl) 29))   (* 0x7ff8000000000000 *)
  | B754_finite _ _ s m e _ => binary_normalize 53 1024 eq_refl eq_refl mode_NE (cond_Zopp s (Zpos m)) e s
  end.

(** real.h:16 *)
Inductive rtype := Single | Double | RUndef.

Definition u32 := mkIty false W32.
Definition u64 := mkIty false W64.

(** real.cc:10-27 real::pack. reinterpret_cast between double and uint64_t copies the bits. *)
Definition real_pack (hl : bool) (d : binary64) (t : rtype) (o : order) : res bytes :=
  match t with
  | Single => pack hl u32 (bits_of_b32 (to_single d)) o
  | Double => pack hl u64 (bits_of_b64 d) o
  | RUndef => Throw RuntimeError
  end.

(** real.cc:29-68 _unpack; [None] is [result::Error]. Data is a sequence of bytes (Bytes or stream::View). *)
Definition real_unpack (hl : bool) (b : bytes) (t : rtype) (o : order) : res (option (binary64 * bytes)) :=
  match t with
  | Single =>
      if (length b <? 4)%nat then Ok None
      else rmap (option_map (fun '(x, r) => (to_double (b32_of_bits x), r))) (unpack hl u32 b o)
  | Double =>
      if (length b <? 8)%nat then Ok None
      else rmap (option_map (fun '(x, r) => (b64_of_bits x, r))) (unpack hl u64 b o)
  | RUndef => Ok None
  end.
