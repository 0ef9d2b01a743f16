(** Specification for C39 (conversions from double) and C69 (binary formats of reals), in terms of real numbers. *)
From Coq Require Import Reals.
From Flocq Require Import Core BinarySingleNaN Binary Bits.
From Verif Require Import Base IntModel IntSpec.

(** The real value of a finite double or float. *)
Definition dval (d : binary64) : R := B2R 53 1024 d.
Definition fval (f : binary32) : R := B2R 24 128 f.
Definition finite (d : binary64) : Prop := is_finite 53 1024 d = true.

(** The number with 53 (24) significant bits and exponent at least -1074 (-149) that is nearest to [r], ties to even. *)
Definition nearest64 (r : R) : R := round radix2 (FLT_exp (-1074) 53) ZnearestE r.
Definition nearest32 (r : R) : R := round radix2 (FLT_exp (-149) 24) ZnearestE r.

(** What the theorems ask of integer::safe<T>(double), [lo] and [hi] being the limits of T: if the value without its
    fraction is a value of T, it is the result. Nothing is asked for other values, NaN, infinities, or for values with a minus
    sign if T is unsigned. *)
Definition converts (lo hi : Z) (conv : binary64 -> res Z) : Prop :=
  forall d, finite d -> (lo <= Ztrunc (dval d) <= hi)%Z -> ((0 <= lo)%Z -> Bsign 53 1024 d = false) ->
  conv d = Ok (Ztrunc (dval d)).

(** IEEE 754 interchange format: [b] is the number with sign bit [s], biased exponent [e] of [ew] bits and fraction [m] of
    [mw] bits; this is its value if [e] is not the largest exponent. *)
Definition ieee_bits (mw ew : Z) (s : bool) (e m : Z) : Z := ((if s then 2 ^ (mw + ew) else 0) + e * 2 ^ mw + m)%Z.
Definition ieee_value (mw ew : Z) (s : bool) (e m : Z) : R :=
  let bias := (2 ^ (ew - 1) - 1)%Z in
  ((if s then -1 else 1) *
   (if Z.eqb e 0 then IZR m * bpow radix2 (1 - bias - mw) else IZR (2 ^ mw + m) * bpow radix2 (e - bias - mw)))%R.

(** The bytes of a number, most significant first, given the byte order they are stored in; [hl]: the host is little-endian. *)
Definition big_endian (hl : bool) (o : order) (bs : bytes) : bytes :=
  match o with
  | Little => rev bs
  | Host => if hl then rev bs else bs
  | _ => bs
  end.
