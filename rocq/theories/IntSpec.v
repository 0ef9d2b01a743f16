(** Specification for C32-C34: positional notation. *)
From Verif Require Import Base IntModel.
Open Scope Z_scope.

(** Values of the type. *)
Definition in_type (t : ity) (v : Z) : Prop :=
  if it_signed t then - 2 ^ (bits_of (it_width t) - 1) <= v < 2 ^ (bits_of (it_width t) - 1)
  else 0 <= v < 2 ^ bits_of (it_width t).

(** The values [pack] is proved for: all of the type, except negative int8 (see C32_negative_int8_refuted). *)
Definition packable (t : ity) (v : Z) : Prop := in_type t v /\ (it_width t = W8 -> 0 <= v).

(** Most significant byte first. *)
Fixpoint be_val (bs : bytes) : Z :=
  match bs with [] => 0 | b :: r => b * 256 ^ Z.of_nat (length r) + be_val r end.

(** Two's complement representation: [bs] are the bytes of [v], most significant first. *)
Definition be_repr (t : ity) (v : Z) (bs : bytes) : Prop :=
  length bs = nbytes (it_width t) /\ Forall is_byte bs /\
  be_val bs = if v <? 0 then v + 2 ^ bits_of (it_width t) else v.

Definition bytes_ok (bs : bytes) : Prop := Forall is_byte bs.
