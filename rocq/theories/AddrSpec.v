(** Specification for C35-C37 and C57: an address is a 128-bit number; IPv4 addresses are the numbers below 2^32. *)
From Verif Require Import Base IntModel IntSpec AddrModel.
Open Scope Z_scope.

(** Bit i of the address as a 128-bit number (0 is the least significant one). *)
Definition abit (a : addr) (i : Z) : bool := if i <? 64 then Z.testbit (a2 a) i else Z.testbit (a1 a) (i - 64).
Definition number (a : addr) : Z := a1 a * 2 ^ 64 + a2 a.

(** Addresses as the constructors make them. *)
Definition wf_addr (a : addr) : Prop :=
  0 <= a1 a < 2 ^ 64 /\ 0 <= a2 a < 2 ^ 64 /\ (fam a = FIPv4 -> a1 a = 0 /\ a2 a < 2 ^ 32).

(** The length a user gives is relative to the family's number of bits. *)
Definition family_bits (f : family) : Z := match f with FIPv4 => 32 | FIPv6 => 128 | FUndef => -1 end.
Definition valid_length (f : family) (len : Z) : Prop := 0 <= len <= family_bits f.

(** [a] and [b] agree in the [n] most significant of 128 bits *)
Definition agree_upper (n : Z) (a b : addr) : Prop := forall i, 128 - n <= i < 128 -> abit a i = abit b i.

(** libc contract for text conversion: inet_pton inverts inet_ntop; a colon occurs exactly in IPv6 notation; no NULs. *)
Record libc_text (pton4 pton6 : bytes -> option bytes) (ntop4 ntop6 : bytes -> bytes) : Prop := {
  lt_4 : forall m, Forall is_byte m -> length m = 4%nat -> pton4 (ntop4 m) = Some m;
  lt_6 : forall m, Forall is_byte m -> length m = 16%nat -> pton6 (ntop6 m) = Some m;
  lt_colon4 : forall m, Forall is_byte m -> length m = 4%nat -> ~ In 58 (ntop4 m);
  lt_colon6 : forall m, Forall is_byte m -> length m = 16%nat -> In 58 (ntop6 m);
  lt_nul4 : forall m, Forall is_byte m -> length m = 4%nat -> ~ In 0 (ntop4 m);
  lt_nul6 : forall m, Forall is_byte m -> length m = 16%nat -> ~ In 0 (ntop6 m)
}.
