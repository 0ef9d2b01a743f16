(** Model of hilti/runtime/include/types/integer.h:72-346 and hilti/runtime/src/types/integer.cc:11-57.

    Values of C++ integer types are elements of Z within the type's range. [integer::safe<T>] (SafeInt) behaves like T for
    the operations used here ([&], [>>=], conversion of values in range); its conversion operators to other integer types
    throw Overflow for values out of the target's range (SafeInt's documented behaviour, see the comment at
    integer.h:170; the library itself is not part of /repo). *)
From Verif Require Import Base.
Open Scope Z_scope.

(** The eight integer types the templates are instantiated with (integer.h:107-138). *)
Inductive width := W8 | W16 | W32 | W64.
Record ity := mkIty { it_signed : bool; it_width : width }.
Definition nbytes (w : width) : nat := match w with W8 => 1 | W16 => 2 | W32 => 4 | W64 => 8 end.
Definition bits_of (w : width) : Z := match w with W8 => 8 | W16 => 16 | W32 => 32 | W64 => 64 end.

(** Conversion to a type: value modulo 2^bits (C++20). *)
Definition wrap (t : ity) (z : Z) : Z :=
  let m := 2 ^ bits_of (it_width t) in
  let u := z mod m in
  if it_signed t && (m / 2 <=? u) then u - m else u.

(** util.h:592 ByteOrder *)
Inductive order := Little | Big | Network | Host | Undef.

(** util.cc:408-419 systemByteOrder is Little or Big, depending on the platform. *)
Definition sys_order (host_is_little : bool) : order := if host_is_little then Little else Big.

Fixpoint set_nth {A} (l : list A) (k : nat) (a : A) : list A :=
  match l, k with
  | [], _ => []
  | _ :: l', O => a :: l'
  | x :: l', S k' => x :: set_nth l' k' a
  end.

(** integer.h:75-81 detail::pack *)
Fixpoint pack_loop (size : nat) (x : Z) (dst : bytes) (idx : list nat) : bytes :=
  match idx with
  | [] => dst
  | i :: idx' => pack_loop size (Z.shiftr x 8) (set_nth dst (size - i - 1) (Z.land x 255)) idx'
  end.

(** integer.h:112-116, 175-181 and 130-136, 195-201: the index lists *)
Definition idx_big (w : width) : list nat :=
  match w with W8 => [] | W16 => [0;1] | W32 => [0;1;2;3] | W64 => [0;1;2;3;4;5;6;7] end%nat.
Definition idx_little (w : width) : list nat :=
  match w with W8 => [] | W16 => [1;0] | W32 => [3;2;1;0] | W64 => [7;6;5;4;3;2;1;0] end%nat.

(** integer.h:101-149 after resolving Host. Line 110/127: [static_cast<uint8_t>] of a [safe<int8_t>] is range-checked. *)
Definition pack_in (t : ity) (v : Z) (o : order) : res bytes :=
  let b := repeat 0 (nbytes (it_width t)) in
  let go idx := match it_width t with
                | W8 => if v <? 0 then Throw Overflow else Ok [v mod 256]
                | _ => Ok (pack_loop (nbytes (it_width t)) v b idx)
                end in
  match o with
  | Big | Network => go (idx_big (it_width t))
  | Little => go (idx_little (it_width t))
  | Host => UB  (* abort_with_backtrace, not reachable *)
  | Undef => Throw RuntimeError
  end.

(** integer.h:96-150 pack *)
Definition pack (hl : bool) (t : ity) (v : Z) (o : order) : res bytes :=
  match o with Host => pack_in t v (sys_order hl) | _ => pack_in t v o end.

(** integer.h:83-92 detail::unpack *)
Fixpoint unpack_loop (t : ity) (x : Z) (src : bytes) (idx : list nat) : Z :=
  match idx with
  | [] => x
  | i :: idx' => unpack_loop t (wrap t (Z.lor (wrap t (Z.shiftl x 8)) (wrap t (nth i src 0)))) src idx'
  end.

(** integer.h:157-212 after resolving Host; [None] is [result::Error]. D::extract(raw, n) of bytes.h:415-421. *)
Definition unpack_in (t : ity) (b : bytes) (o : order) : res (option (Z * bytes)) :=
  let n := nbytes (it_width t) in
  if (length b <? n)%nat then Ok None else
  let raw := firstn n b in
  let rest := skipn n b in
  let go idx := match it_width t with
                | W8 => Ok (Some (wrap t (nth 0 raw 0), rest))
                | _ => Ok (Some (unpack_loop t 0 raw idx, rest))
                end in
  match o with
  | Big | Network => go (idx_big (it_width t))
  | Little => go (idx_little (it_width t))
  | Host => UB
  | Undef => Ok None
  end.

(** integer.h:152-213 unpack *)
Definition unpack (hl : bool) (t : ity) (b : bytes) (o : order) : res (option (Z * bytes)) :=
  match o with Host => unpack_in t b (sys_order hl) | _ => unpack_in t b o end.

(** Object representation of an unsigned integer: integer.cc:16-21, the union of T and unsigned char[N]. *)
Fixpoint le_bytes (n : nat) (v : Z) : bytes :=
  match n with O => [] | S n' => v mod 256 :: le_bytes n' (v / 256) end.
Fixpoint le_val (bs : bytes) : Z :=
  match bs with [] => 0 | b :: r => b + 256 * le_val r end.
Definition mem_of (hl : bool) (n : nat) (v : Z) : bytes := if hl then le_bytes n v else rev (le_bytes n v).
Definition val_of (hl : bool) (bs : bytes) : Z := if hl then le_val bs else le_val (rev bs).

(** integer.cc:23-25: std::swap(x.c[i], x.c[N - 1 - i]) for i < N / 2 *)
Fixpoint swap_loop (n : nat) (k : nat) (i : nat) (c : bytes) {struct k} : bytes :=
  match k with
  | O => c
  | S k' => let a := nth i c 0 in let b := nth (n - 1 - i) c 0 in
            swap_loop n k' (S i) (set_nth (set_nth c i b) (n - 1 - i) a)
  end.

(** integer.cc:12-28 flip_impl, 31-33 flip16/32/64 *)
Definition flip_impl (hl : bool) (w : width) (v : Z) : Z :=
  let n := nbytes w in val_of hl (swap_loop n (n / 2) 0 (mem_of hl n v)).

(** integer.cc:35-57 hton/ntoh: flip on little-endian hosts (hton16/32 are the libc functions with that meaning) *)
Definition hton (hl : bool) (w : width) (v : Z) : Z := if hl then flip_impl hl w v else v.

(** integer.h:300-304 flip(uint64_t, n) *)
Definition flip_u (hl : bool) (v n : Z) : res Z :=
  if n =? 0 then Ok v else
  let s := (64 - (n * 8) mod 2 ^ 64) mod 2 ^ 64 in
  if 64 <=? s then UB else Ok (Z.shiftr (flip_impl hl W64 v) s).

(** integer.h:285-291 flip(int64_t, n) *)
Definition flip_s (hl : bool) (v n : Z) : res Z :=
  if n =? 0 then Ok v else
  let* i := flip_u hl (wrap (mkIty false W64) v) n in Ok (wrap (mkIty true W64) i).

(** integer.h:307 BitOrder *)
Inductive bitorder := LSB0 | MSB0 | BitUndef.

(** integer.h:310-346 bits; [lower], [upper] are uint64_t *)
Definition bits (w : width) (v lower upper : Z) (bo : bitorder) : res Z :=
  let wd := bits_of w in
  if upper <? lower then Throw InvalidArgument else
  if wd <=? upper then Throw InvalidArgument else
  let* r := match bo with
            | LSB0 => Ok (lower, upper)
            | MSB0 => Ok (wd - upper - 1, wd - lower - 1)
            | BitUndef => Throw RuntimeError
            end in
  let (lo, hi) := r in
  let range := hi - lo + 1 in
  if range =? wd then Ok v else
  let mask := Z.shiftl ((Z.shiftl 1 range - 1) mod 2 ^ 64) lo mod 2 ^ 64 in
  Ok (Z.shiftr (Z.land v mask) lo).
