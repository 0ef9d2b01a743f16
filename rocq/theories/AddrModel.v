(** Model of hilti/runtime/include/types/address.h, hilti/runtime/src/types/address.cc and
    hilti/runtime/include/types/network.h.

    libc's inet_pton/inet_ntop are parameters of the functions that call them. [hl]: the machine is little endian. *)
From Verif Require Import Base IntModel.
Open Scope Z_scope.

(** address.h:18 AddressFamily; the enumerators Undef, IPv4, IPv6 have the values -1, 0, 1 (util.h:66). *)
Inductive family := FUndef | FIPv4 | FIPv6.
Definition family_value (f : family) : Z := match f with FUndef => -1 | FIPv4 => 0 | FIPv6 => 1 end.
Definition family_eqb (f g : family) : bool := family_value f =? family_value g.

(** address.h:109-112: _a1, _a2 (uint64_t), _family *)
Record addr := mkAddr { a1 : Z; a2 : Z; fam : family }.

(** address.h:48 Address(uint32_t) *)
Definition addr_of_u32 (x : Z) : addr := mkAddr 0 x FIPv4.

(** address.h:56-57 Address(uint64_t, uint64_t, AddressFamily) *)
Definition addr_of_u64 (x y : Z) (f : family) : addr := mkAddr x y f.

Definition u32t := mkIty false W32.
Definition u64t := mkIty false W64.

(** address.cc:39-43 _init(in_addr): the four bytes of s_addr, as in memory *)
Definition addr_init4 (hl : bool) (mem : bytes) : addr := mkAddr 0 (hton hl W32 (val_of hl mem)) FIPv4.

(** address.cc:45-53 _init(in6_addr) *)
Definition addr_init6 (hl : bool) (mem : bytes) : addr :=
  mkAddr (hton hl W64 (val_of hl (firstn 8 mem))) (hton hl W64 (val_of hl (firstn 8 (skipn 8 mem)))) FIPv6.

(** address.cc:12-37 _parse; [pton4], [pton6] are inet_pton for AF_INET/AF_INET6 on the C string, giving the bytes in
    memory on success. Strings with embedded NULs reach inet_pton truncated ([c_str], line 19/27). *)
Fixpoint c_str (s : bytes) : bytes := match s with [] => [] | c :: r => if c =? 0 then [] else c :: c_str r end.
Definition addr_parse (hl : bool) (pton4 pton6 : bytes -> option bytes) (s : bytes) : res addr :=
  let* a := if negb (existsb (Z.eqb 58) s) then
              match pton4 (c_str s) with Some m => Ok (addr_init4 hl m) | None => Throw InvalidArgument end
            else
              match pton6 (c_str s) with Some m => Ok (addr_init6 hl m) | None => Throw InvalidArgument end in
  Ok (if family_eqb (fam a) FIPv6 then
        mkAddr (a1 a) (a2 a) (if (a1 a =? 0) && (Z.land (a2 a) 18446744069414584320 =? 0) then FIPv4 else FIPv6)
      else a).

(** address.cc:57-75 mask; [width] is unsigned int; shifting a uint64_t by 64 or more is undefined *)
Definition shl64 (x s : Z) : res Z := if 64 <=? s then UB else Ok ((x * 2 ^ s) mod 2 ^ 64).
Definition all_ones64 : Z := 18446744073709551615.
Definition addr_mask (a : addr) (width : Z) : res addr :=
  if width =? 0 then Ok (mkAddr 0 0 (fam a)) else
  let* x := if width <? 64 then let* m := shl64 all_ones64 (64 - width) in Ok (Z.land (a1 a) m) else Ok (a1 a) in
  let* y := if 64 <? width then let* m := shl64 all_ones64 ((128 - width) mod 2 ^ 32) in Ok (Z.land (a2 a) m) else Ok 0 in
  Ok (mkAddr x y (fam a)).

(** address.cc:77-102 asInAddr: the bytes in memory *)
Definition addr_as_in (hl : bool) (a : addr) : family * bytes :=
  match fam a with
  | FIPv4 => (FIPv4, mem_of hl 4 (hton hl W32 (a2 a mod 2 ^ 32)))
  | FIPv6 => (FIPv6, mem_of hl 8 (hton hl W64 (a1 a)) ++ mem_of hl 8 (hton hl W64 (a2 a)))
  | FUndef => (FIPv4, [0; 0; 0; 0])
  end.

(** address.cc:104-107 operator== *)
Definition addr_eqb (a b : addr) : bool := (a1 a =? a1 b) && (a2 a =? a2 b).

(** address.h:88-90 operator<: std::tie(_a1, _a2, _family), util.h:70 for the family *)
Definition addr_ltb (a b : addr) : bool :=
  (a1 a <? a1 b) || ((a1 a =? a1 b) && ((a2 a <? a2 b) || ((a2 a =? a2 b) && (family_value (fam a) <? family_value (fam b))))).

(** address.cc:109-131 operator std::string; [ntop4]/[ntop6] are inet_ntop on the bytes in memory (they cannot fail with
    the buffer sizes used). "<bad address>" is line 114. *)
Definition bad_address : bytes := [60; 98; 97; 100; 32; 97; 100; 100; 114; 101; 115; 115; 62].
Definition addr_print (hl : bool) (ntop4 ntop6 : bytes -> bytes) (a : addr) : bytes :=
  match fam a with
  | FUndef => bad_address
  | FIPv4 => ntop4 (snd (addr_as_in hl a))
  | FIPv6 => ntop6 (snd (addr_as_in hl a))
  end.

(** address.cc:133-154 pack. Line 135: the uint64_t is converted to [safe<uint32_t>], range-checked. *)
Definition is_little (hl : bool) (o : order) : bool :=
  match o with Little => true | Host => hl | _ => false end.
Definition addr_pack (hl : bool) (a : addr) (o : order) : res bytes :=
  match fam a with
  | FIPv4 => if 2 ^ 32 <=? a2 a then Throw Overflow else pack hl u32t (a2 a) o
  | FIPv6 =>
      let* x := pack hl u64t (a1 a) o in
      let* y := pack hl u64t (a2 a) o in
      Ok (if is_little hl o then y ++ x else x ++ y)
  | FUndef => Throw RuntimeError
  end.

(** address.cc:156-194 _unpack (the same template for bytes and stream views; here on the bytes of the argument) *)
Definition addr_unpack (hl : bool) (data : bytes) (f : family) (o : order) : res (option (addr * bytes)) :=
  match f with
  | FIPv4 =>
      if (length data <? 4)%nat then Ok None else
      let* x := unpack hl u32t data o in
      Ok (match x with Some (v, r) => Some (addr_of_u32 v, r) | None => None end)
  | FIPv6 =>
      if (length data <? 16)%nat then Ok None else
      let* x := unpack hl u64t data o in
      match x with
      | None => Ok None
      | Some (xv, r) =>
          let* y := unpack hl u64t r o in
          Ok (match y with
              | None => None
              | Some (yv, r') =>
                  Some (if is_little hl o then addr_of_u64 yv xv FIPv6 else addr_of_u64 xv yv FIPv6, r')
              end)
      end
  | FUndef => Ok None
  end.

(** network.h:106-107: _prefix, _length (int) *)
Record network := mkNet { nprefix : addr; nlen : Z }.

(** network.h:99-104 _mask; int arithmetic may overflow, the int becomes an unsigned int *)
Definition net_mask (n : network) : res network :=
  let l := if family_eqb (fam (nprefix n)) FIPv4 then nlen n + 96 else nlen n in
  if 2 ^ 31 <=? l then UB else
  let* p := addr_mask (nprefix n) (l mod 2 ^ 32) in
  Ok (mkNet p l).

(** network.h:30-46 Network(const Address&, int) *)
Definition net_of_addr (p : addr) (len : Z) : res network :=
  let* _ := match fam p with
            | FIPv4 => if (len <? 0) || (32 <? len) then Throw InvalidArgument else Ok tt
            | FIPv6 => if (len <? 0) || (128 <? len) then Throw InvalidArgument else Ok tt
            | FUndef => Throw InvalidArgument
            end in
  net_mask (mkNet p len).

(** network.h:57 Network(const std::string&, int) *)
Definition net_of_string (hl : bool) (pton4 pton6 : bytes -> option bytes) (s : bytes) (len : Z) : res network :=
  let* p := addr_parse hl pton4 pton6 s in net_mask (mkNet p len).

(** network.h:76 length *)
Definition net_length (n : network) : Z := if family_eqb (fam (nprefix n)) FIPv4 then nlen n - 96 else nlen n.

(** network.h:79 contains *)
Definition net_contains (n : network) (x : addr) : res bool :=
  let* m := addr_mask x (nlen n mod 2 ^ 32) in Ok (addr_eqb m (nprefix n)).

(** network.h:81, 83-85 operator==, operator< *)
Definition net_eqb (m n : network) : bool := addr_eqb (nprefix m) (nprefix n) && (nlen m =? nlen n).
Definition net_ltb (m n : network) : bool :=
  addr_ltb (nprefix m) (nprefix n) || (negb (addr_ltb (nprefix n) (nprefix m)) && (nlen m <? nlen n)).
