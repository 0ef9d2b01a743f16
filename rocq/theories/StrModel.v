(** Model of the string helpers: hilti/runtime/include/util.h:154-203, 389-405, 464-540 and
    hilti/runtime/src/util.cc:116-187, 190-287, 359-406; spicy/runtime/src/util.cc:27-58.

    Strings are lists of bytes (0..255). std::string/std::string_view primitives (find, rfind, find_first_of, substr, ...)
    are modelled by their documented meaning. [isprint] is that of the C locale. Lengths are below 2^64. *)
From Verif Require Import Base.

(** std::string_view::starts_with / compare of a prefix *)
Fixpoint prefixb (d s : bytes) : bool :=
  match d, s with
  | [], _ => true
  | _, [] => false
  | x :: d', y :: s' => Z.eqb x y && prefixb d' s'
  end.
(** std::string::find(delim), rfind(delim) *)
Fixpoint find_sub (s d : bytes) : option nat :=
  if prefixb d s then Some 0 else
  match s with [] => None | _ :: s' => option_map S (find_sub s' d) end.
Fixpoint rfind_sub (s d : bytes) : option nat :=
  match s with
  | [] => if prefixb d [] then Some 0 else None
  | _ :: s' => match rfind_sub s' d with
               | Some k => Some (S k)
               | None => if prefixb d s then Some 0 else None
               end
  end.
(** std::string::find_first_of, find_last_of (by predicate) *)
Fixpoint find_first (p : byte -> bool) (s : bytes) : option nat :=
  match s with [] => None | x :: s' => if p x then Some 0 else option_map S (find_first p s') end.
Fixpoint find_last (p : byte -> bool) (s : bytes) : option nat :=
  match s with
  | [] => None
  | x :: s' => match find_last p s' with Some k => Some (S k) | None => if p x then Some 0 else None end
  end.
Definition inb (cs : bytes) (x : byte) : bool := existsb (Z.eqb x) cs.

Definition bytes_eqb (a b : bytes) : bool := prefixb a b && (length a =? length b).

(** util.h:154-158 rtrim: drop everything behind find_last_not_of *)
Definition rtrim (s chars : bytes) : bytes :=
  let pos := find_last (fun x => negb (inb chars x)) s in
  firstn (length s - (length s - match pos with Some p => p + 1 | None => 0 end)) s.
(** util.h:165-168 ltrim *)
Definition ltrim (s chars : bytes) : bytes :=
  skipn (Nat.min (match find_first (fun x => negb (inb chars x)) s with Some p => p | None => length s end) (length s)) s.
(** util.h:176-178 trim *)
Definition trim (s chars : bytes) : bytes := ltrim (rtrim s chars) chars.
(** util.h:181 whitespace_chars *)
Definition ws : bytes := [32; 9; 12; 11; 10; 13]%Z.

(** util.cc:127-134 the loop of split(s, delim) *)
Fixpoint split_loop (fuel : nat) (s d : bytes) : res (list bytes) :=
  match fuel with
  | 0 => UB
  | S f =>
      match find_sub s d with
      | None => Ok [s]
      | Some p =>
          let s' := skipn (p + length d) s in
          match s' with
          | [] => Ok [firstn p s]
          | _ => let* l := split_loop f s' d in Ok (firstn p s :: l)
          end
      end
  end.
(** util.cc:116-140 split(s, delim) *)
Definition split (s d : bytes) : res (list bytes) :=
  match d with
  | [] => Ok [s]
  | _ =>
      if length s <? length d then Ok [s] else
      let ends_in_delim := bytes_eqb (skipn (length s - length d) s) d in
      let* l := split_loop (S (length s)) s d in
      Ok (if ends_in_delim then l ++ [[]] else l)
  end.

(** util.cc:142-158 split(s): at sequences of whitespace *)
Fixpoint split_ws_loop (fuel : nat) (s : bytes) : res (list bytes) :=
  match s with
  | [] => Ok []
  | _ =>
      match fuel with
      | 0 => UB
      | S f =>
          match find_first (inb ws) s with
          | None => Ok [s]
          | Some p => let* l := split_ws_loop f (ltrim (skipn (p + 1) s) ws) in Ok (firstn p s :: l)
          end
      end
  end.
Definition split_ws (s : bytes) : res (list bytes) :=
  let s := trim s ws in split_ws_loop (length s) s.

(** util.cc:160-165 split1(s), 167-172 rsplit1(s) *)
Definition split1_ws (s : bytes) : bytes * bytes :=
  match find_first (inb ws) s with
  | Some i => (firstn i s, ltrim (skipn (i + 1) s) ws)
  | None => (s, [])
  end.
Definition rsplit1_ws (s : bytes) : bytes * bytes :=
  match find_last (inb ws) s with
  | Some i => (firstn i s, rtrim (skipn (i + 1) s) ws)
  | None => ([], s)
  end.
(** util.cc:174-179 split1(s, delim), 181-186 rsplit1(s, delim) *)
Definition split1 (s d : bytes) : bytes * bytes :=
  match find_sub s d with
  | Some i => (firstn i s, skipn (i + length d) s)
  | None => (s, [])
  end.
Definition rsplit1 (s d : bytes) : bytes * bytes :=
  match rfind_sub s d with
  | Some i => (firstn i s, skipn (i + length d) s)
  | None => ([], s)
  end.

(** util.h:389-405 join *)
Fixpoint join_loop (first : bool) (l : list bytes) (d : bytes) : bytes :=
  match l with
  | [] => []
  | x :: l' => (if first then [] else d) ++ x ++ join_loop false l' d
  end.
Definition join (l : list bytes) (d : bytes) : bytes := join_loop true l d.

(** util.cc:386-397 replace; [done] is what lies before position [i] of the string being edited *)
Fixpoint replace_loop (fuel : nat) (done s o n : bytes) : res bytes :=
  match fuel with
  | 0 => UB
  | S f =>
      match find_sub s o with
      | None => Ok (done ++ s)
      | Some i => replace_loop f (done ++ firstn i s ++ n) (skipn (i + length o) s) o n
      end
  end.
Definition replace (s o n : bytes) : res bytes :=
  match o with [] => Ok s | _ => replace_loop (S (length s)) [] s o n end.

(** util.cc:399 startsWith, 401-406 endsWith *)
Definition starts_with (s p : bytes) : bool := prefixb p s.
Definition ends_with (s p : bytes) : bool :=
  if length s <? length p then false else bytes_eqb (skipn (length s - length p) s) p.

(** util.h:507-519: one digit. Only for bases 2..36. *)
Definition digit (base : Z) (c : byte) : option Z :=
  (if (48 <=? c) && (c <? 48 + base) then Some (c - 48)
   else if (97 <=? c) && (c <? 97 - 10 + base) then Some (c - 97 + 10)
   else if (65 <=? c) && (c <? 65 - 10 + base) then Some (c - 65 + 10)
   else None)%Z.

(** util.h:507-525: accumulate digits; [mx] is [max_value] and [mxd] [max_value / base], both as uint64_t.
    Result: value and number of characters consumed. *)
Fixpoint digits_loop (base mx mxd n : Z) (s : bytes) : res (Z * nat) :=
  match s with
  | [] => Ok (n, 0)
  | c :: s' =>
      match digit base c with
      | None => Ok (n, 0)
      | Some d =>
          if ((mxd <? n) || ((mx - (n * base) mod 2 ^ 64) mod 2 ^ 64 <? d))%Z then Throw OutOfRange
          else let* r := digits_loop base mx mxd ((n * base + d) mod 2 ^ 64)%Z s' in Ok (fst r, S (snd r))
      end
  end.

(** util.h:464-540 atoi_n. [cast] converts uint64_t to the result type. The result is the stored value (None: nothing
    stored) and the number of characters consumed, which is returned as uint8_t. [base] is a uint8_t. *)
Definition atoi_n (cast : Z -> Z) (mx mxd : Z) (s : bytes) (base : Z) : res (option Z * Z) :=
  if ((base <? 2) || (36 <? base))%Z then Throw OutOfRange else
  match s with
  | [] => Throw InvalidArgument
  | c :: s' =>
      let neg := Z.eqb c 45 in
      let sign := if neg then 1 else if Z.eqb c 43 then 1 else 0 in
      let* r := digits_loop base mx mxd 0 (skipn sign s) in
      let consumed := sign + snd r in
      if consumed =? 0 then Ok (None, 0%Z)
      else Ok (Some (cast (if neg then (0 - fst r) mod 2 ^ 64 else fst r)%Z), (Z.of_nat consumed mod 256)%Z)
  end.

Definition cast_s64 (n : Z) : Z := (if n <? 2 ^ 63 then n else n - 2 ^ 64)%Z.
Definition cast_u8 (n : Z) : Z := (n mod 256)%Z.

(** Result = int64_t (bytes.cc:256, 264): max_value = 2^63. *)
Definition atoi_s64 (s : bytes) (base : Z) := atoi_n cast_s64 (2 ^ 63) (2 ^ 63 / base) s base.
(** Result = char (util.cc:272), base 16, plain char being signed: max_value has type int and value 0 - 128 = -128, which
    the comparisons convert to uint64_t. The stored char is represented by its byte. *)
Definition atoi_char (s : bytes) := atoi_n cast_u8 (2 ^ 64 - 128) (2 ^ 64 - 8) s 16.
(** Result = int32_t (util.cc:231, 251), base 16: max_value = 2^31 *)
Definition cast_s32 (n : Z) : Z := let m := (n mod 2 ^ 32)%Z in (if m <? 2 ^ 31 then m else m - 2 ^ 32)%Z.
Definition atoi_s32 (s : bytes) := atoi_n cast_s32 (2 ^ 31) (2 ^ 31 / 16) s 16.

(** utf8proc_encode_char (external library utf8proc): UTF-8 bytes of a code point, none if it is out of range. *)
Definition utf8_encode (cp : Z) : bytes :=
  (if cp <? 0 then []
   else if cp <? 128 then [cp]
   else if cp <? 2048 then [192 + cp / 64; 128 + cp mod 64]
   else if cp <? 65536 then [224 + cp / 4096; 128 + (cp / 64) mod 64; 128 + cp mod 64]
   else if cp <? 1114112 then [240 + cp / 262144; 128 + (cp / 4096) mod 64; 128 + (cp / 64) mod 64; 128 + cp mod 64]
   else [])%Z.

(** util.cc:226-264: \u and \U with [k] digits; result: bytes to emit *)
Definition expand_unicode (s : bytes) (k : nat) : res bytes :=
  if length s <? k then Throw UnicodeError else
  let* r := atoi_s32 (firstn k s) in
  if negb (Z.eqb (snd r) (Z.of_nat k)) then Throw UnicodeError else
  let cp := match fst r with Some v => v | None => 0%Z end in
  match utf8_encode cp with [] => Throw UnicodeError | u => Ok u end.

(** util.cc:192-283: the loop of expandUTF8Escapes; the output is what is written through [d]. *)
Fixpoint expand_loop (fuel : nat) (s : bytes) : res bytes :=
  match s with
  | [] => Ok []
  | c :: s' =>
      match fuel with
      | 0 => UB
      | S f =>
          if negb (Z.eqb c 92) then let* r := expand_loop f s' in Ok (c :: r) else
          match s' with
          | [] => Throw RuntimeError
          | e :: s2 =>
              let emit (x : Z) := let* r := expand_loop f s2 in Ok (x :: r) in
              if Z.eqb e 92 then emit 92%Z
              else if Z.eqb e 34 then emit 34%Z
              else if Z.eqb e 48 then emit 0%Z
              else if Z.eqb e 97 then emit 7%Z
              else if Z.eqb e 98 then emit 8%Z
              else if Z.eqb e 101 then emit 27%Z
              else if Z.eqb e 102 then emit 12%Z
              else if Z.eqb e 110 then emit 10%Z
              else if Z.eqb e 114 then emit 13%Z
              else if Z.eqb e 116 then emit 9%Z
              else if Z.eqb e 118 then emit 11%Z
              else if Z.eqb e 117 then
                let* u := expand_unicode s2 4 in let* r := expand_loop f (skipn 4 s2) in Ok (u ++ r)
              else if Z.eqb e 85 then
                let* u := expand_unicode s2 8 in let* r := expand_loop f (skipn 8 s2) in Ok (u ++ r)
              else if Z.eqb e 120 then
                match s2 with
                | [] => Throw FormattingError
                | _ => let k := Nat.min 2 (length s2) in
                       let* r := atoi_char (firstn k s2) in
                       if negb (Z.eqb (snd r) (Z.of_nat k)) then Throw FormattingError else
                       let v := match fst r with Some v => v | None => 0%Z end in
                       let* t := expand_loop f (skipn k s2) in Ok (v :: t)
                end
              else Throw FormattingError
          end
      end
  end.
(** util.cc:190-287 expandUTF8Escapes *)
Definition expand_escapes (s : bytes) : res bytes := expand_loop (length s) s.

(** util.h:329-334 render_style::Bytes, a bit mask *)
Record bstyle := mkStyle { escape_quotes : bool; use_octal : bool; no_escape_backslash : bool }.

Definition is_print (c : byte) : bool := ((32 <=? c) && (c <? 127))%Z.
Definition hexdigit (d : Z) : byte := (if d <? 10 then 48 + d else 97 + (d - 10))%Z.
(** util.cc:366-378: one character of escapeBytes; fmt("\\%03o") and fmt("\\x%02x") *)
Definition escape_byte (st : bstyle) (c : byte) : bytes :=
  if Z.eqb c 92 && negb (no_escape_backslash st) then [92; 92]%Z
  else if Z.eqb c 34 && escape_quotes st then [92; 34]%Z
  else if is_print c then [c]
  else if use_octal st then [92; 48 + c / 64; 48 + (c / 8) mod 8; 48 + c mod 8]%Z
  else [92; 120; hexdigit (c / 16); hexdigit (c mod 16)]%Z.
(** util.cc:359-384 escapeBytes *)
Definition escape_bytes (st : bstyle) (s : bytes) : bytes := flat_map (escape_byte st) s.

(** spicy/runtime/src/util.cc:27-31 byte_to_hex (upper-case) *)
Definition hex_upper (d : Z) : byte := (if d <? 10 then 48 + d else 65 + (d - 10))%Z.
Definition byte_to_hex (b : byte) : bytes := [hex_upper (Z.shiftr (Z.land b 240) 4); hex_upper (Z.land b 15)].
(** spicy/runtime/src/util.cc:33-45 bytes_to_hexstring *)
Definition bytes_to_hexstring (s : bytes) : bytes := flat_map byte_to_hex s.
(** spicy/runtime/src/util.cc:47-58 bytes_to_mac: two digits every three characters, ':' in between *)
Fixpoint bytes_to_mac (s : bytes) : bytes :=
  match s with
  | [] => []
  | [b] => byte_to_hex b
  | b :: s' => byte_to_hex b ++ [58]%Z ++ bytes_to_mac s'
  end.
