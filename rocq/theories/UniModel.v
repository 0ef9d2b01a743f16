(** Model of the Unicode functions: hilti/runtime/src/types/string.cc:15-105, 141-234 (string::size, upper, lower, encode),
    hilti/runtime/src/types/bytes.cc:24-76, 109-224, 250-252, 332-334 (Bytes::decode, upper, lower) and
    hilti/runtime/src/util.cc:289-357 (escapeUTF8).

    Strings and bytes are lists of bytes (0..255), 16-bit units are integers 0..65535, the host is little-endian.

    The libraries utfcpp and utf8proc are not part of /repo. Their functions are modelled by their documented behaviour
    ([next8], [append8], [next16], [append16], [iterate]); this is part of the trusted base. *)
From Verif Require Import Base StrModel.
Open Scope Z_scope.

(** unicode.h:21-25 DecodeErrorStrategy, 28 Charset; both have an additional value Undef (util.h HILTI_RT_ENUM) *)
Inductive strategy := Ignore | Replace | Strict | NoStrategy.
Inductive charset := UTF8 | UTF16LE | UTF16BE | ASCII | NoCharset.

(** ** utfcpp and utf8proc *)

(** utf8::internal::is_code_point_valid *)
Definition valid_cp (cp : Z) : bool := (0 <=? cp) && (cp <? 1114112) && negb ((55296 <=? cp) && (cp <? 57344)).

(** Outcome of utf8::next: a code point and the number of bytes it takes; or an exception: invalid_utf8, not_enough_room or
    invalid_code_point. The position is unchanged if there is an exception. *)
Inductive n8 := N8 (cp : Z) (n : nat) | N8Invalid | N8Short | N8CodePoint.

(** utf8::internal::sequence_length *)
Definition seq_len (b : byte) : nat :=
  if b <? 128 then 1%nat else if b <? 192 then 0%nat else if b <? 224 then 2%nat else if b <? 240 then 3%nat else if b <? 248 then 4%nat else 0%nat.
(** the bits of the lead byte *)
Definition lead_bits (b : byte) : Z := if b <? 128 then b else if b <? 224 then b - 192 else if b <? 240 then b - 224 else b - 240.
Definition is_trail (b : byte) : bool := (128 <=? b) && (b <? 192).
(** utf8::internal::get_sequence_x: [k] more bytes *)
Fixpoint trails (k : nat) (acc : Z) (s : bytes) : n8 :=
  match k with
  | O => N8 acc 0
  | S k' => match s with
            | [] => N8Short
            | b :: s' => if is_trail b then trails k' (acc * 64 + (b - 128)) s' else N8Invalid
            end
  end.
(** utf8::internal::is_overlong_sequence *)
Definition overlong (cp : Z) (n : nat) : bool :=
  if cp <? 128 then negb (n =? 1)%nat else if cp <? 2048 then negb (n =? 2)%nat else if cp <? 65536 then negb (n =? 3)%nat else false.
(** utf8::next *)
Definition next8 (s : bytes) : n8 :=
  match s with
  | [] => N8Short
  | b :: s' =>
      match seq_len b with
      | O => N8Invalid
      | S k => match trails k (lead_bits b) s' with
               | N8 cp _ => if negb (valid_cp cp) then N8CodePoint else if overlong cp (S k) then N8Invalid else N8 cp (S k)
               | e => e
               end
      end
  end.
(** utf8::append: throws invalid_code_point if the code point is not valid. [utf8_encode]: StrModel.v. *)
Definition append8 (cp : Z) : res bytes := if valid_cp cp then Ok (utf8_encode cp) else Throw ForeignException.
(** utf8proc_iterate: code point and length, or a negative value *)
Definition iterate (s : bytes) : option (Z * nat) := match next8 s with N8 cp n => Some (cp, n) | _ => None end.

(** Outcome of utf8::next16: code point and number of units; invalid_utf16; not_enough_room. *)
Inductive n16 := N16 (cp : Z) (n : nat) | N16Invalid | N16Short.
Definition is_lead16 (u : Z) : bool := (55296 <=? u) && (u <? 56320).
Definition is_trail16 (u : Z) : bool := (56320 <=? u) && (u <? 57344).
Definition next16 (us : list Z) : n16 :=
  match us with
  | [] => N16Short
  | u :: us' =>
      if negb (is_lead16 u || is_trail16 u) then N16 u 1 else
      match us' with
      | [] => N16Short
      | v :: _ => if is_lead16 u then (if is_trail16 v then N16 (65536 + (u - 55296) * 1024 + (v - 56320)) 2 else N16Invalid)
                  else N16Invalid
      end
  end.
(** utf8::append16 *)
Definition units_of (cp : Z) : list Z :=
  if cp <? 65536 then [cp] else [55296 + (cp - 65536) / 1024; 56320 + (cp - 65536) mod 1024].
Definition append16 (cp : Z) : res (list Z) := if valid_cp cp then Ok (units_of cp) else Throw ForeignException.
(** utf8::utf16to8 *)
Fixpoint utf16to8 (fuel : nat) (us : list Z) : res bytes :=
  match us with
  | [] => Ok []
  | _ => match fuel with
         | O => UB
         | S f => match next16 us with
                  | N16 cp n => let* a := append8 cp in let* r := utf16to8 f (skipn n us) in Ok (a ++ r)
                  | _ => Throw ForeignException
                  end
         end
  end.
(** utf8::utf8to16 *)
Fixpoint utf8to16 (fuel : nat) (s : bytes) : res (list Z) :=
  match s with
  | [] => Ok []
  | _ => match fuel with
         | O => UB
         | S f => match next8 s with
                  | N8 cp n => let* r := utf8to16 f (skipn n s) in Ok (units_of cp ++ r)
                  | _ => Throw ForeignException
                  end
         end
  end.

(** ** The runtime's functions *)

(** unicode.h:30 REPLACEMENT_CHARACTER *)
Definition replacement : Z := 65533.

(** string.cc:15-43 string::size; [None]: still running after [fuel] rounds. The catch clause handles invalid_utf8 only. *)
Fixpoint size_loop (fuel : nat) (st : strategy) (s : bytes) (len : Z) : option (res Z) :=
  match s with
  | [] => Some (Ok len)
  | _ => match fuel with
         | O => None
         | S f => match next8 s with
                  | N8 _ n => size_loop f st (skipn n s) (len + 1)
                  | N8Invalid => match st with
                                 | Strict => Some (Throw RuntimeError)
                                 | Replace => size_loop f st (skipn 1 s) (len + 1)
                                 | Ignore => size_loop f st (skipn 1 s) len
                                 | NoStrategy => size_loop f st s len
                                 end
                  | _ => Some (Throw ForeignException)
                  end
         end
  end.
Definition string_size (fuel : nat) (st : strategy) (s : bytes) : option (res Z) := size_loop fuel st s 0.

(** string.cc:45-74 upper, 76-105 lower; [up] is utf8proc_toupper/utf8proc_tolower. *)
Fixpoint map_case (up : Z -> Z) (fuel : nat) (st : strategy) (s : bytes) : res bytes :=
  match s with
  | [] => Ok []
  | _ => match fuel with
         | O => UB
         | S f => match iterate s with
                  | Some (cp, n) => let* r := map_case up f st (skipn n s) in Ok (utf8_encode (up cp) ++ r)
                  | None => match st with
                            | Strict => Throw RuntimeError
                            | Replace => let* r := map_case up f st (skipn 1 s) in Ok (utf8_encode replacement ++ r)
                            | Ignore | NoStrategy => map_case up f st (skipn 1 s)
                            end
                  end
         end
  end.
Definition string_map_case (up : Z -> Z) (st : strategy) (s : bytes) : res bytes := map_case up (length s) st s.

(** string.cc:148-175 and bytes.cc:114-140: the loop that validates UTF-8. The catch clause handles invalid_utf8 only. *)
Fixpoint transcode8 (fuel : nat) (st : strategy) (s : bytes) : res bytes :=
  match s with
  | [] => Ok []
  | _ => match fuel with
         | O => UB
         | S f => match next8 s with
                  | N8 cp n => let* a := append8 cp in let* r := transcode8 f st (skipn n s) in Ok (a ++ r)
                  | N8Invalid => match st with
                                 | Strict => Throw RuntimeError
                                 | Replace => let* a := append8 replacement in let* r := transcode8 f st (skipn 1 s) in Ok (a ++ r)
                                 | Ignore | NoStrategy => transcode8 f st (skipn 1 s)
                                 end
                  | _ => Throw ForeignException
                  end
         end
  end.
(** string.cc:206-222 and bytes.cc:196-212: ASCII *)
Fixpoint transcode_ascii (st : strategy) (s : bytes) : res bytes :=
  match s with
  | [] => Ok []
  | c :: s' => if (32 <=? c) && (c <? 127) then let* r := transcode_ascii st s' in Ok (c :: r)
               else match st with
                    | Strict => Throw RuntimeError
                    | Replace => let* r := transcode_ascii st s' in Ok (63 :: r)
                    | Ignore | NoStrategy => transcode_ascii st s'
                    end
  end.
(** string.cc:228-234, bytes.cc:218-224: the function-level handlers turn every other exception into a RuntimeError. *)
Definition wrap {A} (r : res A) : res A := match r with Throw _ => Throw RuntimeError | r => r end.

(** string.cc:185-203: the bytes of 16-bit units *)
Definition unit_bytes (big : bool) (u : Z) : bytes := if big then [u / 256; u mod 256] else [u mod 256; u / 256].
Definition is_big (cs : charset) : bool := match cs with UTF16BE => true | _ => false end.
(** string.cc:141-234 string::encode *)
Definition string_encode (s : bytes) (cs : charset) (st : strategy) : res bytes :=
  match s with
  | [] => Ok []
  | _ => wrap match cs with
         | UTF8 => transcode8 (length s) st s
         | UTF16LE | UTF16BE =>
             let* t8 := wrap (transcode8 (length s) st s) in
             let* t := utf8to16 (length t8) t8 in
             Ok (flat_map (unit_bytes (is_big cs)) t)
         | ASCII => transcode_ascii st s
         | NoCharset => Throw RuntimeError
         end
  end.

(** bytes.cc:25-75 U16Iterator: order LE, BE or Detected; [Detected] reads like LE on this (little-endian) host. *)
Inductive order16 := OLE | OBE | ODetected.
Fixpoint units (o : order16) (s : bytes) : list Z :=
  match s with
  | a :: b :: s' => (match o with OBE => a * 256 + b | OLE | ODetected => b * 256 + a end) :: units o s'
  | _ => []
  end.
(** bytes.cc:167-170: the order is "detected" if the data starts with a byte order mark *)
Definition choose_order (cs : charset) (s : bytes) : order16 :=
  if negb (prefixb [255; 254] s) && negb (prefixb [254; 255] s) then (if is_big cs then OBE else OLE) else ODetected.
(** bytes.cc:172-191: the loop, collecting 16-bit units. The catch clause handles invalid_utf16 only. *)
Fixpoint transcode16 (fuel : nat) (st : strategy) (us : list Z) : res (list Z) :=
  match us with
  | [] => Ok []
  | _ => match fuel with
         | O => UB
         | S f => match next16 us with
                  | N16 cp n => let* a := append16 cp in let* r := transcode16 f st (skipn n us) in Ok (a ++ r)
                  | N16Invalid => match st with
                                  | Strict => Throw RuntimeError
                                  | Replace => let* a := append16 replacement in let* r := transcode16 f st (skipn 1 us) in Ok (a ++ r)
                                  | Ignore | NoStrategy => transcode16 f st (skipn 1 us)
                                  end
                  | N16Short => Throw ForeignException
                  end
         end
  end.
(** bytes.cc:160-194: UTF-16 with an even number of bytes (of an odd number the last one is not looked at) *)
Definition decode16 (cs : charset) (st : strategy) (s : bytes) : res bytes :=
  match s with
  | [] => Ok []
  | _ => wrap (let us := units (choose_order cs s) s in
               let* t := transcode16 (length us) st us in utf16to8 (length t) t)
  end.
(** bytes.cc:109-224 Bytes::decode *)
Definition bytes_decode (s : bytes) (cs : charset) (st : strategy) : res bytes :=
  match s with
  | [] => Ok []
  | _ => wrap match cs with
         | UTF8 => transcode8 (length s) st s
         | UTF16LE | UTF16BE =>
             let even := firstn (length s / 2 * 2) s in
             if (length s mod 2 =? 0)%nat then decode16 cs st s
             else match st with
                  | Strict => Throw RuntimeError
                  | Ignore => decode16 cs st even
                  | Replace => let* d := decode16 cs st even in let* a := append8 replacement in Ok (d ++ a)
                  | NoStrategy => decode16 cs st s
                  end
         | ASCII => transcode_ascii st s
         | NoCharset => Throw RuntimeError
         end
  end.

(** bytes.cc:250-252 Bytes::upper, 332-334 Bytes::lower *)
Definition bytes_map_case (up : Z -> Z) (s : bytes) (cs : charset) (st : strategy) : res bytes :=
  let* t := bytes_decode s cs st in let* u := string_map_case up st t in string_encode u cs st.

(** util.h:344-351 render_style::UTF8 *)
Record ustyle := mkUStyle { u_quotes : bool; u_no_backslash : bool; u_no_control : bool; u_no_hex : bool }.
(** util.cc:321-346: control characters and their letters *)
Definition control_letter (c : byte) : option byte :=
  if c =? 0 then Some 48 else if c =? 7 then Some 97 else if c =? 8 then Some 98 else if c =? 27 then Some 101
  else if c =? 12 then Some 102 else if c =? 10 then Some 110 else if c =? 13 then Some 114 else if c =? 9 then Some 116
  else if c =? 11 then Some 118 else None.
(** "<illegal UTF8 sequence>" *)
Definition illegal_text : bytes :=
  [60;105;108;108;101;103;97;108;32;85;84;70;56;32;115;101;113;117;101;110;99;101;62].
(** util.cc:299-354 the loop of escapeUTF8 *)
Fixpoint escape_utf8_loop (fuel : nat) (st : ustyle) (s : bytes) : bytes :=
  match s with
  | [] => []
  | c :: _ =>
      match fuel with
      | O => []
      | S f =>
          match iterate s with
          | None => illegal_text
          | Some (cp, n) =>
              let rest := skipn n s in
              (if cp =? 92 then
                 (if u_no_hex st && prefixb [120] rest then [92] else if negb (u_no_backslash st) then [92; 92] else [92])
               else if (cp =? 34) && u_quotes st then [92; 34]
               else match control_letter c with
                    | Some l => if u_no_control st then [c] else [92; l]
                    | None => firstn n s
                    end) ++ escape_utf8_loop f st rest
          end
      end
  end.
Definition escape_utf8 (st : ustyle) (s : bytes) : bytes := escape_utf8_loop (length s) st s.
