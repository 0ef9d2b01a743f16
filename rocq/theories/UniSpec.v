(** Specification for C62-C66: Unicode text and its encodings (RFC 3629, RFC 2781), stated without the arithmetic of an
    encoder: by the bits of the code point. *)
From Verif Require Import Base.
Open Scope Z_scope.

(** Unicode scalar values. *)
Definition scalar (cp : Z) : Prop := 0 <= cp < 1114112 /\ ~ (55296 <= cp < 57344).
(** a group of six bits *)
Definition bits6 (x : Z) : Prop := 0 <= x < 64.

(** [s] is the structurally complete sequence of a lead byte and its trail bytes that carries the bits of [cp]. *)
Definition carries (cp : Z) (s : bytes) : Prop :=
  (s = [cp] /\ 0 <= cp < 128) \/
  (exists a b, s = [192 + a; 128 + b] /\ 0 <= a < 32 /\ bits6 b /\ cp = a * 64 + b) \/
  (exists a b c, s = [224 + a; 128 + b; 128 + c] /\ 0 <= a < 16 /\ bits6 b /\ bits6 c /\ cp = (a * 64 + b) * 64 + c) \/
  (exists a b c d, s = [240 + a; 128 + b; 128 + c; 128 + d] /\ 0 <= a < 8 /\ bits6 b /\ bits6 c /\ bits6 d /\ cp = ((a * 64 + b) * 64 + c) * 64 + d).
(** the number of bytes a code point takes *)
Definition width8 (cp : Z) : nat := if cp <? 128 then 1 else if cp <? 2048 then 2 else if cp <? 65536 then 3 else 4.
(** UTF-8 of one character: a scalar value in the shortest form; of a text. *)
Definition char8 (cp : Z) (s : bytes) : Prop := scalar cp /\ carries cp s /\ length s = width8 cp.
Inductive text8 : list Z -> bytes -> Prop :=
| text8_nil : text8 [] []
| text8_cons cp c cps s : char8 cp c -> text8 cps s -> text8 (cp :: cps) (c ++ s).
Definition valid8 (s : bytes) : Prop := exists cps, text8 cps s.

(** UTF-16 of one character, of a text *)
Definition char16 (cp : Z) (us : list Z) : Prop :=
  scalar cp /\
  ((us = [cp] /\ cp < 65536) \/
   exists hi lo, us = [55296 + hi; 56320 + lo] /\ 0 <= hi < 1024 /\ 0 <= lo < 1024 /\ cp = 65536 + hi * 1024 + lo).
Inductive text16 : list Z -> list Z -> Prop :=
| text16_nil : text16 [] []
| text16_cons cp c cps us : char16 cp c -> text16 cps us -> text16 (cp :: cps) (c ++ us).
(** two bytes per unit, the more significant one first ([big]) or last *)
Inductive serial (big : bool) : list Z -> bytes -> Prop :=
| serial_nil : serial big [] []
| serial_cons hi lo us s : is_byte hi -> is_byte lo -> serial big us s ->
    serial big ((hi * 256 + lo) :: us) ((if big then [hi; lo] else [lo; hi]) ++ s).

(** How a decoder sees a position in invalid input. *)
(** the text ends inside a sequence: it is a proper part of a structurally complete sequence *)
Definition cut_off (s : bytes) : Prop := s <> [] /\ exists cp r, r <> [] /\ carries cp (s ++ r).
(** a structurally complete sequence for a number that is not a scalar value *)
Definition not_scalar (s : bytes) : Prop := exists cp c r, s = c ++ r /\ carries cp c /\ ~ scalar cp.
(** anything else that does not start with a character *)
Definition garbage (s : bytes) : Prop := s <> [] /\ (forall cp c r, s = c ++ r -> ~ char8 cp c) /\ ~ cut_off s /\ ~ not_scalar s.

(** [r] is [s] with each byte at which garbage starts replaced by [mark] and everything else kept; the input may end
    prematurely ([stop]) where the decoder gives up. *)
Inductive repaired (mark : bytes) : bytes -> bytes -> bytes -> Prop :=
| rep_nil : repaired mark [] [] []
| rep_stop s : cut_off s \/ not_scalar s -> repaired mark s [] s
| rep_char cp c s r stop : char8 cp c -> repaired mark s r stop -> repaired mark (c ++ s) (c ++ r) stop
| rep_mark b s r stop : garbage (b :: s) -> repaired mark s r stop -> repaired mark (b :: s) (mark ++ r) stop.

(** The same for UTF-16 units: a surrogate without partner. *)
Definition surrogate (u : Z) : Prop := 55296 <= u < 57344.
Definition lone (us : list Z) : Prop := exists u r, us = u :: r /\ surrogate u /\ r <> [] /\ forall cp c t, us = c ++ t -> ~ char16 cp c.
(** [cps] are the characters of [us], with [mark] for each surrogate without partner; [stop] is where the decoder gives up:
    a surrogate at the very end. *)
Inductive repaired16 (mark : list Z) : list Z -> list Z -> list Z -> Prop :=
| rep16_nil : repaired16 mark [] [] []
| rep16_stop u : surrogate u -> repaired16 mark [u] [] [u]
| rep16_char cp c us cps stop : char16 cp c -> repaired16 mark us cps stop -> repaired16 mark (c ++ us) (cp :: cps) stop
| rep16_mark u us cps stop : lone (u :: us) -> repaired16 mark us cps stop -> repaired16 mark (u :: us) (mark ++ cps) stop.

(** What a strategy puts in place of an invalid byte (RFC: U+FFFD, or nothing). *)
Definition fffd : bytes := [239; 191; 189].
(** [r] is [s] with each character [cp] changed to [f cp] and each byte at which no character starts replaced by [mark]. *)
Inductive scrubbed (f : Z -> Z) (mark : bytes) : bytes -> bytes -> Prop :=
| scr_nil : scrubbed f mark [] []
| scr_char cp c c' s r : char8 cp c -> char8 (f cp) c' -> scrubbed f mark s r -> scrubbed f mark (c ++ s) (c' ++ r)
| scr_mark b s r : (forall cp c t, b :: s = c ++ t -> ~ char8 cp c) -> scrubbed f mark s r -> scrubbed f mark (b :: s) (mark ++ r).

(** ASCII: the printable characters *)
Definition printable (c : byte) : Prop := 32 <= c <= 126.
Inductive ascii_repaired (mark : bytes) : bytes -> bytes -> Prop :=
| asc_nil : ascii_repaired mark [] []
| asc_char c s r : printable c -> ascii_repaired mark s r -> ascii_repaired mark (c :: s) (c :: r)
| asc_mark c s r : ~ printable c -> ascii_repaired mark s r -> ascii_repaired mark (c :: s) (mark ++ r).

(** Escape sequences. *)
(** hexadecimal digits and numbers. The code accepts the six characters after '9' (colon to question mark) as 10 to 15, too. *)
Definition hexval (c : byte) (v : Z) : Prop :=
  (48 <= c <= 63 /\ v = c - 48) \/ (97 <= c <= 102 /\ v = c - 97 + 10) \/ (65 <= c <= 70 /\ v = c - 65 + 10).
Inductive hexnum : bytes -> Z -> Prop :=
| hexnum_nil : hexnum [] 0
| hexnum_snoc s n c v : hexnum s n -> hexval c v -> hexnum (s ++ [c]) (16 * n + v).
(** a number may have a sign; a sign alone is zero *)
Definition signed_hex (s : bytes) (z : Z) : Prop :=
  hexnum s z \/ exists t n, hexnum t n /\ ((s = 43 :: t /\ z = n) \/ (s = 45 :: t /\ z = - n)).
(** letters after a backslash and the characters they stand for: backslash, double quote, NUL, BEL, BS, ESC, FF, LF, CR, HT, VT *)
Definition simple_escapes : list (byte * byte) :=
  [(92, 92); (34, 34); (48, 0); (97, 7); (98, 8); (101, 27); (102, 12); (110, 10); (114, 13); (116, 9); (118, 11)].
(** [r] is the text with the escape sequences of [s] expanded. *)
Inductive unescapes : bytes -> bytes -> Prop :=
| ue_nil : unescapes [] []
| ue_plain c s r : c <> 92 -> unescapes s r -> unescapes (c :: s) (c :: r)
| ue_simple e x s r : In (e, x) simple_escapes -> unescapes s r -> unescapes (92 :: e :: s) (x :: r)
| ue_unicode l k h v u s r : (l = 117 /\ k = 4%nat) \/ (l = 85 /\ k = 8%nat) ->
    length h = k -> signed_hex h v -> 0 <= v < 1114112 -> carries v u -> length u = width8 v ->
    unescapes s r -> unescapes (92 :: l :: h ++ s) (u ++ r)
| ue_hex h v s r : length h = 2%nat \/ (length h = 1%nat /\ s = []) -> signed_hex h v ->
    unescapes s r -> unescapes (92 :: 120 :: h ++ s) (v mod 256 :: r).

(** Rendering with escape sequences. Control characters with a letter of their own: *)
Definition letter_of : list (byte * byte) := [(0, 48); (7, 97); (8, 98); (27, 101); (12, 102); (10, 110); (13, 114); (9, 116); (11, 118)].
(** "<illegal UTF8 sequence>" *)
Definition illegal : bytes := [60;105;108;108;101;103;97;108;32;85;84;70;56;32;115;101;113;117;101;110;99;101;62].
(** [r] renders [s]; the flags: quotes are escaped, backslashes are not, control characters are not, the backslash of \x is not. *)
Inductive renders (quotes nobackslash nocontrol nohex : bool) : bytes -> bytes -> Prop :=
| ren_nil : renders quotes nobackslash nocontrol nohex [] []
| ren_illegal s : s <> [] -> (forall cp c t, s = c ++ t -> ~ char8 cp c) -> renders quotes nobackslash nocontrol nohex s illegal
| ren_backslash s r : nobackslash = false -> nohex = false \/ (forall t, s <> 120 :: t) ->
    renders quotes nobackslash nocontrol nohex s r -> renders quotes nobackslash nocontrol nohex (92 :: s) (92 :: 92 :: r)
| ren_bare_backslash s r : nobackslash = true \/ (nohex = true /\ exists t, s = 120 :: t) ->
    renders quotes nobackslash nocontrol nohex s r -> renders quotes nobackslash nocontrol nohex (92 :: s) (92 :: r)
| ren_quote s r : quotes = true ->
    renders quotes nobackslash nocontrol nohex s r -> renders quotes nobackslash nocontrol nohex (34 :: s) (92 :: 34 :: r)
| ren_control c l s r : In (c, l) letter_of -> nocontrol = false ->
    renders quotes nobackslash nocontrol nohex s r -> renders quotes nobackslash nocontrol nohex (c :: s) (92 :: l :: r)
| ren_char cp c s r : char8 cp c -> cp <> 92 -> (cp = 34 -> quotes = false) -> (forall l, In (cp, l) letter_of -> nocontrol = true) ->
    renders quotes nobackslash nocontrol nohex s r -> renders quotes nobackslash nocontrol nohex (c ++ s) (c ++ r).
