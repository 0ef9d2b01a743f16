(** Model of hilti/runtime/include/types/port.h and hilti/runtime/src/types/port.cc:11-82.
    Strings are lists of bytes. isdigit/strcasecmp in the "C" locale (isdigit of a negative char, formally undefined, is
    taken to be false as in glibc). *)
From Verif Require Import Base AddrModel.
Open Scope Z_scope.

(** port.h:15: Undef = -1, TCP = 1, UDP = 2, ICMP = 3 *)
Inductive protocol := PUndef | PTCP | PUDP | PICMP.
Definition protocol_value (p : protocol) : Z := match p with PUndef => -1 | PTCP => 1 | PUDP => 2 | PICMP => 3 end.

(** port.h:69-70 *)
Record port := mkPort { pnum : Z; pproto : protocol }.

Definition isdigit (c : Z) : bool := (48 <=? c) && (c <=? 57).

(** port.cc:15-16: the pointer [t] behind the leading digits; here the digits and the rest *)
Fixpoint span_digits (s : bytes) : bytes * bytes :=
  match s with
  | c :: r => if isdigit c then let (d, t) := span_digits r in (c :: d, t) else ([], s)
  | [] => ([], [])
  end.

(** strcasecmp(a, b) == 0 *)
Definition tolower (c : Z) : Z := if (65 <=? c) && (c <=? 90) then c + 32 else c.
Fixpoint strcaseeq (a b : bytes) : bool :=
  match a, b with
  | [], [] => true
  | x :: a', y :: b' => (tolower x =? tolower y) && strcaseeq a' b'
  | _, _ => false
  end.

Definition s_tcp : bytes := [116; 99; 112].
Definition s_udp : bytes := [117; 100; 112].
Definition s_icmp : bytes := [105; 99; 109; 112].
Definition s_unknown : bytes := [60; 117; 110; 107; 110; 111; 119; 110; 62].

(** port.cc:36 std::stoi on a string starting with digits: None is std::out_of_range *)
Definition stoi_digits (ds : bytes) : option Z :=
  let v := fold_left (fun a c => a * 10 + (c - 48)) ds 0 in
  if 2147483647 <? v then None else Some v.

(** port.cc:11-46 Port::_parse *)
Definition port_parse (str : bytes) : res port :=
  let s := c_str str in
  let (ds, t) := span_digits s in
  let bad := match ds, t with
             | [], _ => true                            (* s == t *)
             | _, [] => true                            (* !*t *)
             | _, [_] => true                           (* !*(t+1) *)
             | _, c :: _ => negb (c =? 47)
             end in
  if bad then Throw RuntimeError else
  let* p := if strcaseeq t (47 :: s_tcp) then Ok PTCP
            else if strcaseeq t (47 :: s_udp) then Ok PUDP
            else if strcaseeq t (47 :: s_icmp) then Ok PICMP
            else Throw RuntimeError in
  match stoi_digits ds with
  | None => Throw RuntimeError
  | Some v => if 65535 <? v then Throw RuntimeError else Ok (mkPort v p)
  end.

(** printf's %u *)
Fixpoint print_u (fuel : nat) (n : Z) : bytes :=
  match fuel with
  | O => []
  | S f => if n <? 10 then [n + 48] else print_u f (n / 10) ++ [n mod 10 + 48]
  end.

(** port.cc:51-68 *)
Definition proto_text (p : protocol) : bytes :=
  match p with PICMP => s_icmp | PTCP => s_tcp | PUDP => s_udp | PUndef => s_unknown end.

(** port.cc:48-71 operator String *)
Definition port_print (p : port) : bytes :=
  print_u 20 (pnum p) ++ [47] ++ proto_text (pproto p).

(** port.h:53-57 *)
Definition port_eqb (a b : port) : bool := (pnum a =? pnum b) && (protocol_value (pproto a) =? protocol_value (pproto b)).
Definition port_ltb (a b : port) : bool :=
  (pnum a <? pnum b) || ((pnum a =? pnum b) && (protocol_value (pproto a) <? protocol_value (pproto b))).
