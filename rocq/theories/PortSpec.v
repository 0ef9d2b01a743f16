(** Specification for C38: the text form of a port. *)
From Verif Require Import Base PortModel.
Open Scope Z_scope.

Definition digit (c : Z) : Prop := 48 <= c <= 57.

(** Positional value of a decimal numeral. *)
Fixpoint numeral_value (ds : bytes) : Z :=
  match ds with [] => 0 | d :: r => (d - 48) * 10 ^ Z.of_nat (length r) + numeral_value r end.

(** [w] is [name] up to letter case; [name] is in lower case. *)
Definition case_variant (w name : bytes) : Prop :=
  Forall2 (fun c n => c = n \/ (97 <= n <= 122 /\ c = n - 32)) w name.

Definition proto_name (p : protocol) (name : bytes) : Prop :=
  (p = PTCP /\ name = [116; 99; 112]) \/ (p = PUDP /\ name = [117; 100; 112]) \/ (p = PICMP /\ name = [105; 99; 109; 112]).

(** The texts that denote a port. *)
Definition denotes (s : bytes) (p : port) : Prop :=
  exists ds w name, s = ds ++ [47] ++ w /\ ds <> [] /\ Forall digit ds /\ numeral_value ds = pnum p /\ pnum p <= 65535 /\
    proto_name (pproto p) name /\ case_variant w name.

Definition valid_port (p : port) : Prop := 0 <= pnum p <= 65535 /\ pproto p <> PUndef.

(** Everything before the first NUL. *)
Definition until_nul (s t : bytes) : Prop := ~ In 0 t /\ exists r, s = t ++ r /\ (r = [] \/ exists r', r = 0 :: r').
