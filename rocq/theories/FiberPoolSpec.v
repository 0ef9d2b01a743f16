(** Specification for C45: clients hold fibers; nothing is known about counters. *)
From Verif Require Import Base FiberPoolModel.

Inductive pop :=
| PoCreate                (* a client obtains a fiber *)
| PoDestroy (f : nat)     (* a client gives a fiber it holds back *)
| PoPrime                 (* pre-allocation *)
| PoReset.                (* statistics reset *)

(** The fibers held by clients, and the pool. *)
Definition world := (list nat * pool)%type.
Definition pstep (csz : nat) (w : world) (o : pop) : world :=
  match o with
  | PoCreate => let (f, p) := pool_create (snd w) in (f :: fst w, p)
  | PoDestroy f => (remove Nat.eq_dec f (fst w), pool_destroy csz (snd w) f)
  | PoPrime => (fst w, pool_prime csz (snd w))
  | PoReset => (fst w, pool_reset (snd w))
  end.
Definition pop_ok (w : world) (o : pop) : Prop := match o with PoDestroy f => In f (fst w) | _ => True end.

(** All fibers there are. *)
Definition existing (w : world) : list nat := fst w ++ p_cache (snd w).

(** An execution, as the list of worlds it went through (latest first). *)
Inductive phist (csz : nat) (allow_reset : world -> Prop) : list world -> Prop :=
| ph0 : phist csz allow_reset [([], pool0)]
| phS w h o : phist csz allow_reset (w :: h) -> pop_ok w o -> (o = PoReset -> allow_reset w) ->
    (Z.of_nat (length (existing w)) + Z.of_nat csz + 1 < 2 ^ 64)%Z ->    (* there is no memory for that many fibers *)
    phist csz allow_reset (pstep csz w o :: w :: h).
