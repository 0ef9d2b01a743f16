(** * HILTI references: [value_ref<T>], [strong_ref<T>], [weak_ref<T>]

    Model of hilti/runtime/include/types/reference.h (with throw_null() of
    hilti/runtime/src/types/reference.cc).

    Simplifications, in one place:
    - one fixed value type [V] with default value [dflt]; values contain no
      references themselves (so destroying a value destroys nothing else);
    - std::shared_ptr / std::weak_ptr are modelled by what the C++ standard
      says: a control block per instance that counts its owners; an instance
      is destroyed when the count drops to zero.  Instances are numbered and
      numbers are not reused (addresses of freed instances are, so a
      comparison with a *dangling* raw pointer may come out either way; that
      is undefined behaviour already);
    - [std::any] inside StrongReferenceGeneric holds a StrongReference of [V];
      a query for another type is the boolean [same = false];
    - assertions are not modelled; the assignment operators' catch blocks are
      unreachable since copying a [V] does not throw;
    - accessing an instance that is not alive is undefined behaviour: [step]
      returns [None]. *)
From Coq Require Import List Arith Bool Lia.
Import ListNotations.

Section Ref.
Variable V : Type.
Variable dflt : V.
Variable veqb : V -> V -> bool.

(** An instance of [T]: allocated through std::make_shared and counted, or a
    local object (stack, member) that exists until its scope ends. *)
Inductive life := Counted (n : nat) | Local (b : bool).
Record cell := mkCell { c_val : V; c_life : life }.

Definition lalive (l : life) : bool :=
  match l with Counted n => 0 <? n | Local b => b end.

(** reference.h:388 — [std::variant<std::shared_ptr<T>, T*> _ptr]. *)
Inductive vref := VShared (p : option nat) | VRaw (p : option nat).

(** One C++ variable each: ValueReference (reference.h:53-389),
    StrongReference (:399-540), WeakReference (:552-711),
    StrongReferenceGeneric (:718-765; outer option: has_value()), or a
    variable whose lifetime has ended. *)
Inductive ref :=
| RV (x : vref) | RS (p : option nat) | RW (p : option nat)
| RG (x : option (option nat)) | RDead.

Record state := mkSt { cells : list cell; slots : list ref }.
Definition init : state := mkSt [] [].

Inductive exn := NullReference | ExpiredReference | IllegalReference.

Inductive out :=
| ODone                      (* no result *)
| OVal (v : V)               (* a value read *)
| OBool (b : bool)
| OPtr (p : option nat)      (* a pointer: null or the instance's number *)
| OExn (e : exn)             (* the exception thrown *)
| OIll.                      (* does not type-check: no such variable *)

(** ** shared_ptr / weak_ptr primitives *)

Definition slot (st : state) (i : nat) : ref := nth i (slots st) RDead.
Definition alive (st : state) (c : nat) : bool :=
  match nth_error (cells st) c with Some x => lalive (c_life x) | None => false end.

Fixpoint upd {A} (l : list A) (i : nat) (x : A) : list A :=
  match l, i with
  | [], _ => []
  | _ :: t, O => x :: t
  | h :: t, S j => h :: upd t j x
  end.

(** the shared_ptr a variable holds *)
Definition vown (x : vref) : option nat := match x with VShared p => p | VRaw _ => None end.
Definition rown (r : ref) : option nat :=
  match r with
  | RV x => vown x | RS p => p | RG (Some p) => p | _ => None
  end.

Definition bump (f : nat -> nat) (x : cell) : cell :=
  match c_life x with
  | Counted n => mkCell (c_val x) (Counted (f n))
  | Local _ => x
  end.
Definition count (f : nat -> nat) (p : option nat) (cs : list cell) : list cell :=
  match p with
  | None => cs
  | Some c => match nth_error cs c with
              | Some x => upd cs c (bump f x)
              | None => cs
              end
  end.

(** assign a new content to a variable: the new owner is registered before
    the old one is released (copy-and-swap of std::shared_ptr) *)
Definition put (st : state) (i : nat) (r : ref) : state :=
  mkSt (count pred (rown (slot st i)) (count S (rown r) (cells st)))
       (upd (slots st) i r).
(** a new variable *)
Definition push (st : state) (r : ref) : state :=
  mkSt (count S (rown r) (cells st)) (slots st ++ [r]).
(** std::make_shared: the instance's number is [length (cells st)]; its first
    owner is registered by the [put]/[push] that follows *)
Definition alloc (st : state) (v : V) : state :=
  mkSt (cells st ++ [mkCell v (Counted 0)]) (slots st).
Definition fresh (st : state) : nat := length (cells st).

Definition read (st : state) (c : nat) : option V :=
  match nth_error (cells st) c with
  | Some x => if lalive (c_life x) then Some (c_val x) else None
  | None => None
  end.
Definition write (st : state) (c : nat) (v : V) : option state :=
  match nth_error (cells st) c with
  | Some x => if lalive (c_life x)
              then Some (mkSt (upd (cells st) c (mkCell v (c_life x))) (slots st))
              else None
  | None => None
  end.
(** weak_ptr::lock() *)
Definition lock (st : state) (p : option nat) : option nat :=
  match p with Some c => if alive st c then Some c else None | None => None end.

(** ** ValueReference *)

(** reference.h:345-359 — [_get()]. *)
Definition vget (x : vref) : option nat := match x with VShared p => p | VRaw p => p end.

(** reference.h:141-159 — [asSharedPtr()]; [None]: undefined (a dangling raw
    pointer), [Some (inr e)]: throws. *)
Definition asShared (st : state) (x : vref) : option (option nat + exn) :=
  match x with
  | VShared p => Some (inl p)
  | VRaw (Some c) =>
      match nth_error (cells st) c with
      | Some y =>
          if lalive (c_life y)
          then match c_life y with
               | Counted _ => Some (inl (Some c))
               | Local _ => Some (inr IllegalReference)
               end
          else None
      | None => None
      end
  | VRaw None => Some (inr IllegalReference)
  end.

(** ** The operations of the API *)

Inductive op :=
(* new value references: reference.h:59, 67, 442/79, 610/79, 749-758, 85-90, 93, 324-328 *)
| VDefault | VNew (v : V) | VOfStrong (s : nat) | VOfWeak (w : nat)
| VOfGeneric (g : nat) (same : bool) | VCopy (r : nat) | VMove (r : nat)
| VSelf (r : nat)        (* self(this) inside a method called through reference r *)
| VSelfLocal (c : nat)   (* self(this) inside a method called on a local object *)
(* new strong references: 404/422, 419, 411, 428, 431 *)
| SNull | SNew (v : V) | SOfV (r : nat) | SCopy (s : nat) | SMove (s : nat)
(* new weak references: 557/574, 564, 571, 580, 583 *)
| WNull | WOfV (r : nat) | WOfS (s : nat) | WCopy (w : nat) | WMove (w : nat)
(* new generic references: 721, 725 *)
| GNull | GOfS (s : nat)
(* local objects *)
| LocalNew (v : V) | LocalDel (c : nat)
(* assignments to value references: 165, 238, 251, 278, 310 *)
| VReset (r : nat) | VSetT (r : nat) (v : V) | VSetV (r q : nat) | VMoveV (r q : nat)
| VSetS (r s : nat)
(* to strong references: 448/530, 499, 509, 515, 524 *)
| SReset (s : nat) | SSetT (s : nat) (v : V) | SSetV (s r : nat) | SSetS (s t : nat)
| SMoveS (s t : nat)
(* to weak references: 613/683, 667, 677, 689, 698 *)
| WReset (w : nat) | WSetV (w r : nat) | WSetS (w s : nat) | WSetW (w u : nat)
| WMoveW (w u : nat)
(* 761 *)
| GReset (g : nat)
(* a variable's lifetime ends *)
| Destroy (i : nat)
(* access *)
| Store (i : nat) (v : V)   (* *x = v *)
| Load (i : nat)            (* *x *)
| IsNull (i : nat) | IsExpired (w : nat)
| AsShared (r : nat)        (* asSharedPtr() *)
| GAs (g : nat) (same : bool)
| VEq (r q : nat).          (* operator== *)

Definition new (st : state) (r : ref) : option (state * out) := Some (push st r, ODone).
Definition set (st : state) (i : nat) (r : ref) : option (state * out) := Some (put st i r, ODone).
Definition ret (st : state) (o : out) : option (state * out) := Some (st, o).

(** What [operator*] / [operator->] reach: [_safeGet] (reference.h:361-383)
    for a value reference, [_check] (:536-539) and get() for a strong one,
    [_check] (:704-710) and lock() for a weak one: the expired test comes
    before the null test; 595-598 ([isExpired]: expired and not
    owner-equivalent to an empty weak_ptr), 589 ([isNull]). *)
Definition reach (st : state) (r : ref) : option nat + option exn :=
  match r with
  | RV x => match vget x with Some c => inl (Some c) | None => inr (Some NullReference) end
  | RS p => match p with Some c => inl (Some c) | None => inr (Some NullReference) end
  | RW p =>
      match p with
      | None => inr (Some NullReference)
      | Some c => if alive st c then inl (Some c) else inr (Some ExpiredReference)
      end
  | _ => inr None
  end.

Definition step (st : state) (o : op) : option (state * out) :=
  match o with
  (* reference.h:59 *)
  | VDefault => new (alloc st dflt) (RV (VShared (Some (fresh st))))
  (* reference.h:67 *)
  | VNew v => new (alloc st v) (RV (VShared (Some (fresh st))))
  (* reference.h:442 — derefAsValue() of a strong reference, through :79 *)
  | VOfStrong s =>
      match slot st s with RS p => new st (RV (VShared p)) | _ => ret st OIll end
  (* reference.h:610 — derefAsValue() of a weak reference *)
  | VOfWeak w =>
      match slot st w with RW p => new st (RV (VShared (lock st p))) | _ => ret st OIll end
  (* reference.h:749-758 — derefAsValue<T>() of a generic reference *)
  | VOfGeneric g same =>
      match slot st g with
      | RG None => new (alloc st dflt) (RV (VShared (Some (fresh st))))
      | RG (Some p) => if same then new st (RV (VShared p)) else ret st (OExn IllegalReference)
      | _ => ret st OIll
      end
  (* reference.h:85-90 *)
  | VCopy r =>
      match slot st r with
      | RV x => match vget x with
                | Some c => match read st c with
                            | Some v => new (alloc st v) (RV (VShared (Some (fresh st))))
                            | None => None
                            end
                | None => new st (RV (VShared None))
                end
      | _ => ret st OIll
      end
  (* reference.h:93 — a defaulted move: a shared_ptr source becomes null, a
     raw pointer is copied *)
  | VMove r =>
      match slot st r with
      | RV (VShared p) => set (push st (RV (VShared p))) r (RV (VShared None))
      | RV (VRaw p) => new st (RV (VRaw p))
      | _ => ret st OIll
      end
  (* reference.h:324-328, 341-344 — self(this); the method is called through [r], so
     the instance is reached by operator-> *)
  | VSelf r =>
      match reach st (slot st r) with
      | inl (Some c) => if alive st c then new st (RV (VRaw (Some c))) else None
      | inr (Some e) => ret st (OExn e)
      | _ => ret st OIll
      end
  | VSelfLocal c =>
      match nth_error (cells st) c with
      | Some (mkCell _ (Local true)) => new st (RV (VRaw (Some c)))
      | _ => ret st OIll
      end
  (* reference.h:404, 422 *)
  | SNull => new st (RS None)
  (* reference.h:419 *)
  | SNew v => new (alloc st v) (RS (Some (fresh st)))
  (* reference.h:411 *)
  | SOfV r =>
      match slot st r with
      | RV x => match asShared st x with
                | None => None
                | Some (inl p) => new st (RS p)
                | Some (inr e) => ret st (OExn e)
                end
      | _ => ret st OIll
      end
  (* reference.h:428 *)
  | SCopy s => match slot st s with RS p => new st (RS p) | _ => ret st OIll end
  (* reference.h:431 *)
  | SMove s => match slot st s with RS p => set (push st (RS p)) s (RS None) | _ => ret st OIll end
  (* reference.h:557, 574 *)
  | WNull => new st (RW None)
  (* reference.h:564 *)
  | WOfV r =>
      match slot st r with
      | RV x => match asShared st x with
                | None => None
                | Some (inl p) => new st (RW p)
                | Some (inr e) => ret st (OExn e)
                end
      | _ => ret st OIll
      end
  (* reference.h:571 *)
  | WOfS s => match slot st s with RS p => new st (RW p) | _ => ret st OIll end
  (* reference.h:580 *)
  | WCopy w => match slot st w with RW p => new st (RW p) | _ => ret st OIll end
  (* reference.h:583 *)
  | WMove w => match slot st w with RW p => set (push st (RW p)) w (RW None) | _ => ret st OIll end
  (* reference.h:721 *)
  | GNull => new st (RG None)
  (* reference.h:725 *)
  | GOfS s => match slot st s with RS p => new st (RG (Some p)) | _ => ret st OIll end
  (* an object that is not managed by a shared_ptr begins / ends its life *)
  | LocalNew v => ret (mkSt (cells st ++ [mkCell v (Local true)]) (slots st)) ODone
  | LocalDel c =>
      match nth_error (cells st) c with
      | Some (mkCell v (Local true)) => ret (mkSt (upd (cells st) c (mkCell v (Local false))) (slots st)) ODone
      | _ => ret st OIll
      end
  (* reference.h:165 *)
  | VReset r => match slot st r with RV _ => set st r (RV (VShared None)) | _ => ret st OIll end
  (* reference.h:238-245 *)
  | VSetT r v =>
      match slot st r with
      | RV x => match vget x with
                | Some c => match write st c v with
                            | Some st' => ret st' ODone
                            | None => None
                            end
                | None => set (alloc st v) r (RV (VShared (Some (fresh st))))
                end
      | _ => ret st OIll
      end
  (* reference.h:251-272; [_ptr = nullptr] selects the raw-pointer
     alternative of the variant (a standard conversion beats shared_ptr's
     converting constructor) *)
  | VSetV r q =>
      match slot st r, slot st q with
      | RV x, RV y =>
          if r =? q then ret st ODone
          else match vget y with
               | None => set st r (RV (VRaw None))
               | Some d =>
                   match read st d with
                   | None => None
                   | Some v =>
                       match vget x with
                       | Some c => match write st c v with
                                   | Some st' => ret st' ODone
                                   | None => None
                                   end
                       | None => set (alloc st v) r (RV (VShared (Some (fresh st))))
                       end
                   end
               end
      | _, _ => ret st OIll
      end
  (* reference.h:278-303; the source is cleared in one of the two branches *)
  | VMoveV r q =>
      match slot st r, slot st q with
      | RV x, RV y =>
          if r =? q then ret st ODone
          else match vget y with
               | None => set st r (RV (VRaw None))
               | Some d =>
                   match read st d with
                   | None => None
                   | Some v =>
                       match vget x with
                       | Some c => match write st c v with
                                   | Some st' => set st' q (RV (VRaw None))
                                   | None => None
                                   end
                       | None => set (alloc st v) r (RV (VShared (Some (fresh st))))
                       end
                   end
               end
      | _, _ => ret st OIll
      end
  (* reference.h:310-315 — pointers are compared first *)
  | VSetS r s =>
      match slot st r, slot st s with
      | RV x, RS p =>
          if match vget x, p with
             | Some c, Some d => c =? d
             | None, None => true
             | _, _ => false
             end
          then ret st ODone
          else set st r (RV (VShared p))
      | _, _ => ret st OIll
      end
  (* reference.h:448, 530-533 *)
  | SReset s => match slot st s with RS _ => set st s (RS None) | _ => ret st OIll end
  (* reference.h:499-502 *)
  | SSetT s v => match slot st s with RS _ => set (alloc st v) s (RS (Some (fresh st))) | _ => ret st OIll end
  (* reference.h:509-512 *)
  | SSetV s r =>
      match slot st s, slot st r with
      | RS _, RV x => match asShared st x with
                      | None => None
                      | Some (inl p) => set st s (RS p)
                      | Some (inr e) => ret st (OExn e)
                      end
      | _, _ => ret st OIll
      end
  (* reference.h:515-521 *)
  | SSetS s t =>
      match slot st s, slot st t with RS _, RS p => set st s (RS p) | _, _ => ret st OIll end
  (* reference.h:524-527; a self-move is a no-op (move-and-swap) *)
  | SMoveS s t =>
      match slot st s, slot st t with
      | RS _, RS p => if s =? t then ret st ODone else set (put st s (RS p)) t (RS None)
      | _, _ => ret st OIll
      end
  (* reference.h:613, 683-686 *)
  | WReset w => match slot st w with RW _ => set st w (RW None) | _ => ret st OIll end
  (* reference.h:667-670 *)
  | WSetV w r =>
      match slot st w, slot st r with
      | RW _, RV x => match asShared st x with
                      | None => None
                      | Some (inl p) => set st w (RW p)
                      | Some (inr e) => ret st (OExn e)
                      end
      | _, _ => ret st OIll
      end
  (* reference.h:677-680 *)
  | WSetS w s =>
      match slot st w, slot st s with RW _, RS p => set st w (RW p) | _, _ => ret st OIll end
  (* reference.h:689-695 *)
  | WSetW w u =>
      match slot st w, slot st u with RW _, RW p => set st w (RW p) | _, _ => ret st OIll end
  (* reference.h:698-701 *)
  | WMoveW w u =>
      match slot st w, slot st u with
      | RW _, RW p => if w =? u then ret st ODone else set (put st w (RW p)) u (RW None)
      | _, _ => ret st OIll
      end
  (* reference.h:761 *)
  | GReset g => match slot st g with RG _ => set st g (RG None) | _ => ret st OIll end
  | Destroy i => match slot st i with RDead => ret st OIll | _ => set st i RDead end
  (* reference.h:179, 193 (value), 465, 485 (strong), 632, 654 (weak) *)
  | Store i v =>
      match reach st (slot st i) with
      | inl (Some c) => match write st c v with Some st' => ret st' ODone | None => None end
      | inr (Some e) => ret st (OExn e)
      | _ => ret st OIll
      end
  (* reference.h:172, 186, 200 (value), 455, 475 (strong), 621, 643 (weak) *)
  | Load i =>
      match reach st (slot st i) with
      | inl (Some c) => match read st c with Some v => ret st (OVal v) | None => None end
      | inr (Some e) => ret st (OExn e)
      | _ => ret st OIll
      end
  (* reference.h:103-106 (value), 436 (strong), 589 (weak) *)
  | IsNull i =>
      match slot st i with
      | RV x => ret st (OBool (match vget x with None => true | Some _ => false end))
      | RS p => ret st (OBool (match p with None => true | Some _ => false end))
      | RW p => ret st (OBool (match lock st p with None => true | Some _ => false end))
      | _ => ret st OIll
      end
  (* reference.h:595-598 *)
  | IsExpired w =>
      match slot st w with
      | RW None => ret st (OBool false)
      | RW (Some c) => ret st (OBool (negb (alive st c)))
      | _ => ret st OIll
      end
  (* reference.h:141-159 *)
  | AsShared r =>
      match slot st r with
      | RV x => match asShared st x with
                | None => None
                | Some (inl p) => ret st (OPtr p)
                | Some (inr e) => ret st (OExn e)
                end
      | _ => ret st OIll
      end
  (* reference.h:732-741 *)
  | GAs g same =>
      match slot st g with
      | RG None => ret st (OPtr None)
      | RG (Some p) => ret st (if same then OPtr p else OExn IllegalReference)
      | _ => ret st OIll
      end
  (* reference.h:208: both sides are checked before either value is read *)
  | VEq r q =>
      match slot st r, slot st q with
      | RV x, RV y =>
          match vget x, vget y with
          | Some c, Some d =>
              match read st c, read st d with
              | Some v, Some u => ret st (OBool (veqb v u))
              | _, _ => None
              end
          | _, _ => ret st (OExn NullReference)
          end
      | _, _ => ret st OIll
      end
  end.

(** A history: the operations in order; [None] once one is undefined. *)
Fixpoint run (st : state) (ops : list op) : option (state * list out) :=
  match ops with
  | [] => Some (st, [])
  | o :: rest =>
      match step st o with
      | None => None
      | Some (st', x) =>
          match run st' rest with
          | None => None
          | Some (st'', xs) => Some (st'', x :: xs)
          end
      end
  end.
End Ref.

Arguments mkCell {V} _ _.
Arguments c_val {V} _.
Arguments c_life {V} _.
Arguments mkSt {V} _ _.
Arguments cells {V} _.
Arguments slots {V} _.
Arguments init {V}.
Arguments slot {V} _ _.
Arguments alive {V} _ _.
Arguments step {V} _ _ _ _.
Arguments run {V} _ _ _ _.
Arguments ODone {V}.
Arguments OVal {V} _.
Arguments OBool {V} _.
Arguments OPtr {V} _.
Arguments OExn {V} _.
Arguments OIll {V}.
Arguments VDefault {V}.
Arguments VNew {V} _.
Arguments VOfStrong {V} _.
Arguments VOfWeak {V} _.
Arguments VOfGeneric {V} _ _.
Arguments VCopy {V} _.
Arguments VMove {V} _.
Arguments VSelf {V} _.
Arguments VSelfLocal {V} _.
Arguments SNull {V}.
Arguments SNew {V} _.
Arguments SOfV {V} _.
Arguments SCopy {V} _.
Arguments SMove {V} _.
Arguments WNull {V}.
Arguments WOfV {V} _.
Arguments WOfS {V} _.
Arguments WCopy {V} _.
Arguments WMove {V} _.
Arguments GNull {V}.
Arguments GOfS {V} _.
Arguments LocalNew {V} _.
Arguments LocalDel {V} _.
Arguments VReset {V} _.
Arguments VSetT {V} _ _.
Arguments VSetV {V} _ _.
Arguments VMoveV {V} _ _.
Arguments VSetS {V} _ _.
Arguments SReset {V} _.
Arguments SSetT {V} _ _.
Arguments SSetV {V} _ _.
Arguments SSetS {V} _ _.
Arguments SMoveS {V} _ _.
Arguments WReset {V} _.
Arguments WSetV {V} _ _.
Arguments WSetS {V} _ _.
Arguments WSetW {V} _ _.
Arguments WMoveW {V} _ _.
Arguments GReset {V} _.
Arguments Destroy {V} _.
Arguments Store {V} _ _.
Arguments Load {V} _.
Arguments IsNull {V} _.
Arguments IsExpired {V} _.
Arguments AsShared {V} _.
Arguments GAs {V} _ _.
Arguments VEq {V} _ _.
Arguments push {V} _ _.
Arguments put {V} _ _ _.
Arguments alloc {V} _ _.
Arguments fresh {V} _.
Arguments read {V} _ _.
Arguments write {V} _ _ _.
Arguments lock {V} _ _.
Arguments asShared {V} _ _.
Arguments reach {V} _ _.
Arguments bump {V} _ _.
Arguments count {V} _ _ _.
