(** Model of hilti/runtime/include/intrusive-ptr.h: ManagedObject, Ref, Unref, IntrusivePtr, make_intrusive.

    A program owns variables of type IntrusivePtr; objects may have IntrusivePtr members. Objects get fresh numbers; a
    destroyed object's slot is [None] and touching it again is undefined behaviour. Reference counts are unbounded here:
    2^64 owners of 8 bytes each do not fit an address space of 2^64 bytes. *)
From Verif Require Import Base.

Definition ptr := option nat.

(** intrusive-ptr.h:26-33 ManagedObject, plus the IntrusivePtr members of a derived class *)
Record hobj := mkObj { refs : nat; fields : list ptr }.
Definition heap := list (option hobj).

(** Variables ([None]: out of scope), raw pointers obtained by release() that own a reference, and the heap. *)
Record state := mkSt { vars : list (option ptr); raws : list nat; hp : heap }.
Definition init : state := mkSt [] [] [].

Fixpoint upd {A} (l : list A) (k : nat) (a : A) : list A :=
  match l, k with
  | [], _ => []
  | _ :: l', O => a :: l'
  | x :: l', S k' => x :: upd l' k' a
  end.

Definition get_obj (h : heap) (o : nat) : res hobj :=
  match nth_error h o with Some (Some ob) => Ok ob | _ => UB end.

(** intrusive-ptr.h:35-39 Ref *)
Definition ref (h : heap) (p : ptr) : res heap :=
  match p with
  | None => Ok h
  | Some o => let* ob := get_obj h o in Ok (upd h o (Some (mkObj (S (refs ob)) (fields ob))))
  end.

(** intrusive-ptr.h:41-58 Unref, and the destructors of an object's members run by [delete] (138-141). The pending Unrefs are
    kept in a list; an object's memory counts as gone before its members are destroyed. [fuel] bounds the number of Unrefs,
    see [unref]. *)
Definition targets (ps : list ptr) : list nat := flat_map (fun p => match p with Some o => [o] | None => [] end) ps.
Fixpoint unref_all (fuel : nat) (h : heap) (work : list nat) : res heap :=
  match work with
  | [] => Ok h
  | o :: work' =>
      match fuel with
      | O => UB
      | S f =>
          let* ob := get_obj h o in
          match refs ob with
          | O => UB                                               (* the counter would wrap *)
          | S O => unref_all f (upd h o None) (targets (fields ob) ++ work')
          | S n => unref_all f (upd h o (Some (mkObj n (fields ob)))) work'
          end
      end
  end.

Definition all_ptrs (h : heap) : list ptr := flat_map (fun x => match x with Some ob => fields ob | None => [] end) h.
Definition unref (h : heap) (p : ptr) : res heap :=
  match p with None => Ok h | Some o => unref_all (S (length (all_ptrs h))) h [o] end.

(** Places that hold an IntrusivePtr. *)
Inductive loc := LVar (v : nat) | LField (o k : nat).

Definition read (s : state) (l : loc) : res ptr :=
  match l with
  | LVar v => match nth_error (vars s) v with Some (Some p) => Ok p | _ => UB end
  | LField o k => let* ob := get_obj (hp s) o in match nth_error (fields ob) k with Some p => Ok p | None => UB end
  end.

Definition write (s : state) (l : loc) (p : ptr) : res state :=
  match l with
  | LVar v => match nth_error (vars s) v with Some (Some _) => Ok (mkSt (upd (vars s) v (Some p)) (raws s) (hp s)) | _ => UB end
  | LField o k =>
      let* ob := get_obj (hp s) o in
      match nth_error (fields ob) k with
      | Some _ => Ok (mkSt (vars s) (raws s) (upd (hp s) o (Some (mkObj (refs ob) (upd (fields ob) k p)))))
      | None => UB
      end
  end.

(** An expression denoting an IntrusivePtr: a variable followed by members ([v->k1->k2]); dereferencing null is undefined
    (164-166). *)
Record path := mkPath { pvar : nat; pmembers : list nat }.
Fixpoint follow (s : state) (l : loc) (ks : list nat) : res loc :=
  match ks with
  | [] => Ok l
  | k :: ks' => let* p := read s l in match p with Some o => follow s (LField o k) ks' | None => UB end
  end.
Definition eval (s : state) (p : path) : res loc :=
  let* l := follow s (LVar (pvar p)) (pmembers p) in let* _ := read s l in Ok l.

Inductive op :=
| ONew (k : nat)              (* make_intrusive<T>() of a class with k members: a new variable *)
| ONull                       (* IntrusivePtr x; / x(nullptr) *)
| OCopy (p : path)            (* IntrusivePtr x(p) *)
| OMove (p : path)            (* IntrusivePtr x(std::move(p)) *)
| ODestroy (v : nat)          (* variable goes out of scope *)
| OAssignCopy (p q : path)    (* p = q *)
| OAssignMove (p q : path)    (* p = std::move(q) *)
| OAssignNull (p : path)      (* p = nullptr *)
| OSwap (p q : path)          (* p.swap(q) *)
| ORelease (p : path)         (* p.release(): the client now owns a reference *)
| OAdopt (r : nat)            (* IntrusivePtr x(AdoptRef{}, raw) for the r-th raw pointer *)
| ONewRef (r : nat).          (* IntrusivePtr x(NewRef{}, raw) *)

Definition push_var (s : state) (p : ptr) : state := mkSt (vars s ++ [Some p]) (raws s) (hp s).
Definition with_hp (s : state) (h : heap) : state := mkSt (vars s) (raws s) h.
Fixpoint remove_nth {A} (l : list A) (k : nat) : list A :=
  match l, k with [], _ => [] | _ :: l', O => l' | x :: l', S k' => x :: remove_nth l' k' end.

(** intrusive-ptr.h:155 release *)
Definition release (s : state) (l : loc) : res (ptr * state) :=
  let* p := read s l in let* s' := write s l None in Ok (p, s').

(** intrusive-ptr.h:157-160 operator=(IntrusivePtr other): swap with [other] (the argument, already constructed), whose
    destructor (138-141) then drops the old value *)
Definition assign_value (s : state) (l : loc) (other : ptr) : res state :=
  let* old := read s l in
  let* s' := write s l other in
  let* h := unref (hp s') old in
  Ok (with_hp s' h).

Definition step (s : state) (o : op) : res state :=
  match o with
  | ONew k => Ok (mkSt (vars s ++ [Some (Some (length (hp s)))]) (raws s) (hp s ++ [Some (mkObj 1 (repeat None k))])) (* 185-188 *)
  | ONull => Ok (push_var s None)                                                                       (* 96-100 *)
  | OCopy p =>                                                                                          (* 129, 120-123 *)
      let* l := eval s p in let* v := read s l in let* h := ref (hp s) v in Ok (push_var (with_hp s h) v)
  | OMove p =>                                                                                          (* 125-127 *)
      let* l := eval s p in let* (v, s') := release s l in Ok (push_var s' v)
  | ODestroy v =>                                                                                       (* 138-141 *)
      let* p := read s (LVar v) in
      let s' := mkSt (upd (vars s) v None) (raws s) (hp s) in
      let* h := unref (hp s') p in Ok (with_hp s' h)
  | OAssignCopy p q =>
      let* lp := eval s p in let* lq := eval s q in
      let* v := read s lq in let* h := ref (hp s) v in assign_value (with_hp s h) lp v
  | OAssignMove p q =>
      let* lp := eval s p in let* lq := eval s q in
      let* (v, s') := release s lq in assign_value s' lp v
  | OAssignNull p => let* lp := eval s p in assign_value s lp None
  | OSwap p q =>                                                                                        (* 143 *)
      let* lp := eval s p in let* lq := eval s q in
      let* a := read s lp in let* b := read s lq in
      let* s1 := write s lp b in write s1 lq a
  | ORelease p =>
      let* l := eval s p in let* (v, s') := release s l in
      Ok (match v with Some o => mkSt (vars s') (raws s' ++ [o]) (hp s') | None => s' end)
  | OAdopt r =>                                                                                         (* 110 *)
      match nth_error (raws s) r with
      | Some o => Ok (mkSt (vars s ++ [Some (Some o)]) (remove_nth (raws s) r) (hp s))
      | None => UB
      end
  | ONewRef r =>                                                                                        (* 120-123 *)
      match nth_error (raws s) r with
      | Some o => let* h := ref (hp s) (Some o) in Ok (push_var (with_hp s h) (Some o))
      | None => UB
      end
  end.
