(** * Specification of HILTI references, without reference counts *)
From Coq Require Import List Arith Bool.
From Verif Require Import HandleModel.
Import ListNotations.

Section Spec.
Context {V : Type}.

(** The instance a variable refers to, whatever its kind. *)
Definition target (r : ref) : option nat :=
  match r with
  | RV (VShared p) | RV (VRaw p) => p
  | RS p => p
  | RW p => p
  | RG (Some p) => p
  | _ => None
  end.

(** The instance a variable keeps alive: value references that hold a shared
    pointer, strong references and generic strong references do; weak
    references and value references made from [this] do not. *)
Definition manages (r : ref) (c : nat) : bool :=
  match r with
  | RV (VShared (Some d)) | RS (Some d) | RG (Some (Some d)) => d =? c
  | _ => false
  end.

(** Some variable keeps instance [c] alive. *)
Definition managed (st : state V) (c : nat) : bool :=
  existsb (fun r => manages r c) (slots st).

(** The value of an instance that exists: a heap instance exists as long as it
    is managed, a local one until its scope ends. *)
Definition instance (st : state V) (c : nat) : option V :=
  match nth_error (cells st) c with
  | Some (mkCell v (Counted _)) => if managed st c then Some v else None
  | Some (mkCell v (Local b)) => if b then Some v else None
  | None => None
  end.

Definition on_heap (st : state V) (c : nat) : Prop :=
  exists v n, nth_error (cells st) c = Some (mkCell v (Counted n)).

(** What one sees through a variable. *)
Inductive seen := SeenVal (v : V) | SeenNull | SeenExpired | SeenDangling | SeenNothing.

Definition view (st : state V) (i : nat) : seen :=
  match slot st i with
  | RV _ | RS _ =>
      match target (slot st i) with
      | None => SeenNull
      | Some c => match instance st c with Some v => SeenVal v | None => SeenDangling end
      end
  | RW None => SeenNull
  | RW (Some c) => match instance st c with Some v => SeenVal v | None => SeenExpired end
  | RG _ | RDead => SeenNothing
  end.

(** The variables an operation names. *)
Definition names (o : op V) : list nat :=
  match o with
  | VOfStrong i | VOfWeak i | VOfGeneric i _ | VCopy i | VMove i | VSelf i
  | SOfV i | SCopy i | SMove i | WOfV i | WOfS i | WCopy i | WMove i | GOfS i
  | VReset i | VSetT i _ | SReset i | SSetT i _ | WReset i | GReset i
  | Destroy i | Store i _ | Load i | IsNull i | IsExpired i | AsShared i
  | GAs i _ => [i]
  | VSetV i j | VMoveV i j | VSetS i j | SSetV i j | SSetS i j | SMoveS i j
  | WSetV i j | WSetS i j | WSetW i j | WMoveW i j | VEq i j => [i; j]
  | _ => []
  end.

(** The variables an operation may make refer to something else (assigned or
    moved from). *)
Definition rebinds (o : op V) : list nat :=
  match o with
  | VMove i | SMove i | WMove i | VReset i | VSetT i _ | SReset i | SSetT i _ | WReset i
  | GReset i | Destroy i | VSetV i _ | VSetS i _ | SSetV i _ | SSetS i _ | WSetV i _
  | WSetS i _ | WSetW i _ => [i]
  | VMoveV i j | SMoveS i j | WMoveW i j => [i; j]
  | _ => []
  end.

(** Operations that make variable [d] (the first component; a new variable
    where there is none) share the instance of variable [s], which they do not
    change. *)
Definition shares (st : state V) (o : op V) : option (nat * nat) :=
  match o with
  | VOfStrong s | VOfWeak s | VOfGeneric s _ | SOfV s | SCopy s | WOfV s | WOfS s | WCopy s
  | GOfS s => Some (length (slots st), s)
  | SSetV d s | SSetS d s | WSetV d s | WSetS d s | WSetW d s | VSetS d s => Some (d, s)
  | _ => None
  end.

(** Operations that move variable [s] into variable [d]. *)
Definition moves (st : state V) (o : op V) : option (nat * nat) :=
  match o with
  | SMove s | WMove s => Some (length (slots st), s)
  | SMoveS d s | WMoveW d s => if d =? s then None else Some (d, s)
  | _ => None
  end.

(** Operations that make variable [d] refer to a new instance of value [v]. *)
Definition creates (dflt : V) (st : state V) (o : op V) : option (nat * V) :=
  match o with
  | VDefault => Some (length (slots st), dflt)
  | VNew v | SNew v => Some (length (slots st), v)
  | SSetT d v => Some (d, v)
  | VSetT d v => match view st d with SeenNull => Some (d, v) | _ => None end
  | VCopy s => match view st s with SeenVal v => Some (length (slots st), v) | _ => None end
  | VSetV d s | VMoveV d s =>
      match view st d, view st s with SeenNull, SeenVal v => Some (d, v) | _, _ => None end
  | _ => None
  end.

(** Operations that store value [v] into the instance variable [d] refers to. *)
Definition stores (st : state V) (o : op V) : option (nat * V) :=
  match o with
  | Store d v | VSetT d v => Some (d, v)
  | VSetV d s | VMoveV d s => match view st s with SeenVal v => Some (d, v) | _ => None end
  | _ => None
  end.

(** The value stored in instance [c], whether or not it exists any longer. *)
Definition content (st : state V) (c : nat) : option V :=
  option_map c_val (nth_error (cells st) c).

(** The kinds of variables, and the kinds an operation's arguments must have. *)
Inductive kind := KValue | KStrong | KWeak | KGeneric.
Definition kind_of (r : ref) : option kind :=
  match r with RV _ => Some KValue | RS _ => Some KStrong | RW _ => Some KWeak | RG _ => Some KGeneric | RDead => None end.
Definition is_kind (st : state V) (i : nat) (ks : list kind) : Prop :=
  exists k, kind_of (slot st i) = Some k /\ In k ks.
Definition local_object (st : state V) (c : nat) : Prop :=
  exists v, nth_error (cells st) c = Some (mkCell v (Local true)).

Definition typed (st : state V) (o : op V) : Prop :=
  match o with
  | VDefault | VNew _ | SNull | SNew _ | WNull | GNull | LocalNew _ => True
  | VSelfLocal c | LocalDel c => local_object st c
  | VOfStrong s | SCopy s | SMove s | WOfS s | GOfS s | SReset s | SSetT s _ => is_kind st s [KStrong]
  | VOfWeak w | WCopy w | WMove w | WReset w | IsExpired w => is_kind st w [KWeak]
  | VOfGeneric g _ | GReset g | GAs g _ => is_kind st g [KGeneric]
  | VCopy r | VMove r | SOfV r | WOfV r | VReset r | VSetT r _ | AsShared r => is_kind st r [KValue]
  | VSelf i | Store i _ | Load i | IsNull i => is_kind st i [KValue; KStrong; KWeak]
  | VSetV r q | VMoveV r q | VEq r q => is_kind st r [KValue] /\ is_kind st q [KValue]
  | VSetS r s => is_kind st r [KValue] /\ is_kind st s [KStrong]
  | SSetV s r => is_kind st s [KStrong] /\ is_kind st r [KValue]
  | SSetS s t | SMoveS s t => is_kind st s [KStrong] /\ is_kind st t [KStrong]
  | WSetV w r => is_kind st w [KWeak] /\ is_kind st r [KValue]
  | WSetS w s => is_kind st w [KWeak] /\ is_kind st s [KStrong]
  | WSetW w u | WMoveW w u => is_kind st w [KWeak] /\ is_kind st u [KWeak]
  | Destroy i => is_kind st i [KValue; KStrong; KWeak; KGeneric]
  end.

(** The kind of the variable an operation creates. *)
Definition new_kind (o : op V) : option kind :=
  match o with
  | VDefault | VNew _ | VOfStrong _ | VOfWeak _ | VOfGeneric _ _ | VCopy _ | VMove _ | VSelf _
  | VSelfLocal _ => Some KValue
  | SNull | SNew _ | SOfV _ | SCopy _ | SMove _ => Some KStrong
  | WNull | WOfV _ | WOfS _ | WCopy _ | WMove _ => Some KWeak
  | GNull | GOfS _ => Some KGeneric
  | _ => None
  end.

(** No shared pointer can be made for a value reference that wraps a local
    object, nor for a null pointer that is not a shared one. *)
Definition unshareable (st : state V) (r : nat) : Prop :=
  slot st r = RV (VRaw None) \/ exists c, slot st r = RV (VRaw (Some c)) /\ local_object st c.

(** When operations throw, and what. *)
Definition throws (st : state V) (o : op V) (e : exn) : Prop :=
  match o with
  | SOfV r | WOfV r | SSetV _ r | WSetV _ r | AsShared r => e = IllegalReference /\ unshareable st r
  | VOfGeneric g same | GAs g same =>
      e = IllegalReference /\ same = false /\ exists p, slot st g = RG (Some p)
  | VSelf i | Load i | Store i _ =>
      e = NullReference /\ view st i = SeenNull \/ e = ExpiredReference /\ view st i = SeenExpired
  | VEq r q => e = NullReference /\ (view st r = SeenNull \/ view st q = SeenNull)
  | _ => False
  end.

(** Does the operation wrap a raw [this] pointer? *)
Definition wraps_this (o : op V) : bool :=
  match o with VSelf _ | VSelfLocal _ => true | _ => false end.

Definition dangling (st : state V) (i : nat) : Prop := view st i = SeenDangling.

End Spec.

(** States that a history of operations, from no variables at all, leads to. *)
Definition reachable {V} (dflt : V) (veqb : V -> V -> bool) (st : state V) : Prop :=
  exists ops xs, run dflt veqb init ops = Some (st, xs).
