(** Model of Fiber and Resumable (hilti/runtime/src/fiber.cc, include/fiber.h): coroutines on pooled fibers.

    Bodies of resumables and the main program are trees of the operations they perform; a continuation receives what the
    operation returned. The C++ stack of a fiber that is not executing is represented by the point where it was switched away
    ([saved]). Not modelled: the switch itself (stack copying, the switch trampoline 119-178, 513-620; switching preserves
    local state), source locations, stack sizes. Assertions count as undefined behaviour when violated. *)
From Verif Require Import Base FiberPoolModel.

Inductive cexn := EUser (e : Z) | ERuntime (* yield outside of a fiber *) | ELogic (* std::logic_error *) | EAbort (* AbortException *).

(** What a caller of run()/resume() sees afterwards: the function has completed or not, with its result; or an exception. *)
Inductive outcome := Returned (done : bool) (result : option Z) | Threw (e : cexn).

(** Programs. [PYield cleanup k]: suspend; [cleanup] is the code destructors run if the fiber gets aborted there (an
    AbortException cannot be caught by bodies, fiber.cc:350-356). *)
Inductive prog :=
| PRet (v : Z)
| PThrow (e : cexn)
| PYield (cleanup k : prog)
| PNew (body : prog) (k : nat -> prog)             (* Resumable r(body) *)
| PRun (r : nat) (k : outcome -> prog)
| PResume (r : nat) (k : outcome -> prog)
| PAbort (r : nat) (k : prog)
| PDel (r : nat) (k : prog)                        (* ~Resumable *)
| PObs (r : nat) (k : bool -> option Z -> prog).   (* operator bool, hasResult/get *)

(** fiber.h:250 *)
Inductive fstate := Init | Running | Aborting | Yielded | Idle.

(** Which call is waiting for a fiber: Resumable::run/resume, Resumable::abort, Fiber::destroy. *)
Inductive kind := KRun | KAbort | KDel.

Inductive saved :=
| SFresh                                                            (* never activated *)
| SIdle                                                             (* in the trampoline's _yield, fiber.cc:113 *)
| SYield (cleanup k : prog) (r : nat)                               (* in detail::yield on handle r, fiber.cc:805 *)
| SCall (r f : nat) (kd : kind) (old : option nat) (k : outcome -> prog)  (* inside _fiber->run() *)
| SExec.                                                            (* executing *)

(** fiber.h:264-274; the caller is null, the main fiber ([Some None]) or a fiber *)
Record fiber := mkFib {
  f_state : fstate; f_fun : option prog; f_res : option Z; f_exn : option cexn; f_caller : option (option nat); f_saved : saved }.
(** fiber.h:399-401 *)
Record resum := mkRes { r_fiber : option nat; r_done : bool; r_result : option Z }.

(** The context (current resumable, current fiber; [None]: none/main), fibers, resumables, the code being executed. *)
Record cstate := mkC {
  c_pool : pool; c_fib : nat -> option fiber; c_nres : nat; c_res : nat -> option resum;
  c_ctx : option nat; c_cur : option nat; c_main : saved; c_code : prog }.

Definition cinit (p : prog) : cstate := mkC pool0 (fun _ => None) 0 (fun _ => None) None None SExec p.

Definition fup {A} (m : nat -> A) (k : nat) (a : A) : nat -> A := fun x => if Nat.eqb x k then a else m x.

Definition set_fib (c : cstate) (f : nat) (fb : fiber) : cstate :=
  mkC (c_pool c) (fup (c_fib c) f (Some fb)) (c_nres c) (c_res c) (c_ctx c) (c_cur c) (c_main c) (c_code c).
Definition set_res (c : cstate) (r : nat) (x : option resum) : cstate :=
  mkC (c_pool c) (c_fib c) (c_nres c) (fup (c_res c) r x) (c_ctx c) (c_cur c) (c_main c) (c_code c).
Definition set_ctx (c : cstate) (x : option nat) : cstate :=
  mkC (c_pool c) (c_fib c) (c_nres c) (c_res c) x (c_cur c) (c_main c) (c_code c).
Definition set_cur (c : cstate) (x : option nat) : cstate :=
  mkC (c_pool c) (c_fib c) (c_nres c) (c_res c) (c_ctx c) x (c_main c) (c_code c).
Definition set_code (c : cstate) (p : prog) : cstate :=
  mkC (c_pool c) (c_fib c) (c_nres c) (c_res c) (c_ctx c) (c_cur c) (c_main c) p.
Definition set_pool (c : cstate) (p : pool) (fm : nat -> option fiber) : cstate :=
  mkC p fm (c_nres c) (c_res c) (c_ctx c) (c_cur c) (c_main c) (c_code c).

Definition get_fib (c : cstate) (f : nat) : res fiber := match c_fib c f with Some fb => Ok fb | None => UB end.
Definition get_res (c : cstate) (r : nat) : res resum := match c_res c r with Some x => Ok x | None => UB end.
Definition fib_with_saved (fb : fiber) (sv : saved) : fiber :=
  mkFib (f_state fb) (f_fun fb) (f_res fb) (f_exn fb) (f_caller fb) sv.
Definition fib_with_state (fb : fiber) (st : fstate) : fiber :=
  mkFib st (f_fun fb) (f_res fb) (f_exn fb) (f_caller fb) (f_saved fb).
Definition fib_called (fb : fiber) (caller : option nat) : fiber :=
  mkFib (f_state fb) (f_fun fb) (f_res fb) (f_exn fb) (Some caller) SExec.

(** The executing fiber's stack is put aside. *)
Definition save_cur (c : cstate) (sv : saved) : res cstate :=
  match c_cur c with
  | None => Ok (mkC (c_pool c) (c_fib c) (c_nres c) (c_res c) (c_ctx c) (c_cur c) sv (c_code c))
  | Some f => let* fb := get_fib c f in Ok (set_fib c f (fib_with_saved fb sv))
  end.

(** fiber.cc:545-580 _activate, and where the activated fiber continues: at the top of the trampoline's loop (87-104), or
    after the switch in Fiber::yield (657-660) and detail::yield (806) *)
Definition activate (c : cstate) (f : nat) (sv : saved) : res cstate :=
  if match c_cur c with Some g => Nat.eqb g f | None => false end then UB
  else
    let* c1 := save_cur c sv in
    let* fb := get_fib c1 f in
    let c2 := set_cur (set_fib c1 f (fib_called fb (c_cur c))) (Some f) in
    match f_saved fb with
    | SFresh | SIdle =>
        match f_state fb, f_fun fb with Running, Some p => Ok (set_code c2 p) | _, _ => UB end
    | SYield cl p r =>
        match f_state fb with
        | Aborting => Ok (set_code c2 cl)
        | _ => Ok (set_code (set_ctx c2 (Some r)) p)
        end
    | SCall _ _ _ _ _ | SExec => UB
    end.

(** fiber.cc:640-644 Fiber::run up to the switch *)
Definition fiber_run (c : cstate) (f : nat) (sv : saved) : res cstate :=
  let* fb := get_fib c f in
  let c1 := match f_state fb with Aborting => c | _ => set_fib c f (fib_with_state fb Running) end in
  activate c1 f sv.

(** fiber.cc:663-666 Fiber::resume *)
Definition fiber_resume (c : cstate) (f : nat) (sv : saved) : res cstate :=
  let* fb := get_fib c f in
  match f_state fb with Yielded => fiber_run c f sv | _ => UB end.

(** fiber.cc:668-681 Fiber::abort *)
Definition fiber_abort (c : cstate) (f : nat) (sv : saved) : res cstate :=
  let* fb := get_fib c f in
  match f_state fb with Yielded => fiber_run (set_fib c f (fib_with_state fb Aborting)) f sv | _ => UB end.

(** fiber.cc:704-718 Fiber::destroy after the abort; a fiber not put into the cache is deleted *)
Definition fiber_put (csz : nat) (c : cstate) (f : nat) : cstate :=
  set_pool c (pool_destroy csz (c_pool c) f)
    (if length (p_cache (c_pool c)) <? csz then c_fib c else fup (c_fib c) f None).

(** fiber.h:199-213 isDone *)
Definition fiber_is_done (st : fstate) : bool := match st with Running | Yielded => false | _ => true end.

(** fiber.cc:778-797 Resumable::yielded; what the caller sees is the outcome *)
Definition yielded (csz : nat) (c : cstate) (r : nat) : res (outcome * cstate) :=
  let* x := get_res c r in
  match r_fiber x with
  | None => UB
  | Some f =>
      let* fb := get_fib c f in
      match f_exn fb with
      | Some e => Ok (Threw e, set_res (fiber_put csz c f) r (Some (mkRes None true None)))
      | None =>
          if fiber_is_done (f_state fb)
          then Ok (Returned true (f_res fb), set_res (fiber_put csz c f) r (Some (mkRes None true (f_res fb))))
          else Ok (Returned (r_done x) (r_result x), c)
      end
  end.

(** The switch back into [_fiber->run()] of the caller: fiber.cc:646-650, then 749-751/760-762 (run, resume), 772-775 (abort) or
    704-718 (destroy) *)
Definition after_call (csz : nat) (c : cstate) : res cstate :=
  let* sv := match c_cur c with None => Ok (c_main c) | Some g => let* gb := get_fib c g in Ok (f_saved gb) end in
  match sv with
  | SCall r f kd old k =>
      let* fb := get_fib c f in
      match f_state fb with
      | Yielded | Idle =>
          let* c0 := save_cur c SExec in
          match kd with
          | KRun => let* (o, c1) := yielded csz (set_ctx c0 old) r in Ok (set_code c1 (k o))
          | KAbort =>
              let* x := get_res c0 r in
              Ok (set_code (set_res (set_ctx c0 old) r (Some (mkRes (r_fiber x) true None))) (k (Returned true None)))
          | KDel => Ok (set_code (set_res (fiber_put csz c0 f) r None) (k (Returned true None)))
          end
      | _ => Throw LogicError
      end
  | _ => UB
  end.

(** fiber.cc:582-620 _yield: switch to the caller *)
Definition fiber_yield (csz : nat) (c : cstate) (f : nat) (sv : saved) : res cstate :=
  if match c_cur c with Some g => Nat.eqb g f | None => false end then
    let* c1 := save_cur c sv in
    let* fb := get_fib c1 f in
    match f_caller fb with
    | None => UB
    | Some g => after_call csz (set_cur c1 g)
    end
  else UB.

(** fiber.cc:103-113 the end of a body *)
Definition trampoline_end (csz : nat) (c : cstate) (f : nat) (o : Z + cexn) : res cstate :=
  let* fb := get_fib c f in
  let aborting := match f_state fb with Aborting => true | _ => false end in
  let fb' := match o with
             | inl v => if aborting then mkFib Idle None (f_res fb) (Some EAbort) (f_caller fb) SExec
                        else mkFib Idle None (Some v) (f_exn fb) (f_caller fb) SExec
             | inr e => mkFib Idle None (f_res fb) (Some (if aborting then EAbort else e)) (f_caller fb) SExec
             end in
  fiber_yield csz (set_fib c f fb') f SIdle.

Definition cstep (csz : nat) (c : cstate) : res cstate :=
  match c_code c with
  | PRet v => match c_cur c with None => Ok c | Some f => trampoline_end csz c f (inl v) end
  | PThrow e => match c_cur c with None => Ok c | Some f => trampoline_end csz c f (inr e) end
  | PYield cl k =>                                                       (* fiber.cc:799-807, 653-657 *)
      match c_ctx c with
      | None => Ok (set_code c (PThrow ERuntime))
      | Some r =>
          let* fb := get_fib c r in
          match f_state fb with
          | Running => fiber_yield csz (set_fib c r (fib_with_state fb Yielded)) r (SYield cl k r)
          | _ => UB
          end
      end
  | PNew body k =>                                                       (* fiber.h:330-334, 180-184 *)
      let (f, p) := pool_create (c_pool c) in
      let* fb := match p_cache (c_pool c) with
                 | [] => Ok (mkFib Init None None None None SFresh)
                 | _ :: _ => get_fib c f
                 end in
      let fb' := mkFib (f_state fb) (Some body) None None (f_caller fb) (f_saved fb) in
      let r := c_nres c in
      Ok (mkC p (fup (c_fib c) f (Some fb')) (S r) (fup (c_res c) r (Some (mkRes (Some f) false None)))
              (c_ctx c) (c_cur c) (c_main c) (k r))
  | PRun r k =>                                                          (* fiber.cc:743-752, fiber.h:394-397 *)
      let* x := get_res c r in
      match r_fiber x with
      | None => Ok (set_code c (k (Threw ELogic)))
      | Some f => fiber_run (set_ctx c (Some f)) f (SCall r f KRun (c_ctx c) k)
      end
  | PResume r k =>                                                       (* fiber.cc:754-763 *)
      let* x := get_res c r in
      match r_fiber x with
      | None => Ok (set_code c (k (Threw ELogic)))
      | Some f => fiber_resume (set_ctx c (Some f)) f (SCall r f KRun (c_ctx c) k)
      end
  | PAbort r k =>                                                        (* fiber.cc:765-776 *)
      let* x := get_res c r in
      match r_fiber x with
      | None => Ok (set_code c k)
      | Some f => fiber_abort (set_ctx c (Some f)) f (SCall r f KAbort (c_ctx c) (fun _ => k))
      end
  | PDel r k =>                                                          (* fiber.h:342-349, fiber.cc:697-718 *)
      let* x := get_res c r in
      match r_fiber x with
      | None => Ok (set_code (set_res c r None) k)
      | Some f =>
          let* fb := get_fib c f in
          match f_state fb with
          | Yielded => fiber_abort (set_res c r (Some (mkRes None (r_done x) (r_result x)))) f (SCall r f KDel (c_ctx c) (fun _ => k))
          | _ => Ok (set_code (set_res (fiber_put csz c f) r None) k)
          end
      end
  | PObs r k => let* x := get_res c r in Ok (set_code c (k (r_done x) (if r_done x then r_result x else None)))
  end.
