(** Specification for C44 and C46: plain coroutines, without fibers, pools, trampolines or a context. *)
From Verif Require Import Base FiberModel.

(** Life of a resumable. *)
Inductive astatus :=
| AFresh (body : prog)            (* not started *)
| ASusp (cleanup k : prog)        (* yielded; [k] is what is left to do *)
| AActive                         (* started and not returned to its caller yet *)
| ADone (v : Z)                   (* finished with a result *)
| AFailed                         (* finished with an exception *)
| AAborted.

(** A call waiting for a coroutine, and where its caller continues. *)
Record frame := mkFr { fr_res : nat; fr_kind : kind; fr_k : outcome -> prog }.

Record astate := mkA { a_n : nat; a_res : nat -> option astatus; a_stack : list frame; a_code : prog }.
Definition ainit (p : prog) : astate := mkA 0 (fun _ => None) [] p.

Definition acall (a : astate) (r : nat) (kd : kind) (k : outcome -> prog) (p : prog) : astate :=
  mkA (a_n a) (fup (a_res a) r (Some AActive)) (mkFr r kd k :: a_stack a) p.
Definition agoto (a : astate) (p : prog) : astate := mkA (a_n a) (a_res a) (a_stack a) p.

(** One step of a coroutine program. [UB] means that the client violates the contract: it uses a destroyed resumable, starts one
    twice, resumes one that is not suspended (or resumes or aborts an aborted one), destroys an executing one, or yields while
    being aborted. *)
Definition astep (a : astate) : res astate :=
  match a_code a with
  | PRet v =>
      match a_stack a with
      | [] => Ok a
      | fr :: st =>
          match fr_kind fr with
          | KRun => Ok (mkA (a_n a) (fup (a_res a) (fr_res fr) (Some (ADone v))) st (fr_k fr (Returned true (Some v))))
          | KAbort => Ok (mkA (a_n a) (fup (a_res a) (fr_res fr) (Some AAborted)) st (fr_k fr (Returned true None)))
          | KDel => Ok (mkA (a_n a) (fup (a_res a) (fr_res fr) None) st (fr_k fr (Returned true None)))
          end
      end
  | PThrow e =>
      match a_stack a with
      | [] => Ok a
      | fr :: st =>
          match fr_kind fr with
          | KRun => Ok (mkA (a_n a) (fup (a_res a) (fr_res fr) (Some AFailed)) st (fr_k fr (Threw e)))
          | KAbort => Ok (mkA (a_n a) (fup (a_res a) (fr_res fr) (Some AAborted)) st (fr_k fr (Returned true None)))
          | KDel => Ok (mkA (a_n a) (fup (a_res a) (fr_res fr) None) st (fr_k fr (Returned true None)))
          end
      end
  | PYield cl k =>
      match a_stack a with
      | [] => Ok (agoto a (PThrow ERuntime))
      | fr :: st =>
          match fr_kind fr with
          | KRun => Ok (mkA (a_n a) (fup (a_res a) (fr_res fr) (Some (ASusp cl k))) st (fr_k fr (Returned false None)))
          | _ => UB
          end
      end
  | PNew body k => Ok (mkA (S (a_n a)) (fup (a_res a) (a_n a) (Some (AFresh body))) (a_stack a) (k (a_n a)))
  | PRun r k =>
      match a_res a r with
      | Some (AFresh p) => Ok (acall a r KRun k p)
      | Some (ADone _) | Some AFailed => Ok (agoto a (k (Threw ELogic)))
      | _ => UB
      end
  | PResume r k =>
      match a_res a r with
      | Some (ASusp _ p) => Ok (acall a r KRun k p)
      | Some (ADone _) | Some AFailed => Ok (agoto a (k (Threw ELogic)))
      | _ => UB
      end
  | PAbort r k =>
      match a_res a r with
      | Some (ASusp cl _) => Ok (acall a r KAbort (fun _ => k) cl)
      | Some (ADone _) | Some AFailed => Ok (agoto a k)
      | _ => UB
      end
  | PDel r k =>
      match a_res a r with
      | Some (ASusp cl _) => Ok (acall a r KDel (fun _ => k) cl)
      | None | Some AActive => UB
      | Some _ => Ok (mkA (a_n a) (fup (a_res a) r None) (a_stack a) k)
      end
  | PObs r k =>
      match a_res a r with
      | None => UB
      | Some (ADone v) => Ok (agoto a (k true (Some v)))
      | Some AFailed | Some AAborted => Ok (agoto a (k true None))
      | Some _ => Ok (agoto a (k false None))
      end
  end.

Fixpoint asteps (n : nat) (a : astate) : res astate := match n with O => Ok a | S n' => let* a' := astep a in asteps n' a' end.
Fixpoint csteps (csz n : nat) (c : cstate) : res cstate := match n with O => Ok c | S n' => let* c' := cstep csz c in csteps csz n' c' end.
