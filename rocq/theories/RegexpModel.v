(** Model of the construction and caching of regular expressions: hilti/runtime/src/types/regexp.cc:267-325,
    hilti/runtime/include/types/regexp.h:26-81,297-303. Strings are lists of bytes. The JustRX library is not part of the
    code base; its only use here is whether it accepts a pattern (jrx_regset_add2 returning REG_OK), which is a parameter. *)
From Verif Require Import Base PortModel.
Open Scope Z_scope.

(** regexp.h:27-37 *)
Record flags := mkFlags { no_sub : bool; use_std : bool }.
Definition bit_char (b : bool) : Z := if b then 49 else 48.
Definition cacheKey (f : flags) : bytes := [bit_char (no_sub f); bit_char (use_std f)].

(** regexp.h:43-75 *)
Record pattern := mkPattern { value : bytes; case_insensitive : bool; match_id : Z }.

(** regexp.h:77-81 to_string(Pattern): "/%s/%s%s" with "i" and "$(%lu)" *)
Definition pattern_string (p : pattern) : bytes :=
  let ci := if case_insensitive p then [105] else [] in
  let id := if match_id p =? 0 then [] else [36; 40] ++ print_u 20 (match_id p) ++ [41] in
  [47] ++ value p ++ [47] ++ ci ++ id.

(** hilti/runtime/include/util.h:390-405 join(l, "|") *)
Fixpoint join_bar (l : list bytes) : bytes :=
  match l with
  | [] => []
  | [s] => s
  | s :: r => s ++ [124] ++ join_bar r
  end.

(** regexp.cc:311-314 *)
Definition cache_key (ps : list pattern) (f : flags) : bytes :=
  match ps with
  | [] => []
  | _ => join_bar (map pattern_string ps) ++ [124] ++ cacheKey f
  end.

(** regexp.cc:267-308 CompiledRegExp: flags and the patterns compiled so far *)
Record compiled := mkCompiled { cflags : flags; cpatterns : list pattern }.

(** global-state.h:84 regexp_cache; a present key whose pointer is null is [Some None]. The shared objects are numbered. *)
Record rstate := mkR { cache : bytes -> option (option nat); objects : list compiled }.
Definition rinit : rstate := mkR (fun _ => None) [].

Fixpoint beqb (a b : bytes) : bool :=
  match a, b with
  | [], [] => true
  | x :: a', y :: b' => (x =? y) && beqb a' b'
  | _, _ => false
  end.
Definition kup {A} (m : bytes -> A) (k : bytes) (v : A) : bytes -> A := fun x => if beqb x k then v else m x.

Section Jrx.
  (** jrx_regset_add2(set so far, pattern) == REG_OK *)
  Variable accepts : list pattern -> pattern -> bool.

  (** regexp.cc:271-279, 295-308: the loop over _compileOne; pushes each accepted pattern, throws at the first rejected *)
  Fixpoint compile_all (done todo : list pattern) : res (list pattern) :=
    match todo with
    | [] => Ok done
    | p :: r => if accepts done p then compile_all (done ++ [p]) r else Throw PatternError
    end.

  (** regexp.cc:310-321. operator[] creates the entry with a null pointer; it stays there if the constructor throws. *)
  Definition construct (st : rstate) (ps : list pattern) (f : flags) : rstate * res nat :=
    let key := cache_key ps f in
    match cache st key with
    | Some (Some o) => (st, Ok o)
    | _ =>
        match compile_all [] ps with
        | Ok cps =>
            let o := length (objects st) in
            (mkR (kup (cache st) key (Some (Some o))) (objects st ++ [mkCompiled f cps]), Ok o)
        | Throw e => (mkR (kup (cache st) key (Some None)) (objects st), Throw e)
        | UB => (mkR (kup (cache st) key (Some None)) (objects st), UB)
        end
    end.

  (** A program constructing regular expressions one after the other; the results in order. *)
  Fixpoint run_regexps (st : rstate) (l : list (list pattern * flags)) : rstate * list (res nat) :=
    match l with
    | [] => (st, [])
    | (ps, f) :: r => let (st1, o) := construct st ps f in
                      let (st2, os) := run_regexps st1 r in (st2, o :: os)
    end.
End Jrx.

(** regexp.h:300-303 operator== : comparison of the shared pointers *)
Definition regexp_eqb (a b : nat) : bool := Nat.eqb a b.
