(** C40, C41: vectors. *)
From Verif Require Import Base BytesModel BytesSpec VecModel VecSpec VecProofs.
Open Scope Z_scope.

Ltac vprog_ok_tac := repeat match goal with
  | |- vprog_ok _ _ [] => exact I
  | |- vprog_ok ?d ?m (?p :: ?ps) =>
      let m' := eval vm_compute in (res_state m (avstep d m p)) in
      change (vop_ok m p /\ vprog_ok d m' ps); split; [cbn [vop_ok]; repeat split; try (vm_compute; discriminate); vm_compute; repeat constructor|]
  end.

(** * C40: accesses of a vector [l] *)

(** Reading gives the addressed element or IndexError. *)
Theorem C40_reads : forall dflt l i, 0 <= i ->
  vget l i = match nth_error l (Z.to_nat i) with Some x => Ok x | None => Throw IndexError end /\
  vfront l = match l with x :: _ => Ok x | [] => Throw IndexError end /\
  vback dflt l = match rev l with x :: _ => Ok x | [] => Throw IndexError end.
Proof. intros dflt l i H. split; [apply vget_spec; exact H|]. split; [destruct l; reflexivity|]. apply vback_spec. Qed.

(** pop_back drops the last element. *)
Theorem C40_pop : forall l, vpop [] = Throw IndexError /\ (forall x, vpop (l ++ [x]) = Ok l).
Proof.
  intros l. split; [reflexivity|]. intros x. rewrite vpop_spec, rev_app_distr. cbn. rewrite rev_involutive. reflexivity.
Qed.

(** sub never fails and gives exactly the existing elements at positions s <= j < e. *)
Theorem C40_sub : forall l s e, 0 <= s -> 0 <= e ->
  (exists r, vsub l s e = Ok r /\ (forall j, nth_error r j = if Z.of_nat j + s <? e then nth_error l (Z.to_nat s + j) else None)) /\
  vsub_to l e = Ok (firstn (Z.to_nat e) l).
Proof.
  intros l s e Hs He. split.
  - exists (elements l s e). split; [apply vsub_spec; exact Hs|]. intros j. unfold elements. destruct (Z.leb_spec e s) as [L|L].
    + destruct (Z.ltb_spec (Z.of_nat j + s) e); [lia|]. destruct j; reflexivity.
    + destruct (Z.ltb_spec (Z.of_nat j + s) e) as [L2|L2].
      * rewrite nth_error_firstn_lt by lia. apply nth_error_skipn.
      * apply nth_error_firstn_ge. lia.
  - rewrite vsub_to_spec by exact He. f_equal. unfold elements. destruct (Z.leb_spec e 0) as [L|L].
    + replace e with 0 by lia. reflexivity.
    + rewrite Z.sub_0_r. reflexivity.
Qed.

(** assign replaces the element, growing the vector with default elements if needed; refused (std::length_error) if it
    would have to grow beyond the maximum size. All indices but 2^64-1. *)
Theorem C40_assign : forall dflt l i x, 0 <= i < 2 ^ 64 - 1 ->
  if (vmax <=? i) && (vlen l <=? i) then vassign dflt l i x = Throw LogicError
  else exists r, vassign dflt l i x = Ok r /\ vlen r = Z.max (vlen l) (i + 1) /\
         forall j, (Z.of_nat j < vlen r) ->
           nth_error r j = Some (if Z.of_nat j =? i then x else nth j l dflt).
Proof.
  intros dflt l i x H. rewrite vassign_spec by exact H. fold (vlen l). destruct (_ && _); [reflexivity|].
  set (n := Z.to_nat i). exists (set_at dflt l n x). split; [reflexivity|].
  assert (L1 : length (firstn n (l ++ repeat dflt n)) = n) by (rewrite firstn_length, app_length, repeat_length; lia).
  split.
  - unfold vlen, set_at. rewrite app_length, L1. cbn [length]. rewrite skipn_length. lia.
  - intros j Hj. unfold vlen, set_at in *. rewrite app_length, L1 in Hj. cbn [length] in Hj. rewrite skipn_length in Hj.
    destruct (Z.eqb_spec (Z.of_nat j) i) as [E|E].
    + replace j with n by lia. rewrite nth_error_app2 by lia. rewrite L1, Nat.sub_diag. reflexivity.
    + destruct (Nat.lt_ge_cases j n) as [C|C].
      * rewrite nth_error_app1 by lia. rewrite nth_error_firstn_lt by exact C.
        destruct (Nat.lt_ge_cases j (length l)) as [C2|C2].
        -- rewrite nth_error_app1 by exact C2. apply nth_error_nth'. exact C2.
        -- rewrite nth_error_app2 by exact C2. rewrite nth_overflow by exact C2. rewrite nth_error_repeat by lia. reflexivity.
      * rewrite nth_error_app2 by lia. rewrite L1. replace (j - n)%nat with (S (j - n - 1)) by lia. cbn [nth_error].
        rewrite nth_error_skipn. replace (S n + (j - n - 1))%nat with j by lia. apply nth_error_nth'. lia.
Qed.

(** insert puts the value before position [i]. *)
Theorem C40_insert : forall l i x, 0 <= i ->
  vinsert l i x = if vlen l <? i then Throw InvalidIterator else Ok (firstn (Z.to_nat i) l ++ [x] ++ skipn (Z.to_nat i) l).
Proof. intros. reflexivity. Qed.

(** Every program within the contract behaves like the machine of VecSpec.v on plain lists, and never runs into undefined
    behaviour. This covers C41's iterators as well. *)
Theorem C40_vector_programs : forall dflt ps, vprog_ok dflt avm_init ps ->
  vtrace dflt vm_init ps = avtrace dflt avm_init ps /\ ~ In UB (vtrace dflt vm_init ps).
Proof. intros dflt ps H. destruct (vtrace_sim dflt ps [] vm_init avm_init vrel_init H) as [E N]. rewrite E. auto. Qed.

(** assign at index 2^64-1: [i + 1] wraps to 0, the vector is emptied and then written behind its end. *)
Theorem C40_assign_wraps_refuted : forall dflt l x, vlen l < 2 ^ 64 -> vassign dflt l (2 ^ 64 - 1) x = UB.
Proof.
  intros dflt l x H. unfold vassign. destruct (Z.leb_spec (vlen l) (2 ^ 64 - 1)); [|lia].
  replace ((2 ^ 64 - 1 + 1) mod 2 ^ 64) with 0 by reflexivity. unfold resize. reflexivity.
Qed.

(** v += v hands std::vector::insert iterators into the vector itself. *)
Theorem C40_self_append_refuted : forall dflt l, In UB (vtrace dflt vm_init [VNew l; VConcat 0 0]).
Proof. intros. cbn. auto. Qed.

Example C40_nonvacuous :
  let ps : list vop := [VNew [1; 2; 3]; VSet 0 5 9; VSize 0; VGet 0 4; VGet 0 6; VIter 0 1; VInsert 0 0 7; VDeref 0; VPop 0; VClear 0; VDeref 0;
             VPop 0; VSub 0 3 1; VDestroy 0; VDeref 0] in
  vprog_ok 0 avm_init ps /\
  vtrace 0 vm_init ps = [Ok VONone; Ok VONone; Ok (VOVal 6); Ok (VOVal 0); Throw IndexError; Ok VONone; Ok VONone; Ok (VOVal 7); Ok VONone; Ok VONone;
                         Throw InvalidIterator; Throw IndexError; Ok (VOList []); Ok VONone; Throw InvalidIterator].
Proof.
  intros ps. unfold ps. split; [|vm_compute; reflexivity]. vprog_ok_tac.
Qed.

(** * C41: iterators *)

(** After any program within the contract, dereferencing any iterator obtained so far gives the element currently at its
    index in the vector it was made for, or throws InvalidIterator if there is none. *)
Fixpoint avrun (dflt : Z) (m : avm) (ps : list vop) : avm :=
  match ps with [] => m | p :: ps' => avrun dflt (res_state m (avstep dflt m p)) ps' end.

Lemma avtrace_app dflt m ps p : avtrace dflt m (ps ++ [p]) = avtrace dflt m ps ++ [res_obs (avstep dflt (avrun dflt m ps) p)].
Proof. revert m. induction ps as [|q ps IH]; intros m; [reflexivity|]. cbn. rewrite IH. reflexivity. Qed.
Lemma vprog_ok_app dflt m ps p : vprog_ok dflt m ps -> vop_ok (avrun dflt m ps) p -> vprog_ok dflt m (ps ++ [p]).
Proof. revert m. induction ps as [|q ps IH]; intros m H1 H2; cbn in *; [auto|]. destruct H1. auto. Qed.

Theorem C41_deref : forall dflt ps k, vprog_ok dflt avm_init ps ->
  let a := avrun dflt avm_init ps in
  (k < length (av_its a))%nat ->
  last (vtrace dflt vm_init (ps ++ [VDeref k])) UB =
    match avget a (fst (nth k (av_its a) (0%nat, 0))) with
    | Some l => match nth_error l (Z.to_nat (snd (nth k (av_its a) (0%nat, 0)))) with Some x => Ok (VOVal x) | None => Throw InvalidIterator end
    | None => Throw InvalidIterator
    end.
Proof.
  intros dflt ps k H a Hk. assert (P : vprog_ok dflt avm_init (ps ++ [VDeref k])) by (apply vprog_ok_app; [exact H|exact Hk]).
  destruct (C40_vector_programs dflt _ P) as [-> _]. rewrite avtrace_app, last_last. fold a. cbn [avstep].
  destruct (avget a _) as [l|]; [|reflexivity]. destruct (nth_error l _); reflexivity.
Qed.

(** Iterators of different vectors are not comparable; those of the same vector compare by position, whatever happened to
    the vector in between. *)
Theorem C41_compare : forall dflt ps k j, vprog_ok dflt avm_init ps ->
  let a := avrun dflt avm_init ps in
  (k < length (av_its a))%nat -> (j < length (av_its a))%nat ->
  let x := nth k (av_its a) (0%nat, 0) in let y := nth j (av_its a) (0%nat, 0) in
  last (vtrace dflt vm_init (ps ++ [VEq k j])) UB = (if Nat.eqb (fst x) (fst y) then Ok (VOBool (snd x =? snd y)) else Throw InvalidArgument) /\
  last (vtrace dflt vm_init (ps ++ [VLt k j])) UB = (if Nat.eqb (fst x) (fst y) then Ok (VOBool (snd x <? snd y)) else Throw InvalidArgument).
Proof.
  intros dflt ps k j H a Hk Hj x y. split.
  - assert (P : vprog_ok dflt avm_init (ps ++ [VEq k j])) by (apply vprog_ok_app; [exact H|split; assumption]).
    destruct (C40_vector_programs dflt _ P) as [-> _]. rewrite avtrace_app, last_last. fold a. cbn [avstep]. fold x y.
    destruct (Nat.eqb _ _); reflexivity.
  - assert (P : vprog_ok dflt avm_init (ps ++ [VLt k j])) by (apply vprog_ok_app; [exact H|split; assumption]).
    destruct (C40_vector_programs dflt _ P) as [-> _]. rewrite avtrace_app, last_last. fold a. cbn [avstep]. fold x y.
    destruct (Nat.eqb _ _); reflexivity.
Qed.

(** insert does not check whose iterator it is given: the iterator it returns then does not point to the inserted element. *)
Theorem C41_foreign_insert_refuted : exists ps dflt,
  vtrace dflt vm_init ps = [Ok VONone; Ok VONone; Ok VONone; Ok VONone; Ok (VOVal 1)] /\
  ps = [VNew [1]; VNew [2]; VIter 0 0; VInsert 1 0 9; VDeref 1].
Proof. eexists. exists 0. split; [|reflexivity]. vm_compute. reflexivity. Qed.

Example C41_nonvacuous :
  let ps : list vop := [VNew [1; 2]; VIter 0 1; VNew [5; 6; 7]; VAssign 0 1; VNext 0; VMoveAssign 0 1 []; VDestroy 1] in
  vprog_ok 0 avm_init ps /\ av_its (avrun 0 avm_init ps) = [(0%nat, 1); (0%nat, 2)] /\
  last (vtrace 0 vm_init (ps ++ [VDeref 1])) UB = Ok (VOVal 7).
Proof.
  intros ps. unfold ps. split; [|vm_compute; auto]. vprog_ok_tac.
Qed.
