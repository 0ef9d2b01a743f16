(** C52: constant folding preserves meaning. *)
From Verif Require Import Base IntModel TimeModel FoldModel FoldSpec FoldProofs FoldProofs2.
Open Scope Z_scope.

(** In all statements: [si], [sm] stand for the conversion of seconds to nanoseconds, [env] and [op] for the leaves and
    operators that are not folded, [uneg] for [-] on an unsigned integer at run time. *)

(** a setting for the examples *)
Definition ex_secs (s : src) (z : Z) : res Z := if z <=? 9223372036 then Ok (z * 1000000000) else Throw OutOfRange.
Definition ex_env (n : nat) : value := VOther n.
Definition ex_op (n : nat) (a b : value) : res value := Ok (VOther n).
Definition ex_uneg (w : width) (z : Z) : res Z := if in_range true w (- z) then Ok (- z) else Throw Overflow.
Definition ex_style : style := mkStyle true false false false.

(** If an expression is replaced by a constant and evaluating the expression gives a value, that value is the constant. *)
Theorem C52_constant_is_the_value : forall si sm env op uneg st e c v, neg_ok uneg e ->
  fold_expression si sm st e = Ok (Some c) -> eval si sm env op uneg e = Ok v -> v = c.
Proof.
  intros si sm env op uneg st e c v N F E. apply fe_fc in F.
  destruct (fold_agrees si sm env op uneg st e c v N F E) as [-> _]. reflexivity.
Qed.

(** (uint8(200) -> int16) negated, compared in a ternary; interval of a conversion *)
Definition ex_e1 : expr := EIval (SInt true) Secs (ENeg true (EGroup (EConv false true W16 (ECtor (VInt false W8 200))))).
Example C52_constant_is_the_value_ex :
  neg_ok ex_uneg ex_e1 /\ fold_expression ex_secs ex_secs ex_style ex_e1 = Ok (Some (VIval (- 200000000000))) /\
  eval ex_secs ex_secs ex_env ex_op ex_uneg ex_e1 = Ok (VIval (- 200000000000)).
Proof. split; [left; reflexivity|]. split; vm_compute; reflexivity. Qed.

(** Folding a whole expression terminates, and where evaluating the expression gives a value, evaluating the folded
    expression gives the same value. *)
Theorem C52_fold_preserves_values : forall si sm env op uneg G O st e k n, typed G O e k -> neg_ok uneg e ->
  (nodes e < n)%nat ->
  fold_loop si sm n st e false <> Ok None /\
  forall e' err v, fold_loop si sm n st e false = Ok (Some (e', err)) ->
    eval si sm env op uneg e = Ok v -> eval si sm env op uneg e' = Ok v.
Proof.
  intros si sm env op uneg G O st e k n T N L.
  pose proof (loop_good si sm env op uneg G O st n e k false T N L) as R. unfold loop_result in R. split.
  - intros E. rewrite E in R. exact R.
  - intros e' err v E V. rewrite E in R. destruct R as (_ & R & _). exact (R v V).
Qed.

(** x || (!true && y), with a foldable part, inside an operator that is not folded *)
Definition ex_e2 : expr :=
  EOp 3 (ETern (EOr (ECtor (VBool false)) (ENot (ECtor (VBool false)))) (EConv false false W8 (ECtor (VInt false W64 7))) (EVar 1)) (ex_e1).
Definition ex_G (n : nat) : kind := KInt false W8.
Example C52_fold_preserves_values_ex :
  typed ex_G (fun _ => KOther) ex_e2 KOther /\ neg_ok ex_uneg ex_e2 /\
  fold_loop ex_secs ex_secs 20 ex_style ex_e2 false =
    Ok (Some (EOp 3 (ETern (ECtor (VBool true)) (ECtor (VInt false W8 7)) (EVar 1)) (ECtor (VIval (- 200000000000))), false)) /\
  eval ex_secs ex_secs ex_env ex_op ex_uneg ex_e2 = Ok (VOther 3).
Proof.
  split; [|split; [left; reflexivity|split; vm_compute; reflexivity]].
  change KOther with ((fun _ : nat => KOther) 3%nat) at 2. apply T_op with (k1 := KInt false W8) (k2 := KIval).
  - apply T_tern; [apply T_or; [exact (T_ctor _ _ (VBool false))|apply T_not; exact (T_ctor _ _ (VBool false))]| |].
    + apply T_conv with (w' := W64). exact (T_ctor _ _ (VInt false W64 7)).
    + exact (T_var ex_G _ 1%nat).
  - apply T_ival_i with (w := W16). apply T_neg. apply T_group. apply T_conv with (w' := W8). exact (T_ctor _ _ (VInt false W8 200)).
Qed.

(** Compile-time errors are justified: the folder reports one (or runs into undefined behaviour) only if the expression
    contains a part whose evaluation does not give a value. *)
Theorem C52_errors_are_justified : forall si sm env op uneg G O st e k n, typed G O e k -> neg_ok uneg e ->
  (nodes e < n)%nat ->
  ((exists e', fold_loop si sm n st e false = Ok (Some (e', true))) \/ fold_loop si sm n st e false = UB) ->
  exists x, sub x e /\ fails (eval si sm env op uneg x).
Proof.
  intros si sm env op uneg G O st e k n T N L H.
  pose proof (loop_good si sm env op uneg G O st n e k false T N L) as R. unfold loop_result in R.
  destruct H as [[e' E]|E]; rewrite E in R; [|exact R].
  destruct R as (_ & _ & R & _). destruct (R eq_refl) as [X|X]; [discriminate|exact X].
Qed.

(** uint64(-1) *)
Definition ex_e3 : expr := EConv true false W64 (ECtor (VInt true W8 (-1))).
Example C52_errors_are_justified_ex :
  typed ex_G (fun _ => KOther) ex_e3 (KInt false W64) /\ fold_loop ex_secs ex_secs 5 ex_style ex_e3 false = Ok (Some (ex_e3, true)).
Proof. split; [|vm_compute; reflexivity]. apply T_conv with (w' := W8). exact (T_ctor _ _ (VInt true W8 (-1))). Qed.

(** One operator at a time no run-time error is hidden: if the operands have values and the operator fails on them, the
    folder reports an error, does not fold, or produces a constant that the validator rejects. *)
Theorem C52_step_hides_nothing : forall si sm env op uneg st e c, neg_ok uneg e ->
  (forall x, In x (operands e) -> exists v, eval si sm env op uneg x = Ok v) ->
  fails (eval si sm env op uneg e) -> fold_expression si sm st e = Ok (Some c) -> valid c = false.
Proof.
  intros si sm env op uneg st e c N H F E. destruct (valid c) eqn:V; [|reflexivity].
  apply fe_fc in E. exfalso. exact (F c (no_hiding_step si sm env op uneg st e c N H E V)).
Qed.

(** int8(200): folded to a constant that is rejected *)
Definition ex_e4 : expr := EConv false true W8 (ECtor (VInt false W64 200)).
Example C52_step_hides_nothing_ex :
  eval ex_secs ex_secs ex_env ex_op ex_uneg ex_e4 = Throw Overflow /\
  fold_expression ex_secs ex_secs ex_style ex_e4 = Ok (Some (VInt true W8 200)) /\ valid (VInt true W8 200) = false.
Proof. repeat split; vm_compute; reflexivity. Qed.

(** The full claim is wrong: intermediate results are not checked, so folding hides run-time errors. uint32(uint8(300)) is
    folded to the valid constant 300, whatever the style; evaluating it throws Overflow. *)
Theorem C52_hides_errors_refuted : ~ (forall si sm env op uneg st e c, neg_ok uneg e ->
  fold_expression si sm st e = Ok (Some c) -> valid c = true -> eval si sm env op uneg e = Ok c).
Proof.
  intros H.
  specialize (H ex_secs ex_secs ex_env ex_op ex_uneg ex_style
                (EConv false false W32 (EConv false false W8 (ECtor (VInt false W64 300)))) (VInt false W32 300)
                (or_introl eq_refl) ltac:(vm_compute; reflexivity) ltac:(vm_compute; reflexivity)).
  vm_compute in H. discriminate.
Qed.

(** ... and negating the smallest int64 is undefined behaviour in the compiler, where the generated code throws. *)
Theorem C52_negate_min_refuted : forall si sm env op uneg st,
  let e := ENeg true (ECtor (VInt true W64 (- 2 ^ 63))) in
  fold_expression si sm st e = UB /\ eval si sm env op uneg e = Throw Overflow.
Proof. intros. split; vm_compute; reflexivity. Qed.

(** ... and a negated unsigned constant is folded to a negative number, which no unsigned integer is: a run-time negation
    that gives an unsigned integer (or throws) disagrees with the folded constant, for every constant but 0. *)
Theorem C52_negate_unsigned_refuted : forall si sm env op uneg st w z c,
  (forall r, uneg w z = Ok r -> 0 <= r) -> 0 < z ->
  fold_expression si sm st (ENeg false (ECtor (VInt false w z))) = Ok (Some c) ->
  eval si sm env op uneg (ENeg false (ECtor (VInt false w z))) <> Ok c.
Proof.
  intros si sm env op uneg st w z c H Z F E. cbn [fold_expression fold_const bind] in F. unfold safe_negate in F.
  destruct (i64_ok (- z)); [|discriminate]. cbn [rmap] in F. injection F; intros; subst.
  cbn [eval] in E. destruct (valid (VInt false w z)); [|discriminate]. cbn [bind] in E.
  destruct (uneg w z) as [r| |]; try discriminate. specialize (H r eq_refl). cbn [rmap] in E. injection E; intros; subst. lia.
Qed.
Example C52_negate_unsigned_ex :
  fold_expression ex_secs ex_secs ex_style (ENeg false (ECtor (VInt false W8 5))) = Ok (Some (VInt true W8 (-5))).
Proof. vm_compute. reflexivity. Qed.
