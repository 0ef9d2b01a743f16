(** C78: conditional compilation includes what the conditions say. *)
From Verif Require Import Base StrModel StrSpec StrProofs BytesModel BytesSpec BytesProofs PreModel PreSpec PreProofs.
Open Scope Z_scope.

(** A condition is evaluated as documented; nothing else is accepted as a condition. *)
Theorem C78_condition : forall cs e,
  (forall b, condition cs e b -> parse_if cs e = Ok (Some b)) /\
  (plain_expr e -> forall b, parse_if cs e = Ok (Some b) -> condition cs e b).
Proof. intros cs e. split; [apply parse_if_ok|intros P b; apply parse_if_conv; exact P]. Qed.

(** A well-nested source with at most one @else per block and valid conditions where they matter compiles without errors,
    and the compiler sees exactly the text it should, in order. *)
Theorem C78_selects : forall cs l out, selects false cs true l out ->
  exists d, compile cs l = Ok d /\ d_seen d = out /\ d_errors d = 0%nat /\ expecting_directive (d_stack d) = false.
Proof.
  intros cs l out S1. eexists. split; [exact (proj1 (sel_run cs false) _ _ _ S1 [1] [] 0%nat eq_refl)|]. repeat split.
Qed.

(** Conversely, what compiles without errors and is closed is well-nested, up to repeated @else, and selected accordingly. *)
Theorem C78_accepts_iff : forall cs l out, Forall plain_item l ->
  ((exists d, compile cs l = Ok d /\ d_seen d = out /\ d_errors d = 0%nat /\ expecting_directive (d_stack d) = false) <->
   selects true cs true l out).
Proof.
  intros cs l out F. split.
  - intros (d & E & <- & E0 & X). apply compile_conv; auto.
  - intros S1. eexists. split; [exact (proj1 (sel_run cs true) _ _ _ S1 [1] [] 0%nat eq_refl)|]. repeat split.
Qed.

(** A source has at most one reading. *)
Theorem C78_unique : forall cs l o1 o2, selects true cs true l o1 -> selects true cs true l o2 -> o1 = o2.
Proof.
  intros cs l o1 o2 S1 S2.
  pose proof (proj1 (sel_run cs true) _ _ _ S1 [1] [] 0%nat eq_refl) as E1.
  pose proof (proj1 (sel_run cs true) _ _ _ S2 [1] [] 0%nat eq_refl) as E2. rewrite E1 in E2. injection E2 as ->. reflexivity.
Qed.

Lemma parse_if_no_ub cs e : parse_if cs e <> UB /\ (forall x, parse_if cs e = Throw x -> x = OutOfRange).
Proof.
  rewrite parse_if_eq. destruct (split_ws_ok e) as (l & E & W). rewrite E. cbn [bind].
  assert (A : forall w, w <> [] -> atoi_int w <> UB /\ forall x, atoi_int w = Throw x -> x = OutOfRange).
  { intros w N. unfold atoi_int, atoi_n. cbn [Z.ltb Z.compare Pos.compare Pos.compare_cont orb]. destruct w as [|c w]; [congruence|].
    set (sg := if c =? 45 then 1%nat else if c =? 43 then 1%nat else 0%nat).
    pose proof (digits_loop_ok (2 ^ 31) 10 (skipn sg (c :: w)) ltac:(lia) ltac:(lia) 0 ltac:(lia)) as D.
    pose proof (digits_loop_no_ub 10 (2 ^ 31) (2 ^ 31 / 10) (skipn sg (c :: w)) 0) as U.
    assert (DT : forall x, digits_loop 10 (2 ^ 31) (2 ^ 31 / 10) 0 (skipn sg (c :: w)) = Throw x -> x = OutOfRange).
    { intros x Hx. destruct (dval 10 0 (skipn sg (c :: w))) as [v|].
      - destruct (v <=? 2 ^ 31); rewrite D in Hx; congruence.
      - destruct D as [D|(v & k & D & _)]; rewrite D in Hx; congruence. }
    destruct (digits_loop 10 (2 ^ 31) (2 ^ 31 / 10) 0 (skipn sg (c :: w))) as [[v k]|x|]; cbn [bind fst snd].
    - destruct (sg + k =? 0)%nat; split; discriminate.
    - split; [discriminate|]. intros y Hy. injection Hy as <-. apply DT. reflexivity.
    - congruence. }
  assert (C : forall ng m, (forall w, In w m -> w <> []) -> parse_cmp cs ng m <> UB /\ (forall x, parse_cmp cs ng m = Throw x -> x = OutOfRange)).
  { intros ng m Hm. destruct m as [|id [|op [|value [|]]]]; unfold parse_cmp; try (split; discriminate).
    destruct (A value) as [A1 A2]; [apply Hm; simpl; auto|]. destruct (atoi_int value) as [[v k]|x|]; cbn [bind fst snd].
    - destruct (negb (k =? _)); split; discriminate.
    - split; [discriminate|]. intros y Hy. injection Hy as <-. apply A2. reflexivity.
    - congruence. }
  pose proof (words_nonempty _ _ W) as Hn.
  destruct l as [|w l]; [apply C; exact Hn|]. destruct (bytes_eqb w BANG); apply C; auto. intros w' Hw. apply Hn. simpl. auto.
Qed.

(** Whatever the source, the compiler does not read from an empty stack; only a number that is too large makes it throw. *)
Theorem C78_robust : forall cs l, compile cs l <> UB /\ (forall x, compile cs l = Throw x -> x = OutOfRange).
Proof.
  intros cs l. unfold compile. assert (N : d_stack drv_init <> []) by discriminate. revert N. generalize drv_init.
  induction l as [|i l IH]; intros d N; cbn [drv_run]; [split; discriminate|].
  assert (St : match drv_step cs d i with Ok d' => d_stack d' <> [] | Throw x => x = OutOfRange | UB => False end).
  { destruct i as [t|n r]; cbn [drv_step]; [destruct (d_ignore d); exact N|].
    assert (PL : match process_line cs (d_stack d) n (trim r ws) with Ok (Some st) => st <> [] | Ok None => True | Throw x => x = OutOfRange | UB => False end).
    { unfold process_line. destruct (d_stack d) as [|x st]; [congruence|]. cbn [including bind].
      destruct (bytes_eqb n AT_IF).
      - destruct (x =? 1); [|discriminate]. pose proof (parse_if_no_ub cs (trim r ws)) as [P1 P2].
        destruct (parse_if cs (trim r ws)) as [[b|]| |]; cbn [bind]; [discriminate|exact Logic.I|apply P2; reflexivity|congruence].
      - destruct (bytes_eqb n AT_ELSE).
        + destruct (negb _); [exact Logic.I|]. destruct (length (x :: st) =? 1)%nat; [exact Logic.I|]. destruct (0 <=? x); discriminate.
        + destruct (bytes_eqb n AT_ENDIF); [|exact Logic.I]. destruct (negb _); [exact Logic.I|].
          destruct (length (x :: st) =? 1)%nat eqn:L; [exact Logic.I|]. destruct st; [discriminate L|discriminate]. }
    destruct (process_line cs (d_stack d) n (trim r ws)) as [[st|]|x|]; cbn [bind]; [|exact N|exact PL|exact PL].
    destruct st as [|y st]; [congruence|]. cbn [including bind]. cbn. discriminate. }
  destruct (drv_step cs d i) as [d'|x|]; cbn [bind]; [apply IH; exact St| |contradiction].
  split; [discriminate|]. intros y Hy. injection Hy as <-. exact St.
Qed.

(** ** Where the code deviates *)
Definition ID_X : bytes := [88].
Definition SP (a b : bytes) : bytes := a ++ [32] ++ b.

(** A second @else does not cause an error: it includes the text again. *)
Theorem C78_two_else_refuted : ~ (forall cs l d, compile cs l = Ok d -> d_errors d = 0%nat -> expecting_directive (d_stack d) = false ->
  selects false cs true l (d_seen d)).
Proof.
  intros H.
  pose (l := [Directive AT_IF ID_X; Text [97]; Directive AT_ELSE []; Text [98]; Directive AT_ELSE []; Text [99]; Directive AT_ENDIF []]).
  specialize (H [(ID_X, 1)] l _ eq_refl eq_refl eq_refl). unfold l in H. clear l.
  (* a well-nested part does not have an @else before its first @if *)
  assert (K : forall on cs l o, selects false cs on l o -> forall t w r, l = Text t :: Directive AT_ELSE w :: r -> False).
  { intros on cs l o S1 t w r ->. inversion S1 as [|? ? ? ? S2|]; subst. inversion S2. }
  inversion H as [| |on e b blk o1 l0 o2 C B S2 E1 E2]; subst. clear H.
  inversion B as [? ? ? body o w Sb W|? ? body p1 w rest p2 Sb W Br]; subst.
  - rewrite <- app_assoc in H0. cbn [app] in H0.
    destruct body as [|i1 [|i2 body]]; cbn in H0; [discriminate|discriminate|]. injection H0 as -> -> _. eapply (K _ _ _ _ Sb); eauto.
  - rewrite <- app_assoc in H0. cbn [app] in H0.
    destruct body as [|i1 [|i2 body]]; cbn in H0; [discriminate| |injection H0 as -> -> _; eapply (K _ _ _ _ Sb); eauto].
    injection H0 as -> -> H0.
    inversion Br as [? ? ? body o w' Sb' W'|]; subst. rewrite <- app_assoc in H0. cbn [app] in H0.
    destruct body as [|i1 [|i2 body]]; cbn in H0; [discriminate|discriminate|]. injection H0 as -> -> _. eapply (K _ _ _ _ Sb'); eauto.
Qed.

(** An @if that is never closed does not cause an error: the rest of the source is dropped silently. *)
Theorem C78_unclosed_refuted : ~ (forall cs l d, compile cs l = Ok d -> d_errors d = 0%nat -> expecting_directive (d_stack d) = false).
Proof. intros H. specialize (H [] [Directive AT_IF ID_X; Text [97]; Text [98]] _ eq_refl eq_refl). discriminate H. Qed.

(** 2^31 is taken for -2^31, a lone sign for zero; larger values are not reported but throw. *)
Theorem C78_value_refuted :
  ~ (forall cs e b, parse_if cs e = Ok (Some b) -> condition cs e b) /\
  parse_if [(ID_X, - 2 ^ 31)] (SP ID_X (SP [61; 61] [50; 49; 52; 55; 52; 56; 51; 54; 52; 56])) = Ok (Some true) /\
  parse_if [(ID_X, 1)] (SP ID_X (SP [60] [51; 48; 48; 48; 48; 48; 48; 48; 48; 48])) = Throw OutOfRange.
Proof.
  split; [|split; vm_compute; reflexivity]. intros H.
  specialize (H [(ID_X, 0)] (SP ID_X (SP [61; 61] [45])) true ltac:(vm_compute; reflexivity)).
  assert (W : words (SP ID_X (SP [61; 61] [45])) [ID_X; [61; 61]; [45]]) by (apply split_ws_words; vm_compute; reflexivity).
  assert (NB : forall w, ~ numeral 10 [45] w).
  { intros w N. apply numeral_bytes in N. destruct N as [_ N]. apply N. reflexivity. }
  inversion H as [l b W' Hd C|l b W' C]; subst.
  - rewrite <- (words_unique _ _ W _ W') in C. inversion C; subst. eapply NB; eauto.
  - pose proof (words_unique _ _ W _ W') as X. discriminate.
Qed.

(** "!" without a blank behind it is part of the identifier: the condition is false whatever the value of X is. *)
Theorem C78_bang_refuted : ~ (forall cs v, id_value cs ID_X v -> parse_if cs (BANG ++ ID_X) = Ok (Some (v =? 0))).
Proof. intros H. specialize (H [(ID_X, 0)] 0 eq_refl). vm_compute in H. discriminate. Qed.

(** ** A case that meets the hypotheses *)
Definition example_source (x : bytes) : list item :=
  [Text [97]; Directive AT_IF (SP [32; 33] (SP ID_X (SP [62; 61] [49; 48]))); Text [98];
     Directive AT_IF ID_X; Text [99]; Directive AT_ELSE [9]; Text [100]; Directive AT_ENDIF [];
   Directive AT_ELSE []; Text [101]; Directive AT_IF x; Text [102]; Directive AT_ENDIF [32]; Directive AT_ENDIF []; Text [103]].
Example C78_example : forall x, selects false [(ID_X, 3)] true (example_source x) [[97]; [98]; [99]; [103]].
Proof.
  intros x. unfold example_source. apply (sel_text false _ true [97] _ [[98]; [99]; [103]]).
  apply (sel_if false _ true _ true
    [Text [98]; Directive AT_IF ID_X; Text [99]; Directive AT_ELSE [9]; Text [100]; Directive AT_ENDIF []; Directive AT_ELSE []; Text [101]; Directive AT_IF x; Text [102]; Directive AT_ENDIF [32]; Directive AT_ENDIF []]
    [[98]; [99]] [Text [103]] [[103]]).
  - intros _. apply (cond_not _ _ [ID_X; [62; 61]; [49; 48]] false); [apply split_ws_words; vm_compute; reflexivity|].
    apply (cmp_full _ _ _ _ (fun a b => a >= b) 3 10); [reflexivity|constructor|apply num_plain; apply (digits_more 10 [49] 48 1 0); [constructor; [reflexivity|lia]|reflexivity|lia]|lia|cbn; lia|].
    split; [discriminate|lia].
  - apply (br_else false _ true true
      [Text [98]; Directive AT_IF ID_X; Text [99]; Directive AT_ELSE [9]; Text [100]; Directive AT_ENDIF []] [[98]; [99]] []
      [Text [101]; Directive AT_IF x; Text [102]; Directive AT_ENDIF [32]; Directive AT_ENDIF []] []).
    + apply (sel_text false _ true [98] _ [[99]]).
      apply (sel_if false _ true _ true [Text [99]; Directive AT_ELSE [9]; Text [100]; Directive AT_ENDIF []] [[99]] [] []); [| |constructor].
      * intros _. apply (cond_plain _ _ [ID_X] true); [apply split_ws_words; vm_compute; reflexivity|discriminate|].
        apply (cmp_short _ _ 3); [reflexivity|split; [lia|reflexivity]].
      * apply (br_else false _ true true [Text [99]] [[99]] [9] [Text [100]; Directive AT_ENDIF []] []).
        -- apply (sel_text false _ true [99] [] []). constructor.
        -- constructor; [simpl; auto|constructor].
        -- apply (br_end false _ true false false [Text [100]] [] []); [|constructor]. apply (sel_text false _ false [100] [] []). constructor.
    + constructor.
    + apply (br_end false _ true false false [Text [101]; Directive AT_IF x; Text [102]; Directive AT_ENDIF [32]] [] []); [|constructor].
      apply (sel_text false _ false [101] _ []).
      apply (sel_if false _ false x true [Text [102]; Directive AT_ENDIF [32]] [] [] []); [discriminate| |constructor].
      apply (br_end false _ false true true [Text [102]] [] [32]); [|constructor; [simpl; auto|constructor]]. apply (sel_text false _ false [102] [] []). constructor.
  - apply (sel_text false _ true [103] [] []). constructor.
Qed.
