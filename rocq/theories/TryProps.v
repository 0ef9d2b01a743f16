(** C80: backtracking with &try (doc/programming/parsing.rst:1780-1830). *)
From Verif Require Import Base SyncModel TryModel TrySpec TryProofs.

(** Parsing does what is documented, with and without trimming of the input, however deep &try fields and units are nested and wherever hooks
    backtrack: in particular the data backtracking goes back to is still there. *)
Theorem C80_documented : forall fs trim, tidy_fields fs -> doc_fields fs 0 [] (observed (parse_unit fs trim)).
Proof. intros fs trim T. apply (proj2 parse_doc fs trim t_init T). split; simpl; auto. Qed.

(** ... and there is only one documented outcome. *)
Theorem C80_unique : forall fs trim r, tidy_fields fs -> doc_fields fs 0 [] r -> observed (parse_unit fs trim) = r.
Proof. intros fs trim r T H. apply (proj2 (proj2 doc_unique) fs 0 [] r H T). apply C80_documented. assumption. Qed.

(** Where nothing backtracks, &try makes no difference. *)
Theorem C80_transparent : forall fs trim, tidy_fields fs ->
  (forall p, ~ In (TBack p) (tr_of (observed (parse_unit fs trim)))) ->
  observed (parse_unit (no_try fs) trim) = observed (parse_unit fs trim).
Proof.
  intros fs trim T H. apply C80_unique; [apply tidy_no_try; assumption|].
  apply doc_no_try; [|exact H]. apply C80_documented. assumption.
Qed.

(** Whatever atomic parsers do with look-ahead, and whatever hooks do: data that is needed has not been trimmed. *)
Theorem C80_data_kept : forall fs trim, forward_fields fs -> forall s, parse_unit fs trim <> TExn XInvalid s.
Proof.
  intros fs trim F s E. pose proof (proj2 parse_kept fs trim t_init F (le_n 0)) as K. unfold parse_unit in E. rewrite E in K. apply K. reflexivity.
Qed.

(** Backtracking ends at the most recent &try: it does not leave a field with &try (unless by the field's own %error hook), whatever is parsed inside,
    including error recovery; parsing goes on with the next field, from where the field had begun. *)
Theorem C80_most_recent : forall h err b fs trim s, (forall tr, err tr <> ABack) ->
  (forall s', parse_fields (FCons true h err b FNil) trim s <> TExn XBack s') /\
  (forall s1, after_field h (parse_body b false s) = TExn XBack s1 ->
     exists s2, parse_fields (FCons true h err b fs) trim s = parse_fields fs trim s2 /\ t_pos s2 = t_pos s).
Proof.
  intros h err b fs trim s NB. split.
  - intro s'. cbn [parse_fields]. destruct (after_field h (parse_body b false s)) as [s1|e s1]; simpl; [discriminate|].
    destruct e; simpl; try discriminate; unfold on_error; destruct (err (t_tr s1)) eqn:E; simpl; try discriminate; exfalso; eapply NB; exact E.
  - intros s1 E. cbn [parse_fields]. rewrite E. simpl. eexists. split; [reflexivity|]. rewrite trim_pos. reflexivity.
Qed.

(** ** Example: the one of the manual. *)
Definition no_hook (tr : list tev) : act := ANone.
Definition int8 (D : list Z) : leafp := fun p _ _ => if Nat.ltb p (length D) then LOk (S p) SNone 0 else LFail.
(** a: int8 { if ( $$ != 1 ) self.backtrack(); } *)
Definition is_one (D : list Z) (tr : list tev) : act :=
  match tr with TParsed p _ :: _ => if Z.eqb (nth p D 0%Z) 1 then ANone else ABack | _ => ANone end.
Definition foo_bar (D : list Z) : fields :=
  FCons true no_hook no_hook (BUnit (FCons false (is_one D) no_hook (BLeaf (int8 D)) (FCons false no_hook no_hook (BLeaf (int8 D)) FNil)) no_hook)
    (FCons false no_hook no_hook (BUnit (FCons false no_hook no_hook (BLeaf (int8 D)) (FCons false no_hook no_hook (BLeaf (int8 D)) FNil)) no_hook) FNil).
Lemma int8_tidy D : tidy_leaf (int8 D).
Proof. intros p e e'. unfold int8. destruct (Nat.ltb p (length D)); simpl; auto. Qed.
Example C80_manual : 
  (forall D, tidy_fields (foo_bar D)) /\
  observed (parse_unit (foo_bar [1;2;3;4]%Z) true) = DOk 4 [TParsed 3 4; TParsed 2 3; TParsed 1 2; TParsed 0 1] /\
  observed (parse_unit (foo_bar [3;4]%Z) true) = DOk 2 [TParsed 1 2; TParsed 0 1; TBack 0; TParsed 0 1].
Proof.
  split; [|split; reflexivity]. intro D. pose proof (int8_tidy D) as T.
  assert (N : forall t : bool, t = true -> forall tr, no_hook tr <> ABack) by (intros t _ tr; discriminate).
  simpl. refine (conj (N true) (conj _ (conj (N false) (conj _ Logic.I)))); refine (conj (N false) (conj T (conj (N false) (conj T Logic.I)))).
Qed.
(** Two &try, one in the other; the inner one is the most recent, and a unit's %error hook backtracks (to the outer one). *)
Example C80_nested :
  let D := [3;4]%Z in
  let inner := FCons true (is_one D) no_hook (BLeaf (int8 D)) (FCons false no_hook no_hook (BLeaf (fun _ _ _ => LFail)) FNil) in
  observed (parse_unit (FCons true no_hook no_hook (BUnit inner (fun _ => ABack)) (FCons false no_hook no_hook (BLeaf (int8 D)) FNil)) true) =
    DOk 1 [TParsed 0 1; TBack 0; TFailed 0; TBack 0; TParsed 0 1].
Proof. reflexivity. Qed.

(** ** Where the code does not do what is documented *)

(** Literals as in SyncModel.v. *)
Definition lit_leaf (D : list (option Z)) (t : tok) : leafp := fun p a e =>
  match literal D false t (mkP p 0 a e false []) with
  | Done s => LOk (p_pos s) (p_lah s) (if lah_set (p_lah s) then p_lahe s else 0) | Fail _ => LFail | Fatal => LOther end.
(** Backtracking resets the position but not the look-ahead that has been found since, for a place that may be behind that position; the next literal is
    compared with it and fails.
    unit { x: (b"A")[] &try { self.backtrack(); }  : b"A"; } on "AB", the list ends with the look-ahead symbol b"B". *)
Theorem C80_stale_look_ahead_refuted : 
  let D := [Some 65%Z; Some 66%Z] in
  let list_A : leafp := fun p a e => match lit_leaf D (TBytes 1 [65%Z]) p a e with LOk q SNone _ => LOk q (STok 2) (S q) | r => r end in
  let fs := FCons true (fun _ => ABack) no_hook (BLeaf list_A) (FCons false no_hook no_hook (BLeaf (lit_leaf D (TBytes 1 [65%Z]))) FNil) in
  doc_fields fs 0 [] (DOk 1 [TParsed 0 1; TBack 0; TParsed 0 1]) /\
  observed (parse_unit fs true) = DExn XParse [TFailed 0; TBack 0; TParsed 0 1].
Proof.
  cbv zeta. split; [|vm_compute; reflexivity].
  eapply d_try.
  - eapply d_field_hook; [eapply d_leaf with (e := 0); vm_compute; reflexivity|reflexivity].
  - eapply d_cons; [|apply d_nil]. eapply d_field; [|reflexivity]. eapply d_leaf with (e := 0). vm_compute. reflexivity.
Qed.

(** The %error hook of a field runs outside of the field's &try: backtracking from there leaves the field. *)
Theorem C80_field_error_refuted : exists fs,
  doc_fields fs 0 [] (DOk 1 [TParsed 0 1; TBack 0; TFailed 0]) /\ observed (parse_unit fs true) = DExn XBack [TFailed 0].
Proof.
  exists (FCons true no_hook (fun _ => ABack) (BLeaf (fun _ _ _ => LFail)) (FCons false no_hook no_hook (BLeaf (int8 [1%Z])) FNil)).
  split; [|reflexivity].
  eapply d_try_err with (e := XParse); [|discriminate|reflexivity|].
  - apply d_field_exn. eapply d_leaf_fail with (e := 0). reflexivity.
  - eapply d_cons; [|apply d_nil]. eapply d_field; [|reflexivity]. eapply d_leaf with (e := 0). reflexivity.
Qed.

(** Backtracking is caught by error recovery on the way, as if it was a parse error, and does not reach the &try; without &synchronize it does. *)
Theorem C80_synchronize_refuted : exists D g rest search,
  let fs b := FCons true no_hook no_hook (BUnit (FCons false no_hook no_hook b FNil) no_hook) FNil in
  (exists s, parse_unit (fs (BUnit g no_hook)) true = TDone s /\ In (TBack 0) (t_tr s) /\ t_pos s = 0) /\
  (exists s, parse_unit (fs (BSync g search rest)) true = TDone s /\ t_tr s = [TParsed 1 2; TParsed 0 1]) /\
  g = FCons false (is_one D) no_hook (BLeaf (int8 D)) FNil.
Proof.
  exists [3;4]%Z, (FCons false (is_one [3;4]%Z) no_hook (BLeaf (int8 [3;4]%Z)) FNil), (FCons false no_hook no_hook (BLeaf (int8 [3;4]%Z)) FNil), (fun p => Some p).
  cbv zeta. split; [|split; [|reflexivity]].
  - eexists. split; [vm_compute; reflexivity|]. split; [simpl; auto|reflexivity].
  - eexists. split; vm_compute; reflexivity.
Qed.
