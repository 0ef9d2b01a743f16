(* Removing statements: the translation that rm_stmts makes fits the simulation theorem. *)
From Coq Require Import List Arith Bool ZArith Lia.
From Verif Require Import OptModel OptSpec OptProofs1 OptProofs2 OptProofs3 OptProofs4.
Import ListNotations.

Scheme expr_mind := Induction for expr Sort Prop with args_mind := Induction for args Sort Prop.
Combined Scheme expr_mutind from expr_mind, args_mind.

(* The equations of eval. *)
Section Eqs.
Variable W : Type.
Variable L : lang W.
Lemma eval_const l c s : eval W L (EConst l c) s = RVal c s.
Proof. reflexivity. Qed.
Lemma eval_name l x s : eval W L (EName l x) s = RVal (get W L s x) (if moved W L l then set W L s x (poison W L x) else s).
Proof. reflexivity. Qed.
Lemma eval_un o e s : eval W L (EUn o e) s = bind W (eval W L e s) (fun v s => of_opt W (op1 W L o v) s).
Proof. reflexivity. Qed.
Lemma eval_bin o a b s : eval W L (EBin o a b) s =
  bind W (eval W L a s) (fun v s => bind W (eval W L b s) (fun w s => of_opt W (op2 W L o v w) s)).
Proof. reflexivity. Qed.
Lemma eval_not e s : eval W L (ENot e) s = bind W (eval W L e s) (fun v s => RVal (b2z (negb (truth v))) s).
Proof. reflexivity. Qed.
Lemma eval_and a b s : eval W L (EAnd a b) s =
  bind W (eval W L a s) (fun v s => if truth v then bind W (eval W L b s) (fun w s => RVal (b2z (truth w)) s) else RVal 0%Z s).
Proof. reflexivity. Qed.
Lemma eval_or a b s : eval W L (EOr a b) s =
  bind W (eval W L a s) (fun v s => if truth v then RVal 1%Z s else bind W (eval W L b s) (fun w s => RVal (b2z (truth w)) s)).
Proof. reflexivity. Qed.
Lemma eval_upd o x e s : eval W L (EUpd o x e) s =
  bind W (eval W L e s) (fun v s => bind W (of_opt W (op2 W L o (get W L s x) v) s) (fun w s => RVal w (set W L s x w))).
Proof. reflexivity. Qed.
Lemma eval_call f a s : eval W L (ECall f a) s =
      bind W (eval_args W L a s) (fun vs s =>
        let r := call W L f (map (arg_val W L s) vs) (glb s) (wld s) in
        let s' := write_outs W L {| loc := loc s; glb := cr_glb W r; wld := cr_wld W r |} (inouts a) (cr_outs W r) in
        match cr_exc W r with Some z => RExc (XCall z) s' | None => RVal (cr_val W r) s' end).
Proof. reflexivity. Qed.
Lemma eval_args_nil s : eval_args W L ANil s = RVal [] s.
Proof. reflexivity. Qed.
Lemma eval_args_in e a s : eval_args W L (AIn e a) s =
  bind W (eval W L e s) (fun v s => bind W (eval_args W L a s) (fun vs s => RVal (inl v :: vs) s)).
Proof. reflexivity. Qed.
Lemma eval_args_inout x a s : eval_args W L (AInOut x a) s = bind W (eval_args W L a s) (fun vs s => RVal (inr x :: vs) s).
Proof. reflexivity. Qed.
End Eqs.
Ltac ev := rewrite ?eval_const, ?eval_name, ?eval_un, ?eval_bin, ?eval_not, ?eval_and, ?eval_or, ?eval_upd, ?eval_call,
  ?eval_args_nil, ?eval_args_in, ?eval_args_inout.

(* ---- evaluation ---- *)
Section Eval.
Variable W : Type.
Variable L : lang W.
Notation state := (state W).
Variable HM : forall l, moved W L l = false.

Definition same_world (s s' : state) : Prop := glb s = glb s' /\ wld s = wld s'.
(* What agreed still agrees. *)
Definition kept (s s' t t' : state) : Prop :=
  same_world t t' /\ forall y, loc s y = loc s' y -> loc t y = loc t' y.
Definition agree (xs : list var) (s s' : state) : Prop := forall x, In x xs -> glob W L x = false -> loc s x = loc s' x.
Definition rmatch {A} (s s' : state) (r r' : res W A) : Prop :=
  match r, r' with
  | RVal v t, RVal v' t' => v = v' /\ kept s s' t t'
  | RExc x t, RExc x' t' => x = x' /\ kept s s' t t'
  | _, _ => False
  end.
Lemma kept_refl s s' : same_world s s' -> kept s s' s s'.
Proof. split; auto. Qed.
Lemma kept_trans s s' t t' u u' : kept s s' t t' -> kept t t' u u' -> kept s s' u u'.
Proof. intros [A B] [C D]. split; auto. Qed.
Lemma agree_kept xs s s' t t' : kept s s' t t' -> agree xs s s' -> agree xs t t'.
Proof. intros [_ H] A x Hx Hg. apply H. now apply A. Qed.
Lemma agree_app xs ys s s' : agree (xs ++ ys) s s' <-> agree xs s s' /\ agree ys s s'.
Proof.
  unfold agree. split.
  - intros H. split; intros x Hx; apply H, in_app_iff; auto.
  - intros [H1 H2] x Hx. apply in_app_iff in Hx as [Hx | Hx]; auto.
Qed.
Lemma rmatch_bind {A B} s s' (r r' : res W A) (k k' : A -> state -> res W B) :
  rmatch s s' r r' -> (forall v t t', kept s s' t t' -> rmatch t t' (k v t) (k' v t')) ->
  rmatch s s' (bind W r k) (bind W r' k').
Proof.
  intros H K. destruct r as [v t | x t], r' as [v' t' | x' t']; simpl in H; try tauto.
  - destruct H as [<- H]. specialize (K v t t' H). simpl. destruct (k v t), (k' v t'); simpl in *; try tauto;
      destruct K as [<- K]; split; auto; eapply kept_trans; eauto.
  - destruct H as [<- H]. simpl. auto.
Qed.
Lemma rmatch_val {A} s s' (v : A) : same_world s s' -> rmatch s s' (RVal v s) (RVal v s').
Proof. intros H. simpl. split; auto. now apply kept_refl. Qed.
Lemma rmatch_opt s s' o : same_world s s' -> rmatch s s' (of_opt W o s) (of_opt W o s').
Proof. intros H. destruct o; simpl; split; auto; now apply kept_refl. Qed.
Lemma get_agree x xs s s' : same_world s s' -> agree xs s s' -> In x xs -> get W L s x = get W L s' x.
Proof.
  intros [H _] A Hx. unfold get. destruct (glob W L x) eqn:G; [now rewrite H | now apply A].
Qed.
Lemma set_kept x v s s' : same_world s s' -> kept s s' (set W L s x v) (set W L s' x v).
Proof.
  intros [H1 H2]. unfold set. destruct (glob W L x).
  - split; [split; simpl; auto; now rewrite H1 | auto].
  - split; [split; simpl; auto|]. simpl. intros y Hy. unfold fupd. destruct (y =? x); auto.
Qed.
Lemma set_same x v s s' : same_world s s' -> glob W L x = false -> loc (set W L s x v) x = loc (set W L s' x v) x.
Proof. intros H G. unfold set. rewrite G. simpl. unfold fupd. now rewrite Nat.eqb_refl. Qed.
Lemma write_outs_kept xs : forall vs s s', same_world s s' -> kept s s' (write_outs W L s xs vs) (write_outs W L s' xs vs).
Proof.
  induction xs as [|x xs IH]; intros vs s s' H; simpl; [now apply kept_refl|]. destruct vs as [|v vs]; [now apply kept_refl|].
  pose proof (set_kept x v s s' H) as K. eapply kept_trans; [exact K|]. apply IH. apply K.
Qed.

Lemma eval_agree_mut :
  (forall e s s', same_world s s' -> agree (names e) s s' -> rmatch s s' (eval W L e s) (eval W L e s')) /\
  (forall a s s', same_world s s' -> agree (names_args a) s s' ->
     rmatch s s' (eval_args W L a s) (eval_args W L a s') /\
     (forall vs t, eval_args W L a s = RVal vs t -> forall x, In (inr x) vs -> In x (names_args a))).
Proof.
  apply expr_mutind.
  - intros l c s s' H A. now apply rmatch_val.
  - intros l x s s' H A. ev. rewrite HM. rewrite (get_agree x [x] s s'); simpl; auto. split; auto. now apply kept_refl.
  - intros o e IH s s' H A. ev. apply rmatch_bind; [now apply IH|]. intros v t t' K. apply rmatch_opt, K.
  - intros o a IHa b IHb s s' H A. ev. cbn [names names_args] in *. apply agree_app in A as [A1 A2]. apply rmatch_bind; [now apply IHa|].
    intros v t t' K. apply rmatch_bind; [apply IHb; [apply K | eapply agree_kept; eauto]|]. intros w u u' K2. apply rmatch_opt, K2.
  - intros e IH s s' H A. ev. apply rmatch_bind; [now apply IH|]. intros v t t' K. apply rmatch_val, K.
  - intros a IHa b IHb s s' H A. ev. cbn [names names_args] in *. apply agree_app in A as [A1 A2]. apply rmatch_bind; [now apply IHa|].
    intros v t t' K. destruct (truth v); [|apply rmatch_val, K].
    apply rmatch_bind; [apply IHb; [apply K | eapply agree_kept; eauto]|]. intros w u u' K2. apply rmatch_val, K2.
  - intros a IHa b IHb s s' H A. ev. cbn [names names_args] in *. apply agree_app in A as [A1 A2]. apply rmatch_bind; [now apply IHa|].
    intros v t t' K. destruct (truth v); [apply rmatch_val, K|].
    apply rmatch_bind; [apply IHb; [apply K | eapply agree_kept; eauto]|]. intros w u u' K2. apply rmatch_val, K2.
  - intros o x e IH s s' H A. ev. cbn [names names_args] in *. apply rmatch_bind; [apply IH; auto; intros y Hy; apply A; simpl; auto|].
    intros v t t' K. rewrite (get_agree x (x :: names e) t t'); [|apply K | eapply agree_kept; eauto | simpl; auto].
    apply rmatch_bind; [apply rmatch_opt, K|]. intros w u u' K2. simpl. split; auto. apply set_kept, K2.
  - intros f a IHa s s' H A. ev. destruct (IHa s s' H A) as [M1 M2].
    destruct (eval_args W L a s) as [vs t | x t] eqn:Ea, (eval_args W L a s') as [vs' t' | x' t']; simpl in M1; try tauto.
    + destruct M1 as [<- K]. cbn [bind]. cbv zeta.
      assert (Ev : map (arg_val W L t) vs = map (arg_val W L t') vs).
      { apply map_ext_in. intros [z | x] Hx; simpl; auto. eapply get_agree; [apply K | eapply agree_kept; eauto | eapply M2; eauto]. }
      destruct K as [[K1 K2] K3]. rewrite Ev, K1, K2.
      set (r := call W L f _ _ _). 
      set (u := {| loc := loc t; glb := cr_glb W r; wld := cr_wld W r |}).
      set (u' := {| loc := loc t'; glb := cr_glb W r; wld := cr_wld W r |}).
      assert (Ku : kept s s' u u') by (split; [split; reflexivity | simpl; auto]).
      pose proof (write_outs_kept (inouts a) (cr_outs W r) u u' (proj1 Ku)) as Kw.
      destruct (cr_exc W r); simpl; split; auto; eapply kept_trans; eauto.
    + destruct M1 as [<- K]. simpl. auto.
  - intros s s' H A. ev. split; [split; auto; now apply kept_refl|]. intros vs t E. injection E as <- <-. simpl. tauto.
  - intros e IHe a IHa s s' H A. ev. cbn [names_args] in *. apply agree_app in A as [A1 A2]. split.
    + apply rmatch_bind; [now apply IHe|]. intros v t t' K.
      apply rmatch_bind; [apply IHa; [apply K | eapply agree_kept; eauto]|]. intros w u u' K2. apply rmatch_val, K2.
    + intros vs t E x Hx. destruct (eval W L e s) as [v t1 | ? ?] eqn:Ee; [|discriminate]. simpl in E.
      destruct (eval_args W L a t1) as [ws t2 | ? ?] eqn:Ea; [|discriminate]. simpl in E. injection E as <- <-.
      destruct Hx as [Hx | Hx]; [discriminate|]. apply in_app_iff. right.
      pose proof (IHe s s' H A1) as Me. rewrite Ee in Me.
      destruct (eval W L e s') as [v' t1' | ? ?]; simpl in Me; [|tauto]. destruct Me as [_ K].
      eapply (proj2 (IHa t1 t1' (proj1 K) (agree_kept _ _ _ _ _ K A2))); eauto.
  - intros x a IHa s s' H A. ev. cbn [names_args] in *. assert (A2 : agree (names_args a) s s') by (intros y Hy; apply A; simpl; auto).
    split.
    + apply rmatch_bind; [now apply IHa|]. intros v t t' K. apply rmatch_val, K.
    + intros vs t E y Hy. destruct (eval_args W L a s) as [ws t2 | ? ?] eqn:Ea; [|discriminate]. simpl in E. injection E as <- <-.
      destruct Hy as [Hy | Hy]; [injection Hy as ->; simpl; auto|]. right.
      eapply (proj2 (IHa s s' H A2)); eauto.
Qed.
Lemma eval_agree e s s' : same_world s s' -> agree (names e) s s' -> rmatch s s' (eval W L e s) (eval W L e s').
Proof. apply eval_agree_mut. Qed.

(* An expression without call and update changes nothing and fails only in an operator. *)
Lemma eval_pure e : has_call e = false -> no_update e = true ->
  forall s, (exists v, eval W L e s = RVal v s) \/ eval W L e s = RExc XOp s.
Proof.
  intros Hc Hu. revert Hc Hu. apply (expr_mind
    (fun e => has_call e = false -> no_update e = true -> forall s, (exists v, eval W L e s = RVal v s) \/ eval W L e s = RExc XOp s)
    (fun _ => True)); auto; clear e; simpl.
  - intros l c _ _ s. ev. eauto.
  - intros l x _ _ s. ev. rewrite HM. eauto.
  - intros o e IH Hc Hu s. ev. destruct (IH Hc Hu s) as [(v & ->) | ->]; simpl; auto. destruct (op1 W L o v); simpl; eauto.
  - intros o a IHa b IHb Hc Hu s. ev. apply orb_false_iff in Hc as [Hc1 Hc2]. apply andb_true_iff in Hu as [Hu1 Hu2].
    destruct (IHa Hc1 Hu1 s) as [(v & ->) | ->]; simpl; auto. destruct (IHb Hc2 Hu2 s) as [(w & ->) | ->]; simpl; auto.
    destruct (op2 W L o v w); simpl; eauto.
  - intros e IH Hc Hu s. ev. destruct (IH Hc Hu s) as [(v & ->) | ->]; simpl; eauto.
  - intros a IHa b IHb Hc Hu s. ev. apply orb_false_iff in Hc as [Hc1 Hc2]. apply andb_true_iff in Hu as [Hu1 Hu2].
    destruct (IHa Hc1 Hu1 s) as [(v & ->) | ->]; simpl; auto. destruct (truth v); eauto.
    destruct (IHb Hc2 Hu2 s) as [(w & ->) | ->]; simpl; eauto.
  - intros a IHa b IHb Hc Hu s. ev. apply orb_false_iff in Hc as [Hc1 Hc2]. apply andb_true_iff in Hu as [Hu1 Hu2].
    destruct (IHa Hc1 Hu1 s) as [(v & ->) | ->]; simpl; auto. destruct (truth v); eauto.
    destruct (IHb Hc2 Hu2 s) as [(w & ->) | ->]; simpl; eauto.
  - discriminate.
  - discriminate.
Qed.
End Eval.

Lemma call_gen_mut :
  (forall e, incl (call_gen e) (names e)) /\ (forall a, incl (call_gen_args a) (names_args a)).
Proof.
  apply expr_mutind; simpl; intros; auto using incl_refl, incl_appl, incl_appr, incl_app_app, incl_tl.
  - intros y [-> | Hy]; simpl; auto.
Qed.
Lemma call_gen_names e : incl (call_gen e) (names e).
Proof. apply call_gen_mut. Qed.
Lemma no_call_gen e : has_call e = false -> call_gen e = [].
Proof.
  apply (expr_mind (fun e => has_call e = false -> call_gen e = []) (fun _ => True)); auto; simpl; try discriminate;
    intros; repeat match goal with H : _ || _ = false |- _ => apply orb_false_iff in H as [? ?] end;
    repeat match goal with H : ?x = false -> _, H' : ?x = false |- _ => rewrite (H H') end; auto.
Qed.
Lemma no_names_no_update e : has_call e = false -> names e = [] -> no_update e = true.
Proof.
  apply (expr_mind (fun e => has_call e = false -> names e = [] -> no_update e = true) (fun _ => True)); auto; simpl; try discriminate;
    intros; repeat match goal with H : _ || _ = false |- _ => apply orb_false_iff in H as [? ?] 
      | H : _ ++ _ = [] |- _ => apply app_eq_nil in H as [? ?] end; auto;
    repeat match goal with H : ?x = false -> ?y = [] -> _, H' : ?x = false, H'' : ?y = [] |- _ => rewrite (H H' H'') end; auto.
Qed.
Lemma indirect_no_update e : has_call e = false -> indirect e = [] -> no_update e = true.
Proof. intros Hc H. destruct e; auto; apply no_names_no_update; auto. Qed.

(* ---- rm_stmts, one statement at a time ---- *)
Definition rm1 (rm : gnode -> bool) (s : stmt) : option stmt :=
  match s with
  | SAssign l x e => if rm (NStmt l) then Some (SExpr l e) else Some s
  | SExpr l _ | SReturn l _ | SAssert l _ => if rm (NStmt l) then None else Some s
  | SThrow l (Some _) => if rm (NStmt l) then None else Some s
  | SThrow l None => Some s
  | SDecl l x i =>
      if rm (NDecl x) then match i with Some e => Some (SExpr l e) | None => None end else Some s
  | SIf i l c t hasf b =>
      if rm (NStmt l) then None else Some (SIf (rm_init rm i) l c (rm_stmts rm t) hasf (rm_stmts rm b))
  | SWhile i l c b hase e =>
      if rm (NStmt l) then None else Some (SWhile (rm_init rm i) l c (rm_stmts rm b) hase (rm_stmts rm e))
  | STry b c => Some (STry (rm_stmts rm b) (rm_stmts rm c))
  | SBlock b => Some (SBlock (rm_stmts rm b))
  | SBreak | SContinue => Some s
  end.
Lemma rm_cons rm s r : rm_stmts rm (SCons s r) = ocons (rm1 rm s) (rm_stmts rm r).
Proof.
  destruct s; cbn [rm_stmts rm1]; cbv zeta; try (destruct (rm (NStmt l)); reflexivity); try reflexivity.
  - destruct (rm (NDecl x)); [destruct i|]; reflexivity.
  - destruct e; [destruct (rm (NStmt l))|]; reflexivity.
Qed.

Lemma scoped_disj G : (forall s V, scoped G V s -> disj V (decls_stmt s)) /\ (forall ss V, scoped_of G V ss -> disj V (decls ss)).
Proof.
  apply stmt_mutind; simpl; try (intros; intros y Hy []; fail).
  - intros l x i V [[_ Hf] _] y Hy [<- | []]. auto.
  - intros i l c t IHt hasf f IHf V (Hi & _ & Ht & Hf) y Hy HI. apply in_app_iff in HI as [HI | HI].
    + destruct i as [[x e]|]; simpl in *; [|tauto]. destruct HI as [<- | []]. destruct Hi as [[_ Hi] _]. auto.
    + assert (Hy' : In y (with_init V i)) by (destruct i as [[x e]|]; simpl; auto).
      apply in_app_iff in HI as [HI | HI]; [eapply IHt | eapply IHf]; eauto.
  - intros i l c t IHt hasf f IHf V (Hi & _ & Ht & Hf) y Hy HI. apply in_app_iff in HI as [HI | HI].
    + destruct i as [[x e]|]; simpl in *; [|tauto]. destruct HI as [<- | []]. destruct Hi as [[_ Hi] _]. auto.
    + assert (Hy' : In y (with_init V i)) by (destruct i as [[x e]|]; simpl; auto).
      apply in_app_iff in HI as [HI | HI]; [eapply IHt | eapply IHf]; eauto.
  - intros b IHb c IHc V [Hb Hc] y Hy HI. apply in_app_iff in HI as [HI | HI]; [eapply IHb | eapply IHc]; eauto.
  - intros b IHb V H. now apply IHb.
  - intros s IHs r IHr V [H1 H2] y Hy HI. apply in_app_iff in HI as [HI | HI]; [eapply IHs; eauto|].
    eapply IHr; eauto. destruct s; simpl; auto.
Qed.

(* ---- a removal whose primitive statements are fine ---- *)
Section Rm.
Variable W : Type.
Variables L L' : lang W.
Variable E : list (gnode * gnode).
Variables IN OUT : list var -> gnode -> state W -> state W -> Prop.
Variable XR : state W -> state W -> Prop.
Variables excL excR : exc -> Prop.
Variable rm : gnode -> bool.
Variable G : var -> bool.
Variable I : list (gnode * transfer).
Variable P : stmt -> Prop.
Notation prim_ok := (prim_ok W L L' IN OUT XR excL excR).
Notation cond_ok := (cond_ok W L L' IN OUT XR excL excR).
Notation any := (fun _ _ : list var => True).
Notation trs := (trs W L L' E IN OUT XR excL excR any).
Notation tr := (tr W L L' E IN OUT XR excL excR any).
Variable H_prim : forall V s n, node_of s = Some n -> scoped G V s -> P s -> incl (info_stmt s) I -> reach E n ->
  prim_ok V n s (rm1 rm s) (declared V s).
Variable H_init : forall V x e, fresh G V x -> visible G V e -> incl [(NDecl x, tr_decl x (Some e))] I -> reach E (NDecl x) ->
  prim_ok V (NDecl x) (SDecl 0 x (Some e)) (init_stmt (rm_init rm (Some (x, e)))) (x :: V).
Variable H_cond : forall V l c, visible G V c -> In (NStmt l, tr_expr true c) I -> reach E (NStmt l) -> cond_ok V (NStmt l) c c.
Variable H_dead : forall l c, In (NStmt l, tr_expr true c) I -> rm (NStmt l) = true -> ~ reach E (NStmt l).

Lemma incl_app_l {A} (a b c : list A) : incl (a ++ b) c -> incl a c.
Proof. intros H x Hx. apply H, in_app_iff. auto. Qed.
Lemma incl_app_r {A} (a b c : list A) : incl (a ++ b) c -> incl b c.
Proof. intros H x Hx. apply H, in_app_iff. auto. Qed.
Lemma incl_cons_r {A} (a : A) b c : incl (a :: b) c -> incl b c.
Proof. intros H x Hx. apply H. simpl. auto. Qed.

Lemma rm_init_ok V i : sc_init G V i -> incl (init_info i) I ->
  init_ok W L L' E IN OUT XR excL excR V i (rm_init rm i) (with_init V i).
Proof.
  intros Hi HI. destruct i as [[x e]|]; simpl in *; [|auto]. destruct Hi as [Hf Hv].
  split; [intros y Hy; simpl; auto|]. split; [apply incl_refl|]. intros Hr. apply H_init; auto.
Qed.

Lemma rm_trs :
  (forall s V, scoped G V s -> each P s -> each no_jump s -> incl (info_stmt s) I -> tr V s (rm1 rm s) (declared V s)) /\
  (forall ss V, scoped_of G V ss -> each_of P ss -> each_of no_jump ss -> incl (info ss) I ->
     exists V', trs V ss (rm_stmts rm ss) V').
Proof.
  apply stmt_mutind.
  - intros l x e V Hs [Hp _] _ HI. eapply tr_prim; [reflexivity | apply incl_refl | apply incl_refl |]. intros Hr.
    apply (H_prim V (SAssign l x e)); auto.
  - intros l e V Hs [Hp _] _ HI. eapply tr_prim; [reflexivity | apply incl_refl | apply incl_refl |]. intros Hr.
    apply (H_prim V (SExpr l e)); auto.
  - intros l x i V Hs [Hp _] _ HI. eapply tr_prim; [reflexivity | simpl; apply incl_tl, incl_refl | apply incl_refl |]. intros Hr.
    apply (H_prim V (SDecl l x i)); auto.
  - intros i l c t IHt hasf f IHf V (Hi & Hc & Ht & Hf) (_ & Pt & Pf) (_ & Jt & Jf) HI. simpl in HI.
    assert (HIc : In (NStmt l, tr_expr true c) I) by (apply HI, in_app_iff; simpl; auto).
    pose proof (incl_cons_r _ _ _ (incl_app_r _ _ _ HI)) as HIr.
    destruct (IHt _ Ht Pt Jt (incl_app_l _ _ _ HIr)) as (Vt & Tt). destruct (IHf _ Hf Pf Jf (incl_app_r _ _ _ HIr)) as (Vf & Tf).
    simpl. destruct (rm (NStmt l)) eqn:R.
    + apply tr_if_dead. eapply H_dead; eauto.
    + eapply tr_if; eauto.
      * apply rm_init_ok; auto. now apply incl_app_l in HI.
      * now apply (scoped_disj G).
      * now apply (scoped_disj G).
      * apply incl_refl.
      * destruct i as [[x e]|]; simpl; [apply incl_tl|]; apply incl_refl.
  - intros i l c t IHt hasf f IHf V (Hi & Hc & Ht & Hf) (_ & Pt & Pf) (_ & Jt & Jf) HI. simpl in HI.
    assert (HIc : In (NStmt l, tr_expr true c) I) by (apply HI, in_app_iff; simpl; auto).
    pose proof (incl_cons_r _ _ _ (incl_app_r _ _ _ HI)) as HIr.
    destruct (IHt _ Ht Pt Jt (incl_app_l _ _ _ HIr)) as (Vt & Tt). destruct (IHf _ Hf Pf Jf (incl_app_r _ _ _ HIr)) as (Vf & Tf).
    simpl. destruct (rm (NStmt l)) eqn:R.
    + apply tr_while_dead. eapply H_dead; eauto.
    + eapply tr_while; eauto.
      * apply rm_init_ok; auto. now apply incl_app_l in HI.
      * now apply (scoped_disj G).
      * now apply (scoped_disj G).
      * apply incl_refl.
      * destruct i as [[x e]|]; simpl; [apply incl_tl|]; apply incl_refl.
  - intros b IHb c IHc V _ _ [[] _].
  - intros l o V Hs [Hp _] [Hj _] HI. destruct o as [e|]; [|destruct Hj].
    eapply tr_prim; [reflexivity | apply incl_refl | apply incl_refl |]. intros Hr. apply (H_prim V (SThrow l (Some e))); auto.
  - intros l o V Hs [Hp _] _ HI. eapply tr_prim; [reflexivity | apply incl_refl | apply incl_refl |]. intros Hr.
    apply (H_prim V (SReturn l o)); auto.
  - intros l e V Hs [Hp _] _ HI. eapply tr_prim; [reflexivity | apply incl_refl | apply incl_refl |]. intros Hr.
    apply (H_prim V (SAssert l e)); auto.
  - intros V _ _ [[] _].
  - intros V _ _ [[] _].
  - intros b IHb V Hs [_ Pb] [_ Jb] HI. destruct (IHb _ Hs Pb Jb HI) as (V' & T). simpl. eapply tr_block; eauto.
    now apply (scoped_disj G).
  - intros V _ _ _ _. exists V. constructor.
  - intros s IHs r IHr V [Hs Hr] [Ps Pr] [Js Jr] HI. simpl in HI. rewrite rm_cons.
    specialize (IHs _ Hs Ps Js (incl_app_l _ _ _ HI)). destruct (is_control s) eqn:C.
    + exists (declared V s). eapply trs_ctl; eauto.
    + destruct (IHr _ Hr Pr Jr (incl_app_r _ _ _ HI)) as (V' & T). exists V'. eapply trs_cons; eauto.
Qed.
End Rm.

(* Facts about the transfers. *)
Lemma transfer_of_in f n t : NoDup (map fst (info (f_body f))) -> In (n, t) (info (f_body f)) -> transfer_of f n = t.
Proof.
  intros HN Hi. unfold transfer_of.
  assert (find (fun p => gnode_eqb (fst p) n) (info (f_body f)) = Some (n, t)) as ->; auto.
  revert HN Hi. generalize (info (f_body f)). intros l HN Hi. induction l as [|[m u] l IH]; simpl in *; [tauto|].
  inversion HN as [|? ? H1 H2]; subst. destruct Hi as [Hi | Hi].
  - injection Hi as -> ->. now rewrite gnode_eqb_refl.
  - destruct (gnode_eqb m n) eqn:E; auto. apply gnode_eqb_ok in E. subst. destruct H1. apply in_map_iff. exists (n, t). auto.
Qed.
Lemma transfer_of_out f n : ~ In n (map fst (info (f_body f))) -> transfer_of f n = t_empty.
Proof.
  intros H. unfold transfer_of. destruct (find _ _) as [[m u]|] eqn:F; auto. apply find_some in F as [F1 F2].
  simpl in F2. apply gnode_eqb_ok in F2. subst. destruct H. apply in_map_iff. exists (n, u). auto.
Qed.
Lemma info_nodes : (forall s n t, In (n, t) (info_stmt s) -> is_meta n = false) /\ (forall ss n t, In (n, t) (info ss) -> is_meta n = false).
Proof.
  assert (X : forall i n t, In (n, t) (init_info i) -> is_meta n = false).
  { intros [[x e]|] n t; simpl; [|tauto]. intros [H | []]. injection H as <- <-. auto. }
  apply stmt_mutind; simpl; intros; repeat match goal with
    | H : _ \/ _ |- _ => destruct H
    | H : In _ (_ ++ _) |- _ => apply in_app_iff in H
    | H : In _ (_ :: _) |- _ => destruct H
    | H : (_, _) = (_, _) |- _ => injection H as <- <-
    | H : False |- _ => destruct H
    end; eauto.
  destruct e as [e|]; simpl in *; [|tauto]. destruct H as [H | []]. injection H as <- <-. auto.
Qed.
