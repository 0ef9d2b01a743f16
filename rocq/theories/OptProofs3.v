(* A simulation theorem for transformations of function bodies that are justified by facts at the nodes of the
   control-flow graph.  It is used for all the passes. *)
From Coq Require Import List Arith Bool ZArith Lia.
From Verif Require Import OptModel OptSpec OptProofs1 OptProofs2.
Import ListNotations.

Lemma pair_inj {A B} (a a' : A) (b b' : B) : (a, b) = (a', b') -> a = a' /\ b = b'.
Proof. intros H. now injection H. Qed.

Definition node_of (s : stmt) : option gnode :=
  match s with
  | SAssign l _ _ | SExpr l _ | SAssert l _ | SReturn l _ | SThrow l (Some _) => Some (NStmt l)
  | SDecl _ x _ => Some (NDecl x)
  | _ => None
  end.
Definition ocons (o : option stmt) (r : stmts) : stmts := match o with Some s => SCons s r | None => r end.

Section Sim.
Variable W : Type.
Variables L L' : lang W.
Notation state := (state W).
Variable E : list (gnode * gnode).
Variable end_ : gnode.
Variable Vp : list var.
Variables IN OUT : list var -> gnode -> state -> state -> Prop.
Variable XR : state -> state -> Prop.
Variables excL excR : exc -> Prop.

Inductive reach : gnode -> Prop :=
| reach_start : reach NStart
| reach_edge p n : reach p -> In (p, n) E -> reach n.

Variable H_edge : forall V p n s s', reach p -> In (p, n) E -> OUT V p s s' -> IN V n s s'.
Variable H_flow : forall V k s s', IN V (NFlow k) s s' -> OUT V (NFlow k) s s'.
Variable H_end : forall V V' k sc s s', IN V (NEnd k sc) s s' -> incl V' V -> (forall x, In x V' -> ~ In x sc) ->
  (forall x, In x V -> In x V' \/ In x sc) -> incl Vp V' -> OUT V' (NEnd k sc) s s'.
(* Which variables may be forgotten behind an if or while. *)
Variable wk : list var -> list var -> Prop.
Variable H_weak : forall V V' n s s', IN V n s s' -> incl V' V -> wk V V' -> IN V' n s s'.
Variable Hend0 : exists sc, end_ = NEnd 0 sc.

Definition exec_opt (n : nat) (o : option stmt) (s : state) : outcome W :=
  match o with Some c => exec W L' n c s | None => ONorm s end.

(* One of the two sides fails with an exception that excuses everything. *)
Definition free (l r : outcome W) : Prop :=
  (exists x t, l = OThr x t /\ excL x) \/ (exists y t, r = OThr y t /\ excR y).

(* Primitive statements at node n. *)
Definition pmatch (V V' : list var) (n : gnode) (l r : outcome W) : Prop :=
  free l r \/
  match l with
  | ONorm s => exists s', r = ONorm s' /\ OUT V' n s s'
  | ORet v s => exists s', r = ORet v s' /\ OUT V n s s'
  | OThr x s => exists s', r = OThr x s' /\ XR s s'
  | _ => False
  end.
Definition prim_ok (V : list var) (n : gnode) (s : stmt) (o : option stmt) (V' : list var) : Prop :=
  forall m σ σ', IN V n σ σ' -> pmatch V V' n (exec W L m s σ) (exec_opt m o σ').
(* Conditions. *)
Definition cfree (l r : res W Z) : Prop :=
  (exists x t, l = RExc x t /\ excL x) \/ (exists y t, r = RExc y t /\ excR y).
Definition cmatch (V : list var) (n : gnode) (l r : res W Z) : Prop :=
  cfree l r \/
  match l with
  | RVal v s => exists s', r = RVal v s' /\ OUT V n s s'
  | RExc x s => exists s', r = RExc x s' /\ XR s s'
  end.
Definition cond_ok (V : list var) (n : gnode) (c c' : expr) : Prop :=
  forall σ σ', IN V n σ σ' -> cmatch V n (eval W L c σ) (eval W L' c' σ').
Definition init_stmt (i : option (var * expr)) : option stmt :=
  match i with Some (x, e) => Some (SDecl 0 x (Some e)) | None => None end.
Definition init_ok (V : list var) (i i' : option (var * expr)) (V1 : list var) : Prop :=
  match i with
  | Some (x, e) => incl V V1 /\ incl V1 (x :: V) /\ (reach (NDecl x) -> prim_ok V (NDecl x) (SDecl 0 x (Some e)) (init_stmt i') V1)
  | None => i' = None /\ V1 = V
  end.
Definition disj (V sc : list var) : Prop := forall x, In x V -> ~ In x sc.

Inductive tr : list var -> stmt -> option stmt -> list var -> Prop :=
| tr_prim V V' s n o : node_of s = Some n -> incl V V' -> incl V' (decls_stmt s ++ V) -> (reach n -> prim_ok V n s o V') -> tr V s o V'
| tr_if V V1 V2 V3 V4 i i' l c c' t t' hasf f f' :
    init_ok V i i' V1 -> (reach (NStmt l) -> cond_ok V1 (NStmt l) c c') ->
    trs V1 t t' V2 -> trs V1 f f' V3 -> disj V1 (decls t) -> disj V1 (decls f) ->
    incl V V4 -> incl V4 V1 -> wk V1 V4 ->
    tr V (SIf i l c t hasf f) (Some (SIf i' l c' t' hasf f')) V4
| tr_while V V1 V2 V3 V4 i i' l c c' b b' hase e e' :
    init_ok V i i' V1 -> (reach (NStmt l) -> cond_ok V1 (NStmt l) c c') ->
    trs V1 b b' V2 -> trs V1 e e' V3 -> disj V1 (decls b) -> disj V1 (decls e) ->
    incl V V4 -> incl V4 V1 -> wk V1 V4 ->
    tr V (SWhile i l c b hase e) (Some (SWhile i' l c' b' hase e')) V4
| tr_block V V' b b' : trs V b b' V' -> disj V (decls b) -> tr V (SBlock b) (Some (SBlock b')) V
| tr_if_dead V i l c t hasf f o : ~ reach (NStmt l) -> tr V (SIf i l c t hasf f) o V
| tr_while_dead V i l c b hase e o : ~ reach (NStmt l) -> tr V (SWhile i l c b hase e) o V
with trs : list var -> stmts -> stmts -> list var -> Prop :=
| trs_nil V : trs V SNil SNil V
| trs_cons V V1 V2 s o r r' :
    is_control s = false -> tr V s o V1 -> trs V1 r r' V2 -> trs V (SCons s r) (ocons o r') V2
| trs_ctl V V1 s o r r' : is_control s = true -> tr V s o V1 -> trs V (SCons s r) (ocons o r') V1.

Scheme tr_ind2 := Induction for tr Sort Prop with trs_ind2 := Induction for trs Sort Prop.

Lemma tr_incl : forall V s o V', tr V s o V' -> incl V V'.
Proof. intros V s o V' H. destruct H; auto using incl_refl. Qed.
Lemma trs_incl V s o V' (H : trs V s o V') : incl V V'.
Proof.
  induction H; auto using incl_refl.
  - eapply incl_tran; [eapply tr_incl; eauto | auto].
  - eapply tr_incl; eauto.
Qed.
Lemma init_decls V i i' V1 : init_ok V i i' V1 -> forall x, In x V1 -> In x V \/ In x (match i with Some (x, _) => [x] | None => [] end).
Proof.
  destruct i as [[y e]|]; simpl.
  - intros (_ & H & _) x Hx. apply H in Hx as [-> | Hx]; simpl; auto.
  - intros [_ ->]. auto.
Qed.
Lemma tr_decls V s o V' : tr V s o V' -> forall x, In x V' -> In x V \/ In x (decls_stmt s).
Proof.
  intros H x Hx. destruct H; auto.
  - apply H1, in_app_iff in Hx as [Hx | Hx]; auto.
  - apply H6 in Hx. destruct (init_decls _ _ _ _ H x Hx); auto. right. cbn. apply in_app_iff. auto.
  - apply H6 in Hx. destruct (init_decls _ _ _ _ H x Hx); auto. right. cbn. apply in_app_iff. auto.
Qed.
Lemma trs_decls V ss ss' V' (H : trs V ss ss' V') : forall x, In x V' -> In x V \/ In x (decls ss).
Proof.
  induction H; intros x Hx; auto; cbn [decls].
  - rewrite in_app_iff. apply IHtrs in Hx as [Hx | Hx]; auto. destruct (tr_decls _ _ _ _ H0 x Hx); auto.
  - rewrite in_app_iff. destruct (tr_decls _ _ _ _ H0 x Hx); auto.
Qed.

Definition omatch (V : list var) (q : option gnode) (l r : outcome W) : Prop :=
  free l r \/
  match l with
  | ONorm s => exists s' q', r = ONorm s' /\ q = Some q' /\ q' <> end_ /\ reach q' /\ OUT V q' s s'
  | ORet v s => exists s' V', r = ORet v s' /\ incl Vp V' /\ IN V' end_ s s'
  | OThr x s => exists s', r = OThr x s' /\ XR s s'
  | OFuel => r = OFuel
  | _ => False
  end.

Definition wloop (Lx : lang W) (n : nat) c b (hase : bool) e :=
 fix loop (k : nat) (s : state) {struct k} : outcome W :=
           match k with
           | 0 => OFuel
           | S k =>
               obind W (eval W Lx c s) (fun v s =>
                 if truth v then
                   match execs W Lx n b s with
                   | ONorm s | OCont s => loop k s
                   | OBrk s => ONorm s
                   | o => o
                   end
                 else if hase then execs W Lx n e s else ONorm s)
           end.
Lemma exec_while (Lx : lang W) n i l c b hase e s : exec W Lx n (SWhile i l c b hase e) s =
  exec_init W Lx i s (fun s => wloop Lx n c b hase e n s).
Proof. reflexivity. Qed.
Lemma exec_if (Lx : lang W) n i l c t hasf f s : exec W Lx n (SIf i l c t hasf f) s =
  exec_init W Lx i s (fun s => obind W (eval W Lx c s) (fun v s =>
        if truth v then execs W Lx n t s else if hasf then execs W Lx n f s else ONorm s)).
Proof. reflexivity. Qed.
Lemma execs_cons (Lx : lang W) n c r s : execs W Lx n (SCons c r) s = oseq W (exec W Lx n c s) (fun s => execs W Lx n r s).
Proof. reflexivity. Qed.
Lemma wloop_S (Lx : lang W) n c b hase e k s : wloop Lx n c b hase e (S k) s =
               obind W (eval W Lx c s) (fun v s =>
                 if truth v then
                   match execs W Lx n b s with
                   | ONorm s | OCont s => wloop Lx n c b hase e k s
                   | OBrk s => ONorm s
                   | o => o
                   end
                 else if hase then execs W Lx n e s else ONorm s).
Proof. reflexivity. Qed.
Lemma execs_ocons n o r s : execs W L' n (ocons o r) s = oseq W (exec_opt n o s) (fun s => execs W L' n r s).
Proof. destruct o; reflexivity. Qed.

Lemma free_seq l r k k' : free l r -> free (oseq W l k) (oseq W r k').
Proof. intros [(x & t & -> & H) | (x & t & -> & H)]; [left | right]; exists x, t; auto. Qed.
Lemma free_bind l r k k' : cfree l r -> free (obind W l k) (obind W r k').
Proof. intros [(x & t & -> & H) | (x & t & -> & H)]; [left | right]; exists x, t; auto. Qed.
Lemma exec_init_stmt (Lx : lang W) m i s k :
  exec_init W Lx i s k = oseq W (match init_stmt i with Some c => exec W Lx m c s | None => ONorm s end) k.
Proof. destruct i as [[x e]|]; cbn [exec_init init_stmt exec]; auto. now destruct (eval W Lx e s). Qed.

Definition P_s (V : list var) (s : stmt) (o : option stmt) (V' : list var) : Prop :=
  forall p send c q c', add_stmt end_ s (Some p) send c = (q, c') -> 0 < c_next c -> incl (c_edges c') E ->
    reach p -> p <> end_ -> incl Vp V -> forall n σ σ', OUT V p σ σ' ->
    omatch V' q (exec W L n s σ) (exec_opt n o σ').
Definition P_ss (V : list var) (ss ss' : stmts) (V' : list var) : Prop :=
  forall p send scope c q c', add_stmts end_ ss (Some p) send scope c = (q, c') -> 0 < c_next c -> incl (c_edges c') E ->
    reach p -> p <> end_ -> incl Vp V -> forall n σ σ', OUT V p σ σ' ->
    omatch V' q (execs W L n ss σ) (execs W L' n ss' σ').

Lemma incl_edges c c' : cle c c' -> incl (c_edges c') E -> incl (c_edges c) E.
Proof. intros (_ & _ & H) H'. eapply incl_tran; eauto. Qed.
Lemma next_pos c c' : cle c c' -> 0 < c_next c -> 0 < c_next c'.
Proof. intros (H & _) ?. lia. Qed.
Lemma fresh_end k sc : 0 < k -> NEnd k sc <> end_.
Proof. intros H. destruct Hend0 as (s0 & ->). intros E0. injection E0 as -> _. lia. Qed.
Lemma stmt_end l : NStmt l <> end_.
Proof. destruct Hend0 as (s0 & ->). discriminate. Qed.
Lemma flow_end l : NFlow l <> end_.
Proof. destruct Hend0 as (s0 & ->). discriminate. Qed.
Lemma decl_end l : NDecl l <> end_.
Proof. destruct Hend0 as (s0 & ->). discriminate. Qed.
Lemma add_edge_E a b c c' : add_edge end_ (Some a) (Some b) c = c' -> a <> end_ -> incl (c_edges c') E -> In (a, b) E.
Proof. intros <- H1 H2. apply H2. now apply add_edge_in. Qed.
Lemma add_stmts_le ss pred send scope c q c' : add_stmts end_ ss pred send scope c = (q, c') -> cle c c'.
Proof. destruct (add_le end_) as [_ H]. apply H. Qed.
Lemma add_stmt_le s pred send c q c' : add_stmt end_ s pred send c = (q, c') -> cle c c'.
Proof. destruct (add_le end_) as [H _]. apply H. Qed.
Lemma add_block_le' ss pred scope c q c' : add_block end_ ss pred scope c = (q, c') -> cle c c'.
Proof. apply add_block_le. intros ?????? H. eapply add_stmts_le; eauto. Qed.

(* A block: statements between a predecessor and the end of a scope. *)
Definition P_b (V : list var) (ss ss' : stmts) : Prop :=
  forall p c q c', add_block end_ ss (Some p) (decls ss) c = (q, c') -> 0 < c_next c -> incl (c_edges c') E ->
    reach p -> p <> end_ -> incl Vp V -> forall n σ σ', OUT V p σ σ' ->
    omatch V q (execs W L n ss σ) (execs W L' n ss' σ').

Lemma block_ok V ss ss' V' : incl V V' -> (forall x, In x V' -> In x V \/ In x (decls ss)) -> disj V (decls ss) -> P_ss V ss ss' V' -> P_b V ss ss'.
Proof.
  intros HV HVd HD IH p c q c' Hb Hn HE Hr Hp HVp n σ σ' HO.
  rewrite add_block_eq in Hb. dlet Hb. apply pair_inj in Hb as [<- Hb].
  pose proof H as H'. apply new_end_le in H' as [Hle ->].
  assert (HE1 : incl (c_edges c1) E) by (eapply incl_edges; [|exact HE]; rewrite <- Hb; apply add_edge_le).
  specialize (IH _ _ _ _ _ _ H0 (next_pos _ _ Hle Hn) HE1 Hr Hp HVp n σ σ' HO).
  destruct IH as [IH | IH]; [now left | right].
  destruct (execs W L n ss σ) as [s|s|s|v s|x s|]; simpl in *; auto.
  destruct IH as (s' & q' & -> & -> & Hq' & Hrq & HOq).
  pose proof (add_edge_E _ _ _ _ Hb Hq' HE) as He.
  exists s', (NEnd (c_next c) (decls ss)). repeat split; auto.
  - now apply fresh_end.
  - eapply reach_edge; [exact Hrq | exact He].
  - eapply H_end; [eapply H_edge; [exact Hrq | exact He | exact HOq] | auto | auto | auto | auto].
Qed.

Lemma add_init_ok i i' V V1 p c q c' : add_init end_ i (Some p) c = (q, c') -> init_ok V i i' V1 ->
  incl (c_edges c') E -> reach p -> p <> end_ ->
  exists p1, q = Some p1 /\ reach p1 /\ p1 <> end_ /\ incl V V1 /\
  forall n σ σ', OUT V p σ σ' ->
    pmatch V V1 p1 (match init_stmt i with Some c => exec W L n c σ | None => ONorm σ end) (exec_opt n (init_stmt i') σ') /\
    forall v s, (match init_stmt i with Some c => exec W L n c σ | None => ONorm σ end) <> ORet v s.
Proof.
  intros Ha Hi HE Hr Hp. destruct i as [[x e]|].
  - unfold add_init in Ha. pose proof (chain_edge _ _ _ _ _ _ Ha Hp) as He. apply chain_le in Ha as [_ ->].
    apply HE in He. destruct Hi as (Hinc & _ & Hi). assert (Hrx : reach (NDecl x)) by (eapply reach_edge; eauto).
    exists (NDecl x). split; [auto|]. split; [auto|]. split; [apply decl_end|]. split; [auto|].
    intros n σ σ' HO. split.
    + exact (Hi Hrx n σ σ' (H_edge _ _ _ _ _ Hr He HO)).
    + intros v s. cbn [init_stmt exec]. destruct (eval W L e σ); discriminate.
  - unfold add_init in Ha. apply pair_inj in Ha as [<- <-]. destruct Hi as [-> ->]. exists p.
    split; [auto|]. split; [auto|]. split; [auto|]. split; [apply incl_refl|].
    intros n σ σ' HO. split; [|discriminate]. right. simpl. eauto.
Qed.

Lemma sim_if V V1 V2 V3 V4 i i' l k k' t t' hasf f f' :
  init_ok V i i' V1 -> (reach (NStmt l) -> cond_ok V1 (NStmt l) k k') ->
  trs V1 t t' V2 -> trs V1 f f' V3 -> disj V1 (decls t) -> disj V1 (decls f) -> 
  incl V V4 -> incl V4 V1 -> wk V1 V4 ->
  P_ss V1 t t' V2 -> P_ss V1 f f' V3 ->
  P_s V (SIf i l k t hasf f) (Some (SIf i' l k' t' hasf f')) V4.
Proof.
  intros Hi Hc Tt Tf Dt Df HV4 HV41 HWk Pt Pf p send c q c' Ha Hn HE Hr Hp HVp n σ σ' HO.
  rewrite add_if in Ha. dlet Ha.
  assert (HE3 : incl (c_edges (add_edge end_ q3 (Some q2) c3)) E).
  { destruct hasf.
    - destruct (add_block end_ f q1 (decls f) _) as [q4 c4] eqn:H3. apply pair_inj in Ha as [_ Ha].
      eapply incl_edges; [|exact HE]. rewrite <- Ha. eapply cle_trans; [eapply add_block_le'; eauto | apply add_edge_le].
    - apply pair_inj in Ha as [_ Ha]. eapply incl_edges; [|exact HE]. rewrite <- Ha. apply add_edge_le. }
  assert (HE2 : incl (c_edges c3) E) by (eapply incl_edges; [apply add_edge_le | eauto]).
  assert (L2 : cle c2 c3) by (eapply add_block_le'; eauto).
  assert (L1 : cle c1 c2) by (apply new_flow_le in H1; tauto).
  assert (L0 : cle c0 c1) by (apply chain_le in H0; tauto).
  assert (L00 : cle c c0) by (eapply add_init_le; eauto).
  assert (HEc2 : incl (c_edges c2) E) by (eapply incl_edges; eauto).
  assert (HEc1 : incl (c_edges c1) E) by (eapply incl_edges; eauto).
  assert (HEc0 : incl (c_edges c0) E) by (eapply incl_edges; eauto).
  destruct (add_init_ok _ _ _ _ _ _ _ _ H Hi HEc0 Hr Hp) as (p1 & -> & Hr1 & Hp1 & HV1 & Hinit).
  pose proof (chain_edge _ _ _ _ _ _ H0 Hp1) as He1. apply HEc1 in He1.
  apply chain_le in H0 as [_ ->]. apply new_flow_le in H1 as [_ ->].
  assert (Hrl : reach (NStmt l)) by (eapply reach_edge; eauto).
  specialize (Hc Hrl).
  assert (HVp1 : incl Vp V1) by (eapply incl_tran; eauto).
  pose proof (block_ok V1 t t' V2 (trs_incl _ _ _ _ Tt) (trs_decls _ _ _ _ Tt) Dt Pt _ _ _ _ H2
                (next_pos _ _ L1 (next_pos _ _ L0 (next_pos _ _ L00 Hn))) HE2 Hrl (stmt_end l) HVp1) as Bt.
  assert (Bf : hasf = true -> forall n σ σ', OUT V1 (NStmt l) σ σ' -> exists q, omatch V1 q (execs W L n f σ) (execs W L' n f' σ')
     /\ forall q', q = Some q' -> q' <> end_ -> In (q', NFlow (c_next c1)) E).
  { intros ->. destruct (add_block end_ f (Some (NStmt l)) (decls f) _) as [q4 c4] eqn:H3. apply pair_inj in Ha as [_ Ha].
    assert (HE4 : incl (c_edges c4) E) by (eapply incl_edges; [|exact HE]; rewrite <- Ha; apply add_edge_le).
    intros n0 τ τ' HO'. exists q4. split.
    - eapply (block_ok V1 f f' V3 (trs_incl _ _ _ _ Tf) (trs_decls _ _ _ _ Tf) Df Pf _ _ _ _ H3); eauto using stmt_end.
      eapply next_pos; [apply add_edge_le|]. eapply next_pos; [exact L2|]. eapply next_pos; [exact L1|]. eauto using next_pos.
    - intros q' -> Hq'. eapply add_edge_E; eauto. }
  assert (Bn : hasf = false -> In (NStmt l, NFlow (c_next c1)) E).
  { intros ->. apply pair_inj in Ha as [_ Ha]. eapply add_edge_E; eauto using stmt_end. }
  assert (Hq : q = Some (NFlow (c_next c1))).
  { destruct hasf; [destruct (add_block end_ f _ (decls f) _)|]; apply pair_inj in Ha as [Ha _]; auto. }
  clear Ha. subst q.
  (* leaving through the mix node *)
  assert (Mix : forall q4 l r, omatch V1 q4 l r -> (forall q', q4 = Some q' -> q' <> end_ -> In (q', NFlow (c_next c1)) E) ->
            omatch V4 (Some (NFlow (c_next c1))) l r).
  { intros q4 lo ro [HM|HM] He; [now left | right]. destruct lo as [s|s|s|v s|x s|]; simpl in *; auto.
    destruct HM as (s' & q' & -> & -> & Hq' & Hrq & HOq).
    exists s', (NFlow (c_next c1)). specialize (He _ eq_refl Hq'). repeat split; auto using flow_end.
    - eapply reach_edge; [exact Hrq | exact He].
    - apply H_flow. eapply H_weak; [eapply H_edge; [exact Hrq | exact He | exact HOq] | auto | auto]. }
  unfold exec_opt. rewrite !exec_if.
  rewrite (exec_init_stmt L n), (exec_init_stmt L' n).
  destruct (Hinit n σ σ' HO) as [Hi1 Hi2]. unfold exec_opt in Hi1. clear Hinit.
  destruct Hi1 as [Hi1 | Hi1]; [left; now apply free_seq|].
  destruct (match init_stmt i with Some c => exec W L n c σ | None => ONorm σ end) as [s|s|s|v s|x s|]; try tauto;
    [|now destruct (Hi2 v s)|].
  2:{ right. destruct Hi1 as (s' & -> & Hx). simpl. eauto. }
  destruct Hi1 as (s' & -> & HO1). simpl.
  destruct (Hc s s' (H_edge _ _ _ _ _ Hr1 He1 HO1)) as [Hf | Hm]; [left; now apply free_bind|].
  destruct (eval W L k s) as [v s1 | x s1]; destruct Hm as (s1' & -> & Hm); simpl; [|right; simpl; eauto].
  destruct (truth v).
  - eapply Mix; [apply Bt; eauto|]. intros q' -> Hq'.
    eapply (add_edge_E q' (NFlow (c_next c1)) c3); eauto.
  - destruct hasf.
    + destruct (Bf eq_refl n _ _ Hm) as (q & HM & He). eapply Mix; eauto.
    + right. simpl. exists s1', (NFlow (c_next c1)). specialize (Bn eq_refl). repeat split; auto using flow_end.
      * eapply reach_edge; eauto.
      * apply H_flow. eapply H_weak; [eapply H_edge; [exact Hrl | exact Bn | exact Hm] | auto | auto].
Qed.

Lemma sim_while V V1 V2 V3 V4 i i' l k k' b b' hase e e' :
  init_ok V i i' V1 -> (reach (NStmt l) -> cond_ok V1 (NStmt l) k k') ->
  trs V1 b b' V2 -> trs V1 e e' V3 -> disj V1 (decls b) -> disj V1 (decls e) ->
  incl V V4 -> incl V4 V1 -> wk V1 V4 ->
  P_ss V1 b b' V2 -> P_ss V1 e e' V3 ->
  P_s V (SWhile i l k b hase e) (Some (SWhile i' l k' b' hase e')) V4.
Proof.
  intros Hi Hc Tt Tf Dt Df HV4 HV41 HWk Pt Pf p send c q c' Ha Hn HE Hr Hp HVp n σ σ' HO.
  rewrite add_while in Ha. dlet Ha.
  assert (HE3 : incl (c_edges (add_edge end_ q1 (Some q3) c3)) E).
  { destruct hase.
    - destruct (add_block end_ e q1 (decls e) _) as [q4 c4] eqn:H3. apply pair_inj in Ha as [_ Ha].
      eapply incl_edges; [|exact HE]. rewrite <- Ha. eapply cle_trans; [eapply add_block_le'; eauto | apply add_edge_le].
    - apply pair_inj in Ha as [_ Ha]. rewrite Ha. auto. }
  assert (HEc3 : incl (c_edges c3) E) by (eapply incl_edges; [|exact HE3]; apply add_edge_le).
  assert (L3 : cle (add_edge end_ q2 q1 c2) c3) by (apply new_flow_le in H2; tauto).
  assert (HEc2e : incl (c_edges (add_edge end_ q2 q1 c2)) E) by (eapply incl_edges; eauto).
  assert (HE2 : incl (c_edges c2) E) by (eapply incl_edges; [|exact HEc2e]; apply add_edge_le).
  assert (L2 : cle c1 c2) by (eapply add_block_le'; eauto).
  assert (L0 : cle c0 c1) by (apply chain_le in H0; tauto).
  assert (L00 : cle c c0) by (eapply add_init_le; eauto).
  assert (HEc1 : incl (c_edges c1) E) by (eapply incl_edges; eauto).
  assert (HEc0 : incl (c_edges c0) E) by (eapply incl_edges; eauto).
  destruct (add_init_ok _ _ _ _ _ _ _ _ H Hi HEc0 Hr Hp) as (p1 & -> & Hr1 & Hp1 & HV1 & Hinit).
  pose proof (chain_edge _ _ _ _ _ _ H0 Hp1) as He1. apply HEc1 in He1.
  apply chain_le in H0 as [_ ->]. apply new_flow_le in H2 as [_ ->].
  set (mix := NFlow (c_next (add_edge end_ q2 (Some (NStmt l)) c2))) in *.
  assert (Hrl : reach (NStmt l)) by (eapply reach_edge; eauto).
  specialize (Hc Hrl).
  assert (HVp1 : incl Vp V1) by (eapply incl_tran; eauto).
  pose proof (next_pos _ _ L0 (next_pos _ _ L00 Hn)) as Hn1.
  pose proof (block_ok V1 b b' V2 (trs_incl _ _ _ _ Tt) (trs_decls _ _ _ _ Tt) Dt Pt _ _ _ _ H1 Hn1 HE2 Hrl (stmt_end l) HVp1) as Bb.
  assert (Back : forall q', q2 = Some q' -> q' <> end_ -> In (q', NStmt l) E).
  { intros q' -> Hq'. apply HEc2e. now apply add_edge_in. }
  assert (Bf : hase = true -> forall n σ σ', OUT V1 (NStmt l) σ σ' -> exists q, omatch V1 q (execs W L n e σ) (execs W L' n e' σ')
     /\ forall q', q = Some q' -> q' <> end_ -> In (q', mix) E).
  { intros ->. destruct (add_block end_ e (Some (NStmt l)) (decls e) _) as [q4 c4] eqn:H3. apply pair_inj in Ha as [_ Ha].
    assert (HE4 : incl (c_edges c4) E) by (eapply incl_edges; [|exact HE]; rewrite <- Ha; apply add_edge_le).
    intros n0 τ τ' HO'. exists q4. split.
    - eapply (block_ok V1 e e' V3 (trs_incl _ _ _ _ Tf) (trs_decls _ _ _ _ Tf) Df Pf _ _ _ _ H3); eauto using stmt_end.
      eapply next_pos; [apply add_edge_le|]. eapply next_pos; [exact L3|]. eapply next_pos; [apply add_edge_le|].
      exact (next_pos _ _ L2 Hn1).
    - intros q' -> Hq'. exact (add_edge_E _ _ _ _ Ha Hq' HE). }
  assert (Bn : In (NStmt l, mix) E).
  { apply HE3. apply add_edge_in. apply stmt_end. }
  assert (Hq : q = Some mix).
  { destruct hase; [destruct (add_block end_ e _ (decls e) _)|]; apply pair_inj in Ha as [Ha _]; auto. }
  clear Ha. subst q.
  (* leaving through the mix node *)
  assert (Mix : forall q4 l r, omatch V1 q4 l r -> (forall q', q4 = Some q' -> q' <> end_ -> In (q', mix) E) ->
            omatch V4 (Some mix) l r).
  { intros q4 lo ro [HM|HM] He; [now left | right]. destruct lo as [s|s|s|v s|x s|]; simpl in *; auto.
    destruct HM as (s' & q' & -> & -> & Hq' & Hrq & HOq).
    exists s', mix. specialize (He _ eq_refl Hq'). split; [auto|]. split; [auto|]. split; [apply flow_end|]. split.
    - eapply reach_edge; [exact Hrq | exact He].
    - apply H_flow. eapply H_weak; [eapply H_edge; [exact Hrq | exact He | exact HOq] | auto | auto]. }
  unfold exec_opt. rewrite !exec_while.
  rewrite (exec_init_stmt L n), (exec_init_stmt L' n).
  destruct (Hinit n σ σ' HO) as [Hi1 Hi2]. unfold exec_opt in Hi1. clear Hinit.
  destruct Hi1 as [Hi1 | Hi1]; [left; now apply free_seq|].
  destruct (match init_stmt i with Some c => exec W L n c σ | None => ONorm σ end) as [s|s|s|v s|x s|]; try tauto;
    [|now destruct (Hi2 v s)|].
  2:{ right. destruct Hi1 as (s' & -> & Hx). simpl. eauto. }
  destruct Hi1 as (s' & -> & HO1). cbn [oseq].
  (* the loop *)
  assert (Loop : forall m s s', IN V1 (NStmt l) s s' ->
            omatch V4 (Some mix) (wloop L n k b hase e m s) (wloop L' n k' b' hase e' m s')).
  { induction m as [|m IH]; intros τ τ' HI; [right; reflexivity|].
    rewrite !wloop_S. destruct (Hc τ τ' HI) as [Hf | Hm]; [left; now apply free_bind|].
    destruct (eval W L k τ) as [v s1 | x s1]; destruct Hm as (s1' & -> & Hm); cbn [obind]; [|right; simpl; eauto].
    destruct (truth v).
    - specialize (Bb n s1 s1' Hm). destruct Bb as [Bb | Bb].
      { left. destruct Bb as [(x & t & -> & Hx) | (x & t & -> & Hx)]; [left | right]; exists x, t; auto. }
      destruct (execs W L n b s1) as [s2|s2|s2|v2 s2|x s2|]; cbn [omatch] in Bb; try tauto.
      + destruct Bb as (s2' & q' & -> & Eq & Hq' & Hrq & HOq). apply IH.
        eapply H_edge; [exact Hrq | exact (Back _ Eq Hq') | exact HOq].
      + destruct Bb as (s2' & V' & -> & HV' & HI'). right. simpl. eauto.
      + destruct Bb as (s2' & -> & HX). right. simpl. eauto.
      + rewrite Bb. right. reflexivity.
    - destruct hase.
      + destruct (Bf eq_refl n _ _ Hm) as (q & HM & He). eapply Mix; eauto.
      + right. cbn [omatch]. exists s1', mix. split; [auto|]. split; [auto|]. split; [apply flow_end|]. split.
        * eapply reach_edge; eauto.
        * apply H_flow. eapply H_weak; [eapply H_edge; [exact Hrl | exact Bn | exact Hm] | auto | auto]. }
  apply Loop. eapply H_edge; [exact Hr1 | exact He1 | exact HO1].
Qed.

Lemma prim_ret s n m σ v s1 : node_of s = Some n -> exec W L m s σ = ORet v s1 -> exists l e, s = SReturn l e.
Proof.
  intros Hn Ex. destruct s; simpl in Hn; try discriminate; eauto; exfalso.
  - cbn [exec] in Ex. destruct (eval W L e σ); discriminate.
  - cbn [exec] in Ex. destruct (eval W L e σ); discriminate.
  - destruct i; cbn [exec] in Ex; [destruct (eval W L e σ); discriminate | discriminate].
  - destruct e; [cbn [exec] in Ex; destruct (eval W L e σ); discriminate | discriminate].
  - cbn [exec] in Ex. destruct (eval W L e σ); simpl in Ex; [destruct (truth a); discriminate | discriminate].
Qed.
Lemma sim_prim V V' s n o : node_of s = Some n -> (reach n -> prim_ok V n s o V') -> P_s V s o V'.
Proof.
  intros Hn Hok p send c q c' Ha Hc HE Hr Hp HVp m σ σ' HO.
  (* the node follows its predecessor *)
  assert (Hx : exists q1 c1, chain end_ (Some p) n c = (q1, c1) /\
             (is_control s = false /\ q = Some n /\ c' = c1 \/ is_control s = true /\ exists t, c' = add_edge end_ (Some n) (Some t) c1 /\
              match s with SReturn _ _ => t = end_ | _ => True end)).
  { destruct s; simpl in Hn; try discriminate; try (destruct e; try discriminate);
      try (injection Hn as <-); cbn -[chain] in Ha.
    all: try (exists q, c'; split; [exact Ha | left; apply chain_le in Ha as [_ ->]; auto]; fail).
    all: destruct (chain end_ (Some p) (NStmt l) c) as [q1 c1] eqn:E1; exists q1, c1; split; auto; right; split; auto;
      pose proof E1 as E2; apply chain_le in E2 as [_ ->]; apply pair_inj in Ha as [_ Ha]; eauto. }
  destruct Hx as (q1 & c1 & E1 & Hx).
  assert (HE1 : incl (c_edges c1) E).
  { destruct Hx as [(_ & _ & ->) | (_ & t & -> & _)]; auto. eapply incl_edges; [apply add_edge_le | eauto]. }
  pose proof (chain_edge _ _ _ _ _ _ E1 Hp) as He. apply HE1 in He.
  assert (Hrn : reach n) by (eapply reach_edge; eauto).
  assert (Hne : n <> end_).
  { destruct s; simpl in Hn; try discriminate; try (destruct e; try discriminate); injection Hn as <-;
      auto using stmt_end, decl_end. }
  specialize (Hok Hrn m σ σ' (H_edge _ _ _ _ _ Hr He HO)).
  destruct Hok as [Hok | Hok]; [now left | right].
  destruct (exec W L m s σ) as [s1|s1|s1|v s1|x s1|] eqn:Ex; try tauto.
  - destruct Hok as (s' & Hs & Ho). destruct Hx as [(_ & -> & _) | (Hctl & _)].
    + exists s', n. auto.
    + exfalso. destruct s; simpl in Hctl; try discriminate; simpl in Hn; try discriminate; simpl in Ex;
        (destruct e; cbn [exec] in Ex; [destruct (eval W L e σ); discriminate | discriminate]).
  - destruct Hok as (s' & Hs & Ho). exists s', V. split; auto. split; auto.
    destruct (prim_ret _ _ _ _ _ _ Hn Ex) as (l & e & ->). destruct Hx as [(Hx & _) | (_ & t & -> & ->)]; [discriminate|].
    eapply H_edge; [exact Hrn | apply HE; apply add_edge_in; auto | auto].
Qed.

(* The condition of an if or while follows the predecessor of the statement. *)
Lemma dead_first i p c q c' l q1 c1 : add_init end_ i (Some p) c = (q, c') -> chain end_ q (NStmt l) c' = (q1, c1) ->
  incl (c_edges c1) E -> reach p -> p <> end_ -> reach (NStmt l).
Proof.
  intros Ha Hc HE Hr Hp. pose proof (chain_le _ _ _ _ _ _ Hc) as [Hle _].
  destruct i as [[x e]|]; unfold add_init in Ha.
  - pose proof (chain_edge _ _ _ _ _ _ Ha Hp) as He. apply chain_le in Ha as [Hle2 ->].
    pose proof (chain_edge _ _ _ _ _ _ Hc (decl_end x)) as He2.
    eapply reach_edge; [|apply HE; exact He2]. eapply reach_edge; [exact Hr|].
    eapply (incl_edges _ _ Hle HE); eauto.
  - apply pair_inj in Ha as [<- <-]. pose proof (chain_edge _ _ _ _ _ _ Hc Hp) as He.
    eapply reach_edge; eauto.
Qed.

Theorem sim : forall V ss ss' V', trs V ss ss' V' -> P_ss V ss ss' V'.
Proof.
  { apply (trs_ind2 (fun V s o V' _ => P_s V s o V') (fun V ss ss' V' _ => P_ss V ss ss' V')).
    - intros. eapply sim_prim; eauto.
    - intros. eapply sim_if; eauto.
    - intros. eapply sim_while; eauto.
    - intros V V' b b' Ht IH HD p send c q c' Ha Hn HE Hr Hp HVp n σ σ' HO. rewrite add_blk in Ha.
      eapply (block_ok V b b' V' (trs_incl _ _ _ _ Ht) (trs_decls _ _ _ _ Ht) HD IH); eauto.
    - intros V i l k t hasf f o Hd p send c q c' Ha Hn HE Hr Hp HVp n σ σ' HO. exfalso. apply Hd.
      pose proof (add_stmt_le _ _ _ _ _ _ Ha) as Hle. rewrite add_if in Ha. dlet Ha.
      assert (HEc1 : incl (c_edges c1) E).
      { assert (X : cle c1 c').
        { eapply cle_trans; [apply new_flow_le in H1 as [H1 _]; exact H1|].
          eapply cle_trans; [eapply add_block_le'; eauto|]. eapply cle_trans; [apply add_edge_le|].
          destruct hasf.
          - destruct (add_block end_ f q1 (decls f) _) as [q4 c4] eqn:H3. apply pair_inj in Ha as [_ <-].
            eapply cle_trans; [eapply add_block_le'; eauto | apply add_edge_le].
          - apply pair_inj in Ha as [_ <-]. apply add_edge_le. }
        eapply incl_edges; eauto. }
      eapply dead_first; eauto.
    - intros V i l k b hase e o Hd p send c q c' Ha Hn HE Hr Hp HVp n σ σ' HO. exfalso. apply Hd.
      rewrite add_while in Ha. dlet Ha.
      assert (HEc1 : incl (c_edges c1) E).
      { assert (X : cle c1 c').
        { eapply cle_trans; [eapply add_block_le'; eauto|]. eapply cle_trans; [apply add_edge_le|].
          eapply cle_trans; [apply new_flow_le in H2 as [H2 _]; exact H2|]. eapply cle_trans; [apply add_edge_le|].
          destruct hase.
          - destruct (add_block end_ e q1 (decls e) _) as [q4 c4] eqn:H3. apply pair_inj in Ha as [_ <-].
            eapply cle_trans; [eapply add_block_le'; eauto | apply add_edge_le].
          - apply pair_inj in Ha as [_ <-]. apply cle_refl. }
        eapply incl_edges; eauto. }
      eapply dead_first; eauto.
    - intros V p send scope c q c' Ha Hn HE Hr Hp HVp n σ σ' HO. apply pair_inj in Ha as [<- <-].
      right. simpl. exists σ', p. auto.
    - intros V V1 V2 s o r r' Hctl Ht IHs Hts IHr p send scope c q c' Ha Hn HE Hr Hp HVp n σ σ' HO.
      rewrite add_cons in Ha. dlet Ha. rewrite Hctl in Ha.
      pose proof (add_stmts_le _ _ _ _ _ _ _ Ha) as Hle1. pose proof (add_stmt_le _ _ _ _ _ _ H) as Hle0.
      specialize (IHs _ _ _ _ _ H Hn (incl_edges _ _ Hle1 HE) Hr Hp HVp n σ σ' HO).
      rewrite execs_cons, execs_ocons.
      destruct IHs as [IHs | IHs]; [left; now apply free_seq|].
      destruct (exec W L n s σ) as [s1|s1|s1|v s1|x s1|]; cbn [omatch] in IHs; try tauto.
      + destruct IHs as (s' & q' & -> & -> & Hq' & Hrq & HOq). cbn [oseq].
        eapply IHr; eauto; [eapply next_pos; eauto | eapply incl_tran; [exact HVp | eapply tr_incl; eauto]].
      + destruct IHs as (s' & V' & -> & HV' & HI'). right. simpl. eauto.
      + destruct IHs as (s' & -> & HX). right. simpl. eauto.
      + rewrite IHs. right. reflexivity.
    - intros V V1 s o r r' Hctl Ht IHs p send scope c q c' Ha Hn HE Hr Hp HVp n σ σ' HO.
      rewrite add_cons in Ha. dlet Ha. rewrite Hctl in Ha.
      pose proof (add_stmt_le _ _ _ _ _ _ H) as Hle0.
      assert (Hle : cle c0 c').
      { destruct r as [|s' r]; [apply pair_inj in Ha as [_ <-]; apply cle_refl|].
        dlet Ha. apply pair_inj in Ha as [_ <-]. apply new_end_le in H0 as [H0 _]. apply add_stmts_le in H1.
        apply new_flow_le in H2 as [H2 _]. eapply cle_trans; [exact H0|]. eapply cle_trans; [exact H1|].
        eapply cle_trans; [apply add_edge_le|]. eapply cle_trans; [exact H2|].
        eapply cle_trans; [apply add_edge_le|]. apply add_edge_le. }
      specialize (IHs _ _ _ _ _ H Hn (incl_edges _ _ Hle HE) Hr Hp HVp n σ σ' HO).
      rewrite execs_cons, execs_ocons.
      destruct IHs as [IHs | IHs]; [left; now apply free_seq|].
      destruct (exec W L n s σ) as [s1|s1|s1|v s1|x s1|] eqn:Ex; cbn [omatch] in IHs; try tauto.
      + exfalso. destruct s; simpl in Hctl; try discriminate; simpl in Ex; try discriminate;
        (destruct e; cbn [exec] in Ex; [destruct (eval W L e σ); discriminate | discriminate]).
      + destruct IHs as (s' & V' & -> & HV' & HI'). right. simpl. eauto.
      + destruct IHs as (s' & -> & HX). right. simpl. eauto.
      + rewrite IHs. right. reflexivity. }
Qed.
End Sim.
