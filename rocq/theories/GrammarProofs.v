(** The classical least-fixpoint definitions of NULLABLE, FIRST and FOLLOW agree with derivations. *)
From Verif Require Import Base GrammarModel GrammarSpec.

Lemma alternative_iff g s rhs : alternative g s rhs <-> In rhs (rhss_of g s).
Proof.
  unfold rhss_of. split.
  - intros H. destruct H as [ps F|a b F|a b F|cs d c F I|cs d F|ps es F|ps es F N|b F|b F|b F]; rewrite F; cbn [rhss In]; auto.
    + apply in_or_app. left. apply in_map_iff. eauto.
    + apply in_or_app. right. left. reflexivity.
    + destruct es; [congruence|]. right. left. reflexivity.
  - destruct (find g s) as [p|] eqn:F; [|intros []]. destruct p as [ps|a b|cs d|ps es|b|b|b| | | |]; cbn [rhss]; intros H; try contradiction.
    + destruct H as [<- | []]. eapply alt_seq; eauto.
    + destruct H as [<- | [<- | []]]; [eapply alt_look1|eapply alt_look2]; eauto.
    + apply in_app_or in H. destruct H as [H | H].
      * apply in_map_iff in H. destruct H as (c & <- & I). eapply alt_case; eauto.
      * destruct d as [d|]; [|contradiction]. destruct H as [<- | []]. eapply alt_default; eauto.
    + destruct H as [<- | H]; [eapply alt_then; eauto|]. destruct es as [|e es]; [contradiction|]. destruct H as [<- | []]. eapply alt_else; [eauto|discriminate].
    + destruct H as [<- | []]. eapply alt_loop; eauto.
    + destruct H as [<- | []]. eapply alt_while; eauto.
    + destruct H as [<- | []]. eapply alt_enclosure; eauto.
Qed.
Lemma step_rhs g x s rhs y : In rhs (rhss_of g s) -> step g (x ++ s :: y) (x ++ rhs ++ y).
Proof. intros H. apply step_alt. apply alternative_iff. exact H. Qed.
Lemma cp_closed g : complete g -> forall s rhs x, In rhs (rhss_of g s) -> In x rhs -> find g x <> None.
Proof. intros C s rhs x R. apply alternative_iff in R. exact (cp_closed0 g C s rhs x R). Qed.
Ltac alts := repeat match goal with H : alternative _ _ _ |- _ => apply alternative_iff in H end.

Section G.
Context (g : grammar).

Inductive Nul : sym -> Prop :=
| nul_eps s : find g s = Some PEpsilon -> Nul s
| nul_rhs s rhs : In rhs (rhss_of g s) -> NulL rhs -> Nul s
with NulL : list sym -> Prop :=
| null_nil : NulL []
| null_cons s l : Nul s -> NulL l -> NulL (s :: l).
Scheme Nul_mut := Induction for Nul Sort Prop with NulL_mut := Induction for NulL Sort Prop.
Combined Scheme Nul_both from Nul_mut, NulL_mut.

Lemma NulL_app a b : NulL (a ++ b) <-> NulL a /\ NulL b.
Proof.
  induction a as [|x a IH]; cbn [app].
  - split; [intros; split; [constructor|assumption]|tauto].
  - split.
    + intros H. inversion H; subst. apply IH in H3. split; [constructor; tauto|tauto].
    + intros (H & H'). inversion H; subst. constructor; [assumption|]. apply IH. tauto.
Qed.
Lemma NulL_Forall l : NulL l <-> Forall Nul l.
Proof. induction l; split; intros H; inversion H; subst; constructor; tauto. Qed.

(** Derivations in context. *)
Lemma derives_trans a b c : derives g a b -> derives g b c -> derives g a c.
Proof. intros A B. induction B as [l|l m n D IH ST]; [exact A|]. eapply der_step; [apply IH; exact A|exact ST]. Qed.
Lemma step_ctx x y a b : step g a b -> step g (x ++ a ++ y) (x ++ b ++ y).
Proof.
  intros H. inversion H; subst; alts.
  - replace (x ++ (x0 ++ s :: y0) ++ y) with ((x ++ x0) ++ s :: (y0 ++ y)) by (rewrite <- !app_assoc; reflexivity).
    replace (x ++ (x0 ++ rhs ++ y0) ++ y) with ((x ++ x0) ++ rhs ++ (y0 ++ y)) by (rewrite <- !app_assoc; reflexivity).
    apply step_rhs. assumption.
  - replace (x ++ (x0 ++ s :: y0) ++ y) with ((x ++ x0) ++ s :: (y0 ++ y)) by (rewrite <- !app_assoc; reflexivity).
    replace (x ++ (x0 ++ y0) ++ y) with ((x ++ x0) ++ (y0 ++ y)) by (rewrite <- !app_assoc; reflexivity).
    apply step_eps. assumption.
Qed.
Lemma derives_ctx x y a b : derives g a b -> derives g (x ++ a ++ y) (x ++ b ++ y).
Proof. induction 1 as [l|l m n D IH ST]; [constructor|]. eapply der_step; [exact IH|]. apply step_ctx. exact ST. Qed.
Lemma derives_one s rhs : In rhs (rhss_of g s) -> derives g [s] rhs.
Proof.
  intros H. eapply der_step; [constructor|]. pose proof (step_rhs g [] s rhs [] H) as S1. cbn [app] in S1. rewrite app_nil_r in S1. exact S1.
Qed.

Lemma nul_derives : (forall s, Nul s -> derives g [s] []) /\ (forall l, NulL l -> derives g l []).
Proof.
  apply Nul_both.
  - intros s E. eapply der_step; [constructor|]. apply (step_eps g [] s []). exact E.
  - intros s rhs I N D. eapply derives_trans; [apply derives_one; exact I|exact D].
  - constructor.
  - intros s l N D NL DL. eapply derives_trans; [|exact DL]. apply (derives_ctx [] l [s] []). exact D.
Qed.
Lemma step_nul a b : step g a b -> NulL b -> NulL a.
Proof.
  intros H N. inversion H; subst; alts.
  - apply NulL_app in N. destruct N as (N1 & N2). apply NulL_app in N2. destruct N2 as (N2 & N3).
    apply NulL_app. split; [exact N1|]. constructor; [|exact N3]. eapply nul_rhs; eauto.
  - apply NulL_app in N. apply NulL_app. split; [tauto|]. constructor; [|tauto]. apply nul_eps. assumption.
Qed.
Lemma derives_nul a b : derives g a b -> NulL b -> NulL a.
Proof. induction 1; auto. intros N. apply IHderives. eapply step_nul; eauto. Qed.
Lemma Nul_iff s : Nul s <-> can_be_empty g s.
Proof.
  split; [apply (proj1 nul_derives)|]. intros D. pose proof (derives_nul _ _ D null_nil) as N. inversion N; subst. assumption.
Qed.

(** FIRST *)
Inductive Fst : sym -> sym -> Prop :=
| fst_tok t : token g t -> Fst t t
| fst_rhs s rhs pre x post t : In rhs (rhss_of g s) -> rhs = pre ++ x :: post -> NulL pre -> Fst x t -> Fst s t.
Definition FstL (l : list sym) (t : sym) : Prop := exists pre x post, l = pre ++ x :: post /\ NulL pre /\ Fst x t.
Lemma FstL_app a b t : FstL (a ++ b) t <-> FstL a t \/ (NulL a /\ FstL b t).
Proof.
  split.
  - intros (pre & x & post & E & N & F).
    assert (C : (exists m, a = pre ++ x :: m) \/ (exists m, pre = a ++ m)).
    { clear - E. revert a E. induction pre as [|p pre IH]; intros a E.
      - destruct a as [|y a]; [right; exists []; reflexivity|]. cbn [app] in E. injection E as -> _. left. exists a. reflexivity.
      - destruct a as [|y a]; [right; exists (p :: pre); reflexivity|]. cbn [app] in E. injection E as -> E.
        destruct (IH _ E) as [(m & ->) | (m & ->)]; [left|right]; exists m; reflexivity. }
    destruct C as [(m & ->) | (m & ->)].
    + left. exists pre, x, m. auto.
    + right. apply NulL_app in N. split; [tauto|]. rewrite <- app_assoc in E. apply app_inv_head in E. exists m, x, post. tauto.
  - intros [(pre & x & post & -> & N & F) | (N & pre & x & post & -> & N' & F)].
    + exists pre, x, (post ++ b). rewrite <- app_assoc. auto.
    + exists (a ++ pre), x, post. rewrite <- app_assoc. split; [reflexivity|]. split; [apply NulL_app; auto|exact F].
Qed.
Lemma FstL_one s t : FstL [s] t <-> Fst s t.
Proof.
  split.
  - intros (pre & x & post & E & N & F). destruct pre as [|p pre]; [injection E as <- _; exact F|]. destruct pre; discriminate.
  - intros F. exists [], s, []. repeat split; [constructor|exact F].
Qed.
Lemma FstL_rhs s rhs t : In rhs (rhss_of g s) -> FstL rhs t -> Fst s t.
Proof. intros I (pre & x & post & E & N & F). eapply fst_rhs; eauto. Qed.
Lemma step_fst a b t : step g a b -> FstL b t -> FstL a t.
Proof.
  intros H F. inversion H; subst; alts.
  - apply FstL_app in F. apply FstL_app. destruct F as [F | (N & F)]; [left; exact F|right; split; [exact N|]].
    change (s :: y) with ([s] ++ y). apply FstL_app. apply FstL_app in F. destruct F as [F | (N2 & F)].
    + left. apply FstL_one. eapply FstL_rhs; eauto.
    + right. split; [|exact F]. constructor; [|constructor]. eapply nul_rhs; eauto.
  - apply FstL_app in F. apply FstL_app. destruct F as [F | (N & F)]; [left; exact F|right; split; [exact N|]].
    change (s :: y) with ([s] ++ y). apply FstL_app. right. split; [|exact F]. constructor; [apply nul_eps; assumption|constructor].
Qed.
Lemma derives_fst a b t : derives g a b -> FstL b t -> FstL a t.
Proof. induction 1; auto. intros F. apply IHderives. eapply step_fst; eauto. Qed.
Lemma Fst_derives s t : Fst s t -> token g t /\ exists more, derives g [s] (t :: more).
Proof.
  induction 1 as [t K|s rhs pre x post t I -> N F (K & more & D)].
  - split; [exact K|]. exists []. constructor.
  - split; [exact K|]. exists (more ++ post). eapply derives_trans; [apply derives_one; exact I|].
    eapply derives_trans; [apply (derives_ctx [] (x :: post) pre []); apply (proj2 nul_derives); exact N|].
    cbn [app]. apply (derives_ctx [] post [x] (t :: more)). exact D.
Qed.
Lemma FstL_iff l t : FstL l t <-> can_start g l t.
Proof.
  split.
  - intros (pre & x & post & -> & N & F). destruct (Fst_derives _ _ F) as (K & more & D). split; [exact K|]. exists (more ++ post).
    eapply derives_trans; [apply (derives_ctx [] (x :: post) pre []); apply (proj2 nul_derives); exact N|].
    cbn [app]. apply (derives_ctx [] post [x] (t :: more)). exact D.
  - intros (K & more & D). eapply derives_fst; [exact D|]. exists [], t, more. split; [reflexivity|]. split; [constructor|]. apply fst_tok. exact K.
Qed.
Lemma Fst_iff s t : Fst s t <-> can_start g [s] t.
Proof. rewrite <- FstL_one. apply FstL_iff. Qed.

(** FOLLOW *)
Definition reached (s : sym) : Prop := exists x y, derives g [g_root g] (x ++ s :: y).
Inductive Flw : sym -> sym -> Prop :=
| flw_fst s rhs pre x post t : reached s -> In rhs (rhss_of g s) -> rhs = pre ++ x :: post -> FstL post t -> Flw x t
| flw_up s rhs pre x post t : In rhs (rhss_of g s) -> rhs = pre ++ x :: post -> NulL post -> Flw s t -> Flw x t.
Lemma derives_expand x s y rhs : In rhs (rhss_of g s) -> derives g [g_root g] (x ++ s :: y) -> derives g [g_root g] (x ++ rhs ++ y).
Proof. intros I D. eapply der_step; [exact D|]. apply step_rhs. exact I. Qed.
Lemma derives_tail x a b y : derives g a b -> derives g [g_root g] (x ++ a ++ y) -> derives g [g_root g] (x ++ b ++ y).
Proof. intros D E. eapply derives_trans; [exact E|]. apply derives_ctx. exact D. Qed.
Lemma Flw_derives s t : Flw s t -> token g t /\ exists x y, derives g [g_root g] (x ++ s :: t :: y).
Proof.
  induction 1 as [s rhs pre x post t (u & v & D) I -> F|s rhs pre x post t I -> N F (K & u & v & D)].
  - apply FstL_iff in F. destruct F as (K & more & E). split; [exact K|]. exists (u ++ pre), (more ++ v).
    pose proof (derives_expand _ _ _ _ I D) as D'. rewrite <- app_assoc in D'. cbn [app] in D'.
    replace (u ++ pre ++ x :: post ++ v) with ((u ++ pre ++ [x]) ++ post ++ v) in D' by (rewrite <- !app_assoc; reflexivity).
    apply (derives_tail _ _ _ _ E) in D'. rewrite <- !app_assoc in D'. cbn [app] in D'. rewrite <- app_assoc. exact D'.
  - split; [exact K|]. exists (u ++ pre), v. pose proof (derives_expand _ _ _ _ I D) as D'. rewrite <- app_assoc in D'. cbn [app] in D'.
    replace (u ++ pre ++ x :: post ++ t :: v) with ((u ++ pre ++ [x]) ++ post ++ t :: v) in D' by (rewrite <- !app_assoc; reflexivity).
    apply (derives_tail _ _ _ _ (proj2 nul_derives _ N)) in D'. rewrite <- !app_assoc in D'. cbn [app] in D'. rewrite <- app_assoc. exact D'.
Qed.
Lemma app_cons_cases {A} (a : list A) : forall b x c d, a ++ b = c ++ x :: d -> (exists m, a = c ++ x :: m /\ d = m ++ b) \/ (exists m, c = a ++ m /\ b = m ++ x :: d).
Proof.
  induction a as [|p a IH]; intros b x c d E; [right; exists c; auto|]. destruct c as [|q c]; cbn [app] in E; injection E as -> E.
  - left. exists a. auto.
  - destruct (IH _ _ _ _ E) as [(m & -> & ->) | (m & -> & ->)]; [left|right]; exists m; auto.
Qed.
Lemma derives_flw l : derives g [g_root g] l -> forall x s y t, l = x ++ s :: y -> FstL y t -> Flw s t.
Proof.
  intros D. remember [g_root g] as l0 eqn:E0. induction D as [l|l m n D IH ST]; intros x s y t E F.
  - subst l. destruct x as [|a x]; [injection E as _ <-|destruct x; discriminate]. destruct F as (pre & z & post & E & _). destruct pre; discriminate.
  - specialize (IH E0). subst l. inversion ST as [u b rhs v I E1 E2|u b v EP E1 E2]; subst m n; alts.
    + apply app_cons_cases in E2. destruct E2 as [(k & -> & ->) | (k & -> & E2)].
      * apply (IH x s (k ++ b :: v) t); [rewrite <- app_assoc; reflexivity|]. eapply (step_fst (k ++ b :: v) (k ++ rhs ++ v)); [apply step_rhs; exact I|exact F].
      * apply app_cons_cases in E2. destruct E2 as [(j & -> & ->) | (j & -> & ->)].
        -- apply FstL_app in F. destruct F as [F | (N & F)].
           ++ eapply flw_fst; [exists u, v; exact D|exact I|reflexivity|exact F].
           ++ eapply flw_up; [exact I|reflexivity|exact N|]. eapply IH; [reflexivity|exact F].
        -- eapply (IH (u ++ b :: j)); [|exact F]. rewrite <- app_assoc. reflexivity.
    + apply app_cons_cases in E2. destruct E2 as [(k & -> & ->) | (k & -> & ->)].
      * apply (IH x s (k ++ b :: v) t); [rewrite <- app_assoc; reflexivity|]. eapply (step_fst (k ++ b :: v) (k ++ v)); [apply step_eps; exact EP|exact F].
      * eapply (IH (u ++ b :: k)); [|exact F]. rewrite <- app_assoc. reflexivity.
Qed.
Lemma Flw_iff s t : Flw s t <-> can_follow g s t.
Proof.
  split; [apply Flw_derives|]. intros (K & x & y & D). eapply derives_flw; [exact D|reflexivity|]. exists [], t, y.
  split; [reflexivity|]. split; [constructor|apply fst_tok; exact K].
Qed.
Lemma next_token_iff s a t : next_token g s a t -> In [a] (rhss_of g s) -> Fst a t \/ (Nul a /\ Flw s t).
Proof.
  intros (x & y & D & CS) I. apply FstL_iff in CS. change (a :: y) with ([a] ++ y) in CS. apply FstL_app in CS.
  destruct CS as [F | (N & F)]; [left; apply FstL_one; exact F|right]. split; [inversion N; subst; assumption|].
  eapply derives_flw; [exact D|reflexivity|exact F].
Qed.
End G.
