(** Programs by declarations instead of names; the same thing for programs whose names are resolved. *)
From Coq Require Import List Bool Arith Lia.
From Verif Require Import FlatModel FlatSpec.
Import ListNotations.

Scheme stmt_mut := Induction for stmt Sort Prop with stmts_mut := Induction for stmts Sort Prop.
Combined Scheme all_mut from stmt_mut, stmts_mut.

Definition heap := decl -> nat.
Definition upd (h : heap) (d : decl) (n : nat) : heap := fun d' => if d =? d' then n else h d'.
Fixpoint iev (h : heap) (e : expr) : nat :=
  match e with
  | EConst n => n
  | EVar _ d => h d
  | EAdd a b => iev h a + iev h b
  | ELess a b => if iev h a <? iev h b then 1 else 0
  end.
Definition istate := (heap * list nat)%type.
Fixpoint irun1 (fuel : nat) (s : stmt) (st : istate) {struct s} : outcome * istate :=
  let '(h, out) := st in
  match s with
  | SLocal _ d e | SAssign _ d e => (Nrm, (upd h d (iev h e), out))
  | SPrint e => (Nrm, (h, out ++ [iev h e]))
  | SIf e a b => if iev h e =? 0 then irun fuel b st else irun fuel a st
  | SWhile e b => while_ (fun st => negb (iev (fst st) e =? 0)) (irun fuel b) fuel st
  | SBlock b => irun fuel b st
  | SBreak => (Brk, st)
  | SReturn => (Ret, st)
  end
with irun (fuel : nat) (ss : stmts) (st : istate) {struct ss} : outcome * istate :=
  match ss with
  | Nil => (Nrm, st)
  | Cons s r => match irun1 fuel s st with (Nrm, st') => irun fuel r st' | x => x end
  end.

Lemma name_eqb_eq x y : name_eqb x y = true <-> x = y.
Proof. destruct x, y. unfold name_eqb. cbn. rewrite andb_true_iff, !Nat.eqb_eq. split; [intros [-> ->]; reflexivity|intros E; inversion E; auto]. Qed.
Lemma name_eqb_neq x y : name_eqb x y = false <-> x <> y.
Proof. rewrite <- name_eqb_eq. destruct (name_eqb x y); split; congruence. Qed.
Lemma name_dec (x y : name) : {x = y} + {x <> y}.
Proof. destruct (name_eqb x y) eqn:E; [left; apply name_eqb_eq; exact E|right; apply name_eqb_neq; exact E]. Qed.

Definition env_of (h : heap) (sc : scope) : env := map (fun p => (fst p, h (snd p))) sc.
Lemma upd_eq h d n : upd h d n d = n. Proof. unfold upd. rewrite Nat.eqb_refl. reflexivity. Qed.
Lemma upd_neq h d n d' : d <> d' -> upd h d n d' = h d'. Proof. intros H. unfold upd. apply Nat.eqb_neq in H. rewrite H. reflexivity. Qed.
Lemma env_upd h d n sc : ~ In d (map snd sc) -> env_of (upd h d n) sc = env_of h sc.
Proof.
  intros H. unfold env_of. apply map_ext_in. intros [x d'] HI. cbn. rewrite upd_neq; [reflexivity|]. intros ->. apply H. apply in_map_iff. exists (x, d'). auto.
Qed.
Lemma refers_in x d sc : refers x d sc -> In (x, d) sc.
Proof. induction 1; cbn; auto. Qed.
Lemma refers_snd x d sc : refers x d sc -> In d (map snd sc).
Proof. intros H. apply refers_in in H. apply in_map_iff. exists (x, d). auto. Qed.
Lemma value_of h x d sc : refers x d sc -> value x (env_of h sc) = h d.
Proof.
  induction 1 as [x d sc|x d y d' sc N _ IH]; cbn.
  - rewrite (proj2 (name_eqb_eq x x) eq_refl). reflexivity.
  - apply name_eqb_neq in N. rewrite N. exact IH.
Qed.
Lemma assign_of h x d n sc : refers x d sc -> NoDup (map snd sc) -> assign x n (env_of h sc) = env_of (upd h d n) sc.
Proof.
  induction 1 as [x d sc|x d y d' sc N R IH]; cbn; intros ND; inversion ND as [|? ? N1 N2]; subst.
  - rewrite (proj2 (name_eqb_eq x x) eq_refl), upd_eq. f_equal. symmetry. apply env_upd. exact N1.
  - apply name_eqb_neq in N. rewrite N. fold (env_of h sc). rewrite (IH N2), upd_neq; [reflexivity|]. intros ->. apply N1. apply (refers_snd x). exact R.
Qed.
Lemma ev_of h sc e : (forall x d, In (x, d) (evars e) -> refers x d sc) -> ev (env_of h sc) e = iev h e.
Proof.
  induction e as [n|x d|a IHa b IHb|a IHa b IHb]; cbn; intros H; [reflexivity|apply value_of, H; auto| |];
    rewrite IHa, IHb; try reflexivity; intros x d HI; apply H; apply in_or_app; auto.
Qed.
Lemma iev_ext h1 h2 e : (forall x d, In (x, d) (evars e) -> h1 d = h2 d) -> iev h1 e = iev h2 e.
Proof.
  induction e as [n|x d|a IHa b IHb|a IHa b IHb]; cbn; intros H; [reflexivity|apply (H x); auto| |];
    rewrite IHa, IHb; try reflexivity; intros x d HI; apply (H x); apply in_or_app; auto.
Qed.
Lemma leave_of (q sc : scope) h : leave (length (env_of h sc)) (env_of h (q ++ sc)) = env_of h sc.
Proof.
  unfold leave, env_of. rewrite map_app, app_length. replace (_ + _ - _) with (length (map (fun p => (fst p, h (snd p))) q)) by lia.
  rewrite skipn_app, skipn_all, Nat.sub_diag. reflexivity.
Qed.

(** ** By names and by declarations is the same *)
Definition named (sc : scope) (r : outcome * state) (ir : outcome * istate) (sc' : scope) : Prop :=
  exists q, r = (fst ir, (env_of (fst (snd ir)) (q ++ sc), snd (snd ir))) /\ (fst ir = Nrm -> q ++ sc = sc').
Lemma named_block sc f h out ir sc' : named sc (f (env_of h sc, out)) ir sc' ->
  block_ f (env_of h sc, out) = (fst ir, (env_of (fst (snd ir)) sc, snd (snd ir))).
Proof.
  intros (q & E & _). unfold block_. rewrite E. cbn [fst snd]. f_equal. f_equal.
  replace (length (env_of h sc)) with (length (env_of (fst (snd ir)) sc)) by (unfold env_of; rewrite !map_length; reflexivity).
  apply leave_of.
Qed.
Lemma NoDup_app_l A (a b : list A) : NoDup (a ++ b) -> NoDup a.
Proof. induction a as [|x a IH]; cbn; intros H; [constructor|]. inversion H; subst. constructor; [|auto]. intros X. apply H2. apply in_or_app. auto. Qed.
Lemma NoDup_app_disj A (a b : list A) x : NoDup (a ++ b) -> In x a -> ~ In x b.
Proof.
  induction a as [|y a IH]; cbn; intros H HI; [destruct HI|]. inversion H; subst. destruct HI as [<-|HI]; [|auto].
  intros X. apply H2. apply in_or_app. auto.
Qed.
Lemma NoDup_app_r A (a b : list A) : NoDup (a ++ b) -> NoDup b.
Proof. induction a as [|x a IH]; cbn; intros H; [exact H|]. inversion H; auto. Qed.
Lemma NoDup_app_i A (a b : list A) : NoDup a -> NoDup b -> (forall x, In x a -> ~ In x b) -> NoDup (a ++ b).
Proof.
  induction a as [|x a IH]; cbn; intros Ha Hb H; [exact Hb|]. inversion Ha; subst. constructor.
  - intros X. apply in_app_or in X as [X|X]; [auto|]. apply (H x); auto.
  - apply IH; auto.
Qed.
(** leaving out the middle *)
Lemma NoDup_drop A (a b c : list A) : NoDup (a ++ b ++ c) -> NoDup (a ++ c) /\ NoDup (a ++ b).
Proof.
  intros H. split; [|apply NoDup_app_l with c; rewrite <- app_assoc; exact H].
  pose proof (NoDup_app_l _ _ _ H). pose proof (NoDup_app_r _ _ _ (NoDup_app_r _ _ _ H)). apply NoDup_app_i; auto.
  intros x X1 X2. apply (NoDup_app_disj _ _ _ x H X1). apply in_or_app. auto.
Qed.
Lemma NoDup_open sc s r : NoDup (map snd sc ++ map snd (locals1 s ++ locals r)) -> NoDup (map snd (opened s sc) ++ map snd (locals r)).
Proof.
  rewrite map_app. intros H. pose proof (proj1 (NoDup_drop _ _ _ _ H)) as H1. destruct s; cbn in *; try exact H1.
  constructor.
  - intros X. apply in_app_or in X as [X|X].
    + apply (NoDup_app_disj _ _ _ _ H X). cbn. auto.
    + apply NoDup_app_r in H. inversion H; auto.
  - exact H1.
Qed.

Lemma names_decls : (forall s fuel sc h out, resolved1 s sc -> NoDup (map snd sc ++ map snd (locals1 s)) ->
    named sc (run1 fuel s (env_of h sc, out)) (irun1 fuel s (h, out)) (opened s sc))
  /\ (forall ss fuel sc h out, resolved ss sc -> NoDup (map snd sc ++ map snd (locals ss)) ->
    exists sc', named sc (run fuel ss (env_of h sc, out)) (irun fuel ss (h, out)) sc').
Proof.
  apply all_mut.
  - intros x d e fuel sc h out R ND. exists [(x, d)]. cbn in *. split; [|reflexivity]. f_equal. f_equal.
    replace (ev ((x, 0) :: env_of h sc) e) with (iev h e).
    + rewrite upd_eq. f_equal. symmetry. apply env_upd. intros X. apply (NoDup_app_disj _ _ _ d ND X). cbn. auto.
    + replace ((x, 0) :: env_of h sc) with (env_of (upd h d 0) ((x, d) :: sc)).
      * rewrite ev_of; [apply iev_ext|intros y d' HI; apply (R y d' HI)]. intros y d' HI. rewrite upd_neq; [reflexivity|]. apply R in HI as [_ HI]. congruence.
      * cbn. rewrite upd_eq. f_equal. apply env_upd. intros X. apply (NoDup_app_disj _ _ _ d ND X). cbn. auto.
  - intros x d e fuel sc h out [R RE] ND. exists []. cbn in *. split; [|reflexivity]. rewrite (ev_of h sc e RE), (assign_of h x d _ sc R); [reflexivity|].
    rewrite app_nil_r in ND. exact ND.
  - intros e fuel sc h out RE ND. exists []. cbn in *. rewrite (ev_of h sc e RE). auto.
  - intros e a IHa b IHb fuel sc h out (RE & Ra & Rb) ND. exists []. cbn in *. split; [|reflexivity].
    rewrite map_app in ND. pose proof (NoDup_drop _ _ _ _ ND) as [NDb NDa].
    rewrite (ev_of h sc e RE). destruct (iev h e =? 0).
    + destruct (IHb fuel sc h out Rb NDb) as (sc' & H). exact (named_block _ _ _ _ _ _ H).
    + destruct (IHa fuel sc h out Ra NDa) as (sc' & H). exact (named_block _ _ _ _ _ _ H).
  - intros e b IHb fuel sc h out (RE & Rb) ND. exists []. cbn in *. split; [|reflexivity].
    assert (W : forall n h out, while_ (fun st : state => negb (ev (fst st) e =? 0)) (block_ (run fuel b)) n (env_of h sc, out)
      = let ir := while_ (fun st : istate => negb (iev (fst st) e =? 0)) (irun fuel b) n (h, out) in (fst ir, (env_of (fst (snd ir)) sc, snd (snd ir)))).
    { intros n. induction n as [|n IH]; intros h0 out0; cbn [while_]; [reflexivity|]. cbn [fst]. rewrite (ev_of h0 sc e RE).
      destruct (negb (iev h0 e =? 0)); [|reflexivity]. destruct (IHb fuel sc h0 out0 Rb ND) as (sc' & H).
      rewrite (named_block _ _ _ _ _ _ H). destruct (irun fuel b (h0, out0)) as [o [h1 out1]]. cbn [fst snd].
      destruct o; try reflexivity. apply IH. }
    apply W.
  - intros b IHb fuel sc h out Rb ND. exists []. cbn in *. split; [|reflexivity].
    destruct (IHb fuel sc h out Rb ND) as (sc' & H). exact (named_block _ _ _ _ _ _ H).
  - intros fuel sc h out _ _. exists []. cbn. split; [reflexivity|discriminate].
  - intros fuel sc h out _ _. exists []. cbn. split; [reflexivity|discriminate].
  - intros fuel sc h out _ _. exists sc, []. cbn. auto.
  - intros s IHs r IHr fuel sc h out (Rs & Rr) ND. cbn [run irun locals resolved] in *.
    assert (NDs : NoDup (map snd sc ++ map snd (locals1 s))) by (rewrite map_app in ND; apply NoDup_drop in ND; tauto).
    destruct (IHs fuel sc h out Rs NDs) as (q & E & F). rewrite E. destruct (irun1 fuel s (h, out)) as [o [h1 out1]]. cbn [fst snd] in *.
    destruct o; try (exists sc, q; cbn; split; [reflexivity|discriminate]).
    rewrite (F eq_refl). destruct (IHr fuel (opened s sc) h1 out1 Rr (NoDup_open _ _ _ ND)) as (sc' & q' & E' & F').
    destruct s; try (exists sc', q'; split; assumption).
    cbn [opened] in *. exists sc', (q' ++ [(x, d)]). rewrite <- app_assoc. cbn. split; assumption.
Qed.

Lemma observe_decls fuel p sc h : good sc p ->
  observe fuel p (env_of h sc) = (fst (irun fuel p (h, [])), snd (snd (irun fuel p (h, [])))).
Proof.
  intros [R ND]. destruct (proj2 names_decls p fuel sc h [] R ND) as (sc' & q & E & _). unfold observe. rewrite E. reflexivity.
Qed.

(** ** Only the locals in scope matter *)
Definition alike (sc : scope) (h1 h2 : heap) : Prop := forall d, In d (map snd sc) -> h1 d = h2 d.
Definition simi (sc sc' : scope) (r1 r2 : outcome * istate) : Prop :=
  fst r1 = fst r2 /\ snd (snd r1) = snd (snd r2) /\ alike sc (fst (snd r1)) (fst (snd r2)) /\ (fst r1 = Nrm -> alike sc' (fst (snd r1)) (fst (snd r2))).
Lemma alike_ev sc h1 h2 e : alike sc h1 h2 -> (forall y d, In (y, d) (evars e) -> refers y d sc) -> iev h1 e = iev h2 e.
Proof. intros A R. apply iev_ext. intros x d HI. apply A. apply (refers_snd x). apply R. exact HI. Qed.
Lemma alike_upd sc h1 h2 d n : alike sc h1 h2 -> alike sc (upd h1 d n) (upd h2 d n).
Proof. intros A d' HI. unfold upd. destruct (d =? d'); auto. Qed.
Lemma while_simi sc e (f1 f2 : istate -> outcome * istate) :
  (forall y d, In (y, d) (evars e) -> refers y d sc) ->
  (forall h1 h2 out, alike sc h1 h2 -> exists sc', simi sc sc' (f1 (h1, out)) (f2 (h2, out))) ->
  forall n h1 h2 out, alike sc h1 h2 ->
    simi sc sc (while_ (fun st : istate => negb (iev (fst st) e =? 0)) f1 n (h1, out)) (while_ (fun st : istate => negb (iev (fst st) e =? 0)) f2 n (h2, out)).
Proof.
  intros RE HF n. induction n as [|n IH]; intros h1 h2 out A; cbn [while_]; [repeat split; auto|]. cbn [fst]. rewrite (alike_ev sc h1 h2 e A RE).
  destruct (negb (iev h2 e =? 0)); [|repeat split; auto]. destruct (HF h1 h2 out A) as (sc' & S1 & S2 & S3 & _).
  destruct (f1 (h1, out)) as [o1 [g1 out1]], (f2 (h2, out)) as [o2 [g2 out2]]. cbn [fst snd] in *. subst o2 out2.
  destruct o1; try (repeat split; cbn; auto; fail). apply IH. exact S3.
Qed.
Lemma alike_cons x d sc h1 h2 : alike sc h1 h2 -> h1 d = h2 d -> alike ((x, d) :: sc) h1 h2.
Proof. intros A H d' [<-|HI]; auto. Qed.
Lemma only_scope : (forall s fuel sc h1 h2 out, resolved1 s sc -> alike sc h1 h2 ->
    simi sc (opened s sc) (irun1 fuel s (h1, out)) (irun1 fuel s (h2, out)))
  /\ (forall ss fuel sc h1 h2 out, resolved ss sc -> alike sc h1 h2 ->
    simi sc (rev (direct ss) ++ sc) (irun fuel ss (h1, out)) (irun fuel ss (h2, out))).
Proof.
  apply all_mut.
  - intros x d e fuel sc h1 h2 out R A. cbn in *.
    assert (E : iev h1 e = iev h2 e).
    { apply iev_ext. intros y d' HI. destruct (R y d' HI) as [RR N]. apply refers_snd in RR. cbn in RR. destruct RR as [RR|RR]; [congruence|]. auto. }
    rewrite E. unfold simi. cbn. repeat split; auto using alike_upd. intros _. apply alike_cons; [apply alike_upd; exact A|]. rewrite !upd_eq. reflexivity.
  - intros x d e fuel sc h1 h2 out [R RE] A. cbn in *. rewrite (alike_ev sc h1 h2 e A RE). unfold simi. cbn. repeat split; auto using alike_upd.
  - intros e fuel sc h1 h2 out RE A. cbn in *. rewrite (alike_ev sc h1 h2 e A RE). unfold simi. cbn. auto.
  - intros e a IHa b IHb fuel sc h1 h2 out (RE & Ra & Rb) A. cbn [irun1 opened]. rewrite (alike_ev sc h1 h2 e A RE).
    destruct (iev h2 e =? 0); [destruct (IHb fuel sc h1 h2 out Rb A) as (X & Y & Z & _)|destruct (IHa fuel sc h1 h2 out Ra A) as (X & Y & Z & _)]; repeat split; auto.
  - intros e b IHb fuel sc h1 h2 out (RE & Rb) A. cbn [irun1 opened]. apply while_simi; [exact RE| |exact A].
    intros g1 g2 o1 A1. eexists. apply IHb; auto.
  - intros b IHb fuel sc h1 h2 out Rb A. cbn [irun1 opened]. destruct (IHb fuel sc h1 h2 out Rb A) as (X & Y & Z & _). repeat split; auto.
  - intros. cbn. unfold simi. cbn. repeat split; auto.
  - intros. cbn. unfold simi. cbn. repeat split; auto.
  - intros. cbn. unfold simi. cbn. auto.
  - intros s IHs r IHr fuel sc h1 h2 out (Rs & Rr) A. cbn [irun]. destruct (IHs fuel sc h1 h2 out Rs A) as (X & Y & Z & W).
    destruct (irun1 fuel s (h1, out)) as [o1 [g1 out1]], (irun1 fuel s (h2, out)) as [o2 [g2 out2]]. cbn [fst snd] in *. subst o2 out2.
    destruct o1; try (unfold simi; cbn; repeat split; auto; congruence).
    destruct (IHr fuel (opened s sc) g1 g2 out1 Rr (W eq_refl)) as (X2 & Y2 & Z2 & W2).
    assert (O : incl (map snd sc) (map snd (opened s sc))) by (destruct s; cbn; intros ? ?; cbn; auto).
    assert (D : rev (direct (Cons s r)) ++ sc = rev (direct r) ++ opened s sc) by (destruct s; cbn; rewrite <- ?app_assoc; reflexivity).
    repeat split; auto.
    + intros d HI. apply Z2, O, HI.
    + rewrite D. exact W2.
Qed.
