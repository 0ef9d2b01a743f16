(** Removing unused parameters: proofs. *)
From Coq Require Import ZArith List Bool Arith Lia.
From Verif Require Import PrmModel PrmSpec.
Import ListNotations.

(* ------------------------------------------------------------------ *)
(** ** Induction and unfolding *)

Lemma pexpr_ind' (Q : pexpr -> Prop) :
  (forall z, Q (EInt z)) -> (forall v, Q (EVar v)) ->
  (forall a b, Q a -> Q b -> Q (EAdd a b)) ->
  (forall a b, Q a -> Q b -> Q (EDiv a b)) ->
  (forall m f args, Forall Q args -> Q (ECall m f args)) ->
  forall e, Q e.
Proof.
  intros H1 H2 H3 H4 H5.
  fix IH 1. intros [z|v|a b|a b|m f args].
  - apply H1.
  - apply H2.
  - apply H3; apply IH.
  - apply H4; apply IH.
  - apply H5. induction args as [|a l IHl]; constructor; [apply IH|exact IHl].
Qed.

Definition pbind1 (P : pprog) c (r : penv) (k : pkind) (a : pexpr) (s : pst) : pres pbind :=
  if by_value k a
  then match peval P c r a s with
       | POk s1 z => POk s1 (BVal z)
       | PThrow s1 => PThrow s1
       | PBad => PBad
       | PStop => PStop
       end
  else match a with EVar v => POk s (BRef (vloc r v)) | _ => PBad end.

Definition pargs (P : pprog) c (r : penv) : list (nat * pkind) -> list pexpr -> pst -> pres (list pbind) :=
  fix go (ps : list (nat * pkind)) (l : list pexpr) (s : pst) {struct l} : pres (list pbind) :=
  match ps, l with
  | [], [] => POk s []
  | (p, k) :: ps', a :: l' =>
      match pbind1 P c r k a s with
      | POk s1 b =>
          match go ps' l' s1 with
          | POk s2 bs => POk s2 (b :: bs)
          | o => o
          end
      | PThrow s1 => PThrow s1
      | PBad => PBad
      | PStop => PStop
      end
  | _, _ => PBad
  end.

Lemma pargs_nil P c r s : pargs P c r [] [] s = POk s [].
Proof. reflexivity. Qed.

Lemma pargs_cons P c r p k ps a l s :
  pargs P c r ((p, k) :: ps) (a :: l) s =
  match pbind1 P c r k a s with
  | POk s1 b =>
      match pargs P c r ps l s1 with
      | POk s2 bs => POk s2 (b :: bs)
      | o => o
      end
  | PThrow s1 => PThrow s1
  | PBad => PBad
  | PStop => PStop
  end.
Proof. reflexivity. Qed.

Lemma peval_call P c r m f args s :
  peval P c r (ECall m f args) s =
  match plook f P with
  | None => PBad
  | Some fd =>
      match pargs P c r (fn_params fd) args s with
      | POk s1 bs => c (e_d r) f fd bs s1
      | PThrow s1 => PThrow s1
      | PBad => PBad
      | PStop => PStop
      end
  end.
Proof. reflexivity. Qed.

Definition ploop (P : pprog) c (k : nat) (r : penv) (e : pexpr) (b : pstmt) : nat -> pst -> psres :=
  fix loop (n : nat) (s : pst) : psres :=
     match n with
     | O => SStop
     | S n' =>
         match peval P c r e s with
         | POk s1 z =>
             if Z.eqb z 0 then SNorm s1
             else match pexec P c k r b s1 with SNorm s2 => loop n' s2 | o => o end
         | PThrow s1 => SThr s1 | PBad => SBad | PStop => SStop
         end
     end.

Lemma ploop_S P c k r e b n s :
  ploop P c k r e b (S n) s =
  match peval P c r e s with
  | POk s1 z =>
      if Z.eqb z 0 then SNorm s1
      else match pexec P c k r b s1 with SNorm s2 => ploop P c k r e b n s2 | o => o end
  | PThrow s1 => SThr s1 | PBad => SBad | PStop => SStop
  end.
Proof. reflexivity. Qed.

Lemma pexec_while P c k r e b s :
  pexec P c k r (SWhile e b) s = ploop P c k r e b k s.
Proof. reflexivity. Qed.

Lemma memb_spec x l : memb x l = true <-> In x l.
Proof.
  unfold memb. rewrite existsb_exists. split.
  - intros (y & Hy & E). apply Nat.eqb_eq in E. now subst.
  - intros H. exists x. now rewrite Nat.eqb_refl.
Qed.

Lemma memb_false x l : memb x l = false <-> ~ In x l.
Proof. rewrite <- memb_spec. destruct (memb x l); split; congruence. Qed.

Lemma plook_In {A} f (l : list (nat * A)) x : plook f l = Some x -> In (f, x) l.
Proof.
  induction l as [|[g y] l IH]; cbn [plook]; [discriminate|].
  destruct (Nat.eqb_spec f g); intros E.
  - left. congruence.
  - right. auto.
Qed.

Lemma plook_map {A B} f (h : nat -> A -> B) (l : list (nat * A)) :
  plook f (map (fun q => match q with (g, x) => (g, h g x) end) l) =
  match plook f l with Some x => Some (h f x) | None => None end.
Proof.
  induction l as [|[g y] l IH]; cbn [plook map]; [reflexivity|].
  destruct (Nat.eqb_spec f g); [now subst|exact IH].
Qed.

(* ------------------------------------------------------------------ *)
(** ** Dropping positions *)

Lemma drop_pos_map {A B} (h : A -> B) i ps l : drop_pos i ps (map h l) = map h (drop_pos i ps l).
Proof.
  revert i. induction l as [|a l IH]; intros i; cbn [drop_pos map]; [reflexivity|].
  destruct (memb i ps); cbn [map]; now rewrite IH.
Qed.

Lemma drop_pos_combine {A B} i ps (l : list A) (k : list B) :
  length l = length k -> drop_pos i ps (combine l k) = combine (drop_pos i ps l) (drop_pos i ps k).
Proof.
  revert i k. induction l as [|a l IH]; intros i [|b k] E; cbn in E; try discriminate; cbn [drop_pos combine]; [reflexivity|].
  destruct (memb i ps); cbn [combine]; [apply IH; lia|f_equal; apply IH; lia].
Qed.

Lemma drop_pos_nil {A} i (l : list A) : drop_pos i [] l = l.
Proof. revert i. induction l as [|a l IH]; intros i; cbn; [reflexivity|]. now rewrite IH. Qed.

Lemma drop_pos_length {A B} i ps (l : list A) (k : list B) :
  length l = length k -> length (drop_pos i ps l) = length (drop_pos i ps k).
Proof.
  revert i k. induction l as [|a l IH]; intros i [|b k] E; cbn in E; try discriminate; cbn [drop_pos]; [reflexivity|].
  destruct (memb i ps); cbn [length]; [|f_equal]; apply IH; lia.
Qed.

Lemma drop_pos_In {A} i ps (l : list A) x : In x (drop_pos i ps l) -> In x l.
Proof.
  revert i. induction l as [|a l IH]; intros i; cbn [drop_pos]; [easy|].
  destruct (memb i ps); intros H; [right; eauto|].
  destruct H as [-> | H]; [now left|right; eauto].
Qed.

Lemma plook_drop {A} p i ps (l : list (nat * A)) :
  (forall j x, nth_error l j = Some (p, x) -> ~ In (i + j) ps) ->
  plook p (drop_pos i ps l) = plook p l.
Proof.
  revert i. induction l as [|[q x] l IH]; intros i H; cbn [drop_pos plook]; [reflexivity|].
  assert (H' : forall j y, nth_error l j = Some (p, y) -> ~ In (S i + j) ps).
  { intros j y Hj. replace (S i + j) with (i + S j) by lia. apply (H (S j) y). exact Hj. }
  destruct (memb i ps) eqn:M.
  - rewrite (IH _ H'). destruct (Nat.eqb_spec p q); [|reflexivity]. subst q.
    exfalso. apply memb_spec in M. apply (H 0 x eq_refl). now replace (i + 0) with i by lia.
  - cbn [plook]. destruct (Nat.eqb p q); [reflexivity|]. apply IH, H'.
Qed.

(** Erasing descending positions one at a time is dropping them all. *)
Lemma drop_pos_out {A} i ps (l : list A) :
  (forall j, In j ps -> j < i) -> drop_pos i ps l = l.
Proof.
  revert i. induction l as [|a l IH]; intros i H; cbn [drop_pos]; [reflexivity|].
  destruct (memb i ps) eqn:M.
  - apply memb_spec in M. specialize (H _ M). lia.
  - f_equal. apply IH. intros j Hj. specialize (H _ Hj). lia.
Qed.

Lemma erase_last {A} (ps : list nat) (q : nat) (l : list A) :
  (forall j, In j ps -> j < q) -> q < length l ->
  drop_pos 0 (ps ++ [q]) l = drop_pos 0 ps (erase_at l q).
Proof.
  unfold erase_at. intros H Hq.
  assert (G : forall (l : list A) i, q < i + length l -> i <= q ->
             drop_pos i (ps ++ [q]) l = drop_pos i ps (firstn (q - i) l ++ skipn (S (q - i)) l)).
  { clear l Hq. induction l as [|a l IH]; intros i Hl Hi; cbn [length] in Hl; [lia|].
    destruct (Nat.eq_dec i q) as [-> | Hne].
    - rewrite Nat.sub_diag. cbn [firstn skipn app].
      rewrite (drop_pos_out q ps l H). cbn [drop_pos].
      replace (memb q (ps ++ [q])) with true by (symmetry; apply memb_spec, in_or_app; right; now left).
      apply drop_pos_out. intros j Hj. apply in_app_or in Hj. destruct Hj as [Hj | [-> | []]]; [|lia].
      specialize (H _ Hj). lia.
    - replace (q - i) with (S (q - S i)) by lia. cbn [firstn skipn app drop_pos].
      assert (E : memb i (ps ++ [q]) = memb i ps).
      { destruct (memb i ps) eqn:M.
        - apply memb_spec, in_or_app. left. now apply memb_spec.
        - apply memb_false. intros K. apply in_app_or in K. destruct K as [K | [-> | []]]; [|lia].
          apply memb_spec in K. congruence. }
      rewrite E. destruct (memb i ps); [|f_equal]; apply IH; lia. }
  intros. rewrite (G l 0); [|lia|lia]. now rewrite Nat.sub_0_r.
Qed.

Inductive ascending : list nat -> Prop :=
| asc_nil : ascending []
| asc_snoc ps q : ascending ps -> (forall j, In j ps -> j < q) -> ascending (ps ++ [q]).

Lemma erase_length {A} (l : list A) q : q < length l -> S (length (erase_at l q)) = length l.
Proof.
  intros H. unfold erase_at. rewrite app_length, firstn_length, skipn_length. lia.
Qed.

Lemma prune_decl_drop {A} (ps : list nat) (l : list A) :
  ascending ps -> (forall j, In j ps -> j < length l) -> prune_decl ps l = drop_pos 0 ps l.
Proof.
  unfold prune_decl. intros As. revert l. induction As as [|ps q As IH H]; intros l Hl.
  - cbn. now rewrite drop_pos_nil.
  - rewrite rev_app_distr. cbn [rev app fold_left].
    assert (Hq : q < length l) by (apply Hl, in_or_app; right; now left).
    rewrite IH.
    + symmetry. apply erase_last; assumption.
    + intros j Hj. specialize (H _ Hj). pose proof (erase_length l q Hq). lia.
Qed.

Lemma ascending_filter_seq (h : nat -> bool) n : ascending (filter h (List.seq 0 n)).
Proof.
  induction n as [|n IH]; [constructor|].
  replace (S n) with (n + 1) by lia.
  rewrite seq_app, filter_app. cbn [List.seq filter plus]. destruct (h n).
  - constructor; [exact IH|]. intros j Hj. apply filter_In in Hj. destruct Hj as [Hj _].
    apply in_seq in Hj. lia.
  - now rewrite app_nil_r.
Qed.

Lemma unused_In P f fd i :
  In i (unused P f fd) <->
  fn_fixed fd = false /\ fn_overloads fd <= 1 /\ uses_effects P f = false /\
  exists p k, nth_error (fn_params fd) i = Some (p, k) /\ ~ In p (sparams (fn_body fd)).
Proof.
  unfold unused. destruct (fn_fixed fd); [now split; [|intros (? & _)]|].
  destruct (Nat.ltb_spec 1 (fn_overloads fd)) as [Ho|Ho]; [split; [easy|intros (_ & ? & _); lia]|].
  destruct (uses_effects P f); [now split; [|intros (_ & _ & ? & _)]|].
  rewrite filter_In, in_seq. split.
  - intros (Hi & E). refine (conj eq_refl (conj Ho (conj eq_refl _))).
    destruct (nth_error (fn_params fd) i) as [[p k]|]; [|discriminate].
    exists p, k. split; [reflexivity|]. apply negb_true_iff in E. now apply memb_false.
  - intros (_ & _ & _ & p & k & E & Hn). split.
    + assert (i < length (fn_params fd)) by (apply nth_error_Some; congruence). lia.
    + rewrite E. apply negb_true_iff. now apply memb_false.
Qed.

Lemma unused_ascending P f fd : ascending (unused P f fd).
Proof.
  unfold unused. destruct (fn_fixed fd); [constructor|]. destruct (1 <? fn_overloads fd); [constructor|].
  destruct (uses_effects P f); [constructor|]. apply ascending_filter_seq.
Qed.

Lemma un_params P f fd :
  plook f P = Some fd -> prune_decl (un P f) (fn_params fd) = drop_pos 0 (un P f) (fn_params fd).
Proof.
  intros E. unfold un. rewrite E. apply prune_decl_drop; [apply unused_ascending|].
  intros j Hj. apply unused_In in Hj. destruct Hj as (_ & _ & _ & p & k & Hj & _).
  apply nth_error_Some. congruence.
Qed.

(* ------------------------------------------------------------------ *)
(** ** The rewriting without regard to order *)

Fixpoint rwp (P : pprog) (e : pexpr) : pexpr :=
  match e with
  | EInt z => EInt z
  | EVar v => EVar v
  | EAdd a b => EAdd (rwp P a) (rwp P b)
  | EDiv a b => EDiv (rwp P a) (rwp P b)
  | ECall m f args => ECall m f (drop_pos 0 (un P f) (map (rwp P) args))
  end.

Definition order_ok (P : pprog) (c : bool * nat * list pexpr) : Prop :=
  match c with
  | (_, g, args) =>
      un P g <> [] ->
      forall a m' h args', In a args -> In (m', h, args') (ecalls a) -> un P h = [] \/ rank_of h P < rank_of g P
  end.

Definition lim_ok (P : pprog) (lim : option nat) (e : pexpr) : Prop :=
  match lim with
  | None => True
  | Some r => forall m h args, In (m, h, args) (ecalls e) -> un P h = [] \/ rank_of h P < r
  end.

Lemma drop_all_nil {A} (l : list A) : drop_pos 0 [] l = l.
Proof. apply drop_pos_nil. Qed.

Lemma rw_plain P e : forall lim,
  lim_ok P lim e -> (forall c, In c (ecalls e) -> order_ok P c) -> rw P lim e = rwp P e.
Proof.
  induction e as [z|v|a b IHa IHb|a b IHa IHb|m f args IH] using pexpr_ind'; intros lim HL HO; cbn [rw rwp].
  - reflexivity.
  - reflexivity.
  - rewrite IHa, IHb; [reflexivity| | | |]; try (intros c Hc; apply HO; cbn [ecalls]; apply in_or_app; tauto);
      (destruct lim as [r|]; [|exact Logic.I]; intros m h args Hc; apply (HL m h args); cbn [ecalls]; apply in_or_app; tauto).
  - rewrite IHa, IHb; [reflexivity| | | |]; try (intros c Hc; apply HO; cbn [ecalls]; apply in_or_app; tauto);
      (destruct lim as [r|]; [|exact Logic.I]; intros m h args Hc; apply (HL m h args); cbn [ecalls]; apply in_or_app; tauto).
  - assert (HO0 : order_ok P (m, f, args)) by (apply HO; now left).
    assert (HOa : forall a c, In a args -> In c (ecalls a) -> order_ok P c).
    { intros a c Ha Hc. apply HO. cbn [ecalls]. right. apply in_flat_map. eauto. }
    assert (M : forall lim', (forall a, In a args -> lim_ok P lim' a) -> map (rw P lim') args = map (rwp P) args).
    { intros lim' HL'. apply map_ext_in. intros a Ha. rewrite Forall_forall in IH. apply IH; eauto. }
    assert (HLa : forall a, In a args -> lim_ok P lim a).
    { intros a Ha. destruct lim as [r|]; [|exact Logic.I]. intros m' h args' Hc. apply (HL m' h args').
      cbn [ecalls]. right. apply in_flat_map. eauto. }
    destruct (un P f) as [|u0 us] eqn:U.
    + rewrite (M lim HLa). rewrite !drop_pos_nil. now destruct (match lim with Some r => _ | None => _ end).
    + assert (LV : (match lim with None => true | Some r => rank_of f P <? r end) = true).
      { destruct lim as [r|]; [|reflexivity]. destruct (HL m f args (or_introl eq_refl)) as [K | K]; [congruence|].
        now apply Nat.ltb_lt. }
      rewrite LV. f_equal. f_equal.
      apply M. intros a Ha.
      assert (NE : un P f <> []) by (rewrite U; discriminate).
      destruct lim as [r|]; cbn [lim_ok]; intros m' h args' Hc.
      * destruct (HO0 NE a m' h args' Ha Hc) as [K | K]; [now left|].
        specialize (HLa a Ha m' h args' Hc). destruct HLa as [K' | K']; [now left|]. right. lia.
      * exact (HO0 NE a m' h args' Ha Hc).
Qed.

Fixpoint rwsp (P : pprog) (c : pstmt) : pstmt :=
  match c with
  | SSkip => SSkip
  | SAssign v e => SAssign v (rwp P e)
  | SExpr e => SExpr (rwp P e)
  | SPrint e => SPrint (rwp P e)
  | SSeq a b => SSeq (rwsp P a) (rwsp P b)
  | SIf e a b => SIf (rwp P e) (rwsp P a) (rwsp P b)
  | SWhile e b => SWhile (rwp P e) (rwsp P b)
  | SReturn e => SReturn (rwp P e)
  end.

Lemma rws_plain P c : (forall q, In q (scalls c) -> order_ok P q) -> rws P c = rwsp P c.
Proof.
  induction c; cbn [rws rwsp scalls]; intros H;
    repeat (rewrite rw_plain; [|exact Logic.I|intros q Hq; apply H; rewrite ?in_app_iff; tauto]);
    rewrite ?IHc1, ?IHc2, ?IHc; try reflexivity; intros q Hq; apply H; rewrite ?in_app_iff; tauto.
Qed.
