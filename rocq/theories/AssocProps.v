(** C42, C43: maps and sets. The operations XSet, XErase, XGet, XGetOpt belong to maps; XInsert, XInsertHint, XSetErase to
    sets; the others to both. *)
From Coq Require Import Sorted.
From Verif Require Import Base BytesModel BytesSpec BytesProofs3 AssocModel AssocSpec AssocProofs AssocProofs2 AssocProofs3.
Open Scope Z_scope.

(** A checker for the contract, used in the examples. *)
Definition xop_okb (m : ymach) (p : xop) : bool :=
  let ob o := match yget m o with Some _ => true | None => false end in
  let itb o := match yget m o with Some b => y_iter b | None => false end in
  let itr i := Nat.ltb i (length (ym_its m)) in
  let hasi o := existsb (fun i => Nat.eqb (yi_obj i) o && ylive m i) (ym_its m) in
  match p with
  | XNew _ => true
  | XCopy o | XDestroy o | XContains o _ | XGet o _ | XGetOpt o _ | XSize o | XSet o _ _ | XErase o _ | XSetErase o _ | XClear o => ob o
  | XMoveNew o => ob o && negb (hasi o)
  | XAssign d s => ob d && ob s
  | XMoveAssign d s => ob d && ob s && negb (hasi s)
  | XInsert o _ | XBegin o _ | XEnd o _ => itb o
  | XInsertHint o h _ => itb o && itr h && Nat.eqb (yi_obj (ym_it m h)) o && ylive m (ym_it m h)
  | XNext i => itr i && (yi_checked (ym_it m i) || match yi_key (ym_it m i) with Some _ => true | None => false end)
  | XDeref i => itr i
  | XEq i j => itr i && itr j && (ylive m (ym_it m i) || ylive m (ym_it m j))
  end.
Fixpoint xprog_okb (m : ymach) (ps : list xop) : bool :=
  match ps with [] => true | p :: ps' => xop_okb m p && xprog_okb (res_state m (ystep m p)) ps' end.
Lemma xop_okb_ok m p : xop_okb m p = true -> xop_ok m p.
Proof.
  assert (Ob : forall o, match yget m o with Some _ => true | None => false end = true -> yget m o <> None) by (intros o; destruct (yget m o); congruence).
  assert (It : forall o, match yget m o with Some b => y_iter b | None => false end = true -> match yget m o with Some b => y_iter b = true | None => False end)
    by (intros o; destruct (yget m o); congruence).
  assert (Ha : forall o, negb (existsb (fun i => Nat.eqb (yi_obj i) o && ylive m i) (ym_its m)) = true -> ~ has_iters m o).
  { intros o H (i & H1 & H2 & H3). apply negb_true_iff in H.
    assert (T : existsb (fun i => Nat.eqb (yi_obj i) o && ylive m i) (ym_its m) = true) by (apply existsb_exists; exists i; rewrite H2, H3, Nat.eqb_refl; auto).
    rewrite H in T. discriminate T. }
  destruct p; cbn [xop_okb xop_ok]; cbv zeta; rewrite ?andb_true_iff, ?orb_true_iff, ?Nat.ltb_lt, ?Nat.eqb_eq; try exact (It _); auto.
  - intros [A B]. auto.
  - intros [A B]. auto.
  - intros [[A B] C]. auto.
  - intros [[[A B] C] D]. repeat split; auto. apply It. exact A.
  - intros [A [B|B]]; (split; [exact A|]); intros; [congruence|]. destruct (yi_key _); congruence.
  - intros [[A B] C]. auto.
Qed.
Lemma xprog_okb_ok ps : forall m, xprog_okb m ps = true -> xprog_ok m ps.
Proof. induction ps as [|p ps IH]; intros m H; [exact I|]. cbn in *. apply andb_true_iff in H. destruct H. split; [apply xop_okb_ok; assumption|auto]. Qed.

(** Reachable abstract states have strictly increasing keys. *)
Lemma xrun_rel ps : forall m a, xrel m a -> xprog_ok a ps -> exists m', xrel m' (yrun a ps).
Proof.
  induction ps as [|p ps IH]; intros m a R H; [exists m; exact R|]. destruct H as [H1 H2]. destruct (xstep_sim m a p R H1) as (_ & _ & R').
  cbn. eapply IH; eauto.
Qed.
Lemma reach_sorted ps o b : xprog_ok ym_init ps -> yget (yrun ym_init ps) o = Some b -> ksorted (y_map b).
Proof.
  intros H Hb. destruct (xrun_rel ps _ _ xrel_init H) as [m R]. destruct (xrel_get R o b Hb) as (_ & _ & _ & C & _). exact C.
Qed.

(** * C42 *)

(** Every program within the contract observes exactly what finite maps and (container, epoch, key) iterators give, and
    never runs into undefined behaviour. *)
Theorem C42_map_programs : forall ps, xprog_ok ym_init ps ->
  xtrace xm_init ps = ytrace ym_init ps /\ ~ In UB (xtrace xm_init ps).
Proof. intros ps H. destruct (xtrace_sim ps _ _ xrel_init H) as [E U]. rewrite E. auto. Qed.

(** The operations used by the specification are those of finite maps. *)
Lemma find_filter_lt m k k' v : k' <> k ->
  find (fun e => fst e =? k') (filter (fun e => fst e <? k) m ++ (k, v) :: filter (fun e => k <? fst e) m) = 
  find (fun e : Z * Z => fst e =? k') (filter (fun e => fst e <? k) m ++ filter (fun e => k <? fst e) m).
Proof.
  intros N. induction (filter (fun e => fst e <? k) m) as [|x l IH]; cbn.
  - destruct (Z.eqb_spec k k'); [congruence|reflexivity].
  - destruct (_ =? _); [reflexivity|apply IH].
Qed.
Lemma find_app {A} (p : A -> bool) l1 l2 : find p (l1 ++ l2) = match find p l1 with Some x => Some x | None => find p l2 end.
Proof. induction l1 as [|a l1 IH]; cbn; [reflexivity|]. destruct (p a); auto. Qed.
Lemma find_filter {A} (p q : A -> bool) l : find p (filter q l) = find (fun x => q x && p x) l.
Proof. induction l as [|a l IH]; cbn; [reflexivity|]. destruct (q a); cbn; [destruct (p a); auto|auto]. Qed.
Lemma find_ext {A} (p q : A -> bool) l : (forall x, p x = q x) -> find p l = find q l.
Proof. intros H. induction l as [|a l IH]; cbn; [reflexivity|]. rewrite H, IH. reflexivity. Qed.
Lemma find_false {A} (p : A -> bool) l : (forall x, p x = false) -> find p l = None.
Proof. intros H. induction l as [|a l IH]; cbn; [reflexivity|]. rewrite H. exact IH. Qed.

Theorem C42_spec_is_finite_map : forall m k v k',
  lookup (put m k v) k' = (if k' =? k then Some v else lookup m k') /\
  lookup (del m k) k' = (if k' =? k then None else lookup m k') /\
  lookup [] k' = None.
Proof.
  intros m k v k'. split; [|split; [|reflexivity]].
  - unfold lookup, put. destruct (Z.eqb_spec k' k) as [->|N].
    + rewrite find_app, find_filter. rewrite (find_false _ m) by (intros x; destruct (Z.ltb_spec (fst x) k), (Z.eqb_spec (fst x) k); cbn; auto; lia).
      cbn. rewrite Z.eqb_refl. reflexivity.
    + rewrite find_filter_lt by exact N. rewrite find_app, !find_filter. f_equal.
      destruct (Z.lt_ge_cases k' k) as [L|L].
      * rewrite (find_ext (fun x => (k <? fst x) && (fst x =? k')) (fun _ => false)) by (intros x; destruct (Z.ltb_spec k (fst x)), (Z.eqb_spec (fst x) k'); cbn; auto; lia).
        rewrite (find_ext (fun x => (fst x <? k) && (fst x =? k')) (fun x => fst x =? k')) by (intros x; destruct (Z.ltb_spec (fst x) k), (Z.eqb_spec (fst x) k'); cbn; auto; lia).
        destruct (find (fun x => fst x =? k') m); [reflexivity|]. apply find_false. reflexivity.
      * rewrite (find_ext (fun x => (fst x <? k) && (fst x =? k')) (fun _ => false)) by (intros x; destruct (Z.ltb_spec (fst x) k), (Z.eqb_spec (fst x) k'); cbn; auto; lia).
        rewrite find_false by reflexivity.
        apply find_ext. intros x; destruct (Z.ltb_spec k (fst x)), (Z.eqb_spec (fst x) k'); cbn; auto; lia.
  - unfold lookup, del. rewrite find_filter. destruct (Z.eqb_spec k' k) as [->|N].
    + rewrite find_false; [reflexivity|]. intros x. destruct (fst x =? k); reflexivity.
    + f_equal. apply find_ext. intros x. destruct (Z.eqb_spec (fst x) k), (Z.eqb_spec (fst x) k'); cbn; auto; lia.
Qed.

(** size() counts the keys: the content has no key twice, and a key is in it iff lookup finds it. *)
Theorem C42_size_counts_keys : forall ps o b, xprog_ok ym_init ps -> yget (yrun ym_init ps) o = Some b ->
  NoDup (map fst (y_map b)) /\ (forall k, In k (map fst (y_map b)) <-> lookup (y_map b) k <> None) /\
  last (xtrace xm_init (ps ++ [XSize o])) UB = Ok (XOVal (Z.of_nat (length (y_map b)))).
Proof.
  intros ps o b H Hb. pose proof (reach_sorted ps o b H Hb) as S. split; [|split].
  - induction S as [|x l S IH F]; cbn; constructor; auto. intros Hin. apply in_map_iff in Hin. destruct Hin as (y & E & Hy).
    rewrite Forall_forall in F. specialize (F y Hy). lia.
  - intros k. split.
    + intros Hin. apply in_map_iff in Hin. destruct Hin as ([k' v] & <- & Hin). apply in_split in Hin. destruct Hin as (l1 & l2 & E). rewrite E in *. cbn [fst].
      rewrite (lookup_mid _ _ _ _ S). discriminate.
    + unfold lookup. destruct (find _ _) as [e|] eqn:E; [|intros N; exfalso; apply N; reflexivity]. intros _. apply find_some in E. destruct E as [E1 E2].
      apply Z.eqb_eq in E2. subst k. apply in_map. exact E1.
  - assert (P : xprog_ok ym_init (ps ++ [XSize o])).
    { clear S. revert H Hb. generalize ym_init. induction ps as [|p ps IH]; cbn; intros a H Hb; [split; [rewrite Hb; discriminate|exact I]|]. destruct H. auto. }
    destruct (C42_map_programs _ P) as [-> _].
    assert (E : forall a, ytrace a (ps ++ [XSize o]) = ytrace a ps ++ [res_obs (ystep (yrun a ps) (XSize o))]).
    { clear. induction ps as [|p ps IH]; intros a; cbn [app ytrace yrun]; [reflexivity|]. rewrite IH. reflexivity. }
    rewrite E, last_last. cbn. rewrite Hb. reflexivity.
Qed.

(** A loop over a container visits exactly its entries, in increasing key order, and then reaches end(). *)
Definition loop_from (n len : nat) : list xop := flat_map (fun i => [XDeref i; XNext i]) (seq n len).
Definition for_loop (n len : nat) (o : nat) (chk : bool) : list xop :=
  XBegin o chk :: loop_from n len ++ [XEnd o chk; XEq (n + len) (n + len + 1)].

Lemma ytrace_app ps qs : forall a, ytrace a (ps ++ qs) = ytrace a ps ++ ytrace (yrun a ps) qs.
Proof. induction ps as [|p ps IH]; intros a; [reflexivity|]. cbn [app ytrace yrun]. rewrite IH. reflexivity. Qed.
Lemma xprog_app ps qs : forall a, xprog_ok a ps -> xprog_ok (yrun a ps) qs -> xprog_ok a (ps ++ qs).
Proof. induction ps as [|p ps IH]; intros a H1 H2; [exact H2|]. cbn in *. destruct H1. auto. Qed.

Lemma loop_ok o b chk : forall l2 l1 a, yget a o = Some b -> y_map b = l1 ++ l2 -> ksorted (y_map b) ->
  forall n, length (ym_its a) = S n -> ym_it a n = mkYI o (y_epoch b) (option_map fst (hd_error l2)) chk ->
  xprog_ok a (loop_from n (length l2)) /\
  ytrace a (loop_from n (length l2)) = flat_map (fun e => [Ok (XOEnt e); Ok XONone]) l2 /\
  let a' := yrun a (loop_from n (length l2)) in
  ym_objs a' = ym_objs a /\ length (ym_its a') = S (n + length l2) /\ ym_it a' (n + length l2) = mkYI o (y_epoch b) None chk.
Proof.
  induction l2 as [|[k v] l2 IH]; intros l1 a Hb Hm S n Hn Hit.
  - cbn. rewrite Nat.add_0_r. cbn in Hit. auto.
  - cbn in Hit. assert (Mid : ksorted (l1 ++ (k, v) :: l2)) by (rewrite <- Hm; exact S).
    assert (D : ystep a (XDeref n) = Ok (a, XOEnt (k, v))).
    { cbn [ystep]. cbv zeta. rewrite Hit. cbn [yi_obj yi_epoch yi_key]. rewrite Hb, Nat.eqb_refl, Hm, (lookup_mid _ _ _ _ Mid). reflexivity. }
    set (a1 := yadd a (mkYI o (y_epoch b) (option_map fst (hd_error l2)) chk)).
    assert (N : ystep a (XNext n) = Ok (a1, XONone)).
    { cbn [ystep]. cbv zeta. rewrite Hit. cbn [yi_obj yi_epoch yi_key yi_checked]. rewrite Hb, Nat.eqb_refl, Hm, (first_after_mid _ _ _ _ Mid). reflexivity. }
    assert (L1 : length (ym_its a1) = Datatypes.S (Datatypes.S n)) by (unfold a1; cbn; rewrite app_length; cbn; lia).
    assert (I1 : ym_it a1 (Datatypes.S n) = mkYI o (y_epoch b) (option_map fst (hd_error l2)) chk).
    { unfold ym_it, a1. cbn. rewrite app_nth2 by lia. rewrite Hn, Nat.sub_diag. reflexivity. }
    destruct (IH (l1 ++ [(k, v)]) a1 Hb ltac:(rewrite <- app_assoc; exact Hm) S _ L1 I1) as (P & T & O & L & E).
    unfold loop_from in *. cbn [length seq flat_map app]. cbn [xprog_ok ytrace yrun]. rewrite D. cbn [res_obs res_state]. rewrite N. cbn [res_obs res_state].
    split; [|split; [rewrite T; reflexivity|]].
    + split; [cbn; lia|]. split; [|exact P]. cbn [xop_ok]. split; [lia|]. intros _ _. rewrite Hit. discriminate.
    + cbv zeta. rewrite O, L, <- plus_n_Sm. cbn in E. split; [reflexivity|]. split; [lia|]. exact E.
Qed.

Theorem C42_iteration : forall ps o b chk, xprog_ok ym_init ps -> yget (yrun ym_init ps) o = Some b -> y_iter b = true ->
  let n := length (ym_its (yrun ym_init ps)) in
  let loop := for_loop n (length (y_map b)) o chk in
  ksorted (y_map b) /\
  xtrace xm_init (ps ++ loop) =
    xtrace xm_init ps ++ [Ok XONone] ++ flat_map (fun e => [Ok (XOEnt e); Ok XONone]) (y_map b) ++ [Ok XONone; Ok (XOBool true)].
Proof.
  intros ps o b chk H Hb Hi n loop. pose proof (reach_sorted ps o b H Hb) as S. split; [exact S|]. set (a := yrun ym_init ps) in *.
  set (a1 := yadd a (mkYI o (y_epoch b) (option_map fst (hd_error (y_map b))) chk)).
  assert (B : ystep a (XBegin o chk) = Ok (a1, XONone)) by (cbn; rewrite Hb; reflexivity).
  assert (L1 : length (ym_its a1) = Datatypes.S n) by (unfold a1; cbn; rewrite app_length; cbn; unfold n; lia).
  assert (I1 : ym_it a1 n = mkYI o (y_epoch b) (option_map fst (hd_error (y_map b))) chk).
  { unfold ym_it, a1. cbn. rewrite app_nth2 by (unfold n; lia). unfold n. rewrite Nat.sub_diag. reflexivity. }
  destruct (loop_ok o b chk (y_map b) [] a1 Hb eq_refl S n L1 I1) as (P & T & O & L & E). set (len := length (y_map b)) in *.
  set (a2 := yrun a1 (loop_from n len)) in *.
  assert (Hb2 : yget a2 o = Some b) by (unfold yget; rewrite O; exact Hb).
  set (a3 := yadd a2 (mkYI o (y_epoch b) None chk)).
  assert (B2 : ystep a2 (XEnd o chk) = Ok (a3, XONone)) by (cbn; rewrite Hb2; reflexivity).
  assert (Hb3 : yget a3 o = Some b) by exact Hb2.
  assert (J1 : ym_it a3 (n + len) = mkYI o (y_epoch b) None chk).
  { unfold ym_it, a3 in *. cbn. rewrite app_nth1 by lia. exact E. }
  assert (J2 : ym_it a3 (n + len + 1) = mkYI o (y_epoch b) None chk).
  { unfold ym_it, a3. cbn. rewrite app_nth2 by lia. replace (n + len + 1 - length (ym_its a2))%nat with 0%nat by lia. reflexivity. }
  assert (L3 : length (ym_its a3) = (n + len + 2)%nat) by (unfold a3; cbn; rewrite app_length; cbn; lia).
  assert (PL : xprog_ok a loop).
  { unfold loop, for_loop. cbn [xprog_ok]. rewrite B. cbn [res_state]. split; [cbn; rewrite Hb; exact Hi|]. apply xprog_app; [exact P|]. fold a2. cbn [xprog_ok].
    rewrite B2. cbn [res_state]. split; [cbn; rewrite Hb2; exact Hi|]. split; [|exact I]. cbn [xop_ok]. split; [lia|]. split; [lia|]. left. rewrite J1. unfold ylive. cbn [yi_obj yi_epoch].
    rewrite Hb3. apply Nat.eqb_refl. }
  assert (PA : xprog_ok ym_init (ps ++ loop)) by (apply xprog_app; assumption).
  destruct (C42_map_programs _ PA) as [-> _]. destruct (C42_map_programs _ H) as [-> _]. rewrite ytrace_app. f_equal. fold a.
  unfold loop, for_loop. cbn [ytrace]. rewrite B. cbn [res_obs res_state app]. f_equal. rewrite ytrace_app, T. f_equal. fold a2. cbn [ytrace]. rewrite B2. cbn [res_obs res_state].
  f_equal. f_equal. cbn [ystep]. cbv zeta. rewrite J1, J2. cbn [yi_obj yi_epoch yi_key]. rewrite !Nat.eqb_refl. reflexivity.
Qed.

(** Copies of maps (and sets) keep referring to the container they were copied from: dereferencing end() of a copy is
    undefined behaviour instead of throwing, ... *)
Theorem C42_copy_end_refuted : forall l, In UB (xtrace xm_init [XNew l; XCopy 0; XEnd 1 true; XDeref 0]).
Proof.
  intros l. cbn -[ebuild]. right. right. right. left. unfold xderef, x_alive. cbn -[ebuild]. reflexivity.
Qed.
(** ... and once the original is gone so is any use of the copy's iterators. *)
Theorem C42_copy_dangling_refuted : forall k v, In UB (xtrace xm_init [XNew [(k, v)]; XCopy 0; XDestroy 0; XBegin 1 true; XDeref 0]).
Proof. intros. cbn. auto 6. Qed.
(** Iterators of a map that was moved from by assignment stay valid, and dangle when the target changes. *)
Theorem C42_moved_from_refuted : forall k v,
  In UB (xtrace xm_init [XNew [(k, v)]; XNew []; XBegin 0 true; XMoveAssign 1 0; XClear 1; XDeref 0]).
Proof. intros. cbn. auto 10. Qed.
(** Incrementing a const iterator at the end is undefined behaviour. *)
Theorem C42_const_increment_refuted : forall l, In UB (xtrace xm_init [XNew l; XEnd 0 false; XNext 0]).
Proof. intros. cbn -[ebuild]. auto 10. Qed.

Definition C42_prog : list xop :=
  [XNew [(5, 50); (1, 10); (5, 99)]; XSize 0; XBegin 0 true; XDeref 0; XSet 0 5 51; XNext 0; XDeref 1; XNext 1; XDeref 2; XNext 2; XEnd 0 false; XEq 2 3;
   XSet 0 3 30; XDeref 0; XNext 0; XGet 0 7; XGet 0 3; XErase 0 7; XErase 0 5; XContains 0 5; XCopy 0; XGetOpt 1 1; XMoveNew 0; XSize 0; XSize 2; XClear 0].
Example C42_nonvacuous : xprog_ok ym_init C42_prog /\
  xtrace xm_init C42_prog =
   [Ok XONone; Ok (XOVal 2); Ok XONone; Ok (XOEnt (1, 10)); Ok XONone; Ok XONone; Ok (XOEnt (5, 51)); Ok XONone; Throw IndexError; Throw IndexError; Ok XONone;
    Ok (XOBool true); Ok XONone; Throw InvalidIterator; Throw IndexError; Throw IndexError; Ok (XOVal 30); Ok (XOVal 0); Ok (XOVal 1); Ok (XOBool false); Ok XONone;
    Ok (XOOpt (Some 10)); Ok XONone; Ok (XOVal 0); Ok (XOVal 2); Ok XONone].
Proof.
  split; [apply xprog_okb_ok; vm_compute; reflexivity|vm_compute; reflexivity].
Qed.

(** * C43 *)
Theorem C43_set_programs : forall ps, xprog_ok ym_init ps ->
  xtrace xm_init ps = ytrace ym_init ps /\ ~ In UB (xtrace xm_init ps).
Proof. exact C42_map_programs. Qed.

Definition deref_obs (b : option yobj) (it : yiter) : res xobs :=
  match b with
  | Some b => if Nat.eqb (y_epoch b) (yi_epoch it)
              then match yi_key it with
                   | Some k => match lookup (y_map b) k with Some v => Ok (XOEnt (k, v)) | None => UB end
                   | None => Throw IndexError
                   end
              else Throw InvalidIterator
  | None => Throw InvalidIterator
  end.
Lemma deref_obs_ok a i : res_obs (ystep a (XDeref i)) = deref_obs (yget a (yi_obj (ym_it a i))) (ym_it a i).
Proof.
  cbn [ystep]. cbv zeta. unfold deref_obs. destruct (yget _ _) as [b|]; [|reflexivity]. destruct (Nat.eqb _ _); [|reflexivity]. destruct (yi_key _); [|reflexivity].
  destruct (lookup _ _); reflexivity.
Qed.

(** Inserting does not invalidate iterators; removing does. *)
Theorem C43_insert_keeps_iterators : forall ps o b k i, xprog_ok ym_init ps -> yget (yrun ym_init ps) o = Some b -> y_iter b = true ->
  (i < length (ym_its (yrun ym_init ps)))%nat ->
  last (xtrace xm_init (ps ++ [XInsert o k; XDeref i])) UB = last (xtrace xm_init (ps ++ [XDeref i])) UB.
Proof.
  intros ps o b k i H Hb Hit Hi. set (a := yrun ym_init ps) in *. pose proof (reach_sorted ps o b H Hb) as S.
  assert (P1 : xprog_ok ym_init (ps ++ [XDeref i])) by (apply xprog_app; [exact H|cbn; auto]).
  assert (Lst : forall p, last (ytrace ym_init (ps ++ [p])) UB = res_obs (ystep a p)).
  { intros p. rewrite ytrace_app. cbn [ytrace]. rewrite last_last. reflexivity. }
  assert (P2 : xprog_ok ym_init (ps ++ [XInsert o k; XDeref i])).
  { apply xprog_app; [exact H|]. fold a. cbn [xprog_ok]. split; [cbn; rewrite Hb; exact Hit|]. split; [|exact I]. cbn [xop_ok ystep]. rewrite Hb.
    destruct (lookup (y_map b) k); cbn; rewrite app_length; lia. }
  destruct (C42_map_programs _ P1) as [-> _]. destruct (C42_map_programs _ P2) as [-> _]. rewrite Lst.
  rewrite ytrace_app. fold a. cbn [ytrace]. 
  assert (L2 : forall l (x y : res xobs), last (l ++ [x; y]) UB = y).
  { intros l x y. change [x; y] with ([x] ++ [y]). rewrite app_assoc, last_last. reflexivity. }
  rewrite L2.
  assert (Same : forall a' ii, ym_its a' = ym_its a ++ [ii] -> ym_it a' i = ym_it a i).
  { intros a' ii E. unfold ym_it. rewrite E. apply app_nth1. exact Hi. }
  destruct (xrun_rel ps _ _ xrel_init H) as [mm R]. fold a in R. destruct (xrel_it R i Hi) as (c & _ & _ & _ & _ & _ & E6).
  rewrite !deref_obs_ok. set (it := ym_it a i) in *. cbn [ystep]. rewrite Hb. destruct (lookup (y_map b) k) as [v0|] eqn:Lk; cbn [res_state].
  - rewrite (Same (yadd a (mkYI o (y_epoch b) (Some k) true)) _ eq_refl). reflexivity.
  - set (a' := yput a o _). rewrite (Same (yadd a' (mkYI o (y_epoch b) (Some k) true)) _ eq_refl).
    change (yget (yadd a' _) (yi_obj it)) with (yget a' (yi_obj it)). unfold a', yput.
    rewrite yget_upd by (apply yget_lt in Hb; exact Hb). rewrite ym_eta. destruct (Nat.eqb_spec (yi_obj it) o) as [Eo|Eo]; [|reflexivity].
    rewrite Eo, Hb. unfold deref_obs. cbn [y_epoch y_map]. unfold ylive in E6. rewrite Eo, Hb in E6. destruct (Nat.eqb (y_epoch b) (yi_epoch it)); [|reflexivity].
    destruct (yi_key it) as [kk|]; [|reflexivity]. destruct (C42_spec_is_finite_map (y_map b) k 0 kk) as (-> & _).
    destruct (Z.eqb_spec kk k) as [->|N]; [|reflexivity].
    exfalso. destruct E6 as (bb & F1 & _ & F3). destruct F3 as (n & v & _ & Hin). destruct (xrel_get R o b Hb) as (b0 & Hb0 & C1 & _). rewrite F1 in Hb0. injection Hb0 as <-.
    apply (in_map snd) in Hin. rewrite C1 in Hin. apply in_split in Hin. destruct Hin as (l1 & l2 & El). cbn in El. rewrite El in *. rewrite (lookup_mid _ _ _ _ S) in Lk. discriminate.
Qed.

(** insert(hint, value) trusts its hint. *)
Theorem C43_foreign_hint_refuted : forall k, In UB (xtrace xm_init [XNew [(k, 0)]; XNew []; XBegin 0 true; XInsertHint 1 0 k]).
Proof. intros. cbn. auto 6. Qed.
(** Copies keep referring to the original, as for maps. *)
Theorem C43_copy_refuted : forall k, In UB (xtrace xm_init [XNew [(k, 0)]; XCopy 0; XDestroy 0; XBegin 1 true; XNext 0]).
Proof. intros. cbn. auto 6. Qed.

Definition C43_prog : list xop :=
  [XNew [(4, 0); (2, 0)]; XBegin 0 true; XInsert 0 3; XNext 0; XDeref 2; XInsertHint 0 0 2; XEq 0 3; XSetErase 0 9; XDeref 0; XNext 2; XSize 0; XEnd 0 true; XDeref 4; XNext 4;
   XSetErase 0 3; XContains 0 3; XSize 0].
Example C43_nonvacuous : xprog_ok ym_init C43_prog /\
  xtrace xm_init C43_prog =
   [Ok XONone; Ok XONone; Ok (XOBool true); Ok XONone; Ok (XOEnt (3, 0)); Ok XONone; Ok (XOBool true); Ok (XOVal 0); Throw InvalidIterator; Throw IndexError;
    Ok (XOVal 3); Ok XONone; Throw IndexError; Throw IndexError; Ok (XOVal 1); Ok (XOBool false); Ok (XOVal 2)].
Proof. split; [apply xprog_okb_ok; vm_compute; reflexivity|vm_compute; reflexivity]. Qed.
