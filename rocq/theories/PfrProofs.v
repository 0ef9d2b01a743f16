(** Proofs about propagating function returns. *)
From Coq Require Import List Bool Arith Lia.
From Verif Require Import PfrModel PfrSpec.
Import ListNotations.

Definition placed (pl : list (option name)) (i : nat) (p : name) : Prop := nth_error pl i = Some (Some p).
Fixpoint keep {A} (pl : list (option name)) (l : list A) : list A :=
  match pl, l with
  | None :: pl', x :: l' => x :: keep pl' l'
  | Some _ :: pl', _ :: l' => keep pl' l'
  | _, l => l
  end.
Definition aligned (pl : list (option name)) (es : list expr) : Prop := forall i p, placed pl i p -> nth_error es i = Some (EVar p).
Lemma keep_map A B (f : A -> B) pl l : map f (keep pl l) = keep pl (map f l).
Proof. revert l. induction pl as [|[p|] pl IH]; intros [|x l]; cbn; auto. f_equal. apply IH. Qed.
Lemma keep_exprs_keep pl : forall es, aligned pl es -> keep_exprs pl es = keep pl es.
Proof.
  induction pl as [|o pl IH]; intros [|e es] H; try (destruct o); try reflexivity.
  - pose proof (H 0 n eq_refl) as E. cbn in E. inversion E; subst. cbn. rewrite Nat.eqb_refl. apply IH. intros i p. apply (H (S i)).
  - cbn. rewrite (IH es) by (intros i p; apply (H (S i))). destruct e; reflexivity.
Qed.
Definition sub (a b : list (option name)) : Prop := forall i p, placed a i p -> placed b i p.
Lemma aligned_sub a b es : sub a b -> aligned b es -> aligned a es.
Proof. intros S H i p P. apply H, S, P. Qed.

(** ** Pruning *)
Lemma prune_return_sub es pl : sub (prune_return es pl) pl.
Proof.
  revert pl. induction es as [|e es IH]; intros [|o pl] i p H; cbn in H; try exact H.
  destruct i as [|i]; [|exact (IH pl i p H)]. unfold placed in *. cbn in *. destruct e; try discriminate. destruct o; try discriminate.
  destruct (x =? n); [exact H|discriminate].
Qed.
Lemma prune_return_length es pl : length (prune_return es pl) = length pl.
Proof. revert pl. induction es as [|e es IH]; intros [|o pl]; cbn; auto. Qed.
Lemma prune_return_aligned es pl : length pl <= length es -> aligned (prune_return es pl) es.
Proof.
  revert pl. induction es as [|e es IH]; intros [|o pl] L i p H; cbn in H, L; try (destruct i; discriminate); try lia.
  destruct i as [|i].
  - unfold placed in H. cbn in *. destruct e; try discriminate. destruct o; try discriminate. destruct (Nat.eqb_spec x n); [|discriminate]. congruence.
  - apply (IH pl); [lia|exact H].
Qed.
Lemma prune_all rs : forall pl, (forall es, In es rs -> length pl <= length es) ->
  let r := fold_left (fun pl es => prune_return es pl) rs pl in sub r pl /\ length r = length pl /\ forall es, In es rs -> aligned r es.
Proof.
  induction rs as [|es rs IH]; intros pl L; cbn.
  - split; [intros i p H; exact H|]. split; [reflexivity|intros es []].
  - destruct (IH (prune_return es pl)) as (S & E & A); [intros es' H; rewrite prune_return_length; apply L; right; exact H|]. split; [|split].
    + intros i p H. apply (prune_return_sub es), S, H.
    + rewrite E. apply prune_return_length.
    + intros es' [<-|H]; [|apply A; exact H]. apply (aligned_sub _ _ _ S). apply prune_return_aligned. apply L. left. reflexivity.
Qed.
Lemma prune_names_ok ns pl : length (prune_names ns pl) = length pl /\ sub (prune_names ns pl) pl /\ forall i p, placed (prune_names ns pl) i p -> ~ In p ns.
Proof.
  unfold prune_names, placed. split; [apply map_length|].
  assert (K : forall i p, nth_error (prune_names ns pl) i = Some (Some p) -> nth_error pl i = Some (Some p) /\ ~ In p ns).
  { intros i p H. unfold prune_names in H. rewrite nth_error_map in H. destruct (nth_error pl i) as [[q|]|]; cbn [option_map] in H; try discriminate.
    destruct (existsb (Nat.eqb q) ns) eqn:E; [discriminate|]. inversion H; subst. split; [reflexivity|]. intros X.
    assert (existsb (Nat.eqb p) ns = true) by (apply existsb_exists; exists p; split; [exact X|apply Nat.eqb_refl]). congruence. }
  split; intros i p H; apply (K i p H).
Qed.

(** ** Placements *)
Lemma same_eq a b : same a b = true <-> a = b.
Proof. destruct a, b; cbn; rewrite ?Nat.eqb_eq; split; congruence. Qed.
Lemma merge_ok : forall r l i p, length r = length l -> placed (merge r l) i p -> placed r i p /\ placed l i p.
Proof.
  induction r as [|a r IH]; intros [|b l] i p L H; cbn in L; try discriminate.
  - destruct i; discriminate.
  - destruct i as [|i]; unfold placed in *; cbn in *; [|apply IH; [lia|exact H]].
    destruct (same a b) eqn:E; [|discriminate]. apply same_eq in E. subst. auto.
Qed.
Lemma merge_length : forall r l, length r = length l -> length (merge r l) = length r.
Proof. induction r as [|a r IH]; intros [|b l] L; cbn in *; try discriminate; auto. Qed.
Lemma fold_merge params n us : forall r, length r = n -> (forall u, In u us -> length (lhs u) = n) ->
  forall i p, placed (fold_left (fun r u => merge r (entries params u)) us r) i p -> placed r i p /\ forall u, In u us -> placed (entries params u) i p.
Proof.
  induction us as [|u us IH]; intros r L HL i p H; cbn in H; [split; [exact H|intros u []]|].
  assert (E : length r = length (entries params u)) by (unfold entries; rewrite map_length, (HL u) by (left; reflexivity); exact L).
  apply IH in H as [H1 H2]; [|rewrite merge_length; [exact L|exact E]|intros w HW; apply HL; right; exact HW].
  apply merge_ok in H1 as [H1 H3]; [|exact E]. split; [exact H1|]. intros w [<-|HW]; auto.
Qed.
Lemma placements_ok params uses n : (forall u, In u uses -> length (lhs u) = n) ->
  (length (placements params uses n) = n \/ placements params uses n = [])
  /\ forall i p, placed (placements params uses n) i p -> forall u, In u uses -> placed (entries params u) i p.
Proof.
  intros HL. unfold placements. set (r := fold_left _ uses []).
  assert (K : forall i p, placed r i p -> forall u, In u uses -> placed (entries params u) i p).
  { intros i p H. unfold r in H. destruct uses as [|u us]; [intros u []|]. cbn in H.
    apply (fold_merge params n) in H as [H1 H2]; [|unfold entries; rewrite map_length; apply HL; left; reflexivity|intros w HW; apply HL; right; exact HW].
    intros w [<-|HW]; auto. }
  destruct (Nat.eqb_spec (length (unique r)) n) as [E|E]; [|split; [auto|intros [|i] p H; discriminate]].
  split; [auto|]. intros i p H u HU. apply (K i p); [|exact HU]. unfold placed, unique in *. rewrite nth_error_map in H.
  destruct (nth_error r i) as [[q|]|]; cbn [option_map] in H; try discriminate. destruct (1 <? count q r); [discriminate|]. exact H.
Qed.
Lemma pruned_ok params uses n b : well_typed params b uses n -> let pl := pruned params uses n b in
  (length pl = n \/ pl = []) /\ (forall es, In es (returns b) -> aligned pl es) /\ (forall i p, placed pl i p -> ~ In p (other_names b))
  /\ (forall i p, placed pl i p -> forall u, In u uses -> placed (entries params u) i p).
Proof.
  intros (_ & HU & HR). cbn zeta. unfold pruned. destruct (placements_ok params uses n (fun u H => proj2 (HU u H))) as [L P].
  destruct (prune_names_ok (other_names b) (placements params uses n)) as (L2 & S2 & N2). set (pl := prune_names _ _) in *.
  destruct (prune_all (returns b) pl) as (S3 & L3 & A3).
  { intros es H. rewrite (HR es H), L2. destruct L as [L|L]; rewrite L; cbn; lia. }
  repeat split.
  - rewrite L3, L2. destruct L as [L|L]; [auto|]. right. apply length_zero_iff_nil. rewrite L3, L2, L. reflexivity.
  - exact A3.
  - intros i p H. apply (N2 i). apply S3. exact H.
  - intros i p H. apply P, S2, S3. exact H.
Qed.

(** ** The function *)
Lemma run_new pl b : (forall es, In es (returns b) -> aligned pl es) -> forall v s, run (new_body pl b) v s = (keep pl (fst (run b v s)), snd (run b v s)).
Proof.
  induction b as [es|x e k IH|x e k IH|f e k IH|e k IH|x i k IH|e a IHa b IHb]; cbn [returns new_body run]; intros A v s.
  - cbn. rewrite keep_exprs_keep by (apply A; left; reflexivity). rewrite keep_map. reflexivity.
  - destruct (store x (ev v s e) v s) as [v' s']. apply IH. exact A.
  - apply IH. exact A.
  - apply IH. exact A.
  - apply IH. exact A.
  - cbn zeta. destruct i; [|apply IH; exact A]. destruct (store x _ v _) as [v' s']. apply IH. exact A.
  - destruct (ev v s e =? 0); [apply IHb|apply IHa]; intros es H; apply A; apply in_or_app; auto.
Qed.
Lemma run_length b n : (forall es, In es (returns b) -> length es = n) -> forall v s, length (fst (run b v s)) = n.
Proof.
  induction b as [es|x e k IH|x e k IH|f e k IH|e k IH|x i k IH|e a IHa b IHb]; cbn [returns run]; intros A v s.
  - cbn. rewrite map_length. apply A. left. reflexivity.
  - destruct (store x (ev v s e) v s) as [v' s']. apply IH. exact A.
  - apply IH. exact A.
  - apply IH. exact A.
  - apply IH. exact A.
  - cbn zeta. destruct i; [|apply IH; exact A]. destruct (store x _ v _) as [v' s']. apply IH. exact A.
  - destruct (ev v s e =? 0); [apply IHb|apply IHa]; intros es H; apply A; apply in_or_app; auto.
Qed.
Lemma find_change x n v p : x <> p -> find p (change x n v) = find p v.
Proof.
  intros N. induction v as [|[y m] v IH]; cbn; [reflexivity|]. destruct (Nat.eqb_spec x y) as [->|N2]; cbn.
  - destruct (Nat.eqb_spec p y); [congruence|reflexivity].
  - destruct (p =? y); [reflexivity|exact IH].
Qed.
Lemma find_store x n v s p : x <> p -> find p (fst (store x n v s)) = find p v.
Proof. intros N. unfold store. destruct (find x v); [apply find_change; exact N|reflexivity]. Qed.
Lemma run_param pl b : (forall es, In es (returns b) -> aligned pl es) -> forall i p, placed pl i p ->
  ~ In p (other_names b) -> ~ In p (declared b) -> ~ In p (by_reference b) -> forall v s n, find p v = Some n -> nth_error (fst (run b v s)) i = Some n.
Proof.
  intros A i p P. induction b as [es|x e k IH|x e k IH|f e k IH|e k IH|x io k IH|e a IHa b IHb]; cbn [returns run other_names declared by_reference] in *; intros N1 N2 N3 v s n H.
  - cbn. rewrite nth_error_map, (A es (or_introl eq_refl) i p P). cbn. unfold get. rewrite H. reflexivity.
  - cbn in N1. rewrite in_app_iff in N1. pose proof (find_store x (ev v s e) v s p ltac:(tauto)) as F. destruct (store x (ev v s e) v s) as [v' s'].
    cbn in F. apply IH; auto; try tauto. congruence.
  - cbn in N2. rewrite in_app_iff in N1. apply IH; auto; try tauto. cbn. destruct (Nat.eqb_spec p x); [subst; tauto|exact H].
  - rewrite in_app_iff in N1. apply IH; auto; tauto.
  - rewrite in_app_iff in N1. apply IH; auto; tauto.
  - cbn zeta. destruct io; [|apply IH; auto]. cbn in N3.
    pose proof (find_store x (S (get v s x)) v (put (get v s x) s) p ltac:(tauto)) as F. destruct (store x _ v _) as [v' s']. cbn in F. apply IH; auto; try tauto. congruence.
  - rewrite !in_app_iff in *. destruct (ev v s e =? 0); [apply IHb|apply IHa]; auto; try tauto; intros es HE; apply A; apply in_or_app; auto.
Qed.
Lemma find_bound x v : existsb (Nat.eqb x) (map fst v) = match find x v with Some _ => true | None => false end.
Proof. induction v as [|[y n] v IH]; cbn; [reflexivity|]. destruct (x =? y); [reflexivity|exact IH]. Qed.
Lemma change_bound x n v : map fst (change x n v) = map fst v.
Proof. induction v as [|[y m] v IH]; cbn; [reflexivity|]. destruct (x =? y); cbn; [|rewrite IH]; reflexivity. Qed.
Lemma run_globals b : forall v s x, ~ In x (globals_set (map fst v) b) -> vars (snd (run b v s)) x = vars s x.
Proof.
  assert (ST : forall z n k v s x, ~ In x (if existsb (Nat.eqb z) (map fst v) then globals_set (map fst v) k else z :: globals_set (map fst v) k) ->
    ~ In x (globals_set (map fst (fst (store z n v s))) k) /\ vars (snd (store z n v s)) x = vars s x).
  { intros z n k v s x H. rewrite find_bound in H. unfold store. destruct (find z v); cbn.
    - rewrite change_bound. auto.
    - cbn in H. split; [tauto|]. unfold upd. destruct (Nat.eqb_spec z x); [subst; tauto|reflexivity]. }
  induction b as [es|z e k IH|z e k IH|f e k IH|e k IH|z i k IH|e a IHa b IHb]; cbn [globals_set run]; intros v s x H.
  - reflexivity.
  - destruct (ST z (ev v s e) k v s x H) as [H1 H2]. destruct (store z (ev v s e) v s) as [v' s']. cbn [fst snd] in *. rewrite <- H2. apply IH. exact H1.
  - apply (IH ((z, ev v s e) :: v)). exact H.
  - rewrite IH by exact H. reflexivity.
  - rewrite IH by exact H. reflexivity.
  - cbn zeta. destruct i; [|rewrite IH by exact H; reflexivity].
    destruct (ST z (S (get v s z)) k v (put (get v s z) s) x H) as [H1 H2]. destruct (store z _ v _) as [v' s']. cbn [fst snd] in *.
    rewrite (IH v' s' x H1), H2. reflexivity.
  - rewrite in_app_iff in H. destruct (ev v s e =? 0); [apply IHb|apply IHa]; tauto.
Qed.

(** ** The caller *)
Lemma find_app x (a b : env) : find x (a ++ b) = match find x a with Some n => Some n | None => find x b end.
Proof. induction a as [|[y n] a IH]; cbn; [reflexivity|]. destruct (x =? y); [reflexivity|exact IH]. Qed.
Lemma param_map_in args : forall params x p, mapped (param_map args params) x = Some p -> exists j, nth_error args j = Some (EVar x) /\ nth_error params j = Some p.
Proof.
  unfold mapped. induction args as [|a args IH]; intros [|q params] x p H; cbn in H; try discriminate. rewrite find_app in H.
  destruct (find x (param_map args params)) as [w|] eqn:E.
  - inversion H; subst. destruct (IH _ _ _ E) as (j & H1 & H2). exists (S j). auto.
  - destruct a; cbn in H; try discriminate. destruct (Nat.eqb_spec x x0); [|discriminate]. inversion H; subst. exists 0. auto.
Qed.
Lemma find_combine params (vals : list nat) : NoDup params -> forall j p n, nth_error params j = Some p -> nth_error vals j = Some n -> find p (combine params vals) = Some n.
Proof.
  intros ND. revert vals. induction ND as [|q params N ND IH]; intros [|m vals] [|j] p n H1 H2; cbn in *; try discriminate.
  - inversion H1; inversion H2; subst. rewrite Nat.eqb_refl. reflexivity.
  - destruct (Nat.eqb_spec p q) as [->|]; [|eapply IH; eauto]. exfalso. apply N. apply nth_error_In in H1. exact H1.
Qed.
Lemma combine_fst (params : list name) (vals : list nat) : length params = length vals -> map fst (combine params vals) = params.
Proof. revert vals. induction params as [|p params IH]; intros [|m vals] H; cbn in *; try discriminate; [reflexivity|]. f_equal. apply IH. lia. Qed.
Lemma same_assign x n a b : same_state a b -> same_state (set_var x n a) (set_var x n b).
Proof. intros (H1 & H2 & H3). repeat split; cbn; auto. intros y. unfold upd. destruct (x =? y); auto. Qed.
Lemma assign_same : forall xs rs pl a b, length pl = length xs -> length rs = length xs -> NoDup xs -> same_state a b ->
  (forall i p x n, placed pl i p -> nth_error xs i = Some x -> nth_error rs i = Some n -> vars b x = n) ->
  same_state (assign_all (map LVar (keep pl xs)) (keep pl rs) a) (assign_all (map LVar xs) rs b).
Proof.
  induction xs as [|x xs IH]; intros [|n rs] [|o pl] a b L1 L2 ND S H; cbn in L1, L2; try discriminate; [exact S|].
  inversion ND as [|? ? N1 N2]; subst. cbn [map assign_all assign].
  assert (H' : forall c, (forall y, In y xs -> vars c y = vars b y) -> forall i p y m, placed pl i p -> nth_error xs i = Some y -> nth_error rs i = Some m -> vars c y = m).
  { intros c HC i p y m P X R. rewrite HC by (apply nth_error_In in X; exact X). apply (H (Datatypes.S i) p); assumption. }
  assert (HB : forall y, In y xs -> vars (set_var x n b) y = vars b y).
  { intros y HY. cbn. unfold upd. destruct (Nat.eqb_spec x y); [subst; contradiction|reflexivity]. }
  destruct o as [p|]; cbn [keep map assign_all assign].
  - apply IH; [lia|lia|exact N2| |exact (H' _ HB)]. destruct S as (S1 & S2 & S3). repeat split; cbn; auto. intros y. rewrite S1. unfold upd. destruct (Nat.eqb_spec x y) as [->|]; [|reflexivity].
    apply (H 0 p); reflexivity.
  - apply IH; [lia|lia|exact N2| |exact (H' _ HB)]. apply same_assign. exact S.
Qed.
Lemma keep_none A pl (l : list A) : existsb (fun o : option name => match o with Some _ => true | None => false end) pl = false -> keep pl l = l.
Proof. revert l. induction pl as [|[p|] pl IH]; intros [|x l] H; cbn in *; try discriminate; auto. f_equal. apply IH. exact H. Qed.
Lemma filter_keep A (f : A -> bool) : forall pl l, length pl = length l ->
  (forall i a, nth_error l i = Some a -> f a = match nth_error pl i with Some None => true | _ => false end) -> filter f l = keep pl l.
Proof.
  induction pl as [|o pl IH]; intros [|a l] L H; cbn in L; try discriminate; [reflexivity|].
  pose proof (H 0 a eq_refl) as H0. cbn in *. rewrite H0. destruct o; [|f_equal]; apply IH; auto; intros i c; apply (H (S i)).
Qed.
Lemma is_placed_in pl p : is_placed pl p = true <-> exists i, placed pl i p.
Proof.
  unfold is_placed, placed. rewrite existsb_exists. split.
  - intros (o & H & E). apply same_eq in E. subst. apply In_nth_error in H. exact H.
  - intros (i & H). exists (Some p). split; [apply nth_error_In in H; exact H|apply same_eq; reflexivity].
Qed.

Theorem call_same params b uses n u s : well_typed params b uses n -> plain params b -> In u uses -> plain_use params b u ->
  same_state (new_call params b uses n u s) (call params b u s).
Proof.
  intros W PB HU (xs & EL & NDx & HG). destruct (pruned_ok params uses n b W) as (L & A & N & E). destruct W as (NDp & HW & HR).
  unfold new_call. cbn zeta. set (pl := pruned params uses n b) in *. destruct (HW u HU) as [LA LL].
  unfold call. cbn [args new_use]. rewrite (run_new pl b A). set (v := combine params (map (ev [] s) (args u))).
  pose proof (run_length b n HR v s) as LR. pose proof (run_globals b v s) as RG.
  pose proof (fun i p P H1 H2 H3 => run_param pl b A i p P H1 H2 H3 v s) as RP.
  destruct (run b v s) as [rs s'] eqn:R. cbn [fst snd] in *.
  assert (FV : map fst v = params) by (apply combine_fst; rewrite map_length; congruence). rewrite FV in RG.
  destruct (existsb (fun o : option name => match o with Some _ => true | None => false end) pl) eqn:EX.
  - assert (LP : length pl = n) by (destruct L as [L|L]; [exact L|rewrite L in EX; discriminate]).
    assert (LX : length xs = n) by (rewrite EL, map_length in LL; exact LL).
    (* the entry of a placed one *)
    assert (PX : forall i p, placed pl i p -> exists x j, nth_error xs i = Some x /\ mapped (param_map (args u) params) x = Some p /\ nth_error (args u) j = Some (EVar x) /\ nth_error params j = Some p).
    { intros i p P. pose proof (E i p P u HU) as E0. unfold placed, entries in E0. rewrite EL, map_map, nth_error_map in E0.
      destruct (nth_error xs i) as [x|]; cbn [option_map entry] in E0; [|discriminate]. injection E0 as E1. destruct (param_map_in _ _ _ _ E1) as (j & J1 & J2). exists x, j. split; [reflexivity|]. split; [exact E1|]. auto. }
    assert (FL : filter (keep_lval pl (param_map (args u) params)) (lhs u) = map LVar (keep pl xs)).
    { rewrite keep_map, EL. apply filter_keep; [rewrite map_length; congruence|]. intros i a H. rewrite nth_error_map in H.
      destruct (nth_error xs i) as [x|] eqn:X; cbn in H; [|discriminate]. inversion H; subst a. cbn [keep_lval].
      destruct (nth_error pl i) as [[p|]|] eqn:P.
      - destruct (PX i p P) as (x' & j & X1 & X2 & _). assert (x' = x) by congruence. subst x'. rewrite X2.
        rewrite (proj2 (is_placed_in pl p)); [reflexivity|]. exists i. exact P.
      - destruct (mapped (param_map (args u) params) x) as [p|] eqn:M; [|reflexivity]. destruct (is_placed pl p) eqn:IP; [|reflexivity]. exfalso.
        apply is_placed_in in IP as (k & K). destruct (PX k p K) as (x' & j & X1 & X2 & J1 & J2). destruct (param_map_in _ _ _ _ M) as (j' & J1' & J2').
        assert (j = j') by (apply (proj1 (NoDup_nth_error params) NDp); [apply nth_error_Some; congruence|congruence]). subst j'.
        assert (x' = x) by congruence. subst x'.
        assert (k = i) by (apply (proj1 (NoDup_nth_error xs) NDx); [apply nth_error_Some; congruence|congruence]). subst k. unfold placed in K. congruence.
      - apply nth_error_None in P. assert (i < length xs) by (apply nth_error_Some; congruence). lia. }
    unfold new_use. cbn [lhs]. rewrite EX, FL, EL. apply assign_same; auto; try congruence; [repeat split|].
    intros i p x m P X R0. destruct (PX i p P) as (x' & j & X1 & X2 & J1 & J2). assert (x' = x) by congruence. subst x'.
    destruct (PB p ltac:(apply nth_error_In in J2; exact J2)) as [B1 B2].
    assert (F : find p v = Some (vars s x)).
    { apply (find_combine params _ NDp j); [exact J2|]. rewrite nth_error_map, J1. reflexivity. }
    pose proof (RP i p P (N i p P) B1 B2 _ F) as Q. rewrite RG by (apply HG; apply nth_error_In in X; exact X). congruence.
  - unfold new_use. cbn [lhs]. rewrite EX, (keep_none _ pl rs EX). repeat split.
Qed.
Lemma occurs_names p e : occurs p e -> In p (names e).
Proof. induction 1; cbn; rewrite ?in_app_iff; auto. Qed.
Lemma used_names p : forall b, used p b -> In p (other_names b).
Proof.
  induction b; inversion 1; subst; cbn [other_names]; cbn [In]; rewrite ?in_app_iff;
    repeat match goal with H : _ \/ _ |- _ => destruct H end; auto using occurs_names.
  apply in_flat_map. exists e. split; [assumption|].
  destruct e; try (cbn; fail); cbn [inner]; try (apply occurs_names; assumption).
  inversion H3; subst. congruence.
Qed.
