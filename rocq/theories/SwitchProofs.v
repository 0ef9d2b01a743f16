(** Proofs about switches by look-ahead. *)
From Coq Require FinFun.
From Verif Require Import Base GrammarModel GrammarSpec GrammarProofs GrammarProofs2 GrammarProofs3 GrammarProps LahModel LahSpec LahSpec2 LahProofs LahProofs2 LahProofs3 LahProofs4 SwitchModel SwitchSpec.
Local Open Scope nat_scope.

(** ** The links *)
Lemma add_links_nodup ls : forall have, NoDup (map k_sym ls) -> (forall k, In k ls -> ~ In (k_sym k) have) -> add_links have ls = ls.
Proof.
  induction ls as [|k ls IH]; intros have N H; [reflexivity|]. cbn [add_links]. inversion N as [|? ? N1 N2]; subst.
  rewrite (proj2 (mem_false _ _) (H k (or_introl eq_refl))). f_equal. apply IH; [exact N2|]. intros k' I [Q | Q].
  - apply N1. rewrite Q. apply in_map. exact I.
  - exact (H k' (or_intror I) Q).
Qed.
Lemma add_links_reach a : forall have k b, NoDup (map k_sym (a ++ [k])) -> (forall k', In k' (a ++ [k]) -> ~ In (k_sym k') have) -> In k (add_links have (a ++ k :: b)).
Proof.
  induction a as [|x a IH]; intros have k b N H; cbn [app add_links].
  - rewrite (proj2 (mem_false _ _) (H k (or_introl eq_refl))). left. reflexivity.
  - cbn [app map] in N. inversion N as [|? ? N1 N2]; subst. rewrite (proj2 (mem_false _ _) (H x (or_introl eq_refl))). right. apply IH; [exact N2|].
    intros k' I [Q | Q]; [apply N1; rewrite Q; apply in_map; exact I|exact (H k' (or_intror I) Q)].
Qed.

(** What the links are when only the first two cases may be defaults. *)
Fixpoint up (lha : nat -> sym) (i : nat) (d : ldefault) (prev : sym) (cs : list sym) : list link :=
  match cs with [] => [] | c :: cs' => mkLink (lha i) prev c d :: up lha (S i) d (lha i) cs' end.
Lemma link_up_plain lha cs : forall i d prev, (forall c, In c cs -> c_default c = false) -> link_up lha i d prev cs = up lha (S i) d prev (map c_sym cs).
Proof.
  induction cs as [|c cs IH]; intros i d prev H; [reflexivity|]. cbn [link_up map up]. rewrite (H c (or_introl eq_refl)). f_equal. apply IH. intros c' I. apply H. right. exact I.
Qed.
Definition start_at (c : scase) (cs : list scase) : nat := match cs with d :: _ => if c_default d then (if c_default c then 0 else 1) else (if c_default c then 1 else 2) | [] => 0 end.
Definition mode_of (c : scase) (cs : list scase) : ldefault := match cs with d :: _ => if c_default d then DSecond else if c_default c then DFirst else DNone | [] => DNone end.
Lemma links_plain lha c d cs : (forall c, In c cs -> c_default c = false) -> links lha (c :: d :: cs) = up lha (start_at c (d :: cs)) (mode_of c (d :: cs)) (c_sym c) (map c_sym (d :: cs)).
Proof.
  intros H. cbn [links link_up map up start_at mode_of]. rewrite (link_up_plain lha cs _ _ _ H). destruct (c_default c), (c_default d); reflexivity.
Qed.
Lemma up_names lha cs : forall i d prev, map k_sym (up lha i d prev cs) = map lha (List.seq i (length cs)).
Proof. induction cs as [|c cs IH]; intros; [reflexivity|]. cbn. f_equal. apply IH. Qed.
Lemma up_in lha cs : forall i d prev k, In k (up lha i d prev cs) ->
  In (k_second k) cs /\ k_default k = d /\ exists j, i <= j < i + length cs /\ k_sym k = lha j /\ ((j = i /\ k_first k = prev) \/ (exists j', j = S j' /\ i <= j' /\ k_first k = lha j')).
Proof.
  induction cs as [|c cs IH]; intros i d prev k; [intros []|]. cbn [up]. intros [<- | H]; cbn [k_second k_default k_sym k_first length].
  - split; [left; reflexivity|]. split; [reflexivity|]. exists i. split; [lia|]. auto.
  - destruct (IH _ _ _ _ H) as (A & B & j & L & S1 & K). split; [right; exact A|]. split; [exact B|]. exists j. split; [lia|]. split; [exact S1|]. right.
    destruct K as [(-> & F) | (j' & -> & L' & F)]; [exists i|exists j']; repeat split; auto; lia.
Qed.
Lemma names_nodup (lha : nat -> sym) i n : (forall i j, lha i = lha j -> i = j) -> NoDup (map lha (List.seq i n)).
Proof.
  intros IN. apply FinFun.Injective_map_NoDup; [exact IN|apply seq_NoDup].
Qed.
Lemma link_up_app lha a : forall i d prev b, (forall c, In c a -> c_default c = false) ->
  link_up lha i d prev (a ++ b) = link_up lha i d prev a ++ link_up lha (i + length a) d (match a with [] => prev | _ => lha (i + length a) end) b.
Proof.
  induction a as [|c a IH]; intros i d prev b H; [cbn; rewrite Nat.add_0_r; reflexivity|]. cbn [app link_up length]. rewrite (H c (or_introl eq_refl)).
  rewrite IH by (intros c' I; apply H; right; exact I). cbn [app]. f_equal. f_equal. replace (S i + length a) with (i + S (length a)) by lia. f_equal. destruct a; [cbn; f_equal; lia|reflexivity].
Qed.
(** A default that comes third or later gets the name of the link before. *)
Lemma late_default lha c a d b : (forall i j, lha i = lha j -> i = j) -> a <> [] -> (forall c, In c (a ++ b) -> c_default c = false) -> c_default d = true ->
  exists k, In k (added lha (c :: a ++ d :: b)) /\ k_first k = k_sym k /\ k_second k = c_sym d.
Proof.
  intros IN NA H D. unfold added. cbn [links]. set (i := if c_default c then 0 else 1). set (dd := if c_default c then DFirst else DNone).
  rewrite link_up_app by (intros c' I; apply H; apply in_app_iff; left; exact I). cbn [link_up]. rewrite D.
  set (n := i + length a). destruct a as [|a0 a]; [congruence|]. set (k := mkLink (lha n) (lha n) (c_sym d) DSecond). rewrite (link_up_plain lha b) by (intros c' I; apply H; apply in_app_iff; right; exact I).
  exists k. split; [|split; reflexivity]. rewrite rev_app_distr. cbn [rev]. rewrite <- app_assoc. cbn [app]. apply add_links_reach; [|intros ? _ []].
  assert (N : NoDup (map k_sym (k :: up lha (S n) DSecond (lha n) (map c_sym b)))).
  { cbn [map]. rewrite up_names. change (k_sym k) with (lha n). change (lha n :: map lha (List.seq (S n) (length (map c_sym b)))) with (map lha (List.seq n (S (length (map c_sym b))))). apply names_nodup. exact IN. }
  apply NoDup_rev in N. rewrite <- map_rev in N. exact N.
Qed.

Section G.
Context (g : grammar).
Lemma look_split q a b after t : find g q = Some (PLook a b) -> FstL g (q :: after) t -> FstL g (a :: after) t \/ FstL g (b :: after) t.
Proof.
  intros F H. assert (RR : rhss_of g q = [[a]; [b]]) by (unfold rhss_of; rewrite F; reflexivity).
  change (q :: after) with ([q] ++ after) in H. apply FstL_app in H. change (a :: after) with ([a] ++ after). change (b :: after) with ([b] ++ after). rewrite !FstL_app.
  destruct H as [H | (N & H)].
  - apply FstL_one in H. inversion H as [t0 TK|s rhs pre x post t0 I E NP FX]; subst.
    + destruct TK as (p & F' & L & _). rewrite F in F'. injection F' as <-. discriminate.
    + rewrite RR in I. cbn [In] in I. rewrite !FstL_one. destruct I as [I | [I | []]]; destruct pre as [|? [|]]; try discriminate; injection I as ->; auto.
  - inversion N as [|s l NS _]; subst. inversion NS as [s F'|s rhs I NR]; subst; [congruence|]. rewrite RR in I. destruct I as [<- | [<- | []]]; auto.
Qed.
Lemma nul_look q a b : find g q = Some (PLook a b) -> Nul g q -> Nul g a \/ Nul g b.
Proof.
  intros F N. inversion N as [s F'|s rhs I NR]; subst; [congruence|]. unfold rhss_of in I. rewrite F in I. destruct I as [<- | [<- | []]]; inversion NR; subst; auto.
Qed.
(** A production that is its own alternative adds nothing. *)
Lemma fst_self q b t : find g q = Some (PLook q b) -> Fst g q t -> Fst g b t.
Proof.
  intros F H. remember q as s eqn:E. induction H as [t TK|s rhs pre x post t I -> NP FX IH]; subst.
  - destruct TK as (p & F' & L & _). rewrite F in F'. injection F' as <-. discriminate.
  - unfold rhss_of in I. rewrite F in I. destruct I as [I | [I | []]]; destruct pre as [|? [|]]; try discriminate; injection I as <-; auto.
Qed.
Lemma nul_self q b : find g q = Some (PLook q b) -> Nul g q -> Nul g b.
Proof.
  intros F. enough (H : (forall s, Nul g s -> s = q -> Nul g b) /\ (forall l, NulL g l -> l = [q] -> Nul g b)) by (intros N; apply (proj1 H q N eq_refl)).
  apply Nul_both.
  - intros s E ->. congruence.
  - intros s rhs I N IH ->. unfold rhss_of in I. rewrite F in I. destruct I as [<- | [<- | []]]; [apply IH; reflexivity|]. inversion N; subst. assumption.
  - discriminate.
  - intros s l N IH _ _ E. injection E as -> ->. apply IH. reflexivity.
Qed.
End G.
Lemma self_not_accepted g q b m n g' t : complete g -> reached g q -> find g q = Some (PLook q b) -> finalize m n g <> Some (Accepted g' t).
Proof.
  intros C RE F H. destruct (finalize_inv _ _ _ _ _ C H) as (SF & SO & FI & CH). pose proof (sf_complete _ _ SF) as C'. pose proof (reached_path _ _ RE) as PT.
  assert (F' : find g' q = Some (PLook q b)) by (rewrite (sf_find _ _ SF q PT); exact F).
  pose proof (find_nterm _ _ _ _ C' F') as I. pose proof (check_none _ _ _ CH q I) as K. unfold check_one in K. rewrite F' in K. unfold look_ahead_sets in K.
  destruct (look_all g' t q q C' SO) as (v0 & E0). destruct (look_all g' t b q C' SO) as (v1 & E1). rewrite E0, E1 in K.
  assert (A : forall z, In z v1 <-> In z v0).
  { assert (RB : rhss_of g' q = [[q]; [b]]) by (unfold rhss_of; rewrite F'; reflexivity).
    assert (X : forall a v z, look_aheads g' t a q = Some v -> In z v -> Fst g' a z \/ (Nul g' a /\ Flw g' q z)).
    { intros a v z L Z. unfold look_aheads in L. cbv zeta in L. match type of L with (if ?c then _ else _) = _ => destruct c; [|discriminate L] end. injection L as <-. destruct (is_nullable g' t a) eqn:NU; rewrite ?union_In in Z; cbn [In] in Z.
      - destruct Z as [[[] | Z] | Z]; [left; eapply get_first_sound; eassumption|right]. split; [eapply nullable_sound; eassumption|apply SO; exact Z].
      - destruct Z as [[] | Z]. left. eapply get_first_sound; eassumption. }
    intros z. split; intros Z.
    - apply (X b v1 z E1) in Z. apply (look_in g' t q q z v0 C' FI I E0). destruct Z as [Z | (Z & W)]; [left|right].
      + apply (fst_rhs g' q [b] [] b [] z); [rewrite RB; right; left; reflexivity|reflexivity|constructor|exact Z].
      + split; [|exact W]. apply (nul_rhs g' q [b]); [rewrite RB; right; left; reflexivity|]. constructor; [exact Z|constructor].
    - apply (X q v0 z E0) in Z. apply (look_in g' t b q z v1 C' FI I E1). destruct Z as [Z | (Z & W)]; [left|right].
      + apply (fst_self g' q b z F' Z).
      + split; [apply (nul_self g' q b F' Z)|exact W]. }
  destruct v0 as [|z v0].
  - destruct v1 as [|z v1]; [discriminate|]. destruct (proj1 (A z) (or_introl eq_refl)).
  - assert (EX : existsb (fun x => if in_dec text_eq_dec x (map (dump_of g') v1) then true else false) (map (dump_of g') (z :: v0)) = true).
    { apply existsb_exists. exists (dump_of g' z). split; [left; reflexivity|]. destruct (in_dec _ _ _) as [|NI]; [reflexivity|]. exfalso. apply NI. apply in_map. apply A. left. reflexivity. }
    rewrite EX in K. discriminate.
Qed.
