(** Proof of C42 and C43, part 1: contents. *)
From Coq Require Import Sorted.
From Verif Require Import Base BytesModel BytesSpec BytesProofs3 AssocModel AssocSpec.
Open Scope Z_scope.

Definition ksorted (l : list (Z * Z)) : Prop := StronglySorted (fun a b => fst a < fst b) l.
Definition nids (es : list ent) : list nat := map fst es.

Lemma filter_map_comm {A B} (f : A -> B) (p : B -> bool) l : filter p (map f l) = map f (filter (fun a => p (f a)) l).
Proof. induction l as [|a l IH]; cbn; [reflexivity|]. destruct (p (f a)); cbn; rewrite IH; reflexivity. Qed.
Lemma find_map_comm {A B} (f : A -> B) (p : B -> bool) l : find p (map f l) = option_map f (find (fun a => p (f a)) l).
Proof. induction l as [|a l IH]; cbn; [reflexivity|]. destruct (p (f a)); cbn; auto. Qed.

Lemma lookup_efind es k : lookup (map snd es) k = option_map (fun e => snd (snd e)) (efind k es).
Proof. unfold lookup. rewrite find_map_comm. change (find _ es) with (efind k es). destruct (efind k es); reflexivity. Qed.
Lemma efind_some es k e : efind k es = Some e -> In e es /\ ekey e = k.
Proof. intros H. apply find_some in H. destruct H as [H1 H2]. apply Z.eqb_eq in H2. auto. Qed.
Lemma efind_none es k : efind k es = None -> forall e, In e es -> ekey e <> k.
Proof. intros H e He E. pose proof (find_none _ _ H e He) as N. cbn in N. apply Z.eqb_neq in N. auto. Qed.
Lemma map_einsert n k v es : map snd (einsert n k v es) = put (map snd es) k v.
Proof. unfold einsert, put. rewrite map_app. cbn [map]. rewrite !filter_map_comm. reflexivity. Qed.
Lemma map_eerase k es : map snd (eerase k es) = del (map snd es) k.
Proof. unfold eerase, del. rewrite filter_map_comm. reflexivity. Qed.
Lemma map_erenew n es : map snd (erenew n es) = map snd es.
Proof.
  unfold erenew. revert n. induction es as [|e es IH]; intros n; cbn; [reflexivity|]. f_equal. apply IH.
Qed.

(** Sorted lists *)
Lemma sorted_app l1 l2 : ksorted (l1 ++ l2) <-> ksorted l1 /\ ksorted l2 /\ forall a b, In a l1 -> In b l2 -> fst a < fst b.
Proof.
  unfold ksorted. induction l1 as [|x l1 IH]; cbn; [split; [intros H; split; [constructor|split; [exact H|intros ? ? []]]|intros (_ & H & _); exact H]|].
  split.
  - intros H. inversion H as [|? ? H1 H2]; subst. apply IH in H1. destruct H1 as (A & B & C). rewrite Forall_app in H2. destruct H2 as [D E].
    split; [constructor; assumption|]. split; [exact B|]. intros a b [<-|Ha] Hb; [rewrite Forall_forall in E; auto|auto].
  - intros (A & B & C). inversion A as [|? ? A1 A2]; subst. constructor; [apply IH; auto|]. apply Forall_app. split; [exact A2|].
    apply Forall_forall. intros b Hb. apply C; auto.
Qed.
Lemma sorted_filter p l : ksorted l -> ksorted (filter p l).
Proof.
  unfold ksorted. induction 1 as [|x l H1 IH H2]; cbn; [constructor|]. destruct (p x); [|exact IH]. constructor; [exact IH|].
  rewrite Forall_forall in *. intros y Hy. apply filter_In in Hy. apply H2. tauto.
Qed.
Lemma sorted_put l k v : ksorted l -> ksorted (put l k v).
Proof.
  intros H. unfold put. apply sorted_app. split; [apply sorted_filter; exact H|]. split.
  - constructor; [apply sorted_filter; exact H|]. apply Forall_forall. intros y Hy. apply filter_In in Hy. cbn. lia.
  - intros a b Ha Hb. apply filter_In in Ha. destruct Hb as [<-|Hb]; cbn; [lia|]. apply filter_In in Hb. lia.
Qed.
Lemma sorted_del l k : ksorted l -> ksorted (del l k).
Proof. apply sorted_filter. Qed.
Lemma sorted_build l : forall m, ksorted m -> ksorted (build l m).
Proof. induction l as [|[k v] l IH]; intros m H; cbn; [exact H|]. apply IH. destruct (lookup m k); [exact H|apply sorted_put; exact H]. Qed.

Lemma filter_all {A} (p : A -> bool) l : (forall x, In x l -> p x = true) -> filter p l = l.
Proof. induction l as [|a l IH]; cbn; intros H; [reflexivity|]. rewrite (H a) by auto. f_equal. apply IH. auto. Qed.
Lemma filter_none {A} (p : A -> bool) l : (forall x, In x l -> p x = false) -> filter p l = [].
Proof. induction l as [|a l IH]; cbn; intros H; [reflexivity|]. rewrite (H a) by auto. apply IH. auto. Qed.

Lemma put_mid l1 k w l2 v : ksorted (l1 ++ (k, w) :: l2) -> put (l1 ++ (k, w) :: l2) k v = l1 ++ (k, v) :: l2.
Proof.
  intros H. apply sorted_app in H. destruct H as (A & B & C). inversion B as [|? ? B1 B2]; subst. rewrite Forall_forall in B2.
  unfold put. rewrite !filter_app. cbn [filter fst]. rewrite Z.ltb_irrefl.
  rewrite (filter_all _ l1) by (intros x Hx; specialize (C x (k, w) Hx ltac:(cbn; auto)); cbn in C; lia).
  rewrite (filter_none _ l2) by (intros x Hx; specialize (B2 x Hx); cbn in B2; lia).
  rewrite (filter_none _ l1) by (intros x Hx; specialize (C x (k, w) Hx ltac:(cbn; auto)); cbn in C; lia).
  rewrite (filter_all _ l2) by (intros x Hx; specialize (B2 x Hx); cbn in B2; lia).
  rewrite app_nil_r. reflexivity.
Qed.
Lemma map_eassign k v es : ksorted (map snd es) -> efind k es <> None -> map snd (eassign k v es) = put (map snd es) k v.
Proof.
  intros H N. destruct (efind k es) as [e|] eqn:E; [|congruence]. clear N. apply efind_some in E. destruct E as [E1 E2].
  apply in_split in E1. destruct E1 as (l1 & l2 & ->). destruct e as [n [k' w]]. unfold ekey in E2. cbn in E2. subst k'.
  rewrite map_app in H. cbn in H. rewrite map_app. cbn [map snd]. rewrite put_mid by exact H.
  apply sorted_app in H. destruct H as (A & B & C). inversion B as [|? ? B1 B2]; subst. rewrite Forall_forall in B2.
  unfold eassign. rewrite !map_app. cbn [map]. unfold ekey at 2. cbn [fst snd]. rewrite Z.eqb_refl. cbn [snd].
  assert (G : forall l, (forall e, In e l -> ekey e <> k) -> map snd (map (fun e => if ekey e =? k then (fst e, (k, v)) else e) l) = map snd l).
  { intros l Hl. rewrite map_map. apply map_ext_in. intros e He. specialize (Hl e He). apply Z.eqb_neq in Hl. rewrite Hl. reflexivity. }
  rewrite !G; [reflexivity| |].
  - intros e He. specialize (B2 (snd e) (in_map snd _ _ He)). cbn in B2. unfold ekey. lia.
  - intros e He. specialize (C (snd e) (k, w) (in_map snd _ _ He) ltac:(cbn; auto)). cbn in C. unfold ekey. lia.
Qed.

Lemma lookup_mid l1 k v l2 : ksorted (l1 ++ (k, v) :: l2) -> lookup (l1 ++ (k, v) :: l2) k = Some v.
Proof.
  intros H. apply sorted_app in H. destruct H as (_ & _ & C). unfold lookup. induction l1 as [|x l1 IH]; cbn.
  - rewrite Z.eqb_refl. reflexivity.
  - assert (fst x <> k) as N by (specialize (C x (k, v) ltac:(cbn; auto) ltac:(cbn; auto)); cbn in C; lia).
    apply Z.eqb_neq in N. rewrite N. apply IH. intros a b Ha Hb. apply C; cbn; auto.
Qed.
Lemma first_after_mid l1 k v l2 : ksorted (l1 ++ (k, v) :: l2) -> first_after (l1 ++ (k, v) :: l2) k = option_map fst (hd_error l2).
Proof.
  intros H. apply sorted_app in H. destruct H as (_ & B & C). inversion B as [|? ? B1 B2]; subst. rewrite Forall_forall in B2. unfold first_after.
  induction l1 as [|x l1 IH]; cbn.
  - rewrite Z.ltb_irrefl. destruct l2 as [|y l2]; [reflexivity|]. cbn. specialize (B2 y ltac:(cbn; auto)). cbn in B2.
    destruct (Z.ltb_spec k (fst y)); [reflexivity|lia].
  - specialize (C x (k, v) ltac:(cbn; auto) ltac:(cbn; auto)) as Cx. cbn in Cx. destruct (Z.ltb_spec k (fst x)); [lia|].
    apply IH. intros a b Ha Hb. apply C; cbn; auto.
Qed.

(** Nodes *)
Lemma nids_eassign k v es : nids (eassign k v es) = nids es.
Proof. unfold nids, eassign. rewrite map_map. apply map_ext. intros e. destruct (_ =? _); reflexivity. Qed.
Lemma nids_einsert_in n k v es x : In x (nids (einsert n k v es)) -> x = n \/ In x (nids es).
Proof.
  unfold nids, einsert. rewrite map_app, in_app_iff. cbn. rewrite !in_map_iff.
  intros [(e & <- & H)|[<-|(e & <- & H)]]; auto; apply filter_In in H; right; exists e; tauto.
Qed.
Lemma nids_filter_in p es x : In x (nids (filter p es)) -> In x (nids es).
Proof. unfold nids. rewrite !in_map_iff. intros (e & <- & H). apply filter_In in H. exists e. tauto. Qed.
Lemma nodup_filter p es : NoDup (nids es) -> NoDup (nids (filter p es)).
Proof.
  unfold nids. induction es as [|e es IH]; cbn; intros H; [constructor|]. inversion H; subst. destruct (p e); [|auto]. cbn. constructor; [|auto].
  intros Hin. apply (nids_filter_in p es) in Hin. contradiction.
Qed.
Lemma nodup_einsert n k v es : ~ In n (nids es) -> NoDup (nids es) -> (forall e, In e es -> ekey e <> k) -> NoDup (nids (einsert n k v es)).
Proof.
  intros Hn Hd _. unfold einsert, nids. rewrite map_app. cbn [map fst].
  apply NoDup_Add with (a := n) (l := nids (filter (fun e => ekey e <? k) es) ++ nids (filter (fun e => k <? ekey e) es)).
  - apply Add_app.
  - split.
    + unfold nids. rewrite <- map_app. clear Hn. induction es as [|e es IH]; cbn; [constructor|]. cbn in Hd. inversion Hd as [|? ? H1 H2]; subst.
      specialize (IH H2). destruct (Z.ltb_spec (ekey e) k), (Z.ltb_spec k (ekey e)); try lia; cbn; auto.
      * constructor; [|exact IH]. rewrite map_app, in_app_iff. intros [Hin|Hin]; apply nids_filter_in in Hin; contradiction.
      * rewrite map_app in *. cbn. apply NoDup_Add with (a := fst e) (l := map fst (filter (fun e => ekey e <? k) es) ++ map fst (filter (fun e => k <? ekey e) es)); [apply Add_app|].
        split; [exact IH|]. rewrite in_app_iff. intros [Hin|Hin]; apply nids_filter_in in Hin; contradiction.
    + rewrite in_app_iff. intros [Hin|Hin]; apply nids_filter_in in Hin; contradiction.
Qed.
Lemma nids_erenew n es : nids (erenew n es) = seq n (length es).
Proof.
  unfold nids, erenew. revert n. induction es as [|e es IH]; intros n; cbn; [reflexivity|]. f_equal. apply IH.
Qed.
Lemma ebuild_ok l : forall es n, NoDup (nids es) -> Forall (fun x => (x < n)%nat) (nids es) ->
  let r := ebuild l es n in
  map snd (fst r) = build l (map snd es) /\ NoDup (nids (fst r)) /\ Forall (fun x => (x < snd r)%nat) (nids (fst r)) /\
  (n <= snd r)%nat /\ (forall x, In x (nids (fst r)) -> In x (nids es) \/ (n <= x)%nat).
Proof.
  induction l as [|[k v] l IH]; intros es n Hd Hf; cbn [ebuild build]; cbv zeta; [cbn; auto 6|].
  rewrite lookup_efind. destruct (efind k es) as [e|] eqn:E; cbn [option_map]; [apply IH; assumption|].
  assert (Hn : ~ In n (nids es)) by (intros Hin; rewrite Forall_forall in Hf; specialize (Hf n Hin); lia).
  destruct (IH (einsert n k v es) (S n)) as (A & B & C & D & F).
  - apply nodup_einsert; [exact Hn|exact Hd|apply efind_none; exact E].
  - rewrite Forall_forall in *. intros x Hx. apply nids_einsert_in in Hx. destruct Hx as [->|Hx]; [lia|]. specialize (Hf x Hx). lia.
  - rewrite <- map_einsert with (n := n). split; [exact A|]. split; [exact B|]. split; [exact C|]. split; [lia|].
    intros x Hx. apply F in Hx. destruct Hx as [Hx|Hx]; [|right; lia]. apply nids_einsert_in in Hx. destruct Hx as [->|Hx]; auto.
Qed.

Definition pos_rel (es : list ent) (o : nat) (p : xpos) (k : option Z) : Prop :=
  match k with None => p = End o | Some k => exists n v, p = Node n /\ In (n, (k, v)) es end.
Lemma pos_rel_eassign k v es o p q : pos_rel es o p q -> pos_rel (eassign k v es) o p q.
Proof.
  destruct q as [q|]; cbn; [|auto]. intros (n & w & -> & H). destruct (Z.eqb_spec q k) as [->|N].
  - exists n, v. split; [reflexivity|]. unfold eassign. apply in_map_iff. exists (n, (k, w)). unfold ekey. cbn. rewrite Z.eqb_refl. auto.
  - exists n, w. split; [reflexivity|]. unfold eassign. apply in_map_iff. exists (n, (q, w)). unfold ekey. cbn.
    apply Z.eqb_neq in N. rewrite N. auto.
Qed.
Lemma in_einsert n k v es e : In e (einsert n k v es) <-> e = (n, (k, v)) \/ (In e es /\ ekey e <> k).
Proof.
  unfold einsert. rewrite in_app_iff. cbn. rewrite !filter_In. split.
  - intros [[A B]|[<-|[A B]]]; auto; right; split; auto; lia.
  - intros [->|[A B]]; [auto|]. destruct (Z.ltb_spec (ekey e) k); [auto|]. destruct (Z.ltb_spec k (ekey e)); [auto|lia].
Qed.
Lemma pos_rel_einsert n k v es o p q : efind k es = None -> pos_rel es o p q -> pos_rel (einsert n k v es) o p q.
Proof.
  intros N. destruct q as [q|]; cbn; [|auto]. intros (n' & w & -> & H). exists n', w. split; [reflexivity|]. apply in_einsert.
  right. split; [exact H|]. exact (efind_none _ _ N _ H).
Qed.
