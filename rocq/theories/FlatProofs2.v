(** New names are new; renaming and folding keep names resolved, and do not change what the program does. *)
From Coq Require Import List Bool Arith Lia FinFun.
From Verif Require Import FlatModel FlatSpec FlatProofs.
Import ListNotations.

(** ** New names *)
Fixpoint under (k : nat) (x : name) : name := match k with O => x | S k' => under k' (underscored x) end.
Lemma under_snd k x : under k x = (fst x, snd x + k).
Proof. revert x. induction k as [|k IH]; intros x; cbn; [destruct x; cbn; f_equal; lia|]. rewrite IH. cbn. f_equal. lia. Qed.
Lemma clash_in u sc d x : clash u sc d x = true -> In x (map fst u ++ sc).
Proof.
  unfold clash. intros H. apply in_or_app. apply orb_true_iff in H as [H|H].
  - left. induction u as [|[y e] u IH]; cbn in *; [discriminate|]. destruct (name_eqb x y) eqn:E; [left; symmetry; apply name_eqb_eq; exact E|right; auto].
  - right. apply existsb_exists in H as (y & HI & E). apply name_eqb_eq in E. subst. exact HI.
Qed.
Lemma pick_under n u sc d x : exists k, k <= n /\ pick n u sc d x = under k x /\ (forall j, j < k -> clash u sc d (under j x) = true)
  /\ (k < n -> clash u sc d (under k x) = false).
Proof.
  revert x. induction n as [|n IH]; intros x; cbn [pick].
  - exists 0. cbn. repeat split; auto; intros; lia.
  - destruct (clash u sc d x) eqn:E.
    + destruct (IH (underscored x)) as (k & Hk & -> & H1 & H2). exists (S k). cbn. repeat split; [lia| |intros; apply H2; lia].
      intros [|j] Hj; cbn; [exact E|apply H1; lia].
    + exists 0. cbn. repeat split; [lia|intros; lia|auto].
Qed.
Lemma pick_ok u sc d x : let y := pick (S (length u + length sc)) u sc d x in
  clash u sc d y = false /\ (exists k, y = under k x /\ forall j, j < k -> clash u sc d (under j x) = true).
Proof.
  cbn zeta. destruct (pick_under (S (length u + length sc)) u sc d x) as (k & Hk & -> & H1 & H2).
  split; [|eauto]. destruct (Nat.eq_dec k (S (length u + length sc))) as [->|N]; [|apply H2; lia]. exfalso.
  set (l := map (fun j => under j x) (List.seq 0 (S (length u + length sc)))).
  assert (ND : NoDup l).
  { unfold l. apply FinFun.Injective_map_NoDup; [|apply seq_NoDup]. intros a b E. rewrite !under_snd in E. inversion E. lia. }
  assert (I : incl l (map fst u ++ sc)).
  { intros y HI. unfold l in HI. apply in_map_iff in HI as (j & <- & HJ). apply in_seq in HJ. apply (clash_in u sc d). apply H1. lia. }
  apply (NoDup_incl_length ND) in I. unfold l in I. rewrite map_length, seq_length, app_length, map_length in I. lia.
Qed.
(** [x] may be the name of [d] *)
Definition free_for (u : used_ids) (d : decl) (x : name) : Prop := used_as u x = None \/ used_as u x = Some d.
Lemma no_clash u sc d x : clash u sc d x = false -> free_for u d x /\ ~ In x sc.
Proof.
  unfold clash, free_for. intros H. apply orb_false_iff in H as [H1 H2]. split.
  - destruct (used_as u x) as [d'|]; [|auto]. apply negb_false_iff, Nat.eqb_eq in H1. subst. auto.
  - intros HI. assert (has sc x = true) by (apply existsb_exists; exists x; split; [exact HI|apply name_eqb_eq; reflexivity]). congruence.
Qed.
Lemma used_app u x d y : used_as (u ++ [(x, d)]) y = match used_as u y with Some e => Some e | None => if name_eqb y x then Some d else None end.
Proof. induction u as [|[z e] u IH]; cbn; [reflexivity|]. destruct (name_eqb y z); [reflexivity|exact IH]. Qed.
Lemma emplace_new u x d : free_for u d x -> used_as (emplace u x d) x = Some d.
Proof.
  intros [H|H]; unfold emplace; rewrite H; [|exact H]. rewrite used_app, H, (proj2 (name_eqb_eq x x) eq_refl). reflexivity.
Qed.
Lemma emplace_old u x d y e : used_as u y = Some e -> used_as (emplace u x d) y = Some e.
Proof. intros H. unfold emplace. destruct (used_as u x) eqn:E; [exact H|]. rewrite used_app, H. reflexivity. Qed.

Record fresh_names (u u' : used_ids) (sc : list name) (ds : list (name * decl)) (m : list (decl * name)) : Prop := {
  fn_free : forall x d, In (x, d) ds -> free_for u d (new_name m d x) /\ ~ In (new_name m d x) sc;
  fn_inj : forall x d y d', In (x, d) ds -> In (y, d') ds -> new_name m d x = new_name m d' y -> d = d';
  fn_else : forall x d, ~ In d (map snd ds) -> new_name m d x = x;
  fn_used : forall x d, In (x, d) ds -> used_as u' (new_name m d x) = Some d;
  fn_kept : forall y e, used_as u y = Some e -> used_as u' y = Some e;
  fn_form : forall x d, In (x, d) ds -> exists k, new_name m d x = under k x }.
Lemma rename_all_ok sc ds : forall u m u', rename_all sc ds u = (m, u') -> NoDup (map snd ds) -> fresh_names u u' sc ds m.
Proof.
  induction ds as [|[x d] ds IH]; intros u m u' H ND; cbn [rename_all] in H.
  - inversion H; subst. constructor; cbn; intuition.
  - destruct (pick_ok u sc d x) as (P & k & HK & _). set (y := pick (S (length u + length sc)) u sc d x) in *. clearbody y.
    destruct (rename_all sc ds (emplace u y d)) as [m1 u1] eqn:E. inversion H; subst m u1. clear H. cbn in ND. inversion ND as [|? ? N1 N2]; subst.
    specialize (IH _ _ _ E N2). apply no_clash in P as [P1 P2].
    assert (Y : forall z e, new_name ((d, under k x) :: m1) e z = if e =? d then under k x else new_name m1 e z) by reflexivity.
    assert (O : forall z e, In (z, e) ds -> (e =? d) = false).
    { intros z e HI. apply Nat.eqb_neq. intros ->. apply N1. apply in_map_iff. exists (z, d). auto. }
    destruct IH as [F1 F2 F3 F4 F5 F6]. constructor.
    + intros z e [X|X]; rewrite Y.
      * inversion X; subst. rewrite Nat.eqb_refl. auto.
      * rewrite (O _ _ X). destruct (F1 _ _ X) as [G1 G2]. split; [|exact G2]. unfold free_for. destruct (used_as u (new_name m1 e z)) as [e'|] eqn:Z; [|auto].
        apply (emplace_old u (under k x) d) in Z. destruct G1 as [G1|G1]; rewrite G1 in Z; right; congruence.
    + assert (D : forall z e, In (z, e) ds -> new_name m1 e z <> under k x).
      { intros z e HI X. destruct (F1 _ _ HI) as [G1 _]. rewrite X in G1. unfold free_for in G1. rewrite (emplace_new _ _ _ P1) in G1.
        destruct G1 as [G1|G1]; [discriminate|]. inversion G1; subst. specialize (O _ _ HI). rewrite Nat.eqb_refl in O. discriminate. }
      intros z e w e' [X|X] [X'|X']; rewrite !Y.
      * inversion X; inversion X'; subst. auto.
      * inversion X; subst. rewrite Nat.eqb_refl, (O _ _ X'). intros Q. exfalso. apply (D _ _ X'). congruence.
      * inversion X'; subst. rewrite Nat.eqb_refl, (O _ _ X). intros Q. exfalso. apply (D _ _ X). congruence.
      * rewrite (O _ _ X), (O _ _ X'). apply F2; assumption.
    + intros z e N. rewrite Y. cbn in N. destruct (Nat.eqb_spec e d); [subst; tauto|]. apply F3. tauto.
    + intros z e [X|X]; rewrite Y.
      * inversion X; subst. rewrite Nat.eqb_refl. apply F5. apply emplace_new. exact P1.
      * rewrite (O _ _ X). apply F4. exact X.
    + intros z e HZ. apply F5, emplace_old, HZ.
    + intros z e [X|X]; rewrite Y; [inversion X; subst; rewrite Nat.eqb_refl; eauto|rewrite (O _ _ X); eauto].
Qed.

(** ** What the program does *)
Lemma iev_ren h m e : iev h (ren_e m e) = iev h e.
Proof. induction e; cbn; rewrite ?IHe1, ?IHe2; reflexivity. Qed.
Lemma while_ext (c1 c2 : istate -> bool) (f1 f2 : istate -> outcome * istate) n s :
  (forall s, c1 s = c2 s) -> (forall s, f1 s = f2 s) -> while_ c1 f1 n s = while_ c2 f2 n s.
Proof. intros H1 H2. revert s. induction n as [|n IH]; intros s; cbn; [reflexivity|]. rewrite H1, H2. destruct (c2 s); [|reflexivity]. destruct (f2 s) as [[] ?]; auto. Qed.
Lemma irun_ren m : (forall s fuel st, irun1 fuel (ren1 m s) st = irun1 fuel s st) /\ (forall ss fuel st, irun fuel (ren m ss) st = irun fuel ss st).
Proof.
  apply all_mut; intros; cbn; try destruct st as [h out]; rewrite ?iev_ren; try reflexivity.
  - destruct (iev h e =? 0); auto.
  - apply while_ext; [intros; rewrite iev_ren; reflexivity|intros; apply H].
  - apply H.
  - rewrite H. destruct (irun1 fuel s _) as [[] ?]; auto.
Qed.
Lemma irun_app fuel a b st : irun fuel (app_s a b) st = match irun fuel a st with (Nrm, st') => irun fuel b st' | x => x end.
Proof.
  revert st. induction a as [|s a IH]; intros st; cbn; [reflexivity|]. destruct (irun1 fuel s st) as [[] ?]; auto.
Qed.
Lemma irun_resets fuel l h out : exists h', irun fuel (resets l) (h, out) = (Nrm, (h', out)) /\ forall d, ~ In d (map snd l) -> h' d = h d.
Proof.
  revert h. induction l as [|[x d] l IH]; intros h; cbn; [exists h; auto|]. destruct (IH (upd h d 0)) as (h' & -> & H). exists h'. split; [reflexivity|].
  intros e N. rewrite H; [apply upd_neq; tauto|tauto].
Qed.

(** ** Locals *)
Lemma locals_app a b : locals (app_s a b) = locals a ++ locals b.
Proof. induction a as [|s a IH]; cbn; [reflexivity|]. rewrite IH, app_assoc. reflexivity. Qed.
Lemma direct_app a b : direct (app_s a b) = direct a ++ direct b.
Proof. induction a as [|s a IH]; cbn; [reflexivity|]. rewrite IH. destruct s; reflexivity. Qed.
Lemma uses_app a b : uses (app_s a b) = uses a ++ uses b.
Proof. induction a as [|s a IH]; cbn; [reflexivity|]. rewrite IH, app_assoc. reflexivity. Qed.
Lemma direct_locals ss : incl (direct ss) (locals ss).
Proof. induction ss as [|s r IH]; cbn; intros p HI; [exact HI|]. apply in_or_app. destruct s; cbn in *; intuition. Qed.
Definition renp (m : list (decl * name)) (p : name * decl) : name * decl := (new_name m (snd p) (fst p), snd p).
Lemma locals_ren m : (forall s, locals1 (ren1 m s) = map (renp m) (locals1 s)) /\ (forall ss, locals (ren m ss) = map (renp m) (locals ss)).
Proof. apply all_mut; intros; cbn; rewrite ?map_app, ?H, ?H0; reflexivity. Qed.
Lemma direct_ren m ss : direct (ren m ss) = map (renp m) (direct ss).
Proof. induction ss as [|s r IH]; cbn; [reflexivity|]. destruct s; cbn; rewrite IH; reflexivity. Qed.
Lemma renp_snd m l : map snd (map (renp m) l) = map snd l.
Proof. rewrite map_map. apply map_ext. reflexivity. Qed.
Lemma locals_resets l : locals (resets l) = [].
Proof. induction l as [|[x d] l IH]; cbn; auto. Qed.
Lemma direct_resets l : direct (resets l) = [].
Proof. induction l as [|[x d] l IH]; cbn; auto. Qed.
Lemma flatten_locals u pre b post u' p' scope m : flatten_one u pre b post u' p' scope m ->
  map snd (locals p') = map snd (locals (app_s pre (Cons (SBlock b) post))).
Proof.
  intros [sc0 ds rs m0 _ _ _ _ _]. rewrite !locals_app. cbn [locals locals1]. rewrite (proj2 (locals_ren m0)), locals_resets, !map_app, renp_snd, app_nil_r. reflexivity.
Qed.

(** ** Resolution *)
Lemma refers_app x d a b : refers x d (a ++ b) -> (In (x, d) a /\ refers x d a) \/ (~ In x (map fst a) /\ refers x d b).
Proof.
  induction a as [|[y e] a IH]; cbn; intros H; [auto|]. inversion H; subst.
  - left. split; [auto|constructor].
  - match goal with R : refers x d (a ++ b) |- _ => apply IH in R as [[H1 H2]|[H1 H2]] end; [left; split; [auto|constructor; assumption]|right; split; [|assumption]]. intros [->|]; auto.
Qed.
Lemma refers_front x d a b : refers x d a -> refers x d (a ++ b).
Proof. induction 1; cbn; constructor; assumption. Qed.
Lemma refers_back x d a b : ~ In x (map fst a) -> refers x d b -> refers x d (a ++ b).
Proof. induction a as [|[y e] a IH]; cbn; intros N R; [exact R|]. constructor; [intros ->; apply N; auto|apply IH; tauto]. Qed.
Lemma refers_unique x d t : In (x, d) t -> (forall d', In (x, d') t -> d' = d) -> refers x d t.
Proof.
  induction t as [|[y e] t IH]; cbn; intros HI HU; [destruct HI|]. destruct (name_dec x y) as [->|N].
  - rewrite (HU e) by auto. constructor.
  - constructor; [exact N|]. apply IH; [destruct HI as [HI|HI]; [inversion HI; congruence|exact HI]|]. intros d' H. apply HU. auto.
Qed.
Lemma resolved_app a b sc : resolved (app_s a b) sc <-> resolved a sc /\ resolved b (rev (direct a) ++ sc).
Proof.
  revert sc. induction a as [|s a IH]; intros sc; cbn [app_s resolved direct]; [cbn; tauto|]. rewrite IH.
  replace (rev (match s with SLocal x d _ => (x, d) :: direct a | _ => direct a end) ++ sc) with (rev (direct a) ++ opened s sc); [tauto|].
  destruct s; cbn; rewrite <- ?app_assoc; reflexivity.
Qed.
(** more locals in between do no harm, unless they capture *)
Lemma resolved_more t sc : (forall s q, resolved1 s (q ++ sc) -> (forall x d, In (x, d) (uses1 s) -> In (x, d) sc -> ~ In x (map fst t)) -> resolved1 s (q ++ t ++ sc))
  /\ (forall ss q, resolved ss (q ++ sc) -> (forall x d, In (x, d) (uses ss) -> In (x, d) sc -> ~ In x (map fst t)) -> resolved ss (q ++ t ++ sc)).
Proof.
  assert (R : forall q x d, refers x d (q ++ sc) -> (In (x, d) sc -> ~ In x (map fst t)) -> refers x d (q ++ t ++ sc)).
  { intros q x d H N. apply refers_app in H as [[_ H]|[H1 H]]; [apply refers_front; exact H|]. apply refers_back; [exact H1|].
    apply refers_back; [|exact H]. apply N. apply refers_in. exact H. }
  apply all_mut.
  - intros x d e q H N y d' HI. cbn in *. destruct (H y d' HI) as [H1 H2]. split; [|exact H2]. apply (R ((x, d) :: q)); [exact H1|apply N; exact HI].
  - intros x d e q [H HE] N. cbn in *. split; [apply R; [exact H|apply N; auto]|]. intros y d' HI. apply R; [apply HE; exact HI|apply N; auto].
  - intros e q HE N y d' HI. cbn in *. apply R; [apply HE; exact HI|apply N; auto].
  - intros e a IHa b IHb q (HE & Ha & Hb) N. cbn in *. repeat split.
    + intros y d' HI. apply R; [apply HE; exact HI|]. apply N. apply in_or_app; auto.
    + apply IHa; [exact Ha|]. intros x d HI. apply N. apply in_or_app; right; apply in_or_app; auto.
    + apply IHb; [exact Hb|]. intros x d HI. apply N. apply in_or_app; right; apply in_or_app; auto.
  - intros e b IHb q (HE & Hb) N. cbn in *. split.
    + intros y d' HI. apply R; [apply HE; exact HI|]. apply N. apply in_or_app; auto.
    + apply IHb; [exact Hb|]. intros x d HI. apply N. apply in_or_app; auto.
  - intros b IHb q Hb N. cbn in *. apply IHb; auto.
  - cbn. auto.
  - cbn. auto.
  - cbn. auto.
  - intros s IHs r IHr q (Hs & Hr) N. cbn in *. split.
    + apply IHs; [exact Hs|]. intros x d HI. apply N. apply in_or_app; auto.
    + assert (O : forall z, opened s (q ++ z) = (match s with SLocal x d _ => (x, d) :: q | _ => q end) ++ z) by (intros z; destruct s; reflexivity).
      rewrite O in *. apply IHr; [exact Hr|]. intros x d HI. apply N. apply in_or_app; auto.
Qed.
(** renaming *)
Section renaming.
  Context (L : list (name * decl)) (m : list (decl * name)) (sc : scope) (U : list (name * decl)).
  Context (Hinj : forall x d y d', In (x, d) L -> In (y, d') L -> new_name m d x = new_name m d' y -> d = d')
    (Helse : forall x d, ~ In d (map snd L) -> new_name m d x = x)
    (Hout : forall d, In d (map snd sc) -> ~ In d (map snd L))
    (Hcap : forall x d y d', In (x, d) U -> refers x d sc -> In (y, d') L -> y <> x -> new_name m d' y <> x).
  Let rq := map (renp m).
  Lemma refers_ren q x d : incl q L -> NoDup (map snd q) -> In (x, d) U -> refers x d (q ++ sc) -> refers (new_name m d x) d (rq q ++ sc).
  Proof.
    intros HI ND HU H. apply refers_app in H as [[_ H]|[H1 H]].
    - apply refers_front. clear HU. induction H as [x d q|x d y d' q N R IH]; cbn; [constructor|].
      cbn in ND. inversion ND as [|? ? N1 N2]; subst. constructor.
      + cbn. intros E. apply Hinj in E; [|apply HI; right; apply refers_in; exact R|apply HI; left; reflexivity]. subst. apply N1. apply (refers_snd x). exact R.
      + apply IH; [intros p Hp; apply HI; right; exact Hp|exact N2].
    - rewrite Helse by (apply Hout; apply (refers_snd x); exact H). apply refers_back; [|exact H].
      intros X. unfold rq in X. rewrite map_map in X. apply in_map_iff in X as ([y d'] & E & HQ). cbn in E.
      apply (Hcap x d y d' HU H (HI _ HQ)); [|exact E]. intros ->. apply H1. apply in_map_iff. exists (x, d'). auto.
  Qed.
  Lemma resolved_ren : (forall s q, resolved1 s (q ++ sc) -> incl q L -> incl (locals1 s) L -> NoDup (map snd q ++ map snd (locals1 s)) -> incl (uses1 s) U ->
        resolved1 (ren1 m s) (rq q ++ sc))
    /\ (forall ss q, resolved ss (q ++ sc) -> incl q L -> incl (locals ss) L -> NoDup (map snd q ++ map snd (locals ss)) -> incl (uses ss) U ->
        resolved (ren m ss) (rq q ++ sc)).
  Proof.
    assert (RE : forall e q', incl q' L -> NoDup (map snd q') -> incl (evars e) U -> (forall y d, In (y, d) (evars e) -> refers y d (q' ++ sc))->
      forall y d, In (y, d) (evars (ren_e m e)) -> refers y d (rq q' ++ sc)).
    { intros e q' HI ND HU HR y d HY.
      assert (exists y', In (y', d) (evars e) /\ y = new_name m d y') as (y' & HY' & ->).
      { clear -HY. induction e as [n|z d'|a IHa b IHb|a IHa b IHb]; cbn in *; [destruct HY| | |].
        - destruct HY as [E|[]]. inversion E; subst. eauto.
        - apply in_app_or in HY as [HY|HY]; [apply IHa in HY as (y' & ? & ?)|apply IHb in HY as (y' & ? & ?)]; exists y'; rewrite in_app_iff; auto.
        - apply in_app_or in HY as [HY|HY]; [apply IHa in HY as (y' & ? & ?)|apply IHb in HY as (y' & ? & ?)]; exists y'; rewrite in_app_iff; auto. }
      apply refers_ren; auto. }
    apply all_mut.
    - intros x d e q H HQ HL ND HU y d' HI. cbn in *. split.
      + apply (RE e ((x, d) :: q)); [| | | |exact HI].
        * intros p [<-|Hp]; [apply HL; left; reflexivity|apply HQ; exact Hp].
        * cbn. constructor; [intros X; apply (NoDup_app_disj _ _ _ d ND X); cbn; auto|apply NoDup_app_l in ND; exact ND].
        * exact HU.
        * intros y0 d0 H0. apply H. exact H0.
      + assert (exists y', In (y', d') (evars e)) as (y' & HY).
        { clear -HI. induction e as [n|z d0|a IHa b IHb|a IHa b IHb]; cbn in *; [destruct HI| | |].
          - destruct HI as [E|[]]. inversion E; subst. eauto.
          - apply in_app_or in HI as [HI|HI]; [apply IHa in HI as (y' & ?)|apply IHb in HI as (y' & ?)]; exists y'; rewrite in_app_iff; auto.
          - apply in_app_or in HI as [HI|HI]; [apply IHa in HI as (y' & ?)|apply IHb in HI as (y' & ?)]; exists y'; rewrite in_app_iff; auto. }
        apply (H y' d'). exact HY.
    - intros x d e q [H HE] HQ HL ND HU. cbn in *. rewrite app_nil_r in ND. split; [apply refers_ren; auto; apply HU; left; reflexivity|].
      apply (RE e q); auto. intros p Hp. apply HU. right. exact Hp.
    - intros e q HE HQ HL ND HU. cbn in *. rewrite app_nil_r in ND. apply (RE e q); auto.
    - intros e a IHa b IHb q (HE & Ha & Hb) HQ HL ND HU. cbn in *. rewrite map_app in ND. apply NoDup_drop in ND as [NDb NDa]. repeat split.
      + apply (RE e q); auto; [apply NoDup_app_l in NDa; exact NDa|]. intros p Hp. apply HU. apply in_or_app; auto.
      + apply IHa; auto; intros p Hp; [apply HL; apply in_or_app; auto|apply HU; apply in_or_app; right; apply in_or_app; auto].
      + apply IHb; auto; intros p Hp; [apply HL; apply in_or_app; auto|apply HU; apply in_or_app; right; apply in_or_app; auto].
    - intros e b IHb q (HE & Hb) HQ HL ND HU. cbn in *. split.
      + apply (RE e q); auto; [apply NoDup_app_l in ND; exact ND|]. intros p Hp. apply HU. apply in_or_app; auto.
      + apply IHb; auto. intros p Hp. apply HU. apply in_or_app; auto.
    - intros b IHb q Hb HQ HL ND HU. cbn in *. apply IHb; auto.
    - cbn. auto.
    - cbn. auto.
    - cbn. auto.
    - intros s IHs r IHr q (Hs & Hr) HQ HL ND HU. cbn [ren resolved locals uses] in *.
      assert (NDs : NoDup (map snd q ++ map snd (locals1 s))) by (rewrite map_app in ND; apply NoDup_drop in ND; tauto).
      split.
      + apply IHs; auto; intros p Hp; [apply HL|apply HU]; apply in_or_app; auto.
      + assert (O : opened (ren1 m s) (rq q ++ sc) = rq (opened s q) ++ sc) by (destruct s; reflexivity).
        assert (O2 : opened s (q ++ sc) = opened s q ++ sc) by (destruct s; reflexivity).
        rewrite O. rewrite O2 in Hr. apply IHr; [exact Hr| | | |].
        * intros p Hp. destruct s; cbn in Hp; auto. destruct Hp as [<-|Hp]; [apply HL; cbn; auto|auto].
        * intros p Hp. apply HL. apply in_or_app; auto.
        * exact (NoDup_open q s r ND).
        * intros p Hp. apply HU. apply in_or_app; auto.
  Qed.
End renaming.
