From Verif Require Import Base FiberPoolModel FiberPoolSpec.
From Coq Require Import Permutation.

Lemma w64_small z : (0 <= z < 2 ^ 64)%Z -> w64 z = z.
Proof. intros H. unfold w64. apply Z.mod_small. exact H. Qed.

Record pinv (csz : nat) (h : list nat) (p : pool) : Prop := {
  pi_nd : NoDup (h ++ p_cache p);
  pi_lt : forall f, In f (h ++ p_cache p) -> f < p_next p;
  pi_sz : length (p_cache p) <= csz;
  pi_cur : p_cur p = Z.of_nat (length h + length (p_cache p));
  pi_cached : p_cached p = Z.of_nat (length (p_cache p));
  pi_max : (p_cur p <= p_max p)%Z }.

Lemma pinv_perm csz h h' p : Permutation h h' -> pinv csz h p -> pinv csz h' p.
Proof.
  intros HP [A B C D E F]. constructor; auto.
  - eapply Permutation_NoDup; [|exact A]. apply Permutation_app_tail, HP.
  - intros f Hf. apply B. eapply Permutation_in; [|exact Hf]. apply Permutation_app_tail. symmetry. exact HP.
  - rewrite D. rewrite (Permutation_length HP). reflexivity.
Qed.

Lemma create_inv csz h p f p' : pinv csz h p -> (Z.of_nat (length h + length (p_cache p)) + 1 < 2 ^ 64)%Z -> pool_create p = (f, p') ->
  pinv csz (f :: h) p' /\ (p_max p' = Z.max (p_max p) (p_cur p')) /\
  length (p_cache p') = length (p_cache p) - 1 /\ (p_cur p <= p_cur p')%Z.
Proof.
  intros [A B C D E F] HB. unfold pool_create. destruct (p_cache p) as [|g c] eqn:EC.
  - unfold fiber_ctor. intros [= <- <-]. cbn [length] in *. rewrite (w64_small (p_cur p + 1)) by lia.
    assert (EM : (if p_cur p + 1 >? p_max p then p_cur p + 1 else p_max p)%Z = Z.max (p_max p) (p_cur p + 1)).
    { destruct (Z.gtb_spec (p_cur p + 1) (p_max p)); lia. }
    rewrite EM, EC. split; [constructor|]; cbn [p_next p_cache p_total p_cur p_cached p_max].
    + rewrite app_nil_r in *. constructor; [|exact A]. intros H. apply B in H. lia.
    + intros x [<-|Hx]; [lia|]. specialize (B x Hx). lia.
    + cbn. lia.
    + cbn [length]. lia.
    + exact E.
    + lia.
    + split; [reflexivity|]. cbn [length]. lia.
  - intros [= <- <-]. cbn [length] in *. rewrite w64_small by lia. split; [constructor|]; cbn [p_next p_cache p_total p_cur p_cached p_max].
    + eapply Permutation_NoDup; [|exact A]. symmetry. cbn [app]. apply Permutation_middle.
    + intros x Hx. apply B. eapply Permutation_in; [|exact Hx]. cbn [app]. apply Permutation_middle.
    + lia.
    + cbn [length]. lia.
    + lia.
    + exact F.
    + lia.
Qed.

Lemma destroy_inv csz h p f : pinv csz (f :: h) p -> (Z.of_nat (length h + length (p_cache p)) + 1 < 2 ^ 64)%Z ->
  pinv csz h (pool_destroy csz p f) /\ p_max (pool_destroy csz p f) = p_max p /\
  (length (p_cache p) < csz -> length (p_cache (pool_destroy csz p f)) = S (length (p_cache p)) /\ p_cur (pool_destroy csz p f) = p_cur p) /\
  (p_cur (pool_destroy csz p f) <= p_cur p)%Z.
Proof.
  intros [A B C D E F] HB. unfold pool_destroy. cbn [length] in *. destruct (Nat.ltb_spec (length (p_cache p)) csz).
  - split; [constructor|]; cbn [p_next p_cache p_total p_cur p_cached p_max length]; auto.
    + eapply Permutation_NoDup; [|exact A]. cbn [app]. apply Permutation_middle.
    + intros x Hx. apply B. eapply Permutation_in; [|exact Hx]. cbn [app]. symmetry. apply Permutation_middle.
    + lia.
    + rewrite w64_small; lia.
    + repeat split; lia.
  - unfold fiber_dtor. rewrite w64_small by lia.
    split; [constructor|]; cbn [p_next p_cache p_total p_cur p_cached p_max length]; auto.
    + cbn [app] in A. inversion A. assumption.
    + intros x Hx. apply B. right. exact Hx.
    + lia.
    + lia.
    + repeat split; lia.
Qed.

Lemma create_n_inv csz n : forall h p fs p', pinv csz h p -> (Z.of_nat (length h + length (p_cache p)) + Z.of_nat n < 2 ^ 64)%Z ->
  create_n n p = (fs, p') ->
  pinv csz (fs ++ h) p' /\ length fs = n /\ (n = 0 -> p' = p) /\ p_max p' = Z.max (p_max p) (p_cur p') /\
  length (p_cache p') = length (p_cache p) - n /\ (p_cur p <= p_cur p')%Z.
Proof.
  induction n as [|n IH]; intros h p fs p' HI HB; cbn [create_n].
  - intros [= <- <-]. split; [exact HI|]. pose proof (pi_max _ _ _ HI). cbn [length]. repeat split; lia.
  - destruct (pool_create p) as [f p1] eqn:E1. destruct (create_n n p1) as [fs' p2] eqn:E2. intros [= <- <-].
    destruct (create_inv csz h p f p1 HI ltac:(lia) E1) as (I1 & M1 & L1 & C1).
    assert (HB1 : (Z.of_nat (length (f :: h) + length (p_cache p1)) + Z.of_nat n < 2 ^ 64)%Z) by (cbn [length]; lia).
    destruct (IH (f :: h) p1 fs' p2 I1) as (I2 & LL & _ & M2 & L2 & C2); [|exact E2|].
    + cbn [length] in *. destruct HI as [_ _ _ D1 _ _]. destruct I1 as [_ _ _ D2 _ _]. cbn [length] in D2. lia.
    + split; [eapply pinv_perm; [|exact I2]; cbn [app]; symmetry; apply Permutation_middle|]. cbn [length]. repeat split; lia.
Qed.

Lemma destroy_all_inv csz l : forall h p, pinv csz (l ++ h) p -> (Z.of_nat (length (l ++ h) + length (p_cache p)) + 1 < 2 ^ 64)%Z ->
  length (p_cache p) + length l <= csz ->
  let p' := fold_left (pool_destroy csz) l p in
  pinv csz h p' /\ p_max p' = p_max p /\ p_cur p' = p_cur p /\ length (p_cache p') = length (p_cache p) + length l.
Proof.
  induction l as [|f l IH]; intros h p HI HB HL; cbn [fold_left app] in *; cbv zeta.
  - split; [exact HI|]. cbn [length]. repeat split; lia.
  - cbn [length] in *. destruct (destroy_inv csz (l ++ h) p f HI ltac:(lia)) as (I1 & M1 & L1 & _). destruct (L1 ltac:(lia)) as [L2 C2].
    destruct (IH h _ I1) as (I3 & M3 & C3 & L3); [lia|lia|]. cbv zeta in *. split; [exact I3|]. repeat split; lia.
Qed.

Lemma prime_inv csz h p : pinv csz h p -> (Z.of_nat (length h + length (p_cache p)) + Z.of_nat csz + 1 < 2 ^ 64)%Z ->
  pinv csz h (pool_prime csz p) /\ p_max (pool_prime csz p) = Z.max (p_max p) (p_cur (pool_prime csz p)).
Proof.
  intros HI HB. unfold pool_prime. destruct (create_n csz p) as [fs p1] eqn:E.
  destruct (create_n_inv csz csz h p fs p1 HI ltac:(lia) E) as (I1 & L1 & _ & M1 & C1 & D1).
  pose proof (pi_sz _ _ _ HI) as HS.
  destruct (destroy_all_inv csz (rev fs) h p1) as (I2 & M2 & C2 & L2).
  - eapply pinv_perm; [|exact I1]. apply Permutation_app_tail, Permutation_rev.
  - rewrite app_length, rev_length. lia.
  - rewrite rev_length. lia.
  - cbv zeta in *. split; [exact I2|]. lia.
Qed.

Lemma remove_perm f (h : list nat) : NoDup h -> In f h -> Permutation h (f :: remove Nat.eq_dec f h).
Proof.
  induction h as [|g h IH]; intros HN HI; [destruct HI|]. inversion HN; subst. cbn [remove].
  destruct (Nat.eq_dec f g) as [-> |N].
  - rewrite notin_remove by assumption. reflexivity.
  - destruct HI as [-> |HI]; [congruence|]. rewrite (IH H2 HI) at 1. apply perm_swap.
Qed.

Lemma nodup_l {A} (a b : list A) : NoDup (a ++ b) -> NoDup a.
Proof. induction a as [|x a IH]; intros H; [constructor|]. inversion H; subst. constructor; [|auto]. intros HI. apply H2, in_or_app. auto. Qed.

Lemma reset_inv csz p : pinv csz [] p -> pinv csz [] (pool_reset p).
Proof.
  intros [A B C D E F]. constructor; cbn; try lia; try (intros f []); constructor.
Qed.

Lemma pstep_inv csz w o : pinv csz (fst w) (snd w) -> pop_ok w o -> (o = PoReset -> fst w = []) ->
  (Z.of_nat (length (existing w)) + Z.of_nat csz + 1 < 2 ^ 64)%Z ->
  pinv csz (fst (pstep csz w o)) (snd (pstep csz w o)) /\
  (o <> PoReset -> p_max (snd (pstep csz w o)) = Z.max (p_max (snd w)) (p_cur (snd (pstep csz w o)))).
Proof.
  destruct w as [h p]. intros HI HO HR HB. unfold existing in HB. cbn [fst snd] in *. rewrite app_length in HB. destruct o as [|f| |]; cbn [pstep fst snd].
  - destruct (pool_create p) as [f p'] eqn:E. cbn [fst snd]. destruct (create_inv csz h p f p' HI ltac:(lia) E) as (I1 & M1 & _). auto.
  - cbn [pop_ok fst] in HO. pose proof (remove_perm f h (nodup_l _ _ (pi_nd _ _ _ HI)) HO) as HP.
    pose proof (Permutation_length HP) as HL. cbn [length] in HL.
    destruct (destroy_inv csz (remove Nat.eq_dec f h) p f (pinv_perm _ _ _ _ HP HI) ltac:(lia)) as (I1 & M1 & _ & C1).
    split; [exact I1|]. intros _. rewrite M1. pose proof (pi_max _ _ _ HI). pose proof (pi_max _ _ _ I1). lia.
  - destruct (prime_inv csz h p HI ltac:(lia)) as (I1 & M1). auto.
  - specialize (HR eq_refl). cbn [fst] in HR. subst h. split; [apply reset_inv; exact HI|]. congruence.
Qed.

Lemma phist_inv csz w h : phist csz (fun w => fst w = []) (w :: h) -> pinv csz (fst w) (snd w).
Proof.
  intros H. remember (w :: h) as l eqn:E. revert w h E. induction H as [|w h o HP IH HO HR HB]; intros w' h' [= <- <-].
  - constructor; cbn; try lia; try (intros f []); constructor.
  - apply pstep_inv; auto. eapply IH; reflexivity.
Qed.
