(** C45: accounting of the fiber pool. *)
From Verif Require Import Base FiberPoolModel FiberPoolSpec FiberPoolProofs.

(** C45: the reported numbers are exact, the cache is bounded and every fiber is used by at most one client (or cached), for
    every sequence of operations in which the statistics are reset only while no fiber is in use. *)
Theorem C45_accounting csz w h : phist csz (fun w => fst w = []) (w :: h) ->
  p_cur (snd w) = Z.of_nat (length (existing w)) /\
  p_cached (snd w) = Z.of_nat (length (p_cache (snd w))) /\
  length (p_cache (snd w)) <= csz /\
  NoDup (existing w).
Proof.
  intros H. apply phist_inv in H. destruct H as [A B C D E F]. unfold existing. rewrite app_length. repeat split; auto; lia.
Qed.

(** C45: the maximum is the maximum over time of the current number (no reset in between). *)
Theorem C45_maximum csz h : phist csz (fun _ => False) h ->
  forall w h', h = w :: h' ->
  (forall w', In w' h -> (Z.of_nat (length (existing w')) <= p_max (snd w))%Z) /\
  (exists w', In w' h /\ Z.of_nat (length (existing w')) = p_max (snd w)).
Proof.
  intros H.
  assert (G : forall l, phist csz (fun _ => False) l -> phist csz (fun w => fst w = []) l).
  { clear. intros l H. induction H; constructor; auto. intros E. destruct (H1 E). }
  induction H as [|w h o HP IH HO HR HB]; intros w1 h1 [= <- <-].
  - split; [intros w' [<-|[]]; cbn; lia|]. eexists. split; [left; reflexivity|]. reflexivity.
  - specialize (IH w h eq_refl). destruct IH as [IH1 IH2].
    assert (NR : o <> PoReset) by (intros E; apply (HR E)).
    destruct (pstep_inv csz w o (phist_inv _ _ _ (G _ HP)) HO ltac:(congruence) HB) as [I1 M1]. specialize (M1 NR).
    assert (EC : p_cur (snd (pstep csz w o)) = Z.of_nat (length (existing (pstep csz w o)))).
    { unfold existing. rewrite app_length. apply (pi_cur _ _ _ I1). }
    split.
    + intros w' [<-|H']; [lia|]. specialize (IH1 w' H'). lia.
    + destruct (Z.max_spec (p_max (snd w)) (p_cur (snd (pstep csz w o)))) as [[HL HM]|[HL HM]].
      * exists (pstep csz w o). split; [left; reflexivity|]. lia.
      * destruct IH2 as (w' & Hw & E). exists w'. split; [right; exact Hw|]. lia.
Qed.

(** C45 does not hold if the statistics are reset while a fiber is in use: giving that fiber back afterwards (with caching
    switched off) makes the counter wrap. *)
Theorem C45_reset_refuted : exists w, let w' := pstep 0 w (PoDestroy 0) in
  (exists h, phist 0 (fun _ => True) (w' :: h)) /\ existing w' = [] /\ p_cur (snd w') = (2 ^ 64 - 1)%Z.
Proof.
  exists (pstep 0 (pstep 0 ([], pool0) PoCreate) PoReset). cbv zeta. split; [|split; reflexivity].
  eexists. repeat (eapply phS; [| |intros _; exact I|]); [apply ph0|exact I|cbn; lia|exact I|cbn; lia|left; reflexivity|cbn; lia].
Qed.

(** Non-vacuity: pool of size 2, primed; three fibers taken, all given back (the third is deleted). *)
Example C45_run : exists w h, phist 2 (fun _ => False) (w :: h) /\ length (existing w) = 2 /\ p_max (snd w) = 3%Z.
Proof.
  exists (fold_left (pstep 2) [PoPrime; PoCreate; PoCreate; PoCreate; PoDestroy 2; PoDestroy 0; PoDestroy 1] ([], pool0)).
  eexists. split; [|split; reflexivity]. cbn [fold_left].
  repeat (eapply phS; [| |intros HX; discriminate HX|]); try apply ph0; try exact I; try (vm_compute; reflexivity); try (vm_compute; tauto).
Qed.
