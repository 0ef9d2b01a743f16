From Flocq Require Import Core BinarySingleNaN Binary Bits Relative.
From Coq Require Import Reals Lra.
From Verif Require Import Base IntModel TimeModel RealModel RealSpec RealProofs.
Open Scope R_scope.

Lemma dlt_inf_l : forall s d, finite d -> dlt (B754_infinity 53 1024 s) d = s.
Proof. intros s [?|?|? ? ?|? ? ? ?] H; try discriminate H; destruct s; reflexivity. Qed.
Lemma dlt_inf_r : forall s d, finite d -> dlt d (B754_infinity 53 1024 s) = negb s.
Proof. intros s [?|?|? ? ?|? ? ? ?] H; try discriminate H; destruct s; reflexivity. Qed.

Lemma nearest64_0 : nearest64 0 = 0.
Proof. apply round_0. apply valid_rnd_N. Qed.

Lemma nearest64_pos : forall r, 0 <= r -> 0 <= nearest64 r.
Proof. intros r H. rewrite <- nearest64_0. apply nearest64_le. exact H. Qed.
Lemma nearest64_neg : forall r, r <= 0 -> nearest64 r <= 0.
Proof. intros r H. rewrite <- nearest64_0. apply nearest64_le. exact H. Qed.

Lemma of_int_abs : forall z, (Z.abs z <= 2 ^ 64)%Z -> Rabs (dval (of_int z)) <= bpow radix2 64.
Proof.
  intros z Hz. destruct (of_int_spec z Hz) as (_ & -> & _).
  apply abs_round_le_generic; [apply FLT_exp_valid; exact p53|apply valid_rnd_N|apply format_p; lia|].
  rewrite <- abs_IZR, <- pow_IZR by lia. apply IZR_le. exact Hz.
Qed.

Lemma p64_lt : bpow radix2 64 < bpow radix2 1024.
Proof. apply bpow_lt. reflexivity. Qed.

Lemma nsecs_cases : forall conv lo hi s, finite s -> (Z.abs lo <= 2 ^ 64)%Z -> (Z.abs hi <= 2 ^ 64)%Z -> 
  let v := nearest64 (dval s * 1000000000) in
  (v < dval (of_int lo) \/ dval (of_int hi) < v -> nsecs_of conv lo hi s = Throw OutOfRange) /\
  (dval (of_int lo) <= v <= dval (of_int hi) ->
   exists x, nsecs_of conv lo hi s = conv x /\ finite x /\ dval x = v /\ Bsign 53 1024 x = Bsign 53 1024 s).
Proof.
  intros conv lo hi s Hs Hlo Hhi v.
  destruct (of_int_spec lo Hlo) as (Flo & _ & _). destruct (of_int_spec hi Hhi) as (Fhi & _ & _).
  generalize (of_int_abs lo Hlo) (of_int_abs hi Hhi) p64_lt. intros Alo Ahi P64.
  generalize (mult_spec s giga Hs giga_finite). cbv zeta. rewrite giga_val, giga_sign, xorb_false_r. fold v.
  unfold nsecs_of. cbv zeta. set (x := b64_mult mode_NE s giga).
  destruct (Rlt_bool_spec (Rabs v) (bpow radix2 1024)) as [L|L].
  - intros (Fx & Vx & Sx). rewrite !dlt_spec, Vx by assumption. split.
    + intros [H|H]; rewrite (Rlt_bool_true _ _ H); rewrite ?orb_true_r; reflexivity.
    + intros [H1 H2]. rewrite !Rlt_bool_false by assumption. exists x. auto.
  - intros E. assert (Nv : v <> 0).
    { intros Z. rewrite Z, Rabs_R0 in L. generalize (bpow_gt_0 radix2 1024). lra. }
    assert (Ns : dval s <> 0).
    { intros Z. apply Nv. unfold v. rewrite Z, Rmult_0_l. apply nearest64_0. }
    rewrite E. split.
    + intros _. rewrite dlt_inf_l, dlt_inf_r by assumption. destruct (Bsign 53 1024 s); reflexivity.
    + intros [H1 H2]. exfalso. apply Rabs_def2b in Alo, Ahi || idtac.
      apply Rabs_le_inv in Alo, Ahi. unfold Rabs in L. destruct (Rcase_abs v); lra.
Qed.

Lemma Ztrunc_err : forall x, Rabs (IZR (Ztrunc x) - x) < 1.
Proof.
  intros x. destruct (Rle_or_lt 0 x) as [P|P].
  - rewrite Ztrunc_floor by exact P. generalize (Zfloor_lb x) (Zfloor_ub x). intros. apply Rabs_def1; lra.
  - rewrite Ztrunc_ceil by lra. generalize (Zceil_ub x) (Zceil_lb x). intros. apply Rabs_def1; lra.
Qed.

(** C39, interval *)
Lemma interval_ok : forall conv s, converts (- 2 ^ 63) (2 ^ 63 - 1) conv -> finite s ->
  let v := nearest64 (dval s * 1000000000) in
  (- IZR (2 ^ 63) <= v < IZR (2 ^ 63) -> interval_of_secs conv s = Ok (Ztrunc v)) /\
  (v < - IZR (2 ^ 63) \/ IZR (2 ^ 63) < v -> interval_of_secs conv s = Throw OutOfRange).
Proof.
  intros conv s C Hs v. unfold interval_of_secs.
  destruct (nsecs_cases conv (- 2 ^ 63) (2 ^ 63 - 1) s Hs) as [A B]; [vm_compute; discriminate|vm_compute; discriminate|].
  fold v in A, B. rewrite lo63, hi63 in A, B. rewrite !pow_IZR by lia. split.
  - intros [H1 H2]. destruct B as (x & -> & Fx & Vx & Sx); [lra|]. rewrite <- Vx. apply C; [exact Fx| |intros HH; exfalso; lia].
    rewrite Vx. apply Ztrunc_bounds; [|vm_compute; split; discriminate].
    replace (2 ^ 63 - 1 + 1)%Z with (2 ^ 63)%Z by reflexivity. rewrite opp_IZR, !pow_IZR by lia. lra.
  - intros [H|H]; apply A; lra.
Qed.

Lemma small_neg : forall s, finite s -> dval s < 0 -> nearest64 (dval s * 1000000000) < 0.
Proof.
  intros s Hs N. assert (H : dval s * 1000000000 <= dval s) by lra.
  apply nearest64_le in H. rewrite nearest64_dval in H. lra.
Qed.

(** C39, time *)
Lemma time_ok : forall conv s, converts 0 (2 ^ 64 - 1) conv -> finite s ->
  let v := nearest64 (dval s * 1000000000) in
  (Bsign 53 1024 s = false -> v < IZR (2 ^ 64) -> time_of_secs conv s = Ok (Ztrunc v)) /\
  (dval s < 0 \/ IZR (2 ^ 64) < v -> time_of_secs conv s = Throw OutOfRange).
Proof.
  intros conv s C Hs v. unfold time_of_secs.
  destruct (nsecs_cases conv 0 (2 ^ 64 - 1) s Hs) as [A B]; [vm_compute; discriminate|vm_compute; discriminate|].
  fold v in A, B. rewrite lo0, hi64 in A, B. rewrite !pow_IZR by lia. split.
  - intros Sg H2. assert (H1 : 0 <= v).
    { apply nearest64_pos. destruct (Req_dec (dval s) 0) as [E|E]; [lra|].
      rewrite nonzero_sign in Sg by assumption. generalize (Rlt_bool_spec (dval s) 0). rewrite Sg. intros X. inversion X. lra. }
    destruct B as (x & -> & Fx & Vx & Sx); [lra|]. rewrite <- Vx. apply C; [exact Fx| |intros _; congruence].
    rewrite Vx. apply Ztrunc_bounds; [|vm_compute; split; discriminate].
    replace (2 ^ 64 - 1 + 1)%Z with (2 ^ 64)%Z by reflexivity. rewrite !pow_IZR by lia. lra.
  - intros [H|H]; apply A; [left|right]; [|exact H]. apply small_neg; assumption.
Qed.

(** infinities and NaN *)
Lemma inf_out_of_range : forall conv b, interval_of_secs conv (B754_infinity 53 1024 b) = Throw OutOfRange /\
  time_of_secs conv (B754_infinity 53 1024 b) = Throw OutOfRange.
Proof. intros conv [|]; split; vm_compute; reflexivity. Qed.

(** accuracy *)
Lemma nearest64_err : forall r, Rabs (nearest64 r - r) <= Rabs r * bpow radix2 (-53) + bpow radix2 (-1075).
Proof.
  intros r. destruct (error_N_FLT radix2 (-1074) 53 p53 (fun x => negb (Z.even x)) r) as (eps & eta & A & B & _ & E).
  fold ZnearestE in E. change (round _ _ _ r) with (nearest64 r) in E. rewrite E.
  replace (r * (1 + eps) + eta - r) with (r * eps + eta) by ring.
  apply Rle_trans with (1 := Rabs_triang _ _). rewrite Rabs_mult. apply Rplus_le_compat.
  - apply Rmult_le_compat_l; [apply Rabs_pos|]. apply Rle_trans with (1 := A).
    change (/ 2) with (bpow radix2 (-1)). rewrite <- bpow_plus. apply bpow_le. lia.
  - apply Rle_trans with (1 := B). change (/ 2) with (bpow radix2 (-1)). rewrite <- bpow_plus. apply bpow_le. lia.
Qed.
