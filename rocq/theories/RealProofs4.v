From Flocq Require Import Core BinarySingleNaN Binary Bits Relative.
From Coq Require Import Reals Lra.
From Verif Require Import Base IntModel TimeModel RealModel RealSpec RealProofs RealProofs2 RealProofs3.
Open Scope R_scope.

Notation uu := (/ 9007199254740992).   (* 2^-53 *)

Lemma nearest64_rel : forall r, r = 0 \/ / 1000000000000 <= Rabs r -> exists e, - uu <= e <= uu /\ nearest64 r = r * (1 + e).
Proof.
  intros r [-> | H].
  - exists 0. split; [lra|]. rewrite nearest64_0. ring.
  - destruct (relative_error_N_FLT_ex radix2 (-1074) 53 p53 (fun x => negb (Z.even x)) r) as (e & A & B).
    + apply Rle_trans with (2 := H). apply Rle_trans with (bpow radix2 (-40)); [apply bpow_le; lia|]. cbn. lra.
    + exists e. split; [|exact B]. apply Rabs_le_inv. apply Rle_trans with (1 := A).
      change (/ 2) with (bpow radix2 (-1)). rewrite <- bpow_plus. cbn. lra.
Qed.

(** quotient *)
Lemma div_spec : forall a b, finite a -> dval b <> 0 -> 
  let v := nearest64 (dval a / dval b) in Rabs v < bpow radix2 1024 ->
  let x := b64_div mode_NE a b in
  finite x /\ dval x = v /\ Bsign 53 1024 x = xorb (Bsign 53 1024 a) (Bsign 53 1024 b).
Proof.
  intros a b Fa Nb v Hv. cbv zeta. unfold b64_div.
  match goal with |- context [Bdiv 53 1024 ?p ?q ?c mode_NE a b] => generalize (Bdiv_correct 53 1024 p q c mode_NE a b Nb); set (x := Bdiv 53 1024 p q c mode_NE a b) end.
  change (round_mode mode_NE) with ZnearestE. rewrite fx_eq. change (round radix2 _ ZnearestE (B2R 53 1024 a / B2R 53 1024 b)) with v.
  rewrite (Rlt_bool_true _ _ Hv). intros (A & B & C). rewrite Fa in B. split; [exact B|]. split; [exact A|]. apply C.
  destruct x; cbn in B |- *; congruence.
Qed.

Lemma abs_int_ge1 : forall n, n <> 0%Z -> 1 <= Rabs (IZR n).
Proof. intros n H. rewrite <- abs_IZR. apply IZR_le. lia. Qed.

(** e1 e2 relative errors *)
Lemma prod_err : forall a b e f, 0 <= a <= 1 -> 0 <= b <= 1 -> - a <= e <= a -> - b <= f <= b ->
  exists g, - (a + 2 * b) <= g <= a + 2 * b /\ (1 + e) * (1 + f) = 1 + g.
Proof.
  intros a b e f Ha Hb He Hf. exists (e + f + e * f). split; [|ring].
  assert (Rabs (e * f) <= b).
  { rewrite Rabs_mult. rewrite <- (Rmult_1_l b). apply Rmult_le_compat; try apply Rabs_pos; apply Rabs_le; lra. }
  apply Rabs_le_inv in H. lra.
Qed.

Lemma seconds_spec : forall n, (Z.abs n <= 2 ^ 64)%Z ->
  finite (seconds n) /\ Bsign 53 1024 (seconds n) = (n <? 0)%Z /\
  dval (seconds n) = nearest64 (nearest64 (IZR n) / 1000000000) /\
  exists e, - (3 * uu) <= e <= 3 * uu /\ dval (seconds n) * 1000000000 = IZR n * (1 + e).
Proof.
  intros n Hn. unfold seconds. destruct (of_int_spec n Hn) as (Fi & Vi & Si).
  assert (G : dval giga <> 0) by (rewrite giga_val; lra).
  assert (B : Rabs (nearest64 (nearest64 (IZR n) / 1000000000)) <= bpow radix2 64).
  { apply abs_round_le_generic; [apply FLT_exp_valid; exact p53|apply valid_rnd_N|apply format_p; lia|].
    assert (X := of_int_abs n Hn). rewrite Vi in X. apply Rabs_le_inv in X.
    rewrite <- pow_IZR in * by lia. change (IZR (2 ^ 64)) with 18446744073709551616 in *. apply Rabs_le. lra. }
  destruct (div_spec (of_int n) giga Fi G) as (F & V & S).
  { rewrite Vi, giga_val. apply Rle_lt_trans with (1 := B). apply p64_lt. }
  rewrite Vi, giga_val in V. split; [exact F|]. split; [rewrite S, Si, giga_sign, xorb_false_r; reflexivity|]. split; [exact V|].
  rewrite V. destruct (Z.eq_dec n 0) as [-> |N].
  { exists 0. split; [lra|]. rewrite nearest64_0. unfold Rdiv. rewrite Rmult_0_l, nearest64_0. ring. }
  assert (N1 := abs_int_ge1 n N). destruct (nearest64_rel (IZR n)) as (e1 & B1 & E1); [right; lra|].
  assert (L : 1 / 2 <= Rabs (nearest64 (IZR n))).
  { rewrite E1, Rabs_mult. assert (1 / 2 <= Rabs (1 + e1)) by (rewrite Rabs_pos_eq; lra).
    replace (1 / 2) with (1 * (1 / 2)) by ring. apply Rmult_le_compat; lra. }
  destruct (nearest64_rel (nearest64 (IZR n) / 1000000000)) as (e2 & B2 & E2).
  { right. unfold Rdiv. rewrite Rabs_mult. rewrite (Rabs_pos_eq (/ 1000000000)) by lra. lra. }
  destruct (prod_err uu uu e1 e2) as (g & Bg & Eg); try lra.
  exists g. split; [lra|]. rewrite E2, E1, <- Eg. field.
Qed.

(** seconds() and back: off by at most the rounding *)
Lemma roundtrip_err : forall n, (Z.abs n <= 2 ^ 64)%Z ->
  Rabs (nearest64 (dval (seconds n) * 1000000000) - IZR n) <= Rabs (IZR n) * (5 * uu).
Proof.
  intros n Hn. destruct (seconds_spec n Hn) as (_ & _ & _ & e & B & E). rewrite E.
  destruct (Z.eq_dec n 0) as [-> |N].
  { rewrite Rmult_0_l, nearest64_0, Rminus_0_r, Rabs_R0. lra. }
  assert (N1 := abs_int_ge1 n N).
  destruct (nearest64_rel (IZR n * (1 + e))) as (f & Bf & Ef).
  { right. rewrite Rabs_mult. assert (1 / 2 <= Rabs (1 + e)) by (rewrite Rabs_pos_eq; lra).
    apply Rle_trans with (1 * (1 / 2)); [lra|]. apply Rmult_le_compat; lra. }
  destruct (prod_err (3 * uu) uu e f) as (g & Bg & Eg); try lra.
  rewrite Ef, Rmult_assoc, Eg. replace (IZR n * (1 + g) - IZR n) with (IZR n * g) by ring. rewrite Rabs_mult.
  apply Rmult_le_compat_l; [apply Rabs_pos|]. apply Rabs_le. lra.
Qed.

Lemma roundtrip_interval : forall conv n, converts (- 2 ^ 63) (2 ^ 63 - 1) conv -> (Z.abs n <= 2 ^ 63 - 2 ^ 13)%Z ->
  exists r, interval_of_secs conv (seconds n) = Ok r /\ Rabs (IZR r - IZR n) < 1 + Rabs (IZR n) / 1801439850948198.
Proof.
  intros conv n C Hn. assert (H64 : (Z.abs n <= 2 ^ 64)%Z) by lia.
  destruct (seconds_spec n H64) as (F & _). destruct (interval_ok conv (seconds n) C F) as [A _].
  assert (R := roundtrip_err n H64). set (v := nearest64 _) in *.
  assert (Hn' : Rabs (IZR n) <= 9223372036854767616).
  { rewrite <- abs_IZR. apply IZR_le. lia. }
  exists (Ztrunc v). split.
  - apply A. change (IZR (2 ^ 63)) with 9223372036854775808. apply Rabs_le_inv in R. apply Rabs_le_inv in Hn'.
    assert (Rabs (IZR n) <= 9223372036854767616) by (apply Rabs_le; lra). lra.
  - replace (IZR (Ztrunc v) - IZR n) with ((IZR (Ztrunc v) - v) + (v - IZR n)) by ring.
    apply Rle_lt_trans with (1 := Rabs_triang _ _). assert (X := Ztrunc_err v).
    assert (0 <= Rabs (IZR n)) by apply Rabs_pos. lra.
Qed.

Lemma roundtrip_time : forall conv n, converts 0 (2 ^ 64 - 1) conv -> (0 <= n <= 2 ^ 64 - 2 ^ 14)%Z ->
  exists r, time_of_secs conv (seconds n) = Ok r /\ Rabs (IZR r - IZR n) < 1 + Rabs (IZR n) / 1801439850948198.
Proof.
  intros conv n C Hn. assert (H64 : (Z.abs n <= 2 ^ 64)%Z) by lia.
  destruct (seconds_spec n H64) as (F & S & _). destruct (time_ok conv (seconds n) C F) as [A _].
  assert (R := roundtrip_err n H64). set (v := nearest64 _) in *.
  assert (Hn' : Rabs (IZR n) <= 18446744073709535232).
  { rewrite <- abs_IZR. apply IZR_le. lia. }
  exists (Ztrunc v). split.
  - apply A; [rewrite S; apply Z.ltb_ge; lia|]. change (IZR (2 ^ 64)) with 18446744073709551616. apply Rabs_le_inv in R.
    assert (Hm := Rabs_le_inv _ _ Hn'). lra.
  - replace (IZR (Ztrunc v) - IZR n) with ((IZR (Ztrunc v) - v) + (v - IZR n)) by ring.
    apply Rle_lt_trans with (1 := Rabs_triang _ _). assert (X := Ztrunc_err v).
    assert (0 <= Rabs (IZR n)) by apply Rabs_pos. lra.
Qed.

(** for small values: never away from zero, and off by at most one *)
Lemma format_half : forall m, (Z.abs m <= 2 ^ 53)%Z -> generic_format radix2 (FLT_exp (-1074) 53) (IZR m / 2).
Proof. intros m H. unfold Rdiv. change (/ 2) with (bpow radix2 (-1)). apply format_int; [exact H|lia]. Qed.

Lemma small_roundtrip_pos : forall n, (0 < n < 2 ^ 52)%Z ->
  IZR n - 1 / 2 <= nearest64 (dval (seconds n) * 1000000000) <= IZR n + 1 / 2.
Proof.
  intros n Hn. destruct (seconds_spec n) as (_ & _ & V & _); [lia|].
  rewrite (nearest64_id (IZR n)) in V by (apply format_Z; lia).
  assert (N1 : 1 <= IZR n) by (apply IZR_le; lia).
  assert (N2 : IZR n <= 4503599627370496) by (apply IZR_le; lia).
  destruct (nearest64_rel (IZR n / 1000000000)) as (e & B & E); [right; rewrite Rabs_pos_eq; lra|].
  rewrite V, E. assert (X : Rabs (IZR n * e) <= 1 / 2).
  { rewrite Rabs_mult, (Rabs_pos_eq (IZR n)) by lra. apply Rle_trans with (4503599627370496 * uu); [|lra].
    apply Rmult_le_compat; [lra|apply Rabs_pos|lra|apply Rabs_le; lra]. }
  apply Rabs_le_inv in X. apply nearest64_between.
  - replace (IZR n - 1 / 2) with (IZR (2 * n - 1) / 2) by (rewrite minus_IZR, mult_IZR; lra). apply format_half. lia.
  - replace (IZR n + 1 / 2) with (IZR (2 * n + 1) / 2) by (rewrite plus_IZR, mult_IZR; lra). apply format_half. lia.
  - replace (IZR n / 1000000000 * (1 + e) * 1000000000) with (IZR n + IZR n * e) by field. lra.
Qed.

Lemma of_int_opp : forall n, (Z.abs n <= 2 ^ 64)%Z -> dval (of_int (- n)) = - dval (of_int n).
Proof.
  intros n H. destruct (of_int_spec n H) as (_ & -> & _). destruct (of_int_spec (- n)) as (_ & -> & _); [lia|].
  unfold nearest64. rewrite opp_IZR. apply round_NE_opp.
Qed.

Lemma nearest64_opp : forall r, nearest64 (- r) = - nearest64 r.
Proof. intros. apply round_NE_opp. Qed.

Lemma seconds_opp : forall n, (Z.abs n <= 2 ^ 64)%Z -> dval (seconds (- n)) = - dval (seconds n).
Proof.
  intros n H. destruct (seconds_spec n H) as (_ & _ & -> & _). destruct (seconds_spec (- n)) as (_ & _ & -> & _); [lia|].
  rewrite opp_IZR, nearest64_opp. unfold Rdiv. rewrite Ropp_mult_distr_l_reverse. apply nearest64_opp.
Qed.

Lemma small_roundtrip : forall conv n, converts (- 2 ^ 63) (2 ^ 63 - 1) conv -> (Z.abs n < 2 ^ 52)%Z ->
  exists r, interval_of_secs conv (seconds n) = Ok r /\ (r = n \/ r = n - Z.sgn n)%Z.
Proof.
  intros conv n C Hn. destruct (seconds_spec n) as (F & _); [lia|]. destruct (interval_ok conv (seconds n) C F) as [A _].
  assert (P : forall k, (0 < k < 2 ^ 52)%Z -> (Ztrunc (nearest64 (dval (seconds k) * 1000000000)) = k \/ 
    Ztrunc (nearest64 (dval (seconds k) * 1000000000)) = k - 1)%Z /\ 0 <= nearest64 (dval (seconds k) * 1000000000) < IZR (2 ^ 63)).
  { clear. intros k Hk. assert (X := small_roundtrip_pos k Hk). set (v := nearest64 _) in *.
    assert (1 <= IZR k) by (apply IZR_le; lia). assert (IZR k <= 4503599627370496) by (apply IZR_le; lia).
    split; [|change (IZR (2 ^ 63)) with 9223372036854775808; lra].
    rewrite Ztrunc_floor by lra. destruct (Rle_or_lt (IZR k) v).
    - left. apply Zfloor_imp. rewrite plus_IZR. lra.
    - right. apply Zfloor_imp. rewrite plus_IZR, minus_IZR. lra. }
  destruct (Z.lt_trichotomy n 0) as [L|[-> |G]].
  - destruct (P (- n)%Z) as [Q R]; [lia|]. rewrite seconds_opp in Q, R by lia.
    replace (- dval (seconds n) * 1000000000) with (- (dval (seconds n) * 1000000000)) in Q, R by ring.
    rewrite nearest64_opp in Q, R. set (v := nearest64 _) in *. rewrite Ztrunc_opp in Q.
    exists (Ztrunc v). split; [apply A; lra|]. rewrite Z.sgn_neg by lia. lia.
  - destruct (seconds_spec 0) as (_ & _ & V & _); [lia|]. rewrite V in A. rewrite nearest64_0 in A. unfold Rdiv in A.
    rewrite Rmult_0_l, nearest64_0, Rmult_0_l, nearest64_0 in A. exists 0%Z. split; [|left; reflexivity].
    rewrite (Ztrunc_IZR 0) in A. apply A. change (IZR (2 ^ 63)) with 9223372036854775808. lra.
  - destruct (P n) as [Q R]; [lia|]. set (v := nearest64 _) in *. exists (Ztrunc v).
    split; [apply A; lra|]. rewrite Z.sgn_pos by lia. exact Q.
Qed.

(** current_time *)
Lemma plus_spec : forall a b, finite a -> finite b -> 
  let v := nearest64 (dval a + dval b) in Rabs v < bpow radix2 1024 -> 0 < dval a + dval b ->
  let x := b64_plus mode_NE a b in finite x /\ dval x = v /\ Bsign 53 1024 x = false.
Proof.
  intros a b Fa Fb v Hv Hp. cbv zeta. unfold b64_plus.
  match goal with |- context [Bplus 53 1024 ?p ?q ?c mode_NE a b] => generalize (Bplus_correct 53 1024 p q c mode_NE a b Fa Fb); set (x := Bplus 53 1024 p q c mode_NE a b) end.
  change (round_mode mode_NE) with ZnearestE. rewrite fx_eq. change (round radix2 _ ZnearestE (B2R 53 1024 a + B2R 53 1024 b)) with v.
  rewrite (Rlt_bool_true _ _ Hv). intros (A & B & C). split; [exact B|]. split; [exact A|]. rewrite C.
  rewrite Rcompare_Gt; [reflexivity|exact Hp].
Qed.

(** absolute error of rounding below 2^k *)
Lemma nearest64_abs : forall r k, (-1000 <= k)%Z -> Rabs r < bpow radix2 k -> Rabs (nearest64 r - r) <= bpow radix2 (k - 54).
Proof.
  intros r k Hk H. apply Rle_trans with (/ 2 * ulp radix2 (FLT_exp (-1074) 53) r).
  - apply error_le_half_ulp. apply FLT_exp_valid. exact p53.
  - replace (bpow radix2 (k - 54)) with (/ 2 * bpow radix2 (k - 53)).
    + apply Rmult_le_compat_l; [lra|]. destruct (Req_dec r 0) as [-> |N].
      * replace (ulp radix2 (FLT_exp (-1074) 53) 0) with (bpow radix2 (-1074)); [apply bpow_le; lia|].
        symmetry. apply ulp_FLT_0. exact p53.
      * rewrite ulp_neq_0 by exact N. apply bpow_le. unfold cexp, FLT_exp. assert (mag radix2 r <= k)%Z by (apply mag_le_bpow; assumption). lia.
    + change (/ 2) with (bpow radix2 (-1)). rewrite <- bpow_plus. f_equal. lia.
Qed.

Lemma current_time_ok : forall conv sec usec, converts 0 (2 ^ 64 - 1) conv -> (0 <= sec < 2 ^ 32)%Z -> (0 <= usec < 1000000)%Z ->
  exists r, current_time conv sec usec = Ok r /\ Rabs (IZR r - IZR (sec * 1000000000 + usec * 1000)) < 500.
Proof.
  intros conv sec usec C Hs Hu. unfold current_time.
  destruct (of_int_spec sec) as (Fs & _ & Ss); [lia|]. assert (Vs := of_int_exact sec ltac:(lia)).
  destruct (of_int_spec usec) as (Fu & _ & Su); [lia|]. assert (Vu := of_int_exact usec ltac:(lia)).
  destruct (of_int_spec 1000000) as (Fm & _ & Sm); [lia|]. assert (Vm := of_int_exact 1000000 ltac:(lia)).
  assert (S0 : 0 <= IZR sec <= 4294967295) by (split; apply IZR_le; lia).
  assert (U0 : 0 <= IZR usec <= 999999) by (split; apply IZR_le; lia).
  set (q := IZR usec / 1000000). assert (Q0 : 0 <= q <= 999999 / 1000000) by (unfold q; lra).
  assert (Eq := nearest64_abs q 0 ltac:(lia)). cbn [bpow] in Eq. 
  assert (Eq' : Rabs (nearest64 q - q) <= uu). { eapply Rle_trans; [apply Eq; rewrite Rabs_pos_eq; lra|]. cbn. lra. }
  assert (Qn : 0 <= nearest64 q <= 1).
  { apply nearest64_between; [apply generic_format_0|change 1 with (bpow radix2 0); apply generic_format_bpow; cbn; lia|lra]. }
  apply Rabs_le_inv in Eq'.
  assert (G : dval (of_int 1000000) <> 0) by (rewrite Vm; lra).
  destruct (div_spec (of_int usec) (of_int 1000000) Fu G) as (Fq & Vq & Sq).
  { rewrite Vu, Vm. fold q. rewrite Rabs_pos_eq by lra. apply Rle_lt_trans with (bpow radix2 0); [cbn; lra|]. apply bpow_lt. lia. }
  rewrite Vu, Vm in Vq. fold q in Vq. set (dq := b64_div mode_NE (of_int usec) (of_int 1000000)) in *.
  set (t := IZR sec + nearest64 q). assert (T0 : 0 <= t <= 4294967296) by (unfold t; lra).
  assert (Et : Rabs (nearest64 t - t) <= / 4194304).
  { destruct (Req_dec t 4294967296) as [E|E].
    - rewrite nearest64_id, Rminus_eq_0, Rabs_R0; [lra|]. rewrite E. change 4294967296 with (bpow radix2 32). apply format_p. lia.
    - eapply Rle_trans; [apply (nearest64_abs t 32); [lia|rewrite Rabs_pos_eq; cbn; lra]|]. cbn. lra. }
  assert (Tn : 0 <= nearest64 t <= 4294967296).
  { apply nearest64_between; [apply generic_format_0|change 4294967296 with (bpow radix2 32); apply format_p; lia|lra]. }
  set (w := nearest64 t * 1000000000).
  assert (Ew : Rabs (nearest64 w - w) <= 256).
  { eapply Rle_trans; [apply (nearest64_abs w 62); [lia|unfold w; rewrite Rabs_pos_eq; cbn; lra]|]. cbn. lra. }
  assert (W0 : 0 <= nearest64 w) by (apply nearest64_pos; unfold w; lra).
  (* the sum *)
  assert (ADD : exists x, x = b64_plus mode_NE (of_int sec) dq /\ finite x /\ dval x = nearest64 t /\ Bsign 53 1024 x = false).
  { eexists. split; [reflexivity|]. destruct (Req_dec t 0) as [E|E].
    - assert (sec = 0%Z) by (apply eq_IZR; unfold t in E; lra).
      assert (usec = 0%Z).
      { apply eq_IZR. destruct (Req_dec (IZR usec) 0) as [Z|Z]; [exact Z|]. exfalso.
        assert (1 <= IZR usec) by (apply IZR_le; apply Znot_gt_le; intros HH; apply Z; apply f_equal; lia).
        unfold t, q in *. lra. }
      subst sec usec. rewrite E, nearest64_0. unfold dq. vm_compute. auto.
    - destruct (plus_spec (of_int sec) dq Fs Fq) as (A & B & D).
      + rewrite Vs, Vq. fold t. rewrite Rabs_pos_eq by lra. apply Rle_lt_trans with (bpow radix2 32); [cbn; lra|apply bpow_lt; lia].
      + rewrite Vs, Vq. fold t. lra.
      + rewrite Vs, Vq in B. fold t in B. auto. }
  destruct ADD as (x & <- & Fx & Vx & Sx). destruct (time_ok conv x C Fx) as [A _]. rewrite Vx in A. fold w in A.
  apply Rabs_le_inv in Ew, Et. exists (Ztrunc (nearest64 w)). split.
  - apply A; [exact Sx|]. change (IZR (2 ^ 64)) with 18446744073709551616. unfold w in *. lra.
  - assert (X := Ztrunc_err (nearest64 w)). apply Rabs_def2 in X. rewrite plus_IZR, !mult_IZR. unfold w, t, q in *. apply Rabs_def1; lra.
Qed.
