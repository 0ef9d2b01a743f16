(** Proofs for C26 and the search. *)
From Verif Require Import Base IntModel IntSpec IntProofs StrModel BytesModel BytesSpec BytesProofs.
Open Scope Z_scope.

Lemma acc_ok s i : Forall is_byte s -> 0 <= i -> i * 256 ^ blen s + be_val s < 2 ^ 64 ->
  fold_left (fun i c => Z.lor (Z.shiftl i 8 mod 2 ^ 64) c) s i = i * 256 ^ blen s + be_val s.
Proof.
  revert i. induction s as [|c s IH]; intros i HF Hi HL.
  - unfold blen. cbn. lia.
  - inversion HF as [|? ? Hc HF']; subst. cbn [fold_left]. rewrite Z.shiftl_mul_pow2 by lia. change (2 ^ 8) with 256.
    unfold blen in *. cbn [length be_val] in *. rewrite Nat2Z.inj_succ, Z.pow_succ_r in * by lia.
    pose proof (be_val_range s HF') as R. set (P := 256 ^ Z.of_nat (length s)) in *. assert (0 < P) by (apply Z.pow_pos_nonneg; lia).
    unfold is_byte in Hc. rewrite Z.mod_small by nia. rewrite (Z.mul_comm i 256), lor_add256 by exact Hc.
    rewrite IH; [ring|exact HF'|lia|nia].
Qed.

Lemma acc_bytes_ok s : Forall is_byte s -> blen s <= 8 -> acc_bytes s = be_val s.
Proof.
  intros HF HL. unfold acc_bytes. rewrite acc_ok; [lia|exact HF|lia|]. pose proof (be_val_range s HF) as R.
  assert (256 ^ Z.of_nat (length s) <= 256 ^ 8) by (apply Z.pow_le_mono_r; unfold blen in HL; lia).
  change (2 ^ 64) with (256 ^ 8). lia.
Qed.

Lemma be_val_zeros k s : be_val (repeat 0 k ++ s) = be_val s.
Proof. induction k as [|k IH]; cbn [repeat app be_val]; [reflexivity|lia]. Qed.

Lemma to_uint_plain_ok hl s o : Forall is_byte s -> (o = Big \/ o = Network \/ o = Little) ->
  to_uint_plain hl s o = if (1 <=? blen s) && (blen s <=? 8) then Ok (be_val (msb_first hl o s)) else Throw InvalidValue.
Proof.
  intros HF Ho. unfold to_uint_plain. destruct s as [|c s]; [reflexivity|].
  destruct (Z.ltb_spec 8 (blen (c :: s))) as [L|L].
  { destruct (Z.leb_spec (blen (c :: s)) 8); [lia|]. rewrite andb_false_r. reflexivity. }
  destruct (Z.leb_spec (blen (c :: s)) 8); [|lia]. destruct (Z.leb_spec 1 (blen (c :: s))) as [L1|L1]; [|unfold blen in L1; cbn [length] in L1; lia].
  cbn [andb]. rewrite acc_bytes_ok by assumption. destruct Ho as [-> | [-> | ->]]; try reflexivity.
  pose proof (flip_u_ok hl (repeat 0 (8 - length (c :: s))) (c :: s)) as F. rewrite be_val_zeros in F.
  apply F; [|exact HF|cbn; lia|].
  - apply Forall_forall. intros x Hx. apply repeat_spec in Hx. subst x. unfold is_byte. lia.
  - rewrite repeat_length. unfold blen in L. lia.
Qed.

Lemma land_pow2 i k : 0 <= k -> 0 <= i < 2 ^ (k + 1) -> (Z.land i (Z.shiftl 1 k) =? 0) = (i <? 2 ^ k).
Proof.
  intros Hk Hi. assert (T : Z.testbit i k = negb (i <? 2 ^ k)).
  { destruct (Z.ltb_spec i (2 ^ k)) as [L|L]; cbn [negb].
    - destruct (Z.eq_dec i 0) as [->|]; [apply Z.bits_0|]. apply Z.bits_above_log2; [lia|]. apply Z.log2_lt_pow2; lia.
    - apply Z.testbit_true; [lia|]. assert (E : i / 2 ^ k = 1).
      { symmetry. apply Z.div_unique with (r := i - 2 ^ k); [|lia]. left. rewrite Z.pow_add_r in Hi by lia. lia. }
      rewrite E. reflexivity. }
  destruct (Z.ltb_spec i (2 ^ k)) as [L|L]; cbn [negb] in T.
  - apply Z.eqb_eq. apply Z.bits_inj'. intros j Hj. rewrite Z.land_spec, Z.bits_0.
    destruct (Z.eq_dec j k) as [->|N]; [rewrite T; reflexivity|].
    rewrite Z.shiftl_spec by lia. replace (Z.testbit 1 (j - k)) with false; [apply andb_false_r|].
    symmetry. destruct (Z.ltb_spec j k); [apply Z.testbit_neg_r; lia|]. apply Z.bits_above_log2; cbn; lia.
  - apply Z.eqb_neq. intros E. apply (f_equal (fun z => Z.testbit z k)) in E. rewrite Z.land_spec, Z.bits_0, T in E.
    rewrite Z.shiftl_spec, Z.sub_diag in E by lia. discriminate.
Qed.

Lemma lxor_ones i k : 0 <= k -> 0 <= i < 2 ^ k -> Z.lxor i (Z.shiftl 1 k - 1) = 2 ^ k - 1 - i.
Proof.
  intros Hk Hi. rewrite Z.shiftl_mul_pow2, Z.mul_1_l by lia. assert (EO : 2 ^ k - 1 = Z.ones k) by (rewrite Z.ones_equiv; lia).
  rewrite EO.
  assert (B : forall j, k <= j -> Z.testbit i j = false).
  { intros j Hj. destruct (Z.eq_dec i 0) as [->|]; [apply Z.bits_0|]. apply Z.bits_above_log2; [lia|].
    assert (Z.log2 i < k) by (apply Z.log2_lt_pow2; lia). lia. }
  rewrite Z.sub_nocarry_ldiff.
  - apply Z.bits_inj'. intros j Hj. rewrite Z.lxor_spec, Z.ldiff_spec. destruct (Z.ltb_spec j k).
    + rewrite Z.ones_spec_low by lia. destruct (Z.testbit i j); reflexivity.
    + rewrite Z.ones_spec_high by lia. rewrite B by lia. reflexivity.
  - apply Z.bits_inj'. intros j Hj. rewrite Z.ldiff_spec, Z.bits_0. destruct (Z.ltb_spec j k).
    + rewrite Z.ones_spec_low by lia. apply andb_false_r.
    + rewrite B by lia. reflexivity.
Qed.

Lemma wrap_s64_eq z r : - 2 ^ 63 <= r < 2 ^ 63 -> (exists k, z = r + k * 2 ^ 64) -> wrap (mkIty true W64) z = r.
Proof.
  intros Hr [k E]. destruct (wrap_congr (mkIty true W64) z) as [k' E']. cbn [it_width bits_of] in E'.
  apply (in_type_unique (mkIty true W64) _ _ (k + k')); [apply wrap_range| |cbn [it_width bits_of]; lia].
  unfold in_type. cbn [it_signed it_width bits_of]. change (64 - 1) with 63. lia.
Qed.

Lemma sign_extend_ok n i : (1 <= n <= 8)%nat -> 0 <= i < 2 ^ (8 * Z.of_nat n) ->
  sign_extend (Z.of_nat n) i = twos_complement n i.
Proof.
  intros Hn Hi. unfold sign_extend, twos_complement. set (k := 8 * Z.of_nat n) in *.
  replace (Z.of_nat n * 8) with k by lia. rewrite land_pow2 by (replace (k - 1 + 1) with k; lia).
  assert (Ek : 2 ^ k = 2 * 2 ^ (k - 1)) by (rewrite <- Z.pow_succ_r by lia; f_equal; lia).
  assert (Hk : 2 ^ (k - 1) <= 2 ^ 63) by (apply Z.pow_le_mono_r; lia).
  destruct (Z.ltb_spec i (2 ^ (k - 1))) as [L|L]; cbn [negb].
  - apply wrap_s64_eq; [lia|]. exists 0. lia.
  - destruct (Z.eqb_spec (Z.of_nat n) 8) as [E8|N8].
    + assert (Ek8 : k = 64) by lia. rewrite Ek8 in *. change (64 - 1) with 63 in *. apply wrap_s64_eq; [lia|].
      pose proof (Z.div_mod (2 ^ 64 - 1 - i + 1) (2 ^ 64) ltac:(lia)) as E1.
      pose proof (Z.div_mod (- ((2 ^ 64 - 1 - i + 1) mod 2 ^ 64)) (2 ^ 64) ltac:(lia)) as E2.
      set (q1 := (2 ^ 64 - 1 - i + 1) / 2 ^ 64) in *. set (r1 := (2 ^ 64 - 1 - i + 1) mod 2 ^ 64) in *.
      set (q2 := - r1 / 2 ^ 64) in *. set (r2 := - r1 mod 2 ^ 64) in *.
      exists (q1 - q2). clearbody q1 r1 q2 r2. lia.
    + rewrite lxor_ones by lia. apply wrap_s64_eq; [lia|].
      pose proof (Z.div_mod (- (2 ^ k - 1 - i) - 1) (2 ^ 64) ltac:(lia)) as E1.
      exists (- ((- (2 ^ k - 1 - i) - 1) / 2 ^ 64)). lia.
Qed.

Lemma pow256_8 n : 256 ^ Z.of_nat n = 2 ^ (8 * Z.of_nat n).
Proof. change 256 with (2 ^ 8). rewrite <- Z.pow_mul_r by lia. reflexivity. Qed.

Lemma msb_ok hl o s : Forall is_byte s -> Forall is_byte (msb_first hl o s).
Proof. intros. destruct o; cbn; auto using Forall_rev. destruct hl; auto using Forall_rev. Qed.
Lemma msb_length hl o s : length (msb_first hl o s) = length s.
Proof. destruct o; cbn; auto using rev_length. destruct hl; auto using rev_length. Qed.

Lemma to_int_plain_ok hl s o : Forall is_byte s -> (o = Big \/ o = Network \/ o = Little) ->
  to_int_plain hl s o = if (1 <=? blen s) && (blen s <=? 8) then Ok (twos_complement (length s) (be_val (msb_first hl o s)))
                        else Throw InvalidValue.
Proof.
  intros HF Ho. unfold to_int_plain. rewrite to_uint_plain_ok by assumption.
  destruct ((1 <=? blen s) && (blen s <=? 8)) eqn:E; [|reflexivity]. cbn [bind]. f_equal. unfold blen in *.
  apply sign_extend_ok; [lia|]. rewrite <- pow256_8, <- (msb_length hl o s). apply be_val_range. apply msb_ok. exact HF.
Qed.

(** ** find *)
Lemma match_at_spec s n : match match_at s n with
  | Some true => exists r, s = n ++ r
  | Some false => (forall r, s <> n ++ r) /\ (forall r, n <> s ++ r)
  | None => exists x r, n = s ++ x :: r
  end.
Proof.
  revert s. induction n as [|y n IH]; intros s; cbn [match_at]; [exists s; reflexivity|].
  destruct s as [|x s]; [exists y, n; reflexivity|]. destruct (Z.eqb_spec x y) as [->|N].
  - specialize (IH s). destruct (match_at s n) as [[]|].
    + destruct IH as [r ->]. exists r. reflexivity.
    + destruct IH as [H1 H2]. split; intros r E; cbn in E; injection E as E; [apply (H1 r)|apply (H2 r)]; exact E.
    + destruct IH as (z & r & ->). exists z, r. reflexivity.
  - split; intros r E; cbn in E; injection E as E _; congruence.
Qed.

Lemma occurs_shift x s n j : occurs_at s n j -> occurs_at (x :: s) n (S j).
Proof. intros H. exact H. Qed.

Lemma find_loop_ok n s i : n <> [] -> exists k f, find_loop s n i = (f, i + Z.of_nat k) /\ find_spec s n 0 f k.
Proof.
  intros Hn. revert i. induction s as [|x s IH]; intros i; cbn [find_loop].
  - exists 0%nat, false. split; [f_equal; lia|]. split; [cbn; lia|]. split.
    + split; [exists n; reflexivity|]. intros j _ [r E]. rewrite skipn_nil in E. symmetry in E. apply app_eq_nil in E. destruct E as [-> _]. congruence.
    + intros j H. lia.
  - pose proof (match_at_spec (x :: s) n) as M. destruct (match_at (x :: s) n) as [[]|].
    + exists 0%nat, true. split; [f_equal; lia|]. split; [cbn; lia|]. split; [exact M|]. intros j H. lia.
    + destruct (IH (i + 1)) as (k & f & E & A & B & C). exists (S k), f. split; [rewrite E; f_equal; lia|].
      split; [cbn [length]; lia|]. split.
      * destruct f; [exact B|]. destruct B as [B1 B2]. split; [exact B1|].
        intros [|j] Hj; [lia|]. apply (B2 j). lia.
      * intros [|j] Hj.
        -- destruct M as [M1 M2]. split; [intros [r E']; apply (M1 r); exact E'|intros [r E']; apply (M2 r); exact E'].
        -- apply (C j). lia.
    + destruct M as (y & r & E). exists 0%nat, false. split; [f_equal; lia|]. split; [cbn; lia|]. split.
      * split; [exists (y :: r); exact E|]. intros j _ [r' E']. rewrite E in E'.
        apply (f_equal (@length _)) in E'. rewrite !app_length, skipn_length in E'. unfold bytes, byte in *. cbn [length] in E'. lia.
      * intros j H. lia.
Qed.

Lemma find_from n s st : n <> [] -> (st <= length s)%nat ->
  exists k f, find_loop (skipn st s) n (Z.of_nat st) = (f, Z.of_nat k) /\ find_spec s n st f k.
Proof.
  intros Hn Hs. destruct (find_loop_ok n (skipn st s) (Z.of_nat st) Hn) as (k & f & E & A & B & C).
  exists (st + k)%nat, f. split; [rewrite E; f_equal; lia|]. rewrite skipn_length in A.
  assert (OA : forall j, occurs_at (skipn st s) n j <-> occurs_at s n (st + j)).
  { intros j. unfold occurs_at. rewrite skipn_skipn'. replace (j + st)%nat with (st + j)%nat by lia. reflexivity. }
  assert (PA : forall j, partial_at (skipn st s) n j <-> partial_at s n (st + j)).
  { intros j. unfold partial_at. rewrite skipn_skipn'. replace (j + st)%nat with (st + j)%nat by lia. reflexivity. }
  split; [lia|]. split.
  - destruct f; [apply OA; exact B|]. destruct B as [B1 B2]. split; [apply PA; exact B1|].
    intros j Hj. replace j with (st + (j - st))%nat by lia. rewrite <- OA. apply B2. lia.
  - intros j Hj. replace j with (st + (j - st))%nat by lia. rewrite <- OA, <- PA. apply C. lia.
Qed.
