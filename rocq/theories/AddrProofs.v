From Verif Require Import Base IntModel IntSpec IntProofs AddrModel AddrSpec.
Open Scope Z_scope.

Lemma testbit_ge64 x i : 0 <= x < 2 ^ 64 -> 64 <= i -> Z.testbit x i = false.
Proof.
  intros Hx Hi. destruct (Z.eq_dec x 0) as [->|]; [apply Z.bits_0|]. apply Z.bits_above_log2; [lia|].
  assert (Z.log2 x < 64) by (apply Z.log2_lt_pow2; lia). lia.
Qed.

Lemma mask64_bits s i : 0 <= s < 64 -> 0 <= i -> Z.testbit ((all_ones64 * 2 ^ s) mod 2 ^ 64) i = (s <=? i) && (i <? 64).
Proof.
  intros Hs Hi. destruct (Z.ltb_spec i 64).
  - rewrite Z.mod_pow2_bits_low by lia. change all_ones64 with (Z.ones 64).
    destruct (Z.leb_spec s i); cbn [andb].
    + rewrite Z.mul_pow2_bits by lia. apply Z.ones_spec_low. lia.
    + rewrite Z.mul_pow2_bits_low by lia. reflexivity.
  - rewrite Z.mod_pow2_bits_high by lia. rewrite andb_false_r. reflexivity.
Qed.

Lemma land64_range x m : 0 <= x < 2 ^ 64 -> 0 <= Z.land x m < 2 ^ 64.
Proof.
  intros Hx. split; [apply Z.land_nonneg; lia|].
  destruct (Z.eq_dec (Z.land x m) 0) as [E|N]; [lia|].
  assert (0 <= Z.land x m) by (apply Z.land_nonneg; lia).
  apply Z.log2_lt_pow2; [lia|]. destruct (Z.ltb_spec (Z.log2 (Z.land x m)) 64); [assumption|].
  exfalso. assert (T : Z.testbit (Z.land x m) (Z.log2 (Z.land x m)) = true) by (apply Z.bit_log2; lia).
  rewrite Z.land_spec, (testbit_ge64 x) in T by lia. discriminate T.
Qed.

Lemma mask_ok a w : 0 <= a1 a < 2 ^ 64 -> 0 <= a2 a < 2 ^ 64 -> 0 <= w <= 128 -> exists m, addr_mask a w = Ok m /\
  fam m = fam a /\ 0 <= a1 m < 2 ^ 64 /\ 0 <= a2 m < 2 ^ 64 /\
  (forall i, 0 <= i < 128 -> abit m i = (128 - w <=? i) && abit a i).
Proof.
  intros H1 H2 Hw. unfold addr_mask. destruct (Z.eqb_spec w 0) as [->|N].
  { eexists. split; [reflexivity|]. cbn [fam a1 a2]. repeat split; try lia.
    intros i Hi. unfold abit. cbn [a1 a2]. rewrite !Z.bits_0. destruct (Z.leb_spec (128 - 0) i); [lia|].
    destruct (i <? 64); reflexivity. }
  destruct (Z.ltb_spec w 64).
  - unfold shl64. destruct (Z.leb_spec 64 (64 - w)); [lia|]. cbn [bind]. destruct (Z.ltb_spec 64 w); [lia|]. cbn [bind].
    eexists. split; [reflexivity|]. cbn [fam a1 a2]. split; [reflexivity|]. split; [apply land64_range; exact H1|]. split; [lia|].
    intros i Hi. unfold abit. cbn [a1 a2]. destruct (Z.ltb_spec i 64).
    + rewrite Z.bits_0. destruct (Z.leb_spec (128 - w) i); [lia|reflexivity].
    + rewrite Z.land_spec, mask64_bits by lia. destruct (Z.ltb_spec (i - 64) 64); [|lia].
      destruct (Z.leb_spec (64 - w) (i - 64)); destruct (Z.leb_spec (128 - w) i); try lia;
        rewrite ?andb_true_r, ?andb_false_r; reflexivity.
  - cbn [bind]. destruct (Z.ltb_spec 64 w).
    + rewrite Z.mod_small by lia. unfold shl64. destruct (Z.leb_spec 64 (128 - w)); [lia|]. cbn [bind].
      eexists. split; [reflexivity|]. cbn [fam a1 a2]. split; [reflexivity|]. split; [exact H1|].
      split; [apply land64_range; exact H2|].
      intros i Hi. unfold abit. cbn [a1 a2]. destruct (Z.ltb_spec i 64).
      * rewrite Z.land_spec, mask64_bits by lia. destruct (Z.ltb_spec i 64); [|lia]. rewrite andb_true_r, andb_comm. reflexivity.
      * destruct (Z.leb_spec (128 - w) i); [reflexivity|lia].
    + cbn [bind]. eexists. split; [reflexivity|]. cbn [fam a1 a2]. split; [reflexivity|]. split; [exact H1|]. split; [lia|].
      assert (w = 64) by lia. subst w. intros i Hi. unfold abit. cbn [a1 a2]. destruct (Z.ltb_spec i 64).
      * rewrite Z.bits_0. destruct (Z.leb_spec (128 - 64) i); [lia|reflexivity].
      * destruct (Z.leb_spec (128 - 64) i); [reflexivity|lia].
Qed.

Lemma mask_too_wide a w : 128 < w < 2 ^ 32 -> addr_mask a w = UB.
Proof.
  intros H. unfold addr_mask. destruct (Z.eqb_spec w 0); [lia|]. destruct (Z.ltb_spec w 64); [lia|]. cbn [bind].
  destruct (Z.ltb_spec 64 w); [|lia]. unfold shl64.
  assert (E : (128 - w) mod 2 ^ 32 = 2 ^ 32 + 128 - w) by (symmetry; apply (Z.mod_unique _ _ (-1)); lia).
  rewrite E. destruct (Z.leb_spec 64 (2 ^ 32 + 128 - w)); [reflexivity|lia].
Qed.

Lemma abit_ext a b : 0 <= a1 a < 2 ^ 64 -> 0 <= a2 a < 2 ^ 64 -> 0 <= a1 b < 2 ^ 64 -> 0 <= a2 b < 2 ^ 64 ->
  (forall i, 0 <= i < 128 -> abit a i = abit b i) -> a1 a = a1 b /\ a2 a = a2 b.
Proof.
  intros A1 A2 B1 B2 H. split; apply Z.bits_inj'; intros i Hi.
  - destruct (Z.ltb_spec i 64).
    + specialize (H (i + 64) ltac:(lia)). unfold abit in H. destruct (Z.ltb_spec (i + 64) 64); [lia|].
      replace (i + 64 - 64) with i in H by lia. exact H.
    + rewrite !testbit_ge64 by lia. reflexivity.
  - destruct (Z.ltb_spec i 64).
    + specialize (H i ltac:(lia)). unfold abit in H. destruct (Z.ltb_spec i 64); [|lia]. exact H.
    + rewrite !testbit_ge64 by lia. reflexivity.
Qed.

Lemma mask_mask a v w : 0 <= a1 a < 2 ^ 64 -> 0 <= a2 a < 2 ^ 64 -> 0 <= v <= 128 -> 0 <= w <= 128 ->
  bind (addr_mask a v) (fun m => addr_mask m w) = addr_mask a (Z.min v w).
Proof.
  intros H1 H2 Hv Hw. destruct (mask_ok a v H1 H2 Hv) as (m & E & Fm & M1 & M2 & Bm). rewrite E. cbn [bind].
  destruct (mask_ok m w M1 M2 Hw) as (m' & E' & Fm' & M1' & M2' & Bm').
  destruct (mask_ok a (Z.min v w) H1 H2 ltac:(lia)) as (n & En & Fn & N1 & N2 & Bn).
  rewrite E', En. f_equal.
  destruct (abit_ext m' n M1' M2' N1 N2) as [Q1 Q2].
  - intros i Hi. rewrite Bm', Bm, Bn by lia.
    destruct (Z.leb_spec (128 - w) i), (Z.leb_spec (128 - v) i), (Z.leb_spec (128 - Z.min v w) i); try lia; reflexivity.
  - destruct m', n. cbn in *. congruence.
Qed.

Definition full_len (f : family) (len : Z) : Z := match f with FIPv4 => len + 96 | _ => len end.

Lemma net_of_addr_ok p len : wf_addr p -> valid_length (fam p) len ->
  exists n, net_of_addr p len = Ok n /\ fam (nprefix n) = fam p /\ nlen n = full_len (fam p) len /\ net_length n = len /\
    0 <= nlen n <= 128 /\ 0 <= a1 (nprefix n) < 2 ^ 64 /\ 0 <= a2 (nprefix n) < 2 ^ 64 /\
    (forall i, 0 <= i < 128 -> abit (nprefix n) i = (128 - nlen n <=? i) && abit p i).
Proof.
  intros (H1 & H2 & H3) HL. unfold valid_length in HL. unfold net_of_addr, net_mask. cbn [nprefix nlen].
  assert (G : forall l, 0 <= l <= 128 -> fam p <> FUndef ->
    (family_eqb (fam p) FIPv4 = true -> l = len + 96) -> (family_eqb (fam p) FIPv4 = false -> l = len) -> l = full_len (fam p) len ->
    exists n, (if 2 ^ 31 <=? l then UB else let* p0 := addr_mask p (l mod 2 ^ 32) in Ok (mkNet p0 l)) = Ok n /\
    fam (nprefix n) = fam p /\ nlen n = full_len (fam p) len /\ net_length n = len /\
    0 <= nlen n <= 128 /\ 0 <= a1 (nprefix n) < 2 ^ 64 /\ 0 <= a2 (nprefix n) < 2 ^ 64 /\
    (forall i, 0 <= i < 128 -> abit (nprefix n) i = (128 - nlen n <=? i) && abit p i)).
  { intros l Hl Hf Ht Hff Hfl. destruct (Z.leb_spec (2 ^ 31) l); [lia|]. rewrite Z.mod_small by lia.
    destruct (mask_ok p l H1 H2 Hl) as (m & E & Fm & M1 & M2 & Bm). rewrite E. cbn [bind].
    eexists. split; [reflexivity|]. unfold net_length. cbn [nprefix nlen]. rewrite Fm.
    split; [reflexivity|]. split; [exact Hfl|]. split.
    - destruct (family_eqb (fam p) FIPv4); [rewrite Ht by reflexivity|rewrite Hff by reflexivity]; lia.
    - auto. }
  destruct (fam p) eqn:F; cbn [family_bits] in HL; [lia| |].
  - destruct (Z.ltb_spec len 0); [lia|]. destruct (Z.ltb_spec 32 len); [lia|]. cbn [orb bind].
    change (family_eqb FIPv4 FIPv4) with true. cbn iota.
    apply G; cbn [full_len]; try lia; try discriminate; auto.
  - destruct (Z.ltb_spec len 0); [lia|]. destruct (Z.ltb_spec 128 len); [lia|]. cbn [orb bind].
    change (family_eqb FIPv6 FIPv4) with false. cbn iota.
    apply G; cbn [full_len]; try lia; try discriminate; auto.
Qed.

Lemma net_of_addr_bad p len : ~ valid_length (fam p) len -> net_of_addr p len = Throw InvalidArgument.
Proof.
  intros H. unfold net_of_addr, valid_length in *. destruct (fam p); cbn [family_bits] in H; [reflexivity| |].
  - destruct (Z.ltb_spec len 0); [reflexivity|]. destruct (Z.ltb_spec 32 len); [reflexivity|lia].
  - destruct (Z.ltb_spec len 0); [reflexivity|]. destruct (Z.ltb_spec 128 len); [reflexivity|lia].
Qed.

Lemma addr_eqb_ok a b : addr_eqb a b = true <-> a1 a = a1 b /\ a2 a = a2 b.
Proof. unfold addr_eqb. rewrite andb_true_iff, !Z.eqb_eq. tauto. Qed.

Lemma net_contains_ok p len n x : wf_addr p -> wf_addr x -> net_of_addr p len = Ok n ->
  exists b, net_contains n x = Ok b /\ (b = true <-> agree_upper (full_len (fam p) len) x p).
Proof.
  intros Hp Hx E. assert (HV : valid_length (fam p) len).
  { unfold valid_length. destruct (fam p) eqn:F; unfold net_of_addr in E; rewrite F in E; cbn [family_bits].
    - discriminate E.
    - destruct (Z.ltb_spec len 0); [discriminate E|]. destruct (Z.ltb_spec 32 len); [discriminate E|]. lia.
    - destruct (Z.ltb_spec len 0); [discriminate E|]. destruct (Z.ltb_spec 128 len); [discriminate E|]. lia. }
  destruct (net_of_addr_ok p len Hp HV) as (n' & E' & Fn & Ln & _ & Lr & N1 & N2 & Bn).
  rewrite E in E'. injection E' as <-. destruct Hx as (X1 & X2 & _).
  unfold net_contains. rewrite Z.mod_small by lia.
  destruct (mask_ok x (nlen n) X1 X2 Lr) as (m & Em & Fm & M1 & M2 & Bm). rewrite Em. cbn [bind].
  eexists. split; [reflexivity|]. rewrite addr_eqb_ok, <- Ln. unfold agree_upper. split.
  - intros [Q1 Q2] i Hi. assert (Hb : abit m i = abit (nprefix n) i) by (unfold abit; rewrite Q1, Q2; reflexivity).
    rewrite Bm, Bn in Hb by lia. destruct (Z.leb_spec (128 - nlen n) i); [exact Hb|lia].
  - intros H. apply abit_ext; try assumption. intros i Hi. rewrite Bm, Bn by lia.
    destruct (Z.leb_spec (128 - nlen n) i); [cbn [andb]; apply H; lia|reflexivity].
Qed.

(** pack / unpack *)
Lemma pow8 : 256 ^ 8 = 2 ^ 64. Proof. reflexivity. Qed.

Lemma addr_pack_unpack hl a o rest : wf_addr a -> fam a <> FUndef -> o <> Undef ->
  exists bs, addr_pack hl a o = Ok bs /\ Z.of_nat (length bs) = family_bits (fam a) / 8 /\
    addr_unpack hl (bs ++ rest) (fam a) o = Ok (Some (a, rest)).
Proof.
  intros (H1 & H2 & H3) HF Ho. unfold addr_pack, addr_unpack. destruct a as [x y f]. cbn [a1 a2 fam] in *. destruct f; [congruence| |].
  - destruct (H3 eq_refl) as [-> H4]. destruct (Z.leb_spec (2 ^ 32) y); [lia|].
    destruct (pack_unpack hl u32t y o rest) as (bs & E & L & U); [cbn; lia|discriminate|exact Ho|].
    exists bs. split; [exact E|]. split; [rewrite L; reflexivity|].
    destruct (Nat.ltb_spec (length (bs ++ rest)) 4); [rewrite app_length, L in *; cbn in *; lia|].
    rewrite U. reflexivity.
  - destruct (pack_repr hl u64t x) as (bx & _); [cbn; lia|discriminate|].
    pose proof (fun r => pack_unpack hl u64t x o r ltac:(cbn; lia) ltac:(discriminate) Ho) as PX.
    pose proof (fun r => pack_unpack hl u64t y o r ltac:(cbn; lia) ltac:(discriminate) Ho) as PY.
    destruct (PX rest) as (bx' & Ex & Lx & Ux). destruct (PY rest) as (by' & Ey & Ly & Uy).
    rewrite Ex, Ey. cbn [bind]. eexists. split; [reflexivity|].
    split. { destruct (is_little hl o); rewrite app_length, Lx, Ly; reflexivity. }
    destruct (Nat.ltb_spec (length ((if is_little hl o then by' ++ bx' else bx' ++ by') ++ rest)) 16) as [HL|_].
    { exfalso. destruct (is_little hl o); rewrite !app_length, Lx, Ly in HL; cbn in HL; lia. }
    destruct (is_little hl o) eqn:EL; rewrite <- app_assoc.
    + destruct (PY (bx' ++ rest)) as (b2 & Ey2 & _ & Uy2). rewrite Ey in Ey2. injection Ey2 as <-. rewrite Uy2. cbn [bind].
      rewrite Ux. reflexivity.
    + destruct (PX (by' ++ rest)) as (b2 & Ex2 & _ & Ux2). rewrite Ex in Ex2. injection Ex2 as <-. rewrite Ux2. cbn [bind].
      rewrite Uy. reflexivity.
Qed.

Lemma addr_pack_repr hl a : wf_addr a -> fam a <> FUndef ->
  exists bs, addr_pack hl a Big = Ok bs /\ Forall is_byte bs /\ be_val bs = number a /\ Z.of_nat (length bs) = family_bits (fam a) / 8 /\
    addr_pack hl a Network = Ok bs /\ addr_pack hl a Little = Ok (rev bs) /\ addr_pack hl a Host = Ok (if hl then rev bs else bs).
Proof.
  intros (H1 & H2 & H3) HF. unfold addr_pack, number. destruct a as [x y f]. cbn [a1 a2 fam] in *. destruct f; [congruence| |].
  - destruct (H3 eq_refl) as [-> H4]. destruct (Z.leb_spec (2 ^ 32) y); [lia|].
    destruct (pack_repr hl u32t y) as (bs & E & (L & F & V) & E2 & E3 & E4); [cbn; lia|discriminate|].
    exists bs. rewrite E, E2, E3, E4. destruct (Z.ltb_spec y 0); [lia|]. repeat split; auto. rewrite L. reflexivity.
  - destruct (pack_repr hl u64t x) as (bx & Ex & (Lx & Fx & Vx) & Ex2 & Ex3 & Ex4); [cbn; lia|discriminate|].
    destruct (pack_repr hl u64t y) as (b' & Ey & (Ly & Fy & Vy) & Ey2 & Ey3 & Ey4); [cbn; lia|discriminate|].
    destruct (Z.ltb_spec x 0); [lia|]. destruct (Z.ltb_spec y 0); [lia|].
    exists (bx ++ b'). rewrite Ex, Ex2, Ex3, Ex4, Ey, Ey2, Ey3, Ey4. cbn [bind is_little].
    split; [reflexivity|]. split; [apply Forall_app; auto|]. split.
    { rewrite be_val_app, Vx, Vy, Ly. reflexivity. }
    split; [rewrite app_length, Lx, Ly; reflexivity|]. split; [reflexivity|]. rewrite rev_app_distr. split; [reflexivity|].
    destruct hl; reflexivity.
Qed.

Lemma addr_unpack_total hl data f o : o <> Undef -> Forall is_byte data ->
  (addr_unpack hl data f o = Ok None <-> (f = FUndef \/ Z.of_nat (length data) < family_bits f / 8)) /\
  (forall a r, addr_unpack hl data f o = Ok (Some (a, r)) -> wf_addr a /\ fam a = f /\
     exists bs, data = bs ++ r /\ addr_pack hl a o = Ok bs).
Proof.
  intros Ho HD. unfold addr_unpack. destruct f.
  - split; [split; auto|]. intros a r E. discriminate E.
  - change (family_bits FIPv4 / 8) with 4. destruct (Nat.ltb_spec (length data) 4) as [L|L].
    { split; [split; [intros _; right; lia|auto]|]. intros a r E. discriminate E. }
    rewrite <- (firstn_skipn 4 data). set (bs := firstn 4 data). set (rs := skipn 4 data).
    assert (Lb : length bs = nbytes (it_width u32t)) by (unfold bs; rewrite firstn_length; cbn [u32t it_width nbytes]; lia).
    assert (Fb : Forall is_byte bs) by (rewrite <- (firstn_skipn 4 data) in HD; apply Forall_app in HD; apply HD).
    pose proof (unpack_ok hl u32t bs rs o Ho Lb Fb) as U. rewrite U. cbn [bind]. split.
    + split; [discriminate|]. intros [E|E]; [discriminate|]. rewrite app_length, Lb in E. cbn in E. lia.
    + intros a r E. injection E as <- <-. destruct (unpack_pack _ _ _ _ _ _ _ Ho Fb Lb U) as (R & _ & P).
      change (0 <= signed_of u32t (be_val (ordered_bytes hl o bs)) < 2 ^ 32) in R. split; [|split; [reflexivity|]].
      * unfold wf_addr, addr_of_u32. cbn [a1 a2 fam]. repeat split; lia.
      * exists bs. split; [reflexivity|]. unfold addr_pack, addr_of_u32. cbn [a2 fam].
        match goal with |- context[2 ^ 32 <=? ?v] => destruct (Z.leb_spec (2 ^ 32) v) end; [lia|]. apply P. discriminate.
  - change (family_bits FIPv6 / 8) with 16. destruct (Nat.ltb_spec (length data) 16) as [L|L].
    { split; [split; [intros _; right; lia|auto]|]. intros a r E. discriminate E. }
    assert (HDs : exists b1 b2 rs, data = b1 ++ b2 ++ rs /\ length b1 = 8%nat /\ length b2 = 8%nat).
    { exists (firstn 8 data), (firstn 8 (skipn 8 data)), (skipn 8 (skipn 8 data)). rewrite !firstn_skipn.
      split; [reflexivity|]. rewrite !firstn_length, skipn_length. lia. }
    destruct HDs as (b1 & b2 & rs & -> & L1 & L2). apply Forall_app in HD. destruct HD as [F1 HD]. apply Forall_app in HD. destruct HD as [F2 _].
    pose proof (unpack_ok hl u64t b1 (b2 ++ rs) o Ho L1 F1) as U1. pose proof (unpack_ok hl u64t b2 rs o Ho L2 F2) as U2.
    rewrite U1. cbn [bind]. rewrite U2. cbn [bind].
    destruct (unpack_pack hl u64t _ _ _ _ _ Ho F1 L1 U1) as (R1 & _ & P1). destruct (unpack_pack hl u64t _ _ _ _ _ Ho F2 L2 U2) as (R2 & _ & P2).
    change (0 <= signed_of u64t (be_val (ordered_bytes hl o b1)) < 2 ^ 64) in R1. change (0 <= signed_of u64t (be_val (ordered_bytes hl o b2)) < 2 ^ 64) in R2. specialize (P1 ltac:(discriminate)). specialize (P2 ltac:(discriminate)).
    split.
    + split; [discriminate|]. intros [E|E]; [discriminate|]. rewrite !app_length, L1, L2 in E. cbn in E. lia.
    + intros a r E. destruct (is_little hl o) eqn:EL; injection E as <- <-; (split; [|split; [reflexivity|]]).
      * unfold wf_addr, addr_of_u64. cbn [a1 a2 fam]. repeat split; try lia; discriminate.
      * exists (b1 ++ b2). split; [apply app_assoc|]. unfold addr_pack, addr_of_u64. cbn [a1 a2 fam]. rewrite P2, P1, EL. reflexivity.
      * unfold wf_addr, addr_of_u64. cbn [a1 a2 fam]. repeat split; try lia; discriminate.
      * exists (b1 ++ b2). split; [apply app_assoc|]. unfold addr_pack, addr_of_u64. cbn [a1 a2 fam]. rewrite P1, P2, EL. reflexivity.
Qed.

(** order *)
Lemma addr_ltb_ok a b : addr_ltb a b = true <->
  a1 a < a1 b \/ (a1 a = a1 b /\ (a2 a < a2 b \/ (a2 a = a2 b /\ family_value (fam a) < family_value (fam b)))).
Proof. unfold addr_ltb. rewrite !orb_true_iff, !andb_true_iff, !orb_true_iff, !andb_true_iff, !Z.ltb_lt, !Z.eqb_eq. tauto. Qed.

Lemma family_value_inj f g : family_value f = family_value g -> f = g.
Proof. destruct f, g; cbn; intros; congruence || lia. Qed.

(** text *)
Lemma hton_le_bytes hl w v : 0 <= v < 2 ^ bits_of w -> mem_of hl (nbytes w) (hton hl w v) = rev (le_bytes (nbytes w) v).
Proof.
  intros Hv. unfold hton. destruct hl; cbn [mem_of]; [|reflexivity].
  rewrite flip_impl_ok, <- le_val_rev, <- (le_bytes_length (nbytes w) v) at 1. rewrite <- rev_length.
  apply le_bytes_val, Forall_rev, le_bytes_ok.
Qed.

Lemma hton_val hl w bs : Forall is_byte bs -> length bs = nbytes w -> hton hl w (val_of hl bs) = be_val bs.
Proof.
  intros F L. unfold hton. destruct hl; cbn [val_of]; [|apply le_val_rev].
  replace (le_val bs) with (be_val (rev bs)) by (rewrite <- le_val_rev, rev_involutive; reflexivity).
  rewrite flip_reverses by (try apply Forall_rev; try rewrite rev_length; assumption). rewrite rev_involutive. reflexivity.
Qed.

Lemma be_val_rev_le n v : 0 <= v < 256 ^ Z.of_nat n -> be_val (rev (le_bytes n v)) = v.
Proof. intros H. rewrite <- le_val_rev, rev_involutive, le_val_bytes. apply Z.mod_small. exact H. Qed.

Lemma c_str_id s : ~ In 0 s -> c_str s = s.
Proof.
  induction s as [|c s IH]; intros H; [reflexivity|]. cbn [c_str]. destruct (Z.eqb_spec c 0) as [->|].
  - exfalso. apply H. left. reflexivity.
  - f_equal. apply IH. intros HI. apply H. right. exact HI.
Qed.

Lemma existsb_colon s : existsb (Z.eqb 58) s = true <-> In 58 s.
Proof.
  rewrite existsb_exists. split; [intros (x & HI & E); apply Z.eqb_eq in E; subst; exact HI|].
  intros HI. exists 58. split; [exact HI|reflexivity].
Qed.

Lemma land_high_zero y : 0 <= y < 2 ^ 64 -> (Z.land y 18446744069414584320 = 0 <-> y < 2 ^ 32).
Proof.
  intros Hy. assert (E : Z.land y 18446744069414584320 = Z.shiftl (Z.shiftr y 32) 32).
  { apply Z.bits_inj'. intros i Hi. rewrite Z.land_spec.
    replace 18446744069414584320 with ((all_ones64 * 2 ^ 32) mod 2 ^ 64) by reflexivity.
    rewrite mask64_bits by lia. rewrite Z.shiftl_spec by lia. destruct (Z.leb_spec 32 i); cbn [andb].
    - rewrite Z.shiftr_spec by lia. replace (i - 32 + 32) with i by lia. destruct (Z.ltb_spec i 64); [apply andb_true_r|].
      rewrite (testbit_ge64 y) by lia. reflexivity.
    - rewrite andb_false_r, Z.testbit_neg_r by lia. reflexivity. }
  rewrite E, Z.shiftl_mul_pow2, Z.shiftr_div_pow2 by lia.
  pose proof (Z.div_mod y (2 ^ 32) ltac:(lia)). pose proof (Z.mod_pos_bound y (2 ^ 32) ltac:(lia)). split; intros; [nia|].
  rewrite Z.div_small by lia. lia.
Qed.

Lemma addr_text hl pton4 pton6 ntop4 ntop6 a : libc_text pton4 pton6 ntop4 ntop6 -> wf_addr a -> fam a <> FUndef ->
  exists b, addr_parse hl pton4 pton6 (addr_print hl ntop4 ntop6 a) = Ok b /\ a1 b = a1 a /\ a2 b = a2 a /\
    fam b = if number a <? 2 ^ 32 then FIPv4 else fam a.
Proof.
  intros LT (H1 & H2 & H3) HF. unfold addr_print, addr_as_in, number. destruct a as [x y f]. cbn [a1 a2 fam] in *. destruct f; [congruence| |]; cbn [snd].
  - destruct (H3 eq_refl) as [-> H4]. rewrite Z.mod_small by lia.
    change (mem_of hl 4) with (mem_of hl (nbytes W32)). rewrite hton_le_bytes by (cbn; lia).
    set (m := rev (le_bytes (nbytes W32) y)).
    assert (Fm : Forall is_byte m) by (apply Forall_rev, le_bytes_ok).
    assert (Lm : length m = 4%nat) by (unfold m; rewrite rev_length, le_bytes_length; reflexivity).
    unfold addr_parse. destruct (existsb (Z.eqb 58) (ntop4 m)) eqn:EC.
    { apply existsb_colon in EC. exfalso. eapply (lt_colon4 _ _ _ _ LT m); eauto. }
    cbn [negb]. rewrite c_str_id by (apply (lt_nul4 _ _ _ _ LT); assumption). rewrite (lt_4 _ _ _ _ LT) by assumption. cbn [bind].
    unfold addr_init4. rewrite hton_val by assumption. cbn [fam a1 a2]. change (family_eqb FIPv4 FIPv6) with false. cbn iota.
    eexists. split; [reflexivity|]. cbn [a1 a2 fam]. split; [reflexivity|]. split; [apply be_val_rev_le; cbn; lia|].
    destruct (Z.ltb_spec (0 * 2 ^ 64 + y) (2 ^ 32)); reflexivity.
  - change (mem_of hl 8) with (mem_of hl (nbytes W64)). rewrite !hton_le_bytes by (cbn; lia).
    set (mx := rev (le_bytes (nbytes W64) x)). set (my := rev (le_bytes (nbytes W64) y)).
    assert (Fx : Forall is_byte mx) by (apply Forall_rev, le_bytes_ok).
    assert (Fy : Forall is_byte my) by (apply Forall_rev, le_bytes_ok).
    assert (Lx : length mx = 8%nat) by (unfold mx; rewrite rev_length, le_bytes_length; reflexivity).
    assert (Ly : length my = 8%nat) by (unfold my; rewrite rev_length, le_bytes_length; reflexivity).
    assert (Fm : Forall is_byte (mx ++ my)) by (apply Forall_app; auto).
    assert (Lm : length (mx ++ my) = 16%nat) by (rewrite app_length; lia).
    unfold addr_parse. destruct (existsb (Z.eqb 58) (ntop6 (mx ++ my))) eqn:EC.
    2:{ exfalso. pose proof (lt_colon6 _ _ _ _ LT _ Fm Lm) as HI. apply existsb_colon in HI. congruence. }
    cbn [negb]. rewrite c_str_id by (apply (lt_nul6 _ _ _ _ LT); assumption). rewrite (lt_6 _ _ _ _ LT) by assumption. cbn [bind].
    unfold addr_init6. rewrite firstn_app_le, firstn_all2 by lia. rewrite skipn_app_ge by lia.
    replace (8 - length mx)%nat with 0%nat by lia. cbn [skipn]. rewrite firstn_all2 by lia.
    rewrite !hton_val by assumption. cbn [fam a1 a2]. change (family_eqb FIPv6 FIPv6) with true. cbn iota.
    assert (Ex : be_val mx = x) by (apply be_val_rev_le; cbn; lia). assert (Ey : be_val my = y) by (apply be_val_rev_le; cbn; lia).
    clearbody mx my. rewrite Ex, Ey. eexists. split; [reflexivity|]. cbn [a1 a2 fam]. split; [reflexivity|]. split; [reflexivity|].
    pose proof (land_high_zero y H2) as LH. destruct (Z.ltb_spec (x * 2 ^ 64 + y) (2 ^ 32)).
    + assert (Ex0 : x = 0) by nia. rewrite Ex0. destruct LH as [_ ->]; [reflexivity|lia].
    + destruct (Z.eqb_spec x 0) as [->|]; cbn [andb]; [|reflexivity].
      destruct (Z.eqb_spec (Z.land y 18446744069414584320) 0) as [E|]; [|reflexivity]. apply LH in E. lia.
Qed.
