(** Properties C35-C37, C57: addresses and networks. [hl]: byte order of the machine; all theorems hold for both. *)
From Verif Require Import Base IntModel IntSpec IntProofs AddrModel AddrSpec AddrProofs.
Open Scope Z_scope.

(** C35. Masking keeps exactly the upper [w] bits. *)
Theorem C35_mask_keeps_upper_bits : forall a w, wf_addr a -> 0 <= w <= 128 ->
  exists m, addr_mask a w = Ok m /\ wf_addr m /\ fam m = fam a /\
    forall i, 0 <= i < 128 -> abit m i = (128 - w <=? i) && abit a i.
Proof.
  intros a w (H1 & H2 & H3) Hw. destruct (mask_ok a w H1 H2 Hw) as (m & E & F & M1 & M2 & B).
  exists m. repeat split; try assumption; try lia.
  - destruct (H3 ltac:(congruence)) as [Z1 _]. apply Z.bits_inj_0. intros i.
    destruct (Z.ltb_spec i 0); [apply Z.testbit_neg_r; lia|]. destruct (Z.ltb_spec i 64).
    + specialize (B (i + 64) ltac:(lia)). unfold abit in B. destruct (Z.ltb_spec (i + 64) 64); [lia|].
      replace (i + 64 - 64) with i in B by lia. rewrite B, Z1, Z.bits_0, andb_false_r. reflexivity.
    + apply testbit_ge64; lia.
  - destruct (H3 ltac:(congruence)) as [_ Z2]. destruct (Z.ltb_spec (a2 m) (2 ^ 32)); [assumption|]. exfalso.
    assert (L : 32 <= Z.log2 (a2 m) < 64).
    { split; [apply Z.log2_le_pow2; lia|apply Z.log2_lt_pow2; lia]. }
    pose proof (Z.bit_log2 (a2 m) ltac:(lia)) as T. specialize (B (Z.log2 (a2 m)) ltac:(lia)). unfold abit in B.
    destruct (Z.ltb_spec (Z.log2 (a2 m)) 64); [|lia]. rewrite T in B.
    rewrite (Z.bits_above_log2 (a2 a)), andb_false_r in B; [discriminate|lia|].
    destruct (Z.eq_dec (a2 a) 0) as [->|]; [cbn; lia|]. apply Z.lt_le_trans with 32; [|lia]. apply Z.log2_lt_pow2; lia.
Qed.
Print Assumptions C35_mask_keeps_upper_bits.

(** Masking is idempotent and monotone: masking twice is masking with the smaller width. *)
Theorem C35_mask_twice_is_min : forall a v w, wf_addr a -> 0 <= v <= 128 -> 0 <= w <= 128 ->
  bind (addr_mask a v) (fun m => addr_mask m w) = addr_mask a (Z.min v w).
Proof. intros a v w (H1 & H2 & _) Hv Hw. apply mask_mask; assumption. Qed.
Print Assumptions C35_mask_twice_is_min.

(** Networks made from an address: exactly the valid lengths are accepted, others throw InvalidArgument; the length and
    family are as given and the prefix is the address masked. *)
Theorem C35_construct_from_address : forall p len, wf_addr p ->
  (valid_length (fam p) len ->
     exists n, net_of_addr p len = Ok n /\ net_length n = len /\ fam (nprefix n) = fam p /\
       addr_mask p (len + (128 - family_bits (fam p))) = Ok (nprefix n)) /\
  (~ valid_length (fam p) len -> net_of_addr p len = Throw InvalidArgument).
Proof.
  intros p len Hp. split; [|apply net_of_addr_bad]. intros HV.
  destruct (net_of_addr_ok p len Hp HV) as (n & E & F & L & NL & R & N1 & N2 & B).
  exists n. repeat split; auto. destruct Hp as (H1 & H2 & _).
  assert (L' : len + (128 - family_bits (fam p)) = nlen n).
  { rewrite L. unfold valid_length in HV. destruct (fam p); cbn [family_bits full_len] in *; lia. }
  rewrite L'. destruct (mask_ok p (nlen n) H1 H2 R) as (m & Em & Fm & M1 & M2 & Bm). rewrite Em. f_equal.
  destruct (abit_ext m (nprefix n) M1 M2 N1 N2) as [Q1 Q2].
  - intros i Hi. rewrite Bm, B by exact Hi. reflexivity.
  - destruct m, (nprefix n). cbn in *. congruence.
Qed.
Print Assumptions C35_construct_from_address.

(** Membership: [x] is contained iff it agrees with the given address in the upper [len] bits of the family's bits and, for
    IPv4, in the 96 bits above. *)
Theorem C35_contains_is_prefix_match : forall p len n x, wf_addr p -> wf_addr x -> net_of_addr p len = Ok n ->
  exists b, net_contains n x = Ok b /\ (b = true <-> agree_upper (len + (128 - family_bits (fam p))) x p).
Proof.
  intros p len n x Hp Hx E. destruct (net_contains_ok p len n x Hp Hx E) as (b & C & H). exists b. split; [exact C|].
  rewrite H. assert (full_len (fam p) len = len + (128 - family_bits (fam p))) as ->; [|reflexivity].
  unfold net_of_addr in E. destruct (fam p); cbn [full_len family_bits]; try discriminate E; lia.
Qed.
Print Assumptions C35_contains_is_prefix_match.

(** The network's own prefix and the address it was made from are members. *)
Theorem C35_prefix_is_contained : forall p len n, wf_addr p -> net_of_addr p len = Ok n ->
  net_contains n p = Ok true /\ net_contains n (nprefix n) = Ok true.
Proof.
  intros p len n Hp E. split.
  - destruct (net_contains_ok p len n p Hp Hp E) as (b & C & H). rewrite C. f_equal. apply H. intros i _. reflexivity.
  - assert (HV : valid_length (fam p) len).
    { unfold valid_length. destruct (fam p) eqn:F; unfold net_of_addr in E; rewrite F in E; cbn [family_bits].
      - discriminate E.
      - destruct (Z.ltb_spec len 0); [discriminate E|]. destruct (Z.ltb_spec 32 len); [discriminate E|]. lia.
      - destruct (Z.ltb_spec len 0); [discriminate E|]. destruct (Z.ltb_spec 128 len); [discriminate E|]. lia. }
    destruct (net_of_addr_ok p len Hp HV) as (n' & E' & F & L & NL & R & N1 & N2 & B). rewrite E in E'. injection E' as <-.
    unfold net_contains. rewrite Z.mod_small by lia.
    destruct (mask_ok (nprefix n) (nlen n) N1 N2 R) as (m & Em & Fm & M1 & M2 & Bm). rewrite Em. cbn [bind]. f_equal.
    apply addr_eqb_ok. apply abit_ext; try assumption. intros i Hi. rewrite Bm, B by exact Hi.
    destruct (128 - nlen n <=? i); reflexivity.
Qed.
Print Assumptions C35_prefix_is_contained.

(** Networks made from a string: whatever length is valid for the address gives the network made from that address. *)
Theorem C35_construct_from_string : forall hl pton4 pton6 s len,
  (forall p, addr_parse hl pton4 pton6 s = Ok p -> valid_length (fam p) len ->
     net_of_string hl pton4 pton6 s len = net_of_addr p len) /\
  (forall e, addr_parse hl pton4 pton6 s = Throw e -> net_of_string hl pton4 pton6 s len = Throw e).
Proof.
  intros hl pton4 pton6 s len. split.
  - intros p E HV. unfold net_of_string, net_of_addr. rewrite E. cbn [bind]. unfold valid_length in HV.
    destruct (fam p); cbn [family_bits] in HV; [lia| |].
    + destruct (Z.ltb_spec len 0); [lia|]. destruct (Z.ltb_spec 32 len); [lia|]. reflexivity.
    + destruct (Z.ltb_spec len 0); [lia|]. destruct (Z.ltb_spec 128 len); [lia|]. reflexivity.
  - intros e E. unfold net_of_string. rewrite E. reflexivity.
Qed.
Print Assumptions C35_construct_from_string.

(** Networks made from a string skip the check of the length: length -1 is accepted for IPv4 and length 33 shifts by too many bits. *)
Theorem C35_construct_from_string_refuted : forall hl pton6 s m,
  pton6 = (fun _ : bytes => @None bytes) -> s = [49] -> m = [10; 0; 0; 1] ->
  (exists n, net_of_string hl (fun _ => Some m) pton6 s (-1) = Ok n /\ net_length n = -1 /\ fam (nprefix n) = FIPv4) /\
  net_of_string hl (fun _ => Some m) pton6 s 33 = UB.
Proof.
  intros hl pton6 s m -> -> ->. split.
  - destruct hl; vm_compute; eexists; repeat split.
  - destruct hl; vm_compute; reflexivity.
Qed.
Print Assumptions C35_construct_from_string_refuted.

Example C35_nonvacuous :
  let p := mkAddr 0 167837954 FIPv4 (* 10.1.1.2 *) in
  wf_addr p /\ valid_length (fam p) 24 /\
  net_of_addr p 24 = Ok (mkNet (mkAddr 0 167837952 FIPv4) 120) /\
  net_contains (mkNet (mkAddr 0 167837952 FIPv4) 120) (mkAddr 0 167838207 FIPv4) = Ok true /\
  net_contains (mkNet (mkAddr 0 167837952 FIPv4) 120) (mkAddr 0 167838208 FIPv4) = Ok false.
Proof. cbn. repeat split; try lia; try reflexivity; discriminate. Qed.

(** C36 *)
Theorem C36_pack_unpack : forall hl a o rest, wf_addr a -> fam a <> FUndef -> o <> Undef ->
  exists bs, addr_pack hl a o = Ok bs /\ Z.of_nat (length bs) = family_bits (fam a) / 8 /\
    addr_unpack hl (bs ++ rest) (fam a) o = Ok (Some (a, rest)).
Proof. exact addr_pack_unpack. Qed.
Print Assumptions C36_pack_unpack.

(** What the bytes are: the address's number, most significant byte first in Big and Network order, reversed in Little. *)
Theorem C36_pack_bytes : forall hl a, wf_addr a -> fam a <> FUndef ->
  exists bs, addr_pack hl a Big = Ok bs /\ Forall is_byte bs /\ be_val bs = number a /\
    Z.of_nat (length bs) = family_bits (fam a) / 8 /\
    addr_pack hl a Network = Ok bs /\ addr_pack hl a Little = Ok (rev bs) /\ addr_pack hl a Host = Ok (if hl then rev bs else bs).
Proof. exact addr_pack_repr. Qed.
Print Assumptions C36_pack_bytes.

(** Unpacking fails exactly on short input or an undefined family, and what it returns packs to the bytes it consumed. *)
Theorem C36_unpack_pack : forall hl data f o, o <> Undef -> Forall is_byte data ->
  (addr_unpack hl data f o = Ok None <-> (f = FUndef \/ Z.of_nat (length data) < family_bits f / 8)) /\
  (forall a r, addr_unpack hl data f o = Ok (Some (a, r)) -> wf_addr a /\ fam a = f /\
     exists bs, data = bs ++ r /\ addr_pack hl a o = Ok bs).
Proof. exact addr_unpack_total. Qed.
Print Assumptions C36_unpack_pack.

Example C36_nonvacuous : let a := mkAddr 2306139568115548160 256 FIPv6 in wf_addr a /\
  addr_pack true a Host = Ok [0;1;0;0;0;0;0;0;0;0;0;0;184;13;1;32] /\
  addr_unpack true [0;1;0;0;0;0;0;0;0;0;0;0;184;13;1;32;7] FIPv6 Little = Ok (Some (a, [7])).
Proof. split; [unfold wf_addr; cbn; repeat split; try lia; discriminate|]. vm_compute. repeat split. Qed.

(** C37. [<] is a strict total order on addresses with their families. *)
Theorem C37_strict_total_order : forall a b c,
  addr_ltb a a = false /\
  (addr_ltb a b = true -> addr_ltb b c = true -> addr_ltb a c = true) /\
  (addr_ltb a b = true \/ addr_ltb b a = true \/ a = b).
Proof.
  intros a b c. split; [|split].
  - destruct (addr_ltb a a) eqn:E; [|reflexivity]. apply addr_ltb_ok in E. lia.
  - rewrite !addr_ltb_ok. lia.
  - rewrite !addr_ltb_ok. destruct (Z.lt_total (a1 a) (a1 b)) as [|[E1|]]; [lia| |lia].
    destruct (Z.lt_total (a2 a) (a2 b)) as [|[E2|]]; [lia| |lia].
    destruct (Z.lt_total (family_value (fam a)) (family_value (fam b))) as [|[E3|]]; [lia| |lia].
    right. right. apply family_value_inj in E3. destruct a, b. cbn in *. congruence.
Qed.
Print Assumptions C37_strict_total_order.

(** Addresses are ordered by their number and then by their family; == compares only the number. *)
Theorem C37_order_exact : forall a b, wf_addr a -> wf_addr b ->
  (addr_ltb a b = true <-> number a < number b \/ (number a = number b /\ family_value (fam a) < family_value (fam b))) /\
  (addr_eqb a b = true <-> number a = number b).
Proof.
  intros a b (A1 & A2 & _) (B1 & B2 & _). rewrite addr_ltb_ok, addr_eqb_ok. unfold number.
  split; lia.
Qed.
Print Assumptions C37_order_exact.

(** Hence the order agrees with equality on addresses of the same family... *)
Theorem C37_order_agrees_with_equality : forall a b, fam a = fam b ->
  (addr_eqb a b = true <-> (addr_ltb a b = false /\ addr_ltb b a = false)).
Proof.
  intros a b F. rewrite addr_eqb_ok, <- !not_true_iff_false, !addr_ltb_ok, F. lia.
Qed.
Print Assumptions C37_order_agrees_with_equality.

(** Networks are ordered by prefix and then by length. *)
Theorem C37_network_order : forall m n o,
  net_ltb m m = false /\
  (net_ltb m n = true -> net_ltb n o = true -> net_ltb m o = true) /\
  (net_ltb m n = true \/ net_ltb n m = true \/ m = n) /\
  (fam (nprefix m) = fam (nprefix n) -> (net_eqb m n = true <-> (net_ltb m n = false /\ net_ltb n m = false))).
Proof.
  intros m n o.
  assert (T : forall x y, net_ltb x y = true <->
    (a1 (nprefix x) < a1 (nprefix y) \/ a1 (nprefix x) = a1 (nprefix y) /\
     (a2 (nprefix x) < a2 (nprefix y) \/ a2 (nprefix x) = a2 (nprefix y) /\
      (family_value (fam (nprefix x)) < family_value (fam (nprefix y)) \/
       family_value (fam (nprefix x)) = family_value (fam (nprefix y)) /\ nlen x < nlen y)))).
  { intros x y. unfold net_ltb. rewrite orb_true_iff, andb_true_iff, negb_true_iff, <- not_true_iff_false, !addr_ltb_ok, Z.ltb_lt. lia. }
  split; [|split; [|split]].
  - apply not_true_iff_false. rewrite T. lia.
  - rewrite !T. lia.
  - rewrite !T.
    destruct (Z.lt_total (a1 (nprefix m)) (a1 (nprefix n))) as [|[E1|]]; [lia| |lia].
    destruct (Z.lt_total (a2 (nprefix m)) (a2 (nprefix n))) as [|[E2|]]; [lia| |lia].
    destruct (Z.lt_total (family_value (fam (nprefix m))) (family_value (fam (nprefix n)))) as [|[E3|]]; [lia| |lia].
    destruct (Z.lt_total (nlen m) (nlen n)) as [|[E4|]]; [lia| |lia].
    right. right. apply family_value_inj in E3. destruct m as [[] ?], n as [[] ?]. cbn in *. congruence.
  - intros F. rewrite <- !not_true_iff_false, !T, F. unfold net_eqb. rewrite andb_true_iff, addr_eqb_ok, Z.eqb_eq. lia.
Qed.
Print Assumptions C37_network_order.

(** ...but across families == ignores the family while [<] does not: 0.0.0.1 == ::1 and 0.0.0.1 < ::1. *)
Theorem C37_families_refuted : exists a b, wf_addr a /\ wf_addr b /\ addr_eqb a b = true /\ addr_ltb a b = true.
Proof.
  exists (mkAddr 0 1 FIPv4), (mkAddr 0 1 FIPv6). unfold wf_addr; cbn. repeat split; try lia; discriminate.
Qed.
Print Assumptions C37_families_refuted.

Example C37_nonvacuous : addr_ltb (mkAddr 0 5 FIPv6) (mkAddr 1 2 FIPv6) = true /\ addr_eqb (mkAddr 1 2 FIPv6) (mkAddr 1 2 FIPv6) = true.
Proof. split; reflexivity. Qed.

(** C57. Parsing the printed form of an address yields an equal address, given libc's contract for inet_pton/inet_ntop; the
    family is kept unless an IPv6 address has 96 leading zero bits (then it becomes IPv4). *)
Theorem C57_text_roundtrip : forall hl pton4 pton6 ntop4 ntop6 a,
  libc_text pton4 pton6 ntop4 ntop6 -> wf_addr a -> fam a <> FUndef ->
  exists b, addr_parse hl pton4 pton6 (addr_print hl ntop4 ntop6 a) = Ok b /\ addr_eqb b a = true /\
    fam b = if number a <? 2 ^ 32 then FIPv4 else fam a.
Proof.
  intros hl pton4 pton6 ntop4 ntop6 a LT Hw HF. destruct (addr_text hl _ _ _ _ a LT Hw HF) as (b & E & E1 & E2 & F).
  exists b. repeat split; [exact E|apply addr_eqb_ok; auto|exact F].
Qed.
Print Assumptions C57_text_roundtrip.

(** The libc contract is satisfiable (a made-up notation), and so is the theorem's premise. *)
Definition toy_ntop (pre : bytes) (m : bytes) : bytes := pre ++ map (fun b => b + 100) m.
Definition toy_pton (n : nat) (s : bytes) : option bytes := Some (map (fun b => b - 100) (skipn n s)).
Example C57_nonvacuous : libc_text (toy_pton 0) (toy_pton 1) (toy_ntop []) (toy_ntop [58]).
Proof.
  assert (M : forall m : bytes, map (fun b => b - 100) (map (fun b => b + 100) m) = m).
  { intros m. rewrite map_map. rewrite <- (map_id m) at 2. apply map_ext. intros; lia. }
  assert (N : forall (m : bytes) k, Forall is_byte m -> In k (map (fun b => b + 100) m) -> 100 <= k).
  { intros m k F HI. apply in_map_iff in HI. destruct HI as (b & <- & HI). eapply Forall_forall in F; [|exact HI].
    unfold is_byte in F. lia. }
  constructor; intros m F L; unfold toy_pton, toy_ntop; cbn [app skipn].
  - f_equal. apply M.
  - f_equal. apply M.
  - intros HI. apply N in HI; [lia|exact F].
  - left. reflexivity.
  - intros HI. apply N in HI; [lia|exact F].
  - intros [E|HI]; [discriminate|]. apply N in HI; [lia|exact F].
Qed.
