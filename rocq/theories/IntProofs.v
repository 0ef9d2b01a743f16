From Verif Require Import Base IntModel IntSpec.
Open Scope Z_scope.

Lemma bits_pos w : 0 < bits_of w. Proof. destruct w; reflexivity. Qed.
Lemma bits_nbytes w : bits_of w = 8 * Z.of_nat (nbytes w). Proof. destruct w; reflexivity. Qed.

Lemma wrap_congr t z : exists k, wrap t z = z + k * 2 ^ bits_of (it_width t).
Proof.
  unfold wrap. set (m := 2 ^ bits_of (it_width t)). assert (0 < m) by (apply Z.pow_pos_nonneg; [lia|pose proof (bits_pos (it_width t)); lia]).
  pose proof (Z.div_mod z m ltac:(lia)) as E. destruct (it_signed t && (m / 2 <=? z mod m)).
  - exists (- (z / m) - 1). lia.
  - exists (- (z / m)). lia.
Qed.

Lemma wrap_range t z : in_type t (wrap t z).
Proof.
  unfold wrap, in_type. pose proof (bits_pos (it_width t)) as B. set (b := bits_of (it_width t)) in *.
  assert (E : 2 ^ b = 2 * 2 ^ (b - 1)). { replace b with (Z.succ (b - 1)) at 1 by lia. rewrite Z.pow_succ_r by lia. reflexivity. }
  assert (0 < 2 ^ (b - 1)) by (apply Z.pow_pos_nonneg; lia).
  pose proof (Z.mod_pos_bound z (2 ^ b) ltac:(lia)) as M.
  replace (2 ^ b / 2) with (2 ^ (b - 1)) by (rewrite E, Z.mul_comm, Z.div_mul; lia).
  destruct (it_signed t); cbn [andb]; [|lia].
  destruct (Z.leb_spec (2 ^ (b - 1)) (z mod 2 ^ b)); lia.
Qed.

Lemma in_type_unique t a b k : in_type t a -> in_type t b -> a = b + k * 2 ^ bits_of (it_width t) -> a = b.
Proof.
  unfold in_type. intros Ha Hb E. pose proof (bits_pos (it_width t)) as B. set (w := bits_of (it_width t)) in *.
  assert (E2 : 2 ^ w = 2 * 2 ^ (w - 1)). { replace w with (Z.succ (w - 1)) at 1 by lia. rewrite Z.pow_succ_r by lia. reflexivity. }
  assert (0 < 2 ^ (w - 1)) by (apply Z.pow_pos_nonneg; lia).
  assert (k = 0). { destruct (it_signed t); nia. }
  subst k. lia.
Qed.

Lemma wrap_id t v : in_type t v -> wrap t v = v.
Proof. intros H. destruct (wrap_congr t v) as [k E]. eapply in_type_unique; eauto using wrap_range. Qed.

Lemma wrap_mul256 t x : it_width t <> W8 -> exists k, wrap t (256 * x) = 256 * k.
Proof.
  intros H. destruct (wrap_congr t (256 * x)) as [k E]. rewrite E.
  exists (x + k * 2 ^ (bits_of (it_width t) - 8)).
  replace (2 ^ bits_of (it_width t)) with (256 * 2 ^ (bits_of (it_width t) - 8)).
  - ring.
  - change 256 with (2 ^ 8). rewrite <- Z.pow_add_r; [f_equal; lia| lia|]. destruct (it_width t); cbn; try lia; congruence.
Qed.

Lemma lor_add256 k d : is_byte d -> Z.lor (256 * k) d = 256 * k + d.
Proof.
  intros Hd. symmetry. rewrite Z.add_nocarry_lxor.
  - apply Z.lxor_lor. apply Z.bits_inj'. intros n Hn. rewrite Z.land_spec, Z.bits_0.
    replace (256 * k) with (Z.shiftl k 8) by (rewrite Z.shiftl_mul_pow2 by lia; change (2 ^ 8) with 256; lia).
    rewrite Z.shiftl_spec by lia. destruct (Z.ltb_spec n 8).
    + rewrite Z.testbit_neg_r by lia. reflexivity.
    + rewrite (Z.bits_above_log2 d n), andb_false_r; [reflexivity|unfold is_byte in Hd; lia|].
      unfold is_byte in Hd. destruct (Z.eq_dec d 0) as [->|]; [cbn; lia|].
      assert (Z.log2 d < 8) by (apply Z.log2_lt_pow2; cbn; lia). lia.
  - apply Z.bits_inj'. intros n Hn. rewrite Z.land_spec, Z.bits_0.
    replace (256 * k) with (Z.shiftl k 8) by (rewrite Z.shiftl_mul_pow2 by lia; change (2 ^ 8) with 256; lia).
    rewrite Z.shiftl_spec by lia. destruct (Z.ltb_spec n 8).
    + rewrite Z.testbit_neg_r by lia. reflexivity.
    + rewrite (Z.bits_above_log2 d n), andb_false_r; [reflexivity|unfold is_byte in Hd; lia|].
      unfold is_byte in Hd. destruct (Z.eq_dec d 0) as [->|]; [cbn; lia|].
      assert (Z.log2 d < 8) by (apply Z.log2_lt_pow2; cbn; lia). lia.
Qed.

(** One step of unpacking. *)
Lemma unpack_step t x d : it_width t <> W8 -> is_byte d ->
  exists k, wrap t (Z.lor (wrap t (Z.shiftl x 8)) (wrap t d)) = 256 * x + d + k * 2 ^ bits_of (it_width t).
Proof.
  intros Hw Hd. rewrite Z.shiftl_mul_pow2 by lia. change (2 ^ 8) with 256. rewrite (Z.mul_comm x).
  assert (wrap t d = d) as ->.
  { apply wrap_id. unfold in_type, is_byte in *. destruct t as [sg w]; destruct sg, w; cbn in *; try congruence; lia. }
  destruct (wrap_mul256 t x Hw) as [k1 E1]. rewrite E1, lor_add256 by exact Hd.
  destruct (wrap_congr t (256 * k1 + d)) as [k2 E2]. destruct (wrap_congr t (256 * x)) as [k3 E3].
  exists (k2 + k3). rewrite E2, <- E1, E3. ring.
Qed.

Lemma be_val_app a b : be_val (a ++ b) = be_val a * 256 ^ Z.of_nat (length b) + be_val b.
Proof.
  induction a as [|x a IH]; cbn [be_val app]; [lia|]. rewrite IH, app_length, Nat2Z.inj_add, Z.pow_add_r by lia. ring.
Qed.

Lemma be_val_range bs : Forall is_byte bs -> 0 <= be_val bs < 256 ^ Z.of_nat (length bs).
Proof.
  induction bs as [|b bs IH]; intros H; [cbn; lia|]. inversion H as [|? ? Hb Hr]; subst. specialize (IH Hr).
  cbn [be_val length]. rewrite Nat2Z.inj_succ, Z.pow_succ_r by lia. unfold is_byte in Hb. nia.
Qed.

Lemma be_val_inj a b : Forall is_byte a -> Forall is_byte b -> length a = length b -> be_val a = be_val b -> a = b.
Proof.
  revert b. induction a as [|x a IH]; intros [|y b] Ha Hb HL E; try discriminate; [reflexivity|].
  inversion Ha as [|? ? Hx Ha']; subst. inversion Hb as [|? ? Hy Hb']; subst.
  injection HL as HL. cbn [be_val] in E. rewrite <- HL in E.
  pose proof (be_val_range a Ha') as Ra. pose proof (be_val_range b Hb') as Rb. rewrite <- HL in Rb.
  assert (x = y) by nia. subst y. f_equal. apply IH; auto. lia.
Qed.

Lemma le_val_rev bs : le_val (rev bs) = be_val bs.
Proof.
  assert (G : forall a b, le_val (a ++ b) = le_val a + 256 ^ Z.of_nat (length a) * le_val b).
  { induction a as [|x a IH]; intros b; cbn [app le_val length]; [rewrite Z.pow_0_r; lia|].
    rewrite IH, Nat2Z.inj_succ, Z.pow_succ_r by lia. ring. }
  induction bs as [|b bs IH]; [reflexivity|]. cbn [rev be_val]. rewrite G, IH, rev_length. cbn [le_val]. ring.
Qed.

(** unpack_loop over given positions *)
Fixpoint at_idx (src : bytes) (idx : list nat) : bytes :=
  match idx with [] => [] | i :: r => nth i src 0 :: at_idx src r end.

Lemma unpack_loop_val t src idx : it_width t <> W8 -> Forall is_byte (at_idx src idx) -> forall x,
  exists k, unpack_loop t x src idx =
    x * 256 ^ Z.of_nat (length idx) + be_val (at_idx src idx) + k * 2 ^ bits_of (it_width t).
Proof.
  intros Hw. induction idx as [|i idx IH]; intros HF x; cbn [unpack_loop at_idx be_val length] in *.
  - exists 0. rewrite Z.pow_0_r. lia.
  - inversion HF as [|? ? Hd Hr]; subst. destruct (unpack_step t x (nth i src 0) Hw Hd) as [k1 E1].
    destruct (IH Hr (wrap t (Z.lor (wrap t (Z.shiftl x 8)) (wrap t (nth i src 0))))) as [k2 E2].
    rewrite E2, E1. rewrite Nat2Z.inj_succ, Z.pow_succ_r by lia.
    assert (HL : length (at_idx src idx) = length idx). { clear. induction idx; cbn; congruence. }
    rewrite HL. exists (k1 * 256 ^ Z.of_nat (length idx) + k2). ring.
Qed.

Lemma unpack_loop_range t src idx x : idx <> [] -> in_type t (unpack_loop t x src idx).
Proof.
  intros H. assert (G : forall idx x, in_type t x -> in_type t (unpack_loop t x src idx)).
  { clear. induction idx as [|i idx IH]; intros x Hx; cbn [unpack_loop]; [exact Hx|]. apply IH. apply wrap_range. }
  destruct idx as [|i idx]; [congruence|]. cbn [unpack_loop]. apply G. apply wrap_range.
Qed.

Lemma nbytes_cases bs w : length bs = nbytes w -> w <> W8 ->
  at_idx bs (idx_big w) = bs /\ at_idx bs (idx_little w) = rev bs /\ length (idx_big w) = nbytes w /\
  length (idx_little w) = nbytes w.
Proof.
  intros H Hw. destruct w; [congruence| | |]; cbn [nbytes] in H.
  - destruct bs as [|a [|b [|? ?]]]; try discriminate H. cbn. auto.
  - destruct bs as [|a [|b [|c [|d [|? ?]]]]]; try discriminate H. cbn. auto.
  - destruct bs as [|a [|b [|c [|d [|e [|f [|g [|h [|? ?]]]]]]]]]; try discriminate H. cbn. auto.
Qed.

(** Bytes are a big-endian representation of the unpacked value. *)
Definition signed_of (t : ity) (u : Z) : Z :=
  if it_signed t && (2 ^ (bits_of (it_width t) - 1) <=? u) then u - 2 ^ bits_of (it_width t) else u.

Definition ordered_bytes (hl : bool) (o : order) (bs : bytes) : bytes :=
  match o with
  | Big | Network => bs
  | Little => rev bs
  | Host => if hl then rev bs else bs
  | Undef => bs
  end.

Lemma pow256 w : 256 ^ Z.of_nat (nbytes w) = 2 ^ bits_of w.
Proof. destruct w; reflexivity. Qed.

Lemma signed_of_range t bs : length bs = nbytes (it_width t) -> Forall is_byte bs ->
  in_type t (signed_of t (be_val bs)) /\ exists k, signed_of t (be_val bs) = be_val bs + k * 2 ^ bits_of (it_width t).
Proof.
  intros HL HF. pose proof (be_val_range bs HF) as R. rewrite HL, pow256 in R.
  unfold signed_of, in_type. pose proof (bits_pos (it_width t)) as B. set (w := bits_of (it_width t)) in *.
  assert (E2 : 2 ^ w = 2 * 2 ^ (w - 1)). { replace w with (Z.succ (w - 1)) at 1 by lia. rewrite Z.pow_succ_r by lia. reflexivity. }
  assert (0 < 2 ^ (w - 1)) by (apply Z.pow_pos_nonneg; lia).
  destruct (it_signed t); cbn [andb].
  - destruct (Z.leb_spec (2 ^ (w - 1)) (be_val bs)); split; try lia; [exists (-1)|exists 0]; lia.
  - split; [lia|exists 0; lia].
Qed.

Lemma unpack_in_ok t bs rest o : (o = Big \/ o = Little \/ o = Network) -> length bs = nbytes (it_width t) -> Forall is_byte bs ->
  unpack_in t (bs ++ rest) o = Ok (Some (signed_of t (be_val (ordered_bytes true o bs)), rest)).
Proof.
  intros Ho HL HF. unfold unpack_in.
  assert ((length (bs ++ rest) <? nbytes (it_width t))%nat = false) as ->.
  { apply Nat.ltb_ge. rewrite app_length. lia. }
  rewrite firstn_app_le, skipn_app_le, firstn_all2, skipn_all2 by lia. cbn [app].
  assert (G : forall idx bs', at_idx bs idx = bs' -> length bs' = nbytes (it_width t) -> Forall is_byte bs' ->
     length idx = nbytes (it_width t) -> it_width t <> W8 -> unpack_loop t 0 bs idx = signed_of t (be_val bs')).
  { intros idx bs' Ea HL' HF' Hi Hw. destruct (signed_of_range t bs' HL' HF') as [R [k Ek]].
    destruct (unpack_loop_val t bs idx Hw ltac:(rewrite Ea; exact HF') 0) as [k2 E2].
    eapply (in_type_unique t _ _ (k2 - k)); [apply unpack_loop_range|exact R|].
    - destruct idx; [destruct (it_width t); discriminate Hi|discriminate].
    - rewrite E2, Ek, Ea. ring. }
  destruct (it_width t) eqn:W.
  - assert (exists b, bs = [b]) as [b ->]. { cbn in HL. destruct bs as [|b [|? ?]]; try discriminate HL. eauto. }
    destruct (signed_of_range t [b] ltac:(rewrite W; reflexivity) HF) as [R [k Ek]].
    assert (wrap t b = signed_of t (be_val [b])) as E.
    { destruct (wrap_congr t b) as [k2 E2]. eapply (in_type_unique t _ _ (k2 - k)); [apply wrap_range|exact R|].
      rewrite E2, Ek. cbn [be_val length]. rewrite Z.pow_0_r. ring. }
    cbn [nth]. destruct Ho as [-> | [-> | ->]]; cbn [ordered_bytes rev app]; rewrite E; reflexivity.
  - destruct (nbytes_cases bs W16 HL ltac:(discriminate)) as (A1 & A2 & A3 & A4).
    destruct Ho as [-> | [-> | ->]]; cbn [ordered_bytes];
      first [rewrite (G _ _ A1) by (auto; congruence) | rewrite (G _ _ A2) by (auto using Forall_rev; try rewrite rev_length; congruence)]; reflexivity.
  - destruct (nbytes_cases bs W32 HL ltac:(discriminate)) as (A1 & A2 & A3 & A4).
    destruct Ho as [-> | [-> | ->]]; cbn [ordered_bytes];
      first [rewrite (G _ _ A1) by (auto; congruence) | rewrite (G _ _ A2) by (auto using Forall_rev; try rewrite rev_length; congruence)]; reflexivity.
  - destruct (nbytes_cases bs W64 HL ltac:(discriminate)) as (A1 & A2 & A3 & A4).
    destruct Ho as [-> | [-> | ->]]; cbn [ordered_bytes];
      first [rewrite (G _ _ A1) by (auto; congruence) | rewrite (G _ _ A2) by (auto using Forall_rev; try rewrite rev_length; congruence)]; reflexivity.
Qed.

Lemma unpack_ok hl t bs rest o : o <> Undef -> length bs = nbytes (it_width t) -> Forall is_byte bs ->
  unpack hl t (bs ++ rest) o = Ok (Some (signed_of t (be_val (ordered_bytes hl o bs)), rest)).
Proof.
  intros Ho HL HF. unfold unpack. destruct o; try congruence; try (apply unpack_in_ok; auto).
  destruct hl; cbn [sys_order]; rewrite unpack_in_ok by auto; reflexivity.
Qed.

(** pack *)
Lemma land255 x : Z.land x 255 = x mod 256.
Proof. change 255 with (Z.ones 8). rewrite Z.land_ones by lia. reflexivity. Qed.

Lemma shiftr8 x : Z.shiftr x 8 = x / 256.
Proof. rewrite Z.shiftr_div_pow2 by lia. reflexivity. Qed.

Lemma le_bytes_length n v : length (le_bytes n v) = n.
Proof. revert v. induction n; intros; cbn; congruence. Qed.
Lemma le_bytes_ok n v : Forall is_byte (le_bytes n v).
Proof. revert v. induction n; intros; cbn [le_bytes]; constructor; auto. unfold is_byte. apply Z.mod_pos_bound. lia. Qed.
Lemma le_val_bytes n v : le_val (le_bytes n v) = v mod 256 ^ Z.of_nat n.
Proof.
  revert v. induction n as [|n IH]; intros v; cbn [le_bytes le_val].
  - rewrite Z.pow_0_r, Z.mod_1_r. reflexivity.
  - rewrite IH, Nat2Z.inj_succ, Z.pow_succ_r by lia. rewrite Z.rem_mul_r by (try apply Z.pow_nonzero; lia). ring.
Qed.

Lemma pack_in_ok t v o : (it_width t = W8 -> 0 <= v) -> (o = Big \/ o = Little \/ o = Network) ->
  pack_in t v o = Ok (ordered_bytes true o (rev (le_bytes (nbytes (it_width t)) v))).
Proof.
  intros Hp Ho. unfold pack_in. destruct (it_width t).
  - assert ((v <? 0) = false) as -> by (apply Z.ltb_ge; auto). destruct Ho as [-> | [-> | ->]]; reflexivity.
  - destruct Ho as [-> | [-> | ->]]; cbn -[Z.shiftr Z.land Z.modulo Z.div]; rewrite !land255, !shiftr8; reflexivity.
  - destruct Ho as [-> | [-> | ->]]; cbn -[Z.shiftr Z.land Z.modulo Z.div]; rewrite !land255, !shiftr8; reflexivity.
  - destruct Ho as [-> | [-> | ->]]; cbn -[Z.shiftr Z.land Z.modulo Z.div]; rewrite !land255, !shiftr8; reflexivity.
Qed.

Lemma pack_ok hl t v o : (it_width t = W8 -> 0 <= v) -> o <> Undef ->
  pack hl t v o = Ok (ordered_bytes hl o (rev (le_bytes (nbytes (it_width t)) v))).
Proof.
  intros Hp Ho. unfold pack. destruct o; try congruence; try (apply pack_in_ok; auto).
  destruct hl; cbn [sys_order]; rewrite pack_in_ok by auto; reflexivity.
Qed.

Lemma ordered_invol hl o bs : ordered_bytes hl o (ordered_bytes hl o bs) = bs.
Proof. destruct o; cbn; try reflexivity; try apply rev_involutive. destruct hl; [apply rev_involutive|reflexivity]. Qed.
Lemma ordered_length hl o bs : length (ordered_bytes hl o bs) = length bs.
Proof. destruct o; cbn; try reflexivity; try apply rev_length. destruct hl; [apply rev_length|reflexivity]. Qed.
Lemma ordered_ok hl o bs : Forall is_byte bs -> Forall is_byte (ordered_bytes hl o bs).
Proof. intros. destruct o; cbn; try assumption; try (apply Forall_rev; assumption). destruct hl; [apply Forall_rev|]; assumption. Qed.

Lemma signed_of_mod t v : in_type t v -> signed_of t (v mod 2 ^ bits_of (it_width t)) = v.
Proof.
  intros H. unfold signed_of. unfold in_type in H. pose proof (bits_pos (it_width t)) as B. set (w := bits_of (it_width t)) in *.
  assert (E2 : 2 ^ w = 2 * 2 ^ (w - 1)). { replace w with (Z.succ (w - 1)) at 1 by lia. rewrite Z.pow_succ_r by lia. reflexivity. }
  assert (0 < 2 ^ (w - 1)) by (apply Z.pow_pos_nonneg; lia).
  destruct (it_signed t); cbn [andb].
  - destruct (Z.ltb_spec v 0).
    + assert (v mod 2 ^ w = v + 2 ^ w) as ->. { symmetry. apply (Z.mod_unique _ _ (-1)); lia. }
      destruct (Z.leb_spec (2 ^ (w - 1)) (v + 2 ^ w)); lia.
    + rewrite Z.mod_small by lia. destruct (Z.leb_spec (2 ^ (w - 1)) v); lia.
  - apply Z.mod_small. lia.
Qed.

Lemma pack_unpack hl t v o rest : in_type t v -> (it_width t = W8 -> 0 <= v) -> o <> Undef ->
  exists bs, pack hl t v o = Ok bs /\ length bs = nbytes (it_width t) /\ unpack hl t (bs ++ rest) o = Ok (Some (v, rest)).
Proof.
  intros Hv Hp Ho. eexists. split; [apply pack_ok; [exact Hp|exact Ho]|].
  assert (HL : length (ordered_bytes hl o (rev (le_bytes (nbytes (it_width t)) v))) = nbytes (it_width t))
    by (rewrite ordered_length, rev_length, le_bytes_length; reflexivity).
  split; [exact HL|].
  rewrite unpack_ok; [|exact Ho|exact HL|apply ordered_ok, Forall_rev, le_bytes_ok].
  rewrite ordered_invol, <- le_val_rev, rev_involutive, le_val_bytes, pow256, signed_of_mod by exact Hv. reflexivity.
Qed.

Lemma unpack_pack hl t bs rest o v r : o <> Undef -> Forall is_byte bs -> length bs = nbytes (it_width t) ->
  unpack hl t (bs ++ rest) o = Ok (Some (v, r)) -> in_type t v /\ r = rest /\ ((it_width t = W8 -> 0 <= v) -> pack hl t v o = Ok bs).
Proof.
  intros Ho HF HL E. rewrite unpack_ok in E by assumption. injection E as Ev Er.
  assert (HL' : length (ordered_bytes hl o bs) = nbytes (it_width t)) by (rewrite ordered_length; exact HL).
  destruct (signed_of_range t (ordered_bytes hl o bs) HL' (ordered_ok hl o bs HF)) as [R [k Ek]].
  subst. split; [exact R|]. split; [reflexivity|]. intros Hp. rewrite pack_ok by assumption. f_equal.
  rewrite <- (ordered_invol hl o bs) at 2. f_equal.
  apply be_val_inj; [apply Forall_rev, le_bytes_ok|apply ordered_ok; exact HF|rewrite rev_length, le_bytes_length; congruence|].
  rewrite <- (le_val_rev (rev _)), rev_involutive, le_val_bytes, pow256, Ek.
  rewrite Z.mod_add by (apply Z.pow_nonzero; [lia|pose proof (bits_pos (it_width t)); lia]).
  apply Z.mod_small. pose proof (be_val_range _ (ordered_ok hl o bs HF)) as R2. rewrite HL', pow256 in R2. exact R2.
Qed.

Lemma unpack_short hl t bs o : (length bs < nbytes (it_width t))%nat -> unpack hl t bs o = Ok None.
Proof.
  intros H. assert (E : forall o, unpack_in t bs o = Ok None).
  { intros o'. unfold unpack_in. apply Nat.ltb_lt in H. rewrite H. reflexivity. }
  unfold unpack. destruct o; apply E.
Qed.

Lemma pack_repr hl t v : in_type t v -> (it_width t = W8 -> 0 <= v) -> exists bs, pack hl t v Big = Ok bs /\ be_repr t v bs /\
  pack hl t v Network = Ok bs /\ pack hl t v Little = Ok (rev bs) /\
  pack hl t v Host = Ok (if hl then rev bs else bs).
Proof.
  intros Hv Hp. exists (rev (le_bytes (nbytes (it_width t)) v)). rewrite !pack_ok by (assumption || discriminate). cbn [ordered_bytes].
  repeat split; try reflexivity.
  - rewrite rev_length, le_bytes_length. reflexivity.
  - apply Forall_rev, le_bytes_ok.
  - rewrite <- le_val_rev, rev_involutive, le_val_bytes, pow256.
    pose proof (signed_of_mod t v Hv) as E. unfold signed_of in E. unfold in_type in Hv.
    pose proof (bits_pos (it_width t)) as B. set (w := bits_of (it_width t)) in *.
    assert (E2 : 2 ^ w = 2 * 2 ^ (w - 1)). { replace w with (Z.succ (w - 1)) at 1 by lia. rewrite Z.pow_succ_r by lia. reflexivity. }
    assert (0 < 2 ^ (w - 1)) by (apply Z.pow_pos_nonneg; lia).
    destruct (Z.ltb_spec v 0).
    + symmetry. apply (Z.mod_unique _ _ (-1)); destruct (it_signed t); lia.
    + apply Z.mod_small. destruct (it_signed t); lia.
Qed.

(** flip *)
Lemma swap_rev n c : length c = n -> (n = 1 \/ n = 2 \/ n = 4 \/ n = 8)%nat -> swap_loop n (n / 2) 0 c = rev c.
Proof.
  intros HL H. destruct H as [->|[-> | [-> | ->]]].
  - destruct c as [|a [|? ?]]; try discriminate HL. reflexivity.
  - destruct c as [|a [|b [|? ?]]]; try discriminate HL. reflexivity.
  - destruct c as [|a [|b [|d [|e [|? ?]]]]]; try discriminate HL. reflexivity.
  - destruct c as [|a [|b [|c [|d [|e [|f [|g [|h [|? ?]]]]]]]]]; try discriminate HL. reflexivity.
Qed.

Lemma mem_length hl n v : length (mem_of hl n v) = n.
Proof. destruct hl; cbn; rewrite ?rev_length; apply le_bytes_length. Qed.

Lemma flip_impl_ok hl w v : flip_impl hl w v = be_val (le_bytes (nbytes w) v).
Proof.
  unfold flip_impl. rewrite swap_rev; [|apply mem_length|destruct w; cbn; auto].
  destruct hl; cbn [mem_of val_of]; rewrite ?rev_involutive; [apply le_val_rev|].
  rewrite <- le_val_rev. reflexivity.
Qed.

Lemma le_bytes_val bs : Forall is_byte bs -> le_bytes (length bs) (le_val bs) = bs.
Proof.
  induction bs as [|b bs IH]; intros H; [reflexivity|]. inversion H as [|? ? Hb Hr]; subst.
  cbn [length le_bytes le_val]. unfold is_byte in Hb.
  replace ((b + 256 * le_val bs) mod 256) with b by (rewrite Z.mul_comm, Z.mod_add, Z.mod_small by lia; reflexivity).
  replace ((b + 256 * le_val bs) / 256) with (le_val bs) by (rewrite Z.mul_comm, Z.div_add, Z.div_small by lia; lia).
  f_equal. apply IH. exact Hr.
Qed.

Lemma flip_reverses hl w bs : Forall is_byte bs -> length bs = nbytes w -> flip_impl hl w (be_val bs) = be_val (rev bs).
Proof.
  intros HF HL. rewrite flip_impl_ok, <- (le_val_rev bs), <- HL, <- (rev_length bs), le_bytes_val by (apply Forall_rev; exact HF).
  reflexivity.
Qed.

Lemma repr_unsigned w v : 0 <= v < 2 ^ bits_of w -> exists bs, Forall is_byte bs /\ length bs = nbytes w /\ be_val bs = v.
Proof.
  intros H. exists (rev (le_bytes (nbytes w) v)). split; [apply Forall_rev, le_bytes_ok|]. split; [rewrite rev_length, le_bytes_length; reflexivity|].
  rewrite <- le_val_rev, rev_involutive, le_val_bytes, pow256. apply Z.mod_small. exact H.
Qed.

Lemma flip_involutive hl w v : 0 <= v < 2 ^ bits_of w -> flip_impl hl w (flip_impl hl w v) = v.
Proof.
  intros H. destruct (repr_unsigned w v H) as (bs & HF & HL & <-).
  rewrite (flip_reverses hl w bs) by assumption.
  rewrite (flip_reverses hl w (rev bs)) by (try apply Forall_rev; try rewrite rev_length; assumption).
  rewrite rev_involutive. reflexivity.
Qed.

Lemma le_bytes_app n m v : le_bytes (n + m) v = le_bytes n v ++ le_bytes m (v / 256 ^ Z.of_nat n).
Proof.
  revert v. induction n as [|n IH]; intros v; cbn [plus le_bytes app]; [rewrite Z.pow_0_r, Z.div_1_r; reflexivity|].
  rewrite IH, Nat2Z.inj_succ, Z.pow_succ_r, Z.div_div by (try apply Z.pow_pos_nonneg; lia). reflexivity.
Qed.

Lemma flip_u_ok hl hi bs : Forall is_byte hi -> Forall is_byte bs -> (0 < length bs)%nat -> (length hi + length bs = 8)%nat ->
  flip_u hl (be_val (hi ++ bs)) (Z.of_nat (length bs)) = Ok (be_val (rev bs)).
Proof.
  intros Hh HF Hp HL. unfold flip_u. destruct (Z.eqb_spec (Z.of_nat (length bs)) 0); [lia|].
  assert (E : (64 - (Z.of_nat (length bs) * 8) mod 2 ^ 64) mod 2 ^ 64 = 8 * Z.of_nat (length hi)).
  { rewrite (Z.mod_small (Z.of_nat (length bs) * 8)) by lia. rewrite Z.mod_small by lia. lia. }
  rewrite E. destruct (Z.leb_spec 64 (8 * Z.of_nat (length hi))); [lia|].
  rewrite (flip_reverses hl W64 (hi ++ bs)) by (try apply Forall_app; try rewrite app_length; auto).
  rewrite rev_app_distr, be_val_app, rev_length, Z.shiftr_div_pow2 by lia.
  replace (2 ^ (8 * Z.of_nat (length hi))) with (256 ^ Z.of_nat (length hi)) by (rewrite Z.pow_mul_r by lia; reflexivity).
  pose proof (be_val_range (rev hi) (Forall_rev Hh)) as R. rewrite rev_length in R.
  rewrite Z.div_add_l, Z.div_small by lia. f_equal. lia.
Qed.

(** bits *)
Lemma bits_ok w v lower upper bo : 0 <= v < 2 ^ bits_of w -> 0 <= lower <= upper -> upper < bits_of w -> bo <> BitUndef ->
  exists r, bits w v lower upper bo = Ok r /\
    forall i, 0 <= i -> Z.testbit r i =
      (i <=? upper - lower) && Z.testbit v (i + match bo with MSB0 => bits_of w - 1 - upper | _ => lower end).
Proof.
  intros Hv Hl Hu Hb. unfold bits. assert (Hw : bits_of w <= 64) by (destruct w; cbn; lia).
  destruct (Z.ltb_spec upper lower); [lia|]. destruct (Z.leb_spec (bits_of w) upper); [lia|].
  set (lo := match bo with MSB0 => bits_of w - 1 - upper | _ => lower end).
  assert (Hr : match bo with LSB0 => Ok (lower, upper) | MSB0 => Ok (bits_of w - upper - 1, bits_of w - lower - 1)
             | BitUndef => Throw RuntimeError end = Ok (lo, lo + (upper - lower))).
  { unfold lo. destruct bo; [|f_equal; f_equal; lia|congruence]. f_equal. f_equal. lia. }
  rewrite Hr. cbn [bind]. assert (Hlo : 0 <= lo) by (unfold lo; destruct bo; lia).
  assert (Hlo2 : lo + (upper - lower) < bits_of w) by (unfold lo; destruct bo; lia).
  replace (lo + (upper - lower) - lo + 1) with (upper - lower + 1) by lia.
  set (n := upper - lower + 1). assert (Hn : 0 < n) by lia.
  destruct (Z.eqb_spec n (bits_of w)) as [En|En].
  - eexists. split; [reflexivity|]. intros i Hi. replace lo with 0 by lia. rewrite Z.add_0_r.
    destruct (Z.leb_spec i (upper - lower)); cbn [andb]; [reflexivity|].
    destruct (Z.eq_dec v 0) as [->|]; [apply Z.bits_0|]. apply Z.bits_above_log2; [lia|].
    assert (Z.log2 v < bits_of w) by (apply Z.log2_lt_pow2; lia). lia.
  - eexists. split; [reflexivity|]. intros i Hi.
    assert (Hn64 : n < 64) by lia. assert (P : 0 < 2 ^ n) by (apply Z.pow_pos_nonneg; lia).
    rewrite Z.shiftl_1_l. rewrite (Z.mod_small (2 ^ n - 1)).
    2:{ split; [lia|]. assert (2 ^ n <= 2 ^ 64) by (apply Z.pow_le_mono_r; lia). lia. }
    replace (2 ^ n - 1) with (Z.ones n) by (rewrite Z.ones_equiv; lia).
    rewrite Z.mod_small.
    2:{ rewrite Z.shiftl_mul_pow2, Z.ones_equiv by lia. assert (0 < 2 ^ lo) by (apply Z.pow_pos_nonneg; lia).
        assert (2 ^ n * 2 ^ lo <= 2 ^ 64) by (rewrite <- Z.pow_add_r by lia; apply Z.pow_le_mono_r; lia). nia. }
    rewrite Z.shiftr_spec, Z.land_spec, Z.shiftl_spec by lia.
    replace (i + lo - lo) with i by lia. rewrite (Z.testbit_ones n i) by lia.
    replace (0 <=? i) with true by (symmetry; apply Z.leb_le; lia). cbn [andb].
    destruct (Z.leb_spec i (upper - lower)), (Z.ltb_spec i n); try lia; rewrite ?andb_true_r, ?andb_false_r; reflexivity.
Qed.

Lemma bits_err w v lower upper bo :
  (upper < lower \/ bits_of w <= upper) -> bits w v lower upper bo = Throw InvalidArgument.
Proof.
  intros H. unfold bits. destruct (Z.ltb_spec upper lower); [reflexivity|].
  destruct (Z.leb_spec (bits_of w) upper); [reflexivity|lia].
Qed.

Lemma flip_s_ok hl v hi bs : in_type (mkIty true W64) v -> be_repr (mkIty true W64) v (hi ++ bs) -> bs <> [] ->
  flip_s hl v (Z.of_nat (length bs)) = Ok (wrap (mkIty true W64) (be_val (rev bs))).
Proof.
  intros Hv (HL & HF & Hr) Hne. apply Forall_app in HF. destruct HF as [HF1 HF2]. rewrite app_length in HL. cbn in HL.
  unfold flip_s. assert (0 < length bs)%nat by (destruct bs; [congruence|cbn; lia]).
  destruct (Z.eqb_spec (Z.of_nat (length bs)) 0); [lia|].
  assert (wrap (mkIty false W64) v = be_val (hi ++ bs)) as ->.
  { rewrite Hr. unfold wrap. cbn [it_signed it_width bits_of andb]. unfold in_type in Hv. cbn [it_signed it_width bits_of] in Hv.
    change (2 ^ (64 - 1)) with 9223372036854775808 in Hv. change (2 ^ 64) with 18446744073709551616.
    destruct (Z.ltb_spec v 0); [symmetry; apply (Z.mod_unique _ _ (-1)); lia|apply Z.mod_small; lia]. }
  rewrite flip_u_ok by assumption. reflexivity.
Qed.

Lemma flip_s_small hl v hi bs : in_type (mkIty true W64) v -> be_repr (mkIty true W64) v (hi ++ bs) -> bs <> [] -> hi <> [] ->
  flip_s hl v (Z.of_nat (length bs)) = Ok (be_val (rev bs)).
Proof.
  intros Hv Hr Hne Hh. rewrite (flip_s_ok hl v hi bs Hv Hr Hne). destruct Hr as (HL & HF & _). apply Forall_app in HF. destruct HF as [HF1 HF2].
  rewrite app_length in HL. cbn in HL. f_equal. apply wrap_id. unfold in_type. cbn [it_signed it_width bits_of].
  pose proof (be_val_range (rev bs) (Forall_rev HF2)) as R. rewrite rev_length in R.
  assert (256 ^ Z.of_nat (length bs) <= 256 ^ 7) by (apply Z.pow_le_mono_r; [lia|destruct hi; [congruence|cbn in HL; lia]]).
  change (2 ^ (64 - 1)) with 9223372036854775808. change (256 ^ 7) with 72057594037927936 in *. lia.
Qed.

Lemma flip_s_invol hl v : in_type (mkIty true W64) v ->
  exists f, flip_s hl v 8 = Ok f /\ in_type (mkIty true W64) f /\ flip_s hl f 8 = Ok v.
Proof.
  intros Hv. pose (t := mkIty true W64). destruct (pack_repr true t v Hv ltac:(discriminate)) as (bs & _ & Hr & _).
  assert (HL : length bs = 8%nat) by apply Hr.
  assert (Hne : bs <> []) by (intros ->; discriminate HL).
  pose proof (flip_s_ok hl v [] bs Hv Hr Hne) as E. rewrite HL in E. change (Z.of_nat 8) with 8 in E.
  eexists. split; [exact E|]. split; [apply wrap_range|].
  assert (G : forall b, length b = 8%nat -> Forall is_byte b -> be_repr t (wrap t (be_val b)) b).
  { intros b Hb HF. split; [exact Hb|]. split; [exact HF|].
    pose proof (be_val_range b HF) as R. rewrite Hb in R. unfold wrap. cbn [t it_signed it_width bits_of].
    change (256 ^ Z.of_nat 8) with (2 ^ 64) in R. rewrite (Z.mod_small (be_val b)) by exact R.
    cbn [andb]. change (2 ^ 64 / 2) with 9223372036854775808. change (2 ^ 64) with 18446744073709551616 in *. destruct (Z.leb_spec 9223372036854775808 (be_val b)).
    - destruct (Z.ltb_spec (be_val b - 18446744073709551616) 0); lia.
    - destruct (Z.ltb_spec (be_val b) 0); lia. }
  destruct Hr as (_ & HF & Hval).
  assert (Gr : be_repr t (wrap t (be_val (rev bs))) ([] ++ rev bs)).
  { cbn [app]. apply G; [rewrite rev_length; exact HL|apply Forall_rev; exact HF]. }
  pose proof (flip_s_ok hl (wrap t (be_val (rev bs))) [] (rev bs) (wrap_range _ _) Gr) as E2.
  rewrite rev_length, HL, rev_involutive in E2. change (Z.of_nat 8) with 8 in E2. fold t. rewrite E2.
  - f_equal. unfold t in *. clear t. pose (t := mkIty true W64). destruct (wrap_congr (mkIty true W64) (be_val bs)) as [k Ek].
    destruct (Z.ltb_spec v 0).
    + apply (in_type_unique t _ _ (k + 1)); [apply wrap_range|exact Hv|]. rewrite Ek, Hval. cbn [t it_width bits_of]. ring.
    + apply (in_type_unique t _ _ k); [apply wrap_range|exact Hv|]. rewrite Ek, Hval. reflexivity.
  - intros H. apply (f_equal (@length byte)) in H. rewrite rev_length, HL in H. discriminate.
Qed.
