(** Property C56. *)
From Verif Require Import Base IntModel IntSpec IntProofs PowModel.
Open Scope Z_scope.

Lemma checked_mul_ok t a b : (in_type t (a * b) /\ checked_mul t a b = Ok (a * b)) \/ (~ in_type t (a * b) /\ checked_mul t a b = Throw Overflow).
Proof.
  unfold checked_mul. destruct (Z.eqb_spec (wrap t (a * b)) (a * b)) as [E|N].
  - left. split; [rewrite <- E; apply wrap_range|reflexivity].
  - right. split; [|reflexivity]. intros H. apply N. apply wrap_id. exact H.
Qed.

(** Types are symmetric up to the minimum: smaller absolute value than a member's means membership, for nonnegative ones. *)
Lemma in_type_abs t a b : in_type t b -> Z.abs a < Z.abs b -> (it_signed t = true \/ 0 <= a) -> in_type t a.
Proof.
  unfold in_type. intros H L S. set (w := bits_of (it_width t)) in *. destruct (it_signed t).
  - lia.
  - destruct S as [S|S]; [discriminate|]. lia.
Qed.
Lemma in_type_pos t a b : in_type t b -> 0 <= a <= b -> in_type t a.
Proof.
  unfold in_type. intros H L. pose proof (bits_pos (it_width t)). set (w := bits_of (it_width t)) in *.
  assert (0 < 2 ^ (w - 1)) by (apply Z.pow_pos_nonneg; lia). destruct (it_signed t); lia.
Qed.


Lemma in_type_0 t : in_type t 0.
Proof.
  unfold in_type. pose proof (bits_pos (it_width t)). set (w := bits_of (it_width t)) in *.
  assert (0 < 2 ^ (w - 1)) by (apply Z.pow_pos_nonneg; lia). assert (0 < 2 ^ w) by (apply Z.pow_pos_nonneg; lia). destruct (it_signed t); lia.
Qed.
Lemma in_type_1 t : in_type t 1.
Proof. destruct t as [[] []]; unfold in_type; cbn; lia. Qed.
Lemma unsigned_pos t z : in_type t z -> it_signed t = true \/ 0 <= z.
Proof. unfold in_type. destruct (it_signed t); [auto|]. lia. Qed.

(** The accumulator and the current base: what holds at the head of the loop. *)
Definition pow_inv (x b : Z) : Prop := (b <> -1 \/ x = 1) /\ (x = 0 -> b = 0) /\ (x = -1 -> Z.abs b <= 1).

Lemma pow_step_split b e : 0 <= e -> b ^ e = (if Z.odd e then b else 1) * (b * b) ^ (Z.div2 e).
Proof.
  intros He. pose proof (Z.div2_odd e) as D. assert (0 <= Z.div2 e) by (rewrite Z.div2_div; apply Z.div_pos; lia).
  rewrite D at 1. rewrite Z.pow_add_r; [|lia|destruct (Z.odd e); cbn; lia]. rewrite Z.pow_mul_r by lia.
  rewrite Z.pow_2_r. destruct (Z.odd e); cbn [Z.b2z]; rewrite ?Z.pow_1_r, ?Z.pow_0_r; ring.
Qed.

Lemma pow_ge_1 b e : 1 <= b -> 0 <= e -> 1 <= b ^ e.
Proof. intros. assert (0 < b ^ e) by (apply Z.pow_pos_nonneg; lia). lia. Qed.
Lemma pow_ge_self b e : 1 <= b -> 1 <= e -> b <= b ^ e.
Proof. intros. rewrite <- (Z.pow_1_r b) at 1. apply Z.pow_le_mono_r; lia. Qed.

Lemma mul_fits t x b q : in_type t x -> in_type t b -> pow_inv x b -> 1 <= q ->
  in_type t (x * b * (b * b) ^ q) -> in_type t (x * b).
Proof.
  intros Hx Hb (I1 & I2 & I3) Hq HP. destruct (Z.eq_dec x 0) as [->|Nx]; [apply in_type_0|].
  destruct (Z.eq_dec b 0) as [->|N0]; [rewrite Z.mul_0_r; apply in_type_0|].
  destruct (Z.eq_dec b 1) as [->|N1]; [rewrite Z.mul_1_r; exact Hx|].
  destruct (Z.eq_dec b (-1)) as [->|Nm1]; [destruct I1 as [I1| ->]; [congruence|exact Hb]|].
  assert (4 <= b * b) by nia. pose proof (pow_ge_self (b * b) q ltac:(lia) Hq) as G.
  apply (in_type_abs t (x * b) _ HP).
  - rewrite (Z.abs_mul (x * b)). assert (1 <= Z.abs (x * b)) by nia. rewrite (Z.abs_eq ((b * b) ^ q)) by lia. nia.
  - destruct (unsigned_pos t x Hx), (unsigned_pos t b Hb); auto. right. nia.
Qed.

Lemma sq_fits t x b q : in_type t b -> pow_inv x (b * b) -> 1 <= q -> in_type t (x * (b * b) ^ q) -> in_type t (b * b).
Proof.
  intros Hb (I1 & I2 & I3) Hq HP. destruct (Z.eq_dec (b * b) 0) as [->|N0]; [apply in_type_0|].
  destruct (Z.eq_dec (b * b) 1) as [->|N1]; [apply in_type_1|].
  assert (Nb : b <> 0 /\ b <> 1 /\ b <> -1) by (repeat split; intros ->; lia).
  assert (4 <= b * b) by nia. pose proof (pow_ge_self (b * b) q ltac:(lia) Hq) as G.
  assert (Nx : x <> 0) by tauto. assert (Nx1 : x <> -1) by (intros E; specialize (I3 E); lia).
  destruct (Z.lt_ge_cases 0 x) as [L|L].
  - apply (in_type_pos t _ _ HP). set (P := (b * b) ^ q) in *. set (B := b * b) in *. clearbody P B. nia.
  - apply (in_type_abs t _ _ HP); [|right; lia]. set (P := (b * b) ^ q) in *. set (B := b * b) in *. clearbody P B. rewrite (Z.abs_eq B) by lia. rewrite Z.abs_neq by nia. nia.
Qed.

Lemma pow_loop_ok t fuel : forall x b e, 0 <= e < 2 ^ Z.of_nat fuel -> in_type t x -> in_type t b -> pow_inv x b ->
  (0 < fuel)%nat -> exists r, pow_loop t fuel x b e = Some r /\
    (in_type t (x * b ^ e) -> r = Ok (x * b ^ e)) /\ (~ in_type t (x * b ^ e) -> r = Throw Overflow).
Proof.
  induction fuel as [|f IH]; intros x b e He Hx Hb I Hf; [lia|]. cbn [pow_loop].
  rewrite Nat2Z.inj_succ, Z.pow_succ_r in He by lia. change (Z.shiftr e 1) with (Z.div2 e).
  assert (D : 0 <= Z.div2 e < 2 ^ Z.of_nat f) by (rewrite Z.div2_div; split; [apply Z.div_pos; lia|apply Z.div_lt_upper_bound; lia]).
  rewrite (pow_step_split b e) by lia. set (q := Z.div2 e) in *.
  set (y := x * (if Z.odd e then b else 1)).
  replace (x * ((if Z.odd e then b else 1) * (b * b) ^ q)) with (y * (b * b) ^ q) by (unfold y; ring).
  assert (Y : (if Z.odd e then checked_mul t x b else Ok x) = Ok y /\ in_type t y \/
              (if Z.odd e then checked_mul t x b else Ok x) = Throw Overflow /\ ~ in_type t (y * (b * b) ^ q)).
  { destruct (Z.odd e).
    - destruct (checked_mul_ok t x b) as [[H1 H2]|[H1 H2]]; [left; auto|right]. split; [exact H2|]. unfold y. intros HP. apply H1.
      destruct (Z.eq_dec q 0) as [Eq|Nq]; [rewrite Eq, Z.pow_0_r, Z.mul_1_r in HP; exact HP|].
      apply (mul_fits t x b q); auto. lia.
    - left. unfold y. rewrite Z.mul_1_r. auto. }
  destruct Y as [[-> Hy]|[-> Hn]]; [|exists (Throw Overflow); split; [reflexivity|split; [contradiction|reflexivity]]].
  destruct (Z.eqb_spec q 0) as [->|Nq].
  - rewrite Z.pow_0_r, Z.mul_1_r. exists (Ok y). split; [reflexivity|]. split; [reflexivity|contradiction].
  - assert (I' : pow_inv y (b * b)).
    { destruct I as (I1 & I2 & I3). unfold y. repeat split.
      - left. nia.
      - destruct (Z.odd e); intros E; [|rewrite Z.mul_1_r in E; rewrite (I2 E); reflexivity].
        apply Z.mul_eq_0 in E. destruct E as [E| ->]; [rewrite (I2 E); reflexivity|reflexivity].
      - destruct (Z.odd e); intros E; [|rewrite Z.mul_1_r in E; specialize (I3 E); nia].
        assert (Hbb : b = 1 \/ b = -1) by nia. destruct Hbb as [-> | ->]; cbn; lia. }
    destruct (checked_mul_ok t b b) as [[H1 H2]|[H1 H2]]; rewrite H2.
    + apply IH; auto. destruct f; [cbn in D; lia|lia].
    + exists (Throw Overflow). split; [reflexivity|]. split; [|reflexivity]. intros HP. destruct H1.
      apply (sq_fits t y b q); auto. lia.
Qed.

(** C56: for non-negative exponents the loop ends with exactly base^exp if the type can represent it, and throws Overflow
    otherwise. For negative exponents see C56_negative_exponent. *)
Theorem C56_pow_exact : forall t b e, in_type t b -> 0 <= e -> exists fuel r, pow t fuel b e = Some r /\
  (in_type t (b ^ e) -> r = Ok (b ^ e)) /\ (~ in_type t (b ^ e) -> r = Throw Overflow).
Proof.
  intros t b e Hb He. exists (S (Z.to_nat e)). unfold pow. rewrite <- (Z.mul_1_l (b ^ e)). apply pow_loop_ok; auto.
  - split; [lia|]. rewrite Nat2Z.inj_succ, Z2Nat.id by lia. apply Z.lt_le_trans with (Z.succ e); [lia|]. apply Z.lt_le_incl. apply Z.pow_gt_lin_r; lia.
  - apply in_type_1.
  - repeat split; intros; try lia.
  - lia.
Qed.
Print Assumptions C56_pow_exact.

(** The result does not depend on how long one looks. *)
Theorem C56_pow_deterministic : forall t b e f1 f2 r1 r2, pow t f1 b e = Some r1 -> pow t f2 b e = Some r2 -> r1 = r2.
Proof.
  intros t b e f1 f2. unfold pow. generalize 1 as x. revert b e f2. induction f1 as [|f1 IH]; intros b e f2 x r1 r2 H1 H2; [discriminate|].
  destruct f2 as [|f2]; [discriminate|]. cbn [pow_loop] in *.
  destruct (if Z.odd e then checked_mul t x b else Ok x); try congruence. destruct (Z.shiftr e 1 =? 0); [congruence|].
  destruct (checked_mul t b b); try congruence. eapply IH; eauto.
Qed.
Print Assumptions C56_pow_deterministic.

Lemma in_type_bound t z : in_type t z -> Z.abs z < 2 ^ 64.
Proof. destruct t as [[] []]; unfold in_type; cbn [it_signed it_width bits_of]; intros H; lia. Qed.
Lemma shift_neg e : e < 0 -> Z.shiftr e 1 < 0.
Proof. intros H. change (Z.shiftr e 1) with (Z.div2 e). rewrite Z.div2_div. apply Z.div_lt_upper_bound; lia. Qed.

Lemma pow_loop_hangs t : forall fuel x b e, in_type t x -> in_type t b -> Z.abs x <= 1 -> Z.abs b <= 1 -> e < 0 ->
  pow_loop t fuel x b e = None.
Proof.
  induction fuel as [|f IH]; intros x b e Tx Tb Hx Hb He; [reflexivity|]. cbn [pow_loop].
  pose proof (shift_neg e He) as He'.
  assert (Hm : forall u v, in_type t u -> in_type t v -> Z.abs u <= 1 -> Z.abs v <= 1 -> in_type t (u * v) /\ Z.abs (u * v) <= 1).
  { intros u v Tu Tv Hu Hv. destruct t as [[] []]; unfold in_type in *; cbn [it_signed it_width bits_of] in *;
    (assert (u = -1 \/ u = 0 \/ u = 1) as [-> | [-> | ->]] by lia); (assert (v = -1 \/ v = 0 \/ v = 1) as [-> | [-> | ->]] by lia); cbn; lia. }
  assert (X : exists x', (if Z.odd e then checked_mul t x b else Ok x) = Ok x' /\ in_type t x' /\ Z.abs x' <= 1).
  { destruct (Z.odd e); [|eauto]. destruct (Hm x b Tx Tb Hx Hb) as [H1 H2]. exists (x * b).
    destruct (checked_mul_ok t x b) as [[_ ->]|[N _]]; [auto|contradiction]. }
  destruct X as (x' & -> & Tx' & Hx'). destruct (Z.eqb_spec (Z.shiftr e 1) 0); [lia|].
  destruct (Hm b b Tb Tb Hb Hb) as [H1 H2]. destruct (checked_mul_ok t b b) as [[_ ->]|[N _]]; [|contradiction].
  apply IH; assumption.
Qed.

Lemma pow_loop_overflows t : forall fuel x b e, in_type t b -> 2 <= Z.abs b -> e < 0 -> 2 ^ 64 <= Z.abs b + Z.of_nat fuel ->
  pow_loop t fuel x b e = Some (Throw Overflow).
Proof.
  induction fuel as [|f IH]; intros x b e Tb Hb He Hf; [pose proof (in_type_bound t b Tb); lia|]. cbn [pow_loop].
  pose proof (shift_neg e He) as He'.
  assert (X : (exists x', (if Z.odd e then checked_mul t x b else Ok x) = Ok x') \/ (if Z.odd e then checked_mul t x b else Ok x) = Throw Overflow).
  { destruct (Z.odd e); [|eauto]. destruct (checked_mul_ok t x b) as [[_ ->]|[_ ->]]; eauto. }
  destruct X as [(x' & ->)| ->]; [|reflexivity]. destruct (Z.eqb_spec (Z.shiftr e 1) 0); [lia|].
  destruct (checked_mul_ok t b b) as [[H ->]|[_ ->]]; [|reflexivity]. rewrite Nat2Z.inj_succ in Hf.
  assert (Z.abs b + 1 <= Z.abs (b * b)) by (rewrite Z.abs_mul; nia). apply IH; [exact H|lia|exact He'|lia].
Qed.

(** Negative exponents: the base is squared until it overflows, which throws; for the bases 0, 1 and -1 the loop never ends. *)
Theorem C56_negative_exponent : forall t b e, in_type t b -> e < 0 ->
  (2 <= Z.abs b -> exists fuel, pow t fuel b e = Some (Throw Overflow)) /\
  (Z.abs b < 2 -> forall fuel, pow t fuel b e = None).
Proof.
  intros t b e Tb He. unfold pow. split; intros Hb.
  - exists (Z.to_nat (2 ^ 64)). apply pow_loop_overflows; auto. rewrite Z2Nat.id by lia. lia.
  - intros fuel. apply pow_loop_hangs; auto; [apply in_type_1|lia|lia].
Qed.
Print Assumptions C56_negative_exponent.

(** A negative exponent never becomes zero by shifting: "always terminates" fails. *)
Theorem C56_negative_exponent_refuted : forall fuel, pow (mkIty true W64) fuel 1 (-1) = None.
Proof.
  unfold pow. induction fuel as [|f IH]; [reflexivity|]. cbn [pow_loop]. change (Z.odd (-1)) with true.
  change (checked_mul (mkIty true W64) 1 1) with (@Ok Z 1). change (Z.shiftr (-1) 1) with (-1). cbn [Z.eqb]. exact IH.
Qed.
Print Assumptions C56_negative_exponent_refuted.

Example C56_nonvacuous : pow (mkIty true W8) 9 (-2) 7 = Some (Ok (-128)) /\ pow (mkIty true W8) 9 2 7 = Some (Throw Overflow) /\
  pow (mkIty false W64) 9 10 19 = Some (Ok 10000000000000000000) /\ pow (mkIty true W16) 9 0 0 = Some (Ok 1).
Proof. repeat split. Qed.
