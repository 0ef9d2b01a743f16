(** Property C38: textual form of ports. *)
From Verif Require Import Base AddrModel PortModel PortSpec.
Open Scope Z_scope.

Lemma isdigit_ok c : isdigit c = true <-> digit c.
Proof. unfold isdigit, digit. rewrite andb_true_iff, !Z.leb_le. tauto. Qed.

Lemma fold_numeral ds a : fold_left (fun a c => a * 10 + (c - 48)) ds a = a * 10 ^ Z.of_nat (length ds) + numeral_value ds.
Proof.
  revert a. induction ds as [|d ds IH]; intros a; cbn [fold_left numeral_value length]; [change (Z.of_nat 0) with 0; rewrite Z.pow_0_r; lia|].
  rewrite IH. unfold byte in *. rewrite Nat2Z.inj_succ, Z.pow_succ_r by lia. ring.
Qed.

Lemma fold_numeral0 ds : fold_left (fun a c => a * 10 + (c - 48)) ds 0 = numeral_value ds.
Proof. rewrite fold_numeral. reflexivity. Qed.

Lemma span_ok s : let (d, t) := span_digits s in s = d ++ t /\ Forall digit d /\ (forall c r, t = c :: r -> ~ digit c).
Proof.
  induction s as [|c s IH]; cbn [span_digits]; [repeat split; [constructor|discriminate]|].
  destruct (isdigit c) eqn:E.
  - destruct (span_digits s) as [d t]. destruct IH as (-> & F & N). repeat split; [|exact N]. constructor; [|exact F]. apply isdigit_ok. exact E.
  - repeat split; [constructor|]. intros c' r' [= <- <-] H. apply isdigit_ok in H. congruence.
Qed.

Lemma span_app d t : Forall digit d -> (forall c r, t = c :: r -> ~ digit c) -> span_digits (d ++ t) = (d, t).
Proof.
  intros F N. induction F as [|c d Hc F IH]; cbn [app span_digits].
  - destruct t as [|c r]; [reflexivity|]. cbn [span_digits]. destruct (isdigit c) eqn:E; [|reflexivity].
    apply isdigit_ok in E. exfalso. eapply N; eauto.
  - apply isdigit_ok in Hc. rewrite Hc, IH. reflexivity.
Qed.

Lemma strcaseeq_ok a b : Forall (fun n => n = 47 \/ 97 <= n <= 122) b -> (strcaseeq a b = true <-> case_variant a b).
Proof.
  intros F. revert a. induction F as [|y b Hy F IH]; intros [|x a]; cbn [strcaseeq].
  - split; [constructor|reflexivity].
  - split; [discriminate|]. intros H; inversion H.
  - split; [discriminate|]. intros H; inversion H.
  - rewrite andb_true_iff, IH, Z.eqb_eq. assert (T : tolower x = tolower y <-> (x = y \/ (97 <= y <= 122 /\ x = y - 32))).
    { unfold tolower. destruct (Z.leb_spec 65 x), (Z.leb_spec x 90), (Z.leb_spec 65 y), (Z.leb_spec y 90); cbn [andb]; lia. }
    rewrite T. split; [intros [A B]; constructor; assumption|]. intros H; inversion H; subst; auto.
Qed.

Lemma name_lower name p : proto_name p name -> Forall (fun n => n = 47 \/ 97 <= n <= 122) name.
Proof. intros [[_ ->]|[[_ ->]|[_ ->]]]; repeat constructor; lia. Qed.

Lemma slash_variant t name : case_variant t (47 :: name) <-> exists w, t = 47 :: w /\ case_variant w name.
Proof.
  split.
  - intros H. inversion H as [|x y t' n' Hx Ht]; subst. exists t'. split; [|exact Ht]. f_equal. destruct Hx; lia.
  - intros (w & -> & H). constructor; [left; reflexivity|exact H].
Qed.

Lemma variant_unique w p p' n n' : proto_name p n -> proto_name p' n' -> case_variant w n -> case_variant w n' -> p = p'.
Proof.
  intros P P' V V'.
  destruct P as [[-> ->]|[[-> ->]|[-> ->]]]; destruct P' as [[-> ->]|[[-> ->]|[-> ->]]]; try reflexivity; exfalso;
    inversion V as [|? ? ? ? A1 V1]; subst; inversion V' as [|? ? ? ? B1 V2]; subst; lia.
Qed.

Lemma numeral_nonneg ds : Forall digit ds -> 0 <= numeral_value ds.
Proof.
  induction 1 as [|d ds Hd F IH]; cbn [numeral_value]; [lia|]. unfold digit in Hd.
  pose proof (Z.pow_nonneg 10 (Z.of_nat (length ds)) ltac:(lia)). nia.
Qed.

Lemma c_str_until s : until_nul s (c_str s).
Proof.
  induction s as [|c s IH]; cbn [c_str]; [split; [intros []|exists []; auto]|].
  destruct (Z.eqb_spec c 0) as [->|N]; [split; [intros []|exists (0 :: s); eauto]|].
  destruct IH as (NI & r & E & Hr). split; [intros [E'|HI]; [congruence|auto]|].
  exists r. split; [cbn [app]; congruence|exact Hr].
Qed.

Lemma until_unique s t : until_nul s t -> c_str s = t.
Proof.
  intros (NI & r & -> & Hr). induction t as [|c t IH]; cbn [app c_str].
  - destruct Hr as [-> | (r' & ->)]; reflexivity.
  - destruct (Z.eqb_spec c 0) as [->|N]; [exfalso; apply NI; left; reflexivity|]. f_equal. apply IH. intros HI. apply NI. right. exact HI.
Qed.

Lemma parse_denotes s p : port_parse s = Ok p <-> denotes (c_str s) p.
Proof.
  unfold port_parse. set (cs := c_str s). pose proof (span_ok cs) as SP. split.
  - destruct (span_digits cs) as [ds t]. destruct SP as (Ecs & Fd & Nd).
    cbv zeta. destruct ds as [|d0 ds0]; [intros H; discriminate H|].
    destruct t as [|c [|c2 t']]; [intros H; discriminate H|intros H; discriminate H|].
    destruct (Z.eqb_spec c 47) as [->|]; [|intros H; discriminate H]. cbn [negb].
    assert (Hds : d0 :: ds0 <> []) by discriminate. set (ds := d0 :: ds0) in *. clearbody ds. clear d0 ds0.
    assert (G : forall pr name, proto_name pr name -> strcaseeq (47 :: c2 :: t') (47 :: name) = true ->
      (match stoi_digits ds with None => Throw RuntimeError | Some v => if 65535 <? v then Throw RuntimeError else Ok (mkPort v pr) end) = Ok p ->
      denotes cs p).
    { intros pr name PN SE. apply strcaseeq_ok in SE; [|constructor; [left; reflexivity|eapply name_lower; exact PN]].
      apply slash_variant in SE. destruct SE as (w & Ew & Hw). unfold stoi_digits. rewrite fold_numeral0. cbv zeta.
      destruct (Z.ltb_spec 2147483647 (numeral_value ds)); [intros H'; discriminate H'|].
      destruct (Z.ltb_spec 65535 (numeral_value ds)); [intros H'; discriminate H'|]. intros [= <-].
      exists ds, w, name. cbn [pnum pproto app]. split; [rewrite Ecs; f_equal; exact Ew|]. repeat split; auto. }
    destruct (strcaseeq _ (47 :: s_tcp)) eqn:E1; cbn [bind].
    { apply G with s_tcp; [left; auto|exact E1]. }
    destruct (strcaseeq _ (47 :: s_udp)) eqn:E2; cbn [bind].
    { apply G with s_udp; [right; left; auto|exact E2]. }
    destruct (strcaseeq _ (47 :: s_icmp)) eqn:E3; cbn [bind]; [|intros H'; discriminate H'].
    apply G with s_icmp; [right; right; auto|exact E3].
  - intros (ds & w & name & Ecs & Hds & Fd & Nv & Nb & PN & CV). clear SP.
    assert (ES : span_digits cs = (ds, 47 :: w)).
    { rewrite Ecs. apply span_app; [exact Fd|]. intros c r [= <- <-]. unfold digit. lia. }
    rewrite ES. destruct w as [|c2 w'].
    { exfalso. inversion CV; subst. destruct PN as [[_ E]|[[_ E]|[_ E]]]; discriminate E. }
    assert (ST : stoi_digits ds = Some (pnum p)).
    { unfold stoi_digits. rewrite fold_numeral0. cbv zeta.
      rewrite Nv. destruct (Z.ltb_spec 2147483647 (pnum p)); [lia|reflexivity]. }
    assert (EQ : forall q n, proto_name q n -> (strcaseeq (47 :: c2 :: w') (47 :: n) = true <-> q = pproto p)).
    { intros q n PQ. rewrite strcaseeq_ok by (constructor; [left; reflexivity|eapply name_lower; exact PQ]). rewrite slash_variant. split.
      - intros (w2 & [= <-] & H). eapply variant_unique; eauto.
      - intros ->. exists (c2 :: w'). split; [reflexivity|].
        assert (n = name) as ->; [|exact CV].
        destruct PN as [[E1 ->]|[[E1 ->]|[E1 ->]]]; destruct PQ as [[E2 ->]|[[E2 ->]|[E2 ->]]]; congruence. }
    destruct ds as [|d0 ds0]; [congruence|]. change (47 =? 47) with true. cbn [negb].
    pose proof (EQ PTCP s_tcp ltac:(left; auto)) as Q1. pose proof (EQ PUDP s_udp ltac:(right; left; auto)) as Q2.
    pose proof (EQ PICMP s_icmp ltac:(right; right; auto)) as Q3.
    assert (R : (if strcaseeq (47 :: c2 :: w') (47 :: s_tcp) then Ok PTCP
            else if strcaseeq (47 :: c2 :: w') (47 :: s_udp) then Ok PUDP
            else if strcaseeq (47 :: c2 :: w') (47 :: s_icmp) then Ok PICMP else Throw RuntimeError) = Ok (pproto p)).
    { destruct (strcaseeq (47 :: c2 :: w') (47 :: s_tcp)); [f_equal; apply Q1; reflexivity|].
      destruct (strcaseeq (47 :: c2 :: w') (47 :: s_udp)); [f_equal; apply Q2; reflexivity|].
      destruct (strcaseeq (47 :: c2 :: w') (47 :: s_icmp)); [f_equal; apply Q3; reflexivity|].
      exfalso. destruct PN as [[E1 _]|[[E1 _]|[E1 _]]]; rewrite E1 in *;
        [assert (false = true) by (apply Q1; reflexivity)|assert (false = true) by (apply Q2; reflexivity)|assert (false = true) by (apply Q3; reflexivity)]; discriminate. }
    rewrite R. cbn [bind]. rewrite ST. destruct (Z.ltb_spec 65535 (pnum p)); [lia|]. destruct p; reflexivity.
Qed.

Lemma print_u_ok fuel n : 0 <= n < 10 ^ Z.of_nat fuel -> (0 < fuel)%nat ->
  let ds := print_u fuel n in ds <> [] /\ Forall digit ds /\ numeral_value ds = n.
Proof.
  revert n. induction fuel as [|f IH]; intros n Hn Hf; [lia|]. cbn [print_u].
  destruct (Z.ltb_spec n 10).
  - repeat split; [discriminate|repeat constructor; unfold digit; lia|]. cbn. lia.
  - rewrite Nat2Z.inj_succ, Z.pow_succ_r in Hn by lia.
    assert (Hd : 0 <= n / 10 < 10 ^ Z.of_nat f) by (split; [apply Z.div_pos; lia|apply Z.div_lt_upper_bound; lia]).
    assert (Hf' : (0 < f)%nat). { destruct f; [|lia]. cbn in Hn. lia. }
    destruct (IH (n / 10) Hd Hf') as (N & F & V). pose proof (Z.mod_pos_bound n 10 ltac:(lia)).
    repeat split.
    + intros E. apply app_eq_nil in E. destruct E; discriminate.
    + apply Forall_app. split; [exact F|]. repeat constructor; unfold digit; lia.
    + assert (A : forall a b, numeral_value (a ++ b) = numeral_value a * 10 ^ Z.of_nat (length b) + numeral_value b).
      { induction a as [|x a IHa]; intros b; cbn [app numeral_value]; [lia|].
        rewrite IHa, app_length, Nat2Z.inj_add, Z.pow_add_r by lia. ring. }
      rewrite A, V. cbn [numeral_value length]. pose proof (Z.div_mod n 10 ltac:(lia)). cbn. lia.
Qed.

(** C38. Parsing accepts exactly the texts that denote a port (as a C string), and returns that port; everything else
    throws RuntimeError. *)
Theorem C38_parse_accepts_exactly_ports : forall s t, until_nul s t ->
  (forall p, port_parse s = Ok p <-> denotes t p) /\
  ((forall p, ~ denotes t p) -> port_parse s = Throw RuntimeError).
Proof.
  intros s t U. apply until_unique in U. subst t. split; [intros p; apply parse_denotes|].
  intros N. destruct (port_parse s) as [p|e|] eqn:E.
  - exfalso. apply (N p). apply parse_denotes. exact E.
  - clear N. unfold port_parse in E. destruct (span_digits (c_str s)) as [ds t].
    repeat match type of E with
           | (if ?c then _ else _) = _ => destruct c
           | bind (if ?c then _ else _) _ = _ => destruct c; cbn [bind] in E
           | match ?x with Some _ => _ | None => _ end = _ => destruct x
           end; congruence.
  - clear N. unfold port_parse in E. destruct (span_digits (c_str s)) as [ds t].
    repeat match type of E with
           | (if ?c then _ else _) = _ => destruct c
           | bind (if ?c then _ else _) _ = _ => destruct c; cbn [bind] in E
           | match ?x with Some _ => _ | None => _ end = _ => destruct x
           end; congruence.
Qed.
Print Assumptions C38_parse_accepts_exactly_ports.

(** Printing and parsing a valid port gives it back. *)
Theorem C38_print_parse_roundtrip : forall p, valid_port p -> port_parse (port_print p) = Ok p.
Proof.
  intros p [Hn Hp]. unfold port_print.
  destruct (print_u_ok 20 (pnum p)) as (N & F & V); [change (10 ^ Z.of_nat 20) with 100000000000000000000; lia|lia|].
  set (ds := print_u 20 (pnum p)) in *. clearbody ds.
  set (name := proto_text (pproto p)).
  assert (PN : proto_name (pproto p) name) by (unfold name; destruct (pproto p); [congruence|left|right; left|right; right]; split; reflexivity).
  pose proof (name_lower _ _ PN) as NL. clearbody name.
  apply parse_denotes. assert (NZ : ~ In 0 (ds ++ [47] ++ name)).
  { intros HI. apply in_app_or in HI. destruct HI as [HI|HI].
    - eapply Forall_forall in F; [|exact HI]. unfold digit in F. lia.
    - cbn in HI. destruct HI as [HI|HI]; [discriminate|]. eapply Forall_forall in NL; [|exact HI]. lia. }
  rewrite (until_unique _ (ds ++ [47] ++ name)) by (split; [exact NZ|exists []; split; [symmetry; apply app_nil_r|left; reflexivity]]).
  exists ds, name, name. repeat split; auto; try lia. clear. induction name; constructor; auto.
Qed.
Print Assumptions C38_print_parse_roundtrip.

(** Ports above 65535 and unknown protocols are rejected. *)
Theorem C38_rejects_large_numbers : forall ds w, ds <> [] -> Forall digit ds -> 65535 < numeral_value ds -> ~ In 0 w ->
  port_parse (ds ++ [47] ++ w) = Throw RuntimeError.
Proof.
  intros ds w N F V NW. apply (C38_parse_accepts_exactly_ports _ (ds ++ [47] ++ w)).
  - split; [|exists []; split; [symmetry; apply app_nil_r|left; reflexivity]]. intros HI. apply in_app_or in HI. destruct HI as [HI|HI].
    + eapply Forall_forall in F; [|exact HI]. unfold digit in F. lia.
    + destruct HI as [HI|HI]; [discriminate|auto].
  - intros p (ds' & w' & name & E & _ & F' & V' & B & _).
    assert (S1 : span_digits (ds ++ [47] ++ w) = (ds, 47 :: w)) by (apply span_app; [exact F|intros c r [= <- <-]; unfold digit; lia]).
    assert (S2 : span_digits (ds' ++ [47] ++ w') = (ds', 47 :: w')) by (apply span_app; [exact F'|intros c r [= <- <-]; unfold digit; lia]).
    rewrite E, S2 in S1. injection S1 as -> ->. lia.
Qed.
Print Assumptions C38_rejects_large_numbers.

Theorem C38_order_agrees_with_equality : forall a b,
  (port_eqb a b = true <-> a = b) /\ (port_eqb a b = true <-> (port_ltb a b = false /\ port_ltb b a = false)).
Proof.
  intros [n p] [m q]. assert (I : protocol_value p = protocol_value q <-> p = q) by (split; [destruct p, q; cbn; congruence || lia|congruence]).
  unfold port_eqb, port_ltb. cbn [pnum pproto]. split.
  - rewrite andb_true_iff, !Z.eqb_eq, I. split; [intros [-> ->]; reflexivity|intros [= -> ->]; auto].
  - lia.
Qed.
Print Assumptions C38_order_agrees_with_equality.

(** The order: by number, then by protocol: undefined, tcp, udp, icmp. *)
Theorem C38_order_is_lexicographic : forall n p m q,
  port_ltb (mkPort n p) (mkPort m q) = true <->
  n < m \/ (n = m /\ match p, q with
                   | PUndef, (PTCP | PUDP | PICMP) | PTCP, (PUDP | PICMP) | PUDP, PICMP => True
                   | _, _ => False
                   end).
Proof.
  intros n p m q. unfold port_ltb. cbn [pnum pproto].
  rewrite orb_true_iff, andb_true_iff, Z.eqb_eq, !Z.ltb_lt. destruct p, q; cbn [protocol_value]; intuition lia.
Qed.
Print Assumptions C38_order_is_lexicographic.

(** Default-constructed and undefined-protocol ports do not survive the round trip. *)
Theorem C38_undefined_protocol_not_parsed : forall n, 0 <= n <= 65535 ->
  port_parse (port_print (mkPort n PUndef)) = Throw RuntimeError.
Proof.
  intros n Hn. unfold port_print. cbn [pnum pproto proto_text].
  destruct (print_u_ok 20 n) as (N & F & V); [change (10 ^ Z.of_nat 20) with 100000000000000000000; lia|lia|].
  set (ds := print_u 20 n) in *. clearbody ds. apply (C38_parse_accepts_exactly_ports _ (ds ++ [47] ++ s_unknown)).
  - split; [|exists []; split; [symmetry; apply app_nil_r|left; reflexivity]]. intros HI. apply in_app_or in HI. destruct HI as [HI|HI].
    + eapply Forall_forall in F; [|exact HI]. unfold digit in F. lia.
    + cbn in HI. intuition discriminate.
  - intros p (ds' & w' & name & E & _ & F' & V' & B & PN & CV).
    assert (S1 : span_digits (ds ++ [47] ++ s_unknown) = (ds, 47 :: s_unknown)) by (apply span_app; [exact F|intros c r [= <- <-]; unfold digit; lia]).
    assert (S2 : span_digits (ds' ++ [47] ++ w') = (ds', 47 :: w')) by (apply span_app; [exact F'|intros c r [= <- <-]; unfold digit; lia]).
    rewrite E, S2 in S1. injection S1 as -> ->.
    destruct PN as [[_ ->]|[[_ ->]|[_ ->]]]; inversion CV; subst; lia.
Qed.
Print Assumptions C38_undefined_protocol_not_parsed.

Example C38_nonvacuous : valid_port (mkPort 8080 PTCP) /\ port_print (mkPort 8080 PTCP) = [56; 48; 56; 48; 47; 116; 99; 112] /\
  port_parse [48; 53; 51; 47; 85; 100; 80] = Ok (mkPort 53 PUDP) /\ port_parse [54; 53; 53; 51; 54; 47; 116; 99; 112] = Throw RuntimeError.
Proof. repeat split; try (cbn; lia); discriminate. Qed.
