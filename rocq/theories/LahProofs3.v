(** A successful run reads what the unit's declaration says. *)
From Verif Require Import Base GrammarModel LahModel LahSpec LahProofs LahProofs2.

(** Where &size is used, no look-ahead symbols are: [Z] contains what can be inside something with &size (and possibly more), and no literal there serves
    as a look-ahead symbol. *)
Record zone {E} (P : prog E) (Z : sym -> Prop) : Prop := mkZone {
  zn_size : forall s e, p_size P s e <> None -> Z s;
  zn_child : forall s p rhs c, Z s -> p_prod P s = Some p -> In rhs (rhss p) -> In c rhs -> Z c;
  zn_call : forall s r, Z s -> p_call P s = Some r -> Z r;
  zn_lit : forall s p l, Z s -> p_prod P s = Some p -> token_id p = Some l -> p_inuse P l = false }.
(** Look-ahead symbols are bytes constants that are not empty. *)
Definition bytes_look_aheads {E} (P : prog E) : Prop := forall l, p_inuse P l = true -> exists w, p_kind P l = KBytes w /\ w <> [].

Section S.
Context {E : Type} (P : prog E) (I : input) (LO : leaf_ok P) (Z : sym -> Prop) (ZN : zone P Z) (BL : bytes_look_aheads P).
Local Notation len := (length (i_data I)).
Implicit Types x y : st E.

Definition ok x : Prop := inv I x /\ s_pos x <= cut (s_lim x) len.
(** The same but for look-ahead. *)
Definition keeps x y : Prop := s_pos x = s_pos y /\ s_lim x = s_lim y /\ s_env x = s_env y.
Lemma same_keeps x y : same x y -> keeps x y. Proof. intros (A & B & _ & _ & C). repeat split; assumption. Qed.
Lemma keeps_trans x y z : keeps x y -> keeps y z -> keeps x z. Proof. unfold keeps. intuition congruence. Qed.
Lemma keeps_refl x : keeps x x. Proof. repeat split. Qed.
Lemma ok_same x y : ok x -> inv I y -> keeps x y -> ok y.
Proof. intros (_ & A) V (B & C & _). split; [exact V|]. rewrite <- B, <- C. exact A. Qed.
Lemma extends_refl : extends I I. Proof. left. reflexivity. Qed.

Lemma retry_inv {A} (f : bytes -> bool -> option A) x a y : stable f -> inv I x -> retry I f x = Some (a, y) ->
  inv I y /\ same x y /\ f (whole I x) (fin I x) = Some a /\ f (avail I y) (view_complete y) = Some a.
Proof.
  intros ST V R. pose proof (retry_spec I f x ST V) as H. destruct (f (whole I x) (fin I x)) as [b|]; [|congruence].
  destruct H as (z & H & V2 & S2 & F). rewrite R in H. injection H as -> ->. auto.
Qed.
Lemma wait_inv n x b y : ok x -> wait_or_eod I n x = Some (b, y) -> ok y /\ same x y /\ (b = true -> n <= length (avail I y)) /\ (b = false -> length (whole I x) < n /\ fin I x = true).
Proof.
  intros O H. destruct (retry_inv (wait_f n) x b y (wait_stable n) (proj1 O) H) as (V & S1 & F1 & F2).
  split; [apply (ok_same x); [exact O|exact V|apply same_keeps; exact S1]|]. split; [exact S1|]. unfold wait_f in *. split; intros ->.
  - destruct (Nat.leb_spec n (length (avail I y))); [assumption|]. destruct (view_complete y); discriminate.
  - destruct (Nat.leb_spec n (length (whole I x))); [discriminate|]. destruct (fin I x); [auto|discriminate].
Qed.
Lemma at_eod_inv x b y : ok x -> at_eod I x = Some (b, y) -> ok y /\ same x y /\ (b = true -> whole I x = [] /\ fin I x = true) /\ (b = false -> whole I x <> []).
Proof.
  intros O H. unfold at_eod in H. destruct (wait_or_eod I 1 x) as [[c z]|] eqn:W; [|discriminate]. injection H as <- <-.
  destruct (wait_inv _ _ _ _ O W) as (O1 & S1 & T & F). split; [exact O1|]. split; [exact S1|]. destruct c; cbn [negb]; split; intros K; try discriminate.
  - specialize (T eq_refl). destruct (same_whole I x z S1) as (-> & _). pose proof (avail_len I z (proj1 O1)). intros N. rewrite N in *. cbn in *. lia.
  - destruct (F eq_refl) as (F1 & F2). split; [|exact F2]. destruct (whole I x); [reflexivity|cbn in F1; lia].
Qed.
Lemma ended_fin x : fin I x = true -> ended I (s_lim x).
Proof.
  unfold fin, ended_b, ended. intros H. apply orb_true_iff in H. destruct H as [H | H]; [left; exact H|right]. destruct (s_lim x); [apply Nat.leb_le; exact H|discriminate].
Qed.
Lemma ok_set_lah x l e : ok x -> e <= len -> ok (set_lah x l e).
Proof. intros (V & L) K. split; [destruct V; split; assumption|exact L]. Qed.
Lemma whole_pos x n : ok x -> n <= length (whole I x) -> s_pos x + n <= cut (s_lim x) len.
Proof. intros (V & L) K. rewrite whole_cut in K. rewrite skipn_length, firstn_length in K. unfold cut in *. destruct (s_lim x); lia. Qed.

Lemma look_regexps_keeps ls x y : ok x -> look_regexps P I ls x = Done y -> ok y /\ keeps x y.
Proof.
  intros O H. unfold look_regexps in H. destruct (retry I _ x) as [[r z]|] eqn:R; [|discriminate].
  destruct (retry_inv _ _ _ _ (rx_stable P LO ls) (proj1 O) R) as (V & S1 & _ & F). pose proof (same_keeps _ _ S1) as K.
  assert (OZ : ok z) by (apply (ok_same x); assumption). pose proof (iv_pos _ _ V) as LP. destruct r as [| |l n]; injection H as <-.
  1, 2: split; [apply ok_set_lah; assumption|exact K].
  split; [|exact K]. apply ok_set_lah; [exact OZ|]. apply avail_pos; [exact V|].
  destruct (p_rx P ls (avail I z) (view_complete z)) as [| |l0 n0] eqn:Q; [destruct (view_complete z); discriminate|discriminate|]. injection F as <- <-. eapply (lo_rx_len _ LO). exact Q.
Qed.
Lemma try_literal_keeps w x n y : ok x -> try_literal I w x = Some (n, y) -> ok y /\ same x y /\ s_pos y + n <= len.
Proof.
  intros O H. unfold try_literal in H. destruct (wait_or_eod I (length w) x) as [[b z]|] eqn:W; [|discriminate]. injection H as <- <-.
  destruct (wait_inv _ _ _ _ O W) as (O1 & S1 & T & _). split; [exact O1|]. split; [exact S1|]. pose proof (iv_pos _ _ (proj1 O1)).
  destruct b; cbn [andb]; [|lia]. destruct (starts_with w (avail I z)); [|lia]. apply avail_pos; [apply O1|apply T; reflexivity].
Qed.
Lemma look_others_keeps ls : forall first x y, ok x -> look_others P I first ls x = Done y -> ok y /\ keeps x y.
Proof.
  induction ls as [|l ls IH]; intros first x y O H; cbn [look_others] in H; [injection H as <-; auto using keeps_refl|].
  assert (K : forall w, match try_literal I w x with
    | None => Suspended
    | Some (n, x0) =>
        if first then look_others P I false ls (if Nat.eqb n 0 then x0 else set_lah x0 (LTok l) (s_pos x0 + n))
        else if negb (Nat.eqb n 0) && Nat.leb (s_lahe x0) (s_pos x0 + n)
        then match s_lah x0 with
             | LNone => look_others P I false ls (set_lah x0 (LTok l) (s_pos x0 + n))
             | _ => if Nat.eqb (s_pos x0 + n) (s_lahe x0) then Fail else look_others P I false ls (set_lah x0 (LTok l) (s_pos x0 + n))
             end
        else look_others P I false ls x0
    end = Done y -> ok y /\ keeps x y).
  { intros w G. destruct (try_literal I w x) as [[n z]|] eqn:T; [|discriminate]. destruct (try_literal_keeps _ _ _ _ O T) as (O1 & S1 & L). apply same_keeps in S1.
    assert (OS : ok (set_lah z (LTok l) (s_pos z + n))) by (apply ok_set_lah; assumption).
    assert (GO : forall c z', ok z' -> keeps z z' -> look_others P I c ls z' = Done y -> ok y /\ keeps x y).
    { intros c z' O2 K2 G2. destruct (IH c z' y O2 G2) as (O3 & K3). split; [exact O3|]. eapply keeps_trans; [exact S1|]. eapply keeps_trans; [exact K2|exact K3]. }
    destruct first; [destruct (Nat.eqb n 0); [eapply GO; [exact O1|apply keeps_refl|exact G]|eapply GO; [exact OS|exact (keeps_refl z)|exact G]]|].
    destruct (negb (Nat.eqb n 0) && Nat.leb (s_lahe z) (s_pos z + n)); [|eapply GO; [exact O1|apply keeps_refl|exact G]].
    destruct (s_lah z); try (destruct (Nat.eqb (s_pos z + n) (s_lahe z)); [discriminate|]); (eapply GO; [exact OS|exact (keeps_refl z)|exact G]). }
  destruct (p_kind P l) as [w|w|]; [apply (K w H)|apply (K w H)|eapply IH; eauto].
Qed.
Lemma andthen_done (r : result E) k y : andthen r k = Done y -> exists x, r = Done x /\ k x = Done y.
Proof. destruct r; try discriminate. eauto. Qed.
Lemma look_keeps s x y : ok x -> look P I s x = Done y -> ok y /\ keeps x y.
Proof.
  intros O H. unfold look in H. destruct (s_lah x); try (injection H as <-; auto using keeps_refl). destruct (p_lahs P s) as [v0 v1].
  unfold get_look_ahead in H. destruct (at_eod I x) as [[b z]|] eqn:A; [|discriminate]. destruct (at_eod_inv _ _ _ O A) as (O1 & S1 & _). apply same_keeps in S1. destruct b.
  - injection H as <-. split; [apply ok_set_lah; [exact O1|apply (iv_lahe _ _ (proj1 O1))]|exact S1].
  - destruct (filter _ _) as [|r rs].
    + destruct (look_others_keeps _ _ _ _ O1 H) as (O2 & K2). split; [exact O2|eapply keeps_trans; eauto].
    + apply andthen_done in H. destruct H as (z' & R & H). destruct (look_regexps_keeps _ _ _ O1 R) as (O2 & K2). destruct (look_others_keeps _ _ _ _ O2 H) as (O3 & K3).
      split; [exact O3|]. eapply keeps_trans; [exact S1|]. eapply keeps_trans; eauto.
Qed.

(** What each function is shown to achieve, starting with [x] and ending in [y]. *)
Definition post (R : option nat -> E -> nat -> E -> nat -> Prop) x y : Prop :=
  ok y /\ s_lim y = s_lim x /\ R (s_lim x) (s_env x) (s_pos x) (s_env y) (s_pos y).
Lemma post_keeps R x x' y : keeps x x' -> post R x' y -> post R x y.
Proof. intros (A & B & C) (O & L & H). unfold post. rewrite A, B, C. split; [exact O|]. split; [exact L|exact H]. Qed.

Lemma ok_set_pos x n : ok x -> n <= cut (s_lim x) len -> ok (set_pos x n).
Proof. intros (V & L) K. split; [|exact K]. destruct V. split; try assumption. cbn. unfold cut in K. destruct (s_lim x); lia. Qed.
Lemma field_post s w x y : field P s w x = Done y -> exists e, p_field P s w (s_env x) = Some e /\ y = set_env x e.
Proof. unfold field. destruct (p_field P s w (s_env x)); [|discriminate]. intros H. injection H as <-. eauto. Qed.
Lemma ok_set_env x e : ok x -> ok (set_env x e). Proof. intros (V & L). split; [destruct V; split; assumption|exact L]. Qed.
Lemma bytes_eqb_eq a b : bytes_eqb a b = true -> a = b.
Proof. unfold bytes_eqb. destruct (list_eq_dec Z.eq_dec a b); [auto|discriminate]. Qed.

Definition inside s x : Prop := Z s \/ s_lim x = None.
Lemma plain_post s l w x y : (p_kind P l = KBytes w \/ p_kind P l = KInt w) -> ok x ->
  match wait_or_eod I (length w) x with None => Suspended | Some (o, x) => if o && starts_with w (avail I x) then field P s w (set_pos x (s_pos x + length w)) else Fail end = Done y ->
  post (fun lim e i e' j => exists w, spelled P I lim l i w /\ p_field P s w e = Some e' /\ j = i + length w) x y.
Proof.
  intros KD O H. destruct (wait_or_eod I (length w) x) as [[b z]|] eqn:W; [|discriminate]. destruct (wait_inv _ _ _ _ O W) as (O1 & S1 & T & _).
  destruct b; cbn [andb] in H; [|discriminate]. specialize (T eq_refl). rewrite starts_with_long in H by exact T. destruct (bytes_eqb _ _) eqn:B; [|discriminate].
  apply bytes_eqb_eq in B. rewrite avail_firstn in B by (try apply O1; exact T). apply field_post in H. destruct H as (e & F & ->).
  pose proof S1 as (E1 & E2 & _ & _ & E5). destruct (same_whole I x z S1) as (W1 & _). rewrite <- W1 in B. split; [|split].
  - apply ok_set_env, ok_set_pos; [exact O1|]. apply whole_pos; [exact O1|]. pose proof (avail_len I z (proj1 O1)). lia.
  - cbn. congruence.
  - exists w. cbn in F. rewrite <- E5 in F. split; [|split; [exact F|cbn; rewrite E1; reflexivity]].
    unfold whole in B. destruct KD as [KD | KD]; [apply sp_bytes|apply sp_int]; auto.
Qed.
Lemma literal_post s l x y : inside s x -> lit_of P s = Some l -> ok x -> literal P I s l x = Done y ->
  post (fun lim e i e' j => exists w, spelled P I lim l i w /\ p_field P s w e = Some e' /\ j = i + length w) x y.
Proof.
  intros IN LS O H. unfold literal in H.
  assert (N : match p_kind P l with
      | KBytes w | KInt w =>
          match wait_or_eod I (length w) x with
          | None => Suspended
          | Some (o, x) => if o && starts_with w (avail I x) then field P s w (set_pos x (s_pos x + length w)) else Fail
          end
      | KRegexp =>
          match retry I (fun av fin => match p_rx P [l] av fin with RWait => if fin then Some RWait else None | r => Some r end) x with
          | None => Suspended
          | Some (RWait, x) => NoFuel
          | Some (RTok _ n, x) => field P s (firstn n (avail I x)) (set_pos x (s_pos x + n))
          | Some (_, x) => Fail
          end
      end = Done y -> post (fun lim e i e' j => exists w, spelled P I lim l i w /\ p_field P s w e = Some e' /\ j = i + length w) x y).
  { clear H. intros H. destruct (p_kind P l) as [w|w|] eqn:KD; [apply (plain_post s l w x y (or_introl KD) O H)|apply (plain_post s l w x y (or_intror KD) O H)|].
    destruct (retry I _ x) as [[r z]|] eqn:R; [|discriminate]. destruct (retry_inv _ _ _ _ (rx_stable P LO [l]) (proj1 O) R) as (V & S1 & F1 & F).
    destruct r as [| |t n]; [discriminate|discriminate|]. assert (OZ : ok z) by (apply (ok_same x); [exact O|exact V|apply same_keeps; exact S1]).
    assert (F1' : p_rx P [l] (whole I x) (fin I x) = RTok t n) by (destruct (p_rx P [l] (whole I x) (fin I x)); [destruct (fin I x); discriminate|discriminate|injection F1 as <- <-; reflexivity]).
    assert (F' : p_rx P [l] (avail I z) (view_complete z) = RTok t n) by (destruct (p_rx P [l] (avail I z) (view_complete z)); [destruct (view_complete z); discriminate|discriminate|injection F as <- <-; reflexivity]).
    pose proof (lo_rx_len _ LO _ _ _ _ _ F') as L1. pose proof (lo_rx_len _ LO _ _ _ _ _ F1') as L2. rewrite avail_firstn in H by assumption.
    destruct (same_whole I x z S1) as (W1 & _). rewrite <- W1 in H. pose proof S1 as (E1 & E2 & _ & _ & E5). apply field_post in H. destruct H as (e & FF & ->). split; [|split].
    - apply ok_set_env, ok_set_pos; [exact OZ|]. apply whole_pos; [exact OZ|]. rewrite <- W1. exact L2.
    - cbn. congruence.
    - exists (firstn n (whole I x)). cbn in FF. rewrite <- E5 in FF. split; [eapply sp_rx; [exact KD|exact F1']|]. split; [exact FF|]. cbn. rewrite E1, firstn_length. lia. }
  destruct (p_inuse P l) eqn:U; [|apply N; exact H]. destruct (s_lah x) as [| |t]; [apply N; exact H|discriminate|]. clear N.
  destruct (Nat.eqb t l); [|discriminate]. cbn [negb] in H.
  destruct IN as [ZS | LN].
  { exfalso. unfold lit_of in LS. destruct (p_prod P s) as [p|] eqn:FP; [|discriminate]. rewrite (zn_lit _ _ ZN s p l ZS FP LS) in U. discriminate. }
  destruct (BL l U) as (w & KD & NW). rewrite KD in H. destruct (bytes_eqb _ _) eqn:B; [|discriminate]. apply bytes_eqb_eq in B. rewrite <- B in H.
  apply field_post in H. destruct H as (e & FF & ->). pose proof (iv_lahe _ _ (proj1 O)) as LL. pose proof (iv_pos _ _ (proj1 O)) as LP.
  assert (LW : length w = s_lahe x - s_pos x).
  { rewrite B at 1. unfold between. rewrite firstn_length, skipn_length. lia. }
  split; [|split].
  - apply ok_set_env, ok_set_pos; [apply ok_set_lah; assumption|]. cbn. rewrite LN. exact LL.
  - reflexivity.
  - exists w. split; [apply sp_bytes; [exact KD|]|].
    + unfold rest_at. rewrite LN, LW. symmetry. exact B.
    + split; [exact FF|]. cbn. destruct (Nat.le_gt_cases (s_pos x) (s_lahe x)); [lia|]. exfalso.
      destruct w; [congruence|cbn in LW; lia].
Qed.
Lemma var_stable s e : stable (fun av c => match p_var P s e av c with VWait => None | r => Some r end).
Proof.
  intros av a more c H. destruct (p_var P s e av false) eqn:F; [discriminate| |]; rewrite (lo_var _ LO s e av more c) by congruence; rewrite F; exact H.
Qed.
Lemma variable_post s x y : ok x -> variable P I s x = Done y ->
  post (fun lim e i e' j => exists n, p_var P s e (rest_at I lim i) (ended_b I lim) = VOk n /\ p_field P s (firstn n (rest_at I lim i)) e = Some e' /\ j = i + n) x y.
Proof.
  intros O H. unfold variable in H. destruct (retry I _ x) as [[r z]|] eqn:R; [|discriminate].
  destruct (retry_inv _ _ _ _ (var_stable s (s_env x)) (proj1 O) R) as (V & S1 & F1 & F).
  destruct r as [| |n]; [discriminate|discriminate|]. assert (OZ : ok z) by (apply (ok_same x); [exact O|exact V|apply same_keeps; exact S1]).
  assert (F1' : p_var P s (s_env x) (whole I x) (fin I x) = VOk n) by (destruct (p_var P s (s_env x) (whole I x) (fin I x)); congruence).
  assert (F' : p_var P s (s_env x) (avail I z) (view_complete z) = VOk n) by (destruct (p_var P s (s_env x) (avail I z) (view_complete z)); congruence).
  pose proof (lo_var_len _ LO _ _ _ _ _ F') as L1. pose proof (lo_var_len _ LO _ _ _ _ _ F1') as L2. rewrite avail_firstn in H by assumption.
  destruct (same_whole I x z S1) as (W1 & _). rewrite <- W1 in H. pose proof S1 as (E1 & E2 & _ & _ & E5). apply field_post in H. destruct H as (e & FF & ->). split; [|split].
  - apply ok_set_env, ok_set_pos; [exact OZ|]. apply whole_pos; [exact OZ|]. rewrite <- W1. exact L2.
  - cbn. congruence.
  - exists n. cbn in FF. rewrite <- E5 in FF. split; [exact F1'|]. split; [exact FF|]. cbn. rewrite E1. reflexivity.
Qed.

Lemma sized_post R n f x y : ok x -> (forall x' y', ok x' -> s_pos x' = s_pos x -> s_env x' = s_env x -> (n = None -> s_lim x' = s_lim x) -> f x' = Done y' -> post R x' y') ->
  sized n f x = Done y -> post (fun lim e i e' j => exists lim', bounds lim n i j lim' /\ R lim' e i e' j) x y.
Proof.
  intros O F H. unfold sized in H. destruct n as [n|].
  - apply andthen_done in H. destruct H as (z & B & H). destruct (Nat.ltb_spec (s_pos z) (s_pos x + n)) as [L | L]; [discriminate|]. injection H as <-.
    set (x' := set_lim x (Some (cut (s_lim x) (s_pos x + n)))) in *.
    assert (O' : ok x').
    { destruct O as (V & LP). split; [destruct V; split; assumption|]. cbn. unfold cut in *. destruct (s_lim x); lia. }
    destruct (F x' z O' eq_refl eq_refl ltac:(discriminate) B) as (OZ & LZ & RZ). cbn in LZ, RZ. pose proof (proj2 OZ) as PZ. rewrite LZ in PZ. cbn in PZ.
    assert (EQ : s_pos z = s_pos x + n) by (unfold cut in PZ; destruct (s_lim x); lia).
    split; [|split].
    + destruct OZ as (V & _). split; [destruct V; split; try assumption; cbn; lia|]. cbn. unfold cut in *. destruct (s_lim x); lia.
    + reflexivity.
    + cbn. eexists. split; [split; [|reflexivity]|rewrite <- EQ; exact RZ]. unfold cut. destruct (s_lim x); reflexivity.
  - destruct (F x y O eq_refl eq_refl (fun _ => eq_refl) H) as (OY & LY & RY). split; [exact OY|]. split; [exact LY|]. exists (s_lim x). split; [reflexivity|exact RY].
Qed.

Definition prs (b : sym) := fun lim e i e' j => parsed P I lim b e i e' j.
Definition sound f b : Prop := forall x y : st E, inside b x -> ok x -> f x = Done y -> post (prs b) x y.
Lemma seq_post f l : (forall s, sound (f s) s) -> forall x y, (forall s, In s l -> inside s x) -> ok x -> seq f l x = Done y ->
  post (fun lim e i e' j => parsed_all P I lim l e i e' j) x y.
Proof.
  intros F. induction l as [|s l IH]; intros x y IN O H; cbn [seq] in H.
  - injection H as <-. split; [exact O|]. split; [reflexivity|]. constructor.
  - apply andthen_done in H. destruct H as (z & A & B). destruct (F s x z (IN s (or_introl eq_refl)) O A) as (O1 & L1 & R1).
    destruct (IH z y) as (O2 & L2 & R2); [intros t T; destruct (IN t (or_intror T)) as [Q | Q]; [left; exact Q|right; congruence]|exact O1|exact B|].
    split; [exact O2|]. split; [congruence|]. rewrite L1 in R2. econstructor; eassumption.
Qed.
Lemma item_done s x k y : item P s x k = Done y -> exists e b, p_item P s (s_env x) = Some (e, b) /\ k b (set_env x e) = Done y.
Proof. unfold item. destruct (p_item P s (s_env x)) as [[e b]|]; [|discriminate]. eauto. Qed.
Lemma inside_lim s x y : s_lim y = s_lim x -> inside s x -> inside s y.
Proof. intros L [Q | Q]; [left; exact Q|right; congruence]. Qed.
Lemma count_post f s b n : sound f b -> forall x y, inside b x -> ok x -> count P f s n x = Done y ->
  post (fun lim e i e' j => items P I lim s b (HCount n) e i e' j) x y.
Proof.
  intros F. induction n as [|n IH]; intros x y IN O H; cbn [count] in H.
  - injection H as <-. split; [exact O|]. split; [reflexivity|]. constructor. reflexivity.
  - apply andthen_done in H. destruct H as (z & A & B). destruct (F x z IN O A) as (O1 & L1 & R1). apply item_done in B. destruct B as (e & c & IT & B).
    assert (GO : may_go_on I (HCount (S n)) (s_lim x) (s_pos x) (HCount n)) by (exists n; auto). destruct c.
    + injection B as <-. split; [apply ok_set_env; exact O1|]. split; [exact L1|]. eapply it_stop; eassumption.
    + destruct (IH (set_env z e) y) as (O2 & L2 & R2); [apply (inside_lim b x); [exact L1|exact IN]|apply ok_set_env; exact O1|exact B|].
      split; [exact O2|]. cbn in L2, R2. split; [congruence|]. rewrite L1 in R2. eapply it_next; [exact GO|exact R1|exact IT|exact Logic.I|exact R2].
Qed.
Lemma progressed_done old x k y : ok x -> progressed I old x k = Done y ->
  exists x', k x' = Done y /\ ok x' /\ keeps x x' /\ (old <> s_pos x \/ (rest_at I (s_lim x) (s_pos x) = [] /\ ended I (s_lim x))).
Proof.
  intros O H. unfold progressed in H. destruct (Nat.eqb_spec (s_pos x) old) as [E0 | N].
  - destruct (at_eod I x) as [[b z]|] eqn:A; [|discriminate]. destruct (at_eod_inv _ _ _ O A) as (O1 & S1 & T & _). destruct b; [|discriminate].
    exists z. split; [exact H|]. split; [exact O1|]. split; [apply same_keeps; exact S1|]. right. destruct (T eq_refl) as (W & F). split; [exact W|apply ended_fin; exact F].
  - exists x. split; [exact H|]. split; [exact O|]. split; [apply keeps_refl|]. left. congruence.
Qed.
Lemma each_post f s b eo : sound f b -> forall m x y, inside b x -> ok x -> each P I m f s eo x = Done y ->
  post (fun lim e i e' j => items P I lim s b (HEach eo) e i e' j) x y.
Proof.
  intros F. induction m as [|m IH]; intros x y IN O H; cbn [each] in H; [discriminate|].
  assert (G : forall x, inside b x -> ok x -> (eo = true -> whole I x <> []) ->
    andthen (f x) (fun y0 => item P s y0 (fun stop y1 => if stop then Done y1 else progressed I (s_pos x) y1 (each P I m f s eo))) = Done y ->
    post (fun lim e i e' j => items P I lim s b (HEach eo) e i e' j) x y).
  { clear x IN O H. intros x IN O W H. apply andthen_done in H. destruct H as (z & A & B). destruct (F x z IN O A) as (O1 & L1 & R1). apply item_done in B. destruct B as (e & c & IT & B).
    assert (GO : may_go_on I (HEach eo) (s_lim x) (s_pos x) (HEach eo)) by (split; [reflexivity|exact W]). destruct c.
    - injection B as <-. split; [apply ok_set_env; exact O1|]. split; [exact L1|]. eapply it_stop; eassumption.
    - apply progressed_done in B; [|apply ok_set_env; exact O1]. destruct B as (x' & B & O2 & (K1 & K2 & K3) & M). cbn in K1, K2, K3, M. rewrite L1 in M.
      destruct (IH x' y) as (O3 & L3 & R3); [apply (inside_lim b x); [congruence|exact IN]|exact O2|exact B|].
      split; [exact O3|]. split; [congruence|]. rewrite <- K1, <- K2, <- K3, L1 in R3. eapply it_next; [exact GO|exact R1|exact IT|exact M|exact R3]. }
  destruct eo; [|apply G; [exact IN|exact O|discriminate|exact H]].
  destruct (at_eod I x) as [[c z]|] eqn:A; [|discriminate]. destruct (at_eod_inv _ _ _ O A) as (O1 & S1 & T & W). pose proof (same_keeps _ _ S1) as K. destruct c.
  - injection H as <-. destruct (T eq_refl) as (T1 & T2). split; [exact O1|]. destruct K as (K1 & K2 & K3). split; [congruence|]. rewrite <- K1, <- K3. constructor.
    split; [reflexivity|]. split; [exact T1|apply ended_fin; exact T2].
  - apply (post_keeps _ x z y K). apply G; [apply (inside_lim b x); [symmetry; apply K|exact IN]|exact O1| |exact H]. intros _.
    destruct (same_whole I x z S1) as (<- & _). apply W. reflexivity.
Qed.
Lemma while_post f s l1 ep l2 b : sound f b -> forall m x y, inside b x -> ok x -> while P I m f s l1 ep l2 x = Done y ->
  post (fun lim e i e' j => items P I lim s b HWhile e i e' j) x y.
Proof.
  intros F. induction m as [|m IH]; intros x0 y IN O H; cbn [while] in H; [discriminate|].
  destruct (wait_or_eod I 1 x0) as [[b0 z0]|] eqn:W; [|discriminate]. destruct (wait_inv _ _ _ _ O W) as (O1 & S1 & _). apply same_keeps in S1.
  apply andthen_done in H. destruct H as (x & LK & H). destruct (look_keeps _ _ _ O1 LK) as (O2 & K2). pose proof (keeps_trans _ _ _ S1 K2) as K. clear W LK S1 K2 O O1.
  apply (post_keeps _ x0 x y K). assert (IN2 : inside b x) by (apply (inside_lim b x0); [symmetry; apply K|exact IN]).
  assert (EX : Done x = Done y -> post (fun lim e i e' j => items P I lim s b HWhile e i e' j) x y).
  { intros Q. injection Q as <-. split; [exact O2|]. split; [reflexivity|]. constructor. exact Logic.I. }
  destruct (choose P l1 ep l2 (s_lah x)); [apply EX; exact H| |apply EX; exact H|discriminate].
  apply andthen_done in H. destruct H as (z & A & B). destruct (F x z IN2 O2 A) as (O3 & L3 & R3). apply item_done in B. destruct B as (e & c & IT & B). destruct c.
  - injection B as <-. split; [apply ok_set_env; exact O3|]. split; [exact L3|]. eapply it_stop; [reflexivity|eassumption|eassumption].
  - apply progressed_done in B; [|apply ok_set_env; exact O3]. destruct B as (x' & B & O4 & (K4 & K5 & K6) & M). cbn in K4, K5, K6, M. rewrite L3 in M.
    destruct (IH x' y) as (O5 & L5 & R5); [apply (inside_lim b x); [congruence|exact IN2]|exact O4|exact B|].
    split; [exact O5|]. split; [congruence|]. rewrite <- K4, <- K5, <- K6, L3 in R5. eapply it_next; [reflexivity|exact R3|exact IT|exact M|exact R5].
Qed.
Lemma inside_child s p rhs c x : p_prod P s = Some p -> In rhs (rhss p) -> In c rhs -> inside s x -> inside c x.
Proof. intros FP R C [Q | Q]; [left; eapply (zn_child _ _ ZN); eassumption|right; exact Q]. Qed.
Lemma post_imp (R R' : option nat -> E -> nat -> E -> nat -> Prop) x y : (forall lim e i e' j, R lim e i e' j -> R' lim e i e' j) -> post R x y -> post R' x y.
Proof. intros H (A & B & C). split; [exact A|]. split; [exact B|]. apply H. exact C. Qed.
Lemma step_post m f s p : (forall s, sound (f s) s) -> p_prod P s = Some p -> forall x y, inside s x -> ok x -> step P I m f s p x = Done y ->
  post (fun lim e i e' j => body P I lim s p e i e' j) x y.
Proof.
  intros F FP x y IN O H. assert (CH : forall rhs c, In rhs (rhss p) -> In c rhs -> inside c x) by (intros; eapply inside_child; eassumption).
  destruct p as [ps|a b|cs d|ps es|b|l1|c| |l|c l|ty]; cbn [step] in H.
  - apply seq_post in H; [|exact F|intros t T; apply (CH ps); [left; reflexivity|exact T]|exact O]. eapply post_imp; [|exact H]. intros. constructor. assumption.
  - apply andthen_done in H. destruct H as (z & LK & H). destruct (look_keeps _ _ _ O LK) as (O2 & K). apply (post_keeps _ x z y K).
    assert (CZ : forall rhs c, In rhs (rhss (PLook a b)) -> In c rhs -> inside c z) by (intros; apply (inside_lim _ x); [symmetry; apply K|eapply CH; eassumption]).
    destruct (choose P s a b (s_lah z)); try discriminate.
    + apply F in H; [|apply (CZ [a]); cbn; auto|exact O2]. eapply post_imp; [|exact H]. intros. apply bd_first. assumption.
    + apply F in H; [|apply (CZ [b]); cbn; auto|exact O2]. eapply post_imp; [|exact H]. intros. apply bd_second. assumption.
  - destruct (p_case P s (s_env x)) as [i|] eqn:PC.
    + destruct (nth_error cs i) as [c|] eqn:N; [|discriminate]. apply F in H; [|apply (CH [c]); [cbn; apply in_app_iff; left; apply in_map_iff; exists c; split; [reflexivity|eapply nth_error_In; exact N]|left; reflexivity]|exact O].
      destruct H as (A & B & C). split; [exact A|]. split; [exact B|]. eapply bd_case; eassumption.
    + destruct d as [c|]; [|discriminate]. apply F in H; [|apply (CH [c]); [cbn; apply in_app_iff; right; left; reflexivity|left; reflexivity]|exact O].
      destruct H as (A & B & C). split; [exact A|]. split; [exact B|]. eapply bd_default; eassumption.
  - apply seq_post in H; [|exact F|intros t T; apply (CH ps); [left; reflexivity|exact T]|exact O]. eapply post_imp; [|exact H]. intros. apply bd_block. assumption.
  - assert (IB : inside b x) by (apply (CH [b]); left; reflexivity). destruct (p_loop P s) as [n|eo] eqn:PL.
    + apply (count_post _ _ b) in H; [|apply F|exact IB|exact O]. destruct H as (A & B & C). split; [exact A|]. split; [exact B|]. eapply bd_count; eassumption.
    + apply (each_post _ _ b) in H; [|apply F|exact IB|exact O]. destruct H as (A & B & C). split; [exact A|]. split; [exact B|]. eapply bd_each; eassumption.
  - destruct (p_prod P l1) as [[]|] eqn:F1; try discriminate. destruct (p_prod P b) as [[[|c0 ps]| | | | | | | | | |]|] eqn:F2; try discriminate.
    assert (IB : inside c0 x).
    { eapply inside_child; [exact F2|left; reflexivity|left; reflexivity|]. eapply inside_child; [exact F1|right; left; reflexivity|left; reflexivity|]. apply (CH [l1]); left; reflexivity. }
    apply (while_post _ _ _ _ _ c0) in H; [|apply F|exact IB|exact O]. eapply post_imp; [|exact H]. intros. eapply bd_while; eassumption.
  - apply F in H; [|apply (CH [c]); left; reflexivity|exact O]. eapply post_imp; [|exact H]. intros. constructor. assumption.
  - injection H as <-. split; [exact O|]. split; [reflexivity|]. constructor.
  - apply literal_post in H; [|exact IN|unfold lit_of; rewrite FP; reflexivity|exact O]. eapply post_imp; [|exact H]. intros lim e i e' j (w & A & B & ->). eapply bd_ctor; eassumption.
  - apply literal_post in H; [|exact IN|unfold lit_of; rewrite FP; reflexivity|exact O]. eapply post_imp; [|exact H]. intros lim e i e' j (w & A & B & ->). eapply bd_skip; eassumption.
  - apply variable_post in H; [|exact O]. eapply post_imp; [|exact H]. intros lim e i e' j (n & A & B & ->). eapply bd_var; eassumption.
Qed.
Lemma parse_post m : forall s, sound (parse P I m s) s.
Proof.
  induction m as [|m IH]; intros s x y IN O H; cbn [parse] in H; [discriminate|]. destruct (p_prod P s) as [p|] eqn:FP; [|discriminate].
  assert (INS : forall x', (p_size P s (s_env x) = None -> s_lim x' = s_lim x) -> inside s x').
  { intros x' L. destruct (p_size P s (s_env x)) eqn:SZ; [left; eapply (zn_size _ _ ZN); rewrite SZ; discriminate|]. apply (inside_lim s x); [apply L; reflexivity|exact IN]. }
  destruct (p_cond P s (s_env x)) eqn:CN.
  - destruct (p_call P s) as [r|] eqn:CL.
    + apply (sized_post (prs r)) in H; [|exact O|].
      * destruct H as (A & B & lim' & C & D). split; [exact A|]. split; [exact B|]. eapply pd_unit; eassumption.
      * intros x' y' O' _ _ L H'. apply (IH r x' y'); [|exact O'|exact H'].
        destruct (INS x' L) as [Q | Q]; [left; eapply (zn_call _ _ ZN); eassumption|right; exact Q].
    + apply (sized_post (fun lim e i e' j => body P I lim s p e i e' j)) in H; [|exact O|].
      * destruct H as (A & B & lim' & C & D). split; [exact A|]. split; [exact B|]. eapply pd_body; eassumption.
      * intros x' y' O' _ _ L H'. apply (step_post m (parse P I m) s p IH FP x' y'); [apply INS; exact L|exact O'|exact H'].
  - assert (AB : (forall ps es, p <> PBlock ps es) -> Done x = Done y -> post (prs s) x y).
    { intros NB Q. injection Q as <-. split; [exact O|]. split; [reflexivity|]. eapply pd_absent; eassumption. }
    destruct p as [ps|a b|cs d|ps es|b|l1|c| |l|c l|ty]; try (apply AB; [congruence|exact H]).
    apply (sized_post (fun lim e i e' j => parsed_all P I lim es e i e' j)) in H; [|exact O|].
    + destruct H as (A & B & lim' & C & D). split; [exact A|]. split; [exact B|]. eapply pd_else; eassumption.
    + intros x' y' O' _ _ L H'. apply (seq_post (parse P I m) es IH x' y'); [|exact O'|exact H']. intros t T.
      eapply inside_child; [exact FP| |exact T|apply INS; exact L]. cbn. destruct es; [destruct T|right; left; reflexivity].
Qed.
End S.
