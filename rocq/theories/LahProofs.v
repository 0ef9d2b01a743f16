(** The run of a parser does not depend on how its input arrives. *)
From Verif Require Import Base GrammarModel LahModel LahSpec.

Lemma skipn_firstn_prefix {A} i a b (l : list A) : a <= b -> exists t, skipn i (firstn b l) = skipn i (firstn a l) ++ t.
Proof.
  intros H. exists (skipn (i - length (firstn a l)) (skipn a (firstn b l))).
  rewrite <- (firstn_skipn a (firstn b l)) at 1. rewrite firstn_firstn, Nat.min_l by exact H. apply skipn_app.
Qed.
Lemma firstn_app_prefix {A} n (l t : list A) : n <= length l -> firstn n (l ++ t) = firstn n l.
Proof. intros H. rewrite firstn_app. replace (n - length l) with 0 by lia. cbn. apply app_nil_r. Qed.
Lemma firstn_app_le {A} a (l m : list A) : a <= length l -> firstn a (l ++ m) = firstn a l.
Proof. apply firstn_app_prefix. Qed.

Section S.
Context {E : Type} (P : prog E).

Definition whole (I : input) (x : st E) : bytes := rest_at I (s_lim x) (s_pos x).
Definition fin (I : input) (x : st E) : bool := ended_b I (s_lim x).
Lemma whole_cut I x : whole I x = skipn (s_pos x) (firstn (cut (s_lim x) (length (i_data I))) (i_data I)).
Proof.
  unfold whole, rest_at, cut. destruct (s_lim x) as [l|]; [|rewrite firstn_all; reflexivity].
  destruct (Nat.le_ge_cases l (length (i_data I))) as [H | H]; [rewrite Nat.min_l by exact H; reflexivity|].
  rewrite Nat.min_r by exact H. rewrite firstn_all, firstn_all2 by exact H. reflexivity.
Qed.

(** What holds of every state that is reached. *)
Record inv (I : input) (x : st E) : Prop := mkInv {
  iv_arr : s_arr x <= length (i_data I);
  iv_pos : s_pos x <= length (i_data I);
  iv_lahe : s_lahe x <= length (i_data I);
  iv_frozen : s_frozen x = true -> i_closed I = true /\ s_arr x = length (i_data I) /\ s_sched x = [] }.

Lemma avail_whole I x : inv I x -> exists t, whole I x = avail I x ++ t.
Proof.
  intros V. rewrite whole_cut. unfold avail. apply skipn_firstn_prefix. pose proof (iv_arr _ _ V). unfold cut. destruct (s_lim x); lia.
Qed.
Lemma avail_complete I x : inv I x -> view_complete x = true -> whole I x = avail I x /\ fin I x = true.
Proof.
  intros V H. rewrite whole_cut. unfold avail, fin, ended_b, view_complete in *. apply orb_true_iff in H. destruct H as [H | H].
  - destruct (iv_frozen _ _ V H) as (A & B & _). rewrite A, B. auto.
  - pose proof (iv_arr _ _ V). destruct (s_lim x) as [l|]; [|discriminate]. apply Nat.leb_le in H. unfold cut. rewrite !Nat.min_l by lia.
    split; [reflexivity|]. apply orb_true_iff. right. apply Nat.leb_le. lia.
Qed.
Lemma avail_last I x : inv I x -> pull I x = None -> whole I x = avail I x /\ fin I x = view_complete x.
Proof.
  intros V H. unfold pull in H. destruct (s_sched x); [|discriminate]. destruct (Nat.ltb_spec (s_arr x) (length (i_data I))) as [L | L]; [discriminate|].
  pose proof (iv_arr _ _ V) as A. assert (EQ : s_arr x = length (i_data I)) by lia.
  rewrite whole_cut. unfold avail, fin, ended_b, view_complete. rewrite EQ. split; [reflexivity|]. f_equal.
  destruct (i_closed I) eqn:C; cbn [andb] in H; destruct (s_frozen x) eqn:F; try discriminate; try reflexivity.
  destruct (iv_frozen _ _ V F) as (B & _). congruence.
Qed.
(** The parts of the state that do not depend on the arrival of input. *)
Definition same (x y : st E) : Prop := s_pos x = s_pos y /\ s_lim x = s_lim y /\ s_lah x = s_lah y /\ s_lahe x = s_lahe y /\ s_env x = s_env y.
Lemma same_refl x : same x x. Proof. repeat split. Qed.
Lemma same_sym x y : same x y -> same y x. Proof. unfold same. intuition congruence. Qed.
Lemma same_trans x y z : same x y -> same y z -> same x z. Proof. unfold same. intuition congruence. Qed.
Lemma same_whole I x y : same x y -> whole I x = whole I y /\ fin I x = fin I y.
Proof. intros (A & B & _). unfold whole, fin. rewrite A, B. auto. Qed.
Lemma pull_ok I x y : inv I x -> pull I x = Some y -> inv I y /\ same x y.
Proof.
  intros V H. unfold pull in H. destruct (s_sched x) as [|k ks] eqn:ES.
  - destruct (Nat.ltb_spec (s_arr x) (length (i_data I))) as [L | L].
    + injection H as <-. split; [|repeat split]. destruct V. split; cbn; try assumption; try lia.
    + destruct (i_closed I && negb (s_frozen x)) eqn:C; [|discriminate]. injection H as <-. apply andb_true_iff in C. destruct C as (C & _).
      split; [|repeat split]. destruct V. split; cbn; try assumption. intros _. repeat split; [exact C|lia].
  - injection H as <-. split; [|repeat split]. destruct V. split; cbn; try assumption; try lia. intros F. destruct (iv_frozen0 F) as (_ & _ & B). congruence.
Qed.
(** How often input can still arrive. *)
Definition left (I : input) (x : st E) : nat :=
  length (s_sched x) + (if Nat.ltb (s_arr x) (length (i_data I)) then 1 else 0) + (if s_frozen x then 0 else 1).
Lemma pull_left I x y : pull I x = Some y -> left I y < left I x.
Proof.
  unfold pull, left. destruct (s_sched x) as [|k ks].
  - destruct (Nat.ltb_spec (s_arr x) (length (i_data I))) as [L | L].
    + intros H. injection H as <-. cbn [s_sched s_arr s_frozen length]. rewrite Nat.ltb_irrefl. destruct (s_frozen x); lia.
    + destruct (i_closed I && negb (s_frozen x)) eqn:C; [|discriminate]. intros H. injection H as <-. cbn [s_sched s_arr s_frozen length]. apply andb_true_iff in C. destruct C as (_ & C).
      apply negb_true_iff in C. rewrite C. destruct (Nat.ltb_spec (s_arr x) (length (i_data I))); lia.
  - intros H. injection H as <-. cbn [s_sched s_arr s_frozen length].
    destruct (Nat.ltb_spec (Nat.min (s_arr x + k) (length (i_data I))) (length (i_data I))); destruct (Nat.ltb_spec (s_arr x) (length (i_data I))); destruct (s_frozen x); lia.
Qed.

(** Leaf functions that do not change their mind. *)
Definition stable {A} (f : bytes -> bool -> option A) : Prop := forall av a more c, f av false = Some a -> f (av ++ more) c = Some a.
Lemma retry_loop_spec {A} I (f : bytes -> bool -> option A) n : stable f -> forall x, inv I x -> left I x <= n ->
  match f (whole I x) (fin I x) with
  | Some a => exists y, retry_loop I n f x = Some (a, y) /\ inv I y /\ same x y /\ f (avail I y) (view_complete y) = Some a
  | None => retry_loop I n f x = None
  end.
Proof.
  intros ST. induction n as [|n IH]; intros x V L.
  all: cbn [retry_loop]; destruct (f (avail I x) (view_complete x)) as [a|] eqn:F.
  1, 3: assert (W : f (whole I x) (fin I x) = Some a);
    [destruct (view_complete x) eqn:C; [destruct (avail_complete I x V C) as (-> & ->); exact F|]; destruct (avail_whole I x V) as (t & ->); apply ST; exact F
    |rewrite W; exists x; auto using same_refl].
  - destruct (pull I x) as [y|] eqn:PU; [exfalso; pose proof (pull_left _ _ _ PU); lia|].
    destruct (avail_last I x V PU) as (-> & ->). rewrite F. reflexivity.
  - destruct (pull I x) as [y|] eqn:PU.
    + destruct (pull_ok _ _ _ V PU) as (V' & S'). destruct (same_whole I x y S') as (-> & ->). assert (K : left I y <= n) by (pose proof (pull_left _ _ _ PU); lia).
      specialize (IH y V' K). destruct (f (whole I y) (fin I y)) as [a|]; [|exact IH]. destruct IH as (z & R & V2 & S2 & FZ).
      exists z. split; [exact R|]. split; [exact V2|]. split; [eapply same_trans; eauto|exact FZ].
    + destruct (avail_last I x V PU) as (-> & ->). rewrite F. reflexivity.
Qed.
Lemma retry_spec {A} I (f : bytes -> bool -> option A) x : stable f -> inv I x ->
  match f (whole I x) (fin I x) with
  | Some a => exists y, retry I f x = Some (a, y) /\ inv I y /\ same x y /\ f (avail I y) (view_complete y) = Some a
  | None => retry I f x = None
  end.
Proof.
  intros ST V. apply retry_loop_spec; [exact ST|exact V|]. unfold left. destruct (Nat.ltb _ _), (s_frozen x); lia.
Qed.

Definition wait_f (n : nat) (av : bytes) (c : bool) : option bool := if Nat.leb n (length av) then Some true else if c then Some false else None.
Lemma wait_stable n : stable (wait_f n).
Proof. intros av a more c. unfold wait_f. rewrite app_length. destruct (Nat.leb_spec n (length av)); [|discriminate]. intros H1. destruct (Nat.leb_spec n (length av + length more)); [exact H1|lia]. Qed.

(** Inputs: the same, or a longer one. *)
Definition extends (I I' : input) : Prop := I = I' \/ (i_closed I = false /\ exists more, i_data I' = i_data I ++ more).
Lemma rest_extends I I' lim i : extends I I' -> i <= length (i_data I) ->
  (rest_at I' lim i = rest_at I lim i /\ ended_b I' lim = ended_b I lim) \/ (ended_b I lim = false /\ exists t, rest_at I' lim i = rest_at I lim i ++ t).
Proof.
  intros [<- | (C & m & D)] L; [left; auto|]. unfold rest_at, ended_b. rewrite C, D. destruct lim as [l|]; cbn [orb].
  - destruct (Nat.leb_spec l (length (i_data I))) as [K | K].
    + left. rewrite firstn_app_le by exact K. split; [reflexivity|]. rewrite app_length. apply orb_true_iff. right. apply Nat.leb_le. lia.
    + right. split; [reflexivity|]. rewrite (firstn_all2 (i_data I)) by lia. rewrite firstn_app, (firstn_all2 (i_data I)) by lia. rewrite skipn_app.
      replace (i - length (i_data I)) with 0 by lia. rewrite skipn_O. eauto.
  - right. split; [reflexivity|]. rewrite skipn_app. replace (i - length (i_data I)) with 0 by lia. rewrite skipn_O. eauto.
Qed.

(** Two runs, [x] on [I] and [y] on [I']. *)
Definition sim (I I' : input) (x y : st E) : Prop := inv I x /\ inv I' y /\ same x y.
Definition rel (I I' : input) (r r' : result E) : Prop :=
  match r with
  | Done x => exists y, r' = Done y /\ sim I I' x y
  | Fail => r' = Fail
  | NoFuel => r' = NoFuel
  | Suspended => I = I' -> r' = Suspended
  end.

Lemma rel_andthen I I' r r' k k' : rel I I' r r' -> (forall x y, sim I I' x y -> rel I I' (k x) (k' y)) -> rel I I' (andthen r k) (andthen r' k').
Proof.
  intros R K. destruct r as [x| | |]; cbn [rel] in R; cbn [andthen].
  - destruct R as (y & -> & SM). apply K. exact SM.
  - rewrite R. reflexivity.
  - cbn [rel]. intros EQ. rewrite (R EQ). reflexivity.
  - rewrite R. reflexivity.
Qed.
(** Waiting, then continuing with the answer. *)
Lemma rel_retry {A} I I' (f : bytes -> bool -> option A) x y k k' d d' : extends I I' -> stable f -> sim I I' x y ->
  (forall a x' y', sim I I' x' y' -> same x x' -> f (avail I x') (view_complete x') = Some a -> f (avail I' y') (view_complete y') = Some a ->
     f (whole I x) (fin I x) = Some a -> rel I I' (k a x') (k' a y')) ->
  (d = Suspended /\ d' = Suspended) ->
  rel I I' (match retry I f x with Some (a, x') => k a x' | None => d end) (match retry I' f y with Some (a, y') => k' a y' | None => d' end).
Proof.
  intros EX ST (VX & VY & SA) K (-> & ->). pose proof (retry_spec I f x ST VX) as RX. pose proof (retry_spec I' f y ST VY) as RY.
  assert (W : forall a, f (whole I x) (fin I x) = Some a -> f (whole I' y) (fin I' y) = Some a).
  { intros a F. destruct (same_whole I' x y SA) as (<- & <-). unfold whole, fin in *.
    destruct (rest_extends I I' (s_lim x) (s_pos x) EX (iv_pos _ _ VX)) as [(-> & ->) | (C & t & ->)]; [exact F|]. rewrite C in F. apply ST. exact F. }
  destruct (f (whole I x) (fin I x)) as [a|] eqn:F.
  - specialize (W a eq_refl). rewrite W in RY. destruct RX as (x' & -> & V1 & S1 & F1). destruct RY as (y' & -> & V2 & S2 & F2).
    apply K; try assumption; try reflexivity. split; [exact V1|]. split; [exact V2|]. eapply same_trans; [apply same_sym; exact S1|]. eapply same_trans; [exact SA|exact S2].
  - rewrite RX. cbn [rel]. intros <-. destruct (same_whole I x y SA) as (E1 & E2). rewrite <- E1, <- E2, F in RY. rewrite RY. reflexivity.
Qed.
End S.
