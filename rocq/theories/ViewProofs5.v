(** Proofs about find(Byte) and find(View). *)
From Verif Require Import Base StreamModel StreamSpec StreamProofs StreamProofs2 ViewModel ViewSpec ViewProofs ViewProofs2 ViewProofs3 ViewProofs4.

(** What is known about a view and a start position. *)
Record at_start (ch : chain) (v : view) (w : list cell) (n : option iter) (st : nat) (ue : uit) : Prop := {
  as_wf : wf ch;
  as_valid : ch_is_valid ch = true;
  as_ensure : v_ensure_valid ch v = Ok tt;
  as_start : (match n with None => v_ubegin ch v | Some n => u_of_safe ch n end) = Ok (U ch st);
  as_end : v_uend ch v = Ok ue;
  as_win : w = win ch st (u_off ue);
  as_range : okrange ch st (u_off ue) }.

Lemma view_start os ch q v lo hi n st : view_at os ch q v lo hi -> q_begin q <= lo -> ordered lo hi ->
  start_ok os q n lo hi st ->
  exists ue, at_start ch v (window q st hi) n st ue /\ u_off ue = match hi with Some h => h | None => q_end q end.
Proof.
  intros H Hlo Ho Hs. pose proof (view_facts _ _ _ _ _ _ H) as F.
  pose proof (vf_wf _ _ _ _ _ F) as W. pose proof (vf_valid _ _ _ _ _ F) as V. pose proof (vf_good _ _ _ _ _ F) as G.
  pose proof (facts_range _ _ _ _ _ F Hlo Ho) as R.
  assert (Hst : q_begin q <= st) by (destruct n; cbn in Hs; [lia|subst; exact Hlo]).
  destruct (uend_ok ch v W V G) as (ue & Eu & Hue & _). exists ue.
  assert (Hq : u_off ue = match hi with Some h => h | None => q_end q end).
  { rewrite Hue. unfold vhi. rewrite (vf_end _ _ _ _ _ F). destruct hi; [reflexivity|]. symmetry. apply (vf_qend _ _ _ _ _ F). }
  split; [|exact Hq].
  assert (Hi : (match n with None => v_ubegin ch v | Some n => u_of_safe ch n end) = Ok (U ch st) /\ okrange ch st (vhi ch v)).
  { destruct n as [i|]; cbn in Hs.
    - destruct Hs as (Hh & H1 & H2). destruct (holds_good (fst (run client_new os)) q i st) as [Gi Oi]; auto.
      { destruct H as [Hc -> -> Ha _ _]. apply (run_sim os _ _ sim_new Hc). }
      { apply H. }
      assert (Gi' : good ch i) by (rewrite (va_chain _ _ _ _ _ _ H); exact Gi).
      split; [rewrite (u_of_safe_ok ch i W V Gi'), Oi; reflexivity|].
      destruct (vrange_ok ch v W R) as [H3 H4]. rewrite (vf_off _ _ _ _ _ F) in H3. split; [lia|].
      pose proof (vf_end _ _ _ _ _ F) as Ee. unfold vhi. rewrite Ee. unfold v_end_off in Ee.
      destruct (v_end v) as [e|]; cbn in Ee; subst hi; [left; exact H2|right; lia].
    - subst st. rewrite <- (vf_off _ _ _ _ _ F). split; [apply ubegin_ok; assumption|apply vrange_ok; assumption]. }
  constructor; auto.
  - apply ensure_ok; [exact V|apply R].
  - apply Hi.
  - rewrite Hue. apply (window_win_at _ _ _ _ _ _ F Hst).
  - rewrite Hue. apply Hi.
Qed.

Lemma find_byte_ok ch ue b : forall fuel lo, wf ch -> ch_is_valid ch = true -> okrange ch lo (u_off ue) ->
  ch_end ch - lo < fuel ->
  rmap u_off (find_byte_loop fuel ch ue b (U ch lo)) = byte_cells (win ch lo (u_off ue)) b lo (u_off ue).
Proof.
  induction fuel as [|f IH]; intros lo W V R Hf; [lia|]. cbn [find_byte_loop].
  destruct (loop_head ch lo ue W R) as [(-> & -> & _)|(-> & Hlt & R' & d & -> & _ & ->)]; [reflexivity|].
  destruct d as [x|]; cbn [bind byte_cells]; [|reflexivity].
  destruct (Z.eqb x b); [reflexivity|].
  rewrite (u_incr_U _ _ _ W V). cbn [bind]. rewrite Nat.add_1_r. apply IH; auto. lia.
Qed.

Lemma find_byte_spec os ch q v lo hi b n st : view_at os ch q v lo hi -> q_begin q <= lo -> ordered lo hi ->
  start_ok os q n lo hi st ->
  v_find_byte ch v b n = byte_cells (window q st hi) b st (match hi with Some h => h | None => q_end q end).
Proof.
  intros H Hlo Ho Hs. destruct (view_start os ch q v lo hi n st H Hlo Ho Hs) as (ue & A & Hue).
  unfold v_find_byte. rewrite (as_ensure _ _ _ _ _ _ A). cbn [bind]. rewrite (as_start _ _ _ _ _ _ A), (as_end _ _ _ _ _ _ A). cbn [bind].
  rewrite <- Hue, (as_win _ _ _ _ _ _ A).
  rewrite <- (find_byte_ok ch ue b (S (ch_end ch - u_off (U ch st))) st (as_wf _ _ _ _ _ _ A) (as_valid _ _ _ _ _ _ A) (as_range _ _ _ _ _ _ A)) by (cbn [u_off U]; lia).
  destruct (find_byte_loop _ ch ue b (U ch st)); reflexivity.
Qed.

Lemma byte_cells_bytes b e : forall bs lo,
  byte_cells (map CByte bs) b lo e = Ok e /\ ~ In b bs \/
  exists k, byte_cells (map CByte bs) b lo e = Ok (lo + k) /\ nth_error bs k = Some b /\ ~ In b (firstn k bs).
Proof.
  induction bs as [|x bs IH]; intros lo; cbn [map byte_cells].
  - left. split; [reflexivity|intros []].
  - destruct (Z.eqb_spec x b) as [->|Hx].
    + right. exists 0. rewrite Nat.add_0_r. repeat split. intros [].
    + destruct (IH (S lo)) as [[E Hn]|(k & E & Ek & Hn)].
      * left. split; [exact E|]. intros [->|Hi]; [congruence|contradiction].
      * right. exists (S k). rewrite Nat.add_succ_r. cbn [Nat.add] in E. split; [exact E|]. split; [exact Ek|].
        cbn [firstn]. intros [->|Hi]; [congruence|contradiction].
Qed.

Lemma find_byte_declarative os ch q v lo hi b n st bs : view_at os ch q v lo hi -> q_begin q <= lo -> ordered lo hi ->
  start_ok os q n lo hi st -> no_gap (window q st hi) bs ->
  (v_find_byte ch v b n = Ok (match hi with Some h => h | None => q_end q end) /\ ~ In b bs) \/
  exists k, v_find_byte ch v b n = Ok (st + k) /\ nth_error bs k = Some b /\ ~ In b (firstn k bs).
Proof.
  intros H Hlo Ho Hs Hg. rewrite (find_byte_spec os ch q v lo hi b n st H Hlo Ho Hs). rewrite !Hg. apply byte_cells_bytes.
Qed.

(** *** find(View) *)
Definition mv (m : mvres) : mres := match m with MVFull => MFull | MVEnd => MEnd | MVNo => MNo end.

Lemma match_view_ok ch ch2 ue ue2 : forall fuel bs x y, wf ch -> ch_is_valid ch = true -> wf ch2 -> ch_is_valid ch2 = true ->
  okrange ch x (u_off ue) -> okrange ch2 y (u_off ue2) -> win ch2 y (u_off ue2) = map CByte bs -> bs <> [] ->
  ch_end ch2 - y < fuel ->
  rmap mv (match_view_loop fuel ch ch2 ue ue2 (U ch x) (U ch2 y)) = cmp_cells (win ch x (u_off ue)) bs.
Proof.
  induction fuel as [|f IH]; intros bs x y W V W2 V2 R R2 Hw Hbs Hf; [lia|]. cbn [match_view_loop].
  destruct bs as [|c bs]; [congruence|]. cbn [cmp_cells].
  destruct (loop_head ch x ue W R) as [(-> & -> & _)|(-> & Hlt & R' & d & -> & _ & ->)]; [reflexivity|].
  destruct d as [b|]; cbn [bind]; [|reflexivity].
  rewrite (u_incr_U _ _ _ W V). cbn [bind].
  destruct (loop_head ch2 y ue2 W2 R2) as [(_ & E & _)|(_ & Hlt2 & R2' & d & E & _ & ->)]; rewrite E in Hw; [discriminate|].
  cbn [map] in Hw. injection Hw as -> Hw. cbn [bind]. rewrite (u_incr_U _ _ _ W2 V2). cbn [bind]. rewrite !Nat.add_1_r.
  cbn [cmp_cells]. destruct (Z.eqb b c); cbn [negb]; [|reflexivity].
  destruct (loop_head ch2 (S y) ue2 W2 R2') as [(-> & E2 & _)|(-> & Hlt3 & R3 & d & E2 & _ & _)].
  - rewrite E2 in Hw. destruct bs; [|discriminate]. destruct (win ch (S x) (u_off ue)); reflexivity.
  - apply IH; auto; [|lia]. intros ->. rewrite E2 in Hw. discriminate.
Qed.

Lemma find_view_ok ch ch2 ue ue2 first y ub2 : forall fuel lo, wf ch -> ch_is_valid ch = true -> wf ch2 -> ch_is_valid ch2 = true ->
  okrange ch lo (u_off ue) -> okrange ch2 ub2 (u_off ue2) -> win ch2 ub2 (u_off ue2) = map CByte (first :: y) ->
  ch_end ch - lo < fuel ->
  find_view_loop fuel ch ch2 ue ue2 first (U ch2 ub2) (U ch lo) =
  rmap (fun r => (fst r, U ch (snd r))) (search_cells (win ch lo (u_off ue)) (first :: y) lo).
Proof.
  induction fuel as [|f IH]; intros lo W V W2 V2 R R2 Hw Hf; [lia|]. cbn [find_view_loop].
  destruct (loop_head ch lo ue W R) as [(-> & -> & _)|(-> & Hlt & R' & d & Ew & _ & ->)]; [reflexivity|].
  destruct d as [b|]; cbn [bind].
  2:{ rewrite Ew. reflexivity. }
  destruct (Z.eqb b first) eqn:Eb; cbn [negb].
  - pose proof (match_view_ok ch ch2 ue ue2 (S (ch_end ch2 - u_off (U ch2 ub2))) (first :: y) lo ub2 W V W2 V2 R R2 Hw) as Hm.
    specialize (Hm ltac:(discriminate) ltac:(cbn [u_off U]; lia)).
    rewrite Ew in Hm |- *. cbn [search_cells]. rewrite <- Hm.
    destruct (match_view_loop _ ch ch2 ue ue2 _ _) as [[| |]|e|]; cbn [bind rmap mv fst snd]; try reflexivity.
    rewrite (u_incr_U _ _ _ W V). cbn [bind]. rewrite Nat.add_1_r. apply IH; auto. lia.
  - rewrite Ew. cbn [search_cells cmp_cells]. rewrite Eb. cbn [bind].
    rewrite (u_incr_U _ _ _ W V). cbn [bind]. rewrite Nat.add_1_r. apply IH; auto. lia.
Qed.

Lemma find_view_spec os ch q v lo hi n st os2 ch2 q2 v2 lo2 hi2 needle :
  view_at os ch q v lo hi -> q_begin q <= lo -> ordered lo hi -> start_ok os q n lo hi st ->
  view_at os2 ch2 q2 v2 lo2 hi2 -> q_begin q2 <= lo2 -> ordered lo2 hi2 -> no_gap (window q2 lo2 hi2) needle ->
  v_find_view ch v ch2 v2 n = v_find ch v needle n.
Proof.
  intros H Hlo Ho Hs H2 Hlo2 Ho2 Hg. rewrite (find_spec os ch q v lo hi needle n st H Hlo Ho Hs).
  destruct (view_start os ch q v lo hi n st H Hlo Ho Hs) as (ue & A & _).
  destruct (view_start os2 ch2 q2 v2 lo2 hi2 None lo2 H2 Hlo2 Ho2 eq_refl) as (ue2 & A2 & _).
  pose proof (view_facts _ _ _ _ _ _ H2) as F2.
  unfold v_find_view. rewrite (as_ensure _ _ _ _ _ _ A). cbn [bind].
  change (u_of_safe ch (v_begin v)) with (v_ubegin ch v). rewrite (as_start _ _ _ _ _ _ A). cbn [bind].
  pose proof (as_win _ _ _ _ _ _ A2) as W2. pose proof (as_win _ _ _ _ _ _ A) as W1. rewrite Hg in W2.
  assert (Hsz : v_size ch2 v2 = length needle).
  { rewrite (v_size_ok ch2 v2 (as_wf _ _ _ _ _ _ A2) (facts_range _ _ _ _ _ F2 Hlo2 Ho2)).
    rewrite (vf_off _ _ _ _ _ F2), <- (window_win_at _ _ _ _ _ _ F2 Hlo2), Hg. apply map_length. }
  rewrite Hsz. destruct needle as [|c y].
  - cbn [length Nat.eqb u_off U]. destruct (window q st hi); reflexivity.
  - cbn [length Nat.eqb]. rewrite (as_start _ _ _ _ _ _ A2 : v_ubegin ch2 v2 = _). cbn [bind].
    destruct (loop_head ch2 lo2 ue2 (as_wf _ _ _ _ _ _ A2) (as_range _ _ _ _ _ _ A2)) as [(_ & E & _)|(_ & _ & _ & d & E & _ & ->)];
      rewrite E in W2; [discriminate|]. cbn [map] in W2. injection W2 as <- W2. cbn [bind].
    rewrite (as_end _ _ _ _ _ _ A), (as_end _ _ _ _ _ _ A2). cbn [bind].
    rewrite (find_view_ok ch ch2 ue ue2 c y lo2 _ st (as_wf _ _ _ _ _ _ A) (as_valid _ _ _ _ _ _ A) (as_wf _ _ _ _ _ _ A2)
      (as_valid _ _ _ _ _ _ A2) (as_range _ _ _ _ _ _ A) (as_range _ _ _ _ _ _ A2)).
    + rewrite W1. destruct (search_cells _ _ _) as [[? ?]|e|]; reflexivity.
    + rewrite E, <- W2. reflexivity.
    + cbn [u_off U]. lia.
Qed.
