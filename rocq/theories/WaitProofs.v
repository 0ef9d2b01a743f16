From Verif Require Import Base StreamModel StreamSpec StreamProofs StreamProofs2 ViewModel ViewSpec
  ViewProofs ViewProofs2 ViewProofs3 ViewProofs4 WaitModel WaitSpec.

(** *** What the host does *)
Lemma produce_step s p : fst (step s (to_op p)) = mkClient (produce (cl_chain s) p) (cl_its s).
Proof. destruct p; reflexivity. Qed.
Lemma produce_run b : forall s, fst (run s (map to_op b)) = mkClient (apply_batch (cl_chain s) b) (cl_its s).
Proof.
  induction b as [|p b IH]; intros s; [destruct s; reflexivity|].
  cbn [map run]. pose proof (produce_step s p) as E. destruct (step s (to_op p)) as [s1 r]. cbn [fst] in E. subst s1.
  specialize (IH (mkClient (produce (cl_chain s) p) (cl_its s))). destruct (run _ (map to_op b)). cbn [fst] in *. exact IH.
Qed.
Lemma produce_contract b : forall q, contract q (map to_op b) = true.
Proof. induction b as [|p b IH]; intros q; [reflexivity|]. cbn [map contract]. rewrite IH. destruct p; reflexivity. Qed.

(** Cells the host adds, and whether the stream is frozen afterwards. *)
Fixpoint produced (frozen : bool) (b : batch) : list cell * bool :=
  match b with
  | [] => ([], frozen)
  | p :: b' =>
      let cs := if frozen then [] else match p with
                | PAppend bs | PAppendNonOwning bs => map CByte bs
                | PGapOf n => repeat CGap n
                | PFreeze => []
                end in
      let f := match p with PFreeze => true | _ => frozen end in
      let r := produced f b' in (cs ++ fst r, snd r)
  end.

Record host_rel (q q' : queue) (cs : list cell) (f : bool) : Prop := {
  hr_begin : q_begin q' = q_begin q; hr_cells : q_cells q' = q_cells q ++ cs; hr_frozen : q_frozen q' = f;
  hr_dead : q_dead q' = false; hr_hs : q_hs q' = q_hs q }.

Lemma q_append_rel q cs st : q_dead q = false ->
  host_rel q (fst (q_append q cs st)) (if q_frozen q then [] else cs) (q_frozen q).
Proof.
  intros Hd. unfold q_append. destruct cs as [|c cs]; [constructor; cbn; auto; destruct (q_frozen q); rewrite app_nil_r; reflexivity|].
  rewrite Hd. destruct (q_frozen q) eqn:F; constructor; cbn; auto. rewrite app_nil_r; reflexivity.
Qed.

Lemma produced_rel b : forall q, q_dead q = false ->
  host_rel q (fst (spec_run q (map to_op b))) (fst (produced (q_frozen q) b)) (snd (produced (q_frozen q) b)).
Proof.
  induction b as [|p b IH]; intros q Hd.
  - constructor; cbn; auto. rewrite app_nil_r; reflexivity.
  - cbn [map spec_run produced fst snd].
    assert (R : exists cs f, host_rel q (fst (spec_step q (to_op p))) cs f /\
      cs = (if q_frozen q then [] else match p with
                | PAppend bs | PAppendNonOwning bs => map CByte bs
                | PGapOf n => repeat CGap n
                | PFreeze => []
                end) /\ f = match p with PFreeze => true | _ => q_frozen q end).
    { eexists _, _. split; [|split; reflexivity].
      destruct p; cbn [to_op spec_step]; try apply q_append_rel; try exact Hd.
      rewrite Hd. constructor; cbn; auto. destruct (q_frozen q); rewrite app_nil_r; reflexivity. }
    destruct R as (cs & f & R & Ec & Ef). destruct (spec_step q (to_op p)) as [q1 r1]. cbn [fst] in R.
    specialize (IH q1 (hr_dead _ _ _ _ R)). rewrite (hr_frozen _ _ _ _ R) in IH.
    destruct (spec_run q1 (map to_op b)) as [q2 r2]. cbn [fst] in *. rewrite <- Ec, <- Ef.
    destruct R as [r_b r_c r_f r_d r_h], IH as [i_b i_c i_f i_d i_h].
    constructor; try congruence. rewrite i_c, r_c, <- app_assoc. reflexivity.
Qed.

Lemma frozen_produces_nothing b : produced true b = ([], true).
Proof. induction b as [|p b IH]; [reflexivity|]. cbn. destruct p; rewrite IH; reflexivity. Qed.

(** *** Windows grow *)
Lemma window_length q lo hi : q_begin q <= lo ->
  length (window q lo hi) = (match hi with None => q_end q | Some h => Nat.min h (q_end q) end) - lo.
Proof. intros H. unfold window. rewrite firstn_length, skipn_length. unfold q_end. destruct hi; lia. Qed.

Lemma window_grow q q' cs f lo hi : host_rel q q' cs f -> q_begin q <= lo -> lo <= q_end q ->
  exists more, window q' lo hi = window q lo hi ++ more /\ (over q hi = true -> cs = [] \/ q_frozen q = false -> more = []).
Proof.
  intros R Hb Hl.
  set (n := length (window q lo hi)). exists (skipn n (window q' lo hi)).
  assert (Ef : firstn n (window q' lo hi) = window q lo hi).
  { subst n. rewrite window_length by exact Hb. unfold window. rewrite (hr_cells _ _ _ _ R), (hr_begin _ _ _ _ R).
    rewrite firstn_firstn. unfold q_end in *. rewrite (hr_cells _ _ _ _ R), (hr_begin _ _ _ _ R), app_length.
    rewrite skipn_app, firstn_app, skipn_length.
    match goal with |- firstn ?a _ ++ firstn ?b _ = firstn ?c _ => replace b with 0 by (destruct hi; lia); replace a with c by (destruct hi; lia) end.
    cbn [firstn]. apply app_nil_r. }
  split; [rewrite <- Ef at 1; symmetry; apply firstn_skipn|].
  intros Ho Hcs. assert (L : length (window q' lo hi) = n).
  { subst n. rewrite !window_length by (rewrite ?(hr_begin _ _ _ _ R); exact Hb). unfold over in Ho.
    unfold q_end in *. rewrite (hr_cells _ _ _ _ R), (hr_begin _ _ _ _ R), app_length.
    destruct Hcs as [-> | Hf]; [cbn [length]; destruct hi; lia|].
    rewrite Hf in Ho. cbn [orb] in Ho. destruct hi as [h|]; [|discriminate]. apply Nat.leb_le in Ho. lia. }
  rewrite <- L. apply skipn_all.
Qed.

(** *** The waiting loops, simplified *)
Fixpoint wm (min : option nat) (v : view) (ch : chain) (sched : list batch) {struct sched} : outcome bool :=
  if reached min (v_size ch v) then Finished (Ok true) ch sched else
  match v_is_complete ch v with
  | Throw e => Finished (Throw e) ch sched
  | UB => Finished UB ch sched
  | Ok true => Finished (Ok false) ch sched
  | Ok false => match sched with [] => Suspended ch | b :: r => wm min v (apply_batch ch b) r end
  end.
Lemma wm_eq min v ch sched : wm min v ch sched =
  if reached min (v_size ch v) then Finished (Ok true) ch sched else
  match v_is_complete ch v with
  | Throw e => Finished (Throw e) ch sched
  | UB => Finished UB ch sched
  | Ok true => Finished (Ok false) ch sched
  | Ok false => match sched with [] => Suspended ch | b :: r => wm min v (apply_batch ch b) r end
  end.
Proof. destruct sched; reflexivity. Qed.

Lemma wait_min_wm min v : forall fuel ch sched, length sched < fuel -> wait_min_loop fuel min v ch sched = wm min v ch sched.
Proof.
  induction fuel as [|fuel IH]; intros ch sched L; [lia|].
  cbn [wait_min_loop]. rewrite wm_eq. destruct (reached min (v_size ch v)) eqn:R; [reflexivity|].
  unfold wait_change. remember (v_size ch v) as old eqn:Eold. symmetry in Eold. rename R into R'.
  revert ch Eold. induction sched as [|b r IHs]; intros ch Eold; cbn [wait_loop].
  - destruct (v_is_complete ch v) as [[|]| |]; reflexivity.
  - destruct (v_is_complete ch v) as [[|]| |]; try reflexivity.
    destruct (v_size (apply_batch ch b) v =? old) eqn:E.
    + apply Nat.eqb_eq in E. rewrite IHs by (cbn [length] in L; lia || exact E). rewrite wm_eq. rewrite E, R'. reflexivity.
    + cbn [obind]. apply IH. cbn [length] in L. lia.
Qed.

(** wait_change is waiting for one more byte than there is, when the size only grows. *)
Lemma view_produce os ch q v lo hi b : view_at os ch q v lo hi ->
  view_at (os ++ map to_op b) (apply_batch ch b) (fst (spec_run q (map to_op b))) v lo hi.
Proof.
  intros [Hc -> -> Ha Hb He].
  pose proof (produced_rel b _ Ha) as R.
  assert (Es : fst (run client_new (os ++ map to_op b)) =
    mkClient (apply_batch (cl_chain (fst (run client_new os))) b) (cl_its (fst (run client_new os)))) by (rewrite run_app; apply produce_run).
  assert (H : forall i o, holds (fst (run client_new os)) (fst (spec_run queue_new os)) i o ->
    holds (fst (run client_new (os ++ map to_op b))) (fst (spec_run (fst (spec_run queue_new os)) (map to_op b))) i o).
  { intros i o (k & h & Hi & Hh & Ho & Hf). exists k, h. rewrite Es, (hr_hs _ _ _ _ R). cbn [cl_its]. repeat split; auto.
    unfold h_fresh in *. rewrite (hr_dead _ _ _ _ R), (hr_begin _ _ _ _ R). rewrite Ha in Hf. exact Hf. }
  constructor.
  - rewrite contract_app, Hc. apply produce_contract.
  - rewrite Es. reflexivity.
  - rewrite spec_run_app. reflexivity.
  - apply (hr_dead _ _ _ _ R).
  - apply H, Hb.
  - destruct (v_end v), hi; auto.
Qed.

Lemma after_0 q sched : after q sched 0 = q.
Proof. reflexivity. Qed.
Lemma host_ops_cons b r : host_ops (b :: r) = map to_op b ++ host_ops r.
Proof. unfold host_ops. cbn [concat]. apply map_app. Qed.
Lemma after_S q b r k : after q (b :: r) (S k) = after (fst (spec_run q (map to_op b))) r k.
Proof. unfold after. cbn [firstn]. rewrite host_ops_cons, spec_run_app. reflexivity. Qed.

Definition stop_cond (min : option nat) (q : queue) (lo : nat) (hi : option nat) : bool :=
  reached min (length (window q lo hi)) || over q hi.

Lemma wm_first min v lo hi : ordered lo hi -> forall sched os ch q,
  view_at os ch q v lo hi -> q_begin q <= lo ->
  (exists k, k <= length sched /\ (forall j, j < k -> stop_cond min (after q sched j) lo hi = false) /\
     stop_cond min (after q sched k) lo hi = true /\
     view_at (os ++ host_ops (firstn k sched)) (fold_left apply_batch (firstn k sched) ch) (after q sched k) v lo hi /\
     q_begin (after q sched k) <= lo /\
     wm min v ch sched = Finished (Ok (reached min (length (window (after q sched k) lo hi))))
       (fold_left apply_batch (firstn k sched) ch) (skipn k sched)) \/
  ((forall j, j <= length sched -> stop_cond min (after q sched j) lo hi = false) /\
   wm min v ch sched = Suspended (fold_left apply_batch sched ch)).
Proof.
  intros Ho. induction sched as [|b r IH]; intros os ch q V Hb.
  - rewrite wm_eq, (size_window _ _ _ _ _ _ V Hb Ho), (complete_spec _ _ _ _ _ _ V Hb).
    change (q_frozen q || match hi with Some e => e <=? q_end q | None => false end) with (over q hi).
    destruct (stop_cond min q lo hi) eqn:S.
    + left. exists 0. rewrite after_0. split; [cbn; lia|]. split; [intros; lia|]. split; [exact S|].
      cbn [firstn host_ops concat map fold_left skipn]. rewrite app_nil_r. split; [exact V|]. split; [exact Hb|].
      unfold stop_cond in S. destruct (reached _ _); [reflexivity|]. cbn [orb] in S. rewrite S. reflexivity.
    + right. split; [intros j Hj; cbn in Hj; replace j with 0 by lia; exact S|].
      unfold stop_cond in S. apply orb_false_iff in S. destruct S as [-> ->]. reflexivity.
  - rewrite wm_eq, (size_window _ _ _ _ _ _ V Hb Ho), (complete_spec _ _ _ _ _ _ V Hb).
    change (q_frozen q || match hi with Some e => e <=? q_end q | None => false end) with (over q hi).
    destruct (stop_cond min q lo hi) eqn:S.
    + left. exists 0. rewrite after_0. split; [cbn; lia|]. split; [intros; lia|]. split; [exact S|].
      cbn [firstn host_ops concat map fold_left skipn]. rewrite app_nil_r. split; [exact V|]. split; [exact Hb|].
      unfold stop_cond in S. destruct (reached _ _); [reflexivity|]. cbn [orb] in S. rewrite S. reflexivity.
    + pose proof S as S'. unfold stop_cond in S. apply orb_false_iff in S. destruct S as [-> ->].
      pose proof (view_produce _ _ _ _ _ _ b V) as V'.
      pose proof (produced_rel b q (va_alive _ _ _ _ _ _ V)) as R.
      assert (Hb' : q_begin (fst (spec_run q (map to_op b))) <= lo) by (rewrite (hr_begin _ _ _ _ R); exact Hb).
      destruct (IH _ _ _ V' Hb') as [(k & Hk & Hj & Hs & Vk & Hbk & E)|[Hj E]].
      * left. exists (Datatypes.S k). rewrite !after_S. split; [cbn; lia|]. split.
        { intros [|j] Hlt; [exact S'|]. rewrite after_S. apply Hj. lia. }
        split; [exact Hs|]. cbn [firstn fold_left skipn]. rewrite host_ops_cons, app_assoc. auto.
      * right. split; [|exact E]. intros [|j] Hlt; [exact S'|]. rewrite after_S. apply Hj. cbn in Hlt. lia.
Qed.
