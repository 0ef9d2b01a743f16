(** Proofs for C67: what happened before (the history of events and of disconnected units) has no influence on a sink. *)
From Verif Require Import Base BytesModel SinkModel SinkSpec.
Open Scope Z_scope.

(** [s] with a longer history *)
Definition frame (L : list event) (C : list sunit) (s : sink) : sink :=
  mkSink (k_units s) (k_auto s) (k_size s) (k_init s) (k_cur s) (k_last s) (k_trim s) (k_chunks s) (L ++ k_log s) (C ++ k_closed s).
Definition rframe {A} L C (r : sres A) : sres A :=
  match r with SOk a s => SOk a (frame L C s) | SThrow e s => SThrow e (frame L C s) | SCrash => SCrash end.

Section Frame.
Variable L : list event.
Variable C : list sunit.

Lemma frame_units s x : set_units (frame L C s) x = frame L C (set_units s x). Proof. reflexivity. Qed.
Lemma frame_auto s x : set_auto (frame L C s) x = frame L C (set_auto s x). Proof. reflexivity. Qed.
Lemma frame_size s x : set_size (frame L C s) x = frame L C (set_size s x). Proof. reflexivity. Qed.
Lemma frame_init s x : set_init (frame L C s) x = frame L C (set_init s x). Proof. reflexivity. Qed.
Lemma frame_cur s x : set_cur (frame L C s) x = frame L C (set_cur s x). Proof. reflexivity. Qed.
Lemma frame_last s x : set_last (frame L C s) x = frame L C (set_last s x). Proof. reflexivity. Qed.
Lemma frame_trim s x : set_trim (frame L C s) x = frame L C (set_trim s x). Proof. reflexivity. Qed.
Lemma frame_chunks s x : set_chunks (frame L C s) x = frame L C (set_chunks s x). Proof. reflexivity. Qed.
Lemma frame_log s x : log (frame L C s) x = frame L C (log s x).
Proof. unfold log, frame. cbn [k_units k_auto k_size k_init k_cur k_last k_trim k_chunks k_log k_closed]. rewrite app_assoc. reflexivity. Qed.
Lemma frame_close s : do_close (frame L C s) = frame L C (do_close s).
Proof. unfold do_close, frame. cbn [k_units k_auto k_size k_init k_cur k_last k_trim k_chunks k_log k_closed]. rewrite app_assoc. reflexivity. Qed.
Lemma frame_aseq s r : aseq (frame L C s) r = aseq s r. Proof. reflexivity. Qed.

Lemma rframe_bind {A B} (x : sres A) (f g : A -> sink -> sres B) :
  (forall a s, g a (frame L C s) = rframe L C (f a s)) -> sbind (rframe L C x) g = rframe L C (sbind x f).
Proof. intros H. destruct x; cbn; auto. Qed.
Lemma rframe_call {A B} (r : res A) s (f g : A -> sres B) :
  (forall a, g a = rframe L C (f a)) -> scall r (frame L C s) g = rframe L C (scall r s f).
Proof. intros H. destruct r; cbn; auto. Qed.

Lemma frame_deliver d a b s : deliver d a b (frame L C s) = rframe L C (deliver d a b s).
Proof.
  unfold deliver. destruct d as [[|x d]|].
  - reflexivity.
  - rewrite frame_size. change (k_units (frame L C ?t)) with (k_units t). change (k_size (frame L C ?t)) with (k_size t). 
    destruct (any_completed _); [reflexivity|]. cbn [rframe]. rewrite <- frame_last, <- frame_cur, <- frame_log. reflexivity.
  - change (k_cur (frame L C s)) with (k_cur s). destruct (_ =? _); [reflexivity|]. cbn [rframe]. rewrite <- frame_cur, <- frame_log. reflexivity.
Qed.
Lemma frame_do_trim r s : do_trim r (frame L C s) = frame L C (do_trim r s).
Proof. unfold do_trim. cbn zeta. rewrite <- frame_trim, <- frame_chunks, <- frame_log. reflexivity. Qed.
Lemma frame_loop l : forall s, deliver_loop l (frame L C s) = rframe L C (deliver_loop l s).
Proof.
  induction l as [|c l IH]; intros s; [reflexivity|]. cbn [deliver_loop]. change (k_last (frame L C s)) with (k_last s).
  destruct (_ =? _); [|apply IH]. rewrite frame_last, frame_deliver. apply rframe_bind. intros ok t. destruct ok; [apply IH|].
  change (k_auto (frame L C t)) with (k_auto t). destruct (k_auto t); [rewrite frame_do_trim|]; reflexivity.
Qed.
Lemma frame_try c s : try_deliver c (frame L C s) = rframe L C (try_deliver c s).
Proof.
  unfold try_deliver. change (k_chunks (frame L C s)) with (k_chunks s). rewrite frame_loop. apply rframe_bind. intros _ t.
  change (k_auto (frame L C t)) with (k_auto t). destruct (k_auto t); [rewrite frame_do_trim|]; reflexivity.
Qed.

Lemma frame_add n : forall d a b c s, add_and_check n d a b c (frame L C s) = rframe L C (add_and_check n d a b c s).
Proof.
  induction n as [|n IH]; intros d a b c s; [reflexivity|]. cbn [add_and_check]. cbn zeta. change (k_chunks (frame L C s)) with (k_chunks s).
  destruct (rev (k_chunks s)) as [|back ?]; [reflexivity|]. destruct (a =? c_upper back); [reflexivity|].
  destruct (nth_error _ _) as [x|]; [|reflexivity]. destruct (b <=? c_seq x); [reflexivity|].
  match goal with |- sbind ?p ?g = rframe L C (sbind ?q ?f) => replace p with (rframe L C q); [apply rframe_bind|] end.
  - intros [[[nc c'] d'] a'] t. apply rframe_call. intros old. apply rframe_call. intros new.
    rewrite frame_log, frame_aseq. destruct d' as [d'|]; [|reflexivity]. destruct (_ <? _); [|reflexivity].
    apply rframe_call. intros d''. rewrite IH. apply rframe_bind. intros r u. destruct nc as [i|]; [|reflexivity]. destruct (Nat.eqb i c'); reflexivity.
  - destruct (a <? c_seq x); [|reflexivity]. destruct d as [d|]; [|reflexivity]. symmetry. apply rframe_call. intros p.
    rewrite frame_chunks. apply rframe_call. intros d'. reflexivity.
Qed.

Lemma frame_new_data d a n s : new_data d a n (frame L C s) = rframe L C (new_data d a n s).
Proof.
  unfold new_data. change (k_auto (frame L C s)) with (k_auto s). change (k_chunks (frame L C s)) with (k_chunks s). change (k_cur (frame L C s)) with (k_cur s). change (k_trim (frame L C s)) with (k_trim s).
  destruct (n =? 0); [reflexivity|]. destruct (_ && _ && _); [rewrite frame_deliver; apply rframe_bind; reflexivity|]. cbn zeta.
  destruct (_ <=? _); [reflexivity|]. apply rframe_call. intros [d' a'].
  match goal with |- sbind ?p ?g = rframe L C (sbind ?q ?f) => replace p with (rframe L C q); [apply rframe_bind|] end.
  - intros [c|] t; [|reflexivity]. change (k_chunks (frame L C t)) with (k_chunks t). destruct (nth_error _ _) as [x|]; [|reflexivity].
    change (k_last (frame L C t)) with (k_last t). destruct (_ || _); [reflexivity|apply frame_try].
  - destruct (k_chunks s); [reflexivity|]. symmetry. apply frame_add.
Qed.
Lemma frame_do_skip r s : do_skip r (frame L C s) = rframe L C (do_skip r s).
Proof.
  unfold do_skip. cbn zeta. change (k_auto (frame L C s)) with (k_auto s). rewrite <- frame_try. f_equal.
  destruct (k_auto s).
  - rewrite frame_do_trim, frame_cur, frame_last, frame_log. reflexivity.
  - rewrite frame_log, frame_cur, frame_last, frame_log. reflexivity.
Qed.

Lemma frame_step o s : sstep o (frame L C s) = rframe L C (sstep o s).
Proof.
  destruct o as [beh|d q n|q n|q|q|b|q|]; cbn [sstep].
  - unfold do_connect. destruct (beh []); reflexivity.
  - destruct d; [reflexivity|]. apply frame_new_data.
  - apply frame_new_data.
  - apply frame_do_skip.
  - rewrite frame_do_trim. reflexivity.
  - reflexivity.
  - change (k_cur (frame L C s)) with (k_cur s). change (k_chunks (frame L C s)) with (k_chunks s). destruct (_ || _); [rewrite frame_close|]; reflexivity.
  - rewrite frame_close. reflexivity.
Qed.
Lemma frame_run ops : forall s, srun ops (frame L C s) = rframe L C (srun ops s).
Proof.
  induction ops as [|o ops IH]; intros s; [reflexivity|]. cbn [srun]. rewrite frame_step. destruct (sstep o s); cbn [rframe]; auto.
Qed.
End Frame.

Lemma close_frame s : do_close s = frame (k_log s) (k_closed s ++ k_units s) sink0.
Proof. unfold do_close, frame, sink0. cbn [k_units k_auto k_size k_init k_cur k_last k_trim k_chunks k_log k_closed]. rewrite !app_nil_r. reflexivity. Qed.

Lemma given_trans a b u v w : given a u v -> given b v w -> given (a ++ b) u w.
Proof.
  intros (A1 & (x & y & -> & A2) & A3) (B1 & (z & t & -> & B2) & B3). unfold given.
  destruct (u_skip v) eqn:SV.
  - specialize (B3 eq_refl). subst w. split; [|split].
    + intros H. congruence.
    + exists x, (y ++ z ++ t). split; [rewrite <- !app_assoc; reflexivity|exact A2].
    + auto.
  - specialize (A1 eq_refl). split; [|split].
    + intros H. rewrite (B1 H), A1, <- !app_assoc. reflexivity.
    + exists ((x ++ y) ++ z), t. split; [rewrite <- !app_assoc; reflexivity|]. rewrite B2, A1, <- !app_assoc. reflexivity.
    + intros H. specialize (A3 H). subst v. congruence.
Qed.
Lemma pieces_app a b : pieces (a ++ b) = pieces a ++ pieces b.
Proof. unfold pieces. apply flat_map_app. Qed.
Lemma given_refl us : Forall2 (given []) us us.
Proof. induction us; constructor; auto. unfold given. split; [intros; rewrite app_nil_r; reflexivity|]. split; [exists [], []; cbn; split; [reflexivity|rewrite app_nil_r; reflexivity]|auto]. Qed.
Lemma Forall2_comp a b us vs ws : Forall2 (given a) us vs -> Forall2 (given b) vs ws -> Forall2 (given (a ++ b)) us ws.
Proof. intros A. revert ws. induction A; intros ws B; inversion B; subst; constructor; eauto using given_trans. Qed.
