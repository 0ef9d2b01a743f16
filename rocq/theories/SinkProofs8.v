(** Shifting the sequence space. *)
From Verif Require Import Base BytesModel SinkModel SinkSpec SinkProofs SinkProofs2 SinkProofs3 SinkProofs4 SinkProofs5.
Open Scope Z_scope.

Definition shift (k : Z) (s : sink) : sink :=
  mkSink (k_units s) (k_auto s) (k_size s) (u64 (k_init s + k)) (k_cur s) (k_last s) (k_trim s) (k_chunks s) (map (shift_ev k) (k_log s)) (k_closed s).
Definition shr {A} (k : Z) (x : sres A) : sres A :=
  match x with SOk a s => SOk a (shift k s) | SThrow e s => SThrow e (shift k s) | SCrash => SCrash end.
Lemma u64_add a b : u64 (u64 a + b) = u64 (a + b).
Proof. unfold u64. apply Z.add_mod_idemp_l. lia. Qed.
Lemma rseq_shift k s q : rseq_of (shift k s) (u64 (q + k)) = rseq_of s q.
Proof.
  unfold rseq_of. cbn [shift k_init]. unfold u64. rewrite Zminus_mod_idemp_l, Zminus_mod_idemp_r. f_equal. lia.
Qed.
Lemma aseq_shift k s r : aseq (shift k s) r = u64 (aseq s r + k).
Proof. unfold aseq. cbn [shift k_init]. rewrite !u64_add. f_equal. lia. Qed.
Lemma shr_bind {A B} k (x : sres A) (f g : A -> sink -> sres B) : (forall a s, g a (shift k s) = shr k (f a s)) ->
  sbind (shr k x) g = shr k (sbind x f).
Proof. intros H. destruct x; cbn [shr sbind]; auto. Qed.
Lemma shr_call {A B} k (r : res A) s (f g : A -> sres B) : (forall a, g a = shr k (f a)) -> scall r (shift k s) g = shr k (scall r s f).
Proof. intros H. destruct r; cbn [scall shr]; auto. Qed.
Lemma shift_log k s l : log (shift k s) (map (shift_ev k) l) = shift k (log s l).
Proof. unfold log, shift. cbn. rewrite map_app. reflexivity. Qed.
Lemma shift_chunks k s l : set_chunks (shift k s) l = shift k (set_chunks s l).
Proof. reflexivity. Qed.

Lemma add_shift k n : forall data a b c s, add_and_check n data a b c (shift k s) = shr k (add_and_check n data a b c s).
Proof.
  induction n as [|n IH]; intros data a b c s; [reflexivity|]. cbn [add_and_check].
  change (k_chunks (shift k s)) with (k_chunks s). destruct (rev (k_chunks s)) as [|back bs]; [reflexivity|].
  destruct (a =? c_upper back); [reflexivity|].
  set (c1 := (c + count_before a (skipn c (k_chunks s)))%nat). cbv zeta.
  destruct (nth_error (k_chunks s) c1) as [x|]; [|reflexivity].
  destruct (b <=? c_seq x); [reflexivity|].
  match goal with |- sbind ?X _ = shr k (sbind ?Y _) => replace X with (shr k Y) end.
  - apply shr_bind. intros [[[nc c2] data2] a2] s2.
    apply shr_call. intros o. apply shr_call. intros nw.
    rewrite aseq_shift. change [EvOverlap (u64 (aseq s2 a2 + k)) o nw] with (map (shift_ev k) [EvOverlap (aseq s2 a2) o nw]). rewrite shift_log.
    destruct data2 as [d|]; [|reflexivity]. destruct (_ <? _); [|reflexivity]. apply shr_call. intros d'. rewrite IH. apply shr_bind.
    intros r s3. destruct nc as [i|]; [|reflexivity]. destruct (Nat.eqb i c2); reflexivity.
  - destruct (a <? c_seq x); [|reflexivity]. destruct data as [d|]; [|reflexivity]. symmetry. apply shr_call. intros p. rewrite shift_chunks.
    apply shr_call. reflexivity.
Qed.
Lemma deliver_shift k data a b s : deliver data a b (shift k s) = shr k (deliver data a b s).
Proof.
  unfold deliver. destruct data as [[|x d]|]; [reflexivity| |].
  - cbv zeta. set (dd := x :: d). change (k_size (shift k s)) with (k_size s).
    change (set_size (shift k s) (u64 (k_size s + blen dd))) with (shift k (set_size s (u64 (k_size s + blen dd)))).
    set (s1 := set_size s _). change (k_units (shift k s1)) with (k_units s1). destruct (any_completed (k_units s1)); [reflexivity|].
    rewrite aseq_shift. change [EvData (u64 (aseq s1 a + k)) dd] with (map (shift_ev k) [EvData (aseq s1 a) dd]).
    change (set_units (shift k s1) (map (feed dd) (k_units s1))) with (shift k (set_units s1 (map (feed dd) (k_units s1)))). rewrite shift_log. reflexivity.
  - change (k_cur (shift k s)) with (k_cur s). destruct (k_cur s =? b); [reflexivity|]. rewrite aseq_shift.
    change [EvGap (u64 (aseq s a + k)) (u64 (b - a))] with (map (shift_ev k) [EvGap (aseq s a) (u64 (b - a))]). rewrite shift_log. reflexivity.
Qed.
Lemma trim_loop_shift k s a cur l :
  trim_loop a cur (aseq (shift k s)) l = (map (shift_ev k) (fst (trim_loop a cur (aseq s) l)), snd (trim_loop a cur (aseq s) l)).
Proof.
  induction l as [|c l IH]; cbn [trim_loop]; [reflexivity|]. destruct (a <=? c_seq c); [reflexivity|]. cbv zeta. rewrite IH.
  destruct (c_data c); [|reflexivity]. cbn [fst snd]. rewrite map_app. destruct (cur <? c_seq c); [|reflexivity]. cbn [map shift_ev]. rewrite aseq_shift. reflexivity.
Qed.
Lemma trim_shift k a s : do_trim a (shift k s) = shift k (do_trim a s).
Proof.
  unfold do_trim. change (k_chunks (shift k s)) with (k_chunks s). change (k_cur (shift k s)) with (k_cur s). rewrite trim_loop_shift.
  cbn [fst snd]. rewrite shift_log. reflexivity.
Qed.
Lemma auto_trim_shift k a s : (if k_auto (shift k s) then do_trim a (shift k s) else shift k s) = shift k (if k_auto s then do_trim a s else s).
Proof. change (k_auto (shift k s)) with (k_auto s). destruct (k_auto s); [apply trim_shift|reflexivity]. Qed.
Lemma loop_shift k l : forall s, deliver_loop l (shift k s) = shr k (deliver_loop l s).
Proof.
  induction l as [|c l IH]; intros s; cbn [deliver_loop]; [reflexivity|]. change (k_last (shift k s)) with (k_last s).
  destruct (c_seq c =? k_last s); [|apply IH]. cbv zeta.
  change (set_last (shift k s) (u64 (k_last s + u64 (c_upper c - c_seq c)))) with (shift k (set_last s (u64 (k_last s + u64 (c_upper c - c_seq c))))).
  rewrite deliver_shift. apply shr_bind. intros ok s1. destruct ok; [apply IH|]. cbn [shr]. f_equal. apply auto_trim_shift.
Qed.
Lemma try_shift k c s : try_deliver c (shift k s) = shr k (try_deliver c s).
Proof.
  unfold try_deliver. change (k_chunks (shift k s)) with (k_chunks s). rewrite loop_shift. apply shr_bind. intros u s1. cbn [shr]. f_equal. apply auto_trim_shift.
Qed.
Lemma new_data_shift k data a n s : new_data data a n (shift k s) = shr k (new_data data a n s).
Proof.
  unfold new_data. destruct (n =? 0); [reflexivity|].
  change (k_auto (shift k s)) with (k_auto s). change (k_chunks (shift k s)) with (k_chunks s). change (k_cur (shift k s)) with (k_cur s).
  change (k_trim (shift k s)) with (k_trim s).
  destruct (_ && _ && _); [rewrite deliver_shift; apply shr_bind; reflexivity|]. cbv zeta.
  destruct (_ <=? _); [reflexivity|]. apply shr_call. intros [d2 a2].
  match goal with |- sbind ?X _ = shr k (sbind ?Y _) => replace X with (shr k Y) end.
  - apply shr_bind. intros [c|] s1; [|reflexivity]. change (k_chunks (shift k s1)) with (k_chunks s1).
    destruct (nth_error (k_chunks s1) c) as [x|]; [|reflexivity]. change (k_last (shift k s1)) with (k_last s1).
    destruct (_ || _); [reflexivity|apply try_shift].
  - destruct (k_chunks s) eqn:K; [reflexivity|]. symmetry. apply add_shift.
Qed.
Lemma undelivered_shift k s a l : undelivered_up_to a (aseq (shift k s)) l = map (shift_ev k) (undelivered_up_to a (aseq s) l).
Proof.
  induction l as [|c l IH]; cbn [undelivered_up_to]; [reflexivity|]. destruct (a <=? c_seq c); [reflexivity|]. destruct (c_data c); [|exact IH].
  cbv zeta. cbn [map shift_ev]. rewrite aseq_shift, IH. reflexivity.
Qed.
Lemma skip_shift k a s : do_skip a (shift k s) = shr k (do_skip a s).
Proof.
  unfold do_skip. cbv zeta.
  change (k_auto (shift k s)) with (k_auto s). change (k_chunks (shift k s)) with (k_chunks s).
  replace (if k_auto s then do_trim a (shift k s) else log (shift k s) (undelivered_up_to a (aseq (shift k s)) (k_chunks s)))
    with (shift k (if k_auto s then do_trim a s else log s (undelivered_up_to a (aseq s) (k_chunks s)))).
  - set (s1 := if k_auto s then _ else _).
    change (set_last (set_cur (shift k s1) a) a) with (shift k (set_last (set_cur s1 a) a)). set (s2 := set_last (set_cur s1 a) a).
    rewrite aseq_shift. change [EvSkipped (u64 (aseq s2 a + k))] with (map (shift_ev k) [EvSkipped (aseq s2 a)]). rewrite shift_log. apply try_shift.
  - destruct (k_auto s); [symmetry; apply trim_shift|]. rewrite undelivered_shift, shift_log. reflexivity.
Qed.
Lemma step_shift k o s : keeps_base o = true -> sstep (shift_op k o) (shift k s) = shr k (sstep o s).
Proof.
  destruct o as [beh|d q n|q n|q|q|b|q|]; cbn [keeps_base]; intros H; try discriminate.
  - cbn [shift_op sstep]. unfold do_connect. destruct (beh []); reflexivity.
  - destruct d as [|x d]; [destruct q; reflexivity|]. destruct q as [q|]; cbn [shift_op sstep]; [rewrite rseq_shift|]; apply new_data_shift.
  - cbn [shift_op sstep]. rewrite rseq_shift. apply new_data_shift.
  - cbn [shift_op sstep]. rewrite rseq_shift. apply skip_shift.
  - cbn [shift_op sstep]. rewrite rseq_shift, trim_shift. reflexivity.
  - reflexivity.
Qed.
Lemma run_shift k ops : forall s, forallb keeps_base ops = true -> srun (map (shift_op k) ops) (shift k s) = shr k (srun ops s).
Proof.
  induction ops as [|o ops IH]; intros s H; cbn [map srun]; [reflexivity|]. cbn [forallb] in H. apply andb_true_iff in H. destruct H as (H1 & H2).
  rewrite step_shift by exact H1. destruct (sstep o s); cbn [shr]; auto.
Qed.
