(** Lemmas about the sink's buffer: adding a segment, delivering a run of chunks. *)
From Verif Require Import Base BytesModel SinkModel SinkSpec.
Open Scope Z_scope.

Lemma u64_id x : 0 <= x < 2 ^ 64 -> u64 x = x.
Proof. apply Z.mod_small. Qed.
Lemma u64_shift i x : u64 (u64 (i + x) - i) = u64 x.
Proof. unfold u64. rewrite Zminus_mod_idemp_l. f_equal. lia. Qed.
Lemma rseq_aseq i x : 0 <= x < 2 ^ 64 -> u64 (u64 (i + x) - i) = x.
Proof. intros H. rewrite u64_shift. apply u64_id, H. Qed.

Lemma blen_app a b : blen (a ++ b) = blen a + blen b.
Proof. unfold blen. rewrite app_length. lia. Qed.
Lemma blen_nonneg d : 0 <= blen d.
Proof. unfold blen. lia. Qed.
Lemma blen_pos d : d <> [] -> 0 < blen d.
Proof. destruct d; [congruence|]. unfold blen. cbn [length]. lia. Qed.
Lemma blen_skipn d n : 0 <= n <= blen d -> blen (skipn (Z.to_nat n) d) = blen d - n.
Proof. unfold blen. intros H. rewrite skipn_length. lia. Qed.
Lemma blen_firstn d n : 0 <= n <= blen d -> blen (firstn (Z.to_nat n) d) = n.
Proof. unfold blen. intros H. rewrite firstn_length. lia. Qed.

(** ** Bytes::sub *)
Lemma sub_tail d a : 0 <= a <= blen d -> blen d < 2 ^ 64 -> sub d a (blen d) = Ok (skipn (Z.to_nat a) d).
Proof.
  intros H L. unfold sub, std_substr.
  replace (blen d <? a) with false by lia. cbn match.
  rewrite Z.mod_small by lia. rewrite Z.min_id. f_equal.
  apply firstn_all2. rewrite skipn_length. unfold blen in *. lia.
Qed.
Lemma sub_to_head d a : 0 <= a <= blen d -> blen d < 2 ^ 64 -> sub_to d a = Ok (firstn (Z.to_nat a) d).
Proof.
  intros H L. unfold sub_to, sub, std_substr.
  replace (blen d <? 0) with false by lia. cbn match.
  rewrite Z.sub_0_r, Z.mod_small by lia. rewrite Z.sub_0_r. cbn [Z.to_nat skipn].
  f_equal. f_equal. lia.
Qed.
Lemma sub_mid d a b : 0 <= a <= blen d -> exists r, sub d a b = Ok r.
Proof.
  intros H. unfold sub, std_substr.
  replace (blen d <? a) with false by lia. eexists. reflexivity.
Qed.
Lemma sub_cases d a b : (exists r, sub d a b = Ok r) \/ sub d a b = Throw OutOfRange.
Proof. unfold sub, std_substr. destruct (blen d <? a); [right; reflexivity|left; eexists; reflexivity]. Qed.

(** ** Buffers *)
Definition cell_of (c : chunk) (p : Z) : option cell :=
  match c_data c with
  | Some d => option_map Byte (nth_error d (Z.to_nat (p - c_seq c)))
  | None => Some (Missing (c_upper c))
  end.
Fixpoint look (l : list chunk) (p : Z) : option cell :=
  match l with
  | [] => None
  | c :: l' => if (c_seq c <=? p) && (p <? c_upper c) then cell_of c p else look l' p
  end.
Definition wfc (c : chunk) : Prop :=
  0 <= c_seq c /\ c_seq c < c_upper c /\ c_upper c < 2 ^ 64 /\ (forall d, c_data c = Some d -> blen d = c_upper c - c_seq c).
(** In order, disjoint, from position [lo] on. *)
Fixpoint wfl (lo : Z) (l : list chunk) : Prop :=
  match l with [] => True | c :: l' => lo <= c_seq c /\ wfc c /\ wfl (c_upper c) l' end.

Lemma wfl_weaken lo lo' l : lo' <= lo -> wfl lo l -> wfl lo' l.
Proof. destruct l as [|c l]; cbn [wfl]; [auto|]. intros H (A & B & C). split; [lia|auto]. Qed.
Lemma wfl_in lo l c : wfl lo l -> In c l -> lo <= c_seq c /\ wfc c.
Proof.
  revert lo. induction l as [|a l IH]; intros lo W H; [destruct H|].
  cbn [wfl] in W. destruct W as (A & B & C). destruct H as [<- | H]; [auto|].
  destruct (IH _ C H) as (D & E). split; [|exact E]. destruct B as (? & ? & ?). lia.
Qed.
Lemma wfl_app lo l1 l2 : wfl lo (l1 ++ l2) -> wfl lo l1 /\ wfl lo l2.
Proof.
  revert lo. induction l1 as [|a l1 IH]; intros lo W; cbn [app wfl] in *; [auto|].
  destruct W as (A & B & C). destruct (IH _ C) as (D & E). split; [auto|].
  eapply wfl_weaken; [|exact E]. destruct B as (? & ? & ?). lia.
Qed.
Lemma look_below lo l p : wfl lo l -> p < lo -> look l p = None.
Proof.
  revert lo. induction l as [|c l IH]; intros lo W H; cbn [look wfl] in *; [reflexivity|].
  destruct W as (A & (B0 & B & _) & C).
  replace (c_seq c <=? p) with false by lia. cbn [andb]. apply (IH (c_upper c)); [exact C|lia].
Qed.
Lemma cell_of_some c p : wfc c -> c_seq c <= p < c_upper c -> cell_of c p <> None.
Proof.
  intros (A & B & C & D) H. unfold cell_of. destruct (c_data c) as [d|]; [|discriminate].
  specialize (D d eq_refl). unfold blen in D.
  destruct (nth_error d (Z.to_nat (p - c_seq c))) eqn:E; [discriminate|].
  apply nth_error_None in E. lia.
Qed.
Lemma look_in lo l c p : wfl lo l -> In c l -> c_seq c <= p < c_upper c -> look l p = cell_of c p.
Proof.
  revert lo. induction l as [|a l IH]; intros lo W H Hp; [destruct H|].
  cbn [look wfl] in *. destruct W as (A & B & C). destruct H as [-> | H].
  - replace (c_seq c <=? p) with true by lia. replace (p <? c_upper c) with true by lia. reflexivity.
  - destruct (wfl_in _ _ _ C H) as (D & _).
    replace (p <? c_upper a) with false by lia. rewrite andb_false_r. eapply IH; eauto.
Qed.
Lemma look_app l1 l2 p : look (l1 ++ l2) p = match look l1 p with Some c => Some c | None =>
  if existsb (fun c => (c_seq c <=? p) && (p <? c_upper c)) l1 then None else look l2 p end.
Proof.
  induction l1 as [|c l1 IH]; cbn [app look existsb]; [reflexivity|].
  destruct ((c_seq c <=? p) && (p <? c_upper c)) eqn:E; cbn [orb].
  - destruct (cell_of c p); reflexivity.
  - exact IH.
Qed.
(** Chunks that end before a position do not matter there. *)
Lemma look_skip l1 l2 p : Forall (fun c => c_upper c <= p) l1 -> look (l1 ++ l2) p = look l2 p.
Proof.
  induction 1 as [|c l1 H _ IH]; cbn [app look]; [reflexivity|].
  replace (p <? c_upper c) with false by lia. rewrite andb_false_r. exact IH.
Qed.

(** The cells of a new segment. *)
Definition seg_cells (data : option bytes) (rseq rupper : Z) : seqmap :=
  match data with Some d => data_cells rseq d | None => gap_cells rseq (rupper - rseq) end.

Lemma seg_out data a b p : (forall d, data = Some d -> blen d = b - a) -> ~ (a <= p < b) -> seg_cells data a b p = None.
Proof.
  intros H N. unfold seg_cells, data_cells, gap_cells. destruct data as [d|].
  - specialize (H d eq_refl). destruct ((a <=? p) && (p <? a + blen d)) eqn:E; [lia|reflexivity].
  - destruct ((a <=? p) && (p <? a + (b - a))) eqn:E; [lia|reflexivity].
Qed.
Lemma seg_cell_of data a b p : 0 <= a -> (forall d, data = Some d -> blen d = b - a) -> a <= p < b ->
  cell_of (mkChunk data a b) p = seg_cells data a b p.
Proof.
  intros A H R. unfold cell_of, seg_cells, data_cells, gap_cells. cbn [c_data c_seq c_upper]. destruct data as [d|].
  - specialize (H d eq_refl). replace ((a <=? p) && (p <? a + blen d)) with true by lia. reflexivity.
  - replace ((a <=? p) && (p <? a + (b - a))) with true by lia. f_equal. f_equal. lia.
Qed.
Lemma seg_some data a b p : (forall d, data = Some d -> blen d = b - a) -> a <= p < b -> seg_cells data a b p <> None.
Proof.
  intros H R. unfold seg_cells, data_cells, gap_cells. destruct data as [d|].
  - specialize (H d eq_refl). replace ((a <=? p) && (p <? a + blen d)) with true by lia.
    destruct (nth_error d (Z.to_nat (p - a))) eqn:E; [discriminate|]. apply nth_error_None in E. unfold blen in H. lia.
  - replace ((a <=? p) && (p <? a + (b - a))) with true by lia. discriminate.
Qed.
(** Cutting a segment in two. *)
Lemma data_cells_head d a n p : 0 <= n <= blen d -> a <= p < a + n -> data_cells a (firstn (Z.to_nat n) d) p = data_cells a d p.
Proof.
  intros N H. unfold data_cells. rewrite blen_firstn by lia.
  replace ((a <=? p) && (p <? a + n)) with true by lia. replace ((a <=? p) && (p <? a + blen d)) with true by lia.
  f_equal. replace (Z.to_nat n) with (Z.to_nat (p - a) + S (Z.to_nat (n - (p - a) - 1)))%nat by lia.
  set (k := Z.to_nat (p - a)). generalize (Z.to_nat (n - (p - a) - 1)). clear. intros m.
  revert d. induction k as [|k IH]; intros [|x d]; cbn [plus firstn nth_error]; auto.
Qed.
Lemma data_cells_tail d a n p : 0 <= n <= blen d -> a + n <= p -> data_cells (a + n) (skipn (Z.to_nat n) d) p = data_cells a d p.
Proof.
  intros N H. unfold data_cells. rewrite blen_skipn by lia.
  replace (a + n + (blen d - n)) with (a + blen d) by lia.
  replace (a + n <=? p) with true by lia. replace (a <=? p) with true by lia. cbn [andb].
  destruct (p <? a + blen d); [|reflexivity]. f_equal. rewrite nth_error_skipn. f_equal. lia.
Qed.

(** ** The search loop *)
Lemma count_before_app rseq l1 l2 : Forall (fun c => c_upper c <= rseq) l1 ->
  count_before rseq (l1 ++ l2) = (length l1 + count_before rseq l2)%nat.
Proof.
  induction 1 as [|c l1 H _ IH]; cbn [app count_before length]; [reflexivity|].
  replace (c_upper c <=? rseq) with true by lia. rewrite IH. reflexivity.
Qed.
Lemma search rseq pre post c0 : Forall (fun c => c_upper c <= rseq) pre -> (c0 <= length pre)%nat ->
  (c0 + count_before rseq (skipn c0 (pre ++ post)))%nat = (length pre + count_before rseq post)%nat.
Proof.
  intros F H. rewrite skipn_app. replace (c0 - length pre)%nat with 0%nat by lia. cbn [skipn].
  rewrite count_before_app.
  - rewrite skipn_length. lia.
  - rewrite <- (firstn_skipn c0 pre) in F. apply Forall_app in F. tauto.
Qed.
Lemma insert_at_app {A} (pre post : list A) x : insert_at (pre ++ post) (length pre) x = pre ++ x :: post.
Proof.
  unfold insert_at. rewrite firstn_app, skipn_app, Nat.sub_diag, firstn_all, skipn_all. cbn [firstn skipn].
  rewrite app_nil_r. reflexivity.
Qed.
Lemma nth_error_mid {A} (pre post : list A) x : nth_error (pre ++ x :: post) (length pre) = Some x.
Proof. rewrite nth_error_app2, Nat.sub_diag by lia. reflexivity. Qed.
Lemma rev_last {A} (l : list A) x : rev (l ++ [x]) = x :: rev l.
Proof. rewrite rev_app_distr. reflexivity. Qed.

Lemma wfl_last lo l x : wfl lo (l ++ [x]) -> forall c, In c (l ++ [x]) -> c_upper c <= c_upper x.
Proof.
  revert lo. induction l as [|a l IH]; intros lo W c H; cbn [app] in *.
  - destruct H as [-> | []]. lia.
  - cbn [wfl] in W. destruct W as (A & B & C). destruct H as [<- | H]; [|eapply IH; eauto].
    assert (I : In x (l ++ [x])) by (apply in_or_app; right; left; reflexivity).
    destruct (wfl_in _ _ _ C I) as (D & (E & F & _)). lia.
Qed.

(** Events that are not seen by the reader. *)
Definition silent (e : event) : Prop := match e with EvData _ _ | EvGap _ _ => False | _ => True end.
Lemma silent_obs i l : Forall silent l -> flat_map (obs_of i) l = [].
Proof.
  induction 1 as [|e l H _ IH]; cbn [flat_map]; [reflexivity|]. rewrite IH, app_nil_r.
  destruct e; cbn [silent] in H; try tauto; reflexivity.
Qed.

Definition placed (data : option bytes) (rseq rupper : Z) (post post' : list chunk) (j : nat) : Prop :=
  exists x, nth_error post' j = Some x /\
    ((look post (c_seq x) = None /\ rseq <= c_seq x /\ c_upper x <= rupper /\
      (forall p, rseq <= p < c_seq x -> look post p <> None))
     \/ (c_seq x < rupper <= c_upper x /\ (forall p, rseq <= p < rupper -> look post p <> None))).

(** sink.cc:26-100: the effect of _addAndCheck on an orderly buffer. *)
Lemma add_spec post : forall pre n s data rseq rupper c0 lo,
  k_chunks s = pre ++ post -> pre ++ post <> [] ->
  Forall (fun c => c_upper c <= rseq) pre -> wfl lo post -> lo <= rseq ->
  0 <= rseq -> rseq < rupper -> rupper < 2 ^ 64 ->
  (forall d, data = Some d -> blen d = rupper - rseq) ->
  (data = None -> forall p, rseq <= p < rupper -> look post p = None) ->
  (S (length post) <= n)%nat -> (c0 <= length pre)%nat ->
  exists j post' evs,
    add_and_check n data rseq rupper c0 s = SOk (Some (length pre + j)%nat) (log (set_chunks s (pre ++ post')) evs)
    /\ Forall silent evs /\ wfl lo post'
    /\ (forall p, look post' p = first_wins (look post) (seg_cells data rseq rupper) p)
    /\ Forall (fun c => In c post \/ (rseq <= c_seq c /\ c_upper c <= rupper /\ look post (c_seq c) = None)) post'
    /\ placed data rseq rupper post post' j.
Proof.
  induction post as [|y post IH]; intros pre n s data rseq rupper c0 lo K NE F W L R0 R1 R2 HD HG HN HC.
  - (* nothing comes after: append *)
    exists 0%nat, [mkChunk data rseq rupper], [].
    assert (R : add_and_check n data rseq rupper c0 s
      = SOk (Some (length pre + 0)%nat) (log (set_chunks s (pre ++ [mkChunk data rseq rupper])) [])).
    { destruct n as [|n]; [cbn [length] in HN; lia|]. cbn [add_and_check]. rewrite K, app_nil_r.
      destruct (rev pre) as [|b rb] eqn:RB.
      { exfalso. apply (f_equal (@rev chunk)) in RB. rewrite rev_involutive in RB. cbn in RB. subst pre. apply NE. reflexivity. }
      assert (NN : nth_error pre (c0 + count_before rseq (skipn c0 pre)) = None).
      { rewrite <- (app_nil_r pre) at 2. rewrite search by assumption. cbn [count_before]. rewrite Nat.add_0_r.
        apply nth_error_None. lia. }
      rewrite NN, Nat.add_0_r. unfold log, set_chunks. cbn. rewrite app_nil_r.
      destruct (rseq =? c_upper b); reflexivity. }
    split; [exact R|]. split; [constructor|]. split.
    { cbn [wfl c_seq c_upper]. unfold wfc. cbn [c_seq c_upper c_data]. repeat split; auto; lia. }
    split.
    { intros p. unfold first_wins. cbn [look c_seq c_upper].
      destruct ((rseq <=? p) && (p <? rupper)) eqn:E.
      - apply seg_cell_of; [lia|exact HD|lia].
      - symmetry. apply seg_out; [exact HD|lia]. }
    split. { constructor; [|constructor]. right. cbn [c_seq c_upper look]. repeat split; intros; lia. }
    exists (mkChunk data rseq rupper). split; [reflexivity|]. left. cbn [c_seq c_upper look]. repeat split; intros; lia.
  - cbn [wfl] in W. destruct W as (W1 & W2 & W3). pose proof W2 as (Y0 & Y1 & Y2 & YD).
    cbn [length] in HN.
    destruct (Z.leb_spec (c_upper y) rseq) as [LE|GT].
    + (* y comes completely before *)
      destruct (IH (pre ++ [y]) n s data rseq rupper c0 (c_upper y)) as (j & post' & evs & E & SI & WF & LK & FA & PL).
      * rewrite K, <- app_assoc. reflexivity.
      * destruct pre; discriminate.
      * apply Forall_app. split; [exact F|]. constructor; [lia|constructor].
      * exact W3.
      * exact LE.
      * exact R0.
      * exact R1.
      * exact R2.
      * exact HD.
      * intros ND p Hp. specialize (HG ND p Hp). cbn [look] in HG.
        replace (p <? c_upper y) with false in HG by lia. rewrite andb_false_r in HG. exact HG.
      * lia.
      * rewrite app_length. lia.
      * exists (S j), (y :: post'), evs. split.
        { rewrite E. rewrite <- app_assoc. cbn [app]. rewrite app_length. cbn [length]. replace (length pre + 1 + j)%nat with (length pre + S j)%nat by lia. reflexivity. }
        split; [exact SI|]. split; [cbn [wfl]; auto|].
        assert (LKY : forall p, rseq <= p -> look (y :: post) p = look post p).
        { intros p Hp. cbn [look]. replace (p <? c_upper y) with false by lia. rewrite andb_false_r. reflexivity. }
        split.
        { intros p. unfold first_wins in *. cbn [look].
          destruct ((c_seq y <=? p) && (p <? c_upper y)) eqn:EY.
          - destruct (cell_of y p) eqn:CY; [reflexivity|]. exfalso. revert CY. apply cell_of_some; [exact W2|lia].
          - apply LK. }
        split.
        { constructor; [left; left; reflexivity|].
          rewrite Forall_forall in *. intros c Hc. destruct (FA c Hc) as [A | (A & B & C)].
          - left. right. exact A.
          - right. rewrite LKY by exact A. auto. }
        destruct PL as (x & NX & HX). exists x. split; [exact NX|].
        destruct HX as [(A & B & C & D) | (A & B)].
        -- left. rewrite LKY by exact B. repeat split; auto. intros p Hp. rewrite LKY by lia. auto.
        -- right. split; [exact A|]. intros p Hp. rewrite LKY by lia. auto.
    + (* y is the first chunk not completely before *)
      destruct n as [|n]; [lia|].
      assert (BK : exists b rb, rev (k_chunks s) = b :: rb /\ rseq <> c_upper b).
      { rewrite K. destruct (@exists_last _ (y :: post)) as (l & b & EL); [discriminate|].
        exists b, (rev (pre ++ l)). split; [rewrite EL, app_assoc; apply rev_last|].
        assert (c_upper y <= c_upper b).
        { apply (wfl_last lo l b); [rewrite <- EL; cbn [wfl]; auto|rewrite <- EL; left; reflexivity]. }
        lia. }
      destruct BK as (b & rb & BK & BN).
      assert (CB : count_before rseq (y :: post) = 0%nat) by (cbn [count_before]; replace (c_upper y <=? rseq) with false by lia; reflexivity).
      pose proof (search rseq pre (y :: post) c0 F HC) as SR. rewrite CB, Nat.add_0_r in SR.
      destruct (Z.leb_spec rupper (c_seq y)) as [BE|OV].
      * (* y comes completely after *)
        exists 0%nat, (mkChunk data rseq rupper :: y :: post), [].
        split.
        { cbn [add_and_check]. rewrite BK. replace (rseq =? c_upper b) with false by lia.
          rewrite K, SR, nth_error_mid. replace (rupper <=? c_seq y) with true by lia.
          rewrite insert_at_app, Nat.add_0_r. unfold log, set_chunks. cbn. rewrite app_nil_r. reflexivity. }
        split; [constructor|]. split.
        { cbn [wfl]. cbn [c_seq c_upper]. split; [lia|]. split; [|split; [lia|split; auto]].
          unfold wfc. cbn [c_seq c_upper c_data]. repeat split; auto; lia. }
        assert (LN : forall p, p < c_seq y -> look (y :: post) p = None).
        { intros p Hp. apply (look_below (c_seq y)); [|lia]. cbn [wfl]. split; [lia|auto]. }
        split.
        { intros p. unfold first_wins. cbn [look c_seq c_upper].
          destruct ((rseq <=? p) && (p <? rupper)) eqn:E.
          - replace (c_seq y <=? p) with false by lia. cbn [andb].
            rewrite (look_below (c_upper y) post) by (auto; lia). apply seg_cell_of; [lia|exact HD|lia].
          - rewrite (seg_out data rseq rupper p) by (try exact HD; lia).
            destruct (if (c_seq y <=? p) && (p <? c_upper y) then cell_of y p else look post p); reflexivity. }
        split.
        { constructor.
          - right. cbn [c_seq c_upper]. split; [lia|]. split; [lia|]. apply LN. lia.
          - apply Forall_forall. intros c Hc. left. exact Hc. }
        exists (mkChunk data rseq rupper). split; [reflexivity|]. left. cbn [c_seq c_upper].
        split; [apply LN; lia|]. repeat split; intros; lia.
      * (* overlap *)
        destruct data as [d|].
        2:{ exfalso. specialize (HG eq_refl (Z.max rseq (c_seq y)) ltac:(lia)). cbn [look] in HG.
            replace (c_seq y <=? Z.max rseq (c_seq y)) with true in HG by lia.
            replace (Z.max rseq (c_seq y) <? c_upper y) with true in HG by lia. cbn [andb] in HG.
            revert HG. apply cell_of_some; [exact W2|lia]. }
        specialize (HD d eq_refl). clear HG.
        assert (DL : blen d < 2 ^ 64) by lia.
        assert (IY : forall p, c_seq y <= p < c_upper y -> look (y :: post) p <> None).
        { intros p Hp. rewrite (look_in lo (y :: post) y p); [|cbn [wfl]; auto|left; reflexivity|lia].
          apply cell_of_some; [exact W2|lia]. }
        assert (LB : forall p, p < c_seq y -> look (y :: post) p = None).
        { intros p Hp. apply (look_below (c_seq y)); [|lia]. cbn [wfl]. split; [lia|auto]. }
        assert (LA : forall p, c_upper y <= p -> look (y :: post) p = look post p).
        { intros p Hp. cbn [look]. replace (p <? c_upper y) with false by lia. rewrite andb_false_r. reflexivity. }
        set (start := Z.max rseq (c_seq y)).
        set (pfx := if rseq <? c_seq y then [mkChunk (Some (firstn (Z.to_nat (c_seq y - rseq)) d)) rseq (c_seq y)] else []).
        set (d1 := skipn (Z.to_nat (start - rseq)) d).
        assert (D1 : blen d1 = rupper - start) by (unfold d1, start; rewrite blen_skipn; lia).
        set (s1 := set_chunks s (pre ++ pfx ++ y :: post)).
        set (ci := (length pre + length pfx)%nat).
        assert (KS1 : k_chunks s1 = pre ++ pfx ++ y :: post) by reflexivity.
        (* the prefix part *)
        assert (P1 : (if rseq <? c_seq y then
                 let plen := u64 (c_seq y - rseq) in
                   scall (sub_to d plen) s (fun p =>
                   let s := set_chunks s (insert_at (k_chunks s) (length pre) (mkChunk (Some p) rseq (u64 (rseq + plen)))) in
                   scall (sub d plen (blen d)) s (fun d' =>
                   SOk (Some (length pre), S (length pre), Some d', u64 (rseq + plen)) s))
               else SOk (Some (length pre), length pre, Some d, rseq) s)
               = SOk (Some (length pre), ci, Some d1, start) s1).
        { unfold ci, s1, d1, pfx, start. destruct (Z.ltb_spec rseq (c_seq y)) as [PL|NP].
          - cbv zeta. rewrite (u64_id (c_seq y - rseq)) by lia.
            rewrite sub_to_head by lia. cbn [scall]. rewrite sub_tail by lia. cbn [scall].
            rewrite K, insert_at_app. rewrite u64_id by lia. cbn [length app].
            replace (Z.max rseq (c_seq y)) with (c_seq y) by lia.
            replace (rseq + (c_seq y - rseq)) with (c_seq y) by lia.
            replace (S (length pre)) with (length pre + 1)%nat by lia. reflexivity.
          - replace (Z.max rseq (c_seq y)) with rseq by lia. rewrite Z.sub_diag. cbn [Z.to_nat skipn length app].
            rewrite Nat.add_0_r. f_equal. unfold set_chunks. destruct s; cbn in *. rewrite K. reflexivity. }
        assert (NTH : nth_error (k_chunks s) (length pre) = Some y) by (rewrite K; apply nth_error_mid).
        set (olen := if rupper - start <? c_upper y - start then rupper - start else c_upper y - start).
        assert (EO : (let new_len := u64 (rupper - start) in let c_len := u64 (c_upper y - start) in
                      if new_len <? c_len then new_len else c_len) = olen).
        { cbv zeta. rewrite !u64_id by (unfold start; lia). reflexivity. }
        assert (OLD : exists od, match c_data y with
                      | Some d => sub d (u64 (start - c_seq y)) (u64 (start - c_seq y + olen))
                      | None => Ok [] end = Ok od).
        { destruct (c_data y) as [dy|]; [|eexists; reflexivity].
          apply sub_mid. rewrite u64_id by (unfold start; lia). rewrite (YD dy eq_refl). unfold start. lia. }
        destruct OLD as (od & OLD).
        assert (OL : 0 < olen <= rupper - start) by (unfold olen, start; destruct (rupper - Z.max rseq (c_seq y) <? c_upper y - Z.max rseq (c_seq y)) eqn:?; lia).
        assert (NEW : sub_to d1 olen = Ok (firstn (Z.to_nat olen) d1)) by (apply sub_to_head; lia).
        set (s2 := log s1 [EvOverlap (aseq s1 start) od (firstn (Z.to_nat olen) d1)]).
        assert (RUN : add_and_check (S n) (Some d) rseq rupper c0 s =
                 if olen <? rupper - start then
                   scall (sub d1 olen (blen d1)) s2 (fun d' =>
                   sbind (add_and_check n (Some d') (u64 (start + olen)) rupper ci s2) (fun r s =>
                   if Nat.eqb (length pre) ci then SOk r s else SOk (Some (length pre)) s))
                 else SOk (Some (length pre)) s2).
        { cbn [add_and_check]. rewrite BK. replace (rseq =? c_upper b) with false by lia.
          cbv zeta. rewrite <- K in SR. rewrite SR, NTH. replace (rupper <=? c_seq y) with false by lia.
          cbv zeta in P1, EO.
          match goal with |- sbind ?P ?Q = _ => change P with (if rseq <? c_seq y then
                   scall (sub_to d (u64 (c_seq y - rseq))) s (fun p =>
                   scall (sub d (u64 (c_seq y - rseq)) (blen d)) (set_chunks s (insert_at (k_chunks s) (length pre) (mkChunk (Some p) rseq (u64 (rseq + u64 (c_seq y - rseq)))))) (fun d' =>
                   SOk (Some (length pre), S (length pre), Some d', u64 (rseq + u64 (c_seq y - rseq))) (set_chunks s (insert_at (k_chunks s) (length pre) (mkChunk (Some p) rseq (u64 (rseq + u64 (c_seq y - rseq))))))))
               else SOk (Some (length pre), length pre, Some d, rseq) s) end.
          match type of P1 with ?A = _ => match goal with |- sbind ?B _ = _ => change B with A end end.
          rewrite P1. cbn [sbind]. rewrite EO, OLD. cbn [scall]. rewrite NEW. cbn [scall]. fold s2.
          rewrite (u64_id (rupper - start)) by (unfold start; lia). reflexivity. }
        rewrite RUN. clear RUN P1 EO.
        assert (PFW : forall l, wfl (c_seq y) l -> wfl lo (pfx ++ l)).
        { intros l Wl. unfold pfx. destruct (Z.ltb_spec rseq (c_seq y)); cbn [app].
          - cbn [wfl]. cbn [c_seq c_upper]. split; [lia|]. split; [|exact Wl].
            unfold wfc. cbn [c_seq c_upper c_data]. repeat split; try lia. intros q [= <-]. apply blen_firstn. lia.
          - eapply wfl_weaken; [|exact Wl]. lia. }
        assert (PFL : forall l p, look (pfx ++ l) p =
                 if (rseq <=? p) && (p <? c_seq y) then data_cells rseq d p else look l p).
        { intros l p. unfold pfx. destruct (Z.ltb_spec rseq (c_seq y)); cbn [app].
          - cbn [look c_seq c_upper]. destruct ((rseq <=? p) && (p <? c_seq y)) eqn:EP; [|reflexivity].
            rewrite seg_cell_of; [|lia|intros q [= <-]; apply blen_firstn; lia|lia].
            cbn [seg_cells]. apply data_cells_head; lia.
          - replace ((rseq <=? p) && (p <? c_seq y)) with false by lia. reflexivity. }
        assert (PFF : forall l, Forall (fun c => In c (y :: post) \/ (rseq <= c_seq c /\ c_upper c <= rupper /\ look (y :: post) (c_seq c) = None)) l ->
                      Forall (fun c => In c (y :: post) \/ (rseq <= c_seq c /\ c_upper c <= rupper /\ look (y :: post) (c_seq c) = None)) (pfx ++ l)).
        { intros l Fl. apply Forall_app. split; [|exact Fl]. unfold pfx. destruct (Z.ltb_spec rseq (c_seq y)); [|constructor].
          constructor; [|constructor]. right. cbn [c_seq c_upper]. repeat split; try lia. apply LB. lia. }
        destruct (Z.ltb_spec olen (rupper - start)) as [MORE|DONE].
        -- (* the remainder *)
           assert (OC : olen = c_upper y - start) by (unfold olen in *; destruct (rupper - start <? c_upper y - start) eqn:?; lia).
           rewrite sub_tail by lia. cbn [scall].
           replace (start + olen) with (c_upper y) by lia. rewrite u64_id by lia.
           destruct (IH (pre ++ pfx ++ [y]) n s2 (Some (skipn (Z.to_nat olen) d1)) (c_upper y) rupper ci (c_upper y))
             as (j & post' & evs & E & SI & WF & LK & FA & PL).
           ++ cbn [k_chunks s2 log]. rewrite KS1, <- !app_assoc. reflexivity.
           ++ destruct pre; [destruct pfx|]; discriminate.
           ++ apply Forall_app. split; [eapply Forall_impl; [|exact F]; cbn beta; intros; lia|].
              apply Forall_app. split; [|constructor; [lia|constructor]].
              unfold pfx. destruct (rseq <? c_seq y); constructor; [cbn [c_upper]; lia|constructor].
           ++ exact W3.
           ++ lia.
           ++ lia.
           ++ lia.
           ++ exact R2.
           ++ intros q [= <-]. rewrite blen_skipn by lia. lia.
           ++ discriminate.
           ++ lia.
           ++ rewrite !app_length. unfold ci. cbn [length]. lia.
           ++ match type of E with ?A = _ => match goal with |- context[sbind ?B _] => change B with A end end. rewrite E. cbn [sbind]. cbn [seg_cells] in LK.
              assert (DC : forall p, c_upper y <= p -> data_cells (c_upper y) (skipn (Z.to_nat olen) d1) p = data_cells rseq d p).
              { intros p Hp. unfold d1. rewrite skipn_skipn'.
                replace (Z.to_nat olen + Z.to_nat (start - rseq))%nat with (Z.to_nat (c_upper y - rseq)) by (unfold start in *; lia).
                replace (data_cells (c_upper y)) with (data_cells (rseq + (c_upper y - rseq))) by (f_equal; lia).
                apply data_cells_tail; lia. }
              exists (if Nat.eqb (length pre) ci then S j else 0)%nat, (pfx ++ y :: post'),
                ([EvOverlap (aseq s1 start) od (firstn (Z.to_nat olen) d1)] ++ evs).
              split.
              { assert (ST : log (set_chunks s2 ((pre ++ pfx ++ [y]) ++ post')) evs
                       = log (set_chunks s (pre ++ pfx ++ y :: post')) ([EvOverlap (aseq s1 start) od (firstn (Z.to_nat olen) d1)] ++ evs)).
                { unfold s2, s1, log, set_chunks. cbn. rewrite <- !app_assoc. reflexivity. }
                rewrite ST. destruct (Nat.eqb_spec (length pre) ci) as [EQ|NEQ].
                - f_equal. f_equal. rewrite !app_length. unfold ci in EQ. cbn [length]. lia.
                - rewrite Nat.add_0_r. reflexivity. }
              split. { cbn [app]. constructor; [exact Logic.I|exact SI]. }
              split. { apply PFW. cbn [wfl]. split; [lia|]. auto. }
              split.
              { intros p. rewrite PFL. unfold first_wins. cbn [seg_cells].
                destruct ((rseq <=? p) && (p <? c_seq y)) eqn:EP.
                - rewrite LB by lia. reflexivity.
                - cbn [look]. destruct ((c_seq y <=? p) && (p <? c_upper y)) eqn:EY.
                  + destruct (cell_of y p) eqn:CY; [reflexivity|]. exfalso. revert CY. apply cell_of_some; [exact W2|lia].
                  + rewrite LK. unfold first_wins. destruct (look post p) eqn:LP; [reflexivity|].
                    destruct (Z.leb_spec (c_upper y) p); [apply DC; lia|].
                    assert (N1 : data_cells (c_upper y) (skipn (Z.to_nat olen) d1) p = None)
                      by (unfold data_cells; replace (c_upper y <=? p) with false by lia; reflexivity).
                    assert (N2 : data_cells rseq d p = None)
                      by (unfold data_cells; replace ((rseq <=? p) && (p <? rseq + blen d)) with false by lia; reflexivity).
                    congruence. }
              split.
              { apply PFF. constructor; [left; left; reflexivity|].
                rewrite Forall_forall in *. intros c Hc. destruct (FA c Hc) as [A | (A & B & C)].
                - left. right. exact A.
                - right. rewrite LA by lia. repeat split; auto; lia. }
              destruct PL as (x & NX & HX).
              destruct (Nat.eqb_spec (length pre) ci) as [EQ|NEQ].
              { assert (PN : pfx = []) by (destruct pfx; [reflexivity|unfold ci in EQ; cbn [length] in EQ; lia]).
                assert (RS : c_seq y <= rseq) by (unfold pfx in PN; destruct (Z.ltb_spec rseq (c_seq y)); [discriminate|lia]).
                exists x. rewrite PN. cbn [app nth_error]. split; [exact NX|].
                destruct HX as [(A & B & C & D) | (A & B)].
                - left. rewrite LA by lia. repeat split; auto; try lia. intros p Hp.
                  destruct (Z.ltb_spec p (c_upper y)); [apply IY; lia|rewrite LA by lia; apply D; lia].
                - right. split; [exact A|]. intros p Hp.
                  destruct (Z.ltb_spec p (c_upper y)); [apply IY; lia|rewrite LA by lia; apply B; lia]. }
              { assert (PN : pfx = [mkChunk (Some (firstn (Z.to_nat (c_seq y - rseq)) d)) rseq (c_seq y)] /\ rseq < c_seq y).
                { unfold ci, pfx in *. destruct (Z.ltb_spec rseq (c_seq y)); [auto|exfalso; apply NEQ; cbn [length]; clear; lia]. }
                destruct PN as (PN & RS). eexists. rewrite PN. cbn [app nth_error]. split; [reflexivity|].
                left. cbn [c_seq c_upper]. split; [apply LB; lia|]. repeat split; try lia; intros; lia. }
        -- (* everything else of the new data is covered by y *)
           assert (UP : rupper <= c_upper y) by (unfold olen in *; destruct (rupper - start <? c_upper y - start) eqn:?; lia).
           exists 0%nat, (pfx ++ y :: post), [EvOverlap (aseq s1 start) od (firstn (Z.to_nat olen) d1)].
           split. { rewrite Nat.add_0_r. reflexivity. }
           split. { constructor; [exact Logic.I|constructor]. }
           split. { apply PFW. cbn [wfl]. split; [lia|auto]. }
           split.
           { intros p. rewrite PFL. unfold first_wins. cbn [seg_cells].
             destruct ((rseq <=? p) && (p <? c_seq y)) eqn:EP.
             - rewrite LB by lia. reflexivity.
             - destruct (look (y :: post) p) eqn:LP; [reflexivity|].
               destruct (Z_le_gt_dec rseq p) as [RP|RP].
               + destruct (Z.ltb_spec p (c_upper y)).
                 * exfalso. apply (IY p); [lia|exact LP].
                 * unfold data_cells. replace (p <? rseq + blen d) with false by lia. rewrite andb_false_r. reflexivity.
               + unfold data_cells. replace (rseq <=? p) with false by lia. reflexivity. }
           split. { apply PFF. apply Forall_forall. intros c Hc. left. exact Hc. }
           unfold pfx. destruct (Z.ltb_spec rseq (c_seq y)); cbn [app].
           ++ eexists. split; [reflexivity|]. left. cbn [c_seq c_upper]. split; [apply LB; lia|]. repeat split; intros; lia.
           ++ exists y. split; [reflexivity|]. right. split; [lia|]. intros p Hp. apply IY. lia.
Qed.
