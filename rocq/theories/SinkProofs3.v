(** Segments that end at or before the current position: with automatic trimming they may leave behind chunks whose
    bounds do not fit their data, but these never matter. *)
From Verif Require Import Base BytesModel SinkModel SinkSpec SinkProofs SinkProofs2.
Open Scope Z_scope.

Definition stalec (last : Z) (c : chunk) : Prop := 0 <= c_seq c < last /\ 0 <= c_upper c <= last.

Lemma add_old post : forall pre n s d rseq rupper c0 live last,
  k_chunks s = pre ++ post ++ live -> pre ++ post ++ live <> [] ->
  Forall (fun c => c_upper c <= rseq) pre -> Forall (stalec last) post -> wfl last live ->
  0 <= rseq -> rseq < rupper -> rupper <= last -> last < 2 ^ 64 -> blen d = rupper - rseq ->
  (S (length post) <= n)%nat -> (c0 <= length pre)%nat ->
  match add_and_check n (Some d) rseq rupper c0 s with
  | SCrash => False
  | SThrow e _ => e = OutOfRange
  | SOk r s' => exists i post' evs x, r = Some i /\ s' = log (set_chunks s (pre ++ post' ++ live)) evs
      /\ Forall silent evs /\ Forall (stalec last) post' /\ nth_error (pre ++ post' ++ live) i = Some x /\ c_upper x <= last
  end.
Proof.
  induction post as [|y post IH]; intros pre n s d rseq rupper c0 live last K NE F FS W R0 R1 R2 R3 HD HN HC.
  - cbn [app] in *. destruct n as [|n]; [cbn [length] in HN; lia|]. cbn [add_and_check]. rewrite K.
    set (x := mkChunk (Some d) rseq rupper).
    assert (SX : stalec last x) by (unfold stalec, x; cbn [c_seq c_upper]; lia).
    destruct live as [|y live].
    + rewrite app_nil_r in *.
      destruct (rev pre) as [|b rb] eqn:RB.
      { apply (f_equal (@rev chunk)) in RB. rewrite rev_involutive in RB. cbn in RB. congruence. }
      assert (NN : nth_error pre (c0 + count_before rseq (skipn c0 pre)) = None).
      { rewrite <- (app_nil_r pre) at 2. rewrite search by assumption. cbn [count_before]. rewrite Nat.add_0_r.
        apply nth_error_None. lia. }
      rewrite NN.
      assert (G : exists i post' evs y, Some (length pre) = Some i
                /\ set_chunks s (pre ++ [x]) = log (set_chunks s (pre ++ post' ++ [])) evs /\ Forall silent evs /\ Forall (stalec last) post'
                /\ nth_error (pre ++ post' ++ []) i = Some y /\ c_upper y <= last).
      { exists (length pre), [x], [], x. cbn [app]. repeat split.
        - unfold log, set_chunks. cbn. rewrite app_nil_r. reflexivity.
        - constructor.
        - constructor; [exact SX|constructor].
        - apply nth_error_mid.
        - unfold x. cbn [c_upper]. lia. }
      destruct (rseq =? c_upper b); exact G.
    + pose proof W as W'. cbn [wfl] in W'. destruct W' as (W1 & (Y0 & Y1 & Y2 & YD) & W3).
      assert (BK : exists b rb, rev (pre ++ y :: live) = b :: rb /\ rseq <> c_upper b).
      { destruct (@exists_last _ (y :: live)) as (l & b & EL); [discriminate|].
        exists b, (rev (pre ++ l)). split; [rewrite EL, app_assoc; apply rev_last|].
        assert (c_upper y <= c_upper b).
        { apply (wfl_last last l b); [rewrite <- EL; exact W|rewrite <- EL; left; reflexivity]. }
        lia. }
      destruct BK as (b & rb & BK & BN). rewrite BK. replace (rseq =? c_upper b) with false by lia.
      pose proof (search rseq pre (y :: live) c0 F HC) as SR. cbn [count_before] in SR.
      replace (c_upper y <=? rseq) with false in SR by lia. rewrite Nat.add_0_r in SR.
      rewrite SR, nth_error_mid. replace (rupper <=? c_seq y) with true by lia.
      rewrite insert_at_app. fold x.
      exists (length pre), [x], [], x. cbn [app]. repeat split.
      * unfold log, set_chunks. cbn. rewrite app_nil_r. reflexivity.
      * constructor.
      * constructor; [exact SX|constructor].
      * apply nth_error_mid.
      * unfold x. cbn [c_upper]. lia.
  - inversion FS as [|? ? (S1 & S2) FS']; subst. cbn [length] in HN.
    destruct (Z.leb_spec (c_upper y) rseq) as [LE|GT].
    + specialize (IH (pre ++ [y]) n s d rseq rupper c0 live last).
      rewrite <- !app_assoc in IH. cbn [app] in IH.
      specialize (IH K NE ltac:(apply Forall_app; split; [exact F|constructor; [lia|constructor]]) FS' W R0 R1 R2 R3 HD ltac:(lia)
        ltac:(rewrite app_length; lia)).
      destruct (add_and_check n (Some d) rseq rupper c0 s) as [r s'|e s'|]; [|exact IH|exact IH].
      destruct IH as (i & post' & evs & x & -> & E & SI & FP & NX & UX).
      rewrite <- !app_assoc in *. cbn [app] in *.
      exists i, (y :: post'), evs, x. repeat split; auto. constructor; [split; lia|exact FP].
    + destruct n as [|n]; [lia|]. cbn [add_and_check]. rewrite K.
      destruct (rev (pre ++ (y :: post) ++ live)) as [|b rb] eqn:RB.
      { apply (f_equal (@rev chunk)) in RB. rewrite rev_involutive in RB. cbn in RB. apply NE; exact RB. }
      pose proof (search rseq pre (y :: post ++ live) c0 F HC) as SR. cbn [count_before] in SR.
      replace (c_upper y <=? rseq) with false in SR by lia. rewrite Nat.add_0_r in SR.
      set (x := mkChunk (Some d) rseq rupper).
      assert (SX : stalec last x) by (unfold stalec, x; cbn [c_seq c_upper]; lia).
      destruct (Z.eqb_spec rseq (c_upper b)) as [EB|NB].
      { (* append to the end: then nothing is waiting *)
        destruct live as [|z live].
        - rewrite app_nil_r in *.
          exists (length (pre ++ y :: post)), (y :: post ++ [x]), [], x.
          rewrite app_nil_r. repeat split.
          + unfold log, set_chunks. cbn. rewrite <- app_assoc, app_nil_r. reflexivity.
          + constructor.
          + constructor; [split; lia|]. apply Forall_app. split; [exact FS'|constructor; [exact SX|constructor]].
          + replace (pre ++ y :: post ++ [x]) with ((pre ++ y :: post) ++ [x]) by (rewrite <- app_assoc; reflexivity).
            apply nth_error_mid.
          + unfold x. cbn [c_upper]. lia.
        - exfalso. destruct (@exists_last _ (z :: live)) as (l & b' & EL); [discriminate|].
          rewrite EL in RB. replace (pre ++ (y :: post) ++ l ++ [b']) with ((pre ++ (y :: post) ++ l) ++ [b']) in RB
            by (rewrite <- !app_assoc; reflexivity).
          rewrite rev_last in RB. injection RB as -> _.
          assert (I : In b (z :: live)) by (rewrite EL; apply in_or_app; right; left; reflexivity).
          destruct (wfl_in _ _ _ W I) as (D1 & (D2 & D3 & _)). lia. }
      cbn [app]. rewrite SR, nth_error_mid.
      destruct (Z.leb_spec rupper (c_seq y)) as [BE|OV].
      { rewrite insert_at_app. fold x.
        exists (length pre), (x :: y :: post), [], x. cbn [app]. repeat split.
        - unfold log, set_chunks. cbn. rewrite app_nil_r. reflexivity.
        - constructor.
        - constructor; [exact SX|exact FS].
        - apply nth_error_mid.
        - unfold x. cbn [c_upper]. lia. }
      (* overlap *)
      change (pre ++ y :: post ++ live) with (pre ++ (y :: post) ++ live). rewrite <- K.
      set (start := Z.max rseq (c_seq y)).
      set (pfx := if rseq <? c_seq y then [mkChunk (Some (firstn (Z.to_nat (c_seq y - rseq)) d)) rseq (c_seq y)] else []).
      set (d1 := skipn (Z.to_nat (start - rseq)) d).
      assert (D1 : blen d1 = rupper - start) by (unfold d1, start; rewrite blen_skipn; lia).
      set (s1 := set_chunks s (pre ++ pfx ++ y :: post ++ live)).
      set (ci := (length pre + length pfx)%nat).
      assert (KS1 : k_chunks s1 = pre ++ pfx ++ y :: post ++ live) by reflexivity.
      assert (P1 : (if rseq <? c_seq y then
               let plen := u64 (c_seq y - rseq) in
                 scall (sub_to d plen) s (fun p =>
                 let s := set_chunks s (insert_at (k_chunks s) (length pre) (mkChunk (Some p) rseq (u64 (rseq + plen)))) in
                 scall (sub d plen (blen d)) s (fun d' =>
                 SOk (Some (length pre), S (length pre), Some d', u64 (rseq + plen)) s))
             else SOk (Some (length pre), length pre, Some d, rseq) s)
             = SOk (Some (length pre), ci, Some d1, start) s1).
      { unfold ci, s1, d1, pfx, start. destruct (Z.ltb_spec rseq (c_seq y)) as [PL|NP].
        - cbv zeta. rewrite (u64_id (c_seq y - rseq)) by lia.
          rewrite sub_to_head by lia. cbn [scall]. rewrite sub_tail by lia. cbn [scall].
          rewrite K. cbn [app]. rewrite insert_at_app. rewrite u64_id by lia. cbn [length app].
          replace (Z.max rseq (c_seq y)) with (c_seq y) by lia.
          replace (rseq + (c_seq y - rseq)) with (c_seq y) by lia.
          replace (S (length pre)) with (length pre + 1)%nat by lia. reflexivity.
        - replace (Z.max rseq (c_seq y)) with rseq by lia. rewrite Z.sub_diag. cbn [Z.to_nat skipn length app].
          rewrite Nat.add_0_r. f_equal. unfold set_chunks. destruct s; cbn in *. rewrite K. reflexivity. }
      cbv zeta in P1 |- *.
      match type of P1 with ?A = _ => match goal with |- context[sbind ?B _] => change B with A end end.
      rewrite P1. cbn [sbind]. clear P1.
      set (olen := if u64 (rupper - start) <? u64 (c_upper y - start) then u64 (rupper - start) else u64 (c_upper y - start)).
      assert (OL : 0 <= olen <= rupper - start).
      { pose proof (Z.mod_pos_bound (c_upper y - start) (2 ^ 64) ltac:(lia)) as MB.
        unfold olen. rewrite (u64_id (rupper - start)) by (unfold start; lia). unfold u64 in *.
        destruct (rupper - start <? (c_upper y - start) mod 2 ^ 64) eqn:E; unfold start in *; lia. }
      assert (OLD : exists r, match c_data y with
                      | Some d => sub d (u64 (start - c_seq y)) (u64 (start - c_seq y + olen))
                      | None => Ok [] end = r /\ (exists a, r = Ok a) \/ match c_data y with
                      | Some d => sub d (u64 (start - c_seq y)) (u64 (start - c_seq y + olen))
                      | None => Ok [] end = Throw OutOfRange).
      { destruct (c_data y) as [dy|].
        - destruct (sub_cases dy (u64 (start - c_seq y)) (u64 (start - c_seq y + olen))) as [(r & E) | E].
          + exists (Ok r). left. split; [exact E|eauto].
          + exists UB. right. exact E.
        - exists (Ok []). left. split; [reflexivity|eauto]. }
      destruct OLD as (r & [(OLD & (od & ->)) | OLD]); rewrite OLD; cbn [scall]; [|reflexivity].
      assert (NEW : sub_to d1 olen = Ok (firstn (Z.to_nat olen) d1)) by (apply sub_to_head; lia).
      rewrite NEW. cbn [scall].
      set (ev := EvOverlap (aseq s1 start) od (firstn (Z.to_nat olen) d1)). set (s2 := log s1 [ev]).
      assert (PF : Forall (stalec last) pfx).
      { unfold pfx. destruct (Z.ltb_spec rseq (c_seq y)); constructor; [|constructor]. unfold stalec. cbn [c_seq c_upper]. lia. }
      rewrite (u64_id (rupper - start)) by (unfold start; lia).
      destruct (Z.ltb_spec olen (rupper - start)) as [MORE|DONE].
      * rewrite sub_tail by lia. cbn [scall].
        assert (OC : olen = u64 (c_upper y - start)).
        { unfold olen in *. rewrite (u64_id (rupper - start)) in * by (unfold start; lia).
          destruct (rupper - start <? u64 (c_upper y - start)); [lia|reflexivity]. }
        assert (NX : u64 (start + olen) = c_upper y).
        { rewrite OC. unfold u64. rewrite Zplus_mod_idemp_r. replace (start + (c_upper y - start)) with (c_upper y) by lia.
          apply Z.mod_small. lia. }
        assert (NX2 : start + olen = c_upper y).
        { rewrite <- NX. symmetry. apply u64_id. unfold start in *. lia. }
        rewrite NX.
        specialize (IH (pre ++ pfx ++ [y]) n s2 (skipn (Z.to_nat olen) d1) (c_upper y) rupper ci live last).
        assert (KS2 : k_chunks s2 = (pre ++ pfx ++ [y]) ++ post ++ live)
          by (cbn [k_chunks s2 log]; rewrite KS1, <- !app_assoc; reflexivity).
        specialize (IH KS2).
        assert (IH' : match add_and_check n (Some (skipn (Z.to_nat olen) d1)) (c_upper y) rupper ci s2 with
          | SCrash => False
          | SThrow e _ => e = OutOfRange
          | SOk r s' => exists i post' evs x, r = Some i /\ s' = log (set_chunks s2 ((pre ++ pfx ++ [y]) ++ post' ++ live)) evs
              /\ Forall silent evs /\ Forall (stalec last) post' /\ nth_error ((pre ++ pfx ++ [y]) ++ post' ++ live) i = Some x /\ c_upper x <= last
          end).
        { apply IH; auto.
          - destruct pre; [destruct pfx|]; discriminate.
          - apply Forall_app. split; [eapply Forall_impl; [|exact F]; cbn beta; intros; lia|].
            apply Forall_app. split; [|constructor; [lia|constructor]].
            unfold pfx. destruct (Z.ltb_spec rseq (c_seq y)); constructor; [cbn [c_upper]; unfold start in *; lia|constructor].
          - lia.
          - lia.
          - rewrite blen_skipn by lia. lia.
          - lia.
          - rewrite !app_length. unfold ci. cbn [length]. lia. }
        clear IH.
        match type of IH' with match ?A with _ => _ end => match goal with |- context[sbind ?B _] => change B with A end;
          destruct A as [r s'|e s'|]; cbn [sbind]; [|exact IH'|exact IH'] end.
        destruct IH' as (i & post' & evs & z & -> & E & SI & FP & NZ & UZ).
        assert (ST : s' = log (set_chunks s (pre ++ (pfx ++ y :: post') ++ live)) ([ev] ++ evs)).
        { rewrite E. unfold s2, s1, log, set_chunks. cbn. rewrite <- !app_assoc. reflexivity. }
        assert (FP' : Forall (stalec last) (pfx ++ y :: post')).
        { apply Forall_app. split; [exact PF|]. constructor; [split; lia|exact FP]. }
        assert (SI' : Forall silent ([ev] ++ evs)) by (constructor; [exact Logic.I|exact SI]).
        rewrite <- !app_assoc in NZ. cbn [app] in NZ.
        destruct (Nat.eqb_spec (length pre) ci) as [EQ|NEQ].
        -- exists i, (pfx ++ y :: post'), ([ev] ++ evs), z. repeat split; auto. rewrite <- app_assoc. exact NZ.
        -- destruct pfx as [|w pfx'] eqn:EP; [exfalso; apply NEQ; unfold ci; cbn [length]; clear; lia|].
           exists (length pre), ((w :: pfx') ++ y :: post'), ([ev] ++ evs), w. repeat split; auto.
           ++ cbn [app]. apply nth_error_mid.
           ++ inversion PF as [|? ? (A & B)]. lia.
      * exists (length pre), (pfx ++ y :: post), [ev].
        assert (FP' : Forall (stalec last) (pfx ++ y :: post)).
        { apply Forall_app. split; [exact PF|]. constructor; [split; lia|exact FS']. }
        destruct pfx as [|w pfx'] eqn:EP.
        -- exists y. cbn [app]. repeat split; auto; try lia. { constructor; [exact Logic.I|constructor]. } apply nth_error_mid.
        -- exists w. cbn [app]. repeat split; auto.
           ++ unfold s2, s1, log, set_chunks. cbn. rewrite <- app_assoc. reflexivity.
           ++ constructor; [exact Logic.I|constructor].
           ++ apply nth_error_mid.
           ++ inversion PF as [|? ? (A & B)]. lia.
Qed.
