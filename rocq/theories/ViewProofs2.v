From Verif Require Import Base StreamModel StreamSpec StreamProofs StreamProofs2 ViewModel ViewSpec ViewProofs.

(** *** Exact result of moving an iterator *)
Lemma move_exact ch i o' : wf ch -> ch_is_valid ch = true -> good ch i ->
  move_chunk ch i o' = Ok (option_map c_id (walk o' (ch_chunks ch))).
Proof.
  intros W V G. unfold move_chunk, good, it_chunk_hint in *. rewrite V in *. cbn [andb] in G.
  destruct (ch_in_range ch (it_off i)).
  - destruct (it_chunk i) as [id|].
    + destruct G as (c & Hin & <-). destruct (resolve_live ch c W Hin) as (a & s & Hch & E). rewrite E.
      destruct (c_in_range c o') eqn:Er.
      * rewrite (walk_unique (base ch) _ c o' (wf_contig _ W) Hin Er). reflexivity.
      * rewrite (find_chunk_ok ch o' (Some (c_id c)) W V); [reflexivity|]. exists c. auto.
    + rewrite (find_chunk_ok ch o' None W V I). reflexivity.
  - rewrite find_chunk_ok; auto. destruct (ch_chunks ch) as [|c cs] eqn:E; [exact I|].
    exists c. rewrite E. cbn. auto.
Qed.

Definition exact_it (ch : chain) (o : nat) : iter := mkIter o (option_map c_id (walk o (ch_chunks ch))).

Lemma it_incr_exact ch i n : wf ch -> ch_is_valid ch = true -> good ch i ->
  it_incr ch i n = Ok (match n with 0 => i | _ => exact_it ch (it_off i + n) end).
Proof. intros W V G. destruct n as [|n]; [reflexivity|]. unfold it_incr. rewrite move_exact by assumption. reflexivity. Qed.
Lemma it_decr_exact ch i n : wf ch -> ch_is_valid ch = true -> good ch i -> n <= it_off i ->
  it_decr ch i n = Ok (match n with 0 => i | _ => exact_it ch (it_off i - n) end).
Proof.
  intros W V G Hn. unfold it_decr. destruct (Nat.ltb_spec (it_off i) n); [lia|].
  destruct n as [|n]; [reflexivity|]. rewrite move_exact by assumption. reflexivity.
Qed.

Lemma exact_good ch o : good ch (exact_it ch o).
Proof.
  unfold good, it_chunk_hint, exact_it. cbn [it_off it_chunk]. destruct (_ && _); [|exact I].
  destruct (walk o (ch_chunks ch)) as [c|] eqn:E; [|exact I]. apply walk_in in E. exists c. tauto.
Qed.

(** *** Chunk decomposition of the content *)
Lemma suffix_ok ch c : wf ch -> In c (ch_chunks ch) ->
  exists a s, ch_chunks ch = a ++ c :: s /\ chunk_suffix ch (c_id c) = Ok (c, s) /\ c_off c = base ch + length (cells a).
Proof.
  intros W Hin. destruct (resolve_live ch c W Hin) as (a & s & Hch & E). exists a, s. split; [exact Hch|].
  split; [unfold chunk_suffix; rewrite E; reflexivity|].
  pose proof (wf_contig _ W) as H. rewrite Hch in H. apply contig_app in H. destruct H as [_ H]. cbn in H. apply H.
Qed.

Lemma cells_from ch a c s o : ch_chunks ch = a ++ c :: s -> c_off c = base ch + length (cells a) ->
  c_off c <= o <= c_end c ->
  skipn (o - base ch) (cells (ch_chunks ch)) = skipn (o - c_off c) (pcells (c_pay c)) ++ cells s.
Proof.
  intros Hch Ho Hr. rewrite Hch, cells_app, cells_cons.
  rewrite skipn_app_ge by lia. replace (o - base ch - length (cells a)) with (o - c_off c) by lia.
  rewrite skipn_app_le by (rewrite pcells_len; unfold c_end in Hr; lia). reflexivity.
Qed.

Lemma chunk_end_le ch a c s : wf ch -> ch_chunks ch = a ++ c :: s -> c_off c = base ch + length (cells a) ->
  c_end c + length (cells s) = ch_end ch.
Proof.
  intros W Hch Ho. rewrite (ch_end_eq _ (wf_contig _ W)), Hch, cells_app, cells_cons, !app_length, pcells_len.
  unfold c_end. lia.
Qed.

Lemma win_chunk ch a c s o hi : wf ch -> ch_chunks ch = a ++ c :: s -> c_off c = base ch + length (cells a) ->
  c_off c <= o < c_end c -> o < Nat.min hi (ch_end ch) ->
  win ch o hi = firstn (Nat.min hi (c_end c) - o) (skipn (o - c_off c) (pcells (c_pay c))) ++ win ch (c_end c) hi.
Proof.
  intros W Hch Ho Hr Hlt. pose proof (chunk_end_le ch a c s W Hch Ho) as HE. unfold win.
  rewrite (cells_from ch a c s o Hch Ho) by lia.
  rewrite (cells_from ch a c s (c_end c) Hch Ho) by lia.
  rewrite (skipn_all2 (n:=c_end c - c_off c) (pcells (c_pay c))) by (rewrite pcells_len; unfold c_end; lia).
  cbn [app].
  assert (HL : length (skipn (o - c_off c) (pcells (c_pay c))) = c_end c - o)
    by (rewrite skipn_length, pcells_len; unfold c_end; lia).
  destruct (Nat.le_gt_cases hi (c_end c)) as [H|H].
  - rewrite firstn_app_le by lia. replace (Nat.min hi (ch_end ch) - c_end c) with 0 by lia. cbn [firstn].
    rewrite app_nil_r. f_equal. lia.
  - rewrite firstn_app_ge by lia. rewrite HL.
    replace (Nat.min hi (ch_end ch) - o - (c_end c - o)) with (Nat.min hi (ch_end ch) - c_end c) by lia.
    f_equal. symmetry. apply firstn_all2. lia.
Qed.

(** *** Extraction *)
Lemma take_cells_app l : forall r n, n <= length l ->
  take_cells (map CByte l ++ r) n = Ok (firstn n l).
Proof.
  induction l as [|b l IH]; intros r n Hn; destruct n as [|n]; cbn in *; try reflexivity; [lia|].
  rewrite IH by lia. reflexivity.
Qed.
Lemma take_cells_app2 l : forall r n, length l <= n ->
  take_cells (map CByte l ++ r) n = let* x := take_cells r (n - length l) in Ok (l ++ x).
Proof.
  induction l as [|b l IH]; intros r n Hn; cbn [map app length].
  - rewrite Nat.sub_0_r. destruct (take_cells r n); reflexivity.
  - destruct n as [|n]; [cbn in Hn; lia|]. cbn [take_cells]. rewrite IH by (cbn in Hn; lia).
    cbn [Nat.sub]. destruct (take_cells r (n - length l)); reflexivity.
Qed.

Lemma extract_loop_ok cs : forall b o n, contig b cs ->
  match cs with [] => o = b | c :: _ => c_off c <= o < c_end c end ->
  n <= length (cells cs) - (o - b) ->
  extract_loop o n cs = take_cells (skipn (o - b) (cells cs)) n.
Proof.
  induction cs as [|c cs IH]; intros b o n Hc Ho Hn.
  - cbn in *. destruct n; [reflexivity|lia].
  - destruct n as [|n]; [destruct (skipn _ _); reflexivity|]. cbn [extract_loop].
    cbn [contig] in Hc. destruct Hc as (Hb & Hs & Hc).
    assert (Hr : c_in_range c o = true) by (apply in_range_iff; exact Ho).
    rewrite cells_cons in *. rewrite app_length, pcells_len in Hn.
    rewrite skipn_app_le by (rewrite pcells_len; unfold c_end in Ho; lia). rewrite <- Hb.
    destruct (c_pay c) as [bs|g] eqn:Ep; cbn [pcells].
    + rewrite Hr. assert (Hsz : c_size c = length bs) by (unfold c_size; rewrite Ep; reflexivity).
      unfold c_end in *. rewrite Hsz in *. rewrite skipn_map.
      set (m := Nat.min (S n) (length bs - (o - c_off c))).
      assert (HL : length (skipn (o - c_off c) bs) = length bs - (o - c_off c)) by apply skipn_length.
      destruct (Nat.le_gt_cases (S n) (length bs - (o - c_off c))) as [H|H].
      * replace (S n - m) with 0 by (unfold m; lia). replace m with (S n) by (unfold m; lia).
        rewrite take_cells_app by lia. destruct cs; cbn [extract_loop bind]; rewrite app_nil_r; reflexivity.
      * rewrite take_cells_app2 by lia. rewrite HL.
        assert (Hm : m = length bs - (o - c_off c)) by (unfold m; lia).
        rewrite (IH (c_off c + length bs)).
        -- replace (o + m - (c_off c + length bs)) with 0 by lia. cbn [skipn].
           replace (S n - m) with (S n - (length bs - (o - c_off c))) by lia.
           destruct (take_cells (cells cs) _); cbn [bind]; try reflexivity.
           rewrite firstn_all2 by lia. reflexivity.
        -- exact Hc.
        -- destruct cs as [|c2 cs]; [lia|]. cbn in Hc. lia.
        -- lia.
    + assert (Hsz : c_size c = g) by (unfold c_size; rewrite Ep; reflexivity). unfold c_end in *.
      destruct (skipn (o - c_off c) (repeat CGap g)) as [|x l] eqn:E.
      * exfalso. apply (f_equal (@length cell)) in E. rewrite skipn_length, repeat_length in E. cbn in E. lia.
      * assert (x = CGap).
        { apply (repeat_spec g CGap). rewrite <- (firstn_skipn (o - c_off c)). apply in_or_app. right. rewrite E. left. reflexivity. }
        subst x. reflexivity.
Qed.

Lemma take_cells_firstn w : forall m n, n <= m -> take_cells (firstn m w) n = take_cells w n.
Proof.
  induction w as [|x w IH]; intros m n H; [rewrite firstn_nil; reflexivity|].
  destruct m as [|m]; [replace n with 0 by lia; reflexivity|]. destruct n as [|n]; [reflexivity|].
  cbn [firstn take_cells]. rewrite IH by lia. reflexivity.
Qed.

Lemma v_extract_ok ch v n : wf ch -> ch_is_valid ch = true -> vgood ch v -> vrange ch v ->
  v_extract ch v n =
  let w := win ch (v_off v) (vhi ch v) in
  if length w <? n then Throw WouldBlock
  else let* bs := take_cells w n in let* v' := v_advance ch v n in Ok (bs, v').
Proof.
  intros W V G R. cbv zeta. unfold v_extract. rewrite (ensure_ok ch v V (proj1 R)). cbn [bind].
  rewrite (v_size_ok ch v W R). destruct (Nat.ltb_spec (length (win ch (v_off v) (vhi ch v))) n) as [H|H]; [reflexivity|].
  destruct (vrange_ok ch v W R) as [Hb Hr]. rewrite (win_length _ _ _ W Hb) in H.
  rewrite (find_chunk_ok ch _ None W V I). cbn [bind]. unfold v_advance.
  assert (HX : forall (X : bytes -> res (bytes * view)), 
    (let* cs := match walk (v_off v) (ch_chunks ch) with
             | None => Ok []
             | Some c => let* hs := chunk_suffix ch (c_id c) in Ok (fst hs :: snd hs)
             end in bind (extract_loop (v_off v) n cs) X) = bind (take_cells (win ch (v_off v) (vhi ch v)) n) X).
  { intros X. destruct (walk (v_off v) (ch_chunks ch)) as [c|] eqn:E.
    - destruct (walk_in _ _ _ E) as [Hin Hc]. apply in_range_iff in Hc.
      destruct (suffix_ok ch c W Hin) as (a & s & Hch & -> & Ho). cbn [bind fst snd].
      pose proof (wf_contig _ W) as HC. rewrite Hch in HC. apply contig_app in HC. destruct HC as [_ HC].
      pose proof (chunk_end_le ch a c s W Hch Ho) as HE.
      assert (HL : length (cells (c :: s)) = ch_end ch - c_off c)
        by (rewrite cells_cons, app_length, pcells_len; unfold c_end in HE; lia).
      rewrite (extract_loop_ok (c :: s) _ _ n HC).
      + f_equal. unfold win. rewrite take_cells_firstn by lia. f_equal.
        rewrite (cells_from ch a c s _ Hch Ho) by lia. rewrite cells_cons, skipn_app_le by (rewrite pcells_len; unfold c_end in Hc; lia).
        f_equal. f_equal. lia.
      + exact Hc.
      + rewrite HL. lia.
    - cbn [bind]. assert (n = 0).
      { pose proof (walk_spec (base ch) (ch_chunks ch) (v_off v) (wf_contig _ W) Hb) as Hw. rewrite E in Hw.
        apply nth_error_None in Hw. destruct (cells_length ch W). lia. }
      subst n. destruct (win ch (v_off v) (vhi ch v)); reflexivity. }
  rewrite HX. destruct (take_cells _ _); cbn [bind]; try reflexivity.
  destruct (it_incr ch (v_begin v) n); reflexivity.
Qed.

Lemma take_cells_bytes bs n : n <= length bs -> take_cells (map CByte bs) n = Ok (firstn n bs).
Proof. intros H. rewrite <- (app_nil_r (map CByte bs)). apply take_cells_app. exact H. Qed.

Lemma take_cells_gap w : forall n, n <= length w -> In CGap (firstn n w) -> take_cells w n = Throw MissingData.
Proof.
  induction w as [|x w IH]; intros n Hn Hin; destruct n as [|n]; cbn in *; try contradiction.
  destruct x as [b|]; [|reflexivity]. destruct Hin as [Hin|Hin]; [discriminate|]. rewrite IH by (auto; lia). reflexivity.
Qed.

(** *** Blocks *)
Lemma make_block_ok ch v a c s o first : wf ch -> ch_chunks ch = a ++ c :: s -> c_off c = base ch + length (cells a) ->
  c_off c <= o < c_end c -> o < Nat.min (vhi ch v) (ch_end ch) ->
  make_block ch v c s o first =
  match c_pay c with
  | PGap _ => Throw MissingData
  | PData bs =>
      let last := Nat.min (vhi ch v) (ch_end ch) <=? c_end c in
      Ok (mkBlock (firstn (Nat.min (vhi ch v) (c_end c) - o) (skipn (o - c_off c) bs)) o first last
            (if last then None else next_id s))
  end.
Proof.
  intros W Hch Ho Hr Hlt. pose proof (chunk_end_le ch a c s W Hch Ho) as HE.
  pose proof (wf_contig _ W) as HC. rewrite Hch in HC. apply contig_app in HC. destruct HC as [_ HC].
  assert (Hs : match s with [] => length (cells s) = 0 | _ => 0 < length (cells s) end).
  { destruct s as [|d s]; [reflexivity|]. cbn in HC. rewrite cells_cons, app_length, pcells_len. lia. }
  unfold make_block. set (is_last := _ || _).
  assert (HL : is_last = (Nat.min (vhi ch v) (ch_end ch) <=? c_end c)).
  { unfold is_last, vhi. destruct (v_end_off v) as [e|]; destruct s; cbn [orb]; lia. }
  set (size := match v_end_off v with Some _ => _ | None => _ end).
  assert (HS : size = Nat.min (vhi ch v) (c_end c) - o).
  { unfold size, vhi in *. destruct (v_end_off v) as [e|]; [|lia].
    destruct is_last; lia. }
  rewrite HL, HS. unfold c_slice. destruct (c_pay c) as [bs|g]; [|reflexivity].
  replace ((c_off c <=? o) && (o + (Nat.min (vhi ch v) (c_end c) - o) <=? c_end c)) with true by lia. reflexivity.
Qed.

Lemma blocks_ok ch v : wf ch -> ch_is_valid ch = true -> vrange ch v ->
  forall s a c o first fuel, ch_chunks ch = a ++ c :: s -> c_off c = base ch + length (cells a) ->
  c_off c <= o < c_end c -> o < Nat.min (vhi ch v) (ch_end ch) -> length s < fuel ->
  let X := (let* k := make_block ch v c s o first in blocks_from fuel ch v (Some k)) in
  (exists bs bl, win ch o (vhi ch v) = map CByte bs /\ X = Ok bl /\ bl <> [] /\ flat_map bk_data bl = bs /\
     well_numbered o first bl) \/
  (In CGap (win ch o (vhi ch v)) /\ X = Throw MissingData).
Proof.
  intros W V R. induction s as [|d s IH]; intros a c o first fuel Hch Ho Hr Hlt Hf X; subst X;
    rewrite (make_block_ok ch v a c _ o first W Hch Ho Hr Hlt);
    pose proof (win_chunk ch a c _ o (vhi ch v) W Hch Ho Hr Hlt) as Hw;
    pose proof (chunk_end_le ch a c _ W Hch Ho) as HE;
    assert (Hsz : length (pcells (c_pay c)) = c_size c) by apply pcells_len.
  - destruct (c_pay c) as [bs|g] eqn:Ep; cbn [pcells] in *.
    + left. cbn [cells flat_map length] in HE.
      replace (Nat.min (vhi ch v) (ch_end ch) <=? c_end c) with true by lia.
      rewrite (win_nil ch (c_end c)), app_nil_r in Hw by lia. rewrite skipn_map, firstn_map in Hw. rewrite Hw.
      destruct fuel as [|f]; [lia|]. cbn [bind blocks_from]. unfold v_next_block.
      rewrite (ensure_ok ch v V (proj1 R)). cbn [bind bk_next]. destruct f; cbn [bind blocks_from];
        (do 2 eexists; split; [reflexivity|]; split; [reflexivity|]; split; [discriminate|];
         split; [cbn; apply app_nil_r|]; cbn; repeat split;
         intros E; apply (f_equal (@length byte)) in E; rewrite firstn_length, skipn_length in E; rewrite map_length in Hsz;
         unfold c_end in *; cbn in E; lia).
    + right. split; [|reflexivity]. rewrite Hw. apply in_or_app. left.
      rewrite repeat_length in Hsz.
      assert (HL : 0 < length (firstn (Nat.min (vhi ch v) (c_end c) - o) (skipn (o - c_off c) (repeat CGap g))))
        by (rewrite firstn_length, skipn_length, repeat_length; unfold c_end in *; lia).
      destruct (firstn _ (skipn _ (repeat CGap g))) as [|x l] eqn:E; [cbn in HL; lia|].
      assert (x = CGap).
      { apply (repeat_spec g CGap). rewrite <- (firstn_skipn (o - c_off c)). apply in_or_app. right.
        rewrite <- (firstn_skipn (Nat.min (vhi ch v) (c_end c) - o)). apply in_or_app. left. rewrite E. left. reflexivity. }
      subst x. left. reflexivity.
  - destruct (c_pay c) as [bs|g] eqn:Ep; cbn [pcells] in *.
    + assert (HLb : length (firstn (Nat.min (vhi ch v) (c_end c) - o) (skipn (o - c_off c) bs)) = Nat.min (vhi ch v) (c_end c) - o)
        by (rewrite firstn_length, skipn_length; rewrite map_length in Hsz; unfold c_end in *; lia).
      destruct (Nat.leb_spec (Nat.min (vhi ch v) (ch_end ch)) (c_end c)) as [Hle|Hgt].
      * left. rewrite (win_nil ch (c_end c)), app_nil_r in Hw by lia. rewrite skipn_map, firstn_map in Hw. rewrite Hw.
        destruct fuel as [|f]; [lia|]. cbn [bind blocks_from]. unfold v_next_block.
        rewrite (ensure_ok ch v V (proj1 R)). cbn [bind bk_next]. destruct f; cbn [bind blocks_from];
          (do 2 eexists; split; [reflexivity|]; split; [reflexivity|]; split; [discriminate|];
           split; [cbn; apply app_nil_r|]; cbn [well_numbered bk_off bk_first bk_data bk_last]; repeat split;
           intros E; rewrite E in HLb; cbn in HLb; lia).
      * assert (Hch' : ch_chunks ch = (a ++ [c]) ++ d :: s) by (rewrite <- app_assoc; exact Hch).
        assert (Ho' : c_off d = base ch + length (cells (a ++ [c]))).
        { pose proof (wf_contig _ W) as HC. rewrite Hch' in HC. apply contig_app in HC. destruct HC as [_ HC]. cbn in HC. apply HC. }
        assert (HCd : c_end c = c_off d).
        { rewrite Ho', cells_app, app_length. unfold cells at 2. cbn [flat_map]. rewrite app_nil_r, pcells_len. unfold c_end. lia. }
        assert (Hd : 0 < c_size d).
        { pose proof (wf_contig _ W) as HC. rewrite Hch' in HC. apply contig_app in HC. destruct HC as [_ HC]. cbn in HC. apply HC. }
        destruct fuel as [|f]; [cbn in Hf; lia|]. cbn [bind blocks_from next_id]. unfold v_next_block.
        rewrite (ensure_ok ch v V (proj1 R)). cbn [bind bk_next].
        assert (Hind : In d (ch_chunks ch)) by (rewrite Hch'; apply in_or_app; right; left; reflexivity).
        destruct (suffix_ok ch d W Hind) as (a2 & s2 & Hch2 & -> & Ho2).
        assert (Hs2 : a2 = a ++ [c] /\ s2 = s).
        { assert (Hlen : length (cells a2) = length (cells (a ++ [c]))) by lia.
          pose proof (wf_nodup _ W) as HN.
          assert (H0 : a2 ++ d :: s2 = (a ++ [c]) ++ d :: s) by congruence.
          rewrite Hch' in HN. clear - H0 HN.
          revert a2 H0; induction (a ++ [c]) as [|x l IHl]; intros a2 H0.
          - destruct a2 as [|y a2]; [injection H0 as ->; auto|]. injection H0 as -> H0.
            cbn in HN. apply NoDup_cons_iff in HN. destruct HN as [HN _]. exfalso. apply HN.
            rewrite <- H0, map_app. apply in_or_app. right. left. reflexivity.
          - destruct a2 as [|y a2].
            + injection H0 as -> H0. cbn in HN. apply NoDup_cons_iff in HN. destruct HN as [HN _]. exfalso. apply HN.
              rewrite map_app. apply in_or_app. right. left. reflexivity.
            + injection H0 as -> H0. cbn in HN. apply NoDup_cons_iff in HN.
              destruct (IHl (proj2 HN) a2 H0) as [-> ->]. auto. }
        destruct Hs2 as [-> ->]. cbn [bind fst snd].
        destruct (IH (a ++ [c]) d (c_off d) false f Hch' Ho') as [(bs2 & bl & Hw2 & HX & Hne & Hfl & Hn)|[Hg HX]].
        -- unfold c_end. lia.
        -- lia.
        -- cbn in Hf. lia.
        -- left. exists (firstn (Nat.min (vhi ch v) (c_end c) - o) (skipn (o - c_off c) bs) ++ bs2).
           rewrite Hw, HCd, Hw2, skipn_map, firstn_map, map_app.
           destruct (make_block ch v d s (c_off d) false) as [k|e|]; cbn [bind] in *; try discriminate.
           rewrite HX. cbn [bind]. eexists. split; [reflexivity|]. split; [reflexivity|]. split; [discriminate|].
           split; [cbn [flat_map bk_data]; rewrite Hfl; reflexivity|].
           rewrite HCd in HLb. cbn [well_numbered bk_off bk_first bk_data bk_last]. repeat split.
           ++ intros E. rewrite E in HLb. cbn in HLb. lia.
           ++ destruct bl; [congruence|reflexivity].
           ++ rewrite HLb. replace (o + (Nat.min (vhi ch v) (c_off d) - o)) with (c_off d) by lia. exact Hn.
        -- right. split; [rewrite Hw, HCd; apply in_or_app; right; exact Hg|].
           destruct (make_block ch v d s (c_off d) false) as [k|e|]; cbn [bind] in *; try discriminate.
           ++ rewrite HX. reflexivity.
           ++ exact HX.
    + right. split; [|reflexivity]. rewrite Hw. apply in_or_app. left.
      rewrite repeat_length in Hsz.
      assert (HL : 0 < length (firstn (Nat.min (vhi ch v) (c_end c) - o) (skipn (o - c_off c) (repeat CGap g))))
        by (rewrite firstn_length, skipn_length, repeat_length; unfold c_end in *; lia).
      destruct (firstn _ (skipn _ (repeat CGap g))) as [|x l] eqn:E; [cbn in HL; lia|].
      assert (x = CGap).
      { apply (repeat_spec g CGap). rewrite <- (firstn_skipn (o - c_off c)). apply in_or_app. right.
        rewrite <- (firstn_skipn (Nat.min (vhi ch v) (c_end c) - o)). apply in_or_app. left. rewrite E. left. reflexivity. }
      subst x. left. reflexivity.
Qed.

Lemma v_blocks_ok ch v : wf ch -> ch_is_valid ch = true -> vgood ch v -> vrange ch v ->
  (exists bs bl, win ch (v_off v) (vhi ch v) = map CByte bs /\ v_blocks ch v = Ok bl /\ flat_map bk_data bl = bs /\
     well_numbered (v_off v) true bl) \/
  (In CGap (win ch (v_off v) (vhi ch v)) /\ v_blocks ch v = Throw MissingData).
Proof.
  intros W V G R. unfold v_blocks, v_first_block. rewrite (ensure_ok ch v V (proj1 R)), (ubegin_ok _ _ W V G). cbn [bind].
  destruct (uend_ok ch v W V G) as (ue & -> & Ho & _). cbn [bind].
  assert (R' : okrange ch (v_off v) (u_off ue)) by (rewrite Ho; apply vrange_ok; assumption).
  rewrite (u_eq_ok _ _ _ R'), Ho. unfold U. cbn [u_chunk u_off].
  destruct (walk (v_off v) (ch_chunks ch)) as [c|] eqn:E; cbn [option_map].
  - destruct (walk_in _ _ _ E) as [Hin Hc]. apply in_range_iff in Hc.
    destruct (Nat.leb_spec (Nat.min (vhi ch v) (ch_end ch)) (v_off v)) as [H|H].
    + left. exists [], []. cbn. rewrite win_nil by lia. auto.
    + rewrite (find_chunk_ok ch _ (Some (c_id c)) W V) by (exists c; auto). rewrite E. cbn [bind].
      destruct (suffix_ok ch c W Hin) as (a & s & Hch & -> & Hoff). cbn [bind fst snd].
      destruct (blocks_ok ch v W V R s a c (v_off v) true (S (length (ch_chunks ch))) Hch Hoff Hc H)
        as [(bs & bl & Hw & HX & _ & Hf & Hn)|[Hg HX]].
      * rewrite Hch, app_length. cbn. lia.
      * left. exists bs, bl. destruct (make_block _ _ _ _ _ _) as [k|e|]; cbn [bind] in *; try discriminate. auto.
      * right. split; [exact Hg|]. destruct (make_block _ _ _ _ _ _) as [k|e|]; cbn [bind] in *; try discriminate; [exact HX|congruence].
  - left. exists [], []. cbn. split; [|auto].
    pose proof (walk_spec (base ch) (ch_chunks ch) (v_off v) (wf_contig _ W) (proj1 R')) as Hw. rewrite E in Hw.
    apply nth_error_None in Hw. destruct (cells_length ch W). destruct R'. apply win_nil. lia.
Qed.
