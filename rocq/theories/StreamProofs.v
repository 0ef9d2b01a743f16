From Verif Require Import Base StreamModel StreamSpec.

Definition pcells (p : payload) : list cell :=
  match p with PData bs => map CByte bs | PGap n => repeat CGap n end.
Definition cells (cs : list chunk) : list cell := flat_map (fun c => pcells (c_pay c)) cs.

Lemma pcells_len c : length (pcells (c_pay c)) = c_size c.
Proof. unfold c_size. destruct (c_pay c); cbn [pcells]; [apply map_length|apply repeat_length]. Qed.

Lemma cells_cons c cs : cells (c :: cs) = pcells (c_pay c) ++ cells cs.
Proof. reflexivity. Qed.
Lemma cells_app a b : cells (a ++ b) = cells a ++ cells b.
Proof. unfold cells. apply flat_map_app. Qed.

Fixpoint contig (b : nat) (cs : list chunk) : Prop :=
  match cs with
  | [] => True
  | c :: cs' => c_off c = b /\ 0 < c_size c /\ contig (c_end c) cs'
  end.

Definition base (ch : chain) : nat :=
  match ch_chunks ch with [] => ch_hoff ch | c :: _ => c_off c end.

Definition fresh_id (ch : chain) (id : nat) : Prop :=
  id < ch_fresh ch /\ ~ In id (map c_id (ch_chunks ch)).

Record wf (ch : chain) : Prop := {
  wf_contig : contig (base ch) (ch_chunks ch);
  wf_nodup : NoDup (map c_id (ch_chunks ch));
  wf_ids : forall id, In id (map c_id (ch_chunks ch)) -> id < ch_fresh ch;
  wf_cached : forall k, ch_cached ch = Some k -> fresh_id ch (c_id k);
  wf_hoff : match ch_chunks ch with [] => True | c :: _ => c_off c <= ch_hoff ch < c_end c end
}.

(** The two flavours of cached chunk pointers an iterator may hold. *)
Definition it_ok (ch : chain) (h : handle) (i : iter) : Prop :=
  it_off i = h_off h /\
  match it_chunk i with
  | None => True
  | Some id =>
      if h_end h then
        (exists c, In c (ch_chunks ch) /\ c_id c = id /\ c_off c < it_off i <= c_end c) \/ it_off i <= base ch
      else
        (exists c, In c (ch_chunks ch) /\ c_id c = id /\ c_off c <= it_off i < c_end c) \/ it_off i < base ch
  end.

Record sim (s : client) (q : queue) : Prop := {
  sim_its : length (cl_its s) = length (q_hs q);
  sim_off : forall k h i, nth_error (q_hs q) k = Some h -> nth_error (cl_its s) k = Some i -> it_off i = h_off h;
  sim_stats : q_stats q = ch_stats (cl_chain s);
  sim_state : ch_state (cl_chain s) =
              (if q_dead q then SInvalid else if q_frozen q then SFrozen else SMutable);
  sim_dead : q_dead q = true ->
             ch_chunks (cl_chain s) = [] /\ ch_hoff (cl_chain s) = 0 /\ q_begin q = 0 /\ q_cells q = [] /\
             q_frozen q = false;
  sim_live : q_dead q = false ->
             wf (cl_chain s) /\ q_begin q = ch_hoff (cl_chain s) /\
             q_cells q = skipn (ch_hoff (cl_chain s) - base (cl_chain s)) (cells (ch_chunks (cl_chain s))) /\
             (forall k h i, nth_error (q_hs q) k = Some h -> nth_error (cl_its s) k = Some i ->
                            it_ok (cl_chain s) h i)
}.

(** *** Facts about contiguous chunk lists *)
Lemma contig_end_last cs : forall b, contig b cs -> cs <> [] ->
  exists t, last_chunk cs = Some t /\ c_end t = b + length (cells cs) /\ In t cs.
Proof.
  induction cs as [|c cs IH] using rev_ind; intros b H Hn; [congruence|].
  clear Hn. unfold last_chunk. rewrite rev_app_distr. cbn [rev app].
  exists c. repeat split; [|apply in_or_app; right; left; reflexivity].
  clear IH. revert b H. induction cs as [|x cs IH]; intros b H.
  - cbn in H. cbn [app]. rewrite cells_cons, app_length, pcells_len. cbn. unfold c_end. lia.
  - cbn [app] in *. cbn [contig] in H. destruct H as (Hx & Hs & H).
    rewrite cells_cons, app_length, pcells_len. rewrite (IH _ H). unfold c_end at 1. lia.
Qed.

Lemma contig_app a b cs : contig b (a ++ cs) <-> contig b a /\ contig (b + length (cells a)) cs.
Proof.
  revert b; induction a as [|x a IH]; intros b; cbn [app contig].
  - cbn. rewrite Nat.add_0_r. tauto.
  - rewrite IH, cells_cons, app_length, pcells_len. unfold c_end.
    split; intros H; repeat match goal with H : _ /\ _ |- _ => destruct H end; subst;
      repeat split; auto; rewrite ?Nat.add_assoc in *; auto.
Qed.

Lemma contig_in b cs c : contig b cs -> In c cs -> b <= c_off c /\ c_end c <= b + length (cells cs) /\ 0 < c_size c.
Proof.
  revert b; induction cs as [|x cs IH]; intros b H Hin; [destruct Hin|].
  cbn [contig] in H. destruct H as (Hx & Hs & H). rewrite cells_cons, app_length, pcells_len.
  destruct Hin as [->|Hin].
  - unfold c_end. lia.
  - destruct (IH _ H Hin) as (A & B & C). unfold c_end in *. lia.
Qed.

Lemma ch_end_eq ch : contig (base ch) (ch_chunks ch) ->
  ch_end ch = base ch + length (cells (ch_chunks ch)).
Proof.
  intros H. unfold ch_end, ch_tail, base in *.
  destruct (ch_chunks ch) as [|c cs] eqn:E.
  - cbn. lia.
  - destruct (contig_end_last _ _ H) as (t & -> & -> & _); [congruence|reflexivity].
Qed.

Lemma in_range_iff c o : c_in_range c o = true <-> c_off c <= o < c_end c.
Proof. unfold c_in_range. lia. Qed.
Lemma in_range_niff c o : c_in_range c o = false <-> ~ (c_off c <= o < c_end c).
Proof. unfold c_in_range. lia. Qed.

Lemma walk_none_before o b cs : contig b cs -> o < b -> walk o cs = None.
Proof.
  intros H Ho. unfold walk. destruct (find _ cs) as [c|] eqn:E; [|reflexivity].
  apply find_some in E. destruct E as [Hin Hr]. apply in_range_iff in Hr.
  pose proof (contig_in _ _ _ H Hin). lia.
Qed.

Lemma walk_skip o a cs b : contig b (a ++ cs) -> b + length (cells a) <= o -> walk o (a ++ cs) = walk o cs.
Proof.
  revert b; induction a as [|x a IH]; intros b H Ho; [reflexivity|].
  cbn [app contig] in H. destruct H as (Hx & Hs & H).
  rewrite cells_cons, app_length, pcells_len in Ho.
  cbn [app]. unfold walk. cbn [find].
  destruct (c_in_range x o) eqn:E; [apply in_range_iff in E; unfold c_end in E; lia|].
  apply (IH _ H). unfold c_end. lia.
Qed.

(** The chunk found contains the offset, and reading it gives the cell at that offset. *)
Lemma walk_spec b cs o : contig b cs -> b <= o ->
  match walk o cs with
  | None => nth_error (cells cs) (o - b) = None
  | Some c => In c cs /\ c_in_range c o = true /\
              nth_error (cells cs) (o - b) = nth_error (pcells (c_pay c)) (o - c_off c)
  end.
Proof.
  revert b; induction cs as [|x cs IH]; intros b H Hb.
  - cbn. destruct (o - b); reflexivity.
  - cbn [contig] in H. destruct H as (Hx & Hs & H). unfold walk. cbn [find].
    destruct (c_in_range x o) eqn:E.
    + split; [left; reflexivity|]. split; [exact E|].
      apply in_range_iff in E. rewrite cells_cons, nth_error_app1; [subst b; reflexivity|].
      rewrite pcells_len. unfold c_end in E. lia.
    + apply in_range_niff in E.
      assert (Ho : c_end x <= o) by lia.
      specialize (IH _ H Ho). unfold walk in IH.
      rewrite cells_cons, nth_error_app2 by (rewrite pcells_len; unfold c_end in *; lia).
      rewrite pcells_len. replace (o - b - c_size x) with (o - c_end x) by (unfold c_end; lia).
      destruct (find _ cs) as [c|]; [|exact IH].
      destruct IH as (A & B & C). split; [right; exact A|]. split; assumption.
Qed.

Lemma c_read_spec c o : c_in_range c o = true ->
  c_read c o = match nth_error (pcells (c_pay c)) (o - c_off c) with
               | Some (CByte x) => Ok x
               | Some CGap => Throw MissingData
               | None => UB
               end.
Proof.
  intros H. unfold c_read. rewrite H. apply in_range_iff in H. unfold c_end, c_size in H.
  destruct (c_pay c) as [bs|n]; cbn [pcells].
  - rewrite nth_error_map. destruct (nth_error bs _); reflexivity.
  - rewrite nth_error_repeat by lia. reflexivity.
Qed.

(** *** Pointer resolution *)
Lemma live_suffix_in c cs : NoDup (map c_id cs) -> In c cs ->
  exists a s, cs = a ++ c :: s /\ live_suffix (c_id c) cs = Some (c :: s).
Proof.
  induction cs as [|x cs IH]; intros Hn Hin; [destruct Hin|].
  cbn [map] in Hn. apply NoDup_cons_iff in Hn. destruct Hn as [Hx Hn].
  destruct Hin as [->|Hin].
  - exists [], cs. cbn [live_suffix app]. rewrite Nat.eqb_refl. auto.
  - destruct (IH Hn Hin) as (a & s & Ha & Hs). exists (x :: a), s.
    cbn [live_suffix app]. rewrite Ha at 1. split; [reflexivity|].
    destruct (Nat.eqb_spec (c_id x) (c_id c)) as [E|E]; [|exact Hs].
    exfalso. apply Hx. rewrite E. apply in_map. exact Hin.
Qed.

Lemma resolve_live ch c : wf ch -> In c (ch_chunks ch) ->
  exists a s, ch_chunks ch = a ++ c :: s /\ resolve ch (c_id c) = TLive (c :: s).
Proof.
  intros W Hin. destruct (live_suffix_in c (ch_chunks ch) (wf_nodup _ W) Hin) as (a & s & Ha & Hs).
  exists a, s. split; [exact Ha|]. unfold resolve. rewrite Hs. reflexivity.
Qed.

Definition hint_ok (ch : chain) (hint : option nat) : Prop :=
  match hint with None => True | Some id => exists c, In c (ch_chunks ch) /\ c_id c = id end.

Lemma find_chunk_live ch c o : wf ch -> In c (ch_chunks ch) ->
  match resolve ch (c_id c) with
  | TDangling => UB
  | TLive [] => UB
  | TLive (h :: s) => if c_off h <=? o then Ok (walk o (h :: s)) else Ok (walk o (ch_chunks ch))
  | TCached k => if c_off k <=? o then Ok (walk o [k]) else Ok (walk o (ch_chunks ch))
  end = Ok (walk o (ch_chunks ch)).
Proof.
  intros W Hin. destruct (resolve_live _ _ W Hin) as (a & s & Ha & ->).
  destruct (Nat.leb_spec (c_off c) o) as [Hle|Hgt]; [|reflexivity].
  f_equal. rewrite Ha. symmetry. apply (walk_skip o a (c :: s) (base ch)).
  - rewrite <- Ha. apply W.
  - pose proof (wf_contig _ W) as Hc. rewrite Ha in Hc. apply contig_app in Hc.
    destruct Hc as [_ [Hc _]]. lia.
Qed.

Lemma find_chunk_ok ch o hint : wf ch -> ch_is_valid ch = true -> hint_ok ch hint ->
  find_chunk ch o hint = Ok (walk o (ch_chunks ch)).
Proof.
  intros W V H. unfold find_chunk. rewrite V. cbn [negb].
  destruct hint as [id|].
  - destruct H as (c & Hin & <-). apply find_chunk_live; assumption.
  - unfold ch_tail. destruct (ch_chunks ch) as [|x cs] eqn:E; [cbn; reflexivity|].
    destruct (contig_end_last (x :: cs) (base ch)) as (t & Ht & _ & Hin); [rewrite <- E; apply W|congruence|].
    rewrite Ht. rewrite <- E in *. apply find_chunk_live; assumption.
Qed.

(** *** The available range *)
Lemma avail ch : wf ch ->
  length (skipn (ch_hoff ch - base ch) (cells (ch_chunks ch))) = ch_end ch - ch_hoff ch /\
  base ch <= ch_hoff ch <= ch_end ch.
Proof.
  intros W. rewrite skipn_length. rewrite (ch_end_eq _ (wf_contig _ W)).
  pose proof (wf_hoff _ W) as Hh. pose proof (wf_contig _ W) as Hc. unfold base in *.
  destruct (ch_chunks ch) as [|c cs]; [cbn; lia|].
  cbn [contig] in Hc. rewrite cells_cons, app_length, pcells_len. unfold c_end in *. lia.
Qed.

Lemma get_spec ch o : wf ch ->
  (if o <? ch_hoff ch then None else nth_error (skipn (ch_hoff ch - base ch) (cells (ch_chunks ch))) (o - ch_hoff ch)) =
  if ch_in_range ch o then nth_error (cells (ch_chunks ch)) (o - base ch) else None.
Proof.
  intros W. destruct (avail ch W) as [Hl Hb]. unfold ch_in_range.
  destruct (Nat.ltb_spec o (ch_hoff ch)) as [Hlt|Hge].
  - destruct (Nat.leb_spec (ch_hoff ch) o); [lia|]. reflexivity.
  - destruct (Nat.leb_spec (ch_hoff ch) o); [|lia]. cbn [andb].
    destruct (Nat.ltb_spec o (ch_end ch)).
    + rewrite nth_error_skipn. f_equal. lia.
    + apply nth_error_None. rewrite Hl. lia.
Qed.

(** Hint held by an iterator that the client may move or dereference. *)
Lemma it_hint_ok ch h i : wf ch -> it_ok ch h i -> ch_in_range ch (it_off i) = true ->
  h_end h && (h_off h =? ch_hoff ch) = false -> hint_ok ch (it_chunk i).
Proof.
  intros W [Ho Hi] Hr Hf. unfold hint_ok. destruct (it_chunk i) as [id|]; [|exact I].
  destruct (avail ch W) as [_ Hb]. unfold ch_in_range in Hr.
  destruct (h_end h).
  - destruct Hi as [(c & A & B & C)|C]; [exists c; auto|]. rewrite Ho in *. cbn [andb] in Hf. lia.
  - destruct Hi as [(c & A & B & C)|C]; [exists c; auto|lia].
Qed.

Lemma q_get_in_range q ch o : wf ch -> q_begin q = ch_hoff ch ->
  q_cells q = skipn (ch_hoff ch - base ch) (cells (ch_chunks ch)) ->
  q_get q o = if ch_in_range ch o then nth_error (cells (ch_chunks ch)) (o - base ch) else None.
Proof.
  intros W Hb Hc. unfold q_get. rewrite Hb, Hc. apply get_spec. exact W.
Qed.

Lemma deref_ok ch h i q : wf ch -> ch_is_valid ch = true -> q_dead q = false -> q_begin q = ch_hoff ch ->
  q_cells q = skipn (ch_hoff ch - base ch) (cells (ch_chunks ch)) ->
  it_ok ch h i -> h_end h && (h_off h =? ch_hoff ch) = false ->
  it_deref ch i = q_read q (h_off h).
Proof.
  intros W V D Hb Hc Hi Hf. unfold it_deref, q_read. rewrite V, D. cbn [negb].
  rewrite (q_get_in_range q ch _ W Hb Hc). pose proof (proj1 Hi) as Ho. rewrite Ho.
  destruct (ch_in_range ch (h_off h)) eqn:R; cbn [negb]; [|reflexivity].
  assert (Hh : hint_ok ch (it_chunk_hint ch i)).
  { unfold it_chunk_hint. rewrite V, Ho, R. cbn [andb].
    apply (it_hint_ok ch h i W); [exact Hi| rewrite Ho; exact R|exact Hf]. }
  rewrite (find_chunk_ok _ _ _ W V Hh). cbn [bind].
  destruct (avail ch W) as [_ Hav]. unfold ch_in_range in R.
  pose proof (walk_spec (base ch) (ch_chunks ch) (h_off h) (wf_contig _ W)) as HW.
  destruct (walk (h_off h) (ch_chunks ch)) as [c|].
  - destruct HW as (_ & Hir & Hn); [lia|]. rewrite c_read_spec by exact Hir. rewrite <- Hn.
    destruct (nth_error _ _) as [[x|]|] eqn:En; try reflexivity.
    exfalso. apply nth_error_None in En. rewrite (ch_end_eq _ (wf_contig _ W)) in R. lia.
  - exfalso. assert (Hn := HW ltac:(lia)). apply nth_error_None in Hn.
    rewrite (ch_end_eq _ (wf_contig _ W)) in R. lia.
Qed.

Lemma walk_it_ok ch o b : wf ch ->
  it_ok ch (mkHandle o b) (mkIter o (option_map c_id (walk o (ch_chunks ch)))) \/ b = true.
Proof.
  intros W. destruct b; [right; reflexivity|left]. split; [reflexivity|]. cbn [it_chunk it_off h_end].
  destruct (walk o (ch_chunks ch)) as [c|] eqn:E; cbn [option_map]; [|exact I].
  left. exists c. unfold walk in E. apply find_some in E. destruct E as [Hin Hr].
  apply in_range_iff in Hr. auto.
Qed.

Lemma move_ok ch h i o' : wf ch -> ch_is_valid ch = true -> it_ok ch h i ->
  h_end h && (h_off h =? ch_hoff ch) = false ->
  exists c, move_chunk ch i o' = Ok c /\ it_ok ch (mkHandle o' false) (mkIter o' c).
Proof.
  intros W V Hi Hf. unfold move_chunk. rewrite V.
  assert (Hfind : forall hint, hint_ok ch hint ->
    exists c, (let* c := find_chunk ch o' hint in Ok (option_map c_id c)) = Ok c /\
              it_ok ch (mkHandle o' false) (mkIter o' c)).
  { intros hint Hh. rewrite (find_chunk_ok _ _ _ W V Hh). cbn [bind].
    eexists. split; [reflexivity|].
    destruct (walk_it_ok ch o' false W) as [H|H]; [exact H|discriminate]. }
  destruct (ch_in_range ch (it_off i)) eqn:R.
  - pose proof (it_hint_ok ch h i W Hi R Hf) as Hh.
    destruct (it_chunk i) as [id|]; [|apply Hfind; exact I].
    destruct Hh as (c & Hin & <-). destruct (resolve_live _ _ W Hin) as (a & s & Ha & ->).
    destruct (c_in_range c o') eqn:E.
    + exists (Some (c_id c)). split; [reflexivity|]. split; [reflexivity|]. cbn.
      left. exists c. apply in_range_iff in E. auto.
    + apply Hfind. exists c. auto.
  - apply Hfind. destruct (ch_chunks ch) as [|c cs] eqn:E; [exact I|].
    exists c. rewrite E. split; [left|]; reflexivity.
Qed.

(** *** Appending *)
Lemma link_last_snoc cs t c : link_last (cs ++ [t]) c = cs ++ [c_make_owning t; c_set_off c (c_end t)].
Proof.
  induction cs as [|x cs IH]; [reflexivity|]. cbn [app].
  change (link_last (x :: cs ++ [t]) c) with
    (match cs ++ [t] with [] => [c_make_owning x; c_set_off c (c_end x)] | _ => x :: link_last (cs ++ [t]) c end).
  rewrite IH. destruct cs; reflexivity.
Qed.

Lemma make_owning_id c : c_id (c_make_owning c) = c_id c.
Proof. unfold c_make_owning. destruct (_ || _); reflexivity. Qed.
Lemma make_owning_off c : c_off (c_make_owning c) = c_off c.
Proof. unfold c_make_owning. destruct (_ || _); reflexivity. Qed.
Lemma make_owning_pay c : c_pay (c_make_owning c) = c_pay c.
Proof. unfold c_make_owning. destruct (_ || _); reflexivity. Qed.
Lemma make_owning_size c : c_size (c_make_owning c) = c_size c.
Proof. unfold c_size. rewrite make_owning_pay. reflexivity. Qed.
Lemma make_owning_end c : c_end (c_make_owning c) = c_end c.
Proof. unfold c_end. rewrite make_owning_off, make_owning_size. reflexivity. Qed.

Lemma append_chunks ch c : wf ch -> 0 < c_size c -> c_id c < ch_fresh ch ->
  ~ In (c_id c) (map c_id (ch_chunks ch)) ->
  (forall k, ch_cached ch = Some k -> c_id k <> c_id c) ->
  ch_state ch = SMutable ->
  exists ch', append_chunk ch c = (ch', Ok tt) /\ wf ch' /\ ch_state ch' = SMutable /\
    ch_hoff ch' = ch_hoff ch /\ base ch' = base ch /\
    cells (ch_chunks ch') = cells (ch_chunks ch) ++ pcells (c_pay c) /\
    ch_stats ch' = stats_add (ch_stats ch) c /\
    (forall x, In x (ch_chunks ch) -> exists x', In x' (ch_chunks ch') /\ c_id x' = c_id x /\
        c_off x' = c_off x /\ c_end x' = c_end x).
Proof.
  intros W Hs Hid Hnin Hk Hst. unfold append_chunk. rewrite Hst.
  eexists. split; [reflexivity|].
  destruct (ch_chunks ch) as [|x cs] eqn:E.
  - cbn [ch_chunks ch_hoff ch_state base ch_stats ch_cached ch_fresh].
    split; [|repeat split].
    + constructor; cbn [ch_chunks ch_hoff ch_cached ch_fresh base map].
      * cbn. auto.
      * constructor; [intros []|constructor].
      * intros id [<-|[]]. exact Hid.
      * intros k Hck. destruct (wf_cached _ W k Hck) as [A B]. split; [exact A|].
        cbn [ch_chunks map]. intros [B'|[]]. apply (Hk k Hck). symmetry. exact B'.
      * unfold c_end. cbn [c_off c_set_off]. unfold c_size in *. cbn. lia.
    + unfold base. cbn. rewrite E. reflexivity.
    + cbn. rewrite app_nil_r. reflexivity.
    + intros y [].
  - assert (Hx : exists pre t, x :: cs = pre ++ [t]).
    { destruct (@exists_last _ (x :: cs)) as (pre & t & Ht); [congruence|]. eauto. }
    destruct Hx as (pre & t & Ht). rewrite Ht. rewrite link_last_snoc.
    cbn [ch_chunks ch_hoff ch_state ch_stats ch_cached ch_fresh].
    assert (Hcontig : contig (base ch) (pre ++ [t])) by (rewrite <- Ht, <- E; apply W).
    assert (Hbase : base ch = c_off (hd t pre)).
    { unfold base. rewrite E. destruct pre as [|y pre]; cbn [app] in Ht; injection Ht as -> _; reflexivity. }
    assert (Hb' : base (mkChain SMutable (pre ++ [c_make_owning t; c_set_off c (c_end t)]) (ch_hoff ch)
       (stats_add (ch_stats ch) c) (ch_cached ch) (ch_fresh ch)) = base ch).
    { rewrite Hbase. unfold base. cbn [ch_chunks]. destruct pre; cbn; [apply make_owning_off|reflexivity]. }
    assert (Hmap : map c_id (pre ++ [c_make_owning t; c_set_off c (c_end t)]) =
                   map c_id (ch_chunks ch) ++ [c_id c]).
    { rewrite E, Ht, !map_app. cbn [map]. rewrite make_owning_id, <- app_assoc. reflexivity. }
    assert (Hcells : cells (pre ++ [c_make_owning t; c_set_off c (c_end t)]) =
                     cells (pre ++ [t]) ++ pcells (c_pay c)).
    { rewrite !cells_app, !cells_cons, make_owning_pay. cbn [c_set_off c_pay cells flat_map].
      rewrite !app_nil_r, app_assoc. reflexivity. }
    split; [|repeat split].
    + constructor; cbn [ch_chunks ch_hoff ch_cached ch_fresh].
      * rewrite Hb'. apply contig_app. apply contig_app in Hcontig. destruct Hcontig as [Hc1 Hc2].
        split; [exact Hc1|]. cbn [contig] in *. rewrite make_owning_off, make_owning_size, make_owning_end.
        destruct Hc2 as (A & B & _). repeat split; auto.
      * rewrite Hmap. apply NoDup_snoc; [apply W|].
        rewrite E. exact Hnin.
      * intros id Hin. rewrite Hmap in Hin. apply in_app_or in Hin. destruct Hin as [Hin|[<-|[]]]; [|exact Hid].
        apply W. exact Hin.
      * intros k Hck. destruct (wf_cached _ W k Hck) as [A B]. split; [exact A|]. cbn [ch_chunks].
        rewrite Hmap. intros Hin. apply in_app_or in Hin. destruct Hin as [Hin|[Hin|[]]]; [contradiction|].
        apply (Hk k Hck). symmetry. exact Hin.
      * pose proof (wf_hoff _ W) as Hh. rewrite E in Hh.
        destruct pre as [|y pre]; cbn [app] in *; injection Ht as -> _; [rewrite make_owning_off, make_owning_end|]; exact Hh.
    + exact Hb'.
    + rewrite Hcells. reflexivity.
    + intros y Hy. apply in_app_or in Hy. destruct Hy as [Hy|[<-|[]]].
      * exists y. split; [apply in_or_app; left; exact Hy|auto].
      * exists (c_make_owning t). split; [apply in_or_app; right; left; reflexivity|].
        rewrite make_owning_id, make_owning_off, make_owning_end. auto.
Qed.

(** Effect of a successful append of the payload [p]. *)
Record appended (ch ch' : chain) (p : payload) : Prop := {
  ap_wf : wf ch';
  ap_state : ch_state ch' = SMutable;
  ap_hoff : ch_hoff ch' = ch_hoff ch;
  ap_base : base ch' = base ch;
  ap_cells : cells (ch_chunks ch') = cells (ch_chunks ch) ++ pcells p;
  ap_stats : ch_stats ch' = match p with
                            | PData bs => stats_data (ch_stats ch) (length bs)
                            | PGap n => stats_gap (ch_stats ch) n
                            end;
  ap_keep : forall x, In x (ch_chunks ch) -> exists x', In x' (ch_chunks ch') /\ c_id x' = c_id x /\
        c_off x' = c_off x /\ c_end x' = c_end x
}.

Lemma wf_take_fresh ch : wf ch -> wf (take_fresh ch).
Proof.
  intros W. destruct W as [A B C D E]. constructor; unfold take_fresh, fresh_id, base in *; cbn in *; auto.
  - intros id Hid. apply C in Hid. lia.
  - intros k Hk. destruct (D k Hk). split; [lia|assumption].
Qed.
Lemma wf_drop_cached ch : wf ch -> wf (drop_cached ch).
Proof.
  intros W. destruct W as [A B C D E]. constructor; unfold drop_cached, fresh_id, base in *; cbn in *; auto.
  intros k Hk. discriminate.
Qed.

Lemma append_fresh ch p al : wf ch -> ch_state ch = SMutable ->
  0 < c_size (mkChunk 0 0 0 p) ->
  exists ch', append_chunk (take_fresh ch) (mkChunk (ch_fresh ch) 0 al p) = (ch', Ok tt) /\ appended ch ch' p.
Proof.
  intros W Hst Hs.
  destruct (append_chunks (take_fresh ch) (mkChunk (ch_fresh ch) 0 al p)) as (ch' & He & W' & S' & H1 & H2 & H3 & H4 & H5).
  - apply wf_take_fresh. exact W.
  - exact Hs.
  - cbn. lia.
  - cbn. intros Hin. apply (wf_ids _ W) in Hin. lia.
  - cbn. intros k Hk. destruct (wf_cached _ W k Hk). lia.
  - exact Hst.
  - exists ch'. split; [exact He|]. constructor; auto.
    rewrite H4. unfold stats_add. destruct p; reflexivity.
Qed.

Lemma append_reuse ch k p al : wf ch -> ch_state ch = SMutable -> ch_cached ch = Some k ->
  0 < c_size (mkChunk 0 0 0 p) ->
  exists ch', append_chunk (drop_cached ch) (mkChunk (c_id k) 0 al p) = (ch', Ok tt) /\ appended ch ch' p.
Proof.
  intros W Hst Hk Hs. destruct (wf_cached _ W k Hk) as [A B].
  destruct (append_chunks (drop_cached ch) (mkChunk (c_id k) 0 al p)) as (ch' & He & W' & S' & H1 & H2 & H3 & H4 & H5).
  - apply wf_drop_cached. exact W.
  - exact Hs.
  - exact A.
  - exact B.
  - cbn. intros k' Hk'. discriminate.
  - exact Hst.
  - exists ch'. split; [exact He|]. constructor; auto.
    rewrite H4. unfold stats_add. destruct p; reflexivity.
Qed.

Lemma append_copy_ok ch bs : wf ch -> ch_state ch = SMutable -> bs <> [] ->
  exists ch', append_copy ch bs = (ch', Ok tt) /\ appended ch ch' (PData bs).
Proof.
  intros W Hst Hn. unfold append_copy. destruct bs as [|b bs]; [congruence|].
  assert (Hs : 0 < c_size (mkChunk 0 0 0 (PData (b :: bs)))) by (cbn; lia).
  destruct (ch_cached ch) as [k|] eqn:Hk; [|apply append_fresh; assumption].
  destruct (_ <=? _); [apply append_reuse; assumption|apply append_fresh; assumption].
Qed.

Lemma append_nonowning_ok ch bs : wf ch -> ch_state ch = SMutable -> bs <> [] ->
  exists ch', append_nonowning ch bs = (ch', Ok tt) /\ appended ch ch' (PData bs).
Proof.
  intros W Hst Hn. unfold append_nonowning. destruct bs as [|b bs]; [congruence|].
  assert (Hs : 0 < c_size (mkChunk 0 0 0 (PData (b :: bs)))) by (cbn; lia).
  destruct (ch_cached ch) as [k|] eqn:Hk; [|apply append_fresh; assumption].
  destruct (negb _); [apply append_reuse; assumption|apply append_fresh; assumption].
Qed.

Lemma append_gap_ok ch n : wf ch -> ch_state ch = SMutable -> 0 < n ->
  exists ch', append_gap ch n = (ch', Ok tt) /\ appended ch ch' (PGap n).
Proof.
  intros W Hst Hn. unfold append_gap. destruct n as [|n]; [lia|].
  apply append_fresh; try assumption; cbn; lia.
Qed.

(** Refused appends leave everything but the cache and the allocator unchanged. *)
Definition same_visible (ch ch' : chain) : Prop :=
  ch_state ch' = ch_state ch /\ ch_chunks ch' = ch_chunks ch /\ ch_hoff ch' = ch_hoff ch /\
  ch_stats ch' = ch_stats ch /\
  (ch_cached ch' = ch_cached ch \/ ch_cached ch' = None) /\ ch_fresh ch <= ch_fresh ch'.

Lemma same_visible_wf ch ch' : same_visible ch ch' -> wf ch -> wf ch'.
Proof.
  intros (A & B & C & D & E & F) [W1 W2 W3 W4 W5].
  constructor; unfold base, fresh_id in *; rewrite ?B, ?C; auto.
  - intros id Hin. apply W3 in Hin. lia.
  - intros k Hk. destruct E as [E|E]; rewrite E in Hk; [|discriminate].
    destruct (W4 k Hk). split; [lia|assumption].
Qed.

Definition refusal (st : cstate) : res unit :=
  match st with SMutable => Ok tt | SFrozen => Throw Frozen | SInvalid => Throw InvalidIterator end.

Lemma append_chunk_refused ch c : ch_state ch <> SMutable ->
  append_chunk ch c = (ch, refusal (ch_state ch)).
Proof. intros H. unfold append_chunk. destruct (ch_state ch); [congruence|reflexivity|reflexivity]. Qed.

Lemma sv_take ch : same_visible ch (take_fresh ch).
Proof. unfold same_visible, take_fresh; cbn. repeat split; auto. Qed.
Lemma sv_drop ch : same_visible ch (drop_cached ch).
Proof. unfold same_visible, drop_cached; cbn. repeat split; auto. Qed.

Ltac refuse := rewrite append_chunk_refused by (cbn; assumption); cbn [ch_state take_fresh drop_cached];
  eexists; split; [reflexivity|]; auto using sv_take, sv_drop.

Lemma append_copy_refused ch bs : ch_state ch <> SMutable -> bs <> [] ->
  exists ch', append_copy ch bs = (ch', refusal (ch_state ch)) /\ same_visible ch ch'.
Proof.
  intros H Hn. unfold append_copy. destruct bs as [|b bs]; [congruence|].
  destruct (ch_cached ch) as [k|]; [destruct (_ <=? _)|]; refuse.
Qed.
Lemma append_nonowning_refused ch bs : ch_state ch <> SMutable -> bs <> [] ->
  exists ch', append_nonowning ch bs = (ch', refusal (ch_state ch)) /\ same_visible ch ch'.
Proof.
  intros H Hn. unfold append_nonowning. destruct bs as [|b bs]; [congruence|].
  destruct (ch_cached ch) as [k|]; [destruct (negb _)|]; refuse.
Qed.
Lemma append_gap_refused ch n : ch_state ch <> SMutable -> 0 < n ->
  exists ch', append_gap ch n = (ch', refusal (ch_state ch)) /\ same_visible ch ch'.
Proof. intros H Hn. unfold append_gap. destruct n as [|n]; [lia|]. refuse. Qed.

(** *** Trimming *)
Lemma cache_update_ids cached c : cache_update cached c = cached \/ cache_update cached c = Some (c_set_off c 0).
Proof. unfold cache_update. destruct (_ && _); auto. Qed.

Lemma trim_loop_ok o : forall cs b cached, contig b cs -> b <= o ->
  exists a cs' k, trim_loop o cs cached = Some (cs', k) /\ cs = a ++ cs' /\
    b + length (cells a) <= o /\
    (match cs' with [] => True | c :: _ => c_off c <= o < c_end c end) /\
    (k = cached \/ exists c, In c a /\ k = Some (c_set_off c 0)).
Proof.
  induction cs as [|c cs IH]; intros b cached H Hb.
  - exists [], [], cached. cbn. repeat split; auto. lia.
  - cbn [contig] in H. destruct H as (Hc & Hs & H). cbn [trim_loop].
    destruct (Nat.leb_spec (c_end c) o) as [Hle|Hgt].
    + destruct (IH _ (cache_update cached c) H Hle) as (a & cs' & k & A & B & C & D & E).
      exists (c :: a), cs', k. rewrite A, B. repeat split; auto.
      * rewrite cells_cons, app_length, pcells_len. unfold c_end in *. lia.
      * destruct E as [E|(x & Hx & E)].
        -- destruct (cache_update_ids cached c) as [E'|E']; [left; congruence|].
           right. exists c. split; [left; reflexivity|congruence].
        -- right. exists x. split; [right; exact Hx|exact E].
    + assert (Hr : c_in_range c o = true) by (apply in_range_iff; lia).
      rewrite Hr. exists [], (c :: cs), cached. cbn [app]. repeat split; auto; try (cbn; lia).
Qed.

Record trimmed (ch ch' : chain) (o : nat) : Prop := {
  tr_wf : wf ch';
  tr_state : ch_state ch' = ch_state ch;
  tr_stats : ch_stats ch' = ch_stats ch;
  tr_base : base ch <= base ch';
  tr_keep : forall x, In x (ch_chunks ch) -> In x (ch_chunks ch') \/ c_end x <= base ch';
  tr_eff : match ch_chunks ch with
           | [] => ch' = ch
           | h :: _ => if o <? c_off h then ch' = ch
                       else ch_hoff ch' = o /\ exists a, ch_chunks ch = a ++ ch_chunks ch' /\
                            base ch' <= o /\
                            (ch_chunks ch' <> [] -> base ch' = base ch + length (cells a)) /\
                            base ch + length (cells a) <= o
           end
}.

Lemma ch_trim_ok ch o : wf ch -> ch_is_valid ch = true ->
  exists ch', ch_trim ch o = (ch', Ok tt) /\ trimmed ch ch' o.
Proof.
  intros W V. unfold ch_trim. rewrite V. cbn [negb].
  assert (Hid : trimmed ch ch o -> exists ch', (ch, Ok tt) = (ch', Ok tt) /\ trimmed ch ch' o) by eauto.
  destruct (ch_chunks ch) as [|h cs] eqn:E.
  { apply Hid. constructor; auto. rewrite E. reflexivity. }
  destruct (Nat.ltb_spec o (c_off h)) as [Hlt|Hge].
  { apply Hid. constructor; auto. rewrite E. destruct (Nat.ltb_spec o (c_off h)); [reflexivity|lia]. }
  clear Hid.
  assert (Hb : base ch = c_off h) by (unfold base; rewrite E; reflexivity).
  pose proof (wf_contig _ W) as Hc. rewrite E in Hc.
  destruct (trim_loop_ok o (h :: cs) (base ch) (ch_cached ch) Hc ltac:(lia)) as (a & cs' & k & A & B & C & D & F).
  rewrite A. eexists. split; [reflexivity|].
  assert (Hb' : base (mkChain (ch_state ch) cs' o (ch_stats ch) k (ch_fresh ch)) =
                match cs' with [] => o | _ => base ch + length (cells a) end).
  { unfold base at 1. cbn [ch_chunks ch_hoff]. destruct cs' as [|c cs']; [reflexivity|].
    rewrite B in Hc. apply contig_app in Hc. destruct Hc as [_ [Hc _]]. exact Hc. }
  constructor; cbn [ch_state ch_stats ch_chunks ch_hoff].
  - constructor; cbn [ch_chunks ch_hoff ch_cached ch_fresh].
    + rewrite Hb'. rewrite B in Hc. apply contig_app in Hc. destruct cs'; [exact I|apply Hc].
    + pose proof (wf_nodup _ W) as Hn. rewrite E, B, map_app in Hn. apply NoDup_app_r in Hn. exact Hn.
    + intros id Hin. apply (wf_ids _ W). rewrite E, B, map_app. apply in_or_app. right. exact Hin.
    + intros kk Hk. unfold fresh_id. cbn [ch_fresh ch_chunks]. destruct F as [F|(c & Hin & F)].
      * rewrite F in Hk. destruct (wf_cached _ W kk Hk) as [X Y]. split; [exact X|].
        intros Hin. apply Y. rewrite E, B, map_app. apply in_or_app. right. exact Hin.
      * rewrite F in Hk. injection Hk as <-. cbn [c_id c_set_off]. split.
        -- apply (wf_ids _ W). rewrite E, B, map_app. apply in_or_app. left. apply in_map. exact Hin.
        -- pose proof (wf_nodup _ W) as Hn. rewrite E, B, map_app in Hn.
           apply in_split in Hin. destruct Hin as (l1 & l2 & ->). rewrite map_app in Hn. cbn [map] in Hn.
           rewrite <- app_assoc in Hn. cbn [app] in Hn. apply NoDup_remove_2 in Hn.
           intros Hin. apply Hn. apply in_or_app. right. apply in_or_app. right. exact Hin.
    + exact D.
  - reflexivity.
  - reflexivity.
  - rewrite Hb'. destruct cs'; lia.
  - rewrite E. intros x Hx. rewrite B in Hx. apply in_app_or in Hx. destruct Hx as [Hx|Hx]; [right|left; exact Hx].
    rewrite B in Hc. apply contig_app in Hc. destruct Hc as [Hc _].
    pose proof (contig_in _ _ _ Hc Hx). rewrite Hb'. destruct cs'; lia.
  - rewrite E. destruct (Nat.ltb_spec o (c_off h)); [lia|]. split; [reflexivity|].
    exists a. split; [exact B|]. rewrite Hb'. destruct cs'; repeat split; auto; try congruence; lia.
Qed.

Lemma trimmed_it_ok ch ch' o h i : trimmed ch ch' o -> it_ok ch h i -> it_ok ch' h i.
Proof.
  intros T [Ho Hi]. split; [exact Ho|]. destruct (it_chunk i) as [id|]; [|exact I].
  pose proof (tr_base _ _ _ T) as Hb. destruct (h_end h).
  - destruct Hi as [(c & A & B & C)|C]; [|right; lia].
    destruct (tr_keep _ _ _ T c A) as [K|K]; [left; exists c; auto|right; lia].
  - destruct Hi as [(c & A & B & C)|C]; [|right; lia].
    destruct (tr_keep _ _ _ T c A) as [K|K]; [left; exists c; auto|right; lia].
Qed.

Lemma appended_it_ok ch ch' p h i : appended ch ch' p -> it_ok ch h i -> it_ok ch' h i.
Proof.
  intros T [Ho Hi]. split; [exact Ho|]. destruct (it_chunk i) as [id|]; [|exact I].
  pose proof (ap_base _ _ _ T) as Hb.
  destruct (h_end h);
    (destruct Hi as [(c & A & B & C)|C]; [|right; lia];
     destruct (ap_keep _ _ _ T c A) as (c' & K1 & K2 & K3 & K4); left; exists c'; rewrite K3, K4;
     repeat split; auto; try congruence; lia).
Qed.

Lemma sv_it_ok ch ch' h i : same_visible ch ch' -> it_ok ch h i -> it_ok ch' h i.
Proof.
  intros (A & B & C & _) [Ho Hi]. split; [exact Ho|]. unfold base. rewrite B, C. exact Hi.
Qed.

(** *** One simulation step *)
Lemma sim_valid s q : sim s q -> ch_is_valid (cl_chain s) = negb (q_dead q).
Proof.
  intros S. unfold ch_is_valid. rewrite (sim_state _ _ S).
  destruct (q_dead q); [reflexivity|]. destruct (q_frozen q); reflexivity.
Qed.

Lemma sim_nth s q k h : sim s q -> nth_error (q_hs q) k = Some h -> exists i, nth_error (cl_its s) k = Some i.
Proof.
  intros S H. destruct (nth_error (cl_its s) k) as [i|] eqn:E; [eauto|].
  apply nth_error_None in E. rewrite (sim_its _ _ S) in E.
  assert (k < length (q_hs q)) by (apply nth_error_Some; congruence). lia.
Qed.
Lemma sim_nth_none s q k : sim s q -> nth_error (q_hs q) k = None -> nth_error (cl_its s) k = None.
Proof.
  intros S H. apply nth_error_None. apply nth_error_None in H. rewrite (sim_its _ _ S). exact H.
Qed.

Lemma nth_error_snoc {A} (l : list A) a k x :
  nth_error (l ++ [a]) k = Some x -> nth_error l k = Some x \/ (k = length l /\ x = a).
Proof.
  intros H. destruct (Nat.lt_ge_cases k (length l)) as [Hlt|Hge].
  - rewrite nth_error_app1 in H by exact Hlt. auto.
  - rewrite nth_error_app2 in H by exact Hge. destruct (k - length l) as [|m] eqn:E.
    + cbn in H. right. split; [lia|congruence].
    + destruct m; discriminate.
Qed.

Lemma nth_error_lt {A} (l : list A) k x : nth_error l k = Some x -> k < length l.
Proof. intros H. apply nth_error_Some. congruence. Qed.

Definition its_ok (s : client) (q : queue) (P : handle -> iter -> Prop) : Prop :=
  forall k h i, nth_error (q_hs q) k = Some h -> nth_error (cl_its s) k = Some i -> P h i.

Lemma sim_new : sim client_new queue_new.
Proof.
  constructor; cbn; auto.
  - intros k h i H. destruct k; discriminate.
  - intros _. split; [|split; [reflexivity|split; [reflexivity|]]].
    + constructor; cbn; auto; try constructor; try (intros ? []); try discriminate.
    + intros [|k] h i H; discriminate.
Qed.

(** Adding an iterator keeps the simulation. *)
Lemma its_snoc (hs : list handle) (is : list iter) h i (P : handle -> iter -> Prop) :
  length is = length hs ->
  (forall k h i, nth_error hs k = Some h -> nth_error is k = Some i -> P h i) -> P h i ->
  forall k h' i', nth_error (hs ++ [h]) k = Some h' -> nth_error (is ++ [i]) k = Some i' -> P h' i'.
Proof.
  intros Hl Ha Hp k h' i' H1 H2. apply nth_error_snoc in H1. apply nth_error_snoc in H2.
  destruct H1 as [H1|[H1 ->]], H2 as [H2|[H2 ->]]; auto.
  - eapply Ha; eauto.
  - exfalso. apply nth_error_lt in H1. lia.
  - exfalso. apply nth_error_lt in H2. lia.
Qed.

Lemma sim_add s q h i : sim s q -> it_off i = h_off h -> (q_dead q = false -> it_ok (cl_chain s) h i) ->
  sim (mkClient (cl_chain s) (cl_its s ++ [i])) (add_handle q h).
Proof.
  intros S Ho Hi. destruct S as [A A' B C D E].
  constructor; cbn [cl_chain cl_its add_handle q_begin q_cells q_frozen q_dead q_stats q_hs]; auto.
  - rewrite !app_length. cbn. lia.
  - apply (its_snoc _ _ h i (fun (h : handle) (i : iter) => it_off i = h_off h)); auto.
  - intros Hd. destruct (E Hd) as (W & E1 & E2 & E3).
    split; [exact W|]. split; [exact E1|]. split; [exact E2|].
    apply (its_snoc _ _ h i (fun (h : handle) (i : iter) => it_ok (cl_chain s) h i)); auto.
Qed.

(** Replacing the chain, for a live stream. *)
Lemma sim_chain s q ch' b' cs' st' (f' : bool) : sim s q -> q_dead q = false ->
  ch_state ch' = (if f' then SFrozen else SMutable) ->
  wf ch' -> b' = ch_hoff ch' ->
  cs' = skipn (ch_hoff ch' - base ch') (cells (ch_chunks ch')) ->
  st' = ch_stats ch' ->
  (forall h i, it_ok (cl_chain s) h i -> it_ok ch' h i) ->
  sim (mkClient ch' (cl_its s)) (mkQueue b' cs' f' false st' (q_hs q)).
Proof.
  intros S Hd Hst W Hb Hc Hs Hi. destruct S as [A A' B C D E].
  constructor; cbn [cl_chain cl_its q_begin q_cells q_frozen q_dead q_stats q_hs]; auto; try discriminate.
  intros _. destruct (E Hd) as (_ & _ & _ & E3).
  split; [exact W|]. split; [exact Hb|]. split; [exact Hc|]. eauto.
Qed.

Lemma queue_eta q : q_dead q = false ->
  q = mkQueue (q_begin q) (q_cells q) (q_frozen q) false (q_stats q) (q_hs q).
Proof. destruct q; cbn. intros ->. reflexivity. Qed.

(** A refused append. *)
Lemma sim_sv s q ch' : sim s q -> same_visible (cl_chain s) ch' -> sim (mkClient ch' (cl_its s)) q.
Proof.
  intros S V. destruct S as [A A' B C D E]. pose proof V as (V1 & V2 & V3 & V4 & V5 & V6).
  constructor; cbn [cl_chain cl_its]; auto; try congruence.
  - rewrite V2, V3. exact D.
  - intros Hd. destruct (E Hd) as (W & E1 & E2 & E3).
    split; [eapply same_visible_wf; eauto|].
    unfold base. rewrite V2, V3. split; [exact E1|]. split; [exact E2|].
    intros k h i H1 H2. apply (sv_it_ok _ _ _ _ V). eauto.
Qed.

Lemma sim_append s q p r : sim s q -> pcells p <> [] ->
  (wf (cl_chain s) -> ch_state (cl_chain s) = SMutable ->
     exists ch', r = (ch', Ok tt) /\ appended (cl_chain s) ch' p) ->
  (ch_state (cl_chain s) <> SMutable ->
     exists ch', r = (ch', refusal (ch_state (cl_chain s))) /\ same_visible (cl_chain s) ch') ->
  let q' := q_append q (pcells p)
    (match p with PData bs => stats_data (q_stats q) (length bs) | PGap n => stats_gap (q_stats q) n end) in
  sim (fst (with_chain s r)) (fst q') /\ snd (with_chain s r) = snd q'.
Proof.
  intros S Hp Hok Href. unfold q_append. destruct (pcells p) as [|c0 cs0] eqn:Ep; [congruence|]. clear Hp.
  pose proof (sim_state _ _ S) as Hst.
  destruct (q_dead q) eqn:Hd.
  { destruct Href as (ch' & -> & V); [rewrite Hst; discriminate|].
    rewrite Hst. cbn. split; [|reflexivity]. apply sim_sv; assumption. }
  destruct (q_frozen q) eqn:Hf.
  { destruct Href as (ch' & -> & V); [rewrite Hst; discriminate|].
    rewrite Hst. cbn. split; [|reflexivity]. apply sim_sv; assumption. }
  destruct (sim_live _ _ S Hd) as (W & E1 & E2 & E3).
  destruct (Hok W Hst) as (ch' & -> & AP). destruct AP as [P1 P2 P3 P4 P5 P6 P7] eqn:EAP.
  unfold with_chain, set_content. cbn [fst snd rmap]. split; [|reflexivity].
  rewrite Hd. apply sim_chain; auto.
  - rewrite P2, Hf. reflexivity.
  - congruence.
  - rewrite P3, P4, P5, E2, <- Ep. rewrite skipn_app_le; [reflexivity|].
    destruct (avail _ W) as [Hl Hb]. rewrite (ch_end_eq _ (wf_contig _ W)) in Hb. lia.
  - rewrite P6, (sim_stats _ _ S). reflexivity.
  - intros h i. apply (appended_it_ok _ _ p). exact AP.
Qed.

Lemma sim_step s q o : sim s q -> allowed q o = true ->
  sim (fst (step s o)) (fst (spec_step q o)) /\ snd (step s o) = snd (spec_step q o).
Proof.
  intros S Hal. pose proof (sim_valid _ _ S) as V. pose proof (sim_state _ _ S) as Hst.
  destruct o as [bs|bs|n|k| | | | | | |n|k n|k n|k|k|k| | | | ]; cbn [step spec_step].
  - (* append *)
    destruct bs as [|b bs].
    { cbn. split; [|reflexivity]. destruct s; exact S. }
    apply (sim_append s q (PData (b :: bs))); auto; cbn [pcells map]; try congruence.
    + intros W H. apply append_copy_ok; auto; congruence.
    + intros H. apply append_copy_refused; auto; congruence.
  - destruct bs as [|b bs].
    { cbn. split; [|reflexivity]. destruct s; exact S. }
    apply (sim_append s q (PData (b :: bs))); auto; cbn [pcells map]; try congruence.
    + intros W H. apply append_nonowning_ok; auto; congruence.
    + intros H. apply append_nonowning_refused; auto; congruence.
  - destruct n as [|n].
    { cbn. split; [|reflexivity]. destruct s; exact S. }
    apply (sim_append s q (PGap (Datatypes.S n))); auto; cbn [pcells repeat]; try congruence.
    + intros W H. apply append_gap_ok; auto; lia.
    + intros H. apply append_gap_refused; auto; lia.
  - (* trim *)
    unfold on_iter, q_on. cbn [allowed] in Hal.
    destruct (nth_error (q_hs q) k) as [h|] eqn:Ek; [|rewrite (sim_nth_none _ _ _ S Ek); split; [exact S|reflexivity]].
    destruct (sim_nth _ _ _ _ S Ek) as (i & Ei). rewrite Ei.
    pose proof (sim_off _ _ S _ _ _ Ek Ei) as Ho.
    unfold ch_trim_iter. rewrite V. destruct (q_dead q) eqn:Hd; cbn [negb].
    { cbn. split; [destruct s; exact S|reflexivity]. }
    destruct (sim_live _ _ S Hd) as (W & E1 & E2 & E3).
    destruct (ch_trim_ok (cl_chain s) (it_off i) W V) as (ch' & -> & T). cbn [with_chain fst snd rmap].
    destruct (avail _ W) as [Hl Hb].
    pose proof (tr_eff _ _ _ T) as Te.
    destruct (q_cells q) as [|c0 cs0] eqn:Eq.
    + (* empty *)
      split; [|reflexivity].
      assert (ch_chunks (cl_chain s) = []) as Hnil.
      { destruct (ch_chunks (cl_chain s)) as [|c cs] eqn:Ec; [reflexivity|]. exfalso.
        assert (length (@nil cell) = length (skipn (ch_hoff (cl_chain s) - base (cl_chain s)) (cells (c :: cs))))
          as Hlen by (f_equal; exact E2).
        pose proof (wf_hoff _ W) as Hh. rewrite Ec in Hh. rewrite skipn_length, cells_cons, app_length, pcells_len in Hlen.
        unfold base in Hlen. rewrite Ec in Hlen. unfold c_end in Hh. cbn in Hlen. lia. }
      rewrite Hnil in Te. subst ch'. destruct s; exact S.
    + split; [|reflexivity].
      destruct (ch_chunks (cl_chain s)) as [|c cs] eqn:Ec.
      { exfalso. assert (length (c0 :: cs0) = 0) by (rewrite E2; destruct (_ - _); reflexivity). discriminate. }
      assert (Hbe : base (cl_chain s) = c_off c) by (unfold base; rewrite Ec; reflexivity).
      cbn [orb] in Hal. rewrite E1, <- Ho in Hal.
      destruct (Nat.ltb_spec (it_off i) (c_off c)) as [Hlt|Hge]; [lia|].
      destruct Te as (T1 & a & T2 & T3 & T4 & T5).
      unfold set_content. rewrite Hd. apply sim_chain; auto.
      * rewrite (tr_state _ _ _ T), Hst. reflexivity.
      * apply T.
      * congruence.
      * rewrite E2, E1, skipn_skipn', T1, T2, <- Ho.
        replace (it_off i - ch_hoff (cl_chain s) + (ch_hoff (cl_chain s) - base (cl_chain s)))
          with (it_off i - base (cl_chain s)) by lia.
        rewrite cells_app, skipn_app_ge by lia.
        destruct (ch_chunks ch') as [|c' cs'] eqn:Ec'.
        { cbn [cells flat_map]. rewrite !skipn_nil. reflexivity. }
        rewrite T4 by congruence. f_equal. lia.
      * rewrite (tr_stats _ _ _ T). apply (sim_stats _ _ S).
      * intros h' i'. apply (trimmed_it_ok _ _ _ _ _ T).
  - (* freeze *)
    unfold ch_freeze, with_chain. cbn [fst snd rmap]. split; [|reflexivity]. rewrite Hst.
    destruct (q_dead q) eqn:Hd; [destruct s; exact S|].
    destruct (sim_live _ _ S Hd) as (W & E1 & E2 & E3).
    unfold set_frozen. rewrite Hd. destruct (q_frozen q); apply sim_chain; auto;
    try (destruct W; constructor; assumption); try apply (sim_stats _ _ S).
  - unfold ch_unfreeze, with_chain. cbn [fst snd rmap]. split; [|reflexivity]. rewrite Hst.
    destruct (q_dead q) eqn:Hd; [destruct s; exact S|].
    destruct (sim_live _ _ S Hd) as (W & E1 & E2 & E3).
    unfold set_frozen. rewrite Hd. destruct (q_frozen q); apply sim_chain; auto;
    try (destruct W; constructor; assumption); try apply (sim_stats _ _ S).
  - (* destroy *)
    cbn. split; [|reflexivity]. destruct S as [A A' B C D E].
    constructor; cbn; auto; try discriminate.
  - (* reset without iterators *)
    cbn [allowed] in Hal. destruct (q_hs q) as [|h hs] eqn:Eh; [|discriminate].
    cbn. split; [|reflexivity]. destruct S as [A A' B C D E].
    assert (Hi : cl_its s = []) by (rewrite Eh in A; destruct (cl_its s); [reflexivity|discriminate]).
    destruct (q_dead q) eqn:Hd; [discriminate|]. destruct (E eq_refl) as (W & _).
    constructor; cbn; auto; try discriminate.
    + rewrite Hi. reflexivity.
    + intros [|k] h i H; discriminate.
    + intros _. split; [|split; [reflexivity|split; [reflexivity|]]].
      * constructor; cbn; auto; try constructor; try (intros ? []).
        -- unfold fresh_id. cbn. destruct (wf_cached _ W k H). assumption.
        -- cbn. intros [].
      * intros [|k] h i H; discriminate.
  - (* begin *)
    unfold it_begin, q_new_handle. rewrite V. destruct (q_dead q) eqn:Hd; cbn [negb with_iter fst snd]; [auto|].
    split; [|reflexivity]. destruct (sim_live _ _ S Hd) as (W & E1 & E2 & E3).
    apply sim_add; auto. intros _. split; [symmetry; exact E1|]. cbn [it_chunk it_off h_end].
    destruct (ch_chunks (cl_chain s)) as [|c cs] eqn:Ec; [exact I|].
    left. exists c. pose proof (wf_hoff _ W) as Hh. rewrite Ec in Hh.
    split; [left; reflexivity|]. split; [reflexivity|exact Hh].
  - (* end *)
    unfold it_end, q_new_handle. rewrite V. destruct (q_dead q) eqn:Hd; cbn [negb with_iter fst snd]; [auto|].
    split; [|reflexivity]. destruct (sim_live _ _ S Hd) as (W & E1 & E2 & E3).
    destruct (avail _ W) as [Hl Hb].
    assert (He : ch_end (cl_chain s) = q_end q) by (unfold q_end; rewrite E1, E2, Hl; lia).
    apply sim_add; auto. intros _. split; [exact He|]. cbn [it_chunk it_off h_end].
    unfold ch_tail.
    destruct (ch_chunks (cl_chain s)) as [|c cs] eqn:Ec; [cbn; exact I|].
    destruct (contig_end_last (c :: cs) (base (cl_chain s))) as (t & Ht & Hte & Hin);
      [rewrite <- Ec; apply W|congruence|].
    rewrite Ht. cbn [option_map].
    assert (Hcont : contig (base (cl_chain s)) (c :: cs)) by (rewrite <- Ec; apply W).
    assert (Hendt : ch_end (cl_chain s) = c_end t) by (unfold ch_end, ch_tail; rewrite Ec, Ht; reflexivity).
    destruct (q_cells q) as [|c0 cs0] eqn:Eq.
    + exfalso. cbn in Hl. pose proof (wf_hoff _ W) as Hh. rewrite Ec in Hh.
      assert (H0 : length (@nil cell) = ch_end (cl_chain s) - ch_hoff (cl_chain s)) by (rewrite E2; exact Hl).
      cbn in H0. pose proof (contig_in _ _ c Hcont (or_introl eq_refl)) as (G1 & G2 & G3).
      rewrite Hendt in *. lia.
    + left. exists t. split; [exact Hin|]. split; [reflexivity|].
      pose proof (contig_in _ _ t Hcont Hin) as (G1 & G2 & G3). rewrite Hendt. unfold c_end in *. lia.
  - (* at *)
    unfold it_at, q_new_handle. destruct (q_dead q) eqn:Hd.
    { unfold find_chunk. rewrite V. cbn. auto. }
    destruct (sim_live _ _ S Hd) as (W & E1 & E2 & E3).
    rewrite (find_chunk_ok _ _ None W V I). cbn [bind with_iter fst snd]. split; [|reflexivity].
    apply sim_add; auto. intros _. destruct (walk_it_ok (cl_chain s) n false W) as [H|H]; [exact H|discriminate].
  - (* incr *)
    unfold on_iter, q_on. cbn [allowed] in Hal.
    destruct (nth_error (q_hs q) k) as [h|] eqn:Ek; [|rewrite (sim_nth_none _ _ _ S Ek); split; [exact S|reflexivity]].
    destruct (sim_nth _ _ _ _ S Ek) as (i & Ei). rewrite Ei.
    pose proof (sim_off _ _ S _ _ _ Ek Ei) as Ho.
    unfold it_incr. destruct n as [|n].
    + rewrite Nat.add_0_r. cbn [Nat.eqb]. rewrite andb_true_r. cbn [with_iter fst snd]. split; [|reflexivity].
      replace (mkHandle (h_off h) (h_end h)) with h by (destruct h; reflexivity).
      apply sim_add; auto. intros Hd. destruct (sim_live _ _ S Hd) as (_ & _ & _ & E3). eauto.
    + cbn [Nat.eqb orb] in Hal. cbn [Nat.eqb]. rewrite andb_false_r.
      unfold h_fresh in Hal. destruct (q_dead q) eqn:Hd.
      * unfold move_chunk. rewrite V. cbn [negb bind with_iter fst snd]. split; [|reflexivity].
        apply sim_add; auto; [cbn; lia|]. intros Hd'. congruence.
      * cbn [orb] in Hal. destruct (sim_live _ _ S Hd) as (W & E1 & E2 & E3). rewrite E1 in Hal.
        apply negb_true_iff in Hal. rewrite <- Ho.
        destruct (move_ok (cl_chain s) h i (it_off i + Datatypes.S n) W V (E3 _ _ _ Ek Ei) Hal) as (c & -> & Hi').
        cbn [bind with_iter fst snd]. split; [|reflexivity]. apply sim_add; auto.
  - (* decr *)
    unfold on_iter, q_on. cbn [allowed] in Hal.
    destruct (nth_error (q_hs q) k) as [h|] eqn:Ek; [|rewrite (sim_nth_none _ _ _ S Ek); split; [exact S|reflexivity]].
    destruct (sim_nth _ _ _ _ S Ek) as (i & Ei). rewrite Ei.
    pose proof (sim_off _ _ S _ _ _ Ek Ei) as Ho.
    unfold it_decr. rewrite Ho. destruct (h_off h <? n) eqn:Elt; [cbn [with_iter fst snd]; auto|].
    destruct n as [|n].
    + rewrite Nat.sub_0_r. cbn [Nat.eqb]. rewrite andb_true_r. cbn [with_iter fst snd]. split; [|reflexivity].
      replace (mkHandle (h_off h) (h_end h)) with h by (destruct h; reflexivity).
      apply sim_add; auto. intros Hd. destruct (sim_live _ _ S Hd) as (_ & _ & _ & E3). eauto.
    + cbn [Nat.eqb orb] in Hal. cbn [Nat.eqb]. rewrite andb_false_r.
      unfold h_fresh in Hal. destruct (q_dead q) eqn:Hd.
      * unfold move_chunk. rewrite V. cbn [negb bind with_iter fst snd]. split; [|reflexivity].
        apply sim_add; auto. intros Hd'. congruence.
      * cbn [orb] in Hal. destruct (sim_live _ _ S Hd) as (W & E1 & E2 & E3). rewrite E1 in Hal.
        apply negb_true_iff in Hal.
        destruct (move_ok (cl_chain s) h i (h_off h - Datatypes.S n) W V (E3 _ _ _ Ek Ei) Hal) as (c & -> & Hi').
        cbn [bind with_iter fst snd]. split; [|reflexivity]. apply sim_add; auto.
  - (* deref *)
    unfold on_iter, q_on. cbn [allowed] in Hal.
    destruct (nth_error (q_hs q) k) as [h|] eqn:Ek; [|rewrite (sim_nth_none _ _ _ S Ek); split; [exact S|reflexivity]].
    destruct (sim_nth _ _ _ _ S Ek) as (i & Ei). rewrite Ei. cbn [fst snd]. split; [exact S|].
    unfold h_fresh in Hal. destruct (q_dead q) eqn:Hd.
    + unfold it_deref, q_read. rewrite V, Hd. reflexivity.
    + cbn [orb] in Hal. destruct (sim_live _ _ S Hd) as (W & E1 & E2 & E3). rewrite E1 in Hal.
      apply negb_true_iff in Hal.
      rewrite (deref_ok (cl_chain s) h i q W V Hd E1 E2 (E3 _ _ _ Ek Ei) Hal). reflexivity.
  - (* isEnd *)
    unfold on_iter, q_on.
    destruct (nth_error (q_hs q) k) as [h|] eqn:Ek; [|rewrite (sim_nth_none _ _ _ S Ek); split; [exact S|reflexivity]].
    destruct (sim_nth _ _ _ _ S Ek) as (i & Ei). rewrite Ei. cbn [fst snd]. split; [exact S|].
    pose proof (sim_off _ _ S _ _ _ Ek Ei) as Ho.
    unfold it_is_end. rewrite V. destruct (q_dead q) eqn:Hd; [reflexivity|].
    destruct (sim_live _ _ S Hd) as (W & E1 & E2 & E3). destruct (avail _ W) as [Hl Hb].
    unfold q_end. rewrite E1, E2, Hl, Ho. cbn. do 3 f_equal. lia.
  - unfold on_iter, q_on.
    destruct (nth_error (q_hs q) k) as [h|] eqn:Ek; [|rewrite (sim_nth_none _ _ _ S Ek); split; [exact S|reflexivity]].
    destruct (sim_nth _ _ _ _ S Ek) as (i & Ei). rewrite Ei. cbn [fst snd]. split; [exact S|].
    rewrite (sim_off _ _ S _ _ _ Ek Ei). reflexivity.
  - (* size *)
    cbn [fst snd]. split; [exact S|]. unfold ch_size. destruct (q_dead q) eqn:Hd.
    + destruct (sim_dead _ _ S Hd) as (D1 & D2 & D3 & D4 & D5). unfold ch_end, ch_tail. rewrite D1, D2, D4. reflexivity.
    + destruct (sim_live _ _ S Hd) as (W & E1 & E2 & E3). destruct (avail _ W) as [Hl Hb].
      destruct (Nat.leb_spec (ch_hoff (cl_chain s)) (ch_end (cl_chain s))); [|lia]. rewrite E2, Hl. reflexivity.
  - cbn [fst snd]. split; [exact S|]. destruct (q_dead q) eqn:Hd.
    + destruct (sim_dead _ _ S Hd) as (D1 & D2 & D3 & D4 & D5). unfold q_end, ch_end, ch_tail. rewrite D1, D2, D3, D4. reflexivity.
    + destruct (sim_live _ _ S Hd) as (W & E1 & E2 & E3). destruct (avail _ W) as [Hl Hb].
      unfold q_end. rewrite E1, E2, Hl. do 2 f_equal. lia.
  - cbn [fst snd]. split; [exact S|]. unfold ch_is_frozen. rewrite Hst. destruct (q_dead q) eqn:Hd.
    + destruct (sim_dead _ _ S Hd) as (D1 & D2 & D3 & D4 & D5). rewrite D5. reflexivity.
    + destruct (q_frozen q); reflexivity.
  - cbn [fst snd]. split; [exact S|]. rewrite (sim_stats _ _ S). reflexivity.
Qed.

Lemma run_sim os : forall s q, sim s q -> contract q os = true ->
  sim (fst (run s os)) (fst (spec_run q os)) /\ snd (run s os) = snd (spec_run q os).
Proof.
  induction os as [|o os IH]; intros s q S Hc; [cbn; auto|].
  cbn [contract] in Hc. apply andb_true_iff in Hc. destruct Hc as [Ha Hc].
  destruct (sim_step s q o S Ha) as [S1 E1]. cbn [run spec_run].
  destruct (step s o) as [s1 r1], (spec_step q o) as [q1 r2]. cbn [fst snd] in *. subst r2.
  destruct (IH s1 q1 S1 Hc) as [S2 E2].
  destruct (run s1 os) as [s2 rs1], (spec_run q1 os) as [q2 rs2]. cbn [fst snd] in *. subst rs2. auto.
Qed.
