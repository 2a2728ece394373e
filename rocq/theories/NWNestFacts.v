(** NWNestFacts: the scratch space as a stack of iterators over NWGraph.all_cliques (as NestFacts for Graph). *)
From Verif Require Import Base MBits MUtils MGraph MHeur MApi MNW MNWEnum MNWApi Spec SpecNW SpecNWNest SpecOrder SpecBits BaseFacts BitsFacts SetFacts SortFacts RowFacts ConstructFacts CardFacts LoadFacts SearchBase FrameFacts FrameInv StackFacts SearchFacts CliqueFacts NWSum NWBase NWStack NWHeur NWSearch NWFacts ApiFacts EnumFacts EnumApi NWEnumFacts NWEnumApi NWProps NestFacts NWSame.
From Coq Require Import Sorting.Sorted Sorting.Permutation.
Local Open Scope nat_scope.
Local Arguments Nat.sub : simpl never.
Local Arguments Nat.mul : simpl never.

(** The graph with its scratch space starting at c, or ending there. *)
Definition wat (W : nwgraph) (c : nat) : nwgraph := set_wg W (set_cur (w_g W) c).
Definition wcut (W : nwgraph) (c : nat) : nwgraph := set_wg W (set_cur (set_mem (w_g W) (cut c (edge_bits (w_g W)))) c).

Lemma wcut_id W : zero_from (edge_bits (w_g W)) (search_cur (w_g W)) -> wcut W (search_cur (w_g W)) = W.
Proof. intros Z. unfold wcut. rewrite cut_id by auto. destruct W as [g ? ? ? ? ? ?]. destruct g. reflexivity. Qed.

Section Gra.
  Variables (a : pairs) (n : nat) (adj : nat -> nat -> Prop) (w : list Z) (rnd : Z -> Z).
  Hypothesis GR : gra a n adj.
  Hypothesis LW : length w = n.
  Variables (lr full : bool) (PL : Prop) (B : nat).
  Notation nv := (n + 1).
  Notation wt := (mkwts (vweight w) rnd).
  Let HC := gra_ctx a n adj GR.
  Let HS := gc_sorted _ _ HC.
  Let Hself := gc_self _ _ HC.
  Notation exact := (wexact a wt).
  Notation nonneg := (exact /\ wmono wt /\ forall u, u < nv -> (0 <= wt u)%Z).
  Hypothesis HB1 : 1 <= B.
  Hypothesis HB : forall k, k < nv -> forall K, pclique a k K -> card (rlen a k) K <= B.
  Hypothesis FN : full = true -> nonneg.

  Definition wstored (W : nwgraph) : Prop := forall v, v < nv -> exists K, wholds a wt (w_g W) v K.

  Lemma nkept_cut W c1 c2 : memok (edge_bits (w_g W)) -> wstored W -> eb a nv <= c1 -> c1 <= c2 -> nkept a nv wt (wat W c1) (wcut W c2).
  Proof.
    intros M ST H1 H2. split; auto.
    - cbn. apply cut_length.
    - cbn. apply cut_ok. auto.
    - intros i Hi. cbn [wat wcut set_wg w_g set_cur set_mem edge_bits search_cur] in *. apply cut_low. lia.
    - intros v Hv. destruct (ST v Hv) as (K & R & R'). exists K. split; auto. cbn [wcut set_wg w_g set_cur set_mem edge_bits].
      eapply rep_nth; [|apply cut_length|exact R]. intros i Hi. apply cut_low. pose proof (block_end a nv v Hv). lia.
  Qed.

  Lemma nkept_self W c1 : memok (edge_bits (w_g W)) -> wstored W -> nkept a nv wt (wat W c1) W.
  Proof. intros M ST. split; auto. Qed.

  (** What is left to the iterator, and what it has returned. *)
  Definition nitems_ok (T : Z) (en : nenum) (l : list (list nat)) (fs : list frame) : Prop :=
    NoDup l /\ (forall d, In d l -> npend a nv wt T 1 [] d /\ ~ npend a nv wt T (ne_cur en) fs d)
    /\ (forall d, npend a nv wt T (ne_cur en) fs d -> npend a nv wt T 1 [] d)
    /\ (full = true -> forall d, npend a nv wt T 1 [] d -> In d l \/ npend a nv wt T (ne_cur en) fs d)
    /\ StronglySorted (nprior a nv wt T) l /\ (forall d d', In d l -> npend a nv wt T (ne_cur en) fs d' -> nprior a nv wt T d d').

  (** The iterator [x] owns the scratch space from [c1] to [c2]. *)
  Definition nslot (W : nwgraph) (c1 c2 : nat) (x : nwloop) : Prop :=
    let '(mkNL T en l) := x in
    (l = [] /\ (exists buf, length buf = max_degree (w_g W) /\ en = new_nenum buf T) /\ c2 = c1)
    \/ (l <> [] /\ c1 <= c2 <= c1 + length (last l []) * words (max_degree (w_g W))
        /\ exists N fs, nest a nv wt lr T (wat W c1) B (wcut W c2) en N fs /\ nitems_ok T en l fs).

  Fixpoint nstacked (W : nwgraph) (st : list nwloop) (c : nat) : Prop :=
    match st with
    | [] => c = search_start (w_g W)
    | x :: st => exists c1, nslot W c1 c x /\ nstacked W st c1
    end.

  Lemma nslot_bounds W c1 c2 x : nslot W c1 c2 x -> c1 <= c2 <= c1 + length (last (nl_items x) []) * words (max_degree (w_g W)).
  Proof. destruct x as [T en l]. cbn [nl_items]. intros [(-> & _ & ->)|(_ & H & _)]; [cbn [last length]; lia|exact H]. Qed.

  Lemma nstacked_bounds W st : forall c, nstacked W st c -> search_start (w_g W) <= c <= search_start (w_g W) + waiting st * words (max_degree (w_g W)).
  Proof.
    induction st as [|x st IH]; intros c H; cbn [nstacked waiting] in *; [lia|].
    destruct H as (c1 & S & H). specialize (IH c1 H). pose proof (nslot_bounds W c1 c x S). rewrite Nat.mul_add_distr_r. lia.
  Qed.

  Lemma nslot_move W W' c1 c2 x : max_degree (w_g W') = max_degree (w_g W) -> length (edge_bits (w_g W')) = length (edge_bits (w_g W)) ->
    memok (edge_bits (w_g W')) -> wstored W' -> eb a nv <= c1 ->
    (forall i, eb a nv <= i < c2 -> nth i (edge_bits (w_g W')) 0%N = nth i (edge_bits (w_g W)) 0%N) -> nslot W c1 c2 x -> nslot W' c1 c2 x.
  Proof.
    intros ED EL MO ST HE SM. destruct x as [T en l]. intros [(H1 & H2 & H3)|(H2 & H3 & N & fs & H4 & H5)]; [left; rewrite ED; auto|right].
    split; auto. split; [rewrite ED; auto|]. exists N, fs. split; auto.
    destruct H4 as (KE & Z & L & LB & X). split; [apply nkept_cut; auto; lia|]. split; auto. split; auto.
    cbn [wat wcut set_wg w_g set_cur set_mem edge_bits search_cur max_degree] in *. rewrite ED. split; auto.
    assert (SC : forall i, c1 <= i -> nth i (cut c2 (edge_bits (w_g W'))) 0%N = nth i (cut c2 (edge_bits (w_g W))) 0%N).
    { intros i Hi. destruct (Nat.lt_ge_cases i c2); [rewrite !cut_low by auto; apply SM; lia|]. rewrite !cut_high; auto. }
    destruct X as [(X1 & X2 & X3)|(X1 & X2 & X3 & X4 & X5)]; [left|right].
    - split; auto. split; auto. eapply (arena_ext a nv); [auto|exact X2|apply cut_ok; auto|rewrite !cut_length; auto|exact SC].
    - split; auto. split; auto. split; auto. split; auto. intros i Hi. rewrite SC by auto. apply X4. auto.
  Qed.

  Lemma nstacked_move W W' st : max_degree (w_g W') = max_degree (w_g W) -> search_start (w_g W') = search_start (w_g W) ->
    length (edge_bits (w_g W')) = length (edge_bits (w_g W)) -> memok (edge_bits (w_g W')) -> wstored W' -> eb a nv <= search_start (w_g W) ->
    forall c, (forall i, eb a nv <= i < c -> nth i (edge_bits (w_g W')) 0%N = nth i (edge_bits (w_g W)) 0%N) -> nstacked W st c -> nstacked W' st c.
  Proof.
    intros ED ES EL MO ST HE. induction st as [|x st IH]; intros c SM H; cbn [nstacked] in *; [congruence|].
    destruct H as (c1 & S & H). exists c1. pose proof (nstacked_bounds W st c1 H). pose proof (nslot_bounds W c1 c x S). split.
    - eapply nslot_move; eauto. lia.
    - apply IH; auto. intros i Hi. apply SM. lia.
  Qed.

  (** ** The invariant *)
  Record nlgraph (st : list nwloop) (W : nwgraph) (mcs : nat -> nat) : Prop := {
    nlg_shape : shape a nv (w_g W) mcs;
    nlg_eb : eb a nv <= search_start (w_g W);
    nlg_deg0 : forall k, k < nv -> rlen a k <= max_degree (w_g W);
    nlg_room : search_start (w_g W) + 2 * (B + 1) * words (max_degree (w_g W)) <= length (edge_bits (w_g W));
    nlg_bits : wstored W;
    nlg_loc : w_loc W < nv;
    nlg_wt : w_wt W = map wt (seq 0 nv);
    nlg_deg : w_deg W = map (dgr a wt) (seq 0 nv);
    nlg_mcs : length (w_mcs W) = nv;
    nlg_zero : zero_from (edge_bits (w_g W)) (search_cur (w_g W));
    nlg_stack : nstacked W st (search_cur (w_g W));
    nlg_pos : PL -> 1 <= w_loc W;
    nlg_full : full = true -> nwide a nv wt W /\ nsvalid a nv wt W
  }.

  Definition nlinv (st : list nwloop) (q : pynw) : Prop :=
    exists W mcs m cu fin, q = mkQ (Some W) n m cu fin /\ nlgraph st W mcs.

  Lemma nw_roomleft_room st W mcs st' c : nlgraph st W mcs -> nw_roomleft n adj st' -> nstacked W st' c ->
    c + (B + 1) * words (max_degree (w_g W)) <= length (edge_bits (w_g W)).
  Proof.
    intros L (d & D & F) S. pose proof (nlg_room _ _ _ L) as H2. pose proof (nstacked_bounds W st' c S) as SB.
    assert (LD : length d <= B).
    { destruct d as [|x d]; [simpl; lia|]. destruct (clique_rooted a n adj GR (x :: d) D ltac:(discriminate)) as (v & K & Hv & _ & R & P & E & _).
      rewrite <- E. apply HB; auto. lia. }
    assert (waiting st' * words (max_degree (w_g W)) <= (B + 1) * words (max_degree (w_g W))) by (apply Nat.mul_le_mono_r; lia).
    rewrite <- Nat.mul_assoc in *. lia.
  Qed.

  Lemma nlgraph_base st W mcs st' c : nlgraph st W mcs -> nw_roomleft n adj st' -> nstacked W st' c -> nbase a nv wt c W mcs.
  Proof.
    intros L F S. pose proof (nstacked_bounds W st' c S). pose proof (nw_roomleft_room st W mcs st' c L F S). destruct L. split; auto; [lia|].
    exists B. split; auto.
  Qed.

  Lemma nlgraph_good st W mcs : nlgraph st W mcs -> nw_roomleft n adj st -> ngood a nv wt W mcs.
  Proof. intros L F. split; [eapply nlgraph_base; eauto|]; apply L. Qed.

  (** The innermost iterator, seen by the enumerator. *)
  Lemma nslot_nest W mcs st T en l : nlgraph (mkNL T en l :: st) W mcs ->
    exists c1 N fs, nstacked W st c1 /\ nest a nv wt lr T (wat W c1) B W en N fs /\ nitems_ok T en l fs.
  Proof.
    intros L. destruct (nlg_stack _ _ _ L) as (c1 & S & ST). exists c1.
    pose proof (nkept_self W c1 (sh_mem _ _ _ _ (nlg_shape _ _ _ L)) (nlg_bits _ _ _ L)) as KS.
    destruct S as [(-> & (buf & LB & ->) & E)|(_ & _ & N & fs & ES & IO)].
    - exists ((nv - 1) * 2 ^ (max_degree (w_g W) + 2)), []. split; auto. split.
      + split; [exact KS|]. split; auto. split; [cbn; lia|]. split; auto. right. do 2 (split; auto). split; [auto|]. split; [|split; auto].
        cbn [wat set_wg w_g set_cur search_cur]. rewrite <- E. apply (nlg_zero _ _ _ L).
      + split; [constructor|]. split; [intros d []|]. split; auto. split; auto. split; [constructor|intros d d' []].
    - exists N, fs. split; auto. split; auto. rewrite (wcut_id W (nlg_zero _ _ _ L)) in ES. exact ES.
  Qed.

  Lemma npend_minimal T d : npend a nv wt T 1 [] d -> clique n adj d /\ 2 <= length d /\ (exact -> exists v, v <> 1 /\ heavy_minimal n adj w T d v).
  Proof.
    intros (v & K & Hv & TG & -> & [L|[_ []]]). destruct (ntarget_minimal a n adj w rnd GR LW T v K Hv TG) as (_ & M1 & M2 & M3).
    split; auto. split; auto. intros EX. exists v. split; [lia|auto].
  Qed.

  Lemma minimal_npend T d v : exact -> heavy_minimal n adj w T d v -> v <> 1 -> npend a nv wt T 1 [] d.
  Proof.
    intros EX M NE. destruct (minimal_ntarget a n adj w rnd GR LW T v d EX M) as (Hv & K & TG & ->).
    exists v, K. split; [lia|]. split; auto. split; auto. left. lia.
  Qed.

  (** Steps of the innermost iterator keep everything else. *)
  Lemma nlgraph_kept st st' W mcs W' c1 : nlgraph st W mcs -> nkept a nv wt (wat W c1) W' -> search_start (w_g W) <= c1 ->
    zero_from (edge_bits (w_g W')) (search_cur (w_g W')) -> nstacked W' st' (search_cur (w_g W')) -> nlgraph st' W' mcs.
  Proof.
    intros L KE HL ZF SK. pose proof (nk_core _ _ _ _ _ KE) as CO. unfold core in CO. inversion CO. cbn [wat set_wg w_g set_cur] in *.
    pose proof (nk_vs _ _ _ _ _ KE). pose proof (nk_mem _ _ _ _ _ KE). cbn [wat set_wg w_g set_cur vertices] in *.
    split; auto.
    - destruct (nlg_shape _ _ _ L). split; congruence.
    - replace (search_start (w_g W')) with (search_start (w_g W)) by auto. apply L.
    - intros k Hk. replace (max_degree (w_g W')) with (max_degree (w_g W)) by auto. apply (nlg_deg0 _ _ _ L k Hk).
    - rewrite (nk_len _ _ _ _ _ KE). replace (max_degree (w_g W')) with (max_degree (w_g W)) by auto.
      replace (search_start (w_g W')) with (search_start (w_g W)) by auto. apply L.
    - exact (nk_bits _ _ _ _ _ KE).
    - rewrite (nk_loc _ _ _ _ _ KE). apply L.
    - rewrite (nk_wt _ _ _ _ _ KE). apply L.
    - rewrite (nk_deg _ _ _ _ _ KE). apply L.
    - rewrite (nk_mcs _ _ _ _ _ KE). apply (nlg_mcs _ _ _ L).
    - rewrite (nk_loc _ _ _ _ _ KE). apply (nlg_pos _ _ _ L).
    - intros FU. destruct (nlg_full _ _ _ L FU) as [WD SV]. split.
      + intros v Hv. rewrite (nk_lim _ _ _ _ _ KE). apply WD; auto.
      + intros v x Hv. rewrite (nk_mcs _ _ _ _ _ KE). apply SV; auto.
  Qed.

  (** ** One step of the innermost iterator *)
  Lemma nlinv_next st q T en l : nlinv (mkNL T en l :: st) q -> nw_roomleft n adj st ->
    wp (nw_next_clique rnd lr q en) (fun r => let '(q', en', x) := r in
      match x with
      | Ret c => nlinv (mkNL T en' (l ++ [c]) :: st) q' /\ clique n adj c /\ 2 <= length c /\ ~ In c l
           /\ (exact -> exists v, v <> 1 /\ heavy_minimal n adj w T c v)
      | Raise y => y = EStopIteration /\ nlinv st q' /\ (full = true -> forall d v, heavy_minimal n adj w T d v -> v <> 1 -> In d l)
      end).
  Proof.
    intros (W & mcs & m & cu & fin & -> & L) F. pose proof (nlg_shape _ _ _ L) as SH. pose proof (nlg_eb _ _ _ L) as HE.
    destruct (nslot_nest W mcs st T en l L) as (c1 & N & fs & ST & ES & IO).
    pose proof (nstacked_bounds W st c1 ST) as SB. pose proof (nw_roomleft_room _ W mcs st c1 L F ST) as RM.
    assert (NB : nbase a nv wt (search_cur (w_g (wat W c1))) (wat W c1) mcs).
    { destruct (nlgraph_base _ W mcs st c1 L F ST) as [X1 X2 X3 X4 X5 X6 X7 X8]. destruct X1. split; auto. split; auto. }
    assert (HBB : forall v, v < nv -> (forall K, pclique a v K -> card (rlen a v) K <= B) /\ rlen a v <= max_degree (w_g (wat W c1))
        /\ search_cur (w_g (wat W c1)) + (B + 1) * words (rlen a v) <= length (edge_bits (w_g (wat W c1)))).
    { intros v Hv. split; [apply HB; auto|]. cbn [wat set_wg w_g set_cur search_cur edge_bits max_degree]. pose proof (nlg_deg0 _ _ _ L v Hv) as R4. split; auto.
      pose proof (words_mono _ _ R4). assert ((B + 1) * words (rlen a v) <= (B + 1) * words (max_degree (w_g W))) by (apply Nat.mul_le_mono; lia). lia. }
    pose proof (ne_process_graph_spec a nv wt lr T (wat W c1) mcs B HC NB HB1 HBB W en N fs ES) as X. cbn [wrnd] in X.
    unfold nw_next_clique. cbn [q_G q_nvert]. apply wp_bind. eapply wp_mono; [exact X|]. clear X.
    assert (FV : full = true -> nonneg /\ nsvalid a nv wt (wat W c1)) by (intros FU; split; auto; apply (nlg_full _ _ _ L FU)).
    intros [[W1 en1] v] [(Hv & N1 & fs1 & K & LT & ES1 & TG & RP & SC & ZF & P0 & P1 & P2)|(Hv & KE & SC & ZF & E1 & E2 & P2)].
    - destruct (Nat.ltb_spec n v) as [|_]; [lia|]. pose proof ES1 as (KE & _).
      pose proof (nkept_shape a nv wt (wat W c1) mcs NB W1 KE) as SHg. unfold nw_stored.
      rewrite (stored_decode a n adj GR (w_g W1) mcs v K SHg ltac:(lia) RP). cbn [bind]. apply wp_ok.
      replace (set_wg W1 (w_g W1)) with W1 by (destruct W1; reflexivity). cbn [wat set_wg w_g set_cur search_cur] in SC.
      destruct IO as (I1 & I2 & I3 & I4 & I5 & I6).
      pose proof (I3 _ P0) as PP. destruct (npend_minimal T _ PP) as (Q1 & Q2 & Q3).
      assert (NI : ~ In (decode a v K) l) by (intros I; apply (proj2 (I2 _ I)); exact P0).
      split; [|auto]. exists W1, mcs, m, cu, fin. split; auto.
      pose proof (nk_core _ _ _ _ _ KE) as CO. unfold core in CO. inversion CO. cbn [wat set_wg w_g set_cur] in *.
      apply (nlgraph_kept _ _ W mcs W1 c1 L KE); auto; [lia|]. cbn [nstacked]. exists c1. split.
      + right. split; [destruct l; discriminate|]. split.
        * rewrite last_last, decode_length. replace (max_degree (w_g W1)) with (max_degree (w_g W)) by auto.
          pose proof (words_mono _ _ (nlg_deg0 _ _ _ L v ltac:(lia))).
          assert (card (rlen a v) K * words (rlen a v) <= card (rlen a v) K * words (max_degree (w_g W))) by (apply Nat.mul_le_mono_l; auto). lia.
        * exists N1, fs1. split.
          -- rewrite (wcut_id W1 ZF). destruct ES1 as (_ & X). split; [apply nkept_self; [apply (sh_mem _ _ _ _ SHg)|exact (nk_bits _ _ _ _ _ KE)]|].
             cbn [wat set_wg w_g set_cur search_cur max_degree] in *. replace (max_degree (w_g W1)) with (max_degree (w_g W)) by auto. exact X.
          -- split; [|split; [|split; [|split; [|split]]]].
             ++ apply (Permutation_NoDup (Permutation_cons_append l (decode a v K))). constructor; auto.
             ++ intros d I. apply in_app_iff in I. destruct I as [I|[<-|[]]].
                ** destruct (I2 d I) as [J1 J2]. split; auto. intros P. apply P1 in P. tauto.
                ** split; auto. intros P. apply P1 in P. tauto.
             ++ intros d P. apply I3. apply P1. auto.
             ++ intros FU d P. destruct (FV FU) as [NN SV]. destruct (I4 FU d P) as [I|P3]; [left; apply in_app_iff; auto|].
                destruct (P2 NN SV d P3) as [->|P4]; auto. left. apply in_app_iff. right. left. auto.
             ++ apply sorted_snoc; auto.
             ++ intros d d' I P. apply in_app_iff in I. destruct (P1 d' P) as (J1 & J2 & J3). destruct I as [I|[<-|[]]]; auto.
      + apply (nstacked_move W W1 st); auto.
        * exact (nk_len _ _ _ _ _ KE).
        * apply (sh_mem _ _ _ _ SHg).
        * exact (nk_bits _ _ _ _ _ KE).
        * exact (nk_low _ _ _ _ _ KE).
    - destruct (Nat.ltb_spec n v) as [_|]; [|lia]. apply wp_ok. split; auto. cbn [wat set_wg w_g set_cur search_cur] in SC, ZF. split.
      + exists W1, mcs, m, cu, fin. split; auto. pose proof (nkept_shape a nv wt (wat W c1) mcs NB W1 KE) as SHg.
        pose proof (nk_core _ _ _ _ _ KE) as CO. unfold core in CO. inversion CO. cbn [wat set_wg w_g set_cur] in *.
        apply (nlgraph_kept _ _ W mcs W1 c1 L KE); rewrite ?SC; auto; [lia|].
        apply (nstacked_move W W1 st); auto.
        * exact (nk_len _ _ _ _ _ KE).
        * apply (sh_mem _ _ _ _ SHg).
        * exact (nk_bits _ _ _ _ _ KE).
        * exact (nk_low _ _ _ _ _ KE).
      + intros FU d u M NE. destruct IO as (I1 & I2 & I3 & I4 & _). destruct (FV FU) as [NN SV].
        destruct (I4 FU d (minimal_npend T d u (proj1 NN) M NE)) as [I|P]; auto.
        destruct (P2 NN SV d P).
  Qed.

  Lemma nlinv_get st q e lb ub heur dfs : 1 <= n -> nlinv st q -> nw_roomleft n adj st -> npermutes e -> (full = true -> all_within n adj w ub) ->
    wp (nw_get_max_clique rnd e q lb ub heur dfs) (fun r => nlinv st (fst r) /\
      match snd r with
      | Ret c => (c = [0] /\ ~ PL \/ clique n adj c) /\ (sums_exact rnd w -> lb <= weight w c)%Z
      | Raise x => x = EBounds
      end).
  Proof.
    intros Hn (W & mcs & m & cu & fin & -> & L) F HP UB. pose proof (nlgraph_good st W mcs L F) as G.
    eapply wp_mono; [apply (nw_get_core a n adj w rnd GR LW e W mcs m cu fin lb ub heur dfs HP Hn G)|].
    intros [q' r] (W' & cur' & c & x & E1 & E2 & EX & [A1 A2 A3 A4 A5 A6 A7 A8 A9]). cbn [fst snd] in *. subst q' r.
    assert (QL : PL -> 1 <= w_loc W').
    { intros P. destruct A6 as [[_ ?]|[_ ->]]; auto. apply (nlg_pos _ _ _ L P). }
    split.
    - exists W', mcs, m, cur', (n <=? cur'). split; auto. pose proof (nc_core _ _ _ _ _ A2) as CO. unfold core in CO. inversion CO.
      cbn [nprepared w_g] in *.
      assert (ED : max_degree (w_g W') = max_degree (w_g W)) by auto. assert (ES : search_start (w_g W') = search_start (w_g W)) by auto.
      assert (EC : search_cur (w_g W') = search_cur (w_g W)) by exact (nc_cur _ _ _ _ _ A2).
      assert (EL : length (edge_bits (w_g W')) = length (edge_bits (w_g W))) by exact (nc_len _ _ _ _ _ A2).
      destruct A1 as [[X1 X2 X3 X4 X5 X6 X7 X8] Z1]. split; auto.
      + rewrite ES. apply L.
      + rewrite ED. apply L.
      + rewrite ED, ES, EL. apply L.
      + rewrite EC. apply (nstacked_move W W' st); auto.
        * apply (sh_mem _ _ _ _ X1).
        * apply L.
        * exact (nc_low _ _ _ _ _ A2).
        * apply L.
      + intros FU. destruct (nlg_full _ _ _ L FU) as [WD SV]. destruct (FN FU) as (F1 & F2 & F3).
        pose proof (prepared_wide rnd n adj w a W lb ub GR LW (UB FU) WD) as WP.
        split; [|apply A7; auto]. intros v Hv. rewrite (nc_lim _ _ _ _ _ A2). apply WP; auto.
    - destruct (Z.ltb_spec x lb); auto. split; [|intros X; rewrite <- (EX X); auto].
      destruct A3 as [[-> A3]|[A3 _]]; auto. left. split; auto. intros P. specialize (QL P). lia.
  Qed.

  Lemma nlgraph_reset st W mcs : nlgraph st W mcs ->
    nlgraph st (mkW (w_g W) (w_wt W) (w_deg W) (w_mcs W) (w_limit W) 0%Z (w_loc W)) mcs.
  Proof.
    intros L. pose proof (nlg_stack _ _ _ L) as S. destruct L. split; auto.
    apply (nstacked_move W _ st); auto. apply (sh_mem _ _ _ _ nlg_shape0).
  Qed.

  Lemma nlinv_reset st q q' : nlinv st q -> nw_reset_search q = Ok q' -> nlinv st q'.
  Proof.
    intros (W & mcs & m & cu & fin & -> & L) E. injection E as <-. eexists _, mcs, m, 0, false. split; [reflexivity|]. apply nlgraph_reset. auto.
  Qed.

  Lemma nlinv_begin st q e T en : 1 <= n -> nlinv st q -> nw_all_cliques e q T = Ret en -> nlinv (mkNL T en [] :: st) q.
  Proof.
    intros Hn (W & mcs & m & cu & fin & -> & L) E. rewrite nw_all_new in E by auto. injection E as <-.
    exists W, mcs, m, cu, fin. split; auto. destruct L. split; auto.
    exists (search_cur (w_g W)). split; auto. left. split; auto. split; auto. eexists. split; [|reflexivity]. rewrite map_length, seq_length. auto.
  Qed.

  Lemma nwloops_nlinv p st q : 1 <= n -> nlinv [] p -> nwloops rnd n adj w lr full p st q -> nlinv st q.
  Proof.
    intros Hn H0. induction 1 as [|st q e lb ub heur dfs q' r H IH F HP UB E|st q q' H IH E|st q e T en H IH E|st q k en l q' en' c H IH F E|st q k en l q' en' x H IH F E].
    - auto.
    - pose proof (nlinv_get st q e lb ub heur dfs Hn IH F HP UB) as K. rewrite E in K. apply K.
    - eapply nlinv_reset; eauto.
    - eapply nlinv_begin; eauto.
    - pose proof (nlinv_next st q k en l IH F) as K. rewrite E in K. apply K.
    - pose proof (nlinv_next st q k en l IH F) as K. rewrite E in K. apply K.
  Qed.

  (** The cliques of an iterator. *)
  Lemma nslot_items W c1 c2 T en l : nslot W c1 c2 (mkNL T en l) -> NoDup l /\ forall d, In d l -> clique n adj d /\ 2 <= length d
    /\ (exact -> exists v, v <> 1 /\ heavy_minimal n adj w T d v).
  Proof.
    intros [(-> & _)|(_ & _ & N & fs & _ & I1 & I2 & _)].
    - split; [constructor|intros d []].
    - split; auto. intros d I. apply npend_minimal. apply I2; auto.
  Qed.

  Lemma nprior_listed T d d' : exact -> nprior a nv wt T d d' -> nw_listed_before n adj w T d d'.
  Proof.
    intros EX (v & K & v' & K' & Hv & Hv' & T1 & T2 & -> & -> & X).
    exists v, v'. split; [apply (ntarget_minimal a n adj w rnd GR LW); auto|]. split; [apply (ntarget_minimal a n adj w rnd GR LW); auto|].
    destruct X as [X|(<- & X)]; [left; auto|]. right. split; auto. apply (lexlt_decode a nv); auto.
  Qed.

  (** They are the first ones of any complete list in the right order. *)
  Lemma nslot_prefix p W c1 c2 T en l L : nmade rnd p n adj w -> full = true -> nslot W c1 c2 (mkNL T en l) ->
    (forall d, In d L <-> exists v, v <> 1 /\ heavy_minimal n adj w T d v) -> StronglySorted (nw_listed_before n adj w T) L ->
    exists rest, L = l ++ rest.
  Proof.
    intros MK FU S HL SL. pose proof (FN FU) as (EX & _). destruct S as [(-> & _)|(_ & _ & N & fs & _ & I1 & I2 & I3 & I4 & I5 & I6)].
    - exists L. auto.
    - apply (sorted_prefix (nw_listed_before n adj w T)); auto.
      + intros x y Ix Iy. apply (nw_listed_asym rnd p n adj w T); auto.
      + clear - I5 EX GR LW HC HS Hself. induction I5 as [|d l I5 IH F]; constructor; auto.
        rewrite Forall_forall in *. intros d' I. apply nprior_listed; auto.
      + intros d I. apply HL. apply npend_minimal; auto. apply I2; auto.
      + intros d I NI x Ix. apply nprior_listed; auto. apply I6; auto. apply HL in I. destruct I as (v & NE & M).
        destruct (I4 FU d (minimal_npend T d v EX M NE)); tauto.
  Qed.

  Lemma nstacked_items W st : forall c, nstacked W st c -> forall x, In x st ->
    NoDup (nl_items x) /\ forall d, In d (nl_items x) -> clique n adj d /\ 2 <= length d
      /\ (exact -> exists v, v <> 1 /\ heavy_minimal n adj w (nl_weight x) d v).
  Proof.
    induction st as [|y st IH]; intros c H x; cbn [nstacked] in *; [intros []|]. destruct H as (c1 & S & H). intros [<-|I]; [|eapply IH; eauto].
    destruct y as [T en l]. eapply nslot_items; eauto.
  Qed.
End Gra.
