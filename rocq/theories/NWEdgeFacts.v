(** NWEdgeFacts: NWGraphs without edges, calls without a search, and objects that are not loaded. *)
From Verif Require Import Base MBits MUtils MGraph MApi MNW MNWEnum MNWApi Spec SpecNW BaseFacts SetFacts SortFacts RowFacts ConstructFacts CardFacts LoadFacts SearchBase CliqueFacts EnumFacts EnumApi SearchProps NWSum NWBase NWFacts NWProps.
From Coq Require Import Sorting.Sorted.
Local Open Scope nat_scope.

(** ** Loops that end in their first or second turn *)
Lemma loop2_ub {S R} k (body : S -> outcome (step S R)) s u : body s = UB u -> loop2 k body s = UB u.
Proof. intros E. induction k as [|k IH]; cbn [loop2]; [exact E|]. rewrite IH. reflexivity. Qed.

Lemma loop2_done {S R} k (body : S -> outcome (step S R)) s x : body s = Ok (Done x) -> loop2 k body s = Ok (Done x).
Proof. intros E. induction k as [|k IH]; cbn [loop2]; [exact E|]. rewrite IH. reflexivity. Qed.

Lemma loop2_second {S R} k (body : S -> outcome (step S R)) s s' x : body s = Ok (Cont s') -> body s' = Ok (Done x) -> loop2 (Datatypes.S k) body s = Ok (Done x).
Proof.
  intros E1 E2. induction k as [|k IH]; cbn [loop2] in *; [rewrite E1; cbn [bind]; exact E2|]. rewrite IH. reflexivity.
Qed.

Section Rounding.
Variable rnd : Z -> Z.

Section Edgeless.
  Variables (p : pynw) (n : nat) (adj : nat -> nat -> Prop) (w : list Z) (a : pairs) (cap m : nat).
  Hypothesis Hn : 1 <= n.
  Hypothesis NE : forall u v, ~ adj u v.
  Hypothesis GR : gra a n adj.
  Hypothesis LW : length w = n.
  Hypothesis NF : nfresh a n w rnd p m cap.

  Lemma edgeless_row k : k < n + 1 -> row a k = [k].
  Proof.
    intros Hk. apply sorted_ext; [apply row_sorted, (gr_sorted _ _ _ GR)|repeat constructor|].
    intros x. rewrite row_in, (gr_in _ _ _ GR). simpl. split.
    - intros (_ & _ & [E|A]); auto. exfalso. eapply NE; eauto.
    - intros [<-|[]]. repeat split; auto; lia.
  Qed.

  Lemma edgeless_len k : k < n + 1 -> rlen a k = 1.
  Proof. intros Hk. unfold rlen. rewrite (edgeless_row k Hk). reflexivity. Qed.

  Lemma edgeless_memory W g k : q_G p = Some W -> edge_bits g = edge_bits (w_g W) -> search_cur g = search_cur (w_g W) -> load_memory g k = UB OobRead.
  Proof.
    intros EG E1 E2. destruct NF as (W0 & -> & B & _). cbn [q_G] in EG. injection EG as ->.
    destruct (b_edgeless _ _ _ _ B ltac:(lia) edgeless_len) as (L1 & _).
    unfold load_memory. rewrite E1, E2, (b_cur _ _ _ _ B), L1. destruct (Nat.ltb_spec (1 + eb a (n + 1)) (eb a (n + 1))); [lia|auto].
  Qed.

  Lemma edgeless_vertex W i : q_G p = Some W -> i < n + 1 -> exists v, rd (vertices (w_g W)) i = Ok v.
  Proof.
    intros EG Hi. destruct NF as (W0 & -> & B & _). cbn [q_G] in EG. injection EG as ->. rewrite (b_vs _ _ _ _ B).
    destruct (nth_error (map (fun k => mkvert a (bound a k) k) (seq 0 (n + 1))) i) as [v|] eqn:EV.
    - exists v. apply rd_some. auto.
    - apply nth_error_None in EV. rewrite map_length, seq_length in EV. lia.
  Qed.

  Lemma nedgeless_get e lb ub heur dfs : heur = true \/ dfs = true -> nw_get_max_clique rnd e p lb ub heur dfs = UB OobRead.
  Proof.
    intros HD. pose proof edgeless_memory as LM. pose proof edgeless_vertex as EV. destruct NF as (W & EP & B & F1 & F2 & F3 & F4 & F5 & F6).
    assert (EG : q_G p = Some W) by (rewrite EP; reflexivity). unfold nw_get_max_clique, nw_loaded. cbn [q_G q_nvert]. rewrite EG, EP. cbn [q_nvert].
    destruct (Nat.eqb_spec n 0); [lia|]. set (W0 := mkW _ _ _ _ _ _ _). unfold nw_find_max_cliques. destruct heur.
    - unfold nh_process_graph. rewrite (LM W) by auto. reflexivity.
    - destruct HD as [HD| ->]; [discriminate|]. cbn [bind]. unfold nd_process_graph, nd_process_vertex.
      change (vertices (w_g W0)) with (vertices (w_g W)). change (w_loc W0) with (w_loc W).
      assert (HL : w_loc W < n + 1) by (destruct F6 as [[_ ->]|[H _]]; lia).
      destruct (EV W (w_loc W) EG HL) as (v & ->). cbn [bind]. unfold root_state. rewrite (LM W) by auto. reflexivity.
  Qed.

  (** The bound of a vertex is its weight. *)
  Lemma edgeless_bound v : v < n + 1 -> wbnd a (mkwts (vweight w) rnd) v = rnd (vweight w v).
  Proof.
    intros Hv. unfold wbnd. rewrite (edgeless_len v Hv). rewrite rsum_S. cbn [rsum wrnd].
    destruct (sp_spec a (n + 1) (gc_sorted _ _ (gra_ctx a n adj GR)) (gc_self _ _ (gra_ctx a n adj GR)) v Hv) as [S1 _].
    fold (rlen a v) in S1. rewrite (edgeless_len v Hv) in S1. replace (sp a v) with 0 by lia. cbn [Nat.eqb orb].
    unfold pw, nbr. fold (row a v). rewrite (edgeless_row v Hv). reflexivity.
  Qed.

  Lemma nedgeless_loop W lr T : q_G p = Some W -> forall k fuel en g, k < fuel -> ne_cur en + k = n + 1 -> ne_states en = [] -> ne_W en = T ->
    vertices g = vertices (w_g W) -> edge_bits g = edge_bits (w_g W) -> search_cur g = search_cur (w_g W) ->
    let body := (fun '(W, en) =>
       if ne_cur en <? length (vertices (w_g W)) then
         b <- rd (w_mcs W) (ne_cur en);;
         if (b <? ne_W en)%Z then Ok (Cont (W, ne_advance en))
         else
           '(W, en, ok) <- ne_load_vertex rnd lr W en;;
           if (ok : bool) then Ok (Done (W, en)) else Ok (Cont (W, ne_advance en))
       else Ok (Done (W, en))) in
    ((exists v, ne_cur en <= v <= n /\ (T <= rnd (vweight w v))%Z) -> loopN fuel body (set_wg W g, en) = UB OobRead)
    /\ ((forall v, ne_cur en <= v <= n -> (rnd (vweight w v) < T)%Z) -> exists en', loopN fuel body (set_wg W g, en) = Ok (set_wg W g, en') /\ ne_cur en' = n + 1).
  Proof.
    intros EG. pose proof edgeless_memory as LM. pose proof edgeless_vertex as EV. pose proof NF as (W' & EP & B & F1 & F2 & F3 & F4 & F5 & F6).
    rewrite EP in EG. cbn [q_G] in EG. injection EG as ->. assert (EG : q_G p = Some W) by (rewrite EP; reflexivity).
    assert (LV : length (vertices (w_g W)) = n + 1) by (rewrite (b_vs _ _ _ _ B), map_length, seq_length; auto).
    induction k as [|k IH]; intros fuel en g Hf Hk ES ET E1 E2 E3 body; (destruct fuel as [|fuel]; [lia|]); cbn [loopN]; unfold body at 1 3; cbn [set_wg w_g w_mcs]; rewrite E1, LV.
    - destruct (Nat.ltb_spec (ne_cur en) (n + 1)); [lia|]. cbn [bind]. split; [intros (v & V & _); lia|]. intros _. exists en. split; auto. lia.
    - destruct (Nat.ltb_spec (ne_cur en) (n + 1)) as [L|]; [|lia].
      assert (RB : rd (w_mcs W) (ne_cur en) = Ok (rnd (vweight w (ne_cur en)))).
      { rewrite F3. rewrite (rd_some _ _ (wbnd a (mkwts (vweight w) rnd) (ne_cur en))); [rewrite edgeless_bound by auto; reflexivity|].
        rewrite nth_error_map, (nth_error_nth' _ 0) by (rewrite seq_length; auto). rewrite seq_nth by auto. reflexivity. }
      rewrite RB. cbn [bind]. rewrite ET. destruct (Z.ltb_spec (rnd (vweight w (ne_cur en))) T) as [LT|GE]; cbn [bind].
      + destruct (IH fuel (ne_advance en) g) as [I1 I2]; auto; try lia; [cbn; lia|]. cbn [ne_advance ne_cur] in I1, I2. split.
        * intros (v & V & X). apply I1. exists v. split; auto. destruct (Nat.eq_dec v (ne_cur en)) as [->|]; lia.
        * intros X. apply I2. intros v V. apply X. lia.
      + split.
        * intros _. unfold ne_load_vertex. cbn [set_wg w_g]. rewrite E1. destruct (EV W (ne_cur en) EG L) as (v & ->). cbn [bind].
          unfold root_state. rewrite (LM W) by auto. reflexivity.
        * intros X. specialize (X (ne_cur en) ltac:(lia)). lia.
  Qed.

  Lemma nedgeless_next e lr T : exists en, nw_all_cliques e p T = Ret en
    /\ ((exists v, 2 <= v <= n /\ (T <= rnd (vweight w v))%Z) -> nw_next_clique rnd lr p en = UB OobRead)
    /\ ((forall v, 2 <= v <= n -> (rnd (vweight w v) < T)%Z) -> exists q en', nw_next_clique rnd lr p en = Ok (q, en', Raise EStopIteration)).
  Proof.
    pose proof nedgeless_loop as LP. pose proof NF as (W & EP & B & F1 & F2 & F3 & F4 & F5 & F6).
    assert (EG : q_G p = Some W) by (rewrite EP; reflexivity). unfold nw_all_cliques, nw_loaded. rewrite EG, EP. cbn [q_nvert].
    destruct (Nat.eqb_spec n 0); [lia|]. eexists. split; [reflexivity|]. unfold nw_next_clique. cbn [q_G q_nvert].
    set (en := new_nenum _ T). unfold ne_process_graph. rewrite (b_nv _ _ _ _ B).
    assert (T1 : clear_memory (w_g W) 0 = Ok (w_g W)).
    { unfold clear_memory. destruct (Nat.ltb_spec (search_cur (w_g W)) 0); [lia|]. rewrite for_nil by lia. cbn [bind]. rewrite Nat.sub_0_r. destruct (w_g W). reflexivity. }
    assert (LV : length (vertices (w_g W)) = n + 1) by (rewrite (b_vs _ _ _ _ B), map_length, seq_length; auto).
    assert (SW : set_wg W (w_g W) = W) by (destruct W; reflexivity).
    specialize (LP W lr T EG (n - 1) (S (S (n + 1 - 1))) (ne_advance en) (w_g W)). cbv zeta in LP. rewrite SW in LP.
    destruct LP as [LP1 LP2]; auto; try lia; [cbn; lia|].
    assert (TU : ne_turn rnd lr (W, en) = match ne_process_vertex rnd lr W en with Ok (W, en) => Ok (Cont (W, en)) | UB u => UB u | OutOfFuel => OutOfFuel end).
    { unfold ne_turn. cbn [en new_nenum ne_cur ne_states ne_req]. rewrite (b_nv _ _ _ _ B). destruct (Nat.ltb_spec 1 (n + 1)); [|lia]. rewrite T1. cbn [bind]. rewrite SW.
      fold en. destruct (ne_process_vertex rnd lr W en) as [[W' en']| |]; reflexivity. }
    unfold ne_process_vertex in TU. rewrite LV in TU. change (ne_cur en) with 1 in TU. split.
    - intros X. specialize (LP1 X). rewrite LP1 in TU. unfold run2. rewrite (loop2_ub _ _ _ _ TU). reflexivity.
    - intros X. destruct (LP2 X) as (en' & E1 & E2). rewrite E1 in TU.
      assert (T2 : ne_turn rnd lr (W, en') = Ok (Done (W, en', n + 1))).
      { unfold ne_turn. rewrite E2, (b_nv _ _ _ _ B). destruct (Nat.ltb_spec (n + 1) (n + 1)); [lia|]. reflexivity. }
      replace (n + 1 + max_degree (w_g W) + 2) with (S (n + 1 + max_degree (w_g W) + 1)) by lia.
      unfold run2. rewrite (loop2_second _ _ _ _ _ TU T2). cbn [bind]. destruct (Nat.ltb_spec n (n + 1)); [|lia]. eauto.
  Qed.
End Edgeless.

Lemma nedgeless_search p n adj w e lb ub heur dfs : nmade rnd p n adj w -> 1 <= n -> (forall u v, ~ adj u v) -> heur = true \/ dfs = true ->
  nw_get_max_clique rnd e p lb ub heur dfs = UB OobRead.
Proof. intros M Hn NE H. destruct (nmade_fresh _ _ _ _ _ M) as (a & cap & m & GR & LW & NF). eapply nedgeless_get; eauto. Qed.

Lemma nedgeless_iterate p n adj w e lr T : nmade rnd p n adj w -> 1 <= n -> (forall u v, ~ adj u v) -> (forall x, In x w -> rnd x = x) ->
  exists en, nw_all_cliques e p T = Ret en
  /\ ((exists v, 2 <= v <= n /\ (T <= weight w [v])%Z) -> nw_next_clique rnd lr p en = UB OobRead)
  /\ ((forall v, 2 <= v <= n -> (weight w [v] < T)%Z) -> exists q en', nw_next_clique rnd lr p en = Ok (q, en', Raise EStopIteration)).
Proof.
  intros M Hn NE R. destruct (nmade_fresh _ _ _ _ _ M) as (a & cap & m & GR & LW & NF).
  assert (RW : forall v, 2 <= v <= n -> rnd (vweight w v) = weight w [v]).
  { intros v V. cbn [weight]. rewrite Z.add_0_r. apply R. unfold vweight. destruct v as [|v]; [lia|]. cbn [nth]. apply nth_In. lia. }
  destruct (nedgeless_next p n adj w a cap m Hn NE GR LW NF e lr T) as (en & E & E1 & E2). exists en. split; auto. split.
  - intros (v & V & X). apply E1. exists v. rewrite RW by auto. auto.
  - intros X. apply E2. intros v V. rewrite RW by auto. auto.
Qed.

(** ** No search *)
Lemma nw_no_search p n adj w e lb ub : nmade rnd p n adj w -> 1 <= n -> nstorage_live p -> (forall x, In x w -> rnd x = x) -> rnd 0 = 0%Z ->
  exists v q, v <= n /\ nw_get_max_clique rnd e p lb ub false false = Ok (q, if (weight w [v] <? lb)%Z then Raise EBounds else Ret [v]).
Proof.
  intros M Hn (g & EG & LV) R R0. destruct (nmade_fresh _ _ _ _ _ M) as (a & cap & m & GR & LW & W & -> & B & F1 & F2 & F3 & F4 & F5 & F6).
  cbn [nw_as_pygraph q_G option_map p_G] in EG. injection EG as <-. pose proof (gra_ctx a n adj GR) as HC.
  unfold nw_get_max_clique, nw_loaded. cbn [q_G q_nvert]. destruct (Nat.eqb_spec n 0); [lia|]. cbn [nw_find_max_cliques bind w_loc].
  unfold nw_find_max_cliques. cbn [bind w_loc]. assert (HL : w_loc W < n + 1) by (destruct F6 as [[_ ->]|[H _]]; lia).
  pose proof (re_shape _ _ _ _ (fresh_ready a n adj cap (w_g W) GR B LV)) as SH.
  unfold nw_stored. cbn [w_g]. rewrite (stored_decode a n adj GR (w_g W) (bound a) (w_loc W) _ SH HL (b_rep _ _ _ _ B (w_loc W) HL)). cbn [bind].
  assert (DS : decode a (w_loc W) (fun x => x =? sp a (w_loc W)) = [w_loc W]).
  { destruct (sp_spec a (n + 1) (gc_sorted _ _ HC) (gc_self _ _ HC) (w_loc W) HL) as [S1 S2]. apply sorted_ext.
    - unfold decode. apply sorted_map; [apply sel_sorted|]. intros y z Iy Iz L. apply filter_In in Iz. destruct Iz as [Iz _]. apply in_seq in Iz. apply (nbr_mono a (n + 1) HC). lia.
    - repeat constructor.
    - intros x. rewrite decode_in. split.
      + intros (q & Hq & E & <-). apply Nat.eqb_eq in E. subst q. left. symmetry. exact S2.
      + intros [<-|[]]. exists (sp a (w_loc W)). rewrite Nat.eqb_refl. auto. }
  rewrite DS. unfold set_wg. cbn [w_g w_wt w_deg w_mcs w_limit w_size w_loc].
  exists (w_loc W). eexists. split; [lia|].
  destruct (nw_clique_weight_spec n w rnd LW (mkW (w_g W) (w_wt W) (w_deg W) (w_mcs W) (if (ub <? w_limit W)%Z then ub else w_limit W)
     (if (w_size W <? lb)%Z then lb else w_size W) (w_loc W)) [w_loc W] (b_nv _ _ _ _ B) F1) as (x & E & X).
  rewrite E. cbn [bind]. rewrite X; [reflexivity|].
  intros c1 c2 EC. destruct c1 as [|y [|z c1]]; [exact R0| |destruct c1; discriminate].
  injection EC as <- _. cbn [weight]. rewrite Z.add_0_r. unfold vweight. destruct (w_loc W) as [|k]; [exact R0|]. apply R. cbn [nth]. apply nth_In. lia.
Qed.

Lemma nw_no_search_raises p n adj w e lb ub : nmade rnd p n adj w -> 1 <= n -> nstorage_live p -> (forall x, In x w -> rnd x = x) -> rnd 0 = 0%Z ->
  (0 < lb)%Z -> (forall x, In x w -> (x < lb)%Z) -> answer (nw_get_max_clique rnd e p lb ub false false) = Ok (Raise EBounds).
Proof.
  intros M Hn LV R R0 L0 L. destruct (nmade_fresh _ _ _ _ _ M) as (_ & _ & _ & _ & LW & _). destruct (nw_no_search p n adj w e lb ub M Hn LV R R0) as (v & q & V & ->).
  unfold answer. cbn [bind]. destruct (Z.ltb_spec (weight w [v]) lb) as [|G]; auto. exfalso. cbn [weight] in G. rewrite Z.add_0_r in G. unfold vweight in G.
  destruct v as [|v]; [cbn [nth] in G; lia|]. cbn [nth] in G. assert (I : In (nth v w 0%Z) w) by (apply nth_In; lia). specialize (L _ I). lia.
Qed.

(** ** Not loaded *)
Lemma nw_unloaded e lb ub heur dfs T c : answer (nw_get_max_clique rnd e new_pynw lb ub heur dfs) = Ok (Raise ENotLoaded)
  /\ nw_to_edgelist new_pynw = Ok (Raise ENotLoaded) /\ nw_to_matrix new_pynw = Ok (Raise ENotLoaded) /\ nw_to_adjlist new_pynw = Ok (Raise ENotLoaded)
  /\ nw_all_cliques e new_pynw T = Raise ENotLoaded /\ nw_all_weights new_pynw = Ok (Raise ENotLoaded) /\ nw_get_clique_weight rnd new_pynw c = Ok (Raise ENotLoaded).
Proof. repeat split; reflexivity. Qed.

Lemma nw_unloaded_reset : nw_reset_search new_pynw = UB NullDeref /\ nw_vertex_data new_pynw 0 = UB NullDeref.
Proof. split; reflexivity. Qed.
End Rounding.
