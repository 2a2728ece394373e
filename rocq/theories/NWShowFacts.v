(** NWShowFacts: lemmas for C111, graphs with weights. *)
From Verif Require Import Base MBits MUtils MGraph MApi MNW MNWEnum MNWApi MShow MNWShow Spec SpecNW SpecShow SpecBits BaseFacts BitsFacts SetFacts SortFacts RowFacts ConstructFacts CardFacts LoadFacts SearchBase CliqueFacts NWSum NWBase NWStack NWSearch EnumFacts NWFacts NWProps SpecNWFirst NWFirst GrowFacts ShowFacts.
From Coq Require Import Sorting.Permutation.
Local Open Scope nat_scope.

(** One entry of the output: the vertex, the number printed as the weight of its clique, the clique. *)
Definition shown : Type := nat * Z * list nat.

Section Gra.
  Variables (a : pairs) (n : nat) (adj : nat -> nat -> Prop) (w : list Z) (rnd : Z -> Z).
  Hypothesis GR : gra a n adj.
  Notation nv := (n + 1).
  Notation wt := (mkwts (vweight w) rnd).
  Let HC := gra_ctx a n adj GR.
  Let HS := gc_sorted _ _ HC.
  Let Hself := gc_self _ _ HC.

  Definition hides (W : nwgraph) (v : nat) : bool := (rlen a v <=? 1) || (nth v (w_mcs W) 0 <=? vweight w v)%Z.

  Lemma set_wmem_id W : set_wmem W (edge_bits (w_g W)) = W.
  Proof. unfold set_wmem. rewrite set_mem_id. destruct W. reflexivity. Qed.

  Lemma nw_vertex_spec c0 W mcs v K : nbase a nv wt c0 W mcs -> v < nv -> rep (edge_bits (w_g W)) (eb a v) (rlen a v) K ->
    nw_vertex_disp W v (mkvert a (mcs v) v)
    = Ok (W, if hides W v then [] else wlines v (vweight w v) (dgr a wt v) (nth v (w_mcs W) 0%Z) (row a v) (coded a v K), if hides W v then [] else row a v).
  Proof.
    intros B V R. pose proof (nb_shape _ _ _ _ _ _ B) as SH. unfold nw_vertex_disp.
    rewrite (nb_wt _ _ _ _ _ _ B), rd_mapseq by exact V. cbn [bind]. rewrite (nb_deg _ _ _ _ _ _ B), rd_mapseq by exact V. cbn [bind].
    rewrite (rd_some (w_mcs W) v (nth v (w_mcs W) 0%Z)) by (apply nth_error_nth'; rewrite (nb_mcs _ _ _ _ _ _ B); exact V). cbn [bind mkvert vN velo vbits].
    unfold hides. cbn [wf]. destruct (_ || _); [reflexivity|].
    pose proof (len_pos a nv HS Hself v V) as LP.
    rewrite (for_snoc (rlen a v) _ (fun i => nbr a v i) (fun x => [x])).
    2:{ intros i l I. rewrite (sh_el _ _ _ _ SH), (rd_el a nv HC) by auto. reflexivity. }
    cbn [bind]. unfold live. rewrite (sh_live _ _ _ _ SH). cbn [bind].
    rewrite (show_bits_spec _ _ _ K (sh_mem _ _ _ _ SH) R LP). cbn [bind]. rewrite set_wmem_id.
    rewrite (sh_el _ _ _ _ SH), (show_elements_spec _ _ _ K _ _ (sh_mem _ _ _ _ SH) R LP) by (apply (row_end a nv); auto).
    cbn [bind]. rewrite set_wmem_id, flat_single, (row_bits a n adj GR v K V).
    assert (EC : card (rlen a v) K = length (coded a v K)) by (unfold coded; rewrite map_length; reflexivity).
    assert (EN : map (fun i => Num (nth (off a v + i) (map snd a) 0)) (sel (rlen a v) K) = map Num (coded a v K)).
    { unfold coded. rewrite map_map. apply map_ext_in. intros p I. apply filter_In in I. destruct I as [I _]. apply in_seq in I. f_equal. apply (ent_row a nv HC). lia. }
    rewrite EC, EN. unfold wlines, clique_lines. f_equal. f_equal; [f_equal; f_equal; f_equal; f_equal; rewrite <- app_assoc; reflexivity|].
    apply nth_ext with (d := 0) (d' := 0); [rewrite map_length, seq_length; reflexivity|].
    intros i I. rewrite map_length, seq_length in I. rewrite (nth_indep _ 0 (nbr a v 0)) by (rewrite map_length, seq_length; lia).
    rewrite (map_nth (fun i => nbr a v i)), seq_nth by lia. reflexivity.
  Qed.

  Definition entry (x : shown) : list nitem := let '(v, m, c) := x in wlines v (vweight w v) (dgr a wt v) m (row a v) c.

  Lemma nw_disp_spec c0 W mcs : nbase a nv wt c0 W mcs ->
    exists L : list shown, nw_disp W = Ok (W, flat_map entry L, flat_map (fun x => row a (fst (fst x))) L)
      /\ map (fun x => fst (fst x)) L = filter (fun v => negb (hides W v)) (seq 0 nv)
      /\ forall v m c, In (v, m, c) L -> v < nv /\ m = nth v (w_mcs W) 0%Z
           /\ exists K, rep (edge_bits (w_g W)) (eb a v) (rlen a v) K /\ K (sp a v) = true /\ pclique a v K /\ c = coded a v K.
  Proof.
    intros B. pose proof (nb_shape _ _ _ _ _ _ B) as SH. unfold nw_disp, for_. rewrite (sh_nv _ _ _ _ SH), Nat.sub_0_r.
    match goal with |- context [foldM ?f _ _] => set (F := f) end.
    assert (X : forall j s, s + j = nv -> forall out err, exists L : list shown,
      foldM F (seq s j) (W, out, err) = Ok (W, out ++ flat_map entry L, err ++ flat_map (fun x => row a (fst (fst x))) L)
      /\ map (fun x => fst (fst x)) L = filter (fun v => negb (hides W v)) (seq s j)
      /\ forall v m c, In (v, m, c) L -> v < nv /\ m = nth v (w_mcs W) 0%Z
           /\ exists K, rep (edge_bits (w_g W)) (eb a v) (rlen a v) K /\ K (sp a v) = true /\ pclique a v K /\ c = coded a v K).
    { induction j as [|j IH]; intros s E out err; cbn [seq foldM].
      - exists []. cbn. rewrite !app_nil_r. split; [reflexivity|]. split; [reflexivity|]. tauto.
      - destruct (nb_bits _ _ _ _ _ _ B s ltac:(lia)) as (K & K1 & K2 & K3).
        assert (FE : F s (W, out, err) = Ok (W, out ++ (if hides W s then [] else entry (s, nth s (w_mcs W) 0%Z, coded a s K)),
                                               err ++ (if hides W s then [] else row a s))).
        { unfold F. rewrite (sh_vs _ _ _ _ SH), rd_vert by lia. cbn [bind]. rewrite (nw_vertex_spec c0 W mcs s K B ltac:(lia) K1). reflexivity. }
        rewrite FE. cbn [bind].
        destruct (IH (S s) ltac:(lia) (out ++ (if hides W s then [] else entry (s, nth s (w_mcs W) 0%Z, coded a s K)))
                    (err ++ (if hides W s then [] else row a s))) as (L & E1 & E2 & E3).
        rewrite E1. cbn [filter]. destruct (hides W s); cbn [negb].
        + exists L. rewrite !app_nil_r. auto.
        + exists ((s, nth s (w_mcs W) 0%Z, coded a s K) :: L). cbn [map flat_map fst snd]. rewrite !app_assoc. split; [reflexivity|]. split; [congruence|].
          intros v m c [I|I]; [|apply E3; exact I]. injection I as <- <- <-. split; [lia|]. split; [reflexivity|]. exists K. split; [exact K1|]. split; [apply K2|]. auto. }
    destruct (X nv 0 eq_refl [] []) as (L & E1 & E2 & E3). exists L. auto.
  Qed.

  Lemma row_weight v : length w = n -> sums_exact rnd w -> dgr a wt v = weight w (row a v).
  Proof.
    intros LW SE. rewrite (wexact_dgr a wt v (exact_sums a n adj w rnd GR LW SE)), <- (decode_weight a w rnd v (fun _ => true)). f_equal. unfold decode, members.
    assert (FT : forall l : list nat, filter (fun _ => true) l = l) by (induction l; cbn; congruence). rewrite FT. apply nth_ext with (d := 0) (d' := 0); [rewrite map_length, seq_length; reflexivity|].
    intros i I. rewrite map_length, seq_length in I. rewrite (nth_indep _ 0 (nbr a v 0)) by (rewrite map_length, seq_length; lia).
    rewrite (map_nth (fun i => nbr a v i)), seq_nth by lia. reflexivity.
  Qed.
End Gra.

Lemma nw_disp_history rnd p n adj w q : nmade rnd p n adj w -> has_edge adj -> nstorage_live p -> nhistory rnd p q ->
  exists W row deg (L : list (nat * Z * list nat)), q_G q = Some W
    /\ nw_disp W = Ok (W, flat_map (fun '(v, m, c) => wlines v (vweight w v) (deg v) m (row v) c) L, flat_map (fun '(v, _, _) => row v) L)
    /\ StronglySorted lt (map (fun '(v, _, _) => v) L)
    /\ forall v m c, In (v, m, c) L -> 1 <= v <= n /\ (exists u, adj v u) /\ StronglySorted lt (row v) /\ (forall x, In x (row v) <-> x = v \/ adj v x)
         /\ clique n adj c /\ In v c /\ (vweight w v < m)%Z /\ (sums_exact rnd w -> deg v = weight w (row v)).
Proof.
  intros M HE LV H. destruct (nmade_inv rnd p n adj w M HE LV) as (a & GR & LW & Hn & IP & _).
  destruct (history_ninv rnd p n adj w a q GR LW Hn IP H) as [(W & mcs & m & cur & fin & -> & G) _].
  destruct (nw_disp_spec a n adj w rnd GR _ W mcs (proj1 G)) as (L & E1 & E2 & E3).
  exists W, (row a), (dgr a (mkwts (vweight w) rnd)), L. split; [reflexivity|].
  assert (EF : map (fun '(v, _, _) => v) L = filter (fun v => negb (hides a w W v)) (seq 0 (n + 1))).
  { etransitivity; [|exact E2]. apply map_ext. intros [[? ?] ?]. reflexivity. }
  split.
  { rewrite E1. f_equal. f_equal. clear. induction L as [|[[v x] c] L IH]; cbn; [reflexivity|]. rewrite IH. reflexivity. }
  split; [rewrite EF; apply filter_sorted, seq_increasing|].
  pose proof (gra_ctx a n adj GR) as HC. pose proof (gc_sorted _ _ HC) as HS. pose proof (gc_self _ _ HC) as Hself.
  intros v x c I. destruct (E3 v x c I) as (V & -> & K & K1 & K2 & K3 & ->).
  assert (IV : In v (map (fun '(v, _, _) => v) L)) by (apply in_map_iff; eexists; split; [|exact I]; reflexivity).
  rewrite EF in IV. apply filter_In in IV. destruct IV as [_ IV]. apply negb_true_iff, orb_false_iff in IV. destruct IV as [I1 I2].
  apply Nat.leb_gt in I1. apply Z.leb_gt in I2.
  assert (V1 : 1 <= v) by (destruct v; [rewrite (gra_len0 a n adj GR) in I1; lia|lia]).
  split; [lia|]. split; [apply (row_more a n adj GR); lia|]. split; [apply row_sorted; exact HS|]. split; [intros y; apply (row_members a n adj GR); lia|].
  split; [apply (pclique_clique a n adj w GR LW v K); [lia|exact K3]|]. split.
  { destruct (sp_spec a (n + 1) HS Hself v V) as [S1 S2]. apply in_map_iff. exists (sp a v). split; [exact S2|]. apply filter_In. split; [apply in_seq; lia|exact K2]. }
  split; [exact I2|]. intros SE. apply (row_weight a n adj w rnd GR v LW SE).
Qed.

Lemma later_weight_one adj w v x y : later_weight adj w v x -> later_weight adj w v y -> x = y.
Proof.
  intros (l & N1 & I1 & <-) (k & N2 & I2 & <-). apply weight_perm, NoDup_Permutation; auto. intros u. rewrite I1, I2. reflexivity.
Qed.

Lemma nw_disp_fresh rnd p n adj w : nmade rnd p n adj w -> sums_exact rnd w -> has_edge adj -> nstorage_live p ->
  exists W row (L : list (nat * Z)), q_G p = Some W
    /\ nw_disp W = Ok (W, flat_map (fun '(v, m) => wlines v (vweight w v) (weight w (row v)) m (row v) [v]) L, flat_map (fun '(v, _) => row v) L)
    /\ StronglySorted lt (map fst L)
    /\ (forall v m, In (v, m) L <-> 1 <= v <= n /\ later_weight adj w v m /\ (vweight w v < m)%Z)
    /\ forall v m, In (v, m) L -> StronglySorted lt (row v) /\ forall x, In x (row v) <-> x = v \/ adj v x.
Proof.
  intros MK SE HE (g & EG & HL). destruct (nmade_fresh rnd p n adj w MK) as (a & cap & m & GR & LW & NF).
  pose proof NF as (W & EP & B & F1 & F2 & F3 & F4 & F5 & F6). rewrite EP in EG. cbn [nw_as_pygraph q_G option_map p_G] in EG. injection EG as EG. subst g.
  pose proof (gra_ctx a n adj GR) as HC. pose proof (gc_sorted _ _ HC) as HS. pose proof (gc_self _ _ HC) as Hself. rewrite EP in NF.
  pose proof (nfresh_good a n adj w rnd GR LW _ m cap W NF eq_refl HE HL) as G.
  set (wt := mkwts (vweight w) rnd) in *.
  destruct (nw_disp_spec a n adj w rnd GR _ W _ (proj1 G)) as (L & E1 & E2 & E3).
  assert (EM : forall v, v < n + 1 -> nth v (w_mcs W) 0%Z = wbnd a wt v).
  { intros v V. rewrite F3. rewrite (nth_indep _ 0%Z (wbnd a wt 0)) by (rewrite map_length, seq_length; exact V). rewrite (map_nth (wbnd a wt)), seq_nth by exact V. reflexivity. }
  assert (EC : forall v x c, In (v, x, c) L -> v < n + 1 /\ x = wbnd a wt v /\ c = [v]).
  { intros v x c I. destruct (E3 v x c I) as (V & -> & K & K1 & _ & _ & ->). split; [exact V|]. split; [apply EM; exact V|].
    destruct (sp_spec a (n + 1) HS Hself v V) as [S1 S2].
    unfold coded. replace (members (rlen a v) K) with [sp a v]; [cbn; rewrite S2; reflexivity|].
    rewrite <- (members_single (rlen a v) (sp a v) S1). apply filter_ext_in. intros i J. apply in_seq in J.
    apply (rep_agree _ _ _ _ _ i (b_rep _ _ _ _ B v V) K1). lia. }
  assert (EV : forall v, In v (map (fun x : shown => fst (fst x)) L) <-> 1 <= v <= n /\ (vweight w v < wbnd a wt v)%Z).
  { intros v. unfold shown. rewrite E2, filter_In, in_seq, negb_true_iff. unfold hides. rewrite orb_false_iff, Nat.leb_gt, Z.leb_gt. split.
    - intros (V & L1 & L2). rewrite EM in L2 by lia. split; [|exact L2]. destruct v; [rewrite (gra_len0 a n adj GR) in L1; lia|lia].
    - intros (V & L2). rewrite EM by lia. split; [lia|]. split; [|exact L2].
      destruct (Nat.lt_ge_cases 1 (rlen a v)) as [H|H]; [exact H|exfalso].
      destruct (row_later_weight a n adj w rnd GR LW SE v ltac:(lia)) as (l & ND & IL & WL). fold wt in WL.
      assert (EL : forall u, In u l -> u = v).
      { intros u I. apply IL in I. destruct I as [->|[A _]]; [reflexivity|]. exfalso.
        destruct (gr_simple _ _ _ GR v u A) as (_ & NE & _). destruct (sp_spec a (n + 1) HS Hself v ltac:(lia)) as [S1 S2].
        assert (IR : In u (row a v)) by (apply (row_members a n adj GR v u ltac:(lia)); auto). apply In_nth with (d := 0) in IR. destruct IR as (i & I1 & I2).
        change (length (row a v)) with (rlen a v) in I1. assert (i = sp a v) by lia. congruence. }
      destruct l as [|u [|u' l]]; [exact (proj2 (IL v) (or_introl eq_refl))| |].
      + rewrite (EL u) in WL by (left; reflexivity). cbn [weight] in WL. lia.
      + apply NoDup_cons_iff in ND. apply (proj1 ND). left. rewrite (EL u), (EL u') by (cbn; auto). reflexivity. }
  exists W, (row a), (map (fun x : shown => (fst (fst x), snd (fst x))) L). split; [rewrite EP; reflexivity|].
  split.
  { rewrite E1. f_equal. f_equal; [f_equal|].
    - clear - EC GR LW SE. induction L as [|[[v x] c] L IH]; [reflexivity|]. cbn [map flat_map fst snd].
      rewrite IH by (intros; apply EC; right; auto). f_equal. destruct (EC v x c (or_introl eq_refl)) as (_ & _ & ->). unfold entry.
      rewrite (row_weight a n adj w rnd GR v LW SE). reflexivity.
    - clear. induction L as [|[[v x] c] L IH]; [reflexivity|]. cbn [map flat_map fst snd]. rewrite IH. reflexivity. }
  split.
  { rewrite map_map. cbn [fst]. unfold shown. rewrite E2. apply filter_sorted, seq_increasing. }
  assert (EI : forall v x, In (v, x) (map (fun x : shown => (fst (fst x), snd (fst x))) L) <-> 1 <= v <= n /\ later_weight adj w v x /\ (vweight w v < x)%Z).
  { intros v x. split.
    - intros I. apply in_map_iff in I. destruct I as ([[v' x'] c] & I1 & I2). cbn [fst snd] in I1. injection I1 as -> ->.
      destruct (EC v x c I2) as (V & -> & _). pose proof (proj1 (EV v) ltac:(apply in_map_iff; eexists; split; [|exact I2]; reflexivity)) as (V1 & V2).
      split; [exact V1|]. split; [apply (row_later_weight a n adj w rnd GR LW SE); exact V|exact V2].
    - intros (V & LX & VX). pose proof (row_later_weight a n adj w rnd GR LW SE v ltac:(lia)) as LX'. fold wt in LX'.
      rewrite (later_weight_one adj w v x _ LX LX') in *.
      pose proof (proj2 (EV v) (conj V VX)) as I. apply in_map_iff in I. destruct I as ([[v' x'] c] & I1 & I2). cbn [fst] in I1. subst v'.
      destruct (EC v x' c I2) as (_ & -> & _). apply in_map_iff. eexists. split; [|exact I2]. reflexivity. }
  split; [exact EI|]. intros v x I. apply EI in I. split; [apply row_sorted; exact HS|]. intros y. apply (row_members a n adj GR). lia.
Qed.
