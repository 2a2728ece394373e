(** NWProps: the statements about NWGraph, assembled for P_NW. *)
From Verif Require Import Base MBits MUtils MGraph MHeur MApi MNW MNWEnum MNWApi Spec SpecNW SpecBits BaseFacts BitsFacts SetFacts SortFacts RowFacts ConstructFacts CardFacts LoadFacts ExportFacts LoadProps SearchBase StackFacts SearchFacts CliqueFacts FrameFacts FrameInv NWSum NWBase NWStack NWHeur NWSearch NWFacts NWEnumFacts NWEnumApi ApiFacts.
From Coq Require Import Sorting.Sorted Sorting.Permutation.
Local Open Scope nat_scope.
Local Arguments Nat.sub : simpl never.
Local Arguments Nat.mul : simpl never.

Lemma wp_inv {A} (o : outcome A) Q : wp o Q -> exists r, o = Ok r /\ Q r.
Proof. destruct o; simpl; intros H; [eauto|contradiction|contradiction]. Qed.

Section Rounding.
Variable rnd : Z -> Z.

(** ** Loading *)
Lemma nw_load_from p' n adj a cap cap' m m' edges w : load_graph new_pygraph n m cap edges = Ok p' -> fresh p' n adj a cap' m' -> length w = n ->
  exists W, nw_load_graph rnd new_pynw n m cap edges (0%Z :: w) = Ok (mkQ (Some W) n m 0 false)
    /\ p' = mkP (Some (w_g W)) n m 0 false /\ gra a n adj /\ nfresh a n w rnd (mkQ (Some W) n m 0 false) m cap'.
Proof.
  intros E (g & -> & GR & B) LW. unfold load_graph in E. unfold nw_load_graph, nw_construct.
  destruct (construct n cap edges) as [g'| |]; cbn [bind] in *; try discriminate. injection E as -> ->.
  destruct (wp_inv _ _ (built_weights a n adj w rnd GR LW cap' g m' B)) as (W & EW & F & EG).
  rewrite EW. cbn [bind]. exists W. split; [reflexivity|]. split; [congruence|]. split; auto.
Qed.

Lemma nw_load_inv n m cap edges w q : nw_load_graph rnd new_pynw n m cap edges (0%Z :: w) = Ok q ->
  load_graph new_pygraph n m cap edges = Ok (nw_as_pygraph q).
Proof.
  unfold nw_load_graph, nw_construct, load_graph. destruct (construct n cap edges) as [g| |]; cbn [bind]; try discriminate.
  destruct (nw_degrees rnd g (0%Z :: w)) as [[ws ds]| |]; cbn [bind]; try discriminate.
  destruct (nw_bounds rnd g ws ds) as [[[ms lim] loc]| |]; cbn [bind]; try discriminate. intros E. injection E as <-. reflexivity.
Qed.

(** The loaders of NWGraph and Graph agree. *)
Lemma nw_edgelist_as rows n w q : nw_from_edgelist rnd rows n w = Ok (Ret q) -> length w = n /\ from_edgelist rows n = Ok (Ret (nw_as_pygraph q)).
Proof.
  unfold nw_from_edgelist, from_edgelist. destruct (Nat.eqb_spec (length w) n) as [L|]; cbn [negb]; [|discriminate].
  destruct (read_rows n rows) as [l|]; [|discriminate].
  destruct (nw_load_graph rnd _ _ _ _ _ _) as [p| |] eqn:E; cbn [bind]; try discriminate. intros EQ. injection EQ as ->.
  rewrite (nw_load_inv _ _ _ _ _ _ E). auto.
Qed.

Lemma nw_matrix_as n M w q : nw_from_matrix rnd n n M w = Ok (Ret q) -> length w = n /\ from_matrix n n M = Ok (Ret (nw_as_pygraph q)).
Proof.
  unfold nw_from_matrix, from_matrix. rewrite Nat.eqb_refl. cbn [negb]. destruct (Nat.eqb_spec (length w) n) as [L|]; cbn [negb]; [|discriminate].
  destruct (matrix_cells n M) as [l cnt].
  destruct (nw_load_graph rnd _ _ _ _ _ _) as [p| |] eqn:E; cbn [bind]; try discriminate. intros EQ. injection EQ as ->.
  rewrite (nw_load_inv _ _ _ _ _ _ E). auto.
Qed.

Lemma nmade_made p n adj w : nmade rnd p n adj w -> length w = n /\ made (nw_as_pygraph p) n adj.
Proof.
  intros [rows k ws q HF E|k M ws q HF E].
  - destruct (nw_edgelist_as _ _ _ _ E). split; auto. apply made_edgelist; auto.
  - destruct (nw_matrix_as _ _ _ _ E). split; auto. apply made_matrix; auto.
Qed.

Lemma nw_load_fresh n m cap edges w q adj a cap' m' : nw_load_graph rnd new_pynw n m cap edges (0%Z :: w) = Ok q -> length w = n ->
  fresh (nw_as_pygraph q) n adj a cap' m' -> gra a n adj /\ nfresh a n w rnd q m cap'.
Proof.
  intros E LW F. destruct (nw_load_from _ _ _ _ _ _ _ _ _ _ (nw_load_inv _ _ _ _ _ _ E) F LW) as (W & E1 & _ & GR & NF).
  rewrite E in E1. injection E1 as ->. auto.
Qed.

Lemma nmade_fresh p n adj w : nmade rnd p n adj w -> exists a cap m, gra a n adj /\ length w = n /\ nfresh a n w rnd p m cap.
Proof.
  intros H. destruct (nmade_made _ _ _ _ H) as [LW MD]. destruct (made_fresh _ _ _ MD) as (a & cap & m & F).
  exists a, cap, (q_nedges p). destruct H as [rows k ws q HF E|k M ws q HF E].
  - unfold nw_from_edgelist in E. rewrite LW, Nat.eqb_refl in E. cbn [negb] in E. destruct (read_rows k rows) as [l|]; [|discriminate].
    destruct (nw_load_graph rnd _ _ _ _ _ _) as [p| |] eqn:EL; cbn [bind] in E; try discriminate. injection E as ->.
    destruct (nw_load_fresh _ _ _ _ _ _ _ _ _ _ EL LW F) as [G1 G2]. split; auto. split; auto.
    destruct G2 as (W & -> & G3). exists W. auto.
  - unfold nw_from_matrix in E. rewrite LW, Nat.eqb_refl in E. cbn [negb] in E. destruct (matrix_cells k M) as [l cnt].
    destruct (nw_load_graph rnd _ _ _ _ _ _) as [p| |] eqn:EL; cbn [bind] in E; try discriminate. injection E as ->.
    destruct (nw_load_fresh _ _ _ _ _ _ _ _ _ _ EL LW F) as [G1 G2]. split; auto. split; auto.
    destruct G2 as (W & -> & G3). exists W. auto.
Qed.

(** C36 *)
Lemma nw_edgelist_accepts rows n w : fits (n + 1 + 2 * length rows) ->
  wp (nw_from_edgelist rnd rows n w) (fun r => (rows_ok n rows /\ length w = n /\ exists p, r = Ret p)
     \/ (~ (rows_ok n rows /\ length w = n) /\ exists e, r = Raise e)).
Proof.
  intros HF. unfold nw_from_edgelist. destruct (Nat.eqb_spec (length w) n) as [L|L]; cbn [negb].
  2: { apply wp_ok. right. split; [tauto|eauto]. }
  pose proof (from_edgelist_spec rows n HF) as H. unfold from_edgelist in H. destruct (read_rows n rows) as [l|x].
  - destruct H as (HR & a & _ & _ & H). destruct (load_graph _ _ _ _ _) as [p| |] eqn:E; cbn [bind] in H; try contradiction.
    cbn [ends_with] in H. destruct H as (q & EQ & F). injection EQ as ->.
    destruct (nw_load_from _ _ _ _ _ _ _ _ _ w E F L) as (W & -> & _). cbn [bind]. apply wp_ok. left. eauto.
  - apply wp_ok. right. split; [tauto|eauto].
Qed.

Lemma nw_matrix_accepts rows cols M w : fits (1 + 2 * (rows * rows)) ->
  wp (nw_from_matrix rnd rows cols M w) (fun r => (rows = cols /\ length w = rows /\ exists p, r = Ret p)
     \/ (~ (rows = cols /\ length w = rows) /\ exists e, r = Raise e)).
Proof.
  intros HF. unfold nw_from_matrix. destruct (Nat.eqb_spec rows cols) as [<-|NE]; cbn [negb].
  2: { apply wp_ok. right. split; [tauto|eauto]. }
  destruct (Nat.eqb_spec (length w) rows) as [L|L]; cbn [negb].
  2: { apply wp_ok. right. split; [tauto|eauto]. }
  destruct (from_matrix_spec rows M HF) as (a & _ & _ & H). unfold from_matrix in H. rewrite Nat.eqb_refl in H. cbn [negb] in H.
  destruct (matrix_cells rows M) as [l cnt]. destruct (load_graph _ _ _ _ _) as [p| |] eqn:E; cbn [bind] in H; try contradiction.
  cbn [ends_with] in H. destruct H as (q & EQ & F). injection EQ as ->.
  destruct (nw_load_from _ _ _ _ _ _ _ _ _ w E F L) as (W & -> & _). cbn [bind]. apply wp_ok. left. eauto.
Qed.

Lemma rd_all {A} (l : list A) k : k <= length l -> forall acc, foldM (fun i l' => x <- rd l i;; Ok (l' ++ [x])) (seq 0 k) acc = Ok (acc ++ firstn k l).
Proof.
  intros Hk acc. assert (G : forall r s acc, s + r <= length l -> foldM (fun i l' => x <- rd l i;; Ok (l' ++ [x])) (seq s r) acc = Ok (acc ++ firstn r (skipn s l))).
  { clear. induction r as [|r IH]; intros s acc H; cbn [seq foldM]; [rewrite firstn_O, app_nil_r; auto|].
    destruct (nth_error l s) as [x|] eqn:E; [|apply nth_error_None in E; lia].
    rewrite (rd_some _ _ _ E). cbn [bind]. rewrite IH by lia. f_equal. rewrite <- app_assoc. f_equal.
    assert (SK : skipn s l = x :: skipn (S s) l).
    { clear - E. revert s E. induction l as [|y l IH]; intros [|s] E; try discriminate; cbn in *; [congruence|]. rewrite (IH s E). reflexivity. }
    rewrite SK. reflexivity. }
  rewrite G by lia. reflexivity.
Qed.

Lemma nmade_weights p n adj w : nmade rnd p n adj w -> 1 <= n -> nw_all_weights p = Ok (Ret w).
Proof.
  intros H Hn. destruct (nmade_fresh _ _ _ _ H) as (a & cap & m & GR & LW & W & -> & B & EW & _). unfold nw_all_weights, nw_loaded.
  cbn [q_G q_nvert]. destruct (Nat.eqb_spec n 0); [lia|]. rewrite (b_nv _ _ _ _ B), EW, rd_all by (cbn [length]; lia).
  cbn [app bind]. rewrite firstn_all2 by (cbn [length]; lia). reflexivity.
Qed.

Lemma nmade_neighbors p n adj w v : nmade rnd p n adj w -> 1 <= v <= n ->
  wp (nw_vertex_data p v) (fun r => exists l, r = Ret (nth (v - 1) w 0%Z, l) /\ StronglySorted lt l /\ forall u, In u l <-> adj v u).
Proof.
  intros H Hv. destruct (nmade_made _ _ _ _ H) as [LW MD]. pose proof (made_neighbors _ _ _ v MD ltac:(lia)) as MN.
  destruct (nmade_fresh _ _ _ _ H) as (a & cap & m & GR & _ & W & -> & B & EW & _).
  unfold vertex_neighbors, nw_vertex_data, nw_as_pygraph in *. cbn [q_G q_nvert p_G p_nvert option_map] in *.
  destruct (Nat.ltb_spec n v); [lia|]. destruct (vertex_data (w_g W) v) as [l| |]; cbn [bind] in *; try contradiction.
  cbn [ends_with] in MN. destruct MN as (l' & EQ & M1 & M2). injection EQ as ->. rewrite EW.
  destruct v as [|v]; [lia|]. replace (S v - 1) with v by lia.
  rewrite (rd_some (0%Z :: w) (S v) (nth v w 0%Z)) by (cbn [nth_error]; apply nth_error_nth'; lia).
  cbn [bind]. apply wp_ok. eauto.
Qed.

(** Every read past the end is the only thing that goes wrong. *)
Definition oob_or {A} (o : outcome A) (Q : A -> Prop) : Prop := match o with Ok x => Q x | UB OobRead => True | _ => False end.

Lemma oob_bind {A B} (o : outcome A) (f : A -> outcome B) Q : oob_or o (fun x => oob_or (f x) Q) -> oob_or (bind o f) Q.
Proof. destruct o as [x|[]|]; simpl; auto. Qed.

Lemma oob_fold {S} (f : nat -> S -> outcome S) (I : nat -> S -> Prop) k : forall lo s, I lo s ->
  (forall i s, lo <= i < lo + k -> I i s -> oob_or (f i s) (I (Datatypes.S i))) -> oob_or (foldM f (seq lo k) s) (I (lo + k)).
Proof.
  induction k as [|k IH]; intros lo s H0 H; cbn [seq foldM]; [rewrite Nat.add_0_r; exact H0|].
  apply oob_bind. pose proof (H lo s ltac:(lia) H0) as H1. destruct (f lo s) as [s'|[]|]; simpl in *; auto.
  replace (lo + Datatypes.S k) with (Datatypes.S lo + k) by lia. apply IH; auto. intros. apply H; auto. lia.
Qed.

Lemma oob_weaken {A} (o : outcome A) (P Q : A -> Prop) : oob_or o P -> (forall x, P x -> Q x) -> oob_or o Q.
Proof. destruct o as [x|[]|]; simpl; auto. Qed.

Lemma oob_rd {A} (l : list A) i (Q : A -> Prop) : (forall x, nth_error l i = Some x -> Q x) -> oob_or (rd l i) Q.
Proof. intros H. unfold rd. destruct (nth_error l i); simpl; auto. Qed.

Lemma adjlist_short a n adj cap g w : gra a n adj -> built a (n + 1) cap g -> length w = n -> nw_degrees rnd g w = UB OobRead.
Proof.
  intros GR B LW. pose proof (gra_ctx a n adj GR) as HC.
  assert (G : oob_or (nw_degrees rnd g w) (fun _ => False)).
  { unfold nw_degrees, for_. rewrite (b_nv _ _ _ _ B), Nat.sub_0_r.
    eapply oob_weaken; [apply (oob_fold _ (fun i (_ : list Z * list Z) => i <= n)); [lia|]|intros s; cbn beta; lia].
    intros i [ws ds] Hi _. apply oob_bind, oob_rd. intros v _. apply oob_bind.
    eapply oob_weaken; [rewrite Nat.sub_0_r; apply (oob_fold _ (fun _ _ => True)); [exact Logic.I|]|].
    - intros j d _ _. apply oob_bind, oob_rd. intros e _. apply oob_bind, oob_rd. intros x _. exact Logic.I.
    - intros d _. apply oob_bind, oob_rd. intros x Hx. simpl. assert (i < length w) by (apply nth_error_Some; congruence). lia. }
  destruct (nw_degrees rnd g w) as [s|[]|]; simpl in G; try contradiction. reflexivity.
Qed.

Lemma nw_adjlist_fails n m A w : fits (length A + list_sum (map (@length nat) A)) -> sets_ok n m A -> length w = n ->
  nw_from_adjlist rnd n m A w = UB OobRead.
Proof.
  intros HF SO LW. destruct (from_adjlist_spec n m A HF) as [(_ & a & GR & _ & H)|(H & _)]; [|contradiction].
  destruct SO as (L & A0 & _). unfold from_adjlist in H. unfold nw_from_adjlist.
  destruct A as [|a0 A']; [simpl in L; lia|]. cbn [nth] in A0. subst a0.
  replace (n =? length ([] :: A') - 1) with true in H by (symmetry; apply Nat.eqb_eq; lia).
  replace (n + 1 =? length ([] :: A')) with true by (symmetry; apply Nat.eqb_eq; lia).
  replace (n =? length w) with true by (symmetry; apply Nat.eqb_eq; lia). cbn [negb orb] in *.
  destruct (read_sets n 0 ([] :: A') ([] :: A')) as [[[l e]|x]| |]; cbn [bind] in *; try contradiction.
  2: { cbn [ends_with] in H. destruct H as (p & E & _). discriminate. }
  destruct (negb (e / 2 =? m)); [cbn [ends_with] in H; destruct H as (p & E & _); discriminate|].
  unfold load_graph in H. unfold nw_load_graph, nw_construct.
  destruct (construct n (push_cap (length l) 0 0) l) as [g| |]; cbn [bind] in *; try contradiction.
  cbn [ends_with] in H. destruct H as (p & E & g' & E2 & _ & B). injection E as <-. injection E2 as -> .
  rewrite (adjlist_short a n (adj_sets ([] :: A')) _ g' w GR B LW). reflexivity.
Qed.

(** ** Searches *)
Section Searches.
  Variables (p : pynw) (n : nat) (adj : nat -> nat -> Prop) (w : list Z).
  Hypothesis MK : nmade rnd p n adj w.
  Hypothesis HE : has_edge adj.
  Hypothesis LV : nstorage_live p.

  Definition ninv (a : pairs) (q : pynw) : Prop := exists W mcs m cur fin, q = mkQ (Some W) n m cur fin /\ ngood a (n + 1) (mkwts (vweight w) rnd) W mcs.

  Definition qloc (q : pynw) : Prop := exists W, q_G q = Some W /\ 1 <= w_loc W.

  Lemma nmade_inv : exists a, gra a n adj /\ length w = n /\ 1 <= n /\ ninv a p
    /\ (sums_exact rnd w -> nonnegative w -> (exists x, In x w /\ (0 < x)%Z) -> qloc p)
    /\ (sums_exact rnd w -> nonnegative w -> exists W, q_G p = Some W /\ w_size W = 0%Z /\ nsvalid a (n + 1) (mkwts (vweight w) rnd) W /\ nwide a (n + 1) (mkwts (vweight w) rnd) W).
  Proof.
    destruct (nmade_fresh _ _ _ _ MK) as (a & cap & m & GR & LW & NF). exists a. pose proof (has_edge_n _ _ _ GR HE) as Hn.
    destruct LV as (g & EG & HL). pose proof (gra_ctx a n adj GR) as HC.
    pose proof NF as (W & EP & B & F1 & F2 & F3 & F4 & F5 & F6). rewrite EP in EG. cbn [nw_as_pygraph q_G option_map p_G] in EG. injection EG as EG. subst g. rewrite EP in *.
    pose proof (nfresh_good a n adj w rnd GR LW _ m cap W NF eq_refl HE HL) as G.
    do 3 (split; auto). split; [exists W, (bound a), m, 0, false; auto|]. split.
    - intros EX NN (x & I & Hx). apply (exact_sums a n adj w rnd GR LW) in EX. exists W. split; auto. destruct F6 as [[E1 E2]|(E1 & E2 & E3)].
      + exfalso. apply In_nth with (d := 0%Z) in I. destruct I as (k & Hk & E).
        assert (VW : (0 < vweight w (S k))%Z) by (unfold vweight; cbn [nth]; rewrite E; auto).
        pose proof (F5 (S k) ltac:(lia)) as BD. rewrite (wbnd_exact a (n + 1) _ HC (S k) EX ltac:(lia)) in BD. cbn [wf] in BD.
        pose proof (wsum_nonneg (rlen a (S k)) (pw a (mkwts (vweight w) rnd) (S k)) (wcand a (mkwts (vweight w) rnd) (S k)) ltac:(intros; apply vweight_nonneg; auto)). lia.
      + assert (H0 : w_loc W <> 0); [|lia]. intros E. rewrite E in E2.
        rewrite (wbnd_exact a (n + 1) _ HC 0 EX ltac:(lia)), (gra_len0 a n adj GR) in E2.
        destruct (sp_spec a (n + 1) (gc_sorted _ _ HC) (gc_self _ _ HC) 0 ltac:(lia)) as [S1 S2]. rewrite (gra_len0 a n adj GR) in S1.
        pose proof (wcand_sp a (n + 1) (mkwts (vweight w) rnd) HC 0 ltac:(lia)) as WS. replace (sp a 0) with 0 in WS by lia.
        rewrite wsum_S, WS in E2. cbn [wsum wf vweight nth] in E2. lia.
    - intros EX NN. apply (exact_sums a n adj w rnd GR LW) in EX. exists W. split; auto. split; auto.
      assert (RW : forall v, v < n + 1 -> nheavy a (mkwts (vweight w) rnd) v (wbnd a (mkwts (vweight w) rnd) v)).
      { intros v Hv K R _ _. apply (rooted_weight a (n + 1) v (mkwts (vweight w) rnd) HC Hv); auto. intros. apply vweight_nonneg; auto. }
      split.
      + intros v x Hv Hx. rewrite F3 in Hx. rewrite nth_error_map, (nth_error_nth' _ 0) in Hx by (rewrite seq_length; auto).
        rewrite seq_nth in Hx by auto. cbn [option_map Nat.add] in Hx. injection Hx as <-. apply RW; auto.
      + intros v Hv. eapply nheavy_le; [apply (F5 v Hv)|]. apply RW; auto.
  Qed.

  Lemma reset_ninv a q : ninv a q -> wp (nw_reset_search q) (fun q' => ninv a q' /\ (qloc q -> qloc q')).
  Proof.
    intros (W & mcs & m & cur & fin & -> & G). apply wp_ok. split.
    - do 5 eexists. split; [reflexivity|]. destruct G as [[X1 X2 X3 X4 X5 X6 X7 X8] Z]. split; [split; eauto|auto].
    - intros (W1 & E & L). cbn [q_G] in E. injection E as ->. eexists. split; [reflexivity|]. exact L.
  Qed.

  Lemma get_ninv a q e lb ub heur dfs : gra a n adj -> length w = n -> 1 <= n -> ninv a q -> npermutes e ->
    wp (nw_get_max_clique rnd e q lb ub heur dfs) (fun r => ninv a (fst r) /\ (qloc q -> qloc (fst r))
       /\ match snd r with
          | Ret c => (c = [0] /\ ~ qloc q \/ clique n adj c) /\ (sums_exact rnd w -> lb <= weight w c)%Z
          | Raise x => x = EBounds
          end).
  Proof.
    intros GR LW Hn (W & mcs & m & cur & fin & -> & G) HP.
    eapply wp_mono; [apply (nw_get_core a n adj w rnd GR LW e W mcs m cur fin lb ub heur dfs HP Hn G)|].
    intros [q' r] (W' & cur' & c & x & E1 & E2 & EX & [A1 A2 A3 A4 A5 A6 A7]). cbn [fst snd] in *. subst q' r.
    assert (QL : qloc (mkQ (Some W) n m cur fin) -> 1 <= w_loc W').
    { intros (W1 & E & L). cbn [q_G] in E. injection E as <-. destruct A6 as [[_ ?]|[_ ->]]; auto. }
    split; [do 5 eexists; split; [reflexivity|eauto]|]. split.
    - intros QQ. eexists. split; [reflexivity|]. auto.
    - destruct (Z.ltb_spec x lb); auto. split; [|intros X; rewrite <- (EX X); auto]. destruct A3 as [[-> A3]|[A3 _]]; auto. left. split; auto. intros QQ. specialize (QL QQ). lia.
  Qed.

  Lemma history_ninv a q : gra a n adj -> length w = n -> 1 <= n -> ninv a p -> nhistory rnd p q -> ninv a q /\ (qloc p -> qloc q).
  Proof.
    intros GR LW Hn IP H. induction H as [|q e lb ub heur dfs q' r H [IH1 IH2] HP E|q q' H [IH1 IH2] E|q e T en lr fuel q' en' l H [IH1 IH2] EA E]; auto.
    - pose proof (get_ninv a q e lb ub heur dfs GR LW Hn IH1 HP) as G. rewrite E in G. cbn [ends_with fst snd] in G.
      destruct G as (G1 & G2 & _). auto.
    - pose proof (reset_ninv a q IH1) as G. rewrite E in G. cbn [ends_with] in G. destruct G. auto.
    - destruct IH1 as (W & mcs & m & cur & fin & -> & G).
      destruct (nw_drain_good a n adj w rnd GR LW e W mcs m cur fin T en lr fuel q' en' l Hn G EA E) as (W' & -> & G' & KE).
      split; [do 5 eexists; split; [reflexivity|eauto]|]. intros QP. destruct (IH2 QP) as (W1 & E1 & L). cbn [q_G] in E1. injection E1 as <-.
      exists W'. split; auto. rewrite (nk_loc _ _ _ _ _ KE). auto.
  Qed.

  (** C37 *)
  Lemma nw_clique q e lb ub heur dfs : nhistory rnd p q -> npermutes e ->
    wp (nw_get_max_clique rnd e q lb ub heur dfs) (fun '(_, r) => match r with
       | Ret c => (c = [0] \/ clique n adj c) /\ (sums_exact rnd w -> lb <= weight w c)%Z
       | Raise x => x = EBounds
       end).
  Proof.
    intros H HP. destruct nmade_inv as (a & GR & LW & Hn & IP & _). destruct (history_ninv a q GR LW Hn IP H) as [IQ _].
    eapply wp_mono; [apply (get_ninv a q e lb ub heur dfs GR LW Hn IQ HP)|]. intros [q' [c|x]]; cbn [fst snd]; [|tauto].
    intros (_ & _ & [[-> _]|C] & L); auto.
  Qed.

  Lemma nw_clique_positive q e lb ub heur dfs : sums_exact rnd w -> nonnegative w -> (exists x, In x w /\ (0 < x)%Z) -> nhistory rnd p q -> npermutes e ->
    wp (nw_get_max_clique rnd e q lb ub heur dfs) (fun '(_, r) => match r with
       | Ret c => clique n adj c /\ (lb <= weight w c)%Z
       | Raise x => x = EBounds
       end).
  Proof.
    intros EX NN PX H HP. destruct nmade_inv as (a & GR & LW & Hn & IP & QP & _). destruct (history_ninv a q GR LW Hn IP H) as [IQ QQ].
    specialize (QQ (QP EX NN PX)).
    eapply wp_mono; [apply (get_ninv a q e lb ub heur dfs GR LW Hn IQ HP)|]. intros [q' [c|x]]; cbn [fst snd]; [|tauto].
    intros (_ & _ & [[_ Q]|C] & L); [contradiction|auto].
  Qed.

  (** C39 *)
  Lemma nw_weight_sum q c : (forall c1 c2, c = c1 ++ c2 -> rnd (weight w c1) = weight w c1) -> nhistory rnd p q ->
    nw_get_clique_weight rnd q c = Ok (Ret (weight w c)).
  Proof.
    intros EX H. destruct nmade_inv as (a & GR & LW & Hn & IP & _).
    destruct (history_ninv a q GR LW Hn IP H) as [(W & mcs & m & cur & fin & -> & [G _]) _].
    unfold nw_get_clique_weight, nw_loaded. cbn [q_G q_nvert]. destruct (Nat.eqb_spec n 0); [lia|].
    destruct (nw_clique_weight_spec n w rnd LW W c) as (x & -> & X).
    - apply (sh_nv _ _ _ _ (nb_shape _ _ _ _ _ _ G)).
    - rewrite (nb_wt _ _ _ _ _ _ G). apply vweight_seq. auto.
    - rewrite (X EX). reflexivity.
  Qed.

  (** C38 *)
  Definition nvinv (a : pairs) (q : pynw) : Prop := exists W mcs m cur fin, q = mkQ (Some W) n m cur fin /\ ngood a (n + 1) (mkwts (vweight w) rnd) W mcs
    /\ nsvalid a (n + 1) (mkwts (vweight w) rnd) W /\ nwide a (n + 1) (mkwts (vweight w) rnd) W.

  Hypothesis SE : sums_exact rnd w.
  Hypothesis NN : nonnegative w.

  Lemma prepared_wide a W lb ub : gra a n adj -> length w = n -> all_within n adj w ub -> nwide a (n + 1) (mkwts (vweight w) rnd) W ->
    nwide a (n + 1) (mkwts (vweight w) rnd) (nprepared W lb ub).
  Proof.
    intros GR LW AW WD v Hv K R P L. cbn [nprepared w_limit].
    pose proof (WD v Hv K R P L). pose proof (all_nheavy a n adj w rnd GR LW ub AW v Hv K R P L). lia.
  Qed.

  Lemma unhurried_nvinv a q : gra a n adj -> length w = n -> 1 <= n -> nvinv a p -> nunhurried rnd n adj w p q -> nvinv a q.
  Proof.
    intros GR LW Hn IP H. induction H as [|q e lb ub heur dfs q' r H IH HP AW E|q q' H IH E|q e T en lr fuel q' en' l H IH EA E]; auto.
    - destruct IH as (W & mcs & m & cur & fin & -> & G & SV & WD).
      pose proof (nw_get_core a n adj w rnd GR LW e W mcs m cur fin lb ub heur dfs HP Hn G) as X. rewrite E in X. cbn [ends_with fst snd] in X.
      destruct X as (W' & cur' & c & x & -> & _ & _ & [A1 A2 A3 A4 A5 A6 A7]).
      destruct (A7 (conj (exact_sums a n adj w rnd GR LW SE) (fun u _ => vweight_nonneg w NN u)) (prepared_wide a W lb ub GR LW AW WD) SV) as [SV' _].
      do 5 eexists. split; [reflexivity|]. split; [eauto|]. split; auto. intros v Hv. rewrite (nc_lim _ _ _ _ _ A2).
      apply (prepared_wide a W lb ub GR LW AW WD); auto.
    - destruct IH as (W & mcs & m & cur & fin & -> & G & SV & WD). injection E as <-. do 5 eexists. split; [reflexivity|].
      destruct G as [[X1 X2 X3 X4 X5 X6 X7 X8] Z]. split; [split; [split; eauto|auto]|]. split; auto.
    - destruct IH as (W & mcs & m & cur & fin & -> & G & SV & WD).
      destruct (nw_drain_good a n adj w rnd GR LW e W mcs m cur fin T en lr fuel q' en' l Hn G EA E) as (W' & -> & G' & KE).
      do 5 eexists. split; [reflexivity|]. split; [eauto|]. split.
      + intros v x Hv. rewrite (nk_mcs _ _ _ _ _ KE). apply SV; auto.
      + intros v Hv. rewrite (nk_lim _ _ _ _ _ KE). apply WD; auto.
  Qed.

  Lemma nrested_state q : nrested rnd n adj w p q -> exists a, gra a n adj /\ length w = n /\ 1 <= n
    /\ exists W mcs m cur fin, q = mkQ (Some W) n m cur fin /\ ngood a (n + 1) (mkwts (vweight w) rnd) W mcs
      /\ nsvalid a (n + 1) (mkwts (vweight w) rnd) W /\ nwide a (n + 1) (mkwts (vweight w) rnd) W /\ w_size W = 0%Z.
  Proof.
    intros H. destruct nmade_inv as (a & GR & LW & Hn & IP & _ & VP). specialize (VP SE NN). destruct VP as (W0 & E0 & SZ & SV & WD).
    exists a. do 3 (split; auto). destruct IP as (W & mcs & m & cur & fin & EP & G). rewrite EP in E0. cbn [q_G] in E0. injection E0 as <-.
    destruct H as [->|(q0 & HU & E)].
    - exists W, mcs, m, cur, fin. auto.
    - destruct (unhurried_nvinv a q0 GR LW Hn) as (W1 & mcs1 & m1 & cur1 & fin1 & -> & G1 & SV1 & WD1); auto.
      { exists W, mcs, m, cur, fin. auto. }
      injection E as <-. do 5 eexists. split; [reflexivity|].
      destruct G1 as [[X1 X2 X3 X4 X5 X6 X7 X8] Z]. split; [split; [split; eauto|auto]|]. split; auto.
  Qed.

  Lemma nw_heaviest q e lb ub heur : nrested rnd n adj w p q -> npermutes e -> all_within n adj w ub ->
    wp (nw_get_max_clique rnd e q lb ub heur true) (fun '(q', r) => match r with
       | Ret c => all_within n adj w (weight w c)
       | Raise x => x = EBounds /\ all_within n adj w lb
       end).
  Proof.
    intros H HP AW. destruct (nrested_state q H) as (a & GR & LW & Hn & W & mcs & m & cur & fin & -> & G & SV & WD & SZ).
    eapply wp_mono; [apply (nw_get_core a n adj w rnd GR LW e W mcs m cur fin lb ub heur true HP Hn G)|].
    intros [q' r] (W' & cur' & c & x & E1 & E2 & EX & [A1 A2 A3 A4 A5 A6 A7]). cbn [fst snd] in *. rewrite (EX SE) in E2. subst r.
    pose proof (exact_sums a n adj w rnd GR LW SE) as SX.
    destruct (A7 (conj (exact_sums a n adj w rnd GR LW SE) (fun u _ => vweight_nonneg w NN u)) (prepared_wide a W lb ub GR LW AW WD) SV) as [_ AL]. specialize (AL eq_refl).
    rewrite SZ in A6. pose proof (weight_nonneg w c NN) as WN.
    assert (AM : (lb <= weight w c)%Z -> all_within n adj w (weight w c)).
    { intros L d C L2. pose proof (AL d C L2). destruct A6 as [[E _]|[E _]]; try specialize (E SX); lia. }
    destruct (Z.ltb_spec (weight w c) lb); auto. split; auto. intros d C L2. pose proof (AL d C L2). destruct A6 as [[E _]|[E _]]; try specialize (E SX); lia.
  Qed.

  (** C80 *)
  Lemma nw_bounded q e lb ub heur : nrested rnd n adj w p q -> npermutes e ->
    wp (nw_get_max_clique rnd e q lb ub heur true) (fun '(q', r) => match r with
       | Ret c => (lb <= weight w c)%Z /\ (all_within n adj w (weight w c) \/ (ub <= weight w c)%Z)
       | Raise x => x = EBounds /\ (all_within n adj w lb \/ (ub <= lb)%Z)
       end).
  Proof.
    intros H HP. destruct (nrested_state q H) as (a & GR & LW & Hn & W & mcs & m & cur & fin & -> & G & SV & WD & SZ).
    eapply wp_mono; [apply (nw_get_core a n adj w rnd GR LW e W mcs m cur fin lb ub heur true HP Hn G)|].
    intros [q' r] (W' & cur' & c & x & E1 & E2 & EX & [A1 A2 A3 A4 A5 A6 A7 A8 A9]). cbn [fst snd] in *. rewrite (EX SE) in E2. subst r.
    pose proof (exact_sums a n adj w rnd GR LW SE) as SX.
    pose proof (A8 (conj SX (fun u _ => vweight_nonneg w NN u)) SV eq_refl) as AL. rewrite SZ in A6. pose proof (weight_nonneg w c NN) as WN.
    assert (AM : all_within n adj w (w_size W') \/ (ub <= w_size W')%Z).
    { destruct AL as [AL|]; auto. destruct (Z.min_spec ub (w_limit W)) as [[_ E]|[_ E]]; rewrite E in AL; auto. left. intros d C L2.
      pose proof (nheavy_all a n adj w rnd GR LW (w_limit W) WD d C L2). lia. }
    assert (SW : (lb <= weight w c -> w_size W' <= weight w c)%Z) by (intros L; destruct A6 as [[E _]|[E _]]; try specialize (E SX); lia).
    destruct (Z.ltb_spec (weight w c) lb) as [L|L].
    - split; auto. assert (w_size W' <= lb)%Z by (destruct A6 as [[E _]|[E _]]; try specialize (E SX); lia).
      destruct AM as [AM|AM]; [left; intros d C L2; pose proof (AM d C L2); lia|right; lia].
    - split; auto. specialize (SW L). destruct AM as [AM|AM]; [left; intros d C L2; pose proof (AM d C L2); lia|right; lia].
  Qed.

  (** C58 *)
  Lemma nw_all_complete q e T lr : rises rnd -> nunhurried rnd n adj w p q -> exists en q' en' l, nw_all_cliques e q T = Ret en
    /\ (forall fuel, length l < fuel -> nw_drain rnd fuel lr q en = Ok (q', en', l))
    /\ forall d v, heavy_minimal n adj w T d v -> v <> 1 -> In d l.
  Proof.
    intros MO H. destruct nmade_inv as (a & GR & LW & Hn & (W0 & mcs0 & m0 & cur0 & fin0 & EP & G0) & _ & VP).
    destruct (VP SE NN) as (W1 & E1 & _ & SV1 & WD1). rewrite EP in E1. cbn [q_G] in E1. injection E1 as <-.
    destruct (unhurried_nvinv a q GR LW Hn) as (W & mcs & m & cur & fin & -> & G & SV & WD); auto.
    { do 5 eexists. split; [exact EP|]. eauto. }
    destruct (nw_drain_ready a n adj w rnd GR LW W mcs G m cur fin lr T (map (nw_junk e) (seq 0 (max_degree (w_g W)))))
      as (l & (W' & en2 & DR & _) & _ & _ & C); [rewrite map_length, seq_length; auto|].
    do 4 eexists. split; [apply nw_all_new; auto|]. split; [exact DR|]. apply C; auto. split; [exact (exact_sums a n adj w rnd GR LW SE)|]. split; [exact MO|]. intros. apply vweight_nonneg; auto.
  Qed.
End Searches.

(** C40 *)
Lemma nw_all_minimal p n adj w : nmade rnd p n adj w -> has_edge adj -> nstorage_live p -> forall q e T lr, nhistory rnd p q ->
  exists en q' en' l, nw_all_cliques e q T = Ret en
    /\ (forall fuel, length l < fuel -> nw_drain rnd fuel lr q en = Ok (q', en', l))
    /\ NoDup l /\ forall d, In d l -> clique n adj d /\ 2 <= length d /\ (sums_exact rnd w -> exists v, v <> 1 /\ heavy_minimal n adj w T d v).
Proof.
  intros MK HE LV q e T lr H. destruct (nmade_inv p n adj w MK HE LV) as (a & GR & LW & Hn & IP & _).
  destruct (history_ninv p n adj w a q GR LW Hn IP H) as [(W & mcs & m & cur & fin & -> & G) _].
  destruct (nw_drain_ready a n adj w rnd GR LW W mcs G m cur fin lr T (map (nw_junk e) (seq 0 (max_degree (w_g W)))))
    as (l & (W' & en2 & DR & _) & ND & S & _); [rewrite map_length, seq_length; auto|].
  do 4 eexists. split; [apply nw_all_new; auto|]. split; [exact DR|]. split; auto. intros d I.
  destruct (S d I) as (S1 & S2 & S3). split; auto. split; auto. intros SE. apply S3, (exact_sums a n adj w rnd GR LW SE).
Qed.

(** Every heavy clique contains a minimal one that starts at the same vertex. *)
Lemma clique_remove n adj d u : clique n adj d -> clique n adj (remove Nat.eq_dec u d).
Proof.
  intros (C1 & C2 & C3). split; [|split].
  - clear C2 C3. induction C1 as [|x l S IH F]; [constructor|]. cbn [remove]. destruct (Nat.eq_dec u x); auto.
    constructor; auto. apply Forall_forall. intros y I. apply in_remove in I. rewrite Forall_forall in F. apply F. tauto.
  - intros x I. apply in_remove in I. apply C2. tauto.
  - intros x y I J. apply in_remove in I, J. apply C3; tauto.
Qed.

Lemma last_added (d : list nat) v : 2 <= length d -> NoDup d -> In v d -> exists u, ends_at d v u.
Proof.
  intros L N I. assert (G : forall l : list nat, l <> [] -> exists u, In u l /\ forall x, In x l -> x <= u).
  { induction l as [|x l IH]; intros NE; [congruence|]. destruct l as [|y l].
    - exists x. split; [left; auto|]. intros z [<-|[]]; auto.
    - destruct IH as (u & Iu & M); [discriminate|]. exists (Nat.max x u). split.
      + destruct (Nat.max_spec x u) as [[_ ->]|[_ ->]]; [right; auto|left; auto].
      + intros z [<-|Iz]; [lia|]. specialize (M z Iz). lia. }
  pose proof (Permutation_length (remove_perm v d N I)) as E. cbn [length] in E.
  destruct (G (remove Nat.eq_dec v d)) as (u & Iu & M); [intros E0; rewrite E0 in E; simpl in E; lia|].
  apply in_remove in Iu. exists u. split; [tauto|]. split; [tauto|]. intros x Ix NE. apply M. apply in_in_remove; auto.
Qed.

Lemma minimal_inside n adj w T v : forall c, clique n adj c -> 2 <= length c -> (T <= weight w c)%Z -> starts_at adj w c v ->
  exists d, heavy_minimal n adj w T d v /\ incl d c.
Proof.
  intros c. remember (length c) as k eqn:EK. revert c EK. induction k as [k IH] using (well_founded_induction lt_wf).
  intros c EK C L TW ST. pose proof (sorted_nodup _ (proj1 C)) as ND.
  destruct (last_added c v ltac:(lia) ND (proj1 ST)) as (u & EU).
  pose proof (Permutation_length (remove_perm u c ND (proj1 EU))) as E. cbn [length] in E.
  assert (D : heavy_minimal n adj w T c v \/ (2 <= length (remove Nat.eq_dec u c) /\ (T <= weight w (remove Nat.eq_dec u c))%Z)).
  { destruct (Z.lt_ge_cases (weight w (remove Nat.eq_dec u c)) T) as [LT|GE].
    - left. do 4 (split; [auto; lia|]). exists u. auto.
    - destruct (Nat.eq_dec (length (remove Nat.eq_dec u c)) 1) as [E1|NE]; [left|right; split; lia].
      do 4 (split; [auto; lia|]). exists u. auto. }
  destruct D as [D|[D1 D2]]; [exists c; split; auto; apply incl_refl|].
  destruct (IH (length (remove Nat.eq_dec u c)) ltac:(lia) _ eq_refl (clique_remove _ _ _ u C) D1 D2) as (d & H1 & H2).
  - destruct ST as [S1 S2]. destruct EU as (U1 & U2 & U3). split; [apply in_in_remove; auto|].
    intros x xv xu Ix. apply in_remove in Ix. apply S2. tauto.
  - exists d. split; auto. intros x Ix. apply H2 in Ix. apply in_remove in Ix. tauto.
Qed.

Lemma nw_all_covers p n adj w : nmade rnd p n adj w -> has_edge adj -> nstorage_live p -> sums_exact rnd w -> rises rnd -> nonnegative w ->
  forall q e T lr, nunhurried rnd n adj w p q -> exists en q' en' l, nw_all_cliques e q T = Ret en
    /\ (forall fuel, length l < fuel -> nw_drain rnd fuel lr q en = Ok (q', en', l))
    /\ forall c v, clique n adj c -> 2 <= length c -> (T <= weight w c)%Z -> starts_at adj w c v -> v <> 1 ->
         exists d, In d l /\ incl d c.
Proof.
  intros MK HE LV SE MO NN q e T lr H. destruct (nw_all_complete p n adj w MK HE LV SE NN q e T lr MO H) as (en & q' & en' & l & E1 & E2 & C).
  exists en, q', en', l. split; auto. split; auto. intros c v CL L TW ST NE.
  destruct (minimal_inside n adj w T v c CL L TW ST) as (d & M & I). exists d. split; auto. eapply C; eauto.
Qed.

Lemma nw_weight_fresh p n adj w c : nmade rnd p n adj w -> 1 <= n -> (forall c1 c2, c = c1 ++ c2 -> rnd (weight w c1) = weight w c1) ->
  nw_get_clique_weight rnd p c = Ok (Ret (weight w c)).
Proof.
  intros H Hn EX. destruct (nmade_fresh _ _ _ _ H) as (a & cap & m & GR & LW & W & -> & B & EW & _).
  unfold nw_get_clique_weight, nw_loaded. cbn [q_G q_nvert]. destruct (Nat.eqb_spec n 0); [lia|].
  destruct (nw_clique_weight_spec n w rnd LW W c (b_nv _ _ _ _ B) EW) as (x & -> & X). rewrite (X EX). reflexivity.
Qed.

(** A vertex with a neighbour, and the empty list, are no heavier than a clique of two vertices. *)
Lemma within_all n adj w M d : simple n adj -> nonnegative w -> has_edge adj -> all_within n adj w M -> clique n adj d ->
  (forall v, d = [v] -> exists u, adj v u) -> (weight w d <= M)%Z.
Proof.
  intros SI NN HE AW C NI.
  assert (E2 : forall u v, adj u v -> (vweight w u + vweight w v <= M)%Z).
  { intros u v A. destruct (SI u v A) as (A' & NE & Hu). destruct (SI v u A') as (_ & _ & Hv).
    assert (CC : forall x y, adj x y -> x < y -> (vweight w x + vweight w y <= M)%Z).
    { intros x y Axy L. destruct (SI x y Axy) as (Ayx & _ & Hx). destruct (SI y x Ayx) as (_ & _ & Hy).
      pose proof (AW [x; y]) as X. cbn [weight length] in X. rewrite Z.add_0_r in X. apply X; [|lia].
      split; [repeat constructor; auto|]. split.
      - intros z [<-|[<-|[]]]; auto.
      - intros z t [<-|[<-|[]]] [<-|[<-|[]]] N; auto; congruence. }
    destruct (Nat.lt_trichotomy u v) as [L|[L|L]]; [apply CC; auto|contradiction|]. rewrite Z.add_comm. apply CC; auto. }
  destruct d as [|v [|v' d]].
  - destruct HE as (u & v & A). pose proof (E2 u v A). pose proof (vweight_nonneg w NN u). pose proof (vweight_nonneg w NN v). cbn [weight]. lia.
  - destruct (NI v eq_refl) as (u & A). pose proof (E2 v u A). pose proof (vweight_nonneg w NN u). cbn [weight]. lia.
  - apply AW; auto. simpl. lia.
Qed.

End Rounding.
