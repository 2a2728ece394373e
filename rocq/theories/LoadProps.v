(** LoadProps: the statements of P_Load, derived from LoadFacts and ExportFacts. *)
From Verif Require Import Base MBits MUtils MGraph MStack MRec MHeur MApi Spec SpecBits BaseFacts SetFacts SortFacts RowFacts ConstructFacts LoadFacts ExportFacts.
From Coq Require Import Sorting.Sorted.
Local Open Scope nat_scope.

Lemma made_holds p n adj : made p n adj -> exists a, holds_graph p n adj a.
Proof. intros H. destruct (made_fresh _ _ _ H) as (a & cap & m & F). exists a. eapply fresh_holds; eauto. Qed.

Lemma made_nvert p n adj : made p n adj -> p_nvert p = n.
Proof. intros H. destruct (made_fresh _ _ _ H) as (a & cap & m & g & -> & _). auto. Qed.

Lemma made_neighbors p n adj v : made p n adj -> v <= n ->
  wp (vertex_neighbors p v) (fun r => exists l, r = Ret l /\ StronglySorted lt l /\ forall u, In u l <-> adj v u).
Proof. intros H Hv. destruct (made_holds _ _ _ H) as (a & HH). eapply neighbors_spec; eauto. Qed.

Lemma edgelist_neighbors rows n p : fits (n + 1 + 2 * length rows) -> from_edgelist rows n = Ok (Ret p) ->
  p_nvert p = n /\ forall v, 1 <= v <= n ->
  wp (vertex_neighbors p v) (fun r => exists l, r = Ret l /\ StronglySorted lt l
     /\ forall u, In u l <-> u <> v /\ (In (u, v) rows \/ In (v, u) rows)).
Proof.
  intros HF E. pose proof (made_edgelist rows n p HF E) as M. split; [eapply made_nvert; eauto|].
  intros v Hv. eapply wp_mono; [eapply made_neighbors; eauto; lia|].
  intros r (l & -> & S & I). exists l. split; auto. split; auto. intros u. rewrite I. unfold adj_rows. intuition.
Qed.

Lemma edgelist_accepts rows n : fits (n + 1 + 2 * length rows) ->
  wp (from_edgelist rows n) (fun r => (rows_ok n rows /\ exists p, r = Ret p) \/ (~ rows_ok n rows /\ exists e, r = Raise e)).
Proof.
  intros HF. pose proof (from_edgelist_spec rows n HF) as H. destruct (read_rows n rows) as [l|e].
  - destruct H as (H1 & a & _ & _ & H). eapply wp_mono; [exact H|]. intros r (p & -> & _). left. eauto.
  - destruct H as (H1 & H). rewrite H. apply wp_ok. eauto.
Qed.

Lemma matrix_square rows cols M : rows <> cols -> from_matrix rows cols M = Ok (Raise ENotSquare).
Proof. intros H. unfold from_matrix. destruct (Nat.eqb_spec rows cols); [congruence|auto]. Qed.

Lemma matrix_neighbors n M : fits (1 + 2 * (n * n)) ->
  wp (from_matrix n n M) (fun r => exists p, r = Ret p /\ p_nvert p = n /\ forall v, 1 <= v <= n ->
    wp (vertex_neighbors p v) (fun r => exists l, r = Ret l /\ StronglySorted lt l
       /\ forall u, In u l <-> u <> v /\ 1 <= u <= n /\ (M (u - 1) (v - 1) = true \/ M (v - 1) (u - 1) = true))).
Proof.
  intros HF. destruct (from_matrix_spec n M HF) as (a & _ & _ & H). 
  apply wp_iff in H. destruct H as (r & E & p & -> & F). rewrite E. apply wp_ok. exists p. split; auto.
  pose proof (made_matrix n M p HF E) as MA. split; [eapply made_nvert; eauto|].
  intros v Hv. eapply wp_mono; [eapply made_neighbors; eauto; lia|].
  intros r (l & -> & S & I). exists l. split; auto. split; auto. intros u. rewrite I. unfold adj_matrix. intuition lia.
Qed.

Lemma adjlist_accepts n m A : fits (length A + list_sum (map (@length nat) A)) ->
  wp (from_adjlist n m A) (fun r => (sets_ok n m A /\ exists p, r = Ret p) \/ (~ sets_ok n m A /\ exists e, r = Raise e)).
Proof.
  intros HF. destruct (from_adjlist_spec n m A HF) as [(H1 & a & _ & _ & H)|(H1 & e & H)].
  - eapply wp_mono; [exact H|]. intros r (p & -> & _). left. eauto.
  - rewrite H. apply wp_ok. eauto.
Qed.

Lemma adjlist_neighbors n m A p : fits (length A + list_sum (map (@length nat) A)) -> real_sets A ->
  from_adjlist n m A = Ok (Ret p) ->
  p_nvert p = n /\ p_nedges p = m /\ forall v, v <= n -> vertex_neighbors p v = Ok (Ret (nth v A [])).
Proof.
  intros HF HR E. pose proof (made_adjlist n m A p HF HR E) as M. split; [eapply made_nvert; eauto|].
  split.
  - destruct (from_adjlist_spec n m A HF) as [(H1 & a & _ & _ & H)|(H1 & e & H)]; [|congruence].
    rewrite E in H. destruct H as (q & Q & g & -> & _). inversion Q. subst. auto.
  - intros v Hv. pose proof (made_neighbors p n _ v M ltac:(lia)) as W. apply wp_iff in W. destruct W as (r & -> & l & -> & S & I).
    f_equal. f_equal. apply sorted_ext; auto.
    destruct (Nat.lt_ge_cases v (length A)) as [L|L].
    + unfold real_sets in HR. rewrite Forall_forall in HR. apply HR. apply nth_In. auto.
    + rewrite nth_overflow by auto. constructor.
Qed.

Lemma made_to_adjlist p n adj : made p n adj -> 1 <= n ->
  wp (to_adjlist p) (fun r => exists A, r = Ret A /\ length A = n + 1 /\ nth 0 A [] = []
     /\ forall v, v <= n -> vertex_neighbors p v = Ok (Ret (nth v A [])) /\ forall u, In u (nth v A []) <-> adj v u).
Proof.
  intros H Hn. destruct (made_holds _ _ _ H) as (a & HH). eapply wp_mono; [eapply to_adjlist_spec; eauto|].
  intros r (A & -> & L & K). exists A. split; auto. split; auto. split.
  - destruct (K 0 ltac:(lia)) as [_ K0]. destruct (nth 0 A []) as [|x l]; auto. exfalso.
    assert (adj 0 x) as B by (apply K0; left; auto). apply (made_simple _ _ _ H) in B. lia.
  - intros v Hv. destruct (K v Hv) as [K1 K2]. split; auto.
    pose proof (made_neighbors p n _ v H Hv) as W. apply wp_iff in W. destruct W as (r & -> & l & -> & S & I).
    f_equal. f_equal. apply sorted_ext; auto. intros x. rewrite I, K2. tauto.
Qed.

Lemma made_to_matrix p n adj : made p n adj -> 1 <= n ->
  wp (to_matrix p) (fun r => exists M, r = Ret M /\ length M = n /\ (forall i, i < n -> length (nth i M []) = n)
     /\ forall u v, 1 <= u <= n -> 1 <= v <= n -> (nth (v - 1) (nth (u - 1) M []) false = true <-> adj u v)).
Proof. intros H Hn. destruct (made_holds _ _ _ H) as (a & HH). eapply to_matrix_spec; eauto. Qed.

Lemma adjlist_round_trip n m A p : fits (length A + list_sum (map (@length nat) A)) -> real_sets A -> 1 <= n ->
  from_adjlist n m A = Ok (Ret p) -> to_adjlist p = Ok (Ret A).
Proof.
  intros HF HR Hn E. pose proof (made_adjlist n m A p HF HR E) as M.
  pose proof (made_to_adjlist p n _ M Hn) as W. apply wp_iff in W. destruct W as (r & -> & B & -> & L & _ & K).
  destruct (adjlist_neighbors n m A p HF HR E) as (_ & _ & V).
  assert (length A = n + 1) as LA.
  { pose proof (adjlist_accepts n m A HF) as W. rewrite E in W. destruct W as [((H & _) & _)|(_ & e & W)]; [auto|discriminate]. }
  f_equal. f_equal. apply nth_ext with (d := []) (d' := []); [congruence|]. intros i Hi.
  destruct (K i ltac:(lia)) as (K1 & _). rewrite (V i ltac:(lia)) in K1. congruence.
Qed.

Lemma matrix_round_trip n M p : fits (1 + 2 * (n * n)) -> 1 <= n ->
  (forall i j, i < n -> j < n -> M i j = M j i) -> (forall i, i < n -> M i i = false) ->
  from_matrix n n M = Ok (Ret p) ->
  to_matrix p = Ok (Ret (map (fun i => map (M i) (seq 0 n)) (seq 0 n))).
Proof.
  intros HF Hn HS HD E. pose proof (made_matrix n M p HF E) as MA.
  pose proof (made_to_matrix p n _ MA Hn) as W. apply wp_iff in W. destruct W as (r & -> & B & -> & L & R & K).
  f_equal. f_equal. apply nth_ext with (d := []) (d' := []); [rewrite map_length, seq_length; auto|]. intros i Hi. rewrite L in Hi.
  rewrite nth_indep with (l := map _ _) (d' := map (M 0) (seq 0 n)) by (rewrite map_length, seq_length; auto).
  rewrite (map_nth (fun i => map (M i) (seq 0 n))), seq_nth by auto. cbn [Nat.add].
  apply nth_ext with (d := false) (d' := false); [rewrite map_length, seq_length; auto|]. intros j Hj. rewrite R in Hj by auto.
  rewrite nth_indep with (l := map _ _) (d' := M i 0) by (rewrite map_length, seq_length; auto).
  rewrite (map_nth (M i)), seq_nth by auto. cbn [Nat.add].
  specialize (K (i + 1) (j + 1) ltac:(lia) ltac:(lia)). unfold adj_matrix in K.
  replace (i + 1 - 1) with i in K by lia. replace (j + 1 - 1) with j in K by lia.
  destruct (Nat.eq_dec i j) as [->|N].
  - rewrite (HD j) by auto. destruct (nth j (nth j B []) false); auto. destruct K as [K _]. specialize (K eq_refl). lia.
  - rewrite (HS j i) in K by auto. destruct (nth j (nth i B []) false), (M i j); auto.
    + destruct K as [K _]. specialize (K eq_refl). intuition congruence.
    + destruct K as [_ K]. apply K. repeat split; auto; lia.
Qed.

(** n_edges and to_edgelist. *)
Lemma edgelist_nedges rows n p : fits (n + 1 + 2 * length rows) -> from_edgelist rows n = Ok (Ret p) ->
  forall l, edges_of (adj_rows rows) l -> (p_nedges p = length l <-> distinct_rows rows).
Proof.
  intros HF E l HL. pose proof (from_edgelist_spec rows n HF) as H. destruct (read_rows n rows) as [x|e]; [|destruct H; congruence].
  destruct H as (_ & a & G & _ & H). rewrite E in H. destruct H as (q & Q & g & -> & _). inversion Q; subst. cbn [p_nedges].
  rewrite (edges_unique _ _ _ HL (up_edges a n _ G)). apply (edgelist_count n); auto.
Qed.

Lemma matrix_nedges n M p : fits (1 + 2 * (n * n)) -> (forall i j, i < n -> j < n -> M i j = M j i) ->
  from_matrix n n M = Ok (Ret p) -> forall l, edges_of (adj_matrix n M) l -> p_nedges p = length l.
Proof.
  intros HF HS E l HL. destruct (from_matrix_spec n M HF) as (a & G & _ & H). rewrite E in H. destruct H as (q & Q & g & -> & _). inversion Q; subst.
  cbn [p_nedges]. rewrite (edges_unique _ _ _ HL (up_edges a n _ G)). apply matrix_count_sym; auto.
Qed.

Lemma adjlist_nedges n m A p : fits (length A + list_sum (map (@length nat) A)) -> real_sets A ->
  from_adjlist n m A = Ok (Ret p) -> forall l, edges_of (adj_sets A) l -> p_nedges p = length l.
Proof.
  intros HF HR E l HL. destruct (from_adjlist_spec n m A HF) as [(OK & a & G & HI & H)|(_ & e & H)]; [|congruence].
  rewrite E in H. destruct H as (q & Q & g & -> & _). inversion Q; subst.
  cbn [p_nedges]. rewrite (edges_unique _ _ _ HL (up_edges a n _ G)). eapply set_pairs_count; eauto.
Qed.

Lemma made_to_edgelist p n adj : made p n adj -> 1 <= n -> (forall l, edges_of adj l -> p_nedges p = length l) ->
  wp (to_edgelist p) (fun r => exists l, r = Ret (map Some l) /\ length l = p_nedges p /\ edges_of adj l /\ StronglySorted lexless l).
Proof.
  intros H Hn HC. destruct (made_holds _ _ _ H) as (a & HH). pose proof HH as (g & E1 & E2 & G & S).
  pose proof (up_edges a n adj G) as UE. 
  rewrite (to_edgelist_spec p n adj a); auto.
  apply wp_ok. eexists. split; [reflexivity|]. split; [symmetry; auto|]. split; auto. apply (up_sorted a n adj G).
Qed.

(** C10 *)
Lemma forget_live_inj g h : forget_live g = forget_live h -> bits_live g = bits_live h -> g = h.
Proof. destruct g, h. unfold forget_live. cbn. intros H1 H2. inversion H1. subst. reflexivity. Qed.

Lemma made_answers p q n adj adj' : made p n adj -> made q n adj' -> (forall u v, adj u v <-> adj' u v) ->
  storage_live p -> storage_live q ->
  forall e lb ub heur dfs cont, answer (get_max_clique e p lb ub heur dfs cont) = answer (get_max_clique e q lb ub heur dfs cont).
Proof.
  intros H1 H2 E (g & G1 & L1) (h & G2 & L2) e lb ub heur dfs cont.
  destruct (made_same p q n adj adj' H1 H2 E) as (g' & h' & G1' & G2' & F & NV & NC & ND).
  assert (g' = g) by congruence. assert (h' = h) by congruence. subst g' h'.
  assert (g = h) by (apply forget_live_inj; congruence). subst h.
  unfold get_max_clique, loaded. rewrite G1, G2, NV, NC. destruct (p_nvert q =? 0); [reflexivity|].
  match goal with |- answer (bind ?x _) = _ => destruct x as [[g1 c1]| |]; cbn [bind answer]; auto end.
  destruct (stored_clique g1 (CUR_MAX_LOC g1)) as [[g2 ans]| |]; cbn [bind answer]; auto.
  destruct (length ans <? lb); auto.
Qed.
