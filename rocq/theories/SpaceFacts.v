(** SpaceFacts: exactly which graphs keep their bitset storage in place (C13). *)
From Verif Require Import Base MBits MUtils MGraph MApi MExt MFile MNW MNWEnum MNWApi Spec SpecNW SpecFirst SpecSpace BaseFacts BitsFacts SetFacts SortFacts RowFacts ConstructFacts CardFacts FileFacts LoadFacts SearchBase CliqueFacts EnumFacts EnumApi SearchProps NWProps ContFacts FirstFacts.
From Coq Require Import Sorting.Sorted.
Local Open Scope nat_scope.

(** ** Capacities *)
Lemma doubled_one start size c c' : doubled start size c -> doubled start size c' -> c = c'.
Proof.
  intros (k & -> & A1 & A2) (k' & -> & B1 & B2). destruct (Nat.lt_total k k') as [L|[->|L]]; auto.
  - specialize (B2 k L). lia.
  - specialize (A2 k' L). lia.
Qed.

Lemma push_cap_doubled k : forall start size j, 1 <= start -> size <= start * 2 ^ j -> (forall i, i < j -> start * 2 ^ i < size + k) ->
  doubled start (size + k) (push_cap k (start * 2 ^ j) size).
Proof.
  induction k as [|k IH]; intros start size j H1 H2 H3; cbn [push_cap].
  - exists j. rewrite Nat.add_0_r in *. auto.
  - assert (P : 1 <= 2 ^ j) by (pose proof (Nat.pow_nonzero 2 j ltac:(lia)); lia). replace (size + S k) with (S size + k) in * by lia.
    destruct (Nat.ltb_spec size (start * 2 ^ j)) as [L|L]; [apply IH; auto; lia|].
    destruct (Nat.eqb_spec (start * 2 ^ j) 0) as [E|_]; [nia|].
    replace (2 * (start * 2 ^ j)) with (start * 2 ^ S j) by (rewrite Nat.pow_succ_r'; ring).
    apply IH; auto.
    + rewrite Nat.pow_succ_r'. nia.
    + intros i Hi. destruct (Nat.eq_dec i j) as [->|]; [lia|apply H3; lia].
Qed.

Lemma push_cap_edges k start : 1 <= start -> doubled start (start + k) (push_cap k start start).
Proof. intros H. pose proof (push_cap_doubled k start start 0 H) as D. cbn [Nat.pow] in D. rewrite Nat.mul_1_r in D. apply D; [lia|intros; lia]. Qed.

Lemma push_cap_zero k : 1 <= k -> doubled 1 k (push_cap k 0 0).
Proof.
  intros H. destruct k as [|k]; [lia|]. cbn [push_cap Nat.ltb Nat.leb Nat.eqb].
  pose proof (push_cap_doubled k 1 1 0 ltac:(lia)) as D. cbn [Nat.pow Nat.mul Nat.add] in D. apply D; [lia|intros; lia].
Qed.

(** ** The memory *)
Section Built.
  Variables (a : pairs) (n : nat) (adj : nat -> nat -> Prop).
  Hypothesis GR : gra a n adj.
  Hypothesis HE : has_edge adj.
  Notation nv := (n + 1).
  Let HC : gctx a nv := gra_ctx a n adj GR.

  Lemma zero_row : row a 0 = [0].
  Proof.
    apply sorted_ext; [apply row_sorted, (gr_sorted _ _ _ GR)|repeat constructor|].
    intros x. rewrite row_in, (gr_in _ _ _ GR). simpl. split.
    - intros (_ & _ & [E|A]); auto. destruct (gr_simple _ _ _ GR _ _ A) as (_ & _ & X). lia.
    - intros [<-|[]]. repeat split; auto; lia.
  Qed.

  Lemma eb_sum dg : (forall v, 1 <= v <= n -> degree adj v (dg v)) -> forall k, k <= n ->
    eb a (k + 1) = 1 + list_sum (map (fun v => (dg v + 64) / 64) (seq 1 k)).
  Proof.
    intros DG. induction k as [|k IH]; intros Hk.
    - cbn [Nat.add]. unfold eb. cbn [psum]. rewrite zero_row. reflexivity.
    - replace (S k + 1) with (S (k + 1)) by lia. rewrite eb_S, IH by lia. rewrite seq_S, map_app, list_sum_app. cbn [map list_sum fold_right].
      replace (1 + k) with (k + 1) by lia. rewrite words_spec.
      rewrite (degree_fun adj _ _ _ (DG (k + 1) ltac:(lia)) (row_degree a n adj GR (k + 1) ltac:(lia))).
      pose proof (len_pos a nv (gc_sorted _ _ HC) (gc_self _ _ HC) (k + 1) ltac:(lia)).
      replace (rlen a (k + 1) - 1 + 64) with (rlen a (k + 1) + 63) by lia. lia.
  Qed.

  Lemma an_edge : exists v, 1 <= v <= n /\ 2 <= rlen a v.
  Proof.
    destruct HE as (u & v & A). destruct (gr_simple _ _ _ GR _ _ A) as (A' & NE & U). destruct (gr_simple _ _ _ GR _ _ A') as (_ & _ & V).
    exists u. split; auto. change 2 with (length [u; v]). apply NoDup_incl_length; [constructor; [intros [X|[]]; auto|constructor; [intros []|constructor]]|].
    intros x [<-|[<-|[]]]; apply row_in, (gr_in _ _ _ GR); repeat split; auto; lia.
  Qed.

  Lemma built_needs cap g need : built a nv cap g -> needs n adj need -> need = 1 + eb a nv + 2 * (CLIQUE_LIMIT g + 1) * words (max_degree g).
  Proof.
    intros B (dg & K & D & DG & D1 & (vd & D2 & D3) & K1 & (vk & K2 & K3) & ->).
    assert (LEN : forall v, 1 <= v <= n -> rlen a v = dg v + 1).
    { intros v Hv. rewrite (degree_fun adj _ _ _ (DG v Hv) (row_degree a n adj GR v ltac:(lia))).
      pose proof (len_pos a nv (gc_sorted _ _ HC) (gc_self _ _ HC) v ltac:(lia)). lia. }
    destruct an_edge as (ve & E1 & E2).
    assert (MD : max_degree g = D + 1).
    { destruct (b_degx _ _ _ _ B ltac:(lia)) as (k & X1 & X2). pose proof (b_deg _ _ _ _ B vd ltac:(lia)) as X3. rewrite LEN in X3 by auto.
      destruct k as [|k]; [rewrite zero_row in X2; cbn [length] in X2; pose proof (b_deg _ _ _ _ B ve ltac:(lia)); lia|].
      rewrite LEN in X2 by lia. specialize (D1 (S k) ltac:(lia)). lia. }
    assert (CL : CLIQUE_LIMIT g = K + 1).
    { destruct (b_loc _ _ _ _ B ltac:(lia)) as [X1 X2]. pose proof (b_lim _ _ _ _ B vk ltac:(lia)) as X3.
      rewrite (later_fun adj vk _ _ K3 (row_later a n adj GR vk ltac:(lia))) in *.
      assert (P : forall v, 1 <= bound a v) by (intros; unfold bound; lia). pose proof (P vk).
      destruct (CUR_MAX_LOC g) as [|k] eqn:EL.
      - assert (BZ : bound a 0 = 1).
        { pose proof (later_fun adj 0 _ 0 (row_later a n adj GR 0 ltac:(lia))) as Z. pose proof (P 0).
          assert (bound a 0 - 1 = 0); [|lia]. apply Z. exists []. split; [constructor|]. split; auto. intros u. split; [intros []|].
          intros [A _]. destruct (gr_simple _ _ _ GR _ _ A) as (_ & _ & X). lia. }
        lia.
      - specialize (K1 (S k) _ ltac:(lia) (row_later a n adj GR (S k) X1)). pose proof (P (S k)). lia. }
    rewrite MD, CL, words_spec. rewrite (eb_sum dg DG n) by lia. replace (D + 1 + 63) with (D + 64) by lia. lia.
  Qed.

  Lemma argmax (f : nat -> nat) k : 1 <= k -> exists v, 1 <= v <= k /\ forall u, 1 <= u <= k -> f u <= f v.
  Proof.
    induction k as [|k IH]; intros H; [lia|]. destruct (Nat.eq_dec k 0) as [->|N].
    - exists 1. split; [lia|]. intros u Hu. replace u with 1 by lia. auto.
    - destruct IH as (v & V1 & V2); [lia|]. destruct (Nat.le_gt_cases (f (S k)) (f v)) as [L|L].
      + exists v. split; [lia|]. intros u Hu. destruct (Nat.eq_dec u (S k)) as [->|]; auto. apply V2. lia.
      + exists (S k). split; [lia|]. intros u Hu. destruct (Nat.eq_dec u (S k)) as [->|]; auto. specialize (V2 u ltac:(lia)). lia.
  Qed.

  Lemma needs_some : exists need, needs n adj need.
  Proof.
    destruct an_edge as (ve & E1 & _). destruct (argmax (fun v => rlen a v - 1) n ltac:(lia)) as (vd & A1 & A2).
    destruct (argmax (fun v => bound a v - 1) n ltac:(lia)) as (vk & B1 & B2).
    eexists. exists (fun v => rlen a v - 1), (bound a vk - 1), (rlen a vd - 1). split; [intros v Hv; apply (row_degree a n adj GR); lia|].
    split; auto. split; eauto. split; [|split; [exists vk; split; auto; apply (row_later a n adj GR); lia|reflexivity]].
    intros v m Hv L. rewrite (later_fun adj v _ _ L (row_later a n adj GR v ltac:(lia))). apply B2. auto.
  Qed.

  Lemma built_exact cap g need : built a nv cap g -> length a <= cap -> needs n adj need -> (bits_live g = true <-> need <= cap).
  Proof.
    intros B LA N. rewrite (built_needs cap g need B N). split.
    - intros L. destruct an_edge as (ve & E1 & E2). destruct (b_live_inv _ _ _ _ B) as [X|X]; auto; [exists ve; split; auto; lia|lia].
    - apply (b_live _ _ _ _ B).
  Qed.
End Built.

Lemma load_exact n m cap edges adj p need : load_graph new_pygraph n m cap edges = Ok p ->
  (forall u v, In (u, v) edges <-> u <= n /\ v <= n /\ (u = v \/ adj u v)) -> simple n adj -> fits (length edges) -> length edges <= cap ->
  has_edge adj -> (exists x, needs n adj x) /\ (needs n adj need -> (storage_live p <-> need <= cap)).
Proof.
  intros E HI SI HF HL HE. destruct (load_graph_spec n m cap edges adj HI SI HF) as (a & GR & A & W). rewrite E in W. cbn [wp ends_with] in W.
  destruct W as (g & -> & _ & B). split; [eapply needs_some; eauto|]. intros N.
  assert (LA : length a <= cap).
  { etransitivity; [|exact HL]. apply NoDup_incl_length; [apply sorted_lt_nodup, (gr_sorted _ _ _ GR)|intros x; apply A]. }
  rewrite <- (built_exact a n adj GR HE cap g need B LA N). split.
  - intros (g' & G & L). cbn [p_G] in G. injection G as <-. auto.
  - intros L. exists g. auto.
Qed.

Lemma load_ok_ret {A B} (o : outcome A) (f : A -> B) r : (x <- o;; Ok (Ret (f x))) = Ok (Ret r) -> exists x, o = Ok x /\ f x = r.
Proof. destruct o; cbn [bind]; try discriminate. intros E. injection E as <-. eauto. Qed.

Lemma space_exact p n adj cap : made_in p n adj cap -> has_edge adj ->
  (exists need, needs n adj need) /\ forall need, needs n adj need -> (storage_live p <-> need <= cap).
Proof.
  intros M HE.
  assert (X : forall need, (exists x, needs n adj x) /\ (needs n adj need -> (storage_live p <-> need <= cap))).
  { intros need. destruct M as [rows n p cap HF E DC|n M p cap HF E DC|n m A p cap HF HR E DC|rows n p cap HF HR E DC|text n rows p HA HM HZ E].
    - unfold from_edgelist in E. pose proof (read_rows_spec n rows) as R. destruct (read_rows n rows) as [l|]; [|discriminate]. destruct R as (RO & RL & RI).
      apply (load_ok_ret _ (fun x => x)) in E. destruct E as (x & E & ->).
      pose proof (push_cap_edges (length l) (n + 1) ltac:(lia)) as PC. rewrite RL in PC at 1. rewrite <- (doubled_one _ _ _ _ DC PC) in E.
      assert (EL : length (self_loops n ++ l) = n + 1 + 2 * length rows) by (unfold self_loops; rewrite app_length, map_length, seq_length; lia).
      eapply load_exact; [exact E|apply edgelist_in; auto|apply simple_rows; auto|rewrite EL; auto| |auto]. destruct DC as (k & _ & H & _). lia.
    - unfold from_matrix in E. rewrite Nat.eqb_refl in E. cbn [negb] in E. pose proof (matrix_in n M) as MI. pose proof (matrix_len n M) as ML.
      assert (EL : length ((0, 0) :: fst (matrix_cells n M)) = 1 + 2 * length (filter (fun '(i, j) => M i j || (i =? j)) (list_prod (seq 0 n) (seq 0 n)))).
      { rewrite matrix_cells_eq. cbn [fst length]. generalize (filter (fun '(i, j) => M i j || (i =? j)) (list_prod (seq 0 n) (seq 0 n))). intros l.
        assert (length (flat_map (fun '(i, j) => both_ways (i + 1) (j + 1)) l) = 2 * length l); [|lia].
        induction l as [|[i j] l IH]; auto. cbn [flat_map both_ways app length]. rewrite IH. lia. }
      destruct (matrix_cells n M) as [l cnt]. cbn [fst] in *. apply (load_ok_ret _ (fun x => x)) in E. destruct E as (x & E & ->).
      pose proof (push_cap_zero (length ((0, 0) :: l)) ltac:(cbn; lia)) as PC. rewrite EL in PC at 1. rewrite <- (doubled_one _ _ _ _ DC PC) in E.
      eapply load_exact; [exact E|exact MI|apply simple_matrix|unfold fits in *; cbn [length] in *; lia| |auto]. destruct DC as (k & _ & H & _). lia.
    - destruct (from_adjlist_spec n m A HF) as [(OK & a & GR & AI & _)|(_ & e & H)]; [|congruence]. pose proof (gr_simple _ _ _ GR) as SI.
      destruct OK as (HL & _ & OK & _).
      assert (E' : load_graph new_pygraph n m (push_cap (length (set_pairs 0 A)) 0 0) (set_pairs 0 A) = Ok p).
      { destruct (read_sets_spec n A A 0 HL) as [[_ R]|[N _]]; [|exfalso; apply N; apply (sets_good_iff n A HL); exact OK].
        unfold from_adjlist in E. destruct A as [|[|y s] A']; [discriminate| |discriminate].
        destruct (n =? length ([] :: A') - 1); cbn [negb] in E; [|discriminate]. rewrite R in E. cbn [bind] in E. destruct (_ =? m); cbn [negb] in E; [|discriminate].
        apply (load_ok_ret _ (fun x => x)) in E. destruct E as (x & E & ->). exact E. }
      pose proof (push_cap_zero (length (set_pairs 0 A)) ltac:(rewrite set_pairs_len; lia)) as PC. rewrite set_pairs_len in PC at 1. rewrite <- (doubled_one _ _ _ _ DC PC) in E'.
      eapply load_exact; [exact E'| |exact SI|rewrite set_pairs_len; exact HF| |auto].
      + intros u v. rewrite <- (AI (u, v)). apply (gr_in _ _ _ GR).
      + rewrite set_pairs_len. destruct DC as (k & _ & H & _). lia.
    - unfold load_rows in E.
      pose proof (push_cap_edges (2 * length rows) (n + 1) ltac:(lia)) as PC. rewrite <- (doubled_one _ _ _ _ DC PC) in E.
      assert (EL : length (self_loops n ++ flat_map (fun '(u, v) => both_ways u v) rows) = n + 1 + 2 * length rows)
        by (unfold self_loops; rewrite app_length, map_length, seq_length, both_ways_len; lia).
      eapply load_exact; [exact E|apply edgelist_in; auto; intros u v; apply both_ways_in|apply simple_rows; auto|rewrite EL; auto| |auto]. destruct DC as (k & _ & H & _). lia.
    - rewrite (from_file_eq text n rows HM HA) in E. apply (load_ok_ret _ (fun x => x)) in E. destruct E as (x & E & ->).
      assert (EL : length (self_loops n ++ flat_map (line_pairs n) rows) = n + 1 + 2 * length rows) by (unfold self_loops; rewrite app_length, map_length, seq_length, line_pairs_len; lia).
      eapply load_exact; [exact E|intros u v; apply lines_in; auto|apply lines_simple|rewrite EL; unfold allocatable in HA; unfold fits; lia|lia|auto]. }
  split; [apply (X 0)|]. intros need. apply X.
Qed.

Lemma nspace_exact rnd p n adj w cap : nmade_in rnd p n adj w cap -> has_edge adj ->
  (exists need, needs n adj need) /\ forall need, needs n adj need -> (nstorage_live p <-> need <= cap).
Proof.
  intros M HE. apply (space_exact (nw_as_pygraph p) n adj cap); auto. destruct M as [rows n w p cap HF E DC|n M w p cap HF E DC].
  - destruct (nw_edgelist_as _ _ _ _ _ E). apply in_edgelist; auto.
  - destruct (nw_matrix_as _ _ _ _ _ E). apply in_matrix; auto.
Qed.

(** Every graph has a capacity. *)
Lemma doubled_some start size : 1 <= start -> exists cap, doubled start size cap.
Proof.
  intros H. destruct (Nat.le_gt_cases size start) as [L|L].
  - exists start. exists 0. cbn [Nat.pow]. rewrite Nat.mul_1_r. split; auto. split; auto. intros; lia.
  - exists (push_cap (size - start) start start). replace size with (start + (size - start)) at 1 by lia. apply push_cap_edges. auto.
Qed.

Lemma made_room p n adj : made p n adj -> exists cap, made_in p n adj cap.
Proof.
  intros [rows k q HF E|k M q HF E|k m A q HF HR E|rows k q HF HR E|text k rows q HA HM HZ E].
  - destruct (doubled_some (k + 1) (k + 1 + 2 * length rows) ltac:(lia)) as (cap & D). exists cap. apply in_edgelist; auto.
  - edestruct (doubled_some 1) as (cap & D); [lia|]. exists cap. apply in_matrix; [auto|auto|exact D].
  - edestruct (doubled_some 1) as (cap & D); [lia|]. exists cap. eapply in_adjlist; [auto|auto|exact E|exact D].
  - destruct (doubled_some (k + 1) (k + 1 + 2 * length rows) ltac:(lia)) as (cap & D). exists cap. apply in_rows; auto.
  - eexists. eapply in_file; eauto.
Qed.

Lemma nmade_room rnd p n adj w : nmade rnd p n adj w -> exists cap, nmade_in rnd p n adj w cap.
Proof.
  intros [rows k v q HF E|k M v q HF E].
  - destruct (doubled_some (k + 1) (k + 1 + 2 * length rows) ltac:(lia)) as (cap & D). exists cap. apply nin_edgelist; auto.
  - edestruct (doubled_some 1) as (cap & D); [lia|]. exists cap. apply nin_matrix; [auto|auto|exact D].
Qed.
