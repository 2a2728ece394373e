(** LoadFacts: the loaders build the graph their input denotes; the exporters report it. *)
From Verif Require Import Base MBits MUtils MGraph MApi MExt MFile Spec SpecBits BaseFacts BitsFacts SetFacts SortFacts RadixFacts RowFacts ConstructFacts FileFacts.
From Coq Require Import Sorting.Sorted Sorting.Permutation.
Local Open Scope nat_scope.
Local Arguments Nat.sub : simpl never.
Local Arguments Nat.mul : simpl never.

(** The cleaned pair list [a] is that of the graph [adj] on 1..n, with the sentinel vertex 0 and all self loops. *)
Record gra (a : pairs) (n : nat) (adj : nat -> nat -> Prop) : Prop := {
  gr_sorted : sorted_lt a;
  gr_in : forall u v, In (u, v) a <-> u <= n /\ v <= n /\ (u = v \/ adj u v);
  gr_simple : simple n adj;
  gr_fits : fits (length a)
}.

Lemma gra_self a n adj : gra a n adj -> forall i, i < n + 1 -> In (i, i) a.
Proof. intros H i Hi. apply (gr_in _ _ _ H). repeat split; auto; lia. Qed.

Lemma gra_b a n adj : gra a n adj -> forall x, In x a -> fst x < n + 1 /\ snd x < n + 1.
Proof. intros H [u v] I. apply (gr_in _ _ _ H) in I. simpl. lia. Qed.

Lemma gra_adj a n adj u v : gra a n adj -> (adj u v <-> u <> v /\ In (u, v) a).
Proof.
  intros H. rewrite (gr_in _ _ _ H). split.
  - intros A. pose proof (gr_simple _ _ _ H u v A) as (S1 & S2 & S3). pose proof (gr_simple _ _ _ H v u S1) as (_ & _ & S4).
    repeat split; auto; lia.
  - intros (N & _ & _ & [E|A]); [congruence|auto].
Qed.

Lemma gra_unique a b n adj adj' :
  gra a n adj -> gra b n adj' -> (forall u v, adj u v <-> adj' u v) -> a = b.
Proof.
  intros H1 H2 E. apply sorted_lt_ext; try apply (gr_sorted _ _ _ H1); try apply (gr_sorted _ _ _ H2).
  intros [u v]. rewrite (gr_in _ _ _ H1), (gr_in _ _ _ H2), E. tauto.
Qed.

(** Internal form of [made]: everything a freshly loaded object satisfies. *)
Definition fresh (p : pygraph) (n : nat) (adj : nat -> nat -> Prop) (a : pairs) (cap m : nat) : Prop :=
  exists g, p = mkP (Some g) n m 0 false /\ gra a n adj /\ built a (n + 1) cap g.

Lemma load_graph_spec n m cap edges adj :
  (forall u v, In (u, v) edges <-> u <= n /\ v <= n /\ (u = v \/ adj u v)) -> simple n adj -> fits (length edges) ->
  exists a, gra a n adj /\ (forall x, In x a <-> In x edges) /\
    wp (load_graph new_pygraph n m cap edges) (fun p => fresh p n adj a cap m).
Proof.
  intros HE HS HF.
  destruct (construct_spec n cap edges) as (a & A1 & A2 & A3).
  - intros [u v] I. apply HE in I. simpl. lia.
  - intros i Hi. apply HE. repeat split; auto.
  - exact HF.
  - exists a. assert (G : gra a n adj).
    { split; auto.
      - intros u v. rewrite A2. apply HE.
      - unfold fits in *. assert (length a <= length edges); [|lia].
        apply NoDup_incl_length; [apply sorted_lt_nodup; auto|]. intros x I. apply A2. auto. }
    split; [auto|]. split; [auto|].
    unfold load_graph. apply wp_bind. eapply wp_mono; [exact A3|]. intros g Hg. apply wp_ok. exists g. auto.
Qed.

(** ** from_edgelist *)
Lemma read_rows_spec n rows :
  match read_rows n rows with
  | Ret l => rows_ok n rows /\ length l = 2 * length rows
             /\ forall u v, In (u, v) l <-> In (u, v) rows \/ In (v, u) rows
  | Raise e => (e = EVertexTooBig \/ e = EVertexZero) /\ ~ rows_ok n rows
  end.
Proof.
  induction rows as [|[x y] rows IH]; simpl.
  - split; [intros u v []|]. split; auto. intros. tauto.
  - destruct ((n <? x) || (n <? y)) eqn:E1.
    + split; auto. intros H. specialize (H x y (or_introl eq_refl)). apply orb_prop in E1.
      destruct E1 as [E|E]; apply Nat.ltb_lt in E; lia.
    + destruct ((x =? 0) || (y =? 0)) eqn:E2.
      * split; auto. intros H. specialize (H x y (or_introl eq_refl)). apply orb_prop in E2.
        destruct E2 as [E|E]; apply Nat.eqb_eq in E; lia.
      * apply orb_false_elim in E1, E2. destruct E1 as [E1 E1'], E2 as [E2 E2'].
        apply Nat.ltb_ge in E1, E1'. apply Nat.eqb_neq in E2, E2'.
        destruct (read_rows n rows) as [l|e].
        -- destruct IH as (R1 & R2 & R3). split; [|split].
           ++ intros u v [I|I]; [inversion I; subst; lia|auto].
           ++ simpl. lia.
           ++ intros u v. simpl. rewrite R3. split.
              ** intros [I|[I|[I|I]]]; try (inversion I; subst); auto.
              ** intros [[I|I]|[I|I]]; try (inversion I; subst); auto.
        -- destruct IH as (R1 & R2). split; auto. intros H. apply R2. intros u v I. apply H. right. auto.
Qed.

Lemma simple_rows n rows : rows_ok n rows -> simple n (adj_rows rows).
Proof.
  intros H u v [N [I|I]]; (split; [split; auto|]); split; auto; specialize (H _ _ I); lia.
Qed.

Lemma edgelist_in n rows l : rows_ok n rows -> (forall u v, In (u, v) l <-> In (u, v) rows \/ In (v, u) rows) ->
  forall u v, In (u, v) (self_loops n ++ l) <-> u <= n /\ v <= n /\ (u = v \/ adj_rows rows u v).
Proof.
  intros HR HL u v. rewrite in_app_iff, HL. unfold self_loops. rewrite in_map_iff. split.
  - intros [(i & E & I)|I].
    + inversion E; subst. apply in_seq in I. repeat split; auto; lia.
    + destruct (Nat.eq_dec u v) as [->|N].
      * destruct I as [I|I]; specialize (HR _ _ I); repeat split; auto; lia.
      * assert (u <= n /\ v <= n) by (destruct I as [I|I]; specialize (HR _ _ I); lia).
        repeat split; try lia. right. split; auto.
  - intros (H1 & H2 & [->|[N I]]); auto.
    left. exists v. split; auto. apply in_seq. lia.
Qed.

Lemma from_edgelist_spec rows n : fits (n + 1 + 2 * length rows) ->
  match read_rows n rows with
  | Ret l => rows_ok n rows /\ exists a, gra a n (adj_rows rows) /\ (forall x, In x a <-> In x (self_loops n ++ l)) /\
      wp (from_edgelist rows n) (fun r => exists p, r = Ret p /\ fresh p n (adj_rows rows) a (push_cap (length l) (n + 1) (n + 1)) (length rows))
  | Raise e => ~ rows_ok n rows /\ from_edgelist rows n = Ok (Raise e)
  end.
Proof.
  intros HF. pose proof (read_rows_spec n rows) as H. unfold from_edgelist.
  destruct (read_rows n rows) as [l|e] eqn:ER.
  - destruct H as (H1 & H2 & H3). split; auto.
    destruct (load_graph_spec n (length rows) (push_cap (length l) (n + 1) (n + 1)) (self_loops n ++ l) (adj_rows rows)) as (a & A1 & A2 & A3).
    + apply edgelist_in; auto.
    + apply simple_rows; auto.
    + unfold self_loops. rewrite app_length, map_length, seq_length, H2. exact HF.
    + exists a. split; auto. split; auto. apply wp_bind. eapply wp_mono; [exact A3|]. intros p Hp. apply wp_ok. eauto.
  - split; tauto.
Qed.

(** ** from_matrix *)
Lemma matrix_cells_gen M (cells : list (nat * nat)) acc cnt :
  let f := (fun '(acc, cnt) '(i, j) =>
       if M i j || (i =? j) then (acc ++ both_ways (i + 1) (j + 1), cnt + (if i =? j then 0 else 1))
       else (acc, cnt)) in
  fold_left f cells (acc, cnt) =
  (acc ++ flat_map (fun '(i, j) => both_ways (i + 1) (j + 1)) (filter (fun '(i, j) => M i j || (i =? j)) cells),
   cnt + length (filter (fun '(i, j) => M i j && negb (i =? j)) cells)).
Proof.
  intros f. revert acc cnt. induction cells as [|[i j] cells IH]; intros acc cnt.
  - simpl. rewrite app_nil_r. f_equal. lia.
  - cbn [fold_left filter]. unfold f at 2. destruct (M i j) eqn:E1, (i =? j) eqn:E2; cbn [orb andb negb]; rewrite IH;
      cbn [flat_map]; rewrite ?app_assoc; f_equal; cbn [length]; lia.
Qed.

Lemma matrix_cells_eq n M : matrix_cells n M =
  (flat_map (fun '(i, j) => both_ways (i + 1) (j + 1)) (filter (fun '(i, j) => M i j || (i =? j)) (list_prod (seq 0 n) (seq 0 n))),
   length (filter (fun '(i, j) => M i j && negb (i =? j)) (list_prod (seq 0 n) (seq 0 n)))).
Proof. unfold matrix_cells. rewrite matrix_cells_gen. reflexivity. Qed.

Lemma simple_matrix n M : simple n (adj_matrix n M).
Proof. intros u v (N & H1 & H2 & H3). repeat split; auto; try lia. tauto. Qed.

Lemma matrix_in n M u v :
  In (u, v) ((0, 0) :: fst (matrix_cells n M)) <-> u <= n /\ v <= n /\ (u = v \/ adj_matrix n M u v).
Proof.
  rewrite matrix_cells_eq. cbn [fst In]. rewrite in_flat_map. split.
  - intros [E|([i j] & I & E)].
    + inversion E; subst. repeat split; auto; lia.
    + apply filter_In in I. destruct I as [I B]. apply in_prod_iff in I. rewrite !in_seq in I.
      apply orb_prop in B. destruct B as [B|B].
      * destruct (Nat.eq_dec u v) as [->|N].
        -- destruct E as [E|[E|[]]]; inversion E; subst; repeat split; auto; lia.
        -- unfold adj_matrix. destruct E as [E|[E|[]]]; inversion E; subst; (split; [lia|split; [lia|right]]); (split; [lia|]);
             replace (i + 1 - 1) with i by lia; replace (j + 1 - 1) with j by lia; repeat split; auto; lia.
      * apply Nat.eqb_eq in B. subst j. destruct E as [E|[E|[]]]; inversion E; subst; repeat split; auto; lia.
  - intros (H1 & H2 & H3). destruct (Nat.eq_dec u v) as [->|N].
    + destruct v as [|w]; auto. right. exists (w, w). split.
      * apply filter_In. rewrite Nat.eqb_refl, orb_true_r. split; auto. apply in_prod_iff. rewrite !in_seq. lia.
      * left. f_equal; lia.
    + right. destruct H3 as [H3|(_ & U & V & [B|B])]; [congruence| |].
      * exists (u - 1, v - 1). split.
        -- apply filter_In. rewrite B. split; auto. apply in_prod_iff. rewrite !in_seq. lia.
        -- left. f_equal; lia.
      * exists (v - 1, u - 1). split.
        -- apply filter_In. rewrite B. split; auto. apply in_prod_iff. rewrite !in_seq. lia.
        -- right. left. f_equal; lia.
Qed.

Lemma matrix_len n M : length (fst (matrix_cells n M)) <= 2 * (n * n).
Proof.
  rewrite matrix_cells_eq. cbn [fst].
  assert (forall l, length (flat_map (fun '(i, j) => both_ways (i + 1) (j + 1)) l) = 2 * length l) as E.
  { induction l as [|[i j] l IH]; auto. cbn [flat_map both_ways app length]. rewrite IH. lia. }
  rewrite E.
  pose proof (filter_len_le (fun '(i, j) => M i j || (i =? j)) (list_prod (seq 0 n) (seq 0 n))) as H.
  rewrite prod_length, !seq_length in H. lia.
Qed.

Definition matrix_count (n : nat) (M : nat -> nat -> bool) : nat := snd (matrix_cells n M) / 2.
Definition matrix_cap (n : nat) (M : nat -> nat -> bool) : nat := push_cap (length ((0, 0) :: fst (matrix_cells n M))) 0 0.

Lemma from_matrix_spec n M : fits (1 + 2 * (n * n)) ->
  exists a, gra a n (adj_matrix n M) /\ (forall x, In x a <-> In x ((0, 0) :: fst (matrix_cells n M))) /\
    wp (from_matrix n n M) (fun r => exists p, r = Ret p /\ fresh p n (adj_matrix n M) a (matrix_cap n M) (matrix_count n M)).
Proof.
  intros HF. pose proof (matrix_len n M) as HL.
  destruct (load_graph_spec n (matrix_count n M) (matrix_cap n M) ((0, 0) :: fst (matrix_cells n M)) (adj_matrix n M)) as (a & A1 & A2 & A3).
  - apply matrix_in.
  - apply simple_matrix.
  - unfold fits in *. cbn [length]. lia.
  - exists a. split; auto. split; auto.
    unfold from_matrix. rewrite Nat.eqb_refl. cbn [negb]. unfold matrix_cap, matrix_count in *.
    destruct (matrix_cells n M) as [l cnt]. cbn [fst snd] in *. apply wp_bind. eapply wp_mono; [exact A3|].
    intros p Hp. apply wp_ok. eauto.
Qed.

(** ** from_adjlist *)
Definition set_good (n i : nat) (A : list (list nat)) (s : list nat) : Prop :=
  forall j, In j s -> 1 <= j <= n /\ j <> i /\ In i (nth j A []).

Lemma read_set_spec n i A s : length A = n + 1 ->
  (set_good n i A s /\ read_set n i A s = Ok (Ret (map (fun j => (i, j)) s)))
  \/ (~ set_good n i A s /\ read_set n i A s = Ok (Raise EBadEdge)).
Proof.
  intros HL. induction s as [|j s IH]; simpl.
  - left. split; auto. intros j [].
  - destruct ((j =? 0) || (n <? j) || (j =? i)) eqn:E1.
    + right. split; auto. intros H. specialize (H j (or_introl eq_refl)).
      apply orb_prop in E1. destruct E1 as [E1|E1]; [apply orb_prop in E1; destruct E1 as [E1|E1]|].
      * apply Nat.eqb_eq in E1. lia.
      * apply Nat.ltb_lt in E1. lia.
      * apply Nat.eqb_eq in E1. lia.
    + apply orb_false_elim in E1. destruct E1 as [E1 E3]. apply orb_false_elim in E1. destruct E1 as [E1 E2].
      apply Nat.eqb_neq in E1, E3. apply Nat.ltb_ge in E2.
      rewrite (rd_some A j (nth j A [])) by (apply nth_error_Some_nth; lia). cbn [bind].
      destruct (existsb (Nat.eqb i) (nth j A [])) eqn:E4; cbn [negb].
      * destruct IH as [[G R]|[G R]]; rewrite R; cbn [bind].
        -- left. split; auto. intros k [->|I]; [|apply G; auto]. repeat split; auto; try lia.
           apply existsb_exists in E4. destruct E4 as (y & Y1 & Y2). apply Nat.eqb_eq in Y2. congruence.
        -- right. split; auto. intros H. apply G. intros k I. apply H. right. auto.
      * right. split; auto. intros H. destruct (H j (or_introl eq_refl)) as (_ & _ & H3).
        assert (existsb (Nat.eqb i) (nth j A []) = true); [|congruence].
        apply existsb_exists. exists i. rewrite Nat.eqb_refl. auto.
Qed.

Fixpoint set_pairs (i : nat) (todo : list (list nat)) : pairs :=
  match todo with
  | [] => []
  | s :: r => (i, i) :: map (fun j => (i, j)) s ++ set_pairs (S i) r
  end.

Lemma read_sets_spec n A todo i : length A = n + 1 ->
  ((forall k s, nth_error todo k = Some s -> set_good n (i + k) A s)
   /\ read_sets n i A todo = Ok (Ret (set_pairs i todo, list_sum (map (@length nat) todo))))
  \/ (~ (forall k s, nth_error todo k = Some s -> set_good n (i + k) A s)
      /\ read_sets n i A todo = Ok (Raise EBadEdge)).
Proof.
  intros HL. revert i. induction todo as [|s todo IH]; intros i; simpl.
  - left. split; auto. intros [|k] s H; discriminate.
  - destruct (read_set_spec n i A s HL) as [[G R]|[G R]]; rewrite R; cbn [bind].
    + destruct (IH (S i)) as [[G' R']|[G' R']]; rewrite R'; cbn [bind].
      * left. split; [|rewrite map_length; auto]. intros [|k] s' H; simpl in H.
        -- inversion H; subst. rewrite Nat.add_0_r. auto.
        -- replace (i + S k) with (S i + k) by lia. eauto.
      * right. split; auto. intros H. apply G'. intros k s' E. replace (S i + k) with (i + S k) by lia. apply H. auto.
    + right. split; auto. intros H. apply G. specialize (H 0 s eq_refl). rewrite Nat.add_0_r in H. auto.
Qed.

Lemma set_pairs_in i todo u v : In (u, v) (set_pairs i todo) <->
  i <= u < i + length todo /\ (u = v \/ In v (nth (u - i) todo [])).
Proof.
  revert i. induction todo as [|s todo IH]; intros i; cbn [set_pairs].
  - simpl. lia.
  - cbn [In length]. rewrite in_app_iff, in_map_iff, IH. split.
    + intros [E|[(j & E & I)|(H1 & H2)]].
      * inversion E; subst. lia.
      * inversion E; subst. split; [lia|]. right. replace (u - u) with 0 by lia. auto.
      * split; [lia|]. destruct H2 as [->|H2]; auto. right. replace (u - i) with (S (u - S i)) by lia. auto.
    + intros (H1 & H2). destruct (Nat.eq_dec u i) as [->|N].
      * replace (i - i) with 0 in H2 by lia. destruct H2 as [->|H2]; auto. right. left. eauto.
      * right. right. split; [lia|]. destruct H2 as [->|H2]; auto. right.
        replace (u - i) with (S (u - S i)) in H2 by lia. auto.
Qed.

Lemma set_pairs_len i todo : length (set_pairs i todo) = length todo + list_sum (map (@length nat) todo).
Proof.
  revert i. induction todo as [|s todo IH]; intros i; auto.
  cbn [set_pairs length map]. rewrite app_length, map_length, IH. simpl. lia.
Qed.

Lemma sets_good_iff n A : length A = n + 1 ->
  (forall k s, nth_error A k = Some s -> set_good n (0 + k) A s) <->
  (forall i j, In j (nth i A []) -> 1 <= j <= n /\ j <> i /\ In i (nth j A [])).
Proof.
  intros HL. split.
  - intros H i j I. destruct (Nat.lt_ge_cases i (length A)) as [Hi|Hi].
    + apply (H i (nth i A [])); auto. apply nth_error_Some_nth. auto.
    + rewrite nth_overflow in I by auto. destruct I.
  - intros H k s E j I. apply H. replace (nth (0 + k) A []) with s; auto. symmetry. exact (nth_error_nth A k [] E).
Qed.

Definition adjlist_cap (A : list (list nat)) : nat := push_cap (length (set_pairs 0 A)) 0 0.

Lemma from_adjlist_spec n m A : fits (length A + list_sum (map (@length nat) A)) ->
  (sets_ok n m A /\ exists a, gra a n (adj_sets A) /\ (forall x, In x a <-> In x (set_pairs 0 A)) /\
    wp (from_adjlist n m A) (fun r => exists p, r = Ret p /\ fresh p n (adj_sets A) a (adjlist_cap A) m))
  \/ (~ sets_ok n m A /\ exists e, from_adjlist n m A = Ok (Raise e)).
Proof.
  intros HF. destruct A as [|a0 A'].
  - right. split; [intros (H & _); simpl in H; lia|]. simpl. eauto.
  - destruct a0 as [|x a0].
    2:{ right. split; [intros (_ & H & _); discriminate|]. simpl. eauto. }
    set (A := [] :: A') in *.
    destruct (n =? length A - 1) eqn:E1.
    2:{ right. split; [intros (H & _); apply Nat.eqb_neq in E1; lia|]. unfold from_adjlist, A. fold A. rewrite E1. simpl. eauto. }
    assert (HL : length A = n + 1) by (apply Nat.eqb_eq in E1; subst A; simpl in *; lia).
    destruct (read_sets_spec n A A 0 HL) as [[G R]|[G R]].
    2:{ right. split; [|unfold from_adjlist, A; fold A; rewrite E1; cbn [negb]; rewrite R; cbn [bind]; eauto].
        intros (_ & _ & H & _). apply G. exact (proj2 (sets_good_iff n A HL) H). }
    pose proof (proj1 (sets_good_iff n A HL) G) as G'. clear G. rename G' into G.
    destruct (list_sum (map (@length nat) A) / 2 =? m) eqn:E2.
    2:{ right. split; [intros (_ & _ & _ & H); apply Nat.eqb_neq in E2; auto|].
        unfold from_adjlist, A; fold A; rewrite E1; cbn [negb]; rewrite R; cbn [bind]; rewrite E2; cbn [negb]; eauto. }
    left. split; [repeat split; auto; try apply (G _ _ H); apply Nat.eqb_eq; auto|].
    assert (SI : simple n (adj_sets A)).
    { intros u v I. destruct (G _ _ I) as (B1 & B2 & B3). destruct (G _ _ B3) as (B4 & B5 & B6). repeat split; auto; lia. }
    destruct (load_graph_spec n m (adjlist_cap A) (set_pairs 0 A) (adj_sets A)) as (a & A1 & A2 & A3).
    + intros u v. rewrite set_pairs_in, HL. replace (u - 0) with u by lia. split.
      * intros (H1 & [->|H2]); [repeat split; auto; lia|]. split; [lia|]. split; [|right; exact H2]. apply G in H2. lia.
      * intros (H1 & H2 & [->|H3]); (split; [lia|auto]).
    + exact SI.
    + rewrite set_pairs_len. exact HF.
    + exists a. split; auto. split; auto.
      unfold from_adjlist, A; fold A; rewrite E1; cbn [negb]; rewrite R; cbn [bind]; rewrite E2; cbn [negb].
      apply wp_bind. eapply wp_mono; [exact A3|]. intros p Hp. apply wp_ok. eauto.
Qed.

(** ** load_rows *)
Lemma both_ways_in rows u v :
  In (u, v) (flat_map (fun '(u, v) => both_ways u v) rows) <-> In (u, v) rows \/ In (v, u) rows.
Proof.
  induction rows as [|[x y] rows IH]; simpl; [tauto|]. rewrite IH. split.
  - intros [I|[I|[I|I]]]; try (inversion I; subst); auto.
  - intros [[I|I]|[I|I]]; try (inversion I; subst); auto.
Qed.

Lemma both_ways_len rows : length (flat_map (fun '(u, v) => both_ways u v) rows) = 2 * length rows.
Proof. induction rows as [|[x y] rows IH]; auto. cbn [flat_map both_ways app length]. rewrite IH. lia. Qed.

Lemma load_rows_spec rows n : fits (n + 1 + 2 * length rows) -> rows_ok n rows ->
  exists a, gra a n (adj_rows rows) /\
    wp (load_rows new_pygraph n rows) (fun p => fresh p n (adj_rows rows) a (push_cap (2 * length rows) (n + 1) (n + 1)) (length rows)).
Proof.
  intros HF HR.
  destruct (load_graph_spec n (length rows) (push_cap (2 * length rows) (n + 1) (n + 1))
    (self_loops n ++ flat_map (fun '(u, v) => both_ways u v) rows) (adj_rows rows)) as (a & A1 & A2 & A3).
  - apply edgelist_in; auto. intros u v. apply both_ways_in.
  - apply simple_rows; auto.
  - unfold self_loops. rewrite app_length, map_length, seq_length, both_ways_len. exact HF.
  - exists a. split; auto.
Qed.

(** ** from_file *)
Lemma from_file_spec text n rows : allocatable (n + 1 + 2 * length rows) -> market text n rows -> no_zero n rows ->
  exists a, gra a n (adj_lines n rows) /\
    wp (from_file (Some text)) (fun r => exists p, r = Ret p /\ fresh p n (adj_lines n rows) a (n + 1 + 2 * length rows) (length rows)).
Proof.
  intros HA HM HZ.
  destruct (load_graph_spec n (length rows) (n + 1 + 2 * length rows) (self_loops n ++ flat_map (line_pairs n) rows) (adj_lines n rows)) as (a & A1 & A2 & A3).
  - intros u v. apply lines_in. auto.
  - apply lines_simple.
  - unfold self_loops. rewrite app_length, map_length, seq_length, line_pairs_len. unfold allocatable in HA. unfold fits. lia.
  - exists a. split; auto. rewrite (from_file_eq text n rows HM HA). apply wp_bind. eapply wp_mono; [exact A3|].
    intros p F. apply wp_ok. eauto.
Qed.

Lemma made_fresh p n adj : made p n adj -> exists a cap m, fresh p n adj a cap m.
Proof.
  intros H. destruct H as [rows n p HF E|n M p HF E|n m A p HF HR E|rows n p HF HR E|text n rows p HA HM HZ E].
  - pose proof (from_edgelist_spec rows n HF) as H. destruct (read_rows n rows) as [l|e].
    + destruct H as (_ & a & _ & _ & H). rewrite E in H. simpl in H. destruct H as (q & Q & F). inversion Q; subst. eauto.
    + destruct H as (_ & H). congruence.
  - destruct (from_matrix_spec n M HF) as (a & _ & _ & H). rewrite E in H. simpl in H. destruct H as (q & Q & F). inversion Q; subst. eauto.
  - destruct (from_adjlist_spec n m A HF) as [(_ & a & _ & _ & H)|(_ & e & H)]; [|congruence].
    rewrite E in H. simpl in H. destruct H as (q & Q & F). inversion Q; subst. eauto.
  - destruct (load_rows_spec rows n HF HR) as (a & _ & H). rewrite E in H. simpl in H. eauto.
  - destruct (from_file_spec text n rows HA HM HZ) as (a & _ & H). rewrite E in H. simpl in H. destruct H as (q & Q & F). inversion Q; subst. eauto.
Qed.

Lemma made_simple p n adj : made p n adj -> simple n adj.
Proof. intros H. destruct (made_fresh _ _ _ H) as (a & cap & m & g & _ & G & _). apply (gr_simple _ _ _ G). Qed.

Lemma firstn_S_nth {A} (l : list A) k d : k < length l -> firstn (S k) l = firstn k l ++ [nth k l d].
Proof.
  revert k. induction l as [|x l IH]; intros k H; [simpl in H; lia|]. destruct k; auto.
  simpl in H. cbn [firstn nth app]. rewrite <- IH by lia. reflexivity.
Qed.

(** ** Queries *)
Section Query.
  Variables (a : pairs) (n : nat) (adj : nat -> nat -> Prop).
  Hypothesis HG : gra a n adj.

  Let HS := gr_sorted _ _ _ HG.
  Let Hself := gra_self _ _ _ HG.
  Let Hb := gra_b _ _ _ HG.

  Definition shaped (g : graph) : Prop :=
    edge_list g = map snd a /\ (exists mcs, vertices g = map (fun k => mkvert a (mcs k) k) (seq 0 (n + 1))) /\ n_vert g = n + 1.

  Lemma shaped_built cap g : built a (n + 1) cap g -> shaped g.
  Proof. intros B. split; [apply (b_el _ _ _ _ B)|]. split; [exists (bound a); apply (b_vs _ _ _ _ B)|apply (b_nv _ _ _ _ B)]. Qed.

  Lemma vertex_data_spec g i : shaped g -> i <= n ->
    vertex_data g i = Ok (filter (fun x => negb (x =? i)) (row a i)).
  Proof.
    intros (E1 & (mcs & E2) & E3) Hi. unfold vertex_data. rewrite E1, E2.
    rewrite (rd_some _ i (mkvert a (mcs i) i)).
    2:{ rewrite nth_error_mapseq by exact Hb. destruct (Nat.ltb_spec i (n + 1)); auto; lia. }
    cbn [bind mkvert vN velo].
    assert (wp (for_ 0 (length (row a i)) (fun k acc => e <- rd (map snd a) (off a i + k);; Ok (acc ++ [e])) [])
               (fun l => l = row a i)) as W.
    { eapply (wp_for 0 _ _ (fun k l => l = firstn k (row a i))); [lia|reflexivity| |].
      - intros k l Hk ->. rewrite (rd_some _ _ (nth k (row a i) 0)).
        2:{ eapply (el_at a (n + 1)); eauto; try lia; apply (gr_fits _ _ _ HG). }
        cbn [bind]. apply wp_ok. 
        symmetry. apply firstn_S_nth. lia.
      - intros l ->. apply firstn_all. }
    apply wp_iff in W. destruct W as (l & W & ->). rewrite W. cbn [bind].
    replace (existsb (Nat.eqb i) (row a i)) with true; auto. symmetry. apply existsb_exists. exists i.
    rewrite Nat.eqb_refl. split; auto. apply row_in. apply Hself. lia.
  Qed.

  Lemma nbrs_in i u : In u (filter (fun x => negb (x =? i)) (row a i)) <-> adj i u.
  Proof.
    rewrite filter_In, row_in, (gra_adj _ _ _ i u HG). destruct (Nat.eqb_spec u i); simpl; split; intros; intuition congruence.
  Qed.

  Lemma nbrs_sorted i : StronglySorted lt (filter (fun x => negb (x =? i)) (row a i)).
  Proof. apply filter_sorted, row_sorted, HS. Qed.

  Notation up := (fun p : nat * nat => fst p <? snd p).

  Lemma firstn_S_at k : k < length a -> firstn (S k) a = firstn k a ++ [at_ a k].
  Proof.
    intros H. apply firstn_S_nth. auto.
  Qed.

  Lemma send_data_spec g : shaped g -> send_data g = Ok (filter up a).
  Proof.
    intros (E1 & (mcs & E2) & E3).
    assert (wp (send_data g) (fun l => l = filter up a)) as W.
    2:{ apply wp_iff in W. destruct W as (l & W & ->). exact W. }
    unfold send_data. rewrite E3.
    eapply (wp_for 0 _ _ (fun i l => l = filter up (firstn (off a i) a))); [lia| | |].
    - rewrite off_0. reflexivity.
    - intros i l Hi ->. rewrite E1, E2. rewrite (rd_some _ i (mkvert a (mcs i) i)).
      2:{ rewrite nth_error_mapseq by exact Hb. destruct (Nat.ltb_spec i (n + 1)); auto; lia. }
      cbn [bind mkvert vN velo vspos].
      destruct (sp_spec a (n + 1) HS Hself i ltac:(lia)) as [S1 S2].
      assert (K : forall k, k <= sp a i + 1 -> filter up (firstn (off a i + k) a) = filter up (firstn (off a i) a)).
      { induction k as [|k IH]; intros Hk; [rewrite Nat.add_0_r; auto|].
        destruct (at_row a i k HS ltac:(lia)) as [L1 L2].
        replace (off a i + S k) with (S (off a i + k)) by lia. rewrite firstn_S_at by auto. rewrite filter_app, IH by lia.
        rewrite L2. cbn [filter fst snd].
        assert (nth k (row a i) 0 <= i).
        { rewrite <- S2 at 2. destruct (Nat.eq_dec k (sp a i)) as [->|]; [lia|].
          apply Nat.lt_le_incl. apply sorted_nth; [apply row_sorted, HS|lia]. }
        destruct (Nat.ltb_spec i (nth k (row a i) 0)); [lia|]. rewrite app_nil_r. auto. }
      eapply (wp_for (sp a i + 1) _ _ (fun k l => l = filter up (firstn (off a i + k) a))); [lia| | |].
      + rewrite K; auto.
      + intros k l Hk ->. rewrite (rd_some _ _ (nth k (row a i) 0)).
        2:{ eapply (el_at a (n + 1)); eauto; try lia; apply (gr_fits _ _ _ HG). }
        cbn [bind]. apply wp_ok. destruct (at_row a i k HS ltac:(lia)) as [L1 L2].
        replace (off a i + S k) with (S (off a i + k)) by lia. rewrite firstn_S_at by auto. rewrite filter_app, L2. f_equal.
        cbn [filter fst snd].
        assert (i < nth k (row a i) 0).
        { rewrite <- S2 at 1. apply sorted_nth; [apply row_sorted, HS|lia]. }
        destruct (Nat.ltb_spec i (nth k (row a i) 0)); [auto|lia].
      + intros l ->. rewrite off_S. auto.
    - intros l ->. rewrite (off_end a (n + 1) Hb). rewrite firstn_all. auto.
  Qed.

  Lemma up_edges : edges_of adj (filter up a).
  Proof.
    split; [apply NoDup_filter, sorted_lt_nodup, HS|].
    intros u v. rewrite filter_In. cbn [fst snd]. rewrite Nat.ltb_lt, (gra_adj _ _ _ u v HG).
    split; intros; intuition lia.
  Qed.

  Lemma up_sorted : StronglySorted lexless (filter up a).
  Proof.
    assert (StronglySorted lexless a) as H; [|apply filter_sorted; exact H].
    exact HS.
  Qed.
End Query.
