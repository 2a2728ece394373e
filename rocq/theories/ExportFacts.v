(** ExportFacts: to_edgelist, to_matrix, to_adjlist, n_edges, and independence of the loader. *)
From Verif Require Import Base MBits MUtils MGraph MApi MExt MFile Spec SpecBits BaseFacts BitsFacts SetFacts SortFacts RadixFacts RowFacts ConstructFacts FileFacts LoadFacts.
From Coq Require Import Sorting.Sorted Sorting.Permutation.
Local Open Scope nat_scope.
Local Arguments Nat.sub : simpl never.
Local Arguments Nat.mul : simpl never.

Notation up := (fun p : nat * nat => fst p <? snd p) (only parsing).

(** Keeping the shape is all the exporters need: the object may have been searched. *)
Definition holds_graph (p : pygraph) (n : nat) (adj : nat -> nat -> Prop) (a : pairs) : Prop :=
  exists g, p_G p = Some g /\ p_nvert p = n /\ gra a n adj /\ shaped a n g.

Lemma fresh_holds p n adj a cap m : fresh p n adj a cap m -> holds_graph p n adj a.
Proof. intros (g & -> & G & B). exists g. split; [reflexivity|]. split; [reflexivity|]. split; [auto|]. apply (shaped_built a n cap g); auto. Qed.

Lemma neighbors_spec p n adj a v : holds_graph p n adj a -> v <= n ->
  wp (vertex_neighbors p v) (fun r => exists l, r = Ret l /\ StronglySorted lt l /\ forall u, In u l <-> adj v u).
Proof.
  intros (g & E1 & E2 & G & S) Hv. unfold vertex_neighbors. rewrite E1, E2.
  destruct (Nat.ltb_spec n v); [lia|]. rewrite (vertex_data_spec a n adj G g v S Hv). cbn [bind]. apply wp_ok.
  eexists. split; [reflexivity|]. split; [apply (nbrs_sorted a n adj G)|]. intros u. apply (nbrs_in a n adj G).
Qed.

Lemma set_insert_in x l y : In y (set_insert x l) <-> y = x \/ In y l.
Proof.
  induction l as [|z l IH]; simpl; [intuition|].
  destruct (Nat.ltb_spec x z); [simpl; intuition|]. destruct (Nat.eqb_spec x z) as [->|]; simpl; [intuition|].
  rewrite IH. intuition.
Qed.

Lemma set_insert_sorted x l : StronglySorted lt l -> StronglySorted lt (set_insert x l).
Proof.
  induction 1 as [|z l H IH F]; simpl; [repeat constructor|].
  destruct (Nat.ltb_spec x z).
  - constructor; [constructor; auto|]. constructor; auto. rewrite Forall_forall in *. intros y I. specialize (F y I). lia.
  - destruct (Nat.eqb_spec x z) as [->|]; [constructor; auto|]. constructor; auto.
    rewrite Forall_forall in *. intros y I. apply set_insert_in in I. destruct I as [->|I]; [lia|auto].
Qed.

(** The adjacency of a list of pairs, both ways. *)
Definition both (pre : pairs) (i j : nat) : Prop := In (i, j) pre \/ In (j, i) pre.

Lemma both_snoc pre x y i j : both (pre ++ [(x, y)]) i j <-> both pre i j \/ (i = x /\ j = y) \/ (i = y /\ j = x).
Proof.
  unfold both. rewrite !in_app_iff. simpl. split.
  - intros [[H|[H|[]]]|[H|[H|[]]]]; try (inversion H; subst); auto.
  - intros [[H|H]|[[-> ->]|[-> ->]]]; auto.
Qed.

Definition ainv (n : nat) (E : nat -> nat -> Prop) (A : list (list nat)) : Prop :=
  length A = n + 1 /\ forall i, i <= n -> StronglySorted lt (nth i A []) /\ forall j, In j (nth i A []) <-> E i j.

Lemma put_adj n E A i j (P : list (list nat) -> Prop) : ainv n E A -> i <= n ->
  (forall A', ainv n (fun x y => E x y \/ (x = i /\ y = j)) A' -> P A') ->
  wp (s <- rd A i;; wr A i (set_insert j s)) P.
Proof.
  intros (L & H) Hi K. rewrite (rd_some A i (nth i A [])) by (apply nth_error_Some_nth; lia). cbn [bind].
  rewrite wr_ok by lia. apply wp_ok. apply K. split; [rewrite upd_length; auto|]. intros x Hx. rewrite nth_upd.
  destruct (Nat.eqb_spec i x) as [<-|N].
  - destruct (Nat.ltb_spec i (length A)); [cbn [andb]|lia]. destruct (H i Hi) as [H1 H2].
    split; [apply set_insert_sorted; auto|]. intros y. rewrite set_insert_in, H2. intuition.
  - cbn [andb]. destruct (H x Hx) as [H1 H2]. split; auto. intros y. rewrite H2. intuition congruence.
Qed.

Lemma ainv_ext n E E' A : (forall i j, i <= n -> E i j <-> E' i j) -> ainv n E A -> ainv n E' A.
Proof. intros H (L & K). split; auto. intros i Hi. destruct (K i Hi) as [K1 K2]. split; auto. intros j. rewrite K2. auto. Qed.

Lemma edges_both n adj l : simple n adj -> edges_of adj l -> forall i j, both l i j <-> adj i j.
Proof.
  intros HS (_ & H) i j. unfold both. rewrite !H. split.
  - intros [[_ ?]|[_ ?]]; auto. apply HS; auto.
  - intros A. destruct (HS _ _ A) as (A1 & A2 & A3). destruct (Nat.lt_ge_cases i j); [left|right]; split; auto; lia.
Qed.

Lemma loaded_some p n adj a : holds_graph p n adj a -> 1 <= n -> exists g, loaded p = Some g /\ shaped a n g /\ gra a n adj.
Proof.
  intros (g & E1 & E2 & G & S) Hn. exists g. unfold loaded. rewrite E1, E2. destruct (Nat.eqb_spec n 0); [lia|]. auto.
Qed.

Lemma edge_range n adj l : simple n adj -> edges_of adj l -> forall u v, In (u, v) l -> 1 <= u <= n /\ 1 <= v <= n /\ u <> v.
Proof.
  intros HS (_ & H) u v I. apply H in I. destruct I as [_ I]. destruct (HS _ _ I) as (A1 & A2 & A3). destruct (HS _ _ A1) as (_ & _ & A4). auto.
Qed.

Lemma to_adjlist_spec p n adj a : holds_graph p n adj a -> 1 <= n ->
  wp (to_adjlist p) (fun r => exists A, r = Ret A /\ length A = n + 1 /\
     forall i, i <= n -> StronglySorted lt (nth i A []) /\ forall j, In j (nth i A []) <-> adj i j).
Proof.
  intros HP Hn. destruct (loaded_some _ _ _ _ HP Hn) as (g & E & S & G). unfold to_adjlist. rewrite E.
  rewrite (send_data_spec a n adj G g S). cbn [bind].
  pose proof (up_edges a n adj G) as UE. pose proof (gr_simple _ _ _ G) as SI. pose proof (edge_range n adj _ SI UE) as UR.
  destruct HP as (g' & _ & Ev & _ & _). rewrite Ev.
  apply wp_bind. eapply (wp_foldM _ _ (fun pre A => ainv n (both pre) A)).
  - split; [apply repeat_length|]. intros i Hi. rewrite nth_repeat. split; [constructor|]. intros j. unfold both. simpl. tauto.
  - intros pre [x y] post A El I. assert (In (x, y) (filter up a)) as IN by (rewrite El; apply in_elt).
    destruct (UR x y IN) as (X & Y & _).
    apply wp_bind. eapply (put_adj n (both pre)); [auto|lia|]. intros A1 I1.
    eapply (put_adj n); [exact I1|lia|]. intros A2 I2. eapply ainv_ext; [|exact I2].
    intros i j _. rewrite both_snoc. intuition.
  - intros A (L & H). apply wp_ok. exists A. split; auto. split; auto. intros i Hi. destruct (H i Hi) as [H1 H2]. split; auto.
    intros j. rewrite H2. apply (edges_both n adj); auto.
Qed.

Definition minv (n : nat) (E : nat -> nat -> Prop) (M : list (list bool)) : Prop :=
  length M = n /\ (forall i, i < n -> length (nth i M []) = n)
  /\ forall i j, 1 <= i <= n -> 1 <= j <= n -> (nth (j - 1) (nth (i - 1) M []) false = true <-> E i j).

Lemma put_mat n E M i j (P : list (list bool) -> Prop) : minv n E M -> 1 <= i <= n -> 1 <= j <= n ->
  (forall M', minv n (fun x y => E x y \/ (x = i /\ y = j)) M' -> P M') ->
  wp (if (i =? 0) || (j =? 0) then UB OobWrite
      else row <- rd M (i - 1);; row <- wr row (j - 1) true;; wr M (i - 1) row) P.
Proof.
  intros (L & R & H) Hi Hj K. destruct (Nat.eqb_spec i 0); [lia|]. destruct (Nat.eqb_spec j 0); [lia|]. cbn [orb].
  rewrite (rd_some M (i - 1) (nth (i - 1) M [])) by (apply nth_error_Some_nth; lia). cbn [bind].
  assert (LR : length (nth (i - 1) M []) = n) by (apply R; lia).
  rewrite wr_ok by lia. cbn [bind]. rewrite wr_ok by lia. apply wp_ok. apply K.
  split; [rewrite upd_length; auto|]. split.
  - intros x Hx. rewrite nth_upd. destruct ((i - 1 =? x) && (x <? length M)); [rewrite upd_length|]; auto.
  - intros x y Hx Hy. rewrite nth_upd. destruct (Nat.eqb_spec (i - 1) (x - 1)) as [Ex|N].
    + assert (x = i) by lia. subst x. destruct (Nat.ltb_spec (i - 1) (length M)); [cbn [andb]|lia].
      rewrite nth_upd. destruct (Nat.eqb_spec (j - 1) (y - 1)) as [Ey|N].
      * assert (y = j) by lia. subst y. destruct (Nat.ltb_spec (j - 1) (length (nth (i - 1) M []))); [cbn [andb]|lia]. tauto.
      * cbn [andb]. rewrite H by auto. split; [auto|]. intros [?|[_ ->]]; [auto|lia].
    + cbn [andb]. rewrite H by auto. split; [auto|]. intros [?|[-> _]]; [auto|lia].
Qed.

Lemma minv_ext n E E' M : (forall i j, E i j <-> E' i j) -> minv n E M -> minv n E' M.
Proof. intros H (L & R & K). split; auto. split; auto. intros i j Hi Hj. rewrite K by auto. auto. Qed.

Lemma to_matrix_spec p n adj a : holds_graph p n adj a -> 1 <= n ->
  wp (to_matrix p) (fun r => exists M, r = Ret M /\ length M = n /\ (forall i, i < n -> length (nth i M []) = n) /\
     forall i j, 1 <= i <= n -> 1 <= j <= n -> (nth (j - 1) (nth (i - 1) M []) false = true <-> adj i j)).
Proof.
  intros HP Hn. destruct (loaded_some _ _ _ _ HP Hn) as (g & E & S & G). unfold to_matrix. rewrite E.
  rewrite (send_data_spec a n adj G g S). cbn [bind].
  pose proof (up_edges a n adj G) as UE. pose proof (gr_simple _ _ _ G) as SI. pose proof (edge_range n adj _ SI UE) as UR.
  destruct HP as (g' & _ & Ev & _ & _). rewrite Ev.
  apply wp_bind. eapply (wp_foldM _ _ (fun pre A => minv n (both pre) A)).
  - split; [apply repeat_length|]. split.
    + intros i Hi. rewrite nth_indep with (d' := repeat false n) by (rewrite repeat_length; auto). rewrite nth_repeat. apply repeat_length.
    + intros i j Hi Hj. rewrite nth_indep with (d' := repeat false n) by (rewrite repeat_length; lia). rewrite !nth_repeat. unfold both. simpl. intuition congruence.
  - intros pre [x y] post A El I. assert (In (x, y) (filter up a)) as IN by (rewrite El; apply in_elt).
    destruct (UR x y IN) as (X & Y & _).
    apply wp_bind. eapply (put_mat n (both pre)); [auto|lia|lia|]. intros A1 I1.
    eapply (put_mat n); [exact I1|lia|lia|]. intros A2 I2. eapply minv_ext; [|exact I2].
    intros i j. rewrite both_snoc. intuition.
  - intros A (L & R & H). apply wp_ok. exists A. split; auto. split; auto. split; auto. intros i j Hi Hj. rewrite H by auto.
    apply (edges_both n adj); auto.
Qed.

(** to_edgelist is right exactly when the stored edge counter is. *)
Lemma fill_rows (calls : pairs) k : length calls <= k ->
  wp (foldM (fun e '(rows, i) => rows <- wr rows i (Some e);; Ok (rows, S i)) calls (repeat (@None (nat * nat)) k, 0))
     (fun r => fst r = map Some calls ++ repeat None (k - length calls)).
Proof.
  intros HL.
  eapply (wp_foldM _ _ (fun pre (s : list (option (nat * nat)) * nat) => fst s = map Some pre ++ repeat None (k - length pre) /\ snd s = length pre)).
  - simpl. replace (k - 0) with k by lia. auto.
  - intros pre x post [rows i] E (E1 & E2). cbn [fst snd] in *. subst rows i.
    assert (LE : length pre + S (length post) = length calls) by (rewrite E, app_length; reflexivity). 
    rewrite wr_ok by (rewrite app_length, map_length, repeat_length; lia). cbn [bind]. apply wp_ok. cbn [fst snd].
    rewrite app_length. cbn [length]. split; [|lia].
    replace (k - length pre) with (S (k - (length pre + 1))) by lia. cbn [repeat].
    pose proof (upd_app_mid (map Some pre) None (Some x) (repeat None (k - (length pre + 1)))) as U. rewrite map_length in U. rewrite U.
    rewrite map_app, <- app_assoc. reflexivity.
  - intros [rows i] (E1 & E2). auto.
Qed.

Lemma to_edgelist_spec p n adj a : holds_graph p n adj a -> 1 <= n -> p_nedges p = length (filter up a) ->
  to_edgelist p = Ok (Ret (map Some (filter up a))).
Proof.
  intros HP Hn HC. destruct (loaded_some _ _ _ _ HP Hn) as (g & E & S & G). unfold to_edgelist. rewrite E.
  rewrite (send_data_spec a n adj G g S). cbn [bind].
  pose proof (fill_rows (filter up a) (p_nedges p) ltac:(lia)) as W. apply wp_iff in W. destruct W as ([rows i] & W1 & W2).
  rewrite W1. cbn [bind fst] in *. rewrite W2, HC. replace (length (filter up a) - length (filter up a)) with 0 by lia.
  cbn [repeat]. rewrite app_nil_r. auto.
Qed.

Lemma edges_unique adj l l' : edges_of adj l -> edges_of adj l' -> length l = length l'.
Proof.
  intros (N1 & H1) (N2 & H2). apply Nat.le_antisymm; apply NoDup_incl_length; auto; intros [u v] I.
  - apply H2, H1; auto.
  - apply H1, H2; auto.
Qed.

Lemma nodup_app {A} (l l' : list A) : NoDup l -> NoDup l' -> (forall x, In x l -> ~ In x l') -> NoDup (l ++ l').
Proof.
  induction 1 as [|x l N1 N2 IH]; intros H D; auto. simpl. constructor.
  - rewrite in_app_iff. intros [I|I]; [auto|]. apply (D x); auto. left; auto.
  - apply IH; auto. intros y I. apply D. right. auto.
Qed.

Lemma nodup_prod {A B} (l : list A) (l' : list B) : NoDup l -> NoDup l' -> NoDup (list_prod l l').
Proof.
  induction 1 as [|x l N1 N2 IH]; intros H; simpl; [constructor|]. apply nodup_app; auto.
  - apply FinFun.Injective_map_NoDup; auto. intros u v E. congruence.
  - intros [u v] I1 I2. apply in_map_iff in I1. destruct I1 as (y & E & _). inversion E; subst. apply in_prod_iff in I2. tauto.
Qed.

Lemma filter_split_len {A} (f : A -> bool) l : length (filter f l) + length (filter (fun x => negb (f x)) l) = length l.
Proof. induction l as [|x l IH]; auto. simpl. destruct (f x); simpl; lia. Qed.

(** The edge counters. *)
Definition swap (x : nat * nat) : nat * nat := (snd x, fst x).

Lemma half_edges (l : pairs) : NoDup l -> (forall u v, In (u, v) l -> In (v, u) l /\ u <> v) ->
  length l = 2 * length (filter up l).
Proof.
  intros ND SY. 
  assert (length (filter up l) = length (filter (fun p => negb (up p)) l)) as E.
  { assert (forall f g : nat * nat -> bool, (forall u v, In (u, v) l -> f (u, v) = g (v, u)) -> length (filter f l) <= length (filter g l)) as K.
    { intros f g H. rewrite <- (map_length swap). apply NoDup_incl_length.
      - apply FinFun.Injective_map_NoDup; [|apply NoDup_filter; auto]. intros [a b] [c d] E. unfold swap in E. simpl in E. congruence.
      - intros [u v] I. apply in_map_iff in I. destruct I as ([x y] & E & I). unfold swap in E. simpl in E. inversion E; subst.
        apply filter_In in I. destruct I as [I1 I2]. apply filter_In. destruct (SY _ _ I1) as [I3 _]. split; auto. rewrite <- H; auto. }
    apply Nat.le_antisymm; apply K; intros u v I; cbn [fst snd]; destruct (SY _ _ I) as [_ N];
      destruct (Nat.ltb_spec u v), (Nat.ltb_spec v u); simpl; auto; lia. }
  pose proof (filter_split_len up l) as F. cbn beta in *. lia.
Qed.

Lemma set_pairs_count n m A a : real_sets A -> sets_ok n m A -> gra a n (adj_sets A) -> (forall x, In x a <-> In x (set_pairs 0 A)) ->
  m = length (filter up a).
Proof.
  intros HR (HL & H0 & HG & HM) HA HI.
  set (off_diag := fun x : nat * nat => negb (fst x =? snd x)).
  assert (ND : NoDup (set_pairs 0 A)).
  { assert (forall todo i, Forall (StronglySorted lt) todo -> (forall k s, nth_error todo k = Some s -> ~ In (i + k) s) ->
              NoDup (set_pairs i todo)) as K.
    { induction todo as [|s todo IH]; intros i Hs Hk; cbn [set_pairs]; [constructor|]. inversion Hs; subst.
      constructor.
      - rewrite in_app_iff, in_map_iff. intros [(j & E & I)|I].
        + inversion E; subst. apply (Hk 0 s eq_refl). rewrite Nat.add_0_r. auto.
        + apply set_pairs_in in I. lia.
      - assert (NoDup (map (fun j => (i, j)) s)) as N1.
        { apply FinFun.Injective_map_NoDup; [intros x y E; congruence|apply sorted_nodup; auto]. }
        assert (NoDup (set_pairs (S i) todo)) as N2.
        { apply IH; auto. intros k s' E. replace (S i + k) with (i + S k) by lia. apply Hk. auto. }
        apply nodup_app; auto. intros [u v] I1 I2. apply in_map_iff in I1. destruct I1 as (y & E & _). inversion E; subst.
        apply set_pairs_in in I2. lia. }
    apply K; auto. intros k s E I.
    assert (nth k A [] = s) as E' by (apply (nth_error_nth A k [] E)). rewrite <- E' in I. apply HG in I. simpl in I. lia. }
  assert (P : Permutation a (set_pairs 0 A)).
  { apply NoDup_Permutation; auto. apply sorted_lt_nodup, (gr_sorted _ _ _ HA). }
  assert (C : length (filter off_diag (set_pairs 0 A)) = list_sum (map (@length nat) A)).
  { assert (forall todo i, (forall k s, nth_error todo k = Some s -> ~ In (i + k) s) ->
              length (filter off_diag (set_pairs i todo)) = list_sum (map (@length nat) todo)) as K.
    { induction todo as [|s todo IH]; intros i Hk; cbn [set_pairs]; auto. cbn [filter]. unfold off_diag at 1. cbn [fst snd]. rewrite Nat.eqb_refl. cbn [negb].
      rewrite filter_app, app_length, IH.
      - cbn [map]. cbn [list_sum fold_right]. f_equal. specialize (Hk 0 s eq_refl). rewrite Nat.add_0_r in Hk. clear - Hk.
        induction s as [|j s IHs]; auto. cbn [map filter]. unfold off_diag at 1. cbn [fst snd].
        destruct (Nat.eqb_spec i j) as [->|]; [exfalso; apply Hk; left; auto|]. cbn [negb length]. rewrite IHs; auto.
        intros I. apply Hk. right. auto.
      - intros k s' E. replace (S i + k) with (i + S k) by lia. apply Hk. auto. }
    apply K. intros k s E I.
    assert (nth k A [] = s) as E' by (apply (nth_error_nth A k [] E)). rewrite <- E' in I. apply HG in I. simpl in I. lia. }
  assert (length (filter off_diag a) = length (filter off_diag (set_pairs 0 A))) as Q.
  { apply Permutation_length. clear - P. induction P; simpl; auto.
    - destruct (off_diag x); auto.
    - destruct (off_diag x), (off_diag y); auto. constructor.
    - eapply perm_trans; eauto. }
  pose proof (half_edges (filter off_diag a)) as HH.
  rewrite Q, C in HH.
  assert (filter up (filter off_diag a) = filter up a) as U.
  { clear. induction a as [|[x y] l IH]; auto. cbn [filter]. unfold off_diag at 1. cbn [fst snd].
    destruct (Nat.eqb_spec x y) as [->|N]; cbn [negb].
    - rewrite Nat.ltb_irrefl. auto.
    - cbn [filter fst snd]. rewrite IH. auto. }
  rewrite U in HH. rewrite <- HM, HH.
  - rewrite Nat.mul_comm, Nat.div_mul; auto.
  - apply NoDup_filter, sorted_lt_nodup, (gr_sorted _ _ _ HA).
  - intros u v I. apply filter_In in I. destruct I as [I1 I2]. unfold off_diag in I2. cbn [fst snd] in I2. apply negb_true_iff, Nat.eqb_neq in I2.
    split; auto. apply filter_In. unfold off_diag. cbn [fst snd]. split.
    + assert (adj_sets A u v) as AV by (apply (gra_adj _ _ _ u v HA); auto).
      destruct (gr_simple _ _ _ HA _ _ AV) as (AV' & _ & _). apply (gra_adj _ _ _ v u HA) in AV'. tauto.
    + apply negb_true_iff, Nat.eqb_neq. auto.
Qed.

(** For a symmetric matrix the counter is right. *)
Lemma matrix_count_sym n M a : (forall i j, i < n -> j < n -> M i j = M j i) -> gra a n (adj_matrix n M) ->
  matrix_count n M = length (filter up a).
Proof.
  intros HS HA. unfold matrix_count. rewrite matrix_cells_eq. cbn [snd].
  set (cells := filter (fun '(i, j) => M i j && negb (i =? j)) (list_prod (seq 0 n) (seq 0 n))).
  assert (CI : forall i j, In (i, j) cells <-> i < n /\ j < n /\ M i j = true /\ i <> j).
  { intros i j. unfold cells. rewrite filter_In, in_prod_iff, !in_seq, andb_true_iff, negb_true_iff, Nat.eqb_neq. intuition lia. }
  assert (ND : NoDup cells).
  { apply NoDup_filter, nodup_prod; apply seq_NoDup. }
  rewrite (half_edges cells ND).
  2:{ intros i j I. apply CI in I. destruct I as (I1 & I2 & I3 & I4). split; auto. apply CI. rewrite HS; auto. }
  rewrite Nat.mul_comm, Nat.div_mul by auto.
  rewrite <- (map_length (fun x => (fst x + 1, snd x + 1))).
  apply (edges_unique (adj_matrix n M)).
  - split.
    + apply FinFun.Injective_map_NoDup; [|apply NoDup_filter; auto]. intros [u v] [u' v'] E. cbn [fst snd] in E. inversion E. f_equal; lia.
    + intros u v. rewrite in_map_iff. unfold adj_matrix. split.
      * intros ([i j] & E & I). cbn [fst snd] in E. inversion E; subst. rewrite filter_In, CI in I. cbn [fst snd] in I. rewrite Nat.ltb_lt in I.
        replace (i + 1 - 1) with i by lia. replace (j + 1 - 1) with j by lia. destruct I as ((? & ? & ? & ?) & ?). repeat split; auto; lia.
      * intros (H1 & H2 & H3 & H4 & H5). exists (u - 1, v - 1). cbn [fst snd]. split; [f_equal; lia|].
        rewrite filter_In, CI. cbn [fst snd]. rewrite Nat.ltb_lt. repeat split; try lia. destruct H5 as [H5|H5]; auto. rewrite HS by lia. auto.
  - apply (up_edges a n); auto.
Qed.

(** For an edge list the counter is right iff no row is a self loop or repeats an earlier row in either orientation. *)
Lemma edgelist_count n rows a : gra a n (adj_rows rows) ->
  (length rows = length (filter up a) <-> distinct_rows rows).
Proof.
  intros HA. pose proof (up_edges a n _ HA) as UE. destruct UE as [UN UI].
  set (norm := fun x : nat * nat => (Nat.min (fst x) (snd x), Nat.max (fst x) (snd x))).
  assert (INCL : incl (filter up a) (map norm rows)).
  { intros [u v] I. apply UI in I. destruct I as (L & N & [I|I]); apply in_map_iff; eexists; (split; [|exact I]); unfold norm; cbn [fst snd];
      f_equal; lia. }
  split.
  - intros E. assert (ND : NoDup (map norm rows)).
    { eapply NoDup_incl_NoDup; [exact UN| |exact INCL]. rewrite map_length. lia. }
    split; auto. intros u I.
    assert (incl (map norm rows) (filter up a)) as INCL2.
    { apply NoDup_length_incl; [exact UN| |exact INCL]. rewrite map_length. lia. }
    assert (In (norm (u, u)) (filter up a)) as J by (apply INCL2, in_map; auto).
    unfold norm in J. cbn [fst snd] in J. apply filter_In in J. cbn [fst snd] in J. destruct J as [_ J]. apply Nat.ltb_lt in J. lia.
  - intros (ND & SL). apply Nat.le_antisymm.
    + rewrite <- (map_length norm). apply NoDup_incl_length; auto. intros [u v] I. apply in_map_iff in I. destruct I as ([x y] & E & I).
      unfold norm in E. cbn [fst snd] in E. inversion E; subst. apply UI.
      assert (x <> y) by (intros ->; apply (SL y); auto).
      split; [lia|]. split; [lia|]. destruct (Nat.lt_ge_cases x y).
      * left. rewrite Nat.min_l, Nat.max_r by lia. auto.
      * right. rewrite Nat.min_r, Nat.max_l by lia. auto.
    + rewrite <- (map_length norm rows). apply NoDup_incl_length; auto.
Qed.

(** ** The loaded graph does not depend on the loader, except for [bits_live] (see C13). *)
Lemma ensure_space_cap c1 c2 g : bits_live g = true -> forget_live (ensure_space c1 g) = forget_live (ensure_space c2 g).
Proof. intros H. unfold ensure_space. destruct (_ <? _)%Z; reflexivity. Qed.

Lemma construct_cap n c1 c2 e1 e2 : clean_edges (n + 1) e1 = clean_edges (n + 1) e2 ->
  forall g1 g2, construct n c1 e1 = Ok g1 -> construct n c2 e2 = Ok g2 -> forget_live g1 = forget_live g2.
Proof.
  intros E g1 g2. unfold construct. rewrite E. destruct (clean_edges (n + 1) e2) as [a| |]; cbn [bind]; try discriminate.
  destruct (build_vertices _ _ _) as [[[[[vs b] els] ebs] maxd]| |]; cbn [bind]; try discriminate.
  destruct (all_bounds _ _) as [[[vs' lim] loc]| |]; cbn [bind]; try discriminate.
  intros H1 H2. injection H1 as <-. injection H2 as <-. apply ensure_space_cap. reflexivity.
Qed.

Lemma load_graph_ok p n m cap edges q : load_graph p n m cap edges = Ok q ->
  exists g, construct n cap edges = Ok g /\ q = mkP (Some g) n m (p_cur p) (p_done p).
Proof. unfold load_graph. intros H. apply bind_ok in H. destruct H as (g & H1 & H2). exists g. split; auto. congruence. Qed.

Lemma made_construct p n adj : made p n adj -> exists m cap edges g,
  p = mkP (Some g) n m 0 false /\ construct n cap edges = Ok g /\ simple n adj
  /\ forall u v, In (u, v) edges <-> u <= n /\ v <= n /\ (u = v \/ adj u v).
Proof.
  intros MA. pose proof (made_simple _ _ _ MA) as SI. destruct MA as [rows n p HF E|n M p HF E|n m A p HF HR E|rows n p HF HR E|text n rows p HA HM HZ E].
  - unfold from_edgelist in E. pose proof (read_rows_spec n rows) as H. destruct (read_rows n rows) as [l|e]; [|discriminate].
    apply bind_ok in E. destruct E as (q & E1 & E2). injection E2 as <-. apply load_graph_ok in E1. destruct E1 as (g & E1 & ->).
    do 4 eexists. split; [reflexivity|]. split; [exact E1|]. split; auto. apply edgelist_in; tauto.
  - unfold from_matrix in E. rewrite Nat.eqb_refl in E. cbn [negb] in E. pose proof (matrix_in n M) as MI.
    destruct (matrix_cells n M) as [l cnt]. cbn [fst] in MI.
    apply bind_ok in E. destruct E as (q & E1 & E2). injection E2 as <-. apply load_graph_ok in E1. destruct E1 as (g & E1 & ->).
    do 4 eexists. split; [reflexivity|]. split; [exact E1|]. split; auto.
  - destruct (from_adjlist_spec n m A HF) as [(OK & _)|(_ & e & H)]; [|congruence].
    destruct OK as (HL & H0 & HG & HM).
    unfold from_adjlist in E. destruct A as [|a0 A']; [discriminate|]. destruct a0; [|discriminate].
    set (A := [] :: A') in *. destruct (negb (n =? length A - 1)); [discriminate|].
    destruct (read_sets_spec n A A 0 HL) as [[G R]|[G R]]; rewrite R in E; [|discriminate].
    cbn [bind] in E. destruct (negb _); [discriminate|].
    apply bind_ok in E. destruct E as (q & E1 & E2). injection E2 as <-. apply load_graph_ok in E1. destruct E1 as (g & E1 & ->).
    do 4 eexists. split; [reflexivity|]. split; [exact E1|]. split; auto.
    intros u v. rewrite set_pairs_in, HL. replace (u - 0) with u by lia. split.
    + intros (H1 & [->|H2]); [repeat split; auto; lia|]. split; [lia|]. split; [|right; exact H2]. apply HG in H2. lia.
    + intros (H1 & H2 & [->|H3]); (split; [lia|auto]).
  - unfold load_rows in E. apply load_graph_ok in E. destruct E as (g & E1 & ->).
    do 4 eexists. split; [reflexivity|]. split; [exact E1|]. split; auto. apply edgelist_in; auto. apply both_ways_in.
  - rewrite (from_file_eq text n rows HM HA) in E. apply bind_ok in E. destruct E as (q & E1 & E2). injection E2 as <-.
    apply load_graph_ok in E1. destruct E1 as (g & E1 & ->).
    do 4 eexists. split; [reflexivity|]. split; [exact E1|]. split; auto. intros u v. apply lines_in. auto.
Qed.

Lemma clean_edges_det n e1 e2 :
  (forall x, In x e1 -> fst x < n /\ snd x < n) -> (forall x, In x e1 <-> In x e2) -> n <> 0 ->
  clean_edges n e1 = clean_edges n e2.
Proof.
  intros H1 HE Hn.
  pose proof (clean_edges_spec n e1 Hn H1) as W1.
  pose proof (clean_edges_spec n e2 Hn (fun x I => H1 x (proj2 (HE x) I))) as W2.
  apply wp_iff in W1, W2. destruct W1 as (a1 & -> & S1 & I1). destruct W2 as (a2 & -> & S2 & I2).
  f_equal. apply sorted_lt_ext; auto. intros x. rewrite I1, I2. auto.
Qed.

Lemma made_same p q n adj adj' : made p n adj -> made q n adj' -> (forall u v, adj u v <-> adj' u v) ->
  exists g h, p_G p = Some g /\ p_G q = Some h /\ forget_live g = forget_live h
              /\ p_nvert p = p_nvert q /\ p_cur p = p_cur q /\ p_done p = p_done q.
Proof.
  intros H1 H2 E. apply made_construct in H1, H2.
  destruct H1 as (m1 & c1 & e1 & g1 & -> & C1 & S1 & I1). destruct H2 as (m2 & c2 & e2 & g2 & -> & C2 & S2 & I2).
  exists g1, g2. repeat split; auto. eapply construct_cap; [|exact C1|exact C2].
  apply clean_edges_det; [| |lia].
  - intros [u v] I. apply I1 in I. simpl. lia.
  - intros [u v]. rewrite I1, I2, E. tauto.
Qed.
