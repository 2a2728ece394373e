(** IsoFacts: the graphs built from a condition alone, and from two graphs. *)
From Verif Require Import Base BaseFacts MBits MUtils MGraph MApi MExt Spec FindFacts FindTwo RowFacts ConstructFacts LoadFacts ExportFacts LoadProps ExtFacts SearchBase HeurFacts CliqueFacts.
From Coq Require Import Sorting.Sorted Sorting.Permutation.
Local Open Scope nat_scope.
Local Arguments Nat.sub : simpl never.
Local Arguments Nat.mul : simpl never.
Local Arguments Nat.div : simpl never.

(** ** Rows that are a flat_map over increasing pairs of elements, counted from [b] *)
Definition four (b n1 n2 : nat) (g : nat -> nat -> nat -> nat -> pairs) : pairs :=
  flat_map (fun i => flat_map (fun i' => flat_map (fun j => flat_map (fun j' => g i i' j j')
    (seq (j + 1) (b + n2 - (j + 1)))) (seq b n2)) (seq (i + 1) (b + n1 - (i + 1)))) (seq b n1).

Lemma four_in b n1 n2 g r : In r (four b n1 n2 g) <->
  exists i i' j j', b <= i /\ i < i' < b + n1 /\ b <= j /\ j < j' < b + n2 /\ In r (g i i' j j').
Proof.
  unfold four. split.
  - intros H. apply in_flat_map in H. destruct H as (i & I1 & H). apply in_flat_map in H. destruct H as (i' & I2 & H).
    apply in_flat_map in H. destruct H as (j & I3 & H). apply in_flat_map in H. destruct H as (j' & I4 & H).
    rewrite in_seq in *. exists i, i', j, j'. split; [lia|]. split; [lia|]. split; [lia|]. split; [lia|]. auto.
  - intros (i & i' & j & j' & B1 & H1 & B2 & H2 & H). apply in_flat_map. exists i. split; [apply in_seq; lia|].
    apply in_flat_map. exists i'. split; [apply in_seq; lia|]. apply in_flat_map. exists j. split; [apply in_seq; lia|].
    apply in_flat_map. exists j'. split; [apply in_seq; lia|]. auto.
Qed.

Lemma flat_map_le {A B} (f : A -> list B) k l : (forall x, In x l -> length (f x) <= k) -> length (flat_map f l) <= k * length l.
Proof.
  induction l as [|x l IH]; intros H; cbn [flat_map length]; [lia|]. rewrite app_length.
  specialize (IH (fun y I => H y (or_intror I))). specialize (H x (or_introl eq_refl)). lia.
Qed.

Lemma four_len b n1 n2 g : (forall i i' j j', length (g i i' j j') <= 2) -> length (four b n1 n2 g) <= 2 * (n1 * n1 * (n2 * n2)).
Proof.
  intros H. unfold four. etransitivity; [apply (flat_map_le _ (2 * n2 * n2 * n1))|rewrite seq_length; nia].
  intros i I. apply in_seq in I. etransitivity; [apply (flat_map_le _ (2 * n2 * n2))|rewrite seq_length; nia].
  intros i' _. etransitivity; [apply (flat_map_le _ (2 * n2))|rewrite seq_length; nia].
  intros j J. apply in_seq in J. etransitivity; [apply (flat_map_le _ 2)|rewrite seq_length; nia]. auto.
Qed.

(** ** The condition alone *)
Definition cond_turn (n2 : nat) (cf : nat -> nat -> nat -> nat -> bool) (i i' j j' : nat) : pairs :=
  if cf i i' j j' then [(vid n2 i j, vid n2 i' j'); (vid n2 i' j, vid n2 i j')] else [].

Lemma condition_rows_eq n1 n2 cf : condition_rows n1 n2 cf = Ok (four 0 n1 n2 (cond_turn n2 cf)).
Proof.
  unfold condition_rows, four. apply collect_pure. intros i _. apply collect_pure. intros i' _. apply collect_pure. intros j _.
  apply collect_pure. intros j' _. unfold cond_turn. destruct (cf i i' j j'); reflexivity.
Qed.

Lemma cond_turn_len n2 cf i i' j j' : length (cond_turn n2 cf i i' j j') <= 2.
Proof. unfold cond_turn. destruct (cf i i' j j'); simpl; lia. Qed.

Lemma pairs_proper b n1 n2 g : (forall i i' j j' r, In r (g i i' j j') ->
    r = (vid n2 (i - b) (j - b), vid n2 (i' - b) (j' - b)) \/ r = (vid n2 (i' - b) (j - b), vid n2 (i - b) (j' - b))) ->
  proper n1 n2 (four b n1 n2 g).
Proof.
  intros H u v I. apply four_in in I. destruct I as (i & i' & j & j' & B1 & H1 & B2 & H2 & I). destruct (H _ _ _ _ _ I) as [E|E]; injection E as -> ->.
  - exists (i - b), (i' - b), (j - b), (j' - b). repeat split; auto; lia.
  - exists (i' - b), (i - b), (j - b), (j' - b). repeat split; auto; lia.
Qed.

Lemma cond_turn_in n2 cf i i' j j' r : In r (cond_turn n2 cf i i' j j') ->
  cf i i' j j' = true /\ (r = (vid n2 i j, vid n2 i' j') \/ r = (vid n2 i' j, vid n2 i j')).
Proof.
  unfold cond_turn. destruct (cf i i' j j'); [|intros []]. intros [<-|[<-|[]]]; auto.
Qed.

Lemma cond_proper n1 n2 cf : proper n1 n2 (four 0 n1 n2 (cond_turn n2 cf)).
Proof. apply pairs_proper. intros i i' j j' r I. rewrite !Nat.sub_0_r. apply (cond_turn_in _ _ _ _ _ _ _ I). Qed.

Lemma cond_ok p n1 n2 cf q : build_edges_condition_only p n1 n2 cf = Ok (Ret q) -> edges_fit q ->
  p_nvert q = n1 * n2 /\ (p = new_pygraph -> made q (n1 * n2) (adj_rows (four 0 n1 n2 (cond_turn n2 cf))))
  /\ forall u v, neighbour q u v <-> adj_rows (four 0 n1 n2 (cond_turn n2 cf)) u v.
Proof.
  intros E HF. unfold build_edges_condition_only in E. rewrite condition_rows_eq in E. cbn [bind] in E.
  apply bind_ok in E. destruct E as (q' & E & E'). injection E' as ->.
  destruct (load_rows_counts _ _ _ _ E) as (C1 & C2). unfold edges_fit in HF. rewrite C1, C2 in HF.
  destruct (load_rows_neighbour p _ _ q HF (proper_ok _ _ _ (cond_proper n1 n2 cf)) E) as (A & _ & B & C). auto.
Qed.

Lemma cond_total p n1 n2 cf : fits (n1 * n2 + 1 + 4 * (n1 * n1 * (n2 * n2))) ->
  exists q, build_edges_condition_only p n1 n2 cf = Ok (Ret q) /\ edges_fit q.
Proof.
  intros HF. unfold build_edges_condition_only. rewrite condition_rows_eq. cbn [bind].
  pose proof (four_len 0 n1 n2 (cond_turn n2 cf) (cond_turn_len n2 cf)) as L.
  assert (HF' : fits (n1 * n2 + 1 + 2 * length (four 0 n1 n2 (cond_turn n2 cf)))) by (unfold fits in *; lia).
  destruct (load_rows_total p _ _ HF' (proper_ok _ _ _ (cond_proper n1 n2 cf))) as (q & E). rewrite E. cbn [bind].
  exists q. split; auto. unfold edges_fit. destruct (load_rows_counts _ _ _ _ E) as (-> & ->). auto.
Qed.

Lemma cond_iff p n1 n2 cf q i i' j j' : build_edges_condition_only p n1 n2 cf = Ok (Ret q) -> edges_fit q ->
  i < i' < n1 -> j < n2 -> j' < n2 -> j <> j' ->
  (neighbour q (vid n2 i j) (vid n2 i' j') <-> cf i i' (Nat.min j j') (Nat.max j j') = true).
Proof.
  intros E HF Hi Hj Hj' NJ. destruct (cond_ok p n1 n2 cf q E HF) as (_ & _ & NB). rewrite NB. split.
  - intros (_ & H). assert (G : exists x x' y y', x < x' < n1 /\ y < y' < n2 /\ cf x x' y y' = true /\
      ((x = i /\ x' = i' /\ ((y = j /\ y' = j') \/ (y = j' /\ y' = j))))).
    { destruct H as [I|I]; apply four_in in I; destruct I as (x & x' & y & y' & _ & X & _ & Y & I); apply cond_turn_in in I;
        destruct I as (C & [I|I]); injection I as A B; apply vid_inj in A; try lia; apply vid_inj in B; try lia;
        exists x, x', y, y'; split; auto; split; auto; split; auto; lia. }
    destruct G as (x & x' & y & y' & X & Y & C & -> & -> & [[-> ->]|[-> ->]]).
    + rewrite Nat.min_l, Nat.max_r by lia. auto.
    + rewrite Nat.min_r, Nat.max_l by lia. auto.
  - intros C. split; [intros X; apply vid_inj in X; lia|].
    destruct (Nat.lt_ge_cases j j') as [L|L].
    + left. rewrite Nat.min_l, Nat.max_r in C by lia. apply four_in. exists i, i', j, j'. do 4 (split; [lia|]).
      unfold cond_turn. rewrite C. left. auto.
    + right. rewrite Nat.min_r, Nat.max_l in C by lia. apply four_in. exists i, i', j', j. do 4 (split; [lia|]).
      unfold cond_turn. rewrite C. right. left. auto.
Qed.

(** ** Two graphs *)
Lemma find_neighbors_spec a n adj g u v : shaped a n g -> gra a n adj -> u <= n ->
  exists ans b, find_if_neighbors g u v = Ok (b, ans) /\ (b = true <-> u = v \/ adj u v).
Proof.
  intros (E1 & (mcs & E2) & E3) GR Hu. pose proof (gra_ctx a n adj GR) as HC.
  pose proof (gra_b _ _ _ GR) as Hb.
  unfold find_if_neighbors. rewrite E1, E2.
  rewrite (rd_some _ u (mkvert a (mcs u) u)).
  2:{ rewrite nth_error_mapseq by exact Hb. destruct (Nat.ltb_spec u (n + 1)); auto; lia. }
  cbn [bind mkvert vN velo].
  pose proof (nb_find0 a (n + 1) u HC ltac:(lia) u v ltac:(lia)) as W. apply wp_iff in W. destruct W as ((b & ans) & E & B).
  cbn [fst] in B. exists ans, b. split; [exact E|]. rewrite B, CardFacts.inb_in, row_in, (gr_in _ _ _ GR). split; [tauto|].
  intros H. pose proof (gr_simple _ _ _ GR) as GS. split; [lia|]. split; [|exact H]. destruct H as [<-|A]; [exact Hu|]. destruct (GS u v A) as (A' & _). destruct (GS v u A') as (_ & _ & L). lia.
Qed.

Definition joined (g : graph) (u v : nat) : bool := match find_if_neighbors g u v with Ok (b, _) => b | _ => false end.

Lemma joined_spec a n adj g u v : shaped a n g -> gra a n adj -> u <= n ->
  (exists ans, find_if_neighbors g u v = Ok (joined g u v, ans)) /\ (joined g u v = true <-> u = v \/ adj u v).
Proof.
  intros S GR H. destruct (find_neighbors_spec a n adj g u v S GR H) as (ans & b & E & B). unfold joined. rewrite E. eauto.
Qed.

Definition iso_turn (g1 g2 : graph) (n2 i i' j j' : nat) : pairs :=
  if negb (joined g1 i i') && joined g2 j j' then []
  else [(vid n2 (i - 1) (j - 1), vid n2 (i' - 1) (j' - 1)); (vid n2 (i' - 1) (j - 1), vid n2 (i - 1) (j' - 1))].

Lemma iso_turn_len g1 g2 n2 i i' j j' : length (iso_turn g1 g2 n2 i i' j j') <= 2.
Proof. unfold iso_turn. destruct (negb _ && _); simpl; lia. Qed.

Lemma iso_turn_in g1 g2 n2 i i' j j' r : In r (iso_turn g1 g2 n2 i i' j j') ->
  (joined g2 j j' = true -> joined g1 i i' = true)
  /\ (r = (vid n2 (i - 1) (j - 1), vid n2 (i' - 1) (j' - 1)) \/ r = (vid n2 (i' - 1) (j - 1), vid n2 (i - 1) (j' - 1))).
Proof.
  unfold iso_turn. destruct (joined g1 i i'), (joined g2 j j'); cbn [negb andb]; try (intros []; fail);
    intros [<-|[<-|[]]]; auto.
Qed.

Section Iso.
  Variables (s1 s2 : pygraph) (n1 n2 : nat) (adj1 adj2 : nat -> nat -> Prop).
  Hypothesis M1 : made s1 n1 adj1.
  Hypothesis M2 : made s2 n2 adj2.

  Lemma made_graph p n adj : made p n adj -> exists a g, p_G p = Some g /\ shaped a n g /\ gra a n adj.
  Proof. intros M. destruct (made_holds p n adj M) as (a & g & E & _ & GR & S). exists a, g. auto. Qed.

  Lemma iso_build p : 0 < n1 -> 0 < n2 -> exists g1 g2 rows, build_edges_for_iso p s1 s2 = (q <- load_rows p (n1 * n2) rows;; Ok (Ret q))
    /\ rows = four 1 n1 n2 (iso_turn g1 g2 n2)
    /\ (forall u v, 1 <= u <= n1 -> (joined g1 u v = true <-> u = v \/ adj1 u v))
    /\ (forall u v, 1 <= u <= n2 -> (joined g2 u v = true <-> u = v \/ adj2 u v)).
  Proof.
    intros P1 P2. destruct (made_graph s1 n1 adj1 M1) as (a1 & g1 & E1 & S1 & G1).
    destruct (made_graph s2 n2 adj2 M2) as (a2 & g2 & E2 & S2 & G2).
    exists g1, g2, (four 1 n1 n2 (iso_turn g1 g2 n2)). split; [|split; [reflexivity|split]].
    - unfold build_edges_for_iso. rewrite (made_nvert _ _ _ M1), (made_nvert _ _ _ M2).
      destruct (Nat.eqb_spec n1 0); [lia|]. destruct (Nat.eqb_spec n2 0); [lia|]. cbn [orb]. rewrite E1, E2.
      pose proof S1 as (_ & _ & V1). pose proof S2 as (_ & _ & V2). rewrite V1, V2, !Nat.add_sub.
      replace (iso_rows g1 g2) with (Ok (four 1 n1 n2 (iso_turn g1 g2 n2))); [reflexivity|]. symmetry.
      unfold iso_rows. rewrite V1, V2, !Nat.add_sub. unfold four. rewrite (Nat.add_comm 1 n1), (Nat.add_comm 1 n2).
      apply collect_pure. intros i I. apply in_seq in I. apply collect_pure. intros i' _.
      destruct (joined_spec a1 n1 adj1 g1 i i' S1 G1 ltac:(lia)) as ((r1 & F1) & _). rewrite F1. cbn [bind].
      apply collect_pure. intros j J. apply in_seq in J. apply collect_pure. intros j' _.
      destruct (joined_spec a2 n2 adj2 g2 j j' S2 G2 ltac:(lia)) as ((r2 & F2) & _). rewrite F2. cbn [bind].
      unfold iso_turn. destruct (negb (joined g1 i i') && joined g2 j j'); reflexivity.
    - intros u v H. apply (joined_spec a1 n1 adj1 g1 u v S1 G1). lia.
    - intros u v H. apply (joined_spec a2 n2 adj2 g2 u v S2 G2). lia.
  Qed.

  Lemma iso_proper g1 g2 : proper n1 n2 (four 1 n1 n2 (iso_turn g1 g2 n2)).
  Proof. apply pairs_proper. intros i i' j j' r I. apply (iso_turn_in _ _ _ _ _ _ _ _ I). Qed.

  Lemma iso_empty p : n1 = 0 \/ n2 = 0 -> build_edges_for_iso p s1 s2 = Ok (Raise EEmptySet).
  Proof.
    intros H. unfold build_edges_for_iso. rewrite (made_nvert _ _ _ M1), (made_nvert _ _ _ M2).
    destruct (Nat.eqb_spec n1 0); [reflexivity|]. destruct (Nat.eqb_spec n2 0); [reflexivity|]. lia.
  Qed.

  Lemma iso_total p : 0 < n1 -> 0 < n2 -> fits (n1 * n2 + 1 + 4 * (n1 * n1 * (n2 * n2))) ->
    exists q, build_edges_for_iso p s1 s2 = Ok (Ret q) /\ edges_fit q.
  Proof.
    intros P1 P2 HF. destruct (iso_build p P1 P2) as (g1 & g2 & rows & E & -> & _). rewrite E.
    pose proof (four_len 1 n1 n2 (iso_turn g1 g2 n2) (iso_turn_len g1 g2 n2)) as L.
    assert (HF' : fits (n1 * n2 + 1 + 2 * length (four 1 n1 n2 (iso_turn g1 g2 n2)))) by (unfold fits in *; lia).
    destruct (load_rows_total p _ _ HF' (proper_ok _ _ _ (iso_proper g1 g2))) as (q & E'). rewrite E'. cbn [bind].
    exists q. split; auto. unfold edges_fit. destruct (load_rows_counts _ _ _ _ E') as (-> & ->). auto.
  Qed.

  Lemma iso_ok p q : build_edges_for_iso p s1 s2 = Ok (Ret q) -> edges_fit q ->
    exists g1 g2, let rows := four 1 n1 n2 (iso_turn g1 g2 n2) in
      p_nvert q = n1 * n2 /\ 0 < n1 /\ 0 < n2 /\ (p = new_pygraph -> made q (n1 * n2) (adj_rows rows))
      /\ (forall u v, neighbour q u v <-> adj_rows rows u v)
      /\ (forall u v, 1 <= u <= n1 -> (joined g1 u v = true <-> u = v \/ adj1 u v))
      /\ (forall u v, 1 <= u <= n2 -> (joined g2 u v = true <-> u = v \/ adj2 u v)).
  Proof.
    intros E HF. destruct (Nat.eq_dec n1 0) as [Z1|P1]; [rewrite (iso_empty p) in E by auto; discriminate|].
    destruct (Nat.eq_dec n2 0) as [Z2|P2]; [rewrite (iso_empty p) in E by auto; discriminate|].
    destruct (iso_build p ltac:(lia) ltac:(lia)) as (g1 & g2 & rows & E1 & -> & J1 & J2). rewrite E1 in E.
    apply bind_ok in E. destruct E as (q' & E & E'). injection E' as ->. exists g1, g2. cbv zeta.
    destruct (load_rows_counts _ _ _ _ E) as (C1 & C2). unfold edges_fit in HF. rewrite C1, C2 in HF.
    destruct (load_rows_neighbour p _ _ q HF (proper_ok _ _ _ (iso_proper g1 g2)) E) as (A & _ & B & C).
    split; auto. split; [lia|]. split; [lia|]. auto.
  Qed.

  Lemma iso_iff p q i i' j j' : build_edges_for_iso p s1 s2 = Ok (Ret q) -> edges_fit q ->
    1 <= i <= n1 -> 1 <= i' <= n1 -> 1 <= j <= n2 -> 1 <= j' <= n2 ->
    (neighbour q (vid n2 (i - 1) (j - 1)) (vid n2 (i' - 1) (j' - 1)) <-> i <> i' /\ j <> j' /\ (adj2 j j' -> adj1 i i')).
  Proof.
    intros E HF Hi Hi' Hj Hj'. destruct (iso_ok p q E HF) as (g1 & g2 & _ & _ & _ & _ & NB & J1 & J2). rewrite NB.
    assert (Sy1 : forall u v, adj1 u v -> adj1 v u) by (intros u v A; apply (made_simple _ _ _ M1) in A; tauto).
    assert (Sy2 : forall u v, adj2 u v -> adj2 v u) by (intros u v A; apply (made_simple _ _ _ M2) in A; tauto).
    assert (K : forall x x' y y', 1 <= x < x' -> x' < 1 + n1 -> 1 <= y < y' -> y' < 1 + n2 ->
              ((joined g2 y y' = true -> joined g1 x x' = true) <-> (adj2 y y' -> adj1 x x'))).
    { intros x x' y y' X X' Y Y'. rewrite J1, J2 by lia. split; intros H A.
      - destruct (H (or_intror A)) as [?|?]; [lia|auto].
      - destruct A as [?|A]; [lia|auto]. }
    split.
    - intros N. destruct (proper_adj n1 n2 _ (i - 1) (i' - 1) (j - 1) (j' - 1) (iso_proper g1 g2) ltac:(lia) ltac:(lia) N) as (D1 & D2 & _).
      split; [lia|]. split; [lia|]. destruct N as (_ & [I|I]); apply four_in in I;
        destruct I as (x & x' & y & y' & X0 & X & Y0 & Y & I); apply iso_turn_in in I; destruct I as (C & I);
        pose proof (proj1 (K x x' y y' (conj X0 (proj1 X)) (proj2 X) (conj Y0 (proj1 Y)) (proj2 Y)) C) as C'; destruct I as [I|I]; injection I as A B; apply vid_inj in A; try lia; apply vid_inj in B; try lia.
      + replace i with x by lia. replace i' with x' by lia. replace j with y by lia. replace j' with y' by lia. auto.
      + replace i with x' by lia. replace i' with x by lia. replace j with y by lia. replace j' with y' by lia. auto.
      + replace i with x' by lia. replace i' with x by lia. replace j with y' by lia. replace j' with y by lia. auto.
      + replace i with x by lia. replace i' with x' by lia. replace j with y' by lia. replace j' with y by lia. auto.
    - intros (D1 & D2 & C). split; [intros X; apply vid_inj in X; lia|].
      assert (T : forall x x' y y', 1 <= x < x' -> x' < 1 + n1 -> 1 <= y < y' -> y' < 1 + n2 -> (adj2 y y' -> adj1 x x') ->
         In (vid n2 (x - 1) (y - 1), vid n2 (x' - 1) (y' - 1)) (four 1 n1 n2 (iso_turn g1 g2 n2))
         /\ In (vid n2 (x' - 1) (y - 1), vid n2 (x - 1) (y' - 1)) (four 1 n1 n2 (iso_turn g1 g2 n2))).
      { intros x x' y y' X X' Y Y' H0. pose proof (proj2 (K x x' y y' X X' Y Y') H0) as H. split; apply four_in; exists x, x', y, y'; do 4 (split; [lia|]);
          unfold iso_turn; destruct (joined g1 x x'), (joined g2 y y'); cbn [negb andb]; simpl; auto; discriminate (H eq_refl). }
      assert (L1 : i < i' \/ i' < i) by lia. assert (L2 : j < j' \/ j' < j) by lia. destruct L1 as [L1|L1], L2 as [L2|L2].
      + left. apply (T i i' j j'); auto; lia.
      + right. apply (T i i' j' j); auto; lia.
      + left. apply (T i' i j j'); auto; lia.
      + right. apply (T i' i j' j); auto; lia.
  Qed.
End Iso.
