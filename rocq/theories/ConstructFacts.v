(** ConstructFacts: what the constructor of graph builds from a sorted list of pairs. *)
From Verif Require Import Base BaseFacts MBits BitsFacts SetFacts MUtils SortFacts RadixFacts RowFacts FindFacts MGraph.
From Coq Require Import Sorting.Sorted.
Local Open Scope nat_scope.
Local Arguments Nat.sub : simpl never.
Local Arguments Nat.mul : simpl never.

Lemma memok_of_nth m : (forall k, (nth k m 0 < two64)%N) -> memok m.
Proof.
  intros H. unfold memok. rewrite Forall_forall. intros x Hx. apply (In_nth _ _ 0%N) in Hx. destruct Hx as (k & _ & <-). auto.
Qed.

Section Build.
  Variables (a : pairs) (nv : nat).
  Hypothesis HS : sorted_lt a.
  Hypothesis Hself : forall i, i < nv -> In (i, i) a.
  Hypothesis Hb : forall x, In x a -> fst x < nv /\ snd x < nv.
  Hypothesis HZ : (Z.of_nat (length a) < 2 ^ 63)%Z.

  Notation nb := (row a).
  Notation len i := (length (row a i)).
  Definition eb (i : nat) : nat := psum (fun k => words (len k)) i.
  Definition sp (i : nat) : nat := idx i (nb i).
  Definition mkvert (m i : nat) : vertex := mkV (len i) (sp i) (off a i) (eb i) m (refer_from (eb i) (len i)).

  Lemma sp_spec i : i < nv -> sp i < len i /\ nth (sp i) (nb i) 0 = i.
  Proof. intros Hi. apply idx_spec; [apply row_sorted; auto|]. apply row_in. auto. Qed.

  Lemma len_pos i : i < nv -> 0 < len i.
  Proof. intros Hi. pose proof (sp_spec i Hi). lia. Qed.

  Lemma off_end : off a nv = length a.
  Proof. apply off_full. intros x Hx. apply Hb. auto. Qed.

  Lemma eb_S i : eb (S i) = eb i + words (len i). Proof. reflexivity. Qed.
  Lemma eb_mono i j : i <= j -> eb i <= eb j. Proof. apply psum_mono. Qed.
  Lemma eb_off i : eb i <= off a i.
  Proof. induction i as [|i IH]; [rewrite off_0; auto|]. rewrite eb_S, off_S. pose proof (words_le (len i)). lia. Qed.

  Lemma nv_small : nv <= length a.
  Proof.
    assert (G : forall i, i <= nv -> i <= off a i).
    { induction i as [|i IH]; intros Hi; [lia|]. rewrite off_S. pose proof (len_pos i ltac:(lia)). specialize (IH ltac:(lia)). lia. }
    specialize (G nv (le_n nv)). pose proof (off_le a nv). lia.
  Qed.

  Lemma fst_small k : (N.of_nat (fst (at_ a k)) < two64)%N.
  Proof.
    assert (fst (at_ a k) <= nv).
    { destruct (Nat.lt_ge_cases k (length a)) as [L|L].
      - destruct (Hb (at_ a k)); [apply nth_In; auto|]. lia.
      - rewrite nth_overflow by auto. simpl. lia. }
    pose proof nv_small. unfold two64. apply N2Z.inj_lt. rewrite nat_N_Z. lia.
  Qed.

  Lemma nth_snd k : nth k (map snd a) 0 = snd (at_ a k).
  Proof. change 0 with (snd (0, 0)). apply map_nth. Qed.

  Lemma scan_vertex_spec bits i : i < nv -> length bits = length a ->
    (forall k, off a i <= k < length a -> nth k bits 0%N = N.of_nat (fst (at_ a k))) ->
    wp (scan_vertex (map snd a) bits (off a i) i) (fun r => let '(j, b, s) := r in
      j = len i /\ s = sp i /\ length b = length bits
      /\ forall k, nth k b 0%N = if (off a i <=? k) && (k <? off a i + len i) then 0%N else nth k bits 0%N).
  Proof.
    intros Hi HL HR. unfold scan_vertex. rewrite map_length.
    pose proof (off_S a i) as OS. pose proof (off_le a (S i)) as OL. destruct (sp_spec i Hi) as [SP1 SP2].
    apply wp_loopN with
      (I := fun '(j, b, s) => j <= len i /\ length b = length bits /\ s = (if sp i <? j then sp i else 0)
         /\ forall k, nth k b 0%N = if (off a i <=? k) && (k <? off a i + j) then 0%N else nth k bits 0%N)
      (mu := fun '(j, b, s) => len i - j).
    - split; [lia|]. split; auto. split; auto. intros k.
      destruct (Nat.leb_spec (off a i) k), (Nat.ltb_spec k (off a i + 0)); auto; lia.
    - lia.
    - intros [[j b] s] (Hj & Lb & Es & Hk).
      assert (Fin : j = len i -> wp (Ok (Done (j, b, s)) : outcome (step (nat * list N * nat) (nat * list N * nat))) (fun r =>
         match r with
         | Cont s' => False
         | Done x => let '(j0, b0, s0) := x in j0 = len i /\ s0 = sp i /\ length b0 = length bits
            /\ forall k, nth k b0 0%N = if (off a i <=? k) && (k <? off a i + len i) then 0%N else nth k bits 0%N
         end)).
      { intros Ej. apply wp_ok. split; auto. split; [|split; auto].
        - rewrite Es. replace (sp i <? j) with true by (symmetry; apply Nat.ltb_lt; lia). auto.
        - intros k. rewrite Hk, Ej. auto. }
      destruct (Nat.ltb_spec (off a i + j) (length a)) as [L|L].
      + apply wp_bind. eapply wp_rd. { apply nth_error_nth' with (d := 0%N). lia. }
        rewrite Hk. replace (off a i + j <? off a i + j) with false by (symmetry; apply Nat.ltb_irrefl). rewrite andb_false_r.
        rewrite HR by lia.
        destruct (Nat.eq_dec j (len i)) as [Ej|Ej].
        * replace (N.of_nat (fst (at_ a (off a i + j))) =? N.of_nat i)%N with false.
          { eapply wp_mono; [apply Fin; auto|]. intros [?|?]; tauto. }
          symmetry. apply N.eqb_neq. intros E. apply Nat2N.inj in E.
          rewrite Ej, <- OS in *. pose proof (at_after a (S i) HS L). lia.
        * destruct (at_row a i j HS ltac:(lia)) as [R1 R2]. rewrite R2. cbn [fst]. rewrite N.eqb_refl.
          apply wp_bind. apply wp_wr; [lia|]. apply wp_bind. eapply wp_rd. { apply nth_error_nth' with (d := 0). rewrite map_length. lia. }
          rewrite nth_snd, R2. cbn [snd]. apply wp_ok. split; [|lia]. split; [lia|]. split; [rewrite upd_length; auto|].
          split.
          -- rewrite Es. destruct (Nat.eqb_spec (nth j (nb i) 0) i) as [E|E].
             ++ assert (j = sp i) by (apply (sorted_nth_inj (nb i)); auto; [apply row_sorted; auto|lia|congruence]). subst j.
                replace (sp i <? S (sp i)) with true by (symmetry; apply Nat.ltb_lt; lia). auto.
             ++ assert (j <> sp i) by congruence.
                destruct (Nat.ltb_spec (sp i) j), (Nat.ltb_spec (sp i) (S j)); auto; lia.
          -- intros k. rewrite nth_upd, Hk.
             destruct (Nat.eqb_spec (off a i + j) k) as [<-|N1]; cbn [andb].
             ++ replace (off a i + j <? length b) with true by (symmetry; apply Nat.ltb_lt; lia).
                destruct (Nat.leb_spec (off a i) (off a i + j)), (Nat.ltb_spec (off a i + j) (off a i + S j)); auto; lia.
             ++ destruct (Nat.leb_spec (off a i) k), (Nat.ltb_spec k (off a i + S j)), (Nat.ltb_spec k (off a i + j)); auto; lia.
      + eapply wp_mono; [apply Fin; lia|]. intros [?|?]; tauto.
  Qed.

  Definition binv (i : nat) (r : list vertex * list N * nat * nat * nat) : Prop :=
    let '(vs, b, els, ebs, maxd) := r in
    vs = map (mkvert 1) (seq 0 i) /\ els = off a i /\ ebs = eb i /\ length b = length a /\ memok b
    /\ (forall k, k < i -> rep b (eb k) (len k) (fun x => x =? sp k))
    /\ (forall k, eb i <= k < off a i -> nth k b 0%N = 0%N)
    /\ (forall k, off a i <= k < length a -> nth k b 0%N = N.of_nat (fst (at_ a k)))
    /\ (forall k, k < i -> len k <= maxd)
    /\ (0 < i -> exists k, k < i /\ len k = maxd) /\ (i = 0 -> maxd = 0).

  Lemma build_vertices_spec :
    wp (build_vertices nv (map snd a) (map (fun p => N.of_nat (fst p)) a)) (binv nv).
  Proof.
    unfold build_vertices. apply wp_for with (I := binv); auto; try lia.
    - unfold binv. rewrite off_0. cbn [eb psum]. repeat split; auto; try lia.
      + rewrite map_length. auto.
      + apply memok_of_nth. intros k. change 0%N with (N.of_nat (fst (0, 0))). rewrite (map_nth (fun p => N.of_nat (fst p))). apply fst_small.
      + intros k Hk. change 0%N with (N.of_nat (fst (0, 0))). apply (map_nth (fun p => N.of_nat (fst p))).
    - intros i [[[[vs b] els] ebs] maxd] Hi (Evs & -> & -> & Lb & Mb & HR & H0 & HN & HM & HX & HX0).
      apply wp_bind. eapply wp_mono. { apply scan_vertex_spec; auto; lia. }
      intros [[j b1] s] (-> & -> & Lb1 & Hb1). cbv zeta.
      pose proof (off_S a i) as OS. pose proof (off_le a (S i)) as OL. destruct (sp_spec i ltac:(lia)) as [SP1 SP2].
      pose proof (eb_off i) as EO. pose proof (words_le (len i)) as WL. pose proof (words_pos (len i) ltac:(lia)) as WP.
      assert (M1 : memok b1).
      { apply memok_of_nth. intros k. rewrite Hb1. destruct (_ && _); [reflexivity|]. apply memok_nth. auto. }
      assert (R0 : rep b1 (eb i) (len i) (fun _ => false)).
      { apply rep_zero; [lia|]. intros k Hk. rewrite Hb1.
        destruct (Nat.leb_spec (off a i) k), (Nat.ltb_spec k (off a i + len i)); cbn [andb]; auto; try lia; apply H0; lia. }
      apply wp_bind. eapply wp_mono. { apply (bits_set_spec b1 (eb i) (len i) _ (refer_from (eb i) (len i)) (sp i) M1 R0); auto. }
      intros b2 (M2 & R2 & O2). apply wp_ok.
      unfold binv. rewrite eb_S. destruct O2 as [L2 O2].
      split; [|split; [|split; [|split; [|split; [|split; [|split; [|split; [|split; [|split]]]]]]]]]; auto; try lia.
      + rewrite seq_S, map_app, Evs. reflexivity.
      + intros k Hk. destruct (Nat.eq_dec k i) as [->|].
        * eapply rep_ext; [exact R2|]. intros x Hx. apply orb_false_r.
        * pose proof (eb_mono (S k) i ltac:(lia)) as EM. rewrite eb_S in EM.
          destruct (HR k ltac:(lia)) as [HR1 HR2]. split; [lia|]. intros x Hx. rewrite <- HR2 by auto. unfold wbit.
          pose proof (words_lt64 _ x Hx). rewrite O2 by lia. rewrite Hb1.
          destruct (Nat.leb_spec (off a i) (eb k + x / 64)); cbn [andb]; auto. lia.
      + intros k Hk. rewrite O2 by lia. rewrite Hb1.
        destruct (Nat.leb_spec (off a i) k), (Nat.ltb_spec k (off a i + len i)); cbn [andb]; auto; try lia; apply H0; lia.
      + intros k Hk. rewrite O2 by lia. rewrite Hb1.
        destruct (Nat.leb_spec (off a i) k), (Nat.ltb_spec k (off a i + len i)); cbn [andb]; auto; try lia; apply HN; lia.
      + intros k Hk. destruct (Nat.ltb_spec maxd (len i)); destruct (Nat.eq_dec k i) as [->|]; auto; try lia;
          specialize (HM k ltac:(lia)); lia.
      + intros _. destruct (Nat.ltb_spec maxd (len i)) as [L|L]; [exists i; split; auto; lia|].
        destruct (Nat.eq_dec i 0) as [Ei|]; [specialize (HX0 Ei); lia|].
        destruct (HX ltac:(lia)) as (k & ? & ?). exists k. split; [lia|auto].
  Qed.

  (** Later in the search order: larger degree, or equal degree and larger number. *)
  Definition before (i e : nat) : bool := (len i <? len e) || ((len i =? len e) && (i <? e)).
  Definition candp (i j : nat) : bool := before i (nth j (nb i) 0).
  Definition bound (i : nat) : nat := S (length (sel (len i) (candp i))).

  Lemma before_irrefl i : before i i = false.
  Proof. unfold before. rewrite Nat.ltb_irrefl, Nat.ltb_irrefl, andb_false_r. auto. Qed.

  Lemma nb_lt i e : In e (nb i) -> e < nv.
  Proof. intros H. apply row_in in H. destruct (Hb _ H). auto. Qed.

  Lemma candp_lt i j : i < nv -> j < sp i -> candp i j = (len i <? len (nth j (nb i) 0)).
  Proof.
    intros Hi Hj. destruct (sp_spec i Hi) as [S1 S2]. unfold candp, before.
    pose proof (sorted_nth (nb i) j (sp i) (row_sorted a i HS) ltac:(lia)) as L. rewrite S2 in L.
    replace (i <? nth j (nb i) 0) with false by (symmetry; apply Nat.ltb_ge; lia). rewrite andb_false_r, orb_false_r. auto.
  Qed.

  Lemma candp_sp i : i < nv -> candp i (sp i) = false.
  Proof. intros Hi. destruct (sp_spec i Hi) as [S1 S2]. unfold candp. rewrite S2. apply before_irrefl. Qed.

  Lemma candp_gt i j : i < nv -> sp i < j < len i -> candp i j = (len i <=? len (nth j (nb i) 0)).
  Proof.
    intros Hi Hj. destruct (sp_spec i Hi) as [S1 S2]. unfold candp, before.
    pose proof (sorted_nth (nb i) (sp i) j (row_sorted a i HS) ltac:(lia)) as L. rewrite S2 in L.
    replace (i <? nth j (nb i) 0) with true by (symmetry; apply Nat.ltb_lt; lia). rewrite andb_true_r.
    destruct (Nat.ltb_spec (len i) (len (nth j (nb i) 0))), (Nat.eqb_spec (len i) (len (nth j (nb i) 0))),
      (Nat.leb_spec (len i) (len (nth j (nb i) 0))); auto; lia.
  Qed.

  (** [vs] has the degrees of the graph. *)
  Definition degs (vs : list vertex) : Prop := forall e, e < nv -> exists v, nth_error vs e = Some v /\ vN v = len e.

  Lemma el_at i j : i < nv -> j < len i -> nth_error (map snd a) (off a i + j) = Some (nth j (nb i) 0).
  Proof.
    intros Hi Hj. destruct (at_row a i j HS Hj) as [R1 R2].
    rewrite nth_error_nth' with (d := 0) by (rewrite map_length; auto). rewrite nth_snd, R2. auto.
  Qed.

  Lemma sel_S n P : length (sel (S n) P) = length (sel n P) + (if P n then 1 else 0).
  Proof. unfold members. rewrite seq_S, filter_app, app_length. cbn [Nat.add filter]. destruct (P n); auto. Qed.

  Lemma vertex_bound_spec vs v i : i < nv -> degs vs -> vN v = len i -> vspos v = sp i -> velo v = off a i ->
    vertex_bound (map snd a) vs v = Ok (bound i).
  Proof.
    intros Hi HD E1 E2 E3. destruct (sp_spec i Hi) as [S1 S2].
    assert (G : wp (vertex_bound (map snd a) vs v) (fun m => m = bound i)).
    { unfold vertex_bound. rewrite E1, E2, E3. apply wp_bind.
      apply wp_for with (I := fun j m => m = length (sel j (candp i))); auto; try lia.
      - intros j m Hj ->. apply wp_bind. eapply wp_rd. { apply el_at; auto; lia. }
        destruct (HD (nth j (nb i) 0)) as (w & W1 & W2). { apply (nb_lt i). apply nth_In. lia. }
        apply wp_bind. eapply wp_rd; [exact W1|]. apply wp_ok. rewrite sel_S, candp_lt, W2 by (auto; lia). auto.
      - intros m ->. apply wp_for with (I := fun j m => m = length (sel j (candp i)) + (if sp i <? j then 1 else 0)); try lia.
        + rewrite Nat.ltb_irrefl. lia.
        + intros j m Hj ->. apply wp_bind. eapply wp_rd. { apply el_at; auto; lia. }
          destruct (HD (nth j (nb i) 0)) as (w & W1 & W2). { apply (nb_lt i). apply nth_In. lia. }
          apply wp_bind. eapply wp_rd; [exact W1|]. apply wp_ok. rewrite sel_S, W2.
          destruct (Nat.eq_dec j (sp i)) as [->|N].
          * rewrite S2, candp_sp, Nat.leb_refl, Nat.ltb_irrefl by auto.
            replace (sp i <? S (sp i)) with true by (symmetry; apply Nat.ltb_lt; lia). lia.
          * rewrite candp_gt by (auto; lia).
            replace (sp i <? j) with true by (symmetry; apply Nat.ltb_lt; lia).
            replace (sp i <? S j) with true by (symmetry; apply Nat.ltb_lt; lia). lia.
        + intros m ->. replace (sp i <? len i) with true by (symmetry; apply Nat.ltb_lt; lia). unfold bound. lia. }
    apply wp_iff in G. destruct G as (m & -> & ->). auto.
  Qed.

  Lemma nth_error_mapseq {B} (f : nat -> B) n i : nth_error (map f (seq 0 n)) i = if i <? n then Some (f i) else None.
  Proof.
    destruct (Nat.ltb_spec i n) as [L|L].
    - rewrite nth_error_map. rewrite nth_error_nth' with (d := 0) by (rewrite seq_length; auto). rewrite seq_nth by auto. auto.
    - apply nth_error_None. rewrite map_length, seq_length. auto.
  Qed.

  Lemma nth_error_ext {B} (l l' : list B) : (forall i, nth_error l i = nth_error l' i) -> l = l'.
  Proof.
    revert l'. induction l as [|x l IH]; intros [|y l'] H; auto; try (specialize (H 0); discriminate).
    pose proof (H 0) as H0. injection H0 as ->. f_equal. apply IH. intros i. exact (H (S i)).
  Qed.

  Definition abinv (cur : nat) (r : list vertex * nat * nat) : Prop :=
    let '(vs, lim, loc) := r in
    vs = map (fun k => mkvert (if k <? cur then bound k else 1) k) (seq 0 nv)
    /\ (forall k, k < cur -> bound k <= lim) /\ (0 < cur -> loc < cur /\ bound loc = lim) /\ (cur = 0 -> lim = 0 /\ loc = 0)
    /\ (forall k, k < loc -> bound k < lim).

  Lemma all_bounds_spec : wp (all_bounds (map snd a) (map (mkvert 1) (seq 0 nv))) (abinv nv).
  Proof.
    unfold all_bounds. rewrite map_length, seq_length.
    apply wp_for with (I := abinv); auto; try lia.
    - unfold abinv. repeat split; auto; try lia.
    - intros cur [[vs lim] loc] Hc (-> & H1 & H2 & H3 & H4).
      apply wp_bind. eapply wp_rd.
      { rewrite nth_error_mapseq. replace (cur <? nv) with true by (symmetry; apply Nat.ltb_lt; lia). reflexivity. }
      rewrite Nat.ltb_irrefl. rewrite (vertex_bound_spec _ _ cur); auto; try lia.
      2:{ intros e He. rewrite nth_error_mapseq. replace (e <? nv) with true by (symmetry; apply Nat.ltb_lt; lia).
          eexists. split; [reflexivity|]. auto. }
      cbn [bind]. apply wp_bind. apply wp_wr. { rewrite map_length, seq_length. lia. }
      assert (E : upd (map (fun k => mkvert (if k <? cur then bound k else 1) k) (seq 0 nv)) cur (set_mcs (mkvert 1 cur) (bound cur))
                  = map (fun k => mkvert (if k <? S cur then bound k else 1) k) (seq 0 nv)).
      { apply nth_error_ext. intros i. rewrite nth_error_upd, !nth_error_mapseq, map_length, seq_length.
        destruct (Nat.eqb_spec cur i) as [<-|N].
        - replace (cur <? nv) with true by (symmetry; apply Nat.ltb_lt; lia). cbn [andb].
          replace (cur <? S cur) with true by (symmetry; apply Nat.ltb_lt; lia). auto.
        - cbn [andb]. destruct (i <? nv); auto. do 2 f_equal.
          destruct (Nat.ltb_spec i cur), (Nat.ltb_spec i (S cur)); auto; lia. }
      rewrite E. destruct (Nat.ltb_spec lim (bound cur)) as [L|L]; apply wp_ok; unfold abinv; split; auto; split; [|split; [|split]| |split; [|split]]; try lia.
      + intros k Hk. destruct (Nat.eq_dec k cur) as [->|]; auto. specialize (H1 k ltac:(lia)). lia.
      + intros k Hk. specialize (H1 k Hk). lia.
      + intros k Hk. destruct (Nat.eq_dec k cur) as [->|]; auto. apply H1. lia.
      + intros _. destruct (Nat.eq_dec cur 0) as [E0|N0].
        * destruct (H3 E0). unfold bound in L. lia.
        * destruct (H2 ltac:(lia)). split; [lia|auto].
      + auto.
  Qed.

  Lemma eb_lt_off k i : k < i -> i <= nv -> 2 <= len k -> eb i < off a i.
  Proof.
    intros Hk. induction i as [|i IH]; intros Hi HL; [lia|]. rewrite eb_S, off_S.
    pose proof (words_le (len i)). pose proof (eb_off i).
    destruct (Nat.eq_dec k i) as [->|].
    - pose proof (words_bounds (len i)). lia.
    - specialize (IH ltac:(lia) ltac:(lia) HL). lia.
  Qed.

  Lemma eb_eq i : (forall k, k < i -> len k = 1) -> eb i = off a i.
  Proof.
    induction i as [|i IH]; intros H; [rewrite off_0; auto|]. rewrite eb_S, off_S, IH, (H i) by (intros; auto; apply H; lia).
    reflexivity.
  Qed.

  Lemma bound1 k : k < nv -> len k = 1 -> bound k = 1.
  Proof.
    intros Hk H. unfold bound. rewrite H. destruct (sp_spec k Hk) as [S1 _].
    replace 1 with (S 0) at 1 by auto. rewrite sel_S. replace 0 with (sp k) at 2 by lia. rewrite candp_sp by auto. auto.
  Qed.

  (** Everything the constructor establishes. *)
  Record built (cap : nat) (g : graph) : Prop := {
    b_el : edge_list g = map snd a;
    b_vs : vertices g = map (fun k => mkvert (bound k) k) (seq 0 nv);
    b_nv : n_vert g = nv;
    b_start : search_start g = 1 + eb nv;
    b_cur : search_cur g = 1 + eb nv;
    b_max : CUR_MAX_SIZE g = 0;
    b_mem : memok (edge_bits g);
    b_rep : forall k, k < nv -> rep (edge_bits g) (eb k) (len k) (fun x => x =? sp k);
    b_zero : forall k, eb nv <= k -> nth k (edge_bits g) 0%N = 0%N;
    b_deg : forall k, k < nv -> len k <= max_degree g;
    b_degx : 0 < nv -> exists k, k < nv /\ len k = max_degree g;
    b_lim : forall k, k < nv -> bound k <= CLIQUE_LIMIT g;
    b_loc : 0 < nv -> CUR_MAX_LOC g < nv /\ bound (CUR_MAX_LOC g) = CLIQUE_LIMIT g;
    b_first : forall k, k < CUR_MAX_LOC g -> bound k < CLIQUE_LIMIT g;
    b_space : (exists k, k < nv /\ 2 <= len k) ->
              search_start g + 2 * (CLIQUE_LIMIT g + 1) * words (max_degree g) <= length (edge_bits g);
    b_live : 1 + eb nv + 2 * (CLIQUE_LIMIT g + 1) * words (max_degree g) <= cap -> bits_live g = true;
    b_live_fit : 1 + eb nv + 2 * (CLIQUE_LIMIT g + 1) * words (max_degree g) < length a -> bits_live g = true;
    b_live_inv : (exists k, k < nv /\ 2 <= len k) -> bits_live g = true ->
       1 + eb nv + 2 * (CLIQUE_LIMIT g + 1) * words (max_degree g) <= cap \/
       1 + eb nv + 2 * (CLIQUE_LIMIT g + 1) * words (max_degree g) < length a;
    b_edgeless : 0 < nv -> (forall k, k < nv -> len k = 1) ->
       length (edge_bits g) = eb nv /\ bits_live g = true /\ CLIQUE_LIMIT g = 1
  }.

  Lemma nth_pad (l : list N) size k : nth k (firstn size l ++ repeat 0%N (size - length l)) 0%N = if k <? size then nth k l 0%N else 0%N.
  Proof.
    destruct (Nat.lt_ge_cases k (Nat.min size (length l))) as [L|L].
    - replace (k <? size) with true by (symmetry; apply Nat.ltb_lt; lia).
      rewrite app_nth1 by (rewrite firstn_length; lia).
      rewrite <- (firstn_skipn size l) at 2. rewrite app_nth1 by (rewrite firstn_length; lia). auto.
    - rewrite app_nth2 by (rewrite firstn_length; lia). rewrite nth_repeat.
      destruct (Nat.ltb_spec k size); auto. symmetry. apply nth_overflow. lia.
  Qed.

  Lemma finish_spec cap vs b els ebs maxd lim loc :
    binv nv (vs, b, els, ebs, maxd) -> abinv nv (map (fun k => mkvert (bound k) k) (seq 0 nv), lim, loc) ->
    built cap (ensure_space cap (mkG (map snd a) b (map (fun k => mkvert (bound k) k) (seq 0 nv)) els ebs (1 + ebs) (1 + ebs) (length b) nv maxd lim 0 loc true)).
  Proof.
    intros (_ & -> & -> & Lb & Mb & HR & H0 & _ & HM & HX & _) (_ & H1 & H2 & _ & H2').
    unfold ensure_space. cbn [max_degree search_end search_start CLIQUE_LIMIT eb_size edge_bits edge_list vertices el_size search_cur n_vert CUR_MAX_SIZE CUR_MAX_LOC].
    cbv zeta. set (ms := 2 * (lim + 1) * words maxd). rewrite off_end in *.
    assert (Z0 : forall k, eb nv <= k -> nth k b 0%N = 0%N).
    { intros k Hk. destruct (Nat.lt_ge_cases k (length a)); [apply H0; lia|]. apply nth_overflow. lia. }
    pose proof (eb_off nv) as EO. rewrite off_end in EO.
    assert (W : eb nv < length a -> wrap (Z.of_nat (length b) - Z.of_nat (1 + eb nv)) = Z.of_nat (length a - (1 + eb nv))).
    { intros L. rewrite wrap_small; unfold p64; lia. }
    assert (W' : length a = eb nv -> wrap (Z.of_nat (length b) - Z.of_nat (1 + eb nv)) = (p64 - 1)%Z).
    { intros L. apply wrap_eq; unfold p64; [lia|]. exists (-1)%Z. lia. }
    assert (EX : (exists k, k < nv /\ 2 <= len k) -> eb nv < length a).
    { intros (k & K1 & K2). rewrite <- off_end. apply (eb_lt_off k); auto. }
    destruct (Z.ltb_spec (wrap (Z.of_nat (length b) - Z.of_nat (1 + eb nv))) (Z.of_nat (ms + 1))) as [LT|GE].
    - assert (SZ : length a <= eb nv + ms + 1).
      { destruct (Nat.lt_ge_cases (eb nv) (length a)) as [L|L]; [|lia]. rewrite W in LT by auto. lia. }
      assert (LB : length (firstn (eb nv + ms + 1) b ++ repeat 0%N (eb nv + ms + 1 - length b)) = eb nv + ms + 1).
      { rewrite app_length, firstn_length, repeat_length. lia. }
      assert (NB : forall k, nth k (firstn (eb nv + ms + 1) b ++ repeat 0%N (eb nv + ms + 1 - length b)) 0%N = nth k b 0%N).
      { intros k. rewrite nth_pad. destruct (Nat.ltb_spec k (eb nv + ms + 1)); auto. symmetry. apply nth_overflow. lia. }
      constructor; cbn [max_degree search_end search_start CLIQUE_LIMIT eb_size edge_bits edge_list vertices el_size search_cur n_vert CUR_MAX_SIZE CUR_MAX_LOC bits_live]; auto; try lia.
      + apply memok_of_nth. intros k. rewrite NB. apply memok_nth. auto.
      + intros k Hk. destruct (HR k Hk) as [R1 R2]. split; [rewrite LB; lia|]. intros x Hx. rewrite <- R2 by auto.
        unfold wbit. rewrite NB. auto.
      + intros k Hk. rewrite NB. auto.
      + fold ms. intros Hc. apply Nat.leb_le. lia.
      + fold ms. intros _ Hc. apply Nat.leb_le in Hc. lia.
      + intros Hn H1'. exfalso. rewrite W' in LT. 2:{ rewrite (eb_eq nv H1'). symmetry. apply off_end. }
        destruct (HX Hn) as (q & Q1 & Q2). rewrite H1' in Q2 by auto. subst maxd.
        destruct (H2 Hn) as [H2a H2b]. rewrite (bound1 loc) in H2b by auto. subst lim. unfold ms, p64 in LT. rewrite words_small in LT by lia. lia.
    - constructor; cbn [max_degree search_end search_start CLIQUE_LIMIT eb_size edge_bits edge_list vertices el_size search_cur n_vert CUR_MAX_SIZE CUR_MAX_LOC bits_live]; auto; try lia.
      + intros Hex. fold ms. rewrite W in GE by auto. lia.
      + intros Hex _. fold ms. rewrite W in GE by auto. lia.
      + intros Hn H1'. destruct (H2 Hn) as [H2a H2b]. rewrite (bound1 loc) in H2b by auto.
        rewrite (eb_eq nv H1'), off_end. auto.
  Qed.
End Build.

(** ** construct *)
Lemma sorted_lt_nodup a : sorted_lt a -> NoDup a.
Proof.
  induction 1 as [|x l S IH F]; constructor; auto. intros I. rewrite Forall_forall in F. specialize (F x I). unfold lexlt in F. lia.
Qed.

Lemma sorted_lt_ext l1 l2 : sorted_lt l1 -> sorted_lt l2 -> (forall x, In x l1 <-> In x l2) -> l1 = l2.
Proof.
  intros S1. revert l2. induction S1 as [|x l1 S1 IH F1]; intros [|y l2] S2 H; auto.
  - destruct (proj2 (H y) (or_introl eq_refl)).
  - destruct (proj1 (H x) (or_introl eq_refl)).
  - inversion S2 as [|? ? S2' F2]; subst. rewrite Forall_forall in F1, F2.
    assert (x = y).
    { destruct (proj1 (H x) (or_introl eq_refl)) as [E|E]; auto.
      destruct (proj2 (H y) (or_introl eq_refl)) as [E'|E']; auto.
      specialize (F1 y E'). specialize (F2 x E). unfold lexlt in *. lia. }
    subst y. f_equal. apply IH; auto. intros z. split; intros Iz.
    + destruct (proj1 (H z) (or_intror Iz)) as [<-|?]; auto. specialize (F1 x Iz). unfold lexlt in F1. lia.
    + destruct (proj2 (H z) (or_intror Iz)) as [<-|?]; auto. specialize (F2 x Iz). unfold lexlt in F2. lia.
Qed.

Lemma construct_spec n cap edges :
  (forall x, In x edges -> fst x <= n /\ snd x <= n) -> (forall i, i <= n -> In (i, i) edges) ->
  (Z.of_nat (length edges) < 2 ^ 63)%Z ->
  exists a, sorted_lt a /\ (forall x, In x a <-> In x edges) /\ wp (construct n cap edges) (built a (n + 1) cap).
Proof.
  intros HB HS HZ.
  pose proof (clean_edges_spec (n + 1) edges ltac:(lia)) as C. specialize (C (fun x Hx => ltac:(destruct (HB x Hx); lia))).
  apply wp_iff in C. destruct C as (a & C & Sa & Ma). exists a. split; auto. split; auto.
  unfold construct. rewrite C. cbn [bind]. cbv zeta.
  assert (LA : length a <= length edges). { apply NoDup_incl_length; [apply sorted_lt_nodup; auto|]. intros x Hx. apply Ma. auto. }
  assert (H1 : forall i, i < n + 1 -> In (i, i) a) by (intros i Hi; apply Ma, HS; lia).
  assert (H2 : forall x, In x a -> fst x < n + 1 /\ snd x < n + 1) by (intros x Hx; apply Ma, HB in Hx; lia).
  assert (H3 : (Z.of_nat (length a) < 2 ^ 63)%Z) by lia.
  apply wp_bind. eapply wp_mono. { apply (build_vertices_spec a (n + 1) Sa H1 H2 H3). }
  intros [[[[vs b] els] ebs] maxd] HBI. pose proof HBI as (-> & _).
  apply wp_bind. eapply wp_mono. { apply (all_bounds_spec a (n + 1) Sa H1 H2). }
  intros [[vs lim] loc] HAB. pose proof HAB as (-> & _). apply wp_ok.
  assert (E : map (fun k => mkvert a (if k <? n + 1 then bound a k else 1) k) (seq 0 (n + 1)) = map (fun k => mkvert a (bound a k) k) (seq 0 (n + 1))).
  { apply map_ext_in. intros k Hk. apply in_seq in Hk. replace (k <? n + 1) with true by (symmetry; apply Nat.ltb_lt; lia). auto. }
  rewrite E in *. apply (finish_spec a (n + 1) Sa H1 H2 H3 cap _ b els ebs maxd lim loc HBI HAB).
Qed.
