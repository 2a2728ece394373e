(** SearchBase: what all searches share: adjacency on the positions of the root's neighbour list, the state of a
    graph during the search of one root, and the arena operations. *)
From Verif Require Import Base MBits MUtils MGraph SpecBits BaseFacts BitsFacts SetFacts FindFacts SortFacts RowFacts ConstructFacts CardFacts.
From Coq Require Import Sorting.Sorted.
Local Open Scope nat_scope.
Local Arguments Nat.sub : simpl never.
Local Arguments Nat.mul : simpl never.

(** A well-formed cleaned pair list. *)
Record gctx (a : pairs) (nv : nat) : Prop := {
  gc_sorted : sorted_lt a;
  gc_self : forall i, i < nv -> In (i, i) a;
  gc_b : forall x, In x a -> fst x < nv /\ snd x < nv;
  gc_z : (Z.of_nat (length a) < 2 ^ 63)%Z;
  gc_sym : forall u v, In (u, v) a -> In (v, u) a
}.

Notation rlen a i := (length (row a i)).
Notation nbr a i j := (nth j (row a i) 0).

(** Adjacency of two positions of [cur]'s neighbour list. *)
Definition padj (a : pairs) (cur p q : nat) : bool := inb (nbr a cur q) (row a (nbr a cur p)).

(** Sets of positions that are cliques rooted at cur. *)
Definition pclique (a : pairs) (cur : nat) (K : nat -> bool) : Prop :=
  forall p q, p < rlen a cur -> q < rlen a cur -> K p = true -> K q = true -> p <> q -> padj a cur p q = true.
Definition rooted_by (cp : nat -> bool) (a : pairs) (cur : nat) (K : nat -> bool) : Prop :=
  K (sp a cur) = true /\ forall p, p < rlen a cur -> K p = true -> p = sp a cur \/ cp p = true.
Definition rooted (a : pairs) (cur : nat) : (nat -> bool) -> Prop := rooted_by (candp a cur) a cur.

(** The fields a search never changes. *)
Definition core (g : graph) :=
  (edge_list g, el_size g, eb_size g, search_start g, search_end g, n_vert g, max_degree g, CLIQUE_LIMIT g, bits_live g).

Definition verts (a : pairs) (nv : nat) (mcs : nat -> nat) : list vertex := map (fun k => mkvert a (mcs k) k) (seq 0 nv).

Record shape (a : pairs) (nv : nat) (g : graph) (mcs : nat -> nat) : Prop := {
  sh_el : edge_list g = map snd a;
  sh_vs : vertices g = verts a nv mcs;
  sh_nv : n_vert g = nv;
  sh_live : bits_live g = true;
  sh_mem : memok (edge_bits g)
}.

Definition zero_from (m : list N) (c : nat) : Prop := forall k, c <= k -> nth k m 0%N = 0%N.

Lemma rd_vert a nv mcs i : i < nv -> rd (verts a nv mcs) i = Ok (mkvert a (mcs i) i).
Proof.
  intros H. apply rd_some. unfold verts. rewrite nth_error_map, (nth_error_nth' _ 0) by (rewrite seq_length; auto).
  rewrite seq_nth by auto. reflexivity.
Qed.

Lemma wr_vert a nv mcs i m : i < nv ->
  wr (verts a nv mcs) i (set_mcs (mkvert a (mcs i) i) m) = Ok (verts a nv (fun k => if k =? i then m else mcs k)).
Proof.
  intros H. rewrite wr_ok by (unfold verts; rewrite map_length, seq_length; auto). f_equal.
  apply list_ext. intros k. rewrite nth_error_upd. unfold verts. rewrite map_length, seq_length.
  assert (E : forall f : nat -> vertex, nth_error (map f (seq 0 nv)) k = if k <? nv then Some (f k) else None).
  { intros f. destruct (Nat.ltb_spec k nv).
    - rewrite nth_error_map, (nth_error_nth' _ 0) by (rewrite seq_length; auto). rewrite seq_nth by auto. reflexivity.
    - apply nth_error_None. rewrite map_length, seq_length. auto. }
  rewrite !E. destruct (Nat.eqb_spec i k) as [->|].
  - cbn [andb]. destruct (k <? nv); auto. rewrite Nat.eqb_refl. reflexivity.
  - cbn [andb]. destruct (k <? nv); auto. destruct (Nat.eqb_spec k i); [congruence|auto].
Qed.

Section Ctx.
  Variables (a : pairs) (nv : nat).
  Hypothesis HC : gctx a nv.
  Let HS := gc_sorted _ _ HC.
  Let Hself := gc_self _ _ HC.
  Let Hb := gc_b _ _ HC.

  Lemma nbr_lt i j : j < rlen a i -> nbr a i j < nv.
  Proof. intros H. apply (nb_lt a nv Hb i). apply nth_In. auto. Qed.

  Lemma rd_el i j : j < rlen a i -> rd (map snd a) (off a i + j) = Ok (nbr a i j).
  Proof.
    intros H. destruct (at_row a i j HS H) as [L E]. apply rd_some. rewrite (nth_error_nth' _ 0) by (rewrite map_length; auto).
    f_equal. transitivity (snd (at_ a (off a i + j))); [apply nth_snd|rewrite E; reflexivity].
  Qed.

  Lemma ent_row i j : j < rlen a i -> ent (map snd a) (off a i) j = nbr a i j.
  Proof.
    intros H. pose proof (rd_el i j H) as E. apply rd_ok in E. apply nth_error_nth with (d := 0) in E. exact E.
  Qed.

  Lemma row_end i : i < nv -> off a i + rlen a i <= length (map snd a).
  Proof. intros H. rewrite map_length, <- off_S. apply off_le. Qed.

  Lemma nb_find e val s : e < nv -> s <= rlen a e -> (forall i, i < s -> nbr a e i < val) ->
    wp (binary_find (map snd a) (wrap (Z.of_nat (off a e) + Z.of_nat s)) (wrap (Z.of_nat (rlen a e) - Z.of_nat s)) val)
       (fun r => fst r = inb val (row a e) /\ exists s', wrap (Z.of_nat s + snd r) = Z.of_nat s' /\ s' <= rlen a e
                 /\ forall i, i < s' -> nbr a e i < val).
  Proof.
    intros He Hs Hi. pose proof (len_pos a nv HS Hself e He) as HP.
    eapply wp_mono.
    - apply bf_resume; auto.
      + apply row_end; auto.
      + rewrite map_length. exact (gc_z _ _ HC).
      + intros i j Hij. rewrite !ent_row by lia. apply sorted_nth; [apply row_sorted, HS|lia].
      + intros i Hlt. rewrite ent_row by lia. auto.
    - intros r (s' & E1 & E2 & E3 & E4 & E5). split.
      + destruct (fst r) eqn:F; symmetry.
        * apply inb_in. destruct (E4 eq_refl) as (i & Hi' & <-). rewrite ent_row by auto. apply nth_In. auto.
        * apply inb_not. intros I. apply In_nth with (d := 0) in I. destruct I as (i & Hi' & E). apply (E5 eq_refl i Hi').
          rewrite ent_row by auto. auto.
      + exists s'. split; auto. split; [lia|]. intros i Hlt. rewrite <- ent_row by lia. auto.
  Qed.

  Lemma nbr_mono i j k : j < k < rlen a i -> nbr a i j < nbr a i k.
  Proof. intros H. apply sorted_nth; [apply row_sorted, HS|auto]. Qed.

  Lemma nbr_inj i j k : j < rlen a i -> k < rlen a i -> nbr a i j = nbr a i k -> j = k.
  Proof. intros H1 H2. apply sorted_nth_inj; auto. apply row_sorted, HS. Qed.

  Lemma padj_iff cur p q : p < rlen a cur -> q < rlen a cur ->
    (padj a cur p q = true <-> In (nbr a cur p, nbr a cur q) a).
  Proof. intros Hp Hq. unfold padj. rewrite inb_in. apply row_in. Qed.

  Lemma padj_sym cur p q : p < rlen a cur -> q < rlen a cur -> padj a cur p q = padj a cur q p.
  Proof.
    intros Hp Hq. destruct (padj a cur p q) eqn:E1, (padj a cur q p) eqn:E2; auto.
    - apply padj_iff in E1; auto. apply (gc_sym _ _ HC) in E1. apply padj_iff in E1; auto. congruence.
    - apply padj_iff in E2; auto. apply (gc_sym _ _ HC) in E2. apply padj_iff in E2; auto. congruence.
  Qed.

  Lemma padj_root cur p : cur < nv -> p < rlen a cur -> padj a cur (sp a cur) p = true.
  Proof.
    intros Hc Hp. destruct (sp_spec a nv HS Hself cur Hc) as [S1 S2]. apply padj_iff; auto. rewrite S2.
    apply row_in. apply nth_In. auto.
  Qed.

  Lemma nbr_below_sp e i val : e < nv -> i < sp a e -> e <= val -> nbr a e i < val.
  Proof.
    intros He Hi Hv. destruct (sp_spec a nv HS Hself e He) as [S1 S2].
    pose proof (nbr_mono e i (sp a e) ltac:(lia)). lia.
  Qed.

  Lemma nbr_upto_sp e i val : e < nv -> i < sp a e + 1 -> e < val -> nbr a e i < val.
  Proof.
    intros He Hi Hv. destruct (sp_spec a nv HS Hself e He) as [S1 S2].
    destruct (Nat.eq_dec i (sp a e)) as [->|]; [lia|]. pose proof (nbr_mono e i (sp a e) ltac:(lia)). lia.
  Qed.

  Lemma rooted_card i K : i < nv -> rooted a i K -> card (rlen a i) K <= bound a i.
  Proof.
    intros Hi [R1 R2]. change (bound a i) with (S (card (rlen a i) (candp a i))).
    rewrite <- (card_add (rlen a i) (candp a i) (sp a i)); [|apply (sp_spec a nv HS Hself i Hi)|apply (candp_sp a nv HS Hself i Hi)].
    apply card_le. intros x Hx Kx. destruct (R2 x Hx Kx) as [->|E]; [rewrite Nat.eqb_refl; auto|rewrite E, orb_true_r; auto].
  Qed.

  Lemma bound_card i : bound a i = S (card (rlen a i) (candp a i)).
  Proof. reflexivity. Qed.

  (** ** Arena operations *)
  Lemma load_memory_ok g k : search_cur g < length (edge_bits g) ->
    load_memory g k = Ok (set_cur g (search_cur g + k), search_cur g).
  Proof. intros H. unfold load_memory. destruct (Nat.ltb_spec (search_cur g) (length (edge_bits g))); [auto|lia]. Qed.

  Lemma clear_memory_spec g k : memok (edge_bits g) -> k <= search_cur g <= length (edge_bits g) ->
    wp (clear_memory g k) (fun g' => exists m, g' = set_cur (set_mem g m) (search_cur g - k) /\ memok m
        /\ same_out (edge_bits g) m (search_cur g - k) k
        /\ forall i, search_cur g - k <= i < search_cur g -> nth i m 0%N = 0%N).
  Proof.
    intros HM Hk. unfold clear_memory. destruct (Nat.ltb_spec (search_cur g) k); [lia|]. cbv zeta.
    apply wp_bind. eapply wp_mono; [apply wp_zero_words; [auto|lia]|].
    intros m (M1 & M2 & M3). apply wp_ok. exists m. split; auto. split; auto. split; auto.
    intros i Hi. apply M3. lia.
  Qed.

  (** ** Marking the root's candidates *)
  Lemma root_cands_spec g mcs cur mv cp : shape a nv g mcs -> cur < nv ->
    rep (edge_bits g) cp (rlen a cur) (fun _ => false) ->
    wp (root_cands g (mkvert a mv cur) (refer_from cp (rlen a cur)))
       (fun r => memok (fst r) /\ rep (fst r) cp (rlen a cur) (candp a cur)
                 /\ same_out (edge_bits g) (fst r) cp (words (rlen a cur)) /\ snd r = bound a cur).
  Proof.
    intros SH Hc HR. destruct (sp_spec a nv HS Hself cur Hc) as [S1 S2].
    set (N := rlen a cur) in *.
    assert (ST : forall (strict : bool) i s, i < N ->
      (strict = true -> i < sp a cur) -> (strict = false -> sp a cur < i) ->
      (memok (fst s) /\ rep (fst s) cp N (fun x => (x <? i) && candp a cur x) /\ same_out (edge_bits g) (fst s) cp (words N)
       /\ snd s = S (card i (candp a cur))) ->
      wp (let '(m, pot) := s in
          e <- rd (edge_list g) (velo (mkvert a mv cur) + i);; w <- rd (vertices g) e;;
          (if (if strict then vN w <=? vN (mkvert a mv cur) else vN w <? vN (mkvert a mv cur)) then Ok (m, pot)
           else m <- bits_set m (refer_from cp N) i;; Ok (m, S pot)))
         (fun s => memok (fst s) /\ rep (fst s) cp N (fun x => (x <? S i) && candp a cur x) /\ same_out (edge_bits g) (fst s) cp (words N)
           /\ snd s = S (card (S i) (candp a cur)))).
    { intros strict i [m pot] Hi H1 H2 (I1 & I2 & I3 & I4). cbn [fst snd] in *.
      cbn [mkvert velo vN]. rewrite (sh_el _ _ _ _ SH), rd_el by auto. cbn [bind].
      rewrite (sh_vs _ _ _ _ SH), rd_vert by (apply nbr_lt; auto). cbn [bind mkvert vN].
      assert (C : (if strict then rlen a (nbr a cur i) <=? rlen a cur else rlen a (nbr a cur i) <? rlen a cur) = negb (candp a cur i)).
      { destruct strict.
        - rewrite (candp_lt a nv HS Hself cur i Hc) by (auto; lia). apply Nat.leb_antisym.
        - rewrite (candp_gt a nv HS Hself cur i Hc) by (split; auto; lia). apply Nat.ltb_antisym. }
      rewrite C. destruct (candp a cur i) eqn:EC; cbn [negb].
      - apply wp_bind. eapply wp_mono; [apply (bits_set_spec m cp N _ _ i I1 I2); auto|].
        intros m' (M1 & M2 & M3). apply wp_ok. cbn [fst snd]. split; auto. split; [|split].
        + eapply rep_ext; [exact M2|]. intros x Hx. cbv beta.
          destruct (Nat.eqb_spec x i) as [->|].
          * destruct (Nat.ltb_spec i (S i)); [rewrite EC; auto|lia].
          * destruct (Nat.ltb_spec x i), (Nat.ltb_spec x (S i)); auto; lia.
        + eapply same_out_trans; eauto.
        + rewrite card_S, EC, I4. lia.
      - apply wp_ok. cbn [fst snd]. split; auto. split; [|split]; auto.
        + eapply rep_ext; [exact I2|]. intros x Hx. cbv beta.
          destruct (Nat.ltb_spec x i), (Nat.ltb_spec x (S i)); auto; [lia|]. replace x with i by lia. rewrite EC. auto.
        + rewrite card_S, EC, I4. lia. }
    unfold root_cands. apply wp_bind. cbn [mkvert vspos]. 
    eapply (wp_for 0 (sp a cur) _ (fun i s => memok (fst s) /\ rep (fst s) cp N (fun x => (x <? i) && candp a cur x)
             /\ same_out (edge_bits g) (fst s) cp (words N) /\ snd s = S (card i (candp a cur)))); [lia| | |].
    - cbn [fst snd]. split; [apply (sh_mem _ _ _ _ SH)|]. split; [|split; [apply same_out_refl|reflexivity]].
      eapply rep_ext; [exact HR|]. intros x Hx. destruct (Nat.ltb_spec x 0); [lia|auto].
    - intros i s Hi I. apply (ST true i s); auto; try lia; try discriminate.
    - intros s (I1 & I2 & I3 & I4).
      eapply (wp_for (sp a cur + 1) N _ (fun i s => memok (fst s) /\ rep (fst s) cp N (fun x => (x <? i) && candp a cur x)
             /\ same_out (edge_bits g) (fst s) cp (words N) /\ snd s = S (card i (candp a cur)))); [lia| | |].
      + split; auto. split; [|split; auto].
        * eapply rep_ext; [exact I2|]. intros x Hx. cbv beta.
          destruct (Nat.ltb_spec x (sp a cur)), (Nat.ltb_spec x (sp a cur + 1)); auto; [lia|].
          replace x with (sp a cur) by lia. rewrite (candp_sp a nv HS Hself cur Hc). auto.
        * rewrite Nat.add_1_r, card_S, (candp_sp a nv HS Hself cur Hc), I4. lia.
      + intros i s' Hi I. apply (ST false i s'); auto; try lia; try discriminate.
      + intros s' (J1 & J2 & J3 & J4). split; auto. split; [|split; auto].
        eapply rep_ext; [exact J2|]. intros x Hx. cbv beta. destruct (Nat.ltb_spec x N); [auto|lia].
  Qed.

  (** ** The state of the graph while the root cur is searched *)
  Definition in_block (cur k : nat) : Prop := eb a cur <= k < eb a cur + words (rlen a cur).

  Record prog (g0 g : graph) (mcs0 : nat -> nat) (cur : nat) : Prop := {
    pr_core : core g = core g0;
    pr_len : length (edge_bits g) = length (edge_bits g0);
    pr_mem : memok (edge_bits g);
    pr_same : forall k, k < search_cur g0 -> ~ in_block cur k -> nth k (edge_bits g) 0%N = nth k (edge_bits g0) 0%N;
    pr_best :
      (CUR_MAX_SIZE g = CUR_MAX_SIZE g0 /\ CUR_MAX_LOC g = CUR_MAX_LOC g0 /\ vertices g = verts a nv mcs0
       /\ forall k, in_block cur k -> nth k (edge_bits g) 0%N = nth k (edge_bits g0) 0%N)
      \/ (CUR_MAX_SIZE g0 < CUR_MAX_SIZE g /\ CUR_MAX_LOC g = cur
          /\ (exists mm, vertices g = verts a nv (fun k => if k =? cur then mm else mcs0 k) /\ (mm = CUR_MAX_SIZE g \/ mm = mcs0 cur))
          /\ exists K, rep (edge_bits g) (eb a cur) (rlen a cur) K /\ rooted a cur K /\ pclique a cur K
                       /\ card (rlen a cur) K = CUR_MAX_SIZE g)
  }.

  Lemma block_end cur : cur < nv -> eb a cur + words (rlen a cur) <= eb a nv.
  Proof. intros H. rewrite <- eb_S. apply eb_mono. lia. Qed.

  Lemma prog_refl g0 mcs0 cur : shape a nv g0 mcs0 -> prog g0 g0 mcs0 cur.
  Proof. intros SH. split; auto; [apply (sh_mem _ _ _ _ SH)|]. left. repeat split; auto. apply (sh_vs _ _ _ _ SH). Qed.

  Lemma prog_shape g0 g mcs0 cur : shape a nv g0 mcs0 -> prog g0 g mcs0 cur -> exists mcs, shape a nv g mcs.
  Proof.
    intros SH P. pose proof (pr_core _ _ _ _ P) as C. unfold core in C. inversion C.
    destruct (pr_best _ _ _ _ P) as [(_ & _ & V & _)|(_ & _ & (mm & V & _) & _)]; eexists; split;
      try exact V; try (rewrite ?H0, ?H5, ?H8; apply SH); apply (pr_mem _ _ _ _ P).
  Qed.

  (** Changes of the arena only. *)
  Lemma prog_arena g0 g mcs0 cur m c : cur < nv -> eb a nv <= search_cur g0 -> prog g0 g mcs0 cur ->
    memok m -> length m = length (edge_bits g) ->
    (forall k, k < search_cur g0 -> nth k m 0%N = nth k (edge_bits g) 0%N) ->
    prog g0 (set_cur (set_mem g m) c) mcs0 cur.
  Proof.
    intros Hc He P M1 M2 M3. pose proof (block_end cur Hc) as BE. destruct P as [P1 P2 P3 P4 P5].
    split; cbn [set_cur set_mem edge_bits]; auto.
    - rewrite M2. auto.
    - intros k Hk NB. rewrite M3 by auto. auto.
    - destruct P5 as [(B1 & B2 & B3 & B4)|(B1 & B2 & B3 & K & R & B5)].
      + left. repeat split; auto. intros k Hk. cbn [edge_bits]. rewrite M3 by (unfold in_block in Hk; lia). auto.
      + right. repeat split; auto. exists K. split; auto. destruct R as [R1 R2]. split; [cbn [edge_bits]; lia|].
        intros i Hi. cbn [edge_bits]. rewrite <- R2 by auto. unfold wbit. rewrite M3; auto.
        apply words_lt64 in Hi. lia.
  Qed.

  Lemma record_spec g0 g mcs0 mcs cur rp R size : cur < nv -> eb a nv <= search_cur g0 -> shape a nv g mcs ->
    prog g0 g mcs0 cur -> search_cur g0 <= rp ->
    rep (edge_bits g) rp (rlen a cur) R -> rooted a cur R -> pclique a cur R -> card (rlen a cur) R = size ->
    CUR_MAX_SIZE g < size ->
    wp (record_max g cur (refer_from rp (rlen a cur)) size)
       (fun g' => prog g0 g' mcs0 cur /\ CUR_MAX_SIZE g' = size /\ search_cur g' = search_cur g
          /\ same_out (edge_bits g) (edge_bits g') (eb a cur) (words (rlen a cur))
          /\ rep (edge_bits g') (eb a cur) (rlen a cur) R).
  Proof.
    intros Hc He SH P Hrp HR R1 R2 R3 HB. pose proof (block_end cur Hc) as BE.
    unfold record_max. rewrite (sh_vs _ _ _ _ SH), rd_vert by auto. cbn [bind]. unfold live. rewrite (sh_live _ _ _ _ SH). cbn [bind].
    cbn [mkvert vbits].
    pose proof HR as [HRl _].
    apply wp_bind. eapply wp_mono; [apply (bits_copy_data_spec (edge_bits g) (eb a cur) rp (rlen a cur) R); auto; try (apply (sh_mem _ _ _ _ SH)); lia|].
    intros m (M1 & M2 & M3). change (mkV (rlen a cur) (sp a cur) (off a cur) (eb a cur) (mcs cur) (refer_from (eb a cur) (rlen a cur))) with (mkvert a (mcs cur) cur).
    rewrite wr_vert by auto. cbn [bind]. apply wp_ok. cbn [set_best set_vertices set_mem CUR_MAX_SIZE search_cur edge_bits].
    split; [|auto].
    destruct P as [P1 P2 P3 P4 P5]. split; unfold core; cbn [set_best set_vertices set_mem edge_bits edge_list el_size eb_size search_start search_end n_vert max_degree CLIQUE_LIMIT bits_live CUR_MAX_SIZE CUR_MAX_LOC vertices]; auto.
    - destruct M3 as [M3 _]. rewrite M3. auto.
    - intros k Hk NB. destruct M3 as [_ M3]. rewrite M3 by exact NB. auto.
    - right. split; [destruct P5 as [(B1 & _)|(B1 & _)]; lia|]. split; auto. split.
      + exists size. split; [|auto].
        destruct P5 as [(B1 & B2 & B3 & B4)|(B1 & B2 & (mm & B3 & _) & _)].
        * assert (E : verts a nv mcs = verts a nv mcs0) by (rewrite <- (sh_vs _ _ _ _ SH); auto).
          unfold verts in *. apply map_ext_in. intros k Ik. destruct (k =? cur); auto.
          assert (nth k (map (fun k => mkvert a (mcs k) k) (seq 0 nv)) (mkvert a (mcs 0) 0) = nth k (map (fun k => mkvert a (mcs0 k) k) (seq 0 nv)) (mkvert a (mcs 0) 0)) as E2 by (rewrite E; auto).
          apply in_seq in Ik. rewrite (map_nth (fun k => mkvert a (mcs k) k)), seq_nth in E2 by lia.
          rewrite (nth_indep _ _ (mkvert a (mcs0 0) 0)) in E2 by (rewrite map_length, seq_length; lia).
          rewrite (map_nth (fun k => mkvert a (mcs0 k) k)), seq_nth in E2 by lia. cbn [Nat.add] in E2. unfold mkvert in *. congruence.
        * assert (E : verts a nv mcs = verts a nv (fun k => if k =? cur then mm else mcs0 k)) by (rewrite <- (sh_vs _ _ _ _ SH); auto).
          unfold verts in *. apply map_ext_in. intros k Ik. destruct (Nat.eqb_spec k cur) as [|NE]; auto.
          set (f2 := fun k => if k =? cur then mm else mcs0 k) in *.
          assert (nth k (map (fun k => mkvert a (mcs k) k) (seq 0 nv)) (mkvert a (mcs 0) 0) = nth k (map (fun k => mkvert a (f2 k) k) (seq 0 nv)) (mkvert a (mcs 0) 0)) as E2 by (rewrite E; auto).
          apply in_seq in Ik. rewrite (map_nth (fun k => mkvert a (mcs k) k)), seq_nth in E2 by lia.
          rewrite (nth_indep _ _ (mkvert a (f2 0) 0)) in E2 by (rewrite map_length, seq_length; lia).
          rewrite (map_nth (fun k => mkvert a (f2 k) k)), seq_nth in E2 by lia. cbn [Nat.add] in E2. unfold mkvert in *.
          assert (mcs k = f2 k) as E3 by congruence. rewrite E3. unfold f2. destruct (Nat.eqb_spec k cur); [congruence|auto].
      + exists R. auto.
  Qed.
End Ctx.
