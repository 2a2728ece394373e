(** CliqueFacts: cliques of the graph as sets of positions in the neighbour list of their root, and back. *)
From Verif Require Import Base MBits MUtils MGraph MApi Spec SpecBits BaseFacts BitsFacts SetFacts SortFacts RowFacts ConstructFacts CardFacts LoadFacts SearchBase StackFacts SearchFacts.
From Coq Require Import Sorting.Sorted Sorting.Permutation.
Local Open Scope nat_scope.
Local Arguments Nat.sub : simpl never.
Local Arguments Nat.mul : simpl never.

Section Gra.
  Variables (a : pairs) (n : nat) (adj : nat -> nat -> Prop).
  Hypothesis GR : gra a n adj.
  Notation nv := (n + 1).

  Lemma gra_ctx : gctx a nv.
  Proof.
    split.
    - apply (gr_sorted _ _ _ GR).
    - apply (gra_self _ _ _ GR).
    - apply (gra_b _ _ _ GR).
    - exact (gr_fits _ _ _ GR).
    - intros u v I. apply (gr_in _ _ _ GR) in I. apply (gr_in _ _ _ GR). destruct I as (H1 & H2 & [->|A]); auto.
      split; auto. split; auto. right. apply (gr_simple _ _ _ GR). auto.
  Qed.
  Let HC := gra_ctx.
  Let HS := gc_sorted _ _ HC.
  Let Hself := gc_self _ _ HC.

  Lemma gra_row0 : row a 0 = [0].
  Proof.
    apply sorted_ext; [apply row_sorted, HS|repeat constructor|].
    intros x. rewrite row_in, (gr_in _ _ _ GR). simpl. split.
    - intros (_ & _ & [E|A]); auto. apply (gr_simple _ _ _ GR) in A. lia.
    - intros [<-|[]]. repeat split; auto; lia.
  Qed.

  Lemma gra_len0 : rlen a 0 = 1.
  Proof. rewrite gra_row0. reflexivity. Qed.

  (** Every set of vertices has a first element in the search order. *)
  Lemma before_total i e : i <> e -> before a i e = true \/ before a e i = true.
  Proof.
    intros NE. unfold before. destruct (Nat.lt_trichotomy (rlen a i) (rlen a e)) as [L|[L|L]].
    - left. apply Nat.ltb_lt in L. rewrite L. auto.
    - rewrite L, Nat.ltb_irrefl, Nat.eqb_refl. cbn [orb andb]. rewrite !Nat.ltb_lt. lia.
    - right. apply Nat.ltb_lt in L. rewrite L. auto.
  Qed.

  Lemma before_trans i j k : before a i j = true -> before a j k = true -> before a i k = true.
  Proof.
    unfold before. intros H1 H2. apply orb_true_iff in H1, H2. apply orb_true_iff.
    rewrite !andb_true_iff, !Nat.ltb_lt, !Nat.eqb_eq in *. lia.
  Qed.

  Lemma before_asym i j : before a i j = true -> before a j i = true -> False.
  Proof. intros H1 H2. pose proof (before_trans _ _ _ H1 H2) as H. rewrite before_irrefl in H. discriminate. Qed.

  Lemma first_root (c : list nat) : c <> [] -> exists v, In v c /\ forall u, In u c -> u = v \/ before a v u = true.
  Proof.
    induction c as [|x c IH]; intros H; [congruence|]. destruct c as [|y c].
    - exists x. split; [left; auto|]. intros u [<-|[]]; auto.
    - destruct IH as (v & I & M); [discriminate|]. destruct (Nat.eq_dec x v) as [->|NE].
      + exists v. split; [left; auto|]. intros u [<-|I']; auto.
      + destruct (before_total x v NE) as [B|B].
        * exists x. split; [left; auto|]. intros u [<-|I']; auto. right. destruct (M u I') as [->|B']; auto. eapply before_trans; eauto.
        * exists v. split; [right; auto|]. intros u [<-|I']; auto.
  Qed.

  Lemma filter_seq_nth (f : nat -> bool) (l : list nat) :
    length (filter (fun p => f (nth p l 0)) (seq 0 (length l))) = length (filter f l).
  Proof.
    induction l as [|x l IH] using rev_ind; auto. rewrite app_length, Nat.add_1_r, seq_S, !filter_app, !app_length. cbn [Nat.add filter length].
    rewrite app_nth2, Nat.sub_diag by lia. cbn [nth].
    rewrite (filter_ext_in _ (fun p => f (nth p l 0))); [rewrite IH; destruct (f x); reflexivity|].
    intros p Hp. apply in_seq in Hp. rewrite app_nth1 by lia. auto.
  Qed.

  (** A non-empty clique as a rooted set of positions. *)
  Lemma clique_rooted c : clique n adj c -> c <> [] -> exists v K, 1 <= v < nv /\ In v c /\ rooted a v K /\ pclique a v K
    /\ card (rlen a v) K = length c /\ c = map (fun p => nbr a v p) (members (rlen a v) K).
  Proof.
    intros (C1 & C2 & C3) NE. destruct (first_root c NE) as (v & I & M). pose proof (C2 v I) as Hv.
    destruct (sp_spec a nv HS Hself v ltac:(lia)) as [S1 S2].
    set (K := fun p => inb (nbr a v p) c).
    assert (RI : forall u, In u c -> In u (row a v)).
    { intros u Iu. rewrite row_in. apply (gr_in _ _ _ GR). pose proof (C2 u Iu). split; [lia|]. split; [lia|].
      destruct (Nat.eq_dec v u); auto. }
    assert (FE : filter (fun x => inb x c) (row a v) = c).
    { apply sorted_ext; auto; [apply filter_sorted, row_sorted, HS|]. intros x. rewrite filter_In, inb_in. split; [tauto|auto]. }
    assert (ME : map (fun p => nbr a v p) (members (rlen a v) K) = c).
    { rewrite <- FE. unfold members, K. clear. generalize (row a v). intros l.
      induction l as [|x l IH] using rev_ind; auto. rewrite app_length, Nat.add_1_r, seq_S, !filter_app, map_app. cbn [Nat.add filter].
      rewrite app_nth2, Nat.sub_diag by lia. cbn [nth]. f_equal.
      - rewrite <- IH. rewrite (filter_ext_in _ (fun p => inb (nth p l 0) c)).
        + apply map_ext_in. intros p Hp. apply filter_In in Hp. destruct Hp as [Hp _]. apply in_seq in Hp. rewrite app_nth1 by lia. auto.
        + intros p Hp. apply in_seq in Hp. rewrite app_nth1 by lia. auto.
      - destruct (inb x c); auto. cbn [map]. rewrite app_nth2, Nat.sub_diag by lia. auto. }
    exists v, K. split; [lia|]. split; auto. split; [|split; [|split; auto]].
    - split; [unfold K; rewrite S2; apply inb_in; auto|]. intros p Hp E. unfold K in E. apply inb_in in E.
      destruct (M _ E) as [E'|B]; [left|right; exact B].
      apply (nbr_inj a nv HC v); auto. congruence.
    - intros p q Hp Hq E1 E2 NE'. unfold K in E1, E2. apply inb_in in E1, E2. apply (padj_iff a); auto.
      apply (gr_in _ _ _ GR). pose proof (C2 _ E1). pose proof (C2 _ E2). split; [lia|]. split; [lia|]. right. apply C3; auto.
      intros E. apply NE'. apply (nbr_inj a nv HC v); auto.
    - rewrite <- ME, map_length. reflexivity.
  Qed.

  Lemma sorted_map (f : nat -> nat) (l : list nat) : StronglySorted lt l ->
    (forall x y, In x l -> In y l -> x < y -> f x < f y) -> StronglySorted lt (map f l).
  Proof.
    induction 1 as [|x l S IH F]; intros H; simpl; constructor.
    - apply IH. intros. apply H; simpl; auto.
    - rewrite Forall_forall in *. intros y I. apply in_map_iff in I. destruct I as (z & <- & I). apply H; simpl; auto.
  Qed.

  (** And back. *)
  Lemma rooted_clique v K : 1 <= v < nv -> rooted a v K -> pclique a v K ->
    clique n adj (map (fun p => nbr a v p) (members (rlen a v) K)).
  Proof.
    intros Hv R P. split; [|split].
    - apply sorted_map; [apply sel_sorted|]. intros x y Ix Iy L. apply filter_In in Iy. destruct Iy as [Iy _]. apply in_seq in Iy.
      apply (nbr_mono a nv HC). lia.
    - intros x I. apply in_map_iff in I. destruct I as (p & <- & I). apply filter_In in I. destruct I as [I _]. apply in_seq in I.
      assert (J : In (v, nbr a v p) a) by (apply row_in, nth_In; lia).
      apply (gr_in _ _ _ GR) in J. destruct J as (_ & J1 & [J2|J2]); [lia|].
      apply (gr_simple _ _ _ GR) in J2. destruct J2 as [J2 _]. apply (gr_simple _ _ _ GR) in J2. lia.
    - intros x y Ix Iy NE. apply in_map_iff in Ix, Iy. destruct Ix as (p & <- & Ip), Iy as (q & <- & Iq).
      apply filter_In in Ip, Iq. destruct Ip as [Ip Kp], Iq as [Iq Kq]. apply in_seq in Ip, Iq.
      assert (PQ : p <> q) by congruence.
      pose proof (P p q ltac:(lia) ltac:(lia) Kp Kq PQ) as A. apply (padj_iff a) in A; try lia.
      apply (gra_adj _ _ _ _ _ GR). auto.
  Qed.

  Lemma no_larger_clique M c : (forall v, v < nv -> no_larger a v M) -> clique n adj c -> 2 <= length c -> length c <= M.
  Proof.
    intros H C L. destruct (clique_rooted c C) as (v & K & Hv & _ & R & P & E & _); [intros ->; simpl in L; lia|].
    rewrite <- E. apply (H v); auto; lia.
  Qed.

  Lemma rooted_bound v K : v < nv -> rooted a v K -> card (rlen a v) K <= bound a v.
  Proof.
    intros Hv [R1 R2]. rewrite bound_card.
    etransitivity; [apply (card_le _ K (fun x => (x =? sp a v) || candp a v x))|].
    - intros i Hi E. destruct (R2 i Hi E) as [->|EC]; [rewrite Nat.eqb_refl; auto|rewrite EC; apply orb_true_r].
    - etransitivity; [apply card_or|]. rewrite card_single. destruct (sp a v <? rlen a v); lia.
  Qed.

  Lemma bound_svalid : svalid a nv (bound a).
  Proof. intros v Hv K R _ _. apply rooted_bound; auto. Qed.

  (** Reading back the clique stored for a root. *)
  Lemma stored_clique_spec g mcs k s : shape a nv g mcs -> 1 <= k < nv -> stores a g k s ->
    exists c, stored_clique g k = Ok (g, c) /\ clique n adj c /\ length c = s.
  Proof.
    intros SH Hk (K & R1 & R2 & R3 & R4). exists (map (fun p => nbr a k p) (members (rlen a k) K)).
    split; [|split; [apply rooted_clique; auto; lia|rewrite map_length; exact R4]].
    unfold stored_clique. rewrite (sh_vs _ _ _ _ SH), rd_vert by lia. cbn [bind]. unfold live. rewrite (sh_live _ _ _ _ SH). cbn [bind mkvert vbits velo].
    rewrite (sh_el _ _ _ _ SH).
    rewrite (bits_subset_spec (edge_bits g) (eb a k) (rlen a k) K) by
      (auto; try apply (sh_mem _ _ _ _ SH); try apply (len_pos a nv HS Hself); try apply (row_end a nv); lia).
    cbn [bind]. f_equal. f_equal.
    - destruct g. reflexivity.
    - apply map_ext_in. intros p I. apply filter_In in I. destruct I as [I _]. apply in_seq in I. apply (ent_row a nv HC). lia.
  Qed.

  (** A freshly constructed graph with an edge. *)
  Lemma built_good cap g : has_edge adj -> built a nv cap g -> bits_live g = true ->
    good a nv g (bound a) /\ nz a g /\ wide a nv g /\ stores a g (CUR_MAX_LOC g) 1 /\ 2 <= CLIQUE_LIMIT g.
  Proof.
    intros (u & v & A) B HL. pose proof (gr_simple _ _ _ GR u v A) as (A' & NE & Hu). pose proof (gr_simple _ _ _ GR v u A') as (_ & _ & Hv).
    assert (LB : forall x y, adj x y -> x < nv -> 2 <= rlen a x).
    { intros x y Axy Hx. destruct (sp_spec a nv HS Hself x Hx) as [X1 X2].
      assert (I : In y (row a x)). { rewrite row_in. apply (gra_adj _ _ _ _ _ GR). auto. }
      apply In_nth with (d := 0) in I. destruct I as (p & Hp & E).
      destruct (gr_simple _ _ _ GR x y Axy) as (_ & NE' & _).
      assert (p <> sp a x) by (intros ->; congruence). lia. }
    assert (ST : forall k, k < nv -> stores a g k 1).
    { intros k Hk. destruct (sp_spec a nv HS Hself k Hk) as [S1 S2]. exists (fun x => x =? sp a k). split; [apply (b_rep _ _ _ _ B k Hk)|].
      split; [|split].
      - split; [apply Nat.eqb_refl|]. intros p Hp E. apply Nat.eqb_eq in E. auto.
      - intros p q Hp Hq E1 E2 N. apply Nat.eqb_eq in E1, E2. congruence.
      - rewrite card_single. destruct (Nat.ltb_spec (sp a k) (rlen a k)); [auto|lia]. }
    destruct (b_loc _ _ _ _ B ltac:(lia)) as [L1 L2].
    assert (L3 : 2 <= CLIQUE_LIMIT g).
    { destruct (before_total u v NE) as [Bf|Bf].
      - pose proof (b_lim _ _ _ _ B u ltac:(lia)) as BL. rewrite bound_card in BL.
        assert (0 < card (rlen a u) (candp a u)); [|lia]. apply card_pos.
        assert (I : In v (row a u)) by (rewrite row_in; apply (gra_adj _ _ _ _ _ GR); auto).
        apply In_nth with (d := 0) in I. destruct I as (p & Hp & E). exists p. split; auto. unfold candp. rewrite E. auto.
      - pose proof (b_lim _ _ _ _ B v ltac:(lia)) as BL. rewrite bound_card in BL.
        assert (0 < card (rlen a v) (candp a v)); [|lia]. apply card_pos.
        assert (I : In u (row a v)) by (rewrite row_in; apply (gra_adj _ _ _ _ _ GR); auto).
        apply In_nth with (d := 0) in I. destruct I as (p & Hp & E). exists p. split; auto. unfold candp. rewrite E. auto. }
    split; [|split; [|split; [|split]]]; auto.
    - split.
      + split.
        * split; [apply (b_el _ _ _ _ B)|apply (b_vs _ _ _ _ B)|apply (b_nv _ _ _ _ B)|exact HL|apply (b_mem _ _ _ _ B)].
        * rewrite (b_cur _ _ _ _ B). lia.
        * exists (CLIQUE_LIMIT g). split.
          -- intros k Hk. split; [apply (b_lim _ _ _ _ B k Hk)|apply (b_deg _ _ _ _ B k Hk)].
          -- rewrite (b_cur _ _ _ _ B), <- (b_start _ _ _ _ B). apply (b_space _ _ _ _ B). exists u. split; [lia|]. apply (LB u v); auto. lia.
        * intros k Hk. eauto.
        * auto.
      + intros k Hk. apply (b_zero _ _ _ _ B). rewrite (b_cur _ _ _ _ B) in Hk. lia.
    - unfold nz. rewrite L2. split; auto. intros E. rewrite E, bound_card in L2.
      pose proof (card_bound (rlen a 0) (candp a 0)) as CB. rewrite gra_len0 in *.
      destruct (sp_spec a nv HS Hself 0 ltac:(lia)) as [S1 S2]. rewrite gra_len0 in S1.
      pose proof (candp_sp a nv HS Hself 0 ltac:(lia)) as CS. replace (sp a 0) with 0 in CS by lia.
      rewrite card_S, CS, card_0 in L2. lia.
    - intros k Hk. eapply no_larger_le; [apply (b_lim _ _ _ _ B k Hk)|]. apply bound_svalid. auto.
  Qed.
End Gra.
