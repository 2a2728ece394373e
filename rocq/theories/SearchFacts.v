(** SearchFacts: the searches of the whole graph (heuristic, stack, recursive), from the searches of one root. *)
From Verif Require Import Base MBits MUtils MGraph MHeur MStack MRec SpecBits BaseFacts BitsFacts SetFacts SortFacts RowFacts ConstructFacts CardFacts SearchBase StackFacts RecFacts HeurFacts.
From Coq Require Import Sorting.Sorted Sorting.Permutation.
Local Open Scope nat_scope.
Local Arguments Nat.sub : simpl never.
Local Arguments Nat.mul : simpl never.

(** Enough scratch space above offset [c] for every root; if [half], then only for the stack search. *)
Definition roomy (half : bool) (a : pairs) (nv c : nat) (g : graph) : Prop :=
  exists B, (forall k, k < nv -> bound a k <= B /\ rlen a k <= max_degree g)
    /\ c + (if half then 1 else 2) * (B + 1) * words (max_degree g) <= length (edge_bits g).

(** The block of [k] holds a clique rooted at [k], of the given size. *)
Definition stores (a : pairs) (g : graph) (k size : nat) : Prop :=
  exists K, rep (edge_bits g) (eb a k) (rlen a k) K /\ rooted a k K /\ pclique a k K /\ card (rlen a k) K = size.

(** The state during a search, when the scratch space starts at [c]. *)
Record baseR {half : bool} (a : pairs) (nv c : nat) (g : graph) (mcs : nat -> nat) : Prop := {
  go_shape : shape a nv g mcs;
  go_eb : eb a nv <= c;
  go_room : roomy half a nv c g;
  go_bits : forall k, k < nv -> exists s, stores a g k s;
  go_loc : CUR_MAX_LOC g < nv
}.

(** The state between two root searches: the scratch space is zero. *)
Definition goodR (half : bool) (a : pairs) (nv : nat) (g : graph) (mcs : nat -> nat) : Prop :=
  @baseR half a nv (search_cur g) g mcs /\ zero_from (edge_bits g) (search_cur g).

(** What any number of root searches may change. *)
Record called (a : pairs) (nv : nat) (g0 g : graph) : Prop := {
  ca_core : core g = core g0;
  ca_cur : search_cur g = search_cur g0;
  ca_len : length (edge_bits g) = length (edge_bits g0);
  ca_low : forall k, eb a nv <= k < search_cur g0 -> nth k (edge_bits g) 0%N = nth k (edge_bits g0) 0%N;
  ca_best : (CUR_MAX_SIZE g = CUR_MAX_SIZE g0 /\ CUR_MAX_LOC g = CUR_MAX_LOC g0
             /\ forall k, k < eb a nv -> nth k (edge_bits g) 0%N = nth k (edge_bits g0) 0%N)
            \/ (CUR_MAX_SIZE g0 < CUR_MAX_SIZE g /\ stores a g (CUR_MAX_LOC g) (CUR_MAX_SIZE g))
}.

Definition valid (a : pairs) (nv : nat) (g : graph) (mcs : nat -> nat) : Prop :=
  forall v, v < nv -> no_larger a v (Nat.max (mcs v) (CUR_MAX_SIZE g)).
Definition svalid (a : pairs) (nv : nat) (mcs : nat -> nat) : Prop := forall v, v < nv -> no_larger a v (mcs v).
Definition wide (a : pairs) (nv : nat) (g : graph) : Prop := forall v, v < nv -> no_larger a v (CLIQUE_LIMIT g).
Definition all_done (a : pairs) (nv : nat) (g : graph) : Prop := forall v, v < nv -> no_larger a v (CUR_MAX_SIZE g).

Lemma no_larger_le a v M M' : M <= M' -> no_larger a v M -> no_larger a v M'.
Proof. intros H N K K1 K2 K3. specialize (N K K1 K2 K3). lia. Qed.

Lemma rep_nth m m' off n P : (forall k, off <= k < off + words n -> nth k m' 0%N = nth k m 0%N) -> length m' = length m ->
  rep m off n P -> rep m' off n P.
Proof.
  intros H L [R1 R2]. split; [lia|]. intros i Hi. rewrite <- R2 by auto. unfold wbit. rewrite H; auto.
  apply words_lt64 in Hi. lia.
Qed.

Section Graph.
  Variables (a : pairs) (nv : nat).
  Context {half : bool}.
  Notation base := (@baseR half).
  Notation good := (goodR half).
  Hypothesis HC : gctx a nv.
  Let HS := gc_sorted _ _ HC.
  Let Hself := gc_self _ _ HC.
  Let Hb := gc_b _ _ HC.

  Lemma block_disjoint i j k : i < nv -> j < nv -> i <> j -> in_block a i k -> in_block a j k -> False.
  Proof.
    unfold in_block. intros Hi Hj NE B1 B2. destruct (Nat.lt_ge_cases i j).
    - pose proof (eb_mono a (S i) j ltac:(lia)) as M. rewrite eb_S in M. lia.
    - pose proof (eb_mono a (S j) i ltac:(lia)) as M. rewrite eb_S in M. lia.
  Qed.

  Lemma called_refl g : called a nv g g.
  Proof. split; auto. Qed.

  Lemma called_le g0 g : called a nv g0 g -> CUR_MAX_SIZE g0 <= CUR_MAX_SIZE g.
  Proof. intros C. destruct (ca_best _ _ _ _ C) as [(E & _)|(E & _)]; lia. Qed.

  Lemma called_trans g0 g1 g2 : (forall g, called a nv g1 g -> CUR_MAX_LOC g1 < nv) ->
    called a nv g0 g1 -> called a nv g1 g2 -> called a nv g0 g2.
  Proof.
    intros HLOC C1 C2. specialize (HLOC _ C2). pose proof (called_le _ _ C1). destruct C1 as [A1 A2 A3 A5 A4], C2 as [B1 B2 B3 B5 B4].
    split; try congruence; [intros k Hk; rewrite B5 by lia; auto|]. destruct B4 as [(E1 & E2 & E3)|(E1 & E2)].
    - destruct A4 as [(F1 & F2 & F3)|(F1 & K & R & F2)].
      + left. split; [congruence|]. split; [congruence|]. intros k Hk. rewrite E3; auto.
      + right. split; [lia|]. rewrite E1, E2. exists K. split; auto.
        eapply rep_nth; [|exact B3|exact R]. intros k Hk. apply E3. pose proof (block_end a nv (CUR_MAX_LOC g1) HLOC). lia.
    - right. split; [lia|auto].
  Qed.

  Lemma good_room_s g mcs c cur : base a nv c g mcs -> cur < nv ->
    c + (bound a cur + 1) * words (rlen a cur) <= length (edge_bits g)
    /\ (half = false -> c + 2 * words (rlen a cur) * bound a cur <= length (edge_bits g)).
  Proof.
    intros G Hc. destruct (go_room _ _ _ _ _ G) as (B & H1 & H2). destruct (H1 cur Hc) as [H3 H4].
    pose proof (words_mono _ _ H4) as W.
    assert (E1 : (bound a cur + 1) * words (rlen a cur) <= (B + 1) * words (max_degree g)) by (apply Nat.mul_le_mono; lia).
    assert (E2 : 2 * words (rlen a cur) * bound a cur <= 2 * (B + 1) * words (max_degree g)).
    { rewrite <- !Nat.mul_assoc. apply Nat.mul_le_mono_l. rewrite Nat.mul_comm. apply Nat.mul_le_mono; lia. }
    split; [destruct half; rewrite <- Nat.mul_assoc in *; lia|]. intros EH. rewrite EH in H2. rewrite <- Nat.mul_assoc in *. lia.
  Qed.

  (** The change of one root search, seen from outside. *)
  Lemma base_step g0 g mcs0 cur : cur < nv -> base a nv (search_cur g0) g0 mcs0 -> prog a nv g0 g mcs0 cur -> search_cur g = search_cur g0 ->
    exists mcs, base a nv (search_cur g0) g mcs /\ called a nv g0 g /\ (forall v, v <> cur -> mcs v = mcs0 v)
      /\ (mcs cur = mcs0 cur \/ mcs cur = CUR_MAX_SIZE g) /\ (vertices g = vertices g0 -> base a nv (search_cur g0) g mcs0).
  Proof.
    intros Hc G P Ec. pose proof P as [P1 P2 P3 P4 P5]. pose proof (block_end a nv cur Hc) as BE.
    pose proof (go_eb _ _ _ _ _ G) as GE. pose proof (go_loc _ _ _ _ _ G) as GL.
    assert (CO : core g = core g0) by exact P1. unfold core in P1. inversion P1.
    assert (CA : called a nv g0 g).
    { split; auto; [intros k Hk; apply P4; [lia|unfold in_block; lia]|]. destruct P5 as [(B1 & B2 & B3 & B4)|(B1 & B2 & B3 & K & B4)]; [left|right].
      - split; auto. split; auto. intros k Hk.
        destruct (Nat.le_gt_cases (eb a cur) k); [destruct (Nat.lt_ge_cases k (eb a cur + words (rlen a cur)))|].
        + apply B4. split; auto.
        + apply P4; [lia|unfold in_block; lia].
        + apply P4; [lia|unfold in_block; lia].
      - split; auto. rewrite B2. exists K. auto. }
    assert (GB : forall k, k < nv -> exists s, stores a g k s).
    { intros k Hk. destruct (go_bits _ _ _ _ _ G k Hk) as (s & K & R1 & R2 & R3 & R4).
      assert (Same : (forall x, in_block a k x -> nth x (edge_bits g) 0%N = nth x (edge_bits g0) 0%N) -> exists s, stores a g k s).
      { intros E. exists s, K. split; auto. eapply rep_nth; [|exact P2|exact R1]. exact E. }
      destruct (Nat.eq_dec k cur) as [->|NE].
      - destruct P5 as [(B1 & B2 & B3 & B4)|(B1 & B2 & B3 & K' & B4)]; auto. exists (CUR_MAX_SIZE g), K'. auto.
      - apply Same. intros x Hx. apply P4.
        + pose proof (block_end a nv k Hk). unfold in_block in Hx. lia.
        + intros Hx'. apply (block_disjoint k cur x Hk Hc NE); auto. }
    assert (GR : roomy half a nv (search_cur g0) g).
    { destruct (go_room _ _ _ _ _ G) as (B & R1 & R2). exists B. rewrite P2, H6. split; auto. }
    assert (MK : forall mcs, vertices g = verts a nv mcs -> CUR_MAX_LOC g < nv -> base a nv (search_cur g0) g mcs).
    { intros mcs V HL. split; auto.
      destruct (go_shape _ _ _ _ _ G) as [X1 X2 X3 X4 X5]. split; auto; congruence. }
    destruct P5 as [(B1 & B2 & B3 & B4)|(B1 & B2 & (mm & B3 & B3') & K & B4)].
    - exists mcs0. assert (GG : base a nv (search_cur g0) g mcs0) by (apply MK; auto; congruence). auto 10.
    - exists (fun k => if k =? cur then mm else mcs0 k).
      split; [apply MK; auto; congruence|]. split; auto. split.
      + intros v Hv. apply Nat.eqb_neq in Hv. rewrite Hv. auto.
      + rewrite Nat.eqb_refl. split; [tauto|]. intros E. apply MK; [rewrite E; apply (sh_vs _ _ _ _ (go_shape _ _ _ _ _ G))|congruence].
  Qed.

  Lemma prog_step g0 g mcs0 cur : cur < nv -> good a nv g0 mcs0 -> prog a nv g0 g mcs0 cur -> search_cur g = search_cur g0 ->
    zero_from (edge_bits g) (search_cur g0) ->
    exists mcs, good a nv g mcs /\ called a nv g0 g /\ (forall v, v <> cur -> mcs v = mcs0 v)
      /\ (mcs cur = mcs0 cur \/ mcs cur = CUR_MAX_SIZE g).
  Proof.
    intros Hc [G _] P Ec Z. destruct (base_step g0 g mcs0 cur Hc G P Ec) as (mcs & A1 & A2 & A3 & A4 & _).
    exists mcs. split; [|auto]. split; rewrite Ec; auto.
  Qed.

  Lemma valid_step g0 g mcs0 mcs cur : valid a nv g0 mcs0 -> CUR_MAX_SIZE g0 <= CUR_MAX_SIZE g ->
    (forall v, v <> cur -> mcs v = mcs0 v) -> (mcs cur = mcs0 cur \/ no_larger a cur (CUR_MAX_SIZE g)) -> valid a nv g mcs.
  Proof.
    intros V L E D v Hv. destruct (Nat.eq_dec v cur) as [->|NE].
    - destruct D as [D|D]; [rewrite D; eapply no_larger_le; [|apply V; auto]; lia|]. eapply no_larger_le; [|exact D]. lia.
    - rewrite E by auto. eapply no_larger_le; [|apply V; auto]. lia.
  Qed.

  Lemma svalid_step g mcs0 mcs cur : svalid a nv mcs0 ->
    (forall v, v <> cur -> mcs v = mcs0 v) -> (mcs cur = mcs0 cur \/ mcs cur = CUR_MAX_SIZE g) ->
    no_larger a cur (CUR_MAX_SIZE g) -> svalid a nv mcs.
  Proof.
    intros V E D N v Hv. destruct (Nat.eq_dec v cur) as [->|NE].
    - destruct D as [D|D]; rewrite D; auto.
    - rewrite E by auto. auto.
  Qed.

  Lemma svalid_valid g mcs : svalid a nv mcs -> valid a nv g mcs.
  Proof. intros V v Hv. eapply no_larger_le; [|apply V; auto]. lia. Qed.

  Lemma good_rd g mcs i : good a nv g mcs -> i < nv -> rd (vertices g) i = Ok (mkvert a (mcs i) i).
  Proof. intros G Hi. rewrite (sh_vs _ _ _ _ (go_shape _ _ _ _ _ (proj1 G))). apply rd_vert. auto. Qed.

  Lemma core_lim g g0 : core g = core g0 -> CLIQUE_LIMIT g = CLIQUE_LIMIT g0.
  Proof. unfold core. intros E. inversion E. auto. Qed.
  Lemma core_nv g g0 : core g = core g0 -> n_vert g = n_vert g0.
  Proof. unfold core. intros E. inversion E. auto. Qed.
  Lemma core_deg g g0 : core g = core g0 -> max_degree g = max_degree g0.
  Proof. unfold core. intros E. inversion E. auto. Qed.

  (** One root, by the stack search. *)
  Lemma sd_step lr g0 mcs0 cur : good a nv g0 mcs0 -> cur < nv ->
    wp (sd_process_vertex lr g0 cur) (fun g => exists mcs, good a nv g mcs /\ called a nv g0 g
       /\ (CUR_MAX_SIZE g0 < CUR_MAX_SIZE g -> CUR_MAX_LOC g = cur)
       /\ (CLIQUE_LIMIT g0 <= CUR_MAX_SIZE g \/ no_larger a cur (CUR_MAX_SIZE g))
       /\ (valid a nv g0 mcs0 -> CLIQUE_LIMIT g0 <= CUR_MAX_SIZE g \/ valid a nv g mcs)
       /\ (wide a nv g0 -> svalid a nv mcs0 -> svalid a nv mcs)).
  Proof.
    intros G Hc. destruct (good_room_s g0 mcs0 _ cur (proj1 G) Hc) as [R1 R2].
    eapply wp_mono; [apply (sd_process_vertex_spec a nv cur lr g0 mcs0 HC Hc (go_shape _ _ _ _ _ (proj1 G)) (go_eb _ _ _ _ _ (proj1 G)) (proj2 G) R1)|].
    intros g [[S1 S2 S3] D].
    destruct (prog_step g0 g mcs0 cur Hc G S1 S2 S3) as (mcs & A1 & A2 & A3 & A4).
    exists mcs. split; auto. split; auto. rewrite (core_lim _ _ (ca_core _ _ _ _ A2)) in D.
    split. { intros HL. destruct (pr_best _ _ _ _ _ _ S1) as [(B & _)|(_ & B & _)]; [lia|auto]. }
    split; [tauto|]. split.
    - intros V. destruct D as [D|D]; auto. right. eapply valid_step; eauto. apply called_le; auto.
    - intros W V. eapply svalid_step; eauto. destruct D as [D|D]; auto. eapply no_larger_le; [exact D|]. apply W. auto.
  Qed.

  (** One root, by the recursive search. *)
  Lemma rec_step clk g0 mcs0 cur t : half = false -> good a nv g0 mcs0 -> cur < nv ->
    wp (rec_process_vertex clk g0 cur t) (fun r => let g := fst r in t <= snd r /\ exists mcs, good a nv g mcs /\ called a nv g0 g
       /\ (CUR_MAX_SIZE g0 < CUR_MAX_SIZE g -> CUR_MAX_LOC g = cur)
       /\ (fired clk t (snd r) \/ CLIQUE_LIMIT g0 <= CUR_MAX_SIZE g \/ no_larger a cur (CUR_MAX_SIZE g))
       /\ (valid a nv g0 mcs0 -> fired clk t (snd r) \/ CLIQUE_LIMIT g0 <= CUR_MAX_SIZE g \/ valid a nv g mcs)
       /\ (wide a nv g0 -> svalid a nv mcs0 -> fired clk t (snd r) \/ svalid a nv mcs)).
  Proof.
    intros EH G Hc. destruct (good_room_s g0 mcs0 _ cur (proj1 G) Hc) as [R1 R2]. specialize (R2 EH).
    eapply wp_mono; [apply (rec_process_vertex_spec a nv cur g0 mcs0 clk HC Hc (go_shape _ _ _ _ _ (proj1 G)) (go_eb _ _ _ _ _ (proj1 G)) (proj2 G) R2)|].
    intros [g t'] ([S1 S2 S3] & Ht & D). cbn [fst snd] in *. split; auto.
    destruct (prog_step g0 g mcs0 cur Hc G S1 S2 S3) as (mcs & A1 & A2 & A3 & A4).
    exists mcs. split; auto. split; auto. rewrite (core_lim _ _ (ca_core _ _ _ _ A2)) in D.
    split. { intros HL. destruct (pr_best _ _ _ _ _ _ S1) as [(B & _)|(_ & B & _)]; [lia|auto]. }
    split; [tauto|]. split.
    - intros V. destruct D as [D|[D|D]]; auto. right. right. eapply valid_step; eauto. apply called_le; auto.
    - intros W V. destruct D as [D|[D|D]]; auto; right; eapply svalid_step; eauto. eapply no_larger_le; [exact D|]. apply W. auto.
  Qed.

  (** ** The sentinel vertex 0 is never the best root *)
  Definition nz (g : graph) : Prop := CUR_MAX_LOC g <> 0 /\ (CUR_MAX_SIZE g = 0 -> 2 <= bound a (CUR_MAX_LOC g)).

  Lemma bound2 v M : v < nv -> 2 <= bound a v -> no_larger a v M -> 2 <= M.
  Proof.
    intros Hv HB N. rewrite bound_card in HB. assert (HP : 0 < card (rlen a v) (candp a v)) by lia.
    apply card_pos in HP. destruct HP as (p & Hp & EC). destruct (sp_spec a nv HS Hself v Hv) as [S1 S2].
    assert (NE : p <> sp a v) by (intros ->; rewrite (candp_sp a nv HS Hself v Hv) in EC; discriminate).
    set (K := fun x => (x =? p) || (x =? sp a v)).
    assert (CK : card (rlen a v) K = 2).
    { unfold K. rewrite card_add; auto; [|apply Nat.eqb_neq; auto]. rewrite card_single.
      destruct (Nat.ltb_spec (sp a v) (rlen a v)); [auto|lia]. }
    rewrite <- CK. apply N; [| |lia].
    - split; [unfold K; rewrite Nat.eqb_refl; apply orb_true_r|]. intros q Hq E. unfold K in E. apply orb_prop in E.
      destruct E as [E|E]; apply Nat.eqb_eq in E; subst; auto.
    - intros q r Hq Hr E1 E2 NE2. unfold K in E1, E2. apply orb_prop in E1, E2.
      destruct E1 as [E1|E1]; destruct E2 as [E2|E2]; apply Nat.eqb_eq in E1, E2; subst; try congruence.
      + rewrite (padj_sym a nv HC) by auto. apply (padj_root a nv HC); auto.
      + apply (padj_root a nv HC); auto.
  Qed.

  Hypothesis Hrow0 : rlen a 0 = 1.

  Lemma nz_called g0 g : nz g0 -> 0 < CUR_MAX_SIZE g0 -> called a nv g0 g -> nz g.
  Proof.
    intros [Z1 Z2] HP C. pose proof (called_le _ _ C). split; [|lia].
    destruct (ca_best _ _ _ _ C) as [(_ & E & _)|(E & K & K1 & K2 & K3 & K4)]; [congruence|].
    intros E0. rewrite E0 in K4. pose proof (card_bound (rlen a 0) K). lia.
  Qed.

  Lemma nz_step g0 g : nz g0 -> called a nv g0 g -> (CUR_MAX_SIZE g0 < CUR_MAX_SIZE g -> CUR_MAX_LOC g = CUR_MAX_LOC g0) -> nz g.
  Proof.
    intros [Z1 Z2] C L. pose proof (called_le _ _ C).
    assert (E : CUR_MAX_LOC g = CUR_MAX_LOC g0) by (destruct (ca_best _ _ _ _ C) as [(_ & E & _)|(E & _)]; auto).
    unfold nz. rewrite E. split; auto. intros H0. apply Z2. lia.
  Qed.

  (** ** The stack search of the graph *)
  Lemma sd_process_graph_spec lr g0 mcs0 : good a nv g0 mcs0 ->
    wp (sd_process_graph lr g0) (fun r => let g := fst r in snd r = nv /\ exists mcs, good a nv g mcs /\ called a nv g0 g
       /\ (nz g0 -> nz g)
       /\ (valid a nv g0 mcs0 -> CLIQUE_LIMIT g0 <= CUR_MAX_SIZE g \/ all_done a nv g)
       /\ (wide a nv g0 -> svalid a nv mcs0 -> svalid a nv mcs)).
  Proof.
    intros G0. unfold sd_process_graph. apply wp_bind.
    eapply wp_mono; [apply (sd_step lr g0 mcs0 _ G0 (go_loc _ _ _ _ _ (proj1 G0)))|].
    intros g1 (mcs1 & G1 & C1 & L1 & D1 & V1 & W1). apply wp_bind.
    rewrite (sh_nv _ _ _ _ (go_shape _ _ _ _ _ (proj1 G1))).
    apply (wp_for 0 nv _ (fun i g => exists mcs, good a nv g mcs /\ called a nv g1 g
       /\ (CLIQUE_LIMIT g0 <= CUR_MAX_SIZE g1 -> g = g1)
       /\ (valid a nv g0 mcs0 -> CLIQUE_LIMIT g0 <= CUR_MAX_SIZE g \/ valid a nv g mcs /\ forall v, v < i -> no_larger a v (CUR_MAX_SIZE g))
       /\ (wide a nv g0 -> svalid a nv mcs0 -> svalid a nv mcs))); [lia| | |].
    - exists mcs1. split; auto. split; [apply called_refl|]. split; auto. split; auto.
      intros V. destruct (V1 V); auto. right. split; auto. intros; lia.
    - intros i g [_ Hi] (mcs & G & C & L & V & W). rewrite (good_rd g mcs i G Hi). cbn [bind mkvert vmcs].
      assert (LIM : CLIQUE_LIMIT g = CLIQUE_LIMIT g0).
      { rewrite (core_lim _ _ (ca_core _ _ _ _ C)). apply core_lim, (ca_core _ _ _ _ C1). }
      destruct ((mcs i <=? CUR_MAX_SIZE g) || (CLIQUE_LIMIT g <=? CUR_MAX_SIZE g)) eqn:E.
      + apply wp_ok. exists mcs. split; auto. split; auto. split; auto. split; auto.
        intros Hv. specialize (V Hv). destruct V as [V|[V V']]; auto. apply orb_prop in E. destruct E as [E|E]; apply Nat.leb_le in E; [|left; lia].
        right. split; auto. intros v Hlt. destruct (Nat.eq_dec v i) as [->|]; [|apply V'; lia].
        eapply no_larger_le; [|apply (V i Hi)]. lia.
      + apply orb_false_elim in E. destruct E as [E1 E2]. apply Nat.leb_gt in E1, E2.
        eapply wp_mono; [apply (sd_step lr g mcs i G Hi)|].
        intros g' (mcs' & G' & C' & L' & D' & V' & W'). exists mcs'. split; auto.
        pose proof (called_le _ _ C') as CL. pose proof (called_le _ _ C) as CL0.
        split; [eapply called_trans; [intros; apply (proj1 G)|exact C|exact C']|].
        split; [intros; lia|]. split.
        * intros Hv. rewrite LIM in *. destruct (V Hv) as [V2|[V2 V3]]; [left; lia|].
          destruct (V' V2) as [V4|V4]; [left; lia|]. destruct D' as [D'|D']; [left; lia|]. right. split; auto.
          intros v Hlt. destruct (Nat.eq_dec v i) as [->|]; auto. eapply no_larger_le; [|apply V3; lia]. lia.
        * intros Hw Hsv. apply W'; auto. unfold wide in *. rewrite LIM. auto.
    - intros g (mcs & G & C & L & V & W). apply wp_ok. cbn [fst snd]. split; [apply (sh_nv _ _ _ _ (go_shape _ _ _ _ _ (proj1 G)))|].
      exists mcs. split; auto. split; [eapply called_trans; [intros; apply (proj1 G1)|exact C1|exact C]|].
      split; [|split]; auto.
      + intros Z. pose proof (nz_step g0 g1 Z C1 L1) as Z1. destruct D1 as [D1|D1]; [rewrite L; auto|].
        apply (nz_called g1 g Z1); auto. destruct Z1 as [_ Z1]. destruct (CUR_MAX_SIZE g1) as [|k] eqn:E; [|lia].
        specialize (Z1 eq_refl).
        assert (EL : CUR_MAX_LOC g1 = CUR_MAX_LOC g0).
        { destruct (ca_best _ _ _ _ C1) as [(_ & E2 & _)|(E2 & _)]; auto. lia. }
        rewrite EL in Z1. pose proof (bound2 _ _ (go_loc _ _ _ _ _ (proj1 G0)) Z1 D1). lia.
      + intros Hv. destruct (V Hv) as [?|[_ ?]]; auto.
  Qed.

  (** ** The timed search of the graph *)
  Definition late (clk : nat -> bool) : Prop := exists k, clk k = true.
  Definition monotone (clk : nat -> bool) : Prop := forall i j, i <= j -> clk i = true -> clk j = true.

  Lemma rec_process_graph_spec clk start g0 mcs0 : half = false -> good a nv g0 mcs0 ->
    wp (rec_process_graph clk start g0) (fun r => let g := fst r in
       start <= snd r /\ (snd r < nv -> late clk)
       /\ exists mcs, good a nv g mcs /\ called a nv g0 g
       /\ (0 < CUR_MAX_SIZE g0 \/ monotone clk -> nz g0 -> nz g)
       /\ (valid a nv g0 mcs0 -> late clk \/ CLIQUE_LIMIT g0 <= CUR_MAX_SIZE g \/ (valid a nv g mcs /\ forall v, start <= v < nv -> no_larger a v (CUR_MAX_SIZE g)))
       /\ (wide a nv g0 -> svalid a nv mcs0 -> late clk \/ svalid a nv mcs)).
  Proof.
    intros EH G0. unfold rec_process_graph. apply wp_bind.
    eapply wp_mono; [apply (rec_step clk g0 mcs0 _ 0 EH G0 (go_loc _ _ _ _ _ (proj1 G0)))|].
    intros [g1 t1] (T1 & mcs1 & G1 & C1 & L1 & D1 & V1 & W1). cbn [fst snd] in *.
    assert (FL : forall t t', fired clk t t' -> late clk) by (intros t t' (k & _ & Hk); exists k; auto).
    rewrite (sh_nv _ _ _ _ (go_shape _ _ _ _ _ (proj1 G1))).
    apply (wp_loopN_rel _ _ (fun s n => let '(g, i, t) := s in n = nv - i /\ start <= i /\ t1 <= t /\
       exists mcs, good a nv g mcs /\ called a nv g1 g
       /\ (CLIQUE_LIMIT g0 <= CUR_MAX_SIZE g1 -> g = g1) /\ (clk t1 = true -> monotone clk -> g = g1)
       /\ (valid a nv g0 mcs0 -> late clk \/ CLIQUE_LIMIT g0 <= CUR_MAX_SIZE g \/ valid a nv g mcs /\ forall v, start <= v < i -> v < nv -> no_larger a v (CUR_MAX_SIZE g))
       /\ (wide a nv g0 -> svalid a nv mcs0 -> late clk \/ svalid a nv mcs)) _ (nv - start)); [| lia |].
    - split; auto. split; auto. split; auto. exists mcs1. split; auto. split; [apply called_refl|]. split; auto. split; auto. split.
      + intros V. destruct (V1 V) as [?|[?|?]]; eauto. right. right. split; auto. intros; lia.
      + intros W V. destruct (W1 W V); eauto.
    - intros [[g i] t] n (En & Hi & Ht & mcs & G & C & L & LT & V & W).
      assert (LIM : CLIQUE_LIMIT g = CLIQUE_LIMIT g0).
      { rewrite (core_lim _ _ (ca_core _ _ _ _ C)). apply core_lim, (ca_core _ _ _ _ C1). }
      rewrite (sh_nv _ _ _ _ (go_shape _ _ _ _ _ (proj1 G))).
      assert (FIN : forall j, start <= j -> (j < nv -> late clk) -> (late clk \/ nv <= j /\ j = i) ->
        start <= j /\ (j < nv -> late clk) /\ exists mcs, good a nv g mcs /\ called a nv g0 g
         /\ (0 < CUR_MAX_SIZE g0 \/ monotone clk -> nz g0 -> nz g)
         /\ (valid a nv g0 mcs0 -> late clk \/ CLIQUE_LIMIT g0 <= CUR_MAX_SIZE g \/ (valid a nv g mcs /\ forall v, start <= v < nv -> no_larger a v (CUR_MAX_SIZE g)))
         /\ (wide a nv g0 -> svalid a nv mcs0 -> late clk \/ svalid a nv mcs)).
      { intros j Hj J1 J2. split; auto. split; auto. exists mcs. split; auto.
        assert (CG : called a nv g0 g) by (eapply called_trans; [intros; apply (proj1 G1)|exact C1|exact C]).
        split; auto. split; [|split]; auto.
        - intros HP Z. pose proof (nz_step g0 g1 Z C1 L1) as Z1.
          destruct (Nat.eq_dec (CUR_MAX_SIZE g1) 0) as [E|E]; [|apply (nz_called g1 g Z1); auto; lia].
          pose proof (called_le _ _ C1) as CL.
          destruct HP as [HP|HP]; [lia|].
          destruct D1 as [(k & Hk & F)|[D1|D1]].
          + rewrite LT; auto. apply (HP k); auto. lia.
          + rewrite L; auto.
          + exfalso. destruct Z1 as [_ Z1]. specialize (Z1 E).
            assert (EL : CUR_MAX_LOC g1 = CUR_MAX_LOC g0).
            { destruct (ca_best _ _ _ _ C1) as [(_ & E2 & _)|(E2 & _)]; auto. }
            rewrite EL in Z1. pose proof (bound2 _ _ (go_loc _ _ _ _ _ (proj1 G0)) Z1 D1). lia.
        - intros Hv. destruct (V Hv) as [?|[?|[? ?]]]; auto. destruct J2 as [J2|[J2 ->]]; auto.
          right. right. split; auto. intros v Hlt. apply H0; lia. }
      destruct (Nat.ltb_spec i nv) as [Li|Li].
      2: { apply wp_ok. cbn [fst snd]. apply FIN; auto. lia. }
      rewrite (good_rd g mcs i G Li). cbn [bind mkvert vmcs].
      destruct ((mcs i <=? CUR_MAX_SIZE g) || (CLIQUE_LIMIT g <=? CUR_MAX_SIZE g)) eqn:E.
      + apply wp_ok. exists (nv - (i + 1)). split; [lia|]. split; auto. split; [lia|]. split; auto.
        exists mcs. split; auto. split; auto. split; auto. split; auto. split; auto.
        intros Hv. specialize (V Hv). destruct V as [V|[V|[V V']]]; auto. apply orb_prop in E.
        destruct E as [E|E]; apply Nat.leb_le in E; [|right; left; lia].
        right. right. split; auto. intros v Hlt Hlt2. destruct (Nat.eq_dec v i) as [->|]; [|apply V'; lia].
        eapply no_larger_le; [|apply (V i Li)]. lia.
      + apply orb_false_elim in E. destruct E as [E1 E2]. apply Nat.leb_gt in E1, E2.
        destruct (clk t) eqn:EC.
        { apply wp_ok. cbn [fst snd]. assert (late clk) by (exists t; auto). apply FIN; auto. }
        apply wp_bind. eapply wp_mono; [apply (rec_step clk g mcs i (S t) EH G Li)|].
        intros [g' t'] (T' & mcs' & G' & C' & L' & D' & V' & W'). cbn [fst snd] in *. apply wp_ok.
        exists (nv - (i + 1)). split; [lia|]. split; auto. split; [lia|]. split; [lia|].
        exists mcs'. split; auto. pose proof (called_le _ _ C') as CL. pose proof (called_le _ _ C) as CL0.
        split; [eapply called_trans; [intros; apply (proj1 G)|exact C|exact C']|].
        split; [intros; lia|]. split; [intros F M; specialize (M t1 t Ht F); congruence|]. split.
        * intros Hv. rewrite LIM in *. destruct (V Hv) as [V2|[V2|[V2 V3]]]; auto; [right; left; lia|].
          destruct (V' V2) as [V4|[V4|V4]]; eauto. destruct D' as [D'|[D'|D']]; eauto. right. right. split; auto.
          intros v Hlt Hlt2. destruct (Nat.eq_dec v i) as [->|]; auto. eapply no_larger_le; [|apply V3; lia]. lia.
        * intros Hw Hsv. destruct (W Hw Hsv) as [?|W2]; auto.
          assert (W3 : wide a nv g) by (unfold wide in *; rewrite LIM; auto). destruct (W' W3 W2); eauto.
  Qed.

  (** ** The heuristic on the graph *)
  (** Root [v] offers the heuristic nothing better than [c]. *)
  Definition quiet (srt : list vdata -> list vdata) (v c : nat) : Prop := hstep a v srt c = c.

  (** The heuristic has nothing left to do. *)
  Definition hspent (srt : list vdata -> list vdata) (g : graph) (mcs : nat -> nat) : Prop :=
    quiet srt (CUR_MAX_LOC g) (CUR_MAX_SIZE g)
    /\ (CLIQUE_LIMIT g <= CUR_MAX_SIZE g \/ forall v, v < nv -> mcs v <= CUR_MAX_SIZE g \/ quiet srt v (CUR_MAX_SIZE g)).

  Lemma heur_process_graph_spec srt g0 mcs0 : (forall l, Permutation (srt l) l) -> good a nv g0 mcs0 ->
    wp (heur_process_graph srt g0) (fun g => good a nv g mcs0 /\ called a nv g0 g /\ (nz g0 -> nz g)
       /\ hspent srt g mcs0 /\ (hspent srt g0 mcs0 -> CUR_MAX_SIZE g = CUR_MAX_SIZE g0)).
  Proof.
    intros HP G0. set (c0 := search_cur g0). set (D := max_degree g0). set (w := words D).
    pose proof (go_loc _ _ _ _ _ (proj1 G0)) as GL.
    destruct (go_room _ _ _ _ _ (proj1 G0)) as (B & R1 & R2). fold D in R1, R2. fold w in R2. fold c0 in R2.
    assert (DP : 0 < D). { destruct (R1 _ GL) as [_ R]. pose proof (len_pos a nv HS Hself _ GL). lia. }
    assert (WP : 0 < w) by (apply words_pos; auto).
    assert (R3 : c0 + 2 * w <= length (edge_bits g0)).
    { assert (2 * w <= (if half then 1 else 2) * (B + 1) * w); [|lia]. apply Nat.mul_le_mono_r.
      destruct (R1 _ GL) as [R _]. rewrite bound_card in R. destruct half; lia. }
    unfold heur_process_graph. fold D. fold w.
    rewrite load_memory_ok by (fold c0; lia). cbn [bind].
    rewrite load_memory_ok by (cbn [set_cur search_cur edge_bits]; fold c0; lia). cbn [bind set_cur search_cur edge_bits max_degree CUR_MAX_LOC n_vert]. fold c0 D.
    set (gA := set_cur (set_cur g0 (c0 + w)) (c0 + w + w)).
    set (gB := set_cur gA c0).
    (* the state of the graph while the heuristic owns its two blocks *)
    set (st := fun (r : graph * list vdata) => let g := fst r in
         length (snd r) = D /\ base a nv c0 g mcs0 /\ called a nv gB (set_cur g c0) /\ search_cur g = c0 + w + w /\ zero_from (edge_bits g) (c0 + 2 * w)).
    assert (SM : forall g nb, st (g, nb) -> max_degree g = D /\ n_vert g = nv /\ length (edge_bits g) = length (edge_bits g0) /\ CLIQUE_LIMIT g = CLIQUE_LIMIT g0).
    { intros g nb (_ & SB & SC & _). pose proof (ca_core _ _ _ _ SC) as E. unfold core in E. inversion E. split; auto.
      split; [apply (sh_nv _ _ _ _ (go_shape _ _ _ _ _ SB))|]. split; auto. exact (ca_len _ _ _ _ SC). }
    assert (KEY : forall g nb cur, cur < nv -> st (g, nb) ->
       wp (heur_process_vertex srt g nb cur (refer_from c0 D) (refer_from (c0 + w) D))
          (fun r => st r /\ called a nv (set_cur g c0) (set_cur (fst r) c0)
             /\ (CUR_MAX_SIZE g < CUR_MAX_SIZE (fst r) -> CUR_MAX_LOC (fst r) = cur)
             /\ (2 <= bound a cur -> CUR_MAX_SIZE g = 0 -> 2 <= CUR_MAX_SIZE (fst r))
             /\ CUR_MAX_SIZE (fst r) = hstep a cur srt (CUR_MAX_SIZE g))).
    { intros g nb cur Hc ST. destruct (SM g nb ST) as (M1 & M2 & M3 & M4). destruct ST as (S1 & S2 & S3 & S4 & S5). cbn [fst snd] in *.
      assert (HD : rlen a cur <= max_degree g) by (rewrite M1; apply R1; auto).
      pose proof (heur_process_vertex_spec a nv cur HC Hc srt g nb mcs0 c0 HP (go_shape _ _ _ _ _ S2) HD) as SP.
      rewrite M1 in SP. fold w in SP. eapply wp_mono; [apply SP; auto; [apply (go_eb _ _ _ _ _ S2)|lia]|].
      intros [g' nb'] (Q1 & Q2 & Q3 & Q4 & Q5 & Q6 & Q7). cbn [fst snd] in *.
      destruct (base_step (set_cur g c0) (set_cur g' c0) mcs0 cur Hc) as (mcs & B1 & B2 & B3 & B4 & B5); auto.
      { destruct S2 as [X1 X2 X3 X4 X5]. destruct X1. split; auto. split; auto. }
      assert (BB : base a nv c0 g' mcs0).
      { specialize (B5 Q3). destruct B5 as [X1 X2 X3 X4 X5]. destruct X1. split; auto. split; auto. }
      split; [|split; [|split; [|split]]]; auto.
      - unfold st. cbn [fst snd]. split; auto. split; auto. split; [eapply called_trans; [|exact S3|exact B2]; intros; apply S2|].
        split; [congruence|]. intros k Hk. rewrite Q4 by auto. apply S5. auto.
      - intros HL. destruct (pr_best _ _ _ _ _ _ Q1) as [(BQ & _)|(_ & BQ & _)]; cbn [set_cur CUR_MAX_SIZE CUR_MAX_LOC] in *; [lia|auto]. }
    assert (ST0 : st (gA, repeat (mkD 0 0 0) D)).
    { unfold st. cbn [fst snd]. rewrite repeat_length. split; auto. split; [|split; [|split]].
      - destruct (proj1 G0) as [X1 X2 X3 X4 X5]. destruct X1. split; auto. split; auto.
      - apply called_refl.
      - reflexivity.
      - intros k Hk. apply (proj2 G0). fold c0. lia. }
    apply wp_bind. eapply wp_mono; [apply (KEY gA _ _ GL ST0)|].
    intros [g1 nb1] (ST1 & C1 & L1 & X1 & H1). cbn [fst snd] in *.
    destruct (SM _ _ ST1) as (M1 & M2 & M3 & M4). rewrite M2.
    assert (NZ1 : nz g0 -> nz g1 /\ 0 < CUR_MAX_SIZE g1).
    { intros Z. pose proof (nz_step gB (set_cur g1 c0) Z C1 L1) as Z1. split; auto.
      destruct Z as [_ Z]. pose proof (called_le _ _ C1) as CL. cbn [set_cur gB gA CUR_MAX_SIZE] in CL.
      destruct (Nat.eq_dec (CUR_MAX_SIZE g0) 0) as [E|E]; [|unfold gB, gA in CL; cbn [set_cur CUR_MAX_SIZE] in CL; lia].
      specialize (X1 (Z E) E). lia. }
    apply wp_bind.
    assert (QL : forall g g' v, called a nv (set_cur g c0) (set_cur g' c0) -> (CUR_MAX_SIZE g < CUR_MAX_SIZE g' -> CUR_MAX_LOC g' = v) ->
              CUR_MAX_SIZE g' = hstep a v srt (CUR_MAX_SIZE g) -> CUR_MAX_LOC g = v \/ quiet srt (CUR_MAX_LOC g) (CUR_MAX_SIZE g) ->
              quiet srt (CUR_MAX_LOC g') (CUR_MAX_SIZE g')).
    { intros g g' v C L E Q. pose proof (called_le _ _ C) as CL. cbn [set_cur CUR_MAX_SIZE] in CL.
      assert (QV : quiet srt v (CUR_MAX_SIZE g')) by (unfold quiet; rewrite E; apply hstep_idem).
      destruct (ca_best _ _ _ _ C) as [(E1 & E2 & _)|(E1 & _)]; cbn [set_cur CUR_MAX_SIZE CUR_MAX_LOC] in *; [|rewrite L; auto].
      rewrite E2. destruct Q as [->|Q]; auto. eapply hstep_quiet; eauto. }
    apply (wp_loopN_rel _ _ (fun s n => let '(g, nb, i) := s in n = nv - i /\ i <= nv /\ st (g, nb) /\ (nz g0 -> nz g /\ 0 < CUR_MAX_SIZE g)
             /\ quiet srt (CUR_MAX_LOC g) (CUR_MAX_SIZE g)
             /\ (forall v, v < i -> mcs0 v <= CUR_MAX_SIZE g \/ quiet srt v (CUR_MAX_SIZE g))
             /\ (hspent srt g0 mcs0 -> CUR_MAX_SIZE g = CUR_MAX_SIZE g0)) _ nv); [| lia |].
    - split; [lia|]. split; [lia|]. split; auto. split; auto. split; [apply (QL gA g1 (CUR_MAX_LOC g0)); auto|]. split; [intros; lia|].
      intros [HQ _]. rewrite H1. exact HQ.
    - intros [[g nb] i] n (En & Hi & ST & Z & Q1 & Q2 & Q3). destruct (SM _ _ ST) as (N1 & N2 & N3 & N4). rewrite N2.
      destruct ((i <? nv) && (CUR_MAX_SIZE g <? CLIQUE_LIMIT g)) eqn:E.
      + apply andb_prop in E. destruct E as [E1 E2]. apply Nat.ltb_lt in E1.
        assert (BG : base a nv c0 g mcs0) by (apply ST). rewrite (sh_vs _ _ _ _ (go_shape _ _ _ _ _ BG)). rewrite rd_vert by auto. cbn [bind mkvert vmcs].
        destruct (mcs0 i <=? CUR_MAX_SIZE g) eqn:E3.
        * apply wp_ok. exists (nv - (i + 1)). split; [lia|]. split; auto. split; [lia|]. split; auto. split; auto. split; auto. split; auto.
          intros v Hv. destruct (Nat.eq_dec v i) as [->|]; [left; apply Nat.leb_le; auto|apply Q2; lia].
        * apply wp_bind. eapply wp_mono; [apply (KEY g nb i E1 ST)|].
          intros [g' nb'] (ST' & C' & L' & X' & H'). cbn [fst snd] in *. apply wp_ok.
          exists (nv - (i + 1)). split; [lia|]. split; auto. split; [lia|]. split; auto.
          split; [|split; [apply (QL g g' i); auto|split]].
          2: { intros v Hv. pose proof (hstep_le a i srt (CUR_MAX_SIZE g)) as HL. rewrite <- H' in HL.
               destruct (Nat.eq_dec v i) as [->|]; [right; unfold quiet; rewrite H'; apply hstep_idem|].
               destruct (Q2 v ltac:(lia)) as [Q4|Q4]; [left; lia|right; eapply hstep_quiet; eauto]. }
          2: { intros HQ. rewrite H'. rewrite (Q3 HQ). apply Nat.leb_gt in E3. apply Nat.ltb_lt in E2. rewrite (Q3 HQ) in *.
               destruct HQ as [_ [HQ|HQ]]; [lia|]. destruct (HQ i E1) as [HQ1|HQ1]; [lia|exact HQ1]. }
          intros Z0. destruct (Z Z0) as [Z2 Z3]. split; [apply (nz_called (set_cur g c0) (set_cur g' c0)); auto|].
          pose proof (called_le _ _ C') as CL. cbn [set_cur CUR_MAX_SIZE] in CL. lia.
      + apply wp_ok. destruct ST as (S1 & S2 & S3 & S4 & S5). cbn [fst snd] in *.
        eapply wp_mono; [apply clear_memory_spec; [apply (sh_mem _ _ _ _ (go_shape _ _ _ _ _ S2))|rewrite S4; lia]|].
        intros g' (m & -> & K1 & K2 & K3). rewrite S4 in *. replace (c0 + w + w - 2 * w) with c0 in * by lia.
        destruct K2 as [K2 K4].
        assert (LOW : forall k, k < eb a nv -> nth k m 0%N = nth k (edge_bits g) 0%N).
        { intros k Hk. apply K4. pose proof (go_eb _ _ _ _ _ S2). lia. }
        assert (BB : base a nv c0 (set_cur (set_mem g m) c0) mcs0).
        { destruct S2 as [Y1 Y2 Y3 Y4 Y5]. split; auto.
          - destruct Y1. split; auto.
          - destruct Y3 as (B' & Y6 & Y7). exists B'. cbn [set_cur set_mem max_degree edge_bits]. split; auto. lia.
          - intros k Hk. destruct (Y4 k Hk) as (s & K & R & Y6). exists s, K. split; auto.
            cbn [set_cur set_mem edge_bits]. eapply rep_nth; [|exact K2|exact R]. intros x Hx. apply LOW.
            pose proof (block_end a nv k Hk). lia. }
        split; [|split; [|split; [|split; [|exact Q3]]]].
        4: { split; [exact Q1|]. cbn [set_cur set_mem CLIQUE_LIMIT CUR_MAX_SIZE]. apply andb_false_iff in E.
             destruct E as [E|E]; apply Nat.ltb_ge in E; [right|left; auto]. intros v Hv. apply Q2. lia. }
        * split; auto. cbn [set_cur set_mem search_cur edge_bits]. intros k Hk.
          destruct (Nat.lt_ge_cases k (c0 + w + w)) as [|GE]; [apply K3; lia|]. rewrite K4 by lia. apply S5. lia.
        * destruct S3 as [Y1 Y2 Y3 Y5 Y4]. split; auto.
          -- cbn [set_cur set_mem edge_bits]. rewrite K2. exact Y3.
          -- intros k Hk. cbn [set_cur set_mem edge_bits]. rewrite K4 by (cbn [gB set_cur search_cur] in Hk; lia). exact (Y5 k Hk).
          -- cbn [set_cur set_mem edge_bits CUR_MAX_SIZE CUR_MAX_LOC] in *.
             destruct Y4 as [(E1 & E2 & E3)|(E1 & K & R & E2)]; [left|right].
             ++ split; auto. split; auto. intros k Hk. rewrite LOW by auto. exact (E3 k Hk).
             ++ split; auto. exists K. split; auto. cbn [set_cur set_mem edge_bits]. eapply rep_nth; [|exact K2|exact R].
                intros x Hx. apply LOW. pose proof (block_end a nv _ (go_loc _ _ _ _ _ BB)). cbn [set_cur set_mem CUR_MAX_LOC] in *. lia.
        * intros Z0. apply (Z Z0).
  Qed.
End Graph.

Notation base := (@baseR false).
Notation good := (goodR false).
