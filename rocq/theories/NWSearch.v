(** NWSearch: the searches of the whole node-weighted graph, from the searches of one root. *)
From Verif Require Import Base MBits MUtils MGraph MHeur MNW SpecBits BaseFacts BitsFacts SetFacts SortFacts RowFacts ConstructFacts CardFacts SearchBase StackFacts SearchFacts FrameFacts FrameInv NWSum NWBase NWStack NWHeur.
From Coq Require Import Sorting.Sorted Sorting.Permutation.
Local Open Scope nat_scope.
Local Arguments Nat.sub : simpl never.
Local Arguments Nat.mul : simpl never.

(** Enough scratch space above offset [c] for every root. *)
Definition nroomy (a : pairs) (nv c : nat) (g : graph) : Prop :=
  exists B, 1 <= B /\ (forall k, k < nv -> (forall K, pclique a k K -> card (rlen a k) K <= B) /\ rlen a k <= max_degree g)
    /\ c + (B + 1) * words (max_degree g) <= length (edge_bits g).

(** The block of [k] holds the clique K rooted at [k]. *)
Definition wholds (a : pairs) (wt : wts) (g : graph) (k : nat) (K : nat -> bool) : Prop :=
  rep (edge_bits g) (eb a k) (rlen a k) K /\ rooted_by (wcand a wt k) a k K /\ pclique a k K.

(** The incumbent: the block of w_loc holds a clique of at least two vertices whose weight is w_size. *)
Definition incumbent (a : pairs) (wt : wts) (W : nwgraph) : Prop :=
  exists K, wholds a wt (w_g W) (w_loc W) K /\ 2 <= card (rlen a (w_loc W)) K
    /\ (wexact a wt -> wsum (rlen a (w_loc W)) (pw a wt (w_loc W)) K = w_size W).

(** The state during a search, when the scratch space starts at [c]. *)
Record nbase (a : pairs) (nv : nat) (wt : wts) (c : nat) (W : nwgraph) (mcs : nat -> nat) : Prop := {
  nb_shape : shape a nv (w_g W) mcs;
  nb_eb : eb a nv <= c;
  nb_room : nroomy a nv c (w_g W);
  nb_bits : forall k, k < nv -> exists K, wholds a wt (w_g W) k K;
  nb_loc : w_loc W < nv;
  nb_wt : w_wt W = map wt (seq 0 nv);
  nb_deg : w_deg W = map (dgr a wt) (seq 0 nv);
  nb_mcs : length (w_mcs W) = nv
}.

Definition ngood (a : pairs) (nv : nat) (wt : wts) (W : nwgraph) (mcs : nat -> nat) : Prop :=
  nbase a nv wt (search_cur (w_g W)) W mcs /\ zero_from (edge_bits (w_g W)) (search_cur (w_g W)).

(** What any number of root searches may change. *)
Record ncalled (a : pairs) (nv : nat) (wt : wts) (W0 W : nwgraph) : Prop := {
  nc_core : core (w_g W) = core (w_g W0);
  nc_cur : search_cur (w_g W) = search_cur (w_g W0);
  nc_len : length (edge_bits (w_g W)) = length (edge_bits (w_g W0));
  nc_lim : w_limit W = w_limit W0;
  nc_low : forall k, eb a nv <= k < search_cur (w_g W0) -> nth k (edge_bits (w_g W)) 0%N = nth k (edge_bits (w_g W0)) 0%N;
  nc_best : (w_size W = w_size W0 /\ w_loc W = w_loc W0
             /\ forall k, k < eb a nv -> nth k (edge_bits (w_g W)) 0%N = nth k (edge_bits (w_g W0)) 0%N)
            \/ incumbent a wt W
}.

Definition nheavy (a : pairs) (wt : wts) (v : nat) (M : Z) : Prop := no_heavier a v wt M.
Definition nvalid (a : pairs) (nv : nat) (wt : wts) (W : nwgraph) : Prop :=
  forall v x, v < nv -> nth_error (w_mcs W) v = Some x -> nheavy a wt v (Z.max x (w_size W)).
Definition nsvalid (a : pairs) (nv : nat) (wt : wts) (W : nwgraph) : Prop :=
  forall v x, v < nv -> nth_error (w_mcs W) v = Some x -> nheavy a wt v x.
Definition nwide (a : pairs) (nv : nat) (wt : wts) (W : nwgraph) : Prop := forall v, v < nv -> nheavy a wt v (w_limit W).

Lemma nheavy_le a wt v M M' : (M <= M')%Z -> nheavy a wt v M -> nheavy a wt v M'.
Proof. intros H N K K1 K2 K3. specialize (N K K1 K2 K3). lia. Qed.

Section Graph.
  Variables (a : pairs) (nv : nat) (wt : wts).
  Hypothesis HC : gctx a nv.
  Let HS := gc_sorted _ _ HC.
  Let Hself := gc_self _ _ HC.
  Let Hb := gc_b _ _ HC.
  Notation nbase := (nbase a nv wt).
  Notation ngood := (ngood a nv wt).
  Notation ncalled := (ncalled a nv wt).
  Notation wholds := (wholds a wt).
  Notation nheavy := (nheavy a wt).
  Notation nonneg := (wexact a wt /\ forall u, u < nv -> (0 <= wt u)%Z).
  Notation rnd := (wrnd wt).

  Lemma nonneg_pos cur : nonneg -> forall x, x < rlen a cur -> (0 <= pw a wt cur x)%Z.
  Proof. intros [_ NN] x Hx. apply NN. apply (nbr_lt a nv HC). auto. Qed.

  Lemma ncalled_refl W : ncalled W W.
  Proof. split; auto. Qed.

  Lemma holds_nth m m' g g' k K : (forall x, in_block a k x -> nth x m' 0%N = nth x m 0%N) -> length m' = length m ->
    edge_bits g = m -> edge_bits g' = m' -> wholds g k K -> wholds g' k K.
  Proof.
    intros H L E E' (R & R1 & R2). subst. split; auto. eapply rep_nth; [|exact L|exact R]. exact H.
  Qed.

  Lemma ncalled_trans W0 W1 W2 : w_loc W1 < nv -> ncalled W0 W1 -> ncalled W1 W2 -> ncalled W0 W2.
  Proof.
    intros HL [A1 A2 A3 A4 A6 A5] [B1 B2 B3 B4 B6 B5]. split; try congruence; [intros k Hk; rewrite B6, A6; auto; congruence|]. destruct B5 as [(E1 & E2 & E3)|E]; auto.
    destruct A5 as [(F1 & F2 & F3)|(K & F1 & F2 & F3)].
    - left. split; [congruence|]. split; [congruence|]. intros k Hk. rewrite E3; auto.
    - right. exists K. rewrite E1, E2. split; auto. apply (holds_nth (edge_bits (w_g W1)) (edge_bits (w_g W2)) (w_g W1) (w_g W2)); auto.
      intros x Hx. apply E3. pose proof (block_end a nv (w_loc W1) HL). unfold in_block in Hx. lia.
  Qed.

  Lemma nbase_room W mcs c cur : nbase c W mcs -> cur < nv -> exists B, 1 <= B /\ (forall K, pclique a cur K -> card (rlen a cur) K <= B)
    /\ c + (B + 1) * words (rlen a cur) <= length (edge_bits (w_g W)) /\ rlen a cur <= max_degree (w_g W)
    /\ c + 2 * words (max_degree (w_g W)) <= length (edge_bits (w_g W)).
  Proof.
    intros G Hc. destruct (nb_room _ _ _ _ _ _ G) as (B & H0 & H1 & H2). destruct (H1 cur Hc) as [H3 H4]. exists B. split; auto. split; auto.
    pose proof (words_mono _ _ H4) as WM.
    assert (E1 : (B + 1) * words (rlen a cur) <= (B + 1) * words (max_degree (w_g W))) by (apply Nat.mul_le_mono; lia).
    assert (E2 : 2 * words (max_degree (w_g W)) <= (B + 1) * words (max_degree (w_g W))) by (apply Nat.mul_le_mono_r; lia).
    split; [lia|]. split; auto. lia.
  Qed.

  (** The change of one root search, seen from outside. *)
  Lemma nbase_step W0 W mcs cur : cur < nv -> nbase (search_cur (w_g W0)) W0 mcs -> nprog a wt W0 W cur ->
    search_cur (w_g W) = search_cur (w_g W0) ->
    nbase (search_cur (w_g W0)) W mcs /\ ncalled W0 W
    /\ (forall v, v <> cur -> nth_error (w_mcs W) v = nth_error (w_mcs W0) v)
    /\ (forall x, nth_error (w_mcs W) cur = Some x -> nth_error (w_mcs W0) cur = Some x \/ x = w_size W).
  Proof.
    intros Hc G P Ec. pose proof (nprog_shape a nv cur wt W0 mcs (nb_shape _ _ _ _ _ _ G) W P) as SH.
    pose proof P as [P1 P2 P3 P4 P5 P6 P7 P8 P9]. pose proof (block_end a nv cur Hc) as BE.
    pose proof (nb_eb _ _ _ _ _ _ G) as GE. pose proof (nb_loc _ _ _ _ _ _ G) as GL.
    assert (CO := P1). unfold core in CO. inversion CO.
    assert (CA : ncalled W0 W).
    { split; auto; [intros k Hk; apply P8; unfold in_block; lia|]. destruct P9 as [(B1 & B2 & B3 & B4)|(B1 & B2 & K & R1 & R2 & R3 & R4 & R5)]; [left|right].
      - split; auto. split; auto. intros k Hk.
        destruct (Nat.le_gt_cases (eb a cur) k); [destruct (Nat.lt_ge_cases k (eb a cur + words (rlen a cur)))|].
        + apply B4. split; auto.
        + apply P8; [lia|unfold in_block; lia].
        + apply P8; [lia|unfold in_block; lia].
      - exists K. rewrite B1. split; [split; auto|auto]. }
    assert (GB : forall k, k < nv -> exists K, wholds (w_g W) k K).
    { intros k Hk. destruct (nb_bits _ _ _ _ _ _ G k Hk) as (K & HK).
      assert (Same : (forall x, in_block a k x -> nth x (edge_bits (w_g W)) 0%N = nth x (edge_bits (w_g W0)) 0%N) -> exists K, wholds (w_g W) k K).
      { intros E. exists K. apply (holds_nth (edge_bits (w_g W0)) (edge_bits (w_g W)) (w_g W0) (w_g W)); auto. }
      destruct (Nat.eq_dec k cur) as [->|NE].
      - destruct P9 as [(B1 & B2 & B3 & B4)|(B1 & B2 & K' & R1 & R2 & R3 & R4 & R5)]; auto. exists K'. split; auto.
      - apply Same. intros x Hx. apply P8.
        + pose proof (block_end a nv k Hk). unfold in_block in Hx. lia.
        + intros Hx'. apply (block_disjoint a nv k cur x Hk Hc NE); auto. }
    assert (GR : nroomy a nv (search_cur (w_g W0)) (w_g W)).
    { destruct (nb_room _ _ _ _ _ _ G) as (B & R0 & R1 & R2). exists B. rewrite P6. replace (max_degree (w_g W)) with (max_degree (w_g W0)) by congruence. auto. }
    assert (LW : length (w_mcs W) = nv /\ w_loc W < nv).
    { pose proof (nb_mcs _ _ _ _ _ _ G).
      destruct P9 as [(_ & B2 & -> & _)|(-> & [->| ->] & _)]; rewrite ?upd_length; auto. split; congruence. }
    split; [|split; [|split]]; auto.
    - destruct G. split; try tauto; congruence.
    - intros v Hv. destruct P9 as [(_ & _ & -> & _)|(_ & [->| ->] & _)]; auto.
      apply nth_error_upd_neq. congruence.
    - intros x Hx. destruct P9 as [(_ & _ & E & _)|(_ & [E|E] & _)]; rewrite E in Hx; auto.
      rewrite nth_error_upd in Hx. rewrite Nat.eqb_refl in Hx. cbn [andb] in Hx.
      destruct (cur <? length (w_mcs W0)); [|auto]. right. congruence.
  Qed.

  Lemma nw_done W mcs c : nbase c W mcs -> forall v, v < nv -> exists x, nth_error (w_mcs W) v = Some x.
  Proof. intros G v Hv. destruct (nth_error (w_mcs W) v) eqn:E; eauto. apply nth_error_None in E. pose proof (nb_mcs _ _ _ _ _ _ G). lia. Qed.

  (** One root, by the stack search. *)
  Lemma nd_step lr W0 mcs buf cur : ngood W0 mcs -> cur < nv -> length buf = max_degree (w_g W0) ->
    wp (nd_process_vertex rnd lr W0 buf cur) (fun r => let '(W, buf') := r in ngood W mcs /\ ncalled W0 W /\ (w_size W0 <= w_size W)%Z
       /\ length buf' = max_degree (w_g W)
       /\ (nonneg -> (w_limit W0 <= w_size W)%Z \/ nheavy cur (w_size W))
       /\ (nonneg -> nvalid a nv wt W0 -> (w_limit W0 <= w_size W)%Z \/ nvalid a nv wt W)
       /\ (nonneg -> nwide a nv wt W0 -> nsvalid a nv wt W0 -> nsvalid a nv wt W)).
  Proof.
    intros [G Z] Hc HB. destruct (nbase_room W0 mcs _ cur G Hc) as (B & B1 & B2 & B3 & B4 & _).
    eapply wp_mono; [apply (nd_process_vertex_spec a nv cur wt lr W0 mcs B HC Hc (nb_shape _ _ _ _ _ _ G) (nb_wt _ _ _ _ _ _ G)
      (nb_deg _ _ _ _ _ _ G) (nb_mcs _ _ _ _ _ _ G) (nb_eb _ _ _ _ _ _ G) Z B2 B1 B3 buf ltac:(lia))|].
    intros [W buf'] ([S1 S2 S3] & SZ & LB & D).
    destruct (nbase_step W0 W mcs cur Hc G S1 S2) as (N1 & N2 & N3 & N4).
    assert (DD : nonneg -> (w_limit W0 <= w_size W)%Z \/ nheavy cur (w_size W)).
    { intros NN. destruct (D (proj1 NN) (nonneg_pos cur NN)); auto. rewrite <- (nc_lim _ _ _ _ _ N2). auto. }
    split; [split; rewrite S2; auto|]. split; auto. split; auto. split.
    { rewrite LB, HB. pose proof (nc_core _ _ _ _ _ N2) as E. unfold core in E. congruence. }
    split; auto. split.
    - intros NN V. destruct (DD NN) as [|DH]; auto. right. intros v x Hv Hx. destruct (Nat.eq_dec v cur) as [->|NE].
      + eapply nheavy_le; [|exact DH]. lia.
      + rewrite N3 in Hx by auto. eapply nheavy_le; [|apply (V v x Hv Hx)]. lia.
    - intros NN WD V v x Hv Hx. destruct (Nat.eq_dec v cur) as [->|NE].
      + destruct (N4 x Hx) as [E| ->]; [apply V; auto|]. destruct (DD NN) as [L|]; auto. eapply nheavy_le; [exact L|]. apply WD. auto.
      + rewrite N3 in Hx by auto. apply V; auto.
  Qed.

  (** ** The stack search of the graph *)
  Lemma nd_process_graph_spec lr junk W0 mcs : ngood W0 mcs ->
    wp (nd_process_graph rnd lr junk W0) (fun r => let '(W, i) := r in i = nv /\ ngood W mcs /\ ncalled W0 W /\ (w_size W0 <= w_size W)%Z
       /\ (nonneg -> nvalid a nv wt W0 -> (w_limit W0 <= w_size W)%Z \/ forall v, v < nv -> nheavy v (w_size W))
       /\ (nonneg -> nwide a nv wt W0 -> nsvalid a nv wt W0 -> nsvalid a nv wt W)).
  Proof.
    intros G0. unfold nd_process_graph. apply wp_bind.
    eapply wp_mono; [apply (nd_step lr W0 mcs _ _ G0 (nb_loc _ _ _ _ _ _ (proj1 G0))); rewrite map_length, seq_length; auto|].
    intros [W1 buf1] (G1 & C1 & Z1 & L1 & D1 & V1 & S1). apply wp_bind.
    rewrite (sh_nv _ _ _ _ (nb_shape _ _ _ _ _ _ (proj1 G1))).
    apply (wp_for 0 nv _ (fun i '(W, buf) => ngood W mcs /\ ncalled W0 W /\ (w_size W0 <= w_size W)%Z /\ length buf = max_degree (w_g W)
       /\ (nonneg -> nvalid a nv wt W0 -> (w_limit W0 <= w_size W)%Z \/ nvalid a nv wt W /\ forall v, v < i -> nheavy v (w_size W))
       /\ (nonneg -> nwide a nv wt W0 -> nsvalid a nv wt W0 -> nsvalid a nv wt W))); [lia| | |].
    - do 4 (split; auto). split; auto. intros NN V. destruct (V1 NN V); auto. right. split; auto. intros; lia.
    - intros i [W buf] [_ Hi] (G & C & SZ & LB & V & S).
      destruct (nw_done W mcs _ (proj1 G) i Hi) as (x & Hx). rewrite (rd_some _ _ _ Hx). cbn [bind].
      pose proof (nc_lim _ _ _ _ _ C) as LIM.
      destruct ((x <=? w_size W)%Z || (w_limit W <=? w_size W)%Z) eqn:E.
      + apply wp_ok. do 4 (split; auto). split; auto. intros NN V0. destruct (V NN V0) as [|[V2 V3]]; auto.
        apply orb_prop in E. destruct E as [E|E]; apply Z.leb_le in E; [|left; lia].
        right. split; auto. intros v Hv. destruct (Nat.eq_dec v i) as [->|]; [|apply V3; lia].
        eapply nheavy_le; [|apply (V2 i x Hi Hx)]. lia.
      + apply orb_false_elim in E. destruct E as [E1 E2]. apply Z.leb_gt in E1, E2.
        eapply wp_mono; [apply (nd_step lr W mcs buf i G Hi LB)|].
        intros [W' buf'] (G' & C' & SZ' & LB' & D' & V' & S').
        split; auto. split; [eapply ncalled_trans; [|exact C|exact C']; apply (proj1 G)|]. split; [lia|]. split; auto. rewrite LIM in *. split.
        * intros NN V0. destruct (V NN V0) as [|[V2 V3]]; [left; lia|]. destruct (V' NN V2) as [|V4]; auto. destruct (D' NN) as [|D4]; auto.
          right. split; auto. intros v Hv. destruct (Nat.eq_dec v i) as [->|]; auto. eapply nheavy_le; [|apply V3; lia]. lia.
        * intros NN WD SV. apply S'; auto. intros v Hv. rewrite LIM. apply WD. auto.
    - intros [W buf] (G & C & SZ & LB & V & S). apply wp_ok.
      split; [apply (sh_nv _ _ _ _ (nb_shape _ _ _ _ _ _ (proj1 G)))|]. do 3 (split; auto). split; auto.
      intros NN V0. destruct (V NN V0) as [|[_ V3]]; auto.
  Qed.

  (** ** The heuristic search of the graph *)
  Lemma nh_process_graph_spec srt W0 mcs : (forall l, Permutation (srt l) l) -> ngood W0 mcs ->
    wp (nh_process_graph rnd srt W0) (fun W => ngood W mcs /\ ncalled W0 W /\ w_mcs W = w_mcs W0).
  Proof.
    intros HP G0. set (c0 := search_cur (w_g W0)). set (D := max_degree (w_g W0)). set (w := words D).
    pose proof (nb_loc _ _ _ _ _ _ (proj1 G0)) as GL.
    destruct (nbase_room W0 mcs _ _ (proj1 G0) GL) as (_ & _ & _ & _ & RD & R3). fold c0 D w in R3, RD.
    assert (WP : 1 <= w). { pose proof (len_pos a nv HS Hself _ GL). apply words_pos. lia. }
    unfold nh_process_graph. cbv zeta. fold D. fold w.
    rewrite load_memory_ok by (fold c0; lia). cbn [bind].
    rewrite load_memory_ok by (cbn [set_cur search_cur edge_bits]; fold c0; lia). cbn [bind set_cur search_cur edge_bits max_degree n_vert]. fold c0 D.
    set (gA := set_cur (set_cur (w_g W0) (c0 + w)) (c0 + w + w)). change (set_cur _ (c0 + w + w)) with gA.
    set (at_c := fun W => set_wg W (set_cur (w_g W) c0)).
    (* the state of the graph while the heuristic owns its two blocks *)
    set (st := fun (r : nwgraph * list wdata) => let W := fst r in
         nbok nv D (snd r) /\ nbase c0 W mcs /\ ncalled W0 (at_c W) /\ search_cur (w_g W) = c0 + w + w
         /\ zero_from (edge_bits (w_g W)) (c0 + 2 * w) /\ w_mcs W = w_mcs W0).
    assert (SM : forall W nb, st (W, nb) -> max_degree (w_g W) = D /\ n_vert (w_g W) = nv /\ length (edge_bits (w_g W)) = length (edge_bits (w_g W0))).
    { intros W nb (_ & SB & SC & _). pose proof (nc_core _ _ _ _ _ SC) as E. unfold core in E. inversion E. split; auto.
      split; [apply (sh_nv _ _ _ _ (nb_shape _ _ _ _ _ _ SB))|]. exact (nc_len _ _ _ _ _ SC). }
    assert (KEY : forall W nb cur, cur < nv -> st (W, nb) ->
       wp (nh_process_vertex rnd srt W nb cur (refer_from c0 D) (refer_from (c0 + w) D)) st).
    { intros W nb cur Hc ST. destruct (SM W nb ST) as (M1 & M2 & M3). destruct ST as (S1 & S2 & S3 & S4 & S5 & S6). cbn [fst snd] in *.
      destruct (nbase_room W mcs _ cur S2 Hc) as (_ & _ & _ & _ & HD & _).
      pose proof (nh_process_vertex_spec a nv cur wt HC Hc srt W nb mcs c0 HP (nb_shape _ _ _ _ _ _ S2) (nb_wt _ _ _ _ _ _ S2) (nb_deg _ _ _ _ _ _ S2) HD) as SP.
      rewrite M1 in SP. fold w in SP. eapply wp_mono; [apply SP; auto; [apply (nb_eb _ _ _ _ _ _ S2)|lia]|].
      intros [W' nb'] (Q1 & Q2 & Q3 & Q4 & Q5). cbn [fst snd] in *.
      destruct (nbase_step (at_c W) (at_c W') mcs cur Hc) as (B1 & B2 & _ & _); auto.
      { destruct S2 as [X1 X2 X3 X4 X5 X6 X7 X8]. destruct X1. split; auto. split; auto. }
      assert (BB : nbase c0 W' mcs).
      { destruct B1 as [X1 X2 X3 X4 X5 X6 X7 X8]. destruct X1. split; auto. split; auto. }
      unfold st. cbn [fst snd]. split; auto. split; auto. split; [eapply ncalled_trans; [|exact S3|exact B2]; apply S2|].
      split; [congruence|]. split; [|congruence]. intros k Hk. rewrite Q4 by auto. apply S5. auto. }
    assert (ST0 : st (set_wg W0 gA, repeat (mkWD 0 0 0 0%Z) D)).
    { unfold st. cbn [fst snd]. split; [split; [apply repeat_length|apply Forall_forall; intros x Hx; apply repeat_spec in Hx; subst; cbn; lia]|].
      split; [|split; [|split; [|split]]]; auto.
      - destruct (proj1 G0) as [X1 X2 X3 X4 X5 X6 X7 X8]. destruct X1. split; auto. split; auto.
      - apply (Build_ncalled); auto.
      - intros k Hk. apply (proj2 G0). fold c0. lia. }
    apply wp_bind. eapply wp_mono; [apply (KEY (set_wg W0 gA) _ _ GL ST0)|].
    intros [W1 nb1] ST1. destruct (SM _ _ ST1) as (M1 & M2 & M3). rewrite M2. apply wp_bind.
    apply (wp_loopN_rel _ _ (fun s n => let '(W, nb, i) := s in n = nv - i /\ i <= nv /\ st (W, nb)) _ nv); [split; auto; [lia|split; auto; lia]|lia|].
    - intros [[W nb] i] n (En & Hi & ST). destruct (SM _ _ ST) as (N1 & N2 & N3). rewrite N2.
      destruct ((i <? nv) && (w_size W <? w_limit W)%Z) eqn:E.
      + apply andb_prop in E. destruct E as [E1 E2]. apply Nat.ltb_lt in E1.
        assert (BG : nbase c0 W mcs) by (apply ST).
        destruct (nw_done W mcs _ BG i E1) as (x & Hx). rewrite (rd_some _ _ _ Hx). cbn [bind].
        destruct (x <=? w_size W)%Z.
        * apply wp_ok. exists (nv - (i + 1)). split; [lia|]. split; auto. split; [lia|auto].
        * apply wp_bind. eapply wp_mono; [apply (KEY W nb i E1 ST)|]. intros [W' nb'] ST'. apply wp_ok.
          exists (nv - (i + 1)). split; [lia|]. split; auto. split; [lia|auto].
      + apply wp_ok. destruct ST as (S1 & S2 & S3 & S4 & S5 & S6). cbn [fst snd] in *.
        apply wp_bind. eapply wp_mono; [apply clear_memory_spec|].
        * apply (sh_mem _ _ _ _ (nb_shape _ _ _ _ _ _ S2)).
        * lia.
        * intros g' (m & -> & K1 & K2 & K3). replace (search_cur (w_g W) - 2 * w) with c0 in * by lia. apply wp_ok.
          destruct K2 as [K2l K2].
          assert (BL : forall k, k < c0 -> nth k m 0%N = nth k (edge_bits (w_g W)) 0%N) by (intros; apply K2; lia).
          pose proof (nb_eb _ _ _ _ _ _ S2) as GE.
          assert (HB : forall k K, k < nv -> wholds (w_g W) k K -> wholds (set_cur (set_mem (w_g W) m) c0) k K).
          { intros k K Hk HK. apply (holds_nth (edge_bits (w_g W)) m (w_g W)); auto.
            intros x Hx. apply BL. pose proof (block_end a nv k Hk). unfold in_block in Hx. lia. }
          split; [split|split].
          -- destruct S2 as [X1 X2 X3 X4 X5 X6 X7 X8]. destruct X1. split; auto.
             ++ split; auto.
             ++ destruct X3 as (B & Y0 & Y1 & Y2). exists B. split; auto. split; auto. cbn [set_wg w_g set_cur set_mem edge_bits max_degree search_cur] in *. lia.
             ++ intros k Hk. destruct (X4 k Hk) as (K & HK). exists K. apply HB; auto.
          -- intros k Hk. cbn [set_wg w_g set_cur set_mem edge_bits search_cur] in *.
             destruct (Nat.lt_ge_cases k (c0 + 2 * w)); [apply K3; lia|]. rewrite K2 by lia. apply S5. auto.
          -- destruct S3 as [Y1 Y2 Y3 Y4 Y6 Y5]. split; auto.
             ++ cbn [set_wg w_g set_cur set_mem edge_bits] in *. unfold at_c in Y3. cbn [set_wg w_g set_cur edge_bits] in Y3. lia.
             ++ intros k Hk. cbn [set_wg w_g set_cur set_mem edge_bits]. rewrite BL by apply Hk. apply Y6. auto.
             ++ destruct Y5 as [(F1 & F2 & F3)|(K & F1 & F2 & F3)]; [left|right].
                ** split; auto. split; auto. intros k Hk. cbn [set_wg w_g set_cur set_mem edge_bits]. rewrite BL by lia. apply F3. auto.
                ** exists K. split; auto. cbn [set_wg w_g w_loc]. apply HB; [apply S2|]. exact F1.
          -- auto.
  Qed.
End Graph.
