(** NWEnumApi: iterating NWGraph.all_cliques to the end, on the objects Python sees. *)
From Verif Require Import Base MBits MUtils MGraph MHeur MApi MNW MNWEnum MNWApi Spec SpecNW SpecOrder SpecBits BaseFacts BitsFacts SetFacts SortFacts RowFacts ConstructFacts CardFacts LoadFacts SearchBase StackFacts SearchFacts CliqueFacts FrameFacts FrameInv NWSum NWBase NWStack NWHeur NWSearch ApiFacts EnumFacts EnumApi NWFacts NWEnumFacts.
From Coq Require Import Sorting.Sorted Sorting.Permutation.
Local Open Scope nat_scope.
Local Arguments Nat.sub : simpl never.
Local Arguments Nat.mul : simpl never.

(** ** The harness around next_clique *)
Lemma nw_drain_mono rnd lr f : forall f' p en r, nw_drain rnd f lr p en = Ok r -> f <= f' -> nw_drain rnd f' lr p en = Ok r.
Proof.
  induction f as [|f IH]; intros f' p en r E L; [discriminate|]. destruct f' as [|f']; [lia|]. cbn [nw_drain] in *.
  destruct (nw_next_clique rnd lr p en) as [[[p1 en1] [c|x]]| |]; cbn [bind] in *; try discriminate; auto.
  destruct (nw_drain rnd f lr p1 en1) as [[[p2 en2] l]| |] eqn:E1; cbn [bind] in E; try discriminate.
  rewrite (IH f' _ _ _ E1) by lia. exact E.
Qed.

Lemma nw_drain_unique rnd lr f p en p' en' l r : nw_drain rnd f lr p en = Ok r ->
  (forall fuel, length l < fuel -> nw_drain rnd fuel lr p en = Ok (p', en', l)) -> r = (p', en', l).
Proof.
  intros E H. pose proof (nw_drain_mono rnd lr f (f + S (length l)) p en r E ltac:(lia)) as E1. rewrite H in E1 by lia. congruence.
Qed.

Lemma weight_perm w l l' : Permutation l l' -> weight w l = weight w l'.
Proof. induction 1; cbn [weight]; lia. Qed.

Lemma remove_perm u (d : list nat) : NoDup d -> In u d -> Permutation d (u :: remove Nat.eq_dec u d).
Proof.
  intros N I. apply NoDup_Permutation; auto.
  - constructor; [apply remove_In|]. clear I. induction N as [|x l H N IH]; [constructor|]. cbn [remove].
    destruct (Nat.eq_dec u x); auto. constructor; auto. intros J. apply in_remove in J. tauto.
  - intros x. split.
    + intros J. destruct (Nat.eq_dec x u) as [->|]; [left; auto|right; apply in_in_remove; auto].
    + intros [<-|J]; auto. apply in_remove in J. tauto.
Qed.

(** all_cliques on an object whose graph is in order. *)
Lemma nw_all_new e W n m cu fin T : 1 <= n ->
  nw_all_cliques e (mkQ (Some W) n m cu fin) T = Ret (new_nenum (map (nw_junk e) (seq 0 (max_degree (w_g W)))) T).
Proof. intros Hn. unfold nw_all_cliques, nw_loaded. cbn [q_G q_nvert]. destruct (Nat.eqb_spec n 0); [lia|reflexivity]. Qed.

Section Gra.
  Variables (a : pairs) (n : nat) (adj : nat -> nat -> Prop) (w : list Z) (rnd : Z -> Z).
  Hypothesis GR : gra a n adj.
  Hypothesis LW : length w = n.
  Notation nv := (n + 1).
  Notation wt := (mkwts (vweight w) rnd).
  Let HC := gra_ctx a n adj GR.
  Let HS := gc_sorted _ _ HC.
  Let Hself := gc_self _ _ HC.
  Notation exact := (wexact a wt).
  Notation nonneg := (exact /\ wmono wt /\ forall u, u < nv -> (0 <= wt u)%Z).

  (** ** The targets of the enumeration, as lists *)
  Lemma dgr_weight v : exact -> dgr a wt v = weight w (row a v).
  Proof.
    intros EX. rewrite (wexact_dgr a wt v EX), weight_zsum, wsum_members. f_equal. unfold members.
    assert (F : forall l : list nat, filter (fun _ => true) l = l) by (induction l; simpl; congruence). rewrite F.
    rewrite <- (mapseq_nth (row a v) 0) at 2. rewrite map_map. reflexivity.
  Qed.

  Lemma row_wdegree v : exact -> v < nv -> wdegree adj w v (dgr a wt v).
  Proof.
    intros EX Hv. exists (row a v). split; [apply sorted_nodup, row_sorted, HS|]. split; [|apply dgr_weight; auto].
    intros u. rewrite row_in. destruct (Nat.eq_dec u v) as [->|NE].
    - split; auto.
    - pose proof (gra_adj _ _ _ v u GR) as X. intuition.
  Qed.

  Lemma wdegree_fun v x y : wdegree adj w v x -> wdegree adj w v y -> x = y.
  Proof.
    intros (l & N & H & ->) (l' & N' & H' & ->). apply weight_perm, NoDup_Permutation; auto. intros u. rewrite H, H'. tauto.
  Qed.

  Lemma starts_before d v : exact -> clique n adj d -> starts_at adj w d v <-> In v d /\ forall u, In u d -> u = v \/ wbef (dgr a wt) v u = true.
  Proof.
    intros EX (C1 & C2 & C3). unfold starts_at. split; intros [I H]; (split; [auto|]).
    - intros u Iu. destruct (Nat.eq_dec u v) as [|NE]; auto. right. pose proof (C2 v I). pose proof (C2 u Iu).
      specialize (H u _ _ Iu NE (row_wdegree v EX ltac:(lia)) (row_wdegree u EX ltac:(lia))).
      unfold wbef. apply orb_true_iff. rewrite andb_true_iff, Z.ltb_lt, Nat.ltb_lt, Z.eqb_eq. auto.
    - intros u xv xu Iu NE DV DU. pose proof (C2 v I). pose proof (C2 u Iu).
      rewrite (wdegree_fun _ _ _ DV (row_wdegree v EX ltac:(lia))), (wdegree_fun _ _ _ DU (row_wdegree u EX ltac:(lia))).
      destruct (H u Iu) as [|B]; [contradiction|]. unfold wbef in B. apply orb_true_iff in B.
      rewrite andb_true_iff, Z.ltb_lt, Nat.ltb_lt, Z.eqb_eq in B. auto.
  Qed.

  Lemma remove_weight u d : clique n adj d -> In u d ->
    (weight w (remove Nat.eq_dec u d) = weight w d - vweight w u)%Z /\ length d = S (length (remove Nat.eq_dec u d)).
  Proof.
    intros (C1 & _) I. pose proof (remove_perm u d (sorted_nodup _ C1) I) as P.
    pose proof (weight_perm w _ _ P) as E. cbn [weight] in E. split; [lia|]. apply Permutation_length in P. exact P.
  Qed.

  Lemma ntarget_minimal T v K : v < nv -> ntarget a v wt T K -> 1 <= v /\ clique n adj (decode a v K) /\ 2 <= length (decode a v K)
    /\ (exact -> heavy_minimal n adj w T (decode a v K) v).
  Proof.
    intros Hv (R & P & C & X). pose proof (two_root a n adj w GR LW v K Hv C) as Hv1. split; [lia|].
    pose proof (pclique_clique a n adj w GR LW v K Hv1 P) as CL. split; auto. rewrite decode_length. split; auto.
    intros EX. destruct (X EX) as (TW & j & Hj & Kj & Nj & Mj & LT). destruct (sp_spec a nv HS Hself v Hv) as [S1 S2].
    assert (IJ : In (nbr a v j) (decode a v K)) by (rewrite decode_in; exists j; auto).
    split; auto. rewrite decode_length, (decode_weight a w rnd). split; auto. split; auto. split.
    - apply starts_before; auto. split; [apply (wdecode_root a nv wt HC v K Hv R)|].
      intros u. apply (wdecode_before a nv wt HC v K u Hv R).
    - exists (nbr a v j). split.
      + split; auto. split; [rewrite <- S2 at 2; intros E; apply Nj; apply (nbr_inj a nv HC v); auto|].
        intros x I NE. apply decode_in in I. destruct I as (p & Hp & Kp & <-).
        destruct (Nat.eq_dec p j) as [->|]; auto. apply Nat.lt_le_incl. apply (nbr_mono a nv HC). split; auto.
        assert (p <> sp a v) by (intros ->; contradiction). specialize (Mj p Hp Kp H). lia.
      + destruct (remove_weight _ _ CL IJ) as [-> E2]. rewrite (decode_weight a w rnd). rewrite decode_length in E2.
        unfold pw in LT. destruct LT as [LT|LT]; [left; lia|right; auto].
  Qed.

  Lemma minimal_ntarget T v d : exact -> heavy_minimal n adj w T d v -> 1 <= v < nv /\ exists K, ntarget a v wt T K /\ d = decode a v K.
  Proof.
    intros EX (CL & L2 & TW & ST & u & (Iu & Nu & Mu) & LT). apply starts_before in ST; auto. destruct ST as [Iv BF].
    pose proof (proj1 (proj2 CL) v Iv) as Hv. split; [lia|].
    destruct (clique_at a n adj w GR LW d v CL Iv) as (K1 & K2 & K3 & K4). set (K := fun p => inb (nbr a v p) d) in *.
    destruct (sp_spec a nv HS Hself v ltac:(lia)) as [S1 S2].
    assert (IU : In u (decode a v K)) by (rewrite K3; auto). apply decode_in in IU. destruct IU as (j & Hj & Kj & Ej).
    exists K. split; auto. split.
    { split; auto. intros p Hp E. unfold K in E. apply inb_in in E. destruct (BF _ E) as [E'|B]; [left|right; exact B].
      apply (nbr_inj a nv HC v); auto. congruence. }
    split; auto. split; [lia|]. intros _. rewrite <- (decode_weight a w rnd), K3. split; auto.
    exists j. split; auto. split; auto. split; [intros ->; congruence|]. split.
    - intros x Hx Kx Nx. destruct (Nat.le_gt_cases x j) as [|G]; auto. exfalso. unfold K in Kx. apply inb_in in Kx.
      pose proof (nbr_mono a nv HC v j x ltac:(lia)) as M. rewrite Ej in M.
      assert (nbr a v x <> v) by (intros E; apply Nx; apply (nbr_inj a nv HC v); auto; congruence). specialize (Mu _ Kx H). lia.
    - destruct (remove_weight _ _ CL Iu) as [E1 E2]. unfold pw. cbn [wf]. rewrite Ej, K4. destruct LT; [left; lia|right; lia].
  Qed.

  (** ** Iterating to the end *)
  Section Run.
    Variables (W0 : nwgraph) (mcs : nat -> nat).
    Hypothesis G : ngood a nv wt W0 mcs.
    Variables (m cu : nat) (fin lr : bool) (T : Z).
    Notation obj W := (mkQ (Some W) n m cu fin).
    Notation c0 := (search_cur (w_g W0)).
    Notation kept := (nkept a nv wt W0).

    Definition ndrained (W : nwgraph) (en : nenum) (l : list (list nat)) : Prop :=
      exists W' en', (forall fuel, length l < fuel -> nw_drain rnd fuel lr (obj W) en = Ok (obj W', en', l))
        /\ kept W' /\ search_cur (w_g W') = c0 /\ zero_from (edge_bits (w_g W')) c0.

    Lemma nw_drain_big B : 1 <= B ->
      (forall v, v < nv -> (forall K, pclique a v K -> card (rlen a v) K <= B) /\ rlen a v <= max_degree (w_g W0)
         /\ c0 + (B + 1) * words (rlen a v) <= length (edge_bits (w_g W0))) ->
      forall N W en fs, nest a nv wt lr T W0 B W en N fs ->
      exists l, ndrained W en l /\ NoDup l /\ (forall d, In d l -> npend a nv wt T (ne_cur en) fs d)
        /\ (nonneg -> nsvalid a nv wt W0 -> forall d, npend a nv wt T (ne_cur en) fs d -> In d l)
        /\ StronglySorted (nprior a nv wt T) l.
    Proof.
      intros HB1 HB. induction N as [N IH] using (well_founded_induction lt_wf). intros W en fs ES.
      pose proof (ne_process_graph_spec a nv wt lr T W0 mcs B HC (proj1 G) HB1 HB W en N fs ES) as X. cbn [wrnd] in X.
      destruct (ne_process_graph rnd lr W en) as [[[W1 en1] v]| |] eqn:EP; try contradiction. cbn [ends_with] in X.
      destruct X as [(Hv & N1 & fs1 & K & LT & ES1 & TG & RP & _ & _ & P0 & P1 & P2)|(Hv & KE & SC & ZF & E1 & E2 & P2)].
      - destruct (IH N1 LT W1 en1 fs1 ES1) as (l & (W' & en' & DR & DR') & ND & S & C & SO).
        assert (EN : nw_next_clique rnd lr (obj W) en = Ok (obj W1, en1, Ret (decode a v K))).
        { unfold nw_next_clique. cbn [q_G q_nvert]. rewrite EP. cbn [bind]. destruct (Nat.ltb_spec n v); [lia|]. unfold nw_stored.
          rewrite (stored_decode a n adj GR (w_g W1) mcs v K); [|eapply nkept_shape; [apply G|exact (proj1 ES1)]|lia|exact RP].
          cbn [bind]. replace (set_wg W1 (w_g W1)) with W1 by (destruct W1; reflexivity). reflexivity. }
        exists (decode a v K :: l). split; [|split; [|split; [|split]]].
        + exists W', en'. split; auto. intros fuel L. destruct fuel as [|fuel]; [lia|]. cbn [nw_drain]. rewrite EN. cbn [bind].
          rewrite DR by (simpl in L; lia). reflexivity.
        + constructor; auto. intros I. apply S in I. apply P1 in I. tauto.
        + intros d [<-|I]; auto. apply P1, S; auto.
        + intros NN V d P. destruct (P2 NN V d P) as [->|P']; [left; auto|right; auto].
        + constructor; auto. apply Forall_forall. intros d I. apply P1, S, I.
      - exists []. split; [|split; [constructor|split; [intros d []|split; [|constructor]]]].
        + exists W1, en1. split; auto. intros fuel L. destruct fuel as [|fuel]; [lia|]. cbn [nw_drain]. unfold nw_next_clique. cbn [q_G q_nvert].
          rewrite EP. cbn [bind]. destruct (Nat.ltb_spec n v); [|lia]. reflexivity.
        + intros NN V d P. destruct (P2 NN V d P).
    Qed.

    Lemma nw_drain_full buf : length buf = max_degree (w_g W0) -> exists l, ndrained W0 (new_nenum buf T) l /\ NoDup l
      /\ (forall d, In d l -> clique n adj d /\ 2 <= length d /\ (exact -> exists v, v <> 1 /\ heavy_minimal n adj w T d v))
      /\ (nonneg -> nsvalid a nv wt W0 -> forall d v, heavy_minimal n adj w T d v -> v <> 1 -> In d l)
      /\ (exact -> StronglySorted (nw_listed_before n adj w T) l).
    Proof.
      intros LB. destruct (nb_room _ _ _ _ _ _ (proj1 G)) as (B & HB1 & H1 & H2).
      assert (HB : forall v, v < nv -> (forall K, pclique a v K -> card (rlen a v) K <= B) /\ rlen a v <= max_degree (w_g W0)
         /\ c0 + (B + 1) * words (rlen a v) <= length (edge_bits (w_g W0))).
      { intros v Hv. destruct (H1 v Hv) as [H3 H4]. split; auto. split; auto. pose proof (words_mono _ _ H4) as WM.
        assert ((B + 1) * words (rlen a v) <= (B + 1) * words (max_degree (w_g W0))) by (apply Nat.mul_le_mono; lia).
        lia. }
      assert (ES : nest a nv wt lr T W0 B W0 (new_nenum buf T) ((nv - 1) * 2 ^ (max_degree (w_g W0) + 2)) []).
      { split; [eapply nkept_refl; apply G|]. split; auto. split; [auto|]. split; auto. right. do 2 (split; auto). split; auto.
        split; [apply G|]. split; auto. }
      destruct (nw_drain_big B HB1 HB _ _ _ _ ES) as (l & DR & ND & S & C & SO). exists l. split; auto. split; auto.
      cbn [new_nenum ne_cur] in S, C. split; [|split].
      - intros d I. destruct (S d I) as (v & K & Hv & TG & -> & [L|[_ []]]). destruct (ntarget_minimal T v K Hv TG) as (_ & M1 & M2 & M3).
        split; auto. split; auto. intros EX. exists v. split; [lia|]. auto.
      - intros NN V d v M NE. destruct (minimal_ntarget T v d (proj1 NN) M) as (Hv & K & TG & ->). apply C; auto.
        exists v, K. split; [lia|]. split; auto. split; auto. left. lia.
      - intros EX. clear - EX SO S GR LW HC HS Hself. induction SO as [|d l SO IH F]; constructor; [apply IH; intros; apply S; right; auto|].
        rewrite Forall_forall in *. intros d' I. destruct (F d' I) as (v & K & v' & K' & Hv & Hv' & T1 & T2 & E & E' & X).
        destruct (S d (or_introl eq_refl)) as (v1 & K1 & Hv1 & TG1 & E1 & [L|[_ []]]).
        destruct (wdecode_inj a nv wt HC v v1 K K1) as [<- _]; auto; [apply T1|apply TG1|congruence|].
        exists v, v'. subst d d'. split; [apply ntarget_minimal; auto|]. split; [apply ntarget_minimal; auto|].
        destruct X as [X|(<- & X)]; [left; auto|]. right. split; auto. apply (lexlt_decode a nv); auto.
    Qed.

    Lemma nw_drain_ready buf : length buf = max_degree (w_g W0) -> exists l, ndrained W0 (new_nenum buf T) l /\ NoDup l
      /\ (forall d, In d l -> clique n adj d /\ 2 <= length d /\ (exact -> exists v, v <> 1 /\ heavy_minimal n adj w T d v))
      /\ (nonneg -> nsvalid a nv wt W0 -> forall d v, heavy_minimal n adj w T d v -> v <> 1 -> In d l).
    Proof. intros LB. destruct (nw_drain_full buf LB) as (l & H1 & H2 & H3 & H4 & _). exists l. auto. Qed.

    Lemma nkept_good W : kept W -> search_cur (w_g W) = c0 -> zero_from (edge_bits (w_g W)) c0 -> ngood a nv wt W mcs.
    Proof.
      intros KE SC ZF. destruct G as [B _]. split; [|rewrite SC; auto]. rewrite SC.
      pose proof (nkept_shape a nv wt W0 mcs B W KE) as SH. destruct B as [B1 B2 B3 B4 B5 B6 B7 B8]. split; auto.
      - destruct B3 as (M & H0 & H1 & H2). exists M. pose proof (nk_core _ _ _ _ _ KE) as E. unfold core in E.
        assert (ED : max_degree (w_g W) = max_degree (w_g W0)) by congruence. rewrite ED, (nk_len _ _ _ _ _ KE). auto.
      - apply KE.
      - rewrite (nk_loc _ _ _ _ _ KE). auto.
      - rewrite (nk_wt _ _ _ _ _ KE). auto.
      - rewrite (nk_deg _ _ _ _ _ KE). auto.
      - rewrite (nk_mcs _ _ _ _ _ KE). auto.
    Qed.
  End Run.

  Lemma nw_drain_good e W mcs m cu fin T en lr fuel q en' l : 1 <= n -> ngood a nv wt W mcs ->
    nw_all_cliques e (mkQ (Some W) n m cu fin) T = Ret en -> nw_drain rnd fuel lr (mkQ (Some W) n m cu fin) en = Ok (q, en', l) ->
    exists W', q = mkQ (Some W') n m cu fin /\ ngood a nv wt W' mcs /\ nkept a nv wt W W'.
  Proof.
    intros Hn G EA E. rewrite nw_all_new in EA by auto. injection EA as <-.
    destruct (nw_drain_ready W mcs G m cu fin lr T (map (nw_junk e) (seq 0 (max_degree (w_g W))))) as (l' & (W' & en2 & DR & KE & SC & ZF) & _);
      [rewrite map_length, seq_length; auto|].
    pose proof (nw_drain_unique _ _ _ _ _ _ _ _ _ E DR) as EQ. injection EQ as -> -> ->.
    exists W'. split; auto. split; auto. apply (nkept_good W mcs G W'); auto.
  Qed.
End Gra.
