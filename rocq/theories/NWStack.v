(** NWStack: NWStackDFS::process_vertex is memory safe, terminates, records only cliques, and (for non-negative weights)
    misses no heavier one. *)
From Verif Require Import Base MBits MUtils MGraph MNW SpecBits BaseFacts BitsFacts SetFacts SortFacts RowFacts ConstructFacts CardFacts SearchBase FrameFacts FrameInv LexFacts NWSum NWBase.
Local Open Scope nat_scope.
Local Arguments Nat.sub : simpl never.
Local Arguments Nat.mul : simpl never.

(** Number of members as for [card], total weight as for [wsum]: a clique that extends the path by members of S. *)
Section Cover.
  Variables (a : pairs) (nv cur : nat) (wt : wts).
  Hypothesis HC : gctx a nv.
  Notation N := (rlen a cur).
  Notation A := (padj a cur).
  Notation cp := (wcand a wt cur).
  Notation f := (pw a wt cur).
  Notation nonneg := (forall x, x < rlen a cur -> (0 <= pw a wt cur x)%Z).
  Notation exact := (wexact a wt).

  Definition wcov1 (R : list nat) (S K : nat -> bool) : Prop :=
    (forall x, In x R -> K x = true) /\ (forall x, x < N -> K x = true -> In x R \/ S x = true)
    /\ exists x, x < N /\ K x = true /\ S x = true.

  Fixpoint wcovered (fs : list frame) (K : nat -> bool) : Prop :=
    match fs with
    | [] => False
    | (id, X) :: fs' => wcov1 (id :: ids fs') X K \/ wcovered fs' K
    end.

  Definition WCov (fs : list frame) (M : Z) : Prop := exact -> nonneg ->
    forall K, rooted_by cp a cur K -> pclique a cur K -> 2 <= card N K -> (M < wsum N f K)%Z ->
    exists K', rooted_by cp a cur K' /\ pclique a cur K' /\ 2 <= card N K' /\ (wsum N f K <= wsum N f K')%Z /\ wcovered fs K'.

  (** No candidate can be added to K. *)
  Definition closed (K : nat -> bool) : Prop :=
    forall y, y < N -> cp y = true -> K y = false -> exists x, x < N /\ K x = true /\ A x y = false.

  (** The cliques to which nothing can be added are covered themselves. *)
  Definition XCov (fs : list frame) (M : Z) : Prop := exact -> nonneg ->
    forall K, rooted_by cp a cur K -> pclique a cur K -> 2 <= card N K -> closed K -> (M < wsum N f K)%Z -> wcovered fs K.

  Lemma wcovered_e fs K : wcovered fs K -> ecovered a cur fs K.
  Proof. induction fs as [|[id X] fs IH]; auto. intros [(C1 & C2 & _)|C]; [left; auto|right; auto]. Qed.

  Section Step.
    Variables (id : nat) (S : nat -> bool) (fs : list frame) (M : Z) (j : nat).
    Notation R := (id :: ids fs).
    Hypothesis ND : NoDup R.
    Hypothesis RN : forall x, In x R -> x < N.
    Hypothesis Hj : j < N.
    Hypothesis Sj : S j = true.
    Hypothesis Sx : forall x, x < N -> S x = true -> cp x = true /\ ~ In x R /\ forall p, In p R -> A p x = true.
    Hypothesis CV : WCov ((id, S) :: fs) M.

    Lemma wcov_has_j K : pclique a cur K -> (forall x, x < N -> K x = true -> In x R \/ S x = true) -> K j = true ->
      forall x, x < N -> K x = true -> In x R \/ x = j \/ inter a cur (minus S j) j x = true.
    Proof.
      intros HP HK Kj x Hx Kx. destruct (HK x Hx Kx) as [I|E]; auto. destruct (Nat.eq_dec x j) as [->|NE]; auto.
      right. right. unfold inter, minus. rewrite E, (HP j x) by auto. destruct (Nat.eqb_spec x j); [congruence|auto].
    Qed.

    Lemma wcov_no_j K : K j = false -> wcov1 R S K -> wcov1 R (minus S j) K.
    Proof.
      intros Kj (H1 & H2 & x & Hx & Kx & Ex). split; auto. split.
      - intros y Hy Ky. destruct (H2 y Hy Ky) as [|E]; auto. right. unfold minus. rewrite E.
        destruct (Nat.eqb_spec y j); [congruence|auto].
      - exists x. split; auto. split; auto. unfold minus. rewrite Ex. destruct (Nat.eqb_spec x j); [congruence|auto].
    Qed.

    Lemma WCov_prune M' : (M <= M')%Z -> (exact -> (wsum N f (inter a cur (minus S j) j) + zsum (map f R) + f j <= M')%Z) ->
      WCov ((id, minus S j) :: fs) M'.
    Proof.
      intros HM HT EX NN K K1 K2 K3 K4. destruct (CV EX NN K K1 K2 K3 ltac:(lia)) as (K' & J1 & J2 & J3 & J4 & C).
      exists K'. do 4 (split; auto). destruct C as [C|C]; [|right; auto]. left.
      destruct (K' j) eqn:Kj; [|apply wcov_no_j; auto]. exfalso.
      pose proof (wsum_three N f R j _ K' NN ND RN Hj (wcov_has_j K' J2 (proj1 (proj2 C)) Kj)). specialize (HT EX). lia.
    Qed.

    Hypothesis XV : XCov ((id, S) :: fs) M.

    Lemma XCov_prune M' : (M <= M')%Z -> (exact -> (wsum N f (inter a cur (minus S j) j) + zsum (map f R) + f j <= M')%Z) ->
      XCov ((id, minus S j) :: fs) M'.
    Proof.
      intros HM HT EX NN K K1 K2 K3 KC K4. destruct (XV EX NN K K1 K2 K3 KC ltac:(lia)) as [C|C]; [|right; auto]. left.
      destruct (K j) eqn:Kj; [|apply wcov_no_j; auto]. exfalso.
      pose proof (wsum_three N f R j _ K NN ND RN Hj (wcov_has_j K K2 (proj1 (proj2 C)) Kj)). specialize (HT EX). lia.
    Qed.

    Lemma XCov_push : (exists x, x < N /\ inter a cur (minus S j) j x = true) ->
      XCov ((j, inter a cur (minus S j) j) :: (id, minus S j) :: fs) M.
    Proof.
      intros (y & Hy & Ey) EX NN K K1 K2 K3 KC K4. destruct (XV EX NN K K1 K2 K3 KC K4) as [C|C]; [|right; right; auto].
      destruct (K j) eqn:Kj; [|right; left; apply wcov_no_j; auto].
      pose proof C as (C1 & C2 & C3). pose proof (wcov_has_j K K2 C2 Kj) as C4. left.
      assert (IH : exists x, x < N /\ K x = true /\ inter a cur (minus S j) j x = true).
      { destruct (card N (fun x => K x && inter a cur (minus S j) j x)) eqn:EC.
        - exfalso. assert (Z : forall x, x < N -> K x && inter a cur (minus S j) j x = false) by (apply card_zero; auto).
          assert (Ky : K y = false). { specialize (Z y Hy). rewrite Ey, andb_true_r in Z. auto. }
          assert (Ey' := Ey). unfold inter, minus in Ey'. apply andb_prop in Ey'. destruct Ey' as [Ey1 Aj]. apply andb_prop in Ey1. destruct Ey1 as [_ Sy].
          destruct (Sx y Hy Sy) as (Y1 & Y2 & Y3). destruct (KC y Hy Y1 Ky) as (x & Hx & Kx & Ax).
          destruct (C4 x Hx Kx) as [I|[-> |E]]; [rewrite Y3 in Ax by auto; discriminate|congruence|].
          specialize (Z x Hx). rewrite Kx, E in Z. discriminate.
        - assert (0 < card N (fun x => K x && inter a cur (minus S j) j x)) as P by lia. apply card_pos in P.
          destruct P as (x & Hx & E). apply andb_prop in E. exists x. tauto. }
      split; [|split]; auto.
      - intros x [<-|I]; auto.
      - intros x Hx Kx. destruct (C4 x Hx Kx) as [|[-> |E]]; auto; left; [right; auto|left; auto].
    Qed.

    (** Nothing can be added to the path and j: all other cliques of that weight come later. *)
    Lemma XCov_first pot K0 : fdisj a cur ((id, S) :: fs) -> (forall x, x < N -> minus S j x = true -> j < x) ->
      (forall x, x < N -> inter a cur (minus S j) j x = false) -> (M < pot)%Z ->
      (forall x, x < N -> K0 x = (x =? j) || inb x R) ->
      exact -> nonneg -> forall K, rooted_by cp a cur K -> pclique a cur K -> 2 <= card N K -> closed K -> wsum N f K = pot -> first_or a cur K0 K.
    Proof.
      intros FD GT I0 LT EK EX NN K K1 K2 K3 KC K4.
      assert (TOP : K j = true -> wcov1 R S K -> forall x, x < N -> K0 x = K x).
      { intros Kj C x Hx. rewrite EK by auto. pose proof (wcov_has_j K K2 (proj1 (proj2 C)) Kj x Hx) as C4. destruct (K x) eqn:Kx.
        - destruct (C4 eq_refl) as [I|[-> |E]]; [rewrite (proj2 (inb_in x R) I); apply orb_true_r|rewrite Nat.eqb_refl; auto|].
          rewrite I0 in E by auto. discriminate.
        - destruct (Nat.eqb_spec x j) as [->|]; [congruence|]. cbn [orb]. destruct (inb x R) eqn:E; auto. apply inb_in in E.
          rewrite (proj1 C x E) in Kx. discriminate. }
      assert (REST : wcovered ((id, minus S j) :: fs) K -> lexlt a cur K0 K).
      { intros C. apply (after_below a cur ((j, inter a cur (minus S j) j) :: (id, minus S j) :: fs)).
        - intros x [<-|I]; auto.
        - constructor; auto. intros I. destruct (Sx j Hj Sj) as (_ & H & _). auto.
        - apply (fdisj_push a cur j _ id S); auto.
          + intros x Hx E. split; auto. unfold minus in E. apply andb_prop in E. tauto.
          + intros x Hx E. unfold inter in E. apply andb_prop in E. tauto.
        - intros x I. assert (x < N) as Hx by (destruct I as [<-|I]; auto). rewrite EK by auto. destruct I as [<-|I]; [rewrite Nat.eqb_refl; auto|].
          change (ids ((id, minus S j) :: fs)) with R in I. rewrite (proj2 (inb_in x R) I). apply orb_true_r.
        - intros _ x Hx E. rewrite EK in E by auto. left. apply orb_prop in E. destruct E as [E|E]; [apply Nat.eqb_eq in E; left; auto|right].
          apply inb_in in E. exact E.
        - cbn [tl]. apply wcovered_e. exact C. }
      destruct (XV EX NN K K1 K2 K3 KC ltac:(lia)) as [C|C]; [|right; apply REST; right; auto].
      destruct (K j) eqn:Kj; [left; auto|right; apply REST; left; apply wcov_no_j; auto].
    Qed.

    Lemma WCov_push : (exists x, x < N /\ inter a cur (minus S j) j x = true) ->
      WCov ((j, inter a cur (minus S j) j) :: (id, minus S j) :: fs) M.
    Proof.
      intros (y & Hy & Ey) EX NN K K1 K2 K3 K4. destruct (CV EX NN K K1 K2 K3 K4) as (K' & J1 & J2 & J3 & J4 & C).
      destruct C as [C|C]; [|exists K'; do 4 (split; auto); right; right; auto].
      destruct (K' j) eqn:Kj; [|exists K'; do 4 (split; auto); right; left; apply wcov_no_j; auto].
      pose proof C as (C1 & C2 & C3). pose proof (wcov_has_j K' J2 C2 Kj) as C4.
      destruct (card N (fun x => K' x && inter a cur (minus S j) j x)) eqn:EC.
      - (* K' stops at j: extend it by y *)
        assert (Z : forall x, x < N -> K' x && inter a cur (minus S j) j x = false) by (apply card_zero; auto).
        assert (Ky : K' y = false). { specialize (Z y Hy). rewrite Ey, andb_true_r in Z. auto. }
        assert (IN : forall x, x < N -> K' x = true -> In x R \/ x = j).
        { intros x Hx Kx. destruct (C4 x Hx Kx) as [|[|E]]; auto. specialize (Z x Hx). rewrite Kx, E in Z. discriminate. }
        assert (Ey' := Ey). unfold inter, minus in Ey'. apply andb_prop in Ey'. destruct Ey' as [Ey1 Aj]. apply andb_prop in Ey1. destruct Ey1 as [_ Sy].
        destruct (Sx y Hy Sy) as (Y1 & Y2 & Y3).
        assert (AY : forall x, x < N -> K' x = true -> A x y = true) by (intros x Hx Kx; destruct (IN x Hx Kx) as [I| ->]; auto).
        exists (fun x => (x =? y) || K' x). split; [|split; [|split; [|split]]].
        + destruct J1 as [R1 R2]. split; [rewrite R1; apply orb_true_r|]. intros p Hp E. apply orb_prop in E. destruct E as [E|E]; auto.
          apply Nat.eqb_eq in E. subst. auto.
        + intros p q Hp Hq Ep Eq NE. apply orb_prop in Ep, Eq. rewrite !Nat.eqb_eq in *.
          destruct Ep as [->|Ep], Eq as [->|Eq]; try congruence; auto. all: rewrite (padj_sym a nv HC) by auto; auto.
        + rewrite card_add by auto. lia.
        + rewrite wsum_add by auto. specialize (NN y Hy). lia.
        + left. split; [|split].
          * intros x [<-|I]; [rewrite Kj; apply orb_true_r|rewrite (C1 x I); apply orb_true_r].
          * intros x Hx E. apply orb_prop in E. destruct E as [E|E]; [apply Nat.eqb_eq in E; subst; auto|].
            destruct (IN x Hx E) as [| ->]; left; [right|left]; auto.
          * exists y. rewrite Nat.eqb_refl. auto.
      - exists K'. do 4 (split; auto). left. split; [|split].
        + intros x [<-|I]; auto.
        + intros x Hx Kx. destruct (C4 x Hx Kx) as [|[-> |E]]; auto; left; [right; auto|left; auto].
        + assert (0 < card N (fun x => K' x && inter a cur (minus S j) j x)) as P by lia. apply card_pos in P.
          destruct P as (x & Hx & E). apply andb_prop in E. exists x. tauto.
    Qed.
  End Step.

  Lemma WCov_pop id S fs M : (forall x, x < N -> S x = false) -> WCov ((id, S) :: fs) M -> WCov fs M.
  Proof.
    intros HE CV EX NN K K1 K2 K3 K4. destruct (CV EX NN K K1 K2 K3 K4) as (K' & J1 & J2 & J3 & J4 & C). exists K'. do 4 (split; auto).
    destruct C as [C|C]; auto. exfalso. destruct C as (_ & _ & x & Hx & _ & E). rewrite HE in E by auto. discriminate.
  Qed.

  Lemma XCov_pop id S fs M : (forall x, x < N -> S x = false) -> XCov ((id, S) :: fs) M -> XCov fs M.
  Proof.
    intros HE CV EX NN K K1 K2 K3 KC K4. destruct (CV EX NN K K1 K2 K3 KC K4) as [C|C]; auto. exfalso.
    destruct C as (_ & _ & x & Hx & _ & E). rewrite HE in E by auto. discriminate.
  Qed.

  Lemma XCov_init M : sp a cur < N -> XCov [(sp a cur, cp)] M.
  Proof.
    intros HN EX NN K [K1 K1'] K2 K3 KC K4. left. split; [|split].
    - intros x [<-|[]]. auto.
    - intros x Hx Kx. destruct (K1' x Hx Kx) as [->|]; auto. left. left. auto.
    - pose proof (card_remove N K (sp a cur) HN K1) as CR.
      assert (0 < card N (fun i => negb (i =? sp a cur) && K i)) as P by lia. apply card_pos in P.
      destruct P as (x & Hx & E). apply andb_prop in E. destruct E as [E1 E2]. exists x. split; auto. split; auto.
      destruct (K1' x Hx E2) as [->|]; auto. rewrite Nat.eqb_refl in E1. discriminate.
  Qed.

  Lemma WCov_init M : sp a cur < N -> WCov [(sp a cur, cp)] M.
  Proof.
    intros HN EX NN K [K1 K1'] K2 K3 K4. exists K. split; [split; auto|]. do 2 (split; auto). split; [lia|]. left. split; [|split].
    - intros x [<-|[]]. auto.
    - intros x Hx Kx. destruct (K1' x Hx Kx) as [->|]; auto. left. left. auto.
    - pose proof (card_remove N K (sp a cur) HN K1) as CR.
      assert (0 < card N (fun i => negb (i =? sp a cur) && K i)) as P by lia. apply card_pos in P.
      destruct P as (x & Hx & E). apply andb_prop in E. destruct E as [E1 E2]. exists x. split; auto. split; auto.
      destruct (K1' x Hx E2) as [->|]; auto. rewrite Nat.eqb_refl in E1. discriminate.
  Qed.
End Cover.

(** The state of the graph while root cur is searched, compared with the state before. *)
Record nprog (a : pairs) (wt : wts) (W0 W : nwgraph) (cur : nat) : Prop := {
  np_core : core (w_g W) = core (w_g W0);
  np_vs : vertices (w_g W) = vertices (w_g W0);
  np_wt : w_wt W = w_wt W0;
  np_deg : w_deg W = w_deg W0;
  np_lim : w_limit W = w_limit W0;
  np_len : length (edge_bits (w_g W)) = length (edge_bits (w_g W0));
  np_mem : memok (edge_bits (w_g W));
  np_same : forall k, k < search_cur (w_g W0) -> ~ in_block a cur k ->
              nth k (edge_bits (w_g W)) 0%N = nth k (edge_bits (w_g W0)) 0%N;
  np_best :
    (w_size W = w_size W0 /\ w_loc W = w_loc W0 /\ w_mcs W = w_mcs W0
     /\ forall k, in_block a cur k -> nth k (edge_bits (w_g W)) 0%N = nth k (edge_bits (w_g W0)) 0%N)
    \/ (w_loc W = cur /\ (w_mcs W = w_mcs W0 \/ w_mcs W = upd (w_mcs W0) cur (w_size W))
        /\ exists K, rep (edge_bits (w_g W)) (eb a cur) (rlen a cur) K /\ rooted_by (wcand a wt cur) a cur K
                     /\ pclique a cur K /\ 2 <= card (rlen a cur) K /\ (wexact a wt -> wsum (rlen a cur) (pw a wt cur) K = w_size W))
}.

(** Nothing was found since W0, or the first of the heaviest cliques of cur to which nothing can be added. *)
Definition nlead (a : pairs) (wt : wts) (W0 W : nwgraph) (cur : nat) : Prop :=
  (w_size W = w_size W0 /\ w_loc W = w_loc W0
     /\ forall k, k < search_cur (w_g W0) -> nth k (edge_bits (w_g W)) 0%N = nth k (edge_bits (w_g W0)) 0%N)
  \/ (w_size W0 < w_size W)%Z /\ w_loc W = cur /\ exists K, rep (edge_bits (w_g W)) (eb a cur) (rlen a cur) K
    /\ rooted_by (wcand a wt cur) a cur K /\ pclique a cur K /\ 2 <= card (rlen a cur) K
    /\ (wexact a wt -> (forall x, x < rlen a cur -> (0 <= pw a wt cur x)%Z) -> wsum (rlen a cur) (pw a wt cur) K = w_size W
         /\ forall K', rooted_by (wcand a wt cur) a cur K' -> pclique a cur K' -> 2 <= card (rlen a cur) K' -> closed a cur wt K' ->
              wsum (rlen a cur) (pw a wt cur) K' = w_size W -> first_or a cur K K').

Lemma upd_upd {A} (l : list A) i x y : upd (upd l i x) i y = upd l i y.
Proof. revert i; induction l as [|z l IH]; intros [|i]; simpl; auto. f_equal. auto. Qed.

Section Prog.
  Variables (a : pairs) (nv cur : nat) (wt : wts) (W0 : nwgraph) (mcs0 : nat -> nat).
  Hypothesis Hc : cur < nv.
  Hypothesis SH0 : shape a nv (w_g W0) mcs0.
  Notation c0 := (search_cur (w_g W0)).
  Hypothesis He : eb a nv <= c0.
  Notation nprog W := (nprog a wt W0 W cur).

  Lemma nprog_refl : nprog W0.
  Proof. pose proof (sh_mem _ _ _ _ SH0). split; auto. Qed.

  Lemma nprog_shape W : nprog W -> shape a nv (w_g W) mcs0.
  Proof.
    intros P. pose proof (np_core _ _ _ _ _ P) as C. unfold core in C. inversion C. destruct SH0.
    split; try congruence; [rewrite (np_vs _ _ _ _ _ P); auto|apply (np_mem _ _ _ _ _ P)].
  Qed.

  Lemma nprog_arena W m c : nprog W -> memok m -> length m = length (edge_bits (w_g W)) ->
    (forall k, k < c0 -> nth k m 0%N = nth k (edge_bits (w_g W)) 0%N) ->
    nprog (set_wg W (set_cur (set_mem (w_g W) m) c)).
  Proof.
    intros P M1 M2 M3. pose proof (block_end a nv cur Hc) as BE. destruct P as [P1 P2 P3 P4 P5 P6 P7 P8 P9].
    split; cbn [set_wg w_g w_wt w_deg w_mcs w_limit w_size w_loc set_cur set_mem edge_bits vertices]; auto.
    - congruence.
    - intros k Hk NB. rewrite M3 by auto. auto.
    - destruct P9 as [(B1 & B2 & B3 & B4)|(B1 & B2 & K & R & B5)].
      + left. repeat split; auto. intros k Hk. rewrite M3 by (unfold in_block in Hk; lia). auto.
      + right. repeat split; auto. exists K. split; auto. destruct R as [R1 R2]. split; [lia|].
        intros i Hi. rewrite <- R2 by auto. unfold wbit. rewrite M3; auto. apply words_lt64 in Hi. lia.
  Qed.

  Lemma nprog_mem W m : nprog W -> memok m -> length m = length (edge_bits (w_g W)) ->
    (forall k, k < c0 -> nth k m 0%N = nth k (edge_bits (w_g W)) 0%N) -> nprog (set_wmem W m).
  Proof. intros. unfold set_wmem. rewrite set_mem_cur. apply nprog_arena; auto. Qed.

  Lemma nlead_keep W W' : w_size W' = w_size W -> w_loc W' = w_loc W -> length (edge_bits (w_g W')) = length (edge_bits (w_g W)) ->
    (forall k, k < c0 -> nth k (edge_bits (w_g W')) 0%N = nth k (edge_bits (w_g W)) 0%N) -> nlead a wt W0 W cur -> nlead a wt W0 W' cur.
  Proof.
    intros E1 E2 E3 E4. pose proof (block_end a nv cur Hc) as BE. intros [(L1 & L2 & L3)|(L0 & L1 & K & R & L2)]; [left|right].
    { split; [congruence|]. split; [congruence|]. intros k Hk. rewrite E4 by auto. auto. }
    split; [congruence|]. split; [congruence|]. exists K. rewrite E1. split; auto. destruct R as [R1 R2]. split; [lia|].
    intros i Hi. rewrite <- R2 by auto. unfold wbit. rewrite E4; auto. apply words_lt64 in Hi. lia.
  Qed.

  Lemma nw_record_spec W rp R pot : nprog W -> length (w_mcs W0) = nv -> c0 <= rp ->
    rep (edge_bits (w_g W)) rp (rlen a cur) R -> rooted_by (wcand a wt cur) a cur R -> pclique a cur R -> 2 <= card (rlen a cur) R ->
    (wexact a wt -> wsum (rlen a cur) (pw a wt cur) R = pot) ->
    wp (nw_record W cur (refer_from rp (rlen a cur)) pot)
       (fun W' => nprog W' /\ w_size W' = pot /\ search_cur (w_g W') = search_cur (w_g W) /\ w_loc W' = cur
          /\ rep (edge_bits (w_g W')) (eb a cur) (rlen a cur) R
          /\ same_out (edge_bits (w_g W)) (edge_bits (w_g W')) (eb a cur) (words (rlen a cur))).
  Proof.
    intros P LM Hrp HR R1 R2 R3 R4. pose proof (block_end a nv cur Hc) as BE. pose proof (nprog_shape W P) as SH.
    unfold nw_record. cbv zeta. rewrite (sh_vs _ _ _ _ SH), rd_vert by auto. cbn [bind]. unfold live. rewrite (sh_live _ _ _ _ SH). cbn [bind].
    cbn [mkvert vbits]. pose proof HR as [HRl _].
    apply wp_bind. eapply wp_mono; [apply (bits_copy_data_spec (edge_bits (w_g W)) (eb a cur) rp (rlen a cur) R); auto; try (apply (sh_mem _ _ _ _ SH)); lia|].
    intros m (M1 & M2 & M3).
    assert (LW : length (w_mcs W) = nv).
    { destruct (np_best _ _ _ _ _ P) as [(_ & _ & -> & _)|(_ & [->| ->] & _)]; rewrite ?upd_length; auto. }
    rewrite wr_ok by lia. cbn [bind]. apply wp_ok. cbn [w_g w_wt w_deg w_mcs w_limit w_size w_loc set_mem search_cur edge_bits].
    split; [|auto].
    destruct P as [P1 P2 P3 P4 P5 P6 P7 P8 P9]. split; cbn [w_g w_wt w_deg w_mcs w_limit w_size w_loc set_mem search_cur edge_bits vertices]; auto.
    - destruct M3 as [M3 _]. congruence.
    - intros k Hk NB. destruct M3 as [_ M3]. rewrite M3 by exact NB. auto.
    - right. split; auto. split.
      + right. destruct P9 as [(_ & _ & -> & _)|(_ & [->| ->] & _)]; auto. apply upd_upd.
      + exists R. auto.
  Qed.
End Prog.

Section Vertex.
  Variables (a : pairs) (nv cur : nat) (wt : wts) (lr : bool) (W0 : nwgraph) (mcs0 : nat -> nat) (bd : nat).
  Hypothesis HC : gctx a nv.
  Hypothesis Hc : cur < nv.
  Hypothesis SH0 : shape a nv (w_g W0) mcs0.
  Hypothesis EW : w_wt W0 = map wt (seq 0 nv).
  Hypothesis ED : w_deg W0 = map (dgr a wt) (seq 0 nv).
  Hypothesis LM : length (w_mcs W0) = nv.
  Notation N := (rlen a cur).
  Notation w := (words (rlen a cur)).
  Notation A := (padj a cur).
  Notation c0 := (search_cur (w_g W0)).
  Notation cp := (wcand a wt cur).
  Notation f := (pw a wt cur).
  Hypothesis He : eb a nv <= c0.
  Hypothesis HZ : zero_from (edge_bits (w_g W0)) c0.
  Hypothesis Hbd : forall K, pclique a cur K -> card N K <= bd.
  Hypothesis Hbd1 : 1 <= bd.
  Hypothesis HSP : c0 + (bd + 1) * w <= length (edge_bits (w_g W0)).
  Let HS := gc_sorted _ _ HC.
  Let Hself := gc_self _ _ HC.
  Let Hcp : cp (sp a cur) = false := wcand_sp a nv wt HC cur Hc.
  Let Hbd' : forall K, rooted_by cp a cur K -> pclique a cur K -> card N K <= bd := fun K _ H => Hbd K H.

  Notation nprog W := (nprog a wt W0 W cur).
  Notation arena := (arena a cur c0 lr cp bd).
  Notation WCov := (WCov a cur wt).
  Notation first_of := (first_of a cur).
  Notation shp := (nprog_shape a nv cur wt W0 mcs0 SH0).
  Notation rnd := (wrnd wt).
  Notation exact := (wexact a wt).

  Definition FC (fs : list frame) (W : nwgraph) : Prop :=
    nlead a wt W0 W cur /\ XCov a cur wt fs (w_size W) /\ fdisj a cur fs.

  Lemma nd_inner_spec id S0 fs st0 sts W1 j1 mv buf cw :
    nprog W1 -> arena (edge_bits (w_g W1)) (search_cur (w_g W1)) ((id, S0) :: fs) (st0 :: sts) ->
    first_of S0 j1 -> WCov ((id, S0) :: fs) (w_size W1) -> FC ((id, S0) :: fs) W1 -> (w_size W0 <= w_size W1)%Z -> bufok a wt cur buf -> (exact -> cw = zsum (map f (id :: ids fs))) ->
    wp (nd_inner rnd cur (mkvert a mv cur) cw buf W1 j1 st0)
       (fun r => let '(W, j, st, cw', fut) := r in nprog W /\ (w_size W1 <= w_size W)%Z
          /\ match fut with
             | None => j = N /\ exists S1, arena (edge_bits (w_g W)) (search_cur (w_g W)) ((id, S1) :: fs) (st :: sts)
                         /\ (forall x, x < N -> S1 x = false) /\ WCov ((id, S1) :: fs) (w_size W) /\ FC ((id, S1) :: fs) W /\ cw' = cw
             | Some g => j < N /\ exists S1 S2, arena (edge_bits (w_g W)) (search_cur (w_g W)) ((j, S2) :: (id, S1) :: fs) (g :: st :: sts)
                         /\ WCov ((j, S2) :: (id, S1) :: fs) (w_size W) /\ FC ((j, S2) :: (id, S1) :: fs) W /\ card N S1 < card N S0 /\ card N S2 < card N S0
                         /\ (exact -> cw' = zsum (map f (j :: id :: ids fs)))
             end).
  Proof.
    intros P1 A1 F1 C1 C2 SZ0 BO HCW. unfold nd_inner.
    apply (wp_loopN _ _ (fun '(W, j, st) => exists S1, nprog W /\ (w_size W1 <= w_size W)%Z
        /\ arena (edge_bits (w_g W)) (search_cur (w_g W)) ((id, S1) :: fs) (st :: sts)
        /\ first_of S1 j /\ WCov ((id, S1) :: fs) (w_size W) /\ FC ((id, S1) :: fs) W /\ card N S1 <= card N S0)
        (fun '(W, j, st) => N - j)).
    { exists S0. do 2 (split; auto). lia. }
    { cbn [mkvert vN]. lia. }
    set (sz1 := w_size W1) in *. clearbody sz1. clear W1 j1 st0 P1 A1 F1 C1 C2.
    intros [[W j] st] (S1 & P & SZ & AR & F & CV & (NL & XV & FD) & LE). cbn [mkvert vN velo]. cbv zeta.
    destruct (Nat.ltb_spec j N) as [Hj|Hj].
    2:{ apply wp_ok. split; auto. split; auto. destruct F as [(F1 & _)|(F1 & F2)]; [lia|]. split; auto. exists S1. split; auto. split; auto. split; auto. split; auto. split; auto. }
    destruct F as [(_ & Sj & Fj)|(F & _)]; [|lia].
    destruct (arena_top _ _ _ _ _ _ _ _ _ _ _ _ _ AR) as (T1 & T2 & T3 & T4 & T5).
    destruct (finv_ids a nv cur c0 lr HC _ _ _ _ (ar_fr _ _ _ _ _ _ _ _ _ _ AR)) as (ID1 & ID2 & ID3 & ID4).
    change (ids ((id, S1) :: fs)) with (id :: ids fs) in *.
    pose proof (card_remove N S1 j Hj Sj) as CR. change (fun i => negb (i =? j) && S1 i) with (minus S1 j) in CR.
    apply wp_bind. eapply wp_mono; [apply (arena_minus a nv cur c0 lr HC Hc _ _ _ _ _ _ _ _ _ j AR Hj)|].
    intros m1 (M1 & M2 & M3 & M4).
    set (b := blk a cur c0 lr (length fs)) in *.
    assert (GT : forall x, x < N -> minus S1 j x = true -> j < x).
    { intros x Hx Ex. unfold minus in Ex. apply andb_prop in Ex. destruct Ex as [E1 E2].
      destruct (Nat.lt_trichotomy x j) as [L|[->|L]]; auto; [rewrite Fj in E2 by auto; discriminate|rewrite Nat.eqb_refl in E1; discriminate]. }
    assert (CD : forall x, x < N -> minus S1 j x = true -> cp x = true).
    { intros x Hx Ex. unfold minus in Ex. apply andb_prop in Ex. apply T5; tauto. }
    apply wp_bind. rewrite T2.
    eapply wp_mono; [apply (bits_next_spec m1 b N (minus S1 j)); auto|].
    intros nx Hnx.
    assert (Hfirst : first_of (minus S1 j) nx).
    { assert (LOW : forall x, x < j + 1 -> x < N -> minus S1 j x = false).
      { intros x Hx HxN. destruct (minus S1 j x) eqn:E; auto. pose proof (GT x HxN E). lia. }
      destruct Hnx as [(H1 & H2 & H3)|(H1 & H2)].
      - left. repeat split; auto; [lia|]. intros x Hx. destruct (Nat.lt_ge_cases x (j + 1)); [apply LOW; lia|apply H3; lia].
      - right. split; auto. intros x Hx. destruct (Nat.lt_ge_cases x (j + 1)); [apply LOW; lia|apply H2; lia]. }
    assert (NXJ : j < nx) by (destruct Hnx as [(H1 & _)|(H1 & _)]; lia).
    assert (AR1 : arena m1 (search_cur (w_g W)) ((id, minus S1 j) :: fs) (set_start st nx :: sts)).
    { apply M4. intros x Hx E NE. assert (minus S1 j x = true) as EM by (unfold minus; rewrite E; destruct (Nat.eqb_spec x j); [congruence|auto]).
      destruct Hfirst as [(F1 & F2 & F3)|(F1 & F2)]; [|rewrite F2 in EM by auto; discriminate].
      destruct (Nat.le_gt_cases nx x); auto. rewrite F3 in EM by auto. discriminate. }
    destruct (T5 j Hj Sj) as (U1 & U2 & U3 & U4).
    rewrite (rd_some buf j (f j)) by (apply BO; auto). cbn [bind].
    cbn [set_start s_id s_start s_res s_cand] in *. rewrite T2.
    pose proof (len_pos a nv HS Hself cur Hc) as LP.
    rewrite (bits_count_spec m1 b N (minus S1 j)) by auto. cbn [bind].
    set (g1 := set_mem (w_g W) m1).
    pose proof (block_end a nv cur Hc) as BE. pose proof (blk_ge a nv cur c0 lr Hc (length fs)) as BG. fold b in BG.
    assert (P1 : nprog (set_wmem W m1)).
    { apply (nprog_mem a nv cur wt W0 Hc He); auto; [apply M1|]. intros k Hk. apply M1. lia. }
    pose proof (shp _ P1) as SH1. change (w_g (set_wmem W m1)) with g1 in SH1.
    rewrite (sh_el _ _ _ _ SH1), (rd_el a nv HC) by auto. cbn [bind].
    rewrite (sh_vs _ _ _ _ SH1), rd_vert by (apply (nbr_lt a nv HC); auto). cbn [bind].
    change (length (sel N (minus S1 j))) with (card N (minus S1 j)).
    change {| vN := N; vspos := sp a cur; velo := off a cur; vebo := eb a cur; vmcs := mv; vbits := refer_from (eb a cur) N |} with (mkvert a mv cur).
    rewrite (nd_scan_spec a nv wt HC g1 mcs0 cur b (minus S1 j) j mv _ nx buf SH1 Hc Hj M3 GT CD BO Hnx). cbn [bind].
    set (I2 := inter a cur (minus S1 j) j).
    set (pot := rnd (rnd (rsum rnd N f I2 + cw) + f j)).
    assert (RN : forall x, In x (id :: ids fs) -> x < N) by (intros; apply ID2; auto).
    assert (I2R : forall x, x < N -> I2 x = true -> ~ In x (j :: id :: ids fs)).
    { intros x Hx Ex. unfold I2, inter in Ex. apply andb_prop in Ex. destruct Ex as [Ex _]. pose proof (GT x Hx Ex).
      unfold minus in Ex. apply andb_prop in Ex. destruct (T5 x Hx (proj2 Ex)) as (_ & _ & V3 & _). intros [<-|I]; [lia|]. apply V3. exact I. }
    assert (NDJ : NoDup (j :: id :: ids fs)) by (constructor; auto).
    assert (RNJ : forall x, In x (j :: id :: ids fs) -> x < N) by (intros x [<-|I]; auto).
    assert (EP : exact -> pot = (wsum N f I2 + zsum (map f (id :: ids fs)) + f j)%Z).
    { intros EX. unfold pot. rewrite (HCW EX), (wexact_rsum a wt cur N I2 EX (Nat.le_refl _)).
      rewrite (wexact_with a wt cur I2 (id :: ids fs) EX); auto.
      2:{ intros x Hx Ex I. apply (I2R x Hx Ex). right. auto. }
      pose proof (wexact_with a wt cur I2 (j :: id :: ids fs) EX NDJ RNJ I2R) as E. cbn [map zsum fold_right] in *.
      match type of E with rnd ?x = _ => replace x with (wsum N f I2 + (f id + fold_right Z.add 0 (map f (ids fs))) + f j)%Z in E by lia end.
      rewrite E. reflexivity. }
    change (set_wg W g1) with (set_wmem W m1). change (w_size (set_wmem W m1)) with (w_size W).
    destruct (path_clique a nv cur c0 lr HC Hc cp _ _ _ _ _ j (ar_fr _ _ _ _ _ _ _ _ _ _ AR) Hj Sj) as (PC1 & PC2 & PC3).
    destruct (Z.ltb_spec (w_size W) pot) as [HP|HP].
    - destruct (Nat.eqb_spec (card N I2) 0) as [E0|N0].
      + (* record *)
        pose proof (proj1 (card_zero _ _) E0) as HE.
        assert (W2 : wsum N f I2 = 0%Z) by (apply wsum_zero; auto).
        pose proof (rp_ge a nv cur c0 lr Hc) as RG. set (r := rp a cur c0 lr) in *.
        rewrite T1. apply wp_bind.
        change (edge_bits g1) with m1.
        eapply wp_mono; [apply (bits_set_spec m1 r N _ _ j M2 (ar_res _ _ _ _ _ _ _ _ _ _ AR1)); auto|].
        intros m2 (K1 & K2 & K3).
        assert (P2 : nprog (set_wmem (set_wmem W m1) m2)).
        { apply (nprog_mem a nv cur wt W0 Hc He); auto; [apply K3|]. intros k Hk. apply K3. lia. }
        apply wp_bind. eapply wp_mono; [apply (nw_record_spec a nv cur wt W0 mcs0 Hc SH0 He _ r _ pot P2 LM RG K2); auto|].
        { change (2 <= card N (fun x => inb x (j :: id :: ids fs))). lia. }
        { intros EX. change (wsum N f (fun x => inb x (j :: id :: ids fs)) = pot). rewrite wsum_list by auto.
          rewrite (EP EX), W2. cbn [map zsum fold_right]. lia. }
        intros W3 (P3 & Q3 & Q4 & QL & QR & Q5).
        assert (K4 : rep (edge_bits (w_g W3)) r N (fun x => (x =? j) || inb x (ids ((id, minus S1 j) :: fs)))).
        { eapply rep_frame; [exact K2|exact Q5|]. lia. }
        apply wp_bind. eapply wp_mono; [apply (bits_reset_spec (edge_bits (w_g W3)) r N _ _ j (np_mem _ _ _ _ _ P3) K4); auto|].
        intros m4 (L1 & L2 & L3). apply wp_ok. split; [|lia].
        exists (minus S1 j). split; [|split; [|split; [|split; [|split; [|split]]]]]; auto.
        * apply (nprog_mem a nv cur wt W0 Hc He); auto; [apply L3|]. intros k Hk. apply L3. lia.
        * cbn [set_wmem set_wg w_size]. lia.
        * cbn [set_wmem set_wg w_g set_mem edge_bits search_cur]. rewrite Q4. cbn [set_wmem set_wg w_g set_mem edge_bits search_cur].
          destruct K3 as [K3l K3], Q5 as [Q5l Q5], L3 as [L3l L3]. cbn [set_wmem set_wg w_g set_mem edge_bits] in Q5l, Q5.
          apply (arena_upd a nv cur c0 lr HC Hc _ _ m1); auto; [discriminate|congruence| |].
          -- eapply rep_ext; [exact L2|]. intros x Hx. cbv beta. destruct (Nat.eqb_spec x j) as [->|]; auto.
             cbn [negb andb]. symmetry. apply inb_not. exact U3.
          -- intros k Hk1 Hk2. rewrite L3, Q5, K3; auto; lia.
        * cbn [set_wmem set_wg w_size]. rewrite Q3. apply (WCov_prune a cur wt id S1 fs (w_size W) j); auto; try lia. intros EX. fold I2. rewrite (EP EX). lia.
        * assert (FP : fdisj a cur ((id, minus S1 j) :: fs)).
          { apply (fdisj_less a cur id S1); auto. intros x Hx E. unfold minus in E. apply andb_prop in E. tauto. }
          split; [|split; auto].
          -- apply (nlead_keep a nv cur wt W0 Hc He W3); auto; [apply L3|intros k Hk; apply L3; lia|]. right. split; [lia|]. split; auto.
             eexists. split; [exact QR|]. split; [exact PC1|]. split; [exact PC2|]. split; [change (2 <= card N (fun x => inb x (j :: id :: ids fs))); lia|]. intros EX NN. rewrite Q3. split.
             ++ change (wsum N f (fun x => inb x (j :: id :: ids fs)) = pot). rewrite wsum_list by auto. rewrite (EP EX), W2. cbn [map zsum fold_right]. lia.
             ++ apply (XCov_first a cur wt id S1 fs (w_size W) j); auto.
                intros x Hx Ex. destruct (T5 x Hx Ex) as (V1 & V2 & V3 & V4). auto.
          -- cbn [set_wmem set_wg w_size]. rewrite Q3. apply (XCov_prune a cur wt id S1 fs (w_size W) j); auto; try lia. intros EX. fold I2. rewrite (EP EX). lia.
        * lia.
      + (* push *)
        assert (NE : exists x, x < N /\ I2 x = true) by (apply card_pos; lia).
        apply wp_bind. eapply wp_mono.
        * apply (arena_push a nv cur c0 lr HC Hc _ _ g1 id (minus S1 j) fs _ sts j _ AR1); auto.
          -- unfold minus. rewrite Nat.eqb_refl. auto.
          -- intros x Hx Ex. pose proof (GT x Hx Ex). lia.
          -- rewrite <- PC3. apply Hbd. auto.
        * intros [g2 fu] (m2 & E2 & L2 & O2 & AR2). cbn [fst snd] in *. subst g2. apply wp_ok.
          change (set_wg (set_wmem W m1) (set_cur (set_mem g1 m2) (search_cur g1 + w)))
            with (set_wg (set_wmem W m1) (set_cur (set_mem (w_g (set_wmem W m1)) m2) (search_cur g1 + w))).
          split; [|split; [exact SZ|split; auto]].
          -- apply (nprog_arena a nv cur wt W0 Hc He); auto. apply (ar_ok _ _ _ _ _ _ _ _ _ _ AR2).
          -- exists (minus S1 j), I2. cbn [set_wmem set_wg w_g set_cur set_mem edge_bits search_cur w_size].
             split; [exact AR2|]. split; [|split; [|split; [|split]]].
             ++ apply (WCov_push a nv cur wt HC id S1 fs (w_size W) j); auto.
                intros x Hx Ex. destruct (T5 x Hx Ex) as (V1 & V2 & V3 & V4). auto.
             ++ split; [|split].
                ** apply (nlead_keep a nv cur wt W0 Hc He W); auto; cbn [set_wmem set_wg w_g set_cur set_mem edge_bits]; [rewrite L2; apply M1|].
                   intros k Hk. rewrite O2 by lia. apply M1. lia.
                ** apply (XCov_push a cur wt id S1 fs (w_size W) j); auto.
                   intros x Hx Ex. destruct (T5 x Hx Ex) as (V1 & V2 & V3 & V4). auto.
                ** apply (fdisj_push a cur j _ id S1); auto.
                   --- intros x Hx E. split; [|apply GT; auto]. unfold minus in E. apply andb_prop in E. tauto.
                   --- intros x Hx E. unfold I2, inter in E. apply andb_prop in E. tauto.
             ++ lia.
             ++ assert (card N I2 <= card N (minus S1 j)); [|lia].
                apply card_le. intros i Hi E. unfold I2, inter in E. apply andb_prop in E. tauto.
             ++ intros EX. rewrite (HCW EX). pose proof (wexact_list a wt cur (j :: id :: ids fs) EX NDJ RNJ) as E. cbn [map zsum fold_right] in *.
                rewrite <- E. f_equal. lia.
    - apply wp_ok. split; [|lia].
      exists (minus S1 j). split; auto. split; [exact SZ|]. split; [exact AR1|]. split; auto. split; [|split; [|lia]].
      2:{ split; [|split].
          - apply (nlead_keep a nv cur wt W0 Hc He W); auto; [apply M1|]. intros k Hk. apply M1. lia.
          - change (w_size (set_wmem W m1)) with (w_size W).
            apply (XCov_prune a cur wt id S1 fs (w_size W) j); auto; try lia. intros EX. fold I2. rewrite <- (EP EX). exact HP.
          - apply (fdisj_less a cur id S1); auto. intros x Hx E. unfold minus in E. apply andb_prop in E. tauto. }
      change (w_size (set_wmem W m1)) with (w_size W).
      apply (WCov_prune a cur wt id S1 fs (w_size W) j); auto; try lia. intros EX. fold I2. rewrite <- (EP EX). exact HP.
  Qed.

  Definition wweigh (fs : list frame) : nat := fold_right (fun f n => (2 ^ S (card N (snd f)) - 1) + n) 0 fs.

  Lemma wpow_le x y : x <= y -> 2 ^ x <= 2 ^ y.
  Proof. intros H. apply Nat.pow_le_mono_r; lia. Qed.

  Definition nturn_inv (s : nwgraph * list sstate * Z) (n : nat) : Prop :=
    let '(W, sts, cw) := s in
    exists fs, nprog W /\ (w_size W0 <= w_size W)%Z /\ arena (edge_bits (w_g W)) (search_cur (w_g W)) fs sts
      /\ (exact -> fs <> [] -> cw = zsum (map f (ids fs))) /\ WCov fs (w_size W) /\ FC fs W /\ n = wweigh fs.

  Definition nturn_post (r : nwgraph * list sstate) : Prop :=
    let '(W, sts) := r in
    exists fs, nprog W /\ (w_size W0 <= w_size W)%Z /\ arena (edge_bits (w_g W)) (search_cur (w_g W)) fs sts
      /\ nlead a wt W0 W cur /\ (WCov [] (w_size W) \/ (w_limit W <= w_size W)%Z).

  Lemma nd_turn_spec mv buf s n : bufok a wt cur buf -> N <= length buf -> nturn_inv s n ->
    wp (nd_turn rnd cur (mkvert a mv cur) buf s)
       (fun r => match r with Cont s' => exists n', n' < n /\ nturn_inv s' n' | Done x => nturn_post x end).
  Proof.
    intros BO BL. destruct s as [[W sts] cw]. intros (fs & P & SZ & AR & HCW & CV & FV & ->). unfold nd_turn.
    destruct sts as [|st rest].
    { apply wp_ok. exists fs. pose proof (finv_len _ _ _ _ _ _ _ _ (ar_fr _ _ _ _ _ _ _ _ _ _ AR)) as L. destruct fs; [|discriminate].
      do 3 (split; auto). split; [apply FV|]. auto. }
    destruct fs as [|[id S0] fs]; [destruct (ar_fr _ _ _ _ _ _ _ _ _ _ AR)|].
    destruct (Z.leb_spec (w_limit W) (w_size W)) as [HL|HL].
    { apply wp_ok. exists ((id, S0) :: fs). do 3 (split; auto). split; [apply FV|]. auto. }
    assert (HCW' : exact -> cw = zsum (map f (id :: ids fs))) by (intros EX; apply (HCW EX); discriminate). clear HCW. rename HCW' into HCW.
    destruct (arena_top _ _ _ _ _ _ _ _ _ _ _ _ _ AR) as (T1 & T2 & T3 & T4 & T5).
    pose proof (len_pos a nv HS Hself cur Hc) as LP.
    rewrite (bits_count_spec (edge_bits (w_g W)) (blk a cur c0 lr (length fs)) N S0) by (auto; apply (ar_ok _ _ _ _ _ _ _ _ _ _ AR)).
    cbn [bind]. replace (set_wmem W (edge_bits (w_g W))) with W by (destruct W as [g ? ? ? ? ? ?]; destruct g; reflexivity).
    apply wp_bind. eapply wp_mono; [apply (bits_next_spec (edge_bits (w_g W)) (blk a cur c0 lr (length fs)) N S0); auto; apply (ar_ok _ _ _ _ _ _ _ _ _ _ AR)|].
    intros st0 Hst.
    assert (F : first_of S0 st0).
    { assert (LOW : forall x, x < s_start st -> x < N -> S0 x = false).
      { intros x Hx HxN. destruct (S0 x) eqn:E; auto. destruct (T5 x HxN E). lia. }
      destruct Hst as [(H1 & H2 & H3)|(H1 & H2)].
      - left. repeat split; auto; [lia|]. intros x Hx. destruct (Nat.lt_ge_cases x (s_start st)); [apply LOW; lia|apply H3; lia].
      - right. split; auto. intros x Hx. destruct (Nat.lt_ge_cases x (s_start st)); [apply LOW; lia|apply H2; lia]. }
    assert (AR1 : arena (edge_bits (w_g W)) (search_cur (w_g W)) ((id, S0) :: fs) (set_start st st0 :: rest)).
    { apply arena_start; auto. intros x Hx E. destruct F as [(F1 & F2 & F3)|(F1 & F2)]; [|rewrite F2 in E by auto; discriminate].
      destruct (Nat.le_gt_cases st0 x); auto. rewrite F3 in E by auto. discriminate. }
    apply wp_bind.
    eapply wp_mono; [apply (nd_inner_spec id S0 fs (set_start st st0) rest W st0 mv buf cw P AR1 F CV FV SZ BO HCW)|].
    intros [[[[W2 j] st2] cw2] fut] (P2 & SZ2 & H2). cbn [mkvert vN]. destruct fut as [g|].
    - destruct H2 as (Hj & S1 & S2 & AR2 & CV2 & FV2 & LT1 & LT2 & CW2).
      destruct (Nat.eqb_spec j N); [lia|]. apply wp_ok. exists (wweigh ((j, S2) :: (id, S1) :: fs)). split.
      + unfold wweigh. cbn [fold_right snd]. pose proof (wpow_le (S (card N S1)) (card N S0) LT1). pose proof (wpow_le (S (card N S2)) (card N S0) LT2).
        pose proof (pow2_pos (S (card N S1))). pose proof (pow2_pos (S (card N S2))).
        assert (2 ^ S (card N S0) = 2 ^ card N S0 + 2 ^ card N S0) by (simpl; lia). lia.
      + exists ((j, S2) :: (id, S1) :: fs). split; auto. split; [lia|]. split; auto.
    - destruct H2 as (-> & S1 & AR2 & E1 & CV2 & FV2 & ->). rewrite Nat.eqb_refl.
      pose proof (arena_pop a nv cur c0 lr HC Hc cp bd Hbd' (w_g W2) id S1 fs st2 rest AR2 E1) as POP. apply wp_bind_inv in POP.
      apply wp_bind. eapply wp_mono; [exact POP|]. clear POP. intros g3 POP. apply wp_bind_inv in POP.
      apply wp_bind. eapply wp_mono; [exact POP|]. clear POP. cbv beta. intros m3 POP. cbn [ends_with] in POP.
      destruct POP as (m' & E3 & L3 & O3 & AR3). rewrite E3.
      destruct (arena_top _ _ _ _ _ _ _ _ _ _ _ _ _ AR2) as (V1 & V2 & V3 & V4 & V5). rewrite V4.
      assert (RD : exists x, rd buf id = Ok x /\ (fs <> [] -> x = f id)).
      { pose proof (ar_fr _ _ _ _ _ _ _ _ _ _ AR2) as FR. destruct FR as (_ & (G1 & G2 & G3 & _) & _).
        destruct (nth_error buf id) as [x|] eqn:EN.
        - exists x. split; [apply rd_some; auto|]. intros NE. rewrite (BO id G1 (G3 NE)) in EN. congruence.
        - apply nth_error_None in EN. lia. }
      destruct RD as (x & -> & RX). cbn [bind]. apply wp_ok. exists (wweigh fs). split.
      + unfold wweigh. cbn [fold_right snd]. pose proof (pow2_pos (card N S0)).
        assert (2 ^ S (card N S0) = 2 ^ card N S0 + 2 ^ card N S0) by (simpl; lia). lia.
      + exists fs. split; [apply (nprog_arena a nv cur wt W0 Hc He); auto; apply (ar_ok _ _ _ _ _ _ _ _ _ _ AR3)|].
        cbn [tl set_wg w_g w_size set_cur set_mem edge_bits search_cur].
        split; [lia|]. split; auto. split; [|split; [|split; auto]]; [|apply WCov_pop in CV2; auto|].
        2:{ destruct FV2 as (FV1 & FV2 & FV3). split; [|split].
            - apply (nlead_keep a nv cur wt W0 Hc He W2); auto.
            - apply XCov_pop in FV2; auto.
            - destruct fs as [|[id' X'] fs]; [exact I|apply FV3]. }
        destruct (finv_ids a nv cur c0 lr HC _ _ _ _ (ar_fr _ _ _ _ _ _ _ _ _ _ AR2)) as (ID1 & ID2 & _).
        change (ids ((id, S1) :: fs)) with (id :: ids fs) in *.
        intros EX NE. rewrite (HCW EX), (RX NE). rewrite <- (wexact_list a wt cur (ids fs) EX).
        * f_equal. cbn [map zsum fold_right]. fold (zsum (map f (ids fs))). lia.
        * inversion ID1; auto.
        * intros y Hy. apply ID2. right. auto.
  Qed.

  (** What a completed search of one root guarantees. *)
  Record nsearched (W : nwgraph) : Prop := {
    ns_prog : nprog W;
    ns_cur : search_cur (w_g W) = c0;
    ns_zero : zero_from (edge_bits (w_g W)) c0
  }.

  Lemma nsearched_release W fs sts : nprog W -> arena (edge_bits (w_g W)) (search_cur (w_g W)) fs sts ->
    wp (g <- (match sts with [] => Ok (w_g W) | _ => clear_memory (w_g W) (w * length sts) end);; clear_memory g w)
       (fun g' => nsearched (set_wg W g') /\ length (edge_bits g') = length (edge_bits (w_g W))
                  /\ forall k, k < c0 -> nth k (edge_bits g') 0%N = nth k (edge_bits (w_g W)) 0%N).
  Proof.
    intros P AR. eapply wp_mono; [apply (arena_release a nv cur c0 lr HC Hc cp bd Hbd' (w_g W) fs sts AR)|].
    intros g' (m' & -> & L & OK & O & Z). split; auto. split; auto.
    apply (nprog_arena a nv cur wt W0 Hc He); auto.
  Qed.

  (** No clique of two or more vertices rooted at cur weighs more than M. *)
  Definition no_heavier (M : Z) : Prop := forall K, rooted_by cp a cur K -> pclique a cur K -> 2 <= card N K -> (wsum N f K <= M)%Z.

  Lemma rooted_weight K : exact -> (forall x, x < N -> (0 <= f x)%Z) -> rooted_by cp a cur K -> (wsum N f K <= wbnd a wt cur)%Z.
  Proof.
    intros EX NN [R1 R2]. destruct (sp_spec a nv HS Hself cur Hc) as [S1 S2].
    rewrite (wbnd_exact a nv wt HC cur EX Hc). replace (wt cur) with (f (sp a cur)) by (unfold pw; rewrite S2; auto).
    rewrite <- wsum_add by auto. apply wsum_le; auto. intros i Hi E. destruct (R2 i Hi E) as [->|EC]; [rewrite Nat.eqb_refl; auto|rewrite EC; apply orb_true_r].
  Qed.

  Theorem nd_process_vertex_lead buf : N <= length buf ->
    wp (nd_process_vertex rnd lr W0 buf cur)
       (fun r => let '(W, buf') := r in nsearched W /\ (w_size W0 <= w_size W)%Z /\ length buf' = length buf
          /\ (exact -> (forall x, x < N -> (0 <= f x)%Z) -> no_heavier (w_size W) \/ (w_limit W <= w_size W)%Z)
          /\ nlead a wt W0 W cur).
  Proof.
    intros HB. unfold nd_process_vertex. rewrite (sh_vs _ _ _ _ SH0), rd_vert by auto. cbn [bind].
    pose proof (w_pos a nv cur HC Hc) as WP.
    destruct (sp_spec a nv HS Hself cur Hc) as [S1 S2].
    assert (SP2 : c0 + 2 * w <= length (edge_bits (w_g W0))).
    { etransitivity; [|exact HSP]. apply Nat.add_le_mono_l, Nat.mul_le_mono_r. lia. }
    apply wp_bind. eapply wp_mono; [apply (arena_root a nv cur c0 lr HC Hc (w_g W0) mcs0 (mcs0 cur) SH0 eq_refl HZ SP2)|].
    intros [g1 x] (m1 & -> & M1 & M2 & M3 & -> & M5 & M6 & M7). cbn [s_cand].
    assert (P1 : nprog (set_wg W0 (set_cur (set_mem (w_g W0) m1) (c0 + 2 * w)))).
    { apply (nprog_arena a nv cur wt W0 Hc He); auto. apply (nprog_refl a nv cur wt W0 mcs0 SH0). }
    apply wp_bind.
    eapply wp_mono; [apply (nw_root_cands_spec a nv wt HC _ mcs0 cur (mcs0 cur) (blk a cur c0 lr 0) buf (length buf) (shp _ P1) Hc EW ED eq_refl HB M7)|].
    cbn [set_wg w_g set_cur set_mem edge_bits].
    intros [[m2 buf'] pot] (L1 & L2 & L3 & L4 & L5 & L6).
    rewrite EW, rd_mapseq by auto. cbn [bind].
    assert (LM2 : length m2 = length m1) by (destruct L3; lia).
    assert (AR : arena m2 (c0 + 2 * w) [(sp a cur, cp)] [mkS (sp a cur) 0 (refer_from (rp a cur c0 lr) N) (refer_from (blk a cur c0 lr 0) N)]).
    { apply (arena_make a nv cur c0 lr HC Hc cp bd Hcp m1); auto. rewrite M2. auto. }
    assert (O2 : forall k, k < c0 -> nth k m2 0%N = nth k (edge_bits (w_g W0)) 0%N).
    { intros k Hk. destruct L3 as [_ L3]. pose proof (blk_ge a nv cur c0 lr Hc 0). rewrite L3 by lia. apply M3. auto. }
    set (g2 := set_cur (set_mem (w_g W0) m2) (c0 + 2 * w)).
    change (set_mem (set_cur (set_mem (w_g W0) m1) (c0 + 2 * w)) m2) with g2.
    assert (P2 : nprog (set_wg W0 g2)).
    { apply (nprog_arena a nv cur wt W0 Hc He); auto; [apply (nprog_refl a nv cur wt W0 mcs0 SH0)|congruence]. }
    cbn [mkvert vN].
    change {| vN := N; vspos := sp a cur; velo := off a cur; vebo := eb a cur; vmcs := mcs0 cur; vbits := refer_from (eb a cur) N |} with (mkvert a (mcs0 cur) cur).
    destruct (Z.leb_spec (rnd (pot + wt cur)) (w_size W0)) as [HBd|HBd].
    - apply wp_bind. eapply wp_mono; [apply clear_memory_spec|].
      + exact L1.
      + change (search_cur g2) with (c0 + 2 * w). change (edge_bits g2) with m2. rewrite LM2, M2. lia.
      + change (search_cur g2) with (c0 + 2 * w). change (edge_bits g2) with m2.
        intros g' (m3 & -> & K1 & K2 & K3). replace (c0 + 2 * w - 2 * w) with c0 in * by lia. destruct K2 as [K2l K2].
        apply wp_ok. split; [|split; [cbn [set_wg w_size]; lia|split; [auto|split]]].
        * split; auto.
          -- change (set_cur (set_mem g2 m3) c0) with (set_cur (set_mem (w_g W0) m3) c0).
             apply (nprog_arena a nv cur wt W0 Hc He); auto; [apply (nprog_refl a nv cur wt W0 mcs0 SH0)|congruence|].
             intros k Hk. rewrite K2 by lia. auto.
          -- intros k Hk. cbn [set_wg w_g set_cur set_mem edge_bits]. destruct (Nat.lt_ge_cases k (c0 + 2 * w)); [apply K3; lia|].
             rewrite K2 by lia. apply (ar_zero _ _ _ _ _ _ _ _ _ _ AR). lia.
        * intros EX NN. left. intros K R PK K2'. cbn [set_wg w_size]. pose proof (rooted_weight K EX NN R) as RW.
          rewrite <- (wbnd_cands a nv wt HC cur EX Hc), <- L6 in RW. lia.
        * left. split; auto. split; auto. cbn [set_wg w_g set_cur set_mem edge_bits]. intros k Hk. rewrite K2 by lia. auto.
    - apply wp_bind. eapply wp_mono.
      + apply (wp_run2_rel _ _ nturn_inv _ (wweigh [(sp a cur, cp)])).
        * exists [(sp a cur, cp)]. split; auto. split; [cbn [set_wg w_size]; lia|]. split; [exact AR|]. split; [|split; [|split; [split; [|split]|]]]; auto.
          -- intros _ _. cbn [ids map fst zsum fold_right]. unfold pw. rewrite S2. lia.
          -- apply WCov_init; auto.
          -- left. auto.
          -- apply XCov_init; auto.
          -- split; exact I.
        * unfold wweigh. cbn [fold_right snd]. pose proof (card_bound N cp). pose proof (wpow_le (S (card N cp)) (S (S N)) ltac:(lia)).
          pose proof (pow2_pos (S (card N cp))). lia.
        * intros s n I. apply nd_turn_spec; auto. lia.
      + intros [W3 sts] (fs & P3 & SZ3 & AR3 & NLD & Q).
        pose proof (nsearched_release W3 fs sts P3 AR3) as REL. apply wp_bind_inv in REL.
        apply wp_bind. eapply wp_mono; [exact REL|]. clear REL. intros g4 REL.
        apply wp_bind. eapply wp_mono; [exact REL|]. clear REL. intros g5 (SE & SE1 & SE2). apply wp_ok.
        split; auto. cbn [set_wg w_size w_limit]. split; auto. split; auto. split.
        2:{ apply (nlead_keep a nv cur wt W0 Hc He W3); auto. }
        intros EX NN.
        destruct Q as [CV|L]; auto. left.
        intros K K1 K2 K3. destruct (Z.le_gt_cases (wsum N f K) (w_size W3)) as [|H]; auto.
        destruct (CV EX NN K K1 K2 K3 ltac:(lia)) as (K' & _ & _ & _ & _ & []).
  Qed.

  Lemma nd_process_vertex_spec buf : N <= length buf ->
    wp (nd_process_vertex rnd lr W0 buf cur)
       (fun r => let '(W, buf') := r in nsearched W /\ (w_size W0 <= w_size W)%Z /\ length buf' = length buf
          /\ (exact -> (forall x, x < N -> (0 <= f x)%Z) -> no_heavier (w_size W) \/ (w_limit W <= w_size W)%Z)).
  Proof. intros HB. eapply wp_mono; [apply (nd_process_vertex_lead buf HB)|]. intros [W buf'] (H1 & H2 & H3 & H4 & _). auto. Qed.
End Vertex.
