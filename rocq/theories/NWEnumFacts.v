(** NWEnumFacts: NWCliqueEnumerator::process_graph is memory safe, terminates, yields only heavy cliques rooted after the
    first vertex, none twice, and (for non-negative weights) every one that is minimal along its scan order. *)
From Verif Require Import Base MBits MUtils MGraph MNW MNWEnum SpecBits BaseFacts BitsFacts SetFacts SortFacts RowFacts ConstructFacts CardFacts SearchBase FrameFacts FrameInv StackFacts SearchFacts EnumFacts NWSum NWBase NWStack NWSearch.
Local Open Scope nat_scope.
Local Arguments Nat.sub : simpl never.
Local Arguments Nat.mul : simpl never.

(** Rounding respects the order. *)
Definition wmono (wt : wts) : Prop := forall x y, (x <= y)%Z -> (wrnd wt x <= wrnd wt y)%Z.

Section Cover.
  Variables (a : pairs) (nv cur : nat) (wt : wts) (T : Z).
  Hypothesis HC : gctx a nv.
  Notation N := (rlen a cur).
  Notation A := (padj a cur).
  Notation cp := (wcand a wt cur).
  Notation f := (pw a wt cur).
  Notation exact := (wexact a wt).
  Notation nonneg := (exact /\ wmono wt /\ forall x, x < rlen a cur -> (0 <= pw a wt cur x)%Z).

  (** A clique rooted at cur, at least as heavy as required, and too light without its last member other than the root
      (or a pair). *)
  Definition ntarget (K : nat -> bool) : Prop :=
    rooted_by cp a cur K /\ pclique a cur K /\ 2 <= card N K
    /\ (exact -> (T <= wsum N f K)%Z
         /\ exists j, j < N /\ K j = true /\ j <> sp a cur /\ (forall x, x < N -> K x = true -> x <> sp a cur -> x <= j)
              /\ (card N K = 2 \/ (wsum N f K - f j < T)%Z)).

  (** What holds of the frames besides the arena: candidates lie after the path, the path is too light, and the potential
      bounds the candidates. *)
  Fixpoint nfr (fs : list frame) (ps : list Z) : Prop :=
    match fs, ps with
    | [], [] => True
    | (id, X) :: fs', p :: ps' =>
        (forall x q, x < N -> X x = true -> In q (id :: ids fs') -> q = sp a cur \/ q < x)
        /\ (exact -> fs' <> [] -> (zsum (map f (id :: ids fs')) < T)%Z)
        /\ (nonneg -> (wsum N f X <= p)%Z) /\ nfr fs' ps'
    | _, _ => False
    end.

  Section Step.
    Variables (id : nat) (S : nat -> bool) (fs : list frame) (j : nat) (p : Z) (ps : list Z).
    Notation R := (id :: ids fs).
    Hypothesis ND : NoDup R.
    Hypothesis RN : forall x, In x R -> x < N.
    Hypothesis Hj : j < N.
    Hypothesis Sj : S j = true.
    Hypothesis NJ : ~ In j R.
    Hypothesis LOW : forall x, x < N -> S x = true -> j <= x.
    Hypothesis SN : forall x, x < N -> S x = true -> x <> sp a cur.
    Hypothesis NF : nfr ((id, S) :: fs) (p :: ps).

    Lemma ncov_prune K : nonneg -> ntarget K -> (zsum (map f R) + f j + wsum N f (inter a cur (minus S j) j) < T)%Z ->
      ecovered a cur ((id, S) :: fs) K -> ecovered a cur ((id, minus S j) :: fs) K.
    Proof.
      intros (EX & _ & NN) (K1 & K2 & K3 & K4) HT C. destruct (K4 EX) as [K5 _]. destruct (K j) eqn:Kj; [|apply ecov_without; auto].
      destruct C as [(C1 & C2)|C]; [|right; auto]. exfalso.
      pose proof (wsum_three N f R j _ K NN ND RN Hj (cov_has_j a cur id S fs j Hj K K2 C2 Kj)). lia.
    Qed.

    Lemma ncov_push K : ntarget K -> ecovered a cur ((id, S) :: fs) K ->
      ecovered a cur ((j, inter a cur (minus S j) j) :: (id, minus S j) :: fs) K.
    Proof.
      intros (K1 & K2 & _) C. destruct (K j) eqn:Kj; [|right; apply ecov_without; auto].
      destruct C as [(C1 & C2)|C]; [left|right; right; auto]. split.
      - intros x [<-|I]; auto.
      - intros x Hx Kx. destruct (cov_has_j a cur id S fs j Hj K K2 C2 Kj x Hx Kx) as [I|[->|E]]; auto.
        + left. right. auto.
        + left. left. auto.
    Qed.

    Lemma ncov_unpush K : ecovered a cur ((j, inter a cur (minus S j) j) :: (id, minus S j) :: fs) K ->
      ecovered a cur ((id, S) :: fs) K.
    Proof.
      intros [(C1 & C2)|C]; [|eapply ecov_less; exact C]. left. split.
      - intros x I. apply C1. right. auto.
      - intros x Hx Kx. destruct (C2 x Hx Kx) as [[<-|I]|E]; auto. right. unfold inter in E. apply andb_prop in E.
        destruct E as [E _]. unfold minus in E. apply andb_prop in E. tauto.
    Qed.

    Lemma ncov_found K : nonneg -> ntarget K -> (T <= zsum (map f R) + f j)%Z -> ecovered a cur ((id, S) :: fs) K ->
      (forall x, x < N -> K x = inb x (j :: R)) \/ ecovered a cur ((id, minus S j) :: fs) K.
    Proof.
      intros (EX & _ & NN) (K1 & K2 & K3 & K456) HT C. destruct (K456 EX) as (K4 & m & Hm & Km & Nm & Mm & Lm). destruct (K j) eqn:Kj; [|right; apply ecov_without; auto].
      destruct C as [(C1 & C2)|C]; [left|right; right; auto].
      assert (JR : forall x, In x (j :: R) -> x < N /\ K x = true) by (intros x [<-|I]; auto).
      destruct (card N (fun x => K x && negb (inb x (j :: R)))) eqn:EC.
      - pose proof (proj1 (card_zero _ _) EC) as Z0. intros x Hx. specialize (Z0 x Hx). cbv beta in Z0.
        destruct (inb x (j :: R)) eqn:EI.
        + apply inb_in in EI. apply JR. auto.
        + cbn [negb] in Z0. rewrite andb_true_r in Z0. auto.
      - exfalso. assert (0 < card N (fun x => K x && negb (inb x (j :: R)))) as PO by lia. apply card_pos in PO.
        destruct PO as (y & Hy & Ey). apply andb_prop in Ey. destruct Ey as [Ky Ny].
        assert (NIy : ~ In y (j :: R)) by (intros I; apply inb_in in I; rewrite I in Ny; discriminate).
        destruct NF as (F1 & F2 & F3 & F4).
        assert (Sy : S y = true). { destruct (C2 y Hy Ky) as [I|]; auto. destruct NIy. right. auto. }
        assert (Yj : j < y). { pose proof (LOW y Hy Sy). assert (y <> j) by (intros ->; apply NIy; left; auto). lia. }
        assert (Ym : y <= m).
        { apply Mm; auto. }
        assert (MR : ~ In m (j :: R)).
        { intros [E|I]; [lia|]. destruct (F1 j m Hj Sj I) as [|]; [auto|lia]. }
        assert (LE : (f m + (f j + zsum (map f R)) <= wsum N f K)%Z).
        { replace (f m + (f j + zsum (map f R)))%Z with (zsum (map f (m :: j :: R))) by (cbn [map zsum fold_right]; reflexivity).
          rewrite <- (wsum_list N f (m :: j :: R)).
          - apply wsum_le; auto. intros i Hi E. apply inb_in in E. destruct E as [<-|I]; auto. apply JR. auto.
          - constructor; auto. constructor; auto.
          - intros x [<-|I]; auto. apply JR. auto. }
        assert (C3 : 3 <= card N K).
        { transitivity (card N (fun x => inb x (m :: j :: R))).
          - rewrite card_list; [cbn [length]; lia|constructor; auto; constructor; auto|]. intros x [<-|I]; auto. apply JR. auto.
          - apply card_le. intros i Hi E. apply inb_in in E. destruct E as [<-|I]; auto. apply JR. auto. }
        lia.
    Qed.

    (** The path extended by j, when that reaches the required weight. *)
    Lemma ntarget_here : (exact -> T <= zsum (map f R) + f j)%Z -> In (sp a cur) R -> length R = Datatypes.S (length fs) ->
      rooted_by cp a cur (fun x => inb x (j :: R)) -> pclique a cur (fun x => inb x (j :: R)) ->
      card N (fun x => inb x (j :: R)) = length fs + 2 -> ntarget (fun x => inb x (j :: R)).
    Proof.
      intros HT HI HL K1 K2 K3. destruct NF as (F1 & F2 & F3 & F4).
      assert (WS : wsum N f (fun x => inb x (j :: R)) = (f j + zsum (map f R))%Z).
      { rewrite wsum_list; [reflexivity|constructor; auto|]. intros x [<-|I]; auto. }
      split; auto. split; auto. split; [lia|]. intros EX. specialize (HT EX). split; [lia|]. exists j. split; auto. split; [apply inb_in; left; auto|].
      split; auto. split.
      - intros x Hx E NE. apply inb_in in E. destruct E as [<-|I]; auto. destruct (F1 j x Hj Sj I); [contradiction|lia].
      - destruct fs as [|fr fs']; [left; rewrite K3; auto|]. right. rewrite WS.
        assert (HN : fr :: fs' <> []) by discriminate. specialize (F2 EX HN). lia.
    Qed.

    Lemma nfr_minus : nfr ((id, minus S j) :: fs) (p :: ps).
    Proof.
      destruct NF as (F1 & F2 & F3 & F4).
      assert (SUB : forall x, minus S j x = true -> S x = true).
      { intros x E. unfold minus in E. apply andb_prop in E. tauto. }
      split; [|split; [|split]]; auto.
      intros NN. specialize (F3 NN). destruct NN as (_ & _ & NN). assert (wsum N f (minus S j) <= wsum N f S)%Z; [|lia]. apply wsum_le; auto.
    Qed.

    Lemma nfr_push q : (exact -> zsum (map f R) + f j < T)%Z ->
      (nonneg -> (wsum N f (inter a cur (minus S j) j) <= q)%Z) ->
      nfr ((j, inter a cur (minus S j) j) :: (id, minus S j) :: fs) (q :: p :: ps).
    Proof.
      intros HT HQ. split; [|split; [|split; [auto|apply nfr_minus]]].
      - intros x y Hx E I. unfold inter, minus in E. apply andb_prop in E. destruct E as [E _]. apply andb_prop in E. destruct E as [E1 E2].
        assert (x <> j) by (intros ->; rewrite Nat.eqb_refl in E1; discriminate). pose proof (LOW x Hx E2).
        destruct I as [<-|I]; [right; lia|]. destruct NF as (F1 & _). apply (F1 x y); auto.
      - intros EX _. specialize (HT EX). cbn [map zsum fold_right ids fst]. cbn [map zsum fold_right] in HT. unfold zsum, ids in HT. lia.
    Qed.
  End Step.

  Lemma ncov_pop id S fs p ps K : exact -> NoDup (id :: ids fs) -> (forall x, In x (id :: ids fs) -> x < N) -> (forall x, x < N -> S x = false) ->
    nfr ((id, S) :: fs) (p :: ps) -> ntarget K -> ecovered a cur ((id, S) :: fs) K -> ecovered a cur fs K.
  Proof.
    intros EX ND RN HE (F1 & F2 & F3 & F4) (K1 & K2 & K3 & K45) [(C1 & C2)|C]; auto. exfalso. destruct (K45 EX) as [K4 _].
    assert (EQ : forall x, x < N -> K x = inb x (id :: ids fs)).
    { intros x Hx. destruct (inb x (id :: ids fs)) eqn:E.
      - apply inb_in in E. auto.
      - destruct (K x) eqn:EK; auto. destruct (C2 x Hx EK) as [I|E']; [|rewrite HE in E' by auto; discriminate].
        apply inb_in in I. rewrite I in E. discriminate. }
    destruct fs as [|fr fs'].
    - rewrite (card_ext N K _ EQ), card_list in K3 by auto. cbn [length ids map] in K3. lia.
    - specialize (F2 EX ltac:(discriminate)). rewrite (wsum_ext N f K _ EQ), wsum_list in K4 by auto. lia.
  Qed.

  Lemma ncov_init K : rooted_by cp a cur K -> ecovered a cur [(sp a cur, cp)] K.
  Proof.
    intros [K1 K2]. left. split.
    - intros x [<-|[]]. auto.
    - intros x Hx Kx. destruct (K2 x Hx Kx) as [->|]; auto. left. left. auto.
  Qed.
End Cover.

(** ** Cliques as lists of vertices *)
Section Pend.
  Variables (a : pairs) (nv : nat) (wt : wts) (T : Z).
  Hypothesis HC : gctx a nv.
  Let HS := gc_sorted _ _ HC.
  Let Hself := gc_self _ _ HC.
  Notation rooted v K := (rooted_by (wcand a wt v) a v K).

  Lemma wdecode_root v K : v < nv -> rooted v K -> In v (decode a v K).
  Proof.
    intros Hv [R _]. destruct (sp_spec a nv HS Hself v Hv) as [S1 S2]. apply decode_in. exists (sp a v). auto.
  Qed.

  Lemma wdecode_before v K u : v < nv -> rooted v K -> In u (decode a v K) -> u = v \/ wbef (dgr a wt) v u = true.
  Proof.
    intros Hv [_ R] I. apply decode_in in I. destruct I as (p & Hp & Kp & <-).
    destruct (sp_spec a nv HS Hself v Hv) as [S1 S2]. destruct (R p Hp Kp) as [->|E]; auto.
  Qed.

  Lemma wdecode_inj v v' K K' : v < nv -> v' < nv -> rooted v K -> rooted v' K' -> decode a v K = decode a v' K' ->
    v = v' /\ forall x, x < rlen a v -> K x = K' x.
  Proof.
    intros Hv Hv' R R' E.
    assert (v = v') as <-.
    { pose proof (wdecode_root v K Hv R) as I. rewrite E in I. apply wdecode_before in I; auto. destruct I as [|B]; auto.
      pose proof (wdecode_root v' K' Hv' R') as I'. rewrite <- E in I'. apply wdecode_before in I'; auto. destruct I' as [|B']; auto.
      pose proof (wbef_trans _ _ _ _ B B') as X. rewrite wbef_irrefl in X. discriminate. }
    split; auto.
    assert (SUB : forall K K', decode a v K = decode a v K' -> forall x, x < rlen a v -> K x = true -> K' x = true).
    { intros K1 K2 E12 x Hx Kx. assert (I : In (nbr a v x) (decode a v K2)) by (rewrite <- E12; apply decode_in; eauto).
      apply decode_in in I. destruct I as (p & Hp & Kp & EP). apply (nbr_inj a nv HC v) in EP; auto. congruence. }
    intros x Hx. destruct (K x) eqn:E1, (K' x) eqn:E2; auto.
    - rewrite (SUB K K' E x Hx E1) in E2. discriminate.
    - rewrite (SUB K' K (eq_sym E) x Hx E2) in E1. discriminate.
  Qed.

  Definition npend (cur : nat) (fs : list frame) (d : list nat) : Prop :=
    exists v K, v < nv /\ ntarget a v wt T K /\ d = decode a v K /\ (cur < v \/ (v = cur /\ ecovered a cur fs K)).

  Lemma npend_imp cur fs fs' : (forall K, ntarget a cur wt T K -> ecovered a cur fs K -> ecovered a cur fs' K) ->
    forall d, npend cur fs d -> npend cur fs' d.
  Proof.
    intros H d (v & K & Hv & TG & E & C); exists v, K; (split; [auto|]); (split; [auto|]); (split; [auto|]).
    destruct C as [|[-> C]]; [left; auto|right; split; auto].
  Qed.
End Pend.

Section Enum.
  Variables (a : pairs) (nv : nat) (wt : wts) (lr : bool) (T : Z) (W0 : nwgraph) (mcs : nat -> nat) (B : nat).
  Hypothesis HC : gctx a nv.
  Notation c0 := (search_cur (w_g W0)).
  Notation D := (max_degree (w_g W0)).
  Hypothesis G0 : nbase a nv wt (search_cur (w_g W0)) W0 mcs.
  Hypothesis HB1 : 1 <= B.
  Hypothesis HB : forall v, v < nv -> (forall K, pclique a v K -> card (rlen a v) K <= B) /\ rlen a v <= max_degree (w_g W0)
    /\ search_cur (w_g W0) + (B + 1) * words (rlen a v) <= length (edge_bits (w_g W0)).
  Let HS := gc_sorted _ _ HC.
  Let Hself := gc_self _ _ HC.
  Let SH0 := nb_shape _ _ _ _ _ _ G0.
  Let He := nb_eb _ _ _ _ _ _ G0.
  Notation exact := (wexact a wt).
  Notation rnd := (wrnd wt).
  Notation nonneg := (exact /\ wmono wt /\ forall u, u < nv -> (0 <= wt u)%Z).

  (** What an enumeration may change: the scratch space, and the stored cliques (for other cliques of the same root). *)
  Record nkept (W : nwgraph) : Prop := {
    nk_core : core (w_g W) = core (w_g W0);
    nk_vs : vertices (w_g W) = vertices (w_g W0);
    nk_wt : w_wt W = w_wt W0;
    nk_deg : w_deg W = w_deg W0;
    nk_mcs : w_mcs W = w_mcs W0;
    nk_lim : w_limit W = w_limit W0;
    nk_size : w_size W = w_size W0;
    nk_loc : w_loc W = w_loc W0;
    nk_len : length (edge_bits (w_g W)) = length (edge_bits (w_g W0));
    nk_mem : memok (edge_bits (w_g W));
    nk_low : forall i, eb a nv <= i < c0 -> nth i (edge_bits (w_g W)) 0%N = nth i (edge_bits (w_g W0)) 0%N;
    nk_bits : forall v, v < nv -> exists K, wholds a wt (w_g W) v K
  }.

  Lemma nkept_refl : nkept W0.
  Proof. split; auto; [apply (sh_mem _ _ _ _ SH0)|apply (nb_bits _ _ _ _ _ _ G0)]. Qed.

  Lemma nkept_shape W : nkept W -> shape a nv (w_g W) mcs.
  Proof.
    intros K. pose proof (nk_core _ K) as K1. pose proof (nk_vs _ K) as K2. pose proof (nk_mem _ K) as K6.
    unfold core in K1. inversion K1. destruct SH0. split; congruence.
  Qed.

  Lemma nkept_arena W m c : nkept W -> memok m -> length m = length (edge_bits (w_g W)) ->
    (forall i, i < c0 -> nth i m 0%N = nth i (edge_bits (w_g W)) 0%N) -> nkept (set_wg W (set_cur (set_mem (w_g W) m) c)).
  Proof.
    intros [K1 K2 K3 K4 K5 K6 K7 K8 K9 K10 K12 K11] M1 M2 M3.
    split; auto; [cbn [set_wg w_g set_cur set_mem edge_bits]; congruence|intros i Hi; cbn [set_wg w_g set_cur set_mem edge_bits]; rewrite M3 by lia; auto|].
    intros v Hv. destruct (K11 v Hv) as (K & R1 & R2). exists K. split; auto. cbn [set_wg w_g set_cur set_mem edge_bits].
    eapply rep_nth; [|exact M2|exact R1]. intros i Hi. apply M3. pose proof (block_end a nv v Hv). lia.
  Qed.

  Lemma nkept_mem W m : nkept W -> memok m -> length m = length (edge_bits (w_g W)) ->
    (forall i, i < c0 -> nth i m 0%N = nth i (edge_bits (w_g W)) 0%N) -> nkept (set_wmem W m).
  Proof. intros. unfold set_wmem. rewrite set_mem_cur. apply nkept_arena; auto. Qed.

  Lemma nkept_store W m v K : nkept W -> v < nv -> memok m -> same_out (edge_bits (w_g W)) m (eb a v) (words (rlen a v)) ->
    rep m (eb a v) (rlen a v) K -> rooted_by (wcand a wt v) a v K -> pclique a v K -> nkept (set_wmem W m).
  Proof.
    intros [K1 K2 K3 K4 K5 K6 K7 K8 K9 K10 K12 K11] Hv M1 [M2 M3] R1 R2 R3.
    split; auto; [cbn [set_wmem set_wg w_g set_mem edge_bits]; congruence| |].
    { intros i Hi. cbn [set_wmem set_wg w_g set_mem edge_bits]. rewrite M3; auto. pose proof (block_end a nv v Hv). lia. }
    intros u Hu. destruct (Nat.eq_dec u v) as [->|NE]; [exists K; split; auto|].
    destruct (K11 u Hu) as (K' & Q1 & Q2). exists K'. split; auto. cbn [set_wmem set_wg w_g set_mem edge_bits].
    eapply rep_nth; [|exact M2|exact Q1]. intros i Hi. apply M3. intros Hi'.
    apply (block_disjoint a nv u v i Hu Hv NE); [exact Hi|exact Hi'].
  Qed.

  Section Inner.
    Variables (cur : nat).
    Hypothesis Hc : cur < nv.
    Notation N := (rlen a cur).
    Notation w := (words (rlen a cur)).
    Notation A := (padj a cur).
    Notation cp := (wcand a wt cur).
    Notation f := (pw a wt cur).
    Notation arena := (arena a cur c0 lr cp B).
    Notation ecov := (ecovered a cur).
    Notation target := (ntarget a cur wt T).
    Let Hcp : cp (sp a cur) = false := wcand_sp a nv wt HC cur Hc.
    Let Hbd' : forall K, rooted_by cp a cur K -> pclique a cur K -> card N K <= B := fun K _ H => proj1 (HB cur Hc) K H.

    Lemma ne_scan_spec g b S j mv mw buf req cw wj pot : shape a nv g mcs -> j < N -> rep (edge_bits g) b N S ->
      (forall x, x < N -> S x = true -> j < x) -> (forall x, x < N -> S x = true -> cp x = true) -> bufok a wt cur buf ->
      wp (ne_scan rnd g (mkvert a mv cur) (mkvert a mw (nbr a cur j)) (refer_from b N) buf req cw wj pot j)
         (fun '(rem, p, cpot) => let Q := fun x => S x && negb (A j x) in
            cpot = rnd (rnd (p + cw) + wj) /\ (exists Y, (forall x, x < N -> Y x = true -> S x = true)
               /\ (forall x, x < N -> inter a cur S j x = true -> Y x = true)
               /\ (exact -> wmono wt -> (wsum N f S <= pot)%Z -> (wsum N f Y <= p)%Z))
            /\ ((req <= cpot)%Z /\ rem = members N Q \/ (cpot < req)%Z)).
    Proof.
      intros SH Hj HR GT CD HBu. set (e := nbr a cur j) in *. cbv zeta. set (Q := fun x => S x && negb (A j x)).
      assert (Hev : e < nv) by (apply (nbr_lt a nv HC); auto).
      destruct (sp_spec a nv HS Hself e Hev) as [SP1 SP2].
      assert (LOWQ : forall x, x < j + 1 -> Q x = false).
      { intros x Hx. unfold Q. destruct (S x) eqn:E; auto. pose proof (GT x ltac:(lia) E). lia. }
      set (Y := fun k x => S x && negb (Q x && (x <? k))).
      assert (Y1 : forall k x, x < N -> Y k x = true -> S x = true) by (intros k x _ E; unfold Y in E; apply andb_prop in E; tauto).
      assert (Y2 : forall k x, x < N -> inter a cur S j x = true -> Y k x = true).
      { intros k x _ E. unfold inter in E. apply andb_prop in E. unfold Y, Q. destruct E as [-> ->]. reflexivity. }
      unfold ne_scan.
      apply (wp_loopN _ _ (fun '(k, rem, p, cpot) => j < k <= N /\ rem = members k Q
          /\ (exact -> wmono wt -> (wsum N f S <= pot)%Z -> (wsum N f (Y k) <= p)%Z) /\ cpot = rnd (rnd (p + cw) + wj))
        (fun '(k, rem, p, cpot) => N - k)).
      - split; [lia|]. split; [|split; [|auto]].
        + symmetry. transitivity (members 0 Q); [|reflexivity]. apply members_prefix; [lia|]. intros i Hi. apply LOWQ. lia.
        + intros _ _ HS0. rewrite (wsum_ext N f (Y (j + 1)) S); auto. intros x Hx. unfold Y.
          destruct (Nat.ltb_spec x (j + 1)); [rewrite LOWQ by auto|rewrite andb_false_r]; apply andb_true_r.
      - cbn [mkvert vN]. lia.
      - intros [[[k rem] p] cpot] (I1 & I2 & I3 & I4). cbn [mkvert vN velo vspos].
        destruct (Z.leb_spec req cpot) as [HP|HP]; [rewrite andb_true_r|rewrite andb_false_r].
        2:{ apply wp_ok. split; auto. split; [|auto]. exists (Y k). eauto. }
        destruct (Nat.ltb_spec k N) as [Hk|Hk].
        2:{ replace k with N in * by lia. apply wp_ok. split; auto. split; [|auto]. exists (Y N). eauto. }
        rewrite (bits_get_spec (edge_bits g) b N S) by (auto; apply (sh_mem _ _ _ _ SH)). cbn [bind].
        assert (YK : Q k = false -> forall x, x < N -> Y (Datatypes.S k) x = Y k x).
        { intros QK x Hx. unfold Y. destruct (Nat.ltb_spec x (Datatypes.S k)), (Nat.ltb_spec x k); auto; [|lia]. replace x with k by lia. rewrite QK. auto. }
        destruct (S k) eqn:Sk; cbn [negb].
        2:{ apply wp_ok. split; [|lia]. split; [lia|].
            assert (QK : Q k = false) by (unfold Q; rewrite Sk; auto).
            rewrite Nat.add_1_r, members_S, QK, app_nil_r. split; auto. split; auto. rewrite (wsum_ext N f _ _ (YK QK)). auto. }
        rewrite (sh_el _ _ _ _ SH), (rd_el a nv HC) by lia. cbn [bind]. apply wp_bind.
        eapply wp_mono; [apply (nb_find a nv HC e (nbr a cur k) (sp a e) Hev ltac:(lia))|].
        { intros i Hi. apply (nbr_below_sp a nv HC); auto. pose proof (nbr_mono a nv HC cur j k ltac:(lia)) as H. fold e in H. lia. }
        intros [fnd ans] (F & _). cbn [fst] in F. change (inb (nbr a cur k) (row a e)) with (A j k) in F.
        assert (QK : Q k = negb (A j k)) by (unfold Q; rewrite Sk; auto).
        assert (BN : wp (if fnd then Ok (rem, p) else x <- rd buf k;; Ok (rem ++ [k], (rnd (p - x)%Z)))
          (fun r => fst r = members (Datatypes.S k) Q /\ (exact -> wmono wt -> (wsum N f S <= pot)%Z -> (wsum N f (Y (Datatypes.S k)) <= snd r)%Z))).
        { rewrite F, members_S. rewrite QK in YK |- *. destruct (A j k) eqn:EA; cbn [negb] in *.
          - apply wp_ok. cbn [fst snd]. rewrite app_nil_r, (wsum_ext N f _ _ (YK eq_refl)). auto.
          - rewrite (rd_some buf k (f k)) by (apply HBu; auto). cbn [bind]. apply wp_ok. cbn [fst snd]. rewrite I2. split; auto.
            intros EX MO HS0. rewrite <- (EX cur N (Y (Datatypes.S k)) (Nat.le_refl _)). apply MO. specialize (I3 EX MO HS0).
            assert (E : wsum N f (Y k) = (f k + wsum N f (Y (Datatypes.S k)))%Z); [|lia].
            rewrite (wsum_ext N f (Y k) (fun x => (x =? k) || Y (Datatypes.S k) x)).
            + apply wsum_add; auto. unfold Y. rewrite Sk, QK. destruct (Nat.ltb_spec k (Datatypes.S k)); [reflexivity|lia].
            + intros x Hx. unfold Y. destruct (Nat.eqb_spec x k) as [->|NE]; cbn [orb].
              * rewrite Sk. destruct (Nat.ltb_spec k k); [lia|]. rewrite andb_false_r. reflexivity.
              * destruct (Nat.ltb_spec x (Datatypes.S k)), (Nat.ltb_spec x k); auto; lia. }
        apply wp_bind. eapply wp_mono; [exact BN|]. intros [rem' p'] [E1 E2]. cbn [fst snd] in E1, E2.
        apply wp_ok. split; [|lia]. split; [lia|]. rewrite Nat.add_1_r. auto.
    Qed.

    (** What the scan's potential says about the cliques through j. *)
    Lemma ne_scan_pot S1 j R Y p p0 cw : (exact /\ wmono wt /\ forall x, x < N -> (0 <= f x)%Z) -> j < N -> NoDup R -> (forall x, In x R -> x < N) -> ~ In j R ->
      (forall x, x < N -> S1 x = true -> ~ In x R) ->
      cw = zsum (map f R) -> (wsum N f S1 <= p0)%Z ->
      (forall x, x < N -> Y x = true -> minus S1 j x = true) -> (forall x, x < N -> inter a cur (minus S1 j) j x = true -> Y x = true) ->
      (exact -> wmono wt -> (wsum N f (minus S1 j) <= p0)%Z -> (wsum N f Y <= p)%Z) ->
      (wsum N f (inter a cur (minus S1 j) j) <= p)%Z
      /\ (zsum (map f R) + f j + wsum N f (inter a cur (minus S1 j) j) <= rnd (rnd (p + cw) + f j))%Z.
    Proof.
      intros (EX & MO & NN) Hj ND RN NJ SR -> HP Y1 Y2 HY.
      assert (L1 : (wsum N f (minus S1 j) <= wsum N f S1)%Z).
      { apply wsum_le; auto. intros i Hi E. unfold minus in E. apply andb_prop in E. tauto. }
      specialize (HY EX MO ltac:(lia)).
      assert (L2 : (wsum N f (inter a cur (minus S1 j) j) <= wsum N f Y)%Z) by (apply wsum_le; auto).
      split; [lia|].
      assert (D : forall x, x < N -> Y x = true -> ~ In x (j :: R)).
      { intros x Hx E. specialize (Y1 x Hx E). unfold minus in Y1. apply andb_prop in Y1. destruct Y1 as [E1 E2].
        intros [<-|I]; [rewrite Nat.eqb_refl in E1; discriminate|]. exact (SR x Hx E2 I). }
      assert (L3 : (wsum N f Y + zsum (map f R) <= rnd (p + zsum (map f R)))%Z).
      { rewrite <- (wexact_with a wt cur Y R EX); auto. { apply MO. lia. } intros x Hx E I. apply (D x Hx E). right. auto. }
      pose proof (wexact_with a wt cur Y (j :: R) EX) as E. cbn [map zsum fold_right] in E. fold (zsum (map f R)) in E.
      assert (L4 : (wsum N f Y + (f j + zsum (map f R)) <= rnd (rnd (p + zsum (map f R)) + f j))%Z); [|lia].
      rewrite <- E; auto.
      - apply MO. lia.
      - constructor; auto.
      - intros x [<-|I]; auto.
    Qed.

    Lemma ne_inner_spec id S0 fs st0 sts p ps W1 mv buf cw : nkept W1 ->
      arena (edge_bits (w_g W1)) (search_cur (w_g W1)) ((id, S0) :: fs) (st0 :: sts) -> fdisj a cur ((id, S0) :: fs) ->
      nfr a cur wt T ((id, S0) :: fs) (p :: ps) -> bufok a wt cur buf -> (exact -> cw = zsum (map f (id :: ids fs))) -> In (sp a cur) (id :: ids fs) ->
      wp (ne_inner rnd cur (mkvert a mv cur) T cw p buf W1 st0)
         (fun r => let '(W, st, res) := r in nkept W
            /\ match res with
               | NeExhausted => exists S1, arena (edge_bits (w_g W)) (search_cur (w_g W)) ((id, S1) :: fs) (st :: sts)
                    /\ (forall x, x < N -> S1 x = false) /\ nfr a cur wt T ((id, S1) :: fs) (p :: ps)
                    /\ (forall K, ecov ((id, S1) :: fs) K -> ecov ((id, S0) :: fs) K)
                    /\ (nonneg -> forall K, target K -> ecov ((id, S0) :: fs) K -> ecov ((id, S1) :: fs) K)
               | NeFound => exists S1 K0, arena (edge_bits (w_g W)) (search_cur (w_g W)) ((id, S1) :: fs) (st :: sts)
                    /\ nfr a cur wt T ((id, S1) :: fs) (p :: ps)
                    /\ card N S1 < card N S0 /\ target K0 /\ rep (edge_bits (w_g W)) (eb a cur) N K0
                    /\ ecov ((id, S0) :: fs) K0
                    /\ (forall K, ecov ((id, S1) :: fs) K -> ecov ((id, S0) :: fs) K)
                    /\ (nonneg -> forall K, target K -> ecov ((id, S0) :: fs) K -> (forall x, x < N -> K x = K0 x) \/ ecov ((id, S1) :: fs) K)
                    /\ fdisj a cur ((id, S1) :: fs) /\ (forall K, ecov ((id, S1) :: fs) K -> lexlt a cur K0 K)
                    /\ card N K0 = length fs + 2
               | NePush fu q cw' => exists j S1 S2,
                    arena (edge_bits (w_g W)) (search_cur (w_g W)) ((j, S2) :: (id, S1) :: fs) (fu :: st :: sts)
                    /\ nfr a cur wt T ((j, S2) :: (id, S1) :: fs) (q :: p :: ps) /\ (exact -> cw' = zsum (map f (j :: id :: ids fs)))
                    /\ fdisj a cur ((j, S2) :: (id, S1) :: fs) /\ card N S1 < card N S0 /\ card N S2 < card N S0
                    /\ (forall K, ecov ((j, S2) :: (id, S1) :: fs) K -> ecov ((id, S0) :: fs) K)
                    /\ (nonneg -> forall K, target K -> ecov ((id, S0) :: fs) K -> ecov ((j, S2) :: (id, S1) :: fs) K)
               end).
    Proof.
      intros P1 A1 FD NF0 BO HCW HI. unfold ne_inner.
      apply (wp_loopN _ _ (fun '(W, j, st) => exists S1, nkept W
          /\ arena (edge_bits (w_g W)) (search_cur (w_g W)) ((id, S1) :: fs) (st :: sts) /\ nfr a cur wt T ((id, S1) :: fs) (p :: ps)
          /\ fdisj a cur ((id, S1) :: fs) /\ (forall x, x < N -> S1 x = true -> j <= x) /\ card N S1 <= card N S0 /\ j <= N + s_start st0
          /\ (forall K, ecov ((id, S1) :: fs) K -> ecov ((id, S0) :: fs) K)
          /\ (nonneg -> forall K, target K -> ecov ((id, S0) :: fs) K -> ecov ((id, S1) :: fs) K))
          (fun '(W, j, st) => N - j)).
      { exists S0. destruct (arena_top _ _ _ _ _ _ _ _ _ _ _ _ _ A1) as (_ & _ & _ & _ & T5).
        split; auto. split; auto. split; auto. split; auto. split; [intros x Hx E; apply T5; auto|]. repeat split; auto; lia. }
      { cbn [mkvert vN]. lia. }
      clear W1 P1 A1 NF0 FD.
      intros [[W j] st] (S1 & P & AR & NF & FD1 & LOW & LE & LJ & MO & EQ). cbn [mkvert vN velo]. cbv zeta.
      destruct (Nat.ltb_spec j N) as [Hj|Hj].
      2:{ apply wp_ok. split; auto. exists S1. split; auto. split; auto. intros x Hx. destruct (S1 x) eqn:E; auto.
          pose proof (LOW x Hx E). lia. }
      pose proof (nkept_shape W P) as SH.
      destruct (arena_top _ _ _ _ _ _ _ _ _ _ _ _ _ AR) as (T1 & T2 & T3 & T4 & T5).
      destruct (finv_ids a nv cur c0 lr HC _ _ _ _ (ar_fr _ _ _ _ _ _ _ _ _ _ AR)) as (ID1 & ID2 & ID3 & ID4).
      change (ids ((id, S1) :: fs)) with (id :: ids fs) in *.
      rewrite T2, (bits_get_spec (edge_bits (w_g W)) (blk a cur c0 lr (length fs)) N S1) by auto. cbn [bind].
      destruct (S1 j) eqn:Sj; cbn [negb].
      2:{ apply wp_ok. split; [|lia]. exists S1. split; auto. split; auto. split; auto. split; auto. split; [|repeat split; auto; try lia].
          intros x Hx E. pose proof (LOW x Hx E). assert (x <> j) by congruence. lia. }
      pose proof (card_remove N S1 j Hj Sj) as CR. change (fun i => negb (i =? j) && S1 i) with (minus S1 j) in CR.
      rewrite <- T2. apply wp_bind. eapply wp_mono; [apply (arena_minus a nv cur c0 lr HC Hc _ _ _ _ _ _ _ _ _ j AR Hj)|].
      intros m1 (M1 & M2 & M3 & M4).
      set (b := blk a cur c0 lr (length fs)) in *.
      assert (GT : forall x, x < N -> minus S1 j x = true -> j < x).
      { intros x Hx Ex. unfold minus in Ex. apply andb_prop in Ex. destruct Ex as [E1 E2].
        pose proof (LOW x Hx E2). destruct (Nat.eqb_spec x j); [discriminate|lia]. }
      assert (CD : forall x, x < N -> minus S1 j x = true -> cp x = true).
      { intros x Hx Ex. unfold minus in Ex. apply andb_prop in Ex. apply T5; tauto. }
      assert (AR1 : arena m1 (search_cur (w_g W)) ((id, minus S1 j) :: fs) (set_start st (j + 1) :: sts)).
      { apply M4. intros x Hx E NE. pose proof (LOW x Hx E). lia. }
      cbn [set_start s_id s_start s_res s_cand] in *. rewrite T2.
      pose proof (len_pos a nv HS Hself cur Hc) as LP.
      rewrite (bits_count_spec m1 b N (minus S1 j)) by auto. cbn [bind].
      set (g1 := set_mem (w_g W) m1).
      pose proof (block_end a nv cur Hc) as BE. pose proof (blk_ge a nv cur c0 lr Hc (length fs)) as BG. fold b in BG.
      assert (P1 : nkept (set_wmem W m1)).
      { apply nkept_mem; auto; [apply M1|]. intros k Hk. apply M1. lia. }
      pose proof (nkept_shape _ P1) as SH1. change (w_g (set_wmem W m1)) with g1 in SH1.
      destruct (T5 j Hj Sj) as (U1 & U2 & U3 & U4).
      rewrite (rd_some buf j (f j)) by (apply BO; auto). cbn [bind].
      rewrite (sh_el _ _ _ _ SH1), (rd_el a nv HC) by auto. cbn [bind].
      rewrite (sh_vs _ _ _ _ SH1), rd_vert by (apply (nbr_lt a nv HC); auto). cbn [bind].
      change {| vN := N; vspos := sp a cur; velo := off a cur; vebo := eb a cur; vmcs := mv; vbits := refer_from (eb a cur) N |} with (mkvert a mv cur).
      apply wp_bind.
      eapply wp_mono; [apply (ne_scan_spec g1 b (minus S1 j) j mv _ buf T cw (f j) p SH1 Hj M3 GT CD BO)|].
      intros [[rem q] cpot] HP. cbv zeta in HP.
      change (set_wg W g1) with (set_wmem W m1).
      assert (RN : forall x, In x (id :: ids fs) -> x < N) by (intros; apply ID2; auto).
      assert (LR : length (id :: ids fs) = S (length fs)) by (simpl; unfold ids; rewrite map_length; auto).
      assert (SN : forall x, x < N -> S1 x = true -> x <> sp a cur).
      { intros x Hx E ->. destruct (T5 _ Hx E) as (_ & X & _). congruence. }
      assert (NN' : nonneg -> exact /\ wmono wt /\ forall x, x < N -> (0 <= f x)%Z).
      { intros (EX & MN & NN). do 2 (split; auto). intros x Hx. apply NN, (nbr_lt a nv HC). auto. }
      pose proof NF as NFF. destruct NFF as (F1 & F2 & F3 & F4).
      destruct HP as (HPE & (Y & Y1 & Y2 & Y3) & HP).
      assert (SR : forall x, x < N -> S1 x = true -> ~ In x (id :: ids fs)) by (intros x Hx E; apply (T5 x Hx E)).
      assert (CWJ : exact -> rnd (cw + f j) = (zsum (map f (id :: ids fs)) + f j)%Z).
      { intros EX. rewrite (HCW EX). pose proof (wexact_list a wt cur (j :: id :: ids fs) EX) as E. cbn [map zsum fold_right] in *.
        rewrite Z.add_comm, E; [lia|constructor; auto|]. intros x [<-|I]; auto. }
      assert (POT : (exact /\ wmono wt /\ forall x, x < N -> (0 <= f x)%Z) -> (wsum N f S1 <= p)%Z -> (wsum N f (inter a cur (minus S1 j) j) <= q)%Z
         /\ (zsum (map f (id :: ids fs)) + f j + wsum N f (inter a cur (minus S1 j) j) <= cpot)%Z).
      { intros NN HS1. rewrite HPE. apply (ne_scan_pot S1 j (id :: ids fs) Y q p cw); auto. apply HCW, NN. }
      destruct HP as [(HP0 & HP1)|HP0].
      - destruct (Z.leb_spec T cpot) as [_|]; [|lia].
        destruct (path_clique a nv cur c0 lr HC Hc cp _ _ _ _ _ j (ar_fr _ _ _ _ _ _ _ _ _ _ AR) Hj Sj) as (PC1 & PC2 & PC3).
        destruct (Z.leb_spec T (rnd (cw + f j))) as [HF|HF].
        + (* found *)
          pose proof (rp_ge a nv cur c0 lr Hc) as RG.
          set (r := rp a cur c0 lr) in *.
          rewrite T1. apply wp_bind. change (edge_bits g1) with m1.
          eapply wp_mono; [apply (bits_set_spec m1 r N _ _ j M2 (ar_res _ _ _ _ _ _ _ _ _ _ AR1)); auto|].
          intros m2 (K1 & K2 & K3).
          assert (P2 : nkept (set_wmem (set_wmem W m1) m2)).
          { apply nkept_mem; auto; [apply K3|]. intros i Hi. apply K3. lia. }
          rewrite rd_vert by auto. cbn [bind]. unfold live. rewrite (sh_live _ _ _ _ SH1). cbn [bind].
          apply wp_bind.
          pose proof (nk_bits _ P2 cur Hc) as (K' & [RL _] & _). cbn [set_wmem set_wg w_g set_mem edge_bits] in RL.
          eapply wp_mono; [apply (bits_copy_data_spec m2 (eb a cur) r N _ _ _ K1 K2); auto; lia|].
          intros m3 (J1 & J2 & J3).
          assert (P3 : nkept (set_wmem (set_wmem (set_wmem W m1) m2) m3)).
          { eapply nkept_store; eauto. }
          assert (K4 : rep m3 r N (fun x => (x =? j) || inb x (ids ((id, minus S1 j) :: fs)))).
          { eapply rep_frame; [exact K2|exact J3|]. lia. }
          apply wp_bind. eapply wp_mono; [apply (bits_reset_spec m3 r N _ _ j J1 K4); auto|].
          intros m4 (L1 & L2 & L3). apply wp_ok.
          assert (P4 : nkept (set_wmem (set_wmem W m1) m4)).
          { change (set_wmem (set_wmem W m1) m4) with (set_wmem (set_wmem (set_wmem (set_wmem W m1) m2) m3) m4).
            apply nkept_mem; auto; [apply L3|]. intros i Hi. apply L3. lia. }
          split; [exact P4|].
          exists (minus S1 j), (fun x => inb x (j :: id :: ids fs)).
          cbn [set_wmem set_wg w_g set_mem edge_bits search_cur].
          split; [|split; [|split; [lia|split; [|split; [|split; [|split; [|split; [|split; [|split]]]]]]]]].
          * destruct K3 as [K3l K3], J3 as [J3l J3], L3 as [L3l L3].
            apply (arena_upd a nv cur c0 lr HC Hc _ _ m1); auto; [discriminate|congruence| |].
            -- eapply rep_ext; [exact L2|]. intros x Hx. cbv beta. destruct (Nat.eqb_spec x j) as [->|]; auto.
               cbn [negb andb]. symmetry. apply inb_not. exact U3.
            -- intros i Hi1 Hi2. rewrite L3, J3, K3; auto; lia.
          * eapply nfr_minus; eauto.
          * eapply (ntarget_here a cur wt T id S1 fs j p ps); auto. intros EX. rewrite <- (CWJ EX). exact HF.
          * eapply rep_frame; [|exact L3|lia]. exact J2.
          * apply MO. apply ecov_here with (j := j); auto.
          * intros K C. apply MO. eapply ecov_less. exact C.
          * intros NN K TK C. apply EQ in C; auto. eapply (ncov_found a cur wt T id S1 fs j p ps); auto. rewrite <- (CWJ (proj1 NN)). exact HF.
          * apply (fdisj_less a cur id S1); auto. intros x Hx E. apply (minus_sub S1 j x E).
          * intros K C. apply (ecov_after a cur id S1 fs j); auto.
          * rewrite PC3. simpl. lia.
        + (* push *)
          apply wp_bind. eapply wp_mono.
          * apply (arena_push a nv cur c0 lr HC Hc _ _ g1 id (minus S1 j) fs _ sts j rem AR1); auto.
            -- unfold minus. rewrite Nat.eqb_refl. auto.
            -- intros x Hx Ex. pose proof (GT x Hx Ex). lia.
            -- rewrite <- PC3. apply Hbd'; auto.
          * intros [g2 fu] (m2 & E2 & L2 & O2 & AR2). cbn [fst snd] in *. subst g2. apply wp_ok.
            change (set_wg (set_wmem W m1) (set_cur (set_mem g1 m2) (search_cur g1 + w)))
              with (set_wg (set_wmem W m1) (set_cur (set_mem (w_g (set_wmem W m1)) m2) (search_cur g1 + w))).
            split; [apply nkept_arena; auto; apply (ar_ok _ _ _ _ _ _ _ _ _ _ AR2)|].
            exists j, (minus S1 j), (inter a cur (minus S1 j) j). cbn [set_wmem set_wg w_g set_cur set_mem edge_bits search_cur].
            split; [exact AR2|]. split.
            { apply (nfr_push a cur wt T) with (p := p); auto; [intros EX; rewrite <- (CWJ EX); exact HF|]. intros NN. apply (POT NN (F3 NN)). }
            split; [intros EX; rewrite (CWJ EX); cbn [map zsum fold_right]; lia|].
            split; [apply (fdisj_push a cur j _ id S1); auto; try (intros x Hx E; split; [apply (minus_sub S1 j x E)|auto]); intros x Hx E; unfold inter in E; apply andb_prop in E; tauto|]. split; [lia|]. split; [|split].
            -- assert (card N (inter a cur (minus S1 j) j) <= card N (minus S1 j)); [|lia].
               apply card_le. intros i Hi E. unfold inter in E. apply andb_prop in E. tauto.
            -- intros K C. apply MO. eapply ncov_unpush; eauto.
            -- intros NN K TK C. eapply ncov_push; eauto.
      - destruct (Z.leb_spec T cpot) as [|_]; [lia|]. apply wp_ok. split; [|lia].
        exists (minus S1 j). split; auto. split; [exact AR1|]. split; [eapply nfr_minus; eauto|].
        split; [apply (fdisj_less a cur id S1); auto; intros x Hx E; apply (minus_sub S1 j x E)|]. split; [intros x Hx E; pose proof (GT x Hx E); lia|].
        split; [lia|]. split; [lia|]. split.
        + intros K C. apply MO. eapply ecov_less. exact C.
        + intros NN K TK C. eapply ncov_prune; eauto.
          pose proof (POT (NN' NN) (F3 (NN' NN))). lia.
    Qed.
  End Inner.

  Notation Wt := (2 ^ (D + 2)).
  Notation pend := (npend a nv wt T).

  (** The state of an enumerator between two turns, with the stack as frames and a measure of the work left. *)
  Definition nest (W : nwgraph) (en : nenum) (n : nat) (fs : list frame) : Prop :=
    let cur := ne_cur en in
    nkept W /\ ne_W en = T /\ 1 <= cur /\ length (ne_buf en) = D
    /\ ((cur < nv /\ arena a cur c0 lr (wcand a wt cur) B (edge_bits (w_g W)) (search_cur (w_g W)) fs (map fst (ne_states en))
         /\ ne_req en = words (rlen a cur) /\ nfr a cur wt T fs (map snd (ne_states en)) /\ bufok a wt cur (ne_buf en)
         /\ (exact -> fs <> [] -> ne_cw en = zsum (map (pw a wt cur) (ids fs))) /\ fdisj a cur fs
         /\ weigh a cur fs < Wt /\ n = (nv - cur) * Wt + weigh a cur fs)
        \/ (fs = [] /\ ne_states en = [] /\ search_cur (w_g W) = c0 /\ zero_from (edge_bits (w_g W)) c0
            /\ (ne_req en = 0 \/ nv <= cur) /\ n = (nv - cur) * Wt)).

  Lemma Wt_pos : 0 < Wt. Proof. apply pow2_pos. Qed.

  Lemma nsteps_down x y : y < x -> y < nv -> forall z, z < Wt -> (nv - x) * Wt + z < (nv - y) * Wt.
  Proof.
    intros H Hy z Hz. assert ((nv - x + 1) * Wt <= (nv - y) * Wt) as L by (apply Nat.mul_le_mono_r; lia).
    rewrite Nat.mul_add_distr_r, Nat.mul_1_l in L. lia.
  Qed.

  Lemma nverts_length m : length (verts a nv m) = nv.
  Proof. unfold verts. rewrite map_length, seq_length. auto. Qed.

  Lemma nprocess_vertex_spec W1 en1 : nkept W1 -> ne_W en1 = T -> 1 <= ne_cur en1 -> ne_states en1 = [] -> length (ne_buf en1) = D ->
    search_cur (w_g W1) = c0 -> zero_from (edge_bits (w_g W1)) c0 -> ne_cur en1 < nv ->
    wp (ne_process_vertex rnd lr W1 en1) (fun r => let '(W, en) := r in exists n fs, nest W en n fs /\ n < (nv - ne_cur en1) * Wt
       /\ (forall d, pend (ne_cur en) fs d -> pend (ne_cur en1) [] d)
       /\ (nonneg -> nsvalid a nv wt W0 -> forall d, pend (ne_cur en1) [] d -> pend (ne_cur en) fs d)).
  Proof.
    intros P1 Z1 L1 S1 B1 C1 O1 H1. unfold ne_process_vertex.
    set (cur1 := ne_cur en1) in *.
    apply (wp_loopN _ _ (fun '(W, en) => nkept W /\ ne_W en = T /\ cur1 < ne_cur en /\ ne_states en = [] /\ length (ne_buf en) = D
        /\ search_cur (w_g W) = c0
        /\ zero_from (edge_bits (w_g W)) c0 /\ (nonneg -> nsvalid a nv wt W0 -> forall v K, cur1 < v < ne_cur en -> v < nv -> ~ ntarget a v wt T K))
        (fun '(W, en) => nv - ne_cur en)).
    { unfold ne_advance. cbn [ne_W ne_cur ne_states ne_buf]. repeat (split; [solve [auto|lia]|]). intros _ _ v K Hv. lia. }
    { rewrite (sh_vs _ _ _ _ (nkept_shape W1 P1)), nverts_length. unfold ne_advance. cbn [ne_cur]. fold cur1. lia. }
    clear W1 P1 Z1 C1 O1 S1 B1.
    intros [W en] (P & Z & L & ES & LB & C & O & SK). pose proof (nkept_shape W P) as SH.
    rewrite (sh_vs _ _ _ _ SH), nverts_length.
    destruct (Nat.ltb_spec (ne_cur en) nv) as [Hc|Hc].
    2:{ apply wp_ok. exists ((nv - ne_cur en) * Wt), []. split; [|split; [|split]].
        - split; auto. split; auto. split; [lia|]. split; auto. right. repeat (split; [solve [auto]|]). auto.
        - pose proof (nsteps_down (ne_cur en) cur1 L H1 0 Wt_pos). lia.
        - intros d (v & K & Hv & _ & _ & [X|[_ []]]). lia.
        - intros NN SV d (v & K & Hv & TG & E & [X|[_ []]]). destruct (SK NN SV v K ltac:(lia) Hv TG). }
    destruct (nw_done a nv wt W0 mcs c0 G0 (ne_cur en) Hc) as (x & Hx).
    rewrite (nk_mcs _ P), (rd_some _ _ _ Hx). cbn [bind].
    destruct (Z.ltb_spec x (ne_W en)) as [HM|HM].
    { apply wp_ok. unfold ne_advance. cbn [ne_W ne_cur ne_states ne_buf]. split; [|lia]. repeat (split; [solve [auto|lia]|]).
      intros NN SV v K Hv Hv' TG. destruct (Nat.eq_dec v (ne_cur en)) as [->|NE]; [|apply (SK NN SV v K); auto; lia].
      destruct TG as (T1 & T2 & T3 & T4). destruct (T4 (proj1 NN)) as [T5 _]. pose proof (SV _ x Hv' Hx K T1 T2 T3). lia. }
    destruct (HB (ne_cur en) Hc) as (R0 & R2 & R1).
    unfold ne_load_vertex. cbv zeta. rewrite (sh_vs _ _ _ _ SH), rd_vert by auto. cbn [bind].
    set (cur := ne_cur en) in *. set (w := words (rlen a cur)) in *.
    pose proof (w_pos a nv cur HC Hc) as WP.
    destruct (sp_spec a nv HS Hself cur Hc) as [Sp1 Sp2].
    assert (SP2 : c0 + 2 * w <= length (edge_bits (w_g W))).
    { rewrite (nk_len _ P). etransitivity; [|exact R1]. apply Nat.add_le_mono_l, Nat.mul_le_mono_r. lia. }
    apply wp_bind. apply wp_bind. eapply wp_mono; [apply (arena_root a nv cur c0 lr HC Hc (w_g W) mcs (mcs cur) SH C O SP2)|].
    intros [g1 st] (m1 & -> & M1 & M2 & M3 & -> & M5 & M6 & M7). cbn [s_cand].
    assert (P1 : nkept (set_wg W (set_cur (set_mem (w_g W) m1) (c0 + 2 * w)))) by (apply nkept_arena; auto).
    apply wp_bind.
    assert (EW : w_wt W = map wt (seq 0 nv)) by (rewrite (nk_wt _ P); apply G0).
    assert (ED : w_deg W = map (dgr a wt) (seq 0 nv)) by (rewrite (nk_deg _ P); apply G0).
    eapply wp_mono; [apply (nw_root_cands_spec a nv wt HC _ mcs cur (mcs cur) (blk a cur c0 lr 0) (ne_buf en) (length (ne_buf en))
      (nkept_shape _ P1) Hc EW ED eq_refl ltac:(rewrite LB; auto) M7)|].
    cbn [set_wg w_g set_cur set_mem edge_bits].
    intros [[m2 buf'] pot] (L1' & L2 & L3 & L4 & L5 & L6).
    rewrite EW, rd_mapseq by auto. cbn [bind].
    assert (LM2 : length m2 = length m1) by (destruct L3; lia).
    assert (Hcp := wcand_sp a nv wt HC cur Hc).
    assert (AR : arena a cur c0 lr (wcand a wt cur) B m2 (c0 + 2 * w) [(sp a cur, wcand a wt cur)]
       [mkS (sp a cur) 0 (refer_from (rp a cur c0 lr) (rlen a cur)) (refer_from (blk a cur c0 lr 0) (rlen a cur))]).
    { apply (arena_make a nv cur c0 lr HC Hc _ B Hcp m1); auto. rewrite M2, (nk_len _ P). auto. }
    assert (O2 : forall k, k < c0 -> nth k m2 0%N = nth k (edge_bits (w_g W)) 0%N).
    { intros k Hk. destruct L3 as [_ L3]. pose proof (blk_ge a nv cur c0 lr Hc 0). rewrite L3 by lia. apply M3. auto. }
    set (g2 := set_cur (set_mem (w_g W) m2) (c0 + 2 * w)).
    cbn [mkvert vN]. fold w.
    change (set_mem (set_cur (set_mem (w_g W) m1) (c0 + 2 * words (rlen a cur))) m2) with g2.
    assert (P2 : nkept (set_wg W g2)).
    { apply nkept_arena; auto. congruence. }
    cbn [mkvert vN]. fold w.
    destruct (Z.ltb_spec (rnd (pot + wt cur)) (ne_W en)) as [HBd|HBd].
    - apply wp_bind. eapply wp_mono; [apply clear_memory_spec|].
      + exact L1'.
      + cbn [set_mem set_cur search_cur edge_bits]. fold w. lia.
      + cbn [set_mem set_cur search_cur edge_bits]. fold w.
        intros g' (m3 & -> & K1 & K2 & K3). replace (c0 + 2 * w - 2 * w) with c0 in * by lia. destruct K2 as [K2l K2].
        apply wp_ok. cbn [bind]. apply wp_ok. unfold ne_advance. cbn [ne_W ne_cur ne_states ne_buf]. split; [|lia].
        match goal with |- context [set_wg W ?x] => change (set_wg W x) with (set_wg W (set_cur (set_mem (w_g W) m3) c0)) end.
        split; [|split; [auto|split; [lia|split; [auto|split; [congruence|split; [auto|split]]]]]].
        * apply nkept_arena; auto; [congruence|]. intros i Hi. rewrite K2 by lia. auto.
        * intros i Hi. cbn [set_wg w_g set_cur set_mem edge_bits]. destruct (Nat.lt_ge_cases i (c0 + 2 * w)); [apply K3; lia|].
          rewrite K2 by lia. apply (ar_zero _ _ _ _ _ _ _ _ _ _ AR). lia.
        * intros NN SV v K Hv Hv' TG. destruct (Nat.eq_dec v cur) as [->|NE]; [|apply (SK NN SV v K); auto; lia].
          destruct TG as (T1 & T2 & T3 & T4). destruct NN as (EX & _ & NN). destruct (T4 EX) as [T5 _].
          pose proof (rooted_weight a nv cur wt HC Hc K EX (nonneg_pos a nv wt HC cur (conj EX NN)) T1) as RW.
          rewrite <- (wbnd_cands a nv wt HC cur EX Hc), <- L6 in RW. lia.
    - apply wp_ok. cbn [bind]. apply wp_ok. rewrite ES. cbn [ne_W ne_cur ne_states ne_buf].
      assert (WW : weigh a cur [(sp a cur, wcand a wt cur)] < Wt).
      { unfold weigh. cbn [fold_right snd]. pose proof (card_bound (rlen a cur) (wcand a wt cur)) as CB.
        pose proof (Nat.pow_le_mono_r 2 (S (card (rlen a cur) (wcand a wt cur))) (D + 2) ltac:(lia) ltac:(lia)).
        pose proof (pow2_pos (S (card (rlen a cur) (wcand a wt cur)))). lia. }
      eexists _, [(sp a cur, wcand a wt cur)]. split; [|split; [|split]].
      + split; auto. cbn [ne_W ne_cur ne_states ne_buf ne_req ne_cw]. split; auto. split; [lia|]. split; [congruence|]. left.
        split; auto. split; [exact AR|]. split; auto. split; [|split; [exact L5|split; [|split; [cbn; auto|split; [exact WW|reflexivity]]]]].
        * cbn [map snd nfr ids fst]. split; [|split; [congruence|split; [|auto]]].
          -- intros y q Hy _ [<-|[]]. auto.
          -- intros (EX & _). rewrite L6, (wexact_rsum a wt cur _ _ EX (Nat.le_refl _)). lia.
        * intros _ _. cbn [map ids fst zsum fold_right]. unfold pw. rewrite Sp2. lia.
      + apply nsteps_down; auto.
      + intros d (v & K & Hv & TG & E & X). exists v, K. split; auto. split; auto. split; auto. left. destruct X as [X|[-> _]]; lia.
      + intros NN SV d (v & K & Hv & TG & E & [X|[_ []]]). exists v, K. split; auto. split; auto. split; auto.
        destruct (Nat.lt_trichotomy v cur) as [Y|[->|Y]]; auto.
        * destruct (SK NN SV v K ltac:(lia) Hv TG).
        * right. split; auto. apply ncov_init. apply TG.
  Qed.

  (** The order in which the turns find cliques. *)
  Definition nprior (d d' : list nat) : Prop :=
    exists v K v' K', v < nv /\ v' < nv /\ ntarget a v wt T K /\ ntarget a v' wt T K' /\ d = decode a v K /\ d' = decode a v' K'
      /\ (v < v' \/ v = v' /\ lexlt a v K K').

  Section Call.
    Variables (n0 : nat) (P0 : list nat -> Prop).

    Definition nturn_inv (s : nwgraph * nenum) (n : nat) : Prop :=
      let '(W, en) := s in exists fs, nest W en n fs /\ n <= n0
        /\ (forall d, pend (ne_cur en) fs d -> P0 d) /\ (nonneg -> nsvalid a nv wt W0 -> forall d, P0 d -> pend (ne_cur en) fs d).

    Definition nturn_post (r : nwgraph * nenum * nat) : Prop :=
      let '(W, en, v) := r in
      (1 <= v < nv /\ exists n fs K, n < n0 /\ nest W en n fs /\ ntarget a v wt T K /\ rep (edge_bits (w_g W)) (eb a v) (rlen a v) K
         /\ c0 <= search_cur (w_g W) <= c0 + card (rlen a v) K * words (rlen a v) /\ zero_from (edge_bits (w_g W)) (search_cur (w_g W))
         /\ P0 (decode a v K) /\ (forall d, pend (ne_cur en) fs d -> P0 d /\ d <> decode a v K /\ nprior (decode a v K) d)
         /\ (nonneg -> nsvalid a nv wt W0 -> forall d, P0 d -> d = decode a v K \/ pend (ne_cur en) fs d))
      \/ (nv <= v /\ nkept W /\ search_cur (w_g W) = c0 /\ zero_from (edge_bits (w_g W)) c0 /\ ne_states en = [] /\ nv <= ne_cur en
          /\ (nonneg -> nsvalid a nv wt W0 -> forall d, ~ P0 d)).

    Lemma ne_turn_spec s n : nturn_inv s n ->
      wp (ne_turn rnd lr s) (fun r => match r with Cont s' => exists n', n' < n /\ nturn_inv s' n' | Done x => nturn_post x end).
    Proof.
      destruct s as [W en]. intros (fs & (P & Z & L & LB & X) & LN & I1 & I2). unfold ne_turn.
      pose proof (nkept_shape W P) as SH. rewrite (sh_nv _ _ _ _ SH).
      destruct (Nat.ltb_spec (ne_cur en) nv) as [Hc|Hc].
      2:{ apply wp_ok. right. destruct X as [(X & _)|(-> & X1 & X2 & X3 & X4 & X5)]; [lia|].
          repeat (split; [solve [auto]|]). intros NN SV d Pd. destruct (I2 NN SV d Pd) as (v & K & Hv & _ & _ & [Y|[_ []]]). lia. }
      destruct (HB (ne_cur en) Hc) as (R0 & R2 & R1).
      assert (Hbd' : forall K, rooted_by (wcand a wt (ne_cur en)) a (ne_cur en) K -> pclique a (ne_cur en) K -> card (rlen a (ne_cur en)) K <= B) by auto.
      destruct (ne_states en) as [|[st pot] rest] eqn:ES.
      - (* the next root *)
        assert (CL : wp (clear_memory (w_g W) (ne_req en)) (fun g' => nkept (set_wg W g') /\ search_cur g' = c0 /\ zero_from (edge_bits g') c0) /\ fs = []
                  /\ n = (nv - ne_cur en) * Wt).
        { destruct X as [(_ & AR & X2 & X3 & X4 & X5 & X6 & X7 & X8)|(-> & X1 & X2 & X3 & X4 & X5)].
          - pose proof (finv_len _ _ _ _ _ _ _ _ (ar_fr _ _ _ _ _ _ _ _ _ _ AR)) as HL. destruct fs; [|discriminate].
            split; [|split; auto].
            + rewrite X2. eapply wp_mono; [apply (arena_release a nv (ne_cur en) c0 lr HC Hc _ _ Hbd' (w_g W) [] [] AR)|].
              intros g' (m' & -> & M1 & M2 & M3 & M4). split; [apply nkept_arena; auto|]. split; auto.
            + rewrite X8. unfold weigh. cbn [fold_right]. lia.
          - destruct X4 as [X4|X4]; [|lia]. rewrite X4. unfold clear_memory. destruct (Nat.ltb_spec (search_cur (w_g W)) 0); [lia|].
            cbn [for_ Nat.sub foldM seq]. split; [|auto]. unfold for_. cbn [Nat.sub seq foldM bind]. apply wp_ok.
            replace (set_cur (set_mem (w_g W) (edge_bits (w_g W))) (search_cur (w_g W) - 0)) with (w_g W).
            + split; auto. replace (set_wg W (w_g W)) with W by (destruct W; reflexivity). auto.
            + rewrite Nat.sub_0_r. destruct (w_g W); reflexivity. }
        destruct CL as (CL & -> & EN).
        apply wp_bind. eapply wp_mono; [exact CL|]. intros g1 (P1 & C1 & O1).
        apply wp_bind. eapply wp_mono; [apply (nprocess_vertex_spec (set_wg W g1) en P1 Z L ES LB C1 O1 Hc)|].
        intros [W2 en2] (n2 & fs2 & E2 & L2 & J1 & J2). apply wp_ok. exists n2. split; [lia|]. exists fs2. split; auto. split; [lia|].
        split; [intros d Q; apply I1, J1, Q|intros NN SV d Q; apply J2; auto].
      - (* a turn of the search *)
        destruct X as [(_ & AR & X2 & X3 & X4 & X5 & X6 & X7 & X8)|(_ & X1 & _)]; [|discriminate].
        destruct fs as [|[id S0] fs]; [destruct (ar_fr _ _ _ _ _ _ _ _ _ _ AR)|].
        set (cur := ne_cur en) in *. cbn [map fst snd] in AR, X3. cbv zeta.
        destruct (arena_top _ _ _ _ _ _ _ _ _ _ _ _ _ AR) as (T1 & T2 & T3 & T4 & T5).
        pose proof (len_pos a nv HS Hself cur Hc) as LP.
        rewrite (sh_vs _ _ _ _ SH), rd_vert by auto. cbn [bind].
        rewrite (bits_count_spec (edge_bits (w_g W)) (blk a cur c0 lr (length fs)) (rlen a cur) S0) by (auto; apply (ar_ok _ _ _ _ _ _ _ _ _ _ AR)).
        cbn [bind]. replace (set_wmem W (edge_bits (w_g W))) with W by (destruct W as [g ? ? ? ? ? ?]; destruct g; reflexivity).
        assert (X5' : exact -> ne_cw en = zsum (map (pw a wt cur) (id :: ids fs))) by (intros EX; apply (X5 EX); discriminate). clear X5. rename X5' into X5.
        destruct (finv_ids a nv cur c0 lr HC _ _ _ _ (ar_fr _ _ _ _ _ _ _ _ _ _ AR)) as (ID1 & ID2 & ID3 & ID4).
        apply wp_bind. rewrite Z.
        eapply wp_mono; [apply (ne_inner_spec cur Hc id S0 fs st (map fst rest) pot (map snd rest) W (mcs cur) (ne_buf en) (ne_cw en) P AR X6 X3 X4 X5)|].
        { apply ID4. discriminate. }
        intros [[W2 st2] res] (P2 & H2).
        assert (P2S : forall c, 2 ^ S c = 2 ^ c + 2 ^ c) by (intros; simpl; lia).
        destruct res as [| |fu fp cw'].
        + destruct H2 as (S1 & AR2 & EM & NF2 & MO & EQ). rewrite X2.
          pose proof (arena_pop a nv cur c0 lr HC Hc _ _ Hbd' (w_g W2) id S1 fs st2 (map fst rest) AR2 EM) as POP. apply wp_bind_inv in POP.
          apply wp_bind. eapply wp_mono; [exact POP|]. clear POP. intros g3 POP. apply wp_bind_inv in POP.
          apply wp_bind. eapply wp_mono; [exact POP|]. clear POP. cbv beta. intros m3 POP. cbn [ends_with] in POP.
          destruct POP as (m' & E3 & L3 & O3 & AR3). rewrite E3.
          destruct (arena_top _ _ _ _ _ _ _ _ _ _ _ _ _ AR2) as (V1 & V2 & V3 & V4 & V5). rewrite V4.
          assert (RD : exists x, rd (ne_buf en) id = Ok x /\ (fs <> [] -> x = pw a wt cur id)).
          { pose proof (ar_fr _ _ _ _ _ _ _ _ _ _ AR2) as FR. destruct FR as (_ & (G1 & G2 & G3 & _) & _).
            destruct (nth_error (ne_buf en) id) as [x|] eqn:EN.
            - exists x. split; [apply rd_some; auto|]. intros NE. rewrite (X4 id G1 (G3 NE)) in EN. congruence.
            - apply nth_error_None in EN. lia. }
          destruct RD as (x & -> & RX). cbn [bind]. apply wp_ok.
          assert (WL : weigh a cur fs < weigh a cur ((id, S0) :: fs)).
          { unfold weigh. cbn [fold_right snd]. pose proof (pow2_pos (card (rlen a cur) S0)). rewrite P2S. lia. }
          exists ((nv - cur) * Wt + weigh a cur fs). split; [lia|]. exists fs. cbn [ne_cur].
          split; [|split; [lia|split]].
          * split; [apply nkept_arena; auto; apply (ar_ok _ _ _ _ _ _ _ _ _ _ AR3)|]. cbn [ne_W ne_cur ne_states ne_req ne_cw ne_buf].
            split; auto. split; auto. split; auto. left. split; auto. cbn [set_wg w_g set_cur set_mem edge_bits search_cur].
            split; [exact AR3|]. split; auto. split; [apply X3|]. split; auto. split.
            -- change (ids ((id, S0) :: fs)) with (id :: ids fs) in *. intros EX NE. rewrite (X5 EX), (RX NE).
               rewrite <- (wexact_list a wt cur (ids fs) EX); [|inversion ID1; auto|intros y Hy; apply ID2; right; auto].
               f_equal. cbn [map zsum fold_right]. fold (zsum (map (pw a wt cur) (ids fs))). lia.
            -- split; [apply X6|]. split; [change (weigh a cur ((id, S0) :: fs) < Wt) in X7; lia|reflexivity].
          * intros d Q. apply I1. eapply npend_imp; [|exact Q]. intros K TK C. right. exact C.
          * intros NN SV d Q. apply (I2 NN SV) in Q. eapply npend_imp; [|exact Q]. intros K TK C.
            apply (EQ NN K TK) in C. destruct (finv_ids a nv cur c0 lr HC _ _ _ _ (ar_fr _ _ _ _ _ _ _ _ _ _ AR2)) as (IE1 & IE2 & _).
            eapply (ncov_pop a cur wt T id S1 fs); eauto; [apply NN|]. intros y I. apply IE2; auto.
        + destruct H2 as (S1 & K0 & AR2 & NF2 & LT & TG & RP & EC & MO & FO & FD & GO & CK). apply wp_ok. left. split; [lia|].
          assert (WL : weigh a cur ((id, S1) :: fs) < weigh a cur ((id, S0) :: fs)).
          { unfold weigh. cbn [fold_right snd]. pose proof (Nat.pow_lt_mono_r 2 (S (card (rlen a cur) S1)) (S (card (rlen a cur) S0)) ltac:(lia) ltac:(lia)).
            pose proof (pow2_pos (S (card (rlen a cur) S1))). lia. }
          exists ((nv - cur) * Wt + weigh a cur ((id, S1) :: fs)), ((id, S1) :: fs), K0. split; [lia|]. cbn [ne_cur].
          split; [|split; [exact TG|split; [exact RP|split; [|split; [apply (ar_zero _ _ _ _ _ _ _ _ _ _ AR2)|split; [|split]]]]]].
          * split; auto. cbn [ne_W ne_cur ne_states ne_req ne_cw ne_buf map fst snd]. split; auto. split; auto. split; auto. left. split; auto. split; [exact AR2|].
            split; auto. split; auto. split; auto. split; [intros EX _; exact (X5 EX)|]. split; [exact FD|].
            split; [change (weigh a cur ((id, S0) :: fs) < Wt) in X7; lia|reflexivity].
          * rewrite (ar_sc _ _ _ _ _ _ _ _ _ _ AR2), CK. cbn [length]. split; [lia|]. apply Nat.add_le_mono_l, Nat.mul_le_mono_r. lia.
          * apply I1. exists cur, K0. auto 10.
          * intros d (v & K & Hv & TK & E & Q). split.
            -- apply I1. exists v, K. split; auto. split; auto. split; auto. destruct Q as [Q|[EV Q]]; auto.
            -- assert (PR : cur < v \/ cur = v /\ lexlt a cur K0 K) by (destruct Q as [Q|[-> Q]]; [left; auto|right; auto]).
               split; [|exists cur, K0, v, K; auto 10].
               intros E'. rewrite E in E'. apply (wdecode_inj a nv wt HC) in E'; auto; [|apply TK|apply TG]. destruct E' as [-> E'].
               destruct PR as [PR|(_ & x & Hx & A1 & A2 & _)]; [lia|]. rewrite (E' x Hx) in A2. congruence.
          * intros NN SV d Q. apply I2 in Q; auto. destruct Q as (v & K & Hv & TK & E & Q). destruct Q as [Q|[EV Q]]; [|subst v].
            -- right. exists v, K. auto 10.
            -- destruct (FO NN K TK Q) as [EK|C]; [left; subst d; apply decode_ext; auto|right; exists cur, K; auto 10].
        + destruct H2 as (j & S1 & S2 & AR2 & NF2 & CW2 & SJ & LT1 & LT2 & MO & EQ). apply wp_ok.
          assert (WL : weigh a cur ((j, S2) :: (id, S1) :: fs) < weigh a cur ((id, S0) :: fs)).
          { unfold weigh. cbn [fold_right snd].
            pose proof (Nat.pow_le_mono_r 2 (S (card (rlen a cur) S1)) (card (rlen a cur) S0) ltac:(lia) LT1).
            pose proof (Nat.pow_le_mono_r 2 (S (card (rlen a cur) S2)) (card (rlen a cur) S0) ltac:(lia) LT2).
            pose proof (pow2_pos (S (card (rlen a cur) S1))). pose proof (pow2_pos (S (card (rlen a cur) S2))).
            rewrite (P2S (card (rlen a cur) S0)). lia. }
          exists ((nv - cur) * Wt + weigh a cur ((j, S2) :: (id, S1) :: fs)). split; [lia|].
          exists ((j, S2) :: (id, S1) :: fs). cbn [ne_cur].
          split; [|split; [lia|split]].
          * split; auto. cbn [ne_W ne_cur ne_states ne_req ne_cw ne_buf map fst snd]. split; auto. split; auto. split; auto. left. split; auto. split; [exact AR2|].
            split; auto. split; auto. split; auto. split; [intros EX _; exact (CW2 EX)|]. split; [exact SJ|].
            split; [change (weigh a cur ((id, S0) :: fs) < Wt) in X7; lia|reflexivity].
          * intros d Q. apply I1. eapply npend_imp; [|exact Q]. intros K TK C. apply MO, C.
          * intros NN SV d Q. apply (I2 NN SV) in Q. eapply npend_imp; [|exact Q]. intros K TK C. apply EQ; auto.
    Qed.
  End Call.

  Lemma ne_process_graph_spec W en n fs : nest W en n fs ->
    wp (ne_process_graph rnd lr W en) (nturn_post n (pend (ne_cur en) fs)).
  Proof.
    intros E. pose proof E as (P & Z & L & LB & X). unfold ne_process_graph.
    apply (wp_run2_rel _ _ (nturn_inv n (pend (ne_cur en) fs)) _ n).
    - exists fs. split; auto.
    - rewrite (sh_nv _ _ _ _ (nkept_shape W P)), (core_deg (w_g W) (w_g W0) (nk_core _ P)). rewrite <- Nat.add_assoc, Nat.pow_add_r.
      pose proof Wt_pos as WP. assert (n < nv * Wt \/ nv <= ne_cur en) as [H|H].
      { destruct X as [(X1 & _ & _ & _ & _ & _ & _ & X6 & X7)|(_ & _ & _ & _ & _ & X7)].
        - left. pose proof (nsteps_down (ne_cur en) 0 ltac:(lia) ltac:(lia) _ X6). rewrite Nat.sub_0_r in *. lia.
        - destruct (Nat.lt_ge_cases (ne_cur en) nv); auto. left.
          pose proof (nsteps_down (ne_cur en) 0 ltac:(lia) ltac:(lia) 0 WP). rewrite Nat.sub_0_r in *. lia. }
      + eapply Nat.lt_le_trans; [exact H|]. apply Nat.mul_le_mono_r. apply Nat.lt_le_incl, Nat.pow_gt_lin_r. lia.
      + assert (n = 0) as ->.
        { destruct X as [(X1 & _)|(_ & _ & _ & _ & _ & X7)]; [lia|]. rewrite X7. replace (nv - ne_cur en) with 0 by lia. reflexivity. }
        apply Nat.mul_pos_pos; [apply pow2_pos|auto].
    - intros s n' I. apply ne_turn_spec. auto.
  Qed.
End Enum.
