(** NWEnumDet: the cliques that NWCliqueEnumerator yields and the graph it leaves at the end are determined by the graph it
    starts from: neither the order in which the two bitsets of a root are allocated nor the contents of the reserved weights
    storage matter. As in NWDetFacts both runs follow the same machine on sets of positions, here with the cliques stored. *)
From Verif Require Import Base MBits MUtils MGraph MApi MNW MNWEnum MNWApi Spec SpecNW SpecBits BaseFacts BitsFacts SetFacts SortFacts RowFacts ConstructFacts CardFacts LoadFacts SearchBase FrameFacts FrameInv StackFacts SearchFacts CliqueFacts ApiFacts EnumFacts NWSum NWBase NWStack NWHeur NWSearch NWFacts NWEnumFacts NWEnumApi NWDetFacts.
Local Open Scope nat_scope.
Local Arguments Nat.sub : simpl never.
Local Arguments Nat.mul : simpl never.

Section Reach.
  Context {X : Type} (nxt : X -> option X).

  Inductive reach : X -> X -> Prop :=
  | re_refl s : reach s s
  | re_step s t u : reach s t -> nxt t = Some u -> reach s u.

  Lemma reach_trans s t u : reach s t -> reach t u -> reach s u.
  Proof. intros H1 H2. revert H1. induction H2; intros; auto. eapply re_step; [|eassumption]; auto. Qed.

  Lemma reach_first s t : reach s t -> s = t \/ exists u, nxt s = Some u /\ reach u t.
  Proof.
    induction 1 as [|s t u H [->|(x & E & R)] A]; auto; right.
    - exists u. split; auto. constructor.
    - exists x. split; auto. eapply re_step; [|eassumption]; auto.
  Qed.

  Lemma reach_det s t u : reach s t -> reach s u -> nxt u = None -> reach t u.
  Proof.
    intros H1 H2 E. induction H1 as [|s t v H IH A]; auto.
    specialize (IH H2). destruct (reach_first t u IH) as [->|(x & E1 & R)]; congruence.
  Qed.

  Lemma reach_end s t u : reach s t -> reach s u -> nxt t = None -> nxt u = None -> t = u.
  Proof.
    intros H1 H2 E1 E2. pose proof (reach_det s t u H1 H2 E2) as R. destruct (reach_first t u R) as [|(x & E & _)]; congruence.
  Qed.
End Reach.

Lemma find_skip (P : nat -> bool) i n x : i <= x < n -> P x = true -> (forall y, i <= y < x -> P y = false) -> find P (seq i (n - i)) = Some x.
Proof.
  intros Hx Px F. replace (n - i) with ((x - i) + (1 + (n - x - 1))) by lia. rewrite seq_app.
  assert (FA : forall l1 l2, (forall y, In y l1 -> P y = false) -> find P (l1 ++ l2) = find P l2).
  { clear. induction l1 as [|y l1 IH]; intros l2 H; auto. cbn [find app]. rewrite (H y) by (left; auto). apply IH. intros z Hz. apply H. right. auto. }
  rewrite FA by (intros y Hy; apply in_seq in Hy; apply F; lia). replace (i + (x - i)) with x by lia. cbn [Nat.add seq find]. rewrite Px. reflexivity.
Qed.

Lemma find_nothing (P : nat -> bool) l : (forall y, In y l -> P y = false) -> find P l = None.
Proof. intros H. destruct (find P l) as [x|] eqn:E; auto. apply find_some in E. rewrite H in E by apply E. destruct E. discriminate. Qed.

(** What a loop returns, when it returns. *)
Lemma run_ok {S R} (body : S -> outcome (step S R)) (I : S -> Prop) (Q : R -> Prop) :
  (forall s, I s -> wp (body s) (fun r => match r with Cont s' => I s' | Done x => Q x end)) ->
  forall k s r, I s -> run2 k body s = Ok r -> Q r.
Proof.
  intros Hs.
  assert (G : forall k s r, I s -> loop2 k body s = Ok r -> match r with Cont s' => I s' | Done x => Q x end).
  { induction k as [|k IH]; intros s r HI E; cbn [loop2] in E.
    - specialize (Hs s HI). rewrite E in Hs. exact Hs.
    - destruct (loop2 k body s) as [[s'|x]| |] eqn:E1; cbn [bind] in E; try discriminate.
      + apply (IH s' r); auto. exact (IH s _ HI E1).
      + injection E as <-. exact (IH s _ HI E1). }
  intros k s r HI E. unfold run2 in E. destruct (loop2 k body s) as [[s'|x]| |] eqn:E1; cbn [bind] in E; try discriminate.
  injection E as <-. exact (G k s _ HI E1).
Qed.

Section Machine.
  Variables (a : pairs) (nv : nat) (wt : wts) (T : Z) (mc : list Z).
  Notation rnd := (wrnd wt).
  Notation root v := (rsum rnd (rlen a v) (pw a wt v) (wcand a wt v)).

  (** What the scan of the candidates after j leaves of the potential. *)
  Fixpoint ascan (cur : nat) (X : nat -> bool) (cw : Z) (j : nat) (l : list nat) (p : Z) : Z :=
    match l with
    | [] => p
    | k :: l => if (T <=? rnd (rnd (p + cw) + pw a wt cur j))%Z
                then ascan cur X cw j l (if X k && negb (padj a cur j k) then rnd (p - pw a wt cur k)%Z else p)
                else p
    end.

  (** The root, the frames with their potentials, clique_weight, and the cliques stored so far, the last one first. *)
  Definition estate : Type := (nat * list (frame * Z) * Z * list (nat * (nat -> bool)))%type.

  Definition estep (s : estate) : option estate :=
    let '(cur, fs, cw, out) := s in
    if nv <=? cur then None
    else
      match fs with
      | [] =>
          match find (fun v => (T <=? nth v mc 0)%Z && (T <=? rnd (root v + wt v))%Z) (seq (cur + 1) (nv - (cur + 1))) with
          | None => Some (nv, [], 0%Z, out)
          | Some v => Some (v, [((sp a v, wcand a wt v), root v)], wt v, out)
          end
      | ((id, X), p) :: fs' =>
          match find X (seq 0 (rlen a cur)) with
          | None => Some (cur, fs', match fs' with [] => 0%Z | _ => rnd (cw - pw a wt cur id) end, out)
          | Some j =>
              let q := ascan cur (minus X j) cw j (seq (j + 1) (rlen a cur - (j + 1))) p in
              if (T <=? rnd (rnd (q + cw) + pw a wt cur j))%Z then
                if (T <=? rnd (cw + pw a wt cur j))%Z then
                  Some (cur, ((id, minus X j), p) :: fs', cw, (cur, fun x => inb x (j :: id :: ids (map fst fs'))) :: out)
                else Some (cur, ((j, inter a cur (minus X j) j), q) :: ((id, minus X j), p) :: fs', rnd (cw + pw a wt cur j), out)
              else Some (cur, ((id, minus X j), p) :: fs', cw, out)
          end
      end.
End Machine.

Section Enum.
  Variables (a : pairs) (nv : nat) (wt : wts) (T : Z) (W0 : nwgraph) (mcs : nat -> nat) (B : nat).
  Hypothesis HC : gctx a nv.
  Notation c0 := (search_cur (w_g W0)).
  Notation D := (max_degree (w_g W0)).
  Hypothesis G0 : nbase a nv wt (search_cur (w_g W0)) W0 mcs.
  Hypothesis HB1 : 1 <= B.
  Hypothesis HB : forall v, v < nv -> (forall K, pclique a v K -> card (rlen a v) K <= B) /\ rlen a v <= max_degree (w_g W0)
    /\ search_cur (w_g W0) + (B + 1) * words (rlen a v) <= length (edge_bits (w_g W0)).
  Let HS := gc_sorted _ _ HC.
  Let Hself := gc_self _ _ HC.
  Let SH0 := nb_shape _ _ _ _ _ _ G0.
  Let He := nb_eb _ _ _ _ _ _ G0.
  Notation rnd := (wrnd wt).
  Notation nkept := (nkept a nv wt W0).
  Notation nkept_shape := (nkept_shape a nv wt W0 mcs G0).
  Notation nkept_arena := (nkept_arena a nv wt W0 mcs B G0 HB1).
  Notation nkept_mem := (nkept_mem a nv wt W0 mcs B G0 HB1).
  Notation estep := (estep a nv wt T (w_mcs W0)).
  Notation ereach := (reach estep).

  (** The bitsets of the roots hold the cliques stored last. *)
  Definition stored (m : list BinNums.N) (out : list (nat * (nat -> bool))) : Prop :=
    forall v, v < nv -> match find (fun x => fst x =? v) out with
                        | None => forall k, in_block a v k -> nth k m 0%N = nth k (edge_bits (w_g W0)) 0%N
                        | Some (_, K) => rep m (eb a v) (rlen a v) K
                        end.

  Definition outok (W : nwgraph) (out : list (nat * (nat -> bool))) : Prop :=
    (CUR_MAX_SIZE (w_g W) = CUR_MAX_SIZE (w_g W0) /\ CUR_MAX_LOC (w_g W) = CUR_MAX_LOC (w_g W0)) /\ stored (edge_bits (w_g W)) out.

  Lemma stored_low m m' out : stored m out -> length m' = length m -> (forall k, k < c0 -> nth k m' 0%N = nth k m 0%N) -> stored m' out.
  Proof.
    intros H L E v Hv. specialize (H v Hv). pose proof (block_end a nv v Hv) as BE. destruct (find (fun x => fst x =? v) out) as [[u K]|].
    - eapply rep_nth; [|exact L|exact H]. intros i Hi. apply E. lia.
    - intros k Hk. rewrite E by (unfold in_block in Hk; lia). auto.
  Qed.

  Lemma outok_arena W m c out : outok W out -> length m = length (edge_bits (w_g W)) ->
    (forall k, k < c0 -> nth k m 0%N = nth k (edge_bits (w_g W)) 0%N) -> outok (set_wg W (set_cur (set_mem (w_g W) m) c)) out.
  Proof. intros [RK H] L E. split; [exact RK|]. apply (stored_low (edge_bits (w_g W))); auto. Qed.

  Lemma outok_mem W m out : outok W out -> length m = length (edge_bits (w_g W)) ->
    (forall k, k < c0 -> nth k m 0%N = nth k (edge_bits (w_g W)) 0%N) -> outok (set_wmem W m) out.
  Proof. intros. unfold set_wmem. rewrite set_mem_cur. apply outok_arena; auto. Qed.

  Lemma outok_store W m v K out : outok W out -> v < nv -> same_out (edge_bits (w_g W)) m (eb a v) (words (rlen a v)) ->
    rep m (eb a v) (rlen a v) K -> outok (set_wmem W m) ((v, K) :: out).
  Proof.
    intros [RK H] Hv [M1 M2] R. split; [exact RK|]. cbn [set_wmem set_wg w_g set_mem edge_bits]. intros u Hu. cbn [find fst].
    destruct (Nat.eqb_spec v u) as [<-|NE]; auto. specialize (H u Hu). destruct (find (fun x => fst x =? u) out) as [[u' K']|].
    - eapply rep_nth; [|exact M1|exact H]. intros i Hi. apply M2. intros Hi'.
      apply (block_disjoint a nv u v i Hu Hv ltac:(auto)); [exact Hi|exact Hi'].
    - intros k Hk. rewrite M2; auto. intros Hi'. apply (block_disjoint a nv u v k Hu Hv ltac:(auto)); auto.
  Qed.

  Section Run.
  Variable lr : bool.

  Section Inner.
    Variable cur : nat.
    Hypothesis Hc : cur < nv.
    Notation N := (rlen a cur).
    Notation w := (words (rlen a cur)).
    Notation A := (padj a cur).
    Notation cp := (wcand a wt cur).
    Notation f := (pw a wt cur).
    Notation arena := (arena a cur c0 lr cp B).
    Let Hbd' : forall K, rooted_by cp a cur K -> pclique a cur K -> card N K <= B := fun K _ H => proj1 (HB cur Hc) K H.

    Lemma ne_scan_det g b X j mv mw buf cw pot : shape a nv g mcs -> j < N -> rep (edge_bits g) b N X ->
      (forall x, x < N -> X x = true -> j < x) -> (forall x, x < N -> X x = true -> cp x = true) -> bufok a wt cur buf ->
      wp (ne_scan rnd g (mkvert a mv cur) (mkvert a mw (nbr a cur j)) (refer_from b N) buf T cw (f j) pot j)
         (fun '(rem, p, cpot) => p = ascan a wt T cur X cw j (seq (j + 1) (N - (j + 1))) pot).
    Proof.
      intros SH Hj HR GT CD HBu. set (e := nbr a cur j) in *.
      assert (Hev : e < nv) by (apply (nbr_lt a nv HC); auto).
      unfold ne_scan. set (R := ascan a wt T cur X cw j (seq (j + 1) (N - (j + 1))) pot).
      apply (wp_loopN _ _ (fun '(k, rem, p, cpot) => j < k <= N /\ ascan a wt T cur X cw j (seq k (N - k)) p = R /\ cpot = rnd (rnd (p + cw) + f j))
        (fun '(k, rem, p, cpot) => N - k)).
      - split; [lia|]. split; auto.
      - cbn [mkvert vN]. lia.
      - intros [[[k rem] p] cpot] (I1 & I2 & I3). cbn [mkvert vN velo vspos].
        destruct (Nat.ltb_spec k N) as [Hk|Hk].
        2:{ cbn [andb]. apply wp_ok. replace (N - k) with 0 in I2 by lia. exact I2. }
        cbn [andb]. replace (N - k) with (S (N - (k + 1))) in I2 by lia. cbn [seq ascan] in I2. rewrite <- I3 in I2.
        replace (S k) with (k + 1) in I2 by lia.
        destruct (Z.leb_spec T cpot) as [HP|HP]; [|apply wp_ok; exact I2].
        rewrite (bits_get_spec (edge_bits g) b N X) by (auto; apply (sh_mem _ _ _ _ SH)). cbn [bind].
        destruct (X k) eqn:Sk; cbn [negb andb] in *.
        2:{ apply wp_ok. split; [|lia]. split; [lia|]. auto. }
        rewrite (sh_el _ _ _ _ SH), (rd_el a nv HC) by lia. cbn [bind]. apply wp_bind.
        destruct (sp_spec a nv HS Hself e Hev) as [SP1 SP2].
        eapply wp_mono; [apply (nb_find a nv HC e (nbr a cur k) (sp a e) Hev ltac:(lia))|].
        { intros i Hi. apply (nbr_below_sp a nv HC); auto. pose proof (nbr_mono a nv HC cur j k ltac:(lia)) as H. fold e in H. lia. }
        intros [fnd ans] (F & _). cbn [fst] in F. change (inb (nbr a cur k) (row a e)) with (A j k) in F. subst fnd.
        destruct (A j k) eqn:EA; cbn [negb] in *.
        + cbn [bind]. apply wp_ok. split; [|lia]. split; [lia|]. auto.
        + rewrite (rd_some buf k (f k)) by (apply HBu; auto). cbn [bind]. apply wp_ok. split; [|lia]. split; [lia|]. auto.
    Qed.

    Lemma ne_inner_det id S0 fs st0 sts p W1 mv buf cw out : nkept W1 -> outok W1 out ->
      arena (edge_bits (w_g W1)) (search_cur (w_g W1)) ((id, S0) :: map fst fs) (st0 :: sts) -> bufok a wt cur buf ->
      wp (ne_inner rnd cur (mkvert a mv cur) T cw p buf W1 st0)
         (fun r => let '(W, st, res) := r in nkept W
            /\ match res with
               | NeExhausted => exists S1, arena (edge_bits (w_g W)) (search_cur (w_g W)) ((id, S1) :: map fst fs) (st :: sts)
                    /\ (forall x, x < N -> S1 x = false) /\ outok W out
                    /\ ereach (cur, ((id, S0), p) :: fs, cw, out) (cur, ((id, S1), p) :: fs, cw, out)
               | NeFound => exists S1 K0, arena (edge_bits (w_g W)) (search_cur (w_g W)) ((id, S1) :: map fst fs) (st :: sts)
                    /\ outok W ((cur, K0) :: out)
                    /\ ereach (cur, ((id, S0), p) :: fs, cw, out) (cur, ((id, S1), p) :: fs, cw, (cur, K0) :: out)
               | NePush fu q cw' => exists j S1 S2,
                    arena (edge_bits (w_g W)) (search_cur (w_g W)) ((j, S2) :: (id, S1) :: map fst fs) (fu :: st :: sts) /\ outok W out
                    /\ ereach (cur, ((id, S0), p) :: fs, cw, out) (cur, ((j, S2), q) :: ((id, S1), p) :: fs, cw', out)
               end).
    Proof.
      intros P1 O1 A1 BO. unfold ne_inner.
      set (s0 := (cur, ((id, S0), p) :: fs, cw, out)).
      apply (wp_loopN _ _ (fun '(W, j, st) => exists S1, nkept W /\ outok W out
          /\ arena (edge_bits (w_g W)) (search_cur (w_g W)) ((id, S1) :: map fst fs) (st :: sts)
          /\ (forall x, x < N -> S1 x = true -> j <= x) /\ ereach s0 (cur, ((id, S1), p) :: fs, cw, out))
          (fun '(W, j, st) => N - j)).
      { exists S0. destruct (arena_top _ _ _ _ _ _ _ _ _ _ _ _ _ A1) as (_ & _ & _ & _ & T5).
        split; auto. split; auto. split; auto. split; [intros x Hx E; apply T5; auto|constructor]. }
      { cbn [mkvert vN]. lia. }
      clearbody s0. clear W1 P1 A1 O1.
      intros [[W j] st] (S1 & P & OO & AR & LOW & RE). cbn [mkvert vN velo]. cbv zeta.
      destruct (Nat.ltb_spec j N) as [Hj|Hj].
      2:{ apply wp_ok. split; auto. exists S1. split; auto. split; auto. intros x Hx. destruct (S1 x) eqn:E; auto.
          pose proof (LOW x Hx E). lia. }
      pose proof (nkept_shape W P) as SH.
      destruct (arena_top _ _ _ _ _ _ _ _ _ _ _ _ _ AR) as (T1 & T2 & T3 & T4 & T5).
      destruct (finv_ids a nv cur c0 lr HC _ _ _ _ (ar_fr _ _ _ _ _ _ _ _ _ _ AR)) as (ID1 & ID2 & ID3 & ID4).
      change (ids ((id, S1) :: map fst fs)) with (id :: ids (map fst fs)) in *.
      rewrite T2, (bits_get_spec (edge_bits (w_g W)) (blk a cur c0 lr (length (map fst fs))) N S1) by auto. cbn [bind].
      destruct (S1 j) eqn:Sj; cbn [negb].
      2:{ apply wp_ok. split; [|lia]. exists S1. split; auto. split; auto. split; auto. split; auto.
          intros x Hx E. pose proof (LOW x Hx E). assert (x <> j) by congruence. lia. }
      rewrite <- T2. apply wp_bind. eapply wp_mono; [apply (arena_minus a nv cur c0 lr HC Hc _ _ _ _ _ _ _ _ _ j AR Hj)|].
      intros m1 (M1 & M2 & M3 & M4).
      set (b := blk a cur c0 lr (length (map fst fs))) in *.
      assert (GT : forall x, x < N -> minus S1 j x = true -> j < x).
      { intros x Hx Ex. unfold minus in Ex. apply andb_prop in Ex. destruct Ex as [E1 E2].
        pose proof (LOW x Hx E2). destruct (Nat.eqb_spec x j); [discriminate|lia]. }
      assert (CD : forall x, x < N -> minus S1 j x = true -> cp x = true).
      { intros x Hx Ex. unfold minus in Ex. apply andb_prop in Ex. apply T5; tauto. }
      assert (AR1 : arena m1 (search_cur (w_g W)) ((id, minus S1 j) :: map fst fs) (set_start st (j + 1) :: sts)).
      { apply M4. intros x Hx E NE. pose proof (LOW x Hx E). lia. }
      assert (FF : find S1 (seq 0 N) = Some j).
      { replace N with (N - 0) by lia. apply find_skip; auto; [lia|]. intros y Hy. destruct (S1 y) eqn:E; auto. pose proof (LOW y ltac:(lia) E). lia. }
      cbn [set_start s_id s_start s_res s_cand] in *. rewrite T2.
      pose proof (len_pos a nv HS Hself cur Hc) as LP.
      rewrite (bits_count_spec m1 b N (minus S1 j)) by auto. cbn [bind].
      set (g1 := set_mem (w_g W) m1).
      pose proof (block_end a nv cur Hc) as BE. pose proof (blk_ge a nv cur c0 lr Hc (length (map fst fs))) as BG. fold b in BG.
      assert (P1 : nkept (set_wmem W m1)).
      { apply nkept_mem; auto; [apply M1|]. intros k Hk. apply M1. lia. }
      assert (O1 : outok (set_wmem W m1) out).
      { apply outok_mem; auto; [apply M1|]. intros k Hk. apply M1. lia. }
      pose proof (nkept_shape _ P1) as SH1. change (w_g (set_wmem W m1)) with g1 in SH1.
      destruct (T5 j Hj Sj) as (U1 & U2 & U3 & U4).
      rewrite (rd_some buf j (f j)) by (apply BO; auto). cbn [bind].
      rewrite (sh_el _ _ _ _ SH1), (rd_el a nv HC) by auto. cbn [bind].
      rewrite (sh_vs _ _ _ _ SH1), rd_vert by (apply (nbr_lt a nv HC); auto). cbn [bind].
      change {| vN := N; vspos := sp a cur; velo := off a cur; vebo := eb a cur; vmcs := mv; vbits := refer_from (eb a cur) N |} with (mkvert a mv cur).
      apply wp_bind.
      eapply wp_mono; [exact (wp_conj _ _ _ (ne_scan_spec a nv wt W0 mcs B HC G0 HB1 cur Hc g1 b (minus S1 j) j mv _ buf T cw (f j) p SH1 Hj M3 GT CD BO)
                                            (ne_scan_det g1 b (minus S1 j) j mv _ buf cw p SH1 Hj M3 GT CD BO))|].
      intros [[rem q] cpot] [HP QD]. cbv zeta in HP.
      change (set_wg W g1) with (set_wmem W m1).
      destruct HP as (HPE & _ & HP).
      assert (ST : estep (cur, ((id, S1), p) :: fs, cw, out) =
        if (T <=? cpot)%Z then
          if (T <=? rnd (cw + f j))%Z then
            Some (cur, ((id, minus S1 j), p) :: fs, cw, (cur, fun x => inb x (j :: id :: ids (map fst fs))) :: out)
          else Some (cur, ((j, inter a cur (minus S1 j) j), q) :: ((id, minus S1 j), p) :: fs, rnd (cw + f j), out)
        else Some (cur, ((id, minus S1 j), p) :: fs, cw, out)).
      { unfold NWEnumDet.estep. destruct (Nat.leb_spec nv cur); [lia|]. rewrite FF. cbv zeta. rewrite <- QD, <- HPE. reflexivity. }
      destruct HP as [(HP0 & HP1)|HP0].
      - destruct (Z.leb_spec T cpot) as [_|]; [|lia].
        destruct (path_clique a nv cur c0 lr HC Hc cp _ _ _ _ _ j (ar_fr _ _ _ _ _ _ _ _ _ _ AR) Hj Sj) as (PC1 & PC2 & PC3).
        destruct (Z.leb_spec T (rnd (cw + f j))) as [HF|HF].
        + (* found *)
          pose proof (rp_ge a nv cur c0 lr Hc) as RG.
          set (r := rp a cur c0 lr) in *.
          rewrite T1. apply wp_bind. change (edge_bits g1) with m1.
          eapply wp_mono; [apply (bits_set_spec m1 r N _ _ j M2 (ar_res _ _ _ _ _ _ _ _ _ _ AR1)); auto|].
          intros m2 (K1 & K2 & K3).
          assert (P2 : nkept (set_wmem (set_wmem W m1) m2)).
          { apply nkept_mem; auto; [apply K3|]. intros i Hi. apply K3. lia. }
          assert (O2 : outok (set_wmem (set_wmem W m1) m2) out).
          { apply outok_mem; auto; [apply K3|]. intros i Hi. apply K3. lia. }
          rewrite rd_vert by auto. cbn [bind]. unfold live. rewrite (sh_live _ _ _ _ SH1). cbn [bind].
          apply wp_bind.
          pose proof (nk_bits _ _ _ _ _ P2 cur Hc) as (K' & [RL _] & _). cbn [set_wmem set_wg w_g set_mem edge_bits] in RL.
          eapply wp_mono; [apply (bits_copy_data_spec m2 (eb a cur) r N _ _ _ K1 K2); auto; lia|].
          intros m3 (J1 & J2 & J3).
          assert (P3 : nkept (set_wmem (set_wmem (set_wmem W m1) m2) m3)).
          { eapply nkept_store; eauto. }
          assert (O3 : outok (set_wmem (set_wmem (set_wmem W m1) m2) m3) ((cur, fun x => inb x (j :: id :: ids (map fst fs))) :: out)).
          { apply outok_store; auto. }
          assert (K4 : rep m3 r N (fun x => (x =? j) || inb x (ids ((id, minus S1 j) :: map fst fs)))).
          { eapply rep_frame; [exact K2|exact J3|]. lia. }
          apply wp_bind. eapply wp_mono; [apply (bits_reset_spec m3 r N _ _ j J1 K4); auto|].
          intros m4 (L1 & L2 & L3). apply wp_ok.
          change (set_wmem (set_wmem W m1) m4) with (set_wmem (set_wmem (set_wmem (set_wmem W m1) m2) m3) m4).
          split; [apply nkept_mem; auto; [apply L3|]; intros i Hi; apply L3; lia|].
          exists (minus S1 j), (fun x => inb x (j :: id :: ids (map fst fs))).
          split; [|split; [|eapply re_step; eauto]].
          * cbn [set_wmem set_wg w_g set_mem edge_bits search_cur].
            destruct K3 as [K3l K3], J3 as [J3l J3], L3 as [L3l L3].
            apply (arena_upd a nv cur c0 lr HC Hc _ _ m1); auto; [discriminate|congruence| |].
            -- eapply rep_ext; [exact L2|]. intros x Hx. cbv beta. destruct (Nat.eqb_spec x j) as [->|]; auto.
               cbn [negb andb]. symmetry. apply inb_not. exact U3.
            -- intros i Hi1 Hi2. rewrite L3, J3, K3; auto; lia.
          * apply outok_mem; auto; [apply L3|]. intros i Hi. apply L3. lia.
        + (* push *)
          apply wp_bind. eapply wp_mono.
          * apply (arena_push a nv cur c0 lr HC Hc _ _ g1 id (minus S1 j) (map fst fs) _ sts j rem AR1); auto.
            -- unfold minus. rewrite Nat.eqb_refl. auto.
            -- intros x Hx Ex. pose proof (GT x Hx Ex). lia.
            -- rewrite <- PC3. apply Hbd'; auto.
          * intros [g2 fu] (m2 & E2 & L2 & O2 & AR2). cbn [fst snd] in *. subst g2. apply wp_ok.
            change (set_wg (set_wmem W m1) (set_cur (set_mem g1 m2) (search_cur g1 + w)))
              with (set_wg (set_wmem W m1) (set_cur (set_mem (w_g (set_wmem W m1)) m2) (search_cur g1 + w))).
            split; [apply nkept_arena; auto; apply (ar_ok _ _ _ _ _ _ _ _ _ _ AR2)|].
            exists j, (minus S1 j), (inter a cur (minus S1 j) j). split; [exact AR2|]. split; [apply (outok_arena (set_wmem W m1)); auto|].
            eapply re_step; eauto.
      - destruct (Z.leb_spec T cpot) as [|_]; [lia|]. apply wp_ok. split; [|lia].
        exists (minus S1 j). split; auto. split; auto. split; [exact AR1|]. split; [intros x Hx E; pose proof (GT x Hx E); lia|].
        eapply re_step; eauto.
    Qed.
  End Inner.

  (** A run of the enumerator and the machine. *)
  Definition follows (W : nwgraph) (en : nenum) (s : estate) : Prop :=
    let '(cur, fs, cw, out) := s in
    ne_cur en = cur /\ nkept W /\ outok W out /\ ne_W en = T /\ 1 <= cur /\ length (ne_buf en) = D
    /\ ((cur < nv /\ arena a cur c0 lr (wcand a wt cur) B (edge_bits (w_g W)) (search_cur (w_g W)) (map fst fs) (map fst (ne_states en))
         /\ ne_req en = words (rlen a cur) /\ map snd fs = map snd (ne_states en) /\ bufok a wt cur (ne_buf en) /\ (fs <> [] -> ne_cw en = cw))
        \/ (fs = [] /\ ne_states en = [] /\ search_cur (w_g W) = c0 /\ zero_from (edge_bits (w_g W)) c0
            /\ (ne_req en = 0 \/ nv <= cur) /\ cur <= nv)).

  Definition starts (v : nat) : bool :=
    (T <=? nth v (w_mcs W0) 0)%Z && (T <=? rnd (rsum rnd (rlen a v) (pw a wt v) (wcand a wt v) + wt v))%Z.

  Lemma ne_process_vertex_det W1 en1 cw1 out : nkept W1 -> outok W1 out -> ne_W en1 = T -> 1 <= ne_cur en1 -> ne_states en1 = [] -> length (ne_buf en1) = D ->
    search_cur (w_g W1) = c0 -> zero_from (edge_bits (w_g W1)) c0 -> ne_cur en1 < nv ->
    wp (ne_process_vertex rnd lr W1 en1) (fun r => let '(W, en) := r in exists s, follows W en s /\ estep (ne_cur en1, [], cw1, out) = Some s).
  Proof.
    intros P1 O1 Z1 L1 S1 B1 C1 O1' H1. unfold ne_process_vertex.
    set (cur1 := ne_cur en1) in *.
    apply (wp_loopN _ _ (fun '(W, en) => nkept W /\ outok W out /\ ne_W en = T /\ cur1 < ne_cur en <= nv /\ ne_states en = [] /\ length (ne_buf en) = D
        /\ search_cur (w_g W) = c0 /\ zero_from (edge_bits (w_g W)) c0 /\ (forall v, cur1 + 1 <= v < ne_cur en -> starts v = false))
        (fun '(W, en) => nv - ne_cur en)).
    { unfold ne_advance. cbn [ne_W ne_cur ne_states ne_buf]. repeat (split; [solve [auto|lia]|]). intros v Hv. lia. }
    { rewrite (sh_vs _ _ _ _ (nkept_shape W1 P1)), nverts_length. unfold ne_advance. cbn [ne_cur]. fold cur1. lia. }
    clear W1 P1 O1 Z1 C1 O1' S1 B1.
    intros [W en] (P & OO & Z & L & ES & LB & C & O & SK). pose proof (nkept_shape W P) as SH.
    rewrite (sh_vs _ _ _ _ SH), nverts_length.
    destruct (Nat.ltb_spec (ne_cur en) nv) as [Hc|Hc].
    2:{ apply wp_ok. exists (nv, [], 0%Z, out). split.
        - split; [lia|]. do 3 (split; auto). split; [lia|]. split; auto. right. do 4 (split; auto).
        - unfold NWEnumDet.estep. destruct (Nat.leb_spec nv cur1); [lia|]. rewrite find_nothing; auto.
          intros y Hy. apply in_seq in Hy. apply SK. lia. }
    assert (SKN : starts (ne_cur en) = false -> forall v, cur1 + 1 <= v < ne_cur en + 1 -> starts v = false).
    { intros E v Hv. destruct (Nat.eq_dec v (ne_cur en)) as [->|]; auto. apply SK. lia. }
    destruct (nw_done a nv wt W0 mcs c0 G0 (ne_cur en) Hc) as (x & Hx).
    rewrite (nk_mcs _ _ _ _ _ P), (rd_some _ _ _ Hx). cbn [bind].
    pose proof (nth_error_nth _ _ 0%Z Hx) as Hx'.
    destruct (Z.ltb_spec x (ne_W en)) as [HM|HM].
    { apply wp_ok. unfold ne_advance. cbn [ne_W ne_cur ne_states ne_buf]. split; [|lia]. repeat (split; [solve [auto|lia]|]).
      apply SKN. unfold starts. rewrite Hx'. destruct (Z.leb_spec T x); [lia|reflexivity]. }
    destruct (HB (ne_cur en) Hc) as (R0 & R2 & R1).
    unfold ne_load_vertex. cbv zeta. rewrite (sh_vs _ _ _ _ SH), rd_vert by auto. cbn [bind].
    set (cur := ne_cur en) in *. set (w := words (rlen a cur)) in *.
    pose proof (w_pos a nv cur HC Hc) as WP.
    destruct (sp_spec a nv HS Hself cur Hc) as [Sp1 Sp2].
    assert (SP2 : c0 + 2 * w <= length (edge_bits (w_g W))).
    { rewrite (nk_len _ _ _ _ _ P). etransitivity; [|exact R1]. apply Nat.add_le_mono_l, Nat.mul_le_mono_r. lia. }
    apply wp_bind. apply wp_bind. eapply wp_mono; [apply (arena_root a nv cur c0 lr HC Hc (w_g W) mcs (mcs cur) SH C O SP2)|].
    intros [g1 st] (m1 & -> & M1 & M2 & M3 & -> & M5 & M6 & M7). cbn [s_cand].
    assert (P1 : nkept (set_wg W (set_cur (set_mem (w_g W) m1) (c0 + 2 * w)))) by (apply nkept_arena; auto).
    apply wp_bind.
    assert (EW : w_wt W = map wt (seq 0 nv)) by (rewrite (nk_wt _ _ _ _ _ P); apply G0).
    assert (ED : w_deg W = map (dgr a wt) (seq 0 nv)) by (rewrite (nk_deg _ _ _ _ _ P); apply G0).
    eapply wp_mono; [apply (nw_root_cands_spec a nv wt HC _ mcs cur (mcs cur) (blk a cur c0 lr 0) (ne_buf en) (length (ne_buf en))
      (nkept_shape _ P1) Hc EW ED eq_refl ltac:(rewrite LB; auto) M7)|].
    cbn [set_wg w_g set_cur set_mem edge_bits].
    intros [[m2 buf'] pot] (L1' & L2 & L3 & L4 & L5 & L6).
    rewrite EW, rd_mapseq by auto. cbn [bind].
    assert (LM2 : length m2 = length m1) by (destruct L3; lia).
    assert (Hcp := wcand_sp a nv wt HC cur Hc).
    assert (AR : arena a cur c0 lr (wcand a wt cur) B m2 (c0 + 2 * w) [(sp a cur, wcand a wt cur)]
       [mkS (sp a cur) 0 (refer_from (rp a cur c0 lr) (rlen a cur)) (refer_from (blk a cur c0 lr 0) (rlen a cur))]).
    { apply (arena_make a nv cur c0 lr HC Hc _ B Hcp m1); auto. rewrite M2, (nk_len _ _ _ _ _ P). auto. }
    assert (O2 : forall k, k < c0 -> nth k m2 0%N = nth k (edge_bits (w_g W)) 0%N).
    { intros k Hk. destruct L3 as [_ L3]. pose proof (blk_ge a nv cur c0 lr Hc 0). rewrite L3 by lia. apply M3. auto. }
    set (g2 := set_cur (set_mem (w_g W) m2) (c0 + 2 * w)).
    cbn [mkvert vN]. fold w.
    change (set_mem (set_cur (set_mem (w_g W) m1) (c0 + 2 * words (rlen a cur))) m2) with g2.
    assert (P2 : nkept (set_wg W g2)).
    { apply nkept_arena; auto. congruence. }
    assert (Q2 : outok (set_wg W g2) out).
    { apply outok_arena; auto. congruence. }
    cbn [mkvert vN]. fold w. rewrite Z.
    destruct (Z.ltb_spec (rnd (pot + wt cur)) T) as [HBd|HBd].
    - apply wp_bind. eapply wp_mono; [apply clear_memory_spec|].
      + exact L1'.
      + cbn [set_mem set_cur search_cur edge_bits]. fold w. lia.
      + cbn [set_mem set_cur search_cur edge_bits]. fold w.
        intros g' (m3 & -> & K1 & K2 & K3). replace (c0 + 2 * w - 2 * w) with c0 in * by lia. destruct K2 as [K2l K2].
        apply wp_ok. cbn [bind]. apply wp_ok. unfold ne_advance. cbn [ne_W ne_cur ne_states ne_buf]. split; [|lia].
        match goal with |- context [set_wg W ?x] => change (set_wg W x) with (set_wg W (set_cur (set_mem (w_g W) m3) c0)) end.
        split; [|split; [|split; [auto|split; [lia|split; [auto|split; [congruence|split; [auto|split]]]]]]].
        * apply nkept_arena; auto; [congruence|]. intros i Hi. rewrite K2 by lia. auto.
        * apply outok_arena; auto; [congruence|]. intros i Hi. rewrite K2 by lia. auto.
        * intros i Hi. cbn [set_wg w_g set_cur set_mem edge_bits]. destruct (Nat.lt_ge_cases i (c0 + 2 * w)); [apply K3; lia|].
          rewrite K2 by lia. apply (ar_zero _ _ _ _ _ _ _ _ _ _ AR). lia.
        * apply SKN. unfold starts. rewrite <- L6. destruct (Z.leb_spec T (rnd (pot + wt cur))); [lia|apply andb_false_r].
    - apply wp_ok. cbn [bind]. apply wp_ok. rewrite ES.
      exists (cur, [((sp a cur, wcand a wt cur), pot)], wt cur, out). split.
      + split; auto. split; auto. split; auto. cbn [ne_W ne_cur ne_states ne_buf ne_req ne_cw]. split; auto. split; [lia|]. split; [congruence|]. left.
        auto 10.
      + unfold NWEnumDet.estep. destruct (Nat.leb_spec nv cur1); [lia|]. fold starts.
        change (fun v => starts v) with starts.
        rewrite (find_skip starts (cur1 + 1) nv cur); [rewrite L6; auto|lia| |apply SK].
        unfold starts. rewrite Hx', <- L6. destruct (Z.leb_spec T x), (Z.leb_spec T (rnd (pot + wt cur))); auto; lia.
  Qed.

  (** What one call of process_graph does. *)
  Definition call_post (s : estate) (r : nwgraph * nenum * nat) : Prop :=
    let '(W, en, v) := r in exists s', follows W en s' /\ ereach s s'
      /\ ((1 <= v < nv /\ exists K, snd s' = (v, K) :: snd s /\ rep (edge_bits (w_g W)) (eb a v) (rlen a v) K) 
          \/ (nv <= v /\ snd s' = snd s /\ estep s' = None)).

  Lemma ne_turn_det s0 W en s : follows W en s -> ereach s0 s -> snd s = snd s0 ->
    wp (ne_turn rnd lr (W, en)) (fun r => match r with Cont (W', en') => exists s', follows W' en' s' /\ ereach s0 s' /\ snd s' = snd s0 | Done x => call_post s0 x end).
  Proof.
    destruct s as [[[cur fs] cw] out]. intros (EC & P & OO & Z & L & LB & X) RE EO. cbn [snd] in EO. unfold ne_turn.
    pose proof (nkept_shape W P) as SH. rewrite (sh_nv _ _ _ _ SH).
    destruct (Nat.ltb_spec (ne_cur en) nv) as [Hc|Hc].
    2:{ apply wp_ok. exists (cur, fs, cw, out). split; [repeat (split; [solve [auto]|]); auto|]. split; auto. right. split; auto. split; auto.
        unfold NWEnumDet.estep. destruct (Nat.leb_spec nv cur); [auto|lia]. }
    rewrite EC in Hc. destruct (HB cur Hc) as (R0 & R2 & R1).
    assert (Hbd' : forall K, rooted_by (wcand a wt cur) a cur K -> pclique a cur K -> card (rlen a cur) K <= B) by auto.
    destruct (ne_states en) as [|[st pot] rest] eqn:ES.
    - (* the next root *)
      assert (CL : wp (clear_memory (w_g W) (ne_req en)) (fun g' => nkept (set_wg W g') /\ outok (set_wg W g') out /\ search_cur g' = c0 /\ zero_from (edge_bits g') c0) /\ fs = []).
      { destruct X as [(_ & AR & X2 & X3 & X4 & X5)|(-> & X1 & X2 & X3 & X4 & X5)].
        - pose proof (finv_len _ _ _ _ _ _ _ _ (ar_fr _ _ _ _ _ _ _ _ _ _ AR)) as HL. destruct fs; [|discriminate].
          split; [|auto].
          rewrite X2. eapply wp_mono; [apply (arena_release a nv cur c0 lr HC Hc _ _ Hbd' (w_g W) [] [] AR)|].
          intros g' (m' & -> & M1 & M2 & M3 & M4). split; [apply nkept_arena; auto|]. split; [apply outok_arena; auto|]. split; auto.
        - destruct X4 as [X4|X4]; [|lia]. rewrite X4. unfold clear_memory. destruct (Nat.ltb_spec (search_cur (w_g W)) 0); [lia|].
          cbn [for_ Nat.sub foldM seq]. split; [|auto]. unfold for_. cbn [Nat.sub seq foldM bind]. apply wp_ok.
          replace (set_cur (set_mem (w_g W) (edge_bits (w_g W))) (search_cur (w_g W) - 0)) with (w_g W).
          + replace (set_wg W (w_g W)) with W by (destruct W; reflexivity). auto.
          + rewrite Nat.sub_0_r. destruct (w_g W); reflexivity. }
      destruct CL as (CL & ->).
      apply wp_bind. eapply wp_mono; [exact CL|]. intros g1 (P1 & Q1 & C1 & O1). subst cur.
      apply wp_bind. eapply wp_mono; [apply (ne_process_vertex_det (set_wg W g1) en cw out P1 Q1 Z L ES LB C1 O1 Hc)|].
      intros [W2 en2] (s2 & F2 & E2). apply wp_ok. exists s2. split; auto. split; [eapply re_step; eauto|].
      unfold NWEnumDet.estep in E2. destruct (nv <=? ne_cur en); [discriminate|]. destruct (find _ _); injection E2 as <-; auto.
    - (* a turn of the search *)
      destruct X as [(_ & AR & X2 & X3 & X4 & X5)|(_ & X1 & _)]; [|discriminate].
      destruct fs as [|[[id S0] p0] fs]; [discriminate|]. cbn [map fst snd] in AR, X3. injection X3 as -> X3.
      specialize (X5 ltac:(discriminate)). rewrite EC. cbv zeta.
      destruct (arena_top _ _ _ _ _ _ _ _ _ _ _ _ _ AR) as (T1 & T2 & T3 & T4 & T5).
      pose proof (len_pos a nv HS Hself cur Hc) as LP.
      rewrite (sh_vs _ _ _ _ SH), rd_vert by auto. cbn [bind].
      rewrite (bits_count_spec (edge_bits (w_g W)) (blk a cur c0 lr (length (map fst fs))) (rlen a cur) S0) by (auto; apply (ar_ok _ _ _ _ _ _ _ _ _ _ AR)).
      cbn [bind]. replace (set_wmem W (edge_bits (w_g W))) with W by (destruct W as [g ? ? ? ? ? ?]; destruct g; reflexivity).
      apply wp_bind. rewrite Z, X5.
      eapply wp_mono; [apply (ne_inner_det cur Hc id S0 fs st (map fst rest) pot W (mcs cur) (ne_buf en) cw out P OO AR X4)|].
      intros [[W2 st2] res] (P2 & H2).
      destruct res as [| |fu fp cw'].
      + destruct H2 as (S1 & AR2 & EM & OO2 & RE2). rewrite X2.
        pose proof (arena_pop a nv cur c0 lr HC Hc _ _ Hbd' (w_g W2) id S1 (map fst fs) st2 (map fst rest) AR2 EM) as POP. apply wp_bind_inv in POP.
        apply wp_bind. eapply wp_mono; [exact POP|]. clear POP. intros g3 POP. apply wp_bind_inv in POP.
        apply wp_bind. eapply wp_mono; [exact POP|]. clear POP. cbv beta. intros m3 POP. cbn [ends_with] in POP.
        destruct POP as (m' & E3 & L3 & O3 & AR3). rewrite E3.
        destruct (arena_top _ _ _ _ _ _ _ _ _ _ _ _ _ AR2) as (V1 & V2 & V3 & V4 & V5). rewrite V4.
        assert (RD : exists x, rd (ne_buf en) id = Ok x /\ (fs <> [] -> x = pw a wt cur id)).
        { pose proof (ar_fr _ _ _ _ _ _ _ _ _ _ AR2) as FR. destruct FR as (_ & (G1 & G2 & G3 & _) & _).
          destruct (nth_error (ne_buf en) id) as [x|] eqn:EN.
          - exists x. split; [apply rd_some; auto|]. intros NE. rewrite (X4 id G1) in EN; [congruence|]. apply G3. intros E. apply map_eq_nil in E. auto.
          - apply nth_error_None in EN. lia. }
        destruct RD as (x & -> & RX). cbn [bind]. apply wp_ok.
        exists (cur, fs, match fs with [] => 0%Z | _ => rnd (cw - pw a wt cur id) end, out). split; [|split; auto].
        * split; auto. split; [apply nkept_arena; auto; apply (ar_ok _ _ _ _ _ _ _ _ _ _ AR3)|]. split; [apply outok_arena; auto|].
          cbn [ne_W ne_cur ne_states ne_req ne_cw ne_buf]. split; auto. split; auto. split; auto. left. split; auto.
          split; [exact AR3|]. do 3 (split; auto). intros NE. destruct fs; [congruence|]. rewrite RX by auto. reflexivity.
        * eapply reach_trans; [exact RE|]. eapply re_step; [exact RE2|]. unfold NWEnumDet.estep. destruct (Nat.leb_spec nv cur); [lia|].
          rewrite find_nothing; auto. intros y Hy. apply in_seq in Hy. apply EM. lia.
      + destruct H2 as (S1 & K0 & AR2 & OO2 & RE2). apply wp_ok. exists (cur, ((id, S1), pot) :: fs, cw, (cur, K0) :: out). split; [|split].
        * split; auto. do 2 (split; auto). cbn [ne_W ne_cur ne_states ne_req ne_cw ne_buf map fst snd]. do 3 (split; auto). left. split; auto. split; [exact AR2|].
          split; auto. split; [congruence|]. auto.
        * eapply reach_trans; eauto.
        * left. split; [lia|]. exists K0. cbn [snd]. rewrite <- EO. split; auto. destruct OO2 as [_ OO2]. specialize (OO2 cur Hc).
          cbn [find fst] in OO2. rewrite Nat.eqb_refl in OO2. exact OO2.
      + destruct H2 as (j & S1 & S2 & AR2 & OO2 & RE2). apply wp_ok.
        exists (cur, ((j, S2), fp) :: ((id, S1), pot) :: fs, cw', out). split; [|split; auto].
        * split; auto. do 2 (split; auto). cbn [ne_W ne_cur ne_states ne_req ne_cw ne_buf map fst snd]. do 3 (split; auto). left. split; auto. split; [exact AR2|].
          split; auto. split; [congruence|]. auto.
        * eapply reach_trans; eauto.
  Qed.

  Lemma ne_process_graph_det W en s r : follows W en s -> ne_process_graph rnd lr W en = Ok r -> call_post s r.
  Proof.
    intros F. unfold ne_process_graph.
    apply (run_ok (ne_turn rnd lr) (fun '(W, en) => exists s', follows W en s' /\ ereach s s' /\ snd s' = snd s)).
    - intros [W1 en1] (s1 & F1 & R1 & E1). eapply wp_mono; [apply (ne_turn_det s W1 en1 s1 F1 R1 E1)|]. intros [[W2 en2]|x]; auto.
    - exists s. split; auto. split; auto. constructor.
  Qed.
  End Run.

  (** At the end of the machine the graph is determined. *)
  Lemma follows_end lr lr' W W' en en' s : follows lr W en s -> follows lr' W' en' s -> estep s = None -> W = W'.
  Proof.
    destruct s as [[[cur fs] cw] out]. intros (_ & P & [[RK1 RK2] R] & _ & _ & _ & X) (_ & P' & [[RK1' RK2'] R'] & _ & _ & _ & X') E.
    assert (Hc : nv <= cur).
    { unfold NWEnumDet.estep in E. destruct (Nat.leb_spec nv cur); auto. destruct fs as [|[[id S0] p] fs].
      - destruct (find _ _); discriminate.
      - destruct (find _ _); [|discriminate]. cbv zeta in E. destruct (T <=? _)%Z; [destruct (T <=? _)%Z|]; discriminate. }
    destruct X as [(X & _)|(_ & _ & Q & Z & _)]; [lia|]. destruct X' as [(X' & _)|(_ & _ & Q' & Z' & _)]; [lia|].
    assert (ME : edge_bits (w_g W) = edge_bits (w_g W')).
    { apply mem_ext; [rewrite (nk_len _ _ _ _ _ P), (nk_len _ _ _ _ _ P'); auto|]. intros k.
      destruct (Nat.lt_ge_cases k c0) as [Hk|Hk]; [|rewrite Z, Z' by auto; auto].
      destruct (Nat.lt_ge_cases k (eb a nv)) as [Hk1|Hk1]; [|rewrite (nk_low _ _ _ _ _ P), (nk_low _ _ _ _ _ P') by lia; auto].
      assert (BL : exists v, v < nv /\ in_block a v k).
      { clear -Hk1. induction nv as [|n IH]; [cbn in Hk1; lia|]. destruct (Nat.lt_ge_cases k (eb a n)) as [H|H].
        - destruct (IH H) as (v & Hv & B). exists v. split; auto.
        - exists n. split; auto. unfold in_block. rewrite eb_S in Hk1. lia. }
      destruct BL as (v & Hv & BL). specialize (R v Hv). specialize (R' v Hv).
      destruct (find (fun x => fst x =? v) out) as [[u K]|].
      - apply (rep_word _ _ (eb a v) (rlen a v) K); auto; [apply (nk_mem _ _ _ _ _ P)|apply (nk_mem _ _ _ _ _ P')].
      - rewrite R, R' by auto. auto. }
    assert (GE : w_g W = w_g W').
    { pose proof (nk_core _ _ _ _ _ P) as C. pose proof (nk_core _ _ _ _ _ P') as C'. rewrite <- C' in C.
      pose proof (nk_vs _ _ _ _ _ P) as V. pose proof (nk_vs _ _ _ _ _ P') as V'. rewrite <- V' in V.
      rewrite <- Q' in Q. rewrite <- RK1' in RK1. rewrite <- RK2' in RK2. clear -C V Q RK1 RK2 ME. unfold core in C. destruct (w_g W), (w_g W'). cbn in *. inversion C. subst. reflexivity. }
    destruct P as [_ _ Y1 Y2 Y3 Y4 Y5 Y6 _ _ _ _], P' as [_ _ Y1' Y2' Y3' Y4' Y5' Y6' _ _ _ _].
    clear -GE Y1 Y2 Y3 Y4 Y5 Y6 Y1' Y2' Y3' Y4' Y5' Y6'. destruct W, W'. cbn in *. congruence.
  Qed.
End Enum.
