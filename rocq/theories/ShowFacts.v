(** ShowFacts: lemmas for C111. *)
From Verif Require Import Base MBits MUtils MGraph MHeur MStack MRec MEnum MApi MShow Spec SpecShow SpecBits BaseFacts BitsFacts SetFacts SortFacts RowFacts ConstructFacts CardFacts LoadFacts SearchBase FrameFacts StackFacts RecFacts HeurFacts SearchFacts CliqueFacts ApiFacts EnumApi SearchProps SpecNW SpecOrder SpecFirst FirstFacts.
Local Open Scope nat_scope.

Lemma for_snoc {A B} (n : nat) (f : nat -> list A -> outcome (list A)) (h : nat -> B) (k : B -> list A) :
  (forall i l, i < n -> f i l = Ok (l ++ k (h i))) -> for_ 0 n f [] = Ok (flat_map (fun i => k (h i)) (seq 0 n)).
Proof.
  intros H. unfold for_. rewrite Nat.sub_0_r. assert (X : forall j s, s + j = n -> forall l, foldM f (seq s j) l = Ok (l ++ flat_map (fun i => k (h i)) (seq s j))).
  { induction j as [|j IH]; intros s E l; cbn [seq foldM flat_map]; [rewrite app_nil_r; reflexivity|]. rewrite H by lia. cbn [bind].
    rewrite IH by lia. rewrite app_assoc. reflexivity. }
  rewrite X by lia. reflexivity.
Qed.

Lemma flat_single {A B} (f : A -> B) l : flat_map (fun x => [f x]) l = map f l.
Proof. induction l; cbn; congruence. Qed.

Lemma flat_filter {A B} (p : A -> bool) (f : A -> B) l : flat_map (fun x => if p x then [f x] else []) l = map f (filter p l).
Proof. induction l as [|x l IH]; cbn; [reflexivity|]. destruct (p x); cbn; congruence. Qed.

Lemma set_mem_id g : set_mem g (edge_bits g) = g.
Proof. destruct g. reflexivity. Qed.

Lemma show_bits_spec m off n P : memok m -> rep m off n P -> 0 < n ->
  show_bits m (refer_from off n) = Ok (m, map (fun i => Bit (P i)) (seq 0 n) ++ [Count (card n P) n]).
Proof.
  intros M R L. unfold show_bits. cbn [refer_from glen].
  rewrite (for_snoc n _ P (fun x => [Bit x])); [|intros i l I; rewrite (bits_get_spec m off n P _ i R) by auto; reflexivity]. cbn [bind].
  rewrite (bits_count_spec m off n P _ M R eq_refl L). cbn [bind]. rewrite flat_single. reflexivity.
Qed.

Lemma show_elements_spec m off n P elems base : memok m -> rep m off n P -> 0 < n -> base + n <= length elems ->
  show_elements m (refer_from off n) elems base = Ok (m, map (fun i => Num (nth (base + i) elems 0)) (sel n P) ++ [Count (card n P) n]).
Proof.
  intros M R L E. unfold show_elements. cbn [refer_from glen].
  rewrite (for_snoc n _ (fun i => i) (fun i => if P i then [Num (nth (base + i) elems 0)] else [])).
  - cbn [bind]. rewrite (bits_count_spec m off n P _ M R eq_refl L). cbn [bind]. rewrite flat_filter. reflexivity.
  - intros i l I. rewrite (bits_get_spec m off n P _ i R) by auto. cbn [bind]. destruct (P i); [|rewrite app_nil_r; reflexivity].
    rewrite (rd_some elems (base + i) (nth (base + i) elems 0)) by (apply nth_error_nth'; lia). reflexivity.
Qed.

Lemma seq_increasing k : forall s, StronglySorted lt (seq s k).
Proof. induction k as [|k IH]; intros s; cbn; constructor; auto. apply Forall_forall. intros x X. apply in_seq in X. lia. Qed.

Section Gra.
  Variables (a : pairs) (n : nat) (adj : nat -> nat -> Prop).
  Hypothesis GR : gra a n adj.
  Notation nv := (n + 1).
  Let HC := gra_ctx a n adj GR.
  Let HS := gc_sorted _ _ HC.
  Let Hself := gc_self _ _ HC.

  Definition coded (v : nat) (K : nat -> bool) : list nat := map (fun p => nbr a v p) (members (rlen a v) K).

  Lemma row_bits v K : v < nv -> map (fun i => Bit (K i)) (seq 0 (rlen a v)) = map (fun x => Bit (existsb (Nat.eqb x) (coded v K))) (row a v).
  Proof.
    intros V. transitivity (map (fun x => Bit (existsb (Nat.eqb x) (coded v K))) (map (fun i => nbr a v i) (seq 0 (rlen a v)))).
    - rewrite map_map. apply map_ext_in. intros i I. apply in_seq in I. f_equal. symmetry. destruct (K i) eqn:E.
      + apply existsb_exists. exists (nbr a v i). split; [|apply Nat.eqb_refl]. apply in_map_iff. exists i. split; [reflexivity|].
        apply filter_In. split; [apply in_seq; lia|exact E].
      + destruct (existsb _ _) eqn:X; [|reflexivity]. apply existsb_exists in X. destruct X as (y & Y & Z). apply Nat.eqb_eq in Z. subst y.
        apply in_map_iff in Y. destruct Y as (j & J & F). apply filter_In in F. destruct F as [F1 F2]. apply in_seq in F1.
        apply (nbr_inj a nv HC v) in J; [|lia|lia]. congruence.
    - f_equal. apply nth_ext with (d := 0) (d' := 0); [rewrite map_length, seq_length; reflexivity|].
      intros i I. rewrite map_length, seq_length in I. rewrite (nth_indep _ 0 (nbr a v 0)) by (rewrite map_length, seq_length; lia).
      rewrite (map_nth (fun i => nbr a v i)), seq_nth by lia. reflexivity.
  Qed.

  Lemma vertex_disp_spec g mcs v K : shape a nv g mcs -> v < nv -> rep (edge_bits g) (eb a v) (rlen a v) K ->
    vertex_disp g v (mkvert a (mcs v) v) = Ok (g, if (rlen a v <=? 1) || (mcs v <=? 1) then [] else lines v (row a v) (coded v K),
                                                if (rlen a v <=? 1) || (mcs v <=? 1) then [] else row a v).
  Proof.
    intros SH V R. unfold vertex_disp. cbn [mkvert vN vmcs velo vbits]. destruct (_ || _); [reflexivity|].
    pose proof (len_pos a nv HS Hself v V) as LP.
    rewrite (for_snoc (rlen a v) _ (fun i => nbr a v i) (fun x => [x])).
    2:{ intros i l I. rewrite (sh_el _ _ _ _ SH), (rd_el a nv HC) by auto. reflexivity. }
    cbn [bind]. unfold live. rewrite (sh_live _ _ _ _ SH). cbn [bind].
    rewrite (show_bits_spec _ _ _ K (sh_mem _ _ _ _ SH) R LP). cbn [bind]. rewrite set_mem_id.
    rewrite (sh_el _ _ _ _ SH), (show_elements_spec _ _ _ K _ _ (sh_mem _ _ _ _ SH) R LP) by (apply (row_end a nv); auto).
    cbn [bind]. rewrite set_mem_id, flat_single, (row_bits v K V).
    assert (EC : card (rlen a v) K = length (coded v K)) by (unfold coded; rewrite map_length; reflexivity).
    assert (EN : map (fun i => Num (nth (off a v + i) (map snd a) 0)) (sel (rlen a v) K) = map Num (coded v K)).
    { unfold coded. rewrite map_map. apply map_ext_in. intros p I. apply filter_In in I. destruct I as [I _]. apply in_seq in I. f_equal. apply (ent_row a nv HC). lia. }
    rewrite EC, EN. unfold lines, clique_lines. f_equal. f_equal; [f_equal; f_equal; f_equal; rewrite <- app_assoc; reflexivity|].
    apply nth_ext with (d := 0) (d' := 0); [rewrite map_length, seq_length; reflexivity|].
    intros i I. rewrite map_length, seq_length in I. rewrite (nth_indep _ 0 (nbr a v 0)) by (rewrite map_length, seq_length; lia).
    rewrite (map_nth (fun i => nbr a v i)), seq_nth by lia. reflexivity.
  Qed.

  (** The vertices shown, with the cliques stored for them. *)
  Lemma graph_disp_spec g mcs : shape a nv g mcs -> (forall k, k < nv -> exists K, rep (edge_bits g) (eb a k) (rlen a k) K /\ rooted a k K /\ pclique a k K) ->
    exists L, graph_disp g = Ok (g, flat_map (fun x => lines (fst x) (row a (fst x)) (snd x)) L, flat_map (fun x => row a (fst x)) L)
      /\ map fst L = filter (fun v => negb ((rlen a v <=? 1) || (mcs v <=? 1))) (seq 0 nv)
      /\ forall v c, In (v, c) L -> v < nv /\ exists K, rep (edge_bits g) (eb a v) (rlen a v) K /\ rooted a v K /\ pclique a v K /\ c = coded v K.
  Proof.
    intros SH ST. unfold graph_disp, for_. rewrite (sh_nv _ _ _ _ SH), Nat.sub_0_r.
    match goal with |- context [foldM ?f _ _] => set (F := f) end.
    assert (X : forall j s, s + j = nv -> forall out err, exists L,
      foldM F (seq s j) (g, out, err) = Ok (g, out ++ flat_map (fun x => lines (fst x) (row a (fst x)) (snd x)) L, err ++ flat_map (fun x => row a (fst x)) L)
      /\ map fst L = filter (fun v => negb ((rlen a v <=? 1) || (mcs v <=? 1))) (seq s j)
      /\ forall v c, In (v, c) L -> v < nv /\ exists K, rep (edge_bits g) (eb a v) (rlen a v) K /\ rooted a v K /\ pclique a v K /\ c = coded v K).
    { induction j as [|j IH]; intros s E out err; cbn [seq foldM].
      - exists []. cbn. rewrite !app_nil_r. split; [reflexivity|]. split; [reflexivity|]. tauto.
      - destruct (ST s ltac:(lia)) as (K & K1 & K2 & K3).
        assert (FE : F s (g, out, err) = Ok (g, out ++ (if (rlen a s <=? 1) || (mcs s <=? 1) then [] else lines s (row a s) (coded s K)),
                                               err ++ (if (rlen a s <=? 1) || (mcs s <=? 1) then [] else row a s))).
        { unfold F. rewrite (sh_vs _ _ _ _ SH), rd_vert by lia. cbn [bind]. rewrite (vertex_disp_spec g mcs s K SH ltac:(lia) K1). reflexivity. }
        rewrite FE. cbn [bind].
        destruct (IH (S s) ltac:(lia) (out ++ (if (rlen a s <=? 1) || (mcs s <=? 1) then [] else lines s (row a s) (coded s K)))
                    (err ++ (if (rlen a s <=? 1) || (mcs s <=? 1) then [] else row a s))) as (L & E1 & E2 & E3).
        rewrite E1. cbn [filter]. destruct ((rlen a s <=? 1) || (mcs s <=? 1)); cbn [negb].
        + exists L. rewrite !app_nil_r. auto.
        + exists ((s, coded s K) :: L). cbn [map flat_map fst snd]. rewrite !app_assoc. split; [reflexivity|]. split; [congruence|].
          intros v c [I|I]; [|apply E3; exact I]. injection I as <- <-. split; [lia|]. exists K. auto. }
    destruct (X nv 0 eq_refl [] []) as (L & E1 & E2 & E3). exists L. auto.
  Qed.

  Lemma coded_self v K : v < nv -> rooted a v K -> In v (coded v K).
  Proof.
    intros V [R _]. destruct (sp_spec a nv HS Hself v V) as [S1 S2]. apply in_map_iff. exists (sp a v). split; [exact S2|].
    apply filter_In. split; [apply in_seq; lia|exact R].
  Qed.

  Lemma row_members v x : 1 <= v < nv -> In x (row a v) <-> x = v \/ adj v x.
  Proof.
    intros V. rewrite row_in, (gr_in _ _ _ GR). split; [intros (_ & _ & [E|E]); auto|]. intros [->|A]; [split; [lia|split; [lia|auto]]|].
    destruct (gr_simple _ _ _ GR v x A) as (A' & _ & _). destruct (gr_simple _ _ _ GR x v A') as (_ & _ & R). split; [lia|]. split; [lia|auto].
  Qed.

  Lemma row_more v : 1 <= v < nv -> 2 <= rlen a v -> exists u, adj v u.
  Proof.
    intros V L. pose proof (row_sorted a v HS) as SS. destruct (row a v) as [|x [|y l]] eqn:E; cbn in L; try lia.
    assert (x <> y). { apply StronglySorted_inv in SS. destruct SS as [_ F]. rewrite Forall_forall in F. specialize (F y (or_introl eq_refl)). lia. }
    pose proof (proj1 (row_members v x V) ltac:(rewrite E; cbn; auto)) as [X|X]; [|exists x; exact X].
    pose proof (proj1 (row_members v y V) ltac:(rewrite E; cbn; auto)) as [Y|Y]; [congruence|exists y; exact Y].
  Qed.

  Lemma disp_inv g mcs : shape a nv g mcs -> (forall k, k < nv -> exists K, rep (edge_bits g) (eb a k) (rlen a k) K /\ rooted a k K /\ pclique a k K) ->
    exists row L, graph_disp g = Ok (g, flat_map (fun x => lines (fst x) (row (fst x)) (snd x)) L, flat_map (fun x => row (fst x)) L)
      /\ StronglySorted lt (map fst L)
      /\ forall v c, In (v, c) L -> 1 <= v <= n /\ (exists u, adj v u) /\ StronglySorted lt (row v) /\ (forall x, In x (row v) <-> x = v \/ adj v x)
           /\ clique n adj c /\ In v c.
  Proof.
    intros SH ST. destruct (graph_disp_spec g mcs SH ST) as (L & E1 & E2 & E3). exists (row a), L. split; [exact E1|]. split; [rewrite E2; apply filter_sorted; clear|].
    - apply seq_increasing.
    - intros v c I. destruct (E3 v c I) as (V & K & K1 & K2 & K3 & ->).
      assert (M : In v (map fst L)) by (apply in_map_iff; exists (v, coded v K); auto). rewrite E2 in M. apply filter_In in M. destruct M as [_ M].
      apply negb_true_iff, orb_false_iff in M. destruct M as [M _]. apply Nat.leb_gt in M.
      assert (V1 : 1 <= v) by (destruct v; [rewrite (gra_len0 a n adj GR) in M; lia|lia]).
      split; [lia|]. split; [apply row_more; lia|]. split; [apply row_sorted; exact HS|]. split; [intros x; apply row_members; lia|].
      split; [apply rooted_clique; auto; lia|apply coded_self; auto].
  Qed.
End Gra.

Lemma disp_history p n adj q : made p n adj -> has_edge adj -> storage_live p -> history p q ->
  exists g row L, p_G q = Some g /\ graph_disp g = Ok (g, flat_map (fun x => lines (fst x) (row (fst x)) (snd x)) L, flat_map (fun x => row (fst x)) L)
    /\ StronglySorted lt (map fst L)
    /\ forall v c, In (v, c) L -> 1 <= v <= n /\ (exists u, adj v u) /\ StronglySorted lt (row v) /\ (forall x, In x (row v) <-> x = v \/ adj v x)
         /\ clique n adj c /\ In v c.
Proof.
  intros M HE LV H. destruct (made_hinv p n adj M HE LV) as (a & cap & m & g & GR & B & -> & _ & _ & _ & _ & _ & HI & _).
  pose proof (has_edge_n a n adj GR HE) as Hn. destruct (history_hinv a n adj GR _ q Hn HI H) as (h & mcs & m' & cur & fin & -> & G & _).
  destruct (disp_inv a n adj GR h mcs (go_shape _ _ _ _ _ (proj1 G))) as (row & L & R).
  - intros k Hk. destruct (go_bits _ _ _ _ _ (proj1 G) k Hk) as (s & K & K1 & K2 & K3 & _). eauto.
  - exists h, row, L. split; [reflexivity|exact R].
Qed.

Lemma rep_agree m off n P Q i : rep m off n P -> rep m off n Q -> i < n -> P i = Q i.
Proof.
  intros HP HQ H. pose proof (bits_get_spec m off n P (refer_from off n) i HP eq_refl H) as E1.
  pose proof (bits_get_spec m off n Q (refer_from off n) i HQ eq_refl H) as E2. congruence.
Qed.

Lemma members_single n x : x < n -> members n (fun i => i =? x) = [x].
Proof.
  intros H. pose proof (card_single n x) as C. destruct (Nat.ltb_spec x n); [|lia]. unfold card in C.
  destruct (members n (fun i => i =? x)) as [|y [|z l]] eqn:E; try discriminate C. f_equal.
  assert (I : In y (members n (fun i => i =? x))) by (rewrite E; left; reflexivity). apply filter_In in I. apply Nat.eqb_eq, I.
Qed.

Lemma flat_pairs {A B C} (f : A * B -> list C) (b : A -> B) L : (forall v c, In (v, c) L -> c = b v) ->
  flat_map f L = flat_map (fun v => f (v, b v)) (map fst L).
Proof.
  induction L as [|[v c] L IH]; intros H; cbn; [reflexivity|]. rewrite IH by (intros; apply H; right; auto). rewrite (H v c) by (left; auto). reflexivity.
Qed.

Lemma disp_fresh p n adj : made p n adj -> has_edge adj -> storage_live p ->
  exists g row vs, p_G p = Some g /\ graph_disp g = Ok (g, flat_map (fun v => lines v (row v) [v]) vs, flat_map row vs)
    /\ StronglySorted lt vs /\ (forall v, In v vs <-> exists u, adj v u /\ comes_after adj v u)
    /\ forall v, In v vs -> StronglySorted lt (row v) /\ (forall x, In x (row v) <-> x = v \/ adj v x).
Proof.
  intros M HE LV. destruct (made_hinv p n adj M HE LV) as (a & cap & m & g & GR & B & -> & _ & G & _ & _ & _ & _ & _).
  pose proof (gra_ctx a n adj GR) as HC. pose proof (gc_sorted _ _ HC) as HS. pose proof (gc_self _ _ HC) as Hself.
  destruct (graph_disp_spec a n adj GR g (bound a) (go_shape _ _ _ _ _ (proj1 G))) as (L & E1 & E2 & E3).
  { intros k Hk. destruct (go_bits _ _ _ _ _ (proj1 G) k Hk) as (s & K & K1 & K2 & K3 & _). eauto. }
  assert (EC : forall v c, In (v, c) L -> c = [v]).
  { intros v c I. destruct (E3 v c I) as (V & K & K1 & _ & _ & ->). destruct (sp_spec a (n + 1) HS Hself v V) as [S1 S2].
    unfold coded. replace (members (rlen a v) K) with [sp a v]; [cbn; rewrite S2; reflexivity|].
    rewrite <- (members_single (rlen a v) (sp a v) S1). apply filter_ext_in. intros i J. apply in_seq in J.
    apply (rep_agree _ _ _ _ _ i (b_rep _ _ _ _ B v V) K1). lia. }
  assert (EV : forall v, In v (map fst L) <-> exists u, adj v u /\ comes_after adj v u).
  { intros v. rewrite E2, filter_In, in_seq, negb_true_iff, orb_false_iff, !Nat.leb_gt, (bound_card a v). split.
    - intros (V & L1 & L2). assert (V1 : 1 <= v) by (destruct v; [rewrite (gra_len0 a n adj GR) in L1; lia|lia]).
      assert (C : 0 < card (rlen a v) (candp a v)) by lia. apply card_pos in C. destruct C as (i & I & C). unfold candp in C. exists (nbr a v i).
      assert (IR : In (nbr a v i) (row a v)) by (apply nth_In; exact I).
      assert (NL : nbr a v i < n + 1) by (apply (nb_lt a (n + 1) (gc_b _ _ HC) v); exact IR).
      apply (row_members a n adj GR v _ ltac:(lia)) in IR. split; [|apply (before_after a n adj GR v _ ltac:(lia) NL); exact C].
      destruct IR as [IR|IR]; [|exact IR]. exfalso. rewrite IR, before_irrefl in C. discriminate.
    - intros (u & A & CA). destruct (gr_simple _ _ _ GR v u A) as (A' & NE & V). destruct (gr_simple _ _ _ GR u v A') as (_ & _ & U).
      assert (IR : In u (row a v)) by (apply (row_members a n adj GR v u ltac:(lia)); auto). apply In_nth with (d := 0) in IR. destruct IR as (i & I & EI).
      apply (before_after a n adj GR v u ltac:(lia) ltac:(lia)) in CA.
      assert (C : 0 < card (rlen a v) (candp a v)) by (apply card_pos; exists i; split; [exact I|unfold candp; rewrite EI; exact CA]).
      destruct (sp_spec a (n + 1) HS Hself v ltac:(lia)) as [S1 S2]. assert (i <> sp a v) by congruence. change (length (row a v)) with (rlen a v) in I. lia. }
  exists g, (row a), (map fst L). split; [reflexivity|]. split.
  { rewrite E1. rewrite (flat_pairs (fun x => lines (fst x) (row a (fst x)) (snd x)) (fun v => [v]) L EC).
    rewrite (flat_pairs (fun x => row a (fst x)) (fun v => [v]) L EC). reflexivity. }
  split; [rewrite E2; apply filter_sorted, seq_increasing|]. split; [exact EV|].
  intros v I. pose proof (proj1 (EV v) I) as (u & A & _). destruct (gr_simple _ _ _ GR v u A) as (_ & _ & V).
  split; [apply row_sorted; exact HS|]. intros x. apply (row_members a n adj GR); lia.
Qed.
